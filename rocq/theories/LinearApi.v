(** * LinearApi: memory accesses of the calls that run over a whole container.
    Proof infrastructure (the statements are in PropsTime.v). *)
From Verif Require Export Linear.
From stdpp Require Import options.
Set Default Proof Using "Type*".

Section api.
Context {T : Type} {C : cfg T} {OK : cfg_ok C}.
Implicit Types σ : sst T.
Implicit Types ρ : env.
Implicit Types o : option (tree T).
Implicit Types τ : gmap nat (option (tree T) * nat).
Implicit Types it : iterator_data.
Notation L := (L (C:=C)).
Notation fpot := (fpot (T:=T)).

Hint Resolve a_pred_tick a_erase_range a_whole_range a_copy_assign_alloc a_assign_range a_assign_count a_peek : eff.
Hint Resolve karr_coarser karr_allows eff_read_slot eff_get_root eff_get_size eff_get_height eff_get_element_allocator eff_get_node_allocator
  eff_find_index eff_find_first eff_find_last eff_find_end : eff.
Ltac karr := repeat first
    [ progress intros
    | solve [auto with eff typeclass_instances]
    | apply eff_bind; [apply _| |]
    | match goal with |- Effects.eff _ (match ?x with _ => _ end) => destruct x end ].
Ltac any_go := repeat first
  [ apply any_ret | apply any_fail | apply any_deref | apply any_lookup | apply any_gets | apply any_get_size | apply any_get_root
  | apply any_get_height | apply any_set_size | apply any_set_height | apply any_assign_value | apply any_place | apply any_load_seq
  | apply any_get | apply any_set | eapply any_bind; [|intros ?] ].
Ltac tvars :=
  repeat (first
    [ match goal with H : e_cont ?ρ !! ?x = Some ?l |- context [getc ?ρ ?x] =>
        rewrite (getc_ok ρ x l H) end
    | match goal with H : e_iter ?ρ !! ?w = Some ?it |- context [geti ?ρ ?w] =>
        rewrite (geti_ok ρ w it H) end]);
  rewrite ?ret_bind.
Ltac sizes := repeat match goal with
  | H : contents ?σ ?x = oelems ?o |- context [length (contents ?σ ?x)] => rewrite H; change (length (oelems o)) with (osize o)
  end.
Ltac start2 Hne Ht Hl Ht0 Hl0 :=
  iEval (rewrite (rep_take2 _ _ _ _ _ _ _ _ _ _ Hne Ht Hl Ht0 Hl0)) in "Hr"; iDestruct "Hr" as "(Hs & Hs2 & Hr)".
Ltac last_ := iApply (tk_tail _ 0); [intros ?; any_go|rewrite Nat.add_0_r; done|].

(** ** remove, unique, reverse *)
Section one.
Context (a : nat) (this : loc).
Notation seqp := (seqp (C:=C) a a this).
Lemma tk_begin o N {B} (f : iterator_data → M T B) X : osize o ≤ N →
  seqp o -∗ (∀ it, ⌜it_ok o it ∧ i_pos it = 0⌝ → seqp o -∗ tk X (f it)) -∗ tk (8 * L N + X) (begin_ this ≫= f).
Proof.
  iIntros (HN) "Hs Hf". pose proof (L_mono (C:=C) _ _ HN). iApply (tk_step (8 * L N) X); [lia|unfold begin_; karr|]. iSplit.
  { iApply (tk_mono (8 * L (osize o))); [lia|]. by iApply (tk_find_first with "Hs"). }
  iApply (wp_find_first with "Hs"). iIntros (it Hit) "Hs". by iApply ("Hf" with "[//]").
Qed.
Lemma tk_end o N {B} (f : iterator_data → M T B) X : osize o ≤ N →
  seqp o -∗ (∀ it, ⌜it_ok o it ∧ i_pos it = osize o⌝ → seqp o -∗ tk X (f it)) -∗ tk (8 * L N + X) (end_ this ≫= f).
Proof.
  iIntros (HN) "Hs Hf". pose proof (L_mono (C:=C) _ _ HN). iApply (tk_step (8 * L N) X); [lia|unfold end_; karr|]. iSplit.
  { iApply (tk_mono (8 * L (osize o))); [lia|]. by iApply (tk_find_end with "Hs"). }
  iApply (wp_find_end with "Hs"). iIntros (it Hit) "Hs". by iApply ("Hf" with "[//]").
Qed.
Lemma tk_erase_tail o it N : it_ok o it → osize o ≤ N →
  seqp o -∗ tk ((osize o - i_pos it) * (72 * L N) + 8 * L N) (l ← end_ this; erase_between this it l;; mret ()).
Proof.
  iIntros (Hit HN) "Hs". pose proof (it_ok_le _ _ Hit). rewrite Nat.add_comm. iApply (tk_end with "Hs"); [done|]. iIntros (l [Hl Hpl]) "Hs".
  iApply tk_pre; [intros; apply any_ret|unfold erase_between; karr|]. rewrite /erase_between.
  iDestruct (tk_erase_range _ _ _ it l N with "Hs") as "H"; [done|lia|done|]. by rewrite Hpl.
Qed.
Lemma kept_pos o it ys : it_ok o it → take (i_pos it) (oelems o) = ys → i_pos it = length ys.
Proof. intros Hit <-. pose proof (it_ok_le _ _ Hit). rewrite take_length. unfold osize in *. lia. Qed.
Lemma tk_remove_gen o p b R :
  pred_spec p b R → (∀ v, any 1 (p v)) → (∀ v, eff karr (p v)) →
  seqp o -∗ R -∗
  tk (47 * osize o + (osize o - length (remove_list b (oelems o))) * (72 * L (osize o)) + 40 * L (osize o))
    (f ← begin_ this; l ← end_ this; f ← std_remove_if f l p; l ← end_ this; erase_between this f l;; mret ()).
Proof.
  iIntros (Hp Hany Heff) "Hs HR". set (n := osize o). set (m := n - length (remove_list b (oelems o))).
  iApply (tk_mono (8 * L n + (8 * L n + (47 * n + 16 * lg n + (m * (72 * L n) + 8 * L n))))).
  { pose proof (lg_L (C:=C) n). lia. }
  iApply (tk_begin with "Hs"); [done|]. iIntros (f [Hf Hpf]) "Hs". iApply (tk_end with "Hs"); [done|]. iIntros (l [Hl Hpl]) "Hs".
  iApply (tk_step (47 * n + 16 * lg n) (m * (72 * L n) + 8 * L n)); [done|by apply a_std_remove_if|].
  iSplit; [by iApply (tk_remove_if with "Hs HR")|].
  iApply (wp_std_remove_if with "Hs HR"); [done..|]. iSplit; [|iIntros; done]. iIntros (o' it (Hsh & Hit & He)) "Hs HR".
  assert (osize o' = osize o) as Hsz by by apply oshape_osize. pose proof (kept_pos _ _ _ Hit He) as Hk.
  iDestruct (tk_erase_tail _ it n with "Hs") as "H"; [done|by rewrite Hsz|]. by rewrite Hsz Hk.
Qed.
Lemma tk_unique_ o (p : T → T → bool) :
  seqp o -∗ tk (47 * osize o + (osize o - length (unique_list p (oelems o))) * (72 * L (osize o)) + 40 * L (osize o)) (unique this p).
Proof.
  iIntros "Hs". set (n := osize o). set (m := n - length (unique_list p (oelems o))).
  iApply (tk_mono (8 * L n + (8 * L n + (47 * n + 16 * lg n + (m * (72 * L n) + 8 * L n))))).
  { pose proof (lg_L (C:=C) n). lia. }
  rewrite /unique. iApply (tk_begin with "Hs"); [done|]. iIntros (f [Hf Hpf]) "Hs". iApply (tk_end with "Hs"); [done|]. iIntros (l [Hl Hpl]) "Hs".
  iApply (tk_step (47 * n + 16 * lg n) (m * (72 * L n) + 8 * L n)); [done|by apply a_std_unique|].
  iSplit; [by iApply (tk_unique with "Hs")|].
  iApply (wp_std_unique with "Hs"); [done..|]. iSplit; [|iIntros; done]. iIntros (o' it (Hsh & Hit & He)) "Hs".
  assert (osize o' = osize o) as Hsz by by apply oshape_osize. pose proof (kept_pos _ _ _ Hit He) as Hk.
  iDestruct (tk_erase_tail _ it n with "Hs") as "H"; [done|by rewrite Hsz|]. by rewrite Hsz Hk.
Qed.
Lemma tk_reverse_ o : seqp o -∗ tk (35 * osize o + 40 * L (osize o)) (reverse_ (C:=C) this).
Proof.
  iIntros "Hs". set (n := osize o).
  iApply (tk_mono (8 * L n + (8 * L n + (35 * n + 14 + 8 * lg n)))).
  { pose proof (lg_L (C:=C) n). pose proof (un_L (C:=C) n). lia. }
  rewrite /reverse_. iApply (tk_begin with "Hs"); [done|]. iIntros (f [Hf Hpf]) "Hs". iApply (tk_end with "Hs"); [done|]. iIntros (l [Hl Hpl]) "Hs".
  by iApply (tk_std_reverse with "Hs").
Qed.
End one.

Notation cost k m n := (50 * k + 200 * ((m + 1) * L n)).
Lemma effort_Remove σ ρ x s eq v :
  pre C σ (Remove x s eq) → arg_value σ s = Some v →
  R (C:=C) σ ρ ⊢ tk (cost (length (contents σ x)) (length (contents σ x) - length (remove_list (λ u, eq u v) (contents σ x))) (length (contents σ x)))
    (exec_call (Remove x s eq) ρ).
Proof.
  intros (Hx & [v' Hv'] & Hout) Hv. rewrite Hv in Hv'. injection Hv' as <-.
  iIntros "HR". iDestruct "HR" as (τ Ha) "Hr". open_live Ha Hx o a l.
  destruct (peek_const _ _ _ _ _ _ Ha Hv Hout) as (vs & Hg & Hsrc).
  cbn [exec_call]. rewrite Hg. tvars. take_ Ht Hl. last_. rewrite /remove.
  iDestruct (tk_remove_gen _ _ _ (λ u, w ← peek vs; pred_tick;; mret (eq u w)) (λ u, eq u v) with "Hs Hr") as "H".
  - intros u Q' E'. iIntros "HR HQ". wp_bind. iApply (Hsrc with "HR"). iIntros "HR". wp_bind. iApply wp_pred_tick. iSplit.
    + wp_ret. iDestruct "HQ" as "[HQ _]". by iApply "HQ".
    + iIntros (Hf). iDestruct "HQ" as "[_ HQ]". by iApply ("HQ" with "[//]").
  - intros u. apply (any_mono (1 + 0)); [|done]. eapply any_bind; [|intros; apply any_bind_pure; [apply any_pred_tick|intros; apply any_ret]].
    destruct vs; simpl; [eapply any_mono; [apply any_ret|lia]|apply any_read_slot..].
  - intros u. karr.
  - iApply (tk_mono with "H"). rewrite Hc. change (length (oelems o)) with (osize o).
    generalize (osize o - length (remove_list (λ u, eq u v) (oelems o))). intros m. nia.
Qed.
Lemma effort_RemoveIf σ ρ x p :
  live σ x →
  R (C:=C) σ ρ ⊢ tk (cost (length (contents σ x)) (length (contents σ x) - length (remove_list p (contents σ x))) (length (contents σ x)))
    (exec_call (RemoveIf x p) ρ).
Proof.
  intros Hx. iIntros "HR". iDestruct "HR" as (τ Ha) "Hr". open_live Ha Hx o a l.
  cbn [exec_call]. tvars. take_ Ht Hl. last_. rewrite /remove_if.
  iDestruct (tk_remove_gen _ _ _ (λ u, pred_tick;; mret (p u)) p emp%I with "Hs []") as "H".
  - intros v Q' E'. iIntros "_ HQ". wp_bind. iApply wp_pred_tick. iSplit.
    + wp_ret. iDestruct "HQ" as "[HQ _]". by iApply "HQ".
    + iIntros (Hf). iDestruct "HQ" as "[_ HQ]". by iApply ("HQ" with "[//]").
  - intros u. eapply any_mono; [apply any_bind_pure; [apply any_pred_tick|intros; apply any_ret]|lia].
  - intros u. karr.
  - done.
  - iApply (tk_mono with "H"). rewrite Hc. change (length (oelems o)) with (osize o).
    generalize (osize o - length (remove_list p (oelems o))). intros m. nia.
Qed.
Lemma effort_Unique σ ρ x p :
  live σ x →
  R (C:=C) σ ρ ⊢ tk (cost (length (contents σ x)) (length (contents σ x) - length (unique_list p (contents σ x))) (length (contents σ x)))
    (exec_call (Unique x p) ρ).
Proof.
  intros Hx. iIntros "HR". iDestruct "HR" as (τ Ha) "Hr". open_live Ha Hx o a l.
  cbn [exec_call]. tvars. take_ Ht Hl. last_.
  iDestruct (tk_unique_ _ _ _ p with "Hs") as "H". iApply (tk_mono with "H"). rewrite Hc. change (length (oelems o)) with (osize o).
  generalize (osize o - length (unique_list p (oelems o))). intros m. nia.
Qed.
Lemma effort_Reverse σ ρ x :
  live σ x → R (C:=C) σ ρ ⊢ tk (cost (length (contents σ x)) 0 (length (contents σ x))) (exec_call (Reverse x) ρ).
Proof.
  intros Hx. iIntros "HR". iDestruct "HR" as (τ Ha) "Hr". open_live Ha Hx o a l.
  cbn [exec_call]. tvars. take_ Ht Hl. last_. sizes.
  iDestruct (tk_reverse_ with "Hs") as "H". iApply (tk_mono with "H"). lia.
Qed.

(** ** comparison *)
Section compare.
Context (R_ : hprop T).
Lemma rd_tk_begin a l o N {B} (f : iterator_data → M T B) X : readable (C:=C) R_ a a l o → osize o ≤ N →
  R_ -∗ (∀ it, ⌜it_ok o it ∧ i_pos it = 0⌝ → R_ -∗ tk X (f it)) -∗ tk (8 * L N + X) (begin_ l ≫= f).
Proof.
  iIntros (HR HN) "HR Hf". iDestruct (HR with "HR") as "[Hs HR]". iApply (tk_begin with "Hs"); [done|].
  iIntros (it H) "Hs". iApply ("Hf" with "[//]"). by iApply "HR".
Qed.
Lemma rd_tk_end a l o N {B} (f : iterator_data → M T B) X : readable (C:=C) R_ a a l o → osize o ≤ N →
  R_ -∗ (∀ it, ⌜it_ok o it ∧ i_pos it = osize o⌝ → R_ -∗ tk X (f it)) -∗ tk (8 * L N + X) (end_ l ≫= f).
Proof.
  iIntros (HR HN) "HR Hf". iDestruct (HR with "HR") as "[Hs HR]". iApply (tk_end with "Hs"); [done|].
  iIntros (it H) "Hs". iApply ("Hf" with "[//]"). by iApply "HR".
Qed.
Lemma rd_fpot a l o p : readable (C:=C) R_ a a l o → R_ ⊢ ⌜fpot o p + 1 ≤ lg (osize o)⌝.
Proof. iIntros (HR) "HR". iDestruct (HR with "HR") as "[Hs HR]". iDestruct (fpot_log _ _ _ p with "Hs") as %H. done. Qed.
Lemma tk_op_eq a l1 o1 b l2 o2 (eq : T → T → bool) :
  readable (C:=C) R_ a a l1 o1 → readable (C:=C) R_ b b l2 o2 →
  R_ -∗ tk (28 * (osize o1 `min` osize o2) + 40 * L (osize o1 + osize o2)) (op_eq l1 l2 eq).
Proof.
  iIntros (R1 R2) "HR". set (N := osize o1 + osize o2). rewrite /op_eq. pose proof (un_L (C:=C) N). pose proof (lg_L (C:=C) N).
  set (k := osize o1 `min` osize o2).
  iApply (tk_cheap 1 _ (1 + 28 * k + 32 * L N)); [apply any_get_size|unfold size_; karr|lia|].
  iApply (rd_size with "HR"); [exact R1|]. iIntros "HR".
  iApply (tk_cheap 1 _ (28 * k + 32 * L N)); [apply any_get_size|unfold size_; karr|lia|].
  iApply (rd_size with "HR"); [exact R2|]. iIntros "HR". destruct (_ =? _) eqn:Heq; [|iApply tk_ret_]. apply Nat.eqb_eq in Heq.
  iApply (tk_mono (8 * L N + (8 * L N + (8 * L N + (28 * k + 8 * lg N))))); [lia|].
  iApply (rd_tk_begin with "HR"); [exact R1|lia|]. iIntros (f1 [Hf1 Hp1]) "HR".
  iApply (rd_tk_end with "HR"); [exact R1|lia|]. iIntros (e1 [He1 Hpe1]) "HR".
  iApply (rd_tk_begin with "HR"); [exact R2|lia|]. iIntros (f2 [Hf2 Hp2]) "HR".
  iDestruct (rd_fpot _ _ _ (i_pos f1) R1 with "HR") as %Hl1. iDestruct (rd_fpot _ _ _ (i_pos f2) R2 with "HR") as %Hl2.
  pose proof (lg_mono (osize o1) N ltac:(lia)). pose proof (lg_mono (osize o2) N ltac:(lia)).
  iDestruct (tk_equal _ _ _ _ _ _ _ _ _ _ eq k with "HR") as "H"; [exact R1|exact R2|exact Hf1|exact Hf2|exact Hpe1|done|lia|lia| |].
  2: { iApply (tk_mono with "H"). lia. }
  lia.
Qed.
Lemma tk_op_lt a l1 o1 b l2 o2 (lt : T → T → bool) :
  readable (C:=C) R_ a a l1 o1 → readable (C:=C) R_ b b l2 o2 →
  R_ -∗ tk (28 * (osize o1 `min` osize o2) + 40 * L (osize o1 + osize o2)) (op_lt l1 l2 lt).
Proof.
  iIntros (R1 R2) "HR". set (N := osize o1 + osize o2). rewrite /op_lt. pose proof (un_L (C:=C) N). pose proof (lg_L (C:=C) N).
  set (k := osize o1 `min` osize o2).
  iApply (tk_mono (8 * L N + (8 * L N + (8 * L N + (8 * L N + (28 * k + 8 * lg N)))))); [lia|].
  iApply (rd_tk_begin with "HR"); [exact R1|lia|]. iIntros (f1 [Hf1 Hp1]) "HR".
  iApply (rd_tk_end with "HR"); [exact R1|lia|]. iIntros (e1 [He1 Hpe1]) "HR".
  iApply (rd_tk_begin with "HR"); [exact R2|lia|]. iIntros (f2 [Hf2 Hp2]) "HR".
  iApply (rd_tk_end with "HR"); [exact R2|lia|]. iIntros (e2 [He2 Hpe2]) "HR".
  iDestruct (rd_fpot _ _ _ (i_pos f1) R1 with "HR") as %Hl1. iDestruct (rd_fpot _ _ _ (i_pos f2) R2 with "HR") as %Hl2.
  pose proof (lg_mono (osize o1) N ltac:(lia)). pose proof (lg_mono (osize o2) N ltac:(lia)).
  iDestruct (tk_lex _ _ _ _ _ _ _ _ _ _ _ lt k (S (i_pos e1 - i_pos f1)) with "HR") as "H"; [exact R1|exact R2|exact Hf1|exact Hf2|exact Hpe1|exact Hpe2|lia|lia|].
  iApply (tk_mono with "H"). lia.
Qed.
End compare.
Lemma effort_compare σ ρ x y c f :
  live σ x → live σ y → (c = CmpEq x y f ∨ c = CmpNe x y f ∨ c = CmpLt x y f ∨ c = CmpLe x y f ∨ c = CmpGt x y f ∨ c = CmpGe x y f) →
  R (C:=C) σ ρ ⊢ tk (cost (length (contents σ x) `min` length (contents σ y)) 0 (length (contents σ x) + length (contents σ y))) (exec_call c ρ).
Proof.
  intros Hx Hy Hcc. iIntros "HR". iDestruct "HR" as (τ Ha) "Hr". open_live Ha Hx o a l. open_live Ha Hy o2 b l2. sizes.
  assert (readable (rep (C:=C) ρ τ) a a l o) as R1 by by apply rep_readable with x.
  assert (readable (rep (C:=C) ρ τ) b b l2 o2) as R2 by by apply rep_readable with y.
  rewrite Nat.add_0_l Nat.mul_1_l. set (N := osize o + osize o2).
  destruct_or! Hcc; subst c; cbn [exec_call]; tvars; rewrite /op_ne /op_le /op_gt /op_ge; last_.
  - iDestruct (tk_op_eq _ _ _ _ _ _ _ f R1 R2 with "Hr") as "H". iApply (tk_mono with "H"). unfold N. lia.
  - last_. iDestruct (tk_op_eq _ _ _ _ _ _ _ f R1 R2 with "Hr") as "H". iApply (tk_mono with "H"). unfold N. lia.
  - iDestruct (tk_op_lt _ _ _ _ _ _ _ f R1 R2 with "Hr") as "H". iApply (tk_mono with "H"). unfold N. lia.
  - last_. iDestruct (tk_op_lt _ _ _ _ _ _ _ f R2 R1 with "Hr") as "H". iApply (tk_mono with "H"). unfold N. rewrite (Nat.add_comm (osize o2)). lia.
  - iDestruct (tk_op_lt _ _ _ _ _ _ _ f R2 R1 with "Hr") as "H". iApply (tk_mono with "H"). unfold N. rewrite (Nat.add_comm (osize o2)). lia.
  - last_. iDestruct (tk_op_lt _ _ _ _ _ _ _ f R1 R2 with "Hr") as "H". iApply (tk_mono with "H"). unfold N. lia.
Qed.

(** ** assignment *)
Lemma getr_walk σ τ ρ r xs x N :
  abs σ τ ρ → rng_values σ r = Some xs → rng_outside σ r x → rng_source σ r ≤ N →
  ∃ inp I J X pc, getr ρ r = mret inp ∧ inp_spec xs I J X (rng_late r) ∧ inp_cost (C:=C) J (8 * L N) ∧ inp_walk (length xs) J pc ∧
    (∀ r k, I r k ⊢ ⌜length xs - k < input_fuel r⌝) ∧ (I inp 0 ⊢ ⌜pc 0 ≤ lg N⌝) ∧ (rep (C:=C) ρ (delete x τ) ⊢ I inp 0).
Proof.
  intros Ha Hv Hout HN. destruct r as [ys|mv w1 w2].
  - injection Hv as ->. exists (IList xs).
    exists (λ r k, inl_I xs r k ∗ rep ρ (delete x τ))%I, (λ r k, inl_J xs r k ∗ rep ρ (delete x τ))%I, (λ k, emp ∗ rep ρ (delete x τ))%I, (λ _, 0).
    split; [done|]. split; [apply inp_spec_frame, inp_list|]. split_and!.
    + apply cost_frame, list_cost.
    + apply walk_frame, list_walk.
    + iIntros (r k) "[H _]". by iApply inl_fuel.
    + iIntros "_". iPureIntro. lia.
    + iIntros "$". iPureIntro. split; [done|lia].
  - simpl in Hv, HN. destruct (iters σ !! w1) as [[y p]|] eqn:H1; [|done]. destruct (iters σ !! w2) as [[y' q]|] eqn:H2; [|done].
    simpl in Hv, HN. destruct ((y =? y') && (p <=? q))%nat eqn:Hb; [|done]. injection Hv as <-.
    apply andb_prop in Hb as [<-%Nat.eqb_eq Hpq%Nat.leb_le].
    assert (x ≠ y) as Hxy. { intros ->. by apply (Hout p). }
    destruct (abs_at _ _ _ _ _ _ Ha H1) as (o & a & l & it & Ht & Hl & Hcx & Hal & Hit & Hok & Hp & _).
    destruct (abs_at _ _ _ _ _ _ Ha H2) as (o2 & a2 & l2 & it2 & Ht2 & Hl2 & _ & _ & Hit2 & Hok2 & Hp2 & _).
    rewrite Ht in Ht2. rewrite Hl in Hl2. injection Ht2 as -> ->. injection Hl2 as ->.
    set (xs := sub p q (contents σ y)).
    pose proof (it_ok_le _ _ Hok2) as Hle. rewrite Hp2 in Hle.
    assert (length xs = q - p) as Hlen.
    { rewrite /xs /sub Hcx take_length drop_length. unfold osize in Hle. lia. }
    set (F := rep ρ (delete y (delete x τ))).
    exists (ISeq mv it it2), (λ r k, ins_I a2 a2 mv l2 o2 p (q - p) r k ∗ F)%I,
      (λ r k, ins_J a2 a2 mv l2 o2 p (q - p) r k ∗ F)%I, (λ k, ins_X a2 a2 mv l2 o2 p k ∗ F)%I, (λ k, fpot o2 (p + k)).
    assert (delete x τ !! y = Some (o2, a2)) as Hty by by rewrite lookup_delete_ne.
    rewrite ?/size_of Hcx in HN. change (length (oelems o2)) with (osize o2) in HN.
    split_and!.
    + by rewrite /getr (geti_ok _ _ _ Hit) (geti_ok _ _ _ Hit2).
    + apply inp_spec_frame. apply inp_seq; [|lia]. by rewrite /xs /sub Hcx.
    + by apply cost_frame, ins_cost.
    + rewrite Hlen. apply walk_frame, ins_walk.
    + iIntros (r k) "[H _]". by iApply ins_fuel.
    + iIntros "[[_ HX] HF]". iDestruct "HX" as (o' [Hsh _]) "Hs". iDestruct (fpot_log _ _ _ (p + 0) with "Hs") as %Hlg. iPureIntro.
      rewrite (fpot_shape o2 o') //. rewrite (oshape_osize _ _ Hsh) in Hlg. pose proof (lg_mono _ _ HN). lia.
    + rewrite (rep_take _ _ _ _ _ _ Hty Hl). iIntros "[Hs $]". iSplitR.
      * iPureIntro. exists it, it2. split_and!; try done; lia.
      * by iApply ins_X_intro.
Qed.
Lemma effort_assign_count σ ρ x n s :
  pre C σ (AssignCount x n s) →
  R (C:=C) σ ρ ⊢ tk (cost (n `min` length (contents σ x)) (apart n (length (contents σ x))) (length (contents σ x) + n)) (exec_call (AssignCount x n s) ρ).
Proof.
  intros (Hx & Hfit & Hco & [v Hv] & Hout). iIntros "HR". iDestruct "HR" as (τ Ha) "Hr". open_live Ha Hx o a l.
  destruct (const_outside _ _ _ _ _ _ Ha Hco Hv Hout) as (vs & Hg & Hsrc).
  cbn [exec_call]. rewrite Hg. tvars. take_ Ht Hl. sizes. last_. iCombine "Hs Hr" as "H".
  iDestruct (tk_assign_count_linear _ _ _ _ _ _ _ (osize o + n) with "H") as "H"; [done|done|lia|lia|].
  iApply (tk_mono with "H"). generalize (apart n (osize o)). intros m. nia.
Qed.
Lemma effort_assign_range σ ρ x r xs :
  pre C σ (AssignRange x r) → rng_values σ r = Some xs →
  R (C:=C) σ ρ ⊢ tk (cost (length xs `min` length (contents σ x)) (apart (length xs) (length (contents σ x))) (length (contents σ x) + length xs + rng_source σ r))
    (exec_call (AssignRange x r) ρ).
Proof.
  intros (Hx & (xs' & Hv & Hfit) & Hout) Hv'. rewrite Hv in Hv'. injection Hv' as ->.
  iIntros "HR". iDestruct "HR" as (τ Ha) "Hr". open_live Ha Hx o a l.
  destruct (getr_walk _ _ _ _ _ _ (length (contents σ x) + length xs + rng_source σ r) Ha Hv Hout) as (inp & I & J & X & pc & Hg & Hspec & Hcost & Hwalk & Hfuel & Hpc & HI); [lia|].
  cbn [exec_call]. rewrite Hg. tvars. take_ Ht Hl. revert Hcost Hpc. sizes. intros Hcost Hpc. last_.
  iDestruct (HI with "Hr") as "HI". iCombine "Hs HI" as "H".
  iDestruct (tk_assign_range_linear with "H") as "H"; [done|done|done|done|done|done|lia|lia|].
  iApply (tk_mono with "H"). generalize (apart (length xs) (osize o)). intros m. nia.
Qed.
Lemma tk_assign_all_linear mv a b this o other o2 r N :
  ins_at_it mv o2 0 (osize o2) r 0 → osize o2 < c_W C → osize o + osize o2 ≤ N →
  seqp (C:=C) a a this o ∗ seqp b b other o2 ⊢ tk (30 * (osize o2 `min` osize o) + apart (osize o2) (osize o) * (80 * L N) + 32 * L N) (assign_range this r).
Proof.
  intros Hr Hlt HN. iIntros "[H1 H2]".
  pose proof (inp_seq b b mv other o2 0 (osize o2) (oelems o2)) as Hin.
  iAssert (seqp a a this o ∗ ins_I b b mv other o2 0 (osize o2) r 0)%I with "[H1 H2]" as "H".
  { iFrame "H1". iSplitR; [done|]. by iApply ins_X_intro. }
  iDestruct (tk_assign_range_linear _ _ (oelems o2) _ (ins_J b b mv other o2 0 (osize o2)) (ins_X b b mv other o2 0) False (λ k, fpot o2 (0 + k)) _ _ N with "H") as "H".
  - apply Hin; [by rewrite slice_whole|done].
  - apply ins_cost. lia.
  - apply ins_walk.
  - intros r' k. by apply ins_fuel.
  - iIntros "[_ HX]". iDestruct "HX" as (o' [Hsh _]) "Hs". iDestruct (fpot_log _ _ _ (0 + 0) with "Hs") as %Hlg. iPureIntro.
    rewrite (fpot_shape o2 o') //. rewrite (oshape_osize _ _ Hsh) in Hlg. pose proof (lg_mono (osize o2) N ltac:(lia)). lia.
  - done.
  - change (length (oelems o2)) with (osize o2). lia.
  - lia.
  - done.
Qed.
Lemma tk_copy_assign_keep a b this o other o2 :
  c_pocca C && negb (a =? b) = false →
  seqp (C:=C) a a this o ∗ seqp b b other o2 ⊢ tk 9 (copy_assign_alloc this other).
Proof.
  iIntros (Hk) "[H1 H2]". rewrite /copy_assign_alloc. destruct (c_pocca C); [|iApply tk_ret_]. simpl in Hk.
  iApply (tk_pay 1); [lia|karr|]. iSplit; [by iApply tk_any_; apply any_get|]. iApply (wp_get_ealloc_o with "H1"). iIntros "H1".
  iApply (tk_pay 1); [lia|karr|]. iSplit; [by iApply tk_any_; apply any_get|]. iApply (wp_get_ealloc_o with "H2"). iIntros "H2".
  rewrite Hk. rewrite ret_bind. iApply tk_any_. eapply any_mono; [any_go|lia].
Qed.
Lemma effort_assign_copy σ ρ x y :
  pre C σ (AssignCopy x y) → c_pocca C && negb (alloc_of σ x =? alloc_of σ y) = false →
  R (C:=C) σ ρ ⊢ tk (cost (length (contents σ y) `min` length (contents σ x)) (apart (length (contents σ y)) (length (contents σ x)))
      (length (contents σ x) + length (contents σ y))) (exec_call (AssignCopy x y) ρ).
Proof.
  intros (Hx & Hy & Hp) Hkeep. iIntros "HR". iDestruct "HR" as (τ Ha) "Hr". open_live Ha Hx o a l.
  cbn [exec_call]. destruct (decide (x = y)) as [->|Hne].
  - tvars. last_. rewrite /op_copy_assign Pos.eqb_refl /=. iApply tk_ret_.
  - open_live Ha Hy o2 b l2. tvars. start2 Hne Ht Hl Ht0 Hl0. sizes. rewrite Hal Hal0 in Hkeep.
    iDestruct (seqp_ne with "Hs Hs2") as %Hll. iDestruct (seqp_lt with "Hs2") as %Hlt. last_. rewrite /op_copy_assign.
    replace (l =? l2)%positive with false by (symmetry; by apply Pos.eqb_neq). cbn [negb].
    set (N := osize o + osize o2). pose proof (un_L (C:=C) N). set (m := apart (osize o2) (osize o)).
    iApply (tk_pay 9); [nia|karr|]. iSplit.
    { iCombine "Hs Hs2" as "H". by iApply (tk_copy_assign_keep with "H"). }
    iApply (wp_copy_assign_alloc with "Hs Hs2").
    { intros H1 H2. apply Nat.eqb_neq in H2. by rewrite H1 H2 in Hkeep. }
    iIntros (o' a' [-> Ho']) "Hs Hs2".
    assert (o' = o) as ->. { rewrite Ho'. by rewrite Hkeep. }
    iApply (tk_pay (16 * L N)); [nia|karr|]. iSplit.
    { iDestruct (tk_whole with "Hs2") as "H". iApply (tk_mono with "H"). pose proof (L_mono (C:=C) (osize o2) N ltac:(lia)). lia. }
    iApply (wp_whole_range with "Hs2"). iIntros (r Hr) "Hs2". iCombine "Hs Hs2" as "H".
    iDestruct (tk_assign_all_linear _ _ _ _ _ _ _ _ N with "H") as "H"; [done|done|lia|]. iApply (tk_mono with "H"). fold m. nia.
Qed.
Lemma effort_assign_move σ ρ x y :
  pre C σ (AssignMove x y) → takes_over C (alloc_of σ x) (alloc_of σ y) = false →
  R (C:=C) σ ρ ⊢ tk (cost (length (contents σ y) `min` length (contents σ x)) (apart (length (contents σ y)) (length (contents σ x)))
      (length (contents σ x) + length (contents σ y))) (exec_call (AssignMove x y) ρ).
Proof.
  intros (Hx & Hy & Hp) Hto. iIntros "HR". iDestruct "HR" as (τ Ha) "Hr". open_live Ha Hx o a l.
  cbn [exec_call]. unfold takes_over in Hto. apply orb_false_elim in Hto as [Hpo Hab].
  destruct (decide (x = y)) as [->|Hne]; [by rewrite Nat.eqb_refl in Hab|].
  open_live Ha Hy o2 b l2. tvars. start2 Hne Ht Hl Ht0 Hl0. sizes. rewrite Hal Hal0 in Hab.
  iDestruct (seqp_lt with "Hs2") as %Hlt. last_. rewrite /op_move_assign /move_assign Hpo.
  set (N := osize o + osize o2). pose proof (un_L (C:=C) N). pose proof (L_mono (C:=C) (osize o2) N ltac:(lia)). set (m := apart (osize o2) (osize o)).
  iApply (tk_pay 1); [nia|karr|]. iSplit; [by iApply tk_any_; apply any_get|]. iApply (wp_get_ealloc_o with "Hs"). iIntros "Hs".
  iApply (tk_pay 1); [nia|karr|]. iSplit; [by iApply tk_any_; apply any_get|]. iApply (wp_get_ealloc_o with "Hs2"). iIntros "Hs2".
  rewrite Hab. cbn [negb].
  iApply (tk_pay (8 * L N)); [nia|karr|]. iSplit; [iDestruct (tk_find_first with "Hs2") as "H"; iApply (tk_mono with "H"); lia|].
  iApply (wp_find_first with "Hs2"). iIntros (f [Hf Hpf]) "Hs2".
  iApply (tk_pay (8 * L N)); [nia|karr|]. iSplit; [iDestruct (tk_find_end with "Hs2") as "H"; iApply (tk_mono with "H"); lia|].
  iApply (wp_find_end with "Hs2"). iIntros (e [He Hpe]) "Hs2".
  iCombine "Hs Hs2" as "H". iDestruct (tk_assign_all_linear true _ _ _ _ _ _ _ N with "H") as "H"; [|done|done|].
  { exists f, e. split_and!; try done; lia. }
  iApply (tk_mono with "H"). fold m. nia.
Qed.
End api.
