(** * Threads: which blocks a call writes to.  Proof infrastructure.

    A call that only reads a container (an element or a range is copied from it, or
    the whole container is) does not write to its blocks: they are frozen (Sep.v). *)
From Verif Require Export Frame Effects.
From stdpp Require Import options.
Set Default Proof Using "Type*".

(** ** Reading frozen blocks *)
Section frozen.
Context {T : Type} {C : cfg T} {OK : cfg_ok C} {FZ : frozen T}.
Implicit Types o : option (tree T).
Lemma wp_frozen {A} (m : M T A) (φ : A → Prop) (P : hprop T) f (Q : A → hprop T) E :
  eff same m → P f → f ⊆ fz FZ →
  (P ⊢ wp (F:=no_frozen) m (λ a, ⌜φ a⌝) (λ _, False))%I → (∀ a, ⌜φ a⌝ → Q a) ⊢ wp m Q E.
Proof.
  intros Hs HP Hf [Hm]. split; intros h HQ. rewrite wp_holds. intros hf clk cnt Hd HF.
  assert (f ⊆ h ∪ hf) as Hsub. { etrans; [exact Hf|]. etrans; [exact HF|]. by apply map_union_subseteq_r. }
  specialize (Hm f HP). rewrite wp_holds in Hm.
  assert (f ##ₘ (h ∪ hf) ∖ f) as Hdf by by apply map_disjoint_difference_r.
  specialize (Hm ((h ∪ hf) ∖ f) clk cnt Hdf (map_empty_subseteq _)).
  rewrite (map_difference_union _ _ Hsub) in Hm. specialize (Hs (State (h ∪ hf) clk cnt)).
  destruct (m _) as [a st|e st|]; [| |done].
  2: { destruct Hm as (h' & _ & _ & _ & He). change (hprop_holds (⌜False⌝)%I h') in He. by rewrite pure_holds in He. }
  destruct Hs as (Hh & _ & _ & tr & Htr & Hrd). destruct Hm as (h' & _ & _ & (tr' & Htr' & Haw) & Ha).
  rewrite pure_holds in Ha. simpl in *.
  exists h. split_and!; [done|done| |].
  - rewrite Htr in Htr'. apply app_inv_tail in Htr' as <-. exists tr. split; [done|]. intros b Hb.
    specialize (Hrd b Hb). destruct (Haw b Hb) as [Hn|[_ [? Hn]]]; [|by rewrite /= lookup_empty in Hn].
    destruct (hf !! addr b) as [ob|] eqn:Hhf; [right|by left]. split; [done|].
    apply lookup_difference_None in Hn as [Hn|[ob' Hn]].
    + erewrite lookup_union_Some_r in Hn; done.
    + exists ob'. by eapply lookup_weaken.
  - rewrite forall_holds in HQ. specialize (HQ a). rewrite impl_holds pure_holds in HQ. by apply HQ.
Qed.

Context (ea na : nat) (src : loc) (o : option (tree T)) (f : heap T).
Context (Hsrc : seqp ea na src o f) (Hf : f ⊆ fz FZ).
Lemma frozen_ref it x : it_ok o it → oelems o !! i_pos it = Some x → src_spec (it_ref it) x emp%I emp%I.
Proof.
  intros Hit Hx Q E. iIntros "_ HQ". rewrite /make_value /it_ref. wp_bind.
  iApply (wp_frozen _ (λ y, y = x) (seqp ea na src o) f); [|done|done| |].
  - apply eff_read_slot; [apply _|]. by intros ?? [? _].
  - iIntros "Hs". iApply (wp_read_it (FZ:=no_frozen) with "Hs"); [done|by apply lookup_lt_Some in Hx|]. iIntros (y Hy) "Hs".
    rewrite Hx in Hy. by injection Hy as <-.
  - iIntros (y ->). wp_bind. iApply wp_user_tick. iSplit.
    + wp_ret. iDestruct "HQ" as "[HQ _]". by iApply "HQ".
    + iIntros (H). iDestruct "HQ" as "[_ HQ]". by iApply "HQ".
Qed.
Definition frz_I p n r k : hprop T := (⟦ins_at_it false o p n r k⟧)%I.
Lemma frozen_seq p n xs :
  xs = take n (drop p (oelems o)) → p + n ≤ osize o → inp_spec xs (frz_I p n) (frz_I p n) (λ _, emp)%I False.
Proof.
  intros -> Hn. unfold osize in Hn.
  assert (length (take n (drop p (oelems o))) = n) as Hlen. { rewrite take_length drop_length. lia. }
  split.
  - iIntros (r k Q E) "%H HQ". pose proof H as (a & l & -> & Ha & Hpa & Hpl & Hk & _). rewrite Hlen /input_end. wp_ret.
    iDestruct "HQ" as "[HQ _]".
    assert ((i_pos a =? i_pos l) = (k =? n)) as ->; [|by iApply ("HQ" with "[//]")].
    rewrite Hpa Hpl. destruct (decide (k = n)) as [->|].
    + by rewrite !Nat.eqb_refl.
    + rewrite !(proj2 (Nat.eqb_neq _ _)) //. lia.
  - iIntros (r k x Q E Hx) "%H HQ". pose proof H as (a & l & -> & Ha & Hpa & Hpl & Hk & _).
    rewrite /input_src. wp_ret. iDestruct "HQ" as "[HQ _]".
    assert (oelems o !! (p + k) = Some x) as Hx'.
    { apply lookup_lt_Some in Hx as Hlt. rewrite Hlen in Hlt. by rewrite lookup_take // lookup_drop in Hx. }
    iApply ("HQ" with "[%] [%//]"). apply src_spec_emp. apply (frozen_ref a x); [done|]. by rewrite Hpa.
  - iIntros (r k Q E Hk) "%H HQ". rewrite Hlen in Hk.
    destruct H as (a & l & -> & Ha & Hpa & Hpl & Hk' & _).
    rewrite /input_next. wp_bind.
    iApply (wp_frozen _ (λ it, it_ok o it ∧ i_pos it = S (i_pos a)) (seqp ea na src o) f); [|done|done| |].
    + apply eff_move_next_iterator; [apply _|]. by intros ?? [? _].
    + iIntros "Hs". iApply (wp_move_next_iterator (FZ:=no_frozen) with "Hs"); [done|rewrite Hpa; unfold osize; lia|].
      iIntros (a' [Ha2 Hp2]) "Hs". iPureIntro. split; [done|lia].
    + iIntros (a' [Ha2 Hp2]). wp_ret. iDestruct "HQ" as "[HQ _]". iApply "HQ". iPureIntro. exists a', l. split_and!; try done; lia.
  - iIntros (r k) "%". done.
  - iIntros (r k) "%". done.
Qed.
Lemma frz_fuel p n (xs : list T) r k : length xs = n → frz_I p n r k ⊢ ⌜length xs - k < input_fuel r⌝.
Proof.
  iIntros (Hl) "%H". destruct H as (a & l & -> & Ha & Hpa & Hpl & Hk & _). iPureIntro. simpl. lia.
Qed.
Lemma frozen_peek vs it x :
  it_ok o it → oelems o !! i_pos it = Some x → vs = it_ref it ∨ vs = it_mv it →
  ∀ (Q : T → hprop T) E, emp ⊢ (emp -∗ Q x) -∗ wp (peek vs) Q E.
Proof.
  intros Hit Hx Hvs Q E. iIntros "_ HQ".
  iApply (wp_frozen _ (λ y, y = x) (seqp ea na src o) f); [|done|done| |].
  - rewrite /peek. destruct Hvs as [-> | ->]; (apply eff_read_slot; [apply _|]; by intros ?? [? _]).
  - iIntros "Hs". rewrite /peek. destruct Hvs as [-> | ->];
    (iApply (wp_read_it (FZ:=no_frozen) with "Hs"); [done|by apply lookup_lt_Some in Hx|]; iIntros (y Hy) "Hs"; rewrite Hx in Hy; by injection Hy as <-).
  - iIntros (y ->). by iApply "HQ".
Qed.
Lemma frozen_whole Q E :
  (∀ r, ⌜ins_at_it false o 0 (osize o) r 0⌝ → Q r) ⊢ wp (whole_range false src) Q E.
Proof.
  apply (wp_frozen _ _ (seqp ea na src o) f); [|done|done|].
  - unfold whole_range. assert (coarser (T:=T) same) by by intros ?? [? _].
    apply eff_bind; [apply _|eapply eff_find_first; [apply _|done]|]. intros. apply eff_bind; [apply _|eapply eff_find_end; [apply _|done]|].
    intros. apply eff_ret; apply _.
  - iIntros "Hs". iApply (wp_whole_range (FZ:=no_frozen) with "Hs"). iIntros (r Hr) "_". done.
Qed.
Lemma frozen_ealloc Q E : Q ea ⊢ wp (get_element_allocator src) Q E.
Proof.
  iIntros "HQ". iApply (wp_frozen _ (λ a, a = ea) (seqp ea na src o) f); [|done|done| |].
  - apply eff_get_element_allocator; [apply _|]. by intros ?? [? _].
  - iIntros "Hs". iApply (wp_get_ealloc_o (FZ:=no_frozen) with "Hs"). iIntros "_". done.
  - by iIntros (a ->).
Qed.
Lemma frozen_nalloc Q E : Q na ⊢ wp (get_node_allocator src) Q E.
Proof.
  iIntros "HQ". iApply (wp_frozen _ (λ a, a = na) (seqp ea na src o) f); [|done|done| |].
  - apply eff_get_node_allocator; [apply _|]. by intros ?? [? _].
  - rewrite seqp_blocks. iIntros "Hs". iDestruct "Hs" as (r n ht) "[Hs Hb]".
    iApply (wp_get_node_allocator (FZ:=no_frozen) with "Hs"). iIntros "_". done.
  - by iIntros (a ->).
Qed.
Lemma frozen_copy_alloc a (Q : loc → hprop T) E :
  throw_null → osize o < c_W C →
  (∀ l, True -∗ Q l) ∧ (∀ e, True -∗ E e) ⊢ wp (ctor_copy_alloc src a) Q E.
Proof.
  iIntros (Hth Hlt) "HQ". rewrite /ctor_copy_alloc. iApply wp_ctor_with. iIntros (l) "H1".
  wp_bind. iApply (wp_find_end with "H1"). iIntros (it [Hit Hp]) "H1".
  wp_bind. iApply frozen_whole. iIntros (r Hr).
  iApply (wp_ctor_fill (oelems o) with "H1 []").
  - apply (frozen_seq 0 (osize o)); [by rewrite slice_whole|done].
  - done.
  - destruct Hr as (g & e & -> & ? & ? & ? & _). simpl. unfold osize in *. lia.
  - done.
  - done.
  - done.
  - iSplit.
    + iIntros (o' He) "H1 _". iDestruct "HQ" as "[HQ _]". by iApply "HQ".
    + iIntros (e o' j j' (?&?&?)) "H1 _". iDestruct "HQ" as "[_ HQ]". iExists o'. iFrame "H1".
      iSplitR; [iPureIntro; by eapply throw_null_purge|]. by iApply "HQ".
Qed.
Lemma frozen_copy_assign_alloc a this o1 (Q : unit → hprop T) E :
  (c_pocca C = true → a ≠ ea → may_purge o1) → ea = na →
  seqp a a this o1 -∗ (∀ o' a', seqp a' a' this o' -∗ Q ()) -∗ wp (copy_assign_alloc this src) Q E.
Proof.
  iIntros (Hm Hen) "H1 HQ". rewrite /copy_assign_alloc. destruct (c_pocca C).
  - wp_bind. iApply (wp_get_ealloc_o with "H1"). iIntros "H1".
    wp_bind. iApply frozen_ealloc. wp_bind.
    iAssert (∀ o', ⌜o' = if negb (a =? ea) then None else o1⌝ → seqp a a this o' -∗
      wp (b ← get_element_allocator src; set_element_allocator this b;;
          nb ← get_node_allocator src; set_node_allocator this nb) Q E)%I with "[HQ]" as "K".
    { iIntros (o' Ho') "H1". iEval (rewrite seqp_blocks) in "H1".
      iDestruct "H1" as (r1 n1 h1) "[H1 Hb1]".
      wp_bind. iApply frozen_ealloc.
      wp_bind. iApply (wp_set_element_allocator with "H1"). iIntros "H1".
      wp_bind. iApply frozen_nalloc.
      iApply (wp_set_node_allocator with "H1"). iIntros "H1".
      iApply ("HQ" $! o' na with "[H1 Hb1]"). rewrite -Hen.
      rewrite seqp_blocks. iExists _, _, _. iFrame "H1". destruct (a =? ea) eqn:Heq; simpl in *.
        + apply Nat.eqb_eq in Heq. by subst.
        + by subst. }
    destruct (a =? ea) eqn:Heq; simpl.
    + wp_ret. by iApply ("K" with "[%] H1").
    + apply Nat.eqb_neq in Heq. iApply (wp_clear with "H1"); [by apply Hm|]. iIntros "H1".
      by iApply ("K" with "[%] H1").
  - wp_ret. iApply ("HQ" $! o1 a with "H1").
Qed.
Lemma frozen_copy_assign a this o1 (Q : unit → hprop T) E :
  (c_pocca C = true → a ≠ ea → may_purge o1) → ea = na → this ≠ src → osize o < c_W C →
  seqp a a this o1 -∗ ((True -∗ Q ()) ∧ (∀ e, True -∗ E e)) -∗ wp (op_copy_assign this src) Q E.
Proof.
  iIntros (Hm Hen Hne Hlt) "H1 HQ". rewrite /op_copy_assign.
  rewrite (proj2 (Pos.eqb_neq _ _) Hne) /=.
  wp_bind. iApply (frozen_copy_assign_alloc with "H1"); [done|done|]. iIntros (o' a') "H1".
  wp_bind. iApply frozen_whole. iIntros (r Hr).
  iApply (wp_assign_range a' a' this (oelems o) (frz_I 0 (osize o)) with "H1 []").
  - apply (frozen_seq 0 (osize o)); [by rewrite slice_whole|done].
  - intros. by apply (frz_fuel 0).
  - done.
  - done.
  - iSplit.
    + iIntros (o2 He) "H1 _". iDestruct "HQ" as "[HQ _]". by iApply "HQ".
    + iIntros (e o2 j j' _) "H1 _". iDestruct "HQ" as "[_ HQ]". by iApply "HQ".
Qed.
End frozen.

(** ** Calls that read one container and change another *)
Section lend.
Context {T : Type} {C : cfg T} {OK : cfg_ok C} {FZ : frozen T}.
Implicit Types σ : sst T.
Implicit Types ρ : env.
Implicit Types o : option (tree T).
Implicit Types c : cmd T.
Implicit Types τ : gmap nat (option (tree T) * nat).
Definition kept σ c τ := filter (λ x, modifies σ c x.1) τ.
Definition spared σ c τ := filter (λ x, ¬ modifies σ c x.1) τ.
Lemma kept_lookup σ c τ x p : τ !! x = Some p → modifies σ c x → kept σ c τ !! x = Some p.
Proof. intros H1 H2. by apply map_filter_lookup_Some. Qed.
Lemma spared_lookup σ c τ x p : τ !! x = Some p → ¬ modifies σ c x → spared σ c τ !! x = Some p.
Proof. intros H1 H2. by apply map_filter_lookup_Some. Qed.
Lemma rep_part ρ τ y o a l f :
  rep ρ τ f → τ !! y = Some (o, a) → e_cont ρ !! y = Some l → ∃ f', f' ⊆ f ∧ seqp a a l o f'.
Proof.
  intros Hr Hy Hl. assert (rep ρ τ ⊢ seqp a a l o ∗ rep ρ (delete y τ)) as [H]
    by by rewrite (rep_take _ _ _ _ _ _ Hy Hl).
  apply H in Hr. apply sep_holds in Hr as (h1 & h2 & -> & _ & Hs & _). exists h1. split; [|done].
  apply map_union_subseteq_l.
Qed.
Context (σ : sst T) (τ : gmap nat (option (tree T) * nat)) (ρ : env) (Ha : abs σ τ ρ).
Lemma lent_at c w y p : rep ρ (spared σ c τ) (fz FZ) → at_it σ w y p → ¬ modifies σ c y →
  ∃ o a l it f, e_cont ρ !! y = Some l ∧ e_iter ρ !! w = Some it ∧ it_ok o it ∧ i_pos it = p ∧
    contents σ y = oelems o ∧ τ !! y = Some (o, a) ∧ seqp a a l o f ∧ f ⊆ fz FZ.
Proof.
  intros Hfz Hw Hm. open_at Ha Hw o a l it.
  destruct (rep_part _ _ _ _ _ _ _ Hfz (spared_lookup _ _ _ _ _ Ht Hm) Hl) as (f & Hf & Hs).
  by exists o, a, l, it, f.
Qed.
Lemma gets_lent c s v :
  rep ρ (spared σ c τ) (fz FZ) → arg_const s → arg_value σ s = Some v →
  (∀ w y p, s = ARef w → at_it σ w y p → ¬ modifies σ c y) →
  ∃ vs, gets ρ s = mret vs ∧ src_spec vs v emp%I emp%I.
Proof.
  intros Hfz Hc Hv Hs. destruct s as [u|w|w]; [| |done].
  - injection Hv as ->. exists (VVal v). split; [done|]. apply src_val.
  - destruct (deref_inv _ _ _ Hv) as (x & p & Hw & Hx).
    destruct (lent_at c w x p Hfz Hw (Hs _ _ _ eq_refl Hw)) as (o & a & l & it & f & Hl & Hit & Hok & Hp & Hcx & Ht & Hf & Hsub).
    exists (it_ref it). split; [by rewrite /gets (geti_ok _ _ _ Hit)|].
    eapply frozen_ref; [done..|]. by rewrite Hp -Hcx.
Qed.
Lemma peek_lent c s v :
  rep ρ (spared σ c τ) (fz FZ) → arg_value σ s = Some v →
  (∀ w y p, arg_ref s = Some w → at_it σ w y p → ¬ modifies σ c y) →
  ∃ vs, gets ρ s = mret vs ∧ ∀ (Q : T → hprop T) E, emp ⊢ (emp -∗ Q v) -∗ wp (peek vs) Q E.
Proof.
  intros Hfz Hv Hs. destruct s as [u|w|w].
  { injection Hv as ->. exists (VVal v). split; [done|]. intros Q E. iIntros "_ HQ". rewrite /peek. wp_ret. by iApply "HQ". }
  all: destruct (deref_inv _ _ _ Hv) as (x & p & Hw & Hx);
    destruct (lent_at c w x p Hfz Hw (Hs _ _ _ eq_refl Hw)) as (o & a & l & it & f & Hl & Hit & Hok & Hp & Hcx & Ht & Hf & Hsub);
    eexists; (split; [by rewrite /gets (geti_ok _ _ _ Hit)|]); (eapply frozen_peek; [done..|by rewrite Hp -Hcx|]).
  - by left.
  - by right.
Qed.
Lemma getr_lent c r xs :
  rep ρ (spared σ c τ) (fz FZ) → rng_values σ r = Some xs →
  match r with RSeq true _ _ => False | RSeq false w _ => ∀ y p, at_it σ w y p → ¬ modifies σ c y | _ => True end →
  ∃ inp I J X, getr ρ r = mret inp ∧ inp_spec xs I J X (rng_late r) ∧
    (∀ r k, I r k ⊢ ⌜length xs - k < input_fuel r⌝) ∧ (emp ⊢ I inp 0).
Proof.
  intros Hfz Hv Hs. destruct r as [ys|[] w1 w2]; [|done|].
  - injection Hv as ->. exists (IList xs), (inl_I xs), (inl_J xs), (λ _, emp)%I.
    split_and!; [done|apply inp_list|apply inl_fuel|]. iIntros "_". iPureIntro. split; [done|lia].
  - simpl in Hv. destruct (iters σ !! w1) as [[y p]|] eqn:H1; [|done]. destruct (iters σ !! w2) as [[y' q]|] eqn:H2; [|done].
    simpl in Hv. destruct ((y =? y') && (p <=? q))%nat eqn:Hb; [|done]. injection Hv as <-.
    apply andb_prop in Hb as [<-%Nat.eqb_eq Hpq%Nat.leb_le].
    destruct (lent_at c w1 y p Hfz H1 (Hs _ _ H1)) as (o & a & l & it & f & Hl & Hit & Hok & Hp & Hcx & Ht & Hf & Hsub).
    destruct (abs_at _ _ _ _ _ _ Ha H2) as (o2 & a2 & l2 & it2 & Ht2 & Hl2 & _ & _ & Hit2 & Hok2 & Hp2 & _).
    rewrite Ht in Ht2. rewrite Hl in Hl2. injection Ht2 as -> ->. injection Hl2 as ->.
    pose proof (it_ok_le _ _ Hok2) as Hle. rewrite Hp2 in Hle.
    assert (length (sub p q (contents σ y)) = q - p) as Hlen.
    { rewrite /sub Hcx take_length drop_length. unfold osize in Hle. lia. }
    exists (ISeq false it it2), (frz_I o2 p (q - p)), (frz_I o2 p (q - p)), (λ _, emp)%I. split_and!.
    + by rewrite /getr (geti_ok _ _ _ Hit) (geti_ok _ _ _ Hit2).
    + eapply frozen_seq; [done..| |lia]. by rewrite /sub Hcx.
    + intros r k. by eapply frz_fuel.
    + iIntros "_". iPureIntro. exists it, it2. split_and!; try done; lia.
Qed.

Definition tame c : Prop :=
  rep ρ (spared σ c τ) (fz FZ) → pre C σ c →
  rep ρ (kept σ c τ) ⊢ wp (exec_call c ρ) (λ _, True) (λ _, True).
Ltac here := apply kept_lookup; [done|by left; apply elem_of_list_here].
Ltac fin := iIntros; try done_fold; by iPureIntro.
Lemma tame_NewCount x n s a :
  (∀ w y p, s = ARef w → at_it σ w y p → ¬ modifies σ (NewCount x n s a) y) → tame (NewCount x n s a).
Proof.
  intros Hs Hfz (Hx & Hfit & Hco & [v Hv] & Hth%can_throw_null). iIntros "Hr".
  destruct (gets_lent _ _ _ Hfz Hco Hv Hs) as (vs & Hg & Hsrc).
  cbn [exec_call]. rewrite Hg. vars. wp_bind. iApply (wp_ctor_count _ _ _ emp%I with "[//]"); [done..|]. iSplit; fin.
Qed.
Lemma tame_AssignCount x n s :
  (∀ w y p, s = ARef w → at_it σ w y p → ¬ modifies σ (AssignCount x n s) y) → tame (AssignCount x n s).
Proof.
  intros Hs Hfz (Hx & Hfit & Hco & [v Hv] & Hout). iIntros "Hr". open_live Ha Hx o a l.
  destruct (gets_lent _ _ _ Hfz Hco Hv Hs) as (vs & Hg & Hsrc).
  assert (kept σ (AssignCount x n s) τ !! x = Some (o, a)) as Hk by here. take_ Hk Hl.
  cbn [exec_call]. rewrite Hg. vars. wp_bind.
  iApply (wp_assign_count _ _ _ _ _ _ emp%I with "Hs [//]"); [done..|]. iSplit; fin.
Qed.
Lemma tame_Resize x n s :
  (∀ w y p, s = ARef w → at_it σ w y p → ¬ modifies σ (Resize x n s) y) → tame (Resize x n s).
Proof.
  intros Hs Hfz (Hx & Hfit & Hco & [v Hv] & Hout). iIntros "Hr". open_live Ha Hx o a l.
  destruct (gets_lent _ _ _ Hfz Hco Hv Hs) as (vs & Hg & Hsrc).
  assert (kept σ (Resize x n s) τ !! x = Some (o, a)) as Hk by here. take_ Hk Hl.
  cbn [exec_call]. rewrite Hg. vars. wp_bind. rewrite /resize_.
  iApply (wp_resize_count _ _ _ _ _ _ emp%I with "Hs [//]"); [done..|]. iSplit; fin.
Qed.
Lemma tame_InsertCount x w n s w' :
  (∀ w0 y p, s = ARef w0 → at_it σ w0 y p → ¬ modifies σ (InsertCount x w n s w') y) → tame (InsertCount x w n s w').
Proof.
  intros Hs Hfz (p & Hw & Hco & [v Hv] & Hout & Hfit). iIntros "Hr". open_at Ha Hw o a l it.
  destruct (gets_lent _ _ _ Hfz Hco Hv Hs) as (vs & Hg & Hsrc).
  assert (kept σ (InsertCount x w n s w') τ !! x = Some (o, a)) as Hk by here. take_ Hk Hl.
  cbn [exec_call]. rewrite Hg. vars. wp_bind. rewrite /insert_count. rewrite /fits Hc in Hfit.
  iApply (wp_emplace_count _ _ _ _ _ _ _ _ emp%I with "Hs [//]"); [done..|]. iSplit; fin.
Qed.
Lemma emplace_lent l o a it vs v (Q : iterator_data → hprop T) E :
  src_spec vs v emp%I emp%I → it_ok o it → osize o + 1 < c_W C →
  seqp a a l o -∗ ((∀ it', True -∗ Q it') ∧ (∀ e, True -∗ E e)) -∗ wp (emplace_single l it vs) Q E.
Proof.
  iIntros (Hsrc Hit HW) "Hs HQ". rewrite /emplace_single. wp_bind. iApply (Hsrc with "[//]"). iSplit.
  - iIntros "_". iApply (wp_insert_single_iterator with "Hs"); [done|done|]. iSplit.
    + iIntros (o' it' _) "Hs". iDestruct "HQ" as "[HQ _]". by iApply "HQ".
    + iIntros (_) "Hs". iDestruct "HQ" as "[_ HQ]". by iApply "HQ".
  - iIntros (_) "_". iDestruct "HQ" as "[_ HQ]". by iApply "HQ".
Qed.
Lemma tame_InsertOne x w s w' :
  arg_const s → (∀ w0 y p, s = ARef w0 → at_it σ w0 y p → ¬ modifies σ (InsertOne x w s w') y) → tame (InsertOne x w s w').
Proof.
  intros Hco Hs Hfz (p & Hw & [v Hv] & Hfit). iIntros "Hr". open_at Ha Hw o a l it.
  destruct (gets_lent _ _ _ Hfz Hco Hv Hs) as (vs & Hg & Hsrc).
  assert (kept σ (InsertOne x w s w') τ !! x = Some (o, a)) as Hk by here. take_ Hk Hl.
  cbn [exec_call]. rewrite Hg. vars. wp_bind. rewrite /insert_. rewrite /fits Hc in Hfit.
  iApply (emplace_lent with "Hs"); [done..|]. iSplit; fin.
Qed.
Lemma tame_PushBack x s :
  arg_const s → (∀ w0 y p, s = ARef w0 → at_it σ w0 y p → ¬ modifies σ (PushBack x s) y) → tame (PushBack x s).
Proof.
  intros Hco Hs Hfz (Hx & [v Hv] & Hfit). iIntros "Hr". open_live Ha Hx o a l.
  destruct (gets_lent _ _ _ Hfz Hco Hv Hs) as (vs & Hg & Hsrc).
  assert (kept σ (PushBack x s) τ !! x = Some (o, a)) as Hk by here. take_ Hk Hl.
  cbn [exec_call]. rewrite Hg. vars. wp_bind. rewrite /push_back. rewrite /fits Hc in Hfit.
  wp_bind. iApply (wp_find_end with "Hs"). iIntros (it [Hok Hp]) "Hs". wp_bind.
  iApply (emplace_lent with "Hs"); [done..|]. iSplit; [iIntros (it') "?"; wp_ret; fin|fin].
Qed.
Lemma tame_PushFront x s :
  arg_const s → (∀ w0 y p, s = ARef w0 → at_it σ w0 y p → ¬ modifies σ (PushFront x s) y) → tame (PushFront x s).
Proof.
  intros Hco Hs Hfz (Hx & [v Hv] & Hfit). iIntros "Hr". open_live Ha Hx o a l.
  destruct (gets_lent _ _ _ Hfz Hco Hv Hs) as (vs & Hg & Hsrc).
  assert (kept σ (PushFront x s) τ !! x = Some (o, a)) as Hk by here. take_ Hk Hl.
  cbn [exec_call]. rewrite Hg. vars. wp_bind. rewrite /push_front. rewrite /fits Hc in Hfit.
  wp_bind. iApply (wp_find_first with "Hs"). iIntros (it [Hok Hp]) "Hs". wp_bind.
  iApply (emplace_lent with "Hs"); [done..|]. iSplit; [iIntros (it') "?"; wp_ret; fin|fin].
Qed.
Lemma tame_Write w s :
  arg_const s → (∀ w0 y p, s = ARef w0 → at_it σ w0 y p → ¬ modifies σ (Write w s) y) → tame (Write w s).
Proof.
  intros Hco Hs Hfz ([u Hu] & [v Hv]). destruct (deref_inv _ _ _ Hu) as (x & p & Hw & Hx). iIntros "Hr". open_at Ha Hw o a l it.
  destruct (gets_lent _ _ _ Hfz Hco Hv Hs) as (vs & Hg & Hsrc).
  assert (kept σ (Write w s) τ !! x = Some (o, a)) as Hk.
  { apply kept_lookup; [done|]. right. exists w, p. split; [left|done]. }
  take_ Hk Hl. apply lookup_lt_Some in Hx. rewrite Hc in Hx.
  cbn [exec_call]. rewrite Hg. vars. wp_bind. rewrite /it_assign /assign_value. wp_bind.
  iApply (Hsrc with "[//]"). iSplit; [|fin]. iIntros "_".
  wp_bind. iApply (wp_read_it with "Hs"); [done|by rewrite Hp|]. iIntros (y Hy) "Hs".
  iApply (wp_write_it with "Hs"); [done|by rewrite Hp|]. fin.
Qed.
Lemma tame_Remove x s eq :
  (∀ w0 y p, arg_ref s = Some w0 → at_it σ w0 y p → ¬ modifies σ (Remove x s eq) y) → tame (Remove x s eq).
Proof.
  intros Hs Hfz (Hx & [v Hv] & Hout). iIntros "Hr". open_live Ha Hx o a l.
  destruct (peek_lent _ _ _ Hfz Hv Hs) as (vs & Hg & Hsrc).
  assert (kept σ (Remove x s eq) τ !! x = Some (o, a)) as Hk by here. take_ Hk Hl.
  cbn [exec_call]. rewrite Hg. vars. wp_bind.
  iApply (wp_remove _ _ _ _ _ _ emp%I with "Hs [//]"); [done..|]. iSplit; fin.
Qed.
Definition rng_lent c (r : rng T) : Prop :=
  match r with RSeq true _ _ => False | RSeq false w _ => ∀ y p, at_it σ w y p → ¬ modifies σ c y | _ => True end.
Lemma tame_NewRange x r a : rng_lent (NewRange x r a) r → tame (NewRange x r a).
Proof.
  intros Hs Hfz (Hx & (xs & Hv & Hfit) & Hth%can_throw_null). iIntros "Hr".
  destruct (getr_lent _ _ _ Hfz Hv Hs) as (inp & I & J & X & Hg & Hspec & Hfuel & HI).
  cbn [exec_call]. rewrite Hg. vars. wp_bind. iDestruct (HI with "[//]") as "HI".
  iDestruct (Hfuel with "HI") as %Hf. rewrite Nat.sub_0_r in Hf.
  iApply (wp_ctor_range with "HI"); [done..|]. iSplit; fin.
Qed.
Lemma tame_AssignRange x r : rng_lent (AssignRange x r) r → tame (AssignRange x r).
Proof.
  intros Hs Hfz (Hx & (xs & Hv & Hfit) & Hout). iIntros "Hr". open_live Ha Hx o a l.
  destruct (getr_lent _ _ _ Hfz Hv Hs) as (inp & I & J & X & Hg & Hspec & Hfuel & HI).
  assert (kept σ (AssignRange x r) τ !! x = Some (o, a)) as Hk by here. take_ Hk Hl.
  cbn [exec_call]. rewrite Hg. vars. wp_bind. iDestruct (HI with "[//]") as "HI".
  iApply (wp_assign_range with "Hs HI"); [done..|]. iSplit; fin.
Qed.
Lemma tame_InsertRange x w r w' : rng_lent (InsertRange x w r w') r → tame (InsertRange x w r w').
Proof.
  intros Hs Hfz (p & xs & Hw & Hv & Hout & Hfit). iIntros "Hr". open_at Ha Hw o a l it.
  destruct (getr_lent _ _ _ Hfz Hv Hs) as (inp & I & J & X & Hg & Hspec & Hfuel & HI).
  assert (kept σ (InsertRange x w r w') τ !! x = Some (o, a)) as Hk by here. take_ Hk Hl.
  cbn [exec_call]. rewrite Hg. vars. wp_bind. rewrite /insert_range. rewrite /fits Hc in Hfit.
  iDestruct (HI with "[//]") as "HI". iDestruct (Hfuel with "HI") as %Hf.
  iApply (wp_emplace_range with "Hs HI"); [done|done|unfold osize; lia|lia|]. iSplit; fin.
Qed.
Lemma lent_live c y : rep ρ (spared σ c τ) (fz FZ) → live σ y → ¬ modifies σ c y →
  ∃ o a l f, e_cont ρ !! y = Some l ∧ alloc_of σ y = a ∧ osize o < c_W C ∧ τ !! y = Some (o, a) ∧ seqp a a l o f ∧ f ⊆ fz FZ.
Proof.
  intros Hfz Hy Hm. open_live Ha Hy o a l.
  destruct (rep_part _ _ _ _ _ _ _ Hfz (spared_lookup _ _ _ _ _ Ht Hm) Hl) as (f & Hf & Hs).
  exists o, a, l, f. split_and!; try done. pose proof (hprop_in_entails _ _ (seqp_lt a a l o) _ Hs) as Hlt.
  by rewrite pure_holds in Hlt.
Qed.
Lemma tame_NewCopyAlloc x y a : ¬ modifies σ (NewCopyAlloc x y a) y → tame (NewCopyAlloc x y a).
Proof.
  intros Hm Hfz (Hx & Hy & Hth%can_throw_null). iIntros "Hr".
  destruct (lent_live _ _ Hfz Hy Hm) as (o & b & l & f & Hl & Hal & Hlt & Ht & Hf & Hsub).
  cbn [exec_call]. vars. wp_bind. iApply (frozen_copy_alloc b b l o f Hf Hsub); [done..|]. iSplit; fin.
Qed.
Lemma tame_NewCopy x y : ¬ modifies σ (NewCopy x y) y → tame (NewCopy x y).
Proof.
  intros Hm Hfz (Hx & Hy & Hth%can_throw_null). iIntros "Hr".
  destruct (lent_live _ _ Hfz Hy Hm) as (o & b & l & f & Hl & Hal & Hlt & Ht & Hf & Hsub).
  cbn [exec_call]. vars. wp_bind. rewrite /ctor_copy. wp_bind. iApply (frozen_ealloc b b l o f Hf Hsub).
  iApply (frozen_copy_alloc b b l o f Hf Hsub); [done..|]. iSplit; fin.
Qed.
Lemma tame_AssignCopy x y :
  ¬ modifies σ (AssignCopy x y) y → (∀ l, e_cont ρ !! x = Some l → e_cont ρ !! y ≠ Some l) → tame (AssignCopy x y).
Proof.
  intros Hm Hne Hfz (Hx & Hy & Hp). iIntros "Hr". open_live Ha Hx o a l.
  destruct (lent_live _ _ Hfz Hy Hm) as (o2 & b & l2 & f & Hl2 & Hal2 & Hlt & Ht2 & Hf & Hsub).
  assert (kept σ (AssignCopy x y) τ !! x = Some (o, a)) as Hk by here. take_ Hk Hl.
  cbn [exec_call]. vars. wp_bind.
  iApply (frozen_copy_assign b b l2 o2 f Hf Hsub with "Hs"); [|done| |done|].
  { intros H1 H2. eapply (can_purge_may _ (contents σ x)); [|done]. apply Hp; congruence. }
  { intros ->. by eapply Hne. }
  iSplit; fin.
Qed.
End lend.

(** ** Every call *)
Section calls.
Context {T : Type} {C : cfg T} {OK : cfg_ok C}.
Implicit Types σ : sst T.
Implicit Types ρ : env.
Implicit Types st : state T.
Implicit Types c : cmd T.
Implicit Types τ : gmap nat (option (tree T) * nat).
(** [σ] tells what is changed: all that is touched *)
Definition changes_all σ c : Prop := ∀ y, touches σ c y → modifies σ c y.
Lemma at_same σ w x p y q : at_it σ w x p → iters σ !! w = Some (y, q) → y = x.
Proof. rewrite /at_it. intros -> [=]. done. Qed.
Ltac el := first [ assumption | apply elem_of_list_here | apply elem_of_list_further; el ].
Ltac chg := first [ by left; cbn [changes]; el | by right; cbn [alters arg_moves rng_moves]; do 2 eexists; split; [el|eassumption] ].
(** an argument or a range of another container *)
Lemma arg_cases σ c (s : arg T) :
  (∀ w, s = AMove w → w ∈ alters c) →
  (∀ w y q, w ∈ arg_uses s → iters σ !! w = Some (y, q) → modifies σ c y) ∨
  (arg_const s ∧ ∀ w y p, s = ARef w → at_it σ w y p → ¬ modifies σ c y).
Proof.
  intros Hm. destruct s as [v|w|w]; cbn [arg_uses].
  - left. intros w y q H. by apply elem_of_nil in H.
  - destruct (iters σ !! w) as [[y q]|] eqn:Hw.
    + destruct (decide (modifies σ c y)) as [Hy|Hy].
      * left. intros w' y' q' ->%elem_of_list_singleton Hi. rewrite Hw in Hi. by injection Hi as <- <-.
      * right. split; [done|]. intros w' y' q' [= <-] Hi. rewrite /at_it Hw in Hi. by injection Hi as <- <-.
    + left. intros w' y' q' ->%elem_of_list_singleton Hi. by rewrite Hw in Hi.
  - left. intros w' y' q' ->%elem_of_list_singleton Hi. right. exists w, q'. split; [by apply Hm|done].
Qed.
Lemma rng_cases σ c (r : rng T) xs :
  rng_values σ r = Some xs → (∀ w w', r = RSeq true w w' → w ∈ alters c) →
  (∀ w y q, w ∈ rng_uses r → iters σ !! w = Some (y, q) → modifies σ c y) ∨ rng_lent σ c r.
Proof.
  intros Hv Hm. destruct r as [ys|mv w1 w2]; cbn [rng_uses rng_lent]; [by right|].
  simpl in Hv. destruct (iters σ !! w1) as [[y p]|] eqn:H1; [|done]. destruct (iters σ !! w2) as [[y' q]|] eqn:H2; [|done].
  simpl in Hv. destruct ((y =? y') && (p <=? q))%nat eqn:Hb; [|done]. apply andb_prop in Hb as [<-%Nat.eqb_eq _].
  assert (modifies σ c y → ∀ w y' q', w ∈ [w1; w2] → iters σ !! w = Some (y', q') → modifies σ c y') as Hall.
  { intros Hy w y' q' [->|[->|H]%elem_of_cons]%elem_of_cons Hi; [| |by apply elem_of_nil in H].
    - rewrite H1 in Hi. by injection Hi as <- <-.
    - rewrite H2 in Hi. by injection Hi as <- <-. }
  destruct mv.
  - left. apply Hall. right. exists w1, p. split; [by eapply Hm|done].
  - destruct (decide (modifies σ c y)) as [Hy|Hy]; [left; by apply Hall|right].
    intros y' p' Hi. rewrite /at_it H1 in Hi. by injection Hi as <- <-.
Qed.
(** touched through a name, or an iterator *)
Ltac split_touch := let y := fresh "y" in let H := fresh "H" in let w := fresh "w" in
  intros y [H|(w & ? & H & ?)]; cbn [names uses] in H;
  repeat match goal with
  | H : _ ∈ _ :: _ |- _ => apply elem_of_cons in H as [->|H]
  | H : _ ∈ [] |- _ => by apply elem_of_nil in H
  end.
Ltac same_at := match goal with
  | H1 : at_it ?σ ?w ?x _, H2 : iters ?σ !! ?w = Some (?y, _) |- modifies _ _ ?y =>
      rewrite (at_same _ _ _ _ _ _ H1 H2) end.
Ltac plain := split_touch; try same_at; chg.
Lemma tame_or {FZ : frozen T} σ τ ρ c :
  abs σ τ ρ → (∀ x y l, e_cont ρ !! x = Some l → e_cont ρ !! y = Some l → x = y) → pre C σ c →
  is_const c = true ∨ changes_all σ c ∨ tame σ τ ρ c.
Proof.
  intros Ha Hinj Hp. destruct c; try (by left); right; cbn [pre] in Hp;
    repeat match goal with H : ∃ _, _ |- _ => destruct H | H : _ ∧ _ |- _ => destruct H end.
  all: try (left; plain).
  all: try match goal with
    | s : arg T |- changes_all _ ?c ∨ _ =>
        destruct (arg_cases σ c s) as [Hs|[Hs1 Hs2]];
        [ by intros ? ->; cbn [alters arg_moves]; (done || el)
        | left; split_touch; first [by eapply Hs | try same_at; chg]
        | ]
    | r : rng T |- changes_all _ ?c ∨ _ =>
        edestruct (rng_cases σ c r) as [Hs|Hs];
        [ eassumption | by intros ?? ->; cbn [alters rng_moves]; el
        | left; split_touch; first [by eapply Hs | try same_at; chg]
        | right ]
    end.
  - right. eapply tame_NewCount; try done. 
  - by eapply tame_NewRange.
  - right. eapply tame_NewCopy; [done|]. intros [Hx|(w & ? & Hx & _)]; [|by apply elem_of_nil in Hx].
    apply elem_of_list_singleton in Hx as ->. by eapply live_ne.
  - right. eapply tame_NewCopyAlloc; [done|]. intros [Hx|(w & ? & Hx & _)]; [|by apply elem_of_nil in Hx].
    apply elem_of_list_singleton in Hx as ->. by eapply live_ne.
  - destruct (decide (x = y)) as [->|Hne]; [left; plain|right].
    eapply tame_AssignCopy; [done| |].
    + intros [Hx|(w & ? & Hx & _)]; [|by apply elem_of_nil in Hx]. by apply elem_of_list_singleton in Hx as ->.
    + intros l Hl Hl'. apply Hne. by eapply Hinj.
  - right. by eapply tame_AssignCount.
  - by eapply tame_AssignRange.
  - right. by eapply tame_Write.
  - right. by eapply tame_InsertOne.
  - right. by eapply tame_InsertCount.
  - by eapply tame_InsertRange.
  - right. by eapply tame_PushBack.
  - right. by eapply tame_PushFront.
  - right. by eapply tame_Resize.
  - right. eapply tame_Remove; [done|]. intros w y p Hw Hi [Hx|(w' & ? & Hx & _)]; [|by apply elem_of_nil in Hx].
    apply elem_of_list_singleton in Hx as ->. destruct s; [done|..]; injection Hw as ->; by eapply (H1 p).
Qed.
Lemma rep_inj σ τ ρ h x y l :
  abs σ τ ρ → rep ρ τ h → e_cont ρ !! x = Some l → e_cont ρ !! y = Some l → x = y.
Proof.
  intros Ha Hr Hx Hy. destruct (decide (x = y)) as [->|Hne]; [done|exfalso].
  destruct (proj2 (abs_env _ _ _ Ha x) ltac:(eauto)) as [[o a] Htx].
  destruct (proj2 (abs_env _ _ _ Ha y) ltac:(eauto)) as [[o2 b] Hty].
  assert (rep ρ τ ⊢ ⌜False⌝) as [H].
  { rewrite (rep_take2 _ _ _ _ _ _ _ _ _ _ Hne Htx Hx Hty Hy). iIntros "(H1 & H2 & _)".
    by iDestruct (seqp_ne with "H1 H2") as %?. }
  apply H in Hr. by rewrite pure_holds in Hr.
Qed.
(** the accesses of a call: no block of a container it does not touch, and only
    reads of the blocks of those it does not change *)
Lemma call_log σ τ ρ st c u ρ' st' :
  abs σ τ ρ → rep ρ τ (st_heap st) → pre C σ c → exec c ρ st = Ok (u, ρ') st' →
  ∃ tr h2 h3, n_log (st_cnt st') = tr ++ n_log (st_cnt st) ∧
    rep ρ (outside σ c τ) h2 ∧ rep ρ (spared σ c τ) h3 ∧
    ∀ a, a ∈ tr → h2 !! addr a = None ∧ (h3 !! addr a = None ∨ a = ARead (addr a)).
Proof.
  intros Ha Hr Hp He.
  destruct (frame_heap _ _ _ _ _ Ha Hr Hp) as (u1 & ρ1 & st1 & h1 & h1' & h2 & He1 & Hh & Hd & _ & _ & H2 & (tr & Htr & Haw)).
  rewrite He in He1. injection He1 as <- <- <-.
  assert (∀ a, a ∈ tr → h2 !! addr a = None) as Hout.
  { intros a Htra. destruct (Haw a Htra) as [?|[_ [? Hn]]]; [done|by rewrite lookup_empty in Hn]. }
  assert (rep ρ τ ⊢ rep ρ (kept σ c τ) ∗ rep ρ (spared σ c τ)) as [Hsplit].
  { rewrite /rep -big_sepM_union; [|apply map_disjoint_filter_complement].
    by rewrite (map_filter_union_complement (λ x, modifies σ c x.1) τ). }
  pose proof (Hsplit _ Hr) as Hr2. apply sep_holds in Hr2 as (g1 & g2 & Hg & Hgd & Hg1 & Hg2).
  pose proof (λ x y l, rep_inj σ τ ρ _ x y l Ha Hr) as Hinj.
  destruct (tame_or (FZ:=Freeze g2) σ τ ρ c Ha Hinj Hp) as [Hc|[Hc|Hc]].
  - exists tr, h2, g2. split_and!; [done..|]. intros a Htra. split; [by apply Hout|right].
    pose proof (eff_const (C:=C) same same_coarser c ρ Hc (λ _, allows_same _ (λ _ _ H, H)) st) as Hs. rewrite He in Hs.
    destruct Hs as (_ & _ & _ & tr' & Htr' & Hrd). rewrite Htr in Htr'. apply app_inv_tail in Htr' as <-. by apply Hrd.
  - assert (spared σ c τ = outside σ c τ) as Heq.
    { apply map_filter_ext. intros x p _. simpl. split; intros H H'; apply H; [by apply Hc|by apply modifies_touches]. }
    exists tr, h2, h2. rewrite Heq. split_and!; [done..|]. intros a Htra. split; [|left]; by apply Hout.
  - pose proof (hprop_in_entails _ _ (Hc Hg2 Hp) _ Hg1) as Hwp. rewrite wp_holds in Hwp.
    destruct st as [h n k]. simpl in *. specialize (Hwp g2 n k Hgd (reflexivity _)). rewrite -Hg in Hwp.
    exists tr, h2, g2. split_and!; [done..|]. intros a Htra. split; [by apply Hout|].
    assert (away g2 g2 k (st_cnt st')) as (tr' & Htr' & Haw').
    { revert He. rewrite /exec /try_catch. destruct (exec_call c ρ (State h n k)) as [[o ρ1] st1|e st1|f]; [| |done].
      - intros [= <- <- <-]. by destruct Hwp as (h' & _ & _ & Haw' & _).
      - intros [= <- <- <-]. by destruct Hwp as (h' & _ & _ & Haw' & _). }
    rewrite Htr in Htr'. apply app_inv_tail in Htr' as <-. destruct (Haw' a Htra) as [?|[? _]]; [by left|by right].
Qed.
End calls.
