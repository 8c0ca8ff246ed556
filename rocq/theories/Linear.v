(** * Linear: loops over a container with iterators take linear time.  Proof
    infrastructure (the statements are in PropsTime.v). *)
From Verif Require Export Walk Bulk.
From stdpp Require Import options.
Set Default Proof Using "Type*".

Section linear.
Context {T : Type} {C : cfg T} {OK : cfg_ok C}.
Implicit Types o : option (tree T).
Implicit Types it first last : iterator_data.
Notation fpot := (fpot (T:=T)).
Notation bpot := (bpot (T:=T)).
Hint Resolve a_pred_tick a_make_value a_assign_value a_erase_range a_it_assign a_alg_move a_std_iter_swap a_peek
  a_emplace_range a_input_end a_input_src a_input_next a_assign_range_loop : eff.
Hint Resolve karr_coarser karr_allows eff_read_slot eff_get_root eff_get_size eff_get_height 
  eff_find_index eff_find_first eff_find_last eff_find_end eff_move_next_iterator eff_move_prev_iterator
  eff_dereference : eff.
Ltac karr := repeat first
    [ progress intros
    | solve [auto with eff typeclass_instances]
    | apply eff_bind; [apply _| |]
    | match goal with |- Effects.eff _ (match ?x with _ => _ end) => destruct x end ].

Lemma seqp_pure a l o (P : Prop) : (∀ m, lives (C:=C) m a l o → P) → seqp (C:=C) a a l o ⊢ ⌜P⌝.
Proof. intros H. split; intros h Hs. apply pure_holds. apply (H h). by eapply seqp_lives. Qed.
Lemma fpot_step a l o it : it_ok o it → i_pos it < osize o →
  seqp (C:=C) a a l o ⊢ ⌜4 * fpot o (S (i_pos it)) ≤ 4 * fpot o (i_pos it) + 13⌝.
Proof. intros Hi Hl. apply seqp_pure. intros m Ho. destruct (look_next _ _ _ _ _ Ho Hi Hl) as (k & Hk & _). lia. Qed.
Lemma bpot_step a l o it : it_ok o it → 0 < i_pos it →
  seqp (C:=C) a a l o ⊢ ⌜4 * bpot o (i_pos it - 1) ≤ 4 * bpot o (i_pos it) + 14⌝.
Proof. intros Hi Hl. apply seqp_pure. intros m Ho. destruct (look_prev _ _ _ _ _ Ho Hi Hl) as (k & Hk & _). lia. Qed.
Lemma fpot_log a l o p : seqp (C:=C) a a l o ⊢ ⌜fpot o p + 1 ≤ lg (osize o)⌝.
Proof. apply seqp_pure. intros m Ho. by eapply fpot_lg. Qed.
Lemma bpot_log a l o p : seqp (C:=C) a a l o ⊢ ⌜bpot o p + 1 ≤ lg (osize o)⌝.
Proof. apply seqp_pure. intros m Ho. by eapply bpot_lg. Qed.

(** one step of an iterator in a loop that has [X] accesses left *)
Lemma tk_walk_next a l o it {B} (f : iterator_data → M T B) n X :
  it_ok o it → i_pos it < osize o → 13 + X + 4 * fpot o (i_pos it) ≤ n →
  seqp (C:=C) a a l o -∗
  (∀ it', ⌜it_ok o it' ∧ i_pos it' = S (i_pos it)⌝ → seqp a a l o -∗ tk (X + 4 * fpot o (S (i_pos it))) (f it')) -∗
  tk n (it_next it ≫= f).
Proof.
  iIntros (Hi Hl Hn) "Hs Hf". iDestruct (fpot_step with "Hs") as %Hst; [done..|].
  iApply (tk_step (4 * fpot o (i_pos it) + 13 - 4 * fpot o (S (i_pos it))) (X + 4 * fpot o (S (i_pos it)))); [lia|karr; apply eff_move_next_iterator; apply karr_coarser|].
  iSplit; [by iApply (tk_next with "Hs")|]. iApply (wp_it_next with "Hs"); [done..|]. iIntros (it' H) "Hs". by iApply ("Hf" with "[//]").
Qed.
Lemma tk_walk_prev a l o it {B} (f : iterator_data → M T B) n X :
  it_ok o it → 0 < i_pos it → 14 + X + 4 * bpot o (i_pos it) ≤ n →
  seqp (C:=C) a a l o -∗
  (∀ it', ⌜it_ok o it' ∧ i_pos it' = i_pos it - 1⌝ → seqp a a l o -∗ tk (X + 4 * bpot o (i_pos it - 1)) (f it')) -∗
  tk n (it_prev it ≫= f).
Proof.
  iIntros (Hi Hl Hn) "Hs Hf". iDestruct (bpot_step with "Hs") as %Hst; [done..|].
  iApply (tk_step (4 * bpot o (i_pos it) + 14 - 4 * bpot o (i_pos it - 1)) (X + 4 * bpot o (i_pos it - 1))); [lia|karr; apply eff_move_prev_iterator; apply karr_coarser|].
  iSplit; [by iApply (tk_prev with "Hs")|]. iApply (wp_move_prev_iterator with "Hs"); [done..|]. iIntros (it' H) "Hs". by iApply ("Hf" with "[//]").
Qed.

(** something cheap first *)
Lemma tk_cheap j n X {A B} (m : M T A) (f : A → M T B) :
  any j m → eff karr m → j + X ≤ n → wp m (λ x, tk X (f x)) (λ _, True) ⊢ tk n (m ≫= f).
Proof.
  intros Hm He Hn. iIntros "H". iApply (tk_step j X); [done|done|]. iSplit; [by iApply tk_any_|done].
Qed.
Lemma a_deref it : eff karr (it_deref (T:=T) it).
Proof. change (eff karr (dereference (T:=T) it)). karr. Qed.
Lemma any_alg_move d e : any (T:=T) 4 (alg_move (C:=C) d e). Proof. apply any_assign_value. Qed.
Lemma any_iter_swap d e : any (T:=T) 8 (std_iter_swap (C:=C) d e).
Proof.
  unfold std_iter_swap. eapply any_mono; [eapply any_bind; [apply any_make_value|intros ?]; eapply any_bind; [apply any_alg_move|intros _];
    eapply any_bind; [apply any_move_tick|intros _]; eapply any_bind; [apply any_read_slot|intros _]; apply any_set_slot|lia].
Qed.

Lemma tk_pred n {B} (f : unit → M T B) : tk n (f ()) ⊢ tk n (pred_tick (C:=C) ≫= f).
Proof.
  iIntros "H". iApply (tk_cheap 0 _ n); [apply any_pred_tick|apply a_pred_tick|lia|]. iApply wp_pred_tick. iSplit; [done|by iIntros].
Qed.

Section loops.
Context (a : nat) (this : loc).
Notation seqp := (seqp (C:=C) a a this).
Ltac no_ := replace (_ =? _) with false by (symmetry; apply Nat.eqb_neq; lia).
Ltac yes_ := replace (_ =? _) with true by (symmetry; apply Nat.eqb_eq; lia).

Lemma tk_find_if o p b R first last n fuel :
  pred_spec p b R → (∀ v, any 1 (p v)) → (∀ v, eff karr (p v)) →
  it_ok o first → i_pos last = (i_pos first + n)%nat → i_pos last ≤ osize o → n < fuel →
  seqp o -∗ R -∗ tk (15 * n + 4 * fpot o (i_pos first)) (std_find_if fuel first last p).
Proof.
  intros Hp Hany Heff. revert first fuel. induction n as [|n IH]; intros first [|fuel] Hf Hl Hle Hfu; try lia;
    iIntros "Hs HR"; cbn [std_find_if]; rewrite /it_eq.
  { yes_. iApply tk_ret_. }
  no_. iApply (tk_cheap 1 _ (14 + 15 * n + 4 * fpot o (i_pos first))); [apply any_deref|apply a_deref|lia|].
  iApply (wp_it_deref with "Hs"); [done|lia|]. iIntros (x Hx) "Hs".
  iApply (tk_cheap 1 _ (13 + 15 * n + 4 * fpot o (i_pos first))); [apply Hany|apply Heff|lia|].
  iApply (Hp with "HR"). iSplit; [|by iIntros]. iIntros "HR". destruct (b x); [iApply tk_ret_|].
  iApply (tk_walk_next with "Hs"); [done|lia|done|]. iIntros (f' [Hf' Hp']) "Hs".
  rewrite -Hp'. iApply (IH with "Hs HR"); [done|lia|lia|lia].
Qed.
Lemma tk_remove_loop o p b R result first last n fuel :
  pred_spec p b R → (∀ v, any 1 (p v)) → (∀ v, eff karr (p v)) →
  it_ok o result → it_ok o first → i_pos result < i_pos first →
  i_pos last = (i_pos first + n)%nat → i_pos last ≤ osize o → n < fuel →
  seqp o -∗ R -∗ tk (32 * n + 4 * fpot o (i_pos result) + 4 * fpot o (i_pos first)) (std_remove_loop fuel result first last p).
Proof.
  intros Hp Hany Heff. revert o result first fuel.
  induction n as [|n IH]; intros o result first [|fuel] Hr Hf Hrf Hl Hle Hfu; try lia;
    iIntros "Hs HR"; cbn [std_remove_loop]; rewrite /it_eq.
  { yes_. iApply tk_ret_. }
  no_. iApply (tk_cheap 1 _ (31 + 32 * n + 4 * fpot o (i_pos result) + 4 * fpot o (i_pos first))); [apply any_deref|apply a_deref|lia|].
  iApply (wp_it_deref with "Hs"); [done|lia|]. iIntros (x Hx) "Hs".
  iApply (tk_cheap 1 _ (30 + 32 * n + 4 * fpot o (i_pos result) + 4 * fpot o (i_pos first))); [apply Hany|apply Heff|lia|].
  iApply (Hp with "HR"). iSplit; [|by iIntros]. iIntros "HR". destruct (b x).
  { iApply (tk_walk_next _ _ _ _ _ _ (17 + 32 * n + 4 * fpot o (i_pos result)) with "Hs"); [done|lia|lia|]. iIntros (f' [Hf' Hp']) "Hs".
    iApply (tk_mono (32 * n + 4 * fpot o (i_pos result) + 4 * fpot o (i_pos f'))); [rewrite Hp'; lia|].
    iApply (IH with "Hs HR"); [done|done|lia|lia|lia|lia]. }
  iApply (tk_cheap 4 _ (26 + 32 * n + 4 * fpot o (i_pos result) + 4 * fpot o (i_pos first))); [apply any_alg_move|apply a_alg_move|lia|].
  iApply (wp_alg_move with "Hs"); [done|done|lia|done|]. iIntros (o' [Hsh He]) "Hs".
  assert (osize o' = osize o) as Hsz by by apply oshape_osize.
  assert (it_ok o' result ∧ it_ok o' first) as [Hr' Hf'] by (split; by eapply it_ok_shape).
  rewrite !(fpot_shape o o'); [|done..].
  iApply (tk_walk_next _ _ _ _ _ _ (13 + 32 * n + 4 * fpot o' (i_pos first)) with "Hs"); [done|lia|lia|]. iIntros (r2 [Hr2 Hpr]) "Hs".
  iApply (tk_walk_next _ _ _ _ _ _ (32 * n + 4 * fpot o' (i_pos r2)) with "Hs"); [done|lia|rewrite Hpr; lia|]. iIntros (f2 [Hf2 Hpf]) "Hs".
  rewrite -Hpf. iApply (IH with "Hs HR"); [done|done|lia|lia|lia|lia].
Qed.
Lemma tk_remove_if o p b R first last :
  pred_spec p b R → (∀ v, any 1 (p v)) → (∀ v, eff karr (p v)) →
  it_ok o first → i_pos first = 0 → i_pos last = osize o →
  seqp o -∗ R -∗ tk (47 * osize o + 16 * lg (osize o)) (std_remove_if first last p).
Proof.
  intros Hp Hany Heff Hf Hp0 Hl. iIntros "Hs HR". rewrite /std_remove_if.
  iAssert (⌜∀ q, fpot o q + 1 ≤ lg (osize o)⌝)%I as %Hlg. { iIntros (q). by iApply (fpot_log with "Hs"). }
  iApply (tk_step (15 * osize o + 4 * fpot o (i_pos first)) (32 * osize o + 12 * lg (osize o))); [specialize (Hlg (i_pos first)); lia|by apply a_std_find_if|].
  iSplit; [iApply (tk_find_if with "Hs HR"); [done..|lia|lia|lia]|].
  iApply (wp_std_find_if _ _ _ _ _ _ _ _ _ (osize o) with "Hs HR"); [done|done|lia|lia|lia|].
  iSplit; [|iIntros; done]. iIntros (it k (Hit & Hpi & Hk & Hnone & Hsome)) "Hs HR". rewrite /it_eq. destruct (i_pos it =? i_pos last) eqn:Heq; [iApply tk_ret_|].
  apply Nat.eqb_neq in Heq.
  iApply (tk_walk_next _ _ _ _ _ _ (32 * (osize o - k - 1) + 4 * fpot o (i_pos it)) with "Hs"); [done|lia|pose proof (Hlg (i_pos it)); lia|].
  iIntros (nx [Hnx Hpn]) "Hs". rewrite -Hpn. iApply (tk_remove_loop with "Hs HR"); [done..|lia|lia|lia|lia].
Qed.

Lemma tk_adjacent_loop o first last (p : T → T → bool) n fuel :
  it_ok o first → i_pos last = (i_pos first + S n)%nat → i_pos last ≤ osize o → n < fuel →
  seqp o -∗ tk (15 * S n + 4 * fpot o (i_pos first)) (std_adjacent_loop fuel first last p).
Proof.
  revert first fuel. induction n as [|n IH]; intros first [|fuel] Hf Hl Hle Hfu; try lia;
    iIntros "Hs"; cbn [std_adjacent_loop]; rewrite /it_eq.
  - iApply (tk_walk_next _ _ _ _ _ _ 0 with "Hs"); [done|lia|lia|]. iIntros (f' [Hf' Hp']) "Hs". yes_. iApply tk_ret_.
  - iApply (tk_walk_next _ _ _ _ _ _ (2 + 15 * S n) with "Hs"); [done|lia|lia|]. iIntros (f' [Hf' Hp']) "Hs". no_. rewrite -Hp'.
    iApply (tk_cheap 1 _ (1 + 15 * S n + 4 * fpot o (i_pos f'))); [apply any_deref|apply a_deref|lia|].
    iApply (wp_it_deref with "Hs"); [done|lia|]. iIntros (x Hx) "Hs".
    iApply (tk_cheap 1 _ (15 * S n + 4 * fpot o (i_pos f'))); [apply any_deref|apply a_deref|lia|].
    iApply (wp_it_deref with "Hs"); [done|lia|]. iIntros (y Hy) "Hs".
    iApply tk_pred. destruct (p x y); [iApply tk_ret_|]. iApply (IH with "Hs"); [done|lia|lia|lia].
Qed.
Lemma tk_unique_loop o dest first last (p : T → T → bool) n fuel :
  it_ok o dest → it_ok o first → i_pos dest < i_pos first →
  i_pos last = (i_pos first + S n)%nat → i_pos last ≤ osize o → n < fuel →
  seqp o -∗ tk (32 * S n + 4 * fpot o (i_pos dest) + 4 * fpot o (i_pos first)) (std_unique_loop fuel dest first last p).
Proof.
  revert o dest first fuel. induction n as [|n IH]; intros o dest first [|fuel] Hd Hf Hdf Hl Hle Hfu; try lia;
    iIntros "Hs"; cbn [std_unique_loop]; rewrite /it_eq.
  - iApply (tk_walk_next _ _ _ _ _ _ (19 + 4 * fpot o (i_pos dest)) with "Hs"); [done|lia|lia|]. iIntros (f' [Hf' Hp']) "Hs". yes_.
    iDestruct (tk_next with "Hs") as "H"; [exact Hd|lia|]. iApply (tk_mono with "H"). lia.
  - iApply (tk_walk_next _ _ _ _ _ _ (19 + 32 * S n + 4 * fpot o (i_pos dest)) with "Hs"); [done|lia|lia|]. iIntros (f' [Hf' Hp']) "Hs". no_. rewrite -Hp'.
    iApply (tk_cheap 1 _ (18 + 32 * S n + 4 * fpot o (i_pos dest) + 4 * fpot o (i_pos f'))); [apply any_deref|apply a_deref|lia|].
    iApply (wp_it_deref with "Hs"); [done|lia|]. iIntros (x Hx) "Hs".
    iApply (tk_cheap 1 _ (17 + 32 * S n + 4 * fpot o (i_pos dest) + 4 * fpot o (i_pos f'))); [apply any_deref|apply a_deref|lia|].
    iApply (wp_it_deref with "Hs"); [done|lia|]. iIntros (y Hy) "Hs".
    iApply tk_pred. destruct (p x y).
    { iApply (tk_mono (32 * S n + 4 * fpot o (i_pos dest) + 4 * fpot o (i_pos f'))); [lia|].
      iApply (IH with "Hs"); [done|done|lia|lia|lia|lia]. }
    iApply (tk_walk_next _ _ _ _ _ _ (4 + 32 * S n + 4 * fpot o (i_pos f')) with "Hs"); [done|lia|lia|]. iIntros (d' [Hd' Hpd]) "Hs". rewrite -Hpd.
    iApply (tk_cheap 4 _ (32 * S n + 4 * fpot o (i_pos d') + 4 * fpot o (i_pos f'))); [apply any_alg_move|apply a_alg_move|lia|].
    iApply (wp_alg_move with "Hs"); [done|done|lia|done|]. iIntros (o' [Hsh He]) "Hs".
    assert (osize o' = osize o) as Hsz by by apply oshape_osize.
    rewrite !(fpot_shape o o'); [|done..].
    iApply (IH with "Hs"); [by eapply it_ok_shape|by eapply it_ok_shape|lia|lia|lia|lia].
Qed.
Lemma tk_unique o first last (p : T → T → bool) :
  it_ok o first → it_ok o last → i_pos first = 0 → i_pos last = osize o →
  seqp o -∗ tk (47 * osize o + 16 * lg (osize o)) (std_unique first last p).
Proof.
  intros Hf Hlast Hp0 Hl. iIntros "Hs". rewrite /std_unique.
  iAssert (⌜∀ q, fpot o q + 1 ≤ lg (osize o)⌝)%I as %Hlg. { iIntros (q). by iApply (fpot_log with "Hs"). }
  destruct (oelems o) as [|x xs] eqn:Hel.
  { assert (osize o = 0) as Hz by (rewrite osize_elems Hel //). replace (it_eq first last) with true by (symmetry; apply Nat.eqb_eq; lia). rewrite ret_bind /it_eq Nat.eqb_refl. iApply tk_ret_. }
  assert (osize o = S (length xs)) as Hz by (rewrite osize_elems Hel //).
  replace (it_eq first last) with false by (symmetry; apply Nat.eqb_neq; lia).
  iApply (tk_step (15 * osize o + 4 * fpot o (i_pos first)) (32 * osize o + 12 * lg (osize o))); [specialize (Hlg (i_pos first)); lia|apply a_std_adjacent_loop|].
  iSplit; [rewrite {1}Hz; iApply (tk_adjacent_loop with "Hs"); [done|lia|lia|lia]|].
  iApply (wp_std_adjacent_loop _ _ _ _ _ _ _ x (length xs) with "Hs"); [done|done|by rewrite Hp0 Hel|lia|lia|].
  iSplit; [|iIntros; done]. iIntros (it k (Hit & Hpi & Hk)) "Hs". rewrite /it_eq. destruct (i_pos it =? i_pos last) eqn:Heq; [iApply tk_ret_|].
  apply Nat.eqb_neq in Heq. destruct Hk as [[-> _]|(y & z & Hk & Hy & Hz' & _)]; [lia|].
  iApply (tk_walk_next _ _ _ _ _ _ (32 * S (length xs - k - 1) + 4 * fpot o (i_pos it)) with "Hs"); [done|lia|pose proof (Hlg (i_pos it)); lia|].
  iIntros (nx [Hnx Hpn]) "Hs". rewrite -Hpn. iApply (tk_unique_loop with "Hs"); [done..|lia|lia|lia|lia].
Qed.
Lemma tk_reverse_loop o first last n fuel :
  it_ok o first → it_ok o last → i_pos last < osize o → S (i_pos last) ≤ i_pos first + n → n < fuel →
  seqp o -∗ tk (35 * n + 4 * fpot o (i_pos first) + 4 * bpot o (i_pos last)) (std_reverse_loop (C:=C) fuel first last).
Proof.
  revert o first last n. induction fuel as [|fuel IH]; intros o first last n Hf Hl Hlt Hn Hfu; [lia|].
  iIntros "Hs". cbn [std_reverse_loop]. rewrite /it_lt. destruct (_ <? _) eqn:E; [|iApply tk_ret_]. apply Nat.ltb_lt in E.
  destruct (lookup_lt_is_Some_2 (oelems o) (i_pos first)) as [x Hx]; [unfold osize in *; lia|].
  destruct (lookup_lt_is_Some_2 (oelems o) (i_pos last)) as [y Hy]; [unfold osize in *; lia|].
  destruct n as [|n]; [lia|].
  iApply (tk_cheap 8 _ (27 + 35 * n + 4 * fpot o (i_pos first) + 4 * bpot o (i_pos last))); [apply any_iter_swap|apply a_std_iter_swap|lia|].
  iApply (wp_std_iter_swap _ _ _ _ _ _ x y with "Hs"); [done|done|done|done|lia|]. iIntros (o' [Hsh He]) "Hs".
  assert (osize o' = osize o) as Hsz by by apply oshape_osize.
  rewrite (fpot_shape o o') // (bpot_shape o o') //.
  iApply (tk_walk_next _ _ _ _ _ _ (14 + 35 * n + 4 * bpot o' (i_pos last)) with "Hs"); [by eapply it_ok_shape|lia|lia|].
  iIntros (f' [Hf' Hp']) "Hs".
  iApply (tk_walk_prev _ _ _ _ _ _ (35 * n + 4 * fpot o' (i_pos f')) with "Hs"); [by eapply it_ok_shape|lia|rewrite Hp'; lia|].
  iIntros (l' [Hl' Hpl']) "Hs". rewrite -Hpl'. iApply (IH with "Hs"); [done|done|lia|lia|lia].
Qed.
Lemma tk_std_reverse o first last :
  it_ok o first → it_ok o last → i_pos first = 0 → i_pos last = osize o →
  seqp o -∗ tk (35 * osize o + 14 + 8 * lg (osize o)) (std_reverse (C:=C) first last).
Proof.
  intros Hf Hl Hp0 Hpl. iIntros "Hs". rewrite /std_reverse /it_eq. destruct (_ =? _) eqn:E; [iApply tk_ret_|]. apply Nat.eqb_neq in E.
  iDestruct (fpot_log a this o (i_pos first) with "Hs") as %H1. iDestruct (bpot_log a this o (i_pos last) with "Hs") as %H2.
  iApply (tk_walk_prev _ _ _ _ _ _ (35 * osize o + 4 * fpot o (i_pos first)) with "Hs"); [done|lia|lia|].
  iIntros (l' [Hl' Hpl']) "Hs". rewrite -Hpl'. iApply (tk_reverse_loop with "Hs"); [done|done|lia|lia|lia].
Qed.
End loops.

(** comparison *)
Lemma tk_equal R a l1 o1 b l2 o2 f1 e1 f2 (eq : T → T → bool) n fuel :
  readable (C:=C) R a a l1 o1 → readable (C:=C) R b b l2 o2 →
  it_ok o1 f1 → it_ok o2 f2 → i_pos e1 = osize o1 → osize o1 = osize o2 → i_pos f1 = i_pos f2 →
  osize o1 - i_pos f1 = n → n < fuel →
  R -∗ tk (28 * n + 4 * fpot o1 (i_pos f1) + 4 * fpot o2 (i_pos f2)) (std_equal fuel f1 e1 f2 eq).
Proof.
  intros R1 R2. revert f1 f2 n.
  induction fuel as [|fuel IH]; iIntros (f1 f2 n H1 H2 He Hsz Hp Hn Hfu) "HR"; [lia|].
  pose proof (it_ok_le _ _ H1). cbn [std_equal]. rewrite /it_eq. destruct (_ =? _) eqn:Heq; [iApply tk_ret_|]. apply Nat.eqb_neq in Heq.
  destruct n as [|n]; [lia|].
  iApply (tk_cheap 1 _ (27 + 28 * n + 4 * fpot o1 (i_pos f1) + 4 * fpot o2 (i_pos f2))); [apply any_deref|apply a_deref|lia|].
  iApply (rd_deref with "HR"); [exact R1|done|lia|]. iIntros (x Hx) "HR".
  iApply (tk_cheap 1 _ (26 + 28 * n + 4 * fpot o1 (i_pos f1) + 4 * fpot o2 (i_pos f2))); [apply any_deref|apply a_deref|lia|].
  iApply (rd_deref with "HR"); [exact R2|done|lia|]. iIntros (y Hy) "HR". iApply tk_pred. destruct (eq x y); [|iApply tk_ret_].
  iDestruct (R1 with "HR") as "[Hs HR]".
  iApply (tk_walk_next _ _ _ _ _ _ (13 + 28 * n + 4 * fpot o2 (i_pos f2)) with "Hs"); [done|lia|lia|]. iIntros (f1' [Hf1 Hp1]) "Hs".
  iDestruct ("HR" with "Hs") as "HR". iDestruct (R2 with "HR") as "[Hs HR]".
  iApply (tk_walk_next _ _ _ _ _ _ (28 * n + 4 * fpot o1 (i_pos f1')) with "Hs"); [done|lia|rewrite Hp1; lia|]. iIntros (f2' [Hf2 Hp2]) "Hs".
  iDestruct ("HR" with "Hs") as "HR". rewrite -Hp2. iApply (IH with "HR"); [done..|lia|lia|lia].
Qed.
Lemma tk_lex R a l1 o1 b l2 o2 f1 e1 f2 e2 (lt : T → T → bool) n fuel :
  readable (C:=C) R a a l1 o1 → readable (C:=C) R b b l2 o2 →
  it_ok o1 f1 → it_ok o2 f2 → i_pos e1 = osize o1 → i_pos e2 = osize o2 → 
  osize o1 - i_pos f1 < fuel → (osize o1 - i_pos f1) `min` (osize o2 - i_pos f2) ≤ n →
  R -∗ tk (28 * n + 4 * fpot o1 (i_pos f1) + 4 * fpot o2 (i_pos f2)) (std_lexicographical_compare fuel f1 e1 f2 e2 lt).
Proof.
  intros R1 R2. revert f1 f2 n.
  induction fuel as [|fuel IH]; iIntros (f1 f2 n H1 H2 He1 He2 Hfu Hn) "HR"; [lia|].
  pose proof (it_ok_le _ _ H1). pose proof (it_ok_le _ _ H2). cbn [std_lexicographical_compare]. rewrite /it_eq.
  destruct (i_pos f1 =? i_pos e1) eqn:Heq1; [iApply tk_ret_|]. apply Nat.eqb_neq in Heq1.
  destruct (i_pos f2 =? i_pos e2) eqn:Heq2; [iApply tk_ret_|]. apply Nat.eqb_neq in Heq2.
  destruct n as [|n]; [lia|].
  iApply (tk_cheap 1 _ (27 + 28 * n + 4 * fpot o1 (i_pos f1) + 4 * fpot o2 (i_pos f2))); [apply any_deref|apply a_deref|lia|].
  iApply (rd_deref with "HR"); [exact R1|done|lia|]. iIntros (x Hx) "HR".
  iApply (tk_cheap 1 _ (26 + 28 * n + 4 * fpot o1 (i_pos f1) + 4 * fpot o2 (i_pos f2))); [apply any_deref|apply a_deref|lia|].
  iApply (rd_deref with "HR"); [exact R2|done|lia|]. iIntros (y Hy) "HR". iApply tk_pred. destruct (lt x y); [iApply tk_ret_|]. iApply tk_pred. destruct (lt y x); [iApply tk_ret_|].
  iDestruct (R1 with "HR") as "[Hs HR]".
  iApply (tk_walk_next _ _ _ _ _ _ (13 + 28 * n + 4 * fpot o2 (i_pos f2)) with "Hs"); [done|lia|lia|]. iIntros (f1' [Hf1 Hp1]) "Hs".
  iDestruct ("HR" with "Hs") as "HR". iDestruct (R2 with "HR") as "[Hs HR]".
  iApply (tk_walk_next _ _ _ _ _ _ (28 * n + 4 * fpot o1 (i_pos f1')) with "Hs"); [done|lia|rewrite Hp1; lia|]. iIntros (f2' [Hf2 Hp2]) "Hs".
  iDestruct ("HR" with "Hs") as "HR". rewrite -Hp2. iApply (IH with "HR"); [done..|lia|lia].
Qed.

(** ** assignment: linear in what is overwritten, logarithmic for every element added or removed *)
(** the iterator of an input range, with potential [pc] *)
Definition inp_walk (n : nat) (J : input → nat → hprop T) (pc : nat → nat) : Prop :=
  ∀ r k, k < n → (J r k ⊢ ⌜4 * pc (S k) ≤ 4 * pc k + 13⌝) ∧ (J r k ⊢ tk (4 * pc k + 13 - 4 * pc (S k)) (input_next r)).
Lemma ins_walk mv b src o p n : inp_walk n (ins_J (C:=C) b b mv src o p n) (λ k, fpot o (p + k)).
Proof.
  intros r k Hk.
  split; iIntros "[%H HX]"; destruct H as (f & l & -> & Hf & Hpf & Hpl & Hkn & Hn); iDestruct "HX" as (o' [Hsh _]) "Hs";
  (assert (it_ok o' f) as Hf' by by eapply it_ok_shape); (assert (osize o' = osize o) as Hsz by by apply oshape_osize).
  - iDestruct (fpot_step with "Hs") as %H; [exact Hf'|lia|]. iPureIntro. rewrite !(fpot_shape o o'); [|done..].
    rewrite Hpf in H. by rewrite (Nat.add_succ_r p k).
  - rewrite /input_next. iApply (tk_tail _ 0); [intros ?; apply any_ret|rewrite Nat.add_0_r; done|].
    iDestruct (tk_next with "Hs") as "H"; [exact Hf'|lia|]. iApply (tk_mono with "H").
    rewrite Hpf !(fpot_shape o o'); [|done..]. by rewrite (Nat.add_succ_r p k).
Qed.
Lemma walk_frame n J pc (F : hprop T) : inp_walk n J pc → inp_walk n (λ r k, J r k ∗ F)%I pc.
Proof.
  intros H r k Hk. destruct (H r k Hk) as [H1 H2]. split; [|iIntros "[HJ _]"; by iApply H2].
  iIntros "[HJ HF]". iDestruct (H1 with "HJ") as %H'. done.
Qed.
Lemma list_walk n xs : inp_walk n (inl_J xs) (λ _, 0).
Proof.
  intros r k Hk. split; iIntros "%H"; [iPureIntro; lia|]. destruct H as [-> _]. iApply tk_any_. eapply any_mono; [|apply Nat.le_0_l].
  apply any_list_next.
Qed.

Section assign.
Context (a : nat) (this : loc).
Notation seqp := (seqp (C:=C) a a this).
Notation L := (L (C:=C)).
Lemma lg_L N : 4 * lg N ≤ L N.
Proof. rewrite /Credits.L. pose proof (base_3 (C:=C)). pose proof (segment_max_pos (C:=C)). rewrite /un. nia. Qed.
Definition apart (m n : nat) : nat := (m - n) + (n - m).
Lemma tk_assign_count_lin count s x R o first last N :
  src_spec s x R R → it_ok o first → it_ok o last → i_pos last = osize o →
  i_pos first + count < c_W C → i_pos first + count ≤ N → osize o ≤ N →
  seqp o ∗ R ⊢ tk (17 * (count `min` (i_pos last - i_pos first)) + apart count (i_pos last - i_pos first) * (72 * L N) + 8 * L N + 4 * fpot o (i_pos first))
    (assign_count_loop this count s first last).
Proof.
  intros Hsrc. revert o first last.
  induction count as [|count IH]; iIntros (o first last Hf Hl Hpl HW HN HN') "[Hs HR]"; cbn [assign_count_loop];
    pose proof (it_ok_le _ _ Hf) as Hle.
  { iApply tk_pre; [intros; apply any_ret|karr|].
    iApply (tk_mono with "[Hs]"); [|iApply (tk_erase_range with "Hs"); [done|lia|done]]. rewrite /apart. generalize (i_pos last - i_pos first). intros m. nia. }
  destruct (i_pos first =? i_pos last) eqn:Heq.
  { apply Nat.eqb_eq in Heq. iApply tk_pre; [intros; apply any_ret|apply a_emplace_count|].
    iCombine "Hs HR" as "H". iDestruct (tk_emplace_count _ _ _ last (S count) s _ _ N with "H") as "H"; [done|done|lia|lia|].
    iApply (tk_mono with "H"). rewrite Heq Nat.sub_diag /apart. lia. }
  apply Nat.eqb_neq in Heq. set (X := 17 * (count `min` (i_pos last - S (i_pos first))) + apart count (i_pos last - S (i_pos first)) * (72 * L N) + 8 * L N).
  iApply (tk_cheap 4 _ (13 + X + 4 * fpot o (i_pos first))); [apply any_assign_value|apply a_assign_value| |].
  { unfold X. replace (i_pos last - i_pos first) with (S (i_pos last - S (i_pos first))) by lia.
    replace (apart (S count) (S (i_pos last - S (i_pos first)))) with (apart count (i_pos last - S (i_pos first))) by (unfold apart; lia). lia. }
  iApply (wp_assign_value a a this o first with "Hs HR"); [done|done|lia|]. iSplit; [|by iIntros].
  iIntros (o' [Hsh He]) "Hs HR". assert (osize o' = osize o) as Hsz by by apply oshape_osize.
  rewrite !(fpot_shape o o'); [|done..]. change (move_next_iterator first) with (it_next (T:=T) first).
  iApply (tk_walk_next _ _ _ _ _ _ X with "Hs"); [by eapply it_ok_shape|lia|lia|]. iIntros (f2 [Hf2 Hp2]) "Hs". unfold X. rewrite -Hp2.
  iApply IH; [done|by eapply it_ok_shape|lia|lia|lia|lia|]. iFrame.
Qed.
Lemma tk_assign_count_linear count s x R o N :
  src_spec s x R R → count < c_W C → count ≤ N → osize o ≤ N →
  seqp o ∗ R ⊢ tk (17 * (count `min` osize o) + apart count (osize o) * (72 * L N) + 28 * L N) (assign_count this count s).
Proof.
  iIntros (Hsrc HW HN HN') "[Hs HR]". rewrite /assign_count. pose proof (L_mono (C:=C) _ _ HN').
  iApply (tk_step (8 * L N) (17 * (count `min` osize o) + apart count (osize o) * (72 * L N) + 20 * L N)); [lia|karr|]. iSplit.
  { iApply (tk_mono (8 * L (osize o))); [lia|]. by iApply (tk_find_first with "Hs"). }
  iApply (wp_find_first with "Hs"). iIntros (f [Hf Hpf]) "Hs".
  iApply (tk_step (8 * L N) (17 * (count `min` osize o) + apart count (osize o) * (72 * L N) + 12 * L N)); [lia|karr|]. iSplit.
  { iApply (tk_mono (8 * L (osize o))); [lia|]. by iApply (tk_find_end with "Hs"). }
  iApply (wp_find_end with "Hs"). iIntros (l [Hl Hpl]) "Hs".
  iDestruct (fpot_log a this o (i_pos f) with "Hs") as %Hlg. iCombine "Hs HR" as "H".
  iDestruct (tk_assign_count_lin count _ _ _ _ f l N with "H") as "H"; [done|done|done|done|lia|lia|done|].
  iApply (tk_mono with "H"). rewrite Hpl Hpf Nat.sub_0_r. rewrite Hpf in Hlg. pose proof (lg_L N). pose proof (lg_mono _ _ HN'). lia.
Qed.
Lemma tk_assign_range_lin xs I J X late pc fuel o r k first last N :
  inp_spec xs I J X late → inp_cost (C:=C) J (8 * L N) → inp_walk (length xs) J pc → (∀ r k, I r k ⊢ ⌜length xs - k < input_fuel r⌝) →
  it_ok o first → it_ok o last → i_pos last = osize o →
  i_pos first + (length xs - k) < c_W C → length xs - k < fuel → i_pos first + (length xs - k) ≤ N → osize o ≤ N →
  seqp o ∗ I r k ⊢ tk (30 * ((length xs - k) `min` (i_pos last - i_pos first)) + apart (length xs - k) (i_pos last - i_pos first) * (80 * L N)
      + 8 * L N + 4 * fpot o (i_pos first) + 4 * pc k) (assign_range_loop fuel this r first last).
Proof.
  intros Hinp Hcost Hwalk Hfuel. revert o r k first last.
  induction fuel as [|fuel IH]; iIntros (o r k first last Hf Hl Hpl HW Hfu HN HN') "[Hs HI]"; [lia|];
    cbn [assign_range_loop]; pose proof (it_ok_le _ _ Hf) as Hle.
  iDestruct (Hfuel with "HI") as %Hfr. iApply (tk_input_end with "HI"); [done|intros []; [|destruct (_ =? _)]; karr|]. iIntros (Hk) "HI".
  destruct (k =? length xs) eqn:Hkx.
  { apply Nat.eqb_eq in Hkx. iApply tk_pre; [intros; apply any_ret|karr|].
    iApply (tk_mono ((i_pos last - i_pos first) * (72 * L N)) with "[Hs]"); [|iApply (tk_erase_range with "Hs"); [done|lia|done]].
    rewrite Hkx Nat.sub_diag /apart. generalize (i_pos last - i_pos first). intros m. nia. }
  apply Nat.eqb_neq in Hkx.
  destruct (i_pos first =? i_pos last) eqn:Heq.
  { apply Nat.eqb_eq in Heq. iApply tk_pre; [intros; apply any_ret|apply a_emplace_range|].
    iCombine "Hs HI" as "H". iDestruct (tk_emplace_range _ _ _ _ _ _ _ _ last r k N with "H") as "H"; [done|done|done|lia|done|lia|].
    iApply (tk_mono with "H"). rewrite Heq Nat.sub_diag /apart. generalize (length xs - k). intros m. nia. }
  apply Nat.eqb_neq in Heq. destruct (lookup_lt_is_Some_2 xs k) as [x Hx]; [lia|].
  set (Y := 30 * ((length xs - S k) `min` (i_pos last - S (i_pos first))) + apart (length xs - S k) (i_pos last - S (i_pos first)) * (80 * L N) + 8 * L N).
  iApply (tk_cheap 0 _ (30 + Y + 4 * fpot o (i_pos first) + 4 * pc k)); [apply any_input_src|apply a_input_src| |].
  { unfold Y. replace (i_pos last - i_pos first) with (S (i_pos last - S (i_pos first))) by lia.
    replace (length xs - k) with (S (length xs - S k)) by lia. generalize (length xs - S k) (i_pos last - S (i_pos first)). intros u v.
    replace (apart (S u) (S v)) with (apart u v) by (unfold apart; lia). lia. }
  iApply (inp_src _ _ _ _ _ Hinp with "HI"); [done|]. iSplit; [|by iIntros]. iIntros (s Hsrc) "HI".
  iApply (tk_cheap 4 _ (26 + Y + 4 * fpot o (i_pos first) + 4 * pc k)); [apply any_assign_value|apply a_assign_value|lia|].
  iApply (wp_assign_value a a this o first with "Hs HI"); [done|done|lia|]. iSplit; [|by iIntros].
  iIntros (o' [Hsh He]) "Hs HJ". assert (osize o' = osize o) as Hsz by by apply oshape_osize.
  rewrite !(fpot_shape o o'); [|done..]. change (move_next_iterator first) with (it_next (T:=T) first).
  iApply (tk_walk_next _ _ _ _ _ _ (13 + Y + 4 * pc k) with "Hs"); [by eapply it_ok_shape|lia|lia|]. iIntros (f2 [Hf2 Hp2]) "Hs".
  destruct (Hwalk r k ltac:(lia)) as [Hw1 Hw2]. iDestruct (Hw1 with "HJ") as %Hst. rewrite -Hp2.
  iApply (tk_step (4 * pc k + 13 - 4 * pc (S k)) (Y + 4 * fpot o' (i_pos f2) + 4 * pc (S k))); [lia|apply a_input_next|]. iSplit; [by iApply (Hw2 with "HJ")|].
  iApply (inp_next _ _ _ _ _ Hinp with "HJ"); [lia|]. iSplit; [|by iIntros]. iIntros (r') "HI". unfold Y. rewrite -Hp2.
  iApply IH; [done|by eapply it_ok_shape|lia|lia|lia|lia|lia|]. iFrame.
Qed.
Lemma tk_assign_range_linear xs I J X late pc o r N :
  inp_spec xs I J X late → inp_cost (C:=C) J (8 * L N) → inp_walk (length xs) J pc → (∀ r k, I r k ⊢ ⌜length xs - k < input_fuel r⌝) →
  (I r 0 ⊢ ⌜pc 0 ≤ lg N⌝) → length xs < c_W C → length xs ≤ N → osize o ≤ N →
  seqp o ∗ I r 0 ⊢ tk (30 * (length xs `min` osize o) + apart (length xs) (osize o) * (80 * L N) + 32 * L N) (assign_range this r).
Proof.
  iIntros (Hinp Hcost Hwalk Hfuel Hpc HW HN HN') "[Hs HI]". rewrite /assign_range. pose proof (L_mono (C:=C) _ _ HN').
  iApply (tk_step (8 * L N) (30 * (length xs `min` osize o) + apart (length xs) (osize o) * (80 * L N) + 24 * L N)); [lia|karr|]. iSplit.
  { iApply (tk_mono (8 * L (osize o))); [lia|]. by iApply (tk_find_first with "Hs"). }
  iApply (wp_find_first with "Hs"). iIntros (f [Hf Hpf]) "Hs".
  iApply (tk_step (8 * L N) (30 * (length xs `min` osize o) + apart (length xs) (osize o) * (80 * L N) + 16 * L N)); [lia|karr|]. iSplit.
  { iApply (tk_mono (8 * L (osize o))); [lia|]. by iApply (tk_find_end with "Hs"). }
  iApply (wp_find_end with "Hs"). iIntros (l [Hl Hpl]) "Hs".
  iDestruct (fpot_log a this o (i_pos f) with "Hs") as %Hlg. iDestruct (Hfuel with "HI") as %Hfr. iDestruct (Hpc with "HI") as %Hlp. iCombine "Hs HI" as "H".
  iDestruct (tk_assign_range_lin _ _ _ _ _ _ _ _ _ _ f l N with "H") as "H"; [done|done|done|done|done|done|done|lia|exact Hfr|lia|done|].
  iApply (tk_mono with "H"). rewrite Hpl Hpf !Nat.sub_0_r. rewrite Hpf in Hlg. pose proof (lg_L N). pose proof (lg_mono _ _ HN'). lia.
Qed.
End assign.
End linear.
