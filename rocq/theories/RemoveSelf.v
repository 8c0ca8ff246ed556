(** * RemoveSelf: remove(value) with [value] a reference to an element of the same
    sequence.  Proof infrastructure. *)
From Verif Require Export SeqList.
From stdpp Require Import options.
Set Default Proof Using "Type*".

Section self.
Context {T : Type} {C : cfg T} {OK : cfg_ok C} {FZ : frozen T}.
Context (ea na : nat).
Implicit Types o : option (tree T).
Implicit Types xs ys vs : list T.
Notation seqp := (seqp ea na).

(** a predicate that reads element [q] of the sequence, which is [v] *)
Definition self_spec (this : loc) (p : T → M T bool) (b : T → bool) (q : nat) (v : T) sh : Prop :=
  ∀ o x (Q : bool → hprop T) E, oshape o = sh → oelems o !! q = Some v →
    seqp this o ⊢ ((seqp this o -∗ Q (b x)) ∧ (⌜pred_fails C⌝ → seqp this o -∗ E EPred)) -∗ wp (p x) Q E.

Lemma wp_std_find_if_self this o p b q v first last n fuel Q E :
  self_spec this p b q v (oshape o) → oelems o !! q = Some v →
  it_ok o first → i_pos last = (i_pos first + n)%nat → i_pos last ≤ osize o → n < fuel →
  seqp this o -∗
  ((∀ it k, ⌜it_ok o it ∧ i_pos it = (i_pos first + k)%nat ∧ k ≤ n ∧
      Forall (λ x, b x = false) (slice (i_pos first) k (oelems o)) ∧
      (k < n → ∃ x, oelems o !! i_pos it = Some x ∧ b x = true)⌝ →
     seqp this o -∗ Q it) ∧
   (∀ k, ⌜pred_fails C ∧ k < n ∧ Forall (λ x, b x = false) (slice (i_pos first) k (oelems o))⌝ →
     seqp this o -∗ E EPred)) -∗
  wp (std_find_if fuel first last p) Q E.
Proof.
  intros Hp Hq. revert first fuel Q. induction n as [|n IH]; intros first [|fuel] Q Hf Hl Hle Hfu; try lia;
    iIntros "Hs HQ"; cbn [std_find_if]; rewrite /it_eq.
  { replace (_ =? _) with true by (symmetry; apply Nat.eqb_eq; lia). wp_ret.
    iDestruct "HQ" as "[HQ _]".
    iApply ("HQ" $! first 0 with "[%] Hs"). split_and!; [done|lia|lia|constructor|lia]. }
  replace (_ =? _) with false by (symmetry; apply Nat.eqb_neq; lia).
  wp_bind. iApply (wp_it_deref with "Hs"); [done|lia|]. iIntros (x Hx) "Hs".
  wp_bind. iApply (Hp with "Hs"); [done|done|]. iSplit; last first.
  { iIntros (Hpf) "Hs". iDestruct "HQ" as "[_ HQ]". iApply ("HQ" $! 0 with "[%] Hs"). split_and!; [done|lia|constructor]. }
  iIntros "Hs". destruct (b x) eqn:Hb.
  { wp_ret. iDestruct "HQ" as "[HQ _]". iApply ("HQ" $! first 0 with "[%] Hs"). split_and!; [done|lia|lia|constructor|]. intros _. eauto. }
  wp_bind. iApply (wp_it_next with "Hs"); [done|lia|]. iIntros (f' [Hf' Hp']) "Hs".
  iApply (IH with "Hs"); [done|lia|lia|lia|]. iSplit; last first.
  { iIntros (k (H1 & H2 & H3)) "Hs". iDestruct "HQ" as "[_ HQ]". iApply ("HQ" $! (S k) with "[%] Hs").
    split_and!; [done|lia|]. rewrite (slice_S _ _ _ x) //. constructor; [done|]. by rewrite Hp' in H3. }
  iIntros (it k (H1 & H2 & H3 & H4 & H5)) "Hs". iDestruct "HQ" as "[HQ _]".
  iApply ("HQ" $! it (S k) with "[%] Hs"). split_and!; [done|lia|lia| |].
  - rewrite (slice_S _ _ _ x) //. constructor; [done|]. by rewrite Hp' in H4.
  - intros. apply H5. lia.
Qed.

(** element [q] keeps its value: it is not moved since [b v], and nothing is
    moved to it since no more than [q] elements are kept *)
Lemma wp_std_remove_loop_self this o p b q v result first last n fuel Q E :
  self_spec this p b q v (oshape o) → oelems o !! q = Some v → b v = true →
  i_pos result + length (remove_list b (slice (i_pos first) n (oelems o))) ≤ q →
  it_ok o result → it_ok o first → i_pos result < i_pos first →
  i_pos last = (i_pos first + n)%nat → i_pos last ≤ osize o → n < fuel →
  seqp this o -∗
  ((∀ o' it, ⌜oshape o' = oshape o ∧ it_ok o' it ∧ i_pos it ≤ i_pos last ∧
      take (i_pos it) (oelems o') = take (i_pos result) (oelems o) ++ remove_list b (slice (i_pos first) n (oelems o)) ∧
      drop (i_pos last) (oelems o') = drop (i_pos last) (oelems o)⌝ →
     seqp this o' -∗ Q it) ∧
   (∀ o' i gap, ⌜pred_fails C ∧ i < n ∧ oshape o' = oshape o ∧
      oelems o' = take (i_pos result) (oelems o) ++ remove_list b (slice (i_pos first) i (oelems o)) ++
        gap ++ drop (i_pos first + i) (oelems o)⌝ →
     seqp this o' -∗ E EPred)) -∗
  wp (std_remove_loop fuel result first last p) Q E.
Proof.
  intros Hp Hq Hbv. revert o result first fuel Q Hp Hq.
  induction n as [|n IH]; intros o result first [|fuel] Q Hp Hq Hk Hr Hf Hrf Hl Hle Hfu; try lia;
    iIntros "Hs HQ"; cbn [std_remove_loop]; rewrite /it_eq.
  { replace (_ =? _) with true by (symmetry; apply Nat.eqb_eq; lia). wp_ret.
    iDestruct "HQ" as "[HQ _]".
    iApply ("HQ" $! o result with "[%] Hs"). split_and!; [done|done|lia| |done]. by rewrite slice_0 right_id_L. }
  replace (_ =? _) with false by (symmetry; apply Nat.eqb_neq; lia).
  wp_bind. iApply (wp_it_deref with "Hs"); [done|lia|]. iIntros (x Hx) "Hs".
  rewrite (slice_S _ _ _ x) // /= in Hk.
  wp_bind. iApply (Hp with "Hs"); [done|done|]. iSplit; last first.
  { iIntros (Hpf) "Hs". iDestruct "HQ" as "[_ HQ]".
    iApply ("HQ" $! o 0 (slice (i_pos result) (i_pos first - i_pos result) (oelems o)) with "[%] Hs"). split_and!; [done|lia|done|].
    rewrite slice_0 /= Nat.add_0_r /slice. replace (i_pos first) with (i_pos result + (i_pos first - i_pos result)) at 2 by lia.
    rewrite -drop_drop !take_drop //. }
  iIntros "Hs". destruct (b x) eqn:Hb.
  { wp_bind. iApply (wp_it_next with "Hs"); [done|lia|]. iIntros (f' [Hf' Hp']) "Hs".
    iApply (IH with "Hs"); [done|done|by rewrite Hp'|done|done|lia|lia|lia|lia|]. iSplit; last first.
    { iIntros (o' i gap (H1 & H2 & H3 & H4)) "Hs". iDestruct "HQ" as "[_ HQ]".
      iApply ("HQ" $! o' (S i) gap with "[%] Hs"). split_and!; [done|lia|done|].
      rewrite H4 Hp' (slice_S _ _ _ x) //= Hb. do 4 f_equal. lia. }
    iDestruct "HQ" as "[HQ _]". iIntros (o' it (H1 & H2 & H3 & H4 & H5)) "Hs".
    iApply ("HQ" $! o' it with "[%] Hs"). split_and!; [done..| |done].
    rewrite H4 Hp' (slice_S _ _ _ x) //=. by rewrite Hb. }
  simpl in Hk.
  wp_bind. iApply (wp_alg_move with "Hs"); [done|done|lia|done|]. iIntros (o' [Hsh He]) "Hs".
  assert (osize o' = osize o) as Hsz by by apply oshape_osize.
  assert (it_ok o' result ∧ it_ok o' first) as [Hr' Hf'] by (split; by eapply it_ok_shape).
  assert (oelems o' !! q = Some v) as Hq'.
  { rewrite He list_lookup_insert_ne; [|lia]. rewrite list_lookup_insert_ne; [done|]. intros <-. congruence. }
  wp_bind. iApply (wp_it_next with "Hs"); [done|lia|]. iIntros (r2 [Hr2 Hpr]) "Hs".
  wp_bind. iApply (wp_it_next with "Hs"); [done|lia|]. iIntros (f2 [Hf2 Hpf]) "Hs".
  iApply (IH with "Hs"); [by rewrite Hsh|done| |done|done|lia|lia|lia|lia|].
  { rewrite Hpr Hpf He /slice !drop_insert_gt; [|lia..]. unfold slice in Hk. lia. }
  iSplit; last first.
  { iIntros (o2 i gap (H1 & H2 & H3 & H4)) "Hs". iDestruct "HQ" as "[_ HQ]".
    iApply ("HQ" $! o2 (S i) gap with "[%] Hs"). split_and!; [done|lia|congruence|].
    rewrite H4 Hpf (slice_S _ _ _ x) //=. rewrite Hb He Hpr.
    rewrite (take_S_r _ _ x); last first.
    { apply list_lookup_insert. rewrite insert_length. unfold osize in *. lia. }
    rewrite take_insert // take_insert; [|lia]. rewrite -assoc_L /=. f_equal. f_equal.
    replace (i_pos first + S i) with (S (i_pos first + i)) by lia.
    rewrite /slice !drop_insert_gt //; lia. }
  iDestruct "HQ" as "[HQ _]". iIntros (o2 it (H1 & H2 & H3 & H4 & H5)) "Hs".
  iApply ("HQ" $! o2 it with "[%] Hs"). split_and!; [congruence|done|done| |].
  - rewrite H4 Hpf (slice_S _ _ _ x) //=. rewrite Hb He Hpr.
    rewrite (take_S_r _ _ x); last first.
    { apply list_lookup_insert. rewrite insert_length. unfold osize in *. lia. }
    rewrite take_insert // take_insert; [|lia]. rewrite -assoc_L /=. f_equal. f_equal. f_equal.
    rewrite /slice !drop_insert_gt //; lia.
  - rewrite H5 He !drop_insert_gt //; lia.
Qed.

Lemma wp_remove_self this o s it v (eq : T → T → bool) Q E :
  it_ok o it → oelems o !! i_pos it = Some v → s = it_ref it → eq v v = true →
  length (remove_list (λ x, eq x v) (oelems o)) ≤ i_pos it →
  seqp this o -∗
  ((∀ o', ⌜oelems o' = remove_list (λ x, eq x v) (oelems o)⌝ → seqp this o' -∗ Q ()) ∧
   (∀ o', ⌜pred_fails C ∧ oshape o' = oshape o ∧ stopped (remove_list (λ x, eq x v)) (oelems o) (oelems o')⌝ →
      seqp this o' -∗ E EPred)) -∗
  wp (remove this s eq) Q E.
Proof.
  iIntros (Hit Hv -> Hvv Hk) "Hs HQ". set (b := λ x, eq x v) in *. rewrite /remove.
  set (p := λ x, v ← peek (it_ref it); pred_tick;; mret (eq x v)).
  assert (self_spec this p b (i_pos it) v (oshape o)) as Hp.
  { intros o1 x Q' E' Hsh Hv1. iIntros "Hs HQ". rewrite /p /peek /it_ref. wp_bind.
    iApply (wp_read_it with "Hs"); [by eapply it_ok_shape|by apply lookup_lt_Some in Hv1|]. iIntros (z Hz) "Hs".
    rewrite Hv1 in Hz. injection Hz as <-. wp_bind. iApply wp_pred_tick. iSplit.
    + iDestruct "HQ" as "[HQ _]". wp_ret. by iApply "HQ".
    + iIntros (?). iDestruct "HQ" as "[_ HQ]". by iApply "HQ". }
  change (b v = true) in Hvv. clearbody p b.
  wp_bind. iApply (wp_find_first with "Hs"). iIntros (f [Hf Hp0]) "Hs".
  wp_bind. iApply (wp_find_end with "Hs"). iIntros (l [Hlo Hl]) "Hs".
  wp_bind. rewrite /std_remove_if. wp_bind.
  iApply (wp_std_find_if_self _ _ _ _ _ _ _ _ (osize o) with "Hs"); [done|done|done|lia|lia|lia|]. iSplit; last first.
  { iIntros (k (H1 & H2 & H3)) "Hs". iDestruct "HQ" as "[_ HQ]". iApply ("HQ" $! o with "[%] Hs").
    split_and!; [done|done|]. exists k, []. split_and!; [done|done|]. rewrite Hp0 /slice drop_0 in H3.
    rewrite remove_list_none //= take_drop //. }
  iIntros (g k (H1 & H2 & H3 & H4 & H5)) "Hs". rewrite /it_eq. rewrite Hp0 in H4, H2.
  rewrite /slice drop_0 in H4.
  destruct (_ =? _) eqn:Heq.
  { apply Nat.eqb_eq in Heq. exfalso.
    assert (k = osize o) as -> by lia. rewrite osize_elems firstn_all in H4. rewrite remove_list_none // in Hk.
    apply lookup_lt_Some in Hv. lia. }
  apply Nat.eqb_neq in Heq. destruct H5 as (x & Hx & Hb); [lia|].
  rewrite H2 in Hx.
  assert (oelems o = take k (oelems o) ++ x :: drop (S k) (oelems o)) as Hsplit by by rewrite take_drop_middle.
  assert (remove_list b (oelems o) = take k (oelems o) ++ remove_list b (drop (S k) (oelems o))) as Hrm.
  { rewrite {1}Hsplit remove_list_app (remove_list_none _ (take k _)) //= Hb //. }
  assert (slice (S k) (osize o - S k) (oelems o) = drop (S k) (oelems o)) as Hsl.
  { rewrite /slice take_ge //. rewrite drop_length osize_elems. lia. }
  wp_bind. iApply (wp_it_next with "Hs"); [done|lia|]. iIntros (f' [Hf' Hp']) "Hs".
  iApply (wp_std_remove_loop_self _ _ _ _ _ _ _ _ _ (osize o - S k) with "Hs"); [done|done| | |done|done|lia|lia|lia|lia|].
  { done. }
  { rewrite Hp' H2 Hsl. rewrite Hrm app_length take_length in Hk. rewrite osize_elems in H3. lia. }
  iSplit; last first.
  { iIntros (o' i gap (G1 & G2 & G3 & G4)) "Hs". iDestruct "HQ" as "[_ HQ]". iApply ("HQ" $! o' with "[%] Hs").
    split_and!; [done|done|]. exists (S (k + i)), gap. split_and!; [rewrite -osize_elems; lia|by apply oshape_osize|].
    assert (take (S (k + i)) (oelems o) = take k (oelems o) ++ x :: slice (S k) i (oelems o)) as ->.
    { rewrite -(slice_S _ _ _ x) // /slice -Nat.add_succ_r -take_take_drop //. }
    rewrite remove_list_app (remove_list_none _ (take k _)) //= Hb -assoc_L G4 Hp' H2 //. }
  iDestruct "HQ" as "[HQ _]". iIntros (o' g' (G1 & G2 & G3 & G4 & G5)) "Hs".
  iApply (wp_erase_tail with "Hs"); [done|]. iIntros (o2 He2) "Hs". iApply ("HQ" with "[%] Hs").
  rewrite He2 G4 Hp' H2 Hsl Hrm //.
Qed.
End self.
