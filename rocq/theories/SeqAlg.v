(** * SeqAlg: the standard algorithms that seq applies to its own iterators.
    Proof infrastructure. *)
From Verif Require Export SeqMem Spec ModelApi.
From stdpp Require Import options.
Set Default Proof Using "Type*".

Section alg.
Context {T : Type} {C : cfg T} {OK : cfg_ok C} {FZ : frozen T}.
Context (ea na : nat).
Implicit Types o : option (tree T).
Implicit Types xs ys vs : list T.
Notation seqp := (seqp ea na).

(** [ys] from position [p] on, [n] elements *)
Definition slice (p n : nat) (ys : list T) : list T := take n (drop p ys).
Lemma slice_0 p ys : slice p 0 ys = [].
Proof. done. Qed.
Lemma slice_S p n ys x : ys !! p = Some x → slice p (S n) ys = x :: slice (S p) n ys.
Proof. intros Hx. rewrite /slice (drop_S _ _ _ Hx) //. Qed.
Lemma slice_length p n ys : p + n ≤ length ys → length (slice p n ys) = n.
Proof. intros. rewrite take_length drop_length. lia. Qed.
Lemma slice_all ys : slice 0 (length ys) ys = ys.
Proof. rewrite /slice drop_0 firstn_all //. Qed.

Lemma osize_elems o : osize o = length (oelems o).
Proof. done. Qed.
Lemma shape_trans o1 o2 o3 : oshape (T:=T) o1 = oshape o2 → oshape o2 = oshape o3 → oshape o1 = oshape o3.
Proof. congruence. Qed.

Lemma wp_it_next this o it Q E :
  it_ok o it → i_pos it < osize o →
  seqp this o -∗ (∀ it', ⌜it_ok o it' ∧ i_pos it' = S (i_pos it)⌝ → seqp this o -∗ Q it') -∗
  wp (it_next it) Q E.
Proof.
  iIntros (H1 H2) "Hs HQ". iApply (wp_move_next_iterator with "Hs"); [done..|].
  iIntros (it' [??]) "Hs". iApply ("HQ" with "[%] Hs"). split; [done|lia].
Qed.
Lemma wp_it_deref this o it Q E :
  it_ok o it → i_pos it < osize o →
  seqp this o -∗ (∀ x, ⌜oelems o !! i_pos it = Some x⌝ → seqp this o -∗ Q x) -∗ wp (it_deref it) Q E.
Proof. iIntros (H1 H2) "Hs HQ". by iApply (wp_read_it with "Hs"). Qed.

Lemma wp_alg_read this o first last n fuel Q E :
  it_ok o first → i_pos last = (i_pos first + n)%nat → i_pos last ≤ osize o → n < fuel →
  seqp this o -∗ (seqp this o -∗ Q (slice (i_pos first) n (oelems o))) -∗ wp (alg_read fuel first last) Q E.
Proof.
  revert first fuel Q. induction n as [|n IH]; intros first [|fuel] Q Hf Hl Hle Hfu; try lia;
    iIntros "Hs HQ"; cbn [alg_read]; rewrite /it_eq.
  { replace (_ =? _) with true by (symmetry; apply Nat.eqb_eq; lia). wp_ret. by iApply "HQ". }
  replace (_ =? _) with false by (symmetry; apply Nat.eqb_neq; lia).
  wp_bind. iApply (wp_it_deref with "Hs"); [done|lia|]. iIntros (x Hx) "Hs".
  wp_bind. iApply (wp_it_next with "Hs"); [done|lia|]. iIntros (f' [Hf' Hp']) "Hs".
  wp_bind. iApply (IH with "Hs"); [done|lia|lia|lia|]. iIntros "Hs". wp_ret.
  rewrite Hp' (slice_S _ _ _ x) //. by iApply "HQ".
Qed.

(** [ys] with [vs] written over it from position [p] on *)
Definition over (p : nat) (vs ys : list T) : list T := take p ys ++ vs ++ drop (p + length vs) ys.
Lemma over_length p vs ys : p + length vs ≤ length ys → length (over p vs ys) = length ys.
Proof. intros. rewrite /over. len. Qed.
Lemma over_cons p v vs ys : p < length ys → over (S p) vs (<[p := v]> ys) = over p (v :: vs) ys.
Proof.
  intros. rewrite /over. rewrite (take_S_r _ _ v); [|by apply list_lookup_insert].
  rewrite take_insert // -assoc_L. f_equal. simpl. f_equal. f_equal. rewrite drop_insert_gt; [|lia]. f_equal. lia.
Qed.
Lemma over_nil p ys : over p [] ys = ys.
Proof. rewrite /over /= Nat.add_0_r take_drop //. Qed.
Lemma over_all vs ys : length vs = length ys → over 0 vs ys = vs.
Proof. intros. rewrite /over /= drop_ge; [|lia]. by rewrite right_id_L. Qed.

Lemma wp_alg_write this o first vs Q E :
  it_ok o first → i_pos first + length vs ≤ osize o →
  seqp this o -∗
  (∀ o', ⌜oshape o' = oshape o ∧ oelems o' = over (i_pos first) vs (oelems o)⌝ → seqp this o' -∗ Q ()) -∗
  wp (alg_write first vs) Q E.
Proof.
  revert o first Q. induction vs as [|v vs IH]; iIntros (o first Q Hf Hle) "Hs HQ"; cbn [alg_write]; simpl in Hle.
  { wp_ret. iApply ("HQ" with "[%] Hs"). by rewrite over_nil. }
  wp_bind. iApply wp_move_tick. wp_bind. iApply (wp_read_it with "Hs"); [done|lia|]. iIntros (x Hx) "Hs".
  wp_bind. iApply (wp_write_it with "Hs"); [done|lia|]. iIntros (o' [Hsh He]) "Hs".
  assert (osize o' = osize o) as Hsz by by apply oshape_osize.
  wp_bind. iApply (wp_it_next with "Hs"); [by eapply it_ok_shape|lia|]. iIntros (f' [Hf' Hp']) "Hs".
  iApply (IH with "Hs"); [done|lia|]. iIntros (o2 [Hsh2 He2]) "Hs". iApply ("HQ" with "[%] Hs").
  split; [congruence|]. rewrite He2 Hp' He over_cons //. unfold osize in *. lia.
Qed.

Lemma wp_alg_finish this o b first vs rs Q E :
  it_ok o first → i_pos first = 0 → length vs = osize o → length rs = osize o →
  seqp this o -∗
  ((∀ o', ⌜oshape o' = oshape o ∧ oelems o' = rs⌝ → seqp this o' -∗ Q ()) ∧
   (∀ o', ⌜pred_fails C ∧ b = true ∧ oshape o' = oshape o⌝ → seqp this o' -∗ E EPred)) -∗
  wp (alg_finish b first vs rs) Q E.
Proof.
  iIntros (Hf Hp Hv Hr) "Hs HQ". rewrite /alg_finish. destruct b.
  - wp_bind. iApply wp_pred_clock. iIntros (n). wp_bind.
    iApply (wp_alg_write with "Hs"); [done|destruct (c_pred_ok C n); rewrite ?ok_scramble; lia|].
    iIntros (o' [Hsh He]) "Hs". iApply wp_pred_done. destruct (c_pred_ok C n) eqn:Hok.
    + iDestruct "HQ" as "[HQ _]". iApply ("HQ" with "[%] Hs"). split; [done|]. rewrite He Hp over_all //.
    + iDestruct "HQ" as "[_ HQ]". iApply ("HQ" with "[%] Hs"). split_and!; [by exists n|done..].
  - iDestruct "HQ" as "[HQ _]". iApply (wp_alg_write with "Hs"); [done|lia|]. iIntros (o' [Hsh He]) "Hs".
    iApply ("HQ" with "[%] Hs"). split; [done|]. rewrite He Hp over_all //.
Qed.
Lemma wp_std_stable_sort this o first last lt Q E :
  it_ok o first → i_pos first = 0 → i_pos last = osize o →
  seqp this o -∗
  ((∀ o', ⌜oshape o' = oshape o ∧ oelems o' = stable_sorted lt (oelems o)⌝ → seqp this o' -∗ Q ()) ∧
   (∀ o', ⌜pred_fails C ∧ 1 < osize o ∧ oshape o' = oshape o⌝ → seqp this o' -∗ E EPred)) -∗
  wp (std_stable_sort first last lt) Q E.
Proof.
  iIntros (Hf Hp Hl) "Hs HQ". rewrite /std_stable_sort. wp_bind.
  iApply (wp_alg_read _ _ _ _ (osize o) with "Hs"); [done|lia|lia|lia|]. iIntros "Hs".
  rewrite Hp osize_elems slice_all. iApply (wp_alg_finish with "Hs"); [done|done|done| |].
  { rewrite stable_sorted_length //. }
  iSplit; [iDestruct "HQ" as "[HQ _]"; done|iDestruct "HQ" as "[_ HQ]"].
  iIntros (o' (Hpf & Hb & Hsh)) "Hs". iApply ("HQ" with "[%] Hs"). apply Nat.ltb_lt in Hb. done.
Qed.
Lemma wp_std_inplace_merge this o first mid last lt Q E :
  it_ok o first → it_ok o mid → i_pos first = 0 → i_pos last = osize o →
  seqp this o -∗
  ((∀ o', ⌜oshape o' = oshape o ∧
      oelems o' = stable_merged lt (take (i_pos mid) (oelems o)) (drop (i_pos mid) (oelems o))⌝ → seqp this o' -∗ Q ()) ∧
   (∀ o', ⌜pred_fails C ∧ 0 < i_pos mid < osize o ∧ oshape o' = oshape o⌝ → seqp this o' -∗ E EPred)) -∗
  wp (std_inplace_merge first mid last lt) Q E.
Proof.
  iIntros (Hf Hm Hp Hl) "Hs HQ". rewrite /std_inplace_merge. pose proof (it_ok_le _ _ Hm) as Hle. wp_bind.
  iApply (wp_alg_read _ _ _ _ (i_pos mid) with "Hs"); [done|lia|lia|lia|]. iIntros "Hs". wp_bind.
  iApply (wp_alg_read _ _ _ _ (osize o - i_pos mid) with "Hs"); [done|lia|lia|lia|]. iIntros "Hs".
  rewrite Hp /slice drop_0 (take_ge (drop _ _)); [|rewrite drop_length osize_elems; lia].
  iApply (wp_alg_finish with "Hs"); [done|done| | |].
  { rewrite take_drop //. }
  { rewrite stable_merged_length -app_length take_drop //. }
  iSplit; [iDestruct "HQ" as "[HQ _]"; done|iDestruct "HQ" as "[_ HQ]"].
  iIntros (o' (Hpf & Hb & Hsh)) "Hs". iApply ("HQ" with "[%] Hs"). apply andb_true_iff in Hb as [Hb1 Hb2].
  apply Nat.ltb_lt in Hb1, Hb2. rewrite take_length in Hb1. rewrite drop_length -osize_elems in Hb2. split_and!; [done|lia|lia|done].
Qed.

(** ** remove_if *)
(** a predicate that reads only the memory [R], and may throw *)
Definition pred_spec (p : T → M T bool) (b : T → bool) (R : hprop T) : Prop :=
  ∀ v (Q : bool → hprop T) E, R ⊢ ((R -∗ Q (b v)) ∧ (⌜pred_fails C⌝ → R -∗ E EPred)) -∗ wp (p v) Q E.

Lemma wp_std_find_if this o p b R first last n fuel Q E :
  pred_spec p b R →
  it_ok o first → i_pos last = (i_pos first + n)%nat → i_pos last ≤ osize o → n < fuel →
  seqp this o -∗ R -∗
  ((∀ it k, ⌜it_ok o it ∧ i_pos it = (i_pos first + k)%nat ∧ k ≤ n ∧
      Forall (λ x, b x = false) (slice (i_pos first) k (oelems o)) ∧
      (k < n → ∃ x, oelems o !! i_pos it = Some x ∧ b x = true)⌝ →
     seqp this o -∗ R -∗ Q it) ∧
   (∀ k, ⌜pred_fails C ∧ k < n ∧ Forall (λ x, b x = false) (slice (i_pos first) k (oelems o))⌝ →
     seqp this o -∗ R -∗ E EPred)) -∗
  wp (std_find_if fuel first last p) Q E.
Proof.
  intros Hp. revert first fuel Q. induction n as [|n IH]; intros first [|fuel] Q Hf Hl Hle Hfu; try lia;
    iIntros "Hs HR HQ"; cbn [std_find_if]; rewrite /it_eq.
  { replace (_ =? _) with true by (symmetry; apply Nat.eqb_eq; lia). wp_ret.
    iDestruct "HQ" as "[HQ _]".
    iApply ("HQ" $! first 0 with "[%] Hs HR"). split_and!; [done|lia|lia|constructor|lia]. }
  replace (_ =? _) with false by (symmetry; apply Nat.eqb_neq; lia).
  wp_bind. iApply (wp_it_deref with "Hs"); [done|lia|]. iIntros (x Hx) "Hs".
  wp_bind. iApply (Hp with "HR"). iSplit; last first.
  { iIntros (Hpf) "HR". iDestruct "HQ" as "[_ HQ]". iApply ("HQ" $! 0 with "[%] Hs HR"). split_and!; [done|lia|constructor]. }
  iIntros "HR". destruct (b x) eqn:Hb.
  { wp_ret. iDestruct "HQ" as "[HQ _]". iApply ("HQ" $! first 0 with "[%] Hs HR"). split_and!; [done|lia|lia|constructor|]. intros _. eauto. }
  wp_bind. iApply (wp_it_next with "Hs"); [done|lia|]. iIntros (f' [Hf' Hp']) "Hs".
  iApply (IH with "Hs HR"); [done|lia|lia|lia|]. iSplit; last first.
  { iIntros (k (H1 & H2 & H3)) "Hs HR". iDestruct "HQ" as "[_ HQ]". iApply ("HQ" $! (S k) with "[%] Hs HR").
    split_and!; [done|lia|]. rewrite (slice_S _ _ _ x) //. constructor; [done|]. by rewrite Hp' in H3. }
  iIntros (it k (H1 & H2 & H3 & H4 & H5)) "Hs HR". iDestruct "HQ" as "[HQ _]".
  iApply ("HQ" $! it (S k) with "[%] Hs HR"). split_and!; [done|lia|lia| |].
  - rewrite (slice_S _ _ _ x) //. constructor; [done|]. by rewrite Hp' in H4.
  - intros. apply H5. lia.
Qed.

Lemma wp_make_move this o it x Q E :
  it_ok o it → oelems o !! i_pos it = Some x →
  seqp this o -∗
  (∀ o', ⌜oshape o' = oshape o ∧ oelems o' = <[i_pos it := c_residue C x]> (oelems o)⌝ → seqp this o' -∗ Q x) -∗
  wp (make_value (it_mv it)) Q E.
Proof.
  iIntros (Hit Hx) "Hs HQ". rewrite /make_value /it_mv. wp_bind.
  iApply (wp_read_it with "Hs"); [done|by apply lookup_lt_Some in Hx|]. iIntros (y Hy) "Hs".
  rewrite Hx in Hy. injection Hy as <-. wp_bind. iApply wp_move_tick. wp_bind.
  iApply (wp_write_it with "Hs"); [done|by apply lookup_lt_Some in Hx|]. iIntros (o' Ho') "Hs".
  wp_ret. by iApply ("HQ" with "[%] Hs").
Qed.
Lemma wp_alg_move this o d s x Q E :
  it_ok o d → it_ok o s → i_pos d < osize o → oelems o !! i_pos s = Some x →
  seqp this o -∗
  (∀ o', ⌜oshape o' = oshape o ∧ oelems o' = <[i_pos d := x]> (<[i_pos s := c_residue C x]> (oelems o))⌝ →
     seqp this o' -∗ Q ()) -∗
  wp (alg_move d s) Q E.
Proof.
  iIntros (Hd Hs Hlt Hx) "Hs HQ". rewrite /alg_move /it_assign /assign_value. wp_bind.
  iApply (wp_make_move this o s x with "Hs"); [done|done|]. iIntros (o' [Hsh He]) "Hs".
  assert (osize o' = osize o) as Hsz by by apply oshape_osize.
  assert (it_ok o' d) by by eapply it_ok_shape.
  wp_bind. iApply (wp_read_it with "Hs"); [done|lia|]. iIntros (y _) "Hs".
  iApply (wp_write_it with "Hs"); [done|lia|]. iIntros (o2 [Hsh2 He2]) "Hs".
  iApply ("HQ" with "[%] Hs"). split; [congruence|]. by rewrite He2 He.
Qed.

Lemma wp_std_remove_loop this o p b R result first last n fuel Q E :
  pred_spec p b R →
  it_ok o result → it_ok o first → i_pos result < i_pos first →
  i_pos last = (i_pos first + n)%nat → i_pos last ≤ osize o → n < fuel →
  seqp this o -∗ R -∗
  ((∀ o' it, ⌜oshape o' = oshape o ∧ it_ok o' it ∧ i_pos it ≤ i_pos last ∧
      take (i_pos it) (oelems o') = take (i_pos result) (oelems o) ++ remove_list b (slice (i_pos first) n (oelems o)) ∧
      drop (i_pos last) (oelems o') = drop (i_pos last) (oelems o)⌝ →
     seqp this o' -∗ R -∗ Q it) ∧
   (∀ o' i gap, ⌜pred_fails C ∧ i < n ∧ oshape o' = oshape o ∧
      oelems o' = take (i_pos result) (oelems o) ++ remove_list b (slice (i_pos first) i (oelems o)) ++
        gap ++ drop (i_pos first + i) (oelems o)⌝ →
     seqp this o' -∗ R -∗ E EPred)) -∗
  wp (std_remove_loop fuel result first last p) Q E.
Proof.
  intros Hp. revert o result first fuel Q.
  induction n as [|n IH]; intros o result first [|fuel] Q Hr Hf Hrf Hl Hle Hfu; try lia;
    iIntros "Hs HR HQ"; cbn [std_remove_loop]; rewrite /it_eq.
  { replace (_ =? _) with true by (symmetry; apply Nat.eqb_eq; lia). wp_ret.
    iDestruct "HQ" as "[HQ _]".
    iApply ("HQ" $! o result with "[%] Hs HR"). split_and!; [done|done|lia| |done]. by rewrite slice_0 right_id_L. }
  replace (_ =? _) with false by (symmetry; apply Nat.eqb_neq; lia).
  wp_bind. iApply (wp_it_deref with "Hs"); [done|lia|]. iIntros (x Hx) "Hs".
  wp_bind. iApply (Hp with "HR"). iSplit; last first.
  { iIntros (Hpf) "HR". iDestruct "HQ" as "[_ HQ]".
    iApply ("HQ" $! o 0 (slice (i_pos result) (i_pos first - i_pos result) (oelems o)) with "[%] Hs HR"). split_and!; [done|lia|done|].
    rewrite slice_0 /= Nat.add_0_r /slice. replace (i_pos first) with (i_pos result + (i_pos first - i_pos result)) at 2 by lia.
    rewrite -drop_drop !take_drop //. }
  iIntros "HR". destruct (b x) eqn:Hb.
  { wp_bind. iApply (wp_it_next with "Hs"); [done|lia|]. iIntros (f' [Hf' Hp']) "Hs".
    iApply (IH with "Hs HR"); [done|done|lia|lia|lia|lia|]. iSplit; last first.
    { iIntros (o' i gap (H1 & H2 & H3 & H4)) "Hs HR". iDestruct "HQ" as "[_ HQ]".
      iApply ("HQ" $! o' (S i) gap with "[%] Hs HR"). split_and!; [done|lia|done|].
      rewrite H4 Hp' (slice_S _ _ _ x) //= Hb. do 4 f_equal. lia. }
    iDestruct "HQ" as "[HQ _]". iIntros (o' it (H1 & H2 & H3 & H4 & H5)) "Hs HR".
    iApply ("HQ" $! o' it with "[%] Hs HR"). split_and!; [done..| |done].
    rewrite H4 Hp' (slice_S _ _ _ x) //=. by rewrite Hb. }
  wp_bind. iApply (wp_alg_move with "Hs"); [done|done|lia|done|]. iIntros (o' [Hsh He]) "Hs".
  assert (osize o' = osize o) as Hsz by by apply oshape_osize.
  assert (it_ok o' result ∧ it_ok o' first) as [Hr' Hf'] by (split; by eapply it_ok_shape).
  wp_bind. iApply (wp_it_next with "Hs"); [done|lia|]. iIntros (r2 [Hr2 Hpr]) "Hs".
  wp_bind. iApply (wp_it_next with "Hs"); [done|lia|]. iIntros (f2 [Hf2 Hpf]) "Hs".
  iApply (IH with "Hs HR"); [done|done|lia|lia|lia|lia|]. iSplit; last first.
  { iIntros (o2 i gap (H1 & H2 & H3 & H4)) "Hs HR". iDestruct "HQ" as "[_ HQ]".
    iApply ("HQ" $! o2 (S i) gap with "[%] Hs HR"). split_and!; [done|lia|congruence|].
    rewrite H4 Hpf (slice_S _ _ _ x) //=. rewrite Hb He Hpr.
    rewrite (take_S_r _ _ x); last first.
    { apply list_lookup_insert. rewrite insert_length. unfold osize in *. lia. }
    rewrite take_insert // take_insert; [|lia]. rewrite -assoc_L /=. f_equal. f_equal.
    replace (i_pos first + S i) with (S (i_pos first + i)) by lia.
    rewrite /slice !drop_insert_gt //; lia. }
  iDestruct "HQ" as "[HQ _]". iIntros (o2 it (H1 & H2 & H3 & H4 & H5)) "Hs HR".
  iApply ("HQ" $! o2 it with "[%] Hs HR"). split_and!; [congruence|done|done| |].
  - rewrite H4 Hpf (slice_S _ _ _ x) //=. rewrite Hb He Hpr.
    rewrite (take_S_r _ _ x); last first.
    { apply list_lookup_insert. rewrite insert_length. unfold osize in *. lia. }
    rewrite take_insert // take_insert; [|lia]. rewrite -assoc_L /=. f_equal. f_equal. f_equal.
    rewrite /slice !drop_insert_gt //; lia.
  - rewrite H5 He !drop_insert_gt //; lia.
Qed.

Lemma remove_list_none (b : T → bool) l : Forall (λ x, b x = false) l → remove_list b l = l.
Proof. induction 1 as [|x l Hx _ IH]; simpl; [done|]. by rewrite Hx IH. Qed.
Lemma remove_list_app (b : T → bool) l1 l2 : remove_list b (l1 ++ l2) = remove_list b l1 ++ remove_list b l2.
Proof. induction l1 as [|x l IH]; simpl; [done|]. destruct (b x); by rewrite IH. Qed.

Lemma wp_std_remove_if this o p b R first last Q E :
  pred_spec p b R →
  it_ok o first → i_pos first = 0 → i_pos last = osize o →
  seqp this o -∗ R -∗
  ((∀ o' it, ⌜oshape o' = oshape o ∧ it_ok o' it ∧ take (i_pos it) (oelems o') = remove_list b (oelems o)⌝ →
     seqp this o' -∗ R -∗ Q it) ∧
   (∀ o', ⌜pred_fails C ∧ oshape o' = oshape o ∧ stopped (remove_list b) (oelems o) (oelems o')⌝ →
     seqp this o' -∗ R -∗ E EPred)) -∗
  wp (std_remove_if first last p) Q E.
Proof.
  iIntros (Hp Hf Hp0 Hl) "Hs HR HQ". rewrite /std_remove_if. wp_bind.
  iApply (wp_std_find_if _ _ _ _ _ _ _ (osize o) with "Hs HR"); [done|done|lia|lia|lia|]. iSplit; last first.
  { iIntros (k (H1 & H2 & H3)) "Hs HR". iDestruct "HQ" as "[_ HQ]". iApply ("HQ" $! o with "[%] Hs HR").
    split_and!; [done|done|]. exists k, []. split_and!; [done|done|]. rewrite Hp0 /slice drop_0 in H3.
    rewrite remove_list_none //= take_drop //. }
  iIntros (it k (H1 & H2 & H3 & H4 & H5)) "Hs HR". rewrite /it_eq. rewrite Hp0 in H4, H2.
  rewrite /slice drop_0 in H4.
  destruct (_ =? _) eqn:Heq.
  { apply Nat.eqb_eq in Heq. wp_ret. iDestruct "HQ" as "[HQ _]".
    iApply ("HQ" $! o it with "[%] Hs HR"). split_and!; [done|done|].
    assert (k = osize o) as -> by lia. rewrite osize_elems firstn_all in H4. rewrite remove_list_none //.
    rewrite Heq Hl osize_elems firstn_all //. }
  apply Nat.eqb_neq in Heq. destruct H5 as (x & Hx & Hb); [lia|].
  wp_bind. iApply (wp_it_next with "Hs"); [done|lia|]. iIntros (f' [Hf' Hp']) "Hs".
  iApply (wp_std_remove_loop _ _ _ _ _ _ _ _ (osize o - S k) with "Hs HR"); [done|done|done|lia|lia|lia|lia|].
  iSplit; last first.
  { iIntros (o' i gap (G1 & G2 & G3 & G4)) "Hs HR". iDestruct "HQ" as "[_ HQ]". iApply ("HQ" $! o' with "[%] Hs HR").
    split_and!; [done|done|]. exists (S (k + i)), gap. split_and!; [rewrite -osize_elems; lia|by apply oshape_osize|].
    assert (take (S (k + i)) (oelems o) = take k (oelems o) ++ x :: slice (S k) i (oelems o)) as ->.
    { rewrite H2 in Hx. rewrite -(slice_S _ _ _ x) // /slice -Nat.add_succ_r -take_take_drop //. }
    rewrite remove_list_app (remove_list_none _ (take k _)) //= Hb -assoc_L G4 Hp' H2 //. }
  iDestruct "HQ" as "[HQ _]". iIntros (o' it' (G1 & G2 & G3 & G4 & G5)) "Hs HR". iApply ("HQ" $! o' it' with "[%] Hs HR").
  split_and!; [done|done|]. rewrite G4 Hp' H2 /=.
  rewrite -{3}(take_drop_middle _ _ _ Hx) remove_list_app /= Hb H2 /=.
  rewrite (remove_list_none _ (take k _)) //. f_equal. f_equal. rewrite /slice take_ge //.
  rewrite drop_length osize_elems //.
Qed.

(** ** unique *)
Lemma wp_std_adjacent_loop this o first last (p : T → T → bool) x n fuel Q E :
  it_ok o first → it_ok o last → oelems o !! i_pos first = Some x →
  i_pos last = (i_pos first + S n)%nat → n < fuel →
  seqp this o -∗
  ((∀ it k, ⌜it_ok o it ∧ i_pos it = (i_pos first + k)%nat ∧
      ((k = S n ∧ unique_from p x (slice (S (i_pos first)) n (oelems o)) = slice (i_pos first) (S n) (oelems o)) ∨
       (∃ y z, k < n ∧ oelems o !! i_pos it = Some y ∧ oelems o !! S (i_pos it) = Some z ∧ p y z = true ∧
          ∀ m, k ≤ m ≤ n → unique_from p x (slice (S (i_pos first)) m (oelems o)) =
            slice (i_pos first) k (oelems o) ++ unique_from p y (slice (S (i_pos it)) (m - k) (oelems o))))⌝ →
     seqp this o -∗ Q it) ∧
   (∀ k, ⌜pred_fails C ∧ k < n ∧
      unique_from p x (slice (S (i_pos first)) k (oelems o)) = slice (i_pos first) (S k) (oelems o)⌝ →
     seqp this o -∗ E EPred)) -∗
  wp (std_adjacent_loop fuel first last p) Q E.
Proof.
  revert first x fuel Q. induction n as [|n IH]; intros first x [|fuel] Q Hf Hlast Hx Hl Hfu; try lia;
    pose proof (it_ok_le _ _ Hlast); iIntros "Hs HQ"; cbn [std_adjacent_loop]; rewrite /it_eq;
    wp_bind; iApply (wp_it_next with "Hs"); [done|lia| |done|lia|]; iIntros (f' [Hf' Hp']) "Hs".
  { replace (_ =? _) with true by (symmetry; apply Nat.eqb_eq; lia). wp_ret.
    iDestruct "HQ" as "[HQ _]". iApply ("HQ" $! last 1 with "[%] Hs"). split_and!; [done|lia|left]. split; [done|].
    rewrite (slice_S _ _ _ x) //. }
  replace (_ =? _) with false by (symmetry; apply Nat.eqb_neq; lia).
  wp_bind. iApply (wp_it_deref with "Hs"); [done|lia|]. iIntros (x' Hx') "Hs".
  rewrite Hx in Hx'. injection Hx' as <-.
  wp_bind. iApply (wp_it_deref with "Hs"); [done|lia|]. iIntros (y Hy) "Hs".
  rewrite Hp' in Hy. wp_bind. iApply wp_pred_tick. iSplit; last first.
  { iIntros (Hpf). iDestruct "HQ" as "[_ HQ]". iApply ("HQ" $! 0 with "[%] Hs"). split_and!; [done|lia|].
    rewrite slice_0 /= (slice_S _ _ _ x) //. }
  destruct (p x y) eqn:Hxy.
  { wp_ret. iDestruct "HQ" as "[HQ _]". iApply ("HQ" $! first 0 with "[%] Hs"). split_and!; [done|lia|right]. exists x, y.
    split_and!; [lia|done|done|done|]. intros m _. rewrite slice_0 Nat.sub_0_r //. }
  iApply (IH with "Hs"); [done|done|by rewrite Hp'|lia|lia|]. iSplit; last first.
  { iIntros (k (H1 & H2 & H3)) "Hs". iDestruct "HQ" as "[_ HQ]". iApply ("HQ" $! (S k) with "[%] Hs").
    split_and!; [done|lia|]. rewrite Hp' in H3. rewrite (slice_S _ _ _ y Hy). cbn [unique_from]. rewrite Hxy H3.
    rewrite (slice_S (i_pos first) _ _ x) //. }
  iDestruct "HQ" as "[HQ _]". iIntros (it k (H1 & H2 & H3)) "Hs".
  iApply ("HQ" $! it (S k) with "[%] Hs"). split_and!; [done|lia|]. rewrite Hp' in H3.
  destruct H3 as [[-> H3]|(u & v & Hk & Hu & Hv & Huv & H3)]; [left|right].
  - split; [done|]. rewrite (slice_S _ _ _ y Hy). cbn [unique_from]. rewrite Hxy H3 (slice_S (i_pos first) (S n) _ x) //.
  - exists u, v. split_and!; [lia|done|done|done|]. intros [|m] Hm; [lia|].
    rewrite (slice_S _ _ _ y Hy). cbn [unique_from]. rewrite Hxy H3; [|lia]. rewrite (slice_S _ k _ x) //.
Qed.

Lemma wp_std_unique_loop this o dest first last (p : T → T → bool) y n fuel Q E :
  it_ok o dest → it_ok o first → it_ok o last → i_pos dest < i_pos first → oelems o !! i_pos dest = Some y →
  i_pos last = (i_pos first + S n)%nat → n < fuel →
  seqp this o -∗
  ((∀ o' it, ⌜oshape o' = oshape o ∧ it_ok o' it ∧ i_pos it ≤ i_pos last ∧
      take (i_pos it) (oelems o') = take (i_pos dest) (oelems o) ++ unique_from p y (slice (S (i_pos first)) n (oelems o))⌝ →
     seqp this o' -∗ Q it) ∧
   (∀ o' i gap, ⌜pred_fails C ∧ i < n ∧ oshape o' = oshape o ∧
      oelems o' = take (i_pos dest) (oelems o) ++ unique_from p y (slice (S (i_pos first)) i (oelems o)) ++
        gap ++ drop (S (i_pos first) + i) (oelems o)⌝ →
     seqp this o' -∗ E EPred)) -∗
  wp (std_unique_loop fuel dest first last p) Q E.
Proof.
  revert o dest first y fuel Q.
  induction n as [|n IH]; intros o dest first y [|fuel] Q Hd Hf Hlast Hdf Hy Hl Hfu; try lia;
    pose proof (it_ok_le _ _ Hlast); iIntros "Hs HQ"; cbn [std_unique_loop]; rewrite /it_eq;
    wp_bind; iApply (wp_it_next with "Hs"); [done|lia| |done|lia|]; iIntros (f' [Hf' Hp']) "Hs".
  { replace (_ =? _) with true by (symmetry; apply Nat.eqb_eq; lia).
    iApply (wp_it_next with "Hs"); [done|lia|]. iIntros (d' [Hd' Hpd]) "Hs".
    iDestruct "HQ" as "[HQ _]". iApply ("HQ" $! o d' with "[%] Hs"). split_and!; [done|done|lia|].
    rewrite slice_0 Hpd (take_S_r _ _ y) //. }
  replace (_ =? _) with false by (symmetry; apply Nat.eqb_neq; lia).
  wp_bind. iApply (wp_it_deref with "Hs"); [done|lia|]. iIntros (y' Hy') "Hs".
  rewrite Hy in Hy'. injection Hy' as <-.
  wp_bind. iApply (wp_it_deref with "Hs"); [done|lia|]. iIntros (z Hz) "Hs".
  rewrite Hp' in Hz. wp_bind. iApply wp_pred_tick. iSplit; last first.
  { iIntros (Hpf). iDestruct "HQ" as "[_ HQ]".
    iApply ("HQ" $! o 0 (slice (S (i_pos dest)) (i_pos first - i_pos dest) (oelems o)) with "[%] Hs"). split_and!; [done|lia|done|].
    rewrite slice_0 /= Nat.add_0_r /slice.
    replace (S (i_pos first)) with (S (i_pos dest) + (i_pos first - i_pos dest)) by lia.
    rewrite -drop_drop take_drop take_drop_middle //. }
  rewrite (slice_S _ _ _ z Hz). cbn [unique_from]. destruct (p y z) eqn:Hyz.
  { iApply (IH with "Hs"); [done|done|done|lia|done|lia|lia|]. iSplit; last first.
    { iIntros (o' i gap (H1 & H2 & H3 & H4)) "Hs". iDestruct "HQ" as "[_ HQ]".
      iApply ("HQ" $! o' (S i) gap with "[%] Hs"). split_and!; [done|lia|done|].
      rewrite H4 Hp' (slice_S _ _ _ z Hz). cbn [unique_from]. rewrite Hyz. do 4 f_equal. lia. }
    iDestruct "HQ" as "[HQ _]". iIntros (o' it Ho) "Hs".
    iApply ("HQ" $! o' it with "[%] Hs"). by rewrite Hp' in Ho. }
  wp_bind. iApply (wp_it_next with "Hs"); [done|lia|]. iIntros (d' [Hd' Hpd]) "Hs".
  wp_bind. iApply (wp_alg_move _ _ _ _ z with "Hs"); [done|done|lia|by rewrite Hp'|]. iIntros (o' [Hsh He]) "Hs".
  assert (osize o' = osize o) as Hsz by by apply oshape_osize.
  iApply (IH _ _ _ z with "Hs"); [by eapply it_ok_shape..|lia| |lia|lia|].
  { rewrite He. apply list_lookup_insert. rewrite insert_length. unfold osize in *. lia. }
  iSplit; last first.
  { iIntros (o2 i gap (G1 & G2 & G3 & G4)) "Hs". iDestruct "HQ" as "[_ HQ]".
    iApply ("HQ" $! o2 (S i) gap with "[%] Hs"). split_and!; [done|lia|congruence|]. rewrite G4 He Hpd.
    rewrite take_insert // take_insert; [|lia].
    rewrite (take_S_r _ _ y) // -assoc_L /=. f_equal. rewrite (slice_S _ _ _ z Hz). cbn [unique_from]. rewrite Hyz /=. f_equal.
    replace (i_pos first + S i) with (S (i_pos first + i)) by lia.
    rewrite Hp' /slice !drop_insert_gt //; lia. }
  iDestruct "HQ" as "[HQ _]". iIntros (o2 it (G1 & G2 & G3 & G4)) "Hs". iApply ("HQ" $! o2 it with "[%] Hs").
  split_and!; [congruence|done|done|]. rewrite G4 He Hpd.
  rewrite take_insert // take_insert; [|lia].
  rewrite (take_S_r _ _ y) // -assoc_L /=. f_equal. f_equal. f_equal. rewrite Hp' /slice !drop_insert_gt //; lia.
Qed.

Lemma wp_std_unique this o first last (p : T → T → bool) Q E :
  it_ok o first → it_ok o last → i_pos first = 0 → i_pos last = osize o →
  seqp this o -∗
  ((∀ o' it, ⌜oshape o' = oshape o ∧ it_ok o' it ∧ take (i_pos it) (oelems o') = unique_list p (oelems o)⌝ →
     seqp this o' -∗ Q it) ∧
   (∀ o', ⌜pred_fails C ∧ oshape o' = oshape o ∧ stopped (unique_list p) (oelems o) (oelems o')⌝ →
     seqp this o' -∗ E EPred)) -∗
  wp (std_unique first last p) Q E.
Proof.
  iIntros (Hf Hlast Hp0 Hl) "Hs HQ". rewrite /std_unique.
  destruct (oelems o) as [|x xs] eqn:Hel.
  { assert (osize o = 0) as Hz by (rewrite osize_elems Hel //).
    assert (it_eq first last = true) as Heq by (apply Nat.eqb_eq; lia).
    assert (it_eq last last = true) as Heq' by (apply Nat.eqb_eq; lia).
    rewrite Heq. wp_bind. wp_ret. rewrite Heq'. wp_ret.
    iDestruct "HQ" as "[HQ _]". iApply ("HQ" $! o last with "[%] Hs"). split_and!; [done|done|]. rewrite Hel. by destruct (i_pos last). }
  assert (osize o = S (length xs)) as Hz by (rewrite osize_elems Hel //).
  assert (it_eq first last = false) as Heq by (apply Nat.eqb_neq; lia). rewrite Heq.
  wp_bind. iApply (wp_std_adjacent_loop _ _ _ _ _ x (length xs) with "Hs"); [done|done|by rewrite Hel Hp0|lia|lia|].
  assert (∀ m, slice 1 m (oelems o) = take m xs) as Hsl by (intros m; rewrite Hel /slice /= drop_0 //).
  assert (∀ m, slice 0 m (oelems o) = take m (x :: xs)) as Hsl0 by (intros m; rewrite Hel //).
  iSplit; last first.
  { iIntros (k (H1 & H2 & H3)) "Hs". iDestruct "HQ" as "[_ HQ]". iApply ("HQ" $! o with "[%] Hs").
    split_and!; [done|done|]. exists (S k), []. rewrite Hp0 Hsl Hsl0 in H3. rewrite Hel.
    split_and!; [simpl; lia|done|]. cbn [take unique_list]. rewrite H3. rewrite app_nil_l take_drop //. }
  iIntros (it k (H1 & H2 & H3)) "Hs". rewrite Hp0 /= in H2 H3.
  rewrite /it_eq.
  destruct H3 as [[-> H3]|(y & z & Hk & Hy & Hz' & Hyz & H3)].
  - replace (_ =? _) with true by (symmetry; apply Nat.eqb_eq; lia). wp_ret. rewrite Hsl Hsl0 !firstn_all in H3.
    iDestruct "HQ" as "[HQ _]".
    iApply ("HQ" $! o last with "[%] Hs"). split_and!; [done|done|]. rewrite /unique_list H3 Hl Hz Hel //.
  - replace (_ =? _) with false by (symmetry; apply Nat.eqb_neq; lia).
    wp_bind. iApply (wp_it_next with "Hs"); [done|lia|]. iIntros (f' [Hf' Hp']) "Hs".
    iApply (wp_std_unique_loop _ _ _ _ _ _ y (length xs - k - 1) with "Hs"); [done|done|done|lia|done|lia|lia|].
    rewrite H2 in Hz'.
    assert (∀ i, i < length xs - k → unique_list p (take (S (S (k + i))) (x :: xs)) =
      take k (x :: xs) ++ unique_from p y (slice (S (S k)) i (oelems o))) as Hpre.
    { intros i Hi. cbn [take unique_list]. specialize (H3 (S (k + i))). rewrite Hsl Hsl0 H2 in H3. rewrite H3; [|lia].
      f_equal. replace (S (k + i) - k) with (S i) by lia. rewrite (slice_S _ _ _ z Hz'). cbn [unique_from]. by rewrite Hyz. }
    iSplit; last first.
    { iIntros (o' i gap (G1 & G2 & G3 & G4)) "Hs". iDestruct "HQ" as "[_ HQ]". iApply ("HQ" $! o' with "[%] Hs").
      split_and!; [done|done|]. exists (S (S (k + i))), gap. split_and!; [simpl; lia| |].
      { rewrite -Hel. by apply oshape_osize. }
      rewrite Hpre; [|lia]. rewrite G4 Hp' H2 -Hel -assoc_L. do 3 f_equal. }
    iDestruct "HQ" as "[HQ _]". iIntros (o' it' (G1 & G2 & G3 & G4)) "Hs". iApply ("HQ" $! o' it' with "[%] Hs").
    split_and!; [done|done|]. rewrite G4 Hp' H2 {1}Hel -Hpre; [|lia]. f_equal. rewrite take_ge //. simpl. lia.
Qed.

(** ** reverse *)
Lemma wp_std_iter_swap this o a b x y Q E :
  it_ok o a → it_ok o b → oelems o !! i_pos a = Some x → oelems o !! i_pos b = Some y → i_pos a ≠ i_pos b →
  seqp this o -∗
  (∀ o', ⌜oshape o' = oshape o ∧ oelems o' = <[i_pos b := x]> (<[i_pos a := y]> (oelems o))⌝ → seqp this o' -∗ Q ()) -∗
  wp (std_iter_swap a b) Q E.
Proof.
  iIntros (Ha Hb Hx Hy Hne) "Hs HQ". rewrite /std_iter_swap. wp_bind.
  iApply (wp_make_move _ _ a with "Hs"); [done|done|]. iIntros (o1 [Hsh1 He1]) "Hs".
  assert (osize o1 = osize o) as Hsz1 by by apply oshape_osize.
  pose proof (lookup_lt_Some _ _ _ Hx). pose proof (lookup_lt_Some _ _ _ Hy).
  wp_bind. iApply (wp_alg_move _ _ a b y with "Hs"); [by eapply it_ok_shape..| | |].
  { rewrite Hsz1 osize_elems //. } { rewrite He1 list_lookup_insert_ne //. }
  iIntros (o2 [Hsh2 He2]) "Hs". assert (osize o2 = osize o1) as Hsz2 by by apply oshape_osize.
  wp_bind. iApply wp_move_tick.
  assert (it_ok o2 b). { eapply it_ok_shape, Hb. congruence. }
  wp_bind. iApply (wp_read_it with "Hs"); [done|unfold osize in *; lia|]. iIntros (u _) "Hs".
  iApply (wp_write_it with "Hs"); [done|unfold osize in *; lia|]. iIntros (o3 [Hsh3 He3]) "Hs".
  iApply ("HQ" with "[%] Hs"). split; [congruence|]. rewrite He3 He2 He1.
  apply list_eq. intros i. destruct (decide (i = i_pos b)) as [->|Hib].
  { rewrite !list_lookup_insert //; rewrite !insert_length //. }
  rewrite !(list_lookup_insert_ne _ (i_pos b)) //. destruct (decide (i = i_pos a)) as [->|Hia].
  { rewrite !list_lookup_insert //; rewrite !insert_length //. }
  rewrite !list_lookup_insert_ne //.
Qed.

Lemma rev_middle (x y : T) (zs : list T) : reverse (x :: zs ++ [y]) = y :: reverse zs ++ [x].
Proof. rewrite reverse_cons reverse_app //. Qed.
Lemma wp_std_reverse_loop this o first last (A zs B : list T) fuel Q E :
  it_ok o first → it_ok o last → oelems o = A ++ zs ++ B →
  i_pos first = length A → S (i_pos last) = length A + length zs → length zs < fuel →
  seqp this o -∗
  (∀ o', ⌜oshape o' = oshape o ∧ oelems o' = A ++ reverse zs ++ B⌝ → seqp this o' -∗ Q ()) -∗
  wp (std_reverse_loop fuel first last) Q E.
Proof.
  revert o first last A zs B Q.
  induction fuel as [|fuel IH]; iIntros (o first last A zs B Q Hf Hl Hel Hpf Hpl Hfu) "Hs HQ"; [lia|].
  cbn [std_reverse_loop]. rewrite /it_lt. destruct (_ <? _) eqn:Hlt; last first.
  { apply Nat.ltb_ge in Hlt. wp_ret. iApply ("HQ" $! o with "[%] Hs"). split; [done|]. rewrite Hel.
    destruct zs as [|z [|z' zs]]; [done|done|simpl in *; lia]. }
  apply Nat.ltb_lt in Hlt. destruct zs as [|x zs]; [simpl in *; lia|].
  destruct zs as [|y zs _] using rev_ind; [simpl in *; lia|].
  autorewrite with len in *; simpl in *.
  wp_bind. iApply (wp_std_iter_swap _ _ _ _ x y with "Hs"); [done|done| | |lia|].
  { rewrite Hel lookup_app_r; [|lia]. replace (_ - _) with 0 by lia. done. }
  { rewrite Hel -!app_assoc /=. rewrite lookup_app_r; [|lia]. rewrite app_comm_cons lookup_app_r; [|simpl; lia].
    simpl. replace (_ - _) with 0 by lia. done. }
  iIntros (o' [Hsh He]) "Hs".
  assert (osize o' = osize o) as Hsz by by apply oshape_osize.
  assert (osize o = length A + (1 + length zs + 1) + length B) as Hso by (rewrite osize_elems Hel; len).
  wp_bind. iApply (wp_it_next with "Hs"); [by eapply it_ok_shape|lia|]. iIntros (f' [Hf' Hp']) "Hs".
  wp_bind. iApply (wp_move_prev_iterator with "Hs"); [by eapply it_ok_shape|lia|]. iIntros (l' [Hl' Hpl']) "Hs".
  iApply (IH _ _ _ (A ++ [y]) zs (x :: B) with "Hs"); [done|done| | | |lia|].
  - rewrite He Hel Hpf -!app_assoc /=. rewrite (insert_app_r_alt _ _ (length A)) // Nat.sub_diag /=.
    rewrite insert_app_r_alt; [|lia]. f_equal. replace (i_pos last - length A) with (S (length zs)) by lia.
    simpl. f_equal. rewrite insert_app_r_alt; [|lia]. by rewrite Nat.sub_diag.
  - len.
  - len.
  - iIntros (o2 [Hsh2 He2]) "Hs". iApply ("HQ" $! o2 with "[%] Hs"). split; [congruence|].
    rewrite He2 rev_middle -!app_assoc /= -app_assoc //.
Qed.
Lemma wp_std_reverse this o first last Q E :
  it_ok o first → it_ok o last → i_pos first = 0 → i_pos last = osize o →
  seqp this o -∗
  (∀ o', ⌜oshape o' = oshape o ∧ oelems o' = reverse (oelems o)⌝ → seqp this o' -∗ Q ()) -∗
  wp (std_reverse first last) Q E.
Proof.
  iIntros (Hf Hl Hp0 Hpl) "Hs HQ". rewrite /std_reverse /it_eq. destruct (_ =? _) eqn:Heq.
  { apply Nat.eqb_eq in Heq. wp_ret. iApply ("HQ" $! o with "[%] Hs"). split; [done|].
    destruct (oelems o) eqn:He; [done|]. rewrite osize_elems He /= in Hpl. lia. }
  apply Nat.eqb_neq in Heq. wp_bind.
  iApply (wp_move_prev_iterator with "Hs"); [done|lia|]. iIntros (l' [Hl' Hp']) "Hs".
  iApply (wp_std_reverse_loop _ _ _ _ [] (oelems o) [] with "Hs"); [done|done|by rewrite right_id_L|done| | |].
  { rewrite -osize_elems /=. lia. } { rewrite -osize_elems. lia. }
  iIntros (o' [Hsh He]) "Hs". iApply ("HQ" with "[%] Hs"). by rewrite He /= right_id_L.
Qed.
End alg.

(** ** comparisons of two containers; both are only read *)
Section cmp.
Context {T : Type} {C : cfg T} {OK : cfg_ok C} {FZ : frozen T}.
Implicit Types o : option (tree T).
(** [R] gives access to a container in state [o], for reading *)
Definition readable (R : hprop T) (ea na : nat) (this : loc) (o : option (tree T)) : Prop :=
  R ⊢ seqp ea na this o ∗ (seqp ea na this o -∗ R).

Lemma rd_next R ea na this o it Q E :
  readable R ea na this o → it_ok o it → i_pos it < osize o →
  R -∗ (∀ it', ⌜it_ok o it' ∧ i_pos it' = S (i_pos it)⌝ → R -∗ Q it') -∗ wp (it_next it) Q E.
Proof.
  iIntros (HR H1 H2) "HR HQ". iDestruct (HR with "HR") as "[Hs HR]".
  iApply (wp_it_next with "Hs"); [done..|]. iIntros (it' H) "Hs". iApply ("HQ" with "[//]"). by iApply "HR".
Qed.
Lemma rd_deref R ea na this o it Q E :
  readable R ea na this o → it_ok o it → i_pos it < osize o →
  R -∗ (∀ x, ⌜oelems o !! i_pos it = Some x⌝ → R -∗ Q x) -∗ wp (it_deref it) Q E.
Proof.
  iIntros (HR H1 H2) "HR HQ". iDestruct (HR with "HR") as "[Hs HR]".
  iApply (wp_it_deref with "Hs"); [done..|]. iIntros (it' H) "Hs". iApply ("HQ" with "[//]"). by iApply "HR".
Qed.
Lemma rd_begin R ea na this o Q E :
  readable R ea na this o →
  R -∗ (∀ it, ⌜it_ok o it ∧ i_pos it = 0⌝ → R -∗ Q it) -∗ wp (begin_ this) Q E.
Proof.
  iIntros (HR) "HR HQ". iDestruct (HR with "HR") as "[Hs HR]".
  iApply (wp_find_first with "Hs"). iIntros (it' H) "Hs". iApply ("HQ" with "[//]"). by iApply "HR".
Qed.
Lemma rd_end R ea na this o Q E :
  readable R ea na this o →
  R -∗ (∀ it, ⌜it_ok o it ∧ i_pos it = osize o⌝ → R -∗ Q it) -∗ wp (end_ this) Q E.
Proof.
  iIntros (HR) "HR HQ". iDestruct (HR with "HR") as "[Hs HR]".
  iApply (wp_find_end with "Hs"). iIntros (it' H) "Hs". iApply ("HQ" with "[//]"). by iApply "HR".
Qed.
Lemma rd_size R ea na this o Q E :
  readable R ea na this o → R -∗ (R -∗ Q (osize o)) -∗ wp (size_ this) Q E.
Proof.
  iIntros (HR) "HR HQ". iDestruct (HR with "HR") as "[Hs HR]".
  iApply (wp_get_size_o with "Hs"). iIntros "Hs". iApply "HQ". by iApply "HR".
Qed.

Lemma wp_std_equal R ea na l1 o1 eb nb l2 o2 f1 e1 f2 (eq : T → T → bool) fuel Q E :
  readable R ea na l1 o1 → readable R eb nb l2 o2 →
  it_ok o1 f1 → it_ok o2 f2 → i_pos e1 = osize o1 → osize o1 = osize o2 → i_pos f1 = i_pos f2 →
  osize o1 - i_pos f1 < fuel →
  R -∗ ((R -∗ Q (equal_lists eq (drop (i_pos f1) (oelems o1)) (drop (i_pos f1) (oelems o2)))) ∧
        (⌜pred_fails C ∧ oelems o1 ≠ []⌝ → R -∗ E EPred)) -∗
  wp (std_equal fuel f1 e1 f2 eq) Q E.
Proof.
  intros R1 R2. revert f1 f2 Q.
  induction fuel as [|fuel IH]; iIntros (f1 f2 Q H1 H2 He Hsz Hp Hfu) "HR HQ"; [lia|].
  pose proof (it_ok_le _ _ H1). cbn [std_equal]. rewrite /it_eq. destruct (_ =? _) eqn:Heq.
  { apply Nat.eqb_eq in Heq. wp_ret. iDestruct "HQ" as "[HQ _]". rewrite !drop_ge; [by iApply "HQ"|unfold osize in *; lia..]. }
  apply Nat.eqb_neq in Heq.
  wp_bind. iApply (rd_deref with "HR"); [exact R1|done|lia|]. iIntros (x Hx) "HR".
  wp_bind. iApply (rd_deref with "HR"); [exact R2|done|lia|]. iIntros (y Hy) "HR".
  rewrite -Hp in Hy. wp_bind. iApply wp_pred_tick. iSplit; last first.
  { iIntros (Hpf). iDestruct "HQ" as "[_ HQ]". iApply ("HQ" with "[%] HR"). split; [done|]. intros Hnil. by rewrite Hnil in Hx. }
  rewrite (drop_S _ _ _ Hx) (drop_S _ _ _ Hy). cbn [equal_lists].
  destruct (eq x y); last first.
  { wp_ret. iDestruct "HQ" as "[HQ _]". by iApply "HQ". }
  wp_bind. iApply (rd_next with "HR"); [exact R1|done|lia|]. iIntros (g1 [Hg1 Hp1]) "HR".
  wp_bind. iApply (rd_next with "HR"); [exact R2|done|lia|]. iIntros (g2 [Hg2 Hp2]) "HR".
  iApply (IH with "HR"); [done|done|done|done|lia|lia|]. rewrite Hp1. done.
Qed.
Lemma wp_op_eq R ea na l1 o1 eb nb l2 o2 (eq : T → T → bool) Q E :
  readable R ea na l1 o1 → readable R eb nb l2 o2 →
  R -∗ ((R -∗ Q (equal_lists eq (oelems o1) (oelems o2))) ∧
        (⌜pred_fails C ∧ oelems o1 ≠ [] ∧ length (oelems o1) = length (oelems o2)⌝ → R -∗ E EPred)) -∗
  wp (op_eq l1 l2 eq) Q E.
Proof.
  iIntros (R1 R2) "HR HQ". rewrite /op_eq. wp_bind. iApply (rd_size with "HR"); [exact R1|]. iIntros "HR".
  wp_bind. iApply (rd_size with "HR"); [exact R2|]. iIntros "HR". destruct (_ =? _) eqn:Heq.
  - apply Nat.eqb_eq in Heq.
    wp_bind. iApply (rd_begin with "HR"); [exact R1|]. iIntros (f1 [Hf1 Hp1]) "HR".
    wp_bind. iApply (rd_end with "HR"); [exact R1|]. iIntros (e1 [He1 Hpe1]) "HR".
    wp_bind. iApply (rd_begin with "HR"); [exact R2|]. iIntros (f2 [Hf2 Hp2]) "HR".
    iApply (wp_std_equal _ _ _ l1 o1 _ _ l2 o2 with "HR"); [done..|lia|lia|]. rewrite Hp1 !drop_0. iSplit.
    + by iDestruct "HQ" as "[HQ _]".
    + iIntros ([??]). iDestruct "HQ" as "[_ HQ]". by iApply "HQ".
  - apply Nat.eqb_neq in Heq. wp_ret. iDestruct "HQ" as "[HQ _]". destruct (equal_lists _ _ _) eqn:Hb; [|by iApply "HQ"].
    exfalso. apply Heq. apply equal_lists_spec in Hb. by apply Forall2_length in Hb.
Qed.
Lemma wp_std_lex R ea na l1 o1 eb nb l2 o2 f1 e1 f2 e2 (lt : T → T → bool) fuel Q E :
  readable R ea na l1 o1 → readable R eb nb l2 o2 →
  it_ok o1 f1 → it_ok o2 f2 → i_pos e1 = osize o1 → i_pos e2 = osize o2 → osize o1 - i_pos f1 < fuel →
  R -∗ ((R -∗ Q (lex_lists lt (drop (i_pos f1) (oelems o1)) (drop (i_pos f2) (oelems o2)))) ∧
        (⌜pred_fails C ∧ oelems o1 ≠ [] ∧ oelems o2 ≠ []⌝ → R -∗ E EPred)) -∗
  wp (std_lexicographical_compare fuel f1 e1 f2 e2 lt) Q E.
Proof.
  intros R1 R2. revert f1 f2 Q.
  induction fuel as [|fuel IH]; iIntros (f1 f2 Q H1 H2 He1 He2 Hfu) "HR HQ"; [lia|].
  pose proof (it_ok_le _ _ H1). pose proof (it_ok_le _ _ H2).
  cbn [std_lexicographical_compare]. rewrite /it_eq. destruct (i_pos f1 =? i_pos e1) eqn:Heq1.
  { apply Nat.eqb_eq in Heq1. wp_ret. iDestruct "HQ" as "[HQ _]". rewrite (drop_ge (oelems o1)); [|unfold osize in *; lia].
    destruct (i_pos f2 =? i_pos e2) eqn:Heq2.
    - apply Nat.eqb_eq in Heq2. rewrite (drop_ge (oelems o2)); [by iApply "HQ"|unfold osize in *; lia].
    - apply Nat.eqb_neq in Heq2. destruct (drop (i_pos f2) (oelems o2)) eqn:Hd; [|by iApply "HQ"].
      pose proof (f_equal length Hd) as Hl. rewrite drop_length /= in Hl. unfold osize in *. lia. }
  apply Nat.eqb_neq in Heq1. destruct (i_pos f2 =? i_pos e2) eqn:Heq2.
  { apply Nat.eqb_eq in Heq2. wp_ret. iDestruct "HQ" as "[HQ _]". rewrite (drop_ge (oelems o2)); [|unfold osize in *; lia].
    destruct (drop _ _); by iApply "HQ". }
  apply Nat.eqb_neq in Heq2.
  wp_bind. iApply (rd_deref with "HR"); [exact R1|done|lia|]. iIntros (x Hx) "HR".
  wp_bind. iApply (rd_deref with "HR"); [exact R2|done|lia|]. iIntros (y Hy) "HR".
  assert (oelems o1 ≠ [] ∧ oelems o2 ≠ []) as Hne.
  { split; intros Hnil; [by rewrite Hnil in Hx|by rewrite Hnil in Hy]. }
  rewrite (drop_S _ _ _ Hx) (drop_S _ _ _ Hy). cbn [lex_lists].
  wp_bind. iApply wp_pred_tick. iSplit; last first.
  { iIntros (Hpf). iDestruct "HQ" as "[_ HQ]". by iApply ("HQ" with "[%] HR"). }
  destruct (lt x y) eqn:Hxy; [wp_ret; iDestruct "HQ" as "[HQ _]"; by iApply "HQ"|].
  wp_bind. iApply wp_pred_tick. iSplit; last first.
  { iIntros (Hpf). iDestruct "HQ" as "[_ HQ]". by iApply ("HQ" with "[%] HR"). }
  destruct (lt y x) eqn:Hyx; [wp_ret; iDestruct "HQ" as "[HQ _]"; by iApply "HQ"|].
  wp_bind. iApply (rd_next with "HR"); [exact R1|done|lia|]. iIntros (g1 [Hg1 Hp1]) "HR".
  wp_bind. iApply (rd_next with "HR"); [exact R2|done|lia|]. iIntros (g2 [Hg2 Hp2]) "HR".
  iApply (IH with "HR"); [done|done|done|done|lia|]. rewrite Hp1 Hp2. done.
Qed.
Lemma wp_op_lt R ea na l1 o1 eb nb l2 o2 (lt : T → T → bool) Q E :
  readable R ea na l1 o1 → readable R eb nb l2 o2 →
  R -∗ ((R -∗ Q (lex_lists lt (oelems o1) (oelems o2))) ∧
        (⌜pred_fails C ∧ oelems o1 ≠ [] ∧ oelems o2 ≠ []⌝ → R -∗ E EPred)) -∗ wp (op_lt l1 l2 lt) Q E.
Proof.
  iIntros (R1 R2) "HR HQ". rewrite /op_lt.
  wp_bind. iApply (rd_begin with "HR"); [exact R1|]. iIntros (f1 [Hf1 Hp1]) "HR".
  wp_bind. iApply (rd_end with "HR"); [exact R1|]. iIntros (e1 [He1 Hpe1]) "HR".
  wp_bind. iApply (rd_begin with "HR"); [exact R2|]. iIntros (f2 [Hf2 Hp2]) "HR".
  wp_bind. iApply (rd_end with "HR"); [exact R2|]. iIntros (e2 [He2 Hpe2]) "HR".
  iApply (wp_std_lex _ _ _ l1 o1 _ _ l2 o2 with "HR"); [done..|lia|]. rewrite Hp1 Hp2 !drop_0. done.
Qed.
End cmp.
