(** * SeqOps: the private members of seq that insert, erase, assign and resize
    (lines 2129-2225 of seq.hpp).  Proof infrastructure. *)
From Verif Require Export SeqIter.
From stdpp Require Import options.
Set Default Proof Using "Type*".

Section defs.
Context {T : Type} {C : cfg T} {FZ : frozen T}.
Implicit Types o : option (tree T).
(** a construction argument that yields the value [x]; the memory it owns goes
    from [R] to [R'], or stays [R] if the construction throws *)
Definition src_spec (s : vsrc) (x : T) (R R' : hprop T) : Prop :=
  ∀ (Q : T → hprop T) (E : exn → hprop T),
    R ⊢ ((R' -∗ Q x) ∧ (⌜raisable C EUser⌝ → R -∗ E EUser)) -∗ wp (make_value s) Q E.
(** an input range with elements [xs]; [I r k]: k elements consumed, [J r k]: the
    (k+1)-th element used, [X k]: what is left when k elements were used; [late]:
    the operations of the iterators may throw *)
Record inp_spec (xs : list T) (I : input → nat → hprop T) (J : input → nat → hprop T)
    (X : nat → hprop T) (late : Prop) : Prop := {
  inp_end : ∀ r k (Q : bool → hprop T) E,
    I r k ⊢ ((⌜k ≤ length xs⌝ → I r k -∗ Q (k =? length xs)) ∧ (⌜raisable C EUser ∧ late ∧ k ≤ length xs⌝ → X k -∗ E EUser)) -∗
    wp (input_end r) Q E;
  inp_src : ∀ r k x (Q : vsrc → hprop T) (E : exn → hprop T), xs !! k = Some x →
    I r k ⊢ ((∀ s, ⌜src_spec s x (I r k) (J r k)⌝ → I r k -∗ Q s) ∧ (⌜raisable C EUser⌝ → X k -∗ E EUser)) -∗ wp (input_src r) Q E;
  inp_next : ∀ r k (Q : input → hprop T) (E : exn → hprop T), k < length xs →
    J r k ⊢ ((∀ r', I r' (S k) -∗ Q r') ∧ (⌜raisable C EUser ∧ late⌝ → X (S k) -∗ E EUser)) -∗ wp (input_next r) Q E;
  inp_I : ∀ r k, I r k ⊢ X k;
  inp_J : ∀ r k, J r k ⊢ X (S k)
}.
(** number of allocated blocks after one insertion *)
Definition grow o o' : Prop := onblk o ≤ onblk o' ≤ onblk o + oheight o + 1.
End defs.

Section ops.
Context {T : Type} {C : cfg T} {OK : cfg_ok C} {FZ : frozen T}.
Context (ea na : nat).
Implicit Types t : tree T.
Implicit Types o : option (tree T).
Implicit Types xs : list T.
Notation seqp := (seqp ea na).

Definition ins_at (pos : nat) (xs ys : list T) : list T := take pos ys ++ xs ++ drop pos ys.
Lemma ins_at_length pos xs ys : length (ins_at pos xs ys) = length ys + length xs.
Proof. rewrite /ins_at -{3}(take_drop pos ys) !app_length. lia. Qed.
Lemma ins_at_nil pos ys : ins_at pos [] ys = ys.
Proof. by rewrite /ins_at /= take_drop. Qed.
Lemma ins_at_app pos xs zs ys :
  pos ≤ length ys → ins_at (pos + length xs) zs (ins_at pos xs ys) = ins_at pos (xs ++ zs) ys.
Proof.
  intros H. rewrite /ins_at. rewrite !assoc_L.
  assert (length (take pos ys ++ xs) = pos + length xs) as Hl. { rewrite app_length take_length. lia. }
  rewrite take_app_alt // drop_app_alt //.
Qed.

Lemma wp_insert_single_iterator this o it v Q E :
  it_ok o it → osize o + 1 < c_W C →
  seqp this o -∗
  ((∀ o' it', ⌜oelems o' = ins_at (i_pos it) [v] (oelems o) ∧ it_ok o' it' ∧ i_pos it' = i_pos it ∧ grow o o' ∧
       seg_ins (osegs o) (osegs o') (i_pos it) (sg_len (e_seg (i_entry it)) - sg_idx (e_seg (i_entry it))) v⌝ →
      seqp this o' -∗ Q it') ∧
   (⌜raisable C EAlloc⌝ → seqp this o -∗ E EAlloc)) -∗
  wp (insert_single_iterator this it v) Q E.
Proof.
  iIntros (Hit HW) "Hs HQ". rewrite /insert_single_iterator. wp_bind. iApply wp_move_tick.
  wp_bind. iApply (wp_insert_single_segment with "Hs"); [by apply it_ok_oseg|done|].
  iSplit; last by iDestruct "HQ" as "[_ $]".
  iIntros (t' e' (He & Hat & Hb & Hsg)) "Hs". iDestruct "HQ" as "[HQ _]". wp_ret.
  iApply ("HQ" $! (Some t') with "[%] Hs"). split_and!; try done. by apply at_elem_it.
Qed.

Lemma wp_emplace_single this o it s x R R' Q E :
  src_spec s x R (seqp this o ∗ R')%I →
  it_ok o it → osize o + 1 < c_W C →
  R -∗
  ((∀ o' it', ⌜oelems o' = ins_at (i_pos it) [x] (oelems o) ∧ it_ok o' it' ∧ i_pos it' = i_pos it ∧ grow o o' ∧
       seg_ins (osegs o) (osegs o') (i_pos it) (sg_len (e_seg (i_entry it)) - sg_idx (e_seg (i_entry it))) x⌝ →
      seqp this o' -∗ R' -∗ Q it') ∧
   (⌜raisable C EUser⌝ → R -∗ E EUser) ∧
   (⌜raisable C EAlloc⌝ → seqp this o -∗ R' -∗ E EAlloc)) -∗
  wp (emplace_single this it s) Q E.
Proof.
  iIntros (Hsrc Hit HW) "HR HQ". rewrite /emplace_single. wp_bind.
  iApply (Hsrc with "HR"). iSplit; last by iDestruct "HQ" as "[_ [$ _]]".
  iIntros "[Hs HR]". iApply (wp_insert_single_iterator with "Hs"); [done|done|]. iSplit.
  - iIntros (o' it' Hpost) "Hs". iDestruct "HQ" as "[HQ _]". by iApply ("HQ" with "[%] Hs HR").
  - iIntros (He) "Hs". iDestruct "HQ" as "[_ [_ HQ]]". by iApply ("HQ" with "[%] Hs HR").
Qed.

Lemma src_spec_frame s (x : T) R R' F : src_spec s x R R' → src_spec s x (F ∗ R)%I (F ∗ R')%I.
Proof.
  intros H Q E. iIntros "[HF HR] HQ". iApply (H with "HR"). iSplit.
  - iIntros "HR". iDestruct "HQ" as "[HQ _]". iApply "HQ". iFrame.
  - iIntros (He) "HR". iDestruct "HQ" as "[_ HQ]". iApply "HQ"; [done|]. iFrame.
Qed.

(** ** emplace_count *)
Lemma wp_emplace_count_loop this o it count s x R Q E :
  src_spec s x R R → it_ok o it → osize o + count < c_W C →
  seqp this o -∗ R -∗
  ((∀ o' it', ⌜oelems o' = ins_at (i_pos it) (replicate count x) (oelems o) ∧ it_ok o' it' ∧ i_pos it' = (i_pos it + count)%nat⌝ →
      seqp this o' -∗ R -∗ Q it') ∧
   (∀ e o' k, ⌜raisable C e ∧ k < count ∧ oelems o' = ins_at (i_pos it) (replicate k x) (oelems o)⌝ →
      seqp this o' -∗ R -∗ E e)) -∗
  wp (emplace_count_loop this it count s) Q E.
Proof.
  intros Hsrc. revert o it Q E. induction count as [|count IH]; iIntros (o it Q E Hit HW) "Hs HR HQ".
  { cbn [emplace_count_loop]. wp_ret. iDestruct "HQ" as "[HQ _]".
    iApply ("HQ" $! o with "[%] Hs HR"). cbn [replicate]. rewrite ins_at_nil Nat.add_0_r. done. }
  cbn [emplace_count_loop]. wp_bind. pose proof (it_ok_le _ _ Hit) as Hle.
  iApply (wp_emplace_single this o it s x (seqp this o ∗ R)%I R with "[Hs HR]");
    [by apply src_spec_frame|done|lia|iFrame|].
  iSplit; [|iSplit].
  - iIntros (o' it' (He & Hit' & Hp & _)) "Hs HR". wp_bind.
    assert (osize o' = osize o + 1) as Hsz. { rewrite /osize He ins_at_length. done. }
    iApply (wp_move_next_iterator with "Hs"); [done|lia|]. iIntros (it2 [Hit2 Hp2]) "Hs".
    iApply (IH with "Hs HR"); [done|lia|]. iSplit.
    + iIntros (o3 it3 (He3 & Hit3 & Hp3)) "Hs HR". iDestruct "HQ" as "[HQ _]".
      iApply ("HQ" with "[%] Hs HR"). split_and!; [|done|lia].
      rewrite He3 He Hp2 Hp. apply (ins_at_app _ [x]). done.
    + iIntros (e o3 k (Hr & Hk & He3)) "Hs HR". iDestruct "HQ" as "[_ HQ]".
      iApply ("HQ" $! e o3 (S k) with "[%] Hs HR"). split_and!; [done|lia|].
      rewrite He3 He Hp2 Hp. apply (ins_at_app _ [x]). done.
  - iIntros (Hr) "[Hs HR]". iDestruct "HQ" as "[_ HQ]".
    iApply ("HQ" $! EUser o 0 with "[%] Hs HR"). split_and!; [done|lia|]. by rewrite /= ins_at_nil.
  - iIntros (Hr) "Hs HR". iDestruct "HQ" as "[_ HQ]".
    iApply ("HQ" $! EAlloc o 0 with "[%] Hs HR"). split_and!; [done|lia|]. by rewrite /= ins_at_nil.
Qed.
Lemma wp_emplace_count this o it count s x R Q E :
  src_spec s x R R → it_ok o it → osize o + count < c_W C →
  seqp this o -∗ R -∗
  ((∀ o' it', ⌜oelems o' = ins_at (i_pos it) (replicate count x) (oelems o) ∧ it_ok o' it' ∧ i_pos it' = i_pos it⌝ →
      seqp this o' -∗ R -∗ Q it') ∧
   (∀ e o' k, ⌜raisable C e ∧ k < count ∧ oelems o' = ins_at (i_pos it) (replicate k x) (oelems o)⌝ →
      seqp this o' -∗ R -∗ E e)) -∗
  wp (emplace_count this it count s) Q E.
Proof.
  iIntros (Hsrc Hit HW) "Hs HR HQ". rewrite /emplace_count. wp_bind.
  iApply (wp_emplace_count_loop with "Hs HR"); [done|done|done|]. iSplit; last by iDestruct "HQ" as "[_ $]".
  iIntros (o' it' (He & Hit' & Hp)) "Hs HR". iDestruct "HQ" as "[HQ _]".
  iApply (wp_move_prev_iterator_count with "Hs"); [done|lia|]. iIntros (it2 [Hit2 Hp2]) "Hs".
  iApply ("HQ" with "[%] Hs HR"). split_and!; [done|done|lia].
Qed.

(** ** emplace_range *)
Lemma wp_emplace_range_loop this xs I J X late fuel o it r k n Q E :
  inp_spec xs I J X late → it_ok o it → osize o + (length xs - k) < c_W C → length xs - k < fuel →
  seqp this o -∗ I r k -∗
  ((∀ r' o' it', ⌜oelems o' = ins_at (i_pos it) (drop k xs) (oelems o) ∧ it_ok o' it' ∧
                i_pos it' = (i_pos it + (length xs - k))%nat⌝ →
      seqp this o' -∗ I r' (length xs) -∗ Q (it', (n + (length xs - k))%nat)) ∧
   (∀ e o' j j', ⌜raisable C e ∧ k ≤ j ∧ (j < length xs ∨ late ∧ j = length xs) ∧ j ≤ j' ≤ S j `min` length xs ∧ (e = EAlloc → j' = S j) ∧ (e = EUser → j' = j) ∧
        oelems o' = ins_at (i_pos it) (take (j - k) (drop k xs)) (oelems o)⌝ →
      seqp this o' -∗ X j' -∗ E e)) -∗
  wp (emplace_range_loop fuel this it r n) Q E.
Proof.
  intros Hinp. revert o it r k n Q E. induction fuel as [|fuel IH]; iIntros (o it r k n Q E Hit HW Hf) "Hs HI HQ"; [lia|].
  cbn [emplace_range_loop]. wp_bind. iApply (inp_end _ _ _ _ _ Hinp with "HI"). iSplit; last first.
  { iIntros ((Hr & Hlate & Hk)) "HX". iDestruct "HQ" as "[_ HQ]".
    iApply ("HQ" $! EUser o k k with "[%] Hs HX"). split_and!; try done; try lia.
    - destruct (decide (k = length xs)); [by right|left; lia].
    - by rewrite Nat.sub_diag ins_at_nil. }
  iIntros (Hk) "HI".
  destruct (k =? length xs) eqn:Hkx.
  { apply Nat.eqb_eq in Hkx as ->. wp_ret. iDestruct "HQ" as "[HQ _]". rewrite Nat.sub_diag !Nat.add_0_r.
    iApply ("HQ" $! _ o with "[%] Hs HI"). rewrite drop_all ins_at_nil. split_and!; [done|done|lia]. }
  apply Nat.eqb_neq in Hkx. destruct (lookup_lt_is_Some_2 xs k) as [x Hx]; [lia|].
  pose proof (it_ok_le _ _ Hit) as Hle.
  wp_bind. iApply (inp_src _ _ _ _ _ Hinp with "HI"); [done|]. iSplit; last first.
  { iIntros (Hr) "HX". iDestruct "HQ" as "[_ HQ]".
    iApply ("HQ" $! EUser o k k with "[%] Hs HX"). split_and!; try done; try lia. by rewrite Nat.sub_diag ins_at_nil. }
  iIntros (s Hsrc) "HI".
  wp_bind. iApply (wp_emplace_single this o it s x (seqp this o ∗ I r k)%I (J r k) with "[Hs HI]");
    [by apply src_spec_frame|done|lia|iFrame|].
  iSplit; [|iSplit].
  - iIntros (o' it' (He & Hit' & Hp & _)) "Hs HJ". wp_bind.
    assert (osize o' = osize o + 1) as Hsz. { rewrite /osize He ins_at_length. done. }
    iApply (inp_next _ _ _ _ _ Hinp with "HJ"); [lia|]. iSplit; last first.
    { iIntros ((Hr & Hlate)) "HX". iDestruct "HQ" as "[_ HQ]".
      iApply ("HQ" $! EUser o' (S k) (S k) with "[%] Hs HX"). split_and!; try done; try lia.
      - destruct (decide (S k = length xs)); [by right|left; lia].
      - rewrite He (drop_S _ _ _ Hx). by replace (S k - k) with 1 by lia. }
    iIntros (r') "HI". wp_bind.
    iApply (wp_move_next_iterator with "Hs"); [done|lia|]. iIntros (it2 [Hit2 Hp2]) "Hs".
    iApply (IH with "Hs HI"); [done|lia|lia|]. iSplit.
    + iIntros (r3 o3 it3 (He3 & Hit3 & Hp3)) "Hs HI". iDestruct "HQ" as "[HQ _]".
      replace (n + 1 + (length xs - S k))%nat with (n + (length xs - k))%nat by lia.
      iApply ("HQ" with "[%] Hs HI"). split_and!; [|done|lia].
      rewrite He3 He Hp2 Hp (drop_S _ _ _ Hx). apply (ins_at_app _ [x]). done.
    + iIntros (e o3 j j' (Hr & Hjk & Hj & Hj' & Ha & Hu & He3)) "Hs HX". iDestruct "HQ" as "[_ HQ]".
      iApply ("HQ" $! e o3 j j' with "[%] Hs HX"). split_and!; try done; try lia.
      rewrite He3 He Hp2 Hp (drop_S _ _ _ Hx). replace (j - k) with (S (j - S k)) by lia.
      cbn [take]. apply (ins_at_app _ [x]). done.
  - iIntros (Hr) "[Hs HI]". iDestruct "HQ" as "[_ HQ]". iDestruct (inp_I _ _ _ _ _ Hinp with "HI") as "HX".
    iApply ("HQ" $! EUser o k k with "[%] Hs HX"). split_and!; try done; try lia. by rewrite Nat.sub_diag ins_at_nil.
  - iIntros (Hr) "Hs HJ". iDestruct "HQ" as "[_ HQ]". iDestruct (inp_J _ _ _ _ _ Hinp with "HJ") as "HX".
    iApply ("HQ" $! EAlloc o k (S k) with "[%] Hs HX"). split_and!; try done; try lia. by rewrite Nat.sub_diag ins_at_nil.
Qed.
Lemma wp_emplace_range this xs I J X late o it r k Q E :
  inp_spec xs I J X late → it_ok o it → osize o + (length xs - k) < c_W C → length xs - k < input_fuel r →
  seqp this o -∗ I r k -∗
  ((∀ o' it', ⌜oelems o' = ins_at (i_pos it) (drop k xs) (oelems o) ∧ it_ok o' it' ∧ i_pos it' = i_pos it⌝ →
      seqp this o' -∗ X (length xs) -∗ Q it') ∧
   (∀ e o' j j', ⌜raisable C e ∧ k ≤ j ∧ (j < length xs ∨ late ∧ j = length xs) ∧ j ≤ j' ≤ S j `min` length xs ∧ (e = EAlloc → j' = S j) ∧ (e = EUser → j' = j) ∧
        oelems o' = ins_at (i_pos it) (take (j - k) (drop k xs)) (oelems o)⌝ →
      seqp this o' -∗ X j' -∗ E e)) -∗
  wp (emplace_range this it r) Q E.
Proof.
  iIntros (Hinp Hit HW Hf) "Hs HI HQ". rewrite /emplace_range. wp_bind.
  iApply (wp_emplace_range_loop with "Hs HI"); [done..|]. iSplit; last by iDestruct "HQ" as "[_ $]".
  iIntros (r' o' it' (He & Hit' & Hp)) "Hs HI". iDestruct "HQ" as "[HQ _]". cbn [fst snd].
  iApply (wp_move_prev_iterator_count with "Hs"); [done|lia|]. iIntros (it2 [Hit2 Hp2]) "Hs".
  iDestruct (inp_I _ _ _ _ _ Hinp with "HI") as "HX".
  iApply ("HQ" with "[%] Hs HX"). split_and!; [done|done|lia].
Qed.

(** ** erase *)
Lemma wp_erase_single this o it Q E :
  it_ok o it → i_pos it < osize o →
  seqp this o -∗
  (∀ o' it', ⌜oelems o' = take (i_pos it) (oelems o) ++ drop (S (i_pos it)) (oelems o) ∧ it_ok o' it' ∧
              i_pos it' = i_pos it ∧ onblk o' ≤ onblk o ∧
              seg_era (osegs o) (osegs o') (i_pos it)⌝ → seqp this o' -∗ Q it') -∗
  wp (erase_single this it) Q E.
Proof.
  iIntros (Hit Hlt) "Hs HQ". destruct o as [t|]; [|unfold osize in Hlt; simpl in Hlt; lia].
  rewrite /erase_single. wp_bind. iApply (wp_erase_single_segment with "Hs"); [by apply it_at_elem|].
  iIntros (o' e' (He & Hat & Hb & Hsg)) "Hs". wp_bind.
  destruct (sg_idx (e_seg e') =? sg_len (e_seg e')) eqn:Hi.
  - apply Nat.eqb_eq in Hi. destruct o' as [t'|].
    + iDestruct "Hs" as (h [Hw HtW]) "[Hs Ht]".
      iApply (wp_move_next_leaf with "Ht"); [done|done|]. rewrite Hi Nat.sub_diag Nat.add_0_r.
      iIntros (e2 He2) "Ht". wp_ret. iApply ("HQ" $! (Some t') with "[%] [-]"); [done|]. iExists h. by iFrame.
    + destruct Hat as [-> Hp]. rewrite /move_next_leaf /=. wp_ret. wp_ret.
      iApply ("HQ" $! None with "[%] Hs"). rewrite Hp in He, Hsg |- *. done.
  - apply Nat.eqb_neq in Hi. wp_ret. wp_ret. iApply ("HQ" $! o' with "[%] Hs").
    split_and!; try done. destruct o' as [t'|]; [|by destruct Hat as [-> _]].
    destruct Hat as (c & l & xs & -> & Hs & Hl & Hp & Hle). split; [by exists c, l, xs|].
    intros _. cbn [i_entry i_pos]. assert (sg_len (e_seg e') = length xs) by (by rewrite Hs). lia.
Qed.
Definition del_range (a b : nat) (ys : list T) : list T := take a ys ++ drop b ys.
Lemma wp_erase_range_loop this fuel o first last Q E :
  it_ok o last → i_pos first ≤ i_pos last → i_pos last - i_pos first < fuel →
  seqp this o -∗
  (∀ o' it', ⌜oelems o' = del_range (i_pos first) (i_pos last) (oelems o) ∧ it_ok o' it' ∧
              i_pos it' = i_pos first ∧ onblk o' ≤ onblk o⌝ → seqp this o' -∗ Q it') -∗
  wp (erase_range_loop fuel this first last) Q E.
Proof.
  revert o last. induction fuel as [|fuel IH]; iIntros (o last Hit Hle Hf) "Hs HQ"; [lia|].
  cbn [erase_range_loop]. iDestruct (seqp_lt with "Hs") as %HW. pose proof (it_ok_le _ _ Hit) as Hle'.
  rewrite wsub_small; [|lia..]. destruct (_ =? 0) eqn:H0.
  { apply Nat.eqb_eq in H0. wp_ret. iApply ("HQ" $! o with "[%] Hs").
    assert (i_pos last = i_pos first) as Heq by lia. rewrite /del_range Heq take_drop. done. }
  apply Nat.eqb_neq in H0. wp_bind. iApply (wp_move_prev_iterator with "Hs"); [done|lia|].
  iIntros (l1 [Hl1 Hp1]) "Hs". wp_bind. iApply (wp_erase_single with "Hs"); [done|lia|].
  iIntros (o2 l2 (He & Hl2 & Hp2 & Hb)) "Hs". iApply (IH with "Hs"); [done|lia|lia|].
  iIntros (o3 l3 (He3 & Hl3 & Hp3 & Hb3)) "Hs". iApply ("HQ" with "[%] Hs"). split_and!; [|done|done|lia].
  rewrite He3 He Hp2 Hp1 /del_range. replace (S (i_pos last - 1)) with (i_pos last) by lia.
  rewrite take_app_le; [|rewrite take_length; unfold osize in *; lia].
  rewrite take_take Nat.min_l; [|lia]. f_equal.
  rewrite drop_app_alt //. rewrite take_length. unfold osize in *; lia.
Qed.
Lemma wp_erase_range this o first last Q E :
  it_ok o last → i_pos first ≤ i_pos last →
  seqp this o -∗
  (∀ o' it', ⌜oelems o' = del_range (i_pos first) (i_pos last) (oelems o) ∧ it_ok o' it' ∧
              i_pos it' = i_pos first ∧ onblk o' ≤ onblk o⌝ → seqp this o' -∗ Q it') -∗
  wp (erase_range this first last) Q E.
Proof.
  iIntros (Hit Hle) "Hs HQ". iDestruct (seqp_lt with "Hs") as %HW. pose proof (it_ok_le _ _ Hit).
  rewrite /erase_range. iApply (wp_erase_range_loop with "Hs"); [done|done| |done].
  rewrite wsub_small; lia.
Qed.

(** ** assignment through an iterator *)
Lemma wp_assign_value this o it s x R R' Q E :
  src_spec s x R R' → it_ok o it → i_pos it < osize o →
  seqp this o -∗ R -∗
  ((∀ o', ⌜oshape o' = oshape o ∧ oelems o' = <[i_pos it := x]> (oelems o)⌝ → seqp this o' -∗ R' -∗ Q ()) ∧
   (⌜raisable C EUser⌝ → seqp this o -∗ R -∗ E EUser)) -∗
  wp (assign_value (sg_ptr (e_seg (i_entry it))) (sg_idx (e_seg (i_entry it))) s) Q E.
Proof.
  iIntros (Hsrc Hit Hlt) "Hs HR HQ". rewrite /assign_value. wp_bind. iApply (Hsrc with "HR"). iSplit.
  - iIntros "HR". iDestruct "HQ" as "[HQ _]". wp_bind. iApply (wp_read_it with "Hs"); [done|done|].
    iIntros (y Hy) "Hs". iApply (wp_write_it with "Hs"); [done|done|]. iIntros (o' Ho') "Hs".
    by iApply ("HQ" with "[%] Hs HR").
  - iIntros (Hr) "HR". iDestruct "HQ" as "[_ HQ]". by iApply ("HQ" with "[%] Hs HR").
Qed.

(** ** assign_count *)
Lemma wp_assign_count_loop this count s x R o first last Q E :
  src_spec s x R R → it_ok o first → it_ok o last → i_pos last = osize o →
  i_pos first + count < c_W C →
  seqp this o -∗ R -∗
  ((∀ o', ⌜oelems o' = take (i_pos first) (oelems o) ++ replicate count x⌝ → seqp this o' -∗ R -∗ Q ()) ∧
   (∀ e o' k, ⌜raisable C e ∧ k < count ∧
        oelems o' = take (i_pos first) (oelems o) ++ replicate k x ++ drop (i_pos first + k) (oelems o)⌝ →
      seqp this o' -∗ R -∗ E e)) -∗
  wp (assign_count_loop this count s first last) Q E.
Proof.
  intros Hsrc. revert o first last Q E.
  induction count as [|count IH]; iIntros (o first last Q E Hf Hl Hpl HW) "Hs HR HQ"; cbn [assign_count_loop];
    pose proof (it_ok_le _ _ Hf) as Hle.
  { wp_bind. iApply (wp_erase_range with "Hs"); [done|lia|]. iIntros (o' it' (He & _)) "Hs". wp_ret.
    iDestruct "HQ" as "[HQ _]". iApply ("HQ" with "[%] Hs HR"). rewrite He /del_range Hpl.
    rewrite drop_ge; [done|]. done. }
  destruct (i_pos first =? i_pos last) eqn:Heq.
  { apply Nat.eqb_eq in Heq. wp_bind. iApply (wp_emplace_count with "Hs HR"); [done|done|lia|]. iSplit.
    - iIntros (o' it' (He & _)) "Hs HR". wp_ret. iDestruct "HQ" as "[HQ _]".
      iApply ("HQ" with "[%] Hs HR"). rewrite He /ins_at Heq (drop_ge _ (i_pos last)); [|unfold osize in *; lia].
      by rewrite right_id_L.
    - iIntros (e o' k (Hr & Hk & He)) "Hs HR". iDestruct "HQ" as "[_ HQ]".
      iApply ("HQ" with "[%] Hs HR"). split_and!; [done|done|]. rewrite He /ins_at Heq.
      rewrite !drop_ge; [done|unfold osize in *; lia..]. }
  apply Nat.eqb_neq in Heq. wp_bind.
  iApply (wp_assign_value this o first with "Hs HR"); [done|done|lia|]. iSplit; last first.
  { iIntros (Hr) "Hs HR". iDestruct "HQ" as "[_ HQ]". iApply ("HQ" $! EUser o 0 with "[%] Hs HR").
    split_and!; [done|lia|]. by rewrite Nat.add_0_r /= take_drop. }
  iIntros (o' [Hsh He]) "Hs HR". wp_bind.
  assert (osize o' = osize o) as Hsz by by apply oshape_osize.
  iApply (wp_move_next_iterator with "Hs"); [by eapply it_ok_shape|lia|]. iIntros (f2 [Hf2 Hp2]) "Hs".
  assert (i_pos first < length (oelems o)) as Hlt by (unfold osize in *; lia).
  assert (take (i_pos f2) (oelems o') = take (i_pos first) (oelems o) ++ [x]) as Htk.
  { rewrite Hp2 He Nat.add_1_r (take_S_r _ _ x); [|by apply list_lookup_insert].
    by rewrite take_insert. }
  iApply (IH with "Hs HR"); [done|by eapply it_ok_shape|lia|lia|]. iSplit.
  - iIntros (o3 He3) "Hs HR". iDestruct "HQ" as "[HQ _]". iApply ("HQ" with "[%] Hs HR").
    by rewrite He3 Htk -assoc_L.
  - iIntros (e o3 k (Hr & Hk & He3)) "Hs HR". iDestruct "HQ" as "[_ HQ]".
    iApply ("HQ" $! e o3 (S k) with "[%] Hs HR"). split_and!; [done|lia|].
    rewrite He3 Htk -assoc_L. f_equal. cbn [replicate app]. f_equal. f_equal.
    rewrite Hp2 He drop_insert_gt; [|lia]. f_equal. lia.
Qed.
Lemma wp_assign_count this count s x R o Q E :
  src_spec s x R R → count < c_W C →
  seqp this o -∗ R -∗
  ((∀ o', ⌜oelems o' = replicate count x⌝ → seqp this o' -∗ R -∗ Q ()) ∧
   (∀ e o' k, ⌜raisable C e ∧ k < count ∧ oelems o' = replicate k x ++ drop k (oelems o)⌝ →
      seqp this o' -∗ R -∗ E e)) -∗
  wp (assign_count this count s) Q E.
Proof.
  iIntros (Hsrc HW) "Hs HR HQ". rewrite /assign_count. wp_bind. iApply (wp_find_first with "Hs").
  iIntros (f [Hf Hpf]) "Hs". wp_bind. iApply (wp_find_end with "Hs"). iIntros (l [Hl Hpl]) "Hs".
  iApply (wp_assign_count_loop with "Hs HR"); [done|done|done|done|lia|]. rewrite Hpf /=. iSplit.
  - iDestruct "HQ" as "[HQ _]". iApply "HQ".
  - iDestruct "HQ" as "[_ HQ]". iApply "HQ".
Qed.

(** ** assign_range *)
Lemma wp_assign_range_loop this xs I J X late fuel o r k first last Q E :
  inp_spec xs I J X late → (∀ r k, I r k ⊢ ⌜length xs - k < input_fuel r⌝) →
  it_ok o first → it_ok o last → i_pos last = osize o →
  i_pos first + (length xs - k) < c_W C → length xs - k < fuel →
  seqp this o -∗ I r k -∗
  ((∀ o', ⌜oelems o' = take (i_pos first) (oelems o) ++ drop k xs⌝ → seqp this o' -∗ X (length xs) -∗ Q ()) ∧
   (∀ e o' j j', ⌜raisable C e ∧ k ≤ j ∧ (j < length xs ∨ late ∧ j = length xs) ∧ j ≤ j' ≤ S j `min` length xs ∧
        oelems o' = take (i_pos first) (oelems o) ++ take (j - k) (drop k xs) ++ drop (i_pos first + (j - k)) (oelems o)⌝ →
      seqp this o' -∗ X j' -∗ E e)) -∗
  wp (assign_range_loop fuel this r first last) Q E.
Proof.
  intros Hinp Hfuel. revert o r k first last Q E.
  induction fuel as [|fuel IH]; iIntros (o r k first last Q E Hf Hl Hpl HW Hfu) "Hs HI HQ"; [lia|];
    cbn [assign_range_loop]; pose proof (it_ok_le _ _ Hf) as Hle.
  iDestruct (Hfuel with "HI") as %Hfr. wp_bind. iApply (inp_end _ _ _ _ _ Hinp with "HI"). iSplit; last first.
  { iIntros ((Hr & Hlate & Hk)) "HX". iDestruct "HQ" as "[_ HQ]".
    iApply ("HQ" $! EUser o k k with "[%] Hs HX"). split_and!; try done; try lia.
    - destruct (decide (k = length xs)); [by right|left; lia].
    - by rewrite Nat.sub_diag Nat.add_0_r /= take_drop. }
  iIntros (Hk) "HI".
  destruct (k =? length xs) eqn:Hkx.
  { apply Nat.eqb_eq in Hkx as ->. wp_bind. iApply (wp_erase_range with "Hs"); [done|lia|].
    iIntros (o' it' (He & _)) "Hs". wp_ret. iDestruct "HQ" as "[HQ _]".
    iDestruct (inp_I _ _ _ _ _ Hinp with "HI") as "HX".
    iApply ("HQ" with "[%] Hs HX"). rewrite He /del_range Hpl drop_all.
    rewrite drop_ge; [done|]. done. }
  apply Nat.eqb_neq in Hkx.
  destruct (i_pos first =? i_pos last) eqn:Heq.
  { apply Nat.eqb_eq in Heq. wp_bind. iApply (wp_emplace_range with "Hs HI"); [done|done|lia|done|]. iSplit.
    - iIntros (o' it' (He & _)) "Hs HR". wp_ret. iDestruct "HQ" as "[HQ _]".
      iApply ("HQ" with "[%] Hs HR"). rewrite He /ins_at Heq (drop_ge _ (i_pos last)); [|unfold osize in *; lia].
      by rewrite right_id_L.
    - iIntros (e o' j j' (Hr & Hjk & Hj & Hj' & _ & _ & He)) "Hs HR". iDestruct "HQ" as "[_ HQ]".
      iApply ("HQ" $! e o' j j' with "[%] Hs HR"). split_and!; try done; try lia. rewrite He /ins_at Heq.
      rewrite (drop_ge _ (i_pos last)); [|unfold osize in *; lia].
      rewrite (drop_ge _ (i_pos last + _)); [done|unfold osize in *; lia]. }
  apply Nat.eqb_neq in Heq. destruct (lookup_lt_is_Some_2 xs k) as [x Hx]; [lia|].
  wp_bind. iApply (inp_src _ _ _ _ _ Hinp with "HI"); [done|]. iSplit; last first.
  { iIntros (Hr) "HX". iDestruct "HQ" as "[_ HQ]". iApply ("HQ" $! EUser o k k with "[%] Hs HX").
    split_and!; try done; try lia. by rewrite Nat.sub_diag Nat.add_0_r /= take_drop. }
  iIntros (s Hsrc) "HI". wp_bind.
  iApply (wp_assign_value this o first with "Hs HI"); [done|done|lia|]. iSplit; last first.
  { iIntros (Hr) "Hs HI". iDestruct "HQ" as "[_ HQ]". iDestruct (inp_I _ _ _ _ _ Hinp with "HI") as "HX".
    iApply ("HQ" $! EUser o k k with "[%] Hs HX").
    split_and!; try done; try lia. by rewrite Nat.sub_diag Nat.add_0_r /= take_drop. }
  iIntros (o' [Hsh He]) "Hs HJ". wp_bind.
  assert (osize o' = osize o) as Hsz by by apply oshape_osize.
  iApply (wp_move_next_iterator with "Hs"); [by eapply it_ok_shape|lia|]. iIntros (f2 [Hf2 Hp2]) "Hs".
  assert (i_pos first < length (oelems o)) as Hlt by (unfold osize in *; lia).
  assert (take (i_pos f2) (oelems o') = take (i_pos first) (oelems o) ++ [x]) as Htk.
  { rewrite Hp2 He Nat.add_1_r (take_S_r _ _ x); [|by apply list_lookup_insert].
    by rewrite take_insert. }
  wp_bind. iApply (inp_next _ _ _ _ _ Hinp with "HJ"); [lia|]. iSplit; last first.
  { iIntros ((Hr & Hlate)) "HX". iDestruct "HQ" as "[_ HQ]". iApply ("HQ" $! EUser o' (S k) (S k) with "[%] Hs HX").
    split_and!; try done; try lia.
    - destruct (decide (S k = length xs)); [by right|left; lia].
    - rewrite He (drop_S _ _ _ Hx). replace (S k - k) with 1 by lia. simpl.
      rewrite insert_take_drop; [|done]. by rewrite Nat.add_1_r. }
  iIntros (r') "HI".
  iApply (IH with "Hs HI"); [done|by eapply it_ok_shape|lia|lia|lia|]. iSplit.
  - iIntros (o3 He3) "Hs HR". iDestruct "HQ" as "[HQ _]". iApply ("HQ" with "[%] Hs HR").
    by rewrite He3 Htk -assoc_L (drop_S _ _ _ Hx).
  - iIntros (e o3 j j' (Hr & Hjk & Hj & Hj' & He3)) "Hs HR". iDestruct "HQ" as "[_ HQ]".
    iApply ("HQ" $! e o3 j j' with "[%] Hs HR"). split_and!; try done; try lia.
    rewrite He3 Htk -assoc_L (drop_S _ _ _ Hx). replace (j - k) with (S (j - S k)) by lia. f_equal. cbn [take app]. f_equal. f_equal.
    rewrite Hp2 He drop_insert_gt; [|lia]. f_equal. lia.
Qed.
Lemma wp_assign_range this xs I J X late o r Q E :
  inp_spec xs I J X late → (∀ r k, I r k ⊢ ⌜length xs - k < input_fuel r⌝) → length xs < c_W C →
  seqp this o -∗ I r 0 -∗
  ((∀ o', ⌜oelems o' = xs⌝ → seqp this o' -∗ X (length xs) -∗ Q ()) ∧
   (∀ e o' j j', ⌜raisable C e ∧ (j < length xs ∨ late ∧ j = length xs) ∧ j ≤ j' ≤ S j `min` length xs ∧ oelems o' = take j xs ++ drop j (oelems o)⌝ →
      seqp this o' -∗ X j' -∗ E e)) -∗
  wp (assign_range this r) Q E.
Proof.
  iIntros (Hinp Hfuel HW) "Hs HI HQ". rewrite /assign_range. wp_bind. iApply (wp_find_first with "Hs").
  iIntros (f [Hf Hpf]) "Hs". wp_bind. iApply (wp_find_end with "Hs"). iIntros (l [Hl Hpl]) "Hs".
  iDestruct (Hfuel with "HI") as %Hfr.
  iApply (wp_assign_range_loop with "Hs HI"); [done|done|done|done|done|lia|lia|]. rewrite Hpf /=. iSplit.
  - iDestruct "HQ" as "[HQ _]". iApply "HQ".
  - iDestruct "HQ" as "[_ HQ]". iIntros (e o' j j' (Hr & _ & Hj & Hj' & He)). iIntros "Hs HX". iApply ("HQ" $! e o' j j' with "[%] Hs HX").
    rewrite Nat.sub_0_r in He. split_and!; try done; try lia.
Qed.

(** ** resize_count *)
Definition resized (count : nat) (x : T) (ys : list T) : list T :=
  take count ys ++ replicate (count - length ys) x.
Lemma wp_get_size_o this o Q E : seqp this o -∗ (seqp this o -∗ Q (osize o)) -∗ wp (get_size this) Q E.
Proof.
  iIntros "Hs HQ". destruct o as [t|].
  - iDestruct "Hs" as (h [Hw HtW]) "[Hs Ht]". iApply (wp_get_size with "Hs"). iIntros "Hs".
    iApply "HQ". iExists h. by iFrame.
  - iApply (wp_get_size with "Hs"). iApply "HQ".
Qed.
Lemma wp_resize_count this count s x R o Q E :
  src_spec s x R R → count < c_W C →
  seqp this o -∗ R -∗
  ((∀ o', ⌜oelems o' = resized count x (oelems o)⌝ → seqp this o' -∗ R -∗ Q ()) ∧
   (∀ e o' k, ⌜raisable C e ∧ osize o + k < count ∧ oelems o' = oelems o ++ replicate k x⌝ →
      seqp this o' -∗ R -∗ E e)) -∗
  wp (resize_count this count s) Q E.
Proof.
  iIntros (Hsrc HW) "Hs HR HQ". rewrite /resize_count. wp_bind. iApply (wp_get_size_o with "Hs"). iIntros "Hs".
  destruct (osize o =? count) eqn:Heq.
  { apply Nat.eqb_eq in Heq. wp_ret. iDestruct "HQ" as "[HQ _]". iApply ("HQ" with "[%] Hs HR").
    rewrite /resized take_ge; [|unfold osize in *; lia]. unfold osize in Heq.
    by rewrite Heq Nat.sub_diag right_id_L. }
  apply Nat.eqb_neq in Heq. wp_bind. iApply (wp_find_end with "Hs"). iIntros (l [Hl Hpl]) "Hs".
  destruct (count <? osize o) eqn:Hlt.
  - apply Nat.ltb_lt in Hlt. wp_bind. iApply (wp_find_index with "Hs"); [done|]. iIntros (f [Hf Hpf]) "Hs".
    wp_bind. iApply (wp_erase_range with "Hs"); [done|lia|]. iIntros (o' it' (He & _)) "Hs". wp_ret.
    iDestruct "HQ" as "[HQ _]". iApply ("HQ" with "[%] Hs HR"). rewrite He /del_range Hpf Hpl /resized.
    unfold osize in *. rewrite drop_ge //. replace (count - length (oelems o)) with 0 by lia. done.
  - apply Nat.ltb_ge in Hlt. wp_bind. iApply (wp_emplace_count with "Hs HR"); [done|done|lia|]. iSplit.
    + iIntros (o' it' (He & _)) "Hs HR". wp_ret. iDestruct "HQ" as "[HQ _]".
      iApply ("HQ" with "[%] Hs HR"). rewrite He /ins_at Hpl /resized. unfold osize in *.
      rewrite !take_ge; [|lia..]. rewrite drop_ge //. by rewrite right_id_L.
    + iIntros (e o' k (Hr & Hk & He)) "Hs HR". iDestruct "HQ" as "[_ HQ]".
      iApply ("HQ" $! e o' k with "[%] Hs HR"). split_and!; [done|lia|]. rewrite He /ins_at Hpl. unfold osize in *.
      rewrite take_ge // drop_ge //. by rewrite right_id_L.
Qed.
End ops.
