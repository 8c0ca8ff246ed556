(** * LocalIns: inserting at a position changes only the segment there; references
    into other segments stay good.  Proof infrastructure. *)
From Verif Require Export RefineSeg Stored.
From stdpp Require Import options.
Set Default Proof Using "Type*".

Section local.
Context {T : Type} {C : cfg T} {OK : cfg_ok C}.
Implicit Types o : option (tree T).
Implicit Types xs : list T.
Notation segl := (list (loc * list T)).

Lemma it_ok_room (o : option (tree T)) it : it_ok o it → i_pos it < osize o → 0 < sg_len (e_seg (i_entry it)) - sg_idx (e_seg (i_entry it)).
Proof.
  destruct o as [t|]; [|unfold osize; simpl; lia]. intros Hok Hlt. destruct (it_at_elem t _ _ Hok Hlt) as [_ H]. lia.
Qed.

(** inserting [xs] at [pos] acts within every stretch of segments that contains the position *)
Definition local_ins (S0 S1 : segl) (pos : nat) xs : Prop :=
  ∀ SL G SR, S0 = SL ++ G ++ SR → 0 < length (concat G.*2) → length (concat SL.*2) ≤ pos →
    (pos < length (concat SL.*2) + length (concat G.*2) ∨ pos = length (concat SL.*2) + length (concat G.*2) ∧ SR = []) →
    ∃ G', S1 = SL ++ G' ++ SR ∧ head G.*1 = head G'.*1 ∧
      concat G'.*2 = ins_at (pos - length (concat SL.*2)) xs (concat G.*2).
Lemma local_ins_nil S0 pos : local_ins S0 S0 pos [].
Proof. intros SL G SR -> _ _ _. exists G. split_and!; [done..|]. by rewrite ins_at_nil. Qed.
Lemma local_ins_app S0 S1 S2 pos xs ys :
  local_ins S0 S1 pos xs → local_ins S1 S2 (pos + length xs) ys → local_ins S0 S2 pos (xs ++ ys).
Proof.
  intros H1 H2 SL G SR E Hpos Hge Hlt. destruct (H1 SL G SR E Hpos Hge Hlt) as (G' & E' & Hh & Hc).
  assert (length (concat G'.*2) = length (concat G.*2) + length xs) as Hl by by rewrite Hc ins_at_length.
  destruct (H2 SL G' SR E') as (G2 & E2 & Hh2 & Hc2); [lia|lia|destruct Hlt as [|[? ->]]; [left|right; split; [|done]]; lia|].
  exists G2. split_and!; [done|by rewrite Hh|]. rewrite Hc2 Hc.
  replace (pos + length xs - length (concat SL.*2)) with (pos - length (concat SL.*2) + length xs) by lia.
  apply ins_at_app. destruct Hlt as [|[? _]]; lia.
Qed.
Lemma cut_in (SL0 : segl) y SR0 SL G SR : SL0 ++ y :: SR0 = SL ++ G ++ SR →
  (∃ S, SL = SL0 ++ y :: S) ∨ (∃ G1 G2, G = G1 ++ y :: G2 ∧ SL0 = SL ++ G1 ∧ SR0 = G2 ++ SR) ∨
  (∃ S, SL0 = SL ++ G ++ S ∧ SR = S ++ y :: SR0).
Proof.
  revert SL0. induction SL as [|z SL IH]; intros SL0 E.
  - right. simpl in E. revert SL0 E. induction G as [|g G IHG]; intros SL0 E; [right; by exists SL0|].
    destruct SL0 as [|z SL0]; simplify_eq/=; [left; by exists [], G|].
    destruct (IHG SL0) as [(G1 & G2 & -> & -> & ->)|(S & -> & ->)]; [done|left; by exists (g :: G1), G2|right; by exists S].
  - destruct SL0 as [|z' SL0]; simplify_eq/=; [left; by exists SL|].
    destruct (IH SL0) as [(S & ->)|[(G1 & G2 & -> & -> & ->)|(S & -> & ->)]]; [done|left; by exists S|right; left; by exists G1, G2|right; right; by exists S].
Qed.
Lemma seg_ins_local S0 S1 pos r v :
  (pos < length (concat S0.*2) → 0 < r) → seg_ins (C:=C) S0 S1 pos r v → local_ins S0 S1 pos [v].
Proof.
  intros Hr [(-> & _)|(SL0 & l & A & R & SR0 & -> & -> & <- & Hs)] SL G SR E Hpos Hge Hlt.
  { destruct SL; [|done]. destruct G; [simpl in Hpos; lia|done]. }
  assert (∃ M, S1 = SL0 ++ M ++ SR0 ∧ head M.*1 = Some l ∧ concat M.*2 = A ++ v :: R) as (M & -> & Hh & HM).
  { destruct Hs as [[_ ->]|(_ & l' & X & Y & HXY & _ & ->)].
    - exists [(l, A ++ v :: R)]. simpl. by rewrite right_id_L.
    - exists [(l, X); (l', Y)]. simpl. by rewrite right_id_L HXY. }
  assert (length (concat (SL0 ++ (l, A ++ R) :: SR0).*2) = length (concat SL.*2) + length (concat G.*2) + length (concat SR.*2)) as Htot.
  { rewrite E !fst_elems !app_length. lia. }
  rewrite fst_elems fmap_cons concat_cons !app_length in Hr, Htot. simpl in Hr, Htot.
  destruct (cut_in _ _ _ _ _ _ E) as [(S & ->)|[(G1 & G2 & -> & -> & ->)|(S & -> & ->)]].
  - rewrite fst_elems fmap_cons concat_cons /= !app_length in Hge, Htot. lia.
  - exists (G1 ++ M ++ G2). split_and!; [by rewrite -!app_assoc| |].
    { destruct G1 as [|g G1]; [|done]. simpl. rewrite fmap_app. destruct M; [done|]. simpl in *. congruence. }
    rewrite !fst_elems HM /ins_at fmap_cons concat_cons /=.
    replace (length (concat SL.*2 ++ concat G1.*2) + length A - length (concat SL.*2)) with (length (concat G1.*2) + length A) by (rewrite app_length; lia).
    replace (concat G1.*2 ++ (A ++ R) ++ concat G2.*2) with ((concat G1.*2 ++ A) ++ (R ++ concat G2.*2)) by (by rewrite -!app_assoc).
    rewrite take_app_alt; [|by rewrite app_length]. rewrite drop_app_alt; [|by rewrite app_length].
    by rewrite -!app_assoc.
  - destruct Hlt as [Hlt|[? E']]; [|by destruct S]. rewrite !fst_elems !app_length in Hlt. lia.
Qed.

Lemma wp_one_local ea na this o it s x R R' Q E :
  src_spec s x R (seqp ea na this o ∗ R')%I → it_ok o it → osize o + 1 < c_W C →
  R -∗
  ((∀ o' it', ⌜osize o' = (osize o + 1)%nat ∧ it_ok o' it' ∧ i_pos it' = i_pos it ∧ local_ins (osegs o) (osegs o') (i_pos it) [x]⌝ →
      seqp ea na this o' -∗ R' -∗ Q it') ∧
   (⌜raisable C EUser⌝ → R -∗ E EUser) ∧ (⌜raisable C EAlloc⌝ → seqp ea na this o -∗ R' -∗ E EAlloc)) -∗
  wp (emplace_single this it s) Q E.
Proof.
  iIntros (Hsrc Hit HW) "HR HQ". iApply (wp_emplace_single with "HR"); [done..|]. iSplit; [|by iDestruct "HQ" as "[_ $]"].
  iIntros (o' it' (He & Hok & Hp & _ & Hs)) "Hs HR". iDestruct "HQ" as "[HQ _]". iApply ("HQ" with "[%] Hs HR").
  split_and!; [by rewrite /osize He ins_at_length|done|done|]. eapply seg_ins_local; [|done].
  rewrite osegs_elems. by apply it_ok_room.
Qed.
End local.

(** ** References into other segments *)
Section alias.
Context {T : Type} {C : cfg T} {OK : cfg_ok C}.
Implicit Types o : option (tree T).
Implicit Types xs : list T.
Notation segl := (list (loc * list T)).

Lemma csl_app (c1 c2 : ctx T) : csl (c1 ++ c2) = csl c2 ++ csl c1.
Proof.
  induction c1 as [|[[l L] R] c1 IH]; simpl; [by rewrite right_id_L|].
  by rewrite IH assoc_L.
Qed.
Lemma tsegs_find (t : tree T) (L : segl) l ys R :
  tsegs t = L ++ (l, ys) :: R → ∃ c, t = plug c (Seg l ys) ∧ csl c = L.
Proof.
  revert L R. induction t as [l0 xs|l0 ts IH] using tree_ind'; intros L R E.
  { simpl in E. destruct L as [|? [|]]; simplify_eq/=. by exists []. }
  rewrite tsegs_Nd in E.
  assert (∃ A t0 B L0 R0, ts = A ++ t0 :: B ∧ tsegs t0 = L0 ++ (l, ys) :: R0 ∧ L = fsegs A ++ L0) as (A & t0 & B & L0 & R0 & -> & E0 & ->).
  { clear IH. revert L E. induction ts as [|t ts IHt]; intros L E; [by destruct L|].
    rewrite fsegs_cons in E.
    apply app_eq_inv in E as [(k & E1 & E2)|(k & E1 & E2)].
    - destruct k as [|y k].
      + rewrite right_id_L in E1. destruct (IHt [] (eq_sym E2)) as (A & t0 & B & L0 & R0 & -> & E0 & E3).
        exists (t :: A), t0, B, L0, R0. by rewrite fsegs_cons E1 -assoc_L -E3 right_id_L.
      + injection E2 as <- E2. by exists [], t, ts, L, k.
    - destruct (IHt _ E2) as (A & t0 & B & L0 & R0 & -> & E0 & ->).
      exists (t :: A), t0, B, L0, R0. by rewrite fsegs_cons -assoc_L E1. }
  rewrite Forall_app Forall_cons in IH. destruct IH as (_ & IH & _).
  destruct (IH _ _ E0) as (c & -> & <-). exists (c ++ [(l0, A, B)]). split; [by rewrite plug_app|].
  rewrite csl_app. done.
Qed.
(** a reference to an element, wherever its segment is *)
Lemma src_place ea na this o (L : segl) l ys R k x :
  osegs o = L ++ (l, ys) :: R → ys !! k = Some x →
  src_spec (VRef (Some l) k) x (seqp ea na this o) (seqp ea na this o).
Proof.
  intros E Hx. destruct o as [t|]; [|by destruct L]. destruct (tsegs_find _ _ _ _ _ E) as (c & -> & HL).
  pose proof (lookup_lt_Some _ _ _ Hx) as Hlt.
  set (it := Iter (IterEntry (SegEntry (Some l) k (length ys)) (LeafEntry (cparent c) (cindex c))) (length (cl c) + k)).
  apply (src_ref ea na this (Some (plug c (Seg l ys))) it x).
  - split; [apply at_seg_here; lia|done].
  - cbn [oelems it i_pos]. rewrite elems_plug lookup_app_r; [|lia]. rewrite lookup_app_l; [|simpl; lia].
    by replace (length (cl c) + k - length (cl c)) with k by lia.
Qed.
(** the source can be read whenever fewer than [count] elements have been inserted *)
Definition stays_good ea na this o pos count (s : vsrc (T:=T)) x : Prop :=
  ∀ j o', j < count → (j = 0 → o' = o) → local_ins (osegs o) (osegs o') pos (replicate j x) →
    src_spec s x (seqp ea na this o') (seqp ea na this o').
Lemma stays_good_next ea na this o pos count s x o' :
  stays_good ea na this o pos (S count) s x → local_ins (osegs o) (osegs o') pos [x] →
  stays_good ea na this o' (pos + 1) count s x.
Proof.
  intros H Hl j o2 Hj Hj0 Hl2. apply (H (S j)); [lia|done|]. by apply (local_ins_app _ _ _ _ [x] _ Hl).
Qed.
Lemma src_and_emp s (x : T) (R R' : hprop T) : src_spec s x R R' → src_spec s x R (R' ∗ emp)%I.
Proof.
  intros H Q E. iIntros "HR HQ". iApply (H with "HR"). iSplit.
  - iIntros "HR". iDestruct "HQ" as "[HQ _]". iApply "HQ". by iFrame.
  - iIntros (He) "HR". iDestruct "HQ" as "[_ HQ]". by iApply "HQ".
Qed.
Lemma wp_emplace_count_loop_here ea na this o it count s x Q E :
  stays_good ea na this o (i_pos it) count s x → it_ok o it → osize o + count < c_W C →
  seqp ea na this o -∗
  ((∀ o' it', ⌜oelems o' = ins_at (i_pos it) (replicate count x) (oelems o) ∧ it_ok o' it' ∧ i_pos it' = (i_pos it + count)%nat⌝ →
      seqp ea na this o' -∗ Q it') ∧
   (∀ e o' k, ⌜raisable C e ∧ k < count ∧ oelems o' = ins_at (i_pos it) (replicate k x) (oelems o)⌝ →
      seqp ea na this o' -∗ E e)) -∗
  wp (emplace_count_loop this it count s) Q E.
Proof.
  revert o it Q E. induction count as [|count IH]; iIntros (o it Q E Hsrc Hit HW) "Hs HQ".
  { cbn [emplace_count_loop]. wp_ret. iDestruct "HQ" as "[HQ _]".
    iApply ("HQ" $! o with "[%] Hs"). cbn [replicate]. rewrite ins_at_nil Nat.add_0_r. done. }
  cbn [emplace_count_loop]. wp_bind. pose proof (it_ok_le _ _ Hit) as Hle.
  assert (src_spec s x (seqp ea na this o) (seqp ea na this o)) as Hs0.
  { apply (Hsrc 0); [lia|done|apply local_ins_nil]. }
  iApply (wp_emplace_single ea na this o it s x (seqp ea na this o) emp with "Hs"); [by apply src_and_emp|done|lia|].
  iSplit; [|iSplit].
  - iIntros (o' it' (He & Hok & Hp & _ & Hsg)) "Hs _". wp_bind.
    assert (local_ins (osegs o) (osegs o') (i_pos it) [x]) as Hloc.
    { eapply seg_ins_local; [|done]. rewrite osegs_elems. by apply it_ok_room. }
    assert (osize o' = osize o + 1) as Hsz by by rewrite /osize He ins_at_length.
    iApply (wp_move_next_iterator with "Hs"); [done|lia|]. iIntros (it2 [Hit2 Hp2]) "Hs".
    iApply (IH with "Hs"); [rewrite Hp2 Hp; by eapply stays_good_next|done|lia|]. rewrite Hp2 Hp. iSplit.
    + iIntros (o3 it3 (He3 & Hit3 & Hp3)) "Hs". iDestruct "HQ" as "[HQ _]".
      iApply ("HQ" with "[%] Hs"). split_and!; [|done|lia].
      rewrite He3 He. by rewrite (ins_at_app _ [x]).
    + iIntros (e o3 k (Hr & Hk & He3)) "Hs". iDestruct "HQ" as "[_ HQ]".
      iApply ("HQ" $! e o3 (S k) with "[%] Hs"). split_and!; [done|lia|].
      rewrite He3 He. by rewrite (ins_at_app _ [x]).
  - iIntros (Hr) "Hs". iDestruct "HQ" as "[_ HQ]". iApply ("HQ" $! EUser o 0 with "[%] Hs").
    split_and!; [done|lia|by rewrite ins_at_nil].
  - iIntros (Hr) "Hs _". iDestruct "HQ" as "[_ HQ]". iApply ("HQ" $! EAlloc o 0 with "[%] Hs").
    split_and!; [done|lia|by rewrite ins_at_nil].
Qed.
Lemma wp_emplace_count_here ea na this o it count s x Q E :
  stays_good ea na this o (i_pos it) count s x → it_ok o it → osize o + count < c_W C →
  seqp ea na this o -∗
  ((∀ o' it', ⌜oelems o' = ins_at (i_pos it) (replicate count x) (oelems o) ∧ it_ok o' it' ∧ i_pos it' = i_pos it⌝ →
      seqp ea na this o' -∗ Q it') ∧
   (∀ e o' k, ⌜raisable C e ∧ k < count ∧ oelems o' = ins_at (i_pos it) (replicate k x) (oelems o)⌝ →
      seqp ea na this o' -∗ E e)) -∗
  wp (emplace_count this it count s) Q E.
Proof.
  iIntros (Hsrc Hit HW) "Hs HQ". rewrite /emplace_count. wp_bind.
  iApply (wp_emplace_count_loop_here with "Hs"); [done|done|done|]. iSplit; last by iDestruct "HQ" as "[_ $]".
  iIntros (o' it' (He & Hit' & Hp)) "Hs". iDestruct "HQ" as "[HQ _]".
  iApply (wp_move_prev_iterator_count with "Hs"); [done|lia|]. iIntros (it2 [Hit2 Hp2]) "Hs".
  iApply ("HQ" with "[%] Hs"). split_and!; [done|done|lia].
Qed.
Lemma wp_resize_count_here ea na this count s x o Q E :
  stays_good ea na this o (osize o) (count - osize o) s x → count < c_W C →
  seqp ea na this o -∗
  ((∀ o', ⌜oelems o' = resized count x (oelems o)⌝ → seqp ea na this o' -∗ Q ()) ∧
   (∀ e o' k, ⌜raisable C e ∧ osize o + k < count ∧ oelems o' = oelems o ++ replicate k x⌝ →
      seqp ea na this o' -∗ E e)) -∗
  wp (resize_count this count s) Q E.
Proof.
  iIntros (Hsrc HW) "Hs HQ". rewrite /resize_count. wp_bind. iApply (wp_get_size_o with "Hs"). iIntros "Hs".
  destruct (osize o =? count) eqn:Heq.
  { apply Nat.eqb_eq in Heq. wp_ret. iDestruct "HQ" as "[HQ _]". iApply ("HQ" with "[%] Hs").
    rewrite /resized take_ge; [|unfold osize in *; lia]. unfold osize in Heq.
    by rewrite Heq Nat.sub_diag right_id_L. }
  apply Nat.eqb_neq in Heq. wp_bind. iApply (wp_find_end with "Hs"). iIntros (l [Hl Hpl]) "Hs".
  destruct (count <? osize o) eqn:Hlt.
  - apply Nat.ltb_lt in Hlt. wp_bind. iApply (wp_find_index with "Hs"); [done|]. iIntros (f [Hf Hpf]) "Hs".
    wp_bind. iApply (wp_erase_range with "Hs"); [done|lia|]. iIntros (o' it' (He & _)) "Hs". wp_ret.
    iDestruct "HQ" as "[HQ _]". iApply ("HQ" with "[%] Hs"). rewrite He /del_range Hpf Hpl /resized.
    unfold osize in *. rewrite drop_ge //. replace (count - length (oelems o)) with 0 by lia. done.
  - apply Nat.ltb_ge in Hlt. wp_bind. iApply (wp_emplace_count_here with "Hs"); [by rewrite Hpl|done|lia|]. iSplit.
    + iIntros (o' it' (He & _)) "Hs". wp_ret. iDestruct "HQ" as "[HQ _]".
      iApply ("HQ" with "[%] Hs"). rewrite He /ins_at Hpl /resized. unfold osize in *.
      rewrite !take_ge; [|lia..]. rewrite drop_ge //. by rewrite right_id_L.
    + iIntros (e o' k (Hr & Hk & He)) "Hs". iDestruct "HQ" as "[_ HQ]".
      iApply ("HQ" $! e o' k with "[%] Hs"). split_and!; [done|lia|]. rewrite He /ins_at Hpl. unfold osize in *.
      rewrite take_ge // drop_ge //. by rewrite right_id_L.
Qed.
End alias.
