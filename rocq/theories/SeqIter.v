(** * SeqIter: searching, moving and dereferencing iterators of a whole
    container.  Proof infrastructure. *)
From Verif Require Export IterCount.
From stdpp Require Import options.
Set Default Proof Using "Type*".

Section pure.
Context {T : Type} {FZ : frozen T}.
Implicit Types t : tree T.
Implicit Types o : option (tree T).

Definition osize o : nat := length (oelems o).
(** [it] is a valid iterator of a container in state [o] *)
Definition it_ok o (it : iterator_data) : Prop :=
  match o with
  | None => it = Iter empty_entry 0
  | Some t => it_at t (i_entry it) (i_pos it)
  end.
Lemma it_ok_le o it : it_ok o it → i_pos it ≤ osize o.
Proof. destruct o as [t|]; [|by intros ->]. intros [H _]. by eapply at_seg_le. Qed.
Lemma it_ok_oseg o it : it_ok o it → at_oseg o (i_entry it) (i_pos it).
Proof. destruct o as [t|]; [|by intros ->]. by intros [H _]. Qed.
Lemma it_ok_nil it : it_ok None it → it = Iter empty_entry 0.
Proof. done. Qed.

(** ** Trees of the same shape have the same iterators *)
Fixpoint shape t : tree unit :=
  match t with Seg l xs => Seg l ((λ _, ()) <$> xs) | Nd l ts => Nd l (shape <$> ts) end.
Definition oshape o : option (tree unit) := shape <$> o.
Lemma shape_tsize t : tsize t = tsize (shape t).
Proof.
  revert t. fix IH 1. intros [l xs|l ts].
  - by rewrite /= !tsize_Seg fmap_length.
  - cbn [shape]. rewrite !tsize_Nd. induction ts as [|t ts IHts]; [done|].
    rewrite fmap_cons !fsize_cons. by rewrite IHts IH.
Qed.
Lemma shape_fsize (ts us : list (tree T)) : shape <$> ts = shape <$> us → fsize ts = fsize us.
Proof.
  revert us. induction ts as [|t ts IH]; intros [|u us]; try done. rewrite !fmap_cons !fsize_cons.
  intros [= H1 H2]. rewrite (IH us); [|done]. by rewrite (shape_tsize t) (shape_tsize u) H1.
Qed.
Lemma shape_tloc t u : shape t = shape u → tloc t = tloc u.
Proof. destruct t, u; simpl; congruence. Qed.
Lemma plug_shape (c : ctx T) t u :
  shape (plug c t) = shape u → ∃ c' s, u = plug c' s ∧ shape s = shape t ∧
    cparent c' = cparent c ∧ cindex c' = cindex c ∧ length (cl c') = length (cl c) ∧ length c' = length c.
Proof.
  revert t. induction c as [|[[l L] R] c IH]; intros t H.
  { exists [], u. done. }
  simpl in H. destruct (IH _ H) as (c' & s & -> & Hs & Hp & Hi & Hl & Hlen).
  destruct s as [|l' ts]; [done|]. simpl in Hs. injection Hs as -> Hs.
  rewrite fmap_app fmap_cons in Hs.
  apply fmap_app_inv in Hs as (L' & R0 & HL & HR & ->).
  symmetry in HR. apply fmap_cons_inv in HR as (s & R' & Hst & HR & ->).
  exists ((l, L', R') :: c'), s. split_and!; try done; simpl.
  - rewrite -(fmap_length shape L') -HL. by rewrite fmap_length.
  - rewrite !app_length Hl. f_equal. by apply shape_fsize.
  - by rewrite Hlen.
Qed.
Lemma at_seg_shape t u e pos : shape t = shape u → at_seg t e pos → at_seg u e pos.
Proof.
  intros H (c & l & xs & -> & Hs & Hl & -> & Hi).
  destruct (plug_shape _ _ _ H) as (c' & s & -> & Hsh & Hp & Hx & Hc & _).
  destruct s as [l' ys|]; [|done]. simpl in Hsh. injection Hsh as -> Hxs.
  assert (length ys = length xs) as Hlen.
  { rewrite -(fmap_length (λ _, ()) ys) Hxs. by rewrite fmap_length. }
  exists c', l, ys. rewrite Hlen Hp Hx Hc. done.
Qed.
Lemma it_ok_shape o o' it : oshape o = oshape o' → it_ok o it → it_ok o' it.
Proof.
  destruct o as [t|], o' as [u|]; simpl; try done. intros [= H] [H1 H2]. split.
  - by eapply at_seg_shape.
  - rewrite (shape_tsize u) -H -shape_tsize. done.
Qed.
Lemma oshape_osize o o' : oshape o = oshape o' → osize o = osize o'.
Proof.
  destruct o as [t|], o' as [u|]; simpl; try done. intros [= H].
  change (tsize t = tsize u). by rewrite (shape_tsize t) H -shape_tsize.
Qed.
Lemma shape_plug_eq (c : ctx T) t u : shape t = shape u → shape (plug c t) = shape (plug c u).
Proof.
  revert t u. induction c as [|[[l L] R] c IH]; intros t u H; [done|]. simpl. apply IH. simpl.
  by rewrite !fmap_app !fmap_cons H.
Qed.
End pure.

Section iter.
Context {T : Type} {C : cfg T} {OK : cfg_ok C} {FZ : frozen T}.
Context (ea na : nat).
Implicit Types t : tree T.
Implicit Types o : option (tree T).
Notation seqp := (seqp ea na).
Notation tr := (tr ea na).
Notation whole H t := (tr H (Some None) (Some 0) t).

Lemma seqp_lt this o : seqp this o ⊢ ⌜osize o < c_W C⌝.
Proof.
  pose proof (ok_W _ OK). destruct o as [t|]; simpl.
  - iIntros "H". iDestruct "H" as (h [_ ?]) "H". by iPureIntro.
  - iIntros "_". iPureIntro. unfold osize. simpl. lia.
Qed.
Lemma seqp_wf this t : seqp this (Some t) ⊢ ⌜∃ h, wfroot h t⌝.
Proof. iIntros "H". iDestruct "H" as (h [? _]) "H". iPureIntro. by exists h. Qed.

Lemma wfroot_1_seg t : wfroot 1 t → ∃ l xs, t = Seg l xs ∧ 1 ≤ length xs.
Proof. destruct t as [l xs|]; simpl; [|lia]. intros. exists l, xs. split; [done|lia]. Qed.
Lemma it_seg l (xs : list T) i :
  i ≤ length xs →
  it_at (Seg l xs) (IterEntry (SegEntry (Some l) i (length xs)) (LeafEntry None 0)) i.
Proof.
  intros. split; [apply (at_seg_here [] l xs i); lia|]. rewrite tsize_Seg. done.
Qed.

(** the three getters, then a root search *)
Ltac getters :=
  wp_bind; iApply (wp_get_root with "Hs"); iIntros "Hs";
  wp_bind; iApply (wp_get_size with "Hs"); iIntros "Hs";
  wp_bind; iApply (wp_get_height with "Hs"); iIntros "Hs".

Lemma wp_find_first this o Q E :
  seqp this o -∗ (∀ it, ⌜it_ok o it ∧ i_pos it = 0⌝ → seqp this o -∗ Q it) -∗ wp (find_first this) Q E.
Proof.
  iIntros "Hs HQ". destruct o as [t|]; rewrite /find_first; last first.
  { getters. rewrite /find_first_root /=. wp_ret. by iApply ("HQ" with "[%] Hs"). }
  iDestruct "Hs" as (h [Hw HtW]) "[Hs Ht]". getters. rewrite /find_first_root.
  pose proof (wfroot_height_pos _ _ Hw).
  destruct (h <? 2) eqn:Hh.
  - apply Nat.ltb_lt in Hh. assert (h = 1) as -> by lia.
    destruct (wfroot_1_seg _ Hw) as (l & xs & -> & Hl). wp_ret.
    iApply ("HQ" with "[%] [-]"); [|iExists 1; by iFrame]. split; [|done]. apply it_seg. cbn [i_pos] in *; lia.
  - apply Nat.ltb_ge in Hh. wp_bind. iApply (wp_find_first_node with "Ht"); [done|done|].
    iIntros (e He) "Ht". wp_ret. iApply ("HQ" with "[%] [-]"); [|iExists h; by iFrame].
    split; [|done]. by apply at_elem_it.
Qed.
Lemma wp_find_end this o Q E :
  seqp this o -∗ (∀ it, ⌜it_ok o it ∧ i_pos it = osize o⌝ → seqp this o -∗ Q it) -∗ wp (find_end this) Q E.
Proof.
  iIntros "Hs HQ". destruct o as [t|]; rewrite /find_end; last first.
  { getters. rewrite /find_end_root /=. wp_ret. by iApply ("HQ" with "[%] Hs"). }
  iDestruct "Hs" as (h [Hw HtW]) "[Hs Ht]". getters. rewrite /find_end_root.
  pose proof (wfroot_height_pos _ _ Hw).
  destruct (h <? 2) eqn:Hh.
  - apply Nat.ltb_lt in Hh. assert (h = 1) as -> by lia.
    destruct (wfroot_1_seg _ Hw) as (l & xs & -> & Hl). wp_ret.
    iApply ("HQ" with "[%] [-]"); [|iExists 1; by iFrame]. split; [|done]. rewrite /find_end_segment tsize_Seg. apply it_seg. cbn [i_pos]; lia.
  - apply Nat.ltb_ge in Hh. wp_bind. iApply (wp_find_end_node with "Ht"); [done|done|].
    iIntros (e He) "Ht". wp_ret. iApply ("HQ" with "[%] [-]"); [|iExists h; by iFrame].
    split; [|done]. by apply it_at_end.
Qed.
Lemma wp_find_last this o Q E :
  0 < osize o →
  seqp this o -∗ (∀ it, ⌜it_ok o it ∧ i_pos it = osize o - 1⌝ → seqp this o -∗ Q it) -∗ wp (find_last this) Q E.
Proof.
  iIntros (Hpos) "Hs HQ". destruct o as [t|]; rewrite /find_last; last first.
  { unfold osize in Hpos. simpl in Hpos. lia. }
  change (osize (Some t)) with (tsize t) in Hpos |- *.
  iDestruct "Hs" as (h [Hw HtW]) "[Hs Ht]". getters. rewrite /find_last_root.
  pose proof (wfroot_height_pos _ _ Hw). rewrite wsub_small; [|lia..].
  destruct (h <? 2) eqn:Hh.
  - apply Nat.ltb_lt in Hh. assert (h = 1) as -> by lia.
    destruct (wfroot_1_seg _ Hw) as (l & xs & -> & Hl). wp_ret.
    iApply ("HQ" with "[%] [-]"); [|iExists 1; by iFrame]. split; [|done].
    rewrite /find_last_segment tsize_Seg. rewrite tsize_Seg in HtW. rewrite wsub_small; [|lia..]. apply it_seg. cbn [i_pos]; lia.
  - apply Nat.ltb_ge in Hh. wp_bind. iApply (wp_find_last_node with "Ht"); [done|done|].
    iIntros (e He) "Ht". wp_ret. iApply ("HQ" with "[%] [-]"); [|iExists h; by iFrame].
    split; [|done]. by apply at_elem_it.
Qed.
Lemma wp_find_index this o pos Q E :
  pos < osize o →
  seqp this o -∗ (∀ it, ⌜it_ok o it ∧ i_pos it = pos⌝ → seqp this o -∗ Q it) -∗ wp (find_index this pos) Q E.
Proof.
  iIntros (Hpos) "Hs HQ". destruct o as [t|]; rewrite /find_index; last first.
  { unfold osize in Hpos. simpl in Hpos. lia. }
  change (osize (Some t)) with (tsize t) in Hpos |- *.
  iDestruct "Hs" as (h [Hw HtW]) "[Hs Ht]". getters. rewrite /find_index_root.
  pose proof (wfroot_height_pos _ _ Hw).
  destruct (h <? 2) eqn:Hh.
  - apply Nat.ltb_lt in Hh. assert (h = 1) as -> by lia.
    destruct (wfroot_1_seg _ Hw) as (l & xs & -> & Hl). wp_ret. rewrite tsize_Seg in Hpos.
    iApply ("HQ" with "[%] [-]"); [|iExists 1; by iFrame]. split; [|done]. apply it_seg. cbn [i_pos] in *; lia.
  - apply Nat.ltb_ge in Hh. wp_bind. iApply (wp_find_index_node with "Ht"); [done|done|done|].
    iIntros (e He) "Ht". wp_ret. iApply ("HQ" with "[%] [-]"); [|iExists h; by iFrame].
    split; [|done]. by apply at_elem_it.
Qed.

(** ** moving *)
Lemma wp_move_next_iterator this o it Q E :
  it_ok o it → i_pos it < osize o →
  seqp this o -∗ (∀ it', ⌜it_ok o it' ∧ i_pos it' = (i_pos it + 1)%nat⌝ → seqp this o -∗ Q it') -∗
  wp (move_next_iterator it) Q E.
Proof.
  iIntros (Hit Hpos) "Hs HQ". destruct o as [t|]; [|unfold osize in Hpos; simpl in Hpos; lia].
  change (osize (Some t)) with (tsize t) in Hpos |- *.
  iDestruct "Hs" as (h [Hw HtW]) "[Hs Ht]". rewrite /move_next_iterator.
  wp_bind. iApply (wp_move_next_segment with "Ht"); [done|by apply it_at_elem|].
  iIntros (e' He') "Ht". wp_ret. rewrite wadd_small; [|lia].
  iApply ("HQ" with "[%] [-]"); [done|]. iExists h. by iFrame.
Qed.
Lemma wp_move_prev_iterator this o it Q E :
  it_ok o it → 0 < i_pos it →
  seqp this o -∗ (∀ it', ⌜it_ok o it' ∧ i_pos it' = (i_pos it - 1)%nat⌝ → seqp this o -∗ Q it') -∗
  wp (move_prev_iterator it) Q E.
Proof.
  iIntros (Hit Hpos) "Hs HQ". pose proof (it_ok_le _ _ Hit) as Hle.
  destruct o as [t|]; [|unfold osize in Hle; simpl in Hle; lia].
  change (osize (Some t)) with (tsize t) in Hle |- *.
  iDestruct "Hs" as (h [Hw HtW]) "[Hs Ht]". rewrite /move_prev_iterator.
  wp_bind. iApply (wp_move_prev_segment with "Ht"); [done|apply Hit|lia|done|].
  iIntros (e' He') "Ht". wp_ret. rewrite wsub_small; [|lia..].
  iApply ("HQ" with "[%] [-]"); [|iExists h; by iFrame]. split; [|done]. by apply at_elem_it.
Qed.
Lemma wp_move_next_segment_count_ok this o e pos count Q E :
  at_oseg o e pos → pos + count ≤ osize o →
  seqp this o -∗ (∀ e', ⌜it_ok o (Iter e' (pos + count)%nat)⌝ → seqp this o -∗ Q e') -∗
  wp (move_next_segment_count e count) Q E.
Proof.
  iIntros (Hit Hpos) "Hs HQ". destruct o as [t|]; last first.
  { destruct Hit as [-> ->]. unfold osize in Hpos; simpl in Hpos. assert (count = 0) as -> by lia.
    rewrite /move_next_segment_count /move_next_leaf_count /=.
    wp_ret. by iApply ("HQ" with "[%] Hs"). }
  change (osize (Some t)) with (tsize t) in Hpos |- *.
  iDestruct "Hs" as (h [Hw HtW]) "[Hs Ht]".
  iApply (wp_move_next_segment_count with "Ht"); [done|done|done|done|].
  iIntros (e' He') "Ht". iApply ("HQ" with "[%] [-]"); [done|]. iExists h. by iFrame.
Qed.
Lemma wp_move_prev_segment_count_ok this o e pos count Q E :
  it_ok o (Iter e pos) → count ≤ pos →
  seqp this o -∗ (∀ e', ⌜it_ok o (Iter e' (pos - count)%nat)⌝ → seqp this o -∗ Q e') -∗
  wp (move_prev_segment_count e count) Q E.
Proof.
  iIntros (Hit Hpos) "Hs HQ". destruct o as [t|]; last first.
  { injection Hit as -> ->. assert (count = 0) as -> by lia.
    rewrite /move_prev_segment_count /=.
    rewrite wsub_small; [|pose proof (ok_W _ OK); lia..]. wp_ret. by iApply ("HQ" with "[%] Hs"). }
  iDestruct "Hs" as (h [Hw HtW]) "[Hs Ht]".
  iApply (wp_move_prev_segment_count with "Ht"); [done|apply Hit|done|done|].
  iIntros (e' (He1 & He2 & He3)) "Ht". iApply ("HQ" with "[%] [-]"); [|iExists h; by iFrame].
  destruct (decide (count = 0)) as [->|].
  - rewrite He3 // Nat.sub_0_r. done.
  - apply at_elem_it. apply He2. lia.
Qed.
Lemma wp_move_next_iterator_count this o it count Q E :
  it_ok o it → i_pos it + count ≤ osize o →
  seqp this o -∗ (∀ it', ⌜it_ok o it' ∧ i_pos it' = (i_pos it + count)%nat⌝ → seqp this o -∗ Q it') -∗
  wp (move_next_iterator_count it count) Q E.
Proof.
  iIntros (Hit Hpos) "Hs HQ". rewrite /move_next_iterator_count.
  iDestruct (seqp_lt with "Hs") as %Hlt.
  wp_bind. iApply (wp_move_next_segment_count_ok with "Hs"); [by apply it_ok_oseg|done|].
  iIntros (e' He') "Hs". wp_ret. rewrite wadd_small; [|lia]. by iApply ("HQ" with "[%] Hs").
Qed.
Lemma wp_move_prev_iterator_count this o it count Q E :
  it_ok o it → count ≤ i_pos it →
  seqp this o -∗ (∀ it', ⌜it_ok o it' ∧ i_pos it' = (i_pos it - count)%nat⌝ → seqp this o -∗ Q it') -∗
  wp (move_prev_iterator_count it count) Q E.
Proof.
  iIntros (Hit Hpos) "Hs HQ". rewrite /move_prev_iterator_count.
  iDestruct (seqp_lt with "Hs") as %Hlt. pose proof (it_ok_le _ _ Hit).
  wp_bind. iApply (wp_move_prev_segment_count_ok _ _ _ (i_pos it) with "Hs"); [by destruct it|done|].
  iIntros (e' He') "Hs". wp_ret. rewrite wsub_small; [|lia..]. by iApply ("HQ" with "[%] Hs").
Qed.

(** ** dereferencing *)
Lemma it_ok_split t it :
  it_ok (Some t) it → i_pos it < tsize t → ∃ c l A x B,
    t = plug c (Seg l (A ++ x :: B)) ∧
    e_seg (i_entry it) = SegEntry (Some l) (length A) (length (A ++ x :: B)) ∧
    e_leaf (i_entry it) = LeafEntry (cparent c) (cindex c) ∧
    i_pos it = length (cl c) + length A ∧
    elems t = (cl c ++ A) ++ x :: (B ++ cr c).
Proof.
  intros Hit Hlt. destruct (it_at_elem _ _ _ Hit Hlt) as [(c & l & xs & -> & Hs & Hl & Hp & _) Hi].
  rewrite {2}Hs /= in Hi.
  destruct (lookup_lt_is_Some_2 xs _ Hi) as [x Hx].
  pose proof (take_drop_middle _ _ _ Hx) as Hxs.
  exists c, l, (take (sg_idx (e_seg (i_entry it))) xs), x, (drop (S (sg_idx (e_seg (i_entry it)))) xs).
  rewrite Hxs. assert (length (take (sg_idx (e_seg (i_entry it))) xs) = sg_idx (e_seg (i_entry it))) as Hln.
  { rewrite take_length. lia. }
  rewrite Hln. split_and!; try done.
  rewrite elems_plug. cbn [elems]. rewrite -{1}Hxs -!app_assoc. done.
Qed.
Lemma wp_access this t it :
  it_ok (Some t) it → i_pos it < tsize t →
  seqp this (Some t) -∗ ∃ p i x sl,
    ⟦sg_ptr (e_seg (i_entry it)) = Some p ∧ sg_idx (e_seg (i_entry it)) = i ∧ sl !! i = Some (Some x) ∧
     elems t !! i_pos it = Some x⟧ ∗
    sg ea p sl ∗
    (∀ v, sg ea p (<[i := Some v]> sl) -∗ ∃ t', ⟦shape t' = shape t ∧ elems t' = <[i_pos it := v]> (elems t)⟧ ∗
       seqp this (Some t')).
Proof.
  iIntros (Hit Hlt) "H". 
  destruct (it_ok_split _ _ Hit Hlt) as (c & l & A & x & B & -> & Hs & Hl & Hp & He).
  iDestruct "H" as (h [Hw HtW]) "[Hs Ht]".
  pose proof (wfroot_plug_seg _ _ _ _ Hw) as ->.
  iDestruct (tr_plug_1 with "Ht") as "[Hg Hc]"; [lia|].
  iEval (rewrite tr_Seg) in "Hg". iDestruct "Hg" as (_ junk [Hln Hcl]) "Hg".
  iExists l, (length A), x, _. iFrame "Hg". iSplitR.
  { iPureIntro. rewrite Hs. split_and!; try done.
    - rewrite fmap_app fmap_cons -app_assoc. apply lookup_mid. len.
    - rewrite He. apply lookup_mid. rewrite app_length. lia. }
  iIntros (v) "Hg".
  iExists (plug c (Seg l (A ++ v :: B))). iSplitR.
  { iPureIntro. split.
    - apply shape_plug_eq. simpl. rewrite !fmap_app. done.
    - rewrite He insert_mid; [|rewrite app_length; lia]. rewrite elems_plug. cbn [elems]. by rewrite -!app_assoc. }
  iExists (length c + 1). rewrite (tloc_plug c (Seg l (A ++ v :: B)) (Seg l (A ++ x :: B))) //.
  assert (tsize (plug c (Seg l (A ++ v :: B))) = tsize (plug c (Seg l (A ++ x :: B)))) as ->.
  { rewrite !tsize_plug !tsize_Seg !app_length. done. }
  iFrame "Hs". iSplitR.
  { iPureIntro. split; [|done]. apply wfroot_plug. apply wfroot_plug in Hw as [Hwc Hwh]. split; [done|].
    destruct c; simpl in *; len. }
  iApply (tr_plug_2 with "[Hg] [Hc]"); [lia| |].
  - rewrite tr_Seg. iSplitR; [done|]. iExists junk. iSplitR; [iPureIntro; split; [len|done]|].
    rewrite !fmap_app fmap_cons -app_assoc insert_mid; [|len].
    rewrite fmap_cons -app_assoc. iApply "Hg".
  - rewrite !tsize_Seg. cbn [tloc]. rewrite !app_length. cbn [length]. done.
Qed.

(** reading through an iterator *)
Lemma wp_read_it this o it Q E :
  it_ok o it → i_pos it < osize o →
  seqp this o -∗
  (∀ x, ⌜oelems o !! i_pos it = Some x⌝ → seqp this o -∗ Q x) -∗
  wp (read_slot (sg_ptr (e_seg (i_entry it))) (sg_idx (e_seg (i_entry it)))) Q E.
Proof.
  iIntros (Hit Hlt) "Hs HQ". destruct o as [t|]; [|unfold osize in Hlt; simpl in Hlt; lia].
  destruct (it_ok_split _ _ Hit Hlt) as (c & l & A & x & B & -> & Hs & Hl & Hp & He).
  iDestruct "Hs" as (h [Hw HtW]) "[Hs Ht]".
  pose proof (wfroot_plug_seg _ _ _ _ Hw) as ->.
  iDestruct (tr_plug_1 with "Ht") as "[Hg Hc]"; [lia|].
  iEval (rewrite tr_Seg) in "Hg". iDestruct "Hg" as (Hz junk [Hln Hcl]) "Hg". rewrite Hs. cbn [sg_ptr sg_idx].
  iApply (wp_read_slot with "Hg").
  { rewrite fmap_app fmap_cons -app_assoc. apply lookup_mid. len. }
  iIntros "Hg". iApply ("HQ" with "[%] [-]").
  { cbn [oelems]. rewrite He Hp. apply lookup_mid. by rewrite app_length. }
  iExists (length c + 1). iFrame "Hs". iSplitR; [done|].
  iApply (tr_plug_2 with "[Hg] Hc"); [lia|]. rewrite tr_Seg. iSplitR; [done|]. iExists junk. by iFrame.
Qed.
(** writing through an iterator *)
Lemma wp_write_it this o it v Q E :
  it_ok o it → i_pos it < osize o →
  seqp this o -∗
  (∀ o', ⌜oshape o' = oshape o ∧ oelems o' = <[i_pos it := v]> (oelems o)⌝ → seqp this o' -∗ Q ()) -∗
  wp (set_slot (sg_ptr (e_seg (i_entry it))) (sg_idx (e_seg (i_entry it))) (Some v)) Q E.
Proof.
  iIntros (Hit Hlt) "Hs HQ". destruct o as [t|]; [|unfold osize in Hlt; simpl in Hlt; lia].
  iDestruct (wp_access with "Hs") as (p i x sl (Hp & Hi & Hx & Hex)) "[Hg Hw]"; [done|done|].
  rewrite Hp Hi. iApply (wp_set_slot with "Hg"); [by apply lookup_lt_Some in Hx|].
  iIntros "Hg". iDestruct ("Hw" with "Hg") as (t' [Hsh He]) "Hs".
  iApply ("HQ" $! (Some t') with "[%] Hs"). simpl. by rewrite Hsh He.
Qed.
End iter.
