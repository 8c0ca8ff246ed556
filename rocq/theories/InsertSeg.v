(** * InsertSeg: insert_single_segment (lines 1607-1672 of seq.hpp), and the
    predicate describing a whole container.  Proof infrastructure. *)
From Verif Require Export InsertLoop.
From stdpp Require Import options.
Set Default Proof Using "Type*".

Section pure.
Context {T : Type} {C : cfg T} {FZ : frozen T}.
Implicit Types t : tree T.
Implicit Types c : ctx T.
Implicit Types o : option (tree T).

Definition oelems o : list T := match o with None => [] | Some t => elems t end.
Definition osegs o : list (loc * list T) := match o with None => [] | Some t => tsegs t end.
Definition onblk o : nat := match o with None => 0 | Some t => nblk t end.
Fixpoint theight t : nat :=
  match t with
  | Seg _ _ => 1
  | Nd _ ts => S (match ts with t :: _ => theight t | [] => 0 end)
  end.
Definition oheight o : nat := match o with None => 0 | Some t => theight t end.
Lemma wft_theight h t : wft h t → theight t = h.
Proof.
  pose proof base_bounds. revert t. induction h as [|h IH]; [done|]. intros [l xs|l ts]; simpl; [lia|].
  intros (? & ? & Hts). destruct ts as [|t ts]; [simpl in *; lia|].
  apply Forall_cons in Hts as [Ht _]. by rewrite (IH t).
Qed.
Lemma wfroot_theight h t : wfroot h t → theight t = h.
Proof.
  destruct h as [|h]; [done|]. intros H. destruct t as [l xs|l ts]; simpl in *; [lia|].
  destruct H as (? & ? & Hts). destruct ts as [|t ts]; [simpl in *; lia|].
  apply Forall_cons in Hts as [Ht _]. by rewrite (wft_theight h t).
Qed.

(** entry [e] designates offset [idx] of a segment of [t], [pos] elements from
    the start; [idx] may equal the length of the segment *)
Definition at_seg t (e : iterator_entry) (pos : nat) : Prop :=
  ∃ c l xs, t = plug c (Seg l xs) ∧
    e_seg e = SegEntry (Some l) (sg_idx (e_seg e)) (length xs) ∧
    e_leaf e = LeafEntry (cparent c) (cindex c) ∧
    pos = length (cl c) + sg_idx (e_seg e) ∧ sg_idx (e_seg e) ≤ length xs.
(** it designates an element *)
Definition at_elem t (e : iterator_entry) (pos : nat) : Prop :=
  at_seg t e pos ∧ sg_idx (e_seg e) < sg_len (e_seg e).
Definition empty_entry : iterator_entry := IterEntry (SegEntry None 0 0) (LeafEntry None 0).
Definition at_oseg o (e : iterator_entry) (pos : nat) : Prop :=
  match o with None => e = empty_entry ∧ pos = 0 | Some t => at_seg t e pos end.

Lemma needed_le c : needed c ≤ S (length c).
Proof. induction c as [|[[l L] R] c IH]; simpl; [lia|]. destruct (_ =? _); lia. Qed.
End pure.

Section seg.
Context {T : Type} {C : cfg T} {OK : cfg_ok C} {FZ : frozen T}.
Context (ea na : nat).
Implicit Types t : tree T.
Implicit Types c : ctx T.
Implicit Types o : option (tree T).
Notation tr := (tr ea na).
Notation ctxp := (ctxp ea na).
Notation segp := (segp ea).
Notation sqo := (sqo ea na).

Definition seqp (this : loc) (o : option (tree T)) : hprop T :=
  match o with
  | None => sqo this None 0 0
  | Some t => ∃ h, ⟦wfroot h t ∧ tsize t < c_W C⟧ ∗
      sqo this (Some (tloc t)) (tsize t) h ∗ tr h (Some None) (Some 0) t
  end%I.

(** ** Lines 1611-1617 *)
Definition seg_shift {A} (p : ptr) (length index : nat) (value : T) (K : M T A) : M T A :=
  move_segment p (wsub length 1) p length;;
  assign_forward_segment p (wsub length 1) index 1;;
  assign_segment p index value;;
  K.
Lemma wp_seg_shift {B} l A R v len (K : M T B) Q E :
  len = length A + length R → R ≠ [] → len ≠ segment_max →
  segp l (A ++ R) -∗ (segp l (A ++ v :: R) -∗ wp K Q E) -∗
  wp (seg_shift (Some l) len (length A) v K) Q E.
Proof.
  iIntros (-> HR Hnf) "Hg HQ". pose proof (ok_W _ OK) as HW.
  iDestruct "Hg" as (junk [Hlen Hcl]) "Hg".
  destruct R as [|r R _] using rev_ind; [done|]. rewrite !app_length /= in Hlen Hnf |- *.
  destruct junk as [|d junk]; [simpl in *; lia|]. simpl in Hlen.
  apply Forall_cons in Hcl as [Hd Hcl].
  rewrite /seg_shift. rewrite wsub_small; [|lia..].
  replace (length A + (length R + 1) - 1) with (length A + length R) by lia.
  wp_bind. rewrite !fmap_app -!app_assoc /=.
  iApply (wp_move_segment_same _ _ _ _ _ r with "Hg").
  { rewrite app_assoc. apply lookup_mid. len. }
  { rewrite (app_assoc (Some <$> A)) (snoc_app (_ ++ _) (d :: junk)). apply lookup_mid. len. }
  { done. } { lia. }
  iIntros "Hg".
  rewrite (app_assoc (Some <$> A)) (snoc_app (_ ++ _) (d :: junk)) insert_mid; [|len].
  rewrite -snoc_app insert_mid; [|len]. rewrite -app_assoc.
  wp_bind. iApply (wp_assign_forward_segment _ _ (Some <$> A) R with "Hg"); [len|len|lia|].
  iIntros (d') "Hg".
  wp_bind. iApply (wp_assign_segment with "Hg"). { apply lookup_mid. len. }
  iIntros "Hg". rewrite insert_mid; [|len]. iApply "HQ". iExists junk.
  iSplitR. { iPureIntro. split; [len|done]. }
  lnorm. iApply "Hg".
Qed.

(** ** Lines 1633-1636 *)
Lemma wp_seg_append l A v len Q E :
  len = length A → len ≠ segment_max →
  segp l A -∗ (segp l (A ++ [v]) -∗ Q ()) -∗
  wp (construct_segment (Some l) len v) Q E.
Proof.
  iIntros (-> Hnf) "Hg HQ". iDestruct "Hg" as (junk [Hlen Hcl]) "Hg".
  destruct junk as [|d junk]; [simpl in *; lia|]. simpl in Hlen.
  apply Forall_cons in Hcl as [Hd Hcl].
  iApply (wp_construct_segment with "Hg"); [apply lookup_mid; len|done|].
  iIntros "Hg". rewrite insert_mid; [|len]. iApply "HQ". iExists junk.
  iSplitR. { iPureIntro. split; [len|done]. }
  lnorm. iApply "Hg".
Qed.

(** ** Lines 1646-1669 *)
Lemma wp_seg_split {B} l a A R v len m ma (K1 K2 : M T B) Q E :
  len = length A + length R → len = segment_max → m = segment_min → ma = segment_max + 1 - segment_min →
  segp l (A ++ R) -∗ raw_seg ea a -∗
  ((∀ X Y, ⌜A ++ v :: R = X ++ Y ∧ length X = m ∧ length Y = ma ∧ length A < m⌝%nat →
     segp l X -∗ segp a Y -∗ wp K1 Q E) ∧
   (∀ X Y, ⌜A ++ v :: R = X ++ Y ∧ length X = m ∧ length Y = ma ∧ m ≤ length A⌝%nat →
     segp l X -∗ segp a Y -∗ wp K2 Q E)) -∗
  wp (if length A <? m then
           let left_index := wsub m 1 in
           move_segment (Some l) left_index (Some a) 0;;
           construct_range_segment (Some l) (left_index + 1) (Some a) 1 (wsub ma 1);;
           assign_forward_segment (Some l) left_index (length A) 1;;
           assign_segment (Some l) (length A) v;;
           K1
         else
           let new_index := wsub (length A) m in
           let move_length := wsub len (length A) in
           construct_range_segment (Some l) m (Some a) 0 new_index;;
           construct_range_segment (Some l) (length A) (Some a) (new_index + 1) move_length;;
           construct_segment (Some a) new_index v;;
           K2) Q E.
Proof.
  iIntros (-> Hlen -> ->) "Hg Ha HQ". pose proof (ok_W _ OK) as HW. pose proof segment_bounds as HB.
  iDestruct "Hg" as (junk [Hl Hcl]) "Hg". rewrite app_length in Hl.
  assert (junk = []) as -> by (destruct junk; [done|simpl in *; lia]). rewrite app_nil_r.
  assert (length (replicate segment_max (@None T)) = segment_max) as Hrl by by rewrite replicate_length.
  pose proof raw_seg_clean as Hrc. rewrite /raw_seg.
  set (arr := replicate segment_max (@None T)) in Hrl, Hrc |- *. clearbody arr. cbn zeta.
  destruct (length A <? segment_min) eqn:Hlt.
  - apply Nat.ltb_lt in Hlt. iDestruct "HQ" as "[HQ _]".
    rewrite wsub_small; [|lia..]. rewrite wsub_small; [|lia..].
    assert (∃ R1 r R2, R = R1 ++ r :: R2 ∧ length A + length R1 = segment_min - 1) as (R1 & r & R2 & -> & HR1).
    { exists (take (segment_min - 1 - length A) R).
      destruct (drop (segment_min - 1 - length A) R) as [|r R2] eqn:Hd.
      { apply (f_equal length) in Hd. rewrite drop_length /= in Hd. lia. }
      exists r, R2. rewrite -Hd take_drop. split; [done|]. rewrite take_length. lia. }
    rewrite app_length /= in Hlen.
    rewrite !fmap_app fmap_cons.
    destruct arr as [|a0 arr]; [simpl in *; lia|]. apply Forall_cons in Hrc as [Hc0 Hrc].
    simpl in Hrl.
    wp_bind. iApply (wp_move_segment _ _ _ _ _ _ _ _ r with "Hg Ha").
    { rewrite assoc_L. apply lookup_mid. len. }
    { done. } { done. }
    iIntros "Hg Ha". rewrite app_assoc insert_mid; [|len]. cbn [insert list_insert].
    replace (segment_max + 1 - segment_min - 1) with (length R2) by lia.
    wp_bind.
    iApply (wp_construct_range_segment _ _ _ _
       ((Some <$> A) ++ (Some <$> R1) ++ [Some (c_residue C r)]) R2 [] [Some r]
       (take (length R2) arr) (drop (length R2) arr) with "[Hg] [Ha]").
    { len. } { done. } { done. } { rewrite take_length. lia. }
    { by apply Forall_take. }
    { lnorm. iApply "Hg". }
    { rewrite take_drop. iApply "Ha". }
    iIntros (J HJ HJc) "Hg Ha".
    wp_bind. iApply (wp_assign_forward_segment _ _ (Some <$> A) R1 _ J with "[Hg]").
    { len. } { len. } { lia. }
    { lnorm. iApply "Hg". }
    iIntros (d') "Hg".
    wp_bind. iApply (wp_assign_segment with "Hg"); [apply lookup_mid; len|].
    iIntros "Hg". rewrite insert_mid; [|by rewrite fmap_length].
    iApply ("HQ" $! (A ++ v :: R1) (r :: R2) with "[%] [Hg] [Ha]").
    + split_and!; [by lnorm|len|len|lia].
    + iExists J. iSplitR. { iPureIntro. split; [len|done]. } lnorm. iApply "Hg".
    + iExists (drop (length R2) arr).
      iSplitR. { iPureIntro. split; [|by apply Forall_drop]. rewrite drop_length /=. lia. }
      iApply "Ha".
  - apply Nat.ltb_ge in Hlt. iDestruct "HQ" as "[_ HQ]".
    rewrite wsub_small; [|lia..]. rewrite wsub_small; [|lia..].
    assert (∃ X A2, A = X ++ A2 ∧ length X = segment_min) as (X & A2 & -> & HX).
    { exists (take segment_min A), (drop segment_min A). rewrite take_drop. split; [done|].
      rewrite take_length. lia. }
    rewrite app_length in Hlen Hlt |- *.
    rewrite !fmap_app.
    replace (length X + length A2 - segment_min) with (length A2) by lia.
    replace (length X + length A2 + length R - (length X + length A2)) with (length R) by lia.
    wp_bind.
    iApply (wp_construct_range_segment _ _ _ _
       (Some <$> X) A2 (Some <$> R) []
       (take (length A2) arr) (drop (length A2) arr) with "[Hg] [Ha]").
    { len. } { done. } { done. } { rewrite take_length. lia. }
    { by apply Forall_take. }
    { lnorm. iApply "Hg". }
    { rewrite /= take_drop. iApply "Ha". }
    iIntros (J HJ HJc) "Hg Ha". cbn [app].
    assert (∃ y D junk, drop (length A2) arr = y :: D ++ junk ∧ length D = length R) as (y & D & junk & Hd & HD).
    { destruct (drop (length A2) arr) as [|y D] eqn:Hd.
      { apply (f_equal length) in Hd. rewrite drop_length /= in Hd. lia. }
      exists y, (take (length R) D), (drop (length R) D). rewrite take_drop. split; [done|].
      apply (f_equal length) in Hd. rewrite drop_length /= in Hd. rewrite take_length. lia. }
    assert (S (length A2 + length R + length junk) = segment_max) as Hj.
    { apply (f_equal length) in Hd. rewrite drop_length /= app_length in Hd. lia. }
    assert (Forall clean (y :: D ++ junk)) as HC.
    { rewrite -Hd. by apply Forall_drop. }
    apply Forall_cons in HC as [Hy HC]. apply Forall_app in HC as [HD' Hjunk].
    rewrite Hd. wp_bind.
    iApply (wp_construct_range_segment _ _ _ _
       ((Some <$> X) ++ J) R [] ((Some <$> A2) ++ [y])
       D junk with "[Hg] [Ha]").
    { len. } { len. } { done. } { done. } { done. }
    { lnorm. iApply "Hg". }
    { lnorm. iApply "Ha". }
    iIntros (J2 HJ2 HJc2) "Hg Ha". wp_bind.
    rewrite -(app_assoc (Some <$> A2)). cbn [app].
    iApply (wp_construct_segment with "Ha"); [apply lookup_mid; len|done|].
    iIntros "Ha". rewrite insert_mid; [|len].
    iApply ("HQ" $! X (A2 ++ v :: R) with "[%] [Hg] [Ha]").
    + split_and!; [by lnorm|len|len|lia].
    + iExists (J ++ J2). iSplitR.
      { iPureIntro. split; [len|by apply Forall_app]. }
      lnorm. iApply "Hg".
    + iExists junk. iSplitR.
      { iPureIntro. split; [len|done]. }
      lnorm. iApply "Ha".
Qed.


Lemma plug_take_drop c l A R (v : T) pos :
  pos = length (cl c) + length A →
  cl c ++ (A ++ v :: R) ++ cr c =
  take pos (elems (plug c (Seg l (A ++ R)))) ++ v :: drop pos (elems (plug c (Seg l (A ++ R)))).
Proof.
  intros ->. rewrite elems_plug /= -!app_assoc.
  rewrite (app_assoc (cl c) A (R ++ cr c)).
  rewrite take_app_alt; [|by rewrite app_length]. rewrite drop_app_alt; [|by rewrite app_length].
  by rewrite -!app_assoc.
Qed.

(** the segment grows in place *)
Lemma wfroot_grow c l A R (v : T) :
  wfroot (length c + 1) (plug c (Seg l (A ++ R))) →
  length A + length R ≠ segment_max →
  wfroot (length c + 1) (plug c (Seg l (A ++ v :: R))).
Proof.
  intros Hw Hnf. apply wfroot_plug in Hw as [Hc Ht]. apply wfroot_plug. split; [done|].
  destruct c; simpl in *; len.
Qed.

Lemma tsize_plug c t : tsize (plug c t) = length (cl c) + tsize t + length (cr c).
Proof. rewrite /tsize elems_plug !app_length. lia. Qed.

Lemma wfroot_plug_ge h c t : wfroot h (plug c t) → length c + 1 ≤ h.
Proof.
  revert h t. induction c as [|[[l L] R] c IH]; intros h t Hw; simpl.
  - by apply wfroot_height_pos in Hw.
  - simpl in Hw. pose proof (IH _ _ Hw) as Hge.
    replace h with (length c + (h - length c)) in Hw by lia.
    apply wfroot_plug in Hw as [_ Hw].
    destruct (h - length c) as [|[|h']] eqn:Hh; destruct c; simpl in *; lia.
Qed.
Lemma wfroot_plug_seg h c l xs : wfroot h (plug c (Seg l xs)) → h = length c + 1.
Proof.
  intros Hw. pose proof (wfroot_plug_ge _ _ _ Hw) as Hge.
  replace h with (length c + (h - length c)) in Hw by lia.
  apply wfroot_plug in Hw as [_ Hw].
  destruct (h - length c) as [|[|h']] eqn:Hh; destruct c; simpl in *; lia.
Qed.


(** what becomes of the segments [S0] when [v] is inserted before element [pos],
    which is [r] elements from the end of its segment *)
Definition seg_ins (S0 S1 : list (loc * list T)) (pos r : nat) (v : T) : Prop :=
  (S0 = [] ∧ pos = 0 ∧ ∃ l, S1 = [(l, [v])]) ∨
  ∃ SL l A R SR, S0 = SL ++ (l, A ++ R) :: SR ∧ pos = length (concat SL.*2) + length A ∧ length R = r ∧
    ((length (A ++ R) < segment_max ∧ S1 = SL ++ (l, A ++ v :: R) :: SR) ∨
     (length (A ++ R) = segment_max ∧ ∃ l' X Y,
        X ++ Y = A ++ v :: R ∧ length X = segment_min ∧ S1 = SL ++ (l, X) :: (l', Y) :: SR)).
Definition ins_post o (pos r : nat) (v : T) (t' : tree T) (e' : iterator_entry) : Prop :=
  elems t' = take pos (oelems o) ++ v :: drop pos (oelems o) ∧ at_elem t' e' pos ∧
  onblk o ≤ nblk t' ≤ onblk o + oheight o + 1 ∧ seg_ins (osegs o) (tsegs t') pos r v.

(** the segment has grown in place *)
Lemma seqp_grown this c l A R v :
  wfroot (length c + 1) (plug c (Seg l (A ++ R))) → length (A ++ R) ≠ segment_max →
  length (cl c) + length (A ++ R) + length (cr c) + 1 < c_W C →
  sqo this (Some (tloc (plug c (Seg l (A ++ R))))) (length (cl c) + length (A ++ R) + length (cr c) + 1) (length c + 1) -∗
  segp l (A ++ v :: R) -∗ ctxp 1 c l (length (A ++ R) + 1) -∗
  seqp this (Some (plug c (Seg l (A ++ v :: R)))).
Proof.
  iIntros (Hw Hnf HW) "Hs Hg Hc". rewrite app_length in Hnf.
  iExists (length c + 1).
  iSplitR. { iPureIntro. split; [by apply wfroot_grow|]. rewrite tsize_plug tsize_Seg. len. }
  rewrite (tloc_plug c (Seg l (A ++ v :: R)) (Seg l (A ++ R))) //.
  rewrite tr_plug; [|lia]. rewrite tsize_plug !tsize_Seg.
  replace (length (A ++ v :: R)) with (length (A ++ R) + 1) by len.
  replace (length (cl c) + (length (A ++ R) + 1) + length (cr c))
    with (length (cl c) + length (A ++ R) + length (cr c) + 1) by lia.
  iFrame "Hs Hc". rewrite tr_Seg. by iFrame "Hg".
Qed.
Lemma ins_post_grown c l A R v :
  length (A ++ R) < segment_max →
  ins_post (Some (plug c (Seg l (A ++ R)))) (length (cl c) + length A) (length R) v (plug c (Seg l (A ++ v :: R)))
    (IterEntry (SegEntry (Some l) (length A) (length (A ++ R) + 1)) (LeafEntry (cparent c) (cindex c))).
Proof.
  intros Hlt. split_and!.
  + rewrite elems_plug. by apply plug_take_drop.
  + split; [|rewrite /= app_length; lia].
    exists c, l, (A ++ v :: R). simpl. split_and!; try done; [f_equal; len|len].
  + rewrite /= !nblk_plug /=. lia.
  + rewrite /= !nblk_plug /=. lia.
  + right. exists (csl c), l, A, R, (csr c). cbn [osegs]. rewrite !tsegs_plug csl_elems /=. split_and!; [done|done|done|by left].
Qed.

Lemma wp_insert_single_segment this o e pos v Q E :
  at_oseg o e pos → length (oelems o) + 1 < c_W C →
  seqp this o -∗
  ((∀ t' e', ⌜ins_post o pos (sg_len (e_seg e) - sg_idx (e_seg e)) v t' e'⌝ →
      seqp this (Some t') -∗ Q e') ∧
   (⌜raisable C EAlloc⌝ → seqp this o -∗ E EAlloc)) -∗
  wp (insert_single_segment this e v) Q E.
Proof.
  iIntros (He HW) "Hs HQ". pose proof (ok_W _ OK) as HW'. pose proof segment_bounds as HB.
  destruct o as [t|]; last first.
  { destruct He as [-> ->]. rewrite /insert_single_segment /=.
    wp_bind. iApply (wp_allocate_segment with "Hs"). iSplit; last first.
    { iDestruct "HQ" as "[_ HE]". done. }
    iDestruct "HQ" as "[HQ _]". iIntros (l) "Hs Hl".
    wp_bind. iApply (wp_set_root with "Hs"). iIntros "Hs".
    wp_bind. iApply (wp_set_size with "Hs"). iIntros "Hs".
    wp_bind. iApply (wp_set_height with "Hs"). iIntros "Hs".
    wp_bind.
    assert (∃ junk, replicate segment_max (@None T) = None :: junk ∧ S (length junk) = segment_max)
      as (junk & Hr & Hj).
    { exists (replicate (segment_max - 1) None). rewrite replicate_length. split; [|lia].
      destruct segment_max as [|m]; [lia|]. by rewrite /= Nat.sub_0_r. }
    pose proof raw_seg_clean as Hcl. rewrite Hr in Hcl |- *. apply Forall_cons in Hcl as [_ Hcl].
    iApply (wp_construct_segment with "Hl"); [done|by right|]. iIntros "Hl". simpl. wp_ret.
    iApply ("HQ" $! (Seg l [v]) with "[%] [Hs Hl]").
    - split; [done|split; [|split; [simpl; lia|left; by eauto]]].
      split; [|simpl; lia]. exists [], l, [v]. split_and!; try done. simpl. lia.
    - iExists 1. iFrame. rewrite tr_Seg tsize_Seg /=.
      iSplitR; [iPureIntro; lia|]. iSplitR; [done|].
      iExists junk. iFrame. iPureIntro. split; [simpl; lia|done]. }
  simpl in HW. cbn [oelems onblk oheight].
  destruct He as (c & l & xs & -> & Hseg & Hleaf & -> & Hidx).
  destruct e as [[sp idx sl] lf]. simpl in Hseg, Hleaf, Hidx |- *. simplify_eq. 
  rewrite /insert_single_segment. cbn [e_seg e_leaf sg_ptr sg_idx sg_len lf_ptr lf_idx].
  assert (∃ A R, xs = A ++ R ∧ idx = length A) as (A & R & -> & ->).
  { exists (take idx xs), (drop idx xs). rewrite take_drop take_length. split; [done|lia]. }
  rewrite app_length in Hidx.
  iDestruct "Hs" as (h [Hw HtW]) "[Hs Ht]".
  pose proof (wfroot_plug_seg _ _ _ _ Hw) as ->.
  rewrite -[length (elems _)]/(tsize _) in HW.
  pose proof Hw as [Hwc Hwh]%wfroot_plug.
  rewrite tsize_plug tsize_Seg in HW HtW |- *.
  assert (length (A ++ R) ≤ segment_max) as Hmax. { destruct c; simpl in Hwh; lia. }
  rewrite tr_plug; [|lia]. iDestruct "Ht" as "[Hg Hc]".
  iEval (rewrite tr_Seg) in "Hg". iDestruct "Hg" as (_) "Hg".

  destruct (decide (length (A ++ R) = segment_max)) as [Hfull|Hnf]; last first.
  { destruct (decide (R = [])) as [->|HR].
    - rewrite (app_nil_r A) in Hidx Hw Hwh HW HtW Hmax Hnf |- *.
      rewrite Nat.eqb_refl (proj2 (Nat.eqb_neq _ _) Hnf). cbn [negb andb].
      wp_bind. iApply (wp_seg_append with "Hg"); [done|done|]. iIntros "Hg".
      wp_bind. iApply (wp_increment_sizes with "Hs Hc"); [lia|done|lia|]. iIntros "Hs Hc".
      wp_ret. iDestruct "HQ" as "[HQ _]".
      pose proof (ins_post_grown c l A [] v) as Hpost. rewrite (app_nil_r A) in Hpost. specialize (Hpost ltac:(lia)).
      rewrite Nat.sub_diag. iApply ("HQ" with "[%] [Hs Hg Hc]"); [done|].
      iApply (seqp_grown _ _ _ A [] v with "[Hs] Hg [Hc]"); rewrite ?(app_nil_r A); done.
    - rewrite (proj2 (Nat.eqb_neq _ _) Hnf) (proj2 (Nat.eqb_neq (length A) _)); last first.
      { destruct R; [done|]. rewrite app_length /=. lia. }
      cbn [negb andb].
      iApply (wp_seg_shift with "Hg"); [by rewrite app_length|done|done|]. iIntros "Hg".
      wp_bind. iApply (wp_increment_sizes with "Hs Hc"); [lia|done|lia|]. iIntros "Hs Hc".
      wp_ret. iDestruct "HQ" as "[HQ _]".
      replace (length (A ++ R) - length A) with (length R) by (rewrite app_length; lia).
      iApply ("HQ" with "[%] [Hs Hg Hc]"); [apply ins_post_grown; lia|].
      by iApply (seqp_grown with "Hs Hg Hc"). }
  (* the segment is full *)
  rewrite Hfull Nat.eqb_refl andb_false_r. cbn [negb].
  wp_bind. iApply (wp_allocate_segment with "Hs"). iSplit; last first.
  { iDestruct "HQ" as "[_ HE]". iIntros (Hr) "Hs". iApply ("HE" with "[//]").
    iExists (length c + 1). rewrite tr_plug; [|lia].
    rewrite tr_Seg. iFrame. iPureIntro. split_and!; [done|lia|done]. }
  iIntros (a) "Hs Ha".
  wp_bind. iApply (wp_alloc_nodes_single with "Hs Hc Ha"); [lia|]. iSplit; last first.
  { iDestruct "HQ" as "[_ HE]". iIntros (Hr) "Hs Hc". iApply ("HE" with "[//]").
    iExists (length c + 1). rewrite tr_plug; [|lia].
    rewrite tr_Seg. iFrame. iPureIntro. split_and!; [done|lia|done]. }
  iDestruct "HQ" as "[HQ _]". iIntros (ls Hls) "Hs Hc Hls Ha".
  rewrite (proj1 (proj2 (proj2 HB))).
  cbn zeta. wp_bind. rewrite -Hfull.
  rewrite Hfull in HW, HtW.
  pose proof (needed_le c) as Hneed.
  iApply (wp_seg_split with "Hg Ha"); [by rewrite app_length|done|done|by rewrite Hfull|].
  iSplit.
  - iIntros (X Y (HXY & HX & HY & Hlt)) "Hg Ha". wp_ret.
    rewrite -HY. rewrite Hfull in HY.
    assert (length X + length Y = segment_max + 1) as Hsum by lia.
    rewrite -HX. change (length Y) with (tsize (Seg a Y)).
    iApply (wp_insert_single_leaf _ _ this c (Seg l X) (Seg a Y) None None ls _ false
       with "[Hs] [Hg] [Ha] [Hc] Hls").
    { done. } { done. } { simpl. lia. } { simpl. lia. }
    { reflexivity. } { rewrite !tsize_Seg. lia. }
    { simpl. by rewrite Nat.add_0_r. }
    { rewrite (tloc_plug c (Seg l X) (Seg l (A ++ R))) // !tsize_Seg Hfull.
      replace (length X + length Y - 1) with segment_max by lia. done. }
    { rewrite tr_Seg. by iFrame. }
    { rewrite tr_Seg. by iFrame. }
    { rewrite !tsize_Seg Hfull. replace (length X + length Y - 1) with segment_max by lia. done. }
    iIntros (t' ht' lf (Hw' & (c' & -> & -> & Hcl & Hcr) & Hblk)) "Hs Ht".
    simpl in Hcl, Hcr. rewrite app_nil_r in Hcl.
    pose proof (f_equal (λ S, concat S.*2) Hcl) as Ecl. pose proof (f_equal (λ S, concat S.*2) Hcr) as Ecr.
    simpl in Ecl, Ecr. rewrite csl_elems csl_elems in Ecl. rewrite !csr_elems in Ecr.
    assert (X ++ Y ++ cr c = A ++ v :: R ++ cr c) as HXY'.
    { rewrite app_assoc -HXY. by rewrite -app_assoc. }
    iApply ("HQ" $! (plug c' (Seg l X)) with "[%] [Hs Ht]").
    + split_and!.
      * rewrite elems_plug Ecl Ecr /= HXY'. rewrite -plug_take_drop //. by rewrite -app_assoc.
      * split; [|simpl; lia]. exists c', l, X. split_and!; try done; simpl; [|lia]. by rewrite Ecl.
      * rewrite Hblk /= nblk_plug /=. lia.
      * rewrite Hblk /= nblk_plug /=. rewrite (wfroot_theight _ _ Hw). lia.
      * right. exists (csl c), l, A, R, (csr c). cbn [osegs]. rewrite !tsegs_plug csl_elems Hcl Hcr /=.
        split_and!; [done|done|rewrite app_length; lia|]. right. split; [done|]. exists a, X, Y. split_and!; [done|lia|]. by rewrite -?app_assoc.
    + iExists ht'. rewrite !tsize_Seg.
      replace (tsize (plug c' (Seg l X))) with (length (cl c) + (length X + length Y - 1) + length (cr c) + 1); last first.
      { rewrite tsize_plug tsize_Seg Ecl Ecr app_length. lia. }
      iFrame. iPureIntro. split; [done|lia].
  - iIntros (X Y (HXY & HX & HY & Hge)) "Hg Ha". wp_ret.
    rewrite -HY. rewrite Hfull in HY.
    assert (length X + length Y = segment_max + 1) as Hsum by lia.
    rewrite -HX. change (length Y) with (tsize (Seg a Y)).
    assert (∃ Y1, A = X ++ Y1 ∧ Y = Y1 ++ v :: R) as (Y1 & HA & HY1).
    { destruct (app_cons_cut _ _ _ _ _ HXY) as [(?&?)|(?&?)]; [lia|done]. }
    rewrite (wsub_small (length A)); [|lia..|rewrite app_length in Hfull; lia].
    iApply (wp_insert_single_leaf _ _ this c (Seg l X) (Seg a Y) None None ls _ true
       with "[Hs] [Hg] [Ha] [Hc] Hls").
    { done. } { done. } { simpl. lia. } { simpl. lia. }
    { reflexivity. } { rewrite !tsize_Seg. lia. }
    { done. }
    { rewrite (tloc_plug c (Seg l X) (Seg l (A ++ R))) // !tsize_Seg Hfull.
      replace (length X + length Y - 1) with segment_max by lia. done. }
    { rewrite tr_Seg. by iFrame. }
    { rewrite tr_Seg. by iFrame. }
    { rewrite !tsize_Seg Hfull. replace (length X + length Y - 1) with segment_max by lia. done. }
    iIntros (t' ht' lf (Hw' & (c' & -> & -> & Hcl & Hcr) & Hblk)) "Hs Ht".
    simpl in Hcl, Hcr.
    pose proof (f_equal (λ S, concat S.*2) Hcl) as Ecl. pose proof (f_equal (λ S, concat S.*2) Hcr) as Ecr.
    simpl in Ecl, Ecr. rewrite fst_elems !csl_elems /= right_id_L in Ecl. rewrite !csr_elems in Ecr.
    assert (X ++ Y ++ cr c = A ++ v :: R ++ cr c) as HXY'.
    { rewrite app_assoc -HXY. by rewrite -app_assoc. }
    iApply ("HQ" $! (plug c' (Seg a Y)) with "[%] [Hs Ht]").
    + split_and!.
      * rewrite elems_plug Ecl Ecr /= -app_assoc HXY'. rewrite -plug_take_drop //. by rewrite -app_assoc.
      * split; [|simpl; rewrite HA HY1 tsize_Seg !app_length /=; lia].
        exists c', a, Y. split_and!; try done; simpl; [|rewrite HA HY1 !app_length /=; lia].
        rewrite Ecl HA !app_length. lia.
      * rewrite Hblk /= nblk_plug /=. lia.
      * rewrite Hblk /= nblk_plug /=. rewrite (wfroot_theight _ _ Hw). lia.
      * right. exists (csl c), l, A, R, (csr c). cbn [osegs]. rewrite !tsegs_plug csl_elems Hcl Hcr /=.
        split_and!; [done|done|rewrite app_length; lia|]. right. split; [done|]. exists a, X, Y. split_and!; [done|lia|]. by rewrite -?app_assoc.
    + iExists ht'. rewrite !tsize_Seg.
      replace (tsize (plug c' (Seg a Y))) with (length (cl c) + (length X + length Y - 1) + length (cr c) + 1); last first.
      { rewrite tsize_plug tsize_Seg Ecl Ecr app_length. lia. }
      iFrame. iPureIntro. split; [done|lia].
Qed.

End seg.
