(** * EraseSeg: erase_single_segment (lines 1814-1907 of seq.hpp).
    Proof infrastructure. *)
From Verif Require Export EraseLoop.
From stdpp Require Import options.
Set Default Proof Using "Type*".

Section seg.
Context {T : Type} {C : cfg T} {OK : cfg_ok C} {FZ : frozen T}.
Context (ea na : nat).
Implicit Types t : tree T.
Implicit Types c : ctx T.
Implicit Types o : option (tree T).
Notation tr := (tr ea na).
Notation kidst := (kidst ea na).
Notation ctxp := (ctxp ea na).
Notation segp := (segp ea).
Notation sqo := (sqo ea na).
Notation seqp := (seqp ea na).
Notation holed := (holed ea na).
Notation over := (over ea na).

(** ** Lines 1838-1843 *)
Lemma wp_seg_remove {B} l A x R len (K : M T B) Q E :
  len = length A + length R → 
  segp l (A ++ x :: R) -∗ (segp l (A ++ R) -∗ wp K Q E) -∗
  wp (assign_backward_segment (Some l) len (length A) 1;; destroy_segment (Some l) len;; K) Q E.
Proof.
  iIntros (->) "Hg HQ". pose proof (ok_W _ OK) as HW.
  iDestruct "Hg" as (junk [Hlen Hcl]) "Hg". rewrite app_length /= in Hlen.
  rewrite fmap_app fmap_cons -app_assoc. cbn [app].
  wp_bind. iApply (wp_assign_backward_segment with "Hg"); [len|len|lia|]. iIntros (d') "Hg".
  wp_bind. rewrite (app_assoc (Some <$> A)).
  iApply (wp_destroy_segment with "Hg"); [apply lookup_mid; len|]. iIntros "Hg".
  rewrite insert_mid; [|len]. iApply "HQ". iExists (None :: junk).
  rewrite fmap_app. iFrame "Hg". iPureIntro. split; [len|]. apply Forall_cons. split; [by right|done].
Qed.

(** ** Lines 1852-1860 *)
Lemma wp_seg_rot_prev {B} prev Z z l A x R (K : M T B) Q E :
  segp prev (Z ++ [z]) -∗ segp l (A ++ x :: R) -∗ (segp prev Z -∗ segp l (z :: A ++ R) -∗ wp K Q E) -∗
  wp (assign_forward_segment (Some l) (length A) 0 1;;
      move_assign_segment (Some prev) (length Z) (Some l) 0;;
      destroy_segment (Some prev) (length Z);; K) Q E.
Proof.
  iIntros "Hp Hg HQ". pose proof (ok_W _ OK) as HW.
  iDestruct "Hg" as (junk [Hlen Hcl]) "Hg". rewrite app_length /= in Hlen.
  iDestruct "Hp" as (junk' [Hlen' Hcl']) "Hp". rewrite app_length /= in Hlen'.
  rewrite !fmap_app fmap_cons -!app_assoc. cbn [app fmap list_fmap].
  wp_bind. iApply (wp_assign_forward_segment _ _ [] A x with "Hg"); [done|done|lia|]. iIntros (d') "Hg".
  cbn [app]. wp_bind.
  iApply (wp_move_assign_segment with "Hp Hg"); [apply lookup_mid; len|done|]. iIntros "Hp Hg".
  rewrite insert_mid; [|len]. cbn [insert list_insert].
  wp_bind. iApply (wp_destroy_segment with "Hp"); [apply lookup_mid; len|]. iIntros "Hp".
  rewrite insert_mid; [|len]. iApply ("HQ" with "[Hp] [Hg]").
  - iExists (None :: junk'). iFrame "Hp". iPureIntro. split; [len|]. apply Forall_cons. split; [by right|done].
  - iExists junk. lnorm. iFrame "Hg". iPureIntro. split; [len|done].
Qed.

(** ** Lines 1868-1875 *)
Lemma wp_seg_merge_prev {B} this r n ht prev Z l A x R zl len (K : M T B) Q E :
  len = length R → zl = length Z → length Z + length A + length R ≤ segment_max →
  sqo this r n ht -∗ segp prev Z -∗ segp l (A ++ x :: R) -∗
  (sqo this r n ht -∗ segp prev (Z ++ A ++ R) -∗ wp K Q E) -∗
  wp (construct_range_segment (Some l) 0 (Some prev) zl (length A);;
        construct_range_segment (Some l) (length A + 1) (Some prev) (zl + length A) len;;
        destroy_segment (Some l) (length A);;
        deallocate_segment this (Some l);; K) Q E.
Proof.
  iIntros (-> -> Hle) "Hs Hp Hg HQ". pose proof (ok_W _ OK) as HW.
  iDestruct "Hg" as (junk [Hlen Hcl]) "Hg". rewrite app_length /= in Hlen.
  iDestruct "Hp" as (junk' [Hlen' Hcl']) "Hp". 
  rewrite !fmap_app fmap_cons -!app_assoc. cbn [app fmap list_fmap].
  assert (∃ D1 D2 junk3, junk' = D1 ++ D2 ++ junk3 ∧ length D1 = length A ∧ length D2 = length R)
    as (D1 & D2 & junk3 & -> & HD1 & HD2).
  { exists (take (length A) junk'), (take (length R) (drop (length A) junk')), (drop (length R) (drop (length A) junk')).
    rewrite !take_drop. split; [done|]. rewrite !take_length drop_length. lia. }
  rewrite !Forall_app in Hcl'. destruct Hcl' as (HC1 & HC2 & HC3).
  wp_bind. iApply (wp_construct_range_segment _ _ _ _ [] A _ (Some <$> Z) D1 with "Hg Hp");
    [done|len|done|done|done|]. iIntros (J1 HJ1 HJC1) "Hg Hp". cbn [app].
  wp_bind. iApply (wp_construct_range_segment _ _ _ _ (J1 ++ [Some x]) R junk ((Some <$> Z) ++ (Some <$> A)) D2 junk3 with "[Hg] [Hp]");
    [len|len|done|done|done| | |].
  { lnorm. iApply "Hg". } { lnorm. iApply "Hp". }
  iIntros (J2 HJ2 HJC2) "Hg Hp". wp_bind. rewrite -(app_assoc J1). cbn [app].
  iApply (wp_destroy_segment with "Hg"); [apply lookup_mid; len|]. iIntros "Hg".
  rewrite insert_mid; [|len].
  wp_bind. iApply (wp_deallocate_segment with "Hs Hg").
  { rewrite Forall_app Forall_cons Forall_app. split_and!; try done. by right. }
  iIntros "Hs". iApply ("HQ" with "Hs"). iExists junk3. lnorm. iFrame "Hp". iPureIntro. split; [len|done].
Qed.

(** ** Lines 1882-1889 *)
Lemma wp_seg_rot_next {B} next Z z l A x R len (K : M T B) Q E :
  len = length A + length R → 
  segp next (z :: Z) -∗ segp l (A ++ x :: R) -∗ (segp next Z -∗ segp l (A ++ R ++ [z]) -∗ wp K Q E) -∗
  wp (assign_backward_segment (Some l) len (length A) 1;;
        move_assign_segment (Some next) 0 (Some l) len;;
        assign_backward_segment (Some next) (length Z) 0 1;;
        destroy_segment (Some next) (length Z);; K) Q E.
Proof.
  iIntros (->) "Hp Hg HQ". pose proof (ok_W _ OK) as HW.
  iDestruct "Hg" as (junk [Hlen Hcl]) "Hg". rewrite app_length /= in Hlen.
  iDestruct "Hp" as (junk' [Hlen' Hcl']) "Hp". simpl in Hlen'.
  rewrite !fmap_app fmap_cons -!app_assoc. cbn [app fmap list_fmap].
  wp_bind. iApply (wp_assign_backward_segment with "Hg"); [len|len|lia|]. iIntros (d') "Hg".
  rewrite (app_assoc (Some <$> A)). wp_bind.
  iApply (wp_move_assign_segment with "Hp Hg"); [done|apply lookup_mid; len|]. iIntros "Hp Hg".
  rewrite insert_mid; [|len]. cbn [insert list_insert].
  wp_bind. iApply (wp_assign_backward_segment _ _ [] Z with "Hp"); [done|done|lia|]. iIntros (d2) "Hp". cbn [app].
  wp_bind. iApply (wp_destroy_segment with "Hp"); [apply lookup_mid; len|]. iIntros "Hp".
  rewrite insert_mid; [|len]. iApply ("HQ" with "[Hp] [Hg]").
  - iExists (None :: junk'). iFrame "Hp". iPureIntro. split; [len|]. apply Forall_cons. split; [by right|done].
  - iExists junk. lnorm. iFrame "Hg". iPureIntro. split; [len|done].
Qed.

(** ** Lines 1895-1901 *)
Lemma wp_seg_merge_next {B} this r n ht next Z z l A x R len zl (K : M T B) Q E :
  len = length A + length R → zl = length Z → S (length Z) + length A + length R ≤ segment_max →
  sqo this r n ht -∗ segp next (z :: Z) -∗ segp l (A ++ x :: R) -∗
  (sqo this r n ht -∗ segp l (A ++ R ++ z :: Z) -∗ wp K Q E) -∗
  wp (assign_backward_segment (Some l) len (length A) 1;;
        move_assign_segment (Some next) 0 (Some l) len;;
        destroy_segment (Some next) 0;;
        construct_range_segment (Some next) 1 (Some l) (len + 1) zl;;
        deallocate_segment this (Some next);; K) Q E.
Proof.
  iIntros (-> -> Hle) "Hs Hp Hg HQ". pose proof (ok_W _ OK) as HW.
  iDestruct "Hg" as (junk [Hlen Hcl]) "Hg". rewrite app_length /= in Hlen.
  iDestruct "Hp" as (junk' [Hlen' Hcl']) "Hp". simpl in Hlen'.
  rewrite !fmap_app fmap_cons -!app_assoc. cbn [app fmap list_fmap].
  wp_bind. iApply (wp_assign_backward_segment with "Hg"); [len|len|lia|]. iIntros (d') "Hg".
  rewrite (app_assoc (Some <$> A)). wp_bind.
  iApply (wp_move_assign_segment with "Hp Hg"); [done|apply lookup_mid; len|]. iIntros "Hp Hg".
  rewrite insert_mid; [|len]. cbn [insert list_insert].
  wp_bind. iApply (wp_destroy_segment with "Hp"); [done|]. iIntros "Hp". cbn [insert list_insert].
  assert (∃ D junk3, junk = D ++ junk3 ∧ length D = length Z) as (D & junk3 & -> & HD).
  { exists (take (length Z) junk), (drop (length Z) junk).
    rewrite take_drop. split; [done|]. rewrite take_length. lia. }
  apply Forall_app in Hcl as [HC1 HC2].
  wp_bind. iApply (wp_construct_range_segment _ _ _ _ [None] Z junk' ((Some <$> A) ++ (Some <$> R) ++ [Some z]) D junk3 with "Hp [Hg]");
    [done|len|done|done|done| |].
  { lnorm. iApply "Hg". }
  iIntros (J HJ HJC) "Hp Hg".
  wp_bind. iApply (wp_deallocate_segment with "Hs Hp").
  { rewrite /= Forall_cons Forall_app. split_and!; try done. by right. }
  iIntros "Hs". iApply ("HQ" with "Hs"). iExists junk3. lnorm. iFrame "Hg". iPureIntro. split; [len|done].
Qed.

Lemma plug_del c l A R (x : T) pos :
  pos = length (cl c) + length A →
  take pos (elems (plug c (Seg l (A ++ x :: R)))) ++ drop (S pos) (elems (plug c (Seg l (A ++ x :: R)))) =
  cl c ++ A ++ R ++ cr c.
Proof.
  intros ->. rewrite elems_plug /= -!app_assoc. cbn [app].
  rewrite (app_assoc (cl c) A).
  rewrite take_app_alt; [|by rewrite app_length].
  rewrite (snoc_app (cl c ++ A)) drop_app_alt; [|rewrite !app_length /=; lia].
  by rewrite -!app_assoc.
Qed.

(** what becomes of the segments [S0] when element [pos] is erased *)
Definition seg_era (S0 S1 : list (loc * list T)) (pos : nat) : Prop :=
  ∃ SL l A x R SR, S0 = SL ++ (l, A ++ x :: R) :: SR ∧ pos = length (concat SL.*2) + length A ∧
    ((SL = [] ∧ SR = [] ∧ A = [] ∧ R = [] ∧ S1 = []) ∨
     ((SL = [] ∧ SR = [] ∨ segment_min < length (A ++ x :: R)) ∧ S1 = SL ++ (l, A ++ R) :: SR) ∨
     (length (A ++ x :: R) = segment_min ∧
       ((∃ SL' k Z z, SL = SL' ++ [(k, Z ++ [z])] ∧ S1 = SL' ++ (k, Z) :: (l, z :: A ++ R) :: SR) ∨
        (∃ SL' k Z, SL = SL' ++ [(k, Z)] ∧ length Z = segment_min ∧ S1 = SL' ++ (k, Z ++ A ++ R) :: SR) ∨
        (∃ k z Z SR', SR = (k, z :: Z) :: SR' ∧ S1 = SL ++ (l, A ++ R ++ [z]) :: (k, Z) :: SR') ∨
        (∃ k Z SR', SR = (k, Z) :: SR' ∧ length Z = segment_min ∧ S1 = SL ++ (l, A ++ R ++ Z) :: SR')))).
Definition era_post t (pos : nat) o' (e' : iterator_entry) : Prop :=
  oelems o' = take pos (elems t) ++ drop (S pos) (elems t) ∧ at_oseg o' e' pos ∧ onblk o' ≤ nblk t ∧
  seg_era (tsegs t) (osegs o') pos.

Lemma wp_erase_single_segment this t e pos Q E :
  at_elem t e pos →
  seqp this (Some t) -∗
  (∀ o' e', ⌜era_post t pos o' e'⌝ → seqp this o' -∗ Q e') -∗
  wp (erase_single_segment this e) Q E.
Proof.
  iIntros (He) "Hs HQ". pose proof (ok_W _ OK) as HW'. pose proof segment_bounds as HB. pose proof base_bounds as HBB.
  destruct He as [(c & l & xs & -> & Hseg & Hleaf & -> & _) Hidx].
  destruct e as [[sp idx sl] lf]. simpl in Hseg, Hleaf, Hidx |- *. simplify_eq.
  rewrite /erase_single_segment. cbn [e_seg e_leaf sg_ptr sg_idx sg_len lf_ptr lf_idx].
  assert (∃ A x R, xs = A ++ x :: R ∧ idx = length A) as (A & x & R & -> & ->).
  { destruct (lookup_lt_is_Some_2 xs idx Hidx) as [x Hx].
    exists (take idx xs), x, (drop (S idx) xs). rewrite take_drop_middle // take_length. split; [done|lia]. }
  clear Hidx.
  iDestruct "Hs" as (h [Hw HtW]) "[Hs Ht]".
  pose proof (wfroot_plug_seg _ _ _ _ Hw) as ->.
  pose proof Hw as [Hwc Hwh]%wfroot_plug.
  rewrite tsize_plug tsize_Seg in HtW |- *.
  assert (length (A ++ x :: R) = length A + S (length R)) as Hlen by by rewrite app_length.
  rewrite Hlen in HtW |- *.
  assert (length A + S (length R) ≤ segment_max) as Hmax. { rewrite -Hlen. destruct c; simpl in Hwh; lia. }
  rewrite tr_plug; [|lia]. iDestruct "Ht" as "[Hg Hc]". rewrite tsize_Seg Hlen. cbn [tloc].
  iEval (rewrite tr_Seg) in "Hg". iDestruct "Hg" as (_) "Hg".
  destruct ((length A + S (length R) =? 1) && _) eqn:Hone.
  { (* the last element *)
    apply andb_true_iff in Hone as [Hone Hroot]. apply Nat.eqb_eq in Hone.
    assert (A = [] ∧ R = []) as [-> ->]. { destruct A, R; simpl in *; (done || lia). }
    assert (c = []) as ->.
    { destruct c as [|[[pp PL] PR] c]; [done|]. simpl in Hwh. cbn [cparent] in Hroot.
      rewrite (bool_decide_eq_false_2 (Some pp = None)) // orb_false_r in Hroot.
      apply negb_true_iff, Nat.eqb_neq in Hroot. lia. }
    iDestruct "Hg" as (junk [Hj Hcl]) "Hg". cbn [app fmap list_fmap].
    wp_bind. iApply (wp_destroy_segment with "Hg"); [done|]. iIntros "Hg". cbn [insert list_insert].
    wp_bind. iApply (wp_deallocate_segment with "Hs Hg").
    { apply Forall_cons. split; [by right|done]. }
    iIntros "Hs".
    wp_bind. iApply (wp_set_root with "Hs"). iIntros "Hs".
    wp_bind. iApply (wp_set_size with "Hs"). iIntros "Hs".
    wp_bind. iApply (wp_set_height with "Hs"). iIntros "Hs". wp_ret. cbn [ctxp]. iDestruct "Hc" as "_".
    iApply ("HQ" $! None with "[%] Hs"). split_and!; try done; [simpl; lia|].
    exists [], l, [], x, [], []. split_and!; try done. by left. }
  cbn zeta. rewrite (wsub_small (length A + S (length R))); [|lia..].
  replace (length A + S (length R) - 1) with (length A + length R) by lia.
  destruct (negb (length A + S (length R) =? segment_min) || _) eqn:Hsimple.
  { (* in place *)
    iApply (wp_seg_remove with "Hg"); [done|]. iIntros "Hg".
    wp_bind. iApply (wp_decrement_sizes with "Hs Hc"); [simpl in *; lia|done|lia|lia|]. iIntros "Hs Hc". wp_ret.
    iApply ("HQ" $! (Some (plug c (Seg l (A ++ R)))) with "[%] [Hs Hg Hc]").
    - split_and!.
      + rewrite plug_del //. cbn [oelems]. rewrite elems_plug /=. by rewrite -app_assoc.
      + exists c, l, (A ++ R). rewrite app_length. simpl. split_and!; try done. lia.
      + rewrite /= !nblk_plug /=. lia.
      + exists (csl c), l, A, x, R, (csr c). cbn [osegs]. rewrite !tsegs_plug csl_elems /=. split_and!; [done|done|].
        right. left. split; [|done]. destruct c as [|[[pp PL] PR] c]; [by left|right].
        cbn [wfh wft cparent] in *. rewrite (bool_decide_eq_false_2 (Some pp = None)) // orb_false_r in Hsimple.
        apply negb_true_iff, Nat.eqb_neq in Hsimple. lia.
    - iExists (length c + 1). rewrite tsize_plug tr_plug; [|lia]. rewrite tsize_Seg app_length tr_Seg. iFrame "Hg".
      replace (length (cl c) + (length A + length R) + length (cr c)) with
        (length (cl c) + (length A + S (length R)) + length (cr c) - 1) by lia.
      rewrite (tloc_plug c (Seg l (A ++ R)) (Seg l (A ++ x :: R))) //. iFrame "Hs".
      replace (length A + S (length R) - 1) with (length A + length R) by lia. iFrame "Hc".
      iPureIntro. split; [|done]. split; [|lia]. apply wfroot_plug. split; [done|].
      destruct c as [|[[pp PL] PR] c]; cbn [wfh wfroot wft cparent] in *; (split; [done|]).
      + rewrite app_length. apply andb_false_iff in Hone as [Hone|Hone].
        * apply Nat.eqb_neq in Hone. lia.
        * rewrite orb_true_r in Hone. done.
      + rewrite (bool_decide_eq_false_2 (Some pp = None)) // orb_false_r in Hsimple.
        apply negb_true_iff, Nat.eqb_neq in Hsimple. rewrite app_length. rewrite Hlen in Hwh. lia. }
  apply orb_false_iff in Hsimple as [Hmin Hroot]. apply negb_false_iff, Nat.eqb_eq in Hmin.
  destruct c as [|[[pp PL] PR] c]; [done|]. clear Hone Hroot.
  cbn [cparent cindex].
  assert (length c + 2 = length ((pp, PL, PR) :: c) + 1) as Hht by (cbn [length]; lia).
  rewrite -Hht. clear Hht.
  cbn [wfc] in Hwc. destruct Hwc as (_ & HwP & HlenP & Hwc).
  apply Forall_app in HwP as [HwPL HwPR].
  rewrite cl_len cr_len. rewrite cl_len cr_len in HtW.
  cbn [ctxp]. iDestruct "Hc" as (junk' [_ Hj']) "(Hpp & HPL & HPR & Hc)".
  destruct PL as [|prevt PL _] using rev_ind.
  - (* next *)
    cbn [length]. rewrite Nat.eqb_refl. cbn [negb].
    destruct PR as [|nextt PR]; [destruct c; simpl in *; lia|].
    apply Forall_cons in HwPR as [Hwn HwPR].
    destruct nextt as [next Z|]; [|simpl in Hwn; lia].
    destruct Hwn as (_ & HlenZ).
    rewrite fsize_cons tsize_Seg fsize_nil in HtW |- *. cbn [fmap list_fmap app length] in *.
    wp_bind. iApply (wp_pointers _ _ _ _ _ _ 1 with "Hpp"); [done|]. iIntros "Hpp".
    wp_bind. iApply (wp_sizes _ _ _ _ _ _ 1 with "Hpp"); [done|]. iIntros "Hpp".
    rewrite kidst_cons kidst_nil. iDestruct "HPL" as "_". iDestruct "HPR" as "[Hz HPR]".
    iEval (rewrite tr_Seg) in "Hz". iDestruct "Hz" as (_) "Hz".
    destruct Z as [|z Z]; [simpl in *; lia|]. cbn [length] in *.
    rewrite tsize_Seg. cbn [length].
    rewrite (wsub_small (S (length Z))); [|lia..]. replace (S (length Z) - 1) with (length Z) by lia.
    destruct (S (length Z) =? segment_min) eqn:Hzm; cbn [negb].
    + (* merge *)
      apply Nat.eqb_eq in Hzm.
      iApply (wp_seg_merge_next with "Hs Hz Hg"); [done|done|lia|]. iIntros "Hs Hg".
      wp_bind. iApply (wp_set_sizes with "Hpp"); [done|]. iIntros "Hpp". cbn [snd insert list_insert].
      wp_bind.
      iApply (wp_erase_single_leaf _ _ _ c pp [] (Seg l (A ++ R ++ z :: Z)) PR with "Hs [-HQ]").
      { split_and!; try done.
        - cbn [app]. apply Forall_singleton. cbn [wft]. rewrite !app_length /=. lia.
        - cbn [app length]. destruct c; simpl in *; lia.
        - cbn [app length]. destruct c; simpl in *; lia. }
      { done. }
      { rewrite tsize_Seg !app_length fsize_nil. cbn [length]. lia. }
      { lia. }
      { cbn [plug]. by rewrite (tloc_plug c _ (Nd pp (([] ++ [Seg l (A ++ R ++ z :: Z)]) ++ PR))). }
      { done. }
      { iExists _, junk'. iSplitR. { iPureIntro. cbn [app length]. lia. }
        cbn [app length fmap list_fmap].
        iSplitL "Hpp".
        { rewrite /entry. cbn [tloc]. rewrite (tsize_Seg l) !app_length. cbn [length].
          replace (length A + (length R + S (length Z))) with (segment_min * 2 - 1) by lia. iApply "Hpp". }
        iSplitL "Hg". { rewrite kidst_cons kidst_nil right_id tr_Seg. by iFrame. }
        iFrame "HPR". rewrite fsize_cons tsize_Seg !app_length fsize_nil. cbn [length].
        iApply (ctxp_eq with "Hc"). lia. }
      iIntros (t' ht' lf (Hw' & (c' & -> & -> & Hcl & Hcr) & Hb')) "Hs Ht". wp_ret.
      cbn [fsegs fmap list_fmap concat] in Hcl. rewrite app_nil_r in Hcl.
      pose proof (f_equal (λ S, concat S.*2) Hcl) as Ecl. pose proof (f_equal (λ S, concat S.*2) Hcr) as Ecr.
      simpl in Ecl, Ecr. rewrite !csl_elems in Ecl. rewrite fst_elems !csr_elems fsegs_elems in Ecr.
      iApply ("HQ" $! (Some (plug c' (Seg l (A ++ R ++ z :: Z)))) with "[%] [Hs Ht]").
      * split_and!.
        -- cbn [oelems]. rewrite plug_del; [|cbn [cl]; rewrite app_length /=; lia].
           rewrite elems_plug Ecl Ecr. cbn [cl cr elems]. fe.
        -- eexists c', l, _. split_and!; try done; cbn [e_seg sg_idx].
           ++ f_equal. rewrite !app_length /=. lia.
           ++ rewrite Ecl. lia.
           ++ rewrite app_length. lia.
        -- cbn [onblk]. etrans; [done|]. cbn [plug]. rewrite nblk_plug nblk_Nd !fblk_cons. simpl. lia.
        -- exists (csl c), l, A, x, R, ((next, z :: Z) :: fsegs PR ++ csr c). cbn [osegs plug]. rewrite !tsegs_plug Hcl Hcr csl_elems.
           split_and!; [by rewrite tsegs_Nd /fsegs /= -?app_assoc|cbn [cl]; rewrite ?app_length ?cl_len /=; unfold fsize; simpl; lia|]. right. right.
           split; [lia|]. right. right. right. exists next, (z :: Z), (fsegs PR ++ csr c). split_and!; try done.
      * iExists ht'.
        replace (tsize (plug c' (Seg l (A ++ R ++ z :: Z)))) with
          (length (cl c) + 0 + (length A + S (length R)) + (S (length Z) + fsize PR + length (cr c)) - 1); last first.
        { rewrite tsize_plug tsize_Seg Ecl Ecr !app_length. cbn [length]. unfold fsize. lia. }
        iFrame. iPureIntro. split; [done|lia].
    + (* rotate *)
      apply Nat.eqb_neq in Hzm.
      iApply (wp_seg_rot_next with "Hz Hg"); [done|]. iIntros "Hz Hg".
      wp_bind. iApply (wp_set_sizes with "Hpp"); [done|]. iIntros "Hpp". cbn [snd insert list_insert].
      wp_bind. iApply (wp_parent_pointer with "Hpp"). iIntros "Hpp".
      wp_bind. iApply (wp_parent_index with "Hpp"). iIntros "Hpp".
      wp_bind. iApply (wp_decrement_sizes with "Hs Hc"); [simpl in *; lia| |lia|lia|].
      { lia. }
      iIntros "Hs Hc". wp_ret.
      set (t' := plug c (Nd pp (Seg l (A ++ R ++ [z]) :: Seg next Z :: PR))).
      iApply ("HQ" $! (Some t') with "[%] [-]").
      * split_and!.
        -- cbn [oelems]. rewrite plug_del; [|cbn [cl]; rewrite app_length /=; lia].
           rewrite /t' elems_plug elems_Nd !felems_cons. cbn [cl cr elems]. fe.
        -- exists ((pp, [], Seg next Z :: PR) :: c), l, (A ++ R ++ [z]). split_and!; try done; cbn [e_seg sg_idx].
           ++ f_equal. rewrite !app_length /=. lia.
           ++ rewrite cl_len fsize_nil. lia.
           ++ rewrite app_length. lia.
        -- rewrite /= !nblk_plug. simpl. lia.
        -- exists (csl c), l, A, x, R, ((next, z :: Z) :: fsegs PR ++ csr c). cbn [osegs plug]. rewrite /t' !tsegs_plug csl_elems.
           split_and!; [by rewrite tsegs_Nd /fsegs /= -?app_assoc|cbn [cl]; rewrite ?app_length ?cl_len /=; unfold fsize; simpl; lia|]. right. right.
           split; [lia|]. right. right. left. exists next, z, Z, (fsegs PR ++ csr c). split_and!; try done.
      * rewrite /t'. iExists (length c + 2). rewrite tr_plug; [|lia].
        rewrite tsize_plug tsize_Nd !fsize_cons !tsize_Seg !app_length. cbn [length].
        replace (length (cl c) + 0 + (length A + S (length R)) + (S (length Z) + fsize PR + length (cr c)) - 1)
          with (length (cl c) + (length A + (length R + 1) + (length Z + fsize PR)) + length (cr c)) by lia.
        rewrite (tloc_plug c (Nd pp (Seg l (A ++ R ++ [z]) :: Seg next Z :: PR)) (Nd pp (Seg l (A ++ x :: R) :: Seg next (z :: Z) :: PR))) //.
        iFrame "Hs". iSplitR.
        { iPureIntro. split; [|lia]. apply wfroot_plug. split; [done|].
          assert (Forall (wft 1) (Seg l (A ++ R ++ [z]) :: Seg next Z :: PR)).
          { rewrite !Forall_cons. cbn [wft]. rewrite !app_length /=. split_and!; try done; lia. }
          destruct c; cbn [wfh wft wfroot]; simpl in *; split_and!; try done; lia. }
        iSplitR "Hc".
        { rewrite tr_Nd. iExists junk'. iSplitR. { iPureIntro. cbn [length]. lia. }
          cbn [length fmap list_fmap app]. iSplitL "Hpp".
          { rewrite /entry !tsize_Seg !app_length. cbn [tloc length].
            replace (length A + (length R + 1)) with (length A + S (length R)) by lia. iApply "Hpp". }
          rewrite !kidst_cons !tr_Seg. iFrame. done. }
        iApply (ctxp_eq with "Hc"). lia.
  - (* prev *)
    rewrite (app_length PL) in HlenP, Hj' |- *. cbn [length] in HlenP, Hj' |- *.
    rewrite (proj2 (Nat.eqb_neq (length PL + 1) 0)); [|lia]. cbn [negb].
    apply Forall_app in HwPL as [HwPL [Hwp _]%Forall_cons].
    destruct prevt as [prev Z|]; [|simpl in Hwp; lia].
    destruct Hwp as (_ & HlenZ).
    rewrite fsize_app fsize_cons tsize_Seg fsize_nil in HtW |- *.
    rewrite (wsub_small (length PL + 1)); [|destruct c; lia..].
    rewrite Nat.add_sub.
    rewrite (fmap_app entry PL) -(app_assoc (entry <$> PL)). cbn [fmap list_fmap app].
    wp_bind. iApply (wp_pointers with "Hpp"); [apply lookup_mid; len|]. iIntros "Hpp".
    wp_bind. iApply (wp_sizes with "Hpp"); [apply lookup_mid; len|]. iIntros "Hpp". cbn [tloc]. rewrite tsize_Seg.
    rewrite kidst_app kidst_cons kidst_nil right_id. iDestruct "HPL" as "[HPL Hz]".
    iEval (rewrite tr_Seg) in "Hz". iDestruct "Hz" as (_) "Hz".
    destruct (length Z =? segment_min) eqn:Hzm; cbn [negb].
    + (* merge *)
      apply Nat.eqb_eq in Hzm. rewrite wsub_small; [|lia..].
      replace (length A + length R - length A) with (length R) by lia.
      iApply (wp_seg_merge_prev with "Hs Hz Hg"); [done|done|lia|]. iIntros "Hs Hg".
      wp_bind. iApply (wp_set_sizes with "Hpp"); [apply lookup_mid; len|]. iIntros "Hpp". cbn [snd].
      rewrite insert_mid; [|len].
      wp_bind.
      iApply (wp_erase_single_leaf _ _ _ c pp PL (Seg prev (Z ++ A ++ R)) PR with "Hs [-HQ]").
      { split_and!; try done.
        - rewrite Forall_app Forall_singleton. cbn [wft]. rewrite !app_length /=. split_and!; (done || lia).
        - rewrite app_length. cbn [length]. destruct c; simpl in *; lia.
        - rewrite app_length. cbn [length]. destruct c; simpl in *; lia. }
      { lia. }
      { rewrite tsize_Seg !app_length. lia. }
      { lia. }
      { cbn [plug]. by rewrite (tloc_plug c _ (Nd pp ((PL ++ [Seg prev (Z ++ A ++ R)]) ++ PR))). }
      { done. }
      { iExists _, junk'. iSplitR. { iPureIntro. rewrite app_length. cbn [length]. lia. }
        rewrite app_length fmap_app -!app_assoc. cbn [app length fmap list_fmap].
        iSplitL "Hpp".
        { rewrite /entry. cbn [tloc]. rewrite (tsize_Seg prev (Z ++ A ++ R)) !app_length. cbn [length].
          replace (length Z + (length A + length R)) with (segment_min * 2 - 1) by lia. iApply "Hpp". }
        iSplitL "Hg HPL". { rewrite kidst_app kidst_cons kidst_nil right_id tr_Seg. by iFrame. }
        iFrame "HPR". rewrite fsize_app fsize_cons tsize_Seg !app_length fsize_nil. cbn [length].
        iApply (ctxp_eq with "Hc"). lia. }
      iIntros (t' ht' lf (Hw' & (c' & -> & -> & Hcl & Hcr) & Hb')) "Hs Ht". wp_ret.
      pose proof (f_equal (λ S, concat S.*2) Hcl) as Ecl. pose proof (f_equal (λ S, concat S.*2) Hcr) as Ecr.
      simpl in Ecl, Ecr. rewrite fst_elems !csl_elems fsegs_elems in Ecl. rewrite fst_elems !csr_elems fsegs_elems in Ecr.
      iApply ("HQ" $! (Some (plug c' (Seg prev (Z ++ A ++ R)))) with "[%] [Hs Ht]").
      * split_and!.
        -- cbn [oelems]. rewrite plug_del; [|rewrite cl_len; fsz; rewrite tsize_Seg; lia].
           rewrite elems_plug Ecl Ecr. cbn [cl cr elems]. fe.
        -- eexists c', prev, _. split_and!; try done; cbn [e_seg sg_idx].
           ++ f_equal. rewrite !app_length /=. lia.
           ++ rewrite Ecl app_length -[length (felems PL)]/(fsize PL). lia.
           ++ rewrite !app_length. lia.
        -- cbn [onblk]. etrans; [done|]. cbn [plug]. rewrite nblk_plug nblk_Nd fblk_app !fblk_cons.
           rewrite fblk_app fblk_cons. unfold fblk. simpl. lia.
        -- exists (csl c ++ fsegs PL ++ [(prev, Z)]), l, A, x, R, (fsegs PR ++ csr c). cbn [osegs plug]. rewrite !tsegs_plug Hcl Hcr.
           split_and!; [rewrite tsegs_Nd; fs| |].
           { rewrite !fst_elems csl_elems fsegs_elems. unfold fsize. simpl. rewrite ?app_nil_r !app_length ?app_length. simpl. lia. }
           right. right. split; [lia|]. right. left. exists (csl c ++ fsegs PL), prev, Z. split_and!; [by rewrite -app_assoc|done|].
           by rewrite -!app_assoc.
      * iExists ht'.
        replace (tsize (plug c' (Seg prev (Z ++ A ++ R)))) with
          (length (cl c) + (fsize PL + (length Z + 0)) + (length A + S (length R)) + (fsize PR + length (cr c)) - 1); last first.
        { rewrite tsize_plug tsize_Seg Ecl Ecr !app_length. unfold fsize. lia. }
        iFrame. iPureIntro. split; [done|lia].
    + (* rotate *)
      apply Nat.eqb_neq in Hzm.
      destruct Z as [|z Z _] using rev_ind; [simpl in *; lia|]. rewrite (app_length Z) in HlenZ, HtW, Hzm |- *. cbn [length] in HlenZ, HtW, Hzm |- *.
      rewrite (wsub_small (length Z + 1)); [|lia..]. rewrite Nat.add_sub.
      iApply (wp_seg_rot_prev with "Hz Hg"). iIntros "Hz Hg".
      wp_bind. iApply (wp_set_sizes with "Hpp"); [apply lookup_mid; len|]. iIntros "Hpp". cbn [snd].
      rewrite insert_mid; [|len].
      wp_bind. iApply (wp_parent_pointer with "Hpp"). iIntros "Hpp".
      wp_bind. iApply (wp_parent_index with "Hpp"). iIntros "Hpp".
      wp_bind. iApply (wp_decrement_sizes with "Hs Hc"); [simpl in *; lia| |lia|lia|].
      { lia. }
      iIntros "Hs Hc". wp_ret.
      set (t' := plug c (Nd pp (PL ++ Seg prev Z :: Seg l (z :: A ++ R) :: PR))).
      iApply ("HQ" $! (Some t') with "[%] [-]").
      * split_and!.
        -- cbn [oelems]. rewrite plug_del; [|rewrite cl_len; fsz; rewrite tsize_Seg app_length /=; lia].
           rewrite /t' elems_plug elems_Nd. cbn [cl cr]. fe.
        -- exists ((pp, PL ++ [Seg prev Z], PR) :: c), l, (z :: A ++ R). split_and!; cbn [e_seg e_leaf sg_idx].
           ++ rewrite /t' /=. by rewrite -app_assoc.
           ++ cbn [set_sg_idx e_seg sg_idx sg_len sg_ptr length]. rewrite app_length. f_equal. lia.
           ++ cbn [cparent cindex]. by rewrite app_length.
           ++ rewrite cl_len. fsz. rewrite tsize_Seg. cbn [set_sg_idx e_seg sg_idx]. lia.
           ++ rewrite /= app_length. lia.
        -- cbn [onblk]. rewrite !nblk_plug. cbn [cblk]. rewrite nblk_Nd (fblk_app PL (_ :: _ :: _)) (fblk_app PL [_]) !fblk_cons. unfold fblk. simpl. lia.
        -- exists (csl c ++ fsegs PL ++ [(prev, Z ++ [z])]), l, A, x, R, (fsegs PR ++ csr c). cbn [osegs plug]. rewrite /t' !tsegs_plug.
           split_and!; [rewrite tsegs_Nd; fs| |].
           { rewrite !fst_elems csl_elems fsegs_elems. unfold fsize. simpl. rewrite ?app_nil_r !app_length ?app_length. simpl. lia. }
           right. right. split; [lia|]. left. exists (csl c ++ fsegs PL), prev, Z, z. split_and!; [by rewrite -app_assoc|].
           rewrite tsegs_Nd. fs.
      * rewrite /t'. iExists (length c + 2). rewrite tr_plug; [|lia].
        rewrite tsize_plug tsize_Nd fsize_app !fsize_cons !tsize_Seg. cbn [length]. rewrite app_length.
        replace (length (cl c) + (fsize PL + (length Z + 1 + 0)) + (length A + S (length R)) + (fsize PR + length (cr c)) - 1)
          with (length (cl c) + (fsize PL + (length Z + (S (length A + length R) + fsize PR))) + length (cr c)) by lia.
        cbn [plug].
        rewrite (tloc_plug c (Nd pp (PL ++ Seg prev Z :: Seg l (z :: A ++ R) :: PR)) (Nd pp ((PL ++ [Seg prev (Z ++ [z])]) ++ Seg l (A ++ x :: R) :: PR))) //.
        iFrame "Hs". iSplitR.
        { iPureIntro. split; [|lia]. apply wfroot_plug. split; [done|].
          assert (Forall (wft 1) (PL ++ Seg prev Z :: Seg l (z :: A ++ R) :: PR)).
          { rewrite Forall_app !Forall_cons. cbn [wft length]. rewrite !app_length /=. split_and!; try done; lia. }
          destruct c; cbn [wfh wft wfroot]; rewrite app_length; simpl in *; split_and!; try done; lia. }
        iSplitR "Hc".
        { rewrite tr_Nd. iExists junk'. iSplitR. { iPureIntro. rewrite app_length. cbn [length]. lia. }
          rewrite fmap_app app_length -app_assoc. cbn [length fmap list_fmap app].
          replace (length PL + 1 + S (length PR)) with (length PL + S (S (length PR))) by lia.
          iSplitL "Hpp".
          { rewrite /entry !tsize_Seg. cbn [tloc length]. rewrite (app_length A R).
            replace (S (length A + length R)) with (length A + S (length R)) by lia. iApply "Hpp". }
          rewrite kidst_app !kidst_cons !tr_Seg.
          replace (S (S (0 + length PL))) with (S (length PL + 1)) by lia. iFrame. done. }
        iApply (ctxp_eq with "Hc"). lia.
Qed.

End seg.
