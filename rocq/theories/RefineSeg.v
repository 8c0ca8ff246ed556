(** * RefineSeg: height, and access by segments.  Proof infrastructure. *)
From Verif Require Export RefineTwo.
From stdpp Require Import options.
Set Default Proof Using "Type*".

Section seg.
Context {T : Type} {C : cfg T} {OK : cfg_ok C} {FZ : frozen T}.
Implicit Types σ : sst T.
Implicit Types ρ : env.
Implicit Types o : option (tree T).
Implicit Types τ : gmap nat (option (tree T) * nat).
Implicit Types s : arg T.

(** ** height *)
Lemma fsize_bounds (ts : list (tree T)) m n :
  Forall (λ t, m ≤ tsize t ≤ n) ts → length ts * m ≤ fsize ts ≤ length ts * n.
Proof.
  induction 1 as [|t ts H _ IH]; [rewrite fsize_nil; simpl; lia|]. rewrite fsize_cons. simpl. lia.
Qed.
Lemma wft_bounds h t : wft h t → base_min ^ (h - 1) * segment_min ≤ tsize t ≤ segment_max * base_max ^ (h - 1).
Proof.
  revert t. induction h as [|h IH]; [done|]. intros [l xs|l ts]; simpl; rewrite Nat.sub_0_r.
  - intros [-> H]. rewrite tsize_Seg /=. lia.
  - intros (Hh & Hl & Hts). rewrite tsize_Nd. destruct h as [|h]; [lia|]. rewrite /= Nat.sub_0_r in IH.
    destruct (fsize_bounds ts (base_min ^ h * segment_min) (segment_max * base_max ^ h)) as [H1 H2].
    { eapply Forall_impl; [done|]. intros t. apply IH. }
    simpl. split; [etrans; [|exact H1]|etrans; [exact H2|]].
    + rewrite -Nat.mul_assoc. apply Nat.mul_le_mono_r. lia.
    + rewrite (Nat.mul_comm segment_max (base_max * _)) -Nat.mul_assoc (Nat.mul_comm (base_max ^ h)).
      apply Nat.mul_le_mono_r. lia.
Qed.
Lemma wfroot_height_bound h t : wfroot h t → height_bound C (tsize t) h.
Proof.
  intros Hw. pose proof (wfroot_tsize _ _ Hw) as Hp. pose proof (wfroot_height_pos _ _ Hw) as Hh.
  split; [lia|]. destruct h as [|h]; [done|]. destruct t as [l xs|l ts]; simpl in Hw.
  - destruct Hw as [-> Hw]. rewrite tsize_Seg. split; [simpl; lia|lia].
  - destruct Hw as (Hh' & Hl & Hts). destruct h as [|h]; [lia|]. rewrite tsize_Nd.
    destruct (fsize_bounds ts (base_min ^ h * segment_min) (segment_max * base_max ^ h)) as [H1 H2].
    { eapply Forall_impl; [done|]. intros t Ht. apply wft_bounds in Ht. by rewrite /= Nat.sub_0_r in Ht. }
    replace (S (S h) - 1) with (S h) by lia. replace (S (S h) - 2) with h by lia. cbn [Nat.pow].
    split; intros _; [etrans; [exact H2|]|etrans; [|exact H1]].
    + rewrite (Nat.mul_comm segment_max (base_max * _)) -Nat.mul_assoc (Nat.mul_comm (base_max ^ h)).
      apply Nat.mul_le_mono_r. lia.
    + rewrite -Nat.mul_assoc. apply Nat.mul_le_mono_r. lia.
Qed.
Lemma seqp_height_bound ea na l o : seqp ea na l o ⊢ ⌜height_bound C (osize o) (oheight o)⌝.
Proof.
  iIntros "H". destruct o as [t|].
  - iDestruct (seqp_wf with "H") as %[h Hw]. iPureIntro. change (osize (Some t)) with (tsize t).
    cbn [oheight]. rewrite (wfroot_theight _ _ Hw). by apply wfroot_height_bound.
  - iPureIntro. rewrite /osize /=. split; [done|]. lia.
Qed.
Lemma good_Height σ ρ x : good σ ρ (Height x).
Proof.
  intros Hpre. iIntros "HR". iDestruct "HR" as (τ Ha) "Hr". simpl in Hpre. open_live Ha Hpre o a l.
  cbn [exec_call]. vars. take_ Ht Hl. wp_bind. rewrite /height_. iDestruct (seqp_height_bound with "Hs") as %Hb.
  iApply (wp_get_height_o with "Hs"). iIntros "Hs".
  wp_ret. iApply post_intro; [|exact Ha|back_ Ht Hl]. simpl. split; [|done]. eexists. split; [done|]. by rewrite Hc.
Qed.
(** ** segments *)
Definition seg_idx (it : iterator_data) : nat := sg_idx (e_seg (i_entry it)).
Definition seg_len (it : iterator_data) : nat := sg_len (e_seg (i_entry it)).
Lemma wp_read_from ea l sl i (vs : list T) Q E :
  (∀ j v, vs !! j = Some v → sl !! (i + j) = Some (Some v)) →
  sg ea l sl -∗ (sg ea l sl -∗ Q vs) -∗ wp (read_from (Some l) i (length vs)) Q E.
Proof.
  revert i Q. induction vs as [|v vs IH]; intros i Q Hs; iIntros "H HQ"; simpl.
  - wp_ret. by iApply "HQ".
  - wp_bind. rewrite /read_pointer /=. iApply (wp_read_slot with "H").
    { rewrite -{1}(Nat.add_0_r i). by apply Hs. }
    iIntros "H". wp_bind. iApply (IH with "H").
    { intros j u Hj. specialize (Hs (S j) u Hj). by rewrite -Nat.add_succ_comm in Hs. }
    iIntros "H". wp_ret. by iApply "HQ".
Qed.
(** what the segment of an iterator is *)
Definition the_segment o (it : iterator_data) (before xs : list T) : Prop :=
  (∃ rest, oelems o = before ++ xs ++ rest) ∧ i_pos it = length before + seg_idx it ∧ seg_len it = length xs ∧
  seg_idx it ≤ length xs ∧ (i_pos it < osize o → seg_idx it < length xs).
Lemma wp_read_segment ea na this o it Q E :
  it_ok o it →
  seqp ea na this o -∗
  (∀ before xs, ⌜the_segment o it before xs⌝ → seqp ea na this o -∗ Q (OSegm xs (seg_idx it))) -∗
  wp (read_segment it) Q E.
Proof.
  iIntros (Hit) "Hs HQ". rewrite /read_segment /=. rewrite !Nat.sub_0_r. destruct o as [t|].
  - destruct Hit as [(c & l & xs & -> & Hs & Hl & Hp & Hi) Hlt].
    iDestruct "Hs" as (h [Hw HtW]) "[Hs Ht]".
    pose proof (wfroot_plug_seg _ _ _ _ Hw) as ->.
    iDestruct (tr_plug_1 with "Ht") as "[Hg Hc]"; [lia|].
    iEval (rewrite tr_Seg) in "Hg". iDestruct "Hg" as (_ junk [Hln Hcl]) "Hg".
    rewrite Hs /=. wp_bind. iApply (wp_read_from with "Hg").
    { intros j v Hj. rewrite /= lookup_app_l; [|rewrite fmap_length; by eapply lookup_lt_Some]. by rewrite list_lookup_fmap Hj. }
    iIntros "Hg". wp_ret. iApply ("HQ" $! (cl c) xs with "[%]").
    + split_and!.
      * exists (cr c). by rewrite /= elems_plug.
      * done.
      * by rewrite /seg_len Hs.
      * done.
      * intros Hp'. rewrite Hs in Hlt. simpl in Hlt. apply Hlt. exact Hp'.
    + iExists (length c + 1). iFrame "Hs". iSplitR; [done|].
      iApply (tr_plug_2 with "[Hg] [Hc]"); [lia| |done].
      rewrite tr_Seg. iSplitR; [done|]. iExists junk. by iFrame.
  - rewrite (it_ok_nil _ Hit) /=. wp_bind. wp_ret. wp_ret. iApply ("HQ" $! [] [] with "[%] Hs").
    rewrite /the_segment /seg_idx /seg_len /osize /=. split_and!; [by exists []|done..].
Qed.
Lemma the_segment_spec o it before xs ys p :
  the_segment o it before xs → ys = oelems o → i_pos it = p → in_segment ys p before xs (seg_idx it).
Proof. intros (H1 & H2 & H3 & H4 & H5) -> <-. split_and!; done. Qed.
Lemma the_segment_stop o it before xs :
  the_segment o it before xs → i_pos it + seg_left it = length before + length xs.
Proof. intros (H1 & H2 & H3 & H4 & H5). rewrite /seg_left. fold (seg_len it) (seg_idx it). lia. Qed.
Lemma good_SegAfter σ ρ w w' : good σ ρ (SegAfter w w').
Proof.
  intros (x & p & Hw). iIntros "HR". iDestruct "HR" as (τ Ha) "Hr". open_at Ha Hw o a l it.
  cbn [exec_call]. vars. take_ Ht Hl. wp_bind. iApply (wp_read_segment with "Hs"); [done|].
  iIntros (before xs Hsg) "Hs". wp_bind. iApply (wp_move_after_segment with "Hs"); [done|].
  iIntros (it' [Hok' Hp']) "Hs". wp_ret.
  iApply post_intro; [|by eapply abs_point|back_ Ht Hl].
  exists x, p, before, xs, (seg_idx it). split_and!; [done|by eapply the_segment_spec|done|].
  by rewrite -(the_segment_stop _ _ _ _ Hsg) -Hp'.
Qed.
Lemma good_SegAfterCount σ ρ x w n w' : good σ ρ (SegAfterCount x w n w').
Proof.
  intros (p & Hw). iIntros "HR". iDestruct "HR" as (τ Ha) "Hr". open_at Ha Hw o a l it.
  cbn [exec_call]. vars. take_ Ht Hl. wp_bind. iApply (wp_read_segment with "Hs"); [done|].
  iIntros (before xs Hsg) "Hs". wp_bind. rewrite /size_. iApply (wp_get_size_o with "Hs"). iIntros "Hs".
  pose proof (the_segment_stop _ _ _ _ Hsg) as Hst. pose proof (the_segment_spec _ _ _ _ _ p Hsg Hc Hp) as Hin.
  assert (segment_stop it = i_pos it + seg_left it) as Heq by done. rewrite Heq Hst.
  destruct (length before + length xs + n <=? osize o) eqn:Hn.
  - apply Nat.leb_le in Hn. wp_bind. iApply (wp_move_after_segment_count with "Hs"); [done|lia|].
    iIntros (it' [Hok' Hp']) "Hs". wp_ret.
    iApply post_intro; [|by eapply abs_point|back_ Ht Hl].
    exists p, before, xs, (seg_idx it). split_and!; [done|done|done|].
    rewrite Hc. apply Nat.leb_le in Hn. change (length (oelems o)) with (osize o). rewrite Hn. by rewrite -Hst -Hp'.
  - wp_ret. iApply post_intro; [|exact Ha|back_ Ht Hl].
    exists p, before, xs, (seg_idx it). split_and!; [done|done|done|].
    rewrite Hc. change (length (oelems o)) with (osize o). by rewrite Hn.
Qed.
Lemma good_SegBefore σ ρ w w' : good σ ρ (SegBefore w w').
Proof.
  intros (x & p & Hw). iIntros "HR". iDestruct "HR" as (τ Ha) "Hr". open_at Ha Hw o a l it.
  cbn [exec_call]. vars. take_ Ht Hl. wp_bind. iApply (wp_read_segment with "Hs"); [done|].
  iIntros (before xs Hsg) "Hs". pose proof (the_segment_spec _ _ _ _ _ p Hsg Hc Hp) as Hin.
  assert (segment_start it = length before) as Heq.
  { rewrite /segment_start /index_of /= Nat.sub_0_r. destruct Hsg as (_ & -> & _). fold (seg_idx it). lia. }
  rewrite Heq. destruct (length before =? 0) eqn:Hb.
  - apply Nat.eqb_eq in Hb as Hb'. rewrite Hb' /=. wp_ret. iApply post_intro; [|exact Ha|back_ Ht Hl].
    exists x, p, before, xs, (seg_idx it). split_and!; [done|done|done|]. by rewrite Hb.
  - apply Nat.eqb_neq in Hb as Hb'. destruct (0 <? length before) eqn:H0; [|apply Nat.ltb_ge in H0; lia].
    wp_bind. iApply (wp_move_before_segment with "Hs"); [done|fold (seg_idx it); destruct Hsg as (_ & -> & _); lia|].
    iIntros (it' [Hok' Hp']) "Hs". wp_ret.
    iApply post_intro; [|by eapply abs_point|back_ Ht Hl].
    exists x, p, before, xs, (seg_idx it). split_and!; [done|done|done|]. rewrite Hb. f_equal.
    fold (seg_idx it). destruct Hsg as (_ & -> & _). lia.
Qed.

(** ** all calls *)
Theorem all_good σ ρ c : good σ ρ c.
Proof.
  destruct c.
  - apply good_New.
  - apply good_NewCount.
  - apply good_NewRange.
  - apply good_NewCopy.
  - apply good_NewCopyAlloc.
  - apply good_NewMove.
  - apply good_NewMoveAlloc.
  - apply good_Destroy.
  - apply good_AssignCopy.
  - apply good_AssignMove.
  - apply good_AssignCount.
  - apply good_AssignRange.
  - apply good_GetAlloc.
  - apply good_Size.
  - apply good_Empty.
  - apply good_Height.
  - apply good_At.
  - apply good_Index.
  - apply good_Front.
  - apply good_Back.
  - apply good_Begin.
  - apply good_End.
  - apply good_Penultimate.
  - apply good_Nth.
  - apply good_IndexOf.
  - apply good_Deref.
  - apply good_DerefAt.
  - apply good_RDeref.
  - apply good_Write.
  - apply good_Next.
  - apply good_Prev.
  - apply good_Add.
  - apply good_Sub.
  - apply good_Diff.
  - apply good_ItEq.
  - apply good_ItLt.
  - apply good_ItLe.
  - apply good_ItNe.
  - apply good_ItGt.
  - apply good_ItGe.
  - apply good_SegAfter.
  - apply good_SegAfterCount.
  - apply good_SegBefore.
  - apply good_Clear.
  - apply good_InsertOne.
  - apply good_InsertCount.
  - apply good_InsertRange.
  - apply good_Erase.
  - apply good_EraseRange.
  - apply good_PushBack.
  - apply good_PushFront.
  - apply good_PopBack.
  - apply good_PopFront.
  - apply good_Resize.
  - apply good_Swap.
  - apply good_SpliceAll.
  - apply good_SpliceOne.
  - apply good_SpliceRange.
  - apply good_MergeIn.
  - apply good_Remove.
  - apply good_RemoveIf.
  - apply good_Unique.
  - apply good_Reverse.
  - apply good_Sort.
  - apply good_CmpEq.
  - apply good_CmpLt.
  - apply good_CmpNe.
  - apply good_CmpLe.
  - apply good_CmpGt.
  - apply good_CmpGe.
Qed.
End seg.
