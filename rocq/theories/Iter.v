(** * Iter: move_next, move_prev and their counted versions (lines 389-654 of
    seq.hpp) read the tree and leave it alone.  Proof infrastructure. *)
From Verif Require Export IterFind.
From stdpp Require Import options.
Set Default Proof Using "Type*".

Section iter.
Context {T : Type} {C : cfg T} {OK : cfg_ok C} {FZ : frozen T}.
Context (ea na : nat).
Implicit Types t x y : tree T.
Implicit Types A B ts : list (tree T).
Implicit Types c : ctx T.
Implicit Types xs : list T.
Notation tr := (tr ea na).
Notation kidst := (kidst ea na).
Notation ctxp := (ctxp ea na).
Notation whole H t := (tr H (Some None) (Some 0) t).

(** ** Access to one node of a whole tree *)
Lemma tr_plug_1 h c t : 1 ≤ h →
  whole (length c + h) (plug c t) ⊢
  tr h (Some (cparent c)) (Some (cindex c)) t ∗ ctxp h c (tloc t) (tsize t).
Proof. intros. by rewrite tr_plug. Qed.
Lemma tr_plug_2 h c t : 1 ≤ h →
  tr h (Some (cparent c)) (Some (cindex c)) t -∗ ctxp h c (tloc t) (tsize t) -∗
  whole (length c + h) (plug c t).
Proof. intros. apply bi.wand_intro_r. rewrite tr_plug //. Qed.
Lemma tr_focus h c l A x B :
  1 ≤ h →
  whole (length c + S h) (plug c (Nd l (A ++ x :: B))) -∗ ∃ junk,
    ⟦length A + S (length B) + length junk = base_max⟧ ∗
    nd na l (Some (cparent c)) (Some (cindex c)) (Some (length A + S (length B)))
      ((entry <$> A) ++ entry x :: (entry <$> B) ++ junk) ∗
    tr h (Some (Some l)) (Some (length A)) x ∗
    (nd na l (Some (cparent c)) (Some (cindex c)) (Some (length A + S (length B)))
      ((entry <$> A) ++ entry x :: (entry <$> B) ++ junk) -∗
     tr h (Some (Some l)) (Some (length A)) x -∗
     whole (length c + S h) (plug c (Nd l (A ++ x :: B)))).
Proof.
  iIntros (Hh) "H". iDestruct (tr_plug_1 with "H") as "[H Hc]"; [lia|].
  iEval (rewrite (tr_child _ _ h _ _ l A x B)) in "H". iDestruct "H" as (junk [_ Hj]) "(Hn & HA & Hx & HB)".
  iExists junk. iSplitR; [done|]. iFrame "Hn Hx". iIntros "Hn Hx".
  iApply (tr_plug_2 with "[-Hc] Hc"); [lia|]. rewrite (tr_child _ _ h _ _ l A x B). iExists junk. by iFrame.
Qed.
Lemma tr_szge H c x : 1 ≤ H → whole (length c + H) (plug c x) ⊢ szge (length c).
Proof.
  intros. rewrite tr_plug; [|lia]. iIntros "[_ Hc]". iApply (ctxp_szge with "Hc").
Qed.

Lemma at_seg_here c l xs i :
  i ≤ length xs →
  at_seg (plug c (Seg l xs)) (IterEntry (SegEntry (Some l) i (length xs)) (LeafEntry (cparent c) (cindex c)))
    (length (cl c) + i).
Proof. intros. exists c, l, xs. done. Qed.
Lemma at_elem_here c l xs i :
  i < length xs →
  at_elem (plug c (Seg l xs)) (IterEntry (SegEntry (Some l) i (length xs)) (LeafEntry (cparent c) (cindex c)))
    (length (cl c) + i).
Proof. intros. split; [apply at_seg_here; lia|done]. Qed.
Lemma at_seg_entry c l xs e :
  e_seg e = SegEntry (Some l) (sg_idx (e_seg e)) (length xs) → e_leaf e = LeafEntry (cparent c) (cindex c) →
  e = IterEntry (SegEntry (Some l) (sg_idx (e_seg e)) (length xs)) (LeafEntry (cparent c) (cindex c)).
Proof. destruct e as [[]]; simpl. intros [= -> ->] ->. done. Qed.

Lemma wfc_child h l A y B c x :
  wfc h ((l, A, y :: B) :: c) → wfh h ((l, A, y :: B) :: c) x → wft h y ∧ wft h x.
Proof. simpl. rewrite Forall_app Forall_cons. naive_solver. Qed.

Lemma wfh_up h l A B c x :
  wfc h ((l, A, B) :: c) → wfh h ((l, A, B) :: c) x → wfc (S h) c ∧ wfh (S h) c (Nd l (A ++ x :: B)).
Proof.
  intros. apply wfroot_plug. replace (length c + S h) with (length ((l, A, B) :: c) + h) by (simpl; lia).
  by apply (wfroot_plug h ((l, A, B) :: c) x).
Qed.
Lemma plug_mid l A x y B c : plug ((l, A, y :: B) :: c) x = plug ((l, A ++ [x], B) :: c) y.
Proof. simpl. by rewrite -app_assoc. Qed.
Lemma cl_mid l A x B B' c : length (cl ((l, A ++ [x], B) :: c)) = length (cl ((l, A, B') :: c)) + tsize x.
Proof. rewrite !cl_len. fsz. Qed.
Lemma is_Nd h x : 2 ≤ h → wfroot h x → ∃ l ts, x = Nd l ts.
Proof. intros ? Hw. destruct (wfroot_Nd_inv h x) as (?&?&?&?); [done..|]. by eauto. Qed.

(** ** move_next *)
Lemma wp_move_next_branch_loop h c x e pos fuel Q E :
  2 ≤ h → wfc h c → wfh h c x →
  pos = length (cl c) + tsize x → at_seg (plug c x) (set_sg_idx e (sg_len (e_seg e))) pos →
  length c < fuel →
  whole (length c + h) (plug c x) -∗
  (∀ e', ⌜it_at (plug c x) e' pos⌝ → whole (length c + h) (plug c x) -∗ Q e') -∗
  wp (move_next_branch_loop fuel e (cparent c) (cindex c) h) Q E.
Proof.
  iIntros (Hh Hc Hx Hpos He Hf) "H HQ".
  iInduction c as [|[[l A] B] c] "IH" forall (h x fuel Hh Hc Hx Hpos He Hf);
    (destruct fuel as [|fuel]; [simpl in *; lia|]); cbn [move_next_branch_loop cparent cindex].
  { wp_ret. iApply ("HQ" with "[%] H"). apply it_at_end; [done|]. simpl in Hpos. done. }
  cbn [length plug].  replace (S (length c) + h) with (length c + S h) by lia.
  destruct B as [|y B].
  - iDestruct (tr_focus with "H") as (junk Hj) "(Hn & Hx & Hw)"; [lia|].
    wp_bind. iApply (wp_length_of with "Hn"). iIntros "Hn".
    rewrite Nat.eqb_refl. cbn [negb].
    wp_bind. iApply (wp_parent_index with "Hn"). iIntros "Hn".
    wp_bind. iApply (wp_parent_pointer with "Hn"). iIntros "Hn".
    iDestruct ("Hw" with "Hn Hx") as "H".
    replace (h + 1) with (S h) by lia.
    iApply ("IH" with "[%] [%] [%] [%] [%] [%] H HQ").
    + lia.
    + by eapply wfh_up.
    + by eapply wfh_up.
    + rewrite Hpos cl_len tsize_Nd. fsz.
    + done.
    + simpl in Hf. lia.
  - destruct (wfc_child _ _ _ _ _ _ _ Hc Hx) as [Hy _].
    rewrite (app_assoc A [x] (y :: B)).
    iDestruct (tr_focus with "H") as (junk Hj) "(Hn & Hy & Hw)"; [lia|].
    wp_bind. iApply (wp_length_of with "Hn"). iIntros "Hn".
    rewrite (proj2 (Nat.eqb_neq _ _)); [|rewrite app_length /=; lia]. cbn [negb].
    wp_bind. iApply (wp_pointers with "Hn"); [apply lookup_mid; len|]. iIntros "Hn".
    iApply (wp_find_first_node with "Hy"); [done|by apply wft_wfroot|].
    iIntros (e' He') "Hy". iDestruct ("Hw" with "Hn Hy") as "H".
    iApply ("HQ" with "[%] H").
    apply at_elem_it. destruct (is_Nd h y) as (l' & ts' & ->); [lia|by apply wft_wfroot|].
    apply (at_elem_plug ((l, A ++ [x], B) :: c)) in He'. rewrite Nat.add_0_r (cl_mid _ _ _ _ (Nd l' ts' :: B)) in He'.
    rewrite Hpos. exact He'.
Qed.

Lemma wp_move_next_branch h c x e pos Q E :
  2 ≤ h → wfc h c → wfh h c x →
  pos = length (cl c) + tsize x → at_seg (plug c x) (set_sg_idx e (sg_len (e_seg e))) pos →
  whole (length c + h) (plug c x) -∗
  (∀ e', ⌜it_at (plug c x) e' pos⌝ → whole (length c + h) (plug c x) -∗ Q e') -∗
  wp (fuel ← heap_fuel; move_next_branch_loop fuel e (cparent c) (cindex c) h) Q E.
Proof.
  iIntros (Hh Hc Hx Hpos He) "H HQ".
  wp_bind. iApply (wp_heap_fuel (length c)). iSplit. { iApply (tr_szge with "H"). lia. }
  iIntros (fuel Hf). by iApply (wp_move_next_branch_loop with "H HQ").
Qed.

(** the end of the segment designated by [e], which starts at [pos - idx] *)
Lemma wp_move_next_leaf H t e pos Q E :
  wfroot H t → at_seg t e pos →
  whole H t -∗
  (∀ e', ⌜it_at t e' (pos + (sg_len (e_seg e) - sg_idx (e_seg e)))%nat⌝ → whole H t -∗ Q e') -∗
  wp (move_next_leaf e) Q E.
Proof.
  iIntros (Hw (c & s & xs & -> & Hs & Hl & -> & Hi)) "H HQ".
  pose proof (wfroot_plug_seg _ _ _ _ Hw) as ->.
  pose proof (proj1 (wfroot_plug _ _ _) Hw) as [Hc Hx].
  assert (sg_len (e_seg e) = length xs) as Hln by by rewrite Hs.
  rewrite Hln.
  replace (length (cl c) + sg_idx (e_seg e) + (length xs - sg_idx (e_seg e)))
    with (length (cl c) + length xs) by lia.
  assert (at_seg (plug c (Seg s xs)) (set_sg_idx e (sg_len (e_seg e))) (length (cl c) + length xs)) as He.
  { rewrite /set_sg_idx Hln Hl Hs /=. apply at_seg_here. lia. }
  rewrite /move_next_leaf Hl. cbn [lf_ptr lf_idx].
  destruct c as [|[[l A] B] c]; cbn [cparent cindex].
  { wp_ret. iApply ("HQ" with "[%] H"). apply it_at_end; [done|]. by rewrite /= tsize_Seg. }
  cbn [length plug]. replace (S (length c) + 1) with (length c + 2) by lia.
  destruct B as [|y B].
  - iDestruct (tr_focus with "H") as (junk Hj) "(Hn & Hx & Hw)"; [lia|].
    wp_bind. iApply (wp_length_of with "Hn"). iIntros "Hn".
    rewrite Nat.eqb_refl. cbn [negb].
    wp_bind. iApply (wp_parent_pointer with "Hn"). iIntros "Hn".
    wp_bind. iApply (wp_parent_index with "Hn"). iIntros "Hn".
    iDestruct ("Hw" with "Hn Hx") as "H".
    destruct (wfh_up _ _ _ _ _ _ Hc Hx) as [Hc' Hx'].
    iApply (wp_move_next_branch with "H HQ"); [lia|done|done| |done].
    rewrite cl_len tsize_Nd. fsz. rewrite tsize_Seg. lia.
  - destruct (wfc_child _ _ _ _ _ _ _ Hc Hx) as [Hy _].
    rewrite (app_assoc A [Seg s xs] (y :: B)).
    iDestruct (tr_focus with "H") as (junk Hj) "(Hn & Hy & Hw)"; [lia|].
    wp_bind. iApply (wp_length_of with "Hn"). iIntros "Hn".
    rewrite (proj2 (Nat.eqb_neq _ _)); [|rewrite app_length /=; lia]. cbn [negb].
    wp_bind. iApply (wp_pointers with "Hn"); [apply lookup_mid; len|]. iIntros "Hn".
    wp_bind. iApply (wp_sizes with "Hn"); [apply lookup_mid; len|]. iIntros "Hn".
    iDestruct ("Hw" with "Hn Hy") as "H". wp_ret.
    iApply ("HQ" with "[%] H").
    apply at_elem_it. destruct y as [s' ys|]; simpl in Hy; [|lia]. pose proof segment_bounds.
    pose proof (at_elem_here ((l, A ++ [Seg s xs], B) :: c) s' ys 0) as He'.
    rewrite Nat.add_0_r (cl_mid _ _ _ _ (Seg s' ys :: B)) in He'.
    cbn [cparent cindex] in He'. rewrite (app_length A [_]) in He'. apply He'. lia.
Qed.

Lemma wp_move_next_segment H t e pos Q E :
  wfroot H t → at_elem t e pos →
  whole H t -∗ (∀ e', ⌜it_at t e' (pos + 1)%nat⌝ → whole H t -∗ Q e') -∗
  wp (move_next_segment e) Q E.
Proof.
  iIntros (Hw [He Hlt]) "H HQ". rewrite /move_next_segment.
  destruct (sg_idx (e_seg e) + 1 =? sg_len (e_seg e)) eqn:Heq; cbn [negb].
  - apply Nat.eqb_eq in Heq.
    iApply (wp_move_next_leaf with "H"); [done|done|].
    iIntros (e' He'). iApply "HQ". iPureIntro.
    by replace (sg_len (e_seg e) - sg_idx (e_seg e)) with 1 in He' by lia.
  - apply Nat.eqb_neq in Heq. wp_ret. iApply ("HQ" with "[%] H").
    apply at_elem_it. destruct He as (c & s & xs & -> & Hs & Hl & -> & Hi).
    rewrite Hs in Hlt, Heq. cbn [sg_len sg_idx] in Hlt, Heq.
    rewrite /set_sg_idx Hs Hl. cbn [sg_ptr sg_len sg_idx].
    rewrite -Nat.add_assoc. apply at_elem_here. lia.
Qed.

(** ** move_prev *)
Lemma wp_move_prev_branch_loop h c x fuel Q E :
  2 ≤ h → wfc h c → wfh h c x → 1 ≤ length (cl c) →
  length c < fuel → length (cl c) < c_W C →
  whole (length c + h) (plug c x) -∗
  (∀ e', ⌜at_elem (plug c x) e' (length (cl c) - 1)⌝ → whole (length c + h) (plug c x) -∗ Q e') -∗
  wp (move_prev_branch_loop fuel (cparent c) (cindex c) h) Q E.
Proof.
  iIntros (Hh Hc Hx Hpos Hf HcW) "H HQ". pose proof (ok_W _ OK) as HW.
  iInduction c as [|[[l A] B] c] "IH" forall (h x fuel Hh Hc Hx Hpos Hf HcW);
    (destruct fuel as [|fuel]; [simpl in *; lia|]); cbn [move_prev_branch_loop cparent cindex].
  { simpl in Hpos. lia. }
  cbn [length plug]. replace (S (length c) + h) with (length c + S h) by lia.
  destruct A as [|y A _] using rev_ind.
  - iDestruct (tr_focus with "H") as (junk Hj) "(Hn & Hx & Hw)"; [lia|].
    cbn [length Nat.eqb negb].
    wp_bind. iApply (wp_parent_index with "Hn"). iIntros "Hn".
    wp_bind. iApply (wp_parent_pointer with "Hn"). iIntros "Hn".
    iDestruct ("Hw" with "Hn Hx") as "H".
    replace (h + 1) with (S h) by lia.
    rewrite cl_len fsize_nil Nat.add_0_r. rewrite cl_len fsize_nil Nat.add_0_r in Hpos, HcW.
    iApply ("IH" with "[%] [%] [%] [%] [%] [%] H HQ").
    + lia.
    + by eapply wfh_up.
    + by eapply wfh_up.
    + done.
    + simpl in Hf. lia.
    + lia.
  - assert (wft h y) as Hy.
    { simpl in Hc. rewrite !Forall_app Forall_cons in Hc. naive_solver. }
    assert (length (A ++ [y]) ≤ base_max) as HAl by (simpl in Hc; lia).
    rewrite -(app_assoc A [y]). cbn [app].
    iDestruct (tr_focus with "H") as (junk Hj) "(Hn & Hy & Hw)"; [lia|].
    rewrite app_length. cbn [length].
    rewrite (proj2 (Nat.eqb_neq _ _)); [|lia]. cbn [negb].
    rewrite wsub_small; [|len|len]. rewrite Nat.add_sub.
    wp_bind. iApply (wp_pointers with "Hn"); [apply lookup_mid; len|]. iIntros "Hn".
    iApply (wp_find_last_node with "Hy"); [done|by apply wft_wfroot|].
    iIntros (e' He') "Hy". iDestruct ("Hw" with "Hn Hy") as "H".
    iApply ("HQ" with "[%] H").
    pose proof (wft_tsize _ _ Hy).
    destruct (is_Nd h y) as (l' & ts' & ->); [lia|by apply wft_wfroot|].
    apply (at_elem_plug ((l, A, x :: B) :: c)) in He'.
    rewrite (cl_mid _ _ _ _ (x :: B)). 
    replace (length (cl ((l, A, x :: B) :: c)) + tsize (Nd l' ts') - 1) with
      (length (cl ((l, A, x :: B) :: c)) + (tsize (Nd l' ts') - 1)) by lia. exact He'.
Qed.
Lemma wp_move_prev_branch h c x Q E :
  2 ≤ h → wfc h c → wfh h c x → 1 ≤ length (cl c) → length (cl c) < c_W C →
  whole (length c + h) (plug c x) -∗
  (∀ e', ⌜at_elem (plug c x) e' (length (cl c) - 1)⌝ → whole (length c + h) (plug c x) -∗ Q e') -∗
  wp (fuel ← heap_fuel; move_prev_branch_loop fuel (cparent c) (cindex c) h) Q E.
Proof.
  iIntros (Hh Hc Hx Hpos He) "H HQ".
  wp_bind. iApply (wp_heap_fuel (length c)). iSplit. { iApply (tr_szge with "H"). lia. }
  iIntros (fuel Hf). by iApply (wp_move_prev_branch_loop with "H HQ").
Qed.

Lemma wp_move_prev_leaf H t e pos Q E :
  wfroot H t → at_seg t e pos → sg_idx (e_seg e) < pos → tsize t < c_W C →
  whole H t -∗
  (∀ e', ⌜at_elem t e' (pos - sg_idx (e_seg e) - 1)⌝ → whole H t -∗ Q e') -∗
  wp (move_prev_leaf e) Q E.
Proof.
  iIntros (Hw (c & s & xs & -> & Hs & Hl & -> & Hi) Hlt HtW) "H HQ". pose proof (ok_W _ OK) as HW.
  pose proof (wfroot_plug_seg _ _ _ _ Hw) as ->.
  pose proof (proj1 (wfroot_plug _ _ _) Hw) as [Hc Hx].
  replace (length (cl c) + sg_idx (e_seg e) - sg_idx (e_seg e) - 1) with (length (cl c) - 1) by lia.
  rewrite tsize_plug in HtW.
  rewrite /move_prev_leaf Hl. cbn [lf_ptr lf_idx].
  destruct c as [|[[l A] B] c]; cbn [cparent cindex]. { simpl in Hlt. lia. }
  cbn [length plug]. replace (S (length c) + 1) with (length c + 2) by lia.
  destruct A as [|y A _] using rev_ind.
  - iDestruct (tr_focus with "H") as (junk Hj) "(Hn & Hx & Hw)"; [lia|].
    cbn [length Nat.eqb negb].
    wp_bind. iApply (wp_parent_pointer with "Hn"). iIntros "Hn".
    wp_bind. iApply (wp_parent_index with "Hn"). iIntros "Hn".
    iDestruct ("Hw" with "Hn Hx") as "H".
    destruct (wfh_up _ _ _ _ _ _ Hc Hx) as [Hc' Hx'].
    rewrite cl_len fsize_nil Nat.add_0_r. rewrite cl_len fsize_nil Nat.add_0_r in Hlt, HtW.
    iApply (wp_move_prev_branch with "H HQ"); [lia|done|done|lia|lia].
  - assert (wft 1 y) as Hy.
    { simpl in Hc. rewrite !Forall_app Forall_cons in Hc. naive_solver. }
    assert (length (A ++ [y]) ≤ base_max) as HAl by (simpl in Hc; lia).
    rewrite -(app_assoc A [y]). cbn [app].
    iDestruct (tr_focus with "H") as (junk Hj) "(Hn & Hy & Hw)"; [lia|].
    rewrite app_length. cbn [length].
    rewrite (proj2 (Nat.eqb_neq _ _)); [|lia]. cbn [negb].
    rewrite wsub_small; [|len|len]. rewrite Nat.add_sub.
    wp_bind. iApply (wp_pointers with "Hn"); [apply lookup_mid; len|]. iIntros "Hn".
    wp_bind. iApply (wp_sizes with "Hn"); [apply lookup_mid; len|]. iIntros "Hn".
    iDestruct ("Hw" with "Hn Hy") as "H". wp_ret.
    iApply ("HQ" with "[%] H").
    destruct y as [s' ys|]; simpl in Hy; [|lia]. pose proof segment_bounds.
    rewrite /find_last_segment tsize_Seg. rewrite wsub_small; [|lia..].
    rewrite (cl_mid _ _ _ _ (Seg s xs :: B)) tsize_Seg.
    pose proof (at_elem_here ((l, A, Seg s xs :: B) :: c) s' ys (length ys - 1)) as He'.
    rewrite Nat.add_sub_assoc in He'; [|lia]. apply He'. lia.
Qed.

Lemma wp_move_prev_segment H t e pos Q E :
  wfroot H t → at_seg t e pos → 1 ≤ pos → tsize t < c_W C →
  whole H t -∗ (∀ e', ⌜at_elem t e' (pos - 1)%nat⌝ → whole H t -∗ Q e') -∗
  wp (move_prev_segment e) Q E.
Proof.
  iIntros (Hw He Hpos HtW) "H HQ". rewrite /move_prev_segment. pose proof (ok_W _ OK) as HW.
  destruct (sg_idx (e_seg e) =? 0) eqn:Heq; cbn [negb].
  - apply Nat.eqb_eq in Heq.
    iApply (wp_move_prev_leaf with "H"); [done|done|lia|done|].
    iIntros (e' He'). iApply "HQ". iPureIntro.
    by rewrite Heq Nat.sub_0_r in He'.
  - apply Nat.eqb_neq in Heq. wp_ret. iApply ("HQ" with "[%] H").
    pose proof (at_seg_le _ _ _ He).
    destruct He as (c & s & xs & -> & Hs & Hl & -> & Hi).
    rewrite wsub_small; [|lia..].
    rewrite /set_sg_idx Hs Hl. cbn [sg_ptr sg_len sg_idx].
    rewrite -Nat.add_sub_assoc; [|lia]. apply at_elem_here. lia.
Qed.

End iter.
