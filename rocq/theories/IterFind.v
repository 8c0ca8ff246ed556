(** * IterFind: find_index, find_first, find_last, find_end (lines 171-387 of
    seq.hpp) read the tree and leave it alone.  Proof infrastructure. *)
From Verif Require Export EraseSeg.
From stdpp Require Import options.
Set Default Proof Using "Type*".

Section pure.
Context {T : Type} {FZ : frozen T}.
Implicit Types t : tree T.
Implicit Types c : ctx T.

Lemma at_seg_plug c l ts e pos :
  at_seg (Nd l ts) e pos → at_seg (plug c (Nd l ts)) e (length (cl c) + pos).
Proof.
  intros (c1 & l1 & xs & Hp & Hs & Hl & -> & Hi).
  exists (c1 ++ c), l1, xs. split_and!; try done.
  - by rewrite plug_app -Hp.
  - destruct c1; [done|]. done.
  - rewrite cl_app app_length. lia.
Qed.
Lemma at_elem_plug c l ts e pos :
  at_elem (Nd l ts) e pos → at_elem (plug c (Nd l ts)) e (length (cl c) + pos).
Proof. intros [? ?]. split; [by apply at_seg_plug|done]. Qed.

(** normalised iterators: the end of a segment is only used at the very end *)
Definition it_at t (e : iterator_entry) (pos : nat) : Prop :=
  at_seg t e pos ∧ (pos < tsize t → sg_idx (e_seg e) < sg_len (e_seg e)).

Lemma at_seg_le t e pos : at_seg t e pos → pos ≤ tsize t.
Proof.
  intros (c & l & xs & -> & Hs & Hl & -> & Hi). rewrite /tsize elems_plug !app_length; cbn [elems]. lia.
Qed.
Lemma at_elem_lt t e pos : at_elem t e pos → pos < tsize t.
Proof.
  intros [(c & l & xs & -> & Hs & Hl & -> & Hi) Hlt]. rewrite Hs /= in Hlt.
  rewrite /tsize elems_plug !app_length; cbn [elems]. lia.
Qed.
Lemma at_elem_it t e pos : at_elem t e pos → it_at t e pos.
Proof. by intros [? ?]. Qed.
Lemma it_at_elem t e pos : it_at t e pos → pos < tsize t → at_elem t e pos.
Proof. intros [? H] ?. split; [done|by apply H]. Qed.
Lemma it_at_end t e pos : at_seg t e pos → pos = tsize t → it_at t e pos.
Proof. intros ? ->. split; [done|lia]. Qed.

Lemma child_in (ts : list (tree T)) pos :
  pos < fsize ts → ∃ A x B, ts = A ++ x :: B ∧ fsize A ≤ pos < fsize A + tsize x.
Proof.
  revert pos. induction ts as [|x ts IH]; intros pos; [rewrite fsize_nil; lia|].
  rewrite fsize_cons. intros H. destruct (decide (pos < tsize x)).
  - exists [], x, ts. split; [done|]. rewrite fsize_nil. lia.
  - destruct (IH (pos - tsize x)) as (A & y & B & -> & H1); [lia|].
    exists (x :: A), y, B. split; [done|]. rewrite fsize_cons. lia.
Qed.
End pure.

Section find.
Context {T : Type} {C : cfg T} {OK : cfg_ok C} {FZ : frozen T}.
Context (ea na : nat).
Implicit Types t x : tree T.
Implicit Types A B ts : list (tree T).
Implicit Types c : ctx T.
Notation tr := (tr ea na).
Notation kidst := (kidst ea na).
Notation ctxp := (ctxp ea na).

Lemma wfroot_Nd_inv h t : 2 ≤ h → wfroot h t → ∃ l ts, t = Nd l ts ∧
  2 ≤ length ts ≤ base_max ∧ Forall (wft (h - 1)) ts.
Proof.
  destruct h as [|[|h]]; [lia|lia|]. intros _. destruct t as [|l ts]; simpl; [lia|].
  intros (_ & ? & ?). exists l, ts. by split; [|split].
Qed.

(** the node [l] of a tree, and its child [x] *)
Lemma tr_child h p i l A x B :
  tr (S h) p i (Nd l (A ++ x :: B)) ⊣⊢ ∃ junk,
    ⟦1 ≤ h ∧ length A + S (length B) + length junk = base_max⟧ ∗
    nd na l p i (Some (length A + S (length B))) ((entry <$> A) ++ entry x :: (entry <$> B) ++ junk) ∗
    kidst h l 0 A ∗ tr h (Some (Some l)) (Some (length A)) x ∗ kidst h l (S (length A)) B.
Proof.
  rewrite tr_Nd. f_equiv=> junk. rewrite app_length fmap_app kidst_app kidst_cons -app_assoc /=. done.
Qed.

Lemma at_seg_child l A x B e pos :
  (∃ l' ts', x = Nd l' ts') → at_seg x e pos → at_seg (Nd l (A ++ x :: B)) e (fsize A + pos).
Proof.
  intros (l' & ts' & ->) H. apply (at_seg_plug [(l, A, B)]) in H. by rewrite cl_len in H.
Qed.
Lemma at_elem_child l A x B e pos :
  (∃ l' ts', x = Nd l' ts') → at_elem x e pos → at_elem (Nd l (A ++ x :: B)) e (fsize A + pos).
Proof. intros ? [? ?]. split; [by apply at_seg_child|done]. Qed.
Lemma at_seg_leaf l A s xs B idx :
  idx ≤ length xs →
  at_seg (Nd l (A ++ Seg s xs :: B)) (IterEntry (SegEntry (Some s) idx (length xs)) (LeafEntry (Some l) (length A)))
    (fsize A + idx).
Proof.
  intros. exists [(l, A, B)], s, xs. split_and!; try done.
Qed.

(** ** find_first *)
Lemma wp_find_first_node h t p i Q E :
  2 ≤ h → wfroot h t →
  tr h p i t -∗ (∀ e, ⌜at_elem t e 0⌝ → tr h p i t -∗ Q e) -∗
  wp (find_first_node (Some (tloc t)) h) Q E.
Proof.
  iIntros (Hh Hw) "H HQ". iInduction h as [|h] "IH" forall (t p i Q Hh Hw); [lia|].
  destruct (wfroot_Nd_inv _ _ Hh Hw) as (l & ts & -> & Hlen & Hts).
  replace (S h - 1) with h in Hts by lia.
  destruct ts as [|x ts]; [simpl in *; lia|]. apply Forall_cons in Hts as [Hx Hts].
  rewrite /find_first_node. cbn [tloc].
  iEval (rewrite (tr_child _ _ _ _ [] x)) in "H". iDestruct "H" as (junk Hj) "(Hn & HA & Hx & HB)".
  cbn [app fmap list_fmap length].
  destruct (S h =? 2) eqn:H2.
  - apply Nat.eqb_eq in H2. simplify_eq.
    destruct x as [s xs|]; simpl in Hx; [|lia]. pose proof segment_bounds.
    rewrite /find_first_leaf. wp_bind.
    iApply (wp_pointers _ _ _ _ _ _ 0 with "Hn"); [done|]. iIntros "Hn". wp_bind.
    iApply (wp_sizes _ _ _ _ _ _ 0 with "Hn"); [done|]. iIntros "Hn". wp_ret.
    iApply "HQ".
    + iPureIntro. split; [|rewrite /= tsize_Seg; lia]. apply (at_seg_leaf l [] s xs). lia.
    + rewrite (tr_child _ _ _ _ [] (Seg s xs)). iExists junk. iFrame. done.
  - apply Nat.eqb_neq in H2.
    cbn [find_first_branch]. wp_bind.
    iApply (wp_pointers _ _ _ _ _ _ 0 with "Hn"); [done|]. iIntros "Hn".
    iApply ("IH" with "[%] [%] Hx"); [lia|by apply wft_wfroot|].
    iIntros (e He) "Hx". iApply "HQ".
    + iPureIntro. apply (at_elem_child l [] x ts) in He; [done|].
      destruct (wfroot_Nd_inv h x) as (?&?&?&?); [lia|by apply wft_wfroot|]. by eauto.
    + rewrite (tr_child _ _ _ _ [] x). iExists junk. iFrame. done.
Qed.

(** ** find_last and find_end *)
Lemma wp_find_last_node h t p i Q E :
  2 ≤ h → wfroot h t →
  tr h p i t -∗ (∀ e, ⌜at_elem t e (tsize t - 1)⌝ → tr h p i t -∗ Q e) -∗
  wp (find_last_node (Some (tloc t)) h) Q E.
Proof.
  iIntros (Hh Hw) "H HQ". iInduction h as [|h] "IH" forall (t p i Q Hh Hw); [lia|].
  pose proof (ok_W _ OK) as HW.
  destruct (wfroot_Nd_inv _ _ Hh Hw) as (l & ts & -> & Hlen & Hts).
  replace (S h - 1) with h in Hts by lia.
  destruct ts as [|x ts _] using rev_ind; [simpl in *; lia|]. apply Forall_app in Hts as [Hts [Hx _]%Forall_cons].
  rewrite app_length in Hlen. cbn [length] in Hlen.
  rewrite /find_last_node. cbn [tloc].
  iEval (rewrite (tr_child _ _ _ _ ts x)) in "H". iDestruct "H" as (junk Hj) "(Hn & HA & Hx & HB)".
  pose proof (wft_tsize _ _ Hx) as Hsx. rewrite tsize_Nd fsize_app fsize_cons fsize_nil.
  assert (wsub (length ts + S (@length (tree T) [])) 1 = length ts) as Hws.
  { rewrite wsub_small; simpl; lia. }
  destruct (S h =? 2) eqn:H2.
  - apply Nat.eqb_eq in H2. simplify_eq.
    destruct x as [s xs|]; simpl in Hx; [|lia]. pose proof segment_bounds.
    rewrite /find_last_leaf. wp_bind.
    iApply (wp_length_of with "Hn"). iIntros "Hn". wp_bind. rewrite Hws.
    iApply (wp_pointers with "Hn"); [apply lookup_mid; len|]. iIntros "Hn". wp_bind.
    iApply (wp_sizes with "Hn"); [apply lookup_mid; len|]. iIntros "Hn". wp_ret.
    iApply "HQ".
    + iPureIntro. rewrite /find_last_segment tsize_Seg. rewrite tsize_Seg in Hsx. rewrite wsub_small; [|lia..].
      split; [|simpl; lia].
      replace (fsize ts + (length xs + 0) - 1) with (fsize ts + (length xs - 1)) by lia.
      apply at_seg_leaf. lia.
    + rewrite (tr_child _ _ _ _ ts (Seg s xs)). iExists junk. iFrame. done.
  - apply Nat.eqb_neq in H2.
    cbn [find_last_branch]. wp_bind.
    iApply (wp_length_of with "Hn"). iIntros "Hn". wp_bind. rewrite Hws.
    iApply (wp_pointers with "Hn"); [apply lookup_mid; len|]. iIntros "Hn".
    iApply ("IH" with "[%] [%] Hx"); [lia|by apply wft_wfroot|].
    iIntros (e He) "Hx". iApply "HQ".
    + iPureIntro. apply (at_elem_child l ts x []) in He; last first.
      { destruct (wfroot_Nd_inv h x) as (?&?&?&?); [lia|by apply wft_wfroot|]. by eauto. }
      replace (fsize ts + (tsize x + 0) - 1) with (fsize ts + (tsize x - 1)) by lia. done.
    + rewrite (tr_child _ _ _ _ ts x). iExists junk. iFrame. done.
Qed.
Lemma wp_find_end_node h t p i Q E :
  2 ≤ h → wfroot h t →
  tr h p i t -∗ (∀ e, ⌜at_seg t e (tsize t)⌝ → tr h p i t -∗ Q e) -∗
  wp (find_end_node (Some (tloc t)) h) Q E.
Proof.
  iIntros (Hh Hw) "H HQ". iInduction h as [|h] "IH" forall (t p i Q Hh Hw); [lia|].
  pose proof (ok_W _ OK) as HW.
  destruct (wfroot_Nd_inv _ _ Hh Hw) as (l & ts & -> & Hlen & Hts).
  replace (S h - 1) with h in Hts by lia.
  destruct ts as [|x ts _] using rev_ind; [simpl in *; lia|]. apply Forall_app in Hts as [Hts [Hx _]%Forall_cons].
  rewrite app_length in Hlen. cbn [length] in Hlen.
  rewrite /find_end_node. cbn [tloc].
  iEval (rewrite (tr_child _ _ _ _ ts x)) in "H". iDestruct "H" as (junk Hj) "(Hn & HA & Hx & HB)".
  rewrite tsize_Nd fsize_app fsize_cons fsize_nil Nat.add_0_r.
  assert (wsub (length ts + S (@length (tree T) [])) 1 = length ts) as Hws.
  { rewrite wsub_small; simpl; lia. }
  destruct (S h =? 2) eqn:H2.
  - apply Nat.eqb_eq in H2. simplify_eq.
    destruct x as [s xs|]; simpl in Hx; [|lia].
    rewrite /find_end_leaf. wp_bind.
    iApply (wp_length_of with "Hn"). iIntros "Hn". wp_bind. rewrite Hws.
    iApply (wp_pointers with "Hn"); [apply lookup_mid; len|]. iIntros "Hn". wp_bind.
    iApply (wp_sizes with "Hn"); [apply lookup_mid; len|]. iIntros "Hn". wp_ret.
    iApply "HQ".
    + iPureIntro. rewrite /find_end_segment tsize_Seg. apply at_seg_leaf. lia.
    + rewrite (tr_child _ _ _ _ ts (Seg s xs)). iExists junk. iFrame. done.
  - apply Nat.eqb_neq in H2.
    cbn [find_end_branch]. wp_bind.
    iApply (wp_length_of with "Hn"). iIntros "Hn". wp_bind. rewrite Hws.
    iApply (wp_pointers with "Hn"); [apply lookup_mid; len|]. iIntros "Hn".
    iApply ("IH" with "[%] [%] Hx"); [lia|by apply wft_wfroot|].
    iIntros (e He) "Hx". iApply "HQ".
    + iPureIntro. apply (at_seg_child l ts x []) in He; [done|].
      destruct (wfroot_Nd_inv h x) as (?&?&?&?); [lia|by apply wft_wfroot|]. by eauto.
    + rewrite (tr_child _ _ _ _ ts x). iExists junk. iFrame. done.
Qed.

(** ** find_index *)
Lemma wp_find_scan l p i n A x B junk A1 A2 pos fuel (Q : nat * nat → hprop T) E :
  A = A1 ++ A2 → fsize A2 ≤ pos < fsize A2 + tsize x → length A2 < fuel →
  nd na l p i n ((entry <$> A) ++ entry x :: (entry <$> B) ++ junk) -∗
  (nd na l p i n ((entry <$> A) ++ entry x :: (entry <$> B) ++ junk) -∗ Q (length A, pos - fsize A2)) -∗
  wp (find_scan fuel (Some l) (length A1) pos) Q E.
Proof.
  iIntros (HA Hpos Hf) "Hn HQ".
  iInduction A2 as [|y A2] "IH" forall (A1 pos fuel HA Hpos Hf); (destruct fuel as [|fuel]; [simpl in *; lia|]);
    cbn [find_scan].
  - rewrite app_nil_r in HA. subst A1. wp_bind.
    iApply (wp_sizes with "Hn"); [apply lookup_mid; len|]. iIntros "Hn".
    rewrite fsize_nil in Hpos |- *.
    rewrite (proj2 (Nat.leb_gt _ _)); [|lia]. wp_ret. rewrite Nat.sub_0_r. by iApply "HQ".
  - wp_bind.
    iApply (wp_sizes _ _ _ _ _ _ _ (tsize y) (Some (tloc y)) with "Hn").
    { rewrite HA fmap_app fmap_cons -app_assoc. apply lookup_mid. len. }
    iIntros "Hn".
    rewrite fsize_cons in Hpos |- *. rewrite (proj2 (Nat.leb_le _ _)); [|lia].
    replace (length A1 + 1) with (length (A1 ++ [y])) by len.
    replace (pos - (tsize y + fsize A2)) with (pos - tsize y - fsize A2) by lia.
    iApply ("IH" with "[%] [%] [%] Hn HQ").
    + by rewrite -app_assoc.
    + lia.
    + simpl in Hf. lia.
Qed.

Lemma wp_find_index_node h t p i pos Q E :
  2 ≤ h → wfroot h t → pos < tsize t →
  tr h p i t -∗ (∀ e, ⌜at_elem t e pos⌝ → tr h p i t -∗ Q e) -∗
  wp (find_index_node (Some (tloc t)) h pos) Q E.
Proof.
  iIntros (Hh Hw Hpos) "H HQ". iInduction h as [|h] "IH" forall (t p i pos Q Hh Hw Hpos); [lia|].
  destruct (wfroot_Nd_inv _ _ Hh Hw) as (l & ts & -> & Hlen & Hts).
  replace (S h - 1) with h in Hts by lia. rewrite tsize_Nd in Hpos.
  destruct (child_in _ _ Hpos) as (A & x & B & -> & Hin).
  apply Forall_app in Hts as [_ [Hx _]%Forall_cons]. rewrite app_length in Hlen. cbn [length] in Hlen.
  rewrite /find_index_node. cbn [tloc].
  iEval (rewrite tr_child) in "H". iDestruct "H" as (junk Hj) "(Hn & HA & Hx & HB)".
  destruct (S h =? 2) eqn:H2.
  - apply Nat.eqb_eq in H2. simplify_eq.
    destruct x as [s xs|]; simpl in Hx; [|lia].
    rewrite /find_index_leaf. wp_bind.
    iApply (wp_find_scan _ _ _ _ A _ B junk [] A with "Hn"); [done|done|lia|]. iIntros "Hn". cbn [fst snd].
    wp_bind. iApply (wp_pointers with "Hn"); [apply lookup_mid; len|]. iIntros "Hn". wp_bind.
    iApply (wp_sizes with "Hn"); [apply lookup_mid; len|]. iIntros "Hn". wp_ret.
    rewrite tsize_Seg in Hin.
    iApply "HQ".
    + iPureIntro. rewrite /find_index_segment tsize_Seg. split; [|simpl; lia].
      replace pos with (fsize A + (pos - fsize A)) at 2 by lia.
      apply at_seg_leaf. lia.
    + rewrite tr_child. iExists junk. iFrame. done.
  - apply Nat.eqb_neq in H2.
    cbn [find_index_branch]. wp_bind.
    iApply (wp_find_scan _ _ _ _ A _ B junk [] A with "Hn"); [done|done|lia|]. iIntros "Hn". cbn [fst snd].
    wp_bind. iApply (wp_pointers with "Hn"); [apply lookup_mid; len|]. iIntros "Hn".
    iApply ("IH" with "[%] [%] [%] Hx"); [lia|by apply wft_wfroot|lia|].
    iIntros (e He) "Hx". iApply "HQ".
    + iPureIntro. apply (at_elem_child l A x B) in He.
      * by replace (fsize A + (pos - fsize A)) with pos in He by lia.
      * destruct (wfroot_Nd_inv h x) as (?&?&?&?); [lia|by apply wft_wfroot|]. by eauto.
    + rewrite tr_child. iExists junk. iFrame. done.
Qed.

End find.
