(** * Unique: a position determines the iterator, and an iterator designates one
    of the segments of the container.  Proof infrastructure. *)
From Verif Require Export Sound.
From stdpp Require Import options.
Set Default Proof Using "Type*".

Section unique.
Context {T : Type} {C : cfg T}.
Implicit Types t : tree T.
Implicit Types ts L R : list (tree T).
Implicit Types c : ctx T.
Implicit Types o : option (tree T).

Lemma split_unique ts L t1 R L' t2 R' pos :
  Forall (λ t, 1 ≤ tsize t) ts → ts = L ++ t1 :: R → ts = L' ++ t2 :: R' →
  fsize L ≤ pos ≤ fsize L + tsize t1 → fsize L' ≤ pos ≤ fsize L' + tsize t2 →
  (pos < fsize L + tsize t1 ∨ pos = fsize ts) → (pos < fsize L' + tsize t2 ∨ pos = fsize ts) →
  L = L' ∧ t1 = t2 ∧ R = R'.
Proof.
  intros Hne H1 H2 Hp1 Hp2 He1 He2.
  assert (∀ L t1 R L' t2 R', ts = L ++ t1 :: R → ts = L' ++ t2 :: R' → fsize L' ≤ pos →
    (pos < fsize L + tsize t1 ∨ pos = fsize ts) → pos ≤ fsize L + tsize t1 → ¬ length L < length L') as Hno.
  { clear -Hne. intros L t1 R L' t2 R' H1 H2 Hp He Hle Hlt. rewrite H1 in H2.
    apply app_eq_inv in H2 as [(k & -> & Hk)|(k & -> & Hk)].
    { rewrite app_length in Hlt. lia. }
    destruct k as [|u k]; [rewrite app_length in Hlt; simpl in Hlt; lia|]. injection Hk as <- ->.
    rewrite fsize_app fsize_cons in Hp.
    assert (1 ≤ tsize t2) as Ht2.
    { rewrite Forall_forall in Hne. apply Hne. rewrite H1. set_solver. }
    destruct He as [He|He]; [lia|]. rewrite H1 fsize_app fsize_cons fsize_app fsize_cons in He. lia. }
  assert (length L = length L') as Hlen.
  { assert (¬ length L < length L') by (by eapply Hno; try done; lia).
    assert (¬ length L' < length L) by (by eapply Hno; try done; lia). lia. }
  rewrite H1 in H2. apply app_inj_1 in H2 as [-> [= -> ->]]; done.
Qed.

(** a position in a subtree whose root has parent [lp], index [li] *)
Definition at_sub (lp : ptr) (li : nat) t (e : iterator_entry) (pos : nat) : Prop :=
  ∃ c l xs, t = plug c (Seg l xs) ∧
    e_seg e = SegEntry (Some l) (sg_idx (e_seg e)) (length xs) ∧
    e_leaf e = (match c with [] => LeafEntry lp li | _ => LeafEntry (cparent c) (cindex c) end) ∧
    pos = length (cl c) + sg_idx (e_seg e) ∧ sg_idx (e_seg e) ≤ length xs ∧
    (sg_idx (e_seg e) < length xs ∨ pos = tsize t).
Lemma at_sub_nd lp li l ts e pos :
  Forall (λ t, 1 ≤ tsize t) ts → at_sub lp li (Nd l ts) e pos →
  ∃ L t R, ts = L ++ t :: R ∧ fsize L ≤ pos ≤ fsize L + tsize t ∧ (pos < fsize L + tsize t ∨ pos = fsize ts) ∧
    at_sub (Some l) (length L) t e (pos - fsize L).
Proof.
  intros Hne (c & l1 & xs & Ht & Hs & Hl & Hpos & Hi & Hend).
  destruct (decide (c = [])) as [->|Hc]; [done|].
  destruct c as [|[[l0 L] R] c0 _] using rev_ind; [done|]. clear Hc.
  rewrite plug_app in Ht. cbn [plug] in Ht. injection Ht as -> ->.
  rewrite cl_app in Hpos. cbn [cl] in Hpos. rewrite !app_length /= in Hpos. change (length (felems L)) with (fsize L) in Hpos.
  set (t := plug c0 (Seg l1 xs)) in *.
  assert (tsize t = length (cl c0) + length xs + length (cr c0)) as Hsz.
  { rewrite /tsize /t elems_plug !app_length /=. lia. }
  exists L, t, R. split; [done|]. split; [lia|].
  assert (pos < fsize L + tsize t ∨ pos = fsize (L ++ t :: R)) as Hend'.
  { rewrite tsize_Nd in Hend. destruct Hend; [left; lia|by right]. }
  split; [done|]. exists c0, l1, xs. split_and!; try done.
  - destruct c0 as [|f c0]; [done|]. done.
  - lia.
  - rewrite tsize_Nd fsize_app fsize_cons in Hend. destruct Hend as [|Hend]; [by left|]. right. lia.
Qed.
Lemma at_sub_unique h lp li t e e' pos :
  wfroot h t → at_sub lp li t e pos → at_sub lp li t e' pos → e = e'.
Proof.
  revert lp li t pos. induction h as [|h IH]; intros lp li t pos Hw H1 H2; [done|].
  destruct t as [l xs|l ts].
  - assert (∀ e, at_sub lp li (Seg l xs) e pos → e = IterEntry (SegEntry (Some l) pos (length xs)) (LeafEntry lp li)) as Heq.
    { intros e1 (c & l1 & ys & Ht & Hs & Hl & Hpos & Hi & Hend). destruct c as [|f c].
      - simpl in Ht, Hpos. simplify_eq. destruct e1 as [s lf]. simpl in *. subst lf. by rewrite Hs.
      - exfalso. assert (∀ c (u : tree T) f, Seg l xs ≠ plug (f :: c) u) as Hno; [|by eapply Hno].
        clear. intros c. induction c as [|f' c IH]; intros u [[l0 L] R]; [done|]. destruct f' as [[l' L'] R']. simpl.
        apply (IH _ (l', L', R')). }
    by rewrite (Heq _ H1) (Heq _ H2).
  - simpl in Hw. destruct Hw as (Hh & Hlen & Hk).
    assert (Forall (λ t, 1 ≤ tsize t) ts) as Hne.
    { eapply Forall_impl; [done|]. intros u Hu. by eapply wft_tsize. }
    destruct (at_sub_nd _ _ _ _ _ _ Hne H1) as (L1 & t1 & R1 & E1 & P1 & Q1 & S1).
    destruct (at_sub_nd _ _ _ _ _ _ Hne H2) as (L2 & t2 & R2 & E2 & P2 & Q2 & S2).
    destruct (split_unique ts L1 t1 R1 L2 t2 R2 pos) as (-> & -> & ->); try done.
    eapply IH; [|exact S1|exact S2]. apply wft_wfroot. rewrite Forall_forall in Hk. apply Hk. rewrite E1. set_solver.
Qed.
Lemma it_at_sub t e pos : it_at t e pos → at_sub None 0 t e pos.
Proof.
  intros [(c & l & xs & Ht & Hs & Hl & Hp & Hi) Hend]. exists c, l, xs. split_and!; try done.
  - by destruct c.
  - rewrite Hs /= in Hend. destruct (decide (pos < tsize t)) as [Hlt|]; [left; by apply Hend|]. right.
    assert (pos ≤ tsize t); [|lia]. rewrite Ht /tsize elems_plug !app_length /=. lia.
Qed.
Lemma it_ok_unique h o it it' :
  (∀ t, o = Some t → wfroot h t) → it_ok o it → it_ok o it' → i_pos it = i_pos it' → it = it'.
Proof.
  destruct o as [t|]; simpl.
  - intros Hw H1%it_at_sub H2%it_at_sub Hp. destruct it as [e p], it' as [e' p']. simpl in *. subst p'.
    f_equal. eapply at_sub_unique; [by apply Hw|done..].
  - by intros _ -> ->.
Qed.

(** ** Segments *)
Lemma plug_segs c t :
  ∃ S1 S2, tsegs (plug c t) = S1 ++ tsegs t ++ S2 ∧ concat S1.*2 = cl c ∧ concat S2.*2 = cr c.
Proof.
  revert t. induction c as [|[[l L] R] c IH]; intros t.
  { exists [], []. cbn [plug]. by rewrite right_id_L. }
  cbn [plug]. destruct (IH (Nd l (L ++ t :: R))) as (S1 & S2 & H & H1 & H2).
  exists (S1 ++ concat (tsegs <$> L)), (concat (tsegs <$> R) ++ S2).
  assert (∀ ts : list (tree T), concat (concat (tsegs <$> ts)).*2 = felems ts) as Hc.
  { intros ts. induction ts as [|u ts IHts]; [done|]. simpl. by rewrite fmap_app concat_app IHts tsegs_elems. }
  split_and!.
  - rewrite H tsegs_Nd fsegs_app fsegs_cons. by rewrite !assoc_L.
  - rewrite fmap_app concat_app H1 Hc. done.
  - rewrite fmap_app concat_app H2 Hc. done.
Qed.
(** the segment of an iterator *)
Lemma it_ok_segment t it :
  it_ok (Some t) it → ∃ S1 l xs S2, tsegs t = S1 ++ (l, xs) :: S2 ∧
    e_seg (i_entry it) = SegEntry (Some l) (sg_idx (e_seg (i_entry it))) (length xs) ∧
    i_pos it = length (concat S1.*2) + sg_idx (e_seg (i_entry it)) ∧
    sg_idx (e_seg (i_entry it)) ≤ length xs ∧
    (i_pos it < tsize t → sg_idx (e_seg (i_entry it)) < length xs).
Proof.
  intros [(c & l & xs & -> & Hs & Hl & Hp & Hi) Hend].
  destruct (plug_segs c (Seg l xs)) as (S1 & S2 & H & H1 & H2). exists S1, l, xs, S2.
  rewrite Hs /= in Hend. split_and!; try done. by rewrite H1.
Qed.

(** occupancy of the segments and nodes *)
Definition seg_bounds (n : nat) : Prop := segment_min ≤ n ≤ segment_max.
Lemma wft_segs h t : wft h t → Forall (λ s, seg_bounds (length s.2)) (tsegs t).
Proof.
  revert t. induction h as [|h IH]; intros [l xs|l ts]; simpl; try done.
  - intros [_ ?]. by constructor.
  - intros (_ & _ & Hts). rewrite Forall_concat Forall_fmap. eapply Forall_impl; [done|]. intros u Hu. by apply IH.
Qed.
Lemma wft_counts h t : wft h t → length (tsegs t) * segment_min ≤ tsize t ∧ 1 ≤ length (tsegs t) ∧
  length (tnodes t) < length (tsegs t).
Proof.
  pose proof segment_bounds. pose proof base_bounds.
  revert t. induction h as [|h IH]; intros [l xs|l ts]; cbn [wft]; try done.
  - intros [_ ?]. cbn [tsegs tnodes]. rewrite tsize_Seg. simpl. lia.
  - intros (_ & Hlen & Hts). cbn [tsegs tnodes length]. rewrite tsize_Nd.
    assert (length (concat (tsegs <$> ts)) * segment_min ≤ fsize ts ∧ length ts ≤ length (concat (tsegs <$> ts)) ∧
      length (concat (tnodes <$> ts)) + length ts ≤ length (concat (tsegs <$> ts))) as (?&?&?); [|lia].
    clear Hlen. induction Hts as [|u ts Hu Hts IHts]; [simpl; lia|].
    rewrite !fmap_cons /= !app_length fsize_cons. destruct (IH u Hu) as (?&?&?). lia.
Qed.
Lemma wfroot_counts h t : wfroot h t →
  (length (tsegs t) = 1 ∨ length (tsegs t) * segment_min ≤ tsize t) ∧ 1 ≤ length (tsegs t) ∧
  length (tnodes t) < length (tsegs t).
Proof.
  pose proof segment_bounds. pose proof base_bounds.
  destruct h as [|h]; destruct t as [l xs|l ts]; cbn [wfroot]; try done.
  - intros [_ ?]. cbn [tsegs tnodes]. rewrite tsize_Seg. simpl. lia.
  - intros (_ & Hlen & Hts). cbn [tsegs tnodes length]. rewrite tsize_Nd.
    assert (length (concat (tsegs <$> ts)) * segment_min ≤ fsize ts ∧ length ts ≤ length (concat (tsegs <$> ts)) ∧
      length (concat (tnodes <$> ts)) + length ts ≤ length (concat (tsegs <$> ts))) as (?&?&?); [|lia].
    clear Hlen. induction Hts as [|u ts Hu Hts IHts]; [simpl; lia|].
    rewrite !fmap_cons /= !app_length fsize_cons. destruct (wft_counts h u Hu) as (?&?&?). lia.
Qed.
Lemma wfroot_segs h t : wfroot h t →
  (∃ s, tsegs t = [s] ∧ 1 ≤ length s.2 ≤ segment_max) ∨ Forall (λ s, seg_bounds (length s.2)) (tsegs t).
Proof.
  destruct h as [|h]; destruct t as [l xs|l ts]; cbn [wfroot]; try done.
  - intros [_ ?]. left. by eexists.
  - intros (_ & _ & Hts). right. cbn [tsegs]. rewrite Forall_concat Forall_fmap.
    eapply Forall_impl; [done|]. intros u Hu. by eapply wft_segs.
Qed.
End unique.
