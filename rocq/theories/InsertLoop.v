(** * InsertLoop: insert_single_branch, insert_single_leaf (lines 1674-1807 of
    seq.hpp).  Proof infrastructure only. *)
From Verif Require Export Insert.
From stdpp Require Import options.
Set Default Proof Using "Type*".

Section pure.
Context {T : Type} {C : cfg T} {FZ : frozen T}.
Implicit Types t : tree T.
Implicit Types c : ctx T.

Lemma felems_le_forall n ts : Forall (λ t : tree T, n ≤ tsize t) ts → n * length ts ≤ fsize ts.
Proof.
  induction 1 as [|t ts Ht Hts IH]; simpl; [lia|].
  rewrite fsize_cons. lia.
Qed.
Lemma wft_pow h t : wft (S h) t → segment_min * base_min ^ h ≤ tsize t.
Proof.
  revert t. induction h as [|h IH]; intros t.
  - destruct t as [l xs|l ts]; simpl; [rewrite tsize_Seg; lia|lia].
  - destruct t as [l xs|l ts]; [simpl; lia|]. intros (? & ? & Hts).
    rewrite tsize_Nd.
    etrans; [|apply (felems_le_forall (segment_min * base_min ^ h))].
    + rewrite Nat.pow_succ_r' (Nat.mul_comm base_min) Nat.mul_assoc. apply Nat.mul_le_mono_l. lia.
    + eapply Forall_impl; [done|]. intros x Hx. apply IH, Hx.
Qed.
Lemma wfroot_pow h t : wfroot (S (S h)) t → 2 * (segment_min * base_min ^ h) ≤ tsize t.
Proof.
  destruct t as [l xs|l ts]; [simpl; lia|]. intros (? & ? & Hts).
  rewrite tsize_Nd.
  etrans; [|apply (felems_le_forall (segment_min * base_min ^ h))].
  - rewrite (Nat.mul_comm 2). apply Nat.mul_le_mono_l. lia.
  - eapply Forall_impl; [done|]. intros x Hx. apply wft_pow, Hx.
Qed.
Lemma pow_lin h : S h ≤ segment_min * base_min ^ h.
Proof.
  pose proof segment_bounds. pose proof base_bounds.
  pose proof (Nat.pow_gt_lin_r base_min h). nia.
Qed.
Lemma wft_height_le h t : wft h t → h ≤ tsize t.
Proof.
  destruct h as [|h]; [lia|]. intros H%wft_pow. pose proof (pow_lin h). lia.
Qed.
Lemma wfroot_height_le h t : wfroot h t → h ≤ tsize t.
Proof.
  destruct h as [|[|h]]; [lia| |].
  - intros ?%wfroot_tsize. lia.
  - intros H%wfroot_pow. pose proof (pow_lin h). lia.
Qed.

Lemma tloc_plug c t t' : tloc t = tloc t' → tloc (plug c t) = tloc (plug c t').
Proof.
  revert t t'. induction c as [|[[l L] R] c IH]; intros t t' Ht; simpl; [done|]. by apply IH.
Qed.
Lemma app_cons_cut {A} (L : list A) x R X Y :
  L ++ x :: R = X ++ Y →
  (length L < length X ∧ ∃ X2, X = L ++ x :: X2 ∧ R = X2 ++ Y) ∨
  (length X ≤ length L ∧ ∃ Y1, L = X ++ Y1 ∧ Y = Y1 ++ x :: R).
Proof.
  intros H. apply app_eq_inv in H as [(k & -> & Hk)|(k & -> & Hk)].
  - right. split; [rewrite app_length; lia|]. by exists k.
  - destruct k as [|y k]; simplify_eq/=.
    + right. rewrite right_id_L. split; [lia|]. exists []. by rewrite right_id_L.
    + left. split; [rewrite app_length /=; lia|]. by exists k.
Qed.

(** [x] sits in [t'] between [L] and [R], and [lf] is its position in its parent *)
Definition at_leaf (t' x : tree T) (L R : list (loc * list T)) (lf : leaf_entry) : Prop :=
  ∃ c', t' = plug c' x ∧ lf = LeafEntry (cparent c') (cindex c') ∧ csl c' = L ∧ csr c' = R.

End pure.

Section insert.
Context {T : Type} {C : cfg T} {OK : cfg_ok C} {FZ : frozen T}.
Context (ea na : nat).
Implicit Types t : tree T.
Implicit Types c : ctx T.
Notation tr := (tr ea na).
Notation kidst := (kidst ea na).
Notation ctxp := (ctxp ea na).
Notation segp := (segp ea).
Notation sqo := (sqo ea na).

(** ** A new root (lines 1678-1689, 1745-1756) *)
Definition g_new_root {A} (k : bool) (this : loc) (alloc base ch : ptr) (sz : nat) (K : M T A) : M T A :=
  set_parent_pointer alloc None;;
  set_parent_index alloc 0;;
  set_length alloc 2;;
  n ← get_size this;
  g_construct k alloc 0 (wadd (wsub n sz) 1) base;;
  g_construct k alloc 1 sz ch;;
  set_root this alloc;;
  K.
Lemma wp_g_new_root {A} k h this r ht a q b ch bq bj cq cj K (Q : A → hprop T) E :
  kh k h → 1 ≤ tsize b → 1 ≤ tsize ch → tsize b + tsize ch < c_W C →
  sqo this r (tsize b + tsize ch - 1) ht -∗ raw_node na a q -∗ tr h bq bj b -∗ tr h cq cj ch -∗
  (sqo this (Some a) (tsize b + tsize ch - 1) ht -∗ tr (S h) (Some None) (Some 0) (Nd a [b; ch]) -∗ wp K Q E) -∗
  wp (g_new_root k this (Some a) (Some (tloc b)) (Some (tloc ch)) (tsize ch) K) Q E.
Proof.
  iIntros (Hk Hb Hch HW) "Hs Ha Hb Hch HQ". rewrite /g_new_root.
  pose proof (ok_W _ OK) as HW'. pose proof base_bounds as HB.
  assert (∃ junk, replicate base_max (@None nat, @None loc) = (None, None) :: (None, None) :: junk ∧
    S (S (length junk)) = base_max) as (junk & Hr & Hj).
  { exists (replicate (base_max - 2) (None, None)). rewrite replicate_length. split; [|lia].
    destruct base_max as [|[|m]]; [lia|lia|]. by rewrite /= Nat.sub_0_r. }
  rewrite /raw_node Hr.
  wp_bind. iApply (wp_set_parent_pointer with "Ha"). iIntros "Ha".
  wp_bind. iApply (wp_set_parent_index with "Ha"); [lia|]. iIntros "Ha".
  wp_bind. iApply (wp_set_length with "Ha"); [lia|]. iIntros "Ha".
  wp_bind. iApply (wp_get_size with "Hs"). iIntros "Hs".
  rewrite wsub_small; [|lia..]. rewrite wadd_small; [|lia].
  replace (tsize b + tsize ch - 1 - tsize ch + 1) with (tsize b) by lia.
  wp_bind. iApply (wp_g_construct with "Ha Hb"); [done|simpl;lia|lia|]. iIntros "Ha Hb".
  wp_bind. iApply (wp_g_construct with "Ha Hch"); [done|simpl;lia|lia|]. iIntros "Ha Hch".
  wp_bind. iApply (wp_set_root with "Hs"). iIntros "Hs".
  iApply ("HQ" with "Hs"). rewrite tr_Nd.
  iExists junk. iSplitR.
  { iPureIntro. split; [destruct k; simpl in Hk; lia|]. simpl. lia. }
  iSplitL "Ha".
  - iApply "Ha".
  - rewrite !kidst_cons kidst_nil right_id. iFrame.
Qed.

Lemma branch_loop_none fuel this base index alloc ch sz :
  insert_single_branch_loop (S fuel) this base None index alloc ch sz =
  g_new_root true this alloc base ch sz
    (ht ← get_height this; set_height this (wadd ht 1);;
     sz ← get_size this; set_size this (wadd sz 1)).
Proof. reflexivity. Qed.
Lemma leaf_none this e base index alloc ch sz :
  insert_single_leaf this e base None index alloc ch sz =
  g_new_root false this alloc base ch sz
    (set_height this 2;;
     sz ← get_size this; set_size this (wadd sz 1);;
     mret (set_lf e (LeafEntry alloc (lf_idx (e_leaf e))))).
Proof. reflexivity. Qed.

(** ** insert_single_branch *)
Lemma wp_insert_single_branch_loop this h c b ch q j ls n fuel Q E :
  2 ≤ h → length c < fuel → length ls = needed c →
  wfc h c → wft h b → wft h ch →
  n = length (cl c) + (tsize b + tsize ch - 1) + length (cr c) → n + 1 < c_W C →
  sqo this (Some (tloc (plug c b))) n (length c + h) -∗
  tr h (Some (cparent c)) (Some (cindex c)) b -∗ tr h q j ch -∗
  ctxp h c (tloc b) (tsize b + tsize ch - 1) -∗ chain na ls -∗
  (∀ t' ht', ⌜wfroot ht' t' ∧ placed c [b; ch] t' ∧ nblk t' = (cblk c + nblk b + nblk ch + needed c)%nat⌝ →
     sqo this (Some (tloc t')) (n + 1) ht' -∗ tr ht' (Some None) (Some 0) t' -∗ Q ()) -∗
  wp (insert_single_branch_loop fuel this (Some (tloc b)) (cparent c) (cindex c + 1) (head ls)
        (Some (tloc ch)) (tsize ch)) Q E.
Proof.
  iIntros (Hh Hf Hls Hwc Hwb Hwch Hn HW) "Hs Hb Hch Hc Hls HQ".
  pose proof (ok_W _ OK) as HW'. pose proof base_bounds as HB.
  iInduction c as [|[[l L] R] c] "IH" forall (h b ch q j ls fuel Hh Hf Hls Hwc Hwb Hwch Hn);
    (destruct fuel as [|fuel]; [simpl in *; lia|]).
  { cbn [cparent]. rewrite branch_loop_none. simpl in Hls, Hn.
    destruct ls as [|a [|]]; simplify_eq/=. iDestruct "Hls" as "[Ha _]".
    pose proof (wft_height_le _ _ Hwb). pose proof (wft_tsize _ _ Hwch). rewrite Nat.add_0_r in HW |- *.
    iApply (wp_g_new_root with "Hs Ha Hb Hch"); [done|lia|lia|lia|].
    iIntros "Hs Ht".
    wp_bind. iApply (wp_get_height with "Hs"). iIntros "Hs".
    wp_bind. iApply (wp_set_height with "Hs"). iIntros "Hs".
    wp_bind. iApply (wp_get_size with "Hs"). iIntros "Hs".
    iApply (wp_set_size with "Hs"). iIntros "Hs".
    rewrite !wadd_small; [|lia..]. rewrite (Nat.add_1_r h).
    iApply ("HQ" $! (Nd a [b; ch]) (S h) with "[%] Hs Ht"). split_and!.
    - cbn [wfroot length]. split_and!; [lia|lia|lia|by rewrite !Forall_cons].
    - apply placed_root.
    - simpl. lia. }
  cbn [ctxp cparent cindex plug length]. iDestruct "Hc" as (junk [_ Hlen]) "(Hn & HL & HR & Hc)".
  rewrite branch_loop_some.
  cbn [wfc] in Hwc. destruct Hwc as (_ & HLR & Hlen2 & Hwc). apply Forall_app in HLR as [HwL HwR].
  pose proof (wft_tsize _ _ Hwb). pose proof (wft_tsize _ _ Hwch).
  assert (n = length (cl c) + (fsize (L ++ b :: ch :: R) - 1) + length (cr c)) as Hn'.
  { rewrite Hn fsize_app !fsize_cons /=. rewrite !app_length /fsize. lia. }
  assert (1 ≤ fsize (L ++ b :: ch :: R)).
  { rewrite fsize_app !fsize_cons. lia. }
  iApply (wp_g_ins_some with "Hn HL HR Hb Hch Hls"); [done|lia|done|lia|lia|lia|lia|done|].
  iSplit.
  - iIntros ([Hnf ->]) "Ht".
    iApply (wp_increment_sizes _ _ _ _ _ _ _ c with "Hs Hc"); [simpl in *; lia|..].
    { rewrite Hn'. rewrite fsize_app !fsize_cons. lia. }
    { lia. }
    iIntros "Hs Hc".
    iApply ("HQ" $! (plug c (Nd l (L ++ b :: ch :: R))) (length c + S h) with "[%] [Hs] [Ht Hc]").
    + split_and!.
      * rewrite wfroot_plug. split; [done|].
        assert (wft (S h) (Nd l (L ++ b :: ch :: R)) ∨ c = []) as [?| ->].
        { destruct c; [by right|]. left. simpl. rewrite !app_length /=.
          rewrite Forall_app !Forall_cons. split_and!; (done || lia). }
        { destruct c; [by apply wft_wfroot|done]. }
        simpl. rewrite !app_length /=. rewrite Forall_app !Forall_cons. split_and!; (done || lia).
      * apply placed_app_inv.
        pose proof (placed_open c [] l (L ++ b :: ch :: R) [] _ (placed_plug c _)) as Hp.
        by rewrite /= right_id_L in Hp.
      * rewrite nblk_plug.
        change (nblk (Nd l (L ++ b :: ch :: R))) with (S (fblk (L ++ b :: ch :: R))).
        rewrite fblk_app !fblk_cons. simpl. rewrite (proj2 (Nat.eqb_neq _ _)); [|lia]. lia.
    + replace (length c + S h) with (S (length c + h)) by lia.
      rewrite (tloc_plug c (Nd l (L ++ b :: ch :: R)) (Nd l (L ++ b :: R))) //.
    + rewrite tr_plug; [|lia]. iFrame "Ht". rewrite tsize_Nd.
      replace (fsize L + (tsize b + tsize ch - 1) + fsize R + 1) with (fsize (L ++ b :: ch :: R)); [done|].
      rewrite fsize_app !fsize_cons. lia.
  - iIntros (a ls' X Y (-> & Hls' & HXY & HX & HY)) "Hl Ha Hls".
    assert (Forall (wft h) X ∧ Forall (wft h) Y) as [HwX HwY].
    { rewrite -Forall_app -HXY. rewrite Forall_app !Forall_cons. done. }
    assert (wft (S h) (Nd l X)) as HwlX. { simpl. split_and!; (done || lia). }
    assert (wft (S h) (Nd a Y)) as HwaY. { simpl. split_and!; (done || lia). }
    pose proof (wft_tsize _ _ HwlX) as HsX. pose proof (wft_tsize _ _ HwaY) as HsY.
    rewrite tsize_Nd in HsX, HsY.
    iEval (rewrite tr_Nd) in "Hl". iDestruct "Hl" as (junk') "(%Hj' & Hl & HX)".
    wp_bind. iApply (wp_parent_index with "Hl"). iIntros "Hl".
    wp_bind. iApply (wp_parent_pointer with "Hl"). iIntros "Hl".
    change (Some l) with (Some (tloc (Nd l X))). change (Some a) with (Some (tloc (Nd a Y))).
    rewrite -(tsize_Nd a Y).
    assert (tsize (Nd l X) + tsize (Nd a Y) = fsize (L ++ b :: ch :: R)) as Hsum.
    { rewrite HXY fsize_app //. }
    iApply ("IH" $! (S h) (Nd l X) (Nd a Y) with "[%] [%] [%] [%] [%] [%] [%] [Hs] [Hl HX] Ha [Hc] Hls").
    { lia. } { simpl in Hf. lia. } { done. } { done. } { done. } { done. }
    { rewrite Hsum. done. }
    { rewrite (tloc_plug c (Nd l X) (Nd l (L ++ b :: R))) //.
      replace (length c + S h) with (S (length c + h)) by lia. done. }
    { rewrite tr_Nd. iExists junk'. iFrame. done. }
    { rewrite Hsum. replace (fsize L + (tsize b + tsize ch - 1) + fsize R) with (fsize (L ++ b :: ch :: R) - 1); [done|].
      rewrite fsize_app !fsize_cons. lia. }
    iIntros (t' ht' (Hwt & Hpl & Hblk)) "Hs Ht".
    iApply ("HQ" with "[%] Hs Ht"). split_and!.
    + done.
    + apply placed_app_inv. simpl. rewrite HXY.
      apply (placed_open c [] l X [Nd a Y]) in Hpl. simpl in Hpl.
      apply (placed_open c X a Y []) in Hpl. by rewrite right_id_L in Hpl.
    + rewrite Hblk.
      change (nblk (Nd l X)) with (S (fblk X)). change (nblk (Nd a Y)) with (S (fblk Y)).
      assert (fblk X + fblk Y = fblk (L ++ b :: ch :: R)) as Hb by by rewrite HXY fblk_app.
      rewrite fblk_app !fblk_cons in Hb.
      cbn [cblk]. simpl in Hls. cbn [needed].
      apply (f_equal length) in HXY. rewrite !app_length /= in HXY.
      rewrite (proj2 (Nat.eqb_eq _ _)); [|lia]. lia.
Qed.

Lemma wp_insert_single_branch this h c b ch q j ls n Q E :
  2 ≤ h → length ls = needed c →
  wfc h c → wft h b → wft h ch →
  n = length (cl c) + (tsize b + tsize ch - 1) + length (cr c) → n + 1 < c_W C →
  sqo this (Some (tloc (plug c b))) n (length c + h) -∗
  tr h (Some (cparent c)) (Some (cindex c)) b -∗ tr h q j ch -∗
  ctxp h c (tloc b) (tsize b + tsize ch - 1) -∗ chain na ls -∗
  (∀ t' ht', ⌜wfroot ht' t' ∧ placed c [b; ch] t' ∧ nblk t' = (cblk c + nblk b + nblk ch + needed c)%nat⌝ →
     sqo this (Some (tloc t')) (n + 1) ht' -∗ tr ht' (Some None) (Some 0) t' -∗ Q ()) -∗
  wp (insert_single_branch this (Some (tloc b)) (cparent c) (cindex c + 1) (head ls)
        (Some (tloc ch)) (tsize ch)) Q E.
Proof.
  iIntros (Hh Hls Hwc Hwb Hwch Hn HW) "Hs Hb Hch Hc Hls HQ". rewrite /insert_single_branch.
  wp_bind. iApply (wp_height_fuel with "Hs"). iIntros "Hs".
  iApply (wp_insert_single_branch_loop with "Hs Hb Hch Hc Hls HQ"); [done|lia|done..].
Qed.

(** ** insert_single_leaf *)
Lemma at_leaf_placed c l A x B t' cs1 cs2 :
  placed c (cs1 ++ Nd l (A ++ x :: B) :: cs2) t' →
  at_leaf t' x (csl c ++ fsegs cs1 ++ fsegs A) (fsegs B ++ fsegs cs2 ++ csr c) (LeafEntry (Some l) (length A)).
Proof.
  intros H. destruct (H cs1 _ cs2 eq_refl) as (c' & -> & Hl & Hr).
  exists ((l, A, B) :: c'). split_and!; [done|done| |]; simpl.
  - by rewrite Hl -assoc_L.
  - by rewrite Hr.
Qed.

Lemma wp_insert_single_leaf this c b ch q j ls n (w : bool) e Q E :
  length ls = needed c →
  wfc 1 c → wft 1 b → wft 1 ch →
  n = length (cl c) + (tsize b + tsize ch - 1) + length (cr c) → n + 1 < c_W C →
  e_leaf e = LeafEntry (cparent c) (cindex c + if w then 1 else 0) →
  sqo this (Some (tloc (plug c b))) n (length c + 1) -∗
  tr 1 (Some (cparent c)) (Some (cindex c)) b -∗ tr 1 q j ch -∗
  ctxp 1 c (tloc b) (tsize b + tsize ch - 1) -∗ chain na ls -∗
  (∀ t' ht' lf, ⌜wfroot ht' t' ∧
      at_leaf t' (if w then ch else b) (csl c ++ if w then tsegs b else [])
              ((if w then [] else tsegs ch) ++ csr c) lf ∧
      nblk t' = (cblk c + nblk b + nblk ch + needed c)%nat⌝ →
     sqo this (Some (tloc t')) (n + 1) ht' -∗ tr ht' (Some None) (Some 0) t' -∗ Q (set_lf e lf)) -∗
  wp (insert_single_leaf this e (Some (tloc b)) (cparent c) (cindex c + 1) (head ls)
        (Some (tloc ch)) (tsize ch)) Q E.
Proof.
  iIntros (Hls Hwc Hwb Hwch Hn HW He) "Hs Hb Hch Hc Hls HQ".
  pose proof (ok_W _ OK) as HW'. pose proof base_bounds as HB.
  pose proof (wft_tsize _ _ Hwb). pose proof (wft_tsize _ _ Hwch).
  destruct c as [|[[l L] R] c].
  { cbn [cparent]. rewrite leaf_none. simpl in Hls, Hn.
    destruct ls as [|a [|]]; simplify_eq/=. iDestruct "Hls" as "[Ha _]".
    rewrite Nat.add_0_r in HW |- *.
    iApply (wp_g_new_root with "Hs Ha Hb Hch"); [done|lia|lia|lia|].
    iIntros "Hs Ht".
    wp_bind. iApply (wp_set_height with "Hs"). iIntros "Hs".
    wp_bind. iApply (wp_get_size with "Hs"). iIntros "Hs".
    wp_bind. iApply (wp_set_size with "Hs"). iIntros "Hs".
    rewrite !wadd_small; [|lia..]. wp_ret. rewrite He /=.
    iApply ("HQ" $! (Nd a [b; ch]) 2 with "[%] Hs Ht"). split_and!.
    - cbn [wfroot length]. split_and!; [lia|lia|lia|by rewrite !Forall_cons].
    - destruct w.
      + exists [(a, [b], [])]. split_and!; try done. simpl. by rewrite /fsegs /= right_id_L.
      + exists [(a, [], [ch])]. split_and!; try done. simpl. by rewrite /fsegs /= !right_id_L.
    - simpl. lia. }
  cbn [ctxp cparent cindex plug length]. iDestruct "Hc" as (junk [_ Hlen]) "(Hn & HL & HR & Hc)".
  rewrite leaf_some.
  cbn [wfc] in Hwc. destruct Hwc as (_ & HLR & Hlen2 & Hwc). apply Forall_app in HLR as [HwL HwR].
  assert (n = length (cl c) + (fsize (L ++ b :: ch :: R) - 1) + length (cr c)) as Hn'.
  { rewrite Hn fsize_app !fsize_cons /=. rewrite !app_length /fsize. lia. }
  assert (1 ≤ fsize (L ++ b :: ch :: R)).
  { rewrite fsize_app !fsize_cons. lia. }
  cbn [cparent cindex] in He.
  assert (e = set_lf e (LeafEntry (Some l) (length L + if w then 1 else 0))) as Hee.
  { destruct e. simpl in He. by subst. }
  iApply (wp_g_ins_some with "Hn HL HR Hb Hch Hls"); [done|lia|done|lia|lia|lia|lia|done|].
  iSplit.
  - iIntros ([Hnf ->]) "Ht".
    wp_bind. iApply (wp_increment_sizes _ _ _ _ _ _ _ c with "Hs Hc"); [simpl in *; lia|..].
    { rewrite Hn'. rewrite fsize_app !fsize_cons. lia. }
    { lia. }
    iIntros "Hs Hc". wp_ret.
    iEval (rewrite Hee).
    iApply ("HQ" $! (plug c (Nd l (L ++ b :: ch :: R))) (length c + 2) with "[%] [Hs] [Ht Hc]").
    + split_and!.
      * rewrite wfroot_plug. split; [done|].
        assert (wft 2 (Nd l (L ++ b :: ch :: R)) ∨ c = []) as [?| ->].
        { destruct c; [by right|]. left. cbn [wft]. rewrite !app_length /=.
          rewrite Forall_app !Forall_cons. split_and!; (done || lia). }
        { destruct c; [by apply wft_wfroot|done]. }
        cbn [wfh wfroot]. rewrite !app_length /=. rewrite Forall_app !Forall_cons. split_and!; (done || lia).
      * destruct w.
        { exists ((l, L ++ [b], R) :: c). split_and!.
          - simpl. by rewrite -assoc_L.
          - simpl. by rewrite app_length.
          - simpl. rewrite fsegs_app fsegs_cons fsegs_nil right_id_L. by rewrite assoc_L.
          - done. }
        { exists ((l, L, ch :: R) :: c). split_and!.
          - done.
          - simpl. by rewrite Nat.add_0_r.
          - simpl. by rewrite right_id_L.
          - simpl. by rewrite fsegs_cons -assoc_L. }
      * rewrite nblk_plug.
        change (nblk (Nd l (L ++ b :: ch :: R))) with (S (fblk (L ++ b :: ch :: R))).
        rewrite fblk_app !fblk_cons. simpl. rewrite (proj2 (Nat.eqb_neq _ _)); [|lia]. lia.
    + replace (length c + 2) with (S (length c + 1)) by lia.
      rewrite (tloc_plug c (Nd l (L ++ b :: ch :: R)) (Nd l (L ++ b :: R))) //.
    + rewrite tr_plug; [|lia]. iFrame "Ht". rewrite tsize_Nd.
      replace (fsize L + (tsize b + tsize ch - 1) + fsize R + 1) with (fsize (L ++ b :: ch :: R)); [done|].
      rewrite fsize_app !fsize_cons. lia.
  - iIntros (a ls' X Y (-> & Hls' & HXY & HX & HY)) "Hl Ha Hls". cbn zeta.
    assert (Forall (wft 1) X ∧ Forall (wft 1) Y) as [HwX HwY].
    { rewrite -Forall_app -HXY. rewrite Forall_app !Forall_cons. done. }
    assert (wft 2 (Nd l X)) as HwlX. { cbn [wft]. split_and!; (done || lia). }
    assert (wft 2 (Nd a Y)) as HwaY. { cbn [wft]. split_and!; (done || lia). }
    pose proof (wft_tsize _ _ HwlX) as HsX. pose proof (wft_tsize _ _ HwaY) as HsY.
    rewrite tsize_Nd in HsX, HsY.
    iEval (rewrite tr_Nd) in "Hl". iDestruct "Hl" as (junk') "(%Hj' & Hl & HX)".
    wp_bind. iApply (wp_parent_pointer with "Hl"). iIntros "Hl".
    wp_bind. iApply (wp_parent_index with "Hl"). iIntros "Hl".
    wp_bind.
    cbn [head].
    assert (tsize (Nd l X) + tsize (Nd a Y) = fsize (L ++ b :: ch :: R)) as Hsum.
    { rewrite HXY fsize_app //. }
    iApply (wp_insert_single_branch this 2 c (Nd l X) (Nd a Y) with "[Hs] [Hl HX] Ha [Hc] Hls").
    { lia. } { done. } { done. } { done. } { done. }
    { rewrite Hsum. done. } { done. }
    { rewrite (tloc_plug c (Nd l X) (Nd l (L ++ b :: R))) //.
      replace (length c + 2) with (S (length c + 1)) by lia. done. }
    { rewrite tr_Nd. iExists junk'. iFrame. done. }
    { rewrite Hsum. replace (fsize L + (tsize b + tsize ch - 1) + fsize R) with (fsize (L ++ b :: ch :: R) - 1); [done|].
      rewrite fsize_app !fsize_cons. lia. }
    iIntros (t' ht' (Hwt & Hpl & Hblk)) "Hs Ht". wp_ret.
    rewrite He. cbn [lf_idx]. rewrite (proj1 (proj2 (proj2 HB))).
    assert (nblk t' = cblk ((l, L, R) :: c) + nblk b + nblk ch + needed ((l, L, R) :: c)) as Hblk'.
    { rewrite Hblk.
      change (nblk (Nd l X)) with (S (fblk X)). change (nblk (Nd a Y)) with (S (fblk Y)).
      assert (fblk X + fblk Y = fblk (L ++ b :: ch :: R)) as Hb by by rewrite HXY fblk_app.
      rewrite fblk_app !fblk_cons in Hb.
      cbn [cblk needed].
      apply (f_equal length) in HXY. rewrite !app_length /= in HXY.
      rewrite (proj2 (Nat.eqb_eq _ _)); [|lia]. lia. }
    set (x := if w then ch else b). set (A := L ++ if w then [b] else []).
    set (B := (if w then [] else [ch]) ++ R).
    assert (A ++ x :: B = X ++ Y) as HAB.
    { rewrite -HXY /A /x /B. destruct w; by rewrite -?assoc_L /= ?right_id_L. }
    assert (length L + (if w then 1 else 0) = length A) as HlA.
    { rewrite /A app_length. by destruct w. }
    rewrite HlA in Hee |- *.
    replace (csl ((l, L, R) :: c) ++ (if w then tsegs b else [])) with (csl c ++ fsegs A); last first.
    { rewrite /A fsegs_app /= assoc_L. destruct w; [|done]. by rewrite fsegs_cons fsegs_nil right_id_L. }
    replace ((if w then [] else tsegs ch) ++ csr ((l, L, R) :: c)) with (fsegs B ++ csr c); last first.
    { rewrite /B fsegs_app /= -assoc_L. destruct w; [done|]. by rewrite fsegs_cons fsegs_nil right_id_L. }
    clearbody A B x.
    destruct (app_cons_cut _ _ _ _ _ HAB) as [(Hlt & X2 & -> & HB2)|(Hge & Y1 & HA & ->)].
    + rewrite (proj2 (Nat.leb_gt _ _)); [|lia].
      iEval (rewrite Hee).
      iApply ("HQ" with "[%] Hs Ht").
      split_and!; [done| |done].
      pose proof (at_leaf_placed c l A x X2 t' [] [Nd a Y] Hpl) as Hat.
      rewrite fsegs_nil fsegs_cons fsegs_nil /= right_id_L in Hat.
      rewrite HB2 fsegs_app -assoc_L. done.
    + rewrite (proj2 (Nat.leb_le _ _)); [|lia].
      rewrite wsub_small; [|lia|].
      2:{ rewrite HA app_length. rewrite app_length in HY. lia. }
      iApply ("HQ" with "[%] Hs Ht").
      split_and!; [done| |done].
      pose proof (at_leaf_placed c a Y1 x B t' [Nd l X] [] Hpl) as Hat.
      rewrite fsegs_nil fsegs_cons fsegs_nil /= right_id_L in Hat.
      replace (length A - base_min) with (length Y1) by (rewrite HA app_length; lia).
      rewrite HA fsegs_app. done.
Qed.

End insert.
