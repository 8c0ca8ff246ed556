(** * EraseLoop: erase_single_branch and erase_single_leaf (lines 1909-2100).
    Proof infrastructure. *)
From Verif Require Export Erase.
From stdpp Require Import options.
Set Default Proof Using "Type*".

Ltac fs := repeat (rewrite fsegs_app || rewrite fsegs_cons || rewrite fsegs_nil || rewrite tsegs_Nd); cbn [tsegs]; lnorm; done.
Ltac fe := repeat (rewrite felems_app || rewrite felems_cons || rewrite felems_nil || rewrite elems_Nd); cbn [elems]; lnorm; done.

Global Hint Rewrite @fsize_app @fsize_cons @fsize_nil @tsize_Nd : fsz.
Ltac fsz := autorewrite with fsz in *; try lia.

Section erase.
Context {T : Type} {C : cfg T} {OK : cfg_ok C} {FZ : frozen T}.
Context (ea na : nat).
Implicit Types t : tree T.
Implicit Types c : ctx T.
Notation tr := (tr ea na).
Notation kidst := (kidst ea na).
Notation ctxp := (ctxp ea na).
Notation segp := (segp ea).
Notation sqo := (sqo ea na).
Notation holed := (holed ea na).
Notation over := (over ea na).

Lemma holed_szge h c p L R : holed h c p L R ⊢ szge (length c).
Proof.
  iIntros "H". iDestruct "H" as (d junk Hj) "(Hn & HL & HR & Hc)".
  iApply (ctxp_szge with "Hc").
Qed.

Lemma wp_over_dec h c x this r n ht Q E :
  n = length (cl c) + (tsize x + 1) + length (cr c) → n < c_W C → 1 ≤ h → length c ≤ ht →
  sqo this r n ht -∗ over h c x -∗
  (sqo this r (n - 1) ht -∗ tr (length c + h) (Some None) (Some 0) (plug c x) -∗ Q ()) -∗
  wp (decrement_sizes this (cparent c) (cindex c)) Q E.
Proof.
  iIntros (Hn HW Hh Hf) "Hs [Hx Hc] HQ".
  iApply (wp_decrement_sizes with "Hs Hc"); [done|done|lia|done|].
  iIntros "Hs Hc". iApply ("HQ" with "Hs"). rewrite tr_plug //. iFrame "Hx".
  by rewrite Nat.add_sub.
Qed.

Lemma placed_node c l X : placed c X (plug c (Nd l X)).
Proof.
  pose proof (placed_open c [] l X [] _ (placed_plug c _)) as Hp.
  by rewrite /= right_id_L in Hp.
Qed.
Lemma nblk_Nd l ts : nblk (T:=T) (Nd l ts) = S (fblk ts).
Proof. done. Qed.

Lemma cl_len l L R c : length (cl ((l, L, R) :: c)) = length (cl c) + fsize L.
Proof. cbn [cl]. by rewrite app_length. Qed.
Lemma cr_len l L R c : length (cr ((l, L, R) :: c)) = fsize R + length (cr c).
Proof. cbn [cr]. by rewrite app_length. Qed.

Lemma placed_sub c A cs B t' c2 :
  placed c (A ++ cs ++ B) t' → csl c2 = csl c ++ fsegs A → csr c2 = fsegs B ++ csr c → placed c2 cs t'.
Proof.
  intros H Hl Hr X x Y ->. destruct (H (A ++ X) x (Y ++ B)) as (c' & -> & Hl' & Hr').
  { by rewrite -!assoc_L. }
  exists c'. rewrite Hl' Hr' Hl Hr !fsegs_app. by rewrite -!assoc_L.
Qed.
Lemma placed_node_sub c l A p X B A' B' cs :
  X = A' ++ cs ++ B' → ∀ c2, csl c2 = csl c ++ fsegs A ++ fsegs A' →
  csr c2 = fsegs B' ++ fsegs B ++ csr c → 
  placed c2 cs (plug c (Nd l (A ++ Nd p X :: B))).
Proof.
  intros -> c2 Hl Hr.
  apply (placed_sub c (A ++ A') _ (B' ++ B)).
  - replace ((A ++ A') ++ cs ++ B' ++ B) with (A ++ (A' ++ cs ++ B') ++ B) by (by rewrite -!assoc_L).
    apply (placed_open c A p). apply placed_node.
  - by rewrite fsegs_app.
  - by rewrite fsegs_app -!assoc_L.
Qed.

Lemma wp_erase_single_branch_loop this h c p L R n ht r fuel idx Q E :
  2 ≤ h → idx = length L → length c < fuel → wfhole h c L R →
  n = length (cl c) + (fsize L + fsize R + 1) + length (cr c) → n < c_W C →
  r = Some (tloc (plug c (Nd p (L ++ R)))) → ht = length c + S h →
  sqo this r n ht -∗ holed h c p L R -∗
  (∀ t' ht', ⌜wfroot ht' t' ∧ placed c (L ++ R) t' ∧ nblk t' ≤ (cblk c + S (fblk L + fblk R))%nat⌝ →
     sqo this (Some (tloc t')) (n - 1) ht' -∗ tr ht' (Some None) (Some 0) t' -∗ Q ()) -∗
  wp (erase_single_branch_loop fuel this (Some p) idx) Q E.
Proof.
  iIntros (Hh Hidx Hf Hwf Hn HW -> ->) "Hs H HQ".
  pose proof (ok_W _ OK) as HW'. pose proof base_bounds as HB.
  iInduction fuel as [|fuel] "IH" forall (h c p L R idx Hh Hidx Hf Hwf Hn); [lia|].
  rewrite erase_branch_loop_g.
  pose proof Hwf as (Hwc & HwL & HwR & Hlen).
  iApply (wp_g_erase with "Hs H"); [done|done|done|done|done|].
  iSplit; [|iSplit; [|iSplit; [|iSplit; [|iSplit]]]].
  - (* root *)
    iIntros (y q j (-> & Hy)) "Hs Hy". simpl in Hn. rewrite Nat.add_0_r in Hn.
    assert (wft h y) as Hwy.
    { apply Forall_singleton. rewrite -Hy Forall_app. done. }
    assert (fsize L + fsize R = tsize y) as Hsy.
    { rewrite -fsize_app Hy fsize_cons fsize_nil. lia. }
    pose proof (wft_height_le _ _ Hwy).
    wp_bind. iApply (wp_set_parent_pointer_tr with "Hy"); [done|]. iIntros "Hy".
    wp_bind. iApply (wp_set_parent_index_tr with "Hy"); [done|lia|]. iIntros "Hy".
    wp_bind. iApply (wp_get_size with "Hs"). iIntros "Hs".
    wp_bind. iApply (wp_set_size with "Hs"). iIntros "Hs".
    wp_bind. iApply (wp_get_height with "Hs"). iIntros "Hs".
    iApply (wp_set_height with "Hs"). iIntros "Hs".
    simpl length. rewrite !wsub_small; [|lia..].
    replace (0 + S h - 1) with h by lia.
    iApply ("HQ" $! y h with "[%] Hs Hy"). split_and!.
    + by apply wft_wfroot.
    + rewrite Hy. apply (placed_plug []).
    + simpl. assert (fblk (L ++ R) = nblk y) as Hb by (rewrite Hy fblk_cons; unfold fblk; simpl; lia).
      rewrite fblk_app in Hb. lia.
  - (* simple *)
    iIntros (Hwx) "Hs H".
    iApply (wp_over_dec with "Hs H"); [rewrite tsize_Nd fsize_app; lia|done|lia|lia|].
    iIntros "Hs Ht". iApply ("HQ" with "[%] Hs Ht"). split_and!.
    + by rewrite wfroot_plug.
    + apply placed_node.
    + rewrite nblk_plug nblk_Nd fblk_app. lia.
  - (* rotate prev *)
    iIntros (pp PL prev Z z PR c' (-> & Hwx)) "Hs H".
    cbn [wfc] in Hwc. destruct Hwc as (_ & _ & _ & Hwc).
    iApply (wp_over_dec with "Hs H").
    { rewrite tsize_Nd. rewrite cl_len cr_len in Hn.
      clear Hwx. fsz. }
    { done. } { lia. } { simpl in *; lia. }
    iIntros "Hs Ht". cbn [length].
    iApply ("HQ" with "[%] [Hs] Ht"); last first.
    { cbn [plug]. rewrite (tloc_plug c' _ (Nd pp (PL ++ Nd prev Z :: Nd p (z :: L ++ R) :: PR))) //.
      by replace (S (length c') + S h) with (length c' + S (S h)) by lia. }
    split_and!.
    + rewrite wfroot_plug. done.
    + rewrite (snoc_app PL (Nd p (z :: L ++ R) :: PR)). apply (placed_node_sub _ _ _ _ _ _ [z] []).
      * by rewrite /= app_nil_r.
      * cbn [csl]. fs.
      * done.
    + rewrite nblk_plug nblk_Nd. cbn [cblk]. rewrite !fblk_app !fblk_cons !nblk_Nd !fblk_app !fblk_cons.
      rewrite fblk_app /fblk /=. lia.
  - (* merge prev *)
    iIntros (pp PL prev Z PR c' (-> & Hwx)) "Hs H".
    cbn [length] in Hf.
    iApply ("IH" with "[%] [%] [%] [%] [%] [Hs] H").
    { lia. } { len. } { lia. } { done. }
    { rewrite cl_len cr_len in Hn.
      clear Hwx. fsz. }
    { cbn [plug length]. rewrite (tloc_plug c' _ (Nd pp ((PL ++ [Nd prev (Z ++ L ++ R)]) ++ PR))) //.
      by replace (S (length c') + S h) with (length c' + S (S h)) by lia. }
    iIntros (t' ht' (Hw' & Hp' & Hb')) "Hs Ht". iApply ("HQ" with "[%] Hs Ht"). split_and!.
    + done.
    + apply (placed_sub c' (PL ++ Z) _ PR).
      * replace ((PL ++ Z) ++ (L ++ R) ++ PR) with (PL ++ (Z ++ L ++ R) ++ PR) by (by rewrite -!assoc_L).
        apply (placed_open c' PL prev). by rewrite -assoc_L in Hp'.
      * cbn [csl]. fs.
      * done.
    + rewrite !fblk_app !fblk_cons !nblk_Nd !fblk_app in Hb'. cbn [cblk]. rewrite !fblk_app !fblk_cons !nblk_Nd.
      unfold fblk in *. simpl in *. lia.
  - (* rotate next *)
    iIntros (pp next Z z PR c' (-> & Hwx)) "Hs H".
    cbn [wfc] in Hwc. destruct Hwc as (_ & _ & _ & Hwc).
    iApply (wp_over_dec with "Hs H").
    { rewrite tsize_Nd. rewrite cl_len cr_len in Hn.
      clear Hwx. fsz. }
    { done. } { lia. } { simpl in *; lia. }
    iIntros "Hs Ht". cbn [length].
    iApply ("HQ" with "[%] [Hs] Ht"); last first.
    { cbn [plug]. rewrite (tloc_plug c' _ (Nd pp (Nd p (L ++ R ++ [z]) :: Nd next Z :: PR))) //.
      by replace (S (length c') + S h) with (length c' + S (S h)) by lia. }
    split_and!.
    + rewrite wfroot_plug. done.
    + apply (placed_node_sub _ _ [] _ _ _ [] [z]).
      * by rewrite -assoc_L.
      * done.
      * cbn [csr]. fs.
    + rewrite nblk_plug nblk_Nd. cbn [cblk]. rewrite !fblk_cons !nblk_Nd !fblk_app !fblk_cons.
      unfold fblk. simpl. lia.
  - (* merge next *)
    iIntros (pp next Z PR c' (-> & Hwx)) "Hs H".
    cbn [length] in Hf.
    iApply ("IH" with "[%] [%] [%] [%] [%] [Hs] H").
    { lia. } { len. } { lia. } { done. }
    { rewrite cl_len cr_len in Hn.
      clear Hwx. fsz. }
    { cbn [plug length]. rewrite (tloc_plug c' _ (Nd pp ([Nd p (L ++ R ++ Z)] ++ PR))) //.
      by replace (S (length c') + S h) with (length c' + S (S h)) by lia. }
    iIntros (t' ht' (Hw' & Hp' & Hb')) "Hs Ht". iApply ("HQ" with "[%] Hs Ht"). split_and!.
    + done.
    + apply (placed_sub c' [] _ (Z ++ PR)).
      * replace ([] ++ (L ++ R) ++ Z ++ PR) with ([] ++ (L ++ R ++ Z) ++ PR) by (by rewrite -!assoc_L).
        apply (placed_open c' [] p). done.
      * done.
      * cbn [csr]. fs.
    + rewrite !fblk_cons !nblk_Nd !fblk_app in Hb'. cbn [cblk]. rewrite !fblk_cons !nblk_Nd.
      unfold fblk in *. simpl in *. lia.
Qed.

Lemma wp_erase_single_branch this h c p L R n ht r idx Q E :
  2 ≤ h → wfhole h c L R → idx = length L →
  n = length (cl c) + (fsize L + fsize R + 1) + length (cr c) → n < c_W C →
  r = Some (tloc (plug c (Nd p (L ++ R)))) → ht = length c + S h →
  sqo this r n ht -∗ holed h c p L R -∗
  (∀ t' ht', ⌜wfroot ht' t' ∧ placed c (L ++ R) t' ∧ nblk t' ≤ (cblk c + S (fblk L + fblk R))%nat⌝ →
     sqo this (Some (tloc t')) (n - 1) ht' -∗ tr ht' (Some None) (Some 0) t' -∗ Q ()) -∗
  wp (erase_single_branch this (Some p) idx) Q E.
Proof.
  iIntros (Hh Hwf -> Hn HW Hr Hht) "Hs H HQ". rewrite /erase_single_branch.
  wp_bind. iApply (wp_height_fuel with "Hs"). iIntros "Hs".
  iApply (wp_erase_single_branch_loop with "Hs H HQ"); [done|done|lia|done..].
Qed.

(** ** erase_single_leaf: the child after the tracked segment [x] disappears *)
Lemma wp_erase_single_leaf this c p L x R n ht r idx Q E :
  wfhole 1 c (L ++ [x]) R → idx = S (length L) →
  n = length (cl c) + (fsize L + tsize x + fsize R + 1) + length (cr c) → n < c_W C →
  r = Some (tloc (plug c (Nd p ((L ++ [x]) ++ R)))) → ht = length c + 2 →
  sqo this r n ht -∗ holed 1 c p (L ++ [x]) R -∗
  (∀ t' ht' lf, ⌜wfroot ht' t' ∧ at_leaf t' x (csl c ++ fsegs L) (fsegs R ++ csr c) lf ∧
       nblk t' ≤ (cblk c + S (fblk L + nblk x + fblk R))%nat⌝ →
     sqo this (Some (tloc t')) (n - 1) ht' -∗ tr ht' (Some None) (Some 0) t' -∗ Q lf) -∗
  wp (erase_single_leaf this (LeafEntry (Some p) (length L)) (Some p) idx) Q E.
Proof.
  iIntros (Hwf -> Hn HW -> ->) "Hs H HQ".
  pose proof (ok_W _ OK) as HW'. pose proof base_bounds as HB.
  rewrite erase_leaf_g.
  pose proof Hwf as (Hwc & HwL & HwR & Hlen).
  iApply (wp_g_erase with "Hs H"); [done|done|len| |done|].
  { rewrite fsize_app fsize_cons fsize_nil. lia. }
  assert (fblk (L ++ [x]) = fblk L + nblk x) as HbL.
  { rewrite fblk_app fblk_cons /fblk /=. lia. }
  assert (fsize (L ++ [x]) = fsize L + tsize x) as HsL.
  { rewrite fsize_app fsize_cons fsize_nil. lia. }
  iSplit; [|iSplit; [|iSplit; [|iSplit; [|iSplit]]]].
  - (* root *)
    iIntros (y q j (-> & Hy)) "Hs Hy". simpl in Hn. rewrite Nat.add_0_r in Hn.
    assert (L = [] ∧ R = [] ∧ y = x) as (-> & -> & ->).
    { destruct L as [|? []]; [|done|done]. destruct R; [|done]. by simplify_eq/=. }
    apply (proj1 (Forall_singleton _ _)) in HwL.
    wp_bind. iApply (wp_get_size with "Hs"). iIntros "Hs".
    wp_bind. iApply (wp_set_size with "Hs"). iIntros "Hs".
    wp_bind. iApply (wp_set_height with "Hs"). iIntros "Hs". wp_ret.
    rewrite !wsub_small; [|lia..].
    iApply ("HQ" $! x 1 with "[%] Hs [Hy]"); [|by iApply tr_1]. split_and!.
    + by apply wft_wfroot.
    + by exists [].
    + simpl. lia.
  - (* simple *)
    iIntros (Hwx) "Hs H". wp_bind.
    iApply (wp_over_dec with "Hs H"); [rewrite tsize_Nd fsize_app HsL; lia|done|lia|lia|].
    iIntros "Hs Ht". wp_ret. iApply ("HQ" with "[%] Hs Ht"). split_and!.
    + by rewrite wfroot_plug.
    + exists ((p, L, R) :: c). cbn [plug]. by rewrite -(assoc_L _ L [x] R).
    + rewrite nblk_plug nblk_Nd fblk_app. lia.
  - (* rotate prev *)
    iIntros (pp PL prev Z z PR c' (-> & Hwx)) "Hs H".
    cbn [wfc] in Hwc. destruct Hwc as (_ & _ & _ & Hwc). wp_bind.
    iApply (wp_over_dec with "Hs H").
    { rewrite tsize_Nd. rewrite cl_len cr_len in Hn. clear Hwx. fsz. }
    { done. } { lia. } { simpl in *; lia. }
    iIntros "Hs Ht". cbn [length]. wp_ret.
    iApply ("HQ" with "[%] [Hs] Ht"); last first.
    { cbn [plug]. rewrite (tloc_plug c' _ (Nd pp (PL ++ Nd prev Z :: Nd p (z :: (L ++ [x]) ++ R) :: PR))) //.
      by replace (S (length c') + 2) with (length c' + 3) by lia. }
    split_and!.
    + rewrite wfroot_plug. done.
    + exists ((p, z :: L, R) :: (pp, PL ++ [Nd prev Z], PR) :: c'). split_and!.
      * cbn [plug]. rewrite -!assoc_L. done.
      * cbn [cparent cindex length lf_ptr lf_idx]. by rewrite Nat.add_1_r.
      * cbn [csl]. fs.
      * done.
    + rewrite nblk_plug nblk_Nd. cbn [cblk]. rewrite fblk_app !fblk_cons !nblk_Nd fblk_cons (fblk_app (L ++ [x])) HbL.
      rewrite (fblk_app PL) fblk_cons nblk_Nd fblk_app fblk_cons /fblk /=. lia.
  - (* merge prev *)
    iIntros (pp PL prev Z PR c' (-> & Hwx)) "Hs H".
    wp_bind. iApply (wp_erase_single_branch with "Hs H"); [lia|done|len| |done| | |].
    { rewrite cl_len cr_len in Hn. clear Hwx. fsz. }
    { cbn [plug length]. rewrite (tloc_plug c' _ (Nd pp ((PL ++ [Nd prev (Z ++ (L ++ [x]) ++ R)]) ++ PR))) //. }
    { cbn [length]. lia. }
    iIntros (t' ht' (Hw' & Hp' & Hb')) "Hs Ht". wp_ret. iApply ("HQ" with "[%] Hs Ht"). split_and!.
    + done.
    + rewrite -(assoc_L _ PL) /= in Hp'.
      replace (Z ++ (L ++ [x]) ++ R) with ((Z ++ L) ++ x :: R) in Hp' by (by rewrite -!assoc_L).
      apply at_leaf_placed in Hp'. cbn [lf_idx].
      rewrite (Nat.add_comm (length L)) -app_length. cbn [csl csr].
      replace ((csl c' ++ fsegs (PL ++ [Nd prev Z])) ++ fsegs L)
        with (csl c' ++ fsegs PL ++ fsegs (Z ++ L)) by fs.
      done.
    + rewrite (fblk_app PL) fblk_cons nblk_Nd fblk_app (fblk_app (L ++ [x])) HbL in Hb'.
      cbn [cblk]. rewrite (fblk_app PL) fblk_cons nblk_Nd.
      unfold fblk in *. simpl in *. lia.
  - (* rotate next *)
    iIntros (pp next Z z PR c' (-> & Hwx)) "Hs H".
    cbn [wfc] in Hwc. destruct Hwc as (_ & _ & _ & Hwc). wp_bind.
    iApply (wp_over_dec with "Hs H").
    { rewrite tsize_Nd. rewrite cl_len cr_len in Hn. clear Hwx. fsz. }
    { done. } { lia. } { simpl in *; lia. }
    iIntros "Hs Ht". cbn [length]. wp_ret.
    iApply ("HQ" with "[%] [Hs] Ht"); last first.
    { cbn [plug]. rewrite (tloc_plug c' _ (Nd pp (Nd p ((L ++ [x]) ++ R ++ [z]) :: Nd next Z :: PR))) //.
      by replace (S (length c') + 2) with (length c' + 3) by lia. }
    split_and!.
    + rewrite wfroot_plug. done.
    + exists ((p, L, R ++ [z]) :: (pp, [], Nd next Z :: PR) :: c'). split_and!.
      * cbn [plug]. rewrite -!assoc_L. done.
      * done.
      * cbn [csl]. fs.
      * cbn [csr]. fs.
    + rewrite nblk_plug nblk_Nd. cbn [cblk]. rewrite !fblk_cons !nblk_Nd fblk_app HbL !fblk_app !fblk_cons.
      unfold fblk. simpl. lia.
  - (* merge next *)
    iIntros (pp next Z PR c' (-> & Hwx)) "Hs H".
    wp_bind. iApply (wp_erase_single_branch with "Hs H"); [lia|done|done| |done| | |].
    { rewrite cl_len cr_len in Hn. clear Hwx. fsz. }
    { cbn [plug length]. rewrite (tloc_plug c' _ (Nd pp ([Nd p ((L ++ [x]) ++ R ++ Z)] ++ PR))) //. }
    { cbn [length]. lia. }
    iIntros (t' ht' (Hw' & Hp' & Hb')) "Hs Ht". wp_ret. iApply ("HQ" with "[%] Hs Ht"). split_and!.
    + done.
    + replace ([Nd p ((L ++ [x]) ++ R ++ Z)] ++ PR) with ([] ++ Nd p (L ++ x :: R ++ Z) :: PR) in Hp'
        by (by rewrite -!assoc_L).
      apply at_leaf_placed in Hp'. cbn [csl csr].
      replace ((csl c' ++ fsegs []) ++ fsegs L) with (csl c' ++ fsegs [] ++ fsegs L) by fs.
      replace (fsegs R ++ fsegs (Nd next Z :: PR) ++ csr c') with
        (fsegs (R ++ Z) ++ fsegs PR ++ csr c') by fs.
      done.
    + rewrite !fblk_cons !nblk_Nd (fblk_app (L ++ [x])) HbL fblk_app in Hb'. cbn [cblk]. rewrite !fblk_cons !nblk_Nd.
      unfold fblk in *. simpl in *. lia.
Qed.

End erase.
