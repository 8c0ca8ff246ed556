(** * RefineTwo: construction, and calls on two containers.  Proof infrastructure. *)
From Verif Require Export RefineMod.
From stdpp Require Import options.
Set Default Proof Using "Type*".

Section two.
Context {T : Type} {C : cfg T} {OK : cfg_ok C} {FZ : frozen T}.
Implicit Types σ : sst T.
Implicit Types ρ : env.
Implicit Types o : option (tree T).
Implicit Types τ : gmap nat (option (tree T) * nat).
Implicit Types s : arg T.

(** ** two containers *)
Lemma rep_take2 ρ τ x y o a l o2 b l2 :
  x ≠ y → τ !! x = Some (o, a) → e_cont ρ !! x = Some l → τ !! y = Some (o2, b) → e_cont ρ !! y = Some l2 →
  rep ρ τ ⊣⊢ seqp a a l o ∗ seqp b b l2 o2 ∗ rep ρ (delete y (delete x τ)).
Proof.
  intros Hne Hx Hl Hy Hl2. rewrite (rep_take _ _ _ _ _ _ Hx Hl).
  rewrite (rep_take _ (delete x τ) y o2 b l2) //. by rewrite lookup_delete_ne.
Qed.
Lemma rep_put2 ρ τ x y o a l o2 b l2 :
  x ≠ y → e_cont ρ !! x = Some l → e_cont ρ !! y = Some l2 →
  seqp a a l o -∗ seqp b b l2 o2 -∗ rep ρ (delete y (delete x τ)) -∗ rep ρ (<[y := (o2, b)]> (<[x := (o, a)]> τ)).
Proof.
  intros Hne Hl Hl2. iIntros "Hs Hs2 Hr". iApply rep_put; [done|]. iFrame "Hs2".
  rewrite delete_insert_ne //. iApply rep_put; [done|]. iFrame "Hs". rewrite delete_commute. iFrame.
Qed.
Lemma seqp_ne ea na l o eb nb l2 o2 : seqp ea na l o -∗ seqp eb nb l2 o2 -∗ ⌜l ≠ l2⌝.
Proof.
  rewrite !seqp_blocks. iIntros "H1 H2". iDestruct "H1" as (r n ht) "[H1 _]". iDestruct "H2" as (r2 n2 ht2) "[H2 _]".
  by iApply (pointsto_ne with "H1 H2").
Qed.
Lemma contents_setc_ne x y ys a σ : x ≠ y → contents (setc x ys a σ) y = contents σ y.
Proof. intros. by rewrite /contents /= lookup_insert_ne. Qed.
Lemma alloc_setc_ne x y ys a σ : x ≠ y → alloc_of (setc x ys a σ) y = alloc_of σ y.
Proof. intros. by rewrite /alloc_of /= lookup_insert_ne. Qed.
Lemma abs_forget σ τ ρ x : abs σ τ ρ → abs (forget x σ) τ ρ.
Proof.
  intros [H1 H2 H3]. split; [done|done|]. intros w y p [Hw _]%map_filter_lookup_Some. by apply H3.
Qed.
Lemma unused_no_iters σ τ ρ x w p : abs σ τ ρ → unused σ x → iters σ !! w ≠ Some (x, p).
Proof.
  intros Ha Hx Hw. destruct (abs_iters _ _ _ Ha _ _ _ Hw) as (o & a & it & Ht & _).
  by rewrite (abs_fresh _ _ _ _ Ha Hx) in Ht.
Qed.
Lemma setc_setc x xs a ys b σ : setc x xs a (setc x ys b σ) = setc x xs a σ.
Proof. by rewrite /setc /= insert_insert. Qed.
Lemma live_ne σ x y : unused σ x → live σ y → x ≠ y.
Proof. intros H [? H'] ->. rewrite /unused in H. by rewrite H in H'. Qed.
Lemma write_same σ y ys a : conts σ !! y = Some (ys, a) → write y ys σ = σ.
Proof.
  intros H. rewrite /write /setc /alloc_of H /=. destruct σ as [cs its]. simpl in *. by rewrite insert_id.
Qed.
(** the container is only read *)
Lemma abs_same σ τ ρ x o a o' :
  abs σ τ ρ → τ !! x = Some (o, a) → oshape o' = oshape o → oelems o' = oelems o → abs σ (<[x := (o', a)]> τ) ρ.
Proof.
  intros Ha Hx Hsh He. rewrite -(write_same σ x (oelems o) a).
  - by eapply abs_write.
  - by rewrite (abs_conts _ _ _ Ha) cells_lookup Hx.
Qed.
(** ** construction *)
Lemma good_New σ ρ x a : good σ ρ (New x a).
Proof.
  intros Hx. simpl in Hx. iIntros "HR". iDestruct "HR" as (τ Ha) "Hr". cbn [exec_call]. wp_bind.
  iApply wp_ctor_alloc. iIntros (l) "Hs". done_fold.
  iApply post_intro; [by split|by eapply (abs_new _ _ _ _ l None)|].
  iApply rep_new; [by eapply abs_fresh|]. iFrame.
Qed.
Lemma good_NewCount σ ρ x n s a : good σ ρ (NewCount x n s a).
Proof.
  intros (Hx & Hfit & Hco & [v Hv] & Hth%can_throw_null). iIntros "HR". iDestruct "HR" as (τ Ha) "Hr".
  edestruct (gets_const σ τ τ) as (vs & Hg & Hsrc); [done..|].
  cbn [exec_call]. rewrite Hg. vars. wp_bind. iApply (wp_ctor_count with "Hr"); [done..|]. iSplit.
  - iIntros (l o He) "Hs Hr". done_fold.
    iApply post_intro; [exists v; split; [done|by left]|eapply (abs_new _ _ _ _ l o); done|].
    iApply rep_new; [by eapply abs_fresh|]. iFrame.
  - iIntros (e Hr) "Hr". iApply (post_intro with "Hr"); [|exact Ha]. exists v. split; [done|]. right. split; [by exists e|done].
Qed.
Lemma good_NewRange σ ρ x r a : good σ ρ (NewRange x r a).
Proof.
  intros (Hx & (xs & Hv & Hfit) & Hth%can_throw_null). iIntros "HR". iDestruct "HR" as (τ Ha) "Hr".
  pose proof (abs_fresh _ _ _ _ Ha Hx) as Htx.
  assert (rng_outside σ r x) as Hout. { destruct r; [done|]. intros p. by eapply unused_no_iters. }
  destruct (getr_ok _ _ _ _ _ _ Ha Hv Hout) as (inp & I & J & X & Hg & Hspec & Hfuel & HI & HX).
  cbn [exec_call]. rewrite Hg. vars. wp_bind. rewrite (delete_notin τ x Htx) in HI.
  iDestruct (HI with "Hr") as "HI". iDestruct (Hfuel with "HI") as %Hf. rewrite Nat.sub_0_r in Hf.
  iApply (wp_ctor_range with "HI"); [done..|]. iSplit.
  - iIntros (l o He) "Hs HX". done_fold. iDestruct (HX with "HX") as (τ' [Ha' Htx']) "Hr". rewrite Htx in Htx'.
    rewrite delete_notin //.
    iApply post_intro; [exists xs; split; [done|by left]|eapply (abs_new _ _ _ _ l o); [done| |done]|].
    + rewrite /unused (abs_conts _ _ _ Ha') cells_lookup Htx' //.
    + iApply rep_new; [done|]. iFrame.
  - iIntros (e j [Hr Hj]) "HX". iDestruct (HX with "HX") as (τ' [Ha' Htx']) "Hr". rewrite Htx in Htx'. rewrite delete_notin //.
    iApply (post_intro with "Hr"); [|exact Ha']. exists xs. split; [done|]. right. by exists e, j.
Qed.
Lemma new_second σ τ ρ x y l o a o2 b l2 ys2 :
  abs σ τ ρ → unused σ x → τ !! y = Some (o2, b) → e_cont ρ !! y = Some l2 → 
  seqp a a l o -∗ seqp b b l2 ys2 -∗ rep ρ (delete y τ) -∗
  rep (bindc x l ρ) (<[x := (o, a)]> (<[y := (ys2, b)]> τ)).
Proof.
  intros Ha Hx Hy Hl2. pose proof (abs_fresh _ _ _ _ Ha Hx) as Htx. iIntros "Hs Hs2 Hr".
  iApply rep_new. { rewrite lookup_insert_ne //. intros ->. by rewrite Htx in Hy. }
  iFrame "Hs". iApply rep_put; [done|]. iFrame.
Qed.
Lemma good_NewCopyAlloc σ ρ x y a : good σ ρ (NewCopyAlloc x y a).
Proof.
  intros (Hx & Hy & Hth%can_throw_null). iIntros "HR". iDestruct "HR" as (τ Ha) "Hr". open_live Ha Hy o2 b l2.
  cbn [exec_call]. vars. wp_bind. take_ Ht Hl. iApply (wp_ctor_copy_alloc with "Hs"); [done|]. iSplit.
  - iIntros (l o o2' (He & Hsh & He2)) "Hs Hs2". done_fold.
    iApply post_intro; [by left|eapply (abs_new _ _ _ _ l o)|by iApply (new_second with "Hs Hs2 Hr")];
      [by eapply abs_same|done|by rewrite Hc].
  - iIntros (e o2' (Hr & Hsh & He2)) "Hs". iApply post_intro; [|by eapply abs_same|iApply rep_put; [done|iFrame]].
    right. split; [by exists e|done].
Qed.
Lemma good_NewCopy σ ρ x y : good σ ρ (NewCopy x y).
Proof.
  intros (Hx & Hy & Hth%can_throw_null). iIntros "HR". iDestruct "HR" as (τ Ha) "Hr". open_live Ha Hy o2 b l2.
  cbn [exec_call]. vars. wp_bind. take_ Ht Hl. iApply (wp_ctor_copy with "Hs"); [done|]. iSplit.
  - iIntros (l o o2' (He & Hsh & He2)) "Hs Hs2". done_fold.
    iApply post_intro; [by left|eapply (abs_new _ _ _ _ l o)|rewrite Hal; by iApply (new_second with "Hs Hs2 Hr")];
      [by eapply abs_same|done|by rewrite Hc].
  - iIntros (e o2' (Hr & Hsh & He2)) "Hs". iApply post_intro; [|by eapply abs_same|iApply rep_put; [done|iFrame]].
    right. split; [by exists e|done].
Qed.
Lemma abs_steal_new σ τ ρ x y l o a b ys :
  abs σ τ ρ → unused σ x → τ !! y = Some (o, b) → x ≠ y → ys = oelems o →
  abs (retarget y x (write y [] (setc x ys a σ))) (<[y := (None, b)]> (<[x := (o, a)]> τ)) (bindc x l ρ).
Proof.
  intros Ha Hx Hy Hne ->.
  pose proof (abs_new _ _ _ x l None a [] Ha Hx eq_refl) as Ha'.
  eapply (abs_retarget _ _ _ x y o a b) in Ha'; [|intros w p; simpl; by eapply unused_no_iters|by rewrite lookup_insert|
    by rewrite lookup_insert_ne|done|done].
  by rewrite setc_setc insert_insert in Ha'.
Qed.
Lemma rep_steal_new σ τ ρ x y l o a b l2 :
  abs σ τ ρ → unused σ x → τ !! y = Some (o, b) → e_cont ρ !! y = Some l2 → x ≠ y →
  seqp a a l o -∗ seqp b b l2 None -∗ rep ρ (delete y τ) -∗
  rep (bindc x l ρ) (<[y := (None, b)]> (<[x := (o, a)]> τ)).
Proof.
  intros Ha Hx Hy Hl2 Hne. iIntros "Hs Hs2 Hr". rewrite insert_commute //. by iApply (new_second with "Hs Hs2 Hr").
Qed.
Lemma good_NewMove σ ρ x y : good σ ρ (NewMove x y).
Proof.
  intros (Hx & Hy). pose proof (live_ne _ _ _ Hx Hy) as Hne. iIntros "HR". iDestruct "HR" as (τ Ha) "Hr". open_live Ha Hy o2 b l2.
  cbn [exec_call]. vars. wp_bind. take_ Ht Hl. iApply (wp_ctor_move with "Hs"). iIntros (l) "Hs Hs2". done_fold.
  iApply post_intro; [by split|rewrite Hal; by eapply (abs_steal_new _ _ _ _ _ l)|by iApply (rep_steal_new with "Hs Hs2 Hr")].
Qed.
Lemma moved_used p k (ys : list T) : moved C p k ys = used true p k ys.
Proof. done. Qed.
Lemma moved_all (ys : list T) : moved C 0 (length ys) ys = c_residue C <$> ys.
Proof. rewrite /moved take_0 drop_0 firstn_all drop_all app_nil_r //. Qed.
Lemma good_NewMoveAlloc σ ρ x y a : good σ ρ (NewMoveAlloc x y a).
Proof.
  intros (Hx & Hy & Hth%can_throw_null). pose proof (live_ne _ _ _ Hx Hy) as Hne.
  iIntros "HR". iDestruct "HR" as (τ Ha) "Hr". open_live Ha Hy o2 b l2.
  cbn [exec_call]. vars. wp_bind. take_ Ht Hl. iApply (wp_ctor_move_alloc with "Hs"); [done|]. iSplit; [|iSplit].
  - iIntros (->) "%l Hs Hs2". done_fold. iApply post_intro.
    + simpl. rewrite Hal Nat.eqb_refl. by split.
    + by eapply (abs_steal_new _ _ _ _ _ l).
    + by iApply (rep_steal_new with "Hs Hs2 Hr").
  - iIntros (l o o2' (Hab & He & Hsh & He2)) "Hs Hs2". done_fold.
    iApply post_intro; [|eapply (abs_new _ _ _ _ l o)|by iApply (new_second with "Hs Hs2 Hr")].
    + simpl. rewrite Hal. apply Nat.eqb_neq in Hab as ->. by left.
    + eapply abs_write; [done..|]. by rewrite Hc He2 moved_all.
    + rewrite /unused /write /= lookup_insert_ne //.
    + by rewrite Hc.
  - iIntros (e o2' j (Hab & Hr & Hj & Hsh & He2)) "Hs". iApply post_intro; [|eapply abs_write; [done..|]|iApply rep_put; [done|iFrame]].
    + simpl. rewrite Hal. apply Nat.eqb_neq in Hab as ->. right. exists e, j. split_and!; [done..| |done]. by rewrite Hc.
    + by rewrite Hc He2.
Qed.
(** ** assignment *)
Ltac take2 Hne Ht Hl Ht0 Hl0 :=
  iEval (rewrite (rep_take2 _ _ _ _ _ _ _ _ _ _ Hne Ht Hl Ht0 Hl0)) in "Hr"; iDestruct "Hr" as "(Hs & Hs2 & Hr)".
(** x is replaced, y is only read or moved from *)
Lemma abs_two σ τ ρ x y o a o' a' o2 b o2' zs ys :
  abs σ τ ρ → x ≠ y → τ !! x = Some (o, a) → τ !! y = Some (o2, b) → oshape o2' = oshape o2 →
  zs = oelems o2' → ys = oelems o' →
  abs (forget x (setc x ys a' (write y zs σ))) (<[y := (o2', b)]> (<[x := (o', a')]> τ)) ρ.
Proof.
  intros Ha Hne Hx Hy Hsh -> ->. rewrite insert_commute //. eapply abs_replace; [by eapply abs_write| |done].
  by rewrite lookup_insert_ne // Hx.
Qed.
Lemma abs_two_same σ τ ρ x y o a o' a' o2 b o2' ys :
  abs σ τ ρ → x ≠ y → τ !! x = Some (o, a) → τ !! y = Some (o2, b) → oshape o2' = oshape o2 →
  oelems o2' = oelems o2 → ys = oelems o' →
  abs (forget x (setc x ys a' σ)) (<[y := (o2', b)]> (<[x := (o', a')]> τ)) ρ.
Proof.
  intros Ha Hne Hx Hy Hsh He2 ->. rewrite insert_commute //. eapply abs_replace; [by eapply abs_same| |done].
  by rewrite lookup_insert_ne // Hx.
Qed.
Lemma good_AssignCopy σ ρ x y : good σ ρ (AssignCopy x y).
Proof.
  intros (Hx & Hy & Hp). iIntros "HR". iDestruct "HR" as (τ Ha) "Hr". open_live Ha Hx o a l.
  cbn [exec_call]. destruct (decide (x = y)) as [->|Hne].
  - vars. wp_bind. iApply wp_op_copy_assign_self. done_fold.
    iApply (post_intro with "Hr"); [|exact Ha]. simpl. by rewrite Nat.eqb_refl.
  - open_live Ha Hy o2 b l2. vars. wp_bind. take2 Hne Ht Hl Ht0 Hl0.
    iDestruct (seqp_ne with "Hs Hs2") as %Hll.
    iApply (wp_op_copy_assign with "Hs Hs2"); [|done|].
    { intros H1 H2. eapply (can_purge_may _ (contents σ x)); [|done]. apply Hp; congruence. }
    iSplit.
    + iIntros (o' o2' (He & Hsh & He2)) "Hs Hs2". done_fold.
      iApply post_intro; [| |iApply (rep_put2 _ _ x y with "Hs Hs2 Hr"); done].
      * simpl. apply Nat.eqb_neq in Hne as ->. by left.
      * rewrite Hal Hal0 Hc0. eapply abs_two_same; done.
    + iIntros (e o' o2' j (Hr & Hj & He & Hsh & He2)) "Hs Hs2".
      iApply post_intro; [| |iApply (rep_put2 _ _ x y with "Hs Hs2 Hr"); done].
      * simpl. apply Nat.eqb_neq in Hne as ->. right. exists e, j. split_and!; [done..|by rewrite Hc0|done].
      * rewrite Hal Hal0 Hc0 Hc. eapply abs_two_same; done.
Qed.
Lemma good_AssignMove σ ρ x y : good σ ρ (AssignMove x y).
Proof.
  intros (Hx & Hy & Hp). iIntros "HR". iDestruct "HR" as (τ Ha) "Hr". open_live Ha Hx o a l.
  cbn [exec_call]. destruct (decide (x = y)) as [->|Hne].
  - vars. wp_bind. take_ Ht Hl. iApply (wp_op_move_assign_self with "Hs").
    { eapply (can_purge_may _ (contents σ y)); [|done]. apply Hp. rewrite /takes_over Nat.eqb_refl orb_true_r //. }
    iIntros "Hs". done_fold. iApply post_intro; [|by eapply (abs_modify _ _ _ _ _ _ None)|iApply rep_put; [done|iFrame]].
    simpl. by rewrite Nat.eqb_refl.
  - open_live Ha Hy o2 b l2. vars. wp_bind. take2 Hne Ht Hl Ht0 Hl0.
    iApply (wp_op_move_assign with "Hs Hs2").
    { intros H1. eapply (can_purge_may _ (contents σ x)); [|done]. apply Hp. by rewrite /takes_over Hal Hal0. }
    pose proof Hne as Hne'. apply Nat.eqb_neq in Hne'. iSplit; [|iSplit].
    + iIntros (Hst) "Hs Hs2". done_fold.
      iApply post_intro; [| |iApply (rep_put2 _ _ x y with "Hs Hs2 Hr"); done].
      * simpl. rewrite Hne' /takes_over Hal Hal0. unfold steals in Hst. rewrite Hst. done.
      * rewrite Hc0. change (forget x (setc x ?ys ?a σ)) with (setc x ys a (forget x σ)).
        eapply abs_retarget; [by apply abs_forget|intros; apply forget_no_iters|by rewrite Ht|done..].
    + iIntros (o' o2' (Hst & He & Hsh & He2)) "Hs Hs2". done_fold.
      iApply post_intro; [| |iApply (rep_put2 _ _ x y with "Hs Hs2 Hr"); done].
      * simpl. rewrite Hne' /takes_over Hal Hal0. unfold steals in Hst. rewrite Hst. by left.
      * rewrite /modify {1}/write.
        replace (alloc_of (write y _ σ) x) with a by (by rewrite /write alloc_setc_ne).
        eapply abs_two; [done..|by rewrite Hc0 moved_all|by rewrite Hc0].
    + iIntros (e o' o2' j j' (Hst & Hr & Hj & Hj' & He & Hsh & He2)) "Hs Hs2".
      iApply post_intro; [| |iApply (rep_put2 _ _ x y with "Hs Hs2 Hr"); done].
      * simpl. rewrite Hne' /takes_over Hal Hal0. unfold steals in Hst. rewrite Hst. right. exists e, j, j'.
        split_and!; [done..|by rewrite Hc0|lia|lia|done].
      * rewrite /modify {1}/write.
        replace (alloc_of (write y _ σ) x) with a by (by rewrite /write alloc_setc_ne).
        eapply abs_two; [done..|by rewrite Hc0|by rewrite Hc0 Hc].
Qed.
Lemma good_Swap σ ρ x y : good σ ρ (Swap x y).
Proof.
  intros (Hx & Hy & Hp). iIntros "HR". iDestruct "HR" as (τ Ha) "Hr". open_live Ha Hx o a l.
  cbn [exec_call]. destruct (decide (x = y)) as [->|Hne].
  - vars. wp_bind. take_ Ht Hl. iApply (wp_swap_self with "Hs"). iIntros "Hs". done_fold.
    iApply post_intro; [by split| |].
    + rewrite Hc Hal. eapply abs_exchange; done.
    + rewrite insert_insert. iApply rep_put; [done|iFrame].
  - open_live Ha Hy o2 b l2. vars. wp_bind. take2 Hne Ht Hl Ht0 Hl0.
    iApply (wp_swap with "Hs Hs2"); [by rewrite -Hal -Hal0|]. iIntros "Hs Hs2". done_fold.
    iApply post_intro; [by split| |iApply (rep_put2 _ _ x y with "Hs Hs2 Hr"); done].
    rewrite Hc Hal Hc0 Hal0. eapply abs_exchange; done.
Qed.
(** ** splice and merge *)
Lemma abs_modify2 σ τ ρ x y o a o' o2 b o2' zs ys :
  abs σ τ ρ → x ≠ y → τ !! x = Some (o, a) → τ !! y = Some (o2, b) →
  zs = oelems o2' → ys = oelems o' →
  abs (modify y zs (modify x ys σ)) (<[y := (o2', b)]> (<[x := (o', a)]> τ)) ρ.
Proof.
  intros Ha Hne Hx Hy -> ->. eapply abs_modify; [by eapply abs_modify|by rewrite lookup_insert_ne|done].
Qed.
Lemma abs_write2 σ τ ρ x y o a o' o2 b o2' zs ys :
  abs σ τ ρ → x ≠ y → τ !! x = Some (o, a) → τ !! y = Some (o2, b) → oshape o2' = oshape o2 →
  zs = oelems o2' → ys = oelems o' →
  abs (write y zs (modify x ys σ)) (<[y := (o2', b)]> (<[x := (o', a)]> τ)) ρ.
Proof.
  intros Ha Hne Hx Hy Hsh -> ->. eapply abs_write; [by eapply abs_modify|by rewrite lookup_insert_ne|done|done].
Qed.
Lemma good_SpliceAll σ ρ x w y : good σ ρ (SpliceAll x w y).
Proof.
  intros (p & Hw & Hy & Hne & Hpu & Hfit). iIntros "HR". iDestruct "HR" as (τ Ha) "Hr". open_at Ha Hw o a l it.
  open_live Ha Hy o2 b l2. cbn [exec_call]. vars. wp_bind. take2 Hne Ht Hl Ht0 Hl0. rewrite /fits Hc Hc0 in Hfit.
  iApply (wp_splice_all with "Hs Hs2"); [by eapply can_purge_may|done|done|]. iSplit.
  - iIntros (o' He) "Hs Hs2". done_fold.
    iApply post_intro; [exists p; split; [done|by left]|eapply (abs_modify2 _ _ _ _ _ _ _ _ _ _ None); [done..|]|iApply (rep_put2 _ _ x y with "Hs Hs2 Hr"); done].
    by rewrite He Hp Hc Hc0.
  - iIntros (e o' o2' j j' (Hr & Hj & Hj' & He & Hsh & He2)) "Hs Hs2".
    iApply post_intro; [exists p; split; [done|right; exists e, j, j'; split_and!; first [done|lia|by rewrite Hc0]]|
      eapply abs_write2; [done..| |]|iApply (rep_put2 _ _ x y with "Hs Hs2 Hr"); done].
    + by rewrite He2 Hc0.
    + by rewrite He Hp Hc Hc0.
Qed.
Lemma good_SpliceOne σ ρ x w y w1 : good σ ρ (SpliceOne x w y w1).
Proof.
  intros (p & q & Hw & Hw1 & Hq & Hne & Hfit). iIntros "HR". iDestruct "HR" as (τ Ha) "Hr". open_at Ha Hw o a l it.
  open_at Ha Hw1 o2 b l2 it2. cbn [exec_call]. vars. wp_bind. take2 Hne Ht Hl Ht0 Hl0. rewrite /fits Hc in Hfit.
  destruct (lookup_lt_is_Some_2 _ _ Hq) as [v Hv].
  iApply (wp_splice_one with "Hs Hs2"); [done|done|by rewrite Hp0 -Hc0|done|]. iSplit.
  - iIntros (o' o2' (He & He2)) "Hs Hs2". done_fold.
    iApply post_intro; [exists p, q, v; split_and!; [done|done|done|by left]|eapply abs_modify2; [done..| |]|iApply (rep_put2 _ _ x y with "Hs Hs2 Hr"); done].
    + by rewrite He2 Hc0 Hp0.
    + by rewrite He Hp Hc.
  - iIntros (e Hr) "Hs Hs2".
    iApply post_intro; [exists p, q, v; split_and!; [done|done|done|right; split; [by exists e|done]]|exact Ha|].
    rewrite (rep_take2 _ _ _ _ _ _ _ _ _ _ Hne Ht Hl Ht0 Hl0). iFrame.
Qed.
Lemma good_SpliceRange σ ρ x w y w1 w2 : good σ ρ (SpliceRange x w y w1 w2).
Proof.
  intros (p & q1 & q2 & Hw & Hw1 & Hw2 & Hq & Hne & Hfit). iIntros "HR". iDestruct "HR" as (τ Ha) "Hr". open_at Ha Hw o a l it.
  open_at Ha Hw1 o2 b l2 it1.
  destruct (abs_at _ _ _ _ _ _ Ha Hw2) as (o3 & a3 & l3 & it2 & Ht2 & _ & _ & _ & Hit2 & Hok2 & Hp2 & _).
  rewrite Ht0 in Ht2. injection Ht2 as <- <-.
  cbn [exec_call]. vars. wp_bind. take2 Hne Ht Hl Ht0 Hl0. rewrite /fits Hc in Hfit.
  iApply (wp_splice_range with "Hs Hs2"); [done|done|done|by rewrite Hp0 Hp2|by rewrite Hp0 Hp2|]. rewrite Hp Hp0 Hp2. iSplit.
  - iIntros (o' o2' (He & He2)) "Hs Hs2". done_fold.
    iApply post_intro; [exists p, q1, q2; split_and!; [done|done|done|by left]|eapply abs_modify2; [done..| |]|iApply (rep_put2 _ _ x y with "Hs Hs2 Hr"); done].
    + by rewrite He2 Hc0.
    + by rewrite He Hc Hc0.
  - iIntros (e o' o2' j j' (Hr & Hj & Hj' & He & Hsh & He2)) "Hs Hs2".
    iApply post_intro; [exists p, q1, q2; split_and!; [done|done|done|right; exists e, j, j'; split_and!; first [done|lia]]|
      eapply abs_write2; [done..| |]|iApply (rep_put2 _ _ x y with "Hs Hs2 Hr"); done].
    + by rewrite He2 Hc0.
    + rewrite He Hc Hc0 /put_at /ins_at /slice /sub take_take. do 3 f_equal. lia.
Qed.
Lemma good_MergeIn σ ρ x y lt : good σ ρ (MergeIn x y lt).
Proof.
  intros (Hx & Hy & Hne & Hfit). iIntros "HR". iDestruct "HR" as (τ Ha) "Hr". open_live Ha Hx o a l.
  open_live Ha Hy o2 b l2. cbn [exec_call]. vars. wp_bind. take2 Hne Ht Hl Ht0 Hl0. rewrite /fits Hc Hc0 in Hfit.
  iApply (wp_merge with "Hs Hs2"); [done|]. iSplit.
  - iIntros (o' He) "Hs Hs2". done_fold.
    iApply post_intro; [by left|eapply (abs_modify2 _ _ _ _ _ _ _ _ _ _ None); [done..|]|iApply (rep_put2 _ _ x y with "Hs Hs2 Hr"); done].
    by rewrite He Hc Hc0.
  - iSplit.
    { iIntros (o' (Hpf & Hn1 & Hn2 & He)) "Hs Hs2". rewrite -Hc -Hc0 in He. rewrite -Hc in Hn1. rewrite -Hc0 in Hn2.
      iApply post_intro; [right; right; split_and!; [done|done|done|by eexists]|by eapply (abs_modify2 _ _ _ _ _ _ _ _ _ _ None)|iApply (rep_put2 _ _ x y with "Hs Hs2 Hr"); done]. }
    iIntros (e o' o2' j j' (Hr & Hj & Hj' & He & Hsh & He2)) "Hs Hs2".
    iApply post_intro; [right; left; exists e, j, j'; split_and!; first [done|lia|by rewrite Hc0]|
      eapply abs_write2; [done..| |]|iApply (rep_put2 _ _ x y with "Hs Hs2 Hr"); done].
    + by rewrite He2 Hc0.
    + by rewrite He Hc Hc0.
Qed.
(** ** comparison *)
Lemma rep_readable ρ τ x o a l : τ !! x = Some (o, a) → e_cont ρ !! x = Some l → readable (rep ρ τ) a a l o.
Proof.
  intros Ht Hl. rewrite /readable. iIntros "Hr". take_ Ht Hl. iFrame "Hs". iIntros "Hs". back_ Ht Hl.
Qed.
Lemma good_CmpEq σ ρ x y eq : good σ ρ (CmpEq x y eq).
Proof.
  intros (Hx & Hy). iIntros "HR". iDestruct "HR" as (τ Ha) "Hr". open_live Ha Hx o a l.
  open_live Ha Hy o2 b l2. cbn [exec_call]. vars. wp_bind.
  iApply (wp_op_eq (rep ρ τ) a a l o b b l2 o2 with "Hr"); [by apply rep_readable with x|by apply rep_readable with y|]. iSplit.
  - iIntros "Hr". wp_ret. iApply (post_intro with "Hr"); [|exact Ha]. simpl. rewrite Hc Hc0. split; [by left|done].
  - iIntros (Hpf) "Hr". destruct Hpf as (? & ? & ?). iApply (post_intro with "Hr"); [|exact Ha]. simpl. rewrite Hc Hc0. split; [right|done]. by split_and!.
Qed.
Lemma good_CmpLt σ ρ x y lt : good σ ρ (CmpLt x y lt).
Proof.
  intros (Hx & Hy). iIntros "HR". iDestruct "HR" as (τ Ha) "Hr". open_live Ha Hx o a l.
  open_live Ha Hy o2 b l2. cbn [exec_call]. vars. wp_bind.
  iApply (wp_op_lt (rep ρ τ) a a l o b b l2 o2 with "Hr"); [by apply rep_readable with x|by apply rep_readable with y|]. iSplit.
  - iIntros "Hr". wp_ret. iApply (post_intro with "Hr"); [|exact Ha]. simpl. rewrite Hc Hc0. split; [by left|done].
  - iIntros (Hpf) "Hr". destruct Hpf as (? & ? & ?). iApply (post_intro with "Hr"); [|exact Ha]. simpl. rewrite Hc Hc0. split; [right|done]. by split_and!.
Qed.
Lemma good_CmpNe σ ρ x y f : good σ ρ (CmpNe x y f).
Proof.
  intros (Hx & Hy). iIntros "HR". iDestruct "HR" as (τ Ha) "Hr". open_live Ha Hx o a l.
  open_live Ha Hy o2 b l2. cbn [exec_call]. vars. rewrite /op_ne. wp_bind. wp_bind. iApply (wp_op_eq (rep ρ τ) a a l o b b l2 o2 with "Hr"); [by apply rep_readable with x|by apply rep_readable with y|]. iSplit.
  - iIntros "Hr". wp_ret. wp_ret. iApply (post_intro with "Hr"); [|exact Ha]. simpl. rewrite Hc Hc0. split; [by left|done].
  - iIntros (Hpf) "Hr". destruct Hpf as (? & ? & ?). iApply (post_intro with "Hr"); [|exact Ha]. simpl. rewrite Hc Hc0. split; [right|done]. by split_and!.
Qed.
Lemma good_CmpLe σ ρ x y f : good σ ρ (CmpLe x y f).
Proof.
  intros (Hx & Hy). iIntros "HR". iDestruct "HR" as (τ Ha) "Hr". open_live Ha Hx o a l.
  open_live Ha Hy o2 b l2. cbn [exec_call]. vars. rewrite /op_le. wp_bind. wp_bind. iApply (wp_op_lt (rep ρ τ) b b l2 o2 a a l o with "Hr"); [by apply rep_readable with y|by apply rep_readable with x|]. iSplit.
  - iIntros "Hr". wp_ret. wp_ret. iApply (post_intro with "Hr"); [|exact Ha]. simpl. rewrite Hc Hc0. split; [by left|done].
  - iIntros (Hpf) "Hr". destruct Hpf as (? & ? & ?). iApply (post_intro with "Hr"); [|exact Ha]. simpl. rewrite Hc Hc0. split; [right|done]. by split_and!.
Qed.
Lemma good_CmpGt σ ρ x y f : good σ ρ (CmpGt x y f).
Proof.
  intros (Hx & Hy). iIntros "HR". iDestruct "HR" as (τ Ha) "Hr". open_live Ha Hx o a l.
  open_live Ha Hy o2 b l2. cbn [exec_call]. vars. rewrite /op_gt. wp_bind. iApply (wp_op_lt (rep ρ τ) b b l2 o2 a a l o with "Hr"); [by apply rep_readable with y|by apply rep_readable with x|]. iSplit.
  - iIntros "Hr". wp_ret. iApply (post_intro with "Hr"); [|exact Ha]. simpl. rewrite Hc Hc0. split; [by left|done].
  - iIntros (Hpf) "Hr". destruct Hpf as (? & ? & ?). iApply (post_intro with "Hr"); [|exact Ha]. simpl. rewrite Hc Hc0. split; [right|done]. by split_and!.
Qed.
Lemma good_CmpGe σ ρ x y f : good σ ρ (CmpGe x y f).
Proof.
  intros (Hx & Hy). iIntros "HR". iDestruct "HR" as (τ Ha) "Hr". open_live Ha Hx o a l.
  open_live Ha Hy o2 b l2. cbn [exec_call]. vars. rewrite /op_ge. wp_bind. wp_bind. iApply (wp_op_lt (rep ρ τ) a a l o b b l2 o2 with "Hr"); [by apply rep_readable with x|by apply rep_readable with y|]. iSplit.
  - iIntros "Hr". wp_ret. wp_ret. iApply (post_intro with "Hr"); [|exact Ha]. simpl. rewrite Hc Hc0. split; [by left|done].
  - iIntros (Hpf) "Hr". destruct Hpf as (? & ? & ?). iApply (post_intro with "Hr"); [|exact Ha]. simpl. rewrite Hc Hc0. split; [right|done]. by split_and!.
Qed.
End two.
