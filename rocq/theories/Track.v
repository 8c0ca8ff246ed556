(** * Track: which trees of blocks a call keeps.  Proof infrastructure.

    Spec.v says which iterators stay valid; here: whole trees, index nodes
    included, for failed insertions, swaps and moves. *)
From Verif Require Export Probe.
From stdpp Require Import options.
Set Default Proof Using "Type*".

Section track.
Context {T : Type} {C : cfg T} {OK : cfg_ok C}.
Implicit Types σ : sst T.
Implicit Types ρ : env.
Implicit Types st : state T.
Implicit Types c : cmd T.
Implicit Types o : option (tree T).
Implicit Types τ : gmap nat (option (tree T) * nat).
Notation reachable := (reachable C).
Notation exec := (exec (C:=C)).
Notation same_trees := (RefineMod.same_shape (T:=T)).

Lemma tnodes_shape (t : tree T) : tnodes t = tnodes (SeqIter.shape t).
Proof.
  induction t as [l xs|l ts IH] using tree_ind'; [done|]. cbn [tnodes SeqIter.shape]. f_equal.
  rewrite -list_fmap_compose. f_equal. apply list_fmap_ext. intros i u Hu. rewrite Forall_forall in IH. by eapply IH, elem_of_list_lookup_2.
Qed.
Lemma tsegs_shape (t : tree T) : layout (tsegs t) = layout (tsegs (SeqIter.shape t)).
Proof.
  induction t as [l xs|l ts IH] using tree_ind'; [by rewrite /layout /= fmap_length|]. cbn [tsegs SeqIter.shape].
  assert (∀ A B (f : A → B) (L : list (list A)), f <$> concat L = concat ((λ l : list A, f <$> l) <$> L)) as Hc.
  { intros A B f L. induction L as [|x L IHL]; csimpl; [done|]. by rewrite fmap_app IHL. }
  rewrite /layout !Hc -!list_fmap_compose. f_equal. apply list_fmap_ext. intros i u Hu. rewrite Forall_forall in IH. by eapply IH, elem_of_list_lookup_2.
Qed.
Lemma oshape_nodes o o' : oshape o' = oshape o → onodes o' = onodes o.
Proof. destruct o, o'; simpl; intros [=]; [|done]. rewrite tnodes_shape [in RHS]tnodes_shape. congruence. Qed.
Lemma oshape_segs o o' : oshape o' = oshape o → layout (osegs o') = layout (osegs o).
Proof. destruct o, o'; simpl; intros [=]; [|done]. rewrite tsegs_shape [in RHS]tsegs_shape. congruence. Qed.

Lemma track_ok ρ τ c (Q : out T * env → hprop T) (E : exn → hprop T) st u ρ' st' :
  rep (C:=C) ρ τ (st_heap st) → (rep ρ τ ⊢ wp (exec_call c ρ) Q E) → exec c ρ st = Ok (u, ρ') st' →
  Q (u, ρ') (st_heap st') ∨ ∃ e, u = OExn e ∧ ρ' = ρ ∧ E e (st_heap st').
Proof.
  intros Hrep Hwp He. pose proof (hprop_in_entails _ _ Hwp _ Hrep) as H. rewrite wp_holds in H.
  destruct st as [h n k]. specialize (H ∅ n k (map_disjoint_empty_r _) (map_empty_subseteq ∅)). simpl in H. rewrite right_id_L in H.
  rewrite /Exec.exec /try_catch in He. destruct (exec_call c ρ (State h n k)) as [[u1 ρ1] st1|e st1|f]; [| |done].
  - injection He as <- <- <-. destruct H as (h' & _ & -> & _ & H). rewrite right_id_L. by left.
  - unfold mret, M_ret in He. injection He as <- <- <-. destruct H as (h' & _ & -> & _ & H). rewrite right_id_L. right. eauto.
Qed.
Definition kept τ ρ (K : gmap nat (option (tree T) * nat) → Prop) : hprop T := (∃ τ', ⟦K τ'⟧ ∗ rep (C:=C) ρ τ')%I.
Lemma kept_holds τ ρ K m : kept τ ρ K m → ∃ τ', K τ' ∧ rep ρ τ' m.
Proof.
  intros (τ' & H)%exist_holds. apply sep_holds in H as (m1 & m2 & -> & _ & [HK ->]%apure_holds & H).
  rewrite left_id_L. by exists τ'.
Qed.

(** ** a failed insertion keeps every tree *)
Lemma insert_throw σ ρ τ c :
  match c with InsertOne _ _ _ _ | PushBack _ _ | PushFront _ _ => True | _ => False end →
  pre C σ c → abs σ τ ρ →
  rep ρ τ ⊢ wp (exec_call c ρ) (λ r, ⌜∀ e, r.1 ≠ OExn e⌝) (λ e, kept τ ρ (same_trees τ)).
Proof.
  intros Hc Hpre Ha. destruct c; try done; iIntros "Hr".
  - destruct Hpre as (p & Hw & [v Hv] & Hfit). open_at Ha Hw o a l it.
    destruct (gets_any_shape _ _ _ _ _ Ha Hv) as (vs & Hg & Hsrc).
    cbn [exec_call]. rewrite Hg. vars. wp_bind. rewrite /insert_.
    iApply (wp_insert_step with "Hr"); [done..|]. iSplit.
    + iIntros (σ' τ' o' a' it' _) "Hr". done_fold. by iPureIntro.
    + iIntros (e σ' τ' (_ & _ & Hs)) "Hr". iExists τ'. by iFrame.
  - destruct Hpre as (Hx & [v Hv] & Hfit). open_live Ha Hx o a l.
    destruct (gets_any_shape _ _ _ _ _ Ha Hv) as (vs & Hg & Hsrc).
    cbn [exec_call]. rewrite Hg. vars. wp_bind. rewrite /push_back. wp_bind. take_ Ht Hl.
    iApply (wp_find_end with "Hs"). iIntros (it [Hok Hp]) "Hs". iAssert (rep ρ τ) with "[Hs Hr]" as "Hr"; [back_ Ht Hl|].
    wp_bind. iApply (wp_insert_step with "Hr"); [done..|]. iSplit.
    + iIntros (σ' τ' o' a' it' _) "Hr". wp_ret. done_fold. by iPureIntro.
    + iIntros (e σ' τ' (_ & _ & Hs)) "Hr". iExists τ'. by iFrame.
  - destruct Hpre as (Hx & [v Hv] & Hfit). open_live Ha Hx o a l.
    destruct (gets_any_shape _ _ _ _ _ Ha Hv) as (vs & Hg & Hsrc).
    cbn [exec_call]. rewrite Hg. vars. wp_bind. rewrite /push_front. wp_bind. take_ Ht Hl.
    iApply (wp_find_first with "Hs"). iIntros (it [Hok Hp]) "Hs". iAssert (rep ρ τ) with "[Hs Hr]" as "Hr"; [back_ Ht Hl|].
    wp_bind. iApply (wp_insert_step with "Hr"); [done..|]. iSplit.
    + iIntros (σ' τ' o' a' it' _) "Hr". wp_ret. done_fold. by iPureIntro.
    + iIntros (e σ' τ' (_ & _ & Hs)) "Hr". iExists τ'. by iFrame.
Qed.

(** ** moves and swaps keep the trees *)
Definition now τ (x y : nat) p q (τ' : gmap nat (option (tree T) * nat)) : Prop :=
  τ' !! x = Some p ∧ τ' !! y = Some q ∧ ∀ z, z ≠ x → z ≠ y → τ' !! z = τ !! z.
Lemma track_NewMove σ ρ τ x y o b :
  pre C σ (NewMove x y) → abs σ τ ρ → τ !! y = Some (o, b) →
  rep ρ τ ⊢ wp (exec_call (NewMove x y) ρ)
    (λ r, kept τ r.2 (now τ x y (o, b) (None, b))) (λ e, False).
Proof.
  intros (Hx & Hy) Ha Hτ. pose proof (live_ne _ _ _ Hx Hy) as Hne. iIntros "Hr". open_live Ha Hy o2 b2 l2.
  rewrite Hτ in Ht. injection Ht as <- <-.
  cbn [exec_call]. vars. wp_bind. take_ Hτ Hl. iApply (wp_ctor_move with "Hs"). iIntros (l) "Hs Hs2". done_fold.
  iExists (<[y := (None, b)]> (<[x := (o, b)]> τ)). iSplitR; [|by iApply (rep_steal_new with "Hs Hs2 Hr")].
  iPureIntro. split_and!; [by rewrite lookup_insert_ne // lookup_insert|by rewrite lookup_insert|].
  intros z Hzx Hzy. by rewrite !lookup_insert_ne.
Qed.
Lemma track_NewMoveAlloc σ ρ τ x y o b :
  pre C σ (NewMoveAlloc x y b) → abs σ τ ρ → τ !! y = Some (o, b) →
  rep ρ τ ⊢ wp (exec_call (NewMoveAlloc x y b) ρ)
    (λ r, kept τ r.2 (now τ x y (o, b) (None, b))) (λ e, False).
Proof.
  intros (Hx & Hy & Hth%can_throw_null) Ha Hτ. pose proof (live_ne _ _ _ Hx Hy) as Hne. iIntros "Hr". open_live Ha Hy o2 b2 l2.
  rewrite Hτ in Ht. injection Ht as <- <-.
  cbn [exec_call]. vars. wp_bind. take_ Hτ Hl. iApply (wp_ctor_move_alloc with "Hs"); [done|]. iSplit; [|iSplit].
  - iIntros (_) "%l Hs Hs2". done_fold.
    iExists (<[y := (None, b)]> (<[x := (o, b)]> τ)). iSplitR; [|by iApply (rep_steal_new with "Hs Hs2 Hr")].
    iPureIntro. split_and!; [by rewrite lookup_insert_ne // lookup_insert|by rewrite lookup_insert|].
    intros z Hzx Hzy. by rewrite !lookup_insert_ne.
  - iIntros (l o1 o2' (Hab & _)) "Hs Hs2"; done.
  - iIntros (e o2' j (Hab & _)) "Hs"; done.
Qed.
Lemma track_AssignMove σ ρ τ x y o a o2 b :
  pre C σ (AssignMove x y) → abs σ τ ρ → x ≠ y → τ !! x = Some (o, a) → τ !! y = Some (o2, b) →
  takes_over C a b = true →
  rep ρ τ ⊢ wp (exec_call (AssignMove x y) ρ)
    (λ r, kept τ r.2 (now τ x y (o2, if c_pocma C then b else a) (None, b))) (λ e, False).
Proof.
  intros (Hx & Hy & Hp) Ha Hne Ht Ht0 Hto. iIntros "Hr".
  destruct (abs_live _ _ _ _ Ha Hx) as (o' & a' & l & Ht' & Hl & Hc & Hal & _). rewrite Ht in Ht'. injection Ht' as <- <-.
  destruct (abs_live _ _ _ _ Ha Hy) as (o' & a' & l2 & Ht' & Hl0 & Hc0 & Hal0 & _). rewrite Ht0 in Ht'. injection Ht' as <- <-.
  cbn [exec_call]. vars. wp_bind.
  iEval (rewrite (rep_take2 _ _ _ _ _ _ _ _ _ _ Hne Ht Hl Ht0 Hl0)) in "Hr"; iDestruct "Hr" as "(Hs & Hs2 & Hr)".
  iApply (wp_op_move_assign with "Hs Hs2").
  { intros H1. eapply (can_purge_may _ (contents σ x)); [|done]. apply Hp. by rewrite /takes_over Hal Hal0. }
  iSplit; [|iSplit].
  - iIntros (Hst) "Hs Hs2". done_fold. iExists _. iSplitR; [|iApply (rep_put2 _ _ x y with "Hs Hs2 Hr"); done].
    iPureIntro. split_and!; [by rewrite lookup_insert_ne // lookup_insert|by rewrite lookup_insert|].
    intros z Hzx Hzy. by rewrite !lookup_insert_ne.
  - iIntros (o' o2' (Hst & _)) "Hs Hs2"; exfalso; unfold steals in Hst. unfold takes_over in Hto. congruence.
  - iIntros (e o' o2' j j' (Hst & _)) "Hs Hs2"; exfalso; unfold steals in Hst. unfold takes_over in Hto. congruence.
Qed.
Lemma track_Swap σ ρ τ x y o a o2 b :
  pre C σ (Swap x y) → abs σ τ ρ → τ !! x = Some (o, a) → τ !! y = Some (o2, b) →
  rep ρ τ ⊢ wp (exec_call (Swap x y) ρ)
    (λ r, kept τ r.2 (now τ x y (o2, b) (o, a))) (λ e, False).
Proof.
  intros (Hx & Hy & Hp) Ha Ht Ht0. iIntros "Hr".
  destruct (abs_live _ _ _ _ Ha Hx) as (o' & a' & l & Ht' & Hl & Hc & Hal & _). rewrite Ht in Ht'. injection Ht' as <- <-.
  destruct (abs_live _ _ _ _ Ha Hy) as (o' & a' & l2 & Ht' & Hl0 & Hc0 & Hal0 & _). rewrite Ht0 in Ht'. injection Ht' as <- <-.
  cbn [exec_call]. destruct (decide (x = y)) as [->|Hne].
  - rewrite Ht in Ht0. injection Ht0 as <- <-. rewrite Hl in Hl0. injection Hl0 as <-. vars. wp_bind. take_ Ht Hl. iApply (wp_swap_self with "Hs"). iIntros "Hs". done_fold.
    iExists τ. iSplitR; [done|]. back_ Ht Hl.
  - vars. wp_bind. iEval (rewrite (rep_take2 _ _ _ _ _ _ _ _ _ _ Hne Ht Hl Ht0 Hl0)) in "Hr"; iDestruct "Hr" as "(Hs & Hs2 & Hr)".
    iApply (wp_swap with "Hs Hs2"); [by rewrite -Hal -Hal0|]. iIntros "Hs Hs2". done_fold.
    iExists _. iSplitR; [|iApply (rep_put2 _ _ x y with "Hs Hs2 Hr"); done].
    iPureIntro. split_and!; [by rewrite lookup_insert_ne // lookup_insert|by rewrite lookup_insert|].
    intros z Hzx Hzy. by rewrite !lookup_insert_ne.
Qed.

(** ** copying from [y], or moving its elements one by one, keeps the tree of [y] *)
Definition still τ (y : nat) o (b : nat) (τ' : gmap nat (option (tree T) * nat)) : Prop :=
  ∃ o', τ' !! y = Some (o', b) ∧ oshape o' = oshape o.
Lemma still_intro τ y o b τ' o' : τ' !! y = Some (o', b) → oshape o' = oshape o → still τ y o b τ'.
Proof. intros. by exists o'. Qed.
Lemma track_NewCopyAlloc σ ρ τ x y a o2 b :
  pre C σ (NewCopyAlloc x y a) → abs σ τ ρ → τ !! y = Some (o2, b) →
  rep ρ τ ⊢ wp (exec_call (NewCopyAlloc x y a) ρ) (λ r, kept τ r.2 (still τ y o2 b)) (λ e, kept τ ρ (still τ y o2 b)).
Proof.
  intros (Hx & Hy & Hth%can_throw_null) Ha Hτ. pose proof (live_ne _ _ _ Hx Hy) as Hne. iIntros "Hr". open_live Ha Hy o2' b' l2.
  rewrite Hτ in Ht. injection Ht as <- <-.
  cbn [exec_call]. vars. wp_bind. take_ Hτ Hl. iApply (wp_ctor_copy_alloc with "Hs"); [done|]. iSplit.
  - iIntros (l o o2' (He & Hsh & He2)) "Hs Hs2". done_fold.
    iExists _. iSplitR; [|by iApply (new_second with "Hs Hs2 Hr")]. iPureIntro.
    apply (still_intro _ _ _ _ _ o2'); [|done]. by rewrite lookup_insert_ne // lookup_insert.
  - iIntros (e o2' (Hr & Hsh & He2)) "Hs". iExists _. iSplitR; [|iApply rep_put; [done|iFrame]].
    iPureIntro. apply (still_intro _ _ _ _ _ o2'); [|done]. by rewrite lookup_insert.
Qed.
Lemma track_NewCopy σ ρ τ x y o2 b :
  pre C σ (NewCopy x y) → abs σ τ ρ → τ !! y = Some (o2, b) →
  rep ρ τ ⊢ wp (exec_call (NewCopy x y) ρ) (λ r, kept τ r.2 (still τ y o2 b)) (λ e, kept τ ρ (still τ y o2 b)).
Proof.
  intros (Hx & Hy & Hth%can_throw_null) Ha Hτ. pose proof (live_ne _ _ _ Hx Hy) as Hne. iIntros "Hr". open_live Ha Hy o2' b' l2.
  rewrite Hτ in Ht. injection Ht as <- <-.
  cbn [exec_call]. vars. wp_bind. take_ Hτ Hl. iApply (wp_ctor_copy with "Hs"); [done|]. iSplit.
  - iIntros (l o o2' (He & Hsh & He2)) "Hs Hs2". done_fold.
    iExists _. iSplitR; [|by iApply (new_second with "Hs Hs2 Hr")]. iPureIntro.
    apply (still_intro _ _ _ _ _ o2'); [|done]. by rewrite lookup_insert_ne // lookup_insert.
  - iIntros (e o2' (Hr & Hsh & He2)) "Hs". iExists _. iSplitR; [|iApply rep_put; [done|iFrame]].
    iPureIntro. apply (still_intro _ _ _ _ _ o2'); [|done]. by rewrite lookup_insert.
Qed.
Lemma track_NewMoveAlloc_each σ ρ τ x y a o2 b :
  pre C σ (NewMoveAlloc x y a) → abs σ τ ρ → τ !! y = Some (o2, b) → a ≠ b →
  rep ρ τ ⊢ wp (exec_call (NewMoveAlloc x y a) ρ) (λ r, kept τ r.2 (still τ y o2 b)) (λ e, kept τ ρ (still τ y o2 b)).
Proof.
  intros (Hx & Hy & Hth%can_throw_null) Ha Hτ Hab. pose proof (live_ne _ _ _ Hx Hy) as Hne. iIntros "Hr". open_live Ha Hy o2' b' l2.
  rewrite Hτ in Ht. injection Ht as <- <-.
  cbn [exec_call]. vars. wp_bind. take_ Hτ Hl. iApply (wp_ctor_move_alloc with "Hs"); [done|]. iSplit; [|iSplit].
  - iIntros (->); done.
  - iIntros (l o o2' (_ & He & Hsh & He2)) "Hs Hs2". done_fold.
    iExists _. iSplitR; [|by iApply (new_second with "Hs Hs2 Hr")]. iPureIntro.
    apply (still_intro _ _ _ _ _ o2'); [|done]. by rewrite lookup_insert_ne // lookup_insert.
  - iIntros (e o2' j (_ & Hr & Hj & Hsh & He2)) "Hs". iExists _. iSplitR; [|iApply rep_put; [done|iFrame]].
    iPureIntro. apply (still_intro _ _ _ _ _ o2'); [|done]. by rewrite lookup_insert.
Qed.
Lemma track_AssignCopy σ ρ τ x y o2 b :
  pre C σ (AssignCopy x y) → abs σ τ ρ → τ !! y = Some (o2, b) → x ≠ y →
  rep ρ τ ⊢ wp (exec_call (AssignCopy x y) ρ) (λ r, kept τ r.2 (still τ y o2 b)) (λ e, kept τ ρ (still τ y o2 b)).
Proof.
  intros (Hx & Hy & Hp) Ha Hτ Hne. iIntros "Hr". open_live Ha Hx o a l. cbn [exec_call].
    destruct (abs_live _ _ _ _ Ha Hy) as (o' & a' & l2 & Ht' & Hl0 & Hc0 & Hal0 & _). rewrite Hτ in Ht'. injection Ht' as <- <-.
    vars. wp_bind. iEval (rewrite (rep_take2 _ _ _ _ _ _ _ _ _ _ Hne Ht Hl Hτ Hl0)) in "Hr"; iDestruct "Hr" as "(Hs & Hs2 & Hr)".
    iDestruct (seqp_ne with "Hs Hs2") as %Hll.
    iApply (wp_op_copy_assign with "Hs Hs2"); [|done|].
    { intros H1 H2. eapply (can_purge_may _ (contents σ x)); [|done]. apply Hp; congruence. }
    iSplit.
    - iIntros (o' o2' (He & Hsh & He2)) "Hs Hs2". done_fold. iExists _. iSplitR; [|iApply (rep_put2 _ _ x y with "Hs Hs2 Hr"); done].
      iPureIntro. apply (still_intro _ _ _ _ _ o2'); [|done]. by rewrite lookup_insert.
    - iIntros (e o' o2' j (Hr & Hj & He & Hsh & He2)) "Hs Hs2". iExists _. iSplitR; [|iApply (rep_put2 _ _ x y with "Hs Hs2 Hr"); done].
      iPureIntro. apply (still_intro _ _ _ _ _ o2'); [|done]. by rewrite lookup_insert.
Qed.
Lemma track_AssignCopy_self σ ρ τ x :
  pre C σ (AssignCopy x x) → abs σ τ ρ →
  rep ρ τ ⊢ wp (exec_call (AssignCopy x x) ρ) (λ r, kept τ r.2 (eq τ)) (λ e, False).
Proof.
  intros (Hx & Hy & Hp) Ha. iIntros "Hr". open_live Ha Hx o a l. cbn [exec_call].
  vars. wp_bind. iApply wp_op_copy_assign_self. done_fold. iExists τ. by iFrame.
Qed.
Lemma track_AssignMove_each σ ρ τ x y o a o2 b :
  pre C σ (AssignMove x y) → abs σ τ ρ → x ≠ y → τ !! x = Some (o, a) → τ !! y = Some (o2, b) →
  takes_over C a b = false →
  rep ρ τ ⊢ wp (exec_call (AssignMove x y) ρ) (λ r, kept τ r.2 (still τ y o2 b)) (λ e, kept τ ρ (still τ y o2 b)).
Proof.
  intros (Hx & Hy & Hp) Ha Hne Ht Ht0 Hto. iIntros "Hr".
  destruct (abs_live _ _ _ _ Ha Hx) as (o' & a' & l & Ht' & Hl & Hc & Hal & _). rewrite Ht in Ht'. injection Ht' as <- <-.
  destruct (abs_live _ _ _ _ Ha Hy) as (o' & a' & l2 & Ht' & Hl0 & Hc0 & Hal0 & _). rewrite Ht0 in Ht'. injection Ht' as <- <-.
  cbn [exec_call]. vars. wp_bind.
  iEval (rewrite (rep_take2 _ _ _ _ _ _ _ _ _ _ Hne Ht Hl Ht0 Hl0)) in "Hr"; iDestruct "Hr" as "(Hs & Hs2 & Hr)".
  iApply (wp_op_move_assign with "Hs Hs2").
  { intros H1. exfalso. unfold steals in H1. unfold takes_over in Hto. congruence. }
  iSplit; [|iSplit].
  - iIntros (Hst); exfalso. unfold steals in Hst. unfold takes_over in Hto. congruence.
  - iIntros (o' o2' (Hst & He & Hsh & He2)) "Hs Hs2". done_fold. iExists _. iSplitR; [|iApply (rep_put2 _ _ x y with "Hs Hs2 Hr"); done].
    iPureIntro. apply (still_intro _ _ _ _ _ o2'); [|done]. by rewrite lookup_insert.
  - iIntros (e o' o2' j j' (Hst & Hr & Hj & Hj' & He & Hsh & He2)) "Hs Hs2". iExists _. iSplitR; [|iApply (rep_put2 _ _ x y with "Hs Hs2 Hr"); done].
    iPureIntro. apply (still_intro _ _ _ _ _ o2'); [|done]. by rewrite lookup_insert.
Qed.

(** ** what that means for the memory *)
Lemma rep_has ρ τ st x xs a :
  rep (C:=C) ρ τ (st_heap st) → container_at st ρ x = Some (xs, a) → (∀ x, is_Some (τ !! x) ↔ is_Some (e_cont ρ !! x)) →
  ∃ o l, τ !! x = Some (o, a) ∧ oelems o = xs ∧ e_cont ρ !! x = Some l ∧ lives (C:=C) (st_heap st) a l o.
Proof.
  intros Hrep Hc Hdom. pose proof Hc as Hc'. rewrite /container_at /seq_at in Hc'.
  destruct (e_cont ρ !! x) as [l|] eqn:Hl; [|done]. clear Hc'.
  destruct (proj2 (Hdom x) ltac:(eauto)) as [[o a'] Ho].
  destruct (rep_lives _ _ _ _ _ _ Hrep Ho) as (l' & Hl' & Hlv). rewrite Hl in Hl'. injection Hl' as <-.
  pose proof (lives_container _ _ _ _ _ _ Hl Hlv) as Hc'. rewrite Hc in Hc'. injection Hc' as -> ->. eauto 10.
Qed.
(** trees of the same shape: same index nodes, segments in the same places *)
Lemma trees_memory ρ τ st x o a ρ' τ' st' y o' a' :
  rep (C:=C) ρ τ (st_heap st) → rep (C:=C) ρ' τ' (st_heap st') →
  τ !! x = Some (o, a) → τ' !! y = Some (o', a') → oshape o' = oshape o →
  index_nodes st' ρ' y = index_nodes st ρ x ∧
  ∃ ss ss', segments st ρ x = Some ss ∧ segments st' ρ' y = Some ss' ∧ layout ss' = layout ss ∧ (o' = o → ss' = ss).
Proof.
  intros H1 H2 Hx Hy Hs. destruct (rep_lives _ _ _ _ _ _ H1 Hx) as (l & Hl & Ho).
  destruct (rep_lives _ _ _ _ _ _ H2 Hy) as (l' & Hl' & Ho').
  rewrite (lives_nodes _ _ _ _ _ _ Hl Ho) (lives_nodes _ _ _ _ _ _ Hl' Ho'). split; [by apply oshape_nodes|].
  exists (osegs o), (osegs o'). split_and!; [by eapply lives_segments|by eapply lives_segments|by apply oshape_segs|by intros ->].
Qed.
Lemma trees_iter ρ τ st x o a ρ' τ' st' y o' a' w p :
  reached C ρ st → reached C ρ' st' →
  rep (C:=C) ρ τ (st_heap st) → rep (C:=C) ρ' τ' (st_heap st') →
  τ !! x = Some (o, a) → τ' !! y = Some (o', a') → oshape o' = oshape o →
  e_iter ρ' !! w = e_iter ρ !! w → iterator_at C st ρ w x p → iterator_at C st' ρ' w y p.
Proof.
  intros Hr Hr' H1 H2 Hx Hy Hs Hw Hit. destruct (rep_lives _ _ _ _ _ _ H1 Hx) as (l & Hl & Ho).
  destruct (rep_lives _ _ _ _ _ _ H2 Hy) as (l' & Hl' & Ho').
  destruct (iterator_elim _ _ _ _ _ Hr Hit) as (o1 & a1 & l1 & it & Hl1 & Ho1 & Hi & Hok & <- & _).
  rewrite Hl in Hl1. injection Hl1 as <-. destruct (lives_det _ _ _ _ _ _ Ho Ho1) as [<- <-].
  eapply iterator_intro; [done|done|done|by rewrite Hw|by eapply it_ok_shape].
Qed.
End track.
