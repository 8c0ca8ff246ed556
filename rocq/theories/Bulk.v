(** * Bulk: memory accesses of the calls that handle many elements.  Proof infrastructure
    (the statements are in PropsTime.v). *)
From Verif Require Export Effort.
From stdpp Require Import options.
Set Default Proof Using "Type*".

Section bulk.
Context {T : Type} {C : cfg T} {OK : cfg_ok C}.
Implicit Types σ : sst T.
Implicit Types ρ : env.
Implicit Types st : state T.
Implicit Types o : option (tree T).
Implicit Types τ : gmap nat (option (tree T) * nat).
Implicit Types s : arg T.
Implicit Types it : iterator_data.

Hint Resolve a_emplace_single a_make_value a_assign_value a_erase_single_segment a_erase_single a_erase_range_loop a_erase_range
  a_emplace_count_loop a_emplace_count a_emplace_range_loop a_emplace_range a_input_end a_input_src a_input_next a_assign_count_loop
  a_assign_count a_assign_range_loop a_assign_range a_resize_count a_whole_range a_clear a_dtor a_ctor_alloc a_ctor_count
  a_ctor_range a_ctor_copy a_ctor_copy_alloc a_ctor_move_alloc a_move_assign a_op_copy_assign a_splice_range a_steal a_purge
  a_copy_assign_alloc
  a_remove a_remove_if a_unique a_reverse a_swap a_ctor_move a_it_assign a_alg_move a_std_iter_swap a_peek : eff.
Hint Resolve karr_coarser karr_allows eff_read_slot eff_get_root eff_get_size eff_get_height eff_get_element_allocator eff_get_node_allocator
  eff_find_index eff_find_first eff_find_last eff_find_end eff_move_next_leaf eff_move_prev_leaf eff_move_next_iterator eff_move_prev_iterator
  eff_dereference eff_move_iterator_count eff_move_prev_iterator_count eff_op_eq eff_op_lt : eff.
Ltac karr := repeat first
    [ progress intros
    | solve [auto with eff typeclass_instances]
    | apply eff_bind; [apply _| |]
    | match goal with |- Effects.eff _ (match ?x with _ => _ end) => destruct x end ].
Ltac any_go := repeat first
  [ apply any_ret | apply any_fail | apply any_deref | apply any_lookup | apply any_gets | apply any_get_size | apply any_get_root
  | apply any_get_height | apply any_set_size | apply any_set_height | apply any_assign_value | apply any_place | apply any_load_seq
  | apply any_get | apply any_set | eapply any_bind; [|intros ?] ].
Ltac tvars :=
  repeat (first
    [ match goal with H : e_cont ?ρ !! ?x = Some ?l |- context [getc ?ρ ?x] =>
        rewrite (getc_ok ρ x l H) end
    | match goal with H : e_iter ?ρ !! ?w = Some ?it |- context [geti ?ρ ?w] =>
        rewrite (geti_ok ρ w it H) end]);
  rewrite ?ret_bind.
Ltac sizes := repeat match goal with
  | H : contents ?σ ?x = oelems ?o |- context [length (contents ?σ ?x)] => rewrite H; change (length (oelems o)) with (osize o)
  end.
Ltac start2 Hne Ht Hl Ht0 Hl0 :=
  iEval (rewrite (rep_take2 _ _ _ _ _ _ _ _ _ _ Hne Ht Hl Ht0 Hl0)) in "Hr"; iDestruct "Hr" as "(Hs & Hs2 & Hr)".
(** what follows the call proper reads nothing *)
Ltac last_ := iApply (tk_tail _ 0); [intros ?; any_go|rewrite Nat.add_0_r; done|].
Ltac fin H := iApply (tk_mono with H); match goal with |- context [L ?n] => pose proof (un_L (C:=C) n) end; nia.
Notation cost m n := (200 * ((m + 1) * L (C:=C) n)).

(** ** Construction *)
Lemma effort_NewCount σ ρ x n s a : pre C σ (NewCount x n s a) → R (C:=C) σ ρ ⊢ tk (cost n n) (exec_call (NewCount x n s a) ρ).
Proof.
  intros (Hx & Hfit & Hco & [v Hv] & Hth%can_throw_null). iIntros "HR". iDestruct "HR" as (τ Ha) "Hr".
  edestruct (gets_const σ τ τ) as (vs & Hg & Hsrc); [done..|].
  cbn [exec_call]. rewrite Hg ret_bind. last_. iDestruct (tk_ctor_count with "Hr") as "H"; [done..|]. fin "H".
Qed.
Lemma effort_NewRange σ ρ x r a xs :
  pre C σ (NewRange x r a) → rng_values σ r = Some xs →
  R (C:=C) σ ρ ⊢ tk (cost (length xs) (length xs + rng_source σ r)) (exec_call (NewRange x r a) ρ).
Proof.
  intros (Hx & (xs' & Hv & Hfit) & Hth%can_throw_null) Hv'. rewrite Hv in Hv'. injection Hv' as ->.
  iIntros "HR". iDestruct "HR" as (τ Ha) "Hr".
  pose proof (abs_fresh _ _ _ _ Ha Hx) as Htx.
  assert (rng_outside σ r x) as Hout. { destruct r; [done|]. intros p. by eapply unused_no_iters. }
  destruct (getr_tk _ _ _ _ _ _ (length xs + rng_source σ r) Ha Hv Hout) as (inp & I & J & X & Hg & Hspec & Hcost & Hfuel & HI); [lia|].
  cbn [exec_call]. rewrite Hg ret_bind. rewrite (delete_notin τ x Htx) in HI. last_.
  iDestruct (HI with "Hr") as "HI". iDestruct (Hfuel with "HI") as %Hf. rewrite Nat.sub_0_r in Hf.
  iDestruct (tk_ctor_range with "HI") as "H"; [done|done|done|done| |done|]; [lia|]. fin "H".
Qed.
Lemma effort_new_copy σ ρ x y c :
  live σ y → can_throw C → match c with NewCopy u v | NewCopyAlloc u v _ | NewMoveAlloc u v _ => u = x ∧ v = y | _ => False end →
  R (C:=C) σ ρ ⊢ tk (cost (length (contents σ y)) (length (contents σ y))) (exec_call c ρ).
Proof.
  intros Hy Hth%can_throw_null Hcc. iIntros "HR". iDestruct "HR" as (τ Ha) "Hr". open_live Ha Hy o2 b l2. sizes.
  pose proof (un_L (C:=C) (osize o2)).
  destruct c; try done; destruct Hcc as [-> ->]; cbn [exec_call]; tvars; take_ Ht Hl; last_.
  - rewrite /ctor_copy. iApply (tk_pay 1); [lia|karr|]. iSplit; [by iApply tk_any_; apply any_get|].
    iApply (wp_get_ealloc_o with "Hs"). iIntros "Hs". iDestruct (tk_ctor_copy_alloc with "Hs") as "H"; [done|]. fin "H".
  - iDestruct (tk_ctor_copy_alloc with "Hs") as "H"; [done|]. fin "H".
  - iDestruct (tk_ctor_move_alloc with "Hs") as "H"; [done|]. fin "H".
Qed.
Lemma effort_NewMoveAlloc_same σ ρ x y :
  live σ y → R (C:=C) σ ρ ⊢ tk 20 (exec_call (NewMoveAlloc x y (alloc_of σ y)) ρ).
Proof.
  intros Hy. iIntros "HR". iDestruct "HR" as (τ Ha) "Hr". open_live Ha Hy o2 b l2.
  assert (alloc_of σ y = b) as -> by congruence.
  cbn [exec_call]; tvars; take_ Ht Hl; last_.
  iDestruct (tk_ctor_move_same with "Hs") as "H". iApply (tk_mono with "H"). lia.
Qed.

(** ** Insertion, removal, resize *)
Lemma effort_InsertCount σ ρ x w n s w' :
  pre C σ (InsertCount x w n s w') → R (C:=C) σ ρ ⊢ tk (cost n (length (contents σ x) + n)) (exec_call (InsertCount x w n s w') ρ).
Proof.
  intros (p & Hw & Hco & [v Hv] & Hout & Hfit). iIntros "HR". iDestruct "HR" as (τ Ha) "Hr". open_at Ha Hw o a l it.
  destruct (const_outside _ _ _ _ _ _ Ha Hco Hv Hout) as (vs & Hg & Hsrc).
  cbn [exec_call]. rewrite Hg. tvars. rewrite /insert_count. take_ Ht Hl. rewrite /fits Hc in Hfit. sizes. last_.
  iCombine "Hs Hr" as "H". iDestruct (tk_emplace_count with "H") as "H"; [done..|]. fin "H".
Qed.
Lemma effort_InsertRange σ ρ x w r w' xs :
  pre C σ (InsertRange x w r w') → rng_values σ r = Some xs →
  R (C:=C) σ ρ ⊢ tk (cost (length xs) (length (contents σ x) + length xs + rng_source σ r)) (exec_call (InsertRange x w r w') ρ).
Proof.
  intros (p & xs' & Hw & Hv & Hout & Hfit) Hv'. rewrite Hv in Hv'. injection Hv' as ->.
  iIntros "HR". iDestruct "HR" as (τ Ha) "Hr". open_at Ha Hw o a l it.
  destruct (getr_tk _ _ _ _ _ _ (length (contents σ x) + length xs + rng_source σ r) Ha Hv Hout) as (inp & I & J & X & Hg & Hspec & Hcost & Hfuel & HI); [lia|].
  cbn [exec_call]. rewrite Hg. tvars. rewrite /insert_range. take_ Ht Hl. rewrite /fits Hc in Hfit. revert Hcost. sizes. intros Hcost. last_.
  iDestruct (HI with "Hr") as "HI". iDestruct (Hfuel with "HI") as %Hf. iCombine "Hs HI" as "H".
  iDestruct (tk_emplace_range with "H") as "H"; [done|done|done|unfold osize; lia|lia|unfold osize; lia|]. rewrite Nat.sub_0_r. fin "H".
Qed.
Lemma effort_EraseRange σ ρ x w1 w2 w' p q :
  at_it σ w1 x p → at_it σ w2 x q → p ≤ q →
  R (C:=C) σ ρ ⊢ tk (cost (q - p) (length (contents σ x))) (exec_call (EraseRange x w1 w2 w') ρ).
Proof.
  intros Hw1 Hw2 Hpq. iIntros "HR". iDestruct "HR" as (τ Ha) "Hr". open_at Ha Hw1 o a l it.
  destruct (abs_at _ _ _ _ _ _ Ha Hw2) as (o3 & a3 & l3 & it2 & Ht2 & _ & _ & _ & Hit2 & Hok2 & Hp2 & _).
  rewrite Ht in Ht2. injection Ht2 as <- <-. cbn [exec_call]. tvars. take_ Ht Hl. sizes. last_. rewrite /erase_between.
  iDestruct (tk_erase_range _ _ _ it it2 (osize o) with "Hs") as "H"; [done|lia|done|]. rewrite Hp Hp2. generalize (q - p). intros m. fin "H".
Qed.
Lemma effort_Resize σ ρ x n s :
  pre C σ (Resize x n s) →
  R (C:=C) σ ρ ⊢ tk (cost ((n - length (contents σ x)) + (length (contents σ x) - n)) (length (contents σ x) + n)) (exec_call (Resize x n s) ρ).
Proof.
  intros (Hx & Hfit & Hco & [v Hv] & Hout). iIntros "HR". iDestruct "HR" as (τ Ha) "Hr". open_live Ha Hx o a l.
  destruct (const_outside _ _ _ _ _ _ Ha Hco Hv Hout) as (vs & Hg & Hsrc).
  cbn [exec_call]. rewrite Hg. tvars. take_ Ht Hl. rewrite /resize_. sizes. last_. iCombine "Hs Hr" as "H".
  iDestruct (tk_resize_count _ _ _ _ _ _ _ (osize o + n) with "H") as "H"; [done|done|lia|lia|]. generalize (n - osize o + (osize o - n)). intros m. fin "H".
Qed.

(** ** Assignment *)
Lemma effort_AssignCount σ ρ x n s :
  pre C σ (AssignCount x n s) →
  R (C:=C) σ ρ ⊢ tk (cost (length (contents σ x) + n) (length (contents σ x) + n)) (exec_call (AssignCount x n s) ρ).
Proof.
  intros (Hx & Hfit & Hco & [v Hv] & Hout). iIntros "HR". iDestruct "HR" as (τ Ha) "Hr". open_live Ha Hx o a l.
  destruct (const_outside _ _ _ _ _ _ Ha Hco Hv Hout) as (vs & Hg & Hsrc).
  cbn [exec_call]. rewrite Hg. tvars. take_ Ht Hl. sizes. last_. iCombine "Hs Hr" as "H".
  iDestruct (tk_assign_count _ _ _ _ _ _ _ (osize o + n) with "H") as "H"; [done|done|lia|lia|]. fin "H".
Qed.
Lemma effort_AssignRange σ ρ x r xs :
  pre C σ (AssignRange x r) → rng_values σ r = Some xs →
  R (C:=C) σ ρ ⊢ tk (cost (length (contents σ x) + length xs) (length (contents σ x) + length xs + rng_source σ r)) (exec_call (AssignRange x r) ρ).
Proof.
  intros (Hx & (xs' & Hv & Hfit) & Hout) Hv'. rewrite Hv in Hv'. injection Hv' as ->.
  iIntros "HR". iDestruct "HR" as (τ Ha) "Hr". open_live Ha Hx o a l.
  destruct (getr_tk _ _ _ _ _ _ (length (contents σ x) + length xs + rng_source σ r) Ha Hv Hout) as (inp & I & J & X & Hg & Hspec & Hcost & Hfuel & HI); [lia|].
  cbn [exec_call]. rewrite Hg. tvars. take_ Ht Hl. revert Hcost. sizes. intros Hcost. last_.
  iDestruct (HI with "Hr") as "HI". iCombine "Hs HI" as "H".
  iDestruct (tk_assign_range with "H") as "H"; [done|done|done|done|lia|unfold osize; lia|]. fin "H".
Qed.
Lemma tk_assign_all mv a b this o other o2 r N :
  ins_at_it mv o2 0 (osize o2) r 0 → osize o2 < c_W C → osize o + osize o2 ≤ N →
  seqp (C:=C) a a this o ∗ seqp b b other o2 ⊢ tk ((osize o + osize o2) * (80 * L (C:=C) N) + 24 * L (C:=C) N) (assign_range this r).
Proof.
  intros Hr Hlt HN. iIntros "[H1 H2]".
  pose proof (inp_seq b b mv other o2 0 (osize o2) (oelems o2)) as Hin.
  iAssert (seqp a a this o ∗ ins_I b b mv other o2 0 (osize o2) r 0)%I with "[H1 H2]" as "H".
  { iFrame "H1". iSplitR; [done|]. by iApply ins_X_intro. }
  iDestruct (tk_assign_range _ _ (oelems o2) _ (ins_J b b mv other o2 0 (osize o2)) (ins_X b b mv other o2 0) False _ _ N with "H") as "H".
  - apply Hin; [by rewrite slice_whole|done].
  - apply ins_cost. lia.
  - intros r' k. by apply ins_fuel.
  - done.
  - change (length (oelems o2)) with (osize o2). lia.
  - lia.
  - change (length (oelems o2)) with (osize o2). iApply (tk_mono with "H"). lia.
Qed.
Lemma tk_copy_assign_alloc a b this o other o2 N :
  (c_pocca C = true → a ≠ b → may_purge (C:=C) o) → osize o ≤ N →
  seqp (C:=C) a a this o ∗ seqp b b other o2 ⊢ tk (16 * ((osize o + 1) * L (C:=C) N) + 9) (copy_assign_alloc this other).
Proof.
  iIntros (Hm HN) "[H1 H2]". rewrite /copy_assign_alloc. destruct (c_pocca C); [|iApply tk_ret_].
  iApply (tk_pay 1); [lia|karr|]. iSplit; [by iApply tk_any_; apply any_get|]. iApply (wp_get_ealloc_o with "H1"). iIntros "H1".
  iApply (tk_pay 1); [lia|karr|]. iSplit; [by iApply tk_any_; apply any_get|]. iApply (wp_get_ealloc_o with "H2"). iIntros "H2".
  iApply (tk_tail (16 * ((osize o + 1) * L (C:=C) N) + 3) 4); [|lia|].
  { intros _. eapply any_mono; [any_go|lia]. }
  destruct (a =? b) eqn:Hab; simpl; [iApply tk_ret_|]. apply Nat.eqb_neq in Hab.
  iDestruct (tk_clear with "H1") as "H"; [by apply Hm|]. iApply (tk_mono with "H"). pose proof (sweep_L (osize o) N HN). lia.
Qed.
Lemma effort_AssignCopy σ ρ x y :
  pre C σ (AssignCopy x y) →
  R (C:=C) σ ρ ⊢ tk (cost (length (contents σ x) + length (contents σ y)) (length (contents σ x) + length (contents σ y))) (exec_call (AssignCopy x y) ρ).
Proof.
  intros (Hx & Hy & Hp). iIntros "HR". iDestruct "HR" as (τ Ha) "Hr". open_live Ha Hx o a l.
  cbn [exec_call]. destruct (decide (x = y)) as [->|Hne].
  - tvars. last_. rewrite /op_copy_assign Pos.eqb_refl /=. iApply tk_ret_.
  - open_live Ha Hy o2 b l2. tvars. start2 Hne Ht Hl Ht0 Hl0. sizes.
    iDestruct (seqp_ne with "Hs Hs2") as %Hll. iDestruct (seqp_lt with "Hs2") as %Hlt. last_. rewrite /op_copy_assign.
    replace (l =? l2)%positive with false by (symmetry; by apply Pos.eqb_neq). cbn [negb].
    set (N := osize o + osize o2). pose proof (un_L (C:=C) N).
    assert (c_pocca C = true → a ≠ b → may_purge (C:=C) o) as Hm.
    { intros H1 H2. eapply (can_purge_may _ (contents σ x)); [|done]. apply Hp; congruence. }
    iApply (tk_pay (16 * ((osize o + 1) * L (C:=C) N) + 9)); [unfold N in *; nia|karr|]. iSplit.
    { iCombine "Hs Hs2" as "H". iApply (tk_copy_assign_alloc with "H"); [done|lia]. }
    iApply (wp_copy_assign_alloc with "Hs Hs2"); [done|]. iIntros (o' a' [-> Ho']) "Hs Hs2".
    assert (osize o' ≤ osize o) as Hle. { rewrite Ho'. destruct (_ && _); [apply Nat.le_0_l|done]. }
    iApply (tk_pay (16 * L (C:=C) N)); [nia|karr|]. iSplit.
    { iDestruct (tk_whole with "Hs2") as "H". iApply (tk_mono with "H"). pose proof (L_mono (C:=C) (osize o2) N ltac:(lia)). lia. }
    iApply (wp_whole_range with "Hs2"). iIntros (r Hr) "Hs2". iCombine "Hs Hs2" as "H".
    iDestruct (tk_assign_all _ _ _ _ _ _ _ _ N with "H") as "H"; [done|done|lia|]. iApply (tk_mono with "H").
    assert ((osize o' + osize o2) * (80 * L (C:=C) N) ≤ (osize o + osize o2) * (80 * L (C:=C) N)) by (apply Nat.mul_le_mono_r; lia).
    nia.
Qed.
Lemma any_assign_alloc l k : any (T:=T) 5 (move_assign_alloc (C:=C) l k).
Proof. unfold move_assign_alloc. destruct (c_pocma C); eapply any_mono; [any_go|lia|any_go|lia]. Qed.
Lemma tk_move_assign_true a l o l2 :
  may_purge (C:=C) o → seqp (C:=C) a a l o ⊢ tk (sweep (C:=C) (osize o) + 14) (move_assign_true l l2).
Proof.
  iIntros (Hm) "Hs". rewrite /move_assign_true. iApply (tk_tail _ 14); [|done|by iApply (tk_purge with "Hs")].
  intros _. eapply any_mono; [eapply any_bind; [apply any_assign_alloc|intros _; apply any_steal]|lia].
Qed.
Lemma effort_AssignMove_over σ ρ x y :
  pre C σ (AssignMove x y) → takes_over C (alloc_of σ x) (alloc_of σ y) = true →
  R (C:=C) σ ρ ⊢ tk (sweep (C:=C) (length (contents σ x)) + 16) (exec_call (AssignMove x y) ρ).
Proof.
  intros (Hx & Hy & Hp) Hto. iIntros "HR". iDestruct "HR" as (τ Ha) "Hr". open_live Ha Hx o a l. pose proof Ha as Ha'.
  open_live Ha Hy o2 b l2. cbn [exec_call]. tvars. sizes.
  assert (may_purge (C:=C) o) as Hm. { eapply (can_purge_may _ (contents σ x)); [|done]. by apply Hp. }
  last_. rewrite /op_move_assign /move_assign. unfold takes_over in Hto. destruct (c_pocma C) eqn:Hpo.
  { take_ Ht Hl. iDestruct (tk_move_assign_true _ _ _ l2 with "Hs") as "H"; [done|]. iApply (tk_mono with "H"). lia. }
  simpl in Hto. apply Nat.eqb_eq in Hto. rewrite Hal Hal0 in Hto.
  destruct (decide (x = y)) as [->|Hne].
  - rewrite Ht in Ht0. rewrite Hl in Hl0. simplify_eq. take_ Ht Hl.
    iApply (tk_pay 1); [lia|karr|]. iSplit; [by iApply tk_any_; apply any_get|]. iApply (wp_get_ealloc_o with "Hs"). iIntros "Hs".
    iApply (tk_pay 1); [lia|karr|]. iSplit; [by iApply tk_any_; apply any_get|]. iApply (wp_get_ealloc_o with "Hs"). iIntros "Hs".
    rewrite Nat.eqb_refl /=. iDestruct (tk_move_assign_true with "Hs") as "H"; [done|]. iApply (tk_mono with "H"). lia.
  - start2 Hne Ht Hl Ht0 Hl0.
    iApply (tk_pay 1); [lia|karr|]. iSplit; [by iApply tk_any_; apply any_get|]. iApply (wp_get_ealloc_o with "Hs"). iIntros "Hs".
    iApply (tk_pay 1); [lia|karr|]. iSplit; [by iApply tk_any_; apply any_get|]. iApply (wp_get_ealloc_o with "Hs2"). iIntros "Hs2".
    rewrite Hto Nat.eqb_refl /=. iDestruct (tk_move_assign_true with "Hs") as "H"; [done|]. iApply (tk_mono with "H"). lia.
Qed.
Lemma effort_AssignMove σ ρ x y :
  pre C σ (AssignMove x y) →
  R (C:=C) σ ρ ⊢ tk (cost (length (contents σ x) + length (contents σ y)) (length (contents σ x) + length (contents σ y))) (exec_call (AssignMove x y) ρ).
Proof.
  intros Hpre. destruct (takes_over C (alloc_of σ x) (alloc_of σ y)) eqn:Hto.
  { etrans; [by apply effort_AssignMove_over|]. apply tk_mono.
    set (N := length (contents σ x) + length (contents σ y)). pose proof (sweep_L (C:=C) (length (contents σ x)) N ltac:(lia)). pose proof (un_L (C:=C) N). nia. }
  destruct Hpre as (Hx & Hy & Hp). iIntros "HR". iDestruct "HR" as (τ Ha) "Hr". open_live Ha Hx o a l.
  cbn [exec_call]. unfold takes_over in Hto. apply orb_false_elim in Hto as [Hpo Hab].
  destruct (decide (x = y)) as [->|Hne]; [by rewrite Nat.eqb_refl in Hab|].
  open_live Ha Hy o2 b l2. tvars. start2 Hne Ht Hl Ht0 Hl0. sizes. rewrite Hal Hal0 in Hab.
  iDestruct (seqp_lt with "Hs2") as %Hlt. last_. rewrite /op_move_assign /move_assign Hpo.
  set (N := osize o + osize o2). pose proof (un_L (C:=C) N). pose proof (L_mono (C:=C) (osize o2) N ltac:(lia)).
  iApply (tk_pay 1); [nia|karr|]. iSplit; [by iApply tk_any_; apply any_get|]. iApply (wp_get_ealloc_o with "Hs"). iIntros "Hs".
  iApply (tk_pay 1); [nia|karr|]. iSplit; [by iApply tk_any_; apply any_get|]. iApply (wp_get_ealloc_o with "Hs2"). iIntros "Hs2".
  rewrite Hab. cbn [negb].
  iApply (tk_pay (8 * L (C:=C) N)); [nia|karr|]. iSplit; [iDestruct (tk_find_first with "Hs2") as "H"; iApply (tk_mono with "H"); lia|].
  iApply (wp_find_first with "Hs2"). iIntros (f [Hf Hpf]) "Hs2".
  iApply (tk_pay (8 * L (C:=C) N)); [nia|karr|]. iSplit; [iDestruct (tk_find_end with "Hs2") as "H"; iApply (tk_mono with "H"); lia|].
  iApply (wp_find_end with "Hs2"). iIntros (e [He Hpe]) "Hs2".
  iCombine "Hs Hs2" as "H". iDestruct (tk_assign_all true _ _ _ _ _ _ _ N with "H") as "H"; [|done|done|].
  { exists f, e. split_and!; try done; lia. }
  iApply (tk_mono with "H"). unfold N in *. nia.
Qed.

(** ** Splice *)
Lemma effort_SpliceAll σ ρ x w y :
  pre C σ (SpliceAll x w y) →
  R (C:=C) σ ρ ⊢ tk (cost (length (contents σ y)) (length (contents σ x) + length (contents σ y))) (exec_call (SpliceAll x w y) ρ).
Proof.
  intros (p & Hw & Hy & Hne & Hpu & Hfit). iIntros "HR". iDestruct "HR" as (τ Ha) "Hr". open_at Ha Hw o a l it.
  open_live Ha Hy o2 b l2. cbn [exec_call]. tvars. start2 Hne Ht Hl Ht0 Hl0. rewrite /fits Hc Hc0 in Hfit. sizes.
  change (length (oelems o)) with (osize o) in Hfit. change (length (oelems o2)) with (osize o2) in Hfit.
  assert (may_purge (C:=C) o2) as Hm by by eapply can_purge_may.
  iDestruct (seqp_lt with "Hs2") as %Hlt.
  last_. rewrite /splice_all. set (N := osize o + osize o2). pose proof (un_L (C:=C) N). pose proof (L_mono (C:=C) (osize o2) N ltac:(lia)).
  iApply (tk_pay (16 * L (C:=C) N)); [nia|karr|]. iSplit.
  { iDestruct (tk_whole with "Hs2") as "H". iApply (tk_mono with "H"). lia. }
  iApply (wp_whole_range with "Hs2"). iIntros (r Hr) "Hs2".
  assert (length (oelems o2) - 0 < input_fuel r) as Hfu.
  { destruct Hr as (f & e & -> & ? & ? & ? & _). simpl. unfold osize in *. lia. }
  iAssert (seqp a a l o ∗ ins_I b b true l2 o2 0 (osize o2) r 0)%I with "[Hs Hs2]" as "H".
  { iFrame "Hs". iSplitR; [done|]. by iApply ins_X_intro. }
  assert (inp_spec (oelems o2) (ins_I b b true l2 o2 0 (osize o2)) (ins_J b b true l2 o2 0 (osize o2)) (ins_X b b true l2 o2 0) False) as Hin.
  { apply inp_seq; [by rewrite slice_whole|done]. }
  assert (inp_cost (C:=C) (ins_J b b true l2 o2 0 (osize o2)) (8 * L (C:=C) N)) as Hco by (apply ins_cost; lia).
  unfold insert_range. iApply (tk_pay (osize o2 * (80 * L (C:=C) N) + 8 * L (C:=C) N)); [nia|karr|]. iSplit.
  { iDestruct (tk_emplace_range with "H") as "H"; [exact Hin|exact Hco|done|unfold osize in *; lia|done|unfold N, osize; lia|].
    rewrite Nat.sub_0_r. done. }
  iDestruct "H" as "[Hs HI]".
  iApply (wp_emplace_range with "Hs HI"); [exact Hin|done|unfold osize in *; lia|done|]. iSplit; [|by iIntros].
  iIntros (o' it' _) "Hs HX". iDestruct "HX" as (o2' [Hsh _]) "Hs2".
  iDestruct (tk_clear with "Hs2") as "H". { intros ->. apply Hm. by destruct o2. }
  rewrite (oshape_osize _ _ Hsh). iApply (tk_mono with "H"). pose proof (sweep_L (C:=C) (osize o2) N ltac:(lia)). nia.
Qed.
Lemma effort_SpliceRange σ ρ x w y w1 w2 q1 q2 :
  pre C σ (SpliceRange x w y w1 w2) → at_it σ w1 y q1 → at_it σ w2 y q2 →
  R (C:=C) σ ρ ⊢ tk (cost (q2 - q1) (length (contents σ x) + length (contents σ y))) (exec_call (SpliceRange x w y w1 w2) ρ).
Proof.
  intros (p & q1' & q2' & Hw & Hw1 & Hw2 & Hq & Hne & Hfit) H1 H2. rewrite /at_it Hw1 in H1. rewrite /at_it Hw2 in H2. simplify_eq.
  iIntros "HR". iDestruct "HR" as (τ Ha) "Hr". open_at Ha Hw o a l it.
  open_at Ha Hw1 o2 b l2 it1.
  destruct (abs_at _ _ _ _ _ _ Ha Hw2) as (o3 & a3 & l3 & it2 & Ht2 & _ & _ & _ & Hit2 & Hok2 & Hp2 & _).
  rewrite Ht0 in Ht2. injection Ht2 as <- <-.
  cbn [exec_call]. tvars. start2 Hne Ht Hl Ht0 Hl0. rewrite /fits Hc in Hfit. sizes.
  change (length (oelems o)) with (osize o) in Hfit. pose proof (it_ok_le _ _ Hok2) as Hle. rewrite Hp2 in Hle.
  last_. rewrite /splice_range /insert_range. set (N := osize o + osize o2). pose proof (un_L (C:=C) N). pose proof (L_mono (C:=C) (osize o2) N ltac:(lia)).
  set (xs := slice q1 (q2 - q1) (oelems o2)).
  assert (length xs = q2 - q1) as Hlen. { rewrite /xs slice_length //. unfold osize in Hle. lia. }
  assert (inp_spec xs (ins_I b b true l2 o2 q1 (q2 - q1)) (ins_J b b true l2 o2 q1 (q2 - q1)) (ins_X b b true l2 o2 q1) False) as Hin.
  { apply inp_seq; [done|lia]. }
  assert (inp_cost (C:=C) (ins_J b b true l2 o2 q1 (q2 - q1)) (8 * L (C:=C) N)) as Hco by (apply ins_cost; lia).
  iAssert (seqp a a l o ∗ ins_I b b true l2 o2 q1 (q2 - q1) (ISeq true it1 it2) 0)%I with "[Hs Hs2]" as "H".
  { iFrame "Hs". iSplitR; [iPureIntro; exists it1, it2; split_and!; try done; lia|]. by iApply ins_X_intro. }
  iApply (tk_pay ((q2 - q1) * (80 * L (C:=C) N) + 8 * L (C:=C) N)); [generalize (q2 - q1); intros; nia|karr|]. iSplit.
  { iDestruct (tk_emplace_range with "H") as "H"; [exact Hin|exact Hco|done|lia|simpl; lia|lia|].
    rewrite Nat.sub_0_r Hlen. done. }
  iDestruct "H" as "[Hs HI]".
  iApply (wp_emplace_range with "Hs HI"); [exact Hin|done|lia|simpl; lia|]. iSplit; [|by iIntros].
  iIntros (o' it' _) "Hs HX". iDestruct "HX" as (o2' [Hsh _]) "Hs2". last_. rewrite /erase_between.
  iDestruct (tk_erase_range _ _ _ it1 it2 N with "Hs2") as "H"; [by eapply it_ok_shape|lia|rewrite (oshape_osize _ _ Hsh); lia|].
  rewrite Hp0 Hp2. iApply (tk_mono with "H"). generalize (q2 - q1). intros m. nia.
Qed.

(** ** Linear time *)
Lemma effort_Clear σ ρ x : pre C σ (Clear x) → R (C:=C) σ ρ ⊢ tk (sweep (C:=C) (length (contents σ x)) + 16) (exec_call (Clear x) ρ).
Proof.
  intros [Hx Hp]. iIntros "HR". iDestruct "HR" as (τ Ha) "Hr". open_live Ha Hx o a l. cbn [exec_call]. tvars. take_ Ht Hl. sizes. last_.
  iDestruct (tk_clear with "Hs") as "H"; [by eapply can_purge_may|]. iApply (tk_mono with "H"). lia.
Qed.
Lemma effort_Destroy σ ρ x : pre C σ (Destroy x) → R (C:=C) σ ρ ⊢ tk (sweep (C:=C) (length (contents σ x)) + 16) (exec_call (Destroy x) ρ).
Proof.
  intros [Hx Hp]. iIntros "HR". iDestruct "HR" as (τ Ha) "Hr". open_live Ha Hx o a l. cbn [exec_call]. tvars. take_ Ht Hl. sizes. last_.
  iDestruct (tk_dtor with "Hs") as "H"; [by eapply can_purge_may|]. iApply (tk_mono with "H"). lia.
Qed.
End bulk.
