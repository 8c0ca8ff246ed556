(** * Where the code does not do what its documentation, or std::vector, promises.

    C14 before_segment(count), C37 deallocate(nullptr): what the code does, in
    every reachable state.  C22 resize, C35/C36 aliased arguments, C42 throwing
    moves, C39 oversized nodes: concrete executions, evaluated by the kernel; C42_first
    holds in every reachable state. *)
From Verif Require Export PropsSegment World.
From stdpp Require Import options.
Set Default Proof Using "Type*".

Section defects.
Context {T : Type} {C : cfg T} {OK : cfg_ok C}.
Implicit Types σ : sst T.
Implicit Types ρ : env.
Implicit Types st : state T.
Notation reached := (reached C).
Notation iterator_at := (iterator_at C).
Notation exec := (exec (C:=C)).

(** ** C14 *)
Lemma before_count_wp σ ρ x w p n it :
  at_it σ w x p → e_iter ρ !! w = Some it → 1 ≤ n → n + sg_idx (e_seg (i_entry it)) ≤ p →
  R σ ρ ⊢ wp (move_before_segment_count it n) (λ it', ∃ o a l,
    ⌜e_cont ρ !! x = Some l ∧ it_ok o (Iter (i_entry it') (p - sg_idx (e_seg (i_entry it)) - n)) ∧ p < c_W C ∧
     i_pos it' = wsub p (wsub (sg_idx (e_seg (i_entry it)) + 1) n)⌝ ∗ seqp a a l o ∗ True)%I (λ _, False%I).
Proof.
  intros Hw Hi Hn Hle. iIntros "HR". iDestruct "HR" as (τ Ha) "Hr".
  destruct (abs_at _ _ _ _ _ _ Ha Hw) as (o & a & l & it1 & Ht & Hl & Hc & Hal & Hit & Hok & Hp & Hlv).
  rewrite Hi in Hit. injection Hit as <-. take_ Ht Hl. iDestruct (seqp_lt with "Hs") as %HW.
  pose proof (it_ok_le _ _ Hok) as Hple. rewrite /move_before_segment_count. wp_bind.
  destruct o as [t|]; [|rewrite (it_ok_nil _ Hok) /= in Hp, Hle; lia].
  iDestruct "Hs" as (h [Hwf HtW]) "[Hs Ht]".
  iApply (wp_move_prev_leaf_count with "Ht"); [done|apply Hok|done|by rewrite Hp|done|].
  iIntros (e' He') "Ht". wp_ret. iExists (Some t), a, l. iSplitR.
  - iPureIntro. split_and!; [done| |unfold osize in *; lia|by rewrite Hp]. rewrite /it_ok /= -Hp. by apply at_elem_it.
  - iSplitL "Hs Ht"; [iExists h; by iFrame|done].
Qed.
Lemma split_same (A A' : list (loc * list T)) l ys l' ys' B B' k k' :
  Forall (λ s : loc * list T, 0 < length s.2) (A ++ (l, ys) :: B) → A ++ (l, ys) :: B = A' ++ (l', ys') :: B' →
  length (concat A.*2) + k = length (concat A'.*2) + k' →
  k < length ys ∨ k = length ys ∧ B = [] → k' < length ys' ∨ k' = length ys' ∧ B' = [] → A = A' ∧ k = k'.
Proof.
  revert A'. induction A as [|[b zs] A IH]; intros [|[b' zs'] A'] Hpos E Hp He He'.
  - split; [done|]. simpl in Hp. lia.
  - exfalso. simpl in E. injection E as -> -> ->. csimpl in Hp. rewrite app_length in Hp.
    destruct He as [?|[-> HB]]; [lia|]. by destruct A'.
  - exfalso. simpl in E. injection E as <- <- <-. csimpl in Hp. rewrite app_length in Hp.
    destruct He' as [?|[-> HB]]; [lia|]. by destruct A.
  - simpl in E. injection E as <- <- E. csimpl in Hp. rewrite !app_length in Hp.
    inversion Hpos as [|? ? _ Hpos']. destruct (IH A') as [-> ->]; [done|done|lia|done|done|done].
Qed.
Lemma read_slot_heap p i st st' v s :
  read_slot p i st = Ok v s → st_heap st = st_heap st' → ∃ s', read_slot p i st' = Ok v s'.
Proof.
  rewrite /read_slot /slot /load_seg /load /mbind /M_bind /elem. destruct p as [l|]; [|done]. intros H Hh. rewrite -Hh.
  destruct (st_heap st !! l) as [ob|]; [|done]. simpl in *. destruct ob as [al sl|al nd|q]; try done. simpl in *.
  destruct (sl !! i) as [c|]; [|done]. simpl in *. destruct c as [u|]; [|done]. injection H as <- _. by eexists.
Qed.
Lemma exec_deref w ρ st o ρ' st' it v :
  exec (Deref w) ρ st = Ok (o, ρ') st' → e_iter ρ !! w = Some it → o = OVal v → ∃ s, dereference it st = Ok v s.
Proof.
  intros He Hi Ho. rewrite /exec /try_catch in He. cbn [exec_call] in He. rewrite /mbind /M_bind /geti /lookup_var Hi in He.
  cbv beta iota in He. rewrite /it_deref in He. cbn [mret] in He. rewrite /mret /M_ret in He. 
  destruct (dereference it st) as [u s|e s|f]; [|by injection He as <- _ _|done]. injection He as <- _ _. injection Ho as <-. by exists s.
Qed.
(** the result designates the element [n] (documented: [n + 1]) before the
    segment, and believes to be at position [start - 1 + n] (documented:
    [start - 1 - n]) *)
Theorem C14_what_it_does ρ st x w w' p xs a before l vs after k it n :
  reached ρ st → container_at st ρ x = Some (xs, a) → xs ≠ [] → iterator_at st ρ w x p → e_iter ρ !! w = Some it →
  segment_of st ρ x p before l vs after k → 1 ≤ n ≤ length (concat before.*2) →
  let start := length (concat before.*2) in
  ∃ it' st' it2 st2, move_before_segment_count it n st = Ok it' st' ∧ st_heap st' = st_heap st ∧
    exec (NthOf x (start - n) w') ρ st = Ok (OUnit, bindi w' it2 ρ) st2 ∧ i_entry it' = i_entry it2 ∧
    (∃ v st3, xs !! (start - n) = Some v ∧ it_deref it' st = Ok v st3) ∧
    index_of it' = (start - 1 + n) mod c_W C.
Proof.
  intros Hr Hc Hne Hw Hi Hsg Hn start. pose proof Hr as [σ0 Hr0].
  destruct (reached_point _ _ _ _ _ _ Hr0 Hw) as [Hrσ Hat]. set (σ := point w x p σ0) in *.
  destruct (seg_found σ ρ st w x p xs a) as (it1 & A & l1 & vs1 & B & k1 & Hi1 & Hsg1 & He); [done..|].
  rewrite Hi in Hi1. injection Hi1 as <-.
  destruct Hsg as (Hs & Hp & Hend), Hsg1 as (Hs1 & Hp1 & Hend1).
  rewrite Hs in Hs1. injection Hs1 as E. rewrite Hp in Hp1.
  destruct (split_same _ _ _ _ _ _ _ _ _ _ (reached_nonempty ρ st x _ Hr Hs) E Hp1 Hend Hend1) as [<- <-]. fold start in Hp, Hn.
  pose proof (reachable_R _ _ _ Hrσ) as HR.
  pose proof (before_count_wp σ ρ x w p n it Hat Hi) as Hwp. rewrite He /= in Hwp.
  specialize (Hwp ltac:(lia) ltac:(lia)).
  pose proof (hprop_in_entails _ _ Hwp _ HR) as H1. rewrite wp_holds in H1.
  destruct st as [h clk cnt]. specialize (H1 ∅ clk cnt ltac:(apply map_disjoint_empty_r) (map_empty_subseteq ∅)). rewrite right_id_L in H1.
  pose proof (eff_move_before_segment_count same same_coarser it n (State h clk cnt)) as Hsame.
  simpl in H1. destruct (move_before_segment_count it n (State h clk cnt)) as [it' st'|e st'|f]; [| |done].
  2:{ destruct H1 as (? & _ & _ & _ & Hf). by apply pure_holds in Hf. }
  destruct H1 as (h' & _ & Hh' & _ & HQ). rewrite right_id_L in Hh'.
  apply exist_holds in HQ as (o & HQ). apply exist_holds in HQ as (a1 & HQ). apply exist_holds in HQ as (lx & HQ).
  apply sep_holds in HQ as (m1 & m2 & -> & Hd & (Hlx & Hok & HpW & Hpos)%pure_holds & HQ). apply sep_holds in HQ as (m3 & m4 & -> & Hd' & Hseq & _).
  destruct Hsame as (Hheap & _). simpl in Hheap.
  assert (m3 ⊆ h) as Hm3. { rewrite Hheap in Hh'. rewrite Hh'.
    etrans; [by apply map_union_subseteq_l|by apply map_union_subseteq_r]. }
  pose proof (seqp_lives _ _ _ _ _ Hseq Hm3) as Ho.
  destruct (call_ok σ ρ (State h clk cnt) (NthOf x (start - n) w') Hrσ) as (u & ρ2 & st2 & σ2 & He2 & Hs2 & Hr2).
  { cbn [pre]. rewrite /live (R_conts _ _ _ _ HR). by rewrite Hc. }
  destruct Hs2 as [-> ->].
  pose proof (exec_same (NthOf x (start - n) w') _ _ _ _ _ eq_refl He2) as (Hh2 & _).
  destruct (exec_nth_shape _ _ _ _ _ _ _ _ He2 eq_refl) as (it2 & ->).
  assert (contents σ x = xs) as Hcx by (rewrite /contents (R_conts _ _ _ _ HR) Hc; done).
  assert (start + k ≤ length xs).
  { rewrite Hp in Hw. destruct Hw as (xs' & a' & st3 & Hc' & Hle & _). rewrite Hc in Hc'. by injection Hc' as <- _. }
  assert (i_entry it' = i_entry it2) as Hent.
  { pose proof (reachable_R _ _ _ Hr2) as HR2. rewrite Hcx Nat.min_l in HR2; [|lia].
    destruct (R_iter _ _ st2 w' x (start - n) HR2) as (o1 & a2 & l2 & it3 & Hl2 & Ho2 & Hit2 & Hok2 & Hp2 & _).
    { by rewrite /at_it /= lookup_insert. }
    rewrite /= lookup_insert in Hit2. injection Hit2 as <-. simpl in Hl2. rewrite Hlx in Hl2. injection Hl2 as <-.
    simpl in Ho2. rewrite Hh2 in Ho2. destruct (lives_det _ _ _ _ _ _ Ho Ho2) as [<- <-].
    assert (Iter (i_entry it') (start - n) = it2) as <-; [|done].
    destruct o as [t|].
    + destruct (lives_wf _ _ _ _ Ho) as (hh & Hw0). eapply (it_ok_unique hh); try done.
      * by intros ? [= <-].
      * simpl. by replace (start - n) with (p - k - n) by lia.
    + rewrite (it_ok_nil _ Hok2). replace (start - n) with (p - k - n) by lia. apply Hok. }
  exists it', st', it2, st2. split_and!; [done|done|done|done| |].
  - destruct (lookup_lt_is_Some_2 xs (start - n)) as [v Hv]; [lia|]. exists v.
    rewrite Hcx Nat.min_l in Hr2; [|lia]. set (σ2 := point w' x (start - n) σ) in *.
    assert (deref σ2 w' = Some v) as Hdv.
    { rewrite /deref /σ2 /= lookup_insert /=. change (contents (point w' x (start - n) σ) x) with (contents σ x). by rewrite Hcx. }
    destruct (call_ok σ2 _ _ (Deref w') Hr2) as (u & ρ4 & st4 & σ4 & He4 & Hs4 & Hr4). { cbn [pre]. by rewrite Hdv. }
    destruct Hs4 as [(v' & Hv' & Ho') _]. rewrite Hdv in Hv'. injection Hv' as <-. 
    destruct (exec_deref _ _ _ _ _ _ it2 v He4) as (st5 & Hd5); [by rewrite /= lookup_insert|done|].
    rewrite /it_deref /dereference Hent. destruct (read_slot_heap _ _ _ (State h clk cnt) _ _ Hd5) as (st6 & H6); [by rewrite Hh2|by exists st6].
  - rewrite /index_of Hpos. rewrite /wsub.
    destruct (decide (n ≤ k + 1)).
    + replace (k + 1 + c_W C - n) with (k + 1 - n + 1 * c_W C) by lia. rewrite Nat.mod_add; [|lia].
      rewrite (Nat.mod_small (k + 1 - n)); [|lia].
      replace (p + c_W C - (k + 1 - n)) with (start - 1 + n + 1 * c_W C) by lia. rewrite Nat.mod_add; [done|lia].
    + rewrite (Nat.mod_small (k + 1 + c_W C - n)); [|lia]. f_equal. lia.
Qed.

(** ** C37 *)
(** Destroying or clearing an empty container hands a null pointer to deallocate(). *)
Theorem C37_empty ρ st x a :
  c_null_free C = false → reached ρ st → container_at st ρ x = Some ([], a) →
  exec (Destroy x) ρ st = Fault FBadFree ∧ exec (Clear x) ρ st = Fault FBadFree.
Proof.
  intros Hn Hr Hc. destruct (reached_lives ρ st x [] a Hr Hc) as (o & l & Hl & Ho & Hxs).
  destruct o as [t|].
  { exfalso. destruct Ho as (h & Hw & _). apply wfroot_tsize in Hw.
    rewrite /tsize in Hw. simpl in Hxs. rewrite Hxs /= in Hw. lia. }
  cbn [lives] in Ho.
  assert (purge l st = Fault FBadFree) as Hp.
  { rewrite /purge /purge_root /purge_segment /deallocate_segment /get_element_allocator /get_root /get_size /get_height /load_seq /load.
    rewrite /mbind /M_bind /mret /M_ret.
    repeat first [rewrite Ho|progress simpl]. destruct (c_triv_destroy C); repeat first [rewrite Ho|progress simpl]; by rewrite Hn. }
  split; rewrite /exec /try_catch; cbn [exec_call]; rewrite /mbind /M_bind /getc /lookup_var Hl /dtor /clear /mbind /M_bind /= Hp //.
Qed.
End defects.

(** ** Concrete executions *)
(** what the call answers, and what container [x] then holds *)
Definition outcome (C : cfg nat) (c : cmd nat) (ρ : env) (st : state nat) (x : nat) : option (out nat * (list nat * nat)) :=
  match exec (C:=C) c ρ st with
  | Ok (o, ρ') st' => k ← container_at st' ρ' x; Some (o, k)
  | _ => None
  end.
Lemma outcome_spec C c ρ st x o k :
  outcome C c ρ st x = Some (o, k) → ∃ ρ' st', exec (C:=C) c ρ st = Ok (o, ρ') st' ∧ container_at st' ρ' x = Some k.
Proof.
  rewrite /outcome. destruct (exec c ρ st) as [[o' ρ'] st'|e st'|f]; [|done..].
  destruct (container_at st' ρ' x) as [k'|] eqn:E; [|done]. intros [= -> ->]. eauto.
Qed.
Definition faulted (C : cfg nat) (c : cmd nat) (ρ : env) (st : state nat) : option fault :=
  match exec (C:=C) c ρ st with Fault f => Some f | _ => None end.
Lemma faulted_spec C c ρ st f : faulted C c ρ st = Some f → exec (C:=C) c ρ st = Fault f.
Proof. rewrite /faulted. destruct (exec c ρ st); [done..|]. by intros [= ->]. Qed.

(** ** C14, before_segment(0): the result designates no element *)
(** iterator 1 is at position 9 of container 0, the first element of its segment *)
Theorem C14_zero : ∃ it it' st',
  reached W0 ρ0 st0 ∧ iterator_at W0 st0 ρ0 1 0 9 ∧ e_iter ρ0 !! 1 = Some it ∧
  move_before_segment_count (C:=W0) it 0 st0 = Ok it' st' ∧ it_deref it' st' = Fault FRaw.
Proof.
  destruct (e_iter ρ0 !! 1) as [it|] eqn:E; [|by vm_compute in E].
  assert (match move_before_segment_count (C:=W0) it 0 st0 with
          | Ok it' st' => match it_deref it' st' with Fault FRaw => true | _ => false end
          | _ => false end = true) as H by (vm_compute in E; injection E as <-; by vm_compute).
  destruct (move_before_segment_count it 0 st0) as [it' st'|e st'|f] eqn:Em; [|done..].
  exists it, it', st'. split_and!; [apply W0_reached|apply W0_w1|done|done|].
  destruct (it_deref it' st') as [v s|e s|f]; [done..|]. by destruct f.
Qed.

(** ** C22, resize(count): documented as strong; the allocation that fails is the
    third of the call, and one element has been appended *)
Definition fails_at (n : nat) : faults := Faults (λ k, k =? n) (λ _, false) (λ _, false) (λ _, false).
Definition W22 : cfg nat := world_cfg 16 false true false 16 (fails_at (st_clk st0 + 7)).
Theorem C22_not_strong : ∃ (C : cfg nat) ρ st x n xs a ys ρ' st',
  cfg_ok C ∧ reached C ρ st ∧ container_at st ρ x = Some (xs, a) ∧
  exec (C:=C) (Resize x n (AVal (c_default C))) ρ st = Ok (OExn EAlloc, ρ') st' ∧
  container_at st' ρ' x = Some (ys, a) ∧ xs ≠ ys.
Proof.
  assert (cfg_ok W22) as OK by (apply world_ok; [by left|lia|done]).
  assert (outcome W22 (Resize 1 8 (AVal (c_default W22))) (made W22).1 (made W22).2 1 = Some (OExn EAlloc, ([21;22;23;0], 7))) as H
    by by vm_compute.
  apply outcome_spec in H as (ρ' & st' & He & Hc).
  exists W22, (made W22).1, (made W22).2, 1, 8, [21;22;23], 7, [21;22;23;0], ρ', st'.
  split_and!; [done|by apply made_reached; [done|intros ?|vm_compute]|by vm_compute|done|done|done].
Qed.
(** growing by at most one element, or shrinking, is strong *)
Theorem C22_by_one {T} {C : cfg T} {OK : cfg_ok C} ρ st x n s v xs a :
  reached C ρ st → container_at st ρ x = Some (xs, a) → const_arg (C:=C) st ρ x s v → n < c_W C → n ≤ length xs + 1 →
  ∃ o st', exec (C:=C) (Resize x n s) ρ st = Ok (o, ρ) st' ∧
    (o = OUnit ∧ container_at st' ρ x = Some (take n xs ++ replicate (n - length xs) v, a) ∨
     failed C o ∧ container_at st' ρ x = Some (xs, a)).
Proof.
  intros Hr Hc Hs Hn Hle. destruct (C29_resize ρ st x n s v xs a Hr Hc Hs Hn) as (o & st' & He & _ & _ & Ho).
  exists o, st'. split; [done|]. destruct Ho as [Ho|(Ho & j & Hj & Hc')]; [by left|right].
  assert (j = 0) as -> by lia. rewrite /= app_nil_r in Hc'. done.
Qed.

(** ** C35, insert(position, n, value) and resize(n, value) with [value] a reference
    to an element of the container *)
Definition W35 : cfg nat := world_cfg 64 false true false 16 never.
Global Instance W35_ok : cfg_ok W35.
Proof. apply world_ok; [by right|lia|done]. Qed.
(** {31, 32}: insert(begin(), 2, c[1]) inserts 32 and 31 *)
Theorem C35_wrong_value : ∃ (C : cfg nat) ρ st x w w1 v1 v2 a ρ' st',
  cfg_ok C ∧ reached C ρ st ∧ container_at st ρ x = Some ([v1; v2], a) ∧ v1 ≠ v2 ∧
  iterator_at C st ρ w x 0 ∧ iterator_at C st ρ w1 x 1 ∧
  exec (C:=C) (InsertCount x w 2 (ARef w1) 10) ρ st = Ok (OUnit, ρ') st' ∧
  container_at st' ρ' x = Some ([v2; v1; v1; v2], a).
Proof.
  assert (outcome W35 (InsertCount 5 8 2 (ARef 9) 10) (made W35).1 (made W35).2 5 = Some (OUnit, ([32;31;31;32], 7))) as H
    by by vm_compute.
  apply outcome_spec in H as (ρ' & st' & He & Hc).
  exists W35, (made W35).1, (made W35).2, 5, 8, 9, 31, 32, 7, ρ', st'.
  split_and!; [apply _|by apply made_reached; [apply _|intros ?|vm_compute]|by vm_compute|done|at_|at_|done|done].
Qed.
(** with two elements per segment, both calls read an element that was moved away and destroyed *)
Theorem C35_destroyed : ∃ (C : cfg nat) ρ st x w w1 xs a,
  cfg_ok C ∧ reached C ρ st ∧ container_at st ρ x = Some (xs, a) ∧ iterator_at C st ρ w x 0 ∧ iterator_at C st ρ w1 x 1 ∧
  exec (C:=C) (InsertCount x w 2 (ARef w1) 10) ρ st = Fault FRaw ∧
  exec (C:=C) (Resize x 9 (ARef w1)) ρ st = Fault FRaw.
Proof.
  exists W0, ρ0, st0, 5, 8, 9, [31;32], 7.
  split_and!; [apply _|apply W0_reached|by vm_compute|apply W0_w8|apply W0_w9|apply faulted_spec; by vm_compute|apply faulted_spec; by vm_compute].
Qed.

(** ** C36, remove(value) with [value] a reference to an element: {1, 2, 1}.remove(c[0]) *)
Theorem C36_remove_alias : ∃ (C : cfg nat) ρ st x w xs v a ys ρ' st',
  cfg_ok C ∧ reached C ρ st ∧ container_at st ρ x = Some (xs, a) ∧ iterator_at C st ρ w x 0 ∧ xs !! 0 = Some v ∧
  exec (C:=C) (Remove x (ARef w) Nat.eqb) ρ st = Ok (OUnit, ρ') st' ∧
  container_at st' ρ' x = Some (ys, a) ∧ v ∈ ys.
Proof.
  assert (outcome W0 (Remove 4 (ARef 7) Nat.eqb) ρ0 st0 4 = Some (OUnit, ([2;1], 8))) as H by by vm_compute.
  apply outcome_spec in H as (ρ' & st' & He & Hc).
  exists W0, ρ0, st0, 4, 7, [1;2;1], 1, 8, [2;1], ρ', st'.
  split_and!; [apply _|apply W0_reached|apply W0_4|apply W0_w7|done|done|done|]. by apply elem_of_cons; right; left.
Qed.

(** ** C39, more children per node than the 16-bit fields can count: the third push
    into a tree of nodes with three children goes out of bounds *)
Theorem C39_too_wide :
  make (C:=world_cfg 16 false true false 3 never) [NewRange 0 (RList [1;2;3;4;5;6;7;8;9;10;11;12]) 7] no_env start = Fault FBounds.
Proof.
  assert (match make (C:=world_cfg 16 false true false 3 never) [NewRange 0 (RList [1;2;3;4;5;6;7;8;9;10;11;12]) 7] no_env start with
          | Fault FBounds => true | _ => false end = true) as H by by vm_compute.
  destruct (make _ _ _) as [? ?|? ?|f]; [done..|]. by destruct f.
Qed.

(** ** C42, an element whose move constructor may throw: a one-element insert that
    fails leaves a moved-from element behind.  (Moves before that one succeed, and
    this is the only departure from [cfg_ok].) *)
Definition W42 : cfg nat := world_cfg 16 false true false 16 (Faults (λ _, false) (λ _, false) (λ k, k =? st_clk st0 + 3) (λ _, false)).
Theorem C42_not_strong : ∃ ρ st ρ' st',
  make (C:=W42) program no_env start = Ok ρ st ∧ container_at st ρ 0 = Some ([1;2;3;4;5;6;7;8;9;10;11;12], 7) ∧
  exec (C:=W42) (InsertOne 0 0 (AVal 99) 10) ρ st = Ok (OExn EMove, ρ') st' ∧
  container_at st' ρ' 0 = Some ([1;2;3;4;5;0;7;8;9;10;11;12], 7).
Proof.
  assert (match make (C:=W42) program no_env start with
    | Ok ρ st => outcome W42 (InsertOne 0 0 (AVal 99) 10) ρ st 0 ≫= λ p, q ← container_at st ρ 0; Some (p, q) | _ => None end
    = Some ((OExn EMove, ([1;2;3;4;5;0;7;8;9;10;11;12], 7)), ([1;2;3;4;5;6;7;8;9;10;11;12], 7))) as H by by vm_compute.
  destruct (make program no_env start) as [ρ st|? ?|?]; [|done..].
  destruct (outcome _ _ _ _ _) as [p|] eqn:E; [|done]. simpl in H.
  destruct (container_at st ρ 0) as [q|] eqn:Eq; [|done]. simpl in H. injection H as -> ->.
  apply outcome_spec in E as (ρ' & st' & He & Hc). by exists ρ, st, ρ', st'.
Qed.
(** the same program, with a type whose moves may throw: move number [n] returns iff [f n] *)
Definition with_moves {T} (C : cfg T) (f : nat → bool) : cfg T :=
  Cfg T (c_segment_target C) (c_base_target C) (c_sizeof_T C) (c_sizeof_base C) (c_sizeof_data C) (c_W C) (c_H C)
    (c_triv_copy C) (c_triv_destroy C) (c_std_construct C) (c_pocca C) (c_pocma C) (c_pocs C) (c_soccc C) (c_null_free C)
    (c_default C) (c_residue C) (c_pick C) (c_place C) (c_user_ok C) f (c_pred_ok C) (c_scramble C).
Section moves.
Context {T : Type} {C : cfg T} {OK : cfg_ok C}.
Implicit Types st : state T.
Lemma first_emplace f l v a st it :
  st_heap st !! l = Some (OSeq (SeqObj None 0 0 a a)) → e_seg (i_entry it) = SegEntry None 0 0 →
  match emplace_single (C:=with_moves C f) l it (VVal v) st with
  | Throw EMove st' => n_allocs (st_cnt st') = n_allocs (st_cnt st) ∧ st_heap st' = st_heap st ∨ n_allocs (st_cnt st') = S (n_allocs (st_cnt st)) ∧
      ∃ q, st_heap st' !! l = Some (OSeq (SeqObj (Some q) 1 1 a a)) ∧ st_heap st' !! q = Some (OSeg a (replicate (segment_max (C:=C)) None))
  | _ => True
  end.
Proof.
  intros Ho Hi. rewrite /emplace_single /make_value /insert_single_iterator /insert_single_segment Hi.
  change (segment_max (C:=with_moves C f)) with (segment_max (C:=C)).
  assert (∃ n, segment_max (C:=C) = S n) as [n Hn] by (exists (pred (segment_max (C:=C))); pose proof (segment_max_pos (C:=C)); lia).
  rewrite /mbind /M_bind /mret /M_ret /user_tick /tick /=. destruct (c_user_ok C (st_clk st)); simpl; [|done].
  rewrite /move_tick /tick /=.
  rewrite /allocate_segment /get_element_allocator /set_root /ModelSeq.set_size /set_height /load_seq /load /allocate /construct_segment /slot /load_seg /store /mbind /M_bind /mret /M_ret /=.
  change (segment_max (C:=with_moves C f)) with (segment_max (C:=C)). 
  destruct (c_triv_copy C) eqn:Htr; cbn [st_heap st_clk st_cnt]; [|destruct (f _); cbn [st_heap st_clk st_cnt]; [|by left]].
  all: rewrite /mret /M_ret Ho; cbn -[replicate segment_max]; destruct (c_pick C _ _) as [q|] eqn:Hq; cbn -[replicate segment_max]; [|done].
  all: assert (q ≠ l) as Hql by (intros ->; apply (ok_pick _ OK) in Hq; simpl in Hq; congruence).
  all: repeat first [rewrite Ho|rewrite lookup_insert|rewrite lookup_insert_ne; [|done]|progress cbn -[replicate segment_max] ].
  all: rewrite /elem lookup_replicate_2; [|lia]; rewrite /move_tick /tick /=; rewrite Htr.
  all: assert (∀ st1, match set_slot (Some q) 0 (Some v) st1 with Throw _ _ => False | _ => True end) as Hss
    by (intros st1; rewrite /set_slot /load_seg /load /put /store /mbind /M_bind /mret /M_ret /=;
        destruct (st_heap st1 !! q) as [[]|]; simpl; try done; by destruct (_ <? _)).
  - rewrite /mret /M_ret /=. match goal with |- context [set_slot ?p ?i ?c ?s] => specialize (Hss s); by destruct (set_slot p i c s) end.
  - cbn [st_clk]. destruct (f _); cbn [st_clk st_heap].
    + match goal with |- context [set_slot ?p ?i ?c ?s] => specialize (Hss s); by destruct (set_slot p i c s) end.
    + right. split; [done|]. exists q. rewrite lookup_insert. split; [done|]. do 3 (rewrite lookup_insert_ne; [|done]). by rewrite lookup_insert.
Qed.
(** the first element of a container: if the exception comes before the allocation nothing has changed; if it comes after the allocation, the
    container says that it has one element, which was never constructed.  Reading it
    is undefined, and so is destroying the container. *)
Theorem C42_first f ρ st x v a ρ' st' :
  reached C ρ st → container_at st ρ x = Some ([], a) →
  exec (C:=with_moves C f) (PushBack x (AVal v)) ρ st = Ok (OExn EMove, ρ') st' →
  ρ' = ρ ∧
  (n_allocs (st_cnt st') = n_allocs (st_cnt st) ∧ st_heap st' = st_heap st ∨
   n_allocs (st_cnt st') = S (n_allocs (st_cnt st)) ∧
   (∃ st1, exec (C:=with_moves C f) (GetSize x) ρ st' = Ok (ONat 1, ρ) st1) ∧
   exec (C:=with_moves C f) (At x 0) ρ st' = Fault FRaw ∧ exec (C:=with_moves C f) (Front x) ρ st' = Fault FRaw ∧
   (c_triv_destroy C = false → exec (C:=with_moves C f) (Destroy x) ρ st' = Fault FRaw)).
Proof.
  intros Hr Hc He. destruct (reached_lives ρ st x [] a Hr Hc) as (o & l & Hl & Ho & Hxs).
  destruct o as [t|].
  { exfalso. destruct Ho as (h & Hw & _). apply wfroot_tsize in Hw.
    rewrite /tsize in Hw. simpl in Hxs. rewrite Hxs /= in Hw. lia. }
  cbn [lives] in Ho. revert He.
  rewrite /exec /try_catch. cbn [exec_call gets]. rewrite /mbind /M_bind /getc /lookup_var Hl /push_back /find_end /get_root /get_size /get_height /load_seq /load.
  rewrite /mbind /M_bind /mret /M_ret.
  repeat first [rewrite Ho|progress simpl].
  match goal with |- context [emplace_single ?l ?it ?s ?st] => pose proof (first_emplace f l v a st it Ho eq_refl) as H; destruct (emplace_single l it s st) as [? ?|e st1|?] end; [done| |done].
  intros [= -> <- ->]. split; [done|]. destruct H as [[H H']|(H & q & H1 & H2)]; [left|right].
  { split; [exact H|exact H']. }
  assert (∃ n, segment_max (C:=C) = S n) as [n Hn] by (exists (pred (segment_max (C:=C))); pose proof (segment_max_pos (C:=C)); lia).
  rewrite Hn in H2.
  split_and!; [exact H| | | |].
  - eexists. rewrite /size_ /get_size /load_seq /load /mbind /M_bind /mret /M_ret. simpl. rewrite H1. done.
  - rewrite /at_ /it_deref /dereference /find_index /read_slot /slot /load_seg /get_size /get_root /get_height /load_seq /load /mbind /M_bind /mret /M_ret.
    repeat first [rewrite H1|rewrite H2|progress simpl]. done.
  - rewrite /front /begin_ /find_first /it_deref /dereference /read_slot /slot /load_seg /get_size /get_root /get_height /load_seq /load /mbind /M_bind /mret /M_ret.
    repeat first [rewrite H1|rewrite H2|progress simpl]. done.
  - intros Htd. rewrite /dtor /purge /purge_root /purge_segment /= Htd /destroy_segment /slot /load_seg /get_size /get_root /get_height /load_seq /load /mbind /M_bind /mret /M_ret.
    repeat first [rewrite H1|rewrite H2|progress simpl]. rewrite /mbind /M_bind.
    repeat first [rewrite H1|rewrite H2|progress simpl]. done.
Qed.
End moves.
(** a full segment that has to be split: one element has been moved out of it and destroyed
    when the exception comes; its place in the sequence is not an object any more *)
Definition W42' : cfg nat := with_moves W0 (λ k, negb (k =? st_clk st0 + 5)).
Theorem C42_hole : ∃ ρ st ρ' st',
  make (C:=W42') program no_env start = Ok ρ st ∧ container_at st ρ 1 = Some ([21;22;23], 7) ∧
  exec (C:=W42') (InsertOne 1 3 (AVal 99) 10) ρ st = Ok (OExn EMove, ρ') st' ∧
  (∃ ρ1 st1, exec (C:=W42') (GetSize 1) ρ' st' = Ok (ONat 3, ρ1) st1) ∧
  exec (C:=W42') (At 1 2) ρ' st' = Fault FRaw ∧ exec (C:=W42') (Destroy 1) ρ' st' = Fault FRaw.
Proof.
  assert (match make (C:=W42') program no_env start with
    | Ok ρ st => match exec (C:=W42') (InsertOne 1 3 (AVal 99) 10) ρ st with
       | Ok (OExn EMove, ρ') st' =>
         bool_decide (container_at st ρ 1 = Some ([21;22;23], 7)) &&
         match exec (C:=W42') (GetSize 1) ρ' st' with Ok (ONat 3, _) _ => true | _ => false end &&
         match exec (C:=W42') (At 1 2) ρ' st' with Fault FRaw => true | _ => false end &&
         match exec (C:=W42') (Destroy 1) ρ' st' with Fault FRaw => true | _ => false end
       | _ => false end
    | _ => false end = true) as H by by vm_compute.
  destruct (make program no_env start) as [ρ st|? ?|?]; [|discriminate H..].
  destruct (exec (InsertOne 1 3 (AVal 99) 10) ρ st) as [[o ρ'] st'|? ?|?] eqn:He; [|discriminate H..].
  exists ρ, st, ρ', st'. destruct o as [| | | | | |[]]; try discriminate H.
  apply andb_prop in H as [H H4]. apply andb_prop in H as [H H3]. apply andb_prop in H as [H1 H2].
  split_and!; [reflexivity|exact (bool_decide_eq_true_1 _ H1)|exact He| | |].
  - destruct (exec (GetSize 1) ρ' st') as [[o ρ1] st1|? ?|?] eqn:Hg; [|discriminate H2..].
    exists ρ1, st1. destruct o; try discriminate H2. repeat (destruct n as [|n]; try discriminate H2). reflexivity.
  - destruct (exec (At 1 2) ρ' st') as [[]| |[]]; try discriminate H3. reflexivity.
  - destruct (exec (Destroy 1) ρ' st') as [[]| |[]]; try discriminate H4. reflexivity.
Qed.
