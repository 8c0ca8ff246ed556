(** * Examples: for each theorem a concrete case that meets its hypotheses.

    [X_case] applies theorem [X] to the world of World.v (container 0 is a tree of
    four levels, 11 segments and 8 index nodes); where the theorem is about a call
    that fails, to a world in which that call fails. *)
From Verif Require Import PropsHistory PropsBasic PropsIter PropsMemory PropsSafety PropsContainers PropsAssign
  PropsList PropsSegment PropsCtor PropsCost PropsConst PropsExn PropsPred PropsThreads Complexity PropsTime PropsWalk Defects PropsLimits PropsAsked PropsValid PropsCopies PropsMoves PropsReuse PropsSelf PropsShape PropsGrow PropsLocal LocalMany LocalErase PropsSchedule PropsAlias PropsBack PropsShift.
From stdpp Require Import options.

Ltac lt_ := unfold fits; first [apply Nat.ltb_lt; vm_compute; reflexivity | apply Nat.leb_le; vm_compute; reflexivity].
Ltac ev := by vm_compute.
Notation R0 := W0_reached.

(** ** C01, C18 *)
(** a client that builds, pushes, reads and destroys; whatever is answered it does
    nothing that is not allowed *)
Definition a_client : client (T:=nat) :=
  Call (NewRange 0 (RList [3;1;2]) 5) (λ o,
  match o with
  | OUnit => Call (PushBack 0 (AVal 4)) (λ _, Call (At 0 3) (λ _, Call (Destroy 0) (λ _, Stop)))
  | _ => Stop
  end).
Lemma a_client_safe : safe W0 (SSt ∅ ∅) a_client.
Proof.
  cbn [safe a_client]. split.
  - split_and!; [done|eexists; split; [done|]; lt_|by intros ?].
  - intros o σ1 (xs & [= <-] & [[-> ->]|(e & j & [-> _] & _ & ->)]); [|done]. cbn [safe]. split.
    { split_and!; [by eexists|by eexists|]. lt_. }
    intros o σ2 (v & [= <-] & Hs). assert (live σ2 0) as Hl by (destruct Hs as [[_ ->]|[[_ ->]|[_ ->]]]; by eexists).
    split; [done|]. intros o' σ3 Hs'. assert (σ3 = σ2) as -> by apply Hs'.
    split; [|done]. split; [done|by intros ?].
Qed.
Definition C01_history_case := C01_history (C:=W0) a_client 0 (Cnt 0 0 [] 0 []) a_client_safe.
Definition C18_run_no_fault_case := λ f, C18_run_no_fault (C:=W0) a_client 0 (Cnt 0 0 [] 0 []) f a_client_safe.
(** nothing fails in W0 *)
Lemma W0_calm : ∀ e, ¬ raisable W0 e.
Proof. intros [] H; try done; [by destruct H as (? & ? & ?)|by destruct H as (? & ?)]. Qed.
Lemma W0_steady : ¬ pred_fails W0.
Proof. by intros [n H]. Qed.
Definition C01_no_failure_case := C01_no_failure (C:=W0) (SSt ∅ ∅) [] (SSt ∅ ∅) (At 0 0) EOutOfRange W0_calm W0_steady.
(** the state of W0 and what the call that clears container 0 needs *)
Lemma R0_clear : ∃ σ, reachable W0 σ ρ0 st0 ∧ pre W0 σ (Clear 0) ∧ ¬ touches σ (Clear 0) 1 ∧ ¬ replaces (C:=W0) (Clear 0) 1.
Proof.
  destruct R0 as [σ Hr]. exists σ. split_and!; [done| |by intros [H%elem_of_list_singleton|(w & p & []%elem_of_nil & _)]|by intros []].
  split; [|by intros ?]. rewrite /live (reachable_conts _ _ _ 0 Hr) W0_0. by eexists.
Qed.
Example C18_no_fault_case : ∃ σ, ∀ f, reachable W0 σ ρ0 st0 ∧ exec (C:=W0) (Clear 0) ρ0 st0 ≠ Fault f.
Proof. destruct R0_clear as (σ & Hr & Hp & _). exists σ. intros f. split; [done|by apply (C18_no_fault σ)]. Qed.
Example C41_frame_case : ∃ ρ' st', container_at (T:=nat) st' ρ' 1 = Some ([21;22;23], 7) ∧ container_at st' ρ' 0 = Some ([], 7).
Proof.
  destruct R0_clear as (σ & Hr & Hp & Ht & _).
  destruct (C23_clear (C:=W0) ρ0 st0 0 _ _ R0 W0_0) as (st' & He & _ & Hc & _); [done|]. exists ρ0, st'. split; [|done].
  by destruct (C41_frame (C:=W0) σ ρ0 st0 (Clear 0) _ _ _ 1 _ _ 21%positive Hr Hp He W0_1) as (_ & H & _); [ev|done|].
Qed.
Example C27_kept_case : ∃ ρ' st' xs' a', exec (C:=W0) (Clear 0) ρ0 st0 = Ok (OUnit, ρ') st' ∧
  container_at st' ρ' 1 = Some (xs', a') ∧ a' = 7.
Proof.
  destruct R0_clear as (σ & Hr & Hp & Ht & Hn).
  destruct (C23_clear (C:=W0) ρ0 st0 0 _ _ R0 W0_0) as (st' & He & _ & Hc & _); [done|].
  destruct (C41_frame (C:=W0) σ ρ0 st0 (Clear 0) _ _ _ 1 _ _ 21%positive Hr Hp He W0_1) as (_ & H & _); [ev|done|].
  eexists ρ0, st', _, _. split_and!; [done|done|]. by apply (C27_kept σ ρ0 st0 (Clear 0) _ _ _ 1 _ _ _ _ Hr Hp He Hn W0_1 H).
Qed.
(** a step with a choice of outcomes has one outcome among those that succeed *)
Example C01_deterministic_case : ∃ σ c o σ', step W0 σ c o σ' ∧ ∀ e, o ≠ OExn e.
Proof. exists (SSt ∅ ∅), (New 0 7), OUnit. eexists. by split; [split|]. Qed.

(** ** C02 - C07, C34 *)
Definition C02_insert_case := C02_insert (C:=W0) ρ0 st0 0 0 99 10 5 _ _ R0 W0_0 W0_w0 ltac:(lt_).
Definition C02_insert_end := C02_insert (C:=W0) ρ0 st0 0 2 99 10 12 _ _ R0 W0_0 W0_w2 ltac:(lt_).
Definition C02_insert_empty := C02_insert (C:=W0) ρ0 st0 2 5 99 10 0 _ _ R0 W0_2 W0_w5 ltac:(lt_).
Definition C34_insert_alias_case := C34_insert_alias (C:=W0) ρ0 st0 0 0 1 10 10 5 9 _ _ R0 W0_0 W0_w0 W0_w1 eq_refl ltac:(lt_).
Definition C06_push_back_case := C06_push_back (C:=W0) ρ0 st0 0 (ARef 0) 6 _ _ R0 W0_0 (ex_intro _ 5 (conj W0_w0 eq_refl)) ltac:(lt_).
Definition C06_push_front_case := C06_push_front (C:=W0) ρ0 st0 0 (ARef 0) 6 _ _ R0 W0_0 (ex_intro _ 5 (conj W0_w0 eq_refl)) ltac:(lt_).
Definition C06_pop_back_case := C06_pop_back (C:=W0) ρ0 st0 1 23 [21;22] 7 R0 W0_1.
Definition C06_pop_front_case := C06_pop_front (C:=W0) ρ0 st0 1 21 [22;23] 7 R0 W0_1.
Definition C06_front_case := proj1 (C06_front_back (C:=W0) ρ0 st0 1 21 [22;23] 0 7 R0) W0_1.
Definition C06_back_case := proj2 (C06_front_back (C:=W0) ρ0 st0 1 0 [21;22] 23 7 R0) W0_1.
Definition C03_erase_case := C03_erase (C:=W0) ρ0 st0 0 0 10 5 _ _ R0 W0_0 W0_w0 ltac:(lt_).
Definition C04_erase_range_case := C04_erase_range (C:=W0) ρ0 st0 0 0 1 10 5 9 _ _ R0 W0_0 W0_w0 W0_w1 ltac:(lt_).
Definition C05_insert_count_case := C05_insert_count (C:=W0) ρ0 st0 0 0 20 99 10 5 _ _ R0 W0_0 W0_w0 ltac:(lt_).
Definition C05_insert_range_case := C05_insert_range (C:=W0) ρ0 st0 0 0 [7;8;9] 10 5 _ _ R0 W0_0 W0_w0 ltac:(lt_).
Definition C05_insert_range_of_case := C05_insert_range_of (C:=W0) ρ0 st0 1 3 0 0 1 5 9 10 1 _ _ _ _
  R0 ltac:(done) ltac:(done) ltac:(done) W0_1 W0_w3 W0_0 W0_w0 W0_w1 ltac:(lt_) ltac:(lt_).
Definition C07_at_case := C07_at (C:=W0) ρ0 st0 0 11 _ _ R0 W0_0.
Definition C07_size_case := C07_size (C:=W0) ρ0 st0 0 _ _ R0 W0_0.

(** ** C08 - C14 *)
Definition C08_nth_case := C08_nth (C:=W0) ρ0 st0 0 7 10 _ _ R0 W0_0.
Definition C08_begin_end_case := C08_begin_end (C:=W0) ρ0 st0 0 10 _ _ R0 W0_0.
Definition C08_index_of_case := C08_index_of (C:=W0) ρ0 st0 0 0 5 _ _ R0 W0_0 W0_w0.
Definition C08_unique_case := C08_unique (C:=W0) ρ0 st0 0 0 0 5 R0 W0_w0 W0_w0.
Definition C09_next_case := C09_next (C:=W0) ρ0 st0 0 10 0 5 _ _ R0 W0_0 W0_w0 ltac:(lt_).
Definition C10_prev_case := C10_prev (C:=W0) ρ0 st0 2 10 0 12 R0 W0_w2 ltac:(lt_).
Definition C10_rderef_case := C10_rderef (C:=W0) ρ0 st0 2 0 12 _ _ 12 R0 W0_0 W0_w2 ltac:(lt_) eq_refl.
Definition C11_jump_case := C11_jump (C:=W0) ρ0 st0 0 10 0 5 (-3)%Z _ _ R0 W0_0 W0_w0 ltac:(vm_compute; split; discriminate).
Definition C12_compare_case := C12_compare (C:=W0) ρ0 st0 0 1 0 5 9 R0 W0_w0 W0_w1.
Definition C12_difference_case := C12_difference (C:=W0) ρ0 st0 0 1 0 5 9 R0 W0_w0 W0_w1 ltac:(ev).
Definition C09_traverse_case := C09_traverse (C:=W0) ρ0 st0 0 10 11 20 _ _ R0 ltac:(done) W0_0 ltac:(lt_).
Definition C10_reverse_traverse_case := C10_reverse_traverse (C:=W0) ρ0 st0 0 10 11 20 _ _ R0 ltac:(done) W0_0 ltac:(lt_).
Definition C10_inverse_case := C10_inverse (C:=W0) ρ0 st0 0 0 5 _ _ R0 W0_0 W0_w0 ltac:(lt_).
(** position 9 of container 0, in the segment before the last *)
Definition seg9 : segment_of st0 ρ0 0 9
  [(2%positive, [1]); (3%positive, [2]); (5%positive, [3]); (6%positive, [4]); (9%positive, [5]); (10%positive, [6]);
   (12%positive, [7]); (13%positive, [8]); (17%positive, [9])] 18%positive [10] [(20%positive, [11; 12])] 0.
Proof. split_and!; [ev|done|left; lt_]. Qed.
Definition C13_pointers_case := C13_pointers (C:=W0) ρ0 st0 0 1 9 _ _ R0 W0_0 ltac:(done) W0_w1.
Definition C13_after_case := C13_after (C:=W0) ρ0 st0 0 1 10 9 _ _ _ _ _ _ _ R0 W0_0 ltac:(done) W0_w1 seg9.
Definition C13_after_count_case := C13_after_count (C:=W0) ρ0 st0 0 1 10 1 9 _ _ _ _ _ _ _ R0 W0_0 ltac:(done) W0_w1 seg9 ltac:(lt_).
Definition C13_before_case := C13_before (C:=W0) ρ0 st0 0 1 10 9 _ _ _ _ _ _ _ R0 W0_0 ltac:(done) W0_w1 seg9 ltac:(done).
Example C14_case : ∃ it it' st' st'', e_iter ρ0 !! 1 = Some it ∧ move_before_segment_count (C:=W0) it 2 st0 = Ok it' st' ∧
  it_deref it' st0 = Ok 8 st'' ∧ index_of it' = 10.
Proof.
  destruct (e_iter ρ0 !! 1) as [it|] eqn:E; [|by vm_compute in E].
  destruct (C14_what_it_does (C:=W0) ρ0 st0 0 1 10 9 _ _ _ _ _ _ _ it 2 R0 W0_0 ltac:(done) W0_w1 E seg9 ltac:(split; lt_))
    as (it' & st' & _ & _ & Hm & _ & _ & _ & (v & st'' & [= <-] & Hd) & Hi).
  exists it, it', st', st''. split_and!; [done|done|done|]. by rewrite Hi.
Qed.

(** ** C15 - C19, C38 - C40, C43 *)
Definition C15_height_case := C15_height (C:=W0) ρ0 st0 0 _ _ R0 W0_0.
Definition seq0 : { s | seq_at st0 ρ0 0 = Some s ∧ s_root s = Some 14%positive }.
Proof. destruct (seq_at st0 ρ0 0) as [s|] eqn:E; [|by vm_compute in E]. exists s. split; [done|]. vm_compute in E. by injection E as <-. Defined.
Definition segs0 : { ss | segments st0 ρ0 0 = Some ss ∧ (20%positive, [11; 12]) ∈ ss }.
Proof.
  exists [(2%positive, [1]); (3%positive, [2]); (5%positive, [3]); (6%positive, [4]); (9%positive, [5]); (10%positive, [6]);
   (12%positive, [7]); (13%positive, [8]); (17%positive, [9]); (18%positive, [10]); (20%positive, [11; 12])].
  split; [ev|]. apply (elem_of_list_lookup_2 _ 10). done.
Defined.
Definition C15_depth_case := C15_depth (C:=W0) ρ0 st0 0 _ _ _ R0 (proj1 (proj2_sig seq0)) (proj2 (proj2_sig seq0)) (proj1 (proj2_sig segs0)).
Definition C16_segments_case := C16_segments (C:=W0) ρ0 st0 0 _ R0 (proj1 (proj2_sig segs0)) _ _ (proj2 (proj2_sig segs0)).
Lemma node19 : 19%positive ∈ index_nodes st0 ρ0 0.
Proof. apply (elem_of_list_lookup_2 _ 7). ev. Qed.
Definition C16_nodes_case := C16_nodes (C:=W0) ρ0 st0 0 _ 19%positive R0 (proj1 (proj2_sig seq0)) node19.
Definition C17_overhead_case := C17_overhead (C:=W0) ρ0 st0 0 _ _ _ R0 W0_0 (proj1 (proj2_sig segs0)).
Definition C19_inventory_case := C19_inventory (C:=W0) ρ0 st0 19%positive R0.
Definition C19_ownership_case := C19_ownership (C:=W0) ρ0 st0 0 _ _ 1%positive R0 W0_0 ltac:(ev).
Definition C19_destroy_case := C19_destroy (C:=W0) ρ0 st0 0 _ _ 1%positive R0 W0_0 ltac:(ev) ltac:(done).
(** a container is made and destroyed: nothing is left *)
Example C19_no_leak_case : ∃ ρ1 st1 ρ st, reached W0 ρ1 st1 ∧ container_at st1 ρ1 0 = Some ([1;2;3;4;5], 7) ∧
  exec (C:=W0) (Destroy 0) ρ1 st1 = Ok (OUnit, ρ) st ∧ (∀ x, container_at st ρ x = None) ∧ st_heap st = ∅.
Proof.
  assert (reached W0 no_env start) as H0 by (eexists; constructor).
  destruct (C45_list (C:=W0) no_env start 0 [1;2;3;4;5] 7 H0) as (o & ρ1 & st1 & He & Hr1 & Ho & Hc); [done|lt_|by intros ?|].
  destruct Hc as [[_ Hc]|[(e & -> & []%W0_calm) _]].
  destruct (reached_lives _ _ _ _ _ Hr1 Hc) as (_ & l & Hl & _).
  destruct (C19_destroy (C:=W0) ρ1 st1 0 _ _ l Hr1 Hc Hl) as (ρ2 & st2 & He2 & Hr2 & Hn & Hoth & _); [done|].
  assert (∀ x, container_at st2 ρ2 x = None) as Hall.
  { clear -Ho Hn Hoth. intros x. destruct (decide (x = 0)) as [->|Hx]; [exact Hn|]. rewrite (Hoth x Hx).
    destruct (Ho x) as (Hk & _); [intros ?%elem_of_list_singleton; contradiction|]. rewrite Hk. rewrite /container_at /segments /seq_at /= lookup_empty. reflexivity. }
  exists ρ1, st1, ρ2, st2. split_and!; [exact Hr1|exact Hc|exact He2|exact Hall|exact (C19_no_leak (C:=W0) _ _ Hr2 Hall)].
Qed.
Definition C38_lifetimes_case := C38_lifetimes (C:=W0) ρ0 st0 0 _ _ _ R0 (proj1 (proj2_sig segs0)) (proj2 (proj2_sig segs0)).
Definition C38_count_case := C38_count (C:=W0) ρ0 st0 0 _ _ R0 W0_0 ltac:(done).
Example C39_fields_case : ∃ al nd n i, st_heap st0 !! 19%positive = Some (ONode al nd) ∧ n_len nd = Some n ∧ n_pidx nd = Some i ∧ n < 16 ∧ i < 3.
Proof.
  destruct (C16_nodes_case) as (al & nd & cs & Hl & _).
  destruct (C39_fields (C:=W0) ρ0 st0 0 19%positive al nd R0 node19 Hl) as (cs' & n & i & _ & Hn & _ & Hlt & Hi & Hlt' & _).
  exists al, nd, n, i. split_and!; assumption.
Qed.
Definition C40_sizes_case := C40_sizes (C:=W0) ρ0 st0 0 _ _ R0 W0_0.
Definition C43_segment_bytes_case := C43_segment_bytes (C:=W0) ltac:(lt_).
Definition C43_node_bytes_case := C43_node_bytes (C:=W0) ltac:(lt_).
Lemma block19 : 19%positive ∈ blocks_of st0 ρ0 0.
Proof. apply elem_of_list_In. assert (existsb (Pos.eqb 19) (blocks_of st0 ρ0 0) = true) as (k & Hk & <-%Pos.eqb_eq)%existsb_exists by ev. done. Qed.
Definition C43_blocks_case := C43_blocks (C:=W0) ρ0 st0 0 19%positive R0 block19.

(** ** C20, C21: calls that fail *)
(** the insertion splits a segment, the allocation of the new segment fails *)
Definition W20 : cfg nat := world_cfg 16 false true false 16 (fails_at (st_clk st0 + 2)).
Global Instance W20_ok : cfg_ok W20.
Proof. apply world_ok; [by left|lia|done]. Qed.
Lemma W20_reached : reached W20 (made W20).1 (made W20).2.
Proof. by apply made_reached; [apply _|intros ?|vm_compute]. Qed.
Lemma W20_1 : container_at (made W20).2 (made W20).1 1 = Some ([21;22;23], 7). Proof. ev. Qed.
Example C20_strong_case : ∃ st', exec (C:=W20) (PushBack 1 (AVal 9)) (made W20).1 (made W20).2 = Ok (OExn EAlloc, (made W20).1) st' ∧
  container_at st' (made W20).1 1 = Some ([21;22;23], 7) ∧ dom (st_heap st') = dom (st_heap (made W20).2).
Proof.
  assert (outcome W20 (PushBack 1 (AVal 9)) (made W20).1 (made W20).2 1 = Some (OExn EAlloc, ([21;22;23], 7))) as H by ev.
  apply outcome_spec in H as (ρ' & st' & He & Hc).
  destruct (C20_strong (C:=W20) _ _ (PushBack 1 (AVal 9)) 1 (AVal 9) 9 _ _ _ _ _ W20_reached W20_1 ltac:(lt_) (or_introl eq_refl) eq_refl He)
    as (_ & Hρ & _ & Hd & _ & _ & Hcs & _).
  rewrite Hρ in He. exists st'. split_and!; [exact He| |exact Hd].
  rewrite (proj1 (Hcs 1 I)). exact W20_1.
Qed.
Definition W21 : cfg nat := world_cfg 16 false true false 16 (fails_at (st_clk st0 + 27)).
Global Instance W21_ok : cfg_ok W21.
Proof. apply world_ok; [by left|lia|done]. Qed.
Lemma W21_reached : reached W21 (made W21).1 (made W21).2.
Proof. by apply made_reached; [apply _|intros ?|vm_compute]. Qed.
(** the fourth allocation of the constructor fails: the elements that were there are gone *)
Example C21_ctor_case : ∃ ρ' st' e, exec (C:=W21) (NewRange 9 (RList [1;2;3;4;5]) 7) (made W21).1 (made W21).2 = Ok (OExn e, ρ') st' ∧
  ρ' = (made W21).1 ∧ dom (st_heap st') = dom (st_heap (made W21).2).
Proof.
  destruct W21_reached as [σ Hr].
  assert (pre W21 σ (NewRange 9 (RList [1;2;3;4;5]) 7)) as Hp.
  { split_and!; [|eexists; split; [reflexivity|lt_]|by intros ?].
    rewrite /unused (reachable_conts _ _ _ 9 Hr). ev. }
  assert (match exec (C:=W21) (NewRange 9 (RList [1;2;3;4;5]) 7) (made W21).1 (made W21).2 with Ok (OExn _, _) _ => true | _ => false end = true) as H by ev.
  destruct (exec (C:=W21) (NewRange 9 (RList [1;2;3;4;5]) 7) (made W21).1 (made W21).2) as [[o ρ'] st'|e st'|f] eqn:He; [|discriminate H..].
  destruct o as [| | | | | |e]; try discriminate H.
  destruct (C21_ctor (C:=W21) _ _ 9 _ _ _ _ σ Hr Hp (or_intror (ex_intro _ _ (ex_intro _ _ eq_refl))) He) as (Hρ & _ & Hd & _).
  exists ρ', st', e. split_and!; [reflexivity|exact Hρ|exact Hd].
Qed.

(** ** C23 - C29 *)
Definition C23_clear_case := C23_clear (C:=W0) ρ0 st0 0 _ _ R0 W0_0 ltac:(done).
Definition C24_swap_case := C24_swap (C:=W0) ρ0 st0 0 1 _ _ _ _ R0 W0_0 W0_1 (or_intror eq_refl).
Definition C24_involution_case := C24_involution (C:=W0) ρ0 st0 0 1 _ _ _ _ R0 W0_0 W0_1 (or_intror eq_refl).
(** allocators that propagate: containers 0 and 3 have different ones *)
Definition WP : cfg nat := world_cfg 16 false true true 16 never.
Global Instance WP_ok : cfg_ok WP.
Proof. apply world_ok; [by left|lia|done]. Qed.
Lemma WP_reached : reached WP (made WP).1 (made WP).2.
Proof. by apply made_reached; [apply _|intros ?|vm_compute]. Qed.
Lemma WP_0 : container_at (made WP).2 (made WP).1 0 = Some ([1;2;3;4;5;6;7;8;9;10;11;12], 7). Proof. ev. Qed.
Lemma WP_3 : container_at (made WP).2 (made WP).1 3 = Some ([5;5;6], 8). Proof. ev. Qed.
Definition C24_swap_propagate := C24_swap (C:=WP) _ _ 0 3 _ _ _ _ WP_reached WP_0 WP_3 (or_introl eq_refl).
Definition C25_move_assign_propagate := C25_move_assign (C:=WP) _ _ 0 3 _ _ _ _ WP_reached ltac:(done) WP_0 WP_3 (or_introl eq_refl) ltac:(done).
Definition C26_copy_assign_propagate := C26_copy_assign (C:=WP) _ _ 0 3 _ _ _ _ WP_reached ltac:(done) WP_0 WP_3 ltac:(done).
Definition C25_move_ctor_case := C25_move_ctor (C:=W0) ρ0 st0 9 0 _ _ R0 W0_9 W0_0.
Definition C25_move_ctor_same_alloc_case := C25_move_ctor_same_alloc (C:=W0) ρ0 st0 9 0 _ _ R0 W0_9 W0_0 ltac:(done).
Definition C25_move_ctor_other_alloc_case := C25_move_ctor_other_alloc (C:=W0) ρ0 st0 9 0 8 _ _ R0 W0_9 W0_0 ltac:(done) ltac:(done).
Definition C25_move_assign_case := C25_move_assign (C:=W0) ρ0 st0 0 1 _ _ _ _ R0 ltac:(done) W0_0 W0_1 (or_intror eq_refl) ltac:(done).
Definition C25_move_assign_each_case := C25_move_assign_each (C:=W0) ρ0 st0 0 3 _ _ _ _ R0 ltac:(done) W0_0 W0_3 eq_refl ltac:(done).
Definition C25_self_move_case := C25_self_move (C:=W0) ρ0 st0 0 _ _ R0 W0_0 ltac:(done).
Definition C26_copy_ctor_case := C26_copy_ctor (C:=W0) ρ0 st0 9 0 _ _ _ _ R0 W0_9 W0_0 ltac:(done) (or_introl (conj eq_refl eq_refl)).
Definition C26_copy_ctor_alloc := C26_copy_ctor (C:=W0) ρ0 st0 9 0 _ _ _ 3 R0 W0_9 W0_0 ltac:(done) (or_intror eq_refl).
Definition C26_copy_assign_case := C26_copy_assign (C:=W0) ρ0 st0 0 3 _ _ _ _ R0 ltac:(done) W0_0 W0_3 ltac:(done).
Definition C26_self_assign_case := C26_self_assign (C:=W0) ρ0 st0 0 _ _ R0 W0_0.
Definition C27_allocator_case := C27_allocator (C:=W0) ρ0 st0 0 _ _ 1%positive R0 W0_0 ltac:(ev).
(** an element of container 0 as argument for container 1 *)
Lemma arg0 : const_arg (C:=W0) st0 ρ0 1 (ARef 0) 6.
Proof. exists 0, 5, [1;2;3;4;5;6;7;8;9;10;11;12], 7. split_and!; [discriminate|exact W0_w0|exact W0_0|reflexivity]. Qed.
Definition C28_assign_count_case := C28_assign_count (C:=W0) ρ0 st0 1 30 (ARef 0) 6 _ _ R0 W0_1 arg0 ltac:(lt_).
Definition C28_assign_list_case := C28_assign_list (C:=W0) ρ0 st0 1 [1;2;3;4;5;6] _ _ R0 W0_1 ltac:(lt_).
Definition C28_assign_range_case := C28_assign_range (C:=W0) ρ0 st0 1 true 0 1 0 5 9 _ _ _ _ R0 ltac:(done) W0_1 W0_0 W0_w0 W0_w1 ltac:(lt_) ltac:(lt_).
Definition C29_resize_case := C29_resize (C:=W0) ρ0 st0 1 30 (ARef 0) 6 _ _ R0 W0_1 arg0 ltac:(lt_).
Definition C22_by_one_case := C22_by_one (C:=W0) ρ0 st0 1 4 (ARef 0) 6 _ _ R0 W0_1 arg0 ltac:(lt_) ltac:(lt_).

(** ** C30 - C33 *)
Definition C30_splice_all_case := C30_splice_all (C:=W0) ρ0 st0 1 3 0 1 _ _ _ _ R0 ltac:(done) W0_1 W0_0 W0_w3 ltac:(done) ltac:(lt_).
Definition C30_splice_one_case := C30_splice_one (C:=W0) ρ0 st0 1 3 0 0 1 5 6 _ _ _ _ R0 ltac:(done) W0_1 W0_0 W0_w3 W0_w0 eq_refl ltac:(lt_).
Definition C30_splice_range_case := C30_splice_range (C:=W0) ρ0 st0 1 3 0 0 1 1 5 9 _ _ _ _
  R0 ltac:(done) ltac:(done) ltac:(done) W0_1 W0_0 W0_w3 W0_w0 W0_w1 ltac:(lt_) ltac:(lt_).
Lemma ltb_weak : strict_weak Nat.ltb.
Proof.
  split; intros x y; [intros H%Nat.ltb_lt; apply Nat.ltb_ge; lia|].
  intros z H1%Nat.ltb_ge H2%Nat.ltb_ge. apply Nat.ltb_ge. lia.
Qed.
Ltac sorted := repeat first [apply SSorted_nil | apply SSorted_cons | apply Forall_nil; exact I | apply Forall_cons; split; [vm_compute; reflexivity|] | apply List.Forall_nil | apply List.Forall_cons; [vm_compute; reflexivity|]].
Definition C31_merge_case := C31_merge (C:=W0) ρ0 st0 0 3 Nat.ltb _ _ _ _ R0 ltac:(done) W0_0 W0_3 ltac:(lt_) ltb_weak ltac:(sorted) ltac:(sorted).
Definition C32_remove_case := C32_remove (C:=W0) ρ0 st0 1 (ARef 0) 6 Nat.eqb _ _ R0 W0_1 arg0.
Definition C32_remove_if_case := C32_remove_if (C:=W0) ρ0 st0 0 Nat.even _ _ R0 W0_0.
Definition C32_unique_case := C32_unique (C:=W0) ρ0 st0 3 Nat.eqb _ _ R0 W0_3.
Definition C32_reverse_case := C32_reverse (C:=W0) ρ0 st0 0 _ _ R0 W0_0.
Definition C32_sort_case := C32_sort (C:=W0) ρ0 st0 4 Nat.ltb _ _ R0 W0_4 ltb_weak.
Definition C33_equal_case := C33_equal (C:=W0) ρ0 st0 0 3 Nat.eqb _ _ _ _ R0 W0_0 W0_3 Nat.eqb_eq.
Definition C33_less_case := C33_less (C:=W0) ρ0 st0 0 3 Nat.ltb _ _ _ _ R0 W0_0 W0_3 ltb_weak.

(** ** C37: an allocator that does not tolerate null pointers *)
Definition W37 : cfg nat := world_cfg 16 false false false 16 never.
Global Instance W37_ok : cfg_ok W37.
Proof. apply world_ok; [by left|lia|done]. Qed.
Lemma W37_reached : reached W37 (made W37).1 (made W37).2.
Proof. apply made_reached; [apply _| |by vm_compute]. intros [[] H]; try done; [by destruct H as (? & ? & ?)|by destruct H as (? & ?)]. Qed.
Definition C37_empty_case := C37_empty (C:=W37) _ _ 2 8 eq_refl W37_reached ltac:(ev).

(** ** C44 - C46 *)
Example C44_insert_case : ∃ st', exec (C:=W0) (PushBack 0 (AVal 9)) ρ0 st0 = Ok (OUnit, ρ0) st' ∧ n_allocs (st_cnt st') ≤ n_allocs (st_cnt st0) + 5.
Proof.
  destruct (C06_push_back (C:=W0) ρ0 st0 0 (AVal 9) 9 _ _ R0 W0_0 eq_refl ltac:(lt_)) as (o & st' & He & _ & [[-> _]|[(e & -> & []%W0_calm) _]]).
  exists st'. split; [exact He|]. destruct seq0 as (q & Hq & _).
  assert (s_ht q = 4) as Hh. { assert (s_ht <$> seq_at st0 ρ0 0 = Some 4) as H by ev. rewrite Hq in H. injection H as H. exact H. }
  pose proof (C44_insert (C:=W0) ρ0 st0 0 q _ _ _ _ R0 ltac:(rewrite W0_0; discriminate) Hq (or_intror (or_introl (ex_intro _ _ eq_refl))) He) as H.
  rewrite Hh in H. exact H.
Qed.
Example C44_erase_case : ∃ ρ' st', exec (C:=W0) (Erase 0 0 10) ρ0 st0 = Ok (OUnit, ρ') st' ∧ n_allocs (st_cnt st') = n_allocs (st_cnt st0).
Proof.
  destruct C03_erase_case as (ρ' & st' & He & _). exists ρ', st'. split; [exact He|exact (C44_erase (C:=W0) ρ0 st0 (Erase 0 0 10) _ _ _ eq_refl He)].
Qed.
Example C46_read_only_case : ∃ o ρ' st', exec (C:=W0) (At 0 11) ρ0 st0 = Ok (o, ρ') st' ∧ st_heap st' = st_heap st0.
Proof.
  destruct (proj1 C07_at_case 12 eq_refl) as (st' & He & _).
  eexists _, _, _. split; [exact He|]. apply (C46_read_only (C:=W0) ρ0 st0 (At 0 11) _ _ _ eq_refl He).
Qed.
Definition C45_new_case := C45_new (C:=W0) ρ0 st0 9 3 R0 W0_9.
Lemma arg9 : const_arg (C:=W0) st0 ρ0 9 (ARef 0) 6.
Proof. exists 0, 5, [1;2;3;4;5;6;7;8;9;10;11;12], 7. split_and!; [discriminate|exact W0_w0|exact W0_0|reflexivity]. Qed.
Definition C45_count_case := C45_count (C:=W0) ρ0 st0 9 30 (ARef 0) 6 3 R0 W0_9 arg9 ltac:(lt_) ltac:(done).
Definition C45_list_case := C45_list (C:=W0) ρ0 st0 9 [1;2;3;4;5;6] 3 R0 W0_9 ltac:(lt_) ltac:(done).
Definition C45_range_case := C45_range (C:=W0) ρ0 st0 9 true 0 1 0 5 9 3 _ _ R0 W0_9 W0_0 W0_w0 W0_w1 ltac:(lt_) ltac:(lt_) ltac:(done).

(** ** C47, C48 *)
Example C47_no_throw_case : ∃ st', exec (C:=W0) (Clear 0) ρ0 st0 = Ok (OUnit, ρ0) st' ∧ n_fails (st_cnt st') = n_fails (st_cnt st0).
Proof.
  destruct (C23_clear (C:=W0) ρ0 st0 0 _ _ R0 W0_0) as (st' & He & _); [done|]. exists st'. split; [exact He|].
  apply (C47_no_throw (C:=W0) ρ0 st0 (Clear 0) _ _ _ eq_refl (λ _, W0_steady) He).
Qed.
Example C47_returns_case : ∃ o ρ' st', exec (C:=W0) (Clear 0) ρ0 st0 = Ok (o, ρ') st' ∧ ∀ e, o ≠ OExn e.
Proof. destruct R0_clear as (σ & Hr & Hp & _). exact (C47_returns (C:=W0) σ ρ0 st0 (Clear 0) Hr Hp eq_refl (λ _, W0_steady)). Qed.
(** the push that throws in W20: one failure, that of allocate() *)
Example C48_reported_case : ∃ st', exec (C:=W20) (PushBack 1 (AVal 9)) (made W20).1 (made W20).2 = Ok (OExn EAlloc, (made W20).1) st' ∧
  n_fails (st_cnt st') = EAlloc :: n_fails (st_cnt (made W20).2).
Proof.
  destruct C20_strong_case as (st' & He & _). exists st'. split; [exact He|].
  exact (C48_reported (C:=W20) _ _ _ _ _ _ He).
Qed.
(** and a program that makes it and then reads past the end *)
Definition b_client : client (T:=nat) := Call (PushBack 1 (AVal 9)) (λ _, Call (At 1 7) (λ _, Call (GetSize 1) (λ _, Stop))).
Example C48_run_case : ∃ tr ρ' st', run (C:=W20) b_client (made W20).1 (made W20).2 = Ok (tr, ρ') st' ∧
  tr.*2 = [OExn EAlloc; OExn EOutOfRange; ONat 3] ∧ n_fails (st_cnt st') = [EAlloc] ++ n_fails (st_cnt (made W20).2).
Proof.
  assert (match run (C:=W20) b_client (made W20).1 (made W20).2 with
          | Ok (tr, _) _ => Some (tr.*2) | _ => None end = Some [OExn EAlloc; OExn EOutOfRange; ONat 3]) as H by ev.
  destruct (run (C:=W20) b_client (made W20).1 (made W20).2) as [[tr ρ'] st'|e st'|f] eqn:He; [|discriminate H..].
  injection H as H. exists tr, ρ', st'. split_and!; [reflexivity|exact H|].
  rewrite (C48_run (C:=W20) _ _ _ _ _ _ He). f_equal.
  assert (∀ tr : list (cmd nat * out nat), seen tr = omap (λ o : out nat, match o with OExn EOutOfRange => None | OExn e => Some e | _ => None end) tr.*2) as Hs.
  { clear. intros tr. induction tr as [|[c o] tr IH]; [reflexivity|]. unfold seen in *. change (list_fmap _ _ snd ((c, o) :: tr)) with (o :: tr.*2). cbn [omap list_omap snd fmap list_fmap]. by rewrite IH. }
  rewrite Hs H. reflexivity.
Qed.

(** ** C49-C52 *)
Notation accesses st := (n_reads (st_cnt st)).
Example C49_constant_case : ∃ o ρ' st', exec (C:=W0) (Swap 0 1) ρ0 st0 = Ok (o, ρ') st' ∧ accesses st' ≤ accesses st0 + 20.
Proof.
  assert (match exec (C:=W0) (Swap 0 1) ρ0 st0 with Ok _ _ => true | _ => false end = true) as H by ev.
  destruct (exec (C:=W0) (Swap 0 1) ρ0 st0) as [[o ρ'] st'|e st'|f] eqn:He; [|discriminate H..].
  exists o, ρ', st'. split; [reflexivity|exact (C49_constant (C:=W0) _ _ (Swap 0 1) _ _ _ eq_refl He)].
Qed.
Lemma R0_size : ∃ σ, reachable W0 σ ρ0 st0 ∧ contents σ 0 = [1;2;3;4;5;6;7;8;9;10;11;12] ∧ alloc_of σ 0 = 7 ∧ live σ 0 ∧ unused σ 9.
Proof.
  destruct R0 as [σ Hr]. pose proof (reachable_conts _ _ _ 0 Hr) as H0. rewrite W0_0 in H0.
  pose proof (reachable_conts _ _ _ 9 Hr) as H9. rewrite W0_9 in H9.
  exists σ. split_and!; [exact Hr|by rewrite /contents H0|by rewrite /alloc_of H0|by rewrite /live H0|exact H9].
Qed.
Example C49_move_alloc_case : ∃ o ρ' st', exec (C:=W0) (NewMoveAlloc 9 0 7) ρ0 st0 = Ok (o, ρ') st' ∧ accesses st' ≤ accesses st0 + 20.
Proof.
  destruct R0_size as (σ & Hr & _ & Ha & Hl & Hu).
  pose proof (C49_move_alloc (C:=W0) σ ρ0 st0 9 0 Hr) as H. rewrite Ha in H. apply H. by split_and!.
Qed.
Example C50_logarithmic_case : ∃ o ρ' st', exec (C:=W0) (PushBack 0 (AVal 3)) ρ0 st0 = Ok (o, ρ') st' ∧
  accesses st' ≤ accesses st0 + 150 * log_time W0 12.
Proof.
  destruct R0_size as (σ & Hr & Hc & _ & Hl & _).
  apply (C50_logarithmic (C:=W0) σ ρ0 st0 (PushBack 0 (AVal 3)) 12 Hr); [|by rewrite /log_size /size_of Hc].
  split_and!; [exact Hl|by eexists|rewrite Hc; lt_].
Qed.
Example C51_per_element_case : ∃ o ρ' st', exec (C:=W0) (Resize 0 20 (AVal 3)) ρ0 st0 = Ok (o, ρ') st' ∧
  accesses st' ≤ accesses st0 + 200 * ((8 + 1) * log_time W0 32).
Proof.
  destruct R0_size as (σ & Hr & Hc & _ & Hl & _).
  apply (C51_per_element (C:=W0) σ ρ0 st0 (Resize 0 20 (AVal 3)) 8 32 Hr); [|by rewrite /per_element /size_of Hc].
  split_and!; [exact Hl|lt_|done|by eexists|done].
Qed.
Example C52_linear_case : ∃ o ρ' st', exec (C:=W0) (Clear 0) ρ0 st0 = Ok (o, ρ') st' ∧
  accesses st' ≤ accesses st0 + 20 * (segment_max (C:=W0) + base_max (C:=W0)) * (12 + 1).
Proof.
  destruct R0_size as (σ & Hr & Hc & _ & Hl & _).
  apply (C52_linear (C:=W0) σ ρ0 st0 (Clear 0) 12 Hr); [|by rewrite /linear_size /size_of Hc].
  split; [exact Hl|by rewrite Hc].
Qed.
Example C53_forward_case : ∃ tr ρ' st', run (C:=W0) (repeat_call (StepNext 0 0) 7) ρ0 st0 = Ok (tr, ρ') st' ∧
  iterator_at W0 st' ρ' 0 0 12 ∧ accesses st' ≤ accesses st0 + 13 * 7 + 4 * (Nat.log2 12 + 3).
Proof. apply (C53_forward (C:=W0) ρ0 st0 0 0 5 [1;2;3;4;5;6;7;8;9;10;11;12] 7 7 R0 W0_0 W0_w0). simpl. lia. Qed.
Example C53_backward_case : ∃ tr ρ' st', run (C:=W0) (repeat_call (StepPrev 2 2) 12) ρ0 st0 = Ok (tr, ρ') st' ∧
  iterator_at W0 st' ρ' 2 0 0 ∧ accesses st' ≤ accesses st0 + 14 * 12 + 4 * (Nat.log2 12 + 3).
Proof. apply (C53_backward (C:=W0) ρ0 st0 2 0 12 [1;2;3;4;5;6;7;8;9;10;11;12] 7 12 R0 W0_0 W0_w2). lia. Qed.
Example C54_linear_plus_case : ∃ o ρ' st', exec (C:=W0) (RemoveIf 0 Nat.even) ρ0 st0 = Ok (o, ρ') st' ∧
  accesses st' ≤ accesses st0 + 50 * 12 + 200 * ((6 + 1) * log_time W0 12).
Proof.
  destruct R0_size as (σ & Hr & Hc & _ & Hl & _).
  apply (C54_linear_plus (C:=W0) σ ρ0 st0 (RemoveIf 0 Nat.even) 12 6 12 Hr Hl). by rewrite /linear_plus /size_of Hc.
Qed.

(** ** C55: the sixth predicate, or the first one, throws *)
Definition pred_at (n : nat) : faults := Faults (λ _, false) (λ _, false) (λ _, false) (λ k, k =? n).
Definition W55 (n : nat) : cfg nat := world_cfg 16 false true false 16 (pred_at n).
Global Instance W55_ok n : cfg_ok (W55 n).
Proof. apply world_ok; [by left|lia|done]. Qed.
Lemma W55_reached n : reached (W55 n) (made (W55 n)).1 (made (W55 n)).2.
Proof. by apply made_reached; [apply _|intros ?|vm_compute]. Qed.
Notation ρ5 := (made (W55 5)).1.
Notation st5 := (made (W55 5)).2.
Notation ρ6 := (made (W55 0)).1.
Notation st6 := (made (W55 0)).2.
Lemma W55_0 : container_at st5 ρ5 0 = Some ([1;2;3;4;5;6;7;8;9;10;11;12], 7). Proof. ev. Qed.
Lemma W56_0 : container_at st6 ρ6 0 = Some ([1;2;3;4;5;6;7;8;9;10;11;12], 7). Proof. ev. Qed.
Lemma W56_3 : ∃ ys b, container_at st6 ρ6 3 = Some (ys, b) ∧ length ys < 100.
Proof.
  assert (match container_at st6 ρ6 3 with Some (ys, b) => length ys <? 100 | None => false end = true) as H by ev.
  destruct (container_at st6 ρ6 3) as [[ys b]|]; [|discriminate H]. exists ys, b. split; [reflexivity|by apply Nat.ltb_lt].
Qed.
Example C55_remove_if_case : ∃ ρ' st', exec (C:=W55 5) (RemoveIf 0 Nat.even) ρ5 st5 = Ok (OExn EPred, ρ') st' ∧
  container_at st' ρ' 0 = Some ([1;3;5] ++ [4;0] ++ [6;7;8;9;10;11;12], 7) ∧ same_place (C:=W55 5) ρ5 st5 0 ρ' st'.
Proof.
  assert (outcome (W55 5) (RemoveIf 0 Nat.even) ρ5 st5 0 = Some (OExn EPred, ([1;3;5;4;0;6;7;8;9;10;11;12], 7))) as H by ev.
  apply outcome_spec in H as (ρ' & st' & He & Hc). exists ρ', st'. split_and!; [exact He|exact Hc|].
  destruct (C55_remove_if (C:=W55 5) _ _ _ _ _ _ _ _ (W55_reached 5) W55_0 He) as (-> & _ & _ & ? & _). done.
Qed.
Lemma arg5 : const_arg (C:=W55 5) st5 ρ5 0 (AVal 3) 3. Proof. done. Qed.
Example C55_remove_case : ∃ ρ' st', exec (C:=W55 5) (Remove 0 (AVal 3) Nat.eqb) ρ5 st5 = Ok (OExn EPred, ρ') st' ∧
  container_at st' ρ' 0 = Some ([1;2;4;5] ++ [0] ++ [6;7;8;9;10;11;12], 7) ∧ same_place (C:=W55 5) ρ5 st5 0 ρ' st'.
Proof.
  assert (outcome (W55 5) (Remove 0 (AVal 3) Nat.eqb) ρ5 st5 0 = Some (OExn EPred, ([1;2;4;5;0;6;7;8;9;10;11;12], 7))) as H by ev.
  apply outcome_spec in H as (ρ' & st' & He & Hc). exists ρ', st'. split_and!; [exact He|exact Hc|].
  destruct (C55_remove (C:=W55 5) _ _ _ _ _ _ _ _ _ _ (W55_reached 5) W55_0 arg5 He) as (-> & _ & _ & ? & _). done.
Qed.
Example C55_unique_case : ∃ ρ' st', exec (C:=W55 5) (Unique 0 (λ u v, u / 2 =? v / 2)) ρ5 st5 = Ok (OExn EPred, ρ') st' ∧
  container_at st' ρ' 0 = Some ([1;2;4;6] ++ [5;0] ++ [7;8;9;10;11;12], 7) ∧ same_place (C:=W55 5) ρ5 st5 0 ρ' st'.
Proof.
  assert (outcome (W55 5) (Unique 0 (λ u v, u / 2 =? v / 2)) ρ5 st5 0 = Some (OExn EPred, ([1;2;4;6;5;0;7;8;9;10;11;12], 7))) as H by ev.
  apply outcome_spec in H as (ρ' & st' & He & Hc). exists ρ', st'. split_and!; [exact He|exact Hc|].
  destruct (C55_unique (C:=W55 5) _ _ _ _ _ _ _ _ (W55_reached 5) W55_0 He) as (-> & _ & _ & ? & _). done.
Qed.
Example C55_sort_case : ∃ ρ' st', exec (C:=W55 0) (Sort 0 Nat.ltb) ρ6 st6 = Ok (OExn EPred, ρ') st' ∧
  container_at st' ρ' 0 = Some (replicate 12 0, 7) ∧ same_place (C:=W55 0) ρ6 st6 0 ρ' st'.
Proof.
  assert (outcome (W55 0) (Sort 0 Nat.ltb) ρ6 st6 0 = Some (OExn EPred, (replicate 12 0, 7))) as H by ev.
  apply outcome_spec in H as (ρ' & st' & He & Hc). exists ρ', st'. split_and!; [exact He|exact Hc|].
  destruct (C55_sort (C:=W55 0) _ _ _ _ _ _ _ _ (W55_reached 0) W56_0 He) as (-> & _ & _ & ? & _). done.
Qed.
Example C55_merge_case : ∃ ρ' st', exec (C:=W55 0) (MergeIn 0 3 Nat.ltb) ρ6 st6 = Ok (OExn EPred, ρ') st' ∧
  (∃ b, container_at st' ρ' 3 = Some ([], b)) ∧ ∃ zs a, container_at st' ρ' 0 = Some (zs, a) ∧ 12 < length zs.
Proof.
  assert (match outcome (W55 0) (MergeIn 0 3 Nat.ltb) ρ6 st6 0 with Some (OExn EPred, (zs, _)) => 12 <? length zs | _ => false end = true) as H by ev.
  destruct (outcome _ _ _ _ _) as [[o [zs a]]|] eqn:Ho; [|discriminate H]. apply outcome_spec in Ho as (ρ' & st' & He & Hc).
  destruct o as [| | | | | |[]]; try discriminate H. apply Nat.ltb_lt in H. destruct W56_3 as (ys & b & H3 & Hl).
  destruct (C55_merge (C:=W55 0) ρ6 st6 0 3 Nat.ltb _ _ _ _ ρ' st' (W55_reached 0) ltac:(done) W56_0 H3) with (2 := He) as (-> & _ & _ & Hy & _).
  { change (c_W (W55 0)) with 256. change (length [1;2;3;4;5;6;7;8;9;10;11;12]) with 12. lia. }
  exists ρ6, st'. split; [exact He|]. split; [exists b; exact Hy|]. exists zs, a. split; [exact Hc|exact H].
Qed.
Example C55_compare_case : ∃ ρ' st', exec (C:=W55 0) (CmpGe 0 3 Nat.ltb) ρ6 st6 = Ok (OExn EPred, ρ') st' ∧ ρ' = ρ6 ∧ st_heap st' = st_heap st6.
Proof.
  assert (match exec (C:=W55 0) (CmpGe 0 3 Nat.ltb) ρ6 st6 with Ok (OExn EPred, _) _ => true | _ => false end = true) as H by ev.
  destruct (exec _ _ _) as [[o ρ'] st'|e st'|f] eqn:He; [|discriminate H..]. destruct o as [| | | | | |[]]; try discriminate H.
  destruct (C55_compare (C:=W55 0) _ _ 0 3 Nat.ltb (CmpGe 0 3 Nat.ltb) _ _ ltac:(auto 10) He) as (-> & Hh & _).
  exists ρ6, st'. split; [reflexivity|]. split; [reflexivity|exact Hh].
Qed.
Example C55_source_case : ∃ σ ρ' st', reachable (W55 5) σ ρ5 st5 ∧ exec (C:=W55 5) (RemoveIf 0 Nat.even) ρ5 st5 = Ok (OExn EPred, ρ') st' ∧ contents σ 0 ≠ [].
Proof.
  destruct (W55_reached 5) as [σ Hr]. destruct C55_remove_if_case as (ρ' & st' & He & _). exists σ, ρ', st'. split_and!; [exact Hr|exact He|].
  assert (pre (W55 5) σ (RemoveIf 0 Nat.even)) as Hp.
  { pose proof (reachable_conts _ _ _ 0 Hr) as H0. rewrite W55_0 in H0. by rewrite /= /live H0. }
  exact (proj2 (C55_source (C:=W55 5) σ _ _ _ _ _ Hr Hp He)).
Qed.

(** ** C56 *)
Definition is_write (a : access) : bool := match a with AWrite _ => true | ARead _ => false end.
Definition wrote (l : loc) (tr : list access) : bool := existsb (λ a, is_write a && bool_decide (addr a = l)) tr.
Lemma wrote_spec l tr : wrote l tr = true → AWrite l ∈ tr.
Proof.
  intros (a & Ha & [Hw <-%bool_decide_eq_true]%andb_true_iff)%existsb_exists. apply elem_of_list_In in Ha. by destruct a.
Qed.
(** clearing container 0 writes it, but accesses no block of container 1 *)
Example C56_footprint_case : ∃ st' l, exec (C:=W0) (Clear 0) ρ0 st0 = Ok (OUnit, ρ0) st' ∧
  part_of st0 ρ0 0 l ∧ AWrite l ∈ accessed st0 st' ∧ ∀ a, a ∈ accessed st0 st' → ¬ part_of st0 ρ0 1 (addr a).
Proof.
  destruct R0_clear as (σ & Hr & Hp & Ht & _).
  destruct (C23_clear (C:=W0) ρ0 st0 0 _ _ R0 W0_0) as (st' & He & _); [done|].
  assert (match e_cont ρ0 !! 0 with Some l => match exec (C:=W0) (Clear 0) ρ0 st0 with Ok _ st' => wrote l (accessed st0 st') | _ => false end | _ => false end = true) as H by ev.
  destruct (e_cont ρ0 !! 0) as [l|] eqn:Hl; [|discriminate H]. rewrite He in H. exists st', l. split; [exact He|]. split.
  { split; [rewrite W0_0; by eexists|left; exact Hl]. }
  split; [exact (wrote_spec _ _ H)|]. intros a Ha Hk. apply Ht.
  exact (proj1 (C56_footprint (C:=W0) σ ρ0 st0 (Clear 0) _ _ _ 1 a Hr Hp He Ha Hk)).
Qed.
Example C56_log_case : ∃ st' k, exec (C:=W0) (Clear 0) ρ0 st0 = Ok (OUnit, ρ0) st' ∧ is_Some (st_heap st0 !! k) ∧
  AWrite k ∉ accessed st0 st' ∧ st_heap st' !! k = st_heap st0 !! k.
Proof.
  destruct C56_footprint_case as (st' & l & He & _ & _ & H).
  assert (∃ k, e_cont ρ0 !! 1 = Some k ∧ is_Some (st_heap st0 !! k)) as (k & Hk & Hs).
  { assert (match e_cont ρ0 !! 1 with Some k => match st_heap st0 !! k with Some _ => true | None => false end | None => false end = true) as Hb by ev.
    destruct (e_cont ρ0 !! 1) as [k|]; [|discriminate Hb]. exists k. split; [reflexivity|].
    destruct (st_heap st0 !! k); [by eexists|discriminate Hb]. }
  assert (AWrite k ∉ accessed st0 st') as Hn.
  { intros Hin. apply (H _ Hin). split; [rewrite W0_1; by eexists|left; exact Hk]. }
  exists st', k. split; [exact He|]. split; [exact Hs|]. split; [exact Hn|].
  exact (proj2 (C56_log (C:=W0) _ _ _ _ _ _ He) k Hn).
Qed.
Example C56_blocks_case : ∃ k y, is_Some (st_heap st0 !! k) ∧ part_of st0 ρ0 y k.
Proof.
  destruct C56_log_case as (_ & k & _ & Hk & _). destruct (C56_blocks (C:=W0) ρ0 st0 k R0 Hk) as [y Hy]. exists k, y. split; [exact Hk|exact Hy].
Qed.
Example C56_const_case : ∃ o ρ' st', exec (C:=W0) (At 0 11) ρ0 st0 = Ok (o, ρ') st' ∧ 4 < length (accessed st0 st') ∧
  ∀ a, a ∈ accessed st0 st' → a = ARead (addr a).
Proof.
  destruct (proj1 C07_at_case 12 eq_refl) as (st' & He & _).
  assert (match exec (C:=W0) (At 0 11) ρ0 st0 with Ok _ st' => 4 <? length (accessed st0 st') | _ => false end = true) as H by ev.
  rewrite He in H. apply Nat.ltb_lt in H.
  eexists _, _, st'. split; [exact He|]. split; [exact H|]. exact (C56_const (C:=W0) ρ0 st0 (At 0 11) _ _ _ eq_refl He).
Qed.
(** copying container 1 into container 0, while container 1 is compared *)
Definition copier : client (T:=nat) := Call (AssignCopy 0 1) (λ _, Stop).
Definition reader : client (T:=nat) := Call (CmpEq 1 2 Nat.eqb) (λ _, Call (CmpLt 2 1 Nat.ltb) (λ _, Stop)).
Lemma W0_live σ x : reachable W0 σ ρ0 st0 → x ≤ 2 → live σ x.
Proof.
  intros Hr Hx. rewrite /live (reachable_conts _ _ _ x Hr).
  assert (forallb (λ x, match container_at st0 ρ0 x with Some _ => true | None => false end) [0;1;2] = true) as H by ev.
  rewrite forallb_forall in H. specialize (H x). destruct (container_at st0 ρ0 x); [by eexists|].
  discriminate H. destruct x as [|[|[|x]]]; simpl; [tauto..|lia].
Qed.
Lemma copier_safe σ : reachable W0 σ ρ0 st0 → safe W0 σ copier.
Proof. intros Hr. split; [|done]. cbn [pre]. split_and!; [apply W0_live; auto..|]. by intros. Qed.
Lemma reader_safe σ : reachable W0 σ ρ0 st0 → safe W0 σ reader.
Proof.
  intros Hr. split; [cbn [pre]; split; apply W0_live; auto|].
  intros o σ' Hs. assert (σ' = σ) as -> by apply Hs.
  split; [cbn [pre]; split; apply W0_live; auto|]. done.
Qed.

Lemma copier_modifies σ y : y ≠ 0 → avoids (C:=W0) modifies y σ copier.
Proof. intros Hy. split; [|done]. by intros [->%elem_of_list_singleton|(w & p & []%elem_of_nil & _)]. Qed.
Lemma reader_modifies σ y : avoids (C:=W0) modifies y σ reader.
Proof.
  split; [by intros [[]%elem_of_nil|(w & p & []%elem_of_nil & _)]|]. intros o σ' _.
  split; [by intros [[]%elem_of_nil|(w & p & []%elem_of_nil & _)]|done].
Qed.
Lemma reader_touches σ y : y ≠ 1 → y ≠ 2 → avoids (C:=W0) touches y σ reader.
Proof.
  intros H1 H2. split; [|intros o σ' _; split; [|done]].
  all: intros [H|(w & p & []%elem_of_nil & _)]; repeat (apply elem_of_cons in H as [->|H]; [done|]); by apply elem_of_nil in H.
Qed.
Example C56_no_race_case : ∃ tr1 ρ1 st1 tr2 ρ2 st2,
  run (C:=W0) copier ρ0 st0 = Ok (tr1, ρ1) st1 ∧ run (C:=W0) reader ρ0 st0 = Ok (tr2, ρ2) st2 ∧
  ∀ a b, a ∈ accessed st0 st1 → b ∈ accessed st0 st2 → addr a = addr b → is_Some (st_heap st0 !! addr a) → a = ARead (addr a) ∧ b = a.
Proof.
  destruct R0 as [σ Hr]. apply (C56_no_race (C:=W0) σ ρ0 st0 copier reader Hr (copier_safe _ Hr) (reader_safe _ Hr)).
  intros y _. destruct (decide (y = 0)) as [->|Hy]; [right; left; by apply reader_touches|].
  right; right. split; [by apply copier_modifies|apply reader_modifies].
Qed.
(** both read the seq object of container 1 *)
Example C56_shared_case : ∃ l, e_cont ρ0 !! 1 = Some l ∧
  match run (C:=W0) copier ρ0 st0, run (C:=W0) reader ρ0 st0 with
  | Ok _ st1, Ok _ st2 => existsb (λ a, bool_decide (addr a = l)) (accessed st0 st1) && existsb (λ a, bool_decide (addr a = l)) (accessed st0 st2) = true
  | _, _ => False
  end.
Proof. exists 21%positive. split; ev. Qed.
Example C56_program_case : ∃ tr ρ' st', run (C:=W0) copier ρ0 st0 = Ok (tr, ρ') st' ∧ undisturbed st0 ρ0 st' ρ' 1 ∧
  ∀ a, a ∈ accessed st0 st' → part_of st0 ρ0 1 (addr a) → a = ARead (addr a).
Proof.
  destruct R0 as [σ Hr].
  destruct (C56_program (C:=W0) σ ρ0 st0 copier 1 Hr (copier_safe _ Hr) ltac:(rewrite W0_1; by eexists) (copier_modifies σ 1 ltac:(done)))
    as (tr & ρ' & st' & Hrun & Hu & H). exists tr, ρ', st'. split; [exact Hrun|]. split; [exact Hu|].
  intros a Ha Hk. exact (proj1 (H a Ha Hk)).
Qed.
Example C56_unmodified_case : ∃ o ρ' st', exec (C:=W0) (AssignCopy 0 1) ρ0 st0 = Ok (o, ρ') st' ∧
  touches (SSt (T:=nat) ∅ ∅) (AssignCopy 0 1) 1 ∧ undisturbed st0 ρ0 st' ρ' 1.
Proof.
  destruct R0 as [σ Hr]. destruct (copier_safe _ Hr) as [Hp _].
  destruct (call_ok (C:=W0) σ ρ0 st0 (AssignCopy 0 1) Hr Hp) as (o & ρ' & st' & _ & He & _). exists o, ρ', st'. split; [exact He|].
  split; [left; right; left|].
  exact (proj1 (C56_unmodified (C:=W0) σ ρ0 st0 (AssignCopy 0 1) o ρ' st' 1 Hr Hp He ltac:(rewrite W0_1; by eexists) (proj1 (copier_modifies σ 1 ltac:(done))))).
Qed.

(** ** C57 *)
Example C57_bound_case : length [1;2;3;4;5;6;7;8;9;10;11;12] ≤ max_size (C:=W0).
Proof. exact (C57_bound (C:=W0) ρ0 st0 0 _ _ R0 W0_0). Qed.
Definition C57_room_case := C57_room (C:=W0) ρ0 st0 0 (AVal 9) 9 _ _ R0 W0_0 eq_refl ltac:(lt_).
Definition C57_create_case := C57_create (C:=W0) ρ0 st0 9 255 1 7 R0 W0_9 ltac:(lt_) W0_calm.

(** ** C58 *)
(** what the call answers, and how many applications of a predicate it makes *)
Definition counts (C : cfg nat) (c : cmd nat) (ρ : env) (st : state nat) : option (out nat * nat) :=
  match exec (C:=C) c ρ st with
  | Ok (o, _) st' => if n_preds (st_cnt st) <=? n_preds (st_cnt st') then Some (o, n_preds (st_cnt st') - n_preds (st_cnt st)) else None
  | _ => None
  end.
Lemma counts_spec C c ρ st o m : counts C c ρ st = Some (o, m) →
  ∃ ρ' st', exec (C:=C) c ρ st = Ok (o, ρ') st' ∧ n_preds (st_cnt st') = n_preds (st_cnt st) + m.
Proof.
  rewrite /counts. destruct (exec c ρ st) as [[o' ρ'] st'|e st'|f]; [|done..]. destruct (Nat.leb_spec (n_preds (st_cnt st)) (n_preds (st_cnt st'))); [|done].
  intros [= -> <-]. exists ρ', st'. split; [done|lia].
Qed.
Lemma counts_applications C c ρ st o m (P : nat → Prop) :
  counts C c ρ st = Some (o, m) →
  (∀ ρ' st', exec (C:=C) c ρ st = Ok (o, ρ') st' → ∃ n, applications C n st o st' ∧ P n) →
  ∃ ρ' st', exec (C:=C) c ρ st = Ok (o, ρ') st' ∧ applications C m st o st' ∧ P m.
Proof.
  intros (ρ' & st' & He & Hm)%counts_spec H. exists ρ', st'. split; [done|]. destruct (H ρ' st' He) as (n & Hn & HP).
  assert (n = m) as <-; [|done]. destruct Hn as [Hn _]. lia.
Qed.
(** twelve elements: the sixth application throws; eleven pairs of neighbours, all compared *)
Example C58_remove_if_case : ∃ ρ' st', exec (C:=W55 5) (RemoveIf 0 Nat.even) ρ5 st5 = Ok (OExn EPred, ρ') st' ∧
  applications (W55 5) 6 st5 (OExn EPred) st' ∧ 6 ≤ 12.
Proof.
  apply (counts_applications _ _ _ _ _ _ (λ n, n ≤ 12)); [by vm_compute|]. intros ρ' st' He.
  destruct (C58_remove_if (C:=W55 5) _ _ _ _ _ _ _ _ _ (W55_reached 5) W55_0 He) as (n & H1 & H2 & _). exists n. split; [exact H1|exact H2].
Qed.
Example C58_remove_case : ∃ ρ' st', exec (C:=W0) (Remove 0 (AVal 3) Nat.eqb) ρ0 st0 = Ok (OUnit, ρ') st' ∧
  applications W0 12 st0 OUnit st' ∧ 12 = length [1;2;3;4;5;6;7;8;9;10;11;12].
Proof.
  apply (counts_applications _ _ _ _ _ _ (λ n, n = length [1;2;3;4;5;6;7;8;9;10;11;12])); [by vm_compute|]. intros ρ' st' He.
  destruct (C58_remove (C:=W0) _ _ _ _ _ _ _ _ _ _ R0 W0_0 He) as (n & H1 & _ & H2). exists n. split; [exact H1|apply H2; discriminate].
Qed.
Example C58_unique_case : ∃ ρ' st', exec (C:=W0) (Unique 0 (λ u v, u / 2 =? v / 2)) ρ0 st0 = Ok (OUnit, ρ') st' ∧
  applications W0 11 st0 OUnit st' ∧ 11 = length [1;2;3;4;5;6;7;8;9;10;11;12] - 1.
Proof.
  apply (counts_applications _ _ _ _ _ _ (λ n, n = length [1;2;3;4;5;6;7;8;9;10;11;12] - 1)); [by vm_compute|]. intros ρ' st' He.
  destruct (C58_unique (C:=W0) _ _ _ _ _ _ _ _ _ R0 W0_0 He) as (n & H1 & _ & H2). exists n. split; [exact H1|apply H2; discriminate].
Qed.
Example C58_equal_case : ∃ ρ' st', exec (C:=W0) (CmpNe 0 0 Nat.eqb) ρ0 st0 = Ok (OBool false, ρ') st' ∧
  applications W0 12 st0 (OBool false) st' ∧ 12 = length [1;2;3;4;5;6;7;8;9;10;11;12].
Proof.
  apply (counts_applications _ _ _ _ _ _ (λ n, n = length [1;2;3;4;5;6;7;8;9;10;11;12])); [by vm_compute|]. intros ρ' st' He.
  destruct (C58_equal (C:=W0) ρ0 st0 0 0 Nat.eqb _ _ _ _ _ _ _ _ _ (or_intror eq_refl) R0 W0_0 W0_0 He) as (n & H1 & _ & _ & H2).
  exists n. split; [exact H1|by apply H2].
Qed.
Example C58_less_case : ∃ ρ' st', exec (C:=W0) (CmpGt 0 0 Nat.ltb) ρ0 st0 = Ok (OBool false, ρ') st' ∧
  applications W0 24 st0 (OBool false) st' ∧ 24 ≤ 2 * (12 `min` 12).
Proof.
  apply (counts_applications _ _ _ _ _ _ (λ n, n ≤ 2 * (12 `min` 12))); [by vm_compute|]. intros ρ' st' He.
  destruct (C58_less (C:=W0) ρ0 st0 0 0 Nat.ltb _ _ _ _ (CmpGt 0 0 Nat.ltb) _ _ _ ltac:(auto) R0 W0_0 W0_0 He) as (n & H1 & H2).
  exists n. split; [exact H1|exact H2].
Qed.
Example C58_none_case : ∃ ρ' st', exec (C:=W0) (Reverse 0) ρ0 st0 = Ok (OUnit, ρ') st' ∧ n_preds (st_cnt st') = n_preds (st_cnt st0).
Proof.
  destruct (counts_spec W0 (Reverse 0) ρ0 st0 OUnit 0 ltac:(by vm_compute)) as (ρ' & st' & He & _). exists ρ', st'.
  split; [exact He|]. exact (C58_none (C:=W0) ρ0 st0 (Reverse 0) _ _ _ eq_refl He).
Qed.
(** C59: iterator 0 refers to element 5 of container 0, and of container 1 after a swap *)
Example C59_valid_case : ∃ st', exec (C:=W0) (Swap 0 1) ρ0 st0 = Ok (OUnit, ρ0) st' ∧ iterator_at W0 st' ρ0 0 1 5.
Proof.
  destruct (C24_swap (C:=W0) ρ0 st0 0 1 _ _ _ _ R0 W0_0 W0_1 (or_intror eq_refl)) as (st' & He & _).
  destruct R0 as [σ Hr]. exists st'. split; [exact He|].
  pose proof (see_alloc (C:=W0) _ _ _ _ (see (C:=W0) _ _ _ _ _ _ Hr W0_0)) as A0. pose proof (see_alloc (C:=W0) _ _ _ _ (see (C:=W0) _ _ _ _ _ _ Hr W0_1)) as A1.
  pose proof (see_live (C:=W0) _ _ _ _ (see (C:=W0) _ _ _ _ _ _ Hr W0_0)) as L0. pose proof (see_live (C:=W0) _ _ _ _ (see (C:=W0) _ _ _ _ _ _ Hr W0_1)) as L1.
  assert (pre W0 σ (Swap 0 1)) as Hp by (split; [exact L0|split; [exact L1|right; congruence]]).
  exact (proj1 (C59_valid (C:=W0) σ ρ0 st0 (Swap 0 1) _ _ _ 0 0 5 1 _ _ Hr Hp He W0_0 W0_w0 (λ f : False, False_ind _ f) eq_refl)).
Qed.
Definition C59_move_assign_dangles_case := C59_move_assign_dangles (C:=W0) ρ0 st0 0 0 5 1 _ _ _ _ R0 ltac:(done) W0_0 W0_1 (or_intror eq_refl) ltac:(done) W0_w0.
Definition C59_clear_dangles_case := C59_clear_dangles (C:=W0) ρ0 st0 0 0 5 _ _ R0 W0_0 ltac:(done) W0_w0.
(** the range's own iterator throws on the last comparison: everything has been inserted, the call reports the exception *)
Definition W05 : cfg nat := world_cfg 16 false true false 16 (Faults (λ _, false) (λ n, n =? st_clk st0 + 20) (λ _, false) (λ _, false)).
Example C05_late_case : outcome W05 (InsertRange 1 3 (RList [7;8]) 10) (made W05).1 (made W05).2 1 = Some (OExn EUser, ([21;7;8;22;23], 7)).
Proof. ev. Qed.
Definition f42 (k : nat) : bool := negb (k =? st_clk st0 + 3).
Example C42_first_case : ∃ ρ' st', exec (C:=with_moves W0 f42) (PushBack 2 (AVal 99)) ρ0 st0 = Ok (OExn EMove, ρ') st' ∧
  exec (C:=with_moves W0 f42) (At 2 0) ρ0 st' = Fault FRaw ∧ exec (C:=with_moves W0 f42) (Destroy 2) ρ0 st' = Fault FRaw.
Proof.
  assert (match exec (C:=with_moves W0 f42) (PushBack 2 (AVal 99)) ρ0 st0 with Ok (OExn EMove, _) _ => true | _ => false end = true) as H by ev.
  assert (match exec (C:=with_moves W0 f42) (PushBack 2 (AVal 99)) ρ0 st0 with
    | Ok _ st' => bool_decide (n_allocs (st_cnt st') = n_allocs (st_cnt st0)) | _ => false end = false) as H' by ev.
  destruct (exec (C:=with_moves W0 f42) (PushBack 2 (AVal 99)) ρ0 st0) as [[o ρ'] st'|? ?|?] eqn:He; [|discriminate H..].
  destruct o as [| | | | | |[]]; try discriminate H.
  destruct (C42_first (C:=W0) f42 ρ0 st0 2 99 8 ρ' st' R0 W0_2 He) as (_ & [[Hb _]|(_ & _ & Ha & _ & Hd)]).
  { apply bool_decide_eq_false_1 in H'. exact (False_ind _ (H' Hb)). }
  exists ρ', st'. split; [exact eq_refl|]. split; [exact Ha|exact (Hd eq_refl)].
Qed.
(** C60: 12 elements become 20 with 8 copies; merging 12 and 3 elements takes none *)
Example C60_copies_case : copies_at_most (C:=W0) 8 (Resize 0 20 (AVal 3)) ρ0 st0.
Proof.
  destruct R0_size as (σ & Hr & Hc & _ & Hl & _).
  pose proof (C60_copies (C:=W0) σ ρ0 st0 (Resize 0 20 (AVal 3)) Hr) as H. cbn [most_copies] in H. rewrite Hc in H. apply H.
  split_and!; [exact Hl|lt_|done|by eexists|done].
Qed.
Lemma W60_pre : ∃ σ, reachable W0 σ ρ0 st0 ∧ pre W0 σ (MergeIn 0 1 Nat.ltb).
Proof.
  destruct R0 as [σ Hr]. exists σ. split; [exact Hr|].
  pose proof (see (C:=W0) _ _ _ _ _ _ Hr W0_0) as E0. pose proof (see (C:=W0) _ _ _ _ _ _ Hr W0_1) as E1.
  split; [exact (see_live (C:=W0) _ _ _ _ E0)|]. split; [exact (see_live (C:=W0) _ _ _ _ E1)|]. split; [lia|].
  rewrite (see_contents (C:=W0) _ _ _ _ E0) (see_contents (C:=W0) _ _ _ _ E1). lt_.
Qed.
Example C60_none_case : exec (C:=with_copies W0 (λ _, false)) (MergeIn 0 1 Nat.ltb) ρ0 st0 = exec (C:=W0) (MergeIn 0 1 Nat.ltb) ρ0 st0.
Proof. destruct W60_pre as (σ & Hr & Hp). exact (C60_none (C:=W0) σ ρ0 st0 _ (λ _, false) Hr Hp eq_refl). Qed.
Example C60_move_only_case : ∃ o ρ' st', exec (C:=with_copies W0 (λ _, false)) (MergeIn 0 1 Nat.ltb) ρ0 st0 = Ok (o, ρ') st' ∧ o ≠ OExn EUser.
Proof. destruct W60_pre as (σ & Hr & Hp). exact (C60_move_only (C:=W0) σ ρ0 st0 _ (λ _, false) Hr Hp eq_refl). Qed.
(** splicing the second element of container 1 into container 0 *)
Example C60_splice_one_case : ∃ st', exec (C:=with_copies W0 (λ _, false)) (SpliceOne 0 0 1 3) ρ0 st0 = Ok (OExn EUser, ρ0) st'.
Proof.
  destruct R0 as [σ0 Hr0]. destruct (reached_point (C:=W0) _ _ _ _ _ _ Hr0 W0_w0) as [Hr1 H1].
  destruct (reached_point (C:=W0) _ _ _ _ _ _ Hr1 W0_w3) as [Hr H3]. refine (C60_splice_one (C:=W0) _ ρ0 st0 0 0 1 3 Hr _).
  pose proof (see (C:=W0) _ _ _ _ _ _ Hr W0_0) as E0. pose proof (see (C:=W0) _ _ _ _ _ _ Hr W0_1) as E1.
  exists 5, 1. split; [exact (at_point (C:=W0) _ 3 1 1 0 0 5 ltac:(lia) H1)|]. split; [exact H3|].
  rewrite (see_contents (C:=W0) _ _ _ _ E0) (see_contents (C:=W0) _ _ _ _ E1). split; [lt_|]. split; [lia|lt_].
Qed.
(** C61: a push into the tree of four levels (its bound speaks of one
    segment only), clearing it, and swapping it with another *)
Lemma R0_push : ∃ σ, reachable W0 σ ρ0 st0 ∧ pre W0 σ (PushBack 0 (AVal 3)).
Proof.
  destruct R0_size as (σ & Hr & Hc & _ & Hl & _). exists σ. split; [exact Hr|].
  split_and!; [exact Hl|by eexists|]. rewrite Hc. lt_.
Qed.
Example C61_moves_case : moves_at_most (C:=W0) (segment_max (C:=W0) + 2) (PushBack 0 (AVal 3)) ρ0 st0.
Proof.
  destruct R0_push as (σ & Hr & Hp). pose proof (C61_moves (C:=W0) σ ρ0 st0 _ Hr Hp I) as H. cbn [most_moves moved_arg] in H.
  rewrite Nat.add_0_r in H. exact H.
Qed.
Example C61_single_case : moves_at_most (C:=W0) (2 * segment_max (C:=W0) + 3) (PushBack 0 (AVal 3)) ρ0 st0.
Proof. destruct R0_push as (σ & Hr & Hp). exact (C61_single (C:=W0) σ ρ0 st0 _ Hr Hp I). Qed.
Example C61_none_case : exec (C:=with_moves W0 (λ _, false)) (Clear 0) ρ0 st0 = exec (C:=W0) (Clear 0) ρ0 st0.
Proof. destruct R0_clear as (σ & Hr & Hp & _). exact (C61_none (C:=W0) σ ρ0 st0 _ (λ _, false) Hr Hp I eq_refl). Qed.
Example C61_whole_case : exec (C:=with_moves W0 (λ _, false)) (Swap 0 1) ρ0 st0 = exec (C:=W0) (Swap 0 1) ρ0 st0.
Proof.
  destruct R0 as [σ Hr]. refine (C61_whole (C:=W0) σ ρ0 st0 (Swap 0 1) (λ _, false) Hr _ I).
  pose proof (see (C:=W0) _ _ _ _ _ _ Hr W0_0) as E0. pose proof (see (C:=W0) _ _ _ _ _ _ Hr W0_1) as E1.
  split; [exact (see_live (C:=W0) _ _ _ _ E0)|]. split; [exact (see_live (C:=W0) _ _ _ _ E1)|]. right.
  rewrite (see_alloc (C:=W0) _ _ _ _ E0) (see_alloc (C:=W0) _ _ _ _ E1). reflexivity.
Qed.
(** C62: {31, 32} in one segment, spliced into itself *)
Example C62_splice_all_case : ∃ ρ' st' a, exec (C:=W35) (SpliceAll 5 8 5) (made W35).1 (made W35).2 = Ok (OUnit, ρ') st' ∧
  container_at st' ρ' 5 = Some ([], a).
Proof.
  assert (outcome W35 (SpliceAll 5 8 5) (made W35).1 (made W35).2 5 = Some (OUnit, ([], 7))) as H by ev.
  apply outcome_spec in H as (ρ' & st' & He & _). destruct (C62_splice_all (C:=W35) _ _ 5 8 _ _ He) as [a Ha]. exists ρ', st', a. split; [exact He|exact Ha].
Qed.
(** C63: the client of C01 with two and with eight elements per segment; and 20
    elements, a tree in one case and three segments in the other *)
Lemma W35_calm : calm W35.
Proof. split; [|by intros [n H]]. intros [] H; try done; [by destruct H as (? & ? & ?)|by destruct H as (? & ?)]. Qed.
Lemma W63_same : same_behaviour W0 W35.
Proof. by split. Qed.
Lemma a_client_plain : plain_client a_client.
Proof. split; [done|]. intros []; done || (split; [done|]; intros ?; split; [done|]; intros ?; by split). Qed.
Lemma a_client_safe' : safe W35 (SSt ∅ ∅) a_client.
Proof.
  cbn [safe a_client]. split.
  - split_and!; [done|eexists; split; [done|]; lt_|by intros ?].
  - intros o σ1 (xs & [= <-] & [[-> ->]|(e & j & [-> _] & _ & ->)]); [|done]. cbn [safe]. split.
    { split_and!; [by eexists|by eexists|]. lt_. }
    intros o σ2 (v & [= <-] & Hs). assert (live σ2 0) as Hl by (destruct Hs as [[_ ->]|[[_ ->]|[_ ->]]]; by eexists).
    split; [done|]. intros o' σ3 Hs'. assert (σ3 = σ2) as -> by apply Hs'.
    split; [|done]. split; [done|by intros ?].
Qed.
Definition C63_program_case := C63_program W0 W35 a_client 0 (Cnt 0 0 [] 0 []) 0 (Cnt 0 0 [] 0 [])
  W63_same (conj W0_calm W0_steady) W35_calm a_client_plain a_client_safe a_client_safe'.
Lemma W63_first (C : cfg nat) {OK : cfg_ok C} : calm C → 21 < c_W C → c_null_free C = true →
  ∃ ρ st, reachable C (setc 0 (seq 1 20) 7 (SSt ∅ ∅)) ρ st.
Proof.
  intros [HN _] HW Hf.
  destruct (call_ok (C:=C) (SSt ∅ ∅) no_env (State ∅ 0 (Cnt 0 0 [] 0 [])) (NewRange 0 (RList (seq 1 20)) 7)) as (o & ρ & st & σ & _ & Hs & Hr).
  { constructor. }
  { split; [done|]. split; [|by intros ?]. eexists. split; [reflexivity|]. rewrite /fits seq_length. lia. }
  destruct Hs as (xs & [= <-] & [[_ ->]|(e & j & [_ He] & _)]); [|by destruct (HN e)]. exists ρ, st. exact Hr.
Qed.
Example C63_call_case : ∃ ρ1 st1 ρ2 st2 o ρ1' st1' ρ2' st2',
  container_at st1 ρ1 0 = Some (seq 1 20, 7) ∧ exec (C:=W0) (RemoveIf 0 Nat.even) ρ1 st1 = Ok (o, ρ1') st1' ∧
  exec (C:=W35) (RemoveIf 0 Nat.even) ρ2 st2 = Ok (o, ρ2') st2' ∧ container_at st1' ρ1' 0 = container_at st2' ρ2' 0.
Proof.
  destruct (W63_first W0 (conj W0_calm W0_steady)) as (ρ1 & st1 & H1); [cbn; lia|done|].
  destruct (W63_first W35 W35_calm) as (ρ2 & st2 & H2); [cbn; lia|done|].
  assert (live (setc 0 (seq 1 20) 7 (SSt ∅ ∅)) 0) as Hl by (by eexists).
  destruct (C63_call W0 W35 _ ρ1 st1 ρ2 st2 (RemoveIf 0 Nat.even) W63_same (conj W0_calm W0_steady) W35_calm I H1 H2 Hl Hl)
    as (o & σ' & ρ1' & st1' & ρ2' & st2' & E1 & E2 & _ & _ & E3).
  exists ρ1, st1, ρ2, st2, o, ρ1', st1', ρ2', st2'. split; [|split; [exact E1|split; [exact E2|exact (E3 0)]]].
  rewrite -(reachable_conts (C:=W0) _ _ _ 0 H1). reflexivity.
Qed.
(** C64: a push into the tree, clearing it, reversing it; and six pushes into an empty container *)
Example C64_insert_case : ∃ ρ' st', exec (C:=W0) (PushBack 0 (AVal 3)) ρ0 st0 = Ok (OUnit, ρ') st' ∧
  blocks_of st0 ρ0 0 ⊆ blocks_of st' ρ' 0 ∧
  length (blocks_of st' ρ' 0) + n_allocs (st_cnt st0) = length (blocks_of st0 ρ0 0) + n_allocs (st_cnt st').
Proof.
  destruct R0_push as (σ & Hr & Hp).
  destruct (call_ok (C:=W0) σ ρ0 st0 _ Hr Hp) as (o & ρ' & st' & σ' & He & Hst & Hr').
  assert (o = OUnit) as ->.
  { destruct Hst as (v & _ & [[-> _]|[[[-> H] _]|[[-> H] _]]]); [done|exact (False_ind _ (W0_calm _ H))..]. }
  exists ρ', st'. split; [exact He|].
  refine (proj2 (proj2 (C64_insert (C:=W0) σ ρ0 st0 _ 0 OUnit ρ' st' Hr Hp eq_refl He ltac:(done))) (mk_is_Some _ _ W0_0) _).
  apply (external_only (C:=W0)); [done|by eexists].
Qed.
Example C64_erase_case : ∃ o ρ' st', exec (C:=W0) (Clear 0) ρ0 st0 = Ok (o, ρ') st' ∧
  n_allocs (st_cnt st') = n_allocs (st_cnt st0) ∧ blocks_of st' ρ' 0 ⊆ blocks_of st0 ρ0 0.
Proof.
  destruct R0_clear as (σ & Hr & Hp & _).
  destruct (call_ok (C:=W0) σ ρ0 st0 _ Hr Hp) as (o & ρ' & st' & σ' & He & _ & _). exists o, ρ', st'. split; [exact He|].
  destruct (C64_erase (C:=W0) σ ρ0 st0 (Clear 0) 0 o ρ' st' Hr Hp eq_refl He (mk_is_Some _ _ W0_0)) as (H1 & H2 & _). split; [exact H1|exact H2].
Qed.
Example C64_rearrange_case : ∃ o ρ' st', exec (C:=W0) (Reverse 0) ρ0 st0 = Ok (o, ρ') st' ∧ blocks_of st' ρ' 0 ≡ₚ blocks_of st0 ρ0 0.
Proof.
  destruct R0_size as (σ & Hr & _ & _ & Hl & _). assert (pre W0 σ (Reverse 0)) as Hp by exact Hl.
  destruct (call_ok (C:=W0) σ ρ0 st0 _ Hr Hp) as (o & ρ' & st' & σ' & He & _ & _). exists o, ρ', st'. split; [exact He|].
  refine (proj2 (proj2 (C64_rearrange (C:=W0) σ ρ0 st0 (Reverse 0) 0 o ρ' st' Hr Hp eq_refl He)) (mk_is_Some _ _ W0_0) _).
  clear. intros y [Hy|(w & p & Hw & _)]; [exact (proj1 (elem_of_list_singleton _ _) Hy)|exact (False_ind _ (not_elem_of_nil _ Hw))].
Qed.
Definition six : list (cmd nat) := replicate 6 (PushBack 2 (AVal 3)).
Lemma pushes_safe n : ∀ σ, live σ 2 → length (contents σ 2) + n < c_W W0 → safe W0 σ (calls (replicate n (PushBack 2 (AVal 3)))).
Proof.
  induction n as [|n IH]; intros σ Hl Hn; [done|]. cbn [replicate calls foldr safe]. split.
  { split; [exact Hl|]. split; [by eexists|]. rewrite /fits. lia. }
  intros o σ' (v & [= <-] & Hs). apply IH.
  - destruct Hs as [[_ ->]|[[_ ->]|[_ ->]]]; [|exact Hl..]. rewrite /live /= /modify /write /setc /= lookup_insert. by eexists.
  - destruct Hs as [[_ ->]|[[_ ->]|[_ ->]]]; [|cbn [arg_used]; lia..].
    rewrite /contents /= /modify /write /setc /= lookup_insert /=. rewrite /put_at !app_length take_length drop_length.
    cbn [arg_used]. rewrite /contents in Hn |- *. cbn [length]. change (c_W W0) with 256 in Hn. lia.
Qed.
Definition pushed : option (list nat * nat) :=
  match run (C:=W0) (calls six) ρ0 st0 with
  | Ok (tr, ρ') st' => if forallb (λ p, match p.2 with OExn _ => false | _ => true end) tr then container_at st' ρ' 2 else None
  | _ => None
  end.
Lemma pushed_spec k : pushed = Some k → ∃ tr ρ' st', run (C:=W0) (calls six) ρ0 st0 = Ok (tr, ρ') st' ∧
  (∀ c e, (c, OExn e) ∉ tr) ∧ container_at st' ρ' 2 = Some k.
Proof.
  rewrite /pushed. destruct (run (calls six) ρ0 st0) as [[tr ρ'] st'|e st'|f]; [|done..].
  destruct (forallb _ tr) eqn:E; [|done]. intros H. exists tr, ρ', st'. split; [done|]. split; [|done].
  intros c e Hin. apply elem_of_list_In in Hin. pose proof (proj1 (forallb_forall _ _) E _ Hin) as H'. done.
Qed.
Example C64_amortized_case : ∃ tr ρ' st', run (C:=W0) (calls six) ρ0 st0 = Ok (tr, ρ') st' ∧
  container_at st' ρ' 2 = Some ([3;3;3;3;3;3], 8) ∧ n_allocs (st_cnt st') < n_allocs (st_cnt st0) + 12.
Proof.
  assert (pushed = Some ([3;3;3;3;3;3], 8)) as H by ev. apply pushed_spec in H as (tr & ρ' & st' & Hrun & Hn & Hc).
  exists tr, ρ', st'. split; [exact Hrun|]. split; [exact Hc|]. destruct R0 as [σ Hr].
  pose proof (see (C:=W0) _ _ _ _ _ _ Hr W0_2) as E2.
  refine (proj2 (C64_amortized (C:=W0) σ ρ0 st0 six 2 8 tr ρ' st' _ _ Hr _ _ W0_2 Hrun Hn Hc)).
  - apply pushes_safe; [exact (see_live (C:=W0) _ _ _ _ E2)|]. rewrite (see_contents (C:=W0) _ _ _ _ E2). lt_.
  - intros c Hin. apply elem_of_replicate in Hin as [-> _]. split; [done|by eexists].
Qed.
(** C65: a push that splits the last segment; an erasure that merges two segments *)
Definition segs65 : list (loc * list nat) :=
  [(2%positive, [1]); (3%positive, [2]); (5%positive, [3]); (6%positive, [4]); (9%positive, [5]); (10%positive, [6]);
   (12%positive, [7]); (13%positive, [8]); (17%positive, [9]); (18%positive, [10]); (20%positive, [11; 12])].
Lemma segs65_at : segments st0 ρ0 0 = Some segs65. Proof. ev. Qed.
Lemma seg0 : segment_of st0 ρ0 0 0 [] 2%positive [1] (tail segs65) 0.
Proof. split; [exact segs65_at|]. split; [done|left; lt_]. Qed.
Lemma R0_pushed : ∃ σ ρ' st', reachable W0 σ ρ0 st0 ∧ contents σ 0 = [1;2;3;4;5;6;7;8;9;10;11;12] ∧ pre W0 σ (PushBack 0 (AVal 3)) ∧
  exec (C:=W0) (PushBack 0 (AVal 3)) ρ0 st0 = Ok (OUnit, ρ') st'.
Proof.
  destruct R0_size as (σ & Hr & Hc & _ & Hl & _).
  assert (pre W0 σ (PushBack 0 (AVal 3))) as Hp. { split; [exact Hl|]. split; [by eexists|]. rewrite Hc. lt_. }
  destruct (call_ok (C:=W0) σ ρ0 st0 _ Hr Hp) as (o & ρ' & st' & σ' & He & Hst & Hr').
  assert (o = OUnit) as ->.
  { destruct Hst as (v & _ & [[-> _]|[[[-> H] _]|[[-> H] _]]]); [done|exact (False_ind _ (W0_calm _ H))..]. }
  exists σ, ρ', st'. split; [exact Hr|]. split; [exact Hc|]. split; [exact Hp|exact He].
Qed.
Example C65_insert_case : ∃ ρ' st' ss', exec (C:=W0) (PushBack 0 (AVal 3)) ρ0 st0 = Ok (OUnit, ρ') st' ∧ segments st' ρ' 0 = Some ss' ∧
  ∃ before l A B after, segment_of st0 ρ0 0 12 before l (A ++ B) after (length A) ∧
    ((length (A ++ B) < 2 ∧ ss' = before ++ (l, A ++ 3 :: B) :: after) ∨
     (length (A ++ B) = 2 ∧ ∃ new X Y, new ∉ segs65.*1 ∧ X ++ Y = A ++ 3 :: B ∧ length X = 1 ∧ ss' = before ++ (l, X) :: (new, Y) :: after)).
Proof.
  destruct R0_pushed as (σ & ρ' & st' & Hr & Hc & Hp & He).
  assert (inserts_one σ (PushBack 0 (AVal 3)) 0 3 12) as Hi. { split; [done|]. split; [by left|]. split; [done|]. by rewrite Hc. }
  destruct (C65_insert (C:=W0) σ ρ0 st0 _ 0 3 12 OUnit ρ' st' segs65 Hr Hp Hi segs65_at He ltac:(done)) as (ss' & Hs & [[E _]|H]); [by clear -E|].
  exists ρ', st', ss'. split; [exact He|]. split; [exact Hs|]. exact H.
Qed.
Example C65_insert_references_case : ∃ ρ' st' before' after', exec (C:=W0) (PushBack 0 (AVal 3)) ρ0 st0 = Ok (OUnit, ρ') st' ∧
  segment_of st' ρ' 0 0 before' 2%positive [1] after' 0.
Proof.
  destruct R0_pushed as (σ & ρ' & st' & Hr & Hc & Hp & He).
  assert (inserts_one σ (PushBack 0 (AVal 3)) 0 3 12) as Hi. { split; [done|]. split; [by left|]. split; [done|]. by rewrite Hc. }
  destruct (C65_insert_references (C:=W0) σ ρ0 st0 _ 0 3 12 OUnit ρ' st' 0 [] 2%positive [1] (tail segs65) 0 Hr Hp Hi He ltac:(done) seg0 ltac:(lt_))
    as (before' & after' & H); [|exists ρ', st', before', after'; split; [exact He|exact H]].
  clear. intros b vs a k (Hs & Hpos & Hk). rewrite segs65_at in Hs. injection Hs as Hs.
  pose proof (f_equal (fmap fst) Hs) as E. rewrite fmap_app in E. simpl in E.
  destruct b as [|[l0 ws0] b]; [injection Hs as <- _; simpl in *; lia|]. simpl in E. injection E as _ E.
  assert (2%positive ∈ b.*1 ++ 2%positive :: a.*1) as Hin by (apply elem_of_app; right; left).
  rewrite -E in Hin. clear -Hin. apply (bool_decide_pack _) in Hin. by vm_compute in Hin.
Qed.
Lemma R0_erased : ∃ σ ρ' st', reachable W0 σ ρ0 st0 ∧ at_it σ 1 0 9 ∧ pre W0 σ (Erase 0 1 10) ∧
  exec (C:=W0) (Erase 0 1 10) ρ0 st0 = Ok (OUnit, ρ') st'.
Proof.
  destruct R0_size as (σ0 & Hr0 & _). destruct (reached_point (C:=W0) _ _ _ _ _ _ Hr0 W0_w1) as [Hr Hat].
  set (σ := point 1 0 9 σ0) in *. clearbody σ. clear Hr0.
  pose proof (see (C:=W0) _ _ _ _ _ _ Hr W0_0) as E.
  assert (pre W0 σ (Erase 0 1 10)) as Hp. { exists 9. split; [exact Hat|]. rewrite (see_contents (C:=W0) _ _ _ _ E). lt_. }
  destruct (call_ok (C:=W0) σ ρ0 st0 _ Hr Hp) as (o & ρ' & st' & σ' & He & Hst & Hr').
  assert (o = OUnit) as ->. { destruct Hst as (p & _ & -> & _). done. }
  exists σ, ρ', st'. split; [exact Hr|]. split; [exact Hat|]. split; [exact Hp|exact He].
Qed.
Example C65_erase_case : ∃ ρ' st' ss' before l A v B after, exec (C:=W0) (Erase 0 1 10) ρ0 st0 = Ok (OUnit, ρ') st' ∧
  segments st' ρ' 0 = Some ss' ∧ segment_of st0 ρ0 0 9 before l (A ++ v :: B) after (length A).
Proof.
  destruct R0_erased as (σ & ρ' & st' & Hr & Hat & Hp & He).
  destruct (C65_erase (C:=W0) σ ρ0 st0 _ 0 9 OUnit ρ' st' segs65 Hr Hp (conj eq_refl Hat) segs65_at He ltac:(done))
    as (ss' & before & l & A & v & B & after & H1 & H2 & _).
  exists ρ', st', ss', before, l, A, v, B, after. split; [exact He|]. split; [exact H1|exact H2].
Qed.
Example C65_erase_references_case : ∃ ρ' st' touched, exec (C:=W0) (Erase 0 1 10) ρ0 st0 = Ok (OUnit, ρ') st' ∧ length touched ≤ 2 ∧
  (2%positive ∉ touched → ∃ before' after', segment_of st' ρ' 0 0 before' 2%positive [1] after' 0).
Proof.
  destruct R0_erased as (σ & ρ' & st' & Hr & Hat & Hp & He).
  destruct (C65_erase_references (C:=W0) σ ρ0 st0 _ 0 9 OUnit ρ' st' Hr Hp (conj eq_refl Hat) He ltac:(done) (mk_is_Some _ _ segs65_at))
    as (touched & H1 & H2).
  exists ρ', st', touched. split; [exact He|]. split; [exact H1|]. intros Hl. exact (H2 0 [] 2%positive [1] (tail segs65) 0 seg0 ltac:(lt_) Hl).
Qed.
Example C65_insert_many_case : ∃ o ρ' st' j first more, exec (C:=W0) (InsertCount 0 1 5 (AVal 3) 10) ρ0 st0 = Ok (o, ρ') st' ∧
  segments st' ρ' 0 = Some ([(2%positive, [1]); (3%positive, [2]); (5%positive, [3]); (6%positive, [4]); (9%positive, [5]); (10%positive, [6]);
   (12%positive, [7]); (13%positive, [8]); (17%positive, [9])] ++ (18%positive, first) :: more ++ [(20%positive, [11; 12])]) ∧
  first ++ concat more.*2 = take j [3;3;3;3;3] ++ [10].
Proof.
  destruct R0_size as (σ0 & Hr0 & _). destruct (reached_point (C:=W0) _ _ _ _ _ _ Hr0 W0_w1) as [Hr Hat].
  set (σ := point 1 0 9 σ0) in *. clearbody σ. clear Hr0.
  pose proof (see (C:=W0) _ _ _ _ _ _ Hr W0_0) as E.
  assert (pre W0 σ (InsertCount 0 1 5 (AVal 3) 10)) as Hp.
  { exists 9. split; [exact Hat|]. split; [done|]. split; [by eexists|]. split; [done|]. rewrite (see_contents (C:=W0) _ _ _ _ E). lt_. }
  destruct (call_ok (C:=W0) σ ρ0 st0 _ Hr Hp) as (o & ρ' & st' & σ' & He & Hst & Hr').
  assert (inserts_many σ (InsertCount 0 1 5 (AVal 3) 10) 0 [3;3;3;3;3] 9) as Hi.
  { split; [done|]. split; [exact Hat|]. exists 3. split; reflexivity. }
  destruct (C65_insert_many (C:=W0) σ ρ0 st0 _ 0 [3;3;3;3;3] 9 o ρ' st' _ _ _ _ _ Hr Hp Hi He seg9) as (j & first & more & H1 & H2 & _).
  exists o, ρ', st', j, first, more. split; [exact He|]. split; [exact H1|]. exact H2.
Qed.
Example C65_erase_range_case : ∃ o ρ' st' mid', exec (C:=W0) (Resize 0 5 (AVal 0)) ρ0 st0 = Ok (o, ρ') st' ∧
  segments st' ρ' 0 = Some ([(2%positive, [1]); (3%positive, [2]); (5%positive, [3])] ++ mid' ++ []) ∧ concat mid'.*2 = [4; 5].
Proof.
  destruct R0_size as (σ & Hr & Hc & _ & Hl & _).
  assert (pre W0 σ (Resize 0 5 (AVal 0))) as Hp. { split_and!; [exact Hl|lt_|done|by eexists|done]. }
  destruct (call_ok (C:=W0) σ ρ0 st0 _ Hr Hp) as (o & ρ' & st' & σ' & He & Hst & Hr').
  assert (erases_range (T:=nat) σ (Resize 0 5 (AVal 0)) 0 5 12) as Hi.
  { cbn [erases_range]. rewrite Hc. split; [reflexivity|]. split; [reflexivity|]. split; [lt_|reflexivity]. }
  destruct (C65_erase_range (C:=W0) σ ρ0 st0 _ 0 5 12 o ρ' st' [(2%positive, [1]); (3%positive, [2]); (5%positive, [3])]
     [(6%positive, [4]); (9%positive, [5]); (10%positive, [6]); (12%positive, [7]); (13%positive, [8]); (17%positive, [9]); (18%positive, [10]); (20%positive, [11; 12])]
     [] Hr Hp Hi He segs65_at) as (mid' & H1 & H2);
    [intros _; lt_|intros _; lt_|intros _; lt_|intros H; exact (match H eq_refl with end)|].
  exists o, ρ', st', mid'. split; [exact He|]. split; [exact H1|exact H2].
Qed.
Definition turn0 : client (T:=nat) := Call (NewCopy 8 0) (λ _, Call (PushBack 8 (AVal 7)) (λ _, Stop)).
Definition turn1 : client (T:=nat) := Call (NewCopy 9 0) (λ _, Call (PopBack 9) (λ _, Call (Begin 0 5) (λ _, Call (Deref 5) (λ _, Stop)))).
Definition turns (i : nat) : client (T:=nat) := match i with 0 => turn0 | 1 => turn1 | _ => Stop end.
(** both read container 0; program 0 builds container 8, program 1 container 9 *)
Definition theirs (i x : nat) : bool := match i with 0 => (x =? 0) || (x =? 8) | 1 => (x =? 0) || (x =? 9) | _ => false end.
Definition theirs_it (i w : nat) : bool := match i with 1 => w =? 5 | _ => false end.
Lemma turns_ok (σ : sst nat) ys a :
  conts σ !! 0 = Some (ys, a) → conts σ !! 8 = None → conts σ !! 9 = None → length ys + 1 < c_W W0 → ys ≠ [] →
  (∀ i, safe W0 (view_of (theirs i) (theirs_it i) σ) (turns i)) ∧
  (∀ i, confined (C:=W0) theirs theirs_it i (view_of (theirs i) (theirs_it i) σ) (turns i)).
Proof.
  intros H0 H8 H9 Hl Hne.
  assert (∀ e, ¬ throws W0 (OExn e) e) as Hcalm by (intros e [_ []%W0_calm]).
  assert (∀ e (o : out nat), ¬ throws W0 o e) as Hn by (intros e o [_ []%W0_calm]).
  assert (can_throw W0) as Hct by (intros [e []%W0_calm]).
  split; intros [|[|i]]; cbn [turns]; try done.
  - set (τ := view_of _ _ σ).
    assert (conts τ !! 0 = Some (ys, a)) as T0 by by rewrite view_conts.
    assert (conts τ !! 8 = None) as T8 by by rewrite view_conts. clearbody τ.
    split; [split_and!; [done|by eexists|done]|]. intros o τ1 [[_ ->]|[[e []%Hn] _]].
    split; [|done]. split_and!; [by rewrite /live /= lookup_insert; eexists|by eexists|].
    by rewrite /fits /contents /= lookup_insert /= T0.
  - set (τ := view_of _ _ σ).
    assert (conts τ !! 0 = Some (ys, a)) as T0 by by rewrite view_conts.
    assert (conts τ !! 9 = None) as T9 by by rewrite view_conts. clearbody τ.
    split; [split_and!; [done|by eexists|done]|]. intros o τ1 [[_ ->]|[[e []%Hn] _]].
    split; [by rewrite /= /contents /= lookup_insert /= T0|]. intros o2 τ2 [_ ->].
    split; [by rewrite /= /live /= lookup_insert_ne // lookup_insert_ne // T0; eexists|]. intros o3 τ3 [_ ->].
    split; [|done]. cbn [pre]. rewrite /deref /point /= lookup_insert /= /contents /= lookup_insert_ne // lookup_insert_ne // T0 /=.
    destruct ys; [done|]. by eexists.
  - split; [|split; [|split; [|intros o τ1 [[_ ->]|[[e []%Hn] _]]]]].
    + intros x Hx. cbn [names] in Hx. set_unfold in Hx. destruct Hx as [->|[->|[]]]; done.
    + intros w [].
    + intros y [Hy|(w & p & Hw & _)]; [|by apply elem_of_nil in Hw]. apply elem_of_list_singleton in Hy as ->. intros [|[|j]] Hj; done.
    + split; [|split; [|split; [|done]]].
      * intros x Hx. apply elem_of_list_singleton in Hx as ->. done.
      * intros w [].
      * intros y [Hy|(w & p & Hw & _)]; [|by apply elem_of_nil in Hw]. apply elem_of_list_singleton in Hy as ->. intros [|[|j]] Hj; done.
  - split; [|split; [|split; [|intros o τ1 _]]].
    + intros x Hx. cbn [names] in Hx. set_unfold in Hx. destruct Hx as [->|[->|[]]]; done.
    + intros w [].
    + intros y [Hy|(w & p & Hw & _)]; [|by apply elem_of_nil in Hw]. apply elem_of_list_singleton in Hy as ->. intros [|[|j]] Hj; done.
    + split; [|split; [|split; [|intros o2 τ2 _]]].
      * intros x Hx. apply elem_of_list_singleton in Hx as ->. done.
      * intros w [].
      * intros y [Hy|(w & p & Hw & _)]; [|by apply elem_of_nil in Hw]. apply elem_of_list_singleton in Hy as ->. intros [|[|j]] Hj; done.
      * split; [|split; [|split; [|intros o3 τ3 _]]].
        -- intros x Hx. apply elem_of_list_singleton in Hx as ->. done.
        -- intros w Hw. cbn in Hw. subst w. split; [done|]. intros [|[|j]] Hj; done.
        -- intros y [Hy|(w & p & Hw & _)]; [by apply elem_of_nil in Hy|by apply elem_of_nil in Hw].
        -- split; [|split; [|split; [|done]]].
           ++ intros x Hx. by apply elem_of_nil in Hx.
           ++ intros w [].
           ++ intros y [Hy|(w & p & Hw & _)]; [by apply elem_of_nil in Hy|by apply elem_of_nil in Hw].
Qed.
Lemma turns_meet : ∃ σ, reachable W0 σ ρ0 st0 ∧
  (∀ i, safe W0 (view_of (theirs i) (theirs_it i) σ) (turns i)) ∧
  (∀ i, confined (C:=W0) theirs theirs_it i (view_of (theirs i) (theirs_it i) σ) (turns i)).
Proof.
  destruct R0 as [σ Hr]. exists σ. split; [exact Hr|]. eapply turns_ok.
  - rewrite (reachable_conts (C:=W0) _ _ _ _ Hr). exact W0_0.
  - rewrite (reachable_conts (C:=W0) _ _ _ _ Hr). vm_compute. reflexivity.
  - rewrite (reachable_conts (C:=W0) _ _ _ _ Hr). vm_compute. reflexivity.
  - lt_.
  - intros H. discriminate H.
Qed.
Example C66_interleaved_case : ∃ tr P' ρ' st', interleaved (C:=W0) [0;1;0;1;1] turns ρ0 st0 = Ok (tr, P', ρ') st' ∧
  proceeds turn0 (calls_of 0 tr) (P' 0) ∧ proceeds turn1 (calls_of 1 tr) (P' 1).
Proof.
  destruct turns_meet as (σ & Hr & Hs & Hc).
  destruct (C66_interleaved (C:=W0) theirs theirs_it turns σ ρ0 st0 [0;1;0;1;1] Hr Hs Hc) as (tr & P' & ρ' & st' & Hi & H).
  exists tr, P', ρ', st'. split; [exact Hi|].
  destruct (H 0) as (? & H0 & _). destruct (H 1) as (? & H1 & _). split; [exact H0|exact H1].
Qed.
Example C66_as_alone_case : ∃ tr P' ρ' st' tr1 ρ1 st1,
  interleaved (C:=W0) [0;1;0;1;1;1] turns ρ0 st0 = Ok (tr, P', ρ') st' ∧ run (C:=W0) turn1 ρ0 st0 = Ok (tr1, ρ1) st1 ∧
  calls_of 1 tr `prefix_of` tr1.
Proof.
  destruct turns_meet as (σ & Hr & Hs & Hc).
  destruct (C66_as_alone (C:=W0) theirs theirs_it turns σ ρ0 st0 [0;1;0;1;1;1] 1 Hr Hs Hc (conj W0_calm W0_steady) ltac:(done))
    as (tr & P' & ρ' & st' & tr1 & ρ1 & st1 & H1 & H2 & H3 & _).
  exists tr, P', ρ', st', tr1, ρ1, st1. split; [exact H1|]. split; [exact H2|exact H3].
Qed.
(** C67: 20 copies of the element 9 inserted at index 5; 28 copies appended *)
Lemma apart59 : apart st0 ρ0 0 5 9.
Proof.
  exists [(2%positive, [1]); (3%positive, [2]); (5%positive, [3]); (6%positive, [4]); (9%positive, [5])], 10%positive, [6], (drop 6 segs65), 0.
  split; [split; [exact segs65_at|]; split; [done|left; lt_]|]. right. lt_.
Qed.
Lemma apart12 : apart st0 ρ0 0 12 9.
Proof.
  exists (take 10 segs65), 20%positive, [11; 12], [], 2.
  split; [split; [exact segs65_at|]; split; [done|by right]|]. left. lt_.
Qed.
Example C67_insert_case : ∃ ρ' st', exec (C:=W0) (InsertCount 0 0 20 (ARef 1) 10) ρ0 st0 = Ok (OUnit, ρ') st' ∧
  (∃ a, container_at st' ρ' 0 = Some ([1;2;3;4;5] ++ replicate 20 10 ++ [6;7;8;9;10;11;12], a)).
Proof.
  destruct (C67_insert (C:=W0) ρ0 st0 0 0 1 10 5 9 20 10 _ _ R0 W0_0 W0_w0 W0_w1 eq_refl (or_intror apart59) ltac:(lt_))
    as (o & ρ' & st' & He & _ & _ & [(-> & Hc & _)|(e & j & _ & Hr & _)]); [|exact (False_ind _ (W0_calm e Hr))].
  exists ρ', st'. split; [exact He|]. eexists. exact Hc.
Qed.
Example C67_resize_case : ∃ ρ' st', exec (C:=W0) (Resize 0 40 (ARef 1)) ρ0 st0 = Ok (OUnit, ρ') st' ∧
  (∃ a, container_at st' ρ' 0 = Some ([1;2;3;4;5;6;7;8;9;10;11;12] ++ replicate 28 10, a)).
Proof.
  destruct (C67_resize (C:=W0) ρ0 st0 0 1 9 40 10 _ _ R0 W0_0 W0_w1 eq_refl (or_intror apart12) ltac:(lt_))
    as (o & ρ' & st' & He & _ & _ & [(-> & Hc)|(e & j & _ & Hr & _)]); [|exact (False_ind _ (W0_calm e Hr))].
  exists ρ', st'. split; [exact He|]. eexists. exact Hc.
Qed.
(** C68: 10 = c[9] removes the even elements; c[9] is not kept, and six elements are *)
Definition parity (u v : nat) : bool := Bool.eqb (Nat.even u) (Nat.even v).
Example C68_remove_case : ∃ ρ' st', exec (C:=W0) (Remove 0 (ARef 1) parity) ρ0 st0 = Ok (OUnit, ρ') st' ∧
  (∃ a, container_at st' ρ' 0 = Some ([1;3;5;7;9;11], a)).
Proof.
  destruct (C68_remove (C:=W0) ρ0 st0 0 1 9 10 parity _ _ R0 W0_0 W0_w1 eq_refl eq_refl ltac:(lt_))
    as (o & ρ' & st' & He & _ & _ & [(-> & Hc)|(_ & Hp & _)]); [|exact (False_ind _ (W0_steady Hp))].
  exists ρ', st'. split; [exact He|]. eexists. exact Hc.
Qed.
Example C68_remove_back_case : ∃ ρ' st', exec (C:=W0) (Remove 5 (ARef 9) parity) ρ0 st0 = Ok (OUnit, ρ') st' ∧
  (∃ a, container_at st' ρ' 5 = Some ([31], a)).
Proof.
  destruct (C68_remove_back (C:=W0) ρ0 st0 5 9 32 parity [31] _ R0 W0_5 W0_w9 eq_refl)
    as (o & ρ' & st' & He & _ & _ & [(-> & Hc)|(_ & Hp & _)]); [|exact (False_ind _ (W0_steady Hp))].
  exists ρ', st'. split; [exact He|]. eexists. exact Hc.
Qed.
(** C69: container 0 is filled from the back (segments of 1 and 2 elements) *)
Definition ns69 : list nat := [1;1;1;1;1;1;1;1;1;1;2].
Lemma sizes69 : segment_sizes st0 ρ0 0 = Some ns69.
Proof. vm_compute. reflexivity. Qed.
Lemma back69 : from_back (C:=W0) ns69.
Proof. right. exists 10, 2. split; [reflexivity|]. split; [split; lt_|]. right. lt_. Qed.
Example C69_total_case := C69_total (C:=W0) st0 ρ0 0 _ _ W0_0.
Example C69_determined_case := C69_determined (C:=W0) ns69 ns69 back69 back69 eq_refl.
Example C69_segments_case := C69_segments (C:=W0) ns69 back69 ltac:(done).
Example C69_new_case : ∃ ρ' st' ns, exec (C:=W0) (NewCopyAlloc 9 0 4) ρ0 st0 = Ok (OUnit, ρ') st' ∧
  segment_sizes st' ρ' 9 = Some ns ∧ from_back (C:=W0) ns.
Proof.
  destruct R0_size as (σ & Hr & _ & _ & Hl & Hu).
  assert (pre W0 σ (NewCopyAlloc 9 0 4)) as Hp.
  { split; [exact Hu|]. split; [exact Hl|]. intros [e He]. exact (False_ind _ (W0_calm e He)). }
  destruct (call_ok (C:=W0) σ ρ0 st0 _ Hr Hp) as (o & ρ' & st' & σ' & He & Hs & Hr').
  destruct Hs as [[Ho _]|[(e & _ & Hx) _]]; [|exact (False_ind _ (W0_calm e Hx))]. rewrite Ho in He. clear Ho o.
  destruct (C69_new (C:=W0) σ ρ0 st0 _ 9 OUnit ρ' st' Hr Hp eq_refl He ltac:(done)) as (ns & H1 & H2).
  exists ρ', st', ns. split; [exact He|]. split; [exact H1|exact H2].
Qed.
Example C69_append_one_case : ∃ ρ' st' ns, exec (C:=W0) (PushBack 0 (AVal 3)) ρ0 st0 = Ok (OUnit, ρ') st' ∧
  segment_sizes st' ρ' 0 = Some ns ∧ from_back (C:=W0) ns ∧ sum_list ns = 13.
Proof.
  destruct R0_pushed as (σ & ρ' & st' & Hr & Hc & Hp & He).
  assert (appends_one σ (PushBack 0 (AVal 3)) 0) as Hi. { exists 3. split; [done|]. split; [by left|]. split; reflexivity. }
  destruct (C69_append_one (C:=W0) σ ρ0 st0 _ 0 OUnit ρ' st' ns69 Hr Hp Hi He ltac:(done) sizes69 back69) as (ns & H1 & H2 & H3).
  exists ρ', st', ns. split; [exact He|]. split; [exact H1|]. split; [exact H2|exact H3].
Qed.
Example C69_append_many_case : ∃ o ρ' st' ns, exec (C:=W0) (Resize 0 40 (AVal 3)) ρ0 st0 = Ok (o, ρ') st' ∧
  segment_sizes st' ρ' 0 = Some ns ∧ from_back (C:=W0) ns.
Proof.
  destruct R0_size as (σ & Hr & Hc & _ & Hl & _).
  assert (pre W0 σ (Resize 0 40 (AVal 3))) as Hp.
  { split; [exact Hl|]. split; [lt_|]. split; [done|]. split; [by eexists|done]. }
  assert (appends_many σ (Resize 0 40 (AVal 3)) 0) as Hi.
  { exists (replicate 28 3). split; [done|]. split; [done|]. split; [rewrite Hc; lt_|]. exists 3. split; [done|]. by rewrite Hc. }
  destruct (call_ok (C:=W0) σ ρ0 st0 _ Hr Hp) as (o & ρ' & st' & σ' & He & Hs & Hr').
  destruct (C69_append_many (C:=W0) σ ρ0 st0 _ 0 o ρ' st' ns69 Hr Hp Hi He sizes69 back69) as (ns & H1 & H2).
  exists o, ρ', st', ns. split; [exact He|]. split; [exact H1|exact H2].
Qed.
Example C69_prepend_one_case : ∃ ρ' st' ns, exec (C:=W0) (PushFront 1 (AVal 3)) ρ0 st0 = Ok (OUnit, ρ') st' ∧
  segment_sizes st' ρ' 1 = Some ns ∧ from_front (C:=W0) ns.
Proof.
  destruct R0_size as (σ & Hr & _). pose proof (see (C:=W0) _ _ _ _ _ _ Hr W0_1) as E.
  assert (pre W0 σ (PushFront 1 (AVal 3))) as Hp.
  { split; [exact (see_live (C:=W0) _ _ _ _ E)|]. split; [by eexists|]. rewrite (see_contents (C:=W0) _ _ _ _ E). lt_. }
  assert (prepends_one σ (PushFront 1 (AVal 3)) 1) as Hi. { exists 3. split; [done|]. split; [by left|]. split; reflexivity. }
  destruct (call_ok (C:=W0) σ ρ0 st0 _ Hr Hp) as (o & ρ' & st' & σ' & He & Hs & Hr').
  destruct Hs as (v & _ & [[Ho _]|[[[Ho Hx] _]|[[Ho Hx] _]]]); [|exact (False_ind _ (W0_calm _ Hx))|exact (False_ind _ (W0_calm _ Hx))].
  rewrite Ho in He. clear Ho o.
  destruct (C69_prepend_one (C:=W0) σ ρ0 st0 _ 1 OUnit ρ' st' [1;2] Hr Hp Hi He ltac:(done)) as (ns & H1 & H2).
  { vm_compute. reflexivity. }
  { right. exists 1, 1. split; [reflexivity|]. split; [split; lt_|]. right. lt_. }
  exists ρ', st', ns. split; [exact He|]. split; [exact H1|exact H2].
Qed.
(** C70: the last segment of container 0 is full; container 1 begins with a segment
    that is not; container 2 is empty *)
Example C70_insert_case : moves_at_most (C:=W0) 3 (PushFront 1 (AVal 3)) ρ0 st0.
Proof.
  destruct R0_size as (σ & Hr & _). pose proof (see (C:=W0) _ _ _ _ _ _ Hr W0_1) as E.
  assert (pre W0 σ (PushFront 1 (AVal 3))) as Hp.
  { split; [exact (see_live (C:=W0) _ _ _ _ E)|]. split; [by eexists|]. rewrite (see_contents (C:=W0) _ _ _ _ E). lt_. }
  destruct (segments st0 ρ0 1) as [ss|] eqn:Hss; [|by vm_compute in Hss].
  assert (∃ l after, ss = (l, [21]) :: after) as (l & after & ->). { vm_compute in Hss. injection Hss as <-. do 2 eexists. reflexivity. }
  refine (C70_insert (C:=W0) σ ρ0 st0 (PushFront 1 (AVal 3)) 1 0 (AVal 3) [] l [21] after 0 Hr Hp _ _); [split; [done|split; done]|].
  split; [exact Hss|]. split; [done|left; lt_].
Qed.
Example C70_empty_case : moves_at_most (C:=W0) 2 (PushBack 2 (AVal 3)) ρ0 st0.
Proof.
  destruct R0_size as (σ & Hr & _). pose proof (see (C:=W0) _ _ _ _ _ _ Hr W0_2) as E.
  assert (pre W0 σ (PushBack 2 (AVal 3))) as Hp.
  { split; [exact (see_live (C:=W0) _ _ _ _ E)|]. split; [by eexists|]. rewrite (see_contents (C:=W0) _ _ _ _ E). lt_. }
  refine (C70_empty (C:=W0) σ ρ0 st0 (PushBack 2 (AVal 3)) 2 0 (AVal 3) Hr Hp _ (see_contents (C:=W0) _ _ _ _ E)).
  split; [done|]. split; [done|]. by rewrite (see_contents (C:=W0) _ _ _ _ E).
Qed.
Example C70_push_back_case : moves_at_most (C:=W0) 3 (PushBack 0 (AVal 3)) ρ0 st0.
Proof. destruct R0_push as (σ & Hr & Hp). exact (C70_push_back (C:=W0) σ ρ0 st0 0 (AVal 3) (take 10 segs65) 20%positive [11;12] Hr Hp segs65_at). Qed.
Lemma pushes70 (n : nat) : ∀ σ ρ st x xs a, reachable W0 σ ρ st → conts σ !! x = Some (xs, a) → length xs + n < 100 →
  ∃ m ρ' st', pushes (C:=W0) x 0 ρ st n m ρ' st'.
Proof.
  induction n as [|n IH]; intros σ ρ st x xs a Hr E Hn; [exists 0, ρ, st; constructor|].
  assert (pre W0 σ (PushBack x (AVal 3))) as Hp.
  { split; [exact (see_live (C:=W0) _ _ _ _ E)|]. split; [by eexists|]. rewrite (see_contents (C:=W0) _ _ _ _ E).
    change (length xs + 1 < 256). lia. }
  destruct (call_ok (C:=W0) σ ρ st _ Hr Hp) as (o & ρ1 & st1 & σ1 & He & Hst & Hr').
  destruct Hst as (v & Hv & [[Ho Hs]|[[[Ho Hx] _]|[[Ho Hx] _]]]); [|exact (False_ind _ (W0_calm _ Hx))..].
  rewrite Ho in He. clear Ho o. rewrite (see_contents (C:=W0) _ _ _ _ E) in Hs.
  destruct (IH σ1 ρ1 st1 x (put_at (length xs) [v] xs) a Hr') as (m & ρ' & st' & H).
  { rewrite Hs /=. rewrite lookup_insert. by rewrite (see_alloc (C:=W0) _ _ _ _ E). }
  { rewrite /put_at !app_length take_length drop_length /=. lia. }
  exists (most_moves σ (PushBack x (AVal 3)) (C:=W0) + m), ρ', st'.
  refine (pushes_more x 0 σ ρ st (AVal 3) v ρ1 st1 _ n m ρ' st' Hr Hp _ Hv _ He (C61_moves (C:=W0) σ ρ st _ Hr Hp I) H); [by left|done].
Qed.
Example C70_build_case : ∃ m ρ' st', pushes (C:=W0) 2 0 ρ0 st0 50 m ρ' st' ∧ m ≤ 150.
Proof.
  destruct R0 as [σ Hr]. pose proof (see (C:=W0) _ _ _ _ _ _ Hr W0_2) as E.
  destruct (pushes70 50 σ ρ0 st0 2 _ _ Hr E ltac:(lt_)) as (m0 & ρ' & st' & H).
  destruct (C70_build (C:=W0) 2 0 ρ0 st0 50 m0 ρ' st' H) as (m & Hm & Hle); [ev|].
  exists m, ρ', st'. split; [exact Hm|exact Hle].
Qed.
Example C70_append_case : ∃ m ρ' st', pushes (C:=W0) 0 0 ρ0 st0 50 m ρ' st' ∧ m ≤ 151.
Proof.
  destruct R0 as [σ Hr]. pose proof (see (C:=W0) _ _ _ _ _ _ Hr W0_0) as E.
  destruct (pushes70 50 σ ρ0 st0 0 _ _ Hr E ltac:(lt_)) as (m0 & ρ' & st' & H).
  destruct (C70_append (C:=W0) 0 0 ρ0 st0 50 m0 ρ' st' ns69 H sizes69 back69) as (m & Hm & Hle).
  exists m, ρ', st'. split; [exact Hm|exact Hle].
Qed.
(** ** C71: replacing the 12 elements of container 0 *)
Lemma only71 (σ : sst nat) c x : changes c = [x] → alters c = [] → PropsGrow.only σ c x.
Proof.
  intros H1 H2 y [Hy|(w & p & Hw & _)]; [rewrite H1 in Hy; by apply elem_of_list_singleton in Hy|].
  rewrite H2 in Hw. by apply elem_of_nil in Hw.
Qed.
Example C71_fewer_case : ∃ o ρ' st', exec (C:=W0) (AssignCount 0 5 (AVal 3)) ρ0 st0 = Ok (o, ρ') st' ∧
  n_allocs (st_cnt st') = n_allocs (st_cnt st0) ∧ blocks_of st' ρ' 0 ⊆ blocks_of st0 ρ0 0.
Proof.
  destruct R0_size as (σ & Hr & _). pose proof (see (C:=W0) _ _ _ _ _ _ Hr W0_0) as E.
  pose proof (see_contents (C:=W0) _ _ _ _ E) as Hc. pose proof (see_live (C:=W0) _ _ _ _ E) as Hl.
  assert (pre W0 σ (AssignCount 0 5 (AVal 3))) as Hp. { split_and!; [exact Hl|lt_|done|by eexists|done]. }
  destruct (call_ok (C:=W0) σ ρ0 st0 _ Hr Hp) as (o & ρ' & st' & σ' & He & _ & _).
  assert (5 ≤ length (contents σ 0)) as Hn. { rewrite Hc. lt_. }
  destruct (C71_fewer (C:=W0) σ ρ0 st0 _ 0 5 o ρ' st' Hr Hp (conj eq_refl eq_refl) Hn He) as (Ha & _ & Hb).
  exists o, ρ', st'. split; [exact He|]. split; [exact Ha|]. apply Hb. apply only71; reflexivity.
Qed.
Example C71_more_case : ∃ o ρ' st', exec (C:=W0) (AssignRange 0 (RList (seq 1 40))) ρ0 st0 = Ok (o, ρ') st' ∧
  ((∀ e, o ≠ OExn e) → blocks_of st0 ρ0 0 ⊆ blocks_of st' ρ' 0).
Proof.
  destruct R0_size as (σ & Hr & _). pose proof (see (C:=W0) _ _ _ _ _ _ Hr W0_0) as E.
  pose proof (see_contents (C:=W0) _ _ _ _ E) as Hc. pose proof (see_live (C:=W0) _ _ _ _ E) as Hl.
  assert (pre W0 σ (AssignRange 0 (RList (seq 1 40)))) as Hp. { split; [exact Hl|]. split; [|done]. eexists. split; [reflexivity|lt_]. }
  destruct (call_ok (C:=W0) σ ρ0 st0 _ Hr Hp) as (o & ρ' & st' & σ' & He & _ & _).
  assert (length (contents σ 0) ≤ 40) as Hn. { rewrite Hc. lt_. }
  exists o, ρ', st'. split; [exact He|]. intros Ho.
  destruct (C71_more (C:=W0) σ ρ0 st0 _ 0 40 o ρ' st' Hr Hp (conj eq_refl eq_refl) Hn He Ho) as (_ & _ & Hb).
  apply Hb. apply only71; reflexivity.
Qed.
Example C71_same_case : ∃ o ρ' st', exec (C:=W0) (AssignCount 0 12 (AVal 3)) ρ0 st0 = Ok (o, ρ') st' ∧
  n_allocs (st_cnt st') = n_allocs (st_cnt st0) ∧ blocks_of st' ρ' 0 ≡ₚ blocks_of st0 ρ0 0.
Proof.
  destruct R0_size as (σ & Hr & _). pose proof (see (C:=W0) _ _ _ _ _ _ Hr W0_0) as E.
  pose proof (see_contents (C:=W0) _ _ _ _ E) as Hc. pose proof (see_live (C:=W0) _ _ _ _ E) as Hl.
  assert (pre W0 σ (AssignCount 0 12 (AVal 3))) as Hp. { split_and!; [exact Hl|lt_|done|by eexists|done]. }
  destruct (call_ok (C:=W0) σ ρ0 st0 _ Hr Hp) as (o & ρ' & st' & σ' & He & _ & _).
  assert (overwrites (C:=W0) σ (AssignCount 0 12 (AVal 3)) 0 (length (contents σ 0))) as Hs. { rewrite Hc. split; reflexivity. }
  destruct (C71_same (C:=W0) σ ρ0 st0 _ 0 o ρ' st' Hr Hp Hs He) as (Ha & _ & Hb).
  exists o, ρ', st'. split; [exact He|]. split; [exact Ha|]. apply Hb. apply only71; reflexivity.
Qed.
Example C71_iterators_case : ∃ o ρ' st', exec (C:=W0) (AssignCount 0 12 (AVal 3)) ρ0 st0 = Ok (o, ρ') st' ∧
  iterator_at W0 st' ρ' 0 0 5 ∧
  ∃ ss', segments st' ρ' 0 = Some ss' ∧ ss'.*1 = segs65.*1.
Proof.
  destruct R0_size as (σ & Hr & _). pose proof (see (C:=W0) _ _ _ _ _ _ Hr W0_0) as E.
  pose proof (see_contents (C:=W0) _ _ _ _ E) as Hc. pose proof (see_live (C:=W0) _ _ _ _ E) as Hl.
  assert (pre W0 σ (AssignCount 0 12 (AVal 3))) as Hp. { split_and!; [exact Hl|lt_|done|by eexists|done]. }
  destruct (call_ok (C:=W0) σ ρ0 st0 _ Hr Hp) as (o & ρ' & st' & σ' & He & _ & _).
  assert (overwrites (C:=W0) σ (AssignCount 0 12 (AVal 3)) 0 (length (contents σ 0))) as Hs. { rewrite Hc. split; reflexivity. }
  destruct (C71_in_place (C:=W0) σ ρ0 st0 _ 0 o ρ' st' 0 _ Hr Hp Hs He segs65_at) as (ss' & Hs' & Ha & _).
  exists o, ρ', st'. split; [exact He|]. split; [exact (C71_iterators (C:=W0) σ ρ0 st0 _ 0 o ρ' st' 0 0 5 Hr Hp Hs He W0_w0)|].
  exists ss'. split; [exact Hs'|exact Ha].
Qed.
Example C64_in_place_case : ∃ o ρ' st', exec (C:=W0) (Reverse 0) ρ0 st0 = Ok (o, ρ') st' ∧ iterator_at W0 st' ρ' 0 0 5 ∧
  ∃ ss', segments st' ρ' 0 = Some ss' ∧ ss'.*1 = segs65.*1.
Proof.
  destruct R0_size as (σ & Hr & _). pose proof (see (C:=W0) _ _ _ _ _ _ Hr W0_0) as E.
  assert (pre W0 σ (Reverse 0)) as Hp by exact (see_live (C:=W0) _ _ _ _ E).
  destruct (call_ok (C:=W0) σ ρ0 st0 _ Hr Hp) as (o & ρ' & st' & σ' & He & _ & _).
  destruct (C64_in_place (C:=W0) σ ρ0 st0 _ 0 o ρ' st' Hr Hp eq_refl He) as [Hs Hi].
  destruct (Hs 0 _ segs65_at) as (ss' & Hs' & Ha & _).
  exists o, ρ', st'. split; [exact He|]. split; [exact (Hi 0 0 5 W0_w0)|]. exists ss'. split; [exact Hs'|exact Ha].
Qed.
Example C48_bad_alloc_case : ∃ st', exec (C:=W20) (PushBack 1 (AVal 9)) (made W20).1 (made W20).2 = Ok (OExn EAlloc, (made W20).1) st' ∧
  n_allocs (st_cnt (made W20).2) < n_allocs (st_cnt st').
Proof.
  destruct C48_reported_case as (st' & He & _). exists st'. split; [exact He|]. exact (C48_bad_alloc (C:=W20) _ _ _ _ _ He).
Qed.
Example C48_no_bad_alloc_case : ∃ o ρ' st', exec (C:=W0) (Reverse 0) ρ0 st0 = Ok (o, ρ') st' ∧ o ≠ OExn EAlloc.
Proof.
  destruct R0_size as (σ & Hr & _). pose proof (see (C:=W0) _ _ _ _ _ _ Hr W0_0) as E.
  assert (pre W0 σ (Reverse 0)) as Hp by exact (see_live (C:=W0) _ _ _ _ E).
  destruct (call_ok (C:=W0) σ ρ0 st0 _ Hr Hp) as (o & ρ' & st' & σ' & He & _ & _).
  exists o, ρ', st'. split; [exact He|]. exact (C48_no_bad_alloc (C:=W0) ρ0 st0 (Reverse 0) o ρ' st' eq_refl He).
Qed.
Example C71_no_bad_alloc_case : ∃ o ρ' st', exec (C:=W0) (AssignCount 0 5 (AVal 3)) ρ0 st0 = Ok (o, ρ') st' ∧ o ≠ OExn EAlloc.
Proof.
  destruct R0_size as (σ & Hr & _). pose proof (see (C:=W0) _ _ _ _ _ _ Hr W0_0) as E.
  pose proof (see_contents (C:=W0) _ _ _ _ E) as Hc. pose proof (see_live (C:=W0) _ _ _ _ E) as Hl.
  assert (pre W0 σ (AssignCount 0 5 (AVal 3))) as Hp. { split_and!; [exact Hl|lt_|done|by eexists|done]. }
  destruct (call_ok (C:=W0) σ ρ0 st0 _ Hr Hp) as (o & ρ' & st' & σ' & He & _ & _).
  assert (5 ≤ length (contents σ 0)) as Hn. { rewrite Hc. lt_. }
  exists o, ρ', st'. split; [exact He|]. exact (C71_no_bad_alloc (C:=W0) σ ρ0 st0 _ 0 5 o ρ' st' Hr Hp (conj eq_refl eq_refl) Hn He).
Qed.
