(** * Quiet: what follows for every call from what the access to memory does: a
    relation [P] that reading, storing, freeing and the clocks respect holds across
    every function that does not call allocate(); one that allocate() respects too,
    across every call.  Proof infrastructure. *)
From Verif Require Export Effects.
From stdpp Require Import options.
Set Default Proof Using "Type*".

Section quiet.
Context {T : Type} {C : cfg T}.
Class plain (P : state T → state T → Prop) : Prop := Plain {
  plain_pre : PreOrder P;
  plain_read : coarser P;
  plain_store : ∀ l o, eff P (store l o);
  plain_tick : ∀ ok e, e ≠ EAlloc → eff P (tick ok e);
  plain_free : ∀ l, eff P (free l);
  plain_place : ∀ o, eff P (place (C:=C) o)
}.
Section plain.
Context (P : state T → state T → Prop) `{!plain P}.
Local Instance P_preorder : PreOrder P := plain_pre.
Lemma P_coarser : coarser P. Proof. apply plain_read. Qed.
Notation eff := (eff P).
Hint Resolve P_coarser : eff.
Hint Resolve eff_load_node eff_load_seg eff_load_seq eff_load eff_parent_pointer eff_parent_index eff_length_of eff_sizes eff_pointers eff_slot
  eff_read_slot eff_get_root eff_get_size eff_get_height eff_get_element_allocator eff_get_node_allocator
  eff_find_index eff_find_first eff_find_last eff_find_end eff_move_next_leaf eff_move_prev_leaf eff_move_next_iterator eff_move_prev_iterator
  eff_dereference eff_move_iterator_count eff_op_eq eff_op_lt eff_move_prev_segment eff_move_next_segment
  eff_find_index_root eff_find_first_root eff_find_last_root eff_find_end_root : eff.
Lemma q_store l o : eff (store l o). Proof. apply plain_store. Qed.
Hint Resolve q_store : eff.
Lemma q_tick ok e : e ≠ EAlloc → eff (tick ok e). Proof. apply plain_tick. Qed.
Lemma q_user_tick : eff user_tick. Proof. by apply q_tick. Qed.
Lemma q_move_tick : eff move_tick. Proof. unfold move_tick. case_match; [eff_go|by apply q_tick]. Qed.
Hint Resolve q_user_tick q_move_tick : eff.
Lemma q_free l : eff (free l). Proof. apply plain_free. Qed.
Lemma q_place o : eff (place o). Proof. apply plain_place. Qed.
Hint Resolve q_free q_place : eff.
Lemma q_set_node p f : (∀ nd, eff (f nd)) → eff (set_node p f). Proof. eff_ @set_node. Qed.
Lemma q_set_parent_pointer p q : eff (set_parent_pointer p q). Proof. apply q_set_node. eff_go. Qed.
Lemma q_set_parent_index p q : eff (set_parent_index p q). Proof. apply q_set_node. eff_go. Qed.
Lemma q_set_length p q : eff (set_length p q). Proof. apply q_set_node. eff_go. Qed.
Lemma q_set_sizes p i q : eff (set_sizes p i q). Proof. apply q_set_node. eff_go. Qed.
Lemma q_set_pointers p i q : eff (set_pointers p i q). Proof. apply q_set_node. eff_go. Qed.
Lemma q_set_slot p i q : eff (set_slot p i q). Proof. eff_ @set_slot. Qed.
Hint Resolve q_set_parent_pointer q_set_parent_index q_set_length q_set_sizes q_set_pointers q_set_slot : eff.
Lemma q_set_root l r : eff (set_root l r). Proof. eff_ @set_root. Qed.
Lemma q_set_size l r : eff (ModelSeq.set_size l r). Proof. eff_ @ModelSeq.set_size. Qed.
Lemma q_set_height l r : eff (set_height l r). Proof. eff_ @set_height. Qed.
Lemma q_set_element_allocator l r : eff (set_element_allocator l r). Proof. eff_ @set_element_allocator. Qed.
Lemma q_set_node_allocator l r : eff (set_node_allocator l r). Proof. eff_ @set_node_allocator. Qed.
Hint Resolve q_set_root q_set_size q_set_height q_set_element_allocator q_set_node_allocator : eff.
Lemma q_destroy_segment p i : eff (destroy_segment p i). Proof. eff_ @destroy_segment. Qed.
Lemma q_destroy_node p i : eff (destroy_node p i). Proof. eff_ @destroy_node. Qed.
Lemma q_deallocate_segment l p : eff (deallocate_segment l p). Proof. eff_ @deallocate_segment. Qed.
Lemma q_deallocate_node l p : eff (deallocate_node l p). Proof. eff_ @deallocate_node. Qed.
Hint Resolve q_destroy_segment q_destroy_node q_deallocate_segment q_deallocate_node : eff.
Lemma q_purge_segment l p n : eff (purge_segment l p n). Proof. eff_ @purge_segment. Qed.
Hint Resolve q_purge_segment : eff.
Lemma q_purge_node l h p : eff (purge_node l h p).
Proof. revert p. induction h as [|h IH]; intros p; simpl; eff_go. Qed.
Hint Resolve q_purge_node : eff.
Lemma q_purge_root l p n h : eff (purge_root l p n h). Proof. eff_ @purge_root. Qed.
Hint Resolve q_purge_root : eff.
Lemma q_purge l : eff (purge l). Proof. eff_ @purge. Qed.
Hint Resolve q_purge : eff.
Lemma q_construct_segment p i v : eff (construct_segment p i v). Proof. eff_ @construct_segment. Qed.
Lemma q_construct_leaf p i n c : eff (construct_leaf p i n c). Proof. eff_ @construct_leaf. Qed.
Lemma q_construct_branch p i n c : eff (construct_branch p i n c). Proof. eff_ @construct_branch. Qed.
Lemma q_assign_segment p i v : eff (assign_segment p i v). Proof. eff_ @assign_segment. Qed.
Lemma q_assign_leaf p i n c : eff (assign_leaf p i n c). Proof. eff_ @assign_leaf. Qed.
Lemma q_assign_branch p i n c : eff (assign_branch p i n c). Proof. eff_ @assign_branch. Qed.
Lemma q_leave_residue p i : eff (leave_residue p i). Proof. eff_ @leave_residue. Qed.
Hint Resolve q_construct_segment q_construct_leaf q_construct_branch q_assign_segment q_assign_leaf q_assign_branch q_leave_residue : eff.
Lemma q_move_assign_segment p i q j : eff (move_assign_segment p i q j). Proof. eff_ @move_assign_segment. Qed.
Lemma q_move_assign_leaf p i q j : eff (move_assign_leaf p i q j). Proof. eff_ @move_assign_leaf. Qed.
Lemma q_move_assign_branch p i q j : eff (move_assign_branch p i q j). Proof. eff_ @move_assign_branch. Qed.
Lemma q_move_segment p i q j : eff (move_segment p i q j). Proof. eff_ @move_segment. Qed.
Lemma q_move_leaf p i q j : eff (move_leaf p i q j). Proof. eff_ @move_leaf. Qed.
Lemma q_move_branch p i q j : eff (move_branch p i q j). Proof. eff_ @move_branch. Qed.
Lemma q_memcpy_slots p i q j n : eff (memcpy_slots p i q j n). Proof. eff_ @memcpy_slots. Qed.
Lemma q_memmove_slots p i j n : eff (memmove_slots p i j n). Proof. eff_ @memmove_slots. Qed.
Hint Resolve q_move_assign_segment q_move_assign_leaf q_move_assign_branch q_move_segment q_move_leaf q_move_branch q_memcpy_slots q_memmove_slots : eff.
Lemma q_construct_range_loop p i q j n : eff (construct_range_loop p i q j n).
Proof. revert i j. induction n as [|n IH]; intros i j; simpl; eff_go. Qed.
Hint Resolve q_construct_range_loop : eff.
Lemma q_construct_range_segment p i q j n : eff (construct_range_segment p i q j n). Proof. eff_ @construct_range_segment. Qed.
Lemma q_construct_range_leaf p i q j n : eff (construct_range_leaf p i q j n).
Proof. revert i j. induction n as [|n IH]; intros i j; simpl; eff_go. Qed.
Lemma q_construct_range_branch p i q j n : eff (construct_range_branch p i q j n).
Proof. revert i j. induction n as [|n IH]; intros i j; simpl; eff_go. Qed.
Hint Resolve q_construct_range_segment q_construct_range_leaf q_construct_range_branch : eff.
Lemma q_assign_forward_segment_loop p n i j : eff (assign_forward_segment_loop p n i j).
Proof. revert i j. induction n as [|n IH]; intros i j; simpl; eff_go. Qed.
Lemma q_assign_forward_leaf_loop p n i j : eff (assign_forward_leaf_loop p n i j).
Proof. revert i j. induction n as [|n IH]; intros i j; simpl; eff_go. Qed.
Lemma q_assign_forward_branch_loop p n i j : eff (assign_forward_branch_loop p n i j).
Proof. revert i j. induction n as [|n IH]; intros i j; simpl; eff_go. Qed.
Lemma q_assign_backward_segment_loop p n i j : eff (assign_backward_segment_loop p n i j).
Proof. revert i j. induction n as [|n IH]; intros i j; simpl; eff_go. Qed.
Lemma q_assign_backward_leaf_loop p n i j : eff (assign_backward_leaf_loop p n i j).
Proof. revert i j. induction n as [|n IH]; intros i j; simpl; eff_go. Qed.
Lemma q_assign_backward_branch_loop p n i j : eff (assign_backward_branch_loop p n i j).
Proof. revert i j. induction n as [|n IH]; intros i j; simpl; eff_go. Qed.
Hint Resolve q_assign_forward_segment_loop q_assign_forward_leaf_loop q_assign_forward_branch_loop
  q_assign_backward_segment_loop q_assign_backward_leaf_loop q_assign_backward_branch_loop : eff.
Lemma q_assign_forward_segment p n i j : eff (assign_forward_segment p n i j). Proof. eff_ @assign_forward_segment. Qed.
Lemma q_assign_forward_leaf p n i j : eff (assign_forward_leaf p n i j). Proof. eff_ @assign_forward_leaf. Qed.
Lemma q_assign_forward_branch p n i j : eff (assign_forward_branch p n i j). Proof. eff_ @assign_forward_branch. Qed.
Lemma q_assign_backward_segment p n i j : eff (assign_backward_segment p n i j). Proof. eff_ @assign_backward_segment. Qed.
Lemma q_assign_backward_leaf p n i j : eff (assign_backward_leaf p n i j). Proof. eff_ @assign_backward_leaf. Qed.
Lemma q_assign_backward_branch p n i j : eff (assign_backward_branch p n i j). Proof. eff_ @assign_backward_branch. Qed.
Hint Resolve q_assign_forward_segment q_assign_forward_leaf q_assign_forward_branch
  q_assign_backward_segment q_assign_backward_leaf q_assign_backward_branch : eff.
Lemma q_update_sizes_loop n p i s : eff (update_sizes_loop n p i s).
Proof. revert p i. induction n as [|n IH]; intros p i; simpl; eff_go. Qed.
Hint Resolve q_update_sizes_loop : eff.
Lemma q_update_sizes l p i s : eff (update_sizes l p i s). Proof. eff_ @update_sizes. Qed.
Hint Resolve q_update_sizes : eff.
Lemma q_increment_sizes l p i : eff (increment_sizes l p i). Proof. eff_ @increment_sizes. Qed.
Lemma q_decrement_sizes l p i : eff (decrement_sizes l p i). Proof. eff_ @decrement_sizes. Qed.
Hint Resolve q_increment_sizes q_decrement_sizes : eff.
Lemma q_free_chain n l p : eff (free_chain n l p).
Proof. revert p. induction n as [|n IH]; intros p; simpl; eff_go. Qed.
Hint Resolve q_free_chain : eff.
(** what insertion does after the allocations *)
Lemma q_insert_single_branch_loop n l b p i a c s : eff (insert_single_branch_loop n l b p i a c s).
Proof. revert b p i a c s. induction n as [|n IH]; intros b p i a c s; simpl; eff_go. Qed.
Hint Resolve q_insert_single_branch_loop : eff.
Lemma q_insert_single_branch l b p i a c s : eff (insert_single_branch l b p i a c s). Proof. eff_ @insert_single_branch. Qed.
Hint Resolve q_insert_single_branch : eff.
Lemma q_insert_single_leaf l e b p i a c s : eff (insert_single_leaf l e b p i a c s). Proof. eff_ @insert_single_leaf. Qed.
Hint Resolve q_insert_single_leaf : eff.
(** erasure *)
Lemma q_erase_single_branch_loop n l p i : eff (erase_single_branch_loop n l p i).
Proof. revert p i. induction n as [|n IH]; intros p i; simpl; eff_go. Qed.
Hint Resolve q_erase_single_branch_loop : eff.
Lemma q_erase_single_branch l p i : eff (erase_single_branch l p i). Proof. eff_ @erase_single_branch. Qed.
Hint Resolve q_erase_single_branch : eff.
Lemma q_erase_single_leaf l e p i : eff (erase_single_leaf l e p i). Proof. eff_ @erase_single_leaf. Qed.
Hint Resolve q_erase_single_leaf : eff.
Lemma q_erase_single_segment l e : eff (erase_single_segment l e). Proof. eff_ @erase_single_segment. Qed.
Hint Resolve q_erase_single_segment : eff.
Lemma q_erase_single l it : eff (erase_single l it). Proof. eff_ @erase_single. Qed.
Hint Resolve q_erase_single : eff.
Lemma q_erase_range_loop n l a b : eff (erase_range_loop n l a b).
Proof. revert b. induction n as [|n IH]; intros b; cbn [erase_range_loop]; eff_go.
Qed.
Hint Resolve q_erase_range_loop : eff.
Lemma q_erase_range l a b : eff (erase_range l a b). Proof. eff_ @erase_range. Qed.
Hint Resolve q_erase_range : eff.
Lemma q_clear l : eff (clear l). Proof. eff_ @clear. Qed.
Lemma q_steal l k : eff (steal l k). Proof. eff_ @steal. Qed.
Hint Resolve q_clear q_steal : eff.
Lemma q_make_value s : eff (make_value s). Proof. eff_ @make_value. Qed.
Lemma q_assign_value p i s : eff (assign_value p i s). Proof. destruct s; unfold assign_value; eff_go. Qed.
Hint Resolve q_make_value q_assign_value : eff.
Lemma q_swap_allocator l k : eff (swap_allocator l k). Proof. eff_ @swap_allocator. Qed.
Hint Resolve q_swap_allocator : eff.
Lemma q_swap l k : eff (swap_ l k). Proof. eff_ @swap_. Qed.
Lemma q_dtor l : eff (dtor l). Proof. eff_ @dtor. Qed.
Lemma q_ctor_alloc a : eff (ctor_alloc a). Proof. eff_ @ctor_alloc. Qed.
Lemma q_it_assign it s : eff (it_assign it s). Proof. eff_ @it_assign. Qed.
Hint Resolve q_swap q_dtor q_ctor_alloc q_it_assign : eff.
Lemma q_ctor_move k : eff (ctor_move k). Proof. eff_ @ctor_move. Qed.
Lemma q_alg_move a b : eff (alg_move a b). Proof. eff_ @alg_move. Qed.
Hint Resolve q_ctor_move q_alg_move : eff.
Ltac its := unfold it_deref, it_next, it_prev, begin_, end_.
Lemma q_pred_done b : allows P → eff (pred_done (T:=T) b). Proof. auto. Qed.
Lemma q_pred_clock : eff (pred_clock (T:=T)). Proof. apply eff_pred_clock; [apply _|apply P_coarser]. Qed.
Lemma q_pred_tick : allows P → eff (pred_tick (C:=C)). Proof. apply eff_pred_tick; [apply _|apply P_coarser]. Qed.
Hint Resolve q_pred_tick q_pred_clock q_pred_done : eff.
Lemma q_alg_read n a b : eff (alg_read n a b).
Proof. revert a. induction n as [|n IH]; intros a; cbn [alg_read]; its; eff_go. Qed.
Lemma q_alg_write a vs : eff (alg_write a vs).
Proof. revert a. induction vs as [|v vs IH]; intros a; cbn [alg_write]; its; eff_go. Qed.
Lemma q_std_find_if n a b p : (∀ v, eff (p v)) → eff (std_find_if n a b p).
Proof. intros Hp. revert a. induction n as [|n IH]; intros a; cbn [std_find_if]; its; eff_go. Qed.
Lemma q_std_remove_loop n r a b p : (∀ v, eff (p v)) → eff (std_remove_loop n r a b p).
Proof. intros Hp. revert r a. induction n as [|n IH]; intros r a; cbn [std_remove_loop]; its; eff_go. Qed.
Lemma q_std_adjacent_loop n a b p : allows P → eff (std_adjacent_loop n a b p).
Proof. intros HA. revert a. induction n as [|n IH]; intros a; cbn [std_adjacent_loop]; its; eff_go. Qed.
Lemma q_std_unique_loop n d a b p : allows P → eff (std_unique_loop n d a b p).
Proof. intros HA. revert d a. induction n as [|n IH]; intros d a; cbn [std_unique_loop]; its; eff_go. Qed.
Lemma q_std_iter_swap a b : eff (std_iter_swap a b). Proof. eff_ @std_iter_swap. Qed.
Hint Resolve q_alg_read q_alg_write q_std_find_if q_std_remove_loop q_std_adjacent_loop q_std_unique_loop q_std_iter_swap : eff.
Lemma q_std_reverse_loop n a b : eff (std_reverse_loop n a b).
Proof. revert a b. induction n as [|n IH]; intros a b; cbn [std_reverse_loop]; its; eff_go. Qed.
Hint Resolve q_std_reverse_loop : eff.
Lemma q_std_remove_if a b p : (∀ v, eff (p v)) → eff (std_remove_if a b p). Proof. unfold std_remove_if. its. eff_go. Qed.
Lemma q_std_unique a b p : allows P → eff (std_unique a b p). Proof. unfold std_unique. its. eff_go. Qed.
Lemma q_std_reverse a b : eff (std_reverse a b). Proof. unfold std_reverse. its. eff_go. Qed.
Lemma q_alg_finish b a u v : allows P → eff (alg_finish b a u v). Proof. unfold alg_finish. eff_go. Qed.
Hint Resolve q_alg_finish : eff.
Lemma q_std_stable_sort a b p : allows P → eff (std_stable_sort a b p). Proof. unfold std_stable_sort. eff_go. Qed.
Lemma q_peek s : eff (peek s). Proof. eff_ @peek. Qed.
Hint Resolve q_std_remove_if q_std_unique q_std_reverse q_std_stable_sort q_peek : eff.
Lemma q_remove l s e : allows P → eff (ModelApi.remove l s e).
Proof. unfold ModelApi.remove, erase_between. its. eff_go.
  all: (apply q_std_find_if || apply q_std_remove_loop); eff_go.
Qed.
Lemma q_remove_if l p : allows P → eff (remove_if l p).
Proof. unfold remove_if, erase_between. its. eff_go.
  all: (apply q_std_find_if || apply q_std_remove_loop); eff_go.
Qed.
Lemma q_unique l p : allows P → eff (unique l p). Proof. unfold unique, erase_between. its. eff_go. Qed.
Lemma q_reverse l : eff (reverse_ l). Proof. unfold reverse_. its. eff_go. Qed.
Lemma q_sort l lt : allows P → eff (ModelApi.sort l lt). Proof. unfold ModelApi.sort. its. eff_go. Qed.
Hint Resolve q_remove q_remove_if q_unique q_reverse q_sort : eff.
Lemma q_gets ρ s : eff (gets ρ s). Proof. destruct s; unfold gets, geti; eff_go. Qed.
Hint Resolve q_gets : eff.

Lemma q_exec_plain c ρ : no_alloc c = true → (asks c = true → allows P) → eff (exec c ρ).
Proof.
  intros Hn HA. revert Hn. rewrite /no_alloc. destruct (is_const c) eqn:Hc.
  { intros _. apply eff_const; [apply _|apply plain_read|done|done]. }
  simpl. intros Hn. unfold exec. apply eff_try; [apply _| |eff_go].
  destruct c; try done; cbn [exec_call]; unfold getc, geti, erase_, erase_between, pop_back, pop_front, done_; eff_go.
  all: (apply q_std_find_if || apply q_std_remove_loop); eff_go.
Qed.


(** ** With allocate() *)
Section alloc.
Context (Halloc : ∀ o, eff (allocate (C:=C) o)).
Hint Resolve eff_move_prev_iterator_count eff_move_next_leaf_count eff_move_next_segment_count eff_move_prev_segment_count : eff.
Hint Resolve Halloc : eff.
Lemma q_allocate_segment l : eff (allocate_segment l). Proof. eff_ @allocate_segment. Qed.
Lemma q_allocate_node l : eff (allocate_node l). Proof. eff_ @allocate_node. Qed.
Hint Resolve q_allocate_segment q_allocate_node : eff.
Lemma q_alloc_node_or_cleanup l a s : eff (alloc_node_or_cleanup l a s). Proof. eff_ @alloc_node_or_cleanup. Qed.
Hint Resolve q_alloc_node_or_cleanup : eff.
Lemma q_alloc_nodes_single_loop n l p a s : eff (alloc_nodes_single_loop n l p a s).
Proof. revert p a. induction n as [|n IH]; intros p a; simpl; eff_go. Qed.
Hint Resolve q_alloc_nodes_single_loop : eff.
Lemma q_alloc_nodes_single l p s : eff (alloc_nodes_single l p s). Proof. eff_ @alloc_nodes_single. Qed.
Hint Resolve q_alloc_nodes_single : eff.
Lemma q_insert_single_segment l e v : eff (insert_single_segment l e v). Proof. eff_ @insert_single_segment. Qed.
Hint Resolve q_insert_single_segment : eff.
Lemma q_insert_single_iterator l it v : eff (insert_single_iterator l it v). Proof. eff_ @insert_single_iterator. Qed.
Hint Resolve q_insert_single_iterator : eff.
Lemma q_emplace_single l it s : eff (emplace_single l it s). Proof. eff_ @emplace_single. Qed.
Hint Resolve q_emplace_single : eff.
Lemma q_emplace_count_loop l it n s : eff (emplace_count_loop l it n s).
Proof. revert it. induction n as [|n IH]; intros it; simpl; eff_go. Qed.
Hint Resolve q_emplace_count_loop : eff.
Lemma q_emplace_count l it n s : eff (emplace_count l it n s).
Proof. eff_ @emplace_count.
Qed.
Lemma q_input_end r : eff (input_end r). Proof. eff_ @input_end. Qed.
Lemma q_input_src r : eff (input_src r). Proof. eff_ @input_src. Qed.
Lemma q_input_next r : eff (input_next r). Proof. eff_ @input_next. Qed.
Hint Resolve q_emplace_count q_input_end q_input_src q_input_next : eff.
Lemma q_emplace_range_loop n l it r c : eff (emplace_range_loop n l it r c).
Proof. revert it r c. induction n as [|n IH]; intros it r c; cbn [emplace_range_loop]; eff_go. Qed.
Hint Resolve q_emplace_range_loop : eff.
Lemma q_emplace_range l it r : eff (emplace_range l it r). Proof. eff_ @emplace_range. Qed.
Hint Resolve q_emplace_range : eff.
Lemma q_assign_count_loop l n s a b : eff (assign_count_loop l n s a b).
Proof. revert a. induction n as [|n IH]; intros a; cbn [assign_count_loop]; eff_go. Qed.
Hint Resolve q_assign_count_loop : eff.
Lemma q_assign_count l n s : eff (assign_count l n s). Proof. eff_ @assign_count. Qed.
Lemma q_assign_range_loop n l r a b : eff (assign_range_loop n l r a b).
Proof. revert r a. induction n as [|n IH]; intros r a; cbn [assign_range_loop]; eff_go. Qed.
Hint Resolve q_assign_count q_assign_range_loop : eff.
Lemma q_assign_range l r : eff (assign_range l r). Proof. eff_ @assign_range. Qed.
Hint Resolve q_assign_range : eff.
Lemma q_resize_count l n s : eff (resize_count l n s). Proof. eff_ @resize_count. Qed.
Hint Resolve q_resize_count : eff.
Lemma q_move_assign_alloc l k : eff (move_assign_alloc l k). Proof. eff_ @move_assign_alloc. Qed.
Lemma q_copy_assign_alloc l k : eff (copy_assign_alloc l k). Proof. eff_ @copy_assign_alloc. Qed.
Hint Resolve q_move_assign_alloc q_copy_assign_alloc : eff.
Lemma q_move_assign_true l k : eff (move_assign_true l k). Proof. eff_ @move_assign_true. Qed.
Hint Resolve q_move_assign_true : eff.
Lemma q_whole_range mv l : eff (whole_range mv l). Proof. eff_ @whole_range. Qed.
Hint Resolve q_whole_range : eff.
Lemma q_move_assign l k : eff (move_assign l k). Proof. eff_ @move_assign. Qed.
Hint Resolve q_move_assign : eff.
Lemma q_ctor_with a f : (∀ l, eff (f l)) → eff (ctor_with a f). Proof. eff_ @ctor_with. Qed.
Lemma q_ctor_count n s a : eff (ctor_count n s a). Proof. apply q_ctor_with. eff_go. Qed.
Lemma q_ctor_range r a : eff (ctor_range r a). Proof. apply q_ctor_with. eff_go. Qed.
Lemma q_ctor_copy_alloc o a : eff (ctor_copy_alloc o a). Proof. apply q_ctor_with. eff_go. Qed.
Lemma q_ctor_move_alloc o a : eff (ctor_move_alloc o a). Proof. apply q_ctor_with. eff_go. Qed.
Hint Resolve q_ctor_count q_ctor_range q_ctor_copy_alloc q_ctor_move_alloc : eff.
Lemma q_ctor_copy o : eff (ctor_copy o). Proof. eff_ @ctor_copy. Qed.
Lemma q_op_copy_assign l k : eff (op_copy_assign l k). Proof. eff_ @op_copy_assign. Qed.
Hint Resolve q_ctor_copy q_op_copy_assign : eff.
Lemma q_splice_range l it k a b : eff (splice_range l it k a b).
Proof. unfold splice_range, insert_range, erase_between. eff_go. Qed.
Hint Resolve q_splice_range : eff.
Lemma q_merge l k lt : allows P → eff (ModelApi.merge l k lt).
Proof. unfold ModelApi.merge, size_, begin_, end_, nth_, std_inplace_merge. eff_go. Qed.
Hint Resolve q_merge : eff.
Lemma q_getr ρ r : eff (getr ρ r). Proof. destruct r; unfold getr, geti; eff_go. Qed.
Hint Resolve q_getr : eff.
Lemma q_exec_all c ρ : (asks c = true → allows P) → eff (exec c ρ).
Proof.
  intros HA.
  destruct (is_const c) eqn:Hc. { apply eff_const; [apply _|apply plain_read|done|done]. }
  destruct (no_alloc c) eqn:Hn; [by apply q_exec_plain|].
  unfold exec. apply eff_try; [apply _| |eff_go].
  destruct c; try done; cbn [exec_call]; unfold getc, geti, insert_, insert_count, insert_range, push_back, push_front, resize_,
    begin_, end_, erase_, erase_between, splice_all, splice_one, op_move_assign, done_; eff_go.
Qed.
End alloc.
End plain.

(** ** allocate() is not called *)
Definition quiet (st st' : state T) : Prop := n_allocs (st_cnt st') = n_allocs (st_cnt st).
Global Instance quiet_preorder : PreOrder quiet.
Proof. split; [by intros ?|]. intros x y z ? ?. by etrans. Qed.
Lemma quiet_coarser : coarser quiet.
Proof. apply coarser_same. by intros ? ? (? & ? & ? & ?). Qed.
Lemma quiet_allows : allows quiet.
Proof. apply allows_same. by intros ? ? (? & ? & ? & ?). Qed.
Global Instance quiet_plain : plain quiet.
Proof.
  split; [apply _|apply quiet_coarser|..].
  - by intros l o st.
  - intros ok e _ st. rewrite /tick. by destruct (ok _).
  - by intros l st.
  - by intros o st.
Qed.
Lemma q_exec c ρ : no_alloc c = true → eff quiet (exec (C:=C) c ρ).
Proof. intros H. apply q_exec_plain; [apply _|done|]. intros _. apply quiet_allows. Qed.

(** ** The log tells which blocks change *)
Definition recorded (st st' : state T) : Prop :=
  ∃ tr, n_log (st_cnt st') = tr ++ n_log (st_cnt st) ∧ ∀ k, AWrite k ∉ tr → st_heap st' !! k = st_heap st !! k.
Global Instance recorded_preorder : PreOrder recorded.
Proof.
  split.
  - intros st. by exists [].
  - intros st1 st2 st3 (t1 & E1 & H1) (t2 & E2 & H2). exists (t2 ++ t1). split; [by rewrite E2 E1 assoc_L|].
    intros k [Hk2 Hk1]%not_elem_of_app. by rewrite H2 // H1.
Qed.
Lemma recorded_one st st' l :
  n_log (st_cnt st') = AWrite l :: n_log (st_cnt st) → (∀ k, k ≠ l → st_heap st' !! k = st_heap st !! k) → recorded st st'.
Proof.
  intros E H. exists [AWrite l]. split; [done|]. intros k Hk. apply H. intros ->. apply Hk. by left.
Qed.
Lemma recorded_same st st' : same st st' → recorded st st'.
Proof. intros (E & _ & _ & tr & Htr & _). exists tr. split; [done|]. intros k. by rewrite E. Qed.
Global Instance recorded_plain : plain recorded.
Proof.
  split; [apply _|apply coarser_same, recorded_same|..].
  - intros l o st. eapply (recorded_one _ _ l); [done|]. intros k Hk. simpl. by rewrite lookup_insert_ne.
  - intros ok e _ st. rewrite /tick. destruct (ok _); by exists [].
  - intros l st. eapply (recorded_one _ _ l); [done|]. intros k Hk. simpl. by rewrite lookup_delete_ne.
  - intros o st. eapply recorded_one; [done|]. intros k Hk. simpl. by rewrite lookup_insert_ne.
Qed.
Lemma exec_recorded c ρ : eff recorded (exec (C:=C) c ρ).
Proof.
  apply q_exec_all; [apply _| |].
  - intros o st. rewrite /allocate. destruct (c_pick C _ _) as [l|].
    + eapply (recorded_one _ _ l); [done|]. intros k Hk. simpl. by rewrite lookup_insert_ne.
    + by exists [].
  - intros _. apply allows_same, recorded_same.
Qed.

(** ** Predicates are not called *)
Definition unasked (st st' : state T) : Prop := n_preds (st_cnt st') = n_preds (st_cnt st).
Global Instance unasked_preorder : PreOrder unasked.
Proof. split; [by intros ?|]. intros x y z ? ?. by etrans. Qed.
Global Instance unasked_plain : plain unasked.
Proof.
  split; [apply _|..].
  - by intros st st' [_ [= ??]].
  - by intros l o st.
  - intros ok e _ st. rewrite /tick. by destruct (ok _).
  - by intros l st.
  - by intros o st.
Qed.
Lemma exec_unasked c ρ : asks c = false → eff unasked (exec (C:=C) c ρ).
Proof.
  intros Hc. apply q_exec_all; [apply _| |by rewrite Hc].
  intros o st. rewrite /allocate. by destruct (c_pick C _ _).
Qed.

(** ** allocate() is called once for every allocation that fails *)
Fixpoint bad (l : list exn) : nat := match l with EAlloc :: l => S (bad l) | _ :: l => bad l | [] => 0 end.
Definition blamed (st st' : state T) : Prop :=
  bad (n_fails (st_cnt st')) + n_allocs (st_cnt st) ≤ bad (n_fails (st_cnt st)) + n_allocs (st_cnt st').
Global Instance blamed_preorder : PreOrder blamed.
Proof. split; [by intros ?; rewrite /blamed|]. intros x y z. rewrite /blamed. lia. Qed.
Global Instance blamed_plain : plain blamed.
Proof.
  split; [apply _|..].
  - intros st st' [(_ & _ & E & _) [= _ Ef]]. by rewrite /blamed E Ef.
  - intros l o st. rewrite /store /blamed. simpl. lia.
  - intros ok e He st. rewrite /tick. destruct (ok _); rewrite /blamed; simpl; [lia|]. destruct e; simpl; [done|lia..].
  - intros l st. rewrite /free /blamed. simpl. lia.
  - intros o st. rewrite /place /blamed. simpl. lia.
Qed.
Lemma exec_blamed c ρ : eff blamed (exec (C:=C) c ρ).
Proof.
  apply q_exec_all; [apply _|..].
  - intros o st. rewrite /allocate. destruct (c_pick C _ _); rewrite /blamed; simpl; lia.
  - intros _ b st. rewrite /pred_done /blamed. destruct b; simpl; lia.
Qed.
End quiet.
Global Hint Resolve quiet_plain : eff.
