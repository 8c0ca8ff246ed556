(** * Honest: code throws only when the environment fails, and then always.
    Proof infrastructure.

    The environment logs every failure of an allocation, a construction or a move
    ([n_fails]).  [honest m]: [m] returns normally without a new failure, or throws
    the one new failure.  [calm m]: [m] does not throw and nothing fails. *)
From Verif Require Export Effects.
From stdpp Require Import options.
Set Default Proof Using "Type*".

Section act.
Context {T : Type}.
Definition fails (st : state T) : list exn := n_fails (st_cnt st).
(** [Q e st st']: [m] may throw [e] *)
Definition act (Q : exn → state T → state T → Prop) {A} (m : M T A) : Prop := ∀ st,
  match m st with
  | Ok _ st' => fails st' = fails st
  | Throw e st' => Q e st st'
  | Fault _ => True
  end.
Definition never (e : exn) (st st' : state T) : Prop := False.
Definition reported (e : exn) (st st' : state T) : Prop := e ≠ EOutOfRange ∧ fails st' = e :: fails st.
(** [Q] only depends on the log *)
Class logged (Q : exn → state T → state T → Prop) : Prop :=
  logged_proof : ∀ e st1 st2 st3, fails st2 = fails st1 → Q e st2 st3 → Q e st1 st3.
Global Instance never_logged : logged never. Proof. by intros ????. Qed.
Global Instance reported_logged : logged reported.
Proof. intros e st1 st2 st3 H. rewrite /reported. by rewrite H. Qed.

Section rules.
Context (Q : exn → state T → state T → Prop) `{!logged Q}.
Lemma act_calm {A} (m : M T A) : act never m → act Q m.
Proof. intros H st. specialize (H st). by destruct (m st). Qed.
Lemma act_ret {A} (a : A) : act Q (mret a). Proof. done. Qed.
Lemma act_fail {A} f : act Q (fail (A:=A) f). Proof. done. Qed.
Lemma act_bind {A B} (m : M T A) (k : A → M T B) : act Q m → (∀ a, act Q (k a)) → act Q (m ≫= k).
Proof.
  intros Hm Hk st. rewrite /mbind /M_bind. specialize (Hm st). destruct (m st) as [a st1|e st1|f]; [|done..].
  specialize (Hk a st1). destruct (k a st1); [by etrans| |done]. by eapply logged_proof.
Qed.
Lemma act_for n i f : (∀ j, act Q (f j)) → act Q (for_ n i f).
Proof.
  intros H. revert i. induction n as [|n IH]; intros i; simpl; [apply act_ret|]. apply act_bind; [apply H|]. done.
Qed.
Lemma act_heap_fuel : act Q heap_fuel. Proof. done. Qed.
Lemma act_height_fuel this : act Q (height_fuel this).
Proof. intros st. rewrite /height_fuel. by destruct (st_heap st !! this) as [[]|]. Qed.
Lemma act_lookup {A} (m : gmap nat A) n : act Q (lookup_var m n).
Proof. rewrite /lookup_var. by destruct (m !! n). Qed.
Lemma act_init {A} (x : option A) : act Q (init x). Proof. rewrite /init. by destruct x. Qed.
Lemma act_elem {A} (l : list A) i : act Q (elem l i). Proof. rewrite /elem. by destruct (l !! i). Qed.
Lemma act_put {A} (l : list A) i a : act Q (put l i a). Proof. rewrite /put. by destruct (_ <? _). Qed.
Lemma act_load p : act Q (load p).
Proof. intros st. rewrite /load. destruct p as [l|]; [|done]. by destruct (st_heap st !! l). Qed.
Lemma act_store l o : act Q (store l o). Proof. done. Qed.
Lemma act_free l : act Q (free l). Proof. done. Qed.
Lemma act_place `{cfg T} o : act Q (place o). Proof. done. Qed.
End rules.
(** clean up and rethrow *)
Lemma act_rethrow {A B} (m : M T A) (k : exn → M T B) :
  act reported m → (∀ e, act never (k e)) → act reported (try_catch m (λ e, k e;; throw e)).
Proof.
  intros Hm Hk st. rewrite /try_catch. specialize (Hm st). destruct (m st) as [a st1|e st1|f]; [done| |done].
  rewrite /mbind /M_bind. specialize (Hk e st1). destruct (k e st1); [|done..]. simpl. destruct Hm as [? Hm]. split; [done|congruence].
Qed.
End act.
Notation calm := (act never).
Notation honest := (act reported).
Create HintDb act discriminated.
Global Hint Resolve act_ret act_fail act_heap_fuel act_height_fuel act_lookup act_init act_elem act_put act_load act_store act_free act_place : act.
Ltac act_go :=
  repeat first
    [ progress intros
    | solve [auto with act typeclass_instances]
    | apply act_bind; [apply _| |]
    | apply act_for; [apply _|]
    | match goal with
      | |- act _ (match ?x with _ => _ end) => destruct x
      | |- act _ (let _ := _ in _) => cbv zeta
      end ].
Ltac act_ f := intros; unfold f; act_go.

Section fns.
Context {T : Type} {C : cfg T}.
Section read.
Context (Q : exn → state T → state T → Prop) `{!logged Q}.
Notation act := (act Q).
Lemma act_load_node p : act (load_node p). Proof. act_ @load_node. Qed.
Lemma act_load_seg p : act (load_seg p). Proof. act_ @load_seg. Qed.
Lemma act_load_seq p : act (load_seq p). Proof. act_ @load_seq. Qed.
Hint Resolve act_load_node act_load_seg act_load_seq : act.
Lemma act_parent_pointer p : act (parent_pointer p). Proof. act_ @parent_pointer. Qed.
Lemma act_parent_index p : act (parent_index p). Proof. act_ @parent_index. Qed.
Lemma act_length_of p : act (length_of p). Proof. act_ @length_of. Qed.
Lemma act_sizes p i : act (sizes p i). Proof. act_ @sizes. Qed.
Lemma act_pointers p i : act (pointers p i). Proof. act_ @pointers. Qed.
Lemma act_slot p i : act (slot p i). Proof. act_ @slot. Qed.
Hint Resolve act_parent_pointer act_parent_index act_length_of act_sizes act_pointers act_slot : act.
Lemma act_read_slot p i : act (read_slot p i). Proof. act_ @read_slot. Qed.
Hint Resolve act_read_slot : act.
Lemma act_get_root l : act (get_root l). Proof. act_ @get_root. Qed.
Lemma act_get_size l : act (get_size l). Proof. act_ @get_size. Qed.
Lemma act_get_height l : act (get_height l). Proof. act_ @get_height. Qed.
Lemma act_get_element_allocator l : act (get_element_allocator l). Proof. act_ @get_element_allocator. Qed.
Lemma act_get_node_allocator l : act (get_node_allocator l). Proof. act_ @get_node_allocator. Qed.
Hint Resolve act_get_root act_get_size act_get_height act_get_element_allocator act_get_node_allocator : act.

Lemma act_find_scan n p i k : act (find_scan n p i k).
Proof. revert i k. induction n as [|n IH]; intros i k; simpl; act_go. Qed.
Hint Resolve act_find_scan : act.
Lemma act_find_index_leaf p pos : act (find_index_leaf p pos). Proof. act_ @find_index_leaf. Qed.
Hint Resolve act_find_index_leaf : act.
Lemma act_find_index_branch p ht pos : act (find_index_branch p ht pos).
Proof. revert p pos. induction ht as [|n IH]; intros p pos; simpl; act_go. Qed.
Hint Resolve act_find_index_branch : act.
Lemma act_find_index_node p ht pos : act (find_index_node p ht pos). Proof. act_ @find_index_node. Qed.
Hint Resolve act_find_index_node : act.
Lemma act_find_index_root p sz ht pos : act (find_index_root p sz ht pos). Proof. act_ @find_index_root. Qed.
Hint Resolve act_find_index_root : act.
Lemma act_find_first_leaf p : act (find_first_leaf p). Proof. act_ @find_first_leaf. Qed.
Hint Resolve act_find_first_leaf : act.
Lemma act_find_first_branch p ht : act (find_first_branch p ht).
Proof. revert p. induction ht as [|n IH]; intros p; simpl; act_go. Qed.
Hint Resolve act_find_first_branch : act.
Lemma act_find_first_node p ht : act (find_first_node p ht). Proof. act_ @find_first_node. Qed.
Hint Resolve act_find_first_node : act.
Lemma act_find_first_root p sz ht : act (find_first_root p sz ht). Proof. act_ @find_first_root. Qed.
Lemma act_find_last_leaf p : act (find_last_leaf p). Proof. act_ @find_last_leaf. Qed.
Hint Resolve act_find_first_root act_find_last_leaf : act.
Lemma act_find_last_branch p ht : act (find_last_branch p ht).
Proof. revert p. induction ht as [|n IH]; intros p; simpl; act_go. Qed.
Hint Resolve act_find_last_branch : act.
Lemma act_find_last_node p ht : act (find_last_node p ht). Proof. act_ @find_last_node. Qed.
Hint Resolve act_find_last_node : act.
Lemma act_find_last_root p sz ht : act (find_last_root p sz ht). Proof. act_ @find_last_root. Qed.
Lemma act_find_end_leaf p : act (find_end_leaf p). Proof. act_ @find_end_leaf. Qed.
Hint Resolve act_find_last_root act_find_end_leaf : act.
Lemma act_find_end_branch p ht : act (find_end_branch p ht).
Proof. revert p. induction ht as [|n IH]; intros p; simpl; act_go. Qed.
Hint Resolve act_find_end_branch : act.
Lemma act_find_end_node p ht : act (find_end_node p ht). Proof. act_ @find_end_node. Qed.
Hint Resolve act_find_end_node : act.
Lemma act_find_end_root p sz ht : act (find_end_root p sz ht). Proof. act_ @find_end_root. Qed.
Hint Resolve act_find_end_root : act.
Lemma act_find_index l pos : act (find_index l pos). Proof. act_ @find_index. Qed.
Lemma act_find_first l : act (find_first l). Proof. act_ @find_first. Qed.
Lemma act_find_last l : act (find_last l). Proof. act_ @find_last. Qed.
Lemma act_find_end l : act (find_end l). Proof. act_ @find_end. Qed.
Hint Resolve act_find_index act_find_first act_find_last act_find_end : act.

Lemma act_move_next_branch_loop n e p i k : act (move_next_branch_loop n e p i k).
Proof. revert p i k. induction n as [|n IH]; intros p i k; simpl; act_go. Qed.
Hint Resolve act_move_next_branch_loop : act.
Lemma act_move_next_branch e p i : act (move_next_branch e p i). Proof. act_ @move_next_branch. Qed.
Hint Resolve act_move_next_branch : act.
Lemma act_move_next_leaf e : act (move_next_leaf e). Proof. act_ @move_next_leaf. Qed.
Hint Resolve act_move_next_leaf : act.
Lemma act_move_next_segment e : act (move_next_segment e). Proof. act_ @move_next_segment. Qed.
Hint Resolve act_move_next_segment : act.
Lemma act_move_next_iterator it : act (move_next_iterator it). Proof. act_ @move_next_iterator. Qed.
Hint Resolve act_move_next_iterator : act.
Lemma act_move_prev_branch_loop n p i k : act (move_prev_branch_loop n p i k).
Proof. revert p i k. induction n as [|n IH]; intros p i k; simpl; act_go. Qed.
Hint Resolve act_move_prev_branch_loop : act.
Lemma act_move_prev_branch p i : act (move_prev_branch p i). Proof. act_ @move_prev_branch. Qed.
Hint Resolve act_move_prev_branch : act.
Lemma act_move_prev_leaf e : act (move_prev_leaf e). Proof. act_ @move_prev_leaf. Qed.
Hint Resolve act_move_prev_leaf : act.
Lemma act_move_prev_segment e : act (move_prev_segment e). Proof. act_ @move_prev_segment. Qed.
Hint Resolve act_move_prev_segment : act.
Lemma act_move_prev_iterator it : act (move_prev_iterator it). Proof. act_ @move_prev_iterator. Qed.
Hint Resolve act_move_prev_iterator : act.
Lemma act_next_scan n p i k : act (next_scan n p i k).
Proof. revert i k. induction n as [|n IH]; intros i k; simpl; act_go. Qed.
Hint Resolve act_next_scan : act.
Lemma act_move_next_branch_count_loop n b p i c k : act (move_next_branch_count_loop n b p i c k).
Proof. revert b p i c k. induction n as [|n IH]; intros b p i c k; simpl; act_go. Qed.
Hint Resolve act_move_next_branch_count_loop : act.
Lemma act_move_next_branch_count b p i c : act (move_next_branch_count b p i c). Proof. act_ @move_next_branch_count. Qed.
Hint Resolve act_move_next_branch_count : act.
Lemma act_move_next_leaf_count e c : act (move_next_leaf_count e c). Proof. act_ @move_next_leaf_count. Qed.
Hint Resolve act_move_next_leaf_count : act.
Lemma act_move_next_segment_count e c : act (move_next_segment_count e c). Proof. act_ @move_next_segment_count. Qed.
Hint Resolve act_move_next_segment_count : act.
Lemma act_prev_scan p i c : act (prev_scan p i c).
Proof. revert c. induction i as [|n IH]; intros c; simpl; act_go. Qed.
Hint Resolve act_prev_scan : act.
Lemma act_move_prev_branch_count_loop n p i c k : act (move_prev_branch_count_loop n p i c k).
Proof. revert p i c k. induction n as [|n IH]; intros p i c k; simpl; act_go. Qed.
Hint Resolve act_move_prev_branch_count_loop : act.
Lemma act_move_prev_branch_count p i c : act (move_prev_branch_count p i c). Proof. act_ @move_prev_branch_count. Qed.
Hint Resolve act_move_prev_branch_count : act.
Lemma act_move_prev_leaf_count e c : act (move_prev_leaf_count e c). Proof. act_ @move_prev_leaf_count. Qed.
Hint Resolve act_move_prev_leaf_count : act.
Lemma act_move_prev_segment_count e c : act (move_prev_segment_count e c). Proof. act_ @move_prev_segment_count. Qed.
Hint Resolve act_move_prev_segment_count : act.
Lemma act_move_prev_iterator_count it c : act (move_prev_iterator_count it c). Proof. act_ @move_prev_iterator_count. Qed.
Lemma act_move_iterator_count it d : act (move_iterator_count it d).
Proof. unfold move_iterator_count. act_go. Qed.
Hint Resolve act_move_prev_iterator_count act_move_iterator_count : act.
Lemma act_dereference it : act (dereference it). Proof. act_ @dereference. Qed.
Hint Resolve act_dereference : act.
Lemma act_dereference_count it d : act (dereference_count it d). Proof. act_ @dereference_count. Qed.
Lemma act_move_after_segment it : act (move_after_segment it). Proof. act_ @move_after_segment. Qed.
Lemma act_move_after_segment_count it n : act (move_after_segment_count it n). Proof. act_ @move_after_segment_count. Qed.
Lemma act_move_before_segment it : act (move_before_segment it). Proof. act_ @move_before_segment. Qed.
Lemma act_move_before_segment_count it n : act (move_before_segment_count it n). Proof. act_ @move_before_segment_count. Qed.
Hint Resolve act_dereference_count act_move_after_segment act_move_after_segment_count act_move_before_segment : act.
(** predicates and comparisons may be called *)
Definition asking : Prop := ∀ n, act (pred_done (T:=T) (c_pred_ok C n)).
Lemma act_pred_clock : act (pred_clock (T:=T)). Proof. done. Qed.
Hint Resolve act_pred_clock : act.
Lemma act_pred_tick : asking → act (pred_tick (C:=C)).
Proof. intros Ha. unfold asking in Ha. unfold pred_tick. act_go. Qed.
Hint Resolve act_pred_tick : act.
Lemma act_std_equal n a b c f : asking → act (std_equal n a b c f).
Proof. intros Ha. revert a b c. induction n as [|n IH]; intros a b c; cbn [std_equal]; unfold it_deref, it_next; act_go. Qed.
Lemma act_std_lex n a b c d f : asking → act (std_lexicographical_compare n a b c d f).
Proof. intros Ha. revert a b c d. induction n as [|n IH]; intros a b c d; cbn [std_lexicographical_compare]; unfold it_deref, it_next; act_go. Qed.
Hint Resolve act_std_equal act_std_lex : act.
Lemma act_op_eq a b f : asking → act (op_eq a b f). Proof. unfold op_eq, size_, begin_, end_. act_go. Qed.
Lemma act_op_lt a b f : asking → act (op_lt a b f). Proof. unfold op_lt, size_, begin_, end_. act_go. Qed.
Lemma act_read_from p i n : act (read_from p i n).
Proof. revert i. induction n as [|n IH]; intros i; simpl; unfold read_pointer; act_go. Qed.
Hint Resolve act_op_eq act_op_lt act_read_from : act.
Lemma act_read_segment it : act (read_segment it). Proof. unfold read_segment. act_go. Qed.
Hint Resolve act_read_segment : act.

(** ** Code that neither moves, constructs nor allocates *)
Lemma act_set_node p f : (∀ nd, act (f nd)) → act (set_node p f). Proof. act_ @set_node. Qed.
Lemma act_set_parent_pointer p q : act (set_parent_pointer p q). Proof. apply act_set_node. act_go. Qed.
Lemma act_set_parent_index p q : act (set_parent_index p q). Proof. apply act_set_node. act_go. Qed.
Lemma act_set_length p q : act (set_length p q). Proof. apply act_set_node. act_go. Qed.
Lemma act_set_sizes p i q : act (set_sizes p i q). Proof. apply act_set_node. act_go. Qed.
Lemma act_set_pointers p i q : act (set_pointers p i q). Proof. apply act_set_node. act_go. Qed.
Lemma act_set_slot p i q : act (set_slot p i q). Proof. act_ @set_slot. Qed.
Hint Resolve act_set_parent_pointer act_set_parent_index act_set_length act_set_sizes act_set_pointers act_set_slot : act.
Lemma act_set_root l r : act (set_root l r). Proof. act_ @set_root. Qed.
Lemma act_set_size l r : act (ModelSeq.set_size l r). Proof. act_ @ModelSeq.set_size. Qed.
Lemma act_set_height l r : act (set_height l r). Proof. act_ @set_height. Qed.
Lemma act_set_element_allocator l r : act (set_element_allocator l r). Proof. act_ @set_element_allocator. Qed.
Lemma act_set_node_allocator l r : act (set_node_allocator l r). Proof. act_ @set_node_allocator. Qed.
Hint Resolve act_set_root act_set_size act_set_height act_set_element_allocator act_set_node_allocator : act.
Lemma act_destroy_segment p i : act (destroy_segment p i). Proof. act_ @destroy_segment. Qed.
Lemma act_destroy_node p i : act (destroy_node p i). Proof. act_ @destroy_node. Qed.
Lemma act_deallocate_segment l p : act (deallocate_segment l p). Proof. act_ @deallocate_segment. Qed.
Lemma act_deallocate_node l p : act (deallocate_node l p). Proof. act_ @deallocate_node. Qed.
Hint Resolve act_destroy_segment act_destroy_node act_deallocate_segment act_deallocate_node : act.
Lemma act_purge_segment l p n : act (purge_segment l p n). Proof. act_ @purge_segment. Qed.
Hint Resolve act_purge_segment : act.
Lemma act_purge_node l h p : act (purge_node l h p).
Proof. revert p. induction h as [|h IH]; intros p; simpl; act_go. Qed.
Hint Resolve act_purge_node : act.
Lemma act_purge_root l p n h : act (purge_root l p n h). Proof. act_ @purge_root. Qed.
Hint Resolve act_purge_root : act.
Lemma act_purge l : act (purge l). Proof. act_ @purge. Qed.
Hint Resolve act_purge : act.
Lemma act_free_chain n l p : act (free_chain n l p).
Proof. revert p. induction n as [|n IH]; intros p; simpl; act_go. Qed.
Hint Resolve act_free_chain : act.
Lemma act_clear l : act (clear l). Proof. act_ @clear. Qed.
Lemma act_steal l k : act (steal l k). Proof. act_ @steal. Qed.
Hint Resolve act_clear act_steal : act.
Lemma act_swap_allocator l k : act (swap_allocator l k). Proof. act_ @swap_allocator. Qed.
Hint Resolve act_swap_allocator : act.
Lemma act_swap l k : act (swap_ l k). Proof. act_ @swap_. Qed.
Lemma act_dtor l : act (dtor l). Proof. act_ @dtor. Qed.
Lemma act_ctor_alloc a : act (ctor_alloc a). Proof. act_ @ctor_alloc. Qed.
Lemma act_ctor_move k : act (ctor_move k). Proof. act_ @ctor_move. Qed.
Lemma act_move_assign_alloc l k : act (move_assign_alloc l k). Proof. act_ @move_assign_alloc. Qed.
Lemma act_copy_assign_alloc l k : act (copy_assign_alloc l k). Proof. act_ @copy_assign_alloc. Qed.
Hint Resolve act_swap act_dtor act_ctor_alloc act_ctor_move act_move_assign_alloc act_copy_assign_alloc : act.
Lemma act_move_assign_true l k : act (move_assign_true l k). Proof. act_ @move_assign_true. Qed.
Hint Resolve act_move_assign_true : act.

(** ** Code that moves elements but neither constructs them from user arguments
    nor allocates *)
Section move.
Context (Hmove : act move_tick).
Hint Resolve Hmove : act.
Lemma act_construct_segment p i v : act (construct_segment p i v). Proof. act_ @construct_segment. Qed.
Lemma act_construct_leaf p i n c : act (construct_leaf p i n c). Proof. act_ @construct_leaf. Qed.
Lemma act_construct_branch p i n c : act (construct_branch p i n c). Proof. act_ @construct_branch. Qed.
Lemma act_assign_segment p i v : act (assign_segment p i v). Proof. act_ @assign_segment. Qed.
Lemma act_assign_leaf p i n c : act (assign_leaf p i n c). Proof. act_ @assign_leaf. Qed.
Lemma act_assign_branch p i n c : act (assign_branch p i n c). Proof. act_ @assign_branch. Qed.
Lemma act_leave_residue p i : act (leave_residue p i). Proof. act_ @leave_residue. Qed.
Hint Resolve act_construct_segment act_construct_leaf act_construct_branch act_assign_segment act_assign_leaf act_assign_branch act_leave_residue : act.
Lemma act_move_assign_segment p i q j : act (move_assign_segment p i q j). Proof. act_ @move_assign_segment. Qed.
Lemma act_move_assign_leaf p i q j : act (move_assign_leaf p i q j). Proof. act_ @move_assign_leaf. Qed.
Lemma act_move_assign_branch p i q j : act (move_assign_branch p i q j). Proof. act_ @move_assign_branch. Qed.
Lemma act_move_segment p i q j : act (move_segment p i q j). Proof. act_ @move_segment. Qed.
Lemma act_move_leaf p i q j : act (move_leaf p i q j). Proof. act_ @move_leaf. Qed.
Lemma act_move_branch p i q j : act (move_branch p i q j). Proof. act_ @move_branch. Qed.
Lemma act_memcpy_slots p i q j n : act (memcpy_slots p i q j n). Proof. act_ @memcpy_slots. Qed.
Lemma act_memmove_slots p i j n : act (memmove_slots p i j n). Proof. act_ @memmove_slots. Qed.
Hint Resolve act_move_assign_segment act_move_assign_leaf act_move_assign_branch act_move_segment act_move_leaf act_move_branch act_memcpy_slots act_memmove_slots : act.
Lemma act_construct_range_loop p i q j n : act (construct_range_loop p i q j n).
Proof. revert i j. induction n as [|n IH]; intros i j; simpl; act_go. Qed.
Hint Resolve act_construct_range_loop : act.
Lemma act_construct_range_segment p i q j n : act (construct_range_segment p i q j n). Proof. act_ @construct_range_segment. Qed.
Lemma act_construct_range_leaf p i q j n : act (construct_range_leaf p i q j n).
Proof. revert i j. induction n as [|n IH]; intros i j; simpl; act_go. Qed.
Lemma act_construct_range_branch p i q j n : act (construct_range_branch p i q j n).
Proof. revert i j. induction n as [|n IH]; intros i j; simpl; act_go. Qed.
Hint Resolve act_construct_range_segment act_construct_range_leaf act_construct_range_branch : act.
Lemma act_assign_forward_segment_loop p n i j : act (assign_forward_segment_loop p n i j).
Proof. revert i j. induction n as [|n IH]; intros i j; simpl; act_go. Qed.
Lemma act_assign_forward_leaf_loop p n i j : act (assign_forward_leaf_loop p n i j).
Proof. revert i j. induction n as [|n IH]; intros i j; simpl; act_go. Qed.
Lemma act_assign_forward_branch_loop p n i j : act (assign_forward_branch_loop p n i j).
Proof. revert i j. induction n as [|n IH]; intros i j; simpl; act_go. Qed.
Lemma act_assign_backward_segment_loop p n i j : act (assign_backward_segment_loop p n i j).
Proof. revert i j. induction n as [|n IH]; intros i j; simpl; act_go. Qed.
Lemma act_assign_backward_leaf_loop p n i j : act (assign_backward_leaf_loop p n i j).
Proof. revert i j. induction n as [|n IH]; intros i j; simpl; act_go. Qed.
Lemma act_assign_backward_branch_loop p n i j : act (assign_backward_branch_loop p n i j).
Proof. revert i j. induction n as [|n IH]; intros i j; simpl; act_go. Qed.
Hint Resolve act_assign_forward_segment_loop act_assign_forward_leaf_loop act_assign_forward_branch_loop
  act_assign_backward_segment_loop act_assign_backward_leaf_loop act_assign_backward_branch_loop : act.
Lemma act_assign_forward_segment p n i j : act (assign_forward_segment p n i j). Proof. act_ @assign_forward_segment. Qed.
Lemma act_assign_forward_leaf p n i j : act (assign_forward_leaf p n i j). Proof. act_ @assign_forward_leaf. Qed.
Lemma act_assign_forward_branch p n i j : act (assign_forward_branch p n i j). Proof. act_ @assign_forward_branch. Qed.
Lemma act_assign_backward_segment p n i j : act (assign_backward_segment p n i j). Proof. act_ @assign_backward_segment. Qed.
Lemma act_assign_backward_leaf p n i j : act (assign_backward_leaf p n i j). Proof. act_ @assign_backward_leaf. Qed.
Lemma act_assign_backward_branch p n i j : act (assign_backward_branch p n i j). Proof. act_ @assign_backward_branch. Qed.
Hint Resolve act_assign_forward_segment act_assign_forward_leaf act_assign_forward_branch
  act_assign_backward_segment act_assign_backward_leaf act_assign_backward_branch : act.
Lemma act_update_sizes_loop n p i s : act (update_sizes_loop n p i s).
Proof. revert p i. induction n as [|n IH]; intros p i; simpl; act_go. Qed.
Hint Resolve act_update_sizes_loop : act.
Lemma act_update_sizes l p i s : act (update_sizes l p i s). Proof. act_ @update_sizes. Qed.
Hint Resolve act_update_sizes : act.
Lemma act_increment_sizes l p i : act (increment_sizes l p i). Proof. act_ @increment_sizes. Qed.
Lemma act_decrement_sizes l p i : act (decrement_sizes l p i). Proof. act_ @decrement_sizes. Qed.
Hint Resolve act_increment_sizes act_decrement_sizes : act.
(** what insertion does after the allocations *)
Lemma act_insert_single_branch_loop n l b p i a c s : act (insert_single_branch_loop n l b p i a c s).
Proof. revert b p i a c s. induction n as [|n IH]; intros b p i a c s; simpl; act_go. Qed.
Hint Resolve act_insert_single_branch_loop : act.
Lemma act_insert_single_branch l b p i a c s : act (insert_single_branch l b p i a c s). Proof. act_ @insert_single_branch. Qed.
Hint Resolve act_insert_single_branch : act.
Lemma act_insert_single_leaf l e b p i a c s : act (insert_single_leaf l e b p i a c s). Proof. act_ @insert_single_leaf. Qed.
Hint Resolve act_insert_single_leaf : act.
(** erasure *)
Lemma act_erase_single_branch_loop n l p i : act (erase_single_branch_loop n l p i).
Proof. revert p i. induction n as [|n IH]; intros p i; simpl; act_go. Qed.
Hint Resolve act_erase_single_branch_loop : act.
Lemma act_erase_single_branch l p i : act (erase_single_branch l p i). Proof. act_ @erase_single_branch. Qed.
Hint Resolve act_erase_single_branch : act.
Lemma act_erase_single_leaf l e p i : act (erase_single_leaf l e p i). Proof. act_ @erase_single_leaf. Qed.
Hint Resolve act_erase_single_leaf : act.
Lemma act_erase_single_segment l e : act (erase_single_segment l e). Proof. act_ @erase_single_segment. Qed.
Hint Resolve act_erase_single_segment : act.
Lemma act_erase_single l it : act (erase_single l it). Proof. act_ @erase_single. Qed.
Hint Resolve act_erase_single : act.
Lemma act_erase_range_loop n l a b : act (erase_range_loop n l a b).
Proof. revert b. induction n as [|n IH]; intros b; cbn [erase_range_loop]; act_go.
Qed.
Hint Resolve act_erase_range_loop : act.
Lemma act_erase_range l a b : act (erase_range l a b). Proof. act_ @erase_range. Qed.
Hint Resolve act_erase_range : act.
Lemma act_alg_move a b : act (alg_move a b).
Proof. unfold alg_move, it_assign, assign_value, make_value. act_go. Qed.
Hint Resolve act_alg_move : act.
Ltac its := unfold it_deref, it_next, it_prev, begin_, end_.
Lemma act_alg_read n a b : act (alg_read n a b).
Proof. revert a. induction n as [|n IH]; intros a; cbn [alg_read]; its; act_go. Qed.
Lemma act_alg_write a vs : act (alg_write a vs).
Proof. revert a. induction vs as [|v vs IH]; intros a; cbn [alg_write]; its; act_go. Qed.
Lemma act_std_find_if n a b p : (∀ v, act (p v)) → act (std_find_if n a b p).
Proof. intros Hp. revert a. induction n as [|n IH]; intros a; cbn [std_find_if]; its; act_go. Qed.
Lemma act_std_remove_loop n r a b p : (∀ v, act (p v)) → act (std_remove_loop n r a b p).
Proof. intros Hp. revert r a. induction n as [|n IH]; intros r a; cbn [std_remove_loop]; its; act_go. Qed.
Lemma act_std_adjacent_loop n a b p : asking → act (std_adjacent_loop n a b p).
Proof. intros Ha. revert a. induction n as [|n IH]; intros a; cbn [std_adjacent_loop]; its; act_go. Qed.
Lemma act_std_unique_loop n d a b p : asking → act (std_unique_loop n d a b p).
Proof. intros Ha. revert d a. induction n as [|n IH]; intros d a; cbn [std_unique_loop]; its; act_go. Qed.
Lemma act_std_iter_swap a b : act (std_iter_swap a b). Proof. unfold std_iter_swap, make_value. act_go. Qed.
Hint Resolve act_alg_read act_alg_write act_std_find_if act_std_remove_loop act_std_adjacent_loop act_std_unique_loop act_std_iter_swap : act.
Lemma act_std_reverse_loop n a b : act (std_reverse_loop n a b).
Proof. revert a b. induction n as [|n IH]; intros a b; cbn [std_reverse_loop]; its; act_go. Qed.
Hint Resolve act_std_reverse_loop : act.
Lemma act_std_remove_if a b p : (∀ v, act (p v)) → act (std_remove_if a b p). Proof. unfold std_remove_if. its. act_go. Qed.
Lemma act_std_unique a b p : asking → act (std_unique a b p). Proof. unfold std_unique. its. act_go. Qed.
Lemma act_std_reverse a b : act (std_reverse a b). Proof. unfold std_reverse. its. act_go. Qed.
Lemma act_alg_finish b a u v : asking → act (alg_finish b a u v).
Proof. intros Ha. unfold asking in Ha. unfold alg_finish. act_go. Qed.
Hint Resolve act_alg_finish : act.
Lemma act_std_stable_sort a b p : asking → act (std_stable_sort a b p). Proof. unfold std_stable_sort. act_go. Qed.
Lemma act_peek s : act (peek s). Proof. act_ @peek. Qed.
Hint Resolve act_std_remove_if act_std_unique act_std_reverse act_std_stable_sort act_peek : act.
Lemma act_remove l s e : asking → act (ModelApi.remove l s e).
Proof. unfold ModelApi.remove, erase_between. its. act_go.
  all: (apply act_std_find_if || apply act_std_remove_loop); act_go.
Qed.
Lemma act_remove_if l p : asking → act (remove_if l p).
Proof. unfold remove_if, erase_between. its. act_go.
  all: (apply act_std_find_if || apply act_std_remove_loop); act_go.
Qed.
Lemma act_unique l p : asking → act (unique l p). Proof. unfold unique, erase_between. its. act_go. Qed.
Lemma act_reverse l : act (reverse_ l). Proof. unfold reverse_. its. act_go. Qed.
Lemma act_sort l lt : asking → act (ModelApi.sort l lt). Proof. unfold ModelApi.sort. its. act_go. Qed.
Hint Resolve act_remove act_remove_if act_unique act_reverse act_sort : act.

End move.
End read.
End fns.

(** ** Everything *)
Section honest.
Context {T : Type} {C : cfg T}.
Notation honest := (act (T:=T) reported).
Notation calm := (act (T:=T) never).
Lemma h_tick ok e : e ≠ EOutOfRange → honest (tick ok e).
Proof. intros He st. rewrite /tick. by destruct (ok _). Qed.
Lemma h_user_tick : honest user_tick. Proof. by apply h_tick. Qed.
Lemma h_move_tick : honest move_tick. Proof. unfold move_tick. destruct (c_triv_copy C); [done|]. by apply h_tick. Qed.
Lemma h_allocate o : honest (allocate o).
Proof. intros st. rewrite /allocate. by destruct (c_pick C _ _). Qed.
Lemma h_asking : asking (C:=C) reported.
Proof. intros n st. rewrite /pred_done. by destruct (c_pred_ok C n). Qed.
Hint Resolve h_user_tick h_move_tick h_allocate h_asking : act.
(** with moves that do not throw *)
Lemma calm_move_tick {OK : cfg_ok C} : calm move_tick.
Proof. unfold move_tick. destruct (c_triv_copy C); [done|]. intros st. rewrite /tick ok_move. done. Qed.
Hint Resolve act_load_node act_load_seg act_load_seq act_load act_parent_pointer act_parent_index act_length_of act_sizes act_pointers act_slot
  act_read_slot act_get_root act_get_size act_get_height act_get_element_allocator act_get_node_allocator
  act_find_index act_find_first act_find_last act_find_end act_move_next_leaf act_move_prev_leaf act_move_next_iterator act_move_prev_iterator
  act_dereference act_move_iterator_count act_op_eq act_op_lt act_move_prev_segment act_move_next_segment
  act_find_index_root act_find_first_root act_find_last_root act_find_end_root act_move_prev_iterator_count act_dereference_count
  act_read_segment act_move_after_segment act_move_after_segment_count act_move_before_segment : act.
Hint Resolve act_set_parent_pointer act_set_parent_index act_set_length act_set_sizes act_set_pointers act_set_slot
  act_set_root act_set_size act_set_height act_set_element_allocator act_set_node_allocator act_destroy_segment act_destroy_node
  act_deallocate_segment act_deallocate_node act_purge act_construct_segment act_construct_leaf act_construct_branch
  act_assign_segment act_leave_residue act_move_assign_segment act_move_segment act_construct_range_segment
  act_assign_forward_segment act_assign_backward_segment act_increment_sizes act_decrement_sizes act_free_chain
  act_insert_single_leaf act_erase_single act_erase_range act_clear act_steal act_swap_allocator act_swap act_dtor act_ctor_alloc
  act_ctor_move act_move_assign_alloc act_copy_assign_alloc act_move_assign_true
  act_pred_clock act_pred_tick act_alg_finish act_alg_move act_alg_read act_alg_write act_remove act_remove_if act_unique act_reverse act_sort : act.
Lemma h_allocate_segment l : honest (allocate_segment l). Proof. act_ @allocate_segment. Qed.
Lemma h_allocate_node l : honest (allocate_node l). Proof. act_ @allocate_node. Qed.
Hint Resolve h_allocate_segment h_allocate_node : act.
Lemma h_alloc_node_or_cleanup l a s : honest (alloc_node_or_cleanup l a s).
Proof.
  intros st. rewrite /alloc_node_or_cleanup. pose proof (act_rethrow (allocate_node l)
    (λ _, deallocate_segment l s;; fuel ← height_fuel l; free_chain fuel l a) ltac:(act_go) ltac:(act_go) st) as H.
  revert H. rewrite /try_catch. destruct (allocate_node l st) as [?|e st1|]; [done| |done].
  rewrite /mbind /M_bind. destruct (deallocate_segment l s st1) as [? st2|? st2|]; [|done..].
  by destruct (height_fuel l st2).
Qed.
Hint Resolve h_alloc_node_or_cleanup : act.
Lemma h_alloc_nodes_single_loop n l p a s : honest (alloc_nodes_single_loop n l p a s).
Proof. revert p a. induction n as [|n IH]; intros p a; simpl; act_go. Qed.
Hint Resolve h_alloc_nodes_single_loop : act.
Lemma h_alloc_nodes_single l p s : honest (alloc_nodes_single l p s). Proof. act_ @alloc_nodes_single. Qed.
Hint Resolve h_alloc_nodes_single : act.
Lemma h_insert_single_segment l e v : honest (insert_single_segment l e v). Proof. act_ @insert_single_segment. Qed.
Hint Resolve h_insert_single_segment : act.
Lemma h_insert_single_iterator l it v : honest (insert_single_iterator l it v). Proof. act_ @insert_single_iterator. Qed.
Lemma h_make_value s : honest (make_value s). Proof. act_ @make_value. Qed.
Hint Resolve h_insert_single_iterator h_make_value : act.
Lemma h_assign_value p i s : honest (assign_value p i s). Proof. act_ @assign_value. Qed.
Lemma h_emplace_single l it s : honest (emplace_single l it s). Proof. act_ @emplace_single. Qed.
Hint Resolve h_assign_value h_emplace_single : act.
Lemma h_emplace_count_loop l it n s : honest (emplace_count_loop l it n s).
Proof. revert it. induction n as [|n IH]; intros it; simpl; act_go. Qed.
Hint Resolve h_emplace_count_loop : act.
Lemma h_emplace_count l it n s : honest (emplace_count l it n s). Proof. act_ @emplace_count. Qed.
Lemma h_input_end r : honest (input_end r). Proof. act_ @input_end. Qed.
Lemma h_input_src r : honest (input_src r). Proof. act_ @input_src. Qed.
Lemma h_input_next r : honest (input_next r). Proof. act_ @input_next. Qed.
Hint Resolve h_emplace_count h_input_end h_input_src h_input_next : act.
Lemma h_emplace_range_loop n l it r c : honest (emplace_range_loop n l it r c).
Proof. revert it r c. induction n as [|n IH]; intros it r c; cbn [emplace_range_loop]; act_go. Qed.
Hint Resolve h_emplace_range_loop : act.
Lemma h_emplace_range l it r : honest (emplace_range l it r). Proof. act_ @emplace_range. Qed.
Hint Resolve h_emplace_range : act.
Lemma h_assign_count_loop l n s a b : honest (assign_count_loop l n s a b).
Proof. revert a. induction n as [|n IH]; intros a; cbn [assign_count_loop]; act_go. Qed.
Hint Resolve h_assign_count_loop : act.
Lemma h_assign_count l n s : honest (assign_count l n s). Proof. act_ @assign_count. Qed.
Lemma h_assign_range_loop n l r a b : honest (assign_range_loop n l r a b).
Proof. revert r a. induction n as [|n IH]; intros r a; cbn [assign_range_loop]; act_go. Qed.
Hint Resolve h_assign_count h_assign_range_loop : act.
Lemma h_assign_range l r : honest (assign_range l r). Proof. act_ @assign_range. Qed.
Hint Resolve h_assign_range : act.
Lemma h_resize_count l n s : honest (resize_count l n s). Proof. act_ @resize_count. Qed.
Lemma h_move_assign l k : honest (move_assign l k). Proof. act_ @move_assign. Qed.
Hint Resolve h_resize_count h_move_assign : act.
Lemma h_ctor_with a f : (∀ l, honest (f l)) → honest (ctor_with a f).
Proof.
  intros H. unfold ctor_with. apply act_bind; [apply _|act_go|]. intros l.
  apply (act_rethrow _ (λ _, dtor l)); act_go.
Qed.
Lemma h_whole_range mv l : honest (whole_range mv l). Proof. act_ @whole_range. Qed.
Hint Resolve h_whole_range : act.
Lemma h_ctor_count n s a : honest (ctor_count n s a). Proof. apply h_ctor_with. act_go. Qed.
Lemma h_ctor_range r a : honest (ctor_range r a). Proof. apply h_ctor_with. act_go. Qed.
Lemma h_ctor_copy_alloc o a : honest (ctor_copy_alloc o a). Proof. apply h_ctor_with. act_go. Qed.
Lemma h_ctor_move_alloc o a : honest (ctor_move_alloc o a). Proof. apply h_ctor_with. act_go. Qed.
Hint Resolve h_ctor_count h_ctor_range h_ctor_copy_alloc h_ctor_move_alloc : act.
Lemma h_ctor_copy o : honest (ctor_copy o). Proof. act_ @ctor_copy. Qed.
Lemma h_op_copy_assign l k : honest (op_copy_assign l k). Proof. act_ @op_copy_assign. Qed.
Hint Resolve h_ctor_copy h_op_copy_assign : act.
Lemma h_splice_range l it k a b : honest (splice_range l it k a b).
Proof. unfold splice_range, insert_range, erase_between. act_go. Qed.
Hint Resolve h_splice_range : act.
Lemma h_merge l k lt : honest (ModelApi.merge l k lt).
Proof. unfold ModelApi.merge, size_, begin_, end_, nth_, std_inplace_merge. act_go. Qed.
Hint Resolve h_merge : act.
Ltac members := unfold getc, geti, get_allocator, size_, empty_, height_, op_index, front, back,
    begin_, end_, penultimate, nth_, it_deref, it_index, rdereference, op_ne, op_le, op_gt, op_ge, it_next, it_prev, it_add, it_sub,
    insert_, insert_count, insert_range, erase_, erase_between, push_back, push_front, pop_back, pop_front, resize_, splice_all, splice_one,
    op_move_assign, it_assign, done_.
Lemma act_gets Q `{!logged Q} ρ s : act Q (gets (T:=T) ρ s). Proof. destruct s; unfold gets, geti; act_go. Qed.
Lemma act_getr Q `{!logged Q} ρ r : act Q (getr (T:=T) ρ r). Proof. destruct r; unfold getr, geti; act_go. Qed.
Hint Resolve act_gets act_getr : act.
Definition is_at (c : cmd T) : bool := match c with At _ _ => true | _ => false end.
Lemma h_exec_call c ρ : is_at c = false → honest (exec_call c ρ).
Proof.
  intros Hc. destruct c; try done; cbn [exec_call]; members; act_go.
Qed.

Lemma calm_asking : ¬ pred_fails C → asking (C:=C) never.
Proof. intros Hp n st. destruct (c_pred_ok C n) eqn:E; [done|]. destruct Hp. by exists n. Qed.
Lemma calm_exec_call {OK : cfg_ok C} c ρ : no_throw c = true → (asks c = true → ¬ pred_fails C) → calm (exec_call c ρ).
Proof.
  pose proof calm_move_tick. intros Hc Hp. assert (asks c = true → asking (C:=C) never) as Hask by (intros; by apply calm_asking, Hp).
  clear Hp. destruct c; try done; cbn [exec_call]; members; act_go.
  unfold move_assign. cbn [no_throw] in Hc. rewrite Hc. act_go.
Qed.
End honest.
