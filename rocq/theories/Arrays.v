(** * Arrays: node arrays and segments keep the size they were allocated with,
    whatever the code does.  Proof infrastructure. *)
From Verif Require Export Effects.
From stdpp Require Import options.
Set Default Proof Using "Type*".

Section arrays.
Context {T : Type} {C : cfg T}.
(** every block has the size it was allocated with *)
Definition arrays (h : heap T) : Prop := ∀ l o, h !! l = Some o →
  match o with
  | ONode _ nd => length (n_sizes nd) = base_max ∧ length (n_ptrs nd) = base_max
  | OSeg _ sl => length sl = segment_max
  | OSeq _ => True
  end.
Lemma arrays_insert h l o : arrays h →
  match o with
  | ONode _ nd => length (n_sizes nd) = base_max ∧ length (n_ptrs nd) = base_max
  | OSeg _ sl => length sl = segment_max
  | OSeq _ => True
  end → arrays (<[l := o]> h).
Proof.
  intros H Ho k o' Hk. destruct (decide (k = l)) as [->|].
  - rewrite lookup_insert in Hk. by injection Hk as <-.
  - rewrite lookup_insert_ne // in Hk. by apply (H k).
Qed.
Lemma arrays_delete h l : arrays h → arrays (delete l h).
Proof. intros H k o [_ Hk]%lookup_delete_Some. by apply (H k). Qed.

Lemma splice_length (a b : list (option T)) i j n : j + n ≤ length b → i + n ≤ length a →
  length (take i a ++ take n (drop j b) ++ drop (i + n) a) = length a.
Proof. intros. rewrite !app_length !take_length !drop_length. lia. Qed.
Definition karr (st st' : state T) : Prop := arrays (st_heap st) → arrays (st_heap st').
Global Instance karr_preorder : PreOrder karr.
Proof. split; [by intros ??|]. intros x y z H1 H2 H. by apply H2, H1. Qed.
Lemma karr_coarser : coarser karr.
Proof. apply coarser_same. intros st st' (Hh & _). rewrite /karr. by rewrite Hh. Qed.
Lemma karr_allows : allows karr.
Proof. apply allows_same. intros st st' (Hh & _). rewrite /karr. by rewrite Hh. Qed.
Notation eff := (eff karr).
Hint Resolve karr_coarser karr_allows : eff.
Hint Resolve eff_load_node eff_load_seg eff_load_seq eff_load eff_parent_pointer eff_parent_index eff_length_of eff_sizes eff_pointers eff_slot
  eff_read_slot eff_get_root eff_get_size eff_get_height eff_get_element_allocator eff_get_node_allocator
  eff_find_index eff_find_first eff_find_last eff_find_end eff_move_next_leaf eff_move_prev_leaf eff_move_next_iterator eff_move_prev_iterator
  eff_dereference eff_move_iterator_count eff_op_eq eff_op_lt eff_move_prev_segment eff_move_next_segment
  eff_find_index_root eff_find_first_root eff_find_last_root eff_find_end_root : eff.
Ltac eff_go ::=
  repeat first
    [ progress intros
    | solve [auto with eff typeclass_instances]
    | apply eff_bind; [apply _| |]
    | apply eff_try; [apply _| |]
    | apply eff_for; [apply _|]
    | match goal with
      | |- Effects.eff _ (match ?x with _ => _ end) => destruct x
      | |- Effects.eff _ (let _ := _ in _) => cbv zeta
      end ].
Lemma a_tick ok e : eff (tick ok e).
Proof. intros st. rewrite /tick. destruct (ok _); intros H; exact H. Qed.
Hint Resolve a_tick : eff.
Lemma a_user_tick : eff user_tick. Proof. eff_ @user_tick. Qed.
Lemma a_move_tick : eff move_tick. Proof. eff_ @move_tick. Qed.
Hint Resolve a_user_tick a_move_tick : eff.
Lemma a_free l : eff (free l). Proof. intros st H. by apply arrays_delete. Qed.
Lemma a_place s : eff (place (OSeq s)).
Proof. intros st H. simpl. by apply arrays_insert. Qed.
Hint Resolve a_free a_place : eff.
Lemma a_set_node p (f : node → M T node) :
  (∀ nd st, match f nd st with
    | Ok nd' st' => st' = st ∧ length (n_sizes nd') = length (n_sizes nd) ∧ length (n_ptrs nd') = length (n_ptrs nd)
    | Throw _ _ => False | Fault _ => True end) → eff (set_node p f).
Proof.
  intros Hf st. rewrite /set_node /load_node /load /mbind /M_bind.
  destruct p as [l|]; [|done]. destruct (st_heap st !! l) as [[| al nd|]|] eqn:E; try done. simpl.
  match goal with |- context [f nd ?st1] => specialize (Hf nd st1); destruct (f nd st1) as [nd' st2|? st2|] end; [|done|done].
  destruct Hf as (-> & H1 & H2). intros Ha. simpl. apply arrays_insert; [done|]. pose proof (Ha l _ E) as [??]. split; congruence.
Qed.
Ltac node_ := apply a_set_node; intros nd st; simpl; try done.
Lemma a_set_parent_pointer p q : eff (set_parent_pointer p q). Proof. node_. Qed.
Lemma a_set_parent_index p q : eff (set_parent_index p q). Proof. node_. Qed.
Lemma a_set_length p q : eff (set_length p q). Proof. node_. Qed.
Lemma a_set_sizes p i q : eff (set_sizes p i q).
Proof. node_. rewrite /mbind /M_bind /put. destruct (_ <? _); [|done]. simpl. by rewrite insert_length. Qed.
Lemma a_set_pointers p i q : eff (set_pointers p i q).
Proof. node_. rewrite /mbind /M_bind /put. destruct (_ <? _); [|done]. simpl. by rewrite insert_length. Qed.
Lemma a_set_slot p i q : eff (set_slot p i q).
Proof.
  intros st. rewrite /set_slot /load_seg /load /mbind /M_bind.
  destruct p as [l|]; [|done]. destruct (st_heap st !! l) as [[al sl| |]|] eqn:E; try done. simpl. rewrite /put.
  destruct (_ <? _); [|done]. intros Ha. simpl. apply arrays_insert; [done|]. rewrite insert_length. apply (Ha l _ E).
Qed.
Lemma a_allocate o :
  match o with
  | ONode _ nd => length (n_sizes nd) = base_max ∧ length (n_ptrs nd) = base_max
  | OSeg _ sl => length sl = segment_max
  | OSeq _ => True
  end → eff (allocate o).
Proof.
  intros Ho st. rewrite /allocate. destruct (c_pick C _ _); intros Ha; [|exact Ha]. simpl. by apply arrays_insert.
Qed.
Lemma a_memcpy_slots p i q j n : eff (memcpy_slots p i q j n).
Proof.
  intros st. rewrite /memcpy_slots /load_seg /load /mbind /M_bind.
  destruct p as [l|]; [|done]. destruct (st_heap st !! l) as [[al sl| |]|] eqn:E; try done. simpl.
  destruct q as [l'|]; [|done]. destruct (st_heap st !! l') as [[al' sl'| |]|] eqn:E'; try done. simpl.
  case_bool_decide; [done|]. destruct (_ <=? _) eqn:H1; simpl; [|done]. destruct (j + n <=? _) eqn:H2; simpl; [|done].
  apply Nat.leb_le in H1, H2. intros Ha. simpl. apply arrays_insert; [done|]. rewrite splice_length //. apply (Ha _ _ E').
Qed.
Lemma a_memmove_slots p i j n : eff (memmove_slots p i j n).
Proof.
  intros st. rewrite /memmove_slots /load_seg /load /mbind /M_bind.
  destruct p as [l|]; [|done]. destruct (st_heap st !! l) as [[al sl| |]|] eqn:E; try done. simpl.
  destruct (_ <=? _) eqn:H1; simpl; [|done]. destruct (i + n <=? _) eqn:H2; simpl; [|done].
  apply Nat.leb_le in H1, H2. intros Ha. simpl. apply arrays_insert; [done|]. rewrite splice_length //. apply (Ha _ _ E).
Qed.
Hint Resolve a_set_parent_pointer a_set_parent_index a_set_length a_set_sizes a_set_pointers a_set_slot a_memcpy_slots a_memmove_slots : eff.
Lemma a_set_seq l (f : seqobj → seqobj) : eff (s ← load_seq l; store l (OSeq (f s))).
Proof.
  intros st. rewrite /load_seq /load /mbind /M_bind.
  destruct (st_heap st !! l) as [[| |s']|] eqn:E; try done. intros Ha. simpl. by apply arrays_insert.
Qed.
Lemma a_set_root l r : eff (set_root l r). Proof. apply (a_set_seq l (λ s, SeqObj r (s_size s) (s_ht s) (s_ealloc s) (s_nalloc s))). Qed.
Lemma a_set_size l r : eff (ModelSeq.set_size l r). Proof. apply (a_set_seq l (λ s, SeqObj (s_root s) r (s_ht s) (s_ealloc s) (s_nalloc s))). Qed.
Lemma a_set_height l r : eff (set_height l r). Proof. apply (a_set_seq l (λ s, SeqObj (s_root s) (s_size s) r (s_ealloc s) (s_nalloc s))). Qed.
Lemma a_set_element_allocator l r : eff (set_element_allocator l r). Proof. apply (a_set_seq l (λ s, SeqObj (s_root s) (s_size s) (s_ht s) r (s_nalloc s))). Qed.
Lemma a_set_node_allocator l r : eff (set_node_allocator l r). Proof. apply (a_set_seq l (λ s, SeqObj (s_root s) (s_size s) (s_ht s) (s_ealloc s) r)). Qed.
Hint Resolve a_set_root a_set_size a_set_height a_set_element_allocator a_set_node_allocator : eff.
Lemma a_allocate_segment l : eff (allocate_segment l).
Proof. unfold allocate_segment. eff_go. apply a_allocate. by rewrite replicate_length. Qed.
Lemma a_allocate_node l : eff (allocate_node l).
Proof. unfold allocate_node. eff_go. apply a_allocate. simpl. by rewrite !replicate_length. Qed.
Hint Resolve a_allocate_segment a_allocate_node : eff.
Lemma a_destroy_segment p i : eff (destroy_segment p i). Proof. eff_ @destroy_segment. Qed.
Lemma a_destroy_node p i : eff (destroy_node p i). Proof. eff_ @destroy_node. Qed.
Lemma a_deallocate_segment l p : eff (deallocate_segment l p). Proof. eff_ @deallocate_segment. Qed.
Lemma a_deallocate_node l p : eff (deallocate_node l p). Proof. eff_ @deallocate_node. Qed.
Hint Resolve a_destroy_segment a_destroy_node a_deallocate_segment a_deallocate_node : eff.
Lemma a_purge_segment l p n : eff (purge_segment l p n). Proof. eff_ @purge_segment. Qed.
Hint Resolve a_purge_segment : eff.
Lemma a_purge_node l h p : eff (purge_node l h p).
Proof. revert p. induction h as [|h IH]; intros p; simpl; eff_go. Qed.
Hint Resolve a_purge_node : eff.
Lemma a_purge_root l p n h : eff (purge_root l p n h). Proof. eff_ @purge_root. Qed.
Hint Resolve a_purge_root : eff.
Lemma a_purge l : eff (purge l). Proof. eff_ @purge. Qed.
Hint Resolve a_purge : eff.
Lemma a_construct_segment p i v : eff (construct_segment p i v). Proof. eff_ @construct_segment. Qed.
Lemma a_construct_leaf p i n c : eff (construct_leaf p i n c). Proof. eff_ @construct_leaf. Qed.
Lemma a_construct_branch p i n c : eff (construct_branch p i n c). Proof. eff_ @construct_branch. Qed.
Lemma a_assign_segment p i v : eff (assign_segment p i v). Proof. eff_ @assign_segment. Qed.
Lemma a_assign_leaf p i n c : eff (assign_leaf p i n c). Proof. eff_ @assign_leaf. Qed.
Lemma a_assign_branch p i n c : eff (assign_branch p i n c). Proof. eff_ @assign_branch. Qed.
Lemma a_leave_residue p i : eff (leave_residue p i). Proof. eff_ @leave_residue. Qed.
Hint Resolve a_construct_segment a_construct_leaf a_construct_branch a_assign_segment a_assign_leaf a_assign_branch a_leave_residue : eff.
Lemma a_move_assign_segment p i q j : eff (move_assign_segment p i q j). Proof. eff_ @move_assign_segment. Qed.
Lemma a_move_assign_leaf p i q j : eff (move_assign_leaf p i q j). Proof. eff_ @move_assign_leaf. Qed.
Lemma a_move_assign_branch p i q j : eff (move_assign_branch p i q j). Proof. eff_ @move_assign_branch. Qed.
Lemma a_move_segment p i q j : eff (move_segment p i q j). Proof. eff_ @move_segment. Qed.
Lemma a_move_leaf p i q j : eff (move_leaf p i q j). Proof. eff_ @move_leaf. Qed.
Lemma a_move_branch p i q j : eff (move_branch p i q j). Proof. eff_ @move_branch. Qed.
Hint Resolve a_move_assign_segment a_move_assign_leaf a_move_assign_branch a_move_segment a_move_leaf a_move_branch a_memcpy_slots a_memmove_slots : eff.
Lemma a_construct_range_loop p i q j n : eff (construct_range_loop p i q j n).
Proof. revert i j. induction n as [|n IH]; intros i j; simpl; eff_go. Qed.
Hint Resolve a_construct_range_loop : eff.
Lemma a_construct_range_segment p i q j n : eff (construct_range_segment p i q j n). Proof. eff_ @construct_range_segment. Qed.
Lemma a_construct_range_leaf p i q j n : eff (construct_range_leaf p i q j n).
Proof. revert i j. induction n as [|n IH]; intros i j; simpl; eff_go. Qed.
Lemma a_construct_range_branch p i q j n : eff (construct_range_branch p i q j n).
Proof. revert i j. induction n as [|n IH]; intros i j; simpl; eff_go. Qed.
Hint Resolve a_construct_range_segment a_construct_range_leaf a_construct_range_branch : eff.
Lemma a_assign_forward_segment_loop p n i j : eff (assign_forward_segment_loop p n i j).
Proof. revert i j. induction n as [|n IH]; intros i j; simpl; eff_go. Qed.
Lemma a_assign_forward_leaf_loop p n i j : eff (assign_forward_leaf_loop p n i j).
Proof. revert i j. induction n as [|n IH]; intros i j; simpl; eff_go. Qed.
Lemma a_assign_forward_branch_loop p n i j : eff (assign_forward_branch_loop p n i j).
Proof. revert i j. induction n as [|n IH]; intros i j; simpl; eff_go. Qed.
Lemma a_assign_backward_segment_loop p n i j : eff (assign_backward_segment_loop p n i j).
Proof. revert i j. induction n as [|n IH]; intros i j; simpl; eff_go. Qed.
Lemma a_assign_backward_leaf_loop p n i j : eff (assign_backward_leaf_loop p n i j).
Proof. revert i j. induction n as [|n IH]; intros i j; simpl; eff_go. Qed.
Lemma a_assign_backward_branch_loop p n i j : eff (assign_backward_branch_loop p n i j).
Proof. revert i j. induction n as [|n IH]; intros i j; simpl; eff_go. Qed.
Hint Resolve a_assign_forward_segment_loop a_assign_forward_leaf_loop a_assign_forward_branch_loop
  a_assign_backward_segment_loop a_assign_backward_leaf_loop a_assign_backward_branch_loop : eff.
Lemma a_assign_forward_segment p n i j : eff (assign_forward_segment p n i j). Proof. eff_ @assign_forward_segment. Qed.
Lemma a_assign_forward_leaf p n i j : eff (assign_forward_leaf p n i j). Proof. eff_ @assign_forward_leaf. Qed.
Lemma a_assign_forward_branch p n i j : eff (assign_forward_branch p n i j). Proof. eff_ @assign_forward_branch. Qed.
Lemma a_assign_backward_segment p n i j : eff (assign_backward_segment p n i j). Proof. eff_ @assign_backward_segment. Qed.
Lemma a_assign_backward_leaf p n i j : eff (assign_backward_leaf p n i j). Proof. eff_ @assign_backward_leaf. Qed.
Lemma a_assign_backward_branch p n i j : eff (assign_backward_branch p n i j). Proof. eff_ @assign_backward_branch. Qed.
Hint Resolve a_assign_forward_segment a_assign_forward_leaf a_assign_forward_branch
  a_assign_backward_segment a_assign_backward_leaf a_assign_backward_branch : eff.
Lemma a_update_sizes_loop n p i s : eff (update_sizes_loop n p i s).
Proof. revert p i. induction n as [|n IH]; intros p i; simpl; eff_go. Qed.
Hint Resolve a_update_sizes_loop : eff.
Lemma a_update_sizes l p i s : eff (update_sizes l p i s). Proof. eff_ @update_sizes. Qed.
Hint Resolve a_update_sizes : eff.
Lemma a_increment_sizes l p i : eff (increment_sizes l p i). Proof. eff_ @increment_sizes. Qed.
Lemma a_decrement_sizes l p i : eff (decrement_sizes l p i). Proof. eff_ @decrement_sizes. Qed.
Hint Resolve a_increment_sizes a_decrement_sizes : eff.
Lemma a_free_chain n l p : eff (free_chain n l p).
Proof. revert p. induction n as [|n IH]; intros p; simpl; eff_go. Qed.
Hint Resolve a_free_chain : eff.
(** what insertion does after the allocations *)
Lemma a_insert_single_branch_loop n l b p i a c s : eff (insert_single_branch_loop n l b p i a c s).
Proof. revert b p i a c s. induction n as [|n IH]; intros b p i a c s; simpl; eff_go. Qed.
Hint Resolve a_insert_single_branch_loop : eff.
Lemma a_insert_single_branch l b p i a c s : eff (insert_single_branch l b p i a c s). Proof. eff_ @insert_single_branch. Qed.
Hint Resolve a_insert_single_branch : eff.
Lemma a_insert_single_leaf l e b p i a c s : eff (insert_single_leaf l e b p i a c s). Proof. eff_ @insert_single_leaf. Qed.
Hint Resolve a_insert_single_leaf : eff.
Lemma a_alloc_node_or_cleanup l a s : eff (alloc_node_or_cleanup l a s). Proof. eff_ @alloc_node_or_cleanup. Qed.
Hint Resolve a_alloc_node_or_cleanup : eff.
Lemma a_alloc_nodes_single_loop n l p a s : eff (alloc_nodes_single_loop n l p a s).
Proof. revert p a. induction n as [|n IH]; intros p a; simpl; eff_go. Qed.
Hint Resolve a_alloc_nodes_single_loop : eff.
Lemma a_alloc_nodes_single l p s : eff (alloc_nodes_single l p s). Proof. eff_ @alloc_nodes_single. Qed.
Hint Resolve a_alloc_nodes_single : eff.
Lemma a_insert_single_segment l e v : eff (insert_single_segment l e v). Proof. eff_ @insert_single_segment. Qed.
Hint Resolve a_insert_single_segment : eff.
Lemma a_insert_single_iterator l it v : eff (insert_single_iterator l it v). Proof. eff_ @insert_single_iterator. Qed.
Hint Resolve a_insert_single_iterator : eff.
(** erasure *)
Lemma a_erase_single_branch_loop n l p i : eff (erase_single_branch_loop n l p i).
Proof. revert p i. induction n as [|n IH]; intros p i; simpl; eff_go. Qed.
Hint Resolve a_erase_single_branch_loop : eff.
Lemma a_erase_single_branch l p i : eff (erase_single_branch l p i). Proof. eff_ @erase_single_branch. Qed.
Hint Resolve a_erase_single_branch : eff.
Lemma a_erase_single_leaf l e p i : eff (erase_single_leaf l e p i). Proof. eff_ @erase_single_leaf. Qed.
Hint Resolve a_erase_single_leaf : eff.
Lemma a_erase_single_segment l e : eff (erase_single_segment l e). Proof. eff_ @erase_single_segment. Qed.
Hint Resolve a_erase_single_segment : eff.
Lemma a_erase_single l it : eff (erase_single l it). Proof. eff_ @erase_single. Qed.
Hint Resolve a_erase_single : eff.
Lemma a_erase_range_loop n l a b : eff (erase_range_loop n l a b).
Proof. revert b. induction n as [|n IH]; intros b; cbn [erase_range_loop]; eff_go.
Qed.
Hint Resolve a_erase_range_loop : eff.
Lemma a_erase_range l a b : eff (erase_range l a b). Proof. eff_ @erase_range. Qed.
Hint Resolve a_erase_range : eff.
Lemma a_clear l : eff (clear l). Proof. eff_ @clear. Qed.
Lemma a_steal l k : eff (steal l k). Proof. eff_ @steal. Qed.
Hint Resolve a_clear a_steal : eff.
Lemma a_make_value s : eff (make_value s). Proof. eff_ @make_value. Qed.
Lemma a_assign_value p i s : eff (assign_value p i s). Proof. destruct s; unfold assign_value; eff_go. Qed.
Hint Resolve a_make_value a_assign_value : eff.
Lemma a_emplace_single l it s : eff (emplace_single l it s). Proof. eff_ @emplace_single. Qed.
Hint Resolve a_emplace_single eff_move_prev_iterator_count : eff.
Lemma a_emplace_count_loop l it n s : eff (emplace_count_loop l it n s).
Proof. revert it. induction n as [|n IH]; intros it; cbn [emplace_count_loop]; eff_go. Qed.
Hint Resolve a_emplace_count_loop : eff.
Lemma a_emplace_count l it n s : eff (emplace_count l it n s). Proof. eff_ @emplace_count. Qed.
Lemma a_input_end r : eff (input_end r). Proof. eff_ @input_end. Qed.
Lemma a_input_src r : eff (input_src r). Proof. eff_ @input_src. Qed.
Lemma a_input_next r : eff (input_next r). Proof. eff_ @input_next. Qed.
Hint Resolve a_emplace_count a_input_end a_input_src a_input_next : eff.
Lemma a_emplace_range_loop n l it r c : eff (emplace_range_loop n l it r c).
Proof. revert it r c. induction n as [|n IH]; intros it r c; cbn [emplace_range_loop]; eff_go. Qed.
Hint Resolve a_emplace_range_loop : eff.
Lemma a_emplace_range l it r : eff (emplace_range l it r). Proof. eff_ @emplace_range. Qed.
Hint Resolve a_emplace_range : eff.
Lemma a_assign_count_loop l n s a b : eff (assign_count_loop l n s a b).
Proof. revert a. induction n as [|n IH]; intros a; cbn [assign_count_loop]; eff_go. Qed.
Hint Resolve a_assign_count_loop : eff.
Lemma a_assign_count l n s : eff (assign_count l n s). Proof. eff_ @assign_count. Qed.
Lemma a_assign_range_loop n l r a b : eff (assign_range_loop n l r a b).
Proof. revert r a. induction n as [|n IH]; intros r a; cbn [assign_range_loop]; eff_go. Qed.
Hint Resolve a_assign_count a_assign_range_loop : eff.
Lemma a_assign_range l r : eff (assign_range l r). Proof. eff_ @assign_range. Qed.
Hint Resolve a_assign_range : eff.
Lemma a_resize_count l n s : eff (resize_count l n s). Proof. eff_ @resize_count. Qed.
Lemma a_move_assign l k : eff (move_assign l k). Proof. unfold move_assign, move_assign_true, move_assign_alloc. eff_go. Qed.
Hint Resolve a_resize_count a_move_assign : eff.
Lemma a_swap_allocator l k : eff (swap_allocator l k). Proof. eff_ @swap_allocator. Qed.
Hint Resolve a_swap_allocator : eff.
Lemma a_swap l k : eff (swap_ l k). Proof. eff_ @swap_. Qed.
Lemma a_dtor l : eff (dtor l). Proof. eff_ @dtor. Qed.
Lemma a_ctor_alloc a : eff (ctor_alloc a). Proof. eff_ @ctor_alloc. Qed.
Lemma a_it_assign it s : eff (it_assign it s). Proof. eff_ @it_assign. Qed.
Hint Resolve a_swap a_dtor a_ctor_alloc a_it_assign : eff.
Lemma a_ctor_move k : eff (ctor_move k). Proof. eff_ @ctor_move. Qed.
Lemma a_alg_move a b : eff (alg_move a b). Proof. eff_ @alg_move. Qed.
Hint Resolve a_ctor_move a_alg_move : eff.
Ltac its := unfold it_deref, it_next, it_prev, begin_, end_.
Lemma a_pred_tick : eff (pred_tick (C:=C)). Proof. apply eff_pred_tick; [apply _|apply karr_coarser|apply karr_allows]. Qed.
Lemma a_pred_clock : eff (pred_clock (T:=T)). Proof. apply eff_pred_clock; [apply _|apply karr_coarser]. Qed.
Lemma a_pred_done b : eff (pred_done (T:=T) b). Proof. apply karr_allows. Qed.
Hint Resolve a_pred_tick a_pred_clock a_pred_done : eff.
Lemma a_alg_read n a b : eff (alg_read n a b).
Proof. revert a. induction n as [|n IH]; intros a; cbn [alg_read]; its; eff_go. Qed.
Lemma a_alg_write a vs : eff (alg_write a vs).
Proof. revert a. induction vs as [|v vs IH]; intros a; cbn [alg_write]; its; eff_go. Qed.
Lemma a_std_find_if n a b p : (∀ v, eff (p v)) → eff (std_find_if n a b p).
Proof. intros Hp. revert a. induction n as [|n IH]; intros a; cbn [std_find_if]; its; eff_go. Qed.
Lemma a_std_remove_loop n r a b p : (∀ v, eff (p v)) → eff (std_remove_loop n r a b p).
Proof. intros Hp. revert r a. induction n as [|n IH]; intros r a; cbn [std_remove_loop]; its; eff_go. Qed.
Lemma a_std_adjacent_loop n a b p : eff (std_adjacent_loop n a b p).
Proof. revert a. induction n as [|n IH]; intros a; cbn [std_adjacent_loop]; its; eff_go. Qed.
Lemma a_std_unique_loop n d a b p : eff (std_unique_loop n d a b p).
Proof. revert d a. induction n as [|n IH]; intros d a; cbn [std_unique_loop]; its; eff_go. Qed.
Lemma a_std_iter_swap a b : eff (std_iter_swap a b). Proof. eff_ @std_iter_swap. Qed.
Hint Resolve a_alg_read a_alg_write a_std_find_if a_std_remove_loop a_std_adjacent_loop a_std_unique_loop a_std_iter_swap : eff.
Lemma a_std_reverse_loop n a b : eff (std_reverse_loop n a b).
Proof. revert a b. induction n as [|n IH]; intros a b; cbn [std_reverse_loop]; its; eff_go. Qed.
Hint Resolve a_std_reverse_loop : eff.
Lemma a_std_remove_if a b p : (∀ v, eff (p v)) → eff (std_remove_if a b p). Proof. unfold std_remove_if. its. eff_go. Qed.
Lemma a_std_unique a b p : eff (std_unique a b p). Proof. unfold std_unique. its. eff_go. Qed.
Lemma a_std_reverse a b : eff (std_reverse a b). Proof. unfold std_reverse. its. eff_go. Qed.
Lemma a_alg_finish b a u v : eff (alg_finish b a u v). Proof. unfold alg_finish. eff_go. Qed.
Hint Resolve a_alg_finish : eff.
Lemma a_std_stable_sort a b p : eff (std_stable_sort a b p). Proof. unfold std_stable_sort. eff_go. Qed.
Lemma a_peek s : eff (peek s). Proof. eff_ @peek. Qed.
Hint Resolve a_std_remove_if a_std_unique a_std_reverse a_std_stable_sort a_peek : eff.
Lemma a_remove l s e : eff (ModelApi.remove l s e).
Proof. unfold ModelApi.remove, erase_between. its. eff_go.
  all: (apply a_std_find_if || apply a_std_remove_loop); eff_go.
Qed.
Lemma a_remove_if l p : eff (remove_if l p).
Proof. unfold remove_if, erase_between. its. eff_go.
  all: (apply a_std_find_if || apply a_std_remove_loop); eff_go.
Qed.
Lemma a_unique l p : eff (unique l p). Proof. unfold unique, erase_between. its. eff_go. Qed.
Lemma a_reverse l : eff (reverse_ l). Proof. unfold reverse_. its. eff_go. Qed.
Lemma a_sort l lt : eff (ModelApi.sort l lt). Proof. unfold ModelApi.sort. its. eff_go. Qed.
Hint Resolve a_remove a_remove_if a_unique a_reverse a_sort : eff.
Lemma a_gets ρ s : eff (gets ρ s). Proof. destruct s; unfold gets, geti; eff_go. Qed.
Hint Resolve a_gets : eff.

Lemma a_getr ρ r : eff (getr ρ r). Proof. destruct r; unfold getr, geti; eff_go. Qed.
Hint Resolve a_getr : eff.
Lemma a_ctor_with a f : (∀ l, eff (f l)) → eff (ctor_with a f). Proof. intros. unfold ctor_with. eff_go. Qed.
Lemma a_whole_range mv l : eff (whole_range mv l). Proof. eff_ @whole_range. Qed.
Hint Resolve a_whole_range : eff.
Lemma a_ctor_count n s a : eff (ctor_count n s a). Proof. apply a_ctor_with. eff_go. Qed.
Lemma a_ctor_range r a : eff (ctor_range r a). Proof. apply a_ctor_with. eff_go. Qed.
Lemma a_ctor_copy_alloc o a : eff (ctor_copy_alloc o a). Proof. apply a_ctor_with. eff_go. Qed.
Lemma a_ctor_move_alloc o a : eff (ctor_move_alloc o a). Proof. apply a_ctor_with. eff_go. Qed.
Hint Resolve a_ctor_count a_ctor_range a_ctor_copy_alloc a_ctor_move_alloc : eff.
Lemma a_ctor_copy o : eff (ctor_copy o). Proof. eff_ @ctor_copy. Qed.
Lemma a_copy_assign_alloc l k : eff (copy_assign_alloc l k). Proof. unfold copy_assign_alloc. eff_go. Qed.
Lemma a_op_copy_assign l k : eff (op_copy_assign l k). Proof. unfold op_copy_assign, copy_assign_alloc. eff_go. Qed.
Hint Resolve a_ctor_copy a_op_copy_assign : eff.
Lemma a_splice_range l it k a b : eff (splice_range l it k a b).
Proof. unfold splice_range, insert_range, erase_between. eff_go. Qed.
Hint Resolve a_splice_range : eff.
Lemma a_std_inplace_merge a b c lt : eff (std_inplace_merge a b c lt).
Proof. unfold std_inplace_merge. eff_go. Qed.
Hint Resolve a_std_inplace_merge : eff.
Lemma a_merge l k lt : eff (ModelApi.merge l k lt).
Proof. unfold ModelApi.merge, nth_, size_. its. eff_go. Qed.
Hint Resolve a_merge : eff.

(** every call *)
Lemma a_exec c ρ : eff (exec c ρ).
Proof.
  destruct (is_const c) eqn:Hc.
  { apply eff_const; [apply _|apply karr_coarser|done|intros _; apply karr_allows]. }
  unfold exec. apply eff_try; [apply _| |eff_go].
  destruct c; try done; cbn [exec_call]; unfold getc, geti, erase_, erase_between, pop_back, pop_front, push_back, push_front,
    insert_, insert_count, insert_range, resize_, op_move_assign, splice_all, splice_one, insert_range, done_; eff_go.
  all: (apply a_std_find_if || apply a_std_remove_loop); eff_go.
Qed.
End arrays.
