(** * Effects: what parts of the code cannot do, whatever the state is: read-only
    functions, functions that never allocate, and the balance of allocations.
    Proof infrastructure. *)
From Verif Require Export Exec Scope.
From stdpp Require Import options.
Set Default Proof Using "Type*".

Section eff.
Context {T : Type}.
Implicit Types P : state T → state T → Prop.
(** every way [m] can end relates initial and final state by [P] *)
Definition eff P {A} (m : M T A) : Prop := ∀ st,
  match m st with Ok _ st' | Throw _ st' => P st st' | Fault _ => True end.

Context P `{!PreOrder P}.
Lemma eff_ret {A} (a : A) : eff P (mret a).
Proof. intros st. simpl. reflexivity. Qed.
Lemma eff_fail {A} f : eff P (fail (A:=A) f).
Proof. done. Qed.
Lemma eff_throw {A} e : eff P (throw (A:=A) e).
Proof. intros st. simpl. reflexivity. Qed.
Lemma eff_bind {A B} (m : M T A) (k : A → M T B) : eff P m → (∀ a, eff P (k a)) → eff P (m ≫= k).
Proof.
  intros Hm Hk st. rewrite /mbind /M_bind. specialize (Hm st). destruct (m st) as [a st1|e st1|f]; try done.
  specialize (Hk a st1). destruct (k a st1); try done; by etrans.
Qed.
Lemma eff_try {A} (m : M T A) h : eff P m → (∀ e, eff P (h e)) → eff P (try_catch m h).
Proof.
  intros Hm Hk st. rewrite /try_catch. specialize (Hm st). destruct (m st) as [a st1|e st1|f]; try done.
  specialize (Hk e st1). destruct (h e st1); try done; by etrans.
Qed.
Lemma eff_for n i f : (∀ j, eff P (f j)) → eff P (for_ n i f).
Proof.
  intros H. revert i. induction n as [|n IH]; intros i; simpl; [apply eff_ret|]. apply eff_bind; [apply H|]. done.
Qed.
Lemma eff_heap_fuel : eff P heap_fuel.
Proof. intros st. simpl. reflexivity. Qed.
Lemma eff_height_fuel this : eff P (height_fuel this).
Proof. intros st. rewrite /height_fuel. destruct (st_heap st !! this) as [[]|]; done. Qed.
Lemma eff_lookup {A} (m : gmap nat A) n : eff P (lookup_var m n).
Proof. rewrite /lookup_var. destruct (m !! n); [apply eff_ret|apply eff_fail]. Qed.
Lemma eff_init {A} (x : option A) : eff P (init x).
Proof. rewrite /init. destruct x; [apply eff_ret|apply eff_fail]. Qed.
Lemma eff_elem {A} (l : list A) i : eff P (elem l i).
Proof. rewrite /elem. destruct (l !! i); [apply eff_ret|apply eff_fail]. Qed.
Lemma eff_put {A} (l : list A) i a : eff P (put l i a).
Proof. rewrite /put. destruct (_ <? _); [apply eff_ret|apply eff_fail]. Qed.
End eff.
Create HintDb eff discriminated.
Global Hint Resolve eff_ret eff_fail eff_throw eff_heap_fuel eff_height_fuel eff_lookup eff_init eff_elem eff_put : eff.
Ltac eff_go :=
  repeat first
    [ progress intros
    | apply eff_bind; [apply _| |]
    | apply eff_try; [apply _| |]
    | apply eff_for; [apply _|]
    | solve [auto with eff typeclass_instances]
    | match goal with
      | |- eff _ (match ?x with _ => _ end) => destruct x
      | |- eff _ (let _ := _ in _) => cbv zeta
      end ].
(** introduce the arguments, unfold, go *)
Ltac eff_ f := intros; unfold f; eff_go.

Section fns.
Context {T : Type} {C : cfg T}.

(** ** Reading: only the read counter changes, and the log lists reads *)
Definition reads_only (k k' : counters) : Prop :=
  ∃ tr, n_log k' = tr ++ n_log k ∧ ∀ a, a ∈ tr → a = ARead (addr a).
Lemma reads_only_refl k : reads_only k k.
Proof. exists []. split; [done|]. intros a Ha. by apply elem_of_nil in Ha. Qed.
Lemma reads_only_trans k1 k2 k3 : reads_only k1 k2 → reads_only k2 k3 → reads_only k1 k3.
Proof.
  intros (t1 & E1 & H1) (t2 & E2 & H2). exists (t2 ++ t1). split; [by rewrite E2 E1 assoc_L|].
  intros a [Ha|Ha]%elem_of_app; auto.
Qed.
Lemma reads_only_one k k' l : n_log k' = ARead l :: n_log k → reads_only k k'.
Proof. intros He. exists [ARead l]. split; [done|]. by intros a' ->%elem_of_list_singleton. Qed.
Lemma reads_only_same k k' : n_log k' = n_log k → reads_only k k'.
Proof. intros E. exists []. split; [done|]. intros a Ha. by apply elem_of_nil in Ha. Qed.
Local Hint Extern 0 (reads_only _ _) => apply reads_only_same; reflexivity : core.
Definition same (st st' : state T) : Prop :=
  st_heap st' = st_heap st ∧ st_clk st' = st_clk st ∧ n_allocs (st_cnt st') = n_allocs (st_cnt st) ∧
  reads_only (st_cnt st) (st_cnt st').
Global Instance same_preorder : PreOrder same.
Proof.
  split; [intros ?; split_and!; [done..|apply reads_only_refl]|].
  intros x y z (?&?&?&?) (?&?&?&?). split_and!; [etrans; done..|by eapply reads_only_trans].
Qed.
(** no predicate is called either, and nothing fails *)
Definition looks (st st' : state T) : Prop :=
  same st st' ∧ (n_preds (st_cnt st'), n_fails (st_cnt st')) = (n_preds (st_cnt st), n_fails (st_cnt st)).
Definition coarser (P : state T → state T → Prop) : Prop := ∀ st st', looks st st' → P st st'.
Lemma coarser_same (P : state T → state T → Prop) : (∀ st st', same st st' → P st st') → coarser P.
Proof. intros H ?? [? _]. auto. Qed.
Lemma same_coarser : coarser same. Proof. by intros ?? [? _]. Qed.
(** calls of predicates respect [P] *)
Definition allows (P : state T → state T → Prop) : Prop := ∀ b, eff P (pred_done (T:=T) b).
Lemma allows_same (P : state T → state T → Prop) : (∀ st st', same st st' → P st st') → allows P.
Proof. intros HP b st. rewrite /pred_done. destruct b; apply HP; by split_and!. Qed.

Section read.
Context (P : state T → state T → Prop) `{!PreOrder P} (HP : coarser P).
Notation eff := (eff P).
Lemma eff_load p : eff (load p).
Proof.
  intros st. rewrite /load. destruct p as [l|]; [|done]. destruct (st_heap st !! l); [|done]. apply HP. split; [|done]. split_and!; [done..|by eapply reads_only_one].
Qed.
Hint Resolve eff_load : eff.
Lemma eff_load_node p : eff (load_node p). Proof. eff_ @load_node. Qed.
Lemma eff_load_seg p : eff (load_seg p). Proof. eff_ @load_seg. Qed.
Lemma eff_load_seq p : eff (load_seq p). Proof. eff_ @load_seq. Qed.
Hint Resolve eff_load_node eff_load_seg eff_load_seq : eff.
Lemma eff_parent_pointer p : eff (parent_pointer p). Proof. eff_ @parent_pointer. Qed.
Lemma eff_parent_index p : eff (parent_index p). Proof. eff_ @parent_index. Qed.
Lemma eff_length_of p : eff (length_of p). Proof. eff_ @length_of. Qed.
Lemma eff_sizes p i : eff (sizes p i). Proof. eff_ @sizes. Qed.
Lemma eff_pointers p i : eff (pointers p i). Proof. eff_ @pointers. Qed.
Lemma eff_slot p i : eff (slot p i). Proof. eff_ @slot. Qed.
Hint Resolve eff_parent_pointer eff_parent_index eff_length_of eff_sizes eff_pointers eff_slot : eff.
Lemma eff_read_slot p i : eff (read_slot p i). Proof. eff_ @read_slot. Qed.
Hint Resolve eff_read_slot : eff.
Lemma eff_get_root l : eff (get_root l). Proof. eff_ @get_root. Qed.
Lemma eff_get_size l : eff (get_size l). Proof. eff_ @get_size. Qed.
Lemma eff_get_height l : eff (get_height l). Proof. eff_ @get_height. Qed.
Lemma eff_get_element_allocator l : eff (get_element_allocator l). Proof. eff_ @get_element_allocator. Qed.
Lemma eff_get_node_allocator l : eff (get_node_allocator l). Proof. eff_ @get_node_allocator. Qed.
Hint Resolve eff_get_root eff_get_size eff_get_height eff_get_element_allocator eff_get_node_allocator : eff.

Lemma eff_find_scan n p i k : eff (find_scan n p i k).
Proof. revert i k. induction n as [|n IH]; intros i k; simpl; eff_go. Qed.
Hint Resolve eff_find_scan : eff.
Lemma eff_find_index_leaf p pos : eff (find_index_leaf p pos). Proof. eff_ @find_index_leaf. Qed.
Hint Resolve eff_find_index_leaf : eff.
Lemma eff_find_index_branch p ht pos : eff (find_index_branch p ht pos).
Proof. revert p pos. induction ht as [|n IH]; intros p pos; simpl; eff_go. Qed.
Hint Resolve eff_find_index_branch : eff.
Lemma eff_find_index_node p ht pos : eff (find_index_node p ht pos). Proof. eff_ @find_index_node. Qed.
Hint Resolve eff_find_index_node : eff.
Lemma eff_find_index_root p sz ht pos : eff (find_index_root p sz ht pos). Proof. eff_ @find_index_root. Qed.
Hint Resolve eff_find_index_root : eff.
Lemma eff_find_first_leaf p : eff (find_first_leaf p). Proof. eff_ @find_first_leaf. Qed.
Hint Resolve eff_find_first_leaf : eff.
Lemma eff_find_first_branch p ht : eff (find_first_branch p ht).
Proof. revert p. induction ht as [|n IH]; intros p; simpl; eff_go. Qed.
Hint Resolve eff_find_first_branch : eff.
Lemma eff_find_first_node p ht : eff (find_first_node p ht). Proof. eff_ @find_first_node. Qed.
Hint Resolve eff_find_first_node : eff.
Lemma eff_find_first_root p sz ht : eff (find_first_root p sz ht). Proof. eff_ @find_first_root. Qed.
Lemma eff_find_last_leaf p : eff (find_last_leaf p). Proof. eff_ @find_last_leaf. Qed.
Hint Resolve eff_find_first_root eff_find_last_leaf : eff.
Lemma eff_find_last_branch p ht : eff (find_last_branch p ht).
Proof. revert p. induction ht as [|n IH]; intros p; simpl; eff_go. Qed.
Hint Resolve eff_find_last_branch : eff.
Lemma eff_find_last_node p ht : eff (find_last_node p ht). Proof. eff_ @find_last_node. Qed.
Hint Resolve eff_find_last_node : eff.
Lemma eff_find_last_root p sz ht : eff (find_last_root p sz ht). Proof. eff_ @find_last_root. Qed.
Lemma eff_find_end_leaf p : eff (find_end_leaf p). Proof. eff_ @find_end_leaf. Qed.
Hint Resolve eff_find_last_root eff_find_end_leaf : eff.
Lemma eff_find_end_branch p ht : eff (find_end_branch p ht).
Proof. revert p. induction ht as [|n IH]; intros p; simpl; eff_go. Qed.
Hint Resolve eff_find_end_branch : eff.
Lemma eff_find_end_node p ht : eff (find_end_node p ht). Proof. eff_ @find_end_node. Qed.
Hint Resolve eff_find_end_node : eff.
Lemma eff_find_end_root p sz ht : eff (find_end_root p sz ht). Proof. eff_ @find_end_root. Qed.
Hint Resolve eff_find_end_root : eff.
Lemma eff_find_index l pos : eff (find_index l pos). Proof. eff_ @find_index. Qed.
Lemma eff_find_first l : eff (find_first l). Proof. eff_ @find_first. Qed.
Lemma eff_find_last l : eff (find_last l). Proof. eff_ @find_last. Qed.
Lemma eff_find_end l : eff (find_end l). Proof. eff_ @find_end. Qed.
Hint Resolve eff_find_index eff_find_first eff_find_last eff_find_end : eff.

Lemma eff_move_next_branch_loop n e p i k : eff (move_next_branch_loop n e p i k).
Proof. revert p i k. induction n as [|n IH]; intros p i k; simpl; eff_go. Qed.
Hint Resolve eff_move_next_branch_loop : eff.
Lemma eff_move_next_branch e p i : eff (move_next_branch e p i). Proof. eff_ @move_next_branch. Qed.
Hint Resolve eff_move_next_branch : eff.
Lemma eff_move_next_leaf e : eff (move_next_leaf e). Proof. eff_ @move_next_leaf. Qed.
Hint Resolve eff_move_next_leaf : eff.
Lemma eff_move_next_segment e : eff (move_next_segment e). Proof. eff_ @move_next_segment. Qed.
Hint Resolve eff_move_next_segment : eff.
Lemma eff_move_next_iterator it : eff (move_next_iterator it). Proof. eff_ @move_next_iterator. Qed.
Hint Resolve eff_move_next_iterator : eff.
Lemma eff_move_prev_branch_loop n p i k : eff (move_prev_branch_loop n p i k).
Proof. revert p i k. induction n as [|n IH]; intros p i k; simpl; eff_go. Qed.
Hint Resolve eff_move_prev_branch_loop : eff.
Lemma eff_move_prev_branch p i : eff (move_prev_branch p i). Proof. eff_ @move_prev_branch. Qed.
Hint Resolve eff_move_prev_branch : eff.
Lemma eff_move_prev_leaf e : eff (move_prev_leaf e). Proof. eff_ @move_prev_leaf. Qed.
Hint Resolve eff_move_prev_leaf : eff.
Lemma eff_move_prev_segment e : eff (move_prev_segment e). Proof. eff_ @move_prev_segment. Qed.
Hint Resolve eff_move_prev_segment : eff.
Lemma eff_move_prev_iterator it : eff (move_prev_iterator it). Proof. eff_ @move_prev_iterator. Qed.
Hint Resolve eff_move_prev_iterator : eff.
Lemma eff_next_scan n p i k : eff (next_scan n p i k).
Proof. revert i k. induction n as [|n IH]; intros i k; simpl; eff_go. Qed.
Hint Resolve eff_next_scan : eff.
Lemma eff_move_next_branch_count_loop n b p i c k : eff (move_next_branch_count_loop n b p i c k).
Proof. revert b p i c k. induction n as [|n IH]; intros b p i c k; simpl; eff_go. Qed.
Hint Resolve eff_move_next_branch_count_loop : eff.
Lemma eff_move_next_branch_count b p i c : eff (move_next_branch_count b p i c). Proof. eff_ @move_next_branch_count. Qed.
Hint Resolve eff_move_next_branch_count : eff.
Lemma eff_move_next_leaf_count e c : eff (move_next_leaf_count e c). Proof. eff_ @move_next_leaf_count. Qed.
Hint Resolve eff_move_next_leaf_count : eff.
Lemma eff_move_next_segment_count e c : eff (move_next_segment_count e c). Proof. eff_ @move_next_segment_count. Qed.
Hint Resolve eff_move_next_segment_count : eff.
Lemma eff_prev_scan p i c : eff (prev_scan p i c).
Proof. revert c. induction i as [|n IH]; intros c; simpl; eff_go. Qed.
Hint Resolve eff_prev_scan : eff.
Lemma eff_move_prev_branch_count_loop n p i c k : eff (move_prev_branch_count_loop n p i c k).
Proof. revert p i c k. induction n as [|n IH]; intros p i c k; simpl; eff_go. Qed.
Hint Resolve eff_move_prev_branch_count_loop : eff.
Lemma eff_move_prev_branch_count p i c : eff (move_prev_branch_count p i c). Proof. eff_ @move_prev_branch_count. Qed.
Hint Resolve eff_move_prev_branch_count : eff.
Lemma eff_move_prev_leaf_count e c : eff (move_prev_leaf_count e c). Proof. eff_ @move_prev_leaf_count. Qed.
Hint Resolve eff_move_prev_leaf_count : eff.
Lemma eff_move_prev_segment_count e c : eff (move_prev_segment_count e c). Proof. eff_ @move_prev_segment_count. Qed.
Hint Resolve eff_move_prev_segment_count : eff.
Lemma eff_move_prev_iterator_count it c : eff (move_prev_iterator_count it c). Proof. eff_ @move_prev_iterator_count. Qed.
Lemma eff_move_iterator_count it d : eff (move_iterator_count it d).
Proof. unfold move_iterator_count. eff_go. Qed.
Hint Resolve eff_move_prev_iterator_count eff_move_iterator_count : eff.
Lemma eff_dereference it : eff (dereference it). Proof. eff_ @dereference. Qed.
Hint Resolve eff_dereference : eff.
Lemma eff_dereference_count it d : eff (dereference_count it d). Proof. eff_ @dereference_count. Qed.
Lemma eff_move_after_segment it : eff (move_after_segment it). Proof. eff_ @move_after_segment. Qed.
Lemma eff_move_after_segment_count it n : eff (move_after_segment_count it n). Proof. eff_ @move_after_segment_count. Qed.
Lemma eff_move_before_segment it : eff (move_before_segment it). Proof. eff_ @move_before_segment. Qed.
Lemma eff_move_before_segment_count it n : eff (move_before_segment_count it n). Proof. eff_ @move_before_segment_count. Qed.
Hint Resolve eff_dereference_count eff_move_after_segment eff_move_after_segment_count eff_move_before_segment : eff.
Lemma eff_pred_clock : eff (pred_clock (T:=T)).
Proof. intros st. apply PreOrder_Reflexive. Qed.
Lemma eff_pred_done b : allows P → eff (pred_done (T:=T) b). Proof. auto. Qed.
Hint Resolve eff_pred_done eff_pred_clock : eff.
Lemma eff_pred_tick : allows P → eff (pred_tick (C:=C)). Proof. unfold pred_tick. eff_go. Qed.
Hint Resolve eff_pred_tick : eff.
Lemma eff_std_equal n a b c f : allows P → eff (std_equal n a b c f).
Proof. intros HA. revert a b c. induction n as [|n IH]; intros a b c; simpl; unfold it_deref, it_next; eff_go. Qed.
Lemma eff_std_lex n a b c d f : allows P → eff (std_lexicographical_compare n a b c d f).
Proof. intros HA. revert a b c d. induction n as [|n IH]; intros a b c d; simpl; unfold it_deref, it_next; eff_go. Qed.
Hint Resolve eff_std_equal eff_std_lex : eff.
Lemma eff_op_eq a b f : allows P → eff (op_eq a b f). Proof. unfold op_eq, size_, begin_, end_. eff_go. Qed.
Lemma eff_op_lt a b f : allows P → eff (op_lt a b f). Proof. unfold op_lt, size_, begin_, end_. eff_go. Qed.
Lemma eff_read_from p i n : eff (read_from p i n).
Proof. revert i. induction n as [|n IH]; intros i; simpl; unfold read_pointer; eff_go. Qed.
Hint Resolve eff_op_eq eff_op_lt eff_read_from : eff.
Lemma eff_read_segment it : eff (read_segment it). Proof. unfold read_segment. eff_go. Qed.
Hint Resolve eff_read_segment : eff.

Lemma eff_const c ρ : is_const c = true → (asks c = true → allows P) → eff (exec c ρ).
Proof.
  intros Hc HA. unfold exec. apply eff_try; [apply _| |eff_go].
  destruct c; try done; cbn [exec_call]; unfold getc, geti, get_allocator, size_, empty_, height_, at_, op_index, front, back,
    begin_, end_, penultimate, nth_, it_deref, it_index, rdereference, op_ne, op_le, op_gt, op_ge, it_next, it_prev, it_add, it_sub, done_; eff_go.
Qed.
End read.
End fns.
