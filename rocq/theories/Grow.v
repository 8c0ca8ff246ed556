(** * Grow: which functions keep all blocks, and which obtain none.

    [gr b P m]: every normal return of [m] relates initial and final state by [P],
    and if [b], every exceptional one too.  Proof infrastructure. *)
From Verif Require Export Effects.
From stdpp Require Import options.
#[local] Set Default Proof Using "Type*".

Section gr.
Context {T : Type}.
Implicit Types P : state T → state T → Prop.
Definition gr (b : bool) P {A} (m : M T A) : Prop := ∀ st,
  match m st with Ok _ st' => P st st' | Throw _ st' => b = true → P st st' | Fault _ => True end.
Context (b : bool) P `{!PreOrder P}.
Lemma gr_eff {A} (m : M T A) : eff P m → gr b P m.
Proof. intros H st. specialize (H st). by destruct (m st). Qed.
Lemma gr_ret {A} (a : A) : gr b P (mret a).
Proof. apply gr_eff, eff_ret, _. Qed.
Lemma gr_fail {A} f : gr b P (fail (A:=A) f).
Proof. done. Qed.
Lemma gr_throw {A} e : gr b P (throw (A:=A) e).
Proof. apply gr_eff, eff_throw, _. Qed.
Lemma gr_bind {A B} (m : M T A) (k : A → M T B) : gr b P m → (∀ a, gr b P (k a)) → gr b P (m ≫= k).
Proof.
  intros Hm Hk st. rewrite /mbind /M_bind. specialize (Hm st). destruct (m st) as [a st1|e st1|f]; try done.
  specialize (Hk a st1). destruct (k a st1); try done; [by etrans|]. intros Hb. etrans; [done|by apply Hk].
Qed.
Lemma gr_for n i f : (∀ j, gr b P (f j)) → gr b P (for_ n i f).
Proof.
  intros H. revert i. induction n as [|n IH]; intros i; simpl; [apply gr_ret|]. apply gr_bind; [apply H|]. done.
Qed.
Lemma gr_heap_fuel : gr b P heap_fuel. Proof. apply gr_eff, eff_heap_fuel, _. Qed.
Lemma gr_height_fuel this : gr b P (height_fuel this). Proof. apply gr_eff, eff_height_fuel, _. Qed.
Lemma gr_lookup {A} (m : gmap nat A) n : gr b P (lookup_var m n). Proof. apply gr_eff, eff_lookup, _. Qed.
Lemma gr_init {A} (x : option A) : gr b P (init x). Proof. apply gr_eff, eff_init, _. Qed.
Lemma gr_elem {A} (l : list A) i : gr b P (elem l i). Proof. apply gr_eff, eff_elem, _. Qed.
Lemma gr_put {A} (l : list A) i a : gr b P (put l i a). Proof. apply gr_eff, eff_put, _. Qed.
End gr.
Create HintDb gr discriminated.
Global Hint Resolve gr_ret gr_fail gr_throw gr_heap_fuel gr_height_fuel gr_lookup gr_init gr_elem gr_put : gr.
Ltac gr_go :=
  repeat first
    [ progress intros
    | solve [auto with gr typeclass_instances]
    | apply gr_bind; [apply _| |]
    | apply gr_for; [apply _|]
    | match goal with
      | |- gr _ _ (match ?x with _ => _ end) => destruct x
      | |- gr _ _ (let _ := _ in _) => cbv zeta
      end ].
Ltac gr_ f := intros; unfold f; gr_go.

Section walk.
Context {T : Type} {C : cfg T}.
(** relations respected by everything but obtaining and releasing memory *)
Class stays (P : state T → state T → Prop) : Prop := Stays {
  stays_pre : PreOrder P;
  stays_same : ∀ st st', st_heap st' = st_heap st → n_allocs (st_cnt st') = n_allocs (st_cnt st) → P st st';
  stays_set : ∀ st st' l o, is_Some (st_heap st !! l) → st_heap st' = <[l := o]> (st_heap st) →
    n_allocs (st_cnt st') = n_allocs (st_cnt st) → P st st'
}.
Section stays.
Context (any : bool) (P : state T → state T → Prop) `{!stays P}.
Local Instance P_preorder : PreOrder P := stays_pre.
Lemma g_coarser : coarser P. Proof. apply coarser_same. intros st st' (H1 & _ & H2 & _). by apply stays_same. Qed.
Lemma g_allows : allows P. Proof. apply allows_same. intros st st' (H1 & _ & H2 & _). by apply stays_same. Qed.
Notation eff := (eff P).
Notation gr := (gr any P).
Hint Resolve gr_eff : gr.
Hint Resolve g_coarser g_allows : gr.
Hint Resolve eff_load_node eff_load_seg eff_load_seq eff_load eff_parent_pointer eff_parent_index eff_length_of eff_sizes eff_pointers eff_slot eff_read_slot eff_get_root eff_get_size eff_get_height eff_get_element_allocator eff_get_node_allocator eff_find_index eff_find_first eff_find_last eff_find_end eff_move_next_leaf eff_move_prev_leaf eff_move_next_iterator eff_move_prev_iterator eff_dereference eff_move_iterator_count eff_op_eq eff_op_lt eff_move_prev_segment eff_move_next_segment eff_find_index_root eff_find_first_root eff_find_last_root eff_find_end_root eff_move_prev_iterator_count eff_move_next_leaf_count eff_move_next_segment_count eff_move_prev_segment_count eff_pred_clock eff_pred_done eff_pred_tick : gr.
Lemma g_tick ok e : gr (tick ok e).
Proof. intros st. rewrite /tick. destruct (ok _); [|intros _]; by apply stays_same. Qed.
Hint Resolve g_tick : gr.
Lemma g_set_node p (f : node → M T node) : (∀ nd st, match f nd st with Ok _ st' => st' = st | Throw _ _ => False | Fault _ => True end) → gr (set_node p f).
Proof.
  intros Hf st. rewrite /set_node /load_node /load /mbind /M_bind.
  destruct p as [l|]; [|done]. destruct (st_heap st !! l) as [[| al nd|]|] eqn:E; try done. simpl.
  match goal with |- context [f nd ?st1] => specialize (Hf nd st1); destruct (f nd st1) as [nd' st2|? st2|] end; [|done|done].
  subst st2. simpl. by eapply (stays_set st _ l); [rewrite E|..].
Qed.
Ltac node_ := apply g_set_node; intros nd st; simpl; try done.
Lemma g_set_parent_pointer p q : gr (set_parent_pointer p q). Proof. node_. Qed.
Lemma g_set_parent_index p q : gr (set_parent_index p q). Proof. node_. Qed.
Lemma g_set_length p q : gr (set_length p q). Proof. node_. Qed.
Lemma g_set_sizes p i q : gr (set_sizes p i q).
Proof. node_. rewrite /mbind /M_bind /put. by destruct (_ <? _). Qed.
Lemma g_set_pointers p i q : gr (set_pointers p i q).
Proof. node_. rewrite /mbind /M_bind /put. by destruct (_ <? _). Qed.
Lemma g_set_slot p i q : gr (set_slot p i q).
Proof.
  intros st. rewrite /set_slot /load_seg /load /mbind /M_bind.
  destruct p as [l|]; [|done]. destruct (st_heap st !! l) as [[al sl| |]|] eqn:E; try done. simpl. rewrite /put.
  destruct (_ <? _); [|done]. simpl. by eapply (stays_set st _ l); [rewrite E|..].
Qed.
Lemma g_memcpy_slots p i q j n : gr (memcpy_slots p i q j n).
Proof.
  intros st. rewrite /memcpy_slots /load_seg /load /mbind /M_bind.
  destruct p as [l|]; [|done]. destruct (st_heap st !! l) as [[al sl| |]|] eqn:E; try done. simpl.
  destruct q as [l'|]; [|done]. destruct (st_heap st !! l') as [[al' sl'| |]|] eqn:E'; try done. simpl.
  case_bool_decide; [done|]. destruct (_ && _); [|done]. simpl. by eapply (stays_set st _ l'); [rewrite E'|..].
Qed.
Lemma g_memmove_slots p i j n : gr (memmove_slots p i j n).
Proof.
  intros st. rewrite /memmove_slots /load_seg /load /mbind /M_bind.
  destruct p as [l|]; [|done]. destruct (st_heap st !! l) as [[al sl| |]|] eqn:E; try done. simpl.
  destruct (_ && _); [|done]. simpl. by eapply (stays_set st _ l); [rewrite E|..].
Qed.
Hint Resolve g_set_parent_pointer g_set_parent_index g_set_length g_set_sizes g_set_pointers g_set_slot g_memcpy_slots g_memmove_slots : gr.
Lemma g_set_seq l (f : seqobj → seqobj) : gr (s ← load_seq l; store l (OSeq (f s))).
Proof.
  intros st. rewrite /load_seq /load /mbind /M_bind.
  destruct (st_heap st !! l) as [[| |s']|] eqn:E; try done. simpl. by eapply (stays_set st _ l); [rewrite E|..].
Qed.
Lemma g_set_root l r : gr (set_root l r). Proof. apply (g_set_seq l (λ s, SeqObj r (s_size s) (s_ht s) (s_ealloc s) (s_nalloc s))). Qed.
Lemma g_set_size l r : gr (ModelSeq.set_size l r). Proof. apply (g_set_seq l (λ s, SeqObj (s_root s) r (s_ht s) (s_ealloc s) (s_nalloc s))). Qed.
Lemma g_set_height l r : gr (set_height l r). Proof. apply (g_set_seq l (λ s, SeqObj (s_root s) (s_size s) r (s_ealloc s) (s_nalloc s))). Qed.
Hint Resolve g_set_root g_set_size g_set_height : gr.
Lemma g_user_tick : gr user_tick. Proof. gr_ @user_tick. Qed.
Lemma g_move_tick : gr move_tick. Proof. gr_ @move_tick. Qed.
Hint Resolve g_user_tick g_move_tick : gr.
Lemma g_destroy_segment p i : gr (destroy_segment p i). Proof. gr_ @destroy_segment. Qed.
Lemma g_destroy_node p i : gr (destroy_node p i). Proof. gr_ @destroy_node. Qed.
Hint Resolve g_destroy_segment g_destroy_node : gr.
Lemma g_construct_segment p i v : gr (construct_segment p i v). Proof. gr_ @construct_segment. Qed.
Lemma g_construct_leaf p i n c : gr (construct_leaf p i n c). Proof. gr_ @construct_leaf. Qed.
Lemma g_construct_branch p i n c : gr (construct_branch p i n c). Proof. gr_ @construct_branch. Qed.
Lemma g_assign_segment p i v : gr (assign_segment p i v). Proof. gr_ @assign_segment. Qed.
Lemma g_assign_leaf p i n c : gr (assign_leaf p i n c). Proof. gr_ @assign_leaf. Qed.
Lemma g_assign_branch p i n c : gr (assign_branch p i n c). Proof. gr_ @assign_branch. Qed.
Lemma g_leave_residue p i : gr (leave_residue p i). Proof. gr_ @leave_residue. Qed.
Hint Resolve g_construct_segment g_construct_leaf g_construct_branch g_assign_segment g_assign_leaf g_assign_branch g_leave_residue : gr.
Lemma g_move_assign_segment p i q j : gr (move_assign_segment p i q j). Proof. gr_ @move_assign_segment. Qed.
Lemma g_move_assign_leaf p i q j : gr (move_assign_leaf p i q j). Proof. gr_ @move_assign_leaf. Qed.
Lemma g_move_assign_branch p i q j : gr (move_assign_branch p i q j). Proof. gr_ @move_assign_branch. Qed.
Lemma g_move_segment p i q j : gr (move_segment p i q j). Proof. gr_ @move_segment. Qed.
Lemma g_move_leaf p i q j : gr (move_leaf p i q j). Proof. gr_ @move_leaf. Qed.
Lemma g_move_branch p i q j : gr (move_branch p i q j). Proof. gr_ @move_branch. Qed.
Hint Resolve g_move_assign_segment g_move_assign_leaf g_move_assign_branch g_move_segment g_move_leaf g_move_branch : gr.
Lemma g_construct_range_loop p i q j n : gr (construct_range_loop p i q j n).
Proof. revert i j. induction n as [|n IH]; intros i j; simpl; gr_go. Qed.
Hint Resolve g_construct_range_loop : gr.
Lemma g_construct_range_segment p i q j n : gr (construct_range_segment p i q j n). Proof. gr_ @construct_range_segment. Qed.
Lemma g_construct_range_leaf p i q j n : gr (construct_range_leaf p i q j n).
Proof. revert i j. induction n as [|n IH]; intros i j; simpl; gr_go. Qed.
Lemma g_construct_range_branch p i q j n : gr (construct_range_branch p i q j n).
Proof. revert i j. induction n as [|n IH]; intros i j; simpl; gr_go. Qed.
Hint Resolve g_construct_range_segment g_construct_range_leaf g_construct_range_branch : gr.
Lemma g_assign_forward_segment_loop p n i j : gr (assign_forward_segment_loop p n i j).
Proof. revert i j. induction n as [|n IH]; intros i j; simpl; gr_go. Qed.
Lemma g_assign_forward_leaf_loop p n i j : gr (assign_forward_leaf_loop p n i j).
Proof. revert i j. induction n as [|n IH]; intros i j; simpl; gr_go. Qed.
Lemma g_assign_forward_branch_loop p n i j : gr (assign_forward_branch_loop p n i j).
Proof. revert i j. induction n as [|n IH]; intros i j; simpl; gr_go. Qed.
Lemma g_assign_backward_segment_loop p n i j : gr (assign_backward_segment_loop p n i j).
Proof. revert i j. induction n as [|n IH]; intros i j; simpl; gr_go. Qed.
Lemma g_assign_backward_leaf_loop p n i j : gr (assign_backward_leaf_loop p n i j).
Proof. revert i j. induction n as [|n IH]; intros i j; simpl; gr_go. Qed.
Lemma g_assign_backward_branch_loop p n i j : gr (assign_backward_branch_loop p n i j).
Proof. revert i j. induction n as [|n IH]; intros i j; simpl; gr_go. Qed.
Hint Resolve g_assign_forward_segment_loop g_assign_forward_leaf_loop g_assign_forward_branch_loop
  g_assign_backward_segment_loop g_assign_backward_leaf_loop g_assign_backward_branch_loop : gr.
Lemma g_assign_forward_segment p n i j : gr (assign_forward_segment p n i j). Proof. gr_ @assign_forward_segment. Qed.
Lemma g_assign_forward_leaf p n i j : gr (assign_forward_leaf p n i j). Proof. gr_ @assign_forward_leaf. Qed.
Lemma g_assign_forward_branch p n i j : gr (assign_forward_branch p n i j). Proof. gr_ @assign_forward_branch. Qed.
Lemma g_assign_backward_segment p n i j : gr (assign_backward_segment p n i j). Proof. gr_ @assign_backward_segment. Qed.
Lemma g_assign_backward_leaf p n i j : gr (assign_backward_leaf p n i j). Proof. gr_ @assign_backward_leaf. Qed.
Lemma g_assign_backward_branch p n i j : gr (assign_backward_branch p n i j). Proof. gr_ @assign_backward_branch. Qed.
Hint Resolve g_assign_forward_segment g_assign_forward_leaf g_assign_forward_branch
  g_assign_backward_segment g_assign_backward_leaf g_assign_backward_branch : gr.
Lemma g_update_sizes_loop n p i s : gr (update_sizes_loop n p i s).
Proof. revert p i. induction n as [|n IH]; intros p i; simpl; gr_go. Qed.
Hint Resolve g_update_sizes_loop : gr.
Lemma g_update_sizes l p i s : gr (update_sizes l p i s). Proof. gr_ @update_sizes. Qed.
Hint Resolve g_update_sizes : gr.
Lemma g_increment_sizes l p i : gr (increment_sizes l p i). Proof. gr_ @increment_sizes. Qed.
Lemma g_decrement_sizes l p i : gr (decrement_sizes l p i). Proof. gr_ @decrement_sizes. Qed.
Hint Resolve g_increment_sizes g_decrement_sizes : gr.
(** what insertion does after the allocations *)
Lemma g_insert_single_branch_loop n l b p i a c s : gr (insert_single_branch_loop n l b p i a c s).
Proof. revert b p i a c s. induction n as [|n IH]; intros b p i a c s; simpl; gr_go. Qed.
Hint Resolve g_insert_single_branch_loop : gr.
Lemma g_insert_single_branch l b p i a c s : gr (insert_single_branch l b p i a c s). Proof. gr_ @insert_single_branch. Qed.
Hint Resolve g_insert_single_branch : gr.
Lemma g_insert_single_leaf l e b p i a c s : gr (insert_single_leaf l e b p i a c s). Proof. gr_ @insert_single_leaf. Qed.
Hint Resolve g_insert_single_leaf : gr.
Lemma g_make_value s : gr (make_value s). Proof. gr_ @make_value. Qed.
Lemma g_assign_value p i s : gr (assign_value p i s). Proof. destruct s; unfold assign_value; gr_go. Qed.
Hint Resolve g_make_value g_assign_value : gr.
Lemma g_it_assign it s : gr (it_assign it s). Proof. gr_ @it_assign. Qed.
Hint Resolve g_it_assign : gr.
Lemma g_alg_move a b : gr (alg_move a b). Proof. gr_ @alg_move. Qed.
Hint Resolve g_alg_move : gr.
Ltac its := unfold it_deref, it_next, it_prev, begin_, end_.
Lemma g_alg_read n a b : gr (alg_read n a b).
Proof. revert a. induction n as [|n IH]; intros a; cbn [alg_read]; its; gr_go. Qed.
Lemma g_alg_write a vs : gr (alg_write a vs).
Proof. revert a. induction vs as [|v vs IH]; intros a; cbn [alg_write]; its; gr_go. Qed.
Lemma g_std_find_if n a b p : (∀ v, gr (p v)) → gr (std_find_if n a b p).
Proof. intros Hp. revert a. induction n as [|n IH]; intros a; cbn [std_find_if]; its; gr_go. Qed.
Lemma g_std_remove_loop n r a b p : (∀ v, gr (p v)) → gr (std_remove_loop n r a b p).
Proof. intros Hp. revert r a. induction n as [|n IH]; intros r a; cbn [std_remove_loop]; its; gr_go. Qed.
Lemma g_std_adjacent_loop n a b p : gr (std_adjacent_loop n a b p).
Proof. revert a. induction n as [|n IH]; intros a; cbn [std_adjacent_loop]; its; gr_go. Qed.
Lemma g_std_unique_loop n d a b p : gr (std_unique_loop n d a b p).
Proof. revert d a. induction n as [|n IH]; intros d a; cbn [std_unique_loop]; its; gr_go. Qed.
Lemma g_std_iter_swap a b : gr (std_iter_swap a b). Proof. gr_ @std_iter_swap. Qed.
Hint Resolve g_alg_read g_alg_write g_std_find_if g_std_remove_loop g_std_adjacent_loop g_std_unique_loop g_std_iter_swap : gr.
Lemma g_std_reverse_loop n a b : gr (std_reverse_loop n a b).
Proof. revert a b. induction n as [|n IH]; intros a b; cbn [std_reverse_loop]; its; gr_go. Qed.
Hint Resolve g_std_reverse_loop : gr.
Lemma g_std_remove_if a b p : (∀ v, gr (p v)) → gr (std_remove_if a b p). Proof. unfold std_remove_if. its. gr_go. Qed.
Lemma g_std_unique a b p : gr (std_unique a b p). Proof. unfold std_unique. its. gr_go. Qed.
Lemma g_std_reverse a b : gr (std_reverse a b). Proof. unfold std_reverse. its. gr_go. Qed.
Lemma g_alg_finish b a u v : gr (alg_finish b a u v). Proof. unfold alg_finish. gr_go. Qed.
Hint Resolve g_alg_finish : gr.
Lemma g_std_stable_sort a b p : gr (std_stable_sort a b p). Proof. unfold std_stable_sort. gr_go. Qed.
Lemma g_peek s : gr (peek s). Proof. gr_ @peek. Qed.
Hint Resolve g_std_remove_if g_std_unique g_std_reverse g_std_stable_sort g_peek : gr.
Lemma g_reverse l : gr (reverse_ l). Proof. unfold reverse_. its. gr_go. Qed.
Lemma g_sort l lt : gr (ModelApi.sort l lt). Proof. unfold ModelApi.sort. its. gr_go. Qed.
Hint Resolve g_reverse g_sort : gr.
Lemma g_gets ρ s : gr (gets ρ s). Proof. destruct s; unfold gets, geti; gr_go. Qed.
Hint Resolve g_gets : gr.


(** ** With allocate() *)
Section alloc.
Context (Halloc : ∀ o, gr (allocate (C:=C) o)) (Hb : any = false).
Hint Resolve Halloc : gr.
Lemma g_allocate_segment l : gr (allocate_segment l). Proof. gr_ @allocate_segment. Qed.
Lemma g_allocate_node l : gr (allocate_node l). Proof. gr_ @allocate_node. Qed.
Hint Resolve g_allocate_segment g_allocate_node : gr.
Lemma g_alloc_node_or_cleanup l a s : gr (alloc_node_or_cleanup l a s).
Proof.
  intros st. rewrite /alloc_node_or_cleanup /try_catch. pose proof (g_allocate_node l st) as H.
  destruct (allocate_node l st) as [p st1|e st1|f]; [done| |done]. rewrite Hb.
  rewrite /mbind /M_bind /throw. by repeat case_match.
Qed.
Hint Resolve g_alloc_node_or_cleanup : gr.
Lemma g_alloc_nodes_single_loop n l p a s : gr (alloc_nodes_single_loop n l p a s).
Proof. revert p a. induction n as [|n IH]; intros p a; simpl; gr_go. Qed.
Hint Resolve g_alloc_nodes_single_loop : gr.
Lemma g_alloc_nodes_single l p s : gr (alloc_nodes_single l p s). Proof. gr_ @alloc_nodes_single. Qed.
Hint Resolve g_alloc_nodes_single : gr.
Lemma g_insert_single_segment l e v : gr (insert_single_segment l e v). Proof. gr_ @insert_single_segment. Qed.
Hint Resolve g_insert_single_segment : gr.
Lemma g_insert_single_iterator l it v : gr (insert_single_iterator l it v). Proof. gr_ @insert_single_iterator. Qed.
Hint Resolve g_insert_single_iterator : gr.
Lemma g_emplace_single l it s : gr (emplace_single l it s). Proof. gr_ @emplace_single. Qed.
Hint Resolve g_emplace_single : gr.
Lemma g_emplace_count_loop l it n s : gr (emplace_count_loop l it n s).
Proof. revert it. induction n as [|n IH]; intros it; simpl; gr_go. Qed.
Hint Resolve g_emplace_count_loop : gr.
Lemma g_emplace_count l it n s : gr (emplace_count l it n s).
Proof. gr_ @emplace_count.
Qed.
Lemma g_input_end r : gr (input_end r). Proof. gr_ @input_end. Qed.
Lemma g_input_src r : gr (input_src r). Proof. gr_ @input_src. Qed.
Lemma g_input_next r : gr (input_next r). Proof. gr_ @input_next. Qed.
Hint Resolve g_emplace_count g_input_end g_input_src g_input_next : gr.
Lemma g_emplace_range_loop n l it r c : gr (emplace_range_loop n l it r c).
Proof. revert it r c. induction n as [|n IH]; intros it r c; cbn [emplace_range_loop]; gr_go. Qed.
Hint Resolve g_emplace_range_loop : gr.
Lemma g_emplace_range l it r : gr (emplace_range l it r). Proof. gr_ @emplace_range. Qed.
Hint Resolve g_emplace_range : gr.
Lemma g_getr ρ r : gr (getr ρ r). Proof. destruct r; unfold getr, geti; gr_go. Qed.
Hint Resolve g_getr : gr.
Hint Resolve g_getr g_emplace_range : gr.
Lemma g_exec_insert c ρ :
  match c with InsertOne _ _ _ _ | InsertCount _ _ _ _ _ | InsertRange _ _ _ _ | PushBack _ _ | PushFront _ _ => True | _ => False end →
  gr (exec_call c ρ).
Proof.
  destruct c; try done; intros _; cbn [exec_call]; unfold getc, geti, insert_, insert_count, insert_range, push_back, push_front, done_; gr_go.
Qed.
End alloc.

(** ** With deallocate() *)
Section free.
Context (Hfree : ∀ l, gr (free (T:=T) l)).
Hint Resolve Hfree : gr.
Lemma g_deallocate_segment l p : gr (deallocate_segment l p). Proof. gr_ @deallocate_segment. Qed.
Lemma g_deallocate_node l p : gr (deallocate_node l p). Proof. gr_ @deallocate_node. Qed.
Hint Resolve g_deallocate_segment g_deallocate_node : gr.
Lemma g_purge_segment l p n : gr (purge_segment l p n). Proof. gr_ @purge_segment. Qed.
Hint Resolve g_purge_segment : gr.
Lemma g_purge_node l h p : gr (purge_node l h p).
Proof. revert p. induction h as [|h IH]; intros p; simpl; gr_go. Qed.
Hint Resolve g_purge_node : gr.
Lemma g_purge_root l p n h : gr (purge_root l p n h). Proof. gr_ @purge_root. Qed.
Hint Resolve g_purge_root : gr.
Lemma g_purge l : gr (purge l). Proof. gr_ @purge. Qed.
Hint Resolve g_purge : gr.
Lemma g_erase_single_branch_loop n l p i : gr (erase_single_branch_loop n l p i).
Proof. revert p i. induction n as [|n IH]; intros p i; simpl; gr_go. Qed.
Hint Resolve g_erase_single_branch_loop : gr.
Lemma g_erase_single_branch l p i : gr (erase_single_branch l p i). Proof. gr_ @erase_single_branch. Qed.
Hint Resolve g_erase_single_branch : gr.
Lemma g_erase_single_leaf l e p i : gr (erase_single_leaf l e p i). Proof. gr_ @erase_single_leaf. Qed.
Hint Resolve g_erase_single_leaf : gr.
Lemma g_erase_single_segment l e : gr (erase_single_segment l e). Proof. gr_ @erase_single_segment. Qed.
Hint Resolve g_erase_single_segment : gr.
Lemma g_erase_single l it : gr (erase_single l it). Proof. gr_ @erase_single. Qed.
Hint Resolve g_erase_single : gr.
Lemma g_erase_range_loop n l a b : gr (erase_range_loop n l a b).
Proof. revert b. induction n as [|n IH]; intros b; cbn [erase_range_loop]; gr_go.
Qed.
Hint Resolve g_erase_range_loop : gr.
Lemma g_erase_range l a b : gr (erase_range l a b). Proof. gr_ @erase_range. Qed.
Hint Resolve g_erase_range : gr.
Lemma g_clear l : gr (clear l). Proof. gr_ @clear. Qed.
Hint Resolve g_clear : gr.
Lemma g_remove l s e : gr (ModelApi.remove l s e).
Proof. unfold ModelApi.remove, erase_between. its. gr_go.
  all: (apply g_std_find_if || apply g_std_remove_loop); gr_go.
Qed.
Lemma g_remove_if l p : gr (remove_if l p).
Proof. unfold remove_if, erase_between. its. gr_go.
  all: (apply g_std_find_if || apply g_std_remove_loop); gr_go.
Qed.
Lemma g_unique l p : gr (unique l p). Proof. unfold unique, erase_between. its. gr_go. Qed.
Hint Resolve g_remove g_remove_if g_unique : gr.
Hint Resolve g_erase_range g_clear : gr.
Lemma g_exec_erase c ρ :
  match c with
  | Clear _ | Erase _ _ _ | EraseRange _ _ _ _ | PopBack _ | PopFront _ | Remove _ _ _ | RemoveIf _ _ | Unique _ _ => True
  | _ => False
  end → gr (exec_call c ρ).
Proof.
  destruct c; try done; intros _; cbn [exec_call]; unfold getc, geti, erase_, erase_between, pop_back, pop_front, done_; gr_go.
Qed.
End free.
Lemma g_exec_still c ρ :
  match c with Reverse _ | Sort _ _ | Write _ _ => True | _ => False end → gr (exec_call c ρ).
Proof. destruct c; try done; intros _; cbn [exec_call]; unfold getc, geti, done_; gr_go. Qed.
End stays.
End walk.
