(** * Effort: how many memory accesses every call makes.  Proof infrastructure
    (the statements are in PropsTime.v). *)
From Verif Require Export Sound Loops Sweep Complexity.
From stdpp Require Import options.
Set Default Proof Using "Type*".

Section effort.
Context {T : Type} {C : cfg T} {OK : cfg_ok C}.
Implicit Types σ : sst T.
Implicit Types ρ : env.
Implicit Types st : state T.
Implicit Types o : option (tree T).
Implicit Types τ : gmap nat (option (tree T) * nat).
Implicit Types s : arg T.
Implicit Types it : iterator_data.
Notation reads st := (n_reads (st_cnt st)).

(** ** From the logic to runs *)
Lemma reachable_arrays σ ρ st : reachable C σ ρ st → arrays (st_heap st).
Proof.
  induction 1 as [n k|σ ρ st c o ρ' st' σ' Hr IH Hp He Hs Hc|σ ρ st c o ρ' st' σ' Hr IH Hp He Hs Hc|σ ρ h n k k' Hr IH]; simpl in *.
  - intros l o Hl. by rewrite lookup_empty in Hl.
  - pose proof (a_exec c ρ st) as Ha. rewrite He in Ha. by apply Ha.
  - pose proof (a_exec c ρ st) as Ha. rewrite He in Ha. by apply Ha.
  - done.
Qed.
Lemma effort_ok k σ ρ st c z ρ' st' :
  reachable C σ ρ st → (R σ ρ ⊢ tk k (exec_call c ρ)) → exec (C:=C) c ρ st = Ok (z, ρ') st' →
  reads st' ≤ reads st + k.
Proof.
  intros Hr [Hk] He. specialize (Hk _ (reachable_R _ _ _ Hr)). rewrite tk_holds in Hk.
  specialize (Hk ∅ (st_clk st) (st_cnt st)). rewrite right_id_L in Hk.
  specialize (Hk ltac:(apply map_disjoint_empty_r) (reachable_arrays _ _ _ Hr)).
  destruct st as [h clk cnt]. rewrite /exec /try_catch in He. rewrite /runs /= in Hk.
  destruct (exec_call c ρ _) as [a st1|e st1|]; [|injection He as _ _ <-; done|done].
  by injection He as -> <-.
Qed.

Hint Resolve a_emplace_single a_make_value a_assign_value a_erase_single_segment a_erase_single a_erase_range_loop a_erase_range
  a_emplace_count_loop a_emplace_count a_emplace_range_loop a_emplace_range a_input_end a_input_src a_input_next a_assign_count_loop
  a_assign_count a_assign_range_loop a_assign_range a_resize_count a_whole_range a_clear a_dtor a_ctor_alloc a_ctor_count
  a_ctor_range a_ctor_copy a_ctor_copy_alloc a_ctor_move_alloc a_move_assign a_op_copy_assign a_splice_range a_steal
  a_remove a_remove_if a_unique a_reverse a_swap a_ctor_move a_it_assign a_alg_move a_std_iter_swap a_peek : eff.
Hint Resolve karr_coarser karr_allows eff_read_slot eff_get_root eff_get_size eff_get_height eff_get_element_allocator eff_get_node_allocator
  eff_find_index eff_find_first eff_find_last eff_find_end eff_move_next_leaf eff_move_prev_leaf eff_move_next_iterator eff_move_prev_iterator
  eff_dereference eff_move_iterator_count eff_move_prev_iterator_count eff_op_eq eff_op_lt : eff.
Ltac karr := repeat first
    [ progress intros
    | solve [auto with eff typeclass_instances]
    | apply eff_bind; [apply _| |]
    | match goal with |- Effects.eff _ (match ?x with _ => _ end) => destruct x end ].

Lemma ret_bind {A B} (a : A) (f : A → M T B) : mret a ≫= f = f a. Proof. done. Qed.
Lemma tk_pay j n {A B} (m : M T A) (f : A → M T B) :
  j ≤ n → eff karr m → tk j m ∧ wp m (λ a, tk (n - j) (f a)) (λ _, True) ⊢ tk n (m ≫= f).
Proof. intros. apply tk_step; [lia|done]. Qed.
(** the rest is cheap *)
Lemma tk_tail j k n {A B} (m : M T A) (f : A → M T B) :
  (∀ a, any k (f a)) → j + k ≤ n → tk j m ⊢ tk n (m ≫= f).
Proof.
  intros Hf Hn. split; intros h Hm. rewrite tk_holds in Hm. rewrite tk_holds. intros hf clk cnt Hd Ha.
  specialize (Hm hf clk cnt Hd Ha). rewrite /runs /mbind /M_bind in Hm |- *. destruct (m _) as [b st1|e st1|]; [|lia|done].
  specialize (Hf b st1). destruct (f b st1); [lia|lia|done].
Qed.
Lemma any_deref it : any (T:=T) 1 (it_deref it). Proof. apply any_read_slot. Qed.
Lemma any_read_from p i n : any (T:=T) n (read_from p i n).
Proof.
  revert i. induction n as [|n IH]; intros i; cbn [read_from]; [apply any_ret|].
  eapply (any_mono (1 + (n + 0))); [|lia]. eapply any_bind; [apply any_read_slot|intros v].
  eapply any_bind; [apply IH|intros vs]. apply any_ret.
Qed.
Lemma any_read_segment it : any (T:=T) (sg_len (e_seg (i_entry it))) (read_segment it).
Proof.
  rewrite /read_segment /= Nat.sub_0_r. eapply any_mono; [eapply any_bind; [apply any_read_from|intros vs; apply any_ret]|lia].
Qed.
Lemma segment_len ea na l o it : it_ok o it → seqp (C:=C) ea na l o ⊢ ⌜sg_len (e_seg (i_entry it)) ≤ segment_max⌝.
Proof.
  intros Hit. iIntros "H". destruct o as [t|].
  - iDestruct (seqp_wf with "H") as %[h Hw]. iPureIntro. destruct Hit as [(c & l0 & xs & -> & Hs & _) _]. rewrite Hs /=.
    pose proof (wfroot_plug_seg _ _ _ _ Hw) as ->. apply wfroot_plug in Hw as [_ Hw]. destruct c; simpl in Hw; lia.
  - iPureIntro. rewrite (it_ok_nil _ Hit) /=. lia.
Qed.
Lemma any_lookup {A} (m : gmap nat A) n : any (T:=T) 0 (lookup_var m n).
Proof. rewrite /lookup_var. destruct (m !! n); [apply any_ret|apply any_fail]. Qed.
Lemma any_gets ρ s : any (T:=T) 0 (gets ρ s).
Proof.
  destruct s as [v|w|w]; [apply any_ret|..]; apply any_bind_pure; try apply any_lookup; intros; apply any_ret.
Qed.

(** ** Constant time *)
Lemma any_bind_ j k n {A B} (m : M T A) (f : A → M T B) : any j m → (∀ a, any k (f a)) → j + k ≤ n → any n (m ≫= f).
Proof. intros. eapply any_mono; [by eapply any_bind|done]. Qed.
Lemma any_set l f : any (T:=T) 1 (s ← load_seq l; store l (OSeq (f s))).
Proof. apply any_bind_pure; [apply any_load_seq|]. intros s. apply any_store. Qed.
Lemma any_get l {A} (f : seqobj → A) : any (T:=T) 1 (s ← load_seq l; mret (f s)).
Proof. apply any_bind_pure; [apply any_load_seq|]. intros s. apply any_ret. Qed.
Lemma any_place (b : obj T) : any (T:=T) 0 (place (C:=C) b). Proof. intros st. simpl. lia. Qed.
Ltac any_go := repeat first
  [ apply any_ret | apply any_fail | apply any_deref | apply any_lookup | apply any_gets | apply any_get_size | apply any_get_root
  | apply any_get_height | apply any_set_size | apply any_set_height | apply any_assign_value | apply any_place | apply any_load_seq
  | apply any_get | apply any_set | eapply any_bind; [|intros ?] ].
Lemma any_swap l k : any (T:=T) 20 (swap_ (C:=C) l k).
Proof.
  assert (any (T:=T) 8 (swap_allocator (C:=C) l k)) as Hs.
  { unfold swap_allocator. destruct (c_pocs C); [|eapply any_mono; [apply any_ret|lia]]. eapply any_mono; [any_go|lia]. }
  unfold swap_. eapply any_mono; [repeat (eapply any_bind; [solve [any_go]|intros ?]); apply Hs|lia].
Qed.
Lemma any_ctor_move l : any (T:=T) 4 (ctor_move (C:=C) l).
Proof. unfold ctor_move. eapply any_mono; [any_go|lia]. Qed.
Lemma any_constant c ρ : constant_time c = true → any (T:=T) 20 (exec_call (C:=C) c ρ).
Proof.
  destruct c; try done; intros _; cbn [exec_call].
  all: unfold getc, geti, ctor_alloc, get_allocator, size_, empty_, height_, it_assign, done_.
  all: try (eapply any_mono; [solve [any_go]|lia]).
  eapply any_mono; [do 2 (eapply any_bind; [apply any_lookup|intros ?]); eapply any_bind; [apply any_swap|intros ?; apply any_ret]|lia].
Qed.

(** ** Logarithmic time *)
Ltac tvars :=
  repeat (first
    [ match goal with H : e_cont ?ρ !! ?x = Some ?l |- context [getc ?ρ ?x] =>
        rewrite (getc_ok ρ x l H) end
    | match goal with H : e_iter ?ρ !! ?w = Some ?it |- context [geti ?ρ ?w] =>
        rewrite (geti_ok ρ w it H) end]);
  rewrite ?ret_bind.
Ltac start_live Hx o a l :=
  iIntros "HR"; let τ := fresh "τ" in let Ha := fresh "Ha" in iDestruct "HR" as (τ Ha) "Hr"; open_live Ha Hx o a l;
  cbn [exec_call]; tvars;
  match goal with Ht : τ !! _ = Some (o, a), Hl : _ !! _ = Some l |- _ => take_ Ht Hl end.
Ltac start_at Hw o a l it :=
  iIntros "HR"; let τ := fresh "τ" in let Ha := fresh "Ha" in iDestruct "HR" as (τ Ha) "Hr"; open_at Ha Hw o a l it;
  cbn [exec_call]; tvars;
  match goal with Ht : τ !! _ = Some (o, a), Hl : _ !! _ = Some l |- _ => take_ Ht Hl end.
Ltac sizes := repeat match goal with
  | H : contents ?σ ?x = oelems ?o |- context [length (contents ?σ ?x)] => rewrite H; change (length (oelems o)) with (osize o)
  end.
Ltac budget := try match goal with |- context [L ?n] => pose proof (un_L n) end; unfold un in *; lia.
Ltac tail k H := iApply (tk_tail _ k); [intros ?; eapply any_mono; [any_go|lia]| |by iApply (H with "Hs")]; budget.

Lemma effort_At σ ρ x n : live σ x → R σ ρ ⊢ tk (150 * L (length (contents σ x))) (exec_call (At x n) ρ).
Proof.
  intros Hx. start_live Hx o a l. sizes. unfold at_.
  iApply (tk_tail _ 1); [intros ?; eapply any_mono; [any_go|lia]| |]; cycle 1.
  { iApply (tk_pay 1 (1 + 8 * L (osize o))); [lia|karr|]. iSplit; [by iApply tk_any_; apply any_get_size|].
    iApply (wp_get_size_o with "Hs"). iIntros "Hs". destruct (_ <=? _).
    - iApply tk_any_. intros st. simpl. lia.
    - iApply (tk_mono (8 * L (osize o))); [lia|]. by iApply (tk_find_index with "Hs"). }
  budget.
Qed.
Lemma effort_nth σ ρ x n w : live σ x → R σ ρ ⊢ tk (150 * L (length (contents σ x))) (exec_call (NthOf x n w) ρ).
Proof.
  intros Hx. start_live Hx o a l. sizes. unfold nth_.
  iApply (tk_tail _ 0); [intros ?; eapply any_mono; [any_go|lia]| |]; cycle 1.
  { iApply (tk_pay 1 (1 + 8 * L (osize o))); [lia|karr|]. iSplit; [by iApply tk_any_; apply any_get_size|].
    iApply (wp_get_size_o with "Hs"). iIntros "Hs". iApply (tk_mono (8 * L (osize o))); [lia|]. destruct (_ <=? _).
    - by iApply (tk_find_end with "Hs").
    - by iApply (tk_find_index with "Hs"). }
  budget.
Qed.
Lemma effort_find σ ρ x c :
  live σ x → match c with Index y _ | Front y | Back y | Begin y _ | End y _ | Penultimate y _ => x = y | _ => False end →
  R σ ρ ⊢ tk (150 * L (length (contents σ x))) (exec_call c ρ).
Proof.
  intros Hx Hc. destruct c; try done; subst; start_live Hx o a l; sizes; unfold op_index, front, back, begin_, end_, penultimate.
  - tail 1 tk_find_index.
  - tail 1 tk_find_first.
  - tail 1 tk_find_last.
  - tail 0 tk_find_first.
  - tail 0 tk_find_end.
  - tail 0 tk_find_last.
Qed.
Lemma effort_step σ ρ w x p c :
  at_it σ w x p → match c with DerefAt v _ | RDeref v | StepNext v _ | StepPrev v _ | StepAdd v _ _ | StepSub v _ _ => w = v | _ => False end →
  R σ ρ ⊢ tk (150 * L (length (contents σ x))) (exec_call c ρ).
Proof.
  intros Hw Hc. destruct c; try done; subst; start_at Hw o a l it; sizes; unfold it_index, dereference_count, rdereference, it_next, it_prev, it_add, it_sub.
  - iApply (tk_tail _ 0); [intros ?; any_go| |iApply (tk_tail _ 1); [intros ?; any_go|done|by iApply (tk_move_count with "Hs")]]. budget.
  - iApply (tk_tail _ 0); [intros ?; any_go| |iApply (tk_tail _ 1); [intros ?; any_go|done|by iApply (tk_move_prev with "Hs")]]. budget.
  - tail 0 tk_move_next.
  - tail 0 tk_move_prev.
  - tail 0 tk_move_count.
  - tail 0 tk_move_count.
Qed.
Lemma tk_chain a l o it {A} (m : M T A) Q :
  it_ok o it → (∀ h d, arrays h → chain h (lf_ptr (e_leaf (i_entry it))) d → look h (climb d) m Q) →
  seqp (C:=C) a a l o ⊢ tk (8 * L (osize o)) m.
Proof.
  intros Hit%it_ok_oseg H. apply tk_lives. intros st Ha Ho. destruct (lives_chain _ _ _ _ _ _ Ho Hit) as (d & Hd & Hl).
  eapply look_runs, look_le; [by apply H|by apply climb_L].
Qed.
Lemma a_read_from p i n : eff karr (read_from (T:=T) p i n).
Proof.
  revert i. induction n as [|n IH]; intros j; cbn [read_from]; [karr|].
  apply eff_bind; [apply _|unfold read_pointer; karr|intros v]. apply eff_bind; [apply _|apply IH|karr].
Qed.
Lemma pay_segment a l o it n {B} (f : out T → M T B) :
  it_ok o it → segment_max ≤ n →
  seqp (C:=C) a a l o ⊢ (∀ z, seqp (C:=C) a a l o -∗ tk (n - segment_max) (f z)) -∗ tk n (read_segment it ≫= f).
Proof.
  iIntros (Hit Hn) "Hs Hf". iDestruct (segment_len with "Hs") as %Hlen; [done|].
  iApply (tk_pay segment_max); [done| |].
  { unfold read_segment. apply eff_bind; [apply _|apply a_read_from|karr]. }
  iSplit. { iApply tk_any_. eapply any_mono; [apply any_read_segment|done]. }
  iApply (wp_read_segment with "Hs"); [done|]. iIntros (before xs _) "Hs". by iApply "Hf".
Qed.
Lemma effort_segment σ ρ w x p c :
  at_it σ w x p → match c with SegAfter v _ | SegBefore v _ => w = v | SegAfterCount y v _ _ => w = v ∧ x = y | _ => False end →
  R σ ρ ⊢ tk (150 * L (length (contents σ x))) (exec_call c ρ).
Proof.
  intros Hw Hc. destruct c; try done; subst; [|destruct Hc as [-> ->]|]; start_at Hw o a l it; sizes.
  all: iApply (pay_segment with "Hs"); [done|budget|]; iIntros (z) "Hs".
  - iApply (tk_tail _ 0); [intros ?; any_go| |].
    2: { iApply (tk_tail (8 * L (osize o)) 0); [intros ?; any_go|done|]. iApply (tk_chain with "Hs"); [done|]. intros. by eapply look_move_next_leaf. }
    budget.
  - iApply (tk_pay 1); [budget|karr|]. iSplit; [by iApply tk_any_; apply any_get_size|].
    iApply (wp_get_size_o with "Hs"). iIntros "Hs". destruct (_ <=? _); [|iApply tk_ret_].
    iApply (tk_tail _ 0); [intros ?; any_go| |].
    2: { iApply (tk_tail (8 * L (osize o)) 0); [intros ?; any_go|done|]. iApply (tk_chain with "Hs"); [done|]. intros. by eapply look_move_next_leaf_count. }
    budget.
  - destruct (_ <? _); [|iApply tk_ret_].
    iApply (tk_tail _ 0); [intros ?; any_go| |].
    2: { iApply (tk_tail (8 * L (osize o)) 0); [intros ?; any_go|done|]. iApply (tk_chain with "Hs"); [done|]. intros. by eapply look_move_prev_leaf. }
    budget.
Qed.
Lemma gets_ret σ τ ρ s v : abs σ τ ρ → arg_value σ s = Some v → ∃ vs, gets ρ s = mret vs.
Proof. intros Ha Hv. destruct (gets_any (C:=C) _ _ _ _ _ Ha Hv) as (vs & Hg & _). by exists vs. Qed.
(** the argument of a call is at hand *)
Ltac arg_ Hv := match goal with Ha : abs ?σ ?τ ?ρ |- _ =>
  let vs := fresh "vs" in let Hg := fresh "Hg" in destruct (gets_ret σ τ ρ _ _ Ha Hv) as [vs Hg]; rewrite ?Hg ?ret_bind end.
Lemma effort_insert σ ρ x w p s w' v :
  at_it σ w x p → arg_value σ s = Some v → R σ ρ ⊢ tk (150 * L (length (contents σ x))) (exec_call (InsertOne x w s w') ρ).
Proof.
  intros Hw Hv. start_at Hw o a l it. sizes. arg_ Hv. iApply (tk_tail _ 0); [intros ?; any_go| |by iApply (tk_emplace_single with "Hs")]. budget.
Qed.
Lemma effort_push σ ρ x s v c :
  live σ x → arg_value σ s = Some v → c = PushBack x s ∨ c = PushFront x s →
  R σ ρ ⊢ tk (150 * L (length (contents σ x))) (exec_call c ρ).
Proof.
  intros Hx Hv [->| ->]; start_live Hx o a l; sizes; arg_ Hv; unfold push_back, push_front.
  all: (iApply (tk_tail _ 0); [intros ?; any_go|rewrite Nat.add_0_r; done|]).
  - iApply (tk_pay (8 * L (osize o))); [budget|karr|]. iSplit; [by iApply (tk_find_end with "Hs")|].
    iApply (wp_find_end with "Hs"). iIntros (it _) "Hs".
    iApply (tk_tail _ 0); [intros ?; any_go| |by iApply (tk_emplace_single with "Hs")]. budget.
  - iApply (tk_pay (8 * L (osize o))); [budget|karr|]. iSplit; [by iApply (tk_find_first with "Hs")|].
    iApply (wp_find_first with "Hs"). iIntros (it _) "Hs".
    iApply (tk_tail _ 0); [intros ?; any_go| |by iApply (tk_emplace_single with "Hs")]. budget.
Qed.
Lemma effort_erase σ ρ x w p w' :
  at_it σ w x p → p < length (contents σ x) → R σ ρ ⊢ tk (150 * L (length (contents σ x))) (exec_call (Erase x w w') ρ).
Proof.
  intros Hw Hp'. start_at Hw o a l it. rewrite Hc in Hp'. sizes. unfold erase_.
  iApply (tk_tail _ 0); [intros ?; any_go| |iApply (tk_erase_single with "Hs"); [done|by rewrite Hp|done]]. budget.
Qed.
Lemma effort_pop σ ρ x c :
  contents σ x ≠ [] → c = PopBack x ∨ c = PopFront x → R σ ρ ⊢ tk (150 * L (length (contents σ x))) (exec_call c ρ).
Proof.
  intros Hne Hcc. assert (live σ x) as Hx by by apply nonempty_live. 
  destruct Hcc as [->| ->]; start_live Hx o a l; rewrite Hc in Hne; apply nonempty_osize in Hne; sizes; unfold pop_back, pop_front.
  all: (iApply (tk_tail _ 0); [intros ?; any_go|rewrite Nat.add_0_r; done|]).
  - iApply (tk_pay (8 * L (osize o))); [budget|karr|]. iSplit; [by iApply (tk_find_last with "Hs")|].
    iApply (wp_find_last with "Hs"); [done|]. iIntros (it [Hok Hp]) "Hs".
    iApply (tk_tail _ 0); [intros ?; any_go| |iApply (tk_erase_single with "Hs"); [done|rewrite Hp; lia|done]]. budget.
  - iApply (tk_pay (8 * L (osize o))); [budget|karr|]. iSplit; [by iApply (tk_find_first with "Hs")|].
    iApply (wp_find_first with "Hs"). iIntros (it [Hok Hp]) "Hs".
    iApply (tk_tail _ 0); [intros ?; any_go| |iApply (tk_erase_single with "Hs"); [done|rewrite Hp; lia|done]]. budget.
Qed.
Ltac start2 Hne Ha Ht Hl Ht0 Hl0 :=
  iEval (rewrite (rep_take2 _ _ _ _ _ _ _ _ _ _ Hne Ht Hl Ht0 Hl0)) in "Hr"; iDestruct "Hr" as "(Hs & Hs2 & Hr)".
Lemma effort_splice_one σ ρ x w y w1 p q :
  at_it σ w x p → at_it σ w1 y q → q < length (contents σ y) → x ≠ y → fits C (length (contents σ x) + 1) →
  R σ ρ ⊢ tk (150 * L (length (contents σ x) + length (contents σ y))) (exec_call (SpliceOne x w y w1) ρ).
Proof.
  intros Hw Hw1 Hq Hne Hfit. iIntros "HR". iDestruct "HR" as (τ Ha) "Hr". open_at Ha Hw o a l it. open_at Ha Hw1 o2 b l2 it2.
  cbn [exec_call]. tvars. start2 Hne Ha Ht Hl Ht0 Hl0. rewrite Hc0 in Hq. rewrite /fits Hc in Hfit. sizes.
  change (length (oelems o2)) with (osize o2) in Hq. change (length (oelems o)) with (osize o) in Hfit.
  pose proof (L_mono (osize o) (osize o + osize o2) ltac:(lia)). pose proof (L_mono (osize o2) (osize o + osize o2) ltac:(lia)).
  destruct (lookup_lt_is_Some_2 (oelems o2) q Hq) as [v Hv].
  iApply (tk_tail _ 0); [intros ?; any_go|rewrite Nat.add_0_r; done|]. unfold splice_one, insert_, erase_.
  iApply (tk_pay (64 * L (osize o))); [lia|karr|]. iSplit; [by iApply (tk_emplace_single with "Hs")|].
  iApply (wp_emplace_single _ _ l o it _ v (seqp a a l o ∗ seqp b b l2 o2)%I (seqp b b l2 o2) with "[Hs Hs2]");
    [|done|done|iFrame|].
  { apply src_spec_frame. apply (src_ref b b l2 o2 it2); [done|by rewrite Hp0]. }
  iSplit; [|iSplit; by iIntros]. iIntros (o' it' _) "Hs Hs2".
  iApply (tk_tail _ 0); [intros ?; any_go| |iApply (tk_erase_single with "Hs2"); [done|by rewrite Hp0|done]]. lia.
Qed.

Lemma effort_log σ ρ c n :
  pre C σ c → log_size σ c = Some n → R σ ρ ⊢ tk (150 * L n) (exec_call c ρ).
Proof.
  intros Hp Hn. destruct c; simpl in Hn; try done; cbn [pre] in Hp; try injection Hn as <-.
  - by apply effort_At.
  - apply effort_find; [|done]. by eapply lt_live.
  - apply effort_find; [|done]. by apply nonempty_live.
  - apply effort_find; [|done]. by apply nonempty_live.
  - by apply effort_find.
  - by apply effort_find.
  - apply effort_find; [|done]. by apply nonempty_live.
  - by apply effort_nth.
  - destruct Hp as (x & p & Hw & _). rewrite /at_it in Hw. rewrite Hw in Hn. injection Hn as <-. by eapply effort_step.
  - destruct Hp as (x & p & Hw & _). rewrite /at_it in Hw. rewrite Hw in Hn. injection Hn as <-. by eapply effort_step.
  - destruct Hp as (x & p & Hw & _). rewrite /at_it in Hw. rewrite Hw in Hn. injection Hn as <-. by eapply effort_step.
  - destruct Hp as (x & p & Hw & _). rewrite /at_it in Hw. rewrite Hw in Hn. injection Hn as <-. by eapply effort_step.
  - destruct Hp as (x & p & Hw & _). rewrite /at_it in Hw. rewrite Hw in Hn. injection Hn as <-. by eapply effort_step.
  - destruct Hp as (x & p & Hw & _). rewrite /at_it in Hw. rewrite Hw in Hn. injection Hn as <-. by eapply effort_step.
  - destruct Hp as (x & p & Hw). rewrite /at_it in Hw. rewrite Hw in Hn. injection Hn as <-. by eapply effort_segment.
  - destruct Hp as (p & Hw). by eapply effort_segment.
  - destruct Hp as (x & p & Hw). rewrite /at_it in Hw. rewrite Hw in Hn. injection Hn as <-. by eapply effort_segment.
  - destruct Hp as (p & Hw & [v Hv] & _). by eapply effort_insert.
  - destruct Hp as (p & Hw & Hlt). by eapply effort_erase.
  - destruct Hp as (Hx & [v Hv] & _). eapply effort_push; [done..|by left].
  - destruct Hp as (Hx & [v Hv] & _). eapply effort_push; [done..|by right].
  - apply effort_pop; [done|by left].
  - apply effort_pop; [done|by right].
  - destruct Hp as (p & q & Hw & Hw1 & Hq & Hne & Hfit). by eapply effort_splice_one.
Qed.

(** ** Per element *)
Lemma ins_cost mv b src o p n N : osize o ≤ N → inp_cost (C:=C) (ins_J b b mv src o p n) (8 * L (C:=C) N).
Proof.
  intros HN r k. iIntros "[%H HX]". destruct H as (f & l & -> & Hf & _). iDestruct "HX" as (o' [Hsh _]) "Hs".
  assert (osize o' ≤ N) as HN' by by rewrite (oshape_osize _ _ Hsh). pose proof (L_mono _ _ HN').
  rewrite /input_next. iApply (tk_tail _ 0); [intros ?; any_go| |iApply (tk_move_next with "Hs"); by eapply it_ok_shape]. lia.
Qed.
Lemma cost_frame J B (F : hprop T) : inp_cost (C:=C) J B → inp_cost (λ r k, J r k ∗ F)%I B.
Proof. intros H r k. iIntros "[HJ _]". by iApply H. Qed.
Lemma list_cost xs B : inp_cost (C:=C) (inl_J xs) B.
Proof.
  intros r k. iIntros "%H". destruct H as [-> _]. iApply tk_any_. eapply any_mono; [|apply Nat.le_0_l].
  apply any_list_next.
Qed.
Lemma getr_tk σ τ ρ r xs x N :
  abs σ τ ρ → rng_values σ r = Some xs → rng_outside σ r x → rng_source σ r ≤ N →
  ∃ inp I J X, getr ρ r = mret inp ∧ inp_spec xs I J X (rng_late r) ∧ inp_cost (C:=C) J (8 * L (C:=C) N) ∧
    (∀ r k, I r k ⊢ ⌜length xs - k < input_fuel r⌝) ∧ (rep (C:=C) ρ (delete x τ) ⊢ I inp 0).
Proof.
  intros Ha Hv Hout HN. destruct r as [ys|mv w1 w2].
  - injection Hv as ->. exists (IList xs).
    exists (λ r k, inl_I xs r k ∗ rep ρ (delete x τ))%I, (λ r k, inl_J xs r k ∗ rep ρ (delete x τ))%I, (λ k, emp ∗ rep ρ (delete x τ))%I.
    split; [done|]. split; [apply inp_spec_frame, inp_list|]. split_and!.
    + apply cost_frame, list_cost.
    + iIntros (r k) "[H _]". by iApply inl_fuel.
    + iIntros "$". iPureIntro. split; [done|lia].
  - simpl in Hv, HN. destruct (iters σ !! w1) as [[y p]|] eqn:H1; [|done]. destruct (iters σ !! w2) as [[y' q]|] eqn:H2; [|done].
    simpl in Hv, HN. destruct ((y =? y') && (p <=? q))%nat eqn:Hb; [|done]. injection Hv as <-.
    apply andb_prop in Hb as [<-%Nat.eqb_eq Hpq%Nat.leb_le].
    assert (x ≠ y) as Hxy. { intros ->. by apply (Hout p). }
    destruct (abs_at _ _ _ _ _ _ Ha H1) as (o & a & l & it & Ht & Hl & Hcx & Hal & Hit & Hok & Hp & _).
    destruct (abs_at _ _ _ _ _ _ Ha H2) as (o2 & a2 & l2 & it2 & Ht2 & Hl2 & _ & _ & Hit2 & Hok2 & Hp2 & _).
    rewrite Ht in Ht2. rewrite Hl in Hl2. injection Ht2 as -> ->. injection Hl2 as ->.
    set (xs := sub p q (contents σ y)).
    pose proof (it_ok_le _ _ Hok2) as Hle. rewrite Hp2 in Hle.
    assert (length xs = q - p) as Hlen.
    { rewrite /xs /sub Hcx take_length drop_length. unfold osize in Hle. lia. }
    set (F := rep ρ (delete y (delete x τ))).
    exists (ISeq mv it it2), (λ r k, ins_I a2 a2 mv l2 o2 p (q - p) r k ∗ F)%I,
      (λ r k, ins_J a2 a2 mv l2 o2 p (q - p) r k ∗ F)%I, (λ k, ins_X a2 a2 mv l2 o2 p k ∗ F)%I.
    assert (delete x τ !! y = Some (o2, a2)) as Hty by by rewrite lookup_delete_ne.
    split_and!.
    + by rewrite /getr (geti_ok _ _ _ Hit) (geti_ok _ _ _ Hit2).
    + apply inp_spec_frame. apply inp_seq; [|lia]. by rewrite /xs /sub Hcx.
    + apply cost_frame, ins_cost. by rewrite ?/size_of Hcx in HN.
    + iIntros (r k) "[H _]". by iApply ins_fuel.
    + rewrite (rep_take _ _ _ _ _ _ Hty Hl). iIntros "[Hs $]". iSplitR.
      * iPureIntro. exists it, it2. split_and!; try done; lia.
      * by iApply ins_X_intro.
Qed.
Lemma sweep_L n N : n ≤ N → sweep (C:=C) n ≤ 16 * (n + 1) * L (C:=C) N.
Proof.
  intros Hn. rewrite /sweep /K. pose proof (un_L 0) as H0. pose proof (L_mono 0 N ltac:(lia)) as H1. rewrite /L /un /lg /= in H0, H1.
  rewrite /L /un /lg. pose proof base_3 as Hb. pose proof segment_max_pos as Hs. nia.
Qed.
Lemma tk_dtor a l o : may_purge o → seqp (C:=C) a a l o ⊢ tk (sweep (C:=C) (osize o)) (dtor l).
Proof.
  iIntros (Hm) "Hs". rewrite /dtor. iApply (tk_tail _ 0); [|rewrite Nat.add_0_r; done|by iApply (tk_purge with "Hs")].
  intros _ st. simpl. lia.
Qed.
Lemma tk_clear a l o : may_purge o → seqp (C:=C) a a l o ⊢ tk (sweep (C:=C) (osize o) + 3) (clear l).
Proof.
  iIntros (Hm) "Hs". rewrite /clear. iApply (tk_tail _ 3); [|done|by iApply (tk_purge with "Hs")].
  intros _. eapply any_mono; [eapply any_bind; [apply any_set|intros _]; eapply any_bind; [apply any_set_height|intros _; apply any_set_size]|lia].
Qed.
Lemma tk_ctor_with a (body : loc → M T unit) j n (F : hprop T) :
  (∀ l, eff karr (body l)) →
  (∀ l, seqp (C:=C) a a l None ∗ F ⊢ tk j (body l)) →
  (∀ l, seqp (C:=C) a a l None ∗ F ⊢ wp (body l) (λ _, True) (λ e, ∃ o', ⟦may_purge o' ∧ osize o' ≤ n⟧ ∗ seqp a a l o' ∗ True)) →
  F ⊢ tk (j + sweep (C:=C) n) (ctor_with a body).
Proof.
  intros Heff H1 H2. iIntros "HF". rewrite /ctor_with. iApply (tk_step 0 (j + sweep n)); [done|apply a_ctor_alloc|].
  iSplit; [iApply tk_any_; apply any_place|]. iApply wp_ctor_alloc. iIntros (l) "Hs". iApply tk_try.
  { apply eff_bind; [apply _|apply Heff|karr]. }
  iCombine "Hs HF" as "H". iSplit.
  { iApply (tk_tail _ 0); [intros ?; any_go|rewrite Nat.add_0_r; done|]. by iApply H1. }
  wp_bind. iDestruct (H2 with "H") as "H". iApply (wp_wand with "H"). iSplit.
  - iIntros (?) "H". by wp_ret.
  - iIntros (e) "H". iDestruct "H" as (o' [Hm Hn]) "[Hs _]".
    iApply (tk_tail _ 0); [intros ? st; simpl; lia| |by iApply (tk_dtor with "Hs")].
    rewrite /sweep. nia.
Qed.
Lemma tk_ctor_count n vs x F a :
  throw_null (C:=C) → src_spec vs x F F → n < c_W C → F ⊢ tk (n * (88 * L (C:=C) n) + 32 * L (C:=C) n) (ctor_count n vs a).
Proof.
  intros Hth Hsrc Hn. rewrite /ctor_count.
  iIntros "HF". iApply (tk_mono ((n * (72 * L (C:=C) n) + 16 * L (C:=C) n) + sweep (C:=C) n)).
  { pose proof (sweep_L n n ltac:(done)). nia. }
  iApply (tk_ctor_with a _ (n * (72 * L (C:=C) n) + 16 * L (C:=C) n) n with "HF").
  { intros l. karr. }
  { intros l. iIntros "[Hs HF]". iApply (tk_pay (8 * L (C:=C) n)); [lia|karr|]. pose proof (L_mono (C:=C) (osize (T:=T) None) n ltac:(apply Nat.le_0_l)).
    iSplit; [iDestruct (tk_find_end with "Hs") as "H"; iApply (tk_mono with "H"); lia|].
    iApply (wp_find_end with "Hs"). iIntros (it [Hit Hp]) "Hs".
    iApply (tk_tail (n * (72 * L (C:=C) n) + 8 * L (C:=C) n) 0); [intros ?; any_go|lia|].
    iCombine "Hs HF" as "H". by iApply (tk_emplace_count with "H"). }
  { intros l. iIntros "[Hs HF]". wp_bind. iApply (wp_find_end with "Hs"). iIntros (it [Hit Hp]) "Hs".
    wp_bind. iApply (wp_emplace_count with "Hs HF"); [done|done|done|]. iSplit.
    - iIntros (o' it' _) "Hs HR". by wp_ret.
    - iIntros (e o' k (Hr & Hk & He)) "Hs HR". iExists o'. iFrame "Hs". iSplit; [|done]. iPureIntro. split; [by eapply throw_null_purge|].
      rewrite /osize He ins_at_length replicate_length. simpl. lia. }
Qed.
(** filling a new container from a range *)
Lemma tk_fill xs I J X late a l it r N :
  inp_spec xs I J X late → inp_cost (C:=C) J (8 * L (C:=C) N) → length xs < c_W C → length xs ≤ N → length xs < input_fuel r → it_ok (T:=T) None it →
  seqp (C:=C) a a l None ∗ I r 0 ⊢ tk (length xs * (80 * L (C:=C) N) + 8 * L (C:=C) N) (emplace_range l it r;; mret ()).
Proof.
  intros. iIntros "H". iApply (tk_tail _ 0); [intros ?; any_go|rewrite Nat.add_0_r; done|].
  replace (length xs) with (length xs - 0) by lia.
  iApply (tk_emplace_range with "H"); [done|done|done|simpl; lia|lia|simpl; lia].
Qed.
Lemma wp_fill xs I J X late a l it r :
  throw_null (C:=C) → inp_spec xs I J X late → length xs < c_W C → length xs < input_fuel r → it_ok (T:=T) None it →
  seqp (C:=C) a a l None ∗ I r 0 ⊢ wp (emplace_range l it r;; mret ()) (λ _, True)
    (λ e, ∃ o', ⟦may_purge o' ∧ osize o' ≤ length xs⟧ ∗ seqp a a l o' ∗ True).
Proof.
  intros Hth Hin Hn Hfu Hit. iIntros "[Hs HI]".
  wp_bind. iApply (wp_emplace_range with "Hs HI"); [done|done|simpl; lia|lia|]. iSplit.
  - iIntros (o' it' _) "Hs HX". by wp_ret.
  - iIntros (e o' j j' (Hr & _ & Hj & Hj' & _ & _ & He)) "Hs HX". iExists o'. iFrame "Hs". iSplit; [|done].
    iPureIntro. split; [by eapply throw_null_purge|]. rewrite /osize He ins_at_length take_length drop_length. simpl. lia.
Qed.
Lemma tk_ctor_range xs I J X late a r N :
  throw_null (C:=C) → inp_spec xs I J X late → inp_cost (C:=C) J (8 * L (C:=C) N) → length xs < c_W C → length xs ≤ N →
  length xs < input_fuel r → I r 0 ⊢ tk (length xs * (96 * L (C:=C) N) + 32 * L (C:=C) N) (ctor_range r a).
Proof.
  intros Hth Hin Hco HW HN Hf. rewrite /ctor_range. iIntros "HI".
  iApply (tk_mono ((length xs * (80 * L (C:=C) N) + 16 * L (C:=C) N) + sweep (C:=C) (length xs))).
  { pose proof (sweep_L (length xs) N HN). nia. }
  iApply (tk_ctor_with a _ (length xs * (80 * L (C:=C) N) + 16 * L (C:=C) N) (length xs) with "HI").
  { intros l. karr. }
  { intros l. iIntros "[Hs HF]". iApply (tk_pay (8 * L (C:=C) N)); [lia|karr|]. pose proof (L_mono (C:=C) (osize (T:=T) None) N ltac:(apply Nat.le_0_l)).
    iSplit; [iDestruct (tk_find_end with "Hs") as "H"; iApply (tk_mono with "H"); lia|].
    iApply (wp_find_end with "Hs"). iIntros (it [Hit Hp]) "Hs". iCombine "Hs HF" as "H".
    iDestruct (tk_fill with "H") as "H"; [done..|]. iApply (tk_mono with "H"). lia. }
  { intros l. iIntros "[Hs HF]". wp_bind. iApply (wp_find_end with "Hs"). iIntros (it [Hit Hp]) "Hs".
    iApply wp_fill; [done..|]. iFrame. }
Qed.
Lemma tk_whole mv b l o : seqp (C:=C) b b l o ⊢ tk (16 * L (C:=C) (osize o)) (whole_range mv l).
Proof.
  iIntros "Hs". rewrite /whole_range. iApply (tk_pay (8 * L (osize o))); [lia|karr|].
  iSplit; [by iApply (tk_find_first with "Hs")|]. iApply (wp_find_first with "Hs"). iIntros (f _) "Hs".
  iApply (tk_tail _ 0); [intros ?; any_go| |by iApply (tk_find_end with "Hs")]. lia.
Qed.
Lemma tk_fill_whole mv l a b other o2 :
  seqp (C:=C) a a l None ∗ seqp (C:=C) b b other o2 ⊢
  tk (osize o2 * (80 * L (C:=C) (osize o2)) + 32 * L (C:=C) (osize o2)) (it ← find_end l; r ← whole_range mv other; emplace_range l it r;; mret ()).
Proof.
  iIntros "[H1 H2]". iDestruct (seqp_lt with "H2") as %Hlt. set (N := osize o2).
  iApply (tk_pay (8 * L (C:=C) N)); [lia|karr|]. pose proof (L_mono (C:=C) (osize (T:=T) None) N ltac:(apply Nat.le_0_l)).
  iSplit; [iDestruct (tk_find_end with "H1") as "H"; iApply (tk_mono with "H"); lia|].
  iApply (wp_find_end with "H1"). iIntros (it [Hit Hp]) "H1".
  iApply (tk_pay (16 * L (C:=C) N)); [lia|karr|]. iSplit; [by iApply (tk_whole with "H2")|].
  iApply (wp_whole_range mv with "H2"). iIntros (r Hr) "H2". iCombine "H1 H2" as "H".
  iDestruct (tk_fill (oelems o2) (ins_I b b mv other o2 0 (osize o2)) (ins_J b b mv other o2 0 (osize o2)) (ins_X b b mv other o2 0) False a l it r N with "[H]") as "H".
  - apply inp_seq; [by rewrite slice_whole|done].
  - by apply ins_cost.
  - done.
  - done.
  - destruct Hr as (f & e & -> & ? & ? & ? & _). simpl. unfold osize in *. lia.
  - done.
  - iDestruct "H" as "[$ H]". iSplitR; [done|]. by iApply ins_X_intro.
  - change (length (oelems o2)) with N. iApply (tk_mono with "H"). lia.
Qed.
Lemma wp_fill_whole_any mv l a b other o2 :
  throw_null (C:=C) →
  seqp (C:=C) a a l None ∗ seqp (C:=C) b b other o2 ⊢ wp (it ← find_end l; r ← whole_range mv other; emplace_range l it r;; mret ()) (λ _, True)
    (λ e, ∃ o', ⟦may_purge o' ∧ osize o' ≤ osize o2⟧ ∗ seqp a a l o' ∗ True).
Proof.
  iIntros (Hth) "[H1 H2]". iDestruct (seqp_lt with "H2") as %Hlt.
  wp_bind. iApply (wp_find_end with "H1"). iIntros (it [Hit Hp]) "H1".
  wp_bind. iApply (wp_whole_range mv with "H2"). iIntros (r Hr) "H2".
  iApply (wp_fill (oelems o2) (ins_I b b mv other o2 0 (osize o2)) (ins_J b b mv other o2 0 (osize o2)) (ins_X b b mv other o2 0) False).
  - done.
  - apply inp_seq; [by rewrite slice_whole|done].
  - done.
  - destruct Hr as (f & e & -> & ? & ? & ? & _). simpl. unfold osize in *. lia.
  - done.
  - iFrame "H1". iSplitR; [done|]. by iApply ins_X_intro.
Qed.
Lemma tk_ctor_copy_alloc b other o2 a :
  throw_null (C:=C) →
  seqp (C:=C) b b other o2 ⊢ tk (osize o2 * (96 * L (C:=C) (osize o2)) + 48 * L (C:=C) (osize o2)) (ctor_copy_alloc other a).
Proof.
  intros Hth. rewrite /ctor_copy_alloc. iIntros "HI".
  iApply (tk_mono ((osize o2 * (80 * L (C:=C) (osize o2)) + 32 * L (C:=C) (osize o2)) + sweep (C:=C) (osize o2))).
  { pose proof (sweep_L (osize o2) (osize o2) ltac:(done)). nia. }
  iApply (tk_ctor_with a _ (osize o2 * (80 * L (C:=C) (osize o2)) + 32 * L (C:=C) (osize o2)) (osize o2) with "HI").
  { intros l. karr. }
  { intros l. iIntros "H". by iApply tk_fill_whole. }
  { intros l. iIntros "H". by iApply wp_fill_whole_any. }
Qed.
Lemma any_steal l k : any (T:=T) 9 (steal l k).
Proof. unfold steal. eapply any_mono; [any_go|lia]. Qed.
Lemma tk_ctor_move_alloc b other o2 a :
  throw_null (C:=C) →
  seqp (C:=C) b b other o2 ⊢ tk (osize o2 * (96 * L (C:=C) (osize o2)) + 60 * L (C:=C) (osize o2)) (ctor_move_alloc other a).
Proof.
  intros Hth. rewrite /ctor_move_alloc. iIntros "HI".
  iApply (tk_mono ((2 + (9 + (osize o2 * (80 * L (C:=C) (osize o2)) + 32 * L (C:=C) (osize o2)))) + sweep (C:=C) (osize o2))).
  { pose proof (sweep_L (osize o2) (osize o2) ltac:(done)). pose proof (un_L (C:=C) (osize o2)). nia. }
  iApply (tk_ctor_with a _ (2 + (9 + (osize o2 * (80 * L (C:=C) (osize o2)) + 32 * L (C:=C) (osize o2)))) (osize o2) with "HI").
  { intros l. karr. }
  { intros l. iIntros "[H1 H2]". iApply (tk_pay 1); [lia|karr|]. iSplit; [iApply tk_any_; apply any_get|].
    iApply (wp_get_ealloc_o with "H1"). iIntros "H1". iApply (tk_pay 1); [lia|karr|]. iSplit; [iApply tk_any_; apply any_get|].
    iApply (wp_get_ealloc_o with "H2"). iIntros "H2". destruct (_ =? _).
    - iApply tk_any_. eapply any_mono; [apply any_steal|lia].
    - iCombine "H1 H2" as "H". iDestruct (tk_fill_whole with "H") as "H". iApply (tk_mono with "H"). lia. }
  { intros l. iIntros "[H1 H2]". wp_bind. iApply (wp_get_ealloc_o with "H1"). iIntros "H1".
    wp_bind. iApply (wp_get_ealloc_o with "H2"). iIntros "H2". destruct (a =? b) eqn:Heq.
    - apply Nat.eqb_eq in Heq as ->. cbn [seqp]. iApply (wp_steal with "H1 H2"). by iIntros.
    - iCombine "H1 H2" as "H". by iApply (wp_fill_whole_any with "H"). }
Qed.
Lemma tk_ctor_move_same b other o2 :
  seqp (C:=C) b b other o2 ⊢ tk 11 (ctor_move_alloc other b).
Proof.
  rewrite /ctor_move_alloc. iIntros "H2". rewrite /ctor_with. iApply (tk_step 0 11); [done|apply a_ctor_alloc|].
  iSplit; [iApply tk_any_; apply any_place|]. iApply wp_ctor_alloc. iIntros (l) "H1". iApply (tk_mono (11 + 0)); [done|]. iApply tk_try.
  { karr. }
  iSplit.
  - iApply (tk_tail _ 0); [intros ?; any_go|rewrite Nat.add_0_r; done|].
    iApply (tk_pay 1); [lia|karr|]. iSplit; [iApply tk_any_; apply any_get|].
    iApply (wp_get_ealloc_o with "H1"). iIntros "H1". iApply (tk_pay 1); [lia|karr|]. iSplit; [iApply tk_any_; apply any_get|].
    iApply (wp_get_ealloc_o with "H2"). iIntros "H2". rewrite Nat.eqb_refl.
    iApply tk_any_. eapply any_mono; [apply any_steal|lia].
  - wp_bind. wp_bind. iApply (wp_get_ealloc_o with "H1"). iIntros "H1".
    wp_bind. iApply (wp_get_ealloc_o with "H2"). iIntros "H2". rewrite Nat.eqb_refl.
    cbn [seqp]. iApply (wp_steal with "H1 H2"). iIntros. by wp_ret.
Qed.
End effort.
