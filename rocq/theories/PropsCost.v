(** * C44: few allocations; C46: queries are read-only *)
From Verif Require Export PropsCtor Quiet.
From stdpp Require Import options.
Set Default Proof Using "Type*".

Section props.
Context {T : Type} {C : cfg T} {OK : cfg_ok C}.
Implicit Types σ : sst T.
Implicit Types ρ : env.
Implicit Types st : state T.
Implicit Types c : cmd T.
Implicit Types h : heap T.
Notation reached := (reached C).
Notation iterator_at := (iterator_at C).
Notation exec := (exec (C:=C)).
Notation allocs st := (n_allocs (st_cnt st)).

#[local] Hint Extern 0 (eff quiet _) => first
  [ apply (q_deallocate_segment (C:=C) quiet)
  | apply (q_free_chain (C:=C) quiet)
  | apply (q_set_parent_pointer (C:=C) quiet)
  | apply (q_move_segment (C:=C) quiet)
  | apply (q_assign_forward_segment (C:=C) quiet)
  | apply (q_assign_segment (C:=C) quiet)
  | apply (q_increment_sizes (C:=C) quiet)
  | apply (q_set_root (C:=C) quiet)
  | apply (q_set_size (C:=C) quiet)
  | apply (q_set_height (C:=C) quiet)
  | apply (q_construct_segment (C:=C) quiet)
  | apply (q_construct_range_segment (C:=C) quiet)
  | apply (q_insert_single_leaf (C:=C) quiet) ] : eff.

Ltac eff_go ::=
  repeat first
    [ progress intros
    | solve [auto with eff typeclass_instances]
    | apply eff_bind; [apply _| |]
    | match goal with
      | |- eff _ (match ?x with _ => _ end) => destruct x
      | |- eff _ (let _ := _ in _) => cbv zeta
      end ].

(** ** Chains of parents *)
Inductive chain h : ptr → nat → Prop :=
  | chain_nil : chain h None 0
  | chain_cons l al nd p d :
      h !! l = Some (ONode al nd) → n_parent nd = Some p → chain h p d → chain h (Some l) (S d).
Definition nodes_kept h h' : Prop := ∀ l al nd, h !! l = Some (ONode al nd) → h' !! l = Some (ONode al nd).
Definition kept st st' : Prop := allocs st' = allocs st ∧ nodes_kept (st_heap st) (st_heap st').
Global Instance kept_preorder : PreOrder kept.
Proof.
  split; [intros ?; split; [done|by intros ????]|]. intros x y z (?&H1) (?&H2). split; [congruence|]. intros l al nd Hl. by apply H2, H1.
Qed.
Lemma kept_coarser : coarser kept.
Proof. apply coarser_same. intros st st' (Hh & _ & ? & _). split; [done|]. rewrite Hh. by intros ????. Qed.
Lemma k_tick ok e : eff kept (tick ok e). Proof. intros st. rewrite /tick. destruct (ok _); (split; [done|by intros ????]). Qed.
Lemma k_move_tick : eff kept move_tick.
Proof. unfold move_tick. destruct (c_triv_copy C); [apply eff_ret; apply _|apply k_tick]. Qed.
Lemma k_set_slot p i q : eff kept (set_slot p i q).
Proof.
  intros st. rewrite /set_slot /load_seg /load /mbind /M_bind. destruct p as [l|]; [|done].
  destruct (st_heap st !! l) as [[| |]|] eqn:E; try done. rewrite /= /put. destruct (_ <? _); [|done]. simpl.
  split; [done|]. intros l' al' nd' Hl. simpl. destruct (decide (l' = l)) as [->|]; [congruence|]. by rewrite lookup_insert_ne.
Qed.
Lemma k_make_value s : eff kept (make_value s).
Proof.
  pose proof k_move_tick. pose proof k_set_slot. pose proof (k_tick (c_user_ok C) EUser).
  assert (∀ p i, eff kept (read_slot p i)) by (intros; apply eff_read_slot; [apply _|apply kept_coarser]).
  unfold make_value, user_tick. destruct s; repeat (apply eff_bind; [apply _|auto|intros]); auto; apply eff_ret; apply _.
Qed.
Lemma chain_kept h h' p d : chain h p d → nodes_kept h h' → chain h' p d.
Proof. induction 1 as [|l al nd p d Hl Hp Hc IH]; intros Hk; econstructor; [by apply Hk|done|by apply IH]. Qed.

Definition within (k : nat) {A} (m : M T A) st : Prop :=
  match m st with Ok _ st' | Throw _ st' => allocs st' ≤ allocs st + k | Fault _ => True end.
Lemma within_quiet {A} (m : M T A) st k : eff quiet m → within k m st.
Proof. intros H. rewrite /within. specialize (H st). rewrite /quiet in H. destruct (m st); [lia|lia|done]. Qed.
Lemma within_bind {A B} (m : M T A) (f : A → M T B) st k :
  (match m st with
   | Ok a st' => ∃ j, allocs st' ≤ allocs st + j ∧ ∃ i, j + i ≤ k ∧ within i (f a) st'
   | Throw _ st' => allocs st' ≤ allocs st + k
   | Fault _ => True end) → within k (m ≫= f) st.
Proof.
  rewrite /within /mbind /M_bind. destruct (m st) as [a st1|e st1|]; [|done..].
  intros (j & Hj & i & Hi & H). destruct (f a st1); [lia|lia|done].
Qed.
Lemma within_bind_quiet {A B} (m : M T A) (f : A → M T B) st k :
  eff quiet m → (∀ a st', within k (f a) st') → within k (m ≫= f) st.
Proof.
  intros Hm Hf. apply within_bind. specialize (Hm st). rewrite /quiet in Hm. destruct (m st); [|lia|done].
  exists 0. split; [lia|]. exists k. split; [lia|done].
Qed.
Lemma within_bind_l {A B} (m : M T A) (f : A → M T B) st k :
  within k m st → (∀ a, eff quiet (f a)) → within k (m ≫= f) st.
Proof.
  intros Hm Hf. apply within_bind. rewrite /within in Hm. destruct (m st) as [a st1|e st1|]; [|done..].
  exists k. split; [done|]. exists 0. split; [lia|]. by apply within_quiet.
Qed.
Lemma within_mono {A} (m : M T A) st k k' : within k m st → k ≤ k' → within k' m st.
Proof. rewrite /within. intros. destruct (m st); [lia|lia|done]. Qed.

(** one allocation *)
Lemma allocate_cases o st :
  match allocate (C:=C) o st with
  | Ok p st' => allocs st' = allocs st + 1 ∧ ∃ l, p = Some l ∧ st_heap st !! l = None ∧ st_heap st' = <[l := o]> (st_heap st)
  | Throw _ st' => allocs st' = allocs st + 1 ∧ st_heap st' = st_heap st
  | Fault _ => True end.
Proof.
  rewrite /allocate. destruct (c_pick C _ _) as [l|] eqn:E; simpl.
  - split; [lia|]. exists l. split_and!; [done|by eapply ok_pick|done].
  - split; [lia|done].
Qed.
Lemma alloc_cases (l : loc) (m : M T ptr) (f : loc → M T nat) (o : nat → obj T) st :
  eff same (f l) → m = (al ← f l; allocate (C:=C) (o al)) →
  match m st with
  | Ok p st' => allocs st' = allocs st + 1 ∧ ∃ l, p = Some l ∧ st_heap st !! l = None ∧
                nodes_kept (st_heap st) (st_heap st') ∧ ∀ l', l' ≠ l → st_heap st' !! l' = st_heap st !! l'
  | Throw _ st' => allocs st' ≤ allocs st + 1
  | Fault _ => True end.
Proof.
  intros Hf ->. rewrite /mbind /M_bind. specialize (Hf st). rewrite /same in Hf.
  destruct (f l st) as [al st1|e st1|]; [|destruct Hf as (_ & _ & ? & _); lia|done]. destruct Hf as (Hh & _ & Hc & _).
  pose proof (allocate_cases (o al) st1) as H. rewrite Hh Hc in H.
  destruct (allocate (o al) st1) as [p st2|e st2|]; [|lia|done].
  destruct H as (Ha & k & -> & Hk & Hh2). split; [done|]. exists k. split_and!; [done|done| |].
  - intros l' al' nd' Hl. rewrite Hh2. rewrite lookup_insert_ne; [done|congruence].
  - intros l' Hl. rewrite Hh2 lookup_insert_ne //.
Qed.
Lemma node_cases this a s st :
  match alloc_node_or_cleanup (C:=C) this a s st with
  | Ok p st' => allocs st' = allocs st + 1 ∧ ∃ l, p = Some l ∧ st_heap st !! l = None ∧
                nodes_kept (st_heap st) (st_heap st') ∧ ∀ l', l' ≠ l → st_heap st' !! l' = st_heap st !! l'
  | Throw _ st' => allocs st' ≤ allocs st + 1
  | Fault _ => True end.
Proof.
  rewrite /alloc_node_or_cleanup /try_catch.
  pose proof (alloc_cases this (allocate_node this) get_node_allocator _ st
    (eff_get_node_allocator same same_coarser this) eq_refl) as H.
  destruct (allocate_node this st) as [p st1|e st1|]; [done| |done].
  assert (eff quiet (deallocate_segment (C:=C) this s;; fuel ← height_fuel this; free_chain fuel this a;; throw (A:=ptr) e)) as Hq.
  { eff_go. }
  specialize (Hq st1). rewrite /quiet in Hq. revert Hq. rewrite /mbind /M_bind.
  destruct (deallocate_segment this s st1) as [? st2|? st2|]; [|lia|done].
  destruct (height_fuel this st2) as [n st3|? st3|] eqn:Ef; [|by rewrite /height_fuel in Ef; destruct (st_heap st2 !! this) as [[]|]|done].
  match goal with |- context [free_chain ?n this a ?st2] => destruct (free_chain n this a st2) as [? st4|? st4|]; simpl; [lia|lia|done] end.
Qed.
Lemma set_parent_kept h0 l q st :
  nodes_kept h0 (st_heap st) → h0 !! l = None →
  match set_parent_pointer (T:=T) (Some l) q st with
  | Ok _ st' => allocs st' = allocs st ∧ nodes_kept h0 (st_heap st')
  | Throw _ st' => allocs st' = allocs st
  | Fault _ => True end.
Proof.
  intros Hk Hl. rewrite /set_parent_pointer /set_node /load_node /load /mbind /M_bind.
  destruct (st_heap st !! l) as [[| |]|] eqn:E; try done. simpl. split; [done|]. intros l' al' nd' Hl'. simpl.
  rewrite lookup_insert_ne; [by apply Hk|congruence].
Qed.
Lemma loop_within h0 this fuel p a s d st :
  chain h0 p d → nodes_kept h0 (st_heap st) → (∀ l, st_heap st !! l = None → h0 !! l = None) →
  within (d + 1) (alloc_nodes_single_loop (C:=C) fuel this p a s) st.
Proof.
  intros Hc. revert a fuel st. induction Hc as [|l al nd p d Hl Hp Hc IH]; intros a fuel st Hk Hn;
    (destruct fuel as [|fuel]; [done|]); cbn [alloc_nodes_single_loop].
  - apply within_bind. pose proof (node_cases this a s st) as H. destruct (alloc_node_or_cleanup this a s st); [|lia|done].
    exists 1. split; [lia|]. exists 0. split; [lia|]. apply within_quiet. eff_go.
  - pose proof (Hk _ _ _ Hl) as Hl'.
    assert (∀ st, st_heap st !! l = Some (ONode al nd) → ∃ st', load_node (Some l) st = Ok (l, al, nd) st' ∧ same st st') as Hload.
    { intros st1 H1. rewrite /load_node /load /mbind /M_bind H1. simpl. eexists. split; [done|].
      split_and!; [done..|by eapply reads_only_one]. }
    apply within_bind. rewrite /length_of {1}/mbind /M_bind.
    destruct (Hload st Hl') as (st1 & -> & Hh1 & _ & Ha1). simpl.
    destruct (n_len nd) as [n|]; [|done]. simpl. exists 0. split; [lia|]. exists (S (d + 1)). split; [lia|].
    destruct (negb _). { rewrite /within /=. lia. }
    apply within_bind. pose proof (node_cases this a s st1) as H.
    destruct (alloc_node_or_cleanup this a s st1) as [tp st2|? st2|]; [|lia|done].
    destruct H as (Ha2 & k & -> & Hk1 & Hk2 & Hk3). exists 1. split; [lia|]. exists (d + 1). split; [lia|].
    apply within_bind. rewrite Hh1 in Hk1 Hk2 Hk3. pose proof (set_parent_kept h0 k a st2) as Hs.
    assert (nodes_kept h0 (st_heap st2)) as Hk4 by (intros ????; by apply Hk2, Hk).
    specialize (Hs Hk4 (Hn _ Hk1)).
    assert (∀ l', match set_parent_pointer (T:=T) (Some k) a st2 with Ok _ st' => st_heap st' !! l' = None → st_heap st2 !! l' = None | _ => True end) as Hs'.
    { intros l'. rewrite /set_parent_pointer /set_node /load_node /load /mbind /M_bind.
      destruct (st_heap st2 !! k) as [[| |]|] eqn:E; try done. simpl. by intros [? _]%lookup_insert_None. }
    destruct (set_parent_pointer (Some k) a st2) as [[] st3|? st3|]; [|lia|done].
    destruct Hs as (Ha3 & Hk5). exists 0. split; [lia|]. exists (d + 1). split; [lia|].
    apply within_bind. rewrite /parent_pointer {1}/mbind /M_bind.
    destruct (Hload st3) as (st4 & -> & Hh4 & _ & Ha4). { by apply Hk5. }
    simpl. rewrite Hp. simpl. exists 0. split; [lia|]. exists (d + 1). split; [lia|]. apply IH.
    + by rewrite Hh4.
    + intros l'. rewrite Hh4. intros Hl3%Hs'. apply Hn. destruct (decide (l' = k)) as [->|]; [done|].
      by rewrite -Hk3.
Qed.

(** the segment level: one segment and at most one node more than the chain *)
Definition need e d st k : Prop :=
  chain (st_heap st) (lf_ptr (e_leaf e)) d ∧ k = d + 2 ∨ e = empty_entry ∧ k = 1.
Lemma segment_within this e v d k st :
  need e d st k →
  within k (insert_single_segment (C:=C) this e v) st.
Proof.
  intros Hc. assert (1 ≤ k) by (destruct Hc as [[_ ->]|[_ ->]]; lia). unfold insert_single_segment.
  destruct (_ && _). { apply within_quiet. eff_go. }
  pose proof (alloc_cases this (allocate_segment this) get_element_allocator _ st
    (eff_get_element_allocator same same_coarser this) eq_refl) as Ha.
  destruct (sg_ptr (e_seg e)) as [l|] eqn:Hsp.
  2:{ apply within_bind. destruct (allocate_segment this st) as [p st1|? st1|]; [|lia|done].
      exists 1. split; [lia|]. exists 0. split; [lia|]. apply within_quiet. eff_go. }
  destruct (negb _). { apply within_quiet. eff_go. }
  destruct Hc as [[Hc ->]|[-> _]]; [|done].
  apply within_bind. destruct (allocate_segment this st) as [p st1|? st1|]; [|lia|done].
  destruct Ha as (Ha & k & -> & Hk & Hkept & _). exists 1. split; [lia|]. exists (d + 1). split; [lia|].
  apply within_bind_l; [|intros; eff_go].
  unfold alloc_nodes_single. apply within_bind. rewrite {1}/height_fuel.
  destruct (st_heap st1 !! this) as [[| |]|]; try done. exists 0. split; [lia|]. exists (d + 1). split; [lia|].
  apply (loop_within (st_heap st1)); [by eapply chain_kept|by intros ????|done].
Qed.
Lemma emplace_within this it s d k st :
  need (i_entry it) d st k →
  within k (emplace_single (C:=C) this it s) st.
Proof.
  intros Hc. unfold emplace_single, insert_single_iterator.
  apply within_bind. pose proof (k_make_value s st) as Hk. destruct (make_value s st) as [v st1|e st1|]; [|destruct Hk; lia|done].
  destruct Hk as [Ha1 Hk1]. exists 0. split; [lia|]. exists k. split; [lia|].
  apply within_bind. pose proof (k_move_tick st1) as Hk. destruct (move_tick st1) as [v' st2|e st2|]; [|destruct Hk; lia|done].
  destruct Hk as [Ha2 Hk2]. exists 0. split; [lia|]. exists k. split; [lia|].
  apply within_bind_l; [|intros; eff_go]. apply (segment_within _ _ _ d).
  destruct Hc as [[Hc ->]|Hc]; [left|by right]. split; [|done]. eapply chain_kept; [done|]. intros ????. by apply Hk2, Hk1.
Qed.

(** the chain of an iterator's leaf is one shorter than the tree is high *)
Lemma stored_chain a (h : nat) (m : heap T) (p : ptr) i (c : ctx T) l xs d :
  stored (C:=C) a a m h (Some p) i (plug c (Seg l xs)) → chain m p d →
  chain m (match c with [] => p | _ => cparent c end) (length c + d) ∧ h = S (length c).
Proof.
  revert h p i d. induction c as [|[[k L] R] c IH] using rev_ind; intros h p i d Hs Hc.
  - destruct h as [|h]; [done|]. cbn [plug stored] in Hs. simpl. split; [done|]. f_equal. by destruct Hs.
  - rewrite plug_app in Hs. cbn [plug] in Hs. destruct h as [|h]; [done|]. cbn [stored] in Hs.
    destruct Hs as (_ & (junk & _ & Hk) & Hkids).
    destruct (IH h (Some k) (Some (length L)) (S d)) as [H1 H2].
    { apply Hkids. apply list_lookup_middle. done. }
    { by econstructor. }
    rewrite app_length /=. replace (length c + 1 + d) with (length c + S d) by lia. split; [|lia].
    destruct c as [|[[k' L'] R'] c]; done.
Qed.
Lemma insertion_within ρ st x it s l (o : option (tree T)) a q :
  e_cont ρ !! x = Some l → lives (C:=C) (st_heap st) a l o → it_ok o it → seq_at st ρ x = Some q →
  within (s_ht q + 1) (emplace_single (C:=C) l it s) st.
Proof.
  intros Hl Ho Hit Hq. rewrite /seq_at Hl /= in Hq. destruct o as [t|]; cbn [lives it_ok] in *.
  - destruct Ho as (h & Hw & _ & Hm & Hst). rewrite Hm in Hq. injection Hq as <-. cbn [s_ht].
    destruct Hit as [(c & l0 & xs & -> & Hseg) _].
    destruct (stored_chain _ _ _ _ _ _ _ _ 0 Hst ltac:(constructor)) as [Hc Hh].
    eapply within_mono; [eapply (emplace_within _ _ _ (length c + 0))|]; [left; split; [|done]|lia].
    destruct Hseg as (_ & He & _). destruct c as [|[[k L] R] c]; simpl in *; rewrite He; done.
  - subst. rewrite Ho in Hq. injection Hq as <-. cbn [s_ht]. apply (emplace_within _ _ _ 0). by right.
Qed.

(** ** C44: allocations per call.  [n_allocs] counts the calls of allocate(),
    including those that fail. *)
(** the calls that insert one element into [x] *)
Definition inserts_one st ρ x c : Prop :=
  (∃ w p s w', c = InsertOne x w s w' ∧ iterator_at st ρ w x p) ∨ (∃ s, c = PushBack x s) ∨ (∃ s, c = PushFront x s).
Lemma within_gets {A} ρ s (f : vsrc → M T A) st k :
  (∀ v, within k (f v) st) → within k (gets ρ s ≫= f) st.
Proof.
  intros Hf. apply within_bind. destruct s as [v|w|w]; rewrite /gets /geti /lookup_var /=; try destruct (e_iter ρ !! w); simpl; try done.
  all: exists 0; split; [lia|]; exists k; split; [lia|done].
Qed.
Lemma exec_within c ρ st k o ρ' st' :
  within k (exec_call (C:=C) c ρ) st → exec c ρ st = Ok (o, ρ') st' → allocs st' ≤ allocs st + k.
Proof.
  rewrite /within /exec /Exec.exec /try_catch. destruct (exec_call c ρ st); simpl; [|intros ? [= <- <- <-]; done|done].
  by intros ? [= -> ->].
Qed.
Lemma found ρ st x l (m : loc → M T iterator_data) c w :
  reached ρ st → e_cont ρ !! x = Some l → container_at st ρ x ≠ None →
  is_const c = true →
  exec_call (C:=C) c ρ = (l ← getc ρ x; it ← m l; done_ (bindi w it ρ)) →
  (∀ σ, live σ x → pre C σ c) → (∀ σ o σ', step C σ c o σ' → o = OUnit ∧ ∃ p, at_it σ' w x p) →
  ∃ it st1 a o, m l st = Ok it st1 ∧ same st st1 ∧ lives (C:=C) (st_heap st) a l o ∧ it_ok o it.
Proof.
  intros [σ Hr] Hl Hc Hcst Heq Hpre Hstep. destruct (container_at st ρ x) as [[xs a]|] eqn:Hcx; [|done].
  pose proof (see _ _ _ _ _ _ Hr Hcx) as Hcs. visible Hcs.
  destruct (call_ok σ ρ st c Hr) as (u & ρ' & st' & σ' & He & Hs & Hr'). { apply Hpre. done. }
  destruct (Hstep _ _ _ Hs) as (-> & p & Hat). pose proof (exec_same c _ _ _ _ _ Hcst He) as Hsame.
  destruct (R_iter _ _ _ _ _ _ (reachable_R _ _ _ Hr') Hat) as (o & a' & l' & it & Hl' & Ho & Hit & Hok & _).
  revert He. rewrite /exec /Exec.exec Heq /getc /lookup_var Hl /try_catch /mbind /M_bind /=.
  destruct (m l st) as [it1 st1|e st1|f] eqn:Hm; simpl; [|done|done].
  intros [= <- <-]. rewrite /= lookup_insert in Hit. injection Hit as ->. simpl in Hl'. rewrite Hl in Hl'. injection Hl' as <-.
  exists it, st1, a', o. split_and!; [done|done| |done]. destruct Hsame as (Hh & _). by rewrite -Hh.
Qed.
Theorem C44_insert ρ st x q c o ρ' st' :
  reached ρ st → container_at st ρ x ≠ None → seq_at st ρ x = Some q → inserts_one st ρ x c →
  exec c ρ st = Ok (o, ρ') st' → allocs st' ≤ allocs st + (s_ht q + 1).
Proof.
  intros Hr Hcx Hq Hi He. eapply exec_within; [|exact He]. clear He.
  assert (∃ l, e_cont ρ !! x = Some l) as [l Hl].
  { rewrite /seq_at in Hq. destruct (e_cont ρ !! x) as [l|]; [by exists l|done]. }
  destruct Hi as [(w & p & s & w' & -> & Hw)|[[s ->]|[s ->]]]; cbn [exec_call].
  - destruct (iterator_elim _ _ _ _ _ Hr Hw) as (t & a & l' & it & Hl' & Ho & Hit & Hok & _).
    rewrite Hl in Hl'. injection Hl' as <-. rewrite /getc /geti /lookup_var Hl Hit.
    apply within_bind. simpl. exists 0. split; [lia|]. exists (s_ht q + 1). split; [lia|].
    apply within_bind. simpl. exists 0. split; [lia|]. exists (s_ht q + 1). split; [lia|].
    apply within_gets. intros v. apply within_bind_l; [|intros; unfold done_; eff_go]. by eapply insertion_within.
  - destruct (found ρ st x l find_end (End x 0) 0) as (it & st1 & a & t & Hf & (Hh & _ & Ha) & Ho & Hok); try done.
    { intros σ u σ' [Hu ->]. split; [done|]. eexists. by rewrite /at_it /= lookup_insert. }
    rewrite /getc /lookup_var Hl. apply within_bind. simpl. exists 0. split; [lia|]. exists (s_ht q + 1). split; [lia|].
    apply within_gets. intros v. apply within_bind_l; [|intros; unfold done_; eff_go]. unfold push_back. apply within_bind.
    rewrite Hf. exists 0. split; [lia|]. exists (s_ht q + 1). split; [lia|]. apply within_bind_l; [|intros; eff_go].
    eapply insertion_within; [done| |done|]; [by rewrite Hh|]. by rewrite /seq_at Hh.
  - destruct (found ρ st x l find_first (Begin x 0) 0) as (it & st1 & a & t & Hf & (Hh & _ & Ha) & Ho & Hok); try done.
    { intros σ u σ' [Hu ->]. split; [done|]. eexists. by rewrite /at_it /= lookup_insert. }
    rewrite /getc /lookup_var Hl. apply within_bind. simpl. exists 0. split; [lia|]. exists (s_ht q + 1). split; [lia|].
    apply within_gets. intros v. apply within_bind_l; [|intros; unfold done_; eff_go]. unfold push_front. apply within_bind.
    rewrite Hf. exists 0. split; [lia|]. exists (s_ht q + 1). split; [lia|]. apply within_bind_l; [|intros; eff_go].
    eapply insertion_within; [done| |done|]; [by rewrite Hh|]. by rewrite /seq_at Hh.
Qed.
(** erasing, clearing, destroying, moving, swapping, reordering and all queries:
    no allocation at all, in any state *)
Theorem C44_erase ρ st c o ρ' st' :
  no_alloc c = true → exec c ρ st = Ok (o, ρ') st' → allocs st' = allocs st.
Proof. intros Hc He. pose proof (q_exec c ρ Hc st) as H. rewrite /quiet in H. by rewrite He in H. Qed.

(** ** C46: queries are read-only: no block of memory is changed, and no
    construction, copy, move, destruction, allocation or deallocation happens
    ([st_clk] counts all of these that can throw; the others change memory) *)
Theorem C46_read_only ρ st c o ρ' st' :
  is_const c = true → exec c ρ st = Ok (o, ρ') st' →
  st_heap st' = st_heap st ∧ st_clk st' = st_clk st ∧ allocs st' = allocs st ∧ e_cont ρ' = e_cont ρ.
Proof.
  intros Hc He. destruct (exec_same c _ _ _ _ _ Hc He) as (? & ? & ? & _). split_and!; [done..|].
  assert (∀ y, keepsc y ρ (exec_call (C:=C) c ρ)) as Hk.
  { intros y. destruct c; try done; cbn [exec_call]; rewrite /done_;
    repeat first
      [ match goal with |- keepsc _ _ (if ?b then _ else _) => destruct b end
      | apply keepsc_ret; reflexivity
      | apply keepsc_bind; intros ]. }
  apply map_eq. intros y. specialize (Hk y st). revert He. rewrite /exec /Exec.exec /try_catch.
  destruct (exec_call c ρ st) as [[u ρ1] st1|e st1|f]; [|by intros [= <- <- <-]|done]. by intros [= -> -> ->].
Qed.
End props.
