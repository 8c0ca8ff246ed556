(** * Cost: how many memory accesses the functions that modify one container make.

    [n_reads] counts every access of the program to a block of memory (a write
    accesses the block first; std::memcpy/memmove counts as one access per block).
    Proof infrastructure. *)
From Verif Require Export PropsCost Arrays.
From stdpp Require Import options.
Set Default Proof Using "Type*".

Section cost.
Context {T : Type} {C : cfg T} {OK : cfg_ok C}.
Implicit Types st : state T.
Notation reads st := (n_reads (st_cnt st)).

Section this.
Context (this : loc) (D X : nat).
(** the container [this] is at most [D] high *)
Definition inv st : Prop := arrays (st_heap st) ∧ ∃ s, st_heap st !! this = Some (OSeq s) ∧ s_ht s ≤ D.

(** at most [k] accesses; an exception may add [X] once *)
Definition cost (k : nat) {A} (m : M T A) : Prop := ∀ st, inv st →
  match m st with
  | Ok _ st' => inv st' ∧ reads st' ≤ reads st + k
  | Throw _ st' => reads st' ≤ reads st + k + X
  | Fault _ => True
  end.
(** the same, when nothing follows *)
Definition ends (k : nat) {A} (m : M T A) : Prop := ∀ st, inv st →
  match m st with
  | Ok _ st' => reads st' ≤ reads st + k
  | Throw _ st' => reads st' ≤ reads st + k + X
  | Fault _ => True
  end.
(** always out of bounds *)
Definition dead {A} (m : M T A) : Prop := ∀ st, inv st → ∃ f, m st = Fault f.

Lemma cost_ends k {A} (m : M T A) : cost k m → ends k m.
Proof. intros H st Hi. specialize (H st Hi). destruct (m st); [by destruct H|done..]. Qed.
Lemma cost_mono k k' {A} (m : M T A) : cost k m → k ≤ k' → cost k' m.
Proof. intros H Hk st Hi. specialize (H st Hi). destruct (m st); [destruct H; split; [done|lia]|lia|done]. Qed.
Lemma ends_mono k k' {A} (m : M T A) : ends k m → k ≤ k' → ends k' m.
Proof. intros H Hk st Hi. specialize (H st Hi). destruct (m st); [lia|lia|done]. Qed.
Lemma cost_bind j k {A B} (m : M T A) (f : A → M T B) : cost j m → (∀ a, cost k (f a)) → cost (j + k) (m ≫= f).
Proof.
  intros Hm Hf st Hi. rewrite /mbind /M_bind. specialize (Hm st Hi). destruct (m st) as [a st1|e st1|]; [|lia|done].
  destruct Hm as [Hi1 Hr1]. specialize (Hf a st1 Hi1). destruct (f a st1) as [b st2|e st2|]; [|lia|done].
  destruct Hf. split; [done|lia].
Qed.
Lemma ends_bind j k {A B} (m : M T A) (f : A → M T B) : cost j m → (∀ a, ends k (f a)) → ends (j + k) (m ≫= f).
Proof.
  intros Hm Hf st Hi. rewrite /mbind /M_bind. specialize (Hm st Hi). destruct (m st) as [a st1|e st1|]; [|lia|done].
  destruct Hm as [Hi1 Hr1]. specialize (Hf a st1 Hi1). destruct (f a st1) as [b st2|e st2|]; [lia|lia|done].
Qed.
Lemma ends_ret j {A B} (m : M T A) (f : A → B) : ends j m → ends j (a ← m; mret (f a)).
Proof. intros Hm st Hi. rewrite /mbind /M_bind. specialize (Hm st Hi). by destruct (m st). Qed.
Lemma dead_bind {A B} (m : M T A) (f : A → M T B) k : dead m → cost k (m ≫= f).
Proof. intros H st Hi. rewrite /mbind /M_bind. by destruct (H st Hi) as [? ->]. Qed.
Lemma dead_bind_dead {A B} (m : M T A) (f : A → M T B) : dead m → dead (m ≫= f).
Proof. intros H st Hi. rewrite /mbind /M_bind. destruct (H st Hi) as [? ->]. by eexists. Qed.
Lemma cost_ret {A} (a : A) : cost 0 (mret a). Proof. intros st Hi. simpl. split; [done|lia]. Qed.
Lemma cost_fail {A} f : cost 0 (fail (A:=A) f). Proof. by intros st Hi. Qed.
Lemma cost_throw {A} e : cost 0 (throw (A:=A) e). Proof. intros st Hi. simpl. lia. Qed.
Lemma cost_if j k {A} (b : bool) (m1 m2 : M T A) : cost j m1 → cost k m2 → cost (j `max` k) (if b then m1 else m2).
Proof. intros H1 H2. destruct b; (eapply cost_mono; [done|lia]). Qed.
Lemma ends_if j k {A} (b : bool) (m1 m2 : M T A) : ends j m1 → ends k m2 → ends (j `max` k) (if b then m1 else m2).
Proof. intros H1 H2. destruct b; (eapply ends_mono; [done|lia]). Qed.
Lemma cost_init {A} (x : option A) : cost 0 (init x).
Proof. destruct x; [apply cost_ret|apply cost_fail]. Qed.
Lemma cost_elem {A} (l : list A) i : cost 0 (elem l i).
Proof. rewrite /elem. destruct (l !! i); [apply cost_ret|apply cost_fail]. Qed.
Lemma cost_height_fuel k {A} (f : nat → M T A) : (∀ n, n ≤ D + 2 → cost k (f n)) → cost k (height_fuel this ≫= f).
Proof.
  intros Hf st Hi. rewrite /mbind /M_bind {1}/height_fuel. pose proof Hi as [_ (s & Hs & Hd)]. rewrite Hs.
  apply Hf; [lia|done].
Qed.
Lemma ends_height_fuel k {A} (f : nat → M T A) : (∀ n, n ≤ D + 2 → ends k (f n)) → ends k (height_fuel this ≫= f).
Proof.
  intros Hf st Hi. rewrite /mbind /M_bind {1}/height_fuel. pose proof Hi as [_ (s & Hs & Hd)]. rewrite Hs.
  apply Hf; [lia|done].
Qed.

(** ** Primitives *)
Lemma inv_count st c : inv st → inv (State (st_heap st) (st_clk st) c). Proof. done. Qed.
Lemma cost_load p : cost 1 (load p).
Proof.
  intros st Hi. rewrite /load. destruct p as [l|]; [|done]. destruct (st_heap st !! l); [|done]. simpl. split; [done|lia].
Qed.
Lemma cost_load_node p : cost 1 (load_node p).
Proof.
  eapply cost_mono; [apply cost_bind; [apply cost_load|]|]; [|done].
  intros [l [| |]]; simpl; [apply cost_ret || apply cost_fail..].
Qed.
Lemma cost_load_seg p : cost 1 (load_seg p).
Proof.
  eapply cost_mono; [apply cost_bind; [apply cost_load|]|]; [|done].
  intros [l [| |]]; simpl; [apply cost_ret || apply cost_fail..].
Qed.
Lemma cost_load_seq p : cost 1 (load_seq p).
Proof.
  eapply cost_mono; [apply cost_bind; [apply cost_load|]|]; [|done].
  intros [l [| |]]; simpl; [apply cost_ret || apply cost_fail..].
Qed.
(** a changed node *)
Lemma cost_set_node p f :
  (∀ nd st, match f nd st with
    | Ok nd' st' => st' = st ∧ length (n_sizes nd') = length (n_sizes nd) ∧ length (n_ptrs nd') = length (n_ptrs nd)
    | Throw _ _ => False | Fault _ => True end) →
  cost 1 (set_node p f).
Proof.
  intros Hf st [Ha (s & Hs & Hd)]. rewrite /set_node /load_node /load /mbind /M_bind.
  destruct p as [l|]; [|done]. destruct (st_heap st !! l) as [[| al nd|]|] eqn:E; try done. simpl.
  match goal with |- context [f nd ?st1] => specialize (Hf nd st1); destruct (f nd st1) as [nd' st2|? st2|] end; [|done|done].
  destruct Hf as (-> & H1 & H2). simpl. split; [|lia]. split; simpl.
  - apply arrays_insert; [done|]. pose proof (Ha l _ E) as [??]. split; congruence.
  - exists s. split; [|done]. rewrite lookup_insert_ne //. intros ->. congruence.
Qed.
Ltac node_ := apply cost_set_node; intros nd st; simpl; try done.
Lemma cost_set_parent_pointer p q : cost 1 (set_parent_pointer p q). Proof. node_. Qed.
Lemma cost_set_parent_index p q : cost 1 (set_parent_index p q). Proof. node_. Qed.
Lemma cost_set_length p q : cost 1 (set_length p q). Proof. node_. Qed.
Lemma cost_set_sizes p i q : cost 1 (set_sizes p i q).
Proof. node_. rewrite /mbind /M_bind /put. destruct (_ <? _); [|done]. simpl. by rewrite insert_length. Qed.
Lemma cost_set_pointers p i q : cost 1 (set_pointers p i q).
Proof. node_. rewrite /mbind /M_bind /put. destruct (_ <? _); [|done]. simpl. by rewrite insert_length. Qed.
Lemma cost_set_slot p i q : cost 1 (set_slot p i q).
Proof.
  intros st [Ha (s & Hs & Hd)]. rewrite /set_slot /load_seg /load /mbind /M_bind.
  destruct p as [l|]; [|done]. destruct (st_heap st !! l) as [[al sl| |]|] eqn:E; try done. simpl. rewrite /put.
  destruct (_ <? _); [|done]. simpl. split; [|lia]. split; simpl.
  - apply arrays_insert; [done|]. rewrite insert_length. apply (Ha l _ E).
  - exists s. split; [|done]. rewrite lookup_insert_ne //. intros ->. congruence.
Qed.
Lemma cost_tick ok e : cost 0 (tick ok e).
Proof. intros st Hi. rewrite /tick. destruct (ok _); simpl; [split; [done|lia]|lia]. Qed.
Lemma cost_user_tick : cost 0 user_tick. Proof. apply cost_tick. Qed.
Lemma cost_move_tick : cost 0 move_tick.
Proof. rewrite /move_tick. destruct (c_triv_copy C); [apply cost_ret|apply cost_tick]. Qed.
Lemma cost_free_node p (f : loc → nat → node → bool) :
  cost 1 (x ← load_node p; if f x.1.1 x.1.2 x.2 then free x.1.1 else fail FBadFree).
Proof.
  intros st [Ha (s & Hs & Hd)]. rewrite /load_node /load /mbind /M_bind.
  destruct p as [l|]; [|done]. destruct (st_heap st !! l) as [[| al nd|]|] eqn:E; try done. simpl.
  destruct (f l al nd); [|done]. simpl. split; [|lia]. split; simpl; [by apply arrays_delete|].
  exists s. split; [|done]. rewrite lookup_delete_ne //. intros ->. congruence.
Qed.
Lemma cost_free_seg p (f : loc → nat → list (option T) → bool) :
  cost 1 (x ← load_seg p; if f x.1.1 x.1.2 x.2 then free x.1.1 else fail FBadFree).
Proof.
  intros st [Ha (s & Hs & Hd)]. rewrite /load_seg /load /mbind /M_bind.
  destruct p as [l|]; [|done]. destruct (st_heap st !! l) as [[al nd| |]|] eqn:E; try done. simpl.
  destruct (f l al nd); [|done]. simpl. split; [|lia]. split; simpl; [by apply arrays_delete|].
  exists s. split; [|done]. rewrite lookup_delete_ne //. intros ->. congruence.
Qed.
Lemma cost_allocate o :
  match o with
  | ONode _ nd => length (n_sizes nd) = base_max ∧ length (n_ptrs nd) = base_max
  | OSeg _ sl => length sl = segment_max
  | OSeq _ => True
  end → cost 0 (allocate o).
Proof.
  intros Ho st [Ha (s & Hs & Hd)]. rewrite /allocate. destruct (c_pick C _ _) as [l|] eqn:E; simpl; [|lia].
  split; [|lia]. split; simpl; [by apply arrays_insert|]. exists s. split; [|done].
  rewrite lookup_insert_ne //. intros ->. rewrite (ok_pick _ OK _ _ _ E) in Hs. done.
Qed.
(** fields of the seq object *)
Lemma cost_set_seq l (f : seqobj → seqobj) : (∀ s, s_ht (f s) = s_ht s) → cost 1 (s ← load_seq l; store l (OSeq (f s))).
Proof.
  intros Hf st [Ha (s & Hs & Hd)]. rewrite /load_seq /load /mbind /M_bind.
  destruct (st_heap st !! l) as [[| |s']|] eqn:E; try done. simpl. split; [|lia]. split; simpl; [by apply arrays_insert|].
  destruct (decide (l = this)) as [->|].
  - exists (f s'). rewrite lookup_insert. split; [done|]. rewrite Hf. congruence.
  - exists s. by rewrite lookup_insert_ne.
Qed.
Lemma cost_set_root l r : cost 1 (set_root l r). Proof. by apply (cost_set_seq l (λ s, SeqObj r (s_size s) (s_ht s) (s_ealloc s) (s_nalloc s))). Qed.
Lemma cost_set_size l n : cost 1 (ModelSeq.set_size l n). Proof. by apply (cost_set_seq l (λ s, SeqObj (s_root s) n (s_ht s) (s_ealloc s) (s_nalloc s))). Qed.
(** ** After the height has changed *)
(** at most [k] accesses in any state *)
Definition any (k : nat) {A} (m : M T A) : Prop := ∀ st,
  match m st with Ok _ st' | Throw _ st' => reads st' ≤ reads st + k | Fault _ => True end.
Lemma any_bind j k {A B} (m : M T A) (f : A → M T B) : any j m → (∀ a, any k (f a)) → any (j + k) (m ≫= f).
Proof.
  intros Hm Hf st. rewrite /mbind /M_bind. specialize (Hm st). destruct (m st) as [a st1|e st1|]; [|lia|done].
  specialize (Hf a st1). destruct (f a st1) as [b st2|e st2|]; [lia|lia|done].
Qed.
Lemma ends_any j k {A B} (m : M T A) (f : A → M T B) : ends j m → (∀ a, any k (f a)) → ends (j + k) (m ≫= f).
Proof.
  intros Hm Hf st Hi. rewrite /mbind /M_bind. specialize (Hm st Hi). destruct (m st) as [a st1|e st1|]; [|lia|done].
  specialize (Hf a st1). destruct (f a st1) as [b st2|e st2|]; [lia|lia|done].
Qed.
Lemma any_ends k {A} (m : M T A) : any k m → ends k m.
Proof. intros H st _. specialize (H st). destruct (m st); [done|lia|done]. Qed.
Lemma any_ret {A} (a : A) : any 0 (mret a). Proof. intros st. simpl. lia. Qed.
Lemma any_load p : any 1 (load p).
Proof. intros st. rewrite /load. destruct p as [l|]; [|done]. destruct (st_heap st !! l); [|done]. simpl. lia. Qed.
Lemma any_bind_pure k {A B} (m : M T A) (f : A → M T B) : any k m → (∀ a, any 0 (f a)) → any k (m ≫= f).
Proof. intros. replace k with (k + 0) by lia. by apply any_bind. Qed.
Lemma any_fail {A} f : any 0 (fail (A:=A) f). Proof. done. Qed.
Lemma any_load_seq p : any 1 (load_seq p).
Proof. apply any_bind_pure; [apply any_load|]. intros [l [| |]]; [apply any_ret || apply any_fail..]. Qed.
Lemma any_load_seg p : any 1 (load_seg p).
Proof. apply any_bind_pure; [apply any_load|]. intros [l [| |]]; [apply any_ret || apply any_fail..]. Qed.
Lemma any_store l o : any 0 (store l o). Proof. intros st. rewrite /store. simpl. lia. Qed.
Lemma any_get_size l : any 1 (get_size l). Proof. apply any_bind_pure; [apply any_load_seq|]. intros s. apply any_ret. Qed.
Lemma any_set_size l n : any 1 (ModelSeq.set_size l n). Proof. apply any_bind_pure; [apply any_load_seq|]. intros s. apply any_store. Qed.
Lemma any_set_height l n : any 1 (set_height l n). Proof. apply any_bind_pure; [apply any_load_seq|]. intros s. apply any_store. Qed.
Lemma any_slot p i : any 1 (slot p i).
Proof. apply any_bind_pure; [apply any_load_seg|]. intros s. rewrite /elem. destruct (_ !! _); [apply any_ret|apply any_fail]. Qed.
Lemma any_set_slot p i v : any 1 (set_slot p i v).
Proof.
  apply any_bind_pure; [apply any_load_seg|]. intros s. apply any_bind_pure; [|intros ?; apply any_store].
  rewrite /put. destruct (_ <? _); [apply any_ret|apply any_fail].
Qed.
Lemma any_move_tick : any 0 move_tick.
Proof. rewrite /move_tick. destruct (c_triv_copy C); [apply any_ret|]. intros st. rewrite /tick. destruct (c_move_ok C _); simpl; lia. Qed.
Lemma any_pred_done b : any 0 (pred_done b). Proof. intros st. rewrite /pred_done. destruct b; simpl; lia. Qed.
Lemma any_pred_clock : any 0 pred_clock. Proof. intros st. simpl. lia. Qed.
Lemma any_pred_tick : any 0 (pred_tick (C:=C)).
Proof. rewrite /pred_tick. apply any_bind_pure; [apply any_pred_clock|]. intros n. apply any_pred_done. Qed.
Lemma any_construct_segment p i v : any 2 (construct_segment p i v).
Proof.
  apply (any_bind 1 1); [apply any_slot|]. intros c. apply (any_bind 0 1); [apply any_move_tick|]. intros _.
  destruct c; [destruct (c_triv_destroy C); [|intros ?; done]|]; apply any_set_slot.
Qed.

(** ** Getters *)
Lemma cost_get_root l : cost 1 (get_root l). Proof. apply (cost_bind 1 0); [apply cost_load_seq|]. intros ?. apply cost_ret. Qed.
Lemma cost_get_size l : cost 1 (get_size l). Proof. apply (cost_bind 1 0); [apply cost_load_seq|]. intros ?. apply cost_ret. Qed.
Lemma cost_get_height l : cost 1 (get_height l). Proof. apply (cost_bind 1 0); [apply cost_load_seq|]. intros ?. apply cost_ret. Qed.
Lemma cost_get_element_allocator l : cost 1 (get_element_allocator l). Proof. apply (cost_bind 1 0); [apply cost_load_seq|]. intros ?. apply cost_ret. Qed.
Lemma cost_get_node_allocator l : cost 1 (get_node_allocator l). Proof. apply (cost_bind 1 0); [apply cost_load_seq|]. intros ?. apply cost_ret. Qed.
Lemma cost_parent_pointer p : cost 1 (parent_pointer p). Proof. apply (cost_bind 1 0); [apply cost_load_node|]. intros ?. apply cost_init. Qed.
Lemma cost_parent_index p : cost 1 (parent_index p). Proof. apply (cost_bind 1 0); [apply cost_load_node|]. intros ?. apply cost_init. Qed.
Lemma cost_length_of p : cost 1 (length_of p). Proof. apply (cost_bind 1 0); [apply cost_load_node|]. intros ?. apply cost_init. Qed.
Lemma cost_sizes p i : cost 1 (sizes p i).
Proof. apply (cost_bind 1 0); [apply cost_load_node|]. intros ?. apply (cost_bind 0 0); [apply cost_elem|]. intros ?. apply cost_init. Qed.
Lemma cost_pointers p i : cost 1 (pointers p i).
Proof.
  apply (cost_bind 1 0); [apply cost_load_node|]. intros ?. apply (cost_bind 0 0); [apply cost_elem|]. intros ?.
  apply (cost_bind 0 0); [apply cost_init|]. intros ?. apply cost_ret.
Qed.
Lemma cost_slot p i : cost 1 (slot p i).
Proof. apply (cost_bind 1 0); [apply cost_load_seg|]. intros ?. apply cost_elem. Qed.
Lemma cost_read_slot p i : cost 1 (read_slot p i).
Proof. apply (cost_bind 1 0); [apply cost_slot|]. intros [?|]; [apply cost_ret|apply cost_fail]. Qed.
Lemma cost_destroy_node p i : cost 1 (destroy_node p i). Proof. apply cost_set_pointers. Qed.
Lemma cost_opt j k {A B} (o : option B) (m1 : M T A) (m2 : B → M T A) :
  cost j m1 → (∀ x, cost k (m2 x)) → cost (j `max` k) (match o with None => m1 | Some x => m2 x end).
Proof. intros H1 H2. destruct o; (eapply cost_mono; [done|lia]). Qed.
Lemma ends_opt j k {A B} (o : option B) (m1 : M T A) (m2 : B → M T A) :
  ends j m1 → (∀ x, ends k (m2 x)) → ends (j `max` k) (match o with None => m1 | Some x => m2 x end).
Proof. intros H1 H2. destruct o; (eapply ends_mono; [done|lia]). Qed.

(** ** Out of bounds *)
Lemma dead_node_at {A B} p i (g : node → list A) (f : node → A → M T B) :
  (∀ h l al nd, arrays h → h !! l = Some (ONode al nd) → length (g nd) = base_max) → base_max ≤ i →
  dead (x ← load_node p; c ← elem (g x.2) i; f x.2 c).
Proof.
  intros Hg Hb st [Ha _]. rewrite /load_node /load /mbind /M_bind. destruct p as [l|]; [|by eexists].
  destruct (st_heap st !! l) as [[| al nd|]|] eqn:E; try (by eexists). simpl. rewrite /elem.
  rewrite (lookup_ge_None_2 (g nd) i); [by eexists|]. by rewrite (Hg _ _ _ _ Ha E).
Qed.
Lemma dead_sizes p i : base_max ≤ i → dead (sizes p i).
Proof.
  intros Hb. apply (dead_node_at p i n_sizes (λ _ c, init c)); [|done]. intros h l al nd Ha E. by destruct (Ha _ _ E).
Qed.
Lemma dead_pointers p i : base_max ≤ i → dead (pointers p i).
Proof.
  intros Hb. apply (dead_node_at p i n_ptrs (λ _ c, l ← init c; mret (Some l))); [|done]. intros h l al nd Ha E. by destruct (Ha _ _ E).
Qed.
Lemma dead_slot p i : segment_max ≤ i → dead (slot p i).
Proof.
  intros Hb st [Ha _]. rewrite /slot /load_seg /load /mbind /M_bind. destruct p as [l|]; [|by eexists].
  destruct (st_heap st !! l) as [[al sl| |]|] eqn:E; try (by eexists). simpl. rewrite /elem.
  rewrite (lookup_ge_None_2 sl i); [by eexists|]. rewrite (Ha _ _ E). done.
Qed.
Lemma dead_read_slot p i : segment_max ≤ i → dead (read_slot p i).
Proof. intros. by apply dead_bind_dead, dead_slot. Qed.
Lemma dead_cost k {A} (m : M T A) : dead m → cost k m.
Proof. intros H st Hi. by destruct (H st Hi) as [? ->]. Qed.

(** ** Automation: the number of accesses of straight-line code *)
Create HintDb cost discriminated.
Local Hint Resolve cost_ret cost_fail cost_throw cost_init cost_elem cost_load_node cost_load_seg cost_load_seq
  cost_set_parent_pointer cost_set_parent_index cost_set_length cost_set_sizes cost_set_pointers cost_set_slot
  cost_user_tick cost_move_tick cost_set_root cost_set_size cost_get_root cost_get_size cost_get_height
  cost_get_element_allocator cost_get_node_allocator cost_parent_pointer cost_parent_index cost_length_of
  cost_sizes cost_pointers cost_slot cost_read_slot cost_destroy_node : cost.
Ltac cost_go :=
  first
  [ solve [eauto 2 with cost]
  | eapply cost_bind; [cost_go | intros ?; cost_go]
  | eapply cost_if; [cost_go | cost_go]
  | eapply cost_opt; [cost_go | intros ?; cost_go]
  | idtac ].
(** [tally k]: the goal is [cost k m] for straight-line [m] *)
Ltac tally := eapply cost_mono; [cost_go | lia].

Lemma cost_construct_segment p i v : cost 2 (construct_segment p i v). Proof. rewrite /construct_segment. tally. Qed.
Lemma cost_assign_segment p i v : cost 2 (assign_segment p i v). Proof. rewrite /assign_segment. tally. Qed.
Lemma cost_leave_residue p i : cost 2 (leave_residue p i). Proof. rewrite /leave_residue. tally. Qed.
Lemma cost_destroy_segment p i : cost 2 (destroy_segment p i). Proof. rewrite /destroy_segment. tally. Qed.
Lemma cost_construct_leaf p i n c : cost 2 (construct_leaf p i n c). Proof. rewrite /construct_leaf. tally. Qed.
Lemma cost_construct_branch p i n c : cost 4 (construct_branch p i n c). Proof. rewrite /construct_branch. tally. Qed.
Lemma cost_assign_leaf p i n c : cost 2 (assign_leaf p i n c). Proof. rewrite /assign_leaf. tally. Qed.
Lemma cost_assign_branch p i n c : cost 4 (assign_branch p i n c). Proof. rewrite /assign_branch. tally. Qed.
Local Hint Resolve cost_construct_segment cost_assign_segment cost_leave_residue cost_destroy_segment cost_construct_leaf
  cost_construct_branch cost_assign_leaf cost_assign_branch : cost.
Lemma cost_move_assign_segment p i q j : cost 5 (move_assign_segment p i q j). Proof. rewrite /move_assign_segment. tally. Qed.
Lemma cost_move_assign_leaf p i q j : cost 4 (move_assign_leaf p i q j). Proof. rewrite /move_assign_leaf. tally. Qed.
Lemma cost_move_assign_branch p i q j : cost 6 (move_assign_branch p i q j). Proof. rewrite /move_assign_branch. tally. Qed.
Lemma cost_move_segment p i q j : cost 5 (move_segment p i q j). Proof. rewrite /move_segment. tally. Qed.
Lemma cost_move_leaf p i q j : cost 4 (move_leaf p i q j). Proof. rewrite /move_leaf. tally. Qed.
Lemma cost_move_branch p i q j : cost 6 (move_branch p i q j). Proof. rewrite /move_branch. tally. Qed.
Local Hint Resolve cost_move_assign_segment cost_move_assign_leaf cost_move_assign_branch cost_move_segment
  cost_move_leaf cost_move_branch : cost.
Lemma dead_move_assign_segment p i q j : segment_max ≤ i → dead (move_assign_segment p i q j).
Proof. intros. by apply dead_bind_dead, dead_read_slot. Qed.
Lemma dead_move_assign_leaf p i q j : base_max ≤ i → dead (move_assign_leaf p i q j).
Proof. intros. by apply dead_bind_dead, dead_sizes. Qed.
Lemma dead_move_assign_branch p i q j : base_max ≤ i → dead (move_assign_branch p i q j).
Proof. intros. by apply dead_bind_dead, dead_sizes. Qed.
Lemma dead_move_segment p i q j : segment_max ≤ i → dead (move_segment p i q j).
Proof. intros. by apply dead_bind_dead, dead_read_slot. Qed.

(** ** Ranges *)
Lemma cost_construct_range_loop src from dst to count :
  cost (7 * segment_max) (construct_range_loop src from dst to count).
Proof.
  eapply (cost_mono (7 * (segment_max - from))); [|lia].
  induction count as [|n IH] in from, to |- *; csimpl; [eapply cost_mono; [apply cost_ret|lia]|].
  destruct (decide (from < segment_max)); [|apply dead_bind, dead_move_segment; lia].
  eapply cost_mono; [eapply cost_bind; [cost_go|intros _; eapply cost_bind; [cost_go|intros _; apply IH]]|lia].
Qed.
Lemma cost_construct_range_leaf src from dst to count :
  cost (4 * base_max) (construct_range_leaf src from dst to count).
Proof.
  eapply (cost_mono (4 * (base_max - from))); [|lia].
  induction count as [|n IH] in from, to |- *; csimpl; [eapply cost_mono; [apply cost_ret|lia]|].
  destruct (decide (from < base_max)); [|apply dead_bind, dead_move_assign_leaf; lia].
  eapply cost_mono; [eapply cost_bind; [cost_go|intros ?; eapply cost_bind; [apply IH|intros ?; cost_go]]|lia].
Qed.
Lemma cost_construct_range_branch src from dst to count :
  cost (6 * base_max) (construct_range_branch src from dst to count).
Proof.
  eapply (cost_mono (6 * (base_max - from))); [|lia].
  induction count as [|n IH] in from, to |- *; csimpl; [eapply cost_mono; [apply cost_ret|lia]|].
  destruct (decide (from < base_max)); [|apply dead_bind, dead_move_assign_branch; lia].
  eapply cost_mono; [eapply cost_bind; [cost_go|intros ?; eapply cost_bind; [apply IH|intros ?; cost_go]]|lia].
Qed.
Lemma wsub_S f : S f < c_W C → wsub (S f) 1 = f.
Proof. intros. rewrite wsub_small; lia. Qed.
Lemma wsub_0 : base_max ≤ wsub 0 1 ∧ segment_max ≤ wsub 0 1.
Proof.
  pose proof (ok_W _ OK). rewrite /wsub Nat.add_0_l Nat.mod_small; lia.
Qed.
Lemma cost_assign_forward_segment_loop p n from to :
  cost (5 * segment_max) (assign_forward_segment_loop p n from to).
Proof.
  assert (Hl : ∀ n from to, from ≤ segment_max → cost (5 * from) (assign_forward_segment_loop p n from to)).
  { clear n from to. intros n. induction n as [|n IH]; intros from to Hf; csimpl; [eapply cost_mono; [apply cost_ret|lia]|].
    destruct from as [|f]; [apply dead_bind, dead_move_assign_segment; apply wsub_0|].
    pose proof (ok_W _ OK). rewrite wsub_S; [|lia].
    eapply cost_mono; [eapply cost_bind; [cost_go|intros _; apply IH; lia]|lia]. }
  destruct n as [|n]; csimpl; [eapply cost_mono; [apply cost_ret|lia]|].
  destruct (decide (wsub from 1 < segment_max)); [|apply dead_bind, dead_move_assign_segment; lia].
  eapply cost_mono; [eapply cost_bind; [cost_go|intros _; apply Hl; lia]|lia].
Qed.
Lemma cost_assign_forward_leaf_loop p n from to :
  cost (4 * base_max) (assign_forward_leaf_loop p n from to).
Proof.
  assert (Hl : ∀ n from to, from ≤ base_max → cost (4 * from) (assign_forward_leaf_loop p n from to)).
  { clear n from to. intros n. induction n as [|n IH]; intros from to Hf; csimpl; [eapply cost_mono; [apply cost_ret|lia]|].
    destruct from as [|f]; [apply dead_bind, dead_move_assign_leaf; apply wsub_0|].
    pose proof (ok_W _ OK). rewrite wsub_S; [|lia].
    eapply cost_mono; [eapply cost_bind; [cost_go|intros _; apply IH; lia]|lia]. }
  destruct n as [|n]; csimpl; [eapply cost_mono; [apply cost_ret|lia]|].
  destruct (decide (wsub from 1 < base_max)); [|apply dead_bind, dead_move_assign_leaf; lia].
  eapply cost_mono; [eapply cost_bind; [cost_go|intros _; apply Hl; lia]|lia].
Qed.
Lemma cost_assign_forward_branch_loop p n from to :
  cost (6 * base_max) (assign_forward_branch_loop p n from to).
Proof.
  assert (Hl : ∀ n from to, from ≤ base_max → cost (6 * from) (assign_forward_branch_loop p n from to)).
  { clear n from to. intros n. induction n as [|n IH]; intros from to Hf; csimpl; [eapply cost_mono; [apply cost_ret|lia]|].
    destruct from as [|f]; [apply dead_bind, dead_move_assign_branch; apply wsub_0|].
    pose proof (ok_W _ OK). rewrite wsub_S; [|lia].
    eapply cost_mono; [eapply cost_bind; [cost_go|intros _; apply IH; lia]|lia]. }
  destruct n as [|n]; csimpl; [eapply cost_mono; [apply cost_ret|lia]|].
  destruct (decide (wsub from 1 < base_max)); [|apply dead_bind, dead_move_assign_branch; lia].
  eapply cost_mono; [eapply cost_bind; [cost_go|intros _; apply Hl; lia]|lia].
Qed.
Lemma cost_assign_backward_segment_loop p n from to :
  cost (5 * segment_max) (assign_backward_segment_loop p n from to).
Proof.
  eapply (cost_mono (5 * (segment_max - from))); [|lia].
  induction n as [|n IH] in from, to |- *; csimpl; [eapply cost_mono; [apply cost_ret|lia]|].
  destruct (decide (from < segment_max)); [|apply dead_bind, dead_move_assign_segment; lia].
  eapply cost_mono; [eapply cost_bind; [cost_go|intros _; apply IH]|lia].
Qed.
Lemma cost_assign_backward_leaf_loop p n from to :
  cost (4 * base_max) (assign_backward_leaf_loop p n from to).
Proof.
  eapply (cost_mono (4 * (base_max - from))); [|lia].
  induction n as [|n IH] in from, to |- *; csimpl; [eapply cost_mono; [apply cost_ret|lia]|].
  destruct (decide (from < base_max)); [|apply dead_bind, dead_move_assign_leaf; lia].
  eapply cost_mono; [eapply cost_bind; [cost_go|intros _; apply IH]|lia].
Qed.
Lemma cost_assign_backward_branch_loop p n from to :
  cost (6 * base_max) (assign_backward_branch_loop p n from to).
Proof.
  eapply (cost_mono (6 * (base_max - from))); [|lia].
  induction n as [|n IH] in from, to |- *; csimpl; [eapply cost_mono; [apply cost_ret|lia]|].
  destruct (decide (from < base_max)); [|apply dead_bind, dead_move_assign_branch; lia].
  eapply cost_mono; [eapply cost_bind; [cost_go|intros _; apply IH]|lia].
Qed.
Lemma cost_memcpy src si dst di n : cost 2 (memcpy_slots src si dst di n).
Proof.
  intros st [Ha (s & Hs & Hd)]. rewrite /memcpy_slots /load_seg /load /mbind /M_bind.
  destruct src as [l|]; [|done]. destruct (st_heap st !! l) as [[al sl| |]|] eqn:E; try done. simpl.
  destruct dst as [l'|]; [|done]. destruct (st_heap st !! l') as [[al' sl'| |]|] eqn:E'; try done. simpl.
  case_bool_decide; [done|]. destruct (_ <=? _) eqn:H1; simpl; [|done]. destruct (di + n <=? _) eqn:H2; simpl; [|done].
  apply Nat.leb_le in H1, H2. split; [|lia]. split; simpl.
  - apply arrays_insert; [done|]. rewrite splice_length //. apply (Ha _ _ E').
  - exists s. split; [|done]. rewrite lookup_insert_ne //. intros ->. congruence.
Qed.
Lemma cost_memmove p di si n : cost 1 (memmove_slots p di si n).
Proof.
  intros st [Ha (s & Hs & Hd)]. rewrite /memmove_slots /load_seg /load /mbind /M_bind.
  destruct p as [l|]; [|done]. destruct (st_heap st !! l) as [[al sl| |]|] eqn:E; try done. simpl.
  destruct (_ <=? _) eqn:H1; simpl; [|done]. destruct (di + n <=? _) eqn:H2; simpl; [|done].
  apply Nat.leb_le in H1, H2. split; [|lia]. split; simpl.
  - apply arrays_insert; [done|]. rewrite splice_length //. apply (Ha _ _ E).
  - exists s. split; [|done]. rewrite lookup_insert_ne //. intros ->. congruence.
Qed.
Lemma segment_max_pos : 1 ≤ segment_max.
Proof. rewrite /segment_max. destruct (1 <? segment_fit) eqn:E; [apply Nat.ltb_lt in E|]; lia. Qed.
Lemma base_max_pos : 3 ≤ base_max.
Proof. rewrite /base_max. destruct (3 <? base_fit) eqn:E; [apply Nat.ltb_lt in E|]; lia. Qed.
Lemma cost_construct_range_segment p i q j n : cost (7 * segment_max) (construct_range_segment p i q j n).
Proof.
  rewrite /construct_range_segment. pose proof segment_max_pos. destruct (_ && _).
  - eapply cost_mono; [apply cost_memcpy|lia].
  - apply cost_construct_range_loop.
Qed.
Lemma cost_assign_forward_segment p n i d : cost (5 * segment_max) (assign_forward_segment p n i d).
Proof.
  rewrite /assign_forward_segment. pose proof segment_max_pos. destruct (c_triv_copy C).
  - eapply cost_mono; [apply cost_memmove|lia].
  - apply cost_assign_forward_segment_loop.
Qed.
Lemma cost_assign_backward_segment p n i d : cost (5 * segment_max) (assign_backward_segment p n i d).
Proof.
  rewrite /assign_backward_segment. pose proof segment_max_pos. destruct (c_triv_copy C).
  - eapply cost_mono; [apply cost_memmove|lia].
  - apply cost_assign_backward_segment_loop.
Qed.
Lemma cost_assign_forward_leaf p n i d : cost (4 * base_max) (assign_forward_leaf p n i d).
Proof. apply cost_assign_forward_leaf_loop. Qed.
Lemma cost_assign_forward_branch p n i d : cost (6 * base_max) (assign_forward_branch p n i d).
Proof. apply cost_assign_forward_branch_loop. Qed.
Lemma cost_assign_backward_leaf p n i d : cost (4 * base_max) (assign_backward_leaf p n i d).
Proof. apply cost_assign_backward_leaf_loop. Qed.
Lemma cost_assign_backward_branch p n i d : cost (6 * base_max) (assign_backward_branch p n i d).
Proof. apply cost_assign_backward_branch_loop. Qed.
Local Hint Resolve cost_construct_range_leaf cost_construct_range_branch cost_construct_range_segment
  cost_assign_forward_segment cost_assign_backward_segment cost_assign_forward_leaf cost_assign_forward_branch
  cost_assign_backward_leaf cost_assign_backward_branch : cost.

(** ** Blocks *)
Lemma cost_allocate_segment l : cost 1 (allocate_segment l).
Proof.
  apply (cost_bind 1 0); [cost_go|]. intros al. apply cost_allocate. by rewrite replicate_length.
Qed.
Lemma cost_allocate_node l : cost 1 (allocate_node l).
Proof.
  apply (cost_bind 1 0); [cost_go|]. intros al. apply cost_allocate. simpl. by rewrite !replicate_length.
Qed.
Lemma cost_deallocate_segment l p : cost 2 (deallocate_segment l p).
Proof.
  apply (cost_bind 1 1); [cost_go|]. intros al. destruct p as [q|].
  - apply (cost_free_seg (Some q) (λ _ a sl, (a =? al) && (c_triv_destroy C || forallb (λ c, negb (bool_decide (is_Some c))) sl))).
  - destruct (c_null_free C); tally.
Qed.
Lemma cost_deallocate_node l p : cost 2 (deallocate_node l p).
Proof. apply (cost_bind 1 1); [cost_go|]. intros al. apply (cost_free_node p (λ _ a _, a =? al)). Qed.
Local Hint Resolve cost_allocate_segment cost_allocate_node cost_deallocate_segment cost_deallocate_node : cost.
Lemma cost_free_chain n alloc : cost (3 * n) (free_chain n this alloc).
Proof.
  induction n as [|n IH] in alloc |- *; csimpl; [tally|].
  eapply cost_mono; [eapply cost_opt; [cost_go|intros ?; eapply cost_bind; [cost_go|intros ?; eapply cost_bind; [cost_go|intros _; apply IH]]]|lia].
Qed.

(** ** Loops towards the root *)
Lemma cost_update_sizes_loop n p i sz : cost (4 * n) (update_sizes_loop n p i sz).
Proof.
  induction n as [|n IH] in p, i |- *; csimpl; [tally|].
  eapply cost_mono; [eapply cost_opt; [cost_go|intros ?]|].
  - do 4 (eapply cost_bind; [cost_go|intros ?]). apply IH.
  - lia.
Qed.
Lemma cost_update_sizes p i sz : cost (4 * (D + 2) + 2) (update_sizes this p i sz).
Proof.
  apply cost_height_fuel. intros n Hn. eapply cost_mono.
  - eapply cost_bind; [apply cost_update_sizes_loop|]. intros _. cost_go.
  - lia.
Qed.
Lemma cost_increment_sizes p i : cost (4 * (D + 2) + 2) (increment_sizes this p i). Proof. apply cost_update_sizes. Qed.
Lemma cost_decrement_sizes p i : cost (4 * (D + 2) + 2) (decrement_sizes this p i). Proof. apply cost_update_sizes. Qed.
Local Hint Resolve cost_increment_sizes cost_decrement_sizes : cost.
End this.

Section insert.
Context (this : loc) (D : nat).
(** what the handler of alloc_nodes_single adds *)
Definition cleanup : nat := 2 + 3 * (D + 2).
Notation cheap := (cost this D cleanup).
Notation last := (ends this D cleanup).
Notation inv := (inv this D).
Local Hint Resolve cost_ret cost_fail cost_throw cost_init cost_elem cost_load_node cost_load_seg cost_load_seq
  cost_set_parent_pointer cost_set_parent_index cost_set_length cost_set_sizes cost_set_pointers cost_set_slot
  cost_user_tick cost_move_tick cost_set_root cost_set_size cost_get_root cost_get_size cost_get_height
  cost_get_element_allocator cost_get_node_allocator cost_parent_pointer cost_parent_index cost_length_of
  cost_sizes cost_pointers cost_slot cost_read_slot cost_destroy_node
  cost_construct_segment cost_assign_segment cost_leave_residue cost_destroy_segment cost_construct_leaf
  cost_construct_branch cost_assign_leaf cost_assign_branch
  cost_move_assign_segment cost_move_assign_leaf cost_move_assign_branch cost_move_segment
  cost_move_leaf cost_move_branch
  cost_construct_range_leaf cost_construct_range_branch cost_construct_range_segment
  cost_assign_forward_segment cost_assign_backward_segment cost_assign_forward_leaf cost_assign_forward_branch
  cost_assign_backward_leaf cost_assign_backward_branch
  cost_allocate_segment cost_allocate_node cost_deallocate_segment cost_deallocate_node
  cost_increment_sizes cost_decrement_sizes : cost.

Ltac cost_go :=
  first
  [ solve [eauto 2 with cost]
  | eapply cost_bind; [cost_go | intros ?; cost_go]
  | eapply cost_if; [cost_go | cost_go]
  | eapply cost_opt; [cost_go | intros ?; cost_go]
  | idtac ].
(** [tally k]: the goal is [cost k m] for straight-line [m] *)
Ltac tally := eapply cost_mono; [cost_go | lia].

Lemma cost_alloc_node_or_cleanup alloc seg : cheap 1 (alloc_node_or_cleanup this alloc seg).
Proof.
  intros st Hi. rewrite /alloc_node_or_cleanup /try_catch.
  pose proof (cost_allocate_node this D 0 this st Hi) as Ha.
  assert (Ht : ∀ e st', allocate_node this st = Throw e st' → inv st').
  { intros e st'. clear Ha. rewrite /allocate_node /get_node_allocator /load_seq /load /mbind /M_bind.
    destruct (st_heap st !! this) as [[| |s]|] eqn:E; try done. simpl. rewrite /allocate. destruct (c_pick C _ _); [done|].
    intros [= <- <-]. destruct Hi as [? (s' & Hs & ?)]. split; [done|]. exists s'. split; [|done]. exact Hs. }
  destruct (allocate_node this st) as [a st1|e st1|]; [|specialize (Ht _ _ eq_refl)|done].
  - destruct Ha. split; [done|lia].
  - assert (Hc : cost this D 0 (2 + 3 * (D + 2))
      (deallocate_segment this seg;; fuel ← height_fuel this; free_chain fuel this alloc;; throw (A:=ptr) e)).
    { apply cost_bind; [cost_go|]. intros _. apply cost_height_fuel. intros n Hn.
      eapply cost_mono; [eapply cost_bind; [apply cost_free_chain|intros _; apply cost_throw]|lia]. }
    specialize (Hc _ Ht).
    assert (Hn : ∀ a st2, (deallocate_segment this seg;; fuel ← height_fuel this; free_chain fuel this alloc;; throw (A:=ptr) e) st1 ≠ Ok a st2).
    { intros a st2. rewrite /mbind /M_bind. destruct (deallocate_segment _ _ _); [|done..].
      destruct (height_fuel _ _); [|done..]. by destruct (free_chain _ _ _ _). }
    match type of Hc with match ?r with _ => _ end => destruct r as [a st2|e' st2|] eqn:Er end; [by edestruct Hn; eauto|rewrite /cleanup; lia|done].
Qed.
Local Hint Resolve cost_alloc_node_or_cleanup : cost.
Lemma cost_alloc_nodes_single_loop n p alloc seg : cheap (4 * n) (alloc_nodes_single_loop n this p alloc seg).
Proof.
  induction n as [|n IH] in p, alloc |- *; csimpl; [tally|].
  eapply cost_mono; [eapply cost_opt; [cost_go|intros ?]|].
  - eapply cost_bind; [cost_go|intros ?]. eapply cost_if; [cost_go|].
    do 3 (eapply cost_bind; [cost_go|intros ?]). apply IH.
  - lia.
Qed.
Lemma cost_alloc_nodes_single p seg : cheap (4 * (D + 2)) (alloc_nodes_single this p seg).
Proof.
  apply cost_height_fuel. intros n Hn. eapply cost_mono; [apply cost_alloc_nodes_single_loop|lia].
Qed.
Local Hint Resolve cost_alloc_nodes_single : cost.

(** code after which nothing needs the height *)
Ltac ends_go :=
  first
  [ eapply cost_ends; solve [eauto 2 with cost]
  | eapply ends_any; [eapply any_ends, any_set_height | intros ?; any_go]
  | eapply any_ends, any_set_height
  | eapply ends_if; [ends_go | ends_go]
  | eapply ends_opt; [ends_go | intros ?; ends_go]
  | eapply ends_bind; [solve [eauto 2 with cost] | intros ?; ends_go]
  | eapply ends_bind; [solve [eapply cost_if; cost_go] | intros ?; ends_go]
  | idtac ]
with any_go :=
  first
  [ apply any_ret | apply any_get_size | apply any_set_size | apply any_set_height | apply any_construct_segment
  | eapply any_bind; [any_go | intros ?; any_go] ].

Lemma ends_insert_single_branch_loop n base p i alloc cp cs :
  last ((22 * base_max + 22) * n + 4 * (D + 2) + 20) (insert_single_branch_loop n this base p i alloc cp cs).
Proof.
  pose proof base_max_pos.
  induction n as [|n IH] in base, p, i, alloc, cp, cs |- *; csimpl; [apply cost_ends; tally|].
  eapply ends_mono; [eapply ends_opt; [ends_go|intros ?]|].
  - do 3 (eapply ends_bind; [cost_go|intros ?]). eapply ends_if; [ends_go|].
    do 6 (eapply ends_bind; [cost_go|intros ?]). apply IH.
  - lia.
Qed.
(** the accesses of one walk to the root that splits or merges every node it meets *)
Definition walk : nat := (22 * base_max + 22) * (D + 2).
Lemma ends_insert_single_branch base p i alloc cp cs :
  last (walk + 4 * (D + 2) + 20) (insert_single_branch this base p i alloc cp cs).
Proof.
  apply ends_height_fuel. intros n Hn. eapply ends_mono; [apply ends_insert_single_branch_loop|].
  rewrite /walk. pose proof base_max_pos. nia.
Qed.
Lemma ends_insert_single_leaf e base p i alloc cp cs :
  last (walk + 20 * base_max + 8 * (D + 2) + 60) (insert_single_leaf this e base p i alloc cp cs).
Proof.
  pose proof base_max_pos. rewrite /insert_single_leaf.
  eapply ends_mono; [eapply ends_opt; [ends_go|intros ?]|].
  - do 3 (eapply ends_bind; [cost_go|intros ?]). eapply ends_if; [ends_go|].
    do 6 (eapply ends_bind; [cost_go|intros ?]). eapply ends_any; [apply ends_insert_single_branch|intros ?; any_go].
  - lia.
Qed.
Lemma ends_insert_single_segment e v :
  last (walk + 30 * segment_max + 20 * base_max + 16 * (D + 2) + 100) (insert_single_segment this e v).
Proof.
  pose proof base_max_pos. pose proof segment_max_pos. rewrite /insert_single_segment.
  eapply ends_mono; [eapply ends_if; [ends_go|]; eapply ends_opt; [|intros ?]|].
  - ends_go.
  - eapply ends_if; [ends_go|]. do 3 (eapply ends_bind; [cost_go|intros ?]). apply ends_insert_single_leaf.
  - lia.
Qed.
Lemma ends_erase_single_branch_loop n p i :
  last ((22 * base_max + 22) * n + 4 * (D + 2) + 20) (erase_single_branch_loop n this p i).
Proof.
  pose proof base_max_pos.
  induction n as [|n IH] in p, i |- *; csimpl; [apply cost_ends; tally|].
  eapply ends_mono; [do 3 (eapply ends_bind; [cost_go|intros ?]); eapply ends_if; [ends_go|]; eapply ends_if; [ends_go|]; eapply ends_if|].
  - do 2 (eapply ends_bind; [cost_go|intros ?]). eapply ends_if; [ends_go|].
    do 7 (eapply ends_bind; [cost_go|intros ?]). apply IH.
  - do 2 (eapply ends_bind; [cost_go|intros ?]). eapply ends_if; [ends_go|].
    do 8 (eapply ends_bind; [cost_go|intros ?]). apply IH.
  - lia.
Qed.
Lemma ends_erase_single_branch p i : last (walk + 4 * (D + 2) + 20) (erase_single_branch this p i).
Proof.
  apply ends_height_fuel. intros n Hn. eapply ends_mono; [apply ends_erase_single_branch_loop|].
  rewrite /walk. pose proof base_max_pos. nia.
Qed.
Lemma ends_erase_single_leaf e p i :
  last (walk + 20 * base_max + 8 * (D + 2) + 60) (erase_single_leaf this e p i).
Proof.
  pose proof base_max_pos. rewrite /erase_single_leaf.
  eapply ends_mono; [do 3 (eapply ends_bind; [cost_go|intros ?]); eapply ends_if; [ends_go|]; eapply ends_if; [ends_go|]; eapply ends_if|].
  - do 2 (eapply ends_bind; [cost_go|intros ?]). eapply ends_if; [ends_go|].
    do 7 (eapply ends_bind; [cost_go|intros ?]). eapply ends_any; [apply ends_erase_single_branch|intros ?; any_go].
  - do 2 (eapply ends_bind; [cost_go|intros ?]). eapply ends_if; [ends_go|].
    do 8 (eapply ends_bind; [cost_go|intros ?]). eapply ends_any; [apply ends_erase_single_branch|intros ?; any_go].
  - lia.
Qed.
Lemma ends_erase_single_segment e :
  last (walk + 30 * segment_max + 20 * base_max + 8 * (D + 2) + 100) (erase_single_segment this e).
Proof.
  pose proof base_max_pos. pose proof segment_max_pos. rewrite /erase_single_segment.
  eapply ends_mono; [eapply ends_if; [ends_go|]; eapply ends_if; [ends_go|]; eapply ends_if|].
  - do 2 (eapply ends_bind; [cost_go|intros ?]). eapply ends_if; [ends_go|].
    do 5 (eapply ends_bind; [cost_go|intros ?]). eapply ends_any; [apply ends_erase_single_leaf|intros ?; any_go].
  - do 2 (eapply ends_bind; [cost_go|intros ?]). eapply ends_if; [ends_go|].
    do 6 (eapply ends_bind; [cost_go|intros ?]). eapply ends_any; [apply ends_erase_single_leaf|intros ?; any_go].
  - lia.
Qed.
End insert.
End cost.
