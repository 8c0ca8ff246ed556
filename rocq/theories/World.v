(** * World: a small concrete world that meets the hypotheses of the theorems.

    Elements are numbers, a moved-from element is left as 0, two elements per
    segment and three children per index node (the smallest trees that use every
    level), [size_type] is modulo 256.  Which of the oracle's answers are failures
    is a parameter. *)
From Verif Require Export Setup.
From stdpp Require Import options.
Set Default Proof Using "Type*".

(** addresses: one above the highest in use *)
Definition next_free {T} (h : heap T) : loc := map_fold (λ k _ m, Pos.max (k + 1) m) 1%positive h.
Lemma next_free_spec {T} (h : heap T) k : is_Some (h !! k) → (k < next_free h)%positive.
Proof.
  rewrite /next_free. revert k.
  apply (map_fold_ind (λ m (h : heap T), ∀ k, is_Some (h !! k) → (k < m)%positive)).
  - intros k [? Hk]. by rewrite lookup_empty in Hk.
  - intros i o m r Hi IH k [x Hk]. destruct (decide (k = i)) as [->|]; [lia|].
    rewrite lookup_insert_ne // in Hk. assert (k < r)%positive by (apply IH; by exists x). lia.
Qed.
Lemma next_free_none {T} (h : heap T) : h !! next_free h = None.
Proof.
  destruct (h !! next_free h) eqn:E; [|done]. assert (next_free h < next_free h)%positive; [|lia].
  apply next_free_spec. by rewrite E.
Qed.

Record faults := Faults { f_alloc : nat → bool; f_user : nat → bool; f_move : nat → bool; f_pred : nat → bool }.
Definition never : faults := Faults (λ _, false) (λ _, false) (λ _, false) (λ _, false).
(** [seg]: bytes per segment; [triv]: elements are trivially copyable; [nf]: deallocate(nullptr) is allowed;
    [prop]: allocators propagate; [H]: modulus of the 16-bit fields *)
Definition world_cfg (seg : nat) (triv nf prop : bool) (H : nat) (f : faults) : cfg nat := {|
  c_segment_target := seg; c_base_target := 64;
  c_sizeof_T := 8; c_sizeof_base := 16; c_sizeof_data := 16;
  c_W := 256; c_H := H;
  c_triv_copy := triv; c_triv_destroy := triv; c_std_construct := true;
  c_pocca := prop; c_pocma := prop; c_pocs := prop; c_soccc := λ a, a;
  c_null_free := nf;
  c_default := 0; c_residue := λ _, 0;
  c_pick := λ n h, if f_alloc f n then None else Some (next_free h);
  c_place := λ n h, next_free h;
  c_user_ok := λ n, negb (f_user f n);
  c_move_ok := λ n, negb (f_move f n);
  c_pred_ok := λ n, negb (f_pred f n);
  c_scramble := λ _ xs, (λ _, 0) <$> xs
|}.
Lemma world_ok seg triv nf prop H f :
  seg = 16 ∨ seg = 64 → 3 < H → (∀ n, f_move f n = false) → cfg_ok (world_cfg seg triv nf prop H f).
Proof.
  intros Hs HH Hm. split.
  - destruct Hs as [-> | ->]; cbv; lia.
  - change (3 < H). done.
  - by destruct triv.
  - intros n h l. simpl. destruct (f_alloc f n); [done|]. intros [= <-]. apply next_free_none.
  - intros n h. simpl. apply next_free_none.
  - intros n. simpl. by rewrite Hm.
  - intros n xs. apply fmap_length.
Qed.

(** making a world: some containers from lists, some iterators into them *)
Section make.
Context {T : Type} {C : cfg T} {OK : cfg_ok C}.
Fixpoint make (cs : list (cmd T)) (ρ : env) : M T env :=
  match cs with
  | [] => mret ρ
  | c :: cs => r ← exec (C:=C) c ρ; match r.1 with OUnit => make cs r.2 | _ => fail FFuel end
  end.
(** each command is one of the above and its container is there or not, as it needs *)
Fixpoint make_ok (names : list nat) (cs : list (cmd T)) : bool :=
  match cs with
  | [] => true
  | New x _ :: cs => bool_decide (x ∉ names) && make_ok (x :: names) cs
  | NewRange x (RList xs) _ :: cs => bool_decide (x ∉ names) && (length xs <? c_W C) && make_ok (x :: names) cs
  | NthOf x _ _ :: cs => bool_decide (x ∈ names) && make_ok names cs
  | _ => false
  end.
Lemma make_reached names cs ρ st ρ' st' :
  make_ok names cs = true → can_throw C →
  reached C ρ st → (∀ x, x ∈ names ↔ container_at st ρ x ≠ None) → make cs ρ st = Ok ρ' st' → reached C ρ' st'.
Proof.
  intros Hok Hth. revert names ρ st Hok. induction cs as [|c cs IH]; intros names ρ st Hok Hr Hn Hm; [by injection Hm as <- <-|].
  assert (∃ names', make_ok names' cs = true ∧
    ∀ σ, reachable C σ ρ st → pre C σ c ∧ ∀ σ', step C σ c OUnit σ' → ∀ x, x ∈ names' ↔ conts σ' !! x ≠ None) as (names' & Hok' & Hc).
  { assert (∀ σ, reachable C σ ρ st → ∀ x, x ∈ names ↔ conts σ !! x ≠ None) as Hcs.
    { intros σ Hσ x. by rewrite (reachable_conts _ _ _ _ Hσ). }
    destruct c; try done; cbn [make_ok] in Hok.
    - apply andb_prop in Hok as [Hx%bool_decide_eq_true Hok]. exists (x :: names). split; [done|].
      intros σ Hσ. specialize (Hcs σ Hσ). split.
      { cbn [pre]. rewrite /unused. destruct (conts σ !! x) eqn:E; [|done]. exfalso. apply Hx, Hcs. by rewrite E. }
      intros σ' [_ ->] y. rewrite elem_of_cons Hcs. simpl. destruct (decide (y = x)) as [->|].
      + rewrite lookup_insert. split; [done|by left].
      + rewrite lookup_insert_ne //. split; [by intros [?|?]|by right].
    - destruct r as [xs|]; [|done]. apply andb_prop in Hok as [[Hx%bool_decide_eq_true Hl%Nat.ltb_lt]%andb_prop Hok].
      exists (x :: names). split; [done|].
      intros σ Hσ. specialize (Hcs σ Hσ). split.
      { cbn [pre]. split_and!; [|by exists xs|done].
        rewrite /unused. destruct (conts σ !! x) eqn:E; [|done]. exfalso. apply Hx, Hcs. by rewrite E. }
      intros σ' (xs' & [= <-] & [[_ ->]|(e & j & [? _] & _)]) y; [|done].
      rewrite elem_of_cons Hcs. simpl. destruct (decide (y = x)) as [->|].
      + rewrite lookup_insert. split; [done|by left].
      + rewrite lookup_insert_ne //. split; [by intros [?|?]|by right].
    - apply andb_prop in Hok as [Hx%bool_decide_eq_true Hok]. exists names. split; [done|].
      intros σ Hσ. specialize (Hcs σ Hσ). split.
      { cbn [pre]. rewrite /live. apply Hcs in Hx. by destruct (conts σ !! x). }
      by intros σ' [_ ->] y. }
  destruct Hr as [σ Hσ]. destruct (Hc σ Hσ) as [Hp Hs]. cbn [make] in Hm.
  destruct (call_ok σ ρ st c Hσ Hp) as (o & ρ1 & st1 & σ1 & He & Hst & Hr1).
  rewrite /mbind /M_bind He in Hm. cbn [fst snd] in Hm. destruct o; try done. eapply (IH names'); [done|by exists σ1| |done].
  intros x. rewrite -(reachable_conts _ _ _ _ Hr1). by eapply Hs.
Qed.
End make.

(** ** The world *)
Definition W0 : cfg nat := world_cfg 16 false true false 16 never.
Global Instance W0_ok : cfg_ok W0.
Proof. apply world_ok; [by left|lia|done]. Qed.
(** container 0 holds 1..12, 1 holds 21, 22, 23, both with allocator 7; 2 is empty,
    with allocator 8; 3 holds 5, 5, 6 and 4 holds 1, 2, 1, with allocator 8; 5 holds 31, 32.  Iterators 0 and 1 are at
    positions 5 and 9 of container 0, 2 at its end, 3 and 4 at positions 1 and 3
    (the end) of container 1, 5 at position 0 (the end) of container 2, 6 at the
    beginning of 1, 7 at the beginning of 4, 8 and 9 at positions 0 and 1 of 5. *)
Definition program : list (cmd nat) :=
  [NewRange 0 (RList [1;2;3;4;5;6;7;8;9;10;11;12]) 7; NewRange 1 (RList [21;22;23]) 7; New 2 8; NewRange 3 (RList [5;5;6]) 8; NewRange 4 (RList [1;2;1]) 8; NewRange 5 (RList [31;32]) 7;
   NthOf 0 5 0; NthOf 0 9 1; NthOf 0 12 2; NthOf 1 1 3; NthOf 1 3 4; NthOf 2 0 5; NthOf 1 0 6; NthOf 4 0 7; NthOf 5 0 8; NthOf 5 1 9].
Definition start : state nat := State ∅ 0 (Cnt 0 0 [] 0 []).
Definition made (C : cfg nat) : env * state nat :=
  match make (C:=C) program no_env start with Ok ρ st => (ρ, st) | _ => (no_env, start) end.
Definition ρ0 : env := (made W0).1.
Definition st0 : state nat := (made W0).2.
Lemma made_reached C :
  cfg_ok C → can_throw C → make_ok (C:=C) [] program = true → reached C (made C).1 (made C).2.
Proof.
  intros OK Hth Hok. rewrite /made. destruct (make program no_env start) as [ρ st|e st|f] eqn:E.
  - eapply make_reached; [done|done| | |exact E].
    + eexists. constructor.
    + intros x. split; [by intros ?%elem_of_nil|]. done.
  - eexists. constructor.
  - eexists. constructor.
Qed.
Lemma W0_reached : reached W0 ρ0 st0.
Proof.
  by apply made_reached; [apply _|intros ?|vm_compute].
Qed.
(** what is there *)
Example W0_0 : container_at st0 ρ0 0 = Some ([1;2;3;4;5;6;7;8;9;10;11;12], 7). Proof. by vm_compute. Qed.
Example W0_1 : container_at st0 ρ0 1 = Some ([21;22;23], 7). Proof. by vm_compute. Qed.
Example W0_2 : container_at st0 ρ0 2 = Some ([], 8). Proof. by vm_compute. Qed.
Example W0_3 : container_at st0 ρ0 3 = Some ([5;5;6], 8). Proof. by vm_compute. Qed.
Example W0_4 : container_at st0 ρ0 4 = Some ([1;2;1], 8). Proof. by vm_compute. Qed.
Example W0_5 : container_at st0 ρ0 5 = Some ([31;32], 7). Proof. by vm_compute. Qed.
Example W0_9 : container_at st0 ρ0 9 = None. Proof. by vm_compute. Qed.
(** [w] is an iterator at [p] of [x] *)
Global Instance segment_entry_eq_dec : EqDecision segment_entry. Proof. solve_decision. Defined.
Global Instance leaf_entry_eq_dec : EqDecision leaf_entry. Proof. solve_decision. Defined.
Global Instance iterator_entry_eq_dec : EqDecision iterator_entry. Proof. solve_decision. Defined.
Global Instance iterator_data_eq_dec : EqDecision iterator_data. Proof. solve_decision. Defined.
Global Instance env_eq_dec : EqDecision env. Proof. solve_decision. Defined.
Lemma at_intro (C : cfg nat) (st : state nat) ρ w x p :
  match container_at st ρ x with Some (xs, _) => p <=? length xs | None => false end = true →
  match exec (C:=C) (NthOf x p w) ρ st with Ok (OUnit, ρ') _ => bool_decide (ρ' = ρ) | _ => false end = true → iterator_at C st ρ w x p.
Proof.
  destruct (container_at st ρ x) as [[xs a]|] eqn:E; [|done]. intros H%Nat.leb_le.
  destruct (exec _ _ _) as [[o ρ'] st'|e st'|f] eqn:He; try done. destruct o; try done.
  intros ->%bool_decide_eq_true. by eexists xs, a, _.
Qed.
Ltac at_ := apply at_intro; vm_compute; reflexivity.
Example W0_w0 : iterator_at W0 st0 ρ0 0 0 5. Proof. at_. Qed.
Example W0_w1 : iterator_at W0 st0 ρ0 1 0 9. Proof. at_. Qed.
Example W0_w2 : iterator_at W0 st0 ρ0 2 0 12. Proof. at_. Qed.
Example W0_w3 : iterator_at W0 st0 ρ0 3 1 1. Proof. at_. Qed.
Example W0_w4 : iterator_at W0 st0 ρ0 4 1 3. Proof. at_. Qed.
Example W0_w5 : iterator_at W0 st0 ρ0 5 2 0. Proof. at_. Qed.
Example W0_w6 : iterator_at W0 st0 ρ0 6 1 0. Proof. at_. Qed.
Example W0_w7 : iterator_at W0 st0 ρ0 7 4 0. Proof. at_. Qed.
Example W0_w8 : iterator_at W0 st0 ρ0 8 5 0. Proof. at_. Qed.
Example W0_w9 : iterator_at W0 st0 ρ0 9 5 1. Proof. at_. Qed.
(** container 0 is a tree of four levels, 11 segments and 8 index nodes *)
Example W0_shape : (s_ht <$> seq_at st0 ρ0 0, length <$> segments st0 ρ0 0, length (index_nodes st0 ρ0 0)) = (Some 4, Some 11, 8).
Proof. by vm_compute. Qed.
