(** * Reach: the states a client can be in.

    [reachable σ ρ st]: some client program, started with no containers, made
    calls that respect their preconditions (or have an element of the same
    container as argument in the cases [pre_alias]) and has now memory [st] and variables
    [ρ]; [σ] records which iterators are valid and where they point (by the
    rules of Spec.v), and, for every container, the elements that are really in
    memory ([container_at]). *)
From Verif Require Export Heap.
From stdpp Require Import options.

Section place.
Context {T : Type}.
(** index [p] of container [x] is offset [k] of the array [vs] stored in block [l];
    [before] and [after] are the other segments; the index size() is the end of
    the last segment *)
Definition segment_of (st : state T) (ρ : env) (x p : nat)
    (before : list (loc * list T)) (l : loc) (vs : list T) (after : list (loc * list T)) (k : nat) : Prop :=
  segments st ρ x = Some (before ++ (l, vs) :: after) ∧
  p = length (concat before.*2) + k ∧ (k < length vs ∨ k = length vs ∧ after = []).
(** element [q] is not in the segment that index [p] is in *)
Definition apart (st : state T) (ρ : env) (x p q : nat) : Prop :=
  ∃ before l vs after k, segment_of st ρ x p before l vs after k ∧
    (q < length (concat before.*2) ∨ length (concat before.*2) + length vs ≤ q).
End place.

Section reach.
Context {T : Type} (C : cfg T).

(** An element of the container itself as argument ([pre] excludes this); the
    documentation does not mention it.  Copies of it (C35, C67): correct if at most one
    is inserted, or if the element is in another segment than the position of the
    insertion.  Removing what equals it (C36, C68): correct if it equals itself and
    no more elements are kept than precede it. *)
Definition pre_alias (σ : sst T) (ρ : env) (st : state T) (c : cmd T) : Prop :=
  match c with
  | InsertCount x w n (ARef w1) _ => ∃ p q, at_it σ w x p ∧ at_it σ w1 x q ∧ q < length (contents σ x) ∧
      fits C (length (contents σ x) + n) ∧ (n ≤ 1 ∨ apart st ρ x p q)
  | Resize x n (ARef w1) => ∃ q, at_it σ w1 x q ∧ q < length (contents σ x) ∧
      fits C n ∧ (n ≤ length (contents σ x) + 1 ∨ apart st ρ x (length (contents σ x)) q)
  | Remove x (ARef w1) eq => ∃ q v, at_it σ w1 x q ∧ contents σ x !! q = Some v ∧
      eq v v = true ∧ length (remove_list (λ u, eq u v) (contents σ x)) ≤ q
  | _ => False
  end.

Inductive reachable : sst T → env → state T → Prop :=
  | reach_start n k : reachable (SSt ∅ ∅) no_env (State ∅ n k)
  | reach_call σ ρ st c o ρ' st' σ' :
      reachable σ ρ st → pre C σ c →
      exec (C:=C) c ρ st = Ok (o, ρ') st' →
      step C σ c o σ' →
      (∀ x, conts σ' !! x = container_at st' ρ' x) →
      reachable σ' ρ' st'
  | reach_alias σ ρ st c o ρ' st' σ' :
      reachable σ ρ st → pre_alias σ ρ st c →
      exec (C:=C) c ρ st = Ok (o, ρ') st' →
      step C σ c o σ' →
      (∀ x, conts σ' !! x = container_at st' ρ' x) →
      reachable σ' ρ' st'
  | reach_count σ ρ h n k k' :    (* the counters may have any value *)
      reachable σ ρ (State h n k) → reachable σ ρ (State h n k').
(** the memory and the variables of a client at some point of some program *)
Definition reached (ρ : env) (st : state T) : Prop := ∃ σ, reachable σ ρ st.

(** ** What a client sees *)
(** iterator [w] is [x.nth(p)], field for field: assigning [x.nth(p)] to [w]
    changes no variable *)
Definition iterator_at (st : state T) (ρ : env) (w x p : nat) : Prop :=
  ∃ xs a st', container_at st ρ x = Some (xs, a) ∧ p ≤ length xs ∧
    exec (C:=C) (NthOf x p w) ρ st = Ok (OUnit, ρ) st'.
(** the call [c] answers [o] and changes nothing, neither variables nor memory *)
Definition answers (st : state T) (ρ : env) (c : cmd T) (o : out T) : Prop :=
  ∃ st', exec (C:=C) c ρ st = Ok (o, ρ) st' ∧
    st_heap st' = st_heap st ∧ st_clk st' = st_clk st ∧ n_allocs (st_cnt st') = n_allocs (st_cnt st).

(** ** Client programs *)
(** every call is within its precondition, whatever the answers so far were *)
Fixpoint safe (σ : sst T) (p : client (T:=T)) : Prop :=
  match p with
  | Stop => True
  | Call c k => pre C σ c ∧ ∀ o σ', step C σ c o σ' → safe σ' (k o)
  end.
(** a history of calls and answers that plain lists would produce *)
Inductive history : sst T → list (cmd T * out T) → sst T → Prop :=
  | history_nil σ : history σ [] σ
  | history_cons σ c o σ1 tr σ2 : step C σ c o σ1 → history σ1 tr σ2 → history σ ((c, o) :: tr) σ2.

(** ** The rules determine which iterators are valid *)
Lemma iters_arg_used (σ : sst T) s : iters (arg_used C σ s) = iters σ.
Proof. destruct s; try done. simpl. by destruct (iters σ !! w) as [[]|]. Qed.
Lemma iters_rng_used (σ : sst T) r k : iters (rng_used C σ r k) = iters σ.
Proof. destruct r as [|[] ??]; try done. simpl. by destruct (iters σ !! w1) as [[]|]. Qed.
Lemma at_it_fun (σ : sst T) w x p y q : at_it σ w x p → at_it σ w y q → x = y ∧ p = q.
Proof. rewrite /at_it. intros H1 H2. rewrite H1 in H2. by simplify_eq. Qed.
Ltac break := repeat match goal with
  | H : _ ∧ _ |- _ => destruct H
  | H : _ ∨ _ |- _ => destruct H
  | H : ∃ _, _ |- _ => destruct H
  | H : returns _ _ |- _ => unfold returns in H
  | H : throws _ _ _ |- _ => destruct H
  | H : balks _ _ |- _ => destruct H
  | H1 : at_it ?σ ?w ?x ?p, H2 : at_it ?σ ?w ?y ?q |- _ =>
      destruct (at_it_fun _ _ _ _ _ _ H1 H2); clear H2
  | H : context [if ?b then _ else _] |- _ => destruct b eqn:?
  end.
Lemma step_iters (σ : sst T) c o σ1 σ2 : step C σ c o σ1 → step C σ c o σ2 → iters σ1 = iters σ2.
Proof.
  intros H1 H2. destruct c; cbn [step] in H1, H2; unfold insert_step in *; cbv zeta in *; break;
    unfold in_segment in *; break; subst; simplify_eq;
    try match goal with H : raisable C EPred |- _ => destruct H end;
    rewrite /= ?iters_arg_used ?iters_rng_used; try done.
  all: repeat match goal with H : Some _ = Some _ |- _ => injection H as H end; subst; try done;
    try (repeat (f_equal; try lia)).
  all: exfalso; repeat match goal with H : (_ =? _) = true |- _ => apply Nat.eqb_eq in H | H : (_ =? _) = false |- _ => apply Nat.eqb_neq in H
     | H : (_ <=? _) = true |- _ => apply Nat.leb_le in H | H : (_ <=? _) = false |- _ => apply Nat.leb_gt in H end; lia.
Qed.
Lemma step_det (σ : sst T) c o σ1 σ2 :
  step C σ c o σ1 → step C σ c o σ2 → (∀ x, conts σ1 !! x = conts σ2 !! x) → σ1 = σ2.
Proof.
  intros H1 H2 Hc. pose proof (step_iters _ _ _ _ _ H1 H2) as Hi. destruct σ1, σ2; simpl in *. f_equal; [|done].
  by apply map_eq.
Qed.
End reach.
