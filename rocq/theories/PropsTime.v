(** * PropsTime: the documented complexity of every operation, counted in
    accesses to memory blocks.  The tables are in Complexity.v. *)
From Verif Require Export Complexity.
From Verif Require Import Bulk LinearApi.
From stdpp Require Import options.
Set Default Proof Using "Type*".

Section props.
Context {T : Type} {C : cfg T} {OK : cfg_ok C}.
Implicit Types σ : sst T.
Implicit Types ρ : env.
Implicit Types st : state T.
(** accesses to memory so far *)
Notation accesses st := (n_reads (st_cnt st)).
Notation exec := (exec (C:=C)).
Notation reachable := (reachable C).

Lemma effort_call σ ρ st c b k :
  reachable σ ρ st → pre C σ c → (R σ ρ ⊢ tk k (exec_call (C:=C) c ρ)) → k ≤ b →
  ∃ o ρ' st', exec c ρ st = Ok (o, ρ') st' ∧ accesses st' ≤ accesses st + b.
Proof.
  intros Hr Hp Hk Hb. destruct (call_ok σ ρ st c Hr Hp) as (o & ρ' & st' & σ' & He & _).
  exists o, ρ', st'. split; [done|]. pose proof (effort_ok _ _ _ _ _ _ _ _ Hr Hk He). lia.
Qed.

(** ** C49: constant time, whatever the state of memory *)
Theorem C49_constant ρ st c o ρ' st' :
  constant_time c = true → exec c ρ st = Ok (o, ρ') st' → accesses st' ≤ accesses st + 20.
Proof.
  intros Hc He. pose proof (any_constant (C:=C) c ρ Hc st) as H. revert He. rewrite /exec /Exec.exec /try_catch.
  destruct (exec_call c ρ st) as [a st1|e st1|f]; [|by intros [= <- <- <-]|done]. by intros [= -> ->].
Qed.
(** the move constructor with an equal allocator *)
Theorem C49_move_alloc σ ρ st x y :
  reachable σ ρ st → pre C σ (NewMoveAlloc x y (alloc_of σ y)) →
  ∃ o ρ' st', exec (NewMoveAlloc x y (alloc_of σ y)) ρ st = Ok (o, ρ') st' ∧ accesses st' ≤ accesses st + 20.
Proof. intros Hr Hp. eapply effort_call; [done..| |reflexivity]. apply effort_NewMoveAlloc_same, Hp. Qed.

(** ** C50: logarithmic time *)
Theorem C50_logarithmic σ ρ st c n :
  reachable σ ρ st → pre C σ c → log_size σ c = Some n →
  ∃ o ρ' st', exec c ρ st = Ok (o, ρ') st' ∧ accesses st' ≤ accesses st + 150 * log_time C n.
Proof. intros Hr Hp Hn. eapply effort_call; [done..|by apply (effort_log _ _ _ n)|reflexivity]. Qed.

(** ** C51: logarithmic time for each element *)
Theorem C51_per_element σ ρ st c m n :
  reachable σ ρ st → pre C σ c → per_element σ c = Some (m, n) →
  ∃ o ρ' st', exec c ρ st = Ok (o, ρ') st' ∧ accesses st' ≤ accesses st + 200 * ((m + 1) * log_time C n).
Proof.
  intros Hr Hp Hn. eapply (effort_call _ _ _ _ _ (200 * ((m + 1) * log_time C n))); [done..| |reflexivity].
  assert (∀ r xs, rng_values σ r = Some xs → rng_length σ r = length xs) as Hlen by (intros r xs Hx; by rewrite /rng_length Hx).
  assert (∀ w1 w2 x y p q, at_it σ w1 x p → at_it σ w2 y q → between σ w1 w2 = q - p) as Hbet
    by (intros w1 w2 x y p q H1 H2; by rewrite /between H1 H2).
  destruct c; try done; cbn [per_element] in Hn; injection Hn as <- <-.
  - by apply effort_NewCount.
  - destruct Hp as (Hx & (xs & Hv & Hfit) & Hth). rewrite (Hlen _ _ Hv). apply effort_NewRange; [by split_and!; [|exists xs|]|done].
  - destruct Hp as (Hx & Hy & Hth). by eapply effort_new_copy.
  - destruct Hp as (Hx & Hy & Hth). by eapply effort_new_copy.
  - destruct Hp as (Hx & Hy & Hth). by eapply effort_new_copy.
  - by apply effort_AssignCopy.
  - by apply effort_AssignMove.
  - by apply effort_AssignCount.
  - pose proof Hp as (Hx & (xs & Hv & Hfit) & Hth). rewrite (Hlen _ _ Hv). by apply effort_AssignRange.
  - by apply effort_InsertCount.
  - pose proof Hp as (p & xs & Hw & Hv & Hout & Hfit). rewrite (Hlen _ _ Hv). by apply effort_InsertRange.
  - destruct Hp as (p & q & H1 & H2 & Hpq). rewrite (Hbet _ _ _ _ _ _ H1 H2). by apply effort_EraseRange.
  - by apply effort_Resize.
  - by apply effort_SpliceAll.
  - pose proof Hp as (p & q1 & q2 & Hw & H1 & H2 & Hq). rewrite (Hbet _ _ _ _ _ _ H1 H2). by apply effort_SpliceRange.
Qed.

(** ** C52: linear time *)
Theorem C52_linear σ ρ st c n :
  reachable σ ρ st → pre C σ c → linear_size C σ c = Some n →
  ∃ o ρ' st', exec c ρ st = Ok (o, ρ') st' ∧
    accesses st' ≤ accesses st + 20 * (segment_max (C:=C) + base_max (C:=C)) * (n + 1).
Proof.
  intros Hr Hp Hn. eapply (effort_call _ _ _ _ _ (sweep (C:=C) n + 16)); [done..| |].
  - destruct c; try done; cbn [linear_size] in Hn.
    + injection Hn as <-. by apply effort_Destroy.
    + destruct (takes_over C _ _) eqn:Hto; [|done]. injection Hn as <-. by apply effort_AssignMove_over.
    + injection Hn as <-. by apply effort_Clear.
  - pose proof (base_3 (C:=C)). rewrite /sweep /K /un. nia.
Qed.

(** ** C54: linear time, and logarithmic for each element inserted or erased *)
Theorem C54_linear_plus σ ρ st c k m n :
  reachable σ ρ st → pre C σ c → linear_plus C σ c = Some (k, m, n) →
  ∃ o ρ' st', exec c ρ st = Ok (o, ρ') st' ∧ accesses st' ≤ accesses st + 50 * k + 200 * ((m + 1) * log_time C n).
Proof.
  intros Hr Hp Hn. rewrite -(Nat.add_assoc (accesses st)).
  eapply (effort_call _ _ _ _ _ (50 * k + 200 * ((m + 1) * log_time C n))); [done..| |reflexivity].
  assert (∀ r xs, rng_values σ r = Some xs → rng_length σ r = length xs) as Hlen by (intros r xs Hx; by rewrite /rng_length Hx).
  destruct c; try done; cbn [linear_plus] in Hn.
  all: try (injection Hn as <- <- <-; destruct Hp as [Hx Hy]; eapply effort_compare; [exact Hx|exact Hy|by auto 10]).
  - destruct (_ && _) eqn:Hk; [done|]. injection Hn as <- <- <-. by apply effort_assign_copy.
  - destruct (takes_over C _ _) eqn:Hk; [done|]. injection Hn as <- <- <-. by apply effort_assign_move.
  - injection Hn as <- <- <-. by apply effort_assign_count.
  - injection Hn as <- <- <-. pose proof Hp as (Hx & (xs & Hv & Hfit) & Hth). rewrite (Hlen _ _ Hv). by apply effort_assign_range.
  - pose proof Hp as (_ & [v Hv] & _). rewrite Hv in Hn. injection Hn as <- <- <-. by eapply effort_Remove.
  - injection Hn as <- <- <-. by apply effort_RemoveIf.
  - injection Hn as <- <- <-. by apply effort_Unique.
  - injection Hn as <- <- <-. by apply effort_Reverse.
Qed.
End props.
