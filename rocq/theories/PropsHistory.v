(** * C01, C18: any history behaves like plain lists; no undefined behaviour *)
From Verif Require Export Setup.
From stdpp Require Import options.
Set Default Proof Using "Type*".

Section props.
Context {T : Type} {C : cfg T} {OK : cfg_ok C}.
Implicit Types σ : sst T.
Implicit Types ρ : env.
Implicit Types st : state T.
Implicit Types c : cmd T.
Notation reachable := (reachable C).
Notation reached := (reached C).
Notation iterator_at := (iterator_at C).

(** ** C01.  Any client program whose calls respect their preconditions runs to
    its end; the answers it gets are those that plain lists give, the containers
    in memory hold the lists, and every valid iterator is [nth] of its index. *)
Theorem C01_history (p : client) n k :
  safe C (SSt ∅ ∅) p →
  ∃ tr ρ st σ,
    run (C:=C) p no_env (State ∅ n k) = Ok (tr, ρ) st ∧
    history C (SSt ∅ ∅) tr σ ∧
    (∀ x, container_at st ρ x = conts σ !! x) ∧
    (∀ w x q, at_it σ w x q → iterator_at st ρ w x q).
Proof.
  intros Hs.
  assert (∀ σ ρ st, reachable σ ρ st → safe C σ p →
    ∃ tr ρ' st' σ', run p ρ st = Ok (tr, ρ') st' ∧ history C σ tr σ' ∧ reachable σ' ρ' st') as H.
  { clear Hs. induction p as [|c kk IH]; intros σ ρ st Hr Hs.
    - exists [], ρ, st, σ. split_and!; [done|constructor|done].
    - destruct Hs as [Hp Hk]. destruct (call_ok _ _ _ _ Hr Hp) as (o & ρ1 & st1 & σ1 & He & Hst & Hr1).
      destruct (IH o σ1 ρ1 st1 Hr1 (Hk _ _ Hst)) as (tr & ρ2 & st2 & σ2 & Hrun & Hh & Hr2).
      exists ((c, o) :: tr), ρ2, st2, σ2. split_and!; [|by econstructor|done].
      simpl. unfold mbind, M_bind. rewrite He /=. by rewrite Hrun. }
  destruct (H (SSt ∅ ∅) no_env (State ∅ n k)) as (tr & ρ & st & σ & Hrun & Hh & Hr); [constructor|done|].
  exists tr, ρ, st, σ. split_and!; [done|done| |].
  - intros x. by rewrite (reachable_conts _ _ _ _ Hr).
  - intros w x q Hw. by eapply canonical.
Qed.

(** If no allocation, no construction and no predicate or comparison fails, no call ever throws, except [at]
    with an index out of range. *)
Theorem C01_no_failure σ tr σ' c e :
  (∀ e, ¬ raisable C e) → ¬ pred_fails C → history C σ tr σ' → (c, OExn e) ∈ tr → ∃ x n, c = At x n ∧ e = EOutOfRange.
Proof.
  intros Hn Hnp Hh Hin. induction Hh as [|σ c1 o σ1 tr σ2 Hs Hh IH]; [by apply elem_of_nil in Hin|].
  apply elem_of_cons in Hin as [[= <- <-]|Hin]; [|by apply IH]. clear IH Hh.
  destruct c; cbn [step] in Hs; unfold insert_step, returns, throws, balks in Hs; cbv zeta in Hs;
    repeat match goal with
      | H : _ ∧ _ |- _ => destruct H
      | H : _ ∨ _ |- _ => destruct H
      | H : ∃ _, _ |- _ => destruct H
      | H : context [if ?b then _ else _] |- _ => destruct b
      | H : context [match ?b with Some _ => _ | None => _ end] |- _ => destruct b
      end; simplify_eq; try done; try (by exfalso; eapply Hn).
  by eexists _, _.
Qed.

(** Plain lists determine the answer and the next state of every call that does
    not throw (the height and the extent of segments aside). *)
Theorem C01_deterministic σ c o1 o2 σ1 σ2 :
  match c with Height _ | SegAfter _ _ | SegAfterCount _ _ _ _ | SegBefore _ _ => False | _ => True end →
  (∀ e, o1 ≠ OExn e) → (∀ e, o2 ≠ OExn e) →
  step C σ c o1 σ1 → step C σ c o2 σ2 → o1 = o2 ∧ σ1 = σ2.
Proof.
  intros Hc N1 N2 H1 H2.
  destruct c; try done; cbn [step] in H1, H2; unfold insert_step, returns, throws, balks in *; cbv zeta in *;
    repeat match goal with
      | H : _ ∧ _ |- _ => destruct H
      | H : _ ∨ _ |- _ => destruct H
      | H : ∃ _, _ |- _ => destruct H
      | H1 : at_it ?σ ?w ?x ?p, H2 : at_it ?σ ?w ?y ?q |- _ =>
          destruct (at_it_fun _ _ _ _ _ _ H1 H2); clear H2
      | H : context [if ?b then _ else _] |- _ => destruct b eqn:?
      | H : context [match ?b with Some _ => _ | None => _ end] |- _ => destruct b eqn:?
      end; subst; try (exfalso; eapply N1; reflexivity); try (exfalso; eapply N2; reflexivity); simplify_eq; try done.
Qed.

(** ** C18.  No call within its precondition has undefined behaviour, and every
    call terminates: null, dangling or mistyped pointers, array bounds,
    uninitialised memory, lifetimes, deallocation and loops are all checked by
    the model, which reports [Fault]. *)
Theorem C18_no_fault σ ρ st c f : reachable σ ρ st → pre C σ c → exec c ρ st ≠ Fault f.
Proof. intros Hr Hp He. destruct (call_ok _ _ _ _ Hr Hp) as (o & ρ1 & st1 & σ1 & He1 & _). by rewrite He in He1. Qed.
Theorem C18_run_no_fault (p : client) n k f : safe C (SSt ∅ ∅) p → run (C:=C) p no_env (State ∅ n k) ≠ Fault f.
Proof. intros Hs He. destruct (C01_history p n k Hs) as (tr & ρ & st & σ & Hr & _). by rewrite He in Hr. Qed.
End props.
