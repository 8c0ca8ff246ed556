(** * C66: clients that take turns *)
From Verif Require Export PropsShape View.
From stdpp Require Import options.
#[local] Set Default Proof Using "Type*".

(** ** Specification *)
Section spec.
Context {T : Type} {C : cfg T}.
Implicit Types P : nat → client (T:=T).
(** The programs take turns: the schedule [s] says whose call is next.  A program
    that has come to its end lets its turn pass.  The transcript records who called. *)
Fixpoint interleaved (s : list nat) P (ρ : env) : M T (list (nat * (cmd T * out T)) * (nat → client (T:=T)) * env) :=
  match s with
  | [] => mret ([], P, ρ)
  | i :: s =>
    match P i with
    | Stop => interleaved s P ρ
    | Call c k =>
      r ← exec (C:=C) c ρ; z ← interleaved s (λ j, if j =? i then k r.1 else P j) r.2;
      mret ((i, (c, r.1)) :: z.1.1, z.1.2, z.2)
    end
  end.
(** the calls of program [i] and its answers *)
Definition calls_of (i : nat) (tr : list (nat * (cmd T * out T))) : list (cmd T * out T) :=
  (filter (λ e, e.1 = i) tr).*2.
(** program [p], given the answers in [tr], makes these calls and goes on with [p'] *)
Inductive proceeds : client (T:=T) → list (cmd T * out T) → client (T:=T) → Prop :=
  | proceeds_nil p : proceeds p [] p
  | proceeds_cons c k o tr p' : proceeds (k o) tr p' → proceeds (Call c k) ((c, o) :: tr) p'.
(** Program [i] works with the containers in [D i] and the iterator variables in
    [V i]: every call names only containers in [D i], stores iterators only in
    variables of [V i] that no other program works with, and modifies only containers
    that no other program works with.  (Containers that several programs only read
    may be shared, and so may variables that nobody assigns.) *)
Fixpoint confined (D V : nat → nat → bool) (i : nat) (σ : sst T) (p : client (T:=T)) : Prop :=
  match p with
  | Stop => True
  | Call c k =>
    (∀ x, x ∈ names c → D i x = true) ∧
    (∀ w, assigns c w → V i w = true ∧ ∀ j, j ≠ i → V j w = false) ∧
    (∀ y, modifies σ c y → ∀ j, j ≠ i → D j y = false) ∧
    ∀ o σ', step C σ c o σ' → confined D V i σ' (k o)
  end.
End spec.

Section props.
Context {T : Type} {C : cfg T} {OK : cfg_ok C}.
Implicit Types σ : sst T.
Implicit Types ρ : env.
Implicit Types st : state T.
Implicit Types c : cmd T.
Implicit Types P : nat → client (T:=T).
Implicit Types D V : nat → nat → bool.
Notation reachable := (reachable C).
Notation iterator_at := (iterator_at C).
Notation interleaved := (interleaved (C:=C)).
Notation confined := (confined (C:=C)).

Lemma alters_uses c w : w ∈ alters c → w ∈ uses c.
Proof.
  destruct c; cbn [alters uses]; try (intros ?%elem_of_nil; done); try (by destruct s; cbn); try (by destruct r as [|[] ??]; cbn; set_solver).
  all: try (destruct s; cbn; set_solver). all: try (destruct r as [|[] ??]; cbn; set_solver).
Qed.
Lemma view_modifies (D V : nat → bool) σ c y : pre C (view_of D V σ) c → modifies σ c y → modifies (view_of D V σ) c y.
Proof.
  intros Hp [H|(w & p & Hw & Hi)]; [by left|right]. exists w, p. split; [done|].
  destruct (pre_uses _ _ w Hp) as (x & q & Hx); [by apply alters_uses|].
  pose proof Hx as (Hx'&_)%view_at. by destruct (at_it_fun _ _ _ _ _ _ Hi Hx') as [-> ->].
Qed.
(** one call of one of the programs *)
Lemma confined_call D V i σ ρ st c k :
  reachable σ ρ st → safe C (view_of (D i) (V i) σ) (Call c k) → confined D V i (view_of (D i) (V i) σ) (Call c k) →
  ∃ o ρ' st' σ', exec (C:=C) c ρ st = Ok (o, ρ') st' ∧ reachable σ' ρ' st' ∧
    step C (view_of (D i) (V i) σ) c o (view_of (D i) (V i) σ') ∧
    safe C (view_of (D i) (V i) σ') (k o) ∧ confined D V i (view_of (D i) (V i) σ') (k o) ∧
    ∀ j, j ≠ i → view_of (D j) (V j) σ' = view_of (D j) (V j) σ.
Proof.
  intros Hr [Hp Hs] (Hn & Ha & Hm & Hc).
  destruct (call_ok _ _ _ _ Hr (view_pre _ _ _ _ Hn Hp)) as (o & ρ' & st' & σ' & He & Hst & Hr').
  assert (step C (view_of (D i) (V i) σ) c o (view_of (D i) (V i) σ')) as Hv.
  { apply view_step; [done|intros; by apply Ha|done|done]. }
  exists o, ρ', st', σ'. split_and!; [done|done|done|by apply Hs|by apply Hc|].
  intros j Hj. eapply view_other; [| |done].
  - intros y Hy. apply (Hm y); [|done]. by apply view_modifies.
  - intros w Hw. by apply (Ha w Hw).
Qed.

(** Whatever the schedule is, nothing goes wrong, and each program has the history of
    one that works alone with its containers: its calls and answers are those of plain
    lists, starting from its own containers and iterators, and in the end these are as
    its own history says. *)
Theorem C66_interleaved D V P σ ρ st s :
  reachable σ ρ st →
  (∀ i, safe C (view_of (D i) (V i) σ) (P i)) → (∀ i, confined D V i (view_of (D i) (V i) σ) (P i)) →
  ∃ tr P' ρ' st', interleaved s P ρ st = Ok (tr, P', ρ') st' ∧
    ∀ i, ∃ τ, proceeds (P i) (calls_of i tr) (P' i) ∧
      history C (view_of (D i) (V i) σ) (calls_of i tr) τ ∧
      (∀ x, D i x = true → container_at st' ρ' x = conts τ !! x) ∧
      (∀ w x q, at_it τ w x q → iterator_at st' ρ' w x q).
Proof.
  intros Hr Hs Hc.
  assert (∃ tr P' ρ' st' σ', interleaved s P ρ st = Ok (tr, P', ρ') st' ∧ reachable σ' ρ' st' ∧
    ∀ i, proceeds (P i) (calls_of i tr) (P' i) ∧ history C (view_of (D i) (V i) σ) (calls_of i tr) (view_of (D i) (V i) σ'))
    as (tr & P' & ρ' & st' & σ' & Hi & Hr' & H).
  { revert P σ ρ st Hr Hs Hc. induction s as [|i s IH]; intros P σ ρ st Hr Hs Hc; simpl.
    { exists [], P, ρ, st, σ. split_and!; [done..|]. intros i. split; constructor. }
    destruct (P i) as [|c k] eqn:Ei; [by apply IH|].
    pose proof (Hs i) as Hsi. pose proof (Hc i) as Hci. rewrite Ei in Hsi, Hci.
    destruct (confined_call D V i σ ρ st c k Hr Hsi Hci) as (o & ρ1 & st1 & σ1 & He & Hr1 & Hst & Hs1 & Hc1 & Hv).
    destruct (IH (λ j, if j =? i then k o else P j) σ1 ρ1 st1 Hr1) as (tr & P' & ρ2 & st2 & σ2 & Hi & Hr2 & H).
    { intros j. destruct (Nat.eqb_spec j i) as [->|Hj]; [done|]. by rewrite Hv. }
    { intros j. destruct (Nat.eqb_spec j i) as [->|Hj]; [done|]. by rewrite Hv. }
    exists ((i, (c, o)) :: tr), P', ρ2, st2, σ2. split_and!; [|done|].
    { unfold mbind, M_bind. rewrite He /=. by rewrite Hi. }
    intros j. destruct (H j) as [H1 H2]. rewrite /calls_of filter_cons /=. case_decide as Hij.
    - subst j. rewrite Nat.eqb_refl in H1. rewrite Ei. csimpl. split; [by constructor|by econstructor].
    - rewrite (proj2 (Nat.eqb_neq j i)) in H1; [|by intros ->]. rewrite Hv in H2; [done|]. by intros ->. }
  exists tr, P', ρ', st'. split; [done|]. intros i. destruct (H i) as [H1 H2]. exists (view_of (D i) (V i) σ').
  split_and!; [done|done| |].
  - intros x Hx. by rewrite view_conts Hx (reachable_conts _ _ _ _ Hr').
  - intros w x q (Hw&_)%view_at. by eapply canonical.
Qed.

Lemma history_same σ p tr1 p1 σ1 tr2 σ2 :
  calm C → plain_client p → proceeds p tr1 p1 → history C σ tr1 σ1 → proceeds p tr2 Stop → history C σ tr2 σ2 →
  tr1 `prefix_of` tr2 ∧ (p1 = Stop → tr1 = tr2 ∧ σ1 = σ2).
Proof.
  intros Hcalm. revert σ tr1 tr2. induction p as [|c k IH]; intros σ tr1 tr2 Hpl H1 Hh1 H2 Hh2.
  - inversion H1; inversion H2; subst. inversion Hh1; inversion Hh2; subst. done.
  - inversion H2; subst. inversion Hh2; subst. destruct Hpl as [Hc Hpl]. inversion H1; subst.
    { split; [apply prefix_nil|done]. }
    inversion Hh1; subst.
    match goal with A : step C σ c ?o1 _, B : step C σ c ?o2 _ |- _ =>
      destruct (step_same C C σ c o1 o2 _ _ ltac:(done) Hcalm Hcalm Hc A B) as [-> ->] end.
    match goal with A : proceeds (k ?o) ?t Stop, B : proceeds (k ?o) ?t2 p1 |- _ =>
      destruct (IH o _ t2 t (Hpl o) ltac:(eassumption) ltac:(eassumption) ltac:(eassumption) ltac:(eassumption)) as [Hpre Heq] end.
    split; [by apply prefix_cons|]. intros Hp. destruct (Heq Hp) as [-> ->]. done.
Qed.
(** If nothing fails, a program cannot even tell that others take turns with it: it gets
    the answers it would get running alone, and leaves its containers as it would
    leave them running alone. *)
Theorem C66_as_alone D V P σ ρ st s i :
  reachable σ ρ st →
  (∀ i, safe C (view_of (D i) (V i) σ) (P i)) → (∀ i, confined D V i (view_of (D i) (V i) σ) (P i)) →
  calm C → plain_client (P i) →
  ∃ tr P' ρ' st' tr1 ρ1 st1,
    interleaved s P ρ st = Ok (tr, P', ρ') st' ∧ run (C:=C) (P i) ρ st = Ok (tr1, ρ1) st1 ∧
    calls_of i tr `prefix_of` tr1 ∧
    (P' i = Stop → calls_of i tr = tr1 ∧ ∀ x, D i x = true → container_at st' ρ' x = container_at st1 ρ1 x).
Proof.
  intros Hr Hs Hc Hcalm Hpl.
  destruct (C66_interleaved D V P σ ρ st s Hr Hs Hc) as (tr & P' & ρ' & st' & Hi & H).
  destruct (H i) as (τ & H1 & H2 & H3 & _).
  assert (∀ p σ ρ st, reachable σ ρ st → safe C (view_of (D i) (V i) σ) p → confined D V i (view_of (D i) (V i) σ) p →
    ∃ tr ρ' st' σ', run (C:=C) p ρ st = Ok (tr, ρ') st' ∧ reachable σ' ρ' st' ∧ proceeds p tr Stop ∧
      history C (view_of (D i) (V i) σ) tr (view_of (D i) (V i) σ')) as Hsolo.
  { clear -OK. intros p. induction p as [|c k IH]; intros σ ρ st Hr Hs Hc.
    - exists [], ρ, st, σ. split_and!; [done|done|constructor..].
    - destruct (confined_call D V i σ ρ st c k Hr Hs Hc) as (o & ρ1 & st1 & σ1 & He & Hr1 & Hst & Hs1 & Hc1 & _).
      destruct (IH o σ1 ρ1 st1 Hr1 Hs1 Hc1) as (tr & ρ2 & st2 & σ2 & Hrun & Hr2 & Hp & Hh).
      exists ((c, o) :: tr), ρ2, st2, σ2. split_and!; [|done|by constructor|by econstructor].
      simpl. unfold mbind, M_bind. rewrite He /=. by rewrite Hrun. }
  destruct (Hsolo (P i) σ ρ st Hr (Hs i) (Hc i)) as (tr1 & ρ1 & st1 & σ1 & Hrun & Hr1 & Hp1 & Hh1).
  exists tr, P', ρ', st', tr1, ρ1, st1. split; [done|]. split; [done|].
  destruct (history_same _ _ _ _ _ _ _ Hcalm Hpl H1 H2 Hp1 Hh1) as [Hpre Heq]. split; [done|].
  intros Hstop. destruct (Heq Hstop) as [-> ->]. split; [done|]. intros x Hx. rewrite H3 //.
  by rewrite view_conts Hx (reachable_conts _ _ _ _ Hr1).
Qed.
End props.
