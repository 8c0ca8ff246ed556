(** * PropsShape: C63, what tuning parameters, addresses and history cannot change *)
From Verif Require Export PropsHistory.
From stdpp Require Import options.
#[local] Set Default Proof Using "Type*".

Section shape.
Context {T : Type}.
Implicit Types C : cfg T.
Implicit Types σ : sst T.

(** the two instantiations may differ in the sizes of segments and nodes (targets,
    sizeof), the width of the integers, the triviality of T, and in where the
    allocators place blocks and the caller places seq objects *)
Record same_behaviour C1 C2 : Prop := {
  same_pocca : c_pocca C1 = c_pocca C2;
  same_pocma : c_pocma C1 = c_pocma C2;
  same_soccc : c_soccc C1 = c_soccc C2;
  same_residue : c_residue C1 = c_residue C2 }.
Definition calm C : Prop := (∀ e, ¬ raisable C e) ∧ ¬ pred_fails C.
(** calls that do not ask for the shape of the tree: all but height() and the moves
    from segment to segment *)
Definition plain (c : cmd T) : Prop :=
  match c with Height _ | SegAfter _ _ | SegAfterCount _ _ _ _ | SegBefore _ _ => False | _ => True end.
Fixpoint plain_client (p : client (T:=T)) : Prop :=
  match p with Stop => True | Call c k => plain c ∧ ∀ o, plain_client (k o) end.

Lemma same_moved C1 C2 p k (ys : list T) : same_behaviour C1 C2 → moved C1 p k ys = moved C2 p k ys.
Proof. intros H. by rewrite /moved (same_residue _ _ H). Qed.
Lemma same_arg_used C1 C2 σ s : same_behaviour C1 C2 → arg_used C1 σ s = arg_used C2 σ s.
Proof. intros H. destruct s; try done. simpl. destruct (iters σ !! w) as [[]|]; [|done]. by rewrite (same_moved _ _ _ _ _ H). Qed.
Lemma same_rng_used C1 C2 σ r k : same_behaviour C1 C2 → rng_used C1 σ r k = rng_used C2 σ r k.
Proof. intros H. destruct r as [|[] ??]; try done. simpl. destruct (iters σ !! w1) as [[]|]; [|done]. by rewrite (same_moved _ _ _ _ _ H). Qed.
Lemma same_takes_over C1 C2 a b : same_behaviour C1 C2 → takes_over C1 a b = takes_over C2 a b.
Proof. intros H. by rewrite /takes_over (same_pocma _ _ H). Qed.

Lemma step_same C1 C2 σ c o1 o2 σ1 σ2 :
  same_behaviour C1 C2 → calm C1 → calm C2 → plain c →
  step C1 σ c o1 σ1 → step C2 σ c o2 σ2 → o1 = o2 ∧ σ1 = σ2.
Proof.
  intros HS [N1 P1] [N2 P2] Hc H1 H2.
  destruct c; try done; cbn [step] in H1, H2; unfold insert_step, returns, throws, balks in *; cbv zeta in *;
    rewrite ?(same_takes_over _ _ _ _ HS) ?(same_pocca _ _ HS) ?(same_pocma _ _ HS) ?(same_soccc _ _ HS) in H1;
    repeat match goal with
      | H : _ ∧ _ |- _ => destruct H
      | H : _ ∨ _ |- _ => destruct H
      | H : ∃ _, _ |- _ => destruct H
      | H1 : at_it ?σ ?w ?x ?p, H2 : at_it ?σ ?w ?y ?q |- _ =>
          destruct (at_it_fun _ _ _ _ _ _ H1 H2); clear H2
      | H : context [if ?b then _ else _] |- _ => destruct b eqn:?
      | H : context [match ?b with Some _ => _ | None => _ end] |- _ => destruct b eqn:?
      end; subst; try (exfalso; eapply N1; eassumption); try (exfalso; eapply N2; eassumption); try done; simplify_eq; try done;
    rewrite ?(same_moved _ _ _ _ _ HS) ?(same_arg_used _ _ _ _ HS) ?(same_rng_used _ _ _ _ _ HS) ?(same_soccc _ _ HS); done.
Qed.

(** One call, made in two places: under different instantiations, after different
    histories, with different trees, but with the same elements and iterator
    positions.  The answer is the same, and so are elements and positions after it. *)
Theorem C63_call C1 C2 {OK1 : cfg_ok C1} {OK2 : cfg_ok C2} σ ρ1 st1 ρ2 st2 c :
  same_behaviour C1 C2 → calm C1 → calm C2 → plain c →
  reachable C1 σ ρ1 st1 → reachable C2 σ ρ2 st2 → pre C1 σ c → pre C2 σ c →
  ∃ o σ' ρ1' st1' ρ2' st2',
    exec (C:=C1) c ρ1 st1 = Ok (o, ρ1') st1' ∧ exec (C:=C2) c ρ2 st2 = Ok (o, ρ2') st2' ∧
    reachable C1 σ' ρ1' st1' ∧ reachable C2 σ' ρ2' st2' ∧
    (∀ x, container_at st1' ρ1' x = container_at st2' ρ2' x).
Proof.
  intros HS N1 N2 Hc Hr1 Hr2 Hp1 Hp2.
  destruct (call_ok (C:=C1) _ _ _ _ Hr1 Hp1) as (o & ρ1' & st1' & σ' & He1 & Hs1 & Hr1').
  destruct (call_ok (C:=C2) _ _ _ _ Hr2 Hp2) as (o' & ρ2' & st2' & σ'' & He2 & Hs2 & Hr2').
  destruct (step_same _ _ _ _ _ _ _ _ HS N1 N2 Hc Hs1 Hs2) as [<- <-].
  exists o, σ', ρ1', st1', ρ2', st2'. split_and!; [done..|].
  intros x. by rewrite -(reachable_conts (C:=C1) _ _ _ _ Hr1') -(reachable_conts (C:=C2) _ _ _ _ Hr2').
Qed.
(** A whole program gets the same answers, whatever the sizes of segments and nodes
    and the addresses of blocks are; its containers end up with the same elements, and
    its iterators at the same positions. *)
Theorem C63_program C1 C2 {OK1 : cfg_ok C1} {OK2 : cfg_ok C2} (p : client (T:=T)) n1 k1 n2 k2 :
  same_behaviour C1 C2 → calm C1 → calm C2 → plain_client p →
  safe C1 (SSt ∅ ∅) p → safe C2 (SSt ∅ ∅) p →
  ∃ tr ρ1 st1 ρ2 st2 σ,
    run (C:=C1) p no_env (State ∅ n1 k1) = Ok (tr, ρ1) st1 ∧ run (C:=C2) p no_env (State ∅ n2 k2) = Ok (tr, ρ2) st2 ∧
    (∀ x, container_at st1 ρ1 x = conts σ !! x ∧ container_at st2 ρ2 x = conts σ !! x) ∧
    (∀ w x q, at_it σ w x q → iterator_at C1 st1 ρ1 w x q ∧ iterator_at C2 st2 ρ2 w x q).
Proof.
  intros HS N1 N2 Hpl Hs1 Hs2.
  assert (∀ σ ρ1 st1 ρ2 st2, reachable C1 σ ρ1 st1 → reachable C2 σ ρ2 st2 → safe C1 σ p → safe C2 σ p → 
    ∃ tr ρ1' st1' ρ2' st2' σ', run (C:=C1) p ρ1 st1 = Ok (tr, ρ1') st1' ∧ run (C:=C2) p ρ2 st2 = Ok (tr, ρ2') st2' ∧
      reachable C1 σ' ρ1' st1' ∧ reachable C2 σ' ρ2' st2') as H.
  { clear Hs1 Hs2. induction p as [|c kk IH]; intros σ ρ1 st1 ρ2 st2 Hr1 Hr2 Hs1 Hs2.
    - by exists [], ρ1, st1, ρ2, st2, σ.
    - destruct Hs1 as [Hp1 Hk1], Hs2 as [Hp2 Hk2], Hpl as [Hc Hpl].
      destruct (call_ok (C:=C1) _ _ _ _ Hr1 Hp1) as (o & ρ1' & st1' & σ' & He1 & Ht1 & Hr1').
      destruct (call_ok (C:=C2) _ _ _ _ Hr2 Hp2) as (o' & ρ2' & st2' & σ'' & He2 & Ht2 & Hr2').
      destruct (step_same _ _ _ _ _ _ _ _ HS N1 N2 Hc Ht1 Ht2) as [<- <-].
      destruct (IH o (Hpl o) σ' ρ1' st1' ρ2' st2' Hr1' Hr2' (Hk1 _ _ Ht1) (Hk2 _ _ Ht2))
        as (tr & ρ3 & st3 & ρ4 & st4 & σ3 & Hrun1 & Hrun2 & Hr3 & Hr4).
      exists ((c, o) :: tr), ρ3, st3, ρ4, st4, σ3. split_and!; [..|done|done].
      + simpl. unfold mbind, M_bind. rewrite He1 /=. by rewrite Hrun1.
      + simpl. unfold mbind, M_bind. rewrite He2 /=. by rewrite Hrun2. }
  destruct (H (SSt ∅ ∅) no_env (State ∅ n1 k1) no_env (State ∅ n2 k2)) as (tr & ρ1 & st1 & ρ2 & st2 & σ & Hr1 & Hr2 & R1 & R2);
    [constructor..|done|done|].
  exists tr, ρ1, st1, ρ2, st2, σ. split_and!; [done|done| |].
  - intros x. split; symmetry; [by eapply (reachable_conts (C:=C1))|by eapply (reachable_conts (C:=C2))].
  - intros w x q Hw. split; [by eapply (canonical (C:=C1))|by eapply (canonical (C:=C2))].
Qed.
End shape.
