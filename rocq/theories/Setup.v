(** * Setup: from what a client sees to the abstract state and back.
    Proof infrastructure for the Props*.v files. *)
From Verif Require Export Frame.
From stdpp Require Import options.
Set Default Proof Using "Type*".

Section setup.
Context {T : Type} {C : cfg T} {OK : cfg_ok C}.
Implicit Types σ : sst T.
Implicit Types ρ : env.
Implicit Types st : state T.
Implicit Types c : cmd T.
Notation reachable := (reachable C).
Notation reached := (reached C).
Notation iterator_at := (iterator_at C).
Notation answers := (answers C).

Lemma see σ ρ st x xs a : reachable σ ρ st → container_at st ρ x = Some (xs, a) → conts σ !! x = Some (xs, a).
Proof. intros Hr Hc. by rewrite (reachable_conts _ _ _ _ Hr). Qed.
Lemma see_contents σ x xs a : conts σ !! x = Some (xs, a) → contents σ x = xs.
Proof. intros H. by rewrite /contents H. Qed.
Lemma see_alloc σ x xs a : conts σ !! x = Some (xs, a) → alloc_of σ x = a.
Proof. intros H. by rewrite /alloc_of H. Qed.
Lemma see_live σ x xs a : conts σ !! x = Some (xs, a) → live σ x.
Proof. intros H. by rewrite /live H. Qed.
Lemma reached_point σ ρ st w x p : reachable σ ρ st → iterator_at st ρ w x p →
  reachable (point w x p σ) ρ st ∧ at_it (point w x p σ) w x p.
Proof. intros Hr Hw. split; [by apply pointing|]. by rewrite /at_it /= lookup_insert. Qed.
Lemma at_point σ w x p w' y q : w ≠ w' → at_it σ w' y q → at_it (point w x p σ) w' y q.
Proof. intros Hw H. by rewrite /at_it /= lookup_insert_ne. Qed.
(** the same iterator cannot be at two places of one container *)
Lemma iterator_at_fun ρ st w x p q : reached ρ st → iterator_at st ρ w x p → iterator_at st ρ w x q → p = q.
Proof.
  intros Hr H1 H2. destruct (iterator_elim _ _ _ _ _ Hr H1) as (? & ? & ? & it & _ & _ & Hi & _ & <- & _).
  destruct (iterator_elim _ _ _ _ _ Hr H2) as (? & ? & ? & it' & _ & _ & Hi' & _ & <- & _). congruence.
Qed.
(** two iterators into the same container *)
Lemma reached_point2 σ ρ st w1 w2 x p q :
  reachable σ ρ st → iterator_at st ρ w1 x p → iterator_at st ρ w2 x q →
  ∃ σ', reachable σ' ρ st ∧ at_it σ' w1 x p ∧ at_it σ' w2 x q ∧ conts σ' = conts σ.
Proof.
  intros Hr H1 H2. exists (point w1 x p (point w2 x q σ)). split_and!; [..|done].
  - apply pointing; [|done]. by apply pointing.
  - by rewrite /at_it /= lookup_insert.
  - destruct (decide (w1 = w2)) as [->|].
    + assert (p = q) as -> by (eapply iterator_at_fun; [by exists σ|done..]). by rewrite /at_it /= lookup_insert.
    + apply at_point; [done|]. by rewrite /at_it /= lookup_insert.
Qed.

(** a read-only call *)
Lemma const_answers σ ρ st c u ρ' st' :
  is_const c = true → exec c ρ st = Ok (u, ρ') st' → ρ' = ρ → answers st ρ c u.
Proof. intros Hc He ->. exists st'. split; [done|]. destruct (exec_same c ρ st u ρ st') as (? & ? & ? & _); done. Qed.
(** calls that bind no variable *)
Definition binds_nothing c : bool :=
  match c with
  | GetAlloc _ | GetSize _ | IsEmpty _ | Height _ | At _ _ | Index _ _ | Front _ | Back _ | IndexOf _ _
  | Deref _ | DerefAt _ _ | RDeref _ | Write _ _ | Diff _ _ | ItEq _ _ | ItLt _ _ | ItLe _ _ | ItNe _ _ | ItGt _ _ | ItGe _ _
  | Clear _ | PushBack _ _ | PushFront _ _ | PopBack _ | PopFront _ | Resize _ _ _ | Swap _ _
  | SpliceAll _ _ _ | SpliceOne _ _ _ _ | SpliceRange _ _ _ _ _ | MergeIn _ _ _ | Remove _ _ _ | RemoveIf _ _
  | Unique _ _ | Reverse _ | Sort _ _ | CmpEq _ _ _ | CmpLt _ _ _ | CmpNe _ _ _ | CmpLe _ _ _ | CmpGt _ _ _ | CmpGe _ _ _
  | AssignCopy _ _ | AssignMove _ _ | AssignCount _ _ _ | AssignRange _ _ => true
  | _ => false
  end.
Definition keeps_env ρ (m : M T (out T * env)) : Prop := ∀ st,
  match m st with Ok (_, ρ') _ => ρ' = ρ | _ => True end.
Lemma keeps_env_bind {A} ρ (m : M T A) k : (∀ a, keeps_env ρ (k a)) → keeps_env ρ (m ≫= k).
Proof.
  intros H st. rewrite /mbind /M_bind. destruct (m st) as [a st1|e st1|f]; try done. apply H.
Qed.
Lemma keeps_env_exec c ρ st u ρ' st' : binds_nothing c = true → exec c ρ st = Ok (u, ρ') st' → ρ' = ρ.
Proof.
  intros Hb. assert (keeps_env ρ (exec_call c ρ)) as H.
  { destruct c; try done; cbn [exec_call]; rewrite /done_;
    repeat first [ intros ?; reflexivity | apply keeps_env_bind; intros ]. }
  specialize (H st). rewrite /exec /try_catch. destruct (exec_call c ρ st) as [[o ρ1] st1|e st1|f]; intros Hx; unfold mret, M_ret in Hx; simplify_eq; done.
Qed.
(** an exception leaves the variables alone *)
Lemma throw_env c ρ st e ρ' st' : exec c ρ st = Ok (OExn e, ρ') st' → ρ' = ρ.
Proof.
  assert (∀ st, match exec_call c ρ st with Ok (OExn _, _) _ => False | _ => True end) as H.
  { intros st0. set (P := λ m : M T (out T * env), ∀ st, match m st with Ok (OExn _, _) _ => False | _ => True end).
    assert (P (exec_call c ρ)); [|by apply H]. clear st0 st.
    assert (∀ A (m : M T A) k, (∀ a, P (k a)) → P (m ≫= k)) as Hb.
    { intros A m k Hk st0. rewrite /mbind /M_bind. destruct (m st0); try done. apply Hk. }
    assert (∀ it k, (∀ vs n, P (k (OSegm vs n))) → P (read_segment it ≫= k)) as Hs.
    { intros it k Hk st0. rewrite /read_segment /mbind /M_bind. destruct (read_from _ _ _ st0); try done. apply Hk. }
    destruct c; cbn [exec_call]; rewrite /done_;
    repeat first [ intros ?; exact I | match goal with |- P (if ?b then _ else _) => destruct b end
                 | apply Hs; intros | apply Hb; intros ]. }
  specialize (H st). rewrite /exec /try_catch. destruct (exec_call c ρ st) as [[o ρ1] st1|e1 st1|f]; intros Hx; unfold mret, M_ret in Hx; simplify_eq; done.
Qed.
(** a query with a true precondition answers as specified *)
Lemma query σ ρ st c :
  reachable σ ρ st → pre C σ c → is_const c = true → binds_nothing c = true →
  ∃ u σ', step C σ c u σ' ∧ answers st ρ c u.
Proof.
  intros Hr Hp Hc Hb. destruct (call_ok _ _ _ _ Hr Hp) as (u & ρ' & st' & σ' & He & Hs & _).
  exists u, σ'. split; [done|]. eapply const_answers; [done..|]. by eapply keeps_env_exec.
Qed.
End setup.

(** [visible H]: read [H : conts σ !! x = Some (xs, a)] off in all forms *)
Ltac visible H := pose proof (see_contents _ _ _ _ H); pose proof (see_alloc _ _ _ _ H); pose proof (see_live _ _ _ _ H).
