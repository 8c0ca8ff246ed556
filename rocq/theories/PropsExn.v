(** * C47: functions that do not throw; C48: every exception has a cause and no
    failure is swallowed *)
From Verif Require Export PropsCost Honest.
From stdpp Require Import options.
Set Default Proof Using "Type*".

Section outs.
Context {T : Type} {C : cfg T}.
(** what a computation that returns normally returns *)
Definition post {A} (Φ : A → Prop) (m : M T A) : Prop := ∀ st,
  match m st with Ok a _ => Φ a | _ => True end.
Lemma post_ret {A} (Φ : A → Prop) a : Φ a → post Φ (mret a). Proof. by intros ? st. Qed.
Lemma post_bind {A B} (Ψ : A → Prop) (Φ : B → Prop) (m : M T A) (k : A → M T B) :
  post Ψ m → (∀ a, Ψ a → post Φ (k a)) → post Φ (m ≫= k).
Proof.
  intros Hm Hk st. rewrite /mbind /M_bind. specialize (Hm st). destruct (m st) as [a st1|e st1|f]; [|done..]. by apply Hk.
Qed.
Lemma post_any {A} (m : M T A) : post (λ _, True) m. Proof. intros st. by destruct (m st). Qed.
Definition plain (o : out T) : Prop := ∀ e, o ≠ OExn e.
Lemma post_read_segment it : post plain (read_segment (T:=T) it).
Proof. unfold read_segment. eapply post_bind; [apply post_any|]. intros vs _. by apply post_ret. Qed.
Lemma plain_exec_call c ρ : post (λ r, plain r.1) (exec_call (C:=C) c ρ).
Proof.
  destruct c; cbn [exec_call]; unfold done_;
  repeat first
    [ progress intros
    | apply post_ret; done
    | eapply (post_bind plain); [apply post_read_segment|]
    | eapply post_bind; [apply post_any|]
    | match goal with |- post _ (if ?b then _ else _) => destruct b end ].
Qed.
End outs.

Section props.
Context {T : Type} {C : cfg T}.
Implicit Types σ : sst T.
Implicit Types ρ : env.
Implicit Types st : state T.
Implicit Types c : cmd T.
Notation exec := (exec (C:=C)).
(** the environment's record of failed allocations, constructions, moves and
    predicates, latest first *)
Notation failures st := (n_fails (st_cnt st)).

(** ** C48: a call throws exactly when something failed during the call, and then
    reports that failure (there is never a second one); at() is the only function
    with an exception of its own.  In any state at all. *)
Theorem C48_reported ρ st c o ρ' st' :
  exec c ρ st = Ok (o, ρ') st' →
  match o with
  | OExn EOutOfRange => (∃ x n, c = At x n) ∧ failures st' = failures st
  | OExn e => failures st' = e :: failures st
  | _ => failures st' = failures st
  end.
Proof.
  intros He. pose proof (plain_exec_call (C:=C) c ρ st) as Hp. revert He. rewrite /exec /Exec.exec /try_catch.
  destruct (is_at c) eqn:Hc.
  - assert (act (λ e st st', (e = EOutOfRange ∧ ∃ x n, c = At x n) ∧ fails st' = fails st) (exec_call (C:=C) c ρ)) as Ha.
    { destruct c; try done.
      assert (logged (T:=T) (λ e st st', (e = EOutOfRange ∧ ∃ x0 n0, At (T:=T) x n = At x0 n0) ∧ fails st' = fails st)).
      { intros e st1 st2 st3 H [[-> ?] ?]. split; [done|congruence]. }
      cbn [exec_call]. unfold getc, at_, it_deref. pose proof (act_get_size (T:=T)). pose proof (act_find_index (T:=T) (C:=C)).
      pose proof (act_dereference (T:=T)). act_go. intros st1. split; [split; [done|by eexists _, _]|done]. }
    specialize (Ha st). destruct (exec_call c ρ st) as [[u ρ1] st1|e st1|]; [| |done].
    + intros [= <- <- <-]. destruct u; try done. by edestruct Hp.
    + intros [= <- <- <-]. by destruct Ha as [[-> ?] ?].
  - pose proof (h_exec_call (C:=C) c ρ Hc st) as Ha.
    destruct (exec_call c ρ st) as [[u ρ1] st1|e st1|]; [| |done].
    + intros [= <- <- <-]. destruct u; try done. by edestruct Hp.
    + intros [= <- <- <-]. destruct Ha as [Hn Ha]. by destruct e.
Qed.

(** a whole program: the exceptions the client saw, without those of at(), are the
    failures that happened, in that order *)
Definition seen (tr : list (cmd T * out T)) : list exn :=
  omap (λ co : cmd T * out T, match co.2 with OExn EOutOfRange => None | OExn e => Some e | _ => None end) tr.
Theorem C48_run (p : client) ρ st tr ρ' st' :
  run (C:=C) p ρ st = Ok (tr, ρ') st' → failures st' = reverse (seen tr) ++ failures st.
Proof.
  revert ρ st tr. induction p as [|c k IH]; intros ρ st tr.
  - by intros [= <- <- <-].
  - cbn [run]. rewrite /mbind /M_bind. destruct (Exec.exec c ρ st) as [[o ρ1] st1|e st1|] eqn:He; [|done..]. simpl.
    destruct (run (k o) ρ1 st1) as [[tr1 ρ2] st2|e st2|] eqn:Hr; [|done..]. intros [= <- <- <-].
    rewrite (IH _ _ _ _ Hr). apply C48_reported in He. rewrite /seen. cbn [omap list_omap].
    destruct o as [| | | | | |e]; simpl; try by rewrite He.
    destruct e; simpl; try (by destruct He as [_ ->]); by rewrite He reverse_cons -app_assoc.
Qed.

(** ** C47.  [asks c]: [c] calls predicates or comparisons of the caller, which may throw. *)
Context {OK : cfg_ok C}.
(** in any state, if the call has a defined outcome at all (see C18) *)
Theorem C47_no_throw ρ st c o ρ' st' :
  no_throw (C:=C) c = true → (asks c = true → ¬ pred_fails C) → exec c ρ st = Ok (o, ρ') st' → (∀ e, o ≠ OExn e) ∧ failures st' = failures st.
Proof.
  intros Hc Hk. pose proof (plain_exec_call (C:=C) c ρ st) as Hp. pose proof (calm_exec_call (C:=C) c ρ Hc Hk st) as Ha.
  rewrite /exec /Exec.exec /try_catch. destruct (exec_call c ρ st) as [[u ρ1] st1|e st1|]; [|done..].
  by intros [= <- <- <-].
Qed.
(** within its precondition, it returns *)
Theorem C47_returns σ ρ st c :
  reachable C σ ρ st → pre C σ c → no_throw (C:=C) c = true → (asks c = true → ¬ pred_fails C) →
  ∃ o ρ' st', exec c ρ st = Ok (o, ρ') st' ∧ ∀ e, o ≠ OExn e.
Proof.
  intros Hr Hpre Hc Hk. destruct (call_ok σ ρ st c Hr Hpre) as (o & ρ' & st' & σ' & He & _).
  exists o, ρ', st'. split; [exact He|]. by eapply C47_no_throw.
Qed.
End props.
