(** * PropsCopies: C60, copies of elements. *)
From Verif Require Export Copies.
From Verif Require Import Honest Sound PropsExn.
From stdpp Require Import options.
Set Default Proof Using "Type*".

Section props.
Context {T : Type} {C : cfg T} {OK : cfg_ok C}.
Implicit Types σ : sst T.
Implicit Types ρ : env.
Implicit Types st : state T.
Notation reachable := (reachable C).

(** a call makes no more copies than the table [most_copies] says *)
Theorem C60_copies σ ρ st c :
  reachable σ ρ st → pre C σ c → copies_at_most (C:=C) (most_copies σ c) c ρ st.
Proof. intros Hr Hp. apply (upto_exec (C:=C)). by apply upto_call. Qed.

(** calls that copy nothing do the same whether or not elements can be copied *)
Theorem C60_none σ ρ st c f :
  reachable σ ρ st → pre C σ c → most_copies σ c = 0 →
  exec (C:=with_copies C f) c ρ st = exec (C:=C) c ρ st.
Proof.
  intros Hr Hp Hz. destruct (C60_copies σ ρ st c Hr Hp) as (ks & Hl & H). rewrite Hz in Hl.
  destruct ks; [|simpl in Hl; lia]. rewrite (H f); [|by intros ? ?%elem_of_nil].
  rewrite -{2}(with_copies_id C). symmetry. apply H. by intros ? ?%elem_of_nil.
Qed.

(** ** Elements that cannot be copied *)
Notation ideal := (with_copies C (λ _, true)).
Lemma ideal_ok : cfg_ok ideal.
Proof. by destruct OK; constructor. Qed.
Lemma raisable_ideal e : raisable ideal e → raisable C e.
Proof. destruct e; simpl; try done. by intros [? ?]. Qed.
Lemma can_throw_ideal : can_throw C → can_throw ideal.
Proof. intros H [e He]. apply H. exists e. by apply raisable_ideal. Qed.
Lemma pre_ideal σ c : pre C σ c → pre ideal σ c.
Proof.
  destruct c; cbn [pre]; try exact id; try (intros (?&?&?); split_and!; try done; by apply can_throw_ideal).
  - intros (?&?&?&?&?). split_and!; try done. by apply can_throw_ideal.
Qed.
Lemma step_user σ c σ' : step ideal σ c (OExn EUser) σ' → False.
Proof.
  destruct c; cbn [step]; unfold insert_step; cbv zeta.
  all: intros H; repeat match goal with
    | H : _ ∧ _ |- _ => destruct H
    | H : _ ∨ _ |- _ => destruct H
    | H : ∃ _, _ |- _ => destruct H
    | H : throws _ _ _ |- _ => let HE := fresh in let HR := fresh in destruct H as [HE HR]; inversion HE; subst; destruct HR
    | H : balks _ _ |- _ => by destruct H
    | H : context [if ?b then _ else _] |- _ => destruct b
    | H : context [match ?b with Some _ => _ | None => _ end] |- _ => destruct b
    | H : returns _ _ |- _ => by unfold returns in H
    | H : OExn EUser = OExn EOutOfRange |- _ => done
    | H : true = false |- _ => done
    end.
  all: try done.
Qed.
(** whether or not elements can be copied, such a call returns, and it throws no
    exception of the elements *)
Theorem C60_move_only σ ρ st c f :
  reachable σ ρ st → pre C σ c → most_copies σ c = 0 →
  ∃ o ρ' st', exec (C:=with_copies C f) c ρ st = Ok (o, ρ') st' ∧ o ≠ OExn EUser.
Proof.
  intros Hr Hp Hz. rewrite (C60_none σ ρ st c f Hr Hp Hz) -(C60_none σ ρ st c (λ _, true) Hr Hp Hz).
  pose proof (reachable_R _ _ _ Hr) as HR. change (R (C:=ideal) σ ρ (st_heap st)) in HR.
  destruct st as [h n k].
  destruct (exec_frame (C:=ideal) (OK:=ideal_ok) σ ρ c h ∅ n k HR ltac:(apply map_disjoint_empty_r) (pre_ideal _ _ Hp))
    as (o & ρ' & st' & σ' & h' & He & Hs & _).
  rewrite right_id_L in He. exists o, ρ', st'. split; [exact He|]. intros ->. by eapply step_user.
Qed.

(** ** splice(pos, other, it) copies the element although it is documented to move
    it: if elements cannot be copied it always throws *)
Notation barren := (with_copies C (λ _, false)).
Lemma barren_ok : cfg_ok barren.
Proof. by destruct OK; constructor. Qed.
Theorem C60_splice_one σ ρ st x w y w1 :
  reachable σ ρ st → pre C σ (SpliceOne x w y w1) →
  ∃ st', exec (C:=barren) (SpliceOne x w y w1) ρ st = Ok (OExn EUser, ρ) st'.
Proof.
  intros Hr Hp. pose proof (reachable_R _ _ _ Hr) as HR. change (R (C:=barren) σ ρ (st_heap st)) in HR.
  destruct st as [h n k].
  destruct (exec_frame (C:=barren) (OK:=barren_ok) σ ρ (SpliceOne x w y w1) h ∅ n k HR ltac:(apply map_disjoint_empty_r) Hp)
    as (o & ρ' & st' & σ' & h' & He & _). rewrite right_id_L in He.
  revert He. rewrite /exec /try_catch. cbn [exec_call]. rewrite /getc /geti /lookup_var.
  unfold mbind, M_bind. destruct (e_cont ρ !! x) as [l|]; [|done]. destruct (e_iter ρ !! w) as [it|]; [|done].
  destruct (e_cont ρ !! y) as [ly|]; [|done]. destruct (e_iter ρ !! w1) as [it1|]; [|done]. cbn [mret M_ret].
  unfold splice_one, insert_, emplace_single, make_value. unfold mbind, M_bind.
  match goal with |- context [read_slot ?p ?i ?s] => pose proof (act_read_slot (C:=C) never p i s) as Hn; destruct (read_slot p i s) as [v st1|e st1|] end;
    [|by destruct Hn|done].
  cbn. intros _. eexists. reflexivity.
Qed.
End props.
