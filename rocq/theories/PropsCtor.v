(** * C45: constructors; C21: what is left when they throw *)
From Verif Require Export PropsSegment.
From stdpp Require Import options.
Set Default Proof Using "Type*".

Section props.
Context {T : Type} {C : cfg T} {OK : cfg_ok C}.
Implicit Types σ : sst T.
Implicit Types ρ : env.
Implicit Types st : state T.
Implicit Types c : cmd T.
Implicit Types xs ys zs : list T.
Notation reachable := (reachable C).
Notation reached := (reached C).
Notation iterator_at := (iterator_at C).
Notation answers := (answers C).
Notation failed := (failed C).
Notation exec := (exec (C:=C)).
Notation others_kept := (others_kept (C:=C)).
Notation spared := (spared (C:=C)).
Notation same_place := (same_place (C:=C)).
Notation after_use := (after_use (C:=C)).
Notation const_arg := (const_arg (C:=C)).

Ltac touched := intros ? [?|(? & ? & ?%elem_of_nil & _)]; [assumption|contradiction].
Ltac nobody := by intros ? ?.
Lemma at_setc σ x xs a w y p : at_it σ w y p → at_it (setc x xs a σ) w y p.
Proof. done. Qed.
(** seq x(a) *)
Theorem C45_new ρ st x a :
  reached ρ st → container_at st ρ x = None →
  ∃ ρ' st', exec (New x a) ρ st = Ok (OUnit, ρ') st' ∧ reached ρ' st' ∧
    container_at st' ρ' x = Some ([], a) ∧ blocks_of st' ρ' x = [] ∧ others_kept [x] ρ st ρ' st'.
Proof.
  intros [σ Hr] Hcx. assert (pre C σ (New x a)) as Hpre by by eapply not_there.
  destruct (call_ok σ ρ st (New x a) Hr Hpre) as (o & ρ' & st' & σ' & He & [-> ->] & Hr').
  assert (container_at st' ρ' x = Some ([], a)) as Hc by (eapply show; [done|]; by rewrite /= lookup_insert).
  exists ρ', st'. split_and!; [done|by eexists|done|by eapply empty_blocks; [eexists|]|]. eapply others; [done..|touched|nobody].
Qed.
(** seq x(n, s, a), seq x(n, a) *)
Theorem C45_count ρ st x n s v a :
  reached ρ st → container_at st ρ x = None → const_arg st ρ x s v → n < c_W C →
  ((∃ e, raisable C e) → c_null_free C = true) →
  ∃ o ρ' st', exec (NewCount x n s a) ρ st = Ok (o, ρ') st' ∧ reached ρ' st' ∧ spared [x] [] ρ st ρ' st' ∧
    (o = OUnit ∧ container_at st' ρ' x = Some (replicate n v, a) ∨
     failed o ∧ ρ' = ρ ∧ container_at st' ρ' x = None).
Proof.
  intros [σ0 Hr0] Hcx Hs Hn Hth. destruct (const_arg_pre _ _ _ _ _ _ Hr0 Hs) as (σ & Hr & Hs1 & Hs2 & Hs3).
  assert (unused σ x) as Hun by by eapply not_there.
  assert (pre C σ (NewCount x n s a)) as Hpre by (split_and!; [done|done|done|by rewrite Hs2|done]).
  destruct (call_ok σ ρ st (NewCount x n s a) Hr Hpre) as (o & ρ' & st' & σ' & He & Hst & Hr').
  exists o, ρ', st'. split_and!; [done|by eexists| |].
  - eapply (all_spared σ); [done..|by intros ?|by intros ? ?| |].
    + intros y w p σ1 Hy%not_in_one Hst1 _ Hw Hly. destruct Hst1 as (v1 & _ & [[_ ->]|(_ & ->)]);
        (split; [apply at_new|]); [|done]. by rewrite /= lookup_insert_ne.
    + intros y σ1 Hy%not_in_one Hst1. destruct Hst1 as (v1 & _ & [[_ ->]|(_ & ->)]); [|done]. by rewrite /= lookup_insert_ne.
  - destruct Hst as (v' & Hv' & Hst). rewrite Hs2 in Hv'. injection Hv' as <-.
    destruct Hst as [[-> ->]|[(e & -> & Hra) ->]]; [left|right].
    + split; [done|]. eapply show; [done|]. by rewrite /= lookup_insert.
    + split_and!; [by eexists|by eapply throw_env|]. eapply show; [done|done].
Qed.
(** seq x(ilist, a), seq x(first, last, a) with a range from elsewhere *)
Theorem C45_list ρ st x zs a :
  reached ρ st → container_at st ρ x = None → length zs < c_W C →
  ((∃ e, raisable C e) → c_null_free C = true) →
  ∃ o ρ' st', exec (NewRange x (RList zs) a) ρ st = Ok (o, ρ') st' ∧ reached ρ' st' ∧ others_kept [x] ρ st ρ' st' ∧
    (o = OUnit ∧ container_at st' ρ' x = Some (zs, a) ∨ failed o ∧ ρ' = ρ ∧ container_at st' ρ' x = None).
Proof.
  intros [σ Hr] Hcx Hn Hth. assert (unused σ x) as Hun by by eapply not_there.
  assert (pre C σ (NewRange x (RList zs) a)) as Hpre by (split_and!; [done|by exists zs|done]).
  destruct (call_ok σ ρ st (NewRange x (RList zs) a) Hr Hpre) as (o & ρ' & st' & σ' & He & Hst & Hr').
  exists o, ρ', st'. split_and!; [done|by eexists| |].
  - eapply others; [done..|touched|nobody].
  - destruct Hst as (zs' & [= <-] & [[-> ->]|(e & j & [-> Hra] & Hj & ->)]); [left|right].
    + split; [done|]. eapply show; [done|]. by rewrite /= lookup_insert.
    + split_and!; [by eexists|by eapply throw_env|]. eapply show; [done|done].
Qed.
(** seq x(w1, w2, a) with a range of another container [y], copied or moved *)
Theorem C45_range ρ st x mv w1 w2 y i j a ys b :
  reached ρ st → container_at st ρ x = None → container_at st ρ y = Some (ys, b) →
  iterator_at st ρ w1 y i → iterator_at st ρ w2 y j → i ≤ j → j - i < c_W C →
  ((∃ e, raisable C e) → c_null_free C = true) →
  let zs := take (j - i) (drop i ys) in
  ∃ o ρ' st', exec (NewRange x (RSeq mv w1 w2) a) ρ st = Ok (o, ρ') st' ∧ reached ρ' st' ∧
    same_place ρ st y ρ' st' ∧ spared [x; y] [] ρ st ρ' st' ∧
    (o = OUnit ∧ container_at st' ρ' x = Some (zs, a) ∧ container_at st' ρ' y = Some (after_use mv i (j - i) ys, b) ∨
     failed o ∧ ρ' = ρ ∧ container_at st' ρ' x = None ∧
       ∃ k, k ≤ j - i ∧ container_at st' ρ' y = Some (after_use mv i k ys, b)).
Proof.
  intros [σ0 Hr0] Hcx Hcy Hw1 Hw2 Hij Hf Hth zs.
  destruct (reached_point2 _ _ _ _ _ _ _ _ Hr0 Hw1 Hw2) as (σ & Hr & Hat1 & Hat2 & _).
  pose proof (see _ _ _ _ _ _ Hr Hcy) as Hsy. visible Hsy. assert (x ≠ y) as Hxy by (intros ->; congruence).
  assert (unused σ x) as Hun by by eapply not_there.
  pose proof (iterator_at_le _ _ _ _ _ _ _ Hcy Hw2) as Hle.
  assert (length zs = j - i) as Hlen by (rewrite /zs take_length_le // drop_length; lia).
  assert (rng_values σ (RSeq mv w1 w2) = Some zs) as Hv.
  { simpl. rewrite Hat1 Hat2 /=. rewrite Nat.eqb_refl (proj2 (Nat.leb_le _ _) Hij) /=. by rewrite H. }
  set (c := NewRange x (RSeq mv w1 w2) a).
  assert (pre C σ c) as Hpre.
  { split_and!; [done|exists zs; split; [done|by rewrite /fits Hlen]|done]. }
  destruct (call_ok σ ρ st c Hr Hpre) as (o & ρ' & st' & σ' & He & Hst & Hr').
  assert (∀ w p q σ1, iters σ !! w = None → step C (point w q p σ) c o σ1 →
    at_it σ1 w q p ∧ (∀ z, z ≠ x → z ≠ y → conts σ1 !! z = conts σ !! z) ∧
    length (contents σ1 y) = length ys) as Hp1.
  { intros w p q σ1 Hw Hst1. assert (w1 ≠ w) as Hn1 by (intros ->; rewrite /at_it in Hat1; congruence).
    assert (at_it (point w q p σ) w1 y i) as Hat1' by (apply at_point; [done|done]).
    destruct Hst1 as (zs1 & _ & [[_ ->]|(e & k & _ & _ & ->)]); (split_and!;
      [rewrite /at_it /setc; cbn [iters]; rewrite iters_rng_used; apply at_new
      |intros z Hz1 Hz2; rewrite /setc; cbn [conts]; rewrite ?lookup_insert_ne // (rng_used_conts _ _ _ _ _ _ _ Hat1') //; by rewrite lookup_insert_ne
      |rewrite /contents /setc; cbn [conts]; rewrite ?lookup_insert_ne // (rng_used_conts _ _ _ _ _ _ _ Hat1') // lookup_insert /= after_use_length; by rewrite /contents /= Hsy]). }
  exists o, ρ', st'. split_and!; [done|by eexists| | |].
  - destruct (place_spared σ ρ st c o ρ' st' y ys b [] Hr Hpre He) as [Hpl Hit]; [done|done| |split; [done|]].
    { intros w p σ1 Hst1 _ Hw. destruct (Hp1 w p y σ1 Hw Hst1) as (? & _ & ?). done. }
    intros w p. apply Hit, not_elem_of_nil.
  - eapply (all_spared σ); [done..|by intros ?| | |].
    { intros z Hz. apply elem_of_list_singleton in Hz as ->. by left. }
    + intros z w p σ1 Hz Hst1 _ Hw Hlz. assert (z ≠ x ∧ z ≠ y) as [Hz1 Hz2] by (rewrite !elem_of_cons elem_of_nil in Hz; naive_solver).
      destruct (Hp1 w p z σ1 Hw Hst1) as (? & Hk & _). split; [done|]. by apply Hk.
    + intros z σ1 Hz Hst1. assert (z ≠ x ∧ z ≠ y) as [Hz1 Hz2] by (rewrite !elem_of_cons elem_of_nil in Hz; naive_solver).
      destruct Hst1 as (zs1 & _ & [[_ ->]|(e & k & _ & _ & ->)]);
      rewrite /setc; cbn [conts]; rewrite ?lookup_insert_ne // (rng_used_conts _ _ _ _ _ _ _ Hat1) //; by rewrite lookup_insert_ne.
  - destruct Hst as (zs1 & Hv1 & Hst). rewrite Hv in Hv1. injection Hv1 as <-.
    destruct Hst as [[-> ->]|(e & k & [-> Hra] & Hk & ->)]; [left|right].
    + split_and!; [done|eapply show; [done|]..].
      * by rewrite /= lookup_insert.
      * rewrite /setc; cbn [conts]; rewrite lookup_insert_ne // (rng_used_conts _ _ _ _ _ _ _ Hat1) // lookup_insert H H0 Hlen //.
    + split_and!; [by eexists|by eapply throw_env| |exists k; split; [lia|]]; (eapply show; [done|]);
        rewrite (rng_used_conts _ _ _ _ _ _ _ Hat1) //.
      * by rewrite lookup_insert_ne.
      * by rewrite lookup_insert H H0.
Qed.
(** C21: a constructor that throws leaves every variable, block and container as it was *)
Theorem C21_ctor ρ st x c e ρ' st' σ :
  reachable σ ρ st → pre C σ c →
  (∃ n v a, c = NewCount x n (AVal v) a) ∨ (∃ zs a, c = NewRange x (RList zs) a) →
  exec c ρ st = Ok (OExn e, ρ') st' →
  ρ' = ρ ∧ reachable σ ρ st' ∧ dom (st_heap st') = dom (st_heap st) ∧ others_kept [] ρ st ρ st'.
Proof.
  intros Hr Hpre Hc He. destruct (call_inv _ _ _ _ _ _ _ Hr Hpre He) as (σ' & Hst & Hr').
  pose proof (throw_env _ _ _ _ _ _ He) as ->.
  assert (unused σ x ∧ σ' = σ) as [Hun ->].
  { destruct Hc as [(n & v & a & ->)|(zs & a & ->)]; cbn [pre step] in Hpre, Hst.
    - split; [tauto|]. by destruct Hst as (? & _ & [[? _]|[_ ->]]).
    - split; [tauto|]. by destruct Hst as (? & _ & [[? _]|(? & ? & _ & _ & ->)]). }
  assert (others_kept [x] ρ st ρ st') as Ho.
  { destruct Hc as [(n & v & a & ->)|(zs & a & ->)]; (eapply others; [done..|touched|nobody]). }
  assert (e_cont ρ !! x = None) as Hex.
  { destruct (e_cont ρ !! x) as [l|] eqn:E; [|done]. destruct (reached_var ρ st x l (ex_intro _ σ Hr) E) as (? & ? & E').
    rewrite /unused (reachable_conts _ _ _ _ Hr) in Hun. congruence. }
  assert (others_kept [] ρ st ρ st') as Ho'.
  { intros z _. destruct (decide (z = x)) as [->|Hz]; [|apply Ho; by rewrite elem_of_list_singleton].
    rewrite /container_at /segments /index_nodes /seq_at Hex. split_and!; [done..|].
    intros w p (? & ? & ? & Hc' & _). by rewrite /container_at /seq_at Hex in Hc'. }
  split_and!; [done|done| |done].
  apply (place_dom ρ st ρ st'); [by eexists|by eexists|done|..]; intros z;
    destruct (Ho' z ltac:(apply not_elem_of_nil)) as (E1 & E2 & E3 & _); [by rewrite E1|split; [done|by rewrite /places E2]].
Qed.
End props.
