(** * C55: predicates, comparisons and element operators that throw *)
From Verif Require Export PropsList PropsExn.
From stdpp Require Import options.
Set Default Proof Using "Type*".

Section props.
Context {T : Type} {C : cfg T} {OK : cfg_ok C}.
Implicit Types σ : sst T.
Implicit Types ρ : env.
Implicit Types st : state T.
Implicit Types c : cmd T.
Implicit Types xs ys zs gap : list T.
Notation reachable := (reachable C).
Notation reached := (reached C).
Notation exec := (exec (C:=C)).
Notation others_kept := (others_kept (C:=C)).
Notation spared := (spared (C:=C)).
Notation same_place := (same_place (C:=C)).
Notation balks := (balks C).

(** ** Who may pass on an exception of a predicate *)
Theorem C55_source σ ρ st c ρ' st' :
  reachable σ ρ st → pre C σ c → exec c ρ st = Ok (OExn EPred, ρ') st' →
  pred_fails C ∧ match c with
  | Remove x _ _ | RemoveIf x _ | Unique x _ => contents σ x ≠ []
  | Sort x _ => 2 ≤ length (contents σ x)
  | MergeIn x y _ | CmpLt x y _ | CmpLe x y _ | CmpGt x y _ | CmpGe x y _ => contents σ x ≠ [] ∧ contents σ y ≠ []
  | CmpEq x y _ | CmpNe x y _ => contents σ x ≠ [] ∧ length (contents σ x) = length (contents σ y)
  | _ => False
  end.
Proof.
  intros Hr Hp He. destruct (call_ok σ ρ st c Hr Hp) as (o & ρ1 & st1 & σ1 & He1 & Hs & _).
  rewrite He in He1. injection He1 as <- <- <-.
  destruct c; cbn [step] in Hs; unfold insert_step, returns, throws, Spec.balks, stopped in Hs; cbv zeta in Hs;
    repeat match goal with
      | H : _ ∧ _ |- _ => destruct H
      | H : _ ∨ _ |- _ => destruct H
      | H : ∃ _, _ |- _ => destruct H
      | H : context [if ?b then _ else _] |- _ => destruct b
      | H : context [match ?b with Some _ => _ | None => _ end] |- _ => destruct b
      end; simplify_eq; try done; split_and!; try done; 
    match goal with H : _ < length ?l |- _ => destruct l; [simpl in H; lia|done] end.
Qed.

(** ** After the exception *)
Lemma interrupted σ ρ st c x xs a ρ' st' :
  reachable σ ρ st → pre C σ c → container_at st ρ x = Some (xs, a) → exec c ρ st = Ok (OExn EPred, ρ') st' →
  binds_nothing c = true → (∀ w, ¬ assigns c w) →
  (∀ σ1 σ2, conts σ1 = conts σ → step C σ1 c (OExn EPred) σ2 → ∃ zs, length zs = length xs ∧ σ2 = write x zs σ1) →
  ρ' = ρ ∧ reached ρ st' ∧ same_place ρ st x ρ st' ∧
  ∃ zs, container_at st' ρ x = Some (zs, a) ∧ length zs = length xs ∧ step C σ c (OExn EPred) (write x zs σ).
Proof.
  intros Hr Hp Hc He Hb Ha Hst. pose proof (see _ _ _ _ _ _ Hr Hc) as Hcs. visible Hcs.
  pose proof (keeps_env_exec c _ _ _ _ _ Hb He) as ->.
  destruct (call_ok σ ρ st c Hr Hp) as (o & ρ1 & st1 & σ1 & He1 & Hs & Hr1). rewrite He in He1. injection He1 as <- <- <-.
  destruct (Hst σ σ1 eq_refl Hs) as (zs & Hl & ->). split_and!; [done|by eexists| |].
  - destruct (place_spared σ ρ st c (OExn EPred) ρ st' x xs a [] Hr Hp He) as [Hpl Hit]; [by intros w ?%Ha|done| |].
    + intros w p σ1 Hst1 _ _. destruct (Hst (point w x p σ) σ1 eq_refl Hst1) as (zs' & Hl' & ->). split.
      * apply at_new.
      * by rewrite /write /contents /= lookup_insert.
    + split; [done|]. intros w p. apply Hit, not_elem_of_nil.
  - exists zs. split_and!; [|done|done]. eapply show; [done|]. by rewrite /write /= lookup_insert H0.
Qed.
Lemma stopped_length keep xs ys : stopped keep xs ys → length ys = length xs.
Proof. by intros (k & gap & _ & ? & _). Qed.
Ltac same H Hcs := rewrite /contents H Hcs.

(** remove, remove_if: the elements kept so far are in front, the elements that were
    not examined yet are untouched, no block has moved and every iterator is valid.
    What the remaining places hold is not specified. *)
Theorem C55_remove_if ρ st x p xs a ρ' st' :
  reached ρ st → container_at st ρ x = Some (xs, a) → exec (RemoveIf x p) ρ st = Ok (OExn EPred, ρ') st' →
  ρ' = ρ ∧ reached ρ st' ∧ others_kept [x] ρ st ρ st' ∧ same_place ρ st x ρ st' ∧
  ∃ k gap, k < length xs ∧ length (filter (λ u, p u = false) (take k xs)) + length gap = k ∧
    container_at st' ρ x = Some (filter (λ u, p u = false) (take k xs) ++ gap ++ drop k xs, a).
Proof.
  intros Hre Hc He. pose proof Hre as [σ Hr]. pose proof (see _ _ _ _ _ _ Hr Hc) as Hcs. visible Hcs.
  destruct (interrupted σ ρ st (RemoveIf x p) x xs a ρ' st') as (-> & Hr' & Hsp & zs & Hz & Hl & Hs); [done|done|done|done|done|by intros ? ?| |].
  { intros σ1 σ2 Hcn [[? _]|(_ & ys & Hys & ->)]; [done|]. exists ys. apply stopped_length in Hys. split; [|done]. rewrite Hys. by same Hcn Hcs. }
  destruct (C32_remove_if ρ st x p xs a) as (o & st1 & He1 & _ & Ho & _); [done|done|]. rewrite He in He1. injection He1 as <- <-.
  split_and!; [done..|]. destruct Hs as [[? _]|(_ & ys & Hys & Hw)]; [done|].
  assert (ys = zs) as ->. { apply (f_equal (λ σ, contents σ x)) in Hw. by rewrite /write /contents /= !lookup_insert in Hw. }
  rewrite H in Hys. destruct Hys as (k & gap & Hk & Hlen & ->). rewrite remove_list_filter in Hz, Hlen.
  exists k, gap. split_and!; [done| |done]. rewrite !app_length drop_length in Hlen. lia.
Qed.
Theorem C55_remove ρ st x s v eq xs a ρ' st' :
  reached ρ st → container_at st ρ x = Some (xs, a) → const_arg (C:=C) st ρ x s v →
  exec (Remove x s eq) ρ st = Ok (OExn EPred, ρ') st' →
  ρ' = ρ ∧ reached ρ st' ∧ spared [x] [] ρ st ρ st' ∧ same_place ρ st x ρ st' ∧
  ∃ k gap, k < length xs ∧ length (filter (λ u, eq u v = false) (take k xs)) + length gap = k ∧
    container_at st' ρ x = Some (filter (λ u, eq u v = false) (take k xs) ++ gap ++ drop k xs, a).
Proof.
  intros Hre Hc Hs He. pose proof Hre as [σ0 Hr0]. destruct (const_arg_pre _ _ _ _ _ _ Hr0 Hs) as (σ & Hr & Hs1 & Hs2 & Hs3).
  pose proof (see _ _ _ _ _ _ Hr Hc) as Hcs. visible Hcs.
  assert (pre C σ (Remove x s eq)) as Hpre by (split_and!; [done|by rewrite Hs2|done]).
  destruct (interrupted σ ρ st (Remove x s eq) x xs a ρ' st') as (-> & Hr' & Hsp & zs & Hz & Hl & Hst); [done|done|done|done|done|by intros ? ?| |].
  { intros σ1 σ2 Hcn (v1 & _ & [[? _]|(_ & ys & Hys & ->)]); [done|]. exists ys. apply stopped_length in Hys. split; [|done]. rewrite Hys. by same Hcn Hcs. }
  destruct (C32_remove ρ st x s v eq xs a) as (o & st1 & He1 & _ & Ho & _); [done|done|done|]. rewrite He in He1. injection He1 as <- <-.
  split_and!; [done..|]. destruct Hst as (v1 & Hv1 & [[? _]|(_ & ys & Hys & Hw)]); [done|].
  rewrite Hs2 in Hv1. injection Hv1 as <-.
  assert (ys = zs) as ->. { apply (f_equal (λ σ, contents σ x)) in Hw. by rewrite /write /contents /= !lookup_insert in Hw. }
  rewrite H in Hys. destruct Hys as (k & gap & Hk & Hlen & ->). rewrite remove_list_filter in Hz, Hlen.
  exists k, gap. split_and!; [done| |done]. rewrite !app_length drop_length in Hlen. lia.
Qed.
(** unique: the same *)
Theorem C55_unique ρ st x p xs a ρ' st' :
  reached ρ st → container_at st ρ x = Some (xs, a) → exec (Unique x p) ρ st = Ok (OExn EPred, ρ') st' →
  ρ' = ρ ∧ reached ρ st' ∧ others_kept [x] ρ st ρ st' ∧ same_place ρ st x ρ st' ∧
  ∃ k kept gap, k < length xs ∧ runs_removed p (take k xs) kept ∧ length kept + length gap = k ∧
    container_at st' ρ x = Some (kept ++ gap ++ drop k xs, a).
Proof.
  intros Hre Hc He. pose proof Hre as [σ Hr]. pose proof (see _ _ _ _ _ _ Hr Hc) as Hcs. visible Hcs.
  destruct (interrupted σ ρ st (Unique x p) x xs a ρ' st') as (-> & Hr' & Hsp & zs & Hz & Hl & Hs); [done|done|done|done|done|by intros ? ?| |].
  { intros σ1 σ2 Hcn [[? _]|(_ & ys & Hys & ->)]; [done|]. exists ys. apply stopped_length in Hys. split; [|done]. rewrite Hys. by same Hcn Hcs. }
  destruct (C32_unique ρ st x p xs a) as (o & st1 & He1 & _ & Ho & _); [done|done|]. rewrite He in He1. injection He1 as <- <-.
  split_and!; [done..|]. destruct Hs as [[? _]|(_ & ys & Hys & Hw)]; [done|].
  assert (ys = zs) as ->. { apply (f_equal (λ σ, contents σ x)) in Hw. by rewrite /write /contents /= !lookup_insert in Hw. }
  rewrite H in Hys. destruct Hys as (k & gap & Hk & Hlen & ->).
  exists k, (unique_list p (take k xs)), gap. split_and!; [done|apply unique_list_runs| |done]. rewrite !app_length drop_length in Hlen. lia.
Qed.
(** sort: as many elements as before, in the same places *)
Theorem C55_sort ρ st x lt xs a ρ' st' :
  reached ρ st → container_at st ρ x = Some (xs, a) → exec (Sort x lt) ρ st = Ok (OExn EPred, ρ') st' →
  ρ' = ρ ∧ reached ρ st' ∧ others_kept [x] ρ st ρ st' ∧ same_place ρ st x ρ st' ∧
  ∃ zs, container_at st' ρ x = Some (zs, a) ∧ length zs = length xs.
Proof.
  intros Hre Hc He. pose proof Hre as [σ Hr]. pose proof (see _ _ _ _ _ _ Hr Hc) as Hcs. visible Hcs.
  destruct (rewrites σ ρ st (Sort x lt) x xs a Hr Hc) as (o & st1 & σ' & He1 & ? & ? & ? & Hst & Hr'); [right; by exists lt|].
  rewrite He in He1. injection He1 as <- <- <-. split_and!; [done..|].
  destruct Hst as [[? _]|(_ & _ & ys & Hl & ->)]; [done|]. exists ys. split; [|by rewrite Hl H].
  eapply show; [done|]. by rewrite /write /= lookup_insert H0.
Qed.
(** merge: the other container is empty, this one has all the elements of both *)
Theorem C55_merge ρ st x y lt xs a ys b ρ' st' :
  reached ρ st → x ≠ y → container_at st ρ x = Some (xs, a) → container_at st ρ y = Some (ys, b) →
  length xs + length ys < c_W C → exec (MergeIn x y lt) ρ st = Ok (OExn EPred, ρ') st' →
  ρ' = ρ ∧ reached ρ st' ∧ others_kept [x; y] ρ st ρ st' ∧ container_at st' ρ y = Some ([], b) ∧
  ∃ zs, container_at st' ρ x = Some (zs, a) ∧ length zs = length xs + length ys.
Proof.
  intros [σ Hr] Hxy Hc Hcy Hf He.
  pose proof (see _ _ _ _ _ _ Hr Hc) as Hs. visible Hs. pose proof (see _ _ _ _ _ _ Hr Hcy) as Hsy. visible Hsy.
  set (c := MergeIn x y lt) in *. assert (pre C σ c) as Hpre.
  { split_and!; [done|done|done|]. rewrite /fits. congruence. }
  destruct (call_ok σ ρ st c Hr Hpre) as (o & ρ1 & st1 & σ' & He1 & Hst & Hr').
  pose proof (keeps_env_exec c _ _ _ _ _ eq_refl He1) as ->. rewrite He in He1. injection He1 as <- -> <-.
  split_and!; [done|by eexists| | |].
  - eapply (two_spared σ); [done..|by intros ? ?|]. intros w1 p1 z Hw1 Hz. by apply elem_of_nil in Hw1.
  - cbn [step c] in Hst. cbv zeta in Hst. destruct Hst as [[? _]|[(e & k & k' & [[= <-] []] & _)|(_ & _ & _ & zs & Hl & ->)]]; [done|].
    eapply show; [done|]. rewrite /modify /write /= lookup_insert /alloc_of /= lookup_insert_ne // Hsy //.
  - cbn [step c] in Hst. cbv zeta in Hst. destruct Hst as [[? _]|[(e & k & k' & [[= <-] []] & _)|(_ & _ & _ & zs & Hl & ->)]]; [done|].
    exists zs. split; [|by rewrite Hl H H2]. eapply show; [done|]. rewrite conts_modify // /modify /write /= lookup_insert. by rewrite H0.
Qed.
(** the comparisons: nothing has changed *)
Theorem C55_compare ρ st x y f c ρ' st' :
  c = CmpEq x y f ∨ c = CmpNe x y f ∨ c = CmpLt x y f ∨ c = CmpLe x y f ∨ c = CmpGt x y f ∨ c = CmpGe x y f →
  exec c ρ st = Ok (OExn EPred, ρ') st' →
  ρ' = ρ ∧ st_heap st' = st_heap st ∧ st_clk st' = st_clk st ∧ n_allocs (st_cnt st') = n_allocs (st_cnt st).
Proof.
  intros Hc He. assert (is_const c = true ∧ binds_nothing c = true) as [H1 H2] by (by destruct_or! Hc; subst c).
  pose proof (keeps_env_exec c _ _ _ _ _ H2 He) as ->. destruct (C46_read_only ρ st c _ _ _ H1 He) as (? & ? & ? & _). done.
Qed.
End props.
