(** * C30-C33: splice, merge, remove, unique, reverse, sort, comparison *)
From Verif Require Export PropsAssign.
From stdpp Require Import options.
Set Default Proof Using "Type*".

(** ** Lists *)
Section lists.
Context {T : Type}.
Implicit Types xs ys : list T.
(** [ys] is [xs] with only the first element of every run of equivalent elements *)
Definition runs_removed (p : T → T → bool) xs ys : Prop := ∃ groups : list (T * list T),
  xs = concat ((λ g, g.1 :: g.2) <$> groups) ∧ ys = groups.*1 ∧
  Forall (λ g, Forall (λ u, p g.1 u = true) g.2) groups ∧
  (∀ i g g', groups !! i = Some g → groups !! S i = Some g' → p g.1 g'.1 = false).
Lemma unique_from_runs p u xs : ∃ r groups,
  u :: xs = concat ((λ g, g.1 :: g.2) <$> ((u, r) :: groups)) ∧ unique_from p u xs = ((u, r) :: groups).*1 ∧
  Forall (λ g, Forall (λ v, p g.1 v = true) g.2) ((u, r) :: groups) ∧
  (∀ i g g', ((u, r) :: groups) !! i = Some g → ((u, r) :: groups) !! S i = Some g' → p g.1 g'.1 = false).
Proof.
  revert u. induction xs as [|v xs IH]; intros u.
  - exists [], []. split_and!; [done|done|by repeat constructor|]. intros [|i] g g'; [done|]. simpl. by destruct i.
  - simpl. destruct (p u v) eqn:E.
    + destruct (IH u) as (r & gs & E1 & E2 & E3 & E4). exists (v :: r), gs. csimpl in *. split_and!.
      * injection E1 as ->. done.
      * done.
      * apply Forall_cons in E3 as [E3 E3']. constructor; [|done]. by constructor.
      * intros i g g' Hg Hg'. destruct i as [|i].
        { simpl in Hg. injection Hg as <-. by apply (E4 0 (u, r) g'). }
        by apply (E4 (S i) g g').
    + destruct (IH v) as (r & gs & E1 & E2 & E3 & E4). exists [], ((v, r) :: gs). csimpl in *. split_and!.
      * by rewrite E1.
      * by rewrite E2.
      * constructor; [by constructor|done].
      * intros i g g' Hg Hg'. destruct i as [|i].
        { simpl in Hg, Hg'. injection Hg as <-. by injection Hg' as <-. }
        by apply (E4 i g g').
Qed.
Lemma unique_list_runs p xs : runs_removed p xs (unique_list p xs).
Proof.
  destruct xs as [|u xs]; [by exists []|]. destruct (unique_from_runs p u xs) as (r & gs & H1 & H2 & H3 & H4).
  exists ((u, r) :: gs). done.
Qed.
(** lexicographical order: after a common part of equivalent elements, [xs] ends
    first or has the smaller element *)
Definition lex_less (lt : T → T → bool) xs ys : Prop := ∃ us vs xs' ys',
  xs = us ++ xs' ∧ ys = vs ++ ys' ∧ Forall2 (λ u v, lt u v = false ∧ lt v u = false) us vs ∧
  (xs' = [] ∧ ys' ≠ [] ∨ ∃ u v xs'' ys'', xs' = u :: xs'' ∧ ys' = v :: ys'' ∧ lt u v = true).
Lemma lex_lists_spec lt xs ys : strict_weak lt → lex_lists lt xs ys = true ↔ lex_less lt xs ys.
Proof.
  intros Hsw. split.
  - revert ys. induction xs as [|x xs IH]; intros [|y ys]; simpl; try done.
    + intros _. exists [], [], [], (y :: ys). split_and!; [done..|]. by left.
    + intros [H|[H1%negb_true_iff H2]%andb_true_iff]%orb_true_iff.
      * exists [], [], (x :: xs), (y :: ys). split_and!; [done..|]. right. by exists x, y, xs, ys.
      * destruct (lt x y) eqn:Hxy.
        { exists [], [], (x :: xs), (y :: ys). split_and!; [done..|]. right. by exists x, y, xs, ys. }
        destruct (IH _ H2) as (us & vs & xs' & ys' & -> & -> & Hf & Hd).
        exists (x :: us), (y :: vs), xs', ys'. split_and!; [done..| |done]. by constructor.
  - intros (us & vs & xs' & ys' & -> & -> & Hf & Hd). induction Hf as [|u v us vs [Huv Hvu] Hf IH].
    + destruct Hd as [[-> Hn]|(u & v & xs & ys & -> & -> & Hlt)]; simpl; [by destruct ys'|]. by rewrite Hlt.
    + simpl. by rewrite Huv Hvu.
Qed.
Lemma equal_lists_eq (eq : T → T → bool) xs ys :
  (∀ u v, eq u v = true ↔ u = v) → equal_lists eq xs ys = true ↔ xs = ys.
Proof.
  intros Heq. rewrite equal_lists_spec. split.
  - induction 1 as [|u v us vs Huv _ IH]; [done|]. apply Heq in Huv as ->. by rewrite IH.
  - intros <-. induction xs; constructor; [by apply Heq|done].
Qed.
End lists.

Section props.
Context {T : Type} {C : cfg T} {OK : cfg_ok C}.
Implicit Types σ : sst T.
Implicit Types ρ : env.
Implicit Types st : state T.
Implicit Types c : cmd T.
Implicit Types xs ys zs : list T.
Notation reachable := (reachable C).
Notation reached := (reached C).
Notation iterator_at := (iterator_at C).
Notation answers := (answers C).
Notation failed := (failed C).
Notation exec := (exec (C:=C)).
Notation others_kept := (others_kept (C:=C)).
Notation spared := (spared (C:=C)).
Notation after_use := (after_use (C:=C)).
Notation balks := (balks C).

Lemma two_spared σ ρ st c u st' x y :
  reachable σ ρ st → pre C σ c → exec c ρ st = Ok (u, ρ) st' → names c = [x; y] → (∀ w, ¬ assigns c w) →
  (∀ w p z, w ∈ uses c → at_it σ w z p → z = x ∨ z = y) → others_kept [x; y] ρ st ρ st'.
Proof.
  intros Hr Hp He Hnm Ha Hu. eapply others; [done..| |done]. intros z [Hz|(w & p & Hw & Hz)]; [by rewrite -Hnm|].
  rewrite !elem_of_cons elem_of_nil. destruct (Hu w p z Hw Hz); auto.
Qed.

(** ** C30: splice *)
(** x.splice(w, y) *)
Theorem C30_splice_all ρ st x w y p xs a ys b :
  reached ρ st → x ≠ y → container_at st ρ x = Some (xs, a) → container_at st ρ y = Some (ys, b) →
  iterator_at st ρ w x p → (ys = [] → c_null_free C = true) → length xs + length ys < c_W C →
  ∃ o st', exec (SpliceAll x w y) ρ st = Ok (o, ρ) st' ∧ reached ρ st' ∧ others_kept [x; y] ρ st ρ st' ∧
    (o = OUnit ∧ container_at st' ρ x = Some (take p xs ++ ys ++ drop p xs, a) ∧ container_at st' ρ y = Some ([], b) ∨
     failed o ∧ ∃ k k', k < length ys ∧ k ≤ k' ≤ S k ∧
       container_at st' ρ x = Some (take p xs ++ take k ys ++ drop p xs, a) ∧
       container_at st' ρ y = Some (after_use true 0 k' ys, b)).
Proof.
  intros [σ0 Hr0] Hxy Hc Hcy Hw Hnf Hf. destruct (reached_point _ _ _ _ _ _ Hr0 Hw) as [Hr Hat]. set (σ := point w x p σ0) in *.
  pose proof (see _ _ _ _ _ _ Hr Hc) as Hs. visible Hs. pose proof (see _ _ _ _ _ _ Hr Hcy) as Hsy. visible Hsy.
  set (c := SpliceAll x w y). assert (pre C σ c) as Hpre.
  { exists p. split_and!; [done|done|done|by rewrite /can_purge H2|]. rewrite /fits. congruence. }
  destruct (call_ok σ ρ st c Hr Hpre) as (o & ρ' & st' & σ' & He & Hst & Hr').
  pose proof (keeps_env_exec c _ _ _ _ _ eq_refl He) as ->.
  exists o, st'. split_and!; [done|by eexists| |].
  - eapply (two_spared σ); [done..|by intros ? ?|]. intros w1 p1 z Hw1 Hz. apply elem_of_list_singleton in Hw1 as ->.
    left. by destruct (at_it_fun _ _ _ _ _ _ Hat Hz) as [-> _].
  - destruct Hst as (p' & Hat' & Hst). destruct (at_it_fun _ _ _ _ _ _ Hat Hat') as [_ <-]. cbv zeta in Hst. rewrite H H2 in Hst.
    destruct Hst as [[-> ->]|(e & k & k' & [-> Hra] & Hk & Hk' & ->)]; [left|right].
    + split_and!; [done|eapply show; [done|]..].
      * rewrite conts_modify // /modify /write /= lookup_insert. by rewrite H0.
      * rewrite /modify /write /= lookup_insert /alloc_of /= lookup_insert_ne // Hsy //.
    + split; [by eexists|]. exists k, k'. split_and!; [done|lia|lia|eapply show; [done|]..].
      * rewrite /modify /write /= lookup_insert_ne // lookup_insert. by rewrite H0.
      * rewrite /modify /write /= lookup_insert /alloc_of /= lookup_insert_ne // Hsy //.
Qed.
(** x.splice(w, y, w1) *)
Theorem C30_splice_one ρ st x w y w1 p q v xs a ys b :
  reached ρ st → x ≠ y → container_at st ρ x = Some (xs, a) → container_at st ρ y = Some (ys, b) →
  iterator_at st ρ w x p → iterator_at st ρ w1 y q → ys !! q = Some v → length xs + 1 < c_W C →
  ∃ o st', exec (SpliceOne x w y w1) ρ st = Ok (o, ρ) st' ∧ reached ρ st' ∧ others_kept [x; y] ρ st ρ st' ∧
    (o = OUnit ∧ container_at st' ρ x = Some (take p xs ++ [v] ++ drop p xs, a) ∧
       container_at st' ρ y = Some (take q ys ++ drop (S q) ys, b) ∨
     failed o ∧ container_at st' ρ x = Some (xs, a) ∧ container_at st' ρ y = Some (ys, b)).
Proof.
  intros [σ0 Hr0] Hxy Hc Hcy Hw Hw1 Hv Hf.
  destruct (reached_point _ _ _ _ _ _ Hr0 Hw) as [Hr1 Hat0]. 
  pose proof (see _ _ _ _ _ _ Hr1 Hcy) as Hsy0.
  destruct (add_iter _ _ _ _ _ _ Hr1 Hw1) as (σ & Hr & Hat1 & Hcn & Hk0).
  assert (at_it σ w x p) as Hat.
  { apply Hk0; [done|]. left. rewrite /contents Hsy0. by destruct ys. }
  pose proof (see _ _ _ _ _ _ Hr Hc) as Hs. visible Hs. pose proof (see _ _ _ _ _ _ Hr Hcy) as Hsy. visible Hsy.
  set (c := SpliceOne x w y w1). assert (pre C σ c) as Hpre.
  { exists p, q. split_and!; [done|done|rewrite H2; by eapply lookup_lt_Some|done|]. rewrite /fits. congruence. }
  destruct (call_ok σ ρ st c Hr Hpre) as (o & ρ' & st' & σ' & He & Hst & Hr').
  pose proof (keeps_env_exec c _ _ _ _ _ eq_refl He) as ->.
  exists o, st'. split_and!; [done|by eexists| |].
  - eapply (two_spared σ); [done..|by intros ? ?|]. intros w2 p1 z Hw2 Hz. rewrite !elem_of_cons elem_of_nil in Hw2.
    destruct Hw2 as [->|[->|[]]]; [left; by destruct (at_it_fun _ _ _ _ _ _ Hat Hz) as [-> _]|right; by destruct (at_it_fun _ _ _ _ _ _ Hat1 Hz) as [-> _]].
  - destruct Hst as (p' & q' & v' & Hat' & Hat1' & Hv' & Hst). destruct (at_it_fun _ _ _ _ _ _ Hat Hat') as [_ <-].
    destruct (at_it_fun _ _ _ _ _ _ Hat1 Hat1') as [_ <-]. rewrite H2 Hv in Hv'. injection Hv' as <-. rewrite H H2 in Hst.
    destruct Hst as [[-> ->]|[(e & -> & Hra) ->]]; [left|right].
    + split_and!; [done|eapply show; [done|]..].
      * rewrite conts_modify // /modify /write /= lookup_insert. by rewrite H0.
      * rewrite /modify /write /= lookup_insert /alloc_of /= lookup_insert_ne // Hsy //.
    + split_and!; [by eexists|by eapply show..].
Qed.
(** x.splice(w, y, w1, w2) *)
Theorem C30_splice_range ρ st x w y w1 w2 p i j xs a ys b :
  reached ρ st → x ≠ y → w ≠ w1 → w ≠ w2 →
  container_at st ρ x = Some (xs, a) → container_at st ρ y = Some (ys, b) →
  iterator_at st ρ w x p → iterator_at st ρ w1 y i → iterator_at st ρ w2 y j → i ≤ j →
  length xs + (j - i) < c_W C →
  let zs := take (j - i) (drop i ys) in
  ∃ o st', exec (SpliceRange x w y w1 w2) ρ st = Ok (o, ρ) st' ∧ reached ρ st' ∧ others_kept [x; y] ρ st ρ st' ∧
    (o = OUnit ∧ container_at st' ρ x = Some (take p xs ++ zs ++ drop p xs, a) ∧
       container_at st' ρ y = Some (take i ys ++ drop j ys, b) ∨
     failed o ∧ ∃ k k', k < j - i ∧ k ≤ k' ≤ S k ∧
       container_at st' ρ x = Some (take p xs ++ take k zs ++ drop p xs, a) ∧
       container_at st' ρ y = Some (after_use true i k' ys, b)).
Proof.
  intros [σ0 Hr0] Hxy Hn1 Hn2 Hc Hcy Hw Hw1 Hw2 Hij Hf zs.
  destruct (reached_point2 _ _ _ _ _ _ _ _ Hr0 Hw1 Hw2) as (σ1 & Hr1 & Hat1 & Hat2 & _).
  destruct (reached_point _ _ _ _ _ _ Hr1 Hw) as [Hr Hat]. apply (at_point _ w x p) in Hat1; [|done].
  apply (at_point _ w x p) in Hat2; [|done]. set (σ := point w x p σ1) in *.
  pose proof (see _ _ _ _ _ _ Hr Hc) as Hs. visible Hs. pose proof (see _ _ _ _ _ _ Hr Hcy) as Hsy. visible Hsy.
  set (c := SpliceRange x w y w1 w2). assert (pre C σ c) as Hpre.
  { exists p, i, j. split_and!; [done..|]. rewrite /fits. congruence. }
  destruct (call_ok σ ρ st c Hr Hpre) as (o & ρ' & st' & σ' & He & Hst & Hr').
  pose proof (keeps_env_exec c _ _ _ _ _ eq_refl He) as ->.
  exists o, st'. split_and!; [done|by eexists| |].
  - eapply (two_spared σ); [done..|by intros ? ?|]. intros w3 p1 z Hw3 Hz. rewrite !elem_of_cons elem_of_nil in Hw3.
    destruct Hw3 as [->|[->|[->|[]]]]; [left; by destruct (at_it_fun _ _ _ _ _ _ Hat Hz) as [-> _]|right; by destruct (at_it_fun _ _ _ _ _ _ Hat1 Hz) as [-> _]|right; by destruct (at_it_fun _ _ _ _ _ _ Hat2 Hz) as [-> _]].
  - destruct Hst as (p' & i' & j' & Hat' & Hat1' & Hat2' & Hst). destruct (at_it_fun _ _ _ _ _ _ Hat Hat') as [_ <-].
    destruct (at_it_fun _ _ _ _ _ _ Hat1 Hat1') as [_ <-]. destruct (at_it_fun _ _ _ _ _ _ Hat2 Hat2') as [_ <-].
    cbv zeta in Hst. rewrite H H2 in Hst. change (sub i j ys) with zs in Hst.
    destruct Hst as [[-> ->]|(e & k & k' & [-> Hra] & Hk & Hk' & ->)]; [left|right].
    + split_and!; [done|eapply show; [done|]..].
      * rewrite conts_modify // /modify /write /= lookup_insert. by rewrite H0.
      * rewrite /modify /write /= lookup_insert /alloc_of /= lookup_insert_ne // Hsy //.
    + split; [by eexists|]. exists k, k'. split_and!; [done|lia|lia|eapply show; [done|]..].
      * rewrite /modify /write /= lookup_insert_ne // lookup_insert. by rewrite H0.
      * rewrite /modify /write /= lookup_insert /alloc_of /= lookup_insert_ne // Hsy //.
Qed.

(** ** C31: merge *)
Theorem C31_merge ρ st x y lt xs a ys b :
  reached ρ st → x ≠ y → container_at st ρ x = Some (xs, a) → container_at st ρ y = Some (ys, b) →
  length xs + length ys < c_W C →
  strict_weak lt → StronglySorted (leq lt) xs → StronglySorted (leq lt) ys →
  ∃ o st', exec (MergeIn x y lt) ρ st = Ok (o, ρ) st' ∧ reached ρ st' ∧ others_kept [x; y] ρ st ρ st' ∧
    (o = OUnit ∧ container_at st' ρ y = Some ([], b) ∧
       (∃ zs, container_at st' ρ x = Some (zs, a) ∧ zs ≡ₚ xs ++ ys ∧ StronglySorted (leq lt) zs ∧
          (* stable: of equivalent elements those of x come first, in their order *)
          ∀ v, filter (λ u, equivalent lt v u = true) zs =
               filter (λ u, equivalent lt v u = true) xs ++ filter (λ u, equivalent lt v u = true) ys) ∨
     failed o ∧ (∃ k k', k < length ys ∧ k ≤ k' ≤ S k ∧
       container_at st' ρ x = Some (xs ++ take k ys, a) ∧ container_at st' ρ y = Some (after_use true 0 k' ys, b)) ∨
     balks o).
Proof.
  intros [σ Hr] Hxy Hc Hcy Hf Hsw Hsx Hsoy.
  pose proof (see _ _ _ _ _ _ Hr Hc) as Hs. visible Hs. pose proof (see _ _ _ _ _ _ Hr Hcy) as Hsy. visible Hsy.
  set (c := MergeIn x y lt). assert (pre C σ c) as Hpre.
  { split_and!; [done|done|done|]. rewrite /fits. congruence. }
  destruct (call_ok σ ρ st c Hr Hpre) as (o & ρ' & st' & σ' & He & Hst & Hr').
  pose proof (keeps_env_exec c _ _ _ _ _ eq_refl He) as ->.
  exists o, st'. split_and!; [done|by eexists| |].
  - eapply (two_spared σ); [done..|by intros ? ?|]. intros w1 p1 z Hw1 Hz. by apply elem_of_nil in Hw1.
  - cbn [step c] in Hst. cbv zeta in Hst. rewrite H H2 in Hst.
    destruct Hst as [[-> ->]|[(e & k & k' & [-> Hra] & Hk & Hk' & ->)|[Hb _]]]; [left|right; left|by right; right].
    + split_and!; [done|eapply show; [done|]|].
      * rewrite /modify /write /= lookup_insert /alloc_of /= lookup_insert_ne // Hsy //.
      * exists (stable_merged lt xs ys). split_and!; [eapply show; [done|]|apply stable_merged_perm|by apply stable_merged_sorted|].
        -- rewrite conts_modify // /modify /write /= lookup_insert. by rewrite H0.
        -- intros v. by apply stable_merged_stable.
    + split; [by eexists|]. exists k, k'. split_and!; [done|lia|lia|eapply show; [done|]..].
      * rewrite /modify /write /= lookup_insert_ne // lookup_insert. by rewrite H0.
      * rewrite /modify /write /= lookup_insert /alloc_of /= lookup_insert_ne // Hsy //.
Qed.

(** ** C32: remove, remove_if, unique, reverse, sort *)
Ltac touched := intros ? [?|(? & ? & ?%elem_of_nil & _)]; [assumption|contradiction].
Theorem C32_remove ρ st x s v eq xs a :
  reached ρ st → container_at st ρ x = Some (xs, a) → const_arg (C:=C) st ρ x s v →
  ∃ o st', exec (Remove x s eq) ρ st = Ok (o, ρ) st' ∧ reached ρ st' ∧ spared [x] [] ρ st ρ st' ∧
    (o = OUnit ∧ container_at st' ρ x = Some (filter (λ u, eq u v = false) xs, a) ∨ balks o).
Proof.
  intros [σ0 Hr0] Hc Hs. destruct (const_arg_pre _ _ _ _ _ _ Hr0 Hs) as (σ & Hr & Hs1 & Hs2 & Hs3).
  pose proof (see _ _ _ _ _ _ Hr Hc) as Hcs. visible Hcs.
  assert (pre C σ (Remove x s eq)) as Hpre by (split_and!; [done|by rewrite Hs2|done]).
  destruct (call_ok σ ρ st (Remove x s eq) Hr Hpre) as (o & ρ' & st' & σ' & He & Hst & Hr').
  pose proof (keeps_env_exec (Remove x s eq) _ _ _ _ _ eq_refl He) as ->.
  exists o, st'. split_and!; [done|by eexists| |].
  - eapply (all_spared σ); [done..|by intros ?|by intros ? ?| |].
    + intros y w p σ1 Hy%not_in_one (v1 & _ & [[_ ->]|(_ & ys & _ & ->)]) _ Hw Hly.
      * split; [apply at_modify; [done|apply at_new]|by rewrite conts_modify].
      * split; [apply at_new|]. by rewrite /write /= lookup_insert_ne.
    + intros y σ1 Hy%not_in_one (v1 & _ & [[_ ->]|(_ & ys & _ & ->)]); [by rewrite conts_modify|]. by rewrite /write /= lookup_insert_ne.
  - destruct Hst as (v' & Hv' & [[-> ->]|[Hb _]]); [|by right]. rewrite Hs2 in Hv'. injection Hv' as <-. left. split; [done|].
    eapply show; [done|]. by rewrite /modify /write /= lookup_insert H H0 remove_list_filter.
Qed.
Theorem C32_remove_if ρ st x p xs a :
  reached ρ st → container_at st ρ x = Some (xs, a) →
  ∃ o st', exec (RemoveIf x p) ρ st = Ok (o, ρ) st' ∧ reached ρ st' ∧ others_kept [x] ρ st ρ st' ∧
    (o = OUnit ∧ container_at st' ρ x = Some (filter (λ u, p u = false) xs, a) ∨ balks o).
Proof.
  intros [σ Hr] Hc. pose proof (see _ _ _ _ _ _ Hr Hc) as Hcs. visible Hcs.
  assert (pre C σ (RemoveIf x p)) as Hpre by done.
  destruct (call_ok σ ρ st (RemoveIf x p) Hr Hpre) as (o & ρ' & st' & σ' & He & Hst & Hr').
  pose proof (keeps_env_exec (RemoveIf x p) _ _ _ _ _ eq_refl He) as ->.
  exists o, st'. split_and!; [done|by eexists| |].
  - eapply others; [done..|touched|by intros ? ?].
  - destruct Hst as [[-> ->]|[Hb _]]; [left|by right]. split; [done|]. eapply show; [done|]. by rewrite /modify /write /= lookup_insert H H0 remove_list_filter.
Qed.
Theorem C32_unique ρ st x p xs a :
  reached ρ st → container_at st ρ x = Some (xs, a) →
  ∃ o st', exec (Unique x p) ρ st = Ok (o, ρ) st' ∧ reached ρ st' ∧ others_kept [x] ρ st ρ st' ∧
    ((∃ ys, o = OUnit ∧ container_at st' ρ x = Some (ys, a) ∧ runs_removed p xs ys) ∨ balks o).
Proof.
  intros [σ Hr] Hc. pose proof (see _ _ _ _ _ _ Hr Hc) as Hcs. visible Hcs.
  assert (pre C σ (Unique x p)) as Hpre by done.
  destruct (call_ok σ ρ st (Unique x p) Hr Hpre) as (o & ρ' & st' & σ' & He & Hst & Hr').
  pose proof (keeps_env_exec (Unique x p) _ _ _ _ _ eq_refl He) as ->.
  exists o, st'. split_and!; [done|by eexists| |].
  - eapply others; [done..|touched|by intros ? ?].
  - destruct Hst as [[-> ->]|[Hb _]]; [left|by right]. exists (unique_list p xs). split_and!; [done| |apply unique_list_runs]. eapply show; [done|]. by rewrite /modify /write /= lookup_insert H H0.
Qed.
(** reverse and sort leave every block where it is and every iterator valid *)
Lemma rewrites σ ρ st c x xs a :
  reachable σ ρ st → container_at st ρ x = Some (xs, a) →
  (c = Reverse x ∨ ∃ lt, c = Sort x lt) →
  ∃ o st' σ', exec c ρ st = Ok (o, ρ) st' ∧ reached ρ st' ∧ others_kept [x] ρ st ρ st' ∧ same_place (C:=C) ρ st x ρ st' ∧
    step C σ c o σ' ∧ reachable σ' ρ st'.
Proof.
  intros Hr Hc Hcc. pose proof (see _ _ _ _ _ _ Hr Hc) as Hcs. visible Hcs.
  assert (pre C σ c) as Hpre by (by destruct Hcc as [->|[? ->]]).
  destruct (call_ok σ ρ st c Hr Hpre) as (o & ρ' & st' & σ' & He & Hst & Hr').
  assert (∀ σ1 u σ2, conts σ1 = conts σ → step C σ1 c u σ2 → ∃ zs, length zs = length xs ∧ σ2 = write x zs σ1) as Hw.
  { intros σ1 u σ2 Hcn Hst1. assert (contents σ1 x = xs) as Hcx by (by rewrite /contents Hcn Hcs).
    destruct Hcc as [->|[lt ->]]; cbn [step] in Hst1; rewrite Hcx in Hst1.
    - destruct Hst1 as [_ ->]. exists (reverse xs). by rewrite reverse_length.
    - destruct Hst1 as [[_ ->]|(_ & _ & ys & Hl & ->)]; [|by exists ys].
      exists (stable_sorted lt xs). by rewrite stable_sorted_length. }
  assert (ρ' = ρ) as ->. { eapply (keeps_env_exec c); [|done]. by destruct Hcc as [->|[? ->]]. }
  assert (∀ w, ¬ assigns c w) as Ha by (by destruct Hcc as [->|[? ->]]; intros ? ?).
  exists o, st', σ'. split_and!; [done|by eexists| | |done|done].
  - eapply others; [done..| |done]. destruct Hcc as [->|[? ->]]; touched.
  - destruct (place_spared σ ρ st c o ρ st' x xs a [] Hr Hpre He) as [Hpl Hit]; [by intros w ?%Ha|done| |].
    + intros w p σ1 Hst1 _ _. destruct (Hw (point w x p σ) o σ1 eq_refl Hst1) as (zs & Hl & ->). split.
      * apply at_new.
      * by rewrite /write /contents /= lookup_insert.
    + split; [done|]. intros w p. apply Hit, not_elem_of_nil.
Qed.
Theorem C32_reverse ρ st x xs a :
  reached ρ st → container_at st ρ x = Some (xs, a) →
  ∃ st', exec (Reverse x) ρ st = Ok (OUnit, ρ) st' ∧ reached ρ st' ∧ others_kept [x] ρ st ρ st' ∧ same_place (C:=C) ρ st x ρ st' ∧
    container_at st' ρ x = Some (reverse xs, a).
Proof.
  intros [σ Hr] Hc. pose proof (see _ _ _ _ _ _ Hr Hc) as Hcs. visible Hcs.
  destruct (rewrites σ ρ st (Reverse x) x xs a Hr Hc (or_introl eq_refl)) as (o & st' & σ' & He & ? & ? & ? & [-> ->] & Hr').
  exists st'. split_and!; [done..|]. eapply show; [done|]. by rewrite /write /= lookup_insert H H0.
Qed.
Theorem C32_sort ρ st x lt xs a :
  reached ρ st → container_at st ρ x = Some (xs, a) → strict_weak lt →
  ∃ o st', exec (Sort x lt) ρ st = Ok (o, ρ) st' ∧ reached ρ st' ∧ others_kept [x] ρ st ρ st' ∧ same_place (C:=C) ρ st x ρ st' ∧
    ((∃ zs, o = OUnit ∧ container_at st' ρ x = Some (zs, a) ∧
        zs ≡ₚ xs ∧ StronglySorted (leq lt) zs ∧
        ∀ v, filter (λ u, equivalent lt v u = true) zs = filter (λ u, equivalent lt v u = true) xs) ∨
     balks o).
Proof.
  intros [σ Hr] Hc Hsw. pose proof (see _ _ _ _ _ _ Hr Hc) as Hcs. visible Hcs.
  destruct (rewrites σ ρ st (Sort x lt) x xs a Hr Hc) as (o & st' & σ' & He & ? & ? & ? & Hst & Hr'); [right; by exists lt|].
  exists o, st'. split_and!; [done..|]. destruct Hst as [[-> ->]|[Hb _]]; [left|by right].
  exists (stable_sorted lt xs). split_and!; [done| |apply stable_sorted_perm|by apply stable_sorted_sorted|].
  - eapply show; [done|]. by rewrite /write /= lookup_insert H H0.
  - intros v. by apply stable_sorted_stable.
Qed.

(** ** C33: comparison *)
(** the call answers [o], or an operator of the elements throws and the call passes
    the exception on; nothing changes either way *)
Definition answers_or_throws st ρ c o : Prop := answers st ρ c o ∨ answers st ρ c (OExn EPred) ∧ pred_fails C.
Lemma query_reply σ ρ st c r :
  reachable σ ρ st → pre C σ c → is_const c = true → binds_nothing c = true →
  (∀ o σ', step C σ c o σ' → o = r ∨ balks o) → answers_or_throws st ρ c r.
Proof.
  intros Hr Hp Hc Hb Hs. destruct (query σ ρ st c) as (o & σ' & Hst & Ha); [done..|].
  destruct (Hs _ _ Hst) as [->|[-> Hf]]; [by left|by right].
Qed.
Theorem C33_equal ρ st x y eq xs a ys b :
  reached ρ st → container_at st ρ x = Some (xs, a) → container_at st ρ y = Some (ys, b) →
  (∀ u v, eq u v = true ↔ u = v) →
  ∃ r, (r = true ↔ xs = ys) ∧ answers_or_throws st ρ (CmpEq x y eq) (OBool r) ∧ answers_or_throws st ρ (CmpNe x y eq) (OBool (negb r)).
Proof.
  intros [σ Hr] Hcx Hcy Heq. pose proof (see _ _ _ _ _ _ Hr Hcx) as Hsx. visible Hsx. pose proof (see _ _ _ _ _ _ Hr Hcy) as Hsy. visible Hsy.
  exists (equal_lists eq xs ys). split_and!; [by apply equal_lists_eq|eapply query_reply..]; try done; (intros o σ' [[Ho|[Hb _]] _]; [left; rewrite Ho; congruence|by right]).
Qed.
Theorem C33_less ρ st x y lt xs a ys b :
  reached ρ st → container_at st ρ x = Some (xs, a) → container_at st ρ y = Some (ys, b) → strict_weak lt →
  ∃ r r', (r = true ↔ lex_less lt xs ys) ∧ (r' = true ↔ lex_less lt ys xs) ∧
    answers_or_throws st ρ (CmpLt x y lt) (OBool r) ∧ answers_or_throws st ρ (CmpGe x y lt) (OBool (negb r)) ∧
    answers_or_throws st ρ (CmpGt x y lt) (OBool r') ∧ answers_or_throws st ρ (CmpLe x y lt) (OBool (negb r')).
Proof.
  intros [σ Hr] Hcx Hcy Hsw. pose proof (see _ _ _ _ _ _ Hr Hcx) as Hsx. visible Hsx. pose proof (see _ _ _ _ _ _ Hr Hcy) as Hsy. visible Hsy.
  exists (lex_lists lt xs ys), (lex_lists lt ys xs).
  split_and!; [by apply lex_lists_spec..| | | |]; (eapply query_reply; try done; intros o σ' [[Ho|[Hb _]] _]; [left; rewrite Ho; congruence|by right]).
Qed.
End props.
