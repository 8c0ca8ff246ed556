(** * C08-C12: positions, iteration, jumps, comparison of iterators *)
From Verif Require Export PropsBasic.
From stdpp Require Import options.
Set Default Proof Using "Type*".

Section defs.
Context {T : Type} (C : cfg T).
(** the call does the same as [w = x.nth(q)], for the variables, and leaves the
    memory alone; [w] then is an iterator for index [q] *)
Definition replies (st : state T) (ρ : env) (c : cmd T) (u : out T) (w x q : nat) : Prop :=
  ∃ ρ' st1 st2,
    exec (C:=C) c ρ st = Ok (u, ρ') st1 ∧ st_heap st1 = st_heap st ∧ st_clk st1 = st_clk st ∧
    reached C ρ' st1 ∧ iterator_at C st1 ρ' w x q ∧ e_cont ρ' = e_cont ρ ∧
    exec (C:=C) (NthOf x q w) ρ st = Ok (OUnit, ρ') st2.
Definition moves_to (st : state T) (ρ : env) (c : cmd T) (w x q : nat) : Prop := replies st ρ c OUnit w x q.
(** for (w = x.begin(), e = x.end(); !(w == e); ++w) read *w; at most n times *)
Fixpoint walk (w e n : nat) : client (T:=T) :=
  match n with
  | 0 => Stop
  | S n' => Call (ItEq w e) (λ o,
      match o with
      | OBool false => Call (Deref w) (λ _, Call (StepNext w w) (λ _, walk w e n'))
      | _ => Stop
      end)
  end.
Definition for_each (x w e n : nat) : client (T:=T) := Call (Begin x w) (λ _, Call (End x e) (λ _, walk w e n)).
(** the same with reverse iterators *)
Fixpoint rwalk (w b n : nat) : client (T:=T) :=
  match n with
  | 0 => Stop
  | S n' => Call (ItEq w b) (λ o,
      match o with
      | OBool false => Call (RDeref w) (λ _, Call (StepPrev w w) (λ _, rwalk w b n'))
      | _ => Stop
      end)
  end.
Definition rfor_each (x w b n : nat) : client (T:=T) := Call (End x w) (λ _, Call (Begin x b) (λ _, rwalk w b n)).
Definition visit (w e : nat) (v : T) : list (cmd T * out T) :=
  [(ItEq w e, OBool false); (Deref w, OVal v); (StepNext w w, OUnit)].
Definition rvisit (w b : nat) (v : T) : list (cmd T * out T) :=
  [(ItEq w b, OBool false); (RDeref w, OVal v); (StepPrev w w, OUnit)].
End defs.

Section props.
Context {T : Type} {C : cfg T} {OK : cfg_ok C}.
Implicit Types σ : sst T.
Implicit Types ρ : env.
Implicit Types st : state T.
Implicit Types c : cmd T.
Implicit Types xs ys : list T.
Notation reachable := (reachable C).
Notation reached := (reached C).
Notation iterator_at := (iterator_at C).
Notation answers := (answers C).
Notation moves_to := (moves_to C).
Notation replies := (replies C).
Notation exec := (exec (C:=C)).

(** calls that only assign [w] *)
Definition only w ρ (m : M T (out T * env)) : Prop := ∀ st,
  match m st with Ok (_, ρ') _ => ρ' = ρ ∨ ∃ it, ρ' = bindi w it ρ | _ => True end.
Lemma only_bind {A} w ρ (m : M T A) k : (∀ a, only w ρ (k a)) → only w ρ (m ≫= k).
Proof.
  intros H st. rewrite /mbind /M_bind. destruct (m st) as [a st1|e st1|f]; try done. apply H.
Qed.
Lemma only_exec w c ρ st u ρ' st' :
  assigns c w → exec c ρ st = Ok (u, ρ') st' → ρ' = ρ ∨ ∃ it, ρ' = bindi w it ρ.
Proof.
  intros Ha. assert (only w ρ (exec_call c ρ)) as H.
  { destruct c; try done; cbn [exec_call assigns] in *; subst; rewrite /done_;
    repeat first [ intros ?; simpl; by eauto | match goal with |- only _ _ (if ?b then _ else _) => destruct b end
                 | apply only_bind; intros ]. }
  specialize (H st). rewrite /Exec.exec /try_catch. destruct (exec_call c ρ st) as [[o ρ1] st1|e st1|f];
    intros Hx; unfold mret, M_ret in Hx; simplify_eq; [done|by left].
Qed.
Lemma bindi_eq w ρ ρ1 ρ2 it :
  (ρ1 = ρ ∨ ∃ it, ρ1 = bindi w it ρ) → (ρ2 = ρ ∨ ∃ it, ρ2 = bindi w it ρ) →
  e_iter ρ1 !! w = Some it → e_iter ρ2 !! w = Some it → ρ1 = ρ2.
Proof.
  destruct ρ as [cs ii]. assert (∀ it', bindi w it' (Env cs ii) = Env cs (<[w:=it']> ii)) as E by done.
  intros [->|[it1 ->]] [->|[it2 ->]]; rewrite ?E /= ?lookup_insert; intros; simplify_eq; try done;
    by rewrite insert_id.
Qed.
Lemma nav_gen σ ρ st c u w x q :
  reachable σ ρ st → pre C σ c → is_const c = true → assigns c w →
  (∀ o ρ' st' σ', exec c ρ st = Ok (o, ρ') st' → step C σ c o σ' → o = u ∧ σ' = point w x q σ) → replies st ρ c u w x q.
Proof.
  intros Hr Hp Hc Ha Hs. destruct (call_ok _ _ _ _ Hr Hp) as (o & ρ' & st1 & σ' & He & Hst & Hr1).
  destruct (Hs _ _ _ _ He Hst) as [-> ->]. pose proof (exec_same _ _ _ _ _ _ Hc He) as (Hh & Hk & _).
  pose proof (reachable_R _ _ _ Hr1) as HR1. rewrite Hh in HR1.
  assert (at_it (point w x q σ) w x q) as Hat by by rewrite /at_it /= lookup_insert.
  destruct (R_iter _ _ _ _ _ _ HR1 Hat) as (o & a & l & it & Hl & Ho & Hit & Hok & Hq & _).
  pose proof (only_exec _ _ _ _ _ _ _ Ha He) as Hsh.
  assert (e_cont ρ' = e_cont ρ) as Hec by (destruct Hsh as [->|[? ->]]; done).
  pose proof (reachable_R _ _ _ Hr) as HR. rewrite Hec in Hl.
  pose proof (lives_container _ _ _ _ _ _ Hl Ho) as Hcx.
  assert (contents σ x = oelems o) as Hcs by (rewrite /contents (R_conts _ _ _ _ HR) Hcx; done).
  assert (q ≤ length (oelems o)) as Hle by (rewrite -Hq; by apply it_ok_le).
  destruct (call_ok σ ρ st (NthOf x q w) Hr) as (u2 & ρ2 & st2 & σ2 & He2 & [-> ->] & Hr2).
  { cbn [pre]. rewrite /live (R_conts _ _ _ _ HR) Hcx. done. }
  rewrite Hcs Nat.min_l // in Hr2. pose proof (only_exec w (NthOf x q w) _ _ _ _ _ eq_refl He2) as Hsh2.
  pose proof (exec_same (NthOf x q w) _ _ _ _ _ eq_refl He2) as (Hh2 & _ & _).
  pose proof (reachable_R _ _ _ Hr2) as HR2. rewrite Hh2 in HR2.
  assert (e_cont ρ2 = e_cont ρ) as Hec2 by (destruct Hsh2 as [->|[? ->]]; done).
  assert (e_iter ρ' !! w = e_iter ρ2 !! w) as Heq by (eapply R_iter_eq; [done|done| |done|done]; congruence).
  assert (ρ2 = ρ') as -> by (eapply bindi_eq; [done|done| |done]; by rewrite -Heq).
  exists ρ', st1, st2. split_and!; try done.
  - by eexists.
  - by eapply canonical.
Qed.

Lemma nav σ ρ st c w x q :
  reachable σ ρ st → pre C σ c → is_const c = true → assigns c w →
  (∀ o σ', step C σ c o σ' → o = OUnit ∧ σ' = point w x q σ) → moves_to st ρ c w x q.
Proof. intros Hr Hp Hc Ha Hs. eapply nav_gen; [done..|]. intros; by eapply Hs. Qed.

(** ** C08 *)
Theorem C08_nth ρ st x n w xs a :
  reached ρ st → container_at st ρ x = Some (xs, a) → moves_to st ρ (NthOf x n w) w x (n `min` length xs).
Proof.
  intros [σ Hr] Hc. pose proof (see _ _ _ _ _ _ Hr Hc) as Hs. visible Hs.
  eapply (nav σ); [done|done|done|done|]. intros o σ' [-> ->]. by rewrite H.
Qed.
Theorem C08_begin_end ρ st x w xs a :
  reached ρ st → container_at st ρ x = Some (xs, a) →
  moves_to st ρ (Begin x w) w x 0 ∧ moves_to st ρ (End x w) w x (length xs) ∧
  (xs ≠ [] → moves_to st ρ (Penultimate x w) w x (length xs - 1)).
Proof.
  intros [σ Hr] Hc. pose proof (see _ _ _ _ _ _ Hr Hc) as Hs. visible Hs. split_and!; [| |intros Hne];
    (eapply (nav σ); [done|simpl; congruence|done|done|]); intros o σ' [-> ->]; by rewrite ?H.
Qed.
Theorem C08_index_of ρ st x w p xs a :
  reached ρ st → container_at st ρ x = Some (xs, a) → iterator_at st ρ w x p →
  p ≤ length xs ∧ answers st ρ (IndexOf x w) (ONat p) ∧ (∀ v, xs !! p = Some v → answers st ρ (Deref w) (OVal v)).
Proof.
  intros [σ0 Hr0] Hc Hw. split; [by eapply iterator_at_le|].
  destruct (reached_point _ _ _ _ _ _ Hr0 Hw) as [Hr Hat]. set (σ := point w x p σ0) in *.
  pose proof (see _ _ _ _ _ _ Hr Hc) as Hs. visible Hs. split.
  - destruct (query σ ρ st (IndexOf x w)) as (o & σ' & [(p' & Hp' & ->) _] & Ha); [done| |done|done|].
    { by exists p. } by destruct (at_it_fun _ _ _ _ _ _ Hat Hp') as [_ <-].
  - intros v Hv. eapply show_deref; [done|]. rewrite /deref Hat /=. by rewrite H.
Qed.
(** an index determines the iterator in every field *)
Theorem C08_unique ρ st w w' x p :
  reached ρ st → iterator_at st ρ w x p → iterator_at st ρ w' x p → e_iter ρ !! w = e_iter ρ !! w'.
Proof.
  intros [σ Hr] H1 H2. destruct (reached_point2 _ _ _ _ _ _ _ _ Hr H1 H2) as (σ' & Hr' & Ha1 & Ha2 & _).
  by eapply R_iter_eq; [apply reachable_R|apply reachable_R|..].
Qed.

(** ** C09, C10: single steps *)
Theorem C09_next ρ st w w' x p xs a :
  reached ρ st → container_at st ρ x = Some (xs, a) → iterator_at st ρ w x p → p < length xs →
  moves_to st ρ (StepNext w w') w' x (p + 1).
Proof.
  intros [σ0 Hr0] Hc Hw Hp. destruct (reached_point _ _ _ _ _ _ Hr0 Hw) as [Hr Hat]. set (σ := point w x p σ0) in *.
  pose proof (see _ _ _ _ _ _ Hr Hc) as Hs. visible Hs.
  assert (pre C σ (StepNext w w')) as Hpre by (exists x, p; split; [done|congruence]).
  assert (∀ o σ', step C σ (StepNext w w') o σ' → o = OUnit ∧ σ' = point w' x (p + 1) σ) as Hst.
  { intros o σ' (x' & p' & Hat' & -> & ->). by destruct (at_it_fun _ _ _ _ _ _ Hat Hat') as [<- <-]. }
  by apply (nav σ).
Qed.
Theorem C10_prev ρ st w w' x p :
  reached ρ st → iterator_at st ρ w x p → 0 < p → moves_to st ρ (StepPrev w w') w' x (p - 1).
Proof.
  intros [σ0 Hr0] Hw Hp. destruct (reached_point _ _ _ _ _ _ Hr0 Hw) as [Hr Hat]. set (σ := point w x p σ0) in *.
  assert (pre C σ (StepPrev w w')) as Hpre by by exists x, p.
  assert (∀ o σ', step C σ (StepPrev w w') o σ' → o = OUnit ∧ σ' = point w' x (p - 1) σ) as Hst.
  { intros o σ' (x' & p' & Hat' & -> & ->). by destruct (at_it_fun _ _ _ _ _ _ Hat Hat') as [<- <-]. }
  by apply (nav σ).
Qed.
Theorem C10_rderef ρ st w x p xs a v :
  reached ρ st → container_at st ρ x = Some (xs, a) → iterator_at st ρ w x p → 0 < p → xs !! (p - 1) = Some v →
  answers st ρ (RDeref w) (OVal v).
Proof.
  intros [σ0 Hr0] Hc Hw Hp Hv. destruct (reached_point _ _ _ _ _ _ Hr0 Hw) as [Hr Hat]. set (σ := point w x p σ0) in *.
  pose proof (see _ _ _ _ _ _ Hr Hc) as Hs. visible Hs.
  destruct (query σ ρ st (RDeref w)) as (o & σ' & [(x' & p' & v' & Hat' & Hv' & ->) _] & Ha); [done| |done|done|].
  { by exists x, p. }
  destruct (at_it_fun _ _ _ _ _ _ Hat Hat') as [<- <-]. rewrite H Hv in Hv'. by simplify_eq.
Qed.

(** ** C11: jumps *)
Theorem C11_jump ρ st w w' x p d xs a :
  reached ρ st → container_at st ρ x = Some (xs, a) → iterator_at st ρ w x p →
  (0 ≤ Z.of_nat p + d ≤ Z.of_nat (length xs))%Z →
  moves_to st ρ (StepAdd w d w') w' x (Z.to_nat (Z.of_nat p + d)) ∧
  moves_to st ρ (StepSub w (- d) w') w' x (Z.to_nat (Z.of_nat p + d)) ∧
  (∀ v, xs !! Z.to_nat (Z.of_nat p + d) = Some v → answers st ρ (DerefAt w d) (OVal v)).
Proof.
  intros [σ0 Hr0] Hc Hw Hp. destruct (reached_point _ _ _ _ _ _ Hr0 Hw) as [Hr Hat]. set (σ := point w x p σ0) in *.
  pose proof (see _ _ _ _ _ _ Hr Hc) as Hs. visible Hs. split_and!.
  - assert (pre C σ (StepAdd w d w')) as Hpre by (exists x, p; rewrite H; done).
    assert (∀ o σ', step C σ (StepAdd w d w') o σ' → o = OUnit ∧ σ' = point w' x (Z.to_nat (Z.of_nat p + d)) σ) as Hst.
    { intros o σ' (x' & p' & Hat' & -> & ->). by destruct (at_it_fun _ _ _ _ _ _ Hat Hat') as [<- <-]. }
    by apply (nav σ).
  - assert (pre C σ (StepSub w (- d) w')) as Hpre by (exists x, p; rewrite H; split; [done|lia]).
    assert (∀ o σ', step C σ (StepSub w (- d) w') o σ' → o = OUnit ∧ σ' = point w' x (Z.to_nat (Z.of_nat p + d)) σ) as Hst.
    { intros o σ' (x' & p' & Hat' & -> & ->). destruct (at_it_fun _ _ _ _ _ _ Hat Hat') as [<- <-].
      split; [done|]. do 2 f_equal. lia. }
    by apply (nav σ).
  - intros v Hv. destruct (query σ ρ st (DerefAt w d)) as (o & σ' & [(x' & p' & v' & Hat' & Hv' & ->) _] & Ha); [done| |done|done|].
    { exists x, p. split; [done|]. rewrite H. apply lookup_lt_Some in Hv. lia. }
    destruct (at_it_fun _ _ _ _ _ _ Hat Hat') as [<- <-]. rewrite H Hv in Hv'. by simplify_eq.
Qed.

(** ** C12: comparison and distance *)
Theorem C12_compare ρ st w1 w2 x p q :
  reached ρ st → iterator_at st ρ w1 x p → iterator_at st ρ w2 x q →
  answers st ρ (ItEq w1 w2) (OBool (bool_decide (p = q))) ∧
  answers st ρ (ItNe w1 w2) (OBool (bool_decide (p ≠ q))) ∧
  answers st ρ (ItLt w1 w2) (OBool (bool_decide (p < q))) ∧
  answers st ρ (ItLe w1 w2) (OBool (bool_decide (p ≤ q))) ∧
  answers st ρ (ItGt w1 w2) (OBool (bool_decide (q < p))) ∧
  answers st ρ (ItGe w1 w2) (OBool (bool_decide (q ≤ p))).
Proof.
  intros [σ0 Hr0] H1 H2. destruct (reached_point2 _ _ _ _ _ _ _ _ Hr0 H1 H2) as (σ & Hr & Hat1 & Hat2 & _).
  assert (∀ c u, (pre C σ c) → is_const c = true → binds_nothing c = true →
    (∀ o σ', step C σ c o σ' → o = u) → answers st ρ c u) as Q.
  { intros c u Hp Hc Hb Hu. destruct (query σ ρ st c) as (o & σ' & Hst & Ha); [done..|]. by rewrite -(Hu _ _ Hst). }
  split_and!; (apply Q; [by exists x, p, q|done|done|]); intros o σ' [(x' & p' & q' & Hat1' & Hat2' & ->) _];
    destruct (at_it_fun _ _ _ _ _ _ Hat1 Hat1') as [<- <-]; destruct (at_it_fun _ _ _ _ _ _ Hat2 Hat2') as [_ <-]; done.
Qed.
(** the distance must be representable: |p - q| <= PTRDIFF_MAX *)
Theorem C12_difference ρ st w1 w2 x p q :
  reached ρ st → iterator_at st ρ w1 x p → iterator_at st ρ w2 x q →
  (2 * Z.abs (Z.of_nat p - Z.of_nat q) < Z.of_nat (c_W C))%Z →
  answers st ρ (Diff w1 w2) (OInt (Z.of_nat p - Z.of_nat q)) ∧
  moves_to st ρ (StepAdd w2 (Z.of_nat p - Z.of_nat q) w2) w2 x p.
Proof.
  intros Hre H1 H2 Hd. split.
  - destruct Hre as [σ0 Hr0]. destruct (reached_point2 _ _ _ _ _ _ _ _ Hr0 H1 H2) as (σ & Hr & Hat1 & Hat2 & _).
    destruct (query σ ρ st (Diff w1 w2)) as (o & σ' & [(x' & p' & q' & Hat1' & Hat2' & ->) _] & Ha); [done| |done|done|].
    { by exists x, p, q. }
    destruct (at_it_fun _ _ _ _ _ _ Hat1 Hat1') as [<- <-]. by destruct (at_it_fun _ _ _ _ _ _ Hat2 Hat2') as [_ <-].
  - pose proof H1 as (xs & a & _ & Hc & Hle & _).
    pose proof (C11_jump ρ st w2 w2 x q (Z.of_nat p - Z.of_nat q) xs a Hre Hc H2 ltac:(lia)) as (Hm & _).
    by replace (Z.to_nat (Z.of_nat q + (Z.of_nat p - Z.of_nat q))) with p in Hm by lia.
Qed.

(** ** C09, C10: whole traversals *)
(** the traversal reads every element once, in order, then stops *)
Lemma run_call c k ρ st o ρ' st' (r : list (cmd T * out T) * env) st2 :
  exec c ρ st = Ok (o, ρ') st' → run (C:=C) (k o) ρ' st' = Ok r st2 → run (C:=C) (Call c k) ρ st = Ok ((c, o) :: r.1, r.2) st2.
Proof. intros He Hr. simpl. unfold mbind, M_bind. rewrite He /=. by rewrite Hr. Qed.
Lemma container_heap st st' ρ ρ' x :
  st_heap st' = st_heap st → e_cont ρ' = e_cont ρ → container_at st' ρ' x = container_at st ρ x.
Proof. intros Hh He. rewrite /container_at /segments /seq_at He Hh. done. Qed.
Lemma iterator_heap ρ st ρ' st' w x p :
  reached ρ st → reached ρ' st' → st_heap st' = st_heap st → e_cont ρ' = e_cont ρ → e_iter ρ' !! w = e_iter ρ !! w →
  iterator_at st ρ w x p → iterator_at st' ρ' w x p.
Proof.
  intros Hr Hr' Hh He Hi Hw. destruct (iterator_elim _ _ _ _ _ Hr Hw) as (o & a & l & it & Hl & Ho & Hit & Hok & <- & _).
  eapply iterator_intro; [done| | | |done].
  - by rewrite He.
  - by rewrite Hh.
  - by rewrite Hi.
Qed.
Lemma moves_keeps st ρ c w (x q : nat) ρ' st1 w2 :
  assigns c w → w ≠ w2 → exec c ρ st = Ok (OUnit, ρ') st1 → e_iter ρ' !! w2 = e_iter ρ !! w2.
Proof.
  intros Ha Hne He. destruct (only_exec _ _ _ _ _ _ _ Ha He) as [->|[it ->]]; [done|]. by rewrite /= lookup_insert_ne.
Qed.
Lemma reached_same ρ st st' : reached ρ st → st_heap st' = st_heap st → st_clk st' = st_clk st → reached ρ st'.
Proof.
  destruct st as [h n k], st' as [h' n' k']; simpl. intros [σ Hr] -> ->. exists σ. by eapply reach_count.
Qed.

Lemma walk_ok ρ st x w e xs a n p :
  reached ρ st → w ≠ e → container_at st ρ x = Some (xs, a) → iterator_at st ρ w x p → iterator_at st ρ e x (length xs) →
  length xs - p < n → 
  ∃ ρ' st', run (walk w e n) ρ st = Ok (concat (visit w e <$> drop p xs) ++ [(ItEq w e, OBool true)], ρ') st' ∧
    reached ρ' st' ∧ st_heap st' = st_heap st ∧ e_cont ρ' = e_cont ρ ∧ iterator_at st' ρ' w x (length xs).
Proof.
  revert ρ st p. induction n as [|n IH]; intros ρ st p Hr Hne Hc Hw He Hn; [lia|].
  pose proof (iterator_at_le _ _ _ _ _ _ _ Hc Hw) as Hle.
  pose proof (C12_compare ρ st w e x p (length xs) Hr Hw He) as ((st1 & He1 & Hh1 & Hk1 & _) & _).
  assert (reached ρ st1) as Hr1 by by eapply reached_same.
  destruct (decide (p = length xs)) as [->|Hp].
  - rewrite drop_ge //. exists ρ, st1. rewrite bool_decide_eq_true_2 // in He1. split_and!; [|done|done|done|].
    + cbn [walk]. eapply (run_call _ _ _ _ _ _ _ ([], ρ)); [done|]. done.
    + by apply (iterator_heap ρ st).
  - rewrite bool_decide_eq_false_2 // in He1.
    destruct (lookup_lt_is_Some_2 xs p) as [v Hv]; [lia|].
    assert (container_at st1 ρ x = Some (xs, a)) as Hc1 by (rewrite -Hc; by apply container_heap).
    assert (iterator_at st1 ρ w x p) as Hw1 by by apply (iterator_heap ρ st).
    assert (iterator_at st1 ρ e x (length xs)) as Hex1 by by apply (iterator_heap ρ st).
    destruct (proj2 (proj2 (C08_index_of ρ st1 x w p xs a Hr1 Hc1 Hw1)) v Hv) as (st2 & He2 & Hh2 & Hk2 & _).
    assert (reached ρ st2) as Hr2 by by eapply reached_same.
    assert (container_at st2 ρ x = Some (xs, a)) as Hc2 by (rewrite -Hc1; by apply container_heap).
    assert (iterator_at st2 ρ w x p) as Hw2 by by apply (iterator_heap ρ st1).
    assert (iterator_at st2 ρ e x (length xs)) as Hex2 by by apply (iterator_heap ρ st1).
    destruct (C09_next ρ st2 w w x p xs a Hr2 Hc2 Hw2 ltac:(lia)) as (ρ3 & st3 & _ & He3 & Hh3 & Hk3 & Hr3 & Hw3 & Hc3 & _).
    pose proof (moves_keeps st2 ρ (StepNext w w) w x (p + 1) ρ3 st3 e eq_refl Hne He3) as Hke.
    destruct (IH ρ3 st3 (p + 1) Hr3 Hne) as (ρ4 & st4 & Hrun & Hr4 & Hh4 & Hc4 & Hw4).
    + rewrite -Hc2. by apply container_heap.
    + done.
    + by apply (iterator_heap ρ st2).
    + lia.
    + exists ρ4, st4. split_and!; [|done|congruence|congruence|done].
      rewrite (drop_S xs v p) //. cbn [walk fmap list_fmap concat].
      eapply (run_call _ _ _ _ _ _ _ (_, ρ4)); [done|]. cbn [bool_decide].
      eapply (run_call _ _ _ _ _ _ _ (_, ρ4)); [done|].
      eapply (run_call _ _ _ _ _ _ _ (_, ρ4)); [done|]. rewrite Hrun. by replace (p + 1) with (S p) by lia.
Qed.
Theorem C09_traverse ρ st x w e n xs a :
  reached ρ st → w ≠ e → container_at st ρ x = Some (xs, a) → length xs < n →
  ∃ ρ' st', run (for_each x w e n) ρ st =
      Ok ([(Begin x w, OUnit); (End x e, OUnit)] ++ concat (visit w e <$> xs) ++ [(ItEq w e, OBool true)], ρ') st' ∧
    reached ρ' st' ∧ st_heap st' = st_heap st ∧ container_at st' ρ' x = Some (xs, a).
Proof.
  intros Hr Hne Hc Hn.
  destruct (proj1 (C08_begin_end ρ st x w xs a Hr Hc)) as (ρ1 & st1 & _ & He1 & Hh1 & Hk1 & Hr1 & Hw1 & Hc1 & _).
  assert (container_at st1 ρ1 x = Some (xs, a)) as Hcc1 by (rewrite -Hc; by apply container_heap).
  destruct (proj1 (proj2 (C08_begin_end ρ1 st1 x e xs a Hr1 Hcc1))) as (ρ2 & st2 & _ & He2 & Hh2 & Hk2 & Hr2 & Hw2 & Hc2 & _).
  pose proof (moves_keeps st1 ρ1 (End x e) e x 0 ρ2 st2 w eq_refl ltac:(done) He2) as Hke.
  assert (container_at st2 ρ2 x = Some (xs, a)) as Hcc2 by (rewrite -Hcc1; by apply container_heap).
  destruct (walk_ok ρ2 st2 x w e xs a n 0 Hr2 Hne Hcc2) as (ρ3 & st3 & Hrun & Hr3 & Hh3 & Hc3 & _).
  { by apply (iterator_heap ρ1 st1). } { done. } { lia. }
  exists ρ3, st3. split_and!; [|done|congruence|].
  - rewrite /for_each. eapply (run_call _ _ _ _ _ _ _ (_, ρ3)); [done|]. eapply (run_call _ _ _ _ _ _ _ (_, ρ3)); [done|].
    by rewrite Hrun drop_0.
  - rewrite -Hcc2. by apply container_heap.
Qed.
Lemma rwalk_ok ρ st x w b xs a n p :
  reached ρ st → w ≠ b → container_at st ρ x = Some (xs, a) → iterator_at st ρ w x p → iterator_at st ρ b x 0 →
  p < n →
  ∃ ρ' st', run (rwalk w b n) ρ st = Ok (concat (rvisit w b <$> reverse (take p xs)) ++ [(ItEq w b, OBool true)], ρ') st' ∧
    reached ρ' st' ∧ st_heap st' = st_heap st ∧ e_cont ρ' = e_cont ρ ∧ iterator_at st' ρ' w x 0.
Proof.
  revert ρ st p. induction n as [|n IH]; intros ρ st p Hr Hne Hc Hw He Hn; [lia|].
  pose proof (iterator_at_le _ _ _ _ _ _ _ Hc Hw) as Hle.
  pose proof (C12_compare ρ st w b x p 0 Hr Hw He) as ((st1 & He1 & Hh1 & Hk1 & _) & _).
  assert (reached ρ st1) as Hr1 by by eapply reached_same.
  destruct (decide (p = 0)) as [->|Hp].
  - exists ρ, st1. rewrite bool_decide_eq_true_2 // in He1. split_and!; [|done|done|done|].
    + cbn [rwalk]. eapply (run_call _ _ _ _ _ _ _ ([], ρ)); [done|]. done.
    + by apply (iterator_heap ρ st).
  - rewrite bool_decide_eq_false_2 // in He1. destruct p as [|p]; [done|].
    destruct (lookup_lt_is_Some_2 xs p) as [v Hv]; [lia|].
    assert (container_at st1 ρ x = Some (xs, a)) as Hc1 by (rewrite -Hc; by apply container_heap).
    assert (iterator_at st1 ρ w x (S p)) as Hw1 by by apply (iterator_heap ρ st).
    assert (iterator_at st1 ρ b x 0) as Hex1 by by apply (iterator_heap ρ st).
    destruct (C10_rderef ρ st1 w x (S p) xs a v Hr1 Hc1 Hw1 ltac:(lia)) as (st2 & He2 & Hh2 & Hk2 & _).
    { by rewrite /= Nat.sub_0_r. }
    assert (reached ρ st2) as Hr2 by by eapply reached_same.
    assert (container_at st2 ρ x = Some (xs, a)) as Hc2 by (rewrite -Hc1; by apply container_heap).
    assert (iterator_at st2 ρ w x (S p)) as Hw2 by by apply (iterator_heap ρ st1).
    assert (iterator_at st2 ρ b x 0) as Hex2 by by apply (iterator_heap ρ st1).
    destruct (C10_prev ρ st2 w w x (S p) Hr2 Hw2 ltac:(lia)) as (ρ3 & st3 & _ & He3 & Hh3 & Hk3 & Hr3 & Hw3 & Hc3 & _).
    rewrite /= Nat.sub_0_r in Hw3.
    pose proof (moves_keeps st2 ρ (StepPrev w w) w x p ρ3 st3 b eq_refl Hne He3) as Hke.
    destruct (IH ρ3 st3 p Hr3 Hne) as (ρ4 & st4 & Hrun & Hr4 & Hh4 & Hc4 & Hw4).
    + rewrite -Hc2. by apply container_heap.
    + done.
    + by apply (iterator_heap ρ st2).
    + lia.
    + exists ρ4, st4. split_and!; [|done|congruence|congruence|done].
      rewrite (take_S_r xs p v) // reverse_snoc. cbn [rwalk fmap list_fmap concat].
      eapply (run_call _ _ _ _ _ _ _ (_, ρ4)); [done|]. cbn [bool_decide].
      eapply (run_call _ _ _ _ _ _ _ (_, ρ4)); [done|].
      eapply (run_call _ _ _ _ _ _ _ (_, ρ4)); [done|]. by rewrite Hrun.
Qed.
Theorem C10_reverse_traverse ρ st x w b n xs a :
  reached ρ st → w ≠ b → container_at st ρ x = Some (xs, a) → length xs < n →
  ∃ ρ' st', run (rfor_each x w b n) ρ st =
      Ok ([(End x w, OUnit); (Begin x b, OUnit)] ++ concat (rvisit w b <$> reverse xs) ++ [(ItEq w b, OBool true)], ρ') st' ∧
    reached ρ' st' ∧ st_heap st' = st_heap st ∧ container_at st' ρ' x = Some (xs, a).
Proof.
  intros Hr Hne Hc Hn.
  destruct (proj1 (proj2 (C08_begin_end ρ st x w xs a Hr Hc))) as (ρ1 & st1 & _ & He1 & Hh1 & Hk1 & Hr1 & Hw1 & Hc1 & _).
  assert (container_at st1 ρ1 x = Some (xs, a)) as Hcc1 by (rewrite -Hc; by apply container_heap).
  destruct (proj1 (C08_begin_end ρ1 st1 x b xs a Hr1 Hcc1)) as (ρ2 & st2 & _ & He2 & Hh2 & Hk2 & Hr2 & Hw2 & Hc2 & _).
  pose proof (moves_keeps st1 ρ1 (Begin x b) b x 0 ρ2 st2 w eq_refl ltac:(done) He2) as Hke.
  assert (container_at st2 ρ2 x = Some (xs, a)) as Hcc2 by (rewrite -Hcc1; by apply container_heap).
  destruct (rwalk_ok ρ2 st2 x w b xs a n (length xs) Hr2 Hne Hcc2) as (ρ3 & st3 & Hrun & Hr3 & Hh3 & Hc3 & _).
  { by apply (iterator_heap ρ1 st1). } { done. } { lia. }
  exists ρ3, st3. split_and!; [|done|congruence|].
  - rewrite /rfor_each. eapply (run_call _ _ _ _ _ _ _ (_, ρ3)); [done|]. eapply (run_call _ _ _ _ _ _ _ (_, ρ3)); [done|].
    by rewrite Hrun take_ge.
  - rewrite -Hcc2. by apply container_heap.
Qed.
(** ++ and -- are inverse *)
Theorem C10_inverse ρ st w x p xs a :
  reached ρ st → container_at st ρ x = Some (xs, a) → iterator_at st ρ w x p → p < length xs →
  ∃ ρ1 st1 st2, exec (StepNext w w) ρ st = Ok (OUnit, ρ1) st1 ∧ exec (StepPrev w w) ρ1 st1 = Ok (OUnit, ρ) st2.
Proof.
  intros Hr Hc Hw Hp.
  destruct (C09_next ρ st w w x p xs a Hr Hc Hw Hp) as (ρ1 & st1 & _ & He1 & Hh1 & Hk1 & Hr1 & Hw1 & Hc1 & _).
  destruct (C10_prev ρ1 st1 w w x (p + 1) Hr1 Hw1 ltac:(lia)) as (ρ2 & st2 & _ & He2 & Hh2 & Hk2 & Hr2 & Hw2 & Hc2 & _).
  rewrite Nat.add_sub in Hw2.
  exists ρ1, st1, st2. split; [done|]. rewrite He2. do 2 f_equal.
  destruct (iterator_elim _ _ _ _ _ Hr Hw) as (o & a0 & l & it & Hl & Ho & Hit & Hok & Hpos & _).
  destruct (iterator_elim _ _ _ _ _ Hr2 Hw2) as (o2 & a2 & l2 & it2 & Hl2 & Ho2 & Hit2 & Hok2 & Hpos2 & _).
  assert (e_cont ρ2 = e_cont ρ) as Hec by congruence. rewrite Hec Hl in Hl2. simplify_eq.
  rewrite Hh2 Hh1 in Ho2. destruct (lives_det _ _ _ _ _ _ Ho Ho2) as [<- <-].
  assert (it2 = it) as ->.
  { destruct o as [t|].
    - destruct (lives_wf _ _ _ _ Ho) as (h & Hwf). eapply (it_ok_unique h); try done. by intros ? [= <-].
    - by rewrite (it_ok_nil _ Hok2) (it_ok_nil _ Hok). }
  destruct (only_exec w (StepNext w w) _ _ _ _ _ eq_refl He1) as [->|[it1 ->]];
    destruct (only_exec w (StepPrev w w) _ _ _ _ _ eq_refl He2) as [->|[it2' ->]]; try done;
    destruct ρ as [cs ii]; rewrite /bindi /= in Hit2 |- *; f_equal.
  - rewrite lookup_insert in Hit2. simplify_eq. by rewrite insert_id.
  - rewrite lookup_insert in Hit2. simplify_eq. by rewrite insert_id.
  - rewrite lookup_insert in Hit2. simplify_eq. by rewrite insert_insert insert_id.
Qed.
End props.
