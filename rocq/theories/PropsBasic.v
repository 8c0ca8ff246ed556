(** * C02-C07, C34: single and multiple insertion, erasure, ends, element access.

    [reached ρ st]: some client program has got to the variables [ρ] and memory
    [st] (Reach.v).  [container_at st ρ x]: the elements stored in memory for [x]
    and its allocator (Heap.v).  [iterator_at st ρ w x p]: the iterator variable
    [w] is [x.nth(p)] field for field (Reach.v).  [answers]: the call answers and
    changes neither memory nor variables (Reach.v). *)
From Verif Require Export Setup.
From stdpp Require Import options.
Set Default Proof Using "Type*".

(** a call failed because the environment made it fail *)
Definition failed {T} (C : cfg T) (o : out T) : Prop := ∃ e, o = OExn e ∧ raisable C e.

Section props.
Context {T : Type} {C : cfg T} {OK : cfg_ok C}.
Implicit Types σ : sst T.
Implicit Types ρ : env.
Implicit Types st : state T.
Implicit Types c : cmd T.
Implicit Types xs ys : list T.
Notation reachable := (reachable C).
Notation reached := (reached C).
Notation iterator_at := (iterator_at C).
Notation answers := (answers C).
Notation failed := (failed C).
Notation exec := (exec (C:=C)).

Lemma show σ ρ st x v : reachable σ ρ st → conts σ !! x = v → container_at st ρ x = v.
Proof. intros Hr <-. by rewrite (reachable_conts _ _ _ _ Hr). Qed.
Lemma show_deref σ ρ st w v : reachable σ ρ st → deref σ w = Some v → answers st ρ (Deref w) (OVal v).
Proof.
  intros Hr Hd. destruct (query σ ρ st (Deref w)) as (u & σ' & [(v' & Hv & ->) _] & Ha); [done| |done|done|].
  - cbn [pre]. by rewrite Hd.
  - rewrite Hd in Hv. by simplify_eq.
Qed.
Lemma put_at_lookup p v xs : p ≤ length xs → put_at p [v] xs !! p = Some v.
Proof.
  intros Hp. rewrite /put_at lookup_app_r; rewrite take_length_le //. by rewrite Nat.sub_diag.
Qed.

(** ** C02: insert(w, v), emplace(w, v) *)
Theorem C02_insert ρ st x w v w' p xs a :
  reached ρ st → container_at st ρ x = Some (xs, a) → iterator_at st ρ w x p → length xs + 1 < c_W C →
  ∃ o ρ' st', exec (InsertOne x w (AVal v) w') ρ st = Ok (o, ρ') st' ∧ reached ρ' st' ∧
    (o = OUnit ∧ container_at st' ρ' x = Some (take p xs ++ [v] ++ drop p xs, a) ∧
       iterator_at st' ρ' w' x p ∧ answers st' ρ' (Deref w') (OVal v) ∨
     failed o ∧ ρ' = ρ ∧ container_at st' ρ' x = Some (xs, a)).
Proof.
  intros [σ0 Hr0] Hc Hw Hf. pose proof (iterator_at_le _ _ _ _ _ _ _ Hc Hw) as Hle.
  destruct (reached_point _ _ _ _ _ _ Hr0 Hw) as [Hr Hat]. set (σ := point w x p σ0) in *.
  pose proof (see _ _ _ _ _ _ Hr Hc) as Hs. visible Hs.
  destruct (call_ok σ ρ st (InsertOne x w (AVal v) w') Hr) as (o & ρ' & st' & σ' & He & Hst & Hr').
  { exists p. split_and!; [done|done|]. rewrite /fits. congruence. }
  exists o, ρ', st'. split_and!; [done|by exists σ'|].
  destruct Hst as (p' & Hat' & v' & [= <-] & Hst). destruct (at_it_fun _ _ _ _ _ _ Hat Hat') as [_ <-].
  destruct Hst as [[-> ->]|[[[-> Hra] ->]|[[-> Hra] ->]]]; [left|right|right].
  - split_and!; [done| | |].
    + eapply show; [done|]. rewrite /modify /write /= lookup_insert. rewrite H H0 //.
    + eapply canonical; [done|]. by rewrite /at_it /= lookup_insert.
    + eapply show_deref; [done|]. rewrite /deref /= lookup_insert /=. rewrite /contents /= lookup_insert /=.
      rewrite -/(contents σ x) H. by apply put_at_lookup.
  - split_and!; [by exists EUser|by eapply throw_env|]. by eapply show.
  - split_and!; [by exists EAlloc|by eapply throw_env|]. by eapply show.
Qed.
(** ** C34: the argument may be an element of the same container *)
Theorem C34_insert_alias ρ st x w w1 v w' p i xs a :
  reached ρ st → container_at st ρ x = Some (xs, a) → iterator_at st ρ w x p → iterator_at st ρ w1 x i →
  xs !! i = Some v → length xs + 1 < c_W C →
  ∃ o ρ' st', exec (InsertOne x w (ARef w1) w') ρ st = Ok (o, ρ') st' ∧ reached ρ' st' ∧
    (o = OUnit ∧ container_at st' ρ' x = Some (take p xs ++ [v] ++ drop p xs, a) ∧
       iterator_at st' ρ' w' x p ∧ answers st' ρ' (Deref w') (OVal v) ∨
     failed o ∧ ρ' = ρ ∧ container_at st' ρ' x = Some (xs, a)).
Proof.
  intros [σ0 Hr0] Hc Hw Hw1 Hi Hf. pose proof (iterator_at_le _ _ _ _ _ _ _ Hc Hw) as Hle.
  destruct (reached_point2 _ _ _ _ _ _ _ _ Hr0 Hw Hw1) as (σ & Hr & Hat & Hat1 & _).
  pose proof (see _ _ _ _ _ _ Hr Hc) as Hs. visible Hs.
  assert (arg_value σ (ARef w1) = Some v) as Hv.
  { cbn [arg_value]. rewrite /deref Hat1 /=. by rewrite H. }
  destruct (call_ok σ ρ st (InsertOne x w (ARef w1) w') Hr) as (o & ρ' & st' & σ' & He & Hst & Hr').
  { exists p. split_and!; [done|by rewrite Hv|]. rewrite /fits. congruence. }
  exists o, ρ', st'. split_and!; [done|by exists σ'|].
  destruct Hst as (p' & Hat' & v' & Hv' & Hst). rewrite Hv in Hv'. simplify_eq.
  destruct (at_it_fun _ _ _ _ _ _ Hat Hat') as [_ <-].
  destruct Hst as [[-> ->]|[[[-> Hra] ->]|[[-> Hra] ->]]]; [left|right|right].
  - split_and!; [done| | |].
    + eapply show; [done|]. by rewrite /modify /write /= lookup_insert.
    + eapply canonical; [done|]. by rewrite /at_it /= lookup_insert.
    + eapply show_deref; [done|]. rewrite /deref /= lookup_insert /=. rewrite /contents /= lookup_insert /=.
      by apply put_at_lookup.
  - split_and!; [by exists EUser|by eapply throw_env|]. by eapply show.
  - split_and!; [by exists EAlloc|by eapply throw_env|]. by eapply show.
Qed.
(** push_back(c[i]), push_front(c[i]), and with a value from outside *)
Definition arg_is st ρ x xs (s : arg T) (v : T) : Prop :=
  match s with
  | AVal u => u = v
  | ARef w => ∃ i, iterator_at st ρ w x i ∧ xs !! i = Some v
  | AMove _ => False
  end.
Lemma arg_is_value σ ρ st x xs a s v :
  reachable σ ρ st → container_at st ρ x = Some (xs, a) → arg_is st ρ x xs s v →
  ∃ σ', reachable σ' ρ st ∧ arg_value σ' s = Some v ∧ arg_used C σ' s = σ'.
Proof.
  intros Hr Hc. destruct s as [u|w|w]; simpl; [|intros (i & Hw & Hi)|done].
  - intros ->. by exists σ.
  - destruct (reached_point _ _ _ _ _ _ Hr Hw) as [Hr' Hat]. exists (point w x i σ). split_and!; [done| |done].
    pose proof (see _ _ _ _ _ _ Hr' Hc) as Hs. visible Hs. rewrite /deref Hat /=. by rewrite H.
Qed.

(** ** C06: the ends *)
Theorem C06_push_back ρ st x s v xs a :
  reached ρ st → container_at st ρ x = Some (xs, a) → arg_is st ρ x xs s v → length xs + 1 < c_W C →
  ∃ o st', exec (PushBack x s) ρ st = Ok (o, ρ) st' ∧ reached ρ st' ∧
    (o = OUnit ∧ container_at st' ρ x = Some (xs ++ [v], a) ∨ failed o ∧ container_at st' ρ x = Some (xs, a)).
Proof.
  intros [σ0 Hr0] Hc Hs Hf. destruct (arg_is_value _ _ _ _ _ _ _ _ Hr0 Hc Hs) as (σ & Hr & Hv & Hu).
  pose proof (see _ _ _ _ _ _ Hr Hc) as Hcs. visible Hcs.
  destruct (call_ok σ ρ st (PushBack x s) Hr) as (o & ρ' & st' & σ' & He & Hst & Hr').
  { split_and!; [done|by rewrite Hv|]. rewrite /fits. congruence. }
  pose proof (keeps_env_exec (PushBack x s) _ _ _ _ _ eq_refl He) as ->.
  exists o, st'. split_and!; [done|by exists σ'|].
  destruct Hst as (v' & Hv' & Hst). rewrite Hv in Hv'. simplify_eq. rewrite Hu in Hst.
  destruct Hst as [[-> ->]|[[[-> Hra] ->]|[[-> Hra] ->]]]; [left|right|right].
  - split; [done|]. eapply show; [done|]. rewrite /modify /write /= lookup_insert.
    rewrite /put_at take_ge // drop_ge // right_id_L //.
  - split; [by exists EUser|]. by eapply show.
  - split; [by exists EAlloc|]. by eapply show.
Qed.
Theorem C06_push_front ρ st x s v xs a :
  reached ρ st → container_at st ρ x = Some (xs, a) → arg_is st ρ x xs s v → length xs + 1 < c_W C →
  ∃ o st', exec (PushFront x s) ρ st = Ok (o, ρ) st' ∧ reached ρ st' ∧
    (o = OUnit ∧ container_at st' ρ x = Some (v :: xs, a) ∨ failed o ∧ container_at st' ρ x = Some (xs, a)).
Proof.
  intros [σ0 Hr0] Hc Hs Hf. destruct (arg_is_value _ _ _ _ _ _ _ _ Hr0 Hc Hs) as (σ & Hr & Hv & Hu).
  pose proof (see _ _ _ _ _ _ Hr Hc) as Hcs. visible Hcs.
  destruct (call_ok σ ρ st (PushFront x s) Hr) as (o & ρ' & st' & σ' & He & Hst & Hr').
  { split_and!; [done|by rewrite Hv|]. rewrite /fits. congruence. }
  pose proof (keeps_env_exec (PushFront x s) _ _ _ _ _ eq_refl He) as ->.
  exists o, st'. split_and!; [done|by exists σ'|].
  destruct Hst as (v' & Hv' & Hst). rewrite Hv in Hv'. simplify_eq. rewrite Hu in Hst.
  destruct Hst as [[-> ->]|[[[-> Hra] ->]|[[-> Hra] ->]]]; [left|right|right].
  - split; [done|]. eapply show; [done|]. by rewrite /modify /write /= lookup_insert.
  - split; [by exists EUser|]. by eapply show.
  - split; [by exists EAlloc|]. by eapply show.
Qed.
Theorem C06_pop_back ρ st x v xs a :
  reached ρ st → container_at st ρ x = Some (xs ++ [v], a) →
  ∃ st', exec (PopBack x) ρ st = Ok (OUnit, ρ) st' ∧ reached ρ st' ∧ container_at st' ρ x = Some (xs, a).
Proof.
  intros [σ Hr] Hc. pose proof (see _ _ _ _ _ _ Hr Hc) as Hcs. visible Hcs.
  destruct (call_ok σ ρ st (PopBack x) Hr) as (o & ρ' & st' & σ' & He & [-> ->] & Hr').
  { cbn [pre]. rewrite H. by destruct xs. }
  pose proof (keeps_env_exec (PopBack x) _ _ _ _ _ eq_refl He) as ->.
  exists st'. split_and!; [done|by eexists|]. eapply show; [done|]. rewrite /modify /write /= lookup_insert H H0.
  rewrite app_length /= Nat.add_sub take_app //.
Qed.
Theorem C06_pop_front ρ st x v xs a :
  reached ρ st → container_at st ρ x = Some (v :: xs, a) →
  ∃ st', exec (PopFront x) ρ st = Ok (OUnit, ρ) st' ∧ reached ρ st' ∧ container_at st' ρ x = Some (xs, a).
Proof.
  intros [σ Hr] Hc. pose proof (see _ _ _ _ _ _ Hr Hc) as Hcs. visible Hcs.
  destruct (call_ok σ ρ st (PopFront x) Hr) as (o & ρ' & st' & σ' & He & [-> ->] & Hr').
  { cbn [pre]. by rewrite H. }
  pose proof (keeps_env_exec (PopFront x) _ _ _ _ _ eq_refl He) as ->.
  exists st'. split_and!; [done|by eexists|]. eapply show; [done|]. rewrite /modify /write /= lookup_insert H H0. done.
Qed.
Theorem C06_front_back ρ st x u xs v a :
  reached ρ st → 
  (container_at st ρ x = Some (u :: xs, a) → answers st ρ (Front x) (OVal u)) ∧
  (container_at st ρ x = Some (xs ++ [v], a) → answers st ρ (Back x) (OVal v)).
Proof.
  intros [σ Hr]. split; intros Hc; pose proof (see _ _ _ _ _ _ Hr Hc) as Hcs; visible Hcs.
  - destruct (query σ ρ st (Front x)) as (o & σ' & [(v' & Hv & ->) _] & Ha); [done| |done|done|].
    { cbn [pre]. by rewrite H. } rewrite H in Hv. by simplify_eq/=.
  - destruct (query σ ρ st (Back x)) as (o & σ' & [(v' & Hv & ->) _] & Ha); [done| |done|done|].
    { cbn [pre]. rewrite H. by destruct xs. } rewrite H last_snoc in Hv. by simplify_eq/=.
Qed.

(** ** C03: erase(w) *)
Theorem C03_erase ρ st x w w' p xs a :
  reached ρ st → container_at st ρ x = Some (xs, a) → iterator_at st ρ w x p → p < length xs →
  ∃ ρ' st', exec (Erase x w w') ρ st = Ok (OUnit, ρ') st' ∧ reached ρ' st' ∧
    container_at st' ρ' x = Some (take p xs ++ drop (S p) xs, a) ∧ iterator_at st' ρ' w' x p.
Proof.
  intros [σ0 Hr0] Hc Hw Hf. destruct (reached_point _ _ _ _ _ _ Hr0 Hw) as [Hr Hat]. set (σ := point w x p σ0) in *.
  pose proof (see _ _ _ _ _ _ Hr Hc) as Hs. visible Hs.
  destruct (call_ok σ ρ st (Erase x w w') Hr) as (o & ρ' & st' & σ' & He & (p' & Hat' & -> & ->) & Hr').
  { exists p. split; [done|]. by rewrite H. }
  destruct (at_it_fun _ _ _ _ _ _ Hat Hat') as [_ <-].
  exists ρ', st'. split_and!; [done|by eexists| |].
  - eapply show; [done|]. rewrite /modify /write /= lookup_insert. by rewrite H H0.
  - eapply canonical; [done|]. by rewrite /at_it /= lookup_insert.
Qed.
(** ** C04: erase(w1, w2) *)
Theorem C04_erase_range ρ st x w1 w2 w' i j xs a :
  reached ρ st → container_at st ρ x = Some (xs, a) → iterator_at st ρ w1 x i → iterator_at st ρ w2 x j → i ≤ j →
  ∃ ρ' st', exec (EraseRange x w1 w2 w') ρ st = Ok (OUnit, ρ') st' ∧ reached ρ' st' ∧
    container_at st' ρ' x = Some (take i xs ++ drop j xs, a) ∧ iterator_at st' ρ' w' x i.
Proof.
  intros [σ0 Hr0] Hc Hw1 Hw2 Hij. destruct (reached_point2 _ _ _ _ _ _ _ _ Hr0 Hw1 Hw2) as (σ & Hr & Hat1 & Hat2 & _).
  pose proof (see _ _ _ _ _ _ Hr Hc) as Hs. visible Hs.
  destruct (call_ok σ ρ st (EraseRange x w1 w2 w') Hr) as (o & ρ' & st' & σ' & He & (p & q & Hp & Hq & -> & ->) & Hr').
  { by exists i, j. }
  destruct (at_it_fun _ _ _ _ _ _ Hat1 Hp) as [_ <-]. destruct (at_it_fun _ _ _ _ _ _ Hat2 Hq) as [_ <-].
  exists ρ', st'. split_and!; [done|by eexists| |].
  - eapply show; [done|]. rewrite /modify /write /= lookup_insert. by rewrite H H0.
  - eapply canonical; [done|]. by rewrite /at_it /= lookup_insert.
Qed.
(** ** C05: insert(w, n, v), insert(w, first, last), insert(w, ilist) *)
Theorem C05_insert_count ρ st x w n v w' p xs a :
  reached ρ st → container_at st ρ x = Some (xs, a) → iterator_at st ρ w x p → length xs + n < c_W C →
  ∃ o ρ' st', exec (InsertCount x w n (AVal v) w') ρ st = Ok (o, ρ') st' ∧ reached ρ' st' ∧
    (o = OUnit ∧ container_at st' ρ' x = Some (take p xs ++ replicate n v ++ drop p xs, a) ∧ iterator_at st' ρ' w' x p ∨
     failed o ∧ ∃ j, j < n ∧ container_at st' ρ' x = Some (take p xs ++ replicate j v ++ drop p xs, a)).
Proof.
  intros [σ0 Hr0] Hc Hw Hf. destruct (reached_point _ _ _ _ _ _ Hr0 Hw) as [Hr Hat]. set (σ := point w x p σ0) in *.
  pose proof (see _ _ _ _ _ _ Hr Hc) as Hs. visible Hs.
  destruct (call_ok σ ρ st (InsertCount x w n (AVal v) w') Hr) as (o & ρ' & st' & σ' & He & Hst & Hr').
  { exists p. split_and!; [done|done|done|done|]. rewrite /fits. congruence. }
  exists o, ρ', st'. split_and!; [done|by exists σ'|].
  destruct Hst as (p' & v' & Hat' & [= <-] & Hst). destruct (at_it_fun _ _ _ _ _ _ Hat Hat') as [_ <-].
  destruct Hst as [[-> ->]|(e & j & [-> Hra] & Hj & ->)]; [left|right].
  - split_and!; [done| |].
    + eapply show; [done|]. rewrite /modify /write /= lookup_insert. by rewrite H H0.
    + eapply canonical; [done|]. by rewrite /at_it /= lookup_insert.
  - split; [by exists e|]. exists j. split; [done|]. eapply show; [done|].
    rewrite /modify /write /= lookup_insert. by rewrite H H0.
Qed.
Theorem C05_insert_range ρ st x w ys w' p xs a :
  reached ρ st → container_at st ρ x = Some (xs, a) → iterator_at st ρ w x p → length xs + length ys < c_W C →
  ∃ o ρ' st', exec (InsertRange x w (RList ys) w') ρ st = Ok (o, ρ') st' ∧ reached ρ' st' ∧
    (o = OUnit ∧ container_at st' ρ' x = Some (take p xs ++ ys ++ drop p xs, a) ∧ iterator_at st' ρ' w' x p ∨
     failed o ∧ ∃ j, j ≤ length ys ∧ container_at st' ρ' x = Some (take p xs ++ take j ys ++ drop p xs, a)).
Proof.
  intros [σ0 Hr0] Hc Hw Hf. destruct (reached_point _ _ _ _ _ _ Hr0 Hw) as [Hr Hat]. set (σ := point w x p σ0) in *.
  pose proof (see _ _ _ _ _ _ Hr Hc) as Hs. visible Hs.
  destruct (call_ok σ ρ st (InsertRange x w (RList ys) w') Hr) as (o & ρ' & st' & σ' & He & Hst & Hr').
  { exists p, ys. split_and!; [done|done|done|]. rewrite /fits. congruence. }
  exists o, ρ', st'. split_and!; [done|by exists σ'|].
  destruct Hst as (p' & ys' & Hat' & [= <-] & Hst). destruct (at_it_fun _ _ _ _ _ _ Hat Hat') as [_ <-].
  destruct Hst as [[-> ->]|(e & j & j' & [-> Hra] & Hj & _ & ->)]; [left|right].
  - split_and!; [done| |].
    + eapply show; [done|]. rewrite /modify /write /= lookup_insert. by rewrite H H0.
    + eapply canonical; [done|]. by rewrite /at_it /= lookup_insert.
  - split; [by exists e|]. exists j. split; [destruct Hj as [?|[_ ->]]; lia|]. eapply show; [done|].
    rewrite /modify /write /= lookup_insert. by rewrite H H0.
Qed.
(** a range of another container [y], between iterators [w1] and [w2], copied *)
Theorem C05_insert_range_of ρ st x w y w1 w2 i j w' p xs a ys b :
  reached ρ st → x ≠ y → w ≠ w1 → w ≠ w2 →
  container_at st ρ x = Some (xs, a) → iterator_at st ρ w x p →
  container_at st ρ y = Some (ys, b) → iterator_at st ρ w1 y i → iterator_at st ρ w2 y j → i ≤ j →
  length xs + (j - i) < c_W C →
  ∃ o ρ' st', exec (InsertRange x w (RSeq false w1 w2) w') ρ st = Ok (o, ρ') st' ∧ reached ρ' st' ∧
    container_at st' ρ' y = Some (ys, b) ∧
    (o = OUnit ∧ container_at st' ρ' x = Some (take p xs ++ take (j - i) (drop i ys) ++ drop p xs, a) ∧
       iterator_at st' ρ' w' x p ∨
     failed o ∧ ∃ k, k < j - i ∧ container_at st' ρ' x = Some (take p xs ++ take k (drop i ys) ++ drop p xs, a)).
Proof.
  intros [σ0 Hr0] Hxy Hn1 Hn2 Hc Hw Hcy Hw1 Hw2 Hij Hf.
  destruct (reached_point2 _ _ _ _ _ _ _ _ Hr0 Hw1 Hw2) as (σ1 & Hr1 & Hat1 & Hat2 & _).
  destruct (reached_point _ _ _ _ _ _ Hr1 Hw) as [Hr Hat]. apply (at_point _ w x p) in Hat1; [|done].
  apply (at_point _ w x p) in Hat2; [|done]. set (σ := point w x p σ1) in *.
  pose proof (see _ _ _ _ _ _ Hr Hc) as Hs. visible Hs. pose proof (see _ _ _ _ _ _ Hr Hcy) as Hsy. visible Hsy.
  pose proof (iterator_at_le _ _ _ _ _ _ _ Hcy Hw2) as Hle.
  assert (rng_values σ (RSeq false w1 w2) = Some (take (j - i) (drop i ys))) as Hv.
  { simpl. rewrite Hat1 Hat2 /=. rewrite Nat.eqb_refl (proj2 (Nat.leb_le _ _) Hij) /=. by rewrite H2. }
  assert (length (take (j - i) (drop i ys)) = j - i) as Hlen by (rewrite take_length_le // drop_length; lia).
  destruct (call_ok σ ρ st (InsertRange x w (RSeq false w1 w2) w') Hr) as (o & ρ' & st' & σ' & He & Hst & Hr').
  { exists p, (take (j - i) (drop i ys)). split_and!; [done|done| |].
    - intros q. rewrite Hat1. congruence.
    - rewrite /fits Hlen. congruence. }
  exists o, ρ', st'. split_and!; [done|by exists σ'| |].
  - destruct Hst as (p' & ys' & _ & _ & [[-> ->]|(e & j' & j'' & _ & _ & _ & ->)]);
      (eapply show; [done|]); rewrite /modify /write /= lookup_insert_ne //.
  - destruct Hst as (p' & ys' & Hat' & Hv' & Hst). rewrite Hv in Hv'. injection Hv' as <-.
    destruct (at_it_fun _ _ _ _ _ _ Hat Hat') as [_ <-].
    destruct Hst as [[-> ->]|(e & k & j' & [-> Hra] & Hj & _ & ->)]; [left|right].
    + split_and!; [done| |].
      * eapply show; [done|]. rewrite /modify /write /= lookup_insert. by rewrite H H0.
      * eapply canonical; [done|]. by rewrite /at_it /= lookup_insert.
    + split; [by exists e|]. rewrite Hlen in Hj. destruct Hj as [Hj|[[] _]]. exists k. split; [done|]. eapply show; [done|].
      rewrite /modify /write /= lookup_insert H H0 take_take Nat.min_l //. lia.
Qed.

(** ** C07: at, operator[] *)
Theorem C07_at ρ st x n xs a :
  reached ρ st → container_at st ρ x = Some (xs, a) →
  (∀ v, xs !! n = Some v → answers st ρ (At x n) (OVal v)) ∧
  (length xs ≤ n → answers st ρ (At x n) (OExn EOutOfRange)) ∧
  (∀ v, xs !! n = Some v → answers st ρ (Index x n) (OVal v)).
Proof.
  intros [σ Hr] Hc. pose proof (see _ _ _ _ _ _ Hr Hc) as Hcs. visible Hcs.
  destruct (query σ ρ st (At x n)) as (o & σ' & [Ho _] & Ha); [done|done|done|done|]. rewrite H in Ho.
  split_and!.
  - intros v Hv. rewrite Hv in Ho. by rewrite -Ho.
  - intros Hn. rewrite lookup_ge_None_2 // in Ho. by rewrite -Ho.
  - intros v Hv. destruct (query σ ρ st (Index x n)) as (o2 & σ2 & [(v2 & Hv2 & ->) _] & Ha2); [done| |done|done|].
    { cbn [pre]. rewrite H. by eapply lookup_lt_Some. }
    rewrite H Hv in Hv2. by simplify_eq.
Qed.
Theorem C07_size ρ st x xs a :
  reached ρ st → container_at st ρ x = Some (xs, a) →
  answers st ρ (GetSize x) (ONat (length xs)) ∧ answers st ρ (IsEmpty x) (OBool (bool_decide (xs = []))) ∧
  answers st ρ (GetAlloc x) (ONat a).
Proof.
  intros [σ Hr] Hc. pose proof (see _ _ _ _ _ _ Hr Hc) as Hcs. visible Hcs. split_and!.
  - destruct (query σ ρ st (GetSize x)) as (o & σ' & [-> _] & Ha); [done..|]. by rewrite H in Ha.
  - destruct (query σ ρ st (IsEmpty x)) as (o & σ' & [-> _] & Ha); [done..|].
    erewrite (bool_decide_ext _ (xs = [])) in Ha; [done|]. by rewrite H.
  - destruct (query σ ρ st (GetAlloc x)) as (o & σ' & [-> _] & Ha); [done..|]. by rewrite H0 in Ha.
Qed.
End props.
