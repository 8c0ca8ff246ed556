(** * An element of the same container as argument.

    C67: inserting copies of it, when it is in another segment; C68: removing the
    elements equal to it, when no more elements are kept than precede it *)
From Verif Require Export PropsSegment.
From stdpp Require Import options.
Set Default Proof Using "Type*".

Section props.
Context {T : Type} {C : cfg T} {OK : cfg_ok C}.
Implicit Types σ : sst T.
Implicit Types ρ : env.
Implicit Types st : state T.
Implicit Types xs : list T.
Notation reachable := (reachable C).
Notation reached := (reached C).
Notation iterator_at := (iterator_at C).
Notation exec := (exec (C:=C)).

(** ** x.insert(w, n, *w1), [w] at index [p] and [w1] at element [q] of x *)
Theorem C67_insert ρ st x w w1 w' p q n v xs a :
  reached ρ st → container_at st ρ x = Some (xs, a) →
  iterator_at st ρ w x p → iterator_at st ρ w1 x q → xs !! q = Some v →
  n ≤ 1 ∨ apart st ρ x p q → length xs + n < c_W C →
  ∃ o ρ' st', exec (InsertCount x w n (ARef w1) w') ρ st = Ok (o, ρ') st' ∧ reached ρ' st' ∧
    (∀ y, y ≠ x → container_at st' ρ' y = container_at st ρ y) ∧
    (o = OUnit ∧ container_at st' ρ' x = Some (take p xs ++ replicate n v ++ drop p xs, a) ∧ iterator_at st' ρ' w' x p ∨
     ∃ e j, o = OExn e ∧ raisable C e ∧ j < n ∧
       container_at st' ρ' x = Some (take p xs ++ replicate j v ++ drop p xs, a)).
Proof.
  intros [σ0 Hr0] Hc Hw Hw1 Hv Hn Hfit. destruct (reached_point2 _ _ _ _ _ _ _ _ Hr0 Hw Hw1) as (σ & Hr & Hat & Hat1 & _).
  pose proof (see _ _ _ _ _ _ Hr Hc) as Hcs. visible Hcs.
  pose proof (lookup_lt_Some _ _ _ Hv) as Hq.
  destruct (alias_call_ok σ ρ st (InsertCount x w n (ARef w1) w') Hr) as (o & ρ' & st' & σ' & He & Hs & Hr').
  { cbn [pre_alias]. exists p, q. rewrite H. split_and!; done. }
  exists o, ρ', st'. split; [done|]. split; [by exists σ'|].
  destruct Hs as (p' & v' & Hat' & Hv' & Hs). destruct (at_it_fun _ _ _ _ _ _ Hat Hat') as [_ <-].
  assert (v' = v) as ->.
  { cbn [arg_value] in Hv'. rewrite /deref Hat1 /= H Hv in Hv'. by injection Hv'. }
  rewrite H in Hs.
  destruct Hs as [[-> ->]|(e & j & [-> Hre] & Hj & ->)].
  - split.
    { intros y Hy. rewrite -(reachable_conts _ _ _ y Hr) -(reachable_conts _ _ _ y Hr') /=. by rewrite lookup_insert_ne. }
    left. split_and!; [done| |].
    + rewrite -(reachable_conts _ _ _ x Hr') /= lookup_insert. by rewrite /put_at H0.
    + eapply canonical; [done|]. by rewrite /at_it /= lookup_insert.
  - split.
    { intros y Hy. rewrite -(reachable_conts _ _ _ y Hr) -(reachable_conts _ _ _ y Hr') /=. by rewrite lookup_insert_ne. }
    right. exists e, j. split_and!; [done..|].
    rewrite -(reachable_conts _ _ _ x Hr') /= lookup_insert. by rewrite /put_at H0.
Qed.

(** ** x.resize(n, *w1), [w1] at element [q] of x *)
Theorem C67_resize ρ st x w1 q n v xs a :
  reached ρ st → container_at st ρ x = Some (xs, a) →
  iterator_at st ρ w1 x q → xs !! q = Some v →
  n ≤ length xs + 1 ∨ apart st ρ x (length xs) q → n < c_W C →
  ∃ o ρ' st', exec (Resize x n (ARef w1)) ρ st = Ok (o, ρ') st' ∧ reached ρ' st' ∧
    (∀ y, y ≠ x → container_at st' ρ' y = container_at st ρ y) ∧
    (o = OUnit ∧ container_at st' ρ' x = Some (take n xs ++ replicate (n - length xs) v, a) ∨
     ∃ e j, o = OExn e ∧ raisable C e ∧ length xs + j < n ∧
       container_at st' ρ' x = Some (xs ++ replicate j v, a)).
Proof.
  intros [σ0 Hr0] Hc Hw1 Hv Hn Hfit. destruct (reached_point _ _ _ _ _ _ Hr0 Hw1) as [Hr Hat1].
  set (σ := point w1 x q σ0) in *.
  pose proof (see _ _ _ _ _ _ Hr Hc) as Hcs. visible Hcs.
  pose proof (lookup_lt_Some _ _ _ Hv) as Hq.
  destruct (alias_call_ok σ ρ st (Resize x n (ARef w1)) Hr) as (o & ρ' & st' & σ' & He & Hs & Hr').
  { cbn [pre_alias]. exists q. rewrite H. split_and!; done. }
  exists o, ρ', st'. split; [done|]. split; [by exists σ'|].
  destruct Hs as (v' & Hv' & Hs). cbv zeta in Hs.
  assert (v' = v) as ->.
  { cbn [arg_value] in Hv'. rewrite /deref Hat1 /= in Hv'. unfold σ in H. rewrite H Hv in Hv'. by injection Hv'. }
  rewrite H in Hs.
  destruct Hs as [[-> ->]|(e & j & [-> Hre] & Hj & ->)].
  - split.
    { intros y Hy. rewrite -(reachable_conts _ _ _ y Hr) -(reachable_conts _ _ _ y Hr') /=. by rewrite lookup_insert_ne. }
    left. split_and!; [done|].
    rewrite -(reachable_conts _ _ _ x Hr') /= lookup_insert. by rewrite H0.
  - split.
    { intros y Hy. rewrite -(reachable_conts _ _ _ y Hr) -(reachable_conts _ _ _ y Hr') /=. by rewrite lookup_insert_ne. }
    right. exists e, j. split_and!; [done..|].
    rewrite -(reachable_conts _ _ _ x Hr') /= lookup_insert. by rewrite H0.
Qed.
(** ** C68: x.remove( *w1), [w1] at element [q] of x *)
Theorem C68_remove ρ st x w1 q v (eq : T → T → bool) xs a :
  reached ρ st → container_at st ρ x = Some (xs, a) →
  iterator_at st ρ w1 x q → xs !! q = Some v →
  eq v v = true → length (remove_list (λ u, eq u v) xs) ≤ q →
  ∃ o ρ' st', exec (Remove x (ARef w1) eq) ρ st = Ok (o, ρ') st' ∧ reached ρ' st' ∧
    (∀ y, y ≠ x → container_at st' ρ' y = container_at st ρ y) ∧
    (o = OUnit ∧ container_at st' ρ' x = Some (remove_list (λ u, eq u v) xs, a) ∨
     o = OExn EPred ∧ pred_fails C ∧
       ∃ ys, stopped (remove_list (λ u, eq u v)) xs ys ∧ container_at st' ρ' x = Some (ys, a)).
Proof.
  intros [σ0 Hr0] Hc Hw1 Hv Hvv Hk. destruct (reached_point _ _ _ _ _ _ Hr0 Hw1) as [Hr Hat1].
  set (σ := point w1 x q σ0) in *.
  pose proof (see _ _ _ _ _ _ Hr Hc) as Hcs. visible Hcs.
  destruct (alias_call_ok σ ρ st (Remove x (ARef w1) eq) Hr) as (o & ρ' & st' & σ' & He & Hs & Hr').
  { cbn [pre_alias]. exists q, v. rewrite H. split_and!; done. }
  exists o, ρ', st'. split; [done|]. split; [by exists σ'|].
  destruct Hs as (v' & Hv' & Hs).
  assert (v' = v) as ->.
  { cbn [arg_value] in Hv'. rewrite /deref Hat1 /= in Hv'. unfold σ in H. rewrite H Hv in Hv'. by injection Hv'. }
  rewrite H in Hs.
  destruct Hs as [[-> ->]|([-> Hpf] & ys & Hst & ->)].
  - split.
    { intros y Hy. rewrite -(reachable_conts _ _ _ y Hr) -(reachable_conts _ _ _ y Hr') /=. by rewrite lookup_insert_ne. }
    left. split_and!; [done|].
    rewrite -(reachable_conts _ _ _ x Hr') /= lookup_insert. by rewrite H0.
  - split.
    { intros y Hy. rewrite -(reachable_conts _ _ _ y Hr) -(reachable_conts _ _ _ y Hr') /=. by rewrite lookup_insert_ne. }
    right. split_and!; [done..|]. exists ys. split; [done|].
    rewrite -(reachable_conts _ _ _ x Hr') /= lookup_insert. by rewrite H0.
Qed.
(** x.remove(x.back()): always, if the last element equals itself *)
Theorem C68_remove_back ρ st x w1 v (eq : T → T → bool) xs a :
  reached ρ st → container_at st ρ x = Some (xs ++ [v], a) →
  iterator_at st ρ w1 x (length xs) → eq v v = true →
  ∃ o ρ' st', exec (Remove x (ARef w1) eq) ρ st = Ok (o, ρ') st' ∧ reached ρ' st' ∧
    (∀ y, y ≠ x → container_at st' ρ' y = container_at st ρ y) ∧
    (o = OUnit ∧ container_at st' ρ' x = Some (remove_list (λ u, eq u v) xs, a) ∨
     o = OExn EPred ∧ pred_fails C ∧
       ∃ ys, stopped (remove_list (λ u, eq u v)) (xs ++ [v]) ys ∧ container_at st' ρ' x = Some (ys, a)).
Proof.
  intros Hr Hc Hw Hvv.
  assert (remove_list (λ u, eq u v) (xs ++ [v]) = remove_list (λ u, eq u v) xs) as Hrm.
  { rewrite remove_list_app /= Hvv right_id_L //. }
  assert (∀ l, length (remove_list (λ u, eq u v) l) ≤ length l) as Hlen.
  { induction l as [|u l IH]; simpl; [lia|]. destruct (eq u v); simpl; lia. }
  destruct (C68_remove ρ st x w1 (length xs) v eq (xs ++ [v]) a Hr Hc Hw) as (o & ρ' & st' & He & Hr' & Hy & Ho).
  { by rewrite lookup_app_r // Nat.sub_diag. } { done. } { rewrite Hrm. apply Hlen. }
  rewrite Hrm in Ho. by exists o, ρ', st'.
Qed.
End props.
