(** * PropsWalk: stepping an iterator takes constant time on average (C53). *)
From Verif Require Import Walk PropsIter.
From stdpp Require Import options.
Set Default Proof Using "Type*".

(** the client that makes the same call [k] times *)
Fixpoint repeat_call {T} (c : cmd T) (k : nat) : client (T:=T) :=
  match k with 0 => Stop | S k => Call c (λ _, repeat_call c k) end.

Section props.
Context {T : Type} {C : cfg T} {OK : cfg_ok C}.
Implicit Types ρ : env.
Implicit Types st : state T.
Notation accesses st := (n_reads (st_cnt st)).
Notation reached := (reached C).
Notation iterator_at := (iterator_at C).
Notation exec := (exec (C:=C)).
Notation run := (run (C:=C)).

Lemma step_cost ρ st w w' k (m : iterator_data → M T iterator_data) c it o ρ' st' :
  e_iter ρ !! w = Some it → exec_call (C:=C) c ρ = (it ← geti ρ w; it ← m it; done_ (bindi w' it ρ)) →
  look (st_heap st) k (m it) tt_ → exec c ρ st = Ok (o, ρ') st' → accesses st' ≤ accesses st + k.
Proof.
  intros Hw Hc Hl. specialize (Hl st eq_refl). rewrite /exec /Exec.exec Hc /geti /lookup_var Hw /try_catch /mbind /M_bind /=.
  destruct (m it st) as [it' st1|e st1|f]; simpl; [| |done]; intros [= <- <- <-]; simpl; lia.
Qed.
Lemma walk_forward k ρ st w x l a o it :
  reached ρ st → e_cont ρ !! x = Some l → lives (C:=C) (st_heap st) a l o → e_iter ρ !! w = Some it → it_ok o it →
  i_pos it + k ≤ osize o →
  ∃ tr ρ' st', run (repeat_call (StepNext w w) k) ρ st = Ok (tr, ρ') st' ∧ reached ρ' st' ∧ iterator_at st' ρ' w x (i_pos it + k) ∧
    accesses st' ≤ accesses st + 13 * k + 4 * fpot o (i_pos it).
Proof.
  revert ρ st it. induction k as [|k IH]; intros ρ st it Hr Hl Ho Hw Hok Hk.
  { exists [], ρ, st. split_and!; [done|done| |lia]. rewrite Nat.add_0_r. by eapply iterator_intro. }
  pose proof (iterator_intro _ _ _ _ _ _ _ _ Hr Hl Ho Hw Hok) as Hi.
  destruct (iterator_elim _ _ _ _ _ Hr Hi) as (o1 & a1 & l1 & it1 & Hl1 & Ho1 & _ & _ & _ & Hcx).
  rewrite Hl in Hl1. injection Hl1 as <-. destruct (lives_det _ _ _ _ _ _ Ho Ho1) as [<- <-].
  destruct (C09_next ρ st w w x (i_pos it) _ _ Hr Hcx Hi) as (ρ1 & st1 & st2 & He & Hh & _ & Hr1 & Hi1 & Hec & _).
  { change (length (oelems o)) with (osize o). lia. }
  destruct (look_next _ _ _ _ _ Ho Hok ltac:(lia)) as (j & Hj & Hlk).
  pose proof (step_cost ρ st w w j move_next_iterator (StepNext w w) it _ _ _ Hw eq_refl Hlk He) as Hc.
  destruct (iterator_elim _ _ _ _ _ Hr1 Hi1) as (o2 & a2 & l2 & it2 & Hl2 & Ho2 & Hw2 & Hok2 & Hp2 & _).
  rewrite Hec Hl in Hl2. injection Hl2 as <-. rewrite Hh in Ho2. destruct (lives_det _ _ _ _ _ _ Ho Ho2) as [<- <-].
  destruct (IH ρ1 st1 it2 Hr1) as (tr & ρ' & st' & Hrun & Hr' & Hi' & Hc'); [by rewrite Hec|by rewrite Hh|done|done|lia|].
  exists ((StepNext w w, OUnit) :: tr), ρ', st'. split_and!; [|done| |].
  - cbn [run Exec.run repeat_call]. rewrite /mbind /M_bind He /=. change (Exec.run ?p ?q) with (run p q). by rewrite Hrun.
  - by replace (i_pos it + S k) with (i_pos it2 + k) by lia.
  - rewrite Hp2 Nat.add_1_r in Hc'. lia.
Qed.
Lemma walk_backward k ρ st w x l a o it :
  reached ρ st → e_cont ρ !! x = Some l → lives (C:=C) (st_heap st) a l o → e_iter ρ !! w = Some it → it_ok o it →
  k ≤ i_pos it →
  ∃ tr ρ' st', run (repeat_call (StepPrev w w) k) ρ st = Ok (tr, ρ') st' ∧ reached ρ' st' ∧ iterator_at st' ρ' w x (i_pos it - k) ∧
    accesses st' ≤ accesses st + 14 * k + 4 * bpot o (i_pos it).
Proof.
  revert ρ st it. induction k as [|k IH]; intros ρ st it Hr Hl Ho Hw Hok Hk.
  { exists [], ρ, st. split_and!; [done|done| |lia]. rewrite Nat.sub_0_r. by eapply iterator_intro. }
  pose proof (iterator_intro _ _ _ _ _ _ _ _ Hr Hl Ho Hw Hok) as Hi.
  destruct (C10_prev ρ st w w x (i_pos it) Hr Hi ltac:(lia)) as (ρ1 & st1 & st2 & He & Hh & _ & Hr1 & Hi1 & Hec & _).
  destruct (look_prev _ _ _ _ _ Ho Hok ltac:(lia)) as (j & Hj & Hlk).
  pose proof (step_cost ρ st w w j move_prev_iterator (StepPrev w w) it _ _ _ Hw eq_refl Hlk He) as Hc.
  destruct (iterator_elim _ _ _ _ _ Hr1 Hi1) as (o2 & a2 & l2 & it2 & Hl2 & Ho2 & Hw2 & Hok2 & Hp2 & _).
  rewrite Hec Hl in Hl2. injection Hl2 as <-. rewrite Hh in Ho2. destruct (lives_det _ _ _ _ _ _ Ho Ho2) as [<- <-].
  destruct (IH ρ1 st1 it2 Hr1) as (tr & ρ' & st' & Hrun & Hr' & Hi' & Hc'); [by rewrite Hec|by rewrite Hh|done|done|lia|].
  exists ((StepPrev w w, OUnit) :: tr), ρ', st'. split_and!; [|done| |].
  - cbn [run Exec.run repeat_call]. rewrite /mbind /M_bind He /=. change (Exec.run ?p ?q) with (run p q). by rewrite Hrun.
  - by replace (i_pos it - S k) with (i_pos it2 - k) by lia.
  - rewrite Hp2 in Hc'. lia.
Qed.

(** ** C53: k steps forward (backward) take at most 13 (14) accesses each, plus a
    logarithmic amount once, wherever they start *)
Theorem C53_forward ρ st w x p xs a k :
  reached ρ st → container_at st ρ x = Some (xs, a) → iterator_at st ρ w x p → p + k ≤ length xs →
  ∃ tr ρ' st', run (repeat_call (StepNext w w) k) ρ st = Ok (tr, ρ') st' ∧ iterator_at st' ρ' w x (p + k) ∧
    accesses st' ≤ accesses st + 13 * k + 4 * (Nat.log2 (length xs) + 3).
Proof.
  intros Hr Hc Hi Hk. destruct (iterator_elim _ _ _ _ _ Hr Hi) as (o & b & l & it & Hl & Ho & Hw & Hok & Hp & Hcx).
  rewrite Hc in Hcx. injection Hcx as -> <-. subst p.
  destruct (walk_forward k ρ st w x l a o it Hr Hl Ho Hw Hok Hk) as (tr & ρ' & st' & Hrun & _ & Hi' & Hc').
  exists tr, ρ', st'. split_and!; [done|done|]. pose proof (fpot_lg _ _ _ _ (i_pos it) Ho) as Hlg. rewrite /lg in Hlg.
  change (length (oelems o)) with (osize o). lia.
Qed.
Theorem C53_backward ρ st w x p xs a k :
  reached ρ st → container_at st ρ x = Some (xs, a) → iterator_at st ρ w x p → k ≤ p →
  ∃ tr ρ' st', run (repeat_call (StepPrev w w) k) ρ st = Ok (tr, ρ') st' ∧ iterator_at st' ρ' w x (p - k) ∧
    accesses st' ≤ accesses st + 14 * k + 4 * (Nat.log2 (length xs) + 3).
Proof.
  intros Hr Hc Hi Hk. destruct (iterator_elim _ _ _ _ _ Hr Hi) as (o & b & l & it & Hl & Ho & Hw & Hok & Hp & Hcx).
  rewrite Hc in Hcx. injection Hcx as -> <-. subst p.
  destruct (walk_backward k ρ st w x l a o it Hr Hl Ho Hw Hok Hk) as (tr & ρ' & st' & Hrun & _ & Hi' & Hc').
  exists tr, ρ', st'. split_and!; [done|done|]. pose proof (bpot_lg _ _ _ _ (i_pos it) Ho) as Hlg. rewrite /lg in Hlg.
  change (length (oelems o)) with (osize o). lia.
Qed.
End props.
