(** * PropsSelf: C62, splice and merge of a sequence with itself

    The documentation does not exclude that the argument of splice and merge is the
    sequence itself (std::list gives splice of a part of a list within that list, and
    merge with itself, a meaning).  The preconditions [x ≠ y] of [pre] (Spec.v) are
    needed: these are the executions that show it. *)
From Verif Require Export Defects.
From stdpp Require Import options.
#[local] Set Default Proof Using "Type*".

Section self.
Context {T : Type} {C : cfg T} {OK : cfg_ok C}.

Lemma clear_empties l (st st' : state T) u : clear (C:=C) l st = Ok u st' →
  ∃ s, st_heap st' !! l = Some (OSeq s) ∧ s_root s = None ∧ s_size s = 0 ∧ s_ht s = 0.
Proof.
  rewrite /clear /set_root /set_height /ModelSeq.set_size /mbind /M_bind.
  destruct (purge l st) as [v st1|?|?]; [|done..]. rewrite /load_seq /load /mbind /M_bind.
  destruct (st_heap st1 !! l) as [o|]; [|done]. cbn. destruct o as [| |s]; [done..|]. cbn.
  rewrite lookup_insert. cbn. rewrite lookup_insert. cbn. intros [= _ <-]. cbn. rewrite lookup_insert. by eexists.
Qed.
(** a.splice(pos, a), at any position of any sequence: if it returns at all, the
    sequence has lost all its elements *)
Theorem C62_splice_all ρ st x w ρ' st' :
  exec (C:=C) (SpliceAll x w x) ρ st = Ok (OUnit, ρ') st' →
  ∃ a, container_at st' ρ' x = Some ([], a).
Proof.
  rewrite /exec /try_catch. cbn [exec_call]. rewrite /getc /geti /lookup_var /mbind /M_bind.
  destruct (e_cont ρ !! x) as [l|] eqn:Hl; [|done]. destruct (e_iter ρ !! w) as [it|]; [|done]. cbn [mret M_ret].
  rewrite /splice_all /mbind /M_bind. destruct (whole_range true l st) as [r st1|?|?]; [|done..].
  destruct (insert_range l it r st1) as [r2 st2|?|?]; [|done..]. destruct (clear l st2) as [u st3|?|?] eqn:E; [|done..].
  intros [= <- <-]. destruct (clear_empties _ _ _ _ E) as (s & Hs & H1 & H2 & H3). exists (s_ealloc s).
  rewrite /container_at /segments /seq_at Hl. cbn. rewrite Hs. cbn. by rewrite H1 H2 H3.
Qed.
End self.

(** what a second call answers after the first *)
Definition answered (C : cfg nat) (c d : cmd nat) (ρ : env) (st : state nat) : option (out nat + fault) :=
  match exec (C:=C) c ρ st with
  | Ok (OUnit, ρ') st' => match exec (C:=C) d ρ' st' with Ok (o, _) _ => Some (inl o) | Fault f => Some (inr f) | _ => None end
  | _ => None
  end.
Lemma answered_spec C c d1 d2 ρ st o f :
  answered C c d1 ρ st = Some (inl o) → answered C c d2 ρ st = Some (inr f) →
  ∃ ρ' st', exec (C:=C) c ρ st = Ok (OUnit, ρ') st' ∧ (∃ ρ'' st'', exec (C:=C) d1 ρ' st' = Ok (o, ρ'') st'') ∧ exec (C:=C) d2 ρ' st' = Fault f.
Proof.
  rewrite /answered. destruct (exec c ρ st) as [[o' ρ'] st'|e st'|g]; [|done..]. destruct o'; try done.
  destruct (exec d1 ρ' st') as [[o1 ρ1] st1|e1 st1|f1] eqn:E1; [|done..]. intros [= ->].
  destruct (exec d2 ρ' st') as [[o2 ρ2] st2|e2 st2|f2] eqn:E2; [done..|]. intros [= ->].
  exists ρ', st'. split; [done|]. split; [by eauto|done].
Qed.
(** {v1, v2}: a.splice(a.begin(), a, a.nth(1)) should give {v2, v1}; the call returns,
    size() is 2, but reading element 1 reads a destroyed object *)
Theorem C62_splice_one : ∃ (C : cfg nat) ρ st x w w1 v1 v2 a ρ' st',
  cfg_ok C ∧ reached C ρ st ∧ container_at st ρ x = Some ([v1; v2], a) ∧
  iterator_at C st ρ w x 0 ∧ iterator_at C st ρ w1 x 1 ∧
  exec (C:=C) (SpliceOne x w x w1) ρ st = Ok (OUnit, ρ') st' ∧
  (∃ ρ'' st'', exec (C:=C) (GetSize x) ρ' st' = Ok (ONat 2, ρ'') st'') ∧ exec (C:=C) (At x 1) ρ' st' = Fault FRaw.
Proof.
  destruct (answered_spec W35 (SpliceOne 5 8 5 9) (GetSize 5) (At 5 1) (made W35).1 (made W35).2 (ONat 2) FRaw) as (ρ' & st' & H);
    [by vm_compute..|].
  exists W35, (made W35).1, (made W35).2, 5, 8, 9, 31, 32, 7, ρ', st'.
  split; [apply _|]. split; [by apply made_reached; [apply _|intros ?|vm_compute]|]. split; [by vm_compute|].
  split; [at_|]. split; [at_|]. exact H.
Qed.
(** {v1, v2}: a.splice(a.nth(1), a, a.begin(), a.nth(1)) should change nothing *)
Theorem C62_splice_range : ∃ (C : cfg nat) ρ st x w w1 v1 v2 a ρ' st',
  cfg_ok C ∧ reached C ρ st ∧ container_at st ρ x = Some ([v1; v2], a) ∧
  iterator_at C st ρ w x 0 ∧ iterator_at C st ρ w1 x 1 ∧
  exec (C:=C) (SpliceRange x w1 x w w1) ρ st = Ok (OUnit, ρ') st' ∧
  (∃ ρ'' st'', exec (C:=C) (GetSize x) ρ' st' = Ok (ONat 2, ρ'') st'') ∧ exec (C:=C) (At x 1) ρ' st' = Fault FRaw.
Proof.
  destruct (answered_spec W35 (SpliceRange 5 9 5 8 9) (GetSize 5) (At 5 1) (made W35).1 (made W35).2 (ONat 2) FRaw) as (ρ' & st' & H);
    [by vm_compute..|].
  exists W35, (made W35).1, (made W35).2, 5, 8, 9, 31, 32, 7, ρ', st'.
  split; [apply _|]. split; [by apply made_reached; [apply _|intros ?|vm_compute]|]. split; [by vm_compute|].
  split; [at_|]. split; [at_|]. exact H.
Qed.
(** merging a sorted sequence with itself reads a destroyed element, or frees a
    segment that holds live elements *)
Theorem C62_merge :
  (∃ (C : cfg nat) ρ st x xs a, cfg_ok C ∧ reached C ρ st ∧ container_at st ρ x = Some (xs, a) ∧ StronglySorted le xs ∧
    exec (C:=C) (MergeIn x x Nat.ltb) ρ st = Fault FRaw) ∧
  (∃ (C : cfg nat) ρ st x xs a, cfg_ok C ∧ reached C ρ st ∧ container_at st ρ x = Some (xs, a) ∧ StronglySorted le xs ∧
    exec (C:=C) (MergeIn x x Nat.ltb) ρ st = Fault FBadFree).
Proof.
  split.
  - exists W0, ρ0, st0, 0, [1;2;3;4;5;6;7;8;9;10;11;12], 7. split; [apply _|]. split; [apply W0_reached|]. split; [apply W0_0|].
    split; [repeat constructor; lia|]. apply faulted_spec. by vm_compute.
  - exists W35, (made W35).1, (made W35).2, 5, [31;32], 7. split; [apply _|].
    split; [by apply made_reached; [apply _|intros ?|vm_compute]|]. split; [by vm_compute|].
    split; [repeat constructor; lia|]. apply faulted_spec. by vm_compute.
Qed.
