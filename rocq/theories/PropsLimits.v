(** * C57: max_size() *)
From Verif Require Export PropsCtor Defects.
From stdpp Require Import options.
Set Default Proof Using "Type*".

Section props.
Context {T : Type} {C : cfg T} {OK : cfg_ok C}.
Implicit Types ρ : env.
Implicit Types st : state T.
Notation reached := (reached C).
Notation exec := (exec (C:=C)).

(** no container ever has more than max_size() elements *)
Theorem C57_bound ρ st x xs a :
  reached ρ st → container_at st ρ x = Some (xs, a) → length xs ≤ max_size (C:=C).
Proof.
  intros Hr Hc. destruct (reached_lives _ _ _ _ _ Hr Hc) as (o & l & _ & Ho & <-). rewrite /max_size.
  destruct o as [t|]; cbn [lives oelems] in *; [|simpl; lia].
  destruct Ho as (h & Hw & Hs & _). rewrite /tsize in Hs. lia.
Qed.
(** below max_size() there is room for one more element: push_back fails only if the
    environment does *)
Theorem C57_room ρ st x s v xs a :
  reached ρ st → container_at st ρ x = Some (xs, a) → arg_is (C:=C) st ρ x xs s v → length xs < max_size (C:=C) →
  ∃ o st', exec (PushBack x s) ρ st = Ok (o, ρ) st' ∧ reached ρ st' ∧
    (o = OUnit ∧ container_at st' ρ x = Some (xs ++ [v], a) ∨ failed C o ∧ container_at st' ρ x = Some (xs, a)).
Proof. intros Hr Hc Hs Hl. apply C06_push_back; [done..|]. rewrite /max_size in Hl. lia. Qed.
(** every size up to max_size() can be created *)
Theorem C57_create ρ st x n v a :
  reached ρ st → container_at st ρ x = None → n ≤ max_size (C:=C) → (∀ e, ¬ raisable C e) →
  ∃ o ρ' st', exec (NewCount x n (AVal v) a) ρ st = Ok (o, ρ') st' ∧ reached ρ' st' ∧
    o = OUnit ∧ container_at st' ρ' x = Some (replicate n v, a).
Proof.
  intros Hr Hc Hn Hnr. pose proof (ok_W _ OK). assert (0 < c_W C) by lia.
  destruct (C45_count ρ st x n (AVal v) v a Hr Hc) as (o & ρ' & st' & He & Hr' & _ & [[-> H']|[(e & _ & []%Hnr) _]]).
  - done.
  - rewrite /max_size in Hn. lia.
  - by intros [e []%Hnr].
  - by exists OUnit, ρ', st'.
Qed.
End props.

(** Nothing checks the bound: one push_back more, and size() starts again at 0. *)
(** call [c1], then [c2]; does [x] then have size field 0? *)
Definition overflows (C : cfg nat) (c1 c2 : cmd nat) (ρ : env) (st : state nat) (x : nat) : bool :=
  match exec (C:=C) c1 ρ st with
  | Ok (_, ρ1) st1 => match exec (C:=C) c2 ρ1 st1 with
    | Ok (OUnit, ρ2) st2 => match e_cont ρ2 !! x with
      | Some l => match st_heap st2 !! l with Some (OSeq q) => s_size q =? 0 | _ => false end
      | _ => false end
    | _ => false end
  | _ => false
  end.
Lemma overflows_spec C c1 c2 ρ st x o ρ1 st1 :
  overflows C c1 c2 ρ st x = true → exec (C:=C) c1 ρ st = Ok (o, ρ1) st1 →
  ∃ ρ2 st2, exec (C:=C) c2 ρ1 st1 = Ok (OUnit, ρ2) st2 ∧ answers C st2 ρ2 (GetSize x) (ONat 0).
Proof.
  rewrite /overflows. intros H He. rewrite He in H.
  destruct (exec (C:=C) c2 ρ1 st1) as [[o' ρ'] st'|e st'|f] eqn:Hp; [|done..].
  destruct o'; try done. destruct (e_cont ρ' !! x) as [l|] eqn:Hl; [|done].
  destruct (st_heap st' !! l) as [[| |q]|] eqn:Hm; try done. apply Nat.eqb_eq in H.
  exists ρ', st'. split; [done|]. eexists. split.
  - rewrite /exec /try_catch. cbn [exec_call]. rewrite /getc /lookup_var Hl /done_ /size_ /get_size /load_seq /load.
    rewrite /mbind /M_bind /mret /M_ret /=. rewrite Hm /= H. reflexivity.
  - done.
Qed.
Theorem C57_past_max : ∃ (C : cfg nat) ρ st x xs a ρ' st',
  cfg_ok C ∧ reached C ρ st ∧ container_at st ρ x = Some (xs, a) ∧ length xs = max_size (C:=C) ∧
  exec (C:=C) (PushBack x (AVal 1)) ρ st = Ok (OUnit, ρ') st' ∧ answers C st' ρ' (GetSize x) (ONat 0).
Proof.
  assert (∀ e, ¬ raisable W0 e) as Hn by (intros [] H; try done; [by destruct H as (? & ? & ?)|by destruct H as (? & ?)]).
  assert (255 ≤ max_size (C:=W0)) as Hle by (apply Nat.leb_le; by vm_compute).
  destruct (C57_create (C:=W0) ρ0 st0 9 255 1 7 W0_reached W0_9 Hle Hn) as (o & ρ & st & He & Hr & _ & Hc).
  assert (overflows W0 (NewCount 9 255 (AVal 1) 7) (PushBack 9 (AVal 1)) ρ0 st0 9 = true) as H by by vm_compute.
  destruct (overflows_spec _ _ _ _ _ _ _ _ _ H He) as (ρ' & st' & Hp & Ha).
  exists W0, ρ, st, 9, (replicate 255 1), 7, ρ', st'.
  split; [exact W0_ok|]. split; [exact Hr|]. split; [exact Hc|]. split; [rewrite replicate_length; by vm_compute|].
  split; [exact Hp|exact Ha].
Qed.
