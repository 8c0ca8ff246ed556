(** * C59: which iterators remain valid *)
From Verif Require Export PropsContainers.
From stdpp Require Import options.
Set Default Proof Using "Type*".

(** ** The rules (specification) *)
Section rules.
Context {T : Type} (C : cfg T).
Definition threw (o : out T) : bool := match o with OExn _ => true | _ => false end.
(** the container the iterators into [x] refer to after the call [c] that answered
    [o]; [None]: they are invalid *)
Definition follows (σ : sst T) (c : cmd T) (o : out T) (x : nat) : option nat :=
  let all_but x0 := if x =? x0 then None else Some x in
  let to_from x0 y0 := Some (if x =? y0 then x0 else x) in
  match c with
  (* "Invalidates all iterators" *)
  | Destroy x0 | AssignCount x0 _ _ | AssignRange x0 _ | Clear x0 | InsertCount x0 _ _ _ _ | InsertRange x0 _ _ _
  | Erase x0 _ _ | EraseRange x0 _ _ _ | PopBack x0 | PopFront x0 | Resize x0 _ _ => all_but x0
  | AssignCopy x0 y0 => if x0 =? y0 then Some x else all_but x0
  (* the same, but not if they fail *)
  | InsertOne x0 _ _ _ | PushBack x0 _ | PushFront x0 _ | Remove x0 _ _ | RemoveIf x0 _ | Unique x0 _ =>
      if threw o then Some x else all_but x0
  (* "Invalidates all iterators in *this and other" *)
  | SpliceOne x0 _ y0 _ => if threw o then Some x else if (x =? x0) || (x =? y0) then None else Some x
  | SpliceAll x0 _ y0 | SpliceRange x0 _ y0 _ _ =>
      if threw o then all_but x0 else if (x =? x0) || (x =? y0) then None else Some x
  | MergeIn x0 y0 _ => if (x =? x0) || (x =? y0) then None else Some x
  (* "No iterators are invalidated": those into the source refer to the destination *)
  | NewMove x0 y0 => to_from x0 y0
  | NewMoveAlloc x0 y0 a => if a =? alloc_of σ y0 then to_from x0 y0 else Some x
  | AssignMove x0 y0 =>
      if x =? x0 then None else if takes_over C (alloc_of σ x0) (alloc_of σ y0) then to_from x0 y0 else Some x
  (* "Every iterator referring to an element in one container before the swap
     shall refer to the same element in the other container after the swap" *)
  | Swap x0 y0 => Some (if x =? x0 then y0 else if x =? y0 then x0 else x)
  (* "Iterators are not invalidated" *)
  | _ => Some x
  end.
(** calls that write to elements of [x] in place, without inserting or removing any *)
Definition rewrites (σ : sst T) (c : cmd T) (x : nat) : Prop :=
  match c with
  | Remove x0 _ _ | RemoveIf x0 _ | Unique x0 _ | Reverse x0 | Sort x0 _ => x = x0
  | SpliceAll _ _ y0 | SpliceRange _ _ y0 _ _ => x = y0
  | NewMoveAlloc _ y0 a => x = y0 ∧ a ≠ alloc_of σ y0
  | AssignMove x0 y0 => x = y0 ∧ takes_over C (alloc_of σ x0) (alloc_of σ y0) = false
  | _ => ∃ w p, w ∈ alters c ∧ iters σ !! w = Some (x, p)
  end.
End rules.

(** ** The abstract states obey the rules *)
Section abstract.
Context {T : Type} {C : cfg T} {OK : cfg_ok C}.
Implicit Types σ : sst T.
Notation follows := (follows C).
Notation rewrites := (rewrites C).

Lemma moved_length p k ys : length (moved C p k ys) = length ys.
Proof. rewrite /moved !app_length fmap_length !take_length !drop_length. lia. Qed.
Lemma used_arg σ s x xs a : conts σ !! x = Some (xs, a) →
  ∃ ys, conts (arg_used C σ s) !! x = Some (ys, a) ∧ length ys = length xs ∧
    ((∀ w p, w ∈ arg_moves s → iters σ !! w ≠ Some (x, p)) → ys = xs).
Proof.
  intros Hx. destruct s as [v|w|w]; try (by exists xs). simpl.
  destruct (iters σ !! w) as [[y q]|] eqn:Hw; [|by exists xs].
  destruct (decide (y = x)) as [->|Hn].
  - exists (moved C q 1 xs). rewrite /write /setc /= lookup_insert /contents /alloc_of Hx /=. rewrite moved_length. split_and!; [done..|].
    intros H. by destruct (H w q (elem_of_list_here _ _)).
  - exists xs. by rewrite /write /setc /= lookup_insert_ne.
Qed.
Lemma used_rng σ r k x xs a : conts σ !! x = Some (xs, a) →
  ∃ ys, conts (rng_used C σ r k) !! x = Some (ys, a) ∧ length ys = length xs ∧
    ((∀ w p, w ∈ rng_moves r → iters σ !! w ≠ Some (x, p)) → ys = xs).
Proof.
  intros Hx. destruct r as [vs|[] w w2]; try (by exists xs). simpl.
  destruct (iters σ !! w) as [[y q]|] eqn:Hw; [|by exists xs].
  destruct (decide (y = x)) as [->|Hn].
  - exists (moved C q k xs). rewrite /write /setc /= lookup_insert /contents /alloc_of Hx /=. rewrite moved_length. split_and!; [done..|].
    intros H. by destruct (H w q (elem_of_list_here _ _)).
  - exists xs. by rewrite /write /setc /= lookup_insert_ne.
Qed.
Ltac break := repeat match goal with
  | H : _ ∧ _ |- _ => destruct H
  | H : _ ∨ _ |- _ => destruct H
  | H : ∃ _, _ |- _ => destruct H
  | H : returns _ _ |- _ => unfold returns in H
  | H : throws _ _ _ |- _ => destruct H
  | H : balks _ _ |- _ => destruct H
  | H : context [if ?b then _ else _] |- _ => destruct b eqn:?
  end.
Ltac tests := repeat match goal with
  | |- context [?a =? ?b] => destruct (Nat.eqb_spec a b)
  | H : context [?a =? ?b] |- _ => destruct (Nat.eqb_spec a b)
  end.
Lemma step_follows σ c o σ' x y xs a :
  pre C σ c → step C σ c o σ' → follows σ c o x = Some y → conts σ !! x = Some (xs, a) →
  ∃ ys b, conts σ' !! y = Some (ys, b) ∧ length ys = length xs ∧ (¬ rewrites σ c x → ys = xs).
Proof.
  intros Hp Hs Hf Hx.
  destruct c; cbn [pre step follows rewrites] in *; unfold insert_step, unused in *; cbv zeta in *; break; subst; simplify_eq/=.
  all: try (exists xs, a; by split_and!).
  all: unfold write, modify, setc, forget, point, retarget, exchange in *; cbn [conts iters] in *.
  all: repeat match goal with H : (_ =? _) = true |- _ => apply Nat.eqb_eq in H | H : (_ =? _) = false |- _ => apply Nat.eqb_neq in H
     | H : _ || _ = false |- _ => apply orb_false_iff in H as [] end; subst.
  all: repeat match goal with |- context [<[?k:=_]> _ !! ?z] =>
      destruct (decide (k = z)); [subst; rewrite lookup_insert | rewrite lookup_insert_ne; [|done]] end.
  all: try congruence.
  all: try match goal with |- context [delete _ _ !! _] => rewrite lookup_delete_ne; [|congruence] end.
  all: try (exists xs, a; by split_and!).
  all: try (eexists _, _; split; [done|]; unfold contents; rewrite ?Hx /= ?moved_length ?reverse_length; split; [done|done]).
  all: try (by eexists _, _; split; [done|]; unfold contents; rewrite ?Hx /= ?moved_length; split; [done|]; intros []).
  all: try match goal with |- context [conts (rng_used _ ?σ ?r ?n)] =>
    destruct (used_rng σ r n y xs a Hx) as (ys & Hys & ? & Hk); exists ys, a; split_and!; [done..|];
    intros Hn; apply Hk; intros u q ??; apply Hn; by exists u, q end.
  all: try match goal with |- context [conts (arg_used _ ?σ ?s)] =>
    destruct (used_arg σ s y xs a Hx) as (ys & Hys & ? & Hk); exists ys, a; split_and!; [done..|];
    intros Hn; apply Hk; intros u q ??; apply Hn; exists u, q; split; [|done]; rewrite ?elem_of_cons; auto end.
  all: try (match goal with H : stopped _ _ _ |- _ => destruct H as (? & ? & _ & Hl & _) | H : length _ = length (contents _ _) |- _ => rename H into Hl end;
    unfold contents in Hl; rewrite Hx in Hl; eexists _, _; split; [done|]; by split).
  - destruct (used_arg σ s y xs a Hx) as (ys & Hys & Hl & Hk). eexists _, _; split; [done|].
    unfold contents. rewrite Hys /= insert_length. split; [done|]. intros Hn. destruct Hn. exists w, x1. split; [left|done].
  - eexists _, _; split; [done|]. unfold contents. rewrite Hx /= stable_sorted_length. by split.
Qed.
Lemma lookup_filter_it (m : gmap nat (nat * nat)) w x p z :
  m !! w = Some (x, p) → x ≠ z → filter (λ i : nat * (nat * nat), i.2.1 ≠ z) m !! w = Some (x, p).
Proof. intros Hw Hn. by apply map_filter_lookup_Some. Qed.
Lemma step_follows_it σ c o σ' x y w p :
  pre C σ c → step C σ c o σ' → follows σ c o x = Some y → is_Some (conts σ !! x) → (assigns c w → threw o = true) →
  at_it σ w x p → at_it σ' w y p.
Proof.
  intros Hp Hs Hf Hx Ha Hw. unfold at_it in *.
  destruct c; cbn [pre step follows assigns] in *; unfold insert_step, unused in *; cbv zeta in *; break; subst; simplify_eq/=.
  all: try done.
  all: unfold write, modify, setc, forget, point, retarget, exchange, at_it in *; cbn [conts iters] in *; rewrite ?iters_arg_used ?iters_rng_used.
  all: repeat match goal with H : (_ =? _) = true |- _ => apply Nat.eqb_eq in H | H : (_ =? _) = false |- _ => apply Nat.eqb_neq in H
     | H : _ || _ = false |- _ => apply orb_false_iff in H as [] end; subst.
  all: try (repeat (apply lookup_filter_it; [|done]); done).
  all: try match goal with H : ?w' = ?w → false = true |- _ => assert (w' ≠ w) by (intros E; by specialize (H E)) end.
  all: try match goal with H : ?w = ?w' → false = true |- <[?w':=_]> _ !! ?w = _ => rewrite lookup_insert_ne; [|intros E; by specialize (H (eq_sym E))] end.
  all: try (by apply lookup_filter_it).
  all: try done.
  all: rewrite lookup_fmap; try (rewrite (lookup_filter_it _ _ _ _ _ Hw); [|done]); try rewrite Hw; csimpl; rewrite ?Nat.eqb_refl; try done.
  all: tests; congruence.
Qed.
(** an additional valid iterator does not invalidate a precondition *)
Lemma at_it_more σ w x p w' y q : iters σ !! w = None → at_it σ w' y q → at_it (point w x p σ) w' y q.
Proof. intros Hw H. apply at_point; [|done]. intros ->. by rewrite /at_it Hw in H. Qed.
Lemma deref_more σ w x p w' v : iters σ !! w = None → deref σ w' = Some v → deref (point w x p σ) w' = Some v.
Proof.
  intros Hw H. rewrite /deref /= lookup_insert_ne; [done|]. intros ->. by rewrite /deref Hw in H.
Qed.
Lemma arg_more σ w x p s v : iters σ !! w = None → arg_value σ s = Some v → arg_value (point w x p σ) s = Some v.
Proof. intros Hw. destruct s; [done|..]; by apply deref_more. Qed.
Lemma arg_out_more σ w x p s v y : iters σ !! w = None → arg_value σ s = Some v → arg_outside σ s y → arg_outside (point w x p σ) s y.
Proof.
  intros Hw Hv. destruct s as [|w'|w']; [done|..]; simpl in *; intros H q;
    (rewrite lookup_insert_ne; [done|]; intros ->; by rewrite /deref Hw in Hv).
Qed.
Lemma rng_more σ w x p r xs : iters σ !! w = None → rng_values σ r = Some xs → rng_values (point w x p σ) r = Some xs.
Proof.
  intros Hw H. destruct r as [|mv w1 w2]; [done|]. simpl in *.
  destruct (iters σ !! w1) as [[]|] eqn:E1; [|done]. destruct (iters σ !! w2) as [[]|] eqn:E2; [|done].
  rewrite !lookup_insert_ne; [by rewrite E1 E2|congruence..].
Qed.
Lemma rng_out_more σ w x p r xs y : iters σ !! w = None → rng_values σ r = Some xs → rng_outside σ r y → rng_outside (point w x p σ) r y.
Proof.
  intros Hw H. destruct r as [|mv w1 w2]; [done|]. simpl in *.
  destruct (iters σ !! w1) as [[]|] eqn:E1; [|done]. intros Ho q. rewrite lookup_insert_ne; [by rewrite E1|congruence].
Qed.
Lemma is_Some_deref_more σ w x p w' : iters σ !! w = None → is_Some (deref σ w') → is_Some (deref (point w x p σ) w').
Proof. intros Hw [v Hv]. exists v. by apply deref_more. Qed.
Lemma is_Some_arg_more σ w x p s : iters σ !! w = None → is_Some (arg_value σ s) → is_Some (arg_value (point w x p σ) s).
Proof. intros Hw [v Hv]. exists v. by apply arg_more. Qed.
Lemma is_Some_arg_out_more σ w x p s y : iters σ !! w = None → is_Some (arg_value σ s) → arg_outside σ s y → arg_outside (point w x p σ) s y.
Proof. intros Hw [v Hv]. by eapply arg_out_more. Qed.
Lemma pre_point σ w x p c : iters σ !! w = None → pre C σ c → pre C (point w x p σ) c.
Proof.
  intros Hw. destruct c; cbn [pre]; intros Hp;
    repeat match goal with H : _ ∧ _ |- _ => destruct H | H : ∃ _, _ |- _ => destruct H end;
    repeat match goal with |- ∃ _, _ => eexists | |- _ ∧ _ => split end;
    try (by eapply at_it_more); try (by eapply deref_more); try (by eapply arg_more); try (by eapply rng_more);
    try (by eapply arg_out_more); try (by eapply rng_out_more); try (by eapply is_Some_deref_more); try (by eapply is_Some_arg_more);
    try (by eapply is_Some_arg_out_more); try done.
Qed.
End abstract.

Section props.
Context {T : Type} {C : cfg T} {OK : cfg_ok C}.
Implicit Types σ : sst T.
Implicit Types ρ : env.
Implicit Types st : state T.
Implicit Types c : cmd T.
Implicit Types xs ys : list T.
Notation reachable := (reachable C).
Notation reached := (reached C).
Notation iterator_at := (iterator_at C).
Notation exec := (exec (C:=C)).

(** the block an iterator points into *)
Lemma iterator_block ρ st w x p xs a it :
  reached ρ st → container_at st ρ x = Some (xs, a) → iterator_at st ρ w x p → e_iter ρ !! w = Some it →
  (xs = [] ∧ it = Iter empty_entry 0) ∨
  (xs ≠ [] ∧ ∃ k, sg_ptr (e_seg (i_entry it)) = Some k ∧ k ∈ blocks_of st ρ x).
Proof.
  intros Hr Hc Hw Hi. destruct (iterator_elim _ _ _ _ _ Hr Hw) as (o & a' & l & it' & Hl & Ho & Hi' & Hok & <- & Hc').
  rewrite Hc in Hc'. injection Hc' as -> <-. rewrite Hi in Hi'. injection Hi' as <-.
  destruct o as [t|]; [|left; split; [done|exact Hok]].
  right. destruct (lives_wf _ _ _ _ Ho) as (h & Hwf). split.
  { intros E. pose proof (wfroot_tsize _ _ Hwf). rewrite /tsize in H. simpl in E. rewrite E in H. simpl in H. lia. }
  destruct Hok as [(cx & k & vs & Ht & Hs & _) _]. exists k. split; [by rewrite Hs|].
  rewrite (lives_blocks _ _ _ _ _ _ Hl Ho) olocs_split. apply elem_of_app. right. simpl. rewrite Ht.
  destruct (plug_segs cx (Seg k vs)) as (S1 & S2 & -> & _). rewrite !fmap_app !elem_of_app. right. left. by left.
Qed.
(** ** C59: the documented rules of iterator validity *)
Theorem C59_valid σ ρ st c o ρ' st' w x p y xs a :
  reachable σ ρ st → pre C σ c → exec c ρ st = Ok (o, ρ') st' →
  container_at st ρ x = Some (xs, a) → iterator_at st ρ w x p → (assigns c w → threw o = true) →
  follows C σ c o x = Some y →
  iterator_at st' ρ' w y p ∧
  ∃ ys b, container_at st' ρ' y = Some (ys, b) ∧ length ys = length xs ∧ (¬ rewrites C σ c x → ys = xs).
Proof.
  intros Hr Hp He Hc Hw Ha Hf. pose proof (see _ _ _ _ _ _ Hr Hc) as Hcs.
  destruct (call_inv _ _ _ _ _ _ _ Hr Hp He) as (σ' & Hst & Hr').
  destruct (step_follows _ _ _ _ _ _ _ _ Hp Hst Hf Hcs) as (ys & b & Hys & Hlen & Hkeep).
  assert (container_at st' ρ' y = Some (ys, b)) as Hc' by by eapply show.
  split; [|exists ys, b; by split_and!].
  assert (reachable (point w x p σ) ρ st) as Hr1 by by apply pointing.
  destruct (iters σ !! w) as [[z q]|] eqn:Hiw.
  - destruct (decide (z = x)) as [->|Hne].
    + pose proof (canonical _ _ _ _ _ _ Hr Hiw) as Hw'.
      assert (q = p) as -> by (eapply iterator_at_fun; [by exists σ|done..]).
      apply (canonical σ'); [done|]. eapply step_follows_it; [done..|by rewrite Hcs|done|done].
    + pose proof (canonical _ _ _ _ _ _ Hr Hiw) as Hw'.
      destruct (iterator_elim _ _ _ _ _ (ex_intro _ σ Hr) Hw') as (oz & az & lz & it & Hlz & _ & Hit & _ & _ & Hcz).
      destruct (iterator_elim _ _ _ _ _ (ex_intro _ σ Hr) Hw) as (ox & ax & lx & it2 & Hlx & _ & Hit2 & _ & Hpos & _).
      rewrite Hit in Hit2. injection Hit2 as <-.
      destruct (iterator_block _ _ _ _ _ _ _ it (ex_intro _ σ Hr) Hc Hw Hit) as [[-> ->]|(_ & k & Hk & Hin)].
      * (* an iterator into an empty container *)
        apply nil_length_inv in Hlen as ->. simpl in Hpos. subst p.
        assert (e_iter ρ' !! w = Some (Iter empty_entry 0)) as Hi'.
        { destruct (threw o) eqn:Ht.
          - destruct o; try done. by rewrite (throw_env _ _ _ _ _ _ He).
          - assert (¬ assigns c w) as Hna by (intros H; by specialize (Ha H)).
            pose proof (keeps_exec w ρ c Hna st) as Hk. rewrite He in Hk. by rewrite Hk. }
        destruct (R_lives _ _ _ _ _ _ (reachable_R _ _ _ Hr') Hc') as (_ & o' & l' & Hl' & Ho' & Hel).
        apply (iterator_intro ρ' st' w y o' b l' (Iter empty_entry 0)); [by exists σ'|done..|].
        destruct o' as [t|]; [|done]. destruct (lives_wf _ _ _ _ Ho') as (h & Hwf).
        pose proof (wfroot_tsize _ _ Hwf) as H. rewrite /tsize in H. simpl in Hel. rewrite Hel in H. simpl in H. lia.
      * exfalso. destruct (iterator_block _ _ _ _ _ _ _ it (ex_intro _ σ Hr) Hcz Hw' Hit) as [[_ ->]|(_ & k' & Hk' & Hin')]; [done|].
        rewrite Hk in Hk'. injection Hk' as <-.
        destruct (C19_ownership ρ st x xs a lx (ex_intro _ σ Hr) Hc Hlx) as (_ & Hdj & _).
        destruct (Hdj z lz k); [done|by rewrite Hcz|done|by right|by right].
  - destruct (call_inv _ _ _ _ _ _ _ Hr1 (pre_point _ _ _ _ _ Hiw Hp) He) as (σ1 & Hst1 & Hr1').
    apply (canonical σ1); [done|].
    eapply (step_follows_it (point w x p σ)); [by apply pre_point|done|done|by rewrite /= Hcs|done|].
    by rewrite /at_it /= lookup_insert.
Qed.
(** ** and some invalidations are real: the memory of the destination of a move
    assignment is released, so the sentence "No iterators are invalidated" is not
    true of iterators into the destination; clear is documented to invalidate *)
Lemma gone ρ st w x p xs a st' :
  reached ρ st → reached ρ st' → container_at st ρ x = Some (xs, a) → xs ≠ [] → iterator_at st ρ w x p →
  (∀ k, k ∈ blocks_of st ρ x → st_heap st' !! k = None) → ∀ y q, ¬ iterator_at st' ρ w y q.
Proof.
  intros Hr Hr' Hc Hne Hw Hfree y q Hy.
  destruct (iterator_elim _ _ _ _ _ Hr' Hy) as (oy & ay & ly & it & Hly & _ & Hit & _ & _ & Hcy).
  destruct (iterator_block _ _ _ _ _ _ _ it Hr Hc Hw Hit) as [[-> _]|(_ & k & Hk & Hin)]; [done|].
  destruct (iterator_block _ _ _ _ _ _ _ it Hr' Hcy Hy Hit) as [[_ ->]|(_ & k' & Hk' & Hin')]; [done|].
  rewrite Hk in Hk'. injection Hk' as <-.
  assert (is_Some (st_heap st' !! k)) as [? E].
  { apply (C19_inventory ρ st' k Hr'). exists y. split; [by rewrite Hcy|by right]. }
  by rewrite (Hfree k Hin) in E.
Qed.
Theorem C59_move_assign_dangles ρ st w x p y xs a ys b :
  reached ρ st → x ≠ y → container_at st ρ x = Some (xs, a) → container_at st ρ y = Some (ys, b) →
  c_pocma C = true ∨ a = b → xs ≠ [] → iterator_at st ρ w x p →
  ∃ st', exec (AssignMove x y) ρ st = Ok (OUnit, ρ) st' ∧ ∀ z q, ¬ iterator_at st' ρ w z q.
Proof.
  intros Hr Hxy Hcx Hcy Hpo Hne Hw.
  destruct (C25_move_assign ρ st x y xs a ys b Hr Hxy Hcx Hcy Hpo) as (st' & He & Hr' & _ & _ & _ & Hfree & _); [done|].
  exists st'. split; [done|]. exact (gone ρ st w x p xs a st' Hr Hr' Hcx Hne Hw Hfree).
Qed.
Theorem C59_clear_dangles ρ st w x p xs a :
  reached ρ st → container_at st ρ x = Some (xs, a) → xs ≠ [] → iterator_at st ρ w x p →
  ∃ st', exec (Clear x) ρ st = Ok (OUnit, ρ) st' ∧ ∀ z q, ¬ iterator_at st' ρ w z q.
Proof.
  intros Hr Hcx Hne Hw.
  destruct (C23_clear ρ st x xs a Hr Hcx) as (st' & He & Hr' & _ & _ & Hfree & _); [done|].
  exists st'. split; [done|]. exact (gone ρ st w x p xs a st' Hr Hr' Hcx Hne Hw Hfree).
Qed.
End props.
