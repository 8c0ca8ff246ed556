(** * ListAlg: functions on lists that say what the standard algorithms do, and
    the proof that they do what the C++ standard prescribes. *)
From iris.prelude Require Export prelude.
From stdpp Require Export sorting.
From stdpp Require Import options.

Section defs.
Context {T : Type}.
(** std::stable_sort *)
Fixpoint sorted_insert (lt : T → T → bool) (x : T) (l : list T) : list T :=
  match l with
  | [] => [x]
  | y :: l' => if lt y x then y :: sorted_insert lt x l' else x :: l
  end.
Fixpoint stable_sorted (lt : T → T → bool) (l : list T) : list T :=
  match l with [] => [] | x :: l' => sorted_insert lt x (stable_sorted lt l') end.
Fixpoint stable_merged (lt : T → T → bool) (l1 : list T) : list T → list T :=
  fix go l2 :=
    match l1, l2 with
    | [], _ => l2
    | _, [] => l1
    | x :: l1', y :: l2' => if lt y x then y :: go l2' else x :: stable_merged lt l1' l2
    end.
(** std::unique: of a run of equivalent elements keep the first *)
Fixpoint unique_from (p : T → T → bool) (x : T) (l : list T) : list T :=
  match l with
  | [] => [x]
  | y :: l' => if p x y then unique_from p x l' else x :: unique_from p y l'
  end.
Definition unique_list (p : T → T → bool) (l : list T) : list T :=
  match l with [] => [] | x :: l' => unique_from p x l' end.
(** std::remove_if *)
Fixpoint remove_list (p : T → bool) (l : list T) : list T :=
  match l with [] => [] | x :: l' => if p x then remove_list p l' else x :: remove_list p l' end.
(** std::equal, std::lexicographical_compare *)
Fixpoint equal_lists (eq : T → T → bool) (l1 l2 : list T) : bool :=
  match l1, l2 with
  | [], [] => true
  | x :: l1', y :: l2' => eq x y && equal_lists eq l1' l2'
  | _, _ => false
  end.
Fixpoint lex_lists (lt : T → T → bool) (l1 l2 : list T) : bool :=
  match l1, l2 with
  | _, [] => false
  | [], _ :: _ => true
  | x :: l1', y :: l2' => lt x y || (negb (lt y x) && lex_lists lt l1' l2')
  end.
End defs.

(** A strict weak ordering, as std::stable_sort requires (irreflexivity,
    transitivity of [lt] and of incomparability, the latter two being equivalent
    to [lt] being negatively transitive and asymmetric). *)
Record strict_weak {T} (lt : T → T → bool) : Prop := {
  sw_asym : ∀ x y, lt x y = true → lt y x = false;
  sw_ntrans : ∀ x y z, lt y x = false → lt z y = false → lt z x = false
}.

Section props.
Context {T : Type} (lt : T → T → bool).
(** [x] may stand before [y] *)
Definition leq (x y : T) : Prop := lt y x = false.
Definition equivalent (x y : T) : bool := negb (lt x y) && negb (lt y x).

Lemma sorted_insert_perm x l : sorted_insert lt x l ≡ₚ x :: l.
Proof.
  induction l as [|y l IH]; simpl; [done|]. destruct (lt y x); [|done].
  rewrite IH. apply Permutation_swap.
Qed.
Lemma stable_sorted_perm l : stable_sorted lt l ≡ₚ l.
Proof. induction l as [|x l IH]; simpl; [done|]. by rewrite sorted_insert_perm IH. Qed.
Lemma sorted_insert_sorted x l :
  strict_weak lt → StronglySorted leq l → StronglySorted leq (sorted_insert lt x l).
Proof.
  intros [Ha Ht] Hs. induction Hs as [|y l Hs IH Hy]; simpl.
  { constructor; [constructor|constructor]. }
  destruct (lt y x) eqn:Hyx.
  - constructor; [done|]. apply Forall_forall. intros z Hz. rewrite sorted_insert_perm in Hz.
    apply elem_of_cons in Hz as [->|Hz]; [by apply Ha|]. rewrite Forall_forall in Hy. by apply Hy.
  - constructor; [by constructor|]. constructor; [done|]. apply Forall_forall. intros z Hz.
    rewrite Forall_forall in Hy. unfold leq in *. eapply Ht; [exact Hyx|]. by apply Hy.
Qed.
Lemma stable_sorted_sorted l : strict_weak lt → StronglySorted leq (stable_sorted lt l).
Proof. intros H. induction l as [|x l IH]; simpl; [constructor|]. by apply sorted_insert_sorted. Qed.
(** elements equivalent to [z] keep their order *)
Lemma sorted_insert_stable z x l :
  strict_weak lt → StronglySorted leq l →
  filter (λ y, equivalent z y = true) (sorted_insert lt x l) = filter (λ y, equivalent z y = true) (x :: l).
Proof.
  intros [Ha Ht] Hs. induction Hs as [|y l Hs IH Hy]; simpl; [done|].
  destruct (lt y x) eqn:Hyx; [|done]. rewrite filter_cons.
  rewrite IH. rewrite !filter_cons. clear IH.
  destruct (decide (equivalent z y = true)) as [H1|H1]; [|by destruct (decide _)].
  destruct (decide (equivalent z x = true)) as [H2|H2]; [|done]. exfalso.
  unfold equivalent in *. apply andb_true_iff in H1 as [H1 H1']. apply andb_true_iff in H2 as [H2 H2'].
  apply negb_true_iff in H1, H1', H2, H2'.
  assert (lt y x = false); [|congruence]. eapply Ht; [exact H2|exact H1'].
Qed.
Lemma stable_sorted_stable z l :
  strict_weak lt →
  filter (λ y, equivalent z y = true) (stable_sorted lt l) = filter (λ y, equivalent z y = true) l.
Proof.
  intros H. induction l as [|x l IH]; simpl; [done|].
  rewrite sorted_insert_stable //; [|by apply stable_sorted_sorted]. by rewrite !filter_cons IH.
Qed.

Lemma stable_merged_nil_l l2 : stable_merged lt [] l2 = l2.
Proof. by destruct l2. Qed.
Lemma stable_merged_nil_r l1 : stable_merged lt l1 [] = l1.
Proof. by destruct l1. Qed.
Lemma stable_merged_cons x l1 y l2 :
  stable_merged lt (x :: l1) (y :: l2) =
  if lt y x then y :: stable_merged lt (x :: l1) l2 else x :: stable_merged lt l1 (y :: l2).
Proof. done. Qed.
Lemma stable_merged_perm l1 l2 : stable_merged lt l1 l2 ≡ₚ l1 ++ l2.
Proof.
  revert l2. induction l1 as [|x l1 IH]; intros l2; [by rewrite stable_merged_nil_l|].
  induction l2 as [|y l2 IH2]; [by rewrite stable_merged_nil_r right_id_L|].
  rewrite stable_merged_cons. destruct (lt y x).
  - rewrite IH2. by rewrite (Permutation_middle (x :: l1) l2 y).
  - by rewrite IH.
Qed.
Lemma stable_merged_length l1 l2 : length (stable_merged lt l1 l2) = length l1 + length l2.
Proof. by rewrite stable_merged_perm app_length. Qed.
Lemma stable_sorted_length l : length (stable_sorted lt l) = length l.
Proof. by rewrite stable_sorted_perm. Qed.
Lemma stable_merged_sorted l1 l2 :
  strict_weak lt → StronglySorted leq l1 → StronglySorted leq l2 → StronglySorted leq (stable_merged lt l1 l2).
Proof.
  intros [Ha Ht] H1. revert l2. induction H1 as [|x l1 H1 IH Hx]; intros l2 H2; [by rewrite stable_merged_nil_l|].
  induction H2 as [|y l2 H2 IH2 Hy]; [rewrite stable_merged_nil_r; by constructor|].
  rewrite stable_merged_cons. destruct (lt y x) eqn:Hyx.
  - constructor; [done|]. apply Forall_forall. intros z Hz. rewrite stable_merged_perm in Hz.
    rewrite Forall_forall in Hx. rewrite Forall_forall in Hy. unfold leq in *.
    apply elem_of_app in Hz as [[->|Hz]%elem_of_cons|Hz].
    + by apply Ha.
    + eapply Ht; [apply Ha, Hyx|by apply Hx].
    + by apply Hy.
  - constructor; [apply IH; by constructor|]. apply Forall_forall. intros z Hz. rewrite stable_merged_perm in Hz.
    rewrite Forall_forall in Hx. rewrite Forall_forall in Hy. unfold leq in *.
    apply elem_of_app in Hz as [Hz|[->|Hz]%elem_of_cons].
    + by apply Hx.
    + done.
    + eapply Ht; [exact Hyx|by apply Hy].
Qed.
(** of equivalent elements, those of the first range come first, in order *)
Lemma stable_merged_stable z l1 l2 :
  strict_weak lt → StronglySorted leq l1 → StronglySorted leq l2 →
  filter (λ y, equivalent z y = true) (stable_merged lt l1 l2) =
  filter (λ y, equivalent z y = true) l1 ++ filter (λ y, equivalent z y = true) l2.
Proof.
  intros [Ha Ht] H1. revert l2. induction H1 as [|x l1 H1 IH Hx]; intros l2 H2; [by rewrite stable_merged_nil_l|].
  induction H2 as [|y l2 H2 IH2 Hy]; [rewrite stable_merged_nil_r; by rewrite right_id_L|].
  rewrite stable_merged_cons. destruct (lt y x) eqn:Hyx.
  - rewrite filter_cons IH2 (filter_cons _ y). destruct (decide (equivalent z y = true)) as [Hzy|]; [|done].
    assert (filter (λ y, equivalent z y = true) (x :: l1) = []) as ->; [|done].
    assert (∀ l, Forall (λ u, lt u x = false) l → filter (λ y, equivalent z y = true) l = []) as Hnone; last first.
    { apply Hnone. constructor; [|exact Hx]. destruct (lt x x) eqn:Hxx; [|done]. pose proof (Ha _ _ Hxx). congruence. }
    intros l Hl. induction Hl as [|u l Hu Hl IHl]; [done|]. rewrite filter_cons IHl.
    destruct (decide (equivalent z u = true)) as [Hzu|]; [|done]. exfalso.
    unfold equivalent in *. apply andb_true_iff in Hzy as [Hzy Hyz]. apply andb_true_iff in Hzu as [Hzu Huz].
    apply negb_true_iff in Hzy, Hyz, Hzu, Huz.
    assert (lt y x = false); [|congruence]. apply (Ht _ u); [done|]. apply (Ht _ z); done.
  - rewrite !filter_cons IH; [|by constructor]. rewrite !filter_cons. by destruct (decide _).
Qed.

Lemma remove_list_filter (p : T → bool) l : remove_list p l = filter (λ x, p x = false) l.
Proof.
  induction l as [|x l IH]; [done|]. rewrite filter_cons. simpl.
  destruct (p x); simpl; by rewrite IH.
Qed.
Lemma equal_lists_spec (eq : T → T → bool) l1 l2 :
  equal_lists eq l1 l2 = true ↔ Forall2 (λ x y, eq x y = true) l1 l2.
Proof.
  revert l2. induction l1 as [|x l1 IH]; intros [|y l2]; simpl; try (split; by inversion 1).
  - rewrite andb_true_iff IH Forall2_cons. done.
Qed.
End props.
