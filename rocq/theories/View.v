(** * View: the part of the state a client works with.  Proof infrastructure for C66. *)
From Verif Require Export Frame.
From stdpp Require Import options.
#[local] Set Default Proof Using "Type".

(** the containers in [D], and those iterator variables in [V] that refer to them *)
Definition view_of {T} (D V : nat → bool) (σ : sst T) : sst T :=
  SSt (filter (λ x, D x.1 = true) (conts σ)) (filter (λ w, V w.1 = true ∧ D w.2.1 = true) (iters σ)).
Arguments view_of : simpl never.

Section view.
Context {T : Type} {C : cfg T} (D V : nat → bool).
Implicit Types σ : sst T.
Implicit Types c : cmd T.
Notation view := (view_of D V).

Lemma sst_eq σ1 σ2 : (∀ x, conts σ1 !! x = conts σ2 !! x) → (∀ w, iters σ1 !! w = iters σ2 !! w) → σ1 = σ2.
Proof. destruct σ1, σ2; simpl. intros H1 H2. f_equal; by apply map_eq. Qed.
Lemma view_conts σ x : conts (view σ) !! x = if D x then conts σ !! x else None.
Proof.
  rewrite /view_of /= map_filter_lookup /=. destruct (D x) eqn:E; destruct (conts σ !! x) eqn:F; simpl; try done; by case_option_guard.
Qed.
Lemma view_iters σ w : iters (view σ) !! w = (if V w then '(x, p) ← iters σ !! w; if D x then Some (x, p) else None else None).
Proof.
  rewrite /view_of /= map_filter_lookup /=. destruct (iters σ !! w) as [[x p]|] eqn:F; simpl; [|by destruct (V w)].
  destruct (V w) eqn:E1, (D x) eqn:E2; case_option_guard as G; simpl in G; try done; naive_solver.
Qed.
#[local] Opaque view_of.
Lemma view_contents σ x : D x = true → contents (view σ) x = contents σ x.
Proof. intros H. by rewrite /contents view_conts H. Qed.
Lemma view_alloc σ x : D x = true → alloc_of (view σ) x = alloc_of σ x.
Proof. intros H. by rewrite /alloc_of view_conts H. Qed.
Lemma view_live σ x : D x = true → live (view σ) x ↔ live σ x.
Proof. intros H. by rewrite /live view_conts H. Qed.
Lemma view_unused σ x : D x = true → unused (view σ) x ↔ unused σ x.
Proof. intros H. by rewrite /unused view_conts H. Qed.
Lemma view_at σ w x p : at_it (view σ) w x p ↔ at_it σ w x p ∧ V w = true ∧ D x = true.
Proof.
  rewrite /at_it view_iters. destruct (V w); [|split; [done|by intros (_&?&_)]].
  destruct (iters σ !! w) as [[y q]|]; simpl; [|split; [done|by intros (?&_)]].
  destruct (D y) eqn:E; split; try done.
  - intros [= <- <-]. done.
  - by intros (?&_&_).
  - intros ([= <- <-]&_&?). congruence.
Qed.
Lemma view_iters_some σ w z : iters (view σ) !! w = Some z → iters σ !! w = Some z ∧ V w = true ∧ D z.1 = true.
Proof. destruct z as [x p]. apply view_at. Qed.

(** ** Effects inside the view *)
Ltac vc k := apply sst_eq; intros k; rewrite ?view_conts ?view_iters /= ?view_conts ?view_iters.
Lemma view_setc σ x xs a : D x = true → view (setc x xs a σ) = setc x xs a (view σ).
Proof.
  intros H. vc k; [|by rewrite ?view_iters]. destruct (decide (k = x)) as [->|].
  - by rewrite !lookup_insert H.
  - rewrite !lookup_insert_ne //. by rewrite ?view_conts.
Qed.
Lemma view_write σ x xs : D x = true → view (write x xs σ) = write x xs (view σ).
Proof. intros H. by rewrite /write view_setc // view_alloc. Qed.
Lemma view_forget σ x : view (forget x σ) = forget x (view σ).
Proof.
  vc k; [by rewrite ?view_conts|]. rewrite (map_filter_lookup _ (iters σ)) (map_filter_lookup _ (iters (view σ))) ?view_iters.
  destruct (V k); [|done]. destruct (iters σ !! k) as [[y q]|]; [|done]. simpl.
  destruct (decide (y ≠ x)) as [n|n]; [rewrite !(option_guard_True (y ≠ x)) //|rewrite !(option_guard_False (y ≠ x)) //]; simpl;
    destruct (D y); simpl; try done; [by rewrite option_guard_True|by rewrite option_guard_False].
Qed.
Lemma view_modify σ x xs : D x = true → view (modify x xs σ) = modify x xs (view σ).
Proof. intros H. by rewrite /modify view_forget view_write. Qed.
Lemma view_point σ w x p : D x = true → V w = true → view (point w x p σ) = point w x p (view σ).
Proof.
  intros H Hw. vc k; [by rewrite ?view_conts|]. destruct (decide (k = w)) as [->|].
  - by rewrite !lookup_insert /= Hw H.
  - rewrite !lookup_insert_ne //. by rewrite ?view_iters.
Qed.
Lemma view_retarget σ y x : D y = true → D x = true → view (retarget y x σ) = retarget y x (view σ).
Proof.
  intros Hy Hx. vc k; [by rewrite ?view_conts|]. rewrite !lookup_fmap ?view_iters.
  destruct (V k); [|done]. destruct (iters σ !! k) as [[z q]|]; [|done]. simpl.
  destruct (z =? y) eqn:E; simpl.
  - apply Nat.eqb_eq in E as ->. rewrite Hx Hy /=. by rewrite Nat.eqb_refl.
  - destruct (D z) eqn:F; simpl; [by rewrite E|done].
Qed.
Lemma view_exchange σ x y : D x = true → D y = true → view (exchange x y σ) = exchange x y (view σ).
Proof.
  intros Hx Hy. vc k; [by rewrite ?view_conts|]. rewrite !lookup_fmap ?view_iters.
  destruct (V k); [|done]. destruct (iters σ !! k) as [[z q]|]; [|done]. simpl.
  destruct (z =? x) eqn:E; simpl.
  - apply Nat.eqb_eq in E as ->. rewrite Hx Hy /=. by rewrite Nat.eqb_refl.
  - destruct (z =? y) eqn:F; simpl.
    + apply Nat.eqb_eq in F as ->. rewrite Hx Hy /=. by rewrite E Nat.eqb_refl.
    + destruct (D z) eqn:G; simpl; [by rewrite E F|done].
Qed.
Lemma view_drop σ x : view (forget x (SSt (delete x (conts σ)) (iters σ))) = forget x (SSt (delete x (conts (view σ))) (iters (view σ))).
Proof.
  rewrite view_forget. f_equal. vc k; [|by rewrite ?view_iters]. destruct (decide (k = x)) as [->|].
  - rewrite !lookup_delete. by destruct (D x).
  - rewrite !lookup_delete_ne //. by rewrite ?view_conts.
Qed.
Lemma view_deref σ w : is_Some (deref (view σ) w) → deref (view σ) w = deref σ w.
Proof.
  rewrite /deref view_iters. destruct (V w); [|by intros []].
  destruct (iters σ !! w) as [[x p]|]; [|by intros []]. simpl. destruct (D x) eqn:E; [|by intros []]. simpl. by rewrite view_contents.
Qed.
Lemma view_arg σ s : is_Some (arg_value (view σ) s) → arg_value (view σ) s = arg_value σ s.
Proof. destruct s; simpl; [done|apply view_deref..]. Qed.
Lemma view_rng σ r : is_Some (rng_values (view σ) r) → rng_values (view σ) r = rng_values σ r.
Proof.
  destruct r as [|mv w1 w2]; simpl; [done|]. rewrite !view_iters.
  destruct (V w1), (iters σ !! w1) as [[x p]|]; simpl; try (by intros []).
  destruct (D x) eqn:E; simpl; [|by intros []].
  destruct (V w2), (iters σ !! w2) as [[y q]|]; simpl; try (by intros []).
  destruct (D y) eqn:E2; simpl; [|by intros []].
  by rewrite view_contents.
Qed.
Lemma view_arg_used σ s : is_Some (arg_value (view σ) s) → view (arg_used C σ s) = arg_used C (view σ) s.
Proof.
  destruct s as [| |w]; simpl; [done..|]. rewrite /deref view_iters. destruct (V w); [|by intros []].
  destruct (iters σ !! w) as [[x p]|]; [|by intros []]. simpl. destruct (D x) eqn:E; [|by intros []]. simpl. intros _.
  by rewrite view_write // view_contents.
Qed.
Lemma view_rng_used σ r k : is_Some (rng_values (view σ) r) → view (rng_used C σ r k) = rng_used C (view σ) r k.
Proof.
  destruct r as [|[] w1 w2]; simpl; [done| |done]. rewrite !view_iters.
  destruct (V w1), (iters σ !! w1) as [[x p]|]; simpl; try (by intros []).
  destruct (D x) eqn:E; simpl; [|by intros []]. intros _. by rewrite view_write // view_contents.
Qed.
Lemma view_arg_outside σ s x : D x = true → is_Some (arg_value (view σ) s) → arg_outside (view σ) s x → arg_outside σ s x.
Proof.
  intros Hx. assert (∀ w, is_Some (deref (view σ) w) → (∀ p, iters (view σ) !! w ≠ Some (x, p)) → ∀ p, iters σ !! w ≠ Some (x, p)) as H.
  { intros w. rewrite /deref view_iters. destruct (V w); [|by intros []].
    destruct (iters σ !! w) as [[y q]|]; [|by intros []]. simpl. destruct (D y); [|by intros []]. naive_solver. }
  destruct s; simpl; [done|apply H..].
Qed.
Lemma view_rng_outside σ r x : D x = true → is_Some (rng_values (view σ) r) → rng_outside (view σ) r x → rng_outside σ r x.
Proof.
  intros Hx. destruct r as [|mv w1 w2]; simpl; [done|]. rewrite !view_iters.
  destruct (V w1), (iters σ !! w1) as [[y p]|]; simpl; try (by intros []).
  destruct (D y); simpl; [|by intros []]. naive_solver.
Qed.

(** ** Preconditions *)
Ltac el := first [ assumption | apply elem_of_list_here | apply elem_of_list_further; el
  | let w := fresh in intros w ?; el ].
Lemma view_pre σ c : (∀ x, x ∈ names c → D x = true) → pre C (view σ) c → pre C σ c.
Proof.
  intros Hn Hp. remember (view σ) as τ eqn:Hτ.
  assert (∀ x, x ∈ names c → contents τ x = contents σ x) as E1 by (intros; subst; rewrite view_contents; auto).
  assert (∀ x, x ∈ names c → alloc_of τ x = alloc_of σ x) as E2 by (intros; subst; rewrite view_alloc; auto).
  assert (∀ x, x ∈ names c → live τ x → live σ x) as E3 by (intros ??; subst; rewrite view_live; auto).
  assert (∀ x, x ∈ names c → unused τ x → unused σ x) as E4 by (intros ??; subst; rewrite view_unused; auto).
  assert (∀ w x p, at_it τ w x p → at_it σ w x p) as E5 by (intros ???; subst; rewrite view_at; naive_solver).
  assert (∀ w, is_Some (deref τ w) → is_Some (deref σ w)) as E6 by (intros w H; subst; rewrite -view_deref //).
  assert (∀ w x p, at_it τ w x p → contents τ x = contents σ x) as E7.
  { intros ??? H. subst. apply view_at in H as (_&_&H). by rewrite view_contents. }
  assert (∀ s, is_Some (arg_value τ s) → is_Some (arg_value σ s)) as E8 by (intros s H; subst; rewrite -view_arg //).
  assert (∀ r xs, rng_values τ r = Some xs → rng_values σ r = Some xs) as E9 by (intros r xs H; subst; rewrite -view_rng //; by rewrite H).
  assert (∀ s x, x ∈ names c → is_Some (arg_value τ s) → arg_outside τ s x → arg_outside σ s x) as E10.
  { intros s x Hx. subst. apply view_arg_outside. auto. }
  assert (∀ r xs x, x ∈ names c → rng_values τ r = Some xs → rng_outside τ r x → rng_outside σ r x) as E11.
  { intros r xs x Hx H. subst. apply view_rng_outside; [auto|by rewrite H]. }
  clear Hτ Hn.
  destruct c; cbn [pre names] in *.
  all: repeat match goal with H : ∃ _, _ |- _ => destruct H | H : _ ∧ _ |- _ => destruct H end.
  all: repeat match goal with |- ∃ _, _ => eexists | |- _ ∧ _ => split end.
  all: try (eapply E5; eassumption).
  all: try (eapply E9; eassumption).
  all: try eassumption.
  all: try (first
    [ apply E3; [el|eassumption]
    | apply E4; [el|eassumption]
    | apply E6; eassumption
    | apply E8; eassumption
    | apply E10; [el|eassumption..]
    | eapply E11; [el|eassumption..]
    | rewrite -?E1 -?E2; [eassumption|el..]
    | erewrite <- E7; [eassumption|eassumption]
    | erewrite <- E1; [eassumption|el]
    | match goal with H : at_it _ ?w ?x _ |- context [contents _ ?x] => rewrite -(E7 _ _ _ H); eassumption end ]).
Qed.

(** every variable a call reads refers to something *)
Lemma pre_uses σ c w : pre C σ c → w ∈ uses c → ∃ x p, at_it σ w x p.
Proof.
  assert (∀ w, is_Some (deref σ w) → ∃ x p, at_it σ w x p) as Hd.
  { intros v. rewrite /deref /at_it. destruct (iters σ !! v) as [[x p]|]; [by eauto|by intros []]. }
  assert (∀ s, is_Some (arg_value σ s) → ∀ w, w ∈ arg_uses s → ∃ x p, at_it σ w x p) as Ha.
  { intros s Hs v Hv. destruct s; simpl in *; [by apply elem_of_nil in Hv|apply elem_of_list_singleton in Hv as ->; by apply Hd..]. }
  assert (∀ r xs, rng_values σ r = Some xs → ∀ w, w ∈ rng_uses r → ∃ x p, at_it σ w x p) as Hr.
  { intros r xs Hs v Hv. destruct r as [|mv w1 w2]; simpl in *; [by apply elem_of_nil in Hv|]. unfold at_it.
    destruct (iters σ !! w1) as [[x p]|] eqn:E1; [|done]. simpl in Hs. destruct (iters σ !! w2) as [[y q]|] eqn:E2; [|done].
    apply elem_of_cons in Hv as [->|Hv]; [by eauto|]. apply elem_of_list_singleton in Hv as ->. by eauto. }
  intros Hp Hw. destruct c; cbn [pre uses] in *; try (by apply elem_of_nil in Hw);
    repeat match goal with H : ∃ _, _ |- _ => destruct H | H : _ ∧ _ |- _ => destruct H end;
    repeat match goal with H : _ ∈ _ :: _ |- _ => apply elem_of_cons in H as [->|H] end;
    try (by apply elem_of_nil in Hw); eauto.
Qed.

(** ** Calls inside the view *)
Ltac par := lazymatch goal with
  | |- (∃ _, _) → (∃ _, _) => let x := fresh "x" in let H := fresh in intros [x H]; exists x; revert H; par
  | |- (_ ∧ _) → (_ ∧ _) => let H1 := fresh in let H2 := fresh in intros [H1 H2]; split; [revert H1|revert H2]; par
  | |- (_ ∨ _) → (_ ∨ _) => let H := fresh in intros [H|H]; [left|right]; revert H; par
  | |- _ = _ → _ => idtac
  | |- (_ → _) → _ → _ => idtac
  | |- _ → _ => intros ?; try par
  | _ => idtac
  end.
Ltac ds := match goal with
  | Hn : ∀ x, _ → D x = true |- D ?x = true => apply Hn; el
  | E : ∀ w x p, _ → _ → D x = true, H : at_it _ ?w ?x _ |- D ?x = true => apply (E _ _ _ ltac:(el) H)
  end.
Lemma view_step σ c o σ' :
  (∀ x, x ∈ names c → D x = true) → (∀ w, assigns c w → V w = true) → pre C (view σ) c →
  step C σ c o σ' → step C (view σ) c o (view σ').
Proof.
  intros Hn Ha Hp.
  assert (∀ w x p, w ∈ uses c → at_it σ w x p → at_it (view σ) w x p ∧ D x = true) as E5.
  { intros w x p Hw Hi. destruct (pre_uses _ _ _ Hp Hw) as (y & q & Hy). pose proof Hy as (Hy'&_&?)%view_at.
    by destruct (at_it_fun _ _ _ _ _ _ Hi Hy') as [-> ->]. }
  assert (∀ w x p, w ∈ uses c → at_it σ w x p → D x = true) as E8 by (intros w x p Hw Hi; apply (E5 w x p Hw Hi)).
  assert (∀ x, x ∈ names c → contents (view σ) x = contents σ x) as E1 by (intros; rewrite view_contents; auto).
  assert (∀ x, x ∈ names c → alloc_of (view σ) x = alloc_of σ x) as E2 by (intros; rewrite view_alloc; auto).
  assert (∀ w x p, w ∈ uses c → at_it σ w x p → contents (view σ) x = contents σ x) as E7.
  { intros ??? Hw H. destruct (E5 _ _ _ Hw H). by rewrite view_contents. }
  destruct c; cbn [step names uses assigns] in *; unfold insert_step, returns, in_segment; cbv zeta;
    cbn [pre] in Hp;
    repeat match goal with H : ∃ _, _ |- _ => destruct H | H : _ ∧ _ |- _ => destruct H end.
  all: repeat match goal with
    | |- context [contents (view_of D V _) ?x] => rewrite (E1 x); [|el]
    | |- context [alloc_of (view_of D V _) ?x] => rewrite (E2 x); [|el]
    | |- context [arg_value (view_of D V _) ?s] => rewrite (view_arg σ s); [|by eauto]
    | |- context [rng_values (view_of D V _) ?r] => rewrite (view_rng σ r); [|by eauto]
    | |- context [deref (view_of D V _) ?w] => rewrite (view_deref σ w); [|by eauto]
    end.
  all: repeat match goal with |- context [if ?b then _ else _] => lazymatch type of b with bool => destruct b eqn:? end
     | |- context [match ?b with Some _ => _ | None => _ end] => destruct b eqn:? end.
  all: par.
  all: try assumption.
  all: try (lazymatch goal with |- _ = _ → _ => intros -> end).
  all: try (apply E5; [el|eassumption]).
  all: try done.
  all: try (match goal with H : at_it _ _ ?x _ |- context [contents (view_of D V _) ?x] => rewrite (E7 _ _ _ _ H); [done|el] end).
  all: repeat match goal with |- context [if ?b then _ else _] => destruct b end; unfold id.
  all: try done.
  all: repeat first
    [ rewrite -view_arg_used; [|by eauto]
    | rewrite -view_rng_used; [|by eauto]
    | rewrite view_contents; [|ds]
    | rewrite view_point; [|ds|by apply Ha]
    | rewrite view_drop
    | rewrite view_retarget; [|ds|ds]
    | rewrite view_exchange; [|ds|ds]
    | rewrite view_modify; [|ds]
    | rewrite view_write; [|ds]
    | rewrite view_forget
    | rewrite view_setc; [|ds] ].
  all: try done.
  all: rewrite /modify /write ?view_alloc //; try ds.
Qed.

(** ** Calls outside the view *)
Lemma view_off_setc σ x xs a : D x = false → view (setc x xs a σ) = view σ.
Proof.
  intros H. vc k; [|done]. destruct (D k) eqn:E; [|done]. rewrite lookup_insert_ne //. congruence.
Qed.
Lemma view_off_write σ x xs : D x = false → view (write x xs σ) = view σ.
Proof. apply view_off_setc. Qed.
Lemma view_off_forget σ x : D x = false → view (forget x σ) = view σ.
Proof.
  intros H. vc k; [done|]. rewrite (map_filter_lookup _ (iters σ)). destruct (V k); [|done].
  destruct (iters σ !! k) as [[y q]|]; [|done]. simpl. destruct (decide (y ≠ x)) as [n|n].
  - by rewrite option_guard_True.
  - rewrite option_guard_False //=. apply dec_stable in n as ->. by rewrite H.
Qed.
Lemma view_off_modify σ x xs : D x = false → view (modify x xs σ) = view σ.
Proof. intros H. by rewrite /modify view_off_forget // view_off_write. Qed.
Lemma view_off_point σ w x p : V w = false → view (point w x p σ) = view σ.
Proof.
  intros H. vc k; [done|]. destruct (V k) eqn:E; [|done]. rewrite lookup_insert_ne //. congruence.
Qed.
Lemma view_off_retarget σ y x : D y = false → D x = false → view (retarget y x σ) = view σ.
Proof.
  intros Hy Hx. vc k; [done|]. rewrite lookup_fmap. destruct (V k); [|done].
  destruct (iters σ !! k) as [[z q]|]; [|done]. simpl. destruct (z =? y) eqn:E; [|done].
  apply Nat.eqb_eq in E as ->. by rewrite Hx Hy.
Qed.
Lemma view_off_exchange σ x y : D x = false → D y = false → view (exchange x y σ) = view σ.
Proof.
  intros Hx Hy. vc k; [done|]. rewrite lookup_fmap. destruct (V k); [|done].
  destruct (iters σ !! k) as [[z q]|]; [|done]. simpl. destruct (z =? x) eqn:E.
  { apply Nat.eqb_eq in E as ->. by rewrite Hx Hy. }
  destruct (z =? y) eqn:F; [|done]. apply Nat.eqb_eq in F as ->. by rewrite Hx Hy.
Qed.
Lemma view_off_drop σ x : D x = false → view (forget x (SSt (delete x (conts σ)) (iters σ))) = view σ.
Proof.
  intros H. rewrite view_off_forget //. vc k; [|done]. destruct (D k) eqn:E; [|done]. rewrite lookup_delete_ne //. congruence.
Qed.
Lemma view_off_arg_used σ s : (∀ w x p, w ∈ arg_moves s → at_it σ w x p → D x = false) → view (arg_used C σ s) = view σ.
Proof.
  intros H. destruct s as [| |w]; [done..|]. simpl. destruct (iters σ !! w) as [[x p]|] eqn:E; [|done].
  apply view_off_write. eapply (H w x p); [by left|done].
Qed.
Lemma view_off_rng_used σ r k : (∀ w x p, w ∈ rng_moves r → at_it σ w x p → D x = false) → view (rng_used C σ r k) = view σ.
Proof.
  intros H. destruct r as [|[] w1 w2]; [done| |done]. simpl. destruct (iters σ !! w1) as [[x p]|] eqn:E; [|done].
  apply view_off_write. eapply (H w1 x p); [by left|done].
Qed.
Ltac off := match goal with
  | Hn : ∀ y, y ∈ _ → D y = false |- D ?y = false => apply Hn; el
  | E : ∀ w x p, _ → _ → D x = false, H : at_it _ ?w ?x _ |- D ?x = false => apply (E w _ _ ltac:(el) H)
  end.
Lemma view_other σ c o σ' :
  (∀ y, modifies σ c y → D y = false) → (∀ w, assigns c w → V w = false) →
  step C σ c o σ' → view σ' = view σ.
Proof.
  intros Hm Ha.
  assert (∀ y, y ∈ changes c → D y = false) as Hn by (intros y Hy; apply Hm; by left).
  assert (∀ w x p, w ∈ alters c → at_it σ w x p → D x = false) as E by (intros w x p Hw Hi; apply Hm; right; by exists w, p).
  clear Hm. destruct c; cbn [step changes alters assigns] in *; unfold insert_step, returns; cbv zeta; intros Hs.
  all: repeat match goal with H : ∃ _, _ |- _ => destruct H | H : _ ∧ _ |- _ => destruct H | H : _ ∨ _ |- _ => destruct H end.
  all: repeat match goal with H : context [if ?b then _ else _] |- _ => lazymatch type of b with bool => destruct b eqn:? end
     | H : context [match ?b with Some _ => _ | None => _ end] |- _ => destruct b eqn:? end.
  all: repeat match goal with H : ∃ _, _ |- _ => destruct H | H : _ ∧ _ |- _ => destruct H | H : _ ∨ _ |- _ => destruct H end.
  all: subst; unfold id; try done.
  all: repeat first
    [ rewrite view_off_point; [|by apply Ha]
    | rewrite view_off_drop; [|off]
    | rewrite view_off_retarget; [|off|off]
    | rewrite view_off_exchange; [|off|off]
    | rewrite view_off_modify; [|off]
    | rewrite view_off_write; [|off]
    | rewrite view_off_forget; [|off]
    | rewrite view_off_setc; [|off]
    | rewrite view_off_arg_used; [|intros ?????; eapply E; [first [eassumption|by apply elem_of_list_further]|eassumption]]
    | rewrite view_off_rng_used; [|done] ].
  all: try done.

Qed.
End view.
