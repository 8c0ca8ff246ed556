(** * Frame: a call leaves everything alone that it does not mention (Scope.v). *)
From Verif Require Export Canon.
From stdpp Require Import options.
Set Default Proof Using "Type*".

Section touch.
Context {T : Type}.
Lemma some_at_dec (σ : sst T) (ws : list nat) x : Decision (∃ w p, w ∈ ws ∧ iters σ !! w = Some (x, p)).
Proof.
  assert (Decision (Exists (λ w, (fst <$> iters σ !! w) = Some x) ws)) as [H|H] by apply _.
  - left. apply Exists_exists in H as (w & Hw & H). destruct (iters σ !! w) as [[y p]|] eqn:E; [|done].
    simplify_eq/=. by exists w, p.
  - right. intros (w & p & Hw & Hi). apply H. apply Exists_exists. exists w. by rewrite Hi.
Defined.
Global Instance touches_dec (σ : sst T) c x : Decision (touches σ c x).
Proof. apply or_dec; [apply _|apply some_at_dec]. Defined.
Global Instance modifies_dec (σ : sst T) c x : Decision (modifies σ c x).
Proof. apply or_dec; [apply _|apply some_at_dec]. Defined.
Lemma modifies_touches (σ : sst T) c x : modifies σ c x → touches σ c x.
Proof.
  intros [H|(w & p & Hw & Hi)].
  - left. destruct c; cbn [changes names] in *; try done; by apply elem_of_nil in H || (set_solver).
  - right. exists w, p. split; [|done]. destruct c; cbn [alters uses] in *; try (by apply elem_of_nil in Hw);
      repeat match goal with s : arg T |- _ => destruct s | r : rng T |- _ => destruct r as [|[] ? ?] end;
      cbn [arg_moves rng_moves arg_uses rng_uses] in *; set_solver.
Qed.
End touch.

(** ** The call does not look at other variables *)
Section env.
Context {T : Type} {C : cfg T}.
Implicit Types ρ : env.
(** [m] behaves like [m1], with more variables [X] *)
Definition add_env (X : gmap nat loc) ρ : env := Env (e_cont ρ ∪ X) (e_iter ρ).
Definition sim (X : gmap nat loc) (m1 m : M T (out T * env)) : Prop := ∀ st,
  match m1 st with
  | Ok (o, ρ') st' => m st = Ok (o, add_env X ρ') st'
  | Throw e st' => m st = Throw e st'
  | Fault _ => True
  end.
Lemma sim_bind {A} X (m : M T A) k1 k : (∀ a, sim X (k1 a) (k a)) → sim X (m ≫= k1) (m ≫= k).
Proof.
  intros H st. rewrite /mbind /M_bind. destruct (m st) as [a st1|e st1|f]; try done. apply H.
Qed.
Lemma sim_getc X ρ x k1 k : (∀ a, sim X (k1 a) (k a)) → sim X (getc ρ x ≫= k1) (getc (add_env X ρ) x ≫= k).
Proof.
  intros H st. rewrite /mbind /M_bind /getc /lookup_var. simpl. destruct (e_cont ρ !! x) as [l|] eqn:E; [|done].
  erewrite lookup_union_Some_l; [|done]. apply H.
Qed.
Lemma sim_ret X o ρ1 ρ : ρ = add_env X ρ1 → sim X (mret (o, ρ1)) (mret (o, ρ)).
Proof. intros -> st. done. Qed.
Lemma sim_gets X ρ s k1 k : (∀ a, sim X (k1 a) (k a)) → sim X (gets ρ s ≫= k1) (gets (add_env X ρ) s ≫= k).
Proof. intros H. replace (gets (add_env X ρ) s) with (gets ρ s) by (by destruct s). by apply sim_bind. Qed.
Lemma sim_getr X ρ r k1 k : (∀ a, sim X (k1 a) (k a)) → sim X (getr ρ r ≫= k1) (getr (add_env X ρ) r ≫= k).
Proof. intros H. replace (getr (add_env X ρ) r) with (getr ρ r) by (by destruct r). by apply sim_bind. Qed.
Lemma bindc_add X ρ x l : bindc x l (add_env X ρ) = add_env X (bindc x l ρ).
Proof. rewrite /bindc /add_env /=. by rewrite insert_union_l. Qed.
Lemma unbindc_add X ρ x : X !! x = None → unbindc x (add_env X ρ) = add_env X (unbindc x ρ).
Proof. intros H. rewrite /unbindc /add_env /=. by rewrite delete_union (delete_notin X). Qed.
Lemma sim_exec_call X ρ (c : cmd T) :
  (∀ x, x ∈ names c → X !! x = None) → sim X (exec_call c ρ) (exec_call c (add_env X ρ)).
Proof.
  intros HX. destruct c; cbn [exec_call names] in *; rewrite /done_;
  repeat first
    [ apply sim_getc; intros | apply sim_gets; intros | apply sim_getr; intros
    | match goal with |- sim _ (if ?b then _ else _) _ => destruct b end
    | apply sim_ret; first [reflexivity | apply bindc_add | apply unbindc_add; apply HX; set_solver]
    | apply sim_bind; intros ].
Qed.
Lemma sim_exec X ρ (c : cmd T) :
  (∀ x, x ∈ names c → X !! x = None) → sim X (exec c ρ) (exec c (add_env X ρ)).
Proof.
  intros HX st. pose proof (sim_exec_call X ρ c HX st) as H. rewrite /exec /try_catch.
  destruct (exec_call c ρ st) as [[o ρ'] st'|e st'|f]; try done; rewrite H; done.
Qed.
(** the iterator variables that are not assigned keep their values *)
Definition keeps w ρ (m : M T (out T * env)) : Prop := ∀ st,
  match m st with Ok (_, ρ') _ => e_iter ρ' !! w = e_iter ρ !! w | _ => True end.
Lemma keeps_bind {A} w ρ (m : M T A) k : (∀ a, keeps w ρ (k a)) → keeps w ρ (m ≫= k).
Proof.
  intros H st. rewrite /mbind /M_bind. destruct (m st) as [a st1|e st1|f]; try done. apply H.
Qed.
Lemma keeps_ret w ρ o ρ' : e_iter ρ' !! w = e_iter ρ !! w → keeps w ρ (mret (o, ρ')).
Proof. intros H st. exact H. Qed.
Lemma keeps_exec w ρ (c : cmd T) : ¬ assigns c w → keeps w ρ (exec c ρ).
Proof.
  intros Hw. assert (keeps w ρ (exec_call c ρ)) as H.
  { destruct c; cbn [exec_call assigns] in *; rewrite /done_;
    repeat first
      [ match goal with |- keeps _ _ (if ?b then _ else _) => destruct b end
      | apply keeps_ret; first [reflexivity | simpl; rewrite lookup_insert_ne; [reflexivity|congruence]]
      | apply keeps_bind; intros ]. }
  intros st. specialize (H st). rewrite /exec /try_catch. destruct (exec_call c ρ st) as [[o ρ'] st'|e st'|f]; done.
Qed.
End env.

(** ** The rest of the memory *)
Section frame.
Context {T : Type} {C : cfg T} {OK : cfg_ok C}.
Implicit Types σ : sst T.
Implicit Types ρ : env.
Implicit Types st : state T.
Implicit Types c : cmd T.
Notation reachable := (reachable C).
Notation iterator_at := (iterator_at C).

(** the part of the abstract state a call looks at *)
Definition part σ c : sst T :=
  SSt (filter (λ x, touches σ c x.1) (conts σ)) (filter (λ w, touches σ c w.2.1) (iters σ)).
Lemma part_conts σ c x : touches σ c x → conts (part σ c) !! x = conts σ !! x.
Proof.
  intros H. simpl. destruct (conts σ !! x) as [[xs a]|] eqn:E.
  - by apply map_filter_lookup_Some.
  - apply map_filter_lookup_None. by left.
Qed.
Lemma part_iters σ c w : w ∈ uses c → iters (part σ c) !! w = iters σ !! w.
Proof.
  intros H. simpl. destruct (iters σ !! w) as [[x p]|] eqn:E.
  - apply map_filter_lookup_Some. split; [done|]. right. by exists w, p.
  - apply map_filter_lookup_None. by left.
Qed.
Lemma part_contents σ c x : touches σ c x → contents (part σ c) x = contents σ x.
Proof. intros H. by rewrite /contents part_conts. Qed.
Lemma part_alloc σ c x : touches σ c x → alloc_of (part σ c) x = alloc_of σ x.
Proof. intros H. by rewrite /alloc_of part_conts. Qed.
Lemma part_live σ c x : touches σ c x → live (part σ c) x ↔ live σ x.
Proof. intros H. by rewrite /live part_conts. Qed.
Lemma part_unused σ c x : touches σ c x → unused (part σ c) x ↔ unused σ x.
Proof. intros H. by rewrite /unused part_conts. Qed.
Lemma part_at σ c w x p : w ∈ uses c → at_it (part σ c) w x p ↔ at_it σ w x p.
Proof. intros H. by rewrite /at_it part_iters. Qed.
Lemma touches_at σ c w x p : w ∈ uses c → at_it σ w x p → touches σ c x.
Proof. intros H Hi. right. by exists w, p. Qed.
Lemma part_deref σ c w : w ∈ uses c → deref (part σ c) w = deref σ w.
Proof.
  intros H. rewrite /deref part_iters //. destruct (iters σ !! w) as [[x p]|] eqn:E; [|done]. simpl.
  rewrite part_contents //. by eapply touches_at.
Qed.
Lemma part_arg σ c s : (∀ w, w ∈ arg_uses s → w ∈ uses c) → arg_value (part σ c) s = arg_value σ s.
Proof. intros H. destruct s; simpl in *; try done; apply part_deref, H; by left. Qed.
Lemma part_rng σ c r : (∀ w, w ∈ rng_uses r → w ∈ uses c) → rng_values (part σ c) r = rng_values σ r.
Proof.
  intros H. destruct r as [|mv w1 w2]; simpl in *; [done|].
  rewrite !part_iters; [|apply H; set_solver..].
  destruct (iters σ !! w1) as [[x p]|] eqn:E1; [|done]. simpl.
  rewrite part_contents; [done|]. eapply touches_at; [|done]. apply H. set_solver.
Qed.
Lemma part_arg_outside σ c s x : (∀ w, w ∈ arg_uses s → w ∈ uses c) → arg_outside (part σ c) s x ↔ arg_outside σ s x.
Proof. intros H. destruct s; simpl in *; try done; rewrite part_iters //; apply H; by left. Qed.
Lemma part_rng_outside σ c r x : (∀ w, w ∈ rng_uses r → w ∈ uses c) → rng_outside (part σ c) r x ↔ rng_outside σ r x.
Proof. intros H. destruct r as [|mv w1 w2]; simpl in *; [done|]. rewrite part_iters //. apply H. by left. Qed.

Ltac el := first [ assumption | apply elem_of_list_here | apply elem_of_list_further; el
  | let w := fresh in intros w ?; el ].
Lemma part_pre σ c : pre C σ c → pre C (part σ c) c.
Proof.
  intros Hp.
  assert (∀ x, x ∈ names c → touches σ c x) as Hn by (intros x Hx; by left).
  assert (∀ w x p, w ∈ uses c → at_it σ w x p → touches σ c x) as Ht by (intros; by eapply touches_at).
  remember (part σ c) as σ1 eqn:Hσ.
  assert (∀ x, x ∈ names c → contents σ1 x = contents σ x) as E1 by (intros; subst; rewrite part_contents; auto).
  assert (∀ x, x ∈ names c → alloc_of σ1 x = alloc_of σ x) as E2 by (intros; subst; rewrite part_alloc; auto).
  assert (∀ x, x ∈ names c → live σ1 x ↔ live σ x) as E3 by (intros; subst; rewrite part_live; auto).
  assert (∀ x, x ∈ names c → unused σ1 x ↔ unused σ x) as E4 by (intros; subst; rewrite part_unused; auto).
  assert (∀ w x p, w ∈ uses c → at_it σ1 w x p ↔ at_it σ w x p) as E5 by (intros; subst; rewrite part_at; auto).
  assert (∀ w, w ∈ uses c → deref σ1 w = deref σ w) as E6 by (intros; subst; rewrite part_deref; auto).
  assert (∀ w x p, w ∈ uses c → at_it σ w x p → contents σ1 x = contents σ x) as E7 by (intros; subst; rewrite part_contents; eauto).
  assert (∀ s, (∀ w, w ∈ arg_uses s → w ∈ uses c) → arg_value σ1 s = arg_value σ s) as E8 by (intros; subst; by apply part_arg).
  assert (∀ r, (∀ w, w ∈ rng_uses r → w ∈ uses c) → rng_values σ1 r = rng_values σ r) as E9 by (intros; subst; by apply part_rng).
  assert (∀ s x, (∀ w, w ∈ arg_uses s → w ∈ uses c) → arg_outside σ1 s x ↔ arg_outside σ s x) as E10 by (intros; subst; by apply part_arg_outside).
  assert (∀ r x, (∀ w, w ∈ rng_uses r → w ∈ uses c) → rng_outside σ1 r x ↔ rng_outside σ r x) as E11 by (intros; subst; by apply part_rng_outside).
  clear Hσ Hn Ht.
  destruct c; cbn [pre names uses] in *.
  all: repeat match goal with H : ∃ _, _ |- _ => destruct H | H : _ ∧ _ |- _ => destruct H end.
  all: repeat match goal with |- ∃ _, _ => eexists | |- _ ∧ _ => split end.
  all: try (rewrite E5; [eassumption|el]).
  all: try (rewrite E9; [eassumption|el]).
  all: try eassumption.
  all: try (first
    [ rewrite E3; [eassumption|el]
    | rewrite E4; [eassumption|el]
    | rewrite E5; [eassumption|el]
    | rewrite E6; [eassumption|el]
    | rewrite E8; [eassumption|el]
    | rewrite E9; [eassumption|el]
    | rewrite E10; [eassumption|el]
    | rewrite E11; [eassumption|el]
    | rewrite ?E1 ?E2; [eassumption|el..]
    | erewrite E7; [eassumption| |eassumption]; el ]).
Qed.
Definition narrow σ c ρ : env := Env (filter (λ x, touches σ c x.1) (e_cont ρ)) (e_iter ρ).
Definition others σ c ρ : gmap nat loc := filter (λ x, ¬ touches σ c x.1) (e_cont ρ).
Lemma add_narrow σ c ρ : add_env (others σ c ρ) (narrow σ c ρ) = ρ.
Proof.
  rewrite /add_env /others /narrow. destruct ρ as [m i]; simpl. f_equal.
  apply (map_filter_union_complement (λ x, touches σ c x.1) m).
Qed.
Lemma part_abs σ c ρ τ :
  abs σ τ ρ → abs (part σ c) (filter (λ x, touches σ c x.1) τ) (narrow σ c ρ).
Proof.
  intros [Hc He Hi]. split.
  - rewrite /part /= Hc /cells. rewrite map_filter_fmap. done.
  - intros x. rewrite /narrow /=. split.
    + intros [[o a] [Hx Ht]%map_filter_lookup_Some]. destruct (proj1 (He x)) as [l Hl]; [by rewrite Hx|].
      exists l. by apply map_filter_lookup_Some.
    + intros [l [Hx Ht]%map_filter_lookup_Some]. destruct (proj2 (He x)) as [p Hl]; [by rewrite Hx|].
      exists p. by apply map_filter_lookup_Some.
  - intros w x p [Hw Ht]%map_filter_lookup_Some. simpl in Ht.
    destruct (Hi w x p Hw) as (o & a & it & Hx & H). exists o, a, it. split; [|done].
    by apply map_filter_lookup_Some.
Qed.
Definition inside σ c (τ : gmap nat (option (tree T) * nat)) := filter (λ x, touches σ c x.1) τ.
Definition outside σ c (τ : gmap nat (option (tree T) * nat)) := filter (λ x, ¬ touches σ c x.1) τ.
Lemma rep_split σ c ρ τ : rep ρ τ ⊢ rep ρ (inside σ c τ) ∗ rep ρ (outside σ c τ).
Proof.
  rewrite /rep -big_sepM_union; [|apply map_disjoint_filter_complement].
  by rewrite (map_filter_union_complement (λ x, touches σ c x.1) τ).
Qed.
Lemma rep_narrow σ c ρ τ :
  rep ρ (inside σ c τ) ⊢ rep (narrow σ c ρ) (inside σ c τ).
Proof.
  apply rep_env. intros x [p [_ Ht]%map_filter_lookup_Some]. rewrite /narrow /=.
  destruct (e_cont ρ !! x) as [l|] eqn:E; symmetry.
  - by apply map_filter_lookup_Some.
  - apply map_filter_lookup_None. by left.
Qed.

Lemma frame_heap σ ρ st c τ :
  abs σ τ ρ → rep ρ τ (st_heap st) → pre C σ c →
  ∃ u ρ' st' h1 h1' h2, exec c ρ st = Ok (u, ρ') st' ∧
    st_heap st = h1 ∪ h2 ∧ h1 ##ₘ h2 ∧ st_heap st' = h1' ∪ h2 ∧ h1' ##ₘ h2 ∧
    rep ρ (outside σ c τ) h2 ∧ away ∅ h2 (st_cnt st) (st_cnt st').
Proof.
  intros Ha Hr Hp. apply (hprop_in_entails _ _ (rep_split σ c ρ τ)) in Hr.
  apply sep_holds in Hr as (h1 & h2 & Hh & Hd & H1 & H2).
  apply (hprop_in_entails _ _ (rep_narrow σ c ρ τ)) in H1.
  pose proof (R_close _ _ _ _ (part_abs _ c _ _ Ha) H1) as HR.
  destruct st as [h n k]; simpl in *.
  destruct (exec_frame _ _ c h1 h2 n k HR Hd (part_pre _ _ Hp)) as (u & ρ1 & st' & σ1 & h1' & He & _ & Hd' & Hh' & _).
  pose proof (sim_exec (others σ c ρ) (narrow σ c ρ) c) as Hsim.
  assert (∀ x, x ∈ names c → others σ c ρ !! x = None) as Ho.
  { intros x Hx. apply map_filter_lookup_None. right. intros l _ Hn. apply Hn. by left. }
  specialize (Hsim Ho (State (h1 ∪ h2) n k)). rewrite He add_narrow in Hsim.
  pose proof (exec_away _ _ _ _ _ _ _ _ _ _ HR Hd (part_pre _ _ Hp) He) as Haw.
  subst h. by exists u, (add_env (others σ c ρ) ρ1), st', h1, h1', h2.
Qed.

(** ** The seq objects' addresses *)
Definition keepsc y ρ (m : M T (out T * env)) : Prop := ∀ st,
  match m st with Ok (_, ρ') _ => e_cont ρ' !! y = e_cont ρ !! y | _ => True end.
Lemma keepsc_bind {A} y ρ (m : M T A) k : (∀ a, keepsc y ρ (k a)) → keepsc y ρ (m ≫= k).
Proof.
  intros H st. rewrite /mbind /M_bind. destruct (m st) as [a st1|e st1|f]; try done. apply H.
Qed.
Lemma keepsc_ret y ρ o ρ' : e_cont ρ' !! y = e_cont ρ !! y → keepsc y ρ (mret (o, ρ')).
Proof. intros H st. exact H. Qed.
Lemma keepsc_exec y ρ c : y ∉ names c → keepsc y ρ (exec c ρ).
Proof.
  intros Hw. assert (keepsc y ρ (exec_call c ρ)) as H.
  { destruct c; cbn [exec_call names] in *; rewrite /done_;
    repeat first
      [ match goal with |- keepsc _ _ (if ?b then _ else _) => destruct b end
      | apply keepsc_ret; first [reflexivity | simpl; first [rewrite lookup_insert_ne|rewrite lookup_delete_ne]; [reflexivity|set_solver]]
      | apply keepsc_bind; intros ]. }
  intros st. specialize (H st). rewrite /exec /try_catch. destruct (exec_call c ρ st) as [[o ρ'] st'|e st'|f]; done.
Qed.

(** a stored container, an iterator into it *)
Lemma iterator_intro ρ st w x o a l it :
  reached C ρ st → e_cont ρ !! x = Some l → lives (st_heap st) a l o → e_iter ρ !! w = Some it → it_ok o it →
  iterator_at st ρ w x (i_pos it).
Proof.
  intros [σ Hr] Hl Ho Hw Hit. pose proof (reachable_R _ _ _ Hr) as HR.
  pose proof (lives_container _ _ _ _ _ _ Hl Ho) as Hc.
  set (p := i_pos it). assert (p ≤ length (oelems o)) as Hp by by apply it_ok_le.
  destruct (call_ok σ ρ st (NthOf x p w) Hr) as (u & ρ' & st' & σ' & He & Hs & Hr').
  { cbn [pre]. rewrite /live (R_conts _ _ _ _ HR) Hc. done. }
  destruct Hs as [-> ->]. exists (oelems o), a, st'. split_and!; [done|done|].
  pose proof (exec_same (NthOf x p w) _ _ _ _ _ eq_refl He) as (Hh & _).
  destruct (exec_nth_shape _ _ _ _ _ _ _ _ He eq_refl) as (it' & ->).
  pose proof (reachable_R _ _ _ Hr') as HR'. rewrite Hh in HR'.
  assert (contents σ x = oelems o) as Hcx by (rewrite /contents (R_conts _ _ _ _ HR) Hc; done).
  rewrite Hcx Nat.min_l // in HR'.
  destruct (R_iter _ _ st w x p HR') as (o1 & a1 & l1 & it1 & Hl1 & Ho1 & Hit1 & Hok1 & Hp1 & _).
  { by rewrite /at_it /= lookup_insert. }
  rewrite /= lookup_insert in Hit1. simplify_eq. simpl in Hl1. rewrite Hl in Hl1. simplify_eq.
  destruct (lives_det _ _ _ _ _ _ Ho Ho1) as [<- <-].
  assert (it1 = it) as ->.
  { destruct o as [t|].
    - destruct (lives_wf _ _ _ _ Ho) as (h & Hw0). eapply (it_ok_unique h); try done. by intros ? [= <-].
    - by rewrite (it_ok_nil _ Hok1) (it_ok_nil _ Hit). }
  rewrite He. do 2 f_equal. rewrite /bindi. destruct ρ; simpl in *. f_equal. by apply insert_id.
Qed.
Lemma iterator_elim ρ st w x p :
  reached C ρ st → iterator_at st ρ w x p →
  ∃ o a l it, e_cont ρ !! x = Some l ∧ lives (st_heap st) a l o ∧ e_iter ρ !! w = Some it ∧
    it_ok o it ∧ i_pos it = p ∧ container_at st ρ x = Some (oelems o, a).
Proof.
  intros [σ Hr] Hw. pose proof (pointing _ _ _ _ _ _ Hr Hw) as Hr'.
  apply (R_iter (point w x p σ)); [by apply reachable_R|]. by rewrite /at_it /= lookup_insert.
Qed.

Lemma elem_of_concat {A} (x : A) l ls : x ∈ l → l ∈ ls → x ∈ concat ls.
Proof. rewrite !elem_of_list_In. intros. apply in_concat. by exists l. Qed.
(** a container the call does not touch is stored in the same blocks *)
Lemma lives_agree m m' a l o :
  lives m a l o → (∀ k, k ∈ l :: olocs o → m' !! k = m !! k) → lives m' a l o.
Proof.
  intros Hl Hm. destruct o as [t|]; cbn [lives] in *.
  - destruct Hl as (h & Hw & Hs & Hl & Ht). exists h. split_and!; [done|done| |].
    + rewrite Hm //. left.
    + assert (∀ k, k ∈ tlocs t → m' !! k = m !! k) as Hm' by (intros k Hk; apply Hm; by right).
      clear Hm Hl Hs Hw. revert Ht Hm'. generalize (Some (@None loc)) (Some 0). revert t.
      induction h as [|h IH]; intros t p i Ht Hm; [done|]. destruct t as [l' xs|l' ts]; cbn [stored] in *.
      * destruct Ht as (-> & j & Hj & Hcl & Hk). split; [done|]. exists j. rewrite Hm //. left.
      * destruct Ht as (Hh & (j & Hj & Hk) & Hks). split_and!; [done| |].
        -- exists j. rewrite Hm; [done|left].
        -- intros k t Hkt. eapply IH; [by apply Hks|]. intros q Hq. apply Hm. right.
           eapply elem_of_concat; [done|]. apply elem_of_list_fmap. exists t. split; [done|].
           by eapply elem_of_list_lookup_2.
  - rewrite Hm //. left.
Qed.

Theorem frame_call σ ρ st c u ρ' st' y xs a l :
  reachable σ ρ st → pre C σ c → exec c ρ st = Ok (u, ρ') st' →
  container_at st ρ y = Some (xs, a) → ¬ touches σ c y → e_cont ρ !! y = Some l →
  e_cont ρ' !! y = Some l ∧
  (∀ k, k = l ∨ k ∈ blocks_of st ρ y → st_heap st' !! k = st_heap st !! k) ∧
  (∃ o, lives (st_heap st) a l o ∧ lives (st_heap st') a l o).
Proof.
  intros Hr Hp He Hc Ht Hl. pose proof (reachable_R _ _ _ Hr) as HR.
  destruct (R_lives _ _ _ _ _ _ HR Hc) as (Hcs & o & l' & Hl' & Ho & <-). rewrite Hl in Hl'. simplify_eq.
  apply R_open in HR as (τ & Ha & Hrep).
  destruct (frame_heap _ _ _ _ _ Ha Hrep Hp) as (u1 & ρ1 & st1 & h1 & h1' & h2 & He1 & Hh & Hd & Hh' & Hd' & H2 & _).
  rewrite He in He1. injection He1 as <- <- <-.
  assert (∃ o', τ !! y = Some (o', a)) as (o' & Hy).
  { rewrite (abs_conts _ _ _ Ha) cells_lookup in Hcs. destruct (τ !! y) as [[o' a']|]; [|done].
    simplify_eq/=. by exists o'. }
  destruct (rep_lives _ _ _ y o' a H2) as (l & Hl1 & Ho').
  { by apply map_filter_lookup_Some. }
  rewrite Hl in Hl1. simplify_eq.
  assert (o' = o) as ->.
  { destruct (rep_lives _ _ _ _ _ _ Hrep Hy) as (l1 & Hl1 & Ho1). rewrite Hl in Hl1. simplify_eq.
    by destruct (lives_det _ _ _ _ _ _ Ho1 Ho) as [-> _]. }
  assert (y ∉ names c) as Hny by (intros H; apply Ht; by left).
  pose proof (keepsc_exec y ρ c Hny st) as Hk. rewrite He in Hk.
  assert (∀ k, k ∈ l :: olocs o → st_heap st' !! k = st_heap st !! k) as Hag.
  { intros k Hk'. assert (is_Some (h2 !! k)) as [b Hb].
    { pose proof (rep_fp ρ (outside σ c τ) h2 H2) as [_ Hdom].
      apply elem_of_dom. rewrite Hdom. apply elem_of_list_to_set. rewrite /all_locs.
      apply (elem_of_concat _ (clocs ρ y o)).
      - by rewrite /clocs Hl.
      - apply elem_of_list_fmap. exists (y, (o, a)). split; [done|]. apply elem_of_map_to_list.
        by apply map_filter_lookup_Some. }
    rewrite Hh Hh'. erewrite !lookup_union_Some_r; done. }
  split_and!.
  - by rewrite Hk.
  - intros k Hkb. apply Hag. destruct Hkb as [->|Hkb]; [left|right].
    by rewrite -(lives_blocks _ _ _ _ _ _ Hl Ho).
  - exists o. split; [done|]. exact (lives_agree _ _ _ _ _ Ho Hag).
Qed.
End frame.
