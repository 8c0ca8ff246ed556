(** * C27-C29: allocators, assign, resize *)
From Verif Require Export PropsContainers.
From stdpp Require Import options.
Set Default Proof Using "Type*".

Section props.
Context {T : Type} {C : cfg T} {OK : cfg_ok C}.
Implicit Types σ : sst T.
Implicit Types ρ : env.
Implicit Types st : state T.
Implicit Types c : cmd T.
Implicit Types xs ys zs : list T.
Notation reachable := (reachable C).
Notation reached := (reached C).
Notation iterator_at := (iterator_at C).
Notation answers := (answers C).
Notation failed := (failed C).
Notation exec := (exec (C:=C)).
Notation others_kept := (others_kept (C:=C)).

(** ** C27: allocators *)
(** get_allocator() answers the allocator of both kinds of blocks, and all of the
    container's memory comes from it *)
Theorem C27_allocator ρ st x xs a l :
  reached ρ st → container_at st ρ x = Some (xs, a) → e_cont ρ !! x = Some l →
  answers st ρ (GetAlloc x) (ONat a) ∧
  (∃ s, st_heap st !! l = Some (OSeq s) ∧ s_ealloc s = a ∧ s_nalloc s = a) ∧
  (∀ k, k ∈ blocks_of st ρ x → (∃ nd, st_heap st !! k = Some (ONode a nd)) ∨ ∃ slots, st_heap st !! k = Some (OSeg a slots)).
Proof.
  intros Hr Hc Hl. destruct (C19_ownership ρ st x xs a l Hr Hc Hl) as (_ & _ & Hs & Hn & Hg).
  split_and!; [by eapply C07_size|done|]. intros k [Hk|Hk]%elem_of_app; [left|right]; auto.
Qed.
(** the calls that may replace the allocator of [x] *)
Definition replaces c x : Prop :=
  match c with
  | AssignCopy y _ => c_pocca C = true ∧ y = x
  | AssignMove y _ => c_pocma C = true ∧ y = x
  | Swap y z => c_pocs C = true ∧ (y = x ∨ z = x)
  | _ => False
  end.
Definition allocs σ x : option nat := snd <$> conts σ !! x.
Lemma allocs_setc σ x xs a y : allocs (setc x xs a σ) y = if decide (x = y) then Some a else allocs σ y.
Proof. rewrite /allocs /=. destruct (decide (x = y)) as [->|]; [by rewrite lookup_insert|by rewrite lookup_insert_ne]. Qed.
Lemma allocs_write σ x xs y : is_Some (conts σ !! x) → allocs (write x xs σ) y = allocs σ y.
Proof.
  intros [[zs a] Hx]. rewrite /write allocs_setc. case_decide as E; [|done]. subst. by rewrite /allocs /alloc_of Hx.
Qed.
Lemma allocs_modify σ x xs y : is_Some (conts σ !! x) → allocs (modify x xs σ) y = allocs σ y.
Proof. intros. rewrite /modify -(allocs_write σ x xs y) //. Qed.
Lemma live_write σ x xs y : is_Some (conts σ !! y) → is_Some (conts (write x xs σ) !! y).
Proof. intros H. rewrite /write /=. destruct (decide (x = y)) as [->|]; [by rewrite lookup_insert|by rewrite lookup_insert_ne]. Qed.
Lemma live_at σ ρ st w x p : reachable σ ρ st → at_it σ w x p → is_Some (conts σ !! x).
Proof.
  intros Hr Hw. rewrite (reachable_conts _ _ _ _ Hr). destruct (canonical _ _ _ _ _ _ Hr Hw) as (? & ? & ? & Hc & _). by rewrite Hc.
Qed.
Lemma allocs_arg_used σ ρ st s y : reachable σ ρ st → allocs (arg_used C σ s) y = allocs σ y.
Proof.
  intros Hr. destruct s as [|w|w]; try done. simpl. destruct (iters σ !! w) as [[x p]|] eqn:E; [|done].
  apply allocs_write. by eapply live_at.
Qed.
Lemma live_arg_used σ s y : is_Some (conts σ !! y) → is_Some (conts (arg_used C σ s) !! y).
Proof. intros H. destruct s as [|w|w]; try done. simpl. destruct (iters σ !! w) as [[x p]|]; [|done]. by apply live_write. Qed.
Lemma allocs_rng_used σ ρ st r k y : reachable σ ρ st → allocs (rng_used C σ r k) y = allocs σ y.
Proof.
  intros Hr. destruct r as [|[] w1 w2]; try done. simpl. destruct (iters σ !! w1) as [[x p]|] eqn:E; [|done].
  apply allocs_write. by eapply live_at.
Qed.
Lemma live_rng_used σ r k y : is_Some (conts σ !! y) → is_Some (conts (rng_used C σ r k) !! y).
Proof. intros H. destruct r as [|[] w1 w2]; try done. simpl. destruct (iters σ !! w1) as [[x p]|]; [|done]. by apply live_write. Qed.


Lemma allocs_point w y p σ x : allocs (point w y p σ) x = allocs σ x.
Proof. done. Qed.
Lemma allocs_forget y σ x : allocs (forget y σ) x = allocs σ x.
Proof. done. Qed.
Lemma allocs_retarget y z σ x : allocs (retarget y z σ) x = allocs σ x.
Proof. done. Qed.
Lemma allocs_exchange y z σ x : allocs (exchange y z σ) x = allocs σ x.
Proof. done. Qed.
Lemma live_setc σ x xs a y : is_Some (conts σ !! y) → is_Some (conts (setc x xs a σ) !! y).
Proof. intros H. rewrite /=. destruct (decide (x = y)) as [->|]; [by rewrite lookup_insert|by rewrite lookup_insert_ne]. Qed.
Lemma live_forget σ x y : is_Some (conts σ !! y) → is_Some (conts (forget x σ) !! y).
Proof. done. Qed.
Lemma live_modify σ x xs y : is_Some (conts σ !! y) → is_Some (conts (modify x xs σ) !! y).
Proof. apply live_write. Qed.
Ltac lv Hat Hne := solve [ repeat first
  [ assumption | apply live_write | apply live_modify | apply live_setc | apply live_forget | apply live_arg_used | apply live_rng_used
  | eapply Hat; eassumption | apply Hne; assumption ] ].
Ltac break := repeat match goal with
  | H : _ ∧ _ |- _ => destruct H
  | H : _ ∨ _ |- _ => destruct H
  | H : ∃ _, _ |- _ => destruct H
  | H : returns _ _ |- _ => unfold returns in H
  | H : throws _ _ _ |- _ => destruct H
  | H : context [if ?b then _ else _] |- _ => destruct b eqn:?
  end.
Lemma step_allocs σ ρ st c u σ' x :
  reachable σ ρ st → pre C σ c → step C σ c u σ' → ¬ replaces c x →
  is_Some (conts σ !! x) → is_Some (conts σ' !! x) → allocs σ' x = allocs σ x.
Proof.
  intros Hr Hp Hst Hn Hx Hx'.
  assert (∀ y, unused σ y → y ≠ x) as Hun by (intros y Hy ->; rewrite /unused in Hy; rewrite Hy in Hx; by destruct Hx).
  assert (∀ w y p, at_it σ w y p → live σ y) as Hat by (intros; by eapply live_at).
  assert (∀ y, contents σ y ≠ [] → live σ y) as Hne.
  { intros y Hy. rewrite /contents in Hy. rewrite /live. by destruct (conts σ !! y). }
  assert (∀ s y, allocs (arg_used C σ s) y = allocs σ y) as Hau by (intros; by eapply allocs_arg_used).
  assert (∀ r k y, allocs (rng_used C σ r k) y = allocs σ y) as Hru by (intros; by eapply allocs_rng_used).
  destruct c; cbn [pre step replaces] in *; unfold insert_step in *; cbv zeta in *; break; unfold arg_const in *; subst; try done.
  all: try (apply Hun; done).
  all: try (match goal with H : unused _ ?y |- _ => pose proof (Hun y H) end).
  all: cbn [conts iters] in *.
  all: assert (∀ y, live σ y → live σ y) as Hid by done.
  all: repeat first
    [ rewrite allocs_point | rewrite allocs_forget | rewrite allocs_retarget | rewrite allocs_exchange | rewrite Hau | rewrite Hru
    | rewrite allocs_modify; [|lv Hat Hne] | rewrite allocs_write; [|lv Hat Hne]
    | rewrite allocs_setc; case_decide; [subst|] ]; try done.
  all: assert (∀ y, is_Some (conts σ !! y) → Some (alloc_of σ y) = allocs σ y) as Hal
    by (intros y0 [[? ?] E0]; by rewrite /allocs /alloc_of E0).
  all: subst; try (by apply Hal).
  { rewrite /= in Hx'. rewrite /allocs /=. rewrite lookup_delete_ne //. intros ->. rewrite lookup_delete in Hx'. by destruct Hx'. }
  all: first [ exfalso; apply Hn; by auto | rewrite -(Hal x) //; congruence ].
Qed.
(** every other call keeps the allocator of every container *)
Theorem C27_kept σ ρ st c u ρ' st' x xs a xs' a' :
  reachable σ ρ st → pre C σ c → exec c ρ st = Ok (u, ρ') st' → ¬ replaces c x →
  container_at st ρ x = Some (xs, a) → container_at st' ρ' x = Some (xs', a') → a' = a.
Proof.
  intros Hr Hp He Hn Hc Hc'. destruct (call_inv _ _ _ _ _ _ _ Hr Hp He) as (σ' & Hst & Hr').
  pose proof (see _ _ _ _ _ _ Hr Hc) as H. pose proof (see _ _ _ _ _ _ Hr' Hc') as H'.
  assert (allocs σ' x = allocs σ x) as E by (eapply step_allocs; [done..|by rewrite H|by rewrite H']).
  rewrite /allocs H H' /= in E. by injection E.
Qed.

(** ** C28: assign *)
(** a T const& that is not an element of [x] and refers to [v] *)
Definition const_arg st ρ x (s : arg T) (v : T) : Prop :=
  match s with
  | AVal u => u = v
  | ARef w => ∃ y i ys b, y ≠ x ∧ iterator_at st ρ w y i ∧ container_at st ρ y = Some (ys, b) ∧ ys !! i = Some v
  | AMove _ => False
  end.
(** the elements of containers outside [X] and the segments they are in are as
    before, and so are the iterators into them (other than the result variables [W]) *)
Definition spared (X W : list nat) ρ st ρ' st' : Prop := ∀ y, y ∉ X →
  container_at st' ρ' y = container_at st ρ y ∧ segments st' ρ' y = segments st ρ y ∧
  ∀ w p, w ∉ W → iterator_at st ρ w y p → iterator_at st' ρ' w y p.
(** [y] is stored where it was, and iterators are valid; its elements may have changed *)
Definition same_place ρ st y ρ' st' : Prop :=
  places st' ρ' y = places st ρ y ∧ ∀ w p, iterator_at st ρ w y p → iterator_at st' ρ' w y p.
Lemma place_spared σ ρ st c u ρ' st' y ys b (W : list nat) :
  reachable σ ρ st → pre C σ c → exec c ρ st = Ok (u, ρ') st' → (∀ w, assigns c w → w ∈ W) →
  container_at st ρ y = Some (ys, b) →
  (∀ w p σ1, step C (point w y p σ) c u σ1 → ¬ assigns c w → iters σ !! w = None →
     at_it σ1 w y p ∧ length (contents σ1 y) = length ys) →
  places st' ρ' y = places st ρ y ∧ ∀ w p, w ∉ W → iterator_at st ρ w y p → iterator_at st' ρ' w y p.
Proof.
  intros Hr Hp He Ha Hc Hk. split.
  - destruct (reached_segments ρ st y ys b (ex_intro _ σ Hr) Hc) as (ss & Hss & _).
    destruct (kept_places σ ρ st c u ρ' st' y y ys b ss Hr Hp He Hc Hss) as (ss' & Hss' & Hl).
    { intros w p σ1 _ Hna Hw _ Hst. by apply (Hk w p σ1). }
    rewrite /places Hss Hss' /=. by rewrite Hl.
  - intros w p Hw Hit. eapply (kept_iters σ ρ st c u ρ' st' y y w p Hr Hp He); [intros H; by apply Hw, Ha| |done].
    intros w1 σ1 _ Hna Hw1 Hst. by apply (Hk w1 p σ1).
Qed.
Lemma places_segments st ρ st' ρ' y :
  places st' ρ' y = places st ρ y → container_at st' ρ' y = container_at st ρ y → segments st' ρ' y = segments st ρ y.
Proof.
  intros Hp E. unfold places in Hp. destruct (segments st ρ y) as [ss|] eqn:E1, (segments st' ρ' y) as [ss'|] eqn:E2; try done.
  f_equal. simpl in Hp. injection Hp as Hp. apply shape_segments; [done|].
  rewrite /container_at E1 E2 /= in E. rewrite /segments in E1 E2.
  destruct (seq_at st ρ y) as [s1|], (seq_at st' ρ' y) as [s2|]; try done. simpl in E. by injection E as ->.
Qed.
Lemma all_spared σ ρ st c u ρ' st' (X W : list nat) :
  reachable σ ρ st → pre C σ c → exec c ρ st = Ok (u, ρ') st' → (∀ w, assigns c w → w ∈ W) → (∀ y, y ∈ names c → y ∈ X) →
  (∀ y w p σ1, y ∉ X → step C (point w y p σ) c u σ1 → ¬ assigns c w → iters σ !! w = None → is_Some (conts σ !! y) →
     at_it σ1 w y p ∧ conts σ1 !! y = conts σ !! y) →
  (∀ y σ1, y ∉ X → step C σ c u σ1 → conts σ1 !! y = conts σ !! y) →
  spared X W ρ st ρ' st'.
Proof.
  intros Hr Hp He Ha Hnm Hk Hc y Hy. destruct (call_inv _ _ _ _ _ _ _ Hr Hp He) as (σ' & Hst & Hr').
  assert (container_at st' ρ' y = container_at st ρ y) as E.
  { rewrite -(reachable_conts _ _ _ _ Hr') -(reachable_conts _ _ _ _ Hr). by apply Hc. }
  destruct (container_at st ρ y) as [[ys b]|] eqn:Ey.
  - pose proof (see _ _ _ _ _ _ Hr Ey) as Hs.
    destruct (place_spared σ ρ st c u ρ' st' y ys b W Hr Hp He Ha Ey) as [Hpl Hit].
    { intros w p σ1 Hst1 Hna Hw. destruct (Hk y w p σ1 Hy Hst1 Hna Hw) as [? E2]; [by rewrite Hs|]. split; [done|].
      rewrite /contents E2 Hs //. }
    split_and!; [done| |done]. apply places_segments; [done|]. by rewrite Ey.
  - assert (e_cont ρ !! y = None) as Hl.
    { destruct (e_cont ρ !! y) as [l|] eqn:Hl; [|done]. destruct (reached_var ρ st y l (ex_intro _ σ Hr) Hl) as (? & ? & ?). congruence. }
    assert (y ∉ names c) as Hny by (intros H; by apply Hy, Hnm).
    pose proof (keepsc_exec y ρ c Hny st) as Hkc. rewrite He Hl in Hkc.
    rewrite /segments /seq_at Hkc Hl. split_and!; [done..|].
    intros w p _ (? & ? & ? & Hc' & _). by rewrite /container_at /seq_at Hl in Hc'.
Qed.
Lemma at_modify σ x xs w y p : y ≠ x → at_it σ w y p → at_it (modify x xs σ) w y p.
Proof. intros Hy Hw. rewrite /at_it /modify /write /=. rewrite map_filter_lookup_Some. done. Qed.
Lemma conts_modify σ x xs y : y ≠ x → conts (modify x xs σ) !! y = conts σ !! y.
Proof. intros Hy. rewrite /modify /write /= lookup_insert_ne //. Qed.
Lemma at_new σ w y p : at_it (point w y p σ) w y p.
Proof. by rewrite /at_it /= lookup_insert. Qed.
Lemma const_arg_pre σ ρ st x s v :
  reachable σ ρ st → const_arg st ρ x s v →
  ∃ σ', reachable σ' ρ st ∧ arg_const s ∧ arg_value σ' s = Some v ∧ arg_outside σ' s x.
Proof.
  intros Hr Hs. destruct s as [u|w|w]; [|simpl in *|done].
  - simpl in Hs. subst. by exists σ.
  - destruct Hs as (y & i & ys & b & Hne & Hw & Hy & Hv). destruct (add_iter _ _ _ _ _ _ Hr Hw) as (σ1 & Hr1 & Hat & _).
    pose proof (see _ _ _ _ _ _ Hr1 Hy) as Hcy. visible Hcy. exists σ1. split_and!; [done|done| |].
    + rewrite /deref Hat /= H //.
    + intros p. rewrite Hat. congruence.
Qed.
Lemma not_in_one (x y : nat) : y ∉ [x] → y ≠ x.
Proof. rewrite elem_of_list_singleton. done. Qed.
(** x.assign(n, s) *)
Theorem C28_assign_count ρ st x n s v xs a :
  reached ρ st → container_at st ρ x = Some (xs, a) → const_arg st ρ x s v → n < c_W C →
  ∃ o st', exec (AssignCount x n s) ρ st = Ok (o, ρ) st' ∧ reached ρ st' ∧ spared [x] [] ρ st ρ st' ∧
    (o = OUnit ∧ container_at st' ρ x = Some (replicate n v, a) ∨
     failed o ∧ ∃ j, j < n ∧ container_at st' ρ x = Some (replicate j v ++ drop j xs, a)).
Proof.
  intros [σ0 Hr0] Hc Hs Hn. destruct (const_arg_pre _ _ _ _ _ _ Hr0 Hs) as (σ & Hr & Hs1 & Hs2 & Hs3).
  pose proof (see _ _ _ _ _ _ Hr Hc) as Hcs. visible Hcs.
  assert (pre C σ (AssignCount x n s)) as Hpre by (split_and!; [done|done|done|by rewrite Hs2|done]).
  destruct (call_ok σ ρ st (AssignCount x n s) Hr Hpre) as (o & ρ' & st' & σ' & He & Hst & Hr').
  pose proof (keeps_env_exec (AssignCount x n s) _ _ _ _ _ eq_refl He) as ->.
  exists o, st'. split_and!; [done|by eexists| |].
  - eapply (all_spared σ); [done..|by intros ?|by intros ? ?| |].
    + intros y w p σ1 Hy%not_in_one Hst1 _ Hw Hly. destruct Hst1 as (v1 & _ & [[_ ->]|(e & j & _ & _ & ->)]);
        (split; [apply at_modify; [done|apply at_new]|by rewrite conts_modify]).
    + intros y σ1 Hy%not_in_one Hst1. destruct Hst1 as (v1 & _ & [[_ ->]|(e & j & _ & _ & ->)]); by rewrite conts_modify.
  - destruct Hst as (v' & Hv' & Hst). rewrite Hs2 in Hv'. injection Hv' as <-.
    destruct Hst as [[-> ->]|(e & j & [-> Hra] & Hj & ->)]; [left|right].
    + split; [done|]. eapply show; [done|]. by rewrite /modify /write /= lookup_insert H0.
    + split; [by eexists|]. exists j. split; [done|]. eapply show; [done|].
      rewrite /modify /write /= lookup_insert H H0 /overwritten take_replicate Nat.min_l //. lia.
Qed.
(** x.assign(ilist), x = ilist, x.assign(first, last) with a range from elsewhere *)
Theorem C28_assign_list ρ st x zs xs a :
  reached ρ st → container_at st ρ x = Some (xs, a) → length zs < c_W C →
  ∃ o st', exec (AssignRange x (RList zs)) ρ st = Ok (o, ρ) st' ∧ reached ρ st' ∧ spared [x] [] ρ st ρ st' ∧
    (o = OUnit ∧ container_at st' ρ x = Some (zs, a) ∨
     failed o ∧ ∃ j, j ≤ length zs ∧ container_at st' ρ x = Some (take j zs ++ drop j xs, a)).
Proof.
  intros [σ Hr] Hc Hn. pose proof (see _ _ _ _ _ _ Hr Hc) as Hcs. visible Hcs.
  assert (pre C σ (AssignRange x (RList zs))) as Hpre by (split_and!; [done|by exists zs|done]).
  destruct (call_ok σ ρ st (AssignRange x (RList zs)) Hr Hpre) as (o & ρ' & st' & σ' & He & Hst & Hr').
  pose proof (keeps_env_exec (AssignRange x (RList zs)) _ _ _ _ _ eq_refl He) as ->.
  exists o, st'. split_and!; [done|by eexists| |].
  - eapply (all_spared σ); [done..|by intros ?|by intros ? ?| |].
    + intros y w p σ1 Hy%not_in_one Hst1 _ Hw Hly. destruct Hst1 as (v1 & _ & [[_ ->]|(e & j & j' & _ & _ & _ & ->)]);
        (split; [apply at_modify; [done|apply at_new]|by rewrite conts_modify]).
    + intros y σ1 Hy%not_in_one Hst1. destruct Hst1 as (v1 & _ & [[_ ->]|(e & j & j' & _ & _ & _ & ->)]); by rewrite conts_modify.
  - destruct Hst as (v' & [= <-] & Hst).
    destruct Hst as [[-> ->]|(e & j & j' & [-> Hra] & Hj & _ & ->)]; [left|right].
    + split; [done|]. eapply show; [done|]. by rewrite /modify /write /= lookup_insert H0.
    + split; [by eexists|]. exists j. split; [destruct Hj as [?|[_ ->]]; lia|]. eapply show; [done|].
      by rewrite /modify /write /= lookup_insert H H0 /overwritten.
Qed.
(** [k] elements from index [i] on have been used: moved from if [mv] *)
Definition after_use (mv : bool) (i k : nat) ys : list T :=
  if mv then take i ys ++ (c_residue C <$> take k (drop i ys)) ++ drop (i + k) ys else ys.
Lemma after_use_length mv i k ys : length (after_use mv i k ys) = length ys.
Proof.
  destruct mv; [|done]. rewrite /after_use !app_length fmap_length !take_length !drop_length. lia.
Qed.
Lemma rng_used_conts σ mv w1 w2 y i k :
  at_it σ w1 y i → live σ y → conts (rng_used C σ (RSeq mv w1 w2) k) = <[y := (after_use mv i k (contents σ y), alloc_of σ y)]> (conts σ).
Proof.
  intros Hat [[ys b] Hy]. simpl. rewrite /after_use. destruct mv; [by rewrite Hat /= /contents /alloc_of Hy|].
  rewrite /contents /alloc_of Hy /= insert_id //.
Qed.
(** x.assign(w1, w2) with a range of another container [y], copied or moved *)
Theorem C28_assign_range ρ st x mv w1 w2 y i j xs a ys b :
  reached ρ st → x ≠ y → container_at st ρ x = Some (xs, a) → container_at st ρ y = Some (ys, b) →
  iterator_at st ρ w1 y i → iterator_at st ρ w2 y j → i ≤ j → j - i < c_W C →
  let zs := take (j - i) (drop i ys) in
  ∃ o st', exec (AssignRange x (RSeq mv w1 w2)) ρ st = Ok (o, ρ) st' ∧ reached ρ st' ∧
    same_place ρ st y ρ st' ∧ spared [x; y] [] ρ st ρ st' ∧
    (o = OUnit ∧ container_at st' ρ x = Some (zs, a) ∧ container_at st' ρ y = Some (after_use mv i (j - i) ys, b) ∨
     failed o ∧ ∃ k k', k < j - i ∧ k ≤ k' ≤ S k ∧ container_at st' ρ x = Some (take k zs ++ drop k xs, a) ∧
       container_at st' ρ y = Some (after_use mv i k' ys, b)).
Proof.
  intros [σ0 Hr0] Hxy Hc Hcy Hw1 Hw2 Hij Hf zs.
  destruct (reached_point2 _ _ _ _ _ _ _ _ Hr0 Hw1 Hw2) as (σ & Hr & Hat1 & Hat2 & _).
  pose proof (see _ _ _ _ _ _ Hr Hc) as Hs. visible Hs. pose proof (see _ _ _ _ _ _ Hr Hcy) as Hsy. visible Hsy.
  pose proof (iterator_at_le _ _ _ _ _ _ _ Hcy Hw2) as Hle.
  assert (length zs = j - i) as Hlen by (rewrite /zs take_length_le // drop_length; lia).
  assert (∀ w q p σ1, w ≠ w1 → w ≠ w2 → σ1 = point w q p σ → rng_values σ1 (RSeq mv w1 w2) = Some zs) as Hvp.
  { intros w q p σ1 Hn1 Hn2 ->. simpl. rewrite !lookup_insert_ne // Hat1 Hat2 /=. rewrite Nat.eqb_refl (proj2 (Nat.leb_le _ _) Hij) /=.
    rewrite /contents /= in H2. by rewrite /contents /= H2. }
  assert (rng_values σ (RSeq mv w1 w2) = Some zs) as Hv.
  { simpl. rewrite Hat1 Hat2 /=. rewrite Nat.eqb_refl (proj2 (Nat.leb_le _ _) Hij) /=. by rewrite H2. }
  set (c := AssignRange x (RSeq mv w1 w2)).
  assert (pre C σ c) as Hpre.
  { split_and!; [done|exists zs; split; [done|by rewrite /fits Hlen]|]. intros q. rewrite Hat1. congruence. }
  destruct (call_ok σ ρ st c Hr Hpre) as (o & ρ' & st' & σ' & He & Hst & Hr').
  pose proof (keeps_env_exec c _ _ _ _ _ eq_refl He) as ->.
  assert (∀ w p q σ1, iters σ !! w = None → step C (point w q p σ) c o σ1 → q ≠ x →
    at_it σ1 w q p ∧ (∀ z, z ≠ x → z ≠ y → conts σ1 !! z = conts σ !! z) ∧
    length (contents σ1 y) = length ys) as Hp1.
  { intros w p q σ1 Hw Hst1 Hq. assert (w1 ≠ w) as Hn1 by (intros ->; rewrite /at_it in Hat1; congruence).
    assert (at_it (point w q p σ) w1 y i) as Hat1' by (apply at_point; [done|done]).
    destruct Hst1 as (zs1 & _ & [[_ ->]|(e & k & k' & _ & _ & _ & ->)]); (split_and!;
      [apply at_modify; [done|]; rewrite /at_it iters_rng_used; apply at_new
      |intros z Hz1 Hz2; rewrite conts_modify // (rng_used_conts _ _ _ _ _ _ _ Hat1') //; by rewrite lookup_insert_ne
      |rewrite /contents conts_modify // (rng_used_conts _ _ _ _ _ _ _ Hat1') // lookup_insert /= after_use_length; by rewrite /contents /= Hsy]). }
  exists o, st'. split_and!; [done|by eexists| | |].
  - destruct (place_spared σ ρ st c o ρ st' y ys b [] Hr Hpre He) as [Hpl Hit]; [done|done| |split; [done|]].
    { intros w p σ1 Hst1 _ Hw. destruct (Hp1 w p y σ1 Hw Hst1 ltac:(done)) as (? & _ & ?). done. }
    intros w p. apply Hit, not_elem_of_nil.
  - eapply (all_spared σ); [done..|by intros ?| | |].
    { intros z Hz. apply elem_of_list_singleton in Hz as ->. by left. }
    + intros z w p σ1 Hz Hst1 _ Hw Hlz. assert (z ≠ x ∧ z ≠ y) as [Hz1 Hz2] by (rewrite !elem_of_cons elem_of_nil in Hz; naive_solver).
      destruct (Hp1 w p z σ1 Hw Hst1 Hz1) as (? & Hk & _). split; [done|]. by apply Hk.
    + intros z σ1 Hz Hst1. assert (z ≠ x ∧ z ≠ y) as [Hz1 Hz2] by (rewrite !elem_of_cons elem_of_nil in Hz; naive_solver).
      destruct Hst1 as (zs1 & _ & [[_ ->]|(e & k & k' & _ & _ & _ & ->)]);
      rewrite conts_modify // (rng_used_conts _ _ _ _ _ _ _ Hat1) //; by rewrite lookup_insert_ne.
  - destruct Hst as (zs1 & Hv1 & Hst). rewrite Hv in Hv1. injection Hv1 as <-.
    destruct Hst as [[-> ->]|(e & k & k' & [-> Hra] & Hk & Hk' & ->)]; [left|right].
    + split_and!; [done|eapply show; [done|]..].
      * rewrite /modify /write /= lookup_insert. rewrite /alloc_of (rng_used_conts _ _ _ _ _ _ _ Hat1) // lookup_insert_ne // Hs //.
      * rewrite conts_modify // (rng_used_conts _ _ _ _ _ _ _ Hat1) // lookup_insert H2 H3 Hlen //.
    + destruct Hk as [Hk|[[] _]]. split; [by eexists|]. exists k, k'. rewrite -Hlen. split_and!; [done|lia|lia|eapply show; [done|]..].
      * rewrite /modify /write /= lookup_insert. rewrite /alloc_of (rng_used_conts _ _ _ _ _ _ _ Hat1) // lookup_insert_ne // Hs //.
        by rewrite /overwritten H.
      * rewrite conts_modify // (rng_used_conts _ _ _ _ _ _ _ Hat1) // lookup_insert H2 H3 //.
Qed.

(** ** C29: resize *)
Theorem C29_resize ρ st x n s v xs a :
  reached ρ st → container_at st ρ x = Some (xs, a) → const_arg st ρ x s v → n < c_W C →
  ∃ o st', exec (Resize x n s) ρ st = Ok (o, ρ) st' ∧ reached ρ st' ∧ spared [x] [] ρ st ρ st' ∧
    (o = OUnit ∧ container_at st' ρ x = Some (take n xs ++ replicate (n - length xs) v, a) ∨
     failed o ∧ ∃ j, length xs + j < n ∧ container_at st' ρ x = Some (xs ++ replicate j v, a)).
Proof.
  intros [σ0 Hr0] Hc Hs Hn. destruct (const_arg_pre _ _ _ _ _ _ Hr0 Hs) as (σ & Hr & Hs1 & Hs2 & Hs3).
  pose proof (see _ _ _ _ _ _ Hr Hc) as Hcs. visible Hcs.
  assert (pre C σ (Resize x n s)) as Hpre by (split_and!; [done|done|done|by rewrite Hs2|done]).
  destruct (call_ok σ ρ st (Resize x n s) Hr Hpre) as (o & ρ' & st' & σ' & He & Hst & Hr').
  pose proof (keeps_env_exec (Resize x n s) _ _ _ _ _ eq_refl He) as ->.
  exists o, st'. split_and!; [done|by eexists| |].
  - eapply (all_spared σ); [done..|by intros ?|by intros ? ?| |].
    + intros y w p σ1 Hy%not_in_one Hst1 _ Hw Hly. destruct Hst1 as (v1 & _ & [[_ ->]|(e & j & _ & _ & ->)]);
        (split; [apply at_modify; [done|apply at_new]|by rewrite conts_modify]).
    + intros y σ1 Hy%not_in_one Hst1. destruct Hst1 as (v1 & _ & [[_ ->]|(e & j & _ & _ & ->)]); by rewrite conts_modify.
  - destruct Hst as (v' & Hv' & Hst). rewrite Hs2 H in Hv' Hst. injection Hv' as <-. cbv zeta in Hst.
    destruct Hst as [[-> ->]|(e & j & [-> Hra] & Hj & ->)]; [left|right].
    + split; [done|]. eapply show; [done|]. by rewrite /modify /write /= lookup_insert H0.
    + split; [by eexists|]. exists j. split; [done|]. eapply show; [done|]. by rewrite /modify /write /= lookup_insert H0.
Qed.
End props.
