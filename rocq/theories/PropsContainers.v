(** * C23-C29: whole containers: clear, swap, move, copy, allocators, assign, resize *)
From Verif Require Export PropsSafety.
From stdpp Require Import options.
Set Default Proof Using "Type*".

Section props.
Context {T : Type} {C : cfg T} {OK : cfg_ok C}.
Implicit Types σ : sst T.
Implicit Types ρ : env.
Implicit Types st : state T.
Implicit Types c : cmd T.
Implicit Types xs ys : list T.
Notation reachable := (reachable C).
Notation reached := (reached C).
Notation iterator_at := (iterator_at C).
Notation answers := (answers C).
Notation failed := (failed C).
Notation exec := (exec (C:=C)).

Lemma reached_var ρ st x l : reached ρ st → e_cont ρ !! x = Some l → ∃ xs a, container_at st ρ x = Some (xs, a).
Proof.
  intros [σ Hr] Hl. destruct (reachable_open _ _ _ Hr) as (τ & Ha & Hrep).
  destruct (proj2 (abs_env _ _ _ Ha x) ltac:(eauto)) as [[o a] Hx].
  destruct (rep_lives _ _ _ _ _ _ Hrep Hx) as (l' & Hl' & Ho). by eapply ex_intro, ex_intro, lives_container.
Qed.
Lemma container_var ρ st x xs a : container_at st ρ x = Some (xs, a) → ∃ l, e_cont ρ !! x = Some l.
Proof. rewrite /container_at /seq_at. destruct (e_cont ρ !! x) as [l|]; [by eauto|done]. Qed.
(** a block of [x] that no container the call has touched owns afterwards has been released *)
Lemma freed σ ρ st c u ρ' st' x xs a l k :
  reachable σ ρ st → pre C σ c → exec c ρ st = Ok (u, ρ') st' →
  container_at st ρ x = Some (xs, a) → e_cont ρ !! x = Some l → touches σ c x → k = l ∨ k ∈ blocks_of st ρ x →
  (∀ y l', touches σ c y → e_cont ρ' !! y = Some l' → k ≠ l' ∧ k ∉ blocks_of st' ρ' y) →
  st_heap st' !! k = None.
Proof.
  intros Hr Hpre He Hc Hl Hx Hk Hno. destruct (call_inv _ _ _ _ _ _ _ Hr Hpre He) as (σ' & _ & Hr').
  destruct (st_heap st' !! k) as [b|] eqn:E; [|done]. exfalso.
  destruct (reached_dom ρ' st' k) as (y & ys & b' & l' & Hcy & Hl' & Hky); [by eexists|by rewrite E|].
  destruct (decide (touches σ c y)) as [Ht|Ht]. { destruct (Hno y l' Ht Hl') as [H1 H2]. by destruct Hky. }
  assert (y ∉ names c) as Hny by (intros H; apply Ht; by left).
  pose proof (keepsc_exec y ρ c Hny st) as Hkc. rewrite He in Hkc. rewrite Hkc in Hl'.
  destruct (reached_var ρ st y l' (ex_intro _ σ Hr) Hl') as (zs & b2 & Hcy0).
  destruct (frame_call _ _ _ _ _ _ _ _ _ _ _ Hr Hpre He Hcy0 Ht Hl') as (Hl2 & _ & o2 & Ho2 & Ho2').
  assert (k = l' ∨ k ∈ blocks_of st ρ y) as Hky0.
  { destruct Hky as [->|Hky]; [by left|right]. rewrite (lives_blocks _ _ _ _ _ _ Hl' Ho2).
    by rewrite -(lives_blocks _ _ _ _ _ _ Hl2 Ho2'). }
  assert (y ≠ x) as Hne by (intros ->; done).
  destruct (C19_ownership ρ st x xs a l (ex_intro _ σ Hr) Hc Hl) as (_ & Hd & _).
  eapply (Hd y l' k Hne); [by rewrite Hcy0|done|done|]. apply elem_of_cons. destruct Hk as [->|Hk]; auto.
Qed.
Lemma empty_blocks ρ st x a : reached ρ st → container_at st ρ x = Some ([], a) → blocks_of st ρ x = [].
Proof.
  intros Hr Hc. destruct (reached_segments _ _ _ _ _ Hr Hc) as (ss & Hss & _). by apply (C17_overhead ρ st x [] a ss Hr Hc Hss).
Qed.
Lemma own_block ρ st x xs a l k : reached ρ st → container_at st ρ x = Some (xs, a) → e_cont ρ !! x = Some l →
  k ∈ blocks_of st ρ x → k ≠ l.
Proof.
  intros Hr Hc Hl Hk ->. destruct (C19_ownership ρ st x xs a l Hr Hc Hl) as ([Hn _]%NoDup_cons & _). done.
Qed.


(** the call leaves every container not listed in [X] alone: elements, memory, iterators *)
Definition others_kept (X : list nat) ρ st ρ' st' : Prop := ∀ y, y ∉ X →
  container_at st' ρ' y = container_at st ρ y ∧
  segments st' ρ' y = segments st ρ y ∧ index_nodes st' ρ' y = index_nodes st ρ y ∧
  ∀ w p, iterator_at st ρ w y p → iterator_at st' ρ' w y p.
(** [y] of [st'] is stored where [x] of [st] was: the same blocks hold the same
    elements, and iterators into [x] are now iterators into [y] *)
Definition handed_over ρ st x ρ' st' y : Prop :=
  segments st' ρ' y = segments st ρ x ∧ index_nodes st' ρ' y = index_nodes st ρ x ∧
  ∀ w p, iterator_at st ρ w x p → iterator_at st' ρ' w y p.
Lemma others σ ρ st c u ρ' st' X :
  reachable σ ρ st → pre C σ c → exec c ρ st = Ok (u, ρ') st' →
  (∀ y, touches σ c y → y ∈ X) → (∀ w, ¬ assigns c w) → others_kept X ρ st ρ' st'.
Proof.
  intros Hr Hp He Ht Ha y Hy. assert (¬ touches σ c y) as Hn by (intros H; by apply Hy, Ht).
  destruct (e_cont ρ !! y) as [l|] eqn:Hl.
  - destruct (reached_var ρ st y l (ex_intro _ σ Hr) Hl) as (ys & b & Hc).
    destruct (C41_frame σ ρ st c u ρ' st' y ys b l Hr Hp He Hc Hl Hn) as (_ & ? & ? & ? & _ & Hw).
    split_and!; [congruence|done|done|]. intros w p Hit. by apply Hw.
  - assert (y ∉ names c) as Hny by (intros H; apply Hn; by left).
    pose proof (keepsc_exec y ρ c Hny st) as Hkc. rewrite He Hl in Hkc.
    rewrite /container_at /segments /index_nodes /seq_at Hkc Hl. split_and!; [done..|].
    intros w p (? & ? & ? & Hc & _). by rewrite /container_at /seq_at Hl in Hc.
Qed.
Lemma handed ρ τ st x o a ρ' τ' st' y a' :
  reached ρ st → reached ρ' st' → rep (C:=C) ρ τ (st_heap st) → rep (C:=C) ρ' τ' (st_heap st') →
  τ !! x = Some (o, a) → τ' !! y = Some (o, a') → (∀ w, e_iter ρ' !! w = e_iter ρ !! w) →
  handed_over ρ st x ρ' st' y.
Proof.
  intros Hr Hr' H1 H2 Hx Hy Hw. destruct (trees_memory ρ τ st x o a ρ' τ' st' y o a' H1 H2 Hx Hy eq_refl) as [Hn (s & s' & E & E' & _ & Hs)].
  split_and!; [rewrite E' E; f_equal; by apply Hs|done|].
  intros w p. eapply (trees_iter ρ τ st x o a ρ' τ' st' y o a'); done.
Qed.
Lemma same_iters c ρ st u ρ' st' : (∀ w, ¬ assigns c w) → exec c ρ st = Ok (u, ρ') st' → ∀ w, e_iter ρ' !! w = e_iter ρ !! w.
Proof. intros Ha He w. pose proof (keeps_exec w ρ c (Ha w) st) as Hk. by rewrite He in Hk. Qed.
(** read a result off the abstract state *)
Lemma look ρ st σ x xs a : reachable σ ρ st → conts σ !! x = Some (xs, a) → container_at st ρ x = Some (xs, a).
Proof. apply show. Qed.
Ltac touched := intros ? [?|(? & ? & ?%elem_of_nil & _)]; [assumption|contradiction].
Ltac nobody := by intros ? ?.
Lemma not_there σ ρ st x : reachable σ ρ st → container_at st ρ x = None → unused σ x.
Proof. intros Hr Hc. by rewrite /unused (reachable_conts _ _ _ _ Hr). Qed.

(** ** C23: clear() *)
Theorem C23_clear ρ st x xs a :
  reached ρ st → container_at st ρ x = Some (xs, a) → (xs = [] → c_null_free C = true) →
  ∃ st', exec (Clear x) ρ st = Ok (OUnit, ρ) st' ∧ reached ρ st' ∧
    container_at st' ρ x = Some ([], a) ∧ blocks_of st' ρ x = [] ∧
    (∀ k, k ∈ blocks_of st ρ x → st_heap st' !! k = None) ∧
    others_kept [x] ρ st ρ st'.
Proof.
  intros [σ Hr] Hc Hp. pose proof (see _ _ _ _ _ _ Hr Hc) as Hcs. visible Hcs.
  assert (pre C σ (Clear x)) as Hpre by (split; [done|]; by rewrite H).
  destruct (call_ok σ ρ st (Clear x) Hr Hpre) as (o & ρ' & st' & σ' & He & [-> ->] & Hr').
  pose proof (keeps_env_exec (Clear x) _ _ _ _ _ eq_refl He) as ->.
  assert (container_at st' ρ x = Some ([], a)) as Hc'.
  { eapply show; [done|]. by rewrite /modify /write /= lookup_insert H0. }
  destruct (container_var _ _ _ _ _ Hc) as [l Hl].
  exists st'. split_and!; [done|by eexists|done|by eapply empty_blocks; [eexists|]| |].
  - intros k Hk. eapply (freed σ ρ st (Clear x)); [done|done|done|done|done|left; by left|by right|].
    intros y l' Ht Hl'. assert (y = x) as ->.
    { destruct Ht as [Hin|(w & p & Hin & _)]; [|by apply elem_of_nil in Hin]. by apply elem_of_list_singleton in Hin. }
    rewrite Hl in Hl'. injection Hl' as <-. split; [apply (own_block ρ st x xs a l k); [by exists σ|done..]|].
    rewrite (empty_blocks ρ st' x a); [apply not_elem_of_nil|by eexists|done].
  - eapply others; [done..|touched|nobody].
Qed.

(** ** C24: swap *)
Theorem C24_swap ρ st x y xs a ys b :
  reached ρ st → container_at st ρ x = Some (xs, a) → container_at st ρ y = Some (ys, b) →
  c_pocs C = true ∨ a = b →
  ∃ st', exec (Swap x y) ρ st = Ok (OUnit, ρ) st' ∧ reached ρ st' ∧
    container_at st' ρ x = Some (ys, b) ∧ container_at st' ρ y = Some (xs, a) ∧
    handed_over ρ st x ρ st' y ∧ handed_over ρ st y ρ st' x ∧
    others_kept [x; y] ρ st ρ st'.
Proof.
  intros [σ Hr] Hcx Hcy Hp. pose proof (see _ _ _ _ _ _ Hr Hcx) as Hsx. visible Hsx. pose proof (see _ _ _ _ _ _ Hr Hcy) as Hsy. visible Hsy.
  assert (pre C σ (Swap x y)) as Hpre by (split_and!; [done|done|]; by rewrite H0 H3).
  destruct (call_ok σ ρ st (Swap x y) Hr Hpre) as (o & ρ' & st' & σ' & He & [-> ->] & Hr').
  pose proof (keeps_env_exec (Swap x y) _ _ _ _ _ eq_refl He) as ->.
  destruct (reachable_open _ _ _ Hr) as (τ & Ha & Hrep).
  destruct (rep_has _ _ _ _ _ _ Hrep Hcx (abs_env _ _ _ Ha)) as (ox & lx & Ex & <- & Hlx & _).
  destruct (rep_has _ _ _ _ _ _ Hrep Hcy (abs_env _ _ _ Ha)) as (oy & ly & Ey & <- & Hly & _).
  destruct (track_ok ρ τ _ _ _ st OUnit ρ st' Hrep (track_Swap σ ρ τ x y ox a oy b Hpre Ha Ex Ey) He) as [Hk|(? & ? & _)]; [|done].
  apply kept_holds in Hk as (τ' & (Ex' & Ey' & Ez') & Hrep').
  destruct (rep_lives _ _ _ _ _ _ Hrep' Ex') as (lx' & Hlx' & Hvx). destruct (rep_lives _ _ _ _ _ _ Hrep' Ey') as (ly' & Hly' & Hvy).
  exists st'. split_and!; [done|by eexists|by eapply lives_container|by eapply lives_container| | |].
  - by eapply (handed ρ τ st x ox a ρ τ' st' y a); [eexists|eexists|..].
  - by eapply (handed ρ τ st y oy b ρ τ' st' x b); [eexists|eexists|..].
  - eapply others; [done..|touched|nobody].
Qed.
(** swapping twice restores both containers, block for block *)
Theorem C24_involution ρ st x y xs a ys b :
  reached ρ st → container_at st ρ x = Some (xs, a) → container_at st ρ y = Some (ys, b) →
  c_pocs C = true ∨ a = b →
  ∃ st' st'', exec (Swap x y) ρ st = Ok (OUnit, ρ) st' ∧ exec (Swap x y) ρ st' = Ok (OUnit, ρ) st'' ∧
    container_at st'' ρ x = Some (xs, a) ∧ container_at st'' ρ y = Some (ys, b) ∧
    handed_over ρ st x ρ st'' x ∧ handed_over ρ st y ρ st'' y ∧ others_kept [] ρ st ρ st''.
Proof.
  intros Hr Hcx Hcy Hp. destruct (C24_swap ρ st x y xs a ys b) as (st' & He & Hr' & Hx & Hy & (Hs1 & Hn1 & Hi1) & (Hs2 & Hn2 & Hi2) & Ho); [done..|].
  destruct (C24_swap ρ st' x y ys b xs a) as (st'' & He' & Hr'' & Hx' & Hy' & (Hs1' & Hn1' & Hi1') & (Hs2' & Hn2' & Hi2') & Ho'); [done..| |].
  { destruct Hp as [?| ->]; [by left|by right]. }
  assert (handed_over ρ st x ρ st'' x) as Hhx by (split_and!; [congruence|congruence|naive_solver]).
  assert (handed_over ρ st y ρ st'' y) as Hhy by (split_and!; [congruence|congruence|naive_solver]).
  exists st', st''. split_and!; [done..|]. intros z _.
  destruct (decide (z = x)) as [->|Hzx]; [split; [congruence|done]|]. destruct (decide (z = y)) as [->|Hzy]; [split; [congruence|done]|].
  assert (z ∉ [x; y]) as Hz by (rewrite !elem_of_cons elem_of_nil; naive_solver).
  destruct (Ho z Hz) as (E1 & E2 & E3 & E4). destruct (Ho' z Hz) as (F1 & F2 & F3 & F4). split_and!; [congruence..|naive_solver].
Qed.

(** ** C25: move construction and move assignment *)
(** seq x(std::move(y)) *)
Theorem C25_move_ctor ρ st x y ys b :
  reached ρ st → container_at st ρ x = None → container_at st ρ y = Some (ys, b) →
  ∃ ρ' st', exec (NewMove x y) ρ st = Ok (OUnit, ρ') st' ∧ reached ρ' st' ∧
    container_at st' ρ' x = Some (ys, b) ∧ container_at st' ρ' y = Some ([], b) ∧
    handed_over ρ st y ρ' st' x ∧ others_kept [x; y] ρ st ρ' st'.
Proof.
  intros [σ Hr] Hcx Hcy. pose proof (see _ _ _ _ _ _ Hr Hcy) as Hsy. visible Hsy.
  assert (pre C σ (NewMove x y)) as Hpre by (split; [by eapply not_there|done]).
  destruct (call_ok σ ρ st (NewMove x y) Hr Hpre) as (o & ρ' & st' & σ' & He & [-> ->] & Hr').
  destruct (reachable_open _ _ _ Hr) as (τ & Ha & Hrep).
  destruct (rep_has _ _ _ _ _ _ Hrep Hcy (abs_env _ _ _ Ha)) as (oy & ly & Ey & <- & Hly & _).
  destruct (track_ok ρ τ _ _ _ st OUnit ρ' st' Hrep (track_NewMove σ ρ τ x y oy b Hpre Ha Ey) He) as [Hk|(? & ? & _)]; [|done].
  apply kept_holds in Hk as (τ' & (Ex' & Ey' & Ez') & Hrep').
  destruct (rep_lives _ _ _ _ _ _ Hrep' Ex') as (lx' & Hlx' & Hvx). destruct (rep_lives _ _ _ _ _ _ Hrep' Ey') as (ly' & Hly' & Hvy).
  exists ρ', st'. split_and!; [done|by eexists|by eapply lives_container|by eapply (lives_container _ _ _ _ _ None)| |].
  - eapply (handed ρ τ st y oy b ρ' τ' st' x b); [by eexists|by eexists|done..|]. eapply same_iters; [|done]. nobody.
  - eapply others; [done..|touched|nobody].
Qed.
(** seq x(std::move(y), b) with the allocator y has *)
Theorem C25_move_ctor_same_alloc ρ st x y ys b :
  reached ρ st → container_at st ρ x = None → container_at st ρ y = Some (ys, b) →
  ((∃ e, raisable C e) → c_null_free C = true) →
  ∃ ρ' st', exec (NewMoveAlloc x y b) ρ st = Ok (OUnit, ρ') st' ∧ reached ρ' st' ∧
    container_at st' ρ' x = Some (ys, b) ∧ container_at st' ρ' y = Some ([], b) ∧
    handed_over ρ st y ρ' st' x ∧ others_kept [x; y] ρ st ρ' st'.
Proof.
  intros [σ Hr] Hcx Hcy Hth. pose proof (see _ _ _ _ _ _ Hr Hcy) as Hsy. visible Hsy.
  assert (pre C σ (NewMoveAlloc x y b)) as Hpre by (split_and!; [by eapply not_there|done|done]).
  destruct (call_ok σ ρ st (NewMoveAlloc x y b) Hr Hpre) as (o & ρ' & st' & σ' & He & Hst & Hr').
  cbn [step] in Hst. rewrite H0 Nat.eqb_refl in Hst. destruct Hst as [-> ->].
  destruct (reachable_open _ _ _ Hr) as (τ & Ha & Hrep).
  destruct (rep_has _ _ _ _ _ _ Hrep Hcy (abs_env _ _ _ Ha)) as (oy & ly & Ey & <- & Hly & _).
  destruct (track_ok ρ τ _ _ _ st OUnit ρ' st' Hrep (track_NewMoveAlloc σ ρ τ x y oy b Hpre Ha Ey) He) as [Hk|(? & ? & _)]; [|done].
  apply kept_holds in Hk as (τ' & (Ex' & Ey' & Ez') & Hrep').
  destruct (rep_lives _ _ _ _ _ _ Hrep' Ex') as (lx' & Hlx' & Hvx). destruct (rep_lives _ _ _ _ _ _ Hrep' Ey') as (ly' & Hly' & Hvy).
  exists ρ', st'. split_and!; [done|by eexists|by eapply lives_container|by eapply (lives_container _ _ _ _ _ None)| |].
  - eapply (handed ρ τ st y oy b ρ' τ' st' x b); [by eexists|by eexists|done..|]. eapply same_iters; [|done]. nobody.
  - eapply others; [done..|touched|nobody].
Qed.

(** [y] is stored where it was: the same index nodes, segments with the same
    addresses and lengths, every iterator valid at its index *)
Definition in_place ρ st y ρ' st' : Prop :=
  index_nodes st' ρ' y = index_nodes st ρ y ∧ places st' ρ' y = places st ρ y ∧
  ∀ w p, iterator_at st ρ w y p → iterator_at st' ρ' w y p.
Lemma still_place ρ τ st y o b ρ' τ' st' :
  reached ρ st → reached ρ' st' → rep (C:=C) ρ τ (st_heap st) → rep (C:=C) ρ' τ' (st_heap st') →
  τ !! y = Some (o, b) → still τ y o b τ' → (∀ w, e_iter ρ' !! w = e_iter ρ !! w) →
  in_place ρ st y ρ' st'.
Proof.
  intros Hr Hr' H1 H2 Hy (o' & Hy' & Ho) Hw. destruct (trees_memory ρ τ st y o b ρ' τ' st' y o' b H1 H2 Hy Hy' Ho) as [Hn (s & s' & E & E' & Hs & _)].
  split_and!; [done|rewrite /places E' E /=; by rewrite Hs|].
  intros w p. eapply (trees_iter ρ τ st y o b ρ' τ' st' y o' b); done.
Qed.
(** a failed call that leaves every container in place allocates nothing *)
Lemma place_dom ρ st ρ' st' :
  reached ρ st → reached ρ' st' → e_cont ρ' = e_cont ρ →
  (∀ y, is_Some (container_at st' ρ' y) ↔ is_Some (container_at st ρ y)) →
  (∀ y, index_nodes st' ρ' y = index_nodes st ρ y ∧ places st' ρ' y = places st ρ y) →
  dom (st_heap st') = dom (st_heap st).
Proof.
  intros Hr Hr' Hec Hc Hb. apply set_eq. intros k. rewrite !elem_of_dom.
  rewrite (C19_inventory ρ' st' k Hr') (C19_inventory ρ st k Hr).
  apply exist_proper. intros y. rewrite (Hc y) Hec. destruct (Hb y) as [Hn Hp].
  assert (blocks_of st' ρ' y = blocks_of st ρ y) as ->; [|done].
  rewrite /blocks_of Hn. f_equal. unfold places in Hp.
  destruct (segments st' ρ' y) as [s1|], (segments st ρ y) as [s2|]; try done. simpl in *. injection Hp as Hp.
  assert ((layout s1).*1 = (layout s2).*1) as E by by rewrite Hp. rewrite /layout -!list_fmap_compose in E. done.
Qed.
Lemma others_dom ρ st x y ρ' st' :
  reached ρ st → reached ρ' st' → e_cont ρ' = e_cont ρ → container_at st ρ x = None → container_at st' ρ' x = None →
  is_Some (container_at st ρ y) → is_Some (container_at st' ρ' y) →
  in_place ρ st y ρ' st' → others_kept [x; y] ρ st ρ' st' → dom (st_heap st') = dom (st_heap st).
Proof.
  intros Hr Hr' Hec Hx Hx' Hy Hy' (Hn & Hp & _) Ho.
  assert (e_cont ρ !! x = None) as Hex.
  { destruct (e_cont ρ !! x) as [l|] eqn:E; [|done]. destruct (reached_var ρ st x l Hr E) as (? & ? & ?). congruence. }
  apply (place_dom ρ st ρ' st'); [done..| |].
  - intros z. destruct (decide (z = x)) as [->|]; [by rewrite Hx Hx'|]. destruct (decide (z = y)) as [->|]; [by split|].
    destruct (Ho z) as (-> & _); [|done]. rewrite !elem_of_cons elem_of_nil. naive_solver.
  - intros z. destruct (decide (z = x)) as [->|].
    { rewrite /index_nodes /places /segments /seq_at Hec Hex. done. }
    destruct (decide (z = y)) as [->|]; [done|].
    destruct (Ho z) as (_ & Hs & Hi & _); [rewrite !elem_of_cons elem_of_nil; naive_solver|]. split; [done|]. by rewrite /places Hs.
Qed.
Lemma moved_prefix j ys : moved C 0 j ys = (c_residue C <$> take j ys) ++ drop j ys.
Proof. done. Qed.

(** seq x(std::move(y), a) with another allocator: the elements are moved one by one *)
Theorem C25_move_ctor_other_alloc ρ st x y a ys b :
  reached ρ st → container_at st ρ x = None → container_at st ρ y = Some (ys, b) → a ≠ b →
  ((∃ e, raisable C e) → c_null_free C = true) →
  ∃ o ρ' st', exec (NewMoveAlloc x y a) ρ st = Ok (o, ρ') st' ∧ reached ρ' st' ∧
    in_place ρ st y ρ' st' ∧ others_kept [x; y] ρ st ρ' st' ∧
    (o = OUnit ∧ container_at st' ρ' x = Some (ys, a) ∧ container_at st' ρ' y = Some (c_residue C <$> ys, b) ∨
     failed o ∧ ρ' = ρ ∧ container_at st' ρ' x = None ∧ dom (st_heap st') = dom (st_heap st) ∧
       ∃ j, j ≤ length ys ∧ container_at st' ρ' y = Some ((c_residue C <$> take j ys) ++ drop j ys, b)).
Proof.
  intros [σ Hr] Hcx Hcy Hab Hth. pose proof (see _ _ _ _ _ _ Hr Hcy) as Hsy. visible Hsy.
  assert (pre C σ (NewMoveAlloc x y a)) as Hpre by (split_and!; [by eapply not_there|done|done]).
  assert (x ≠ y) as Hne by (intros ->; congruence).
  destruct (call_ok σ ρ st (NewMoveAlloc x y a) Hr Hpre) as (o & ρ' & st' & σ' & He & Hst & Hr').
  cbn [step] in Hst. rewrite H0 (proj2 (Nat.eqb_neq _ _) Hab) H in Hst.
  destruct (reachable_open _ _ _ Hr) as (τ & Ha & Hrep).
  destruct (rep_has _ _ _ _ _ _ Hrep Hcy (abs_env _ _ _ Ha)) as (oy & ly & Ey & Hel & Hly & _).
  assert (in_place ρ st y ρ' st') as Hin.
  { destruct (track_ok ρ τ _ _ _ st o ρ' st' Hrep (track_NewMoveAlloc_each σ ρ τ x y a oy b Hpre Ha Ey Hab) He) as [Hk|(? & _ & -> & Hk)];
      apply kept_holds in Hk as (τ' & Hsti & Hrep');
      (eapply still_place; [by eexists|by eexists|done..|]); [|done]. eapply same_iters; [|done]. nobody. }
  assert (others_kept [x; y] ρ st ρ' st') as Hoth by (eapply others; [done..|touched|nobody]).
  exists o, ρ', st'. split_and!; [done|by eexists|done|done|].
  destruct Hst as [[-> ->]|(e & j & [-> Hra] & Hj & ->)]; [left|right].
  - split_and!; [done|eapply show; [done|]..].
    + by rewrite /= lookup_insert.
    + rewrite /= lookup_insert_ne // /write /= lookup_insert moved_all. by rewrite H0.
  - pose proof (throw_env _ _ _ _ _ _ He) as ->.
    assert (container_at st' ρ x = None) as Hx'.
    { eapply show; [done|]. rewrite /write /= lookup_insert_ne //. by rewrite (reachable_conts _ _ _ _ Hr). }
    assert (container_at st' ρ y = Some ((c_residue C <$> take j ys) ++ drop j ys, b)) as Hy'.
    { eapply show; [done|]. rewrite /write /= lookup_insert H0. by rewrite moved_prefix. }
    split_and!; [by eexists|done|done| |by exists j].
    eapply (others_dom ρ st x y ρ st'); [by eexists|by eexists|done|done|done|by rewrite Hcy|by rewrite Hy'|done|done].
Qed.
(** x = std::move(y), y's memory is taken over *)
Theorem C25_move_assign ρ st x y xs a ys b :
  reached ρ st → x ≠ y → container_at st ρ x = Some (xs, a) → container_at st ρ y = Some (ys, b) →
  c_pocma C = true ∨ a = b → (xs = [] → c_null_free C = true) →
  ∃ st', exec (AssignMove x y) ρ st = Ok (OUnit, ρ) st' ∧ reached ρ st' ∧
    container_at st' ρ x = Some (ys, b) ∧ container_at st' ρ y = Some ([], b) ∧
    handed_over ρ st y ρ st' x ∧
    (∀ k, k ∈ blocks_of st ρ x → st_heap st' !! k = None) ∧
    others_kept [x; y] ρ st ρ st'.
Proof.
  intros [σ Hr] Hne Hcx Hcy Hto Hp. pose proof (see _ _ _ _ _ _ Hr Hcx) as Hsx. visible Hsx. pose proof (see _ _ _ _ _ _ Hr Hcy) as Hsy. visible Hsy.
  assert (takes_over C a b = true) as Hto'.
  { rewrite /takes_over. destruct Hto as [->| ->]; [done|]. by rewrite Nat.eqb_refl orb_true_r. }
  assert ((if c_pocma C then b else a) = b) as Hal.
  { destruct (c_pocma C); [done|]. by destruct Hto. }
  assert (pre C σ (AssignMove x y)) as Hpre by (split_and!; [done|done|]; by rewrite H).
  destruct (call_ok σ ρ st (AssignMove x y) Hr Hpre) as (o & ρ' & st' & σ' & He & Hst & Hr').
  pose proof (keeps_env_exec (AssignMove x y) _ _ _ _ _ eq_refl He) as ->.
  cbn [step] in Hst. rewrite (proj2 (Nat.eqb_neq _ _) Hne) H0 H3 Hto' in Hst. destruct Hst as [-> ->].
  destruct (reachable_open _ _ _ Hr) as (τ & Ha & Hrep).
  destruct (rep_has _ _ _ _ _ _ Hrep Hcx (abs_env _ _ _ Ha)) as (ox & lx & Ex & Hex & Hlx & _).
  destruct (rep_has _ _ _ _ _ _ Hrep Hcy (abs_env _ _ _ Ha)) as (oy & ly & Ey & Hey & Hly & _).
  destruct (track_ok ρ τ _ _ _ st OUnit ρ st' Hrep (track_AssignMove σ ρ τ x y ox a oy b Hpre Ha Hne Ex Ey Hto') He) as [Hk|(? & ? & _)]; [|done].
  apply kept_holds in Hk as (τ' & (Ex' & Ey' & Ez') & Hrep'). rewrite Hal in Ex'.
  destruct (rep_lives _ _ _ _ _ _ Hrep' Ex') as (lx' & Hlx' & Hvx). destruct (rep_lives _ _ _ _ _ _ Hrep' Ey') as (ly' & Hly' & Hvy).
  assert (container_at st' ρ x = Some (ys, b)) as Hx' by (rewrite -Hey; by eapply lives_container).
  assert (container_at st' ρ y = Some ([], b)) as Hy' by (by eapply (lives_container _ _ _ _ _ None)).
  assert (handed_over ρ st y ρ st' x) as Hh.
  { by eapply (handed ρ τ st y oy b ρ τ' st' x b); [eexists|eexists|..]. }
  exists st'. split_and!; [done|by eexists|done|done|done| |].
  - intros k Hk. eapply (freed σ ρ st (AssignMove x y) OUnit ρ st' x xs a lx); [done|done|done|done|done|left; by left|by right|].
    destruct (C19_ownership ρ st x xs a lx (ex_intro _ σ Hr) Hcx Hlx) as ([Hl0 _]%NoDup_cons & Hd & _).
    intros z l' Ht Hl'. assert (z = x ∨ z = y) as [->| ->].
    { destruct Ht as [Hin|(w & p & Hin & _)]; [|by apply elem_of_nil in Hin].
      apply elem_of_cons in Hin as [->|Hin]; [by left|right; by apply elem_of_list_singleton in Hin]. }
    + rewrite Hlx in Hl'. injection Hl' as <-. split; [by intros ->|]. destruct Hh as (Hs1 & Hn1 & _).
      rewrite /blocks_of Hs1 Hn1 -/(blocks_of st ρ y). intros Hky.
      eapply (Hd y ly k); [done|by rewrite Hcy|done|by right|by right].
    + split.
      * intros ->. rewrite Hly in Hl'. injection Hl' as ->. eapply (Hd y l' l'); [done|by rewrite Hcy|done|by left|by right].
      * rewrite (empty_blocks ρ st' y b); [apply not_elem_of_nil|by eexists|done].
  - eapply others; [done..|touched|nobody].
Qed.
(** x = std::move(y) with unequal allocators that do not propagate: the elements are moved one by one *)
Theorem C25_move_assign_each ρ st x y xs a ys b :
  reached ρ st → x ≠ y → container_at st ρ x = Some (xs, a) → container_at st ρ y = Some (ys, b) →
  c_pocma C = false → a ≠ b →
  ∃ o st', exec (AssignMove x y) ρ st = Ok (o, ρ) st' ∧ reached ρ st' ∧
    in_place ρ st y ρ st' ∧ others_kept [x; y] ρ st ρ st' ∧
    (o = OUnit ∧ container_at st' ρ x = Some (ys, a) ∧ container_at st' ρ y = Some (c_residue C <$> ys, b) ∨
     failed o ∧ ∃ j j', j < length ys ∧ j ≤ j' ≤ S j ∧
       container_at st' ρ x = Some (take j ys ++ drop j xs, a) ∧
       container_at st' ρ y = Some ((c_residue C <$> take j' ys) ++ drop j' ys, b)).
Proof.
  intros [σ Hr] Hne Hcx Hcy Hpo Hab. pose proof (see _ _ _ _ _ _ Hr Hcx) as Hsx. visible Hsx. pose proof (see _ _ _ _ _ _ Hr Hcy) as Hsy. visible Hsy.
  assert (takes_over C a b = false) as Hto'.
  { rewrite /takes_over Hpo. by apply Nat.eqb_neq in Hab as ->. }
  assert (pre C σ (AssignMove x y)) as Hpre by (split_and!; [done|done|]; by rewrite H0 H3 Hto').
  destruct (call_ok σ ρ st (AssignMove x y) Hr Hpre) as (o & ρ' & st' & σ' & He & Hst & Hr').
  pose proof (keeps_env_exec (AssignMove x y) _ _ _ _ _ eq_refl He) as ->.
  cbn [step] in Hst. rewrite (proj2 (Nat.eqb_neq _ _) Hne) H0 H3 Hto' H H2 in Hst.
  destruct (reachable_open _ _ _ Hr) as (τ & Ha & Hrep).
  destruct (rep_has _ _ _ _ _ _ Hrep Hcx (abs_env _ _ _ Ha)) as (ox & lx & Ex & Hex & Hlx & _).
  destruct (rep_has _ _ _ _ _ _ Hrep Hcy (abs_env _ _ _ Ha)) as (oy & ly & Ey & Hey & Hly & _).
  exists o, st'. split_and!; [done|by eexists| | |].
  - destruct (track_ok ρ τ _ _ _ st o ρ st' Hrep (track_AssignMove_each σ ρ τ x y ox a oy b Hpre Ha Hne Ex Ey Hto') He) as [Hk|(? & _ & _ & Hk)];
      apply kept_holds in Hk as (τ' & Hsti & Hrep');
      (eapply still_place; [by eexists|by eexists|done..|]); done.
  - eapply others; [done..|touched|nobody].
  - destruct Hst as [[-> ->]|(e & j & j' & [-> Hra] & Hj & Hj' & ->)]; [left|right].
    + split_and!; [done|eapply show; [done|]..]; rewrite /modify /write /=.
      * rewrite lookup_insert /alloc_of /= lookup_insert_ne // Hsx //.
      * rewrite lookup_insert_ne // lookup_insert moved_all. by rewrite H3.
    + split; [by eexists|]. exists j, j'. split_and!; [done|lia|lia|eapply show; [done|]..]; rewrite /modify /write /=.
      * rewrite lookup_insert /alloc_of /= lookup_insert_ne // Hsx //.
      * rewrite lookup_insert_ne // lookup_insert. by rewrite H3 moved_prefix.
Qed.
(** x = std::move(x): empty, and valid *)
Theorem C25_self_move ρ st x xs a :
  reached ρ st → container_at st ρ x = Some (xs, a) → (xs = [] → c_null_free C = true) →
  ∃ st', exec (AssignMove x x) ρ st = Ok (OUnit, ρ) st' ∧ reached ρ st' ∧
    container_at st' ρ x = Some ([], a) ∧ others_kept [x] ρ st ρ st'.
Proof.
  intros [σ Hr] Hc Hp. pose proof (see _ _ _ _ _ _ Hr Hc) as Hcs. visible Hcs.
  assert (pre C σ (AssignMove x x)) as Hpre by (split_and!; [done|done|]; by rewrite H).
  destruct (call_ok σ ρ st (AssignMove x x) Hr Hpre) as (o & ρ' & st' & σ' & He & Hst & Hr').
  pose proof (keeps_env_exec (AssignMove x x) _ _ _ _ _ eq_refl He) as ->.
  cbn [step] in Hst. rewrite Nat.eqb_refl in Hst. destruct Hst as [-> ->].
  exists st'. split_and!; [done|by eexists| |].
  - eapply show; [done|]. by rewrite /modify /write /= lookup_insert H0.
  - eapply others; [done..| |nobody]. intros z [Hz|(? & ? & ?%elem_of_nil & _)]; [|done].
    rewrite !elem_of_cons elem_of_nil in Hz. apply elem_of_list_singleton. naive_solver.
Qed.

(** ** C26: copy construction and copy assignment *)
(** seq x(y): the allocator is select_on_container_copy_construction of y's *)
Theorem C26_copy_ctor ρ st x y ys b c a :
  reached ρ st → container_at st ρ x = None → container_at st ρ y = Some (ys, b) →
  ((∃ e, raisable C e) → c_null_free C = true) →
  c = NewCopy x y ∧ a = c_soccc C b ∨ c = NewCopyAlloc x y a →
  ∃ o ρ' st', exec c ρ st = Ok (o, ρ') st' ∧ reached ρ' st' ∧
    container_at st' ρ' y = Some (ys, b) ∧ in_place ρ st y ρ' st' ∧ others_kept [x; y] ρ st ρ' st' ∧
    (o = OUnit ∧ container_at st' ρ' x = Some (ys, a) ∨
     failed o ∧ ρ' = ρ ∧ container_at st' ρ' x = None ∧ dom (st_heap st') = dom (st_heap st)).
Proof.
  intros [σ Hr] Hcx Hcy Hth Hc. pose proof (see _ _ _ _ _ _ Hr Hcy) as Hsy. visible Hsy.
  assert (pre C σ c) as Hpre by (destruct Hc as [[-> _]| ->]; (split_and!; [by eapply not_there|done|done])).
  assert (x ≠ y) as Hne by (intros ->; congruence).
  destruct (call_ok σ ρ st c Hr Hpre) as (o & ρ' & st' & σ' & He & Hst & Hr').
  assert (o = OUnit ∧ σ' = setc x ys a σ ∨ failed o ∧ σ' = σ) as Hst'.
  { destruct Hc as [[-> ->]| ->]; cbn [step] in Hst; rewrite ?H ?H0 in Hst; destruct Hst as [[-> ->]|[(e & -> & Hra) ->]];
      [by left|right; split; [by eexists|done]|by left|right; split; [by eexists|done]]. }
  clear Hst. destruct (reachable_open _ _ _ Hr) as (τ & Ha & Hrep).
  destruct (rep_has _ _ _ _ _ _ Hrep Hcy (abs_env _ _ _ Ha)) as (oy & ly & Ey & Hel & Hly & _).
  assert (∀ w, ¬ assigns c w) as Has by (destruct Hc as [[-> _]| ->]; nobody).
  assert (in_place ρ st y ρ' st') as Hin.
  { assert (rep ρ τ ⊢ wp (exec_call c ρ) (λ r, kept τ r.2 (still τ y oy b)) (λ e, kept τ ρ (still τ y oy b))) as Htr.
    { destruct Hc as [[-> _]| ->]; [by eapply track_NewCopy|by eapply track_NewCopyAlloc]. }
    destruct (track_ok ρ τ _ _ _ st o ρ' st' Hrep Htr He) as [Hk|(? & _ & -> & Hk)];
      apply kept_holds in Hk as (τ' & Hsti & Hrep');
      (eapply still_place; [by eexists|by eexists|done..|]); [|done]. by eapply same_iters. }
  assert (others_kept [x; y] ρ st ρ' st') as Hoth.
  { eapply others; [done..| |done]. destruct Hc as [[-> _]| ->]; touched. }
  assert (container_at st' ρ' y = Some (ys, b)) as Hy'.
  { eapply show; [done|]. destruct Hst' as [[_ ->]|[_ ->]]; [|done]. by rewrite /= lookup_insert_ne. }
  exists o, ρ', st'. split_and!; [done|by eexists|done|done|done|].
  destruct Hst' as [[-> ->]|[Hf ->]]; [left|right].
  - split; [done|]. eapply show; [done|]. by rewrite /= lookup_insert.
  - destruct Hf as (e & -> & Hra). pose proof (throw_env _ _ _ _ _ _ He) as ->.
    assert (container_at st' ρ x = None) as Hx'.
    { eapply show; [done|]. by rewrite (reachable_conts _ _ _ _ Hr). }
    split_and!; [by eexists|done|done|].
    eapply (others_dom ρ st x y ρ st'); [by eexists|by eexists|done|done|done|by rewrite Hcy|by rewrite Hy'|done|done].
Qed.
(** x = y *)
Theorem C26_copy_assign ρ st x y xs a ys b :
  reached ρ st → x ≠ y → container_at st ρ x = Some (xs, a) → container_at st ρ y = Some (ys, b) →
  (c_pocca C = true → a ≠ b → xs = [] → c_null_free C = true) →
  let a' := if c_pocca C then b else a in
  (* with propagation of an unequal allocator the old elements are destroyed first *)
  let old := if c_pocca C && negb (a =? b) then [] else xs in
  ∃ o st', exec (AssignCopy x y) ρ st = Ok (o, ρ) st' ∧ reached ρ st' ∧
    container_at st' ρ y = Some (ys, b) ∧ in_place ρ st y ρ st' ∧ others_kept [x; y] ρ st ρ st' ∧
    (o = OUnit ∧ container_at st' ρ x = Some (ys, a') ∨
     failed o ∧ ∃ j, j < length ys ∧ container_at st' ρ x = Some (take j ys ++ drop j old, a')).
Proof.
  intros [σ Hr] Hne Hcx Hcy Hp a' old. pose proof (see _ _ _ _ _ _ Hr Hcx) as Hsx. visible Hsx. pose proof (see _ _ _ _ _ _ Hr Hcy) as Hsy. visible Hsy.
  assert (pre C σ (AssignCopy x y)) as Hpre.
  { split_and!; [done|done|]. rewrite H0 H3 /can_purge H. done. }
  destruct (call_ok σ ρ st (AssignCopy x y) Hr Hpre) as (o & ρ' & st' & σ' & He & Hst & Hr').
  pose proof (keeps_env_exec (AssignCopy x y) _ _ _ _ _ eq_refl He) as ->.
  cbn [step] in Hst. rewrite (proj2 (Nat.eqb_neq _ _) Hne) H H0 H2 H3 in Hst. fold a' old in Hst. cbv zeta in Hst.
  destruct (reachable_open _ _ _ Hr) as (τ & Ha & Hrep).
  destruct (rep_has _ _ _ _ _ _ Hrep Hcy (abs_env _ _ _ Ha)) as (oy & ly & Ey & Hel & Hly & _).
  exists o, st'. split_and!; [done|by eexists| | | |].
  - eapply show; [done|]. destruct Hst as [[-> ->]|(e & j & _ & _ & ->)]; by rewrite /= lookup_insert_ne.
  - destruct (track_ok ρ τ _ _ _ st o ρ st' Hrep (track_AssignCopy σ ρ τ x y oy b Hpre Ha Ey Hne) He) as [Hk|(? & _ & _ & Hk)];
      apply kept_holds in Hk as (τ' & Hsti & Hrep');
      (eapply still_place; [by eexists|by eexists|done..|]); done.
  - eapply others; [done..|touched|nobody].
  - destruct Hst as [[-> ->]|(e & j & [-> Hra] & Hj & ->)]; [left|right].
    + split; [done|]. eapply show; [done|]. by rewrite /= lookup_insert.
    + split; [by eexists|]. exists j. split; [done|]. eapply show; [done|]. by rewrite /= lookup_insert.
Qed.
(** x = x *)
Theorem C26_self_assign ρ st x xs a :
  reached ρ st → container_at st ρ x = Some (xs, a) →
  ∃ st', exec (AssignCopy x x) ρ st = Ok (OUnit, ρ) st' ∧ reached ρ st' ∧
    container_at st' ρ x = Some (xs, a) ∧ handed_over ρ st x ρ st' x ∧ others_kept [] ρ st ρ st'.
Proof.
  intros [σ Hr] Hc. pose proof (see _ _ _ _ _ _ Hr Hc) as Hcs. visible Hcs.
  assert (pre C σ (AssignCopy x x)) as Hpre by (split_and!; [done|done|]; done).
  destruct (call_ok σ ρ st (AssignCopy x x) Hr Hpre) as (o & ρ' & st' & σ' & He & Hst & Hr').
  pose proof (keeps_env_exec (AssignCopy x x) _ _ _ _ _ eq_refl He) as ->.
  cbn [step] in Hst. rewrite Nat.eqb_refl in Hst. destruct Hst as [-> ->].
  destruct (reachable_open _ _ _ Hr) as (τ & Ha & Hrep).
  destruct (rep_has _ _ _ _ _ _ Hrep Hc (abs_env _ _ _ Ha)) as (o & l & E & Hel & Hl & _).
  destruct (track_ok ρ τ _ _ _ st OUnit ρ st' Hrep (track_AssignCopy_self σ ρ τ x Hpre Ha) He) as [Hk|(? & ? & _)]; [|done].
  apply kept_holds in Hk as (τ' & <- & Hrep').
  assert (container_at st' ρ x = Some (xs, a)) as Hc' by by eapply show.
  assert (handed_over ρ st x ρ st' x) as Hh by by eapply (handed ρ τ st x o a ρ τ st' x a); [eexists|eexists|..].
  exists st'. split_and!; [done|by eexists|done|done|]. intros y _. destruct (decide (y = x)) as [->|Hn].
  - split; [congruence|done].
  - eapply (others σ ρ st (AssignCopy x x) OUnit ρ st' [x; x]); [done..|touched|nobody|]. rewrite !elem_of_cons elem_of_nil. naive_solver.
Qed.
End props.
