(** * Credits: accesses of the private members of seq: one element, and loops.
    Proof infrastructure. *)
From Verif Require Export Ticks.
From stdpp Require Import options.
Set Default Proof Using "Type*".

Section tk.
Context {T : Type} {C : cfg T} {OK : cfg_ok C}.
Implicit Types st : state T.
Implicit Types h : heap T.
Implicit Types o : option (tree T).
Notation reads st := (n_reads (st_cnt st)).

(** run on the owned part of memory, and whatever else there is, [m] makes at
    most [k] accesses *)
Definition tk (k : nat) {A} (m : M T A) : hprop T :=
  HProp (λ h, ∀ hf clk cnt, h ##ₘ hf → arrays (h ∪ hf) → runs k m (State (h ∪ hf) clk cnt)).
Local Arguments tk : simpl never.
Lemma tk_holds k {A} (m : M T A) h :
  tk k m h ↔ ∀ hf clk cnt, h ##ₘ hf → arrays (h ∪ hf) → runs k m (State (h ∪ hf) clk cnt).
Proof. done. Qed.
Global Instance tk_absorbing k {A} (m : M T A) : Absorbing (tk k m).
Proof.
  rewrite /Absorbing /bi_absorbingly. split; intros h (h1&h2&->&Hd&_&Hk)%sep_holds.
  rewrite tk_holds in Hk. rewrite tk_holds. intros hf clk cnt Hd' Ha. apply map_disjoint_union_l in Hd' as [Hd1 Hd2].
  specialize (Hk (h1 ∪ hf) clk cnt). rewrite assoc_L (map_union_comm h2 h1) in Hk; [|done]. apply Hk; [|done].
  apply map_disjoint_union_r. by split.
Qed.
Lemma tk_mono j k {A} (m : M T A) : j ≤ k → tk j m ⊢ tk k m.
Proof.
  intros Hjk. split; intros h. rewrite !tk_holds. intros H hf clk cnt Hd Ha. eapply runs_mono; [by apply H|done].
Qed.
Lemma tk_any k {A} (m : M T A) P : any k m → P ⊢ tk k m.
Proof. intros H. split; intros h _. rewrite tk_holds. intros hf clk cnt _ _. by apply runs_any. Qed.
Lemma tk_bind j k {A B} (m : M T A) (f : A → M T B) :
  eff karr m → tk j m ∧ wp m (λ a, tk k (f a)) (λ _, True) ⊢ tk (j + k) (m ≫= f).
Proof.
  intros He. split; intros h [H1 H2]%and_holds. rewrite tk_holds in H1. rewrite wp_holds in H2. rewrite tk_holds.
  intros hf clk cnt Hd Ha. specialize (H1 hf clk cnt Hd Ha). specialize (H2 hf clk cnt Hd (map_empty_subseteq hf)).
  specialize (He (State (h ∪ hf) clk cnt)). rewrite /runs /mbind /M_bind in H1 |- *. simpl in *.
  destruct (m _) as [a [g clk' cnt']|e st1|f']; [|simpl in *; lia|done].
  destruct H2 as (h' & Hd' & Heq & _ & Hk). simpl in Heq. subst g.
  specialize (Hk hf clk' cnt' Hd'). unfold karr in He. simpl in He. specialize (Hk (He Ha)). rewrite /runs in Hk. simpl in *.
  destruct (f a _); simpl in *; [lia|lia|done].
Qed.
Lemma tk_try j k {A} (m : M T A) (f : exn → M T A) :
  eff karr m → tk j m ∧ wp m (λ _, True) (λ e, tk k (f e)) ⊢ tk (j + k) (try_catch m f).
Proof.
  intros He. split; intros h [H1 H2]%and_holds. rewrite tk_holds in H1. rewrite wp_holds in H2. rewrite tk_holds.
  intros hf clk cnt Hd Ha. specialize (H1 hf clk cnt Hd Ha). specialize (H2 hf clk cnt Hd (map_empty_subseteq hf)).
  specialize (He (State (h ∪ hf) clk cnt)). rewrite /runs /try_catch in H1 |- *. simpl in *.
  destruct (m _) as [a st1|e [g clk' cnt']|f']; [simpl in *; lia| |done].
  destruct H2 as (h' & Hd' & Heq & _ & Hk). simpl in Heq. subst g.
  specialize (Hk hf clk' cnt' Hd'). unfold karr in He. simpl in He. specialize (Hk (He Ha)). rewrite /runs in Hk. simpl in *.
  destruct (f e _); simpl in *; [lia|lia|done].
Qed.
(** a bound that holds wherever the container is *)
Lemma tk_lives k {A} (m : M T A) a l o :
  (∀ st, arrays (st_heap st) → lives (C:=C) (st_heap st) a l o → runs k m st) → seqp a a l o ⊢ tk k m.
Proof.
  intros H. split; intros h Hs. rewrite tk_holds. intros hf clk cnt Hd Ha. apply H; [done|]. simpl.
  eapply seqp_lives; [done|]. by apply map_union_subseteq_l.
Qed.

(** ** The height is logarithmic *)
Definition lg (n : nat) : nat := Nat.log2 n + 4.
Lemma lg_mono n n' : n ≤ n' → lg n ≤ lg n'.
Proof. intros H. rewrite /lg. pose proof (Nat.log2_le_mono _ _ H). lia. Qed.
Lemma height_lg n (h : nat) : height_bound C n h → h ≤ 2 + Nat.log2 n.
Proof.
  intros (E & _ & H2h). destruct (decide (2 ≤ h)) as [Hh|Hh]; [|lia]. specialize (H2h Hh).
  pose proof base_bounds as Hb. pose proof segment_bounds as Hsb.
  assert (2 ^ (h - 2) ≤ base_min ^ (h - 2)) as Hp by (apply Nat.pow_le_mono_l; lia).
  assert (2 ^ (h - 1) ≤ n) as Hl.
  { replace (h - 1) with (S (h - 2)) by lia. rewrite Nat.pow_succ_r'. nia. }
  apply Nat.log2_le_mono in Hl. rewrite Nat.log2_pow2 in Hl; lia.
Qed.
Lemma lives_ht m a l o : lives (C:=C) m a l o →
  ∃ q, m !! l = Some (OSeq q) ∧ s_ht q + 2 ≤ lg (osize o).
Proof.
  intros Ho. destruct o as [t|]; cbn [lives] in Ho.
  - destruct Ho as (h & Hw & _ & Hm & _). eexists. split; [done|]. cbn [s_ht].
    pose proof (height_lg _ _ (wfroot_height_bound _ _ Hw)). rewrite /lg. change (osize (Some t)) with (tsize t). lia.
  - eexists. split; [done|]. cbn [s_ht]. rewrite /lg. lia.
Qed.
Lemma lives_chain m a l o e pos : lives (C:=C) m a l o → at_oseg o e pos →
  ∃ d, chain m (lf_ptr (e_leaf e)) d ∧ d + 3 ≤ lg (osize o).
Proof.
  intros Ho He. destruct o as [t|]; cbn [lives at_oseg] in *.
  - destruct Ho as (h & Hw & _ & Hm & Hst). pose proof (height_lg _ _ (wfroot_height_bound _ _ Hw)) as Hlg.
    destruct He as (c & l0 & xs & -> & Hseg & Hleaf & _).
    destruct (stored_chain _ _ _ _ _ _ _ _ 0 Hst ltac:(constructor)) as [Hc Hh].
    exists (length c + 0). split; [|rewrite /lg; change (osize (Some (plug c (Seg l0 xs)))) with (tsize (plug c (Seg l0 xs))); lia].
    rewrite Hleaf /=. destruct c as [|[[k L] R] c]; done.
  - destruct He as [-> ->]. exists 0. split; [constructor|rewrite /lg; lia].
Qed.

(** ** One element: [un] accesses per level at most, times a constant *)
Definition un : nat := segment_max + base_max.
Definition L (n : nat) : nat := un * lg n.
Lemma L_mono n n' : n ≤ n' → L n ≤ L n'.
Proof. intros H. rewrite /L. apply Nat.mul_le_mono_l, lg_mono, H. Qed.
Lemma base_3 : 3 ≤ base_max.
Proof. rewrite /base_max. destruct (3 <? base_fit) eqn:E; [apply Nat.ltb_lt in E|]; lia. Qed.
Lemma climb_L d n : d + 3 ≤ lg n → climb d ≤ 8 * L n.
Proof. intros H. rewrite /climb /up /lv /L /un. pose proof base_3. pose proof segment_max_pos. nia. Qed.
Lemma un_L n : 12 + un ≤ 2 * L n.
Proof. rewrite /L /un /lg. pose proof base_3. pose proof segment_max_pos. nia. Qed.

Lemma runs_same j k {A B} (m : M T A) (f : A → M T B) st :
  look (st_heap st) j m tt_ → (∀ a st', st_heap st' = st_heap st → runs k (f a) st') → runs (j + k) (m ≫= f) st.
Proof.
  intros Hm Hf. specialize (Hm st eq_refl). rewrite /runs /mbind /M_bind. destruct (m st) as [a st1|e st1|]; [|lia|done].
  destruct Hm as (Hs & Hr & _). specialize (Hf a st1 Hs). rewrite /runs in Hf. destruct (f a st1); [lia|lia|done].
Qed.
Lemma look_get (h : heap T) {A} (m : M T A) : any 1 m → eff same m → look h 1 m tt_. Proof. apply look_any. Qed.
Lemma any_get_root l : any (T:=T) 1 (get_root l). Proof. apply any_bind_pure; [apply any_load_seq|]. intros s. apply any_ret. Qed.
Lemma any_get_height l : any (T:=T) 1 (get_height l). Proof. apply any_bind_pure; [apply any_load_seq|]. intros s. apply any_ret. Qed.
(** the height that is read is the height of the container *)
Lemma look_search k l (f : ptr → nat → nat → M T iterator_data) (m : heap T) a o :
  lives (C:=C) m a l o →
  (∀ p n ht, ht + 2 ≤ lg (osize o) → look m k (f p n ht) tt_) →
  look m (3 + k) (p ← get_root l; n ← get_size l; ht ← get_height l; f p n ht) tt_.
Proof.
  intros Ho Hf. destruct (lives_ht _ _ _ _ Ho) as (q & Hq & Hh).
  assert (∀ (A : Type) (g : seqobj → A), look m 1 (s ← load_seq l; mret (g s)) (λ x, x = g q)) as Hg.
  { intros A g [h1 c1 n1] Hs1. cbn in Hs1. subst h1. rewrite /load_seq /load /mbind /M_bind /= Hq /=. split_and!; [done|lia|done]. }
  eapply (look_le _ (1 + (1 + (1 + k)))); [|lia].
  eapply look_bind; [apply (Hg _ s_root)|intros p _]. eapply look_bind; [apply (Hg _ s_size)|intros n _].
  eapply look_bind; [apply (Hg _ s_ht)|intros ht ->]. by apply Hf.
Qed.
Lemma find_L n ht : ht + 2 ≤ lg n → ht * lv + lv ≤ 8 * L n - 3.
Proof. intros H. rewrite /lv /L /un. pose proof base_3. pose proof segment_max_pos. nia. Qed.
Section ops.
Context (a : nat) (this : loc).
Notation seqp := (seqp a a this).
Implicit Types it : iterator_data.

(** searching *)
Ltac search f := intros Ho; match type of Ho with lives _ _ _ ?o => eapply (look_le _ (3 + (8 * L (osize o) - 3)));
  [eapply look_search; [exact Ho|]; intros p n ht Hh; pose proof (find_L _ _ Hh); unfold f;
   apply look_if; [by apply look_ret|]; apply look_then
  |pose proof (un_L (osize o)); lia] end.
Lemma look_find_first m o : lives (C:=C) m a this o → look m (8 * L (osize o)) (find_first this) tt_.
Proof. search @find_first_root. eapply look_le; [apply look_find_first_node|done]. Qed.
Lemma look_find_end m o : lives (C:=C) m a this o → look m (8 * L (osize o)) (find_end this) tt_.
Proof. search @find_end_root. eapply look_le; [apply look_find_end_node|done]. Qed.
Lemma look_find_last m o : lives (C:=C) m a this o → look m (8 * L (osize o)) (find_last this) tt_.
Proof. search @find_last_root. eapply look_le; [apply look_find_last_node|done]. Qed.
Lemma look_find_index m o pos : lives (C:=C) m a this o → look m (8 * L (osize o)) (find_index this pos) tt_.
Proof. search @find_index_root. eapply look_le; [apply look_find_index_node|done]. Qed.
Ltac looks H := apply tk_lives; intros st Ha Ho; eapply look_runs, H; done.
Lemma tk_find_first o : seqp o ⊢ tk (8 * L (osize o)) (find_first this). Proof. looks look_find_first. Qed.
Lemma tk_find_end o : seqp o ⊢ tk (8 * L (osize o)) (find_end this). Proof. looks look_find_end. Qed.
Lemma tk_find_last o : seqp o ⊢ tk (8 * L (osize o)) (find_last this). Proof. looks look_find_last. Qed.
Lemma tk_find_index o pos : seqp o ⊢ tk (8 * L (osize o)) (find_index this pos). Proof. looks look_find_index. Qed.

(** moving *)
Ltac walk_ H := intros Hit; apply tk_lives; intros st Ha Ho;
  destruct (lives_chain _ _ _ _ _ _ Ho Hit) as (d & Hd & Hl);
  eapply look_runs, look_le; [eapply H; done|by apply climb_L].
Lemma tk_move_next_leaf o e pos : at_oseg o e pos → seqp o ⊢ tk (8 * L (osize o)) (move_next_leaf e).
Proof. walk_ look_move_next_leaf. Qed.
Lemma tk_move_next o it : it_ok o it → seqp o ⊢ tk (8 * L (osize o)) (move_next_iterator it).
Proof. intros Hit%it_ok_oseg. revert Hit. walk_ look_move_next. Qed.
Lemma tk_move_prev o it : it_ok o it → seqp o ⊢ tk (8 * L (osize o)) (move_prev_iterator it).
Proof. intros Hit%it_ok_oseg. revert Hit. walk_ look_move_prev. Qed.
Lemma tk_move_count o it z : it_ok o it → seqp o ⊢ tk (8 * L (osize o)) (move_iterator_count it z).
Proof. intros Hit%it_ok_oseg. revert Hit. walk_ look_move_count. Qed.
Lemma look_move_prev_count h it k d :
  arrays h → chain h (lf_ptr (e_leaf (i_entry it))) d → look h (climb d) (move_prev_iterator_count it k) tt_.
Proof. intros. apply look_then. by apply look_move_prev_segment_count. Qed.
Lemma tk_move_prev_count o it k : it_ok o it → seqp o ⊢ tk (8 * L (osize o)) (move_prev_iterator_count it k).
Proof. intros Hit%it_ok_oseg. revert Hit. walk_ look_move_prev_count. Qed.

(** inserting and erasing *)
Lemma lives_inv st o : arrays (st_heap st) → lives (C:=C) (st_heap st) a this o → inv this (lg (osize o) - 2) st.
Proof.
  intros Ha Ho. destruct (lives_ht _ _ _ _ Ho) as (q & Hq & Hh). split; [done|]. exists q. split; [done|lia].
Qed.
Lemma ends_runs D X k {A} (m : M T A) st : ends this D X k m → inv this D st → runs (k + X) m st.
Proof. intros H Hi. specialize (H st Hi). rewrite /runs. destruct (m st); [lia|lia|done]. Qed.
Lemma cost_make_value D X s : cost this D X 3 (make_value s).
Proof.
  assert (∀ p i, cost this D X 1 (read_slot p i)) as Hrd.
  { intros p i. eapply cost_mono; [eapply cost_bind; [apply cost_slot|intros [v|]]|]; [apply cost_ret|apply cost_fail|done]. }
  destruct s as [v|p i|p i]; unfold make_value.
  - eapply cost_mono; [eapply cost_bind; [apply cost_user_tick|intros _; apply cost_ret]|lia].
  - eapply cost_mono; [eapply cost_bind; [apply Hrd|intros ?]; eapply cost_bind; [apply cost_user_tick|intros _; apply cost_ret]|lia].
  - eapply cost_mono; [eapply cost_bind; [apply Hrd|intros ?]; eapply cost_bind; [apply cost_move_tick|intros _];
      eapply cost_bind; [apply cost_set_slot|intros _; apply cost_ret]|lia].
Qed.
Lemma ends_emplace_single D it s :
  ends this D (cleanup D) (walk D + 30 * segment_max + 20 * base_max + 16 * (D + 2) + 103) (emplace_single this it s).
Proof.
  unfold emplace_single, insert_single_iterator.
  eapply ends_mono; [eapply ends_bind; [apply cost_make_value|intros v]; eapply ends_bind; [apply cost_move_tick|intros _];
    eapply ends_ret, ends_insert_single_segment|lia].
Qed.
Lemma emplace_L D n : D + 2 = lg n →
  walk D + 30 * segment_max + 20 * base_max + 16 * (D + 2) + 103 + cleanup D ≤ 64 * L n.
Proof.
  intros H. rewrite /walk /cleanup /L /un H. pose proof base_3. pose proof segment_max_pos.
  assert (4 ≤ lg n) by (rewrite /lg; lia). nia.
Qed.
Lemma runs_emplace_single st o it s :
  arrays (st_heap st) → lives (C:=C) (st_heap st) a this o → runs (64 * L (osize o)) (emplace_single this it s) st.
Proof.
  intros Ha Ho. eapply runs_mono; [eapply ends_runs; [apply ends_emplace_single|by apply lives_inv]|].
  apply emplace_L. rewrite /lg. lia.
Qed.
Lemma tk_emplace_single o it s : seqp o ⊢ tk (64 * L (osize o)) (emplace_single this it s).
Proof. apply tk_lives. intros. by apply runs_emplace_single. Qed.
Lemma erase_L D n : D + 2 = lg n →
  walk D + 30 * segment_max + 20 * base_max + 8 * (D + 2) + 100 + cleanup D ≤ 56 * L n.
Proof.
  intros H. rewrite /walk /cleanup /L /un H. pose proof base_3. pose proof segment_max_pos.
  assert (4 ≤ lg n) by (rewrite /lg; lia). nia.
Qed.
Lemma tk_erase_single_segment o e : seqp o ⊢ tk (56 * L (osize o)) (erase_single_segment this e).
Proof.
  apply tk_lives. intros st Ha Ho. eapply runs_mono; [eapply ends_runs; [apply ends_erase_single_segment|by apply lives_inv]|].
  apply erase_L. rewrite /lg. lia.
Qed.
End ops.
End tk.
