(** * C15-C17, C19, C38-C41: the shape of containers in memory, ownership *)
From Verif Require Export PropsBasic.
From stdpp Require Import options.
Set Default Proof Using "Type*".

(** block [k] is [d] levels below block [l] *)
Inductive below {T} (m : heap T) : loc → nat → loc → Prop :=
  | below_here l : below m l 0 l
  | below_child l al nd cs s q d k :
      m !! l = Some (ONode al nd) → children nd = Some cs → (s, q) ∈ cs → below m q d k → below m l (S d) k.

(** ** Subtrees *)
Section subtree.
Context {T : Type} {C : cfg T}.
Implicit Types t u : tree T.
Inductive subtree u : tree T → Prop :=
  | sub_refl : subtree u u
  | sub_step l ts t : t ∈ ts → subtree u t → subtree u (Nd l ts).
Lemma tnodes_subtree t k : k ∈ tnodes t → ∃ ts, subtree (Nd k ts) t.
Proof.
  induction t as [l xs|l ts IH] using tree_ind'; cbn [tnodes]; [by intros ?%elem_of_nil|].
  intros [->|Hk]%elem_of_cons; [by exists ts; constructor|].
  apply elem_of_list_In, in_concat in Hk as (ks & Hks & Hk). apply elem_of_list_In in Hks, Hk.
  apply elem_of_list_fmap in Hks as (t & -> & Ht). rewrite Forall_forall in IH.
  destruct (IH t Ht Hk) as [us Hu]. exists us. by econstructor.
Qed.
Lemma tsegs_subtree t s : s ∈ tsegs t → subtree (Seg s.1 s.2) t.
Proof.
  induction t as [l xs|l ts IH] using tree_ind'; cbn [tsegs].
  - intros ->%elem_of_list_singleton. constructor.
  - intros Hk. apply elem_of_list_In, in_concat in Hk as (ks & Hks & Hk). apply elem_of_list_In in Hks, Hk.
    apply elem_of_list_fmap in Hks as (t & -> & Ht). rewrite Forall_forall in IH. econstructor; [done|by apply IH].
Qed.
Lemma stored_subtree ea na m h p i t u :
  stored (C:=C) ea na m h p i t → subtree u t →
  ∃ h' p' i', stored (C:=C) ea na m h' p' i' u ∧ (u = t ∧ h' = h ∧ p' = p ∧ i' = i ∨ h' < h ∧ ∃ j, i' = Some j ∧ j < base_max).
Proof.
  intros Hs Hu. revert h p i Hs. induction Hu as [|l ts t Ht Hu IH]; intros h p i Hs.
  - exists h, p, i. split; [done|by left].
  - destruct h as [|h]; [done|]. cbn [stored] in Hs. destruct Hs as (Hh & (junk & Hj & _) & Hk).
    apply elem_of_list_lookup in Ht as [j Hj']. pose proof (lookup_lt_Some _ _ _ Hj') as Hlt.
    destruct (IH _ _ _ (Hk _ _ Hj')) as (h' & p' & i' & Hs' & [(-> & -> & -> & ->)|[Hlt' ?]]).
    + exists h, (Some (Some l)), (Some j). split; [done|]. right. split; [lia|]. exists j. split; [done|lia].
    + exists h', p', i'. split; [done|]. right. split; [lia|done].
Qed.
Lemma subtree_trans t u v : subtree u v → subtree v t → subtree u t.
Proof. intros Hu Hv. induction Hv as [|l ts t Ht Hv IH]; [done|]. by econstructor. Qed.
Lemma stored_parent ea na m h p i t u :
  stored (C:=C) ea na m h p i t → subtree u t →
  u = t ∨ ∃ h' l ts j, subtree (Nd l ts) t ∧ ts !! j = Some u ∧ stored (C:=C) ea na m h' (Some (Some l)) (Some j) u.
Proof.
  intros Hs Hu. revert h p i Hs. induction Hu as [|l ts t Ht Hu IH]; intros h p i Hs; [by left|]. right.
  destruct h as [|h]; [done|]. cbn [stored] in Hs. destruct Hs as (Hh & _ & Hk).
  apply elem_of_list_lookup in Ht as [j Hj].
  destruct (IH _ _ _ (Hk _ _ Hj)) as [->|(h' & l' & ts' & j' & Hs' & Hj' & Hst')].
  - exists h, l, ts, j. split_and!; [constructor|done|by apply Hk].
  - exists h', l', ts', j'. split_and!; [|done|done]. econstructor; [by eapply elem_of_list_lookup_2|done].
Qed.
Lemma wft_subtree h t u : wft h t → subtree u t → ∃ h', wft h' u.
Proof.
  intros Hw Hu. revert h Hw. induction Hu as [|l ts t Ht Hu IH]; intros h Hw; [by exists h|].
  destruct h as [|h]; [done|]. cbn [wft] in Hw. destruct Hw as (_ & _ & Hf). rewrite Forall_forall in Hf. by eapply IH, Hf.
Qed.
Lemma wfroot_subtree h t u : wfroot h t → subtree u t → u = t ∨ ∃ h', wft h' u.
Proof.
  intros Hw Hu. destruct Hu as [|l ts t Ht Hu]; [by left|]. right.
  destruct h as [|h]; [done|]. cbn [wfroot] in Hw. destruct Hw as (_ & _ & Hf). rewrite Forall_forall in Hf.
  by eapply wft_subtree; [apply Hf|].
Qed.
Lemma subtree_segs t u : subtree u t → ∃ S1 S2, tsegs t = S1 ++ tsegs u ++ S2.
Proof.
  induction 1 as [|l ts t Ht Hu (S1 & S2 & IH)]; [exists [], []; by rewrite right_id_L|].
  apply elem_of_list_split in Ht as (L & R & ->). cbn [tsegs]. rewrite fmap_app concat_app /= IH.
  exists (concat (tsegs <$> L) ++ S1), (S2 ++ concat (tsegs <$> R)). by rewrite -!assoc_L.
Qed.
Lemma stored_below ea na m h p i t d k :
  stored (C:=C) ea na m h p i t → below m (tloc t) d k →
  d < h ∧ (d + 1 = h → k ∈ (tsegs t).*1) ∧ (d + 1 < h → k ∈ tnodes t).
Proof.
  revert p i t d k. induction h as [|h IH]; intros p i t d k Hs Hb; [done|].
  destruct t as [l xs|l ts]; cbn [stored tloc tsegs tnodes] in *.
  - destruct Hs as (-> & junk & _ & _ & Hl). inversion Hb; simplify_eq.
    split_and!; [lia| |lia]. intros _. by apply elem_of_list_singleton.
  - destruct Hs as (Hh & (junk & Hj & Hl) & Hk). inversion Hb as [|? al nd cs s q d' ? Hl' Hc Hin Hb']; simplify_eq.
    + split_and!; [lia|lia|]. intros _. by left.
    + rewrite children_stored in Hc. injection Hc as <-.
      apply elem_of_list_fmap in Hin as (t & [= -> ->] & Ht). pose proof Ht as Ht'.
      apply elem_of_list_lookup in Ht as [j Hj'].
      destruct (IH _ _ _ _ _ (Hk _ _ Hj') Hb') as (H1 & H2 & H3). split_and!; [lia| |].
      * intros E. assert (k ∈ (tsegs t).*1) as Hin by (apply H2; lia).
        apply elem_of_list_fmap in Hin as (y & -> & Hy). apply elem_of_list_fmap_1.
        eapply elem_of_concat; [done|]. by apply elem_of_list_fmap_1.
      * intros E. right. eapply elem_of_concat; [apply H3; lia|]. by apply elem_of_list_fmap_1.
Qed.
End subtree.

Section props.
Context {T : Type} {C : cfg T} {OK : cfg_ok C}.
Implicit Types σ : sst T.
Implicit Types ρ : env.
Implicit Types st : state T.
Implicit Types c : cmd T.
Implicit Types xs ys : list T.
Notation reachable := (reachable C).
Notation reached := (reached C).
Notation iterator_at := (iterator_at C).
Notation answers := (answers C).
Notation exec := (exec (C:=C)).

Lemma reached_lives ρ st x xs a : reached ρ st → container_at st ρ x = Some (xs, a) →
  ∃ o l, e_cont ρ !! x = Some l ∧ lives (C:=C) (st_heap st) a l o ∧ oelems o = xs.
Proof. intros [σ Hr%reachable_R] Hc. by destruct (R_lives _ _ _ _ _ _ Hr Hc) as [_ ?]. Qed.
Lemma reached_segments ρ st x xs a : reached ρ st → container_at st ρ x = Some (xs, a) →
  ∃ ss, segments st ρ x = Some ss ∧ concat ss.*2 = xs.
Proof.
  intros Hr Hc. destruct (reached_lives _ _ _ _ _ Hr Hc) as (o & l & Hl & Ho & <-). exists (osegs o).
  split; [by eapply lives_segments|apply osegs_elems].
Qed.

Lemma reached_owns ρ st x xs a :
  reached ρ st → container_at st ρ x = Some (xs, a) →
  ∃ o l, e_cont ρ !! x = Some l ∧ lives (C:=C) (st_heap st) a l o ∧ oelems o = xs ∧ NoDup (l :: olocs o) ∧
    ∀ y l' k, y ≠ x → is_Some (container_at st ρ y) → e_cont ρ !! y = Some l' →
      k = l' ∨ k ∈ blocks_of st ρ y → k ∉ l :: olocs o.
Proof.
  intros [σ Hr] Hc. pose proof (reachable_R _ _ _ Hr) as HR. apply R_open in HR as (τ & Ha & Hrep).
  pose proof (reachable_conts _ _ _ x Hr) as Hx. rewrite Hc (abs_conts _ _ _ Ha) cells_lookup in Hx.
  destruct (τ !! x) as [[o a']|] eqn:Hτ; [|done]. simpl in Hx. injection Hx as <- ->.
  destruct (rep_lives _ _ _ _ _ _ Hrep Hτ) as (l & Hl & Ho). exists o, l.
  pose proof Hrep as Hrep0.
  apply (hprop_in_entails _ _ (bi.equiv_entails_1_1 _ _ (rep_take _ _ _ _ _ _ Hτ Hl))) in Hrep.
  pose proof (fp_sep _ _ _ _ (seqp_fp a l o) (rep_fp ρ (delete x τ)) _ Hrep) as [Hnd _].
  apply NoDup_app in Hnd as (Hnd & Hdj & _). split_and!; [done..|].
  intros y l' k Hne [[ys b] Hy] Hl' Hk Hin. apply (Hdj _ Hin).
  pose proof (reachable_conts _ _ _ y Hr) as Hcy. rewrite Hy (abs_conts _ _ _ Ha) cells_lookup in Hcy.
  destruct (τ !! y) as [[o' b']|] eqn:Hτy; [|done]. simpl in Hcy. injection Hcy as <- ->.
  assert (k ∈ clocs ρ y o') as Hk'.
  { rewrite /clocs Hl' /=. destruct Hk as [->|Hk]; [left|right].
    destruct (reached_lives ρ st y _ _ (ex_intro _ σ Hr) Hy) as (o2 & l2 & Hl2 & Ho2 & _).
    rewrite Hl' in Hl2. injection Hl2 as <-.
    destruct (rep_lives _ _ _ _ _ _ Hrep0 Hτy) as (l3 & Hl3 & Ho3). rewrite Hl' in Hl3. injection Hl3 as <-.
    destruct (lives_det _ _ _ _ _ _ Ho2 Ho3) as [-> _]. by rewrite -(lives_blocks _ _ _ _ _ _ Hl' Ho3). }
  rewrite /all_locs. eapply elem_of_concat; [done|]. apply elem_of_list_fmap. exists (y, (o', b)).
  split; [done|]. apply elem_of_map_to_list. by rewrite lookup_delete_ne.
Qed.
Lemma reached_dom ρ st k :
  reached ρ st → is_Some (st_heap st !! k) →
  ∃ x xs a l, container_at st ρ x = Some (xs, a) ∧ e_cont ρ !! x = Some l ∧ (k = l ∨ k ∈ blocks_of st ρ x).
Proof.
  intros [σ Hr] Hk. pose proof (reachable_R _ _ _ Hr) as HR. apply R_open in HR as (τ & Ha & Hrep).
  pose proof (rep_fp ρ τ _ Hrep) as [_ Hdom]. apply elem_of_dom in Hk. rewrite Hdom in Hk.
  apply elem_of_list_to_set in Hk. rewrite /all_locs in Hk.
  apply elem_of_list_In, in_concat in Hk as (ks & Hks & Hk). apply elem_of_list_In in Hks, Hk.
  apply elem_of_list_fmap in Hks as ([x [o a]] & -> & Hx). apply elem_of_map_to_list in Hx.
  destruct (rep_lives _ _ _ _ _ _ Hrep Hx) as (l & Hl & Ho).
  exists x, (oelems o), a, l. split_and!; [by eapply lives_container|done|].
  rewrite /clocs Hl /= in Hk. apply elem_of_cons in Hk as [->|Hk]; [by left|right].
  by rewrite (lives_blocks _ _ _ _ _ _ Hl Ho).
Qed.
Lemma exec_height ρ st x s l :
  e_cont ρ !! x = Some l → st_heap st !! l = Some (OSeq s) → answers st ρ (Height x) (ONat (s_ht s)).
Proof.
  intros Hl Hm. eexists. split.
  - rewrite /Exec.exec /try_catch. cbn [exec_call]. rewrite /getc /lookup_var Hl /done_ /height_ /get_height /load_seq /load.
    rewrite /mbind /M_bind /mret /M_ret /=. rewrite Hm /=. reflexivity.
  - done.
Qed.

Lemma reached_container ρ st x s : reached ρ st → seq_at st ρ x = Some s → ∃ xs a, container_at st ρ x = Some (xs, a).
Proof.
  intros [σ Hr] Hs. pose proof (reachable_R _ _ _ Hr) as HR. apply R_open in HR as (τ & Ha & Hrep).
  rewrite /seq_at in Hs. destruct (e_cont ρ !! x) as [l|] eqn:Hl; [|done].
  destruct (proj2 (abs_env _ _ _ Ha x) ltac:(eauto)) as [[o a] Hx].
  destruct (rep_lives _ _ _ _ _ _ Hrep Hx) as (l' & Hl' & Ho). by eapply ex_intro, ex_intro, lives_container.
Qed.

(** ** C15: the height *)
Theorem C15_height ρ st x xs a :
  reached ρ st → container_at st ρ x = Some (xs, a) →
  ∃ h, answers st ρ (Height x) (ONat h) ∧
    (h = 0 ↔ xs = []) ∧
    (2 ≤ h → 2 * segment_min * base_min ^ (h - 2) ≤ length xs) ∧
    (length xs ≤ segment_max * base_max ^ (h - 1)) ∧
    h ≤ 2 + Nat.log2 (length xs).
Proof.
  intros [σ Hr] Hc. pose proof (see _ _ _ _ _ _ Hr Hc) as Hcs. visible Hcs.
  destruct (query σ ρ st (Height x)) as (o & σ' & [(h & -> & H0h & H1h & H2h) _] & Ha); [done..|].
  rewrite H in H0h H1h H2h. exists h.
  assert (h = 0 ↔ xs = []) as E by (rewrite H0h; destruct xs; simpl; split; done || lia).
  split_and!; [done|done| | |].
  - intros Hh. specialize (H2h Hh). lia.
  - destruct h as [|h]; [|apply H1h; lia]. rewrite (proj1 E) //. simpl. lia.
  - destruct (decide (2 ≤ h)) as [Hh|Hh]; [|lia]. specialize (H2h Hh).
    pose proof base_bounds as Hb. pose proof segment_bounds as Hsb.
    assert (2 ^ (h - 2) ≤ base_min ^ (h - 2)) as Hp by (apply Nat.pow_le_mono_l; lia).
    assert (2 ^ (h - 1) ≤ length xs) as Hl.
    { replace (h - 1) with (S (h - 2)) by lia. rewrite Nat.pow_succ_r'. nia. }
    apply Nat.log2_le_mono in Hl. rewrite Nat.log2_pow2 in Hl; lia.
Qed.
(** all segments are at the same depth, [height() - 1] *)
Theorem C15_depth ρ st x s r ss :
  reached ρ st → seq_at st ρ x = Some s → s_root s = Some r → segments st ρ x = Some ss →
  answers st ρ (Height x) (ONat (s_ht s)) ∧
  ∀ d k, below (st_heap st) r d k →
    d < s_ht s ∧ (k ∈ ss.*1 ↔ d + 1 = s_ht s) ∧ (k ∈ index_nodes st ρ x ↔ d + 1 < s_ht s).
Proof.
  intros Hr Hs Hroot Hss.
  assert (∃ xs a, container_at st ρ x = Some (xs, a)) as (xs & a & Hc).
  { rewrite /container_at Hs Hss /=. by eauto. }
  destruct (reached_lives _ _ _ _ _ Hr Hc) as (o & l & Hl & Ho & <-).
  pose proof (lives_seq _ _ _ _ _ _ Hl Ho) as Hs'. rewrite Hs in Hs'. injection Hs' as ->. simpl in *.
  pose proof (lives_segments _ _ _ _ _ _ Hl Ho) as Hss'. rewrite Hss in Hss'. injection Hss' as ->.
  rewrite (lives_nodes _ _ _ _ _ _ Hl Ho).
  destruct o as [t|]; [|done]. simpl in Hroot. injection Hroot as <-. split.
  - destruct Ho as (h' & Hw & _ & Hm & _). pose proof (exec_height _ _ _ _ _ Hl Hm) as Hx. simpl in Hx.
    cbn [oheight]. by rewrite (wfroot_theight _ _ Hw).
  - intros d k Hb. pose proof Ho as Ho1. destruct Ho as (h' & Hw & _ & Hm & Hst).
    assert (oheight (Some t) = h') as Hh by by apply wfroot_theight.
    rewrite Hh. destruct (stored_below _ _ _ _ _ _ _ _ _ Hst Hb) as (H1 & H2 & H3).
    assert (NoDup (tnodes t ++ (tsegs t).*1)) as Hnd.
    { destruct (reached_owns _ _ _ _ _ Hr Hc) as (o' & l' & Hl' & Ho' & _ & Hnd & _).
      rewrite Hl in Hl'. injection Hl' as <-.
      destruct (lives_det _ _ _ _ _ _ Ho1 Ho') as [<- _].
      apply NoDup_cons in Hnd as [_ Hnd]. by rewrite -tlocs_split. }
    apply NoDup_app in Hnd as (_ & Hdj & _). split_and!; [done| |].
    + split; [|done]. intros Hk. destruct (decide (d + 1 = h')) as [|Hn]; [done|]. exfalso.
      eapply Hdj; [apply H3; lia|done].
    + split; [|done]. intros Hk. destruct (decide (d + 1 < h')) as [|Hn]; [done|]. exfalso.
      eapply Hdj; [done|]. apply H2. lia.
Qed.

(** ** C16: occupancy *)
Theorem C16_segments ρ st x ss :
  reached ρ st → segments st ρ x = Some ss →
  ∀ l ys, (l, ys) ∈ ss → 1 ≤ length ys ≤ segment_max ∧ (length ss ≠ 1 → segment_min ≤ length ys).
Proof.
  intros Hr Hss l ys Hin. destruct (seq_at st ρ x) as [s|] eqn:Hs; [|by rewrite /segments Hs in Hss].
  assert (container_at st ρ x = Some (concat ss.*2, s_ealloc s)) as Hc by by rewrite /container_at Hs Hss.
  destruct (reached_lives _ _ _ _ _ Hr Hc) as (o & l0 & Hl & Ho & _).
  pose proof (lives_segments _ _ _ _ _ _ Hl Ho) as Hss'. rewrite Hss in Hss'. injection Hss' as ->.
  destruct o as [t|]; [|by apply elem_of_nil in Hin]. cbn [osegs] in *.
  destruct (lives_wf _ _ _ _ Ho) as (h & Hw). pose proof segment_bounds.
  destruct (wfroot_segs _ _ Hw) as [(s0 & E & Hb)|Hf].
  - rewrite E in Hin |- *. apply elem_of_list_singleton in Hin as <-. simpl in *. split; [lia|done].
  - rewrite Forall_forall in Hf. specialize (Hf _ Hin). rewrite /seg_bounds /= in Hf. lia.
Qed.
Theorem C16_nodes ρ st x s k :
  reached ρ st → seq_at st ρ x = Some s → k ∈ index_nodes st ρ x →
  ∃ al nd cs, st_heap st !! k = Some (ONode al nd) ∧ children nd = Some cs ∧
    2 ≤ length cs ≤ base_max ∧ (s_root s ≠ Some k → base_min ≤ length cs).
Proof.
  intros Hr Hs Hk.
  destruct (reached_container _ _ _ _ Hr Hs) as (xs & a & Hc).
  destruct (reached_lives _ _ _ _ _ Hr Hc) as (o & l & Hl & Ho & <-).
  rewrite (lives_nodes _ _ _ _ _ _ Hl Ho) in Hk. destruct o as [t|]; [|by apply elem_of_nil in Hk].
  pose proof (lives_seq _ _ _ _ _ _ Hl Ho) as Hs'. rewrite Hs in Hs'. injection Hs' as ->. cbn [s_root onodes] in *.
  destruct Ho as (h & Hw & _ & _ & Hst). destruct (tnodes_subtree _ _ Hk) as [ts Hsub].
  destruct (stored_subtree _ _ _ _ _ _ _ _ Hst Hsub) as (h' & p' & i' & Hst' & _).
  destruct h' as [|h']; [done|]. cbn [stored] in Hst'. destruct Hst' as (_ & (junk & Hj & Hm) & _).
  eexists _, _, _. split; [done|]. split; [apply children_stored|]. rewrite fmap_length.
  pose proof base_bounds. destruct (wfroot_subtree _ _ _ Hw Hsub) as [<-|(h2 & Hw2)].
  - destruct h as [|h]; [done|]. cbn [wfroot] in Hw. split; [lia|]. intros Hn. by destruct Hn.
  - destruct h2 as [|h2]; [done|]. cbn [wft] in Hw2. split; [lia|]. intros _. lia.
Qed.

(** ** C17: memory overhead *)
Theorem C17_overhead ρ st x xs a ss :
  reached ρ st → container_at st ρ x = Some (xs, a) → segments st ρ x = Some ss →
  length ss ≤ Nat.max 1 (length xs / segment_min) ∧
  length ss * segment_max ≤ Nat.max segment_max (2 * length xs) ∧
  (xs ≠ [] → length (index_nodes st ρ x) < length ss) ∧
  (xs = [] → blocks_of st ρ x = []).
Proof.
  intros Hr Hc Hss. destruct (reached_lives _ _ _ _ _ Hr Hc) as (o & l & Hl & Ho & <-).
  pose proof (lives_segments _ _ _ _ _ _ Hl Ho) as Hss'. rewrite Hss in Hss'. injection Hss' as ->.
  rewrite /blocks_of Hss (lives_nodes _ _ _ _ _ _ Hl Ho). pose proof segment_bounds.
  destruct o as [t|]; cbn [osegs onodes oelems].
  - destruct (lives_wf _ _ _ _ Ho) as (h & Hw). destruct (wfroot_counts _ _ Hw) as (Hs & H1 & Hn).
    pose proof (wfroot_tsize _ _ Hw) as Hpos. rewrite /tsize in Hpos, Hs. split_and!.
    + destruct Hs as [->|Hs]; [lia|]. apply Nat.max_le_iff. right. apply Nat.div_le_lower_bound; lia.
    + destruct Hs as [->|Hs]; [lia|]. apply Nat.max_le_iff. right. nia.
    + done.
    + intros E. rewrite E in Hpos. simpl in Hpos. lia.
  - split_and!; simpl; [lia|lia|done|done].
Qed.

(** ** C19: every block of memory belongs to exactly one live container, and was
    obtained from that container's allocator *)
Theorem C19_inventory ρ st k :
  reached ρ st →
  is_Some (st_heap st !! k) ↔
  ∃ x, is_Some (container_at st ρ x) ∧ (e_cont ρ !! x = Some k ∨ k ∈ blocks_of st ρ x).
Proof.
  intros Hr. split.
  - intros Hk. destruct (reached_dom _ _ _ Hr Hk) as (x & xs & a & l & Hc & Hl & Hx).
    exists x. split; [by rewrite Hc|]. destruct Hx as [->|Hx]; [by left|by right].
  - intros (x & [[xs a] Hc] & Hk). destruct Hr as [σ Hr]. pose proof (reachable_R _ _ _ Hr) as HR.
    destruct (R_lives _ _ _ _ _ _ HR Hc) as (Hcs & o & l & Hl & Ho & Hxs). apply R_open in HR as (τ & Ha & Hrep).
    pose proof (rep_fp ρ τ _ Hrep) as [_ Hdom]. apply elem_of_dom. rewrite Hdom.
    apply elem_of_list_to_set. rewrite (abs_conts _ _ _ Ha) cells_lookup in Hcs.
    destruct (τ !! x) as [[o' a']|] eqn:Hτ; [|done]. simplify_eq/=.
    destruct (rep_lives _ _ _ _ _ _ Hrep Hτ) as (l' & Hl' & Ho'). rewrite Hl in Hl'. injection Hl' as <-.
    destruct (lives_det _ _ _ _ _ _ Ho Ho') as [-> _].
    rewrite /all_locs. eapply elem_of_concat; [|apply elem_of_list_fmap; exists (x, (o', a)); split; [done|by apply elem_of_map_to_list]].
    rewrite /clocs /= Hl /=. destruct Hk as [Hk|Hk].
    + rewrite Hl in Hk. injection Hk as <-. left.
    + right. by rewrite -(lives_blocks _ _ _ _ _ _ Hl Ho).
Qed.
Theorem C19_ownership ρ st x xs a l :
  reached ρ st → container_at st ρ x = Some (xs, a) → e_cont ρ !! x = Some l →
  NoDup (l :: blocks_of st ρ x) ∧
  (∀ y l' k, y ≠ x → is_Some (container_at st ρ y) → e_cont ρ !! y = Some l' →
     k = l' ∨ k ∈ blocks_of st ρ y → k ∉ l :: blocks_of st ρ x) ∧
  (∃ s, st_heap st !! l = Some (OSeq s) ∧ s_ealloc s = a ∧ s_nalloc s = a) ∧
  (∀ k, k ∈ index_nodes st ρ x → ∃ nd, st_heap st !! k = Some (ONode a nd)) ∧
  (∀ k, k ∈ (default [] (segments st ρ x)).*1 → ∃ slots, st_heap st !! k = Some (OSeg a slots)).
Proof.
  intros Hr Hc Hl. destruct (reached_owns _ _ _ _ _ Hr Hc) as (o & l0 & Hl0 & Ho & <- & Hnd & Hdj).
  rewrite Hl in Hl0. injection Hl0 as <-.
  pose proof (lives_blocks _ _ _ _ _ _ Hl Ho) as Hbl.
  split_and!.
  - by rewrite Hbl.
  - intros y l' k Hne Hy Hl' Hk. rewrite Hbl. by eapply Hdj.
  - destruct o as [t|]; [destruct Ho as (h & _ & _ & Hm & _)|]; by eexists.
  - intros k Hk. rewrite (lives_nodes _ _ _ _ _ _ Hl Ho) in Hk. destruct o as [t|]; [|by apply elem_of_nil in Hk].
    destruct Ho as (h & Hw & _ & _ & Hst). destruct (tnodes_subtree _ _ Hk) as [ts Hsub].
    destruct (stored_subtree _ _ _ _ _ _ _ _ Hst Hsub) as (h' & p' & i' & Hst' & _).
    destruct h' as [|h']; [done|]. cbn [stored] in Hst'. destruct Hst' as (_ & (junk & _ & Hm) & _). by eexists.
  - intros k Hk. rewrite (lives_segments _ _ _ _ _ _ Hl Ho) /= in Hk. destruct o as [t|]; [|by apply elem_of_nil in Hk].
    apply elem_of_list_fmap in Hk as (s & -> & Hs). destruct Ho as (h & Hw & _ & _ & Hst).
    pose proof (tsegs_subtree _ _ Hs) as Hsub.
    destruct (stored_subtree _ _ _ _ _ _ _ _ Hst Hsub) as (h' & p' & i' & Hst' & _).
    destruct h' as [|h']; [done|]. cbn [stored] in Hst'. destruct Hst' as (_ & junk & _ & _ & Hm). by eexists.
Qed.
(** once every container is destroyed no memory is left *)
Theorem C19_no_leak ρ st :
  reached ρ st → (∀ x, container_at st ρ x = None) → st_heap st = ∅.
Proof.
  intros Hr Hn. apply map_empty. intros k. destruct (st_heap st !! k) eqn:E; [|done]. exfalso.
  destruct (proj1 (C19_inventory ρ st k Hr)) as (x & [? Hx] & _); [by rewrite E|]. by rewrite Hn in Hx.
Qed.
(** ~seq releases everything the container owns *)
Theorem C19_destroy ρ st x xs a l :
  reached ρ st → container_at st ρ x = Some (xs, a) → e_cont ρ !! x = Some l → (xs = [] → c_null_free C = true) →
  ∃ ρ' st', exec (Destroy x) ρ st = Ok (OUnit, ρ') st' ∧ reached ρ' st' ∧ container_at st' ρ' x = None ∧
    (∀ y, y ≠ x → container_at st' ρ' y = container_at st ρ y) ∧
    (∀ k, k = l ∨ k ∈ blocks_of st ρ x → st_heap st' !! k = None).
Proof.
  intros [σ Hr] Hc Hl Hp. pose proof (see _ _ _ _ _ _ Hr Hc) as Hcs. visible Hcs.
  assert (pre C σ (Destroy x)) as Hpre by (split; [done|]; rewrite H; done).
  destruct (call_ok σ ρ st (Destroy x) Hr Hpre) as (o & ρ' & st' & σ' & He & [-> ->] & Hr').
  exists ρ', st'. split_and!; [done|by eexists| | |].
  - eapply show; [done|]. by rewrite /= lookup_delete.
  - intros y Hy. rewrite -(reachable_conts _ _ _ y Hr) -(reachable_conts _ _ _ y Hr') /=. by rewrite lookup_delete_ne.
  - intros k Hk. destruct (st_heap st' !! k) as [b|] eqn:E; [|done]. exfalso.
    destruct (reached_dom ρ' st' k) as (y & ys & b' & l' & Hcy & Hl' & Hky); [by eexists|by rewrite E|].
    assert (y ≠ x) as Hne.
    { intros ->. rewrite -(reachable_conts _ _ _ x Hr') /= lookup_delete in Hcy. done. }
    assert (container_at st ρ y = Some (ys, b')) as Hcy0.
    { rewrite -Hcy -(reachable_conts _ _ _ y Hr) -(reachable_conts _ _ _ y Hr') /=. by rewrite lookup_delete_ne. }
    destruct (reached_lives ρ st y ys b' (ex_intro _ σ Hr) Hcy0) as (oy & ly & Hly & Hoy & _).
    assert (¬ touches σ (Destroy x) y) as Ht.
    { intros [Hin|(w & p & Hin & _)]; [|by apply elem_of_nil in Hin]. by apply elem_of_list_singleton in Hin. }
    destruct (frame_call _ _ _ _ _ _ _ _ _ _ _ Hr Hpre He Hcy0 Ht Hly) as (Hl2 & _ & o2 & Ho2 & Ho2').
    rewrite Hl' in Hl2. injection Hl2 as ->.
    assert (k = ly ∨ k ∈ blocks_of st ρ y) as Hky0.
    { destruct Hky as [->|Hky]; [by left|right]. rewrite (lives_blocks _ _ _ _ _ _ Hly Ho2).
      by rewrite -(lives_blocks _ _ _ _ _ _ Hl' Ho2'). }
    destruct (C19_ownership ρ st x xs a l (ex_intro _ σ Hr) Hc Hl) as (_ & Hd & _).
    eapply (Hd y ly k Hne); [by rewrite Hcy0|done|done|]. apply elem_of_cons. destruct Hk as [->|Hk]; auto.
Qed.

(** ** C38: lifetimes of the elements.  When T's destructor is not trivial, the
    storage of a container holds exactly its elements: in every segment, the live
    objects are the elements of that segment and the rest is raw storage. *)
Theorem C38_lifetimes ρ st x ss l ys :
  reached ρ st → segments st ρ x = Some ss → (l, ys) ∈ ss →
  ∃ a slots, st_heap st !! l = Some (OSeg a slots) ∧ length slots = segment_max ∧
    take (length ys) slots = Some <$> ys ∧
    (c_triv_destroy C = false → slots = (Some <$> ys) ++ replicate (segment_max - length ys) None).
Proof.
  intros Hr Hss Hin. destruct (seq_at st ρ x) as [s|] eqn:Hs; [|by rewrite /segments Hs in Hss].
  assert (container_at st ρ x = Some (concat ss.*2, s_ealloc s)) as Hc by by rewrite /container_at Hs Hss.
  destruct (reached_lives _ _ _ _ _ Hr Hc) as (o & l0 & Hl & Ho & _).
  pose proof (lives_segments _ _ _ _ _ _ Hl Ho) as Hss'. rewrite Hss in Hss'. injection Hss' as ->.
  destruct o as [t|]; [|by apply elem_of_nil in Hin]. cbn [osegs] in *.
  destruct Ho as (h & Hw & _ & _ & Hst). pose proof (tsegs_subtree _ _ Hin) as Hsub.
  destruct (stored_subtree _ _ _ _ _ _ _ _ Hst Hsub) as (h' & p' & i' & Hst' & _).
  destruct h' as [|h']; [done|]. cbn [stored fst snd] in Hst'. destruct Hst' as (_ & junk & Hj & Hcl & Hm).
  eexists _, _. split_and!; [done| | |].
  - by rewrite app_length fmap_length.
  - by rewrite take_app_alt // fmap_length.
  - intros Htd. f_equal. replace (segment_max - length ys) with (length junk) by lia.
    clear -Hcl Htd. induction Hcl as [|b junk Hb _ IH]; simpl; [done|]. destruct Hb as [Hb| ->]; [congruence|by rewrite -IH].
Qed.
(** the number of live objects in the blocks of a container is its size *)
Definition live_in (b : obj T) : nat := match b with OSeg _ slots => length (omap id slots) | _ => 0 end.
Theorem C38_count ρ st x xs a :
  reached ρ st → container_at st ρ x = Some (xs, a) → c_triv_destroy C = false →
  sum_list_with (λ k, from_option live_in 0 (st_heap st !! k)) (blocks_of st ρ x) = length xs.
Proof.
  intros Hr Hc Htd. destruct (reached_segments _ _ _ _ _ Hr Hc) as (ss & Hss & Hxs).
  assert (∃ l, e_cont ρ !! x = Some l) as [l Hl].
  { destruct (reached_lives _ _ _ _ _ Hr Hc) as (o & l & Hl & _). by exists l. }
  destruct (C19_ownership ρ st x xs a l Hr Hc Hl) as (_ & _ & _ & Hn & _).
  rewrite /blocks_of Hss /= sum_list_with_app.
  assert (sum_list_with (λ k, from_option live_in 0 (st_heap st !! k)) (index_nodes st ρ x) = 0) as ->.
  { revert Hn. generalize (index_nodes st ρ x). intros L. induction L as [|k L IH]; intros Hn; [done|]. simpl.
    rewrite IH; [|intros k' Hk'; apply Hn; by right]. destruct (Hn k) as [nd ->]; [by left|done]. }
  rewrite -Hxs. simpl.
  assert (∀ l ys, (l, ys) ∈ ss → from_option live_in 0 (st_heap st !! l) = length ys) as Hl'.
  { intros k ys Hin. destruct (C38_lifetimes ρ st x ss k ys Hr Hss Hin) as (b & slots & -> & _ & _ & Hs). simpl.
    assert (∀ n, omap id (replicate n (@None T)) = []) as En by (intros n; induction n as [|n IH]; simpl; done).
    rewrite (Hs Htd) omap_app app_length En /=. rewrite Nat.add_0_r. clear. induction ys as [|y ys IH]; simpl; [done|]. by rewrite IH. }
  clear -Hl'. induction ss as [|[k ys] ss IH]; simpl; [done|]. rewrite app_length IH; [|intros; apply Hl'; by right].
  rewrite (Hl' k ys); [done|by left].
Qed.

(** ** C39: 16-bit fields.  Every stored length and parent index is the true one;
    the type cfg_ok asks for is base_max() <= 65535. *)
Theorem C39_fields ρ st x k al nd :
  reached ρ st → k ∈ index_nodes st ρ x → st_heap st !! k = Some (ONode al nd) →
  ∃ cs n i, children nd = Some cs ∧ n_len nd = Some n ∧ n = length cs ∧ n < c_H C ∧
    n_pidx nd = Some i ∧ i < base_max ∧ i < c_H C ∧
    (* the parent index is where the parent has this node *)
    (∀ p, n_parent nd = Some (Some p) → ∃ al' nd' cs' s, st_heap st !! p = Some (ONode al' nd') ∧
       children nd' = Some cs' ∧ cs' !! i = Some (s, k)) ∧
    (* and the children that are index nodes point back *)
    (∀ j s q al' nd', cs !! j = Some (s, q) → st_heap st !! q = Some (ONode al' nd') →
       n_parent nd' = Some (Some k) ∧ n_pidx nd' = Some j).
Proof.
  intros Hr Hk Hm.
  assert (∃ xs a, container_at st ρ x = Some (xs, a)) as (xs & a & Hc).
  { rewrite /index_nodes in Hk. destruct (seq_at st ρ x) as [s|] eqn:Hs; [|by apply elem_of_nil in Hk].
    by eapply reached_container. }
  destruct (reached_lives _ _ _ _ _ Hr Hc) as (o & l & Hl & Ho & <-).
  rewrite (lives_nodes _ _ _ _ _ _ Hl Ho) in Hk. destruct o as [t|]; [|by apply elem_of_nil in Hk].
  cbn [onodes] in *.
  destruct Ho as (h & Hw & _ & _ & Hst). destruct (tnodes_subtree _ _ Hk) as [ts Hsub].
  pose proof base_bounds. pose proof (ok_H C OK) as HH.
  assert (length ts ≤ base_max) as Hlen.
  { destruct (stored_subtree _ _ _ _ _ _ _ _ Hst Hsub) as ([|h'] & p' & i' & Hst' & _); [done|].
    cbn [stored] in Hst'. destruct Hst' as (_ & (junk & Hj & _) & _). lia. }
  assert (∃ h' p i, stored (C:=C) a a (st_heap st) h' p (Some i) (Nd k ts) ∧ i < base_max ∧
    ∀ q, p = Some (Some q) → ∃ ts', subtree (Nd q ts') t ∧ ts' !! i = Some (Nd k ts)) as (h' & p & i & Hst' & Hi & Hpar).
  { destruct (stored_parent _ _ _ _ _ _ _ _ Hst Hsub) as [<-|(h' & q & ts' & j & Hs' & Hj & Hst')].
    - exists h, (Some None), 0. split_and!; [done|lia|done].
    - exists h', (Some (Some q)), j. split_and!; [done| |].
      + destruct (stored_subtree _ _ _ _ _ _ _ _ Hst Hs') as ([|h2] & p2 & i2 & Hst2 & _); [done|].
        cbn [stored] in Hst2. destruct Hst2 as (_ & (junk & Hl2 & _) & _). apply lookup_lt_Some in Hj. lia.
      + intros q' [= <-]. by exists ts'. }
  destruct h' as [|h']; [done|]. cbn [stored] in Hst'. destruct Hst' as (_ & (junk & Hj & Hmk) & Hkids).
  rewrite Hm in Hmk. injection Hmk as -> ->. cbn [n_len n_pidx n_parent].
  exists ((λ t, (tsize t, tloc t)) <$> ts), (length ts), i. split_and!; [apply children_stored|done|by rewrite fmap_length|lia|done|lia|lia| |].
  - intros q Hq. destruct (Hpar q Hq) as (ts' & Hs' & Hi').
    destruct (stored_subtree _ _ _ _ _ _ _ _ Hst Hs') as ([|h2] & p2 & i2 & Hst2 & _); [done|].
    cbn [stored] in Hst2. destruct Hst2 as (_ & (junk2 & _ & Hm2) & _).
    eexists _, _, _, _. split_and!; [done|apply children_stored|]. rewrite list_lookup_fmap Hi'. done.
  - intros j s q al' nd' Hcs Hmq. rewrite list_lookup_fmap in Hcs. destruct (ts !! j) as [u|] eqn:Hu; [|done].
    simpl in Hcs. injection Hcs as <- <-. specialize (Hkids _ _ Hu). destruct h' as [|h']; [done|].
    destruct u as [lu xsu|lu tsu]; cbn [stored tloc] in *.
    + destruct Hkids as (_ & ? & _ & _ & Hmu). rewrite Hmq in Hmu. done.
    + destruct Hkids as (_ & (? & _ & Hmu) & _). rewrite Hmq in Hmu. injection Hmu as -> ->. done.
Qed.

(** ** C40: sizes *)
Theorem C40_sizes ρ st x xs a :
  reached ρ st → container_at st ρ x = Some (xs, a) →
  answers st ρ (GetSize x) (ONat (length xs)) ∧
  ∃ s ss, seq_at st ρ x = Some s ∧ s_size s = length xs ∧ segments st ρ x = Some ss ∧
  ∀ k al nd cs n q, k ∈ index_nodes st ρ x → st_heap st !! k = Some (ONode al nd) → children nd = Some cs → (n, q) ∈ cs →
    ∃ h' S1 ss' S2, ss = S1 ++ ss' ++ S2 ∧ segments_at (st_heap st) h' n q = Some ss' ∧ n = length (concat ss'.*2).
Proof.
  intros Hr Hc. split; [by apply (C07_size ρ st x xs a)|].
  destruct (reached_lives _ _ _ _ _ Hr Hc) as (o & l & Hl & Ho & <-).
  eexists _, _. split_and!; [by eapply lives_seq|done|by eapply lives_segments|].
  intros k al nd cs n q Hk Hm Hcs Hin. rewrite (lives_nodes _ _ _ _ _ _ Hl Ho) in Hk.
  destruct o as [t|]; [|by apply elem_of_nil in Hk]. cbn [onodes osegs] in *.
  destruct Ho as (h & Hw & _ & _ & Hst). destruct (tnodes_subtree _ _ Hk) as [ts Hsub].
  destruct (stored_subtree _ _ _ _ _ _ _ _ Hst Hsub) as ([|h'] & p & i & Hst' & _); [done|].
  cbn [stored] in Hst'. destruct Hst' as (_ & (junk & Hj & Hmk) & Hkids).
  rewrite Hm in Hmk. injection Hmk as -> ->. rewrite children_stored in Hcs. injection Hcs as <-.
  apply elem_of_list_fmap in Hin as (u & [= -> ->] & Hu). pose proof Hu as Hu'. apply elem_of_list_lookup in Hu' as [j Hu'].
  destruct (subtree_segs t u) as (S1 & S2 & E). { eapply subtree_trans; [|done]. econstructor; [done|constructor]. }
  exists h', S1, (tsegs u), S2. split_and!; [done|by eapply stored_segments, Hkids|]. by rewrite tsegs_elems.
Qed.

(** ** C41: independence of containers *)
(** a call does not touch [y] when it does not name it and uses no iterator into it *)
Theorem C41_frame σ ρ st c u ρ' st' y xs a l :
  reachable σ ρ st → pre C σ c → exec c ρ st = Ok (u, ρ') st' →
  container_at st ρ y = Some (xs, a) → e_cont ρ !! y = Some l → ¬ touches σ c y →
  e_cont ρ' !! y = Some l ∧
  container_at st' ρ' y = Some (xs, a) ∧
  segments st' ρ' y = segments st ρ y ∧ index_nodes st' ρ' y = index_nodes st ρ y ∧
  (∀ k, k = l ∨ k ∈ blocks_of st ρ y → st_heap st' !! k = st_heap st !! k) ∧
  (∀ w p, ¬ assigns c w → iterator_at st ρ w y p → iterator_at st' ρ' w y p).
Proof.
  intros Hr Hp He Hc Hl Ht. destruct (frame_call _ _ _ _ _ _ _ _ _ _ _ Hr Hp He Hc Ht Hl) as (Hl' & Hb & o & Ho & Ho').
  destruct (call_inv _ _ _ _ _ _ _ Hr Hp He) as (σ' & _ & Hr').
  pose proof (lives_container _ _ _ _ _ _ Hl Ho) as Hc1. rewrite Hc in Hc1. injection Hc1 as ->.
  split_and!; [done|by eapply lives_container| | |done|].
  - by rewrite (lives_segments _ _ _ _ _ _ Hl Ho) (lives_segments _ _ _ _ _ _ Hl' Ho').
  - by rewrite (lives_nodes _ _ _ _ _ _ Hl Ho) (lives_nodes _ _ _ _ _ _ Hl' Ho').
  - intros w p Hw Hit. assert (reached ρ st) as Hre by by eexists.
    destruct (iterator_elim _ _ _ _ _ Hre Hit) as (o1 & a1 & l1 & it & Hl1 & Ho1 & Hi & Hok & <- & _).
    rewrite Hl in Hl1. injection Hl1 as <-. destruct (lives_det _ _ _ _ _ _ Ho Ho1) as [<- <-].
    pose proof (keeps_exec w ρ c Hw st) as Hk. rewrite He in Hk.
    eapply iterator_intro; [by eexists|done|done|by rewrite Hk|done].
Qed.
End props.
