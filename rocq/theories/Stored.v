(** * Stored: the separation-logic description of a container (Tree.v) as facts
    about the whole memory, and the reading functions of Heap.v on it.
    Proof infrastructure. *)
From Verif Require Export Heap Refine.
From stdpp Require Import options.
Set Default Proof Using "Type*".

Section fp.
Context {T : Type}.
Implicit Types P Q : hprop T.
(** [P] holds of memories with exactly the blocks [L] *)
Definition fp P (L : list loc) : Prop := ∀ m, P m → NoDup L ∧ dom m = (list_to_set L : gset loc).
Lemma fp_emp : fp emp%I [].
Proof. intros m ->%emp_holds. split; [constructor|]. by rewrite dom_empty_L. Qed.
Lemma fp_pointsto l ob : fp (l ↦ ob)%I [l].
Proof. intros m ->%pointsto_holds. split; [apply NoDup_singleton|]. rewrite dom_singleton_L /=. set_solver. Qed.
Lemma fp_sep P Q L1 L2 : fp P L1 → fp Q L2 → fp (P ∗ Q)%I (L1 ++ L2).
Proof.
  intros H1 H2 m (m1 & m2 & -> & Hd & HP & HQ)%sep_holds.
  destruct (H1 _ HP) as [N1 D1]. destruct (H2 _ HQ) as [N2 D2]. split.
  - apply NoDup_app. split_and!; [done| |done]. intros l Hl1 Hl2.
    apply map_disjoint_dom in Hd. rewrite D1 D2 in Hd. set_solver.
  - by rewrite dom_union_L D1 D2 list_to_set_app_L.
Qed.
Lemma fp_exist {A} (Φ : A → hprop T) L : (∀ a, fp (Φ a) L) → fp (∃ a, Φ a)%I L.
Proof. intros H m [a Ha]%exist_holds. by eapply H. Qed.
Lemma fp_pure (φ : Prop) P L : (φ → fp P L) → fp (⟦φ⟧ ∗ P)%I L.
Proof.
  intros H m (m1 & m2 & -> & Hd & [Hφ ->]%apure_holds & HP)%sep_holds. rewrite left_id_L. by apply H.
Qed.
Lemma fp_false L : fp False%I L.
Proof. by intros m ?%pure_holds. Qed.
Lemma fp_mono P Q L : (P ⊢ Q) → fp Q L → fp P L.
Proof. intros HPQ H m HP. apply H. by apply HPQ. Qed.
End fp.

Section stored.
Context {T : Type} {C : cfg T}.
Implicit Types m : heap T.
Implicit Types t : tree T.
Implicit Types ts : list (tree T).
Implicit Types o : option (tree T).

Fixpoint tlocs t : list loc :=
  match t with Seg l _ => [l] | Nd l ts => l :: concat (tlocs <$> ts) end.
Fixpoint tnodes t : list loc :=
  match t with Seg _ _ => [] | Nd l ts => l :: concat (tnodes <$> ts) end.
Definition olocs o : list loc := match o with None => [] | Some t => tlocs t end.
Definition onodes o : list loc := match o with None => [] | Some t => tnodes t end.

Lemma osegs_elems o : concat (osegs o).*2 = oelems o.
Proof. destruct o; [apply tsegs_elems|done]. Qed.
Lemma tlocs_split t : tlocs t ≡ₚ tnodes t ++ (tsegs t).*1.
Proof.
  induction t as [l xs|l ts IH] using tree_ind'; simpl; [done|]. f_equiv.
  induction IH as [|t ts Ht _ IHts]; simpl; [done|]. rewrite Ht IHts fmap_app.
  by rewrite -!assoc_L (Permutation_app_swap_app (concat _)).
Qed.
Lemma olocs_split o : olocs o ≡ₚ onodes o ++ (osegs o).*1.
Proof. destruct o; [apply tlocs_split|done]. Qed.
Lemma tlocs_nblk t : length (tlocs t) = nblk t.
Proof.
  induction t as [l xs|l ts IH] using tree_ind'; simpl; [done|]. f_equal.
  induction IH as [|t ts Ht _ IHts]; simpl; [done|]. by rewrite app_length Ht IHts.
Qed.

Context (ea na : nat).
Notation tr := (tr (C:=C) ea na).

Fixpoint stored m (h : nat) (p : option ptr) (i : option nat) (t : tree T) : Prop :=
  match h with
  | 0 => False
  | S h' =>
    match t with
    | Seg l xs => h' = 0 ∧ ∃ junk, length xs + length junk = segment_max ∧ Forall clean junk ∧
        m !! l = Some (OSeg ea ((Some <$> xs) ++ junk))
    | Nd l ts => 1 ≤ h' ∧ (∃ junk, length ts + length junk = base_max ∧
        m !! l = Some (ONode na (Node p i (Some (length ts)) ((entry <$> ts) ++ junk).*1 ((entry <$> ts) ++ junk).*2))) ∧
        ∀ j t, ts !! j = Some t → stored m h' (Some (Some l)) (Some j) t
    end
  end.

Lemma kids_sub (f : nat → tree T → hprop T) j ts m0 m :
  kids f j ts m0 → m0 ⊆ m → ∀ k t, ts !! k = Some t → ∃ m1, m1 ⊆ m ∧ f (j + k) t m1.
Proof.
  revert j m0. induction ts as [|t0 ts IH]; intros j m0 Hk Hm k t Hkt; [done|].
  cbn [kids] in Hk. apply sep_holds in Hk as (m1 & m2 & -> & Hd & H1 & H2).
  assert (m1 ⊆ m) by (etrans; [by apply map_union_subseteq_l|done]).
  assert (m2 ⊆ m) by (etrans; [by apply map_union_subseteq_r|done]).
  destruct k as [|k]; simpl in Hkt.
  - simplify_eq. exists m1. by rewrite Nat.add_0_r.
  - destruct (IH (S j) m2 H2 ltac:(done) k t Hkt) as (m3 & ? & ?). exists m3. split; [done|].
    by replace (j + S k) with (S j + k) by lia.
Qed.
Lemma tr_stored h p i t m0 m : tr h p i t m0 → m0 ⊆ m → stored m h p i t.
Proof.
  revert p i t m0. induction h as [|h IH]; intros p i t m0 Ht Hm.
  { rewrite /tr in Ht. by apply pure_holds in Ht. }
  destruct t as [l xs|l ts].
  - apply (hprop_in_entails _ _ (bi.equiv_entails_1_1 _ _ (tr_Seg _ _ _ _ _ _ _))) in Ht.
    apply sep_holds in Ht as (m1 & m2 & -> & Hd & [Hh ->]%apure_holds & Hs). rewrite left_id_L in Hm.
    rewrite /segp in Hs. apply exist_holds in Hs as (junk & Hs).
    apply sep_holds in Hs as (m3 & m4 & -> & Hd' & [[H1 H2] ->]%apure_holds & Hs).
    rewrite left_id_L in Hm. rewrite /sg in Hs. apply pointsto_holds in Hs. subst m4. cbn [stored]. split; [done|].
    exists junk. split_and!; [done..|]. eapply lookup_weaken; [|done]. by rewrite lookup_singleton.
  - apply (hprop_in_entails _ _ (bi.equiv_entails_1_1 _ _ (tr_Nd _ _ _ _ _ _ _))) in Ht.
    apply exist_holds in Ht as (junk & Ht).
    apply sep_holds in Ht as (m1 & m2 & -> & Hd & [[H1 H2] ->]%apure_holds & Ht). rewrite left_id_L in Hm.
    apply sep_holds in Ht as (m3 & m4 & -> & Hd' & Hn & Hk).
    rewrite /nd in Hn. apply pointsto_holds in Hn. subst m3. cbn [stored]. split_and!; [done| |].
    + exists junk. split; [done|]. eapply lookup_weaken; [|done]. by simplify_map_eq.
    + intros j t Hj. eapply kids_sub in Hj as (m5 & Hm5 & Ht); [|exact Hk|].
      * by eapply IH.
      * etrans; [by apply map_union_subseteq_r|done].
Qed.

Lemma tr_fp h p i t : fp (tr h p i t) (tlocs t).
Proof.
  revert p i t. induction h as [|h IH]; intros p i t.
  { apply fp_false. }
  destruct t as [l xs|l ts].
  - eapply fp_mono; [apply bi.equiv_entails_1_1, tr_Seg|]. apply fp_pure. intros _. rewrite /segp.
    apply fp_exist. intros junk. apply fp_pure. intros _. apply fp_pointsto.
  - eapply fp_mono; [apply bi.equiv_entails_1_1, tr_Nd|]. apply fp_exist. intros junk. apply fp_pure. intros _.
    apply (fp_sep _ _ [l]); [apply fp_pointsto|]. generalize 0. rewrite /kidst.
    induction ts as [|t ts IHts]; intros j; [apply fp_emp|]. apply fp_sep; [apply IH|apply IHts].
Qed.

(** ** Reading *)
Lemma zip_fst_snd {A B} (a : list (A * B)) : zip a.*1 a.*2 = a.
Proof. induction a as [|[??] a IH]; simpl; [done|]. by rewrite IH. Qed.
Lemma children_stored p i ts (junk : list (option nat * option loc)) :
  children (Node p i (Some (length ts)) ((entry <$> ts) ++ junk).*1 ((entry <$> ts) ++ junk).*2) =
  Some ((λ t, (tsize t, tloc t)) <$> ts).
Proof.
  rewrite /children /= zip_fst_snd take_app_alt ?fmap_length // Nat.eqb_refl.
  apply mapM_Some. induction ts as [|t ts IH]; simpl; constructor; done.
Qed.
Lemma mapM_Some_fmap {A B D} (f : B → option D) (g : A → B) (k : A → D) (xs : list A) :
  (∀ x, x ∈ xs → f (g x) = Some (k x)) → mapM f (g <$> xs) = Some (k <$> xs).
Proof.
  intros H. apply mapM_Some. induction xs as [|x xs IH]; simpl; constructor.
  - apply H. by left.
  - apply IH. intros y Hy. apply H. by right.
Qed.
Lemma stored_segments m h p i t :
  stored m h p i t → segments_at m h (tsize t) (tloc t) = Some (tsegs t).
Proof.
  revert p i t. induction h as [|h IH]; intros p i t Ht; [done|]. destruct t as [l xs|l ts]; cbn [stored] in Ht.
  - destruct Ht as (-> & junk & _ & _ & Hl). cbn [segments_at tloc]. rewrite Hl tsize_Seg.
    rewrite take_app_alt ?fmap_length //.
    rewrite (mapM_Some_fmap id Some id) //. rewrite list_fmap_id /= Nat.eqb_refl. done.
  - destruct Ht as (Hh & (junk & Hj & Hl) & Hk). cbn [segments_at tloc tsegs]. rewrite Hl children_stored. simpl.
    rewrite (mapM_Some_fmap _ (λ t, (tsize t, tloc t)) tsegs); last first.
    { intros t [j Hj']%elem_of_list_lookup. eapply IH. by apply Hk. }
    simpl. destruct (0 <? h) eqn:E; [|apply Nat.ltb_ge in E; lia]. simpl.
    rewrite (tsegs_elems (Nd l ts)) /tsize Nat.eqb_refl. done.
Qed.
Lemma stored_nodes m h p i t : stored m h p i t → nodes_at m h (tloc t) = tnodes t.
Proof.
  revert p i t. induction h as [|h IH]; intros p i t Ht; [done|]. destruct t as [l xs|l ts]; cbn [stored] in Ht.
  - destruct Ht as (-> & junk & _ & _ & Hl). cbn [nodes_at tloc]. by rewrite Hl.
  - destruct Ht as (Hh & (junk & Hj & Hl) & Hk). cbn [nodes_at tloc tnodes]. rewrite Hl children_stored. simpl.
    f_equal. f_equal. rewrite -list_fmap_compose. apply list_fmap_ext. intros j t Hj'. simpl. eapply IH. by apply Hk.
Qed.
End stored.

(** ** A whole container, all containers *)
Section whole.
Context {T : Type} {C : cfg T}.
Implicit Types m : heap T.
Implicit Types o : option (tree T).
Implicit Types ρ : env.
Implicit Types τ : gmap nat (option (tree T) * nat).

(** container [o] with seq object at [l] *)
Definition lives m (a : nat) (l : loc) o : Prop :=
  match o with
  | None => m !! l = Some (OSeq (SeqObj None 0 0 a a))
  | Some t => ∃ h, wfroot h t ∧ tsize t < c_W C ∧
      m !! l = Some (OSeq (SeqObj (Some (tloc t)) (tsize t) h a a)) ∧ stored a a m h (Some None) (Some 0) t
  end.
Lemma seqp_lives a l o m0 m : seqp a a l o m0 → m0 ⊆ m → lives m a l o.
Proof.
  intros H Hm. destruct o as [t|]; cbn [seqp] in H; cbn [lives].
  - apply exist_holds in H as (h & H).
    apply sep_holds in H as (m1 & m2 & -> & Hd & [[H1 H2] ->]%apure_holds & H). rewrite left_id_L in Hm.
    apply sep_holds in H as (m3 & m4 & -> & Hd' & Hq & Ht). rewrite /sqo in Hq. apply pointsto_holds in Hq. subst m3.
    exists h. split_and!; [done|done| |].
    + eapply lookup_weaken; [|done]. by simplify_map_eq.
    + eapply tr_stored; [done|]. etrans; [by apply map_union_subseteq_r|done].
  - rewrite /sqo in H. apply pointsto_holds in H. subst. eapply lookup_weaken; [|done]. by rewrite lookup_singleton.
Qed.
Lemma seqp_fp a l o : fp (seqp a a l o) (l :: olocs o).
Proof.
  destruct o as [t|]; cbn [seqp olocs].
  - apply fp_exist. intros h. apply fp_pure. intros _. apply (fp_sep _ _ [l]); [apply fp_pointsto|apply tr_fp].
  - apply fp_pointsto.
Qed.
Definition clocs ρ (x : nat) o : list loc := from_option (λ l, l :: olocs o) [] (e_cont ρ !! x).
Lemma cell_fp ρ x p : fp (cell ρ x p) (clocs ρ x p.1).
Proof.
  rewrite /cell /clocs. apply fp_exist. intros l. apply fp_pure. intros ->. apply seqp_fp.
Qed.
Definition all_locs ρ τ : list loc := concat ((λ xp, clocs ρ xp.1 xp.2.1) <$> map_to_list τ).
Lemma rep_fp ρ τ : fp (rep ρ τ) (all_locs ρ τ).
Proof.
  eapply fp_mono. { rewrite /rep big_opM_map_to_list. reflexivity. }
  rewrite /all_locs. induction (map_to_list τ) as [|[x p] L IH]; simpl.
  - apply fp_emp.
  - apply fp_sep; [apply cell_fp|apply IH].
Qed.
Lemma rep_lives ρ τ m x o a :
  rep ρ τ m → τ !! x = Some (o, a) → ∃ l, e_cont ρ !! x = Some l ∧ lives m a l o.
Proof.
  intros Hm Hx. rewrite /rep in Hm.
  apply (hprop_in_entails _ _ (bi.equiv_entails_1_1 _ _ (big_sepM_delete _ _ _ _ Hx))) in Hm.
  apply sep_holds in Hm as (m1 & m2 & -> & Hd & Hc & _). rewrite /cell in Hc. apply exist_holds in Hc as (l & Hc).
  apply sep_holds in Hc as (m3 & m4 & -> & Hd' & [Hl ->]%apure_holds & Hc). exists l. split; [done|].
  eapply seqp_lives; [done|]. rewrite left_id_L. by apply map_union_subseteq_l.
Qed.
Lemma lives_segments st ρ x a l o :
  e_cont ρ !! x = Some l → lives (st_heap st) a l o → segments st ρ x = Some (osegs o).
Proof.
  intros Hl Ho. rewrite /segments /seq_at Hl /=. destruct o as [t|]; cbn [lives] in Ho.
  - destruct Ho as (h & Hw & _ & -> & Hs). simpl. by eapply stored_segments.
  - by rewrite Ho.
Qed.
Lemma lives_nodes st ρ x a l o :
  e_cont ρ !! x = Some l → lives (st_heap st) a l o → index_nodes st ρ x = onodes o.
Proof.
  intros Hl Ho. rewrite /index_nodes /seq_at Hl /=. destruct o as [t|]; cbn [lives] in Ho.
  - destruct Ho as (h & Hw & _ & -> & Hs). simpl. by eapply stored_nodes.
  - by rewrite Ho.
Qed.
Lemma lives_seq st ρ x a l o :
  e_cont ρ !! x = Some l → lives (st_heap st) a l o →
  seq_at st ρ x = Some (SeqObj (tloc <$> o) (length (oelems o)) (oheight o) a a).
Proof.
  intros Hl Ho. rewrite /seq_at Hl /=. destruct o as [t|]; cbn [lives] in Ho.
  - destruct Ho as (h & Hw & _ & -> & Hs). simpl. by rewrite (wfroot_theight h t).
  - by rewrite Ho.
Qed.
Lemma lives_container st ρ x a l o :
  e_cont ρ !! x = Some l → lives (st_heap st) a l o → container_at st ρ x = Some (oelems o, a).
Proof.
  intros Hl Ho. rewrite /container_at (lives_segments _ _ _ _ _ _ Hl Ho) (lives_seq _ _ _ _ _ _ Hl Ho) /=.
  by rewrite osegs_elems.
Qed.
Lemma lives_blocks st ρ x a l o :
  e_cont ρ !! x = Some l → lives (st_heap st) a l o → blocks_of st ρ x ≡ₚ olocs o.
Proof.
  intros Hl Ho. rewrite /blocks_of (lives_segments _ _ _ _ _ _ Hl Ho) (lives_nodes _ _ _ _ _ _ Hl Ho) /=.
  by rewrite olocs_split.
Qed.
End whole.
