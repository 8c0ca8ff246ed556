(** * Update: proof rules for the seq object, allocation, deallocation and
    update_sizes (lines 1190-1230, 1548-1600 of seq.hpp).
    Proof infrastructure only. *)
From Verif Require Export NodeOps.
From stdpp Require Import options.
Set Default Proof Using "Type*".

Section update.
Context {T : Type} {C : cfg T} {OK : cfg_ok C} {FZ : frozen T}.
Context (ea na : nat).
Implicit Types t : tree T.
Implicit Types c : ctx T.
Notation tr := (tr ea na).
Notation kidst := (kidst ea na).
Notation ctxp := (ctxp ea na).
Notation segp := (segp ea).

(** ** The seq object *)
Definition sqo (this : loc) (r : ptr) (n ht : nat) : hprop T :=
  (this ↦ OSeq (SeqObj r n ht ea na))%I.

Lemma wp_load_seq this r n ht Q E :
  sqo this r n ht -∗ (sqo this r n ht -∗ Q (SeqObj r n ht ea na)) -∗ wp (load_seq this) Q E.
Proof.
  iIntros "H HQ". rewrite /load_seq. wp_bind. iApply (wp_load with "H"). iIntros "H".
  wp_ret. by iApply "HQ".
Qed.
Lemma wp_get_root this r n ht Q E :
  sqo this r n ht -∗ (sqo this r n ht -∗ Q r) -∗ wp (get_root this) Q E.
Proof.
  iIntros "H HQ". rewrite /get_root. wp_bind. iApply (wp_load_seq with "H"). iIntros "H".
  wp_ret. by iApply "HQ".
Qed.
Lemma wp_get_size this r n ht Q E :
  sqo this r n ht -∗ (sqo this r n ht -∗ Q n) -∗ wp (get_size this) Q E.
Proof.
  iIntros "H HQ". rewrite /get_size. wp_bind. iApply (wp_load_seq with "H"). iIntros "H".
  wp_ret. by iApply "HQ".
Qed.
Lemma wp_get_height this r n ht Q E :
  sqo this r n ht -∗ (sqo this r n ht -∗ Q ht) -∗ wp (get_height this) Q E.
Proof.
  iIntros "H HQ". rewrite /get_height. wp_bind. iApply (wp_load_seq with "H"). iIntros "H".
  wp_ret. by iApply "HQ".
Qed.
Lemma wp_height_fuel this r n ht Q E :
  sqo this r n ht -∗ (sqo this r n ht -∗ Q (S (S ht))) -∗ wp (height_fuel this) Q E.
Proof.
  rewrite /sqo. split; intros h Hl. rewrite pointsto_holds in Hl. subst. rewrite wand_holds. intros h' Hd HQ.
  rewrite wp_holds. intros hf clk cnt Hd' HF. rewrite /height_fuel /=.
  match goal with |- context [({[?l := ?o]} ∪ h' ∪ hf) !! ?l] =>
    assert (({[l := o]} ∪ h' ∪ hf) !! l = Some o) as -> by (rewrite -assoc_L; apply lookup_union_Some_l, lookup_singleton) end.
  eexists. split; [exact Hd'|]. split; [done|]. split; [by apply away_refl|].
  rewrite wand_holds in HQ. rewrite (map_union_comm _ h'); [|done]. apply HQ; [by symmetry|].
  by rewrite pointsto_holds.
Qed.
Lemma wp_get_element_allocator this r n ht Q E :
  sqo this r n ht -∗ (sqo this r n ht -∗ Q ea) -∗ wp (get_element_allocator this) Q E.
Proof.
  iIntros "H HQ". rewrite /get_element_allocator. wp_bind. iApply (wp_load_seq with "H"). iIntros "H".
  wp_ret. by iApply "HQ".
Qed.
Lemma wp_get_node_allocator this r n ht Q E :
  sqo this r n ht -∗ (sqo this r n ht -∗ Q na) -∗ wp (get_node_allocator this) Q E.
Proof.
  iIntros "H HQ". rewrite /get_node_allocator. wp_bind. iApply (wp_load_seq with "H"). iIntros "H".
  wp_ret. by iApply "HQ".
Qed.
Lemma wp_set_root this r n ht r' Q E :
  sqo this r n ht -∗ (sqo this r' n ht -∗ Q ()) -∗ wp (set_root this r') Q E.
Proof.
  iIntros "H HQ". rewrite /set_root. wp_bind. iApply (wp_load_seq with "H"). iIntros "H".
  by iApply (wp_store with "H").
Qed.
Lemma wp_set_size this r n ht n' Q E :
  sqo this r n ht -∗ (sqo this r n' ht -∗ Q ()) -∗ wp (set_size this n') Q E.
Proof.
  iIntros "H HQ". rewrite /set_size. wp_bind. iApply (wp_load_seq with "H"). iIntros "H".
  by iApply (wp_store with "H").
Qed.
Lemma wp_set_height this r n ht ht' Q E :
  sqo this r n ht -∗ (sqo this r n ht' -∗ Q ()) -∗ wp (set_height this ht') Q E.
Proof.
  iIntros "H HQ". rewrite /set_height. wp_bind. iApply (wp_load_seq with "H"). iIntros "H".
  by iApply (wp_store with "H").
Qed.

(** ** Allocation *)
Definition raw_node (l : loc) (p : option ptr) : hprop T :=
  nd na l p None None (replicate base_max (None, None)).
Lemma wp_allocate_segment this r n ht Q E :
  sqo this r n ht -∗
  ((∀ l, sqo this r n ht -∗ sg ea l (replicate segment_max None) -∗ Q (Some l)) ∧
   (⌜raisable C EAlloc⌝ → sqo this r n ht -∗ E EAlloc)) -∗
  wp (allocate_segment this) Q E.
Proof.
  iIntros "H HQ". rewrite /allocate_segment. wp_bind.
  iApply (wp_get_element_allocator with "H"). iIntros "H".
  iApply wp_allocate. iSplit.
  - iIntros (l) "Hl". iDestruct "HQ" as "[HQ _]". iApply ("HQ" with "H Hl").
  - iIntros (HR). iDestruct "HQ" as "[_ HE]". by iApply "HE".
Qed.
Lemma wp_allocate_node this r n ht Q E :
  sqo this r n ht -∗
  ((∀ l, sqo this r n ht -∗ raw_node l None -∗ Q (Some l)) ∧
   (⌜raisable C EAlloc⌝ → sqo this r n ht -∗ E EAlloc)) -∗
  wp (allocate_node this) Q E.
Proof.
  iIntros "H HQ". rewrite /allocate_node. wp_bind.
  iApply (wp_get_node_allocator with "H"). iIntros "H".
  iApply wp_allocate. iSplit.
  - iIntros (l) "Hl". iDestruct "HQ" as "[HQ _]". iApply ("HQ" with "H").
    rewrite /raw_node /nd !fmap_replicate. done.
  - iIntros (HR). iDestruct "HQ" as "[_ HE]". by iApply "HE".
Qed.

(** ** Deallocation *)
Lemma wp_deallocate_node this r n ht l p i len a Q E :
  sqo this r n ht -∗ nd na l p i len a -∗ (sqo this r n ht -∗ Q ()) -∗
  wp (deallocate_node this (Some l)) Q E.
Proof.
  iIntros "H Hl HQ". rewrite /deallocate_node.
  wp_bind. iApply (wp_get_node_allocator with "H"). iIntros "H".
  wp_bind. iApply (wp_load_node with "Hl"). iIntros "Hl". simpl.
  rewrite Nat.eqb_refl. iApply (wp_free with "Hl"). by iApply "HQ".
Qed.
Lemma wp_deallocate_segment this r n ht l s Q E :
  Forall clean s →
  sqo this r n ht -∗ sg ea l s -∗ (sqo this r n ht -∗ Q ()) -∗
  wp (deallocate_segment this (Some l)) Q E.
Proof.
  iIntros (Hc) "H Hl HQ". rewrite /deallocate_segment.
  wp_bind. iApply (wp_get_element_allocator with "H"). iIntros "H".
  wp_bind. iApply (wp_load_seg with "Hl"). iIntros "Hl". simpl.
  rewrite Nat.eqb_refl.
  assert (c_triv_destroy C || forallb (λ o, negb (bool_decide (is_Some o))) s = true) as ->.
  { destruct (c_triv_destroy C) eqn:Htd; [done|]. simpl. apply forallb_forall. intros o Ho.
    rewrite Forall_forall in Hc. apply elem_of_list_In in Ho. destruct (Hc _ Ho) as [Hd|Hd].
    - by rewrite Hd in Htd.
    - by rewrite Hd. }
  simpl. iApply (wp_free with "Hl"). by iApply "HQ".
Qed.

(** ** update_sizes *)
Lemma wp_update_sizes_loop h c lh sz sz' d fuel Q E :
  length c < fuel →
  (∀ m, m ≤ length (cl c) + length (cr c) → wadd (m + sz) d = m + sz') →
  ctxp h c lh sz -∗ (ctxp h c lh sz' -∗ Q ()) -∗
  wp (update_sizes_loop fuel (cparent c) (cindex c) d) Q E.
Proof.
  iIntros (Hf Hd) "Hc HQ".
  iInduction c as [|[[l L] R] c] "IH" forall (h lh sz sz' fuel Hf Hd Q);
    (destruct fuel as [|fuel]; [simpl in *; lia|]); simpl.
  { wp_ret. by iApply "HQ". }
  iDestruct "Hc" as (junk [Hh Hlen]) "(Hn & HL & HR & Hc)".
  wp_bind. iApply (wp_sizes with "Hn"). { apply lookup_mid. by rewrite fmap_length. }
  iIntros "Hn". wp_bind. iApply (wp_set_sizes with "Hn").
  { apply lookup_mid. by rewrite fmap_length. }
  iIntros "Hn". simpl. rewrite insert_mid; [|by rewrite fmap_length].
  wp_bind. iApply (wp_parent_index with "Hn"). iIntros "Hn".
  wp_bind. iApply (wp_parent_pointer with "Hn"). iIntros "Hn".
  simpl in Hd, Hf. iApply ("IH" with "[%] [%] Hc").
  - lia.
  - intros m Hm. rewrite !app_length in Hd.
    replace (m + (fsize L + sz + fsize R)) with (m + fsize L + fsize R + sz) by lia.
    rewrite (Hd (m + fsize L + fsize R)); [|rewrite /fsize; lia].
    replace (m + fsize L + fsize R + sz') with (m + (fsize L + sz' + fsize R)) by lia. done.
  - iIntros "Hc". iApply "HQ". iExists junk. iFrame "HL HR Hc".
    specialize (Hd 0). simpl in Hd. rewrite Hd; [|lia]. by iFrame "Hn".
Qed.

Lemma wp_update_sizes this r n ht h c lh sz sz' d Q E :
  length c ≤ ht →
  (∀ m, m ≤ length (cl c) + length (cr c) → wadd (m + sz) d = m + sz') →
  n = length (cl c) + sz + length (cr c) →
  sqo this r n ht -∗ ctxp h c lh sz -∗
  (sqo this r (length (cl c) + sz' + length (cr c)) ht -∗ ctxp h c lh sz' -∗ Q ()) -∗
  wp (update_sizes this (cparent c) (cindex c) d) Q E.
Proof.
  iIntros (Hf Hd Hn) "Hs Hc HQ". rewrite /update_sizes. wp_bind.
  iApply (wp_height_fuel with "Hs"). iIntros "Hs".
  wp_bind. iApply (wp_update_sizes_loop with "Hc"); [lia|done|].
  iIntros "Hc". wp_bind. iApply (wp_get_size with "Hs"). iIntros "Hs".
  iApply (wp_set_size with "Hs"). iIntros "Hs".
  replace (wadd n d) with (length (cl c) + sz' + length (cr c)).
  - iApply ("HQ" with "Hs Hc").
  - rewrite Hn. specialize (Hd (length (cl c) + length (cr c))).
    replace (length (cl c) + sz + length (cr c)) with (length (cl c) + length (cr c) + sz) by lia.
    rewrite Hd; lia.
Qed.
Lemma wp_increment_sizes this r n ht h c lh sz Q E :
  length c ≤ ht →
  n = length (cl c) + sz + length (cr c) → n + 1 < c_W C →
  sqo this r n ht -∗ ctxp h c lh sz -∗
  (sqo this r (n + 1) ht -∗ ctxp h c lh (sz + 1) -∗ Q ()) -∗
  wp (increment_sizes this (cparent c) (cindex c)) Q E.
Proof.
  iIntros (Hf Hn HW) "Hs Hc HQ". rewrite /increment_sizes.
  iApply (wp_update_sizes _ _ _ _ _ _ _ sz (sz + 1) with "Hs Hc"); [done| |done|].
  { intros m Hm. rewrite wadd_small; lia. }
  replace (length (cl c) + (sz + 1) + length (cr c)) with (n + 1) by lia. done.
Qed.
Lemma wp_decrement_sizes this r n ht h c lh sz Q E :
  length c ≤ ht →
  n = length (cl c) + sz + length (cr c) → 1 ≤ sz → n < c_W C →
  sqo this r n ht -∗ ctxp h c lh sz -∗
  (sqo this r (n - 1) ht -∗ ctxp h c lh (sz - 1) -∗ Q ()) -∗
  wp (decrement_sizes this (cparent c) (cindex c)) Q E.
Proof.
  iIntros (Hf Hn Hsz HW) "Hs Hc HQ". rewrite /decrement_sizes. pose proof (ok_W _ OK).
  assert (wadd (wnot 1) 1 = c_W C - 1) as ->.
  { rewrite /wnot wadd_small; lia. }
  iApply (wp_update_sizes _ _ _ _ _ _ _ sz (sz - 1) with "Hs Hc"); [done| |done|].
  { intros m Hm. rewrite /wadd.
    replace (m + sz + (c_W C - 1)) with (m + (sz - 1) + 1 * c_W C) by lia.
    rewrite Nat.mod_add; [|lia]. apply Nat.mod_small. lia. }
  replace (length (cl c) + (sz - 1) + length (cr c)) with (n - 1) by lia. done.
Qed.

(** ** alloc_nodes_single *)
Fixpoint chain (ls : list loc) : hprop T :=
  match ls with
  | [] => emp
  | l :: ls => raw_node l (Some (head ls)) ∗ chain ls
  end%I.
(** number of nodes needed to absorb a new child in the innermost frame *)
Fixpoint needed (c : ctx T) : nat :=
  match c with
  | [] => 1
  | (_, L, R) :: c => if length L + S (length R) =? base_max then S (needed c) else 0
  end.
Lemma chain_szge ls : chain ls ⊢ szge (length ls).
Proof.
  induction ls as [|l ls IH]; simpl; [apply szge_0|].
  apply szge_S_l; [apply szge_pointsto|done].
Qed.
Lemma wp_free_chain this r n ht ls fuel Q E :
  length ls < fuel →
  sqo this r n ht -∗ chain ls -∗ (sqo this r n ht -∗ Q ()) -∗
  wp (free_chain fuel this (head ls)) Q E.
Proof.
  iIntros (Hf) "Hs Hc HQ".
  iInduction ls as [|l ls] "IH" forall (fuel Hf); (destruct fuel as [|fuel]; [simpl in *; lia|]); simpl.
  { wp_ret. by iApply "HQ". }
  iDestruct "Hc" as "[Hl Hc]". simpl in Hf.
  wp_bind. iApply (wp_parent_pointer with "Hl"). iIntros "Hl".
  wp_bind. iApply (wp_deallocate_node with "Hs Hl"). iIntros "Hs".
  iApply ("IH" with "[%] Hs Hc HQ"). lia.
Qed.
Definition raw_seg (l : loc) : hprop T := sg ea l (replicate segment_max None).
Lemma raw_seg_clean : Forall (clean (C:=C)) (replicate segment_max None).
Proof. apply Forall_replicate. by right. Qed.

Lemma wp_alloc_node_or_cleanup this r n ht ls sl Q E :
  length ls ≤ ht →
  sqo this r n ht -∗ chain ls -∗ raw_seg sl -∗
  ((∀ l, sqo this r n ht -∗ chain ls -∗ raw_node l None -∗ raw_seg sl -∗ Q (Some l)) ∧
   (⌜raisable C EAlloc⌝ → sqo this r n ht -∗ E EAlloc)) -∗
  wp (alloc_node_or_cleanup this (head ls) (Some sl)) Q E.
Proof.
  iIntros (Hf) "Hs Hc Hg HQ". rewrite /alloc_node_or_cleanup. iApply wp_try_catch.
  iApply (wp_allocate_node with "Hs"). iSplit.
  - iIntros (l) "Hs Hl". iDestruct "HQ" as "[HQ _]". iApply ("HQ" with "Hs Hc Hl Hg").
  - iIntros (HR) "Hs". wp_bind. iApply (wp_deallocate_segment with "Hs Hg"); [apply raw_seg_clean|].
    iIntros "Hs". wp_bind. iApply (wp_height_fuel with "Hs").
    iIntros "Hs". wp_bind. iApply (wp_free_chain with "Hs Hc"); [lia|].
    iIntros "Hs". iApply wp_throw. iDestruct "HQ" as "[_ HE]". by iApply "HE".
Qed.

Lemma wp_alloc_nodes_single_loop this r n ht h c lh sz ls sl fuel Q E :
  length c < fuel → length ls + length c ≤ ht →
  sqo this r n ht -∗ ctxp h c lh sz -∗ chain ls -∗ raw_seg sl -∗
  ((∀ ls', ⌜(length ls' = length ls + needed c)%nat⌝ →
      sqo this r n ht -∗ ctxp h c lh sz -∗ chain ls' -∗ raw_seg sl -∗ Q (head ls')) ∧
   (⌜raisable C EAlloc⌝ → sqo this r n ht -∗ ctxp h c lh sz -∗ E EAlloc)) -∗
  wp (alloc_nodes_single_loop fuel this (cparent c) (head ls) (Some sl)) Q E.
Proof.
  iIntros (Hf Ht) "Hs Hc Hch Hg HQ".
  iInduction c as [|[[l L] R] c] "IH" forall (h lh sz ls fuel Hf Ht Q);
    (destruct fuel as [|fuel]; [simpl in *; lia|]); simpl.
  { wp_bind. iApply (wp_alloc_node_or_cleanup with "Hs Hch Hg"); [simpl in *; lia|]. iSplit.
    - iDestruct "HQ" as "[HQ _]". iIntros (l) "Hs Hch Hl Hg".
      wp_bind. iApply (wp_set_parent_pointer with "Hl"). iIntros "Hl".
      wp_ret. iApply ("HQ" $! (l :: ls) with "[%] Hs Hc [$Hl $Hch] Hg"). simpl. lia.
    - iDestruct "HQ" as "[_ HE]". iIntros (HR) "Hs". by iApply ("HE" with "[//] Hs"). }
  iDestruct "Hc" as (junk [Hh Hlen]) "(Hn & HL & HR & Hc)".
  wp_bind. iApply (wp_length_of with "Hn"). iIntros "Hn".
  destruct (length L + S (length R) =? base_max) eqn:Hfull; simpl; last first.
  { wp_ret. iDestruct "HQ" as "[HQ _]". iApply ("HQ" with "[%] Hs [-Hch Hg] Hch Hg"); [lia|].
    iExists junk. by iFrame. }
  wp_bind. iApply (wp_alloc_node_or_cleanup with "Hs Hch Hg"); [simpl in *; lia|]. iSplit; last first.
  { iDestruct "HQ" as "[_ HE]". iIntros (HR) "Hs". iApply ("HE" with "[//] Hs").
    iExists junk. by iFrame. }
  iIntros (l') "Hs Hch Hl Hg".
  wp_bind. iApply (wp_set_parent_pointer with "Hl"). iIntros "Hl".
  wp_bind. iApply (wp_parent_pointer with "Hn"). iIntros "Hn".
  iApply ("IH" $! _ _ _ (l' :: ls) with "[%] [%] Hs Hc [$Hl $Hch] Hg"); [simpl in *; lia..|].
  iSplit.
  - iDestruct "HQ" as "[HQ _]". iIntros (ls' Hls) "Hs Hc Hch Hg".
    iApply ("HQ" with "[%] Hs [-Hch Hg] Hch Hg"); [simpl in *; lia|].
    iExists junk. by iFrame.
  - iDestruct "HQ" as "[_ HE]". iIntros (Hr) "Hs Hc". iApply ("HE" with "[//] Hs").
    iExists junk. by iFrame.
Qed.
Lemma wp_alloc_nodes_single this r n ht h c lh sz sl Q E :
  length c ≤ ht →
  sqo this r n ht -∗ ctxp h c lh sz -∗ raw_seg sl -∗
  ((∀ ls, ⌜length ls = needed c⌝ →
      sqo this r n ht -∗ ctxp h c lh sz -∗ chain ls -∗ raw_seg sl -∗ Q (head ls)) ∧
   (⌜raisable C EAlloc⌝ → sqo this r n ht -∗ ctxp h c lh sz -∗ E EAlloc)) -∗
  wp (alloc_nodes_single this (cparent c) (Some sl)) Q E.
Proof.
  iIntros (Hf) "Hs Hc Hg HQ". rewrite /alloc_nodes_single. wp_bind.
  iApply (wp_height_fuel with "Hs"). iIntros "Hs". change None with (head (A:=loc) []).
  iApply (wp_alloc_nodes_single_loop _ _ _ _ _ _ _ _ [] with "Hs Hc [] Hg HQ"); [lia|done|done].
Qed.

End update.
