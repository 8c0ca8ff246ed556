(** * Prim: proof rules for the primitive operations of Base.v and for the
    element-array operations of ModelSeq.v (lines 1212-1220, 1272-1297,
    1299-1363, 1365-1401, 1437-1457, 1492-1512 of seq.hpp).
    Proof infrastructure only. *)
From Verif Require Export Sep ModelSeq.
From stdpp Require Import options.
Set Default Proof Using "Type*".

(** ** Rules for the monad, as tactics *)
Global Hint Rewrite @app_length @fmap_length @replicate_length @insert_length
  @take_length @drop_length @cons_length @nil_length : len.
Global Hint Rewrite @fmap_app @fmap_cons @fmap_nil @app_nil_l @app_nil_r : lst.
Global Hint Rewrite <- @app_assoc @app_comm_cons : lst.
Ltac lnorm := autorewrite with lst.
Ltac leq := lnorm; done.
Ltac len := autorewrite with len in *; simpl in *; autorewrite with len in *; try done; lia.
Ltac wp_bind := iApply wp_bind.
Ltac wp_ret := iApply wp_ret.

Section prim.
Context {T : Type} {C : cfg T} {OK : cfg_ok C} {FZ : frozen T}.

Lemma wp_allocate o (Q : ptr → hprop T) E :
  (∀ l, l ↦ o -∗ Q (Some l)) ∧ (⌜raisable C EAlloc⌝ → E EAlloc) ⊢ wp (allocate o) Q E.
Proof.
  split. intros h. rewrite and_holds forall_holds impl_holds pure_holds. intros [HQ HE].
  rewrite wp_holds. intros hf clk cnt Hd HF. rewrite /allocate /=.
  destruct (c_pick C clk (h ∪ hf)) as [l|] eqn:Hpick; simpl.
  - apply ok_pick in Hpick; [|done].
    apply lookup_union_None in Hpick as [H1 H2].
    exists (h ∪ {[l := o]}).
    assert (h ##ₘ {[l := o]}) by by apply map_disjoint_singleton_r.
    split_and!.
    + apply map_disjoint_union_l; split; [done|]. by apply map_disjoint_singleton_l.
    + rewrite insert_union_singleton_l -assoc_L. rewrite assoc_L.
      rewrite (map_union_comm {[l:=o]} h) // assoc_L //.
    + by apply (away_one _ _ _ _ (AWrite l)).
    + specialize (HQ l). rewrite wand_holds in HQ. apply HQ; [done|]. by rewrite pointsto_holds.
  - exists h. split_and!; try done. apply HE. by eexists _, _.
Qed.

Lemma wp_place o (Q : loc → hprop T) E : (∀ l, l ↦ o -∗ Q l) ⊢ wp (place o) Q E.
Proof.
  split. intros h. rewrite forall_holds. intros HQ.
  rewrite wp_holds. intros hf clk cnt Hd HF. rewrite /place /=.
  pose proof (ok_place _ OK clk (h ∪ hf)) as Hpick. set (l := c_place C clk (h ∪ hf)) in *.
  apply lookup_union_None in Hpick as [H1 H2].
  exists (h ∪ {[l := o]}).
  assert (h ##ₘ {[l := o]}) by by apply map_disjoint_singleton_r.
  split_and!.
  + apply map_disjoint_union_l; split; [done|]. by apply map_disjoint_singleton_l.
  + rewrite insert_union_singleton_l -assoc_L. rewrite assoc_L.
    rewrite (map_union_comm {[l:=o]} h) // assoc_L //.
  + by apply (away_one _ _ _ _ (AWrite l)).
  + specialize (HQ l). rewrite wand_holds in HQ. apply HQ; [done|]. by rewrite pointsto_holds.
Qed.
Lemma wp_user_tick (Q : unit → hprop T) E :
  Q () ∧ (⌜raisable C EUser⌝ → E EUser) ⊢ wp user_tick Q E.
Proof.
  split. intros h. rewrite and_holds impl_holds pure_holds. intros [HQ HE].
  rewrite wp_holds. intros hf clk cnt Hd HF. rewrite /user_tick /tick /=.
  destruct (c_user_ok C clk) eqn:Hok; simpl; exists h; split_and!; try done.
  apply HE. by exists clk.
Qed.
Lemma wp_pred_clock (Q : nat → hprop T) E : (∀ n, Q n) ⊢ wp pred_clock Q E.
Proof.
  split. intros h. rewrite forall_holds. intros HQ. rewrite wp_holds. intros hf clk cnt Hd HF. by exists h.
Qed.
Lemma wp_pred_done (b : bool) (Q : unit → hprop T) E :
  (if b return hprop T then Q () else E EPred) ⊢ wp (pred_done b) Q E.
Proof.
  split. intros h HQ. rewrite wp_holds. intros hf clk cnt Hd HF. destruct b; simpl; by exists h.
Qed.
Lemma wp_pred_tick (Q : unit → hprop T) E :
  Q () ∧ (⌜pred_fails C⌝ → E EPred) ⊢ wp pred_tick Q E.
Proof.
  iIntros "H". rewrite /pred_tick. iApply wp_bind. iApply wp_pred_clock. iIntros (n). iApply wp_pred_done.
  destruct (c_pred_ok C n) eqn:Hok; [iDestruct "H" as "[H _]"|iDestruct "H" as "[_ H]"]; [done|].
  iApply ("H" with "[%]"). by exists n.
Qed.
Lemma wp_move_tick (Q : unit → hprop T) E : Q () ⊢ wp move_tick Q E.
Proof.
  split. intros h HQ. rewrite wp_holds. intros hf clk cnt Hd HF. rewrite /move_tick /tick /=.
  destruct (c_triv_copy C); simpl.
  - by exists h.
  - rewrite ok_move //=. by exists h.
Qed.

(** ** Index nodes: the two arrays are zipped into one *)
Notation arr := (list (option nat * option loc)).
Definition nd (al : nat) (l : loc) (p : option ptr) (i n : option nat) (a : arr) : hprop T :=
  (l ↦ ONode al (Node p i n a.*1 a.*2))%I.

Lemma wp_load_node al l p i n a Q E :
  nd al l p i n a -∗ (nd al l p i n a -∗ Q (l, al, Node p i n a.*1 a.*2)) -∗
  wp (load_node (Some l)) Q E.
Proof.
  iIntros "H HQ". rewrite /load_node. wp_bind. iApply (wp_load with "H"). iIntros "H".
  wp_ret. by iApply "HQ".
Qed.
Lemma wp_init {A} (a : A) (Q : A → hprop T) E : Q a -∗ wp (init (Some a)) Q E.
Proof. iIntros "H". by iApply wp_ret. Qed.
Lemma wp_elem {A} (l : list A) i a (Q : A → hprop T) E : l !! i = Some a → Q a -∗ wp (elem l i) Q E.
Proof. iIntros (Hl) "H". rewrite /elem Hl. by iApply wp_ret. Qed.

Lemma wp_parent_pointer al l p i n a Q E :
  nd al l (Some p) i n a -∗ (nd al l (Some p) i n a -∗ Q p) -∗ wp (parent_pointer (Some l)) Q E.
Proof.
  iIntros "H HQ". rewrite /parent_pointer. wp_bind. iApply (wp_load_node with "H"). iIntros "H".
  iApply wp_init. by iApply "HQ".
Qed.
Lemma wp_parent_index al l p i n a Q E :
  nd al l p (Some i) n a -∗ (nd al l p (Some i) n a -∗ Q i) -∗ wp (parent_index (Some l)) Q E.
Proof.
  iIntros "H HQ". rewrite /parent_index. wp_bind. iApply (wp_load_node with "H"). iIntros "H".
  iApply wp_init. by iApply "HQ".
Qed.
Lemma wp_length_of al l p i n a Q E :
  nd al l p i (Some n) a -∗ (nd al l p i (Some n) a -∗ Q n) -∗ wp (length_of (Some l)) Q E.
Proof.
  iIntros "H HQ". rewrite /length_of. wp_bind. iApply (wp_load_node with "H"). iIntros "H".
  iApply wp_init. by iApply "HQ".
Qed.
Lemma wp_sizes al l p i n a j s c Q E :
  a !! j = Some (Some s, c) →
  nd al l p i n a -∗ (nd al l p i n a -∗ Q s) -∗ wp (sizes (Some l) j) Q E.
Proof.
  iIntros (Hj) "H HQ". rewrite /sizes. wp_bind. iApply (wp_load_node with "H"). iIntros "H".
  wp_bind. iApply (wp_elem _ _ (Some s)). { by rewrite /= list_lookup_fmap Hj. }
  iApply wp_init. by iApply "HQ".
Qed.
Lemma wp_pointers al l p i n a j s c Q E :
  a !! j = Some (s, Some c) →
  nd al l p i n a -∗ (nd al l p i n a -∗ Q (Some c)) -∗ wp (pointers (Some l) j) Q E.
Proof.
  iIntros (Hj) "H HQ". rewrite /pointers. wp_bind. iApply (wp_load_node with "H"). iIntros "H".
  wp_bind. iApply (wp_elem _ _ (Some c)). { by rewrite /= list_lookup_fmap Hj. }
  wp_bind. iApply wp_init. wp_ret. by iApply "HQ".
Qed.

Lemma wp_set_parent_pointer al l p i n a q Q E :
  nd al l p i n a -∗ (nd al l (Some q) i n a -∗ Q ()) -∗ wp (set_parent_pointer (Some l) q) Q E.
Proof.
  iIntros "H HQ". rewrite /set_parent_pointer /set_node. wp_bind.
  iApply (wp_load_node with "H"). iIntros "H". wp_bind. wp_ret.
  iApply (wp_store with "H"). done.
Qed.
Lemma u16_small n : n ≤ base_max → u16 n = n.
Proof. intros. pose proof (ok_H _ OK). rewrite /u16 Nat.mod_small //. lia. Qed.
Lemma wp_set_parent_index al l p i n a j Q E :
  j ≤ base_max →
  nd al l p i n a -∗ (nd al l p (Some j) n a -∗ Q ()) -∗ wp (set_parent_index (Some l) j) Q E.
Proof.
  iIntros (Hj) "H HQ". rewrite /set_parent_index /set_node. wp_bind.
  iApply (wp_load_node with "H"). iIntros "H". wp_bind. wp_ret.
  iApply (wp_store with "H"). rewrite u16_small //.
Qed.
Lemma wp_set_length al l p i n a j Q E :
  j ≤ base_max →
  nd al l p i n a -∗ (nd al l p i (Some j) a -∗ Q ()) -∗ wp (set_length (Some l) j) Q E.
Proof.
  iIntros (Hj) "H HQ". rewrite /set_length /set_node. wp_bind.
  iApply (wp_load_node with "H"). iIntros "H". wp_bind. wp_ret.
  iApply (wp_store with "H"). rewrite u16_small //.
Qed.
Lemma wp_put {A} (l : list A) i a (Q : list A → hprop T) E :
  i < length l → Q (<[i := a]> l) -∗ wp (put l i a) Q E.
Proof.
  iIntros (Hi) "H". rewrite /put. rewrite (proj2 (Nat.ltb_lt _ _) Hi). by iApply wp_ret.
Qed.
Lemma wp_set_sizes al l p i n a j e s Q E :
  a !! j = Some e →
  nd al l p i n a -∗ (nd al l p i n (<[j := (Some s, e.2)]> a) -∗ Q ()) -∗
  wp (set_sizes (Some l) j s) Q E.
Proof.
  iIntros (Hj) "H HQ". rewrite /set_sizes /set_node. wp_bind.
  iApply (wp_load_node with "H"). iIntros "H". wp_bind. wp_bind. simpl.
  iApply wp_put. { rewrite fmap_length. by eapply lookup_lt_Some. }
  wp_ret. iApply (wp_store with "H").
  rewrite /nd !list_fmap_insert /= (list_insert_id (a.*2)); [by iIntros "H"; iApply "HQ"|].
  by rewrite list_lookup_fmap Hj.
Qed.
Lemma wp_set_pointers al l p i n a j e q Q E :
  a !! j = Some e →
  nd al l p i n a -∗ (nd al l p i n (<[j := (e.1, q)]> a) -∗ Q ()) -∗
  wp (set_pointers (Some l) j q) Q E.
Proof.
  iIntros (Hj) "H HQ". rewrite /set_pointers /set_node. wp_bind.
  iApply (wp_load_node with "H"). iIntros "H". wp_bind. wp_bind. simpl.
  iApply wp_put. { rewrite fmap_length. by eapply lookup_lt_Some. }
  wp_ret. iApply (wp_store with "H").
  rewrite /nd !list_fmap_insert /= (list_insert_id (a.*1)); [by iIntros "H"; iApply "HQ"|].
  by rewrite list_lookup_fmap Hj.
Qed.
Lemma wp_destroy_node al l p i n a j e Q E :
  a !! j = Some e →
  nd al l p i n a -∗ (nd al l p i n (<[j := (e.1, None)]> a) -∗ Q ()) -∗
  wp (destroy_node (Some l) j) Q E.
Proof. apply wp_set_pointers. Qed.

(** ** Segments *)
Notation slots := (list (option T)).
Definition sg (al : nat) (l : loc) (s : slots) : hprop T := (l ↦ OSeg al s)%I.

Lemma wp_load_seg al l s Q E :
  sg al l s -∗ (sg al l s -∗ Q (l, al, s)) -∗ wp (load_seg (Some l)) Q E.
Proof.
  iIntros "H HQ". rewrite /load_seg. wp_bind. iApply (wp_load with "H"). iIntros "H".
  wp_ret. by iApply "HQ".
Qed.
Lemma wp_slot al l s i c Q E :
  s !! i = Some c → sg al l s -∗ (sg al l s -∗ Q c) -∗ wp (slot (Some l) i) Q E.
Proof.
  iIntros (Hi) "H HQ". rewrite /slot. wp_bind. iApply (wp_load_seg with "H"). iIntros "H".
  iApply (wp_elem _ _ c); [done|]. by iApply "HQ".
Qed.
Lemma wp_set_slot al l s i c Q E :
  i < length s → sg al l s -∗ (sg al l (<[i := c]> s) -∗ Q ()) -∗ wp (set_slot (Some l) i c) Q E.
Proof.
  iIntros (Hi) "H HQ". rewrite /set_slot. wp_bind. iApply (wp_load_seg with "H"). iIntros "H".
  wp_bind. iApply wp_put; [done|]. iApply (wp_store with "H"). done.
Qed.
Lemma wp_read_slot al l s i v Q E :
  s !! i = Some (Some v) → sg al l s -∗ (sg al l s -∗ Q v) -∗ wp (read_slot (Some l) i) Q E.
Proof.
  iIntros (Hi) "H HQ". rewrite /read_slot. wp_bind. iApply (wp_slot with "H"); [done|].
  iIntros "H". wp_ret. by iApply "HQ".
Qed.
Lemma wp_destroy_segment al l s i v Q E :
  s !! i = Some (Some v) →
  sg al l s -∗ (sg al l (<[i := None]> s) -∗ Q ()) -∗ wp (destroy_segment (Some l) i) Q E.
Proof.
  iIntros (Hi) "H HQ". rewrite /destroy_segment. wp_bind. iApply (wp_slot with "H"); [done|].
  iIntros "H". iApply (wp_set_slot with "H"); [by eapply lookup_lt_Some|done].
Qed.

(** raw storage: no object whose destructor matters *)
Definition clean (c : option T) : Prop := c_triv_destroy C = true ∨ c = None.

Lemma wp_construct_segment al l s i c v Q E :
  s !! i = Some c → clean c →
  sg al l s -∗ (sg al l (<[i := Some v]> s) -∗ Q ()) -∗ wp (construct_segment (Some l) i v) Q E.
Proof.
  iIntros (Hi Hc) "H HQ". rewrite /construct_segment. wp_bind. iApply (wp_slot with "H"); [done|].
  iIntros "H". wp_bind. iApply wp_move_tick.
  assert (i < length s) by by eapply lookup_lt_Some.
  destruct c as [v'|].
  - destruct Hc as [->|?]; [|done]. by iApply (wp_set_slot with "H").
  - by iApply (wp_set_slot with "H").
Qed.
Lemma wp_assign_segment al l s i v v' Q E :
  s !! i = Some (Some v') →
  sg al l s -∗ (sg al l (<[i := Some v]> s) -∗ Q ()) -∗ wp (assign_segment (Some l) i v) Q E.
Proof.
  iIntros (Hi) "H HQ". rewrite /assign_segment. wp_bind. iApply (wp_slot with "H"); [done|].
  iIntros "H". wp_bind. iApply wp_move_tick.
  assert (i < length s) by by eapply lookup_lt_Some.
  by iApply (wp_set_slot with "H").
Qed.
Lemma wp_leave_residue al l s i v Q E :
  s !! i = Some (Some v) →
  sg al l s -∗ (sg al l (<[i := Some (c_residue C v)]> s) -∗ Q ()) -∗ wp (leave_residue (Some l) i) Q E.
Proof.
  iIntros (Hi) "H HQ". rewrite /leave_residue. wp_bind. iApply (wp_read_slot with "H"); [done|].
  iIntros "H". iApply (wp_set_slot with "H"); [by eapply lookup_lt_Some|done].
Qed.

(** move within one block *)
Lemma wp_move_assign_segment_same al l s i j v v' Q E :
  s !! i = Some (Some v) → s !! j = Some (Some v') → i ≠ j →
  sg al l s -∗
  (sg al l (<[i := Some (c_residue C v)]> (<[j := Some v]> s)) -∗ Q ()) -∗
  wp (move_assign_segment (Some l) i (Some l) j) Q E.
Proof.
  iIntros (Hi Hj Hij) "H HQ". rewrite /move_assign_segment.
  wp_bind. iApply (wp_read_slot with "H"); [done|]. iIntros "H".
  wp_bind. iApply (wp_assign_segment with "H"); [done|]. iIntros "H".
  iApply (wp_leave_residue _ _ _ _ v with "H"); [|done].
  by rewrite list_lookup_insert_ne.
Qed.
Lemma wp_move_segment_same al l s i j v c Q E :
  s !! i = Some (Some v) → s !! j = Some c → clean c → i ≠ j →
  sg al l s -∗
  (sg al l (<[i := Some (c_residue C v)]> (<[j := Some v]> s)) -∗ Q ()) -∗
  wp (move_segment (Some l) i (Some l) j) Q E.
Proof.
  iIntros (Hi Hj Hc Hij) "H HQ". rewrite /move_segment.
  wp_bind. iApply (wp_read_slot with "H"); [done|]. iIntros "H".
  wp_bind. iApply (wp_construct_segment with "H"); [done..|]. iIntros "H".
  iApply (wp_leave_residue _ _ _ _ v with "H"); [|done].
  by rewrite list_lookup_insert_ne.
Qed.
(** move between two blocks *)
Lemma wp_move_assign_segment al al' l l' s s' i j v v' Q E :
  s !! i = Some (Some v) → s' !! j = Some (Some v') →
  sg al l s -∗ sg al' l' s' -∗
  (sg al l (<[i := Some (c_residue C v)]> s) -∗ sg al' l' (<[j := Some v]> s') -∗ Q ()) -∗
  wp (move_assign_segment (Some l) i (Some l') j) Q E.
Proof.
  iIntros (Hi Hj) "H H' HQ". rewrite /move_assign_segment.
  wp_bind. iApply (wp_read_slot with "H"); [done|]. iIntros "H".
  wp_bind. iApply (wp_assign_segment with "H'"); [done|]. iIntros "H'".
  iApply (wp_leave_residue _ _ _ _ v with "H"); [done|].
  iIntros "H". by iApply ("HQ" with "H").
Qed.
Lemma wp_move_segment al al' l l' s s' i j v c Q E :
  s !! i = Some (Some v) → s' !! j = Some c → clean c →
  sg al l s -∗ sg al' l' s' -∗
  (sg al l (<[i := Some (c_residue C v)]> s) -∗ sg al' l' (<[j := Some v]> s') -∗ Q ()) -∗
  wp (move_segment (Some l) i (Some l') j) Q E.
Proof.
  iIntros (Hi Hj Hc) "H H' HQ". rewrite /move_segment.
  wp_bind. iApply (wp_read_slot with "H"); [done|]. iIntros "H".
  wp_bind. iApply (wp_construct_segment with "H'"); [done..|]. iIntros "H'".
  iApply (wp_leave_residue _ _ _ _ v with "H"); [done|].
  iIntros "H". by iApply ("HQ" with "H").
Qed.

(** ** Modular arithmetic in range *)
Lemma wsub_small a b : b ≤ a → a < c_W C → wsub a b = a - b.
Proof.
  intros. rewrite /wsub. replace (a + c_W C - b) with (a - b + 1 * c_W C) by lia.
  rewrite Nat.mod_add; [|lia]. apply Nat.mod_small. lia.
Qed.
Lemma wadd_small a b : a + b < c_W C → wadd a b = a + b.
Proof. intros. rewrite /wadd. by apply Nat.mod_small. Qed.

(** ** Array shifts in a segment *)
Lemma snoc_app {A} (l1 l2 : list A) x : l1 ++ x :: l2 = (l1 ++ [x]) ++ l2.
Proof. by rewrite -assoc_L. Qed.
Lemma insert_mid {A} (l1 l2 : list A) x y i :
  i = length l1 → <[i := y]> (l1 ++ x :: l2) = l1 ++ y :: l2.
Proof. intros ->. rewrite insert_app_r_alt; [|lia]. by rewrite Nat.sub_diag. Qed.
Lemma lookup_mid {A} (l1 l2 : list A) x i :
  i = length l1 → (l1 ++ x :: l2) !! i = Some x.
Proof. intros ->. by apply list_lookup_middle. Qed.

Lemma wp_memmove_slots al l s di si count Q E :
  si + count ≤ length s → di + count ≤ length s →
  sg al l s -∗
  (sg al l (take di s ++ take count (drop si s) ++ drop (di + count) s) -∗ Q ()) -∗
  wp (memmove_slots (Some l) di si count) Q E.
Proof.
  iIntros (H1 H2) "H HQ". rewrite /memmove_slots. wp_bind.
  iApply (wp_load_seg with "H"). iIntros "H". simpl.
  rewrite (proj2 (Nat.leb_le _ _) H1) (proj2 (Nat.leb_le _ _) H2) /=.
  iApply (wp_store with "H"). done.
Qed.

Lemma wp_assign_forward_segment_loop al l A xs d B n from to Q E :
  n = length xs → from = length A + length xs → to = from + 1 → to < c_W C →
  sg al l (A ++ (Some <$> xs) ++ Some d :: B) -∗
  (∀ d', sg al l (A ++ Some d' :: (Some <$> xs) ++ B) -∗ Q ()) -∗
  wp (assign_forward_segment_loop (Some l) n from to) Q E.
Proof.
  iIntros (-> -> -> HW) "H HQ".
  iInduction xs as [|x xs] "IH" using rev_ind forall (d B HW); simpl.
  { wp_ret. by iApply "HQ". }
  rewrite app_length /= (Nat.add_comm (length xs) 1) /=.
  rewrite app_length /= in HW.
  rewrite wsub_small; [|lia..]. rewrite wsub_small; [|lia..].
  wp_bind.
  rewrite fmap_app /=.
  replace (A ++ ((Some <$> xs) ++ [Some x]) ++ Some d :: B)
    with ((A ++ (Some <$> xs)) ++ Some x :: Some d :: B) by by rewrite -!assoc_L.
  iApply (wp_move_assign_segment_same _ _ _ _ _ x d with "H").
  { apply lookup_mid. rewrite app_length fmap_length. lia. }
  { rewrite snoc_app. apply lookup_mid. rewrite !app_length fmap_length /=. lia. }
  { lia. }
  iIntros "H".
  rewrite (snoc_app _ (_ :: _) (Some x)) (insert_mid _ B (Some d)); last first.
  { rewrite !app_length fmap_length /=. lia. }
  rewrite -(snoc_app _ (Some x :: B)) insert_mid; last first.
  { rewrite !app_length fmap_length /=. lia. }
  replace (length A + S (length xs) - 1) with (length A + length xs) by lia.
  replace (length A + S (length xs) + 1 - 1) with (length A + length xs + 1) by lia.
  rewrite -(assoc_L _ A).
  iApply ("IH" with "[%] H"); [lia|].
  iIntros (d') "H". iApply "HQ". rewrite -(assoc_L _ (Some <$> xs)) /=. done.
Qed.

Lemma wp_assign_forward_segment al l A xs d B len idx Q E :
  idx = length A → len = length A + length xs → len + 1 < c_W C →
  sg al l (A ++ (Some <$> xs) ++ Some d :: B) -∗
  (∀ d', sg al l (A ++ Some d' :: (Some <$> xs) ++ B) -∗ Q ()) -∗
  wp (assign_forward_segment (Some l) len idx 1) Q E.
Proof.
  iIntros (-> -> HW) "H HQ". rewrite /assign_forward_segment.
  rewrite wsub_small; [|lia..].
  replace (length A + length xs - length A) with (length xs) by lia.
  destruct (c_triv_copy C).
  - iApply (wp_memmove_slots with "H").
    { rewrite !app_length fmap_length /=. lia. }
    { rewrite !app_length fmap_length /=. lia. }
    iIntros "H".
    rewrite drop_app_alt; [|done].
    rewrite (take_app_alt (Some <$> xs)); [|by rewrite fmap_length].
    assert (∃ d', take (length A + 1) (A ++ (Some <$> xs) ++ Some d :: B) = A ++ [Some d']) as [d' ->].
    { destruct xs as [|x xs]; simpl; rewrite snoc_app; eexists;
        apply take_app_alt; rewrite app_length; done. }
    rewrite (drop_app_ge A); [|lia].
    replace (length A + 1 + length xs - length A) with (length xs + 1) by lia.
    rewrite (drop_app_ge (Some <$> xs)); [|rewrite fmap_length; lia]. rewrite fmap_length.
    replace (length xs + 1 - length xs) with 1 by lia. simpl. rewrite drop_0.
    iApply ("HQ" $! d'). by rewrite -assoc_L.
  - by iApply (wp_assign_forward_segment_loop with "H HQ").
Qed.

Lemma wp_assign_backward_segment_loop al l A xs d B n from to Q E :
  n = length xs → to = length A → from = length A + 1 →
  sg al l (A ++ Some d :: (Some <$> xs) ++ B) -∗
  (∀ d', sg al l (A ++ (Some <$> xs) ++ Some d' :: B) -∗ Q ()) -∗
  wp (assign_backward_segment_loop (Some l) n from to) Q E.
Proof.
  iIntros (-> -> ->) "H HQ".
  iInduction xs as [|x xs] "IH" forall (A d); simpl.
  { wp_ret. by iApply "HQ". }
  wp_bind. iApply (wp_move_assign_segment_same _ _ _ _ _ x d with "H").
  { rewrite snoc_app. apply lookup_mid. rewrite app_length /=. lia. }
  { by apply lookup_mid. }
  { lia. }
  iIntros "H". rewrite insert_mid // snoc_app insert_mid; last first.
  { rewrite app_length /=. done. }
  replace (length A + 1) with (length (A ++ [Some x])) by by rewrite app_length.
  iApply ("IH" with "H").
  iIntros (d') "H". iApply "HQ". by rewrite -assoc_L.
Qed.

Lemma wp_assign_backward_segment al l A xs d B len idx Q E :
  idx = length A → len = length A + length xs → len < c_W C →
  sg al l (A ++ Some d :: (Some <$> xs) ++ B) -∗
  (∀ d', sg al l (A ++ (Some <$> xs) ++ Some d' :: B) -∗ Q ()) -∗
  wp (assign_backward_segment (Some l) len idx 1) Q E.
Proof.
  iIntros (-> -> HW) "H HQ". rewrite /assign_backward_segment.
  rewrite wsub_small; [|lia..].
  replace (length A + length xs - length A) with (length xs) by lia.
  destruct (c_triv_copy C).
  - iApply (wp_memmove_slots with "H").
    { rewrite !app_length /= app_length fmap_length. lia. }
    { rewrite !app_length /= app_length fmap_length. lia. }
    iIntros "H".
    rewrite take_app_alt; [|done].
    rewrite (drop_app_ge A (_ :: _)); [|lia].
    replace (length A + 1 - length A) with 1 by lia. simpl. rewrite drop_0.
    rewrite (take_app_alt (Some <$> xs)); [|by rewrite fmap_length].
    rewrite (drop_app_ge A (_ :: _)); [|lia].
    replace (length A + length xs - length A) with (length xs) by lia.
    assert (∃ d', drop (length xs) (Some d :: (Some <$> xs) ++ B) = Some d' :: B) as [d' ->].
    { clear HW. induction xs as [|x xs IH] using rev_ind; [by exists d|].
      exists x. rewrite app_length fmap_app -assoc_L /= Nat.add_comm /=.
      rewrite drop_app_alt //. by rewrite fmap_length. }
    by iApply "HQ".
  - by iApply (wp_assign_backward_segment_loop with "H HQ").
Qed.

(** ** Moving a range of elements into raw storage of another segment *)
Lemma wp_memcpy_slots al al' l l' s s' si di count Q E :
  si + count ≤ length s → di + count ≤ length s' →
  sg al l s -∗ sg al' l' s' -∗
  (sg al l s -∗ sg al' l' (take di s' ++ take count (drop si s) ++ drop (di + count) s') -∗ Q ()) -∗
  wp (memcpy_slots (Some l) si (Some l') di count) Q E.
Proof.
  iIntros (H1 H2) "H H' HQ". rewrite /memcpy_slots.
  iDestruct (pointsto_ne with "H H'") as %Hne.
  wp_bind. iApply (wp_load_seg with "H"). iIntros "H". simpl.
  wp_bind. iApply (wp_load_seg with "H'"). iIntros "H'". simpl.
  rewrite bool_decide_eq_false_2 //.
  rewrite (proj2 (Nat.leb_le _ _) H1) (proj2 (Nat.leb_le _ _) H2) /=.
  iApply (wp_store with "H'"). iIntros "H'". iApply ("HQ" with "H H'").
Qed.

Lemma wp_construct_range_loop al al' l l' A xs B A' D B' from to count Q E :
  from = length A → to = length A' → count = length xs → length D = length xs →
  Forall clean D →
  sg al l (A ++ (Some <$> xs) ++ B) -∗ sg al' l' (A' ++ D ++ B') -∗
  (sg al l (A ++ replicate (length xs) None ++ B) -∗ sg al' l' (A' ++ (Some <$> xs) ++ B') -∗ Q ()) -∗
  wp (construct_range_loop (Some l) from (Some l') to count) Q E.
Proof.
  iIntros (-> -> -> HD HC) "H H' HQ".
  iInduction xs as [|x xs] "IH" forall (A A' D HD HC); simpl.
  { destruct D; [|done]. wp_ret. iApply ("HQ" with "H H'"). }
  destruct D as [|d D]; [done|]. simplify_eq/=.
  apply Forall_cons in HC as [Hd HC].
  wp_bind. iApply (wp_move_segment with "H H'").
  1-2: by apply lookup_mid. { done. }
  iIntros "H H'". rewrite !insert_mid //.
  wp_bind. iApply (wp_destroy_segment with "H"); [by apply lookup_mid|].
  iIntros "H". rewrite insert_mid //.
  rewrite (snoc_app A ((Some <$> xs) ++ B) None) (snoc_app A' (D ++ B') (Some x)).
  replace (length A + 1) with (length (A ++ [None])) by by rewrite app_length.
  replace (length A' + 1) with (length (A' ++ [Some x])) by by rewrite app_length.
  iApply ("IH" with "[//] [//] H H'").
  iIntros "H H'". rewrite -!assoc_L /=. iApply ("HQ" with "H H'").
Qed.

Lemma wp_construct_range_segment al al' l l' A xs B A' D B' from to count Q E :
  from = length A → to = length A' → count = length xs → length D = length xs →
  Forall clean D →
  sg al l (A ++ (Some <$> xs) ++ B) -∗ sg al' l' (A' ++ D ++ B') -∗
  (∀ J, ⌜length J = length xs⌝ → ⌜Forall clean J⌝ →
    sg al l (A ++ J ++ B) -∗ sg al' l' (A' ++ (Some <$> xs) ++ B') -∗ Q ()) -∗
  wp (construct_range_segment (Some l) from (Some l') to count) Q E.
Proof.
  iIntros (-> -> -> HD HC) "H H' HQ". rewrite /construct_range_segment.
  destruct (c_triv_copy C) eqn:Htc; simpl; [destruct (c_std_construct C)|].
  - iApply (wp_memcpy_slots with "H H'").
    { rewrite !app_length fmap_length. lia. }
    { rewrite !app_length. lia. }
    iIntros "H H'". iApply ("HQ" with "[%] [%] H").
    { by rewrite fmap_length. }
    { apply Forall_forall. intros. left. by apply OK. }
    rewrite (take_app_alt A') // (drop_app_alt A) // (take_app_alt (Some <$> xs)) ?fmap_length //.
    rewrite drop_app_ge; [|lia]. rewrite drop_app_alt; [|lia]. done.
  - iApply (wp_construct_range_loop with "H H'"); [done..|].
    iIntros "H H'". iApply ("HQ" with "[%] [%] H H'"); [by rewrite replicate_length|].
    apply Forall_replicate. by right.
  - iApply (wp_construct_range_loop with "H H'"); [done..|].
    iIntros "H H'". iApply ("HQ" with "[%] [%] H H'"); [by rewrite replicate_length|].
    apply Forall_replicate. by right.
Qed.

End prim.
