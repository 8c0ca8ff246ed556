(** * NodeOps: proof rules for the operations on arrays of children
    (lines 1278-1297, 1305-1340, 1348-1363, 1403-1435, 1459-1490, 1514-1567 of
    seq.hpp).  The leaf and branch versions are treated uniformly: [k] is true
    for the branch version.  Proof infrastructure only. *)
From Verif Require Export Tree.
From stdpp Require Import options.
Set Default Proof Using "Type*".

(** ** Uniform names *)
Section nodeops_defs.
Context {T : Type} {C : cfg T} {FZ : frozen T}.
Definition g_construct (k : bool) := if k then construct_branch (T:=T) (C:=C) else construct_leaf.
Definition g_assign (k : bool) := if k then assign_branch (T:=T) (C:=C) else assign_leaf.
Definition g_move_assign (k : bool) := if k then move_assign_branch (T:=T) (C:=C) else move_assign_leaf.
Definition g_move (k : bool) := if k then move_branch (T:=T) (C:=C) else move_leaf.
Context (k : bool).
Fixpoint g_construct_range (src : ptr) (from : nat) (dst : ptr) (to count : nat) : M T nat :=
  match count with
  | 0 => mret 0
  | S count' =>
    s ← g_move_assign k src from dst to;
    r ← g_construct_range src (from + 1) dst (to + 1) count';
    mret (wadd s r)
  end.
Fixpoint g_assign_forward_loop (p : ptr) (n from to : nat) : M T unit :=
  match n with
  | 0 => mret ()
  | S n' =>
    let from := wsub from 1 in
    let to := wsub to 1 in
    g_move_assign k p from p to;;
    g_assign_forward_loop p n' from to
  end.
Definition g_assign_forward (p : ptr) (length index distance : nat) : M T unit :=
  g_assign_forward_loop p (wsub length index) length (length + distance).
Fixpoint g_assign_backward_loop (p : ptr) (n from to : nat) : M T unit :=
  match n with
  | 0 => mret ()
  | S n' =>
    g_move_assign k p from p to;;
    g_assign_backward_loop p n' (from + 1) (to + 1)
  end.
Definition g_assign_backward (p : ptr) (length index distance : nat) : M T unit :=
  g_assign_backward_loop p (wsub length index) (index + distance) index.

End nodeops_defs.

Section nodeops.
Context {T : Type} {C : cfg T} {OK : cfg_ok C} {FZ : frozen T}.
Context (ea na : nat).
Implicit Types t : tree T.
Implicit Types c : ctx T.
Notation tr := (tr ea na).
Notation kidst := (kidst ea na).
Notation ctxp := (ctxp ea na).


Lemma construct_range_leaf_g : construct_range_leaf = g_construct_range false.
Proof. reflexivity. Qed.
Lemma construct_range_branch_g : construct_range_branch = g_construct_range true.
Proof. reflexivity. Qed.
Lemma assign_forward_leaf_g : assign_forward_leaf = g_assign_forward false.
Proof. reflexivity. Qed.
Lemma assign_forward_branch_g : assign_forward_branch = g_assign_forward true.
Proof. reflexivity. Qed.
Lemma assign_backward_leaf_g : assign_backward_leaf = g_assign_backward false.
Proof. reflexivity. Qed.
Lemma assign_backward_branch_g : assign_backward_branch = g_assign_backward true.
Proof. reflexivity. Qed.

(** [k] is right for children of height [h] *)
Definition kh (k : bool) (h : nat) : Prop := if k then 2 ≤ h else h = 1.

(** ** Re-parenting a subtree *)
Lemma wp_set_parent_pointer_tr h p i t q Q E :
  2 ≤ h →
  tr h p i t -∗ (tr h (Some q) i t -∗ Q ()) -∗ wp (set_parent_pointer (Some (tloc t)) q) Q E.
Proof.
  iIntros (Hh) "H HQ". destruct h as [|h]; [lia|]. destruct t as [l xs|l ts].
  { rewrite tr_Seg. iDestruct "H" as "[%Hz _H]". lia. }
  rewrite tr_Nd. iDestruct "H" as (junk Hj) "[Hn Hk]".
  iApply (wp_set_parent_pointer with "Hn"). iIntros "Hn". iApply "HQ".
  rewrite tr_Nd. iExists junk. iFrame. done.
Qed.
Lemma wp_set_parent_index_tr h p i t j Q E :
  2 ≤ h → j ≤ base_max →
  tr h p i t -∗ (tr h p (Some j) t -∗ Q ()) -∗ wp (set_parent_index (Some (tloc t)) j) Q E.
Proof.
  iIntros (Hh Hle) "H HQ". destruct h as [|h]; [lia|]. destruct t as [l xs|l ts].
  { rewrite tr_Seg. iDestruct "H" as "[%Hz _H]". lia. }
  rewrite tr_Nd. iDestruct "H" as (junk Hj) "[Hn Hk]".
  iApply (wp_set_parent_index with "Hn"); [done..|]. iIntros "Hn". iApply "HQ".
  rewrite tr_Nd. iExists junk. iFrame. done.
Qed.

(** ** Storing a child *)
Lemma wp_g_construct k h al l p pi n a i sz q j t Q E :
  kh k h → i < length a → i ≤ base_max →
  nd al l p pi n a -∗ tr h q j t -∗
  (nd al l p pi n (<[i := (Some sz, Some (tloc t))]> a) -∗ tr h (Some (Some l)) (Some i) t -∗ Q sz) -∗
  wp (g_construct k (Some l) i sz (Some (tloc t))) Q E.
Proof.
  iIntros (Hk Hi Hle) "Hn Ht HQ".
  apply lookup_lt_is_Some in Hi as [e He].
  destruct k; rewrite /g_construct.
  - rewrite /construct_branch. wp_bind. iApply (wp_set_sizes with "Hn"); [done|]. iIntros "Hn".
    wp_bind. iApply (wp_set_parent_pointer_tr with "Ht"); [done|]. iIntros "Ht".
    wp_bind. iApply (wp_set_parent_index_tr with "Ht"); [done..|]. iIntros "Ht".
    wp_bind. iApply (wp_set_pointers with "Hn").
    { apply list_lookup_insert. by eapply lookup_lt_Some. }
    iIntros "Hn". wp_ret. simpl. rewrite list_insert_insert. iApply ("HQ" with "Hn Ht").
  - rewrite /construct_leaf. wp_bind. iApply (wp_set_sizes with "Hn"); [done|]. iIntros "Hn".
    wp_bind. iApply (wp_set_pointers with "Hn").
    { apply list_lookup_insert. by eapply lookup_lt_Some. }
    iIntros "Hn". wp_ret. simpl. rewrite list_insert_insert. rewrite /kh in Hk. subst h.
    iApply ("HQ" with "Hn [Ht]"). by iApply tr_1.
Qed.
Lemma wp_g_assign k h al l p pi n a i sz q j t Q E :
  kh k h → i < length a → i ≤ base_max →
  nd al l p pi n a -∗ tr h q j t -∗
  (nd al l p pi n (<[i := (Some sz, Some (tloc t))]> a) -∗ tr h (Some (Some l)) (Some i) t -∗ Q sz) -∗
  wp (g_assign k (Some l) i sz (Some (tloc t))) Q E.
Proof.
  replace (g_assign k) with (g_construct k) by by destruct k. apply wp_g_construct.
Qed.

(** ** Moving a child *)
Lemma wp_g_move_assign_same k h al l p pi n a si di q j t Q E :
  kh k h → a !! si = Some (entry t) → di < length a → di ≤ base_max →
  nd al l p pi n a -∗ tr h q j t -∗
  (nd al l p pi n (<[di := entry t]> a) -∗ tr h (Some (Some l)) (Some di) t -∗ Q (tsize t)) -∗
  wp (g_move_assign k (Some l) si (Some l) di) Q E.
Proof.
  iIntros (Hk Hs Hi Hle) "Hn Ht HQ".
  assert (g_move_assign k (Some l) si (Some l) di =
    (s ← sizes (Some l) si; c ← pointers (Some l) si; g_assign k (Some l) di s c)) as ->.
  { by destruct k. }
  wp_bind. iApply (wp_sizes with "Hn"); [done|]. iIntros "Hn".
  wp_bind. iApply (wp_pointers with "Hn"); [done|]. iIntros "Hn".
  iApply (wp_g_assign with "Hn Ht HQ"); done.
Qed.
Lemma wp_g_move_assign k h al al' l l' p pi n a p' pi' n' a' si di q j t Q E :
  kh k h → a !! si = Some (entry t) → di < length a' → di ≤ base_max →
  nd al l p pi n a -∗ nd al' l' p' pi' n' a' -∗ tr h q j t -∗
  (nd al l p pi n a -∗ nd al' l' p' pi' n' (<[di := entry t]> a') -∗
   tr h (Some (Some l')) (Some di) t -∗ Q (tsize t)) -∗
  wp (g_move_assign k (Some l) si (Some l') di) Q E.
Proof.
  iIntros (Hk Hs Hi Hle) "Hn Hn' Ht HQ".
  assert (g_move_assign k (Some l) si (Some l') di =
    (s ← sizes (Some l) si; c ← pointers (Some l) si; g_assign k (Some l') di s c)) as ->.
  { by destruct k. }
  wp_bind. iApply (wp_sizes with "Hn"); [done|]. iIntros "Hn".
  wp_bind. iApply (wp_pointers with "Hn"); [done|]. iIntros "Hn".
  iApply (wp_g_assign with "Hn' Ht"); [done..|]. iIntros "Hn' Ht".
  iApply ("HQ" with "Hn Hn' Ht").
Qed.
Lemma wp_g_move_same k h al l p pi n a si di q j t Q E :
  kh k h → a !! si = Some (entry t) → di < length a → di ≤ base_max →
  nd al l p pi n a -∗ tr h q j t -∗
  (nd al l p pi n (<[di := entry t]> a) -∗ tr h (Some (Some l)) (Some di) t -∗ Q (tsize t)) -∗
  wp (g_move k (Some l) si (Some l) di) Q E.
Proof.
  iIntros (Hk Hs Hi Hle) "Hn Ht HQ".
  assert (g_move k (Some l) si (Some l) di =
    (s ← sizes (Some l) si; c ← pointers (Some l) si; g_construct k (Some l) di s c;; mret s)) as ->.
  { by destruct k. }
  wp_bind. iApply (wp_sizes with "Hn"); [done|]. iIntros "Hn".
  wp_bind. iApply (wp_pointers with "Hn"); [done|]. iIntros "Hn".
  wp_bind. iApply (wp_g_construct with "Hn Ht"); [done..|]. iIntros "Hn Ht".
  wp_ret. iApply ("HQ" with "Hn Ht").
Qed.
Lemma wp_g_move k h al al' l l' p pi n a p' pi' n' a' si di q j t Q E :
  kh k h → a !! si = Some (entry t) → di < length a' → di ≤ base_max →
  nd al l p pi n a -∗ nd al' l' p' pi' n' a' -∗ tr h q j t -∗
  (nd al l p pi n a -∗ nd al' l' p' pi' n' (<[di := entry t]> a') -∗
   tr h (Some (Some l')) (Some di) t -∗ Q (tsize t)) -∗
  wp (g_move k (Some l) si (Some l') di) Q E.
Proof.
  iIntros (Hk Hs Hi Hle) "Hn Hn' Ht HQ".
  assert (g_move k (Some l) si (Some l') di =
    (s ← sizes (Some l) si; c ← pointers (Some l) si; g_construct k (Some l') di s c;; mret s)) as ->.
  { by destruct k. }
  wp_bind. iApply (wp_sizes with "Hn"); [done|]. iIntros "Hn".
  wp_bind. iApply (wp_pointers with "Hn"); [done|]. iIntros "Hn".
  wp_bind. iApply (wp_g_construct with "Hn' Ht"); [done..|]. iIntros "Hn' Ht".
  wp_ret. iApply ("HQ" with "Hn Hn' Ht").
Qed.

(** ** Moving a range of children to another node *)
Lemma wp_g_construct_range k h al al' l l' p pi n p' pi' n' A ts B A' D B' from to count Q E :
  kh k h → from = length A → to = length A' → count = length ts → length D = length ts →
  length (A' ++ D ++ B') = base_max → fsize ts < c_W C →
  nd al l p pi n (A ++ (entry <$> ts) ++ B) -∗ nd al' l' p' pi' n' (A' ++ D ++ B') -∗
  kidst h l from ts -∗
  (nd al l p pi n (A ++ (entry <$> ts) ++ B) -∗ nd al' l' p' pi' n' (A' ++ (entry <$> ts) ++ B') -∗
   kidst h l' to ts -∗ Q (fsize ts)) -∗
  wp (g_construct_range k (Some l) from (Some l') to count) Q E.
Proof.
  iIntros (Hk -> -> -> HD Hlen HW) "H H' Hks HQ".
  iInduction ts as [|t ts] "IH" forall (A A' D HD Hlen HW Q); simpl.
  { destruct D; [|done]. wp_ret. iApply ("HQ" with "H H' Hks"). }
  destruct D as [|d D]; [done|]. simplify_eq/=.
  rewrite fsize_cons in HW. rewrite !kidst_cons. iDestruct "Hks" as "[Ht Hks]".
  wp_bind. iApply (wp_g_move_assign with "H H' Ht"); [done|by apply lookup_mid|..].
  { rewrite app_length /=. lia. }
  { rewrite app_length /= in Hlen. lia. }
  iIntros "H H' Ht". rewrite insert_mid //.
  rewrite (snoc_app A ((entry <$> ts) ++ B)) (snoc_app A' (D ++ B')).
  replace (length A + 1) with (length (A ++ [entry t])) by by rewrite app_length.
  replace (length A' + 1) with (length (A' ++ [entry t])) by by rewrite app_length.
  replace (S (length A)) with (length (A ++ [entry t])) by (rewrite app_length /=; lia).
  wp_bind. iApply ("IH" with "[//] [%] [%] H H' Hks").
  { len. }
  { lia. }
  iIntros "H H' Hks". wp_ret. rewrite wadd_small // fsize_cons.
  rewrite -!snoc_app app_length /= (Nat.add_comm _ 1).
  iApply ("HQ" with "H H' [$Ht $Hks]").
Qed.

(** ** Shifts *)
Lemma wp_g_assign_forward k h al l p pi n A ts d B len idx Q E :
  kh k h → idx = length A → len = length A + length ts →
  length (A ++ (entry <$> ts) ++ d :: B) = base_max →
  nd al l p pi n (A ++ (entry <$> ts) ++ d :: B) -∗ kidst h l idx ts -∗
  (∀ d', nd al l p pi n (A ++ d' :: (entry <$> ts) ++ B) -∗ kidst h l (S idx) ts -∗ Q ()) -∗
  wp (g_assign_forward k (Some l) len idx 1) Q E.
Proof.
  iIntros (Hk -> -> Hlen) "H Hks HQ". pose proof (ok_W _ OK) as HW.
  rewrite !app_length /= fmap_length in Hlen.
  rewrite /g_assign_forward. rewrite wsub_small; [|lia..].
  replace (length A + length ts - length A) with (length ts) by lia.
  iInduction ts as [|t ts] "IH" using rev_ind forall (d B Hlen); simpl.
  { wp_ret. by iApply ("HQ" with "H"). }
  rewrite app_length /= (Nat.add_comm (length ts) 1) /=. rewrite app_length /= in Hlen.
  rewrite wsub_small; [|lia..]. rewrite wsub_small; [|lia..].
  rewrite fmap_app -assoc_L /= !kidst_app /=.
  iDestruct "Hks" as "[Hks Ht]". rewrite kidst_cons kidst_nil right_id.
  replace (length A + S (length ts) - 1) with (length A + length ts) by lia.
  replace (length A + S (length ts) + 1 - 1) with (length A + length ts + 1) by lia.
  rewrite (assoc_L _ A (entry <$> ts)).
  wp_bind. iApply (wp_g_move_assign_same with "H Ht"); [done|..].
  { apply lookup_mid. by rewrite app_length fmap_length. }
  { rewrite !app_length fmap_length /=. lia. }
  { lia. }
  iIntros "H Ht". rewrite (snoc_app _ (d :: B)) (insert_mid _ B d); last len.
  rewrite -(snoc_app _ (entry t :: B)) -(assoc_L _ A).
  iApply ("IH" with "[%] H Hks"); [simpl; lia|].
  iIntros (d') "H Hks". iApply ("HQ" with "[H] [Hks Ht]").
  - rewrite -(assoc_L _ (entry <$> ts)) /=. done.
  - rewrite kidst_app kidst_cons kidst_nil right_id. iFrame "Hks".
    by rewrite Nat.add_1_r.
Qed.

Lemma wp_g_assign_backward k h al l p pi n A ts d B len idx Q E :
  kh k h → idx = length A → len = length A + length ts →
  length (A ++ d :: (entry <$> ts) ++ B) = base_max →
  nd al l p pi n (A ++ d :: (entry <$> ts) ++ B) -∗ kidst h l (S idx) ts -∗
  (∀ d', nd al l p pi n (A ++ (entry <$> ts) ++ d' :: B) -∗ kidst h l idx ts -∗ Q ()) -∗
  wp (g_assign_backward k (Some l) len idx 1) Q E.
Proof.
  iIntros (Hk -> -> Hlen) "H Hks HQ". pose proof (ok_W _ OK) as HW.
  rewrite !app_length /= app_length fmap_length in Hlen.
  rewrite /g_assign_backward. rewrite wsub_small; [|lia..].
  replace (length A + length ts - length A) with (length ts) by lia.
  iInduction ts as [|t ts] "IH" forall (A d Hlen); simpl.
  { wp_ret. by iApply ("HQ" with "H"). }
  rewrite !kidst_cons. iDestruct "Hks" as "[Ht Hks]".
  simpl in Hlen.
  wp_bind. iApply (wp_g_move_assign_same with "H Ht"); [done|..].
  { rewrite snoc_app. apply lookup_mid. by rewrite app_length. }
  { rewrite !app_length /= app_length fmap_length /=. lia. }
  { lia. }
  iIntros "H Ht". rewrite insert_mid //.
  rewrite (snoc_app A).
  replace (length A + 1) with (length (A ++ [entry t])) by by rewrite app_length.
  replace (S (length A)) with (length (A ++ [entry t])) by (rewrite app_length /=; lia).
  iApply ("IH" with "[%] H Hks").
  { rewrite !app_length /=. lia. }
  iIntros (d') "H Hks". iApply ("HQ" with "[H] [Ht Hks]").
  - rewrite -snoc_app //.
  - rewrite kidst_cons app_length /= Nat.add_1_r. iFrame.
Qed.

End nodeops.
