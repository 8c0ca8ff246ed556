(** * Insert: insert_single (lines 1602-1807 of seq.hpp) is correct.
    Proof infrastructure; the user-level theorems are in the Properties files. *)
From Verif Require Export Update.
From stdpp Require Import options.
Set Default Proof Using "Type*".

Section placed.
Context {T : Type} {FZ : frozen T}.
Implicit Types t x : tree T.
Implicit Types c : ctx T.
Implicit Types cs ts L R : list (tree T).

(** [t'] contains the trees [cs], in order, between the segments to the left of
    [c] and those to the right of [c]. *)
Definition placed (c : ctx T) (cs : list (tree T)) (t' : tree T) : Prop :=
  ∀ A x B, cs = A ++ x :: B →
    ∃ c', t' = plug c' x ∧ csl c' = csl c ++ fsegs A ∧ csr c' = fsegs B ++ csr c.

Lemma placed_plug c x : placed c [x] (plug c x).
Proof.
  intros A y B Heq. destruct A as [|a A]; [|by destruct A]. simplify_eq/=.
  exists c. by rewrite fsegs_nil right_id_L.
Qed.
Lemma placed_app_inv c L cs R t' l :
  placed c (L ++ cs ++ R) t' → placed ((l, L, R) :: c) cs t'.
Proof.
  intros H A x B ->. destruct (H (L ++ A) x (B ++ R)) as (c' & -> & Hl & Hr).
  { by rewrite -!assoc_L. }
  exists c'. rewrite Hl Hr !fsegs_app /=. by rewrite -!assoc_L.
Qed.
(** opening one node *)
Lemma placed_open c L l X R t' :
  placed c (L ++ Nd l X :: R) t' → placed c (L ++ X ++ R) t'.
Proof.
  intros H A x B Heq.
  assert ((∃ L', L = A ++ x :: L' ∧ B = L' ++ X ++ R) ∨
          (∃ X1 X2, X = X1 ++ x :: X2 ∧ A = L ++ X1 ∧ B = X2 ++ R) ∨
          (∃ R1, R = R1 ++ x :: B ∧ A = L ++ X ++ R1)) as Hcase.
  { symmetry in Heq. apply app_eq_inv in Heq as [(k & -> & Hk)|(k & -> & Hk)].
    - right. symmetry in Hk. apply app_eq_inv in Hk as [(k' & -> & Hk)|(k' & -> & Hk)].
      + right. by exists k'.
      + destruct k' as [|y k']; simplify_eq/=.
        * right. exists []. by rewrite !right_id_L.
        * left. by exists k, k'.
    - destruct k as [|y k]; simplify_eq/=.
      + rewrite right_id_L. right. destruct X as [|z X]; simplify_eq/=.
        * right. exists []. by rewrite right_id_L.
        * left. exists [], X. by rewrite right_id_L.
      + left. by exists k. }
  destruct Hcase as [(L' & -> & ->)|[(X1 & X2 & -> & -> & ->)|(R1 & -> & ->)]].
  - destruct (H A x (L' ++ Nd l X :: R)) as (c' & -> & Hl & Hr); [by rewrite -!assoc_L|].
    exists c'. rewrite Hl Hr !fsegs_app fsegs_cons tsegs_Nd. done.
  - destruct (H L (Nd l (X1 ++ x :: X2)) R eq_refl) as (c' & -> & Hl & Hr).
    exists ((l, X1, X2) :: c'). simpl. rewrite Hl Hr !fsegs_app -!assoc_L. done.
  - destruct (H (L ++ Nd l X :: R1) x B) as (c' & -> & Hl & Hr); [by rewrite -!assoc_L|].
    exists c'. rewrite Hl Hr !fsegs_app fsegs_cons tsegs_Nd. done.
Qed.
Lemma placed_root l cs : placed [] cs (Nd l cs).
Proof.
  pose proof (placed_plug [] (Nd l cs)) as H. simpl in H.
  apply (placed_open [] [] l cs []) in H. by rewrite /= right_id_L in H.
Qed.

(** number of blocks *)
Fixpoint nblk (t : tree T) : nat :=
  match t with Seg _ _ => 1 | Nd _ ts => S (sum_list (nblk <$> ts)) end.
Definition fblk (ts : list (tree T)) : nat := sum_list (nblk <$> ts).
Fixpoint cblk (c : ctx T) : nat :=
  match c with [] => 0 | (_, L, R) :: c => S (fblk L + fblk R + cblk c) end.
Lemma fblk_app ts us : fblk (ts ++ us) = fblk ts + fblk us.
Proof. by rewrite /fblk fmap_app sum_list_with_app. Qed.
Lemma fblk_cons t ts : fblk (t :: ts) = nblk t + fblk ts.
Proof. done. Qed.
Lemma nblk_plug c t : nblk (plug c t) = cblk c + nblk t.
Proof.
  revert t. induction c as [|[[l L] R] c IH]; intros t; simpl; [done|].
  rewrite IH. change (nblk (Nd l (L ++ t :: R))) with (S (fblk (L ++ t :: R))).
  rewrite fblk_app fblk_cons. lia.
Qed.
End placed.

Section insert.
Context {T : Type} {C : cfg T} {OK : cfg_ok C} {FZ : frozen T}.
Context (ea na : nat).
Implicit Types t : tree T.
Implicit Types c : ctx T.
Notation tr := (tr ea na).
Notation kidst := (kidst ea na).
Notation ctxp := (ctxp ea na).
Notation segp := (segp ea).
Notation sqo := (sqo ea na).

(** ** Insertion of a child into a node that is not full (lines 1695-1702, 1762-1769) *)
Definition g_ins_nonfull (k : bool) (p : ptr) (length index child_size : nat) (child_pointer : ptr) : M T nat :=
  if negb (index =? length) then
    g_move k p (wsub length 1) p length;;
    g_assign_forward k p (wsub length 1) index 1;;
    g_assign k p index child_size child_pointer
  else g_construct k p index child_size child_pointer.

Lemma wp_g_ins_nonfull k h l p pi n A R junk x q j len idx sz Q E :
  kh k h → len = length A + length R → idx = length A → sz = tsize x →
  length A + length R + length junk = base_max → len ≠ base_max →
  nd na l p pi n ((entry <$> A ++ R) ++ junk) -∗ kidst h l 0 (A ++ R) -∗ tr h q j x -∗
  (∀ junk' r, ⌜S (length junk') = length junk⌝ →
    nd na l p pi n ((entry <$> A ++ x :: R) ++ junk') -∗ kidst h l 0 (A ++ x :: R) -∗ Q r) -∗
  wp (g_ins_nonfull k (Some l) len idx sz (Some (tloc x))) Q E.
Proof.
  iIntros (Hk -> -> -> Hlen Hnf) "Hn Hks Hx HQ".
  pose proof (ok_W _ OK) as HW.
  rewrite /g_ins_nonfull.
  destruct junk as [|d junk]; [simpl in *; lia|]. simpl in Hlen.
  destruct R as [|r R _] using rev_ind.
  - simpl. rewrite Nat.add_0_r Nat.eqb_refl /=. rewrite right_id_L.
    iApply (wp_g_construct with "Hn Hx"); [done|len..|].
    iIntros "Hn Hx". rewrite insert_mid; [|by rewrite fmap_length].
    iApply ("HQ" with "[%] [Hn] [Hks Hx]"); [done|..].
    + rewrite fmap_app -assoc_L /=. iApply "Hn".
    + rewrite kidst_app kidst_cons kidst_nil right_id. iFrame.
  - rewrite app_length /= in Hlen Hnf |- *.
    rewrite (proj2 (Nat.eqb_neq _ _)) /=; [|lia].
    rewrite wsub_small; [|lia..].
    rewrite !kidst_app kidst_cons kidst_nil right_id /=. iDestruct "Hks" as "(HA & HR & Hr)".
    replace (length A + (length R + 1) - 1) with (length A + length R) by lia.
    rewrite !fmap_app /= -!assoc_L /=.
    wp_bind. iApply (wp_g_move_same with "Hn Hr"); [done|..].
    { rewrite assoc_L. apply lookup_mid. by rewrite app_length !fmap_length. }
    { len. }
    { lia. }
    iIntros "Hn Hr".
    replace ((entry <$> A) ++ (entry <$> R) ++ entry r :: d :: junk) with
      (((entry <$> A) ++ (entry <$> R) ++ [entry r]) ++ d :: junk) by by rewrite -!assoc_L.
    rewrite insert_mid; [|len].
    rewrite -!assoc_L /=.
    wp_bind. iApply (wp_g_assign_forward with "Hn HR"); [done|len|len|len|].
    iIntros (d') "Hn HR".
    iApply (wp_g_assign with "Hn Hx"); [done|len|len|].
    iIntros "Hn Hx". rewrite insert_mid; [|by rewrite fmap_length].
    iApply ("HQ" $! junk with "[%] [Hn] [-]"); [done|..].
    + lnorm. iApply "Hn".
    + rewrite kidst_app kidst_cons kidst_app kidst_cons kidst_nil right_id /=. iFrame.
      rewrite Nat.add_assoc. rewrite Nat.add_1_r. iFrame.
Qed.

(** ** Split of a full node (lines 1709-1724, 1776-1791) *)
Definition g_ins_split (k : bool) (p : ptr) (length index : nat) (alloc : ptr)
    (child_size : nat) (child_pointer : ptr) (pointer_length alloc_length : nat) : M T nat :=
  if index <? pointer_length then
    let left_index := wsub pointer_length 1 in
    s1 ← g_move k p left_index alloc 0;
    s2 ← g_construct_range k p (left_index + 1) alloc 1 (wsub alloc_length 1);
    g_assign_forward k p left_index index 1;;
    g_assign k p index child_size child_pointer;;
    mret (wadd s1 s2)
  else
    let new_index := wsub index pointer_length in
    let move_length := wsub length index in
    s1 ← g_construct_range k p pointer_length alloc 0 new_index;
    s2 ← g_construct_range k p index alloc (new_index + 1) move_length;
    s3 ← g_construct k alloc new_index child_size child_pointer;
    mret (wadd (wadd s1 s2) s3).

Lemma wp_g_ins_split k h l p pi n A R a pa pia na' arr x q j len idx sz m ma Q E :
  kh k h → len = length A + length R → idx = length A → sz = tsize x →
  length A + length R = base_max → length arr = base_max →
  m = base_min → ma = base_max + 1 - base_min →
  fsize (A ++ x :: R) < c_W C →
  nd na l p pi n (entry <$> A ++ R) -∗ kidst h l 0 (A ++ R) -∗ tr h q j x -∗
  nd na a pa pia na' arr -∗
  (∀ X Y junk junk', ⌜A ++ x :: R = X ++ Y ∧ length X = m ∧ length Y = ma ∧
      (length X + length junk = base_max)%nat ∧ (length Y + length junk' = base_max)%nat⌝ →
    nd na l p pi n ((entry <$> X) ++ junk) -∗ kidst h l 0 X -∗
    nd na a pa pia na' ((entry <$> Y) ++ junk') -∗ kidst h a 0 Y -∗ Q (fsize Y)) -∗
  wp (g_ins_split k (Some l) len idx (Some a) sz (Some (tloc x)) m ma) Q E.
Proof.
  iIntros (Hk -> -> -> Hlen Harr -> -> HW) "Hn Hks Hx Ha HQ".
  pose proof (ok_W _ OK) as HW'. pose proof base_bounds as HB.
  rewrite /g_ins_split.
  destruct (length A <? base_min) eqn:Hlt.
  - apply Nat.ltb_lt in Hlt. rewrite wsub_small; [|lia..]. rewrite wsub_small; [|lia..].
    (* R = R1 ++ r :: R2 *)
    assert (∃ R1 r R2, R = R1 ++ r :: R2 ∧ length A + length R1 = base_min - 1) as (R1 & r & R2 & -> & HR1).
    { exists (take (base_min - 1 - length A) R).
      destruct (drop (base_min - 1 - length A) R) as [|r R2] eqn:Hd.
      { apply (f_equal length) in Hd. len. }
      exists r, R2. rewrite -Hd take_drop. split; [done|]. rewrite take_length. lia. }
    rewrite !kidst_app kidst_cons. iDestruct "Hks" as "(HA & HR1 & Hr & HR2)". simpl.
    rewrite !fmap_app fmap_cons.
    destruct arr as [|a0 arr]; [simpl in *; lia|].
    wp_bind. iApply (wp_g_move with "Hn Ha Hr"); [done|..].
    { rewrite assoc_L. apply lookup_mid. len. }
    { simpl. lia. }
    { lia. }
    iIntros "Hn Ha Hr". simpl.
    rewrite app_length /= in Hlen.
    replace (base_max + 1 - base_min - 1) with (length R2) by lia.
    wp_bind.
    iApply (wp_g_construct_range _ _ k h _ _ _ _ _ _ _ _ _ _
       ((entry <$> A) ++ (entry <$> R1) ++ [entry r]) R2 [] [entry r]
       (take (length R2) arr) (drop (length R2) arr) with "[Hn] [Ha] [HR2]").
    { done. } { len. } { done. } { done. } { len. }
    { rewrite /= take_drop. done. }
    { rewrite fsize_app fsize_cons fsize_app fsize_cons in HW. lia. }
    { lnorm. iApply "Hn". }
    { rewrite /= take_drop. iApply "Ha". }
    { replace (base_min - 1 + 1) with (S (length A + length R1)) by lia. done. }
    iIntros "Hn Ha HR2". rewrite /=.
    wp_bind. iApply (wp_g_assign_forward _ _ _ _ _ _ _ _ _ (entry <$> A) R1 (entry r) (entry <$> R2)
      with "[Hn] HR1").
    { done. } { len. } { len. } { len. }
    { lnorm. iApply "Hn". }
    iIntros (d') "Hn HR1".
    wp_bind. iApply (wp_g_assign with "Hn Hx"); [done|len|len|].
    iIntros "Hn Hx". rewrite insert_mid; [|by rewrite fmap_length].
    wp_ret. rewrite wadd_small; last first.
    { rewrite fsize_app fsize_cons fsize_app fsize_cons in HW. lia. }
    rewrite -fsize_cons.
    iApply ("HQ" $! (A ++ x :: R1) (r :: R2) (entry <$> R2) (drop (length R2) arr)
      with "[%] [Hn] [HA HR1 Hx] [Ha] [Hr HR2]").
    + split; [by lnorm|]. len.
    + lnorm. iApply "Hn".
    + rewrite kidst_app kidst_cons. iFrame.
    + lnorm. iApply "Ha".
    + rewrite kidst_cons. iFrame.
  - apply Nat.ltb_ge in Hlt. rewrite wsub_small; [|lia..]. rewrite wsub_small; [|lia..].
    assert (∃ X A2, A = X ++ A2 ∧ length X = base_min) as (X & A2 & -> & HX).
    { exists (take base_min A), (drop base_min A). rewrite take_drop. split; [done|].
      rewrite take_length. lia. }
    rewrite app_length in Hlen Hlt |- *.
    rewrite !kidst_app. iDestruct "Hks" as "((HX & HA2) & HR)". simpl.
    rewrite !fmap_app. rewrite !app_length.
    replace (length X + length A2 - base_min) with (length A2) by lia.
    replace (length X + length A2 + length R - (length X + length A2)) with (length R) by lia.
    rewrite fsize_app fsize_cons fsize_app in HW.
    wp_bind.
    iApply (wp_g_construct_range _ _ k h _ _ _ _ _ _ _ _ _ _
       (entry <$> X) A2 (entry <$> R) []
       (take (length A2) arr) (drop (length A2) arr) with "[Hn] [Ha] [HA2]").
    { done. } { len. } { done. } { done. } { len. }
    { rewrite /= take_drop. done. }
    { lia. }
    { lnorm. iApply "Hn". }
    { rewrite /= take_drop. iApply "Ha". }
    { by rewrite HX. }
    iIntros "Hn Ha HA2". simpl.
    assert (∃ y D junk, drop (length A2) arr = y :: D ++ junk ∧ length D = length R) as (y & D & junk & Hd & HD).
    { destruct (drop (length A2) arr) as [|y D] eqn:Hd.
      { apply (f_equal length) in Hd. len. }
      exists y, (take (length R) D), (drop (length R) D). rewrite take_drop. split; [done|].
      apply (f_equal length) in Hd. len. }
    assert (S (length A2 + length R + length junk) = base_max) as Hj.
    { apply (f_equal length) in Hd. len. }
    rewrite Hd. wp_bind.
    iApply (wp_g_construct_range _ _ k h _ _ _ _ _ _ _ _ _ _
       ((entry <$> X) ++ (entry <$> A2)) R [] ((entry <$> A2) ++ [y])
       D junk with "[Hn] [Ha] [HR]").
    { done. } { len. } { len. } { done. } { done. }
    { len. }
    { lia. }
    { lnorm. iApply "Hn". }
    { lnorm. iApply "Ha". }
    { done. }
    iIntros "Hn Ha HR". wp_bind. iApply (wp_g_construct with "Ha Hx"); [done|len|len|].
    iIntros "Ha Hx". wp_ret. rewrite -snoc_app insert_mid; [|len].
    rewrite !wadd_small; [|lia..].
    replace (fsize A2 + fsize R + tsize x) with (fsize (A2 ++ x :: R)) by (rewrite fsize_app fsize_cons; lia).
    iApply ("HQ" $! X (A2 ++ x :: R) ((entry <$> A2) ++ (entry <$> R)) junk
      with "[%] [Hn] [HX] [Ha] [HA2 Hx HR]").
    + split; [by lnorm|]. len.
    + lnorm. iApply "Hn".
    + iFrame.
    + lnorm. iApply "Ha".
    + rewrite kidst_app kidst_cons /= Nat.add_1_r. iFrame.
Qed.

(** ** One level of the insertion, leaf and branch versions (lines 1690-1739, 1757-1806) *)
Definition g_ins_some {A} (k : bool) (p : ptr) (index : nat) (alloc child_pointer : ptr) (child_size : nat)
    (K1 : ptr → nat → M T A) (K2 : ptr → nat → M T A) : M T A :=
  length ← length_of p;
  s ← sizes p (wsub index 1);
  set_sizes p (wsub index 1) (wsub s (wsub child_size 1));;
  if negb (length =? base_max) then
    g_ins_nonfull k p length index child_size child_pointer;;
    set_length p (length + 1);;
    pp ← parent_pointer p; pi ← parent_index p;
    K1 pp pi
  else
    next_alloc ← parent_pointer alloc;
    let sum := base_max + 1 in
    let pointer_length := sum / 2 in
    let alloc_length := sum - pointer_length in
    alloc_size ← g_ins_split k p length index alloc child_size child_pointer pointer_length alloc_length;
    set_length p pointer_length;;
    set_length alloc alloc_length;;
    K2 next_alloc alloc_size.
Lemma branch_loop_some fuel this base p index alloc ch sz :
  insert_single_branch_loop (S fuel) this base (Some p) index alloc ch sz =
  g_ins_some true (Some p) index alloc ch sz
    (λ pp pi, increment_sizes this pp pi)
    (λ next asz, pi ← parent_index (Some p); pp ← parent_pointer (Some p);
       insert_single_branch_loop fuel this (Some p) pp (pi + 1) next alloc asz).
Proof. reflexivity. Qed.
Lemma leaf_some this e base p index alloc ch sz :
  insert_single_leaf this e base (Some p) index alloc ch sz =
  g_ins_some false (Some p) index alloc ch sz
    (λ pp pi, increment_sizes this pp pi;; mret e)
    (λ next asz,
       let e' :=
         if (base_max + 1) / 2 <=? lf_idx (e_leaf e)
         then set_lf e (LeafEntry alloc (wsub (lf_idx (e_leaf e)) ((base_max + 1) / 2)))
         else e in
       pp ← parent_pointer (Some p); pi ← parent_index (Some p);
       insert_single_branch this (Some p) pp (pi + 1) next alloc asz;; mret e').
Proof. reflexivity. Qed.

Lemma wp_g_ins_some {A} k h l L b R c ch q j ls pp pi index sz junk K1 K2 (Q : A → hprop T) E :
  kh k h → index = length L + 1 → sz = tsize ch →
  length L + S (length R) + length junk = base_max →
  1 ≤ tsize ch → 1 ≤ tsize b →
  fsize (L ++ b :: ch :: R) < c_W C →
  length ls = needed ((l, L, R) :: c) →
  nd na l (Some pp) (Some pi) (Some (length L + S (length R)))
     ((entry <$> L) ++ (Some (tsize b + tsize ch - 1), Some (tloc b)) :: (entry <$> R) ++ junk) -∗
  kidst h l 0 L -∗ kidst h l (S (length L)) R -∗
  tr h (Some (Some l)) (Some (length L)) b -∗ tr h q j ch -∗ chain na ls -∗
  ((⌜(length L + S (length R) < base_max)%nat ∧ ls = []⌝ →
      tr (S h) (Some pp) (Some pi) (Nd l (L ++ b :: ch :: R)) -∗ wp (K1 pp pi) Q E) ∧
   (∀ a ls' X Y, ⌜ls = a :: ls' ∧ length ls' = needed c ∧ L ++ b :: ch :: R = X ++ Y ∧ length X = base_min ∧
        length Y = (base_max + 1 - base_min)%nat⌝ →
      tr (S h) (Some pp) (Some pi) (Nd l X) -∗ tr (S h) (Some (head ls')) None (Nd a Y) -∗ chain na ls' -∗
      wp (K2 (head ls') (fsize Y)) Q E)) -∗
  wp (g_ins_some k (Some l) index (head ls) (Some (tloc ch)) sz K1 K2) Q E.
Proof.
  iIntros (Hk -> -> Hlen Hch Hb HW Hls) "Hn HL HR Hb Hch Hls HQ".
  pose proof (ok_W _ OK) as HW'. pose proof base_bounds as HB.
  rewrite fsize_app !fsize_cons in HW.
  rewrite /g_ins_some. wp_bind. iApply (wp_length_of with "Hn"). iIntros "Hn".
  rewrite (wsub_small (length L + 1)); [|lia..]. rewrite Nat.add_sub.
  wp_bind. iApply (wp_sizes with "Hn"). { apply lookup_mid. by rewrite fmap_length. }
  iIntros "Hn". wp_bind. iApply (wp_set_sizes with "Hn").
  { apply lookup_mid. by rewrite fmap_length. }
  iIntros "Hn". cbn [snd]. rewrite insert_mid; [|by rewrite fmap_length].
  rewrite (wsub_small (tsize ch)); [|lia..]. rewrite wsub_small; [|lia..].
  replace (tsize b + tsize ch - 1 - (tsize ch - 1)) with (tsize b) by lia.
  change (Some (tsize b), Some (tloc b)) with (entry b).
  simpl in Hls. 
  destruct (length L + S (length R) =? base_max) eqn:Hfull; cbn [negb].
  - apply Nat.eqb_eq in Hfull. destruct ls as [|a ls']; [done|]. simpl in Hls. simplify_eq.
    assert (junk = []) as -> by (destruct junk; [done|simpl in *; lia]).
    cbn [chain head]. iDestruct "Hls" as "[Ha Hls]". cbv zeta.
    wp_bind. iApply (wp_parent_pointer with "Ha"). iIntros "Ha".
    rewrite (proj1 (proj2 (proj2 HB))).
    wp_bind. iApply (wp_g_ins_split _ h _ _ _ _ (L ++ [b]) R with "[Hn] [HL Hb HR] Hch Ha").
    { done. } { len. } { len. } { done. } { len. } { len. } { done. } { done. }
    { rewrite !fsize_app !fsize_cons fsize_nil. lia. }
    { lnorm. done. }
    { rewrite !kidst_app kidst_cons kidst_nil right_id /=. iFrame.
      rewrite app_length /= Nat.add_1_r. iFrame. }
    iIntros (X Y j1 j2 (HXY & HX & HY & Hj1 & Hj2)) "Hn HX Ha HY".
    wp_bind. iApply (wp_set_length with "Hn"); [lia|]. iIntros "Hn".
    wp_bind. iApply (wp_set_length with "Ha"); [lia|]. iIntros "Ha".
    iDestruct "HQ" as "[_ HQ]".
    iApply ("HQ" $! a ls' X Y with "[%] [Hn HX] [Ha HY] Hls").
    + split_and!; [done|done| |done|done]. rewrite -HXY. by lnorm.
    + rewrite tr_Nd. iExists j1. rewrite HX. iFrame. iPureIntro. split; [|lia].
      destruct k; simpl in Hk; lia.
    + rewrite tr_Nd. iExists j2. rewrite HY. iFrame. iPureIntro. split; [|lia].
      destruct k; simpl in Hk; lia.
  - apply Nat.eqb_neq in Hfull. destruct ls as [|a ls']; [|done].
    wp_bind. iApply (wp_g_ins_nonfull _ h _ _ _ _ (L ++ [b]) R junk with "[Hn] [HL Hb HR] Hch").
    { done. } { len. } { len. } { done. } { len. } { len. }
    { lnorm. done. }
    { rewrite !kidst_app kidst_cons kidst_nil right_id /=. iFrame.
      rewrite app_length /= Nat.add_1_r. iFrame. }
    iIntros (junk' _ Hj) "Hn Hks".
    wp_bind. iApply (wp_set_length with "Hn"); [lia|]. iIntros "Hn".
    wp_bind. iApply (wp_parent_pointer with "Hn"). iIntros "Hn".
    wp_bind. iApply (wp_parent_index with "Hn"). iIntros "Hn".
    iDestruct "HQ" as "[HQ _]". iApply ("HQ" with "[%] [Hn Hks]"); [split; [lia|done]|].
    rewrite tr_Nd. iExists junk'.
    rewrite -(assoc_L _ L [b]) /=. iFrame.
    replace (length (L ++ b :: ch :: R)) with (length L + S (length R) + 1) by len.
    iFrame. iPureIntro. split; [|len]. destruct k; simpl in Hk; lia.
Qed.

End insert.
