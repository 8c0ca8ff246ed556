(** * Erase: removal of a child from an index node (lines 1909-2100 of seq.hpp).
    Proof infrastructure. *)
From Verif Require Export InsertSeg.
From stdpp Require Import options.
Set Default Proof Using "Type*".

Section erase_defs.
Context {T : Type} {C : cfg T} {FZ : frozen T}.
(** erase_single_leaf and erase_single_branch, up to what follows *)
Definition g_erase {A} (k : bool) (this : loc) (p : ptr) (index : nat)
    (Kroot : ptr → M T A) (K2 K3 : ptr → nat → M T A) (K4 : ptr → nat → ptr → nat → M T A)
    (K5 : ptr → nat → M T A) (K6 : ptr → nat → M T A) : M T A :=
  pp ← parent_pointer p;
  pi ← parent_index p;
  length ← length_of p;
  if (length =? 2) && (negb (base_min =? 2) || bool_decide (pp = None)) then
    other ← pointers p (Nat.lxor index 1);
    destroy_node p 0;;
    destroy_node p 1;;
    deallocate_node this p;;
    set_root this other;;
    Kroot other
  else
  let length0 := length in
  let length := wsub length 1 in
  if negb (length0 =? base_min) || bool_decide (pp = None) then
    g_assign_backward k p length index 1;;
    destroy_node p length;;
    set_length p length;;
    K2 pp pi
  else
    if negb (pi =? 0) then
      let prev_index := wsub pi 1 in
      prev_pointer ← pointers pp prev_index;
      prev_length ← length_of prev_pointer;
      if negb (prev_length =? base_min) then
        let prev_length := wsub prev_length 1 in
        g_assign_forward k p index 0 1;;
        sz ← g_move_assign k prev_pointer prev_length p 0;
        destroy_node prev_pointer prev_length;;
        s ← sizes pp prev_index; set_sizes pp prev_index (wsub s sz);;
        s ← sizes pp pi; set_sizes pp pi (wadd s (wsub sz 1));;
        set_length prev_pointer prev_length;;
        ppp ← parent_pointer pp; ppi ← parent_index pp;
        K3 ppp ppi
      else
        s1 ← g_construct_range k p 0 prev_pointer prev_length index;
        s2 ← g_construct_range k p (index + 1) prev_pointer (prev_length + index) (wsub length index);
        destroy_node p index;;
        deallocate_node this p;;
        set_length prev_pointer (prev_length + length);;
        s ← sizes pp prev_index; set_sizes pp prev_index (wadd s (wadd s1 s2));;
        K4 pp pi prev_pointer prev_length
    else
      let next_index := pi + 1 in
      next_pointer ← pointers pp next_index;
      next_length ← length_of next_pointer;
      if negb (next_length =? base_min) then
        let next_length := wsub next_length 1 in
        g_assign_backward k p length index 1;;
        sz ← g_move_assign k next_pointer 0 p length;
        g_assign_backward k next_pointer next_length 0 1;;
        destroy_node next_pointer next_length;;
        s ← sizes pp next_index; set_sizes pp next_index (wsub s sz);;
        s ← sizes pp pi; set_sizes pp pi (wadd s (wsub sz 1));;
        set_length next_pointer next_length;;
        ppp ← parent_pointer pp; ppi ← parent_index pp;
        K5 ppp ppi
      else
        g_assign_backward k p length index 1;;
        s1 ← g_move_assign k next_pointer 0 p length;
        destroy_node next_pointer 0;;
        s2 ← g_construct_range k next_pointer 1 p (length + 1) (wsub next_length 1);
        deallocate_node this next_pointer;;
        set_length p (length + next_length);;
        s ← sizes pp pi; set_sizes pp pi (wadd s (wsub (wadd s1 s2) 1));;
        K6 pp next_index.

Lemma erase_branch_loop_g fuel this p index :
  erase_single_branch_loop (S fuel) this p index =
  g_erase true this p index
    (λ other, set_parent_pointer other None;; set_parent_index other 0;;
       sz ← get_size this; set_size this (wsub sz 1);;
       ht ← get_height this; set_height this (wsub ht 1))
    (λ pp pi, decrement_sizes this pp pi)
    (λ pp pi, decrement_sizes this pp pi)
    (λ pp pi _ _, erase_single_branch_loop fuel this pp pi)
    (λ pp pi, decrement_sizes this pp pi)
    (λ pp next_index, erase_single_branch_loop fuel this pp next_index).
Proof. reflexivity. Qed.
Lemma erase_leaf_g this e p index :
  erase_single_leaf this e p index =
  g_erase false this p index
    (λ other, sz ← get_size this; set_size this (wsub sz 1);;
       set_height this 1;; mret (LeafEntry None 0))
    (λ pp pi, decrement_sizes this pp pi;; mret e)
    (λ pp pi, decrement_sizes this pp pi;; mret (LeafEntry (lf_ptr e) (lf_idx e + 1)))
    (λ pp pi prev prev_length, erase_single_branch this pp pi;;
       mret (LeafEntry prev (lf_idx e + prev_length)))
    (λ pp pi, decrement_sizes this pp pi;; mret e)
    (λ pp next_index, erase_single_branch this pp next_index;; mret e).
Proof. reflexivity. Qed.
End erase_defs.

Section erase.
Context {T : Type} {C : cfg T} {OK : cfg_ok C} {FZ : frozen T}.
Context (ea na : nat).
Implicit Types t : tree T.
Implicit Types c : ctx T.
Notation tr := (tr ea na).
Notation kidst := (kidst ea na).
Notation ctxp := (ctxp ea na).
Notation segp := (segp ea).
Notation sqo := (sqo ea na).

(** Node [p] in context [c] has the children [L], one dead entry, [R]; the sizes
    above it still count one more element than there is. *)
Definition wfhole (h : nat) (c : ctx T) (L R : list (tree T)) : Prop :=
  wfc (S h) c ∧ Forall (wft h) L ∧ Forall (wft h) R ∧
  (match c with [] => 2 | _ => base_min end) ≤ length L + S (length R) ≤ base_max.
Definition holed (h : nat) (c : ctx T) (p : loc) (L R : list (tree T)) : hprop T :=
  (∃ d junk, ⟦length L + S (length R) + length junk = base_max⟧ ∗
    nd na p (Some (cparent c)) (Some (cindex c)) (Some (length L + S (length R)))
       ((entry <$> L) ++ d :: (entry <$> R) ++ junk) ∗
    kidst h p 0 L ∗ kidst h p (S (length L)) R ∗
    ctxp (S h) c p (fsize L + fsize R + 1))%I.
(** As [plug c x], where the sizes above [x] still count one more element. *)
Definition over (h : nat) (c : ctx T) (x : tree T) : hprop T :=
  (tr h (Some (cparent c)) (Some (cindex c)) x ∗ ctxp h c (tloc x) (tsize x + 1))%I.

(** ** The root has two children: it disappears *)
Lemma wp_erase_root {A} k h p L R this r n ht index (Kroot : ptr → M T A) Q E :
  kh k h → length L + S (length R) = 2 → index = length L →
  sqo this r n ht -∗ holed h [] p L R -∗
  (∀ y q j, ⌜L ++ R = [y]⌝ → sqo this (Some (tloc y)) n ht -∗ tr h q j y -∗ wp (Kroot (Some (tloc y))) Q E) -∗
  wp (other ← pointers (Some p) (Nat.lxor index 1);
    destroy_node (Some p) 0;;
    destroy_node (Some p) 1;;
    deallocate_node this (Some p);;
    set_root this other;;
    Kroot other) Q E.
Proof.
  iIntros (Hk Hlen ->) "Hs H HQ". iDestruct "H" as (d junk Hj) "(Hn & HL & HR & _)".
  assert (∃ y, (L = [y] ∧ R = []) ∨ (L = [] ∧ R = [y])) as (y & Hy).
  { destruct L as [|y [|]]; simpl in *; [|exists y; left|lia].
    - destruct R as [|y [|]]; simpl in *; [lia| |lia]. exists y. by right.
    - by destruct R; [|simpl in *; lia]. }
  wp_bind. destruct Hy as [[-> ->]|[-> ->]]; simpl.
  - iApply (wp_pointers _ _ _ _ _ _ 0 with "Hn"); [done|]. iIntros "Hn".
    wp_bind. iApply (wp_destroy_node with "Hn"); [done|]. iIntros "Hn".
    wp_bind. iApply (wp_destroy_node with "Hn"); [done|]. iIntros "Hn".
    wp_bind. iApply (wp_deallocate_node with "Hs Hn"). iIntros "Hs".
    wp_bind. iApply (wp_set_root with "Hs"). iIntros "Hs".
    rewrite kidst_cons !kidst_nil right_id. iDestruct "HR" as "_".
    iApply ("HQ" with "[//] Hs HL").
  - iApply (wp_pointers _ _ _ _ _ _ 1 with "Hn"); [done|]. iIntros "Hn".
    wp_bind. iApply (wp_destroy_node with "Hn"); [done|]. iIntros "Hn".
    wp_bind. iApply (wp_destroy_node with "Hn"); [done|]. iIntros "Hn".
    wp_bind. iApply (wp_deallocate_node with "Hs Hn"). iIntros "Hs".
    wp_bind. iApply (wp_set_root with "Hs"). iIntros "Hs".
    rewrite kidst_cons !kidst_nil right_id. iDestruct "HL" as "_".
    iApply ("HQ" with "[//] Hs HR").
Qed.

(** ** There are enough children left *)
Lemma wp_erase_simple {A} k h c p L R index len (K2 : ptr → nat → M T A) Q E :
  kh k h → index = length L → len = length L + length R → len ≤ base_max →
  holed h c p L R -∗
  (over (S h) c (Nd p (L ++ R)) -∗ wp (K2 (cparent c) (cindex c)) Q E) -∗
  wp (g_assign_backward k (Some p) len index 1;;
    destroy_node (Some p) len;;
    set_length (Some p) len;;
    K2 (cparent c) (cindex c)) Q E.
Proof.
  iIntros (Hk -> -> Hle) "H HQ". iDestruct "H" as (d junk Hj) "(Hn & HL & HR & Hc)".
  wp_bind. iApply (wp_g_assign_backward with "Hn HR"); [done|len|len|len|].
  iIntros (d') "Hn HR".
  wp_bind. rewrite app_assoc. iApply (wp_destroy_node with "Hn"); [apply lookup_mid; len|].
  iIntros "Hn". rewrite insert_mid; [|len].
  wp_bind. iApply (wp_set_length with "Hn"); [lia|]. iIntros "Hn".
  iApply "HQ". rewrite /over tr_Nd tsize_Nd fsize_app. iFrame "Hc".
  iExists _. rewrite app_length kidst_app. iFrame. rewrite fmap_app. iFrame.
  iPureIntro. split; [|simpl; lia]. destruct k; simpl in Hk; lia.
Qed.

(** ** A child is taken from the previous sibling *)
Lemma wp_erase_rot_prev {A} k h c pp PL prev Z z PR p L R index pi (K3 : ptr → nat → M T A) Q E :
  kh k h → index = length L → pi = S (length PL) → length L + S (length R) = base_min →
  length Z < base_max → fsize (PL ++ Nd prev (Z ++ [z]) :: PR) + fsize L + fsize R + 1 < c_W C →
  1 ≤ tsize z → pi ≤ base_max →
  holed h ((pp, PL ++ [Nd prev (Z ++ [z])], PR) :: c) p L R -∗
  (over (S (S h)) c (Nd pp (PL ++ Nd prev Z :: Nd p (z :: L ++ R) :: PR)) -∗
     wp (K3 (cparent c) (cindex c)) Q E) -∗
  wp (g_assign_forward k (Some p) index 0 1;;
        sz ← g_move_assign k (Some prev) (length Z) (Some p) 0;
        destroy_node (Some prev) (length Z);;
        s ← sizes (Some pp) (length PL); set_sizes (Some pp) (length PL) (wsub s sz);;
        s ← sizes (Some pp) pi; set_sizes (Some pp) pi (wadd s (wsub sz 1));;
        set_length (Some prev) (length Z);;
        ppp ← parent_pointer (Some pp); ppi ← parent_index (Some pp);
        K3 ppp ppi) Q E.
Proof.
  iIntros (Hk -> -> HLR HZ HW Hz Hpi) "H HQ". pose proof base_bounds as HB.
  iDestruct "H" as (d junk Hj) "(Hn & HL & HR & Hc)". cbn [ctxp cparent cindex].
  iDestruct "Hc" as (junk' [_ Hj']) "(Hpp & HPL & HPR & Hc)".
  rewrite kidst_app kidst_cons kidst_nil right_id.
  iDestruct "HPL" as "[HPL Hprev]".
  iEval (rewrite tr_Nd) in "Hprev". iDestruct "Hprev" as (junk2 [Hh Hj2]) "[Hprev HZ]".
  rewrite app_length /= in Hj2. rewrite app_length /= in Hj'.
  rewrite fsize_app fsize_cons tsize_Nd fsize_app fsize_cons fsize_nil in HW.
  (* shift in p *)
  wp_bind. iApply (wp_g_assign_forward _ _ k h _ _ _ _ _ [] L with "Hn HL"); [done|done|done|len|].
  iIntros (d') "Hn HL". cbn [app].
  (* move z *)
  rewrite !kidst_app kidst_cons kidst_nil right_id. iDestruct "HZ" as "[HZ Hz]".
  rewrite (fmap_app entry Z [z]) -(app_assoc (entry <$> Z)). cbn [fmap list_fmap app].
  wp_bind. iApply (wp_g_move_assign with "Hprev Hn Hz"); [done|apply lookup_mid; len|simpl; lia|lia|].
  iIntros "Hprev Hn Hz". cbn [insert list_insert].
  wp_bind. iApply (wp_destroy_node with "Hprev"); [apply lookup_mid; len|].
  iIntros "Hprev". rewrite insert_mid; [|len].
  (* sizes *)
  rewrite (fmap_app entry PL) -(app_assoc (entry <$> PL)). cbn [fmap list_fmap app].
  wp_bind. iApply (wp_sizes with "Hpp"); [apply lookup_mid; len|]. iIntros "Hpp".
  wp_bind. iApply (wp_set_sizes with "Hpp"); [apply lookup_mid; len|]. iIntros "Hpp". cbn [snd].
  rewrite insert_mid; [|len].
  rewrite (snoc_app (entry <$> PL)).
  wp_bind. iApply (wp_sizes with "Hpp"); [apply lookup_mid; len|]. iIntros "Hpp".
  wp_bind. iApply (wp_set_sizes with "Hpp"); [apply lookup_mid; len|]. iIntros "Hpp". cbn [snd].
  rewrite insert_mid; [|len].
  wp_bind. iApply (wp_set_length with "Hprev"); [lia|]. iIntros "Hprev".
  wp_bind. iApply (wp_parent_pointer with "Hpp"). iIntros "Hpp".
  wp_bind. iApply (wp_parent_index with "Hpp"). iIntros "Hpp".
  iApply "HQ". rewrite /over.
  rewrite tsize_Nd fsize_app fsize_cons tsize_Nd fsize_app fsize_cons fsize_nil.
  rewrite wsub_small; [|lia|lia]. rewrite (wsub_small (tsize z)); [|lia|lia]. rewrite wadd_small; [|lia].
  iSplitR "Hc"; last first.
  { cbn [tloc]. rewrite tsize_Nd fsize_app !fsize_cons !tsize_Nd fsize_cons fsize_app.
    replace (fsize PL + (fsize Z + (tsize z + fsize L + fsize R + fsize PR)) + 1)
       with (fsize PL + (fsize Z + (tsize z + 0) + 0) + (fsize L + fsize R + 1) + fsize PR) by lia.
    replace (fsize PL + (fsize Z + (tsize z + (fsize L + fsize R) + fsize PR)) + 1)
       with (fsize PL + (fsize Z + (tsize z + 0) + 0) + (fsize L + fsize R + 1) + fsize PR) by lia.
    done. }
  rewrite tr_Nd. iExists junk'.
  iSplitR. { iPureIntro. split; [lia|]. rewrite app_length /=. lia. }
  iSplitL "Hpp".
  { rewrite !app_length /=.
    replace (length PL + 1 + S (length PR)) with (length PL + S (S (length PR))) by lia.
    rewrite fmap_app -!app_assoc. cbn [fmap list_fmap app].
    rewrite /entry !tsize_Nd fsize_cons fsize_app /=.
    replace (fsize Z + (tsize z + 0) + 0 - tsize z) with (fsize Z) by lia.
    replace (fsize L + fsize R + 1 + (tsize z - 1)) with (tsize z + (fsize L + fsize R)) by lia.
    replace (fsize Z + (tsize z + 0) - tsize z) with (fsize Z) by lia.
    iApply "Hpp". }
  rewrite kidst_app !kidst_cons. iFrame "HPL".
  iSplitL "Hprev HZ".
  { rewrite tr_Nd. iExists ((Some (tsize z), None) :: junk2). iFrame. iPureIntro. split; [lia|].
    rewrite /=. lia. }
  rewrite !app_length /=. replace (S (S (length PL))) with (S (length PL + 1)) by lia.
  replace (S (0 + length PL)) with (length PL + 1) by lia.
  iFrame "HPR". 
  rewrite tr_Nd. iExists junk. rewrite kidst_cons kidst_app. cbn [length].
  replace (S (length (L ++ R))) with (length L + S (length R)) by len.
  iFrame. iSplitR. { iPureIntro. lia. }
  rewrite (Nat.add_1_r (length PL)). lnorm. iFrame.
Qed.

(** ** The node is merged into the previous sibling *)
Lemma wp_erase_merge_prev {A} k h c pp PL prev Z PR p L R this r n ht index pi
    (K4 : ptr → nat → ptr → nat → M T A) Q E :
  kh k h → index = length L → pi = S (length PL) →
  length Z + length L + length R ≤ base_max → fsize (PL ++ Nd prev Z :: PR) + fsize L + fsize R + 1 < c_W C →
  pi ≤ base_max →
  sqo this r n ht -∗ holed h ((pp, PL ++ [Nd prev Z], PR) :: c) p L R -∗
  (sqo this r n ht -∗ holed (S h) c pp (PL ++ [Nd prev (Z ++ L ++ R)]) PR -∗
     wp (K4 (Some pp) pi (Some prev) (length Z)) Q E) -∗
  wp (s1 ← g_construct_range k (Some p) 0 (Some prev) (length Z) index;
        s2 ← g_construct_range k (Some p) (index + 1) (Some prev) (length Z + index) (length R);
        destroy_node (Some p) index;;
        deallocate_node this (Some p);;
        set_length (Some prev) (length Z + (length L + length R));;
        s ← sizes (Some pp) (length PL); set_sizes (Some pp) (length PL) (wadd s (wadd s1 s2));;
        K4 (Some pp) pi (Some prev) (length Z)) Q E.
Proof.
  iIntros (Hk -> -> HLR HW Hpi) "Hs H HQ". pose proof base_bounds as HB.
  iDestruct "H" as (d junk Hj) "(Hn & HL & HR & Hc)". cbn [ctxp cparent cindex].
  iDestruct "Hc" as (junk' [_ Hj']) "(Hpp & HPL & HPR & Hc)".
  rewrite kidst_app kidst_cons kidst_nil right_id.
  iDestruct "HPL" as "[HPL Hprev]".
  iEval (rewrite tr_Nd) in "Hprev". iDestruct "Hprev" as (junk2 [Hh Hj2]) "[Hprev HZ]".
  rewrite app_length /= in Hj'.
  rewrite fsize_app fsize_cons tsize_Nd in HW.
  assert (∃ D1 D2 junk3, junk2 = D1 ++ D2 ++ junk3 ∧ length D1 = length L ∧ length D2 = length R)
    as (D1 & D2 & junk3 & -> & HD1 & HD2).
  { exists (take (length L) junk2), (take (length R) (drop (length L) junk2)), (drop (length R) (drop (length L) junk2)).
    rewrite !take_drop. split; [done|]. rewrite !take_length drop_length. lia. }
  wp_bind. iApply (wp_g_construct_range _ _ k h _ _ _ _ _ _ _ _ _ _
    [] L (d :: (entry <$> R) ++ junk) (entry <$> Z) D1 (D2 ++ junk3) with "Hn Hprev HL");
    [done|done|len|done|done|len|lia|].
  iIntros "Hn Hprev HL". cbn [app].
  wp_bind. iApply (wp_g_construct_range _ _ k h _ _ _ _ _ _ _ _ _ _
    ((entry <$> L) ++ [d]) R junk ((entry <$> Z) ++ (entry <$> L)) D2 junk3 with "[Hn] [Hprev] [HR]").
  { done. } { len. } { len. } { done. } { done. } { len. } { lia. }
  { lnorm. iApply "Hn". }
  { lnorm. iApply "Hprev". }
  { by rewrite Nat.add_1_r. }
  iIntros "Hn Hprev HR". rewrite -(app_assoc (entry <$> L)). cbn [app].
  wp_bind. iApply (wp_destroy_node with "Hn"); [apply lookup_mid; len|]. iIntros "Hn".
  wp_bind. iApply (wp_deallocate_node with "Hs Hn"). iIntros "Hs".
  wp_bind. iApply (wp_set_length with "Hprev"); [lia|]. iIntros "Hprev".
  rewrite (fmap_app entry PL) -(app_assoc (entry <$> PL)). cbn [fmap list_fmap app].
  wp_bind. iApply (wp_sizes with "Hpp"); [apply lookup_mid; len|]. iIntros "Hpp".
  wp_bind. iApply (wp_set_sizes with "Hpp"); [apply lookup_mid; len|]. iIntros "Hpp". cbn [snd].
  rewrite insert_mid; [|len].
  iApply ("HQ" with "Hs"). rewrite tsize_Nd.
  rewrite (wadd_small (fsize L)); [|lia]. rewrite wadd_small; [|lia].
  iExists _, junk'. iSplitR. { iPureIntro. rewrite app_length /=. lia. }
  iSplitL "Hpp".
  { rewrite !app_length. cbn [length].
    rewrite fmap_app -!app_assoc. cbn [fmap list_fmap app].
    rewrite /entry !tsize_Nd !fsize_app /=. iApply "Hpp". }
  iSplitL "HPL Hprev HL HR HZ".
  { rewrite kidst_app kidst_cons kidst_nil right_id. iFrame "HPL".
    rewrite tr_Nd. iExists junk3. iSplitR. { iPureIntro. split; [lia|]. len. }
    rewrite !app_length !fmap_app -!app_assoc. iFrame "Hprev".
    rewrite !kidst_app /=. iFrame. }
  rewrite !app_length /=. iFrame "HPR".
  rewrite !fsize_app !fsize_cons !fsize_nil !tsize_Nd !fsize_app.
  replace (fsize PL + (fsize Z + (fsize L + fsize R) + 0) + fsize PR + 1)
    with (fsize PL + (fsize Z + 0) + (fsize L + fsize R + 1) + fsize PR) by lia. done.
Qed.

Lemma ctxp_eq h c l a b : a = b → ctxp h c l a -∗ ctxp h c l b.
Proof. iIntros (->) "$". Qed.

(** ** A child is taken from the next sibling *)
Lemma wp_erase_rot_next {A} k h c pp next Z z PR p L R index len (K5 : ptr → nat → M T A) Q E :
  kh k h → index = length L → len = length L + length R → length L + S (length R) = base_min →
  length Z < base_max → fsize (Nd next (z :: Z) :: PR) + fsize L + fsize R + 1 < c_W C →
  1 ≤ tsize z →
  holed h ((pp, [], Nd next (z :: Z) :: PR) :: c) p L R -∗
  (over (S (S h)) c (Nd pp (Nd p (L ++ R ++ [z]) :: Nd next Z :: PR)) -∗
     wp (K5 (cparent c) (cindex c)) Q E) -∗
  wp (g_assign_backward k (Some p) len index 1;;
        sz ← g_move_assign k (Some next) 0 (Some p) len;
        g_assign_backward k (Some next) (length Z) 0 1;;
        destroy_node (Some next) (length Z);;
        s ← sizes (Some pp) 1; set_sizes (Some pp) 1 (wsub s sz);;
        s ← sizes (Some pp) 0; set_sizes (Some pp) 0 (wadd s (wsub sz 1));;
        set_length (Some next) (length Z);;
        ppp ← parent_pointer (Some pp); ppi ← parent_index (Some pp);
        K5 ppp ppi) Q E.
Proof.
  iIntros (Hk -> -> HLR HZ HW Hz) "H HQ". pose proof base_bounds as HB.
  iDestruct "H" as (d junk Hj) "(Hn & HL & HR & Hc)". cbn [ctxp cparent cindex].
  iDestruct "Hc" as (junk' [_ Hj']) "(Hpp & HPL & HPR & Hc)". simpl in Hj'.
  rewrite kidst_cons kidst_nil. iDestruct "HPL" as "_".
  iDestruct "HPR" as "[Hnext HPR]".
  iEval (rewrite tr_Nd) in "Hnext". iDestruct "Hnext" as (junk2 [Hh Hj2]) "[Hnext HZ]".
  simpl in Hj2.
  rewrite fsize_cons tsize_Nd fsize_cons in HW.
  (* shift in p *)
  wp_bind. iApply (wp_g_assign_backward with "Hn HR"); [done|len|len|len|].
  iIntros (d') "Hn HR". rewrite (app_assoc (entry <$> L)).
  (* move z *)
  rewrite kidst_cons. iDestruct "HZ" as "[Hz HZ]". cbn [fmap list_fmap app].
  wp_bind. iApply (wp_g_move_assign with "Hnext Hn Hz"); [done|done|len|lia|].
  iIntros "Hnext Hn Hz". rewrite insert_mid; [|len].
  wp_bind. iApply (wp_g_assign_backward _ _ k h _ _ _ _ _ [] Z with "Hnext HZ"); [done|done|done|len|].
  iIntros (d2) "Hnext HZ". cbn [app].
  wp_bind. iApply (wp_destroy_node with "Hnext"); [apply lookup_mid; len|].
  iIntros "Hnext". rewrite insert_mid; [|len].
  (* sizes *)
  wp_bind. iApply (wp_sizes with "Hpp"); [done|]. iIntros "Hpp".
  wp_bind. iApply (wp_set_sizes with "Hpp"); [done|]. iIntros "Hpp". cbn [snd insert list_insert].
  wp_bind. iApply (wp_sizes with "Hpp"); [done|]. iIntros "Hpp".
  wp_bind. iApply (wp_set_sizes with "Hpp"); [done|]. iIntros "Hpp". cbn [snd insert list_insert].
  wp_bind. iApply (wp_set_length with "Hnext"); [lia|]. iIntros "Hnext".
  wp_bind. iApply (wp_parent_pointer with "Hpp"). iIntros "Hpp".
  wp_bind. iApply (wp_parent_index with "Hpp"). iIntros "Hpp".
  iApply "HQ". rewrite /over. cbn [length fsize felems].
  rewrite fsize_cons tsize_Nd fsize_cons.
  rewrite !wsub_small; [|lia..]. rewrite wadd_small; [|lia].
  iSplitR "Hc"; last first.
  { cbn [tloc]. rewrite tsize_Nd !fsize_cons !tsize_Nd !fsize_app !fsize_cons !fsize_nil.
    iApply (ctxp_eq with "Hc"). lia. }
  rewrite tr_Nd. iExists junk'.
  iSplitR. { iPureIntro. split; [lia|]. simpl. lia. }
  iSplitL "Hpp".
  { cbn [length fmap list_fmap app].
    rewrite /entry !tsize_Nd !fsize_app !fsize_cons ?fsize_nil. cbn [tloc].
    replace (tsize z + fsize Z - tsize z) with (fsize Z) by lia.
    replace (fsize L + fsize R + 1 + (tsize z - 1)) with (fsize L + (fsize R + (tsize z + 0))) by lia.
    iApply "Hpp". }
  rewrite !kidst_cons. iFrame "HPR".
  iSplitR "Hnext HZ"; last first.
  { rewrite tr_Nd. iExists _. iFrame. iPureIntro. split; [lia|].
    rewrite /=. lia. }
  rewrite tr_Nd. iExists junk. rewrite !kidst_app kidst_cons kidst_nil right_id !app_length /=.
  replace (length L + (length R + 1)) with (length L + S (length R)) by lia.
  iFrame. iSplitR. { iPureIntro. lia. }
  rewrite !fmap_app -!app_assoc. iFrame.
Qed.

(** ** The next sibling is merged into the node *)
Lemma wp_erase_merge_next {A} k h c pp next z Z PR p L R this r n ht index len
    (K6 : ptr → nat → M T A) Q E :
  kh k h → index = length L → len = length L + length R →
  S (length Z) + length L + length R ≤ base_max →
  fsize (Nd next (z :: Z) :: PR) + fsize L + fsize R + 1 < c_W C → 1 ≤ tsize z →
  sqo this r n ht -∗ holed h ((pp, [], Nd next (z :: Z) :: PR) :: c) p L R -∗
  (sqo this r n ht -∗ holed (S h) c pp [Nd p (L ++ R ++ z :: Z)] PR -∗ wp (K6 (Some pp) 1) Q E) -∗
  wp (g_assign_backward k (Some p) len index 1;;
        s1 ← g_move_assign k (Some next) 0 (Some p) len;
        destroy_node (Some next) 0;;
        s2 ← g_construct_range k (Some next) 1 (Some p) (len + 1) (length Z);
        deallocate_node this (Some next);;
        set_length (Some p) (len + S (length Z));;
        s ← sizes (Some pp) 0; set_sizes (Some pp) 0 (wadd s (wsub (wadd s1 s2) 1));;
        K6 (Some pp) 1) Q E.
Proof.
  iIntros (Hk -> -> HLR HW Hz) "Hs H HQ". pose proof base_bounds as HB.
  iDestruct "H" as (d junk Hj) "(Hn & HL & HR & Hc)". cbn [ctxp cparent cindex].
  iDestruct "Hc" as (junk' [_ Hj']) "(Hpp & HPL & HPR & Hc)". simpl in Hj'.
  rewrite kidst_cons kidst_nil. iDestruct "HPL" as "_".
  iDestruct "HPR" as "[Hnext HPR]".
  iEval (rewrite tr_Nd) in "Hnext". iDestruct "Hnext" as (junk2 [Hh Hj2]) "[Hnext HZ]".
  simpl in Hj2.
  rewrite fsize_cons tsize_Nd fsize_cons in HW.
  wp_bind. iApply (wp_g_assign_backward with "Hn HR"); [done|len|len|len|].
  iIntros (d') "Hn HR". rewrite (app_assoc (entry <$> L)).
  rewrite kidst_cons. iDestruct "HZ" as "[Hz HZ]". cbn [fmap list_fmap app].
  wp_bind. iApply (wp_g_move_assign with "Hnext Hn Hz"); [done|done|len|lia|].
  iIntros "Hnext Hn Hz". rewrite insert_mid; [|len].
  wp_bind. iApply (wp_destroy_node with "Hnext"); [done|].
  iIntros "Hnext". cbn [insert list_insert].
  assert (∃ D junk3, junk = D ++ junk3 ∧ length D = length Z) as (D & junk3 & -> & HD).
  { exists (take (length Z) junk), (drop (length Z) junk).
    rewrite take_drop. split; [done|]. rewrite take_length. lia. }
  wp_bind. iApply (wp_g_construct_range _ _ k h _ _ _ _ _ _ _ _ _ _
    [_] Z junk2 ((entry <$> L) ++ (entry <$> R) ++ [entry z]) D junk3 with "[Hnext] [Hn] [HZ]").
  { done. } { done. } { len. } { done. } { done. } { len. } { lia. }
  { iApply "Hnext". }
  { lnorm. iApply "Hn". }
  { done. }
  iIntros "Hnext Hn HZ".
  wp_bind. iApply (wp_deallocate_node with "Hs Hnext"). iIntros "Hs".
  wp_bind. iApply (wp_set_length with "Hn"); [lia|]. iIntros "Hn".
  wp_bind. iApply (wp_sizes with "Hpp"); [done|]. iIntros "Hpp".
  wp_bind. iApply (wp_set_sizes with "Hpp"); [done|]. iIntros "Hpp". cbn [snd insert list_insert].
  iApply ("HQ" with "Hs").
  rewrite (wadd_small (tsize z)); [|lia]. rewrite (wsub_small); [|lia|lia]. rewrite wadd_small; [|lia].
  iExists _, junk'. iSplitR. { iPureIntro. simpl. lia. }
  iSplitL "Hpp".
  { cbn [length fmap list_fmap app].
    rewrite /entry !tsize_Nd !fsize_app fsize_cons. cbn [tloc].
    replace (fsize L + fsize R + 1 + (tsize z + fsize Z - 1)) with (fsize L + (fsize R + (tsize z + fsize Z))) by lia.
    iApply "Hpp". }
  iSplitR "HPR Hc".
  { rewrite kidst_cons kidst_nil right_id.
    rewrite tr_Nd. iExists junk3. iSplitR. { iPureIntro. split; [lia|]. len. }
    rewrite !kidst_app kidst_cons !app_length !fmap_app /=.
    replace (length L + length R + S (length Z)) with (length L + (length R + S (length Z))) by lia.
    replace (length L + length R + 1) with (S (length L + length R)) by lia.
    iFrame. rewrite -!app_assoc. cbn [app]. iFrame. }
  cbn [length]. iFrame "HPR".
  rewrite !fsize_cons !fsize_nil !tsize_Nd !fsize_app fsize_cons.
  iApply (ctxp_eq with "Hc"). lia.
Qed.

(** ** All cases *)
Lemma wp_g_erase {A} k h c p L R this r n ht index
    (Kroot : ptr → M T A) K2 K3 K4 K5 K6 Q E :
  kh k h → wfhole h c L R → index = length L →
  n = length (cl c) + (fsize L + fsize R + 1) + length (cr c) → n < c_W C →
  sqo this r n ht -∗ holed h c p L R -∗
  ((∀ y q j, ⌜c = [] ∧ L ++ R = [y]⌝ → sqo this (Some (tloc y)) n ht -∗ tr h q j y -∗
      wp (Kroot (Some (tloc y))) Q E) ∧
   (⌜wfh (S h) c (Nd p (L ++ R))⌝ → sqo this r n ht -∗ over (S h) c (Nd p (L ++ R)) -∗
      wp (K2 (cparent c) (cindex c)) Q E) ∧
   (∀ pp PL prev Z z PR c',
      ⌜c = (pp, PL ++ [Nd prev (Z ++ [z])], PR) :: c' ∧
       wfh (S (S h)) c' (Nd pp (PL ++ Nd prev Z :: Nd p (z :: L ++ R) :: PR))⌝ →
      sqo this r n ht -∗ over (S (S h)) c' (Nd pp (PL ++ Nd prev Z :: Nd p (z :: L ++ R) :: PR)) -∗
      wp (K3 (cparent c') (cindex c')) Q E) ∧
   (∀ pp PL prev Z PR c',
      ⌜c = (pp, PL ++ [Nd prev Z], PR) :: c' ∧
       wfhole (S h) c' (PL ++ [Nd prev (Z ++ L ++ R)]) PR⌝ →
      sqo this r n ht -∗ holed (S h) c' pp (PL ++ [Nd prev (Z ++ L ++ R)]) PR -∗
      wp (K4 (Some pp) (length PL + 1) (Some prev) (length Z)) Q E) ∧
   (∀ pp next Z z PR c',
      ⌜c = (pp, [], Nd next (z :: Z) :: PR) :: c' ∧
       wfh (S (S h)) c' (Nd pp (Nd p (L ++ R ++ [z]) :: Nd next Z :: PR))⌝ →
      sqo this r n ht -∗ over (S (S h)) c' (Nd pp (Nd p (L ++ R ++ [z]) :: Nd next Z :: PR)) -∗
      wp (K5 (cparent c') (cindex c')) Q E) ∧
   (∀ pp next Z PR c',
      ⌜c = (pp, [], Nd next Z :: PR) :: c' ∧
       wfhole (S h) c' [Nd p (L ++ R ++ Z)] PR⌝ →
      sqo this r n ht -∗ holed (S h) c' pp [Nd p (L ++ R ++ Z)] PR -∗
      wp (K6 (Some pp) 1) Q E)) -∗
  wp (g_erase k this (Some p) index Kroot K2 K3 K4 K5 K6) Q E.
Proof.
  iIntros (Hk (Hwc & HwL & HwR & Hlen) -> Hn HW) "Hs H HQ".
  pose proof base_bounds as HB. pose proof (ok_W _ OK) as HW'.
  assert (1 ≤ h) as Hh by (destruct k; simpl in Hk; lia).
  rewrite /g_erase.
  iDestruct "H" as (d junk Hj) "(Hn & HL & HR & Hc)".
  wp_bind. iApply (wp_parent_pointer with "Hn"). iIntros "Hn".
  wp_bind. iApply (wp_parent_index with "Hn"). iIntros "Hn".
  wp_bind. iApply (wp_length_of with "Hn"). iIntros "Hn".
  iAssert (holed h c p L R) with "[Hn HL HR Hc]" as "H".
  { iExists d, junk. by iFrame. }
  destruct c as [|[[pp PL] PR] c]; cbn [cparent cindex].
  { (* root *)
    rewrite (bool_decide_eq_true_2 (None = None)) // !orb_true_r andb_true_r.
    destruct (length L + S (length R) =? 2) eqn:H2.
    - apply Nat.eqb_eq in H2. iDestruct "HQ" as "[HQ _]".
      iApply (wp_erase_root with "Hs H"); [done|done|done|].
      iIntros (y q j Hy). by iApply "HQ".
    - apply Nat.eqb_neq in H2. iDestruct "HQ" as "(_ & HQ & _)". cbn zeta.
      rewrite wsub_small; [|lia..].
      iApply (wp_erase_simple _ _ [] with "H"); [done|done|lia|lia|].
      iIntros "H". iApply ("HQ" with "[%] Hs H").
      cbn [wfh wfroot]. rewrite Forall_app app_length. split_and!; try done; lia. }
  rewrite (bool_decide_eq_false_2 (Some pp = None)) // !orb_false_r.
  assert ((length L + S (length R) =? 2) && negb (base_min =? 2) = false) as ->.
  { apply andb_false_iff. destruct (Nat.eqb_spec (length L + S (length R)) 2); [|by left].
    destruct (Nat.eqb_spec base_min 2); [by right|]. lia. }
  cbn zeta. rewrite (wsub_small (length L + _)); [|lia..].
  destruct (length L + S (length R) =? base_min) eqn:Hmin; cbn [negb]; last first.
  { apply Nat.eqb_neq in Hmin. iDestruct "HQ" as "(_ & HQ & _)".
    iApply (wp_erase_simple _ _ ((pp, PL, PR) :: c) with "H"); [done|done|lia|lia|].
    iIntros "H". iApply ("HQ" with "[%] Hs H").
    cbn [wfh wft]. rewrite Forall_app app_length. split_and!; try done; lia. }
  apply Nat.eqb_eq in Hmin. cbn [wfc] in Hwc. destruct Hwc as (_ & HwP & HlenP & Hwc).
  apply Forall_app in HwP as [HwPL HwPR].
  simpl in Hn. rewrite !app_length -[length (felems PL)]/(fsize PL) -[length (felems PR)]/(fsize PR) in Hn.
  destruct PL as [|prevt PL _] using rev_ind.
  - (* next *)
    cbn [length]. rewrite Nat.eqb_refl. cbn [negb].
    destruct PR as [|nextt PR]; [destruct c; simpl in *; lia|].
    apply Forall_cons in HwPR as [Hwn HwPR].
    destruct nextt as [?|next Z]; [simpl in Hwn; lia|].
    destruct Hwn as (_ & HlenZ & HwZ).
    rewrite fsize_cons tsize_Nd fsize_nil in Hn.
    iDestruct "H" as (d' junk1 Hj1) "(Hn & HL & HR & Hc)". cbn [ctxp].
    iDestruct "Hc" as (junk' Hj') "(Hpp & HPL & HPR & Hc)".
    wp_bind. iApply (wp_pointers _ _ _ _ _ _ 1 with "Hpp"); [done|]. iIntros "Hpp".
    rewrite kidst_cons. iDestruct "HPR" as "[Hnext HPR]".
    iEval (rewrite tr_Nd) in "Hnext". iDestruct "Hnext" as (junk2) "(%Hj2 & Hnext & HZ)".
    wp_bind. iApply (wp_length_of with "Hnext"). iIntros "Hnext".
    iAssert (holed h ((pp, [], Nd next Z :: PR) :: c) p L R) with "[-Hs HQ]" as "H".
    { iExists d', junk1. iFrame "Hn HL HR". iSplitR; [done|]. cbn [ctxp]. iExists junk'. iFrame "Hpp HPL Hc".
      iSplitR; [done|]. rewrite kidst_cons. iFrame "HPR". rewrite tr_Nd. iExists junk2. iFrame "Hnext HZ". done. }
    destruct Z as [|z Z]; [simpl in *; lia|]. cbn [length] in *. apply Forall_cons in HwZ as [Hwz HwZ].
    pose proof (wft_tsize _ _ Hwz) as Hz. rewrite fsize_cons in Hn.
    destruct (S (length Z) =? base_min) eqn:Hzm; cbn [negb].
    + apply Nat.eqb_eq in Hzm. iDestruct "HQ" as "(_ & _ & _ & _ & _ & HQ)".
      rewrite (wsub_small (S (length Z))); [|lia..]. 
      replace (S (length Z) - 1) with (length Z) by lia.
      iApply (wp_erase_merge_next with "Hs H"); [done|done|lia|lia| |done|].
      { rewrite fsize_cons tsize_Nd fsize_cons. lia. }
      iIntros "Hs H". iApply ("HQ" with "[%] Hs H"). split; [done|].
      split_and!.
      * done.
      * rewrite Forall_singleton. cbn [wft]. rewrite !Forall_app Forall_cons !app_length /=. split_and!; try done; lia.
      * done.
      * destruct c; simpl in *; lia.
      * destruct c; simpl in *; lia.
    + apply Nat.eqb_neq in Hzm. iDestruct "HQ" as "(_ & _ & _ & _ & HQ & _)".
      rewrite (wsub_small (S (length Z))); [|lia..].
      replace (S (length Z) - 1) with (length Z) by lia.
      iApply (wp_erase_rot_next with "H"); [done|done|lia|lia|lia| |done|].
      { rewrite fsize_cons tsize_Nd fsize_cons. lia. }
      iIntros "H". iApply ("HQ" with "[%] Hs H"). split; [done|].
      assert (Forall (wft (S h)) (Nd p (L ++ R ++ [z]) :: Nd next Z :: PR)).
      { rewrite !Forall_cons. cbn [wft]. rewrite !Forall_app Forall_singleton !app_length /=. split_and!; try done; lia. }
      destruct c; cbn [wfh wft wfroot]; simpl in *; split_and!; try done; lia.
  - (* prev *)
    rewrite app_length /= in HlenP |- *.
    rewrite (proj2 (Nat.eqb_neq (length PL + 1) 0)); [|lia]. cbn [negb].
    apply Forall_app in HwPL as [HwPL [Hwp _]%Forall_cons].
    destruct prevt as [?|prev Z]; [simpl in Hwp; lia|].
    destruct Hwp as (_ & HlenZ & HwZ).
    rewrite fsize_app fsize_cons tsize_Nd fsize_nil in Hn.
    rewrite (wsub_small (length PL + 1)); [|destruct c; lia..].
    rewrite Nat.add_sub.
    iDestruct "H" as (d' junk1 Hj1) "(Hn & HL & HR & Hc)". cbn [ctxp].
    iDestruct "Hc" as (junk' Hj') "(Hpp & HPL & HPR & Hc)".
    wp_bind. iApply (wp_pointers with "Hpp").
    { rewrite fmap_app -app_assoc. apply lookup_mid. len. }
    iIntros "Hpp".
    rewrite kidst_app kidst_cons kidst_nil right_id. iDestruct "HPL" as "[HPL Hprev]".
    iEval (rewrite tr_Nd) in "Hprev". iDestruct "Hprev" as (junk2) "(%Hj2 & Hprev & HZ)".
    wp_bind. iApply (wp_length_of with "Hprev"). iIntros "Hprev".
    iAssert (holed h ((pp, PL ++ [Nd prev Z], PR) :: c) p L R) with "[-Hs HQ]" as "H".
    { iExists d', junk1. iFrame "Hn HL HR". iSplitR; [done|]. cbn [ctxp]. iExists junk'. iFrame "Hpp HPR Hc".
      iSplitR; [done|]. rewrite kidst_app kidst_cons kidst_nil right_id. iFrame "HPL". rewrite tr_Nd. iExists junk2. iFrame "Hprev HZ". done. }
    destruct (length Z =? base_min) eqn:Hzm; cbn [negb].
    + apply Nat.eqb_eq in Hzm. iDestruct "HQ" as "(_ & _ & _ & HQ & _)".
      replace (length L + S (length R) - 1) with (length L + length R) by lia.
      rewrite wsub_small; [|lia..]. replace (length L + length R - length L) with (length R) by lia.
      iApply (wp_erase_merge_prev with "Hs H"); [done|done|lia|lia| |destruct c; lia|].
      { rewrite fsize_app fsize_cons tsize_Nd. lia. }
      iIntros "Hs H". iApply ("HQ" with "[%] Hs H"). split; [done|].
      split_and!.
      * done.
      * rewrite Forall_app Forall_singleton. cbn [wft]. rewrite !Forall_app !app_length /=. split_and!; try done; lia.
      * done.
      * rewrite app_length. destruct c; simpl in *; lia.
      * rewrite app_length. destruct c; simpl in *; lia.
    + apply Nat.eqb_neq in Hzm. iDestruct "HQ" as "(_ & _ & HQ & _)".
      destruct Z as [|z Z _] using rev_ind; [simpl in *; lia|]. rewrite app_length /= in HlenZ Hzm |- *.
      rewrite fsize_app fsize_cons fsize_nil in Hn.
      apply Forall_app in HwZ as [HwZ [Hwz _]%Forall_cons]. pose proof (wft_tsize _ _ Hwz) as Hz.
      rewrite (wsub_small (length Z + 1)); [|lia..].
      rewrite Nat.add_sub.
      iApply (wp_erase_rot_prev with "H"); [done|done|lia|lia|lia| |done|destruct c; lia|].
      { rewrite fsize_app fsize_cons tsize_Nd fsize_app fsize_cons fsize_nil. lia. }
      iIntros "H". iApply ("HQ" with "[%] Hs H"). split; [done|].
      assert (Forall (wft (S h)) (PL ++ Nd prev Z :: Nd p (z :: L ++ R) :: PR)).
      { rewrite Forall_app !Forall_cons. cbn [wft]. rewrite Forall_cons !Forall_app /= !app_length /=. split_and!; try done; lia. }
      destruct c; cbn [wfh wft wfroot]; rewrite ?app_length; simpl in *; split_and!; try done; lia.
Qed.

End erase.
