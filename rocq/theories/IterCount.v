(** * IterCount: move_next_count and move_prev_count (lines 502-654 of seq.hpp).
    Proof infrastructure. *)
From Verif Require Export Iter.
From stdpp Require Import options.
Set Default Proof Using "Type*".

Section iter.
Context {T : Type} {C : cfg T} {OK : cfg_ok C} {FZ : frozen T}.
Context (ea na : nat).
Implicit Types t x y : tree T.
Implicit Types A B ts : list (tree T).
Implicit Types c : ctx T.
Implicit Types xs : list T.
Notation tr := (tr ea na).
Notation kidst := (kidst ea na).
Notation ctxp := (ctxp ea na).
Notation whole H t := (tr H (Some None) (Some 0) t).

(** ** forwards *)
Definition next_res A B (count : nat) (r : (nat * nat * nat) + nat) : Prop :=
  match r with
  | inl (idx, sz, cnt) => ∃ B1 y B2, B = B1 ++ y :: B2 ∧ idx = length A + S (length B1) ∧ sz = tsize y ∧
      count = fsize B1 + cnt ∧ cnt < tsize y
  | inr cnt => count = fsize B + cnt
  end.
Lemma wp_next_scan l p i A x B junk count fuel (Q : (nat * nat * nat) + nat → hprop T) E :
  length B < fuel →
  nd na l p i (Some (length A + S (length B))) ((entry <$> A) ++ entry x :: (entry <$> B) ++ junk) -∗
  (∀ r, ⌜next_res A B count r⌝ →
   nd na l p i (Some (length A + S (length B))) ((entry <$> A) ++ entry x :: (entry <$> B) ++ junk) -∗ Q r) -∗
  wp (next_scan fuel (Some l) (length A) count) Q E.
Proof.
  iIntros (Hf) "Hn HQ".
  iInduction B as [|y B] "IH" forall (A x count fuel Hf Q); (destruct fuel as [|fuel]; [simpl in *; lia|]);
    cbn [next_scan]; wp_bind; iApply (wp_length_of with "Hn"); iIntros "Hn".
  - cbn [length]. rewrite Nat.eqb_refl. wp_ret. by iApply ("HQ" with "[%] Hn").
  - cbn [length]. rewrite (proj2 (Nat.eqb_neq _ _)); [|lia].
    wp_bind. iApply (wp_sizes _ _ _ _ _ _ _ (tsize y) (Some (tloc y)) with "Hn").
    { rewrite fmap_cons (snoc_app (entry <$> A)). apply lookup_mid. len. }
    iIntros "Hn". destruct (count <? tsize y) eqn:Hlt.
    + apply Nat.ltb_lt in Hlt. wp_ret. iApply ("HQ" with "[%] Hn").
      exists [], y, B. simpl. split_and!; try done; lia.
    + apply Nat.ltb_ge in Hlt.
      replace (length A + 1) with (length (A ++ [x])) by len.
      iApply ("IH" $! (A ++ [x]) y with "[%] [Hn]").
      * simpl in Hf. lia.
      * rewrite fmap_app fmap_cons -app_assoc app_length /=.
        replace (length A + 1 + S (length B)) with (length A + S (S (length B))) by lia. done.
      * iIntros (r Hr) "Hn". iApply ("HQ" with "[%]").
        -- destruct r as [[[idx sz] cnt]|cnt]; simpl in Hr |- *.
           ++ destruct Hr as (B1 & z & B2 & -> & -> & -> & ? & ?). exists (y :: B1), z, B2.
              rewrite fsize_cons app_length /=. split_and!; try done; lia.
           ++ rewrite fsize_cons. lia.
        -- rewrite fmap_app fmap_cons -app_assoc app_length /=.
           replace (length A + 1 + S (length B)) with (length A + S (S (length B))) by lia. done.
Qed.

Lemma next_split h c l A x B1 y B2 :
  wfc h ((l, A, B1 ++ y :: B2) :: c) → wft h y.
Proof. simpl. rewrite !Forall_app Forall_cons. naive_solver. Qed.

Lemma wp_move_next_branch_count_loop h c x count fuel Q E :
  2 ≤ h → wfc h c → wfh h c x →
  length (cl c) + tsize x + count ≤ tsize (plug c x) →
  length c < fuel →
  whole (length c + h) (plug c x) -∗
  (∀ e', ⌜it_at (plug c x) e' (length (cl c) + tsize x + count)%nat⌝ → whole (length c + h) (plug c x) -∗ Q e') -∗
  wp (move_next_branch_count_loop fuel (Some (tloc x)) (cparent c) (cindex c) count h) Q E.
Proof.
  iIntros (Hh Hc Hx Hle Hf) "H HQ".
  iInduction c as [|[[l A] B] c] "IH" forall (h x count fuel Hh Hc Hx Hle Hf Q);
    (destruct fuel as [|fuel]; [simpl in *; lia|]); cbn [move_next_branch_count_loop cparent cindex].
  { cbn [plug cl length] in Hle |- *. iApply (wp_find_end_node with "H"); [done|done|].
    iIntros (e He). iApply "HQ". iPureIntro. replace (0 + tsize x + count) with (tsize x) by lia.
    by apply it_at_end. }
  pose proof Hc as (_ & _ & Hlen & _).
  assert (tsize (plug ((l, A, B) :: c) x) = length (cl c) + fsize A + tsize x + fsize B + length (cr c)) as Htot.
  { rewrite tsize_plug cl_len cr_len. lia. }
  rewrite Htot in Hle. rewrite cl_len in Hle |- *. clear Htot.
  cbn [length plug].  replace (S (length c) + h) with (length c + S h) by lia.
  iDestruct (tr_focus with "H") as (junk Hj) "(Hn & Hx & Hw)"; [lia|].
  wp_bind. iApply (wp_next_scan with "Hn"); [lia|]. iIntros (r Hr) "Hn".
  destruct r as [[[idx sz] cnt]|cnt].
  - destruct Hr as (B1 & y & B2 & -> & -> & -> & -> & Hlt).
    iDestruct ("Hw" with "Hn Hx") as "H".
    replace (A ++ x :: B1 ++ y :: B2) with ((A ++ x :: B1) ++ y :: B2) by by rewrite -app_assoc.
    pose proof (next_split _ _ _ _ x _ _ _ Hc) as Hy.
    iDestruct (tr_focus with "H") as (junk' Hj') "(Hn & Hy & Hw)"; [lia|].
    wp_bind. iApply (wp_pointers with "Hn"); [apply lookup_mid; len|]. iIntros "Hn".
    iApply (wp_find_index_node with "Hy"); [done|by apply wft_wfroot|done|].
    iIntros (e' He') "Hy". iDestruct ("Hw" with "Hn Hy") as "H".
    iApply ("HQ" with "[%] H").
    apply at_elem_it. destruct (is_Nd h y) as (l' & ts' & ->); [lia|by apply wft_wfroot|].
    apply (at_elem_plug ((l, A ++ x :: B1, B2) :: c)) in He'.
    rewrite cl_len fsize_app fsize_cons in He'.
    replace (length (cl c) + fsize A + tsize x + (fsize B1 + cnt)) with
      (length (cl c) + (fsize A + (tsize x + fsize B1)) + cnt) by lia. exact He'.
  - simpl in Hr. subst count.
    wp_bind. iApply (wp_parent_index with "Hn"). iIntros "Hn".
    wp_bind. iApply (wp_parent_pointer with "Hn"). iIntros "Hn".
    iDestruct ("Hw" with "Hn Hx") as "H".
    replace (h + 1) with (S h) by lia. change l with (tloc (Nd l (A ++ x :: B))) at 1.
    iApply ("IH" with "[%] [%] [%] [%] [%] H").
    + lia.
    + by eapply wfh_up.
    + by eapply wfh_up.
    + rewrite tsize_plug tsize_Nd fsize_app fsize_cons. lia.
    + simpl in Hf. lia.
    + iIntros (e' He'). iApply "HQ". iPureIntro.
      rewrite tsize_Nd fsize_app fsize_cons in He'.
      replace (length (cl c) + fsize A + tsize x + (fsize B + cnt)) with
        (length (cl c) + (fsize A + (tsize x + fsize B)) + cnt) by lia. exact He'.
Qed.
Lemma wp_move_next_branch_count h c x count Q E :
  2 ≤ h → wfc h c → wfh h c x →
  length (cl c) + tsize x + count ≤ tsize (plug c x) →
  whole (length c + h) (plug c x) -∗
  (∀ e', ⌜it_at (plug c x) e' (length (cl c) + tsize x + count)%nat⌝ → whole (length c + h) (plug c x) -∗ Q e') -∗
  wp (fuel ← heap_fuel; move_next_branch_count_loop fuel (Some (tloc x)) (cparent c) (cindex c) count h) Q E.
Proof.
  iIntros (Hh Hc Hx Hpos) "H HQ".
  wp_bind. iApply (wp_heap_fuel (length c)). iSplit. { iApply (tr_szge with "H"). lia. }
  iIntros (fuel Hf). by iApply (wp_move_next_branch_count_loop with "H HQ").
Qed.

Lemma wp_move_next_leaf_count H t e pos count Q E :
  wfroot H t → at_seg t e pos → pos + (sg_len (e_seg e) - sg_idx (e_seg e)) + count ≤ tsize t →
  whole H t -∗
  (∀ e', ⌜it_at t e' (pos + (sg_len (e_seg e) - sg_idx (e_seg e)) + count)%nat⌝ → whole H t -∗ Q e') -∗
  wp (move_next_leaf_count e count) Q E.
Proof.
  iIntros (Hw (c & s & xs & -> & Hs & Hl & -> & Hi) Hle) "H HQ".
  pose proof (wfroot_plug_seg _ _ _ _ Hw) as ->.
  pose proof (proj1 (wfroot_plug _ _ _) Hw) as [Hc Hx].
  assert (sg_len (e_seg e) = length xs) as Hln by by rewrite Hs.
  rewrite Hln in Hle |- *.
  replace (length (cl c) + sg_idx (e_seg e) + (length xs - sg_idx (e_seg e)))
    with (length (cl c) + length xs) in Hle |- * by lia.
  rewrite /move_next_leaf_count Hl. cbn [lf_ptr lf_idx].
  destruct c as [|[[l A] B] c]; cbn [cparent cindex].
  { rewrite /= tsize_Seg in Hle. wp_ret. iApply ("HQ" with "[%] H"). apply it_at_end; [|cbn [plug cl length]; rewrite tsize_Seg; lia].
    replace (length (cl []) + length xs + count) with (length (cl (T:=T) []) + length xs) by (simpl; lia).
    rewrite /set_sg_idx Hln Hl Hs. cbn [sg_ptr sg_len sg_idx]. apply at_seg_here. lia. }
  assert (tsize (plug ((l, A, B) :: c) (Seg s xs)) = length (cl c) + fsize A + length xs + fsize B + length (cr c)) as Htot.
  { rewrite tsize_plug cl_len cr_len tsize_Seg. lia. }
  rewrite Htot in Hle. rewrite cl_len in Hle |- *. clear Htot.
  pose proof Hc as (_ & _ & Hlen & _).
  cbn [length plug]. replace (S (length c) + 1) with (length c + 2) by lia.
  iDestruct (tr_focus with "H") as (junk Hj) "(Hn & Hx & Hw)"; [lia|].
  wp_bind. iApply (wp_next_scan with "Hn"); [lia|]. iIntros (r Hr) "Hn".
  destruct r as [[[idx sz] cnt]|cnt].
  - destruct Hr as (B1 & y & B2 & -> & -> & -> & -> & Hlt).
    iDestruct ("Hw" with "Hn Hx") as "H".
    replace (A ++ Seg s xs :: B1 ++ y :: B2) with ((A ++ Seg s xs :: B1) ++ y :: B2) by by rewrite -app_assoc.
    pose proof (next_split _ _ _ _ (Seg s xs) _ _ _ Hc) as Hy.
    iDestruct (tr_focus with "H") as (junk' Hj') "(Hn & Hy & Hw)"; [lia|].
    wp_bind. iApply (wp_pointers with "Hn"); [apply lookup_mid; len|]. iIntros "Hn".
    iDestruct ("Hw" with "Hn Hy") as "H". wp_ret.
    iApply ("HQ" with "[%] H").
    apply at_elem_it. destruct y as [s' ys|]; simpl in Hy; [|lia]. rewrite tsize_Seg in Hlt |- *.
    pose proof (at_elem_here ((l, A ++ Seg s xs :: B1, B2) :: c) s' ys cnt Hlt) as He'.
    rewrite cl_len fsize_app fsize_cons tsize_Seg in He'.
    cbn [cparent cindex] in He'. rewrite (app_length A (_ :: _)) in He'. cbn [length] in He'.
    replace (length (cl c) + fsize A + length xs + (fsize B1 + cnt)) with
      (length (cl c) + (fsize A + (length xs + fsize B1)) + cnt) by lia. exact He'.
  - simpl in Hr. subst count.
    wp_bind. iApply (wp_parent_pointer with "Hn"). iIntros "Hn".
    wp_bind. iApply (wp_parent_index with "Hn"). iIntros "Hn".
    iDestruct ("Hw" with "Hn Hx") as "H".
    destruct (wfh_up _ _ _ _ _ _ Hc Hx) as [Hc' Hx'].
    change l with (tloc (Nd l (A ++ Seg s xs :: B))) at 1.
    iApply (wp_move_next_branch_count with "H"); [lia|done|done| |].
    + rewrite tsize_plug tsize_Nd fsize_app fsize_cons tsize_Seg. lia.
    + iIntros (e' He'). iApply "HQ". iPureIntro.
      rewrite tsize_Nd fsize_app fsize_cons tsize_Seg in He'.
      replace (length (cl c) + fsize A + length xs + (fsize B + cnt)) with
        (length (cl c) + (fsize A + (length xs + fsize B)) + cnt) by lia. exact He'.
Qed.

Lemma wp_move_next_segment_count H t e pos count Q E :
  wfroot H t → at_seg t e pos → pos + count ≤ tsize t → tsize t < c_W C →
  whole H t -∗ (∀ e', ⌜it_at t e' (pos + count)%nat⌝ → whole H t -∗ Q e') -∗
  wp (move_next_segment_count e count) Q E.
Proof.
  iIntros (Hw He Hle HtW) "H HQ". rewrite /move_next_segment_count.
  assert (sg_idx (e_seg e) ≤ pos ∧ sg_idx (e_seg e) ≤ sg_len (e_seg e) ∧ sg_len (e_seg e) ≤ tsize t) as (Hi & Hi2 & Hi3).
  { destruct He as (c & s & xs & -> & Hs & Hl & -> & Hi). rewrite tsize_plug tsize_Seg Hs /=. lia. }
  rewrite wadd_small; [|lia].
  destruct (_ <? _) eqn:Hlt.
  - apply Nat.ltb_lt in Hlt. wp_ret. iApply ("HQ" with "[%] H").
    apply at_elem_it.
    destruct He as (c & s & xs & -> & Hs & Hl & -> & _).
    rewrite Hs in Hlt. cbn [sg_len sg_idx] in Hlt.
    rewrite /set_sg_idx Hs Hl. cbn [sg_ptr sg_len sg_idx].
    rewrite -Nat.add_assoc. apply at_elem_here. lia.
  - apply Nat.ltb_ge in Hlt. rewrite wsub_small; [|lia..].
    iApply (wp_move_next_leaf_count with "H"); [done|done|lia|].
    iIntros (e' He'). iApply "HQ". iPureIntro.
    replace (pos + count) with (pos + (sg_len (e_seg e) - sg_idx (e_seg e)) + (sg_idx (e_seg e) + count - sg_len (e_seg e))) by lia. done.
Qed.

(** ** backwards *)
Definition prev_res A (count : nat) (r : (nat * nat * nat) + nat) : Prop :=
  match r with
  | inl (idx, sz, cnt) => ∃ A1 y A2, A = A1 ++ y :: A2 ∧ idx = length A1 ∧ sz = tsize y ∧
      count = fsize A2 + cnt ∧ 1 ≤ cnt ≤ tsize y
  | inr cnt => count = fsize A + cnt ∧ 1 ≤ cnt
  end.
Lemma wp_prev_scan l p i n A arr count (Q : (nat * nat * nat) + nat → hprop T) E :
  1 ≤ count →
  nd na l p i n ((entry <$> A) ++ arr) -∗
  (∀ r, ⌜prev_res A count r⌝ → nd na l p i n ((entry <$> A) ++ arr) -∗ Q r) -∗
  wp (prev_scan (Some l) (length A) count) Q E.
Proof.
  iIntros (Hc) "Hn HQ".
  iInduction A as [|y A] "IH" using rev_ind forall (arr count Hc Q).
  - cbn [length prev_scan]. wp_ret. iApply ("HQ" with "[%] Hn"). cbn [prev_res]. rewrite fsize_nil. lia.
  - rewrite app_length. cbn [length]. rewrite Nat.add_1_r. cbn [prev_scan].
    rewrite fmap_app -app_assoc fmap_cons. cbn [app fmap list_fmap].
    wp_bind. iApply (wp_sizes with "Hn"); [apply lookup_mid; len|].
    iIntros "Hn". destruct (count <=? tsize y) eqn:Hlt.
    + apply Nat.leb_le in Hlt. wp_ret. iApply ("HQ" with "[%] Hn").
      exists A, y, []. rewrite fsize_nil. split_and!; try done; lia.
    + apply Nat.leb_gt in Hlt.
      iApply ("IH" with "[%] Hn"); [lia|].
      iIntros (r Hr) "Hn". iApply ("HQ" with "[%] Hn").
      destruct r as [[[idx sz] cnt]|cnt]; simpl in Hr |- *.
      * destruct Hr as (B1 & z & B2 & -> & -> & -> & ? & ?). exists B1, z, (B2 ++ [y]).
        rewrite fsize_app fsize_cons fsize_nil -app_assoc. split_and!; try done; lia.
      * rewrite fsize_app fsize_cons fsize_nil. lia.
Qed.
Lemma prev_split h c l A1 y A2 B :
  wfc h ((l, A1 ++ y :: A2, B) :: c) → wft h y.
Proof. simpl. rewrite !Forall_app Forall_cons. naive_solver. Qed.

Lemma wp_move_prev_branch_count_loop h c x count fuel Q E :
  2 ≤ h → wfc h c → wfh h c x →
  1 ≤ count ≤ length (cl c) → length (cl c) < c_W C →
  length c < fuel →
  whole (length c + h) (plug c x) -∗
  (∀ e', ⌜at_elem (plug c x) e' (length (cl c) - count)%nat⌝ → whole (length c + h) (plug c x) -∗ Q e') -∗
  wp (move_prev_branch_count_loop fuel (cparent c) (cindex c) count h) Q E.
Proof.
  iIntros (Hh Hc Hx Hle HcW Hf) "H HQ".
  iInduction c as [|[[l A] B] c] "IH" forall (h x count fuel Hh Hc Hx Hle HcW Hf Q);
    (destruct fuel as [|fuel]; [simpl in *; lia|]); cbn [move_prev_branch_count_loop cparent cindex].
  { simpl in Hle. lia. }
  rewrite cl_len in Hle, HcW |- *.
  cbn [length plug].  replace (S (length c) + h) with (length c + S h) by lia.
  iDestruct (tr_focus with "H") as (junk Hj) "(Hn & Hx & Hw)"; [lia|].
  wp_bind. iApply (wp_prev_scan with "Hn"); [lia|]. iIntros (r Hr) "Hn".
  destruct r as [[[idx sz] cnt]|cnt].
  - destruct Hr as (A1 & y & A2 & -> & -> & -> & -> & Hlt).
    iDestruct ("Hw" with "Hn Hx") as "H".
    rewrite -(app_assoc A1). cbn [app].
    pose proof (prev_split _ _ _ _ _ _ _ Hc) as Hy.
    iDestruct (tr_focus with "H") as (junk' Hj') "(Hn & Hy & Hw)"; [lia|].
    wp_bind. iApply (wp_pointers with "Hn"); [apply lookup_mid; len|]. iIntros "Hn".
    rewrite fsize_app fsize_cons in Hle, HcW |- *.
    rewrite wsub_small; [|lia..].
    iApply (wp_find_index_node with "Hy"); [done|by apply wft_wfroot|lia|].
    iIntros (e' He') "Hy". iDestruct ("Hw" with "Hn Hy") as "H".
    iApply ("HQ" with "[%] H").
    destruct (is_Nd h y) as (l' & ts' & ->); [lia|by apply wft_wfroot|].
    apply (at_elem_plug ((l, A1, A2 ++ x :: B) :: c)) in He'.
    rewrite cl_len in He'.
    replace (length (cl c) + (fsize A1 + (tsize (Nd l' ts') + fsize A2)) - (fsize A2 + cnt)) with
      (length (cl c) + fsize A1 + (tsize (Nd l' ts') - cnt)) by lia. exact He'.
  - destruct Hr as [-> Hcnt].
    wp_bind. iApply (wp_parent_index with "Hn"). iIntros "Hn".
    wp_bind. iApply (wp_parent_pointer with "Hn"). iIntros "Hn".
    iDestruct ("Hw" with "Hn Hx") as "H".
    replace (h + 1) with (S h) by lia.
    iApply ("IH" with "[%] [%] [%] [%] [%] [%] H").
    + lia.
    + by eapply wfh_up.
    + by eapply wfh_up.
    + lia.
    + lia.
    + simpl in Hf. lia.
    + iIntros (e' He'). iApply "HQ". iPureIntro.
      replace (length (cl c) + fsize A - (fsize A + cnt)) with (length (cl c) - cnt) by lia. exact He'.
Qed.
Lemma wp_move_prev_branch_count h c x count Q E :
  2 ≤ h → wfc h c → wfh h c x →
  1 ≤ count ≤ length (cl c) → length (cl c) < c_W C →
  whole (length c + h) (plug c x) -∗
  (∀ e', ⌜at_elem (plug c x) e' (length (cl c) - count)%nat⌝ → whole (length c + h) (plug c x) -∗ Q e') -∗
  wp (fuel ← heap_fuel; move_prev_branch_count_loop fuel (cparent c) (cindex c) count h) Q E.
Proof.
  iIntros (Hh Hc Hx Hle HcW) "H HQ".
  wp_bind. iApply (wp_heap_fuel (length c)). iSplit. { iApply (tr_szge with "H"). lia. }
  iIntros (fuel Hf). by iApply (wp_move_prev_branch_count_loop with "H HQ").
Qed.

(** [count] elements before the start of the segment of [e] *)
Lemma wp_move_prev_leaf_count H t e pos count Q E :
  wfroot H t → at_seg t e pos → 1 ≤ count → count + sg_idx (e_seg e) ≤ pos → tsize t < c_W C →
  whole H t -∗
  (∀ e', ⌜at_elem t e' (pos - sg_idx (e_seg e) - count)%nat⌝ → whole H t -∗ Q e') -∗
  wp (move_prev_leaf_count e count) Q E.
Proof.
  iIntros (Hw (c & s & xs & -> & Hs & Hl & -> & Hi) Hc1 Hle HtW) "H HQ".
  pose proof (wfroot_plug_seg _ _ _ _ Hw) as ->.
  pose proof (proj1 (wfroot_plug _ _ _) Hw) as [Hc Hx].
  rewrite Nat.add_sub. assert (count ≤ length (cl c)) as Hcl by lia. clear Hle.
  rewrite tsize_plug in HtW.
  rewrite /move_prev_leaf_count Hl. cbn [lf_ptr lf_idx].
  destruct c as [|[[l A] B] c]; cbn [cparent cindex].
  { simpl in Hcl. lia. }
  rewrite cl_len in Hcl, HtW |- *.
  cbn [length plug]. replace (S (length c) + 1) with (length c + 2) by lia.
  iDestruct (tr_focus with "H") as (junk Hj) "(Hn & Hx & Hw)"; [lia|].
  wp_bind. iApply (wp_prev_scan with "Hn"); [lia|]. iIntros (r Hr) "Hn".
  destruct r as [[[idx sz] cnt]|cnt].
  - destruct Hr as (A1 & y & A2 & -> & -> & -> & -> & Hlt).
    iDestruct ("Hw" with "Hn Hx") as "H".
    rewrite -(app_assoc A1). cbn [app].
    pose proof (prev_split _ _ _ _ _ _ _ Hc) as Hy.
    iDestruct (tr_focus with "H") as (junk' Hj') "(Hn & Hy & Hw)"; [lia|].
    wp_bind. iApply (wp_pointers with "Hn"); [apply lookup_mid; len|]. iIntros "Hn".
    iDestruct ("Hw" with "Hn Hy") as "H". wp_ret.
    iApply ("HQ" with "[%] H").
    rewrite fsize_app fsize_cons in Hcl, HtW |- *.
    destruct y as [s' ys|]; simpl in Hy; [|lia]. rewrite tsize_Seg in Hlt, Hcl, HtW |- *.
    rewrite wsub_small; [|lia..].
    pose proof (at_elem_here ((l, A1, A2 ++ Seg s xs :: B) :: c) s' ys (length ys - cnt)) as He'.
    rewrite cl_len in He'.
    replace (length (cl c) + (fsize A1 + (length ys + fsize A2)) - (fsize A2 + cnt)) with
      (length (cl c) + fsize A1 + (length ys - cnt)) by lia. apply He'. lia.
  - destruct Hr as [-> Hcnt].
    wp_bind. iApply (wp_parent_pointer with "Hn"). iIntros "Hn".
    wp_bind. iApply (wp_parent_index with "Hn"). iIntros "Hn".
    iDestruct ("Hw" with "Hn Hx") as "H".
    destruct (wfh_up _ _ _ _ _ _ Hc Hx) as [Hc' Hx'].
    iApply (wp_move_prev_branch_count with "H"); [lia|done|done|lia|lia|].
    iIntros (e' He'). iApply "HQ". iPureIntro.
    replace (length (cl c) + fsize A - (fsize A + cnt)) with (length (cl c) - cnt) by lia. exact He'.
Qed.

Lemma wp_move_prev_segment_count H t e pos count Q E :
  wfroot H t → at_seg t e pos → count ≤ pos → tsize t < c_W C →
  whole H t -∗
  (∀ e', ⌜at_seg t e' (pos - count)%nat ∧ (0 < count → at_elem t e' (pos - count)%nat) ∧ (count = 0 → e' = e)⌝ →
    whole H t -∗ Q e') -∗
  wp (move_prev_segment_count e count) Q E.
Proof.
  iIntros (Hw He Hle HtW) "H HQ". rewrite /move_prev_segment_count.
  pose proof (at_seg_le _ _ _ He) as Hpt.
  destruct (_ <=? _) eqn:Hlt.
  - apply Nat.leb_le in Hlt. wp_ret. iApply ("HQ" with "[%] H").
    destruct He as (c & s & xs & -> & Hs & Hl & -> & Hi).
    rewrite wsub_small; [|lia..].
    assert (length (cl c) + sg_idx (e_seg e) - count = length (cl c) + (sg_idx (e_seg e) - count)) as -> by lia.
    split_and!.
    + rewrite /set_sg_idx Hs Hl. cbn [sg_ptr sg_len sg_idx]. apply at_seg_here. lia.
    + intros ?. rewrite /set_sg_idx Hs Hl. cbn [sg_ptr sg_len sg_idx]. apply at_elem_here. lia.
    + intros ->. rewrite /set_sg_idx Nat.sub_0_r. by destruct e as [[]].
  - apply Nat.leb_gt in Hlt. rewrite wsub_small; [|lia..].
    iApply (wp_move_prev_leaf_count with "H"); [done|done|lia|lia|lia|].
    iIntros (e' He'). iApply "HQ". iPureIntro.
    replace (pos - sg_idx (e_seg e) - (count - sg_idx (e_seg e))) with (pos - count) in He' by lia.
    split_and!; [apply He'|done|lia].
Qed.
End iter.
