(** * C65: erasing a range changes only the segments around it *)
From Verif Require Export LocalMany.
From stdpp Require Import options.
#[local] Set Default Proof Using "Type*".

Section local.
Context {T : Type} {C : cfg T} {OK : cfg_ok C}.
Implicit Types o : option (tree T).
Implicit Types xs : list T.
Notation segl := (list (loc * list T)).

(** what a stretch [G] between [SL] and [SR] needs for the erasure of [p, q) to stay in it:
    the segments kept outside have at least [segment_min] elements of [G] between them
    and the erased ones *)
Definition in_stretch (SL G SR : segl) (p q : nat) : Prop :=
  length (concat SL.*2) + (if bool_decide (SL = []) then 0 else segment_min) ≤ p ∧
  q + (if bool_decide (SR = []) then 0 else segment_min) ≤ length (concat SL.*2) + length (concat G.*2).
Definition local_era (S0 S1 : segl) (p q : nat) : Prop :=
  ∀ SL G SR, S0 = SL ++ G ++ SR → in_stretch SL G SR p q →
    ∃ G', S1 = SL ++ G' ++ SR ∧
      concat G'.*2 = take (p - length (concat SL.*2)) (concat G.*2) ++ drop (q - length (concat SL.*2)) (concat G.*2).
Lemma local_era_nil S0 p : local_era S0 S0 p p.
Proof. intros SL G SR -> _. exists G. split; [done|]. by rewrite take_drop. Qed.
(** erasing the last element of the range first *)
Lemma local_era_last S0 S1 S2 p q :
  p ≤ q → local_era S0 S1 q (S q) → local_era S1 S2 p q → local_era S0 S2 p (S q).
Proof.
  intros Hpq H1 H2 SL G SR E [Hp Hq].
  destruct (H1 SL G SR E) as (G' & E' & Hc). { split; lia. }
  assert (length (concat G'.*2) = length (concat G.*2) - 1) as Hl.
  { rewrite Hc app_length take_length drop_length. lia. }
  destruct (H2 SL G' SR E') as (G2 & E2 & Hc2). { split; lia. }
  exists G2. split; [done|]. rewrite Hc2 Hc.
  assert (q - length (concat SL.*2) ≤ length (concat G.*2)) as Hb by lia.
  rewrite take_app_le; [|rewrite take_length; lia]. rewrite take_take Nat.min_l; [|lia]. f_equal.
  rewrite drop_app_alt; [done|]. rewrite take_length. lia.
Qed.
Lemma seg_era_local S0 S1 p : seg_era (C:=C) S0 S1 p → local_era S0 S1 p (S p).
Proof.
  intros (SL0 & l & A & x & R & SR0 & -> & -> & Hs) SL G SR E [Hp Hq].
  assert (length (concat (SL0 ++ (l, A ++ x :: R) :: SR0).*2) = length (concat SL.*2) + length (concat G.*2) + length (concat SR.*2)) as Htot.
  { rewrite E !fst_elems !app_length. lia. }
  rewrite fst_elems fmap_cons concat_cons !app_length /= in Htot.
  destruct (cut_in _ _ _ _ _ _ E) as [(S & ->)|[(G1 & G2 & -> & -> & ->)|(S & -> & ->)]].
  - exfalso. rewrite fst_elems fmap_cons concat_cons /= !app_length /= in Hp. lia.
  - (* the segment lies in the stretch: so do the neighbours it uses *)
    assert (∀ (M : segl) , concat M.*2 = concat G1.*2 ++ (A ++ R) ++ concat G2.*2 →
      concat M.*2 = take (length (concat (SL ++ G1).*2) + length A - length (concat SL.*2)) (concat (G1 ++ (l, A ++ x :: R) :: G2).*2) ++
                    drop (Datatypes.S (length (concat (SL ++ G1).*2) + length A) - length (concat SL.*2)) (concat (G1 ++ (l, A ++ x :: R) :: G2).*2)) as Hcut.
    { intros M ->. rewrite !fst_elems fmap_cons concat_cons /= app_length.
      replace (length (concat SL.*2) + length (concat G1.*2) + length A - length (concat SL.*2)) with (length (concat G1.*2 ++ A)) by (rewrite app_length; lia).
      replace (Datatypes.S (length (concat SL.*2) + length (concat G1.*2) + length A) - length (concat SL.*2)) with (length ((concat G1.*2 ++ A) ++ [x])) by (rewrite !app_length /=; lia).
      replace (concat G1.*2 ++ (A ++ x :: R) ++ concat G2.*2) with ((concat G1.*2 ++ A) ++ [x] ++ R ++ concat G2.*2) by (by rewrite -!app_assoc).
      rewrite take_app (app_assoc (concat G1.*2 ++ A)) drop_app -!app_assoc. done. }
    assert (∀ M, S1 = SL ++ M ++ SR → concat M.*2 = concat G1.*2 ++ (A ++ R) ++ concat G2.*2 → ∃ G', S1 = SL ++ G' ++ SR ∧
      concat G'.*2 = take (length (concat (SL ++ G1).*2) + length A - length (concat SL.*2)) (concat (G1 ++ (l, A ++ x :: R) :: G2).*2) ++
                     drop (Datatypes.S (length (concat (SL ++ G1).*2) + length A) - length (concat SL.*2)) (concat (G1 ++ (l, A ++ x :: R) :: G2).*2)) as Hfin.
    { intros M E1 HM. exists M. split; [done|by apply Hcut]. }
    clear Hcut. destruct Hs as [(HSL & HSR & -> & -> & ->)|[[_ ->]|(Hmin & Hs)]].
    + apply app_eq_nil in HSL as [-> ->]. apply app_eq_nil in HSR as [-> ->]. by apply (Hfin []).
    + apply (Hfin (G1 ++ (l, A ++ R) :: G2)); [by rewrite -!app_assoc|]. by rewrite fst_elems fmap_cons concat_cons.
    + rewrite app_length /= in Hmin.
      destruct Hs as [(b' & k & Z & z & HSL & ->)|[(b' & k & Z & HSL & _ & ->)|[(k & z & Z & a' & HSR & ->)|(k & Z & a' & HSR & _ & ->)]]].
      * destruct G1 as [|g G1 _] using rev_ind.
        { exfalso. rewrite app_nil_r in HSL. rewrite bool_decide_eq_false_2 in Hp; [rewrite app_nil_r in Hp; lia|by rewrite HSL; destruct b']. }
        rewrite (app_assoc SL) in HSL. apply app_inj_tail in HSL as [<- ->].
        apply (Hfin (G1 ++ (k, Z) :: (l, z :: A ++ R) :: G2)); [by rewrite -!app_assoc|].
        rewrite !fst_elems !fmap_cons !concat_cons /= right_id_L -!app_assoc. done.
      * destruct G1 as [|g G1 _] using rev_ind.
        { exfalso. rewrite app_nil_r in HSL. rewrite bool_decide_eq_false_2 in Hp; [rewrite app_nil_r in Hp; lia|by rewrite HSL; destruct b']. }
        rewrite (app_assoc SL) in HSL. apply app_inj_tail in HSL as [<- ->].
        apply (Hfin (G1 ++ (k, Z ++ A ++ R) :: G2)); [by rewrite -!app_assoc|].
        rewrite !fst_elems !fmap_cons !concat_cons /= right_id_L -!app_assoc. done.
      * destruct G2 as [|g G2].
        { exfalso. simpl in HSR. rewrite (bool_decide_eq_false_2 (SR = [])) in Hq; [|by rewrite HSR]. rewrite !fst_elems fmap_cons concat_cons !app_length /= in Hq. lia. }
        simpl in HSR. injection HSR as -> <-.
        apply (Hfin (G1 ++ (l, A ++ R ++ [z]) :: (k, Z) :: G2)); [by rewrite -!app_assoc|].
        rewrite !fst_elems !fmap_cons !concat_cons /= -!app_assoc. done.
      * destruct G2 as [|g G2].
        { exfalso. simpl in HSR. rewrite (bool_decide_eq_false_2 (SR = [])) in Hq; [|by rewrite HSR]. rewrite !fst_elems fmap_cons concat_cons !app_length /= in Hq. lia. }
        simpl in HSR. injection HSR as -> <-.
        apply (Hfin (G1 ++ (l, A ++ R ++ Z) :: G2)); [by rewrite -!app_assoc|].
        rewrite !fst_elems !fmap_cons !concat_cons /= -!app_assoc. done.
  - exfalso. rewrite !fst_elems !app_length in Hq. lia.
Qed.

Lemma wp_erase_range_loop_local ea na this fuel o first last Q E :
  it_ok o last → i_pos first ≤ i_pos last → i_pos last - i_pos first < fuel →
  seqp ea na this o -∗
  (∀ o' it', ⌜local_era (osegs o) (osegs o') (i_pos first) (i_pos last)⌝ → seqp ea na this o' -∗ Q it') -∗
  wp (erase_range_loop fuel this first last) Q E.
Proof.
  revert o last. induction fuel as [|fuel IH]; iIntros (o last Hit Hle Hf) "Hs HQ"; [lia|].
  cbn [erase_range_loop]. iDestruct (seqp_lt with "Hs") as %HW. pose proof (it_ok_le _ _ Hit) as Hle'.
  rewrite wsub_small; [|lia..]. destruct (_ =? 0) eqn:H0.
  { apply Nat.eqb_eq in H0. wp_ret. iApply ("HQ" $! o with "[%] Hs").
    assert (i_pos last = i_pos first) as -> by lia. apply local_era_nil. }
  apply Nat.eqb_neq in H0. wp_bind. iApply (wp_move_prev_iterator with "Hs"); [done|lia|].
  iIntros (l1 [Hl1 Hp1]) "Hs". wp_bind. iApply (wp_erase_single with "Hs"); [done|lia|].
  iIntros (o2 l2 (He & Hl2 & Hp2 & Hb & Hsg)) "Hs". iApply (IH with "Hs"); [done|lia|lia|].
  iIntros (o3 l3 Hloc) "Hs". iApply ("HQ" with "[%] Hs").
  replace (i_pos last) with (S (i_pos l1)) by lia. eapply local_era_last; [lia| |by rewrite -Hp2].
  by apply seg_era_local.
Qed.
End local.

Section props.
Context {T : Type} {C : cfg T} {OK : cfg_ok C}.
Implicit Types σ : sst T.
Implicit Types ρ : env.
Implicit Types st : state T.
Implicit Types c : cmd T.
Implicit Types τ : gmap nat (option (tree T) * nat).
Notation reachable := (reachable C).
Notation exec := (exec (C:=C)).
Notation segl := (list (loc * list T)).

(** the calls that erase the elements [p], …, [q-1] of [x] *)
Definition erases_range σ c x (p q : nat) : Prop :=
  match c with
  | EraseRange y w1 w2 _ => y = x ∧ at_it σ w1 x p ∧ at_it σ w2 x q
  | Resize y n _ => y = x ∧ n = p ∧ p ≤ q ∧ q = length (contents σ x)
  | _ => False
  end.
Definition range_like (o : option (tree T)) p q (o' : option (tree T)) : Prop := local_era (C:=C) (osegs o) (osegs o') p q.
Lemma wp_erases_range σ ρ τ c x p q o a :
  pre C σ c → erases_range σ c x p q → abs σ τ ρ → τ !! x = Some (o, a) →
  rep ρ τ ⊢ wp (exec_call (C:=C) c ρ) (new_segs x a (range_like o p q)) (λ _, True%I).
Proof.
  intros Hpre Hi Ha Hτ. destruct c; try done; cbn [pre erases_range] in *.
  - destruct Hi as (-> & Hw & Hw2). destruct Hpre as (p' & q' & Hw' & Hw2' & Hle). rewrite /at_it in Hw, Hw', Hw2, Hw2'. simplify_eq.
    open_at Ha Hw o1 a1 l it. simplify_eq.
    destruct (abs_at _ _ _ _ _ _ Ha Hw2) as (o2 & a2 & l2 & it2 & Ht2 & _ & _ & _ & Hit2 & Hok2 & Hp2 & _). simplify_eq.
    cbn [exec_call]. iIntros "Hr". vars. wp_bind. rewrite /erase_between /erase_range. take_ Hτ Hl.
    iDestruct (seqp_lt with "Hs") as %HW. pose proof (it_ok_le _ _ Hok2).
    iApply (wp_erase_range_loop_local with "Hs"); [done|done|rewrite wsub_small; lia|].
    iIntros (o' it' Ho') "Hs". done_fold. iExists o', τ. iSplitR; [done|]. simpl. rewrite rep_bindi. iApply rep_put; [done|iFrame].
  - destruct Hi as (-> & -> & Hle & ->). destruct Hpre as (Hx & Hfit & Hco & [v Hv] & Hout). open_live Ha Hx o1 a1 l. simplify_eq.
    destruct (const_outside _ _ _ _ _ _ Ha Hco Hv Hout) as (vs & Hg & _). rewrite Hc in Hle |- *. fold (osize o) in Hle |- *.
    cbn [exec_call]. rewrite Hg. iIntros "Hr". vars. wp_bind. rewrite /resize_ /resize_count. take_ Hτ Hl.
    wp_bind. iApply (wp_get_size_o with "Hs"). iIntros "Hs".
    destruct (osize o =? p) eqn:Heq.
    { apply Nat.eqb_eq in Heq as <-. wp_ret. done_fold. iExists o, τ. iSplitR; [|simpl; iApply rep_put; [done|iFrame]].
      iPureIntro. apply local_era_nil. }
    apply Nat.eqb_neq in Heq. rewrite (proj2 (Nat.ltb_lt p (osize o))); [|lia]. wp_bind. iApply (wp_find_end with "Hs"). iIntros (it [Hok Hp]) "Hs".
    wp_bind. iApply (wp_find_index with "Hs"); [lia|]. iIntros (f [Hf Hpf]) "Hs". wp_bind. rewrite /erase_range.
    iDestruct (seqp_lt with "Hs") as %HW. pose proof (it_ok_le _ _ Hok).
    iApply (wp_erase_range_loop_local with "Hs"); [done|lia|rewrite wsub_small; lia|].
    iIntros (o' it' Ho') "Hs". wp_ret. done_fold. iExists o', τ. iSplitR; [|simpl; iApply rep_put; [done|iFrame]].
    iPureIntro. by rewrite Hp Hpf in Ho'.
Qed.

(** ** Erasing a range: of the segments [before], [mid], [after], if the range lies
    within [mid] and leaves it at least a minimal segment of elements on each side on
    which other segments follow, only [mid] changes. *)
Theorem C65_erase_range σ ρ st c x p q o ρ' st' before mid after :
  reachable σ ρ st → pre C σ c → erases_range σ c x p q → exec c ρ st = Ok (o, ρ') st' →
  segments st ρ x = Some (before ++ mid ++ after) →
  let start := length (concat before.*2) in
  (before = [] → start ≤ p) → (before ≠ [] → start + segment_min (C:=C) ≤ p) →
  (after = [] → q ≤ start + length (concat mid.*2)) → (after ≠ [] → q + segment_min (C:=C) ≤ start + length (concat mid.*2)) →
  ∃ mid', segments st' ρ' x = Some (before ++ mid' ++ after) ∧
    concat mid'.*2 = take (p - start) (concat mid.*2) ++ drop (q - start) (concat mid.*2).
Proof.
  intros Hr Hp Hi He Hss start Hb1 Hb2 Ha1 Ha2.
  assert (∀ e, o ≠ OExn e) as Ho.
  { intros e ->. destruct (call_inv _ _ _ _ _ _ _ Hr Hp He) as (σ' & Hst & _). destruct c; try done; cbn [erases_range step] in *.
    - destruct Hst as (? & ? & _ & _ & Ho & _). by rewrite /returns in Ho.
    - destruct Hi as (-> & -> & Hle & ->). destruct Hst as (v & _ & [[Ho _]|(e' & j & _ & Hj & _)]); [by rewrite /returns in Ho|]. lia. }
  destruct (segs_after σ ρ st c x (λ o0, range_like o0 p q) o ρ' st' _ Hr Hss) as (o0 & o' & Hs & E & Hss'); [|done|done|].
  { intros τ o0 a Ha Hτ. by eapply wp_erases_range. }
  destruct (Hs before mid after) as (mid' & E' & Hc); [done| |exists mid'; by rewrite -E'].
  split.
  - destruct (bool_decide_reflect (before = [])); [rewrite Nat.add_0_r; auto|auto].
  - destruct (bool_decide_reflect (after = [])); [rewrite Nat.add_0_r; auto|auto].
Qed.
End props.
