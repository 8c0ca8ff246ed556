(** * C65: inserting several elements changes only the segment at the position *)
From Verif Require Export PropsLocal ManyIns.
From stdpp Require Import options.
#[local] Set Default Proof Using "Type*".

Section wps.
Context {T : Type} {C : cfg T} {OK : cfg_ok C}.
Implicit Types σ : sst T.
Implicit Types ρ : env.
Implicit Types c : cmd T.
Implicit Types τ : gmap nat (option (tree T) * nat).
Implicit Types xs : list T.
Notation segl := (list (loc * list T)).
Context (L : segl → segl → nat → list T → Prop).
Context (L_nil : ∀ S0 pos, L S0 S0 pos []).
Context (L_app : ∀ S0 S1 S2 pos xs ys, L S0 S1 pos xs → L S1 S2 (pos + length xs) ys → L S0 S2 pos (xs ++ ys)).
Context (L_one : ∀ S0 S1 pos r v, (pos < length (concat S0.*2) → 0 < r) → seg_ins (C:=C) S0 S1 pos r v → L S0 S1 pos [v]).
(** the calls that insert several elements: the values and the index *)
Definition inserts_many σ c x xs (p : nat) : Prop :=
  match c with
  | InsertCount y w n s _ => y = x ∧ at_it σ w x p ∧ ∃ v, arg_value σ s = Some v ∧ xs = replicate n v
  | InsertRange y w r _ => y = x ∧ at_it σ w x p ∧ rng_values σ r = Some xs
  | Resize y n s => y = x ∧ p = length (contents σ x) ∧ p ≤ n ∧ ∃ v, arg_value σ s = Some v ∧ xs = replicate (n - p) v
  | _ => False
  end.
Definition many_like (o : option (tree T)) p xs (o' : option (tree T)) : Prop := L (osegs o) (osegs o') p xs.
Definition some_like o p xs o' : Prop := ∃ j, many_like o p (take j xs) o'.
Lemma wp_inserts_many σ ρ τ c x xs p o a :
  pre C σ c → inserts_many σ c x xs p → abs σ τ ρ → τ !! x = Some (o, a) →
  rep ρ τ ⊢ wp (exec_call c ρ) (new_segs x a (many_like o p xs)) (λ e, new_segs x a (some_like o p xs) (OExn e, ρ)).
Proof.
  intros Hpre Hi Ha Hτ. destruct c; try done; cbn [pre inserts_many] in *.
  - destruct Hi as (-> & Hw & v & Hv & ->). destruct Hpre as (p' & Hw' & Hco & _ & Hout & Hfit). rewrite /at_it in Hw, Hw'. simplify_eq.
    open_at Ha Hw o1 a1 l it. simplify_eq.
    destruct (const_outside _ _ _ _ _ _ Ha Hco Hv Hout) as (vs & Hg & Hsrc).
    cbn [exec_call]. rewrite Hg. iIntros "Hr". vars. wp_bind. rewrite /insert_count /emplace_count. take_ Hτ Hl. rewrite /fits Hc in Hfit.
    wp_bind. iApply (wp_count_rel L L_nil L_app L_one with "Hs Hr"); [done|done|done|]. iSplit.
    + iIntros (o' it' (Hsz & Hok' & Hp' & Hloc)) "Hs Hr". iApply (wp_move_prev_iterator_count with "Hs"); [done|lia|].
      iIntros (it2 _) "Hs". done_fold. iExists o', τ. iSplitR; [done|]. simpl. rewrite rep_bindi. iApply rep_put; [done|iFrame].
    + iIntros (e o' k (_ & Hk & Hloc)) "Hs Hr". iExists o', τ. iSplitR; [|simpl; iApply rep_put; [done|iFrame]].
      iPureIntro. exists k. rewrite /many_like take_replicate Nat.min_l //.
  - destruct Hi as (-> & Hw & Hv). destruct Hpre as (p' & xs' & Hw' & Hv' & Hout & Hfit).
    rewrite Hv in Hv'. injection Hv' as <-. clear p' Hw'.
    open_at Ha Hw o1 a1 l it. simplify_eq.
    destruct (getr_ok _ _ _ _ _ _ Ha Hv Hout) as (inp & I & J & X & Hg & Hspec & Hfuel & HI & HX).
    cbn [exec_call]. rewrite Hg. iIntros "Hr". vars. wp_bind. rewrite /insert_range /emplace_range. take_ Hτ Hl. rewrite /fits Hc in Hfit.
    iDestruct (HI with "Hr") as "HI". iDestruct (Hfuel with "HI") as %Hf.
    wp_bind. iApply (wp_range_rel L L_nil L_app L_one with "Hs HI"); [done|done|unfold osize; lia|lia|]. iSplit.
    + iIntros (r' o' it' (Hsz & Hok' & Hp' & Hloc)) "Hs HI". cbn [fst snd]. iApply (wp_move_prev_iterator_count with "Hs"); [done|lia|].
      iIntros (it2 _) "Hs". done_fold. iDestruct (inp_I _ _ _ _ _ Hspec with "HI") as "HX".
      iDestruct (HX with "HX") as (τ' [Ha' Htx]) "Hr". rewrite Hτ in Htx. iExists o', τ'. iSplitR; [done|].
      simpl. rewrite rep_bindi. iApply rep_put; [done|iFrame].
    + iIntros (e o' j j' [_ Hloc]) "Hs HX". iDestruct (HX with "HX") as (τ' [Ha' Htx]) "Hr". rewrite Hτ in Htx.
      iExists o', τ'. iSplitR; [|simpl; iApply rep_put; [done|iFrame]]. iPureIntro. by exists j.
  - destruct Hi as (-> & -> & Hle & v & Hv & ->). destruct Hpre as (Hx & Hfit & Hco & _ & Hout). open_live Ha Hx o1 a1 l. simplify_eq.
    destruct (const_outside _ _ _ _ _ _ Ha Hco Hv Hout) as (vs & Hg & Hsrc). rewrite Hc in Hle |- *. fold (osize o) in Hle |- *.
    cbn [exec_call]. rewrite Hg. iIntros "Hr". vars. wp_bind. rewrite /resize_ /resize_count. take_ Hτ Hl.
    wp_bind. iApply (wp_get_size_o with "Hs"). iIntros "Hs".
    destruct (osize o =? n) eqn:Heq.
    { apply Nat.eqb_eq in Heq as <-. wp_ret. done_fold. iExists o, τ. iSplitR; [|simpl; iApply rep_put; [done|iFrame]].
      iPureIntro. rewrite Nat.sub_diag. apply L_nil. }
    rewrite (proj2 (Nat.ltb_ge n (osize o))); [|done]. wp_bind. iApply (wp_find_end with "Hs"). iIntros (it [Hok Hp]) "Hs".
    rewrite /emplace_count. wp_bind. wp_bind. iApply (wp_count_rel L L_nil L_app L_one with "Hs Hr"); [done|done|unfold fits in Hfit; lia|]. iSplit.
    + iIntros (o' it' (Hsz & Hok' & Hp' & Hloc)) "Hs Hr". iApply (wp_move_prev_iterator_count with "Hs"); [done|lia|].
      iIntros (it2 _) "Hs". wp_ret. done_fold. iExists o', τ. iSplitR; [|simpl; iApply rep_put; [done|iFrame]].
      iPureIntro. rewrite Hp in Hloc. by rewrite /many_like.
    + iIntros (e o' k (_ & Hk & Hloc)) "Hs Hr". iExists o', τ. iSplitR; [|simpl; iApply rep_put; [done|iFrame]].
      iPureIntro. exists k. rewrite Hp in Hloc. rewrite /many_like take_replicate Nat.min_l //.
Qed.
End wps.

Section props.
Context {T : Type} {C : cfg T} {OK : cfg_ok C}.
Implicit Types σ : sst T.
Implicit Types ρ : env.
Implicit Types st : state T.
Implicit Types c : cmd T.
Notation reachable := (reachable C).
Notation exec := (exec (C:=C)).

(** the segments of the container after inserting several elements, or failing to *)
Lemma segs_after_many (L : list (loc * list T) → list (loc * list T) → nat → list T → Prop) σ ρ st c x xs p o ρ' st' ss :
  (∀ S0 pos, L S0 S0 pos []) →
  (∀ S0 S1 S2 pos xs ys, L S0 S1 pos xs → L S1 S2 (pos + length xs) ys → L S0 S2 pos (xs ++ ys)) →
  (∀ S0 S1 pos r v, (pos < length (concat S0.*2) → 0 < r) → seg_ins (C:=C) S0 S1 pos r v → L S0 S1 pos [v]) →
  reachable σ ρ st → pre C σ c → inserts_many σ c x xs p → exec c ρ st = Ok (o, ρ') st' → segments st ρ x = Some ss →
  ∃ j ss', L ss ss' p (take j xs) ∧ ((∀ e, o ≠ OExn e) → j = length xs) ∧ segments st' ρ' x = Some ss'.
Proof.
  intros L_nil L_app L_one Hr Hp Hi He Hss. pose proof (reachable_R _ _ _ Hr) as (τ & Ha & Hrep)%R_open.
  assert (∃ m, e_cont ρ !! x = Some m) as [m Hm].
  { rewrite /segments /seq_at in Hss. destruct (e_cont ρ !! x); [by eexists|done]. }
  assert (is_Some (τ !! x)) as [[o0 a] Hτ] by by (apply (abs_env _ _ _ Ha); rewrite Hm).
  destruct (rep_lives _ _ _ _ _ _ Hrep Hτ) as (l' & Hl' & Hlv). rewrite (lives_segments _ _ _ _ _ _ Hl' Hlv) in Hss. injection Hss as <-.
  pose proof (hprop_in_entails _ _ (wp_inserts_many L L_nil L_app L_one σ ρ τ c x xs _ o0 a Hp Hi Ha Hτ) _ Hrep) as H.
  rewrite wp_holds in H. destruct st as [h n cnt]. simpl in *.
  specialize (H ∅ n cnt (map_disjoint_empty_r _) (map_empty_subseteq _)). rewrite right_id_L in H.
  assert (∀ (P : option (tree T) → Prop) (o1 : out T) ρ1 st1, new_segs x a P (o1, ρ1) (st_heap st1) →
            ∃ o', P o' ∧ segments st1 ρ1 x = Some (osegs o')) as Hopen.
  { intros P o1 ρ1 st1 HQ. rewrite /new_segs in HQ. apply exist_holds in HQ as (o' & HQ). apply exist_holds in HQ as (τ' & HQ).
    apply sep_holds in HQ as (m1 & m2 & E & _ & [HP ->]%apure_holds & HQ). simpl in HQ. rewrite left_id_L in E. subst m2.
    exists o'. split; [done|]. destruct (rep_lives _ _ _ x o' a HQ) as (l1 & Hl1 & Hlv1). { by rewrite lookup_insert. }
    by eapply lives_segments. }
  revert He. rewrite /Exec.exec /try_catch. destruct (exec_call c ρ (State h n cnt)) as [[o1 ρ1] st1|e st1|f]; [| |done].
  - intros [= -> -> ->]. destruct H as (h' & _ & Hst & _ & HQ). rewrite right_id_L in Hst. subst h'.
    destruct (Hopen _ _ _ _ HQ) as (o' & HP & Hs). exists (length xs), (osegs o'). split_and!; [by rewrite take_ge //|done|done].
  - intros [= <- <- <-]. destruct H as (h' & _ & Hst & _ & HQ). rewrite right_id_L in Hst. subst h'.
    destruct (Hopen _ _ _ _ HQ) as (o' & [j HP] & Hs). exists j, (osegs o'). split_and!; [done|by intros H; destruct (H e)|done].
Qed.

(** ** Inserting several elements, or failing to: the segment at the position becomes one
    or more segments in the same place; all others stay as they are. *)
Theorem C65_insert_many σ ρ st c x xs p o ρ' st' before l vs after k :
  reachable σ ρ st → pre C σ c → inserts_many σ c x xs p → exec c ρ st = Ok (o, ρ') st' →
  segment_of st ρ x p before l vs after k →
  ∃ j first more, segments st' ρ' x = Some (before ++ (l, first) :: more ++ after) ∧
    first ++ concat more.*2 = take k vs ++ take j xs ++ drop k vs ∧
    (∀ new, new ∈ more.*1 → new ∉ (before ++ (l, vs) :: after).*1) ∧
    ((∀ e, o ≠ OExn e) → j = length xs).
Proof.
  intros Hr Hp Hi He (Hss & -> & Hk).
  pose proof (reached_nonempty ρ st x _ (ex_intro _ σ Hr) Hss) as Hne.
  destruct (segs_after_many local_ins σ ρ st c x xs _ o ρ' st' _ local_ins_nil local_ins_app seg_ins_local Hr Hp Hi He Hss) as (j & ss' & Hloc & Hj & Hss').
  destruct (Hloc before [(l, vs)] after) as (G & E & Hh & Hc).
  { done. }
  { simpl. rewrite right_id_L. apply Forall_app in Hne as [_ [Hne _]%Forall_cons]. simpl in Hne. lia. }
  { lia. }
  { simpl. rewrite right_id_L. destruct Hk as [|[-> ->]]; [left; lia|by right]. }
  destruct G as [|[l1 first] more]; [done|]. simpl in Hh. injection Hh as <-.
  rewrite /= right_id_L in Hc.
  exists j, first, more. split_and!; [by rewrite Hss' E| | |done].
  { rewrite Hc /ins_at. by replace (length (concat before.*2) + k - length (concat before.*2)) with k by lia. }
  destruct (call_inv _ _ _ _ _ _ _ Hr Hp He) as (σ' & _ & Hr2).
  assert (NoDup ss'.*1) as Hnd by (eapply (segments_nodup ρ' st'); [by eexists|done]).
  rewrite E !fmap_app in Hnd. simpl in Hnd. apply NoDup_app in Hnd as (_ & Hd & Hnd).
  apply NoDup_cons in Hnd as [Hn Hnd]. apply NoDup_app in Hnd as (_ & Hd2 & _).
  intros new Hin Hold. rewrite fmap_app in Hold. apply elem_of_app in Hold as [Hold|Hold].
  - apply (Hd _ Hold). right. apply elem_of_app. by left.
  - simpl in Hold. apply elem_of_cons in Hold as [->|Hold]; [apply Hn, elem_of_app; by left|by apply (Hd2 _ Hin)].
Qed.
End props.
