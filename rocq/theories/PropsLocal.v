(** * C65: a call that inserts or erases one element leaves the other segments alone *)
From Verif Require Export PropsSegment Scope.
From stdpp Require Import options.
#[local] Set Default Proof Using "Type*".

Section wps.
Context {T : Type} {C : cfg T} {OK : cfg_ok C}.
Implicit Types σ : sst T.
Implicit Types ρ : env.
Implicit Types c : cmd T.
Implicit Types τ : gmap nat (option (tree T) * nat).

(** the argument is not moved out of the container it goes into *)
Definition elsewhere σ (s : arg T) (x : nat) : Prop := arg_const s ∨ arg_outside σ s x.
(** the calls that insert one element: the value and the index *)
Definition inserts_one σ c x (v : T) (p : nat) : Prop :=
  match c with
  | InsertOne y w s _ => y = x ∧ elsewhere σ s x ∧ arg_value σ s = Some v ∧ at_it σ w x p
  | PushBack y s => y = x ∧ elsewhere σ s x ∧ arg_value σ s = Some v ∧ p = length (contents σ x)
  | PushFront y s => y = x ∧ elsewhere σ s x ∧ arg_value σ s = Some v ∧ p = 0
  | _ => False
  end.
(** the calls that erase one element: its index *)
Definition erases_one σ c x (p : nat) : Prop :=
  match c with
  | Erase y w _ => y = x ∧ at_it σ w x p
  | PopBack y => y = x ∧ S p = length (contents σ x)
  | PopFront y => y = x ∧ p = 0
  | _ => False
  end.

(** the new segments of [x], everything else being as before *)
Definition new_segs x (a : nat) (P : option (tree T) → Prop) (r : out T * env) : hprop T :=
  (∃ o' τ', ⟦P o'⟧ ∗ rep r.2 (<[x := (o', a)]> τ'))%I.
Definition ins_like (o : option (tree T)) p (v : T) (o' : option (tree T)) : Prop :=
  ∃ r, (p < osize o → 0 < r) ∧ seg_ins (osegs o) (osegs o') p r v.
(** evaluating the argument leaves the tree of [x] alone *)
Definition kept_at τ x ρ : hprop T := (∃ τ', ⟦τ' !! x = τ !! x⟧ ∗ rep ρ τ')%I.
Lemma gets_elsewhere σ τ ρ s v x :
  abs σ τ ρ → elsewhere σ s x → arg_value σ s = Some v →
  ∃ vs, gets ρ s = mret vs ∧ src_spec vs v (rep ρ τ) (kept_at τ x ρ).
Proof.
  intros Ha He Hv.
  assert (arg_const s → ∃ vs, gets ρ s = mret vs ∧ src_spec vs v (rep ρ τ) (kept_at τ x ρ)) as Hconst.
  { intros Hs. destruct (gets_const σ τ τ ρ s v Ha Hs Hv) as (vs & H1 & H2); [done|].
    exists vs. split; [done|]. intros Q E. iIntros "Hr HQ". iApply (H2 with "Hr"). iSplit; [|by iDestruct "HQ" as "[_ $]"].
    iIntros "Hr". iDestruct "HQ" as "[HQ _]". iApply "HQ". iExists τ. by iFrame. }
  destruct s as [u|w|w]; [by apply Hconst|by apply Hconst|]. destruct He as [[]|Hout].
  destruct (deref_inv _ _ _ Hv) as (y & p & Hw & Hx).
  assert (y ≠ x) as Hyx by (intros ->; by eapply Hout).
  destruct (abs_at _ _ _ _ _ _ Ha Hw) as (o & a & l & it & Ht & Hl & Hcx & Hal & Hit & Hok & Hp & _).
  exists (it_mv it). split. { by rewrite /gets (geti_ok _ _ _ Hit). }
  intros Q E. iIntros "Hr HQ".
  iEval (rewrite (rep_take _ _ _ _ _ _ Ht Hl)) in "Hr". iDestruct "Hr" as "[Hs Hr]".
  iApply (src_move a a l o it v with "Hs"); [done|by rewrite Hp -Hcx|]. iSplit.
  + iIntros "Hs". iDestruct "Hs" as (o' [Hsh He']) "Hs". iDestruct "HQ" as "[HQ _]". iApply "HQ".
    iExists (<[y := (o', a)]> τ). iSplitR; [|iApply rep_put; [done|iFrame]].
    iPureIntro. by rewrite lookup_insert_ne.
  + iIntros (Hr) "Hs". iDestruct "HQ" as "[_ HQ]". iApply "HQ"; [done|]. rewrite (rep_take _ τ _ _ _ _ Ht Hl). iFrame.
Qed.
Lemma wp_ins_like ρ τ x l o a it vs v (Q : iterator_data → hprop T) :
  src_spec vs v (rep ρ τ) (kept_at τ x ρ) → τ !! x = Some (o, a) → e_cont ρ !! x = Some l → it_ok o it → osize o + 1 < c_W C →
  rep ρ τ -∗
  (∀ o' τ' it', ⌜ins_like o (i_pos it) v o'⌝ → rep ρ (<[x := (o', a)]> τ') -∗ Q it') -∗
  wp (emplace_single l it vs) Q (λ _, True%I).
Proof.
  iIntros (Hsrc Ht Hl Hok HW) "Hr HQ". rewrite /emplace_single. wp_bind. iApply (Hsrc with "Hr"). iSplit; [|by iIntros].
  iIntros "Hr". iDestruct "Hr" as (τ' Hτ') "Hr". rewrite Ht in Hτ'.
  take_ Hτ' Hl. iApply (wp_insert_single_iterator with "Hs"); [done|done|]. iSplit; [|by iIntros].
  iIntros (o2 it2 (_ & _ & _ & _ & Hs)) "Hs". iApply ("HQ" $! o2 τ' it2 with "[%] [Hs Hr]"); [|iApply rep_put; [done|iFrame]].
  eexists. split; [|done]. by apply it_ok_room.
Qed.
Lemma wp_inserts_one σ ρ τ c x v p o a :
  pre C σ c → inserts_one σ c x v p → abs σ τ ρ → τ !! x = Some (o, a) →
  rep ρ τ ⊢ wp (exec_call c ρ) (new_segs x a (ins_like o p v)) (λ _, True%I).
Proof.
  intros Hpre Hi Ha Hτ. destruct c; try done; cbn [pre inserts_one] in *.
  - destruct Hi as (-> & Hs & Hv & Hw). destruct Hpre as (p' & Hw' & _ & Hfit). rewrite /at_it in Hw, Hw'. simplify_eq.
    open_at Ha Hw o1 a1 l it. simplify_eq.
    destruct (gets_elsewhere σ τ ρ s v x Ha Hs Hv) as (vs & Hg & Hsrc).
    cbn [exec_call]. rewrite Hg. iIntros "Hr". vars. wp_bind. rewrite /insert_.
    iApply (wp_ins_like with "Hr"); [done..|by rewrite /fits Hc in Hfit|]. iIntros (o' τ' it' Ho') "Hr". done_fold.
    iExists o', τ'. iSplitR; [done|]. simpl. by rewrite rep_bindi.
  - destruct Hi as (-> & Hs & Hv & ->). destruct Hpre as (Hx & _ & Hfit). open_live Ha Hx o1 a1 l. simplify_eq.
    destruct (gets_elsewhere σ τ ρ s v x Ha Hs Hv) as (vs & Hg & Hsrc).
    cbn [exec_call]. rewrite Hg. iIntros "Hr". vars. wp_bind. rewrite /push_back. wp_bind. take_ Hτ Hl.
    iApply (wp_find_end with "Hs"). iIntros (it [Hok Hp]) "Hs". iAssert (rep ρ τ) with "[Hs Hr]" as "Hr"; [back_ Hτ Hl|].
    wp_bind. iApply (wp_ins_like with "Hr"); [done..|by rewrite /fits Hc in Hfit|]. iIntros (o' τ' it' Ho') "Hr". wp_ret. done_fold.
    iExists o', τ'. simpl. iFrame. iPureIntro. by rewrite Hc -[length _]/(osize _) -Hp.
  - destruct Hi as (-> & Hs & Hv & ->). destruct Hpre as (Hx & _ & Hfit). open_live Ha Hx o1 a1 l. simplify_eq.
    destruct (gets_elsewhere σ τ ρ s v x Ha Hs Hv) as (vs & Hg & Hsrc).
    cbn [exec_call]. rewrite Hg. iIntros "Hr". vars. wp_bind. rewrite /push_front. wp_bind. take_ Hτ Hl.
    iApply (wp_find_first with "Hs"). iIntros (it [Hok Hp]) "Hs". iAssert (rep ρ τ) with "[Hs Hr]" as "Hr"; [back_ Hτ Hl|].
    wp_bind. iApply (wp_ins_like with "Hr"); [done..|by rewrite /fits Hc in Hfit|]. iIntros (o' τ' it' Ho') "Hr". wp_ret. done_fold.
    iExists o', τ'. simpl. iFrame. iPureIntro. by rewrite -Hp.
Qed.
Definition era_like (o : option (tree T)) p (o' : option (tree T)) : Prop := seg_era (osegs o) (osegs o') p.
Lemma wp_erases_one σ ρ τ c x p o a :
  pre C σ c → erases_one σ c x p → abs σ τ ρ → τ !! x = Some (o, a) →
  rep ρ τ ⊢ wp (exec_call c ρ) (new_segs x a (era_like o p)) (λ _, True%I).
Proof.
  intros Hpre Hi Ha Hτ. destruct c; try done; cbn [pre erases_one] in *.
  - destruct Hi as (-> & Hw). destruct Hpre as (p' & Hw' & Hlt). rewrite /at_it in Hw, Hw'. simplify_eq.
    open_at Ha Hw o1 a1 l it. simplify_eq. cbn [exec_call]. iIntros "Hr". vars. wp_bind. rewrite /erase_. take_ Hτ Hl.
    iApply (wp_erase_single with "Hs"); [done|by rewrite /osize -Hc|]. iIntros (o' it' (_ & _ & _ & _ & Ho')) "Hs". done_fold.
    iExists o', τ. iSplitR; [done|]. simpl. rewrite rep_bindi. iApply rep_put; [done|iFrame].
  - destruct Hi as (-> & Hsz). open_live Ha (nonempty_live _ _ Hpre) o1 a1 l. simplify_eq. rewrite Hc in Hpre, Hsz. apply nonempty_osize in Hpre.
    cbn [exec_call]. iIntros "Hr". vars. wp_bind. rewrite /pop_back. wp_bind. take_ Hτ Hl.
    iApply (wp_find_last with "Hs"); [done|]. iIntros (it [Hok Hp]) "Hs". wp_bind.
    iApply (wp_erase_single with "Hs"); [done|by rewrite Hp; lia|]. iIntros (o' it' (_ & _ & _ & _ & Ho')) "Hs". wp_ret. done_fold.
    iExists o', τ. simpl. iSplitR; [|iApply rep_put; [done|iFrame]]. iPureIntro. rewrite /era_like.
    replace p with (i_pos it) by (unfold osize in *; lia). done.
  - destruct Hi as (-> & ->). open_live Ha (nonempty_live _ _ Hpre) o1 a1 l. simplify_eq. rewrite Hc in Hpre. apply nonempty_osize in Hpre.
    cbn [exec_call]. iIntros "Hr". vars. wp_bind. rewrite /pop_front. wp_bind. take_ Hτ Hl.
    iApply (wp_find_first with "Hs"). iIntros (it [Hok Hp]) "Hs". wp_bind.
    iApply (wp_erase_single with "Hs"); [done|by rewrite Hp|]. iIntros (o' it' (_ & _ & _ & _ & Ho')) "Hs". wp_ret. done_fold.
    iExists o', τ. simpl. iSplitR; [|iApply rep_put; [done|iFrame]]. iPureIntro. by rewrite /era_like -Hp.
Qed.
End wps.

Section props.
Context {T : Type} {C : cfg T} {OK : cfg_ok C}.
Implicit Types σ : sst T.
Implicit Types ρ : env.
Implicit Types st : state T.
Implicit Types c : cmd T.
Implicit Types ss : list (loc * list T).
Notation reachable := (reachable C).
Notation reached := (reached C).
Notation exec := (exec (C:=C)).

Lemma segments_nodup ρ st x ss : reached ρ st → segments st ρ x = Some ss → NoDup ss.*1.
Proof.
  intros Hr Hss.
  assert (∃ xs a, container_at st ρ x = Some (xs, a)) as (xs & a & Hc).
  { rewrite /container_at Hss. rewrite /segments in Hss. destruct (seq_at st ρ x); [|done]. simpl. by eauto. }
  destruct (reached_owns _ _ _ _ _ Hr Hc) as (o & l & Hl & Ho & _ & Hnd & _).
  rewrite (lives_segments _ _ _ _ _ _ Hl Ho) in Hss. injection Hss as <-.
  apply NoDup_cons in Hnd as [_ Hnd]. rewrite olocs_split in Hnd. by apply NoDup_app in Hnd as (_ & _ & ?).
Qed.
Lemma cut_mid (before : list (loc * list T)) l vs after SL mid SR : l ∉ mid.*1 → SL ++ mid ++ SR = before ++ (l, vs) :: after →
  (∃ S, SL = before ++ (l, vs) :: S ∧ after = S ++ mid ++ SR) ∨ (∃ S, SR = S ++ (l, vs) :: after ∧ before = SL ++ mid ++ S).
Proof.
  intros Hl. revert before. induction SL as [|y SL IH]; intros before E.
  - right. revert before E Hl. induction mid as [|y mid IH]; intros before E Hl; [by exists before|].
    destruct before as [|y' before]; simplify_eq/=; [by destruct Hl; left|].
    destruct (IH before) as (S & -> & ->); [done|by intros ?; apply Hl; right|]. by exists S.
  - destruct before as [|y' before]; simplify_eq/=; [left; by exists SL|].
    destruct (IH before) as [(S & -> & ->)|(S & -> & ->)]; [done|left; by exists S|right; by exists S].
Qed.
Lemma cut_other (before : list (loc * list T)) l vs after SL l0 ws SR : l ≠ l0 → before ++ (l, vs) :: after = SL ++ (l0, ws) :: SR →
  (∃ S, SL = before ++ (l, vs) :: S ∧ after = S ++ (l0, ws) :: SR) ∨ (∃ S, SR = S ++ (l, vs) :: after ∧ before = SL ++ (l0, ws) :: S).
Proof.
  intros Hll E. apply (cut_mid _ _ _ _ _ [(l0, ws)]); [by simpl; rewrite elem_of_list_singleton|done].
Qed.
Lemma segs_after σ ρ st c x (P : option (tree T) → option (tree T) → Prop) o ρ' st' ss :
  reachable σ ρ st → segments st ρ x = Some ss →
  (∀ τ o0 a, abs σ τ ρ → τ !! x = Some (o0, a) → rep ρ τ ⊢ wp (exec_call (C:=C) c ρ) (new_segs x a (P o0)) (λ _, True%I)) →
  exec c ρ st = Ok (o, ρ') st' → (∀ e, o ≠ OExn e) →
  ∃ o0 o', P o0 o' ∧ ss = osegs o0 ∧ segments st' ρ' x = Some (osegs o').
Proof.
  intros Hr Hss Hwp He Ho. pose proof (reachable_R _ _ _ Hr) as (τ & Ha & Hrep)%R_open.
  assert (∃ l, e_cont ρ !! x = Some l) as [l Hl].
  { rewrite /segments /seq_at in Hss. destruct (e_cont ρ !! x); [by eexists|done]. }
  assert (is_Some (τ !! x)) as [[o0 a] Hτ] by by (apply (abs_env _ _ _ Ha); rewrite Hl).
  destruct (rep_lives _ _ _ _ _ _ Hrep Hτ) as (l' & Hl' & Hlv). rewrite (lives_segments _ _ _ _ _ _ Hl' Hlv) in Hss. injection Hss as <-.
  pose proof (hprop_in_entails _ _ (Hwp τ o0 a Ha Hτ) _ Hrep) as H. rewrite wp_holds in H. destruct st as [h n k]. simpl in *.
  specialize (H ∅ n k (map_disjoint_empty_r _) (map_empty_subseteq _)). rewrite right_id_L in H.
  revert He. rewrite /Exec.exec /try_catch. destruct (exec_call c ρ (State h n k)) as [[o1 ρ1] st1|e st1|f]; [|by intros [= <- _ _]; destruct (Ho e)|done].
  intros [= -> -> ->]. destruct H as (h' & _ & Hst & _ & HQ). rewrite right_id_L in Hst. subst h'.
  rewrite /new_segs in HQ. apply exist_holds in HQ as (o' & HQ). apply exist_holds in HQ as (τ' & HQ).
  apply sep_holds in HQ as (m1 & m2 & E & _ & [HP ->]%apure_holds & HQ). simpl in HQ. rewrite left_id_L in E. subst m2.
  exists o0, o'. split_and!; [done|done|].
  destruct (rep_lives _ _ _ x o' a HQ) as (l1 & Hl1 & Hlv1). { by rewrite lookup_insert. }
  by eapply lives_segments.
Qed.

(** ** Inserting one element: the segment at the position takes it, or, being full,
    splits in two. *)
Theorem C65_insert σ ρ st c x v p o ρ' st' ss :
  reachable σ ρ st → pre C σ c → inserts_one σ c x v p → segments st ρ x = Some ss →
  exec c ρ st = Ok (o, ρ') st' → (∀ e, o ≠ OExn e) →
  ∃ ss', segments st' ρ' x = Some ss' ∧
    ((ss = [] ∧ ∃ l, ss' = [(l, [v])]) ∨
     ∃ before l A B after,
       segment_of st ρ x p before l (A ++ B) after (length A) ∧
       ((length (A ++ B) < segment_max ∧ ss' = before ++ (l, A ++ v :: B) :: after) ∨
        (length (A ++ B) = segment_max ∧ ∃ new X Y,
           new ∉ ss.*1 ∧ X ++ Y = A ++ v :: B ∧ length X = segment_min ∧
           ss' = before ++ (l, X) :: (new, Y) :: after))).
Proof.
  intros Hr Hp Hi Hss He Ho.
  destruct (segs_after σ ρ st c x (λ o0, ins_like o0 p v) o ρ' st' ss Hr Hss) as (o0 & o' & (r & Hroom & Hs) & -> & Hss'); [|done|done|].
  { intros τ o0 a Ha Hτ. by eapply wp_inserts_one. }
  exists (osegs o'). split; [done|]. destruct Hs as [(-> & _ & Hl)|(SL & l & A & B & SR & E & -> & Hr' & Hs)]; [by left|right].
  exists SL, l, A, B, SR. split.
  - rewrite /segment_of Hss E. split_and!; [done|done|]. rewrite app_length.
    destruct B as [|b B]; [right|left; simpl; lia]. split; [simpl; lia|].
    destruct SR as [|[l2 ys2] SR]; [done|]. exfalso. simpl in Hr'. subst r.
    assert (0 < 0) as ?; [|lia]. apply Hroom. rewrite /osize -osegs_elems E fst_elems app_length /= right_id_L !app_length.
    pose proof (reached_nonempty ρ st x _ (ex_intro _ σ Hr) Hss) as Hne. rewrite E in Hne.
    apply Forall_app in Hne as [_ [_ [Hne _]%Forall_cons]%Forall_cons]. simpl in Hne. lia.
  - destruct Hs as [[Hlt E']|(Hfull & new & X & Y & HXY & HX & E')]; [left; by rewrite E'|right]. split; [done|].
    exists new, X, Y. split_and!; [|done|done|done].
    destruct (call_inv _ _ _ _ _ _ _ Hr Hp He) as (σ' & _ & Hr2).
    assert (NoDup (osegs o').*1) as Hnd by (eapply (segments_nodup ρ' st'); [by eexists|done]).
    rewrite E' fmap_app in Hnd. rewrite E fmap_app. intros Hin. simpl in Hnd, Hin.
    apply NoDup_app in Hnd as (_ & Hd & Hnd). apply NoDup_cons in Hnd as [Hn1 Hnd]. apply NoDup_cons in Hnd as [Hn2 _].
    apply elem_of_app in Hin as [Hin|Hin]; [apply (Hd _ Hin); right; left|].
    apply elem_of_cons in Hin as [->|Hin]; [apply Hn1; left|done].
Qed.
(** ** Erasing one element: its segment loses it; a segment of the minimal size takes
    an element from a neighbour or merges with it. *)
Theorem C65_erase σ ρ st c x p o ρ' st' ss :
  reachable σ ρ st → pre C σ c → erases_one σ c x p → segments st ρ x = Some ss →
  exec c ρ st = Ok (o, ρ') st' → (∀ e, o ≠ OExn e) →
  ∃ ss' before l A v B after, segments st' ρ' x = Some ss' ∧
    segment_of st ρ x p before l (A ++ v :: B) after (length A) ∧
    ((before = [] ∧ after = [] ∧ A = [] ∧ B = [] ∧ ss' = []) ∨
     ((before = [] ∧ after = [] ∨ segment_min < length (A ++ v :: B)) ∧ ss' = before ++ (l, A ++ B) :: after) ∨
     (length (A ++ v :: B) = segment_min ∧
       ((∃ before' k Z z, before = before' ++ [(k, Z ++ [z])] ∧ ss' = before' ++ (k, Z) :: (l, z :: A ++ B) :: after) ∨
        (∃ before' k Z, before = before' ++ [(k, Z)] ∧ length Z = segment_min ∧ ss' = before' ++ (k, Z ++ A ++ B) :: after) ∨
        (∃ k z Z after', after = (k, z :: Z) :: after' ∧ ss' = before ++ (l, A ++ B ++ [z]) :: (k, Z) :: after') ∨
        (∃ k Z after', after = (k, Z) :: after' ∧ length Z = segment_min ∧ ss' = before ++ (l, A ++ B ++ Z) :: after')))).
Proof.
  intros Hr Hp Hi Hss He Ho.
  destruct (segs_after σ ρ st c x (λ o0, era_like o0 p) o ρ' st' ss Hr Hss) as (o0 & o' & Hs & -> & Hss'); [|done|done|].
  { intros τ o0 a Ha Hτ. by eapply wp_erases_one. }
  destruct Hs as (SL & l & A & v & B & SR & E & -> & Hs).
  exists (osegs o'), SL, l, A, v, B, SR. split_and!; [done| |done].
  rewrite /segment_of Hss E. split_and!; [done|done|]. left. rewrite app_length /=. lia.
Qed.

#[local] Ltac nlen := repeat (rewrite ?fst_elems ?app_length /=); repeat (rewrite -> fst_elems in * || rewrite -> app_length in * ); simpl in *; lia.
(** ** References: an element in another segment stays where it is. *)
Theorem C65_insert_references σ ρ st c x v p o ρ' st' i before l vs after k :
  reachable σ ρ st → pre C σ c → inserts_one σ c x v p →
  exec c ρ st = Ok (o, ρ') st' → (∀ e, o ≠ OExn e) →
  segment_of st ρ x i before l vs after k → k < length vs →
  (∀ before0 vs0 after0 k0, ¬ segment_of st ρ x p before0 l vs0 after0 k0) →
  ∃ before' after', segment_of st' ρ' x (if i <? p then i else S i) before' l vs after' k.
Proof.
  intros Hr Hp Hi He Ho (Hss & -> & _) Hk Hne.
  destruct (C65_insert σ ρ st c x v p o ρ' st' _ Hr Hp Hi Hss He Ho) as (ss' & Hss' & [[E _]|(SL & l0 & A & B & SR & Hsg & Hs)]).
  { by destruct before. }
  assert (l ≠ l0) as Hll. { intros ->. by eapply Hne. }
  pose proof (segments_nodup ρ st x _ (ex_intro _ σ Hr) Hss) as Hnd.
  destruct Hsg as (Hss0 & -> & _). rewrite Hss in Hss0. injection Hss0 as E.
  destruct (cut_other _ _ _ _ _ _ _ _ Hll E) as [(S & -> & ->)|(S & -> & ->)].
  - (* the segment comes first *)
    rewrite (proj2 (Nat.ltb_lt _ _)); last first. { nlen. }
    assert (∃ after', ss' = before ++ (l, vs) :: after') as [after' ->].
    { destruct Hs as [[_ ->]|(_ & new & X & Y & _ & _ & _ & ->)]; rewrite -app_assoc /=; by eexists. }
    exists before, after'. split_and!; [done|done|by left].
  - (* or last *)
    rewrite (proj2 (Nat.ltb_ge _ _)); last first. { nlen. }
    destruct Hs as [[_ ->]|(_ & new & X & Y & _ & HXY & _ & ->)].
    + exists (SL ++ (l0, A ++ v :: B) :: S), after. split_and!; [by rewrite -app_assoc| |by left].
      nlen.
    + exists (SL ++ (l0, X) :: (new, Y) :: S), after. split_and!; [by rewrite -app_assoc| |by left].
      apply (f_equal length) in HXY. rewrite !app_length /= in HXY.
      nlen.
Qed.
Theorem C65_erase_references σ ρ st c x p o ρ' st' :
  reachable σ ρ st → pre C σ c → erases_one σ c x p → exec c ρ st = Ok (o, ρ') st' → (∀ e, o ≠ OExn e) →
  is_Some (segments st ρ x) →
  ∃ touched : list loc, length touched ≤ 2 ∧
    ∀ i before l vs after k, segment_of st ρ x i before l vs after k → k < length vs → l ∉ touched →
    ∃ before' after', segment_of st' ρ' x (if i <? p then i else i - 1) before' l vs after' k.
Proof.
  intros Hr Hp Hi He Ho [ss Hss].
  destruct (C65_erase σ ρ st c x p o ρ' st' _ Hr Hp Hi Hss He Ho) as (ss' & SL & l0 & A & v & B & SR & Hss' & (Hss0 & -> & _) & Hs).
  rewrite Hss in Hss0. injection Hss0 as ->.
  (* a stretch [mid] becomes [mid'], which holds one element less *)
  assert (∃ SL1 mid mid' SR1, SL ++ (l0, A ++ v :: B) :: SR = SL1 ++ mid ++ SR1 ∧ ss' = SL1 ++ mid' ++ SR1 ∧ length mid ≤ 2 ∧
    length (concat SL1.*2) ≤ length (concat SL.*2) + length A < length (concat SL1.*2) + length (concat mid.*2) ∧
    length (concat mid.*2) = S (length (concat mid'.*2))) as (SL1 & mid & mid' & SR1 & E & -> & Hm & Hpos & Hlen).
  { destruct Hs as [(-> & -> & -> & -> & ->)|[[_ ->]|(_ & [(b' & k & Z & z & -> & ->)|[(b' & k & Z & -> & _ & ->)|[(k & z & Z & a' & -> & ->)|(k & Z & a' & -> & _ & ->)]]])]].
    - exists [], [(l0, [v])], [], []. simpl. split_and!; (done || lia).
    - exists SL, [(l0, A ++ v :: B)], [(l0, A ++ B)], SR. split_and!; first [done|by rewrite -app_assoc|nlen].
    - exists b', [(k, Z ++ [z]); (l0, A ++ v :: B)], [(k, Z); (l0, z :: A ++ B)], SR. split_and!; first [done|by rewrite -app_assoc|nlen].
    - exists b', [(k, Z); (l0, A ++ v :: B)], [(k, Z ++ A ++ B)], SR. split_and!; first [done|by rewrite -app_assoc|nlen].
    - exists SL, [(l0, A ++ v :: B); (k, z :: Z)], [(l0, A ++ B ++ [z]); (k, Z)], a'. split_and!; first [done|by rewrite -app_assoc|nlen].
    - exists SL, [(l0, A ++ v :: B); (k, Z)], [(l0, A ++ B ++ Z)], a'. split_and!; first [done|by rewrite -app_assoc|nlen]. }
  clear Hs. exists mid.*1. split; [by rewrite fmap_length|].
  intros i before l vs after k (Hss1 & -> & _) Hk Hl. rewrite Hss in Hss1. injection Hss1 as E1. rewrite E in E1.
  destruct (cut_mid _ _ _ _ _ _ _ Hl E1) as [(S & -> & ->)|(S & -> & ->)].
  - rewrite (proj2 (Nat.ltb_lt _ _)); last first. { rewrite !fst_elems fmap_cons concat_cons !app_length in Hpos. simpl in Hpos. lia. }
    exists before, (S ++ mid' ++ SR1). split_and!; [by rewrite -app_assoc in Hss'|done|by left].
  - rewrite (proj2 (Nat.ltb_ge _ _)); last first. { rewrite !fst_elems !app_length. lia. }
    exists (SL1 ++ mid' ++ S), after. split_and!; [by rewrite -!app_assoc|  |by left].
    rewrite !fst_elems !app_length. lia.
Qed.
End props.
