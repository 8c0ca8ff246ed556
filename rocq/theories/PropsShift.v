(** * C70: an insertion moves the elements behind it in its segment *)
From Verif Require Export PropsBack PropsMoves.
From Verif Require Import Canon Effort Asked.
From stdpp Require Import options.
#[local] Set Default Proof Using "Type*".

Section spec.
Context {T : Type} {C : cfg T}.
Implicit Types σ : sst T.
(** the calls that insert one element: the index and the argument *)
Definition inserts_at σ (c : cmd T) (x p : nat) (s : arg T) : Prop :=
  match c with
  | InsertOne y w s' _ => y = x ∧ s' = s ∧ at_it σ w x p
  | PushBack y s' => y = x ∧ s' = s ∧ p = length (contents σ x)
  | PushFront y s' => y = x ∧ s' = s ∧ p = 0
  | _ => False
  end.
(** the elements that have to make room, in a segment of [n] elements, at index [k]:
    those behind; if it is full and split, perhaps those of its second half *)
Definition making_room (n k : nat) : nat :=
  if n =? segment_max then (n - k) `max` (segment_max - segment_min) else n - k.
(** [n] calls of push_back on [x] in a row, of arguments that are not elements of [x] and
    of which an rvalue costs at most [b] moves, altogether at most [m] moves *)
Inductive pushes (x b : nat) : env → state T → nat → nat → env → state T → Prop :=
  | pushes_none ρ st : pushes x b ρ st 0 0 ρ st
  | pushes_more σ ρ st s v ρ1 st1 k n m ρ2 st2 :
      reachable C σ ρ st → pre C σ (PushBack x s) → elsewhere σ s x → arg_value σ s = Some v → moved_arg s ≤ b →
      exec (C:=C) (PushBack x s) ρ st = Ok (OUnit, ρ1) st1 → moves_at_most (C:=C) k (PushBack x s) ρ st →
      pushes x b ρ1 st1 n m ρ2 st2 → pushes x b ρ st (S n) (k + m) ρ2 st2.
End spec.

Section shift.
Context {T : Type} {C : cfg T} {OK : cfg_ok C}.
Notation all := (λ _ : nat, true).
Notation w f := (with_moves C f).
Notation sm := (segment_max (C:=C)).
Notation arr st := (arrays (C:=C) (st_heap st)).

Ltac first_ := apply mv_first; [reflexivity| |intros ?].
Ltac pay H := eapply mv_bind; [apply H| | |intros ?].
Lemma mv_insert_near this e v : sg_idx (e_seg e) ≤ sg_len (e_seg e) →
  mv (C:=C) (1 + making_room (C:=C) (sg_len (e_seg e)) (sg_idx (e_seg e))) (λ f, insert_single_segment (C:=w f) this e v).
Proof.
  change (λ f, insert_single_segment (C:=w f) this e v) with (ins this e v). unfold ins. cbv zeta.
  destruct e as [[p index length] [pp pi]]. cbn [e_seg e_leaf sg_ptr sg_idx sg_len lf_ptr lf_idx]. intros Hle.
  pose proof (ok_W _ OK) as HW. pose proof (half_pos (C:=C)) as Hh. rewrite /making_room /segment_min.
  pose proof (Nat.div_mod (sm + 1) 2 ltac:(lia)) as Hd. pose proof (Nat.mod_upper_bound (sm + 1) 2 ltac:(lia)) as Hm.
  set (half := (sm + 1) / 2) in *.
  destruct (_ && _) eqn:Hc.
  { apply andb_true_iff in Hc as [Hc1%negb_true_iff%Nat.eqb_neq Hc2%negb_true_iff]. rewrite Hc2.
    destruct (decide (wsub (C:=C) length 1 < sm ∧ length < sm)) as [Hb|Hb]; [|apply dd_bind, dd_move; lia].
    destruct length as [|k]; [rewrite /wsub Nat.add_0_l Nat.mod_small in Hb; lia|].
    assert (wsub (C:=C) (S k) 1 = k) as -> by (rewrite wsub_small; lia).
    pay (mv_move (C:=C)); [lia|apply (a_move_segment (C:=w all))|].
    pay (mv_forward (C:=C)); [lia|rewrite wsub_small; lia|apply (a_assign_forward_segment (C:=w all))|]. rewrite wsub_small; [|lia|lia].
    apply mv_last; [eapply mv_mono; [apply mv_assign|lia]|done]. }
  clear Hc. destruct p as [l|].
  2: { first_; [apply (a_allocate_segment (C:=w all))|]. first_; [apply (a_set_root (C:=w all))|].
       first_; [apply (a_set_size (C:=w all))|]. first_; [apply (a_set_height (C:=w all))|].
       apply mv_last; [eapply mv_mono; [apply mv_construct|lia]|done]. }
  destruct (length =? sm) eqn:Hf; simpl negb; cbv iota.
  2: { apply mv_last; [eapply mv_mono; [apply mv_construct|lia]|done]. }
  apply Nat.eqb_eq in Hf. subst length.
  first_; [apply (a_allocate_segment (C:=w all))|]. first_; [apply (a_alloc_nodes_single (C:=w all))|].
  apply mv_last; [|done]. destruct (index <? half) eqn:Hi.
  - apply Nat.ltb_lt in Hi.
    assert (wsub (C:=C) half 1 = half - 1) as -> by (apply wsub_small; lia).
    assert (wsub (C:=C) (sm + 1 - half) 1 = sm + 1 - half - 1) as -> by (apply wsub_small; lia).
    pay (mv_move (C:=C)); [lia|apply (a_move_segment (C:=w all))|].
    pay (mv_construct_range (C:=C)); [lia|apply (a_construct_range_segment (C:=w all))|].
    pay (mv_forward (C:=C)); [lia|rewrite wsub_small; lia|apply (a_assign_forward_segment (C:=w all))|]. rewrite wsub_small; [|lia|lia].
    apply mv_last; [eapply mv_mono; [apply mv_assign|lia]|done].
  - apply Nat.ltb_ge in Hi. rewrite !wsub_small; [|lia..].
    pay (mv_construct_range (C:=C)); [lia|apply (a_construct_range_segment (C:=w all))|].
    pay (mv_construct_range (C:=C)); [lia|apply (a_construct_range_segment (C:=w all))|].
    apply mv_last; [eapply mv_mono; [apply mv_construct|lia]|done].
Qed.
Lemma mv_emplace_near l it s : sg_idx (e_seg (i_entry it)) ≤ sg_len (e_seg (i_entry it)) →
  mv (C:=C) (2 + amv s + making_room (C:=C) (sg_len (e_seg (i_entry it))) (sg_idx (e_seg (i_entry it)))) (λ f, emplace_single (C:=w f) l it s).
Proof.
  intros Hle.
  eapply mv_bind; [apply mv_make_value|lia|apply (a_make_value (C:=w all))|]. intros v.
  eapply (mv_bind 1); [apply mv_tick|lia|apply (a_move_tick (C:=w all))|]. intros _.
  apply mv_last; [|done]. eapply mv_mono; [by apply mv_insert_near|lia].
Qed.
End shift.

Section calls.
Context {T : Type} {C : cfg T} {OK : cfg_ok C}.
Notation all := (λ _ : nat, true).
Notation w f := (with_moves C f).
Notation arr st := (arrays (C:=C) (st_heap st)).
Notation reachable := (reachable C).
Implicit Types σ : sst T.
Implicit Types ρ : env.
Implicit Types st : state T.
Implicit Types o : option (tree T).
Notation segl := (list (loc * list T)).

(** what an iterator knows about the segment that it is in *)
Lemma it_ok_place o it : it_ok o it →
  (osegs o = [] ∧ e_seg (i_entry it) = SegEntry None 0 0) ∨
  ∃ SL l xs SR, osegs o = SL ++ (l, xs) :: SR ∧ i_pos it = length (concat SL.*2) + sg_idx (e_seg (i_entry it)) ∧
    sg_len (e_seg (i_entry it)) = length xs ∧ sg_idx (e_seg (i_entry it)) ≤ length xs ∧
    (i_pos it < osize o → sg_idx (e_seg (i_entry it)) < length xs).
Proof.
  destruct o as [t|]; [|intros ->; by left]. intros [(c & l & xs & -> & Hs & _ & Hp & Hi) Hlt]. right.
  exists (csl c), l, xs, (csr c). cbn [osegs]. rewrite tsegs_plug csl_elems. split_and!; [done|done|by rewrite Hs|done|].
  intros H. rewrite Hs /= in Hlt. by apply Hlt.
Qed.
Lemma one_segment (S0 SL : segl) l xs SR before l' vs after i k :
  Forall (λ s : loc * list T, 0 < length s.2) S0 →
  S0 = SL ++ (l, xs) :: SR → S0 = before ++ (l', vs) :: after →
  length (concat SL.*2) + i = length (concat before.*2) + k → i ≤ length xs → k ≤ length vs →
  (length (concat SL.*2) + i < length (concat S0.*2) → i < length xs ∧ k < length vs) →
  length xs = length vs ∧ i = k.
Proof.
  intros Hne -> E Hp Hi Hk Hlt.
  assert (∀ (S1 : segl) (l1 : loc) ys S2, concat (S1 ++ (l1, ys) :: S2).*2 = concat S1.*2 ++ ys ++ concat S2.*2) as Hc.
  { intros S1 l1 ys S2. by rewrite fmap_app concat_app. }
  assert (∀ S1 : segl, Forall (λ s : loc * list T, 0 < length s.2) S1 → S1 ≠ [] → 0 < length (concat S1.*2)) as Hpos.
  { intros [|[l1 ys] S1] H ?; [done|]. apply Forall_cons in H as [H _]. cbn in *. rewrite app_length. lia. }
  destruct (cut_in SL (l, xs) SR before [(l', vs)] after E) as [(S & ->)|[(G1 & G2 & HG & -> & ->)|(S & -> & ->)]].
  - (* before the other one *)
    rewrite Hc !app_length in Hp. rewrite !Hc !app_length in Hlt. rewrite E in Hne.
    assert (0 < length vs). { apply Forall_app in Hne as [_ [Hne _]%Forall_cons]. done. }
    assert (length (concat (SL ++ (l, xs) :: SR).*2) = length (concat ((SL ++ (l, xs) :: S) ++ (l', vs) :: after).*2)) as El by by rewrite E.
    rewrite !Hc !app_length in El. lia.
  - destruct G1 as [|? [|]]; simplify_eq/=. rewrite right_id_L in Hp. split; [done|]. lia.
  - cbn [app] in Hp, Hlt. rewrite Hc !app_length in Hp. rewrite !Hc !app_length in Hlt.
    assert (0 < length xs). { apply Forall_app in Hne as [_ [Hne _]%Forall_cons]. done. } lia.
Qed.

(** the iterators from which push_back and push_front insert *)
Lemma find_at (m : loc → M T iterator_data) (P : option (tree T) → iterator_data → Prop) σ ρ st x l it st' :
  (∀ e n l o (Q : _ → hprop T), seqp (C:=C) e n l o -∗ (∀ it, ⌜P o it⌝ → seqp (C:=C) e n l o -∗ Q it) -∗ wp (F:=no_frozen) (m l) Q (λ _, False%I)) →
  reachable σ ρ st → live σ x → e_cont ρ !! x = Some l → m l st = Ok it st' →
  ∃ o, segments st ρ x = Some (osegs o) ∧ P o it ∧ length (contents σ x) = osize o.
Proof.
  intros Hm Hr Hx Hl E. destruct (R_open _ _ _ (reachable_R _ _ _ Hr)) as (τ & Ha & Hrep).
  destruct (abs_live _ _ _ _ Ha Hx) as (o & a & l' & Ht & Hl' & Hc & _). rewrite Hl in Hl'. injection Hl' as <-.
  destruct (rep_lives _ _ _ _ _ _ Hrep Ht) as (l2 & Hl2 & Ho). rewrite Hl in Hl2. injection Hl2 as <-.
  exists o. split; [by eapply lives_segments|]. split; [|by rewrite Hc].
  assert (rep (C:=C) ρ τ ⊢ wp (F:=no_frozen) (m l) (λ it, ⌜P o it⌝ ∗ True)%I (λ _, False)%I) as Hwp.
  { iIntros "Hr". iEval (rewrite (rep_take _ _ _ _ _ _ Ht Hl)) in "Hr". iDestruct "Hr" as "[Hs Hr]".
    iApply (Hm with "Hs"). iIntros (it1 H1) "Hs". by iSplit. }
  pose proof (hprop_in_entails _ _ Hwp _ Hrep) as H1. rewrite wp_holds in H1. destruct st as [h clk cnt].
  specialize (H1 ∅ clk cnt ltac:(apply map_disjoint_empty_r) (map_empty_subseteq ∅)). rewrite right_id_L in H1. simpl in H1.
  rewrite E in H1. destruct H1 as (h' & _ & Hh' & _ & HQ). 
  apply sep_holds in HQ as (m1 & m2 & _ & _ & HQ & _). by apply pure_holds in HQ.
Qed.
Lemma up_insert l it s st : sg_idx (e_seg (i_entry it)) ≤ sg_len (e_seg (i_entry it)) → arr st →
  upto (2 + amv s + making_room (C:=C) (sg_len (e_seg (i_entry it))) (sg_idx (e_seg (i_entry it)))) (λ f, emplace_single (C:=w f) l it s) st.
Proof. intros H Ha. by apply mv_emplace_near. Qed.
(** the iterator is where the statement says *)
Lemma room_at σ ρ st x o it p before l vs after k :
  reachable σ ρ st → segments st ρ x = Some (osegs o) → it_ok o it → i_pos it = p →
  segment_of st ρ x p before l vs after k →
  sg_idx (e_seg (i_entry it)) ≤ sg_len (e_seg (i_entry it)) ∧ sg_len (e_seg (i_entry it)) = length vs ∧ sg_idx (e_seg (i_entry it)) = k.
Proof.
  intros Hr Hss Hok <- (Hss' & Hp & Hk). rewrite Hss in Hss'. injection Hss' as E.
  destruct (it_ok_place o it Hok) as [[E0 _]|(SL & l1 & xs & SR & E1 & Hp1 & Hlen & Hle & Hlt)]; [rewrite E0 in E; by destruct before|].
  assert (Forall (λ s : loc * list T, 0 < length s.2) (osegs o)) as Hne by exact (reached_nonempty ρ st x _ (ex_intro _ σ Hr) Hss).
  destruct (one_segment (osegs o) SL l1 xs SR before l vs after (sg_idx (e_seg (i_entry it))) k) as [H1 H2]; try done.
  - lia.
  - destruct Hk as [|[]]; lia.
  - rewrite osegs_elems -[length (oelems o)]/(osize o). intros H. rewrite -Hp1 in H. split; [by apply Hlt|].
    destruct Hk as [|[-> ->]]; [done|]. rewrite Hp /osize -osegs_elems E fst_elems fmap_cons concat_cons /= !app_length /= in H. lia.
  - rewrite Hlen. split_and!; [done|done|lia].
Qed.
Lemma up_inserts σ ρ st c x p s N :
  reachable σ ρ st → pre C σ c → inserts_at σ c x p s →
  (∀ o it, segments st ρ x = Some (osegs o) → length (contents σ x) = osize o → it_ok o it → i_pos it = p →
    sg_idx (e_seg (i_entry it)) ≤ sg_len (e_seg (i_entry it)) ∧
    making_room (C:=C) (sg_len (e_seg (i_entry it))) (sg_idx (e_seg (i_entry it))) ≤ N) →
  upto (2 + moved_arg s + N) (λ f, exec_call (C:=w f) c ρ) st.
Proof.
  intros Hr Hp Hi HN. pose proof (reachable_arrays _ _ _ Hr) as Ha. destruct c; try done; cbn [pre inserts_at exec_call] in *.
  - destruct Hi as (-> & -> & Hw).
    apply upto_first_; [reflexivity|]. intros l st1 H1. apply getc_inv in H1 as [Hl ->].
    apply upto_first_; [reflexivity|]. intros it st1 H1. apply geti_inv in H1 as [Hit ->].
    apply upto_first_; [reflexivity|]. intros vs st1 H1. apply gets_moves in H1 as [Hs ->]. rewrite -Hs.
    apply upto_last; [|done].
    destruct (R_iter _ _ _ _ _ _ (reachable_R _ _ _ Hr) Hw) as (o & a & l' & it' & Hl' & Ho & Hit' & Hok & Hpos & Hc).
    rewrite Hit in Hit'. injection Hit' as <-. pose proof (see _ _ _ _ _ _ Hr Hc) as Hsee.
    destruct (HN o it) as [H1 H2]; [by eapply lives_segments|by rewrite (see_contents _ _ _ _ Hsee)|done|done|].
    eapply upto_mono; [by apply up_insert|]. lia.
  - destruct Hi as (-> & -> & ->). destruct Hp as (Hx & _).
    apply upto_first_; [reflexivity|]. intros l st1 H1. apply getc_inv in H1 as [Hl ->].
    apply upto_first_; [reflexivity|]. intros vs st1 H1. apply gets_moves in H1 as [Hs ->]. rewrite -Hs.
    apply upto_last; [|done]. unfold push_back. apply upto_first_; [reflexivity|]. intros it st2 Hf. apply upto_last; [|done].
    destruct (find_at find_end (λ o it, it_ok o it ∧ i_pos it = osize o) σ ρ st x l it st2) as (o & Hss & [Hok Hpos] & Hsz); try done.
    { intros. iIntros "Hs HQ". iApply (wp_find_end with "Hs HQ"). }
    destruct (HN o it) as [H1 H2]; [done|done|done|lia|].
    eapply upto_mono; [apply up_insert; [done|by eapply find_end_keeps]|]. lia.
  - destruct Hi as (-> & -> & ->). destruct Hp as (Hx & _).
    apply upto_first_; [reflexivity|]. intros l st1 H1. apply getc_inv in H1 as [Hl ->].
    apply upto_first_; [reflexivity|]. intros vs st1 H1. apply gets_moves in H1 as [Hs ->]. rewrite -Hs.
    apply upto_last; [|done]. unfold push_front. apply upto_first_; [reflexivity|]. intros it st2 Hf. apply upto_last; [|done].
    destruct (find_at find_first (λ o it, it_ok o it ∧ i_pos it = 0) σ ρ st x l it st2) as (o & Hss & [Hok Hpos] & Hsz); try done.
    { intros. iIntros "Hs HQ". iApply (wp_find_first with "Hs HQ"). }
    destruct (HN o it) as [H1 H2]; [done|done|done|done|].
    eapply upto_mono; [apply up_insert; [done|]|lia].
    destruct (reachable_sized _ _ _ _ Hr Hx) as (lx & Hlx & Hsx & HWx). simplify_eq.
    apply (begin_pos (C:=C) _ _ _ _ _ Hsx) in Hf as [_ Hh]. by rewrite Hh.
Qed.
Lemma exec_upto n c ρ st : upto n (λ f, exec_call (C:=w f) c ρ) st → moves_at_most (C:=C) n c ρ st.
Proof.
  intros H. change (upto n (λ f, exec (C:=w f) c ρ) st).
  rewrite -(Nat.add_0_r n). apply upto_catch; [exact H|]. intros; by apply upto_zero.
Qed.

(** ** One insertion *)
Theorem C70_insert σ ρ st c x p s before l vs after k :
  reachable σ ρ st → pre C σ c → inserts_at σ c x p s → segment_of st ρ x p before l vs after k →
  moves_at_most (C:=C) (2 + moved_arg s + making_room (C:=C) (length vs) k) c ρ st.
Proof.
  intros Hr Hp Hi Hs. apply exec_upto. eapply up_inserts; [done..|]. intros o it Hss _ Hok Hpos.
  destruct (room_at _ _ _ _ _ _ _ _ _ _ _ _ Hr Hss Hok Hpos Hs) as (H1 & H2 & H3). split; [done|]. by rewrite H2 H3.
Qed.
Theorem C70_empty σ ρ st c x p s :
  reachable σ ρ st → pre C σ c → inserts_at σ c x p s → contents σ x = [] →
  moves_at_most (C:=C) (2 + moved_arg s) c ρ st.
Proof.
  intros Hr Hp Hi He. apply exec_upto. rewrite -(Nat.add_0_r (2 + moved_arg s)). eapply up_inserts; [done..|]. intros o it Hss Hsz Hok Hpos.
  rewrite He in Hsz. destruct (it_ok_place o it Hok) as [[_ E]|(SL & l1 & xs & SR & E1 & _)].
  - rewrite E. simpl. split; [done|]. rewrite /making_room. pose proof (segment_max_pos (C:=C)). destruct (0 =? _) eqn:E2; [apply Nat.eqb_eq in E2; lia|done].
  - exfalso. pose proof (reached_nonempty ρ st x _ (ex_intro _ σ Hr) Hss) as Hne. rewrite E1 in Hne.
    apply Forall_app in Hne as [_ [Hne _]%Forall_cons]. simpl in Hsz, Hne.
    rewrite /osize -osegs_elems E1 fst_elems fmap_cons concat_cons !app_length /= in Hsz. lia.
Qed.
(** push_back moves nothing out of the way unless the last segment is full *)
Theorem C70_push_back σ ρ st x s before l vs :
  reachable σ ρ st → pre C σ (PushBack x s) → segments st ρ x = Some (before ++ [(l, vs)]) →
  moves_at_most (C:=C) (2 + moved_arg s + (if length vs =? segment_max then segment_max - segment_min else 0)) (PushBack x s) ρ st.
Proof.
  intros Hr Hp Hss. pose proof (C70_insert σ ρ st (PushBack x s) x (length (contents σ x)) s before l vs [] (length vs) Hr Hp) as H.
  rewrite /making_room Nat.sub_diag Nat.max_0_l in H. apply H; [done|]. split; [done|]. split; [|by right].
  rewrite (segments_contents _ _ _ _ _ Hr Hss) fst_elems app_length /= right_id_L. done.
Qed.
(** ** n times push_back *)
(** the room that the last segment lacks *)
Definition pending (ns : list nat) : nat := match last ns with Some r => r - segment_min (C:=C) | None => 0 end.
Lemma pushes_total x b ρ st n m0 ρ' st' ns :
  pushes (C:=C) x b ρ st n m0 ρ' st' → segment_sizes st ρ x = Some ns → from_back (C:=C) ns →
  ∃ m, pushes (C:=C) x b ρ st n m ρ' st' ∧ m ≤ (3 + b) * n + pending ns.
Proof.
  intros H. revert ns. induction H as [ρ st|σ ρ st s v ρ1 st1 k n m ρ2 st2 Hr Hp Hel Hv Hb He _ _ IH]; intros ns Hns Hf.
  { exists 0. split; [constructor|lia]. }
  assert (appends_one σ (PushBack x s) x) as Hap by (by exists v).
  destruct (C69_append_one σ ρ st _ x OUnit ρ1 st1 ns Hr Hp Hap He ltac:(done) Hns Hf) as (ns' & Hns' & Hf' & Hsum).
  destruct (IH _ Hns' Hf') as (m' & Hm' & Hle).
  pose proof (segment_bounds (C:=C)) as Hsb. pose proof (Nat.div_mod (segment_max (C:=C) + 1) 2 ltac:(lia)) as Hd.
  pose proof (Nat.mod_upper_bound (segment_max (C:=C) + 1) 2 ltac:(lia)) as Hmo. change ((segment_max (C:=C) + 1) / 2) with (segment_min (C:=C)) in Hd.
  assert (∀ a c : nat, sum_list (replicate a c) = a * c) as Hrep.
  { intros a c. induction a as [|a IHa]; simpl; [done|]. by rewrite IHa. }
  assert (∃ k', moves_at_most (C:=C) k' (PushBack x s) ρ st ∧ k' + pending ns' ≤ 3 + b + pending ns) as (k' & Hk' & Hkle).
  2: { exists (k' + m'). split; [by eapply pushes_more|]. lia. }
  destruct (sizes_segments _ _ _ _ Hns) as (ss & Hss & E).
  pose proof Hf as [->|(k0 & r & -> & Hr0 & Hk0)].
  - exists (2 + moved_arg s). split.
    + eapply C70_empty; [done|done|by split_and!|]. apply nil_length_inv. rewrite (segments_contents _ _ _ _ _ Hr Hss).
      by destruct ss.
    + assert (ns' = [1]) as ->.
      { apply (C69_determined (C:=C)); [done| |done]. right. exists 0, 1. split_and!; [done|lia|lia|by left]. }
      rewrite /pending /=. lia.
  - assert (∃ before l vs, ss = before ++ [(l, vs)] ∧ length vs = r) as (before & l & vs & -> & Hvs).
    { clear -E OK. destruct ss as [|[l vs] before _] using rev_ind; [by destruct (replicate k0 (segment_min (C:=C)))|].
      exists before, l, vs. split; [done|]. rewrite (sizes_app (C:=C)) in E. change (PropsBack.sizes [(l, vs)]) with [length vs] in E. apply app_inj_tail in E as [_ E]. done. }
    pose proof (C70_push_back σ ρ st x s before l vs Hr Hp Hss) as Hmv. rewrite Hvs in Hmv.
    destruct (r =? segment_max (C:=C)) eqn:Hfull.
    + apply Nat.eqb_eq in Hfull. eexists. split; [exact Hmv|].
      assert (ns' = replicate (S k0) (segment_min (C:=C)) ++ [segment_max (C:=C) + 1 - segment_min (C:=C)]) as ->.
      { apply (C69_determined (C:=C)); [done| |].
        - right. exists (S k0), (segment_max (C:=C) + 1 - segment_min (C:=C)). split_and!; [done|lia|lia|by right].
        - rewrite Hsum !sum_list_with_app !Hrep /=. lia. }
      rewrite /pending !last_snoc. lia.
    + apply Nat.eqb_neq in Hfull. eexists. split; [exact Hmv|].
      assert (ns' = replicate k0 (segment_min (C:=C)) ++ [S r]) as ->.
      { apply (C69_determined (C:=C)); [done| |].
        - right. exists k0, (S r). split_and!; [done|lia|lia|]. destruct Hk0; [by left|right; lia].
        - rewrite Hsum !sum_list_with_app !Hrep /=. lia. }
      rewrite /pending !last_snoc. lia.
Qed.
(** so building a sequence with push_back moves elements no more than three times per
    element (twice of which to pass it by value), and four times if it is an rvalue *)
Theorem C70_build x b ρ st n m0 ρ' st' :
  pushes (C:=C) x b ρ st n m0 ρ' st' → segment_sizes st ρ x = Some [] →
  ∃ m, pushes (C:=C) x b ρ st n m ρ' st' ∧ m ≤ (3 + b) * n.
Proof.
  intros H Hns. destruct (pushes_total x b ρ st n m0 ρ' st' [] H Hns) as (m & Hm & Hle); [by left|].
  exists m. split; [done|]. rewrite /pending /= in Hle. lia.
Qed.
Theorem C70_append x b ρ st n m0 ρ' st' ns :
  pushes (C:=C) x b ρ st n m0 ρ' st' → segment_sizes st ρ x = Some ns → from_back (C:=C) ns →
  ∃ m, pushes (C:=C) x b ρ st n m ρ' st' ∧ m ≤ (3 + b) * n + (segment_max (C:=C) - segment_min (C:=C)).
Proof.
  intros H Hns Hf. destruct (pushes_total x b ρ st n m0 ρ' st' ns H Hns Hf) as (m & Hm & Hle).
  exists m. split; [done|]. etrans; [exact Hle|]. apply Nat.add_le_mono_l. rewrite /pending.
  destruct Hf as [->|(k & r & -> & Hr & _)]; [simpl; lia|]. rewrite last_snoc. lia.
Qed.
End calls.
