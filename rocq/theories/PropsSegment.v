(** * C13: segment-wise access *)
From Verif Require Export PropsList.
From stdpp Require Import options.
Set Default Proof Using "Type*".

Section props.
Context {T : Type} {C : cfg T} {OK : cfg_ok C}.
Implicit Types σ : sst T.
Implicit Types ρ : env.
Implicit Types st : state T.
Implicit Types c : cmd T.
Implicit Types xs ys vs : list T.
Notation reachable := (reachable C).
Notation reached := (reached C).
Notation iterator_at := (iterator_at C).
Notation answers := (answers C).
Notation replies := (replies C).
Notation exec := (exec (C:=C)).

Lemma reached_nonempty ρ st x ss :
  reached ρ st → segments st ρ x = Some ss → Forall (λ s : loc * list T, 0 < length s.2) ss.
Proof.
  intros Hr Hss. apply Forall_forall. intros [l ys] Hs. destruct (C16_segments _ _ _ _ Hr Hss _ _ Hs). simpl. lia.
Qed.
Lemma seg_found σ ρ st w x p xs a :
  reachable σ ρ st → at_it σ w x p → container_at st ρ x = Some (xs, a) → xs ≠ [] →
  ∃ it before l vs after k, e_iter ρ !! w = Some it ∧ segment_of st ρ x p before l vs after k ∧
    e_seg (i_entry it) = SegEntry (Some l) k (length vs).
Proof.
  intros Hr Hat Hc Hne.
  destruct (R_iter _ _ _ _ _ _ (reachable_R _ _ _ Hr) Hat) as (o & a' & l0 & it & Hl & Ho & Hi & Hok & Hp & Hc').
  rewrite Hc in Hc'. injection Hc' as -> <-. pose proof (lives_segments _ _ _ _ _ _ Hl Ho) as Hss.
  assert (∀ ys l, (l, ys) ∈ osegs o → 1 ≤ length ys) as Hpos.
  { intros ys l Hin. pose proof (C16_segments ρ st x _ (ex_intro _ σ Hr) Hss _ _ Hin). lia. }
  destruct o as [t|]; [|done]. cbn [osegs oelems] in *.
  destruct (it_ok_segment t it Hok) as (S1 & l & vs & S2 & Hs & He & Hpos' & Hle & Hin).
  exists it, S1, l, vs, S2, (sg_idx (e_seg (i_entry it))). split_and!; [done| |done].
  split_and!; [by rewrite Hss Hs|lia|].
  destruct (decide (sg_idx (e_seg (i_entry it)) < length vs)) as [|Hge]; [by left|right]. split; [lia|].
  destruct S2 as [|[l2 ys2] S2]; [done|]. exfalso. apply Hge, Hin.
  assert (1 ≤ length ys2) by (eapply (Hpos ys2 l2); rewrite Hs; apply elem_of_app; right; apply elem_of_list_further, elem_of_list_here).
  rewrite /tsize -tsegs_elems Hs fmap_app concat_app fmap_cons fmap_cons. cbn [concat snd]. rewrite !app_length. lia.
Qed.
Definition seg_cmd c (w : nat) : Prop :=
  match c with SegAfter u _ | SegAfterCount _ u _ _ | SegBefore u _ => u = w | _ => False end.
Lemma read_from_length p n : ∀ i st vs st', read_from p i n st = Ok vs st' → length vs = n.
Proof.
  induction n as [|n IH]; intros i st vs st' H; simpl in H.
  { unfold mret, M_ret in H. by injection H as <- _. }
  unfold mbind, M_bind in H. destruct (read_pointer _ st) as [v st1|?|?]; [|done..].
  destruct (read_from p (S i) n st1) as [vs' st2|?|?] eqn:E; [|done..]. unfold mret, M_ret in H. injection H as <- _.
  simpl. f_equal. by eapply IH.
Qed.
Lemma exec_seg c w ρ st ys k ρ' st' it :
  seg_cmd c w → exec c ρ st = Ok (OSegm ys k, ρ') st' → e_iter ρ !! w = Some it →
  length ys = sg_len (e_seg (i_entry it)) ∧ k = sg_idx (e_seg (i_entry it)).
Proof.
  intros Hc He Hi.
  assert (∀ st1 o st2, read_segment it st1 = Ok o st2 → ∃ zs, o = OSegm zs (sg_idx (e_seg (i_entry it))) ∧
    length zs = sg_len (e_seg (i_entry it))) as Hrd.
  { intros st1 o st2. rewrite /read_segment /= /mbind /M_bind. destruct (read_from _ _ _ st1) as [vs st3|?|?] eqn:E; [|done..].
    rewrite /mret /M_ret. intros [= <- _]. rewrite Nat.sub_0_r. eexists; split; [done|].
    apply read_from_length in E. lia. }
  rewrite /Exec.exec /try_catch in He.
  destruct c; try done; simpl in Hc; subst; cbn [exec_call] in He.
  all: unfold geti, lookup_var in He; unfold mbind, M_bind in He; rewrite ?Hi in He; cbv beta iota in He.
  all: unfold mret, M_ret in He; cbv beta iota in He.
  all: repeat match goal with
    | Hrd : ∀ _ _ _, read_segment ?j _ = _ → _, He : context [match read_segment ?j ?s with _ => _ end] |- _ =>
        let E := fresh in destruct (read_segment j s) as [? ?|?|?] eqn:E; [apply Hrd in E as (? & -> & ?)|done..]
    | He : context [(if ?b then _ else _) _] |- _ => destruct b
    | He : context [match ?m ?s with Ok _ _ => _ | Throw _ _ => _ | Fault _ => _ end] |- _ =>
        destruct (m s) as [? ?|? ?|?]; try done
    end.
  all: by simplify_eq.
Qed.

(** the pointers [begin()], [current()], [end()] of an iterator *)
Theorem C13_pointers ρ st x w p xs a :
  reached ρ st → container_at st ρ x = Some (xs, a) → xs ≠ [] → iterator_at st ρ w x p →
  ∃ it before l vs after k, e_iter ρ !! w = Some it ∧ segment_of st ρ x p before l vs after k ∧
    xs = concat before.*2 ++ vs ++ concat after.*2 ∧
    first_element it = (Some l, 0) ∧ current_element it = (Some l, k) ∧ last_element it = (Some l, length vs) ∧
    (* the array read through these pointers *)
    ∀ i v, vs !! i = Some v → ∃ st', read_pointer (Some l, i) st = Ok v st' ∧ st_heap st' = st_heap st ∧ st_clk st' = st_clk st.
Proof.
  intros [σ0 Hr0] Hc Hne Hw. destruct (reached_point _ _ _ _ _ _ Hr0 Hw) as [Hr Hat]. set (σ := point w x p σ0) in *.
  destruct (seg_found σ ρ st w x p xs a) as (it & before & l & vs & after & k & Hi & Hs & He); [done..|].
  exists it, before, l, vs, after, k. split_and!; [done|done| |by rewrite /first_element He|by rewrite /current_element He|by rewrite /last_element He|].
  - destruct Hs as (Hss & _). rewrite /container_at Hss in Hc. destruct (seq_at st ρ x); [|done]. simpl in Hc.
    injection Hc as <- _. by rewrite fmap_app concat_app fmap_cons.
  - intros i v Hv. destruct Hs as (Hss & _).
    destruct (C38_lifetimes ρ st x _ l vs (ex_intro _ σ Hr) Hss) as (a' & slots & Hm & _ & Htk & _).
    { apply elem_of_app. right. apply elem_of_list_here. }
    assert (slots !! i = Some (Some v)) as Hsl.
    { rewrite -(lookup_take _ (length vs)); [|by eapply lookup_lt_Some]. by rewrite Htk list_lookup_fmap Hv. }
    rewrite /read_pointer /read_slot /slot /load_seg /load /mbind /M_bind /= Hm /= /mret /M_ret /elem Hsl /=. by eexists.
Qed.

Lemma same_segment σ ρ st c w x p xs a before ys k o ρ' st' :
  reachable σ ρ st → at_it σ w x p → container_at st ρ x = Some (xs, a) → xs ≠ [] → seg_cmd c w →
  exec c ρ st = Ok (o, ρ') st' → o = OSegm ys k → in_segment (contents σ x) p before ys k →
  ∀ A l vs B k', segment_of st ρ x p A l vs B k' → ys = vs ∧ k = k' ∧ before = concat A.*2.
Proof.
  intros Hr Hat Hc Hne Hcmd He -> (Hcat & Hp & Hk & Hk') A l vs B k' Hsg.
  destruct (seg_found σ ρ st w x p xs a) as (it & A' & l' & vs' & B' & k1 & Hi & Hsg' & Hen); [done..|].
  pose proof (reached_nonempty ρ st x) as Hpos.
  assert (A' = A ∧ l' = l ∧ vs' = vs ∧ k1 = k') as (-> & -> & -> & ->).
  { destruct Hsg as (Hs & Hpp & Hend), Hsg' as (Hs' & Hpp' & Hend').
    specialize (Hpos _ (ex_intro _ σ Hr) Hs).
    rewrite Hs in Hs'. injection Hs' as E. clear -E Hpp Hpp' Hend Hend' Hpos.
    destruct (decide (length A < length A')) as [Hlt|Hge]; [|destruct (decide (length A' < length A)) as [Hlt|Hge']].
    - exfalso. apply app_eq_inv in E as [(Z & -> & E)|(Z & -> & E)]; [rewrite app_length in Hlt; lia|].
      destruct Z as [|z Z]; [rewrite app_length /= in Hlt; lia|]. injection E as <- ->.
      rewrite fmap_app concat_app fmap_cons /= !app_length in Hpp'. destruct Hend as [|[-> E]]; [lia|].
      by destruct Z.
    - exfalso. apply app_eq_inv in E as [(Z & -> & E)|(Z & -> & E)]; [|rewrite app_length in Hlt; lia].
      destruct Z as [|z Z]; [rewrite app_length /= in Hlt; lia|]. injection E as <- ->.
      rewrite fmap_app concat_app fmap_cons /= !app_length in Hpp. destruct Hend' as [|[-> E]]; [lia|].
      by destruct Z.
    - apply app_inj_1 in E as [-> [= <- <- <-]]; [|lia]. split_and!; [done..|lia]. }
  destruct (exec_seg _ _ _ _ _ _ _ _ _ Hcmd He Hi) as [Hlen ->]. rewrite Hen /= in Hlen Hp Hk Hk' |- *.
  destruct Hsg as (Hs & Hpp & Hend).
  assert (contents σ x = concat A.*2 ++ vs ++ concat B.*2) as Hxs.
  { rewrite /contents (reachable_conts _ _ _ _ Hr) /container_at Hs. rewrite /container_at Hs in Hc.
    destruct (seq_at st ρ x); [|done]. simpl. by rewrite fmap_app concat_app fmap_cons. }
  destruct Hcat as [rest Hcat]. rewrite Hxs in Hcat. apply app_inj_1 in Hcat as [-> Hcat]; [|lia].
  apply app_inj_1 in Hcat as [-> _]; [|done]. done.
Qed.

(** reading the array of the segment and [w' = w.after_segment()] *)
Theorem C13_after ρ st x w w' p xs a before l vs after k :
  reached ρ st → container_at st ρ x = Some (xs, a) → xs ≠ [] → iterator_at st ρ w x p →
  segment_of st ρ x p before l vs after k →
  replies st ρ (SegAfter w w') (OSegm vs k) w' x (length (concat before.*2) + length vs).
Proof.
  intros [σ0 Hr0] Hc Hne Hw Hsg. destruct (reached_point _ _ _ _ _ _ Hr0 Hw) as [Hr Hat]. set (σ := point w x p σ0) in *.
  eapply (nav_gen σ); [done|by exists x, p|done|done|].
  intros o ρ' st' σ' He (x' & p' & bf & ys & k' & Hat' & Hin & Ho & ->).
  destruct (at_it_fun _ _ _ _ _ _ Hat Hat') as [<- <-].
  destruct (same_segment σ ρ st (SegAfter w w') w x p xs a bf ys k' o ρ' st') with before l vs after k as (-> & -> & ->); [done..|].
  done.
Qed.
(** and [w' = w.after_segment(n)], when [n] more elements follow the segment *)
Theorem C13_after_count ρ st x w w' n p xs a before l vs after k :
  reached ρ st → container_at st ρ x = Some (xs, a) → xs ≠ [] → iterator_at st ρ w x p →
  segment_of st ρ x p before l vs after k → n ≤ length (concat after.*2) →
  replies st ρ (SegAfterCount x w n w') (OSegm vs k) w' x (length (concat before.*2) + length vs + n).
Proof.
  intros [σ0 Hr0] Hc Hne Hw Hsg Hn. destruct (reached_point _ _ _ _ _ _ Hr0 Hw) as [Hr Hat]. set (σ := point w x p σ0) in *.
  eapply (nav_gen σ); [done|by exists p|done|done|].
  intros o ρ' st' σ' He (p' & bf & ys & k' & Hat' & Hin & Ho & ->).
  destruct (at_it_fun _ _ _ _ _ _ Hat Hat') as [_ <-].
  destruct (same_segment σ ρ st (SegAfterCount x w n w') w x p xs a bf ys k' o ρ' st') with before l vs after k as (-> & -> & ->); [done..|].
  split; [done|]. destruct Hsg as (Hs & _ & _).
  assert (length (contents σ x) = length (concat before.*2) + length vs + length (concat after.*2)) as ->.
  { rewrite /contents (reachable_conts _ _ _ _ Hr) /container_at Hs. rewrite /container_at Hs in Hc.
    destruct (seq_at st ρ x); [|done]. simpl. rewrite fmap_app concat_app fmap_cons /= !app_length. lia. }
  destruct (Nat.leb_spec (length (concat before.*2) + length vs + n) (length (concat before.*2) + length vs + length (concat after.*2))); [done|lia].
Qed.
(** and [w' = w.before_segment()], when a segment precedes *)
Theorem C13_before ρ st x w w' p xs a before l vs after k :
  reached ρ st → container_at st ρ x = Some (xs, a) → xs ≠ [] → iterator_at st ρ w x p →
  segment_of st ρ x p before l vs after k → before ≠ [] →
  replies st ρ (SegBefore w w') (OSegm vs k) w' x (length (concat before.*2) - 1).
Proof.
  intros [σ0 Hr0] Hc Hne Hw Hsg Hb. destruct (reached_point _ _ _ _ _ _ Hr0 Hw) as [Hr Hat]. set (σ := point w x p σ0) in *.
  eapply (nav_gen σ); [done|by exists x, p|done|done|].
  intros o ρ' st' σ' He (x' & p' & bf & ys & k' & Hat' & Hin & Ho & ->).
  destruct (at_it_fun _ _ _ _ _ _ Hat Hat') as [<- <-].
  destruct (same_segment σ ρ st (SegBefore w w') w x p xs a bf ys k' o ρ' st') with before l vs after k as (-> & -> & ->); [done..|].
  split; [done|]. destruct before as [|[l0 us] before]; [done|]. destruct Hsg as (Hs & _ & _).
  pose proof (reached_nonempty ρ st x _ (ex_intro _ σ Hr) Hs) as Hpos. inversion Hpos as [|? ? H0 _]; simplify_eq. simpl in H0.
  csimpl. rewrite app_length. destruct (Nat.eqb_spec (length us + length (concat before.*2)) 0); [lia|done].
Qed.
End props.
