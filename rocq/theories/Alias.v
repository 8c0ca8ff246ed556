(** * Alias: an element of the same container as argument.  Proof infrastructure. *)
From Verif Require Export Reach LocalIns RemoveSelf.
From stdpp Require Import options.
Set Default Proof Using "Type*".

Section alias.
Context {T : Type} {C : cfg T} {OK : cfg_ok C}.
Implicit Types σ : sst T.
Implicit Types ρ : env.
Implicit Types st : state T.
Implicit Types c : cmd T.
Implicit Types o : option (tree T).
Implicit Types τ : gmap nat (option (tree T) * nat).
Notation segl := (list (loc * list T)).

Lemma wft_nonempty h (t : tree T) : wft (C:=C) h t → Forall (λ s : loc * list T, 0 < length s.2) (tsegs t).
Proof.
  pose proof (segment_bounds (C:=C)).
  revert t. induction h as [|h IH]; intros [l xs|l ts]; simpl; try done.
  - intros [_ ?]. constructor; [simpl; lia|done].
  - intros (_ & _ & Hts). rewrite Forall_concat Forall_fmap. eapply Forall_impl; [done|]. intros u Hu. by apply IH.
Qed.
Lemma lives_nonempty m a l o : lives (C:=C) m a l o → Forall (λ s : loc * list T, 0 < length s.2) (osegs o).
Proof.
  destruct o as [t|]; [|by constructor]. intros (h & Hw & _). cbn [osegs].
  destruct h as [|h]; destruct t as [l0 xs|l0 ts]; cbn [wfroot tsegs] in *; try done.
  - destruct Hw as [_ ?]. constructor; [simpl; lia|done].
  - destruct Hw as (_ & _ & Hts). rewrite Forall_concat Forall_fmap. eapply Forall_impl; [done|]. intros u. apply wft_nonempty.
Qed.
(** the reference can be read as often as needed *)
Lemma alias_stays_good σ τ ρ st x o a l p q n w1 :
  abs σ τ ρ → rep ρ τ (st_heap st) → τ !! x = Some (o, a) → e_cont ρ !! x = Some l →
  at_it σ w1 x q → q < length (contents σ x) → n ≤ 1 ∨ apart st ρ x p q →
  ∃ vs v, gets (T:=T) ρ (ARef w1) = mret vs ∧ contents σ x !! q = Some v ∧ stays_good a a l o p n vs v.
Proof.
  intros Ha Hrep Hτ Hl Hw Hq Hn.
  destruct (abs_at _ _ _ _ _ _ Ha Hw) as (o1 & a1 & l1 & it & Hτ1 & Hl1 & Hc & _ & Hit & Hok & Hp & _).
  rewrite Hτ in Hτ1. injection Hτ1 as <- <-. rewrite Hl in Hl1. injection Hl1 as <-.
  rewrite Hc in Hq |- *. destruct (lookup_lt_is_Some_2 _ _ Hq) as [v Hv].
  exists (it_ref it), v. split_and!; [by rewrite /gets (geti_ok _ _ _ Hit)|done|].
  intros j o' Hj Hj0 Hloc. destruct j as [|j].
  { rewrite (Hj0 eq_refl). apply src_ref; [done|by rewrite Hp]. }
  destruct Hn as [|Hn]; [lia|]. destruct Hn as (before & l0 & vs & after & k & (Hss & Hpk & Hk) & Hout).
  destruct (rep_lives _ _ _ _ _ _ Hrep Hτ) as (l' & Hl' & Hlv). rewrite (lives_segments _ _ _ _ _ _ Hl' Hlv) in Hss. injection Hss as Hss.
  pose proof (lives_nonempty _ _ _ _ Hlv) as Hne. rewrite Hss in Hne.
  destruct o as [t|]; [|simpl in Hq; lia]. cbn [oelems osegs] in *.
  assert (i_pos it < tsize t) as Hlt by by rewrite Hp.
  destruct (it_ok_split _ _ Hok Hlt) as (c & l2 & A & y & B & -> & Hs & _ & Hp2 & He). rewrite Hp in Hp2.
  assert (v = y) as ->.
  { rewrite He Hp2 lookup_mid in Hv; [by injection Hv|by rewrite app_length]. }
  rewrite /it_ref Hs. cbn [sg_ptr sg_idx].
  rewrite tsegs_plug in Hss. cbn [tsegs app] in Hss.
  assert (length (concat (csl c).*2) = length (cl c)) as Hcl by by rewrite csl_elems.
  destruct (Hloc before [(l0, vs)] after) as (G' & E' & _).
  { rewrite tsegs_plug. cbn [tsegs app]. by rewrite Hss. }
  { apply Forall_app in Hne as [_ Hne]. apply Forall_cons in Hne as [Hne _]. simpl in *. rewrite right_id_L. lia. }
  { lia. }
  { simpl. rewrite right_id_L. destruct Hk as [|[-> ->]]; [left; lia|by right]. }
  assert ((A ++ y :: B) !! length A = Some y) as Hy by by apply lookup_mid.
  destruct (cut_in _ _ _ before [(l0, vs)] after Hss) as [(S & ->)|[(G1 & G2 & E1 & E2 & E3)|(S & E2 & ->)]].
  - rewrite -!app_assoc /= in E'. by eapply src_place.
  - destruct G1 as [|? [|]]; simplify_eq/=. rewrite right_id_L in E2. rewrite E2 in Hcl. rewrite app_length /= in Hout. lia.
  - rewrite !app_assoc in E'. by eapply src_place.
Qed.

Lemma alias_wp σ ρ st c τ :
  pre_alias C σ ρ st c → abs σ τ ρ → rep ρ τ (st_heap st) →
  rep ρ τ ⊢ wp (exec_call c ρ) (post σ ρ c) (λ e, post σ ρ c (OExn e, ρ)).
Proof.
  intros Hp Ha Hrep. destruct c; try done; cbn [pre_alias] in Hp;
    match type of Hp with context [match ?s with _ => _ end] => destruct s as [u|w1|w1]; [done| |done] end.
  - destruct Hp as (p & q & Hw & Hw1 & Hq & Hfit & Hn).
    open_at Ha Hw o a l it. simplify_eq.
    destruct (alias_stays_good _ _ _ _ _ _ _ _ (i_pos it) _ _ _ Ha Hrep Ht Hl Hw1 Hq Hn) as (vs & v & Hg & Hv & Hsrc).
    assert (arg_value σ (ARef w1) = Some v) as Hval by (by eapply deref_at).
    cbn [exec_call]. rewrite Hg. iIntros "Hr". vars. wp_bind. rewrite /insert_count. take_ Ht Hl. rewrite /fits Hc in Hfit.
    iApply (wp_emplace_count_here with "Hs"); [done|done|done|]. iSplit.
    + iIntros (o' it' (He & Hok' & Hp')) "Hs". done_fold.
      iApply post_intro; [exists (i_pos it), v; split_and!; [done|done|by left]| |rewrite rep_bindi; iApply rep_put; [done|iFrame]].
      eapply abs_point; [eapply abs_modify; [done..|by rewrite He Hc]|by rewrite lookup_insert|done|done].
    + iIntros (e o' k (Hr & Hk & He)) "Hs".
      iApply post_intro; [exists (i_pos it), v; split_and!; [done|done|right; exists e, k; by split_and!]| |iApply rep_put; [done|iFrame]].
      eapply abs_modify; [done..|by rewrite He Hc].
  - destruct Hp as (q & Hw1 & Hq & Hfit & Hn).
    open_at Ha Hw1 o a l it. simplify_eq.
    destruct (alias_stays_good _ _ _ _ _ _ _ _ (osize o) _ (n - osize o) _ Ha Hrep Ht Hl Hw1 Hq) as (vs & v & Hg & Hv & Hsrc).
    { rewrite Hc in Hn. fold (osize o) in Hn. destruct Hn; [left; lia|by right]. }
    assert (arg_value σ (ARef w1) = Some v) as Hval by (by eapply deref_at).
    cbn [exec_call]. rewrite Hg. iIntros "Hr". vars. wp_bind. take_ Ht Hl. rewrite /resize_.
    iApply (wp_resize_count_here with "Hs"); [done|done|]. iSplit.
    + iIntros (o' He) "Hs". done_fold.
      iApply post_intro; [exists v; split_and!; [done|by left]| |iApply rep_put; [done|iFrame]].
      eapply abs_modify; [done..|]. by rewrite He Hc.
    + iIntros (e o' k (Hr & Hk & He)) "Hs".
      iApply post_intro; [exists v; split_and!; [done|right; exists e, k; rewrite Hc; by split_and!]| |iApply rep_put; [done|iFrame]].
      eapply abs_modify; [done..|]. by rewrite He.
  - destruct Hp as (q & v & Hw1 & Hv & Hvv & Hk).
    open_at Ha Hw1 o a l it. simplify_eq.
    assert (arg_value σ (ARef w1) = Some v) as Hval by (by eapply deref_at). rewrite Hc in Hv, Hk.
    cbn [exec_call]. rewrite /gets (geti_ok _ _ _ Hit). iIntros "Hr". vars. wp_bind. take_ Ht Hl.
    iApply (wp_remove_self with "Hs"); [done..|]. iSplit.
    + iIntros (o' He) "Hs". done_fold.
      iApply post_intro; [exists v; split; [done|by left]| |iApply rep_put; [done|iFrame]].
      eapply abs_modify; [done..|]. by rewrite He Hc.
    + iIntros (o' (Hpf & Hsh & He)) "Hs". rewrite -Hc in He.
      iApply post_intro; [exists v; split; [done|right; split; [done|by eexists]]|by eapply abs_write|iApply rep_put; [done|iFrame]].
Qed.
End alias.
