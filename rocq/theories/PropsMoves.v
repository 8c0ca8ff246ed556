(** * PropsMoves: C61, how many elements a call moves *)
From Verif Require Export MovesApi.
From Verif Require Import Effort Asked.
From stdpp Require Import options.
#[local] Set Default Proof Using "Type*".

Section props.
Context {T : Type} {C : cfg T} {OK : cfg_ok C}.
Notation all := (λ _ : nat, true).
Notation w f := (with_moves C f).
Notation arr st := (arrays (C:=C) (st_heap st)).
Notation reachable := (reachable C).
Implicit Types σ : sst T.

Ltac upto_first := apply upto_first_; [reflexivity|].
Ltac harr := repeat match goal with E : st_heap ?a = st_heap _ |- arrays (st_heap ?a) => rewrite E end; assumption.
Ltac fetch := repeat match goal with
  | |- upto _ (λ f, (getc _ _ ≫= _)) _ => let H := fresh "Hg" in upto_first; intros ? ? H; apply getc_inv in H as [? ->]
  | |- upto _ (λ f, (geti _ _ ≫= _)) _ => let H := fresh "Hg" in upto_first; intros ? ? H; apply geti_inv in H as [? ->]
  | |- upto _ (λ f, (gets _ _ ≫= _)) _ => let H := fresh "Hg" in upto_first; intros ? ? H; apply gets_moves in H as [? ->]
  end.
(** the allocator of a container *)
Lemma reachable_alloc σ ρ st x l : reachable σ ρ st → live σ x → e_cont ρ !! x = Some l →
  ∃ s, st_heap st !! l = Some (OSeq s) ∧ s_ealloc s = alloc_of σ x.
Proof.
  intros Hr Hx Hl. destruct (R_open _ _ _ (reachable_R _ _ _ Hr)) as (τ & Ha & Hrep).
  destruct (abs_live _ _ _ _ Ha Hx) as (o & a & l' & Ht & Hl' & Hc & Hal & _).
  destruct (rep_lives _ _ _ _ _ _ Hrep Ht) as (l2 & Hl2 & Ho). rewrite Hl in Hl2. injection Hl2 as <-. rewrite Hal.
  destruct o as [t|]; simpl in Ho; [destruct Ho as (h & _ & _ & Hs & _)|]; eexists; (split; [eassumption|done]).
Qed.
Lemma ealloc_read l (st : state T) s n st' : st_heap st !! l = Some (OSeq s) → get_element_allocator l st = Ok n st' →
  n = s_ealloc s ∧ st_heap st' = st_heap st.
Proof.
  intros Hs. rewrite /get_element_allocator /load_seq /load /mbind /M_bind Hs. simpl. by intros [= <- <-].
Qed.
(** copy assignment does not enlarge the destination before it copies *)
Lemma sized_self σ ρ st x y l ly u st' :
  reachable σ ρ st → pre C σ (AssignCopy x y) → x ≠ y → e_cont ρ !! x = Some l → e_cont ρ !! y = Some ly →
  copy_assign_alloc (C:=C) l ly st = Ok u st' → ∃ N, sized l N st' ∧ N ≤ length (contents σ x).
Proof.
  intros Hr (Hx & Hy & Hp) Hne Hl Hly E. pose proof (reachable_R _ _ _ Hr) as HR. apply R_open in HR as (τ & Ha & Hrep).
  destruct (abs_live _ _ _ _ Ha Hx) as (o & a & l' & Ht & Hl' & Hc & Hal & _). rewrite Hl in Hl'. injection Hl' as <-.
  destruct (abs_live _ _ _ _ Ha Hy) as (o2 & b & l' & Ht2 & Hl' & Hc2 & Hal2 & _). rewrite Hly in Hl'. injection Hl' as <-.
  assert (c_pocca C = true → a ≠ b → may_purge (C:=C) o) as Hm.
  { intros H1 H2. eapply (can_purge_may _ (contents σ x)); [|done]. apply Hp; congruence. }
  assert (rep (C:=C) ρ τ ⊢ wp (F:=no_frozen) (copy_assign_alloc (C:=C) l ly)
    (λ _, (∃ o' a', ⌜osize o' ≤ osize o⌝ ∗ seqp (C:=C) a' a' l o') ∗ True)%I (λ _, False)%I) as Hwp.
  { iIntros "Hr". iEval (rewrite (rep_take2 _ _ _ _ _ _ _ _ _ _ Hne Ht Hl Ht2 Hly)) in "Hr".
    iDestruct "Hr" as "(Hs & Hs2 & Hr)". iApply (wp_copy_assign_alloc with "Hs Hs2"); [done|]. iIntros (o' a' [_ Ho']) "Hs Hs2".
    iSplitL "Hs"; [|done]. iExists o', a'. iFrame "Hs". iPureIntro. rewrite Ho'. destruct (_ && _); [rewrite /osize /=; lia|done]. }
  pose proof (hprop_in_entails _ _ Hwp _ Hrep) as H1. rewrite wp_holds in H1. destruct st as [h clk cnt].
  specialize (H1 ∅ clk cnt ltac:(apply map_disjoint_empty_r) (map_empty_subseteq ∅)). rewrite right_id_L in H1. simpl in H1.
  rewrite E in H1. destruct H1 as (h' & _ & Hh' & _ & HQ). rewrite right_id_L in Hh'.
  apply sep_holds in HQ as (m1 & m2 & -> & Hd & Hseq & _).
  apply exist_holds in Hseq as (o' & Hseq). apply exist_holds in Hseq as (a' & Hseq).
  apply sep_holds in Hseq as (n1 & n2 & -> & Hd2 & Hpure & Hseq). apply pure_holds in Hpure.
  assert (n2 ⊆ st_heap st') as Hm1.
  { rewrite Hh'. etrans; [by apply map_union_subseteq_r|by apply map_union_subseteq_l]. }
  pose proof (seqp_lives _ _ _ _ _ Hseq Hm1) as Ho. exists (osize o'). rewrite Hc. split; [|exact Hpure]. destruct o' as [t|]; simpl in Ho.
  - destruct Ho as (n & _ & _ & Hs & _). eexists. split; [exact Hs|done].
  - eexists. split; [exact Ho|done].
Qed.
Lemma assigning_le n N N' : N ≤ N' → assigning (C:=C) n N ≤ n * per_insert (C:=C) + N' * per_erase (C:=C).
Proof. intros H. rewrite /assigning. apply Nat.add_le_mono; apply Nat.mul_le_mono_r; lia. Qed.
Lemma find_end_keeps l st it st' : find_end l st = Ok (T:=T) it st' → arr st → arr st'.
Proof. intros ->%(find_end_heap (C:=C)). done. Qed.
(** remove, remove_if and unique: std::remove_if or std::unique, and the rest is erased *)
Lemma up_filter (m : (nat → bool) → iterator_data → iterator_data → M T iterator_data) l N st :
  sized l N st → N < c_W C → arr st →
  (∀ a b st, i_pos a ≤ i_pos b < c_W C → upto (i_pos b - i_pos a) (λ f, m f a b) st) →
  (∀ a b st r st', i_pos a ≤ i_pos b < c_W C → m all a b st = Ok r st' → i_pos r ≤ i_pos b) →
  (∀ a b, eff (karr (C:=C)) (m all a b)) → (∀ a b, eff (ksz l N) (m all a b)) →
  upto (N * (1 + per_erase (C:=C)))
    (λ f, a ← find_first l; b ← find_end l; r ← m f a b; b ← find_end l; erase_range (C:=with_moves C f) l r b;; mret ()) st.
Proof.
  intros Hs HN Ha Hm Hpos Hk Hz. upto_first. intros a st1 E1. destruct (begin_pos (C:=C) _ _ _ _ _ Hs E1) as [Hp1 Hh1].
  upto_first. intros b st2 E2. destruct (end_pos (C:=C) _ _ _ _ _ (sized_heap (C:=C) _ _ _ _ Hh1 Hs) E2) as [Hp2 Hh2].
  eapply (upto_mono (N + N * per_erase (C:=C))); [|lia].
  apply upto_bind; [eapply upto_mono; [apply Hm; lia|lia]|]. intros r st3 E3.
  pose proof (Hpos a b st2 r st3 ltac:(lia) E3) as Hp3. specialize (Hk a b st2). specialize (Hz a b st2). rewrite E3 in Hk, Hz.
  assert (sized l N st2) as Hs2 by (eapply sized_heap; [|exact Hs]; congruence).
  specialize (Hz Hs2). assert (arr st3) as Ha3 by (apply Hk; harr).
  upto_first. intros b' st4 E4. destruct (end_pos (C:=C) _ _ _ _ _ Hz E4) as [Hp4 Hh4].
  apply upto_last; [|done]. eapply upto_mono; [apply up_erase_range; [lia|harr]|]. apply Nat.mul_le_mono_r. lia.
Qed.
Lemma up_call σ ρ st c : reachable σ ρ st → pre C σ c → counted c → upto (most_moves σ c (C:=C)) (λ f, exec_call (C:=with_moves C f) c ρ) st.
Proof.
  intros Hr Hp Hcnt. pose proof (reachable_arrays _ _ _ Hr) as Ha. destruct c.
  all: lazymatch goal with
  | |- context [NewCount] => idtac | |- context [NewRange] => idtac | |- context [NewCopy] => idtac
  | |- context [NewCopyAlloc] => idtac | |- context [NewMoveAlloc] => idtac | |- context [AssignCopy] => idtac
  | |- context [AssignMove] => idtac | |- context [AssignCount] => idtac | |- context [AssignRange] => idtac
  | |- context [Write] => idtac | |- context [InsertOne] => idtac | |- context [InsertCount] => idtac
  | |- context [InsertRange] => idtac | |- context [PushBack] => idtac | |- context [PushFront] => idtac
  | |- context [Erase] => idtac | |- context [EraseRange] => idtac | |- context [PopBack] => idtac | |- context [PopFront] => idtac
  | |- context [Resize] => idtac | |- context [SpliceAll] => idtac | |- context [SpliceOne] => idtac
  | |- context [SpliceRange] => idtac | |- context [MergeIn] => destruct Hcnt | |- context [Sort] => destruct Hcnt
  | |- context [Remove] => idtac | |- context [RemoveIf] => idtac | |- context [Unique] => idtac | |- context [Reverse] => idtac
  | |- _ => apply upto_zero; reflexivity end.
  all: cbn [exec_call most_moves pre] in *.
  - (* NewCount *) fetch. apply upto_last; [|done].
    apply up_ctor. intros l st2 Hl. pose proof (arr_place _ _ _ _ Hl Ha). upto_first. intros it st3 Hf%(find_end_keeps); [|done]. apply upto_last; [|done].
    eapply upto_mono; [by apply mv_emplace_count|]. apply Nat.mul_le_mono_l. lia.
  - (* NewRange *) destruct Hp as (_ & (xs & Hx & _) & _). upto_first. intros v st1 Hv.
    destruct (getr_moves _ _ _ _ _ _ Hr (mk_is_Some _ _ Hx) Hv) as (Hok & <- & <- & ->). apply upto_last; [|done].
    apply up_ctor. intros l st2 Hl. pose proof (arr_place _ _ _ _ Hl Ha). upto_first. intros it st3 Hf%(find_end_keeps); [|done]. apply upto_last; [|done].
    by apply up_emplace_range.
  - (* NewCopy *) destruct Hp as (_ & Hy & _). destruct (reachable_sized _ _ _ _ Hr Hy) as (l & Hl & Hs & HW). fetch. simplify_eq.
    apply upto_last; [|done]. unfold ctor_copy. upto_first. intros b st1 Hb.
    assert (st_heap st1 = st_heap st) as Hh. { eapply (looks_heap (get_element_allocator l)); [intros; by apply eff_get_element_allocator|exact Hb]. }
    apply (up_copy_alloc l _ (c_soccc C b)); [by rewrite /sized Hh|done|by rewrite Hh].
  - (* NewCopyAlloc *) destruct Hp as (_ & Hy & _). destruct (reachable_sized _ _ _ _ Hr Hy) as (l & Hl & Hs & HW). fetch. simplify_eq.
    apply upto_last; [|done]. by apply up_copy_alloc.
  - (* NewMoveAlloc *) destruct Hp as (_ & Hy & _). destruct (reachable_sized _ _ _ _ Hr Hy) as (l & Hl & Hs & HW).
    destruct (reachable_alloc _ _ _ _ _ Hr Hy Hl) as (sq & Hsq & Hal). fetch. simplify_eq.
    apply upto_last; [|done]. apply up_ctor. intros l' st2 Hl'. pose proof (sized_place _ _ _ _ _ _ Hs Hl') as Hs2. pose proof (arr_place _ _ _ _ Hl' Ha) as Ha2.
    unfold ctor_alloc, place in Hl'. injection Hl' as <- <-.
    upto_first. intros a1 st3 H3. eapply ealloc_read in H3 as [-> Hh3]; [|simpl; apply lookup_insert]. cbn [s_ealloc].
    upto_first. intros a2 st4 H4. 
    eapply ealloc_read in H4 as [-> Hh4].
    2: { rewrite Hh3. simpl. rewrite lookup_insert_ne; [exact Hsq|]. intros E. pose proof (ok_place _ OK (st_clk st) (st_heap st)) as Hpl. rewrite E in Hpl. congruence. }
    rewrite Hal. destruct (a =? alloc_of σ y); [eapply upto_mono; [by apply upto_zero|apply Nat.le_0_l]|].
    upto_first. intros it st5 Hf%(find_end_heap (C:=C)). upto_first. intros r st6 Hw. apply upto_last; [|done].
    destruct (whole_moving true l (length (contents σ y)) st5 r st6) as (Hok & Hlen & Hmv & Hh6); [|done|exact Hw|].
    { eapply sized_heap; [|exact Hs2]. congruence. }
    eapply upto_mono; [apply up_emplace_range; [done|harr]|]. rewrite Hlen Hmv. done.
  - (* AssignCopy *) destruct (decide (x = y)) as [->|Hne].
    { fetch. simplify_eq. apply upto_last; [|done]. unfold op_copy_assign. rewrite Pos.eqb_refl. eapply upto_mono; [by apply upto_zero|apply Nat.le_0_l]. }
    pose proof Hp as (Hx & Hy & _). destruct (reachable_sized _ _ _ _ Hr Hy) as (l & Hl & Hs & HW).
    destruct (reachable_sized _ _ _ _ Hr Hx) as (lx & Hlx & _ & HWx). fetch. simplify_eq.
    apply upto_last; [|done]. unfold op_copy_assign. destruct (negb _); [|eapply upto_mono; [by apply upto_zero|apply Nat.le_0_l]].
    upto_first. intros u st1 Hca. upto_first. intros r st2 Hw.
    pose proof (sized_other σ ρ st x y lx l u st1 Hr Hp Hne ltac:(done) ltac:(done) Hca) as Hs1.
    destruct (sized_self σ ρ st x y lx l u st1 Hr Hp Hne ltac:(done) ltac:(done) Hca) as (N & HsN & HN).
    destruct (whole_moving false l _ st1 r st2 Hs1 HW Hw) as (Hok & Hlen & Hmv & Hh).
    assert (arr st1) as Ha1 by (eapply keeps_ok; [apply (a_copy_assign_alloc (C:=C))|exact Hca|done]).
    eapply upto_mono; [apply (up_assign_range _ _ N); [done|by eapply sized_heap|lia|harr]|].
    rewrite Hlen Hmv Nat.mul_0_r. by apply assigning_le.
  - (* AssignMove *) destruct Hp as (Hx & Hy & _). destruct (reachable_sized _ _ _ _ Hr Hy) as (l & Hl & Hs & HW).
    destruct (reachable_sized _ _ _ _ Hr Hx) as (lx & Hlx & Hsx & HWx).
    destruct (reachable_alloc _ _ _ _ _ Hr Hy Hl) as (sq & Hsq & Hal). destruct (reachable_alloc _ _ _ _ _ Hr Hx Hlx) as (sx & Hsqx & Halx).
    fetch. simplify_eq. apply upto_last; [|done]. unfold op_move_assign, move_assign. simpl.
    destruct (c_pocma C); [by apply upto_zero|]. upto_first. intros a1 st3 H3. apply (ealloc_read _ _ _ _ _ Hsqx) in H3 as [-> Hh3].
    upto_first. intros a2 st4 H4. eapply ealloc_read in H4 as [-> Hh4]; [|rewrite Hh3; exact Hsq]. rewrite Hal Halx. cbn [orb].
    destruct (alloc_of σ x =? alloc_of σ y); [by apply upto_zero|]. simpl. upto_first. intros f st5 H5.
    destruct (begin_pos l (length (contents σ y)) st4 f st5) as [Hpf Hh5]; [eapply sized_heap; [|exact Hs]; congruence|exact H5|].
    upto_first. intros e st6 H6.
    destruct (end_pos l (length (contents σ y)) st5 e st6) as [Hpe Hh6]; [eapply sized_heap; [|exact Hs]; congruence|exact H6|].
    eapply upto_mono; [apply (up_assign_range _ (ISeq true f e) (length (contents σ x)))|].
    { simpl. lia. } { eapply sized_heap; [|exact Hsx]. congruence. } { done. } { harr. }
    cbn [ilen imv]. rewrite Hpf Hpe Nat.sub_0_r Nat.mul_1_r. done.
  - (* AssignCount *) destruct Hp as (Hx & _). destruct (reachable_sized _ _ _ _ Hr Hx) as (lx & Hlx & Hsx & HWx). fetch. simplify_eq.
    apply upto_last; [|done]. match goal with H : amv _ = moved_arg _ |- _ => rewrite -H end. by apply up_assign_count.
  - (* AssignRange *) destruct Hp as (Hx & (xs & Hxs & _) & _). destruct (reachable_sized _ _ _ _ Hr Hx) as (lx & Hlx & Hsx & HWx).
    fetch. simplify_eq. upto_first. intros v st1 Hv.
    destruct (getr_moves _ _ _ _ _ _ Hr (mk_is_Some _ _ Hxs) Hv) as (Hok & <- & <- & ->). apply upto_last; [|done].
    by apply up_assign_range.
  - (* Write *) fetch. match goal with H : amv _ = moved_arg _ |- _ => rewrite -H end. apply upto_last; [|done]. by apply mv_assign_value.
  - (* InsertOne *) fetch. match goal with H : amv _ = moved_arg _ |- _ => rewrite -H end. apply upto_last; [|done]. by apply mv_emplace_single.
  - (* InsertCount *) fetch. match goal with H : amv _ = moved_arg _ |- _ => rewrite -H end. apply upto_last; [|done]. by apply mv_emplace_count.
  - (* InsertRange *) destruct Hp as (p & xs & _ & Hx & _). fetch. upto_first. intros v st1 Hv.
    destruct (getr_moves _ _ _ _ _ _ Hr (mk_is_Some _ _ Hx) Hv) as (Hok & <- & <- & ->). apply upto_last; [|done]. by apply up_emplace_range.
  - (* Erase *) fetch. apply upto_last; [|done]. by apply mv_erase_single.
  - (* EraseRange *) destruct Hp as (p & q & H1 & H2 & Hpq). fetch. apply upto_last; [|done].
    match goal with |- upto _ (λ f, erase_between _ ?a ?b) _ =>
      destruct (MovesApi.iter_pos σ ρ st w1 x p a Hr H1 ltac:(done)) as [Ea La]; destruct (MovesApi.iter_pos σ ρ st w2 x q b Hr H2 ltac:(done)) as [Eb Lb] end.
    rewrite /Complexity.between H1 H2 -Ea -Eb. apply up_erase_range; [lia|done].
  - (* PushBack *) fetch. match goal with H : amv _ = moved_arg _ |- _ => rewrite -H end. apply upto_last; [|done].
    upto_first. intros it st2 Hf%(find_end_keeps); [|done]. apply upto_last; [|done]. by apply mv_emplace_single.
  - (* PushFront *) destruct Hp as (Hx & _). destruct (reachable_sized _ _ _ _ Hr Hx) as (lx & Hlx & Hsx & HWx). fetch. simplify_eq.
    match goal with H : amv _ = moved_arg _ |- _ => rewrite -H end. apply upto_last; [|done].
    upto_first. intros it st2 Hf. apply (begin_pos (C:=C) _ _ _ _ _ Hsx) in Hf as [_ Hh]. apply upto_last; [|done]. apply mv_emplace_single. harr.
  - (* PopBack *) fetch. apply upto_last; [|done]. unfold pop_back. upto_first. intros it st2 Hf. apply upto_last; [|done]. apply mv_erase_single.
    assert (st_heap st2 = st_heap st) as Hh; [|harr]. eapply looks_heap; [|exact Hf]. intros. by apply eff_find_last.
  - (* PopFront *) fetch. apply upto_last; [|done]. unfold pop_front. upto_first. intros it st2 Hf. apply upto_last; [|done]. apply mv_erase_single.
    assert (st_heap st2 = st_heap st) as Hh; [|harr]. eapply looks_heap; [|exact Hf]. intros. by apply eff_find_first.
  - (* Resize *) destruct Hp as (Hx & _). destruct (reachable_sized _ _ _ _ Hr Hx) as (l & Hl & Hs & HW). fetch. simplify_eq.
    match goal with H : amv _ = moved_arg _ |- _ => rewrite -H end. apply upto_last; [|done].
    unfold resize_, resize_count. upto_first. intros sz st2 Hsz.
    assert (sz = length (contents σ x) ∧ st_heap st2 = st_heap st) as [-> Hh2].
    { assert (wlp (size_ l) st (λ n st', n = length (contents σ x) ∧ st_heap st' = st_heap st) (λ _ _, True)) as H2 by (by eapply wlp_size).
      rewrite /wlp /size_ in H2. change (get_size l st = Ok sz st2) in Hsz. by rewrite Hsz in H2. }
    destruct (_ =? n); [eapply upto_mono; [by apply upto_zero|apply Nat.le_0_l]|]. upto_first. intros it st3 H3.
    destruct (end_pos l (length (contents σ x)) st2 it st3) as [Hpe Hh3]; [eapply sized_heap; [|exact Hs]; congruence|exact H3|].
    destruct (n <? _) eqn:Hlt.
    + apply Nat.ltb_lt in Hlt. upto_first. intros a st4 H4.
      assert (i_pos a = n ∧ st_heap st4 = st_heap st3) as [Hpa Hh4].
      { split; [|eapply looks_heap; [|exact H4]; intros; by apply eff_find_index].
        revert H4. rewrite /find_index /mbind /M_bind. destruct (get_root l st3) as [r st5|?|?]; [|done..].
        destruct (get_size l st5) as [k st6|?|?]; [|done..]. destruct (get_height l st6) as [h st7|?|?]; [|done..].
        rewrite /find_index_root. destruct (h <? 2); [by intros [= <- _]|]. rewrite /mbind /M_bind. destruct (find_index_node _ _ _ _); [|done..].
        by intros [= <- _]. }
      apply upto_last; [|done]. eapply upto_mono; [apply up_erase_range; [lia|harr]|]. rewrite Hpe Hpa. lia.
    + apply Nat.ltb_ge in Hlt. apply upto_last; [|done]. eapply upto_mono; [apply mv_emplace_count; harr|]. lia.
  - (* SpliceAll *) destruct Hp as (p & _ & Hy & _). destruct (reachable_sized _ _ _ _ Hr Hy) as (l & Hl & Hs & HW). fetch. simplify_eq.
    apply upto_last; [|done]. unfold splice_all. upto_first. intros r st1 Hw.
    destruct (whole_moving true l _ st r st1 Hs HW Hw) as (Hok & Hlen & Hmv & Hh).
    apply upto_last; [|done]. eapply upto_mono; [apply up_emplace_range; [done|harr]|]. rewrite Hlen Hmv. done.
  - (* SpliceOne *) fetch. apply upto_last; [|done]. eapply upto_bind.
    { eapply upto_mono; [by apply (mv_emplace_single _ _ (VRef _ _))|]. simpl. lia. }
    intros it st1 E1. apply upto_last; [|done]. apply mv_erase_single. eapply keeps_ok; [apply (a_emplace_single (C:=with_moves C all))|exact E1|done].
  - (* SpliceRange *) destruct Hp as (p & q1 & q2 & _ & H1 & H2 & Hq & _). fetch. apply upto_last; [|done].
    match goal with |- upto _ (λ f, splice_range _ _ _ ?a ?b) _ =>
      destruct (MovesApi.iter_pos σ ρ st w1 y q1 a Hr H1 ltac:(done)) as [Ea La]; destruct (MovesApi.iter_pos σ ρ st w2 y q2 b Hr H2 ltac:(done)) as [Eb Lb];
      assert (iok (C:=C) (ISeq true a b)) as Hok by (simpl; lia) end.
    rewrite /Complexity.between H1 H2 Nat.mul_add_distr_l -Ea -Eb. apply upto_bind; [exact (up_emplace_range _ _ _ _ Hok Ha)|].
    intros it st1 E1. apply upto_last; [|done]. apply up_erase_range; [lia|]. eapply keeps_ok; [apply (a_emplace_range (C:=with_moves C all))|exact E1|done].
  - (* Remove *) destruct Hp as (Hx & _). destruct (reachable_sized _ _ _ _ Hr Hx) as (l & Hl & Hs & HW). fetch. simplify_eq.
    apply upto_last; [|done]. rename x1 into src. 
    apply (up_filter (λ f a b, std_remove_if (C:=with_moves C f) a b (λ x, v ← peek src; pred_tick (C:=with_moves C f);; mret (eq x v)))); try done.
    + intros. by apply (up_remove_if _ _ (λ f x, v ← peek src; pred_tick (C:=with_moves C f);; mret (eq x v))).
    + intros a b st1 r st' Hab. by apply pos_remove_if.
    + intros. apply (a_std_remove_if (C:=with_moves C all)). intros v. apply eff_bind; [apply _|apply (a_peek (C:=with_moves C all))|]. intros u.
      apply eff_bind; [apply _|apply (a_pred_tick (C:=with_moves C all))|]. intros _. apply eff_ret, _.
    + intros. apply z_remove_if. intros v. pose proof (ksz_preorder l (length (contents σ x)) (T:=T)). apply eff_bind; [done| |].
      { destruct src; cbn [peek]; [apply eff_ret; apply _|apply eff_read_slot; [done|apply ksz_coarser]..]. }
      intros u. apply eff_bind; [done|apply z_pred_tick|]. intros _. by apply eff_ret.
  - (* RemoveIf *) destruct (reachable_sized _ _ _ _ Hr Hp) as (l & Hl & Hs & HW). fetch. simplify_eq. apply upto_last; [|done].
    apply (up_filter (λ f a b, std_remove_if (C:=with_moves C f) a b (λ x, pred_tick (C:=with_moves C f);; mret (p x)))); try done.
    + intros. by apply (up_remove_if _ _ (λ f x, pred_tick (C:=with_moves C f);; mret (p x))).
    + intros a b st1 r st' Hab. by apply pos_remove_if.
    + intros. apply (a_std_remove_if (C:=with_moves C all)). intros v. apply eff_bind; [apply _|apply (a_pred_tick (C:=with_moves C all))|]. intros _. apply eff_ret, _.
    + intros. apply z_remove_if. intros v. pose proof (ksz_preorder l (length (contents σ x)) (T:=T)).
      apply eff_bind; [done|apply z_pred_tick|]. intros _. by apply eff_ret.
  - (* Unique *) destruct (reachable_sized _ _ _ _ Hr Hp) as (l & Hl & Hs & HW). fetch. simplify_eq. apply upto_last; [|done].
    apply (up_filter (λ f a b, std_unique (C:=with_moves C f) a b p)); try done.
    + intros. by apply up_unique.
    + intros a b st1 r st' Hab. by apply pos_unique.
    + intros. apply (a_std_unique (C:=with_moves C all)).
    + intros. apply z_unique.
  - (* Reverse *) destruct (reachable_sized _ _ _ _ Hr Hp) as (l & Hl & Hs & HW). fetch. simplify_eq. apply upto_last; [|done].
    unfold reverse_. upto_first. intros a st1 E1. destruct (begin_pos (C:=C) _ _ _ _ _ Hs E1) as [Hp1 Hh1].
    upto_first. intros b st2 E2. destruct (end_pos (C:=C) _ _ _ _ _ (sized_heap (C:=C) _ _ _ _ Hh1 Hs) E2) as [Hp2 Hh2].
    eapply upto_mono; [apply up_reverse; [lia|harr]|]. rewrite Hp2 Hp1 Nat.sub_0_r. done.
Qed.

(** ** The theorems *)
Lemma with_moves_id : with_moves C (c_move_ok C) = C.
Proof. by destruct C. Qed.
(** A call other than sort and merge moves elements, from one place to another, no
    more often than the table [most_moves] allows: whether moves can fail at other
    moments makes no difference *)
Theorem C61_moves σ ρ st c :
  reachable σ ρ st → pre C σ c → counted c → moves_at_most (C:=C) (most_moves σ c (C:=C)) c ρ st.
Proof.
  intros Hr Hp Hc. pose proof (up_call σ ρ st c Hr Hp Hc) as H.
  change (upto (most_moves σ c (C:=C)) (λ f, exec (C:=with_moves C f) c ρ) st).
  rewrite -(Nat.add_0_r (most_moves σ c)). apply upto_catch; [exact H|]. intros; by apply upto_zero.
Qed.
(** calls that move nothing do the same whether or not elements can be moved *)
Theorem C61_none σ ρ st c f :
  reachable σ ρ st → pre C σ c → counted c → most_moves σ c (C:=C) = 0 →
  exec (C:=with_moves C f) c ρ st = exec (C:=C) c ρ st.
Proof.
  intros Hr Hp Hcn Hz. destruct (C61_moves σ ρ st c Hr Hp Hcn) as (ks & Hl & H). rewrite Hz in Hl.
  destruct ks; [|simpl in Hl; lia]. rewrite (H f); [|by intros ? ?%elem_of_nil].
  rewrite -{2}with_moves_id. symmetry. apply H. by intros ? ?%elem_of_nil.
Qed.
(** inserting or erasing one element moves a number of elements that depends on the
    size of a segment and not on the size of the container *)
Definition one_element (c : cmd T) : Prop :=
  match c with
  | InsertOne _ _ _ _ | PushBack _ _ | PushFront _ _ | Erase _ _ _ | PopBack _ | PopFront _ => True
  | _ => False
  end.
Theorem C61_single σ ρ st c :
  reachable σ ρ st → pre C σ c → one_element c →
  moves_at_most (C:=C) (2 * segment_max (C:=C) + 3) c ρ st.
Proof.
  intros Hr Hp H1. assert (counted c) as Hc by (by destruct c).
  destruct (C61_moves σ ρ st c Hr Hp Hc) as (ks & Hl & H). exists ks. split; [|exact H]. etrans; [exact Hl|].
  destruct c; try done; cbn [most_moves]; rewrite ?/per_insert ?/per_erase; try lia; destruct s; cbn [moved_arg]; lia.
Qed.
(** containers that change owner take their elements along: nothing is moved by
    swap, move construction, and move assignment between equal allocators *)
Definition whole (σ : sst T) (c : cmd T) : Prop :=
  match c with
  | Swap _ _ | NewMove _ _ => True
  | NewMoveAlloc _ y a => a = alloc_of σ y
  | AssignMove x y => c_pocma C = true ∨ alloc_of σ x = alloc_of σ y
  | _ => False
  end.
Theorem C61_whole σ ρ st c f :
  reachable σ ρ st → pre C σ c → whole σ c →
  exec (C:=with_moves C f) c ρ st = exec (C:=C) c ρ st.
Proof.
  intros Hr Hp Hw. apply (C61_none σ); [done|done|by destruct c|]. destruct c; try done; cbn [whole most_moves] in *.
  - rewrite Hw. by rewrite Nat.eqb_refl.
  - destruct Hw as [->| ->]; [done|]. by rewrite Nat.eqb_refl orb_true_r.
Qed.
End props.
