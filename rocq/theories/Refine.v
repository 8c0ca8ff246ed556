(** * Refine: the relation between abstract states (Spec.v) and memory, and how
    to open and close it.  Proof infrastructure. *)
From Verif Require Export Exec SeqList.
From stdpp Require Import options.
Set Default Proof Using "Type*".

Section refine.
Context {T : Type} {C : cfg T} {OK : cfg_ok C} {FZ : frozen T}.
Implicit Types σ : sst T.
Implicit Types ρ : env.
Implicit Types o : option (tree T).
Implicit Types τ : gmap nat (option (tree T) * nat).
Implicit Types s : arg T.

Definition cells τ : gmap nat (list T * nat) := (λ p, (oelems p.1, p.2)) <$> τ.
Record abs σ τ ρ : Prop := Abs {
  abs_conts : conts σ = cells τ;
  abs_env : ∀ x, is_Some (τ !! x) ↔ is_Some (e_cont ρ !! x);
  abs_iters : ∀ w x p, iters σ !! w = Some (x, p) →
    ∃ o a it, τ !! x = Some (o, a) ∧ e_iter ρ !! w = Some it ∧ it_ok o it ∧ i_pos it = p
}.
Definition cell ρ (x : nat) (p : option (tree T) * nat) : hprop T :=
  (∃ l, ⟦e_cont ρ !! x = Some l⟧ ∗ seqp p.2 p.2 l p.1)%I.
Definition rep ρ τ : hprop T := ([∗ map] x ↦ p ∈ τ, cell ρ x p)%I.
Definition R σ ρ : hprop T := (∃ τ, ⟦abs σ τ ρ⟧ ∗ rep ρ τ)%I.

(** ** Memory *)
Lemma rep_take ρ τ x o a l :
  τ !! x = Some (o, a) → e_cont ρ !! x = Some l → rep ρ τ ⊣⊢ seqp a a l o ∗ rep ρ (delete x τ).
Proof.
  intros Hx Hl. rewrite /rep (big_sepM_delete _ τ x) //. f_equiv. rewrite /cell /= Hl. iSplit.
  - iIntros "H". iDestruct "H" as (l' [= <-]) "$".
  - iIntros "H". iExists l. by iFrame.
Qed.
Lemma rep_put ρ τ x o a l :
  e_cont ρ !! x = Some l → seqp a a l o ∗ rep ρ (delete x τ) ⊢ rep ρ (<[x := (o, a)]> τ).
Proof.
  intros Hl. rewrite /rep big_sepM_insert_delete. iIntros "[H $]". iExists l. by iFrame.
Qed.
Lemma rep_env ρ ρ' τ : (∀ x, is_Some (τ !! x) → e_cont ρ !! x = e_cont ρ' !! x) → rep ρ τ ⊢ rep ρ' τ.
Proof.
  intros H. rewrite /rep. apply big_sepM_mono. intros x p Hx. rewrite /cell H //.
Qed.
Lemma rep_bindi ρ w it τ : rep (bindi w it ρ) τ = rep ρ τ.
Proof. done. Qed.
Lemma rep_empty ρ : rep ρ ∅ ⊣⊢ emp.
Proof. by rewrite /rep big_sepM_empty. Qed.

(** ** Reading the abstract state *)
Lemma cells_lookup τ x : cells τ !! x = (λ p, (oelems p.1, p.2)) <$> τ !! x.
Proof. by rewrite /cells lookup_fmap. Qed.
Lemma abs_live σ τ ρ x :
  abs σ τ ρ → live σ x → ∃ o a l, τ !! x = Some (o, a) ∧ e_cont ρ !! x = Some l ∧
    contents σ x = oelems o ∧ alloc_of σ x = a ∧ conts σ !! x = Some (oelems o, a).
Proof.
  intros [Hc He Hi] [[xs a] Hl]. rewrite Hc cells_lookup in Hl.
  destruct (τ !! x) as [[o a']|] eqn:Hx; [|done]. simplify_eq/=.
  destruct (He x) as [[l Hl] _]; [by rewrite Hx|]. exists o, a, l.
  rewrite /contents /alloc_of Hc cells_lookup Hx /=. done.
Qed.
Lemma abs_nonempty σ τ ρ x : contents σ x ≠ [] → live σ x.
Proof. rewrite /contents /live. by destruct (conts σ !! x). Qed.
Lemma abs_at σ τ ρ w x p :
  abs σ τ ρ → at_it σ w x p → ∃ o a l it, τ !! x = Some (o, a) ∧ e_cont ρ !! x = Some l ∧
    contents σ x = oelems o ∧ alloc_of σ x = a ∧ e_iter ρ !! w = Some it ∧ it_ok o it ∧ i_pos it = p ∧ live σ x.
Proof.
  intros Ha Hw. destruct (abs_iters _ _ _ Ha _ _ _ Hw) as (o & a & it & Hx & Hi & Hok & Hp).
  assert (live σ x) as Hlive.
  { rewrite /live (abs_conts _ _ _ Ha) cells_lookup Hx. done. }
  destruct (abs_live _ _ _ _ Ha Hlive) as (o' & a' & l & Hx' & Hl & Hc & Hal & _).
  rewrite Hx in Hx'. simplify_eq. by exists o', (alloc_of σ x), l, it.
Qed.
Lemma abs_fresh σ τ ρ x : abs σ τ ρ → unused σ x → τ !! x = None.
Proof. rewrite /unused. intros [Hc _ _]. rewrite Hc cells_lookup. by destruct (τ !! x). Qed.

(** ** Changing the abstract state *)
Lemma abs_setc σ τ ρ x o' a' :
  abs σ τ ρ → is_Some (τ !! x) → conts (setc x (oelems o') a' σ) = cells (<[x := (o', a')]> τ).
Proof. intros [Hc _ _] _. by rewrite /= Hc /cells fmap_insert. Qed.
Lemma abs_env_insert σ τ ρ x v : abs σ τ ρ → is_Some (τ !! x) →
  ∀ y, is_Some (<[x := v]> τ !! y) ↔ is_Some (e_cont ρ !! y).
Proof.
  intros [_ He _] Hx y. rewrite -He. destruct (decide (x = y)) as [->|].
  - rewrite lookup_insert. split; [done|by eauto].
  - by rewrite lookup_insert_ne.
Qed.
(** in place: the iterators stay valid *)
Lemma abs_write σ τ ρ x o a o' ys :
  abs σ τ ρ → τ !! x = Some (o, a) → oshape o' = oshape o → ys = oelems o' →
  abs (write x ys σ) (<[x := (o', a)]> τ) ρ.
Proof.
  intros Ha Hx Hs ->.
  assert (alloc_of σ x = a) as Hal.
  { rewrite /alloc_of (abs_conts _ _ _ Ha) cells_lookup Hx. done. }
  split.
  - rewrite /write Hal. eapply abs_setc; [done|by rewrite Hx].
  - eapply abs_env_insert; [done|by rewrite Hx].
  - intros w y p Hw. destruct (abs_iters _ _ _ Ha w y p Hw) as (o1 & a1 & it & Hy & Hi & Hok & Hp).
    destruct (decide (x = y)) as [->|].
    + rewrite Hx in Hy. simplify_eq. eexists o', _, it. rewrite lookup_insert. split_and!; try done.
      by eapply it_ok_shape.
    + exists o1, a1, it. by rewrite lookup_insert_ne.
Qed.
(** the container is replaced: its iterators are forgotten *)
Lemma abs_replace σ τ ρ x o' a' ys :
  abs σ τ ρ → is_Some (τ !! x) → ys = oelems o' →
  abs (forget x (setc x ys a' σ)) (<[x := (o', a')]> τ) ρ.
Proof.
  intros Ha Hx ->. split.
  - rewrite -(abs_setc _ _ _ _ _ _ Ha Hx) //.
  - by eapply abs_env_insert.
  - intros w y p Hw. simpl in Hw. apply map_filter_lookup_Some in Hw as [Hw Hne]. simpl in Hne.
    destruct (abs_iters _ _ _ Ha w y p Hw) as (o1 & a1 & it & Hy & Hi & Hok & Hp).
    exists o1, a1, it. by rewrite lookup_insert_ne.
Qed.
Lemma abs_modify σ τ ρ x o a o' ys :
  abs σ τ ρ → τ !! x = Some (o, a) → ys = oelems o' → abs (modify x ys σ) (<[x := (o', a)]> τ) ρ.
Proof.
  intros Ha Hx ->.
  assert (alloc_of σ x = a) as Hal.
  { rewrite /alloc_of (abs_conts _ _ _ Ha) cells_lookup Hx. done. }
  rewrite /modify /write Hal. eapply abs_replace; [done|by rewrite Hx|done].
Qed.
Lemma abs_point σ τ ρ x o a w it p :
  abs σ τ ρ → τ !! x = Some (o, a) → it_ok o it → i_pos it = p → abs (point w x p σ) τ (bindi w it ρ).
Proof.
  intros Ha Hx Hit Hp. split; simpl.
  - apply Ha.
  - apply Ha.
  - intros w' y q Hw. destruct (decide (w = w')) as [->|].
    + rewrite lookup_insert in Hw. simplify_eq. exists o, a, it. by rewrite lookup_insert.
    + rewrite lookup_insert_ne // in Hw.
      destruct (abs_iters _ _ _ Ha w' y q Hw) as (o1 & a1 & it1 & Hy & Hi & Hok & Hq).
      exists o1, a1, it1. by rewrite lookup_insert_ne.
Qed.
Lemma abs_new σ τ ρ x l o a ys :
  abs σ τ ρ → unused σ x → ys = oelems o → abs (setc x ys a σ) (<[x := (o, a)]> τ) (bindc x l ρ).
Proof.
  intros Ha Hf ->. pose proof (abs_fresh _ _ _ _ Ha Hf) as Hx. split; simpl.
  - rewrite /cells fmap_insert /=. f_equal. apply Ha.
  - intros y. destruct (decide (x = y)) as [->|].
    + rewrite !lookup_insert. done.
    + rewrite !lookup_insert_ne //. apply Ha.
  - intros w y p Hw. destruct (abs_iters _ _ _ Ha w y p Hw) as (o1 & a1 & it & Hy & Hi & Hok & Hp).
    exists o1, a1, it. rewrite lookup_insert_ne //. intros ->. by rewrite Hx in Hy.
Qed.
Lemma rep_new ρ τ x l o a :
  τ !! x = None → seqp a a l o ∗ rep ρ τ ⊢ rep (bindc x l ρ) (<[x := (o, a)]> τ).
Proof.
  intros Hx. iIntros "[Hs Hr]". iApply rep_put; [by rewrite /= lookup_insert|]. iFrame.
  rewrite delete_notin //. iApply (rep_env with "Hr"). intros y Hy.
  rewrite /= lookup_insert_ne //. intros ->. rewrite Hx in Hy. by destruct Hy.
Qed.
Lemma abs_delete σ τ ρ x :
  abs σ τ ρ → abs (forget x (SSt (delete x (conts σ)) (iters σ))) (delete x τ) (unbindc x ρ).
Proof.
  intros Ha. split; simpl.
  - rewrite /cells fmap_delete. f_equal. apply Ha.
  - intros y. destruct (decide (x = y)) as [->|].
    + rewrite !lookup_delete. by split; intros [? ?].
    + rewrite !lookup_delete_ne //. apply Ha.
  - intros w y p Hw. apply map_filter_lookup_Some in Hw as [Hw Hne]. simpl in Hne.
    destruct (abs_iters _ _ _ Ha w y p Hw) as (o1 & a1 & it & Hy & Hi & Hok & Hp).
    exists o1, a1, it. by rewrite lookup_delete_ne.
Qed.
Lemma rep_delete ρ τ x : rep ρ (delete x τ) ⊢ rep (unbindc x ρ) (delete x τ).
Proof.
  apply rep_env. intros y Hy. rewrite /= lookup_delete_ne //. intros ->. rewrite lookup_delete in Hy. by destruct Hy.
Qed.
(** the contents of [y] go to [x], which had no iterators *)
Lemma abs_retarget σ τ ρ x y o a b ys :
  abs σ τ ρ → (∀ w p, iters σ !! w ≠ Some (x, p)) →
  is_Some (τ !! x) → τ !! y = Some (o, b) → x ≠ y → ys = oelems o →
  abs (retarget y x (write y [] (setc x ys a σ))) (<[y := (None, b)]> (<[x := (o, a)]> τ)) ρ.
Proof.
  intros Ha Hno Hx Hy Hne ->.
  assert (alloc_of (setc x (oelems o) a σ) y = b) as Hal.
  { rewrite /alloc_of /= lookup_insert_ne // (abs_conts _ _ _ Ha) cells_lookup Hy. done. }
  split.
  - rewrite /retarget /write Hal /= /cells !fmap_insert /=. do 2 f_equal. apply Ha.
  - intros z. destruct (decide (y = z)) as [->|].
    + rewrite lookup_insert. split; [intros _|done]. apply Ha. by rewrite Hy.
    + rewrite lookup_insert_ne //. by eapply abs_env_insert.
  - intros w z p Hw. simpl in Hw. rewrite lookup_fmap in Hw.
    destruct (iters σ !! w) as [[z' p']|] eqn:Hw'; [|done]. simpl in Hw. simplify_eq/=.
    destruct (abs_iters _ _ _ Ha w z' p Hw') as (o1 & a1 & it & Hz & Hi & Hok & Hp).
    destruct (z' =? y)%nat eqn:Hzy; [apply Nat.eqb_eq in Hzy as ->|apply Nat.eqb_neq in Hzy].
    + rewrite Hy in Hz. simplify_eq. exists o1, a, it. rewrite lookup_insert_ne // lookup_insert. done.
    + exists o1, a1, it. rewrite lookup_insert_ne // lookup_insert_ne //. intros ->. by eapply Hno.
Qed.
Lemma abs_exchange σ τ ρ x y ox oy a b xs ys :
  abs σ τ ρ → τ !! x = Some (ox, a) → τ !! y = Some (oy, b) → xs = oelems ox → ys = oelems oy →
  abs (exchange x y (setc y xs a (setc x ys b σ))) (<[y := (ox, a)]> (<[x := (oy, b)]> τ)) ρ.
Proof.
  intros Ha Hx Hy -> ->. split.
  - rewrite /= /cells !fmap_insert /=. do 2 f_equal. apply Ha.
  - intros z. destruct (decide (y = z)) as [->|].
    + rewrite lookup_insert. split; [intros _|done]. apply Ha. by rewrite Hy.
    + rewrite lookup_insert_ne //. eapply abs_env_insert; [done|by rewrite Hx].
  - intros w z p Hw. simpl in Hw. rewrite lookup_fmap in Hw.
    destruct (iters σ !! w) as [[z' p']|] eqn:Hw'; [|done]. simpl in Hw. simplify_eq/=.
    destruct (abs_iters _ _ _ Ha w z' p Hw') as (o1 & a1 & it & Hz & Hi & Hok & Hp).
    destruct (z' =? x)%nat eqn:Hzx; [apply Nat.eqb_eq in Hzx as ->|apply Nat.eqb_neq in Hzx].
    + rewrite Hx in Hz. simplify_eq. exists o1, a1, it. by rewrite lookup_insert.
    + destruct (z' =? y)%nat eqn:Hzy; [apply Nat.eqb_eq in Hzy as ->|apply Nat.eqb_neq in Hzy].
      * rewrite Hy in Hz. simplify_eq. exists o1, a1, it. destruct (decide (x = y)) as [->|]; [done|].
        by rewrite lookup_insert_ne // lookup_insert.
      * exists o1, a1, it. by rewrite !lookup_insert_ne.
Qed.
Lemma forget_no_iters σ x w p : iters (forget x σ) !! w ≠ Some (x, p).
Proof. simpl. intros [_ H]%map_filter_lookup_Some. by apply H. Qed.

(** ** Arguments *)
Lemma getc_ok ρ x l : e_cont ρ !! x = Some l → getc (T:=T) ρ x = mret l.
Proof. intros H. by rewrite /getc /lookup_var H. Qed.
Lemma geti_ok ρ w it : e_iter ρ !! w = Some it → geti (T:=T) ρ w = mret it.
Proof. intros H. by rewrite /geti /lookup_var H. Qed.
Lemma deref_at σ w x p v : at_it σ w x p → contents σ x !! p = Some v → deref σ w = Some v.
Proof. intros Hw Hv. rewrite /deref Hw /=. done. Qed.
Lemma deref_inv σ w v : deref σ w = Some v → ∃ x p, at_it σ w x p ∧ contents σ x !! p = Some v.
Proof.
  rewrite /deref /at_it. destruct (iters σ !! w) as [[x p]|]; [|done]. simpl. intros. by exists x, p.
Qed.
Lemma moved_one ys p v : ys !! p = Some v → moved C p 1 ys = <[p := c_residue C v]> ys.
Proof.
  intros H. rewrite /moved (drop_S _ _ _ H) /= Nat.add_1_r insert_take_drop //. by apply lookup_lt_Some in H.
Qed.
Definition arg_ref s : option nat := match s with AVal _ => None | ARef w | AMove w => Some w end.

Lemma src_spec_emp vs v (F : hprop T) : src_spec vs v emp%I emp%I → src_spec vs v F F.
Proof.
  intros H Q E. iIntros "HF HQ". iApply (H with "[//]"). iSplit.
  - iIntros "_". iDestruct "HQ" as "[HQ _]". by iApply "HQ".
  - iIntros (Hr) "_". iDestruct "HQ" as "[_ HQ]". by iApply ("HQ" with "[%]").
Qed.
(** a constant argument: any part of the memory with the container it refers to *)
Lemma gets_const σ τ τ0 ρ s v :
  abs σ τ ρ → arg_const s → arg_value σ s = Some v →
  (∀ w x p, arg_ref s = Some w → at_it σ w x p → τ0 !! x = τ !! x) →
  ∃ vs, gets ρ s = mret vs ∧ src_spec vs v (rep ρ τ0) (rep ρ τ0).
Proof.
  intros Ha Hc Hv H0. destruct s as [u|w|w]; [| |done].
  - injection Hv as ->. exists (VVal v). split; [done|]. apply src_spec_emp, src_val.
  - destruct (deref_inv _ _ _ Hv) as (x & p & Hw & Hx).
    destruct (abs_at _ _ _ _ _ _ Ha Hw) as (o & a & l & it & Ht & Hl & Hcx & Hal & Hit & Hok & Hp & _).
    exists (it_ref it). split. { by rewrite /gets (geti_ok _ _ _ Hit). }
    specialize (H0 w x p eq_refl Hw). rewrite Ht in H0. intros Q E. iIntros "Hr HQ".
    iEval (rewrite (rep_take _ _ _ _ _ _ H0 Hl)) in "Hr". iDestruct "Hr" as "[Hs Hr]".
    iApply (src_ref a a l o it v with "Hs"); [done|by rewrite Hp -Hcx|]. iSplit.
    + iIntros "Hs". iDestruct "HQ" as "[HQ _]". iApply "HQ". rewrite (rep_take _ τ0 _ _ _ _ H0 Hl). iFrame.
    + iIntros (Hr) "Hs". iDestruct "HQ" as "[_ HQ]". iApply "HQ"; [done|]. rewrite (rep_take _ τ0 _ _ _ _ H0 Hl). iFrame.
Qed.
(** any argument, with the whole memory *)
Lemma gets_any σ τ ρ s v :
  abs σ τ ρ → arg_value σ s = Some v →
  ∃ vs, gets ρ s = mret vs ∧
    src_spec vs v (rep ρ τ) (∃ τ', ⟦abs (arg_used C σ s) τ' ρ⟧ ∗ rep ρ τ')%I.
Proof.
  intros Ha Hv. destruct s as [u|w|w].
  1,2: edestruct (gets_const σ τ τ) as (vs & H1 & H2); [done| |exact Hv|done|]; [done|];
    exists vs; split; [done|]; intros Q E; iIntros "Hr HQ"; iApply (H2 with "Hr"); iSplit;
    [iIntros "Hr"; iDestruct "HQ" as "[HQ _]"; iApply "HQ"; iExists τ; by iFrame
    |by iDestruct "HQ" as "[_ $]"].
  destruct (deref_inv _ _ _ Hv) as (x & p & Hw & Hx).
  destruct (abs_at _ _ _ _ _ _ Ha Hw) as (o & a & l & it & Ht & Hl & Hcx & Hal & Hit & Hok & Hp & _).
  exists (it_mv it). split. { by rewrite /gets (geti_ok _ _ _ Hit). }
  intros Q E. iIntros "Hr HQ".
  iEval (rewrite (rep_take _ _ _ _ _ _ Ht Hl)) in "Hr". iDestruct "Hr" as "[Hs Hr]".
  iApply (src_move a a l o it v with "Hs"); [done|by rewrite Hp -Hcx|]. iSplit.
  + iIntros "Hs". iDestruct "Hs" as (o' [Hsh He]) "Hs". iDestruct "HQ" as "[HQ _]". iApply "HQ".
    iExists (<[x := (o', a)]> τ). iSplitR; [|iApply rep_put; [done|iFrame]].
    iPureIntro. rewrite /arg_used Hw. eapply abs_write; [done..|].
    rewrite He Hp -Hcx. by apply moved_one.
  + iIntros (Hr) "Hs". iDestruct "HQ" as "[_ HQ]". iApply "HQ"; [done|]. rewrite (rep_take _ τ _ _ _ _ Ht Hl). iFrame.
Qed.

(** ** Ranges *)
Lemma inp_spec_frame xs I J X late (F : hprop T) :
  inp_spec xs I J X late → inp_spec xs (λ r k, I r k ∗ F)%I (λ r k, J r k ∗ F)%I (λ k, X k ∗ F)%I late.
Proof.
  intros [H1 H2 H3 H4 H5]. split.
  - iIntros (r k Q E) "[H HF] HQ". iApply (H1 with "H"). iSplit.
    + iIntros (Hk) "H". iDestruct "HQ" as "[HQ _]". iApply ("HQ" with "[%//]"). iFrame.
    + iIntros (Hk) "H". iDestruct "HQ" as "[_ HQ]". iApply ("HQ" with "[%//]"). iFrame.
  - iIntros (r k x Q E Hx) "[H HF] HQ". iApply (H2 with "H"); [done|]. iSplit; last first.
    { iIntros (Hk) "H". iDestruct "HQ" as "[_ HQ]". iApply ("HQ" with "[%//]"). iFrame. }
    iDestruct "HQ" as "[HQ _]". iIntros (s Hs) "H".
    iApply ("HQ" with "[%] [H HF]"); [|iFrame]. intros Q' E'. iIntros "[H HF] HQ". iApply (Hs with "H"). iSplit.
    + iIntros "H". iDestruct "HQ" as "[HQ _]". iApply "HQ". iFrame.
    + iIntros (Hr) "H". iDestruct "HQ" as "[_ HQ]". iApply ("HQ" with "[%//]"). iFrame.
  - iIntros (r k Q E Hk) "[H HF] HQ". iApply (H3 with "H"); [done|]. iSplit.
    + iIntros (r') "H". iDestruct "HQ" as "[HQ _]". iApply "HQ". iFrame.
    + iIntros (Hr) "H". iDestruct "HQ" as "[_ HQ]". iApply ("HQ" with "[%//]"). iFrame.
  - iIntros (r k) "[H $]". by iApply H4.
  - iIntros (r k) "[H $]". by iApply H5.
Qed.
Lemma rng_used_0 σ τ ρ r : abs σ τ ρ → abs (rng_used C σ r 0) τ ρ.
Proof.
  intros Ha. destruct r as [|[] w1 w2]; try done. simpl. destruct (iters σ !! w1) as [[x p]|] eqn:Hw; [|done].
  destruct (abs_at _ _ _ _ _ _ Ha Hw) as (o & a & l & it & Ht & Hl & Hcx & Hal & Hit & Hok & Hp & _).
  assert (τ = <[x := (o, a)]> τ) as Heq by by rewrite insert_id.
  rewrite {1}Heq. eapply abs_write; [done..|]. rewrite /moved Nat.add_0_r /= take_drop. done.
Qed.
Lemma getr_ok σ τ ρ r xs x :
  abs σ τ ρ → rng_values σ r = Some xs → rng_outside σ r x →
  ∃ inp I J X, getr ρ r = mret inp ∧ inp_spec xs I J X (rng_late r) ∧
    (∀ r k, I r k ⊢ ⌜length xs - k < input_fuel r⌝) ∧
    (rep ρ (delete x τ) ⊢ I inp 0) ∧
    (∀ k, X k ⊢ ∃ τ', ⟦abs (rng_used C σ r k) τ' ρ ∧ τ' !! x = τ !! x⟧ ∗ rep ρ (delete x τ')).
Proof.
  intros Ha Hv Hout. destruct r as [ys|mv w1 w2].
  - injection Hv as ->. exists (IList xs).
    exists (λ r k, inl_I xs r k ∗ rep ρ (delete x τ))%I, (λ r k, inl_J xs r k ∗ rep ρ (delete x τ))%I, (λ k, emp ∗ rep ρ (delete x τ))%I.
    split; [done|]. split; [apply inp_spec_frame, inp_list|]. split_and!.
    + iIntros (r k) "[H _]". by iApply inl_fuel.
    + iIntros "$". iPureIntro. split; [done|lia].
    + iIntros (k) "[_ H]". iExists τ. by iFrame.
  - simpl in Hv. destruct (iters σ !! w1) as [[y p]|] eqn:H1; [|done]. destruct (iters σ !! w2) as [[y' q]|] eqn:H2; [|done].
    simpl in Hv. destruct ((y =? y') && (p <=? q))%nat eqn:Hb; [|done]. injection Hv as <-.
    apply andb_prop in Hb as [<-%Nat.eqb_eq Hpq%Nat.leb_le].
    assert (x ≠ y) as Hxy. { intros ->. by apply (Hout p). }
    destruct (abs_at _ _ _ _ _ _ Ha H1) as (o & a & l & it & Ht & Hl & Hcx & Hal & Hit & Hok & Hp & _).
    destruct (abs_at _ _ _ _ _ _ Ha H2) as (o2 & a2 & l2 & it2 & Ht2 & Hl2 & _ & _ & Hit2 & Hok2 & Hp2 & _).
    rewrite Ht in Ht2. rewrite Hl in Hl2. injection Ht2 as -> ->. injection Hl2 as ->.
    set (xs := sub p q (contents σ y)).
    pose proof (it_ok_le _ _ Hok2) as Hle. rewrite Hp2 in Hle.
    assert (length xs = q - p) as Hlen.
    { rewrite /xs /sub Hcx take_length drop_length. unfold osize in Hle. lia. }
    set (F := rep ρ (delete y (delete x τ))).
    exists (ISeq mv it it2), (λ r k, ins_I a2 a2 mv l2 o2 p (q - p) r k ∗ F)%I,
      (λ r k, ins_J a2 a2 mv l2 o2 p (q - p) r k ∗ F)%I, (λ k, ins_X a2 a2 mv l2 o2 p k ∗ F)%I.
    assert (delete x τ !! y = Some (o2, a2)) as Hty by by rewrite lookup_delete_ne.
    split_and!.
    + by rewrite /getr (geti_ok _ _ _ Hit) (geti_ok _ _ _ Hit2).
    + apply inp_spec_frame. apply inp_seq; [|lia]. by rewrite /xs /sub Hcx.
    + iIntros (r k) "[H _]". by iApply ins_fuel.
    + rewrite (rep_take _ _ _ _ _ _ Hty Hl). iIntros "[Hs $]". iSplitR.
      * iPureIntro. exists it, it2. split_and!; try done; lia.
      * by iApply ins_X_intro.
    + iIntros (k) "[H HF]". iDestruct "H" as (o' [Hsh He]) "Hs".
      iExists (<[y := (o', a2)]> τ). rewrite delete_insert_ne //. iSplitR; last first.
      { iApply rep_put; [done|]. iFrame. }
      iPureIntro. rewrite lookup_insert_ne //. split; [|done].
      destruct mv; simpl.
      * rewrite H1. eapply abs_write; [done|done|done|]. by rewrite He Hcx.
      * replace σ with (write y (contents σ y) σ).
        -- eapply abs_write; [done|done|done|]. by rewrite He Hcx.
        -- rewrite /write /setc Hcx Hal. destruct σ as [cs its]. simpl in *. f_equal. apply insert_id.
           pose proof (abs_conts _ _ _ Ha) as Hcc. simpl in Hcc. by rewrite Hcc cells_lookup Ht.
Qed.

(** ** What has to be shown of every command *)
Definition post σ ρ (c : cmd T) (r : out T * env) : hprop T := (∃ σ', ⟦step C σ c r.1 σ'⟧ ∗ R σ' r.2)%I.
Definition good σ ρ (c : cmd T) : Prop :=
  pre C σ c → R σ ρ ⊢ wp (exec_call c ρ) (post σ ρ c) (λ e, post σ ρ c (OExn e, ρ)).
Lemma post_intro σ ρ c out ρ' σ' τ' :
  step C σ c out σ' → abs σ' τ' ρ' → rep ρ' τ' ⊢ post σ ρ c (out, ρ').
Proof. intros H1 H2. iIntros "H". iExists σ'. iSplitR; [done|]. iExists τ'. by iFrame. Qed.
End refine.
