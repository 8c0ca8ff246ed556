(** * C56: which memory a call accesses; data races *)
From Verif Require Export PropsCost Threads.
From stdpp Require Import options.
Set Default Proof Using "Type*".

Section props.
Context {T : Type} {C : cfg T} {OK : cfg_ok C}.
Implicit Types σ : sst T.
Implicit Types ρ : env.
Implicit Types st : state T.
Implicit Types c : cmd T.
Notation reached := (reached C).
Notation reachable := (reachable C).
Notation iterator_at := (iterator_at C).
Notation exec := (exec (C:=C)).
Notation run := (run (C:=C)).
Notation safe := (safe C).

(** the accesses to memory on the way from [st] to [st'], latest first *)
Definition accessed st st' : list access :=
  take (length (n_log (st_cnt st')) - length (n_log (st_cnt st))) (n_log (st_cnt st')).
(** block [k] belongs to container [y]: the seq object, its nodes and segments *)
Definition part_of st ρ y (k : loc) : Prop :=
  is_Some (container_at st ρ y) ∧ (e_cont ρ !! y = Some k ∨ k ∈ blocks_of st ρ y).
(** no call of the program does what [bad] says, whatever the answers are *)
Fixpoint avoids (bad : sst T → cmd T → nat → Prop) y σ (p : client (T:=T)) : Prop :=
  match p with
  | Stop => True
  | Call c k => ¬ bad σ c y ∧ ∀ o σ', step C σ c o σ' → avoids bad y σ' (k o)
  end.
(** [y] is stored in the same blocks, which have not changed *)
Definition undisturbed st ρ st' ρ' y : Prop :=
  e_cont ρ' !! y = e_cont ρ !! y ∧
  container_at st' ρ' y = container_at st ρ y ∧
  segments st' ρ' y = segments st ρ y ∧ index_nodes st' ρ' y = index_nodes st ρ y ∧
  (∀ k, part_of st ρ y k → st_heap st' !! k = st_heap st !! k) ∧
  (∀ k, part_of st' ρ' y k ↔ part_of st ρ y k).

Lemma accessed_app st st' tr :
  n_log (st_cnt st') = tr ++ n_log (st_cnt st) → accessed st st' = tr.
Proof. intros E. rewrite /accessed E app_length Nat.add_sub. apply take_app. Qed.
Lemma accessed_trans st1 st2 st3 t1 t2 :
  n_log (st_cnt st2) = t1 ++ n_log (st_cnt st1) → n_log (st_cnt st3) = t2 ++ n_log (st_cnt st2) →
  n_log (st_cnt st3) = (t2 ++ t1) ++ n_log (st_cnt st1) ∧ accessed st1 st3 = t2 ++ t1.
Proof.
  intros E1 E2. assert (n_log (st_cnt st3) = (t2 ++ t1) ++ n_log (st_cnt st1)) as E by by rewrite E2 E1 assoc_L.
  split; [done|]. by apply accessed_app.
Qed.

(** ** The log is complete: what is not logged as written does not change *)
Theorem C56_log ρ st c o ρ' st' :
  exec c ρ st = Ok (o, ρ') st' →
  n_log (st_cnt st') = accessed st st' ++ n_log (st_cnt st) ∧
  ∀ k, AWrite k ∉ accessed st st' → st_heap st' !! k = st_heap st !! k.
Proof.
  intros He. pose proof (exec_recorded (C:=C) c ρ st) as H. rewrite He in H. destruct H as (tr & Htr & Hk).
  by rewrite (accessed_app _ _ _ Htr).
Qed.

(** ** The footprint of a call *)
Lemma part_of_locs ρ st y o a l k :
  e_cont ρ !! y = Some l → lives (C:=C) (st_heap st) a l o → part_of st ρ y k ↔ k ∈ l :: olocs o.
Proof.
  intros Hl Ho. rewrite /part_of (lives_blocks _ _ _ _ _ _ Hl Ho) (lives_container _ _ _ _ _ _ Hl Ho) Hl elem_of_cons.
  split; [intros [_ [[=]|?]]; auto|intros [->|?]]; split; eauto.
Qed.
Lemma part_of_rep (P : nat → Prop) `{∀ x, Decision (P x)} σ ρ st τ h y k :
  abs σ τ ρ → rep ρ τ (st_heap st) → rep ρ (filter (λ x, P x.1) τ) h →
  part_of st ρ y k → P y → is_Some (h !! k).
Proof.
  intros Ha Hr Hh Hk HP. pose proof Hk as [[[xs a] Hc] _].
  destruct (R_lives _ _ _ _ _ _ (R_close _ _ _ _ Ha Hr) Hc) as (Hcs & o & l & Hl & Ho & <-).
  assert (∃ o', τ !! y = Some (o', a)) as (o' & Hy).
  { rewrite (abs_conts _ _ _ Ha) cells_lookup in Hcs. destruct (τ !! y) as [[o' a']|]; [|done].
    simplify_eq/=. by exists o'. }
  assert (o' = o) as ->.
  { destruct (rep_lives _ _ _ _ _ _ Hr Hy) as (l1 & Hl1 & Ho1). rewrite Hl in Hl1. simplify_eq.
    by destruct (lives_det _ _ _ _ _ _ Ho1 Ho) as [-> _]. }
  apply (part_of_locs _ _ _ _ _ _ _ Hl Ho) in Hk.
  pose proof (rep_fp ρ _ h Hh) as [_ Hdom]. apply elem_of_dom. rewrite Hdom. apply elem_of_list_to_set. rewrite /all_locs.
  apply (elem_of_concat _ (clocs ρ y o)).
  - by rewrite /clocs Hl.
  - apply elem_of_list_fmap. exists (y, (o, a)). split; [done|]. apply elem_of_map_to_list.
    by apply map_filter_lookup_Some.
Qed.
(** A call accesses no block of a container that it neither names nor reaches
    through an iterator argument, and it only reads the blocks of a container that
    it does not modify. *)
Theorem C56_footprint σ ρ st c o ρ' st' y a :
  reachable σ ρ st → pre C σ c → exec c ρ st = Ok (o, ρ') st' →
  a ∈ accessed st st' → part_of st ρ y (addr a) →
  touches σ c y ∧ (modifies σ c y ∨ a = ARead (addr a)).
Proof.
  intros Hr Hp He Hin Hk. pose proof (reachable_R _ _ _ Hr) as HR. apply R_open in HR as (τ & Ha & Hrep).
  destruct (call_log _ _ _ _ _ _ _ _ Ha Hrep Hp He) as (tr & h2 & h3 & Htr & H2 & H3 & H).
  rewrite (accessed_app _ _ _ Htr) in Hin. destruct (H a Hin) as [Hn Hm]. split.
  - destruct (decide (touches σ c y)) as [|Hnt]; [done|]. exfalso.
    destruct (part_of_rep (λ x, ¬ touches σ c x) _ _ _ _ _ _ _ Ha Hrep H2 Hk Hnt) as [? E]. by rewrite Hn in E.
  - destruct Hm as [Hm|Hm]; [left|by right]. destruct (decide (modifies σ c y)) as [|Hnt]; [done|]. exfalso.
    destruct (part_of_rep (λ x, ¬ modifies σ c x) _ _ _ _ _ _ _ Ha Hrep H3 Hk Hnt) as [? E]. by rewrite Hm in E.
Qed.
(** Every block is new or belongs to a container. *)
Theorem C56_blocks ρ st k :
  reached ρ st → is_Some (st_heap st !! k) → ∃ y, part_of st ρ y k.
Proof.
  intros Hr Hk. destruct (reached_dom _ _ _ Hr Hk) as (x & xs & a & l & Hc & Hl & Hx).
  exists x. split; [by rewrite Hc|]. destruct Hx as [->|Hx]; auto.
Qed.
(** A const member function, an iterator operation or a comparison only reads,
    in any state. *)
Theorem C56_const ρ st c o ρ' st' :
  is_const c = true → exec c ρ st = Ok (o, ρ') st' → ∀ a, a ∈ accessed st st' → a = ARead (addr a).
Proof.
  intros Hc He a Ha. destruct (exec_same c _ _ _ _ _ Hc He) as (_ & _ & _ & tr & Htr & H).
  rewrite (accessed_app _ _ _ Htr) in Ha. by apply H.
Qed.
(** ** A container that a call does not modify *)
Lemma keepsc_changes y ρ c : y ∉ changes c → keepsc (T:=T) y ρ (exec c ρ).
Proof.
  intros Hw. assert (keepsc y ρ (exec_call (C:=C) c ρ)) as H.
  { destruct c; cbn [exec_call changes] in *; rewrite /done_;
    repeat first
      [ match goal with |- keepsc _ _ (if ?b then _ else _) => destruct b end
      | apply keepsc_ret; first [reflexivity | simpl; first [rewrite lookup_insert_ne|rewrite lookup_delete_ne]; [reflexivity|set_solver]]
      | apply keepsc_bind; intros ]. }
  intros st. specialize (H st). rewrite /Exec.exec /try_catch. destruct (exec_call c ρ st) as [[o ρ'] st'|e st'|f]; done.
Qed.
Theorem C56_unmodified σ ρ st c o ρ' st' y :
  reachable σ ρ st → pre C σ c → exec c ρ st = Ok (o, ρ') st' →
  is_Some (container_at st ρ y) → ¬ modifies σ c y →
  undisturbed st ρ st' ρ' y ∧
  ∀ w p, ¬ assigns c w → iterator_at st ρ w y p → iterator_at st' ρ' w y p.
Proof.
  intros Hr Hp He [[xs a] Hc] Hm. destruct (call_inv _ _ _ _ _ _ _ Hr Hp He) as (σ' & _ & Hr').
  destruct (R_lives _ _ _ _ _ _ (reachable_R _ _ _ Hr) Hc) as (_ & t & l & Hl & Ho & <-).
  destruct (C56_log _ _ _ _ _ _ He) as [_ Hlog].
  assert (∀ k, part_of st ρ y k → st_heap st' !! k = st_heap st !! k) as Hag.
  { intros k Hk. apply Hlog. intros Hin.
    by destruct (C56_footprint _ _ _ _ _ _ _ _ _ Hr Hp He Hin Hk) as [_ [?|[=]]]. }
  assert (lives (C:=C) (st_heap st') a l t) as Ho'.
  { eapply lives_agree; [done|]. intros k Hk. apply Hag. by rewrite (part_of_locs _ _ _ _ _ _ _ Hl Ho). }
  pose proof (keepsc_changes y ρ c) as Hkc. specialize (Hkc ltac:(intros H; apply Hm; by left) st). rewrite He in Hkc.
  assert (e_cont ρ' !! y = Some l) as Hl' by by rewrite Hkc.
  split; [split_and!|].
  - done.
  - by rewrite Hc (lives_container _ _ _ _ _ _ Hl' Ho').
  - by rewrite (lives_segments _ _ _ _ _ _ Hl Ho) (lives_segments _ _ _ _ _ _ Hl' Ho').
  - by rewrite (lives_nodes _ _ _ _ _ _ Hl Ho) (lives_nodes _ _ _ _ _ _ Hl' Ho').
  - done.
  - intros k. by rewrite (part_of_locs _ _ _ _ _ _ _ Hl Ho) (part_of_locs _ _ _ _ _ _ _ Hl' Ho').
  - intros w p Hw Hit. assert (reached ρ st) as Hre by by eexists.
    destruct (iterator_elim _ _ _ _ _ Hre Hit) as (o1 & a1 & l1 & it & Hl1 & Ho1 & Hi & Hok & <- & _).
    rewrite Hl in Hl1. injection Hl1 as <-. destruct (lives_det _ _ _ _ _ _ Ho Ho1) as [<- <-].
    pose proof (keeps_exec w ρ c Hw st) as Hk. rewrite He in Hk.
    eapply iterator_intro; [by eexists|done|done|by rewrite Hk|done].
Qed.

(** ** Programs *)
Lemma undisturbed_refl st ρ y : undisturbed st ρ st ρ y.
Proof. by split_and!. Qed.
Lemma undisturbed_trans st1 ρ1 st2 ρ2 st3 ρ3 y :
  undisturbed st1 ρ1 st2 ρ2 y → undisturbed st2 ρ2 st3 ρ3 y → undisturbed st1 ρ1 st3 ρ3 y.
Proof.
  intros (A1&A2&A3&A4&A5&A6) (B1&B2&B3&B4&B5&B6). split_and!; [congruence..| |].
  - intros k Hk. rewrite B5; [|by apply A6]. by apply A5.
  - intros k. by rewrite B6 A6.
Qed.
Lemma avoids_modifies y σ p : avoids touches y σ p → avoids modifies y σ p.
Proof.
  revert σ. induction p as [|c k IH]; intros σ; simpl; [done|]. intros [H Hk]. split.
  - intros Hm. by apply H, modifies_touches.
  - intros o σ' Hs. by apply IH, Hk.
Qed.
Lemma program_run σ ρ st p :
  reachable σ ρ st → safe σ p → ∃ tr ρ' st',
    run p ρ st = Ok (tr, ρ') st' ∧ n_log (st_cnt st') = accessed st st' ++ n_log (st_cnt st) ∧
    ∀ y, is_Some (container_at st ρ y) → avoids modifies y σ p →
      undisturbed st ρ st' ρ' y ∧
      ∀ a, a ∈ accessed st st' → part_of st ρ y (addr a) → a = ARead (addr a) ∧ ¬ avoids touches y σ p.
Proof.
  revert σ ρ st. induction p as [|c k IH]; intros σ ρ st Hr Hs.
  - exists [], ρ, st. split_and!; [done|by rewrite (accessed_app st st [])|]. intros y _ _. split; [apply undisturbed_refl|].
    intros a. rewrite (accessed_app st st []) //. by intros ?%elem_of_nil.
  - destruct Hs as [Hp Hk]. destruct (call_ok _ _ _ _ Hr Hp) as (o & ρ1 & st1 & σ1 & He & Hst & Hr1).
    destruct (IH o σ1 ρ1 st1 Hr1 (Hk _ _ Hst)) as (tr & ρ2 & st2 & Hrun & Hlog2 & H2).
    destruct (C56_log _ _ _ _ _ _ He) as [Hlog1 _].
    destruct (accessed_trans _ _ _ _ _ Hlog1 Hlog2) as [Hlog Hacc].
    exists ((c, o) :: tr), ρ2, st2. split_and!; [|by rewrite Hacc|].
    { simpl. unfold mbind, M_bind. rewrite He /=. by rewrite Hrun. }
    intros y Hy [Hm Ha]. destruct (C56_unmodified _ _ _ _ _ _ _ _ Hr Hp He Hy Hm) as [Hu _].
    destruct (H2 y) as [Hu2 Hacc2]; [destruct Hu as (_ & -> & _); done|by apply Ha|].
    split; [by eapply undisturbed_trans|]. intros a Hin Hpa. rewrite Hacc in Hin. apply elem_of_app in Hin as [Hin|Hin].
    + destruct (Hacc2 a Hin) as [? Hn]; [by apply Hu|]. split; [done|]. intros [_ Ht]. by apply Hn, Ht.
    + destruct (C56_footprint _ _ _ _ _ _ _ _ _ Hr Hp He Hin Hpa) as [Ht [Hm'|?]]; [done|]. split; [done|]. by intros [Hn _].
Qed.
(** A program leaves a container alone that none of its calls modifies, and does
    not even read one that none of its calls touches, however much it allocates and
    frees otherwise. *)
Theorem C56_program σ ρ st p y :
  reachable σ ρ st → safe σ p → is_Some (container_at st ρ y) → avoids modifies y σ p → ∃ tr ρ' st',
    run p ρ st = Ok (tr, ρ') st' ∧ undisturbed st ρ st' ρ' y ∧
    ∀ a, a ∈ accessed st st' → part_of st ρ y (addr a) → a = ARead (addr a) ∧ ¬ avoids touches y σ p.
Proof.
  intros Hr Hs Hy Ha. destruct (program_run _ _ _ _ Hr Hs) as (tr & ρ' & st' & Hrun & _ & H).
  exists tr, ρ', st'. split; [done|]. by apply H.
Qed.
(** Two programs that start in the same state.  If every container is left alone by
    one of them or modified by neither, they have no conflicting accesses: a block
    that both access is only read. *)
Theorem C56_no_race σ ρ st p q :
  reachable σ ρ st → safe σ p → safe σ q →
  (∀ y, live σ y → avoids touches y σ p ∨ avoids touches y σ q ∨ (avoids modifies y σ p ∧ avoids modifies y σ q)) →
  ∃ tr1 ρ1 st1 tr2 ρ2 st2, run p ρ st = Ok (tr1, ρ1) st1 ∧ run q ρ st = Ok (tr2, ρ2) st2 ∧
    ∀ a b, a ∈ accessed st st1 → b ∈ accessed st st2 → addr a = addr b → is_Some (st_heap st !! addr a) →
      a = ARead (addr a) ∧ b = a.
Proof.
  intros Hr Hp Hq H. destruct (program_run _ _ _ _ Hr Hp) as (tr1 & ρ1 & st1 & Hrun1 & _ & H1).
  destruct (program_run _ _ _ _ Hr Hq) as (tr2 & ρ2 & st2 & Hrun2 & _ & H2).
  exists tr1, ρ1, st1, tr2, ρ2, st2. split_and!; [done..|]. intros a b Ha Hb Hab Hk.
  destruct (C56_blocks ρ st (addr a)) as [y Hy]; [by eexists|done|].
  pose proof Hy as [Hcy _]. assert (live σ y) as Hlive by by rewrite /live (reachable_conts _ _ _ _ Hr).
  pose proof Hy as Hy'. rewrite Hab in Hy'.
  destruct (H y Hlive) as [Ht|[Ht|[Hm1 Hm2]]].
  - exfalso. destruct (H1 y Hcy (avoids_modifies _ _ _ Ht)) as [_ H1']. by destruct (H1' a Ha Hy) as [_ []].
  - exfalso. destruct (H2 y Hcy (avoids_modifies _ _ _ Ht)) as [_ H2']. by destruct (H2' b Hb Hy') as [_ []].
  - destruct (H1 y Hcy Hm1) as [_ H1']. destruct (H2 y Hcy Hm2) as [_ H2'].
    destruct (H1' a Ha Hy) as [Ea _]. destruct (H2' b Hb Hy') as [Eb _]. split; [done|]. rewrite Ea Eb. by rewrite Hab.
Qed.
End props.
