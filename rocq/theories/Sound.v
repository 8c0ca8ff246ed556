(** * Sound: reachable states satisfy the representation relation, and every
    call with a true precondition has a specified result.  Proof infrastructure. *)
From Verif Require Export Reach Stored RefineSeg Alias.
From stdpp Require Import options.
Set Default Proof Using "Type*".

Section sound.
Context {T : Type} {C : cfg T} {OK : cfg_ok C}.
Implicit Types σ : sst T.
Implicit Types ρ : env.
Implicit Types st : state T.
Notation reachable := (reachable C).

Lemma R_open σ ρ m : R σ ρ m → ∃ τ, abs σ τ ρ ∧ rep ρ τ m.
Proof.
  intros H. rewrite /R in H. apply exist_holds in H as (τ & H). exists τ.
  apply sep_holds in H as (m1 & m2 & -> & Hd & [Ha ->]%apure_holds & H). by rewrite left_id_L.
Qed.
Lemma R_close σ ρ m τ : abs σ τ ρ → rep ρ τ m → R σ ρ m.
Proof.
  intros Ha H. apply (hprop_in_entails (rep ρ τ)); [|done]. iIntros "H". iExists τ. by iFrame.
Qed.
Lemma R_conts σ ρ st x : R σ ρ (st_heap st) → conts σ !! x = container_at st ρ x.
Proof.
  intros (τ & Ha & Hr)%R_open. rewrite (abs_conts _ _ _ Ha) cells_lookup.
  destruct (τ !! x) as [[o a]|] eqn:Hx; simpl.
  - destruct (rep_lives _ _ _ _ _ _ Hr Hx) as (l & Hl & Ho). by rewrite (lives_container _ _ _ _ _ _ Hl Ho).
  - rewrite /container_at /seq_at. destruct (e_cont ρ !! x) eqn:Hl; [|done].
    assert (is_Some (τ !! x)) as [? ?]; [|congruence]. apply (abs_env _ _ _ Ha). by rewrite Hl.
Qed.

Lemma R_start ρ : e_cont ρ = ∅ → R (SSt ∅ ∅) ρ ∅.
Proof.
  intros He. apply (R_close _ _ _ ∅).
  - split; simpl; [by rewrite /cells fmap_empty| |].
    + intros x. rewrite He !lookup_empty. by split; intros [? ?].
    + intros w x p. by rewrite lookup_empty.
  - apply (hprop_in_entails emp%I); [by rewrite rep_empty|]. by apply emp_holds.
Qed.
Lemma exec_wp σ ρ c : pre C σ c → R σ ρ ⊢ wp (exec c ρ) (post σ ρ c) (λ _, False).
Proof.
  intros Hp. rewrite /exec -wp_try_catch. rewrite (all_good σ ρ c Hp). apply wp_mono; [done|].
  intros e. iIntros "H". by iApply wp_ret.
Qed.
(** one call, with the rest of the memory [hf] *)
Lemma exec_frame σ ρ c h hf n k :
  R σ ρ h → h ##ₘ hf → pre C σ c →
  ∃ o ρ' st' σ' h', exec c ρ (State (h ∪ hf) n k) = Ok (o, ρ') st' ∧ step C σ c o σ' ∧
    h' ##ₘ hf ∧ st_heap st' = h' ∪ hf ∧ R σ' ρ' h'.
Proof.
  intros HR Hd Hp. pose proof (hprop_in_entails _ _ (exec_wp σ ρ c Hp) _ HR) as Hwp.
  rewrite wp_holds in Hwp. specialize (Hwp hf n k Hd (map_empty_subseteq hf)).
  destruct (exec c ρ (State (h ∪ hf) n k)) as [[o ρ'] st'|e st'|f]; [| |done].
  - destruct Hwp as (h' & Hd' & Hst & _ & Hpost). rewrite /post in Hpost. apply exist_holds in Hpost as (σ' & Hpost).
    apply sep_holds in Hpost as (m1 & m2 & -> & Hdd & [Hs ->]%apure_holds & HR').
    rewrite left_id_L in Hd' Hst. by exists o, ρ', st', σ', m2.
  - destruct Hwp as (h' & _ & _ & _ & Hf). by apply pure_holds in Hf.
Qed.
(** it does not access the rest of the memory *)
Lemma exec_away σ ρ c h hf n k o ρ' st' :
  R σ ρ h → h ##ₘ hf → pre C σ c → exec c ρ (State (h ∪ hf) n k) = Ok (o, ρ') st' → away ∅ hf k (st_cnt st').
Proof.
  intros HR Hd Hp He. pose proof (hprop_in_entails _ _ (exec_wp σ ρ c Hp) _ HR) as Hwp.
  rewrite wp_holds in Hwp. specialize (Hwp hf n k Hd (map_empty_subseteq hf)). rewrite He in Hwp. by destruct Hwp as (h' & _ & _ & Haw & _).
Qed.
Lemma exec_ok σ ρ c st :
  R σ ρ (st_heap st) → pre C σ c →
  ∃ o ρ' st' σ', exec c ρ st = Ok (o, ρ') st' ∧ step C σ c o σ' ∧ R σ' ρ' (st_heap st').
Proof.
  intros HR Hp. destruct st as [h n k].
  destruct (exec_frame σ ρ c h ∅ n k HR (map_disjoint_empty_r _) Hp) as (o & ρ' & st' & σ' & h' & He & Hs & Hd & Hst & HR').
  rewrite right_id_L in He. rewrite right_id_L in Hst. subst h'. by exists o, ρ', st', σ'.
Qed.

(** copies of an element of the same container *)
Lemma alias_ok σ ρ c st :
  R σ ρ (st_heap st) → pre_alias C σ ρ st c →
  ∃ o ρ' st' σ', exec c ρ st = Ok (o, ρ') st' ∧ step C σ c o σ' ∧ R σ' ρ' (st_heap st').
Proof.
  intros (τ & Ha & Hrep)%R_open Hp.
  assert (rep ρ τ ⊢ wp (exec c ρ) (post σ ρ c) (λ _, False)) as Hwp.
  { rewrite /exec -wp_try_catch. rewrite (alias_wp σ ρ st c τ Hp Ha Hrep). apply wp_mono; [done|].
    intros e. iIntros "H". by iApply wp_ret. }
  pose proof (hprop_in_entails _ _ Hwp _ Hrep) as H. rewrite wp_holds in H. destruct st as [h n k].
  specialize (H ∅ n k (map_disjoint_empty_r _) (map_empty_subseteq _)). rewrite right_id_L in H. simpl in H.
  destruct (exec c ρ (State h n k)) as [[o ρ'] st'|e st'|f]; [| |done].
  - destruct H as (h' & _ & Hst & _ & Hpost). rewrite /post in Hpost. apply exist_holds in Hpost as (σ' & Hpost).
    apply sep_holds in Hpost as (m1 & m2 & -> & Hdd & [Hs ->]%apure_holds & HR').
    rewrite left_id_L right_id_L in Hst. subst m2. by exists o, ρ', st', σ'.
  - destruct H as (h' & _ & _ & _ & Hf). by apply pure_holds in Hf.
Qed.

Theorem reachable_R σ ρ st : reachable σ ρ st → R σ ρ (st_heap st).
Proof.
  induction 1 as [n k|σ ρ st c o ρ' st' σ' Hr IH Hp He Hs Hc|σ ρ st c o ρ' st' σ' Hr IH Hp He Hs Hc|]; [| | |done].
  - by apply R_start.
  - destruct (exec_ok _ _ _ _ IH Hp) as (o1 & ρ1 & st1 & σ1 & He1 & Hs1 & HR1).
    rewrite He in He1. simplify_eq. rewrite (step_det C σ c o1 σ' σ1); [done..|].
    intros x. rewrite Hc. by rewrite (R_conts _ _ _ _ HR1).
  - destruct (alias_ok _ _ _ _ IH Hp) as (o1 & ρ1 & st1 & σ1 & He1 & Hs1 & HR1).
    rewrite He in He1. simplify_eq. rewrite (step_det C σ c o1 σ' σ1); [done..|].
    intros x. rewrite Hc. by rewrite (R_conts _ _ _ _ HR1).
Qed.
(** a reachable state describes the memory *)
Theorem reachable_conts σ ρ st x : reachable σ ρ st → conts σ !! x = container_at st ρ x.
Proof. intros H%reachable_R. by apply R_conts. Qed.
(** every call with a true precondition terminates without undefined behaviour,
    with a result the specification allows *)
Theorem call_ok σ ρ st c :
  reachable σ ρ st → pre C σ c →
  ∃ o ρ' st' σ', exec c ρ st = Ok (o, ρ') st' ∧ step C σ c o σ' ∧ reachable σ' ρ' st'.
Proof.
  intros Hr Hp. destruct (exec_ok _ _ _ _ (reachable_R _ _ _ Hr) Hp) as (o & ρ' & st' & σ' & He & Hs & HR).
  exists o, ρ', st', σ'. split_and!; [done..|]. econstructor; [done..|]. intros x. by apply R_conts.
Qed.
Theorem alias_call_ok σ ρ st c :
  reachable σ ρ st → pre_alias C σ ρ st c →
  ∃ o ρ' st' σ', exec c ρ st = Ok (o, ρ') st' ∧ step C σ c o σ' ∧ reachable σ' ρ' st'.
Proof.
  intros Hr Hp. destruct (alias_ok _ _ _ _ (reachable_R _ _ _ Hr) Hp) as (o & ρ' & st' & σ' & He & Hs & HR).
  exists o, ρ', st', σ'. split_and!; [done..|]. eapply reach_alias; [done..|]. intros x. by apply R_conts.
Qed.
Lemma call_inv σ ρ st c o ρ' st' :
  reachable σ ρ st → pre C σ c → exec c ρ st = Ok (o, ρ') st' →
  ∃ σ', step C σ c o σ' ∧ reachable σ' ρ' st'.
Proof.
  intros Hr Hp He. destruct (call_ok _ _ _ _ Hr Hp) as (o1 & ρ1 & st1 & σ' & He1 & Hs & Hr').
  rewrite He in He1. simplify_eq. by exists σ'.
Qed.
End sound.
