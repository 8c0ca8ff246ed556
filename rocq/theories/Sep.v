(** * Sep: separation logic for the monad of Base.v.
    Proof infrastructure only: nothing here models C++ code.
    [hprop] are predicates on (partial) heaps; an assertion that holds of the
    whole heap accounts for every allocated block, so leaks are visible. *)
From Verif Require Export Base.
From iris.bi Require Export bi.
From iris.proofmode Require Export proofmode.
From stdpp Require Import options.

Section hprop.
Context {T : Type}.
Implicit Types h : heap T.

Record hprop := HProp { hprop_holds :> heap T → Prop }.

Global Instance hprop_equiv : Equiv hprop := λ P Q, ∀ h, P h ↔ Q h.
Global Instance hprop_equivalence : Equivalence (≡@{hprop}).
Proof.
  split; repeat intro.
  - done.
  - symmetry. apply H.
  - etrans; [apply H|apply H0].
Qed.
Canonical Structure hpropO := discreteO hprop.

Record hprop_entails (P Q : hprop) : Prop := Entails { hprop_in_entails : ∀ h, P h → Q h }.
Local Definition hprop_emp_def : hprop := HProp (λ h, h = ∅).
Local Definition hprop_pure_def (φ : Prop) : hprop := HProp (λ _, φ).
Local Definition hprop_and_def (P Q : hprop) : hprop := HProp (λ h, P h ∧ Q h).
Local Definition hprop_or_def (P Q : hprop) : hprop := HProp (λ h, P h ∨ Q h).
Local Definition hprop_impl_def (P Q : hprop) : hprop := HProp (λ h, P h → Q h).
Local Definition hprop_forall_def {A} (Ψ : A → hprop) : hprop := HProp (λ h, ∀ a, Ψ a h).
Local Definition hprop_exist_def {A} (Ψ : A → hprop) : hprop := HProp (λ h, ∃ a, Ψ a h).
Local Definition hprop_sep_def (P Q : hprop) : hprop :=
  HProp (λ h, ∃ h1 h2, h = h1 ∪ h2 ∧ h1 ##ₘ h2 ∧ P h1 ∧ Q h2).
Local Definition hprop_wand_def (P Q : hprop) : hprop :=
  HProp (λ h, ∀ h', h ##ₘ h' → P h' → Q (h ∪ h')).
Local Definition hprop_persistently_def (P : hprop) : hprop := HProp (λ _, P ∅).

Local Definition hprop_emp_aux : seal hprop_emp_def. Proof. by eexists. Qed.
Definition hprop_emp := unseal hprop_emp_aux.
Local Definition hprop_emp_unseal : hprop_emp = hprop_emp_def := seal_eq _.
Local Definition hprop_pure_aux : seal hprop_pure_def. Proof. by eexists. Qed.
Definition hprop_pure := unseal hprop_pure_aux.
Local Definition hprop_pure_unseal : hprop_pure = hprop_pure_def := seal_eq _.
Local Definition hprop_and_aux : seal hprop_and_def. Proof. by eexists. Qed.
Definition hprop_and := unseal hprop_and_aux.
Local Definition hprop_and_unseal : hprop_and = hprop_and_def := seal_eq _.
Local Definition hprop_or_aux : seal hprop_or_def. Proof. by eexists. Qed.
Definition hprop_or := unseal hprop_or_aux.
Local Definition hprop_or_unseal : hprop_or = hprop_or_def := seal_eq _.
Local Definition hprop_impl_aux : seal hprop_impl_def. Proof. by eexists. Qed.
Definition hprop_impl := unseal hprop_impl_aux.
Local Definition hprop_impl_unseal : hprop_impl = hprop_impl_def := seal_eq _.
Local Definition hprop_forall_aux : seal (@hprop_forall_def). Proof. by eexists. Qed.
Definition hprop_forall {A} := unseal hprop_forall_aux A.
Local Definition hprop_forall_unseal : @hprop_forall = @hprop_forall_def := seal_eq _.
Local Definition hprop_exist_aux : seal (@hprop_exist_def). Proof. by eexists. Qed.
Definition hprop_exist {A} := unseal hprop_exist_aux A.
Local Definition hprop_exist_unseal : @hprop_exist = @hprop_exist_def := seal_eq _.
Local Definition hprop_sep_aux : seal hprop_sep_def. Proof. by eexists. Qed.
Definition hprop_sep := unseal hprop_sep_aux.
Local Definition hprop_sep_unseal : hprop_sep = hprop_sep_def := seal_eq _.
Local Definition hprop_wand_aux : seal hprop_wand_def. Proof. by eexists. Qed.
Definition hprop_wand := unseal hprop_wand_aux.
Local Definition hprop_wand_unseal : hprop_wand = hprop_wand_def := seal_eq _.
Local Definition hprop_persistently_aux : seal hprop_persistently_def. Proof. by eexists. Qed.
Definition hprop_persistently := unseal hprop_persistently_aux.
Local Definition hprop_persistently_unseal :
  hprop_persistently = hprop_persistently_def := seal_eq _.

Ltac unseal0 :=
  rewrite ?hprop_emp_unseal ?hprop_pure_unseal ?hprop_and_unseal ?hprop_or_unseal
    ?hprop_impl_unseal ?hprop_forall_unseal ?hprop_exist_unseal ?hprop_sep_unseal
    ?hprop_wand_unseal ?hprop_persistently_unseal;
  unfold hprop_emp_def, hprop_pure_def, hprop_and_def, hprop_or_def, hprop_impl_def,
    hprop_forall_def, hprop_exist_def, hprop_sep_def, hprop_wand_def,
    hprop_persistently_def; simpl.

Lemma hprop_bi_mixin :
  BiMixin hprop_entails hprop_emp hprop_pure hprop_and hprop_or hprop_impl
    (@hprop_forall) (@hprop_exist) hprop_sep hprop_wand hprop_persistently.
Proof.
  split.
  - split; [by intros P; split|]. intros P Q R [HPQ] [HQR]. split; intros h HP. by apply HQR, HPQ.
  - intros P Q. split.
    + intros H. split; split; intros h; apply H.
    + intros [[H1] [H2]] h. split; [apply H1|apply H2].
  - unseal0. intros n φ1 φ2 Hφ h. exact Hφ.
  - unseal0. intros n P1 P2 HP Q1 Q2 HQ h. simpl. pose proof (HP h). pose proof (HQ h). tauto.
  - unseal0. intros n P1 P2 HP Q1 Q2 HQ h. simpl. pose proof (HP h). pose proof (HQ h). tauto.
  - unseal0. intros n P1 P2 HP Q1 Q2 HQ h. simpl. pose proof (HP h). pose proof (HQ h). tauto.
  - unseal0. intros A n Φ1 Φ2 HΦ h. simpl. by split; intros H x; apply HΦ.
  - unseal0. intros A n Φ1 Φ2 HΦ h. simpl.
    by split; intros [x ?]; exists x; apply HΦ.
  - unseal0. intros n P1 P2 HP Q1 Q2 HQ h. simpl.
    split; intros (h1 & h2 & ? & ? & ? & ?); exists h1, h2;
      (split_and!; [done..|by apply HP|by apply HQ]).
  - unseal0. intros n P1 P2 HP Q1 Q2 HQ h. simpl.
    split; intros H h' ??; apply HQ, H; [done|by apply HP|done|by apply HP].
  - unseal0. intros n P1 P2 HP h. apply HP.
  - unseal0. intros φ P ?. split. intros h ?. done.
  - unseal0. intros φ P H. split; intros h ?. by apply H.
  - unseal0. by intros P Q; split; intros h [? ?].
  - unseal0. by intros P Q; split; intros h [? ?].
  - unseal0. intros P Q R [H1] [H2]. split; intros h ?. by split; [apply H1|apply H2].
  - unseal0. split. by left.
  - unseal0. split. by right.
  - unseal0. intros P Q R [H1] [H2]. split; intros h [?|?]; [by apply H1|by apply H2].
  - unseal0. intros P Q R [H]. split; intros h ??. by apply H.
  - unseal0. intros P Q R [H]. split; intros h [??]. by apply H.
  - unseal0. intros A P Ψ H. split; intros h ? a. by apply H.
  - unseal0. intros A Ψ a. split; intros h H. apply H.
  - unseal0. intros A Ψ a. split; intros h ?. by exists a.
  - unseal0. intros A Φ Q H. split; intros h [a ?]. by apply (H a).
  - unseal0. intros P P' Q Q' [HP] [HQ]. split; intros h (h1&h2&->&?&?&?).
    exists h1, h2. split_and!; [done..|by apply HP|by apply HQ].
  - unseal0. intros P. split; intros h HP. exists ∅, h. rewrite left_id_L.
    split_and!; try done. apply map_disjoint_empty_l.
  - unseal0. intros P. split; intros h (h1&h2&->&?&->&?). by rewrite left_id_L.
  - unseal0. intros P Q. split; intros h (h1&h2&->&?&?&?). exists h2, h1.
    rewrite map_union_comm; done.
  - unseal0. intros P Q R. split; intros h (h12&h3&->&Hd&(h1&h2&->&?&?&?)&?).
    apply map_disjoint_union_l in Hd as [??].
    exists h1, (h2 ∪ h3). rewrite assoc_L. split_and!; try done.
    { by apply map_disjoint_union_r. }
    by exists h2, h3.
  - unseal0. intros P Q R [H]. split; intros h HP h' ??. apply H. by exists h, h'.
  - unseal0. intros P Q R [H]. split; intros h (h1&h2&->&?&?&?). by apply H.
  - unseal0. intros P Q [H]. split; intros h ?. by apply H.
  - unseal0. done.
  - unseal0. done.
  - unseal0. done.
  - unseal0. done.
  - unseal0. by intros P Q; split; intros h (h1&h2&->&?&?&?).
  - unseal0. intros P Q. split; intros h [??]. exists ∅, h. rewrite left_id_L.
    split_and!; try done. apply map_disjoint_empty_l.
Qed.

Lemma hprop_bi_later_mixin :
  BiLaterMixin hprop_entails hprop_pure hprop_or hprop_impl
    (@hprop_forall) (@hprop_exist) hprop_sep hprop_persistently id.
Proof. eapply bi_later_mixin_id; [done|apply hprop_bi_mixin]. Qed.

Canonical Structure hpropI : bi :=
  {| bi_ofe_mixin := ofe_mixin_of hprop;
     bi_bi_mixin := hprop_bi_mixin; bi_bi_later_mixin := hprop_bi_later_mixin |}.

Global Instance hprop_pure_forall : BiPureForall hpropI.
Proof.
  intros A φ. split. intros h.
  change (hprop_forall (λ a, hprop_pure (φ a)) h → hprop_pure (∀ a, φ a) h).
  unseal0. done.
Qed.

Lemma hprop_entails_unseal (P Q : hprop) : (P ⊢ Q) ↔ ∀ h, P h → Q h.
Proof. split; [by intros [?]|by split]. Qed.
Lemma sep_holds (P Q : hprop) h :
  (P ∗ Q)%I h ↔ ∃ h1 h2, h = h1 ∪ h2 ∧ h1 ##ₘ h2 ∧ P h1 ∧ Q h2.
Proof. change (hprop_sep P Q h ↔ ∃ h1 h2, h = h1 ∪ h2 ∧ h1 ##ₘ h2 ∧ P h1 ∧ Q h2). by unseal0. Qed.
Lemma wand_holds (P Q : hprop) h : (P -∗ Q)%I h ↔ ∀ h', h ##ₘ h' → P h' → Q (h ∪ h').
Proof. change (hprop_wand P Q h ↔ ∀ h', h ##ₘ h' → P h' → Q (h ∪ h')). by unseal0. Qed.
Lemma and_holds (P Q : hprop) h : (P ∧ Q)%I h ↔ P h ∧ Q h.
Proof. change (hprop_and P Q h ↔ P h ∧ Q h). by unseal0. Qed.
Lemma impl_holds (P Q : hprop) h : (P → Q)%I h ↔ (P h → Q h).
Proof. change (hprop_impl P Q h ↔ (P h → Q h)). by unseal0. Qed.
Lemma or_holds (P Q : hprop) h : (P ∨ Q)%I h ↔ P h ∨ Q h.
Proof. change (hprop_or P Q h ↔ P h ∨ Q h). by unseal0. Qed.
Lemma forall_holds {A} (Ψ : A → hprop) h : (∀ a, Ψ a)%I h ↔ ∀ a, Ψ a h.
Proof. change (hprop_forall Ψ h ↔ ∀ a, Ψ a h). by unseal0. Qed.
Lemma exist_holds {A} (Ψ : A → hprop) h : (∃ a, Ψ a)%I h ↔ ∃ a, Ψ a h.
Proof. change (hprop_exist Ψ h ↔ ∃ a, Ψ a h). by unseal0. Qed.
Lemma pure_holds (φ : Prop) h : hprop_holds (⌜φ⌝)%I h ↔ φ.
Proof. change (hprop_pure φ h ↔ φ). by unseal0. Qed.
Lemma emp_holds h : hprop_holds emp%I h ↔ h = ∅.
Proof. change (hprop_emp h ↔ h = ∅). by unseal0. Qed.
Lemma apure_holds (φ : Prop) h : hprop_holds (<affine> ⌜φ⌝)%I h ↔ φ ∧ h = ∅.
Proof. rewrite /bi_affinely and_holds emp_holds pure_holds. tauto. Qed.

(** ** Points-to *)
Local Definition pointsto_def (l : loc) (o : obj T) : hprop := HProp (λ h, h = {[l := o]}).
Local Definition pointsto_aux : seal pointsto_def. Proof. by eexists. Qed.
Definition pointsto := unseal pointsto_aux.
Local Definition pointsto_unseal : pointsto = pointsto_def := seal_eq _.
Lemma pointsto_holds l o h : pointsto l o h ↔ h = {[l := o]}.
Proof. by rewrite pointsto_unseal. Qed.

(** at least [k] blocks are owned *)
Definition szge (k : nat) : hprop := HProp (λ h, k ≤ size h).
Lemma szge_holds k h : szge k h ↔ k ≤ size h.
Proof. done. Qed.
Global Instance szge_absorbing k : Absorbing (szge k).
Proof.
  rewrite /Absorbing /bi_absorbingly. split; intros h (h1&h2&->&Hd&_&Hk)%sep_holds.
  rewrite szge_holds in Hk. rewrite szge_holds map_size_disj_union //. lia.
Qed.
Lemma szge_0 P : P ⊢ szge 0.
Proof. split; intros h _. apply szge_holds. lia. Qed.
Lemma szge_sep j k : szge j ∗ szge k ⊢ szge (j + k).
Proof.
  split; intros h (h1&h2&->&Hd&H1&H2)%sep_holds. rewrite szge_holds in H1. rewrite szge_holds in H2.
  rewrite szge_holds map_size_disj_union //. lia.
Qed.
Lemma szge_pointsto l o : pointsto l o ⊢ szge 1.
Proof. split; intros h ->%pointsto_holds. rewrite szge_holds map_size_singleton. done. Qed.
Lemma szge_le j k : k ≤ j → szge j ⊢ szge k.
Proof. intros ?. split; intros h. rewrite !szge_holds. lia. Qed.
End hprop.
Global Arguments hprop _ : clear implicits.
Global Arguments hpropI _ : clear implicits.

Notation "l ↦ o" := (pointsto l o) (at level 20, format "l  ↦  o") : bi_scope.
Notation "⟦ φ ⟧" := (bi_affinely (bi_pure φ%nat%type%stdpp)) (format "⟦ φ ⟧") : bi_scope.

(** ** Weakest preconditions: total correctness up to exceptions, no fault.
    The program has the owned blocks to itself, may read the frozen blocks and does
    not access any other block that was there before. *)
Record frozen (T : Type) := Freeze { fz : heap T }.
Existing Class frozen.
Global Arguments Freeze {_} _.
Global Arguments fz {_} _.
Global Instance no_frozen {T} : frozen T | 100 := Freeze ∅.

Section wp.
Context {T : Type} {F : frozen T}.

(** from [k] to [k'], blocks of [hf] are not accessed, except that those of [f] are read *)
Definition away (f hf : heap T) (k k' : counters) : Prop :=
  ∃ tr, n_log k' = tr ++ n_log k ∧
    ∀ a, a ∈ tr → hf !! addr a = None ∨ (a = ARead (addr a) ∧ is_Some (f !! addr a)).
Lemma away_same f hf k k' : n_log k' = n_log k → away f hf k k'.
Proof. intros E. exists []. split; [done|]. intros a Ha. by apply elem_of_nil in Ha. Qed.
Lemma away_refl f hf k : away f hf k k.
Proof. by apply away_same. Qed.
Lemma away_trans f hf k1 k2 k3 : away f hf k1 k2 → away f hf k2 k3 → away f hf k1 k3.
Proof.
  intros (t1 & E1 & H1) (t2 & E2 & H2). exists (t2 ++ t1). split; [by rewrite E2 E1 assoc_L|].
  intros a [Ha|Ha]%elem_of_app; auto.
Qed.
Lemma away_sub f hf hf' k k' : hf' ⊆ hf → away f hf k k' → away f hf' k k'.
Proof.
  intros Hs (t & E1 & H1). exists t. split; [done|]. intros a Ha. destruct (H1 a Ha) as [H|H]; [left|by right].
  eapply lookup_weaken_None; eauto.
Qed.
Lemma away_one f hf k k' a : n_log k' = a :: n_log k → hf !! addr a = None → away f hf k k'.
Proof. intros He Hn. exists [a]. split; [done|]. intros a' ->%elem_of_list_singleton. by left. Qed.
Hint Extern 0 (away _ _ _ _) => apply away_same; reflexivity : core.

Local Definition wp_def {A} (m : M T A) (Q : A → hprop T) (E : exn → hprop T) : hprop T :=
  HProp (λ h, ∀ hf clk cnt, h ##ₘ hf → fz F ⊆ hf →
    match m (State (h ∪ hf) clk cnt) with
    | Ok a st => ∃ h', h' ##ₘ hf ∧ st_heap st = h' ∪ hf ∧ away (fz F) hf cnt (st_cnt st) ∧ Q a h'
    | Throw e st => ∃ h', h' ##ₘ hf ∧ st_heap st = h' ∪ hf ∧ away (fz F) hf cnt (st_cnt st) ∧ E e h'
    | Fault _ => False
    end).
Local Definition wp_aux : seal (@wp_def). Proof. by eexists. Qed.
Definition wp {A} := unseal wp_aux A.
Local Definition wp_unseal : @wp = @wp_def := seal_eq _.

Lemma wp_holds {A} (m : M T A) Q E h :
  wp m Q E h ↔ ∀ hf clk cnt, h ##ₘ hf → fz F ⊆ hf →
    match m (State (h ∪ hf) clk cnt) with
    | Ok a st => ∃ h', h' ##ₘ hf ∧ st_heap st = h' ∪ hf ∧ away (fz F) hf cnt (st_cnt st) ∧ Q a h'
    | Throw e st => ∃ h', h' ##ₘ hf ∧ st_heap st = h' ∪ hf ∧ away (fz F) hf cnt (st_cnt st) ∧ E e h'
    | Fault _ => False
    end.
Proof. by rewrite wp_unseal. Qed.

Lemma wp_wand {A} (m : M T A) Q Q' E E' :
  wp m Q E ⊢ ((∀ a, Q a -∗ Q' a) ∧ (∀ e, E e -∗ E' e)) -∗ wp m Q' E'.
Proof.
  split; intros h Hwp. rewrite wand_holds. intros h2 Hd2 HQ.
  rewrite wp_holds in Hwp. rewrite wp_holds. intros hf clk cnt Hd HF.
  apply map_disjoint_union_l in Hd as [Hd1 Hd3].
  specialize (Hwp (h2 ∪ hf) clk cnt). rewrite assoc_L in Hwp.
  assert (fz F ⊆ h2 ∪ hf) as HF2. { etrans; [exact HF|]. by apply map_union_subseteq_r. }
  apply and_holds in HQ as [HQ HE].
  assert (∀ (P P' : hprop T) g h' k', (P -∗ P')%I h2 → h' ##ₘ h2 ∪ hf → g = h' ∪ (h2 ∪ hf) → away (fz F) (h2 ∪ hf) cnt k' → P h' →
    ∃ h'', h'' ##ₘ hf ∧ g = h'' ∪ hf ∧ away (fz F) hf cnt k' ∧ P' h'') as Hfr.
  { intros P P' g h' k' HPP Hdd -> Haw HP. apply map_disjoint_union_r in Hdd as [Hda Hdb].
    exists (h2 ∪ h'). split_and!.
    - by apply map_disjoint_union_l.
    - rewrite assoc_L. f_equal. by apply map_union_comm.
    - eapply away_sub; [|exact Haw]. by apply map_union_subseteq_r.
    - rewrite wand_holds in HPP. apply HPP; [by symmetry|done]. }
  destruct (m _) as [a st|e st|f].
  - destruct Hwp as (h'&Hdd&Heq&Haw&Hq); [by apply map_disjoint_union_r|done|].
    eapply Hfr; try done. rewrite forall_holds in HQ. apply HQ.
  - destruct Hwp as (h'&Hdd&Heq&Haw&Hq); [by apply map_disjoint_union_r|done|].
    eapply Hfr; try done. rewrite forall_holds in HE. apply HE.
  - apply Hwp; [by apply map_disjoint_union_r|done].
Qed.

Lemma wp_ret {A} (a : A) (Q : A → hprop T) E : Q a ⊢ wp (mret a) Q E.
Proof. split; intros h HQ. rewrite wp_holds. intros hf clk cnt Hd HF. simpl. by exists h. Qed.
Lemma wp_throw {A} e (Q : A → hprop T) E : E e ⊢ wp (throw e) Q E.
Proof. split; intros h HQ. rewrite wp_holds. intros hf clk cnt Hd HF. simpl. by exists h. Qed.
Lemma wp_after {A} (r : res T A) hf k k' Q E :
  away (fz F) hf k k' →
  match r with
  | Ok a st => ∃ h', h' ##ₘ hf ∧ st_heap st = h' ∪ hf ∧ away (fz F) hf k' (st_cnt st) ∧ Q a h'
  | Throw e st => ∃ h', h' ##ₘ hf ∧ st_heap st = h' ∪ hf ∧ away (fz F) hf k' (st_cnt st) ∧ E e h'
  | Fault _ => False
  end →
  match r with
  | Ok a st => ∃ h' : heap T, h' ##ₘ hf ∧ st_heap st = h' ∪ hf ∧ away (fz F) hf k (st_cnt st) ∧ (Q a h' : Prop)
  | Throw e st => ∃ h', h' ##ₘ hf ∧ st_heap st = h' ∪ hf ∧ away (fz F) hf k (st_cnt st) ∧ (E e h' : Prop)
  | Fault _ => False
  end.
Proof.
  intros Haw. destruct r as [a st|e st|f]; [| |done]; intros (h' & ? & ? & ? & ?); exists h';
    (split_and!; [done..|by eapply away_trans|done]).
Qed.
Lemma wp_bind {A B} (m : M T A) (k : A → M T B) Q E :
  wp m (λ a, wp (k a) Q E) E ⊢ wp (m ≫= k) Q E.
Proof.
  split; intros h. rewrite !wp_holds. intros Hm hf clk cnt Hd HF. specialize (Hm hf clk cnt Hd HF).
  rewrite /mbind /M_bind. destruct (m _) as [a [g clk' cnt']|e st|f]; try done.
  destruct Hm as (h'&Hd'&Heq&Haw&Hk). simpl in Heq, Haw. subst g. rewrite wp_holds in Hk.
  specialize (Hk hf clk' cnt' Hd' HF). eapply wp_after; [exact Haw|exact Hk].
Qed.
Lemma wp_try_catch {A} (m : M T A) (k : exn → M T A) Q E :
  wp m Q (λ e, wp (k e) Q E) ⊢ wp (try_catch m k) Q E.
Proof.
  split; intros h. rewrite !wp_holds. intros Hm hf clk cnt Hd HF. specialize (Hm hf clk cnt Hd HF).
  rewrite /try_catch. destruct (m _) as [a [g clk' cnt']|e [g clk' cnt']|f]; try done.
  destruct Hm as (h'&Hd'&Heq&Haw&Hk). simpl in Heq, Haw. subst g. rewrite wp_holds in Hk.
  specialize (Hk hf clk' cnt' Hd' HF). eapply wp_after; [exact Haw|exact Hk].
Qed.
Lemma wp_eq {A} (m m' : M T A) Q E : (∀ st, m st = m' st) → wp m Q E ⊢ wp m' Q E.
Proof. intros Heq. split; intros h. rewrite !wp_holds. intros H hf clk cnt Hd HF. rewrite -Heq. by apply H. Qed.

Lemma wp_mono {A} (m : M T A) Q Q' E E' :
  (∀ a, Q a ⊢ Q' a) → (∀ e, E e ⊢ E' e) → wp m Q E ⊢ wp m Q' E'.
Proof.
  intros HQ HE. iIntros "H". iApply (wp_wand with "H"). iSplit.
  - iIntros (a) "H". by iApply HQ.
  - iIntros (a) "H". by iApply HE.
Qed.

(** ** Memory *)
Lemma wp_load l o (Q : loc * obj T → hprop T) E :
  l ↦ o -∗ (l ↦ o -∗ Q (l, o)) -∗ wp (load (Some l)) Q E.
Proof.
  split; intros h Hl. rewrite pointsto_holds in Hl. subst. rewrite wand_holds. intros h' Hd HQ.
  rewrite wp_holds. intros hf clk cnt Hd' HF. rewrite /load /=.
  assert (({[l := o]} ∪ h' ∪ hf) !! l = Some o) as ->.
  { rewrite -assoc_L. apply lookup_union_Some_l, lookup_singleton. }
  eexists. split; [exact Hd'|]. split; [done|].
  split; [apply (away_one _ _ _ _ (ARead l)); [done|]; eapply map_disjoint_Some_l; [exact Hd'|];
    apply lookup_union_Some_l, lookup_singleton|].
  rewrite wand_holds in HQ. rewrite (map_union_comm _ h'); [|done]. apply HQ; [by symmetry|].
  by rewrite pointsto_holds.
Qed.
Lemma wp_store l o o' (Q : unit → hprop T) E :
  l ↦ o -∗ (l ↦ o' -∗ Q ()) -∗ wp (store l o') Q E.
Proof.
  split; intros h Hl. rewrite pointsto_holds in Hl. subst. rewrite wand_holds. intros h' Hd HQ.
  rewrite wp_holds. intros hf clk cnt Hd' HF. rewrite /store /=.
  exists (h' ∪ {[l := o']}).
  apply map_disjoint_union_l in Hd' as [Hd1 Hd2].
  assert (h' ##ₘ {[l := o']}) as Hd3.
  { apply map_disjoint_singleton_r. by apply map_disjoint_singleton_l in Hd. }
  split_and!.
  - apply map_disjoint_union_l; split; [done|]. apply map_disjoint_singleton_l.
    by apply map_disjoint_singleton_l in Hd1.
  - rewrite -assoc_L !insert_union_l insert_singleton.
    rewrite (map_union_comm h' {[l:=o']}) // assoc_L //.
  - apply (away_one _ _ _ _ (AWrite l)); [done|]. by apply map_disjoint_singleton_l in Hd1.
  - rewrite wand_holds in HQ. apply HQ; [done|]. by rewrite pointsto_holds.
Qed.
Lemma wp_free l o (Q : unit → hprop T) E :
  l ↦ o -∗ Q () -∗ wp (free l) Q E.
Proof.
  split; intros h Hl. rewrite pointsto_holds in Hl. subst. rewrite wand_holds. intros h' Hd HQ.
  rewrite wp_holds. intros hf clk cnt Hd' HF. rewrite /free /=.
  apply map_disjoint_union_l in Hd' as [Hd1 Hd2].
  exists h'. split_and!; [done| | |done].
  2: { apply (away_one _ _ _ _ (AWrite l)); [done|]. by apply map_disjoint_singleton_l in Hd1. }
  apply map_disjoint_singleton_l in Hd. apply map_disjoint_singleton_l in Hd1.
  rewrite -assoc_L delete_union delete_singleton left_id_L delete_notin //.
  apply lookup_union_None_2; done.
Qed.

Lemma wp_heap_fuel k (Q : nat → hprop T) E :
  szge k ∧ (∀ n, ⌜k < n⌝ → Q n) ⊢ wp heap_fuel Q E.
Proof.
  split; intros h. rewrite and_holds forall_holds szge_holds. intros [Hk HQ].
  rewrite wp_holds. intros hf clk cnt Hd HF. rewrite /heap_fuel /=.
  exists h. split_and!; try done. rewrite map_size_disj_union //.
  specialize (HQ (S (size h + size hf))).
  rewrite impl_holds pure_holds in HQ. apply HQ. lia.
Qed.

(** no two owned blocks share an address *)
Lemma pointsto_ne l l' (o o' : obj T) : l ↦ o -∗ l' ↦ o' -∗ ⌜l ≠ l'⌝.
Proof.
  apply bi.wand_intro_r.
  split; intros h (h1&h2&->&Hd&->%pointsto_holds&->%pointsto_holds)%sep_holds.
  rewrite pure_holds. intros ->. apply map_disjoint_singleton_l in Hd.
  by rewrite lookup_singleton in Hd.
Qed.
End wp.
Global Hint Extern 0 (away _ _ _ _) => apply away_same; reflexivity : core.
