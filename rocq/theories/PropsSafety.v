(** * C20-C23: exception safety, clear *)
From Verif Require Export Track PropsIter.
From stdpp Require Import options.
Set Default Proof Using "Type*".

Section props.
Context {T : Type} {C : cfg T} {OK : cfg_ok C}.
Implicit Types σ : sst T.
Implicit Types ρ : env.
Implicit Types st : state T.
Implicit Types c : cmd T.
Implicit Types xs ys : list T.
Notation reachable := (reachable C).
Notation reached := (reached C).
Notation iterator_at := (iterator_at C).
Notation answers := (answers C).
Notation failed := (failed C).
Notation exec := (exec (C:=C)).

(** an iterator into a container that is not empty is an iterator into no other container *)
Lemma iterator_unique ρ st w x p y q xs a :
  reached ρ st → container_at st ρ x = Some (xs, a) → xs ≠ [] →
  iterator_at st ρ w x p → iterator_at st ρ w y q → x = y ∧ p = q.
Proof.
  intros Hr Hc Hne Hx Hy.
  destruct (iterator_elim _ _ _ _ _ Hr Hx) as (o1 & a1 & l1 & it & Hl1 & Ho1 & Hi1 & Hok1 & Hp1 & Hc1).
  rewrite Hc in Hc1. injection Hc1 as -> ->.
  destruct (iterator_elim _ _ _ _ _ Hr Hy) as (o2 & a2 & l2 & it2 & Hl2 & Ho2 & Hi2 & Hok2 & Hp2 & Hc2).
  rewrite Hi1 in Hi2. injection Hi2 as <-. split; [|congruence].
  destruct o1 as [t1|]; [|done]. destruct (it_ok_segment t1 it Hok1) as (A1 & k1 & xs1 & B1 & E1 & En1 & _).
  destruct o2 as [t2|]; [|by rewrite (it_ok_nil _ Hok2) in En1].
  destruct (it_ok_segment t2 it Hok2) as (A2 & k2 & xs2 & B2 & E2 & En2 & _).
  rewrite En1 in En2. injection En2 as <- _.
  destruct (decide (x = y)) as [|Hxy]; [done|exfalso].
  destruct (C19_ownership ρ st x _ _ _ Hr Hc Hl1) as (_ & Hd & _).
  eapply (Hd y l2 k1); [done|by rewrite Hc2|done| |].
  - right. rewrite (lives_blocks _ _ _ _ _ _ Hl2 Ho2). cbn [olocs]. rewrite tlocs_split E2 fmap_app.
    apply elem_of_app. right. apply elem_of_app. right. left.
  - right. rewrite (lives_blocks _ _ _ _ _ _ Hl1 Ho1). cbn [olocs]. rewrite tlocs_split E1 fmap_app.
    apply elem_of_app. right. apply elem_of_app. right. left.
Qed.
Lemma add_iter σ ρ st w x p :
  reachable σ ρ st → iterator_at st ρ w x p →
  ∃ σ', reachable σ' ρ st ∧ at_it σ' w x p ∧ conts σ' = conts σ ∧
    ∀ w1 y q, at_it σ w1 y q → contents σ x ≠ [] ∨ contents σ y ≠ [] → at_it σ' w1 y q.
Proof.
  intros Hr Hw. exists (point w x p σ). destruct (reached_point _ _ _ _ _ _ Hr Hw) as [Hr' Hat].
  split_and!; [done|done|done|]. intros w1 y q Hy Hn. destruct (decide (w = w1)) as [<-|]; [|by apply at_point].
  pose proof (canonical _ _ _ _ _ _ Hr Hy) as Hy'.
  assert (∀ z, contents σ z ≠ [] → ∃ zs a, container_at st ρ z = Some (zs, a) ∧ zs ≠ []) as Hcz.
  { intros z Hz. rewrite /contents (reachable_conts _ _ _ z Hr) in Hz. destruct (container_at st ρ z) as [[zs a]|]; [|done]. eauto. }
  destruct Hn as [Hn|Hn]; destruct (Hcz _ Hn) as (zs & a & Hc & Hne).
  - destruct (iterator_unique ρ st w x p y q zs a) as [<- <-]; [by exists σ|done..].
  - destruct (iterator_unique ρ st w y q x p zs a) as [-> ->]; [by exists σ|done..].
Qed.

(** the argument [s] denotes the value [v]: from outside, or an element of some container *)
Definition arg_holds st ρ (s : arg T) (v : T) : Prop :=
  match s with
  | AVal u => u = v
  | ARef w | AMove w => ∃ y i ys b, iterator_at st ρ w y i ∧ container_at st ρ y = Some (ys, b) ∧ ys !! i = Some v
  end.
(** [c] inserts one element into [x] *)
Definition inserts st ρ c x (s : arg T) : Prop :=
  c = PushBack x s ∨ c = PushFront x s ∨ ∃ w w' p, c = InsertOne x w s w' ∧ iterator_at st ρ w x p.
Lemma inserts_pre σ ρ st c x s v xs a :
  reachable σ ρ st → container_at st ρ x = Some (xs, a) → length xs + 1 < c_W C → inserts st ρ c x s → arg_holds st ρ s v →
  ∃ σ', reachable σ' ρ st ∧ pre C σ' c ∧ arg_value σ' s = Some v.
Proof.
  intros Hr Hc Hf Hi Hs.
  assert (∃ σ1, reachable σ1 ρ st ∧ arg_value σ1 s = Some v ∧ (arg_uses s ≠ [] → ∃ w y i, arg_uses s = [w] ∧ at_it σ1 w y i ∧ contents σ1 y ≠ [])) as (σ1 & Hr1 & Hv1 & Hu1).
  { destruct s as [u|w|w]; simpl in *.
    - subst. by exists σ.
    - destruct Hs as (y & i & ys & b & Hw & Hy & Hv). destruct (add_iter _ _ _ _ _ _ Hr Hw) as (σ1 & Hr1 & Hat & _).
      pose proof (see _ _ _ _ _ _ Hr1 Hy) as Hcy. visible Hcy. exists σ1. split_and!; [done| |].
      + rewrite /deref Hat /= H //.
      + intros _. exists w, y, i. split_and!; [done|done|]. rewrite H. by destruct ys.
    - destruct Hs as (y & i & ys & b & Hw & Hy & Hv). destruct (add_iter _ _ _ _ _ _ Hr Hw) as (σ1 & Hr1 & Hat & _).
      pose proof (see _ _ _ _ _ _ Hr1 Hy) as Hcy. visible Hcy. exists σ1. split_and!; [done| |].
      + rewrite /deref Hat /= H //.
      + intros _. exists w, y, i. split_and!; [done|done|]. rewrite H. by destruct ys. }
  pose proof (see _ _ _ _ _ _ Hr1 Hc) as Hcs. visible Hcs.
  destruct Hi as [->|[->|(w & w' & p & -> & Hw)]].
  - exists σ1. split_and!; [done| |done]. split_and!; [done|by rewrite Hv1|]. by rewrite /fits H.
  - exists σ1. split_and!; [done| |done]. split_and!; [done|by rewrite Hv1|]. by rewrite /fits H.
  - destruct (add_iter _ _ _ _ _ _ Hr1 Hw) as (σ2 & Hr2 & Hat & Hcn & Hk). exists σ2.
    assert (arg_value σ2 s = Some v) as Hv2.
    { destruct (arg_uses s) as [|w1 u] eqn:Eu; [by destruct s|].
      destruct Hu1 as (w2 & y & i & [= <- ->] & Hat2 & Hne); [done|].
      pose proof (Hk _ _ _ Hat2 ltac:(by right)) as Hat3.
      destruct s as [?|w3|w3]; simpl in *; [done|..]; injection Eu as ->; rewrite /deref Hat2 /= in Hv1; rewrite /deref Hat3 /=;
        by rewrite /contents Hcn. }
    split_and!; [done| |done]. exists p. split_and!; [done|by rewrite Hv2|].
    rewrite /fits /contents Hcn -/(contents σ1 x) H //.
Qed.

(** ** C20: a single insertion that throws has no effect *)
Theorem C20_strong ρ st c x s v xs a e ρ' st' :
  reached ρ st → container_at st ρ x = Some (xs, a) → length xs + 1 < c_W C →
  inserts st ρ c x s → arg_holds st ρ s v →
  exec c ρ st = Ok (OExn e, ρ') st' →
  (* it is the environment that failed, the client's variables are as before *)
  raisable C e ∧ ρ' = ρ ∧ reached ρ st' ∧
  (* no memory leaked, every container is stored in the same blocks *)
  dom (st_heap st') = dom (st_heap st) ∧
  (∀ y, index_nodes st' ρ y = index_nodes st ρ y ∧ places st' ρ y = places st ρ y) ∧
  (* every iterator is still valid *)
  (∀ w y p, iterator_at st ρ w y p → iterator_at st' ρ w y p) ∧
  (* no element has changed, except that an allocation failure comes after an
     argument given as an rvalue has been moved from *)
  (∀ y, (match s with AMove w => e = EUser ∨ (∀ i, ¬ iterator_at st ρ w y i) | _ => True end) →
     container_at st' ρ y = container_at st ρ y ∧ segments st' ρ y = segments st ρ y) ∧
  (∀ w y i ys b, s = AMove w → iterator_at st ρ w y i → container_at st ρ y = Some (ys, b) → ys ≠ [] →
     e = EUser ∧ container_at st' ρ y = Some (ys, b) ∨
     e = EAlloc ∧ container_at st' ρ y = Some (<[i := c_residue C v]> ys, b)).
Proof.
  intros [σ0 Hr0] Hc Hf Hi Hs He. pose proof (throw_env _ _ _ _ _ _ He) as ->.
  destruct (inserts_pre _ _ _ _ _ _ _ _ _ Hr0 Hc Hf Hi Hs) as (σ & Hr & Hp & Hv).
  destruct (call_inv _ _ _ _ _ _ _ Hr Hp He) as (σ' & Hst & Hr').
  assert (∃ after p, insert_step C σ x p s after (OExn e) σ') as (after & p & v' & Hv' & Hst').
  { destruct Hi as [->|[->|(w & w' & p & -> & Hw)]]; [by eexists _, _..|]. destruct Hst as (p' & _ & Hst). by eexists _, _. }
  rewrite Hv in Hv'. injection Hv' as <-.
  assert (raisable C e ∧ (e = EUser ∧ σ' = σ ∨ e = EAlloc ∧ σ' = arg_used C σ s)) as [Hra Hσ].
  { destruct Hst' as [[Ho _]|[[[[= ->] ?] ->]|[[[= ->] ?] ->]]]; [done|..]; auto. }
  clear Hst Hst'. pose proof (reachable_open _ _ _ Hr) as (τ & Ha & Hrep).
  destruct (track_ok ρ τ c _ _ st (OExn e) ρ st' Hrep (insert_throw σ ρ τ c ltac:(by destruct Hi as [->|[->|(?&?&?&->&_)]]) Hp Ha) He) as [Hn|(e' & _ & _ & Hk)].
  { apply pure_holds in Hn. by destruct (Hn e). }
  apply kept_holds in Hk as (τ' & Hsh & Hrep').
  assert (∀ y, τ !! y = None ↔ τ' !! y = None) as Hdom.
  { pose proof (abs_env _ _ _ Ha) as He1. pose proof (rep_fp ρ τ' _ Hrep') as _.
    intros y. split.
    - intros Hy. destruct (τ' !! y) as [[o' a']|] eqn:E; [|done]. exfalso.
      destruct (rep_lives _ _ _ _ _ _ Hrep' E) as (l & Hl & _). apply eq_None_not_Some in Hy. apply Hy, He1. by exists l.
    - intros Hy. destruct (τ !! y) as [[o' a']|] eqn:E; [|done]. destruct (Hsh _ _ _ E) as (o2 & Ho2 & _). congruence. }
  assert (∀ y, index_nodes st' ρ y = index_nodes st ρ y ∧ places st' ρ y = places st ρ y) as Hmem.
  { unfold places. intros y. destruct (τ !! y) as [[o b]|] eqn:Ey.
    - destruct (Hsh _ _ _ Ey) as (o' & Ey' & Ho).
      destruct (trees_memory ρ τ st y o b ρ τ' st' y o' b Hrep Hrep' Ey Ey' Ho) as [Hn (ss & ss' & -> & -> & Hss & _)].
      split; [done|]. simpl. by rewrite Hss.
    - assert (e_cont ρ !! y = None) as Hl.
      { apply eq_None_not_Some. intros Hl%(abs_env _ _ _ Ha). rewrite Ey in Hl. by destruct Hl. }
      by rewrite /index_nodes /segments /seq_at Hl. }
  assert (∀ y, container_at st' ρ y = container_at st ρ y → segments st' ρ y = segments st ρ y) as Hsegs.
  { intros y E. destruct (Hmem y) as [_ Hsh']. unfold places in Hsh'. destruct (segments st ρ y) as [ss|] eqn:E1, (segments st' ρ y) as [ss'|] eqn:E2; try done.
    f_equal. simpl in Hsh'. injection Hsh' as Hsh'. apply shape_segments; [done|].
    rewrite /container_at E1 E2 /= in E. rewrite /segments in E1 E2.
    destruct (seq_at st ρ y) as [s1|], (seq_at st' ρ y) as [s2|]; try done. simpl in E. by injection E as ->. }
  assert (∀ w y i ys b, s = AMove w → iterator_at st ρ w y i → container_at st ρ y = Some (ys, b) → ys ≠ [] →
     at_it σ w y i ∧ ys !! i = Some v) as Hmv.
  { intros w y i ys b -> Hw Hy Hne. simpl in Hs. destruct Hs as (y1 & i1 & ys1 & b1 & Hw1 & Hy1 & Hv1).
    destruct (iterator_unique ρ st w y i y1 i1 ys b) as [<- <-]; [by exists σ|done|done|done|done|].
    rewrite Hy in Hy1. injection Hy1 as <- <-. split; [|done].
    simpl in Hv. rewrite /deref in Hv. destruct (iters σ !! w) as [[y2 i2]|] eqn:E; [|done].
    pose proof (canonical _ _ _ w y2 i2 Hr E) as Hw2.
    destruct (iterator_unique ρ st w y i y2 i2 ys b) as [<- <-]; [by exists σ|done..]. }
  split_and!; [done|done|by exists σ'| |done| | |].
  - apply set_eq. intros k. rewrite !elem_of_dom.
    rewrite (C19_inventory ρ st' k (ex_intro _ σ' Hr')) (C19_inventory ρ st k (ex_intro _ σ Hr)).
    apply exist_proper. intros y. f_equiv.
    + rewrite -(reachable_conts _ _ _ _ Hr') -(reachable_conts _ _ _ _ Hr).
      destruct Hσ as [[-> ->]|[-> ->]]; [done|]. destruct s as [|w|w]; [done|done|]. simpl.
      destruct (iters σ !! w) as [[z i]|] eqn:E; [|done]. rewrite /write /=.
      destruct (decide (z = y)) as [->|]; [|by rewrite lookup_insert_ne]. rewrite lookup_insert.
      split; [|by eauto]. intros _. simpl in Hv. rewrite /deref E /= /contents in Hv. destruct (conts σ !! y); [by eauto|done].
    + f_equiv. destruct (Hmem y) as [Hn Hsg]. unfold places in Hsg. rewrite /blocks_of Hn.
      assert ((default [] (segments st' ρ y)).*1 = (default [] (segments st ρ y)).*1) as ->; [|done].
      destruct (segments st' ρ y) as [s1|], (segments st ρ y) as [s2|]; try done. simpl in *. injection Hsg as Hsg.
      assert ((layout s1).*1 = (layout s2).*1) as E by by rewrite Hsg. rewrite /layout -!list_fmap_compose in E. done.
  - intros w y q Hw. destruct (iterator_elim _ _ _ _ _ (ex_intro _ σ Hr) Hw) as (o & b & l & it & Hl & Ho & _ & _ & _ & Hcy).
    destruct (rep_has _ _ _ _ _ _ Hrep Hcy (abs_env _ _ _ Ha)) as (o1 & l1 & Ey & _). destruct (Hsh _ _ _ Ey) as (o' & Ey' & Hos).
    eapply (trees_iter ρ τ st y o1 b ρ τ' st' y o' b w q); [by exists σ|by exists σ'|done..].
  - intros y Hy. assert (container_at st' ρ y = container_at st ρ y) as E; [|split; [done|by apply Hsegs]].
    rewrite -(reachable_conts _ _ _ _ Hr') -(reachable_conts _ _ _ _ Hr).
    destruct Hσ as [[-> ->]|[-> ->]]; [done|]. destruct s as [|w|w]; [done|done|]. simpl.
    destruct Hy as [Hy|Hy]; [done|]. destruct (iters σ !! w) as [[z i]|] eqn:E; [|done]. rewrite /write /=.
    rewrite lookup_insert_ne //. intros ->. eapply Hy. by eapply canonical.
  - intros w y i ys b -> Hw Hy Hne. destruct (Hmv w y i ys b eq_refl Hw Hy Hne) as [Hat Hi'].
    pose proof (see _ _ _ _ _ _ Hr Hy) as Hcy. visible Hcy.
    destruct Hσ as [[-> ->]|[-> ->]]; [left|right]; (split; [done|]).
    + by rewrite -(reachable_conts _ _ _ _ Hr').
    + rewrite -(reachable_conts _ _ _ _ Hr') /= Hat /write /= lookup_insert. rewrite H H0. do 2 f_equal.
      by apply moved_one.
Qed.
End props.
