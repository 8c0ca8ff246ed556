(** * Probe: when iterators survive a call, the segments do.
    Proof infrastructure: a client could hold an iterator for every position;
    if the rules of Spec.v keep them valid, each still refers to the same slot of
    the same segment, hence the container is stored in the same segments. *)
From Verif Require Export PropsMemory.
From stdpp Require Import options.
Set Default Proof Using "Type*".

(** addresses and lengths of segments *)
Definition layout {T} (ss : list (loc * list T)) : list (loc * nat) := (λ s, (s.1, length s.2)) <$> ss.
(** where container [x] is stored *)
Definition places {T} (st : state T) (ρ : env) (x : nat) : option (list (loc * nat)) := option_map layout (segments st ρ x).

Section lists.
Context {T : Type}.
Implicit Types S : list (loc * list T).
Definition spot S (p : nat) (l : loc) (k len : nat) : Prop :=
  ∃ A xs B, S = A ++ (l, xs) :: B ∧ p = length (concat A.*2) + k ∧ k < len ∧ len = length xs.
Lemma spot_0 l0 xs0 S l k len : 0 < length xs0 → spot ((l0, xs0) :: S) 0 l k len → l = l0 ∧ len = length xs0.
Proof.
  intros Hpos (A & xs & B & HS & Hp & Hk & ->). destruct A as [|[l1 xs1] A]; csimpl in *; simplify_eq; [done|].
  rewrite app_length in Hp. lia.
Qed.
Lemma spot_S l0 xs0 S p l k len : spot ((l0, xs0) :: S) (length xs0 + p) l k len → spot S p l k len.
Proof.
  intros (A & xs & B & HS & Hp & Hk & ->). destruct A as [|[l1 xs1] A]; csimpl in *; simplify_eq; [lia|].
  rewrite app_length in Hp. exists A, xs, B. split_and!; [done|lia|done|done].
Qed.
Lemma shape_eq S S' :
  Forall (λ s, 0 < length s.2) S → Forall (λ s, 0 < length s.2) S' →
  length (concat S.*2) = length (concat S'.*2) →
  (∀ p, p < length (concat S.*2) → ∃ l k len, spot S p l k len ∧ spot S' p l k len) → layout S = layout S'.
Proof.
  revert S'. induction S as [|[l xs] S IH]; intros S' HS HS' Hlen Hsp.
  - destruct S' as [|[l' xs'] S']; [done|]. apply Forall_cons in HS' as [H _]. simpl in *. rewrite app_length in Hlen. lia.
  - apply Forall_cons in HS as [Hxs HS]. simpl in Hxs. destruct S' as [|[l' xs'] S'].
    { simpl in Hlen. rewrite app_length in Hlen. lia. }
    apply Forall_cons in HS' as [Hxs' HS']. csimpl in Hxs'; csimpl in Hlen; csimpl in Hsp. rewrite !app_length in Hlen, Hsp.
    destruct (Hsp 0 ltac:(lia)) as (l1 & k & len & H1 & H2).
    apply spot_0 in H1 as [-> ->]; [|done]. apply spot_0 in H2 as [-> E]; [|done].
    cbn [layout fmap list_fmap fst snd]. rewrite -E. f_equal. apply IH; [done|done|lia|].
    intros p Hp. destruct (Hsp (length xs + p) ltac:(lia)) as (l1 & k1 & len & H1 & H2).
    apply spot_S in H1. rewrite E in H2. apply spot_S in H2. by exists l1, k1, len.
Qed.
Lemma shape_segments S S' : layout S = layout S' → concat S.*2 = concat S'.*2 → S = S'.
Proof.
  revert S'. induction S as [|[l xs] S IH]; intros [|[l' xs'] S']; try done. simpl. intros [= -> E1 E2] E.
  apply app_inj_1 in E as [-> E]; [|done]. f_equal. by apply IH.
Qed.
End lists.

Section probe.
Context {T : Type} {C : cfg T} {OK : cfg_ok C}.
Implicit Types σ : sst T.
Implicit Types ρ : env.
Implicit Types st : state T.
Implicit Types c : cmd T.
Implicit Types o : option (tree T).
Notation reachable := (reachable C).
Notation reached := (reached C).
Notation iterator_at := (iterator_at C).
Notation exec := (exec (C:=C)).

(** ** A variable the call does not use *)
Definition simi w it (m1 m : M T (out T * env)) : Prop := ∀ st,
  match m1 st with
  | Ok (o, ρ') st' => m st = Ok (o, bindi w it ρ') st'
  | Throw e st' => m st = Throw e st'
  | Fault _ => True
  end.
Lemma simi_bind {A} w it (m : M T A) k1 k : (∀ a, simi w it (k1 a) (k a)) → simi w it (m ≫= k1) (m ≫= k).
Proof.
  intros H st. rewrite /mbind /M_bind. destruct (m st) as [a st1|e st1|f]; try done. apply H.
Qed.
Lemma simi_ret w it (u : out T) ρ1 ρ : ρ = bindi w it ρ1 → simi w it (mret (u, ρ1)) (mret (u, ρ)).
Proof. intros -> st. done. Qed.
Lemma simi_geti w it ρ w1 k1 k : w1 ≠ w → (∀ a, simi w it (k1 a) (k a)) → simi w it (geti ρ w1 ≫= k1) (geti (bindi w it ρ) w1 ≫= k).
Proof.
  intros Hw H. replace (geti (bindi w it ρ) w1) with (geti (T:=T) ρ w1); [by apply simi_bind|].
  rewrite /geti /bindi /=. rewrite /lookup_var lookup_insert_ne //.
Qed.
Lemma simi_getc w it ρ x k1 k : (∀ a, simi w it (k1 a) (k a)) → simi w it (getc ρ x ≫= k1) (getc (bindi w it ρ) x ≫= k).
Proof. intros H. by apply simi_bind. Qed.
Lemma simi_gets w it ρ s k1 k : w ∉ arg_uses s → (∀ a, simi w it (k1 a) (k a)) → simi w it (gets ρ s ≫= k1) (gets (bindi w it ρ) s ≫= k).
Proof.
  intros Hw H. replace (gets (bindi w it ρ) s) with (gets ρ s); [by apply simi_bind|].
  destruct s as [|w1|w1]; cbn [arg_uses gets] in *; try done; rewrite /geti /bindi /= /lookup_var lookup_insert_ne //;
    intros ->; apply Hw; by left.
Qed.
Lemma simi_getr w it ρ r k1 k : w ∉ rng_uses r → (∀ a, simi w it (k1 a) (k a)) → simi w it (getr ρ r ≫= k1) (getr (bindi w it ρ) r ≫= k).
Proof.
  intros Hw H. replace (getr (bindi w it ρ) r) with (getr ρ r); [by apply simi_bind|].
  destruct r as [|mv w1 w2]; cbn [rng_uses getr] in *; try done. rewrite /geti /bindi /= /lookup_var.
  rewrite !lookup_insert_ne //; intros ->; apply Hw; [|right]; left.
Qed.
Lemma bindi_comm w it w1 it1 ρ : w ≠ w1 → bindi w1 it1 (bindi w it ρ) = bindi w it (bindi w1 it1 ρ).
Proof. intros H. rewrite /bindi /=. f_equal. by apply insert_commute. Qed.
Lemma not_head {A} (x y : A) l : x ∉ y :: l → y ≠ x.
Proof. intros H ->. apply H. left. Qed.
Lemma not_tail {A} (x y : A) l : x ∉ y :: l → x ∉ l.
Proof. intros H Hx. apply H. by right. Qed.
Ltac fresh_var := solve [ done | by eapply not_head | by eapply not_head, not_tail | by eapply not_head, not_tail, not_tail
  | by eapply not_tail | congruence ].
Lemma simi_exec_call w it ρ c : w ∉ uses c → ¬ assigns c w → simi w it (exec_call c ρ) (exec_call c (bindi w it ρ)).
Proof.
  intros Hu Ha. destruct c; cbn [exec_call uses assigns] in *; rewrite /done_;
  repeat first
    [ apply simi_getc; intros | apply simi_gets; [fresh_var|]; intros | apply simi_getr; [fresh_var|]; intros
    | apply simi_geti; [fresh_var|]; intros
    | match goal with |- simi _ _ (if ?b then _ else _) _ => destruct b end
    | apply simi_ret; first [reflexivity | apply bindi_comm; congruence ]
    | apply simi_bind; intros ].
Qed.
Lemma simi_exec w it ρ c : w ∉ uses c → ¬ assigns c w → simi w it (exec c ρ) (exec c (bindi w it ρ)).
Proof.
  intros Hu Ha st. pose proof (simi_exec_call w it ρ c Hu Ha st) as H. rewrite /Exec.exec /try_catch.
  destruct (exec_call c ρ st) as [[o ρ'] st'|e st'|f]; try done; rewrite H; done.
Qed.
Lemma unused_var c (X : gset nat) : ∃ w, w ∉ uses c ∧ ¬ assigns c w ∧ w ∉ X.
Proof.
  pose proof (is_fresh (list_to_set (uses c) ∪ X : gset nat)) as F1. set (w1 := fresh _) in F1.
  pose proof (is_fresh (list_to_set (uses c) ∪ X ∪ {[w1]} : gset nat)) as F2. set (w2 := fresh _) in F2.
  assert (w1 ≠ w2) as Hne by set_solver.
  assert (¬ assigns c w1 ∨ ¬ assigns c w2) as [Hn|Hn].
  { destruct c; simpl; try (left; by intros []);
      match goal with |- ¬ (w1 = ?v) ∨ _ => destruct (decide (w1 = v)) as [E|E]; [right; congruence|by left] end. }
  - exists w1. set_solver.
  - exists w2. set_solver.
Qed.

(** preconditions do not depend on it *)
Lemma pre_point σ w x p c : w ∉ uses c → pre C σ c → pre C (point w x p σ) c.
Proof.
  intros Hu Hp.
  assert (∀ w1 y q, w1 ≠ w → at_it σ w1 y q → at_it (point w x p σ) w1 y q) as Hat.
  { intros w1 y q Hne H. by rewrite /at_it /= lookup_insert_ne. }
  assert (∀ w1, w1 ≠ w → deref (point w x p σ) w1 = deref σ w1) as Hd.
  { intros w1 Hne. by rewrite /deref /= lookup_insert_ne. }
  assert (∀ s, w ∉ arg_uses s → arg_value (point w x p σ) s = arg_value σ s) as Hv.
  { intros [|w1|w1] Hs; simpl in *; [done|apply Hd; by eapply not_head..]. }
  assert (∀ r, w ∉ rng_uses r → rng_values (point w x p σ) r = rng_values σ r) as Hrv.
  { intros [|mv w1 w2] Hs; simpl in *; [done|]. rewrite !lookup_insert_ne //; intros ->; apply Hs; [|right]; left. }
  assert (∀ s y, w ∉ arg_uses s → arg_outside σ s y → arg_outside (point w x p σ) s y) as Hao.
  { intros [|w1|w1] y Hs; simpl in *; [done|..]; (rewrite lookup_insert_ne; [done|]; intros ->; apply Hs; left). }
  assert (∀ r y, w ∉ rng_uses r → rng_outside σ r y → rng_outside (point w x p σ) r y) as Hro.
  { intros [|mv w1 w2] y Hs; simpl in *; [done|]. rewrite lookup_insert_ne; [done|]. intros ->. apply Hs. left. }
  destruct c; cbn [pre uses] in *; try exact Hp;
    repeat match goal with H : _ ∧ _ |- _ => destruct H | H : ∃ _, _ |- _ => destruct H end;
    repeat match goal with
      | |- _ ∧ _ => split
      | |- ∃ p xs, at_it _ _ _ p ∧ _ => eexists _, _
      | |- ∃ _, _ => eexists
      | |- at_it _ _ _ _ => eapply Hat; [fresh_var|eassumption]
      | |- context [arg_value (point _ _ _ _) _] => rewrite Hv; [|fresh_var]
      | |- context [rng_values (point _ _ _ _) _] => rewrite Hrv; [|fresh_var]
      | |- context [deref (point _ _ _ _) _] => rewrite Hd; [|fresh_var]
      | |- arg_outside _ _ _ => apply Hao; [fresh_var|assumption]
      | |- rng_outside _ _ _ => apply Hro; [fresh_var|assumption]
      end; try eassumption.
Qed.
(** the state with one more iterator *)
Lemma probe σ ρ st c u ρ' st' w x p xs a :
  reachable σ ρ st → pre C σ c → exec c ρ st = Ok (u, ρ') st' →
  container_at st ρ x = Some (xs, a) → p ≤ length xs → w ∉ uses c → ¬ assigns c w →
  ∃ it σ1, reachable (point w x p σ) (bindi w it ρ) st ∧
    step C (point w x p σ) c u σ1 ∧ reachable σ1 (bindi w it ρ') st'.
Proof.
  intros Hr Hp He Hc Hle Hu Ha. pose proof (see _ _ _ _ _ _ Hr Hc) as Hcs. visible Hcs.
  destruct (call_ok σ ρ st (NthOf x p w) Hr) as (o1 & ρ1 & st1 & σ' & He1 & [-> ->] & Hr1); [done|].
  rewrite H Nat.min_l // in Hr1. pose proof (exec_same (NthOf x p w) _ _ _ _ _ eq_refl He1) as (Hh & Hk & _).
  destruct (exec_nth_shape _ _ _ _ _ _ _ _ He1 eq_refl) as [it ->].
  assert (reachable (point w x p σ) (bindi w it ρ) st) as Hr2.
  { destruct st as [h n k], st1 as [h1 n1 k1]. simpl in *. subst. by eapply reach_count. }
  pose proof (simi_exec w it ρ c Hu Ha st) as Hs. rewrite He in Hs.
  destruct (call_inv _ _ _ _ _ _ _ Hr2 (pre_point _ _ _ _ _ Hu Hp) Hs) as (σ1 & Hst & Hr3).
  by exists it, σ1.
Qed.
(** if iterators into [x] become iterators into [y] at the same index, then [y] is
    stored in the segments [x] was stored in *)
Lemma kept_places σ ρ st c u ρ' st' x y xs a ss :
  reachable σ ρ st → pre C σ c → exec c ρ st = Ok (u, ρ') st' →
  container_at st ρ x = Some (xs, a) → segments st ρ x = Some ss →
  (∀ w p σ1, w ∉ uses c → ¬ assigns c w → iters σ !! w = None → p ≤ length xs → step C (point w x p σ) c u σ1 →
     at_it σ1 w y p ∧ length (contents σ1 y) = length xs) →
  ∃ ss', segments st' ρ' y = Some ss' ∧ layout ss' = layout ss.
Proof.
  intros Hr Hp He Hc Hss Hit. destruct (unused_var c (dom (iters σ))) as (w & Hu & Ha & Hw%not_elem_of_dom).
  destruct (probe σ ρ st c u ρ' st' w x 0 xs a) as (it0 & σ0 & Hr0 & Hs0 & Hr0'); [done..|lia|done|done|].
  destruct (Hit _ _ _ Hu Ha Hw (Nat.le_0_l _) Hs0) as [Hat0 Hlen0].
  destruct (R_iter _ _ _ _ _ _ (reachable_R _ _ _ Hr0') Hat0) as (o' & a' & l' & it0' & Hl' & Ho' & _ & _ & _ & Hc').
  cbn [bindi e_cont] in Hl'.
  destruct (reached_lives ρ st x xs a (ex_intro _ σ Hr) Hc) as (o & l & Hl & Ho & Hxs).
  pose proof (lives_segments _ _ _ _ _ _ Hl Ho) as Hss'. rewrite Hss in Hss'. injection Hss' as ->.
  pose proof (lives_segments _ ρ' _ _ _ _ Hl' Ho') as Hss'.
  exists (osegs o'). split; [done|]. symmetry.
  assert (length (oelems o') = length xs) as Hlen.
  { rewrite -Hlen0 /contents (reachable_conts _ _ _ _ Hr0'). 
    by rewrite (lives_container _ (bindi w it0 ρ') _ _ _ _ Hl' Ho'). }
  assert (∀ o m a l, lives (C:=C) m a l o → Forall (λ s : loc * list T, 0 < length s.2) (osegs o)) as Hpos.
  { clear -OK. intros [t|] m a l Ho; [|constructor]. destruct (lives_wf _ _ _ _ Ho) as (h & Hw). pose proof segment_bounds.
    cbn [osegs]. destruct (wfroot_segs _ _ Hw) as [(s & -> & Hs)|Hs].
    - constructor; [lia|done].
    - eapply Forall_impl; [done|]. intros s. rewrite /seg_bounds. lia. }
  apply shape_eq; [by eapply Hpos|by eapply Hpos|by rewrite !osegs_elems Hlen Hxs|].
  intros p Hlt. rewrite osegs_elems Hxs in Hlt.
  destruct (probe σ ρ st c u ρ' st' w x p xs a) as (it & σ1 & Hr1 & Hs1 & Hr1'); [done..|lia|done|done|].
  destruct (Hit w p σ1 Hu Ha Hw ltac:(lia) Hs1) as [Hat1 _].
  destruct (R_iter (point w x p σ) (bindi w it ρ) st w x p) as (o1 & a1 & l1 & it1 & Hl1 & Ho1 & Hi1 & Hok1 & Hp1 & _).
  { by apply reachable_R. } { by rewrite /at_it /= lookup_insert. }
  cbn [bindi e_cont e_iter] in Hl1, Hi1. rewrite lookup_insert in Hi1. injection Hi1 as <-.
  rewrite Hl in Hl1. injection Hl1 as <-. destruct (lives_det _ _ _ _ _ _ Ho Ho1) as [<- <-].
  destruct (R_iter _ _ _ _ _ _ (reachable_R _ _ _ Hr1') Hat1) as (o2 & a2 & l2 & it2 & Hl2 & Ho2 & Hi2 & Hok2 & Hp2 & _).
  cbn [bindi e_cont e_iter] in Hl2, Hi2. rewrite lookup_insert in Hi2. injection Hi2 as <-.
  rewrite Hl' in Hl2. injection Hl2 as <-. destruct (lives_det _ _ _ _ _ _ Ho' Ho2) as [<- <-].
  assert (∀ o, it_ok o it → p < length (oelems o) → ∃ l, sg_ptr (e_seg (i_entry it)) = Some l ∧
    spot (osegs o) p l (sg_idx (e_seg (i_entry it))) (sg_len (e_seg (i_entry it)))) as Hspot.
  { intros [t|] Hok Hlt'; [|simpl in Hlt'; lia].
    destruct (it_ok_segment t it Hok) as (S1 & l0 & xs0 & S2 & Hs & He' & Hpos' & Hle & Hin).
    exists l0. rewrite He' /=. split; [done|]. exists S1, xs0, S2. split_and!; [done|lia| |done].
    apply Hin. cbn [oelems] in Hlt'. rewrite -Hp1 in Hlt'. done. }
  destruct (Hspot o Hok1 ltac:(congruence)) as (l1 & E1 & Hsp1).
  destruct (Hspot o' Hok2 ltac:(congruence)) as (l2 & E2 & Hsp2).
  rewrite E1 in E2. injection E2 as <-. eauto 10.
Qed.
(** and the iterators into [x] are the same iterators into [y] *)
Lemma kept_iters σ ρ st c u ρ' st' x y w p :
  reachable σ ρ st → pre C σ c → exec c ρ st = Ok (u, ρ') st' → ¬ assigns c w →
  (∀ w1 σ1, w1 ∉ uses c → ¬ assigns c w1 → iters σ !! w1 = None → step C (point w1 x p σ) c u σ1 → at_it σ1 w1 y p) →
  iterator_at st ρ w x p → iterator_at st' ρ' w y p.
Proof.
  intros Hr Hp He Hna Hit Hw. destruct (unused_var c (dom (iters σ))) as (w1 & Hu & Ha & Hw1%not_elem_of_dom).
  destruct (iterator_elim _ _ _ _ _ (ex_intro _ σ Hr) Hw) as (o & a & l & it & Hl & Ho & Hi & Hok & Hpos & Hc).
  assert (p ≤ length (oelems o)) as Hle by (subst; by apply it_ok_le).
  destruct (probe σ ρ st c u ρ' st' w1 x p _ _ Hr Hp He Hc Hle Hu Ha) as (it1 & σ1 & Hr1 & Hs1 & Hr1').
  specialize (Hit _ _ Hu Ha Hw1 Hs1).
  destruct (R_iter (point w1 x p σ) (bindi w1 it1 ρ) st w1 x p) as (o1 & a1 & l1 & it2 & Hl1 & Ho1 & Hi1 & Hok1 & Hp1 & _).
  { by apply reachable_R. } { by rewrite /at_it /= lookup_insert. }
  cbn [bindi e_cont e_iter] in Hl1, Hi1. rewrite lookup_insert in Hi1. injection Hi1 as <-.
  rewrite Hl in Hl1. injection Hl1 as <-. destruct (lives_det _ _ _ _ _ _ Ho Ho1) as [<- <-].
  assert (it1 = it) as ->.
  { destruct o as [t|].
    - destruct (lives_wf _ _ _ _ Ho) as (h & Hw0). apply (it_ok_unique h (Some t)); [by intros ? [= <-]|done|done|congruence].
    - by rewrite (it_ok_nil _ Hok1) (it_ok_nil _ Hok). }
  destruct (R_iter _ _ _ _ _ _ (reachable_R _ _ _ Hr1') Hit) as (o2 & a2 & l2 & it2 & Hl2 & Ho2 & Hi2 & Hok2 & Hp2 & _).
  cbn [bindi e_cont e_iter] in Hl2, Hi2. rewrite lookup_insert in Hi2. injection Hi2 as <-.
  pose proof (keeps_exec w ρ c Hna st) as Hk. rewrite He in Hk.
  destruct (call_inv _ _ _ _ _ _ _ Hr Hp He) as (σ' & _ & Hr').
  rewrite -Hp2. eapply iterator_intro; [by eexists|done|done|by rewrite Hk|done].
Qed.
End probe.
