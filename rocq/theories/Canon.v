(** * Canon: the memory determines the tree, an index determines the iterator.
    Proof infrastructure. *)
From Verif Require Export Sound Unique Effects.
From stdpp Require Import options.
Set Default Proof Using "Type*".

Section canon.
Context {T : Type} {C : cfg T} {OK : cfg_ok C}.
Implicit Types σ : sst T.
Implicit Types ρ : env.
Implicit Types st : state T.
Implicit Types m : heap T.
Implicit Types o : option (tree T).
Notation reachable := (reachable C).
Notation iterator_at := (iterator_at C).

Lemma stored_det ea na ea' na' m h p i p' i' t t' :
  stored ea na m h p i t → stored ea' na' m h p' i' t' → tloc t = tloc t' → tsize t = tsize t' → t = t'.
Proof.
  revert p i p' i' t t'. induction h as [|h IH]; intros p i p' i' t t'; [done|].
  destruct t as [l xs|l ts], t' as [l' xs'|l' ts']; cbn [stored tloc].
  - intros (-> & j & Hj & _ & Hl) (_ & j' & Hj' & _ & Hl') <- Hs. rewrite Hl in Hl'. injection Hl' as _ H.
    rewrite !tsize_Seg in Hs. apply app_inj_1 in H as [H _]; [|by rewrite !fmap_length].
    apply (inj (fmap Some)) in H. by subst.
  - intros (-> & _) (? & _) <- Hs. lia.
  - intros (? & _) (-> & _) <- Hs. lia.
  - intros (Hh & (j & Hj & Hl) & Hk) (_ & (j' & Hj' & Hl') & Hk') <- Hs. rewrite Hl in Hl'.
    injection Hl' as _ _ _ Hlen H1 H2.
    assert ((entry <$> ts) ++ j = (entry <$> ts') ++ j') as He.
    { rewrite -(zip_fst_snd ((entry <$> ts) ++ j)) -(zip_fst_snd ((entry <$> ts') ++ j')). by rewrite H1 H2. }
    apply app_inj_1 in He as [He _]; [|by rewrite !fmap_length].
    f_equal. apply list_eq_same_length with (length ts); [done..|]. intros k u u' _ Hu Hu'.
    assert (entry u = entry u') as Heq.
    { apply (f_equal (lookup k)) in He. rewrite !list_lookup_fmap Hu Hu' in He. apply Some_inj in He. exact He. }
    rewrite /entry in Heq. simplify_eq.
    eapply IH; [by apply Hk|by apply Hk'|done|done].
Qed.
Lemma lives_det m a a' l o o' : lives m a l o → lives m a' l o' → o = o' ∧ a = a'.
Proof.
  destruct o as [t|], o' as [t'|]; cbn [lives].
  - intros (h & _ & _ & Hl & Hs) (h' & _ & _ & Hl' & Hs'). rewrite Hl in Hl'. simplify_eq. split; [|done].
    f_equal. by eapply stored_det.
  - intros (h & _ & _ & Hl & Hs) Hl'. rewrite Hl in Hl'. simplify_eq.
  - intros Hl' (h & _ & _ & Hl & Hs). rewrite Hl in Hl'. simplify_eq.
  - intros Hl Hl'. rewrite Hl in Hl'. by simplify_eq.
Qed.
Lemma lives_wf m a l t : lives m a l (Some t) → ∃ h, wfroot h t.
Proof. intros (h & ? & _). by exists h. Qed.

(** the abstract trees of a reachable state *)
Lemma reachable_open σ ρ st : reachable σ ρ st → ∃ τ, abs σ τ ρ ∧ rep ρ τ (st_heap st).
Proof. intros H%reachable_R. by apply R_open. Qed.
(** what is known about a live container *)
Lemma R_lives σ ρ st x xs a :
  R σ ρ (st_heap st) → container_at st ρ x = Some (xs, a) →
  conts σ !! x = Some (xs, a) ∧ ∃ o l, e_cont ρ !! x = Some l ∧ lives (st_heap st) a l o ∧ oelems o = xs.
Proof.
  intros HR Hx. rewrite -(R_conts _ _ _ _ HR) in Hx. split; [done|].
  apply R_open in HR as (τ & Ha & Hr). rewrite (abs_conts _ _ _ Ha) cells_lookup in Hx.
  destruct (τ !! x) as [[o a']|] eqn:Hox; [|done]. simplify_eq/=.
  destruct (rep_lives _ _ _ _ _ _ Hr Hox) as (l & Hl & Ho). by exists o, l.
Qed.
Lemma R_iter σ ρ st w x p :
  R σ ρ (st_heap st) → at_it σ w x p →
  ∃ o a l it, e_cont ρ !! x = Some l ∧ lives (st_heap st) a l o ∧ e_iter ρ !! w = Some it ∧
    it_ok o it ∧ i_pos it = p ∧ container_at st ρ x = Some (oelems o, a).
Proof.
  intros HR Hw. apply R_open in HR as (τ & Ha & Hr).
  destruct (abs_iters _ _ _ Ha _ _ _ Hw) as (o & a & it & Hx & Hi & Hok & Hp).
  destruct (rep_lives _ _ _ _ _ _ Hr Hx) as (l & Hl & Ho). exists o, a, l, it. split_and!; try done.
  by eapply lives_container.
Qed.
Lemma exec_same c ρ st u ρ' st' :
  is_const c = true → exec c ρ st = Ok (u, ρ') st' → same st st'.
Proof.
  intros Hc He. pose proof (eff_const same same_coarser c ρ Hc (λ _, allows_same _ (λ _ _ H, H)) st) as H. by rewrite He in H.
Qed.
(** same heap, same iterators *)
Lemma R_iter_eq σ σ' ρ ρ' st w w' x p :
  R σ ρ (st_heap st) → R σ' ρ' (st_heap st) → e_cont ρ = e_cont ρ' →
  at_it σ w x p → at_it σ' w' x p → e_iter ρ !! w = e_iter ρ' !! w'.
Proof.
  intros HR HR' He Hw Hw'.
  destruct (R_iter _ _ _ _ _ _ HR Hw) as (o & a & l & it & Hl & Ho & Hit & Hok & Hp & _).
  destruct (R_iter _ _ _ _ _ _ HR' Hw') as (o' & a' & l' & it' & Hl' & Ho' & Hit' & Hok' & Hp' & _).
  rewrite He in Hl. rewrite Hl in Hl'. simplify_eq.
  destruct (lives_det _ _ _ _ _ _ Ho Ho') as [-> ->]. rewrite Hit Hit'. f_equal.
  destruct o' as [t|].
  - destruct (lives_wf _ _ _ _ Ho) as (h & Hw0). eapply (it_ok_unique h); try done. by intros ? [= <-].
  - by rewrite (it_ok_nil _ Hok) (it_ok_nil _ Hok').
Qed.

Lemma exec_nth_shape x p w ρ st u ρ' st' :
  exec (NthOf x p w) ρ st = Ok (u, ρ') st' → u = OUnit → ∃ it, ρ' = bindi w it ρ.
Proof.
  rewrite /exec /try_catch. cbn [exec_call]. rewrite /getc /lookup_var /done_. intros H ->.
  destruct (e_cont ρ !! x) as [l|]; simpl in H; [|done].
  unfold mbind, M_bind, mret, M_ret in H. destruct (nth_ l p st) as [it st1|e st1|f]; simplify_eq/=.
  by exists it.
Qed.

(** a valid iterator is the one [nth] returns *)
Theorem canonical σ ρ st w x p : reachable σ ρ st → at_it σ w x p → iterator_at st ρ w x p.
Proof.
  intros Hr Hw. pose proof (reachable_R _ _ _ Hr) as HR.
  destruct (R_iter _ _ _ _ _ _ HR Hw) as (o & a & l & it & Hl & Ho & Hit & Hok & Hp & Hc).
  destruct (call_ok σ ρ st (NthOf x p w) Hr) as (u & ρ' & st' & σ' & He & Hs & Hr').
  { cbn [pre]. rewrite /live (R_conts _ _ _ _ HR) Hc. done. }
  destruct Hs as [-> ->].
  assert (p ≤ length (oelems o)) as Hle by (rewrite -Hp; by apply it_ok_le).
  exists (oelems o), a, st'. split_and!; [done|done|].
  pose proof (exec_same (NthOf x p w) _ _ _ _ _ eq_refl He) as (Hh & _).
  destruct (exec_nth_shape _ _ _ _ _ _ _ _ He eq_refl) as (it' & ->).
  pose proof (reachable_R _ _ _ Hr') as HR'. rewrite Hh in HR'.
  assert (at_it (point w x (p `min` length (contents σ x)) σ) w x p) as Hw'.
  { rewrite /at_it /= lookup_insert. do 2 f_equal.
    assert (contents σ x = oelems o) as -> by (rewrite /contents (R_conts _ _ _ _ HR) Hc; done). lia. }
  assert (e_iter ρ !! w = e_iter (bindi w it' ρ) !! w) as Heq by by eapply R_iter_eq.
  rewrite /= lookup_insert Hit in Heq. simplify_eq.
  rewrite He. do 2 f_equal. rewrite /bindi. destruct ρ; simpl in *. f_equal. by apply insert_id.
Qed.
(** and the other way round *)
Lemma pointing σ ρ st w x p : reachable σ ρ st → iterator_at st ρ w x p → reachable (point w x p σ) ρ st.
Proof.
  intros Hr (xs & a & st' & Hc & Hp & He). pose proof (reachable_R _ _ _ Hr) as HR.
  assert (reachable (point w x p σ) ρ st') as Hr'.
  { destruct (call_inv σ ρ st (NthOf x p w) OUnit ρ st' Hr) as (σ' & [_ ->] & Hr'); [|done|].
    - cbn [pre]. rewrite /live (R_conts _ _ _ _ HR) Hc. done.
    - assert (contents σ x = xs) as E by (rewrite /contents (R_conts _ _ _ _ HR) Hc; done).
      rewrite E in Hr'. by rewrite Nat.min_l in Hr'. }
  pose proof (exec_same (NthOf x p w) _ _ _ _ _ eq_refl He) as (Hh & Hk & _).
  destruct st' as [h n k], st as [h0 n0 k0]; simpl in *; subst. by eapply reach_count.
Qed.
Lemma iterator_at_le st ρ w x p xs a :
  container_at st ρ x = Some (xs, a) → iterator_at st ρ w x p → p ≤ length xs.
Proof. intros Hx (? & ? & ? & Hx' & ? & _). rewrite Hx in Hx'. by simplify_eq. Qed.
End canon.
