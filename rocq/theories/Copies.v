(** * Copies: how many copies of elements a call makes.

    The oracle [c_user_ok] decides whether the copy (or construction from a value)
    made at a given moment succeeds.  A call whose behaviour, whatever the oracle,
    depends on the oracle at no more than [n] moments makes at most [n] copies. *)
From Verif Require Export Setup Scope Complexity.
From Verif Require Import Asked.
From stdpp Require Import options.
#[local] Set Default Proof Using "Type*".

(** the same program, elements whose copies succeed at the moments [f] says *)
Definition with_copies {T} (C : cfg T) (f : nat → bool) : cfg T :=
  Cfg T (c_segment_target C) (c_base_target C) (c_sizeof_T C) (c_sizeof_base C) (c_sizeof_data C) (c_W C) (c_H C)
    (c_triv_copy C) (c_triv_destroy C) (c_std_construct C) (c_pocca C) (c_pocma C) (c_pocs C) (c_soccc C) (c_null_free C)
    (c_default C) (c_residue C) (c_pick C) (c_place C) f (c_move_ok C) (c_pred_ok C) (c_scramble C).
Lemma with_copies_id {T} (C : cfg T) : with_copies C (c_user_ok C) = C.
Proof. by destruct C. Qed.

Section copies.
Context {T : Type} {C : cfg T}.
Notation all := (λ _ : nat, true).

Definition upto {A} (n : nat) (m : (nat → bool) → M T A) (st : state T) : Prop :=
  ∃ ks : list nat, length ks ≤ n ∧ ∀ f, (∀ k, k ∈ ks → f k = true) → m f st = m all st.

Lemma upto_mono {A} a b (m : (nat → bool) → M T A) st : upto a m st → a ≤ b → upto b m st.
Proof. intros (ks & Hl & H) Hb. exists ks. split; [lia|done]. Qed.
Lemma upto_zero {A} (m : (nat → bool) → M T A) st : (∀ f, m f st = m all st) → upto 0 m st.
Proof. intros H. exists []. split; [simpl; lia|]. intros f _. apply H. Qed.
Lemma upto_ext {A} n (m m' : (nat → bool) → M T A) st : (∀ f, m f st = m' f st) → upto n m' st → upto n m st.
Proof. intros He (ks & Hl & H). exists ks. split; [done|]. intros f Hf. rewrite !He. auto. Qed.
Lemma upto_bind {A B} a b (m : (nat → bool) → M T A) (k : (nat → bool) → A → M T B) st :
  upto a m st → (∀ x st', m all st = Ok x st' → upto b (λ f, k f x) st') →
  upto (a + b) (λ f, m f ≫= k f) st.
Proof.
  intros (ks & Hl & H) Hk. destruct (m all st) as [x st'|e st'|g] eqn:E.
  - destruct (Hk x st' eq_refl) as (ks' & Hl' & H'). exists (ks ++ ks'). rewrite app_length. split; [lia|].
    intros f Hf. rewrite /mbind /M_bind. rewrite H; [|intros; apply Hf, elem_of_app; by left]. rewrite E.
    apply H'. intros; apply Hf, elem_of_app; by right.
  - exists ks. split; [lia|]. intros f Hf. rewrite /mbind /M_bind. by rewrite H ?E.
  - exists ks. split; [lia|]. intros f Hf. rewrite /mbind /M_bind. by rewrite H ?E.
Qed.
Lemma upto_catch {A} a b (m : (nat → bool) → M T A) (h : (nat → bool) → exn → M T A) st :
  upto a m st → (∀ e st', m all st = Throw e st' → upto b (λ f, h f e) st') →
  upto (a + b) (λ f, try_catch (m f) (h f)) st.
Proof.
  intros (ks & Hl & H) Hk. destruct (m all st) as [x st'|e st'|g] eqn:E.
  - exists ks. split; [lia|]. intros f Hf. rewrite /try_catch. by rewrite H ?E.
  - destruct (Hk e st' eq_refl) as (ks' & Hl' & H'). exists (ks ++ ks'). rewrite app_length. split; [lia|].
    intros f Hf. rewrite /try_catch. rewrite H; [|intros; apply Hf, elem_of_app; by left]. rewrite E.
    apply H'. intros; apply Hf, elem_of_app; by right.
  - exists ks. split; [lia|]. intros f Hf. rewrite /try_catch. by rewrite H ?E.
Qed.
Lemma upto_tick st : upto 1 (λ f, user_tick (C:=with_copies C f)) st.
Proof.
  exists [st_clk st]. split; [done|]. intros f Hf. rewrite /user_tick /tick /=. by rewrite Hf; [|left].
Qed.

(** ** The functions of the code that may copy *)
Definition src_cost (s : vsrc (T:=T)) : nat := match s with VMove _ _ => 0 | _ => 1 end.
Lemma upto_make_value s st : upto (src_cost s) (λ f, make_value (C:=with_copies C f) s) st.
Proof.
  destruct s as [v|p i|p i]; simpl.
  - apply (upto_bind 1 0); [apply upto_tick|]. intros. by apply upto_zero.
  - apply (upto_bind 0 1); [by apply upto_zero|]. intros.
    apply (upto_bind 1 0); [apply upto_tick|]. intros. by apply upto_zero.
  - by apply upto_zero.
Qed.
Lemma upto_assign_value p i s st : upto (src_cost s) (λ f, assign_value (C:=with_copies C f) p i s) st.
Proof.
  rewrite -(Nat.add_0_r (src_cost s)). apply upto_bind; [apply upto_make_value|]. intros. by apply upto_zero.
Qed.
Lemma upto_emplace_single l it s st : upto (src_cost s) (λ f, emplace_single (C:=with_copies C f) l it s) st.
Proof.
  rewrite -(Nat.add_0_r (src_cost s)). apply upto_bind; [apply upto_make_value|]. intros. by apply upto_zero.
Qed.
Lemma upto_emplace_count_loop l n s : ∀ it st, upto (n * src_cost s) (λ f, emplace_count_loop (C:=with_copies C f) l it n s) st.
Proof.
  induction n as [|n IH]; intros it st; [by apply upto_zero|]. simpl.
  apply upto_bind; [apply upto_emplace_single|]. intros it' st' _.
  apply (upto_bind 0); [by apply upto_zero|]. intros it'' st'' _. apply IH.
Qed.
Lemma upto_emplace_count l it n s st : upto (n * src_cost s) (λ f, emplace_count (C:=with_copies C f) l it n s) st.
Proof.
  rewrite -(Nat.add_0_r (_ * _)). apply upto_bind; [apply upto_emplace_count_loop|]. intros. by apply upto_zero.
Qed.
Lemma upto_assign_count_loop l n s : ∀ a b st, upto (n * src_cost s) (λ f, assign_count_loop (C:=with_copies C f) l n s a b) st.
Proof.
  induction n as [|n IH]; intros a b st; [by apply upto_zero|]. cbn [assign_count_loop].
  destruct (i_pos a =? i_pos b).
  - rewrite -(Nat.add_0_r (_ * _)). apply upto_bind; [apply upto_emplace_count|]. intros. by apply upto_zero.
  - apply upto_bind; [apply upto_assign_value|]. intros it' st' _.
    apply (upto_bind 0); [by apply upto_zero|]. intros it'' st'' _. apply IH.
Qed.
Lemma upto_assign_count l n s st : upto (n * src_cost s) (λ f, assign_count (C:=with_copies C f) l n s) st.
Proof.
  apply (upto_bind 0); [by apply upto_zero|]. intros a ? _.
  apply (upto_bind 0); [by apply upto_zero|]. intros b ? _. apply upto_assign_count_loop.
Qed.
(** elements from first to last *)
Definition input_cost (r : input (T:=T)) : nat :=
  match r with
  | IList xs => S (4 * length xs)
  | ISeq true _ _ => 0
  | ISeq false f l => i_pos l - i_pos f
  end.
Definition input_ok (r : input (T:=T)) : Prop :=
  match r with ISeq false f l => i_pos f ≤ i_pos l < c_W C | _ => True end.
Definition item_cost (r : input (T:=T)) : nat := match r with ISeq true _ _ => 0 | _ => 1 end.
Definition oper_cost (r : input (T:=T)) : nat := match r with ISeq _ _ _ => 0 | _ => 1 end.
Lemma upto_input_end r st : upto (oper_cost r) (λ f, input_end (C:=with_copies C f) r) st.
Proof. destruct r; [|by apply upto_zero]. apply (upto_bind 1 0); [apply upto_tick|]. intros. by apply upto_zero. Qed.
Lemma upto_input_src r st : upto (oper_cost r) (λ f, input_src (C:=with_copies C f) r) st.
Proof. destruct r; [|by apply upto_zero]. apply (upto_bind 1 0); [apply upto_tick|]. intros. by apply upto_zero. Qed.
Lemma upto_input_next r st : upto (oper_cost r) (λ f, input_next (C:=with_copies C f) r) st.
Proof. destruct r; [|by apply upto_zero]. apply (upto_bind 1 0); [apply upto_tick|]. intros. by apply upto_zero. Qed.
Lemma input_turn r st0 st1 r' st2 st3 : input_ok r →
  input_end (C:=with_copies C all) r st0 = Ok false st1 → input_next (C:=with_copies C all) r st2 = Ok r' st3 →
  input_ok r' ∧ input_cost r = 3 * oper_cost r + item_cost r + input_cost r'.
Proof.
  intros Hok He Hn. destruct r as [xs|mv f l]; simpl in *.
  - destruct xs as [|x xs]; [done|]. unfold mbind, M_bind in Hn. simpl in Hn. injection Hn as <- _. simpl. split; [done|lia].
  - injection He as He%Nat.eqb_neq _. unfold mbind, M_bind, move_next_iterator in Hn.
    unfold mbind, M_bind in Hn. destruct (move_next_segment (i_entry f) st2); [|done..].
    injection Hn as <- _. simpl. destruct mv; [done|]. rewrite /wadd /= Nat.mod_small; [|lia]. split; lia.
Qed.
Lemma input_left r st0 st1 : input_ok r →
  input_end (C:=with_copies C all) r st0 = Ok false st1 → 3 * oper_cost r + item_cost r ≤ input_cost r.
Proof.
  intros Hok He. destruct r as [[|]|[] f l]; simpl in *; [done|lia|lia|].
  injection He as He%Nat.eqb_neq _. lia.
Qed.
Lemma input_src_cost r st s st' : input_src (C:=with_copies C all) r st = Ok s st' → src_cost s = item_cost r.
Proof.
  destruct r as [[|x xs]|mv f l]; simpl; [done| |].
  - unfold mbind, M_bind. simpl. intros [= <- _]. done.
  - intros [= <- _]. by destruct mv.
Qed.
Lemma upto_emplace_range_loop l fuel : ∀ it r n st, input_ok r →
  upto (input_cost r) (λ f, emplace_range_loop (C:=with_copies C f) fuel l it r n) st.
Proof.
  induction fuel as [|fuel IH]; intros it r n st Hok.
  { eapply upto_mono; [by apply upto_zero|lia]. }
  assert (Hmin : oper_cost r ≤ input_cost r) by (destruct r as [|[]]; simpl; lia).
  cbn [emplace_range_loop]. eapply upto_mono with (a := oper_cost r + (input_cost r - oper_cost r)); [|lia].
  apply upto_bind; [apply upto_input_end|]. intros [] st1 He.
  { eapply upto_mono; [by apply upto_zero|lia]. }
  pose proof (input_left r st st1 Hok He) as Hleft.
  eapply upto_mono with (a := oper_cost r + (item_cost r + (oper_cost r + (0 + (input_cost r - 3 * oper_cost r - item_cost r))))); [|lia].
  apply upto_bind; [apply upto_input_src|]. intros s st2 Hs. rewrite -(input_src_cost _ _ _ _ Hs).
  apply upto_bind; [apply upto_emplace_single|]. intros it' st3 _.
  apply upto_bind; [apply upto_input_next|]. intros r' st4 Hn.
  apply upto_bind; [by apply upto_zero|]. intros it'' st5 _.
  destruct (input_turn r st st1 r' st3 st4 Hok He Hn) as [Hok' Hc].
  eapply upto_mono; [by apply IH|]. rewrite (input_src_cost _ _ _ _ Hs). lia.
Qed.
Lemma upto_emplace_range l it r st : input_ok r → upto (input_cost r) (λ f, emplace_range (C:=with_copies C f) l it r) st.
Proof.
  intros Hok. rewrite -(Nat.add_0_r (input_cost r)). apply upto_bind; [by apply upto_emplace_range_loop|].
  intros. by apply upto_zero.
Qed.
(** assign tests [first == last] of the source twice when it reaches the end of the destination *)
Lemma upto_assign_range_loop l fuel : ∀ r a b st, input_ok r →
  upto (input_cost r + oper_cost r) (λ f, assign_range_loop (C:=with_copies C f) fuel l r a b) st.
Proof.
  induction fuel as [|fuel IH]; intros r a b st Hok.
  { eapply upto_mono; [by apply upto_zero|lia]. }
  cbn [assign_range_loop]. rewrite (Nat.add_comm (input_cost r)).
  apply upto_bind; [apply upto_input_end|]. intros [] st1 He.
  { eapply upto_mono; [by apply upto_zero|lia]. }
  pose proof (input_left r st st1 Hok He) as Hleft.
  destruct (i_pos a =? i_pos b).
  { rewrite -(Nat.add_0_r (input_cost r)). apply upto_bind; [by apply upto_emplace_range|]. intros. by apply upto_zero. }
  eapply upto_mono with (a := oper_cost r + (item_cost r + (0 + (oper_cost r + (input_cost r - 2 * oper_cost r - item_cost r))))); [|lia].
  apply upto_bind; [apply upto_input_src|]. intros s st2 Hs. rewrite -(input_src_cost _ _ _ _ Hs).
  apply upto_bind; [apply upto_assign_value|]. intros ? st3 _.
  apply upto_bind; [by apply upto_zero|]. intros it'' st5 _.
  apply upto_bind; [apply upto_input_next|]. intros r' st4 Hn.
  destruct (input_turn r st st1 r' st5 st4 Hok He Hn) as [Hok' Hc].
  eapply upto_mono; [by apply IH|]. rewrite (input_src_cost _ _ _ _ Hs).
  assert (oper_cost r' = oper_cost r); [|lia].
  destruct r as [[|]|mv f' l']; simpl in Hn; [done| |].
  - unfold mbind, M_bind in Hn. simpl in Hn. injection Hn as <- _. done.
  - unfold mbind, M_bind in Hn. destruct (move_next_iterator _ _); [|done..]. injection Hn as <- _. done.
Qed.
Lemma upto_assign_range l r st : input_ok r →
  upto (input_cost r + oper_cost r) (λ f, assign_range (C:=with_copies C f) l r) st.
Proof.
  intros Hok. apply (upto_bind 0); [by apply upto_zero|]. intros a ? _.
  apply (upto_bind 0); [by apply upto_zero|]. intros b ? _. by apply upto_assign_range_loop.
Qed.
Lemma upto_ctor n a (body : (nat → bool) → loc → M T unit) st :
  (∀ l st', ctor_alloc a st = Ok l st' → upto n (λ f, body f l) st') →
  upto n (λ f, ctor_with (C:=with_copies C f) a (body f)) st.
Proof.
  intros H. apply (upto_bind 0); [by apply upto_zero|]. intros l st1 Hl.
  rewrite -(Nat.add_0_r n). apply upto_catch; [|intros; by apply upto_zero].
  rewrite -(Nat.add_0_r n). apply upto_bind; [by apply H|]. intros; by apply upto_zero.
Qed.
Lemma upto_exec c ρ st n : upto n (λ f, exec_call (C:=with_copies C f) c ρ) st → upto n (λ f, exec (C:=with_copies C f) c ρ) st.
Proof. intros H. rewrite -(Nat.add_0_r n). apply upto_catch; [done|]. intros; by apply upto_zero. Qed.

End copies.

Section calls.
Context {T : Type} {C : cfg T} {OK : cfg_ok C}.
Notation all := (λ _ : nat, true).
Notation reachable := (reachable C).
Implicit Types σ : sst T.

(** ** The bounds (specification) *)
Definition arg_copies (s : arg T) : nat := match s with AMove _ => 0 | _ => 1 end.
(** for an external range: [!=], [*] and [++] of the caller's iterators also
    belong to the caller, and count as well *)
Definition rng_copies σ (r : rng T) : nat :=
  match r with
  | RList xs => 4 * length xs + 1
  | RSeq true _ _ => 0
  | RSeq false _ _ => rng_length σ r
  end.
Definition most_copies σ (c : cmd T) : nat :=
  match c with
  | InsertOne _ _ s _ | PushBack _ s | PushFront _ s | Write _ s => arg_copies s
  | SpliceOne _ _ _ _ => 1
  | NewCount _ n _ _ | InsertCount _ _ n _ _ | AssignCount _ n _ => n
  | Resize x n _ => n - length (contents σ x)
  | NewRange _ r _ | InsertRange _ _ r _ => rng_copies σ r
  | AssignRange _ r => rng_copies σ r + match r with RList _ => 1 | _ => 0 end
  | NewCopy _ y | NewCopyAlloc _ y _ | AssignCopy _ y => length (contents σ y)
  | _ => 0
  end.
(** the call depends on the success of copies at no more than [n] moments *)
Definition copies_at_most (n : nat) (c : cmd T) ρ (st : state T) : Prop :=
  ∃ ks : list nat, length ks ≤ n ∧
    ∀ f, (∀ k, k ∈ ks → f k = true) → exec (C:=with_copies C f) c ρ st = exec (C:=with_copies C all) c ρ st.

Lemma gets_cost ρ s st v st' : gets ρ s st = Ok v st' → src_cost v = arg_copies s.
Proof.
  destruct s as [x|w|w]; rewrite /gets /geti /lookup_var; [intros [= <- _]; done|..].
  all: unfold mbind, M_bind; destruct (e_iter ρ !! w); [|done]; intros [= <- _]; done.
Qed.
(** sizes in reachable states *)
Lemma reachable_sized σ ρ st x : reachable σ ρ st → live σ x →
  ∃ l, e_cont ρ !! x = Some l ∧ sized l (length (contents σ x)) st ∧ length (contents σ x) < c_W C.
Proof.
  intros Hr Hx. destruct (R_open _ _ _ (reachable_R _ _ _ Hr)) as (τ & Ha & Hrep).
  destruct (abs_live _ _ _ _ Ha Hx) as (o & a & l & Ht & Hl & Hc & _).
  destruct (rep_lives _ _ _ _ _ _ Hrep Ht) as (l' & Hl' & Ho). rewrite Hl in Hl'. injection Hl' as <-.
  exists l. split; [done|]. rewrite Hc. pose proof (ok_W _ OK). destruct o as [t|]; simpl in Ho.
  - destruct Ho as (h & _ & HW & Hs & _). split; [|done]. eexists. split; [exact Hs|done].
  - split; [|simpl; lia]. eexists. split; [exact Ho|done].
Qed.
Lemma looks_heap {A} (m : M T A) st a st' :
  (∀ P, PreOrder P → coarser P → eff P m) → m st = Ok a st' → st_heap st' = st_heap st.
Proof.
  intros He E. pose proof (He looks) as H.
  assert (PreOrder (looks (T:=T))) as Hpre. { split; [intros x; split; [reflexivity|done]|]. intros x y z [? ?] [? ?]. split; [by etrans|congruence]. }
  specialize (H Hpre (λ _ _ H, H) st). rewrite E in H. by destruct H as [(Hh & _) _].
Qed.
Lemma whole_cost mv l N st r st' : sized l N st → N < c_W C → whole_range mv l st = Ok r st' →
  input_ok (C:=C) r ∧ input_cost r = (if mv then 0 else N) ∧ oper_cost r = 0.
Proof.
  intros Hs HN E. unfold whole_range in E.
  assert (wlp (begin_ l) st (λ f st1, i_pos f = 0 ∧ st_heap st1 = st_heap st) (λ _ _, True)) as H1 by (eapply wlp_begin; [done|auto]).
  unfold mbind, M_bind in E. rewrite /wlp /begin_ in H1. destruct (find_first l st) as [f st1|?|?]; [|done..].
  destruct H1 as [Hf Hh1].
  assert (wlp (end_ l) st1 (λ e st2, i_pos e = N) (λ _ _, True)) as H2 by (eapply wlp_end; [by rewrite /sized Hh1|auto]).
  rewrite /wlp /end_ in H2. destruct (find_end l st1) as [e st2|?|?]; [|done..].
  injection E as <- _. simpl. rewrite Hf H2. destruct mv; simpl; split_and!; try done; lia.
Qed.
Lemma getr_cost ρ r st r' st' σ : reachable σ ρ st → is_Some (rng_values σ r) → getr ρ r st = Ok r' st' →
  input_ok (C:=C) r' ∧ input_cost r' = rng_copies σ r ∧ oper_cost r' = match r with RList _ => 1 | _ => 0 end.
Proof.
  intros Hr Hv E. destruct r as [xs|mv w1 w2].
  { injection E as <- _. simpl. split_and!; [done|lia|done]. }
  rewrite /getr /geti /lookup_var in E. destruct mv.
  { unfold mbind, M_bind in E. destruct (e_iter ρ !! w1); [|done]. simpl in E. destruct (e_iter ρ !! w2); [|done].
    injection E as <- _. done. }
  destruct Hv as [vs Hv]. cbn [rng_copies]. rewrite /rng_length Hv. cbn [default from_option]. simpl in Hv.
  destruct (iters σ !! w1) as [[x p]|] eqn:H1; [|done]. simpl in Hv. destruct (iters σ !! w2) as [[y q]|] eqn:H2; [|done]. simpl in Hv.
  destruct ((x =? y) && (p <=? q)) eqn:Hb; [|done]. injection Hv as <-. apply andb_true_iff in Hb as [->%Nat.eqb_eq Hle%Nat.leb_le].
  destruct (R_iter _ _ _ _ _ _ (reachable_R _ _ _ Hr) H1) as (o & a & l & it & Hl & Ho & Hit & Hok & Hp & Hc).
  destruct (R_iter _ _ _ _ _ _ (reachable_R _ _ _ Hr) H2) as (o2 & a2 & l2 & it2 & Hl2 & Ho2 & Hit2 & Hok2 & Hp2 & Hc2).
  unfold mbind, M_bind in E. rewrite Hit /= Hit2 in E. injection E as <- _. simpl. rewrite Hp Hp2.
  pose proof (it_ok_le _ _ Hok2) as Hle2. rewrite Hp2 in Hle2.
  pose proof (see _ _ _ _ _ _ Hr Hc2) as Hs. destruct (reachable_sized _ _ _ y Hr (see_live _ _ _ _ Hs)) as (_ & _ & _ & HW).
  rewrite (see_contents _ _ _ _ Hs) in HW |- *. change (length (oelems o2)) with (osize o2) in HW.
  split_and!; [lia|lia| |done]. rewrite /sub take_length drop_length. change (length (oelems o2)) with (osize o2). lia.
Qed.

Lemma upto_first_ {A B} n (m : (nat → bool) → M T A) (k : (nat → bool) → A → M T B) st :
  (∀ f, m f st = m all st) → (∀ x st', m all st = Ok x st' → upto n (λ f, k f x) st') → upto n (λ f, m f ≫= k f) st.
Proof. intros H. apply (upto_bind 0); by apply upto_zero. Qed.
Ltac upto_first := apply upto_first_; [reflexivity|].
Lemma upto_last {A B} n (m : (nat → bool) → M T A) (k : (nat → bool) → A → M T B) st :
  upto n m st → (∀ x st' f, k f x st' = k all x st') → upto n (λ f, m f ≫= k f) st.
Proof. intros H Hk. rewrite -(Nat.add_0_r n). apply upto_bind; [done|]. intros. by apply upto_zero. Qed.
Lemma getc_inv ρ x (st : state T) l st' : getc ρ x st = Ok l st' → e_cont ρ !! x = Some l ∧ st' = st.
Proof. rewrite /getc /lookup_var. destruct (e_cont ρ !! x); [|done]. by intros [= <- <-]. Qed.
Lemma geti_inv ρ x (st : state T) l st' : geti ρ x st = Ok l st' → e_iter ρ !! x = Some l ∧ st' = st.
Proof. rewrite /geti /lookup_var. destruct (e_iter ρ !! x); [|done]. by intros [= <- <-]. Qed.
Ltac fetch := repeat match goal with
  | |- upto _ (λ f, (getc _ _ ≫= _)) _ => let H := fresh "Hg" in upto_first; intros ? ? H; apply getc_inv in H as [? ->]
  | |- upto _ (λ f, (geti _ _ ≫= _)) _ => let H := fresh "Hg" in upto_first; intros ? ? H; apply geti_inv in H as [? ->]
  end.
Lemma whole_moves l st r st' : whole_range true l st = Ok r st' → ∃ f e, r = ISeq (T:=T) true f e.
Proof.
  unfold whole_range, mbind, M_bind. destruct (find_first l st) as [f st1|?|?]; [|done..].
  destruct (find_end l st1) as [e st2|?|?]; [|done..]. intros [= <- _]. eauto.
Qed.
Lemma sized_place l N st a l' st' : sized l N st → ctor_alloc a st = Ok l' st' → sized l N st'.
Proof.
  intros (s & Hs & Hn). unfold ctor_alloc, place. intros [= <- <-]. exists s. split; [|done]. simpl.
  rewrite lookup_insert_ne; [done|]. intros E. pose proof (ok_place _ OK (st_clk st) (st_heap st)) as H. rewrite E in H. congruence.
Qed.
Lemma upto_copy_alloc l N a st : sized l N st → N < c_W C →
  upto N (λ f, ctor_copy_alloc (C:=with_copies C f) l a) st.
Proof.
  intros Hs HN. apply upto_ctor. intros l' st1 Hl. pose proof (sized_place _ _ _ _ _ _ Hs Hl) as Hs1.
  upto_first. intros it st2 Hf. upto_first. intros r st3 Hw. apply upto_last; [|done].
  assert (st_heap st2 = st_heap st1) as Hh. { eapply (looks_heap (find_end l')); [intros; by apply eff_find_end|exact Hf]. }
  destruct (whole_cost false l N st2 r st3) as (Hok & <- & _); [by rewrite /sized Hh|done|exact Hw|]. by apply upto_emplace_range.
Qed.
Lemma sized_other σ ρ st x y l ly u st' :
  reachable σ ρ st → pre C σ (AssignCopy x y) → x ≠ y → e_cont ρ !! x = Some l → e_cont ρ !! y = Some ly →
  copy_assign_alloc (C:=C) l ly st = Ok u st' → sized ly (length (contents σ y)) st'.
Proof.
  intros Hr (Hx & Hy & Hp) Hne Hl Hly E. pose proof (reachable_R _ _ _ Hr) as HR. apply R_open in HR as (τ & Ha & Hrep).
  destruct (abs_live _ _ _ _ Ha Hx) as (o & a & l' & Ht & Hl' & Hc & Hal & _). rewrite Hl in Hl'. injection Hl' as <-.
  destruct (abs_live _ _ _ _ Ha Hy) as (o2 & b & l' & Ht2 & Hl' & Hc2 & Hal2 & _). rewrite Hly in Hl'. injection Hl' as <-.
  assert (c_pocca C = true → a ≠ b → may_purge (C:=C) o) as Hm.
  { intros H1 H2. eapply (can_purge_may _ (contents σ x)); [|done]. apply Hp; congruence. }
  assert (rep (C:=C) ρ τ ⊢ wp (F:=no_frozen) (copy_assign_alloc (C:=C) l ly)
    (λ _, seqp (C:=C) b b ly o2 ∗ True)%I (λ _, False)%I) as Hwp.
  { iIntros "Hr". iEval (rewrite (rep_take2 _ _ _ _ _ _ _ _ _ _ Hne Ht Hl Ht2 Hly)) in "Hr".
    iDestruct "Hr" as "(Hs & Hs2 & Hr)". iApply (wp_copy_assign_alloc with "Hs Hs2"); [done|]. iIntros (o' a' _) "_ Hs2".
    iFrame "Hs2". }
  pose proof (hprop_in_entails _ _ Hwp _ Hrep) as H1. rewrite wp_holds in H1. destruct st as [h clk cnt].
  specialize (H1 ∅ clk cnt ltac:(apply map_disjoint_empty_r) (map_empty_subseteq ∅)). rewrite right_id_L in H1. simpl in H1.
  rewrite E in H1. destruct H1 as (h' & _ & Hh' & _ & HQ). rewrite right_id_L in Hh'.
  apply sep_holds in HQ as (m1 & m2 & -> & Hd & Hseq & _).
  assert (m1 ⊆ st_heap st') as Hm1 by (rewrite Hh'; by apply map_union_subseteq_l).
  pose proof (seqp_lives _ _ _ _ _ Hseq Hm1) as Ho. rewrite Hc2. destruct o2 as [t|]; simpl in Ho.
  - destruct Ho as (n & _ & _ & Hs & _). eexists. split; [exact Hs|done].
  - eexists. split; [exact Ho|done].
Qed.
Lemma upto_call σ ρ st c : reachable σ ρ st → pre C σ c → upto (most_copies σ c) (λ f, exec_call (C:=with_copies C f) c ρ) st.
Proof.
  intros Hr Hp. destruct c.
  all: lazymatch goal with
  | |- context [NewCount] => idtac | |- context [NewRange] => idtac | |- context [NewCopy] => idtac
  | |- context [NewCopyAlloc] => idtac | |- context [NewMoveAlloc] => idtac | |- context [AssignCopy] => idtac
  | |- context [AssignMove] => idtac | |- context [AssignCount] => idtac | |- context [AssignRange] => idtac
  | |- context [Write] => idtac | |- context [InsertOne] => idtac | |- context [InsertCount] => idtac
  | |- context [InsertRange] => idtac | |- context [PushBack] => idtac | |- context [PushFront] => idtac
  | |- context [Resize] => idtac | |- context [SpliceAll] => idtac | |- context [SpliceOne] => idtac
  | |- context [SpliceRange] => idtac | |- context [MergeIn] => idtac
  | |- _ => apply upto_zero; reflexivity end.
  all: cbn [exec_call most_copies pre] in *.
  - (* NewCount *) upto_first. intros v st1 Hv. pose proof (gets_cost _ _ _ _ _ Hv) as Hc. apply upto_last; [|done].
    apply upto_ctor. intros l st2 _. upto_first. intros it st3 _. apply upto_last; [|done].
    eapply upto_mono; [apply upto_emplace_count|]. rewrite Hc. destruct s; simpl; lia.
  - (* NewRange *) destruct Hp as (_ & (xs & Hx & _) & _). upto_first. intros v st1 Hv.
    destruct (getr_cost _ _ _ _ _ _ Hr (mk_is_Some _ _ Hx) Hv) as (Hok & <- & _). apply upto_last; [|done].
    apply upto_ctor. intros l st2 _. upto_first. intros it st3 _. apply upto_last; [|done]. by apply upto_emplace_range.
  - (* NewCopy *) destruct Hp as (_ & Hy & _). destruct (reachable_sized _ _ _ _ Hr Hy) as (l & Hl & Hs & HW). fetch. simplify_eq.
    apply upto_last; [|done]. unfold ctor_copy. upto_first. intros b st1 Hb.
    assert (st_heap st1 = st_heap st) as Hh. { eapply (looks_heap (get_element_allocator l)); [intros; by apply eff_get_element_allocator|exact Hb]. }
    apply (upto_copy_alloc l _ (c_soccc C b)); [by rewrite /sized Hh|done].
  - (* NewCopyAlloc *) destruct Hp as (_ & Hy & _). destruct (reachable_sized _ _ _ _ Hr Hy) as (l & Hl & Hs & HW). fetch. simplify_eq.
    apply upto_last; [|done]. by apply upto_copy_alloc.
  - (* NewMoveAlloc *) fetch. apply upto_last; [|done]. apply upto_ctor. intros l' st2 _.
    upto_first. intros a1 st3 _. upto_first. intros a2 st4 _. destruct (a1 =? a2); [by apply upto_zero|].
    upto_first. intros it st5 _. upto_first. intros r st6 Hw. apply upto_last; [|done].
    destruct (whole_moves _ _ _ _ Hw) as (f & e & ->). by apply (upto_emplace_range _ _ (ISeq true f e)).
  - (* AssignCopy *) destruct (decide (x = y)) as [->|Hne].
    { fetch. simplify_eq. apply upto_last; [|done]. unfold op_copy_assign. rewrite Pos.eqb_refl. eapply upto_mono; [by apply upto_zero|lia]. }
    pose proof Hp as (Hx & Hy & _). destruct (reachable_sized _ _ _ _ Hr Hy) as (l & Hl & Hs & HW). fetch. simplify_eq.
    apply upto_last; [|done]. unfold op_copy_assign. destruct (negb _); [|eapply upto_mono; [by apply upto_zero|lia]].
    upto_first. intros [] st1 Hca. upto_first. intros r st2 Hw.
    pose proof (sized_other σ ρ st x y x0 l () st1 Hr Hp Hne ltac:(done) ltac:(done) Hca) as Hs1.
    destruct (whole_cost false l _ st1 r st2 Hs1 HW Hw) as (Hok & <- & Ho).
    eapply upto_mono; [by apply upto_assign_range|]. rewrite Ho. lia.
  - (* AssignMove *) fetch. apply upto_last; [|done]. unfold op_move_assign, move_assign. simpl.
    destruct (c_pocma C); [by apply upto_zero|]. upto_first. intros a1 st3 _. upto_first. intros a2 st4 _.
    destruct (a1 =? a2); [by apply upto_zero|]. simpl. upto_first. intros f st5 _. upto_first. intros e st6 _.
    by apply (upto_assign_range _ (ISeq true f e)).
  - (* AssignCount *) fetch. upto_first. intros v st1 Hv. pose proof (gets_cost _ _ _ _ _ Hv) as Hc. apply upto_last; [|done].
    eapply upto_mono; [apply upto_assign_count|]. rewrite Hc. destruct s; simpl; lia.
  - (* AssignRange *) destruct Hp as (_ & (xs & Hx & _) & _). fetch. upto_first. intros v st1 Hv.
    destruct (getr_cost _ _ _ _ _ _ Hr (mk_is_Some _ _ Hx) Hv) as (Hok & <- & <-). apply upto_last; [|done].
    by apply upto_assign_range.
  - (* Write *) fetch. upto_first. intros v st1 Hv. rewrite -(gets_cost _ _ _ _ _ Hv). apply upto_last; [|done].
    apply upto_assign_value.
  - (* InsertOne *) fetch. upto_first. intros v st1 Hv. rewrite -(gets_cost _ _ _ _ _ Hv). apply upto_last; [|done].
    apply upto_emplace_single.
  - (* InsertCount *) fetch. upto_first. intros v st1 Hv. pose proof (gets_cost _ _ _ _ _ Hv) as Hc. apply upto_last; [|done].
    eapply upto_mono; [apply upto_emplace_count|]. rewrite Hc. destruct s; simpl; lia.
  - (* InsertRange *) destruct Hp as (p & xs & _ & Hx & _). fetch. upto_first. intros v st1 Hv.
    destruct (getr_cost _ _ _ _ _ _ Hr (mk_is_Some _ _ Hx) Hv) as (Hok & <- & _). apply upto_last; [|done].
    by apply upto_emplace_range.
  - (* PushBack *) fetch. upto_first. intros v st1 Hv. rewrite -(gets_cost _ _ _ _ _ Hv). apply upto_last; [|done].
    upto_first. intros it st2 _. apply upto_last; [|done]. apply upto_emplace_single.
  - (* PushFront *) fetch. upto_first. intros v st1 Hv. rewrite -(gets_cost _ _ _ _ _ Hv). apply upto_last; [|done].
    upto_first. intros it st2 _. apply upto_last; [|done]. apply upto_emplace_single.
  - (* Resize *) destruct Hp as (Hx & _). destruct (reachable_sized _ _ _ _ Hr Hx) as (l & Hl & Hs & HW). fetch. simplify_eq.
    upto_first. intros v st1 Hv. pose proof (gets_cost _ _ _ _ _ Hv) as Hc. apply upto_last; [|done].
    unfold resize_, resize_count. upto_first. intros sz st2 Hsz.
    assert (st1 = st) as ->.
    { revert Hv. destruct s as [u|w|w]; rewrite /gets /geti /lookup_var; [by intros [= _ <-]|..].
      all: unfold mbind, M_bind; destruct (e_iter ρ !! w); [|done]; by intros [= _ <-]. }
    assert (sz = length (contents σ x)) as ->.
    { assert (wlp (size_ l) st (λ n _, n = length (contents σ x)) (λ _ _, True)) as H2 by (by eapply wlp_size).
      rewrite /wlp /size_ in H2. change (get_size l st = Ok sz st2) in Hsz. by rewrite Hsz in H2. }
    destruct (_ =? n); [eapply upto_mono; [by apply upto_zero|lia]|]. upto_first. intros it st3 _.
    destruct (n <? _); [eapply upto_mono; [by apply upto_zero|lia]|]. apply upto_last; [|done].
    eapply upto_mono; [apply upto_emplace_count|]. rewrite Hc. destruct s; simpl; lia.
  - (* SpliceAll *) fetch. apply upto_last; [|done]. upto_first. intros r st1 Hw. apply upto_last; [|done].
    destruct (whole_moves _ _ _ _ Hw) as (f & e & ->). by apply (upto_emplace_range _ _ (ISeq true f e)).
  - (* SpliceOne *) fetch. apply upto_last; [|done]. apply upto_last; [|done]. apply (upto_emplace_single _ _ (VRef _ _)).
  - (* SpliceRange *) fetch. apply upto_last; [|done]. apply upto_last; [|done]. by apply (upto_emplace_range _ _ (ISeq true _ _)).
  - (* MergeIn *) fetch. apply upto_last; [|done]. unfold ModelApi.merge. upto_first. intros sz st1 _.
    upto_first. intros e st2 _. upto_first. intros f st3 _. upto_first. intros e' st4 _.
    apply upto_last; [|done]. apply upto_last; [|done]. by apply (upto_emplace_range _ _ (ISeq true _ _)).
Qed.
End calls.
