(** * Asked: how often the algorithms apply a predicate.  Proof infrastructure.

    The positions of the iterators determine the number of rounds of the loops;
    nothing has to be known about the elements. *)
From Verif Require Export Quiet Honest.
From stdpp Require Import options.
Set Default Proof Using "Type*".

Section asked.
Context {T : Type} {C : cfg T} {OK : cfg_ok C}.
Implicit Types st : state T.
Notation unasked := (unasked (T:=T)).
Definition calls (st : state T) : nat := n_preds (st_cnt st).
Definition wlp {A} (m : M T A) st (Q : A → state T → Prop) (R : exn → state T → Prop) : Prop :=
  match m st with Ok a st' => Q a st' | Throw e st' => R e st' | Fault _ => True end.
Lemma wlp_bind {A B} (m : M T A) (k : A → M T B) st Q R :
  wlp m st (λ a st', wlp (k a) st' Q R) R → wlp (m ≫= k) st Q R.
Proof. rewrite /wlp /mbind /M_bind. by destruct (m st). Qed.
Lemma wlp_mono {A} (m : M T A) st (Q Q' : A → state T → Prop) (R R' : exn → state T → Prop) :
  wlp m st Q R → (∀ a st', Q a st' → Q' a st') → (∀ e st', R e st' → R' e st') → wlp m st Q' R'.
Proof. rewrite /wlp. intros H HQ HR. destruct (m st); auto. Qed.
(** a part that calls no predicate and does not throw *)
Lemma wlp_calm {A} (m : M T A) st (Q : A → state T → Prop) R :
  eff unasked m → act never m → (∀ a st', calls st' = calls st → Q a st') → wlp m st Q R.
Proof. intros H1 H2 HQ. specialize (H1 st). specialize (H2 st). rewrite /wlp. destruct (m st); [by apply HQ|done..]. Qed.
Lemma wlp_calm_bind {A B} (m : M T A) (k : A → M T B) st (Q : B → state T → Prop) R :
  eff unasked m → act never m → (∀ a st', calls st' = calls st → wlp (k a) st' Q R) → wlp (m ≫= k) st Q R.
Proof. intros. apply wlp_bind. by apply wlp_calm. Qed.

(** the applications with numbers n, ..., n' - 1 return *)
Definition fine (n n' : nat) : Prop := n ≤ n' ∧ ∀ j, n ≤ j < n' → c_pred_ok C j = true.
(** one of at most [m] applications, counted from [n], throws *)
Definition breaks (n m : nat) (e : exn) (st : state T) : Prop :=
  e = EPred ∧ ∃ k, calls st = S k ∧ k < n + m ∧ fine n k ∧ c_pred_ok C k = false.
Lemma fine_refl n : fine n n. Proof. split; [done|]. intros; lia. Qed.
Lemma fine_snoc n k : fine n k → c_pred_ok C k = true → fine n (S k).
Proof. intros [? H] ?. split; [lia|]. intros j Hj. destruct (decide (j = k)) as [->|]; [done|]. apply H. lia. Qed.
Lemma breaks_mono n m m' e st : breaks n m e st → m ≤ m' → breaks n m' e st.
Proof. intros (-> & k & ? & ? & ? & ?) ?. split; [done|]. exists k. split_and!; [done|lia|done|done]. Qed.

Lemma wlp_pred_tick n st m (Q : unit → state T → Prop) :
  fine n (calls st) → calls st < n + m →
  (∀ st', calls st' = S (calls st) → fine n (calls st') → Q () st') → wlp (pred_tick (C:=C)) st Q (breaks n m).
Proof.
  intros Hf Hm HQ. rewrite /wlp /pred_tick /mbind /M_bind /pred_clock /pred_done. destruct (c_pred_ok C _) eqn:E.
  - apply HQ; [done|]. by apply fine_snoc.
  - split; [done|]. by exists (calls st).
Qed.

Lemma u_read {A} (m : M T A) : (∀ P, PreOrder P → coarser P → eff P m) → eff unasked m.
Proof. intros H. apply H; [apply _|]. by intros st st' [_ [= ??]]. Qed.
Lemma u_next it : eff unasked (it_next it). Proof. apply u_read. intros. by apply eff_move_next_iterator. Qed.
Lemma u_deref it : eff unasked (it_deref it). Proof. apply u_read. intros. by apply eff_dereference. Qed.
Lemma u_begin l : eff unasked (begin_ l). Proof. apply u_read. intros. by apply eff_find_first. Qed.
Lemma u_end l : eff unasked (end_ l). Proof. apply u_read. intros. by apply eff_find_end. Qed.
Lemma u_size l : eff unasked (size_ l). Proof. apply u_read. intros. by apply eff_get_size. Qed.
Lemma u_erase l a b : eff unasked (erase_between l a b). Proof. apply (q_erase_range (C:=C) unasked). Qed.
Lemma c_erase l a b : act never (erase_between l a b). Proof. apply act_erase_range; [apply _|apply calm_move_tick]. Qed.
Lemma u_alg_move a b : eff unasked (alg_move a b). Proof. apply (q_alg_move (C:=C) unasked). Qed.
Lemma c_alg_move a b : act never (alg_move a b). Proof. apply act_alg_move; [apply _|apply calm_move_tick]. Qed.

(** positions *)
Lemma wlp_next it st (Q : iterator_data → state T → Prop) R :
  i_pos it + 1 < c_W C →
  (∀ it' st', calls st' = calls st → i_pos it' = S (i_pos it) → Q it' st') → wlp (it_next it) st Q R.
Proof.
  intros Hw HQ. pose proof (u_next it st) as H1. pose proof (act_move_next_iterator never it st) as H2.
  unfold it_next in *. rewrite /wlp. destruct (move_next_iterator it st) as [it' st'|e st'|] eqn:E; [|done..].
  apply HQ; [done|]. revert E. rewrite /move_next_iterator /mbind /M_bind. destruct (move_next_segment _ st); [|done..].
  intros [= <- _]. simpl. rewrite /wadd Nat.mod_small //. lia.
Qed.
Lemma wlp_next_any it st (Q : iterator_data → state T → Prop) R : (∀ it' st', calls st' = calls st → Q it' st') → wlp (it_next it) st Q R.
Proof. intros. apply wlp_calm; [apply u_next|apply act_move_next_iterator, _|done]. Qed.

Definition once (p : T → M T bool) : Prop := ∀ v st n m (Q : bool → state T → Prop),
  fine n (calls st) → calls st < n + m →
  (∀ b st', calls st' = S (calls st) → fine n (calls st') → Q b st') → wlp (p v) st Q (breaks n m).

Lemma wlp_find_if fuel first last p n m st (Q : iterator_data → state T → Prop) :
  once p → i_pos first ≤ i_pos last → i_pos last < c_W C → fine n (calls st) → calls st + (i_pos last - i_pos first) ≤ n + m →
  (∀ it st', fine n (calls st') → i_pos it ≤ i_pos last →
     (if i_pos it =? i_pos last then calls st' = calls st + (i_pos last - i_pos first)
      else calls st' + (i_pos last - S (i_pos it)) = calls st + (i_pos last - i_pos first)) → Q it st') →
  wlp (std_find_if fuel first last p) st Q (breaks n m).
Proof.
  intros Hp. revert first st. induction fuel as [|fuel IH]; intros first st Hle Hw Hf Hm HQ; cbn [std_find_if]; [done|].
  unfold it_eq. destruct (i_pos first =? i_pos last) eqn:Heq.
  { apply Nat.eqb_eq in Heq. apply HQ; [done|done|]. rewrite Heq Nat.eqb_refl. lia. }
  apply Nat.eqb_neq in Heq. apply wlp_calm_bind; [apply u_deref|apply act_dereference, _|]. intros v st1 E1.
  apply wlp_bind. apply Hp; [by rewrite E1|lia|]. intros b st2 E2 Hf2. destruct b.
  { apply HQ; [done|lia|]. rewrite (proj2 (Nat.eqb_neq _ _) Heq). lia. }
  apply wlp_bind, wlp_next; [lia|]. intros it' st3 E3 Hi. apply IH; [lia|done|by rewrite E3|lia|].
  intros it st' Hf' Hle' Hc'. apply HQ; [done|done|]. destruct (i_pos it =? i_pos last); lia.
Qed.
Lemma wlp_remove_loop fuel result first last p n m st (Q : iterator_data → state T → Prop) :
  once p → i_pos first ≤ i_pos last → i_pos last < c_W C → fine n (calls st) → calls st + (i_pos last - i_pos first) ≤ n + m →
  (∀ it st', fine n (calls st') → calls st' = calls st + (i_pos last - i_pos first) → Q it st') →
  wlp (std_remove_loop fuel result first last p) st Q (breaks n m).
Proof.
  intros Hp. revert result first st. induction fuel as [|fuel IH]; intros result first st Hle Hw Hf Hm HQ; cbn [std_remove_loop]; [done|].
  unfold it_eq. destruct (i_pos first =? i_pos last) eqn:Heq.
  { apply Nat.eqb_eq in Heq. apply HQ; [done|lia]. }
  apply Nat.eqb_neq in Heq. apply wlp_calm_bind; [apply u_deref|apply act_dereference, _|]. intros v st1 E1.
  apply wlp_bind. apply Hp; [by rewrite E1|lia|]. intros b st2 E2 Hf2. destruct b.
  { apply wlp_bind, wlp_next; [lia|]. intros it' st3 E3 Hi. apply IH; [lia|done|by rewrite E3|lia|].
    intros it st' Hf' Hc'. apply HQ; [done|lia]. }
  apply wlp_calm_bind; [apply u_alg_move|apply c_alg_move|]. intros _ st3 E3.
  apply wlp_bind, wlp_next_any. intros r' st4 E4.
  apply wlp_bind, wlp_next; [lia|]. intros it' st5 E5 Hi. apply IH; [lia|done|by rewrite E5 E4 E3|lia|].
  intros it st' Hf' Hc'. apply HQ; [done|lia].
Qed.
Lemma wlp_remove_if first last p n m st (Q : iterator_data → state T → Prop) :
  once p → i_pos first ≤ i_pos last → i_pos last < c_W C → fine n (calls st) → calls st + (i_pos last - i_pos first) ≤ n + m →
  (∀ it st', fine n (calls st') → calls st' = calls st + (i_pos last - i_pos first) → Q it st') →
  wlp (std_remove_if first last p) st Q (breaks n m).
Proof.
  intros Hp Hle Hw Hf Hm HQ. unfold std_remove_if. cbv zeta. apply wlp_bind.
  apply wlp_find_if; [done..|]. intros it st1 Hf1 Hle1 Hc1. unfold it_eq. destruct (i_pos it =? i_pos last) eqn:Heq.
  { by apply HQ. }
  apply Nat.eqb_neq in Heq. apply wlp_bind, wlp_next; [lia|]. intros nx st2 E2 Hn.
  apply wlp_remove_loop; [done|lia|done|by rewrite E2|lia|]. intros it' st' Hf' Hc'. apply HQ; [done|lia].
Qed.
Lemma wlp_adjacent fuel first last p n m st (Q : iterator_data → state T → Prop) :
  i_pos first < i_pos last → i_pos last < c_W C → fine n (calls st) → calls st + (i_pos last - S (i_pos first)) ≤ n + m →
  (∀ it st', fine n (calls st') →  i_pos it ≤ i_pos last →
     (if i_pos it =? i_pos last then calls st' = calls st + (i_pos last - S (i_pos first))
      else S (i_pos it) < i_pos last ∧ calls st' + (i_pos last - S (S (i_pos it))) = calls st + (i_pos last - S (i_pos first))) → Q it st') →
  wlp (std_adjacent_loop fuel first last p) st Q (breaks n m).
Proof.
  revert first st. induction fuel as [|fuel IH]; intros first st Hlt Hw Hf Hm HQ; cbn [std_adjacent_loop]; [done|].
  apply wlp_bind, wlp_next; [lia|]. intros nx st1 E1 Hn. unfold it_eq. destruct (i_pos nx =? i_pos last) eqn:Heq.
  { apply Nat.eqb_eq in Heq. apply HQ; [by rewrite E1|done|]. rewrite Nat.eqb_refl. lia. }
  apply Nat.eqb_neq in Heq. apply wlp_calm_bind; [apply u_deref|apply act_dereference, _|]. intros v st2 E2.
  apply wlp_calm_bind; [apply u_deref|apply act_dereference, _|]. intros w st3 E3.
  apply wlp_bind, wlp_pred_tick; [by rewrite E3 E2 E1|lia|]. intros st4 E4 Hf4. destruct (p v w).
  - apply HQ; [done|lia|]. rewrite (proj2 (Nat.eqb_neq _ _)); lia.
  - apply IH; [lia|done|done|lia|]. intros it st' Hf' Hle' Hc'. apply HQ; [done|done|].
    destruct (i_pos it =? i_pos last); lia.
Qed.
Lemma wlp_unique_loop fuel dest first last p n m st (Q : iterator_data → state T → Prop) :
  i_pos first < i_pos last → i_pos last < c_W C → fine n (calls st) → calls st + (i_pos last - S (i_pos first)) ≤ n + m →
  (∀ it st', fine n (calls st') → calls st' = calls st + (i_pos last - S (i_pos first)) → Q it st') →
  wlp (std_unique_loop fuel dest first last p) st Q (breaks n m).
Proof.
  revert dest first st. induction fuel as [|fuel IH]; intros dest first st Hlt Hw Hf Hm HQ; cbn [std_unique_loop]; [done|].
  apply wlp_bind, wlp_next; [lia|]. intros nx st1 E1 Hn. unfold it_eq. destruct (i_pos nx =? i_pos last) eqn:Heq.
  { apply Nat.eqb_eq in Heq. apply wlp_next_any. intros d st' E'. apply HQ; [by rewrite E' E1|lia]. }
  apply Nat.eqb_neq in Heq. apply wlp_calm_bind; [apply u_deref|apply act_dereference, _|]. intros v st2 E2.
  apply wlp_calm_bind; [apply u_deref|apply act_dereference, _|]. intros w st3 E3.
  apply wlp_bind, wlp_pred_tick; [by rewrite E3 E2 E1|lia|]. intros st4 E4 Hf4. destruct (p v w).
  - apply IH; [lia|done|done|lia|]. intros it st' Hf' Hc'. apply HQ; [done|lia].
  - apply wlp_bind, wlp_next_any. intros d st5 E5. apply wlp_calm_bind; [apply u_alg_move|apply c_alg_move|]. intros _ st6 E6.
    apply IH; [lia|done|by rewrite E6 E5|lia|]. intros it st' Hf' Hc'. apply HQ; [done|lia].
Qed.
Lemma wlp_unique first last p n m st (Q : iterator_data → state T → Prop) :
  i_pos first ≤ i_pos last → i_pos last < c_W C → fine n (calls st) → calls st + (i_pos last - S (i_pos first)) ≤ n + m →
  (∀ it st', fine n (calls st') → calls st' = calls st + (i_pos last - S (i_pos first)) → Q it st') →
  wlp (std_unique first last p) st Q (breaks n m).
Proof.
  intros Hle Hw Hf Hm HQ. unfold std_unique. cbv zeta. unfold it_eq. apply wlp_bind.
  destruct (i_pos first =? i_pos last) eqn:Heq.
  { apply Nat.eqb_eq in Heq. rewrite /wlp /=. rewrite Nat.eqb_refl. apply HQ; [done|lia]. }
  apply Nat.eqb_neq in Heq. apply wlp_adjacent; [lia|done..|]. intros it st1 Hf1 Hle1 Hc1.
  destruct (i_pos it =? i_pos last) eqn:Heq1; [by apply HQ|]. destruct Hc1 as [? Hc1].
  apply wlp_bind, wlp_next; [lia|]. intros nx st2 E2 Hn. apply wlp_unique_loop; [lia|done|by rewrite E2|lia|].
  intros it' st' Hf' Hc'. apply HQ; [done|lia].
Qed.
Lemma wlp_equal fuel f1 l1 f2 eq n m st (Q : bool → state T → Prop) :
  i_pos f1 ≤ i_pos l1 → i_pos l1 < c_W C → fine n (calls st) → calls st + (i_pos l1 - i_pos f1) ≤ n + m →
  (∀ b st', fine n (calls st') → calls st' ≤ calls st + (i_pos l1 - i_pos f1) →
     (b = true → calls st' = calls st + (i_pos l1 - i_pos f1)) → Q b st') →
  wlp (std_equal fuel f1 l1 f2 eq) st Q (breaks n m).
Proof.
  revert f1 f2 st. induction fuel as [|fuel IH]; intros f1 f2 st Hle Hw Hf Hm HQ; cbn [std_equal]; [done|].
  unfold it_eq. destruct (i_pos f1 =? i_pos l1) eqn:Heq.
  { apply Nat.eqb_eq in Heq. apply HQ; [done|lia|]. intros _. lia. }
  apply Nat.eqb_neq in Heq. apply wlp_calm_bind; [apply u_deref|apply act_dereference, _|]. intros v st2 E2.
  apply wlp_calm_bind; [apply u_deref|apply act_dereference, _|]. intros w st3 E3.
  apply wlp_bind, wlp_pred_tick; [by rewrite E3 E2|lia|]. intros st4 E4 Hf4. destruct (eq v w).
  - apply wlp_bind, wlp_next; [lia|]. intros a st5 E5 Ha. apply wlp_bind, wlp_next_any. intros b st6 E6.
    apply IH; [lia|done|by rewrite E6 E5|lia|]. intros r st' Hf' Hc' Hr. apply HQ; [done|lia|]. intros Ht. specialize (Hr Ht). lia.
  - apply HQ; [done|lia|done].
Qed.
Lemma wlp_lex fuel f1 l1 f2 l2 lt n m st (Q : bool → state T → Prop) :
  i_pos f1 ≤ i_pos l1 → i_pos l1 < c_W C → i_pos f2 ≤ i_pos l2 → i_pos l2 < c_W C → fine n (calls st) →
  calls st + 2 * ((i_pos l1 - i_pos f1) `min` (i_pos l2 - i_pos f2)) ≤ n + m →
  (∀ b st', fine n (calls st') → calls st' ≤ calls st + 2 * ((i_pos l1 - i_pos f1) `min` (i_pos l2 - i_pos f2)) → Q b st') →
  wlp (std_lexicographical_compare fuel f1 l1 f2 l2 lt) st Q (breaks n m).
Proof.
  revert f1 f2 st. induction fuel as [|fuel IH]; intros f1 f2 st Hle1 Hw1 Hle2 Hw2 Hf Hm HQ; cbn [std_lexicographical_compare]; [done|].
  unfold it_eq. destruct (i_pos f1 =? i_pos l1) eqn:Heq1. { apply HQ; [done|lia]. }
  destruct (i_pos f2 =? i_pos l2) eqn:Heq2. { apply HQ; [done|lia]. }
  apply Nat.eqb_neq in Heq1, Heq2. apply wlp_calm_bind; [apply u_deref|apply act_dereference, _|]. intros v st2 E2.
  apply wlp_calm_bind; [apply u_deref|apply act_dereference, _|]. intros w st3 E3.
  apply wlp_bind, wlp_pred_tick; [by rewrite E3 E2|lia|]. intros st4 E4 Hf4. destruct (lt v w). { apply HQ; [done|lia]. }
  apply wlp_bind, wlp_pred_tick; [done|lia|]. intros st5 E5 Hf5. destruct (lt w v). { apply HQ; [done|lia]. }
  apply wlp_bind, wlp_next; [lia|]. intros a st6 E6 Ha. apply wlp_bind, wlp_next; [lia|]. intros b st7 E7 Hb.
  apply IH; [lia|done|lia|done|by rewrite E7 E6|lia|]. intros r st' Hf' Hc'. apply HQ; [done|lia].
Qed.

(** begin() and end() *)
Definition sized (l : loc) (N : nat) st : Prop := ∃ s, st_heap st !! l = Some (OSeq s) ∧ s_size s = N.
Lemma sized_read {A} (m : M T A) l N st (Q : A → state T → Prop) R :
  (∀ P, PreOrder P → coarser P → eff P m) → act never m → sized l N st →
  (∀ a st', m st = Ok a st' → calls st' = calls st → st_heap st' = st_heap st → Q a st') → wlp m st Q R.
Proof.
  intros He Ha Hs HQ. pose proof (He looks) as H. rewrite /wlp.
  assert (PreOrder (looks (T:=T))) as Hpre. { split; [intros x; split; [reflexivity|done]|]. intros x y z [? ?] [? ?]. split; [by etrans|congruence]. }
  specialize (H Hpre (λ _ _ H, H) st). specialize (Ha st). destruct (m st) as [a st'|e st'|]; [|done..].
  destruct H as [(Hh & _) [= Hc _]]. by apply HQ.
Qed.
Lemma load_sized (l : loc) N st (s : seqobj) st' : load_seq l st = Ok s st' → sized l N st → s_size s = N.
Proof.
  intros H (s' & Hs & <-). revert H. rewrite /load_seq /mbind /M_bind /load. rewrite Hs. by intros [= <- _].
Qed.
Lemma wlp_begin l N st (Q : iterator_data → state T → Prop) R : sized l N st →
  (∀ it st', calls st' = calls st → st_heap st' = st_heap st → i_pos it = 0 → Q it st') → wlp (begin_ l) st Q R.
Proof.
  intros Hs HQ. eapply sized_read; [intros; by apply eff_find_first|apply act_find_first, _|done|].
  intros it st' E Hc Hs'. apply HQ; [done..|]. revert E. rewrite /begin_ /find_first /mbind /M_bind.
  destruct (get_root l st) as [r st1|?|?]; [|done..]. destruct (get_size l st1) as [n st2|?|?]; [|done..].
  destruct (get_height l st2) as [h st3|?|?]; [|done..]. rewrite /find_first_root. destruct (h <? 2); [by intros [= <- _]|].
  rewrite /mbind /M_bind. destruct (find_first_node r h st3); [|done..]. by intros [= <- _].
Qed.
Lemma wlp_size l N st (Q : nat → state T → Prop) R : sized l N st →
  (∀ st', calls st' = calls st → st_heap st' = st_heap st → Q N st') → wlp (size_ l) st Q R.
Proof.
  intros Hs HQ. eapply sized_read; [intros; by apply eff_get_size|apply act_get_size, _|done|].
  intros n st' E Hc Hs'. assert (n = N) as ->; [|by apply HQ].
  revert E. rewrite /size_ /get_size /mbind /M_bind. destruct (load_seq l st) as [s st1|?|?] eqn:El; [|done..]. intros [= <- <-].
  by eapply load_sized.
Qed.
Lemma wlp_end l N st (Q : iterator_data → state T → Prop) R : sized l N st →
  (∀ it st', calls st' = calls st → st_heap st' = st_heap st → i_pos it = N → Q it st') → wlp (end_ l) st Q R.
Proof.
  intros Hs HQ. eapply sized_read; [intros; by apply eff_find_end|apply act_find_end, _|done|].
  intros it st' E Hc Hs'. apply HQ; [done..|]. revert E. rewrite /end_ /find_end /mbind /M_bind.
  destruct (get_root l st) as [r st1|?|?] eqn:E1; [|done..]. destruct (get_size l st1) as [n st2|?|?] eqn:E2; [|done..].
  assert (n = N) as ->.
  { assert (wlp (get_root l) st (λ _ st1, sized l N st1) (λ _ _, True)) as H1.
    { eapply sized_read; [intros; by apply eff_get_root|apply act_get_root, _|done|]. intros ? ? _ _ Hh. by rewrite /sized Hh. }
    rewrite /wlp E1 in H1. assert (wlp (size_ l) st1 (λ n _, n = N) (λ _ _, True)) as H2 by (by eapply wlp_size).
    by rewrite /wlp /size_ E2 in H2. }
  destruct (get_height l st2) as [h st3|?|?]; [|done..]. rewrite /find_end_root. destruct (h <? 2); [by intros [= <- _]|].
  rewrite /mbind /M_bind. destruct (find_end_node r h st3); [|done..]. by intros [= <- _].
Qed.

(** ** The member functions *)
Section calls.
Context (l : loc) (N : nat) (st : state T) (HN : N < c_W C) (Hs : sized l N st).
Lemma wlp_erasing p :
  once p →
  wlp (f ← begin_ l; e ← end_ l; f ← std_remove_if f e p; e ← end_ l; erase_between l f e;; mret ()) st
    (λ _ st', fine (calls st) (calls st') ∧ calls st' = calls st + N) (breaks (calls st) N).
Proof.
  intros Hp. apply wlp_bind. eapply wlp_begin; [done|]. intros f st1 E1 Hh1 Hf.
  apply wlp_bind. eapply (wlp_end l N); [by rewrite /sized Hh1|]. intros e st2 E2 Hh2 He.
  apply wlp_bind, wlp_remove_if; [done|lia|lia|rewrite E2 E1; apply fine_refl|lia|]. intros g st3 Hf3 Hc3.
  apply wlp_calm_bind; [apply u_end|apply act_find_end, _|]. intros e' st4 E4.
  apply wlp_calm_bind; [apply u_erase|apply c_erase|]. intros _ st5 E5. split; [by rewrite E5 E4|lia].
Qed.
Lemma wlp_m_remove_if p :
  wlp (remove_if l p) st (λ _ st', fine (calls st) (calls st') ∧ calls st' = calls st + N) (breaks (calls st) N).
Proof.
  apply (wlp_erasing (λ x, pred_tick (C:=C);; mret (p x))). intros v st1 n m Q Hf Hm HQ. apply wlp_bind, wlp_pred_tick; [done..|].
  intros st2 E2 Hf2. by apply HQ.
Qed.
Lemma wlp_m_remove s eq :
  wlp (ModelApi.remove l s eq) st (λ _ st', fine (calls st) (calls st') ∧ calls st' = calls st + N) (breaks (calls st) N).
Proof.
  apply (wlp_erasing (λ x, v ← peek s; pred_tick (C:=C);; mret (eq x v))). intros v st1 n m Q Hf Hm HQ.
  apply wlp_calm_bind; [apply (q_peek (C:=C) unasked)|apply act_peek; [apply _|apply calm_move_tick]|]. intros u st2 E2.
  apply wlp_bind, wlp_pred_tick; [by rewrite E2|lia|]. intros st3 E3 Hf3. apply HQ; [lia|done].
Qed.
Lemma wlp_m_unique p :
  wlp (unique l p) st (λ _ st', fine (calls st) (calls st') ∧ calls st' = calls st + (N - 1)) (breaks (calls st) (N - 1)).
Proof.
  unfold unique. apply wlp_bind. eapply wlp_begin; [done|]. intros f st1 E1 Hh1 Hf.
  apply wlp_bind. eapply (wlp_end l N); [by rewrite /sized Hh1|]. intros e st2 E2 Hh2 He.
  apply wlp_bind, wlp_unique; [lia|lia|rewrite E2 E1; apply fine_refl|lia|]. intros g st3 Hf3 Hc3.
  apply wlp_calm_bind; [apply u_end|apply act_find_end, _|]. intros e' st4 E4.
  apply wlp_calm_bind; [apply u_erase|apply c_erase|]. intros _ st5 E5. split; [by rewrite E5 E4|lia].
Qed.
Context (l' : loc) (N' : nat) (HN' : N' < c_W C) (Hs' : sized l' N' st).
Lemma wlp_m_eq eq :
  wlp (op_eq l l' eq) st (λ b st', fine (calls st) (calls st') ∧
      if N =? N' then calls st' ≤ calls st + N ∧ (b = true → calls st' = calls st + N) else b = false ∧ calls st' = calls st)
    (breaks (calls st) (if N =? N' then N else 0)).
Proof.
  unfold op_eq. apply wlp_bind. eapply (wlp_size l N); [done|]. intros st1 E1 H1.
  apply wlp_bind. eapply (wlp_size l' N'); [by rewrite /sized H1|]. intros st2 E2 H2.
  destruct (N =? N') eqn:HNN. 2: { rewrite /wlp /=. split_and!; [rewrite E2 E1; apply fine_refl|done|lia]. }
  apply wlp_bind. eapply (wlp_begin l N); [by rewrite /sized H2 H1|]. intros f st3 E3 H3 Hf.
  apply wlp_bind. eapply (wlp_end l N); [by rewrite /sized H3 H2 H1|]. intros e st4 E4 H4 He.
  apply wlp_bind. eapply (wlp_begin l' N'); [by rewrite /sized H4 H3 H2 H1|]. intros f' st5 E5 H5 Hf'.
  assert (calls st5 = calls st) as Ec by congruence.
  apply wlp_equal; [lia|lia|rewrite Ec; apply fine_refl|lia|]. intros b st' Hfi Hc Hb. rewrite Ec in Hc, Hb.
  split_and!; [done|lia|]. intros Ht. specialize (Hb Ht). lia.
Qed.
Lemma wlp_m_lt lt :
  wlp (op_lt l l' lt) st (λ b st', fine (calls st) (calls st') ∧ calls st' ≤ calls st + 2 * (N `min` N'))
    (breaks (calls st) (2 * (N `min` N'))).
Proof.
  unfold op_lt.
  apply wlp_bind. eapply (wlp_begin l N); [done|]. intros f st1 E1 H1 Hf.
  apply wlp_bind. eapply (wlp_end l N); [by rewrite /sized H1|]. intros e st2 E2 H2 He.
  apply wlp_bind. eapply (wlp_begin l' N'); [by rewrite /sized H2 H1|]. intros f' st3 E3 H3 Hf'.
  apply wlp_bind. eapply (wlp_end l' N'); [by rewrite /sized H3 H2 H1|]. intros e' st4 E4 H4 He'.
  assert (calls st4 = calls st) as Ec by congruence.
  apply wlp_lex; [lia|lia|lia|lia|rewrite Ec; apply fine_refl|rewrite Ec Hf Hf' He He' !Nat.sub_0_r; lia|].
  intros b st' Hfi Hc. rewrite Ec Hf Hf' He He' !Nat.sub_0_r in Hc. done.
Qed.
End calls.
End asked.
