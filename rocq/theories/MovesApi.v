(** * MovesApi: how many moves of elements every call makes.  Proof infrastructure
    and the bounds (specification); the statements are in PropsMoves.v. *)
From Verif Require Export Moves.
From Verif Require Import Asked.
From stdpp Require Import options.
#[local] Set Default Proof Using "Type*".

Section loops.
Context {T : Type} {C : cfg T} {OK : cfg_ok C}.
Notation all := (λ _ : nat, true).
Notation w f := (with_moves C f).
Notation sm := (segment_max (C:=C)).
Notation keeps m := (eff (karr (C:=C)) m).
Notation arr st := (arrays (C:=C) (st_heap st)).
Implicit Types it : iterator_data.

(** one element inserted, one element erased *)
Definition per_insert : nat := sm + 2.
Definition per_erase : nat := 2 * sm.

Lemma up_first {A B} n (m : (nat → bool) → M T A) (k : (nat → bool) → A → M T B) st :
  (∀ f, m f st = m all st) → keeps (m all) → arr st →
  (∀ x st', m all st = Ok x st' → arr st' → upto n (λ f, k f x) st') → upto n (λ f, m f ≫= k f) st.
Proof. intros Hm He Ha Hk. apply upto_first_; [done|]. intros x st' E. apply Hk; [done|]. by eapply keeps_ok. Qed.
Lemma up_bind {A B} a n (m : (nat → bool) → M T A) (k : (nat → bool) → A → M T B) st :
  mv (C:=C) a m → a ≤ n → keeps (m all) → arr st →
  (∀ x st', m all st = Ok x st' → arr st' → upto (n - a) (λ f, k f x) st') → upto n (λ f, m f ≫= k f) st.
Proof.
  intros Hm Hn He Ha Hk. eapply upto_mono; [apply upto_bind with (b := n - a); [by apply Hm|]|lia].
  intros x st' E. apply Hk; [done|]. by eapply keeps_ok.
Qed.

(** ** One element *)
Definition amv (s : vsrc (T:=T)) : nat := match s with VMove _ _ => 1 | _ => 0 end.
Lemma mv_make_value s : mv (C:=C) (amv s) (λ f, make_value (C:=w f) s).
Proof.
  destruct s as [v|p i|p i]; simpl; [by apply mv_zero..|].
  apply mv_first; [done|apply eff_read_slot; [apply _|apply karr_coarser]|]. intros v. apply mv_last; [apply mv_tick|done].
Qed.
Lemma mv_assign_value p i s : mv (C:=C) (amv s) (λ f, assign_value (C:=w f) p i s).
Proof. apply mv_last; [apply mv_make_value|done]. Qed.
Lemma mv_emplace_single l it s : mv (C:=C) (per_insert + amv s) (λ f, emplace_single (C:=w f) l it s).
Proof.
  eapply mv_bind; [apply mv_make_value|lia|apply (a_make_value (C:=w all))|]. intros v.
  eapply (mv_bind 1); [apply mv_tick|rewrite /per_insert; lia|apply (a_move_tick (C:=w all))|]. intros _.
  apply mv_last; [|done]. eapply mv_mono; [apply mv_insert_segment|rewrite /per_insert; lia].
Qed.
Lemma mv_erase_single l it : mv (C:=C) per_erase (λ f, erase_single (C:=w f) l it).
Proof. apply mv_last; [apply mv_erase_segment|done]. Qed.

(** ** Positions *)
Lemma pos_next it st it' st' : move_next_iterator (C:=w all) it st = Ok (T:=T) it' st' → i_pos it' = wadd (C:=C) (i_pos it) 1.
Proof. unfold move_next_iterator, mbind, M_bind. destruct (move_next_segment _ _); [|done..]. by intros [= <- _]. Qed.
Lemma pos_next' it st it' st' : move_next_iterator (C:=w all) it st = Ok (T:=T) it' st' → i_pos it < c_W C - 1 → i_pos it' = S (i_pos it).
Proof. intros H%pos_next Hw. rewrite H /wadd Nat.mod_small; lia. Qed.
Lemma pos_prev it st it' st' : move_prev_iterator (C:=w all) it st = Ok (T:=T) it' st' → i_pos it' = wsub (C:=C) (i_pos it) 1.
Proof. unfold move_prev_iterator, mbind, M_bind. destruct (move_prev_segment _ _); [|done..]. by intros [= <- _]. Qed.
Lemma pos_erase l it st it' st' : erase_single (C:=w all) l it st = Ok (T:=T) it' st' → i_pos it' = i_pos it.
Proof.
  unfold erase_single, mbind, M_bind. destruct (erase_single_segment _ _ _); [|done..].
  match goal with |- match ?m with _ => _ end = _ → _ => destruct m end; [|done..]. by intros [= <- _].
Qed.
Lemma k_next it : keeps (move_next_iterator (C:=w all) it).
Proof. apply eff_move_next_iterator; [apply _|apply karr_coarser]. Qed.
Lemma k_prev it : keeps (move_prev_iterator (C:=w all) it).
Proof. apply eff_move_prev_iterator; [apply _|apply karr_coarser]. Qed.

(** ** Loops *)
Lemma mv_emplace_count_loop l n s : ∀ it, mv (C:=C) (n * (per_insert + amv s)) (λ f, emplace_count_loop (C:=w f) l it n s).
Proof.
  induction n as [|n IH]; intros it; [by apply mv_zero|]. cbn [emplace_count_loop].
  eapply mv_bind; [apply mv_emplace_single|lia|apply (a_emplace_single (C:=w all))|]. intros it'.
  apply mv_first; [done|apply k_next|]. intros it''. eapply mv_mono; [apply IH|lia].
Qed.
Lemma mv_emplace_count l it n s : mv (C:=C) (n * (per_insert + amv s)) (λ f, emplace_count (C:=w f) l it n s).
Proof. apply mv_last; [apply mv_emplace_count_loop|done]. Qed.
Definition ilen (r : input (T:=T)) : nat := match r with IList xs => length xs | ISeq _ f l => i_pos l - i_pos f end.
Definition iok (r : input (T:=T)) : Prop := match r with ISeq _ f l => i_pos f ≤ i_pos l < c_W C | _ => True end.
Definition imv (r : input (T:=T)) : nat := match r with ISeq true _ _ => 1 | _ => 0 end.
Lemma in_end r st st' : input_end (C:=w all) r st = Ok false st' → iok r → 0 < ilen r.
Proof.
  destruct r as [[|x xs]|b f l]; simpl; [| lia|].
  - unfold mbind, M_bind. destruct (user_tick _); [|done..]. done.
  - intros [= H%Nat.eqb_neq _]. lia.
Qed.
Lemma in_src r st s st' : input_src (C:=w all) r st = Ok s st' → amv s = imv r.
Proof.
  destruct r as [[|x xs]|b f l]; simpl.
  - unfold mbind, M_bind. by destruct (user_tick _).
  - unfold mbind, M_bind. destruct (user_tick _); [|done..]. by intros [= <- _].
  - intros [= <- _]. by destruct b.
Qed.
Lemma in_next r st r' st' : input_next (C:=w all) r st = Ok r' st' → iok r → 0 < ilen r →
  iok r' ∧ imv r' = imv r ∧ ilen r = S (ilen r').
Proof.
  destruct r as [[|x xs]|b f l]; simpl; [lia|..]; intros E Hok Hpos.
  - unfold mbind, M_bind in E. destruct (user_tick _); [|done..]. by injection E as <- _.
  - unfold mbind, M_bind in E. destruct (move_next_iterator f st) as [f' st1|?|?] eqn:Ef; [|done..]. injection E as <- _.
    apply pos_next' in Ef; [|lia]. simpl. destruct b; split_and!; lia.
Qed.
Lemma up_emplace_range_loop l fuel : ∀ it r n st, iok r → arr st →
  upto (ilen r * (per_insert + imv r)) (λ f, emplace_range_loop (C:=w f) fuel l it r n) st.
Proof.
  induction fuel as [|fuel IH]; intros it r n st Hok Ha.
  { eapply upto_mono; [by apply upto_zero|apply Nat.le_0_l]. }
  cbn [emplace_range_loop]. apply up_first; [done|apply (a_input_end (C:=w all))|done|]. intros [] st1 He Ha1.
  { eapply upto_mono; [by apply upto_zero|apply Nat.le_0_l]. }
  pose proof (in_end _ _ _ He Hok) as Hpos.
  apply up_first; [done|apply (a_input_src (C:=w all))|done|]. intros s st2 Hs%in_src Ha2.
  eapply up_bind; [apply mv_emplace_single|rewrite Hs; destruct (ilen r) eqn:?; simpl; lia|apply (a_emplace_single (C:=w all))|done|]. intros it' st3 _ Ha3.
  apply up_first; [done|apply (a_input_next (C:=w all))|done|]. intros r' st4 Hn Ha4.
  destruct (in_next _ _ _ _ Hn Hok Hpos) as (Hok' & Hm & Hl).
  apply up_first; [done|apply k_next|done|]. intros it'' st5 _ Ha5.
  eapply upto_mono; [by apply IH|]. rewrite Hm Hs Hl. lia.
Qed.
Lemma up_emplace_range l it r st : iok r → arr st → upto (ilen r * (per_insert + imv r)) (λ f, emplace_range (C:=w f) l it r) st.
Proof. intros. apply upto_last; [by apply up_emplace_range_loop|done]. Qed.
Lemma up_erase_range_loop l fuel : ∀ a b st, i_pos a ≤ i_pos b < c_W C → arr st →
  upto ((i_pos b - i_pos a) * per_erase) (λ f, erase_range_loop (C:=w f) fuel l a b) st.
Proof.
  induction fuel as [|fuel IH]; intros a b st Hb Ha.
  { eapply upto_mono; [by apply upto_zero|apply Nat.le_0_l]. }
  change (upto ((i_pos b - i_pos a) * per_erase) (λ f, if wsub (C:=C) (i_pos b) (i_pos a) =? 0 then mret b else
    last ← move_prev_iterator (C:=C) b; last ← erase_single (C:=w f) l last; erase_range_loop (C:=w f) fuel l a last) st).
  rewrite wsub_small; [|lia|lia].
  destruct (_ =? 0) eqn:Hz; [eapply upto_mono; [by apply upto_zero|apply Nat.le_0_l]|]. apply Nat.eqb_neq in Hz.
  apply up_first; [done|apply k_prev|done|]. intros b1 st1 H1 Ha1. apply pos_prev in H1. rewrite wsub_small in H1; [|lia|lia].
  eapply up_bind; [apply mv_erase_single|destruct (i_pos b - i_pos a) eqn:?; simpl; lia|apply (a_erase_single (C:=w all))|done|].
  intros b2 st2 H2%pos_erase Ha2. eapply upto_mono; [apply IH; [lia|done]|].
  replace (i_pos b - i_pos a) with (S (i_pos b2 - i_pos a)) by lia. lia.
Qed.
Lemma up_erase_range l a b st : i_pos a ≤ i_pos b < c_W C → arr st →
  upto ((i_pos b - i_pos a) * per_erase) (λ f, erase_range (C:=w f) l a b) st.
Proof. intros H1 H2. exact (up_erase_range_loop l (S (wsub (C:=C) (i_pos b) (i_pos a))) a b st H1 H2). Qed.
(** assignment: the first elements are assigned, the rest is inserted or erased *)
Definition assigning (n N : nat) : nat := (n - N) * per_insert + (N - n) * per_erase.
Lemma up_assign_count_loop l n s : ∀ a b st, i_pos a ≤ i_pos b < c_W C → arr st →
  upto (n * amv s + assigning n (i_pos b - i_pos a)) (λ f, assign_count_loop (C:=w f) l n s a b) st.
Proof.
  induction n as [|n IH]; intros a b st Hb Ha; cbn [assign_count_loop].
  { apply upto_last; [|done]. eapply upto_mono; [by apply up_erase_range|]. rewrite /assigning. lia. }
  destruct (i_pos a =? i_pos b) eqn:E.
  { apply Nat.eqb_eq in E. apply upto_last; [|done]. eapply upto_mono; [by apply mv_emplace_count|]. rewrite /assigning. lia. }
  apply Nat.eqb_neq in E. eapply up_bind; [apply mv_assign_value|lia|apply (a_assign_value (C:=w all))|done|]. intros _ st1 _ Ha1.
  apply up_first; [done|apply k_next|done|]. intros a' st2 H2 Ha2. apply pos_next' in H2; [|lia].
  eapply upto_mono; [apply IH; [lia|done]|]. rewrite /assigning H2. replace (i_pos b - i_pos a) with (S (i_pos b - S (i_pos a))) by lia. lia.
Qed.
Lemma up_assign_range_loop l fuel : ∀ r a b st, iok r → i_pos a ≤ i_pos b < c_W C → arr st →
  upto (ilen r * imv r + assigning (ilen r) (i_pos b - i_pos a)) (λ f, assign_range_loop (C:=w f) fuel l r a b) st.
Proof.
  induction fuel as [|fuel IH]; intros r a b st Hok Hb Ha.
  { eapply upto_mono; [by apply upto_zero|apply Nat.le_0_l]. }
  cbn [assign_range_loop]. apply up_first; [done|apply (a_input_end (C:=w all))|done|]. intros [] st1 He Ha1.
  { apply upto_last; [|done]. eapply upto_mono; [by apply up_erase_range|]. 
    assert (ilen r = 0) as ->; [|rewrite /assigning; lia].
    destruct r as [[|]|b' f' l']; simpl in *; [done| |injection He as He%Nat.eqb_eq; lia].
    unfold mbind, M_bind in He. by destruct (user_tick st). }
  pose proof (in_end _ _ _ He Hok) as Hpos.
  destruct (i_pos a =? i_pos b) eqn:E.
  { apply Nat.eqb_eq in E. apply upto_last; [|done]. eapply upto_mono; [by apply up_emplace_range|]. rewrite /assigning. lia. }
  apply Nat.eqb_neq in E.
  apply up_first; [done|apply (a_input_src (C:=w all))|done|]. intros s st2 Hs%in_src Ha2.
  eapply up_bind; [apply mv_assign_value|rewrite Hs; destruct (ilen r) eqn:?; simpl; lia|apply (a_assign_value (C:=w all))|done|]. intros _ st3 _ Ha3.
  apply up_first; [done|apply k_next|done|]. intros a' st4 H4 Ha4. apply pos_next' in H4; [|lia].
  apply up_first; [done|apply (a_input_next (C:=w all))|done|]. intros r' st5 Hn Ha5.
  destruct (in_next _ _ _ _ Hn Hok Hpos) as (Hok' & Hm & Hl).
  eapply upto_mono; [apply IH; [done|lia|done]|]. rewrite /assigning Hm Hs Hl H4. replace (i_pos b - i_pos a) with (S (i_pos b - S (i_pos a))) by lia. lia.
Qed.
End loops.

(** ** Algorithms *)
Section algs.
Context {T : Type} {C : cfg T} {OK : cfg_ok C}.
Notation all := (λ _ : nat, true).
Notation w f := (with_moves C f).
Notation arr st := (arrays (C:=C) (st_heap st)).
Implicit Types it : iterator_data.

(** the number of elements stays what it is *)
Section ksz.
Context (l : loc) (N : nat).
Definition ksz (st st' : state T) : Prop := sized l N st → sized l N st'.
#[local] Instance ksz_preorder : PreOrder ksz.
Proof. split; [by intros ??|]. intros x y z H1 H2 H. by apply H2, H1. Qed.
Lemma ksz_coarser : coarser ksz.
Proof. apply coarser_same. intros st st' (Hh & _). rewrite /ksz /sized. by rewrite Hh. Qed.
Lemma ksz_allows : allows ksz.
Proof. apply allows_same. intros st st' (Hh & _). rewrite /ksz /sized. by rewrite Hh. Qed.
Notation eff := (eff ksz).
Hint Resolve ksz_preorder ksz_coarser ksz_allows : eff.
Hint Resolve eff_read_slot eff_move_next_iterator eff_move_prev_iterator eff_dereference : eff.
Ltac eff_go ::=
  repeat first
    [ progress intros
    | solve [auto with eff typeclass_instances]
    | apply eff_bind; [apply _| |]
    | match goal with
      | |- Effects.eff _ (match ?x with _ => _ end) => destruct x
      | |- Effects.eff _ (let _ := _ in _) => cbv zeta
      end ].
Lemma z_tick ok e : eff (tick ok e).
Proof. intros st. rewrite /tick. destruct (ok _); intros H; exact H. Qed.
Lemma z_move_tick : eff (move_tick (C:=w all)). Proof. unfold move_tick. destruct (c_triv_copy _); [|apply z_tick]. intros st H. exact H. Qed.
Lemma z_user_tick : eff (user_tick (C:=w all)). Proof. apply z_tick. Qed.
Hint Resolve z_move_tick z_user_tick : eff.
Lemma z_set_slot p i c : eff (set_slot (T:=T) p i c).
Proof.
  intros st. rewrite /set_slot /load_seg /load /mbind /M_bind.
  destruct p as [k|]; [|done]. destruct (st_heap st !! k) as [[al sl| |]|] eqn:E; try done. simpl. rewrite /put.
  destruct (_ <? _); [|done]. intros (s & Hs & HN). exists s. split; [|done]. simpl.
  rewrite lookup_insert_ne; [done|]. intros ->. congruence.
Qed.
Hint Resolve z_set_slot : eff.
Ltac its := unfold it_deref, it_next, it_prev.
Lemma z_alg_move a b : eff (alg_move (C:=w all) a b).
Proof. unfold alg_move, it_assign, assign_value, make_value. eff_go. Qed.
Lemma z_pred_tick : eff (pred_tick (C:=w all)). Proof. apply eff_pred_tick; [apply _|apply ksz_coarser|apply ksz_allows]. Qed.
Hint Resolve z_alg_move z_pred_tick : eff.
Lemma z_find_if n a b p : (∀ v, eff (p v)) → eff (std_find_if (C:=w all) n a b p).
Proof. intros Hp. revert a. induction n as [|n IH]; intros a; cbn [std_find_if]; its; eff_go. Qed.
Lemma z_remove_loop n r a b p : (∀ v, eff (p v)) → eff (std_remove_loop (C:=w all) n r a b p).
Proof. intros Hp. revert r a. induction n as [|n IH]; intros r a; cbn [std_remove_loop]; its; eff_go. Qed.
Lemma z_adjacent_loop n a b p : eff (std_adjacent_loop (C:=w all) n a b p).
Proof. revert a. induction n as [|n IH]; intros a; cbn [std_adjacent_loop]; its; eff_go. Qed.
Lemma z_unique_loop n d a b p : eff (std_unique_loop (C:=w all) n d a b p).
Proof. revert d a. induction n as [|n IH]; intros d a; cbn [std_unique_loop]; its; eff_go. Qed.
Hint Resolve z_find_if z_remove_loop z_adjacent_loop z_unique_loop : eff.
Lemma z_remove_if a b p : (∀ v, eff (p v)) → eff (std_remove_if (C:=w all) a b p). Proof. unfold std_remove_if. its. eff_go. Qed.
Lemma z_unique a b p : eff (std_unique (C:=w all) a b p). Proof. unfold std_unique. its. eff_go. Qed.
End ksz.

Lemma up_alg_move a b st : upto 1 (λ f, alg_move (C:=w f) a b) st.
Proof.
  unfold alg_move, it_assign, assign_value. apply upto_last; [|done]. unfold make_value. apply upto_first_; [done|].
  intros v st1 _. apply upto_last; [|done]. exists [st_clk st1]. split; [done|]. intros f Hf. rewrite /move_tick /tick /=.
  destruct (c_triv_copy C); [done|]. by rewrite Hf; [|left].
Qed.
Definition steady {A} (P : (nat → bool) → A) : Prop := ∀ f, P f = P all.
Lemma up_remove_loop n (p : (nat → bool) → T → M T bool) b : steady p → ∀ r a st, i_pos a ≤ i_pos b < c_W C →
  upto (i_pos b - i_pos a) (λ f, std_remove_loop (C:=w f) n r a b (p f)) st.
Proof.
  intros Hp. induction n as [|n IH]; intros r a st Hb.
  { eapply upto_mono; [by apply upto_zero|apply Nat.le_0_l]. }
  cbn [std_remove_loop]. unfold it_eq. destruct (_ =? _) eqn:E; [eapply upto_mono; [by apply upto_zero|apply Nat.le_0_l]|].
  apply Nat.eqb_neq in E. apply upto_first_; [done|]. intros v st1 _. apply upto_first_; [intros f; by rewrite Hp|].
  intros [] st2 _.
  - apply upto_first_; [done|]. intros a' st3 H3%pos_next'; [|lia]. eapply upto_mono; [apply IH; lia|lia].
  - eapply upto_mono with (a := 1 + (i_pos b - i_pos a - 1)); [|lia]. apply upto_bind; [apply up_alg_move|]. intros _ st3 _.
    apply upto_first_; [done|]. intros r' st4 _. apply upto_first_; [done|]. intros a' st5 H5%pos_next'; [|lia].
    eapply upto_mono; [apply IH; lia|lia].
Qed.
Lemma pos_remove_loop n (p : T → M T bool) b : ∀ r a st r' st', i_pos r ≤ i_pos a ≤ i_pos b → i_pos b < c_W C →
  std_remove_loop (C:=w all) n r a b p st = Ok r' st' → i_pos r' ≤ i_pos b.
Proof.
  induction n as [|n IH]; intros r a st r' st' Hr Hb; cbn [std_remove_loop]; [done|].
  unfold it_eq. destruct (_ =? _) eqn:E; [intros [= <- _]; lia|]. apply Nat.eqb_neq in E.
  unfold it_deref, mbind, M_bind. destruct (dereference a st) as [v st1|?|?]; [|done..].
  destruct (p v st1) as [[] st2|?|?]; [| |done..].
  - destruct (it_next a st2) as [a' st3|?|?] eqn:Ha; [|done..]. apply pos_next' in Ha; [|lia]. apply IH; lia.
  - destruct (alg_move r a st2) as [_ st3|?|?]; [|done..].
    destruct (it_next r st3) as [r1 st4|?|?] eqn:Hn; [|done..]. apply pos_next' in Hn; [|lia].
    destruct (it_next a st4) as [a' st5|?|?] eqn:Ha; [|done..]. apply pos_next' in Ha; [|lia]. apply IH; lia.
Qed.
Lemma pos_find_if n (p : T → M T bool) b : ∀ a st r' st', i_pos a ≤ i_pos b < c_W C →
  std_find_if (C:=w all) n a b p st = Ok r' st' → i_pos a ≤ i_pos r' ≤ i_pos b.
Proof.
  induction n as [|n IH]; intros a st r' st' Hb; cbn [std_find_if]; [done|].
  unfold it_eq. destruct (_ =? _) eqn:E; [intros [= <- _]; lia|]. apply Nat.eqb_neq in E.
  unfold it_deref, mbind, M_bind. destruct (dereference a st) as [v st1|?|?]; [|done..].
  destruct (p v st1) as [[] st2|?|?]; [intros [= <- _]; lia| |done..].
  destruct (it_next a st2) as [a' st3|?|?] eqn:Ha; [|done..]. apply pos_next' in Ha; [|lia]. intros H%IH; lia.
Qed.
Lemma up_remove_if a b (p : (nat → bool) → T → M T bool) st : steady p → i_pos a ≤ i_pos b < c_W C →
  upto (i_pos b - i_pos a) (λ f, std_remove_if (C:=w f) a b (p f)) st.
Proof.
  intros Hp Hb. unfold std_remove_if. cbv zeta. apply upto_first_; [intros f; by rewrite Hp|]. intros a' st1 H1%pos_find_if; [|done].
  unfold it_eq. destruct (_ =? _) eqn:E; [eapply upto_mono; [by apply upto_zero|apply Nat.le_0_l]|]. apply Nat.eqb_neq in E.
  apply upto_first_; [done|]. intros a2 st2 H2%pos_next'; [|lia]. eapply upto_mono; [by apply up_remove_loop; [|lia]|lia].
Qed.
Lemma pos_remove_if a b (p : T → M T bool) st r st' : i_pos a ≤ i_pos b < c_W C →
  std_remove_if (C:=w all) a b p st = Ok r st' → i_pos r ≤ i_pos b.
Proof.
  intros Hb. unfold std_remove_if. cbv zeta. unfold mbind, M_bind.
  match goal with |- context [std_find_if ?n a b p st] => destruct (std_find_if n a b p st) as [a' st1|?|?] eqn:E1 end; [|done..].
  apply pos_find_if in E1; [|done]. unfold it_eq. destruct (_ =? _) eqn:E; [intros [= <- _]; lia|]. apply Nat.eqb_neq in E.
  destruct (it_next a' st1) as [a2 st2|?|?] eqn:E2; [|done..]. apply pos_next' in E2; [|lia]. apply pos_remove_loop; lia.
Qed.
Lemma up_unique_loop n (p : T → T → bool) b : ∀ d a st, i_pos a < i_pos b < c_W C →
  upto (i_pos b - i_pos a) (λ f, std_unique_loop (C:=w f) n d a b p) st.
Proof.
  induction n as [|n IH]; intros d a st Hb.
  { eapply upto_mono; [by apply upto_zero|apply Nat.le_0_l]. }
  cbn [std_unique_loop]. apply upto_first_; [done|]. intros a' st1 H1%pos_next'; [|lia].
  unfold it_eq. destruct (_ =? _) eqn:E; [eapply upto_mono; [by apply upto_zero|apply Nat.le_0_l]|]. apply Nat.eqb_neq in E.
  apply upto_first_; [done|]. intros x st2 _. apply upto_first_; [done|]. intros y st3 _. apply upto_first_; [done|]. intros _ st4 _.
  destruct (p x y); [eapply upto_mono; [apply IH; lia|lia]|].
  apply upto_first_; [done|]. intros d' st5 _.
  eapply upto_mono with (a := 1 + (i_pos b - i_pos a - 1)); [|lia]. apply upto_bind; [apply up_alg_move|]. intros _ st6 _.
  eapply upto_mono; [apply IH; lia|lia].
Qed.
Lemma pos_unique_loop n (p : T → T → bool) b : ∀ d a st r st', i_pos d ≤ i_pos a < i_pos b → i_pos b < c_W C →
  std_unique_loop (C:=w all) n d a b p st = Ok r st' → i_pos r ≤ i_pos b.
Proof.
  induction n as [|n IH]; intros d a st r st' Hd Hb; cbn [std_unique_loop]; [done|].
  unfold it_deref, mbind, M_bind. destruct (it_next a st) as [a' st1|?|?] eqn:E1; [|done..]. apply pos_next' in E1; [|lia].
  unfold it_eq. destruct (_ =? _) eqn:E; [intros H%pos_next'; lia|]. apply Nat.eqb_neq in E.
  destruct (dereference d st1) as [x st2|?|?]; [|done..]. destruct (dereference a' st2) as [y st3|?|?]; [|done..].
  destruct (pred_tick st3) as [_ st4|?|?]; [|done..]. destruct (p x y); [apply IH; lia|].
  destruct (it_next d st4) as [d' st5|?|?] eqn:E5; [|done..]. apply pos_next' in E5; [|lia].
  destruct (alg_move d' a' st5) as [_ st6|?|?]; [|done..]. apply IH; lia.
Qed.
Lemma pos_adjacent_loop n (p : T → T → bool) b : ∀ a st r st', i_pos a < i_pos b < c_W C →
  std_adjacent_loop (C:=w all) n a b p st = Ok r st' → i_pos r = i_pos b ∨ i_pos a ≤ i_pos r ∧ S (i_pos r) < i_pos b.
Proof.
  induction n as [|n IH]; intros a st r st' Hb; cbn [std_adjacent_loop]; [done|].
  unfold it_deref, mbind, M_bind. destruct (it_next a st) as [a' st1|?|?] eqn:E1; [|done..]. apply pos_next' in E1; [|lia].
  unfold it_eq. destruct (_ =? _) eqn:E; [intros [= <- _]; lia|]. apply Nat.eqb_neq in E.
  destruct (dereference a st1) as [x st2|?|?]; [|done..]. destruct (dereference a' st2) as [y st3|?|?]; [|done..].
  destruct (pred_tick st3) as [_ st4|?|?]; [|done..]. destruct (p x y); [intros [= <- _]; lia|]. intros H%IH; lia.
Qed.
Lemma pos_start a b (p : T → T → bool) st r st' : i_pos a ≤ i_pos b < c_W C →
  (if it_eq a b then mret b else std_adjacent_loop (C:=w all) (S (i_pos b - i_pos a)) a b p) st = Ok r st' →
  i_pos r = i_pos b ∨ i_pos a ≤ i_pos r ∧ S (i_pos r) < i_pos b.
Proof.
  intros Hb. unfold it_eq. destruct (_ =? _) eqn:E; [intros [= <- _]; lia|]. apply Nat.eqb_neq in E. apply pos_adjacent_loop. lia.
Qed.
Lemma up_unique a b (p : T → T → bool) st : i_pos a ≤ i_pos b < c_W C →
  upto (i_pos b - i_pos a) (λ f, std_unique (C:=w f) a b p) st.
Proof.
  intros Hb. unfold std_unique. cbv zeta. apply upto_first_; [done|]. intros a' st1 H1%pos_start; [|done].
  unfold it_eq. destruct (i_pos a' =? i_pos b) eqn:E; [eapply upto_mono; [by apply upto_zero|apply Nat.le_0_l]|]. apply Nat.eqb_neq in E.
  apply upto_first_; [done|]. intros a2 st2 H2%pos_next'; [|lia]. eapply upto_mono; [apply up_unique_loop; lia|lia].
Qed.
Lemma pos_unique a b (p : T → T → bool) st r st' : i_pos a ≤ i_pos b < c_W C →
  std_unique (C:=w all) a b p st = Ok r st' → i_pos r ≤ i_pos b.
Proof.
  intros Hb. unfold std_unique. cbv zeta.
  change ((first ← (if it_eq a b then mret b else std_adjacent_loop (C:=w all) (S (i_pos b - i_pos a)) a b p);
    if it_eq first b then mret b
    else next ← it_next (C:=w all) first; std_unique_loop (C:=w all) (S (i_pos b - i_pos a)) first next b p) st = Ok r st' → i_pos r ≤ i_pos b).
  unfold mbind at 1, M_bind at 1.
  match goal with |- match ?m with _ => _ end = _ → _ => destruct m as [a' st1|?|?] eqn:E1 end; [|done..].
  apply pos_start in E1; [|done]. unfold it_eq. destruct (i_pos a' =? i_pos b) eqn:E; [intros [= <- _]; lia|]. apply Nat.eqb_neq in E.
  unfold mbind, M_bind. destruct (it_next a' st1) as [a2 st2|?|?] eqn:E2; [|done..]. apply pos_next' in E2; [|lia]. apply pos_unique_loop; lia.
Qed.
(** std::iter_swap is three moves *)
Lemma up_iter_swap a b st : arr st → upto 3 (λ f, std_iter_swap (C:=w f) a b) st.
Proof.
  intros Ha. unfold std_iter_swap. eapply (up_bind 1); [apply (mv_make_value (VMove _ _))|lia|apply (a_make_value (C:=w all))|done|].
  intros v st1 _ Ha1. eapply (upto_mono (1 + 1)); [|lia]. apply upto_bind; [apply up_alg_move|]. intros _ st2 _.
  apply upto_last; [|done]. exists [st_clk st2]. split; [done|]. intros f Hf. rewrite /move_tick /tick /=.
  destruct (c_triv_copy C); [done|]. by rewrite Hf; [|left].
Qed.
Lemma up_reverse_loop n : ∀ a b st, i_pos b < c_W C → arr st →
  upto (3 * ((i_pos b + 1 - i_pos a) / 2)) (λ f, std_reverse_loop (C:=w f) n a b) st.
Proof.
  induction n as [|n IH]; intros a b st Hb Ha; cbn [std_reverse_loop].
  { eapply upto_mono; [by apply upto_zero|apply Nat.le_0_l]. }
  unfold it_lt. destruct (_ <? _) eqn:E; [|eapply upto_mono; [by apply upto_zero|apply Nat.le_0_l]]. apply Nat.ltb_lt in E.
  replace (i_pos b + 1 - i_pos a) with (i_pos b - 1 - i_pos a + 1 * 2) by lia. rewrite Nat.div_add; [|done].
  eapply (upto_mono (3 + 3 * ((i_pos b - 1 - i_pos a) / 2))); [|lia]. apply upto_bind; [by apply up_iter_swap|]. intros u st1 E1.
  assert (arr st1) as Ha1 by (eapply keeps_ok; [apply (a_std_iter_swap (C:=w all))|exact E1|done]).
  apply up_first; [done|apply k_next|done|]. intros a' st2 H2 Ha2. apply pos_next' in H2; [|lia].
  apply up_first; [done|apply k_prev|done|]. intros b' st3 H3 Ha3. apply pos_prev in H3. rewrite wsub_small in H3; [|lia|lia].
  eapply upto_mono; [apply IH; [lia|done]|]. rewrite H2 H3. replace (i_pos b - 1 + 1 - S (i_pos a)) with (i_pos b - 1 - i_pos a) by lia. done.
Qed.
Lemma up_reverse a b st : i_pos a ≤ i_pos b < c_W C → arr st →
  upto (3 * ((i_pos b - i_pos a) / 2)) (λ f, std_reverse (C:=w f) a b) st.
Proof.
  intros Hb Ha. unfold std_reverse, it_eq. destruct (_ =? _) eqn:E; [eapply upto_mono; [by apply upto_zero|apply Nat.le_0_l]|]. cbv zeta.
  apply Nat.eqb_neq in E. apply up_first; [done|apply k_prev|done|]. intros b' st1 H1 Ha1. apply pos_prev in H1. rewrite wsub_small in H1; [|lia|lia].
  eapply upto_mono; [apply up_reverse_loop; [lia|done]|]. rewrite H1. replace (i_pos b - 1 + 1 - i_pos a) with (i_pos b - i_pos a) by lia. done.
Qed.
End algs.

Section calls.
Context {T : Type} {C : cfg T} {OK : cfg_ok C}.
Notation all := (λ _ : nat, true).
Notation w f := (with_moves C f).
Notation arr st := (arrays (C:=C) (st_heap st)).
Notation reachable := (reachable C).
Notation ins := (per_insert (C:=C)).
Notation era := (per_erase (C:=C)).
Implicit Types σ : sst T.

(** ** The bounds (specification) *)
Definition moved_arg (s : arg T) : nat := match s with AMove _ => 1 | _ => 0 end.
Definition moved_rng (r : rng T) : nat := match r with RSeq true _ _ => 1 | _ => 0 end.
(** How the standard library sorts and merges is up to the standard library *)
Definition counted (c : cmd T) : Prop := match c with Sort _ _ | MergeIn _ _ _ => False | _ => True end.
Definition most_moves σ (c : cmd T) : nat :=
  match c with
  | InsertOne _ _ s _ | PushBack _ s | PushFront _ s => ins + moved_arg s
  | Erase _ _ _ | PopBack _ | PopFront _ => era
  | Write _ s => moved_arg s
  | NewCount _ n s _ | InsertCount _ _ n s _ => n * (ins + moved_arg s)
  | NewRange _ r _ | InsertRange _ _ r _ => rng_length σ r * (ins + moved_rng r)
  | NewCopy _ y | NewCopyAlloc _ y _ => length (contents σ y) * ins
  | NewMoveAlloc _ y a => if a =? alloc_of σ y then 0 else length (contents σ y) * (ins + 1)
  | EraseRange _ w1 w2 _ => Complexity.between σ w1 w2 * era
  | Resize x n s =>
      (n - length (contents σ x)) * (ins + moved_arg s) + (length (contents σ x) - n) * era
  | AssignCount x n s => n * moved_arg s + assigning (C:=C) n (length (contents σ x))
  | AssignRange x r => rng_length σ r * moved_rng r + assigning (C:=C) (rng_length σ r) (length (contents σ x))
  | AssignCopy x y => length (contents σ y) * ins + length (contents σ x) * era
  | AssignMove x y =>
      if c_pocma C || (alloc_of σ x =? alloc_of σ y) then 0
      else length (contents σ y) + assigning (C:=C) (length (contents σ y)) (length (contents σ x))
  | SpliceAll _ _ y => length (contents σ y) * (ins + 1)
  | SpliceOne _ _ _ _ => ins + era
  | SpliceRange _ _ _ w1 w2 => Complexity.between σ w1 w2 * (ins + 1 + era)
  | Remove x _ _ | RemoveIf x _ | Unique x _ => length (contents σ x) * (1 + era)
  | Reverse x => 3 * (length (contents σ x) / 2)
  | _ => 0
  end.
(** the call depends on the success of moves at no more than [n] moments *)
Definition moves_at_most (n : nat) (c : cmd T) ρ (st : state T) : Prop :=
  ∃ ks : list nat, length ks ≤ n ∧
    ∀ f, (∀ k, k ∈ ks → f k = true) → exec (C:=with_moves C f) c ρ st = exec (C:=with_moves C all) c ρ st.

Lemma gets_moves ρ s st v st' : gets ρ s st = Ok v st' → amv v = moved_arg s ∧ st' = st.
Proof.
  destruct s as [x|u|u]; rewrite /gets /geti /lookup_var; [intros [= <- <-]; done|..].
  all: unfold mbind, M_bind; destruct (e_iter ρ !! u); [|done]; intros [= <- <-]; done.
Qed.
Lemma iter_pos σ ρ st u x p it : reachable σ ρ st → iters σ !! u = Some (x, p) → e_iter ρ !! u = Some it →
  i_pos it = p ∧ p ≤ length (contents σ x) < c_W C.
Proof.
  intros Hr H1 Hit. destruct (R_iter _ _ _ _ _ _ (reachable_R _ _ _ Hr) H1) as (o & a & l & it' & Hl & Ho & Hit' & Hok & Hp & Hc).
  rewrite Hit in Hit'. injection Hit' as <-. pose proof (it_ok_le _ _ Hok) as Hle.
  pose proof (see _ _ _ _ _ _ Hr Hc) as Hs. destruct (reachable_sized _ _ _ x Hr (see_live _ _ _ _ Hs)) as (_ & _ & _ & HW).
  rewrite (see_contents _ _ _ _ Hs) in HW |- *. change (length (oelems o)) with (osize o) in *. lia.
Qed.
Lemma getr_moves ρ r st r' st' σ : reachable σ ρ st → is_Some (rng_values σ r) → getr ρ r st = Ok r' st' →
  iok (C:=C) r' ∧ ilen r' = rng_length σ r ∧ imv r' = moved_rng r ∧ st' = st.
Proof.
  intros Hr Hv E. destruct r as [xs|mv w1 w2].
  { by injection E as <- <-. }
  rewrite /getr /geti /lookup_var in E.
  destruct Hv as [vs Hv]. rewrite /rng_length Hv. cbn [default from_option]. simpl in Hv.
  destruct (iters σ !! w1) as [[x p]|] eqn:H1; [|done]. simpl in Hv. destruct (iters σ !! w2) as [[y q]|] eqn:H2; [|done]. simpl in Hv.
  destruct ((x =? y) && (p <=? q)) eqn:Hb; [|done]. injection Hv as <-. apply andb_true_iff in Hb as [->%Nat.eqb_eq Hle%Nat.leb_le].
  unfold mbind, M_bind in E. destruct (e_iter ρ !! w1) as [it1|] eqn:E1; [|done]. simpl in E. destruct (e_iter ρ !! w2) as [it2|] eqn:E2; [|done].
  injection E as <- <-. destruct (iter_pos _ _ _ _ _ _ _ Hr H1 E1) as [? ?]. destruct (iter_pos _ _ _ _ _ _ _ Hr H2 E2) as [? ?].
  simpl. rewrite /sub take_length drop_length. destruct mv; split_and!; try done; lia.
Qed.
Lemma begin_pos l N st it st' : sized l N st → find_first l st = Ok (T:=T) it st' → i_pos it = 0 ∧ st_heap st' = st_heap st.
Proof.
  intros Hs E. assert (wlp (begin_ l) st (λ f st1, i_pos f = 0 ∧ st_heap st1 = st_heap st) (λ _ _, True)) as H by (eapply wlp_begin; [done|auto]).
  rewrite /wlp /begin_ E in H. exact H.
Qed.
Lemma end_pos l N st it st' : sized l N st → find_end l st = Ok (T:=T) it st' → i_pos it = N ∧ st_heap st' = st_heap st.
Proof.
  intros Hs E. assert (wlp (end_ l) st (λ f st1, i_pos f = N ∧ st_heap st1 = st_heap st) (λ _ _, True)) as H by (eapply wlp_end; [done|auto]).
  rewrite /wlp /end_ E in H. exact H.
Qed.
Lemma sized_heap l N (st st' : state T) : st_heap st' = st_heap st → sized l N st → sized l N st'.
Proof. intros H. by rewrite /sized H. Qed.
Lemma arr_heap (st st' : state T) : st_heap st' = st_heap st → arr st → arr st'.
Proof. intros H. by rewrite H. Qed.
Lemma whole_moving mv l N st r st' : sized l N st → N < c_W C → whole_range mv l st = Ok r st' →
  iok (C:=C) r ∧ ilen r = N ∧ imv r = (if mv then 1 else 0) ∧ st_heap st' = st_heap st.
Proof.
  intros Hs HN E. unfold whole_range, mbind, M_bind in E.
  destruct (find_first l st) as [f st1|?|?] eqn:E1; [|done..]. destruct (begin_pos _ _ _ _ _ Hs E1) as [Hf Hh].
  destruct (find_end l st1) as [e st2|?|?] eqn:E2; [|done..].
  destruct (end_pos _ _ _ _ _ (sized_heap _ _ _ _ Hh Hs) E2) as [He Hh2]. injection E as <- <-. simpl. rewrite Hf He.
  destruct mv; split_and!; try done; try lia; congruence.
Qed.
Ltac upto_first := apply upto_first_; [reflexivity|].
Ltac fetch := repeat match goal with
  | |- upto _ (λ f, (getc _ _ ≫= _)) _ => let H := fresh "Hg" in upto_first; intros ? ? H; apply getc_inv in H as [? ->]
  | |- upto _ (λ f, (geti _ _ ≫= _)) _ => let H := fresh "Hg" in upto_first; intros ? ? H; apply geti_inv in H as [? ->]
  | |- upto _ (λ f, (gets _ _ ≫= _)) _ => let H := fresh "Hg" in upto_first; intros ? ? H; apply gets_moves in H as [? ->]
  end.
Lemma up_assign_count l n s N st : sized l N st → N < c_W C → arr st →
  upto (n * amv s + assigning (C:=C) n N) (λ f, assign_count (C:=w f) l n s) st.
Proof.
  intros Hs HN Ha. unfold assign_count. upto_first. intros a st1 E1. destruct (begin_pos _ _ _ _ _ Hs E1) as [Hp Hh].
  upto_first. intros b st2 E2. destruct (end_pos _ _ _ _ _ (sized_heap _ _ _ _ Hh Hs) E2) as [Hp2 Hh2].
  rewrite -Hp2 -(Nat.sub_0_r (i_pos b)) -Hp. apply up_assign_count_loop; [lia|]. by rewrite Hh2 Hh.
Qed.
Lemma up_assign_range l r N st : iok (C:=C) r → sized l N st → N < c_W C → arr st →
  upto (ilen r * imv r + assigning (C:=C) (ilen r) N) (λ f, assign_range (C:=w f) l r) st.
Proof.
  intros Hok Hs HN Ha. unfold assign_range. upto_first. intros a st1 E1. destruct (begin_pos _ _ _ _ _ Hs E1) as [Hp Hh].
  upto_first. intros b st2 E2. destruct (end_pos _ _ _ _ _ (sized_heap _ _ _ _ Hh Hs) E2) as [Hp2 Hh2].
  rewrite -Hp2 -(Nat.sub_0_r (i_pos b)) -Hp. apply up_assign_range_loop; [done|lia|]. by rewrite Hh2 Hh.
Qed.
Lemma arr_place a l st st' : ctor_alloc a st = Ok (T:=T) l st' → arr st → arr st'.
Proof. apply keeps_ok, (a_ctor_alloc (C:=C)). Qed.
Lemma up_ctor n a (body : (nat → bool) → loc → M T unit) st :
  (∀ l st', ctor_alloc a st = Ok l st' → upto n (λ f, body f l) st') →
  upto n (λ f, ctor_with (C:=w f) a (body f)) st.
Proof.
  intros H. apply (upto_bind 0); [by apply upto_zero|]. intros l st1 Hl.
  rewrite -(Nat.add_0_r n). apply upto_catch; [|intros; by apply upto_zero].
  rewrite -(Nat.add_0_r n). apply upto_bind; [by apply H|]. intros; by apply upto_zero.
Qed.
Lemma find_end_heap l st it st' : find_end l st = Ok (T:=T) it st' → st_heap st' = st_heap st.
Proof. apply looks_heap. intros. by apply eff_find_end. Qed.
Lemma up_copy_alloc l N a st : sized l N st → N < c_W C → arr st →
  upto (N * ins) (λ f, ctor_copy_alloc (C:=w f) l a) st.
Proof.
  intros Hs HN Ha. apply up_ctor. intros l' st1 Hl. pose proof (sized_place _ _ _ _ _ _ Hs Hl) as Hs1. pose proof (arr_place _ _ _ _ Hl Ha) as Ha1.
  upto_first. intros it st2 Hf%find_end_heap. upto_first. intros r st3 Hw. apply upto_last; [|done].
  destruct (whole_moving false l N st2 r st3) as (Hok & Hlen & Hmv & Hh); [by rewrite /sized Hf|done|exact Hw|].
  eapply upto_mono; [apply up_emplace_range; [done|by rewrite Hh Hf]|]. rewrite Hlen Hmv. lia.
Qed.
End calls.
