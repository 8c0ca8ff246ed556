(** * C71: assignment uses the memory the sequence has *)
From Verif Require Import Effort Asked Copies PropsExn.
From Verif Require Export PropsMoves PropsGrow.
From stdpp Require Import options.
#[local] Set Default Proof Using "Type*".

(** [gr] of Grow.v, from one state *)
Section at_.
Context {T : Type}.
Implicit Types P : state T → state T → Prop.
Definition at_ (b : bool) P {A} (m : M T A) (st : state T) : Prop :=
  match m st with Ok _ st' => P st st' | Throw _ st' => b = true → P st st' | Fault _ => True end.
Context (b : bool) P `{!PreOrder P}.
Lemma at_gr {A} (m : M T A) st : gr b P m → at_ b P m st.
Proof using. intros H. apply H. Qed.
Lemma at_bind {A B} (m : M T A) (k : A → M T B) st :
  at_ b P m st → (∀ a st1, m st = Ok a st1 → at_ b P (k a) st1) → at_ b P (m ≫= k) st.
Proof.
  intros Hm Hk. rewrite /at_ /mbind /M_bind. rewrite /at_ in Hm. destruct (m st) as [a st1|e st1|f] eqn:E; try done.
  specialize (Hk a st1 eq_refl). rewrite /at_ in Hk. destruct (k a st1); try done; [by etrans|].
  intros Hb. etrans; [exact Hm|by apply Hk].
Qed.
Lemma at_last {A B} (m : M T A) (k : A → M T B) st :
  at_ b P m st → (∀ a, gr b P (k a)) → at_ b P (m ≫= k) st.
Proof. intros Hm Hk. apply at_bind; [done|]. intros a st1 _. apply at_gr, Hk. Qed.
End at_.

(** relations that overwriting an element in place keeps, as it does each step that
    changes no memory *)
Class calm {T} (any : bool) (P : state T → state T → Prop) : Prop := Calm {
  calm_pre : PreOrder P;
  calm_same : ∀ st st', st_heap st' = st_heap st → n_allocs (st_cnt st') = n_allocs (st_cnt st) → P st st';
  calm_slot : ∀ p i q, gr any P (set_slot (T:=T) p i q)
}.
Lemma stays_calm {T} any (P : state T → state T → Prop) : stays P → calm any P.
Proof. intros HP. split; [apply stays_pre|apply stays_same|]. intros p i q st. rewrite /set_slot /load_seg /load /mbind /M_bind.
  destruct p as [l|]; [|done]. destruct (st_heap st !! l) as [[al sl| |]|] eqn:E; try done. simpl. rewrite /put.
  destruct (_ <? _); [|done]. simpl. by eapply (stays_set st _ l); [rewrite E|..].
Qed.

Section loops.
Context {T : Type} {C : cfg T} {OK : cfg_ok C}.
Context (any : bool) (P : state T → state T → Prop) `{HP : !calm any P}.
Local Instance P_pre : PreOrder P := calm_pre.
Notation at_ := (at_ any P).
Lemma c_coarser : coarser P. Proof. apply coarser_same. intros st st' (H1 & _ & H2 & _). by apply calm_same. Qed.
Lemma c_tick : gr any P (user_tick (C:=C)).
Proof. intros st. rewrite /user_tick /tick. destruct (c_user_ok _ _); [|intros _]; by apply calm_same. Qed.
Lemma c_move_tick : gr any P (move_tick (C:=C)).
Proof. unfold move_tick. destruct (c_triv_copy C); [by apply gr_ret, _|]. intros st. rewrite /tick. destruct (c_move_ok _ _); [|intros _]; by apply calm_same. Qed.
Lemma c_assign_value p i s : gr any P (assign_value (C:=C) p i s).
Proof.
  unfold assign_value. apply gr_bind; [apply _| |intros v].
  - destruct s as [v|p' i'|p' i']; unfold make_value.
    + apply gr_bind; [apply _|apply c_tick|intros _; apply gr_ret, _].
    + apply gr_bind; [apply _|apply gr_eff, eff_read_slot, c_coarser; apply _|intros v].
      apply gr_bind; [apply _|apply c_tick|intros _; apply gr_ret, _].
    + apply gr_bind; [apply _|apply gr_eff, eff_read_slot, c_coarser; apply _|intros v].
      apply gr_bind; [apply _|apply c_move_tick|intros _].
      apply gr_bind; [apply _|apply calm_slot|intros _; apply gr_ret, _].
  - apply gr_bind; [apply _|apply gr_eff, eff_read_slot, c_coarser; apply _|intros _]. apply calm_slot.
Qed.
Lemma next_pos it st it' st' : move_next_iterator (C:=C) it st = Ok (T:=T) it' st' → i_pos it < c_W C - 1 → i_pos it' = S (i_pos it).
Proof.
  unfold move_next_iterator, mbind, M_bind. destruct (move_next_segment _ _); [|done..]. intros [= <- _] Hw.
  simpl. rewrite /wadd Nat.mod_small; lia.
Qed.
Lemma at_erase_none l a b st : i_pos a = i_pos b → i_pos b < c_W C → at_ (erase_range (C:=C) l a b) st.
Proof.
  intros E Hw. pose proof (ok_W _ OK). unfold erase_range. rewrite E.
  assert (wsub (C:=C) (i_pos b) (i_pos b) = 0) as H0 by (rewrite wsub_small; lia).
  cbn [erase_range_loop]. rewrite E H0 Nat.eqb_refl. apply at_gr, gr_ret, _.
Qed.
Lemma at_next it st : at_ (move_next_iterator (C:=C) it) st.
Proof. apply at_gr, gr_eff, eff_move_next_iterator, c_coarser; apply _. Qed.
Lemma at_assign p i s st : at_ (assign_value (C:=C) p i s) st.
Proof. apply at_gr, c_assign_value. Qed.
Lemma at_tick st : at_ (user_tick (C:=C)) st.
Proof. apply at_gr, c_tick. Qed.
Lemma at_input_end r st : at_ (input_end (C:=C) r) st.
Proof.
  destruct r as [xs|mv f l]; unfold input_end; [|apply at_gr, gr_ret, _].
  apply at_last; [apply _|apply at_tick|]. intros _. apply gr_ret, _.
Qed.
Lemma at_input_src r st : at_ (input_src (C:=C) r) st.
Proof.
  destruct r as [xs|mv f l]; unfold input_src; [|apply at_gr, gr_ret, _].
  apply at_last; [apply _|apply at_tick|]. intros _. destruct xs; gr_go.
Qed.
Lemma at_input_next r st : at_ (input_next (C:=C) r) st.
Proof.
  destruct r as [xs|mv f l]; unfold input_next.
  - apply at_last; [apply _|apply at_tick|]. intros _. destruct xs; gr_go.
  - apply at_last; [apply _|apply at_next|]. intros f'. apply gr_ret, _.
Qed.
Lemma end_turn r st st1 : input_end (C:=C) r st = Ok false st1 → iok (C:=C) r → 0 < ilen r.
Proof.
  destruct r as [[|x xs]|b f l]; simpl; [|lia|].
  - unfold mbind, M_bind. destruct (user_tick st); [|done..]. done.
  - intros [= H%Nat.eqb_neq _]. lia.
Qed.
Lemma end_done r st st1 : input_end (C:=C) r st = Ok true st1 → ilen r = 0.
Proof.
  destruct r as [[|x xs]|b f l]; simpl; [done| |].
  - unfold mbind, M_bind. destruct (user_tick st); [|done..]. done.
  - intros [= H%Nat.eqb_eq _]. lia.
Qed.
Lemma next_turn r st r' st1 : input_next (C:=C) r st = Ok r' st1 → iok (C:=C) r → 0 < ilen r →
  iok (C:=C) r' ∧ ilen r = S (ilen r').
Proof.
  destruct r as [[|x xs]|b f l]; simpl; [lia| |].
  - unfold mbind, M_bind. destruct (user_tick st); [|done..]. by intros [= <- _].
  - unfold mbind at 1, M_bind at 1. destruct (move_next_iterator f st) as [f' st2|?|?] eqn:E; [|done..].
    intros [= <- _] Hw Hl. apply next_pos in E; [|lia]. simpl. lia.
Qed.

(** exactly as many elements as there are: nothing is inserted or erased *)
Lemma at_count_same l s b : i_pos b < c_W C → ∀ n a st, i_pos a + n = i_pos b → at_ (assign_count_loop (C:=C) l n s a b) st.
Proof.
  intros Hw. induction n as [|n IH]; intros a st Hn; cbn [assign_count_loop].
  { apply at_last; [apply _|apply at_erase_none; lia|]. intros _. apply gr_ret, _. }
  destruct (_ =? _) eqn:E; [apply Nat.eqb_eq in E; lia|].
  apply at_bind; [apply _|apply at_assign|]. intros _ st1 _.
  apply at_bind; [apply _|apply at_next|]. intros a' st2 H2%next_pos; [|lia]. apply IH. lia.
Qed.
Lemma at_range_same l b : i_pos b < c_W C → ∀ fuel r a st, iok (C:=C) r → i_pos a + ilen r = i_pos b →
  at_ (assign_range_loop (C:=C) fuel l r a b) st.
Proof.
  intros Hw. induction fuel as [|fuel IH]; intros r a st Hr Hn; cbn [assign_range_loop]; [done|].
  apply at_bind; [apply _|apply at_input_end|]. intros [] st1 H1.
  { apply end_done in H1. apply at_last; [apply _|apply at_erase_none; lia|]. intros _. apply gr_ret, _. }
  apply end_turn in H1; [|done]. destruct (_ =? _) eqn:E; [apply Nat.eqb_eq in E; lia|].
  apply at_bind; [apply _|apply at_input_src|]. intros s st2 _.
  apply at_bind; [apply _|apply at_assign|]. intros _ st3 _.
  apply at_bind; [apply _|apply at_next|]. intros a' st4 H4%next_pos; [|lia].
  apply at_bind; [apply _|apply at_input_next|]. intros r' st5 H5. apply next_turn in H5 as [Hr' Hl]; [|done..].
  apply IH; [done|]. lia.
Qed.
(** as many elements as there are, or fewer: nothing is inserted *)
Section free.
Context `{!stays P} (Hfree : ∀ l, gr any P (free (T:=T) l)).
Lemma at_count_less l s b : i_pos b < c_W C → ∀ n a st, i_pos a + n ≤ i_pos b → at_ (assign_count_loop (C:=C) l n s a b) st.
Proof.
  intros Hw. induction n as [|n IH]; intros a st Hn; cbn [assign_count_loop].
  { apply at_last; [apply _|by apply at_gr, g_erase_range|]. intros _. apply gr_ret, _. }
  destruct (_ =? _) eqn:E; [apply Nat.eqb_eq in E; lia|].
  apply at_bind; [apply _|apply at_assign|]. intros _ st1 _.
  apply at_bind; [apply _|apply at_next|]. intros a' st2 H2%next_pos; [|lia]. apply IH. lia.
Qed.
Lemma at_range_less l b : i_pos b < c_W C → ∀ fuel r a st, iok (C:=C) r → i_pos a + ilen r ≤ i_pos b →
  at_ (assign_range_loop (C:=C) fuel l r a b) st.
Proof.
  intros Hw. induction fuel as [|fuel IH]; intros r a st Hr Hn; cbn [assign_range_loop]; [done|].
  apply at_bind; [apply _|apply at_input_end|]. intros [] st1 H1.
  { apply at_last; [apply _|by apply at_gr, g_erase_range|]. intros _. apply gr_ret, _. }
  apply end_turn in H1; [|done]. destruct (_ =? _) eqn:E; [apply Nat.eqb_eq in E; lia|].
  apply at_bind; [apply _|apply at_input_src|]. intros s st2 _.
  apply at_bind; [apply _|apply at_assign|]. intros _ st3 _.
  apply at_bind; [apply _|apply at_next|]. intros a' st4 H4%next_pos; [|lia].
  apply at_bind; [apply _|apply at_input_next|]. intros r' st5 H5. apply next_turn in H5 as [Hr' Hl]; [|done..].
  apply IH; [done|]. lia.
Qed.
End free.
(** as many elements as there are, or more: nothing is erased *)
Section alloc.
Context `{!stays P} (Halloc : ∀ o, gr any P (allocate (C:=C) o)) (Hb : any = false).
Lemma at_count_more l s b : i_pos b < c_W C → ∀ n a st, i_pos a ≤ i_pos b ≤ i_pos a + n → at_ (assign_count_loop (C:=C) l n s a b) st.
Proof.
  intros Hw. induction n as [|n IH]; intros a st Hn; cbn [assign_count_loop].
  { apply at_last; [apply _|apply at_erase_none; lia|]. intros _. apply gr_ret, _. }
  destruct (_ =? _) eqn:E.
  { apply at_last; [apply _|by apply at_gr, g_emplace_count|]. intros _. apply gr_ret, _. }
  apply Nat.eqb_neq in E.
  apply at_bind; [apply _|apply at_assign|]. intros _ st1 _.
  apply at_bind; [apply _|apply at_next|]. intros a' st2 H2%next_pos; [|lia]. apply IH. lia.
Qed.
Lemma at_range_more l b : i_pos b < c_W C → ∀ fuel r a st, iok (C:=C) r → i_pos a ≤ i_pos b ≤ i_pos a + ilen r →
  at_ (assign_range_loop (C:=C) fuel l r a b) st.
Proof.
  intros Hw. induction fuel as [|fuel IH]; intros r a st Hr Hn; cbn [assign_range_loop]; [done|].
  apply at_bind; [apply _|apply at_input_end|]. intros [] st1 H1.
  { apply end_done in H1. apply at_last; [apply _|apply at_erase_none; lia|]. intros _. apply gr_ret, _. }
  apply end_turn in H1; [|done]. destruct (_ =? _) eqn:E.
  { apply at_last; [apply _|by apply at_gr, g_emplace_range|]. intros _. apply gr_ret, _. }
  apply Nat.eqb_neq in E.
  apply at_bind; [apply _|apply at_input_src|]. intros s st2 _.
  apply at_bind; [apply _|apply at_assign|]. intros _ st3 _.
  apply at_bind; [apply _|apply at_next|]. intros a' st4 H4%next_pos; [|lia].
  apply at_bind; [apply _|apply at_input_next|]. intros r' st5 H5. apply next_turn in H5 as [Hr' Hl]; [|done..].
  apply IH; [done|]. lia.
Qed.
End alloc.
End loops.

Section props.
Context {T : Type} {C : cfg T} {OK : cfg_ok C}.
Implicit Types σ : sst T.
Implicit Types ρ : env.
Implicit Types st : state T.
Implicit Types c : cmd T.
Notation reachable := (reachable C).
Notation exec := (exec (C:=C)).
Notation allocs st := (n_allocs (st_cnt st)).

(** ** The calls that give [x] [n] elements in place of those it has *)
Definition overwrites σ c x (n : nat) : Prop :=
  match c with
  | AssignCount y m _ | Resize y m _ => y = x ∧ n = m
  | AssignRange y r => y = x ∧ n = rng_length σ r
  | AssignCopy y z => y = x ∧ n = length (contents σ z) ∧ c_pocca C = false
  | AssignMove y z => y = x ∧ n = length (contents σ z) ∧ takes_over C (alloc_of σ x) (alloc_of σ z) = false
  | _ => False
  end.

Section at_call.
Context (any : bool) (P : state T → state T → Prop) `{HP : !calm any P}.
Local Instance P_pre' : PreOrder P := calm_pre.
Notation at_ := (at_ any P).
(** what the relation has to allow *)
Definition suits (n N : nat) : Prop :=
  n = N ∨ (stays P ∧ n ≤ N ∧ ∀ l, gr any P (free (T:=T) l)) ∨ (stays P ∧ N ≤ n ∧ any = false ∧ ∀ o, gr any P (allocate (C:=C) o)).
Lemma at_looks {A} (m : M T A) st : (∀ Q, PreOrder Q → coarser Q → eff Q m) → at_ m st.
Proof. intros H. apply at_gr, gr_eff, H, (c_coarser any); apply _. Qed.
Lemma at_assign_count l n s N st : sized l N st → N < c_W C → suits n N → at_ (assign_count (C:=C) l n s) st.
Proof.
  intros Hs HN Hn. unfold assign_count.
  apply at_bind; [apply _|apply at_looks; intros; by apply eff_find_first|]. intros a st1 E1. destruct (begin_pos (C:=C) _ _ _ _ _ Hs E1) as [Hp Hh].
  apply at_bind; [apply _|apply at_looks; intros; by apply eff_find_end|]. intros b st2 E2.
  destruct (end_pos (C:=C) _ _ _ _ _ (sized_heap (C:=C) _ _ _ _ Hh Hs) E2) as [Hp2 _].
  destruct Hn as [Hn|[(Hs_ & Hn & H)|(Hs_ & Hn & Hb & H)]]; [apply at_count_same|apply at_count_less|apply at_count_more]; try done; lia.
Qed.
Lemma at_assign_range l r N st : iok (C:=C) r → sized l N st → N < c_W C → suits (ilen r) N → at_ (assign_range (C:=C) l r) st.
Proof.
  intros Hr Hs HN Hn. unfold assign_range.
  apply at_bind; [apply _|apply at_looks; intros; by apply eff_find_first|]. intros a st1 E1. destruct (begin_pos (C:=C) _ _ _ _ _ Hs E1) as [Hp Hh].
  apply at_bind; [apply _|apply at_looks; intros; by apply eff_find_end|]. intros b st2 E2.
  destruct (end_pos (C:=C) _ _ _ _ _ (sized_heap (C:=C) _ _ _ _ Hh Hs) E2) as [Hp2 _].
  destruct Hn as [Hn|[(Hs_ & Hn & H)|(Hs_ & Hn & Hb & H)]]; [apply at_range_same|apply at_range_less|apply at_range_more]; try done; lia.
Qed.
Lemma size_read l N st n st' : sized l N st → get_size l st = Ok (T:=T) n st' → n = N ∧ st_heap st' = st_heap st.
Proof.
  intros (s & Hs & <-). rewrite /get_size /load_seq /load /mbind /M_bind Hs. simpl. by intros [= <- <-].
Qed.
Lemma at_resize l n s N st : sized l N st → N < c_W C → suits n N → at_ (resize_count (C:=C) l n s) st.
Proof.
  intros Hs HN Hn. unfold resize_count.
  apply at_bind; [apply _|apply at_looks; intros; by apply eff_get_size|]. intros m st1 E1. destruct (size_read _ _ _ _ _ Hs E1) as [-> _].
  destruct (N =? n) eqn:E; [by apply at_gr, gr_ret, _|]. apply Nat.eqb_neq in E.
  apply at_bind; [apply _|apply at_looks; intros; by apply eff_find_end|]. intros b st2 E2.
  destruct (n <? N) eqn:E3; [apply Nat.ltb_lt in E3|apply Nat.ltb_ge in E3]; destruct Hn as [Hn|[(Hs_ & Hn & H)|(Hs_ & Hn & Hb & H)]]; try lia.
  - apply at_bind; [apply _|apply at_looks; intros; by apply eff_find_index|]. intros a st3 _.
    apply at_last; [apply _|by apply at_gr, g_erase_range|]. intros _. apply gr_ret, _.
  - apply at_last; [apply _|by apply at_gr, g_emplace_count|]. intros _. apply gr_ret, _.
Qed.
Lemma c_gets ρ s : gr any P (gets (T:=T) ρ s).
Proof.
  destruct s as [v|w|w]; unfold gets, geti; [by apply gr_ret, _|..]; (apply gr_bind; [apply _|by apply gr_lookup, _|intros v; by apply gr_ret, _]).
Qed.
Lemma at_getc {A} ρ x (k : loc → M T A) st : (∀ l, e_cont ρ !! x = Some l → at_ (k l) st) → at_ (l ← getc ρ x; k l) st.
Proof.
  intros H. apply at_bind; [apply _|by apply at_gr, gr_lookup, _|]. intros l st1 E. apply getc_inv in E as [E ->]. by apply H.
Qed.
Lemma at_call σ ρ st c x n : reachable σ ρ st → pre C σ c → overwrites σ c x n → suits n (length (contents σ x)) →
  at_ (exec_call (C:=C) c ρ) st.
Proof.
  intros Hr Hp Hc Hn. destruct c; try done; cbn [overwrites pre exec_call] in *.
  - (* AssignCopy *) destruct Hc as (-> & -> & Hpo). destruct Hp as (Hx & Hy & _).
    destruct (reachable_sized _ _ _ _ Hr Hx) as (lx & Hlx & Hsx & HWx). destruct (reachable_sized _ _ _ _ Hr Hy) as (ly & Hly & Hsy & HWy).
    apply at_getc. intros l Hl. rewrite Hlx in Hl. injection Hl as <-. apply at_getc. intros l Hl. rewrite Hly in Hl. injection Hl as <-.
    apply at_last; [apply _| |intros _; by apply gr_ret, _]. unfold op_copy_assign, copy_assign_alloc. rewrite Hpo.
    destruct (negb _); [|by apply at_gr, gr_ret, _].
    apply at_bind; [apply _|by apply at_gr, gr_ret, _|]. intros u st1 [= _ <-].
    apply at_bind; [apply _| |].
    { unfold whole_range. apply at_bind; [apply _|apply at_looks; intros; by apply eff_find_first|]. intros f st2 _.
      apply at_bind; [apply _|apply at_looks; intros; by apply eff_find_end|]. intros e st3 _. by apply at_gr, gr_ret, _. }
    intros r st2 Hw. destruct (whole_moving false ly _ st r st2 Hsy HWy Hw) as (Hok & Hlen & _ & Hh).
    eapply at_assign_range; [done|by eapply sized_heap|done|]. by rewrite Hlen.
  - (* AssignMove *) destruct Hc as (-> & -> & Ht). destruct Hp as (Hx & Hy & _).
    destruct (reachable_sized _ _ _ _ Hr Hx) as (lx & Hlx & Hsx & HWx). destruct (reachable_sized _ _ _ _ Hr Hy) as (ly & Hly & Hsy & HWy).
    destruct (reachable_alloc _ _ _ _ _ Hr Hx Hlx) as (sx & Hsqx & Halx). destruct (reachable_alloc _ _ _ _ _ Hr Hy Hly) as (sy & Hsqy & Haly).
    apply at_getc. intros l Hl. rewrite Hlx in Hl. injection Hl as <-. apply at_getc. intros l Hl. rewrite Hly in Hl. injection Hl as <-.
    apply at_last; [apply _| |intros _; by apply gr_ret, _]. unfold op_move_assign, move_assign.
    rewrite /takes_over in Ht. apply orb_false_iff in Ht as [Hpo Hne]. rewrite Hpo.
    apply at_bind; [apply _|apply at_looks; intros; by apply eff_get_element_allocator|]. intros a st1 H1.
    apply (ealloc_read _ _ _ _ _ Hsqx) in H1 as [-> Hh1].
    apply at_bind; [apply _|apply at_looks; intros; by apply eff_get_element_allocator|]. intros b st2 H2.
    eapply ealloc_read in H2 as [-> Hh2]; [|rewrite Hh1; exact Hsqy]. rewrite Halx Haly Hne. cbn [negb].
    apply at_bind; [apply _|apply at_looks; intros; by apply eff_find_first|]. intros f st3 H3.
    destruct (begin_pos (C:=C) ly (length (contents σ y)) st2 f st3) as [Hpf Hh3]; [eapply (sized_heap (C:=C)); [|exact Hsy]; congruence|exact H3|].
    apply at_bind; [apply _|apply at_looks; intros; by apply eff_find_end|]. intros e st4 H4.
    destruct (end_pos (C:=C) ly (length (contents σ y)) st3 e st4) as [Hpe Hh4]; [eapply (sized_heap (C:=C)); [|exact Hsy]; congruence|exact H4|].
    apply (at_assign_range _ _ (length (contents σ x))); [simpl; lia|eapply (sized_heap (C:=C)); [|exact Hsx]; congruence|done|].
    cbn [ilen]. by rewrite Hpf Hpe Nat.sub_0_r.
  - (* AssignCount *) destruct Hc as [-> ->]. destruct Hp as (Hx & _). destruct (reachable_sized _ _ _ _ Hr Hx) as (lx & Hlx & Hsx & HWx).
    apply at_getc. intros l Hl. rewrite Hlx in Hl. injection Hl as <-.
    apply at_bind; [apply _|by apply at_gr, c_gets|]. intros v st1 [_ ->]%gets_moves.
    apply at_last; [apply _| |intros _; by apply gr_ret, _]. by eapply at_assign_count.
  - (* AssignRange *) destruct Hc as [-> ->]. destruct Hp as (Hx & (xs & Hxs & _) & _).
    destruct (reachable_sized _ _ _ _ Hr Hx) as (lx & Hlx & Hsx & HWx).
    apply at_getc. intros l Hl. rewrite Hlx in Hl. injection Hl as <-.
    apply at_bind; [apply _| |].
    { destruct r; unfold getr, geti; [by apply at_gr, gr_ret, _|].
      apply at_bind; [apply _|by apply at_gr, gr_lookup, _|]. intros f st1 _.
      apply at_bind; [apply _|by apply at_gr, gr_lookup, _|]. intros e st2 _. by apply at_gr, gr_ret, _. }
    intros r' st1 Hv. destruct (getr_moves (C:=C) _ _ _ _ _ _ Hr (mk_is_Some _ _ Hxs) Hv) as (Hok & Hlen & _ & ->).
    apply at_last; [apply _| |intros _; by apply gr_ret, _]. eapply at_assign_range; [done..|]. by rewrite Hlen.
  - (* Resize *) destruct Hc as [-> ->]. destruct Hp as (Hx & _). destruct (reachable_sized _ _ _ _ Hr Hx) as (lx & Hlx & Hsx & HWx).
    apply at_getc. intros l Hl. rewrite Hlx in Hl. injection Hl as <-.
    apply at_bind; [apply _|by apply at_gr, c_gets|]. intros v st1 [_ ->]%gets_moves.
    apply at_last; [apply _| |intros _; by apply gr_ret, _]. by eapply at_resize.
Qed.
End at_call.

Lemma at_exec b (P : state T → state T → Prop) c ρ st o ρ' st' : at_ b P (exec_call (C:=C) c ρ) st →
  exec c ρ st = Ok (o, ρ') st' → b = true ∨ (∀ e, o ≠ OExn e) → P st st'.
Proof using.
  rewrite /at_ /Exec.exec /try_catch. destruct (exec_call c ρ st) as [[o1 ρ1] st1|e st1|f]; [|simpl|done].
  - by intros ? [= <- <- <-].
  - intros H [= <- <- <-] [->|Hn]; [by apply H|by destruct (Hn e)].
Qed.
Lemma replaces_vars σ c x n y ρ st o ρ' st' : overwrites σ c x n →
  exec c ρ st = Ok (o, ρ') st' → e_cont ρ' !! y = e_cont ρ !! y.
Proof.
  intros Hc He. assert (keepsc y ρ (exec_call (C:=C) c ρ)) as H.
  { destruct c; try done; cbn [exec_call]; rewrite /done_;
    repeat first [ apply keepsc_ret; reflexivity | apply keepsc_bind; intros ]. }
  specialize (H st). revert He. rewrite /Exec.exec /try_catch. destruct (exec_call c ρ st) as [[o1 ρ1] st1|e st1|f]; [|by intros [= _ <- _]|done]. by intros [= _ <- _].
Qed.
Lemma replaces_at σ ρ st c x n : reachable σ ρ st → pre C σ c → overwrites σ c x n → is_Some (container_at st ρ x).
Proof.
  intros Hr Hp Hc. assert (live σ x) as [z Hx].
  { destruct c; try done; cbn [overwrites pre] in *; destruct Hc as [-> _]; by destruct Hp as [? _]. }
  rewrite (reachable_conts _ _ _ _ Hr) in Hx. by eexists.
Qed.
Lemma replaced_blocks σ ρ st c x n o ρ' st' : reachable σ ρ st → pre C σ c → overwrites σ c x n →
  exec c ρ st = Ok (o, ρ') st' → only σ c x → ∃ O : gset loc,
    NoDup (blocks_of st ρ x) ∧ NoDup (blocks_of st' ρ' x) ∧
    (∀ k, k ∈ O → k ∉ blocks_of st ρ x ∧ k ∉ blocks_of st' ρ' x) ∧
    dom (st_heap st) = O ∪ list_to_set (blocks_of st ρ x) ∧
    dom (st_heap st') = O ∪ list_to_set (blocks_of st' ρ' x).
Proof.
  intros Hr Hp Hc He Hon. apply (changed_blocks_ σ ρ st c o ρ' st' x Hr Hp He); [|by eapply replaces_at|done].
  intros y. by eapply replaces_vars.
Qed.
Lemma blocks_within (h h' : heap T) (O : gset loc) L L' : dom h = O ∪ list_to_set L → dom h' = O ∪ list_to_set L' →
  (∀ k, k ∈ O → k ∉ L') → (∀ k, is_Some (h' !! k) → is_Some (h !! k)) → L' ⊆ L.
Proof using.
  intros D D' HO Hk k Hin. assert (k ∈ dom h) as Hk'.
  { apply elem_of_dom, Hk, elem_of_dom. rewrite D'. apply elem_of_union_r. by apply elem_of_list_to_set. }
  rewrite D in Hk'. apply elem_of_union in Hk' as [Hk'|Hk']; [by destruct (HO k Hk')|by apply elem_of_list_to_set in Hk'].
Qed.

(** ** No more elements than there are: allocate() is not called, whether the call
    returns or throws, and what [x] owns afterwards it owned before. *)
Theorem C71_fewer σ ρ st c x n o ρ' st' :
  reachable σ ρ st → pre C σ c → overwrites σ c x n → n ≤ length (contents σ x) → exec c ρ st = Ok (o, ρ') st' →
  allocs st' = allocs st ∧ (∀ k, is_Some (st_heap st' !! k) → is_Some (st_heap st !! k)) ∧
  (only σ c x → blocks_of st' ρ' x ⊆ blocks_of st ρ x).
Proof.
  intros Hr Hp Hc Hn He.
  destruct (at_exec true shrunk c ρ st o ρ' st') as [Hk Ha]; [|done|by left|].
  { apply (at_call true shrunk (HP:=stays_calm _ _ _) σ ρ st c x n); [done..|]. right; left. split_and!; [apply _|done|apply shrunk_free]. }
  split_and!; [done|done|]. intros Hon.
  destruct (replaced_blocks _ _ _ _ _ _ _ _ _ Hr Hp Hc He Hon) as (O & _ & _ & HO & D1 & D2).
  eapply blocks_within; [exact D1|exact D2|by apply HO|done].
Qed.
(** ** No fewer: a call that returns normally releases nothing, and calls allocate()
    only for what it keeps. *)
Theorem C71_more σ ρ st c x n o ρ' st' :
  reachable σ ρ st → pre C σ c → overwrites σ c x n → length (contents σ x) ≤ n → exec c ρ st = Ok (o, ρ') st' →
  (∀ e, o ≠ OExn e) →
  (∀ k, is_Some (st_heap st !! k) → is_Some (st_heap st' !! k)) ∧
  size (st_heap st') + allocs st = size (st_heap st) + allocs st' ∧
  (only σ c x →
    blocks_of st ρ x ⊆ blocks_of st' ρ' x ∧
    length (blocks_of st' ρ' x) + allocs st = length (blocks_of st ρ x) + allocs st').
Proof.
  intros Hr Hp Hc Hn He Ho.
  destruct (at_exec false grown c ρ st o ρ' st') as [Hk Hs]; [|done|by right|].
  { apply (at_call false grown (HP:=stays_calm _ _ _) σ ρ st c x n); [done..|]. right; right. split_and!; [apply _|done|done|apply grown_allocate]. }
  split_and!; [done|done|]. intros Hon.
  destruct (replaced_blocks _ _ _ _ _ _ _ _ _ Hr Hp Hc He Hon) as (O & N1 & N2 & HO & D1 & D2).
  split; [eapply blocks_within; [exact D2|exact D1|by apply HO|done]|].
  rewrite (count_blocks _ _ _ D1 N1) in Hs; [|by intros; apply HO]. rewrite (count_blocks _ _ _ D2 N2) in Hs; [|by intros; apply HO]. lia.
Qed.
(** ** Exactly as many: neither, also when the call throws. *)
Theorem C71_same σ ρ st c x o ρ' st' :
  reachable σ ρ st → pre C σ c → overwrites σ c x (length (contents σ x)) → exec c ρ st = Ok (o, ρ') st' →
  allocs st' = allocs st ∧ (∀ k, is_Some (st_heap st' !! k) ↔ is_Some (st_heap st !! k)) ∧
  (only σ c x → blocks_of st' ρ' x ≡ₚ blocks_of st ρ x).
Proof.
  intros Hr Hp Hc He.
  destruct (at_exec true grown c ρ st o ρ' st') as [Hg _]; [|done|by left|].
  { apply (at_call true grown (HP:=stays_calm _ _ _) σ ρ st c x _ Hr Hp Hc). by left. }
  destruct (C71_fewer σ ρ st c x _ o ρ' st' Hr Hp Hc (Nat.le_refl _) He) as (Ha & Hk & Hb).
  split_and!; [done|split; auto|]. intros Hon.
  destruct (replaced_blocks _ _ _ _ _ _ _ _ _ Hr Hp Hc He Hon) as (O & N1 & N2 & HO & D1 & D2).
  apply NoDup_Permutation; [done..|]. intros k. split; [by apply Hb|].
  revert k. eapply blocks_within; [exact D2|exact D1|by apply HO|done].
Qed.
(** ** As many: the elements are overwritten where they are *)
(** the same blocks of memory, with the same contents but for the elements *)
Definition shape (o : obj T) : obj T := match o with OSeg a _ => OSeg a [] | _ => o end.
Definition in_place st st' : Prop := ∀ k, shape <$> st_heap st' !! k = shape <$> st_heap st !! k.
Lemma in_place_calm : calm true in_place.
Proof using.
  split.
  - split; [by intros st k|]. intros a b d H1 H2 k. by rewrite H2.
  - intros st st' E _ k. by rewrite E.
  - intros p i q st. rewrite /set_slot /load_seg /load /mbind /M_bind.
    destruct p as [l|]; [|done]. destruct (st_heap st !! l) as [[al sl| |]|] eqn:E; try done. simpl. rewrite /put.
    destruct (_ <? _); [|done]. simpl. intros k. simpl. destruct (decide (k = l)) as [->|Hk]; [by rewrite lookup_insert E|by rewrite lookup_insert_ne].
Qed.
Lemma in_place_segments (m m' : heap T) h : (∀ k, shape <$> m' !! k = shape <$> m !! k) → ∀ n l ss ss',
  segments_at m h n l = Some ss → segments_at m' h n l = Some ss' →
  ss'.*1 = ss.*1 ∧ length <$> ss'.*2 = length <$> ss.*2.
Proof using.
  intros Hm. induction h as [|h IH]; intros n l ss ss'; [done|]. cbn [segments_at]. specialize (Hm l).
  destruct (m !! l) as [[a sl|a nd|s]|]; destruct (m' !! l) as [[a' sl'|a' nd'|s']|]; simpl in Hm; try done.
  - destruct (mapM id (take n sl)) as [xs|]; [|done]. destruct (mapM id (take n sl')) as [xs'|]; [|done]. simpl.
    destruct (h =? 0); [|done]. simpl. destruct (length xs =? n) eqn:E1; [|done]. destruct (length xs' =? n) eqn:E2; [|done].
    apply Nat.eqb_eq in E1, E2. intros [= <-] [= <-]. simpl. split; [done|]. by rewrite E1 E2.
  - injection Hm as -> ->. destruct (children nd) as [cs|]; [|done]. simpl.
    destruct (mapM _ cs) as [ls|] eqn:E1; [|done]. destruct (mapM (λ c : nat * loc, segments_at m' h c.1 c.2) cs) as [ls'|] eqn:E2; [|done]. simpl.
    destruct (_ && _); [|done]. destruct (_ && _); [|done]. intros [= <-] [= <-].
    apply mapM_Some in E1. apply mapM_Some in E2. clear -IH E1 E2. revert ls' E2.
    induction E1 as [|c l1 cs ls H1 _ IHl]; intros ls' E2; inversion E2 as [|? l2 ? ? H2 E2']; subst; [done|].
    destruct (IH _ _ _ _ H1 H2) as [A1 A2]. destruct (IHl _ E2') as [B1 B2]. cbn [concat]. rewrite !fmap_app. by rewrite A1 B1 A2 B2.
Qed.
Lemma in_place_kept ρ st st' y ss : reached C ρ st' → in_place st st' → segments st ρ y = Some ss →
  ∃ ss', segments st' ρ y = Some ss' ∧ ss'.*1 = ss.*1 ∧ length <$> ss'.*2 = length <$> ss.*2.
Proof.
  intros R2 Hk Hs.
  rewrite /segments in Hs. destruct (seq_at st ρ y) as [s|] eqn:Hq; [|done]. simpl in Hs.
  rewrite /seq_at in Hq. destruct (e_cont ρ !! y) as [l|] eqn:Hv; [|done]. simpl in Hq.
  assert (seq_at st' ρ y = Some s) as Hq'.
  { rewrite /seq_at Hv. simpl. specialize (Hk l). destruct (st_heap st !! l) as [[| |s1]|]; try done. injection Hq as ->.
    destruct (st_heap st' !! l) as [[| |s2]|]; simpl in Hk; try done. by injection Hk as ->. }
  destruct (reached_var _ _ _ _ R2 Hv) as (xs' & a' & Hc').
  rewrite /container_at Hq' in Hc'. simpl in Hc'. destruct (segments st' ρ y) as [ss'|] eqn:Hs'; [|done].
  exists ss'. split; [done|]. rewrite /segments Hq' in Hs'. simpl in Hs'.
  destruct (s_root s) as [r|]; [by eapply in_place_segments|]. destruct (_ && _); [|done]. injection Hs as <-. by injection Hs' as <-.
Qed.
(** finding a position reads the sizes and pointers only *)
Definition agrees {A} (m : M T A) : Prop := ∀ st st' a st1, in_place st st' → m st = Ok a st1 → ∃ st1', m st' = Ok a st1' ∧ in_place st1 st1'.
Lemma agrees_ret {A} (a : A) : agrees (mret a).
Proof using. intros st st' b st1 H [= <- <-]. by exists st'. Qed.
Lemma agrees_fail {A} f : agrees (A:=A) (fail f).
Proof using. by intros st st' b st1 H. Qed.
Lemma agrees_bind {A B} (m : M T A) (k : A → M T B) : agrees m → (∀ a, agrees (k a)) → agrees (m ≫= k).
Proof using.
  intros Hm Hk st st' b st1 H. rewrite /mbind /M_bind. destruct (m st) as [a st2|e st2|f] eqn:E; [|done..].
  destruct (Hm _ _ _ _ H E) as (st2' & -> & H2). by apply Hk.
Qed.
Lemma agrees_init {A} (x : option A) : agrees (init x).
Proof using. destruct x; [apply agrees_ret|apply agrees_fail]. Qed.
Lemma agrees_elem {A} (l : list A) i : agrees (elem l i).
Proof using. unfold elem. destruct (l !! i); [apply agrees_ret|apply agrees_fail]. Qed.
Lemma agrees_load_node p : agrees (load_node p).
Proof using.
  intros st st' a st1 H. rewrite /load_node /load /mbind /M_bind. destruct p as [l|]; [|done]. specialize (H l) as Hl.
  destruct (st_heap st !! l) as [[b sl|b nd|s]|]; try done. destruct (st_heap st' !! l) as [[b' sl'|b' nd'|s']|]; try done.
  injection Hl as -> ->. intros [= <- <-]. eexists. split; [reflexivity|exact H].
Qed.
Lemma agrees_load_seq l : agrees (load_seq l).
Proof using.
  intros st st' a st1 H. rewrite /load_seq /load /mbind /M_bind. specialize (H l) as Hl.
  destruct (st_heap st !! l) as [[b sl|b nd|s]|]; try done. destruct (st_heap st' !! l) as [[b' sl'|b' nd'|s']|]; try done.
  injection Hl as ->. intros [= <- <-]. eexists. split; [reflexivity|exact H].
Qed.
Ltac agree_ := repeat first [ apply agrees_ret | apply agrees_fail | apply agrees_init | apply agrees_elem | apply agrees_load_node
  | apply agrees_load_seq | assumption | match goal with H : ∀ _, _ |- _ => apply H end | apply agrees_bind; [|intros ?] ].
Lemma agrees_sizes p i : agrees (sizes p i). Proof using. unfold sizes. agree_. Qed.
Lemma agrees_pointers p i : agrees (pointers p i). Proof using. unfold pointers. agree_. Qed.
Lemma agrees_length_of p : agrees (length_of p). Proof using. unfold length_of. agree_. Qed.
Ltac agree__ := repeat first [ apply agrees_sizes | apply agrees_pointers | apply agrees_length_of | progress agree_ | case_match ].
Lemma agrees_find_scan fuel p : ∀ i pos, agrees (find_scan fuel p i pos).
Proof using. induction fuel as [|fuel IH]; intros i pos; cbn [find_scan]; agree__. Qed.
Lemma agrees_find_index_leaf p pos : agrees (find_index_leaf (C:=C) p pos).
Proof using. unfold find_index_leaf. apply agrees_bind; [apply agrees_find_scan|intros ip]. agree__. Qed.
Lemma agrees_find_index_branch ht : ∀ p pos, agrees (find_index_branch (C:=C) p ht pos).
Proof using.
  induction ht as [|ht IH]; intros p pos; cbn [find_index_branch]; [apply agrees_fail|].
  apply agrees_bind; [apply agrees_find_scan|intros ip]. apply agrees_bind; [apply agrees_pointers|intros c].
  destruct (_ =? _); [apply agrees_find_index_leaf|apply IH].
Qed.
Lemma agrees_find_end_leaf p : agrees (find_end_leaf (C:=C) p).
Proof using. unfold find_end_leaf. agree__. Qed.
Lemma agrees_find_end_branch ht : ∀ p, agrees (find_end_branch (C:=C) p ht).
Proof using.
  induction ht as [|ht IH]; intros p; cbn [find_end_branch]; [apply agrees_fail|].
  apply agrees_bind; [apply agrees_length_of|intros n]. apply agrees_bind; [apply agrees_pointers|intros c].
  destruct (_ =? _); [apply agrees_find_end_leaf|apply IH].
Qed.
Lemma agrees_nth l pos : agrees (nth_ (C:=C) l pos).
Proof using.
  assert (∀ l, agrees (get_size l)) as Hs by (intros; unfold get_size; agree_).
  assert (∀ l, agrees (get_root l)) as Hr by (intros; unfold get_root; agree_).
  assert (∀ l, agrees (get_height l)) as Hh by (intros; unfold get_height; agree_).
  unfold nth_. apply agrees_bind; [apply Hs|intros n]. destruct (_ <=? _); unfold find_end, find_index;
    (apply agrees_bind; [apply Hr|intros r]; apply agrees_bind; [apply Hs|intros sz]; apply agrees_bind; [apply Hh|intros ht]).
  - unfold find_end_root, find_end_node. destruct (_ <? _); [apply agrees_ret|].
    apply agrees_bind; [destruct (_ =? _); [apply agrees_find_end_leaf|apply agrees_find_end_branch]|intros e; apply agrees_ret].
  - unfold find_index_root, find_index_node. destruct (_ <? _); [apply agrees_ret|].
    apply agrees_bind; [destruct (_ =? _); [apply agrees_find_index_leaf|apply agrees_find_index_branch]|intros e; apply agrees_ret].
Qed.
Lemma in_place_iterators ρ st st' w y p : reached C ρ st' → in_place st st' →
  iterator_at C st ρ w y p → iterator_at C st' ρ w y p.
Proof.
  intros R2 Hk (xs & a & st1 & Hx & Hle & Hn).
  rewrite /container_at in Hx. destruct (seq_at st ρ y) as [s|] eqn:Hq; [|done]. simpl in Hx.
  destruct (segments st ρ y) as [ss|] eqn:Hs; [|done]. injection Hx as <- <-.
  destruct (in_place_kept ρ st st' y ss R2 Hk Hs) as (ss' & Hs' & _ & Hlen).
  assert (∃ s', seq_at st' ρ y = Some s') as [s' Hq'].
  { rewrite /segments in Hs'. destruct (seq_at st' ρ y) as [s'|]; [by eexists|done]. }
  assert (length (concat ss'.*2) = length (concat ss.*2)) as Hl.
  { clear -Hlen. revert ss Hlen. induction ss' as [|b ss' IH]; intros [|b' ss] Hlen; try done. injection Hlen as H1 H2.
    cbn. rewrite !app_length. by rewrite H1 (IH ss H2). }
  revert Hn. rewrite /Exec.exec /try_catch. cbn [exec_call]. rewrite /getc. unfold mbind at 1, M_bind at 1.
  destruct (lookup_var _ _ _) as [l st2|e st2|f] eqn:El; [|done..].
  unfold mbind at 1, M_bind at 1. destruct (nth_ l p st2) as [it st3|e st3|f] eqn:En; [|done..].
  rewrite /done_. intros [= Hrho _].
  assert (st2 = st ∧ e_cont ρ !! y = Some l) as [-> Ely].
  { rewrite /lookup_var in El. destruct (e_cont ρ !! y); [|done]. by injection El as <- <-. }
  destruct (agrees_nth _ _ _ _ _ _ Hk En) as (st3' & En' & _).
  exists (concat ss'.*2), (s_ealloc s'), st3'. split_and!; [by rewrite /container_at Hq' /= Hs'|lia|].
  rewrite /Exec.exec /try_catch. cbn [exec_call]. rewrite /getc. unfold mbind at 1, M_bind at 1. rewrite /lookup_var Ely.
  cbn beta iota. rewrite /mret /M_ret. unfold mbind, M_bind. rewrite En'. by rewrite Hrho.
Qed.

(** *** reverse, sort and assignment through an iterator *)
Section in_place.
Local Instance ip_calm : calm true in_place := in_place_calm.
Local Instance ip_pre : PreOrder in_place := calm_pre.
Notation gp := (gr true in_place).
Lemma ip_coarser : coarser in_place. Proof. apply (c_coarser true _). Qed.
Lemma ip_allows : allows in_place. Proof. apply allows_same. intros st st' (H1 & _ & H2 & _). by apply (calm_same (any:=true)). Qed.
Lemma ip_looks {A} (m : M T A) : (∀ Q, PreOrder Q → coarser Q → allows Q → eff Q m) → gp m.
Proof. intros H st. specialize (H in_place ip_pre ip_coarser ip_allows st). by destruct (m st). Qed.
Ltac look H := apply ip_looks; intros; apply H; assumption.
Ltac gp_ := repeat first [ apply gr_ret, _ | apply c_tick | apply c_move_tick, _ | apply c_assign_value, _ | apply calm_slot
  | assumption | look @eff_read_slot | look @eff_dereference | look @eff_move_next_iterator | look @eff_move_prev_iterator
  | look @eff_find_first | look @eff_find_end | look @eff_pred_clock | look @eff_pred_done
  | match goal with H : ∀ _, _ |- _ => apply H end
  | apply gr_bind; [apply _| |intros ?] | done | case_match ].
Lemma ip_alg_read n : ∀ a b, gp (alg_read (C:=C) n a b).
Proof. induction n as [|n IH]; intros a b; cbn [alg_read]; unfold it_deref, it_next; gp_. Qed.
Lemma ip_alg_write vs : ∀ a, gp (alg_write (C:=C) a vs).
Proof. induction vs as [|v vs IH]; intros a; cbn [alg_write]; unfold it_next; gp_. Qed.
Lemma ip_swap a b : gp (std_iter_swap (C:=C) a b).
Proof. unfold std_iter_swap, make_value, alg_move, it_assign. gp_. Qed.
Lemma ip_reverse_loop n : ∀ a b, gp (std_reverse_loop (C:=C) n a b).
Proof. induction n as [|n IH]; intros a b; cbn [std_reverse_loop]; unfold it_next, it_prev; [by intros st|]. case_match; [|apply gr_ret, _].
  apply gr_bind; [apply _|apply ip_swap|intros _]. gp_. Qed.
Lemma ip_rearranges c x ρ : rearranges c x → gp (exec_call (C:=C) c ρ).
Proof.
  intros Hc. destruct c; try done; cbn [exec_call]; unfold getc, geti.
  - (* Write *) apply gr_bind; [apply _|apply gr_lookup, _|intros it]. apply gr_bind; [apply _|apply (c_gets true), _|intros v].
    unfold it_assign. gp_.
  - (* Reverse *) apply gr_bind; [apply _|apply gr_lookup, _|intros l]. apply gr_bind; [apply _| |intros _; apply gr_ret, _].
    unfold reverse_, begin_, end_, std_reverse, it_prev. apply gr_bind; [apply _|gp_|intros f]. apply gr_bind; [apply _|gp_|intros e].
    case_match; [gp_|]. apply gr_bind; [apply _|gp_|intros e']. apply ip_reverse_loop.
  - (* Sort *) apply gr_bind; [apply _|apply gr_lookup, _|intros l]. apply gr_bind; [apply _| |intros _; apply gr_ret, _].
    unfold ModelApi.sort, begin_, end_, std_stable_sort, alg_finish. apply gr_bind; [apply _|gp_|intros f]. apply gr_bind; [apply _|gp_|intros e].
    apply gr_bind; [apply _|apply ip_alg_read|intros vs]. case_match; [|apply ip_alg_write].
    apply gr_bind; [apply _|gp_|intros n]. apply gr_bind; [apply _|apply ip_alg_write|intros _]. gp_.
Qed.
End in_place.
Definition simple ρ c : Prop := ∀ st, match exec_call (C:=C) c ρ st with Ok (_, ρ1) _ => ρ1 = ρ | _ => True end.
Lemma simple_env ρ c st o ρ' st' : simple ρ c → exec c ρ st = Ok (o, ρ') st' → ρ' = ρ.
Proof using.
  intros H. specialize (H st). rewrite /Exec.exec /try_catch. destruct (exec_call c ρ st) as [[o1 ρ1] st1|e st1|f]; [|by intros [= _ <- _]|done].
  by intros [= _ <- _].
Qed.
Lemma keeps_env σ ρ c x n : overwrites σ c x n ∨ rearranges c x → simple ρ c.
Proof using.
  intros Hc. set (keeps := λ m : M T (out T * env), ∀ st, match m st with Ok (_, ρ1) _ => ρ1 = ρ | _ => True end).
  assert (∀ A (m : M T A) k, (∀ a, keeps (k a)) → keeps (m ≫= k)) as Hb.
  { intros A m k Hk st0. rewrite /mbind /M_bind. destruct (m st0); [apply Hk|done..]. }
  assert (∀ o, keeps (mret (o, ρ))) as Hret by (by intros o1 st0).
  destruct c; try (by destruct Hc); unfold simple; cbn [exec_call]; rewrite /done_; repeat first [ apply Hret | apply Hb; intros ].
Qed.
Theorem C64_in_place σ ρ st c x o ρ' st' :
  reachable σ ρ st → pre C σ c → rearranges c x → exec c ρ st = Ok (o, ρ') st' →
  (∀ y ss, segments st ρ y = Some ss →
    ∃ ss', segments st' ρ' y = Some ss' ∧ ss'.*1 = ss.*1 ∧ length <$> ss'.*2 = length <$> ss.*2) ∧
  (∀ w y p, iterator_at C st ρ w y p → iterator_at C st' ρ' w y p).
Proof.
  intros Hr Hp Hc He. destruct (call_inv _ _ _ _ _ _ _ Hr Hp He) as (σ' & _ & Hr').
  pose proof (simple_env _ _ _ _ _ _ (keeps_env σ ρ c x 0 (or_intror Hc)) He) as ->.
  assert (reached C ρ st') as R2 by by eexists.
  pose proof (at_exec true in_place c ρ st o ρ st' (at_gr _ _ _ st (ip_rearranges c x ρ Hc)) He (or_introl eq_refl)) as Hk.
  split; [intros y ss; by apply in_place_kept|intros w y p; by apply in_place_iterators].
Qed.

(** *** assignment of as many elements as there are: the segments have the addresses
    and sizes they had, and every iterator of the client still refers to its position *)
Lemma overwritten_in_place σ ρ st c x o ρ' st' :
  reachable σ ρ st → pre C σ c → overwrites σ c x (length (contents σ x)) → exec c ρ st = Ok (o, ρ') st' →
  ρ' = ρ ∧ reached C ρ st' ∧ in_place st st'.
Proof.
  intros Hr Hp Hc He. destruct (call_inv _ _ _ _ _ _ _ Hr Hp He) as (σ' & _ & Hr').
  pose proof (simple_env _ _ _ _ _ _ (keeps_env σ ρ c x _ (or_introl Hc)) He) as ->.
  split_and!; [done|by eexists|].
  exact (at_exec true in_place c ρ st o ρ st' (at_call true in_place (HP:=in_place_calm) σ ρ st c x _ Hr Hp Hc (or_introl eq_refl)) He (or_introl eq_refl)).
Qed.
Theorem C71_in_place σ ρ st c x o ρ' st' y ss :
  reachable σ ρ st → pre C σ c → overwrites σ c x (length (contents σ x)) → exec c ρ st = Ok (o, ρ') st' →
  segments st ρ y = Some ss →
  ∃ ss', segments st' ρ' y = Some ss' ∧ ss'.*1 = ss.*1 ∧ length <$> ss'.*2 = length <$> ss.*2.
Proof.
  intros Hr Hp Hc He Hs. destruct (overwritten_in_place _ _ _ _ _ _ _ _ Hr Hp Hc He) as (-> & R2 & Hk). by apply (in_place_kept ρ st).
Qed.
Theorem C71_iterators σ ρ st c x o ρ' st' w y p :
  reachable σ ρ st → pre C σ c → overwrites σ c x (length (contents σ x)) → exec c ρ st = Ok (o, ρ') st' →
  iterator_at C st ρ w y p → iterator_at C st' ρ' w y p.
Proof.
  intros Hr Hp Hc He Hi. destruct (overwritten_in_place _ _ _ _ _ _ _ _ Hr Hp Hc He) as (-> & R2 & Hk). by apply (in_place_iterators ρ st).
Qed.

(** ** bad_alloc is thrown only by a call that called allocate() *)
Theorem C48_bad_alloc ρ st c ρ' st' :
  exec c ρ st = Ok (OExn EAlloc, ρ') st' → allocs st < allocs st'.
Proof using.
  intros He. pose proof (C48_reported _ _ _ _ _ _ He) as Hf. cbn beta iota in Hf.
  pose proof (exec_blamed (C:=C) c ρ st) as Hb. rewrite He in Hb.
  rewrite /blamed Hf in Hb. cbn [bad] in Hb. lia.
Qed.
Theorem C48_no_bad_alloc ρ st c o ρ' st' :
  no_alloc c = true → exec c ρ st = Ok (o, ρ') st' → o ≠ OExn EAlloc.
Proof using.
  intros Hn He ->. pose proof (q_exec (C:=C) c ρ Hn st) as Hq. rewrite He in Hq. rewrite /quiet in Hq.
  apply C48_bad_alloc in He. lia.
Qed.
Theorem C71_no_bad_alloc σ ρ st c x n o ρ' st' :
  reachable σ ρ st → pre C σ c → overwrites σ c x n → n ≤ length (contents σ x) → exec c ρ st = Ok (o, ρ') st' →
  o ≠ OExn EAlloc.
Proof.
  intros Hr Hp Hc Hn He ->. destruct (C71_fewer _ _ _ _ _ _ _ _ _ Hr Hp Hc Hn He) as (Ha & _).
  apply C48_bad_alloc in He. lia.
Qed.
End props.
