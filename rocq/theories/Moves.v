(** * Moves: how many moves of elements a call makes.

    The oracle [c_move_ok] decides whether the move construction or move assignment
    made at a given moment succeeds.  A call whose behaviour, whatever the oracle,
    depends on the oracle at no more than [n] moments makes at most [n] moves.
    (Elements that are copied as bytes are not moved: [c_triv_copy].) *)
From Verif Require Export Copies Arrays.
From Verif Require Import Asked.
From Verif Require Defects.
From stdpp Require Import options.
#[local] Set Default Proof Using "Type*".
Notation with_moves := Defects.with_moves.

Section moves.
Context {T : Type} {C : cfg T} {OK : cfg_ok C}.
Notation all := (λ _ : nat, true).
Notation w f := (with_moves C f).
Notation sm := (segment_max (C:=C)).

(** in memory whose blocks have their sizes *)
Definition mv {A} (n : nat) (m : (nat → bool) → M T A) : Prop := ∀ st, arrays (C:=C) (st_heap st) → upto n m st.
Notation keeps m := (eff (karr (C:=C)) m).
Lemma mv_mono {A} a b (m : (nat → bool) → M T A) : mv a m → a ≤ b → mv b m.
Proof. intros H Hb st Ha. eapply upto_mono; [by apply H|done]. Qed.
Lemma mv_zero {A} n (m : (nat → bool) → M T A) : (∀ f st, m f st = m all st) → mv n m.
Proof. intros H st _. eapply upto_mono; [by apply upto_zero|lia]. Qed.
Lemma keeps_ok {A} (m : M T A) st a st' : keeps m → m st = Ok a st' → arrays (C:=C) (st_heap st) → arrays (C:=C) (st_heap st').
Proof. intros H E. specialize (H st). rewrite E in H. exact H. Qed.
Lemma mv_bind {A B} a n (m : (nat → bool) → M T A) (k : (nat → bool) → A → M T B) :
  mv a m → a ≤ n → keeps (m all) → (∀ x, mv (n - a) (λ f, k f x)) → mv n (λ f, m f ≫= k f).
Proof.
  intros Hm Ha He Hk st Hs. eapply upto_mono; [apply upto_bind with (b := n - a); [by apply Hm|]|lia].
  intros x st' E. apply Hk. by eapply keeps_ok.
Qed.
Lemma mv_first {A B} n (m : (nat → bool) → M T A) (k : (nat → bool) → A → M T B) :
  (∀ f st, m f st = m all st) → keeps (m all) → (∀ x, mv n (λ f, k f x)) → mv n (λ f, m f ≫= k f).
Proof. intros Hm He Hk. eapply (mv_bind 0); [by apply mv_zero|lia|done|]. intros x. by rewrite Nat.sub_0_r. Qed.
Lemma mv_last {A B} n (m : (nat → bool) → M T A) (k : (nat → bool) → A → M T B) :
  mv n m → (∀ x st f, k f x st = k all x st) → mv n (λ f, m f ≫= k f).
Proof. intros Hm Hk st Hs. apply upto_last; [by apply Hm|done]. Qed.
Lemma mv_tick : mv 1 (λ f, move_tick (C:=w f)).
Proof.
  intros st _. exists [st_clk st]. split; [done|]. intros f Hf. rewrite /move_tick /tick /=.
  destruct (c_triv_copy C); [done|]. by rewrite Hf; [|left].
Qed.
(** undefined behaviour, whatever the oracle *)
Definition dd {A} (m : (nat → bool) → M T A) : Prop :=
  ∀ st, arrays (C:=C) (st_heap st) → ∃ g, ∀ f, m f st = Fault g.
Lemma dd_bind {A B} n (m : (nat → bool) → M T A) (k : (nat → bool) → A → M T B) : dd m → mv n (λ f, m f ≫= k f).
Proof.
  intros H st Ha. destruct (H st Ha) as [g Hg]. exists []. split; [simpl; lia|]. intros f _. rewrite /mbind /M_bind. by rewrite !Hg.
Qed.
Lemma dd_mv {A} n (m : (nat → bool) → M T A) : dd m → mv n m.
Proof.
  intros H st Ha. destruct (H st Ha) as [g Hg]. exists []. split; [simpl; lia|]. intros f _. by rewrite !Hg.
Qed.
Lemma slot_dead p i st : sm ≤ i → arrays (C:=C) (st_heap st) → ∃ g, slot p i st = Fault g.
Proof.
  intros Hb Ha. rewrite /slot /load_seg /load /mbind /M_bind. destruct p as [l|]; [|by eexists].
  destruct (st_heap st !! l) as [[al sl| |]|] eqn:E; try (by eexists). simpl. rewrite /elem.
  rewrite (lookup_ge_None_2 sl i); [by eexists|]. by rewrite (Ha _ _ E).
Qed.
Lemma read_slot_dead p i st : sm ≤ i → arrays (C:=C) (st_heap st) → ∃ g, read_slot p i st = Fault g.
Proof. intros Hb Ha. destruct (slot_dead p i st Hb Ha) as [g Hg]. exists g. rewrite /read_slot /mbind /M_bind. by rewrite Hg. Qed.
Lemma read_slot_arrays p i st v st' : read_slot p i st = Ok v st' → arrays (C:=C) (st_heap st) → arrays (C:=C) (st_heap st').
Proof. apply keeps_ok. apply eff_read_slot; [apply _|apply karr_coarser]. Qed.

(** ** One slot *)
Lemma mv_construct p i v : mv 1 (λ f, construct_segment (C:=w f) p i v).
Proof.
  apply mv_first; [done|apply eff_slot; [apply _|apply karr_coarser]|]. intros c.
  apply mv_last; [apply mv_tick|done].
Qed.
Lemma mv_assign p i v : mv 1 (λ f, assign_segment (C:=w f) p i v).
Proof.
  apply mv_first; [done|apply eff_slot; [apply _|apply karr_coarser]|]. intros c.
  apply mv_last; [apply mv_tick|done].
Qed.
Lemma dd_construct p i v : sm ≤ i → dd (λ f, construct_segment (C:=w f) p i v).
Proof. intros Hi st Ha. destruct (slot_dead p i st Hi Ha) as [g Hg]. exists g. intros f. rewrite /construct_segment /mbind /M_bind. by rewrite Hg. Qed.
Lemma dd_assign p i v : sm ≤ i → dd (λ f, assign_segment (C:=w f) p i v).
Proof. intros Hi st Ha. destruct (slot_dead p i st Hi Ha) as [g Hg]. exists g. intros f. rewrite /assign_segment /mbind /M_bind. by rewrite Hg. Qed.
Lemma mv_move p i q j : mv 1 (λ f, move_segment (C:=w f) p i q j).
Proof.
  apply mv_first; [done|apply eff_read_slot; [apply _|apply karr_coarser]|]. intros v.
  apply mv_last; [apply mv_construct|done].
Qed.
Lemma mv_move_assign p i q j : mv 1 (λ f, move_assign_segment (C:=w f) p i q j).
Proof.
  apply mv_first; [done|apply eff_read_slot; [apply _|apply karr_coarser]|]. intros v.
  apply mv_last; [apply mv_assign|done].
Qed.
Lemma dd_move p i q j : sm ≤ i ∨ sm ≤ j → dd (λ f, move_segment (C:=w f) p i q j).
Proof.
  intros Hij st Ha. rewrite /move_segment /mbind /M_bind. destruct (read_slot p i st) as [v st1|e st1|g] eqn:E.
  - destruct Hij as [Hi|Hj]; [destruct (read_slot_dead p i st Hi Ha); congruence|].
    destruct (dd_construct q j v Hj st1 ltac:(by eapply read_slot_arrays)) as [g Hg]. exists g. intros f. by rewrite Hg.
  - exfalso. revert E. rewrite /read_slot /slot /load_seg /load /elem /mbind /M_bind. repeat case_match; naive_solver.
  - by exists g.
Qed.
Lemma dd_move_assign p i q j : sm ≤ i → dd (λ f, move_assign_segment (C:=w f) p i q j).
Proof. intros Hi st Ha. destruct (read_slot_dead p i st Hi Ha) as [g Hg]. exists g. intros f. rewrite /move_assign_segment /mbind /M_bind. by rewrite Hg. Qed.

(** ** Ranges of slots *)
Lemma mv_construct_loop src dst count : ∀ from to,
  mv (count `min` (sm - from) `min` (sm - to)) (λ f, construct_range_loop (C:=w f) src from dst to count).
Proof.
  induction count as [|n IH]; intros from to; cbn [construct_range_loop]; [by apply mv_zero|].
  destruct (decide (from < sm ∧ to < sm)) as [Hb|Hb]; [|apply dd_bind, dd_move; lia].
  eapply (mv_bind 1); [apply mv_move|lia|apply (a_move_segment (C:=w all))|]. intros _.
  apply mv_first; [done|apply (a_destroy_segment (C:=w all))|]. intros _. eapply mv_mono; [apply IH|lia].
Qed.
Lemma mv_construct_range src from dst to count :
  mv (count `min` (sm - from) `min` (sm - to)) (λ f, construct_range_segment (C:=w f) src from dst to count).
Proof. unfold construct_range_segment. simpl. destruct (_ && _); [by apply mv_zero|apply mv_construct_loop]. Qed.
Lemma mv_forward_loop p n : ∀ from to, from ≤ sm →
  mv (n `min` from) (λ f, assign_forward_segment_loop (C:=w f) p n from to).
Proof.
  induction n as [|n IH]; intros from to Hf; cbn [assign_forward_segment_loop]; [by apply mv_zero|]. cbv zeta.
  change (wsub (C:=w ?f)) with (wsub (C:=C)).
  destruct from as [|k].
  { apply dd_bind, dd_move_assign. pose proof (ok_W _ OK). rewrite /wsub Nat.add_0_l Nat.mod_small; simpl; lia. }
  pose proof (ok_W _ OK). 
  eapply (mv_bind 1); [apply mv_move_assign|lia|apply (a_move_assign_segment (C:=w all))|]. intros _.
  assert (wsub (C:=C) (S k) 1 = k) as -> by (rewrite wsub_small; lia).
  eapply mv_mono; [apply IH; lia|lia].
Qed.
Lemma mv_forward p n i d : n ≤ sm → mv (wsub (C:=C) n i `min` n) (λ f, assign_forward_segment (C:=w f) p n i d).
Proof. intros Hn. unfold assign_forward_segment. simpl. destruct (c_triv_copy C); [by apply mv_zero|]. exact (mv_forward_loop p (wsub (C:=C) n i) n (n + d) Hn). Qed.
Lemma mv_backward_loop p n : ∀ from to,
  mv (n `min` (sm - from)) (λ f, assign_backward_segment_loop (C:=w f) p n from to).
Proof.
  induction n as [|n IH]; intros from to; cbn [assign_backward_segment_loop]; [by apply mv_zero|].
  destruct (decide (from < sm)); [|apply dd_bind, dd_move_assign; lia].
  eapply (mv_bind 1); [apply mv_move_assign|lia|apply (a_move_assign_segment (C:=w all))|]. intros _.
  eapply mv_mono; [apply IH|lia].
Qed.
Lemma mv_backward p n i d : mv (sm - (i + d)) (λ f, assign_backward_segment (C:=w f) p n i d).
Proof.
  unfold assign_backward_segment. simpl. destruct (c_triv_copy C); [by apply mv_zero|].
  eapply mv_mono; [exact (mv_backward_loop p (wsub (C:=C) n i) (i + d) i)|lia].
Qed.
(** an index that does not exist: the last iterations are out of bounds *)
Lemma mv_forward_any p n d : mv sm (λ f, assign_forward_segment (C:=w f) p n 0 d).
Proof.
  destruct (decide (n ≤ sm)) as [Hn|Hn]; [eapply mv_mono; [by apply mv_forward|lia]|].
  unfold assign_forward_segment. simpl. destruct (c_triv_copy C); [by apply mv_zero|].
  change (mv sm (λ f, assign_forward_segment_loop (C:=w f) p (wsub (C:=C) n 0) n (n + d))).
  destruct (wsub (C:=C) n 0) as [|k]; cbn [assign_forward_segment_loop]; [by apply mv_zero|]. cbv zeta.
  change (wsub (C:=w ?f)) with (wsub (C:=C)).
  destruct (decide (wsub (C:=C) n 1 < sm)); [|apply dd_bind, dd_move_assign; lia].
  pose proof (segment_max_pos (C:=C)).
  eapply (mv_bind 1); [apply mv_move_assign|lia|apply (a_move_assign_segment (C:=w all))|]. intros _.
  eapply mv_mono; [apply mv_forward_loop; lia|lia].
Qed.

(** ** Inserting one element *)
Definition ins (this : loc) (e : iterator_entry) (value : T) (f : nat → bool) : M T iterator_entry :=
  let p := sg_ptr (e_seg e) in
  let index := sg_idx (e_seg e) in
  let length := sg_len (e_seg e) in
  let pp := lf_ptr (e_leaf e) in
  let pi := lf_idx (e_leaf e) in
  if negb (index =? length) && negb (length =? sm) then
    move_segment (C:=w f) p (wsub (C:=C) length 1) p length;;
    assign_forward_segment (C:=w f) p (wsub (C:=C) length 1) index 1;;
    assign_segment (C:=w f) p index value;;
    increment_sizes (C:=C) this pp pi;;
    mret (set_sg_len e (length + 1))
  else match p with
  | None =>
    alloc ← allocate_segment (C:=C) this;
    set_root this alloc;;
    ModelSeq.set_size this 1;;
    set_height this 1;;
    construct_segment (C:=w f) alloc 0 value;;
    mret (set_sg_len (set_sg_ptr e alloc) 1)
  | Some _ =>
    if negb (length =? sm) then
      construct_segment (C:=w f) p index value;;
      increment_sizes (C:=C) this pp pi;;
      mret (set_sg_len e (length + 1))
    else
      alloc ← allocate_segment (C:=C) this;
      leaf_alloc ← alloc_nodes_single (C:=C) this pp alloc;
      e' ←
        (if index <? (sm + 1) / 2 then
           move_segment (C:=w f) p (wsub (C:=C) ((sm + 1) / 2) 1) alloc 0;;
           construct_range_segment (C:=w f) p (wsub (C:=C) ((sm + 1) / 2) 1 + 1) alloc 1 (wsub (C:=C) (sm + 1 - (sm + 1) / 2) 1);;
           assign_forward_segment (C:=w f) p (wsub (C:=C) ((sm + 1) / 2) 1) index 1;;
           assign_segment (C:=w f) p index value;;
           mret (set_sg_len e ((sm + 1) / 2))
         else
           construct_range_segment (C:=w f) p ((sm + 1) / 2) alloc 0 (wsub (C:=C) index ((sm + 1) / 2));;
           construct_range_segment (C:=w f) p index alloc (wsub (C:=C) index ((sm + 1) / 2) + 1) (wsub (C:=C) length index);;
           construct_segment (C:=w f) alloc (wsub (C:=C) index ((sm + 1) / 2)) value;;
           mret (IterEntry (SegEntry alloc (wsub (C:=C) index ((sm + 1) / 2)) (sm + 1 - (sm + 1) / 2)) (LeafEntry pp (pi + 1))));
      insert_single_leaf (C:=C) this e' p pp (pi + 1) leaf_alloc alloc (sm + 1 - (sm + 1) / 2)
  end.
Lemma ins_eq this e v f : insert_single_segment (C:=w f) this e v = ins this e v f.
Proof. reflexivity. Qed.
Ltac first_ := apply mv_first; [reflexivity| |intros ?].
Ltac pay H := eapply mv_bind; [apply H| | |intros ?].
Lemma half_pos : 1 ≤ (sm + 1) / 2 ≤ sm.
Proof.
  pose proof (segment_max_pos (C:=C)). pose proof (Nat.div_mod (sm + 1) 2 ltac:(lia)). pose proof (Nat.mod_upper_bound (sm + 1) 2 ltac:(lia)). lia.
Qed.
Lemma mv_insert_segment this e v : mv (sm + 1) (λ f, insert_single_segment (C:=w f) this e v).
Proof.
  apply (mv_mono (sm + 1)); [|lia]. change (mv (sm + 1) (ins this e v)). unfold ins. cbv zeta.
  destruct e as [[p index length] [pp pi]]. cbn [e_seg e_leaf sg_ptr sg_idx sg_len lf_ptr lf_idx].
  pose proof (ok_W _ OK) as HW. pose proof half_pos as Hh.
  pose proof (Nat.div_mod (sm + 1) 2 ltac:(lia)) as Hd. pose proof (Nat.mod_upper_bound (sm + 1) 2 ltac:(lia)) as Hm.
  set (half := (sm + 1) / 2) in *.
  destruct (_ && _) eqn:Hc.
  { destruct (decide (wsub (C:=C) length 1 < sm ∧ length < sm)) as [Hb|Hb]; [|apply dd_bind, dd_move; lia].
    destruct length as [|k]; [rewrite /wsub Nat.add_0_l Nat.mod_small in Hb; lia|].
    assert (wsub (C:=C) (S k) 1 = k) as -> by (rewrite wsub_small; lia).
    pay @mv_move; [lia|apply (a_move_segment (C:=w all))|].
    pay @mv_forward; [lia..|apply (a_assign_forward_segment (C:=w all))|].
    apply mv_last; [eapply mv_mono; [apply mv_assign|lia]|done]. }
  clear Hc. destruct p as [l|].
  2: { first_; [apply (a_allocate_segment (C:=w all))|]. first_; [apply (a_set_root (C:=w all))|].
       first_; [apply (a_set_size (C:=w all))|]. first_; [apply (a_set_height (C:=w all))|].
       apply mv_last; [eapply mv_mono; [apply mv_construct|lia]|done]. }
  destruct (negb _).
  { apply mv_last; [eapply mv_mono; [apply mv_construct|lia]|done]. }
  first_; [apply (a_allocate_segment (C:=w all))|]. first_; [apply (a_alloc_nodes_single (C:=w all))|].
  apply mv_last; [|done]. destruct (index <? half) eqn:Hi.
  - apply Nat.ltb_lt in Hi.
    assert (wsub (C:=C) half 1 = half - 1) as -> by (apply wsub_small; lia).
    assert (wsub (C:=C) (sm + 1 - half) 1 = sm + 1 - half - 1) as -> by (apply wsub_small; lia).
    pay @mv_move; [lia|apply (a_move_segment (C:=w all))|].
    pay @mv_construct_range; [lia|apply (a_construct_range_segment (C:=w all))|].
    pay @mv_forward; [lia..|apply (a_assign_forward_segment (C:=w all))|].
    apply mv_last; [eapply mv_mono; [apply mv_assign|lia]|done].
  - apply Nat.ltb_ge in Hi.
    pay @mv_construct_range; [lia|apply (a_construct_range_segment (C:=w all))|].
    pay @mv_construct_range; [lia|apply (a_construct_range_segment (C:=w all))|].
    apply mv_last; [eapply mv_mono; [apply mv_construct|lia]|done].
Qed.

(** ** Erasing one element *)
Definition era (this : loc) (e : iterator_entry) (f : nat → bool) : M T iterator_entry :=
  let p := sg_ptr (e_seg e) in
  let index := sg_idx (e_seg e) in
  let length0 := sg_len (e_seg e) in
  let pp := lf_ptr (e_leaf e) in
  let pi := lf_idx (e_leaf e) in
  if (length0 =? 1) && (negb (segment_min (C:=C) =? 1) || bool_decide (pp = None)) then
    destroy_segment p 0;;
    deallocate_segment this p;;
    set_root this None;;
    ModelSeq.set_size this 0;;
    set_height this 0;;
    mret (IterEntry (SegEntry None 0 0) (e_leaf e))
  else
  let length := wsub (C:=C) length0 1 in
  if negb (length0 =? segment_min (C:=C)) || bool_decide (pp = None) then
    assign_backward_segment (C:=w f) p length index 1;;
    destroy_segment p length;;
    decrement_sizes (C:=C) this pp pi;;
    mret (set_sg_len e length)
  else
    let merge_size := segment_min (C:=C) * 2 - 1 in
    if negb (pi =? 0) then
      let prev_index := wsub (C:=C) pi 1 in
      prev_pointer ← pointers pp prev_index;
      prev_length ← sizes pp prev_index;
      if negb (prev_length =? segment_min (C:=C)) then
        let prev_length := wsub (C:=C) prev_length 1 in
        assign_forward_segment (C:=w f) p index 0 1;;
        move_assign_segment (C:=w f) prev_pointer prev_length p 0;;
        destroy_segment prev_pointer prev_length;;
        set_sizes pp prev_index prev_length;;
        ppp ← parent_pointer pp; ppi ← parent_index pp;
        decrement_sizes (C:=C) this ppp ppi;;
        mret (set_sg_idx e (index + 1))
      else
        construct_range_segment (C:=w f) p 0 prev_pointer prev_length index;;
        construct_range_segment (C:=w f) p (index + 1) prev_pointer (prev_length + index) (wsub (C:=C) length index);;
        destroy_segment p index;;
        deallocate_segment this p;;
        set_sizes pp prev_index merge_size;;
        l ← erase_single_leaf (C:=C) this (LeafEntry pp (wsub (C:=C) pi 1)) pp pi;
        mret (IterEntry (SegEntry prev_pointer (index + segment_min (C:=C)) merge_size) l)
    else
      let next_index := pi + 1 in
      next_pointer ← pointers pp next_index;
      next_length ← sizes pp next_index;
      if negb (next_length =? segment_min (C:=C)) then
        let next_length := wsub (C:=C) next_length 1 in
        assign_backward_segment (C:=w f) p length index 1;;
        move_assign_segment (C:=w f) next_pointer 0 p length;;
        assign_backward_segment (C:=w f) next_pointer next_length 0 1;;
        destroy_segment next_pointer next_length;;
        set_sizes pp next_index next_length;;
        ppp ← parent_pointer pp; ppi ← parent_index pp;
        decrement_sizes (C:=C) this ppp ppi;;
        mret e
      else
        assign_backward_segment (C:=w f) p length index 1;;
        move_assign_segment (C:=w f) next_pointer 0 p length;;
        destroy_segment next_pointer 0;;
        construct_range_segment (C:=w f) next_pointer 1 p (length + 1) (wsub (C:=C) next_length 1);;
        deallocate_segment this next_pointer;;
        set_sizes pp pi merge_size;;
        l ← erase_single_leaf (C:=C) this (e_leaf e) pp next_index;
        mret (IterEntry (SegEntry p index merge_size) l).
Lemma era_eq this e f : erase_single_segment (C:=w f) this e = era this e f.
Proof. reflexivity. Qed.
Lemma mv_erase_segment this e : mv (2 * sm) (λ f, erase_single_segment (C:=w f) this e).
Proof.
  change (mv (2 * sm) (era this e)). unfold era. cbv zeta.
  destruct e as [[p index length] [pp pi]]. cbn [e_seg e_leaf sg_ptr sg_idx sg_len lf_ptr lf_idx].
  pose proof (segment_max_pos (C:=C)) as Hpos.
  destruct (_ && _); [by apply mv_zero|]. destruct (_ || _).
  { apply mv_last; [|done]. eapply mv_mono; [apply mv_backward|lia]. }
  assert (∀ p i, keeps (pointers p i)) as Hp by (intros; apply eff_pointers; [apply _|apply karr_coarser]).
  assert (∀ p i, keeps (sizes p i)) as Hs by (intros; apply eff_sizes; [apply _|apply karr_coarser]).
  destruct (negb _).
  - first_; [apply Hp|]. first_; [apply Hs|]. destruct (negb _).
    + pay @mv_forward_any; [lia|apply (a_assign_forward_segment (C:=w all))|].
      apply mv_last; [eapply mv_mono; [apply mv_move_assign|lia]|done].
    + pay @mv_construct_range; [lia|apply (a_construct_range_segment (C:=w all))|].
      apply mv_last; [eapply mv_mono; [apply mv_construct_range|lia]|done].
  - first_; [apply Hp|]. first_; [apply Hs|]. destruct (negb _).
    + pay @mv_backward; [lia|apply (a_assign_backward_segment (C:=w all))|].
      pay @mv_move_assign; [lia|apply (a_move_assign_segment (C:=w all))|].
      apply mv_last; [eapply mv_mono; [apply mv_backward|lia]|done].
    + pay @mv_backward; [lia|apply (a_assign_backward_segment (C:=w all))|].
      pay @mv_move_assign; [lia|apply (a_move_assign_segment (C:=w all))|].
      first_; [apply (a_destroy_segment (C:=w all))|].
      apply mv_last; [eapply mv_mono; [apply mv_construct_range|lia]|done].
Qed.
End moves.
