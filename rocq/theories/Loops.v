(** * Loops: accesses of the private members of seq that insert, erase, assign
    and resize many elements.  Proof infrastructure. *)
From Verif Require Export Credits.
From stdpp Require Import options.
Set Default Proof Using "Type*".

Section loops.
Context {T : Type} {C : cfg T} {OK : cfg_ok C}.
Implicit Types o : option (tree T).
Implicit Types it : iterator_data.
Hint Resolve a_emplace_single a_make_value a_assign_value a_erase_single_segment a_erase_single a_erase_range_loop a_erase_range
  a_emplace_count_loop a_emplace_count a_emplace_range_loop a_emplace_range a_input_end a_input_src a_input_next a_assign_count_loop
  a_assign_count a_assign_range_loop a_assign_range a_resize_count a_whole_range : eff.
Hint Resolve karr_coarser karr_allows eff_read_slot eff_get_root eff_get_size eff_get_height eff_get_element_allocator eff_get_node_allocator
  eff_find_index eff_find_first eff_find_last eff_find_end eff_move_next_leaf eff_move_prev_leaf eff_move_next_iterator eff_move_prev_iterator
  eff_dereference eff_move_iterator_count eff_move_prev_iterator_count eff_op_eq eff_op_lt : eff.
Ltac karr := repeat first
    [ progress intros
    | solve [auto with eff typeclass_instances]
    | apply eff_bind; [apply _| |]
    | match goal with |- Effects.eff _ (match ?x with _ => _ end) => destruct x end ].

Lemma tk_step j k n {A B} (m : M T A) (f : A → M T B) :
  j + k ≤ n → eff karr m → tk j m ∧ wp m (λ a, tk k (f a)) (λ _, True) ⊢ tk n (m ≫= f).
Proof. intros H He. rewrite tk_bind; [|done]. by apply tk_mono. Qed.
Lemma tk_ret k {A} (a : A) P : P ⊢ tk k (mret (M:=M T) a).
Proof. apply tk_any. intros st. simpl. lia. Qed.
Lemma tk_ret_ k {A} (a : A) : ⊢ tk k (mret (M:=M T) a). Proof. apply tk_ret. Qed.
Lemma tk_any_ k {A} (m : M T A) : any k m → ⊢ tk k m. Proof. apply tk_any. Qed.
Lemma tk_pre j {A B} (m : M T A) (f : A → M T B) :
  (∀ a, any 0 (f a)) → eff karr m → tk j m ⊢ tk j (m ≫= f).
Proof.
  intros Hf He. split; intros h Hm. rewrite tk_holds in Hm. rewrite tk_holds. intros hf clk cnt Hd Ha.
  specialize (Hm hf clk cnt Hd Ha). rewrite /runs /mbind /M_bind in Hm |- *. destruct (m _) as [b st1|e st1|]; [|done..].
  specialize (Hf b st1). destruct (f b st1); [lia|lia|done].
Qed.
Lemma any_read_slot p i : any (T:=T) 1 (read_slot p i).
Proof. apply any_bind_pure; [apply any_slot|]. intros [v|]; [apply any_ret|apply any_fail]. Qed.
Lemma any_user_tick : any (T:=T) 0 (user_tick (C:=C)). Proof. intros st. rewrite /user_tick /tick. destruct (c_user_ok C _); simpl; lia. Qed.
Lemma any_mono j k {A} (m : M T A) : any j m → j ≤ k → any k m.
Proof. intros H Hk st. specialize (H st). destruct (m st); [lia|lia|done]. Qed.
Lemma any_make_value s : any (T:=T) 2 (make_value (C:=C) s).
Proof.
  destruct s as [v|p i|p i]; unfold make_value.
  - eapply any_mono; [eapply any_bind; [apply any_user_tick|intros _; apply any_ret]|lia].
  - eapply any_mono; [eapply any_bind; [apply any_read_slot|intros ?]; eapply any_bind; [apply any_user_tick|intros _; apply any_ret]|lia].
  - eapply any_mono; [eapply any_bind; [apply any_read_slot|intros ?]; eapply any_bind; [apply any_move_tick|intros _];
      eapply any_bind; [apply any_set_slot|intros _; apply any_ret]|lia].
Qed.
Lemma any_assign_value p i s : any (T:=T) 4 (assign_value (C:=C) p i s).
Proof.
  unfold assign_value. eapply any_mono; [eapply any_bind; [apply any_make_value|intros ?]; eapply any_bind; [apply any_read_slot|intros ?];
    apply any_set_slot|lia].
Qed.
Lemma any_input_end r : any (T:=T) 0 (input_end (C:=C) r).
Proof. destruct r as [xs|mv f l]; unfold input_end; [|apply any_ret]. eapply (any_bind 0 0); [apply any_user_tick|intros _; apply any_ret]. Qed.
Lemma any_input_src r : any (T:=T) 0 (input_src (C:=C) r).
Proof.
  destruct r as [xs|mv f l]; unfold input_src; [|apply any_ret].
  eapply (any_bind 0 0); [apply any_user_tick|intros _]. destruct xs; [apply any_fail|apply any_ret].
Qed.
Lemma any_list_next xs : any (T:=T) 0 (input_next (C:=C) (IList xs)).
Proof.
  unfold input_next. eapply (any_bind 0 0); [apply any_user_tick|intros _]. destruct xs; [apply any_fail|apply any_ret].
Qed.
(** asking whether a range is exhausted costs nothing *)
Lemma tk_input_end xs I J X late r k n {B} (f : bool → M T B) :
  inp_spec xs I J X late → (∀ b, eff karr (f b)) →
  I r k ⊢ (⌜k ≤ length xs⌝ → I r k -∗ tk n (f (k =? length xs))) -∗ tk n (input_end r ≫= f).
Proof.
  iIntros (Hin Hf) "HI H". iApply (tk_step 0 n); [lia|karr|]. iSplit; [by iApply tk_any_; apply any_input_end|].
  iApply (inp_end _ _ _ _ _ Hin with "HI"). iSplit; [|by iIntros]. done.
Qed.

Context (a : nat) (this : loc).
Notation seqp := (seqp a a).

Lemma tk_erase_single o it N :
  it_ok o it → i_pos it < osize o → osize o ≤ N → seqp this o ⊢ tk (64 * L N) (erase_single this it).
Proof.
  iIntros (Hit Hlt HN) "Hs". destruct o as [t|]; [|unfold osize in Hlt; simpl in Hlt; lia].
  rewrite /erase_single. pose proof (L_mono _ _ HN). iApply (tk_step (56 * L N) (8 * L N)); [lia|karr|]. iSplit.
  { iApply (tk_mono (56 * L (osize (Some t)))); [lia|]. by iApply (tk_erase_single_segment with "Hs"). }
  iApply (wp_erase_single_segment with "Hs"); [by apply it_at_elem|]. iIntros (o' e' (He & Hat & Hb & _)) "Hs".
  iApply tk_pre; [intros; apply any_ret|destruct (_ =? _); karr|].
  destruct (_ =? _); [|iApply tk_ret_].
  iApply (tk_mono with "[Hs]"); [|by iApply (tk_move_next_leaf with "Hs")]. apply Nat.mul_le_mono_l, L_mono. etrans; [|done].
  rewrite /osize He app_length take_length drop_length. simpl. lia.
Qed.
Lemma tk_erase_range_loop fuel o first last N :
  it_ok o last → i_pos first ≤ i_pos last → i_pos last - i_pos first < fuel → osize o ≤ N →
  seqp this o ⊢ tk ((i_pos last - i_pos first) * (72 * L N)) (erase_range_loop fuel this first last).
Proof.
  revert o last. induction fuel as [|fuel IH]; iIntros (o last Hit Hle Hf HN) "Hs"; [lia|].
  cbn [erase_range_loop]. iDestruct (seqp_lt with "Hs") as %HW. pose proof (it_ok_le _ _ Hit) as Hle'.
  rewrite wsub_small; [|lia..]. destruct (_ =? 0) eqn:H0. { iApply tk_ret_. }
  apply Nat.eqb_neq in H0. pose proof (L_mono _ _ HN).
  iApply (tk_step (8 * L N) (64 * L N + (i_pos last - i_pos first - 1) * (72 * L N))); [|karr|].
  { replace (i_pos last - i_pos first) with (S (i_pos last - i_pos first - 1)) at 2 by lia. lia. }
  iSplit.
  { iApply (tk_mono (8 * L (osize o))); [lia|]. by iApply (tk_move_prev with "Hs"). }
  iApply (wp_move_prev_iterator with "Hs"); [done|lia|]. iIntros (l1 [Hl1 Hp1]) "Hs".
  iApply tk_step; [done|karr|]. iSplit.
  { by iApply (tk_erase_single with "Hs"); [done|lia|]. }
  iApply (wp_erase_single with "Hs"); [done|lia|]. iIntros (o2 l2 (He & Hl2 & Hp2 & Hb)) "Hs".
  iDestruct (IH with "Hs") as "H"; [done|lia|lia| |].
  { etrans; [|done]. rewrite /osize He app_length take_length drop_length. lia. }
  iApply (tk_mono with "H"). replace (i_pos last - i_pos first - 1) with (i_pos l2 - i_pos first) by lia. done.
Qed.
Lemma tk_erase_range o first last N :
  it_ok o last → i_pos first ≤ i_pos last → osize o ≤ N →
  seqp this o ⊢ tk ((i_pos last - i_pos first) * (72 * L N)) (erase_range this first last).
Proof.
  iIntros (Hit Hle HN) "Hs". iDestruct (seqp_lt with "Hs") as %HW. pose proof (it_ok_le _ _ Hit).
  rewrite /erase_range. iApply (tk_erase_range_loop with "Hs"); [done|done| |done]. rewrite wsub_small; lia.
Qed.

Lemma tk_emplace_count_loop o it count s x R N :
  src_spec s x R R → it_ok o it → osize o + count < c_W C → osize o + count ≤ N →
  seqp this o ∗ R ⊢ tk (count * (72 * L N)) (emplace_count_loop this it count s).
Proof.
  intros Hsrc. revert o it. induction count as [|count IH]; iIntros (o it Hit HW HN) "[Hs HR]".
  { cbn [emplace_count_loop]. iApply tk_ret_. }
  cbn [emplace_count_loop]. iApply (tk_step (64 * L N) (8 * L N + count * (72 * L N))); [lia|karr|]. iSplit.
  { assert (osize o ≤ N) as HoN by lia. pose proof (L_mono _ _ HoN). iApply (tk_mono (64 * L (osize o))); [lia|]. by iApply (tk_emplace_single with "Hs"). }
  iApply (wp_emplace_single a a this o it s x (seqp this o ∗ R)%I R with "[Hs HR]");
    [by apply src_spec_frame|done|lia|iFrame|].
  iSplit; [|iSplit; by iIntros].
  iIntros (o' it' (He & Hit' & Hp & _)) "Hs HR".
  assert (osize o' = osize o + 1) as Hsz. { rewrite /osize He ins_at_length. done. }
  pose proof (it_ok_le _ _ Hit) as Hle.
  iApply tk_step; [done|karr|]. iSplit.
  { assert (osize o' ≤ N) as HoN by lia. pose proof (L_mono _ _ HoN). iApply (tk_mono (8 * L (osize o'))); [lia|]. by iApply (tk_move_next with "Hs"). }
  iApply (wp_move_next_iterator with "Hs"); [done|lia|]. iIntros (it2 [Hit2 Hp2]) "Hs".
  iApply IH; [done|lia|lia|]. iFrame.
Qed.
Lemma tk_emplace_count o it count s x R N :
  src_spec s x R R → it_ok o it → osize o + count < c_W C → osize o + count ≤ N →
  seqp this o ∗ R ⊢ tk (count * (72 * L N) + 8 * L N) (emplace_count this it count s).
Proof.
  iIntros (Hsrc Hit HW HN) "[Hs HR]". rewrite /emplace_count. iApply tk_step; [done|karr|]. iSplit.
  { iApply tk_emplace_count_loop; [done..|]. iFrame. }
  iApply (wp_emplace_count_loop with "Hs HR"); [done|done|done|]. iSplit; [|by iIntros].
  iIntros (o' it' (He & Hit' & Hp)) "Hs HR".
  assert (osize o' ≤ N) as HoN. { rewrite /osize He ins_at_length replicate_length. unfold osize in HN. lia. }
  pose proof (L_mono _ _ HoN). iApply (tk_mono (8 * L (osize o'))); [lia|]. by iApply (tk_move_prev_count with "Hs").
Qed.

(** an input range whose iterator takes [B] accesses to advance *)
Definition inp_cost (J : input → nat → hprop T) (B : nat) : Prop := ∀ r k, J r k ⊢ tk B (input_next r).
Lemma tk_emplace_range_loop xs I J X late fuel o it r k n N :
  inp_spec xs I J X late → inp_cost J (8 * L N) → it_ok o it → osize o + (length xs - k) < c_W C → length xs - k < fuel →
  osize o + (length xs - k) ≤ N →
  seqp this o ∗ I r k ⊢ tk ((length xs - k) * (80 * L N)) (emplace_range_loop fuel this it r n).
Proof.
  intros Hinp Hcost. revert o it r k n. induction fuel as [|fuel IH]; iIntros (o it r k n Hit HW Hf HN) "[Hs HI]"; [lia|].
  cbn [emplace_range_loop]. iApply (tk_input_end with "HI"); [done|intros []; karr|]. iIntros (Hk) "HI".
  destruct (k =? length xs) eqn:Hkx. { iApply tk_ret_. }
  apply Nat.eqb_neq in Hkx. destruct (lookup_lt_is_Some_2 xs k) as [x Hx]; [lia|].
  pose proof (it_ok_le _ _ Hit) as Hle.
  iApply (tk_step 0 (64 * L N + (16 * L N + (length xs - S k) * (80 * L N)))); [|karr|].
  { replace (length xs - k) with (S (length xs - S k)) by lia. lia. }
  iSplit; [by iApply tk_any_; apply any_input_src|].
  iApply (inp_src _ _ _ _ _ Hinp with "HI"); [done|]. iSplit; [|by iIntros]. iIntros (s Hsrc) "HI".
  iApply tk_step; [done|karr|]. iSplit.
  { assert (osize o ≤ N) as HoN by lia. pose proof (L_mono _ _ HoN). iApply (tk_mono (64 * L (osize o))); [lia|]. by iApply (tk_emplace_single with "Hs"). }
  iApply (wp_emplace_single a a this o it s x (seqp this o ∗ I r k)%I (J r k) with "[Hs HI]");
    [by apply src_spec_frame|done|lia|iFrame|].
  iSplit; [|iSplit; by iIntros].
  iIntros (o' it' (He & Hit' & Hp & _)) "Hs HJ".
  assert (osize o' = osize o + 1) as Hsz. { rewrite /osize He ins_at_length. done. }
  iApply (tk_step (8 * L N) (8 * L N + (length xs - S k) * (80 * L N))); [lia|karr|]. iSplit; [by iApply (Hcost with "HJ")|].
  iApply (inp_next _ _ _ _ _ Hinp with "HJ"); [lia|]. iSplit; [|by iIntros]. iIntros (r') "HI".
  iApply tk_step; [done|karr|]. iSplit.
  { assert (osize o' ≤ N) as HoN by lia. pose proof (L_mono _ _ HoN). iApply (tk_mono (8 * L (osize o'))); [lia|]. by iApply (tk_move_next with "Hs"). }
  iApply (wp_move_next_iterator with "Hs"); [done|lia|]. iIntros (it2 [Hit2 Hp2]) "Hs".
  iApply IH; [done|lia|lia|lia|]. iFrame.
Qed.
Lemma tk_emplace_range xs I J X late o it r k N :
  inp_spec xs I J X late → inp_cost J (8 * L N) → it_ok o it → osize o + (length xs - k) < c_W C → length xs - k < input_fuel r →
  osize o + (length xs - k) ≤ N →
  seqp this o ∗ I r k ⊢ tk ((length xs - k) * (80 * L N) + 8 * L N) (emplace_range this it r).
Proof.
  iIntros (Hinp Hcost Hit HW Hf HN) "[Hs HI]". rewrite /emplace_range. iApply tk_step; [done|karr|]. iSplit.
  { iApply tk_emplace_range_loop; [done..|]. iFrame. }
  iApply (wp_emplace_range_loop with "Hs HI"); [done|done|done|done|]. iSplit; [|by iIntros].
  iIntros (r' o' it' (He & Hit' & Hp)) "Hs HI". cbn [fst snd].
  assert (osize o' ≤ N) as HoN. { rewrite /osize He ins_at_length drop_length. unfold osize in HN. lia. }
  pose proof (L_mono _ _ HoN). iApply (tk_mono (8 * L (osize o'))); [lia|]. by iApply (tk_move_prev_count with "Hs").
Qed.

Lemma tk_assign_count_loop count s x R o first last N :
  src_spec s x R R → it_ok o first → it_ok o last → i_pos last = osize o →
  i_pos first + count < c_W C → i_pos first + count ≤ N → osize o ≤ N →
  seqp this o ∗ R ⊢ tk ((count + (i_pos last - i_pos first)) * (72 * L N) + 8 * L N) (assign_count_loop this count s first last).
Proof.
  intros Hsrc. revert o first last.
  induction count as [|count IH]; iIntros (o first last Hf Hl Hpl HW HN HN') "[Hs HR]"; cbn [assign_count_loop];
    pose proof (it_ok_le _ _ Hf) as Hle.
  { iApply tk_pre; [intros; apply any_ret|karr|].
    iApply (tk_mono with "[Hs]"); [|iApply (tk_erase_range with "Hs"); [done|lia|done]]. lia. }
  destruct (i_pos first =? i_pos last) eqn:Heq.
  { apply Nat.eqb_eq in Heq. iApply tk_pre; [intros; apply any_ret|karr|].
    iCombine "Hs HR" as "H". iDestruct (tk_emplace_count _ last (S count) s _ _ N with "H") as "H"; [done|done|lia|lia|].
    iApply (tk_mono with "H"). lia. }
  apply Nat.eqb_neq in Heq.
  iApply (tk_step 4 (8 * L N + ((count + (i_pos last - S (i_pos first))) * (72 * L N) + 8 * L N))); [|karr|].
  { pose proof (un_L N). replace (i_pos last - i_pos first) with (S (i_pos last - S (i_pos first))) by lia. lia. }
  iSplit; [by iApply tk_any_; apply any_assign_value|].
  iApply (wp_assign_value a a this o first with "Hs HR"); [done|done|lia|]. iSplit; [|by iIntros].
  iIntros (o' [Hsh He]) "Hs HR". assert (osize o' = osize o) as Hsz by by apply oshape_osize.
  iApply tk_step; [done|karr|]. iSplit.
  { pose proof (L_mono _ _ HN'). iApply (tk_mono (8 * L (osize o'))); [rewrite Hsz; lia|].
    iApply (tk_move_next with "Hs"). by eapply it_ok_shape. }
  iApply (wp_move_next_iterator with "Hs"); [by eapply it_ok_shape|lia|]. iIntros (f2 [Hf2 Hp2]) "Hs".
  replace (S (i_pos first)) with (i_pos f2) by lia.
  iApply IH; [done|by eapply it_ok_shape|lia|lia|lia|lia|]. iFrame.
Qed.
Lemma tk_assign_count count s x R o N :
  src_spec s x R R → count < c_W C → count ≤ N → osize o ≤ N →
  seqp this o ∗ R ⊢ tk ((count + osize o) * (72 * L N) + 24 * L N) (assign_count this count s).
Proof.
  iIntros (Hsrc HW HN HN') "[Hs HR]". rewrite /assign_count. pose proof (L_mono _ _ HN').
  iApply (tk_step (8 * L N) ((count + osize o) * (72 * L N) + 16 * L N)); [lia|karr|]. iSplit.
  { iApply (tk_mono (8 * L (osize o))); [lia|]. by iApply (tk_find_first with "Hs"). }
  iApply (wp_find_first with "Hs"). iIntros (f [Hf Hpf]) "Hs".
  iApply (tk_step (8 * L N) ((count + osize o) * (72 * L N) + 8 * L N)); [lia|karr|]. iSplit.
  { iApply (tk_mono (8 * L (osize o))); [lia|]. by iApply (tk_find_end with "Hs"). }
  iApply (wp_find_end with "Hs"). iIntros (l [Hl Hpl]) "Hs".
  iApply (tk_mono ((count + (i_pos l - i_pos f)) * (72 * L N) + 8 * L N)). { rewrite Hpl Hpf Nat.sub_0_r. done. }
  iApply tk_assign_count_loop; [done|done|done|done|lia|lia|done|]. iFrame.
Qed.

Lemma tk_assign_range_loop xs I J X late fuel o r k first last N :
  inp_spec xs I J X late → inp_cost J (8 * L N) → (∀ r k, I r k ⊢ ⌜length xs - k < input_fuel r⌝) →
  it_ok o first → it_ok o last → i_pos last = osize o →
  i_pos first + (length xs - k) < c_W C → length xs - k < fuel → i_pos first + (length xs - k) ≤ N → osize o ≤ N →
  seqp this o ∗ I r k ⊢ tk (((length xs - k) + (i_pos last - i_pos first)) * (80 * L N) + 8 * L N) (assign_range_loop fuel this r first last).
Proof.
  intros Hinp Hcost Hfuel. revert o r k first last.
  induction fuel as [|fuel IH]; iIntros (o r k first last Hf Hl Hpl HW Hfu HN HN') "[Hs HI]"; [lia|];
    cbn [assign_range_loop]; pose proof (it_ok_le _ _ Hf) as Hle.
  iDestruct (Hfuel with "HI") as %Hfr. iApply (tk_input_end with "HI"); [done|intros []; [|destruct (_ =? _)]; karr|]. iIntros (Hk) "HI".
  destruct (k =? length xs) eqn:Hkx.
  { iApply tk_pre; [intros; apply any_ret|karr|].
    iApply (tk_mono ((i_pos last - i_pos first) * (72 * L N)) with "[Hs]"); [|iApply (tk_erase_range with "Hs"); [done|lia|done]].
    etrans; [apply (Nat.mul_le_mono _ (length xs - k + (i_pos last - i_pos first)) _ (80 * L N)); lia|apply Nat.le_add_r]. }
  apply Nat.eqb_neq in Hkx.
  destruct (i_pos first =? i_pos last) eqn:Heq.
  { apply Nat.eqb_eq in Heq. iApply tk_pre; [intros; apply any_ret|karr|].
    iCombine "Hs HI" as "H". iDestruct (tk_emplace_range _ _ _ _ _ _ last r k N with "H") as "H"; [done|done|done|lia|done|lia|].
    iApply (tk_mono with "H"). lia. }
  apply Nat.eqb_neq in Heq. destruct (lookup_lt_is_Some_2 xs k) as [x Hx]; [lia|].
  iApply (tk_step 0 (4 + (8 * L N + (8 * L N + (((length xs - S k) + (i_pos last - S (i_pos first))) * (80 * L N) + 8 * L N))))); [|karr|].
  { pose proof (un_L N). replace (i_pos last - i_pos first) with (S (i_pos last - S (i_pos first))) by lia.
    replace (length xs - k) with (S (length xs - S k)) by lia.
    generalize (length xs - S k) (i_pos last - S (i_pos first)). intros u v. nia. }
  iSplit; [by iApply tk_any_; apply any_input_src|].
  iApply (inp_src _ _ _ _ _ Hinp with "HI"); [done|]. iSplit; [|by iIntros]. iIntros (s Hsrc) "HI".
  iApply tk_step; [done|karr|].
  iSplit; [by iApply tk_any_; apply any_assign_value|].
  iApply (wp_assign_value a a this o first with "Hs HI"); [done|done|lia|]. iSplit; [|by iIntros].
  iIntros (o' [Hsh He]) "Hs HJ". assert (osize o' = osize o) as Hsz by by apply oshape_osize.
  iApply tk_step; [done|karr|]. iSplit.
  { pose proof (L_mono _ _ HN'). iApply (tk_mono (8 * L (osize o'))); [rewrite Hsz; lia|].
    iApply (tk_move_next with "Hs"). by eapply it_ok_shape. }
  iApply (wp_move_next_iterator with "Hs"); [by eapply it_ok_shape|lia|]. iIntros (f2 [Hf2 Hp2]) "Hs".
  iApply tk_step; [done|karr|]. iSplit; [by iApply (Hcost with "HJ")|].
  iApply (inp_next _ _ _ _ _ Hinp with "HJ"); [lia|]. iSplit; [|by iIntros]. iIntros (r') "HI".
  replace (S (i_pos first)) with (i_pos f2) by lia.
  iApply IH; [done|by eapply it_ok_shape|lia|lia|lia|lia|lia|]. iFrame.
Qed.
Lemma tk_assign_range xs I J X late o r N :
  inp_spec xs I J X late → inp_cost J (8 * L N) → (∀ r k, I r k ⊢ ⌜length xs - k < input_fuel r⌝) → length xs < c_W C →
  length xs ≤ N → osize o ≤ N →
  seqp this o ∗ I r 0 ⊢ tk ((length xs + osize o) * (80 * L N) + 24 * L N) (assign_range this r).
Proof.
  iIntros (Hinp Hcost Hfuel HW HN HN') "[Hs HI]". rewrite /assign_range. pose proof (L_mono _ _ HN').
  iApply (tk_step (8 * L N) ((length xs + osize o) * (80 * L N) + 16 * L N)); [lia|karr|]. iSplit.
  { iApply (tk_mono (8 * L (osize o))); [lia|]. by iApply (tk_find_first with "Hs"). }
  iApply (wp_find_first with "Hs"). iIntros (f [Hf Hpf]) "Hs".
  iApply (tk_step (8 * L N) ((length xs + osize o) * (80 * L N) + 8 * L N)); [lia|karr|]. iSplit.
  { iApply (tk_mono (8 * L (osize o))); [lia|]. by iApply (tk_find_end with "Hs"). }
  iApply (wp_find_end with "Hs"). iIntros (l [Hl Hpl]) "Hs". iDestruct (Hfuel with "HI") as %Hfr.
  iApply (tk_mono (((length xs - 0) + (i_pos l - i_pos f)) * (80 * L N) + 8 * L N)). { rewrite Hpl Hpf !Nat.sub_0_r. done. }
  iApply tk_assign_range_loop; [done|done|done|done|done|done|lia|lia|lia|done|]. iFrame.
Qed.

Lemma tk_resize_count count s x R o N :
  src_spec s x R R → count < c_W C → count ≤ N → osize o ≤ N →
  seqp this o ∗ R ⊢ tk (((count - osize o) + (osize o - count)) * (72 * L N) + 32 * L N) (resize_count this count s).
Proof.
  iIntros (Hsrc HW HN HN') "[Hs HR]". rewrite /resize_count. pose proof (L_mono _ _ HN'). pose proof (un_L N).
  iApply (tk_step 1 (((count - osize o) + (osize o - count)) * (72 * L N) + 24 * L N)); [lia|karr|].
  iSplit; [by iApply tk_any_; apply any_get_size|].
  iApply (wp_get_size_o with "Hs"). iIntros "Hs". destruct (osize o =? count) eqn:Heq. { iApply tk_ret_. }
  iApply (tk_step (8 * L N) (((count - osize o) + (osize o - count)) * (72 * L N) + 16 * L N)); [lia|karr|]. iSplit.
  { iApply (tk_mono (8 * L (osize o))); [lia|]. by iApply (tk_find_end with "Hs"). }
  iApply (wp_find_end with "Hs"). iIntros (l [Hl Hpl]) "Hs".
  destruct (count <? osize o) eqn:Hlt.
  - apply Nat.ltb_lt in Hlt.
    iApply (tk_step (8 * L N) ((osize o - count) * (72 * L N) + 8 * L N)); [lia|karr|]. iSplit.
    { iApply (tk_mono (8 * L (osize o))); [lia|]. by iApply (tk_find_index with "Hs"). }
    iApply (wp_find_index with "Hs"); [done|]. iIntros (f [Hf Hpf]) "Hs".
    iApply tk_pre; [intros; apply any_ret|karr|].
    iApply (tk_mono with "[Hs]"); [|iApply (tk_erase_range with "Hs"); [done|lia|done]]. rewrite Hpl Hpf. lia.
  - apply Nat.ltb_ge in Hlt. iApply tk_pre; [intros; apply any_ret|karr|].
    iCombine "Hs HR" as "H". iDestruct (tk_emplace_count _ l (count - osize o) s _ _ N with "H") as "H"; [done|done|lia|lia|].
    iApply (tk_mono with "H"). lia.
Qed.
End loops.
