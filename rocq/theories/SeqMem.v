(** * SeqMem: purge / clear, value sources and input ranges, steal, swap,
    long jumps and segment jumps of iterators.  Proof infrastructure. *)
From Verif Require Export SeqOps.
From stdpp Require Import options.
Set Default Proof Using "Type*".

Ltac getters :=
  wp_bind; iApply (wp_get_root with "Hs"); iIntros "Hs";
  wp_bind; iApply (wp_get_size with "Hs"); iIntros "Hs";
  wp_bind; iApply (wp_get_height with "Hs"); iIntros "Hs".

Section mem.
Context {T : Type} {C : cfg T} {OK : cfg_ok C} {FZ : frozen T}.
Context (ea na : nat).
Implicit Types t : tree T.
Implicit Types ts : list (tree T).
Implicit Types o : option (tree T).
Implicit Types xs : list T.
Notation seqp := (seqp ea na).
Notation sqo := (sqo ea na).
Notation tr := (tr ea na).
Notation segp := (segp ea).
Notation kidst := (kidst ea na).

(** ** purge *)
Lemma wp_destroy_all l k xs (junk : list (option T)) Q E :
  sg ea l (replicate k None ++ (Some <$> xs) ++ junk) -∗
  (sg ea l (replicate (k + length xs) None ++ junk) -∗ Q ()) -∗
  wp (for_ (length xs) k (destroy_segment (Some l))) Q E.
Proof.
  revert k. induction xs as [|x xs IH]; intros k; iIntros "H HQ"; cbn [length for_].
  - wp_ret. iApply "HQ". rewrite Nat.add_0_r. iApply "H".
  - wp_bind. iApply (wp_destroy_segment with "H").
    { rewrite fmap_cons. apply lookup_mid. by rewrite replicate_length. }
    rewrite fmap_cons. cbn [app]. rewrite insert_mid; [|by rewrite replicate_length].
    iIntros "H". iApply (IH with "[H] [HQ]").
    + assert (replicate (S k) None ++ (Some <$> xs) ++ junk =
              replicate k (@None T) ++ None :: (Some <$> xs) ++ junk) as ->; [|done].
      rewrite replicate_S_end -assoc_L //.
    + replace (S k + length xs) with (k + S (length xs)) by lia. done.
Qed.
Lemma wp_purge_segment this r n ht l xs Q E :
  sqo this r n ht -∗ segp l xs -∗ (sqo this r n ht -∗ Q ()) -∗
  wp (purge_segment this (Some l) (length xs)) Q E.
Proof.
  iIntros "Hs Hg HQ". iDestruct "Hg" as (junk [Hl Hc]) "Hg". rewrite /purge_segment. wp_bind.
  destruct (c_triv_destroy C) eqn:Htd.
  - wp_ret. iApply (wp_deallocate_segment with "Hs Hg"); [|done].
    apply Forall_forall. intros; by left.
  - iApply (wp_destroy_all l 0 with "[Hg]"); [iApply "Hg"|]. iIntros "Hg".
    iApply (wp_deallocate_segment with "Hs Hg"); [|done].
    apply Forall_app; split; [|done]. apply Forall_replicate. by right.
Qed.
Lemma wp_purge_kids h l ts this r n ht p i len A junk (f : nat → M T unit) Q E :
  (∀ t k a Q E, t ∈ ts → a !! k = Some (entry t) →
     sqo this r n ht -∗ nd na l p i len a -∗ tr h (Some (Some l)) (Some k) t -∗
     (sqo this r n ht -∗ nd na l p i len (<[k := ((entry t).1, None)]> a) -∗ Q ()) -∗
     wp (f k) Q E) →
  sqo this r n ht -∗ nd na l p i len (A ++ (entry <$> ts) ++ junk) -∗ kidst h l (length A) ts -∗
  (∀ a, sqo this r n ht -∗ nd na l p i len a -∗ Q ()) -∗
  wp (for_ (length ts) (length A) f) Q E.
Proof.
  revert A. induction ts as [|t ts IH]; intros A Hf; iIntros "Hs Hn Hk HQ"; cbn [length for_].
  { wp_ret. iApply ("HQ" with "Hs Hn"). }
  iEval (rewrite kidst_cons) in "Hk". iDestruct "Hk" as "[Ht Hk]".
  rewrite fmap_cons. cbn [app].
  wp_bind. iApply (Hf with "Hs Hn Ht"); [by left|by apply lookup_mid|]. iIntros "Hs".
  rewrite insert_mid //. iIntros "Hn".
  rewrite (snoc_app A).
  assert (S (length A) = length (A ++ [((entry t).1, @None loc)])) as -> by (rewrite app_length /=; lia).
  iApply (IH with "Hs Hn Hk HQ"). intros. apply Hf; [by right|done].
Qed.
Lemma wp_purge_node this r n ht h l ts p i Q E :
  sqo this r n ht -∗ tr h p i (Nd l ts) -∗ (sqo this r n ht -∗ Q ()) -∗
  wp (purge_node this h (Some l)) Q E.
Proof.
  revert l ts p i Q E. induction h as [|h IH]; iIntros (l ts p i Q E) "Hs Ht HQ"; [by iDestruct (tr_0 with "Ht") as "[]"|].
  iEval (rewrite tr_Nd) in "Ht". iDestruct "Ht" as (junk [Hh1 Hl]) "[Hn Hk]".
  cbn [purge_node]. wp_bind. iApply (wp_length_of with "Hn"). iIntros "Hn". wp_bind.
  destruct (S h =? 2) eqn:H2.
  - apply Nat.eqb_eq in H2. assert (h = 1) as -> by lia.
    iApply (wp_purge_kids 1 l ts this r n ht p i _ [] junk with "Hs Hn Hk").
    { intros t k a Q' E' Hin Hk. iIntros "Hs Hn Ht HQ".
      wp_bind. iApply (wp_pointers with "Hn"); [done|]. iIntros "Hn".
      wp_bind. iApply (wp_sizes with "Hn"); [done|]. iIntros "Hn". wp_bind.
      destruct t as [l' xs|l' us].
      - iEval (rewrite tr_Seg) in "Ht". iDestruct "Ht" as (_) "Ht". rewrite tsize_Seg.
        iApply (wp_purge_segment with "Hs Ht"). iIntros "Hs".
        iApply (wp_destroy_node with "Hn"); [done|]. iApply ("HQ" with "Hs").
      - iEval (rewrite tr_Nd) in "Ht". iDestruct "Ht" as (junk' [Hx _]) "Ht". lia. }
    iIntros (a) "Hs Hn". iApply (wp_deallocate_node with "Hs Hn HQ").
  - apply Nat.eqb_neq in H2.
    iApply (wp_purge_kids h l ts this r n ht p i _ [] junk with "Hs Hn Hk").
    { intros t k a Q' E' Hin Hk. iIntros "Hs Hn Ht HQ".
      wp_bind. iApply (wp_pointers with "Hn"); [done|]. iIntros "Hn". wp_bind.
      destruct t as [l' xs|l' us].
      - destruct h as [|h]; [lia|]. iEval (rewrite tr_Seg) in "Ht". iDestruct "Ht" as (->) "Ht". lia.
      - iApply (IH with "Hs Ht"). iIntros "Hs".
        iApply (wp_destroy_node with "Hn"); [done|]. iApply ("HQ" with "Hs"). }
    iIntros (a) "Hs Hn". iApply (wp_deallocate_node with "Hs Hn HQ").
Qed.
(** deallocate(nullptr) is reached exactly when the container is empty *)
Definition may_purge o : Prop := o = None → c_null_free C = true.
Lemma wp_purge this o Q E :
  may_purge o →
  seqp this o -∗ (∀ r n ht, sqo this r n ht -∗ Q ()) -∗ wp (purge this) Q E.
Proof.
  iIntros (Hnf) "Hs HQ". rewrite /purge. destruct o as [t|]; last first.
  { getters. rewrite /purge_root /=. rewrite /purge_segment. wp_bind.
    assert (wp (T:=T) (if c_triv_destroy C then mret () else for_ 0 0 (destroy_segment None))
              = wp (mret ())) as ->. { by destruct (c_triv_destroy C). }
    wp_ret. rewrite /deallocate_segment. wp_bind. iApply (wp_get_element_allocator with "Hs"). iIntros "Hs".
    rewrite Hnf //. wp_ret. iApply ("HQ" with "Hs"). }
  iDestruct "Hs" as (h [Hw HtW]) "[Hs Ht]". getters. rewrite /purge_root.
  pose proof (wfroot_height_pos _ _ Hw).
  destruct (h <? 2) eqn:Hh.
  - apply Nat.ltb_lt in Hh. assert (h = 1) as -> by lia.
    destruct (wfroot_1_seg _ Hw) as (l & xs & -> & Hl). iEval (rewrite tr_Seg) in "Ht".
    iDestruct "Ht" as (_) "Ht". rewrite tsize_Seg.
    iApply (wp_purge_segment with "Hs Ht"). iApply "HQ".
  - apply Nat.ltb_ge in Hh. destruct t as [l xs|l ts].
    { destruct h as [|h]; [lia|]. destruct Hw as [-> _]. lia. }
    iApply (wp_purge_node with "Hs Ht"). iApply "HQ".
Qed.
Lemma wp_clear this o Q E :
  may_purge o → seqp this o -∗ (seqp this None -∗ Q ()) -∗ wp (clear this) Q E.
Proof.
  iIntros (Hnf) "Hs HQ". rewrite /clear. wp_bind. iApply (wp_purge with "Hs"); [done|].
  iIntros (r n ht) "Hs". wp_bind. iApply (wp_set_root with "Hs"). iIntros "Hs".
  wp_bind. iApply (wp_set_height with "Hs"). iIntros "Hs". iApply (wp_set_size with "Hs"). done.
Qed.

(** ** moving by a signed distance *)
Lemma to_size_pos (d : Z) : (0 ≤ d < Z.of_nat (c_W C))%Z → to_size d = Z.to_nat d.
Proof. intros. rewrite /to_size Z.mod_small //. Qed.
Lemma to_size_neg (d : Z) : (- Z.of_nat (c_W C) < d < 0)%Z → to_size d = c_W C - Z.to_nat (- d).
Proof.
  intros. rewrite /to_size. rewrite -(Z.mod_unique d (Z.of_nat (c_W C)) (-1) (d + Z.of_nat (c_W C))); lia.
Qed.
Lemma wp_move_iterator_count this o it (d : Z) Q E :
  it_ok o it → (0 ≤ Z.of_nat (i_pos it) + d ≤ Z.of_nat (osize o))%Z →
  seqp this o -∗
  (∀ it', ⌜it_ok o it' ∧ Z.of_nat (i_pos it') = (Z.of_nat (i_pos it) + d)%Z⌝ → seqp this o -∗ Q it') -∗
  wp (move_iterator_count it d) Q E.
Proof.
  iIntros (Hit Hd) "Hs HQ". iDestruct (seqp_lt with "Hs") as %HW. pose proof (it_ok_le _ _ Hit) as Hle.
  rewrite /move_iterator_count.
  destruct (bool_decide (0 < d)%Z) eqn:H1; [apply bool_decide_eq_true in H1|apply bool_decide_eq_false in H1].
  { rewrite to_size_pos; [|lia]. wp_bind.
    iApply (wp_move_next_segment_count_ok with "Hs"); [by apply it_ok_oseg|lia|]. iIntros (e' He') "Hs". wp_ret.
    iApply ("HQ" with "[%] Hs"). rewrite wadd_small; [|lia]. split; [done|]. cbn [i_pos]. lia. }
  destruct (bool_decide (d < 0)%Z) eqn:H2; [apply bool_decide_eq_true in H2|apply bool_decide_eq_false in H2].
  { rewrite to_size_neg; [|lia]. wp_bind.
    assert (wadd (wnot (c_W C - Z.to_nat (- d))) 1 = Z.to_nat (- d)) as ->.
    { rewrite /wnot wadd_small; lia. }
    iApply (wp_move_prev_segment_count_ok _ _ _ _ _ (i_pos it) with "Hs"); [by destruct it|lia|].
    iIntros (e' He') "Hs". wp_ret.
    assert (wadd (i_pos it) (c_W C - Z.to_nat (- d)) = i_pos it - Z.to_nat (- d)) as ->.
    { rewrite /wadd. symmetry. apply (Nat.mod_unique _ _ 1); lia. }
    iApply ("HQ" with "[%] Hs"). split; [done|]. cbn [i_pos]. lia. }
  assert (d = 0%Z) as -> by lia. wp_ret. rewrite to_size_pos; [|lia]. rewrite wadd_small; [|lia].
  iApply ("HQ" with "[%] Hs"). rewrite Nat.add_0_r. split; [by destruct it|]. cbn [i_pos]. lia.
Qed.

(** ** segment jumps *)
Definition seg_left (it : iterator_data) : nat :=
  sg_len (e_seg (i_entry it)) - sg_idx (e_seg (i_entry it)).
Lemma it_ok_seg o it : it_ok o it →
  sg_idx (e_seg (i_entry it)) ≤ i_pos it ∧ sg_idx (e_seg (i_entry it)) ≤ sg_len (e_seg (i_entry it)) ∧
  i_pos it + seg_left it ≤ osize o ∧ sg_len (e_seg (i_entry it)) ≤ osize o.
Proof.
  destruct o as [t|].
  - intros [(c & l & xs & -> & Hs & Hl & Hp & Hi) _].
    assert (sg_len (e_seg (i_entry it)) = length xs) as Hln by by rewrite Hs.
    change (osize (Some (plug c (Seg l xs)))) with (tsize (plug c (Seg l xs))).
    rewrite /seg_left tsize_plug tsize_Seg. lia.
  - intros ->. simpl. unfold seg_left, osize. simpl. lia.
Qed.
Lemma wp_move_after_segment this o it Q E :
  it_ok o it →
  seqp this o -∗
  (∀ it', ⌜it_ok o it' ∧ i_pos it' = (i_pos it + seg_left it)%nat⌝ → seqp this o -∗ Q it') -∗
  wp (move_after_segment it) Q E.
Proof.
  iIntros (Hit) "Hs HQ". iDestruct (seqp_lt with "Hs") as %HW. pose proof (it_ok_seg _ _ Hit) as (H1 & H2 & H3 & H4).
  rewrite /move_after_segment. wp_bind. rewrite wsub_small; [|lia..].
  change (sg_len (e_seg (i_entry it)) - sg_idx (e_seg (i_entry it))) with (seg_left it).
  rewrite wadd_small; [|lia].
  destruct o as [t|].
  - iDestruct "Hs" as (h [Hw HtW]) "[Hs Ht]". iApply (wp_move_next_leaf with "Ht"); [done|apply Hit|].
    iIntros (e' He') "Ht". wp_ret. iApply ("HQ" with "[%] [-]"); [done|]. iExists h. by iFrame.
  - rewrite (it_ok_nil _ Hit). rewrite /move_next_leaf /=. wp_ret. wp_ret.
    by iApply ("HQ" with "[%] Hs").
Qed.
Lemma wp_move_after_segment_count this o it count Q E :
  it_ok o it → i_pos it + seg_left it + count ≤ osize o →
  seqp this o -∗
  (∀ it', ⌜it_ok o it' ∧ i_pos it' = (i_pos it + seg_left it + count)%nat⌝ → seqp this o -∗ Q it') -∗
  wp (move_after_segment_count it count) Q E.
Proof.
  iIntros (Hit Hc) "Hs HQ". iDestruct (seqp_lt with "Hs") as %HW. pose proof (it_ok_seg _ _ Hit) as (H1 & H2 & H3 & H4).
  rewrite /move_after_segment_count. wp_bind. rewrite wsub_small; [|lia..].
  change (sg_len (e_seg (i_entry it)) - sg_idx (e_seg (i_entry it))) with (seg_left it).
  rewrite (wadd_small (seg_left it)); [|lia]. rewrite wadd_small; [|lia].
  destruct o as [t|].
  - iDestruct "Hs" as (h [Hw HtW]) "[Hs Ht]".
    iApply (wp_move_next_leaf_count with "Ht"); [done|apply Hit|done|].
    iIntros (e' He') "Ht". wp_ret. rewrite Nat.add_assoc. iApply ("HQ" with "[%] [-]"); [done|]. iExists h. by iFrame.
  - rewrite (it_ok_nil _ Hit) in Hc |- *. unfold seg_left, osize in Hc |- *. simpl in Hc. assert (count = 0) as -> by lia.
    rewrite /move_next_leaf_count /=. wp_ret. wp_ret.
    by iApply ("HQ" with "[%] Hs").
Qed.
Lemma wp_move_before_segment this o it Q E :
  it_ok o it → sg_idx (e_seg (i_entry it)) < i_pos it →
  seqp this o -∗
  (∀ it', ⌜it_ok o it' ∧ i_pos it' = (i_pos it - sg_idx (e_seg (i_entry it)) - 1)%nat⌝ → seqp this o -∗ Q it') -∗
  wp (move_before_segment it) Q E.
Proof.
  iIntros (Hit Hc) "Hs HQ". iDestruct (seqp_lt with "Hs") as %HW. pose proof (it_ok_le _ _ Hit) as Hle.
  rewrite /move_before_segment. wp_bind. rewrite wsub_small; [|lia..].
  destruct o as [t|].
  - iDestruct "Hs" as (h [Hw HtW]) "[Hs Ht]". iApply (wp_move_prev_leaf with "Ht"); [done|apply Hit|done|done|].
    iIntros (e' He') "Ht". wp_ret. iApply ("HQ" with "[%] [-]"); [|iExists h; by iFrame].
    replace (i_pos it - (sg_idx (e_seg (i_entry it)) + 1)) with (i_pos it - sg_idx (e_seg (i_entry it)) - 1) by lia.
    split; [by apply at_elem_it|done].
  - rewrite (it_ok_nil _ Hit) /= in Hc. lia.
Qed.

(** ** sources of values *)
Lemma src_val v : src_spec (VVal v) v emp%I emp%I.
Proof.
  intros Q E. iIntros "_ HQ". rewrite /make_value. wp_bind. iApply wp_user_tick. iSplit.
  - wp_ret. iDestruct "HQ" as "[HQ _]". by iApply "HQ".
  - iIntros (H). iDestruct "HQ" as "[_ HQ]". by iApply "HQ".
Qed.
Definition it_ref (it : iterator_data) : vsrc (T:=T) :=
  VRef (sg_ptr (e_seg (i_entry it))) (sg_idx (e_seg (i_entry it))).
Definition it_mv (it : iterator_data) : vsrc (T:=T) :=
  VMove (sg_ptr (e_seg (i_entry it))) (sg_idx (e_seg (i_entry it))).
Lemma src_ref src o it x :
  it_ok o it → oelems o !! i_pos it = Some x →
  src_spec (it_ref it) x (seqp src o) (seqp src o).
Proof.
  intros Hit Hx Q E. iIntros "Hs HQ". rewrite /make_value /it_ref. wp_bind.
  iApply (wp_read_it with "Hs"); [done|by apply lookup_lt_Some in Hx|]. iIntros (y Hy) "Hs".
  rewrite Hx in Hy. injection Hy as <-. wp_bind. iApply wp_user_tick. iSplit.
  - wp_ret. iDestruct "HQ" as "[HQ _]". by iApply "HQ".
  - iIntros (H). iDestruct "HQ" as "[_ HQ]". by iApply "HQ".
Qed.
Lemma src_move src o it x :
  it_ok o it → oelems o !! i_pos it = Some x →
  src_spec (it_mv it) x (seqp src o)
    (∃ o', ⟦oshape o' = oshape o ∧ oelems o' = <[i_pos it := c_residue C x]> (oelems o)⟧ ∗ seqp src o')%I.
Proof.
  intros Hit Hx Q E. iIntros "Hs HQ". rewrite /make_value /it_mv. wp_bind.
  iApply (wp_read_it with "Hs"); [done|by apply lookup_lt_Some in Hx|]. iIntros (y Hy) "Hs".
  rewrite Hx in Hy. injection Hy as <-. wp_bind. iApply wp_move_tick. wp_bind.
  iApply (wp_write_it with "Hs"); [done|by apply lookup_lt_Some in Hx|]. iIntros (o' Ho') "Hs".
  wp_ret. iDestruct "HQ" as "[HQ _]". iApply "HQ". iExists o'. by iFrame.
Qed.

(** ** input ranges *)
Definition inl_I xs (r : input) (k : nat) : hprop T := (⟦r = IList (drop k xs) ∧ k ≤ length xs⟧)%I.
Definition inl_J xs (r : input) (k : nat) : hprop T := (⟦r = IList (drop k xs) ∧ k < length xs⟧)%I.
Lemma inp_list xs : inp_spec xs (inl_I xs) (inl_J xs) (λ _, emp)%I True.
Proof.
  split.
  - iIntros (r k Q E [-> Hk]) "HQ". cbn [input_end]. wp_bind. iApply wp_user_tick. iSplit; last first.
    { iIntros (H). iDestruct "HQ" as "[_ HQ]". by iApply "HQ". }
    wp_ret. iDestruct "HQ" as "[HQ _]".
    assert (match drop k xs with [] => true | _ => false end = (k =? length xs)) as ->; [|by iApply "HQ"].
    destruct (drop k xs) as [|x ys] eqn:Hd.
    + symmetry. apply Nat.eqb_eq. pose proof (f_equal length Hd) as H. rewrite drop_length /= in H. lia.
    + symmetry. apply Nat.eqb_neq. intros ->. by rewrite drop_all in Hd.
  - iIntros (r k x Q E Hx [-> Hk]) "HQ". cbn [input_src]. wp_bind. iApply wp_user_tick. iSplit; last first.
    { iIntros (H). iDestruct "HQ" as "[_ HQ]". by iApply "HQ". }
    rewrite (drop_S _ _ _ Hx). wp_ret. iDestruct "HQ" as "[HQ _]".
    iApply ("HQ" with "[%] [%]"); [|by rewrite -(drop_S _ _ _ Hx)].
    intros Q' E'. iIntros ([_ _]) "HQ". iApply (src_val with "[//]"). iSplit.
    + iIntros "_". iDestruct "HQ" as "[HQ _]". iApply "HQ". iPureIntro. split; [by rewrite -(drop_S _ _ _ Hx)|].
      by apply lookup_lt_Some in Hx.
    + iIntros (H) "_". iDestruct "HQ" as "[_ HQ]". iApply "HQ"; [done|]. iPureIntro. by rewrite -(drop_S _ _ _ Hx).
  - iIntros (r k Q E Hk [-> _]) "HQ". cbn [input_next]. wp_bind. iApply wp_user_tick. iSplit; last first.
    { iIntros (H). iDestruct "HQ" as "[_ HQ]". by iApply "HQ". }
    destruct (lookup_lt_is_Some_2 xs k) as [x Hx]; [done|].
    rewrite (drop_S _ _ _ Hx). wp_ret. iDestruct "HQ" as "[HQ _]". iApply "HQ". iPureIntro. split; [done|lia].
  - iIntros (r k [_ _]). done.
  - iIntros (r k [_ _]). done.
Qed.
Lemma inl_fuel xs r k : inl_I xs r k ⊢ ⌜length xs - k < input_fuel r⌝.
Proof. iIntros ([-> Hk]). iPureIntro. simpl. rewrite drop_length. lia. Qed.

(** the source container after its [k] elements from [p] on have been used *)
Definition used (mv : bool) (p k : nat) (ys : list T) : list T :=
  if mv then take p ys ++ (c_residue C <$> take k (drop p ys)) ++ drop (p + k) ys else ys.
Lemma used_0 mv p ys : used mv p 0 ys = ys.
Proof. destruct mv; [|done]. rewrite /used Nat.add_0_r /=. by rewrite take_drop. Qed.
Lemma used_lookup mv p k ys x : ys !! (p + k) = Some x → used mv p k ys !! (p + k) = Some x.
Proof.
  intros H. destruct mv; [|done]. rewrite /used. apply lookup_lt_Some in H as Hl.
  rewrite assoc_L (drop_S _ _ _ H). apply lookup_mid.
  rewrite app_length fmap_length !take_length drop_length. lia.
Qed.
Lemma used_S p k ys x :
  ys !! (p + k) = Some x → <[p + k := c_residue C x]> (used true p k ys) = used true p (S k) ys.
Proof.
  intros H. rewrite /used. apply lookup_lt_Some in H as Hl.
  rewrite assoc_L (drop_S _ _ _ H) insert_mid.
  - rewrite (take_S_r (drop p ys) k x); [|by rewrite lookup_drop].
    rewrite fmap_app /= -!assoc_L /=. by rewrite Nat.add_succ_r.
  - rewrite app_length fmap_length !take_length drop_length. lia.
Qed.
Lemma used_length mv p k ys : p + k ≤ length ys → length (used mv p k ys) = length ys.
Proof.
  intros H. destruct mv; [|done]. rewrite /used !app_length fmap_length !take_length !drop_length. lia.
Qed.
Definition ins_X mv src o (p : nat) (k : nat) : hprop T :=
  (∃ o', ⟦oshape o' = oshape o ∧ oelems o' = used mv p k (oelems o)⟧ ∗ seqp src o')%I.
Definition ins_at_it mv o (p n : nat) (r : input (T:=T)) (k : nat) : Prop :=
  ∃ f l, r = ISeq mv f l ∧ it_ok o f ∧ i_pos f = (p + k)%nat ∧ i_pos l = (p + n)%nat ∧ k ≤ n ∧ p + n ≤ osize o.
Definition ins_I mv src o p n r k : hprop T := (⟦ins_at_it mv o p n r k⟧ ∗ ins_X mv src o p k)%I.
Definition ins_J mv src o p n r k : hprop T := (⟦ins_at_it mv o p n r k⟧ ∗ ins_X mv src o p (S k))%I.
Lemma inp_seq mv src o p n xs :
  xs = take n (drop p (oelems o)) → p + n ≤ osize o →
  inp_spec xs (ins_I mv src o p n) (ins_J mv src o p n) (ins_X mv src o p) False.
Proof.
  intros -> Hn. unfold osize in Hn.
  assert (length (take n (drop p (oelems o))) = n) as Hlen. { rewrite take_length drop_length. lia. }
  split.
  - iIntros (r k Q E) "[%H HX] HQ". pose proof H as (f & l & -> & Hf & Hpf & Hpl & Hk & _). rewrite Hlen /input_end. wp_ret.
    iDestruct "HQ" as "[HQ _]".
    assert ((i_pos f =? i_pos l) = (k =? n)) as ->; [|iApply ("HQ" with "[//]"); by iFrame].
    rewrite Hpf Hpl. destruct (decide (k = n)) as [->|].
    + by rewrite !Nat.eqb_refl.
    + rewrite !(proj2 (Nat.eqb_neq _ _)) //. lia.
  - iIntros (r k x Q E Hx) "[%H HX] HQ". pose proof H as (f & l & -> & Hf & Hpf & Hpl & Hk & _).
    rewrite /input_src. wp_ret. iDestruct "HQ" as "[HQ _]".
    assert (oelems o !! (p + k) = Some x) as Hx'.
    { apply lookup_lt_Some in Hx as Hlt. rewrite Hlen in Hlt. by rewrite lookup_take // lookup_drop in Hx. }
    iApply ("HQ" with "[%] [HX]"); [|by iFrame]. intros Q' E'. iIntros "[_ HX] HQ".
    iDestruct "HX" as (o' [Hsh Hel]) "Hs".
    assert (it_ok o' f) as Hf'. { by eapply it_ok_shape. }
    assert (oelems o' !! i_pos f = Some x) as Hx2. { rewrite Hel Hpf. by apply used_lookup. }
    destruct mv.
    + iApply (src_move src o' f x with "Hs"); [done|done|]. iSplit.
      * iIntros "H". iDestruct "HQ" as "[HQ _]". iApply "HQ". iSplitR; [done|].
        iDestruct "H" as (o2 [Hsh2 Hel2]) "Hs". iExists o2. iFrame. iPureIntro. split; [congruence|].
        rewrite Hel2 Hel Hpf. by apply used_S.
      * iIntros (Hr) "Hs". iDestruct "HQ" as "[_ HQ]". iApply "HQ"; [done|]. iSplitR; [done|]. iExists o'. by iFrame.
    + iApply (src_ref src o' f x with "Hs"); [done|done|]. iSplit.
      * iIntros "H". iDestruct "HQ" as "[HQ _]". iApply "HQ". iSplitR; [done|]. iExists o'. by iFrame.
      * iIntros (Hr) "Hs". iDestruct "HQ" as "[_ HQ]". iApply "HQ"; [done|]. iSplitR; [done|]. iExists o'. by iFrame.
  - iIntros (r k Q E Hk) "[%H HX] HQ". rewrite Hlen in Hk.
    destruct H as (f & l & -> & Hf & Hpf & Hpl & Hk' & _). iDestruct "HX" as (o' [Hsh Hel]) "Hs".
    assert (it_ok o' f) as Hf'. { by eapply it_ok_shape. }
    rewrite /input_next. wp_bind. iApply (wp_move_next_iterator with "Hs"); [done| |].
    { rewrite (oshape_osize _ _ Hsh) Hpf. unfold osize. lia. }
    iIntros (f' [Hf2 Hp2]) "Hs". wp_ret. iDestruct "HQ" as "[HQ _]". iApply "HQ". iSplitR.
    + iPureIntro. exists f', l. split_and!; try done; try lia. by eapply it_ok_shape.
    + iExists o'. by iFrame.
  - iIntros (r k) "[_ HX]". done.
  - iIntros (r k) "[_ HX]". done.
Qed.
Lemma ins_fuel mv src o p n xs r k :
  length xs = n → ins_I mv src o p n r k ⊢ ⌜length xs - k < input_fuel r⌝.
Proof.
  iIntros (Hl) "[%H _]". destruct H as (f & l & -> & Hf & Hpf & Hpl & Hk & _). iPureIntro. simpl. lia.
Qed.
End mem.
