(** * SeqList: constructors and the list-like members of a whole container.
    Proof infrastructure. *)
From Verif Require Export SeqApi.
From stdpp Require Import options.
Set Default Proof Using "Type*".

Section api.
Context {T : Type} {C : cfg T} {OK : cfg_ok C} {FZ : frozen T}.
Implicit Types o : option (tree T).
Implicit Types xs ys vs : list T.

(** ** constructors *)
Lemma wp_ctor_alloc a (Q : loc → hprop T) E :
  (∀ l, seqp a a l None -∗ Q l) ⊢ wp (ctor_alloc a) Q E.
Proof. iIntros "HQ". rewrite /ctor_alloc. iApply wp_place. iIntros (l) "H". by iApply "HQ". Qed.
Lemma wp_ctor_with a (body : loc → M T unit) Q E :
  (∀ l, seqp a a l None -∗ wp (body l) (λ _, Q l) (λ e, ∃ o', ⟦may_purge o'⟧ ∗ seqp a a l o' ∗ E e)) ⊢
  wp (ctor_with a body) Q E.
Proof.
  iIntros "HQ". rewrite /ctor_with. wp_bind. iApply wp_ctor_alloc. iIntros (l) "Hs".
  iApply wp_try_catch. wp_bind. iSpecialize ("HQ" $! l with "Hs"). iApply (wp_wand with "HQ"). iSplit.
  - iIntros (?) "HQ". by wp_ret.
  - iIntros (e) "H". iDestruct "H" as (o' Hm) "[Hs HE]". wp_bind. iApply (wp_dtor with "Hs"); [done|].
    by iApply wp_throw.
Qed.
Definition throw_null : Prop := ∀ e, raisable C e → c_null_free C = true.
Lemma throw_null_purge e o : throw_null → raisable C e → may_purge o.
Proof. intros H1 H2 _. by eapply H1. Qed.

Lemma wp_ctor_count n s x R a Q E :
  throw_null → src_spec s x R R → n < c_W C →
  R -∗
  ((∀ l o, ⌜oelems o = replicate n x⌝ → seqp a a l o -∗ R -∗ Q l) ∧
   (∀ e, ⌜raisable C e⌝ → R -∗ E e)) -∗
  wp (ctor_count n s a) Q E.
Proof.
  iIntros (Hth Hsrc Hn) "HR HQ". rewrite /ctor_count. iApply wp_ctor_with. iIntros (l) "Hs".
  wp_bind. iApply (wp_find_end with "Hs"). iIntros (it [Hit Hp]) "Hs". simpl in Hp.
  wp_bind. iApply (wp_emplace_count with "Hs HR"); [done|done|done|]. iSplit.
  - iIntros (o' it' (He & _)) "Hs HR". wp_ret. iDestruct "HQ" as "[HQ _]". iApply ("HQ" with "[%] Hs HR").
    rewrite He /ins_at /= Hp /= right_id_L //.
  - iIntros (e o' k (Hr & Hk & He)) "Hs HR". iExists o'. iFrame "Hs". iDestruct "HQ" as "[_ HQ]".
    iSplitR; [iPureIntro; by eapply throw_null_purge|]. by iApply "HQ".
Qed.
Lemma wp_ctor_fill xs I J X late l a o r it Q E :
  inp_spec xs I J X late → length xs < c_W C → length xs < input_fuel r → o = None → it_ok o it →
  seqp a a l o -∗ I r 0 -∗
  ((∀ o, ⌜oelems o = xs⌝ → seqp a a l o -∗ X (length xs) -∗ Q ()) ∧
   (∀ e o' j j', ⌜raisable C e ∧ j ≤ j' ≤ length xs⌝ → seqp a a l o' -∗ X j' -∗ E e)) -∗
  wp (emplace_range l it r;; mret ()) Q E.
Proof.
  iIntros (Hin Hn Hfu -> Hit) "Hs HI HQ". simpl in Hit. subst it.
  wp_bind. iApply (wp_emplace_range with "Hs HI"); [done|done|simpl; lia|lia|]. iSplit.
  - iIntros (o' it' (He & _)) "Hs HX". wp_ret. iDestruct "HQ" as "[HQ _]". iApply ("HQ" with "[%] Hs HX").
    rewrite He /ins_at /= drop_0 right_id_L //.
  - iIntros (e o' j j' (Hr & Hk & Hj & Hj' & _)) "Hs HX". iDestruct "HQ" as "[_ HQ]".
    iApply ("HQ" $! e o' j j' with "[%] Hs HX"). split_and!; [done|lia|lia].
Qed.
Lemma wp_ctor_range xs I J X late a r Q E :
  throw_null → inp_spec xs I J X late → length xs < c_W C → length xs < input_fuel r →
  I r 0 -∗
  ((∀ l o, ⌜oelems o = xs⌝ → seqp a a l o -∗ X (length xs) -∗ Q l) ∧
   (∀ e j, ⌜raisable C e ∧ j ≤ length xs⌝ → X j -∗ E e)) -∗
  wp (ctor_range r a) Q E.
Proof.
  iIntros (Hth Hin Hn Hfu) "HI HQ". rewrite /ctor_range. iApply wp_ctor_with. iIntros (l) "Hs".
  wp_bind. iApply (wp_find_end with "Hs"). iIntros (it [Hit Hp]) "Hs".
  iApply (wp_ctor_fill with "Hs HI"); [done|done|done|done|done|]. iSplit.
  - iIntros (o He) "Hs HX". iDestruct "HQ" as "[HQ _]". by iApply ("HQ" with "[%] Hs HX").
  - iIntros (e o' j j' (Hr & Hj)) "Hs HX". iDestruct "HQ" as "[_ HQ]". iExists o'. iFrame "Hs".
    iSplitR; [iPureIntro; by eapply throw_null_purge|]. iApply ("HQ" $! e j' with "[%] HX"). split; [done|lia].
Qed.
(** copying / moving a whole container into a new one *)
Lemma wp_fill_whole mv l a eb nb other o2 Q E :
  seqp a a l None -∗ seqp eb nb other o2 -∗
  ((∀ o o2', ⌜oelems o = oelems o2 ∧ oshape o2' = oshape o2 ∧ oelems o2' = used mv 0 (osize o2) (oelems o2)⌝ →
      seqp a a l o -∗ seqp eb nb other o2' -∗ Q ()) ∧
   (∀ e o' o2' j, ⌜raisable C e ∧ j ≤ osize o2 ∧ oshape o2' = oshape o2 ∧ oelems o2' = used mv 0 j (oelems o2)⌝ →
      seqp a a l o' -∗ seqp eb nb other o2' -∗ E e)) -∗
  wp (it ← find_end l; r ← whole_range mv other; emplace_range l it r;; mret ()) Q E.
Proof.
  iIntros "H1 H2 HQ". iDestruct (seqp_lt with "H2") as %Hlt.
  wp_bind. iApply (wp_find_end with "H1"). iIntros (it [Hit Hp]) "H1".
  wp_bind. iApply (wp_whole_range mv with "H2"). iIntros (r Hr) "H2".
  iApply (wp_ctor_fill (oelems o2) with "H1 [H2]").
  - apply (inp_seq eb nb mv other o2 0 (osize o2)); [by rewrite slice_whole|done].
  - done.
  - destruct Hr as (f & e & -> & ? & ? & ? & _). simpl. unfold osize in *. lia.
  - done.
  - done.
  - iSplitR; [done|]. by iApply ins_X_intro.
  - iSplit.
    + iIntros (o He) "H1 HX". iDestruct "HX" as (o2' [??]) "H2". iDestruct "HQ" as "[HQ _]".
      by iApply ("HQ" with "[%] H1 H2").
    + iIntros (e o' j j' (?&?&?)) "H1 HX". iDestruct "HX" as (o2' [??]) "H2". iDestruct "HQ" as "[_ HQ]".
      iApply ("HQ" $! e o' o2' j' with "[%] H1 H2"). unfold osize. split_and!; try done; try lia.
Qed.
Lemma wp_ctor_copy_alloc eb nb other o2 a Q E :
  throw_null →
  seqp eb nb other o2 -∗
  ((∀ l o o2', ⌜oelems o = oelems o2 ∧ oshape o2' = oshape o2 ∧ oelems o2' = oelems o2⌝ →
      seqp a a l o -∗ seqp eb nb other o2' -∗ Q l) ∧
   (∀ e o2', ⌜raisable C e ∧ oshape o2' = oshape o2 ∧ oelems o2' = oelems o2⌝ → seqp eb nb other o2' -∗ E e)) -∗
  wp (ctor_copy_alloc other a) Q E.
Proof.
  iIntros (Hth) "H2 HQ". rewrite /ctor_copy_alloc. iApply wp_ctor_with. iIntros (l) "H1".
  iApply (wp_fill_whole with "H1 H2"). iSplit.
  - iIntros (o o2' (?&?&?)) "H1 H2". iDestruct "HQ" as "[HQ _]". by iApply ("HQ" with "[%] H1 H2").
  - iIntros (e o' o2' j (?&?&?&?)) "H1 H2". iDestruct "HQ" as "[_ HQ]". iExists o'. iFrame "H1".
    iSplitR; [iPureIntro; by eapply throw_null_purge|]. by iApply ("HQ" with "[%] H2").
Qed.
Lemma wp_ctor_copy eb nb other o2 Q E :
  throw_null →
  seqp eb nb other o2 -∗
  ((∀ l o o2', ⌜oelems o = oelems o2 ∧ oshape o2' = oshape o2 ∧ oelems o2' = oelems o2⌝ →
      seqp (c_soccc C eb) (c_soccc C eb) l o -∗ seqp eb nb other o2' -∗ Q l) ∧
   (∀ e o2', ⌜raisable C e ∧ oshape o2' = oshape o2 ∧ oelems o2' = oelems o2⌝ → seqp eb nb other o2' -∗ E e)) -∗
  wp (ctor_copy other) Q E.
Proof.
  iIntros (Hth) "H2 HQ". rewrite /ctor_copy. wp_bind. iApply (wp_get_ealloc_o with "H2"). iIntros "H2".
  by iApply (wp_ctor_copy_alloc with "H2").
Qed.
Lemma wp_ctor_move eb other o2 Q E :
  seqp eb eb other o2 -∗ (∀ l, seqp eb eb l o2 -∗ seqp eb eb other None -∗ Q l) -∗ wp (ctor_move other) Q E.
Proof.
  iIntros "H2 HQ". rewrite /ctor_move. iEval (rewrite seqp_blocks) in "H2". iDestruct "H2" as (r n ht) "[H2 Hb]".
  wp_bind. iApply (wp_load_seq with "H2"). iIntros "H2". wp_bind. iApply wp_place. iIntros (l) "H1".
  wp_bind. iApply (wp_set_root with "H2"). iIntros "H2". wp_bind. iApply (wp_set_height with "H2"). iIntros "H2".
  wp_bind. iApply (wp_set_size with "H2"). iIntros "H2". wp_ret. iApply ("HQ" with "[H1 Hb] H2").
  rewrite seqp_blocks. iExists _, _, _. by iFrame.
Qed.
Lemma wp_ctor_move_alloc eb other o2 a Q E :
  throw_null →
  seqp eb eb other o2 -∗
  ((⌜a = eb⌝ → ∀ l, seqp a a l o2 -∗ seqp eb eb other None -∗ Q l) ∧
   (∀ l o o2', ⌜a ≠ eb ∧ oelems o = oelems o2 ∧ oshape o2' = oshape o2 ∧ oelems o2' = c_residue C <$> oelems o2⌝ →
      seqp a a l o -∗ seqp eb eb other o2' -∗ Q l) ∧
   (∀ e o2' j, ⌜a ≠ eb ∧ raisable C e ∧ j ≤ osize o2 ∧ oshape o2' = oshape o2 ∧ oelems o2' = used true 0 j (oelems o2)⌝ →
      seqp eb eb other o2' -∗ E e)) -∗
  wp (ctor_move_alloc other a) Q E.
Proof.
  iIntros (Hth) "H2 HQ". rewrite /ctor_move_alloc. iApply wp_ctor_with. iIntros (l) "H1".
  wp_bind. iApply (wp_get_ealloc_o with "H1"). iIntros "H1".
  wp_bind. iApply (wp_get_ealloc_o with "H2"). iIntros "H2". destruct (a =? eb) eqn:Heq.
  - apply Nat.eqb_eq in Heq as ->. cbn [seqp]. iApply (wp_steal with "H1 H2"). iIntros "H1 H2".
    iDestruct "HQ" as "[HQ _]". by iApply ("HQ" with "[%] H1 H2").
  - apply Nat.eqb_neq in Heq. iApply (wp_fill_whole with "H1 H2"). iSplit.
    + iIntros (o o2' (?&?&Hu)) "H1 H2". iDestruct "HQ" as "[_ [HQ _]]". iApply ("HQ" with "[%] H1 H2").
      split_and!; try done. rewrite Hu /used /= drop_0 /osize firstn_all drop_all right_id_L //.
    + iIntros (e o' o2' j (?&?&?&?)) "H1 H2". iDestruct "HQ" as "[_ [_ HQ]]". iExists o'. iFrame "H1".
      iSplitR; [iPureIntro; by eapply throw_null_purge|]. by iApply ("HQ" $! e o2' j with "[%] H2").
Qed.

(** ** splice *)
Section two.
Context (ea na eb nb : nat).
Lemma wp_insert_moved this o pos other o2 f l p n Q E :
  it_ok o pos → it_ok o2 f → i_pos f = p → i_pos l = (p + n)%nat → p + n ≤ osize o2 → osize o + n < c_W C →
  seqp ea na this o -∗ seqp eb nb other o2 -∗
  ((∀ o' o2' it', ⌜oelems o' = ins_at (i_pos pos) (slice p n (oelems o2)) (oelems o) ∧ it_ok o' it' ∧ i_pos it' = i_pos pos ∧
       oshape o2' = oshape o2 ∧ oelems o2' = used true p n (oelems o2)⌝ →
      seqp ea na this o' -∗ seqp eb nb other o2' -∗ Q it') ∧
   (∀ e o' o2' j j', ⌜raisable C e ∧ j < n ∧ j ≤ j' ≤ S j ∧
       oelems o' = ins_at (i_pos pos) (slice p j (oelems o2)) (oelems o) ∧
       oshape o2' = oshape o2 ∧ oelems o2' = used true p j' (oelems o2)⌝ →
      seqp ea na this o' -∗ seqp eb nb other o2' -∗ E e)) -∗
  wp (insert_range this pos (ISeq true f l)) Q E.
Proof.
  iIntros (Hpos Hf Hpf Hpl Hle HW) "H1 H2 HQ". rewrite /insert_range.
  assert (length (slice p n (oelems o2)) = n) as Hlen by (apply slice_length; done).
  iApply (wp_emplace_range _ _ _ (slice p n (oelems o2)) (ins_I eb nb true other o2 p n) (ins_J eb nb true other o2 p n)
    (ins_X eb nb true other o2 p) False o pos _ 0 with "H1 [H2]").
  - by apply inp_seq.
  - done.
  - lia.
  - simpl. lia.
  - iSplitR; [|by iApply ins_X_intro]. iPureIntro. exists f, l. split_and!; try done; lia.
  - rewrite Hlen drop_0. iSplit.
    + iIntros (o' it' (?&?&?)) "H1 HX". iDestruct "HX" as (o2' [??]) "H2". iDestruct "HQ" as "[HQ _]".
      by iApply ("HQ" with "[%] H1 H2").
    + iIntros (e o' j j' (?&?&[?|[[] _]]&?&_&_&He)) "H1 HX". iDestruct "HX" as (o2' [??]) "H2". iDestruct "HQ" as "[_ HQ]".
      iApply ("HQ" $! e o' o2' j j' with "[%] H1 H2"). split_and!; try done; try lia.
      rewrite He Nat.sub_0_r /slice take_take. do 2 f_equal. lia.
Qed.
Lemma used_del p n ys : p + n ≤ length ys → del_range p (p + n) (used (C:=C) true p n ys) = del_range p (p + n) ys.
Proof.
  intros. rewrite /del_range /used. rewrite take_app_alt; [|len]. f_equal.
  rewrite assoc_L drop_app_alt //. len.
Qed.
Lemma wp_splice_range this o pos other o2 f l Q E :
  it_ok o pos → it_ok o2 f → it_ok o2 l → i_pos f ≤ i_pos l → osize o + (i_pos l - i_pos f) < c_W C →
  seqp ea na this o -∗ seqp eb nb other o2 -∗
  ((∀ o' o2', ⌜oelems o' = ins_at (i_pos pos) (slice (i_pos f) (i_pos l - i_pos f) (oelems o2)) (oelems o) ∧
       oelems o2' = del_range (i_pos f) (i_pos l) (oelems o2)⌝ →
      seqp ea na this o' -∗ seqp eb nb other o2' -∗ Q ()) ∧
   (∀ e o' o2' j j', ⌜raisable C e ∧ j < i_pos l - i_pos f ∧ j ≤ j' ≤ S j ∧
       oelems o' = ins_at (i_pos pos) (slice (i_pos f) j (oelems o2)) (oelems o) ∧
       oshape o2' = oshape o2 ∧ oelems o2' = used true (i_pos f) j' (oelems o2)⌝ →
      seqp ea na this o' -∗ seqp eb nb other o2' -∗ E e)) -∗
  wp (splice_range this pos other f l) Q E.
Proof.
  iIntros (Hpos Hf Hl Hfl HW) "H1 H2 HQ". rewrite /splice_range. pose proof (it_ok_le _ _ Hl).
  wp_bind. iApply (wp_insert_moved _ _ _ _ _ _ _ (i_pos f) (i_pos l - i_pos f) with "H1 H2"); [done|done|done|lia|lia|lia|].
  iSplit.
  - iIntros (o' o2' it' (He & _ & _ & Hsh & He2)) "H1 H2". iDestruct "HQ" as "[HQ _]".
    wp_bind. iApply (wp_erase_range with "H2"); [by eapply it_ok_shape|done|].
    iIntros (o3 it3 (He3 & _)) "H2". wp_ret. iApply ("HQ" with "[%] H1 H2"). split; [done|].
    rewrite He3 He2. replace (i_pos l) with (i_pos f + (i_pos l - i_pos f)) at 1 3 by lia. apply used_del.
    unfold osize in *. lia.
  - iIntros (e o' o2' j j' (?&?&?&?&?&?)) "H1 H2". iDestruct "HQ" as "[_ HQ]".
    by iApply ("HQ" $! e o' o2' j j' with "[%] H1 H2").
Qed.
Lemma wp_splice_all this o pos other o2 Q E :
  may_purge o2 → it_ok o pos → osize o + osize o2 < c_W C →
  seqp ea na this o -∗ seqp eb nb other o2 -∗
  ((∀ o', ⌜oelems o' = ins_at (i_pos pos) (oelems o2) (oelems o)⌝ →
      seqp ea na this o' -∗ seqp eb nb other None -∗ Q ()) ∧
   (∀ e o' o2' j j', ⌜raisable C e ∧ j < osize o2 ∧ j ≤ j' ≤ S j ∧
       oelems o' = ins_at (i_pos pos) (take j (oelems o2)) (oelems o) ∧
       oshape o2' = oshape o2 ∧ oelems o2' = used true 0 j' (oelems o2)⌝ →
      seqp ea na this o' -∗ seqp eb nb other o2' -∗ E e)) -∗
  wp (splice_all this pos other) Q E.
Proof.
  iIntros (Hm Hpos HW) "H1 H2 HQ". rewrite /splice_all. wp_bind. iApply (wp_whole_range true with "H2").
  iIntros (r Hr) "H2". destruct Hr as (f & l & -> & Hf & Hpf & Hpl & _ & _). simpl in Hpf, Hpl.
  wp_bind. iApply (wp_insert_moved _ _ _ _ _ _ _ 0 (osize o2) with "H1 H2"); [done|done|lia|lia|lia|lia|].
  rewrite slice_all. iSplit.
  - iIntros (o' o2' it' (He & _ & _ & Hsh & He2)) "H1 H2". iDestruct "HQ" as "[HQ _]".
    iApply (wp_clear with "H2"). { intros ->. apply Hm. by destruct o2. }
    iIntros "H2". by iApply ("HQ" with "[%] H1 H2").
  - iIntros (e o' o2' j j' (?&?&?&?&?&?)) "H1 H2". iDestruct "HQ" as "[_ HQ]".
    by iApply ("HQ" $! e o' o2' j j' with "[%] H1 H2").
Qed.
Lemma wp_splice_one this o pos other o2 it x Q E :
  it_ok o pos → it_ok o2 it → oelems o2 !! i_pos it = Some x → osize o + 1 < c_W C →
  seqp ea na this o -∗ seqp eb nb other o2 -∗
  ((∀ o' o2', ⌜oelems o' = ins_at (i_pos pos) [x] (oelems o) ∧
       oelems o2' = del_range (i_pos it) (S (i_pos it)) (oelems o2)⌝ →
      seqp ea na this o' -∗ seqp eb nb other o2' -∗ Q ()) ∧
   (∀ e, ⌜raisable C e⌝ → seqp ea na this o -∗ seqp eb nb other o2 -∗ E e)) -∗
  wp (splice_one this pos other it) Q E.
Proof.
  iIntros (Hpos Hit Hx HW) "H1 H2 HQ". rewrite /splice_one /insert_. wp_bind.
  iApply (wp_emplace_single _ _ this o pos _ x (seqp ea na this o ∗ seqp eb nb other o2)%I (seqp eb nb other o2) with "[H1 H2]");
    [|done|done|iFrame|].
  { apply src_spec_frame. by apply (src_ref eb nb other o2 it). }
  iSplit; [|iSplit].
  - iIntros (o' it' (He & _)) "H1 H2". wp_bind. rewrite /erase_.
    iApply (wp_erase_single with "H2"); [done|by apply lookup_lt_Some in Hx|].
    iIntros (o2' it2 (He2 & _)) "H2". wp_ret. iDestruct "HQ" as "[HQ _]". by iApply ("HQ" with "[%] H1 H2").
  - iIntros (Hr) "[H1 H2]". iDestruct "HQ" as "[_ HQ]". by iApply ("HQ" with "[%] H1 H2").
  - iIntros (Hr) "H1 H2". iDestruct "HQ" as "[_ HQ]". by iApply ("HQ" with "[%] H1 H2").
Qed.

(** ** merge *)
Lemma seqp_nil this o : seqp ea na this o ⊢ ⌜oelems o = [] → o = None⌝.
Proof.
  destruct o as [t|]; [|by iIntros]. iIntros "H". iDestruct (seqp_wf with "H") as %[h Hw]. iPureIntro. intros Hn.
  apply wfroot_tsize in Hw. rewrite /tsize in Hw. simpl in Hn. rewrite Hn /= in Hw. lia.
Qed.
Lemma wp_nth this o p Q E :
  seqp ea na this o -∗ (∀ it, ⌜it_ok o it ∧ i_pos it = p `min` osize o⌝ → seqp ea na this o -∗ Q it) -∗ wp (nth_ this p) Q E.
Proof.
  iIntros "Hs HQ". rewrite /nth_. wp_bind. iApply (wp_get_size_o with "Hs"). iIntros "Hs".
  destruct (_ <=? _) eqn:Hle.
  - apply Nat.leb_le in Hle. iApply (wp_find_end with "Hs"). iIntros (it [??]) "Hs". iApply ("HQ" with "[%] Hs").
    split; [done|lia].
  - apply Nat.leb_gt in Hle. iApply (wp_find_index with "Hs"); [done|]. iIntros (it [??]) "Hs". iApply ("HQ" with "[%] Hs").
    split; [done|lia].
Qed.
End two.
Section two'.
Context (ea na eb nb : nat).
Lemma wp_merge this o other o2 (lt : T → T → bool) Q E :
  osize o + osize o2 < c_W C →
  seqp ea na this o -∗ seqp eb nb other o2 -∗
  ((∀ o', ⌜oelems o' = stable_merged lt (oelems o) (oelems o2)⌝ →
      seqp ea na this o' -∗ seqp eb nb other None -∗ Q ()) ∧
   (∀ o', ⌜pred_fails C ∧ oelems o ≠ [] ∧ oelems o2 ≠ [] ∧ length (oelems o') = (length (oelems o) + length (oelems o2))%nat⌝ →
      seqp ea na this o' -∗ seqp eb nb other None -∗ E EPred) ∧
   (∀ e o' o2' j j', ⌜raisable C e ∧ j < osize o2 ∧ j ≤ j' ≤ S j ∧
       oelems o' = oelems o ++ take j (oelems o2) ∧
       oshape o2' = oshape o2 ∧ oelems o2' = used true 0 j' (oelems o2)⌝ →
      seqp ea na this o' -∗ seqp eb nb other o2' -∗ E e)) -∗
  wp (merge this other lt) Q E.
Proof.
  iIntros (HW) "H1 H2 HQ". rewrite /merge.
  wp_bind. iApply (wp_get_size_o with "H1"). iIntros "H1".
  wp_bind. iApply (wp_find_end with "H1"). iIntros (e [He Hpe]) "H1".
  wp_bind. iApply (wp_find_first with "H2"). iIntros (f [Hf Hpf]) "H2".
  wp_bind. iApply (wp_find_end with "H2"). iIntros (l [Hl Hpl]) "H2".
  wp_bind. iApply (wp_splice_range with "H1 H2"); [done|done|done|lia|lia|].
  rewrite Hpf Hpl Nat.sub_0_r slice_all Hpe. iSplit; last first.
  { iIntros (ex o' o2' j j' (?&?&?&Heo&?&?)) "H1 H2". iDestruct "HQ" as "(_ & _ & HQ)".
    iApply ("HQ" $! ex o' o2' j j' with "[%] H1 H2"). split_and!; try done; try lia.
    rewrite Heo /ins_at /osize firstn_all drop_all right_id_L //. }
  iIntros (o' o2' (Heo & Heo2)) "H1 H2".
  iDestruct (seqp_nil with "H2") as %Hnil.
  assert (o2' = None) as ->.
  { apply Hnil. rewrite Heo2 /del_range /osize drop_all //. }
  assert (osize o' = osize o + osize o2) as Hsz by rewrite /osize Heo ins_at_length //.
  wp_bind. iApply (wp_find_first with "H1"). iIntros (f' [Hf' Hpf']) "H1".
  wp_bind. iApply (wp_nth with "H1"). iIntros (m [Hm Hpm]) "H1".
  wp_bind. iApply (wp_find_end with "H1"). iIntros (l' [Hl' Hpl']) "H1".
  iApply (wp_std_inplace_merge with "H1"); [done..|]. iSplit; last first.
  { iIntros (o3 (Hfa & Hmid & Hsh)) "H1". iDestruct "HQ" as "(_ & HQ & _)". iApply ("HQ" with "[%] H1 H2").
    rewrite Hpm Hsz in Hmid. split_and!; [done|intros Hn; rewrite /osize Hn /= in Hmid; lia..|].
    change (osize o3 = osize o + osize o2). rewrite -Hsz. by apply oshape_osize. }
  iDestruct "HQ" as "[HQ _]". iIntros (o3 [_ He3]) "H1".
  iApply ("HQ" with "[%] H1 H2"). rewrite He3 Heo /ins_at Hpm Hsz.
  replace (osize o `min` (osize o + osize o2)) with (osize o) by lia.
  rewrite /osize firstn_all drop_all right_id_L take_app drop_app //.
Qed.

(** ** remove, unique, reverse, sort *)
Lemma wp_erase_tail this o it Q E :
  it_ok o it →
  seqp ea na this o -∗ (∀ o', ⌜oelems o' = take (i_pos it) (oelems o)⌝ → seqp ea na this o' -∗ Q ()) -∗
  wp (l ← end_ this; erase_between this it l;; mret ()) Q E.
Proof.
  iIntros (Hit) "Hs HQ". pose proof (it_ok_le _ _ Hit).
  wp_bind. iApply (wp_find_end with "Hs"). iIntros (l [Hl Hpl]) "Hs".
  wp_bind. iApply (wp_erase_range with "Hs"); [done|lia|]. iIntros (o' it' (He & _)) "Hs". wp_ret.
  iApply ("HQ" with "[%] Hs"). rewrite He /del_range Hpl /osize drop_all right_id_L //.
Qed.
Lemma wp_remove_gen this o p b R Q E :
  pred_spec p b R →
  seqp ea na this o -∗ R -∗
  ((∀ o', ⌜oelems o' = remove_list b (oelems o)⌝ → seqp ea na this o' -∗ R -∗ Q ()) ∧
   (∀ o', ⌜pred_fails C ∧ oshape o' = oshape o ∧ stopped (remove_list b) (oelems o) (oelems o')⌝ →
      seqp ea na this o' -∗ R -∗ E EPred)) -∗
  wp (f ← begin_ this; l ← end_ this; f ← std_remove_if f l p; l ← end_ this; erase_between this f l;; mret ()) Q E.
Proof.
  iIntros (Hp) "Hs HR HQ".
  wp_bind. iApply (wp_find_first with "Hs"). iIntros (f [Hf Hpf]) "Hs".
  wp_bind. iApply (wp_find_end with "Hs"). iIntros (l [Hl Hpl]) "Hs".
  wp_bind. iApply (wp_std_remove_if with "Hs HR"); [done..|]. iSplit; [|by iDestruct "HQ" as "[_ HQ]"].
  iDestruct "HQ" as "[HQ _]". iIntros (o' it (_ & Hit & He)) "Hs HR".
  iApply (wp_erase_tail with "Hs"); [done|]. iIntros (o2 He2) "Hs". iApply ("HQ" with "[%] Hs HR"). by rewrite He2.
Qed.
Lemma wp_remove_if this o (b : T → bool) Q E :
  seqp ea na this o -∗
  ((∀ o', ⌜oelems o' = remove_list b (oelems o)⌝ → seqp ea na this o' -∗ Q ()) ∧
   (∀ o', ⌜pred_fails C ∧ oshape o' = oshape o ∧ stopped (remove_list b) (oelems o) (oelems o')⌝ →
      seqp ea na this o' -∗ E EPred)) -∗ wp (remove_if this b) Q E.
Proof.
  iIntros "Hs HQ". iApply (wp_remove_gen _ _ _ b emp%I with "Hs [//]").
  - intros v Q' E'. iIntros "_ HQ". wp_bind. iApply wp_pred_tick. iSplit.
    + iDestruct "HQ" as "[HQ _]". wp_ret. by iApply "HQ".
    + iIntros (?). iDestruct "HQ" as "[_ HQ]". by iApply "HQ".
  - iSplit; iIntros (o' He) "Hs _"; [iDestruct "HQ" as "[HQ _]"|iDestruct "HQ" as "[_ HQ]"]; by iApply ("HQ" with "[%] Hs").
Qed.
Lemma wp_remove this o s v R (eq : T → T → bool) Q E :
  (∀ (Q : T → hprop T) E, R ⊢ (R -∗ Q v) -∗ wp (peek s) Q E) →
  seqp ea na this o -∗ R -∗
  ((∀ o', ⌜oelems o' = remove_list (λ x, eq x v) (oelems o)⌝ → seqp ea na this o' -∗ R -∗ Q ()) ∧
   (∀ o', ⌜pred_fails C ∧ oshape o' = oshape o ∧ stopped (remove_list (λ x, eq x v)) (oelems o) (oelems o')⌝ →
      seqp ea na this o' -∗ R -∗ E EPred)) -∗
  wp (remove this s eq) Q E.
Proof.
  iIntros (Hpk) "Hs HR HQ". iApply (wp_remove_gen _ _ _ (λ x, eq x v) with "Hs HR"); [|done].
  intros x Q' E'. iIntros "HR HQ". wp_bind. iApply (Hpk with "HR"). iIntros "HR".
  wp_bind. iApply wp_pred_tick. iSplit.
  + iDestruct "HQ" as "[HQ _]". wp_ret. by iApply "HQ".
  + iIntros (?). iDestruct "HQ" as "[_ HQ]". by iApply "HQ".
Qed.
Lemma wp_unique this o (p : T → T → bool) Q E :
  seqp ea na this o -∗
  ((∀ o', ⌜oelems o' = unique_list p (oelems o)⌝ → seqp ea na this o' -∗ Q ()) ∧
   (∀ o', ⌜pred_fails C ∧ oshape o' = oshape o ∧ stopped (unique_list p) (oelems o) (oelems o')⌝ →
      seqp ea na this o' -∗ E EPred)) -∗ wp (unique this p) Q E.
Proof.
  iIntros "Hs HQ". rewrite /unique.
  wp_bind. iApply (wp_find_first with "Hs"). iIntros (f [Hf Hpf]) "Hs".
  wp_bind. iApply (wp_find_end with "Hs"). iIntros (l [Hl Hpl]) "Hs".
  wp_bind. iApply (wp_std_unique with "Hs"); [done..|]. iSplit; [|by iDestruct "HQ" as "[_ HQ]"].
  iDestruct "HQ" as "[HQ _]". iIntros (o' it (_ & Hit & He)) "Hs".
  iApply (wp_erase_tail with "Hs"); [done|]. iIntros (o2 He2) "Hs". iApply ("HQ" with "[%] Hs"). by rewrite He2.
Qed.
Lemma wp_reverse this o Q E :
  seqp ea na this o -∗
  (∀ o', ⌜oshape o' = oshape o ∧ oelems o' = reverse (oelems o)⌝ → seqp ea na this o' -∗ Q ()) -∗ wp (reverse_ this) Q E.
Proof.
  iIntros "Hs HQ". rewrite /reverse_.
  wp_bind. iApply (wp_find_first with "Hs"). iIntros (f [Hf Hpf]) "Hs".
  wp_bind. iApply (wp_find_end with "Hs"). iIntros (l [Hl Hpl]) "Hs".
  by iApply (wp_std_reverse with "Hs").
Qed.
Lemma wp_sort this o lt Q E :
  seqp ea na this o -∗
  ((∀ o', ⌜oshape o' = oshape o ∧ oelems o' = stable_sorted lt (oelems o)⌝ → seqp ea na this o' -∗ Q ()) ∧
   (∀ o', ⌜pred_fails C ∧ 1 < length (oelems o) ∧ oshape o' = oshape o⌝ → seqp ea na this o' -∗ E EPred)) -∗
  wp (sort this lt) Q E.
Proof.
  iIntros "Hs HQ". rewrite /sort.
  wp_bind. iApply (wp_find_first with "Hs"). iIntros (f [Hf Hpf]) "Hs".
  wp_bind. iApply (wp_find_end with "Hs"). iIntros (l [Hl Hpl]) "Hs".
  by iApply (wp_std_stable_sort with "Hs").
Qed.
End two'.
End api.
