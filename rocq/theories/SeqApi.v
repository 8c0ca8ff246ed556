(** * SeqApi: constructors, destructor, assignment, swap and the list-like
    members of a whole container.  Proof infrastructure. *)
From Verif Require Export SeqAlg.
From stdpp Require Import options.
Set Default Proof Using "Type*".

Section api.
Context {T : Type} {C : cfg T} {OK : cfg_ok C} {FZ : frozen T}.
Implicit Types o : option (tree T).
Implicit Types xs ys vs : list T.

(** ** the seq object *)
Lemma wp_set_element_allocator ea na this r n ht a Q E :
  sqo ea na this r n ht -∗ (sqo a na this r n ht -∗ Q ()) -∗ wp (set_element_allocator (T:=T) this a) Q E.
Proof.
  iIntros "H HQ". rewrite /set_element_allocator. wp_bind. iApply (wp_load_seq with "H"). iIntros "H".
  rewrite /sqo. iApply (wp_store with "H"). iIntros "H". by iApply "HQ".
Qed.
Lemma wp_set_node_allocator ea na this r n ht a Q E :
  sqo ea na this r n ht -∗ (sqo ea a this r n ht -∗ Q ()) -∗ wp (set_node_allocator (T:=T) this a) Q E.
Proof.
  iIntros "H HQ". rewrite /set_node_allocator. wp_bind. iApply (wp_load_seq with "H"). iIntros "H".
  rewrite /sqo. iApply (wp_store with "H"). iIntros "H". by iApply "HQ".
Qed.

(** [body ea na o]: the blocks of a container, without the seq object *)
Definition blocks ea na o (r : ptr) (n ht : nat) : hprop T :=
  match o with
  | None => ⟦r = None ∧ n = 0 ∧ ht = 0⟧
  | Some t => ⟦wfroot ht t ∧ tsize t < c_W C ∧ r = Some (tloc t) ∧ n = tsize t⟧ ∗ tr ea na ht (Some None) (Some 0) t
  end%I.
Lemma seqp_blocks ea na this o :
  seqp ea na this o ⊣⊢ ∃ r n ht, sqo ea na this r n ht ∗ blocks ea na o r n ht.
Proof.
  iSplit.
  - destruct o as [t|]; simpl.
    + iIntros "H". iDestruct "H" as (h [??]) "[Hs Ht]". iExists _, _, h. iFrame. done.
    + iIntros "H". iExists _, _, _. iFrame. done.
  - iIntros "H". iDestruct "H" as (r n ht) "[Hs Hb]". destruct o as [t|]; simpl.
    + iDestruct "Hb" as "[%Hb Ht]". destruct Hb as (?&?&->&->). iExists ht. iFrame. done.
    + iDestruct "Hb" as %Hb. by destruct Hb as (->&->&->).
Qed.
Lemma blocks_ht ea na o r n ht : blocks ea na o r n ht ⊢ ⌜ht = oheight o ∧ n = osize o⌝.
Proof.
  destruct o as [t|]; simpl.
  - iIntros "[%Hb _]". destruct Hb as (Hw&?&?&->). iPureIntro. by rewrite (wfroot_theight ht t).
  - iIntros "%Hb". by destruct Hb as (_&->&->).
Qed.

Lemma wp_get_height_o ea na this o Q E :
  seqp ea na this o -∗ (seqp ea na this o -∗ Q (oheight o)) -∗ wp (get_height this) Q E.
Proof.
  rewrite seqp_blocks. iIntros "H HQ". iDestruct "H" as (r n ht) "[Hs Hb]".
  iDestruct (blocks_ht with "Hb") as %[-> ->].
  iApply (wp_get_height with "Hs"). iIntros "Hs". iApply "HQ". iExists _, _, _. iFrame.
Qed.
Lemma wp_get_ealloc_o ea na this o Q E :
  seqp ea na this o -∗ (seqp ea na this o -∗ Q ea) -∗ wp (get_element_allocator this) Q E.
Proof.
  rewrite seqp_blocks. iIntros "H HQ". iDestruct "H" as (r n ht) "[Hs Hb]".
  iApply (wp_get_element_allocator with "Hs"). iIntros "Hs". iApply "HQ". iExists _, _, _. iFrame.
Qed.

(** ** steal, swap *)
Lemma wp_steal ea na this r n ht other o Q E :
  sqo ea na this r n ht -∗ seqp ea na other o -∗
  (seqp ea na this o -∗ seqp ea na other None -∗ Q ()) -∗ wp (steal this other) Q E.
Proof.
  iIntros "Hs Ho HQ". iEval (rewrite seqp_blocks) in "Ho". iDestruct "Ho" as (r' n' ht') "[Ho Hb]". rewrite /steal.
  wp_bind. iApply (wp_get_root with "Ho"). iIntros "Ho". wp_bind. iApply (wp_set_root with "Hs"). iIntros "Hs".
  wp_bind. iApply (wp_get_height with "Ho"). iIntros "Ho". wp_bind. iApply (wp_set_height with "Hs"). iIntros "Hs".
  wp_bind. iApply (wp_get_size with "Ho"). iIntros "Ho". wp_bind. iApply (wp_set_size with "Hs"). iIntros "Hs".
  wp_bind. iApply (wp_set_root with "Ho"). iIntros "Ho". wp_bind. iApply (wp_set_height with "Ho"). iIntros "Ho".
  iApply (wp_set_size with "Ho"). iIntros "Ho". iApply ("HQ" with "[Hs Hb] Ho").
  rewrite seqp_blocks. iExists _, _, _. iFrame.
Qed.
Lemma wp_steal_self ea na this r n ht Q E :
  sqo ea na this r n ht -∗ (seqp ea na this None -∗ Q ()) -∗ wp (steal (T:=T) this this) Q E.
Proof.
  iIntros "Hs HQ". rewrite /steal.
  wp_bind. iApply (wp_get_root with "Hs"). iIntros "Hs". wp_bind. iApply (wp_set_root with "Hs"). iIntros "Hs".
  wp_bind. iApply (wp_get_height with "Hs"). iIntros "Hs". wp_bind. iApply (wp_set_height with "Hs"). iIntros "Hs".
  wp_bind. iApply (wp_get_size with "Hs"). iIntros "Hs". wp_bind. iApply (wp_set_size with "Hs"). iIntros "Hs".
  wp_bind. iApply (wp_set_root with "Hs"). iIntros "Hs". wp_bind. iApply (wp_set_height with "Hs"). iIntros "Hs".
  iApply (wp_set_size with "Hs"). iIntros "Hs". by iApply "HQ".
Qed.
Lemma wp_swap ea eb l1 o1 l2 o2 Q E :
  c_pocs C = true ∨ ea = eb →
  seqp ea ea l1 o1 -∗ seqp eb eb l2 o2 -∗
  (seqp eb eb l1 o2 -∗ seqp ea ea l2 o1 -∗ Q ()) -∗ wp (swap_ l1 l2) Q E.
Proof.
  iIntros (Hal) "H1 H2 HQ". iEval (rewrite seqp_blocks) in "H1". iEval (rewrite seqp_blocks) in "H2".
  iDestruct "H1" as (r1 n1 h1) "[H1 Hb1]". iDestruct "H2" as (r2 n2 h2) "[H2 Hb2]". rewrite /swap_.
  wp_bind. iApply (wp_get_root with "H1"). iIntros "H1". wp_bind. iApply (wp_get_root with "H2"). iIntros "H2".
  wp_bind. iApply (wp_set_root with "H1"). iIntros "H1". wp_bind. iApply (wp_set_root with "H2"). iIntros "H2".
  wp_bind. iApply (wp_get_height with "H1"). iIntros "H1". wp_bind. iApply (wp_get_height with "H2"). iIntros "H2".
  wp_bind. iApply (wp_set_height with "H1"). iIntros "H1". wp_bind. iApply (wp_set_height with "H2"). iIntros "H2".
  wp_bind. iApply (wp_get_size with "H1"). iIntros "H1". wp_bind. iApply (wp_get_size with "H2"). iIntros "H2".
  wp_bind. iApply (wp_set_size with "H1"). iIntros "H1". wp_bind. iApply (wp_set_size with "H2"). iIntros "H2".
  rewrite /swap_allocator. destruct (c_pocs C).
  - wp_bind. iApply (wp_get_element_allocator with "H1"). iIntros "H1".
    wp_bind. iApply (wp_get_element_allocator with "H2"). iIntros "H2".
    wp_bind. iApply (wp_set_element_allocator with "H1"). iIntros "H1".
    wp_bind. iApply (wp_set_element_allocator with "H2"). iIntros "H2".
    wp_bind. iApply (wp_get_node_allocator with "H1"). iIntros "H1".
    wp_bind. iApply (wp_get_node_allocator with "H2"). iIntros "H2".
    wp_bind. iApply (wp_set_node_allocator with "H1"). iIntros "H1".
    iApply (wp_set_node_allocator with "H2"). iIntros "H2".
    iApply ("HQ" with "[H1 Hb2] [H2 Hb1]"); rewrite seqp_blocks; iExists _, _, _; iFrame.
  - destruct Hal as [?| ->]; [done|]. wp_ret.
    iApply ("HQ" with "[H1 Hb2] [H2 Hb1]"); rewrite seqp_blocks; iExists _, _, _; iFrame.
Qed.
Lemma wp_swap_self ea l o Q E :
  seqp ea ea l o -∗ (seqp ea ea l o -∗ Q ()) -∗ wp (swap_ l l) Q E.
Proof.
  iIntros "H1 HQ". iEval (rewrite seqp_blocks) in "H1". 
  iDestruct "H1" as (r1 n1 h1) "[H1 Hb1]". rewrite /swap_.
  do 2 (wp_bind; iApply (wp_get_root with "H1"); iIntros "H1"). do 2 (wp_bind; iApply (wp_set_root with "H1"); iIntros "H1").
  do 2 (wp_bind; iApply (wp_get_height with "H1"); iIntros "H1"). do 2 (wp_bind; iApply (wp_set_height with "H1"); iIntros "H1").
  do 2 (wp_bind; iApply (wp_get_size with "H1"); iIntros "H1"). do 2 (wp_bind; iApply (wp_set_size with "H1"); iIntros "H1").
  rewrite /swap_allocator. destruct (c_pocs C).
  - do 2 (wp_bind; iApply (wp_get_element_allocator with "H1"); iIntros "H1").
    do 2 (wp_bind; iApply (wp_set_element_allocator with "H1"); iIntros "H1").
    do 2 (wp_bind; iApply (wp_get_node_allocator with "H1"); iIntros "H1").
    wp_bind. iApply (wp_set_node_allocator with "H1"). iIntros "H1".
    iApply (wp_set_node_allocator with "H1"). iIntros "H1".
    iApply "HQ". rewrite seqp_blocks; iExists _, _, _; iFrame.
  - wp_ret. iApply "HQ". rewrite seqp_blocks; iExists _, _, _; iFrame.
Qed.

(** ** destruction *)
Lemma wp_dtor ea na this o Q E :
  may_purge o → seqp ea na this o -∗ Q () -∗ wp (dtor this) Q E.
Proof.
  iIntros (Hm) "Hs HQ". rewrite /dtor. wp_bind. iApply (wp_purge with "Hs"); [done|].
  iIntros (r n ht) "Hs". rewrite /sqo. by iApply (wp_free with "Hs").
Qed.

(** ** copy and move assignment *)
Lemma wp_copy_assign_alloc ea eb this o other o2 Q E :
  (c_pocca C = true → ea ≠ eb → may_purge o) →
  seqp ea ea this o -∗ seqp eb eb other o2 -∗
  (∀ o' a', ⌜(a' = if c_pocca C then eb else ea) ∧ (o' = if c_pocca C && negb (ea =? eb) then None else o)⌝ →
     seqp a' a' this o' -∗ seqp eb eb other o2 -∗ Q ()) -∗
  wp (copy_assign_alloc this other) Q E.
Proof.
  iIntros (Hm) "H1 H2 HQ". rewrite /copy_assign_alloc. destruct (c_pocca C).
  - wp_bind. iApply (wp_get_ealloc_o with "H1"). iIntros "H1".
    wp_bind. iApply (wp_get_ealloc_o with "H2"). iIntros "H2". wp_bind.
    iAssert (∀ o', ⌜o' = if negb (ea =? eb) then None else o⌝ → seqp ea ea this o' -∗ seqp eb eb other o2 -∗
      wp (b ← get_element_allocator other; set_element_allocator this b;;
          nb ← get_node_allocator other; set_node_allocator this nb) Q E)%I with "[HQ]" as "K".
    { iIntros (o' Ho') "H1 H2". iEval (rewrite seqp_blocks) in "H1". iEval (rewrite seqp_blocks) in "H2".
      iDestruct "H1" as (r1 n1 h1) "[H1 Hb1]". iDestruct "H2" as (r2 n2 h2) "[H2 Hb2]".
      wp_bind. iApply (wp_get_element_allocator with "H2"). iIntros "H2".
      wp_bind. iApply (wp_set_element_allocator with "H1"). iIntros "H1".
      wp_bind. iApply (wp_get_node_allocator with "H2"). iIntros "H2".
      iApply (wp_set_node_allocator with "H1"). iIntros "H1".
      iApply ("HQ" $! o' eb with "[%] [H1 Hb1] [H2 Hb2]"); [done| |].
      - rewrite seqp_blocks. iExists _, _, _. iFrame "H1". destruct (ea =? eb) eqn:Heq; simpl in *.
        + apply Nat.eqb_eq in Heq. by subst.
        + by subst.
      - rewrite seqp_blocks. iExists _, _, _. iFrame. }
    destruct (ea =? eb) eqn:Heq; simpl.
    + wp_ret. by iApply ("K" with "[%] H1 H2").
    + apply Nat.eqb_neq in Heq. iApply (wp_clear with "H1"); [by apply Hm|]. iIntros "H1".
      by iApply ("K" with "[%] H1 H2").
  - wp_ret. iApply ("HQ" $! o ea with "[%] H1 H2"). done.
Qed.

(** reading a whole container *)
Lemma wp_whole_range mv ea na this o Q E :
  seqp ea na this o -∗
  (∀ r, ⌜ins_at_it mv o 0 (osize o) r 0⌝ → seqp ea na this o -∗ Q r) -∗ wp (whole_range mv this) Q E.
Proof.
  iIntros "Hs HQ". rewrite /whole_range. wp_bind. iApply (wp_find_first with "Hs"). iIntros (f [Hf Hp]) "Hs".
  wp_bind. iApply (wp_find_end with "Hs"). iIntros (l [Hl Hpl]) "Hs". wp_ret. iApply ("HQ" with "[%] Hs").
  exists f, l. split_and!; try done; lia.
Qed.
Lemma ins_X_intro mv ea na this o p :
  seqp ea na this o ⊢ ins_X ea na mv this o p 0.
Proof. iIntros "H". iExists o. iFrame. by rewrite used_0. Qed.
Lemma ins_X_copy ea na this o p k :
  ins_X ea na false this o p k ⊢ ∃ o', ⟦oshape o' = oshape o ∧ oelems o' = oelems o⟧ ∗ seqp ea na this o'.
Proof. iIntros "H". iDestruct "H" as (o' Ho) "H". iExists o'. iFrame. done. Qed.
Lemma slice_whole o : take (osize o) (drop 0 (oelems o)) = oelems o.
Proof. rewrite drop_0 /osize firstn_all //. Qed.

Lemma wp_assign_all mv ea na this o eb nb other o2 r Q E :
  ins_at_it mv o2 0 (osize o2) r 0 → osize o2 < c_W C →
  seqp ea na this o -∗ seqp eb nb other o2 -∗
  ((∀ o' o2', ⌜oelems o' = oelems o2 ∧ oshape o2' = oshape o2 ∧ oelems o2' = used mv 0 (osize o2) (oelems o2)⌝ →
      seqp ea na this o' -∗ seqp eb nb other o2' -∗ Q ()) ∧
   (∀ e o' o2' j j', ⌜raisable C e ∧ j < osize o2 ∧ j ≤ j' ≤ S j ∧
       oelems o' = take j (oelems o2) ++ drop j (oelems o) ∧
       oshape o2' = oshape o2 ∧ oelems o2' = used mv 0 j' (oelems o2)⌝ →
      seqp ea na this o' -∗ seqp eb nb other o2' -∗ E e)) -∗
  wp (assign_range this r) Q E.
Proof.
  iIntros (Hr Hlt) "H1 H2 HQ".
  pose proof (inp_seq eb nb mv other o2 0 (osize o2) (oelems o2)) as Hin.
  iApply (wp_assign_range with "H1 [H2]"); [apply Hin; [by rewrite slice_whole|done]| | | |].
  { intros. by apply ins_fuel. }
  { done. }
  { iSplitR; [done|]. by iApply ins_X_intro. }
  iSplit.
  - iIntros (o' He) "H1 HX". iDestruct "HX" as (o2' [??]) "H2". iDestruct "HQ" as "[HQ _]".
    by iApply ("HQ" with "[%] H1 H2").
  - iIntros (e o' j j' (?&?&?&?)) "H1 HX". iDestruct "HX" as (o2' [??]) "H2". iDestruct "HQ" as "[_ HQ]".
    iApply ("HQ" $! e o' o2' j j' with "[%] H1 H2"). split_and!; try done; unfold osize in *; lia.
Qed.

Lemma wp_op_copy_assign ea eb this o other o2 Q E :
  (c_pocca C = true → ea ≠ eb → may_purge o) → this ≠ other →
  seqp ea ea this o -∗ seqp eb eb other o2 -∗
  ((∀ o' o2', ⌜oelems o' = oelems o2 ∧ oshape o2' = oshape o2 ∧ oelems o2' = oelems o2⌝ →
      let a' := if c_pocca C then eb else ea in
      seqp a' a' this o' -∗ seqp eb eb other o2' -∗ Q ()) ∧
   (∀ e o' o2' j, ⌜raisable C e ∧ j < osize o2 ∧
       oelems o' = take j (oelems o2) ++ drop j (if c_pocca C && negb (ea =? eb) then [] else oelems o) ∧
       oshape o2' = oshape o2 ∧ oelems o2' = oelems o2⌝ →
      let a' := if c_pocca C then eb else ea in
      seqp a' a' this o' -∗ seqp eb eb other o2' -∗ E e)) -∗
  wp (op_copy_assign this other) Q E.
Proof.
  iIntros (Hm Hne) "H1 H2 HQ". rewrite /op_copy_assign.
  replace (this =? other)%positive with false by (symmetry; by apply Pos.eqb_neq). simpl.
  wp_bind. iApply (wp_copy_assign_alloc with "H1 H2"); [done|]. iIntros (o' a' [-> Ho']) "H1 H2".
  iDestruct (seqp_lt with "H2") as %Hlt.
  wp_bind. iApply (wp_whole_range false with "H2"). iIntros (r Hr) "H2".
  iApply (wp_assign_all with "H1 H2"); [done|done|]. iSplit.
  - iDestruct "HQ" as "[HQ _]". iIntros (p p2 Hp) "H1 H2". by iApply ("HQ" with "[%] H1 H2").
  - iDestruct "HQ" as "[_ HQ]". iIntros (e p p2 j j' (?&?&?&Hp&?&?)) "H1 H2".
    iApply ("HQ" $! e p p2 j with "[%] H1 H2"). split_and!; try done. rewrite Hp. f_equal. f_equal. rewrite Ho'.
    by destruct (c_pocca C && negb (ea =? eb)).
Qed.
Lemma wp_op_copy_assign_self this Q E : Q () ⊢ wp (op_copy_assign (T:=T) this this) Q E.
Proof. iIntros "H". rewrite /op_copy_assign Pos.eqb_refl /=. by wp_ret. Qed.

Definition steals (ea eb : nat) : bool := c_pocma C || (ea =? eb).
Lemma wp_move_assign_true ea eb this o other o2 Q E :
  steals ea eb = true → may_purge o →
  seqp ea ea this o -∗ seqp eb eb other o2 -∗
  (let a' := if c_pocma C then eb else ea in seqp a' a' this o2 -∗ seqp eb eb other None -∗ Q ()) -∗
  wp (move_assign_true this other) Q E.
Proof.
  iIntros (Hst Hm) "H1 H2 HQ". rewrite /move_assign_true. wp_bind. iApply (wp_purge with "H1"); [done|].
  iIntros (r n ht) "H1". rewrite /move_assign_alloc. wp_bind. destruct (c_pocma C) eqn:Hpo.
  - iEval (rewrite seqp_blocks) in "H2". iDestruct "H2" as (r2 n2 h2) "[H2 Hb2]".
    wp_bind. iApply (wp_get_element_allocator with "H2"). iIntros "H2".
    wp_bind. iApply (wp_set_element_allocator with "H1"). iIntros "H1".
    wp_bind. iApply (wp_get_node_allocator with "H2"). iIntros "H2".
    iApply (wp_set_node_allocator with "H1"). iIntros "H1".
    iApply (wp_steal with "H1 [H2 Hb2]"); [|done]. rewrite seqp_blocks. iExists _, _, _. iFrame.
  - wp_ret. rewrite /steals Hpo /= in Hst. apply Nat.eqb_eq in Hst as ->. iApply (wp_steal with "H1 H2"). done.
Qed.
Lemma wp_op_move_assign ea eb this o other o2 Q E :
  (steals ea eb = true → may_purge o) →
  seqp ea ea this o -∗ seqp eb eb other o2 -∗
  ((⌜steals ea eb = true⌝ →
      let a' := if c_pocma C then eb else ea in seqp a' a' this o2 -∗ seqp eb eb other None -∗ Q ()) ∧
   (∀ o' o2', ⌜steals ea eb = false ∧ oelems o' = oelems o2 ∧ oshape o2' = oshape o2 ∧
       oelems o2' = c_residue C <$> oelems o2⌝ →
      seqp ea ea this o' -∗ seqp eb eb other o2' -∗ Q ()) ∧
   (∀ e o' o2' j j', ⌜steals ea eb = false ∧ raisable C e ∧ j < osize o2 ∧ j ≤ j' ≤ S j ∧
       oelems o' = take j (oelems o2) ++ drop j (oelems o) ∧
       oshape o2' = oshape o2 ∧ oelems o2' = used true 0 j' (oelems o2)⌝ →
      seqp ea ea this o' -∗ seqp eb eb other o2' -∗ E e)) -∗
  wp (op_move_assign this other) Q E.
Proof.
  iIntros (Hm) "H1 H2 HQ". rewrite /op_move_assign /move_assign. destruct (c_pocma C) eqn:Hpo.
  { assert (steals ea eb = true) as Hst by rewrite /steals Hpo //.
    iApply (wp_move_assign_true with "H1 H2"); [done|by apply Hm|]. rewrite Hpo.
    iDestruct "HQ" as "[HQ _]". by iApply "HQ". }
  wp_bind. iApply (wp_get_ealloc_o with "H1"). iIntros "H1".
  wp_bind. iApply (wp_get_ealloc_o with "H2"). iIntros "H2".
  destruct (ea =? eb) eqn:Heq; simpl.
  { assert (steals ea eb = true) as Hst by rewrite /steals Hpo Heq //.
    iApply (wp_move_assign_true with "H1 H2"); [done|by apply Hm|]. rewrite Hpo.
    iDestruct "HQ" as "[HQ _]". by iApply "HQ". }
  assert (steals ea eb = false) as Hst by rewrite /steals Hpo Heq //.
  iDestruct (seqp_lt with "H2") as %Hlt.
  wp_bind. iApply (wp_find_first with "H2"). iIntros (f [Hf Hp]) "H2".
  wp_bind. iApply (wp_find_end with "H2"). iIntros (l [Hl Hpl]) "H2".
  iApply (wp_assign_all true with "H1 H2"); [|done|].
  { exists f, l. split_and!; try done; lia. }
  iSplit.
  - iDestruct "HQ" as "[_ [HQ _]]". iIntros (p p2 (?&?&Hp2)) "H1 H2". iApply ("HQ" with "[%] H1 H2").
    split_and!; try done. rewrite Hp2 /used /= drop_0 /osize firstn_all drop_all right_id_L //.
  - iDestruct "HQ" as "[_ [_ HQ]]". iIntros (e p p2 j j' (?&?&?&?&?&?)) "H1 H2".
    by iApply ("HQ" $! e p p2 j j' with "[%] H1 H2").
Qed.
Lemma wp_op_move_assign_self ea this o Q E :
  may_purge o →
  seqp ea ea this o -∗ (seqp ea ea this None -∗ Q ()) -∗ wp (op_move_assign this this) Q E.
Proof.
  iIntros (Hm) "H1 HQ". rewrite /op_move_assign /move_assign.
  assert (∀ Q, seqp ea ea this o -∗ (seqp ea ea this None -∗ Q ()) -∗ wp (move_assign_true this this) Q E) as K.
  { iIntros (Q') "H1 HQ". rewrite /move_assign_true. wp_bind. iApply (wp_purge with "H1"); [done|].
    iIntros (r n ht) "H1". rewrite /move_assign_alloc. wp_bind. destruct (c_pocma C) eqn:Hpo.
    - wp_bind. iApply (wp_get_element_allocator with "H1"). iIntros "H1".
      wp_bind. iApply (wp_set_element_allocator with "H1"). iIntros "H1".
      wp_bind. iApply (wp_get_node_allocator with "H1"). iIntros "H1".
      iApply (wp_set_node_allocator with "H1"). iIntros "H1".
      by iApply (wp_steal_self with "H1").
    - wp_ret. by iApply (wp_steal_self with "H1"). }
  destruct (c_pocma C); [by iApply (K with "H1")|].
  wp_bind. iApply (wp_get_ealloc_o with "H1"). iIntros "H1".
  wp_bind. iApply (wp_get_ealloc_o with "H1"). iIntros "H1". rewrite Nat.eqb_refl /=.
  by iApply (K with "H1").
Qed.
End api.
