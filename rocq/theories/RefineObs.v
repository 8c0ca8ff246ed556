(** * RefineObs: observers and iterator movements.  Proof infrastructure. *)
From Verif Require Export Refine.
From stdpp Require Import options.
Set Default Proof Using "Type*".

(** [H]: abs ..., [Hx]: live / at_it; opens the container and runs getc/geti *)
Ltac open_live Ha Hx o a l :=
  let Ht := fresh "Ht" in let Hl := fresh "Hl" in let Hc := fresh "Hc" in let Hal := fresh "Hal" in
  let Hcs := fresh "Hcs" in
  destruct (abs_live _ _ _ _ Ha Hx) as (o & a & l & Ht & Hl & Hc & Hal & Hcs).
Ltac open_at Ha Hw o a l it :=
  let Ht := fresh "Ht" in let Hl := fresh "Hl" in let Hc := fresh "Hc" in let Hal := fresh "Hal" in
  let Hit := fresh "Hit" in let Hok := fresh "Hok" in let Hp := fresh "Hp" in let Hlv := fresh "Hlv" in
  destruct (abs_at _ _ _ _ _ _ Ha Hw) as (o & a & l & it & Ht & Hl & Hc & Hal & Hit & Hok & Hp & Hlv).
Ltac vars :=
  repeat (first
    [ match goal with H : e_cont ?ρ !! ?x = Some ?l |- context [getc ?ρ ?x] =>
        rewrite (getc_ok ρ x l H) end
    | match goal with H : e_iter ?ρ !! ?w = Some ?it |- context [geti ?ρ ?w] =>
        rewrite (geti_ok ρ w it H) end]);
  repeat (wp_bind; wp_ret).
Ltac take_ Ht Hl :=
  iEval (rewrite (rep_take _ _ _ _ _ _ Ht Hl)) in "Hr"; iDestruct "Hr" as "[Hs Hr]".
Ltac back_ Ht Hl :=
  rewrite ?rep_bindi (rep_take _ _ _ _ _ _ Ht Hl); iFrame.

Section obs.
Context {T : Type} {C : cfg T} {OK : cfg_ok C} {FZ : frozen T}.
Implicit Types σ : sst T.
Implicit Types ρ : env.
Implicit Types o : option (tree T).
Implicit Types τ : gmap nat (option (tree T) * nat).
Implicit Types s : arg T.

(** ** sizes and allocators *)
Lemma good_GetAlloc σ ρ x : good σ ρ (GetAlloc x).
Proof.
  intros Hpre. iIntros "HR". iDestruct "HR" as (τ Ha) "Hr". simpl in Hpre. open_live Ha Hpre o a l.
  cbn [exec_call]. vars. take_ Ht Hl. wp_bind. rewrite /get_allocator. iApply (wp_get_ealloc_o with "Hs"). iIntros "Hs".
  wp_ret. iApply post_intro; [|exact Ha|back_ Ht Hl]. simpl. by rewrite Hal.
Qed.
Lemma good_Size σ ρ x : good σ ρ (GetSize x).
Proof.
  intros Hpre. iIntros "HR". iDestruct "HR" as (τ Ha) "Hr". simpl in Hpre. open_live Ha Hpre o a l.
  cbn [exec_call]. vars. take_ Ht Hl. wp_bind. rewrite /size_. iApply (wp_get_size_o with "Hs"). iIntros "Hs".
  wp_ret. iApply post_intro; [|exact Ha|back_ Ht Hl]. simpl. by rewrite Hc.
Qed.
Lemma good_Empty σ ρ x : good σ ρ (IsEmpty x).
Proof.
  intros Hpre. iIntros "HR". iDestruct "HR" as (τ Ha) "Hr". simpl in Hpre. open_live Ha Hpre o a l.
  cbn [exec_call]. vars. take_ Ht Hl. wp_bind. rewrite /empty_. wp_bind. iApply (wp_get_size_o with "Hs"). iIntros "Hs".
  wp_ret. wp_ret. iApply post_intro; [|exact Ha|back_ Ht Hl]. simpl. split; [|done]. rewrite Hc /returns. f_equal.
  rewrite /osize. destruct (oelems o); [by rewrite bool_decide_eq_true_2|by rewrite bool_decide_eq_false_2].
Qed.
(** ** element access *)
Lemma wp_deref_elem ea na l o it p v Q E :
  it_ok o it → i_pos it = p → oelems o !! p = Some v →
  seqp ea na l o -∗ (seqp ea na l o -∗ Q v) -∗ wp (it_deref it) Q E.
Proof.
  iIntros (Hok Hp Hv) "Hs HQ". rewrite /it_deref /dereference. iApply (wp_read_it with "Hs"); [done| |].
  { rewrite Hp. by apply lookup_lt_Some in Hv. }
  iIntros (y Hy) "Hs". rewrite Hp Hv in Hy. injection Hy as <-. by iApply "HQ".
Qed.
Lemma good_At σ ρ x n : good σ ρ (At x n).
Proof.
  intros Hpre. iIntros "HR". iDestruct "HR" as (τ Ha) "Hr". simpl in Hpre. open_live Ha Hpre o a l.
  cbn [exec_call]. vars. take_ Ht Hl. wp_bind. rewrite /at_. wp_bind. iApply (wp_get_size_o with "Hs"). iIntros "Hs".
  destruct (osize o <=? n) eqn:Hn.
  - apply Nat.leb_le in Hn. iApply wp_throw. iApply post_intro; [|exact Ha|back_ Ht Hl]. simpl.
    rewrite Hc. by rewrite lookup_ge_None_2.
  - apply Nat.leb_gt in Hn. iApply (wp_find_index with "Hs"); [done|]. iIntros (it [Hok Hp]) "Hs".
    destruct (lookup_lt_is_Some_2 (oelems o) n) as [v Hv]; [done|].
    wp_bind. iApply (wp_deref_elem with "Hs"); [done|done|done|]. iIntros "Hs". wp_ret.
    iApply post_intro; [|exact Ha|back_ Ht Hl]. simpl. by rewrite Hc Hv.
Qed.
Lemma nonempty_live σ x : contents σ x ≠ [] → live σ x.
Proof. rewrite /contents /live. by destruct (conts σ !! x). Qed.
Lemma lt_live σ x n : n < length (contents σ x) → live σ x.
Proof. intros. apply nonempty_live. destruct (contents σ x); simpl in *; [lia|done]. Qed.
Lemma nonempty_osize o : oelems o ≠ [] → 0 < osize o.
Proof. rewrite /osize. destruct (oelems o); simpl; [done|lia]. Qed.
Lemma good_Index σ ρ x n : good σ ρ (Index x n).
Proof.
  intros Hpre. iIntros "HR". iDestruct "HR" as (τ Ha) "Hr". simpl in Hpre.
  open_live Ha (lt_live _ _ _ Hpre) o a l. rewrite Hc in Hpre.
  cbn [exec_call]. vars. take_ Ht Hl. wp_bind. rewrite /op_index.
  iApply (wp_find_index with "Hs"); [done|]. iIntros (it [Hok Hp]) "Hs".
  destruct (lookup_lt_is_Some_2 (oelems o) n) as [v Hv]; [done|].
  wp_bind. iApply (wp_deref_elem with "Hs"); [done|done|done|]. iIntros "Hs". wp_ret.
  iApply post_intro; [|exact Ha|back_ Ht Hl]. simpl. rewrite Hc. split; [|done]. by exists v.
Qed.
Lemma good_Front σ ρ x : good σ ρ (Front x).
Proof.
  intros Hpre. iIntros "HR". iDestruct "HR" as (τ Ha) "Hr". simpl in Hpre.
  open_live Ha (nonempty_live _ _ Hpre) o a l. rewrite Hc in Hpre.
  cbn [exec_call]. vars. take_ Ht Hl. wp_bind. rewrite /front /begin_.
  iApply (wp_find_first with "Hs"). iIntros (it [Hok Hp]) "Hs".
  destruct (oelems o) as [|v ys] eqn:He; [done|].
  wp_bind. iApply (wp_deref_elem _ _ _ _ _ 0 v with "Hs"); [done|done|by rewrite He|]. iIntros "Hs". wp_ret.
  iApply post_intro; [|exact Ha|back_ Ht Hl]. simpl. rewrite Hc. split; [|done]. by exists v.
Qed.
Lemma good_Back σ ρ x : good σ ρ (Back x).
Proof.
  intros Hpre. iIntros "HR". iDestruct "HR" as (τ Ha) "Hr". simpl in Hpre.
  open_live Ha (nonempty_live _ _ Hpre) o a l. rewrite Hc in Hpre.
  cbn [exec_call]. vars. take_ Ht Hl. wp_bind. rewrite /back /penultimate.
  iApply (wp_find_last with "Hs"); [by apply nonempty_osize|]. iIntros (it [Hok Hp]) "Hs".
  destruct (last (oelems o)) as [v|] eqn:He; [|by apply last_None in He].
  wp_bind. iApply (wp_deref_elem _ _ _ _ _ (osize o - 1) v with "Hs"); [done|done| |].
  { rewrite last_lookup in He. rewrite -He. f_equal. unfold osize. lia. }
  iIntros "Hs". wp_ret.
  iApply post_intro; [|exact Ha|back_ Ht Hl]. simpl. rewrite Hc. split; [|done]. by exists v.
Qed.
(** ** finding iterators *)
Lemma good_Begin σ ρ x w : good σ ρ (Begin x w).
Proof.
  intros Hpre. iIntros "HR". iDestruct "HR" as (τ Ha) "Hr". simpl in Hpre. open_live Ha Hpre o a l.
  cbn [exec_call]. vars. take_ Ht Hl. wp_bind. rewrite /begin_. iApply (wp_find_first with "Hs"). iIntros (it [Hok Hp]) "Hs".
  wp_ret. iApply post_intro; [by split|by eapply abs_point|back_ Ht Hl].
Qed.
Lemma good_End σ ρ x w : good σ ρ (End x w).
Proof.
  intros Hpre. iIntros "HR". iDestruct "HR" as (τ Ha) "Hr". simpl in Hpre. open_live Ha Hpre o a l.
  cbn [exec_call]. vars. take_ Ht Hl. wp_bind. rewrite /end_. iApply (wp_find_end with "Hs"). iIntros (it [Hok Hp]) "Hs".
  wp_ret. iApply post_intro; [by split|eapply abs_point; [done..|by rewrite Hc]|back_ Ht Hl].
Qed.
Lemma good_Penultimate σ ρ x w : good σ ρ (Penultimate x w).
Proof.
  intros Hpre. iIntros "HR". iDestruct "HR" as (τ Ha) "Hr". simpl in Hpre.
  open_live Ha (nonempty_live _ _ Hpre) o a l. rewrite Hc in Hpre.
  cbn [exec_call]. vars. take_ Ht Hl. wp_bind. rewrite /penultimate. iApply (wp_find_last with "Hs"); [by apply nonempty_osize|].
  iIntros (it [Hok Hp]) "Hs".
  wp_ret. iApply post_intro; [by split|eapply abs_point; [done..|by rewrite Hc]|back_ Ht Hl].
Qed.
Lemma good_Nth σ ρ x n w : good σ ρ (NthOf x n w).
Proof.
  intros Hpre. iIntros "HR". iDestruct "HR" as (τ Ha) "Hr". simpl in Hpre. open_live Ha Hpre o a l.
  cbn [exec_call]. vars. take_ Ht Hl. wp_bind. iApply (wp_nth with "Hs"). iIntros (it [Hok Hp]) "Hs".
  wp_ret. iApply post_intro; [by split|eapply abs_point; [done..|by rewrite Hc]|back_ Ht Hl].
Qed.
Lemma good_IndexOf σ ρ x w : good σ ρ (IndexOf x w).
Proof.
  intros [p Hw]. iIntros "HR". iDestruct "HR" as (τ Ha) "Hr". open_at Ha Hw o a l it.
  cbn [exec_call]. vars. wp_ret. iApply (post_intro with "Hr"); [|exact Ha]. simpl. split; [|done]. exists p. by rewrite /index_of Hp.
Qed.
(** ** dereferencing *)
Lemma good_Deref σ ρ w : good σ ρ (Deref w).
Proof.
  intros [v Hv]. destruct (deref_inv _ _ _ Hv) as (x & p & Hw & Hx).
  iIntros "HR". iDestruct "HR" as (τ Ha) "Hr". open_at Ha Hw o a l it.
  cbn [exec_call]. vars. take_ Ht Hl. wp_bind. iApply (wp_deref_elem with "Hs"); [done|done|by rewrite -Hc|].
  iIntros "Hs". wp_ret. iApply post_intro; [|exact Ha|back_ Ht Hl]. simpl. split; [|done]. by exists v.
Qed.
Lemma good_DerefAt σ ρ w d : good σ ρ (DerefAt w d).
Proof.
  intros (x & p & Hw & Hd).
  iIntros "HR". iDestruct "HR" as (τ Ha) "Hr". open_at Ha Hw o a l it.
  rewrite Hc in Hd. change (length (oelems o)) with (osize o) in Hd.
  cbn [exec_call]. vars. take_ Ht Hl. wp_bind. rewrite /it_index /dereference_count. wp_bind.
  iApply (wp_move_iterator_count with "Hs"); [done|lia|]. iIntros (it' [Hok' Hp']) "Hs".
  destruct (lookup_lt_is_Some_2 (oelems o) (i_pos it')) as [v Hv]; [change (length (oelems o)) with (osize o); lia|].
  iApply (wp_deref_elem _ _ _ _ it' (i_pos it') v with "Hs"); [done|done|done|].
  iIntros "Hs". wp_ret. iApply post_intro; [|exact Ha|back_ Ht Hl]. simpl. split; [|done]. exists x, p, v. split_and!; [done| |done].
  rewrite Hc -Hv. f_equal. lia.
Qed.
Lemma good_RDeref σ ρ w : good σ ρ (RDeref w).
Proof.
  intros (x & p & Hw & Hd).
  iIntros "HR". iDestruct "HR" as (τ Ha) "Hr". open_at Ha Hw o a l it.
  cbn [exec_call]. vars. take_ Ht Hl. wp_bind. rewrite /rdereference. wp_bind. rewrite /it_prev.
  pose proof (it_ok_le _ _ Hok).
  iApply (wp_move_prev_iterator with "Hs"); [done|lia|]. iIntros (it' [Hok' Hp']) "Hs".
  destruct (lookup_lt_is_Some_2 (oelems o) (i_pos it')) as [v Hv]; [change (length (oelems o)) with (osize o); lia|].
  iApply (wp_deref_elem _ _ _ _ it' (i_pos it') v with "Hs"); [done|done|done|].
  iIntros "Hs". wp_ret. iApply post_intro; [|exact Ha|back_ Ht Hl]. simpl. split; [|done]. exists x, p, v. split_and!; [done| |done].
  rewrite Hc -Hv. f_equal. lia.
Qed.
(** ** moving *)
Lemma good_Next σ ρ w w' : good σ ρ (StepNext w w').
Proof.
  intros (x & p & Hw & Hd). iIntros "HR". iDestruct "HR" as (τ Ha) "Hr". open_at Ha Hw o a l it. rewrite Hc in Hd.
  cbn [exec_call]. vars. take_ Ht Hl. wp_bind. rewrite /it_next.
  iApply (wp_move_next_iterator with "Hs"); [done|unfold osize; lia|]. iIntros (it' [Hok' Hp']) "Hs".
  wp_ret. iApply post_intro; [by exists x, p|eapply abs_point; [done..|lia]|back_ Ht Hl].
Qed.
Lemma good_Prev σ ρ w w' : good σ ρ (StepPrev w w').
Proof.
  intros (x & p & Hw & Hd). iIntros "HR". iDestruct "HR" as (τ Ha) "Hr". open_at Ha Hw o a l it.
  cbn [exec_call]. vars. take_ Ht Hl. wp_bind. rewrite /it_prev.
  iApply (wp_move_prev_iterator with "Hs"); [done|lia|]. iIntros (it' [Hok' Hp']) "Hs".
  wp_ret. iApply post_intro; [by exists x, p|eapply abs_point; [done..|lia]|back_ Ht Hl].
Qed.
Lemma good_Add σ ρ w d w' : good σ ρ (StepAdd w d w').
Proof.
  intros (x & p & Hw & Hd). iIntros "HR". iDestruct "HR" as (τ Ha) "Hr". open_at Ha Hw o a l it. rewrite Hc in Hd.
  cbn [exec_call]. vars. take_ Ht Hl. wp_bind. rewrite /it_add.
  iApply (wp_move_iterator_count with "Hs"); [done|unfold osize; lia|]. iIntros (it' [Hok' Hp']) "Hs".
  wp_ret. iApply post_intro; [by exists x, p|eapply abs_point; [done..|lia]|back_ Ht Hl].
Qed.
Lemma good_Sub σ ρ w d w' : good σ ρ (StepSub w d w').
Proof.
  intros (x & p & Hw & Hd). iIntros "HR". iDestruct "HR" as (τ Ha) "Hr". open_at Ha Hw o a l it. rewrite Hc in Hd.
  cbn [exec_call]. vars. take_ Ht Hl. wp_bind. rewrite /it_sub.
  iApply (wp_move_iterator_count with "Hs"); [done|unfold osize; lia|]. iIntros (it' [Hok' Hp']) "Hs".
  wp_ret. iApply post_intro; [by exists x, p|eapply abs_point; [done..|lia]|back_ Ht Hl].
Qed.
(** ** comparing *)
Lemma difference_ok (p q : nat) :
  p < c_W C → q < c_W C → (2 * Z.abs (Z.of_nat p - Z.of_nat q) < Z.of_nat (c_W C))%Z →
  to_diff (wsub p q) = (Z.of_nat p - Z.of_nat q)%Z.
Proof.
  intros Hp Hq H. rewrite /wsub. destruct (decide (q ≤ p)).
  - assert ((p + c_W C - q) mod c_W C = p - q) as ->. { symmetry. apply (Nat.mod_unique _ _ 1); lia. }
    rewrite /to_diff (proj2 (Nat.ltb_lt _ _)); lia.
  - rewrite Nat.mod_small; [|lia]. rewrite /to_diff (proj2 (Nat.ltb_ge _ _)); lia.
Qed.
Lemma good_Diff σ ρ w1 w2 : good σ ρ (Diff w1 w2).
Proof.
  intros (x & p & q & Hw1 & Hw2 & Hd). iIntros "HR". iDestruct "HR" as (τ Ha) "Hr".
  open_at Ha Hw1 o a l it. destruct (abs_at _ _ _ _ _ _ Ha Hw2) as (o' & a' & l' & it' & Ht' & _ & _ & _ & Hit' & Hok' & Hp' & _).
  rewrite Ht in Ht'. simplify_eq.
  cbn [exec_call]. vars. take_ Ht Hl. iDestruct (seqp_lt with "Hs") as %Hlt.
  pose proof (it_ok_le _ _ Hok). pose proof (it_ok_le _ _ Hok').
  wp_ret. iApply post_intro; [|exact Ha|back_ Ht Hl]. simpl. split; [|done]. eexists x, _, _. split_and!; [done|done|].
  rewrite /returns /it_diff /difference. f_equal. destruct (_ <? _); rewrite difference_ok; lia.
Qed.
Lemma good_cmp σ ρ w1 w2 x p q τ :
  abs σ τ ρ → at_it σ w1 x p → at_it σ w2 x q →
  ∃ a b, e_iter ρ !! w1 = Some a ∧ e_iter ρ !! w2 = Some b ∧ i_pos a = p ∧ i_pos b = q.
Proof.
  intros Ha Hw1 Hw2. open_at Ha Hw1 o a l it.
  destruct (abs_at _ _ _ _ _ _ Ha Hw2) as (o' & a' & l' & it' & Ht' & _ & _ & _ & Hit' & Hok' & Hp' & _).
  by exists it, it'.
Qed.
Lemma good_ItEq σ ρ w1 w2 : good σ ρ (ItEq w1 w2).
Proof.
  intros (x & p & q & Hw1 & Hw2). iIntros "HR". iDestruct "HR" as (τ Ha) "Hr".
  destruct (good_cmp _ _ _ _ _ _ _ _ Ha Hw1 Hw2) as (a & b & Hi1 & Hi2 & Hp & Hq). cbn [exec_call]. vars. wp_ret.
  iApply (post_intro with "Hr"); [|exact Ha]. simpl. split; [|done]. exists x, p, q. split_and!; [done|done|].
  rewrite /returns /it_eq Hp Hq. f_equal. destruct (decide (p = q)) as [->|].
  - by rewrite Nat.eqb_refl bool_decide_eq_true_2.
  - by rewrite (proj2 (Nat.eqb_neq _ _)) // bool_decide_eq_false_2.
Qed.
Lemma good_ItLt σ ρ w1 w2 : good σ ρ (ItLt w1 w2).
Proof.
  intros (x & p & q & Hw1 & Hw2). iIntros "HR". iDestruct "HR" as (τ Ha) "Hr".
  destruct (good_cmp _ _ _ _ _ _ _ _ Ha Hw1 Hw2) as (a & b & Hi1 & Hi2 & Hp & Hq). cbn [exec_call]. vars. wp_ret.
  iApply (post_intro with "Hr"); [|exact Ha]. simpl. split; [|done]. exists x, p, q. split_and!; [done|done|].
  rewrite /returns /it_lt Hp Hq. f_equal. destruct (decide (p < q)) as [|].
  - by rewrite (proj2 (Nat.ltb_lt _ _)) // bool_decide_eq_true_2.
  - rewrite (proj2 (Nat.ltb_ge _ _)) ?bool_decide_eq_false_2 //. lia.
Qed.
Lemma good_ItLe σ ρ w1 w2 : good σ ρ (ItLe w1 w2).
Proof.
  intros (x & p & q & Hw1 & Hw2). iIntros "HR". iDestruct "HR" as (τ Ha) "Hr".
  destruct (good_cmp _ _ _ _ _ _ _ _ Ha Hw1 Hw2) as (a & b & Hi1 & Hi2 & Hp & Hq). cbn [exec_call]. vars. wp_ret.
  iApply (post_intro with "Hr"); [|exact Ha]. simpl. split; [|done]. exists x, p, q. split_and!; [done|done|].
  rewrite /returns /it_le Hp Hq. f_equal. destruct (decide (p ≤ q)) as [|].
  - by rewrite (proj2 (Nat.leb_le _ _)) // bool_decide_eq_true_2.
  - rewrite (proj2 (Nat.leb_gt _ _)) ?bool_decide_eq_false_2 //. lia.
Qed.
Lemma good_ItNe σ ρ w1 w2 : good σ ρ (ItNe w1 w2).
Proof.
  intros (x & p & q & Hw1 & Hw2). iIntros "HR". iDestruct "HR" as (τ Ha) "Hr".
  destruct (good_cmp _ _ _ _ _ _ _ _ Ha Hw1 Hw2) as (a & b & Hi1 & Hi2 & Hp & Hq). cbn [exec_call]. vars. wp_ret.
  iApply (post_intro with "Hr"); [|exact Ha]. simpl. split; [|done]. exists x, p, q. split_and!; [done|done|].
  rewrite /returns /it_ne Hp Hq. f_equal. destruct (decide (p = q)) as [->|].
  - rewrite Nat.eqb_refl bool_decide_eq_false_2 //. by intros [].
  - by rewrite (proj2 (Nat.eqb_neq _ _)) // bool_decide_eq_true_2.
Qed.
Lemma good_ItGt σ ρ w1 w2 : good σ ρ (ItGt w1 w2).
Proof.
  intros (x & p & q & Hw1 & Hw2). iIntros "HR". iDestruct "HR" as (τ Ha) "Hr".
  destruct (good_cmp _ _ _ _ _ _ _ _ Ha Hw1 Hw2) as (a & b & Hi1 & Hi2 & Hp & Hq). cbn [exec_call]. vars. wp_ret.
  iApply (post_intro with "Hr"); [|exact Ha]. simpl. split; [|done]. exists x, p, q. split_and!; [done|done|].
  rewrite /returns /it_gt Hp Hq. f_equal. destruct (decide (q < p)) as [|].
  - rewrite (proj2 (Nat.ltb_lt _ _)) // bool_decide_eq_true_2 //.
  - rewrite (proj2 (Nat.ltb_ge _ _)) ?bool_decide_eq_false_2 //; lia.
Qed.
Lemma good_ItGe σ ρ w1 w2 : good σ ρ (ItGe w1 w2).
Proof.
  intros (x & p & q & Hw1 & Hw2). iIntros "HR". iDestruct "HR" as (τ Ha) "Hr".
  destruct (good_cmp _ _ _ _ _ _ _ _ Ha Hw1 Hw2) as (a & b & Hi1 & Hi2 & Hp & Hq). cbn [exec_call]. vars. wp_ret.
  iApply (post_intro with "Hr"); [|exact Ha]. simpl. split; [|done]. exists x, p, q. split_and!; [done|done|].
  rewrite /returns /it_ge Hp Hq. f_equal. destruct (decide (q ≤ p)) as [|].
  - rewrite (proj2 (Nat.leb_le _ _)) // bool_decide_eq_true_2 //.
  - rewrite (proj2 (Nat.leb_gt _ _)) ?bool_decide_eq_false_2 //; lia.
Qed.
End obs.
