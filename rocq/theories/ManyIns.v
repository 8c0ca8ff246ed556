(** * ManyIns: what the loops that insert several elements do to the list of segments.
    Proof infrastructure. *)
From Verif Require Export LocalIns.
From stdpp Require Import options.
Set Default Proof Using "Type*".

Section many.
Context {T : Type} {C : cfg T} {OK : cfg_ok C}.
Implicit Types o : option (tree T).
Implicit Types xs : list T.
Notation segl := (list (loc * list T)).
(** a relation between the segments before and after inserting [xs] at a position
    that composes and contains the insertion of one element *)
Context (L : segl → segl → nat → list T → Prop).
Context (L_nil : ∀ S0 pos, L S0 S0 pos []).
Context (L_app : ∀ S0 S1 S2 pos xs ys, L S0 S1 pos xs → L S1 S2 (pos + length xs) ys → L S0 S2 pos (xs ++ ys)).
Context (L_one : ∀ S0 S1 pos r v, (pos < length (concat S0.*2) → 0 < r) → seg_ins (C:=C) S0 S1 pos r v → L S0 S1 pos [v]).

Lemma wp_one_rel ea na this o it s x R R' Q E :
  src_spec s x R (seqp ea na this o ∗ R')%I → it_ok o it → osize o + 1 < c_W C →
  R -∗
  ((∀ o' it', ⌜osize o' = (osize o + 1)%nat ∧ it_ok o' it' ∧ i_pos it' = i_pos it ∧ L (osegs o) (osegs o') (i_pos it) [x]⌝ →
      seqp ea na this o' -∗ R' -∗ Q it') ∧
   (⌜raisable C EUser⌝ → R -∗ E EUser) ∧ (⌜raisable C EAlloc⌝ → seqp ea na this o -∗ R' -∗ E EAlloc)) -∗
  wp (emplace_single this it s) Q E.
Proof.
  iIntros (Hsrc Hit HW) "HR HQ". iApply (wp_emplace_single with "HR"); [done..|]. iSplit; [|by iDestruct "HQ" as "[_ $]"].
  iIntros (o' it' (He & Hok & Hp & _ & Hs)) "Hs HR". iDestruct "HQ" as "[HQ _]". iApply ("HQ" with "[%] Hs HR").
  split_and!; [by rewrite /osize He ins_at_length|done|done|]. eapply L_one; [|done].
  rewrite osegs_elems. by apply it_ok_room.
Qed.
Lemma wp_count_rel ea na this o it count s x R Q E :
  src_spec s x R R → it_ok o it → osize o + count < c_W C →
  seqp ea na this o -∗ R -∗
  ((∀ o' it', ⌜osize o' = (osize o + count)%nat ∧ it_ok o' it' ∧ i_pos it' = (i_pos it + count)%nat ∧
       L (osegs o) (osegs o') (i_pos it) (replicate count x)⌝ → seqp ea na this o' -∗ R -∗ Q it') ∧
   (∀ e o' k, ⌜raisable C e ∧ k ≤ count ∧ L (osegs o) (osegs o') (i_pos it) (replicate k x)⌝ → seqp ea na this o' -∗ R -∗ E e)) -∗
  wp (emplace_count_loop this it count s) Q E.
Proof.
  intros Hsrc. revert o it Q E. induction count as [|count IH]; iIntros (o it Q E Hit HW) "Hs HR HQ".
  { cbn [emplace_count_loop]. wp_ret. iDestruct "HQ" as "[HQ _]".
    iApply ("HQ" $! o with "[%] Hs HR"). split_and!; [lia|done|lia|]. apply L_nil. }
  cbn [emplace_count_loop]. wp_bind. pose proof (it_ok_le _ _ Hit) as Hle.
  iApply (wp_one_rel ea na this o it s x (seqp ea na this o ∗ R)%I R with "[Hs HR]");
    [by apply src_spec_frame|done|lia|iFrame|].
  iSplit; [|iSplit].
  - iIntros (o' it' (Hsz & Hit' & Hp & Hloc)) "Hs HR". wp_bind.
    iApply (wp_move_next_iterator with "Hs"); [done|lia|]. iIntros (it2 [Hit2 Hp2]) "Hs".
    iApply (IH with "Hs HR"); [done|lia|]. rewrite Hp2 Hp. iSplit.
    + iIntros (o3 it3 (Hsz3 & Hit3 & Hp3 & Hloc3)) "Hs HR". iDestruct "HQ" as "[HQ _]".
      iApply ("HQ" with "[%] Hs HR"). split_and!; [lia|done|lia|].
      by apply (L_app _ _ _ _ [x] _ Hloc).
    + iIntros (e o3 k (Hre & Hk & Hloc3)) "Hs HR". iDestruct "HQ" as "[_ HQ]".
      iApply ("HQ" $! e o3 (S k) with "[%] Hs HR"). split_and!; [done|lia|]. by apply (L_app _ _ _ _ [x] _ Hloc).
  - iIntros (Hr) "[Hs HR]". iDestruct "HQ" as "[_ HQ]". iApply ("HQ" $! EUser o 0 with "[%] Hs HR"). split_and!; [done|lia|apply L_nil].
  - iIntros (Hr) "Hs HR". iDestruct "HQ" as "[_ HQ]". iApply ("HQ" $! EAlloc o 0 with "[%] Hs HR"). split_and!; [done|lia|apply L_nil].
Qed.
Lemma wp_range_rel ea na this xs I J X late fuel o it r k n Q E :
  inp_spec xs I J X late → it_ok o it → osize o + (length xs - k) < c_W C → length xs - k < fuel →
  seqp ea na this o -∗ I r k -∗
  ((∀ r' o' it', ⌜osize o' = (osize o + (length xs - k))%nat ∧ it_ok o' it' ∧ i_pos it' = (i_pos it + (length xs - k))%nat ∧
       L (osegs o) (osegs o') (i_pos it) (drop k xs)⌝ →
      seqp ea na this o' -∗ I r' (length xs) -∗ Q (it', (n + (length xs - k))%nat)) ∧
   (∀ e o' j j', ⌜raisable C e ∧ L (osegs o) (osegs o') (i_pos it) (take j (drop k xs))⌝ → seqp ea na this o' -∗ X j' -∗ E e)) -∗
  wp (emplace_range_loop fuel this it r n) Q E.
Proof.
  intros Hinp. revert o it r k n Q E. induction fuel as [|fuel IH]; iIntros (o it r k n Q E Hit HW Hf) "Hs HI HQ"; [lia|].
  cbn [emplace_range_loop]. wp_bind. iApply (inp_end _ _ _ _ _ Hinp with "HI"). iSplit; last first.
  { iIntros ((Hr & Hlate & Hk)) "HX". iDestruct "HQ" as "[_ HQ]". iApply ("HQ" $! EUser o 0 k with "[%] Hs HX"). split; [done|apply L_nil]. }
  iIntros (Hk) "HI".
  destruct (k =? length xs) eqn:Hkx.
  { apply Nat.eqb_eq in Hkx as ->. wp_ret. iDestruct "HQ" as "[HQ _]". rewrite Nat.sub_diag !Nat.add_0_r.
    iApply ("HQ" $! _ o with "[%] Hs HI"). rewrite drop_all. split_and!; [done|done|lia|apply L_nil]. }
  apply Nat.eqb_neq in Hkx. destruct (lookup_lt_is_Some_2 xs k) as [x Hx]; [lia|].
  pose proof (it_ok_le _ _ Hit) as Hle.
  wp_bind. iApply (inp_src _ _ _ _ _ Hinp with "HI"); [done|]. iSplit; last first.
  { iIntros (Hr) "HX". iDestruct "HQ" as "[_ HQ]". iApply ("HQ" $! EUser o 0 k with "[%] Hs HX"). split; [done|apply L_nil]. }
  iIntros (s Hsrc) "HI".
  wp_bind. iApply (wp_one_rel ea na this o it s x (seqp ea na this o ∗ I r k)%I (J r k) with "[Hs HI]");
    [by apply src_spec_frame|done|lia|iFrame|].
  iSplit; [|iSplit].
  - iIntros (o' it' (Hsz & Hit' & Hp & Hloc)) "Hs HJ". wp_bind.
    iApply (inp_next _ _ _ _ _ Hinp with "HJ"); [lia|]. iSplit; last first.
    { iIntros ((Hr & Hlate)) "HX". iDestruct "HQ" as "[_ HQ]".
      iApply ("HQ" $! EUser o' 1 (S k) with "[%] Hs HX"). split; [done|]. by rewrite (drop_S _ _ _ Hx). }
    iIntros (r') "HI". wp_bind.
    iApply (wp_move_next_iterator with "Hs"); [done|lia|]. iIntros (it2 [Hit2 Hp2]) "Hs".
    iApply (IH with "Hs HI"); [done|lia|lia|]. rewrite Hp2 Hp. iSplit.
    + iIntros (r3 o3 it3 (Hsz3 & Hit3 & Hp3 & Hloc3)) "Hs HI". iDestruct "HQ" as "[HQ _]".
      replace (n + 1 + (length xs - S k))%nat with (n + (length xs - k))%nat by lia.
      iApply ("HQ" with "[%] Hs HI"). split_and!; [lia|done|lia|].
      rewrite (drop_S _ _ _ Hx). by apply (L_app _ _ _ _ [x] _ Hloc).
    + iIntros (e o3 j j' [Hre Hloc3]) "Hs HX". iDestruct "HQ" as "[_ HQ]".
      iApply ("HQ" $! e o3 (S j) j' with "[%] Hs HX"). split; [done|]. rewrite (drop_S _ _ _ Hx). by apply (L_app _ _ _ _ [x] _ Hloc).
  - iIntros (Hr) "[Hs HI]". iDestruct "HQ" as "[_ HQ]". iDestruct (inp_I _ _ _ _ _ Hinp with "HI") as "HX".
    iApply ("HQ" $! EUser o 0 k with "[%] Hs HX"). split; [done|apply L_nil].
  - iIntros (Hr) "Hs HJ". iDestruct "HQ" as "[_ HQ]". iDestruct (inp_J _ _ _ _ _ Hinp with "HJ") as "HX".
    iApply ("HQ" $! EAlloc o 0 (S k) with "[%] Hs HX"). split; [done|apply L_nil].
Qed.
End many.
