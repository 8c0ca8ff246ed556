(** * Tree: the shape of a container in memory.
    [tree] is the ghost structure (addresses and contents), [tr] ties it to the
    heap, [ctx] is a tree with a hole.  Proof infrastructure only. *)
From Verif Require Export Prim.
From stdpp Require Import options.
Set Default Proof Using "Type*".

Inductive tree (T : Type) :=
  | Seg (l : loc) (xs : list T)
  | Nd (l : loc) (ts : list (tree T)).
Global Arguments Seg {_} _ _.
Global Arguments Nd {_} _ _.

Definition tloc {T} (t : tree T) : loc := match t with Seg l _ => l | Nd l _ => l end.
Fixpoint elems {T} (t : tree T) : list T :=
  match t with Seg _ xs => xs | Nd _ ts => concat (elems <$> ts) end.
Definition felems {T} (ts : list (tree T)) : list T := concat (elems <$> ts).
Definition tsize {T} (t : tree T) : nat := length (elems t).
Definition fsize {T} (ts : list (tree T)) : nat := length (felems ts).

(** ** Trees with a hole, innermost frame first *)
Notation frame T := (loc * list (tree T) * list (tree T))%type.
Notation ctx T := (list (frame T)).
Fixpoint plug {T} (c : ctx T) (t : tree T) : tree T :=
  match c with [] => t | (l, L, R) :: c => plug c (Nd l (L ++ t :: R)) end.
Definition cparent {T} (c : ctx T) : ptr := match c with [] => None | (l, _, _) :: _ => Some l end.
Definition cindex {T} (c : ctx T) : nat := match c with [] => 0 | (_, L, _) :: _ => length L end.
Fixpoint cl {T} (c : ctx T) : list T :=
  match c with [] => [] | (_, L, _) :: c => cl c ++ felems L end.
Fixpoint cr {T} (c : ctx T) : list T :=
  match c with [] => [] | (_, _, R) :: c => felems R ++ cr c end.

(** the segments in order: their address and elements *)
Fixpoint tsegs {T} (t : tree T) : list (loc * list T) :=
  match t with Seg l xs => [(l, xs)] | Nd _ ts => concat (tsegs <$> ts) end.
Definition fsegs {T} (ts : list (tree T)) : list (loc * list T) := concat (tsegs <$> ts).
Fixpoint csl {T} (c : ctx T) : list (loc * list T) :=
  match c with [] => [] | (_, L, _) :: c => csl c ++ fsegs L end.
Fixpoint csr {T} (c : ctx T) : list (loc * list T) :=
  match c with [] => [] | (_, _, R) :: c => fsegs R ++ csr c end.

Section shape.
Context {T : Type}.
Implicit Types t : tree T.
Implicit Types ts us : list (tree T).
Implicit Types c : ctx T.
(** induction over trees *)
Lemma tree_ind' (P : tree T → Prop) :
  (∀ l xs, P (Seg l xs)) → (∀ l ts, Forall P ts → P (Nd l ts)) → ∀ t, P t.
Proof.
  intros H1 H2. fix IH 1. intros [l xs|l ts]; [apply H1|]. apply H2.
  induction ts as [|t ts IHts]; constructor; [apply IH|apply IHts].
Qed.
Lemma tsegs_Nd l ts : tsegs (Nd l ts) = fsegs ts.
Proof. done. Qed.
Lemma fsegs_app ts us : fsegs (ts ++ us) = fsegs ts ++ fsegs us.
Proof. by rewrite /fsegs fmap_app concat_app. Qed.
Lemma fsegs_cons t ts : fsegs (t :: ts) = tsegs t ++ fsegs ts.
Proof. done. Qed.
Lemma fsegs_nil : fsegs (T:=T) [] = [].
Proof. done. Qed.
Lemma tsegs_plug c t : tsegs (plug c t) = csl c ++ tsegs t ++ csr c.
Proof.
  revert t. induction c as [|[[l L] R] c IH]; intros t; cbn [plug csl csr].
  { by rewrite right_id_L. }
  rewrite IH tsegs_Nd fsegs_app fsegs_cons. by rewrite -!assoc_L.
Qed.
Lemma tsegs_elems t : concat (tsegs t).*2 = elems t.
Proof.
  induction t as [l xs|l ts IH] using tree_ind'; simpl; [by rewrite right_id_L|].
  induction IH as [|t ts Ht _ IHts]; simpl; [done|]. by rewrite fmap_app concat_app Ht IHts.
Qed.
Lemma fsegs_elems ts : concat (fsegs ts).*2 = felems ts.
Proof. apply (tsegs_elems (Nd 1%positive ts)). Qed.
Lemma csl_elems c : concat (csl c).*2 = cl c.
Proof. induction c as [|[[l L] R] c IH]; [done|]. cbn [csl cl]. by rewrite fmap_app concat_app IH fsegs_elems. Qed.
Lemma csr_elems c : concat (csr c).*2 = cr c.
Proof. induction c as [|[[l L] R] c IH]; [done|]. cbn [csr cr]. by rewrite fmap_app concat_app IH fsegs_elems. Qed.
Lemma fst_elems (S1 S2 : list (loc * list T)) : concat (S1 ++ S2).*2 = concat S1.*2 ++ concat S2.*2.
Proof. by rewrite fmap_app concat_app. Qed.
Lemma felems_app ts us : felems (ts ++ us) = felems ts ++ felems us.
Proof. by rewrite /felems fmap_app concat_app. Qed.
Lemma felems_cons t ts : felems (t :: ts) = elems t ++ felems ts.
Proof. done. Qed.
Lemma felems_nil : felems (T:=T) [] = [].
Proof. done. Qed.
Lemma elems_Nd l ts : elems (Nd l ts) = felems ts.
Proof. done. Qed.
Lemma tsize_Nd l ts : tsize (Nd l ts) = fsize ts.
Proof. done. Qed.
Lemma tsize_Seg l xs : tsize (T:=T) (Seg l xs) = length xs.
Proof. done. Qed.
Lemma fsize_app ts us : fsize (ts ++ us) = fsize ts + fsize us.
Proof. by rewrite /fsize felems_app app_length. Qed.
Lemma fsize_cons t ts : fsize (t :: ts) = tsize t + fsize ts.
Proof. by rewrite /fsize felems_cons app_length. Qed.
Lemma fsize_nil : fsize (T:=T) [] = 0.
Proof. done. Qed.

Lemma elems_plug c t : elems (plug c t) = cl c ++ elems t ++ cr c.
Proof.
  revert t. induction c as [|[[l L] R] c IH]; intros t; simpl.
  { by rewrite right_id_L. }
  rewrite IH elems_Nd felems_app felems_cons. by rewrite -!assoc_L.
Qed.
Lemma plug_app c1 c2 t : plug (c1 ++ c2) t = plug c2 (plug c1 t).
Proof. revert t. induction c1 as [|[[l L] R] c1 IH]; intros t; simpl; [done|]. by rewrite IH. Qed.
Lemma cl_app c1 c2 : cl (c1 ++ c2) = cl c2 ++ cl c1.
Proof.
  induction c1 as [|[[l L] R] c1 IH]; simpl; [by rewrite right_id_L|].
  by rewrite IH assoc_L.
Qed.
Lemma cr_app c1 c2 : cr (c1 ++ c2) = cr c1 ++ cr c2.
Proof. induction c1 as [|[[l L] R] c1 IH]; simpl; [done|]. by rewrite IH assoc_L. Qed.

End shape.

Section pure.
Context {T : Type} {C : cfg T}.
Implicit Types t : tree T.
Implicit Types ts us : list (tree T).
Implicit Types c : ctx T.

(** ** Occupancy (C16): [wft h t] for a subtree of height [h], [wfroot] for a root *)
Fixpoint wft (h : nat) (t : tree T) : Prop :=
  match h with
  | 0 => False
  | S h' =>
    match t with
    | Seg _ xs => h' = 0 ∧ segment_min ≤ length xs ≤ segment_max
    | Nd _ ts => 1 ≤ h' ∧ base_min ≤ length ts ≤ base_max ∧ Forall (wft h') ts
    end
  end.
Definition wfroot (h : nat) (t : tree T) : Prop :=
  match h with
  | 0 => False
  | S h' =>
    match t with
    | Seg _ xs => h' = 0 ∧ 1 ≤ length xs ≤ segment_max
    | Nd _ ts => 1 ≤ h' ∧ 2 ≤ length ts ≤ base_max ∧ Forall (wft h') ts
    end
  end.
Fixpoint wfc (h : nat) (c : ctx T) : Prop :=
  match c with
  | [] => 1 ≤ h
  | (l, L, R) :: c' =>
    1 ≤ h ∧ Forall (wft h) (L ++ R) ∧
    (match c' with [] => 2 | _ => base_min end) ≤ length L + S (length R) ≤ base_max ∧
    wfc (S h) c'
  end.
Definition wfh (h : nat) (c : ctx T) (t : tree T) : Prop :=
  match c with [] => wfroot h t | _ => wft h t end.

Lemma segment_max_pos : 1 ≤ segment_max.
Proof. rewrite /segment_max. destruct (1 <? _) eqn:E; [apply Nat.ltb_lt in E|]; lia. Qed.
Lemma base_max_3 : 3 ≤ base_max.
Proof. rewrite /base_max. destruct (3 <? _) eqn:E; [apply Nat.ltb_lt in E|]; lia. Qed.
Lemma half (n : nat) : 2 * ((n + 1) / 2) ≤ n + 1 < 2 * ((n + 1) / 2) + 2.
Proof. pose proof (Nat.div_mod (n+1) 2). pose proof (Nat.mod_upper_bound (n+1) 2). lia. Qed.
Lemma segment_bounds :
  1 ≤ segment_min ∧ 2 * segment_min ≤ segment_max + 1 < 2 * segment_min + 2 ∧
  (segment_max + 1) / 2 = segment_min ∧ 1 ≤ segment_max ∧ segment_min ≤ segment_max.
Proof. pose proof (half segment_max). pose proof segment_max_pos. rewrite /segment_min. lia. Qed.
Lemma base_bounds :
  2 ≤ base_min ∧ 2 * base_min ≤ base_max + 1 < 2 * base_min + 2 ∧
  (base_max + 1) / 2 = base_min ∧ 3 ≤ base_max ∧ base_min < base_max.
Proof. pose proof (half base_max). pose proof base_max_3. rewrite /base_min. lia. Qed.

Lemma wft_height_pos h t : wft h t → 1 ≤ h.
Proof. destruct h; [done|lia]. Qed.
Lemma wfroot_height_pos h t : wfroot h t → 1 ≤ h.
Proof. destruct h; [done|lia]. Qed.
Lemma wft_tsize h t : wft h t → 1 ≤ tsize t.
Proof.
  pose proof segment_bounds. pose proof base_bounds.
  revert t. induction h as [|h IH]; intros t; [done|]. destruct t as [l xs|l ts]; simpl.
  - rewrite tsize_Seg. lia.
  - intros (? & ? & Hts). destruct ts as [|t ts]; [simpl in *; lia|].
    apply Forall_cons in Hts as [Ht _]. rewrite tsize_Nd fsize_cons. specialize (IH t Ht). lia.
Qed.
Lemma wfroot_tsize h t : wfroot h t → 1 ≤ tsize t.
Proof.
  destruct h as [|h]; [done|]. destruct t as [l xs|l ts]; simpl.
  - rewrite tsize_Seg. lia.
  - intros (? & ? & Hts). destruct ts as [|t ts]; [simpl in *; lia|].
    apply Forall_cons in Hts as [Ht%wft_tsize _]. rewrite tsize_Nd fsize_cons. lia.
Qed.
Lemma wft_wfroot h t : wft h t → wfroot h t.
Proof.
  pose proof segment_bounds. pose proof base_bounds.
  destruct h as [|h]; [done|]. destruct t as [l xs|l ts]; simpl; intros; split_and!; naive_solver lia.
Qed.
Lemma wfh_tsize h c t : wfh h c t → 1 ≤ tsize t.
Proof. destruct c; [apply wfroot_tsize|apply wft_tsize]. Qed.

Lemma wfroot_plug h c t : wfroot (length c + h) (plug c t) ↔ wfc h c ∧ wfh h c t.
Proof.
  revert h t. induction c as [|[[l L] R] c IH]; intros h t.
  { simpl. split; [|naive_solver]. intros H. split; [by eapply wfroot_height_pos|done]. }
  cbn [length plug]. replace (S (length c) + h) with (length c + S h) by lia. rewrite IH.
  destruct c as [|f c]; simpl; rewrite !app_length /=.
  - rewrite !Forall_app Forall_cons. intuition lia.
  - rewrite !Forall_app Forall_cons. intuition lia.
Qed.
End pure.

(** ** Memory *)
Section tr.
Context {T : Type} {C : cfg T}.
Context (ea na : nat).   (* the element and node allocators *)
Implicit Types t : tree T.
Implicit Types ts us : list (tree T).
Implicit Types c : ctx T.

Definition entry (t : tree T) : option nat * option loc := (Some (tsize t), Some (tloc t)).

Fixpoint kids (f : nat → tree T → hprop T) (j : nat) (ts : list (tree T)) : hprop T :=
  match ts with [] => emp | t :: ts => f j t ∗ kids f (S j) ts end%I.

Definition segp (l : loc) (xs : list T) : hprop T :=
  (∃ junk, ⟦length xs + length junk = segment_max ∧ Forall clean junk⟧ ∗
    sg ea l ((Some <$> xs) ++ junk))%I.

Fixpoint tr (h : nat) (p : option ptr) (i : option nat) (t : tree T) : hprop T :=
  match h with
  | 0 => False
  | S h' =>
    match t with
    | Seg l xs => ⟦h' = 0⟧ ∗ segp l xs
    | Nd l ts => ∃ junk, ⟦1 ≤ h' ∧ length ts + length junk = base_max⟧ ∗
        nd na l p i (Some (length ts)) ((entry <$> ts) ++ junk) ∗
        kids (λ j t, tr h' (Some (Some l)) (Some j) t) 0 ts
    end
  end%I.
Definition kidst (h : nat) (l : loc) : nat → list (tree T) → hprop T :=
  kids (λ j t, tr h (Some (Some l)) (Some j) t).

Fixpoint ctxp (h : nat) (c : ctx T) (lh : loc) (sz : nat) : hprop T :=
  match c with
  | [] => emp
  | (l, L, R) :: c' =>
    ∃ junk, ⟦1 ≤ h ∧ length L + S (length R) + length junk = base_max⟧ ∗
      nd na l (Some (cparent c')) (Some (cindex c')) (Some (length L + S (length R)))
         ((entry <$> L) ++ (Some sz, Some lh) :: (entry <$> R) ++ junk) ∗
      kidst h l 0 L ∗ kidst h l (S (length L)) R ∗
      ctxp (S h) c' l (fsize L + sz + fsize R)
  end%I.

Lemma kids_app f j ts us : kids f j (ts ++ us) ⊣⊢ kids f j ts ∗ kids f (j + length ts) us.
Proof.
  revert j. induction ts as [|t ts IH]; intros j; simpl.
  { by rewrite left_id Nat.add_0_r. }
  rewrite IH -assoc. by replace (S j + length ts) with (j + S (length ts)) by lia.
Qed.
Lemma kidst_app h l j ts us : kidst h l j (ts ++ us) ⊣⊢ kidst h l j ts ∗ kidst h l (j + length ts) us.
Proof. apply kids_app. Qed.
Lemma kidst_cons h l j t ts :
  kidst h l j (t :: ts) ⊣⊢ tr h (Some (Some l)) (Some j) t ∗ kidst h l (S j) ts.
Proof. done. Qed.
Lemma kidst_nil h l j : kidst h l j [] ⊣⊢ emp.
Proof. done. Qed.

Lemma tr_Seg h p i l xs : tr (S h) p i (Seg l xs) ⊣⊢ ⟦h = 0⟧ ∗ segp l xs.
Proof. done. Qed.
Lemma tr_Nd h p i l ts :
  tr (S h) p i (Nd l ts) ⊣⊢ ∃ junk, ⟦1 ≤ h ∧ length ts + length junk = base_max⟧ ∗
        nd na l p i (Some (length ts)) ((entry <$> ts) ++ junk) ∗ kidst h l 0 ts.
Proof. done. Qed.
Lemma tr_0 p i t : tr 0 p i t ⊢ False.
Proof. done. Qed.
Lemma tr_height h p i t : tr h p i t ⊢ ⌜1 ≤ h⌝.
Proof. destruct h; simpl; [by iIntros "[]"|]. iIntros "_". iPureIntro. lia. Qed.
(** height-1 trees are segments and have no parent fields *)
Lemma tr_1 p i p' i' t : tr 1 p i t ⊢ tr 1 p' i' t.
Proof.
  destruct t as [l xs|l ts]; simpl; [done|].
  iIntros "(%junk & [%Hj %] & _H)". lia.
Qed.

Lemma tr_plug h c t :
  1 ≤ h →
  tr (length c + h) (Some None) (Some 0) (plug c t) ⊣⊢
  tr h (Some (cparent c)) (Some (cindex c)) t ∗ ctxp h c (tloc t) (tsize t).
Proof.
  revert h t. induction c as [|[[l L] R] c IH]; intros h t Hh.
  { simpl. by rewrite right_id. }
  cbn [length plug cparent cindex ctxp]. replace (S (length c) + h) with (length c + S h) by lia.
  rewrite IH; [|lia]. rewrite tr_Nd. rewrite tsize_Nd fsize_app fsize_cons.
  iSplit.
  - iIntros "[H Hc]". iDestruct "H" as (junk [_ Hl]) "[Hn Hk]".
    rewrite kidst_app kidst_cons. iDestruct "Hk" as "(HL & Ht & HR)". simpl. iFrame "Ht".
    rewrite app_length /= in Hl.
    rewrite app_length fmap_app /= -assoc_L.
    iExists junk. iFrame. iSplitR; [iPureIntro; lia|].
    by rewrite Nat.add_assoc.
  - iIntros "(Ht & H)". iDestruct "H" as (junk [_ Hl]) "(Hn & HL & HR & Hc)".
    rewrite Nat.add_assoc. iFrame "Hc". iExists junk.
    rewrite kidst_app kidst_cons. simpl. iFrame.
    rewrite app_length fmap_app /= -assoc_L. iFrame "Hn".
    iPureIntro. lia.
Qed.

(** owned block counts, for loop fuel *)
Lemma szge_S_l k (P Q : hprop T) : (P ⊢ szge 1) → (Q ⊢ szge k) → P ∗ Q ⊢ szge (S k).
Proof. intros -> ->. rewrite szge_sep. done. Qed.
Lemma ctxp_szge h c lh sz : ctxp h c lh sz ⊢ szge (length c).
Proof.
  revert h lh sz. induction c as [|[[l L] R] c IH]; intros h lh sz; simpl; [apply szge_0|].
  iIntros "H". iDestruct "H" as (junk _) "(Hn & _ & _ & Hc)".
  iApply szge_S_l; [apply szge_pointsto|apply IH|].
  rewrite /nd. iSplitL "Hn"; iFrame.
Qed.
End tr.
Global Arguments tr : simpl never.
Global Arguments kidst : simpl never.
