(** * Walk: stepping an iterator is cheap on average.  Proof infrastructure
    (the statements are in PropsTime.v).

    A step forward climbs as long as the entry it stands at is the last of its node.
    [closes t p] counts the nodes of [t] whose last element is number [p]: that is how
    far the step from [p] climbs.  [lasts t p] counts the nodes above [p] in which the
    entry leading to [p] is the last one: what later steps may have to climb. *)
From Verif Require Export Effort.
From stdpp Require Import options.
Set Default Proof Using "Type*".

Lemma tree_ind2 {T} (P : tree T → Prop) :
  (∀ l xs, P (Seg l xs)) → (∀ l ts, Forall P ts → P (Nd l ts)) → ∀ t, P t.
Proof.
  intros H1 H2. fix IH 1. intros [l xs|l ts]; [apply H1|]. apply H2.
  induction ts as [|t ts IHts]; constructor; [apply IH|apply IHts].
Qed.
(** the tree among [ts] that contains element [p], with those after it *)
Definition at_child {T A} (d : A) (f : tree T → list (tree T) → nat → A) : list (tree T) → nat → A :=
  fix go ts p := match ts with [] => d | t :: ts => if p <? tsize t then f t ts p else go ts (p - tsize t) end.
Definition flag (b : bool) : nat := if b then 1 else 0.
Definition first_size {T} (ts : list (tree T)) : nat := match ts with [] => 0 | t :: _ => tsize t end.
Fixpoint closes {T} (t : tree T) (p : nat) : nat :=
  match t with
  | Seg _ _ => 0
  | Nd _ ts => flag (S p =? tsize t) + at_child 0 (λ t _ p, closes t p) ts p
  end.
Fixpoint lasts {T} (t : tree T) (p : nat) : nat :=
  match t with
  | Seg _ _ => 0
  | Nd _ ts => at_child 0 (λ t rest p, flag (match rest with [] => true | _ => false end) + lasts t p) ts p
  end.
Fixpoint opens {T} (t : tree T) (p : nat) : nat :=
  match t with
  | Seg _ _ => 0
  | Nd _ ts => flag (p =? 0) + at_child 0 (λ t _ p, opens t p) ts p
  end.
Fixpoint firsts {T} (t : tree T) (p : nat) : nat :=
  match t with
  | Seg _ _ => 0
  | Nd _ ts => flag (p <? first_size ts) + at_child 0 (λ t _ p, firsts t p) ts p
  end.

Section pure.
Context {T : Type}.
Implicit Types t : tree T.
Implicit Types ts : list (tree T).

Lemma at_child_mid {A} (d : A) f ts x B p q :
  p = fsize ts + q → q < tsize x → at_child d f (ts ++ x :: B) p = f x B q.
Proof.
  intros -> Hq. induction ts as [|t ts IH]; simpl.
  { by rewrite (proj2 (Nat.ltb_lt _ _)). }
  rewrite fsize_cons. rewrite (proj2 (Nat.ltb_ge _ _)); [|lia].
  replace (tsize t + fsize ts + q - tsize t) with (fsize ts + q) by lia. done.
Qed.
Lemma find_child ts p : p < fsize ts → ∃ A x B q, ts = A ++ x :: B ∧ p = fsize A + q ∧ q < tsize x.
Proof.
  revert p. induction ts as [|t ts IH]; intros p; [rewrite fsize_nil; lia|]. rewrite fsize_cons. intros Hp.
  destruct (decide (p < tsize t)); [by exists [], t, ts, p|].
  destruct (IH (p - tsize t)) as (A & x & B & q & -> & Hpq & Hq); [lia|].
  exists (t :: A), x, B, q. rewrite fsize_cons. split_and!; [done|lia|done].
Qed.
(** every node has two entries at least, and every tree an element *)
Fixpoint dense t : Prop :=
  match t with Seg _ xs => 1 ≤ length xs | Nd _ ts => 2 ≤ length ts ∧ foldr (λ t P, dense t ∧ P) True ts end.
Lemma dense_Nd l ts : dense (Nd l ts) ↔ 2 ≤ length ts ∧ Forall dense ts.
Proof.
  simpl. f_equiv. induction ts as [|t ts IH]; simpl; [by split|]. by rewrite IH Forall_cons.
Qed.
Lemma dense_size t : dense t → 1 ≤ tsize t.
Proof.
  induction t as [l xs|l ts IH] using tree_ind2; [by rewrite tsize_Seg|]. intros [Hl Hd]%dense_Nd.
  destruct ts as [|t ts]; [simpl in Hl; lia|]. inversion IH as [|?? H1 H2]; subst. inversion Hd as [|?? D1 D2]; subst.
  rewrite tsize_Nd fsize_cons. specialize (H1 D1). lia.
Qed.
Lemma fsize_pos ts : Forall dense ts → ts ≠ [] → 1 ≤ fsize ts.
Proof. intros Hd Hne. destruct ts as [|t ts]; [done|]. inversion Hd as [|?? D1 D2]; subst. rewrite fsize_cons. pose proof (dense_size t D1). lia. Qed.

Lemma lasts_mid l (A : list (tree T)) x B p q : p = fsize A + q → q < tsize x →
  lasts (Nd l (A ++ x :: B)) p = flag (match B with [] => true | _ => false end) + lasts x q.
Proof. intros. cbn [lasts]. by erewrite at_child_mid. Qed.
Lemma closes_mid l (A : list (tree T)) x B p q : p = fsize A + q → q < tsize x →
  closes (Nd l (A ++ x :: B)) p = flag (S q =? tsize x + fsize B) + closes x q.
Proof.
  intros -> Hq. cbn [closes]. erewrite at_child_mid; [|done|done]. do 2 f_equal. rewrite tsize_Nd fsize_app fsize_cons.
  destruct (S q =? _) eqn:E; [apply Nat.eqb_eq in E; apply Nat.eqb_eq; lia|apply Nat.eqb_neq in E; apply Nat.eqb_neq; lia].
Qed.
Lemma firsts_mid l (A : list (tree T)) x B p q : Forall dense A → p = fsize A + q → q < tsize x →
  firsts (Nd l (A ++ x :: B)) p = flag (match A with [] => true | _ => false end) + firsts x q.
Proof.
  intros Hd Hp Hq. cbn [firsts]. erewrite at_child_mid; [|done|done]. do 2 f_equal. destruct A as [|t A]; simpl.
  - rewrite fsize_nil in Hp. apply Nat.ltb_lt. lia.
  - rewrite fsize_cons in Hp. apply Nat.ltb_ge. lia.
Qed.
Lemma opens_mid l (A : list (tree T)) x B p q : p = fsize A + q → q < tsize x →
  opens (Nd l (A ++ x :: B)) p = flag (p =? 0) + opens x q.
Proof. intros -> Hq. cbn [opens]. by erewrite at_child_mid. Qed.

Ltac node t := induction t as [l xs|l ts IH] using tree_ind2; [done|]; let Hl := fresh "Hl" in let Hd := fresh "Hd" in intros [Hl Hd]%dense_Nd.
Lemma Forall_mid {A} (P : A → Prop) xs x ys : Forall P (xs ++ x :: ys) → Forall P xs ∧ P x ∧ Forall P ys.
Proof. by rewrite Forall_app Forall_cons. Qed.
Lemma lasts_0 t : dense t → lasts t 0 = 0.
Proof.
  node t. destruct ts as [|t [|t' ts]]; simpl in Hl; try lia.
  apply (Forall_mid _ []) in IH as (_ & H1 & _). apply (Forall_mid _ []) in Hd as (_ & D1 & _).
  rewrite (lasts_mid l [] t (t' :: ts) 0 0); [by rewrite H1|done|]. pose proof (dense_size t D1). lia.
Qed.
Lemma last_child ts : ts ≠ [] → ∃ A x, ts = A ++ [x].
Proof. intros H. destruct (exists_last H) as (A & x & ->). by exists A, x. Qed.
Lemma closes_last t : dense t → closes t (tsize t - 1) = lasts t (tsize t - 1).
Proof.
  node t. destruct (last_child ts) as (A & x & ->); [intros ->; simpl in Hl; lia|].
  apply Forall_mid in IH as (_ & H1 & _). apply Forall_mid in Hd as (_ & D1 & _). pose proof (dense_size x D1).
  rewrite tsize_Nd fsize_app fsize_cons fsize_nil.
  rewrite (closes_mid _ A x [] _ (tsize x - 1)); [|lia|lia]. rewrite (lasts_mid _ A x [] _ (tsize x - 1)); [|lia|lia].
  rewrite H1 // fsize_nil. f_equal. rewrite (proj2 (Nat.eqb_eq _ _)); [done|lia].
Qed.
Lemma firsts_last t : dense t → firsts t (tsize t - 1) = 0.
Proof.
  node t. destruct (last_child ts) as (A & x & ->); [intros ->; simpl in Hl; lia|].
  apply Forall_mid in IH as (_ & H1 & _). apply Forall_mid in Hd as (DA & D1 & _). pose proof (dense_size x D1).
  rewrite app_length /= in Hl. rewrite tsize_Nd fsize_app fsize_cons fsize_nil.
  rewrite (firsts_mid _ A x [] _ (tsize x - 1)); [|done|lia|lia]. rewrite H1 //. destruct A; [simpl in Hl; lia|done].
Qed.
Lemma opens_0 t : dense t → opens t 0 = firsts t 0.
Proof.
  node t. destruct ts as [|t ts]; simpl in Hl; try lia.
  apply (Forall_mid _ []) in IH as (_ & H1 & _). apply (Forall_mid _ []) in Hd as (_ & D1 & _). pose proof (dense_size t D1).
  rewrite (opens_mid l [] t ts 0 0); [|done|lia]. rewrite (firsts_mid l [] t ts 0 0); [|constructor|done|lia]. by rewrite H1.
Qed.
Theorem closes_amort t p : dense t → S p < tsize t → closes t p + lasts t (S p) ≤ lasts t p + 1.
Proof.
  revert p. induction t as [l xs|l ts IH] using tree_ind2; [simpl; lia|]. intros p [Hl Hd]%dense_Nd Hp. rewrite tsize_Nd in Hp.
  destruct (find_child ts p) as (A & x & B & q & -> & Hpq & Hq); [lia|].
  apply Forall_mid in IH as (_ & H1 & _). apply Forall_mid in Hd as (DA & D1 & DB).
  rewrite fsize_app fsize_cons in Hp. rewrite (closes_mid _ A x B p q) //. rewrite (lasts_mid _ A x B p q) //.
  rewrite (proj2 (Nat.eqb_neq _ _)); [|lia]. cbn [flag]. destruct (decide (S q < tsize x)) as [Hlt|Hge].
  - rewrite (lasts_mid _ A x B (S p) (S q)); [|lia|done]. specialize (H1 q D1 Hlt). lia.
  - destruct B as [|y B]; [rewrite fsize_nil in Hp; lia|]. apply Forall_cons in DB as [Dy DB]. pose proof (dense_size y Dy).
    replace (A ++ x :: y :: B) with ((A ++ [x]) ++ y :: B) by by rewrite -app_assoc.
    rewrite (lasts_mid _ (A ++ [x]) y B (S p) 0); [|rewrite fsize_app fsize_cons fsize_nil; lia|lia]. rewrite lasts_0 //.
    pose proof (closes_last x D1) as Hc. replace (tsize x - 1) with q in Hc by lia. rewrite Hc. destruct B; simpl; lia.
Qed.
Theorem opens_amort t p : dense t → S p < tsize t → opens t (S p) + firsts t p ≤ firsts t (S p) + 1.
Proof.
  revert p. induction t as [l xs|l ts IH] using tree_ind2; [simpl; lia|]. intros p [Hl Hd]%dense_Nd Hp. rewrite tsize_Nd in Hp.
  destruct (find_child ts p) as (A & x & B & q & -> & Hpq & Hq); [lia|].
  apply Forall_mid in IH as (_ & H1 & _). apply Forall_mid in Hd as (DA & D1 & DB).
  rewrite fsize_app fsize_cons in Hp. rewrite (firsts_mid _ A x B p q) //.
  destruct (decide (S q < tsize x)) as [Hlt|Hge].
  - rewrite (firsts_mid _ A x B (S p) (S q)) //; [|lia]. rewrite (opens_mid _ A x B (S p) (S q)) //; [|lia]. cbn [Nat.eqb flag].
    specialize (H1 q D1 Hlt). lia.
  - destruct B as [|y B]; [rewrite fsize_nil in Hp; lia|]. apply Forall_cons in DB as [Dy DB]. pose proof (dense_size y Dy).
    replace (A ++ x :: y :: B) with ((A ++ [x]) ++ y :: B) by by rewrite -app_assoc.
    assert (S p = fsize (A ++ [x]) + 0) as Hsp by (rewrite fsize_app fsize_cons fsize_nil; lia).
    rewrite (firsts_mid _ (A ++ [x]) y B (S p) 0); [|apply Forall_app; split; [done|by constructor]|done|lia].
    rewrite (opens_mid _ (A ++ [x]) y B (S p) 0); [|done|lia]. rewrite opens_0 //. cbn [Nat.eqb].
    pose proof (firsts_last x D1) as Hc. replace (tsize x - 1) with q in Hc by lia. rewrite Hc. destruct A; simpl; lia.
Qed.

(** where an iterator stands *)
Fixpoint run_last (c : ctx T) : nat := match c with (_, _, []) :: c => S (run_last c) | _ => 0 end.
Fixpoint run_first (c : ctx T) : nat := match c with (_, [], _) :: c => S (run_first c) | _ => 0 end.
Lemma run_last_closes c x q : q < tsize x →
  closes x q + flag (S q =? tsize x) * run_last c ≤ closes (plug c x) (length (cl c) + q).
Proof.
  revert x q. induction c as [|[[l A] B] c IH]; intros x q Hq; cbn [plug cl run_last]; [simpl; lia|].
  assert (fsize A + q < tsize (Nd l (A ++ x :: B))) as Hlt by (rewrite tsize_Nd fsize_app fsize_cons; lia).
  rewrite app_length. specialize (IH _ _ Hlt). rewrite Nat.add_assoc in IH. etrans; [|exact IH].
  rewrite (closes_mid _ A x B _ q) //. rewrite tsize_Nd fsize_app fsize_cons. destruct (S q =? tsize x) eqn:E; [|simpl; lia].
  apply Nat.eqb_eq in E. destruct B as [|y B]; [|simpl; lia]. rewrite fsize_nil.
  rewrite (proj2 (Nat.eqb_eq (S q) _)); [|lia]. rewrite (proj2 (Nat.eqb_eq _ _)); [simpl; lia|lia].
Qed.
Lemma run_first_opens c x q : q < tsize x →
  opens x q + flag (q =? 0) * run_first c ≤ opens (plug c x) (length (cl c) + q).
Proof.
  revert x q. induction c as [|[[l A] B] c IH]; intros x q Hq; cbn [plug cl run_first]; [simpl; lia|].
  assert (fsize A + q < tsize (Nd l (A ++ x :: B))) as Hlt by (rewrite tsize_Nd fsize_app fsize_cons; lia).
  rewrite app_length. specialize (IH _ _ Hlt). rewrite Nat.add_assoc in IH. etrans; [|exact IH].
  rewrite (opens_mid _ A x B _ q) //. destruct (q =? 0) eqn:E; [|simpl; lia].
  apply Nat.eqb_eq in E. destruct A as [|y A]; [|simpl; lia]. rewrite fsize_nil. subst q. simpl. lia.
Qed.
Lemma run_first_0 c : run_first c ≤ length c.
Proof. induction c as [|[[l [|]] B] c IH]; simpl; lia. Qed.
End pure.

(** ** Shape *)
Section shape.
Context {T : Type}.
Implicit Types t : tree T.
Lemma at_child_shape {A} (d : A) (f : tree T → list (tree T) → nat → A) g ts p :
  Forall (λ t, ∀ rest q, f t rest q = g (shape t) (shape <$> rest) q) ts →
  at_child d f ts p = at_child d g (shape <$> ts) p.
Proof.
  revert p. induction ts as [|t ts IH]; intros p H; [done|]. apply Forall_cons in H as [H1 H2].
  cbn [at_child fmap list_fmap]. rewrite -shape_tsize. destruct (_ <? _); [by apply H1|by apply IH].
Qed.
Lemma closes_shape t p : closes t p = closes (shape t) p.
Proof.
  revert p. induction t as [l xs|l ts IH] using tree_ind2; intros p; [done|]. pose proof (shape_tsize (Nd l ts)) as Hs. cbn [closes shape] in *. rewrite Hs. f_equal.
  apply at_child_shape. eapply Forall_impl; [exact IH|]. intros t H rest q. apply H.
Qed.
Lemma lasts_shape t p : lasts t p = lasts (shape t) p.
Proof.
  revert p. induction t as [l xs|l ts IH] using tree_ind2; intros p; [done|]. cbn [lasts shape].
  apply at_child_shape. eapply Forall_impl; [exact IH|]. intros t H rest q. rewrite H. by destruct rest.
Qed.
Lemma opens_shape t p : opens t p = opens (shape t) p.
Proof.
  revert p. induction t as [l xs|l ts IH] using tree_ind2; intros p; [done|]. cbn [opens shape] in *. f_equal.
  apply at_child_shape. eapply Forall_impl; [exact IH|]. intros t H rest q. apply H.
Qed.
Lemma firsts_shape t p : firsts t p = firsts (shape t) p.
Proof.
  revert p. induction t as [l xs|l ts IH] using tree_ind2; intros p; [done|]. cbn [firsts shape] in *. f_equal.
  - destruct ts as [|t ts]; [done|]. simpl. by rewrite -shape_tsize.
  - apply at_child_shape. eapply Forall_impl; [exact IH|]. intros t H rest q. apply H.
Qed.
End shape.

(** ** Memory *)
Section walk.
Context {T : Type} {C : cfg T} {OK : cfg_ok C}.
Implicit Types h : heap T.
Implicit Types c : ctx T.
Implicit Types t : tree T.
Implicit Types o : option (tree T).
Implicit Types it : iterator_data.

Lemma wft_dense n t : wft (C:=C) n t → dense t.
Proof.
  pose proof segment_bounds as Hsb. pose proof base_bounds as Hbb.
  revert t. induction n as [|n IH]; intros t; [done|]. destruct t as [l xs|l ts]; cbn [wft].
  - intros [_ H]. simpl. lia.
  - intros (_ & H1 & H2). apply dense_Nd. split; [lia|]. eapply Forall_impl; [exact H2|]. apply IH.
Qed.
Lemma wfroot_dense n t : wfroot (C:=C) n t → dense t.
Proof.
  destruct n as [|n]; [done|]. destruct t as [l xs|l ts]; cbn [wfroot].
  - intros [_ H]. simpl. lia.
  - intros (_ & H1 & H2). apply dense_Nd. split; [lia|]. eapply Forall_impl; [exact H2|]. apply wft_dense.
Qed.
Lemma at_child_le (f : tree T → list (tree T) → nat → nat) ts p n :
  Forall (λ t, ∀ rest q, f t rest q ≤ n) ts → at_child 0 f ts p ≤ n.
Proof.
  revert p. induction ts as [|t ts IH]; intros p H; [simpl; lia|]. apply Forall_cons in H as [H1 H2].
  cbn [at_child]. destruct (_ <? _); [by apply H1|by apply IH].
Qed.
Lemma lasts_wft n t p : wft (C:=C) n t → lasts t p < n.
Proof.
  revert t p. induction n as [|n IH]; intros t p; [done|]. destruct t as [l xs|l ts]; cbn [wft lasts]; [lia|].
  intros (_ & _ & H2). apply Nat.lt_succ_r. apply at_child_le. eapply Forall_impl; [exact H2|]. intros t Ht rest q.
  pose proof (IH t q Ht). destruct rest; simpl; lia.
Qed.
Lemma lasts_wfroot n t p : wfroot (C:=C) n t → lasts t p < n.
Proof.
  destruct n as [|n]; [done|]. destruct t as [l xs|l ts]; cbn [wfroot lasts]; [lia|].
  intros (_ & _ & H2). apply Nat.lt_succ_r. apply at_child_le. eapply Forall_impl; [exact H2|]. intros t Ht rest q.
  pose proof (lasts_wft n t q Ht). destruct rest; simpl; lia.
Qed.
Lemma firsts_wft n t p : wft (C:=C) n t → firsts t p < n.
Proof.
  revert t p. induction n as [|n IH]; intros t p; [done|]. destruct t as [l xs|l ts]; cbn [wft firsts]; [lia|].
  intros (H1 & _ & H2). enough (at_child 0 (λ t _ p, firsts t p) ts p ≤ n - 1). { destruct (_ <? _); simpl; lia. }
  apply at_child_le. eapply Forall_impl; [exact H2|]. intros t Ht rest q. pose proof (IH t q Ht). lia.
Qed.
Lemma firsts_wfroot n t p : wfroot (C:=C) n t → firsts t p < n.
Proof.
  destruct n as [|n]; [done|]. destruct t as [l xs|l ts]; cbn [wfroot firsts]; [lia|].
  intros (H1 & _ & H2). enough (at_child 0 (λ t _ p, firsts t p) ts p ≤ n - 1). { destruct (_ <? _); simpl; lia. }
  apply at_child_le. eapply Forall_impl; [exact H2|]. intros t Ht rest q. pose proof (firsts_wft n t q Ht). lia.
Qed.

(** the nodes above an iterator *)
Fixpoint framed h (p : ptr) (i : nat) c : Prop :=
  match c with
  | [] => True
  | (l, A, B) :: c =>
      (∃ al ss ps, h !! l = Some (ONode al (Node (Some (match c with [] => p | _ => cparent c end))
         (Some (match c with [] => i | _ => cindex c end)) (Some (length A + S (length B))) ss ps))) ∧ framed h p i c
  end.
Lemma framed_snoc h p i c l A B :
  (∃ al ss ps, h !! l = Some (ONode al (Node (Some p) (Some i) (Some (length A + S (length B))) ss ps))) →
  framed h (Some l) (length A) c → framed h p i (c ++ [(l, A, B)]).
Proof.
  intros Hl. induction c as [|[[k A'] B'] c IH]; cbn [framed app]; [done|]. intros [Hk Hc]. split; [|by apply IH].
  destruct c as [|[[k2 A2] B2] c]; done.
Qed.
Lemma stored_framed a n h p i c l xs :
  stored (C:=C) a a h n (Some p) (Some i) (plug c (Seg l xs)) → framed h p i c.
Proof.
  revert n p i. induction c as [|[[k A] B] c IH] using rev_ind; intros n p i Hs; [done|].
  rewrite plug_app in Hs. cbn [plug] in Hs. destruct n as [|n]; [done|]. cbn [stored] in Hs.
  destruct Hs as (_ & (junk & _ & Hk) & Hkids). apply framed_snoc.
  { rewrite app_length /= in Hk. by eexists _, _, _. }
  eapply IH. apply Hkids. by apply list_lookup_middle.
Qed.

(** reading the fields of a node one knows *)
Lemma look_len h l al nd n : h !! l = Some (ONode al nd) → n_len nd = Some n → look h 1 (length_of (Some l)) (λ m, m = n).
Proof. intros Hl Hp st Hs. rewrite /length_of /load_node /load /mbind /M_bind Hs Hl /= Hp /=. split_and!; [done|lia|done]. Qed.
Lemma look_pidx h l al nd n : h !! l = Some (ONode al nd) → n_pidx nd = Some n → look h 1 (parent_index (Some l)) (λ m, m = n).
Proof. intros Hl Hp st Hs. rewrite /parent_index /load_node /load /mbind /M_bind Hs Hl /= Hp /=. split_and!; [done|lia|done]. Qed.
Ltac step H := eapply look_bind; [apply H|intros ? _].
Lemma look_first_leaf h p : look h 2 (find_first_leaf p) tt_.
Proof. eapply look_le; [step look_pointers; step look_sizes; by apply (look_ret _ 0)|]. lia. Qed.
Lemma look_first_branch h p ht : look h (ht + 2) (find_first_branch p ht) tt_.
Proof.
  revert p. induction ht as [|ht IH]; intros p; cbn [find_first_branch]; [apply look_fail|].
  eapply look_le; [step look_pointers; apply (look_if _ (ht + 2))|lia].
  - eapply look_le; [apply look_first_leaf|lia].
  - apply IH.
Qed.
Lemma look_first_node h p ht : look h (ht + 2) (find_first_node p ht) tt_.
Proof. rewrite /find_first_node. apply look_if; [|apply look_first_branch]. eapply look_le; [apply look_first_leaf|lia]. Qed.
Lemma look_last_leaf h p : look h 3 (find_last_leaf p) tt_.
Proof. eapply look_le; [step look_length_of; step look_pointers; step look_sizes; by apply (look_ret _ 0)|]. lia. Qed.
Lemma look_last_branch h p ht : look h (2 * ht + 3) (find_last_branch p ht) tt_.
Proof.
  revert p. induction ht as [|ht IH]; intros p; cbn [find_last_branch]; [apply look_fail|].
  eapply look_le; [step look_length_of; step look_pointers; apply (look_if _ (2 * ht + 3))|lia].
  - eapply look_le; [apply look_last_leaf|lia].
  - apply IH.
Qed.
Lemma look_last_node h p ht : look h (2 * ht + 3) (find_last_node p ht) tt_.
Proof. rewrite /find_last_node. apply look_if; [|apply look_last_branch]. eapply look_le; [apply look_last_leaf|lia]. Qed.

Lemma parent_of c : match c with [] => None | _ => cparent c end = cparent c. Proof. by destruct c. Qed.
Lemma index_of_ c : match c with [] => 0 | _ => cindex c end = cindex c. Proof. by destruct c. Qed.
Lemma walk_next_loop h n e c ch :
  framed h None 0 c → look h (4 * run_last c + ch + 4) (move_next_branch_loop n e (cparent c) (cindex c) ch) tt_.
Proof.
  revert n ch. induction c as [|[[l A] B] c IH]; intros n ch Hf; (destruct n as [|n]; [apply look_fail|]); cbn [move_next_branch_loop cparent cindex]; [by apply look_ret|].
  destruct Hf as [(al & ss & ps & Hl) Hf]. rewrite parent_of index_of_ in Hl.
  eapply look_le; [eapply look_bind; [by eapply look_len|intros ? ->]|]; cycle 1.
  - instantiate (1 := 4 * run_last ((l, A, B) :: c) + ch + 3). lia.
  - destruct B as [|b B].
    + rewrite /= Nat.eqb_refl. cbn [negb]. eapply look_le;
        [eapply look_bind; [by eapply look_pidx|intros ? ->]; eapply look_bind; [by eapply look_parent_pointer|intros ? ->]; by apply IH|]. simpl. lia.
    + rewrite (proj2 (Nat.eqb_neq _ _)); [|simpl; lia]. cbn [negb]. eapply look_le; [step look_pointers; apply look_first_node|]. lia.
Qed.
Lemma walk_prev_loop h n c ch :
  framed h None 0 c → look h (4 * run_first c + 2 * ch + 4) (move_prev_branch_loop n (cparent c) (cindex c) ch) tt_.
Proof.
  revert n ch. induction c as [|[[l A] B] c IH]; intros n ch Hf; (destruct n as [|n]; [apply look_fail|]); cbn [move_prev_branch_loop cparent cindex].
  { by intros st Hs. }
  destruct Hf as [(al & ss & ps & Hl) Hf]. rewrite parent_of index_of_ in Hl. destruct A as [|x A].
  - simpl. eapply look_le; [eapply look_bind; [by eapply look_pidx|intros ? ->]; eapply look_bind; [by eapply look_parent_pointer|intros ? ->]; by apply IH|]. lia.
  - cbn [length Nat.eqb negb]. eapply look_le; [step look_pointers; apply look_last_node|]. simpl. lia.
Qed.
Lemma walk_next h it c :
  framed h None 0 c → e_leaf (i_entry it) = LeafEntry (cparent c) (cindex c) →
  look h (flag (S (sg_idx (e_seg (i_entry it))) =? sg_len (e_seg (i_entry it))) * (9 + 4 * run_last c)) (move_next_iterator it) tt_.
Proof.
  intros Hf Hle. apply look_then. rewrite /move_next_segment Nat.add_1_r. destruct (S _ =? _) eqn:E; cbn [negb flag]; [|by apply look_ret].
  rewrite Nat.mul_1_l /move_next_leaf Hle. cbn [lf_ptr lf_idx]. destruct c as [|[[k A] B] c]; cbn [cparent cindex]; [by apply look_ret|].
  destruct Hf as [(al & ss & ps & Hl) Hf]. rewrite parent_of index_of_ in Hl.
  eapply look_le; [eapply look_bind; [by eapply look_len|intros ? ->]|]; cycle 1.
  - instantiate (1 := 4 * run_last ((k, A, B) :: c) + 8). lia.
  - destruct B as [|b B].
    + rewrite /= Nat.eqb_refl. cbn [negb]. eapply look_le;
        [eapply look_bind; [by eapply look_parent_pointer|intros ? ->]; eapply look_bind; [by eapply look_pidx|intros ? ->]; apply look_fuel; intros; by apply walk_next_loop|]. simpl. lia.
    + rewrite (proj2 (Nat.eqb_neq _ _)); [|simpl; lia]. cbn [negb]. eapply look_le; [step look_pointers; step look_sizes; by apply (look_ret _ 0)|]. lia.
Qed.
Lemma walk_prev h it c :
  framed h None 0 c → e_leaf (i_entry it) = LeafEntry (cparent c) (cindex c) →
  look h (flag (sg_idx (e_seg (i_entry it)) =? 0) * (10 + 4 * run_first c)) (move_prev_iterator it) tt_.
Proof.
  intros Hf Hle. apply look_then. rewrite /move_prev_segment. destruct (_ =? 0) eqn:E; cbn [negb flag]; [|by apply look_ret].
  rewrite Nat.mul_1_l /move_prev_leaf Hle. cbn [lf_ptr lf_idx]. destruct c as [|[[k A] B] c]; cbn [cparent cindex]; [by intros st Hs|].
  destruct Hf as [(al & ss & ps & Hl) Hf]. rewrite parent_of index_of_ in Hl. destruct A as [|x A].
  - simpl. eapply look_le; [eapply look_bind; [by eapply look_parent_pointer|intros ? ->]; eapply look_bind; [by eapply look_pidx|intros ? ->]; apply look_fuel; intros; by apply walk_prev_loop|]. lia.
  - cbn [length Nat.eqb negb]. eapply look_le; [step look_pointers; step look_sizes; by apply (look_ret _ 0)|]. simpl. lia.
Qed.

(** what is left of the credits of a walk forward (backward) at position [p] *)
Definition fpot o (p : nat) : nat := match o with Some t => if p <? tsize t then lasts t p else 0 | None => 0 end.
Definition bpot o (p : nat) : nat := match o with Some t => if p <? tsize t then firsts t p else 0 | None => 0 end.
Lemma fpot_shape o o' p : oshape o = oshape o' → fpot o p = fpot o' p.
Proof.
  destruct o as [t|], o' as [u|]; simpl; try done. intros [= H]. by rewrite (lasts_shape t) (lasts_shape u) (shape_tsize t) (shape_tsize u) H.
Qed.
Lemma bpot_shape o o' p : oshape o = oshape o' → bpot o p = bpot o' p.
Proof.
  destruct o as [t|], o' as [u|]; simpl; try done. intros [= H]. by rewrite (firsts_shape t) (firsts_shape u) (shape_tsize t) (shape_tsize u) H.
Qed.
Lemma fpot_lg m a l o p : lives (C:=C) m a l o → fpot o p + 1 ≤ lg (osize o).
Proof.
  destruct o as [t|]; cbn [lives fpot]; [|rewrite /lg; lia]. intros (h & Hw & _). change (osize (Some t)) with (tsize t).
  pose proof (height_lg _ _ (wfroot_height_bound _ _ Hw)). pose proof (lasts_wfroot h t p Hw). rewrite /lg. destruct (_ <? _); lia.
Qed.
Lemma bpot_lg m a l o p : lives (C:=C) m a l o → bpot o p + 1 ≤ lg (osize o).
Proof.
  destruct o as [t|]; cbn [lives bpot]; [|rewrite /lg; lia]. intros (h & Hw & _). change (osize (Some t)) with (tsize t).
  pose proof (height_lg _ _ (wfroot_height_bound _ _ Hw)). pose proof (firsts_wfroot h t p Hw). rewrite /lg. destruct (_ <? _); lia.
Qed.
Lemma look_next m a l o it :
  lives (C:=C) m a l o → it_ok o it → i_pos it < osize o →
  ∃ k, k + 4 * fpot o (S (i_pos it)) ≤ 4 * fpot o (i_pos it) + 13 ∧ look m k (move_next_iterator it) tt_.
Proof.
  destruct o as [t|]; cbn [lives it_ok]; [|unfold osize; simpl; lia]. change (osize (Some t)) with (tsize t).
  intros (h & Hw & _ & _ & Hst) [(c & l0 & xs & -> & Hseg & Hleaf & Hpos & Hi) _] Hlt.
  pose proof (stored_framed _ _ _ _ _ _ _ _ Hst) as Hf. pose proof (wfroot_dense _ _ Hw) as Hd.
  set (t := plug c (Seg l0 xs)) in *. set (p := i_pos it) in *. set (q := sg_idx (e_seg (i_entry it))) in *.
  assert (tsize t = length (cl c) + length xs + length (cr c)) as Hsz.
  { rewrite /t /tsize elems_plug !app_length; cbn [elems]. lia. }
  exists (9 + 4 * closes t p). split.
  - cbn [fpot]. rewrite (proj2 (Nat.ltb_lt _ _) Hlt). destruct (S p <? tsize t) eqn:E.
    + apply Nat.ltb_lt in E. pose proof (closes_amort t p Hd E). lia.
    + apply Nat.ltb_ge in E. pose proof (closes_last t Hd) as Hc. replace (tsize t - 1) with p in Hc by lia. lia.
  - eapply look_le; [by apply walk_next|]. rewrite Hseg. cbn [e_seg sg_idx sg_len]. fold q.
    destruct (S q =? length xs) eqn:E; cbn [flag]; [|lia]. apply Nat.eqb_eq in E.
    pose proof (run_last_closes c (Seg l0 xs) q ltac:(rewrite tsize_Seg; lia)) as Hr. rewrite tsize_Seg -E Nat.eqb_refl in Hr. cbn [flag closes] in Hr.
    fold t in Hr. rewrite -Hpos in Hr. lia.
Qed.
Lemma look_prev m a l o it :
  lives (C:=C) m a l o → it_ok o it → 0 < i_pos it →
  ∃ k, k + 4 * bpot o (i_pos it - 1) ≤ 4 * bpot o (i_pos it) + 14 ∧ look m k (move_prev_iterator it) tt_.
Proof.
  destruct o as [t|]; cbn [lives it_ok]; [|intros _ ->; simpl; lia].
  intros (h & Hw & _ & _ & Hst) [(c & l0 & xs & -> & Hseg & Hleaf & Hpos & Hi) Hin] Hlt.
  pose proof (stored_framed _ _ _ _ _ _ _ _ Hst) as Hf. pose proof (wfroot_dense _ _ Hw) as Hd.
  set (t := plug c (Seg l0 xs)) in *. set (p := i_pos it) in *. set (q := sg_idx (e_seg (i_entry it))) in *.
  assert (tsize t = length (cl c) + length xs + length (cr c)) as Hsz.
  { rewrite /t /tsize elems_plug !app_length; cbn [elems]. lia. }
  pose proof (walk_prev _ it c Hf Hleaf) as Hl. fold q in Hl. cbn [bpot].
  destruct (p <? tsize t) eqn:E.
  - apply Nat.ltb_lt in E. specialize (Hin E). rewrite Hseg /= in Hin.
    exists (10 + 4 * opens t p). split.
    + rewrite (proj2 (Nat.ltb_lt _ _)); [|lia]. pose proof (opens_amort t (p - 1) Hd) as Ho.
      replace (S (p - 1)) with p in Ho by lia. specialize (Ho E). lia.
    + eapply look_le; [exact Hl|]. destruct (q =? 0) eqn:E2; cbn [flag]; [|lia]. apply Nat.eqb_eq in E2.
      pose proof (run_first_opens c (Seg l0 xs) q ltac:(rewrite tsize_Seg; lia)) as Hr. rewrite E2 in Hr. cbn [Nat.eqb flag opens] in Hr.
      fold t in Hr. rewrite Hpos E2. lia.
  - apply Nat.ltb_ge in E. exists 0. split.
    + rewrite (proj2 (Nat.ltb_lt _ _)); [|lia]. pose proof (firsts_last t Hd) as Ho.
      replace (p - 1) with (tsize t - 1) by lia. lia.
    + eapply look_le; [exact Hl|]. assert (q = length xs) as -> by lia.
      assert (length xs ≠ 0) as Hx.
      { assert (dense (Seg l0 xs)) as Hs.
        { clear -Hd. revert Hd. rewrite /t. generalize (Seg l0 xs). induction c as [|[[k A] B] c IH]; intros s Hd; [done|].
          cbn [plug] in Hd. apply IH in Hd. apply dense_Nd in Hd as [_ Hd]. by apply Forall_mid in Hd as (_ & ? & _). }
        simpl in Hs. lia. }
      rewrite (proj2 (Nat.eqb_neq _ _) Hx). simpl. lia.
Qed.
Lemma tk_next a l o it :
  it_ok o it → i_pos it < osize o →
  seqp (C:=C) a a l o ⊢ tk (4 * fpot o (i_pos it) + 13 - 4 * fpot o (S (i_pos it))) (move_next_iterator it).
Proof.
  intros Hit Hlt. apply tk_lives. intros st Ha Ho. destruct (look_next _ _ _ _ _ Ho Hit Hlt) as (k & Hk & Hl).
  eapply look_runs, look_le; [done|]. lia.
Qed.
Lemma tk_prev a l o it :
  it_ok o it → 0 < i_pos it →
  seqp (C:=C) a a l o ⊢ tk (4 * bpot o (i_pos it) + 14 - 4 * bpot o (i_pos it - 1)) (move_prev_iterator it).
Proof.
  intros Hit Hlt. apply tk_lives. intros st Ha Ho. destruct (look_prev _ _ _ _ _ Ho Hit Hlt) as (k & Hk & Hl).
  eapply look_runs, look_le; [done|]. lia.
Qed.
End walk.
