(** * C58: how often a call applies the predicate or comparison it is given *)
From Verif Require Export Asked PropsPred PropsLimits.
From stdpp Require Import options.
Set Default Proof Using "Type*".

(** ** Specification *)
Section spec.
Context {T : Type} (C : cfg T).
(** Applications of predicates are numbered as they happen, and [c_pred_ok C j] tells
    whether number [j] returns or throws.  A call that ends with [o] has made [m]
    applications: all but the last one returned, and it throws the exception of a
    predicate exactly if the last one threw. *)
Definition applications (m : nat) (st : state T) (o : out T) (st' : state T) : Prop :=
  n_preds (st_cnt st') = n_preds (st_cnt st) + m ∧
  (∀ j, S j < m → c_pred_ok C (n_preds (st_cnt st) + j) = true) ∧
  (o = OExn EPred ↔ ∃ j, S j = m ∧ c_pred_ok C (n_preds (st_cnt st) + j) = false).
End spec.

Section props.
Context {T : Type} {C : cfg T} {OK : cfg_ok C}.
Implicit Types σ : sst T.
Implicit Types ρ : env.
Implicit Types st : state T.
Implicit Types c : cmd T.
Implicit Types xs ys : list T.
Notation reached := (reached C).
Notation exec := (exec (C:=C)).
Notation applications := (applications C).

Lemma reached_sized ρ st x xs a : reached ρ st → container_at st ρ x = Some (xs, a) →
  ∃ l, e_cont ρ !! x = Some l ∧ sized l (length xs) st ∧ length xs < c_W C.
Proof.
  intros Hr Hc. destruct (C40_sizes ρ st x xs a Hr Hc) as (_ & s & ss & Hs & Hn & _).
  rewrite /seq_at in Hs. destruct (e_cont ρ !! x) as [l|] eqn:Hl; [|done]. simpl in Hs.
  exists l. split_and!; [done| |].
  - exists s. split; [|done]. destruct (st_heap st !! l) as [[]|]; try done. by injection Hs as ->.
  - pose proof (C57_bound ρ st x xs a Hr Hc) as H. rewrite /max_size in H. pose proof (ok_W _ OK). lia.
Qed.
Lemma fine_applications n n' st o st' :
  calls st = n → calls st' = n' → o ≠ OExn EPred → fine (C:=C) n n' → applications (n' - n) st o st'.
Proof.
  rewrite /calls. intros E E' Ho [Hle Hf]. split_and!.
  - rewrite E E'. lia.
  - intros j Hj. apply Hf. lia.
  - split; [done|]. intros (j & Hj & Hk). rewrite Hf in Hk; [done|lia].
Qed.
Lemma breaks_applications n m e st st' :
  calls st = n → breaks (C:=C) n m e st' → e = EPred ∧ ∃ k, k ≤ m ∧ applications k st (OExn EPred) st'.
Proof.
  rewrite /calls. intros E (-> & k & E' & Hk & [Hle Hf] & Hbad). split; [done|]. exists (S (k - n)). split; [lia|]. split_and!.
  - rewrite /calls in E'. lia.
  - intros j Hj. apply Hf. lia.
  - split; [|done]. intros _. exists (k - n). split; [done|]. by replace (n_preds (st_cnt st) + (k - n)) with k by lia.
Qed.
(** from a function that answers to the call *)
Lemma counted {A} (m : M T A) (f : A → out T) ρ st B (Q : A → nat → Prop) o ρ' st' :
  (∀ a, f a ≠ OExn EPred) →
  wlp m st (λ a st', fine (C:=C) (calls st) (calls st') ∧ Q a (calls st' - calls st)) (breaks (C:=C) (calls st) B) →
  (∀ a n, Q a n → n ≤ B) →
  try_catch (a ← m; mret (f a, ρ)) (λ e, mret (OExn e, ρ)) st = Ok (o, ρ') st' →
  ∃ n, applications n st o st' ∧ n ≤ B ∧ (o ≠ OExn EPred → ∃ a, o = f a ∧ Q a n).
Proof.
  intros Hf Hm HB. rewrite /try_catch /mbind /M_bind. rewrite /wlp in Hm. destruct (m st) as [a st1|e st1|]; [| |done].
  - intros [= <- <- <-]. destruct Hm as [Hfi HQ]. exists (calls st1 - calls st). split_and!.
    + by eapply fine_applications.
    + by apply (HB a).
    + intros _. by exists a.
  - intros [= <- <- <-]. eapply breaks_applications in Hm as (-> & k & ? & ?); [|done]. exists k. split_and!; [done..|]. done.
Qed.

(** ** remove, remove_if: once for every element *)
Theorem C58_remove_if ρ st x p xs a o ρ' st' :
  reached ρ st → container_at st ρ x = Some (xs, a) → exec (RemoveIf x p) ρ st = Ok (o, ρ') st' →
  ∃ n, applications n st o st' ∧ n ≤ length xs ∧ (o ≠ OExn EPred → n = length xs).
Proof.
  intros Hr Hc He. destruct (reached_sized ρ st x xs a Hr Hc) as (l & Hl & Hs & HW).
  destruct (counted (remove_if l p) (λ _, OUnit) ρ st (length xs) (λ _ n, n = length xs) o ρ' st') as (n & Hn & Hb & Hq).
  - done.
  - eapply wlp_mono; [by eapply wlp_m_remove_if|simpl|done]. intros _ st1 [? ?]. split; [done|lia].
  - by intros ? ? ->.
  - rewrite -He /exec /Exec.exec. cbn [exec_call]. rewrite /getc /lookup_var Hl. done.
  - exists n. split_and!; [done..|]. intros Ho. by destruct (Hq Ho) as (_ & _ & ?).
Qed.
Theorem C58_remove ρ st x s eq xs a o ρ' st' :
  reached ρ st → container_at st ρ x = Some (xs, a) → exec (Remove x s eq) ρ st = Ok (o, ρ') st' →
  ∃ n, applications n st o st' ∧ n ≤ length xs ∧ (o ≠ OExn EPred → n = length xs).
Proof.
  intros Hr Hc. destruct (reached_sized ρ st x xs a Hr Hc) as (l & Hl & Hs & HW).
  rewrite /exec /Exec.exec. cbn [exec_call]. rewrite /getc /lookup_var Hl.
  assert ((∃ v, gets ρ s = mret v) ∨ ∃ f, gets ρ s = fail f) as [[v ->]|[f ->]]; [|intros He|done].
  { destruct s as [v|w|w]; [by left; eexists|..]; rewrite /gets /geti /lookup_var; destruct (e_iter ρ !! w) as [it|].
    1,3: left; by eexists.
    all: right; by eexists. }
  destruct (counted (ModelApi.remove l v eq) (λ _, OUnit) ρ st (length xs) (λ _ n, n = length xs) o ρ' st') as (n & Hn & Hb & Hq).
  - done.
  - eapply wlp_mono; [by eapply wlp_m_remove|simpl|done]. intros _ st1 [? ?]. split; [done|lia].
  - by intros ? ? ->.
  - by rewrite -He.
  - exists n. split_and!; [done..|]. intros Ho. by destruct (Hq Ho) as (_ & _ & ?).
Qed.
(** ** unique: once for every pair of neighbours *)
Theorem C58_unique ρ st x p xs a o ρ' st' :
  reached ρ st → container_at st ρ x = Some (xs, a) → exec (Unique x p) ρ st = Ok (o, ρ') st' →
  ∃ n, applications n st o st' ∧ n ≤ length xs - 1 ∧ (o ≠ OExn EPred → n = length xs - 1).
Proof.
  intros Hr Hc He. destruct (reached_sized ρ st x xs a Hr Hc) as (l & Hl & Hs & HW).
  destruct (counted (unique l p) (λ _, OUnit) ρ st (length xs - 1) (λ _ n, n = length xs - 1) o ρ' st') as (n & Hn & Hb & Hq).
  - done.
  - eapply wlp_mono; [by eapply wlp_m_unique|simpl|done]. intros _ st1 [? ?]. split; [done|lia].
  - by intros ? ? ->.
  - rewrite -He /exec /Exec.exec. cbn [exec_call]. rewrite /getc /lookup_var Hl. done.
  - exists n. split_and!; [done..|]. intros Ho. by destruct (Hq Ho) as (_ & _ & ?).
Qed.
(** ** ==, !=: not at all for containers of different sizes, otherwise at most once
    for every position, and once for every position if they are equal *)
Theorem C58_equal ρ st x y eq xs a ys b c r o ρ' st' :
  (c, r) = (CmpEq x y eq, true) ∨ (c, r) = (CmpNe x y eq, false) →
  reached ρ st → container_at st ρ x = Some (xs, a) → container_at st ρ y = Some (ys, b) → exec c ρ st = Ok (o, ρ') st' →
  ∃ n, applications n st o st' ∧ n ≤ length xs ∧ (length xs ≠ length ys → n = 0) ∧ (o = OBool r → n = length xs).
Proof.
  intros Hcr Hr Hc Hcy He. destruct (reached_sized ρ st x xs a Hr Hc) as (l & Hl & Hs & HW).
  destruct (reached_sized ρ st y ys b Hr Hcy) as (l' & Hl' & Hs' & HW').
  set (B := if length xs =? length ys then length xs else 0).
  assert (∃ g, (g = id ∨ g = negb) ∧ g true = r ∧
    try_catch (d ← op_eq l l' eq; mret (OBool (g d), ρ)) (λ e, mret (OExn e, ρ)) st = Ok (o, ρ') st') as (g & Hg & Hgr & He').
  { revert He. rewrite /exec /Exec.exec. destruct Hcr as [[= -> ->]|[= -> ->]]; cbn [exec_call]; rewrite /getc /lookup_var Hl Hl' => He.
    - exists id. split_and!; [by left|done|]. by rewrite -He.
    - exists negb. split_and!; [by right|done|]. rewrite -He /try_catch /mbind /M_bind /= /op_ne /mbind /M_bind.
      by destruct (op_eq l l' eq st). }
  destruct (counted (op_eq l l' eq) (λ d, OBool (g d)) ρ st B
    (λ d n, n ≤ B ∧ (d = true → n = length xs)) o ρ' st') as (n & Hn & Hb & Hq).
  - done.
  - eapply wlp_mono; [by eapply (wlp_m_eq l (length xs) st HW Hs l' (length ys))|simpl|done]. intros d st1 [Hf Hd]. split; [done|].
    rewrite /B. destruct (length xs =? length ys); destruct Hd as [Hd1 Hd2].
    + split; [lia|]. intros Ht. specialize (Hd2 Ht). lia.
    + split; [lia|]. by rewrite Hd1.
  - by intros ? ? [? _].
  - done.
  - exists n. split_and!; [done| | |].
    + rewrite /B in Hb. destruct (length xs =? length ys); lia.
    + intros Hne%Nat.eqb_neq. rewrite /B Hne in Hb. lia.
    + intros ->. destruct (Hq ltac:(done)) as (d & [= Hd] & _ & Ht). apply Ht. subst r. by destruct Hg as [-> | ->], d.
Qed.
(** ** <, <=, >, >=: at most twice for every position both have *)
Theorem C58_less ρ st x y lt xs a ys b c o ρ' st' :
  c = CmpLt x y lt ∨ c = CmpLe x y lt ∨ c = CmpGt x y lt ∨ c = CmpGe x y lt →
  reached ρ st → container_at st ρ x = Some (xs, a) → container_at st ρ y = Some (ys, b) → exec c ρ st = Ok (o, ρ') st' →
  ∃ n, applications n st o st' ∧ n ≤ 2 * (length xs `min` length ys).
Proof.
  intros Hcs Hr Hc Hcy He. destruct (reached_sized ρ st x xs a Hr Hc) as (l & Hl & Hs & HW).
  destruct (reached_sized ρ st y ys b Hr Hcy) as (l' & Hl' & Hs' & HW').
  assert (∃ k k' N N' g, sized k N st ∧ sized k' N' st ∧ N < c_W C ∧ N' < c_W C ∧ N `min` N' = length xs `min` length ys ∧
    try_catch (d ← op_lt k k' lt; mret (OBool (g d), ρ)) (λ e, mret (OExn e, ρ)) st = Ok (o, ρ') st')
    as (k & k' & N & N' & g & Hk & Hk' & HN & HN' & Hmin & He').
  { revert He. rewrite /exec /Exec.exec. destruct Hcs as [->|[->|[->| ->]]]; cbn [exec_call]; rewrite /getc /lookup_var Hl Hl' => He.
    - exists l, l', (length xs), (length ys), id. do 4 (split; [done|]). split; [lia|]. by rewrite -He.
    - exists l', l, (length ys), (length xs), negb. do 4 (split; [done|]). split; [lia|]. rewrite -He /try_catch /mbind /M_bind /= /op_le /mbind /M_bind.
      by destruct (op_lt l' l lt st).
    - exists l', l, (length ys), (length xs), id. do 4 (split; [done|]). split; [lia|]. by rewrite -He.
    - exists l, l', (length xs), (length ys), negb. do 4 (split; [done|]). split; [lia|]. rewrite -He /try_catch /mbind /M_bind /= /op_ge /mbind /M_bind.
      by destruct (op_lt l l' lt st). }
  destruct (counted (op_lt k k' lt) (λ d, OBool (g d)) ρ st (2 * (N `min` N')) (λ _ n, n ≤ 2 * (N `min` N')) o ρ' st') as (n & Hn & Hb & _).
  - done.
  - eapply wlp_mono; [by eapply (wlp_m_lt k N st HN Hk k' N')|simpl|done]. intros d st1 [Hf Hd]. split; [done|lia].
  - done.
  - done.
  - exists n. split; [done|lia].
Qed.
(** ** Everything else, but sort and merge: not at all *)
Theorem C58_none ρ st c o ρ' st' :
  asks c = false → exec c ρ st = Ok (o, ρ') st' → n_preds (st_cnt st') = n_preds (st_cnt st).
Proof. intros Hc He. pose proof (exec_unasked (C:=C) c ρ Hc st) as H. by rewrite He in H. Qed.
End props.
