(** * C64: insertions only obtain memory, removals only release it, and
    rearranging does neither *)
From Verif Require Export PropsThreads Grow.
From stdpp Require Import options.
#[local] Set Default Proof Using "Type*".

Section props.
Context {T : Type} {C : cfg T} {OK : cfg_ok C}.
Implicit Types σ : sst T.
Implicit Types ρ : env.
Implicit Types st : state T.
Implicit Types c : cmd T.
Notation reached := (reached C).
Notation reachable := (reachable C).
Notation exec := (exec (C:=C)).
Notation run := (run (C:=C)).
Notation safe := (safe C).
Notation allocs st := (n_allocs (st_cnt st)).

(** ** What the calls are *)
Definition inserts c x : Prop :=
  match c with
  | InsertOne y _ _ _ | InsertCount y _ _ _ _ | InsertRange y _ _ _ | PushBack y _ | PushFront y _ => y = x
  | _ => False
  end.
Definition erases c x : Prop :=
  match c with
  | Clear y | Erase y _ _ | EraseRange y _ _ _ | PopBack y | PopFront y | Remove y _ _ | RemoveIf y _ | Unique y _ => y = x
  | _ => False
  end.
Definition rearranges c x : Prop :=
  match c with Reverse y | Sort y _ => y = x | Write _ _ => True | _ => False end.
(** the call changes no container but [x] (it may move elements out of others) *)
Definition only σ c x : Prop := ∀ y, modifies σ c y → y = x.

(** ** The memory as a whole *)
Definition grown st st' : Prop :=
  (∀ k, is_Some (st_heap st !! k) → is_Some (st_heap st' !! k)) ∧
  size (st_heap st') + allocs st = size (st_heap st) + allocs st'.
Definition shrunk st st' : Prop :=
  (∀ k, is_Some (st_heap st' !! k) → is_Some (st_heap st !! k)) ∧ allocs st' = allocs st.
Global Instance grown_stays : stays grown.
Proof.
  split.
  - split; [done|]. intros a b d [H1 E1] [H2 E2]. split; [auto|lia].
  - intros st st' Hh Ha. split; rewrite Hh; [done|lia].
  - intros st st' l o Hl Hh Ha. split; rewrite Hh.
    + intros k Hk. apply lookup_insert_is_Some'. by right.
    + rewrite map_size_insert_Some //. lia.
Qed.
Global Instance shrunk_stays : stays shrunk.
Proof.
  split.
  - split; [done|]. intros a b d [H1 E1] [H2 E2]. split; [auto|lia].
  - intros st st' Hh Ha. split; rewrite ?Hh; done.
  - intros st st' l o Hl Hh Ha. split; [|done]. rewrite Hh.
    intros k [->|Hk]%lookup_insert_is_Some'; done.
Qed.
Lemma grown_allocate o : gr false grown (allocate (C:=C) o).
Proof.
  intros st. rewrite /allocate. destruct (c_pick C _ _) as [l|] eqn:E; [|done].
  pose proof (ok_pick _ OK _ _ _ E) as Hl. split; simpl.
  - intros k Hk. apply lookup_insert_is_Some'. by right.
  - rewrite map_size_insert_None //. lia.
Qed.
Lemma shrunk_free l : gr true shrunk (free (T:=T) l).
Proof. intros st. split; [|done]. simpl. intros k [_ Hk]%lookup_delete_is_Some. done. Qed.
Lemma gr_exec b (P : state T → state T → Prop) (HP : PreOrder P) c ρ : gr b P (exec_call (C:=C) c ρ) →
  ∀ st o ρ' st', exec c ρ st = Ok (o, ρ') st' → b = true ∨ (∀ e, o ≠ OExn e) → P st st'.
Proof.
  intros H st o ρ' st'. specialize (H st). rewrite /Exec.exec /try_catch.
  destruct (exec_call c ρ st) as [[o1 ρ1] st1|e st1|f]; [|simpl|done].
  - by intros [= <- <- <-].
  - intros [= <- <- <-] [->|Hn]; [by apply H|by destruct (Hn e)].
Qed.
Lemma exec_inserts c ρ x st o ρ' st' :
  inserts c x → exec c ρ st = Ok (o, ρ') st' → (∀ e, o ≠ OExn e) → grown st st'.
Proof.
  intros Hi He Ho. eapply (gr_exec false grown (stays_pre) c ρ); [|done|by right].
  apply g_exec_insert; [apply _|apply grown_allocate|done|]. by destruct c.
Qed.
Lemma exec_erases c ρ x st o ρ' st' : erases c x → exec c ρ st = Ok (o, ρ') st' → shrunk st st'.
Proof.
  intros Hi He. eapply (gr_exec true shrunk (stays_pre) c ρ); [|done|by left].
  apply g_exec_erase; [apply _|apply shrunk_free|]. by destruct c.
Qed.
Lemma exec_rearranges c ρ x st o ρ' st' : rearranges c x → exec c ρ st = Ok (o, ρ') st' → grown st st' ∧ shrunk st st'.
Proof. intros Hi He. split; (eapply (gr_exec true _ stays_pre c ρ); [apply (g_exec_still true); [apply _|by destruct c]|done|by left]). Qed.

(** ** The blocks of one container *)
Lemma same_vars c x y ρ st o ρ' st' : inserts c x ∨ erases c x ∨ rearranges c x →
  exec c ρ st = Ok (o, ρ') st' → e_cont ρ' !! y = e_cont ρ !! y.
Proof.
  intros Hc He. assert (keepsc y ρ (exec_call (C:=C) c ρ)) as H.
  { destruct c; try (exfalso; by destruct Hc as [Hc|[Hc|Hc]]); cbn [exec_call]; rewrite /done_;
    repeat first [ apply keepsc_ret; reflexivity | apply keepsc_bind; intros ]. }
  specialize (H st). revert He. rewrite /Exec.exec /try_catch. destruct (exec_call c ρ st) as [[o1 ρ1] st1|e st1|f]; [|by intros [= _ <- _]|done]. by intros [= _ <- _].
Qed.
Lemma changed_blocks_ σ ρ st c o ρ' st' x : reachable σ ρ st → pre C σ c → exec c ρ st = Ok (o, ρ') st' →
  (∀ y, e_cont ρ' !! y = e_cont ρ !! y) → is_Some (container_at st ρ x) → only σ c x → ∃ O : gset loc,
    NoDup (blocks_of st ρ x) ∧ NoDup (blocks_of st' ρ' x) ∧
    (∀ k, k ∈ O → k ∉ blocks_of st ρ x ∧ k ∉ blocks_of st' ρ' x) ∧
    dom (st_heap st) = O ∪ list_to_set (blocks_of st ρ x) ∧
    dom (st_heap st') = O ∪ list_to_set (blocks_of st' ρ' x).
Proof.
  intros Hr Hp He Hv [[xs a] Hx] Hon. destruct (call_inv _ _ _ _ _ _ _ Hr Hp He) as (σ' & _ & Hr').
  assert (reached ρ st) as R1 by by eexists. assert (reached ρ' st') as R2 by by eexists.
  destruct (container_var _ _ _ _ _ Hx) as [l Hl]. assert (e_cont ρ' !! x = Some l) as Hl' by by rewrite Hv.
  destruct (reached_var _ _ _ _ R2 Hl') as (xs' & a' & Hx').
  destruct (C19_ownership _ _ _ _ _ _ R1 Hx Hl) as (Hnd & Hd & _). destruct (C19_ownership _ _ _ _ _ _ R2 Hx' Hl') as (Hnd' & Hd' & _).
  apply NoDup_cons in Hnd as [Hn Hnd]. apply NoDup_cons in Hnd' as [Hn' Hnd'].
  assert (∀ y, y ≠ x → is_Some (container_at st ρ y) → ∀ k, part_of st' ρ' y k ↔ part_of st ρ y k) as Hu.
  { intros y Hy Hcy. apply (C56_unmodified σ ρ st c o ρ' st' y Hr Hp He Hcy). intros Hm. by apply Hy, Hon. }
  assert (∀ y, is_Some (container_at st' ρ' y) → is_Some (container_at st ρ y)) as Hex.
  { intros y [[ys b] Hy]. destruct (container_var _ _ _ _ _ Hy) as [ly Hly]. rewrite Hv in Hly.
    destruct (reached_var _ _ _ _ R1 Hly) as (? & ? & ->). done. }
  assert (∀ y k, y ≠ x → part_of st ρ y k → k ∉ l :: blocks_of st ρ x) as HA.
  { intros y k Hy [[[ys b] Hcy] Hk]. destruct (container_var _ _ _ _ _ Hcy) as [ly Hly].
    apply (Hd y ly k Hy); [by eexists|done|]. destruct Hk as [Hk|Hk]; [left; congruence|by right]. }
  assert (∀ y k, y ≠ x → part_of st' ρ' y k → k ∉ l :: blocks_of st' ρ' x) as HB.
  { intros y k Hy [[[ys b] Hcy] Hk]. destruct (container_var _ _ _ _ _ Hcy) as [ly Hly].
    apply (Hd' y ly k Hy); [by eexists|done|]. destruct Hk as [Hk|Hk]; [left; congruence|by right]. }
  assert (∀ k, k ∈ dom (st_heap st) ↔ ∃ y, part_of st ρ y k) as HD.
  { intros k. rewrite elem_of_dom. apply (C19_inventory ρ st k R1). }
  assert (∀ k, k ∈ dom (st_heap st') ↔ ∃ y, part_of st' ρ' y k) as HD'.
  { intros k. rewrite elem_of_dom. apply (C19_inventory ρ' st' k R2). }
  exists (dom (st_heap st) ∖ list_to_set (blocks_of st ρ x)).
  assert (∀ k, k ∈ dom (st_heap st) ∧ k ∉ blocks_of st ρ x ↔ k = l ∨ ∃ y, y ≠ x ∧ part_of st ρ y k) as HO.
  { intros k. rewrite HD. split.
    - intros [[y Hk] Hnk]. destruct (decide (y = x)) as [->|Hy]; [|by eauto]. destruct Hk as [_ [Hk|Hk]]; [left; congruence|done].
    - intros [->|(y & Hy & Hk)]; [split; [|done]|].
      + exists x. split; [by rewrite Hx|by left].
      + split; [by eexists|]. intros Hin. eapply HA; [done|done|by right]. }
  assert (∀ k, k ∈ dom (st_heap st') ∧ k ∉ blocks_of st' ρ' x ↔ k = l ∨ ∃ y, y ≠ x ∧ part_of st ρ y k) as HO'.
  { intros k. rewrite HD'. split.
    - intros [[y Hk] Hnk]. destruct (decide (y = x)) as [->|Hy].
      + destruct Hk as [_ [Hk|Hk]]; [left; congruence|done].
      + right. exists y. split; [done|]. apply Hu; [done|by apply Hex, Hk|done].
    - intros [->|(y & Hy & Hk)]; [split; [|done]|].
      + exists x. split; [by rewrite Hx'|by left].
      + apply Hu in Hk; [|done|by apply Hk]. split; [by eexists|]. intros Hin. eapply HB; [done|done|by right]. }
  split_and!; [done..| | |].
  - intros k [Hk1 Hk2]%elem_of_difference. rewrite elem_of_list_to_set in Hk2. split; [done|].
    by apply HO', HO.
  - apply set_eq. intros k. rewrite elem_of_union elem_of_difference elem_of_list_to_set. split.
    + intros Hk. destruct (decide (k ∈ blocks_of st ρ x)); auto.
    + intros [[? _]|Hk]; [done|]. apply HD. exists x. split; [by rewrite Hx|by right].
  - apply set_eq. intros k. rewrite elem_of_union elem_of_difference !elem_of_list_to_set HO -HO'. split.
    + intros Hk. destruct (decide (k ∈ blocks_of st' ρ' x)); auto.
    + intros [[? _]|Hk]; [done|]. apply HD'. exists x. split; [by rewrite Hx'|by right].
Qed.
Lemma changed_blocks σ ρ st c o ρ' st' x : reachable σ ρ st → pre C σ c → exec c ρ st = Ok (o, ρ') st' →
  inserts c x ∨ erases c x ∨ rearranges c x → is_Some (container_at st ρ x) → only σ c x → ∃ O : gset loc,
    NoDup (blocks_of st ρ x) ∧ NoDup (blocks_of st' ρ' x) ∧
    (∀ k, k ∈ O → k ∉ blocks_of st ρ x ∧ k ∉ blocks_of st' ρ' x) ∧
    dom (st_heap st) = O ∪ list_to_set (blocks_of st ρ x) ∧
    dom (st_heap st') = O ∪ list_to_set (blocks_of st' ρ' x).
Proof. intros Hr Hp He Hc. apply changed_blocks_ with (c := c) (o := o) (σ := σ); [done..|]. intros y. by eapply same_vars. Qed.
Lemma count_blocks (h : heap T) (O : gset loc) L : dom h = O ∪ list_to_set L → NoDup L → (∀ k, k ∈ O → k ∉ L) → size h = size O + length L.
Proof.
  intros Hd Hn Hk. rewrite -size_dom Hd size_union; [by rewrite size_list_to_set|].
  intros k H1 H2%elem_of_list_to_set. by eapply Hk.
Qed.

(** ** A successful insertion releases nothing: the blocks of the container stay
    its blocks, and every allocate() call is for a block it keeps. *)
Theorem C64_insert σ ρ st c x o ρ' st' :
  reachable σ ρ st → pre C σ c → inserts c x → exec c ρ st = Ok (o, ρ') st' → (∀ e, o ≠ OExn e) →
  (∀ k, is_Some (st_heap st !! k) → is_Some (st_heap st' !! k)) ∧
  size (st_heap st') + allocs st = size (st_heap st) + allocs st' ∧
  (is_Some (container_at st ρ x) → only σ c x →
    blocks_of st ρ x ⊆ blocks_of st' ρ' x ∧
    length (blocks_of st' ρ' x) + allocs st = length (blocks_of st ρ x) + allocs st').
Proof.
  intros Hr Hp Hi He Ho. destruct (exec_inserts c ρ x st o ρ' st' Hi He Ho) as [Hk Hs]. split_and!; [done..|].
  intros Hx Hon. destruct (changed_blocks _ _ _ _ _ _ _ _ Hr Hp He ltac:(by left) Hx Hon) as (O & N1 & N2 & HO & D1 & D2).
  split.
  - intros k Hin. assert (k ∈ dom (st_heap st')) as Hk'.
    { apply elem_of_dom, Hk, elem_of_dom. rewrite D1. apply elem_of_union_r. by apply elem_of_list_to_set. }
    rewrite D2 in Hk'. apply elem_of_union in Hk' as [Hk'|Hk']; [|by apply elem_of_list_to_set in Hk']. by destruct (HO k Hk').
  - rewrite (count_blocks _ _ _ D1 N1) in Hs; [|by intros; apply HO]. rewrite (count_blocks _ _ _ D2 N2) in Hs; [|by intros; apply HO]. lia.
Qed.
(** ** Removing elements obtains nothing, whether or not a predicate throws: what
    the container owns afterwards it owned before. *)
Theorem C64_erase σ ρ st c x o ρ' st' :
  reachable σ ρ st → pre C σ c → erases c x → exec c ρ st = Ok (o, ρ') st' → is_Some (container_at st ρ x) →
  allocs st' = allocs st ∧ blocks_of st' ρ' x ⊆ blocks_of st ρ x ∧
  ∀ k, is_Some (st_heap st' !! k) → is_Some (st_heap st !! k).
Proof.
  intros Hr Hp Hi He Hx. destruct (exec_erases c ρ x st o ρ' st' Hi He) as [Hk Hs]. split_and!; [done| |done].
  assert (only σ c x) as Hon.
  { intros y [Hy|(w & p & Hw & _)]; [|destruct c; try done; simpl in Hw; by apply elem_of_nil in Hw].
    destruct c; try done; simpl in Hi; subst; by apply elem_of_list_singleton in Hy. }
  destruct (changed_blocks _ _ _ _ _ _ _ _ Hr Hp He ltac:(by right; left) Hx Hon) as (O & N1 & N2 & HO & D1 & D2).
  intros k Hin. assert (k ∈ dom (st_heap st)) as Hk'.
  { apply elem_of_dom, Hk, elem_of_dom. rewrite D2. apply elem_of_union_r. by apply elem_of_list_to_set. }
  rewrite D1 in Hk'. apply elem_of_union in Hk' as [Hk'|Hk']; [|by apply elem_of_list_to_set in Hk']. by destruct (HO k Hk').
Qed.
(** ** Writing, reversing and sorting do neither. *)
Theorem C64_rearrange σ ρ st c x o ρ' st' :
  reachable σ ρ st → pre C σ c → rearranges c x → exec c ρ st = Ok (o, ρ') st' →
  allocs st' = allocs st ∧ (∀ k, is_Some (st_heap st' !! k) ↔ is_Some (st_heap st !! k)) ∧
  (is_Some (container_at st ρ x) → only σ c x → blocks_of st' ρ' x ≡ₚ blocks_of st ρ x).
Proof.
  intros Hr Hp Hi He. destruct (exec_rearranges c ρ x st o ρ' st' Hi He) as [[Hg _] [Hk Hs]]. split_and!; [done|split; auto|].
  intros Hx Hon. destruct (changed_blocks _ _ _ _ _ _ _ _ Hr Hp He ltac:(by right; right) Hx Hon) as (O & N1 & N2 & HO & D1 & D2).
  apply NoDup_Permutation; [done..|]. intros k. split; intros Hin.
  - assert (k ∈ dom (st_heap st)) as Hk'.
    { apply elem_of_dom, Hk, elem_of_dom. rewrite D2. apply elem_of_union_r. by apply elem_of_list_to_set. }
    rewrite D1 in Hk'. apply elem_of_union in Hk' as [Hk'|Hk']; [|by apply elem_of_list_to_set in Hk']. by destruct (HO k Hk').
  - assert (k ∈ dom (st_heap st')) as Hk'.
    { apply elem_of_dom, Hg, elem_of_dom. rewrite D1. apply elem_of_union_r. by apply elem_of_list_to_set. }
    rewrite D2 in Hk'. apply elem_of_union in Hk' as [Hk'|Hk']; [|by apply elem_of_list_to_set in Hk']. by destruct (HO k Hk').
Qed.

(** ** Any number of insertions: as many allocate() calls as the container has
    blocks in the end, so less than two for every [segment_min] elements. *)
Definition external c : Prop :=
  match c with
  | InsertOne _ _ s _ | InsertCount _ _ _ s _ | PushBack _ s | PushFront _ s => ∃ v, s = AVal v
  | InsertRange _ _ r _ => ∃ vs, r = RList vs
  | _ => False
  end.
Definition calls (cs : list (cmd T)) : client := foldr (λ c p, Call c (λ _, p)) Stop cs.
Lemma external_only σ c x : inserts c x → external c → only σ c x.
Proof.
  intros Hi He y [Hy|(w & p & Hw & _)].
  - destruct c; try done; simpl in Hi; subst; by apply elem_of_list_singleton in Hy.
  - destruct c; try done; simpl in *; destruct He as [? ->]; by apply elem_of_nil in Hw.
Qed.
Lemma run_inserts σ ρ st cs x tr ρ' st' :
  reachable σ ρ st → safe σ (calls cs) → (∀ c, c ∈ cs → inserts c x ∧ external c) → is_Some (container_at st ρ x) →
  run (calls cs) ρ st = Ok (tr, ρ') st' → (∀ c e, (c, OExn e) ∉ tr) →
  length (blocks_of st' ρ' x) + allocs st = length (blocks_of st ρ x) + allocs st' ∧ reached ρ' st' ∧
  is_Some (container_at st' ρ' x).
Proof.
  revert σ ρ st tr. induction cs as [|c cs IH]; intros σ ρ st tr Hr Hs Hc Hx; simpl.
  { intros [= <- <- <-] _. split_and!; [done|by eexists|done]. }
  destruct Hs as [Hp Hs]. destruct (call_ok _ _ _ _ Hr Hp) as (o & ρ1 & st1 & σ1 & He & Hst & Hr1).
  rewrite /mbind /M_bind. rewrite He /=. destruct (run (calls cs) ρ1 st1) as [[tr2 ρ2] st2|e st2|f] eqn:Erun; try done.
  intros [= <- <- <-] Hn. destruct (Hc c) as [Hi Hex]; [by left|].
  destruct (C64_insert σ ρ st c x o ρ1 st1 Hr Hp Hi He) as (_ & _ & Hb).
  { intros e ->. apply (Hn c e). by left. }
  destruct (Hb Hx (external_only _ _ _ Hi Hex)) as [_ Hl].
  assert (is_Some (container_at st1 ρ1 x)) as Hx1.
  { destruct Hx as [[xs a] Hx]. destruct (container_var _ _ _ _ _ Hx) as [l Hvl].
    rewrite -(same_vars c x x _ _ _ _ _ ltac:(by left) He) in Hvl.
    destruct (reached_var ρ1 st1 x l (ex_intro _ σ1 Hr1) Hvl) as (? & ? & ->). done. }
  destruct (IH σ1 ρ1 st1 tr2 Hr1 (Hs _ _ Hst) ltac:(intros; apply Hc; by right) Hx1 Erun) as (Hl2 & Hr2 & Hx2).
  { intros c' e Hin. apply (Hn c' e). by right. }
  split_and!; [lia|done|done].
Qed.
Theorem C64_amortized σ ρ st cs x a tr ρ' st' xs a' :
  reachable σ ρ st → safe σ (calls cs) → (∀ c, c ∈ cs → inserts c x ∧ external c) →
  container_at st ρ x = Some ([], a) →
  run (calls cs) ρ st = Ok (tr, ρ') st' → (∀ c e, (c, OExn e) ∉ tr) → container_at st' ρ' x = Some (xs, a') →
  allocs st' = allocs st + length (blocks_of st' ρ' x) ∧
  allocs st' < allocs st + 2 * Nat.max 1 (length xs / segment_min).
Proof.
  intros Hr Hs Hc Hx Hrun Hn Hx'. destruct (run_inserts σ ρ st cs x tr ρ' st' Hr Hs Hc ltac:(by rewrite Hx) Hrun Hn) as (Hl & R2 & _).
  rewrite (empty_blocks ρ st x a (ex_intro _ σ Hr) Hx) /= in Hl. split; [lia|].
  destruct (reached_segments _ _ _ _ _ R2 Hx') as (ss & Hss & _).
  destruct (C17_overhead _ _ _ _ _ _ R2 Hx' Hss) as (H1 & _ & H2 & H3).
  destruct (decide (xs = [])) as [->|Hne]. { rewrite H3 // in Hl. simpl in Hl. lia. }
  specialize (H2 Hne). rewrite /blocks_of Hss /= app_length fmap_length in Hl. lia.
Qed.
End props.
