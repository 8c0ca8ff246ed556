(** * C43: the capacity constants *)
From Verif Require Export PropsMemory.
From stdpp Require Import options.
Set Default Proof Using "Type*".

(** for all template arguments: no assumption about [C] *)
Section const.
Context {T : Type} {C : cfg T}.

Theorem C43_capacities :
  1 ≤ segment_min ≤ segment_max ∧ 2 ≤ base_min < base_max ∧ 3 ≤ base_max.
Proof. pose proof segment_bounds. pose proof base_bounds. lia. Qed.

(** a full block plus one entry, split in two the way insertion does it: both
    halves are blocks of legal size *)
Theorem C43_split :
  (let left := (segment_max + 1) / 2 in let right := segment_max + 1 - left in
   segment_min ≤ left ≤ segment_max ∧ segment_min ≤ right ≤ segment_max) ∧
  (let left := (base_max + 1) / 2 in let right := base_max + 1 - left in
   base_min ≤ left ≤ base_max ∧ base_min ≤ right ≤ base_max).
Proof. cbv zeta. pose proof segment_bounds. pose proof base_bounds. lia. Qed.
(** a block one below the minimum, merged with a minimal neighbour, fits and is
    legal; a neighbour above the minimum can give one entry away *)
Theorem C43_merge :
  segment_min ≤ segment_min + (segment_min - 1) ≤ segment_max ∧
  base_min ≤ base_min + (base_min - 1) ≤ base_max ∧
  (∀ n, segment_min < n → segment_min ≤ n - 1) ∧ (∀ n, base_min < n → base_min ≤ n - 1).
Proof. pose proof segment_bounds. pose proof base_bounds. repeat split; intros; lia. Qed.

(** bytes: a segment uses as much of [segment_target] as whole elements can, a
    node (header plus [base_max] entries) as much of [base_target] *)
Theorem C43_segment_bytes :
  1 ≤ c_sizeof_T C →
  (c_sizeof_T C ≤ c_segment_target C →
     segment_max * c_sizeof_T C ≤ c_segment_target C < (segment_max + 1) * c_sizeof_T C) ∧
  (c_segment_target C < c_sizeof_T C → segment_max = 1).
Proof.
  intros Hs. rewrite /segment_max /segment_fit.
  pose proof (Nat.div_mod (c_segment_target C) (c_sizeof_T C)) as Hd.
  pose proof (Nat.mod_upper_bound (c_segment_target C) (c_sizeof_T C)) as Hm.
  set (n := c_segment_target C / c_sizeof_T C) in *. split.
  - intros Ht. assert (1 ≤ n) by (apply (Nat.div_le_lower_bound _ _ 1); lia).
    destruct (1 <? n) eqn:E; [apply Nat.ltb_lt in E; nia|apply Nat.ltb_ge in E]. assert (n = 1) by lia. nia.
  - intros Ht. rewrite /n Nat.div_small //.
Qed.
Theorem C43_node_bytes :
  1 ≤ c_sizeof_data C →
  (c_sizeof_base C + 3 * c_sizeof_data C ≤ c_base_target C →
     c_sizeof_base C + base_max * c_sizeof_data C ≤ c_base_target C < c_sizeof_base C + (base_max + 1) * c_sizeof_data C) ∧
  (c_base_target C < c_sizeof_base C + 4 * c_sizeof_data C → base_max = 3).
Proof.
  intros Hs. rewrite /base_max /base_fit /base_free.
  set (f := if c_base_target C <? c_sizeof_base C then 0 else c_base_target C - c_sizeof_base C).
  assert (f = c_base_target C - c_sizeof_base C) as Hf.
  { rewrite /f. destruct (_ <? _) eqn:E; [apply Nat.ltb_lt in E; lia|done]. }
  pose proof (Nat.div_mod f (c_sizeof_data C)) as Hd. pose proof (Nat.mod_upper_bound f (c_sizeof_data C)) as Hm.
  set (n := f / c_sizeof_data C) in *. split.
  - intros Ht. assert (3 ≤ n) by (apply (Nat.div_le_lower_bound _ _ 3); lia).
    destruct (3 <? n) eqn:E; [apply Nat.ltb_lt in E; nia|apply Nat.ltb_ge in E]. assert (n = 3) by lia. nia.
  - intros Ht. destruct (3 <? n) eqn:E; [apply Nat.ltb_lt in E|done]. nia.
Qed.
End const.

(** the blocks really have these capacities *)
Theorem C43_blocks {T} {C : cfg T} {OK : cfg_ok C} ρ st x k :
  reached C ρ st → k ∈ blocks_of st ρ x →
  (∃ al slots, st_heap st !! k = Some (OSeg al slots) ∧ length slots = segment_max) ∨
  (∃ al nd, st_heap st !! k = Some (ONode al nd) ∧ length (n_sizes nd) = base_max ∧ length (n_ptrs nd) = base_max).
Proof.
  intros Hr [Hk|Hk]%elem_of_app.
  - right. destruct (seq_at st ρ x) as [s|] eqn:Hs; [|by rewrite /index_nodes Hs in Hk; apply elem_of_nil in Hk].
    destruct (reached_container _ _ _ _ Hr Hs) as (xs & a & Hc). destruct (reached_lives _ _ _ _ _ Hr Hc) as (o & l & Hl & Ho & _).
    rewrite (lives_nodes _ _ _ _ _ _ Hl Ho) in Hk. destruct o as [t|]; [|by apply elem_of_nil in Hk]. cbn [onodes] in Hk.
    destruct (tnodes_subtree _ _ Hk) as (ts & Hsub). destruct Ho as (h & _ & _ & _ & Hst).
    destruct (stored_subtree _ _ _ _ _ _ _ _ Hst Hsub) as ([|h'] & p & i & Hst' & _); [done|]. cbn [stored] in Hst'.
    destruct Hst' as (_ & (junk & Hj & Hm) & _). eexists _, _. split; [done|]. simpl.
    rewrite !fmap_length !app_length !fmap_length. done.
  - left. destruct (segments st ρ x) as [ss|] eqn:Hss; [|by apply elem_of_nil in Hk]. simpl in Hk.
    apply elem_of_list_fmap in Hk as ([l ys] & -> & Hin).
    destruct (C38_lifetimes ρ st x ss l ys Hr Hss Hin) as (al & slots & H1 & H2 & _). by exists al, slots.
Qed.
