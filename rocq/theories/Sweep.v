(** * Sweep: accesses of the destruction of a container: linear in the number of
    blocks it frees.  Proof infrastructure. *)
From Verif Require Export Loops.
From stdpp Require Import options.
Set Default Proof Using "Type*".

Section sweep.
Context {T : Type} {C : cfg T} {OK : cfg_ok C}.
Implicit Types st : state T.
Implicit Types o : option (tree T).
Notation reads st := (n_reads (st_cnt st)).
Notation blocks st := (size (st_heap st)).

(** [k] accesses, and [K] for every block that is freed *)
Definition pays (K k : nat) {A} (m : M T A) : Prop := ∀ st, arrays (st_heap st) →
  match m st with
  | Ok _ st' => arrays (st_heap st') ∧ reads st' + K * blocks st' ≤ reads st + k + K * blocks st
  | Throw _ _ => False
  | Fault _ => True
  end.
Lemma pays_ret K {A} (a : A) : pays K 0 (mret a). Proof. intros st Ha. simpl. split; [done|lia]. Qed.
Lemma pays_fail K k {A} f : pays K k (fail (A:=A) f). Proof. by intros st. Qed.
Lemma pays_mono K k k' {A} (m : M T A) : pays K k m → k ≤ k' → pays K k' m.
Proof. intros H Hk st Ha. specialize (H st Ha). destruct (m st); [|done..]. split; [tauto|lia]. Qed.
Lemma pays_bind K j k {A B} (m : M T A) (f : A → M T B) : pays K j m → (∀ a, pays K k (f a)) → pays K (j + k) (m ≫= f).
Proof.
  intros Hm Hf st Ha. specialize (Hm st Ha). rewrite /mbind /M_bind. destruct (m st) as [a st1|e st1|]; [|done..].
  destruct Hm as [Ha1 Hm]. specialize (Hf a st1 Ha1). destruct (f a st1) as [b st2|e st2|]; [|done..]. split; [tauto|lia].
Qed.
Lemma pays_load K p : pays K 1 (load p).
Proof. intros st Ha. destruct p as [l|]; simpl; [|done]. destruct (st_heap st !! l); [|done]. simpl. split; [done|lia]. Qed.
Lemma pays_elem K {A} (l : list A) i : pays K 0 (elem l i).
Proof. rewrite /elem. destruct (l !! i); [apply pays_ret|apply pays_fail]. Qed.
Lemma pays_init K {A} (x : option A) : pays K 0 (init x).
Proof. destruct x; [apply pays_ret|apply pays_fail]. Qed.
Ltac load1 := eapply pays_mono; [eapply pays_bind; [apply pays_load|]; intros [? []]; first [apply pays_ret|apply pays_fail]|done].
Lemma pays_load_node K p : pays K 1 (load_node p). Proof. load1. Qed.
Lemma pays_load_seg K p : pays K 1 (load_seg p). Proof. load1. Qed.
Lemma pays_load_seq K p : pays K 1 (load_seq p). Proof. load1. Qed.
Ltac field := eapply (pays_mono _ (1 + 0)); [eapply pays_bind; [apply pays_load_node||apply pays_load_seg||apply pays_load_seq|]; intros ?;
  repeat first [apply pays_ret | apply pays_elem | apply pays_init | eapply (pays_bind _ 0 0); [apply pays_elem||apply pays_init|intros ?]]|lia].
Lemma pays_length_of K p : pays K 1 (length_of p). Proof. field. Qed.
Lemma pays_sizes K p i : pays K 1 (sizes p i). Proof. field. Qed.
Lemma pays_pointers K p i : pays K 1 (pointers p i). Proof. field. Qed.
Lemma pays_get_root K l : pays K 1 (get_root l). Proof. field. Qed.
Lemma pays_get_size K l : pays K 1 (get_size l). Proof. field. Qed.
Lemma pays_get_height K l : pays K 1 (get_height l). Proof. field. Qed.
Lemma pays_get_element_allocator K l : pays K 1 (get_element_allocator l). Proof. field. Qed.
Lemma pays_get_node_allocator K l : pays K 1 (get_node_allocator l). Proof. field. Qed.
(** an update of a block that is there *)
Lemma pays_eff K k {A} (m : M T A) :
  any k m → eff karr m → (∀ st, match m st with Ok _ st' => blocks st' = blocks st | Throw _ _ => False | Fault _ => True end) → pays K k m.
Proof.
  intros Hk He Hs st Ha. specialize (Hk st). specialize (He st). specialize (Hs st). destruct (m st) as [a st'|e st'|]; [|done..].
  split; [by apply He|]. rewrite Hs. lia.
Qed.
Lemma blocks_store (h : heap T) l b b' : h !! l = Some b → size (<[l := b']> h) = size h.
Proof. intros H. rewrite map_size_insert H. done. Qed.
Lemma pays_set_slot K p i v : pays K 1 (set_slot p i v).
Proof.
  apply pays_eff; [apply any_set_slot|apply a_set_slot|]. intros st. rewrite /set_slot /load_seg /load /mbind /M_bind.
  destruct p as [l|]; simpl; [|done]. destruct (st_heap st !! l) as [[| |]|] eqn:E; simpl; try done.
  rewrite /put. destruct (_ <? _); simpl; [|done]. by eapply blocks_store.
Qed.
Lemma pays_slot K p i : pays K 1 (slot p i). Proof. field. Qed.
Lemma any_set_pointers p i q : any (T:=T) 1 (set_pointers p i q).
Proof.
  rewrite /set_pointers /set_node. eapply any_bind_pure; [apply any_load_node|]. intros x. eapply any_bind_pure; [|intros; apply any_store].
  eapply any_bind_pure; [|intros; apply any_ret]. rewrite /put. destruct (_ <? _); [apply any_ret|apply any_fail].
Qed.
Lemma pays_set_pointers K p i q : pays K 1 (set_pointers p i q).
Proof.
  apply pays_eff; [apply any_set_pointers|apply a_set_pointers|]. intros st. rewrite /set_pointers /set_node /load_node /load /mbind /M_bind.
  destruct p as [l|]; simpl; [|done]. destruct (st_heap st !! l) as [[| |]|] eqn:E; simpl; try done.
  rewrite /put. destruct (_ <? _); simpl; [|done]. by eapply blocks_store.
Qed.
Lemma pays_destroy_segment K p i : pays K 2 (destroy_segment p i).
Proof.
  rewrite /destroy_segment. eapply (pays_bind _ 1 1); [apply pays_slot|]. intros [v|]; [apply pays_set_slot|apply pays_fail].
Qed.
Lemma pays_destroy_node K p i : pays K 1 (destroy_node p i). Proof. apply pays_set_pointers. Qed.
Lemma blocks_free (h : heap T) l b : h !! l = Some b → S (size (delete l h)) = size h.
Proof. intros H. rewrite map_size_delete H. assert (size h ≠ 0); [|lia]. rewrite map_size_non_empty_iff. intros ->. done. Qed.
(** freeing pays for [K] accesses *)
Lemma pays_deallocate_segment K this p : ∀ st, arrays (st_heap st) →
  match deallocate_segment (C:=C) this p st with
  | Ok _ st' => arrays (st_heap st') ∧ reads st' + K * blocks st' + (match p with Some _ => K | None => 0 end) ≤ reads st + 2 + K * blocks st
  | Throw _ _ => False
  | Fault _ => True
  end.
Proof.
  intros st Ha. rewrite /deallocate_segment /get_element_allocator /load_seq /load_seg /load /mbind /M_bind /=.
  destruct (st_heap st !! this) as [[| |]|]; try done. simpl. destruct p as [l|].
  - simpl. destruct (st_heap st !! l) as [[| |]|] eqn:E; try done. simpl. destruct (_ && _); [|done]. simpl.
    split; [by apply arrays_delete|]. apply blocks_free in E. rewrite -E. simpl. lia.
  - destruct (c_null_free C); [|done]. simpl. split; [done|lia].
Qed.
Lemma pays_deallocate_node K this p : ∀ st, arrays (st_heap st) →
  match deallocate_node this p st with
  | Ok _ st' => arrays (st_heap st') ∧ reads st' + K * blocks st' + K ≤ reads st + 2 + K * blocks st
  | Throw _ _ => False
  | Fault _ => True
  end.
Proof.
  intros st Ha. rewrite /deallocate_node /get_node_allocator /load_seq /load_node /load /mbind /M_bind /=.
  destruct (st_heap st !! this) as [[| |]|]; try done. simpl. destruct p as [l|]; simpl; [|done].
  destruct (st_heap st !! l) as [[| |]|] eqn:E; try done. simpl. destruct (_ =? _); [|done]. simpl.
  split; [by apply arrays_delete|]. apply blocks_free in E. rewrite -E. simpl. lia.
Qed.
(** a loop over an array of [B] places *)
Lemma pays_for K B c (f : nat → M T unit) n i :
  (∀ i, pays K c (f i)) → (∀ i st, B ≤ i → arrays (st_heap st) → match f i st with Fault _ => True | _ => False end) →
  pays K ((B - i) * c) (for_ n i f).
Proof.
  intros Hf Hout. revert i. induction n as [|n IH]; intros i; cbn [for_].
  { eapply pays_mono; [apply pays_ret|apply Nat.le_0_l]. }
  destruct (decide (B ≤ i)) as [Hi|Hi].
  - intros st Ha. specialize (Hout i st Hi Ha). rewrite /mbind /M_bind. by destruct (f i st).
  - eapply pays_mono; [eapply pays_bind; [apply Hf|intros _; apply IH]|]. replace (B - i) with (S (B - S i)) by lia. simpl. done.
Qed.
Lemma destroy_segment_out p i st : segment_max ≤ i → arrays (st_heap st) → match destroy_segment p i st with Fault _ => True | _ => False end.
Proof.
  intros Hi Ha. rewrite /destroy_segment /slot /load_seg /load /mbind /M_bind. destruct p as [l|]; simpl; [|done].
  destruct (st_heap st !! l) as [[| |]|] eqn:E; simpl; try done. specialize (Ha _ _ E). simpl in Ha.
  rewrite /elem. by rewrite lookup_ge_None_2; [|lia].
Qed.
Lemma pointers_out p i st : base_max ≤ i → arrays (st_heap st) → match pointers p i st with Fault _ => True | _ => False end.
Proof.
  intros Hi Ha. rewrite /pointers /load_node /load /mbind /M_bind. destruct p as [l|]; simpl; [|done].
  destruct (st_heap st !! l) as [[| |]|] eqn:E; simpl; try done. specialize (Ha _ _ E). simpl in Ha.
  rewrite /elem. by rewrite lookup_ge_None_2; [|lia].
Qed.
Definition K : nat := 5 * un + 6.
Lemma pays_purge_segment this p n : pays K 2 (purge_segment this p n).
Proof.
  intros st Ha. rewrite /purge_segment.
  assert (pays K (match p with Some _ => 2 * segment_max | None => 0 end) (if c_triv_destroy C then mret () else for_ n 0 (destroy_segment p) : M T unit)) as H.
  { destruct (c_triv_destroy C); [eapply pays_mono; [apply pays_ret|apply Nat.le_0_l]|]. destruct p as [l|].
    - eapply pays_mono; [apply (pays_for _ segment_max 2)|]; [intros; apply pays_destroy_segment|intros; by apply destroy_segment_out|lia].
    - destruct n; [apply pays_ret|]. intros st'. by rewrite /= /mbind /M_bind. }
  specialize (H st Ha). rewrite /mbind /M_bind. set (m := if c_triv_destroy C then _ else _) in *. destruct (m st) as [[] st1|e st1|]; [|done..].
  destruct H as [Ha1 H]. pose proof (pays_deallocate_segment K this p st1 Ha1) as H2.
  destruct (deallocate_segment this p st1) as [[] st2|e st2|]; [|done..]. destruct H2 as [Ha2 H2]. split; [done|].
  destruct p as [l|]; [|lia]. assert (2 * segment_max ≤ K) by (rewrite /K /un; lia). lia.
Qed.
Lemma pays_purge_node this h p : pays K 0 (purge_node this h p).
Proof.
  revert p. induction h as [|h IH]; intros p; [apply pays_fail|]. cbn [purge_node]. intros st Ha.
  assert (pays K (1 + 5 * base_max) (n ← length_of p; if S h =? 2 then
       for_ n 0 (λ i, c ← pointers p i; s ← sizes p i; purge_segment this c s;; destroy_node p i)
     else for_ n 0 (λ i, c ← pointers p i; purge_node this h c;; destroy_node p i))) as H.
  { apply pays_bind; [apply pays_length_of|]. intros n.
    assert (∀ c (g : nat → ptr → M T unit), c ≤ 4 → (∀ i q, pays K c (g i q)) →
      pays K (5 * base_max) (for_ n 0 (λ i, q ← pointers p i; g i q))) as Hl.
    { intros c g Hc Hg. eapply pays_mono; [apply (pays_for _ base_max (1 + c))|].
      - intros i. eapply pays_bind; [apply pays_pointers|apply Hg].
      - intros i st' Hi Ha'. pose proof (pointers_out p i st' Hi Ha') as H. rewrite /mbind /M_bind. by destruct (pointers p i st').
      - nia. }
    destruct (S h =? 2).
    - apply (Hl (1 + (2 + 1))); [done|]. intros i q. apply pays_bind; [apply pays_sizes|]. intros s.
      apply pays_bind; [apply pays_purge_segment|]. intros _. apply pays_destroy_node.
    - apply (Hl (0 + 1)); [lia|]. intros i q. apply pays_bind; [apply IH|]. intros _. apply pays_destroy_node. }
  specialize (H st Ha). rewrite /mbind /M_bind in H |- *. destruct (length_of p st) as [n st1|e st1|]; [|done..].
  set (m := if S h =? 2 then _ else _) in *. change (match m st1 with Ok _ st' => arrays (st_heap st') ∧ reads st' + K * blocks st' ≤ reads st + (1 + 5 * base_max) + K * blocks st | Throw _ _ => False | Fault _ => True end) in H.
  destruct (m st1) as [[] st2|e st2|]; [|done..].
  destruct H as [Ha2 H]. pose proof (pays_deallocate_node K this p st2 Ha2) as H2.
  destruct (deallocate_node this p st2) as [[] st3|e st3|]; [|done..]. destruct H2 as [Ha3 H2]. split; [done|].
  assert (5 * base_max + 3 ≤ K) by (rewrite /K /un; lia). lia.
Qed.
Lemma pays_purge this : pays K 5 (purge this).
Proof.
  apply (pays_bind _ 1 4); [apply pays_get_root|]. intros r. apply (pays_bind _ 1 3); [apply pays_get_size|]. intros n.
  apply (pays_bind _ 1 2); [apply pays_get_height|]. intros ht. rewrite /purge_root.
  destruct (ht <? 2); [apply pays_purge_segment|]. eapply pays_mono; [apply pays_purge_node|lia].
Qed.

(** ** The whole container *)
Lemma onblk_le o h : match o with Some t => wfroot (C:=C) h t | None => True end → onblk o ≤ 2 * osize o.
Proof.
  destruct o as [t|]; cbn [onblk]; [|lia]. intros Hw. destruct (wfroot_counts _ _ Hw) as (Hs & H1 & Hn).
  pose proof (wfroot_tsize _ _ Hw) as Hpos. rewrite -tlocs_nblk tlocs_split app_length fmap_length.
  change (osize (Some t)) with (tsize t). pose proof segment_bounds. destruct Hs as [Hs|Hs]; [lia|]. nia.
Qed.
Definition sweep (n : nat) : nat := K * (2 * n + 1) + 5.
Lemma tk_purge a this o : may_purge o → seqp a a this o ⊢ tk (sweep (osize o)) (purge this).
Proof.
  intros Hmp. split; intros h Hs. rewrite tk_holds. intros hf clk cnt Hd Ha.
  assert (seqp a a this o ⊢ wp (purge this) (λ _, True)%I (λ _, False)%I) as [Hent].
  { iIntros "Hs". iApply (wp_purge with "Hs"); [done|]. iIntros (r n ht) "_". done. }
  pose proof (Hent h Hs) as Hwp.
  rewrite wp_holds in Hwp. specialize (Hwp hf clk cnt Hd (map_empty_subseteq hf)).
  pose proof (pays_purge this (State (h ∪ hf) clk cnt) Ha) as Hp. rewrite /runs.
  destruct (purge this _) as [[] st'|e st'|]; [|done..]. destruct Hp as [_ Hp]. simpl in Hp.
  destruct Hwp as (h' & Hd' & Heq & _). rewrite Heq !map_size_disj_union // in Hp.
  assert (size h ≤ 2 * osize o + 1) as Hsz.
  { destruct (seqp_fp a this o h Hs) as [Hnd Hdom]. rewrite -size_dom Hdom size_list_to_set //.
    cbn [length]. destruct o as [t|]; cbn [olocs length]; [|lia]. rewrite tlocs_nblk.
    cbn [seqp] in Hs. apply exist_holds in Hs as (hh & Hs). apply sep_holds in Hs as (h1 & h2 & _ & _ & Hs & _).
    apply apure_holds in Hs as [[Hw _] _]. pose proof (onblk_le (Some t) hh Hw). simpl in *. lia. }
  simpl. rewrite /sweep. nia.
Qed.
End sweep.
