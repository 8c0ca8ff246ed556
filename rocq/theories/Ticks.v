(** * Ticks: how many memory accesses searching and moving an iterator make, and a
    logic that adds up the accesses of a program whose behaviour is known.
    Proof infrastructure. *)
From Verif Require Export Cost.
From stdpp Require Import options.
Set Default Proof Using "Type*".

Section look.
Context {T : Type} {C : cfg T} {OK : cfg_ok C}.
Implicit Types st : state T.
Implicit Types h : heap T.
Notation reads st := (n_reads (st_cnt st)).

(** at most [k] accesses in state [st] *)
Definition runs (k : nat) {A} (m : M T A) st : Prop :=
  match m st with Ok _ st' | Throw _ st' => reads st' ≤ reads st + k | Fault _ => True end.
Lemma runs_mono k k' {A} (m : M T A) st : runs k m st → k ≤ k' → runs k' m st.
Proof. rewrite /runs. destruct (m st); lia. Qed.
Lemma runs_any k {A} (m : M T A) st : any k m → runs k m st.
Proof. intros H. apply H. Qed.

(** only reads memory [h]: at most [k] accesses, result in [Q] *)
Definition look h (k : nat) {A} (m : M T A) (Q : A → Prop) : Prop := ∀ st, st_heap st = h →
  match m st with
  | Ok a st' => st_heap st' = h ∧ reads st' ≤ reads st + k ∧ Q a
  | Throw _ st' => reads st' ≤ reads st + k
  | Fault _ => True
  end.
Definition tt_ {A} : A → Prop := λ _, True.
Lemma look_runs k {A} (m : M T A) Q st : look (st_heap st) k m Q → runs k m st.
Proof. intros H. specialize (H st eq_refl). rewrite /runs. destruct (m st); [tauto|done..]. Qed.
Lemma look_mono h k k' {A} (m : M T A) (Q Q' : A → Prop) : look h k m Q → k ≤ k' → (∀ a, Q a → Q' a) → look h k' m Q'.
Proof.
  intros H Hk HQ st Hs. specialize (H st Hs). destruct (m st) as [a st1|e st1|]; [|lia|done].
  destruct H as (? & ? & ?). split_and!; [done|lia|by apply HQ].
Qed.
Lemma look_le h k k' {A} (m : M T A) (Q : A → Prop) : look h k m Q → k ≤ k' → look h k' m Q.
Proof. intros H Hk. by eapply look_mono. Qed.
Lemma look_bind h j k {A B} (m : M T A) (f : A → M T B) Q Q' :
  look h j m Q → (∀ a, Q a → look h k (f a) Q') → look h (j + k) (m ≫= f) Q'.
Proof.
  intros Hm Hf st Hs. rewrite /mbind /M_bind. specialize (Hm st Hs). destruct (m st) as [a st1|e st1|]; [|lia|done].
  destruct Hm as (Hs1 & Hr1 & Ha). specialize (Hf a Ha st1 Hs1). destruct (f a st1) as [b st2|e st2|]; [|lia|done].
  destruct Hf as (? & ? & ?). split_and!; [done|lia|done].
Qed.
Lemma look_ret h k {A} (a : A) (Q : A → Prop) : Q a → look h k (mret a) Q.
Proof. intros HQ st Hs. simpl. split_and!; [done|lia|done]. Qed.
Lemma look_fail h k {A} f (Q : A → Prop) : look h k (fail (A:=A) f) Q. Proof. by intros st Hs. Qed.
Lemma look_any h k {A} (m : M T A) : any k m → eff same m → look h k m tt_.
Proof.
  intros Ha He st Hs. specialize (Ha st). specialize (He st). destruct (m st); [|done..].
  destruct He as (He & _). rewrite He. done.
Qed.
Lemma any_load_node p : any (T:=T) 1 (load_node p).
Proof. apply any_bind_pure; [apply any_load|]. intros [l [| |]]; [apply any_ret || apply any_fail..]. Qed.
Lemma any_elem {A} (l : list A) i : any (T:=T) 0 (elem l i).
Proof. rewrite /elem. destruct (_ !! _); [apply any_ret|apply any_fail]. Qed.
Lemma any_init {A} (x : option A) : any (T:=T) 0 (init x).
Proof. destruct x; [apply any_ret|apply any_fail]. Qed.
Ltac field := apply any_bind_pure; [apply any_load_node|]; intros s; try (apply any_bind_pure; [apply any_elem|]; intros ?); apply any_init || apply any_elem.
Lemma any_sizes p i : any (T:=T) 1 (sizes p i). Proof. field. Qed.
Lemma any_pointers p i : any (T:=T) 1 (pointers p i).
Proof.
  apply any_bind_pure; [apply any_load_node|]. intros s. apply any_bind_pure; [apply any_elem|]. intros c.
  apply any_bind_pure; [apply any_init|]. intros l. apply any_ret.
Qed.
Lemma any_length_of p : any (T:=T) 1 (length_of p). Proof. field. Qed.
Lemma any_parent_index p : any (T:=T) 1 (parent_index p). Proof. field. Qed.
Lemma any_parent_pointer p : any (T:=T) 1 (parent_pointer p). Proof. field. Qed.
Lemma look_sizes h p i : look h 1 (sizes p i) tt_. Proof. apply look_any; [apply any_sizes|]. exact (eff_sizes same same_coarser _ _). Qed.
Lemma look_pointers h p i : look h 1 (pointers p i) tt_. Proof. apply look_any; [apply any_pointers|]. exact (eff_pointers same same_coarser _ _). Qed.
Lemma look_length_of h p : look h 1 (length_of p) tt_. Proof. apply look_any; [apply any_length_of|]. exact (eff_length_of same same_coarser _). Qed.
Lemma look_parent_index h p : look h 1 (parent_index p) tt_. Proof. apply look_any; [apply any_parent_index|]. exact (eff_parent_index same same_coarser _). Qed.
Lemma look_parent_pointer h l al nd p :
  h !! l = Some (ONode al nd) → n_parent nd = Some p → look h 1 (parent_pointer (Some l)) (λ q, q = p).
Proof.
  intros Hl Hp st Hs. rewrite /parent_pointer /load_node /load /mbind /M_bind Hs Hl /= Hp /=. split_and!; [done|lia|done].
Qed.
Lemma look_if h k {A} (b : bool) (m1 m2 : M T A) (Q : A → Prop) : look h k m1 Q → look h k m2 Q → look h k (if b then m1 else m2) Q.
Proof. by destruct b. Qed.

(** ** Searching: one node per level, at most all its entries *)
Ltac step H := eapply look_bind; [apply H|intros ? _].
Definition lv : nat := base_max + 3.
Lemma look_find_scan h n p i k : look h n (find_scan n p i k) tt_.
Proof.
  revert i k. induction n as [|n IH]; intros i k; simpl; [apply look_fail|].
  apply (look_bind _ 1 n _ _ tt_); [apply look_sizes|intros s _]. apply look_if; [apply IH|by apply look_ret].
Qed.
Lemma look_find_index_leaf h p pos : look h lv (find_index_leaf p pos) tt_.
Proof.
  eapply look_le; [step look_find_scan; step look_pointers; step look_sizes; by apply (look_ret _ 0)|]. rewrite /lv. lia.
Qed.
Lemma look_find_index_branch h p ht pos : look h (ht * lv + lv) (find_index_branch p ht pos) tt_.
Proof.
  revert p pos. induction ht as [|ht IH]; intros p pos; cbn [find_index_branch]; [apply look_fail|].
  eapply look_le; [step look_find_scan; step look_pointers; apply (look_if _ (ht * lv + lv))|].
  - eapply look_le; [apply look_find_index_leaf|lia].
  - apply IH.
  - rewrite /lv. lia.
Qed.
Lemma look_find_index_node h p ht pos : look h (ht * lv + lv) (find_index_node p ht pos) tt_.
Proof.
  rewrite /find_index_node. apply look_if; [|apply look_find_index_branch].
  eapply look_le; [apply look_find_index_leaf|lia].
Qed.
Lemma look_find_first_leaf h p : look h lv (find_first_leaf p) tt_.
Proof. eapply look_le; [step look_pointers; step look_sizes; by apply (look_ret _ 0)|]. rewrite /lv. lia. Qed.
Lemma look_find_first_branch h p ht : look h (ht * lv + lv) (find_first_branch p ht) tt_.
Proof.
  revert p. induction ht as [|ht IH]; intros p; cbn [find_first_branch]; [apply look_fail|].
  eapply look_le; [step look_pointers; apply (look_if _ (ht * lv + lv))|].
  - eapply look_le; [apply look_find_first_leaf|lia].
  - apply IH.
  - rewrite /lv. lia.
Qed.
Lemma look_find_first_node h p ht : look h (ht * lv + lv) (find_first_node p ht) tt_.
Proof.
  rewrite /find_first_node. apply look_if; [|apply look_find_first_branch].
  eapply look_le; [apply look_find_first_leaf|lia].
Qed.
Lemma look_find_last_leaf h p : look h lv (find_last_leaf p) tt_.
Proof. eapply look_le; [step look_length_of; step look_pointers; step look_sizes; by apply (look_ret _ 0)|]. rewrite /lv. lia. Qed.
Lemma look_find_last_branch h p ht : look h (ht * lv + lv) (find_last_branch p ht) tt_.
Proof.
  revert p. induction ht as [|ht IH]; intros p; cbn [find_last_branch]; [apply look_fail|].
  eapply look_le; [step look_length_of; step look_pointers; apply (look_if _ (ht * lv + lv))|].
  - eapply look_le; [apply look_find_last_leaf|lia].
  - apply IH.
  - rewrite /lv. lia.
Qed.
Lemma look_find_last_node h p ht : look h (ht * lv + lv) (find_last_node p ht) tt_.
Proof.
  rewrite /find_last_node. apply look_if; [|apply look_find_last_branch].
  eapply look_le; [apply look_find_last_leaf|lia].
Qed.
Lemma look_find_end_leaf h p : look h lv (find_end_leaf p) tt_.
Proof. eapply look_le; [step look_length_of; step look_pointers; step look_sizes; by apply (look_ret _ 0)|]. rewrite /lv. lia. Qed.
Lemma look_find_end_branch h p ht : look h (ht * lv + lv) (find_end_branch p ht) tt_.
Proof.
  revert p. induction ht as [|ht IH]; intros p; cbn [find_end_branch]; [apply look_fail|].
  eapply look_le; [step look_length_of; step look_pointers; apply (look_if _ (ht * lv + lv))|].
  - eapply look_le; [apply look_find_end_leaf|lia].
  - apply IH.
  - rewrite /lv. lia.
Qed.
Lemma look_find_end_node h p ht : look h (ht * lv + lv) (find_end_node p ht) tt_.
Proof.
  rewrite /find_end_node. apply look_if; [|apply look_find_end_branch].
  eapply look_le; [apply look_find_end_leaf|lia].
Qed.

(** ** Moving: up to a common ancestor, and down *)
Definition up : nat := 3 * base_max + 10.
Lemma lv_up : lv + base_max + base_max + 7 = up. Proof. rewrite /lv /up. lia. Qed.
Lemma look_next_scan h n p i k : look h (2 * n) (next_scan n p i k) tt_.
Proof.
  revert i k. induction n as [|n IH]; intros i k; cbn [next_scan]; [apply look_fail|].
  eapply look_le; [step look_length_of; apply (look_if _ (1 + 2 * n))|lia]; [by apply look_ret|].
  step look_sizes. apply look_if; [by apply look_ret|apply IH].
Qed.
Lemma look_prev_scan_in h p i k : look h i (prev_scan p i k) tt_.
Proof.
  revert k. induction i as [|i IH]; intros k; cbn [prev_scan]; [by apply look_ret|].
  eapply look_le; [step look_sizes; apply (look_if _ i); [by apply look_ret|apply IH]|lia].
Qed.
Lemma look_prev_scan h p i k : arrays h → look h base_max (prev_scan p i k) tt_.
Proof.
  intros Ha. destruct (decide (i ≤ base_max)); [eapply look_le; [apply look_prev_scan_in|done]|].
  destruct i as [|i]; [lia|]. cbn [prev_scan]. intros st Hs. rewrite {1}/mbind /M_bind /sizes /load_node /load /mbind /M_bind Hs.
  destruct p as [l|]; [|done]. destruct (h !! l) as [[| al nd|]|] eqn:E; try done. simpl.
  destruct (Ha l _ E) as [Hlen _]. rewrite /elem. rewrite lookup_ge_None_2; [done|lia].
Qed.
Lemma look_fuel h k {A} (f : nat → M T A) (Q : A → Prop) : (∀ n, look h k (f n) Q) → look h k (heap_fuel ≫= f) Q.
Proof. intros Hf st Hs. rewrite /mbind /M_bind /heap_fuel. by apply Hf. Qed.

Lemma look_move_next_branch_loop h n e p i ch d :
  chain h p d → look h (d * up + (ch * lv + lv)) (move_next_branch_loop n e p i ch) tt_.
Proof.
  intros Hc. revert n i ch. induction Hc as [|l al nd p d Hl Hp Hc IH]; intros n i ch;
    (destruct n as [|n]; [apply look_fail|]); cbn [move_next_branch_loop]; [by apply look_ret|].
  pose proof lv_up. eapply look_le; [step look_length_of; apply (look_if _ (2 + d * up + lv + (ch * lv + lv)))|lia].
  - eapply look_le; [step look_pointers; apply look_find_first_node|lia].
  - eapply look_le; [step look_parent_index; eapply look_bind; [by eapply look_parent_pointer|intros ? ->]; apply IH|]. lia.
Qed.
Lemma look_move_prev_branch_loop h n p i ch d :
  chain h p d → look h (d * up + (ch * lv + lv)) (move_prev_branch_loop n p i ch) tt_.
Proof.
  intros Hc. revert n i ch. induction Hc as [|l al nd p d Hl Hp Hc IH]; intros n i ch;
    (destruct n as [|n]; [apply look_fail|]); cbn [move_prev_branch_loop].
  { apply look_if; by intros st Hs. }
  pose proof lv_up. eapply look_le; [apply (look_if _ (2 + d * up + lv + (ch * lv + lv)))|lia].
  - eapply look_le; [step look_pointers; apply look_find_last_node|lia].
  - eapply look_le; [step look_parent_index; eapply look_bind; [by eapply look_parent_pointer|intros ? ->]; apply IH|]. lia.
Qed.
Lemma look_move_next_branch_count_loop h n base p i k ch d :
  chain h p d → look h (d * up + (ch * lv + lv)) (move_next_branch_count_loop n base p i k ch) tt_.
Proof.
  intros Hc. revert n base i k ch. induction Hc as [|l al nd p d Hl Hp Hc IH]; intros n base i k ch;
    (destruct n as [|n]; [apply look_fail|]); cbn [move_next_branch_count_loop].
  { eapply look_le; [apply look_find_end_node|lia]. }
  pose proof lv_up. eapply look_le; [step look_next_scan|].
  - destruct a as [[[i' sz] k']|k']; [eapply (look_le _ _ (2 + (d * up + ((ch + 1) * lv + lv)))); [step look_pointers; apply look_find_index_node|lia]|].
    eapply look_le; [step look_parent_index; eapply look_bind; [by eapply look_parent_pointer|intros ? ->]; apply IH|]. lia.
  - lia.
Qed.
Lemma look_move_prev_branch_count_loop h n p i k ch d :
  arrays h → chain h p d → look h (d * up + (ch * lv + lv)) (move_prev_branch_count_loop n p i k ch) tt_.
Proof.
  intros Ha Hc. revert n i k ch. induction Hc as [|l al nd p d Hl Hp Hc IH]; intros n i k ch;
    (destruct n as [|n]; [apply look_fail|]); cbn [move_prev_branch_count_loop].
  { destruct i as [|i]; cbn [prev_scan]; by intros st Hs. }
  pose proof lv_up. eapply look_le; [eapply look_bind; [by apply look_prev_scan|intros ? _]|].
  - destruct a as [[[i' sz] k']|k']; [eapply (look_le _ _ (2 + (d * up + ((ch + 1) * lv + lv)))); [step look_pointers; apply look_find_index_node|lia]|].
    eapply look_le; [step look_parent_index; eapply look_bind; [by eapply look_parent_pointer|intros ? ->]; apply IH|]. lia.
  - lia.
Qed.
Definition climb (d : nat) : nat := d * up + 3 * lv.
Lemma look_move_next_leaf h e d : chain h (lf_ptr (e_leaf e)) d → look h (climb d) (move_next_leaf e) tt_.
Proof.
  intros Hc. rewrite /move_next_leaf /climb. destruct Hc as [|l al nd p d Hl Hp Hc]; [by apply look_ret|].
  pose proof lv_up. eapply look_le; [step look_length_of; apply (look_if _ (3 + d * up + 3 * lv))|lia].
  - eapply look_le; [step look_pointers; step look_sizes; by apply (look_ret _ 0)|lia].
  - eapply look_le; [eapply look_bind; [by eapply look_parent_pointer|intros ? ->]; step look_parent_index;
      apply look_fuel; intros; by apply look_move_next_branch_loop|]. lia.
Qed.
Lemma look_move_prev_leaf h e d : chain h (lf_ptr (e_leaf e)) d → look h (climb d) (move_prev_leaf e) tt_.
Proof.
  intros Hc. rewrite /move_prev_leaf /climb. destruct Hc as [|l al nd p d Hl Hp Hc]; [apply look_if; by intros st Hs|].
  pose proof lv_up. eapply look_le; [apply (look_if _ (3 + d * up + 3 * lv))|lia].
  - eapply look_le; [step look_pointers; step look_sizes; by apply (look_ret _ 0)|lia].
  - eapply look_le; [eapply look_bind; [by eapply look_parent_pointer|intros ? ->]; step look_parent_index;
      apply look_fuel; intros; by apply look_move_prev_branch_loop|]. lia.
Qed.
Lemma look_move_next_leaf_count h e k d : chain h (lf_ptr (e_leaf e)) d → look h (climb d) (move_next_leaf_count e k) tt_.
Proof.
  intros Hc. rewrite /move_next_leaf_count /climb. destruct Hc as [|l al nd p d Hl Hp Hc]; [by apply look_ret|].
  pose proof lv_up. eapply look_le; [step look_next_scan|].
  - destruct a as [[[i' sz] k']|k']; [eapply (look_le _ _ (2 + (d * up + 3 * lv))); [step look_pointers; by apply (look_ret _ 0)|lia]|].
    eapply look_le; [eapply look_bind; [by eapply look_parent_pointer|intros ? ->]; step look_parent_index;
      apply look_fuel; intros; by apply look_move_next_branch_count_loop|]. lia.
  - lia.
Qed.
Lemma look_move_prev_leaf_count h e k d : arrays h → chain h (lf_ptr (e_leaf e)) d → look h (climb d) (move_prev_leaf_count e k) tt_.
Proof.
  intros Ha Hc. rewrite /move_prev_leaf_count /climb. destruct Hc as [|l al nd p d Hl Hp Hc].
  { destruct (lf_idx _) as [|i]; cbn [prev_scan]; by intros st Hs. }
  pose proof lv_up. eapply look_le; [eapply look_bind; [by apply look_prev_scan|intros ? _]|].
  - destruct a as [[[i' sz] k']|k']; [eapply (look_le _ _ (2 + (d * up + 3 * lv))); [step look_pointers; by apply (look_ret _ 0)|lia]|].
    eapply look_le; [eapply look_bind; [by eapply look_parent_pointer|intros ? ->]; step look_parent_index;
      apply look_fuel; intros; by apply look_move_prev_branch_count_loop|]. lia.
  - lia.
Qed.
Lemma look_then h k {A B} (m : M T A) (f : A → B) : look h k m tt_ → look h k (a ← m; mret (f a)) tt_.
Proof. intros H. eapply look_le; [eapply look_bind; [exact H|intros ? _; by apply (look_ret _ 0)]|lia]. Qed.
Lemma look_move_next h it d : chain h (lf_ptr (e_leaf (i_entry it))) d → look h (climb d) (move_next_iterator it) tt_.
Proof.
  intros Hc. apply look_then. rewrite /move_next_segment. apply look_if; [by apply look_ret|]. by apply look_move_next_leaf.
Qed.
Lemma look_move_prev h it d : chain h (lf_ptr (e_leaf (i_entry it))) d → look h (climb d) (move_prev_iterator it) tt_.
Proof.
  intros Hc. apply look_then. rewrite /move_prev_segment. apply look_if; [by apply look_ret|]. by apply look_move_prev_leaf.
Qed.
Lemma look_move_next_segment_count h e k d : chain h (lf_ptr (e_leaf e)) d → look h (climb d) (move_next_segment_count e k) tt_.
Proof. intros Hc. rewrite /move_next_segment_count. apply look_if; [by apply look_ret|by apply look_move_next_leaf_count]. Qed.
Lemma look_move_prev_segment_count h e k d :
  arrays h → chain h (lf_ptr (e_leaf e)) d → look h (climb d) (move_prev_segment_count e k) tt_.
Proof. intros Ha Hc. rewrite /move_prev_segment_count. apply look_if; [by apply look_ret|by apply look_move_prev_leaf_count]. Qed.
Lemma look_move_count h it z d :
  arrays h → chain h (lf_ptr (e_leaf (i_entry it))) d → look h (climb d) (move_iterator_count it z) tt_.
Proof.
  intros Ha Hc. rewrite /move_iterator_count. apply look_if; [apply look_then; by apply look_move_next_segment_count|].
  apply look_if; [apply look_then; by apply look_move_prev_segment_count|]. by apply look_ret.
Qed.
End look.
