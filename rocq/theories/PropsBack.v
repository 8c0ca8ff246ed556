(** * C69: the segments of a sequence that was filled from the back *)
From Verif Require Export LocalMany.
From stdpp Require Import options.
#[local] Set Default Proof Using "Type*".

Section spec.
Context {T : Type} {C : cfg T}.
(** the numbers of elements of the segments of [x] *)
Definition segment_sizes (st : state T) (ρ : env) (x : nat) : option (list nat) :=
  match segments st ρ x with Some ss => Some ((λ s : loc * list T, length s.2) <$> ss) | None => None end.
(** all segments but the last have the minimal size; the last, unless alone, has at least
    the size of the second half of a full segment with one element more *)
Definition from_back (ns : list nat) : Prop :=
  ns = [] ∨ ∃ k r, ns = replicate k segment_min ++ [r] ∧ 0 < r ≤ segment_max ∧
    (k = 0 ∨ segment_max + 1 - segment_min ≤ r).
(** likewise from the front: all segments but the first are second halves *)
Definition from_front (ns : list nat) : Prop :=
  ns = [] ∨ ∃ k r, ns = r :: replicate k (segment_max + 1 - segment_min) ∧ 0 < r ≤ segment_max ∧
    (k = 0 ∨ segment_min ≤ r).
(** the calls that append: the elements *)
Definition appends_one (σ : sst T) (c : cmd T) (x : nat) : Prop :=
  ∃ v, inserts_one σ c x v (length (contents σ x)).
Definition appends_many (σ : sst T) (c : cmd T) (x : nat) : Prop :=
  ∃ xs, inserts_many σ c x xs (length (contents σ x)).
Definition prepends_one (σ : sst T) (c : cmd T) (x : nat) : Prop :=
  ∃ v, inserts_one σ c x v 0.
(** the constructors that create [x] element by element *)
Definition fills (c : cmd T) (x : nat) : Prop :=
  match c with NewCount y _ _ _ | NewRange y _ _ | NewCopy y _ | NewCopyAlloc y _ _ => y = x | _ => False end.
End spec.

Section lists.
Context {T : Type} {C : cfg T} {OK : cfg_ok C}.
Implicit Types xs : list T.
Notation segl := (list (loc * list T)).
Definition sizes (S0 : segl) : list nat := (λ s : loc * list T, length s.2) <$> S0.
Lemma sizes_total S0 : length (concat S0.*2) = sum_list (sizes S0).
Proof. induction S0 as [|[l vs] S0 IH]; [done|]. cbn. by rewrite app_length IH. Qed.
Lemma total_app (S0 S1 : segl) : length (concat (S0 ++ S1).*2) = length (concat S0.*2) + length (concat S1.*2).
Proof. by rewrite fst_elems app_length. Qed.
Lemma total_cons l (vs : list T) (S0 : segl) : length (concat ((l, vs) :: S0).*2) = length vs + length (concat S0.*2).
Proof. by rewrite fmap_cons concat_cons app_length. Qed.
Lemma sizes_app S0 S1 : sizes (S0 ++ S1) = sizes S0 ++ sizes S1.
Proof. apply fmap_app. Qed.
Lemma sizes_nonempty S0 : Forall (λ n, 0 < n) (sizes S0) → length (concat S0.*2) = 0 → S0 = [].
Proof. destruct S0 as [|[l vs] S0]; [done|]. cbn. rewrite app_length. intros [? _]%Forall_cons ?. lia. Qed.
Lemma from_back_pos ns : from_back (C:=C) ns → Forall (λ n, 0 < n) ns.
Proof.
  pose proof (segment_bounds (C:=C)). intros [->|(k & r & -> & Hr & _)]; [done|].
  apply Forall_app. split; [|by constructor; [lia|]]. apply Forall_replicate. lia.
Qed.
Lemma from_front_pos ns : from_front (C:=C) ns → Forall (λ n, 0 < n) ns.
Proof.
  pose proof (segment_bounds (C:=C)). intros [->|(k & r & -> & Hr & _)]; [done|].
  constructor; [lia|]. apply Forall_replicate. lia.
Qed.

Definition grows (S0 S1 : segl) (pos : nat) xs : Prop :=
  pos = length (concat S0.*2) → from_back (C:=C) (sizes S0) →
  from_back (C:=C) (sizes S1) ∧ length (concat S1.*2) = pos + length xs.
Lemma grows_nil S0 pos : grows S0 S0 pos [].
Proof. intros -> ?. split; [done|]. simpl. lia. Qed.
Lemma grows_app S0 S1 S2 pos xs ys : grows S0 S1 pos xs → grows S1 S2 (pos + length xs) ys → grows S0 S2 pos (xs ++ ys).
Proof.
  intros H1 H2 Hp Hf. destruct (H1 Hp Hf) as [Hf1 Hl]. destruct (H2 (eq_sym Hl) Hf1) as [Hf2 Hl2].
  split; [done|]. rewrite app_length. lia.
Qed.
Lemma grows_one S0 S1 pos r (v : T) :
  (pos < length (concat S0.*2) → 0 < r) → seg_ins (C:=C) S0 S1 pos r v → grows S0 S1 pos [v].
Proof.
  pose proof (segment_bounds (C:=C)). intros _ Hs Hp Hf.
  destruct Hs as [(-> & -> & l & ->)|(SL & l & A & R & SR & -> & -> & _ & Hs)].
  { split; [|done]. right. exists 0, 1. split_and!; [done|lia|lia|by left]. }
  rewrite !(total_app, total_cons) !app_length in Hp.
  assert (R = []) as -> by (destruct R; [done|simpl in Hp; lia]).
  pose proof (from_back_pos _ Hf) as Hpos. rewrite sizes_app Forall_app in Hpos.
  destruct Hpos as [_ [_ Hpos]%Forall_cons].
  assert (SR = []) as -> by (apply sizes_nonempty; [done|lia]). clear Hpos.
  rewrite right_id_L in Hf, Hs.
  rewrite sizes_app in Hf. destruct Hf as [Hf|(k & r' & E & Hr & Hk)]; [by destruct (sizes SL)|].
  change (sizes [(l, A)]) with [length A] in E. apply app_inj_tail in E as [E <-].
  destruct Hs as [[Hlt ->]|(Heq & l' & X & Y & HXY & HX & ->)].
  - split; [|rewrite !(total_app, total_cons) !app_length /=; lia].
    right. exists k, (length A + 1). rewrite sizes_app E. split_and!; [|lia|lia|destruct Hk; [by left|right; lia]].
    f_equal. cbn. by rewrite app_length.
  - assert (length X + length Y = length A + 1) as HL.
    { rewrite -app_length HXY app_length. done. }
    split; [|rewrite !(total_app, total_cons) /=; lia].
    right. exists (S k), (length Y). rewrite sizes_app E. split_and!; [|lia|lia|right; lia].
    rewrite replicate_S_end -assoc_L. cbn. by rewrite HX.
Qed.
Lemma front_one S0 S1 r (v : T) :
  seg_ins (C:=C) S0 S1 0 r v → from_front (C:=C) (sizes S0) → from_front (C:=C) (sizes S1).
Proof.
  pose proof (segment_bounds (C:=C)). intros Hs Hf.
  destruct Hs as [(-> & _ & l & ->)|(SL & l & A & R & SR & -> & Hp & _ & Hs)].
  { right. exists 0, 1. split_and!; [done|lia|lia|by left]. }
  assert (A = []) as -> by (destruct A; [done|simpl in Hp; lia]).
  pose proof (from_front_pos _ Hf) as Hpos. rewrite sizes_app Forall_app in Hpos.
  destruct Hpos as [Hpos _].
  assert (SL = []) as -> by (apply sizes_nonempty; [done|lia]). clear Hpos.
  destruct Hf as [Hf|(k & r' & E & Hr & Hk)]; [done|].
  cbn in E. injection E as <- E. fold (sizes SR) in E.
  destruct Hs as [[Hlt ->]|(Heq & l' & X & Y & HXY & HX & ->)]; simpl in *.
  - right. exists k, (S (length R)). split_and!; [cbn; by rewrite -E|lia|lia|destruct Hk; [by left|right; lia]].
  - assert (length X + length Y = S (length R)) as HL.
    { rewrite -app_length HXY. done. }
    right. exists (S k), (length X). split_and!; [|lia|lia|right; lia]. cbn. fold (sizes SR). rewrite E. f_equal. f_equal. lia.
Qed.
End lists.

(** ** The constructors *)
Section wps.
Context {T : Type} {C : cfg T} {OK : cfg_ok C}.
Implicit Types σ : sst T.
Implicit Types ρ : env.
Implicit Types c : cmd T.
Implicit Types o : option (tree T).
Implicit Types τ : gmap nat (option (tree T) * nat).
Implicit Types xs : list T.
Definition back_filled o : Prop := from_back (C:=C) (sizes (osegs o)).

Lemma back_none : back_filled None.
Proof. by left. Qed.
Lemma grows_back o pos xs : pos = 0 → grows (C:=C) (osegs None) (osegs o) pos xs → back_filled o.
Proof. intros -> H. by apply H; [|left]. Qed.
Lemma fill_count n s x R a (Q : loc → hprop T) :
  throw_null (C:=C) → src_spec s x R R → n < c_W C →
  R -∗ (∀ l o, ⌜back_filled o⌝ → seqp a a l o -∗ R -∗ Q l) -∗ wp (ctor_count n s a) Q (λ _, True%I).
Proof.
  iIntros (Hth Hsrc Hn) "HR HQ". rewrite /ctor_count. iApply wp_ctor_with. iIntros (l) "Hs".
  wp_bind. iApply (wp_find_end with "Hs"). iIntros (it [Hit Hp]) "Hs". simpl in Hp. rewrite /emplace_count. wp_bind. wp_bind.
  iApply (wp_count_rel grows grows_nil grows_app grows_one with "Hs HR"); [done|done|done|]. iSplit.
  - iIntros (o' it' (Hsz & Hok' & Hp' & Hg)) "Hs HR". iApply (wp_move_prev_iterator_count with "Hs"); [done|lia|].
    iIntros (it2 _) "Hs". wp_ret. iApply ("HQ" with "[%] Hs HR"). by eapply grows_back.
  - iIntros (e o' k (Hr & _)) "Hs HR". iExists o'. iFrame "Hs". iSplitR; [iPureIntro; by eapply throw_null_purge|done].
Qed.
Lemma fill_range xs I J X late a l it r (Q : unit → hprop T) :
  throw_null (C:=C) → inp_spec xs I J X late → length xs < c_W C → length xs < input_fuel r → it_ok (T:=T) None it → i_pos it = 0 →
  seqp a a l None -∗ I r 0 -∗ (∀ o, ⌜back_filled o⌝ → seqp a a l o -∗ X (length xs) -∗ Q ()) -∗
  wp (emplace_range l it r;; mret ()) Q (λ _, ∃ o', ⟦may_purge o'⟧ ∗ seqp a a l o' ∗ True)%I.
Proof.
  iIntros (Hth Hin Hn Hf Hit Hp) "Hs HI HQ". rewrite /emplace_range. wp_bind. wp_bind.
  iApply (wp_range_rel grows grows_nil grows_app grows_one with "Hs HI"); [done|done|simpl; lia|lia|]. iSplit.
  - iIntros (r' o' it' (Hsz & Hok' & Hp' & Hg)) "Hs HI". cbn [fst snd]. iApply (wp_move_prev_iterator_count with "Hs"); [done|lia|].
    iIntros (it2 _) "Hs". wp_ret. iDestruct (inp_I _ _ _ _ _ Hin with "HI") as "HX". iApply ("HQ" with "[%] Hs HX"). by eapply grows_back.
  - iIntros (e o' j j' (Hr & _)) "Hs HX". iExists o'. iFrame "Hs". iSplitR; [iPureIntro; by eapply throw_null_purge|done].
Qed.
Lemma fill_copy eb nb other o2 a (Q : loc → hprop T) :
  throw_null (C:=C) →
  seqp eb nb other o2 -∗ (∀ l o o2', ⌜back_filled o⌝ → seqp a a l o -∗ seqp eb nb other o2' -∗ Q l) -∗
  wp (ctor_copy_alloc other a) Q (λ _, True%I).
Proof.
  iIntros (Hth) "H2 HQ". rewrite /ctor_copy_alloc. iApply wp_ctor_with. iIntros (l) "H1".
  iDestruct (seqp_lt with "H2") as %Hlt.
  wp_bind. iApply (wp_find_end with "H1"). iIntros (it [Hit Hp]) "H1".
  wp_bind. iApply (wp_whole_range false with "H2"). iIntros (r Hr) "H2".
  iApply (fill_range (oelems o2) with "H1 [H2]").
  - done.
  - apply (inp_seq eb nb false other o2 0 (osize o2)); [by rewrite slice_whole|done].
  - done.
  - destruct Hr as (f & e & -> & ? & ? & ? & _). simpl. unfold osize in *. lia.
  - done.
  - done.
  - iSplitR; [done|]. by iApply ins_X_intro.
  - iIntros (o Ho) "H1 HX". iDestruct "HX" as (o2' [??]) "H2". by iApply ("HQ" with "[%] H1 H2").
Qed.
Lemma wp_fills σ ρ τ c x :
  pre C σ c → fills c x → abs σ τ ρ →
  rep ρ τ ⊢ wp (exec_call c ρ) (λ r, ∃ a, new_segs x a back_filled r)%I (λ _, True%I).
Proof.
  intros Hpre Hf Ha. destruct c; try done; cbn [pre fills] in *; subst.
  - destruct Hpre as (Hx & Hfit & Hco & [v Hv] & Hth%can_throw_null).
    edestruct (gets_const σ τ τ) as (vs & Hg & Hsrc); [done..|].
    cbn [exec_call]. rewrite Hg. iIntros "Hr". vars. wp_bind. iApply (fill_count with "Hr"); [done..|].
    iIntros (l o Ho) "Hs Hr". done_fold. iExists a, o, τ. iSplitR; [done|].
    iApply rep_new; [by eapply abs_fresh|]. iFrame.
  - destruct Hpre as (Hx & (xs & Hv & Hfit) & Hth%can_throw_null).
    pose proof (abs_fresh _ _ _ _ Ha Hx) as Htx.
    assert (rng_outside σ r x) as Hout. { destruct r; [done|]. intros p. by eapply unused_no_iters. }
    destruct (getr_ok _ _ _ _ _ _ Ha Hv Hout) as (inp & I & J & X & Hg & Hspec & Hfuel & HI & HX).
    cbn [exec_call]. rewrite Hg. iIntros "Hr". vars. wp_bind. rewrite (delete_notin τ x Htx) in HI.
    iDestruct (HI with "Hr") as "HI". iDestruct (Hfuel with "HI") as %Hfu. rewrite Nat.sub_0_r in Hfu.
    rewrite /ctor_range. iApply wp_ctor_with. iIntros (l) "Hs".
    wp_bind. iApply (wp_find_end with "Hs"). iIntros (it [Hit Hp]) "Hs".
    iApply (fill_range with "Hs HI"); [done..|]. iIntros (o Ho) "Hs HX". done_fold.
    iDestruct (HX with "HX") as (τ' [Ha' Htx']) "Hr". rewrite Htx in Htx'. rewrite delete_notin //.
    iExists a, o, τ'. iSplitR; [done|]. iApply rep_new; [done|]. iFrame.
  - destruct Hpre as (Hx & Hy & Hth%can_throw_null). open_live Ha Hy o2 b l2.
    cbn [exec_call]. iIntros "Hr". vars. wp_bind. take_ Ht Hl. rewrite /ctor_copy. wp_bind. iApply (wp_get_ealloc_o with "Hs"). iIntros "Hs".
    iApply (fill_copy with "Hs"); [done|]. iIntros (l o o2' Ho) "Hs Hs2". done_fold.
    iExists _, o, _. iSplitR; [done|]. by iApply (new_second with "Hs Hs2 Hr").
  - destruct Hpre as (Hx & Hy & Hth%can_throw_null). open_live Ha Hy o2 b l2.
    cbn [exec_call]. iIntros "Hr". vars. wp_bind. take_ Ht Hl.
    iApply (fill_copy with "Hs"); [done|]. iIntros (l o o2' Ho) "Hs Hs2". done_fold.
    iExists _, o, _. iSplitR; [done|]. by iApply (new_second with "Hs Hs2 Hr").
Qed.
End wps.

Section props.
Context {T : Type} {C : cfg T} {OK : cfg_ok C}.
Implicit Types σ : sst T.
Implicit Types ρ : env.
Implicit Types st : state T.
Implicit Types c : cmd T.
Notation reachable := (reachable C).
Notation exec := (exec (C:=C)).
Notation from_back := (from_back (C:=C)).
Notation from_front := (from_front (C:=C)).

Lemma sizes_segments st ρ x ns : segment_sizes st ρ x = Some ns → ∃ ss, segments st ρ x = Some ss ∧ ns = sizes ss.
Proof. rewrite /segment_sizes. destruct (segments st ρ x) as [ss|]; [|done]. intros [= <-]. by exists ss. Qed.
Lemma segments_sizes st ρ x ss : segments st ρ x = Some ss → segment_sizes st ρ x = Some (sizes ss).
Proof. rewrite /segment_sizes. by intros ->. Qed.
Lemma segments_contents σ ρ st x ss : reachable σ ρ st → segments st ρ x = Some ss → length (contents σ x) = length (concat ss.*2).
Proof.
  intros Hr Hss. rewrite /contents (reachable_conts _ _ _ x Hr) /container_at Hss.
  rewrite /segments in Hss. destruct (seq_at st ρ x); [|done]. done.
Qed.

(** the sizes add up to the number of elements *)
Theorem C69_total st ρ x xs a : container_at st ρ x = Some (xs, a) →
  ∃ ns, segment_sizes st ρ x = Some ns ∧ sum_list ns = length xs.
Proof.
  rewrite /container_at. destruct (segments st ρ x) as [ss|] eqn:Hss; [|by destruct (seq_at st ρ x)].
  destruct (seq_at st ρ x); [|done]. simpl. intros [= <- _]. exists (sizes ss).
  split; [by apply segments_sizes|]. by rewrite sizes_total.
Qed.
(** ** A new sequence made by inserting elements is filled from the back *)
Theorem C69_new σ ρ st c x o ρ' st' :
  reachable σ ρ st → pre C σ c → fills c x → exec c ρ st = Ok (o, ρ') st' → (∀ e, o ≠ OExn e) →
  ∃ ns, segment_sizes st' ρ' x = Some ns ∧ from_back ns.
Proof.
  intros Hr Hp Hf He Ho. pose proof (reachable_R _ _ _ Hr) as (τ & Ha & Hrep)%R_open.
  pose proof (hprop_in_entails _ _ (wp_fills σ ρ τ c x Hp Hf Ha) _ Hrep) as H. rewrite wp_holds in H. destruct st as [h n k]. simpl in *.
  specialize (H ∅ n k (map_disjoint_empty_r _) (map_empty_subseteq _)). rewrite right_id_L in H.
  revert He. rewrite /Exec.exec /try_catch. destruct (exec_call c ρ (State h n k)) as [[o1 ρ1] st1|e st1|f]; [|by intros [= <- _ _]; destruct (Ho e)|done].
  intros [= -> -> ->]. destruct H as (h' & _ & Hst & _ & HQ). rewrite right_id_L in Hst. subst h'.
  apply exist_holds in HQ as (a & HQ).
  rewrite /new_segs in HQ. apply exist_holds in HQ as (o' & HQ). apply exist_holds in HQ as (τ' & HQ).
  apply sep_holds in HQ as (m1 & m2 & E & _ & [HP ->]%apure_holds & HQ). simpl in HQ. rewrite left_id_L in E. subst m2.
  destruct (rep_lives _ _ _ x o' a HQ) as (l1 & Hl1 & Hlv1). { by rewrite lookup_insert. }
  exists (sizes (osegs o')). split; [|done]. apply segments_sizes. by eapply lives_segments.
Qed.
(** ** Appending keeps it so *)
Theorem C69_append_one σ ρ st c x o ρ' st' ns :
  reachable σ ρ st → pre C σ c → appends_one σ c x → exec c ρ st = Ok (o, ρ') st' → (∀ e, o ≠ OExn e) →
  segment_sizes st ρ x = Some ns → from_back ns →
  ∃ ns', segment_sizes st' ρ' x = Some ns' ∧ from_back ns' ∧ sum_list ns' = S (sum_list ns).
Proof.
  intros Hr Hp [v Hi] He Ho (ss & Hss & ->)%sizes_segments Hb.
  pose proof (segments_contents _ _ _ _ _ Hr Hss) as Hl.
  destruct (segs_after σ ρ st c x (λ o0, ins_like o0 (length (contents σ x)) v) o ρ' st' ss Hr Hss) as (o0 & o' & (r & Hroom & Hs) & -> & Hss'); [|done|done|].
  { intros τ o0 a Ha Hτ. by eapply wp_inserts_one. }
  destruct (grows_one (osegs o0) (osegs o') (length (contents σ x)) r v) as [Hb' Hl']; [|done|done|done|].
  { rewrite -Hl. lia. }
  exists (sizes (osegs o')). split_and!; [by apply segments_sizes|done|]. rewrite -!sizes_total Hl' Hl /=. lia.
Qed.
Theorem C69_append_many σ ρ st c x o ρ' st' ns :
  reachable σ ρ st → pre C σ c → appends_many σ c x → exec c ρ st = Ok (o, ρ') st' →
  segment_sizes st ρ x = Some ns → from_back ns →
  ∃ ns', segment_sizes st' ρ' x = Some ns' ∧ from_back ns'.
Proof.
  intros Hr Hp [xs Hi] He (ss & Hss & ->)%sizes_segments Hb.
  pose proof (segments_contents _ _ _ _ _ Hr Hss) as Hl.
  destruct (segs_after_many grows σ ρ st c x xs _ o ρ' st' _ grows_nil grows_app grows_one Hr Hp Hi He Hss) as (j & ss' & Hg & _ & Hss').
  destruct (Hg Hl Hb) as [Hb' _]. exists (sizes ss'). split; [by apply segments_sizes|done].
Qed.
(** ** Prepending to a sequence filled from the front *)
Theorem C69_prepend_one σ ρ st c x o ρ' st' ns :
  reachable σ ρ st → pre C σ c → prepends_one σ c x → exec c ρ st = Ok (o, ρ') st' → (∀ e, o ≠ OExn e) →
  segment_sizes st ρ x = Some ns → from_front ns →
  ∃ ns', segment_sizes st' ρ' x = Some ns' ∧ from_front ns'.
Proof.
  intros Hr Hp [v Hi] He Ho (ss & Hss & ->)%sizes_segments Hb.
  destruct (segs_after σ ρ st c x (λ o0, ins_like o0 0 v) o ρ' st' ss Hr Hss) as (o0 & o' & (r & Hroom & Hs) & -> & Hss'); [|done|done|].
  { intros τ o0 a Ha Hτ. by eapply wp_inserts_one. }
  exists (sizes (osegs o')). split; [by apply segments_sizes|]. by eapply front_one.
Qed.
(** ** So the number of segments is determined by the number of elements *)
Theorem C69_determined ns ns' : from_back ns → from_back ns' → sum_list ns = sum_list ns' → ns = ns'.
Proof.
  pose proof (segment_bounds (C:=C)). intros H1 H2 E. pose proof (from_back_pos _ H1) as P1. pose proof (from_back_pos _ H2) as P2.
  destruct H1 as [->|(k & r & -> & Hr & Hk)].
  { destruct ns' as [|n ns']; [done|]. apply Forall_cons in P2 as [P2 _]. simpl in E. lia. }
  destruct H2 as [->|(k' & r' & -> & Hr' & Hk')].
  { rewrite sum_list_with_app /= in E. lia. }
  assert (∀ n m, sum_list (replicate n m) = n * m) as Hs.
  { intros n m. induction n as [|n IH]; simpl; [done|]. by rewrite IH. }
  rewrite !sum_list_with_app !Hs /= in E.
  assert (k = k') as ->.
  { destruct (Nat.lt_trichotomy k k') as [Hlt|[?|Hlt]]; [|done|]; exfalso;
      [replace k' with (k + 1 + (k' - k - 1)) in E by lia|replace k with (k' + 1 + (k - k' - 1)) in E by lia]; nia. }
  f_equal. f_equal. lia.
Qed.
(** and there are at least about as many as the minimal size allows *)
Theorem C69_segments ns : from_back ns → ns ≠ [] →
  (length ns - 1) * segment_min < sum_list ns ≤ (length ns - 1) * segment_min + segment_max.
Proof.
  pose proof (segment_bounds (C:=C)). intros [->|(k & r & -> & Hr & Hk)] Hne; [done|].
  assert (∀ n m, sum_list (replicate n m) = n * m) as Hs.
  { intros n m. induction n as [|n IH]; simpl; [done|]. by rewrite IH. }
  rewrite app_length replicate_length sum_list_with_app !Hs /=. replace (k + 1 - 1) with k by lia. lia.
Qed.
End props.
