(** * RefineMod: modifiers of one container.  Proof infrastructure. *)
From Verif Require Export RefineObs.
From stdpp Require Import options.
Set Default Proof Using "Type*".

Ltac done_fold := rewrite /done_; wp_ret.
Section modif.
Context {T : Type} {C : cfg T} {OK : cfg_ok C} {FZ : frozen T}.
Implicit Types σ : sst T.
Implicit Types ρ : env.
Implicit Types o : option (tree T).
Implicit Types τ : gmap nat (option (tree T) * nat).
Implicit Types s : arg T.

Lemma oelems_nil o ea na l : oelems o = [] → seqp ea na l o ⊢ ⌜o = None⌝.
Proof.
  intros He. iIntros "H". destruct o as [t|]; [|done]. iDestruct (seqp_wf with "H") as %[h Hw].
  apply wfroot_tsize in Hw. change (tsize t) with (length (oelems (Some t))) in Hw. rewrite He /= in Hw. lia.
Qed.
Lemma can_purge_may o ys : can_purge C ys → ys = oelems o → may_purge o.
Proof. intros H -> Hn. apply H. by rewrite Hn. Qed.
Lemma can_throw_null : can_throw C → throw_null.
Proof. intros H e He. apply H. by exists e. Qed.

(** ** destruction *)
Lemma good_Destroy σ ρ x : good σ ρ (Destroy x).
Proof.
  intros [Hx Hp]. iIntros "HR". iDestruct "HR" as (τ Ha) "Hr". open_live Ha Hx o a l.
  cbn [exec_call]. vars. take_ Ht Hl. wp_bind. iApply (wp_dtor with "Hs"); [by eapply can_purge_may|].
  done_fold. iApply post_intro; [by split|by apply abs_delete|by iApply rep_delete].
Qed.
Lemma good_Clear σ ρ x : good σ ρ (Clear x).
Proof.
  intros [Hx Hp]. iIntros "HR". iDestruct "HR" as (τ Ha) "Hr". open_live Ha Hx o a l.
  cbn [exec_call]. vars. take_ Ht Hl. wp_bind. iApply (wp_clear with "Hs"); [by eapply can_purge_may|]. iIntros "Hs".
  done_fold. iApply post_intro; [by split|eapply (abs_modify _ _ _ _ _ _ None); try done|iApply rep_put; [done|iFrame]].
Qed.
(** ** writing through an iterator *)
Lemma arg_used_iters σ s : iters (arg_used C σ s) = iters σ.
Proof. destruct s; try done. simpl. by destruct (iters σ !! w) as [[]|]. Qed.
Lemma arg_used_length σ s x : length (contents (arg_used C σ s) x) = length (contents σ x).
Proof.
  destruct s as [| |w]; try done. simpl. destruct (iters σ !! w) as [[y p]|]; [|done].
  rewrite /contents /write /=. destruct (decide (y = x)) as [->|]; [|by rewrite lookup_insert_ne].
  rewrite lookup_insert /=. fold (contents σ x). rewrite /moved !app_length fmap_length !take_length !drop_length. lia.
Qed.
Lemma arg_used_live σ s x : live σ x → live (arg_used C σ s) x.
Proof.
  destruct s as [| |w]; try done. simpl. destruct (iters σ !! w) as [[y p]|]; [|done].
  rewrite /live /write /=. destruct (decide (y = x)) as [->|]; [by rewrite lookup_insert|by rewrite lookup_insert_ne].
Qed.
Lemma good_Write σ ρ w s : good σ ρ (Write w s).
Proof.
  intros [[u Hu] [v Hv]]. destruct (deref_inv _ _ _ Hu) as (x & p & Hw & Hx).
  iIntros "HR". iDestruct "HR" as (τ Ha) "Hr". open_at Ha Hw o a l it.
  destruct (gets_any _ _ _ _ _ Ha Hv) as (vs & Hg & Hsrc).
  cbn [exec_call]. rewrite Hg. vars. wp_bind. rewrite /it_assign /assign_value. wp_bind.
  iApply (Hsrc with "Hr"). iSplit.
  - iIntros "Hr". iDestruct "Hr" as (τ' Ha') "Hr".
    assert (at_it (arg_used C σ s) w x p) as Hw' by by rewrite /at_it arg_used_iters.
    destruct (abs_at _ _ _ _ _ _ Ha' Hw') as (o' & a' & l' & it' & Ht' & Hl' & Hc' & Hal' & Hit' & Hok' & Hp' & _).
    rewrite Hl in Hl'. injection Hl' as <-. rewrite Hit in Hit'. injection Hit' as <-.
    apply lookup_lt_Some in Hx. rewrite -(arg_used_length _ s) Hc' in Hx.
    take_ Ht' Hl. wp_bind. iApply (wp_read_it with "Hs"); [done|by rewrite Hp'|]. iIntros (y Hy) "Hs".
    iApply (wp_write_it with "Hs"); [done|by rewrite Hp'|]. iIntros (o2 [Hsh He]) "Hs". done_fold.
    iApply post_intro; [exists x, p, v; split_and!; [done|done|by left]|eapply abs_write; try done|iApply rep_put; [done|iFrame]].
    by rewrite He Hc' Hp'.
  - iIntros (Hr) "Hr". iApply (post_intro with "Hr"); [|exact Ha]. exists x, p, v. split_and!; try done. right. by split.
Qed.
(** ** single insertions *)
(** using an argument leaves the shape of every container as it is *)
Definition same_shape τ τ' : Prop := ∀ x o a, τ !! x = Some (o, a) → ∃ o', τ' !! x = Some (o', a) ∧ oshape o' = oshape o.
Lemma gets_any_shape σ τ ρ s v :
  abs σ τ ρ → arg_value σ s = Some v →
  ∃ vs, gets ρ s = mret vs ∧
    src_spec vs v (rep ρ τ) (∃ τ', ⟦abs (arg_used C σ s) τ' ρ ∧ same_shape τ τ'⟧ ∗ rep ρ τ')%I.
Proof.
  intros Ha Hv. destruct s as [u|w|w].
  1,2: edestruct (gets_const σ τ τ) as (vs & H1 & H2); [done| |exact Hv|done|]; [done|];
    exists vs; split; [done|]; intros Q E; iIntros "Hr HQ"; iApply (H2 with "Hr"); iSplit;
    [iIntros "Hr"; iDestruct "HQ" as "[HQ _]"; iApply "HQ"; iExists τ; iFrame; iPureIntro; split; [done|]; intros x o a Hx; by exists o
    |by iDestruct "HQ" as "[_ $]"].
  destruct (deref_inv _ _ _ Hv) as (x & p & Hw & Hx).
  destruct (abs_at _ _ _ _ _ _ Ha Hw) as (o & a & l & it & Ht & Hl & Hcx & Hal & Hit & Hok & Hp & _).
  exists (it_mv it). split. { by rewrite /gets (geti_ok _ _ _ Hit). }
  intros Q E. iIntros "Hr HQ". take_ Ht Hl.
  iApply (src_move a a l o it v with "Hs"); [done|by rewrite Hp -Hcx|]. iSplit.
  + iIntros "Hs". iDestruct "Hs" as (o' [Hsh He]) "Hs". iDestruct "HQ" as "[HQ _]". iApply "HQ".
    iExists (<[x := (o', a)]> τ). iSplitR; [|iApply rep_put; [done|iFrame]].
    iPureIntro. split.
    * rewrite /arg_used Hw. eapply abs_write; [done..|]. rewrite He Hp -Hcx. by apply moved_one.
    * intros y oy ay Hy. destruct (decide (x = y)) as [->|].
      -- rewrite Ht in Hy. injection Hy as <- <-. exists o'. by rewrite lookup_insert.
      -- exists oy. by rewrite lookup_insert_ne.
  + iIntros (Hr) "Hs". iDestruct "HQ" as "[_ HQ]". iApply "HQ"; [done|]. back_ Ht Hl.
Qed.
Lemma wp_insert_step σ ρ τ x p s v it l o a (Q : iterator_data → hprop T) (E : exn → hprop T) vs :
  abs σ τ ρ →
  src_spec vs v (rep ρ τ) (∃ τ', ⟦abs (arg_used C σ s) τ' ρ ∧ same_shape τ τ'⟧ ∗ rep ρ τ')%I →
  arg_value σ s = Some v →
  live σ x → τ !! x = Some (o, a) → e_cont ρ !! x = Some l → it_ok o it → i_pos it = p →
  fits C (length (contents σ x) + 1) →
  rep ρ τ -∗
  ((∀ σ' τ' o' a' it', ⌜σ' = modify x (put_at p [v] (contents (arg_used C σ s) x)) (arg_used C σ s) ∧ abs σ' τ' ρ ∧
       τ' !! x = Some (o', a') ∧ it_ok o' it' ∧ i_pos it' = p⌝ → rep ρ τ' -∗ Q it') ∧
   (∀ e σ' τ', ⌜(e = EUser ∧ raisable C EUser ∧ σ' = σ ∨ e = EAlloc ∧ raisable C EAlloc ∧ σ' = arg_used C σ s) ∧ abs σ' τ' ρ ∧ same_shape τ τ'⌝ →
      rep ρ τ' -∗ E e)) -∗
  wp (emplace_single l it vs) Q E.
Proof.
  iIntros (Ha Hsrc Hv Hx Ht Hl Hit Hp Hfit) "Hr HQ". rewrite /emplace_single. wp_bind.
  iApply (Hsrc with "Hr"). iSplit.
  - iIntros "Hr". iDestruct "Hr" as (τ' [Ha' Hsh]) "Hr".
    destruct (abs_live _ _ _ _ Ha' (arg_used_live _ s _ Hx)) as (o' & a' & l' & Ht' & Hl' & Hc' & Hal' & _).
    rewrite Hl in Hl'. injection Hl' as <-.
    destruct (Hsh _ _ _ Ht) as (o1 & Ht1 & Hs1). rewrite Ht1 in Ht'. injection Ht' as -> <-.
    assert (it_ok o' it) as Hit' by by eapply it_ok_shape.
    rewrite /fits -(arg_used_length _ s) Hc' in Hfit. take_ Ht1 Hl.
    iApply (wp_insert_single_iterator with "Hs"); [done|done|]. iSplit.
    + iIntros (o2 it2 (He & Hok2 & Hp2 & _)) "Hs". iDestruct "HQ" as "[HQ _]".
      iApply ("HQ" $! _ (<[x := (o2, a)]> τ') o2 a it2 with "[%] [Hs Hr]"); [|iApply rep_put; [done|iFrame]].
      split_and!; [done| |by rewrite lookup_insert|done|by rewrite Hp2]. eapply abs_modify; [done..|].
      by rewrite He Hc' Hp.
    + iIntros (Hr) "Hs". iDestruct "HQ" as "[_ HQ]". iApply ("HQ" $! EAlloc _ τ' with "[%] [Hs Hr]"); [|back_ Ht1 Hl].
      split_and!; [by right|done|done].
  - iIntros (Hr) "Hr". iDestruct "HQ" as "[_ HQ]". iApply ("HQ" with "[%] Hr"). split_and!; [by left|done|].
    intros y oy ay Hy. by exists oy.
Qed.
Lemma good_InsertOne σ ρ x w s w' : good σ ρ (InsertOne x w s w').
Proof.
  intros (p & Hw & [v Hv] & Hfit). iIntros "HR". iDestruct "HR" as (τ Ha) "Hr". open_at Ha Hw o a l it.
  destruct (gets_any_shape _ _ _ _ _ Ha Hv) as (vs & Hg & Hsrc).
  cbn [exec_call]. rewrite Hg. vars. wp_bind. rewrite /insert_.
  iApply (wp_insert_step with "Hr"); [done..|]. iSplit.
  - iIntros (σ' τ' o' a' it' (-> & Ha' & Ht' & Hok' & Hp')) "Hr". done_fold.
    iApply post_intro; [|by eapply abs_point|by rewrite rep_bindi]. exists p. split; [done|]. exists v. split; [done|]. by left.
  - iIntros (e σ' τ' (Hc' & Ha' & _)) "Hr". iApply (post_intro with "Hr"); [|exact Ha']. exists p. split; [done|]. exists v.
    split; [done|]. destruct Hc' as [(->&?&->)|(->&?&->)]; [right; left|right; right]; done.
Qed.
(** push_back and push_front search the position before the argument is used *)
Lemma good_PushBack σ ρ x s : good σ ρ (PushBack x s).
Proof.
  intros (Hx & [v Hv] & Hfit). iIntros "HR". iDestruct "HR" as (τ Ha) "Hr". open_live Ha Hx o a l.
  destruct (gets_any_shape _ _ _ _ _ Ha Hv) as (vs & Hg & Hsrc).
  cbn [exec_call]. rewrite Hg. vars. wp_bind. rewrite /push_back. wp_bind. take_ Ht Hl.
  iApply (wp_find_end with "Hs"). iIntros (it [Hok Hp]) "Hs". iAssert (rep ρ τ) with "[Hs Hr]" as "Hr"; [back_ Ht Hl|].
  wp_bind. iApply (wp_insert_step with "Hr"); [done..|]. iSplit.
  - iIntros (σ' τ' o' a' it' (-> & Ha' & Ht' & Hok' & Hp')) "Hr". wp_ret. done_fold.
    iApply (post_intro with "Hr"); [|exact Ha']. exists v. split; [done|]. left. split; [done|]. by rewrite Hc.
  - iIntros (e σ' τ' (Hc' & Ha' & _)) "Hr". iApply (post_intro with "Hr"); [|exact Ha']. exists v.
    split; [done|]. destruct Hc' as [(->&?&->)|(->&?&->)]; [right; left|right; right]; done.
Qed.
Lemma good_PushFront σ ρ x s : good σ ρ (PushFront x s).
Proof.
  intros (Hx & [v Hv] & Hfit). iIntros "HR". iDestruct "HR" as (τ Ha) "Hr". open_live Ha Hx o a l.
  destruct (gets_any_shape _ _ _ _ _ Ha Hv) as (vs & Hg & Hsrc).
  cbn [exec_call]. rewrite Hg. vars. wp_bind. rewrite /push_front. wp_bind. take_ Ht Hl.
  iApply (wp_find_first with "Hs"). iIntros (it [Hok Hp]) "Hs". iAssert (rep ρ τ) with "[Hs Hr]" as "Hr"; [back_ Ht Hl|].
  wp_bind. iApply (wp_insert_step with "Hr"); [done..|]. iSplit.
  - iIntros (σ' τ' o' a' it' (-> & Ha' & Ht' & Hok' & Hp')) "Hr". wp_ret. done_fold.
    iApply (post_intro with "Hr"); [|exact Ha']. exists v. split; [done|]. by left.
  - iIntros (e σ' τ' (Hc' & Ha' & _)) "Hr". iApply (post_intro with "Hr"); [|exact Ha']. exists v.
    split; [done|]. destruct Hc' as [(->&?&->)|(->&?&->)]; [right; left|right; right]; done.
Qed.
(** ** erasures *)
Lemma good_Erase σ ρ x w w' : good σ ρ (Erase x w w').
Proof.
  intros (p & Hw & Hlt). iIntros "HR". iDestruct "HR" as (τ Ha) "Hr". open_at Ha Hw o a l it.
  cbn [exec_call]. vars. wp_bind. rewrite /erase_. take_ Ht Hl.
  iApply (wp_erase_single with "Hs"); [done|by rewrite Hp /osize -Hc|]. iIntros (o' it' (He & Hok' & Hp' & _)) "Hs". done_fold.
  iApply post_intro; [exists p; by split_and!| |rewrite rep_bindi; iApply rep_put; [done|iFrame]].
  eapply abs_point; [eapply abs_modify; [done..|by rewrite He Hp Hc]|by rewrite lookup_insert|done|by rewrite Hp'].
Qed.
Lemma good_EraseRange σ ρ x w1 w2 w' : good σ ρ (EraseRange x w1 w2 w').
Proof.
  intros (p & q & Hw & Hw2 & Hlt). iIntros "HR". iDestruct "HR" as (τ Ha) "Hr". open_at Ha Hw o a l it.
  destruct (abs_at _ _ _ _ _ _ Ha Hw2) as (o2 & a2 & l2 & it2 & Ht2 & _ & _ & _ & Hit2 & Hok2 & Hp2 & _).
  rewrite Ht in Ht2. injection Ht2 as <- <-.
  cbn [exec_call]. vars. wp_bind. rewrite /erase_between. take_ Ht Hl.
  iApply (wp_erase_range with "Hs"); [done|by rewrite Hp Hp2|]. iIntros (o' it' (He & Hok' & Hp' & _)) "Hs". done_fold.
  iApply post_intro; [exists p, q; by split_and!| |rewrite rep_bindi; iApply rep_put; [done|iFrame]].
  eapply abs_point; [eapply abs_modify; [done..|by rewrite He Hp Hp2 Hc]|by rewrite lookup_insert|done|by rewrite Hp'].
Qed.
Lemma good_PopBack σ ρ x : good σ ρ (PopBack x).
Proof.
  intros Hpre. simpl in Hpre. iIntros "HR". iDestruct "HR" as (τ Ha) "Hr".
  open_live Ha (nonempty_live _ _ Hpre) o a l. rewrite Hc in Hpre. apply nonempty_osize in Hpre.
  cbn [exec_call]. vars. wp_bind. rewrite /pop_back. wp_bind. take_ Ht Hl.
  iApply (wp_find_last with "Hs"); [done|]. iIntros (it [Hok Hp]) "Hs". wp_bind.
  iApply (wp_erase_single with "Hs"); [done|by rewrite Hp; lia|]. iIntros (o' it' (He & _)) "Hs". wp_ret. done_fold.
  iApply post_intro; [by split|eapply abs_modify; [done..|]|iApply rep_put; [done|iFrame]].
  rewrite He Hp Hc. replace (S (osize o - 1)) with (length (oelems o)) by (unfold osize in *; lia).
  by rewrite drop_all app_nil_r.
Qed.
Lemma good_PopFront σ ρ x : good σ ρ (PopFront x).
Proof.
  intros Hpre. simpl in Hpre. iIntros "HR". iDestruct "HR" as (τ Ha) "Hr".
  open_live Ha (nonempty_live _ _ Hpre) o a l. rewrite Hc in Hpre. apply nonempty_osize in Hpre.
  cbn [exec_call]. vars. wp_bind. rewrite /pop_front. wp_bind. take_ Ht Hl.
  iApply (wp_find_first with "Hs"). iIntros (it [Hok Hp]) "Hs". wp_bind.
  iApply (wp_erase_single with "Hs"); [done|by rewrite Hp|]. iIntros (o' it' (He & _)) "Hs". wp_ret. done_fold.
  iApply post_intro; [by split|eapply abs_modify; [done..|]|iApply rep_put; [done|iFrame]].
  rewrite He Hp Hc. by destruct (oelems o).
Qed.
(** ** several elements *)
Lemma const_outside σ τ ρ s v x :
  abs σ τ ρ → arg_const s → arg_value σ s = Some v → arg_outside σ s x →
  ∃ vs, gets ρ s = mret vs ∧ src_spec vs v (rep ρ (delete x τ)) (rep ρ (delete x τ)).
Proof.
  intros Ha Hc Hv Hout. eapply gets_const; [done..|]. intros w y p Hs Hw.
  rewrite lookup_delete_ne //. intros ->. destruct s as [|w'|w']; [done| |done].
  injection Hs as ->. by apply (Hout p).
Qed.
Lemma good_InsertCount σ ρ x w n s w' : good σ ρ (InsertCount x w n s w').
Proof.
  intros (p & Hw & Hco & [v Hv] & Hout & Hfit). iIntros "HR". iDestruct "HR" as (τ Ha) "Hr". open_at Ha Hw o a l it.
  destruct (const_outside _ _ _ _ _ _ Ha Hco Hv Hout) as (vs & Hg & Hsrc).
  cbn [exec_call]. rewrite Hg. vars. wp_bind. rewrite /insert_count. take_ Ht Hl. rewrite /fits Hc in Hfit.
  iApply (wp_emplace_count with "Hs Hr"); [done|done|done|]. iSplit.
  - iIntros (o' it' (He & Hok' & Hp')) "Hs Hr". done_fold.
    iApply post_intro; [exists p, v; split_and!; [done|done|by left]| |rewrite rep_bindi; iApply rep_put; [done|iFrame]].
    eapply abs_point; [eapply abs_modify; [done..|by rewrite He Hp Hc]|by rewrite lookup_insert|done|by rewrite Hp'].
  - iIntros (e o' k (Hr & Hk & He)) "Hs Hr".
    iApply post_intro; [exists p, v; split_and!; [done|done|right; exists e, k; by split_and!]| |iApply rep_put; [done|iFrame]].
    eapply abs_modify; [done..|by rewrite He Hp Hc].
Qed.
Lemma good_AssignCount σ ρ x n s : good σ ρ (AssignCount x n s).
Proof.
  intros (Hx & Hfit & Hco & [v Hv] & Hout). iIntros "HR". iDestruct "HR" as (τ Ha) "Hr". open_live Ha Hx o a l.
  destruct (const_outside _ _ _ _ _ _ Ha Hco Hv Hout) as (vs & Hg & Hsrc).
  cbn [exec_call]. rewrite Hg. vars. wp_bind. take_ Ht Hl.
  iApply (wp_assign_count with "Hs Hr"); [done|done|]. iSplit.
  - iIntros (o' He) "Hs Hr". done_fold.
    iApply post_intro; [exists v; split_and!; [done|by left]| |iApply rep_put; [done|iFrame]].
    by eapply abs_modify.
  - iIntros (e o' k (Hr & Hk & He)) "Hs Hr".
    iApply post_intro; [exists v; split_and!; [done|right; exists e, k; by split_and!]| |iApply rep_put; [done|iFrame]].
    eapply abs_modify; [done..|]. rewrite He Hc /overwritten take_replicate. do 2 f_equal. lia.
Qed.
Lemma good_Resize σ ρ x n s : good σ ρ (Resize x n s).
Proof.
  intros (Hx & Hfit & Hco & [v Hv] & Hout). iIntros "HR". iDestruct "HR" as (τ Ha) "Hr". open_live Ha Hx o a l.
  destruct (const_outside _ _ _ _ _ _ Ha Hco Hv Hout) as (vs & Hg & Hsrc).
  cbn [exec_call]. rewrite Hg. vars. wp_bind. take_ Ht Hl. rewrite /resize_.
  iApply (wp_resize_count with "Hs Hr"); [done|done|]. iSplit.
  - iIntros (o' He) "Hs Hr". done_fold.
    iApply post_intro; [exists v; split_and!; [done|by left]| |iApply rep_put; [done|iFrame]].
    eapply abs_modify; [done..|]. by rewrite He Hc.
  - iIntros (e o' k (Hr & Hk & He)) "Hs Hr".
    iApply post_intro; [exists v; split_and!; [done|right; exists e, k; rewrite Hc; by split_and!]| |iApply rep_put; [done|iFrame]].
    eapply abs_modify; [done..|]. by rewrite He.
Qed.
Lemma good_InsertRange σ ρ x w r w' : good σ ρ (InsertRange x w r w').
Proof.
  intros (p & xs & Hw & Hv & Hout & Hfit). iIntros "HR". iDestruct "HR" as (τ Ha) "Hr". open_at Ha Hw o a l it.
  destruct (getr_ok _ _ _ _ _ _ Ha Hv Hout) as (inp & I & J & X & Hg & Hspec & Hfuel & HI & HX).
  cbn [exec_call]. rewrite Hg. vars. wp_bind. rewrite /insert_range. take_ Ht Hl. rewrite /fits Hc in Hfit.
  iDestruct (HI with "Hr") as "HI". iDestruct (Hfuel with "HI") as %Hf.
  iApply (wp_emplace_range with "Hs HI"); [done|done|unfold osize; lia|lia|]. iSplit.
  - iIntros (o' it' (He & Hok' & Hp')) "Hs HX". done_fold. iDestruct (HX with "HX") as (τ' [Ha' Htx]) "Hr". rewrite Ht in Htx.
    iApply post_intro; [exists p, xs; split_and!; [done|done|by left]| |rewrite rep_bindi; iApply rep_put; [done|iFrame]].
    eapply abs_point; [eapply abs_modify; [done..|by rewrite He Hp Hc]|by rewrite lookup_insert|done|by rewrite Hp'].
  - iIntros (e o' j j' (Hr & _ & Hj & Hj' & _ & _ & He)) "Hs HX". iDestruct (HX with "HX") as (τ' [Ha' Htx]) "Hr". rewrite Ht in Htx.
    iApply post_intro; [exists p, xs; split_and!; [done|done|right; exists e, j, j'; split_and!; done || lia]| |iApply rep_put; [done|iFrame]].
    eapply abs_modify; [done..|rewrite He Hp Hc drop_0 Nat.sub_0_r //].
Qed.
Lemma good_AssignRange σ ρ x r : good σ ρ (AssignRange x r).
Proof.
  intros (Hx & (xs & Hv & Hfit) & Hout). iIntros "HR". iDestruct "HR" as (τ Ha) "Hr". open_live Ha Hx o a l.
  destruct (getr_ok _ _ _ _ _ _ Ha Hv Hout) as (inp & I & J & X & Hg & Hspec & Hfuel & HI & HX).
  cbn [exec_call]. rewrite Hg. vars. wp_bind. take_ Ht Hl.
  iDestruct (HI with "Hr") as "HI".
  iApply (wp_assign_range with "Hs HI"); [done|done|done|]. iSplit.
  - iIntros (o' He) "Hs HX". done_fold. iDestruct (HX with "HX") as (τ' [Ha' Htx]) "Hr". rewrite Ht in Htx.
    iApply post_intro; [exists xs; split_and!; [done|by left]| |iApply rep_put; [done|iFrame]].
    by eapply abs_modify.
  - iIntros (e o' j j' (Hr & Hj & Hj' & He)) "Hs HX". iDestruct (HX with "HX") as (τ' [Ha' Htx]) "Hr". rewrite Ht in Htx.
    iApply post_intro; [exists xs; split_and!; [done|right; exists e, j, j'; split_and!; done || lia]| |iApply rep_put; [done|iFrame]].
    eapply abs_modify; [done..|by rewrite He Hc].
Qed.
(** ** list operations *)
Lemma peek_const σ τ ρ s v x :
  abs σ τ ρ → arg_value σ s = Some v → arg_outside σ s x →
  ∃ vs, gets ρ s = mret vs ∧
    ∀ (Q : T → hprop T) E, rep ρ (delete x τ) ⊢ (rep ρ (delete x τ) -∗ Q v) -∗ wp (peek vs) Q E.
Proof.
  intros Ha Hv Hout. destruct s as [u|w|w].
  { injection Hv as ->. exists (VVal v). split; [done|]. intros Q E. iIntros "Hr HQ". rewrite /peek. wp_ret. by iApply "HQ". }
  all: destruct (deref_inv _ _ _ Hv) as (y & p & Hw & Hy); open_at Ha Hw o a l it;
    (assert (x ≠ y) by (intros ->; by apply (Hout p)));
    eexists; (split; [by rewrite /gets (geti_ok _ _ _ Hit)|]); intros Q E; iIntros "Hr HQ"; rewrite /peek;
    (assert (delete x τ !! y = Some (o, a)) as Ht' by by rewrite lookup_delete_ne); take_ Ht' Hl;
    iApply (wp_read_it with "Hs"); [done|by rewrite Hp /osize -Hc; apply lookup_lt_Some in Hy|];
    iIntros (z Hz) "Hs"; rewrite Hp -Hc Hy in Hz; injection Hz as <-; iApply "HQ"; back_ Ht' Hl.
Qed.
Lemma good_Remove σ ρ x s eq : good σ ρ (Remove x s eq).
Proof.
  intros (Hx & [v Hv] & Hout). iIntros "HR". iDestruct "HR" as (τ Ha) "Hr". open_live Ha Hx o a l.
  destruct (peek_const _ _ _ _ _ _ Ha Hv Hout) as (vs & Hg & Hsrc).
  cbn [exec_call]. rewrite Hg. vars. wp_bind. take_ Ht Hl.
  iApply (wp_remove with "Hs Hr"); [done|]. iSplit.
  - iIntros (o' He) "Hs Hr". done_fold.
    iApply post_intro; [exists v; split; [done|by left]| |iApply rep_put; [done|iFrame]].
    eapply abs_modify; [done..|]. by rewrite He Hc.
  - iIntros (o' (Hpf & Hsh & He)) "Hs Hr". rewrite -Hc in He.
    iApply post_intro; [exists v; split; [done|right; split; [done|by eexists]]|by eapply abs_write|iApply rep_put; [done|iFrame]].
Qed.
Lemma good_RemoveIf σ ρ x p : good σ ρ (RemoveIf x p).
Proof.
  intros Hx. iIntros "HR". iDestruct "HR" as (τ Ha) "Hr". open_live Ha Hx o a l.
  cbn [exec_call]. vars. wp_bind. take_ Ht Hl.
  iApply (wp_remove_if with "Hs"). iSplit.
  - iIntros (o' He) "Hs". done_fold.
    iApply post_intro; [by left| |iApply rep_put; [done|iFrame]].
    eapply abs_modify; [done..|]. by rewrite He Hc.
  - iIntros (o' (Hpf & Hsh & He)) "Hs". rewrite -Hc in He.
    iApply post_intro; [right; split; [done|by eexists]|by eapply abs_write|iApply rep_put; [done|iFrame]].
Qed.
Lemma good_Unique σ ρ x p : good σ ρ (Unique x p).
Proof.
  intros Hx. iIntros "HR". iDestruct "HR" as (τ Ha) "Hr". open_live Ha Hx o a l.
  cbn [exec_call]. vars. wp_bind. take_ Ht Hl.
  iApply (wp_unique with "Hs"). iSplit.
  - iIntros (o' He) "Hs". done_fold.
    iApply post_intro; [by left| |iApply rep_put; [done|iFrame]].
    eapply abs_modify; [done..|]. by rewrite He Hc.
  - iIntros (o' (Hpf & Hsh & He)) "Hs". rewrite -Hc in He.
    iApply post_intro; [right; split; [done|by eexists]|by eapply abs_write|iApply rep_put; [done|iFrame]].
Qed.
Lemma good_Reverse σ ρ x : good σ ρ (Reverse x).
Proof.
  intros Hx. iIntros "HR". iDestruct "HR" as (τ Ha) "Hr". open_live Ha Hx o a l.
  cbn [exec_call]. vars. wp_bind. take_ Ht Hl.
  iApply (wp_reverse with "Hs"). iIntros (o' [Hsh He]) "Hs". done_fold.
  iApply post_intro; [by split| |iApply rep_put; [done|iFrame]].
  eapply abs_write; [done..|]. by rewrite He Hc.
Qed.
Lemma good_Sort σ ρ x lt : good σ ρ (Sort x lt).
Proof.
  intros Hx. iIntros "HR". iDestruct "HR" as (τ Ha) "Hr". open_live Ha Hx o a l.
  cbn [exec_call]. vars. wp_bind. take_ Ht Hl.
  iApply (wp_sort with "Hs"). iSplit.
  - iIntros (o' [Hsh He]) "Hs". done_fold.
    iApply post_intro; [by left| |iApply rep_put; [done|iFrame]].
    eapply abs_write; [done..|]. by rewrite He Hc.
  - iIntros (o' (Hpf & Hlen & Hsh)) "Hs". assert (length (oelems o') = length (contents σ x)) as He by (rewrite Hc; by apply oshape_osize).
    rewrite -Hc in Hlen. iApply post_intro; [right; split_and!; [done|done|by eexists]|by eapply abs_write|iApply rep_put; [done|iFrame]].
Qed.
End modif.
