(** * Exec: client programs run against the modelled code.

    Names of containers and iterators (Spec.v) are bound to the addresses of seq
    objects and to iterator values; each command calls the function of ModelApi.v
    (or Model.v) that models the C++ function named in Spec.v. *)
From Verif Require Export ModelApi Spec.
From stdpp Require Import options.

Record env := Env { e_cont : gmap nat loc; e_iter : gmap nat iterator_data }.
Definition no_env : env := Env ∅ ∅.

Section exec.
Context {T : Type} {C : cfg T}.
Implicit Types ρ : env.

(** variables of the client *)
Definition lookup_var {A} (m : gmap nat A) (n : nat) : M T A :=
  match m !! n with Some a => mret a | None => fail FDangling end.
Definition getc ρ x : M T loc := lookup_var (e_cont ρ) x.
Definition geti ρ w : M T iterator_data := lookup_var (e_iter ρ) w.
Definition bindc (x : nat) (l : loc) ρ : env := Env (<[x := l]> (e_cont ρ)) (e_iter ρ).
Definition bindi (w : nat) (it : iterator_data) ρ : env := Env (e_cont ρ) (<[w := it]> (e_iter ρ)).
Definition unbindc (x : nat) ρ : env := Env (delete x (e_cont ρ)) (e_iter ρ).

(** arguments: [*w] and [std::move( *w)] are references to the element *)
Definition gets ρ (s : arg T) : M T (vsrc (T:=T)) :=
  match s with
  | AVal v => mret (VVal v)
  | ARef w => it ← geti ρ w; mret (VRef (sg_ptr (e_seg (i_entry it))) (sg_idx (e_seg (i_entry it))))
  | AMove w => it ← geti ρ w; mret (VMove (sg_ptr (e_seg (i_entry it))) (sg_idx (e_seg (i_entry it))))
  end.
Definition getr ρ (r : rng T) : M T (input (T:=T)) :=
  match r with
  | RList xs => mret (IList xs)
  | RSeq mv w1 w2 => f ← geti ρ w1; l ← geti ρ w2; mret (ISeq mv f l)
  end.

(** for (p = begin(); p != end(); ++p) read *p *)
Fixpoint read_from (p : ptr) (i n : nat) : M T (list T) :=
  match n with
  | 0 => mret []
  | S n' => v ← read_pointer (p, i); vs ← read_from p (S i) n'; mret (v :: vs)
  end.
Definition read_segment (it : iterator_data) : M T (out T) :=
  let b := first_element it in
  let c := current_element it in
  let e := last_element it in
  vs ← read_from b.1 b.2 (e.2 - b.2); mret (OSegm vs (c.2 - b.2)).
(** index of the first element of the segment, and of the first one after it *)
Definition segment_start (it : iterator_data) : nat :=
  index_of it - ((current_element it).2 - (first_element it).2).
Definition segment_stop (it : iterator_data) : nat :=
  index_of it + ((last_element it).2 - (current_element it).2).

Definition done_ ρ : M T (out T * env) := mret (OUnit, ρ).
Definition exec_call (c : cmd T) ρ : M T (out T * env) :=
  match c with
  | New x a => l ← ctor_alloc a; done_ (bindc x l ρ)
  | NewCount x n s a => s ← gets ρ s; l ← ctor_count n s a; done_ (bindc x l ρ)
  | NewRange x r a => r ← getr ρ r; l ← ctor_range r a; done_ (bindc x l ρ)
  | NewCopy x y => ly ← getc ρ y; l ← ctor_copy ly; done_ (bindc x l ρ)
  | NewCopyAlloc x y a => ly ← getc ρ y; l ← ctor_copy_alloc ly a; done_ (bindc x l ρ)
  | NewMove x y => ly ← getc ρ y; l ← ctor_move ly; done_ (bindc x l ρ)
  | NewMoveAlloc x y a => ly ← getc ρ y; l ← ctor_move_alloc ly a; done_ (bindc x l ρ)
  | Destroy x => l ← getc ρ x; dtor l;; done_ (unbindc x ρ)
  | AssignCopy x y => l ← getc ρ x; ly ← getc ρ y; op_copy_assign l ly;; done_ ρ
  | AssignMove x y => l ← getc ρ x; ly ← getc ρ y; op_move_assign l ly;; done_ ρ
  | AssignCount x n s => l ← getc ρ x; s ← gets ρ s; assign_count l n s;; done_ ρ
  | AssignRange x r => l ← getc ρ x; r ← getr ρ r; assign_range l r;; done_ ρ
  | GetAlloc x => l ← getc ρ x; a ← get_allocator l; mret (ONat a, ρ)
  | GetSize x => l ← getc ρ x; n ← size_ l; mret (ONat n, ρ)
  | IsEmpty x => l ← getc ρ x; b ← empty_ l; mret (OBool b, ρ)
  | Height x => l ← getc ρ x; n ← height_ l; mret (ONat n, ρ)
  | At x n => l ← getc ρ x; it ← at_ l n; v ← it_deref it; mret (OVal v, ρ)
  | Index x n => l ← getc ρ x; it ← op_index l n; v ← it_deref it; mret (OVal v, ρ)
  | Front x => l ← getc ρ x; it ← front l; v ← it_deref it; mret (OVal v, ρ)
  | Back x => l ← getc ρ x; it ← back l; v ← it_deref it; mret (OVal v, ρ)
  | Begin x w => l ← getc ρ x; it ← begin_ l; done_ (bindi w it ρ)
  | End x w => l ← getc ρ x; it ← end_ l; done_ (bindi w it ρ)
  | Penultimate x w => l ← getc ρ x; it ← penultimate l; done_ (bindi w it ρ)
  | NthOf x n w => l ← getc ρ x; it ← nth_ l n; done_ (bindi w it ρ)
  | IndexOf x w => l ← getc ρ x; it ← geti ρ w; mret (ONat (index_of it), ρ)
  | Deref w => it ← geti ρ w; v ← it_deref it; mret (OVal v, ρ)
  | DerefAt w d => it ← geti ρ w; v ← it_index it d; mret (OVal v, ρ)
  | RDeref w => it ← geti ρ w; v ← rdereference it; mret (OVal v, ρ)
  | Write w s => it ← geti ρ w; s ← gets ρ s; it_assign it s;; done_ ρ
  | StepNext w w' => it ← geti ρ w; it ← it_next it; done_ (bindi w' it ρ)
  | StepPrev w w' => it ← geti ρ w; it ← it_prev it; done_ (bindi w' it ρ)
  | StepAdd w d w' => it ← geti ρ w; it ← it_add it d; done_ (bindi w' it ρ)
  | StepSub w d w' => it ← geti ρ w; it ← it_sub it d; done_ (bindi w' it ρ)
  | Diff w1 w2 => a ← geti ρ w1; b ← geti ρ w2; mret (OInt (it_diff a b), ρ)
  | ItEq w1 w2 => a ← geti ρ w1; b ← geti ρ w2; mret (OBool (it_eq a b), ρ)
  | ItLt w1 w2 => a ← geti ρ w1; b ← geti ρ w2; mret (OBool (it_lt a b), ρ)
  | ItLe w1 w2 => a ← geti ρ w1; b ← geti ρ w2; mret (OBool (it_le a b), ρ)
  | ItNe w1 w2 => a ← geti ρ w1; b ← geti ρ w2; mret (OBool (it_ne a b), ρ)
  | ItGt w1 w2 => a ← geti ρ w1; b ← geti ρ w2; mret (OBool (it_gt a b), ρ)
  | ItGe w1 w2 => a ← geti ρ w1; b ← geti ρ w2; mret (OBool (it_ge a b), ρ)
  | SegAfter w w' =>
      it ← geti ρ w; o ← read_segment it; it ← move_after_segment it; mret (o, bindi w' it ρ)
  | SegAfterCount x w n w' =>
      l ← getc ρ x; it ← geti ρ w; o ← read_segment it; sz ← size_ l;
      if segment_stop it + n <=? sz then it ← move_after_segment_count it n; mret (o, bindi w' it ρ)
      else mret (o, ρ)
  | SegBefore w w' =>
      it ← geti ρ w; o ← read_segment it;
      if 0 <? segment_start it then it ← move_before_segment it; mret (o, bindi w' it ρ)
      else mret (o, ρ)
  | Clear x => l ← getc ρ x; clear l;; done_ ρ
  | InsertOne x w s w' => l ← getc ρ x; it ← geti ρ w; s ← gets ρ s; it ← insert_ l it s; done_ (bindi w' it ρ)
  | InsertCount x w n s w' =>
      l ← getc ρ x; it ← geti ρ w; s ← gets ρ s; it ← insert_count l it n s; done_ (bindi w' it ρ)
  | InsertRange x w r w' =>
      l ← getc ρ x; it ← geti ρ w; r ← getr ρ r; it ← insert_range l it r; done_ (bindi w' it ρ)
  | Erase x w w' => l ← getc ρ x; it ← geti ρ w; it ← erase_ l it; done_ (bindi w' it ρ)
  | EraseRange x w1 w2 w' =>
      l ← getc ρ x; a ← geti ρ w1; b ← geti ρ w2; it ← erase_between l a b; done_ (bindi w' it ρ)
  | PushBack x s => l ← getc ρ x; s ← gets ρ s; push_back l s;; done_ ρ
  | PushFront x s => l ← getc ρ x; s ← gets ρ s; push_front l s;; done_ ρ
  | PopBack x => l ← getc ρ x; pop_back l;; done_ ρ
  | PopFront x => l ← getc ρ x; pop_front l;; done_ ρ
  | Resize x n s => l ← getc ρ x; s ← gets ρ s; resize_ l n s;; done_ ρ
  | Swap x y => l ← getc ρ x; ly ← getc ρ y; swap_ l ly;; done_ ρ
  | SpliceAll x w y => l ← getc ρ x; it ← geti ρ w; ly ← getc ρ y; splice_all l it ly;; done_ ρ
  | SpliceOne x w y w1 =>
      l ← getc ρ x; it ← geti ρ w; ly ← getc ρ y; a ← geti ρ w1; splice_one l it ly a;; done_ ρ
  | SpliceRange x w y w1 w2 =>
      l ← getc ρ x; it ← geti ρ w; ly ← getc ρ y; a ← geti ρ w1; b ← geti ρ w2;
      splice_range l it ly a b;; done_ ρ
  | MergeIn x y lt => l ← getc ρ x; ly ← getc ρ y; ModelApi.merge l ly lt;; done_ ρ
  | Remove x s eq => l ← getc ρ x; s ← gets ρ s; ModelApi.remove l s eq;; done_ ρ
  | RemoveIf x p => l ← getc ρ x; remove_if l p;; done_ ρ
  | Unique x p => l ← getc ρ x; unique l p;; done_ ρ
  | Reverse x => l ← getc ρ x; reverse_ l;; done_ ρ
  | Sort x lt => l ← getc ρ x; ModelApi.sort l lt;; done_ ρ
  | CmpEq x y eq => l ← getc ρ x; ly ← getc ρ y; b ← op_eq l ly eq; mret (OBool b, ρ)
  | CmpLt x y lt => l ← getc ρ x; ly ← getc ρ y; b ← op_lt l ly lt; mret (OBool b, ρ)
  | CmpNe x y eq => l ← getc ρ x; ly ← getc ρ y; b ← op_ne l ly eq; mret (OBool b, ρ)
  | CmpLe x y lt => l ← getc ρ x; ly ← getc ρ y; b ← op_le l ly lt; mret (OBool b, ρ)
  | CmpGt x y lt => l ← getc ρ x; ly ← getc ρ y; b ← op_gt l ly lt; mret (OBool b, ρ)
  | CmpGe x y lt => l ← getc ρ x; ly ← getc ρ y; b ← op_ge l ly lt; mret (OBool b, ρ)
  end.
(** try { call } catch (e) { } : an exception is an answer like any other *)
Definition exec (c : cmd T) ρ : M T (out T * env) :=
  try_catch (exec_call c ρ) (λ e, mret (OExn e, ρ)).

(** A client program: every next call may depend on all answers so far.  The
    result is the history of calls and answers, and the final variables. *)
Fixpoint run (p : client (T:=T)) ρ : M T (list (cmd T * out T) * env) :=
  match p with
  | Stop => mret ([], ρ)
  | Call c k => r ← exec c ρ; z ← run (k r.1) r.2; mret ((c, r.1) :: z.1, z.2)
  end.
End exec.
