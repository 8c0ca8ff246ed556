(** * Complexity: the documented complexity of the API, as tables.

    Specification only: depends on the specification of the calls (Spec.v) and
    on the two capacities of Base.v, not on the model of the code.

    The unit is one access to a block of memory (the sequence object, an index
    node or one slot of a segment), counted by [n_reads]: every read and every
    write of a field or of an element is one access.  [log_time n] is the
    "logarithmic" of the documentation, for a sequence of [n] elements: the
    traits fix the capacities [segment_max] and [base_max] of a block. *)
From Verif Require Export Spec.
From stdpp Require Import options.

Section tables.
Context {T : Type} (C : cfg T).
Implicit Types σ : sst T.
Implicit Types c : cmd T.
Definition log_time (n : nat) : nat := (segment_max (C:=C) + base_max (C:=C)) * (Nat.log2 n + 4).
Definition size_of σ x : nat := length (contents σ x).

(** "Complexity: Constant": /repo/include/boost/segmented_tree/seq.hpp l. 2314, 2322,
    2385 (constructors), 2558 (get_allocator), 2983-3025 (index_of, size, empty,
    height), 3368 (swap), 740-808, 921, 1053-1100 (iterators) *)
Definition constant_time c : bool :=
  match c with
  | New _ _ | NewMove _ _ | GetAlloc _ | GetSize _ | IsEmpty _ | Height _ | IndexOf _ _ | Deref _ | Write _ _
  | Diff _ _ | ItEq _ _ | ItLt _ _ | ItLe _ _ | ItNe _ _ | ItGt _ _ | ItGe _ _ | Swap _ _ => true
  | _ => false
  end.

(** "Complexity: Logarithmic in size()" (l. 2591-2944, 3077, 3095, 3176-3323, 3494):
    the number of elements concerned.  The moves of iterators and segments
    (l. 816-1039) are documented as amortized constant, or logarithmic in the
    distance; this is their worst case *)
Definition log_size σ c : option nat :=
  match c with
  | At x _ | Index x _ | Front x | Back x | Begin x _ | End x _ | Penultimate x _ | NthOf x _ _ | SegAfterCount x _ _ _
  | InsertOne x _ _ _ | PushBack x _ | PushFront x _ | Erase x _ _ | PopBack x | PopFront x => Some (size_of σ x)
  | DerefAt w _ | RDeref w | StepNext w _ | StepPrev w _ | StepAdd w _ _ | StepSub w _ _ | SegAfter w _ | SegBefore w _ =>
      (λ xp, size_of σ xp.1) <$> iters σ !! w
  | SpliceOne x _ y _ => Some (size_of σ x + size_of σ y)
  | _ => None
  end.

(** "Complexity: MlogN" (l. 2331-2376, 2400, 3114, 3134, 3211, 3337, 3462, 3526): (M, N).  [source] is the size of the sequence a range
    of iterators points into: advancing these is part of the call *)
Definition rng_source σ (r : rng T) : nat :=
  match r with RList _ => 0 | RSeq _ w _ => from_option (λ xp, size_of σ xp.1) 0 (iters σ !! w) end.
Definition rng_length σ (r : rng T) : nat := length (default [] (rng_values σ r)).
Definition between σ w1 w2 : nat :=
  match iters σ !! w1, iters σ !! w2 with Some (_, p), Some (_, q) => q - p | _, _ => 0 end.
Definition per_element σ c : option (nat * nat) :=
  match c with
  | NewCount _ n _ _ => Some (n, n)
  | NewRange _ r _ => Some (rng_length σ r, rng_length σ r + rng_source σ r)
  | NewCopy _ y | NewCopyAlloc _ y _ | NewMoveAlloc _ y _ => Some (size_of σ y, size_of σ y)
  | InsertCount x _ n _ _ => Some (n, size_of σ x + n)
  | InsertRange x _ r _ => Some (rng_length σ r, size_of σ x + rng_length σ r + rng_source σ r)
  | EraseRange x w1 w2 _ => Some (between σ w1 w2, size_of σ x)
  | Resize x n _ => Some ((n - size_of σ x) + (size_of σ x - n), size_of σ x + n)
  | SpliceAll x _ y => Some (size_of σ y, size_of σ x + size_of σ y)
  | SpliceRange x _ y w1 w2 => Some (between σ w1 w2, size_of σ x + size_of σ y)
  (* more precisely: [linear_plus] *)
  | AssignCount x n _ => Some (size_of σ x + n, size_of σ x + n)
  | AssignRange x r => Some (size_of σ x + rng_length σ r, size_of σ x + rng_length σ r + rng_source σ r)
  | AssignCopy x y | AssignMove x y => Some (size_of σ x + size_of σ y, size_of σ x + size_of σ y)
  | _ => None
  end.

(** "Complexity: Linear in size()" (l. 2425, 2459, 3056): clear, the destructor, and the move
    assignment that takes the other sequence's blocks over *)
Definition linear_size σ c : option nat :=
  match c with
  | Clear x | Destroy x => Some (size_of σ x)
  | AssignMove x y => if takes_over C (alloc_of σ x) (alloc_of σ y) then Some (size_of σ x) else None
  | _ => None
  end.

(** Linear in the elements passed over and logarithmic for each element added or
    removed (l. 2435-2541, assignments: "Linear in the minimum of size() and count, plus MlogN,
    where M is the difference"; l. 3563-3632: remove,
    remove_if, reverse, unique; l. 3667-3757: comparisons): [k] elements are compared,
    moved or overwritten, [m] are inserted or erased, in sequences of [n] elements.
    (The documentation says "Logarithmic in size()" for remove, and plain "Linear" where
    elements are inserted or erased one by one.) *)
Definition difference (m n : nat) : nat := (m - n) + (n - m).
Definition linear_plus σ c : option (nat * nat * nat) :=
  match c with
  | Reverse x => Some (size_of σ x, 0, size_of σ x)
  | CmpEq x y _ | CmpNe x y _ | CmpLt x y _ | CmpLe x y _ | CmpGt x y _ | CmpGe x y _ =>
      Some (size_of σ x `min` size_of σ y, 0, size_of σ x + size_of σ y)
  | Remove x s eq =>
      (λ v, (size_of σ x, size_of σ x - length (remove_list (λ u, eq u v) (contents σ x)), size_of σ x)) <$> arg_value σ s
  | RemoveIf x p => Some (size_of σ x, size_of σ x - length (remove_list p (contents σ x)), size_of σ x)
  | Unique x p => Some (size_of σ x, size_of σ x - length (unique_list p (contents σ x)), size_of σ x)
  | AssignCount x n _ => Some (n `min` size_of σ x, difference n (size_of σ x), size_of σ x + n)
  | AssignRange x r =>
      Some (rng_length σ r `min` size_of σ x, difference (rng_length σ r) (size_of σ x), size_of σ x + rng_length σ r + rng_source σ r)
  | AssignCopy x y =>
      (* with propagate_on_container_copy_assignment and unequal allocators, x is cleared first: [per_element] *)
      if c_pocca C && negb (alloc_of σ x =? alloc_of σ y) then None
      else Some (size_of σ y `min` size_of σ x, difference (size_of σ y) (size_of σ x), size_of σ x + size_of σ y)
  | AssignMove x y =>
      if takes_over C (alloc_of σ x) (alloc_of σ y) then None
      else Some (size_of σ y `min` size_of σ x, difference (size_of σ y) (size_of σ x), size_of σ x + size_of σ y)
  | _ => None
  end.
End tables.
