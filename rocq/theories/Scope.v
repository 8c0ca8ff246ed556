(** * Scope: which containers and variables a call is about, and kinds of calls
    (specification)

    [names c]: the containers the call names; [uses c]: the iterator variables it
    reads; [touches σ c x]: container [x] is named, or one of the iterators refers
    to it; [modifies σ c x]: the call may change [x]; [assigns c w]: the iterator
    variable the result is stored in. *)
From Verif Require Export Spec.
From stdpp Require Import options.

Section scope.
Context {T : Type}.
Definition arg_uses (s : arg T) : list nat := match s with AVal _ => [] | ARef w | AMove w => [w] end.
Definition rng_uses (r : rng T) : list nat := match r with RList _ => [] | RSeq _ w1 w2 => [w1; w2] end.
Definition names (c : cmd T) : list nat :=
  match c with
  | New x _ | NewCount x _ _ _ | NewRange x _ _ | Destroy x | AssignCount x _ _ | AssignRange x _
  | GetAlloc x | GetSize x | IsEmpty x | Height x | At x _ | Index x _ | Front x | Back x
  | Begin x _ | End x _ | Penultimate x _ | NthOf x _ _ | IndexOf x _ | SegAfterCount x _ _ _
  | Clear x | InsertOne x _ _ _ | InsertCount x _ _ _ _ | InsertRange x _ _ _ | Erase x _ _ | EraseRange x _ _ _
  | PushBack x _ | PushFront x _ | PopBack x | PopFront x | Resize x _ _
  | Remove x _ _ | RemoveIf x _ | Unique x _ | Reverse x | Sort x _ => [x]
  | NewCopy x y | NewCopyAlloc x y _ | NewMove x y | NewMoveAlloc x y _ | AssignCopy x y | AssignMove x y
  | Swap x y | SpliceAll x _ y | SpliceOne x _ y _ | SpliceRange x _ y _ _ | MergeIn x y _
  | CmpEq x y _ | CmpLt x y _ | CmpNe x y _ | CmpLe x y _ | CmpGt x y _ | CmpGe x y _ => [x; y]
  | Deref _ | DerefAt _ _ | RDeref _ | Write _ _ | StepNext _ _ | StepPrev _ _ | StepAdd _ _ _ | StepSub _ _ _
  | Diff _ _ | ItEq _ _ | ItLt _ _ | ItLe _ _ | ItNe _ _ | ItGt _ _ | ItGe _ _ | SegAfter _ _ | SegBefore _ _ => []
  end.
Definition uses (c : cmd T) : list nat :=
  match c with
  | NewCount _ _ s _ | AssignCount _ _ s | PushBack _ s | PushFront _ s | Resize _ _ s | Remove _ s _ => arg_uses s
  | NewRange _ r _ | AssignRange _ r => rng_uses r
  | IndexOf _ w | Deref w | DerefAt w _ | RDeref w | StepNext w _ | StepPrev w _ | StepAdd w _ _ | StepSub w _ _
  | SegAfter w _ | SegBefore w _ | SegAfterCount _ w _ _ | Erase _ w _ | SpliceAll _ w _ => [w]
  | Write w s | InsertOne _ w s _ | InsertCount _ w _ s _ => w :: arg_uses s
  | InsertRange _ w r _ => w :: rng_uses r
  | Diff w1 w2 | ItEq w1 w2 | ItLt w1 w2 | ItLe w1 w2
  | ItNe w1 w2 | ItGt w1 w2 | ItGe w1 w2 | EraseRange _ w1 w2 _ | SpliceOne _ w1 _ w2 => [w1; w2]
  | SpliceRange _ w _ w1 w2 => [w; w1; w2]
  | _ => []
  end.
Definition touches (σ : sst T) (c : cmd T) (x : nat) : Prop :=
  x ∈ names c ∨ ∃ w p, w ∈ uses c ∧ iters σ !! w = Some (x, p).
(** the containers a call may change: those it is called on, both for operations
    that move or exchange contents, and those an element or range is moved from *)
Definition arg_moves (s : arg T) : list nat := match s with AMove w => [w] | _ => [] end.
Definition rng_moves (r : rng T) : list nat := match r with RSeq true w _ => [w] | _ => [] end.
Definition changes (c : cmd T) : list nat :=
  match c with
  | New x _ | NewCount x _ _ _ | NewRange x _ _ | Destroy x | AssignCount x _ _ | AssignRange x _
  | Clear x | InsertOne x _ _ _ | InsertCount x _ _ _ _ | InsertRange x _ _ _ | Erase x _ _ | EraseRange x _ _ _
  | PushBack x _ | PushFront x _ | PopBack x | PopFront x | Resize x _ _
  | Remove x _ _ | RemoveIf x _ | Unique x _ | Reverse x | Sort x _
  | NewCopy x _ | NewCopyAlloc x _ _ | AssignCopy x _ => [x]
  | NewMove x y | NewMoveAlloc x y _ | AssignMove x y
  | Swap x y | SpliceAll x _ y | SpliceOne x _ y _ | SpliceRange x _ y _ _ | MergeIn x y _ => [x; y]
  | _ => []
  end.
Definition alters (c : cmd T) : list nat :=
  match c with
  | PushBack _ s | PushFront _ s | InsertOne _ _ s _ => arg_moves s
  | NewRange _ r _ | AssignRange _ r | InsertRange _ _ r _ => rng_moves r
  | Write w s => w :: arg_moves s
  | _ => []
  end.
Definition modifies (σ : sst T) (c : cmd T) (x : nat) : Prop :=
  x ∈ changes c ∨ ∃ w p, w ∈ alters c ∧ iters σ !! w = Some (x, p).
Definition assigns (c : cmd T) (w : nat) : Prop :=
  match c with
  | Begin _ w' | End _ w' | Penultimate _ w' | NthOf _ _ w' | StepNext _ w' | StepPrev _ w' | StepAdd _ _ w'
  | StepSub _ _ w' | SegAfter _ w' | SegAfterCount _ _ _ w' | SegBefore _ w' | InsertOne _ _ _ w'
  | InsertCount _ _ _ _ w' | InsertRange _ _ _ w' | Erase _ _ w' | EraseRange _ _ _ w' => w = w'
  | _ => False
  end.
End scope.

Section kinds.
Context {T : Type} {C : cfg T}.
(** the const member functions and the operations on iterators *)
Definition is_const (c : cmd T) : bool :=
  match c with
  | GetAlloc _ | GetSize _ | IsEmpty _ | Height _ | At _ _ | Index _ _ | Front _ | Back _
  | Begin _ _ | End _ _ | Penultimate _ _ | NthOf _ _ _ | IndexOf _ _ | Deref _ | DerefAt _ _ | RDeref _
  | StepNext _ _ | StepPrev _ _ | StepAdd _ _ _ | StepSub _ _ _ | Diff _ _ | ItEq _ _ | ItLt _ _ | ItLe _ _ | ItNe _ _ | ItGt _ _ | ItGe _ _
  | SegAfter _ _ | SegAfterCount _ _ _ _ | SegBefore _ _ | CmpEq _ _ _ | CmpLt _ _ _
  | CmpNe _ _ _ | CmpLe _ _ _ | CmpGt _ _ _ | CmpGe _ _ _ => true
  | _ => false
  end.
(** calls that never allocate *)
Definition no_alloc (c : cmd T) : bool :=
  is_const c || match c with
  | New _ _ | NewMove _ _ | Destroy _ | Write _ _ | Clear _ | Erase _ _ _ | EraseRange _ _ _ _ | PopBack _ | PopFront _
  | Swap _ _ | Remove _ _ _ | RemoveIf _ _ | Unique _ _ | Reverse _ | Sort _ _ => true
  | _ => false
  end.
(** calls that do not throw *)
Definition no_throw (c : cmd T) : bool :=
  match c with
  | At _ _ => false
  | New _ _ | NewMove _ _ | Destroy _ | Clear _ | Erase _ _ _ | EraseRange _ _ _ _ | PopBack _ | PopFront _
  | Swap _ _ | Remove _ _ _ | RemoveIf _ _ | Unique _ _ | Reverse _ | Sort _ _ => true
  | AssignMove _ _ => c_pocma C
  | _ => is_const c
  end.
(** calls that apply a predicate or comparison of the caller *)
Definition asks (c : cmd T) : bool :=
  match c with
  | Remove _ _ _ | RemoveIf _ _ | Unique _ _ | Sort _ _ | MergeIn _ _ _
  | CmpEq _ _ _ | CmpNe _ _ _ | CmpLt _ _ _ | CmpLe _ _ _ | CmpGt _ _ _ | CmpGe _ _ _ => true
  | _ => false
  end.
End kinds.
