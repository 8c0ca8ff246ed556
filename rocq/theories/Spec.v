(** * Spec: what the calls of the public interface of seq do, in terms of lists.

    This file does not mention nodes, segments, heaps or the code: a container
    is a list of elements with an allocator, an iterator is an index into a
    container.  [pre] says when a call is allowed, [step] says what it may answer
    and how the lists and iterators are afterwards. *)
From Verif Require Export Base ListAlg.
From stdpp Require Import options.

(** ** Abstract states: containers and iterators are named by numbers. *)
Record sst (T : Type) := SSt {
  conts : gmap nat (list T * nat);   (* elements and allocator of every live container *)
  iters : gmap nat (nat * nat)       (* container and index of every valid iterator *)
}.
Global Arguments SSt {_} _ _.
Global Arguments conts {_} _.
Global Arguments iters {_} _.

(** an argument of type T const& or T&&: a value from outside, or the element an
    iterator refers to *)
Inductive arg (T : Type) :=
  | AVal (v : T)
  | ARef (w : nat)
  | AMove (w : nat).
Global Arguments AVal {_} _.
Global Arguments ARef {_} _.
Global Arguments AMove {_} _.
(** a range argument: outside elements, or [w1,w2), possibly through
    std::move_iterator *)
Inductive rng (T : Type) :=
  | RList (xs : list T)
  | RSeq (mv : bool) (w1 w2 : nat).
Global Arguments RList {_} _.
Global Arguments RSeq {_} _ _ _.

(** x, y: containers; w: iterators (a result iterator is the last argument) *)
Inductive cmd (T : Type) :=
  (* construction and destruction *)
  | New (x a : nat)                                   (* seq x(a) *)
  | NewCount (x n : nat) (s : arg T) (a : nat)        (* seq x(n, s, a) *)
  | NewRange (x : nat) (r : rng T) (a : nat)          (* seq x(first, last, a) *)
  | NewCopy (x y : nat)                               (* seq x(y) *)
  | NewCopyAlloc (x y a : nat)                        (* seq x(y, a) *)
  | NewMove (x y : nat)                               (* seq x(std::move(y)) *)
  | NewMoveAlloc (x y a : nat)                        (* seq x(std::move(y), a) *)
  | Destroy (x : nat)                                  (* ~seq *)
  (* assignment *)
  | AssignCopy (x y : nat)                            (* x = y *)
  | AssignMove (x y : nat)                            (* x = std::move(y) *)
  | AssignCount (x n : nat) (s : arg T)               (* x.assign(n, s) *)
  | AssignRange (x : nat) (r : rng T)                 (* x.assign(first, last), x = ilist *)
  (* observers *)
  | GetAlloc (x : nat)
  | GetSize (x : nat)
  | IsEmpty (x : nat)
  | Height (x : nat)
  | At (x n : nat)                                    (* x.at(n) *)
  | Index (x n : nat)                                 (* x[n] *)
  | Front (x : nat)
  | Back (x : nat)
  (* iterators *)
  | Begin (x w : nat)
  | End (x w : nat)
  | Penultimate (x w : nat)
  | NthOf (x n w : nat)
  | IndexOf (x w : nat)
  | Deref (w : nat)                                   (* *w *)
  | DerefAt (w : nat) (d : Z)                         (* w[d] *)
  | RDeref (w : nat)                                  (* *reverse_iterator(w) *)
  | Write (w : nat) (s : arg T)                       (* *w = s *)
  | StepNext (w w' : nat)                                 (* w' = ++w *)
  | StepPrev (w w' : nat)                                 (* w' = --w *)
  | StepAdd (w : nat) (d : Z) (w' : nat)                  (* w' = w + d *)
  | StepSub (w : nat) (d : Z) (w' : nat)                  (* w' = w - d *)
  | Diff (w1 w2 : nat)                                (* w1 - w2 *)
  | ItEq (w1 w2 : nat)
  | ItLt (w1 w2 : nat)
  | ItLe (w1 w2 : nat)
  | ItNe (w1 w2 : nat)
  | ItGt (w1 w2 : nat)
  | ItGe (w1 w2 : nat)
  | SegAfter (w w' : nat)                             (* [begin(),end()), current(); w' = after_segment() *)
  | SegAfterCount (x w n w' : nat)                    (* same; w' = after_segment(n) if n elements follow the segment *)
  | SegBefore (w w' : nat)                            (* same; w' = before_segment() if an element precedes the segment *)
  (* modifiers *)
  | Clear (x : nat)
  | InsertOne (x w : nat) (s : arg T) (w' : nat)         (* w' = x.insert(w, s), x.emplace(w, s) *)
  | InsertCount (x w n : nat) (s : arg T) (w' : nat)
  | InsertRange (x w : nat) (r : rng T) (w' : nat)
  | Erase (x w w' : nat)
  | EraseRange (x w1 w2 w' : nat)
  | PushBack (x : nat) (s : arg T)
  | PushFront (x : nat) (s : arg T)
  | PopBack (x : nat)
  | PopFront (x : nat)
  | Resize (x n : nat) (s : arg T)                    (* x.resize(n, s); x.resize(n) is s = T() *)
  | Swap (x y : nat)
  (* list operations *)
  | SpliceAll (x w y : nat)
  | SpliceOne (x w y w1 : nat)
  | SpliceRange (x w y w1 w2 : nat)
  | MergeIn (x y : nat) (lt : T → T → bool)
  | Remove (x : nat) (s : arg T) (eq : T → T → bool)
  | RemoveIf (x : nat) (p : T → bool)
  | Unique (x : nat) (p : T → T → bool)
  | Reverse (x : nat)
  | Sort (x : nat) (lt : T → T → bool)
  | CmpEq (x y : nat) (eq : T → T → bool)                (* x == y *)
  | CmpLt (x y : nat) (lt : T → T → bool)                (* x < y *)
  | CmpNe (x y : nat) (eq : T → T → bool)
  | CmpLe (x y : nat) (lt : T → T → bool)
  | CmpGt (x y : nat) (lt : T → T → bool)
  | CmpGe (x y : nat) (lt : T → T → bool).
Global Arguments New {_}. Global Arguments NewCount {_}. Global Arguments NewRange {_}. Global Arguments NewCopy {_}.
Global Arguments NewCopyAlloc {_}. Global Arguments NewMove {_}. Global Arguments NewMoveAlloc {_}. Global Arguments Destroy {_}.
Global Arguments AssignCopy {_}. Global Arguments AssignMove {_}. Global Arguments AssignCount {_}. Global Arguments AssignRange {_}.
Global Arguments GetAlloc {_}. Global Arguments GetSize {_}. Global Arguments IsEmpty {_}. Global Arguments Height {_}.
Global Arguments At {_}. Global Arguments Index {_}. Global Arguments Front {_}. Global Arguments Back {_}.
Global Arguments Begin {_}. Global Arguments End {_}. Global Arguments Penultimate {_}. Global Arguments NthOf {_}. Global Arguments IndexOf {_}.
Global Arguments Deref {_}. Global Arguments DerefAt {_}. Global Arguments RDeref {_}. Global Arguments Write {_}.
Global Arguments StepNext {_}. Global Arguments StepPrev {_}. Global Arguments StepAdd {_}. Global Arguments StepSub {_}. Global Arguments Diff {_}.
Global Arguments ItEq {_}. Global Arguments ItLt {_}. Global Arguments ItLe {_}. Global Arguments SegAfter {_}. Global Arguments SegBefore {_}. Global Arguments SegAfterCount {_}.
Global Arguments Clear {_}. Global Arguments InsertOne {_}. Global Arguments InsertCount {_}. Global Arguments InsertRange {_}.
Global Arguments Erase {_}. Global Arguments EraseRange {_}. Global Arguments PushBack {_}. Global Arguments PushFront {_}.
Global Arguments PopBack {_}. Global Arguments PopFront {_}. Global Arguments Resize {_}. Global Arguments Swap {_}.
Global Arguments SpliceAll {_}. Global Arguments SpliceOne {_}. Global Arguments SpliceRange {_}. Global Arguments MergeIn {_}.
Global Arguments Remove {_}. Global Arguments RemoveIf {_}. Global Arguments Unique {_}. Global Arguments Reverse {_}.
Global Arguments Sort {_}. Global Arguments CmpEq {_}. Global Arguments CmpLt {_}.
Global Arguments ItNe {_}. Global Arguments ItGt {_}. Global Arguments ItGe {_}.
Global Arguments CmpNe {_}. Global Arguments CmpLe {_}. Global Arguments CmpGt {_}. Global Arguments CmpGe {_}.

Inductive out (T : Type) :=
  | OUnit
  | OVal (v : T)
  | ONat (n : nat)
  | OBool (b : bool)
  | OInt (z : Z)
  | OSegm (xs : list T) (k : nat)    (* the elements of a segment, index of the current one *)
  | OExn (e : exn).                  (* the call threw *)
Global Arguments OUnit {_}. Global Arguments OVal {_} _. Global Arguments ONat {_} _. Global Arguments OBool {_} _.
Global Arguments OInt {_} _. Global Arguments OSegm {_} _ _. Global Arguments OExn {_} _.

Section spec.
Context {T : Type} (C : cfg T).
Implicit Types σ : sst T.
Implicit Types xs ys : list T.

(** ** Lists *)
Definition put_at (p : nat) xs ys : list T := take p ys ++ xs ++ drop p ys.    (* insert xs at index p *)
Definition cut (p q : nat) ys : list T := take p ys ++ drop q ys.             (* remove [p,q) *)
Definition sub (p q : nat) ys : list T := take (q - p) (drop p ys).           (* [p,q) *)
(** the k elements from index p on have been moved from *)
Definition moved (p k : nat) ys : list T :=
  take p ys ++ (c_residue C <$> take k (drop p ys)) ++ drop (p + k) ys.
(** assignment got as far as the first k elements *)
Definition overwritten (k : nat) xs ys : list T := take k xs ++ drop k ys.

(** ** States *)
Definition contents σ (x : nat) : list T := from_option fst [] (conts σ !! x).
Definition alloc_of σ (x : nat) : nat := from_option snd 0 (conts σ !! x).
Definition setc (x : nat) xs (a : nat) σ : sst T := SSt (<[x := (xs, a)]> (conts σ)) (iters σ).
(** iterators into [x] become invalid *)
Definition forget (x : nat) σ : sst T := SSt (conts σ) (filter (λ w, w.2.1 ≠ x) (iters σ)).
(** elements overwritten in place: iterators stay *)
Definition write (x : nat) xs σ : sst T := setc x xs (alloc_of σ x) σ.
(** elements inserted or removed: iterators into [x] become invalid *)
Definition modify (x : nat) xs σ : sst T := forget x (write x xs σ).
Definition point (w x p : nat) σ : sst T := SSt (conts σ) (<[w := (x, p)]> (iters σ)).
(** iterators into [y] now refer to [x] *)
Definition retarget (y x : nat) σ : sst T :=
  SSt (conts σ) ((λ i, (if i.1 =? y then x else i.1, i.2)) <$> iters σ).
Definition exchange (x y : nat) σ : sst T :=
  SSt (conts σ) ((λ i, (if i.1 =? x then y else if i.1 =? y then x else i.1, i.2)) <$> iters σ).

(** ** Arguments *)
Definition deref σ (w : nat) : option T := '(x, p) ← iters σ !! w; contents σ x !! p.
Definition arg_value σ (s : arg T) : option T :=
  match s with AVal v => Some v | ARef w | AMove w => deref σ w end.
Definition arg_used σ (s : arg T) : sst T :=
  match s with
  | AMove w => match iters σ !! w with
               | Some (x, p) => write x (moved p 1 (contents σ x)) σ
               | None => σ
               end
  | _ => σ
  end.
Definition arg_const (s : arg T) : Prop := match s with AMove _ => False | _ => True end.
Definition arg_outside σ (s : arg T) (x : nat) : Prop :=
  match s with AVal _ => True | ARef w | AMove w => ∀ p, iters σ !! w ≠ Some (x, p) end.
Definition rng_values σ (r : rng T) : option (list T) :=
  match r with
  | RList xs => Some xs
  | RSeq _ w1 w2 =>
    '(x, p) ← iters σ !! w1; '(y, q) ← iters σ !! w2;
    if (x =? y) && (p <=? q) then Some (sub p q (contents σ x)) else None
  end.
(** the first k elements of the range have been used *)
Definition rng_used σ (r : rng T) (k : nat) : sst T :=
  match r with
  | RSeq true w1 _ => match iters σ !! w1 with
                      | Some (x, p) => write x (moved p k (contents σ x)) σ
                      | None => σ
                      end
  | _ => σ
  end.
(** the iterators of a range from outside belong to the caller: an exception may
    also come after the last element *)
Definition rng_late (r : rng T) : Prop := match r with RList _ => True | RSeq _ _ _ => False end.
Definition rng_stops (r : rng T) (n j : nat) : Prop := j < n ∨ rng_late r ∧ j = n.
Definition rng_outside σ (r : rng T) (x : nat) : Prop :=
  match r with RList _ => True | RSeq _ w1 _ => ∀ p, iters σ !! w1 ≠ Some (x, p) end.

(** ** Preconditions *)
(** at most max_size() elements *)
Definition fits (n : nat) : Prop := n < c_W C.
(** the code calls deallocate(nullptr) on an empty container, see C37 *)
Definition can_purge xs : Prop := xs = [] → c_null_free C = true.
Definition can_throw : Prop := (∃ e, raisable C e) → c_null_free C = true.
Definition live σ x : Prop := is_Some (conts σ !! x).
Definition unused σ x : Prop := conts σ !! x = None.
Definition at_it σ w x p : Prop := iters σ !! w = Some (x, p).
Definition takes_over (a b : nat) : bool := c_pocma C || (a =? b).

Definition pre σ (c : cmd T) : Prop :=
  match c with
  | New x a => unused σ x
  | NewCount x n s a => unused σ x ∧ fits n ∧ arg_const s ∧ is_Some (arg_value σ s) ∧ can_throw
  | NewRange x r a => unused σ x ∧ (∃ xs, rng_values σ r = Some xs ∧ fits (length xs)) ∧ can_throw
  | NewCopy x y | NewCopyAlloc x y _ | NewMoveAlloc x y _ => unused σ x ∧ live σ y ∧ can_throw
  | NewMove x y => unused σ x ∧ live σ y
  | Destroy x | Clear x => live σ x ∧ can_purge (contents σ x)
  | AssignCopy x y => live σ x ∧ live σ y ∧
      (c_pocca C = true → alloc_of σ x ≠ alloc_of σ y → can_purge (contents σ x))
  | AssignMove x y => live σ x ∧ live σ y ∧
      (takes_over (alloc_of σ x) (alloc_of σ y) = true → can_purge (contents σ x))
  | AssignCount x n s | Resize x n s =>
      live σ x ∧ fits n ∧ arg_const s ∧ is_Some (arg_value σ s) ∧ arg_outside σ s x
  | AssignRange x r => live σ x ∧ (∃ xs, rng_values σ r = Some xs ∧ fits (length xs)) ∧ rng_outside σ r x
  | GetAlloc x | GetSize x | IsEmpty x | Height x | At x _ | Begin x _ | End x _ | NthOf x _ _ => live σ x
  | Index x n => n < length (contents σ x)
  | Front x | Back x | Penultimate x _ | PopBack x | PopFront x => contents σ x ≠ []
  | IndexOf x w => ∃ p, at_it σ w x p
  | Deref w => is_Some (deref σ w)
  | Write w s => is_Some (deref σ w) ∧ is_Some (arg_value σ s)
  | DerefAt w d => ∃ x p, at_it σ w x p ∧ (0 ≤ Z.of_nat p + d < Z.of_nat (length (contents σ x)))%Z
  | RDeref w | StepPrev w _ => ∃ x p, at_it σ w x p ∧ 0 < p
  | StepNext w _ => ∃ x p, at_it σ w x p ∧ p < length (contents σ x)
  | StepAdd w d _ => ∃ x p, at_it σ w x p ∧ (0 ≤ Z.of_nat p + d ≤ Z.of_nat (length (contents σ x)))%Z
  | StepSub w d _ => ∃ x p, at_it σ w x p ∧ (0 ≤ Z.of_nat p - d ≤ Z.of_nat (length (contents σ x)))%Z
  | Diff w1 w2 => ∃ x p q, at_it σ w1 x p ∧ at_it σ w2 x q ∧
      (2 * Z.abs (Z.of_nat p - Z.of_nat q) < Z.of_nat (c_W C))%Z   (* representable as a difference_type *)
  | ItEq w1 w2 | ItLt w1 w2 | ItLe w1 w2 | ItNe w1 w2 | ItGt w1 w2 | ItGe w1 w2 => ∃ x p q, at_it σ w1 x p ∧ at_it σ w2 x q
  | SegAfter w _ => ∃ x p, at_it σ w x p
  | SegAfterCount x w _ _ => ∃ p, at_it σ w x p
  | SegBefore w _ => ∃ x p, at_it σ w x p
  | InsertOne x w s _ => ∃ p, at_it σ w x p ∧ is_Some (arg_value σ s) ∧ fits (length (contents σ x) + 1)
  | PushBack x s | PushFront x s => live σ x ∧ is_Some (arg_value σ s) ∧ fits (length (contents σ x) + 1)
  | InsertCount x w n s _ => ∃ p, at_it σ w x p ∧ arg_const s ∧ is_Some (arg_value σ s) ∧ arg_outside σ s x ∧
      fits (length (contents σ x) + n)
  | InsertRange x w r _ => ∃ p xs, at_it σ w x p ∧ rng_values σ r = Some xs ∧ rng_outside σ r x ∧
      fits (length (contents σ x) + length xs)
  | Erase x w _ => ∃ p, at_it σ w x p ∧ p < length (contents σ x)
  | EraseRange x w1 w2 _ => ∃ p q, at_it σ w1 x p ∧ at_it σ w2 x q ∧ p ≤ q
  | Swap x y => live σ x ∧ live σ y ∧ (c_pocs C = true ∨ alloc_of σ x = alloc_of σ y)
  | SpliceAll x w y => ∃ p, at_it σ w x p ∧ live σ y ∧ x ≠ y ∧ can_purge (contents σ y) ∧
      fits (length (contents σ x) + length (contents σ y))
  | SpliceOne x w y w1 => ∃ p q, at_it σ w x p ∧ at_it σ w1 y q ∧ q < length (contents σ y) ∧ x ≠ y ∧
      fits (length (contents σ x) + 1)
  | SpliceRange x w y w1 w2 => ∃ p q1 q2, at_it σ w x p ∧ at_it σ w1 y q1 ∧ at_it σ w2 y q2 ∧ q1 ≤ q2 ∧ x ≠ y ∧
      fits (length (contents σ x) + (q2 - q1))
  | MergeIn x y _ => live σ x ∧ live σ y ∧ x ≠ y ∧ fits (length (contents σ x) + length (contents σ y))
  | Remove x s _ => live σ x ∧ is_Some (arg_value σ s) ∧ arg_outside σ s x
  | RemoveIf x _ | Unique x _ | Reverse x | Sort x _ => live σ x
  | CmpEq x y _ | CmpLt x y _ | CmpNe x y _ | CmpLe x y _ | CmpGt x y _ | CmpGe x y _ => live σ x ∧ live σ y
  end.

(** ** Effects *)
(** the call returns normally and answers [r], or throws [e] *)
Definition returns (o : out T) (r : out T) : Prop := o = r.
Definition throws (o : out T) (e : exn) : Prop := o = OExn e ∧ raisable C e.
(** a predicate or comparison threw, and the call passes the exception on *)
Definition balks (o : out T) : Prop := o = OExn EPred ∧ pred_fails C.
(** removal in place stopped when only the first k elements had been examined:
    those kept are in front, the others have not been touched *)
Definition stopped (keep : list T → list T) xs xs' : Prop :=
  ∃ k gap, k < length xs ∧ length xs' = length xs ∧ xs' = keep (take k xs) ++ gap ++ drop k xs.

(** insertion of a single element: all or nothing.  If an allocation fails the
    argument has been used already. *)
Definition insert_step σ x p (s : arg T) (after : sst T → sst T) (o : out T) (σ' : sst T) : Prop :=
  ∃ v, arg_value σ s = Some v ∧
  ((returns o OUnit ∧ σ' = after (modify x (put_at p [v] (contents (arg_used σ s) x)) (arg_used σ s))) ∨
   (throws o EUser ∧ σ' = σ) ∨
   (throws o EAlloc ∧ σ' = arg_used σ s)).
(** segments: [w] is in a segment with elements [xs], preceded by [before] *)
Definition in_segment ys (p : nat) (before xs : list T) (k : nat) : Prop :=
  (∃ rest, ys = before ++ xs ++ rest) ∧ p = length before + k ∧ k ≤ length xs ∧ (p < length ys → k < length xs).

(** the height of a container of [n] elements is logarithmic *)
Definition height_bound (n h : nat) : Prop :=
  (h = 0 ↔ n = 0) ∧
  (1 ≤ h → n ≤ segment_max * base_max ^ (h - 1)) ∧
  (2 ≤ h → 2 * base_min ^ (h - 2) * segment_min ≤ n).

Definition step σ (c : cmd T) (o : out T) (σ' : sst T) : Prop :=
  match c with
  | New x a => returns o OUnit ∧ σ' = setc x [] a σ
  | NewCount x n s a => ∃ v, arg_value σ s = Some v ∧
      (returns o OUnit ∧ σ' = setc x (replicate n v) a σ ∨ (∃ e, throws o e) ∧ σ' = σ)
  | NewRange x r a => ∃ xs, rng_values σ r = Some xs ∧
      (returns o OUnit ∧ σ' = setc x xs a (rng_used σ r (length xs)) ∨
       ∃ e j, throws o e ∧ j ≤ length xs ∧ σ' = rng_used σ r j)
  | NewCopy x y =>
      returns o OUnit ∧ σ' = setc x (contents σ y) (c_soccc C (alloc_of σ y)) σ ∨ (∃ e, throws o e) ∧ σ' = σ
  | NewCopyAlloc x y a =>
      returns o OUnit ∧ σ' = setc x (contents σ y) a σ ∨ (∃ e, throws o e) ∧ σ' = σ
  | NewMove x y =>
      returns o OUnit ∧ σ' = retarget y x (write y [] (setc x (contents σ y) (alloc_of σ y) σ))
  | NewMoveAlloc x y a =>
      if a =? alloc_of σ y then
        returns o OUnit ∧ σ' = retarget y x (write y [] (setc x (contents σ y) a σ))
      else
        let n := length (contents σ y) in
        returns o OUnit ∧ σ' = setc x (contents σ y) a (write y (moved 0 n (contents σ y)) σ) ∨
        ∃ e j, throws o e ∧ j ≤ n ∧ σ' = write y (moved 0 j (contents σ y)) σ
  | Destroy x => returns o OUnit ∧ σ' = forget x (SSt (delete x (conts σ)) (iters σ))
  | AssignCopy x y =>
      if x =? y then returns o OUnit ∧ σ' = σ
      else
        let a := if c_pocca C then alloc_of σ y else alloc_of σ x in
        let old := if c_pocca C && negb (alloc_of σ x =? alloc_of σ y) then [] else contents σ x in
        returns o OUnit ∧ σ' = forget x (setc x (contents σ y) a σ) ∨
        ∃ e j, throws o e ∧ j < length (contents σ y) ∧
          σ' = forget x (setc x (overwritten j (contents σ y) old) a σ)
  | AssignMove x y =>
      if x =? y then returns o OUnit ∧ σ' = modify x [] σ
      else if takes_over (alloc_of σ x) (alloc_of σ y) then
        let a := if c_pocma C then alloc_of σ y else alloc_of σ x in
        returns o OUnit ∧ σ' = retarget y x (write y [] (forget x (setc x (contents σ y) a σ)))
      else
        let n := length (contents σ y) in
        returns o OUnit ∧ σ' = modify x (contents σ y) (write y (moved 0 n (contents σ y)) σ) ∨
        ∃ e j j', throws o e ∧ j < n ∧ j ≤ j' ≤ S j ∧
          σ' = modify x (overwritten j (contents σ y) (contents σ x)) (write y (moved 0 j' (contents σ y)) σ)
  | AssignCount x n s => ∃ v, arg_value σ s = Some v ∧
      (returns o OUnit ∧ σ' = modify x (replicate n v) σ ∨
       ∃ e j, throws o e ∧ j < n ∧ σ' = modify x (overwritten j (replicate n v) (contents σ x)) σ)
  | AssignRange x r => ∃ xs, rng_values σ r = Some xs ∧
      (returns o OUnit ∧ σ' = modify x xs (rng_used σ r (length xs)) ∨
       ∃ e j j', throws o e ∧ rng_stops r (length xs) j ∧ j ≤ j' ≤ S j ∧
         σ' = modify x (overwritten j xs (contents σ x)) (rng_used σ r j'))
  | GetAlloc x => returns o (ONat (alloc_of σ x)) ∧ σ' = σ
  | GetSize x => returns o (ONat (length (contents σ x))) ∧ σ' = σ
  | IsEmpty x => returns o (OBool (bool_decide (contents σ x = []))) ∧ σ' = σ
  | Height x => (∃ h, returns o (ONat h) ∧ height_bound (length (contents σ x)) h) ∧ σ' = σ
  | At x n =>
      match contents σ x !! n with
      | Some v => returns o (OVal v)
      | None => o = OExn EOutOfRange
      end ∧ σ' = σ
  | Index x n => (∃ v, contents σ x !! n = Some v ∧ returns o (OVal v)) ∧ σ' = σ
  | Front x => (∃ v, head (contents σ x) = Some v ∧ returns o (OVal v)) ∧ σ' = σ
  | Back x => (∃ v, last (contents σ x) = Some v ∧ returns o (OVal v)) ∧ σ' = σ
  | Begin x w => returns o OUnit ∧ σ' = point w x 0 σ
  | End x w => returns o OUnit ∧ σ' = point w x (length (contents σ x)) σ
  | Penultimate x w => returns o OUnit ∧ σ' = point w x (length (contents σ x) - 1) σ
  | NthOf x n w => returns o OUnit ∧ σ' = point w x (n `min` length (contents σ x)) σ
  | IndexOf x w => (∃ p, at_it σ w x p ∧ returns o (ONat p)) ∧ σ' = σ
  | Deref w => (∃ v, deref σ w = Some v ∧ returns o (OVal v)) ∧ σ' = σ
  | DerefAt w d => (∃ x p v, at_it σ w x p ∧ contents σ x !! Z.to_nat (Z.of_nat p + d) = Some v ∧ returns o (OVal v)) ∧ σ' = σ
  | RDeref w => (∃ x p v, at_it σ w x p ∧ contents σ x !! (p - 1) = Some v ∧ returns o (OVal v)) ∧ σ' = σ
  | Write w s => ∃ x p v, at_it σ w x p ∧ arg_value σ s = Some v ∧
      (returns o OUnit ∧ σ' = write x (<[p := v]> (contents (arg_used σ s) x)) (arg_used σ s) ∨
       throws o EUser ∧ σ' = σ)
  | StepNext w w' => ∃ x p, at_it σ w x p ∧ returns o OUnit ∧ σ' = point w' x (p + 1) σ
  | StepPrev w w' => ∃ x p, at_it σ w x p ∧ returns o OUnit ∧ σ' = point w' x (p - 1) σ
  | StepAdd w d w' => ∃ x p, at_it σ w x p ∧ returns o OUnit ∧ σ' = point w' x (Z.to_nat (Z.of_nat p + d)) σ
  | StepSub w d w' => ∃ x p, at_it σ w x p ∧ returns o OUnit ∧ σ' = point w' x (Z.to_nat (Z.of_nat p - d)) σ
  | Diff w1 w2 => (∃ x p q, at_it σ w1 x p ∧ at_it σ w2 x q ∧ returns o (OInt (Z.of_nat p - Z.of_nat q))) ∧ σ' = σ
  | ItEq w1 w2 => (∃ x p q, at_it σ w1 x p ∧ at_it σ w2 x q ∧ returns o (OBool (bool_decide (p = q)))) ∧ σ' = σ
  | ItLt w1 w2 => (∃ x p q, at_it σ w1 x p ∧ at_it σ w2 x q ∧ returns o (OBool (bool_decide (p < q)))) ∧ σ' = σ
  | ItLe w1 w2 => (∃ x p q, at_it σ w1 x p ∧ at_it σ w2 x q ∧ returns o (OBool (bool_decide (p ≤ q)))) ∧ σ' = σ
  | ItNe w1 w2 => (∃ x p q, at_it σ w1 x p ∧ at_it σ w2 x q ∧ returns o (OBool (bool_decide (p ≠ q)))) ∧ σ' = σ
  | ItGt w1 w2 => (∃ x p q, at_it σ w1 x p ∧ at_it σ w2 x q ∧ returns o (OBool (bool_decide (q < p)))) ∧ σ' = σ
  | ItGe w1 w2 => (∃ x p q, at_it σ w1 x p ∧ at_it σ w2 x q ∧ returns o (OBool (bool_decide (q ≤ p)))) ∧ σ' = σ
  | SegAfter w w' => ∃ x p before xs k, at_it σ w x p ∧ in_segment (contents σ x) p before xs k ∧
      returns o (OSegm xs k) ∧ σ' = point w' x (length before + length xs) σ
  | SegAfterCount x w n w' => ∃ p before xs k, at_it σ w x p ∧ in_segment (contents σ x) p before xs k ∧
      returns o (OSegm xs k) ∧
      σ' = if length before + length xs + n <=? length (contents σ x) then point w' x (length before + length xs + n) σ else σ
  | SegBefore w w' => ∃ x p before xs k, at_it σ w x p ∧ in_segment (contents σ x) p before xs k ∧
      returns o (OSegm xs k) ∧
      σ' = if length before =? 0 then σ else point w' x (length before - 1) σ
  | Clear x => returns o OUnit ∧ σ' = modify x [] σ
  | InsertOne x w s w' => ∃ p, at_it σ w x p ∧ insert_step σ x p s (point w' x p) o σ'
  | PushBack x s => insert_step σ x (length (contents σ x)) s id o σ'
  | PushFront x s => insert_step σ x 0 s id o σ'
  | InsertCount x w n s w' => ∃ p v, at_it σ w x p ∧ arg_value σ s = Some v ∧
      (returns o OUnit ∧ σ' = point w' x p (modify x (put_at p (replicate n v) (contents σ x)) σ) ∨
       ∃ e j, throws o e ∧ j < n ∧ σ' = modify x (put_at p (replicate j v) (contents σ x)) σ)
  | InsertRange x w r w' => ∃ p xs, at_it σ w x p ∧ rng_values σ r = Some xs ∧
      (returns o OUnit ∧ σ' = point w' x p (modify x (put_at p xs (contents σ x)) (rng_used σ r (length xs))) ∨
       ∃ e j j', throws o e ∧ rng_stops r (length xs) j ∧ j ≤ j' ≤ S j ∧
         σ' = modify x (put_at p (take j xs) (contents σ x)) (rng_used σ r j'))
  | Erase x w w' => ∃ p, at_it σ w x p ∧ returns o OUnit ∧ σ' = point w' x p (modify x (cut p (S p) (contents σ x)) σ)
  | EraseRange x w1 w2 w' => ∃ p q, at_it σ w1 x p ∧ at_it σ w2 x q ∧ returns o OUnit ∧
      σ' = point w' x p (modify x (cut p q (contents σ x)) σ)
  | PopBack x => returns o OUnit ∧ σ' = modify x (take (length (contents σ x) - 1) (contents σ x)) σ
  | PopFront x => returns o OUnit ∧ σ' = modify x (tail (contents σ x)) σ
  | Resize x n s => ∃ v, arg_value σ s = Some v ∧
      let ys := contents σ x in
      (returns o OUnit ∧ σ' = modify x (take n ys ++ replicate (n - length ys) v) σ ∨
       ∃ e j, throws o e ∧ length ys + j < n ∧ σ' = modify x (ys ++ replicate j v) σ)
  | Swap x y =>
      returns o OUnit ∧ σ' = exchange x y (setc y (contents σ x) (alloc_of σ x) (setc x (contents σ y) (alloc_of σ y) σ))
  | SpliceAll x w y => ∃ p, at_it σ w x p ∧
      let zs := contents σ y in
      (returns o OUnit ∧ σ' = modify y [] (modify x (put_at p zs (contents σ x)) σ) ∨
       ∃ e j j', throws o e ∧ j < length zs ∧ j ≤ j' ≤ S j ∧
         σ' = write y (moved 0 j' zs) (modify x (put_at p (take j zs) (contents σ x)) σ))
  | SpliceOne x w y w1 => ∃ p q v, at_it σ w x p ∧ at_it σ w1 y q ∧ contents σ y !! q = Some v ∧
      (returns o OUnit ∧ σ' = modify y (cut q (S q) (contents σ y)) (modify x (put_at p [v] (contents σ x)) σ) ∨
       (∃ e, throws o e) ∧ σ' = σ)
  | SpliceRange x w y w1 w2 => ∃ p q1 q2, at_it σ w x p ∧ at_it σ w1 y q1 ∧ at_it σ w2 y q2 ∧
      let zs := sub q1 q2 (contents σ y) in
      (returns o OUnit ∧ σ' = modify y (cut q1 q2 (contents σ y)) (modify x (put_at p zs (contents σ x)) σ) ∨
       ∃ e j j', throws o e ∧ j < q2 - q1 ∧ j ≤ j' ≤ S j ∧
         σ' = write y (moved q1 j' (contents σ y)) (modify x (put_at p (take j zs) (contents σ x)) σ))
  | MergeIn x y lt =>
      let zs := contents σ y in
      returns o OUnit ∧ σ' = modify y [] (modify x (stable_merged lt (contents σ x) zs) σ) ∨
      (∃ e j j', throws o e ∧ j < length zs ∧ j ≤ j' ≤ S j ∧
         σ' = write y (moved 0 j' zs) (modify x (contents σ x ++ take j zs) σ)) ∨
      balks o ∧ contents σ x ≠ [] ∧ zs ≠ [] ∧ ∃ ys, length ys = length (contents σ x) + length zs ∧ σ' = modify y [] (modify x ys σ)
  | Remove x s eq => ∃ v, arg_value σ s = Some v ∧
      (returns o OUnit ∧ σ' = modify x (remove_list (λ u, eq u v) (contents σ x)) σ ∨
       balks o ∧ ∃ ys, stopped (remove_list (λ u, eq u v)) (contents σ x) ys ∧ σ' = write x ys σ)
  | RemoveIf x p =>
      returns o OUnit ∧ σ' = modify x (remove_list p (contents σ x)) σ ∨
      balks o ∧ ∃ ys, stopped (remove_list p) (contents σ x) ys ∧ σ' = write x ys σ
  | Unique x p =>
      returns o OUnit ∧ σ' = modify x (unique_list p (contents σ x)) σ ∨
      balks o ∧ ∃ ys, stopped (unique_list p) (contents σ x) ys ∧ σ' = write x ys σ
  | Reverse x => returns o OUnit ∧ σ' = write x (reverse (contents σ x)) σ
  | Sort x lt =>
      returns o OUnit ∧ σ' = write x (stable_sorted lt (contents σ x)) σ ∨
      balks o ∧ 1 < length (contents σ x) ∧ ∃ ys, length ys = length (contents σ x) ∧ σ' = write x ys σ
  | CmpEq x y eq =>
      (returns o (OBool (equal_lists eq (contents σ x) (contents σ y))) ∨
       balks o ∧ contents σ x ≠ [] ∧ length (contents σ x) = length (contents σ y)) ∧ σ' = σ
  | CmpLt x y lt =>
      (returns o (OBool (lex_lists lt (contents σ x) (contents σ y))) ∨
       balks o ∧ contents σ x ≠ [] ∧ contents σ y ≠ []) ∧ σ' = σ
  | CmpNe x y eq =>
      (returns o (OBool (negb (equal_lists eq (contents σ x) (contents σ y)))) ∨
       balks o ∧ contents σ x ≠ [] ∧ length (contents σ x) = length (contents σ y)) ∧ σ' = σ
  | CmpLe x y lt =>
      (returns o (OBool (negb (lex_lists lt (contents σ y) (contents σ x)))) ∨
       balks o ∧ contents σ x ≠ [] ∧ contents σ y ≠ []) ∧ σ' = σ
  | CmpGt x y lt =>
      (returns o (OBool (lex_lists lt (contents σ y) (contents σ x))) ∨
       balks o ∧ contents σ x ≠ [] ∧ contents σ y ≠ []) ∧ σ' = σ
  | CmpGe x y lt =>
      (returns o (OBool (negb (lex_lists lt (contents σ x) (contents σ y)))) ∨
       balks o ∧ contents σ x ≠ [] ∧ contents σ y ≠ []) ∧ σ' = σ
  end.

(** ** Client programs: an interaction tree of calls *)
Inductive client := Stop | Call (c : cmd T) (k : out T → client).
End spec.
