(** * Base: memory, undefined behaviour, exceptions, template parameters.

    Everything the C++ abstract machine contributes to the meaning of
    include/boost/segmented_tree/seq.hpp is here: blocks of memory, pointers,
    the monad of computations with an explicit undefined-behaviour outcome, the
    modular integer types, and the template / allocator parameters.
    Line numbers refer to include/boost/segmented_tree/seq.hpp. *)
From stdpp Require Export prelude gmap.
From stdpp Require Import options.

(** ** Pointers. [None] is nullptr. *)
Notation loc := positive.
Definition ptr := option loc.

(** ** Index nodes (lines 80-84 node_base, 121-139 node).
    Every field of a freshly allocated node is uninitialised ([None]).
    Simplification: a null [void_pointer] stored in [pointers[]] is not
    distinguished from an uninitialised one; reading either is a fault. *)
Record node := Node {
  n_parent : option ptr;        (* node_pointer parent_pointer   (l. 122) *)
  n_pidx   : option nat;        (* std::uint16_t parent_index_   (l. 123) *)
  n_len    : option nat;        (* std::uint16_t length_         (l. 124) *)
  n_sizes  : list (option nat); (* std::array<size_type, base_max()> sizes (l. 125) *)
  n_ptrs   : list (option loc)  (* std::array<void_pointer, base_max()> pointers (l. 126) *)
}.

(** ** The seq object itself: root_, size_pair_, height_pair_ (lines 1176-1188).
    The two allocators (element and node allocator, bases of size_pair_ and
    height_pair_) are represented by a number; two allocators compare equal
    iff their numbers are equal. *)
Record seqobj := SeqObj {
  s_root   : ptr;
  s_size   : nat;
  s_ht     : nat;
  s_ealloc : nat;   (* get_element_allocator() *)
  s_nalloc : nat    (* get_node_allocator() *)
}.

(** ** Blocks of memory. A segment is an array of element slots, [None] being
    raw storage and [Some v] a live object of value [v]. Blocks obtained from
    an allocator remember it. *)
Inductive obj (T : Type) :=
  | OSeg (al : nat) (slots : list (option T))
  | ONode (al : nat) (nd : node)
  | OSeq (s : seqobj).
Global Arguments OSeg {_} _ _.
Global Arguments ONode {_} _ _.
Global Arguments OSeq {_} _.

Notation heap T := (gmap loc (obj T)).

(** ** Template parameters, type traits and the environment. *)
Record cfg (T : Type) := Cfg {
  (* template arguments and sizeof's (l. 57-118) *)
  c_segment_target : nat;
  c_base_target    : nat;
  c_sizeof_T       : nat;
  c_sizeof_base    : nat;  (* sizeof(node_base) *)
  c_sizeof_data    : nat;  (* sizeof(node_data) *)
  (* integer types *)
  c_W : nat;               (* size_type arithmetic is modulo W (2^64) *)
  c_H : nat;               (* std::uint16_t arithmetic is modulo H (2^16) *)
  (* type traits of T and of the allocator *)
  c_triv_copy    : bool;   (* std::is_trivially_copyable<T> *)
  c_triv_destroy : bool;   (* std::is_trivially_destructible<T> *)
  c_std_construct : bool;  (* Allocator is std::allocator, or has no construct(T*, T&&) (l. 1394-1398) *)
  c_pocca : bool;          (* propagate_on_container_copy_assignment *)
  c_pocma : bool;          (* propagate_on_container_move_assignment *)
  c_pocs  : bool;          (* propagate_on_container_swap *)
  c_soccc : nat → nat;     (* select_on_container_copy_construction *)
  c_null_free : bool;      (* the allocator tolerates deallocate(nullptr, n) *)
  (* the element type *)
  c_default : T;           (* T() *)
  c_residue : T → T;       (* value a moved-from object is left with *)
  (* oracles, indexed by a clock that advances at every consultation; those for
     predicates and comparisons have a clock of their own *)
  c_pick : nat → heap T → option loc;  (* allocate: None = throws, Some l = block at l *)
  c_place : nat → heap T → loc;  (* storage the caller provides for a new seq object *)
  c_user_ok : nat → bool;  (* false: this construction/copy of a T, or operation of an external iterator, throws *)
  c_move_ok : nat → bool;  (* false: this move of a T throws *)
  c_pred_ok : nat → bool;  (* false: this evaluation of a predicate or comparison throws *)
  c_scramble : nat → list T → list T (* what std::stable_sort and std::inplace_merge leave behind then *)
}.
Existing Class cfg.
Global Arguments c_segment_target {_} _.
Global Arguments c_base_target {_} _.
Global Arguments c_sizeof_T {_} _.
Global Arguments c_sizeof_base {_} _.
Global Arguments c_sizeof_data {_} _.
Global Arguments c_W {_} _.
Global Arguments c_H {_} _.
Global Arguments c_triv_copy {_} _.
Global Arguments c_triv_destroy {_} _.
Global Arguments c_std_construct {_} _.
Global Arguments c_pocca {_} _.
Global Arguments c_pocma {_} _.
Global Arguments c_pocs {_} _.
Global Arguments c_soccc {_} _ _.
Global Arguments c_null_free {_} _.
Global Arguments c_default {_} _.
Global Arguments c_residue {_} _ _.
Global Arguments c_pick {_} _ _ _.
Global Arguments c_place {_} _ _ _.
Global Arguments c_user_ok {_} _ _.
Global Arguments c_move_ok {_} _ _.
Global Arguments c_pred_ok {_} _ _.
Global Arguments c_scramble {_} _ _ _.

(** ** Outcomes *)
Inductive fault :=
  | FNull      (* null pointer dereferenced *)
  | FDangling  (* pointer to a block that is not allocated *)
  | FType      (* block of another type (bad static_cast of a void_pointer) *)
  | FBounds    (* array index out of bounds *)
  | FUninit    (* uninitialised field read *)
  | FRaw       (* raw storage used as an object *)
  | FLive      (* object constructed over a live object *)
  | FOverlap   (* memcpy within one block *)
  | FBadFree   (* deallocate: null, wrong allocator, or live objects inside *)
  | FFuel.     (* the loop does not terminate *)

Inductive exn :=
  | EAlloc       (* allocate() threw *)
  | EUser        (* a constructor / copy of T, or an external iterator, threw *)
  | EMove        (* a move of T threw *)
  | EPred        (* a predicate or comparison of the caller threw *)
  | EOutOfRange. (* std::out_of_range, thrown by at() *)

(** Instrumentation without influence on the execution, except for [n_preds], the
    clock of [c_pred_ok] and [c_scramble].  The log lists the accesses to memory
    (block by block; creating and freeing a block writes it), latest first. *)
Inductive access := ARead (l : loc) | AWrite (l : loc).
Definition addr (a : access) : loc := match a with ARead l | AWrite l => l end.
Record counters := Cnt {
  n_allocs : nat;    (* calls of allocate() so far *)
  n_reads : nat;     (* blocks of memory read so far *)
  n_fails : list exn; (* failures of allocations, constructions, moves and predicates so far, latest first *)
  n_preds : nat;     (* calls of predicates and comparisons so far *)
  n_log : list access (* accesses to memory so far, latest first *)
}.
Definition touch (a : access) (k : counters) : counters :=
  Cnt (n_allocs k) (n_reads k) (n_fails k) (n_preds k) (a :: n_log k).
Record state (T : Type) := State {
  st_heap : heap T;
  st_clk : nat;        (* clock of the oracles *)
  st_cnt : counters
}.
Global Arguments State {_} _ _ _.
Global Arguments st_heap {_} _.
Global Arguments st_clk {_} _.
Global Arguments st_cnt {_} _.

Inductive res (T A : Type) :=
  | Ok (a : A) (st : state T)
  | Throw (e : exn) (st : state T)
  | Fault (f : fault).
Global Arguments Ok {_ _} _ _.
Global Arguments Throw {_ _} _ _.
Global Arguments Fault {_ _} _.

Definition M (T A : Type) : Type := state T → res T A.

Global Instance M_ret {T} : MRet (M T) := λ A a st, Ok a st.
Global Instance M_bind {T} : MBind (M T) := λ A B k m st,
  match m st with
  | Ok a st' => k a st'
  | Throw e st' => Throw e st'
  | Fault f => Fault f
  end.
Global Instance M_fmap {T} : FMap (M T) := λ A B f m, m ≫= λ a, mret (f a).

Definition fail {T A} (f : fault) : M T A := λ _, Fault f.
Definition throw {T A} (e : exn) : M T A := λ st, Throw e st.
(** try { m } catch (...) { h } *)
Definition try_catch {T A} (m : M T A) (h : exn → M T A) : M T A := λ st,
  match m st with
  | Throw e st' => h e st'
  | r => r
  end.

(** for (i = start; n iterations; ++i) f(i) *)
Fixpoint for_ {T} (n i : nat) (f : nat → M T unit) : M T unit :=
  match n with
  | 0 => mret ()
  | S n' => f i;; for_ n' (S i) f
  end.

(** Fuel for loops that follow parent pointers: such a loop visits distinct
    blocks, so [1 + number of blocks] iterations suffice when the parent chain
    is acyclic; otherwise the model reports [FFuel]. *)
Definition heap_fuel {T} : M T nat := λ st, Ok (S (size (st_heap st))) st.

Section prim.
Context {T : Type} {C : cfg T}.

(** ** Modular arithmetic of size_type, and uint16 truncation (l. 130-138). *)
Definition wadd (a b : nat) : nat := (a + b) mod c_W C.
Definition wsub (a b : nat) : nat := (a + c_W C - b) mod c_W C.
Definition wnot (a : nat) : nat := c_W C - 1 - a.          (* ~a *)
Definition u16 (a : nat) : nat := a mod c_H C.
(** static_cast<size_type>(difference_type) and back *)
Definition to_size (d : Z) : nat := Z.to_nat (d mod Z.of_nat (c_W C)).
Definition to_diff (n : nat) : Z :=
  if 2 * n <? c_W C then Z.of_nat n else (Z.of_nat n - Z.of_nat (c_W C))%Z.

(** ** constexpr capacities (l. 92-118) *)
Definition segment_fit : nat := c_segment_target C / c_sizeof_T C.           (* l. 92,100-102 *)
Definition base_free : nat :=                                                (* l. 96-98 *)
  if c_base_target C <? c_sizeof_base C then 0 else c_base_target C - c_sizeof_base C.
Definition base_fit : nat := base_free / c_sizeof_data C.                    (* l. 104-106 *)
Definition segment_max : nat := if 1 <? segment_fit then segment_fit else 1. (* l. 108-110 *)
Definition base_max : nat := if 3 <? base_fit then base_fit else 3.          (* l. 112-114 *)
Definition segment_min : nat := (segment_max + 1) / 2.                       (* l. 116 *)
Definition base_min : nat := (base_max + 1) / 2.                             (* l. 118 *)

(** ** Memory access *)
Definition load (p : ptr) : M T (loc * obj T) := λ st,
  match p with
  | None => Fault FNull
  | Some l =>
    match st_heap st !! l with
    | None => Fault FDangling
    | Some o => Ok (l, o) (State (st_heap st) (st_clk st)
        (touch (ARead l) (Cnt (n_allocs (st_cnt st)) (S (n_reads (st_cnt st))) (n_fails (st_cnt st)) (n_preds (st_cnt st)) (n_log (st_cnt st)))))
    end
  end.
Definition store (l : loc) (o : obj T) : M T unit := λ st,
  Ok () (State (<[l := o]> (st_heap st)) (st_clk st) (touch (AWrite l) (st_cnt st))).

Definition load_node (p : ptr) : M T (loc * nat * node) :=
  lo ← load p;
  match lo.2 with ONode al nd => mret (lo.1, al, nd) | _ => fail FType end.
Definition load_seg (p : ptr) : M T (loc * nat * list (option T)) :=
  lo ← load p;
  match lo.2 with OSeg al sl => mret (lo.1, al, sl) | _ => fail FType end.
Definition load_seq (this : loc) : M T seqobj :=
  lo ← load (Some this);
  match lo.2 with OSeq s => mret s | _ => fail FType end.

(** fields of an index node *)
Definition init {A} (x : option A) : M T A :=
  match x with Some a => mret a | None => fail FUninit end.
Definition elem {A} (l : list A) (i : nat) : M T A :=
  match l !! i with Some a => mret a | None => fail FBounds end.
Definition put {A} (l : list A) (i : nat) (a : A) : M T (list A) :=
  if i <? length l then mret (<[i := a]> l) else fail FBounds.

Definition parent_pointer (p : ptr) : M T ptr := x ← load_node p; init (n_parent x.2).
Definition parent_index (p : ptr) : M T nat := x ← load_node p; init (n_pidx x.2).   (* l. 128 *)
Definition length_of (p : ptr) : M T nat := x ← load_node p; init (n_len x.2).       (* l. 134 *)
Definition sizes (p : ptr) (i : nat) : M T nat :=
  x ← load_node p; c ← elem (n_sizes x.2) i; init c.
Definition pointers (p : ptr) (i : nat) : M T ptr :=
  x ← load_node p; c ← elem (n_ptrs x.2) i; l ← init c; mret (Some l).

Definition set_node (p : ptr) (f : node → M T node) : M T unit :=
  x ← load_node p; nd ← f x.2; store x.1.1 (ONode x.1.2 nd).
Definition set_parent_pointer (p q : ptr) : M T unit :=
  set_node p (λ nd, mret (Node (Some q) (n_pidx nd) (n_len nd) (n_sizes nd) (n_ptrs nd))).
Definition set_parent_index (p : ptr) (i : nat) : M T unit :=                        (* l. 130-132 *)
  set_node p (λ nd, mret (Node (n_parent nd) (Some (u16 i)) (n_len nd) (n_sizes nd) (n_ptrs nd))).
Definition set_length (p : ptr) (n : nat) : M T unit :=                              (* l. 136-138 *)
  set_node p (λ nd, mret (Node (n_parent nd) (n_pidx nd) (Some (u16 n)) (n_sizes nd) (n_ptrs nd))).
Definition set_sizes (p : ptr) (i : nat) (s : nat) : M T unit :=
  set_node p (λ nd, a ← put (n_sizes nd) i (Some s);
                    mret (Node (n_parent nd) (n_pidx nd) (n_len nd) a (n_ptrs nd))).
Definition set_pointers (p : ptr) (i : nat) (q : option loc) : M T unit :=
  set_node p (λ nd, a ← put (n_ptrs nd) i q;
                    mret (Node (n_parent nd) (n_pidx nd) (n_len nd) (n_sizes nd) a)).

(** slots of a segment *)
Definition slot (p : ptr) (i : nat) : M T (option T) :=
  x ← load_seg p; elem x.2 i.
Definition set_slot (p : ptr) (i : nat) (c : option T) : M T unit :=
  x ← load_seg p; a ← put x.2 i c; store x.1.1 (OSeg x.1.2 a).
(** use of pointer[i] as an object *)
Definition read_slot (p : ptr) (i : nat) : M T T :=
  c ← slot p i; match c with Some v => mret v | None => fail FRaw end.

(** ** Oracles *)
Definition tick (ok : nat → bool) (e : exn) : M T unit := λ st,
  if ok (st_clk st) then Ok () (State (st_heap st) (S (st_clk st)) (st_cnt st))
  else Throw e (State (st_heap st) (S (st_clk st))
    (Cnt (n_allocs (st_cnt st)) (n_reads (st_cnt st)) (e :: n_fails (st_cnt st)) (n_preds (st_cnt st)) (n_log (st_cnt st)))).
(** copy/value construction and copy assignment of a T *)
Definition user_tick : M T unit := tick (c_user_ok C) EUser.
(** move construction / move assignment of a T; cannot throw if trivial *)
Definition move_tick : M T unit :=
  if c_triv_copy C then mret () else tick (c_move_ok C) EMove.
(** call of a predicate or comparison provided by the caller *)
Definition pred_clock : M T nat := λ st, Ok (n_preds (st_cnt st)) st.
Definition pred_done (ok : bool) : M T unit := λ st,
  let k := st_cnt st in
  if ok then Ok () (State (st_heap st) (st_clk st) (Cnt (n_allocs k) (n_reads k) (n_fails k) (S (n_preds k)) (n_log k)))
  else Throw EPred (State (st_heap st) (st_clk st) (Cnt (n_allocs k) (n_reads k) (EPred :: n_fails k) (S (n_preds k)) (n_log k))).
Definition pred_tick : M T unit := n ← pred_clock; pred_done (c_pred_ok C n).

Definition allocate (o : obj T) : M T ptr := λ st,
  match c_pick C (st_clk st) (st_heap st) with
  | Some l => Ok (Some l) (State (<[l := o]> (st_heap st)) (S (st_clk st))
      (touch (AWrite l) (Cnt (S (n_allocs (st_cnt st))) (n_reads (st_cnt st)) (n_fails (st_cnt st)) (n_preds (st_cnt st)) (n_log (st_cnt st)))))
  | None => Throw EAlloc (State (st_heap st) (S (st_clk st))
      (Cnt (S (n_allocs (st_cnt st))) (n_reads (st_cnt st)) (EAlloc :: n_fails (st_cnt st)) (n_preds (st_cnt st)) (n_log (st_cnt st))))
  end.
(** storage for a seq object, provided by the caller: obtaining it cannot fail *)
Definition place (o : obj T) : M T loc := λ st,
  let l := c_place C (st_clk st) (st_heap st) in
  Ok l (State (<[l := o]> (st_heap st)) (S (st_clk st)) (touch (AWrite l) (st_cnt st))).
Definition free (l : loc) : M T unit := λ st,
  Ok () (State (delete l (st_heap st)) (st_clk st) (touch (AWrite l) (st_cnt st))).

End prim.

(** Assumptions about the template parameters and the environment under which
    the container is used.  They are discussed in DESIGN.md. *)
Record cfg_ok {T} (C : cfg T) : Prop := {
  ok_W : segment_max + base_max + 4 < c_W C;    (* capacities fit size_type *)
  ok_H : base_max < c_H C;                      (* node lengths fit uint16_t *)
  ok_triv : c_triv_copy C = true → c_triv_destroy C = true;
  ok_pick : ∀ n h l, c_pick C n h = Some l → h !! l = None;
  ok_place : ∀ n h, h !! c_place C n h = None;
  ok_move : ∀ n, c_move_ok C n = true;          (* moves of T do not throw *)
  ok_scramble : ∀ n xs, length (c_scramble C n xs) = length xs  (* no element appears or disappears *)
}.

Existing Class cfg_ok.

(** An exception of this kind can be raised by allocations, constructions and moves at all. *)
Definition raisable {T} (C : cfg T) (e : exn) : Prop :=
  match e with
  | EAlloc => ∃ n h, c_pick C n h = None
  | EUser => ∃ n, c_user_ok C n = false
  | EMove => False
  | EPred => False
  | EOutOfRange => False
  end.
(** Predicates and comparisons can throw at all. *)
Definition pred_fails {T} (C : cfg T) : Prop := ∃ n, c_pred_ok C n = false.
