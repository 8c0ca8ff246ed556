(** * ModelApi: the public interface of seq (lines 2311-3773 of
    include/boost/segmented_tree/seq.hpp) and of its iterators (lines 712-1114).
    Overloads that only differ in constness, or that forward to another overload
    listed here (push_back(T&&) and emplace_back, rvalue versions of splice and
    merge, cbegin, crbegin, free swap, ...) are modelled once. *)
From Verif Require Export ListAlg ModelSeq.
From stdpp Require Import options.

Section model.
Context {T : Type} {C : cfg T}.

(** ** Iterator operators *)
Definition it_deref (it : iterator_data) : M T T := dereference it.                 (* 810 *)
(** *it = value: copy/move assignment through operator* (810) *)
Definition it_assign (it : iterator_data) (s : vsrc) : M T unit :=
  assign_value (sg_ptr (e_seg (i_entry it))) (sg_idx (e_seg (i_entry it))) s.
Definition it_index (it : iterator_data) (d : Z) : M T T := dereference_count it d. (* 818-820 *)
Definition it_next (it : iterator_data) : M T iterator_data := move_next_iterator it. (* 830-833, 853-857 *)
Definition it_prev (it : iterator_data) : M T iterator_data := move_prev_iterator it. (* 843-846, 864-868 *)
Definition it_add (it : iterator_data) (d : Z) : M T iterator_data :=
  move_iterator_count it d.                                                         (* 878-881, 901-905, 1111-1113 *)
Definition it_sub (it : iterator_data) (d : Z) : M T iterator_data :=
  move_iterator_count it (- d)%Z.                                                   (* 891-894, 912-916 *)
Definition it_diff (a b : iterator_data) : Z := difference a b.                     (* 923-925 *)
Definition it_ne (a b : iterator_data) : bool := negb (i_pos a =? i_pos b).         (* 1055-1057 *)
Definition it_eq (a b : iterator_data) : bool := i_pos a =? i_pos b.                (* 1064-1066 *)
Definition it_lt (a b : iterator_data) : bool := i_pos a <? i_pos b.                (* 1073-1075 *)
Definition it_gt (a b : iterator_data) : bool := i_pos b <? i_pos a.                (* 1082-1084 *)
Definition it_le (a b : iterator_data) : bool := i_pos a <=? i_pos b.               (* 1092-1094 *)
Definition it_ge (a b : iterator_data) : bool := i_pos b <=? i_pos a.               (* 1102-1104 *)
(** before_segment / after_segment (938-1048) are move_before_segment,
    move_before_segment_count, move_after_segment, move_after_segment_count of
    Model.v; begin() / current() / end() (776-796) are first_element,
    current_element and last_element.  Reading through them: *)
Definition read_pointer (p : ptr * nat) : M T T := read_slot p.1 p.2.

(** ** Construction and destruction *)
(** The storage [this] is provided by the caller.  All allocating constructors
    delegate to seq{alloc} (2324-2325); if their body throws the destructor runs. *)
Definition ctor_alloc (a : nat) : M T loc := place (OSeq (SeqObj None 0 0 a a)).    (* 2316-2325 *)
Definition dtor (this : loc) : M T unit := purge this;; free this.                  (* 2427 *)
Definition ctor_with (a : nat) (body : loc → M T unit) : M T loc :=
  this ← ctor_alloc a;
  try_catch (body this;; mret this) (λ e, dtor this;; throw e).
Definition ctor_count (count : nat) (s : vsrc) (a : nat) : M T loc :=               (* 2333-2347 *)
  ctor_with a (λ this, it ← find_end this; emplace_count this it count s;; mret ()).
Definition ctor_range (r : input) (a : nat) : M T loc :=                            (* 2357-2360, 2417-2420 *)
  ctor_with a (λ this, it ← find_end this; emplace_range this it r;; mret ()).
(** [other.begin(), other.end()) *)
Definition whole_range (mv : bool) (other : loc) : M T (input (T:=T)) :=
  f ← find_first other; l ← find_end other; mret (ISeq mv f l).
Definition ctor_copy_alloc (other : loc) (a : nat) : M T loc :=                     (* 2378-2380 *)
  ctor_with a (λ this, it ← find_end this; r ← whole_range false other; emplace_range this it r;; mret ()).
Definition ctor_copy (other : loc) : M T loc :=                                     (* 2367-2371 *)
  b ← get_element_allocator other; ctor_copy_alloc other (c_soccc C b).
Definition ctor_move (other : loc) : M T loc :=                                     (* 2387-2395 *)
  s ← load_seq other;
  this ← place (OSeq s);
  set_root other None;;
  set_height other 0;;
  set_size other 0;;
  mret this.
Definition ctor_move_alloc (other : loc) (a : nat) : M T loc :=                     (* 2403-2409 *)
  ctor_with a (λ this,
    ea ← get_element_allocator this;
    eb ← get_element_allocator other;
    if ea =? eb then steal this other
    else it ← find_end this; r ← whole_range true other; emplace_range this it r;; mret ()).

(** ** Assignment *)
Definition op_copy_assign (this other : loc) : M T unit :=                          (* 2445-2451 *)
  if negb (this =? other)%positive then
    copy_assign_alloc this other;;
    r ← whole_range false other; assign_range this r
  else mret ().
Definition op_move_assign (this other : loc) : M T unit := move_assign this other.  (* 2475-2480 *)
(** operator=(ilist) (2498-2501), assign(count, value) (2516), assign(first, last)
    (2534-2536), assign(ilist) (2551-2553) are assign_count and assign_range. *)
Definition get_allocator (this : loc) : M T nat := get_element_allocator this.      (* 2566-2586 *)

(** ** Element access *)
(** the reference is represented by an iterator to the element *)
Definition at_ (this : loc) (pos : nat) : M T iterator_data :=                      (* 2599-2620 *)
  sz ← get_size this;
  if sz <=? pos then throw EOutOfRange else find_index this pos.
Definition op_index (this : loc) (pos : nat) : M T iterator_data := find_index this pos. (* 2633-2652 *)
Definition begin_ (this : loc) : M T iterator_data := find_first this.              (* 2717-2743 *)
Definition penultimate (this : loc) : M T iterator_data := find_last this.          (* 2759-2791 *)
Definition end_ (this : loc) : M T iterator_data := find_end this.                  (* 2804-2830 *)
Definition front (this : loc) : M T iterator_data := begin_ this.                   (* 2665-2678 *)
Definition back (this : loc) : M T iterator_data := penultimate this.               (* 2691-2704 *)
(** reverse_iterator (2843-2916) is std::reverse_iterator: *r is *--copy of the base *)
Definition rdereference (base : iterator_data) : M T T := it ← it_prev base; it_deref it.
Definition nth_ (this : loc) (pos : nat) : M T iterator_data :=                     (* 2936-2962 *)
  sz ← get_size this;
  if sz <=? pos then find_end this else find_index this pos.
Definition index_of (it : iterator_data) : nat := i_pos it.                         (* 2978-2994 *)

(** ** Size *)
Definition size_ (this : loc) : M T nat := get_size this.                           (* 3020 *)
Definition empty_ (this : loc) : M T bool := sz ← get_size this; mret (sz =? 0).    (* 3007 *)
Definition height_ (this : loc) : M T nat := get_height this.                       (* 3036 *)
Definition max_size : nat := c_W C - 1.                                             (* 3049-3051 *)

(** ** Modifiers *)
Definition insert_ (this : loc) (pos : iterator_data) (s : vsrc) : M T iterator_data :=
  emplace_single this pos s.                                                        (* 3085-3105, 3185-3187 *)
Definition insert_count (this : loc) (pos : iterator_data) (count : nat) (s : vsrc) : M T iterator_data :=
  emplace_count this pos count s.                                                   (* 3122-3124 *)
Definition insert_range (this : loc) (pos : iterator_data) (r : input) : M T iterator_data :=
  emplace_range this pos r.                                                         (* 3145-3168 *)
Definition erase_ (this : loc) (pos : iterator_data) : M T iterator_data := erase_single this pos. (* 3203 *)
Definition erase_between (this : loc) (first last : iterator_data) : M T iterator_data :=
  erase_range this first last.                                                      (* 3219-3221 *)
Definition push_back (this : loc) (s : vsrc) : M T unit :=
  it ← find_end this; emplace_single this it s;; mret ().                           (* 3234-3263 *)
Definition pop_back (this : loc) : M T unit :=
  it ← find_last this; erase_single this it;; mret ().                              (* 3276 *)
Definition push_front (this : loc) (s : vsrc) : M T unit :=
  it ← find_first this; emplace_single this it s;; mret ().                         (* 3289-3318 *)
Definition pop_front (this : loc) : M T unit :=
  it ← find_first this; erase_single this it;; mret ().                             (* 3331 *)
(** resize(count) constructs each new element from no arguments *)
Definition resize_ (this : loc) (count : nat) (s : vsrc) : M T unit := resize_count this count s. (* 3346-3363 *)
Definition swap_ (this other : loc) : M T unit :=                                   (* 3379-3387 *)
  r ← get_root this; r' ← get_root other; set_root this r';; set_root other r;;
  h ← get_height this; h' ← get_height other; set_height this h';; set_height other h;;
  n ← get_size this; n' ← get_size other; set_size this n';; set_size other n;;
  swap_allocator this other.

(** ** Splice and merge *)
Definition splice_all (this : loc) (pos : iterator_data) (other : loc) : M T unit := (* 3471-3475 *)
  r ← whole_range true other; insert_range this pos r;; clear other.
(** [std::move( *it)] of a const_iterator is a [T const&&]: the element is copied *)
Definition splice_one (this : loc) (pos : iterator_data) (other : loc) (it : iterator_data) : M T unit :=
  insert_ this pos (VRef (sg_ptr (e_seg (i_entry it))) (sg_idx (e_seg (i_entry it))));;
  erase_ other it;; mret ().                                                        (* 3502-3505 *)
Definition splice_range (this : loc) (pos : iterator_data) (other : loc) (first last : iterator_data) : M T unit :=
  insert_range this pos (ISeq true first last);;
  erase_between other first last;; mret ().                                         (* 3535-3540 *)

(** ** Standard algorithms, on seq iterators *)
(** [*d = std::move( *s)] *)
Definition alg_move (d s : iterator_data) : M T unit :=
  it_assign d (VMove (sg_ptr (e_seg (i_entry s))) (sg_idx (e_seg (i_entry s)))).
(** Trusted: std::stable_sort and std::inplace_merge are modelled by their
    contract: the elements of the range are read, rearranged in the way the
    standard prescribes and written back.  If there is anything to compare, a
    comparison may throw (one consultation of the oracle stands for all comparisons
    of the call); the range then holds arbitrary elements, as many as before. *)
Fixpoint alg_read (fuel : nat) (first last : iterator_data) : M T (list T) :=
  match fuel with
  | 0 => fail FFuel
  | S fuel' =>
    if it_eq first last then mret []
    else v ← it_deref first; first ← it_next first; vs ← alg_read fuel' first last; mret (v :: vs)
  end.
Fixpoint alg_write (first : iterator_data) (vs : list T) : M T unit :=
  match vs with
  | [] => mret ()
  | v :: vs =>
    move_tick;;
    read_slot (sg_ptr (e_seg (i_entry first))) (sg_idx (e_seg (i_entry first)));;
    set_slot (sg_ptr (e_seg (i_entry first))) (sg_idx (e_seg (i_entry first))) (Some v);;
    first ← it_next first; alg_write first vs
  end.
Definition alg_finish (compares : bool) (first : iterator_data) (vs result : list T) : M T unit :=
  if compares then
    n ← pred_clock;
    alg_write first (if c_pred_ok C n then result else c_scramble C n vs);;
    pred_done (c_pred_ok C n)
  else alg_write first result.
(** [stable_sorted] and [stable_merged] are in ListAlg.v. *)
Definition std_stable_sort (first last : iterator_data) (lt : T → T → bool) : M T unit :=
  vs ← alg_read (S (i_pos last - i_pos first)) first last;
  alg_finish (1 <? length vs) first vs (stable_sorted lt vs).
Definition std_inplace_merge (first mid last : iterator_data) (lt : T → T → bool) : M T unit :=
  v1 ← alg_read (S (i_pos mid - i_pos first)) first mid;
  v2 ← alg_read (S (i_pos last - i_pos mid)) mid last;
  alg_finish ((0 <? length v1) && (0 <? length v2)) first (v1 ++ v2) (stable_merged lt v1 v2).
(** std::find_if *)
Fixpoint std_find_if (fuel : nat) (first last : iterator_data) (p : T → M T bool) : M T iterator_data :=
  match fuel with
  | 0 => fail FFuel
  | S fuel' =>
    if it_eq first last then mret first
    else
      v ← it_deref first;
      b ← p v;
      if b : bool then mret first else first ← it_next first; std_find_if fuel' first last p
  end.
(** std::remove_if *)
Fixpoint std_remove_loop (fuel : nat) (result first last : iterator_data) (p : T → M T bool) : M T iterator_data :=
  match fuel with
  | 0 => fail FFuel
  | S fuel' =>
    if it_eq first last then mret result
    else
      v ← it_deref first;
      b ← p v;
      if b : bool then first ← it_next first; std_remove_loop fuel' result first last p
      else
        alg_move result first;;
        result ← it_next result;
        first ← it_next first;
        std_remove_loop fuel' result first last p
  end.
Definition std_remove_if (first last : iterator_data) (p : T → M T bool) : M T iterator_data :=
  let fuel := S (i_pos last - i_pos first) in
  first ← std_find_if fuel first last p;
  if it_eq first last then mret first
  else next ← it_next first; std_remove_loop fuel first next last p.
(** std::adjacent_find *)
Fixpoint std_adjacent_loop (fuel : nat) (first last : iterator_data) (p : T → T → bool) : M T iterator_data :=
  match fuel with
  | 0 => fail FFuel
  | S fuel' =>
    next ← it_next first;
    if it_eq next last then mret last
    else
      x ← it_deref first; y ← it_deref next;
      pred_tick;;
      if p x y then mret first else std_adjacent_loop fuel' next last p
  end.
(** std::unique *)
Fixpoint std_unique_loop (fuel : nat) (dest first last : iterator_data) (p : T → T → bool) : M T iterator_data :=
  match fuel with
  | 0 => fail FFuel
  | S fuel' =>
    first ← it_next first;
    if it_eq first last then it_next dest
    else
      x ← it_deref dest; y ← it_deref first;
      pred_tick;;
      if p x y then std_unique_loop fuel' dest first last p
      else
        dest ← it_next dest;
        alg_move dest first;;
        std_unique_loop fuel' dest first last p
  end.
Definition std_unique (first last : iterator_data) (p : T → T → bool) : M T iterator_data :=
  let fuel := S (i_pos last - i_pos first) in
  first ← (if it_eq first last then mret last else std_adjacent_loop fuel first last p);
  if it_eq first last then mret last
  else next ← it_next first; std_unique_loop fuel first next last p.
(** std::reverse for random access iterators; std::iter_swap is three moves *)
Definition std_iter_swap (a b : iterator_data) : M T unit :=
  tmp ← make_value (VMove (sg_ptr (e_seg (i_entry a))) (sg_idx (e_seg (i_entry a))));
  alg_move a b;;
  move_tick;;
  read_slot (sg_ptr (e_seg (i_entry b))) (sg_idx (e_seg (i_entry b)));;
  set_slot (sg_ptr (e_seg (i_entry b))) (sg_idx (e_seg (i_entry b))) (Some tmp).
Fixpoint std_reverse_loop (fuel : nat) (first last : iterator_data) : M T unit :=
  match fuel with
  | 0 => fail FFuel
  | S fuel' =>
    if it_lt first last then
      std_iter_swap first last;;
      first ← it_next first;
      last ← it_prev last;
      std_reverse_loop fuel' first last
    else mret ()
  end.
Definition std_reverse (first last : iterator_data) : M T unit :=
  if it_eq first last then mret ()
  else
    let fuel := S (i_pos last - i_pos first) in
    last ← it_prev last; std_reverse_loop fuel first last.
(** std::equal, std::lexicographical_compare *)
Fixpoint std_equal (fuel : nat) (f1 l1 f2 : iterator_data) (eq : T → T → bool) : M T bool :=
  match fuel with
  | 0 => fail FFuel
  | S fuel' =>
    if it_eq f1 l1 then mret true
    else
      x ← it_deref f1; y ← it_deref f2;
      pred_tick;;
      if eq x y then f1 ← it_next f1; f2 ← it_next f2; std_equal fuel' f1 l1 f2 eq else mret false
  end.
Fixpoint std_lexicographical_compare (fuel : nat) (f1 l1 f2 l2 : iterator_data) (lt : T → T → bool) : M T bool :=
  match fuel with
  | 0 => fail FFuel
  | S fuel' =>
    if it_eq f1 l1 then mret (negb (it_eq f2 l2))
    else if it_eq f2 l2 then mret false
    else
      x ← it_deref f1; y ← it_deref f2;
      pred_tick;;
      if lt x y then mret true
      else
        pred_tick;;
        if lt y x then mret false
        else f1 ← it_next f1; f2 ← it_next f2; std_lexicographical_compare fuel' f1 l1 f2 l2 lt
  end.

(** ** List-like operations *)
Definition merge (this other : loc) (lt : T → T → bool) : M T unit :=               (* 3402-3457 *)
  sz ← size_ this;
  e ← end_ this; f ← begin_ other; l ← end_ other;
  splice_range this e other f l;;
  f ← begin_ this; m ← nth_ this sz; l ← end_ this;
  std_inplace_merge f m l lt.
(** the value is a reference, read at every comparison *)
Definition peek (s : vsrc) : M T T :=
  match s with VVal v => mret v | VRef p i => read_slot p i | VMove p i => read_slot p i end.
Definition remove (this : loc) (s : vsrc) (eq : T → T → bool) : M T unit :=         (* 3571-3573 *)
  f ← begin_ this; l ← end_ this;
  f ← std_remove_if f l (λ x, v ← peek s; pred_tick;; mret (eq x v));
  l ← end_ this; erase_between this f l;; mret ().
Definition remove_if (this : loc) (p : T → bool) : M T unit :=                      (* 3587-3589 *)
  f ← begin_ this; l ← end_ this;
  f ← std_remove_if f l (λ x, pred_tick;; mret (p x));
  l ← end_ this; erase_between this f l;; mret ().
Definition reverse_ (this : loc) : M T unit :=                                       (* 3602 *)
  f ← begin_ this; l ← end_ this; std_reverse f l.
Definition unique (this : loc) (p : T → T → bool) : M T unit :=                     (* 3615-3632 *)
  f ← begin_ this; l ← end_ this;
  f ← std_unique f l p;
  l ← end_ this; erase_between this f l;; mret ().
Definition sort (this : loc) (lt : T → T → bool) : M T unit :=                      (* 3645-3661 *)
  f ← begin_ this; l ← end_ this; std_stable_sort f l lt.

(** ** Comparison (3675-3757) *)
Definition op_eq (lhs rhs : loc) (eq : T → T → bool) : M T bool :=                  (* 3675-3678 *)
  n ← size_ lhs; m ← size_ rhs;
  if n =? m then
    f1 ← begin_ lhs; l1 ← end_ lhs; f2 ← begin_ rhs;
    std_equal (S (i_pos l1 - i_pos f1)) f1 l1 f2 eq
  else mret false.
Definition op_lt (lhs rhs : loc) (lt : T → T → bool) : M T bool :=                  (* 3708-3711 *)
  f1 ← begin_ lhs; l1 ← end_ lhs; f2 ← begin_ rhs; l2 ← end_ rhs;
  std_lexicographical_compare (S (i_pos l1 - i_pos f1)) f1 l1 f2 l2 lt.
Definition op_ne (lhs rhs : loc) (eq : T → T → bool) : M T bool := b ← op_eq lhs rhs eq; mret (negb b). (* 3692-3694 *)
Definition op_le (lhs rhs : loc) (lt : T → T → bool) : M T bool := b ← op_lt rhs lhs lt; mret (negb b). (* 3725-3727 *)
Definition op_gt (lhs rhs : loc) (lt : T → T → bool) : M T bool := op_lt rhs lhs lt.                     (* 3741 *)
Definition op_ge (lhs rhs : loc) (lt : T → T → bool) : M T bool := b ← op_lt lhs rhs lt; mret (negb b). (* 3755-3757 *)
End model.
