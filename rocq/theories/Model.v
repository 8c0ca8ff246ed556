(** * Model: static_traits_t (seq.hpp lines 57-701): searching and iterators.
    Line numbers refer to include/boost/segmented_tree/seq.hpp.
    A C++ function that mutates its [iterator_entry&] / [iterator_data&]
    argument is a function returning the new value.
    Array-index increments are plain additions (an index past the array is a
    fault before it could wrap); subtractions, sizes and positions use the
    modular operations [wadd]/[wsub]. *)
From Verif Require Export Base.
From stdpp Require Import options.

(** Lines 141-160 *)
Record segment_entry := SegEntry { sg_ptr : ptr; sg_idx : nat; sg_len : nat }.
Record leaf_entry := LeafEntry { lf_ptr : ptr; lf_idx : nat }.
Record iterator_entry := IterEntry { e_seg : segment_entry; e_leaf : leaf_entry }.
Record iterator_data := Iter { i_entry : iterator_entry; i_pos : nat }.

Section model.
Context {T : Type} {C : cfg T}.

(** ** find_index (lines 171-236) *)
(** Lines 229-236 *)
Definition find_index_segment (p : ptr) (sz pos : nat) : segment_entry := SegEntry p pos sz.

(** The linear search shared by lines 196-202 and 213-219:
    [while (pos >= size) { pos -= size; ++index; size = sizes[index]; }].
    Fuel [base_max + 1]: index = base_max is out of bounds. *)
Fixpoint find_scan (fuel : nat) (p : ptr) (index pos : nat) : M T (nat * nat) :=
  match fuel with
  | 0 => fail FFuel
  | S fuel' =>
    size ← sizes p index;
    if size <=? pos then find_scan fuel' p (index + 1) (pos - size)
    else mret (index, pos)
  end.

(** Lines 212-227 *)
Definition find_index_leaf (p : ptr) (pos : nat) : M T iterator_entry :=
  ip ← find_scan (base_max + 1) p 0 pos;
  c ← pointers p ip.1;
  s ← sizes p ip.1;
  mret (IterEntry (find_index_segment c s ip.2) (LeafEntry p ip.1)).

(** Lines 193-210 (the loop is recursion on ht) *)
Fixpoint find_index_branch (p : ptr) (ht pos : nat) : M T iterator_entry :=
  match ht with
  | 0 => fail FFuel
  | S ht' =>
    ip ← find_scan (base_max + 1) p 0 pos;
    child ← pointers p ip.1;
    if ht' =? 2 then find_index_leaf child ip.2
    else find_index_branch child ht' ip.2
  end.

(** Lines 187-191 *)
Definition find_index_node (p : ptr) (ht pos : nat) : M T iterator_entry :=
  if ht =? 2 then find_index_leaf p pos else find_index_branch p ht pos.

(** Lines 172-185 *)
Definition find_index_root (p : ptr) (sz ht pos : nat) : M T iterator_data :=
  if ht <? 2 then
    mret (Iter (IterEntry (find_index_segment p sz pos) (LeafEntry None 0)) pos)
  else e ← find_index_node p ht pos; mret (Iter e pos).

(** ** find_first (lines 238-285) *)
Definition find_first_segment (p : ptr) (sz : nat) : segment_entry := SegEntry p 0 sz. (* 278-285 *)
(** Lines 269-276 *)
Definition find_first_leaf (p : ptr) : M T iterator_entry :=
  c ← pointers p 0;
  s ← sizes p 0;
  mret (IterEntry (find_first_segment c s) (LeafEntry p 0)).
(** Lines 259-267 *)
Fixpoint find_first_branch (p : ptr) (ht : nat) : M T iterator_entry :=
  match ht with
  | 0 => fail FFuel
  | S ht' =>
    child ← pointers p 0;
    if ht' =? 2 then find_first_leaf child else find_first_branch child ht'
  end.
(** Lines 254-257 *)
Definition find_first_node (p : ptr) (ht : nat) : M T iterator_entry :=
  if ht =? 2 then find_first_leaf p else find_first_branch p ht.
(** Lines 239-252 *)
Definition find_first_root (p : ptr) (sz ht : nat) : M T iterator_data :=
  if ht <? 2 then
    mret (Iter (IterEntry (find_first_segment p sz) (LeafEntry None 0)) 0)
  else e ← find_first_node p ht; mret (Iter e 0).

(** ** find_last (lines 287-336) *)
Definition find_last_segment (p : ptr) (sz : nat) : segment_entry := SegEntry p (wsub sz 1) sz. (* 329-336 *)
(** Lines 319-327 *)
Definition find_last_leaf (p : ptr) : M T iterator_entry :=
  n ← length_of p;
  let index := wsub n 1 in
  c ← pointers p index;
  s ← sizes p index;
  mret (IterEntry (find_last_segment c s) (LeafEntry p index)).
(** Lines 308-317 *)
Fixpoint find_last_branch (p : ptr) (ht : nat) : M T iterator_entry :=
  match ht with
  | 0 => fail FFuel
  | S ht' =>
    n ← length_of p;
    child ← pointers p (wsub n 1);
    if ht' =? 2 then find_last_leaf child else find_last_branch child ht'
  end.
(** Lines 303-306 *)
Definition find_last_node (p : ptr) (ht : nat) : M T iterator_entry :=
  if ht =? 2 then find_last_leaf p else find_last_branch p ht.
(** Lines 288-301 *)
Definition find_last_root (p : ptr) (sz ht : nat) : M T iterator_data :=
  if ht <? 2 then
    mret (Iter (IterEntry (find_last_segment p sz) (LeafEntry None 0)) (wsub sz 1))
  else e ← find_last_node p ht; mret (Iter e (wsub sz 1)).

(** ** find_end (lines 338-387) *)
Definition find_end_segment (p : ptr) (sz : nat) : segment_entry := SegEntry p sz sz. (* 381-387 *)
(** Lines 371-379 *)
Definition find_end_leaf (p : ptr) : M T iterator_entry :=
  n ← length_of p;
  let index := wsub n 1 in
  c ← pointers p index;
  s ← sizes p index;
  mret (IterEntry (find_end_segment c s) (LeafEntry p index)).
(** Lines 359-369 *)
Fixpoint find_end_branch (p : ptr) (ht : nat) : M T iterator_entry :=
  match ht with
  | 0 => fail FFuel
  | S ht' =>
    n ← length_of p;
    child ← pointers p (wsub n 1);
    if ht' =? 2 then find_end_leaf child else find_end_branch child ht'
  end.
(** Lines 354-357 *)
Definition find_end_node (p : ptr) (ht : nat) : M T iterator_entry :=
  if ht =? 2 then find_end_leaf p else find_end_branch p ht.
(** Lines 339-352 *)
Definition find_end_root (p : ptr) (sz ht : nat) : M T iterator_data :=
  if ht <? 2 then
    mret (Iter (IterEntry (find_end_segment p sz) (LeafEntry None 0)) sz)
  else e ← find_end_node p ht; mret (Iter e sz).

(** ** field updates on entries *)
Definition set_sg_idx (e : iterator_entry) (i : nat) : iterator_entry :=
  IterEntry (SegEntry (sg_ptr (e_seg e)) i (sg_len (e_seg e))) (e_leaf e).
Definition set_sg_len (e : iterator_entry) (n : nat) : iterator_entry :=
  IterEntry (SegEntry (sg_ptr (e_seg e)) (sg_idx (e_seg e)) n) (e_leaf e).
Definition set_sg_ptr (e : iterator_entry) (p : ptr) : iterator_entry :=
  IterEntry (SegEntry p (sg_idx (e_seg e)) (sg_len (e_seg e))) (e_leaf e).
Definition set_lf (e : iterator_entry) (l : leaf_entry) : iterator_entry :=
  IterEntry (e_seg e) l.

(** ** move_next (lines 389-450) *)
(** Lines 429-450 *)
Fixpoint move_next_branch_loop (fuel : nat) (e : iterator_entry) (p : ptr)
    (index child_ht : nat) : M T iterator_entry :=
  match fuel with
  | 0 => fail FFuel
  | S fuel' =>
    match p with
    | None => mret (set_sg_idx e (sg_len (e_seg e)))
    | Some _ =>
      let index := index + 1 in
      n ← length_of p;
      if negb (index =? n) then
        child ← pointers p index;
        find_first_node child child_ht
      else
        index' ← parent_index p;
        p' ← parent_pointer p;
        move_next_branch_loop fuel' e p' index' (child_ht + 1)
    end
  end.
Definition move_next_branch (e : iterator_entry) (p : ptr) (index : nat) : M T iterator_entry :=
  fuel ← heap_fuel; move_next_branch_loop fuel e p index 2.

(** Lines 408-427 *)
Definition move_next_leaf (e : iterator_entry) : M T iterator_entry :=
  let p := lf_ptr (e_leaf e) in
  let index := lf_idx (e_leaf e) in
  match p with
  | None => mret (set_sg_idx e (sg_len (e_seg e)))
  | Some _ =>
    let index := index + 1 in
    n ← length_of p;
    if negb (index =? n) then
      c ← pointers p index;
      s ← sizes p index;
      mret (IterEntry (find_first_segment c s) (LeafEntry p index))
    else
      pp ← parent_pointer p;
      pi ← parent_index p;
      move_next_branch e pp pi
  end.

(** Lines 395-406 *)
Definition move_next_segment (e : iterator_entry) : M T iterator_entry :=
  let index := sg_idx (e_seg e) + 1 in
  if negb (index =? sg_len (e_seg e)) then mret (set_sg_idx e index)
  else move_next_leaf e.

(** Lines 390-393 *)
Definition move_next_iterator (it : iterator_data) : M T iterator_data :=
  e ← move_next_segment (i_entry it);
  mret (Iter e (wadd (i_pos it) 1)).

(** ** move_prev (lines 452-500) *)
(** Lines 485-500 *)
Fixpoint move_prev_branch_loop (fuel : nat) (p : ptr) (index child_ht : nat)
    : M T iterator_entry :=
  match fuel with
  | 0 => fail FFuel
  | S fuel' =>
    if negb (index =? 0) then
      child ← pointers p (wsub index 1);
      find_last_node child child_ht
    else
      index' ← parent_index p;
      p' ← parent_pointer p;
      move_prev_branch_loop fuel' p' index' (child_ht + 1)
  end.
Definition move_prev_branch (p : ptr) (index : nat) : M T iterator_entry :=
  fuel ← heap_fuel; move_prev_branch_loop fuel p index 2.

(** Lines 470-483 *)
Definition move_prev_leaf (e : iterator_entry) : M T iterator_entry :=
  let p := lf_ptr (e_leaf e) in
  let index := lf_idx (e_leaf e) in
  if negb (index =? 0) then
    let index := wsub index 1 in
    c ← pointers p index;
    s ← sizes p index;
    mret (IterEntry (find_last_segment c s) (LeafEntry p index))
  else
    pp ← parent_pointer p;
    pi ← parent_index p;
    move_prev_branch pp pi.

(** Lines 458-468 *)
Definition move_prev_segment (e : iterator_entry) : M T iterator_entry :=
  let index := sg_idx (e_seg e) in
  if negb (index =? 0) then mret (set_sg_idx e (wsub index 1))
  else move_prev_leaf e.

(** Lines 453-456 *)
Definition move_prev_iterator (it : iterator_data) : M T iterator_data :=
  e ← move_prev_segment (i_entry it);
  mret (Iter e (wsub (i_pos it) 1)).

(** ** move_next_count (lines 512-589) *)
(** The inner loop of lines 571-582 (and, with segments as children, of lines
    541-553): [inl (index, size, count)] = found, [inr count] = index reached length. *)
Fixpoint next_scan (fuel : nat) (p : ptr) (index count : nat)
    : M T ((nat * nat * nat) + nat) :=
  match fuel with
  | 0 => fail FFuel
  | S fuel' =>
    let index := index + 1 in
    n ← length_of p;
    if index =? n then mret (inr count)
    else
      size ← sizes p index;
      if count <? size then mret (inl (index, size, count))
      else next_scan fuel' p index (count - size)
  end.

(** Lines 559-589 *)
Fixpoint move_next_branch_count_loop (fuel : nat) (base p : ptr)
    (index count child_ht : nat) : M T iterator_entry :=
  match fuel with
  | 0 => fail FFuel
  | S fuel' =>
    match p with
    | None => find_end_node base child_ht
    | Some _ =>
      r ← next_scan (base_max + 1) p index count;
      match r with
      | inl (index, _, count) =>
        child ← pointers p index;
        find_index_node child child_ht count
      | inr count =>
        index' ← parent_index p;
        p' ← parent_pointer p;
        move_next_branch_count_loop fuel' p p' index' count (child_ht + 1)
      end
    end
  end.
Definition move_next_branch_count (base p : ptr) (index count : nat) : M T iterator_entry :=
  fuel ← heap_fuel; move_next_branch_count_loop fuel base p index count 2.

(** Lines 531-557 *)
Definition move_next_leaf_count (e : iterator_entry) (count : nat) : M T iterator_entry :=
  let p := lf_ptr (e_leaf e) in
  let index := lf_idx (e_leaf e) in
  match p with
  | None => mret (set_sg_idx e (sg_len (e_seg e)))
  | Some _ =>
    r ← next_scan (base_max + 1) p index count;
    match r with
    | inl (index, size, count) =>
      c ← pointers p index;
      mret (IterEntry (find_index_segment c size count) (LeafEntry p index))
    | inr count =>
      pp ← parent_pointer p;
      pi ← parent_index p;
      move_next_branch_count p pp pi count
    end
  end.

(** Lines 518-529 *)
Definition move_next_segment_count (e : iterator_entry) (count : nat) : M T iterator_entry :=
  let index := wadd (sg_idx (e_seg e)) count in
  let length := sg_len (e_seg e) in
  if index <? length then mret (set_sg_idx e index)
  else move_next_leaf_count e (wsub index length).

(** Lines 513-516 *)
Definition move_next_iterator_count (it : iterator_data) (count : nat) : M T iterator_data :=
  e ← move_next_segment_count (i_entry it) count;
  mret (Iter e (wadd (i_pos it) count)).

(** ** move_prev_count (lines 591-654) *)
(** The inner loop of lines 637-648 / 613-625: [inl (index, size, count)] = found,
    [inr count] = index 0 reached. *)
Fixpoint prev_scan (p : ptr) (index count : nat) : M T ((nat * nat * nat) + nat) :=
  match index with
  | 0 => mret (inr count)
  | S index' =>
    size ← sizes p index';
    if count <=? size then mret (inl (index', size, count))
    else prev_scan p index' (count - size)
  end.

(** Lines 631-654 *)
Fixpoint move_prev_branch_count_loop (fuel : nat) (p : ptr)
    (index count child_ht : nat) : M T iterator_entry :=
  match fuel with
  | 0 => fail FFuel
  | S fuel' =>
    r ← prev_scan p index count;
    match r with
    | inl (index, size, count) =>
      child ← pointers p index;
      find_index_node child child_ht (wsub size count)
    | inr count =>
      index' ← parent_index p;
      p' ← parent_pointer p;
      move_prev_branch_count_loop fuel' p' index' count (child_ht + 1)
    end
  end.
Definition move_prev_branch_count (p : ptr) (index count : nat) : M T iterator_entry :=
  fuel ← heap_fuel; move_prev_branch_count_loop fuel p index count 2.

(** Lines 609-629 *)
Definition move_prev_leaf_count (e : iterator_entry) (count : nat) : M T iterator_entry :=
  let p := lf_ptr (e_leaf e) in
  let index := lf_idx (e_leaf e) in
  r ← prev_scan p index count;
  match r with
  | inl (index, size, count) =>
    c ← pointers p index;
    mret (IterEntry (find_index_segment c size (wsub size count)) (LeafEntry p index))
  | inr count =>
    pp ← parent_pointer p;
    pi ← parent_index p;
    move_prev_branch_count pp pi count
  end.

(** Lines 597-607 *)
Definition move_prev_segment_count (e : iterator_entry) (count : nat) : M T iterator_entry :=
  let index := sg_idx (e_seg e) in
  if count <=? index then mret (set_sg_idx e (wsub index count))
  else move_prev_leaf_count e (wsub count index).

(** Lines 592-595 *)
Definition move_prev_iterator_count (it : iterator_data) (count : nat) : M T iterator_data :=
  e ← move_prev_segment_count (i_entry it) count;
  mret (Iter e (wsub (i_pos it) count)).

(** ** move_count (lines 502-510) *)
Definition move_iterator_count (it : iterator_data) (diff : Z) : M T iterator_data :=
  let size := to_size diff in
  let pos := wadd (i_pos it) size in
  if bool_decide (0 < diff)%Z then
    e ← move_next_segment_count (i_entry it) size; mret (Iter e pos)
  else if bool_decide (diff < 0)%Z then
    e ← move_prev_segment_count (i_entry it) (wadd (wnot size) 1); mret (Iter e pos)
  else mret (Iter (i_entry it) pos).

(** ** element access (lines 656-680). A [pointer] into a segment is
    (segment, offset). *)
Definition first_element (it : iterator_data) : ptr * nat :=
  (sg_ptr (e_seg (i_entry it)), 0).                                   (* 656-658 *)
Definition current_element (it : iterator_data) : ptr * nat :=
  (sg_ptr (e_seg (i_entry it)), sg_idx (e_seg (i_entry it))).         (* 660-662 *)
Definition last_element (it : iterator_data) : ptr * nat :=
  (sg_ptr (e_seg (i_entry it)), sg_len (e_seg (i_entry it))).         (* 664-666 *)
(** Lines 668-670; reading through the reference *)
Definition dereference (it : iterator_data) : M T T :=
  read_slot (sg_ptr (e_seg (i_entry it))) (sg_idx (e_seg (i_entry it))).
(** Lines 672-675 *)
Definition dereference_count (it : iterator_data) (diff : Z) : M T T :=
  it' ← move_iterator_count it diff; dereference it'.
(** Lines 677-680 *)
Definition difference (a b : iterator_data) : Z :=
  if i_pos b <? i_pos a then to_diff (wsub (i_pos a) (i_pos b))
  else (- to_diff (wsub (i_pos b) (i_pos a)))%Z.

(** ** segment iteration (lines 682-700) *)
Definition move_after_segment (it : iterator_data) : M T iterator_data :=
  let s := e_seg (i_entry it) in
  e ← move_next_leaf (i_entry it);
  mret (Iter e (wadd (i_pos it) (wsub (sg_len s) (sg_idx s)))).       (* 682-685 *)
Definition move_after_segment_count (it : iterator_data) (count : nat) : M T iterator_data :=
  let s := e_seg (i_entry it) in
  e ← move_next_leaf_count (i_entry it) count;
  mret (Iter e (wadd (i_pos it) (wadd (wsub (sg_len s) (sg_idx s)) count))). (* 687-690 *)
Definition move_before_segment (it : iterator_data) : M T iterator_data :=
  let s := e_seg (i_entry it) in
  e ← move_prev_leaf (i_entry it);
  mret (Iter e (wsub (i_pos it) (sg_idx s + 1))).                     (* 692-695 *)
Definition move_before_segment_count (it : iterator_data) (count : nat) : M T iterator_data :=
  let s := e_seg (i_entry it) in
  e ← move_prev_leaf_count (i_entry it) count;
  mret (Iter e (wsub (i_pos it) (wsub (sg_idx s + 1) count))).        (* 697-700 *)

End model.
