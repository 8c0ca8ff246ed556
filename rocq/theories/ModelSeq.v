(** * ModelSeq: private members of seq (seq.hpp lines 1173-2306).
    Line numbers refer to include/boost/segmented_tree/seq.hpp.
    [this] is the address of the seq object. *)
From Verif Require Export Model.
From stdpp Require Import options.

Section model.
Context {T : Type} {C : cfg T}.

(** ** getters (lines 1190-1200) and the corresponding assignments *)
Definition get_root (this : loc) : M T ptr := s ← load_seq this; mret (s_root s).
Definition get_size (this : loc) : M T nat := s ← load_seq this; mret (s_size s).
Definition get_height (this : loc) : M T nat := s ← load_seq this; mret (s_ht s).
Definition get_element_allocator (this : loc) : M T nat := s ← load_seq this; mret (s_ealloc s).
Definition get_node_allocator (this : loc) : M T nat := s ← load_seq this; mret (s_nalloc s).

(** Fuel for the loops of [this] that follow parent pointers towards the root: a
    path to the root has fewer than [height] index nodes, so this many iterations
    suffice; otherwise the model reports [FFuel].  (Not an access of the program:
    not counted.) *)
Definition height_fuel (this : loc) : M T nat := λ st,
  match st_heap st !! this with Some (OSeq s) => Ok (S (S (s_ht s))) st | _ => Fault FType end.

Definition set_root (this : loc) (r : ptr) : M T unit :=
  s ← load_seq this; store this (OSeq (SeqObj r (s_size s) (s_ht s) (s_ealloc s) (s_nalloc s))).
Definition set_size (this : loc) (n : nat) : M T unit :=
  s ← load_seq this; store this (OSeq (SeqObj (s_root s) n (s_ht s) (s_ealloc s) (s_nalloc s))).
Definition set_height (this : loc) (h : nat) : M T unit :=
  s ← load_seq this; store this (OSeq (SeqObj (s_root s) (s_size s) h (s_ealloc s) (s_nalloc s))).
Definition set_element_allocator (this : loc) (a : nat) : M T unit :=
  s ← load_seq this; store this (OSeq (SeqObj (s_root s) (s_size s) (s_ht s) a (s_nalloc s))).
Definition set_node_allocator (this : loc) (a : nat) : M T unit :=
  s ← load_seq this; store this (OSeq (SeqObj (s_root s) (s_size s) (s_ht s) (s_ealloc s) a)).

(** ** allocate (lines 1202-1210): raw storage *)
Definition allocate_segment (this : loc) : M T ptr :=
  al ← get_element_allocator this;
  allocate (OSeg al (replicate segment_max None)).
Definition allocate_node (this : loc) : M T ptr :=
  al ← get_node_allocator this;
  allocate (ONode al (Node None None None (replicate base_max None) (replicate base_max None))).

(** ** destroy (lines 1212-1220) *)
Definition destroy_segment (p : ptr) (i : nat) : M T unit :=
  c ← slot p i;
  match c with
  | Some _ => set_slot p i None
  | None => fail FRaw
  end.
Definition destroy_node (p : ptr) (i : nat) : M T unit := set_pointers p i None.

(** ** deallocate (lines 1222-1230).  Faults if the block does not come from an
    equal allocator, if objects with a non-trivial destructor are still alive in
    it, or if the pointer is null and the allocator does not tolerate that. *)
Definition deallocate_segment (this : loc) (p : ptr) : M T unit :=
  al ← get_element_allocator this;
  match p with
  | None => if c_null_free C then mret () else fail FBadFree
  | Some _ =>
    x ← load_seg p;
    if (x.1.2 =? al) && (c_triv_destroy C || forallb (λ c, negb (bool_decide (is_Some c))) x.2)
    then free x.1.1 else fail FBadFree
  end.
Definition deallocate_node (this : loc) (p : ptr) : M T unit :=
  al ← get_node_allocator this;
  x ← load_node p;
  if x.1.2 =? al then free x.1.1 else fail FBadFree.

(** ** purge (lines 1232-1270) *)
(** Lines 1235-1247 *)
Definition purge_segment (this : loc) (p : ptr) (sz : nat) : M T unit :=
  (if c_triv_destroy C then mret () else for_ sz 0 (destroy_segment p));;
  deallocate_segment this p.
(** Lines 1249-1263 *)
Fixpoint purge_node (this : loc) (ht : nat) (p : ptr) : M T unit :=
  match ht with
  | 0 => fail FFuel
  | S ht' =>
    n ← length_of p;
    (if ht =? 2 then
       for_ n 0 (λ i, c ← pointers p i; s ← sizes p i;
                      purge_segment this c s;; destroy_node p i)
     else
       for_ n 0 (λ i, c ← pointers p i; purge_node this ht' c;; destroy_node p i));;
    deallocate_node this p
  end.
(** Lines 1265-1270 *)
Definition purge_root (this : loc) (p : ptr) (sz ht : nat) : M T unit :=
  if ht <? 2 then purge_segment this p sz else purge_node this ht p.
(** Line 1233 *)
Definition purge (this : loc) : M T unit :=
  r ← get_root this; sz ← get_size this; ht ← get_height this;
  purge_root this r sz ht.

(** ** construct (lines 1272-1297). The size_type result 1 of the segment
    versions is never used and is dropped. *)
Definition construct_segment (p : ptr) (i : nat) (v : T) : M T unit :=
  c ← slot p i;
  move_tick;;
  match c with
  | Some _ => if c_triv_destroy C then set_slot p i (Some v) else fail FLive
  | None => set_slot p i (Some v)
  end.
Definition construct_leaf (p : ptr) (i child_sz : nat) (child : ptr) : M T nat :=
  set_sizes p i child_sz;;
  set_pointers p i child;;
  mret child_sz.
Definition construct_branch (p : ptr) (i child_sz : nat) (child : ptr) : M T nat :=
  set_sizes p i child_sz;;
  set_parent_pointer child p;;
  set_parent_index child i;;
  set_pointers p i child;;
  mret child_sz.

(** ** assign (lines 1299-1321) *)
Definition assign_segment (p : ptr) (i : nat) (v : T) : M T unit :=
  c ← slot p i;
  move_tick;;
  match c with
  | Some _ => set_slot p i (Some v)
  | None => fail FRaw
  end.
Definition assign_leaf (p : ptr) (i child_sz : nat) (child : ptr) : M T nat :=
  set_sizes p i child_sz;;
  set_pointers p i child;;
  mret child_sz.
Definition assign_branch (p : ptr) (i child_sz : nat) (child : ptr) : M T nat :=
  set_sizes p i child_sz;;
  set_parent_pointer child p;;
  set_parent_index child i;;
  set_pointers p i child;;
  mret child_sz.

(** the moved-from state of pointer[i] *)
Definition leave_residue (p : ptr) (i : nat) : M T unit :=
  v ← read_slot p i; set_slot p i (Some (c_residue C v)).

(** ** move_assign (lines 1323-1340) *)
Definition move_assign_segment (src : ptr) (si : nat) (dst : ptr) (di : nat) : M T unit :=
  v ← read_slot src si;
  assign_segment dst di v;;
  leave_residue src si.
Definition move_assign_leaf (src : ptr) (si : nat) (dst : ptr) (di : nat) : M T nat :=
  s ← sizes src si; c ← pointers src si;
  assign_leaf dst di s c.
Definition move_assign_branch (src : ptr) (si : nat) (dst : ptr) (di : nat) : M T nat :=
  s ← sizes src si; c ← pointers src si;
  assign_branch dst di s c.

(** ** move (lines 1342-1363) *)
Definition move_segment (src : ptr) (si : nat) (dst : ptr) (di : nat) : M T unit :=
  v ← read_slot src si;
  construct_segment dst di v;;
  leave_residue src si.
Definition move_leaf (src : ptr) (si : nat) (dst : ptr) (di : nat) : M T nat :=
  s ← sizes src si; c ← pointers src si;
  construct_leaf dst di s c;;
  mret s.
Definition move_branch (src : ptr) (si : nat) (dst : ptr) (di : nat) : M T nat :=
  s ← sizes src si; c ← pointers src si;
  construct_branch dst di s c;;
  mret s.

(** ** construct_range (lines 1365-1435) *)
(** std::memcpy of [count] slots between two different blocks (lines 1366-1371):
    bytes are copied, the source objects are left in place. *)
Definition memcpy_slots (src : ptr) (si : nat) (dst : ptr) (di count : nat) : M T unit :=
  x ← load_seg src; y ← load_seg dst;
  if bool_decide (x.1.1 = y.1.1) then fail FOverlap
  else if (si + count <=? length x.2) && (di + count <=? length y.2) then
    store y.1.1 (OSeg y.1.2 (take di y.2 ++ take count (drop si x.2) ++ drop (di + count) y.2))
  else fail FBounds.
(** std::memmove of [count] slots inside one block *)
Definition memmove_slots (p : ptr) (di si count : nat) : M T unit :=
  x ← load_seg p;
  if (si + count <=? length x.2) && (di + count <=? length x.2) then
    store x.1.1 (OSeg x.1.2 (take di x.2 ++ take count (drop si x.2) ++ drop (di + count) x.2))
  else fail FBounds.
(** Lines 1373-1386 *)
Fixpoint construct_range_loop (src : ptr) (from : nat) (dst : ptr) (to count : nat) : M T unit :=
  match count with
  | 0 => mret ()
  | S count' =>
    move_segment src from dst to;;     (* construct_segment(dest, to, std::move(source[from])) *)
    destroy_segment src from;;
    construct_range_loop src (from + 1) dst (to + 1) count'
  end.
(** Lines 1388-1401: dispatch *)
Definition construct_range_segment (src : ptr) (si : nat) (dst : ptr) (di count : nat) : M T unit :=
  if c_triv_copy C && c_std_construct C then memcpy_slots src si dst di count
  else construct_range_loop src si dst di count.
(** Lines 1403-1418 *)
Fixpoint construct_range_leaf (src : ptr) (from : nat) (dst : ptr) (to count : nat) : M T nat :=
  match count with
  | 0 => mret 0
  | S count' =>
    s ← move_assign_leaf src from dst to;
    r ← construct_range_leaf src (from + 1) dst (to + 1) count';
    mret (wadd s r)
  end.
(** Lines 1420-1435 *)
Fixpoint construct_range_branch (src : ptr) (from : nat) (dst : ptr) (to count : nat) : M T nat :=
  match count with
  | 0 => mret 0
  | S count' =>
    s ← move_assign_branch src from dst to;
    r ← construct_range_branch src (from + 1) dst (to + 1) count';
    mret (wadd s r)
  end.

(** ** assign_forward (lines 1437-1490): [n = length - index] iterations,
    from and to counting down. *)
Fixpoint assign_forward_segment_loop (p : ptr) (n from to : nat) : M T unit :=
  match n with
  | 0 => mret ()
  | S n' =>
    let from := wsub from 1 in
    let to := wsub to 1 in
    move_assign_segment p from p to;;
    assign_forward_segment_loop p n' from to
  end.
Definition assign_forward_segment (p : ptr) (length index distance : nat) : M T unit :=
  if c_triv_copy C then memmove_slots p (index + distance) index (wsub length index)
  else assign_forward_segment_loop p (wsub length index) length (length + distance).
Fixpoint assign_forward_leaf_loop (p : ptr) (n from to : nat) : M T unit :=
  match n with
  | 0 => mret ()
  | S n' =>
    let from := wsub from 1 in
    let to := wsub to 1 in
    move_assign_leaf p from p to;;
    assign_forward_leaf_loop p n' from to
  end.
Definition assign_forward_leaf (p : ptr) (length index distance : nat) : M T unit :=
  assign_forward_leaf_loop p (wsub length index) length (length + distance).
Fixpoint assign_forward_branch_loop (p : ptr) (n from to : nat) : M T unit :=
  match n with
  | 0 => mret ()
  | S n' =>
    let from := wsub from 1 in
    let to := wsub to 1 in
    move_assign_branch p from p to;;
    assign_forward_branch_loop p n' from to
  end.
Definition assign_forward_branch (p : ptr) (length index distance : nat) : M T unit :=
  assign_forward_branch_loop p (wsub length index) length (length + distance).

(** ** assign_backward (lines 1492-1546): [n = length - index] iterations,
    from and to counting up. *)
Fixpoint assign_backward_segment_loop (p : ptr) (n from to : nat) : M T unit :=
  match n with
  | 0 => mret ()
  | S n' =>
    move_assign_segment p from p to;;
    assign_backward_segment_loop p n' (from + 1) (to + 1)
  end.
Definition assign_backward_segment (p : ptr) (length index distance : nat) : M T unit :=
  if c_triv_copy C then memmove_slots p index (index + distance) (wsub length index)
  else assign_backward_segment_loop p (wsub length index) (index + distance) index.
Fixpoint assign_backward_leaf_loop (p : ptr) (n from to : nat) : M T unit :=
  match n with
  | 0 => mret ()
  | S n' =>
    move_assign_leaf p from p to;;
    assign_backward_leaf_loop p n' (from + 1) (to + 1)
  end.
Definition assign_backward_leaf (p : ptr) (length index distance : nat) : M T unit :=
  assign_backward_leaf_loop p (wsub length index) (index + distance) index.
Fixpoint assign_backward_branch_loop (p : ptr) (n from to : nat) : M T unit :=
  match n with
  | 0 => mret ()
  | S n' =>
    move_assign_branch p from p to;;
    assign_backward_branch_loop p n' (from + 1) (to + 1)
  end.
Definition assign_backward_branch (p : ptr) (length index distance : nat) : M T unit :=
  assign_backward_branch_loop p (wsub length index) (index + distance) index.

(** ** update_sizes (lines 1548-1567) *)
Fixpoint update_sizes_loop (fuel : nat) (p : ptr) (index sz : nat) : M T unit :=
  match fuel with
  | 0 => fail FFuel
  | S fuel' =>
    match p with
    | None => mret ()
    | Some _ =>
      s ← sizes p index;
      set_sizes p index (wadd s sz);;
      index' ← parent_index p;
      p' ← parent_pointer p;
      update_sizes_loop fuel' p' index' sz
    end
  end.
Definition update_sizes (this : loc) (p : ptr) (index sz : nat) : M T unit :=
  fuel ← height_fuel this;
  update_sizes_loop fuel p index sz;;
  n ← get_size this;
  set_size this (wadd n sz).
Definition increment_sizes (this : loc) (p : ptr) (index : nat) : M T unit :=
  update_sizes this p index 1.
Definition decrement_sizes (this : loc) (p : ptr) (index : nat) : M T unit :=
  update_sizes this p index (wadd (wnot 1) 1).

(** ** alloc_nodes_single (lines 1569-1600).  Only [allocate_node] can throw in
    the try block, so the handler (lines 1590-1599) is attached to it; [alloc] is
    the value of the local variable at that point. *)
Fixpoint free_chain (fuel : nat) (this : loc) (alloc : ptr) : M T unit :=
  match fuel with
  | 0 => fail FFuel
  | S fuel' =>
    match alloc with
    | None => mret ()
    | Some _ =>
      temp ← parent_pointer alloc;
      deallocate_node this alloc;;
      free_chain fuel' this temp
    end
  end.
Definition alloc_node_or_cleanup (this : loc) (alloc segment_alloc : ptr) : M T ptr :=
  try_catch (allocate_node this) (λ e,
    deallocate_segment this segment_alloc;;
    fuel ← height_fuel this;
    free_chain fuel this alloc;;
    throw e).
Fixpoint alloc_nodes_single_loop (fuel : nat) (this : loc) (p alloc segment_alloc : ptr) : M T ptr :=
  match fuel with
  | 0 => fail FFuel
  | S fuel' =>
    match p with
    | None =>
      temp ← alloc_node_or_cleanup this alloc segment_alloc;
      set_parent_pointer temp alloc;;
      mret temp
    | Some _ =>
      n ← length_of p;
      if negb (n =? base_max) then mret alloc
      else
        temp ← alloc_node_or_cleanup this alloc segment_alloc;
        set_parent_pointer temp alloc;;
        pp ← parent_pointer p;
        alloc_nodes_single_loop fuel' this pp temp segment_alloc
    end
  end.
Definition alloc_nodes_single (this : loc) (p segment_alloc : ptr) : M T ptr :=
  fuel ← height_fuel this; alloc_nodes_single_loop fuel this p None segment_alloc.

(** ** insert_single (lines 1602-1807) *)
(** Lines 1742-1807 *)
Fixpoint insert_single_branch_loop (fuel : nat) (this : loc) (base p : ptr) (index : nat)
    (alloc child_pointer : ptr) (child_size : nat) : M T unit :=
  match fuel with
  | 0 => fail FFuel
  | S fuel' =>
    match p with
    | None =>
      set_parent_pointer alloc None;;
      set_parent_index alloc 0;;
      set_length alloc 2;;
      sz ← get_size this;
      construct_branch alloc 0 (wadd (wsub sz child_size) 1) base;;
      construct_branch alloc 1 child_size child_pointer;;
      set_root this alloc;;
      ht ← get_height this; set_height this (wadd ht 1);;
      sz ← get_size this; set_size this (wadd sz 1)
    | Some _ =>
      length ← length_of p;
      s ← sizes p (wsub index 1);
      set_sizes p (wsub index 1) (wsub s (wsub child_size 1));;
      if negb (length =? base_max) then
        (if negb (index =? length) then
           move_branch p (wsub length 1) p length;;
           assign_forward_branch p (wsub length 1) index 1;;
           assign_branch p index child_size child_pointer
         else construct_branch p index child_size child_pointer);;
        set_length p (length + 1);;
        pp ← parent_pointer p; pi ← parent_index p;
        increment_sizes this pp pi
      else
        next_alloc ← parent_pointer alloc;
        let sum := base_max + 1 in
        let pointer_length := sum / 2 in
        let alloc_length := sum - pointer_length in
        alloc_size ←
          (if index <? pointer_length then
             let left_index := wsub pointer_length 1 in
             s1 ← move_branch p left_index alloc 0;
             s2 ← construct_range_branch p (left_index + 1) alloc 1 (wsub alloc_length 1);
             assign_forward_branch p left_index index 1;;
             assign_branch p index child_size child_pointer;;
             mret (wadd s1 s2)
           else
             let new_index := wsub index pointer_length in
             let move_length := wsub length index in
             s1 ← construct_range_branch p pointer_length alloc 0 new_index;
             s2 ← construct_range_branch p index alloc (new_index + 1) move_length;
             s3 ← construct_branch alloc new_index child_size child_pointer;
             mret (wadd (wadd s1 s2) s3));
        set_length p pointer_length;;
        set_length alloc alloc_length;;
        pi ← parent_index p;
        pp ← parent_pointer p;
        insert_single_branch_loop fuel' this p pp (pi + 1) next_alloc alloc alloc_size
    end
  end.
Definition insert_single_branch (this : loc) (base p : ptr) (index : nat)
    (alloc child_pointer : ptr) (child_size : nat) : M T unit :=
  fuel ← height_fuel this;
  insert_single_branch_loop fuel this base p index alloc child_pointer child_size.

(** Lines 1674-1740 *)
Definition insert_single_leaf (this : loc) (e : iterator_entry) (base p : ptr) (index : nat)
    (alloc child_pointer : ptr) (child_size : nat) : M T iterator_entry :=
  match p with
  | None =>
    set_parent_pointer alloc None;;
    set_parent_index alloc 0;;
    set_length alloc 2;;
    sz ← get_size this;
    construct_leaf alloc 0 (wadd (wsub sz child_size) 1) base;;
    construct_leaf alloc 1 child_size child_pointer;;
    set_root this alloc;;
    set_height this 2;;
    sz ← get_size this; set_size this (wadd sz 1);;
    mret (set_lf e (LeafEntry alloc (lf_idx (e_leaf e))))
  | Some _ =>
    length ← length_of p;
    s ← sizes p (wsub index 1);
    set_sizes p (wsub index 1) (wsub s (wsub child_size 1));;
    if negb (length =? base_max) then
      (if negb (index =? length) then
         move_leaf p (wsub length 1) p length;;
         assign_forward_leaf p (wsub length 1) index 1;;
         assign_leaf p index child_size child_pointer
       else construct_leaf p index child_size child_pointer);;
      set_length p (length + 1);;
      pp ← parent_pointer p; pi ← parent_index p;
      increment_sizes this pp pi;;
      mret e
    else
      next_alloc ← parent_pointer alloc;
      let sum := base_max + 1 in
      let pointer_length := sum / 2 in
      let alloc_length := sum - pointer_length in
      alloc_size ←
        (if index <? pointer_length then
           let left_index := wsub pointer_length 1 in
           s1 ← move_leaf p left_index alloc 0;
           s2 ← construct_range_leaf p (left_index + 1) alloc 1 (wsub alloc_length 1);
           assign_forward_leaf p left_index index 1;;
           assign_leaf p index child_size child_pointer;;
           mret (wadd s1 s2)
         else
           let new_index := wsub index pointer_length in
           let move_length := wsub length index in
           s1 ← construct_range_leaf p pointer_length alloc 0 new_index;
           s2 ← construct_range_leaf p index alloc (new_index + 1) move_length;
           s3 ← construct_leaf alloc new_index child_size child_pointer;
           mret (wadd (wadd s1 s2) s3));
      set_length p pointer_length;;
      set_length alloc alloc_length;;
      let e' :=
        if pointer_length <=? lf_idx (e_leaf e)
        then set_lf e (LeafEntry alloc (wsub (lf_idx (e_leaf e)) pointer_length))
        else e in
      pp ← parent_pointer p;
      pi ← parent_index p;
      insert_single_branch this p pp (pi + 1) next_alloc alloc alloc_size;;
      mret e'
  end.

(** Lines 1607-1672 *)
Definition insert_single_segment (this : loc) (e : iterator_entry) (value : T) : M T iterator_entry :=
  let p := sg_ptr (e_seg e) in
  let index := sg_idx (e_seg e) in
  let length := sg_len (e_seg e) in
  let parent_pointer := lf_ptr (e_leaf e) in
  let parent_index := lf_idx (e_leaf e) in
  if negb (index =? length) && negb (length =? segment_max) then
    move_segment p (wsub length 1) p length;;
    assign_forward_segment p (wsub length 1) index 1;;
    assign_segment p index value;;
    increment_sizes this parent_pointer parent_index;;
    mret (set_sg_len e (length + 1))
  else match p with
  | None =>
    alloc ← allocate_segment this;
    set_root this alloc;;
    set_size this 1;;
    set_height this 1;;
    construct_segment alloc 0 value;;
    mret (set_sg_len (set_sg_ptr e alloc) 1)
  | Some _ =>
    if negb (length =? segment_max) then
      construct_segment p index value;;
      increment_sizes this parent_pointer parent_index;;
      mret (set_sg_len e (length + 1))
    else
      alloc ← allocate_segment this;
      leaf_alloc ← alloc_nodes_single this parent_pointer alloc;
      let sum := segment_max + 1 in
      let pointer_length := sum / 2 in
      let alloc_length := sum - pointer_length in
      e' ←
        (if index <? pointer_length then
           let left_index := wsub pointer_length 1 in
           move_segment p left_index alloc 0;;
           construct_range_segment p (left_index + 1) alloc 1 (wsub alloc_length 1);;
           assign_forward_segment p left_index index 1;;
           assign_segment p index value;;
           mret (set_sg_len e pointer_length)
         else
           let new_index := wsub index pointer_length in
           let move_length := wsub length index in
           construct_range_segment p pointer_length alloc 0 new_index;;
           construct_range_segment p index alloc (new_index + 1) move_length;;
           construct_segment alloc new_index value;;
           mret (IterEntry (SegEntry alloc new_index alloc_length)
                           (LeafEntry parent_pointer (parent_index + 1))));
      insert_single_leaf this e' p parent_pointer (parent_index + 1) leaf_alloc alloc alloc_length
  end.

(** Lines 1603-1605: the by-value parameter is moved into another one *)
Definition insert_single_iterator (this : loc) (it : iterator_data) (value : T) : M T iterator_data :=
  move_tick;;
  e ← insert_single_segment this (i_entry it) value;
  mret (Iter e (i_pos it)).

(** ** erase_single (lines 1809-2100) *)
(** Lines 2006-2100 *)
Fixpoint erase_single_branch_loop (fuel : nat) (this : loc) (p : ptr) (index : nat) : M T unit :=
  match fuel with
  | 0 => fail FFuel
  | S fuel' =>
    pp ← parent_pointer p;
    pi ← parent_index p;
    length ← length_of p;
    if (length =? 2) && (negb (base_min =? 2) || bool_decide (pp = None)) then
      other ← pointers p (Nat.lxor index 1);
      destroy_node p 0;;
      destroy_node p 1;;
      deallocate_node this p;;
      set_root this other;;
      set_parent_pointer other None;;
      set_parent_index other 0;;
      sz ← get_size this; set_size this (wsub sz 1);;
      ht ← get_height this; set_height this (wsub ht 1)
    else
    let length0 := length in
    let length := wsub length 1 in
    if negb (length0 =? base_min) || bool_decide (pp = None) then
      assign_backward_branch p length index 1;;
      destroy_node p length;;
      set_length p length;;
      decrement_sizes this pp pi
    else
      if negb (pi =? 0) then
        let prev_index := wsub pi 1 in
        prev_pointer ← pointers pp prev_index;
        prev_length ← length_of prev_pointer;
        if negb (prev_length =? base_min) then
          let prev_length := wsub prev_length 1 in
          assign_forward_branch p index 0 1;;
          sz ← move_assign_branch prev_pointer prev_length p 0;
          destroy_node prev_pointer prev_length;;
          s ← sizes pp prev_index; set_sizes pp prev_index (wsub s sz);;
          s ← sizes pp pi; set_sizes pp pi (wadd s (wsub sz 1));;
          set_length prev_pointer prev_length;;
          ppp ← parent_pointer pp; ppi ← parent_index pp;
          decrement_sizes this ppp ppi
        else
          s1 ← construct_range_branch p 0 prev_pointer prev_length index;
          s2 ← construct_range_branch p (index + 1) prev_pointer (prev_length + index) (wsub length index);
          destroy_node p index;;
          deallocate_node this p;;
          set_length prev_pointer (prev_length + length);;
          s ← sizes pp prev_index; set_sizes pp prev_index (wadd s (wadd s1 s2));;
          erase_single_branch_loop fuel' this pp pi
      else
        let next_index := pi + 1 in
        next_pointer ← pointers pp next_index;
        next_length ← length_of next_pointer;
        if negb (next_length =? base_min) then
          let next_length := wsub next_length 1 in
          assign_backward_branch p length index 1;;
          sz ← move_assign_branch next_pointer 0 p length;
          assign_backward_branch next_pointer next_length 0 1;;
          destroy_node next_pointer next_length;;
          s ← sizes pp next_index; set_sizes pp next_index (wsub s sz);;
          s ← sizes pp pi; set_sizes pp pi (wadd s (wsub sz 1));;
          set_length next_pointer next_length;;
          ppp ← parent_pointer pp; ppi ← parent_index pp;
          decrement_sizes this ppp ppi
        else
          assign_backward_branch p length index 1;;
          s1 ← move_assign_branch next_pointer 0 p length;
          destroy_node next_pointer 0;;
          s2 ← construct_range_branch next_pointer 1 p (length + 1) (wsub next_length 1);
          deallocate_node this next_pointer;;
          set_length p (length + next_length);;
          s ← sizes pp pi; set_sizes pp pi (wadd s (wsub (wadd s1 s2) 1));;
          erase_single_branch_loop fuel' this pp next_index
  end.
Definition erase_single_branch (this : loc) (p : ptr) (index : nat) : M T unit :=
  fuel ← height_fuel this; erase_single_branch_loop fuel this p index.

(** Lines 1909-2004 *)
Definition erase_single_leaf (this : loc) (e : leaf_entry) (p : ptr) (index : nat) : M T leaf_entry :=
  pp ← parent_pointer p;
  pi ← parent_index p;
  length ← length_of p;
  if (length =? 2) && (negb (base_min =? 2) || bool_decide (pp = None)) then
    other ← pointers p (Nat.lxor index 1);
    destroy_node p 0;;
    destroy_node p 1;;
    deallocate_node this p;;
    set_root this other;;
    sz ← get_size this; set_size this (wsub sz 1);;
    set_height this 1;;
    mret (LeafEntry None 0)
  else
  let length0 := length in
  let length := wsub length 1 in
  if negb (length0 =? base_min) || bool_decide (pp = None) then
    assign_backward_leaf p length index 1;;
    destroy_node p length;;
    set_length p length;;
    decrement_sizes this pp pi;;
    mret e
  else
    if negb (pi =? 0) then
      let prev_index := wsub pi 1 in
      prev_pointer ← pointers pp prev_index;
      prev_length ← length_of prev_pointer;
      if negb (prev_length =? base_min) then
        let prev_length := wsub prev_length 1 in
        assign_forward_leaf p index 0 1;;
        sz ← move_assign_leaf prev_pointer prev_length p 0;
        destroy_node prev_pointer prev_length;;
        s ← sizes pp prev_index; set_sizes pp prev_index (wsub s sz);;
        s ← sizes pp pi; set_sizes pp pi (wadd s (wsub sz 1));;
        set_length prev_pointer prev_length;;
        ppp ← parent_pointer pp; ppi ← parent_index pp;
        decrement_sizes this ppp ppi;;
        mret (LeafEntry (lf_ptr e) (lf_idx e + 1))
      else
        s1 ← construct_range_leaf p 0 prev_pointer prev_length index;
        s2 ← construct_range_leaf p (index + 1) prev_pointer (prev_length + index) (wsub length index);
        destroy_node p index;;
        deallocate_node this p;;
        set_length prev_pointer (prev_length + length);;
        s ← sizes pp prev_index; set_sizes pp prev_index (wadd s (wadd s1 s2));;
        erase_single_branch this pp pi;;
        mret (LeafEntry prev_pointer (lf_idx e + prev_length))
    else
      let next_index := pi + 1 in
      next_pointer ← pointers pp next_index;
      next_length ← length_of next_pointer;
      if negb (next_length =? base_min) then
        let next_length := wsub next_length 1 in
        assign_backward_leaf p length index 1;;
        sz ← move_assign_leaf next_pointer 0 p length;
        assign_backward_leaf next_pointer next_length 0 1;;
        destroy_node next_pointer next_length;;
        s ← sizes pp next_index; set_sizes pp next_index (wsub s sz);;
        s ← sizes pp pi; set_sizes pp pi (wadd s (wsub sz 1));;
        set_length next_pointer next_length;;
        ppp ← parent_pointer pp; ppi ← parent_index pp;
        decrement_sizes this ppp ppi;;
        mret e
      else
        assign_backward_leaf p length index 1;;
        s1 ← move_assign_leaf next_pointer 0 p length;
        destroy_node next_pointer 0;;
        s2 ← construct_range_leaf next_pointer 1 p (length + 1) (wsub next_length 1);
        deallocate_node this next_pointer;;
        set_length p (length + next_length);;
        s ← sizes pp pi; set_sizes pp pi (wadd s (wsub (wadd s1 s2) 1));;
        erase_single_branch this pp next_index;;
        mret e.

(** Lines 1814-1907 *)
Definition erase_single_segment (this : loc) (e : iterator_entry) : M T iterator_entry :=
  let p := sg_ptr (e_seg e) in
  let index := sg_idx (e_seg e) in
  let length := sg_len (e_seg e) in
  let pp := lf_ptr (e_leaf e) in
  let pi := lf_idx (e_leaf e) in
  if (length =? 1) && (negb (segment_min =? 1) || bool_decide (pp = None)) then
    destroy_segment p 0;;
    deallocate_segment this p;;
    set_root this None;;
    set_size this 0;;
    set_height this 0;;
    mret (IterEntry (SegEntry None 0 0) (e_leaf e))
  else
  let length0 := length in
  let length := wsub length 1 in
  if negb (length0 =? segment_min) || bool_decide (pp = None) then
    assign_backward_segment p length index 1;;
    destroy_segment p length;;
    decrement_sizes this pp pi;;
    mret (set_sg_len e length)
  else
    let merge_size := segment_min * 2 - 1 in
    if negb (pi =? 0) then
      let prev_index := wsub pi 1 in
      prev_pointer ← pointers pp prev_index;
      prev_length ← sizes pp prev_index;
      if negb (prev_length =? segment_min) then
        let prev_length := wsub prev_length 1 in
        assign_forward_segment p index 0 1;;
        move_assign_segment prev_pointer prev_length p 0;;
        destroy_segment prev_pointer prev_length;;
        set_sizes pp prev_index prev_length;;
        ppp ← parent_pointer pp; ppi ← parent_index pp;
        decrement_sizes this ppp ppi;;
        mret (set_sg_idx e (index + 1))
      else
        construct_range_segment p 0 prev_pointer prev_length index;;
        construct_range_segment p (index + 1) prev_pointer (prev_length + index) (wsub length index);;
        destroy_segment p index;;
        deallocate_segment this p;;
        set_sizes pp prev_index merge_size;;
        l ← erase_single_leaf this (LeafEntry pp (wsub pi 1)) pp pi;
        mret (IterEntry (SegEntry prev_pointer (index + segment_min) merge_size) l)
    else
      let next_index := pi + 1 in
      next_pointer ← pointers pp next_index;
      next_length ← sizes pp next_index;
      if negb (next_length =? segment_min) then
        let next_length := wsub next_length 1 in
        assign_backward_segment p length index 1;;
        move_assign_segment next_pointer 0 p length;;
        assign_backward_segment next_pointer next_length 0 1;;
        destroy_segment next_pointer next_length;;
        set_sizes pp next_index next_length;;
        ppp ← parent_pointer pp; ppi ← parent_index pp;
        decrement_sizes this ppp ppi;;
        mret e
      else
        assign_backward_segment p length index 1;;
        move_assign_segment next_pointer 0 p length;;
        destroy_segment next_pointer 0;;
        construct_range_segment next_pointer 1 p (length + 1) (wsub next_length 1);;
        deallocate_segment this next_pointer;;
        set_sizes pp pi merge_size;;
        l ← erase_single_leaf this (e_leaf e) pp next_index;
        mret (IterEntry (SegEntry p index merge_size) l).

(** ** helpers (lines 2102-2127) *)
Definition find_index (this : loc) (pos : nat) : M T iterator_data :=
  r ← get_root this; sz ← get_size this; ht ← get_height this; find_index_root r sz ht pos.
Definition find_first (this : loc) : M T iterator_data :=
  r ← get_root this; sz ← get_size this; ht ← get_height this; find_first_root r sz ht.
Definition find_last (this : loc) : M T iterator_data :=
  r ← get_root this; sz ← get_size this; ht ← get_height this; find_last_root r sz ht.
Definition find_end (this : loc) : M T iterator_data :=
  r ← get_root this; sz ← get_size this; ht ← get_height this; find_end_root r sz ht.
Definition steal (this other : loc) : M T unit :=                       (* 2120-2127 *)
  r ← get_root other; set_root this r;;
  h ← get_height other; set_height this h;;
  n ← get_size other; set_size this n;;
  set_root other None;;
  set_height other 0;;
  set_size other 0.

(** ** Sources of values: the arguments [args...] from which one element is
    constructed. [VRef]/[VMove]: an lvalue / rvalue reference to pointer[i]. *)
Inductive vsrc :=
  | VVal (v : T)
  | VRef (p : ptr) (i : nat)
  | VMove (p : ptr) (i : nat).
(** value_type(std::forward<Args>(args)...) *)
Definition make_value (s : vsrc) : M T T :=
  match s with
  | VVal v => user_tick;; mret v
  | VRef p i => v ← read_slot p i; user_tick;; mret v
  | VMove p i => v ← read_slot p i; move_tick;; set_slot p i (Some (c_residue C v));; mret v
  end.
(** pointer[i] = value (copy or move assignment from a user-supplied reference) *)
Definition assign_value (p : ptr) (i : nat) (s : vsrc) : M T unit :=
  v ← make_value s;
  _ ← read_slot p i;
  set_slot p i (Some v).

(** Lines 2129-2133 *)
Definition emplace_single (this : loc) (it : iterator_data) (s : vsrc) : M T iterator_data :=
  v ← make_value s;
  insert_single_iterator this it v.

(** Lines 2135-2144 *)
Fixpoint emplace_count_loop (this : loc) (it : iterator_data) (count : nat) (s : vsrc)
    : M T iterator_data :=
  match count with
  | 0 => mret it
  | S count' =>
    it ← emplace_single this it s;
    it ← move_next_iterator it;
    emplace_count_loop this it count' s
  end.
Definition emplace_count (this : loc) (it : iterator_data) (count : nat) (s : vsrc)
    : M T iterator_data :=
  it ← emplace_count_loop this it count s;
  move_prev_iterator_count it count.

(** ** Input ranges [first, last): an external range (given by its elements), or
    iterators into a seq, possibly wrapped in std::move_iterator.  The operations
    of the iterators of an external range belong to the caller: each may throw. *)
Inductive input :=
  | IList (xs : list T)
  | ISeq (mv : bool) (first last : iterator_data).
Definition input_end (r : input) : M T bool :=                          (* first == last, l. 1064 *)
  match r with
  | IList xs => user_tick;; mret (match xs with [] => true | _ => false end)
  | ISeq _ f l => mret (i_pos f =? i_pos l)
  end.
Definition input_src (r : input) : M T vsrc :=                          (* *first *)
  match r with
  | IList xs => user_tick;; match xs with x :: _ => mret (VVal x) | [] => fail FBounds end
  | ISeq mv f _ =>
    let s := e_seg (i_entry f) in
    mret (if mv then VMove (sg_ptr s) (sg_idx s) else VRef (sg_ptr s) (sg_idx s))
  end.
Definition input_next (r : input) : M T input :=                        (* ++first *)
  match r with
  | IList xs => user_tick;; match xs with _ :: xs => mret (IList xs) | [] => fail FBounds end
  | ISeq mv f l => f ← move_next_iterator f; mret (ISeq mv f l)
  end.
Definition input_fuel (r : input) : nat :=
  match r with
  | IList xs => S (length xs)
  | ISeq _ f l => S (i_pos l - i_pos f)
  end.

(** Lines 2146-2157 *)
Fixpoint emplace_range_loop (fuel : nat) (this : loc) (it : iterator_data) (r : input) (count : nat)
    : M T (iterator_data * nat) :=
  match fuel with
  | 0 => fail FFuel
  | S fuel' =>
    b ← input_end r;
    if (b : bool) then mret (it, count)
    else
      s ← input_src r;
      it ← emplace_single this it s;
      r ← input_next r;
      it ← move_next_iterator it;
      emplace_range_loop fuel' this it r (count + 1)
  end.
Definition emplace_range (this : loc) (it : iterator_data) (r : input) : M T iterator_data :=
  ic ← emplace_range_loop (input_fuel r) this it r 0;
  move_prev_iterator_count ic.1 ic.2.

(** Lines 2159-2164 *)
Definition erase_single (this : loc) (it : iterator_data) : M T iterator_data :=
  e ← erase_single_segment this (i_entry it);
  e ← (if sg_idx (e_seg e) =? sg_len (e_seg e) then move_next_leaf e else mret e);
  mret (Iter e (i_pos it)).

(** Lines 2166-2172: [while (last.pos - first.pos)] *)
Fixpoint erase_range_loop (fuel : nat) (this : loc) (first last : iterator_data) : M T iterator_data :=
  match fuel with
  | 0 => fail FFuel
  | S fuel' =>
    if wsub (i_pos last) (i_pos first) =? 0 then mret last
    else
      last ← move_prev_iterator last;
      last ← erase_single this last;
      erase_range_loop fuel' this first last
  end.
Definition erase_range (this : loc) (first last : iterator_data) : M T iterator_data :=
  erase_range_loop (S (wsub (i_pos last) (i_pos first))) this first last.

(** Lines 2174-2192 *)
Fixpoint assign_count_loop (this : loc) (count : nat) (s : vsrc) (first last : iterator_data) : M T unit :=
  match count with
  | 0 => erase_range this first last;; mret ()
  | S count' =>
    if i_pos first =? i_pos last then emplace_count this last count s;; mret ()
    else
      assign_value (sg_ptr (e_seg (i_entry first))) (sg_idx (e_seg (i_entry first))) s;;
      first ← move_next_iterator first;
      assign_count_loop this count' s first last
  end.
Definition assign_count (this : loc) (count : nat) (s : vsrc) : M T unit :=
  first ← find_first this;
  last ← find_end this;
  assign_count_loop this count s first last.

(** Lines 2194-2213 *)
Fixpoint assign_range_loop (fuel : nat) (this : loc) (r : input) (first last : iterator_data) : M T unit :=
  match fuel with
  | 0 => fail FFuel
  | S fuel' =>
    b ← input_end r;
    if (b : bool) then erase_range this first last;; mret ()
    else if i_pos first =? i_pos last then emplace_range this last r;; mret ()
    else
      s ← input_src r;
      assign_value (sg_ptr (e_seg (i_entry first))) (sg_idx (e_seg (i_entry first))) s;;
      first ← move_next_iterator first;
      r ← input_next r;
      assign_range_loop fuel' this r first last
  end.
Definition assign_range (this : loc) (r : input) : M T unit :=
  first ← find_first this;
  last ← find_end this;
  assign_range_loop (input_fuel r) this r first last.

(** Lines 2215-2225 *)
Definition resize_count (this : loc) (count : nat) (s : vsrc) : M T unit :=
  sz ← get_size this;
  if sz =? count then mret ()
  else
    last ← find_end this;
    if count <? sz then
      first ← find_index this count;
      erase_range this first last;; mret ()
    else emplace_count this last (count - sz) s;; mret ().

(** ** clear (public, lines 3064-3069) *)
Definition clear (this : loc) : M T unit :=
  purge this;;
  set_root this None;;
  set_height this 0;;
  set_size this 0.

(** ** allocator propagation (lines 2227-2306) *)
(** Lines 2227-2243 *)
Definition copy_assign_alloc (this other : loc) : M T unit :=
  if c_pocca C then
    a ← get_element_allocator this;
    b ← get_element_allocator other;
    (if negb (a =? b) then clear this else mret ());;
    b ← get_element_allocator other;
    set_element_allocator this b;;
    nb ← get_node_allocator other;
    set_node_allocator this nb
  else mret ().
(** Lines 2245-2263 (a moved-from allocator keeps its value) *)
Definition move_assign_alloc (this other : loc) : M T unit :=
  if c_pocma C then
    b ← get_element_allocator other;
    set_element_allocator this b;;
    nb ← get_node_allocator other;
    set_node_allocator this nb
  else mret ().
(** Lines 2284-2289 *)
Definition move_assign_true (this other : loc) : M T unit :=
  purge this;;
  move_assign_alloc this other;;
  steal this other.
(** Lines 2265-2282; assign(first, last) is lines 2534-2536 *)
Definition move_assign (this other : loc) : M T unit :=
  if c_pocma C then move_assign_true this other
  else
    a ← get_element_allocator this;
    b ← get_element_allocator other;
    if negb (a =? b) then
      f ← find_first other; l ← find_end other;
      assign_range this (ISeq true f l)
    else move_assign_true this other.
(** Lines 2291-2306 *)
Definition swap_allocator (this other : loc) : M T unit :=
  if c_pocs C then
    a ← get_element_allocator this; b ← get_element_allocator other;
    set_element_allocator this b;; set_element_allocator other a;;
    na ← get_node_allocator this; nb ← get_node_allocator other;
    set_node_allocator this nb;; set_node_allocator other na
  else mret ().

End model.
