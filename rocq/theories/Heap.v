(** * Heap: reading a container off the memory.

    Specification side: these functions say what is stored in memory, without
    running any of the modelled code and without any of the proof's ghost
    structures.  They check what they read and answer [None] when a recorded
    size, a length or a level does not fit what is really there. *)
From Verif Require Export Exec.
From stdpp Require Import options.

Section heap.
Context {T : Type}.
Implicit Types m : heap T.

(** the children of an index node with [n_len] entries: (size, address) *)
Definition children (nd : node) : option (list (nat * loc)) :=
  k ← n_len nd;
  let es := take k (zip (n_sizes nd) (n_ptrs nd)) in
  if length es =? k then mapM (λ e : option nat * option loc, s ← e.1; q ← e.2; Some (s, q)) es else None.

(** the segments under block [l], which is [h] levels high and should hold [n]
    elements: address and elements of each, from left to right *)
Fixpoint segments_at m (h n : nat) (l : loc) : option (list (loc * list T)) :=
  match h with
  | 0 => None
  | S h' =>
    match m !! l with
    | Some (OSeg _ slots) =>
      xs ← mapM id (take n slots);
      if (h' =? 0) && (length xs =? n) then Some [(l, xs)] else None
    | Some (ONode _ nd) =>
      cs ← children nd;
      ss ← mapM (λ c : nat * loc, segments_at m h' c.1 c.2) cs;
      if (0 <? h') && (length (concat (concat ss).*2) =? n) then Some (concat ss) else None
    | _ => None
    end
  end.
(** the index nodes under block [l] *)
Fixpoint nodes_at m (h : nat) (l : loc) : list loc :=
  match h with
  | 0 => []
  | S h' =>
    match m !! l with
    | Some (ONode _ nd) =>
      l :: concat ((λ c : nat * loc, nodes_at m h' c.2) <$> default [] (children nd))
    | _ => []
    end
  end.

(** the seq object of container [x] *)
Definition seq_at (st : state T) (ρ : env) (x : nat) : option seqobj :=
  l ← e_cont ρ !! x; match st_heap st !! l with Some (OSeq s) => Some s | _ => None end.
Definition segments (st : state T) (ρ : env) (x : nat) : option (list (loc * list T)) :=
  s ← seq_at st ρ x;
  match s_root s with
  | None => if (s_size s =? 0) && (s_ht s =? 0) then Some [] else None
  | Some r => segments_at (st_heap st) (s_ht s) (s_size s) r
  end.
Definition index_nodes (st : state T) (ρ : env) (x : nat) : list loc :=
  match seq_at st ρ x with
  | Some s => match s_root s with Some r => nodes_at (st_heap st) (s_ht s) r | None => [] end
  | None => []
  end.
(** elements and allocator of container [x] *)
Definition container_at (st : state T) (ρ : env) (x : nat) : option (list T * nat) :=
  s ← seq_at st ρ x; ss ← segments st ρ x; Some (concat ss.*2, s_ealloc s).
(** every block of memory container [x] owns besides the seq object *)
Definition blocks_of (st : state T) (ρ : env) (x : nat) : list loc :=
  index_nodes st ρ x ++ (default [] (segments st ρ x)).*1.
End heap.
