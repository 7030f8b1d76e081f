(** Properties of memory layouts. *)
From Coq Require Import List Arith Bool Lia.
From Verif Require Import Base Layout LayoutPropsP.
Import ListNotations.

(** `Add` and `Mul` look in memory like arrays: size, alignment, and the place of every element. *)
Theorem C46_array_layout : forall (h : hack) (t : layout), valid t ->
  l_size (h_layout h t) = l_size (array_of t (h_len h)) /\ l_align (h_layout h t) = l_align (array_of t (h_len h)) /\
  length (places h t) = h_len h /\ forall i p, nth_error (places h t) i = Some p -> p = i * l_size t.
Proof. exact C46_array_layout_proof. Qed.
Print Assumptions C46_array_layout.


(** An element of six bytes aligned to two, and the array of children for M = 3. *)
Example C46_array_layout_ex : valid (Lay 6 2) /\ h_len (child_array 3) = 7 /\ h_layout (child_array 3) (Lay 6 2) = Lay 42 2 /\
  places (child_array 3) (Lay 6 2) = [0; 6; 12; 18; 24; 30; 36].
Proof. split; [split; [exists 1|exists 3]; reflexivity|]. vm_compute. repeat split. Qed.

(** Unchecked element access finds the element: its address is where the compiler put it, in bounds and aligned, for
    objects that fit the address space.  One past the end is allowed.  Slices made of the array list the same addresses. *)
Theorem C46_element_pointers : forall (usize_max isize_max : nat) (h : hack) (t : layout) (base : nat), valid t ->
  l_size (h_layout h t) <= isize_max -> base + l_size (h_layout h t) <= usize_max -> Nat.divide (l_align (h_layout h t)) base ->
  (forall i p, nth_error (places h t) i = Some p ->
     elem_ptr usize_max isize_max h t base i = Ok (base + p) /\ p + l_size t <= l_size (h_layout h t) /\ Nat.divide (l_align t) (base + p)) /\
  elem_ptr usize_max isize_max h t base (h_len h) = Ok (base + l_size (h_layout h t)) /\
  slice_ptrs h t base = map (Nat.add base) (places h t).
Proof. exact C46_element_pointers_proof. Qed.
Print Assumptions C46_element_pointers.


(** The same array at address 10. *)
Example C46_element_pointers_ex : valid (Lay 6 2) /\ l_size (h_layout (child_array 3) (Lay 6 2)) <= 100 /\ 10 + l_size (h_layout (child_array 3) (Lay 6 2)) <= 200 /\
  Nat.divide (l_align (h_layout (child_array 3) (Lay 6 2))) 10 /\ nth_error (places (child_array 3) (Lay 6 2)) 6 = Some 36 /\
  elem_ptr 200 100 (child_array 3) (Lay 6 2) 10 6 = Ok 46 /\ elem_ptr 200 42 (child_array 3) (Lay 6 2) 10 7 = Ok 52 /\
  elem_ptr 200 100 (child_array 3) (Lay 6 2) 10 8 = UB.
Proof. split; [split; [exists 1|exists 3]; reflexivity|]. split; [vm_compute; lia|]. split; [vm_compute; lia|]. split; [exists 5; reflexivity|]. vm_compute. repeat split. Qed.

(** The arrays of a node have 2M and 2M + 1 elements, and changing the element type to one of the same layout, as
    `into_uninit` does by copying bytes, moves no element. *)
Theorem C46_node_arrays : forall (M : nat) (h : hack) (t e : layout), valid t ->
  length (places (key_array M) t) = 2 * M /\ length (places (child_array M) t) = 2 * M + 1 /\
  (l_size e = l_size t -> valid e -> l_size (h_layout h e) = l_size (h_layout h t) /\ places h e = places h t).
Proof. exact C46_node_arrays_proof. Qed.
Print Assumptions C46_node_arrays.


Example C46_node_arrays_ex : valid (Lay 8 4) /\ valid (Lay 8 8) /\ places (key_array 2) (Lay 8 4) = places (key_array 2) (Lay 8 8) /\
  places (key_array 2) (Lay 8 4) = [0; 8; 16; 24].
Proof. split; [split; [exists 2|exists 2]; reflexivity|]. split; [split; [exists 3|exists 1]; reflexivity|]. vm_compute. repeat split. Qed.

(** A pointer to an internal node can be used as a pointer to a leaf: the leaf is at its start, ends inside it, and is
    aligned wherever the node is; the children come after the leaf and inside the node. *)
Theorem C46_internal_as_leaf : forall (usize_max isize_max : nat) (leaf ptr : layout) (M base : nat), valid leaf -> valid ptr ->
  let t := internal leaf ptr M in
  l_size t <= isize_max -> base + l_size t <= usize_max -> Nat.divide (l_align t) base ->
  hd_error (fst (c_fields 0 (internal_fields leaf ptr M))) = Some 0 /\
  l_size leaf <= l_size t /\ Nat.divide (l_align leaf) base /\ valid t /\
  forall i, i <= 2 * M -> exists p, child_ptr usize_max isize_max leaf ptr M base i = Ok p /\
    base + l_size leaf + i * l_size ptr <= p /\ p + l_size ptr <= base + l_size t /\ Nat.divide (l_align ptr) p /\
    forall j q, j < i -> child_ptr usize_max isize_max leaf ptr M base j = Ok q -> q + l_size ptr <= p.
Proof. exact C46_internal_as_leaf_proof. Qed.
Print Assumptions C46_internal_as_leaf.


(** A leaf of twelve bytes aligned to four, with pointers of eight bytes: the children start at 16. *)
Example C46_internal_as_leaf_ex : valid (Lay 12 4) /\ valid (Lay 8 8) /\ internal (Lay 12 4) (Lay 8 8) 1 = Lay 40 8 /\
  child_ptr 200 100 (Lay 12 4) (Lay 8 8) 1 64 2 = Ok 96.
Proof. split; [split; [exists 2|exists 3]; reflexivity|]. split; [split; [exists 3|exists 1]; reflexivity|]. vm_compute. repeat split. Qed.

(** A type can be allocated exactly if it has a size and that size, rounded up to the alignment, fits.  It is given back to
    the allocator with the layout it was allocated with, which is aligned for the type and for a cache line. *)
Theorem C46_dealloc_layout : forall (isize_max : nat) (t : layout), valid t ->
  ((exists a, alloc_layout isize_max t = Ok a) <-> l_size t <> 0 /\ exists k, l_size t <= k * max (l_align t) 64 /\ k * max (l_align t) 64 <= isize_max) /\
  (forall a, alloc_layout isize_max t = Ok a ->
     dealloc_layout isize_max t = Ok a /\ l_size a = l_size t /\ l_size a <> 0 /\ Nat.divide (l_align t) (l_align a) /\ Nat.divide 64 (l_align a) /\
     (l_align a = l_align t \/ l_align a = 64)).
Proof. exact C46_dealloc_layout_proof. Qed.
Print Assumptions C46_dealloc_layout.


Example C46_dealloc_layout_ex : valid (Lay 40 8) /\ alloc_layout 100 (Lay 40 8) = Ok (Lay 40 64) /\ alloc_layout 63 (Lay 40 8) = Panic PAssert.
Proof. split; [split; [exists 3|exists 5]; reflexivity|]. vm_compute. split; reflexivity. Qed.

(** Handles with any two markers for the height have the same layout, so one can be read as the other. *)
Theorem C46_handle_layout : forall (ptr height height' : layout), valid ptr -> l_size height = 1 -> l_size height' = 1 -> valid height -> valid height' ->
  node_handle ptr height = node_handle ptr height' /\ fst (c_fields 0 (handle_fields ptr height)) = [0; l_size ptr; l_size ptr + 1].
Proof. exact C46_handle_layout_proof. Qed.
Print Assumptions C46_handle_layout.


Example C46_handle_layout_ex : valid (Lay 8 8) /\ valid (Lay 1 1) /\ node_handle (Lay 8 8) (Lay 1 1) = Lay 16 8.
Proof. split; [split; [exists 3|exists 1]; reflexivity|]. split; [split; [exists 0|exists 1]; reflexivity|]. vm_compute. reflexivity. Qed.
