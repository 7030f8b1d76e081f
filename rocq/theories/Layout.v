(** Memory layout of the node types (src/const_math_hack.rs, and the parts of src/tree/node.rs that rely on it).

    Sizes, alignments and addresses are numbers of bytes.  What Rust promises about layouts is written down here as
    the definitions [array_of], [repr_c] and [up]; layouts of types without a promise (user types, `Leaf`, which has no
    `repr`) are arbitrary valid ones.  `MaybeUninit<T>` and `UnsafeCell<T>` have the layout of `T` and so have no
    definition.  The widths of `usize` and `isize` are parameters. *)
From Coq Require Import List Arith Bool.
From Verif Require Import Base.
Import ListNotations.

(** Size and alignment of a type. *)
Record layout : Type := Lay { l_size : nat; l_align : nat }.

(** What holds of every Rust type: the alignment is a power of two that divides the size. *)
Definition valid (t : layout) : Prop := (exists k, l_align t = 2 ^ k) /\ exists q, l_size t = q * l_align t.

(** The next multiple of [a]. *)
Definition up (n a : nat) : nat := ((n + (a - 1)) / a) * a.

(** `[T; n]`: elements one after the other. *)
Definition array_of (t : layout) (n : nat) : layout := Lay (n * l_size t) (l_align t).

(** The fields of a `#[repr(C)]` struct in order, each at the next multiple of its alignment; their offsets and the end. *)
Fixpoint c_fields (at_ : nat) (fs : list layout) : list nat * nat :=
  match fs with
  | [] => ([], at_)
  | f :: rest =>
    let o := up at_ (l_align f) in
    let (os, e) := c_fields (o + l_size f) rest in (o :: os, e)
  end.

(** Layout of a `#[repr(C)]` struct. *)
Definition repr_c (fs : list layout) : layout :=
  let a := fold_right (fun f a => max (l_align f) a) 1 fs in
  Lay (up (snd (c_fields 0 fs)) a) a.

(** Types that implement `ArrayHack`: arrays, `Add` and `Mul`, over some element type (const_math_hack.rs 13-26, 148-165). *)
Inductive hack : Type :=
| HArr (n : nat)
| HAdd (l r : hack)
| HMul (a : hack) (m : nat).

(** `ArrayHack::LEN` (const_math_hack.rs 148-165); its overflow is a compile error. *)
Fixpoint h_len (h : hack) : nat :=
  match h with
  | HArr n => n
  | HAdd l r => h_len l + h_len r
  | HMul a m => h_len a * m
  end.

(** Layout of the type with elements of layout [t] (const_math_hack.rs 13-26).  `MappedArray` (193-208) keeps the [hack] and
    changes the element type. *)
Fixpoint h_layout (h : hack) (t : layout) : layout :=
  match h with
  | HArr n => array_of t n
  | HAdd l r => repr_c [h_layout l t; h_layout r t]
  | HMul a m => repr_c [array_of (h_layout a t) m]
  end.

(** Offsets of the elements, in the order of the fields: where the compiler puts them. *)
Fixpoint places (h : hack) (t : layout) : list nat :=
  match h with
  | HArr n => map (fun i => i * l_size t) (seq 0 n)
  | HAdd l r =>
    match fst (c_fields 0 [h_layout l t; h_layout r t]) with
    | [ol; or_] => map (Nat.add ol) (places l t) ++ map (Nat.add or_) (places r t)
    | _ => []
    end
  | HMul a m =>
    match fst (c_fields 0 [array_of (h_layout a t) m]) with
    | [o] => flat_map (fun i => map (Nat.add (o + i * l_size (h_layout a t))) (places a t)) (seq 0 m)
    | _ => []
    end
  end.

(** `get_ptr_unchecked` and `get_mut_ptr_unchecked` (const_math_hack.rs 66-107): where the code looks for element [idx] of the value at
    [base].  The assertion and the conditions of `pointer::add` (no offset beyond `isize::MAX`, inside the object) are UB if
    violated. *)
Definition elem_ptr (usize_max isize_max : nat) (h : hack) (t : layout) (base idx : nat) : res nat :=
  if h_len h <? idx then UB
  else if h_len h * l_size t <? isize_max then
    if (idx * l_size t <=? isize_max) && (idx * l_size t <=? l_size (h_layout h t)) then Ok (base + idx * l_size t) else UB
  else Ok ((base + idx * l_size t) mod Datatypes.S usize_max).

(** `as_slice` and `as_mut_slice` (const_math_hack.rs 133-145): address of each element of the slice. *)
Definition slice_ptrs (h : hack) (t : layout) (base : nat) : list nat :=
  map (fun i => base + i * l_size t) (seq 0 (h_len h)).

(** `KeyArray` and `ChildArray` (node.rs 697, 705). *)
Definition key_array (M : nat) : hack := HMul (HArr 2) M.
Definition child_array (M : nat) : hack := HAdd (HMul (HArr 2) M) (HArr 1).

(** `Internal` (node.rs 579-592); [leaf] is the layout of `Leaf`, [ptr] of `NonNull`. *)
Definition internal_fields (leaf ptr : layout) (M : nat) : list layout := [leaf; h_layout (child_array M) ptr].
Definition internal (leaf ptr : layout) (M : nat) : layout := repr_c (internal_fields leaf ptr M).

(** Address of child [i] of the internal node at [base], as the code finds it: the field `child_ptrs`, then the element. *)
Definition child_ptr (usize_max isize_max : nat) (leaf ptr : layout) (M base i : nat) : res nat :=
  match fst (c_fields 0 (internal_fields leaf ptr M)) with
  | [_; o] => elem_ptr usize_max isize_max (child_array M) ptr (base + o) i
  | _ => UB
  end.

(** `NodeHandle` (node.rs 94-109): pointer, height, and a marker without size.  `u8`, `NonZeroU8` and `ZeroU8` (252-281) are
    one byte. *)
Definition handle_fields (ptr height : layout) : list layout := [ptr; height; Lay 0 1].
Definition node_handle (ptr height : layout) : layout := repr_c (handle_fields ptr height).

(** `alloc_aligned` (node.rs 2611-2632): the layout asked for.  The assertion and `align_to` can fail; the latter if the
    size rounded up exceeds the limit for layouts, `isize::MAX` or, in older versions of Rust, `usize::MAX`. *)
Definition alloc_layout (isize_max : nat) (t : layout) : res layout :=
  if l_size t =? 0 then Panic PAssert
  else
    let a := max (l_align t) 64 in
    if isize_max <? up (l_size t) a then Panic PAssert else Ok (Lay (l_size t) a).

(** `dealloc_aligned` (node.rs 2640-2651): the layout given back. *)
Definition dealloc_layout (isize_max : nat) (t : layout) : res layout :=
  let a := max (l_align t) 64 in
  if isize_max <? up (l_size t) a then UB else Ok (Lay (l_size t) a).
