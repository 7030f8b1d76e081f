(** The count of one node as a machine word (src/tree/cow.rs 17-62), with everything that may be done to it.

    Cow.v, Weak.v and LCount.v have counts without a greatest value.  Here a count has [W] values, as a `usize` has,
    and [L] is `isize::MAX`.  All accesses are atomic operations on one word, so any interleaving of threads is a list
    of them.  Simplified: one node; who has the pointers does not matter, only how many there are. *)
From Coq Require Import List Arith Bool.
From Verif Require Import Base.
Import ListNotations.

Section CountWrap.
  Variables W L : nat.

  (** [w_ptrs]: the pointers to the node that are somebody's to use: root pointers of trees, child pointers of nodes.
      [w_live]: the node has not been freed. *)
  Record cword : Type := { w_cnt : nat; w_ptrs : nat; w_live : bool }.

  (** `one` (cow.rs 22-24): a new node, with one pointer to it. *)
  Definition wnew : cword := {| w_cnt := 1; w_ptrs := 1; w_live := true |}.

  (** Whoever has a pointer may: copy it (`clone` of a tree, mod.rs 786-806; `shallow_clone` of a parent, node.rs
      1067-1073); never give it back (`std::mem::forget` of a tree); give it back (`try_drop`, node.rs 1587-1599); ask
      whether there is another one (`ensure_unique`, node.rs 2594). *)
  Inductive wev : Type := WCopy | WForget | WGive | WAsk.
  (** [OFreed]: the node is freed.  [OBad]: the node was used after that. *)
  Inductive wout : Type := OCopied | OPanic | OForgot | OGiven | OFreed | OAnswer (b : bool) | OBad.

  (** `increment` (cow.rs 32-42): the count goes up even if it panics then.  `fetch_add` and `fetch_sub` wrap. *)
  Definition increment (s : cword) : cword * wout :=
    let n := {| w_cnt := (w_cnt s + 1) mod W; w_ptrs := w_ptrs s; w_live := true |} in
    if L <? w_cnt s then (n, OPanic)
    else ({| w_cnt := w_cnt n; w_ptrs := w_ptrs s + 1; w_live := true |}, OCopied).

  (** `decrement` (cow.rs 44-61) and what `try_drop` and `do_drop` make of it (node.rs 1587-1599, 1846-1937). *)
  Definition decrement (s : cword) : cword * wout :=
    let last := w_cnt s =? 1 in
    ({| w_cnt := (w_cnt s + (W - 1)) mod W; w_ptrs := w_ptrs s - 1; w_live := negb last |}, if last then OFreed else OGiven).

  (** `is_unique` (cow.rs 26-30) *)
  Definition is_unique (s : cword) : bool := w_cnt s =? 1.

  (** [None]: there is no pointer left to do it with. *)
  Definition wstep (s : cword) (e : wev) : option (cword * wout) :=
    if w_ptrs s =? 0 then None
    else
      match e with
      | WForget => Some ({| w_cnt := w_cnt s; w_ptrs := w_ptrs s - 1; w_live := w_live s |}, OForgot)
      | WCopy => Some (if w_live s then increment s else (s, OBad))
      | WGive => Some (if w_live s then decrement s else (s, OBad))
      | WAsk => Some (s, if w_live s then OAnswer (is_unique s) else OBad)
      end.

  Fixpoint wrun (s : cword) (es : list wev) : option (list wout * cword) :=
    match es with
    | [] => Some ([], s)
    | e :: es' =>
      match wstep s e with
      | Some (s', o) => match wrun s' es' with Some (os, s2) => Some (o :: os, s2) | None => None end
      | None => None
      end
    end.

  Definition is_panic (o : wout) : bool := match o with OPanic => true | _ => false end.
  Definition is_forgot (o : wout) : bool := match o with OForgot => true | _ => false end.
  (** How many calls panicked, and how many pointers were forgotten. *)
  Definition panics (os : list wout) : nat := length (filter is_panic os).
  Definition forgotten (os : list wout) : nat := length (filter is_forgot os).
End CountWrap.
