(** The state shared by a tree and its `SliceRef`s (src/tree/slice_ref.rs): borrow state, weak count, table of
    references, and when the nodes and the shared allocation are freed.

    The tree is reduced to the list of its keys' reference ids, in order; what an insertion does to the table is
    a sequence of calls of `update`, `suspend` and `redirect`.  Small steps: while an insertion or the
    destruction of the nodes is running, user code ([Slice] methods, destructors of slices) may use references,
    so these have a begin and an end. *)
From Coq Require Import List Arith Bool.
From Verif Require Import Base Recycle.
Import ListNotations.

(** `StoredSliceRef` (slice_ref.rs 105-109); for a handle only whether it is there. *)
Inductive stored : Type := SHandle (present : bool) | SRedirect (id : nat) | SRemoved.

(** `BorrowState` (slice_ref.rs 114-136).  A `NonZeroUsize` is a [nat]. *)
Inductive bstate : Type := NotBorrowed | Mutable | Immutable (count : nat) (drop_if_zero : bool) | Dropping | Dropped.

(** `InnerStore` (slice_ref.rs 80-92).  `root` is left out: it is `Some` until the nodes are freed. *)
Record store : Type := { s_borrow : bstate; s_refs : @rvec stored; s_weak : nat }.

(** What the owner of the tree is doing: nothing, inserting, dropping the tree; or the tree is gone. *)
Inductive tstat : Type := TIdle | TInserting | TDropping | TGone.
(** A variable of type `SliceRef`, with its id (slice_ref.rs 43-47); given to `mem::forget`; dropped. *)
Inductive rvar : Type := RLive (id : option nat) | RForgot | RDead.
(** A variable of type `Borrow`, with the variable it borrows from; forgotten; dropped. *)
Inductive bvar : Type := BLive (r : nat) | BForgot | BDead.

Record world : Type := {
  w_store : store;
  w_tree : tstat;
  w_keys : list (option nat); (* the `ref_id` of each key, in order *)
  w_refs : list rvar;
  w_bors : list bvar;
  w_nodes_freed : nat; (* how often the nodes have been freed *)
  w_alloc_freed : nat; (* how often the `InnerStore` has been deallocated *)
}.

(** What a call does to the caller.  [OUB]: undefined behaviour, nothing can be said from there on. *)
Inductive outcome : Type := OUnit | OBool (b : bool) | OPanic (w : why) | OUB.

Section RefState.
  (** `usize::MAX` *)
  Variable CMAX : nat.

  Definition set_store (w : world) (s : store) : world :=
    {| w_store := s; w_tree := w_tree w; w_keys := w_keys w; w_refs := w_refs w; w_bors := w_bors w;
       w_nodes_freed := w_nodes_freed w; w_alloc_freed := w_alloc_freed w |}.
  Definition set_tree (w : world) (t : tstat) : world :=
    {| w_store := w_store w; w_tree := t; w_keys := w_keys w; w_refs := w_refs w; w_bors := w_bors w;
       w_nodes_freed := w_nodes_freed w; w_alloc_freed := w_alloc_freed w |}.
  Definition set_keys (w : world) (k : list (option nat)) : world :=
    {| w_store := w_store w; w_tree := w_tree w; w_keys := k; w_refs := w_refs w; w_bors := w_bors w;
       w_nodes_freed := w_nodes_freed w; w_alloc_freed := w_alloc_freed w |}.
  Definition set_refs (w : world) (r : list rvar) : world :=
    {| w_store := w_store w; w_tree := w_tree w; w_keys := w_keys w; w_refs := r; w_bors := w_bors w;
       w_nodes_freed := w_nodes_freed w; w_alloc_freed := w_alloc_freed w |}.
  Definition set_bors (w : world) (b : list bvar) : world :=
    {| w_store := w_store w; w_tree := w_tree w; w_keys := w_keys w; w_refs := w_refs w; w_bors := b;
       w_nodes_freed := w_nodes_freed w; w_alloc_freed := w_alloc_freed w |}.
  Definition free_nodes (w : world) : world :=
    {| w_store := w_store w; w_tree := w_tree w; w_keys := w_keys w; w_refs := w_refs w; w_bors := w_bors w;
       w_nodes_freed := S (w_nodes_freed w); w_alloc_freed := w_alloc_freed w |}.
  (** `InnerStore::dealloc` (slice_ref.rs 1132-1136) *)
  Definition dealloc (w : world) : world :=
    {| w_store := w_store w; w_tree := w_tree w; w_keys := w_keys w; w_refs := w_refs w; w_bors := w_bors w;
       w_nodes_freed := w_nodes_freed w; w_alloc_freed := S (w_alloc_freed w) |}.
  Definition set_borrow (w : world) (b : bstate) : world :=
    set_store w {| s_borrow := b; s_refs := s_refs (w_store w); s_weak := s_weak (w_store w) |}.
  Definition set_table (w : world) (r : rvec) : world :=
    set_store w {| s_borrow := s_borrow (w_store w); s_refs := r; s_weak := s_weak (w_store w) |}.
  Definition set_weak (w : world) (n : nat) : world :=
    set_store w {| s_borrow := s_borrow (w_store w); s_refs := s_refs (w_store w); s_weak := n |}.

  (** A tree of [n] runs that nobody refers to: `SliceRefStore::new` (slice_ref.rs 370-380). *)
  Definition start (n : nat) : world :=
    {| w_store := {| s_borrow := NotBorrowed; s_refs := rv_new; s_weak := 0 |}; w_tree := TIdle;
       w_keys := repeat None n; w_refs := []; w_bors := []; w_nodes_freed := 0; w_alloc_freed := 0 |}.

  Definition borrow_of (w : world) : bstate := s_borrow (w_store w).
  Definition table_of (w : world) : rvec := s_refs (w_store w).
  Definition weak_of (w : world) : nat := s_weak (w_store w).

  Definition lift {A} (w : world) (r : res A) (f : A -> outcome * world) : outcome * world :=
    match r with Ok a => f a | Panic y => (OPanic y, w) | UB => (OUB, w) end.

  (** ** The tree's side *)

  (** `acquire_mutable` (slice_ref.rs 262-275), as called by `insert_internal` (insert.rs 87-90). *)
  Definition acquire_mutable (w : world) : outcome * world :=
    match borrow_of w with
    | NotBorrowed => (OUnit, set_tree (set_borrow w Mutable) TInserting)
    | Immutable _ _ => (OPanic PBorrow, w)
    | _ => (OPanic PUnreachable, w)
    end.

  (** `release_mutable` (slice_ref.rs 277-280) *)
  Definition release_mutable (w : world) : outcome * world :=
    match borrow_of w with
    | Mutable => (OUnit, set_borrow w NotBorrowed)
    | _ => (OPanic PAssert, w)
    end.

  (** `Drop for SliceRefStore` (slice_ref.rs 440-470), with `InnerStore::drop(false)` (1141-1150). *)
  Definition store_drop (w : world) : outcome * world :=
    match borrow_of w with
    | Immutable c true => (OUnit, set_table w rv_new)
    | Dropping =>
      let w1 := set_table (set_borrow w Dropped) rv_new in
      (OUnit, if weak_of w1 =? 0 then dealloc w1 else w1)
    | _ => (OPanic PUnreachable, w)
    end.

  (** `destruct_root` (tree/mod.rs 275-294) up to the end of `do_drop`, with `try_acquire_drop` (slice_ref.rs
      282-313).  When a borrow is live the function returns and the `Root` it holds goes out of scope. *)
  Definition drop_begin (w : world) : outcome * world :=
    match borrow_of w with
    | Mutable | NotBorrowed => (OUnit, set_tree (free_nodes (set_borrow w Dropping)) TDropping)
    | Immutable c false => store_drop (set_tree (set_borrow w (Immutable c true)) TGone)
    | _ => (OPanic PUnreachable, w)
    end.

  (** The calls an insertion makes on the table, on the key at [k]: `update` (slice_ref.rs 418-429), `suspend`
      (431-437), `redirect` (386-402); and a new key, without an id, at [k] (`insert_key`, node.rs 2167). *)
  Inductive istep : Type := INew (k : nat) | IUpdate (k : nat) | ISuspend (k : nat) | IRedirect (from to : nat).

  Definition key_id (w : world) (k : nat) : option (option nat) := nth_error (w_keys w) k.

  (** `assert!(matches!(old, Handle(_)))` *)
  Definition is_handle (s : stored) : bool := match s with SHandle _ => true | _ => false end.
  Definition is_present (s : stored) : bool := match s with SHandle true => true | _ => false end.

  (** [None]: no such key. *)
  Definition insert_step (w : world) (i : istep) : option (outcome * world) :=
    match i with
    | INew k =>
      if k <=? length (w_keys w) then Some (OUnit, set_keys w (insert_at k None (w_keys w))) else None
    | IUpdate k =>
      match key_id w k with
      | None => None
      | Some None => Some (OUnit, w)
      | Some (Some id) =>
        Some (lift w (rv_replace (table_of w) id (SHandle true)) (fun p =>
              (if is_handle (fst p) then OUnit else OPanic PAssert, set_table w (snd p))))
      end
    | ISuspend k =>
      match key_id w k with
      | None => None
      | Some None => Some (OUnit, w)
      | Some (Some id) =>
        Some (lift w (rv_replace (table_of w) id (SHandle false)) (fun p =>
              (if is_present (fst p) then OUnit else OPanic PAssert, set_table w (snd p))))
      end
    | IRedirect f t =>
      match key_id w f, key_id w t with
      | None, _ | _, None => None
      | Some None, Some _ => Some (OUnit, w)
      | Some (Some r), Some None =>
        Some (lift w (rv_clone CMAX (table_of w) r) (fun p =>
              (OUnit, set_keys (set_table w (snd p)) (replace_at t (Some (fst p)) (w_keys w)))))
      | Some (Some f0), Some (Some t0) =>
        Some (lift w (rv_clone CMAX (table_of w) t0) (fun p =>
              let w1 := set_keys (set_table w (snd p)) (replace_at f (Some (fst p)) (w_keys w)) in
              lift w1 (rv_recycle (table_of w1) f0) (fun q =>
              (match fst q with Some (SRemoved | SRedirect _) => OPanic PUnreachable | _ => OUnit end,
               set_table w1 (snd q)))))
      end
    end.

  (** `make_ref` (slice_ref.rs 337-362), called through `SliceEntry::make_ref` (entry.rs) or `insert_ref`
      (tree/mod.rs 758).  Panics on the way leave the counts as they are then. *)
  Definition bump_weak (w : world) (f : world -> outcome * world) : outcome * world :=
    if weak_of w <? CMAX then f (set_weak w (S (weak_of w))) else (OPanic PArith, w).

  Definition make_ref (w : world) (k : nat) : option (outcome * world) :=
    match key_id w k with
    | None => None
    | Some (Some id) =>
      Some (lift w (rv_clone CMAX (table_of w) id) (fun p =>
            bump_weak (set_table w (snd p)) (fun w2 =>
            (OUnit, set_refs w2 (w_refs w2 ++ [RLive (Some (fst p))])))))
    | Some None =>
      Some (lift w (rv_push (table_of w) (SHandle true)) (fun p =>
            lift (set_table w (snd p)) (rv_clone CMAX (snd p) (fst p)) (fun q =>
            let w1 := set_keys (set_table w (snd q)) (replace_at k (Some (fst q)) (w_keys w)) in
            bump_weak w1 (fun w2 => (OUnit, set_refs w2 (w_refs w2 ++ [RLive (Some (fst p))]))))))
    end.

  (** ** The references' side *)

  Definition ref_var (w : world) (r : nat) : option (option nat) :=
    match nth_error (w_refs w) r with Some (RLive id) => Some id | _ => None end.
  Definition bor_var (w : world) (b : nat) : option nat :=
    match nth_error (w_bors w) b with Some (BLive r) => Some r | _ => None end.
  Definition set_id (w : world) (r : nat) (id : option nat) : world :=
    set_refs w (replace_at r (RLive id) (w_refs w)).

  (** `get_refs_without_borrow` (slice_ref.rs 521-529) *)
  Definition table_readable (w : world) : bool :=
    match borrow_of w with NotBorrowed | Immutable _ _ | Mutable => true | _ => false end.

  (** `collapse_refs` (slice_ref.rs 531-620): [Some (Some present)] is a handle.  The id is taken out of the
      reference first, so a panic loses it.  The slow path, for redirections, counts as
      undefined behaviour here (Redirect.v models it); nothing ever stores a redirection. *)
  Definition collapse_refs (w : world) (r : nat) (id : option nat) (f : option bool -> world -> outcome * world)
    : outcome * world :=
    match id with
    | None => f None w
    | Some i =>
      let w1 := set_id w r None in
      lift w1 (rv_get (table_of w) i) (fun v =>
        match v with
        | SHandle p => f (Some p) w
        | SRemoved => lift w1 (rv_recycle (table_of w) i) (fun q => f None (set_table w1 (snd q)))
        | SRedirect _ => (OUB, w)
        end)
    end.

  (** `is_valid` (slice_ref.rs 637-645) *)
  Definition is_valid (w : world) (r : nat) (id : option nat) : outcome * world :=
    if table_readable w then collapse_refs w r id (fun h w1 => (OBool (match h with Some _ => true | None => false end), w1))
    else (OBool false, w).

  (** `can_borrow` (slice_ref.rs 656-661) *)
  Definition can_borrow (w : world) : outcome * world :=
    (OBool match borrow_of w with NotBorrowed | Immutable _ _ => true | _ => false end, w).

  (** `borrow_refs` (slice_ref.rs 494-518): [None] is `Err(_)`. *)
  Definition borrow_refs (w : world) : res (option world) :=
    match borrow_of w with
    | NotBorrowed => Ok (Some (set_borrow w (Immutable 1 false)))
    | Immutable c d => if c <? CMAX then Ok (Some (set_borrow w (Immutable (S c) d))) else Panic PArith
    | Mutable | Dropping | Dropped => Ok None
    end.

  (** `drop_borrow` (slice_ref.rs 1076-1102), with `InnerStore::drop(true)` (1141-1150) as `drop_fn`. *)
  Definition drop_borrow (w : world) : outcome * world :=
    match borrow_of w with
    | Immutable (S (S c)) d => (OUnit, set_borrow w (Immutable (S c) d))
    | Immutable 1 true => (OUnit, free_nodes (set_table (set_borrow w Dropped) rv_new))
    | Immutable 1 false => (OUnit, set_borrow w NotBorrowed)
    | _ => (OUB, w)
    end.

  (** `try_temporary_borrow` (slice_ref.rs 684-697), then `into_borrow` (901-920) when [keep] or else the drop of
      the `TemporaryBorrow` (928-948).  With [keep] this is `try_borrow_slice` (736-741), without `try_range`,
      `try_cursor`. *)
  Definition borrow_slice (w : world) (r : nat) (id : option nat) (keep : bool) : outcome * world :=
    lift w (borrow_refs w) (fun o =>
      match o with
      | None => (OBool false, w)
      | Some w1 =>
        collapse_refs w1 r id (fun h w2 =>
          match h with
          | Some false => (OPanic PAssert, w2)
          | Some true =>
            if keep then (OBool true, set_bors w2 (w_bors w2 ++ [BLive r]))
            else match drop_borrow w2 with (OUnit, w3) => (OBool true, w3) | p => p end
          | None => match drop_borrow w2 with (OUnit, w3) => (OBool false, w3) | p => p end
          end)
      end).

  (** `SliceRef::clone` (slice_ref.rs 845-864) *)
  Definition ref_clone (w : world) (r : nat) (id : option nat) : outcome * world :=
    let new w1 i := (OUnit, set_refs w1 (w_refs w1 ++ [RLive i])) in
    match id with
    | None => new w None
    | Some i =>
      let w1 := set_id w r None in
      if table_readable w then
        bump_weak w1 (fun w2 =>
        lift w2 (rv_clone CMAX (table_of w2) i) (fun p => new (set_table (set_id w2 r (Some i)) (snd p)) (Some (fst p))))
      else new w1 None
    end.

  (** `SliceRef::do_drop` (slice_ref.rs 973-993) *)
  Definition ref_drop (w : world) (r : nat) : outcome * world :=
    match weak_of w with
    | O => (OUB, w)
    | S n =>
      let w1 := set_refs (set_weak w n) (replace_at r RDead (w_refs w)) in
      (OUnit, match n, borrow_of w with O, Dropped => dealloc w1 | _, _ => w1 end)
    end.

  (** `Borrow::clone` (slice_ref.rs 1025-1045) *)
  Definition bor_clone (w : world) (r : nat) : outcome * world :=
    match borrow_of w with
    | Immutable c d =>
      if c <? CMAX then (OUnit, set_bors (set_borrow w (Immutable (S c) d)) (w_bors w ++ [BLive r]))
      else (OPanic PArith, w)
    | _ => (OPanic PUnreachable, w)
    end.

  (** ** Histories *)

  Inductive call : Type :=
  | NInsBegin | NIns (i : istep) | NInsEnd | NInsPanic (* an insertion: starts, works, returns or panics *)
  | NDropBegin | NDropEnd (* drop of the tree *)
  | NMake (k : nat) | NClone (r : nat) | NDrop (r : nat) | NForget (r : nat)
  | NIsValid (r : nat) | NCanBorrow (r : nat) | NBorrow (r : nat) | NRange (r : nat)
  | NBClone (b : nat) | NBDrop (b : nat) | NBForget (b : nat).

  (** A reference cannot be dropped (or moved) while a `Borrow` from it is alive (lifetime of [Borrow]). *)
  Definition borrowed_from (w : world) (r : nat) : bool :=
    existsb (fun b => match b with BLive r' => r' =? r | _ => false end) (w_bors w).
  (** No handle is suspended: what an insertion has achieved when it returns. *)
  Definition all_present (w : world) : bool :=
    forallb (fun e => match e with Value _ (SHandle false) => false | _ => true end) (rv_vals (table_of w)).

  (** One step.  [None]: the call does not type-check, or cannot come now (as the end of an insertion that did
      not begin).  An insertion whose work panics is over; the borrow stays [Mutable] (comment at slice_ref.rs
      285-294). *)
  Definition nstep (w : world) (o : call) : option (outcome * world) :=
    (* everything below reads the shared allocation *)
    let touch (p : outcome * world) := if w_alloc_freed w =? 0 then p else (OUB, w) in
    match o with
    | NInsBegin => match w_tree w with TIdle => Some (touch (acquire_mutable w)) | _ => None end
    | NIns i =>
      match w_tree w with
      | TInserting =>
        match insert_step w i with
        | None => None
        | Some (OPanic y, w1) => Some (touch (OPanic y, set_tree w1 TIdle))
        | Some p => Some (touch p)
        end
      | _ => None
      end
    | NInsEnd =>
      match w_tree w with
      | TInserting => if all_present w then Some (touch (release_mutable (set_tree w TIdle))) else None
      | _ => None
      end
    | NInsPanic => match w_tree w with TInserting => Some (OUnit, set_tree w TIdle) | _ => None end
    | NDropBegin => match w_tree w with TIdle => Some (touch (drop_begin w)) | _ => None end
    | NDropEnd => match w_tree w with TDropping => Some (touch (store_drop (set_tree w TGone))) | _ => None end
    | NMake k => match w_tree w with TIdle => option_map touch (make_ref w k) | _ => None end
    | NClone r => match ref_var w r with Some id => Some (touch (ref_clone w r id)) | None => None end
    | NDrop r =>
      match ref_var w r with
      | Some _ => if borrowed_from w r then None else Some (touch (ref_drop w r))
      | None => None
      end
    | NForget r =>
      match ref_var w r with
      | Some _ => if borrowed_from w r then None else Some (OUnit, set_refs w (replace_at r RForgot (w_refs w)))
      | None => None
      end
    | NIsValid r => match ref_var w r with Some id => Some (touch (is_valid w r id)) | None => None end
    | NCanBorrow r => match ref_var w r with Some _ => Some (touch (can_borrow w)) | None => None end
    | NBorrow r => match ref_var w r with Some id => Some (touch (borrow_slice w r id true)) | None => None end
    | NRange r => match ref_var w r with Some id => Some (touch (borrow_slice w r id false)) | None => None end
    | NBClone b => match bor_var w b with Some r => Some (touch (bor_clone w r)) | None => None end
    | NBDrop b =>
      match bor_var w b with
      | Some _ => Some (touch (drop_borrow (set_bors w (replace_at b BDead (w_bors w)))))
      | None => None
      end
    | NBForget b =>
      match bor_var w b with
      | Some _ => Some (OUnit, set_bors w (replace_at b BForgot (w_bors w)))
      | None => None
      end
    end.

  (** A history: what each call came to, and the final state.  It ends at undefined behaviour. *)
  Fixpoint nrun (w : world) (os : list call) : option (list outcome * world) :=
    match os with
    | [] => Some ([], w)
    | o :: os' =>
      match nstep w o with
      | None => None
      | Some (OUB, w1) => Some ([OUB], w1)
      | Some (out, w1) => match nrun w1 os' with Some (outs, w2) => Some (out :: outs, w2) | None => None end
      end
    end.

  (** ** What a client sees *)

  (** Borrows alive, or forgotten, which is as good as alive for ever. *)
  Definition is_open (b : bvar) : bool := match b with BDead => false | _ => true end.
  Definition open_borrows (w : world) : nat := length (filter is_open (w_bors w)).
  Definition live_borrows (w : world) : nat := length (filter (fun b => match b with BLive _ => true | _ => false end) (w_bors w)).
  Definition is_kept (r : rvar) : bool := match r with RDead => false | _ => true end.
  Definition kept_refs (w : world) : nat := length (filter is_kept (w_refs w)).

  (** Calls on references that panicked. *)
  Definition ref_call (o : call) : bool :=
    match o with NClone _ | NIsValid _ | NCanBorrow _ | NBorrow _ | NRange _ | NBClone _ | NMake _ => true | _ => false end.
  Fixpoint ref_panics (os : list call) (outs : list outcome) : nat :=
    match os, outs with
    | o :: os', OPanic _ :: outs' => (if ref_call o then 1 else 0) + ref_panics os' outs'
    | _ :: os', _ :: outs' => ref_panics os' outs'
    | _, _ => 0
    end.

  (** Insertions that panicked. *)
  Fixpoint insert_panics (os : list call) (outs : list outcome) : nat :=
    match os, outs with
    | NInsPanic :: os', _ :: outs' => S (insert_panics os' outs')
    | NIns _ :: os', OPanic _ :: outs' => S (insert_panics os' outs')
    | _ :: os', _ :: outs' => insert_panics os' outs'
    | _, _ => 0
    end.

  (** Every clone of a reference is made while the tree is alive. *)
  Definition in_time (w : world) (o : call) : bool :=
    match o, w_tree w with NClone _, (TDropping | TGone) => false | _, _ => true end.
  Fixpoint clones_in_time (w : world) (os : list call) : bool :=
    match os with
    | [] => true
    | o :: os' => in_time w o && match nstep w o with Some (_, w1) => clones_in_time w1 os' | None => true end
    end.
End RefState.
