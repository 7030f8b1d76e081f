(** The borrowing iterator on trees that share nodes (src/tree/iter.rs with `P::COW`): the head is a node
    pointer, and the way up is found by stored parents, corrected by a stack. *)
From Coq Require Import List ZArith Bool Arith.
From Verif Require Import Base Index Slice Tree Insert Range Iter LTree LInsert LRef LCow.
Import ListNotations.

Section CIter.
  Context {I S : Type} (X : index_ops I).
  Notation tree := (tree I S).
  Notation ptree := (ptree I S).

  (** The memory: what is at every address in use. *)
  Definition memory : Type := list (addr * (nat * tree * ltree)).
  Definition p_cells (t : ptree) : memory :=
    match pt_rle t with None => [] | Some r => cells (r_height r) (pt_nodes t) (r_node r) end.
  Definition w_cells (w : world I S) : memory :=
    flat_map (fun o => match o with Some t => p_cells t | None => [] end) (w_trees w).

  (** Following a pointer as a handle of height [h]: a pointer to no node dangles.  The height comes
      from the handle, not from the node; a node of height 0 has no children (src/tree/node.rs 435-592),
      so its use as an internal node is UB. *)
  Definition x_deref (m : memory) (h : nat) (a : addr) : res (tree * ltree) :=
    match find (fun c => fst c =? a) m with
    | Some (_, (h0, t, lt)) => if (h0 =? 0) && negb (h =? 0) then UB else Ok (t, lt)
    | None => UB
    end.

  (** `NodeHandle` and `SliceHandle` (src/tree/node.rs 95-109, 113-126): address, height, key. *)
  Record xhandle : Type := { x_addr : addr; x_height : nat; x_key : nat }.

  (** `IterStack` (src/tree/iter.rs 80-97); the stack has its top first. *)
  Record xstack : Type := { x_stack : list (addr * nat * nat); x_root : nat; x_head : xhandle; x_end : I }.

  (** `into_child` (src/tree/node.rs 2043-2088) of the node at [a] with height [h] + 1: the address of the
      child. *)
  Definition x_child (m : memory) (h : nat) (a : addr) (c : nat) : res addr :=
    let* (_, lt) := x_deref m (h + 1) a in
    let* ch := nth_ub (l_kids lt) c in
    match ch with LNil => UB | LNode b _ _ _ => Ok b end.
  (** `child.leaf().parent()` (src/tree/node.rs 2803-2811). *)
  Definition x_par (m : memory) (h : nat) (a : addr) : res (option loc) :=
    let* (_, lt) := x_deref m h a in Ok (l_par lt).

  (** The push (src/tree/iter.rs 358-368, 395-402, 487-494): [b], child [c] of [a], is compared with
      [node]. *)
  Definition x_push (m : memory) (node a : addr) (h c : nat) (b : addr) (stk : list (addr * nat * nat))
    : res (list (addr * nat * nat)) :=
    let* p := x_par m h b in
    Ok (match p with
        | Some l => if loc_eqb l (node, c) then stk else (a, h + 1, c) :: stk
        | None => stk
        end).

  (** `slice_size` at a handle. *)
  Definition x_size (m : memory) (x : xhandle) : res I :=
    let* (t, _) := x_deref m (x_height x) (x_addr x) in slice_size X (x_height x) t (x_key x).
  Definition x_slice (m : memory) (x : xhandle) : res S :=
    let* (t, _) := x_deref m (x_height x) (x_addr x) in slice_at t (x_key x).
  Definition x_len (m : memory) (h : nat) (a : addr) : res nat :=
    let* (t, _) := x_deref m h a in Ok (tlen t).

  (** `make_stack` (src/tree/iter.rs 258-376). *)
  Fixpoint x_make_stack (m : memory) (root h : nat) (a : addr) (hints : list nat) (head_pos target : I) (excluded : bool)
           (stk : list (addr * nat * nat)) : res xstack :=
    let* (t, _) := x_deref m h a in
    let* result := stack_pick X h t (hd_error hints) target excluded in
    match result with
    | CKey k kp =>
      let* sz := slice_size X h t k in
      let* p := ix_add_right X head_pos kp in
      let* e := ix_add_right X p sz in
      Ok {| x_stack := stk; x_root := root; x_head := {| x_addr := a; x_height := h; x_key := k |}; x_end := e |}
    | CChild c cp =>
      match h with
      | 0 => Panic PAssert
      | Datatypes.S h' =>
        let* b := x_child m h' a c in
        let* stk' := x_push m a a h' c b stk in
        let* target' := ix_sub_left X target cp in
        let* head_pos' := ix_add_right X head_pos cp in
        x_make_stack m root h' b (tl hints) head_pos' target' excluded stk'
      end
    end.

  (** Downward loop of `fwd_step` (src/tree/iter.rs 388-424) from `parent` = [a], of height [h] + 1.  [node]
      is the node at which the step started. *)
  Fixpoint x_fwd_down (m : memory) (node : addr) (h : nat) (a : addr) (c : nat) (stk : list (addr * nat * nat))
    : res (list (addr * nat * nat) * xhandle) :=
    let* b := x_child m h a c in
    let* stk' := x_push m node a h c b stk in
    match h with
    | 0 => let* n := x_len m 0 b in
           if n =? 0 then Panic PAssert else Ok (stk', {| x_addr := b; x_height := 0; x_key := 0 |})
    | Datatypes.S h' => x_fwd_down m node h' b 0 stk'
    end.

  (** Parent and child index for the way up (src/tree/iter.rs 435-457, 528-550); the new stack. *)
  Definition x_parent (m : memory) (root h : nat) (a : addr) (stk : list (addr * nat * nat))
    : res (addr * nat * list (addr * nat * nat)) :=
    let stored := if h =? root then Panic PAssert
                  else let* p := x_par m h a in
                       match p with Some (pa, c) => Ok (pa, c, stk) | None => Panic PAssert end in
    match stk with
    | (pa, ph, c) :: stk' => if ph =? h + 1 then Ok (pa, c, stk') else stored
    | [] => stored
    end.

  (** Upward loop of `fwd_step` (src/tree/iter.rs 433-471) from the child [a] of height [h].  [n] bounds the
      number of rounds: heights grow up to that of the root. *)
  Fixpoint x_fwd_up (n : nat) (m : memory) (root h : nat) (a : addr) (stk : list (addr * nat * nat))
    : res (list (addr * nat * nat) * xhandle) :=
    match n with
    | 0 => UB
    | Datatypes.S n' =>
      let* (pa, c, stk') := x_parent m root h a stk in
      let* len := x_len m (h + 1) pa in
      if c <? len then Ok (stk', {| x_addr := pa; x_height := h + 1; x_key := c |})
      else x_fwd_up n' m root (h + 1) pa stk'
    end.

  (** `fwd_step` (src/tree/iter.rs 384-473). *)
  Definition x_fwd_step (m : memory) (s : xstack) : res xstack :=
    let x := x_head s in
    let* (stk, x') :=
      match x_height x with
      | Datatypes.S h' => x_fwd_down m (x_addr x) h' (x_addr x) (x_key x + 1) (x_stack s)
      | 0 => let* len := x_len m 0 (x_addr x) in
             if x_key x + 1 <? len then Ok (x_stack s, {| x_addr := x_addr x; x_height := 0; x_key := x_key x + 1 |})
             else x_fwd_up (Datatypes.S (x_root s)) m (x_root s) 0 (x_addr x) (x_stack s)
      end in
    let* sz := x_size m x' in
    let* e := ix_add_right X (x_end s) sz in
    Ok {| x_stack := stk; x_root := x_root s; x_head := x'; x_end := e |}.

  (** Downward loop of `bkwd_step` (src/tree/iter.rs 479-513). *)
  Fixpoint x_bkwd_down (m : memory) (node : addr) (h : nat) (a : addr) (c : nat) (stk : list (addr * nat * nat))
    : res (list (addr * nat * nat) * xhandle) :=
    let* b := x_child m h a c in
    let* stk' := x_push m node a h c b stk in
    let* len := x_len m h b in
    match h with
    | 0 => match len with
           | 0 => Panic PAssert
           | Datatypes.S k => Ok (stk', {| x_addr := b; x_height := 0; x_key := k |})
           end
    | Datatypes.S h' => x_bkwd_down m node h' b len stk'
    end.

  (** Upward loop of `bkwd_step` (src/tree/iter.rs 523-564). *)
  Fixpoint x_bkwd_up (n : nat) (m : memory) (root h : nat) (a : addr) (stk : list (addr * nat * nat))
    : res (list (addr * nat * nat) * xhandle) :=
    match n with
    | 0 => UB
    | Datatypes.S n' =>
      let* (pa, c, stk') := x_parent m root h a stk in
      match c with
      | Datatypes.S k => Ok (stk', {| x_addr := pa; x_height := h + 1; x_key := k |})
      | 0 => x_bkwd_up n' m root (h + 1) pa stk'
      end
    end.

  (** `bkwd_step` (src/tree/iter.rs 475-567). *)
  Definition x_bkwd_step (m : memory) (s : xstack) : res xstack :=
    let x := x_head s in
    let* (stk, x') :=
      match x_height x with
      | Datatypes.S h' => x_bkwd_down m (x_addr x) h' (x_addr x) (x_key x) (x_stack s)
      | 0 => match x_key x with
             | Datatypes.S k => Ok (x_stack s, {| x_addr := x_addr x; x_height := 0; x_key := k |})
             | 0 => x_bkwd_up (Datatypes.S (x_root s)) m (x_root s) 0 (x_addr x) (x_stack s)
             end
      end in
    let* sz := x_size m x in
    let* e := ix_sub_right X (x_end s) sz in
    Ok {| x_stack := stk; x_root := x_root s; x_head := x'; x_end := e |}.

  (** `==` on slice handles (src/tree/node.rs 218-226): `NodeHandle`s are compared by pointer (201-209). *)
  Definition x_eqb (x y : xhandle) : bool := (x_addr x =? x_addr y) && (x_key x =? x_key y).

  (** `Iter` (src/tree/iter.rs 30-37, 69-78) with its root. *)
  Record xstate : Type := { xs_cursor : list nat; xs_fwd : option xstack; xs_bkwd : option xstack }.
  Record xiter : Type := {
    xi_start : I; xi_end : I; xi_excl : bool; xi_addr : addr; xi_height : nat; xi_state : option xstate;
  }.
  Definition x_ended (it : xiter) : xiter :=
    {| xi_start := xi_start it; xi_end := xi_end it; xi_excl := xi_excl it; xi_addr := xi_addr it;
       xi_height := xi_height it; xi_state := None |}.
  Definition x_with (it : xiter) (s : xstate) : xiter :=
    {| xi_start := xi_start it; xi_end := xi_end it; xi_excl := xi_excl it; xi_addr := xi_addr it;
       xi_height := xi_height it; xi_state := Some s |}.

  (** `Iter::new` (src/tree/iter.rs 199-256): checks as in Iter.v. *)
  Definition x_iter_new (t : ptree) (hints : list nat) (sb : sbound I) (eb : ebound I) : res xiter :=
    let* it := iter_new X (pt_rle t) hints sb eb in
    let st := match it_state it with
              | None => None
              | Some s => Some {| xs_cursor := s_cursor s; xs_fwd := None; xs_bkwd := None |}
              end in
    match pt_rle t, pt_nodes t with
    | Some r, LNode a _ _ _ =>
      Ok {| xi_start := it_start it; xi_end := it_end it; xi_excl := it_excl it; xi_addr := a; xi_height := r_height r; xi_state := st |}
    | Some _, LNil => UB
    | None, _ =>
      Ok {| xi_start := it_start it; xi_end := it_end it; xi_excl := it_excl it; xi_addr := 0; xi_height := 0; xi_state := None |}
    end.

  (** `Iterator::next` (src/tree/iter.rs 579-632). *)
  Definition x_next (m : memory) (it : xiter) : res (option (I * I * S) * xiter) :=
    match xi_state it with
    | None => Ok (None, it)
    | Some st =>
      let* step :=
        match xs_fwd st with
        | Some fwd =>
          let next_start := x_end fwd in
          if (if xi_excl it then ix_leb X (xi_end it) next_start else ix_ltb X (xi_end it) next_start)
          then Ok None
          else let* fwd' := x_fwd_step m fwd in Ok (Some (fwd', next_start, xs_cursor st))
        | None =>
          let* s := x_make_stack m (xi_height it) (xi_height it) (xi_addr it) (xs_cursor st) (ix_zero X) (xi_start it) false [] in
          let* sz := x_size m (x_head s) in
          let* next_start := ix_sub_right X (x_end s) sz in
          Ok (Some (s, next_start, []))
        end in
      match step with
      | None => Ok (None, x_ended it)
      | Some (fwd, next_start, cur) =>
        if match xs_bkwd st with Some b => x_eqb (x_head b) (x_head fwd) | None => false end
        then Ok (None, x_ended it)
        else
          let* s := x_slice m (x_head fwd) in
          Ok (Some (next_start, x_end fwd, s),
              x_with it {| xs_cursor := cur; xs_fwd := Some fwd; xs_bkwd := xs_bkwd st |})
      end
    end.

  (** `DoubleEndedIterator::next_back` (src/tree/iter.rs 642-677). *)
  Definition x_next_back (m : memory) (it : xiter) : res (option (I * I * S) * xiter) :=
    match xi_state it with
    | None => Ok (None, it)
    | Some st =>
      let* step :=
        match xs_bkwd st with
        | Some bkwd =>
          let* sz := x_size m (x_head bkwd) in
          let* next_end := ix_sub_right X (x_end bkwd) sz in
          if ix_leb X next_end (xi_start it) then Ok None
          else let* b' := x_bkwd_step m bkwd in Ok (Some (b', xs_cursor st))
        | None =>
          let* s := x_make_stack m (xi_height it) (xi_height it) (xi_addr it) (xs_cursor st) (ix_zero X) (xi_end it) (xi_excl it) [] in
          Ok (Some (s, []))
        end in
      match step with
      | None => Ok (None, x_ended it)
      | Some (bkwd, cur) =>
        if match xs_fwd st with Some f => x_eqb (x_head f) (x_head bkwd) | None => false end
        then Ok (None, x_ended it)
        else
          let* sz := x_size m (x_head bkwd) in
          let* start := ix_sub_right X (x_end bkwd) sz in
          let* s := x_slice m (x_head bkwd) in
          Ok (Some (start, x_end bkwd, s),
              x_with it {| xs_cursor := cur; xs_fwd := xs_fwd st; xs_bkwd := Some bkwd |})
      end
    end.

  (** Any sequence of calls, [true] for `next_back`: the items returned, in call order. *)
  Fixpoint x_calls (m : memory) (it : xiter) (calls : list bool) : res (list (option (I * I * S))) :=
    match calls with
    | [] => Ok []
    | b :: calls' =>
      let* (o, it') := (if b then x_next_back m it else x_next m it) in
      let* os := x_calls m it' calls' in
      Ok (o :: os)
    end.

  (** `iter(range)` (src/tree/mod.rs 578-614) on tree [j] of a world, and calls on the iterator. *)
  Definition w_iter (w : world I S) (j : nat) (hints : list nat) (sb : sbound I) (eb : ebound I) (calls : list bool)
    : res (list (option (I * I * S))) :=
    match nth_error (w_trees w) j with
    | Some (Some t) => let* it := x_iter_new t hints sb eb in x_calls (w_cells w) it calls
    | _ => UB
    end.
End CIter.
