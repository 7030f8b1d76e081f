(** The borrowing iterator (src/tree/iter.rs), for trees without copy-on-write. *)
From Coq Require Import List ZArith Bool Arith.
From Verif Require Import Base Index Slice Tree Insert Range.
Import ListNotations.

Section Iter.
  Context {I S : Type} (X : index_ops I).
  Notation tree := (tree I S).
  Notation rle := (@rle I S).

  (** `IterStack` (src/tree/iter.rs 80-97).  The head is a key handle: path of its node and key
      index.  `stack` is only used with COW enabled. *)
  Record istack : Type := { k_head : handle; k_end : I }.

  (** `IterState` (src/tree/iter.rs 69-79); the cursor is its remaining path (no cursor: []). *)
  Record istate : Type := { s_cursor : list nat; s_fwd : option istack; s_bkwd : option istack }.

  (** `Iter` (src/tree/iter.rs 30-37); [it_excl] tells whether the end bound is excluded. *)
  Record iter : Type := { it_start : I; it_end : I; it_excl : bool; it_state : option istate }.

  (** `Iter::new` (src/tree/iter.rs 199-256) as called from `iter_with_cursor`
      (src/tree/mod.rs 604-614). *)
  Definition iter_new (r : rle) (hints : list nat) (sb : sbound I) (eb : ebound I) : res iter :=
    let* tree_size := rle_size X r in
    let start := match sb with SIncl i => i | SUnb => ix_zero X end in
    let (e, excl) := match eb with
                     | EIncl i => (i, false)
                     | EExcl i => (i, true)
                     | EUnb => (tree_size, true)
                     end in
    let strict_end := if excl then EExcl e else EIncl e in
    if starts_after_end X (sb, eb) then Panic PRange
    else if ix_ltb X start (ix_zero X) then Panic PRange
    else if match sb with SIncl i => ix_leb X tree_size i | SUnb => false end
            || overlaps_naive X (SUnb, strict_end) (SIncl tree_size, EUnb) then Panic PRange
    else
      let empty := is_empty_naive X (SIncl start, strict_end) in
      Ok {| it_start := start; it_end := e; it_excl := excl;
            it_state := match r with
                        | None => None
                        | Some _ => if empty then None
                                    else Some {| s_cursor := hints; s_fwd := None; s_bkwd := None |}
                        end |}.

  (** The step of `make_stack` at one node (src/tree/iter.rs 276-336): the key or child to use.  A
      panic with PAssert is `panic_internal_error_or_bad_index`. *)
  Definition stack_pick (h : nat) (t : tree) (hint : option nat) (target : I) (excluded : bool) : res (cok I) :=
    let* total := tsize t in
      if negb (ix_eqb X target total) then
        let* r := search_step X h t hint target in
        match r with
        | CKey k kp =>
          if excluded && ix_eqb X kp target then
            match h with
            | 0 => match k with
                   | 0 => Panic PAssert
                   | Datatypes.S k' => let* q := key_pos t k' in Ok (CKey k' q)
                   end
            | Datatypes.S _ => let* cs := child_size t k in
                               let* cp := ix_sub_right X kp cs in Ok (CChild k cp)
            end
          else Ok r
        | CChild c cp =>
          if excluded && ix_eqb X cp target then
            match c with
            | 0 => Panic PAssert
            | Datatypes.S k => let* q := key_pos t k in Ok (CKey k q)
            end
          else Ok r
        end
      else
        match h with
        | 0 => match tlen t with
               | 0 => Panic PArith
               | Datatypes.S i => let* q := key_pos t i in Ok (CKey i q)
               end
        | Datatypes.S _ =>
          let c := tlen t in
          let* cs := child_size t c in
          let* nk := key_pos_or_end t c in
          let* cp := ix_sub_right X nk cs in
          Ok (CChild c cp)
        end.

  (** Loop of `make_stack` (src/tree/iter.rs 258-376); [p] is the path walked so far. *)
  Fixpoint make_stack (h : nat) (t : tree) (p hints : list nat) (head_pos target : I) (excluded : bool)
    : res istack :=
    let* result := stack_pick h t (hd_error hints) target excluded in
    match result with
    | CKey k kp =>
      let* sz := slice_size X h t k in
      let* a := ix_add_right X head_pos kp in
      let* e := ix_add_right X a sz in
      Ok {| k_head := (p, k); k_end := e |}
    | CChild c cp =>
      match h with
      | 0 => Panic PAssert
      | Datatypes.S h' =>
        let* ch := child t c in
        let* target' := ix_sub_left X target cp in
        let* head_pos' := ix_add_right X head_pos cp in
        make_stack h' ch (p ++ [c]) (tl hints) head_pos' target' excluded
      end
    end.

  (** Downward loop of `fwd_step` (src/tree/iter.rs 388-424): child [c] of the node [t] of height
      [S h] at path [p], then always the first child. *)
  Fixpoint fwd_down (h : nat) (t : tree) (p : list nat) (c : nat) : res handle :=
    let* ch := child t c in
    match h with
    | 0 => if tlen ch =? 0 then Panic PAssert else Ok (p ++ [c], 0)
    | Datatypes.S h' => fwd_down h' ch (p ++ [c]) 0
    end.

  (** Upward loop of `fwd_step` (src/tree/iter.rs 433-471), over the reversed path. *)
  Fixpoint fwd_up (root : tree) (rp : list nat) : res handle :=
    match rp with
    | [] => Panic PAssert
    | c :: rp' =>
      let* par := node_at root (rev rp') in
      if c <? tlen par then Ok (rev rp', c) else fwd_up root rp'
    end.

  Definition fwd_head (H : nat) (root : tree) (a : handle) : res handle :=
    let (p, k) := a in
    let* n := node_at root p in
    match H - length p with
    | Datatypes.S h' => fwd_down h' n p (k + 1)
    | 0 => if k + 1 <? tlen n then Ok (p, k + 1) else fwd_up root (rev p)
    end.

  (** `fwd_step` (src/tree/iter.rs 384-473). *)
  Definition fwd_step (H : nat) (root : tree) (s : istack) : res istack :=
    let* a := fwd_head H root (k_head s) in
    let* sz := handle_size X H root a in
    let* e := ix_add_right X (k_end s) sz in
    Ok {| k_head := a; k_end := e |}.

  (** Downward loop of `bkwd_step` (src/tree/iter.rs 479-513). *)
  Fixpoint bkwd_down (h : nat) (t : tree) (p : list nat) (c : nat) : res handle :=
    let* ch := child t c in
    match h with
    | 0 => match tlen ch with 0 => Panic PAssert | Datatypes.S k => Ok (p ++ [c], k) end
    | Datatypes.S h' => bkwd_down h' ch (p ++ [c]) (tlen ch)
    end.

  (** Upward loop of `bkwd_step` (src/tree/iter.rs 523-564). *)
  Fixpoint bkwd_up (root : tree) (rp : list nat) : res handle :=
    match rp with
    | [] => Panic PAssert
    | c :: rp' =>
      match c with
      | Datatypes.S k => Ok (rev rp', k)
      | 0 => bkwd_up root rp'
      end
    end.

  Definition bkwd_head (H : nat) (root : tree) (a : handle) : res handle :=
    let (p, k) := a in
    let* n := node_at root p in
    match H - length p with
    | Datatypes.S h' => bkwd_down h' n p k
    | 0 => match k with Datatypes.S k' => Ok (p, k') | 0 => bkwd_up root (rev p) end
    end.

  (** `bkwd_step` (src/tree/iter.rs 475-567). *)
  Definition bkwd_step (H : nat) (root : tree) (s : istack) : res istack :=
    let* a := bkwd_head H root (k_head s) in
    let* sz := handle_size X H root (k_head s) in
    let* e := ix_sub_right X (k_end s) sz in
    Ok {| k_head := a; k_end := e |}.

  (** `==` on slice handles: same node and key index. *)
  Definition handle_eqb (a b : handle) : bool :=
    if list_eq_dec Nat.eq_dec (fst a) (fst b) then snd a =? snd b else false.

  Definition ended (it : iter) : iter :=
    {| it_start := it_start it; it_end := it_end it; it_excl := it_excl it; it_state := None |}.

  Definition with_state (it : iter) (s : istate) : iter :=
    {| it_start := it_start it; it_end := it_end it; it_excl := it_excl it; it_state := Some s |}.

  (** An item: range start, range end and slice of a `SliceEntry` (src/tree/entry.rs 20-30). *)
  Definition item : Type := I * I * S.

  (** `Iterator::next` (src/tree/iter.rs 579-632). *)
  Definition iter_next (r : @root I S) (it : iter) : res (option item * iter) :=
    match it_state it with
    | None => Ok (None, it)
    | Some st =>
      let* step :=
        match s_fwd st with
        | Some fwd =>
          let next_start := k_end fwd in
          if (if it_excl it then ix_leb X (it_end it) next_start else ix_ltb X (it_end it) next_start)
          then Ok None
          else let* fwd' := fwd_step (r_height r) (r_node r) fwd in Ok (Some (fwd', next_start, s_cursor st))
        | None =>
          let* s := make_stack (r_height r) (r_node r) [] (s_cursor st) (ix_zero X) (it_start it) false in
          let* sz := handle_size X (r_height r) (r_node r) (k_head s) in
          let* next_start := ix_sub_right X (k_end s) sz in
          Ok (Some (s, next_start, []))
        end in
      match step with
      | None => Ok (None, ended it)
      | Some (fwd, next_start, cur) =>
        if match s_bkwd st with Some b => handle_eqb (k_head b) (k_head fwd) | None => false end
        then Ok (None, ended it)
        else
          let* s := handle_slice (r_node r) (k_head fwd) in
          Ok (Some (next_start, k_end fwd, s),
              with_state it {| s_cursor := cur; s_fwd := Some fwd; s_bkwd := s_bkwd st |})
      end
    end.

  (** `DoubleEndedIterator::next_back` (src/tree/iter.rs 642-677). *)
  Definition iter_next_back (r : @root I S) (it : iter) : res (option item * iter) :=
    match it_state it with
    | None => Ok (None, it)
    | Some st =>
      let* step :=
        match s_bkwd st with
        | Some bkwd =>
          let* sz := handle_size X (r_height r) (r_node r) (k_head bkwd) in
          let* next_end := ix_sub_right X (k_end bkwd) sz in
          if ix_leb X next_end (it_start it) then Ok None
          else let* b' := bkwd_step (r_height r) (r_node r) bkwd in Ok (Some (b', s_cursor st))
        | None =>
          let* s := make_stack (r_height r) (r_node r) [] (s_cursor st) (ix_zero X) (it_end it) (it_excl it) in
          Ok (Some (s, []))
        end in
      match step with
      | None => Ok (None, ended it)
      | Some (bkwd, cur) =>
        if match s_fwd st with Some f => handle_eqb (k_head f) (k_head bkwd) | None => false end
        then Ok (None, ended it)
        else
          let* sz := handle_size X (r_height r) (r_node r) (k_head bkwd) in
          let* start := ix_sub_right X (k_end bkwd) sz in
          let* s := handle_slice (r_node r) (k_head bkwd) in
          Ok (Some (start, k_end bkwd, s),
              with_state it {| s_cursor := cur; s_fwd := s_fwd st; s_bkwd := Some bkwd |})
      end
    end.

  (** A step of the iterator of a tree; the iterator of an empty tree has no state
      (`state: root.map(..)`, src/tree/iter.rs 246-255). *)
  Definition iter_step (r : rle) (back : bool) (it : iter) : res (option item * iter) :=
    match r with
    | None => match it_state it with None => Ok (None, it) | Some _ => UB end
    | Some r => if back then iter_next_back r it else iter_next r it
    end.

  (** Any sequence of calls, [true] for `next_back`: the items returned, in call order. *)
  Fixpoint iter_calls (r : rle) (it : iter) (calls : list bool) : res (list (option item) * iter) :=
    match calls with
    | [] => Ok ([], it)
    | b :: calls' =>
      let* (o, it') := iter_step r b it in
      let* (os, it'') := iter_calls r it' calls' in
      Ok (o :: os, it'')
    end.

  (** `iter(range)` followed by a loop over `next` until it returns `None`, for at most [fuel] items
      (the loop `for entry in tree.iter(range)`).  Running out of fuel is an error. *)
  Fixpoint collect (fuel : nat) (r : rle) (it : iter) : res (list item) :=
    match fuel with
    | 0 => UB
    | Datatypes.S f =>
      let* (o, it') := iter_step r false it in
      match o with
      | None => Ok []
      | Some x => let* xs := collect f r it' in Ok (x :: xs)
      end
    end.

  Definition iter_collect (r : rle) (hints : list nat) (sb : sbound I) (eb : ebound I) : res (list item) :=
    let* it := iter_new r hints sb eb in collect (Datatypes.S (rle_len r)) r it.
End Iter.
