(** Slices moved out of a node while user code runs, and what is left if it panics (src/tree/node.rs). *)
From Coq Require Import List Arith Bool.
From Verif Require Import Base.
Import ListNotations.

Section Holes.
  Context {V : Type} (MAXLEN : nat).

  (** An element of `vals` (node.rs 543-549): a slice, or the bytes of one that was moved out. *)
  Inductive cell : Type := Here (v : V) | Gone.

  (** The parts of `Leaf` (node.rs 435-573) that concern holes.  `holes` holds indexes plus one, as non-zero bytes;
      here the index itself. *)
  Record hnode : Type := { hn_cells : list cell; hn_holes : option nat * option nat }.

  Definition hlen (n : hnode) : nat := length (hn_cells n).

  (** `has_holes` (node.rs 2712-2717) *)
  Definition has_holes (n : hnode) : bool := match snd (hn_holes n) with Some _ => true | None => false end.

  Definition is_at (k : nat) (o : option nat) : bool := match o with Some h => h =? k | None => false end.

  (** `is_hole` (node.rs 2724-2744): both `hole_x` and `hole_y` are read from `holes[0]`. *)
  Definition is_hole (n : hnode) (k : nat) : bool := is_at k (fst (hn_holes n)) || is_at k (fst (hn_holes n)).

  Definition cell_at (n : hnode) (k : nat) : res cell := nth_ub (hn_cells n) k.

  (** Use of a slice as one: undefined behaviour if it was moved out. *)
  Definition value (c : cell) : res V := match c with Here v => Ok v | Gone => UB end.

  (** `into_ref` (node.rs 2983-2996) and `borrow_slice` (3106-3121): [fst] is what the caller sees. *)
  Definition read (n : hnode) (k : nat) : res V :=
    if is_hole n k then Panic PInvalid else let* c := cell_at n k in value c.

  (** `take_value_and_leave_hole` (node.rs 3014-3048) *)
  Definition take (n : hnode) (k : nat) : res (V * hnode) :=
    let* h :=
      match hn_holes n with
      | (None, None) => Ok (None, Some k)
      | (None, Some y) =>
        match Nat.compare y k with
        | Lt => Ok (Some y, Some k)
        | Gt => Ok (Some k, Some y)
        | Eq => Panic PInvalid
        end
      | (Some _, None) => UB
      | (Some _, Some _) => Panic PInvalid
      end in
    let* c := cell_at n k in
    let* v := value c in
    Ok (v, {| hn_cells := replace_at k Gone (hn_cells n); hn_holes := h |}).

  (** `fill_hole` (node.rs 3057-3077) *)
  Definition fill (n : hnode) (k : nat) (v : V) : res hnode :=
    let (x, y) := hn_holes n in
    let* h := if is_at k y then Ok (None, x) else if is_at k x then Ok (None, y) else Panic PInvalid in
    Ok {| hn_cells := replace_at k (Here v) (hn_cells n); hn_holes := h |}.

  (** `insert_key` (node.rs 2152-2208), `insert_key_and_child` (2453-2572), `push_key` (2223-2269),
      `push_key_and_child` (2361-2425): the values are shifted, the holes are not. *)
  Definition insert_val (n : hnode) (k : nat) (v : V) : res hnode :=
    if (hlen n <? k) || (MAXLEN <=? hlen n) then UB
    else Ok {| hn_cells := insert_at k (Here v) (hn_cells n); hn_holes := hn_holes n |}.
  Definition push_val (n : hnode) (v : V) : res hnode :=
    if MAXLEN <=? hlen n then UB else Ok {| hn_cells := hn_cells n ++ [Here v]; hn_holes := hn_holes n |}.

  (** `split` (node.rs 1372-1569): this node, the slice at the midpoint, the new node. *)
  Definition split_vals (n : hnode) (m : nat) : res (hnode * V * hnode) :=
    if has_holes n then Panic PInvalid
    else
      let* c := cell_at n m in
      let* v := value c in
      Ok ({| hn_cells := firstn m (hn_cells n); hn_holes := hn_holes n |}, v,
          {| hn_cells := skipn (m + 1) (hn_cells n); hn_holes := (None, None) |}).

  (** `shallow_clone` (node.rs 1012-1087) and `deep_clone` (1117-1220) clone each slice, after a test. *)
  Definition clone_vals (n : hnode) : res hnode :=
    if has_holes n then Panic PInvalid
    else let* vs := mapM value (hn_cells n) in Ok {| hn_cells := map Here vs; hn_holes := (None, None) |}.

  (** `do_drop` (node.rs 1846-1892): the slices that are dropped, in order. *)
  Definition drop_vals (n : hnode) : res (list V) :=
    match hn_holes n with
    | (None, None) => mapM value (hn_cells n)
    | (None, Some h) =>
      if hlen n <=? h then UB
      else mapM value (firstn h (hn_cells n) ++ skipn (h + 1) (hn_cells n))
    | (Some _, None) => UB
    | (Some x, Some y) =>
      if (y <=? x) || (hlen n <=? y) then UB
      else mapM value (firstn x (hn_cells n) ++ skipn (x + 1) (firstn y (hn_cells n)) ++ skipn (y + 1) (hn_cells n))
    end.

  (** ** Histories of one node *)

  (** What an insertion, or a reader, does to the slices of a node.  [UPanic k]: `with_slice` (3085-3090) or the
      attempts to join (insert.rs 567, 707, 723, 739, 755), with user code that panics.  [UReplace k v]: user code
      that returns.  [U2 k1 k2 r]: both neighbours taken (insert.rs 739-803), the second call of user code panics
      ([None]), or gives slices to put back.  [UTodo k1 k2 v]: the second call joins, and `todo!()` follows
      (insert.rs 766-789, 976).  [USplit m lft]: a split, looking at one of the halves from then on. *)
  Inductive hop : Type :=
  | UPanic (k : nat) | UReplace (k : nat) (v : V) | U2 (k1 k2 : nat) (r : option (V * V)) | UTodo (k1 k2 : nat) (v : V)
  | UInsert (k : nat) (v : V) | UPush (v : V) | USplit (m : nat) (lft : bool) | UClone | URead (k : nat).

  Inductive hout : Type := HUnit | HVal (v : V) | HPanic | HUB.

  Definition hlift {A} (n : hnode) (r : res A) (f : A -> hout * hnode) : hout * hnode :=
    match r with Ok a => f a | Panic _ => (HPanic, n) | UB => (HUB, n) end.

  (** Which keys a call needs; handles always point at keys that exist. *)
  Definition needs (n : hnode) (o : hop) : bool :=
    match o with
    | UPanic k | UReplace k _ | URead k | USplit k _ => k <? hlen n
    | U2 k1 k2 _ | UTodo k1 k2 _ => (k1 <? hlen n) && (k2 <? hlen n) && negb (k1 =? k2)
    | UInsert k _ => (k <=? hlen n) && (hlen n <? MAXLEN)
    | UPush _ => hlen n <? MAXLEN
    | UClone => true
    end.

  Definition hstep (n : hnode) (o : hop) : hout * hnode :=
    match o with
    | UPanic k => hlift n (take n k) (fun p => (HPanic, snd p))
    | UReplace k v => hlift n (take n k) (fun p => hlift (snd p) (fill (snd p) k v) (fun n' => (HUnit, n')))
    | U2 k1 k2 r =>
      hlift n (take n k1) (fun p =>
      hlift (snd p) (take (snd p) k2) (fun q =>
      match r with
      | None => (HPanic, snd q)
      | Some (v1, v2) =>
        hlift (snd q) (fill (snd q) k2 v2) (fun n2 => hlift n2 (fill n2 k1 v1) (fun n3 => (HUnit, n3)))
      end))
    | UTodo k1 k2 v =>
      hlift n (take n k1) (fun p =>
      hlift (snd p) (take (snd p) k2) (fun q => hlift (snd q) (fill (snd q) k1 v) (fun n2 => (HPanic, n2))))
    | UInsert k v => hlift n (insert_val n k v) (fun n' => (HUnit, n'))
    | UPush v => hlift n (push_val n v) (fun n' => (HUnit, n'))
    | USplit m lft => hlift n (split_vals n m) (fun p => (HUnit, if lft then fst (fst p) else snd p))
    | UClone => hlift n (clone_vals n) (fun _ => (HUnit, n))
    | URead k => hlift n (read n k) (fun v => (HVal v, n))
    end.

  (** A history; panics are caught and it goes on, undefined behaviour ends it. *)
  Fixpoint hrun (n : hnode) (os : list hop) : option (list hout * hnode) :=
    match os with
    | [] => Some ([], n)
    | o :: os' =>
      if needs n o then
        match hstep n o with
        | (HUB, n') => Some ([HUB], n')
        | (out, n') => match hrun n' os' with Some (outs, n2) => Some (out :: outs, n2) | None => None end
        end
      else None
    end.

  Definition fresh (vs : list V) : hnode := {| hn_cells := map Here vs; hn_holes := (None, None) |}.

  (** ** What is really there *)

  Definition is_gone (n : hnode) (k : nat) : Prop := nth_error (hn_cells n) k = Some Gone.
  Definition present (n : hnode) : list V := flat_map (fun c => match c with Here v => [v] | Gone => [] end) (hn_cells n).

  (** No key was put in front of a moved-out slice. *)
  Definition in_place (n : hnode) (o : hop) : Prop :=
    match o with UInsert k _ => forall j, k <= j -> ~ is_gone n j | _ => True end.
  (** No moved-out slice was looked at. *)
  Definition looks_away (n : hnode) (o : hop) : Prop := match o with URead k => ~ is_gone n k | _ => True end.
  Fixpoint always (P : hnode -> hop -> Prop) (n : hnode) (os : list hop) : Prop :=
    match os with
    | [] => True
    | o :: os' => P n o /\ always P (snd (hstep n o)) os'
    end.
End Holes.
Arguments cell : clear implicits.
Arguments hnode : clear implicits.
Arguments hop : clear implicits.
Arguments hout : clear implicits.
