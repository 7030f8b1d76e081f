(** `RecycleVec<T>` (src/recycle.rs). *)
From Coq Require Import List Arith Bool.
From Verif Require Import Base.
Import ListNotations.

Section Recycle.
  Context {T : Type}.
  (** `usize::MAX`, the largest reference count. *)
  Variable CMAX : nat.

  (** `Entry` and `Value` (src/recycle.rs 54-62).  An id is the index in `vals` ([EntryId] and [LinkId]
      store the index plus one only to save space, 15-28, 47-51). *)
  Inductive entry : Type :=
  | Link (next : option nat)
  | Value (count : nat) (v : T).
  Record rvec : Type := { rv_vals : list entry; rv_head : option nat }.

  (** src/recycle.rs 63-67 *)
  Definition rv_new : rvec := {| rv_vals := []; rv_head := None |}.

  (** `push` (131-148), with `next_link` (213-219).  A `LinkId` of an entry that is no link is undefined
      behaviour; an index out of bounds panics.  That `len + 1` wraps to zero is left out (a `Vec` never has
      usize::MAX elements). *)
  Definition rv_push (r : rvec) (v : T) : res (nat * rvec) :=
    match rv_head r with
    | Some id =>
      match nth_error (rv_vals r) id with
      | Some (Link next) => Ok (id, {| rv_vals := replace_at id (Value 1 v) (rv_vals r); rv_head := next |})
      | Some (Value _ _) => UB
      | None => Panic PAssert
      end
    | None => Ok (length (rv_vals r), {| rv_vals := rv_vals r ++ [Value 1 v]; rv_head := None |})
    end.

  (** `recycle` (152-180). *)
  Definition rv_recycle (r : rvec) (id : nat) : res (option T * rvec) :=
    match nth_error (rv_vals r) id with
    | None => Panic PAssert
    | Some (Link _) => UB
    | Some (Value c v) =>
      match c with
      | O => UB (* a NonZeroUsize *)
      | S O => Ok (Some v, {| rv_vals := replace_at id (Link (rv_head r)) (rv_vals r); rv_head := Some id |})
      | S c' => Ok (None, {| rv_vals := replace_at id (Value c' v) (rv_vals r); rv_head := rv_head r |})
      end
    end.

  (** `clone` (183-192): panics when the count overflows. *)
  Definition rv_clone (r : rvec) (id : nat) : res (nat * rvec) :=
    match nth_error (rv_vals r) id with
    | None => Panic PAssert
    | Some (Link _) => UB
    | Some (Value c v) =>
      if c <? CMAX then Ok (id, {| rv_vals := replace_at id (Value (S c) v) (rv_vals r); rv_head := rv_head r |})
      else Panic PArith
    end.

  (** `get` (195-201). *)
  Definition rv_get (r : rvec) (id : nat) : res T :=
    match nth_error (rv_vals r) id with
    | None => Panic PAssert
    | Some (Link _) => UB
    | Some (Value _ v) => Ok v
    end.

  (** `replace` (204-210). *)
  Definition rv_replace (r : rvec) (id : nat) (v : T) : res (T * rvec) :=
    match nth_error (rv_vals r) id with
    | None => Panic PAssert
    | Some (Link _) => UB
    | Some (Value c v0) => Ok (v0, {| rv_vals := replace_at id (Value c v) (rv_vals r); rv_head := rv_head r |})
    end.

  (** ** Histories *)

  (** A client holds ids in numbered variables: the k-th push or clone of the history fills variable k.
      `recycle` takes the id by value, so its variable is dead afterwards; that is the only discipline. *)
  Inductive rop : Type :=
  | RPush (v : T) | RClone (h : nat) | RRecycle (h : nat) | RGet (h : nat) | RReplace (h : nat) (v : T).
  (** What a call returns, ids left out. *)
  Inductive rout : Type := OId | OTaken (v : option T) | OVal (v : T).

  (** The client's variables: [Some id] while alive. *)
  Definition vars : Type := list (option nat).
  Definition var (hs : vars) (h : nat) : option nat := match nth_error hs h with Some (Some id) => Some id | _ => None end.

  (** One call.  A call on a dead variable does not type-check in Rust: such histories are cut off by
      [None]. *)
  Definition rv_step (st : rvec * vars) (o : rop) : option (res (rout * (rvec * vars))) :=
    let (r, hs) := st in
    match o with
    | RPush v => Some (let* (id, r') := rv_push r v in Ok (OId, (r', hs ++ [Some id])))
    | RClone h =>
      match var hs h with
      | None => None
      | Some id => Some (let* (id', r') := rv_clone r id in Ok (OId, (r', hs ++ [Some id'])))
      end
    | RRecycle h =>
      match var hs h with
      | None => None
      | Some id => Some (let* (o, r') := rv_recycle r id in Ok (OTaken o, (r', replace_at h None hs)))
      end
    | RGet h =>
      match var hs h with
      | None => None
      | Some id => Some (let* v := rv_get r id in Ok (OVal v, (r, hs)))
      end
    | RReplace h v =>
      match var hs h with
      | None => None
      | Some id => Some (let* (v0, r') := rv_replace r id v in Ok (OVal v0, (r', hs)))
      end
    end.

  Fixpoint rv_run (st : rvec * vars) (ops : list rop) : option (res (list rout * (rvec * vars))) :=
    match ops with
    | [] => Some (Ok ([], st))
    | o :: ops' =>
      match rv_step st o with
      | None => None
      | Some (Ok (out, st')) =>
        match rv_run st' ops' with
        | None => None
        | Some r => Some (let* (outs, st2) := r in Ok (out :: outs, st2))
        end
      | Some (Panic w) => Some (Panic w)
      | Some UB => Some UB
      end
    end.

  (** ** Specification

      Every push makes a new cell, never reused; variables name cells.  Cells are kept in push order with
      their current value. *)
  Definition spec_state : Type := list T * vars.

  (** Number of live variables that name cell [c]. *)
  Fixpoint owners (hs : vars) (c : nat) : nat :=
    match hs with
    | [] => 0
    | Some c' :: hs' => (if c' =? c then 1 else 0) + owners hs' c
    | None :: hs' => owners hs' c
    end.

  Definition spec_step (st : spec_state) (o : rop) : option (res (rout * spec_state)) :=
    let (cells, hs) := st in
    match o with
    | RPush v => Some (Ok (OId, (cells ++ [v], hs ++ [Some (length cells)])))
    | RClone h =>
      match var hs h with
      | None => None
      | Some c => if owners hs c <? CMAX then Some (Ok (OId, (cells, hs ++ [Some c]))) else Some (Panic PArith)
      end
    | RRecycle h =>
      match var hs h with
      | None => None
      | Some c =>
        let hs' := replace_at h None hs in
        Some (Ok (OTaken (if owners hs' c =? 0 then nth_error cells c else None), (cells, hs')))
      end
    | RGet h =>
      match var hs h with
      | None => None
      | Some c => match nth_error cells c with Some v => Some (Ok (OVal v, (cells, hs))) | None => Some UB end
      end
    | RReplace h v =>
      match var hs h with
      | None => None
      | Some c =>
        match nth_error cells c with Some v0 => Some (Ok (OVal v0, (replace_at c v cells, hs))) | None => Some UB end
      end
    end.

  Fixpoint rspec_run (st : spec_state) (ops : list rop) : option (res (list rout * spec_state)) :=
    match ops with
    | [] => Some (Ok ([], st))
    | o :: ops' =>
      match spec_step st o with
      | None => None
      | Some (Ok (out, st')) =>
        match rspec_run st' ops' with
        | None => None
        | Some r => Some (let* (outs, st2) := r in Ok (out :: outs, st2))
        end
      | Some (Panic w) => Some (Panic w)
      | Some UB => Some UB
      end
    end.

  (** Number of cells alive after a history. *)
  Definition live_cells (st : spec_state) : nat :=
    length (filter (fun c => negb (owners (snd st) c =? 0)) (seq 0 (length (fst st)))).
  (** The most cells alive at any point of a history. *)
  Fixpoint peak (st : list T * vars) (ops : list rop) : nat :=
    Nat.max (live_cells st)
      match ops with
      | [] => 0
      | o :: ops' => match spec_step st o with Some (Ok (_, st')) => peak st' ops' | _ => 0 end
      end.
End Recycle.
