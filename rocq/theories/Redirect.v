(** `SliceRef::collapse_refs` (src/tree/slice_ref.rs 531-620) with its slow path, for slots that redirect to
    other slots, and with the `RefCell` around the table. *)
From Coq Require Import List Arith Bool.
From Verif Require Import Base Recycle RefState.
Import ListNotations.

(** The state of a `RefCell` (std): free, read, or written. *)
Inductive cell : Type := CFree | CRead | CWritten.

(** `RefCell::borrow`, `RefCell::borrow_mut`: panic unless the borrow is possible. *)
Definition cell_borrow (c : cell) : res cell := match c with CWritten => Panic PBorrow | _ => Ok CRead end.
Definition cell_borrow_mut (c : cell) : res cell := match c with CFree => Ok CWritten | _ => Panic PBorrow end.

Section Redirect.
  (** `usize::MAX` *)
  Variable CMAX : nat.

  (** The first loop (slice_ref.rs 573-585): the id of the last slot, or [None] when that slot is removed.  The
      outer [None]: the loop does not end within [fuel] rounds.  Debug assertions are on. *)
  Fixpoint find_final (fuel : nat) (t : @rvec stored) (this : nat) (next : option nat) : option (res (option nat * rvec)) :=
    match fuel with
    | O => None
    | S fuel' =>
      match rv_get t (match next with Some n => n | None => this end) with
      | Panic y => Some (Panic y)
      | UB => Some UB
      | Ok SRemoved => Some (Ok (None, t))
      | Ok (SHandle _) => match next with Some n => Some (Ok (Some n, t)) | None => Some (Panic PAssert) end
      | Ok (SRedirect id) =>
        match rv_clone CMAX t id with
        | Panic y => Some (Panic y)
        | UB => Some UB
        | Ok (n, t1) =>
          match next with
          | None => find_final fuel' t1 this (Some n)
          | Some old =>
            match rv_recycle t1 old with
            | Panic y => Some (Panic y)
            | UB => Some UB
            | Ok (Some _, _) => Some (Panic PAssert)
            | Ok (None, t2) => find_final fuel' t2 this (Some n)
            end
          end
        end
      end
    end.

  (** The second loop (slice_ref.rs 592-606). *)
  Fixpoint set_all (fuel : nat) (t : @rvec stored) (final : option nat) (next : nat) : option (res rvec) :=
    match fuel with
    | O => None
    | S fuel' =>
      match (match final with
             | Some id => let* (n, t1) := rv_clone CMAX t id in Ok (SRedirect n, t1)
             | None => Ok (SRemoved, t)
             end) with
      | Panic y => Some (Panic y)
      | UB => Some UB
      | Ok (new_val, t1) =>
        match rv_replace t1 next new_val with
        | Panic y => Some (Panic y)
        | UB => Some UB
        | Ok (SRedirect n, t2) => set_all fuel' t2 final n
        | Ok (_, t2) =>
          match rv_recycle t2 next with
          | Panic y => Some (Panic y)
          | UB => Some UB
          | Ok (Some _, _) => Some (Panic PAssert)
          | Ok (None, t3) => Some (Ok t3)
          end
        end
      end
    end.

  (** What `collapse_refs` leaves: the id of the reference, the table, and the handle it returns (whether it is
      there), if any.  A panic leaves the reference without its id, which was taken at the start (line 537). *)
  Record collapsed : Type := { c_id : option nat; c_table : @rvec stored; c_found : option bool }.

  (** The slow path (slice_ref.rs 565-620), from `let mut refs_mut = refs.borrow_mut()` on.  [via] is how line 593,
      `let mut next_id = refs.borrow().clone(&this_id)`, gets at the table: through `refs.borrow()` in the
      program. *)
  Definition slow_path_via (via : cell -> res cell) (fuel : nat) (t : @rvec stored) (this : nat) : option (res collapsed) :=
    match cell_borrow_mut CFree with
    | Panic y => Some (Panic y)
    | UB => Some UB
    | Ok c =>
      match find_final fuel t this None with
      | None => None
      | Some (Panic y) => Some (Panic y)
      | Some UB => Some UB
      | Some (Ok (final, t1)) =>
        match (let* _ := via c in rv_clone CMAX t1 this) with
        | Panic y => Some (Panic y)
        | UB => Some UB
        | Ok (next, t2) =>
          match set_all fuel t2 final next with
          | None => None
          | Some (Panic y) => Some (Panic y)
          | Some UB => Some UB
          | Some (Ok t3) =>
            match final with
            | None => Some (Ok {| c_id := None; c_table := t3; c_found := None |})
            | Some id =>
              match rv_get t3 id with
              | Panic y => Some (Panic y)
              | UB => Some UB
              | Ok (SHandle p) => Some (Ok {| c_id := Some id; c_table := t3; c_found := Some p |})
              | Ok _ => Some (Panic PUnreachable)
              end
            end
          end
        end
      end
    end.

  Definition slow_path : nat -> @rvec stored -> nat -> option (res collapsed) := slow_path_via cell_borrow.
  (** The same with `refs_mut.clone(&this_id)` in line 593: not the program, but the obvious correction of it. *)
  Definition slow_path_corrected : nat -> @rvec stored -> nat -> option (res collapsed) := slow_path_via (fun c => Ok c).

  (** The whole function (slice_ref.rs 531-620), on a table that is not borrowed. *)
  Definition collapse (fuel : nat) (t : @rvec stored) (id : option nat) : option (res collapsed) :=
    match id with
    | None => Some (Ok {| c_id := None; c_table := t; c_found := None |})
    | Some this =>
      match rv_get t this with
      | Panic y => Some (Panic y)
      | UB => Some UB
      | Ok (SHandle p) => Some (Ok {| c_id := Some this; c_table := t; c_found := Some p |})
      | Ok SRemoved => Some (let* (_, t1) := rv_recycle t this in Ok {| c_id := None; c_table := t1; c_found := None |})
      | Ok (SRedirect _) => slow_path fuel t this
      end
    end.

  (** ** Specification *)

  (** From slot [i], [n] redirections lead to a slot with a handle, [Some], or to a removed one. *)
  Inductive leads (t : @rvec stored) : nat -> nat -> option nat -> Prop :=
  | leads_handle : forall i c p, nth_error (rv_vals t) i = Some (Value c (SHandle p)) -> leads t 0 i (Some i)
  | leads_removed : forall i c, nth_error (rv_vals t) i = Some (Value c SRemoved) -> leads t 0 i None
  | leads_on : forall n i c j f, nth_error (rv_vals t) i = Some (Value c (SRedirect j)) -> leads t n j f -> leads t (S n) i f.

  (** Counts are positive and [n] more fit. *)
  Definition counts_ok (n : nat) (t : @rvec stored) : Prop :=
    forall i c v, nth_error (rv_vals t) i = Some (Value c v) -> 1 <= c /\ c + n <= CMAX.
End Redirect.
