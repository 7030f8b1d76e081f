(** Results, lists with checked access.  Shared by all models. *)
From Coq Require Import List ZArith Lia Bool Arith.
Import ListNotations.

(** Why a call panicked.  Each constructor stands for one family of panicking calls in /repo. *)
Inductive why : Type :=
| POutOfBounds      (* index out of bounds: src/tree/mod.rs 399-403, 461-465; src/tree/insert.rs 57-61 *)
| PBadSize          (* non-positive size: src/tree/insert.rs 62-64; src/tree/mod.rs 342-344 *)
| PTodo             (* todo!(): src/tree/insert.rs 976; src/tree/drain.rs 60-74 *)
| PArith            (* overflow/underflow panic of checked integer arithmetic *)
| PAssert           (* assert! / debug_assert! *)
| PUnreachable      (* unreachable!() *)
| PRange            (* invalid range: src/tree/iter.rs 199-256 *)
| PBorrow           (* conflicting borrow: src/tree/slice_ref.rs 262-275 *)
| PInvalid.         (* panic_invalid_state *)

(** Outcome of a Rust call: normal return, panic, or undefined behaviour (an unchecked access that
    is out of range; `weak_assert!` / `weak_unreachable!`, src/macros.rs 6-33). *)
Inductive res (A : Type) : Type :=
| Ok (a : A)
| Panic (w : why)
| UB.
Arguments Ok {A} a.
Arguments Panic {A} w.
Arguments UB {A}.

Definition bind {A B} (r : res A) (k : A -> res B) : res B :=
  match r with Ok a => k a | Panic w => Panic w | UB => UB end.

Notation "'let*' x ':=' e1 'in' e2" := (bind e1 (fun x => e2))
  (at level 200, x pattern, e1 at level 100, e2 at level 200, right associativity).

Definition is_ok {A} (r : res A) : bool := match r with Ok _ => true | _ => false end.

(** Checked list access: out of range is [UB] (`get_unchecked` in the code). *)
Definition nth_ub {A} (l : list A) (i : nat) : res A :=
  match nth_error l i with Some a => Ok a | None => UB end.

(** [l] with [a] inserted before position [i] (`shift` then write, src/tree/node.rs 2661-2686). *)
Definition insert_at {A} (i : nat) (a : A) (l : list A) : list A :=
  firstn i l ++ a :: skipn i l.

(** [l] with position [i] replaced; unchanged when out of range (callers check). *)
Definition replace_at {A} (i : nat) (a : A) (l : list A) : list A :=
  match skipn i l with [] => l | _ :: r => firstn i l ++ a :: r end.

Fixpoint mapM {A B} (f : A -> res B) (l : list A) : res (list B) :=
  match l with
  | [] => Ok []
  | a :: l' => let* b := f a in let* r := mapM f l' in Ok (b :: r)
  end.
