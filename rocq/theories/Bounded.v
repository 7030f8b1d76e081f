(** `BoundedCursor<LEN>` (src/cursor.rs 60-152). *)
From Coq Require Import List Arith Bool.
From Verif Require Import Base.
Import ListNotations.

(** The struct (src/cursor.rs 60-63): the buffer and the field `start_at`.  A component is the `u8` field
    `child_idx` of `PathComponent` (37-39). *)
Record bcursor : Type := { bc_path : list nat; bc_start : nat }.

(** The component that fills a new buffer: `PathComponent { child_idx: 0xFF }` (src/cursor.rs 104). *)
Definition absent : nat := 255.

(** `new_empty` (src/cursor.rs 95-106): panics when LEN does not fit a `u8`. *)
Definition bc_new (len : nat) : res bcursor :=
  if 255 <? len then Panic PAssert
  else Ok {| bc_path := repeat absent len; bc_start := match len with O => 0 | S n => n end |}.

(** `prepend_to_path` (src/cursor.rs 108-121).  `copy_within(0..LEN - 1, 1)` moves the first LEN-1
    components one to the right; a write outside the buffer would panic. *)
Definition bc_prepend (len : nat) (c : bcursor) (x : nat) : res bcursor :=
  if bc_start c =? 0 then
    if len =? 0 then Ok c
    else Ok {| bc_path := x :: firstn (len - 1) (bc_path c); bc_start := 0 |}
  else if bc_start c <? length (bc_path c) then
    Ok {| bc_path := replace_at (bc_start c) x (bc_path c); bc_start := bc_start c - 1 |}
  else Panic PAssert.

(** `Iterator::next` (src/cursor.rs 133-141). *)
Definition bc_next (len : nat) (c : bcursor) : res (option nat * bcursor) :=
  if bc_start c =? len then Ok (None, c)
  else match nth_error (bc_path c) (bc_start c) with
       | Some x => Ok (Some x, {| bc_path := bc_path c; bc_start := S (bc_start c) |})
       | None => Panic PAssert
       end.

(** `into_path` (src/cursor.rs 125-127) read to its end.  The fuel is the most calls that can return a
    component; running out of it is an error. *)
Fixpoint bc_collect (fuel len : nat) (c : bcursor) : res (list nat) :=
  match fuel with
  | O => Panic PUnreachable
  | S f =>
    let* (o, c') := bc_next len c in
    match o with
    | None => Ok []
    | Some x => let* r := bc_collect f len c' in Ok (x :: r)
    end
  end.

(** A new cursor, components prepended in the given order, then the path it yields. *)
Definition bc_path_after (len : nat) (cs : list nat) : res (list nat) :=
  let* c := bc_new len in
  let* c := (fix go (cs : list nat) (c : bcursor) : res bcursor :=
               match cs with [] => Ok c | x :: cs' => let* c' := bc_prepend len c x in go cs' c' end) cs c in
  bc_collect (S len) len c.
