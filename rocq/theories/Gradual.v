(** `GradualInitArray`, `GradualUninitArray` and `map_array_with_index`
    (src/const_math_hack.rs 173-191, 211-377). *)
From Coq Require Import List Arith Bool.
From Verif Require Import Base.
Import ListNotations.

Section Gradual.
  Context {E F : Type}.

  (** Memory of a `MaybeUninit` array: what each slot holds.  Reading or dropping an empty slot is
      undefined behaviour (as is reading a slot twice, since the first read empties it). *)
  Definition mem (T : Type) : Type := list (option T).

  (** `GradualUninitArray` (327-332) and `GradualInitArray` (211-216). *)
  Record uninit_array : Type := { ua_mem : mem E; ua_next : nat }.
  Record init_array : Type := { ia_mem : mem F; ia_len : nat }.

  (** 335-338 and 218-222. *)
  Definition ua_new (xs : list E) : uninit_array := {| ua_mem := map Some xs; ua_next := 0 |}.
  Definition ia_new (len : nat) : init_array := {| ia_mem := repeat None len; ia_len := 0 |}.

  (** `take_unchecked` (362-366): `next` is advanced before the read. *)
  Definition ua_take (u : uninit_array) : res (E * uninit_array) :=
    match nth_error (ua_mem u) (ua_next u) with
    | Some (Some e) => Ok (e, {| ua_mem := replace_at (ua_next u) None (ua_mem u); ua_next := S (ua_next u) |})
    | _ => UB
    end.

  (** `push_unchecked` (246-255): the slot is overwritten without dropping what was there. *)
  Definition ia_push (a : init_array) (v : F) : res init_array :=
    if ia_len a <? length (ia_mem a) then Ok {| ia_mem := replace_at (ia_len a) (Some v) (ia_mem a); ia_len := S (ia_len a) |}
    else UB.

  (** `drop_in_place` on a range of slots: the values dropped, in order. *)
  Fixpoint drop_slots {T} (m : mem T) : res (list T) :=
    match m with
    | [] => Ok []
    | Some v :: m' => let* r := drop_slots m' in Ok (v :: r)
    | None :: _ => UB
    end.

  (** The two destructors (369-376 and 316-324). *)
  Definition ua_drop (u : uninit_array) : res (list E) :=
    if ua_next u <=? length (ua_mem u) then drop_slots (skipn (ua_next u) (ua_mem u)) else UB.
  Definition ia_drop (a : init_array) : res (list F) := drop_slots (firstn (ia_len a) (ia_mem a)).

  (** `into_init_unchecked` (301-313): the length is reset, so the destructor that follows drops nothing. *)
  Definition ia_finish (a : init_array) : res (list F) :=
    if ia_len a =? length (ia_mem a) then
      let* out := drop_slots (ia_mem a) in
      let* _ := ia_drop {| ia_mem := ia_mem a; ia_len := 0 |} in
      Ok out
    else UB.

  (** How a call ends: with the mapped array, or with the panic of the mapping function, in which case the
      unwinding drops the locals `init` and then `uninit` (reverse order of declaration). *)
  Inductive outcome : Type :=
  | Mapped (out : list F)
  | Unwound (dropped_new : list F) (dropped_old : list E).

  (** `map_array_with_index` (181-191).  The mapping function [f] consumes its argument; [None] is a
      panic.  The log lists the calls of [f]. *)
  Fixpoint map_loop (f : nat -> E -> option F) (n i : nat) (u : uninit_array) (a : init_array) : res (outcome * list (nat * E)) :=
    match n with
    | O =>
      (* mem::forget(uninit) *)
      let* out := ia_finish a in
      Ok (Mapped out, [])
    | S n' =>
      let* (e, u') := ua_take u in
      match f i e with
      | None =>
        let* dn := ia_drop a in
        let* dold := ua_drop u' in
        Ok (Unwound dn dold, [(i, e)])
      | Some v =>
        let* a' := ia_push a v in
        let* (o, log) := map_loop f n' (S i) u' a' in
        Ok (o, (i, e) :: log)
      end
    end.
  Definition map_array_with_index (f : nat -> E -> option F) (xs : list E) : res (outcome * list (nat * E)) :=
    map_loop f (length xs) 0 (ua_new xs) (ia_new (length xs)).
End Gradual.
