(** Ranges without excluded start bounds. *)
From Coq Require Import Bool.
From Verif Require Import Base Index.

(** `StartBound` (src/range.rs 22-27) and `EndBound` (src/range.rs 32-38). *)
Inductive sbound (I : Type) : Type := SIncl (i : I) | SUnb.
Inductive ebound (I : Type) : Type := EIncl (i : I) | EExcl (i : I) | EUnb.
Arguments SIncl {I} i. Arguments SUnb {I}.
Arguments EIncl {I} i. Arguments EExcl {I} i. Arguments EUnb {I}.

Section Range.
  Context {I : Type} (X : index_ops I).
  Notation range := (prod (sbound I) (ebound I)).

  (** `contains` (src/range.rs 58-73). *)
  Definition contains (r : range) (i : I) : bool :=
    match fst r with SIncl s => ix_leb X s i | SUnb => true end &&
    match snd r with EIncl e => ix_leb X i e | EExcl e => ix_ltb X i e | EUnb => true end.

  (** `starts_after_end` (src/range.rs 80-90). *)
  Definition starts_after_end (r : range) : bool :=
    match r with
    | (SUnb, _) | (_, EUnb) => false
    | (SIncl x, EIncl y) => ix_ltb X y x
    | (SIncl x, EExcl y) => ix_leb X y x
    end.

  (** `is_empty_naive` (src/range.rs 110-120). *)
  Definition is_empty_naive (r : range) : bool :=
    match r with
    | (SUnb, _) | (_, EUnb) => false
    | (SIncl x, EIncl y) => ix_ltb X y x
    | (SIncl x, EExcl y) => ix_leb X y x
    end.

  (** `overlaps_naive` (src/range.rs 137-163). *)
  Definition overlaps_naive (r o : range) : bool :=
    if is_empty_naive r || is_empty_naive o then false
    else if match fst r, snd o with
            | SIncl s, EExcl e => ix_leb X e s
            | SIncl s, EIncl e => ix_ltb X e s
            | _, _ => false
            end then false
    else if match snd r, fst o with
            | EExcl e, SIncl s => ix_leb X e s
            | EIncl e, SIncl s => ix_ltb X e s
            | _, _ => false
            end then false
    else true.
End Range.
