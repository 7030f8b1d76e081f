(** What is left of the flat sequence of runs when a slice type's method panics during an insertion.  Independent of
    the tree model. *)
From Coq Require Import List ZArith Bool.
From Verif Require Import Base Slice Spec Crash.
Import ListNotations.
Local Open Scope Z_scope.

Section CrashSpec.
  Context {I V : Type} (F : fslice_ops I V) (inj : Z -> I).
  Notation run := (prod V Z) (only parsing).
  Notation orun := (prod (option V) Z) (only parsing).

  Definition keep (r : run) : orun := (Some (fst r), snd r).

  (** The runs around the index afterwards, and whether the panic is the `todo!()` for joining with both.  [None]: no
      panic. *)
  Definition lost_between (b : option run) (x : V) (c : option run) : option (list orun * bool) :=
    if fs_may_join F then
      match b, c with
      | None, None => None
      | Some (s, z), None => match fs_try_join F s x with None => Some ([(None, z)], false) | Some _ => None end
      | None, Some (s2, z2) => match fs_try_join F x s2 with None => Some ([(None, z2)], false) | Some _ => None end
      | Some (s, z), Some (s2, z2) =>
        match fs_try_join F s x with
        | None => Some ([(None, z); (Some s2, z2)], false)
        | Some (inl m) =>
          match fs_try_join F m s2 with
          | None => Some ([(None, z); (None, z2)], false)
          | Some (inl j) => Some ([(Some j, z); (None, z2)], true)
          | Some (inr _) => None
          end
        | Some (inr (s', x')) =>
          match fs_try_join F x' s2 with None => Some ([(Some s', z); (None, z2)], false) | Some _ => None end
        end
      end
    else None.

  (** The same for an index inside the run [s] of length [z], at offset [q]. *)
  Definition lost_inside (s : V) (z q : Z) (x : V) : option (list orun * bool) :=
    match fs_split_at F s (inj q) with
    | None => Some ([(None, z)], false)
    | Some (a, b) =>
      if fs_may_join F then
        match fs_try_join F a x with
        | None => Some ([(None, z)], false)
        | Some (inl m) => match fs_try_join F m b with None => Some ([(None, z)], false) | Some _ => None end
        | Some (inr (a', x')) =>
          match fs_try_join F x' b with None => Some ([(Some a', z)], false) | Some _ => None end
        end
      else None
    end.

  Definition after (r : option (list orun * bool)) (l : list run) : option (list orun * bool) :=
    option_map (fun p => (fst p ++ map keep l, snd p)) r.

  Fixpoint lost (l : list run) (idx : Z) (x : V) : option (list orun * bool) :=
    match l with
    | [] => None
    | (s, z) :: l' =>
      if idx =? 0 then after (lost_between None x (Some (s, z))) l'
      else if idx <? z then after (lost_inside s z idx x) l'
      else if idx =? z then
        match l' with
        | [] => lost_between (Some (s, z)) x None
        | c :: l'' => after (lost_between (Some (s, z)) x (Some c)) l''
        end
      else option_map (fun p => ((Some s, z) :: fst p, snd p)) (lost l' (idx - z) x)
    end.

  (** The slice type without its panics. *)
  Definition unfailing : slice_ops I V := {|
    sl_may_join := fs_may_join F;
    sl_split_at := fun s q => match fs_split_at F s q with Some p => p | None => (s, s) end;
    sl_try_join := fun a b => match fs_try_join F a b with Some r => r | None => inr (a, b) end;
  |}.
End CrashSpec.
