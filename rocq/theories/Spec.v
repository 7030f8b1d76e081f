(** What an insertion means on the flat sequence of runs.  Independent of the tree model. *)
From Coq Require Import List ZArith Bool.
From Verif Require Import Base Slice Range.
Import ListNotations.
Local Open Scope Z_scope.

(** ** Runs with their positions *)
Section Spans.
  Context {V : Type}.
  Notation run := (prod V Z) (only parsing).

  (** Sum of the lengths of a list of runs. *)
  Fixpoint rsum (l : list run) : Z :=
    match l with [] => 0 | (_, z) :: l' => z + rsum l' end.

  (** Each run with its start and end. *)
  Fixpoint spans (off : Z) (l : list run) : list (Z * Z * V) :=
    match l with
    | [] => []
    | (s, z) :: l' => (off, off + z, s) :: spans (off + z) l'
    end.

  (** The run that covers position [i], with its start and end. *)
  Definition covering (l : list run) (i : Z) : option (Z * Z * V) :=
    find (fun e => (fst (fst e) <=? i) && (i <? snd (fst e))) (spans 0 l).

  (** The runs that overlap the half-open interval from [a] to [b]. *)
  Definition overlapping (l : list run) (a b : Z) : list (Z * Z * V) :=
    filter (fun e => (fst (fst e) <? b) && (a <? snd (fst e))) (spans 0 l).
End Spans.

(** A double-ended queue popped from the front ([false]) or the back ([true]). *)
Fixpoint deque {T : Type} (d : list T) (calls : list bool) : list (option T) :=
  match calls with
  | [] => []
  | false :: cs => match d with [] => None :: deque [] cs | x :: d' => Some x :: deque d' cs end
  | true :: cs => match rev d with [] => None :: deque [] cs | x :: d' => Some x :: deque (rev d') cs end
  end.

(** What the calls on a double-ended queue returned from the front, and from the back. *)
Fixpoint fronts {T} (calls : list bool) (outs : list (option T)) : list T :=
  match calls, outs with
  | false :: cs, Some x :: os => x :: fronts cs os
  | _ :: cs, _ :: os => fronts cs os
  | _, _ => []
  end.
Fixpoint backs {T} (calls : list bool) (outs : list (option T)) : list T :=
  match calls, outs with
  | true :: cs, Some x :: os => x :: backs cs os
  | _ :: cs, _ :: os => backs cs os
  | _, _ => []
  end.

(** A range over a sequence of length [size] that the documentation allows: not reversed or
    empty-by-bounds, and within the sequence. *)
Definition range_ok (size : Z) (sb : sbound Z) (eb : ebound Z) : bool :=
  match sb with SIncl a => (0 <=? a) && (a <? size) | SUnb => true end &&
  match eb with EIncl b => b <? size | EExcl b => b <=? size | EUnb => true end &&
  match sb, eb with
  | SIncl a, EIncl b => a <=? b
  | SIncl a, EExcl b => a <? b
  | _, _ => true
  end.
Definition range_start (sb : sbound Z) : Z := match sb with SIncl a => a | SUnb => 0 end.
Definition range_end (size : Z) (eb : ebound Z) : Z :=
  match eb with EIncl b => b + 1 | EExcl b => b | EUnb => size end.

Section Spec.
  Context {I V : Type} (Y : slice_ops I V) (inj : Z -> I).
  Notation run := (prod V Z) (only parsing).

  (** Joining two adjacent slices, if the slice type can be joined at all. *)
  Definition join (a b : V) : V + V * V :=
    if sl_may_join Y then sl_try_join Y a b else inr (a, b).

  (** The new slice [x] of length [n] between the runs [b] (if any) and [c] (if any): joined with the
      left one, then with the right one.  Joining with both is not implemented (`todo!()`). *)
  Definition place (b : option run) (x : V) (n : Z) (c : option run) : res (list run) :=
    match b, c with
    | None, None => Ok [(x, n)]
    | Some (s, z), None =>
      match join s x with inl j => Ok [(j, z + n)] | inr (s', x') => Ok [(s', z); (x', n)] end
    | None, Some (s2, z2) =>
      match join x s2 with inl j => Ok [(j, n + z2)] | inr (x', s') => Ok [(x', n); (s', z2)] end
    | Some (s, z), Some (s2, z2) =>
      match join s x with
      | inl m =>
        match join m s2 with
        | inl _ => Panic PTodo
        | inr (m', s2') => Ok [(m', z + n); (s2', z2)]
        end
      | inr (s', x') =>
        match join x' s2 with
        | inl j => Ok [(s', z); (j, n + z2)]
        | inr (x2, s2') => Ok [(s', z); (x2, n); (s2', z2)]
        end
      end
    end.

  (** The new slice strictly inside the run [s] of length [z], at offset [q]. *)
  Definition place_inside (s : V) (z q : Z) (x : V) (n : Z) : list run :=
    let (a, b) := sl_split_at Y s (inj q) in
    match join a x with
    | inl m =>
      match join m b with
      | inl j => [(j, q + n + (z - q))]
      | inr (m', b') => [(m', q + n); (b', z - q)]
      end
    | inr (a', x') =>
      match join x' b with
      | inl j => [(a', q); (j, n + (z - q))]
      | inr (x2, b') => [(a', q); (x2, n); (b', z - q)]
      end
    end.

  Fixpoint insert_runs (l : list run) (idx : Z) (x : V) (n : Z) : res (list run) :=
    match l with
    | [] => place None x n None
    | (s, z) :: l' =>
      if idx =? 0 then let* r := place None x n (Some (s, z)) in Ok (r ++ l')
      else if idx <? z then Ok (place_inside s z idx x n ++ l')
      else if idx =? z then
        match l' with
        | [] => place (Some (s, z)) x n None
        | c :: l'' => let* r := place (Some (s, z)) x n (Some c) in Ok (r ++ l'')
        end
      else let* r := insert_runs l' (idx - z) x n in Ok ((s, z) :: r)
    end.

  (** Index of the run holding the new slice afterwards. *)
  Fixpoint inserted_at (l : list run) (idx : Z) (x : V) : nat :=
    match l with
    | [] => 0
    | (s, z) :: l' =>
      if idx =? 0 then 0
      else if idx <? z then
        match join (fst (sl_split_at Y s (inj idx))) x with inl _ => 0 | inr _ => 1 end
      else if idx =? z then match join s x with inl _ => 0 | inr _ => 1 end
      else S (inserted_at l' (idx - z) x)
    end.

  (** The run at [idx] is cut and the new slice merges with its left part but not its right part. *)
  Fixpoint left_join_only (l : list run) (idx : Z) (x : V) : bool :=
    match l with
    | [] => false
    | (s, z) :: l' =>
      if idx =? 0 then false
      else if idx <? z then
        let (a, b) := sl_split_at Y s (inj idx) in
        match join a x with
        | inl m => match join m b with inl _ => false | inr _ => true end
        | inr _ => false
        end
      else left_join_only l' (idx - z) x
    end.

  (** The insert is on the boundary of two runs and would merge with both of them. *)
  Definition joins_both (l : list run) (idx : Z) (x : V) : Prop :=
    exists A s z s2 z2 B m j, l = A ++ (s, z) :: (s2, z2) :: B /\ idx = rsum A + z /\
      sl_may_join Y = true /\ sl_try_join Y s x = inl m /\ sl_try_join Y m s2 = inl j.

  (** An insert with its panics: the index is checked first, then the size. *)
  Definition spec_insert (l : list run) (idx : Z) (x : V) (n : Z) : res (list run) :=
    if rsum l <? idx then Panic POutOfBounds
    else if n <=? 0 then Panic PBadSize
    else insert_runs l idx x n.

  (** A history of inserts (index, slice, size). *)
  Fixpoint spec_run (l : list run) (ops : list (Z * V * Z)) : res (list run) :=
    match ops with
    | [] => Ok l
    | (idx, x, n) :: ops' => let* l' := spec_insert l idx x n in spec_run l' ops'
    end.
End Spec.

(** ** Slices with contents *)
Section Values.
  Context {I V D : Type} (Y : slice_ops I V) (inj : Z -> I).
  Notation run := (prod V Z) (only parsing).

  (** The value at position [p] of a list of runs, when [den s o] is the value of slice [s] at
      offset [o]. *)
  Fixpoint value_at (den : V -> Z -> D) (l : list run) (p : Z) : option D :=
    match l with
    | [] => None
    | (s, z) :: l' => if p <? z then Some (den s p) else value_at den l' (p - z)
    end.

  (** What the documentation of `Slice` asks of an implementation (src/public_traits.rs 48-90):
      [fits s z] says that [z] is an admissible length of [s]; splitting and joining keep the
      contents, and a refused join gives back slices with the same contents. *)
  Record denotes (den : V -> Z -> D) (fits : V -> Z -> Prop) : Prop := {
    dn_split : forall s z q a b, fits s z -> 0 < q < z -> sl_split_at Y s (inj q) = (a, b) ->
      fits a q /\ fits b (z - q) /\
      (forall o, 0 <= o < q -> den a o = den s o) /\ (forall o, 0 <= o < z - q -> den b o = den s (q + o));
    dn_join : forall a za b zb j, fits a za -> fits b zb -> 0 < za -> 0 < zb -> sl_try_join Y a b = inl j ->
      fits j (za + zb) /\
      (forall o, 0 <= o < za -> den j o = den a o) /\ (forall o, 0 <= o < zb -> den j (za + o) = den b o);
    dn_refuse : forall a za b zb a' b', fits a za -> fits b zb -> 0 < za -> 0 < zb -> sl_try_join Y a b = inr (a', b') ->
      fits a' za /\ fits b' zb /\
      (forall o, 0 <= o < za -> den a' o = den a o) /\ (forall o, 0 <= o < zb -> den b' o = den b o);
  }.
End Values.

(** No two neighbouring runs hold equal values. *)
Fixpoint merged {V : Type} (eqb : V -> V -> bool) (l : list (V * Z)) : bool :=
  match l with
  | (a, _) :: ((b, _) :: _) as l' => negb (eqb a b) && merged eqb l'
  | _ => true
  end.
