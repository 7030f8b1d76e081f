(** What references to runs mean on the flat sequence of runs.  Independent of the tree model and of
    the reference implementation. *)
From Coq Require Import List ZArith Bool.
From Verif Require Import Base Slice Spec.
Import ListNotations.
Local Open Scope Z_scope.

Section RefSpec.
  Context {I V : Type} (Y : slice_ops I V) (inj : Z -> I).
  Notation run := (prod V Z) (only parsing).

  (** The start of the run that covers [p]. *)
  Definition start_at (l : list run) (p : Z) : option Z := option_map (fun e => fst (fst e)) (covering l p).

  (** A reference is identified with the start of the run it refers to.  Inserting [n] positions at
      [idx] moves the first element of that run from [a] to [a] or [a + n]; the reference then refers
      to the run that holds this element ([l'] are the runs after the insertion).  So a reference to a
      run that is cut stays with the left part, and references to merged runs all refer to the merged
      run. *)
  Definition follow (l' : list run) (idx n a : Z) : option Z := start_at l' (if a <? idx then a else a + n).

  (** A history of inserts, inserts that return a reference, and references made at an index. *)
  Inductive rcall : Type := CInsert (idx : Z) (x : V) (n : Z) | CInsertRef (idx : Z) (x : V) (n : Z) | CMakeRef (idx : Z).

  (** The runs, and the starts of the runs the references refer to, in the order of their creation. *)
  Fixpoint all_some {T} (l : list (option T)) : option (list T) :=
    match l with
    | [] => Some []
    | Some x :: l' => option_map (cons x) (all_some l')
    | None :: _ => None
    end.
  Definition ref_insert (l : list run) (starts : list Z) (idx : Z) (x : V) (n : Z) : res (list run * list Z) :=
    let* l' := spec_insert Y inj l idx x n in
    match all_some (map (follow l' idx n) starts) with Some ss => Ok (l', ss) | None => Panic PInvalid end.
  Definition ref_add (l : list run) (starts : list Z) (p : Z) : res (list run * list Z) :=
    match start_at l p with Some a => Ok (l, starts ++ [a]) | None => Panic POutOfBounds end.
  Fixpoint ref_run (l : list run) (starts : list Z) (calls : list rcall) : res (list run * list Z) :=
    match calls with
    | [] => Ok (l, starts)
    | c :: calls' =>
      let* (l1, s1) := match c with
                       | CInsert i x n => ref_insert l starts i x n
                       | CInsertRef i x n => let* (l1, s1) := ref_insert l starts i x n in ref_add l1 s1 i
                       | CMakeRef i => ref_add l starts i
                       end in
      ref_run l1 s1 calls'
    end.

  (** No call of `insert_ref` cuts a run and merges the new slice with the left part only. *)
  Fixpoint refs_safe (l : list run) (calls : list rcall) : bool :=
    match calls with
    | [] => true
    | CInsert i x n :: calls' =>
      match spec_insert Y inj l i x n with Ok l' => refs_safe l' calls' | _ => true end
    | CInsertRef i x n :: calls' =>
      negb (left_join_only Y inj l i x) &&
      match spec_insert Y inj l i x n with Ok l' => refs_safe l' calls' | _ => true end
    | CMakeRef _ :: calls' => refs_safe l calls'
    end.

  (** Arguments of an unsigned index type, and sizes that fit it in total. *)
  Fixpoint csum (calls : list rcall) : Z :=
    match calls with [] => 0 | CInsert _ _ n :: c | CInsertRef _ _ n :: c => n + csum c | CMakeRef _ :: c => csum c end.
  Definition calls_fit (MAX : Z) (calls : list rcall) : Prop :=
    Forall (fun c => match c with CInsert i _ n | CInsertRef i _ n => 0 <= i <= MAX /\ 0 <= n | CMakeRef i => 0 <= i <= MAX end) calls /\
    csum calls <= MAX.
End RefSpec.
Arguments rcall : clear implicits.
