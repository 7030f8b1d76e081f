(** Trees without features as separate values: what a memory holding several of them should look like
    from outside. *)
From Coq Require Import List ZArith Bool.
From Verif Require Import Base Index Slice Tree Insert Spec Order RefSpec LRef.
Import ListNotations.
Local Open Scope Z_scope.

Section MemSpec.
  Context {I V : Type} (Y : slice_ops I V) (inj : Z -> I).
  Notation run := (prod V Z) (only parsing).

  (** The runs of every tree ([None] once dropped), and the slices dropped so far. *)
  Definition values : Type := (list (option (list run)) * list V)%type.
  Definition set_nth {T} (j : nat) (x : T) (l : list T) : list T := firstn j l ++ x :: skipn (S j) l.

  Definition val_call (st : values) (c : @mcall V) : res values :=
    let (ts, d) := st in
    match c with
    | MNew => Ok (ts ++ [Some []], d)
    | MInsert j _ idx x n =>
      match nth_error ts j with
      | Some (Some l) => let* l' := spec_insert Y inj l idx x n in Ok (set_nth j (Some l') ts, d)
      | _ => Ok st
      end
    | MClone j =>
      match nth_error ts j with Some (Some l) => Ok (ts ++ [Some l], d) | _ => Ok st end
    | MDrop j =>
      match nth_error ts j with
      | Some (Some l) => Ok (set_nth j None ts, d ++ map fst l)
      | _ => Ok st
      end
    end.
  Fixpoint val_run (st : values) (calls : list (@mcall V)) : res values :=
    match calls with [] => Ok st | c :: calls' => let* st' := val_call st c in val_run st' calls' end.

  (** Arguments of an unsigned index type; everything ever inserted fits it. *)
  Fixpoint isum (calls : list (@mcall V)) : Z :=
    match calls with [] => 0 | MInsert _ _ _ _ n :: c => n + isum c | _ :: c => isum c end.
  Definition mcalls_fit (MAX : Z) (calls : list (@mcall V)) : Prop :=
    Forall (fun c => match c with MInsert _ _ i _ n => 0 <= i <= MAX /\ 0 <= n | _ => True end) calls /\ isum calls <= MAX.

  (** The tree that a call changes. *)
  Definition changes (c : @mcall V) : option nat :=
    match c with MInsert j _ _ _ _ | MDrop j => Some j | MNew | MClone _ => None end.
End MemSpec.

(** ** Reachable trees, with the runs they should hold *)
Section Reach.
  Context {I V : Type} (X : index_ops I) (Y : slice_ops I V) (MAX : Z) (inj : Z -> I) (M : nat).
  Notation run := (prod V Z) (only parsing).

  (** Some history of several trees without features leads to the memory [m], whose trees should hold
      what [st] says. *)
  Definition mem_reaches (nop : bool) (m : @mem I V) (st : @values V) : Prop :=
    exists calls, mcalls_fit MAX calls /\ val_run Y inj ([], []) calls = Ok st /\ m_run X Y M inj nop mem_new calls = Ok m.

  (** Some history of a tree with references leads to [t], which should hold the runs [l] and references
      to the runs that start at [starts]. *)
  Definition refs_reach (t : @rtree I V) (l : list run) (starts : list Z) : Prop :=
    exists calls, calls_fit MAX calls /\ ref_run Y inj [] [] calls = Ok (l, starts) /\
      rt_run X Y M inj rt_new calls = Ok t.
End Reach.

(** ** The runs that a report can pass over *)
Section Passed.
  Context {I V : Type} (Y : slice_ops I V) (inj : Z -> I) (M : nat).
  Notation tree := (tree I V).

  (** The [k]-th run of the tree is in the right half of a full internal node, and all nodes on the
      left edge of the child behind it are full. *)
  Definition in_right_half (r : @rle I V) (k : nat) : Prop :=
    match r with
    | None => False
    | Some r => exists p j tot c0 es e,
        nth_error (handles (r_node r) []) k = Some (p, j) /\ node_on (r_node r) p = Node tot c0 es /\
        (2 * M <= length es)%nat /\ (M <= j)%nat /\ nth_error es j = Some e /\ e_child e <> Nil /\ left_full M (e_child e)
    end.

  (** The insertion cuts such a run and merges the new slice with the left part only. *)
  Definition passed_over (r : @rle I V) (l : list (V * Z)) (idx : Z) (x : V) : Prop :=
    left_join_only Y inj l idx x = true /\ in_right_half r (inserted_at Y inj l idx x).
End Passed.
