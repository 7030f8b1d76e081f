(** In-order enumeration of the keys of a tree: what "the path to the k-th run" means. *)
From Coq Require Import List Arith.
From Verif Require Import Base Tree Insert.
Import ListNotations.

(** The handles (path of the node, key index) of all keys below a node with path [p], in order. *)
Fixpoint handles {I S : Type} (t : tree I S) (p : list nat) : list handle :=
  match t with
  | Nil => []
  | Node _ c0 es =>
    handles c0 (p ++ [0]) ++
    (fix go (es : list (I * S * tree I S)) (k : nat) : list handle :=
       match es with
       | [] => []
       | (_, ch) :: es' => (p, k) :: handles ch (p ++ [Datatypes.S k]) ++ go es' (Datatypes.S k)
       end) es 0
  end.

(** The path [cur] leads to the node that holds the [k]-th key (run). *)
Definition path_to {I S : Type} (r : @rle I S) (cur : list nat) (k : nat) : Prop :=
  match r with
  | None => False
  | Some r => exists key, nth_error (handles (r_node r) []) k = Some (cur, key)
  end.

Section Nodes.
  Context {I V : Type} (M : nat).
  Notation tree := (tree I V).

  (** The node at a path. *)
  Fixpoint node_on (t : tree) (p : list nat) : tree :=
    match p, t with
    | [], _ => t
    | c :: p', Node _ c0 es => node_on (nth c (c0 :: map e_child es) Nil) p'
    | _ :: _, Nil => Nil
    end.

  (** All nodes on the left edge of a subtree are full: they have the maximum of [2 * M] keys. *)
  Fixpoint left_full (t : tree) : Prop :=
    match t with Nil => True | Node _ c0 es => (2 * M <= length es)%nat /\ left_full c0 end.

  (** The cursor handed back by an insertion that cuts the [k]-th run and merges the new slice into
      the left part of it alone is right: the run is in a leaf; or all nodes on the left edge of the
      child behind the run are full, and the node with the run has room for one more key or has the
      run at index [M]. *)
  Definition cursor_kept (r : @rle I V) (k : nat) : Prop :=
    match r with
    | None => False
    | Some r => exists p j tot c0 es e,
        nth_error (handles (r_node r) []) k = Some (p, j) /\ node_on (r_node r) p = Node tot c0 es /\ nth_error es j = Some e /\
        (e_child e = Nil \/ left_full (e_child e) /\ (length es < 2 * M \/ j = M))
    end.
End Nodes.
