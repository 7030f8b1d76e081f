(** `RleTree::cursor_to` on nodes in memory (src/tree/mod.rs 460-529), for trees with `P::COW`. *)
From Coq Require Import List Arith Bool ZArith.
From Verif Require Import Base Cow.
Import ListNotations.

(** The data of a node, as far as `search_step` is concerned: where its keys start and end. *)
Definition ranges := list (Z * Z).

(** `search_step` without a hint (mod.rs 846-922): [None] if the target is in a key of this node, otherwise the child
    and its position. *)
Fixpoint find_child (ks : ranges) (i : nat) (pos : Z) (target : Z) : option (nat * Z) :=
  match ks with
  | [] => Some (i, pos)
  | (s, e) :: ks' =>
    if (target <? s)%Z then Some (i, pos)
    else if (target <? e)%Z then None
    else find_child ks' (S i) e target
  end.

(** A path, a search that has not come to an end, or use of memory that is not a node. *)
Inductive cres : Type := CPath (p : list nat) | CMore | CUB.

Section Cursor.
  Notation heap := (heap ranges).

  (** From a node up to the top (mod.rs 508-522), through the stored parents. *)
  Fixpoint climb (k : nat) (m : heap) (a : addr) (p : list nat) : cres :=
    match k with
    | 0 => CPath p
    | S k' =>
      match look m a with
      | None => CUB
      | Some n => match n_par n with None => CPath p | Some (q, i) => climb k' m q (i :: p) end
      end
    end.

  (** `recurse` (mod.rs 478-525), inside its first loop at node [a] of height [h]; [top] is `top_height`.  Line 497 calls
      `recurse` on `node`, which is still [a] and not the child.  [f] bounds the number of nodes looked at. *)
  Fixpoint recurse (f : nat) (m : heap) (top : nat) (a : addr) (h : nat) (target : Z) : cres :=
    match f with
    | 0 => CMore
    | S f' =>
      match look m a with
      | None => CUB
      | Some n =>
        match h with
        | 0 => climb (top - h) m a []
        | S h' =>
          match find_child (n_data n) 0 0%Z target with
          | None => climb (top - h) m a []
          | Some (i, pos) =>
            match nth_error (n_kids n) i with
            | None => CUB
            | Some c =>
              match look m c with
              | None => CUB
              | Some nc =>
                if match n_par nc with Some (q, _) => negb (q =? a) | None => false end then
                  match recurse f' m h a h (target - pos)%Z with
                  | CPath p => climb (top - h) m a (i :: p)
                  | r => r
                  end
                else recurse f' m top c h' (target - pos)%Z
              end
            end
          end
        end
      end
    end.

  Definition cursor_to (f : nat) (m : heap) (a : addr) (h : nat) (target : Z) : cres := recurse f m h a h target.
End Cursor.

(** ** The path that is wanted *)

(** From the root, which child to take to get to the node that has the target in one of its keys. *)
Fixpoint path_to (h : nat) (m : heap ranges) (a : addr) (target : Z) : option (list nat) :=
  match h, look m a with
  | _, None => None
  | 0, Some _ => Some []
  | S h', Some n =>
    match find_child (n_data n) 0 0%Z target with
    | None => Some []
    | Some (i, pos) =>
      match nth_error (n_kids n) i with
      | None => None
      | Some c => option_map (cons i) (path_to h' m c (target - pos)%Z)
      end
    end
  end.

(** Every node on that path has the node before it stored as its parent. *)
Fixpoint linked (h : nat) (m : heap ranges) (a : addr) (target : Z) : Prop :=
  match h, look m a with
  | S h', Some n =>
    match find_child (n_data n) 0 0%Z target with
    | Some (i, pos) =>
      match nth_error (n_kids n) i with
      | Some c => option_map n_par (look m c) = Some (Some (a, i)) /\ linked h' m c (target - pos)%Z
      | None => True
      end
    | None => True
    end
  | _, _ => True
  end.
