(** How much memory calls on trees that share nodes take: what is counted, and the bounds (used by C59). *)
From Coq Require Import List Arith Bool.
From Verif Require Import Base Index Slice Tree Insert LInsert Cow CowSpec Weak CowCall CowCallWeak CowWait.
Import ListNotations.

(** The number of nodes in memory, and of the nodes of a tree and of its levels. *)
Definition used {D : Type} (m : heap D) : nat := length (filter (fun o => match o with Some _ => true | None => false end) m).
Definition rle_nodes {I V : Type} (r : @rle I V) : nat := match r with Some r0 => nodes (rose_of (r_height r0) (r_node r0)) | None => 0 end.
Definition levels {I V : Type} (r : @rle I V) : nat := match r with Some r0 => r_height r0 + 1 | None => 0 end.

Section CowShare.
  Context {I V : Type} (X : index_ops I) (Y : slice_ops I V) (M : nat).

  (** The nodes that thread [t] allocates in the steps [ys]. *)
  Fixpoint made (t : nat) (q : @wclient I V) (ys : list (@act I V * nat)) : nat :=
    match ys with
    | [] => 0
    | (x, j) :: ys' =>
      match qstep X Y M q x j with
      | Some q' => (if who x =? t then used (c_mem (w_s (q_w q'))) - used (c_mem (w_s (q_w q))) else 0) + made t q' ys'
      | None => 0
      end
    end.

  (** What a call may allocate if it is made when the trees are [ts]: for an insertion one node for each level, besides
      the nodes by which the tree grows. *)
  Definition amount (ts : list (option (@rle I V))) (c : @call I V) : nat :=
    match c with
    | CInsert nop j hints idx slice size =>
      match nth_error ts j with
      | Some (Some r) =>
        match insert_with_cursor X Y M nop r hints idx slice size with
        | Ok (r', _) => levels r + (rle_nodes r' - rle_nodes r)
        | _ => 0
        end
      | _ => 0
      end
    | _ => 0
    end.
  (** If no tree has ever been cloned: only the nodes by which the tree grows. *)
  Definition growth (ts : list (option (@rle I V))) (c : @call I V) : nat :=
    match c with
    | CInsert nop j hints idx slice size =>
      match nth_error ts j with
      | Some (Some r) =>
        match insert_with_cursor X Y M nop r hints idx slice size with
        | Ok (r', _) => rle_nodes r' - rle_nodes r
        | _ => 0
        end
      | _ => 0
      end
    | _ => 0
    end.
  Definition clones (c : @call I V) : bool := match c with CClone _ => true | _ => false end.
  (** What the calls [cs] may allocate together, one after another. *)
  Fixpoint cost (ts : list (option (@rle I V))) (cs : list (@call I V)) : nat :=
    match cs with
    | [] => 0
    | c :: cs' => amount ts c + match seq1 X Y M ts c with Some ts' => cost ts' cs' | None => 0 end
    end.
End CowShare.
