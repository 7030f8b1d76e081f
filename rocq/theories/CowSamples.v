(** Histories of shared trees that examples use. *)
From Coq Require Import List Arith ZArith.
From Verif Require Import Base Cow CowCursor.
Import ListNotations.

(** A tree of two leaves, and a clone of it. *)
Definition two_trees : list (nat * ev nat) :=
  [(0, VEmpty); (0, VNew 0 0 10); (0, VInsert 0); (0, VStep 0); (0, VStep 0); (0, VSplit 0 11 12 1); (0, VNewRoot 2 0 13); (0, VEnd);
   (0, VClone 0)].

(** Thread 1 inserts into the clone while thread 0 reads the original. *)
Definition read_and_insert : list (nat * ev nat) :=
  [(1, VInsert 1); (1, VStep 0); (0, VRead 0); (1, VStep 0); (1, VStep 0); (1, VStep 3); (0, VDown 0); (1, VStep 0); (1, VStep 0);
   (1, VStep 0); (1, VChild 0); (1, VStep 0); (1, VStep 4); (1, VStep 0); (1, VStep 0); (1, VStep 0)].

(** Then both trees are dropped, by different threads, step by step in turns. *)
Definition drop_both : list (nat * ev nat) :=
  [(1, VWrite TAt 99); (0, VReadEnd); (1, VEnd); (0, VDrop 0); (1, VDrop 1)] ++
  concat (repeat [(0, VStep 0); (1, VStep 0)] 5) ++ [(1, VStep 0); (1, VStep 0); (0, VStep 0)].

(** A tree with M = 1: runs of size 1, one in each leaf and one between; nodes 0 and 1 below node 2. *)
Definition two_leaves : list (nat * ev ranges) :=
  [(0, VEmpty); (0, VNew 0 0 [(0, 1)]%Z); (0, VInsert 0); (0, VStep 0); (0, VStep 0); (0, VWrite TAt [(0, 1); (1, 2)]%Z); (0, VEnd);
   (0, VInsert 0); (0, VStep 0); (0, VStep 0); (0, VSplit 0 [(0, 1)]%Z [(0, 1)]%Z 1); (0, VNewRoot 2 0 [(1, 2)]%Z); (0, VEnd)].

(** A clone of it, and an insertion at its end: nodes 3 and 4 are copies of 2 and 1. *)
Definition insert_right : list (nat * ev ranges) :=
  [(0, VClone 0); (0, VInsert 1); (0, VStep 0); (0, VStep 0); (0, VStep 0); (0, VStep 3); (0, VStep 0); (0, VStep 0); (0, VStep 0);
   (0, VChild 1); (0, VStep 0); (0, VStep 4); (0, VStep 0); (0, VStep 0); (0, VStep 0); (0, VWrite TAt [(0, 1); (1, 2)]%Z);
   (0, VUp); (0, VEnd)].

(** A clone of it, and two insertions at its start, the second of which splits the leaf: node 3 is a copy of 2 with
    the leaves 4 (copy of 0), 5 and 1. *)
Definition insert_left : list (nat * ev ranges) :=
  [(0, VClone 0); (0, VInsert 1); (0, VStep 0); (0, VStep 0); (0, VStep 0); (0, VStep 3); (0, VStep 0); (0, VStep 0); (0, VStep 0);
   (0, VChild 0); (0, VStep 0); (0, VStep 4); (0, VStep 0); (0, VStep 0); (0, VStep 0); (0, VWrite TAt [(0, 1); (1, 2)]%Z);
   (0, VUp); (0, VWrite TAt [(2, 3)]%Z); (0, VEnd);
   (0, VInsert 1); (0, VStep 0); (0, VStep 0); (0, VChild 0); (0, VStep 0); (0, VStep 0); (0, VSplit 0 [(0, 1)]%Z [(0, 1)]%Z 5); (0, VUp);
   (0, VAttach TAt 1 0 [(1, 2); (3, 4)]%Z); (0, VFix TAt 1); (0, VFix TAt 2); (0, VEnd)].

(** Then the original is dropped, which frees 2 and 0; the clone is cloned, and the start of that changed: its root
    is a copy of 3 at address 2. *)
Definition reuse : list (nat * ev ranges) :=
  [(0, VDrop 0)] ++ repeat (0, VStep 0) 6 ++
  [(0, VClone 1); (0, VInsert 2); (0, VStep 0); (0, VStep 0); (0, VStep 0); (0, VStep 0); (0, VStep 2); (0, VStep 0); (0, VStep 0); (0, VStep 0);
   (0, VChild 0); (0, VStep 0); (0, VStep 0); (0, VStep 0); (0, VStep 0); (0, VStep 0); (0, VWrite TAt [(0, 1); (1, 2)]%Z);
   (0, VUp); (0, VWrite TAt [(2, 3); (4, 5)]%Z); (0, VEnd)].
