(** Pointers to nodes, counted in the trees themselves. *)
From Coq Require Import List Bool Arith.
From Verif Require Import Base LTree LInsert LRef LCow LCount.
Import ListNotations.

(** What can point to a node: the root pointer of a tree, by the number of the tree, or a slot in the array of child
    pointers of a node. *)
Inductive pointer : Type := PRoot (j : nat) | PSlot (a : addr) (c : nat).
Definition pointer_eq_dec (x y : pointer) : {x = y} + {x <> y}.
Proof. decide equality; apply Nat.eq_dec. Defined.

Definition l_at (t : ltree) : list addr := match t with LNil => [] | LNode a _ _ _ => [a] end.
(** The slots [c], [c + 1], … of the node at [a]. *)
Fixpoint slots_from (a : addr) (c : nat) (ks : list ltree) : list (pointer * addr) :=
  match ks with
  | [] => []
  | k :: ks' => map (fun b => (PSlot a c, b)) (l_at k) ++ slots_from a (S c) ks'
  end.
Fixpoint slots_in (t : ltree) : list (pointer * addr) :=
  match t with LNil => [] | LNode a _ _ ks => slots_from a 0 ks ++ flat_map slots_in ks end.
Definition root_of (j : nat) (t : ltree) : list (pointer * addr) := map (fun b => (PRoot j, b)) (l_at t).

(** All pointers in the trees [ts], numbered from [j]: a shared node is visited once per tree, so pointers occur
    several times. *)
Fixpoint pointers {I T} (j : nat) (ts : list (option (ptree I T))) : list (pointer * addr) :=
  match ts with
  | [] => []
  | None :: ts' => pointers (S j) ts'
  | Some t :: ts' => root_of j (pt_nodes t) ++ slots_in (pt_nodes t) ++ pointers (S j) ts'
  end.
(** The number of different pointers to the node at [a]. *)
Definition pointers_to {I T} (ts : list (option (ptree I T))) (a : addr) : nat :=
  length (nodup pointer_eq_dec (map fst (filter (fun e => snd e =? a) (pointers 0 ts)))).
