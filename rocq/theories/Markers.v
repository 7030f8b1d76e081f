(** Which thread may use which slice: the `Send` and `Sync` implementations (src/tree/mod.rs 150-158, src/param.rs
    305-307, src/tree/entry.rs 66-75, src/tree/iter.rs 55-68) and what the safe calls then let several threads do.

    A slice is a value of type `S` with the thread that made it.  A tree is the thread that owns it and the slices
    its nodes hold; two trees that share a node (AllowCow) hold the same slices.  The calls are broken into steps on
    single slices, in any order, so that an execution of the crate is one of the model (which has more).  Trees are
    not shaped, positions are left out: which slice a step uses is chosen by the list of steps.  The index type is
    `Copy` (src/public_traits.rs 15): its values have no destructor and are used only by copies, so only slices are
    followed. *)
From Coq Require Import List Arith Bool.
From Verif Require Import Base.
Import ListNotations.

(** The three parameters of the tree (src/param.rs 27-38, 267-294). *)
Inductive param : Type := NoFeatures | AllowCow | AllowSliceRefs.

(** Which of the two traits the types `I` and `S` have. *)
Record bounds : Type := mkB { i_send : bool; i_sync : bool; s_send : bool; s_sync : bool }.

(** The parameter itself is `Send` and `Sync`, except AllowSliceRefs, which holds a `PhantomData<Rc<()>>`. *)
Definition p_both (c : param) : bool := match c with AllowSliceRefs => false | _ => true end.

(** `RleTree: Send` (src/tree/mod.rs 150-153, `RleTreeIsSend` at src/param.rs 305-307). *)
Definition tree_send (c : param) (b : bounds) : bool :=
  match c with
  | NoFeatures => i_send b && s_send b
  | AllowCow => i_send b && i_sync b && (s_send b && s_sync b)
  | AllowSliceRefs => false
  end.
(** `RleTree: Sync`, so `&RleTree: Send` (src/tree/mod.rs 155-158). *)
Definition tree_sync (c : param) (b : bounds) : bool := i_sync b && s_sync b && p_both c.
(** `SliceEntry: Send` and `SliceEntry: Sync` (src/tree/entry.rs 66-75). *)
Definition entry_send (c : param) (b : bounds) : bool := i_send b && i_sync b && s_sync b && p_both c.
Definition entry_sync (c : param) (b : bounds) : bool := i_sync b && s_sync b && p_both c.
(** `Iter: Send`, for a cursor that is `Send` (src/tree/iter.rs 55-61).  `Iter: Sync` (64-67) gives another thread
    nothing, as every method of `Iter` takes `&mut`. *)
Definition iter_send (c : param) (b : bounds) : bool := i_send b && i_sync b && s_sync b && p_both c.

(** What can be made of a shared reference to a tree: the reference itself, a `SliceEntry`, an `Iter`. *)
Inductive vkind : Type := KRef | KEntry | KIter.

Record mtree : Type := mkT { t_owner : option nat; t_slices : list nat }.
(** [m_home]: the thread that made each slice; [m_views]: kind, thread and tree of every view ([None] once it is
    gone); [m_refs]: thread and tree of every `SliceRef` or `Borrow`. *)
Record mworld : Type := mkM {
  m_home : list nat; m_trees : list mtree; m_views : list (option (vkind * nat * nat)); m_refs : list (option (nat * nat)) }.
Definition mstart : mworld := mkM [] [] [] [].

(** An access of a thread to a slice; exclusive when it can change, move or drop the slice. *)
Record access : Type := mkA { a_thread : nat; a_slice : nat; a_excl : bool }.

Definition holds (i : nat) (t : mtree) : bool := existsb (Nat.eqb i) (t_slices t).
(** The number of trees holding a slice: the strong count of its node. *)
Definition holders (w : mworld) (i : nat) : nat := length (filter (holds i) (m_trees w)).
Definition viewed (w : mworld) (j : nat) : bool :=
  existsb (fun v => match v with Some (_, _, j') => j' =? j | None => false end) (m_views w).

Definition owned (w : mworld) (t j : nat) : option mtree :=
  match nth_error (m_trees w) j with
  | Some x => match t_owner x with Some t' => if t' =? t then Some x else None | None => None end
  | None => None
  end.
(** Thread [t] owns tree [j] and nothing borrows it: it has `&mut` access. *)
Definition owned_mut (w : mworld) (t j : nat) : option mtree := if viewed w j then None else owned w t j.
Definition view_of (w : mworld) (v : nat) : option (vkind * nat * nat) :=
  match nth_error (m_views w) v with Some x => x | None => None end.
Definition ref_of (w : mworld) (r : nat) : option (nat * nat) :=
  match nth_error (m_refs w) r with Some x => x | None => None end.

Fixpoint set_nth {A} (n : nat) (x : A) (l : list A) : list A :=
  match l, n with
  | [], _ => []
  | _ :: l', O => x :: l'
  | y :: l', S n' => y :: set_nth n' x l'
  end.
Definition put_tree (w : mworld) (j : nat) (x : mtree) : mworld := mkM (m_home w) (set_nth j x (m_trees w)) (m_views w) (m_refs w).
Definition drop_slice (i : nat) (x : mtree) : mtree := mkT (t_owner x) (filter (fun k => negb (k =? i)) (t_slices x)).

(** The steps.  [t] is the thread that makes the step. *)
Inductive mact : Type :=
| ANew (t : nat) (* `RleTree::new_empty` *)
| AAdd (t j : nat) (* insertion: a slice given to `insert`, or the second half of a split *)
| ACopy (t j i : nat) (* insertion into a shared node: `clone_slice` (src/param.rs 299-303) *)
| AMut (t j i : nat) (* insertion: a slice of a node that is not shared is split, joined or moved *)
| ARelease (t j i : nat) (* a node, or a slice, is given up; dropped when no other tree has it *)
| ADrop (t j : nat) (* end of the drop of a tree, or `mem::forget` *)
| AClone (t j : nat) (* `RleTree::clone` on one's own tree *)
| ACloneView (t v : nat) (* `RleTree::clone` through a shared reference *)
| ARead (t j i : nat) | AReadView (t v i : nat) | AReadRef (t r i : nat)
| ASend (t t' j : nat) (* the tree is moved to another thread *)
| AView (k : vkind) (t j : nat) (* `&tree`, `get`, `iter` *)
| AViewOf (k : vkind) (t v : nat) (* the same from `&tree`; an entry from an iterator *)
| AViewSend (t t' v : nat) | AEntryShare (t t' v : nat) | AViewEnd (t v : nat)
| AMakeRef (t j : nat) | AMakeRefView (t v : nat) | ARefClone (t r : nat) | ARefDrop (t r : nat)
| ARefRelease (t r i : nat) (* the last `Borrow` drops the nodes of a tree that is gone (src/tree/slice_ref.rs 1059-1105) *).

Definition new_slice (t : nat) (w : mworld) : nat * mworld :=
  (length (m_home w), mkM (m_home w ++ [t]) (m_trees w) (m_views w) (m_refs w)).

(** A clone of a tree with contents [l]: without features every slice is cloned (`deep_clone`, src/tree/mod.rs
    765-784); with AllowCow the root is shared (786-806). *)
Definition clone_tree (c : param) (t : nat) (l : list nat) (w : mworld) : option (list access * mworld) :=
  match c with
  | NoFeatures =>
    Some (map (fun i => mkA t i false) l,
      mkM (m_home w ++ repeat t (length l)) (m_trees w ++ [mkT (Some t) (seq (length (m_home w)) (length l))]) (m_views w) (m_refs w))
  | AllowCow => Some ([], mkM (m_home w) (m_trees w ++ [mkT (Some t) l]) (m_views w) (m_refs w))
  | AllowSliceRefs => None
  end.

Definition add_view (w : mworld) (v : vkind * nat * nat) : mworld := mkM (m_home w) (m_trees w) (m_views w ++ [Some v]) (m_refs w).
Definition add_ref (w : mworld) (r : nat * nat) : mworld := mkM (m_home w) (m_trees w) (m_views w) (m_refs w ++ [Some r]).

Definition is_cow (c : param) : bool := match c with AllowCow => true | _ => false end.
Definition is_refs (c : param) : bool := match c with AllowSliceRefs => true | _ => false end.

(** Giving up slice [i] of tree [j] with contents [x]: it is dropped if no other tree holds it. *)
Definition give_up (w : mworld) (t j i : nat) (x : mtree) : list access * mworld :=
  (if holders w i =? 1 then [mkA t i true] else [], put_tree w j (drop_slice i x)).

(** One step; [None] when it cannot be made: the program does not type-check, or the step does not apply. *)
Definition mstep (c : param) (b : bounds) (w : mworld) (a : mact) : option (list access * mworld) :=
  match a with
  | ANew t => Some ([], mkM (m_home w) (m_trees w ++ [mkT (Some t) []]) (m_views w) (m_refs w))
  | AAdd t j =>
    match owned_mut w t j with
    | Some x => let (i, w1) := new_slice t w in Some ([], put_tree w1 j (mkT (t_owner x) (i :: t_slices x)))
    | None => None
    end
  | ACopy t j i =>
    match owned_mut w t j with
    | Some x =>
      if is_cow c && holds i x
      then let (i', w1) := new_slice t w in Some ([mkA t i false], put_tree w1 j (mkT (t_owner x) (i' :: t_slices x)))
      else None
    | None => None
    end
  | AMut t j i =>
    match owned_mut w t j with
    | Some x => if holds i x && (holders w i =? 1) then Some ([mkA t i true], w) else None
    | None => None
    end
  | ARelease t j i =>
    match owned_mut w t j with
    | Some x => if holds i x then Some (give_up w t j i x) else None
    | None => None
    end
  | ADrop t j =>
    match owned_mut w t j with
    | Some x => Some ([], put_tree w j (mkT None (t_slices x)))
    | None => None
    end
  | AClone t j => match owned w t j with Some x => clone_tree c t (t_slices x) w | None => None end
  | ACloneView t v =>
    match view_of w v with
    | Some (KRef, t', j) =>
      if t' =? t then match nth_error (m_trees w) j with Some x => clone_tree c t (t_slices x) w | None => None end else None
    | _ => None
    end
  | ARead t j i => match owned w t j with Some x => if holds i x then Some ([mkA t i false], w) else None | None => None end
  | AReadView t v i =>
    match view_of w v with
    | Some (_, t', j) =>
      if t' =? t then match nth_error (m_trees w) j with Some x => if holds i x then Some ([mkA t i false], w) else None | None => None end else None
    | None => None
    end
  | AReadRef t r i =>
    match ref_of w r with
    | Some (t', j) =>
      if t' =? t then match nth_error (m_trees w) j with Some x => if holds i x then Some ([mkA t i false], w) else None | None => None end else None
    | None => None
    end
  | ASend t t' j =>
    match owned_mut w t j with
    | Some x => if tree_send c b then Some ([], put_tree w j (mkT (Some t') (t_slices x))) else None
    | None => None
    end
  | AView k t j => match owned w t j with Some x => Some ([], add_view w (k, t, j)) | None => None end
  | AViewOf k t v =>
    match view_of w v with
    | Some (k0, t', j) =>
      if (t' =? t) && match k0, k with KRef, _ => true | KIter, KEntry => true | KEntry, KEntry => true | _, _ => false end
      then Some ([], add_view w (k, t, j)) else None
    | None => None
    end
  | AViewSend t t' v =>
    match view_of w v with
    | Some (k, t0, j) =>
      if (t0 =? t) && match k with KRef => tree_sync c b | KEntry => entry_send c b | KIter => iter_send c b end
      then Some ([], mkM (m_home w) (m_trees w) (set_nth v (Some (k, t', j)) (m_views w)) (m_refs w)) else None
    | None => None
    end
  | AEntryShare t t' v =>
    match view_of w v with
    | Some (KEntry, t0, j) => if (t0 =? t) && entry_sync c b then Some ([], add_view w (KEntry, t', j)) else None
    | _ => None
    end
  | AViewEnd t v =>
    match view_of w v with
    | Some (k, t0, j) => if t0 =? t then Some ([], mkM (m_home w) (m_trees w) (set_nth v None (m_views w)) (m_refs w)) else None
    | None => None
    end
  | AMakeRef t j => match owned w t j with Some x => if is_refs c then Some ([], add_ref w (t, j)) else None | None => None end
  | AMakeRefView t v =>
    match view_of w v with
    | Some (KEntry, t', j) => if (t' =? t) && is_refs c then Some ([], add_ref w (t, j)) else None
    | _ => None
    end
  | ARefClone t r => match ref_of w r with Some (t', j) => if t' =? t then Some ([], add_ref w (t, j)) else None | None => None end
  | ARefDrop t r =>
    match ref_of w r with
    | Some (t', j) => if t' =? t then Some ([], mkM (m_home w) (m_trees w) (m_views w) (set_nth r None (m_refs w))) else None
    | None => None
    end
  | ARefRelease t r i =>
    match ref_of w r with
    | Some (t', j) =>
      if t' =? t then
        match nth_error (m_trees w) j with
        | Some x => if holds i x && match t_owner x with None => true | Some _ => false end then Some (give_up w t j i x) else None
        | None => None
        end
      else None
    | None => None
    end
  end.

Fixpoint mrun (c : param) (b : bounds) (w : mworld) (l : list mact) : option (list access * mworld) :=
  match l with
  | [] => Some ([], w)
  | a :: l' =>
    match mstep c b w a with
    | Some (e, w1) => match mrun c b w1 l' with Some (e', w2) => Some (e ++ e', w2) | None => None end
    | None => None
    end
  end.

(** Thread [t] can get at slice [i]: through a tree it owns, a view or a reference. *)
Definition reaches (w : mworld) (t i : nat) : Prop :=
  exists j x, nth_error (m_trees w) j = Some x /\ In i (t_slices x) /\
    (t_owner x = Some t \/ (exists v k, view_of w v = Some (k, t, j)) \/ (exists r, ref_of w r = Some (t, j))).
