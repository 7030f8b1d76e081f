(** Calls of any number of threads on trees that may share nodes: what each call does, step by step, to the memory
    of Cow.v (src/tree/insert.rs, src/tree/mod.rs 275-358, 786-806).

    Cow.v leaves open what an insertion writes.  Here every insertion runs a program of steps that is computed from
    the tree it is called on: down the path that it takes, then back up, writing, splitting and linking nodes.
    Simplified: what a call writes to one node is written by its last step at that node; until the call is over no
    other thread can get at that node (C20).  Calls that panic are left out (Unwind.v). *)
From Coq Require Import List Arith Bool ZArith.
From Verif Require Import Base Index Slice Tree Insert LInsert LRef LCow Cow CowSpec.
Import ListNotations.

Section CowCall.
  Context {I S : Type} (X : index_ops I) (Y : slice_ops I S) (M : nat).
  Notation tree := (tree I S).
  Notation rle := (@rle I S).

  (** Everything in a node but the links (node.rs 435-592): the total size, and position and slice of each key. *)
  Definition ndata : Type := (option I * list (I * S))%type.
  Definition tdata (t : tree) : ndata :=
    match t with Nil => (None, []) | Node tot _ es => (Some tot, map fst es) end.
  (** `child_ptrs` (node.rs 580-592).  [Nil] is no node; what is said of it here does not matter. *)
  Definition below (t : tree) : list tree :=
    match t with Nil => [Nil] | Node _ c0 es => c0 :: map e_child es end.
  (** The nodes of a tree of height [h], with their links. *)
  Fixpoint rose_of (h : nat) (t : tree) : rose ndata :=
    Rose (tdata t) (match h with 0 => [] | Datatypes.S h' => map (rose_of h') (below t) end).
  Definition rle_rose (r : rle) : option (rose ndata) :=
    match r with None => None | Some r => Some (rose_of (r_height r) (r_node r)) end.

  (** The way down: where `find_insertion_point` goes (insert.rs 1229-1326), or on to the leaf to the right of a key
      that is cut (`insert_rhs`, insert.rs 1008-1029). *)
  Definition way (pl : plan) (fp : list nat) : list nat :=
    match pl with PRhs p hk k _ _ => fst (rhs_path p hk k) | _ => fp end.

  (** What has become of child [c] of a node that has become the nodes [news]: one node or, if it was split, two. *)
  Definition kid_news (c : nat) (r : rose ndata) (news : list (rose ndata)) : list (rose ndata) :=
    let ks := flat_map rkids news in
    firstn (if length ks =? length (rkids r) then 1 else 2) (skipn c ks).

  (** Steps at a node whose child [c] has become one node or two (`OpUpdateState::do_upward_step`, fix.rs 522-586;
      `BubbledInsertState::do_upward_step`, insert.rs 1925-2330).  Addresses are filled in later ([placed]). *)
  Definition level (c : nat) (kids news : list (rose ndata)) : list (ev ndata) :=
    match kids, news with
    | [_], [n] => [VWrite TAt (rdata n)]
    | _, [n] => [VAttach TAt (c + 1) 0 (rdata n)]                       (* insert.rs 1963-2037 *)
    | _, [l; r] =>                                                        (* insert.rs 2040-2329 *)
      if c =? M then [VSplit (M - 1) (rdata l) (rdata r) 0; VFirst 1 0; VPush 0 (rdata l)]
      else if M <? c then [VSplit M (rdata l) (rdata r) 0; VAttach (TNew 1) (c - (M + 1) + 1) 0 (rdata r)]
      else [VSplit (M - 1) (rdata l) (rdata r) 0; VAttach TAt (c + 1) 0 (rdata l)]
    | _, _ => []
    end.

  (** The way back up from the end of the path [q] to the node that was [r] and has become [news].  At the end of the
      path: a change of the node (insert.rs 844-958, fix.rs 522-586), or a leaf that is split (insert.rs 1338-1881);
      a leaf has no links, so it does not matter here where. *)
  Fixpoint ups (q : list nat) (r : rose ndata) (news : list (rose ndata)) : list (ev ndata) :=
    match q with
    | [] =>
      match news with
      | [n] => [VWrite TAt (rdata n)]
      | [l; n] => [VSplit 0 (rdata l) (rdata n) 0]
      | _ => []
      end
    | c :: q' =>
      match nth_error (rkids r) c with
      | Some k => ups q' k (kid_news c r news) ++ VUp :: level c (kid_news c r news) news
      | None => []
      end
    end.

  (** `insert_internal` (insert.rs 41-197) on tree [j], which was [r] and becomes [r']. *)
  Definition program (j : nat) (q : list nat) (r r' : rle) : list (ev ndata) :=
    match r, r' with
    | None, Some r1 => [VNew j 0 (tdata (r_node r1))]
    | Some r0, Some r1 =>
      let t := rose_of (r_height r0) (r_node r0) in
      let t' := rose_of (r_height r1) (r_node r1) in
      VInsert j :: map VChild q ++
      (if r_height r1 =? r_height r0 then ups q t [t']
       else ups q t (rkids t') ++ [VNewRoot 0 0 (rdata t')]) ++ [VEnd]       (* insert.rs 1938-1957 *)
    | _, None => []
    end.

  (** The allocator decides where a new node is (`alloc_aligned`, node.rs 2610-2632). *)
  Definition placed (a : addr) (e : ev ndata) : ev ndata :=
    match e with
    | VNew h _ d => VNew h a d
    | VSplit m d d' _ => VSplit m d d' a
    | VNewRoot _ r d => VNewRoot a r d
    | _ => e
    end.

  (** ** One after another: trees as values *)

  (** `new_empty`, `insert_with_cursor`, `clone` and drop (mod.rs 324-328, 695-701, 786-806, 275-294). *)
  Inductive call : Type :=
  | CNew
  | CInsert (nop : bool) (j : nat) (hints : list nat) (idx : I) (slice : S) (size : I)
  | CClone (j : nat)
  | CDrop (j : nat).

  (** [None]: there is no such tree, or the call panics. *)
  Definition seq1 (ts : list (option rle)) (c : call) : option (list (option rle)) :=
    match c with
    | CNew => Some (ts ++ [Some None])
    | CInsert nop j hints idx slice size =>
      match nth_error ts j with
      | Some (Some r) =>
        match insert_with_cursor X Y M nop r hints idx slice size with
        | Ok (r', _) => Some (replace_at j (Some r') ts)
        | _ => None
        end
      | _ => None
      end
    | CClone j => match nth_error ts j with Some (Some r) => Some (ts ++ [Some r]) | _ => None end
    | CDrop j => match nth_error ts j with Some (Some _) => Some (replace_at j None ts) | _ => None end
    end.
  Fixpoint seq (ts : list (option rle)) (cs : list call) : option (list (option rle)) :=
    match cs with
    | [] => Some ts
    | c :: cs' => match seq1 ts c with Some ts' => seq ts' cs' | None => None end
    end.

  (** ** All at once *)

  (** What a call does: its first step and the steps after it. *)
  Definition steps_of (ts : list (option rle)) (c : call) : option (ev ndata * list (ev ndata)) :=
    match c with
    | CNew => Some (VEmpty, [])
    | CClone j => Some (VClone j, [])
    | CDrop j => Some (VDrop j, [])
    | CInsert nop j hints idx slice size =>
      match nth_error ts j with
      | Some (Some r) =>
        match insert_with_cursor X Y M nop r hints idx slice size, insert_plan X Y r hints idx slice, find_path X Y r hints idx with
        | Ok (r', _), Ok pl, Ok fp =>
          match program j (way pl fp) r r' with e :: es => Some (e, es) | [] => None end
        | _, _, _ => None
        end
      | _ => None
      end
    end.

  (** The machine of Cow.v, what each thread has yet to do, and what the trees are once the calls that have been
      started are over.  A thread uses the last only to compute what a call does. *)
  Record client : Type := { k_c : cstate ndata; k_todo : list (list (ev ndata)); k_trees : list (option rle) }.
  Definition kstart (threads : nat) : client := {| k_c := start threads; k_todo := repeat [] threads; k_trees := [] |}.

  (** A thread starts a call (its first new node, if any, at [a]); takes the next step of its call; takes a step that
      only concerns sharing (counting, copying, freeing; [VFix], [VShared] of Cow.v); or reads. *)
  Inductive act : Type :=
  | KCall (t : nat) (c : call) (a : addr)
  | KNext (t : nat) (a : addr)
  | KStep (t : nat) (a : addr) | KShared (t : nat) | KFix (t : nat) (tg : target) (i : nat)
  | KRead (t : nat) (j : nat) | KDown (t : nat) (i : nat) | KReadEnd (t : nat).

  Definition machine (k : client) (t : nat) (e : ev ndata) : option (cstate ndata) :=
    match cstep (k_c k) t e with Next s _ => Some s | _ => None end.
  Definition only (k : client) (t : nat) (e : ev ndata) : option client :=
    match machine k t e with Some s => Some {| k_c := s; k_todo := k_todo k; k_trees := k_trees k |} | None => None end.

  (** [None]: not possible in this state, as when another thread has borrowed the tree. *)
  Definition kstep (k : client) (x : act) : option client :=
    match x with
    | KCall t c a =>
      match nth_error (k_todo k) t, steps_of (k_trees k) c, seq1 (k_trees k) c with
      | Some [], Some (e, es), Some ts =>
        match machine k t (placed a e) with
        | Some s => Some {| k_c := s; k_todo := replace_at t es (k_todo k); k_trees := ts |}
        | None => None
        end
      | _, _, _ => None
      end
    | KNext t a =>
      match nth_error (k_todo k) t with
      | Some (e :: es) =>
        match machine k t (placed a e) with
        | Some s => Some {| k_c := s; k_todo := replace_at t es (k_todo k); k_trees := k_trees k |}
        | None => None
        end
      | _ => None
      end
    | KStep t a => only k t (VStep a)
    | KShared t => only k t VShared
    | KFix t tg i => only k t (VFix tg i)
    | KRead t j => only k t (VRead j)
    | KDown t i => only k t (VDown i)
    | KReadEnd t => only k t VReadEnd
    end.
  Fixpoint krun (k : client) (xs : list act) : option client :=
    match xs with
    | [] => Some k
    | x :: xs' => match kstep k x with Some k' => krun k' xs' | None => None end
    end.

  Definition who (x : act) : nat :=
    match x with
    | KCall t _ _ | KNext t _ | KStep t _ | KShared t | KFix t _ _ | KRead t _ | KDown t _ | KReadEnd t => t
    end.
  (** The calls that have been started, in the order in which they were. *)
  Definition calls (xs : list act) : list call := flat_map (fun x => match x with KCall _ c _ => [c] | _ => [] end) xs.
End CowCall.

(** The calls of LRef.v, whose arguments are integers. *)
Definition as_call {I S : Type} (inj : Z -> I) (nop : bool) (c : @mcall S) : @call I S :=
  match c with
  | MNew => CNew
  | MInsert j hints idx x n => CInsert nop j hints (inj idx) x (inj n)
  | MClone j => CClone j
  | MDrop j => CDrop j
  end.
