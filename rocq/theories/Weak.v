(** The orderings of the atomics in src/tree/cow.rs.

    The machine of Cow.v, but with the weak memory of Rust and C++ instead of sequential consistency.  Every count
    has the list of its values in modification order; a read-modify-write reads the newest, a load may read any that
    its thread does not know to be overwritten.  What a thread knows is the set of earlier steps that happen before
    its next one.  A release write makes what its thread knows part of the value; an acquire read adds it to what the
    reader knows; a read-modify-write carries on what the value before it had (release sequences).

    Steps are still taken in some order, and reads read from earlier writes (there is no load buffering, as in RC11).
    What Rust itself guarantees about handles is built in: who starts to use a tree by `&` knows the last use by
    `&mut` before it, and who starts to use a tree by `&mut` or by value knows all uses before it.  So is what the
    allocator guarantees: who is given memory knows what was done before it was freed. *)
From Coq Require Import List Arith Bool.
From Verif Require Import Base Cow CowSpec.
Import ListNotations.

Inductive ord : Type := Relaxed | Acquire | Release | AcqRel.
Definition acquires (o : ord) : bool := match o with Acquire | AcqRel => true | _ => false end.
Definition releases (o : ord) : bool := match o with Release | AcqRel => true | _ => false end.

(** The orderings of the load in `is_unique`, the `fetch_add` in `increment`, the `fetch_sub` in `decrement` and the
    load after it (cow.rs 26-30, 32-41, 43-61). *)
Record ords : Type := { o_unique : ord; o_inc : ord; o_dec : ord; o_last : ord }.
Definition code_ords : ords := {| o_unique := Acquire; o_inc := Relaxed; o_dec := Release; o_last := Acquire |}.

(** Steps are numbered; [evs] is a set of steps. *)
Definition evs := list nat.

(** A value of a count: the number, what reading it with acquire ordering gives, and the step that wrote it. *)
Record msg : Type := { g_val : nat; g_view : evs; g_ev : nat }.

(** How a step uses a node: it reads or writes fields other than the count, it uses the count, or it allocates or
    frees the node. *)
Inductive kind : Type := KRead | KWrite | KCount | KWhole.
Definition conflict (k k' : kind) : bool :=
  match k, k' with
  | KWhole, _ | _, KWhole => true
  | KWrite, KWrite | KWrite, KRead | KRead, KWrite => true
  | _, _ => false
  end.

(** One use of a node, with the steps that happen before it. *)
Record access : Type := { x_addr : addr; x_kind : kind; x_hb : evs }.

Definition upd {A} (f : nat -> A) (k : nat) (v : A) : nat -> A := fun x => if x =? k then v else f x.

Section Weak.
  Context {D : Type}.
  Variable o : ords.

  (** [w_s]: the machine of Cow.v; counts in it are the newest values.  [w_k]: what each thread knows.  [w_hist]: the
      values of each count, newest first.  [w_hw], [w_hr]: for each tree, what was known at the end of its last
      use by `&mut`, and what was known at the ends of all its uses.  [w_gone]: for freed memory, what was known when
      it was freed.  [w_log]: the steps so far, oldest first: thread and uses. *)
  Record wstate : Type := {
    w_s : cstate D; w_k : nat -> evs; w_hist : addr -> list msg; w_hw : nat -> evs; w_hr : nat -> evs; w_gone : addr -> evs;
    w_log : list (nat * list access)
  }.

  Definition wstart (threads : nat) : wstate :=
    {| w_s := start threads; w_k := fun _ => []; w_hist := fun _ => []; w_hw := fun _ => []; w_hr := fun _ => []; w_gone := fun _ => []; w_log := [] |}.

  (** The node whose parent a [VFix] is about. *)
  Definition fix_kid (s : cstate D) (a : addr) (fl : list addr) (tg : target) (i : nat) : option addr :=
    match pick a fl tg with
    | Some b => match look (c_mem s) b with Some nb => nth_error (n_kids nb) i | None => None end
    | None => None
    end.

  (** The child whose count [shallow_clone] is about to increment (node.rs 1060-1082). *)
  Definition next_kid (s : cstate D) (h : nat) (fr : list (addr * nat)) (done : list addr) : option addr :=
    match slot s h fr with
    | Some a => match look (c_mem s) a with Some n => nth_error (n_kids n) (length done) | None => None end
    | None => None
    end.

  (** The atomic operation of a step. *)
  Inductive aop : Type := ANone | ALoad (a : addr) (r : ord) | AAdd (a : addr) | ASub (a : addr).
  Definition oload (a : option addr) (r : ord) : aop := match a with Some a => ALoad a r | None => ANone end.
  Definition atomic (s : cstate D) (t : nat) (e : ev D) : aop :=
    match nth_error (c_threads s) t, e with
    | Some PIdle, VClone h => match nth_error (c_handles s) h with Some (Some (Some a)) => AAdd a | _ => ANone end
    | Some (PEns h fr ELoad), VStep _ => oload (slot s h fr) (o_unique o)
    | Some (PEns h fr (EInc _ _ done)), VStep _ => match next_kid s h fr done with Some c => AAdd c | None => ANone end
    | Some (PDrop (WDec a :: _)), VStep _ | Some (PEns _ _ (EWork _ (WDec a :: _))), VStep _ => ASub a
    | Some (PDrop (WFree a :: _)), VStep _ | Some (PEns _ _ (EWork _ (WFree a :: _))), VStep _ => ALoad a (o_last o)
    | Some (PAt _ _ a fl _), VFix tg i => oload (fix_kid s a fl tg i) (o_unique o)
    | _, _ => ANone
    end.

  (** The node that a step allocates. *)
  Definition allocates (s : cstate D) (t : nat) (e : ev D) : option addr :=
    match nth_error (c_threads s) t, e with
    | Some PIdle, VNew _ a _ => Some a
    | Some (PEns h fr (EInc _ _ done)), VStep a => match next_kid s h fr done with Some _ => None | None => Some a end
    | Some (PAt _ _ _ _ _), VSplit _ _ _ a | Some (PAt _ _ _ _ _), VNewRoot a _ _ => Some a
    | _, _ => None
    end.

  (** The node that a step frees. *)
  Definition releases_mem (s : cstate D) (t : nat) (e : ev D) : option addr :=
    match nth_error (c_threads s) t, e with
    | Some (PDrop (WFree a :: _)), VStep _ | Some (PEns _ _ (EWork _ (WFree a :: _))), VStep _ => Some a
    | _, _ => None
    end.

  (** What the thread learns because of the handle it starts to use, or the memory it is given. *)
  Definition joins (w : wstate) (t : nat) (e : ev D) : evs :=
    match e with
    | VRead h | VClone h => w_hw w h
    | VNew h _ _ | VDrop h | VInsert h => w_hw w h ++ w_hr w h
    | _ => []
    end ++ match allocates (w_s w) t e with Some a => w_gone w a | None => [] end.

  Definition known (k : evs) (m : msg) : bool := existsb (Nat.eqb (g_ev m)) k.

  (** What an atomic operation of a thread that knows [k] reads: the value, and what it learns.  [j] says which value
      a load reads, 0 being the newest; no newer one may be known. *)
  Definition got (r : ord) (m : msg) : evs := if acquires r then g_view m else [].
  Definition newest (w : wstate) (a : addr) : msg := match w_hist w a with m :: _ => m | [] => {| g_val := 0; g_view := []; g_ev := 0 |} end.
  Definition reads_count (w : wstate) (k : evs) (x : aop) (j : nat) : option (nat * evs) :=
    match x with
    | ANone => Some (0, [])
    | ALoad a r =>
      match nth_error (w_hist w a) j with
      | Some m => if existsb (known k) (firstn j (w_hist w a)) then None else Some (g_val m, got r m)
      | None => None
      end
    | AAdd a => Some (g_val (newest w a), got (o_inc o) (newest w a))
    | ASub a => Some (g_val (newest w a), got (o_dec o) (newest w a))
    end.

  (** The new value that a read-modify-write writes. *)
  Definition message (w : wstate) (a : addr) (v : nat) (r : ord) (k : evs) : list msg :=
    {| g_val := v; g_view := (if releases r then k else []) ++ g_view (newest w a); g_ev := length (w_log w) |} :: w_hist w a.
  Definition hist' (w : wstate) (t : nat) (e : ev D) (k : evs) : addr -> list msg :=
    match atomic (w_s w) t e, allocates (w_s w) t e with
    | AAdd a, _ => upd (w_hist w) a (message w a (g_val (newest w a) + 1) (o_inc o) k)
    | ASub a, _ => upd (w_hist w) a (message w a (g_val (newest w a) - 1) (o_dec o) k)
    | _, Some a => upd (w_hist w) a [{| g_val := 1; g_view := []; g_ev := length (w_log w) |}]
    | _, None => w_hist w
    end.

  (** What is known at the end of uses of trees. *)
  Definition hw' (w : wstate) (t : nat) (e : ev D) (k : evs) : nat -> evs :=
    match nth_error (c_threads (w_s w)) t, e with
    | _, VEmpty | _, VClone _ => upd (w_hw w) (length (c_handles (w_s w))) k
    | _, VNew h _ _ => upd (w_hw w) h k
    | Some (PEns h _ _), VAbort | Some (PAt h _ _ _ _), VAbort | Some (PAt h _ _ _ _), VEnd => upd (w_hw w) h k
    | _, _ => w_hw w
    end.
  Definition hr' (w : wstate) (t : nat) (e : ev D) (k : evs) : nat -> evs :=
    match nth_error (c_threads (w_s w)) t, e with
    | _, VEmpty => upd (w_hr w) (length (c_handles (w_s w))) k
    | _, VClone h => upd (upd (w_hr w) h (k ++ w_hr w h)) (length (c_handles (w_s w))) k
    | _, VNew h _ _ => upd (w_hr w) h k
    | Some (PRead h _ _), VReadEnd => upd (w_hr w) h (k ++ w_hr w h)
    | Some (PEns h _ _), VAbort | Some (PAt h _ _ _ _), VAbort | Some (PAt h _ _ _ _), VEnd => upd (w_hr w) h k
    | _, _ => w_hr w
    end.

  (** Nodes of which a step reads or writes fields other than the count; [v] is the value of the count that was read. *)
  Definition rd_nodes (s : cstate D) (t : nat) (e : ev D) : list addr :=
    match nth_error (c_threads s) t, e with
    | Some PIdle, VRead h => match nth_error (c_handles s) h with Some (Some (Some a)) => [a] | _ => [] end
    | Some (PRead _ _ a), VDown i => a :: match look (c_mem s) a with Some n => olist (nth_error (n_kids n) i) | None => [] end
    | Some (PEns h fr ELoad), VStep _ | Some (PEns h fr (EInc _ _ _)), VStep _ => map fst fr ++ olist (slot s h fr)
    | Some (PAt _ fr a fl _), _ => map fst fr ++ a :: fl
    | _, _ => []
    end.
  Definition wr_nodes (s : cstate D) (t : nat) (e : ev D) (v : nat) : list addr :=
    match nth_error (c_threads s) t, e with
    | Some (PEns _ fr (EInc _ _ _)), VStep _ => olist (option_map fst (hd_error fr))
    | Some (PEns _ _ (EPar a)), VStep _ => [a]
    | Some (PAt _ _ a fl _), VWrite tg _ | Some (PAt _ _ a fl _), VAttach tg _ _ _ => olist (pick a fl tg)
    | Some (PAt _ _ a _ _), VSplit _ _ _ _ | Some (PAt _ _ a _ _), VPush _ _ => [a]
    | Some (PAt _ _ a fl _), VFirst j r => olist (nth_error fl j) ++ olist (nth_error fl r)
    | Some (PAt _ _ a fl _), VNewRoot _ r _ => a :: olist (nth_error fl r)
    | Some (PAt _ _ a fl _), VFix tg i => if v =? 1 then olist (fix_kid s a fl tg i) else []
    | _, _ => []
    end.
  Definition op_node (x : aop) : list addr := match x with ANone => [] | ALoad a _ | AAdd a | ASub a => [a] end.

  (** The uses of nodes in a step.  [k]: what is known before its atomic operation; [k2]: after it. *)
  Definition uses_of (s : cstate D) (t : nat) (e : ev D) (v : nat) (k k2 : evs) : list access :=
    map (fun a => {| x_addr := a; x_kind := KRead; x_hb := k |}) (rd_nodes s t e) ++
    map (fun a => {| x_addr := a; x_kind := KCount; x_hb := k |}) (op_node (atomic s t e)) ++
    map (fun a => {| x_addr := a; x_kind := KWhole; x_hb := k |}) (olist (allocates s t e)) ++
    map (fun a => {| x_addr := a; x_kind := KWrite; x_hb := k2 |}) (wr_nodes s t e v) ++
    map (fun a => {| x_addr := a; x_kind := KWhole; x_hb := k2 |}) (olist (releases_mem s t e)).

  (** The step of Cow.v, except that `is_unique` goes by the value that was read. *)
  Definition vstep (s : cstate D) (t : nat) (e : ev D) (v : nat) : sres D :=
    match nth_error (c_threads s) t, e with
    | Some (PEns h fr ELoad), VStep _ =>
      match slot s h fr with
      | None => Bad
      | Some a =>
        match look (c_mem s) a with
        | None => Bad
        | Some n => Next (go s t (PEns h fr (if v =? 1 then EPar a else EInc (n_data n) (n_par n) []))) None
        end
      end
    | Some (PAt _ _ a fl _), VFix tg i =>
      match look (c_mem s) a with
      | None => Bad
      | Some _ =>
        match pick a fl tg with
        | Some b =>
          match look (c_mem s) b with
          | Some nb =>
            match nth_error (n_kids nb) i with
            | Some c =>
              match look (c_mem s) c with
              | Some nc => Next (if v =? 1 then mem s (put (c_mem s) c (with_par nc (Some (b, i)))) else s) None
              | None => Bad
              end
            | None => Blocked
            end
          | None => Bad
          end
        | None => Blocked
        end
      end
    | _, VShared => Blocked
    | _, _ => cstep s t e
    end.

  Inductive wres : Type := WBlocked | WBad | WNext (w : wstate) (b : option D).

  Definition wstep (w : wstate) (t : nat) (e : ev D) (j : nat) : wres :=
    let k := w_k w t ++ joins w t e in
    match reads_count w k (atomic (w_s w) t e) j with
    | None => WBlocked
    | Some (v, g) =>
      let k2 := length (w_log w) :: g ++ k in
      match vstep (w_s w) t e v with
      | Blocked => WBlocked
      | Bad => WBad
      | Next s' b =>
        WNext {| w_s := s'; w_k := upd (w_k w) t k2; w_hist := hist' w t e k2; w_hw := hw' w t e k2; w_hr := hr' w t e k2;
                 w_gone := match releases_mem (w_s w) t e with Some a => upd (w_gone w) a k2 | None => w_gone w end;
                 w_log := w_log w ++ [(t, uses_of (w_s w) t e v k k2)] |} b
      end
    end.

  (** A history: each step with its thread and, if it loads a count, which value it reads. *)
  Fixpoint wrun (w : wstate) (es : list (nat * ev D * nat)) : option (list (obs D) * wstate) :=
    match es with
    | [] => Some ([], w)
    | (t, e, j) :: es' =>
      match wstep w t e j with
      | WBlocked => None
      | WBad => Some ([BBad], w)
      | WNext w' b =>
        match wrun w' es' with
        | Some (os, w2) => Some (match b with Some d => BData d | None => BNone end :: os, w2)
        | None => None
        end
      end
    end.

  (** Two steps use the same part of a node, not both only reading it, and the second does not know the first. *)
  Definition race (w : wstate) : Prop :=
    exists i j t t' xs ys x y, i < j /\ nth_error (w_log w) i = Some (t, xs) /\ nth_error (w_log w) j = Some (t', ys) /\ In x xs /\ In y ys /\
    x_addr x = x_addr y /\ conflict (x_kind x) (x_kind y) = true /\ ~ In i (x_hb y).
End Weak.
Arguments wstate : clear implicits.
Arguments wres : clear implicits.
