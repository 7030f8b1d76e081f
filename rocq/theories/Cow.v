(** Copy on write: nodes shared between trees, in any number of threads (src/tree/cow.rs, and the parts of
    src/tree/node.rs, src/tree/mod.rs and src/tree/insert.rs that own, copy, free and link nodes).

    A step of the machine is one access to shared memory (a load, `fetch_add` or `fetch_sub` of a count, one
    allocation, one deallocation) with the accesses to unshared memory around it.  Steps of different threads are
    interleaved in any order and see the newest counts, except for [VShared]; the orderings of the atomics are in
    Weak.v, where every history is shown to be one of these.  The machine does not decide what
    an insertion writes: the caller of each step chooses, so an insertion is one of many sequences of steps.
    Counts are unbounded (cow.rs 38-40 panics above `isize::MAX`). *)
From Coq Require Import List Arith Bool.
From Verif Require Import Base.
Import ListNotations.

Definition addr := nat.

Section Cow.
  Context {D : Type}.

  (** A node (node.rs 435-573, 580-592): [n_data] is everything but the fields below; [n_kids] is `child_ptrs`, empty
      in a leaf; [n_cnt] is `strong_count`; [n_par] is `parent` with `idx_in_parent`.  [n_h] is the height, which
      the code keeps next to each pointer instead. *)
  Record cnode : Type := { n_data : D; n_kids : list addr; n_cnt : nat; n_par : option (addr * nat); n_h : nat }.

  (** Memory: every address that was ever used holds a node or is free. *)
  Definition heap := list (option cnode).
  Definition look (m : heap) (a : addr) : option cnode := match nth_error m a with Some (Some n) => Some n | _ => None end.
  Definition put (m : heap) (a : addr) (n : cnode) : heap := replace_at a (Some n) m.
  (** `alloc_aligned` (node.rs 2610-2632): any address that is free, used before or not. *)
  Definition alloc (m : heap) (a : addr) (n : cnode) : option heap :=
    if a =? length m then Some (m ++ [Some n])
    else match nth_error m a with Some None => Some (put m a n) | _ => None end.
  (** `dealloc_aligned` (node.rs 2634-2648) *)
  Definition free (m : heap) (a : addr) : heap := replace_at a None m.

  Definition with_cnt (n : cnode) (c : nat) : cnode :=
    {| n_data := n_data n; n_kids := n_kids n; n_cnt := c; n_par := n_par n; n_h := n_h n |}.
  Definition with_par (n : cnode) (p : option (addr * nat)) : cnode :=
    {| n_data := n_data n; n_kids := n_kids n; n_cnt := n_cnt n; n_par := p; n_h := n_h n |}.
  Definition with_body (n : cnode) (d : D) (ks : list addr) : cnode :=
    {| n_data := d; n_kids := ks; n_cnt := n_cnt n; n_par := n_par n; n_h := n_h n |}.

  (** What a thread still has to give back: a reference to be counted down (`try_drop`, node.rs 1586-1599), or a node
      whose count it has taken to zero (`do_drop`, node.rs 1846-1937). *)
  Inductive work : Type := WDec (a : addr) | WFree (a : addr).

  (** Inside `ensure_unique` (node.rs 2583-2608), then `into_child` (2043-2088). [ELoad]: about to read the count.
      [EInc d p done]: in `shallow_clone` (1012-1087), with the data and parent already read and the counts of the
      children in [done] already incremented.  [EWork a w]: the slot now points at the copy [a].  [EPar a]: about to
      set the parent of [a] (2066-2076; `remove_parent` for a root, insert.rs 100-102). *)
  Inductive ens : Type :=
  | ELoad | EInc (d : D) (p : option (addr * nat)) (done : list addr) | EWork (a : addr) (w : list work) | EPar (a : addr).

  (** What a thread is doing: nothing; reading through a shared borrow of tree [h], having followed the child indexes
      [is] (last first) to node [a]; dropping; inserting into tree [h], about to make unique the node in slot [fr];
      inserting, with unique access to the nodes in [fr] and to [a], while holding the new nodes [fl] and references
      [old] that are not in any tree.  [fr] lists nodes and child indexes, last first. *)
  Inductive pc : Type :=
  | PIdle
  | PRead (h : nat) (is : list nat) (a : addr)
  | PDrop (w : list work)
  | PEns (h : nat) (fr : list (addr * nat)) (e : ens)
  | PAt (h : nat) (fr : list (addr * nat)) (a : addr) (fl old : list addr).

  (** [c_handles]: the values of type RleTree: dropped, empty, or with a root. *)
  Record cstate : Type := { c_mem : heap; c_handles : list (option (option addr)); c_threads : list pc }.

  Definition start (threads : nat) : cstate := {| c_mem := []; c_handles := []; c_threads := repeat PIdle threads |}.

  (** A node that the inserting thread may write: the one it is at, or one of the new ones. *)
  Inductive target : Type := TAt | TNew (j : nat).

  Inductive ev : Type :=
  | VEmpty | VNew (h : nat) (a : addr) (d : D) | VClone (h : nat) | VDrop (h : nat)
  | VRead (h : nat) | VDown (i : nat) | VReadEnd
  | VInsert (h : nat) | VStep (a : addr) | VChild (i : nat)
  | VWrite (t : target) (d : D) | VSplit (m : nat) (d d' : D) (a : addr)
  | VAttach (t : target) (k : nat) (r : nat) (d : D) | VFirst (j r : nat) | VPush (c : nat) (d : D)
  | VNewRoot (a : addr) (r : nat) (d : D) | VFix (t : target) (i : nat) | VUp | VEnd | VAbort | VShared.

  Definition remove_nth {A} (j : nat) (l : list A) : list A := firstn j l ++ skipn (j + 1) l.

  Definition writes (h : nat) (p : pc) : bool :=
    match p with PEns h' _ _ | PAt h' _ _ _ _ => h =? h' | _ => false end.
  Definition uses (h : nat) (p : pc) : bool :=
    match p with PRead h' _ _ => h =? h' | _ => writes h p end.

  (** The pointer that an insertion is about to follow: the root pointer of the tree, or a child pointer. *)
  Definition slot (s : cstate) (h : nat) (fr : list (addr * nat)) : option addr :=
    match fr with
    | [] => match nth_error (c_handles s) h with Some (Some r) => r | _ => None end
    | (p, i) :: _ => match look (c_mem s) p with Some n => nth_error (n_kids n) i | None => None end
    end.

  Inductive sres : Type := Blocked | Bad | Next (s : cstate) (o : option D).

  Definition go (s : cstate) (t : nat) (p : pc) : cstate :=
    {| c_mem := c_mem s; c_handles := c_handles s; c_threads := replace_at t p (c_threads s) |}.
  Definition mem (s : cstate) (m : heap) : cstate := {| c_mem := m; c_handles := c_handles s; c_threads := c_threads s |}.
  Definition hand (s : cstate) (h : nat) (r : option (option addr)) : cstate :=
    {| c_mem := c_mem s; c_handles := replace_at h r (c_handles s); c_threads := c_threads s |}.

  Definition set_slot (s : cstate) (h : nat) (fr : list (addr * nat)) (a : addr) : option cstate :=
    match fr with
    | [] => Some (hand s h (Some (Some a)))
    | (p, i) :: _ =>
      match look (c_mem s) p with
      | Some n => Some (mem s (put (c_mem s) p (with_body n (n_data n) (replace_at i a (n_kids n)))))
      | None => None
      end
    end.

  (** One step of giving back (`try_drop`, `do_drop`).  The node is freed before its children are looked at. *)
  Definition work_step (m : heap) (w : work) : option (heap * list work) :=
    match w with
    | WDec a =>
      match look m a with
      | Some n =>
        match n_cnt n with
        | 0 => None
        | 1 => Some (put m a (with_cnt n 0), [WFree a])
        | S c => Some (put m a (with_cnt n c), [])
        end
      | None => None
      end
    | WFree a =>
      match look m a with
      | Some n => Some (free m a, map WDec (n_kids n))
      | None => None
      end
    end.

  Definition ens_step (s : cstate) (t h : nat) (fr : list (addr * nat)) (e : ens) (new : addr) : sres :=
    match e with
    | ELoad =>
      match slot s h fr with
      | None => Bad
      | Some a =>
        match look (c_mem s) a with
        | None => Bad
        | Some n => Next (go s t (PEns h fr (if n_cnt n =? 1 then EPar a else EInc (n_data n) (n_par n) []))) None
        end
      end
    | EInc d p done =>
      match slot s h fr with
      | None => Bad
      | Some a =>
        match look (c_mem s) a with
        | None => Bad
        | Some n =>
          match nth_error (n_kids n) (length done) with
          | Some c =>
            match look (c_mem s) c with
            | None => Bad
            | Some k => Next (go (mem s (put (c_mem s) c (with_cnt k (n_cnt k + 1)))) t (PEns h fr (EInc d p (done ++ [c])))) None
            end
          | None =>
            match alloc (c_mem s) new {| n_data := d; n_kids := n_kids n; n_cnt := 1; n_par := p; n_h := n_h n |} with
            | None => Blocked
            | Some m =>
              match set_slot (mem s m) h fr new with
              | Some s' => Next (go s' t (PEns h fr (EWork new [WDec a]))) None
              | None => Bad
              end
            end
          end
        end
      end
    | EWork a [] => Next (go s t (PEns h fr (EPar a))) None
    | EWork a (w :: ws) =>
      match work_step (c_mem s) w with
      | Some (m, ws') => Next (go (mem s m) t (PEns h fr (EWork a (ws' ++ ws)))) None
      | None => Bad
      end
    | EPar a =>
      match look (c_mem s) a with
      | Some n => Next (go (mem s (put (c_mem s) a (with_par n (hd_error fr)))) t (PAt h fr a [] [])) None
      | None => Bad
      end
    end.

  Definition pick (a : addr) (fl : list addr) (t : target) : option addr :=
    match t with TAt => Some a | TNew j => nth_error fl j end.

  (** Steps with unique access to node [a] and to the new nodes. *)
  Definition at_step (s : cstate) (t h : nat) (fr : list (addr * nat)) (a : addr) (fl old : list addr) (e : ev) : sres :=
    match look (c_mem s) a with
    | None => Bad
    | Some n =>
      match e with
      | VChild i =>    (* `into_child` on a mutable handle (insert.rs 1015, 1319) *)
        if (i <? length (n_kids n)) && (length fl + length old =? 0) then Next (go s t (PEns h ((a, i) :: fr) ELoad)) None else Blocked
      | VWrite tg d => (* any change of keys, slices, positions or sizes in a node *)
        match pick a fl tg with
        | None => Blocked
        | Some b =>
          match look (c_mem s) b with
          | None => Bad
          | Some nb => Next (mem s (put (c_mem s) b (with_body nb d (n_kids nb)))) None
          end
        end
      | VSplit m d d' new =>  (* `split` (node.rs 1372-1569) *)
        if (n_h n =? 0) || (m + 1 <? length (n_kids n)) then
          match alloc (c_mem s) new {| n_data := d'; n_kids := skipn (m + 1) (n_kids n); n_cnt := 1; n_par := None; n_h := n_h n |} with
          | None => Blocked
          | Some mm => Next (go (mem s (put mm a (with_body n d (firstn (m + 1) (n_kids n))))) t (PAt h fr a (fl ++ [new]) old)) None
          end
        else Blocked
      | VAttach tg k r d =>   (* `insert_key_and_child` (node.rs 2453-2572), except for the parents *)
        match pick a fl tg, nth_error fl r with
        | Some b, Some c =>
          match look (c_mem s) b, look (c_mem s) c with
          | Some nb, Some nc =>
            if negb (b =? c) && (n_h nb =? n_h nc + 1) && (k <=? length (n_kids nb)) then
              Next (go (mem s (put (c_mem s) b (with_body nb d (insert_at k c (n_kids nb))))) t (PAt h fr a (remove_nth r fl) old)) None
            else Blocked
          | _, _ => Bad
          end
        | _, _ => Blocked
        end
      | VFirst j r =>         (* `replace_first_child` (node.rs 2308-2345) *)
        match nth_error fl j, nth_error fl r with
        | Some b, Some c =>
          match look (c_mem s) b, look (c_mem s) c with
          | Some nb, Some nc =>
            match n_kids nb with
            | x :: ks =>
              if negb (b =? c) && (n_h nb =? n_h nc + 1) then
                Next (go (mem s (put (put (c_mem s) b (with_body nb (n_data nb) (c :: ks))) c (with_par nc (Some (b, 0))))) t
                         (PAt h fr a (remove_nth r fl) (old ++ [x]))) None
              else Blocked
            | [] => Blocked
            end
          | _, _ => Bad
          end
        | _, _ => Blocked
        end
      | VPush c d =>          (* `push_key_and_child` (node.rs 2361-2425), except for the parent *)
        match nth_error old c with
        | Some b =>
          match look (c_mem s) b with
          | Some nb =>
            if n_h n =? n_h nb + 1 then
              Next (go (mem s (put (c_mem s) a (with_body n d (n_kids n ++ [b])))) t (PAt h fr a fl (remove_nth c old))) None
            else Blocked
          | None => Bad
          end
        | None => Blocked
        end
      | VNewRoot new r d =>   (* `make_new_parent` (node.rs 1689-1792) *)
        match fr, nth_error fl r with
        | [], Some b =>
          match look (c_mem s) b with
          | Some nb =>
            if n_h nb =? n_h n then
              match alloc (put (put (c_mem s) a (with_par n (Some (new, 0)))) b (with_par nb (Some (new, 1)))) new
                          {| n_data := d; n_kids := [a; b]; n_cnt := 1; n_par := None; n_h := n_h n + 1 |} with
              | None => Blocked
              | Some m => Next (go (hand (mem s m) h (Some (Some new))) t (PAt h [] new (remove_nth r fl) old)) None
              end
            else Blocked
          | None => Bad
          end
        | _, _ => Blocked
        end
      | VFix tg i =>          (* the parent of a child is written if it is unique (node.rs 1541-1551, 2380-2391, 2546-2559) *)
        match pick a fl tg with
        | Some b =>
          match look (c_mem s) b with
          | Some nb =>
            match nth_error (n_kids nb) i with
            | Some c =>
              match look (c_mem s) c with
              | Some nc => Next (if n_cnt nc =? 1 then mem s (put (c_mem s) c (with_par nc (Some (b, i)))) else s) None
              | None => Bad
              end
            | None => Blocked
            end
          | None => Bad
          end
        | None => Blocked
        end
      | VUp =>                (* on to the parent (insert.rs 1925-2330) *)
        match fr with
        | (p, _) :: fr' => Next (go s t (PAt h fr' p fl old)) None
        | [] => Blocked
        end
      | VEnd => if length fl + length old =? 0 then Next (go s t PIdle) None else Blocked
      | VAbort =>             (* a panic: new nodes and references are dropped (mod.rs 1011-1047) *)
        Next (go s t (PDrop (map WDec (fl ++ old)))) None
      | VShared =>            (* like [VFix], but the load reads an old count, other than one (see Weak.v) *)
        Next s None
      | _ => Blocked
      end
    end.

  Definition cstep (s : cstate) (t : nat) (e : ev) : sres :=
    match nth_error (c_threads s) t with
    | None => Blocked
    | Some PIdle =>
      match e with
      | VEmpty =>             (* `new_empty` (mod.rs 324-328) *)
        Next {| c_mem := c_mem s; c_handles := c_handles s ++ [Some None]; c_threads := c_threads s |} None
      | VNew h a d =>         (* insertion into an empty tree (insert.rs 66-84, mod.rs 339-358) *)
        match nth_error (c_handles s) h with
        | Some (Some None) =>
          if existsb (uses h) (c_threads s) then Blocked
          else
            match alloc (c_mem s) a {| n_data := d; n_kids := []; n_cnt := 1; n_par := None; n_h := 0 |} with
            | Some m => Next (hand (mem s m) h (Some (Some a))) None
            | None => Blocked
            end
        | _ => Blocked
        end
      | VClone h =>           (* `Clone` (mod.rs 786-806) *)
        match nth_error (c_handles s) h with
        | Some (Some r) =>
          if existsb (writes h) (c_threads s) then Blocked
          else
            match r with
            | None => Next {| c_mem := c_mem s; c_handles := c_handles s ++ [Some None]; c_threads := c_threads s |} None
            | Some a =>
              match look (c_mem s) a with
              | None => Bad
              | Some n =>
                Next {| c_mem := put (c_mem s) a (with_cnt n (n_cnt n + 1)); c_handles := c_handles s ++ [Some (Some a)];
                        c_threads := c_threads s |} None
              end
            end
        | _ => Blocked
        end
      | VDrop h =>            (* `destruct_root` (mod.rs 275-294) *)
        match nth_error (c_handles s) h with
        | Some (Some r) =>
          if existsb (uses h) (c_threads s) then Blocked
          else Next (go (hand s h None) t (PDrop (match r with Some a => [WDec a] | None => [] end))) None
        | _ => Blocked
        end
      | VRead h =>            (* any reader starts at the root *)
        match nth_error (c_handles s) h with
        | Some (Some (Some a)) =>
          if existsb (writes h) (c_threads s) then Blocked
          else
            match look (c_mem s) a with
            | None => Bad
            | Some n => Next (go s t (PRead h [] a)) (Some (n_data n))
            end
        | _ => Blocked
        end
      | VInsert h =>          (* insert.rs 87-96 *)
        match nth_error (c_handles s) h with
        | Some (Some (Some _)) => if existsb (uses h) (c_threads s) then Blocked else Next (go s t (PEns h [] ELoad)) None
        | _ => Blocked
        end
      | _ => Blocked
      end
    | Some (PRead h is a) =>
      match e with
      | VDown i =>            (* `into_child` on an immutable handle (node.rs 2043-2088) *)
        match look (c_mem s) a with
        | None => Bad
        | Some n =>
          match nth_error (n_kids n) i with
          | None => Blocked
          | Some c =>
            match look (c_mem s) c with
            | None => Bad
            | Some nc => Next (go s t (PRead h (i :: is) c)) (Some (n_data nc))
            end
          end
        end
      | VReadEnd => Next (go s t PIdle) None
      | _ => Blocked
      end
    | Some (PDrop ws) =>
      match e, ws with
      | VStep _, [] => Next (go s t PIdle) None
      | VStep _, w :: ws' =>
        match work_step (c_mem s) w with
        | Some (m, ws2) => Next (go (mem s m) t (PDrop (ws2 ++ ws'))) None
        | None => Bad
        end
      | _, _ => Blocked
      end
    | Some (PEns h fr en) =>
      match e, en with
      | VStep new, _ => ens_step s t h fr en new
      | VAbort, ELoad => Next (go s t PIdle) None    (* a slice panics when it is cloned (node.rs 1038-1046) *)
      | VShared, ELoad =>     (* the load in `is_unique` reads an old count, other than one (cow.rs 25-29; see Weak.v) *)
        match slot s h fr with
        | None => Bad
        | Some a =>
          match look (c_mem s) a with
          | None => Bad
          | Some n => Next (go s t (PEns h fr (EInc (n_data n) (n_par n) []))) None
          end
        end
      | _, _ => Blocked
      end
    | Some (PAt h fr a fl old) => at_step s t h fr a fl old e
    end.

  (** What a step shows: nothing, the data of the node a reader has arrived at, or use of freed memory. *)
  Inductive obs : Type := BNone | BData (d : D) | BBad.

  (** A history; [None] if it has a step that could not be taken.  Undefined behaviour ends it. *)
  Fixpoint crun (s : cstate) (es : list (nat * ev)) : option (list obs * cstate) :=
    match es with
    | [] => Some ([], s)
    | (t, e) :: es' =>
      match cstep s t e with
      | Blocked => None
      | Bad => Some ([BBad], s)
      | Next s' o =>
        match crun s' es' with
        | Some (os, s2) => Some (match o with Some d => BData d | None => BNone end :: os, s2)
        | None => None
        end
      end
    end.
End Cow.
Arguments cnode : clear implicits.
Arguments heap : clear implicits.
Arguments ens : clear implicits.
Arguments pc : clear implicits.
Arguments cstate : clear implicits.
Arguments ev : clear implicits.
Arguments obs : clear implicits.
Arguments sres : clear implicits.
