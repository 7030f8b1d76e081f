(** What copy on write is meant to be: every tree is a value of its own, and counts are numbers of owners. *)
From Coq Require Import List Arith Bool.
From Verif Require Import Base Cow.
Import ListNotations.

Section Spec.
  Context {D : Type}.

  Inductive rose : Type := Rose (d : D) (ks : list rose).
  Definition rdata (r : rose) : D := match r with Rose d _ => d end.
  Definition rkids (r : rose) : list rose := match r with Rose _ ks => ks end.

  (** The subtree at a path, and the tree with that subtree changed. *)
  Fixpoint sub (r : rose) (is : list nat) : option rose :=
    match is with
    | [] => Some r
    | i :: is' => match nth_error (rkids r) i with Some k => sub k is' | None => None end
    end.
  Fixpoint chg (r : rose) (is : list nat) (f : rose -> rose) : rose :=
    match is with
    | [] => f r
    | i :: is' => match nth_error (rkids r) i with Some k => Rose (rdata r) (replace_at i (chg k is' f) (rkids r)) | None => r end
    end.

  (** A thread reads one tree, or changes one tree, at a path (last index first), with some subtrees in its hands. *)
  Inductive sthread : Type := SNone | SRead (h : nat) (is : list nat) | SIns (h : nat) (is : list nat) (fl old : list rose).
  Record sstate : Type := { s_trees : list (option (option rose)); s_threads : list sthread }.

  Definition sstart (threads : nat) : sstate := {| s_trees := []; s_threads := repeat SNone threads |}.

  Definition tree_of (s : sstate) (h : nat) : option rose := match nth_error (s_trees s) h with Some (Some r) => r | _ => None end.
  Definition here (s : sstate) (h : nat) (is : list nat) : option rose := match tree_of s h with Some r => sub r (rev is) | None => None end.
  Definition sgo (s : sstate) (t : nat) (p : sthread) : sstate := {| s_trees := s_trees s; s_threads := replace_at t p (s_threads s) |}.
  Definition shand (s : sstate) (h : nat) (r : option (option rose)) : sstate := {| s_trees := replace_at h r (s_trees s); s_threads := s_threads s |}.
  Definition change (s : sstate) (h : nat) (is : list nat) (f : rose -> rose) : sstate :=
    match tree_of s h with Some r => shand s h (Some (Some (chg r (rev is) f))) | None => s end.
  Definition add (s : sstate) (r : option (option rose)) : sstate := {| s_trees := s_trees s ++ [r]; s_threads := s_threads s |}.

  Definition see (o : option rose) : obs D := match o with Some r => BData (rdata r) | None => BNone end.

  (** The meaning of a step.  A step that only concerns sharing means nothing. *)
  Definition sstep (s : sstate) (t : nat) (e : ev D) : sstate * obs D :=
    match e, nth_error (s_threads s) t with
    | VEmpty, _ => (add s (Some None), BNone)
    | VNew h _ d, _ => (shand s h (Some (Some (Rose d []))), BNone)
    | VClone h, _ => (add s (Some (tree_of s h)), BNone)
    | VDrop h, _ => (shand s h None, BNone)
    | VRead h, _ => (sgo s t (SRead h []), see (here s h []))
    | VDown i, Some (SRead h is) => (sgo s t (SRead h (i :: is)), see (here s h (i :: is)))
    | VReadEnd, _ | VEnd, _ | VAbort, _ => (sgo s t SNone, BNone)
    | VInsert h, _ => (sgo s t (SIns h [] [] []), BNone)
    | VChild i, Some (SIns h is fl old) => (sgo s t (SIns h (i :: is) fl old), BNone)
    | VWrite TAt d, Some (SIns h is fl old) => (change s h is (fun r => Rose d (rkids r)), BNone)
    | VWrite (TNew j) d, Some (SIns h is fl old) =>
      match nth_error fl j with
      | Some r => (sgo s t (SIns h is (replace_at j (Rose d (rkids r)) fl) old), BNone)
      | None => (s, BNone)
      end
    | VSplit m d d' _, Some (SIns h is fl old) =>
      match here s h is with
      | Some r =>
        (sgo (change s h is (fun r => Rose d (firstn (m + 1) (rkids r)))) t (SIns h is (fl ++ [Rose d' (skipn (m + 1) (rkids r))]) old), BNone)
      | None => (s, BNone)
      end
    | VAttach TAt k r d, Some (SIns h is fl old) =>
      match nth_error fl r with
      | Some c => (sgo (change s h is (fun r => Rose d (insert_at k c (rkids r)))) t (SIns h is (remove_nth r fl) old), BNone)
      | None => (s, BNone)
      end
    | VAttach (TNew j) k r d, Some (SIns h is fl old) =>
      match nth_error fl j, nth_error fl r with
      | Some b, Some c => (sgo s t (SIns h is (remove_nth r (replace_at j (Rose d (insert_at k c (rkids b))) fl)) old), BNone)
      | _, _ => (s, BNone)
      end
    | VFirst j r, Some (SIns h is fl old) =>
      match nth_error fl j, nth_error fl r with
      | Some (Rose d (x :: ks)), Some c => (sgo s t (SIns h is (remove_nth r (replace_at j (Rose d (c :: ks)) fl)) (old ++ [x])), BNone)
      | _, _ => (s, BNone)
      end
    | VPush c d, Some (SIns h is fl old) =>
      match nth_error old c with
      | Some b => (sgo (change s h is (fun r => Rose d (rkids r ++ [b]))) t (SIns h is fl (remove_nth c old)), BNone)
      | None => (s, BNone)
      end
    | VNewRoot _ r d, Some (SIns h is fl old) =>
      match nth_error fl r with
      | Some b => (sgo (change s h [] (fun a => Rose d [a; b])) t (SIns h [] (remove_nth r fl) old), BNone)
      | None => (s, BNone)
      end
    | VUp, Some (SIns h is fl old) => (sgo s t (SIns h (tl is) fl old), BNone)
    | _, _ => (s, BNone)
    end.

  Fixpoint srun (s : sstate) (es : list (nat * ev D)) : list (obs D) * sstate :=
    match es with
    | [] => ([], s)
    | (t, e) :: es' => let (s', o) := sstep s t e in let (os, s2) := srun s' es' in (o :: os, s2)
    end.

  (** ** What memory shows *)

  Fixpoint all {A} (l : list (option A)) : option (list A) :=
    match l with
    | [] => Some []
    | Some x :: l' => match all l' with Some r => Some (x :: r) | None => None end
    | None :: _ => None
    end.

  (** The tree at an address, if it is at most [f] nodes high. *)
  Fixpoint view (f : nat) (m : heap D) (a : addr) : option rose :=
    match f with
    | 0 => None
    | S f' =>
      match look m a with
      | Some n => match all (map (view f' m) (n_kids n)) with Some ks => Some (Rose (n_data n) ks) | None => None end
      | None => None
      end
    end.
  Definition shows (m : heap D) (a : addr) (r : rose) : Prop := exists f, view f m a = Some r.

  (** What the handles of trees show: dropped, empty, or a tree. *)
  Definition holds (m : heap D) (root : option (option (option addr))) (tree : option (option (option rose))) : Prop :=
    match root, tree with
    | None, None | Some None, Some None | Some (Some None), Some (Some None) => True
    | Some (Some (Some a)), Some (Some (Some r)) => shows m a r
    | _, _ => False
    end.

  (** A node that can be reached from another one. *)
  Inductive reach (m : heap D) (a : addr) : addr -> Prop :=
  | reach_here : reach m a a
  | reach_kid : forall b n c, reach m a b -> look m b = Some n -> In c (n_kids n) -> reach m a c.

  (** ** Data races *)

  Definition olist {A} (o : option A) : list A := match o with Some x => [x] | None => [] end.

  (** Nodes of which a step writes fields other than the count, or that it frees; new nodes do not count. *)
  Definition wr (s : cstate D) (t : nat) (e : ev D) : list addr :=
    match nth_error (c_threads s) t, e with
    | Some (PDrop (WFree a :: _)), VStep _ | Some (PEns _ _ (EWork _ (WFree a :: _))), VStep _ => [a]
    | Some (PEns _ fr (EInc _ _ _)), VStep _ => olist (option_map fst (hd_error fr))
    | Some (PEns _ _ (EPar a)), VStep _ => [a]
    | Some (PAt _ _ a fl _), VWrite tg _ | Some (PAt _ _ a fl _), VAttach tg _ _ _ => olist (pick a fl tg)
    | Some (PAt _ _ a _ _), VSplit _ _ _ _ | Some (PAt _ _ a _ _), VPush _ _ => [a]
    | Some (PAt _ _ a fl _), VFirst j r => olist (nth_error fl j) ++ olist (nth_error fl r)
    | Some (PAt _ _ a fl _), VNewRoot _ r _ => a :: olist (nth_error fl r)
    | Some (PAt _ _ a fl _), VFix tg i =>
      match pick a fl tg with
      | Some b =>
        match look (c_mem s) b with
        | Some nb =>
          match nth_error (n_kids nb) i with
          | Some c => match look (c_mem s) c with Some nc => if n_cnt nc =? 1 then [c] else [] | None => [] end
          | None => []
          end
        | None => []
        end
      | None => []
      end
    | _, _ => []
    end.

  (** Nodes of which a step reads or writes such fields. *)
  Definition touched (s : cstate D) (t : nat) (e : ev D) : list addr :=
    wr s t e ++
    match nth_error (c_threads s) t, e with
    | Some PIdle, VRead h => match nth_error (c_handles s) h with Some (Some (Some a)) => [a] | _ => [] end
    | Some (PRead _ _ a), VDown i => a :: match look (c_mem s) a with Some n => olist (nth_error (n_kids n) i) | None => [] end
    | Some (PEns h fr ELoad), VStep _ | Some (PEns h fr ELoad), VShared | Some (PEns h fr (EInc _ _ _)), VStep _ => map fst fr ++ olist (slot s h fr)
    | Some (PAt _ fr a fl _), _ => map fst fr ++ a :: fl
    | _, _ => []
    end.

  (** ** Owners *)

  (** How often a list of addresses has [a]. *)
  Definition occ (a : addr) (l : list addr) : nat := count_occ Nat.eq_dec l a.

  (** References that a thread has in its hands: to be counted down, taken for the children of a copy that is being
      made, or to nodes not in a tree. *)
  Fixpoint decs (w : list work) : list addr :=
    match w with [] => [] | WDec a :: w' => a :: decs w' | WFree _ :: w' => decs w' end.
  Definition in_hand (p : pc D) : list addr :=
    match p with
    | PDrop w => decs w
    | PEns _ _ (EInc _ _ done) => done
    | PEns _ _ (EWork _ w) => decs w
    | PAt _ _ _ fl old => fl ++ old
    | _ => []
    end.

  Definition sum (l : list nat) : nat := fold_right plus 0 l.

  (** Owners of a node: trees whose root it is, child pointers to it in allocated nodes, references in the hands of
      threads. *)
  Definition root_owners (hs : list (option (option addr))) (a : addr) : nat :=
    sum (map (fun o => match o with Some (Some r) => occ a [r] | _ => 0 end) hs).
  Definition kid_owners (m : heap D) (a : addr) : nat :=
    sum (map (fun o => match o with Some n => occ a (n_kids n) | None => 0 end) m).
  Definition hand_owners (ps : list (pc D)) (a : addr) : nat := sum (map (fun p => occ a (in_hand p)) ps).
  Definition owners (s : cstate D) (a : addr) : nat :=
    root_owners (c_handles s) a + kid_owners (c_mem s) a + hand_owners (c_threads s) a.
End Spec.
Arguments rose : clear implicits.
Arguments sthread : clear implicits.
Arguments sstate : clear implicits.
