(** How much memory calls take. *)
From Coq Require Import List Arith Bool ZArith.
From Verif Require Import Base Index Slice Tree Insert Spec Hist LSpec Cow CowSpec Weak CowCall CowCallWeak Samples CowCallSamples CowCallWeakSamples CowWait CowShare CowSharePropsP.
Import ListNotations.

(** A call allocates no more nodes than [amount] says, whatever the other threads do meanwhile: an insertion one for each
    level of its own tree besides those by which the tree grows, and the other calls none.  So of a tree that is shared
    only the nodes on one path are ever copied, each at most once. *)
Theorem C59_copies : forall (I V : Type) (X : index_ops I) (Y : slice_ops I V) (M n : nat) (xs ys : list (act * nat)) (q q2 : wclient)
    (t : nat) (c : call) (a j : nat) (ts : list (option rle)),
  1 <= M -> qrun X Y M (qstart n) xs = Some q -> seq X Y M [] (calls (map fst xs)) = Some ts ->
  qrun X Y M q ((KCall t c a, j) :: ys) = Some q2 -> existsb (begins t) (map fst ys) = false ->
  made X Y M t q ((KCall t c a, j) :: ys) <= amount X Y M ts c.
Proof. exact C59_copies_proof. Qed.
Print Assumptions C59_copies.

(** Threads 0 and 1 insert into trees that share all their seven nodes, and take turns.  Each copies the three nodes of its
    path, and the second also splits a leaf: the bounds are reached. *)
Example C59_copies_ex :
  let xs := map (fun x => (x, 0%nat)) kk_done in let first := firstn (length kk_base) xs in let ys := skipn (length kk_base) xs in
  existsb (begins 0) (map fst (tl ys)) = false /\ existsb (begins 1) (map fst (tl ys)) = true /\
  match ys with (KCall 0 (CInsert _ 0 _ _ _ _) _, _) :: _ => true | _ => false end = true /\
  match qrun sx sc 1 (qstart 3) first with
  | Some q => option_map (fun _ => (used (c_mem (w_s (q_w q))), made sx sc 1 0 q ys, made sx sc 1 1 q ys)) (qrun sx sc 1 q ys)
  | None => None
  end = Some (7, 3, 4)%nat /\
  option_map (fun ts => (amount sx sc 1 ts (as_call sid false (kk_ins 0 70 8 10)), amount sx sc 1 ts (as_call sid false (kk_ins 1 35 9 10))))
    (seq sx sc 1 [] (calls (map fst first))) = Some (3, 4)%nat.
Proof. cbv zeta. split; [vm_compute; reflexivity|]. split; [vm_compute; reflexivity|]. split; [vm_compute; reflexivity|]. split; vm_compute; reflexivity. Qed.

(** And never are more nodes in memory than the insertions so far may allocate together, one after another: trees made by
    cloning cost nothing, and no schedule makes the trees of several threads take more. *)
Theorem C59_memory : forall (I V : Type) (X : index_ops I) (Y : slice_ops I V) (M n : nat) (xs : list (act * nat)) (q : wclient),
  1 <= M -> qrun X Y M (qstart n) xs = Some q -> used (c_mem (w_s (q_w q))) <= cost X Y M [] (calls (map fst xs)).
Proof. exact C59_memory_proof. Qed.
Print Assumptions C59_memory.

(** Three trees of 7, 8 and 7 nodes in 14 nodes of memory. *)
Example C59_memory_ex : let xs := map (fun x => (x, 0%nat)) kk_done in
  option_map (fun q => used (c_mem (w_s (q_w q)))) (qrun sx sc 1 (qstart 3) xs) = Some 14%nat /\ cost sx sc 1 [] (calls (map fst xs)) = 24%nat /\
  option_map (map (option_map rle_nodes)) (seq sx sc 1 [] (calls (map fst xs))) = Some [Some 7; Some 8; Some 7]%nat.
Proof. cbv zeta. split; [vm_compute; reflexivity|]. split; vm_compute; reflexivity. Qed.

(** What an insertion allocates does not depend on how much is in the tree, only on its height. *)
Theorem C59_levels : forall (I V : Type) (X : index_ops I) (Y : slice_ops I V) (M n : nat) (xs ys : list (act * nat)) (q q2 : wclient)
    (t : nat) (nop : bool) (h : nat) (hints : list nat) (idx size : I) (slice : V) (a j : nat) (ts : list (option rle)) (r : rle),
  1 <= M -> qrun X Y M (qstart n) xs = Some q -> seq X Y M [] (calls (map fst xs)) = Some ts -> nth_error ts h = Some (Some r) ->
  qrun X Y M q ((KCall t (CInsert nop h hints idx slice size) a, j) :: ys) = Some q2 -> existsb (begins t) (map fst ys) = false ->
  made X Y M t q ((KCall t (CInsert nop h hints idx slice size) a, j) :: ys) <= 2 * levels r + 1.
Proof. exact C59_levels_proof. Qed.
Print Assumptions C59_levels.

Example C59_levels_ex : let xs := map (fun x => (x, 0%nat)) kk_done in
  option_map (fun ts => option_map (option_map levels) (nth_error ts 0)) (seq sx sc 1 [] (calls (map fst (firstn (length kk_base) xs)))) = Some (Some (Some 3%nat)) /\
  match qrun sx sc 1 (qstart 3) (firstn (length kk_base) xs) with Some q => made sx sc 1 0 q (skipn (length kk_base) xs) | None => 0%nat end = 3%nat.
Proof. cbv zeta. split; vm_compute; reflexivity. Qed.

(** As long as no tree has been cloned nothing is copied: an insertion allocates only the nodes by which its tree grows,
    and other calls nothing. *)
Theorem C59_unshared : forall (I V : Type) (X : index_ops I) (Y : slice_ops I V) (M n : nat) (xs ys : list (act * nat)) (q q2 : wclient)
    (t : nat) (c : call) (a j : nat) (ts : list (option rle)),
  1 <= M -> qrun X Y M (qstart n) xs = Some q -> seq X Y M [] (calls (map fst xs)) = Some ts ->
  qrun X Y M q ((KCall t c a, j) :: ys) = Some q2 -> existsb (begins t) (map fst ys) = false ->
  existsb clones (calls (map fst (xs ++ (KCall t c a, j) :: ys))) = false ->
  made X Y M t q ((KCall t c a, j) :: ys) <= growth X Y M ts c.
Proof. exact C59_unshared_proof. Qed.
Print Assumptions C59_unshared.

(** Thread 0 builds its tree, before any clone of it: the seventh insertion walks down two levels and splits nodes, and
    allocates just the nodes that the tree has more after it. *)
Example C59_unshared_ex : let xs := map (fun x => (x, 0%nat)) kk_base in let first := firstn 43 xs in let ys := firstn 12 (skipn 43 xs) in
  existsb (begins 0) (map fst (tl ys)) = false /\ existsb clones (calls (map fst (first ++ ys))) = false /\
  match ys with (KCall 0 (CInsert _ 0 _ _ _ _) _, _) :: _ => true | _ => false end = true /\
  match qrun sx sc 1 (qstart 3) first with
  | Some q => option_map (fun q2 => (used (c_mem (w_s (q_w q))), made sx sc 1 0 q ys, used (c_mem (w_s (q_w q2))), nth_error (q_todo q2) 0)) (qrun sx sc 1 q ys)
  | None => None
  end = Some (4, 3, 7, Some [])%nat /\
  option_map (fun ts => growth sx sc 1 ts (as_call sid false (kk_ins 0 60 7 10))) (seq sx sc 1 [] (calls (map fst first))) = Some 3%nat.
Proof. cbv zeta. split; [vm_compute; reflexivity|]. split; [vm_compute; reflexivity|]. split; [vm_compute; reflexivity|]. split; vm_compute; reflexivity. Qed.
