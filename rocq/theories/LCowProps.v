(** Properties of trees that share nodes. *)
From Coq Require Import List ZArith Bool Arith Lia.
From Verif Require Import Base Index Slice Tree Insert Range Spec Iter Hist IterQ RefSpec LTree LInsert LRef LSpec LCow LCowSpec LCowIter LCowW Samples LCowSamples LCowPropsP.
Import ListNotations.
Local Open Scope Z_scope.

(** Any number of trees with copy on write, created empty or by `clone`, inserted into and dropped in any
    order, behave as separate values, whatever nodes they share, as long as the allocator returns no
    node in use: every one holds the runs of its own history, and the stored parents along which
    an insertion climbs are right. *)
Theorem C38_shared_trees_are_values : forall (I V : Type) (X : index_ops I) (Y : slice_ops I V) (MAX : Z) (inj : Z -> I) (M : nat) (nop : bool) (calls : list (wcall V)),
  index_laws X MAX inj -> (1 <= M)%nat -> mcalls_fit MAX (map forget calls) -> allocs_ok X Y M inj nop w_new calls ->
  match val_run Y inj ([], []) (map forget calls) with
  | Ok st => exists w, w_run X Y M inj nop w_new calls = Ok w /\
      Forall2 (fun t l => match t, l with
                          | Some t, Some l => iter_collect X (pt_rle t) [] SUnb EUnb = Ok (map (inj_item inj) (spans 0 l)) /\ rle_size X (pt_rle t) = Ok (inj (rsum l))
                          | None, None => True
                          | _, _ => False
                          end) (w_trees w) (fst st)
  | Panic p => w_run X Y M inj nop w_new calls = Panic p
  | UB => False
  end.
Proof. exact C38_shared_trees_are_values_proof. Qed.
Print Assumptions C38_shared_trees_are_values.


(** Two trees left; they share four nodes. *)
Example C38_shared_trees_are_values_ex : mcalls_fit 1000 (map forget x_good) /\ allocs_ok sx sc 1 sid false w_new x_good /\
  exists w t1 t2 l1 l2, w_run sx sc 1 sid false w_new x_good = Ok w /\ w_trees w = [None; Some t1; Some t2] /\
    val_run sc sid ([], []) (map forget x_good) = Ok ([None; Some l1; Some l2], [1; 2; 3; 4; 5; 6; 7]%nat) /\
    map fst l1 = [1; 2; 3; 4; 5; 6; 7; 8]%nat /\ map fst l2 = [9; 1; 2; 3; 4; 5; 6; 7; 8]%nat /\
    length (filter (fun a => existsb (Nat.eqb a) (laddrs (pt_nodes t2))) (laddrs (pt_nodes t1))) = 4%nat.
Proof. split; [exact x_fit|]. split; [exact x_allocs|]. eexists _, _, _, _, _. repeat (split; [vm_compute; reflexivity|]). vm_compute. reflexivity. Qed.

(** The trees fit into one memory: an address is the same node, with the same contents, the same
    pointers and the same height, wherever it occurs; every node has as many child pointers as it has
    children; every child has a stored parent; and no node occurs twice in one tree. *)
Theorem C38_one_memory : forall (I V : Type) (X : index_ops I) (Y : slice_ops I V) (MAX : Z) (inj : Z -> I) (M : nat) (nop : bool) (w : world I V) (st : @values V),
  index_laws X MAX inj -> (1 <= M)%nat -> cow_reaches X Y MAX inj M nop w st ->
  (forall a e e', In (a, e) (w_cells w) -> In (a, e') (w_cells w) -> e = e') /\
  (forall a h t lt, In (a, (h, t, lt)) (w_cells w) -> length (l_kids lt) = length (kids_of t) /\
     ((0 < h)%nat -> Forall (fun k => k <> LNil /\ l_par k <> None) (l_kids lt))) /\
  (forall j t, nth_error (w_trees w) j = Some (Some t) -> NoDup (laddrs (pt_nodes t)) /\ map fst (p_cells t) = laddrs (pt_nodes t)).
Proof. exact C38_one_memory_proof. Qed.
Print Assumptions C38_one_memory.


Example C38_one_memory_ex : cow_reaches sx sc 1000 sid 1 false x_world x_vals /\ length (w_cells x_world) = 14%nat /\ length (nodup Nat.eq_dec (map fst (w_cells x_world))) = 10%nat.
Proof. split; [exact x_reaches|]. split; vm_compute; reflexivity. Qed.

(** A call on one tree leaves every other tree as it is: an insertion writes to no node of another
    tree. *)
Theorem C38_writes_are_private : forall (I V : Type) (X : index_ops I) (Y : slice_ops I V) (MAX : Z) (inj : Z -> I) (M : nat) (nop : bool)
    (calls : list (wcall V)) (c : wcall V) (w w' : world I V) (j : nat) (t : ptree I V),
  index_laws X MAX inj -> (1 <= M)%nat -> mcalls_fit MAX (map forget (calls ++ [c])) -> allocs_ok X Y M inj nop w_new (calls ++ [c]) ->
  w_run X Y M inj nop w_new calls = Ok w -> w_call X Y M inj nop w c = Ok w' ->
  nth_error (w_trees w) j = Some (Some t) -> changes (forget c) <> Some j ->
  nth_error (w_trees w') j = Some (Some t) /\ forall a, In a (laddrs (pt_nodes t)) -> ~ In a (w_writes w').
Proof. exact C38_writes_are_private_proof. Qed.
Print Assumptions C38_writes_are_private.


(** The last insertion into tree 2 writes to three nodes, new copies; tree 1 is left with the nodes they were copied from. *)
Example C38_writes_are_private_ex : exists calls c w w' t1, calls ++ [c] = x_good /\ w_run sx sc 1 sid false w_new calls = Ok w /\ w_call sx sc 1 sid false w c = Ok w' /\
  nth_error (w_trees w) 1 = Some (Some t1) /\ changes (forget c) = Some 2%nat /\
  laddrs (pt_nodes t1) = [800; 301; 100; 300; 801; 500; 802]%nat /\ nodup Nat.eq_dec (w_writes w') = [902; 901; 900]%nat.
Proof.
  exists (firstn 12 x_good). eexists _, _, _, _. split; [unfold x_good; cbn [map app seq firstn]; reflexivity|]. repeat (split; [vm_compute; reflexivity|]). vm_compute. reflexivity.
Qed.

(** Iteration over a tree that shares nodes, by any sequence of `next` and `next_back`, gives its runs that
    overlap the range, if no address has ever been used for nodes of different heights.  Missing: an
    allocator that uses the address of a freed node again for a node of another height, see
    C39_cow_iter_refuted. *)
Theorem C39_cow_iter_partial : forall (I V : Type) (X : index_ops I) (Y : slice_ops I V) (MAX : Z) (inj : Z -> I) (M : nat) (nop : bool)
    (w : world I V) (st : @values V) (j : nat) (l : list (V * Z)) (hints : list nat) (sb : sbound Z) (eb : ebound Z) (calls : list bool),
  index_laws X MAX inj -> (1 <= M)%nat -> cow_reaches X Y MAX inj M nop w st -> nth_error (fst st) j = Some (Some l) ->
  (forall a h h', In (a, h) (w_log w) -> In (a, h') (w_log w) -> h = h') ->
  sb_in MAX sb -> eb_in MAX eb -> range_ok (rsum l) sb eb = true ->
  w_iter X w j hints (inj_sb inj sb) (inj_eb inj eb) calls
  = Ok (map (option_map (inj_item inj)) (deque (overlapping l (range_start sb) (range_end (rsum l) eb)) calls)).
Proof. exact C39_cow_iter_partial_proof. Qed.
Print Assumptions C39_cow_iter_partial.


(** A mixed sequence of calls on the tree of height 2 that shares nodes. *)
Example C39_cow_iter_partial_ex : cow_reaches sx sc 1000 sid 1 false x_world x_vals /\
  (forall a h h', In (a, h) (w_log x_world) -> In (a, h') (w_log x_world) -> h = h') /\
  w_iter sx x_world 2 [] (SIncl 1) (EExcl 8) [false; false; true; true; false; false; true; false; true]
  = Ok [Some (1, 2, 1%nat); Some (2, 3, 2%nat); Some (7, 8, 7%nat); Some (6, 7, 6%nat); Some (3, 4, 3%nat); Some (4, 5, 4%nat); Some (5, 6, 5%nat); None; None].
Proof.
  split; [exact x_reaches|]. split; [|vm_compute; reflexivity].
  intros a h h' H1 H2. apply (keys_unique (w_log x_world) a h h'); [|exact H1|exact H2]. vm_compute. repeat (constructor; [cbn; lia|]). constructor.
Qed.

(** With such an allocator iteration can go wrong: `fwd_step` compares the stored parent of a child two
    levels down with the node where the step started, not with the node it came through; when the stored
    parent has been freed and its address belongs to the node where the step started, the way back up
    is lost. *)
Theorem C39_cow_iter_refuted : exists (calls : list (wcall nat)) (w : world Z nat) (st : @values nat) (l : list (nat * Z)) (items : list (option (Z * Z * nat))),
  mcalls_fit 1000 (map forget calls) /\ allocs_ok sx sc 1 sid false w_new calls /\
  val_run sc sid ([], []) (map forget calls) = Ok st /\ w_run sx sc 1 sid false w_new calls = Ok w /\
  nth_error (fst st) 2 = Some (Some l) /\ length l = 9%nat /\
  w_iter sx w 2 [] SUnb EUnb (repeat false 10) = Ok items /\
  items <> map Some (spans 0 l) ++ [None] /\ ~ In (Some (8, 9, 8%nat)) items /\ In (Some (7, 10, 6%nat)) items /\ In (8, 9, 8%nat) (spans 0 l).
Proof. exact C39_cow_iter_refuted_proof. Qed.
Print Assumptions C39_cow_iter_refuted.

