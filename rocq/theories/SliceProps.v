(** Properties of the calls that insertions make to the slice and index types. *)
From Coq Require Import List ZArith Lia Bool Arith.
From Verif Require Import Base Index Slice Tree Insert Range Spec Iter IterQ Hist Joins Samples SlicePropsP.
Import ListNotations.
Local Open Scope Z_scope.

(** For a slice type that keeps the documented laws and the mirror image of the documented transitivity, no two neighbouring runs of a
    reachable tree can be joined. *)
Theorem C41_neighbours_joined_partial : forall (I V : Type) (X : index_ops I) (Y : slice_ops I V) (MAX : Z) (inj : Z -> I)
    (M : nat) (nop : bool) (ops : list (@op V Z)),
  index_laws X MAX inj -> (1 <= M)%nat -> doc_laws Y inj -> left_law Y -> sl_may_join Y = true -> ops_fit MAX ops ->
  match run_ops X Y M nop None (map (inj_op inj) ops) with
  | Ok r => exists l, iter_collect X r [] SUnb EUnb = Ok (map (inj_item inj) (spans 0 l)) /\ unjoined Y l
  | Panic w => w = POutOfBounds \/ w = PBadSize \/ w = PTodo
  | UB => False
  end.
Proof. exact C41_neighbours_joined_partial_proof. Qed.
Print Assumptions C41_neighbours_joined_partial.


(** Intervals satisfy the hypotheses; the history leaves seven runs. *)
Example C41_neighbours_joined_partial_ex : doc_laws interval_ops sid /\ left_law interval_ops /\ ops_fit 1000 i_ops /\
  run_ops sx interval_ops 1 false None (map (inj_op sid) i_ops) = Ok i_tree /\ length i_runs = 7%nat /\
  joins interval_ops (0, 2) (2, 10) /\ ~ joins interval_ops (0, 2) (3, 10).
Proof.
  split; [|split; [|split; [exact i_fit|split; [vm_compute; reflexivity|split; [vm_compute; reflexivity|split]]]]].
  - constructor; unfold joins; cbn [interval_ops sl_try_join sl_split_at].
    + intros a b a' b' E. destruct (snd a =? fst b); inversion E; auto.
    + intros [a a'] [b b'] j z E [k Ek]. cbn [fst snd] in *. destruct (Z.eqb_spec a' b); inversion E; subst. cbn [fst snd] in *.
      destruct (b' =? fst z); [eexists; reflexivity|discriminate].
    + intros [s s'] q a b z E [k Ek]. inversion E; subst. cbn [fst snd] in *. destruct (snd z =? s); [eexists; reflexivity|discriminate].
    + intros [s s'] q a b z E [k Ek]. inversion E; subst. cbn [fst snd] in *. destruct (s' =? fst z); [eexists; reflexivity|discriminate].
  - intros [a a'] [b b'] j z. unfold joins. cbn [interval_ops sl_try_join fst snd]. intros E [k Ek].
    destruct (a' =? b); inversion E; subst. cbn [fst snd] in *. destruct (snd z =? a); [eexists; reflexivity|discriminate].
  - eexists. reflexivity.
  - intros [k E]. discriminate.
Qed.

(** The documented laws alone do not suffice: the slice to the left of a slice that has changed is not tried again. *)
Theorem C41_neighbours_joined_refuted :
  exists (Y : slice_ops Z Z) (ops : list (@op Z Z)) r (l : list (Z * Z)),
    doc_laws Y (fun z => z) /\ sl_may_join Y = true /\ ops_fit 1000 ops /\
    run_ops (checked_ops 1000) Y 2 false None ops = Ok r /\
    iter_collect (checked_ops 1000) r [] SUnb EUnb = Ok (spans 0 l) /\ ~ unjoined Y l.
Proof. exact C41_neighbours_joined_refuted_proof. Qed.
Print Assumptions C41_neighbours_joined_refuted.

(** What an insertion does depends on the slice type only through MAY_JOIN, through `split_at` of the run around the index at a place
    strictly inside that run, and, if MAY_JOIN, through `try_join` of neighbours, the left one first. *)
Theorem C42_slice_calls : forall (I V : Type) (X : index_ops I) (Y Y' : slice_ops I V) (MAX : Z) (inj : Z -> I)
    (M : nat) (nop : bool) (r : @rle I V) (l : list (V * Z)) (c : list nat) (idx : Z) (x : V) (n : I),
  index_laws X MAX inj -> (1 <= M)%nat -> reaches MAX inj X Y M nop r l -> 0 <= idx <= MAX ->
  sl_may_join Y' = sl_may_join Y ->
  (forall s q, cut l idx s q -> sl_split_at Y' s (inj q) = sl_split_at Y s (inj q)) ->
  (sl_may_join Y = true -> forall a b, asked Y inj l idx x a b -> sl_try_join Y' a b = sl_try_join Y a b) ->
  insert_with_cursor X Y' M nop r c (inj idx) x n = insert_with_cursor X Y M nop r c (inj idx) x n.
Proof. exact C42_slice_calls_proof. Qed.
Print Assumptions C42_slice_calls.


(** Inserting into the middle of the interval from 2 to 10 splits it at 3 and asks for two joins: another type that agrees on these calls
    and does nonsense otherwise gives the same tree. *)
Definition few_calls : slice_ops Z (Z * Z) := {|
  sl_may_join := true;
  sl_split_at := fun s q => if (q =? 3) && (fst s =? 2) then ((2, 5), (5, 10)) else ((0, 0), (0, 0));
  sl_try_join := fun a b => if ((fst a =? 2) && (fst b =? 50)) || ((fst a =? 50) && (fst b =? 5)) then inr (a, b) else inl (0, 0);
|}.
Example C42_slice_calls_ex : reaches 1000 sid sx interval_ops 1 false i_tree i_runs /\
  (forall s q, cut i_runs 8 s q -> sl_split_at few_calls s (sid q) = sl_split_at interval_ops s (sid q)) /\
  (forall a b, asked interval_ops sid i_runs 8 (50, 52) a b -> sl_try_join few_calls a b = sl_try_join interval_ops a b) /\
  is_ok (insert_with_cursor sx few_calls 1 false i_tree [] 8 (50, 52) 2) = true.
Proof.
  split; [exact i_reaches|].
  assert (C : forall A s z B q, i_runs = A ++ (s, z) :: B -> 8 = rsum A + q -> 0 < q <= z -> s = (2, 10) /\ q = 3 /\ z = 8).
  { intros A s z B q E Hi Hq. unfold i_runs in E.
    repeat (destruct A as [|[? ?] A]; cbn [app] in E; [inversion E; subst; cbn [rsum] in *; first [lia | repeat split; lia]|];
            inversion E as [[E1 E2 E3]]; subst; cbn [rsum] in Hi; clear E; rename E3 into E; try discriminate E). }
  assert (P : forall A s z B, i_runs = A ++ (s, z) :: B -> 0 < z).
  { intros A s z B E. assert (Hin : In (s, z) i_runs) by (rewrite E; apply in_elt).
    assert (F : forallb (fun e => 0 <? snd e) i_runs = true) by reflexivity. rewrite forallb_forall in F. apply F in Hin. apply Z.ltb_lt. exact Hin. }
  split; [|split; [|vm_compute; reflexivity]].
  - intros s q (A & z & B & E & Hi & Hq). destruct (C A s z B q E Hi ltac:(lia)) as (-> & -> & _). reflexivity.
  - intros a b H. destruct H.
    + destruct (C A s z B z H H0) as (_ & ? & ?); [pose proof (P _ _ _ _ H); lia|lia].
    + discriminate.
    + destruct (C A s z ((s2, z2) :: B) z H H0) as (_ & ? & ?); [pose proof (P _ _ _ _ H); lia|lia].
    + destruct (C A s z ((s2, z2) :: B) z H H0) as (_ & ? & ?); [pose proof (P _ _ _ _ H); lia|lia].
    + destruct (C A s z B q H H0 ltac:(lia)) as (-> & -> & _). inversion H2; subst. reflexivity.
    + destruct (C A s z B q H H0 ltac:(lia)) as (-> & -> & _). inversion H2; subst. discriminate.
    + destruct (C A s z B q H H0 ltac:(lia)) as (-> & -> & _). inversion H2; subst. inversion H3; subst. reflexivity.
Qed.

(** With overflow checks, an insertion that would make the tree longer than the index type allows panics. *)
Theorem C43_overflow_panics_partial : forall (V : Type) (Y : slice_ops Z V) (MAX : Z) (M : nat) (nop : bool) (r : @rle Z V)
    (l : list (V * Z)) (c : list nat) (idx : Z) (x : V) (n : Z),
  (1 <= M)%nat -> reaches MAX (fun z => z) (checked_ops MAX) Y M nop r l -> 0 <= idx <= rsum l -> 0 < n <= MAX -> MAX < rsum l + n ->
  let res := insert_with_cursor (checked_ops MAX) Y M nop r c idx x n in
  res = Panic PArith \/ (res = Panic PTodo /\ joins_both Y l idx x).
Proof. exact C43_overflow_panics_partial_proof. Qed.
Print Assumptions C43_overflow_panics_partial.


(** A tree of 28 values out of 1000 does not take 980 more: every way of inserting overflows. *)
Example C43_overflow_panics_partial_ex : reaches 1000 sid sx sc 1 false s_tree s_runs /\ 1000 < rsum s_runs + 980 /\
  map (fun i => insert_with_cursor sx sc 1 false s_tree [] i 9%nat 980) [0; 3; 8; 20; 35] = repeat (Panic PArith) 5.
Proof. split; [exact s_reaches|]. split; vm_compute; reflexivity. Qed.

(** Without overflow checks it returns a tree of the wrong size, most of which iteration does not show. *)
Theorem C43_overflow_panics_refuted :
  exists (r r' : @rle Z nat) (l : list (nat * Z)) c z,
    reaches 255 (fun z => z) (wrapping_ops 255) (constant_ops Nat.eqb) 2 false r l /\ 255 < rsum l + 100 /\
    insert_with_cursor (wrapping_ops 255) (constant_ops Nat.eqb) 2 false r [] 50 2%nat 100 = Ok (r', c) /\
    rle_size (wrapping_ops 255) r' = Ok z /\ z < rsum l /\
    iter_collect (wrapping_ops 255) r' [] SUnb EUnb = Ok [(0, 50, 1%nat)].
Proof. exact C43_overflow_panics_refuted_proof. Qed.
Print Assumptions C43_overflow_panics_refuted.
