(** Proofs about the calls that insertions make to the slice and index types. *)
From Coq Require Import List ZArith Lia Bool Arith.
From Verif Require Import Base Index Slice Tree Insert Range Spec Zip Rep Find Ins Iter IterQ Hist HistP Flat OrderP TreePropsP Joins JoinsP CallsP OverflowP.
Import ListNotations.
Local Open Scope Z_scope.

(** For a slice type that keeps the documented laws and the mirror image of the documented transitivity, no two neighbouring runs of a
    reachable tree can be joined. *)
Lemma C41_neighbours_joined_partial_proof : forall (I V : Type) (X : index_ops I) (Y : slice_ops I V) (MAX : Z) (inj : Z -> I)
    (M : nat) (nop : bool) (ops : list (@op V Z)),
  index_laws X MAX inj -> (1 <= M)%nat -> doc_laws Y inj -> left_law Y -> sl_may_join Y = true -> ops_fit MAX ops ->
  match run_ops X Y M nop None (map (inj_op inj) ops) with
  | Ok r => exists l, iter_collect X r [] SUnb EUnb = Ok (map (inj_item inj) (spans 0 l)) /\ unjoined Y l
  | Panic w => w = POutOfBounds \/ w = PBadSize \/ w = PTodo
  | UB => False
  end.
Proof.
  intros I V X Y MAX inj M nop ops L HM D LL MJ [Hf Ho].
  pose proof (run_ok X Y MAX inj M L HM nop ops None [] eq_refl Hf ltac:(cbn [rsum]; lia)) as H.
  destruct (spec_run Y inj [] (map args ops)) as [l|w|] eqn:Es; [| |contradiction].
  - destruct H as (r & -> & R & Hs). cbn [rsum] in Hs. exists l. split; [eapply iter_all_ok; eauto; lia|].
    apply apart_unjoined. eapply spec_run_apart; eauto. exact Logic.I.
  - rewrite H. assert (Hw : forall ops l, spec_run Y inj l ops = Panic w -> pos_runs l -> Forall (fun o => 0 <= fst (fst o)) ops -> w = POutOfBounds \/ w = PBadSize \/ w = PTodo).
    { clear. induction ops as [|[[i x] n] ops IH]; intros l E Hp Hf; cbn [spec_run] in E; [discriminate|].
      inversion Hf as [|? ? Hi Hf']; subst. cbn [fst] in Hi.
      unfold spec_insert in E. destruct (Z.ltb_spec (rsum l) i); [inversion E; auto|]. destruct (Z.leb_spec n 0); [inversion E; auto|].
      destruct (runs_result Y inj l i x n Hp) as [[E1 _]|[l' E1]]; rewrite E1 in E; cbn [bind] in E; [inversion E; auto|].
      eapply IH; [exact E| |exact Hf']. eapply insert_runs_pos; [exact Hp| | |exact E1]; lia. }
    eapply Hw; [exact Es|constructor|]. apply Forall_forall. intros a Ha. apply in_map_iff in Ha. destruct Ha as (o & <- & Ho').
    rewrite Forall_forall in Hf. apply (Hf o Ho').
Qed.

(** The documented laws alone do not suffice: the slice to the left of a slice that has changed is not tried again. *)
Lemma C41_neighbours_joined_refuted_proof :
  exists (Y : slice_ops Z Z) (ops : list (@op Z Z)) r (l : list (Z * Z)),
    doc_laws Y (fun z => z) /\ sl_may_join Y = true /\ ops_fit 1000 ops /\
    run_ops (checked_ops 1000) Y 2 false None ops = Ok r /\
    iter_collect (checked_ops 1000) r [] SUnb EUnb = Ok (spans 0 l) /\ ~ unjoined Y l.
Proof.
  exists big_ops, [Build_op [] 0 1 3; Build_op [] 3 2 3; Build_op [] 6 7 3]. eexists. exists [(1, 3); (7, 6)].
  split; [|split; [reflexivity|split; [|split; [vm_compute; reflexivity|split; [vm_compute; reflexivity|]]]]].
  - constructor; cbn [big_ops sl_try_join sl_split_at].
    + intros a b a' b' E. destruct (5 <=? b); inversion E; auto.
    + intros a b j z E [k Ek]. unfold joins. cbn [big_ops sl_try_join] in *. destruct (5 <=? z); [eexists; reflexivity|discriminate].
    + intros s q a b z E [k Ek]. inversion E; subst. exists k. exact Ek.
    + intros s q a b z E [k Ek]. inversion E; subst. exists k. exact Ek.
  - split; [repeat (constructor; [cbn; lia|]); constructor|cbn; lia].
  - intros U. apply (U [] 1 3 7 6 [] eq_refl). exists 7. reflexivity.
Qed.

(** What an insertion does depends on the slice type only through MAY_JOIN, through `split_at` of the run around the index at a place
    strictly inside that run, and, if MAY_JOIN, through `try_join` of neighbours, the left one first. *)
Lemma C42_slice_calls_proof : forall (I V : Type) (X : index_ops I) (Y Y' : slice_ops I V) (MAX : Z) (inj : Z -> I)
    (M : nat) (nop : bool) (r : @rle I V) (l : list (V * Z)) (c : list nat) (idx : Z) (x : V) (n : I),
  index_laws X MAX inj -> (1 <= M)%nat -> reaches MAX inj X Y M nop r l -> 0 <= idx <= MAX ->
  sl_may_join Y' = sl_may_join Y ->
  (forall s q, cut l idx s q -> sl_split_at Y' s (inj q) = sl_split_at Y s (inj q)) ->
  (sl_may_join Y = true -> forall a b, asked Y inj l idx x a b -> sl_try_join Y' a b = sl_try_join Y a b) ->
  insert_with_cursor X Y' M nop r c (inj idx) x n = insert_with_cursor X Y M nop r c (inj idx) x n.
Proof.
  intros I V X Y Y' MAX inj M nop r l c idx x n L HM Hr Hi MJ Hs Ha.
  destruct (reaches_rep X Y MAX inj M L HM _ _ _ Hr) as [R Hl].
  exact (insert_calls X Y Y' MAX inj M L HM MJ nop r l c idx x n R Hl Hi Hs Ha).
Qed.

(** With overflow checks, an insertion that would make the tree longer than the index type allows panics. *)
Lemma C43_overflow_panics_partial_proof : forall (V : Type) (Y : slice_ops Z V) (MAX : Z) (M : nat) (nop : bool) (r : @rle Z V)
    (l : list (V * Z)) (c : list nat) (idx : Z) (x : V) (n : Z),
  (1 <= M)%nat -> reaches MAX (fun z => z) (checked_ops MAX) Y M nop r l -> 0 <= idx <= rsum l -> 0 < n <= MAX -> MAX < rsum l + n ->
  let res := insert_with_cursor (checked_ops MAX) Y M nop r c idx x n in
  res = Panic PArith \/ (res = Panic PTodo /\ joins_both Y l idx x).
Proof.
  intros V Y MAX M nop r l c idx x n HM Hr Hi Hn Hm. cbv zeta.
  destruct (reaches_rep _ Y MAX (fun z => z) M (checked_laws MAX) HM _ _ _ Hr) as [R Hl].
  set (X := checked_ops MAX). set (X' := checked_ops (rsum l + n)).
  assert (LE : le (insert_with_cursor X Y M nop r c idx x n) (insert_with_cursor X' Y M nop r c idx x n)).
  { apply le_insert; try reflexivity; intros a b; cbn; repeat match goal with |- context [Z.leb ?p ?q] => destruct (Z.leb_spec p q) end; cbn; auto; lia. }
  pose proof (insert_with_cursor_ok X' Y (rsum l + n) (fun z => z) M (checked_laws _) HM nop r l c idx x n R Hi ltac:(lia) ltac:(lia)) as OK.
  assert (T : okp (fun q => rle_top MAX (fst q)) (insert_with_cursor X Y M nop r c idx x n)).
  { apply top_insert; [|lia]. destruct r as [r|]; [|exact Logic.I]. destruct R as [R _]. cbn [rle_top]. apply rep_size in R. unfold top.
    destruct (r_node r); cbn in *; [exact Logic.I|]. inversion R. lia. }
  destruct (insert_with_cursor X Y M nop r c idx x n) as [[r1 c1]|w|] eqn:E.
  - exfalso. cbn [le] in LE. destruct (insert_runs Y (fun z => z) l idx x n) as [l'|w|] eqn:El; [|congruence|contradiction].
    destruct OK as (r' & cur & E' & R' & _). rewrite LE in E'. inversion E'; subst r' cur. cbn [okp fst] in T.
    pose proof (insert_runs_sum Y (fun z => z) _ _ _ _ _ El) as Hsum.
    destruct r1 as [r1|]; cbn [rle_rep rle_top] in *.
    + destruct R' as [R' _]. apply rep_size in R'. destruct (r_node r1); cbn in *; [discriminate|]. inversion R'. lia.
    + subst l'. cbn [rsum] in Hsum. lia.
  - destruct w; auto; cbn [le] in LE; right;
      (destruct (insert_runs Y (fun z => z) l idx x n) as [l'|w'|] eqn:El; [destruct OK as (r' & cur & E' & _); congruence| |contradiction]);
      rewrite LE in OK; inversion OK; subst w';
      (destruct (runs_result Y (fun z => z) l idx x n (rle_rep_pos _ _ _ _ R)) as [[E1 J]|[l' E1]]; [|congruence]);
      rewrite El in E1; inversion E1; auto.
  - cbn [le] in LE. destruct (insert_runs Y (fun z => z) l idx x n); [destruct OK as (? & ? & ? & _); congruence|congruence|contradiction].
Qed.

(** Without overflow checks it returns a tree of the wrong size, most of which iteration does not show. *)
Lemma C43_overflow_panics_refuted_proof :
  exists (r r' : @rle Z nat) (l : list (nat * Z)) c z,
    reaches 255 (fun z => z) (wrapping_ops 255) (constant_ops Nat.eqb) 2 false r l /\ 255 < rsum l + 100 /\
    insert_with_cursor (wrapping_ops 255) (constant_ops Nat.eqb) 2 false r [] 50 2%nat 100 = Ok (r', c) /\
    rle_size (wrapping_ops 255) r' = Ok z /\ z < rsum l /\
    iter_collect (wrapping_ops 255) r' [] SUnb EUnb = Ok [(0, 50, 1%nat)].
Proof.
  eexists. eexists. exists [(1%nat, 200)]. eexists. exists 44. split; [exists [Build_op [] 0 1%nat 200]; split; [split; [repeat (constructor; [cbn; lia|]); constructor|cbn; lia]|split; vm_compute; reflexivity]|].
  split; [cbn; lia|]. split; [vm_compute; reflexivity|]. split; [vm_compute; reflexivity|]. split; [cbn; lia|]. vm_compute. reflexivity.
Qed.
