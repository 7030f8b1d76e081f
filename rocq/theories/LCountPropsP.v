(** Proofs of the property theorems about stored counts. *)
From Coq Require Import List ZArith Lia Bool Arith.
From Verif Require Import Base Index Slice Tree Insert Range Spec Iter Ins IterQ HistP LTree LInsert LRef LSpec LHistP LMemHistP LCow LCowSpec LCowP LCowQ LCowR LCowW LCowP LCount LCountSpec LCountP LCountQ LCountW.
Import ListNotations.
Local Open Scope Z_scope.

(** The stored counts are enough to share nodes: any number of trees that copy a node, write its parent and free it as
    its count says, and whose allocator returns no node that is allocated, behave as separate values; no count of a node
    that is not allocated is touched; and the trees and pointers are those of the model in which the sharing is known
    (so that C38 and C39 hold). *)
Lemma C52_counts_suffice_proof : forall (I V : Type) (X : index_ops I) (Y : slice_ops I V) (MAX : Z) (inj : Z -> I) (M : nat) (nop : bool) (calls : list (wcall V)),
  index_laws X MAX inj -> (1 <= M)%nat -> mcalls_fit MAX (map forget calls) -> n_allocs_ok X Y M inj nop nw_new calls ->
  allocs_ok X Y M inj nop w_new calls /\
  match val_run Y inj ([], []) (map forget calls) with
  | Ok st => exists w, n_run X Y M inj nop nw_new calls = Ok w /\ w_run X Y M inj nop w_new calls = Ok (nw_w w) /\
      Forall2 (fun t l => match t, l with
                          | Some t, Some l => iter_collect X (pt_rle t) [] SUnb EUnb = Ok (map (inj_item inj) (spans 0 l)) /\ rle_size X (pt_rle t) = Ok (inj (rsum l))
                          | None, None => True
                          | _, _ => False
                          end) (w_trees (nw_w w)) (fst st)
  | Panic p => n_run X Y M inj nop nw_new calls = Panic p
  | UB => False
  end.
Proof.
  intros I V X Y MAX inj M nop calls L HM Hf Ha. pose proof Hf as [H1 H2]. pose proof (isum_nonneg MAX M HM _ H1).
  destruct (n_run_ok X Y MAX inj M L HM nop calls nw_new 0 ([], []) (winv_new inj M) ninv_new Hf ltac:(lia) ltac:(lia) Ha) as [A0 H0]. split; [exact A0|].
  destruct (val_run Y inj ([], []) (map forget calls)) as [st|p|]; auto. destruct H0 as (w & E1 & E2 & [Ht _] & _). exists w. split; [exact E1|]. split; [exact E2|].
  eapply f2_impl; [|exact Ht]. intros [t|] [l|]; cbn; auto. intros [P Hl _ _].
  split; [apply (iter_all_ok X MAX inj M L HM _ _ [] P); lia|]. exact (rle_size_ok X MAX inj M L _ _ P).
Qed.

Section Reached.
  Context {I V : Type} (X : index_ops I) (Y : slice_ops I V) (MAX : Z) (inj : Z -> I) (M : nat) (L : index_laws X MAX inj) (HM : (1 <= M)%nat).
  Lemma n_reached : forall nop calls w, mcalls_fit MAX (map forget calls) -> n_allocs_ok X Y M inj nop nw_new calls -> n_run X Y M inj nop nw_new calls = Ok w ->
    exists st, val_run Y inj ([], []) (map forget calls) = Ok st /\ winv inj M (nw_w w) (isum (map forget calls)) (fst st) /\ ninv w.
  Proof.
    intros nop calls w Hf Ha Er. pose proof Hf as [H1 H2]. pose proof (isum_nonneg MAX M HM _ H1).
    destruct (n_run_ok X Y MAX inj M L HM nop calls nw_new 0 ([], []) (winv_new inj M) ninv_new Hf ltac:(lia) ltac:(lia) Ha) as [_ H0].
    destruct (val_run Y inj ([], []) (map forget calls)) as [st|p|]; [|congruence|contradiction]. destruct H0 as (w' & E1 & _ & Hi & Hn). rewrite Er in E1. injection E1 as <-. eauto.
  Qed.
  Lemma n_allocs_app : forall nop calls c w w0, n_allocs_ok X Y M inj nop w0 (calls ++ [c]) -> n_run X Y M inj nop w0 calls = Ok w ->
    n_allocs_ok X Y M inj nop w0 calls /\ n_alloc_ok w c.
  Proof.
    intros nop. induction calls as [|d calls IH]; intros c w w0 Ha Er; cbn [app n_allocs_ok n_run] in *.
    - injection Er as ->. tauto.
    - destruct Ha as [Ha1 Ha2]. destruct (n_call X Y M inj nop w0 d) as [w1| |]; cbn [bind] in Er; try discriminate. destruct (IH c w w1 Ha2 Er). tauto.
  Qed.
End Reached.

(** After any history the count of a node is the number of different pointers to it: root pointers of trees, and slots
    for children in nodes, where a slot in a node that several trees share is one pointer.  A node is allocated
    exactly if it is in some tree. *)
Lemma C52_counts_exact_proof : forall (I V : Type) (X : index_ops I) (Y : slice_ops I V) (MAX : Z) (inj : Z -> I) (M : nat) (nop : bool) (calls : list (wcall V)) (w : nworld I V) (a : addr),
  index_laws X MAX inj -> (1 <= M)%nat -> mcalls_fit MAX (map forget calls) -> n_allocs_ok X Y M inj nop nw_new calls -> n_run X Y M inj nop nw_new calls = Ok w ->
  nw_cnt w a = (if in_dec Nat.eq_dec a (live (w_trees (nw_w w))) then Some (pointers_to (w_trees (nw_w w)) a) else None) /\
  (In a (live (w_trees (nw_w w))) <-> (0 < pointers_to (w_trees (nw_w w)) a)%nat).
Proof.
  intros I V X Y MAX inj M nop calls w a L HM Hf Ha Er. destruct (n_reached X Y MAX inj M L HM nop calls w Hf Ha Er) as (st & _ & _ & Hn).
  pose proof (pointers_live (w_trees (nw_w w)) a) as Q. rewrite (Hn a). destruct (in_dec Nat.eq_dec a (live (w_trees (nw_w w)))) as [Hin|Hin].
  - destruct (pointers_to (w_trees (nw_w w)) a) as [|k]; [exfalso; tauto|]. split; [reflexivity|]. split; [lia|auto].
  - apply Q in Hin. rewrite Hin. split; [reflexivity|]. split; [|lia]. intros H. apply Q in H; [destruct H|exact Hin].
Qed.

(** A call frees exactly the nodes that were in some tree before and are in none after it, each once; only a drop frees
    any. *)
Lemma C52_frees_exact_proof : forall (I V : Type) (X : index_ops I) (Y : slice_ops I V) (MAX : Z) (inj : Z -> I) (M : nat) (nop : bool) (calls : list (wcall V)) (c : wcall V) (w w' : nworld I V),
  index_laws X MAX inj -> (1 <= M)%nat -> mcalls_fit MAX (map forget (calls ++ [c])) -> n_allocs_ok X Y M inj nop nw_new (calls ++ [c]) ->
  n_run X Y M inj nop nw_new calls = Ok w -> n_call X Y M inj nop w c = Ok w' ->
  NoDup (nw_freed w') /\
  (forall a, In a (nw_freed w') <-> In a (live (w_trees (nw_w w))) /\ ~ In a (live (w_trees (nw_w w')))) /\
  (match c with WDrop _ => True | _ => nw_freed w' = [] end).
Proof.
  intros I V X Y MAX inj M nop calls c w w' L HM Hf Ha Er Ec.
  destruct (n_allocs_app X Y inj M nop calls c w nw_new Ha Er) as [Ha1 Hac].
  assert (Er' : n_run X Y M inj nop nw_new (calls ++ [c]) = Ok w').
  { clear - Er Ec. revert Er. generalize (@nw_new I V). induction calls as [|d calls IH]; intros w0 Er; cbn [app n_run] in *; [injection Er as ->; rewrite Ec; reflexivity|].
    destruct (n_call X Y M inj nop w0 d) as [w1| |]; cbn [bind] in *; try discriminate. auto. }
  assert (Hf1 : mcalls_fit MAX (map forget calls)).
  { rewrite map_app in Hf. destruct Hf as [H1 H2]. apply Forall_app in H1. destruct H1 as [H1 H3]. split; [exact H1|].
    assert (Eapp : forall a b : list (@mcall V), isum (a ++ b) = isum a + isum b) by (induction a as [|[] a IH]; intros b; cbn [isum app]; rewrite ?IH; lia).
    rewrite Eapp in H2. pose proof (isum_nonneg MAX M HM _ H3). lia. }
  destruct (n_reached X Y MAX inj M L HM nop calls w Hf1 Ha1 Er) as (st & Ev & Hi & Hn).
  destruct (n_reached X Y MAX inj M L HM nop _ w' Hf Ha Er') as (st' & Ev' & Hi' & Hn').
  destruct (n_run_ok X Y MAX inj M L HM nop (calls ++ [c]) nw_new 0 ([], []) (winv_new inj M) ninv_new Hf ltac:(destruct Hf; lia) ltac:(lia) Ha) as [_ H0].
  rewrite Ev' in H0. destruct H0 as (w2 & E1 & E2 & _). rewrite Er' in E1. injection E1 as <-.
  destruct (n_run_ok X Y MAX inj M L HM nop calls nw_new 0 ([], []) (winv_new inj M) ninv_new Hf1 ltac:(destruct Hf1; lia) ltac:(lia) Ha1) as [_ H0].
  rewrite Ev in H0. destruct H0 as (w1 & E1 & E3 & _). rewrite Er in E1. injection E1 as <-.
  assert (Ew : w_call X Y M inj nop (nw_w w) c = Ok (nw_w w')).
  { clear - E2 E3. cbn [nw_new nw_w] in *. revert E2 E3. generalize (@w_new I V). induction calls as [|d calls IH]; intros w0 E2 E3; cbn [app w_run] in *.
    - injection E3 as ->. destruct (w_call X Y M inj nop (nw_w w) c); cbn [bind] in E2; congruence.
    - destruct (w_call X Y M inj nop w0 d) as [w1| |]; cbn [bind] in *; try discriminate. eauto. }
  destruct (n_step X Y inj M HM nop w _ _ c _ _ _ Hi Hn Hac Ew Hi') as (w3 & E4 & _ & _ & [F1 F2] & F3). rewrite Ec in E4. injection E4 as <-.
  split; [exact F1|]. split; [exact F2|]. destruct F3 as [F3|[j ->]]; [destruct c; auto|exact Logic.I].
Qed.
