(** Proofs of the property theorems about trees that share nodes. *)
From Coq Require Import List ZArith Lia Bool Arith.
From Verif Require Import Base Index Slice Tree Insert Range Spec Iter Hist Order Rep Ins IterQ HistP LTree LInsert LRef LSpec LMemP LInvP LHistP LMemHistP LCow LCowSpec LCowIter LCowP LCowQ LCowR LCowW LCowX Samples LCowSamples.
Import ListNotations.
Local Open Scope Z_scope.

Section Reached.
  Context {I V : Type} (X : index_ops I) (Y : slice_ops I V) (MAX : Z) (inj : Z -> I) (M : nat) (L : index_laws X MAX inj) (HM : (1 <= M)%nat).

  Lemma reached_winv : forall nop w st, cow_reaches X Y MAX inj M nop w st -> exists b, winv inj M w b (fst st) /\ b <= MAX.
  Proof.
    intros nop w st (calls & Hf & Ha & Ev & Ew). pose proof Hf as [H1 H2]. pose proof (isum_nonneg MAX M HM _ H1).
    pose proof (w_run_ok X Y MAX inj M L HM nop calls w_new 0 ([], []) (winv_new inj M) Hf ltac:(lia) ltac:(lia) Ha) as H0.
    unfold wcalls_ok in H0. rewrite Ev in H0. destruct H0 as (w' & E & Hi). rewrite Ew in E. injection E as <-. eexists. split; [exact Hi|]. lia.
  Qed.
End Reached.

Lemma find_coh : forall {I V} (D : list (nat * (nat * tree I V * ltree))) a e, coh D -> In (a, e) D -> find (fun c => fst c =? a)%nat D = Some (a, e).
Proof.
  intros I V D a e Hc Hin. destruct (find (fun c => fst c =? a)%nat D) as [[b e']|] eqn:E.
  - apply find_some in E. destruct E as [E1 E2]. cbn [fst] in E2. apply Nat.eqb_eq in E2. subst b. rewrite (Hc _ _ _ Hin E1). reflexivity.
  - pose proof (find_none _ _ E _ Hin) as Q. cbn [fst] in Q. rewrite Nat.eqb_refl in Q. discriminate.
Qed.

(** Any number of trees with copy on write, created empty or by `clone`, inserted into and dropped in any
    order, behave as separate values, whatever nodes they share, as long as the allocator returns no
    node in use: every one holds the runs of its own history, and the stored parents along which
    an insertion climbs are right. *)
Lemma C38_shared_trees_are_values_proof : forall (I V : Type) (X : index_ops I) (Y : slice_ops I V) (MAX : Z) (inj : Z -> I) (M : nat) (nop : bool) (calls : list (wcall V)),
  index_laws X MAX inj -> (1 <= M)%nat -> mcalls_fit MAX (map forget calls) -> allocs_ok X Y M inj nop w_new calls ->
  match val_run Y inj ([], []) (map forget calls) with
  | Ok st => exists w, w_run X Y M inj nop w_new calls = Ok w /\
      Forall2 (fun t l => match t, l with
                          | Some t, Some l => iter_collect X (pt_rle t) [] SUnb EUnb = Ok (map (inj_item inj) (spans 0 l)) /\ rle_size X (pt_rle t) = Ok (inj (rsum l))
                          | None, None => True
                          | _, _ => False
                          end) (w_trees w) (fst st)
  | Panic p => w_run X Y M inj nop w_new calls = Panic p
  | UB => False
  end.
Proof.
  intros I V X Y MAX inj M nop calls L HM Hf Ha. pose proof Hf as [H1 H2]. pose proof (isum_nonneg MAX M HM _ H1).
  pose proof (w_run_ok X Y MAX inj M L HM nop calls w_new 0 ([], []) (winv_new inj M) Hf ltac:(lia) ltac:(lia) Ha) as H0.
  unfold wcalls_ok in H0. destruct (val_run Y inj ([], []) (map forget calls)) as [st|p|]; auto. destruct H0 as (w & E & [Ht _]). exists w. split; [exact E|].
  eapply f2_impl; [|exact Ht]. intros [t|] [l|]; cbn; auto. intros [P Hl _ _].
  split; [apply (iter_all_ok X MAX inj M L HM _ _ [] P); lia|]. exact (rle_size_ok X MAX inj M L _ _ P).
Qed.

(** The trees fit into one memory: an address is the same node, with the same contents, the same
    pointers and the same height, wherever it occurs; every node has as many child pointers as it has
    children; every child has a stored parent; and no node occurs twice in one tree. *)
Lemma C38_one_memory_proof : forall (I V : Type) (X : index_ops I) (Y : slice_ops I V) (MAX : Z) (inj : Z -> I) (M : nat) (nop : bool) (w : world I V) (st : @values V),
  index_laws X MAX inj -> (1 <= M)%nat -> cow_reaches X Y MAX inj M nop w st ->
  (forall a e e', In (a, e) (w_cells w) -> In (a, e') (w_cells w) -> e = e') /\
  (forall a h t lt, In (a, (h, t, lt)) (w_cells w) -> length (l_kids lt) = length (kids_of t) /\
     ((0 < h)%nat -> Forall (fun k => k <> LNil /\ l_par k <> None) (l_kids lt))) /\
  (forall j t, nth_error (w_trees w) j = Some (Some t) -> NoDup (laddrs (pt_nodes t)) /\ map fst (p_cells t) = laddrs (pt_nodes t)).
Proof.
  intros I V X Y MAX inj M nop w st L HM Hr. destruct (reached_winv X Y MAX inj M L HM nop w st Hr) as (b & [Ht Hc] & _).
  split; [exact Hc|]. split.
  - intros a h t lt Hin. destruct (oW_cells inj M _ _ _ _ Ht _ _ _ _ Hin) as (Hw & _). apply W_eq in Hw. destruct Hw as (a' & par & rs & ks & -> & _ & _ & _ & H5). cbn [l_kids].
    split; [symmetry; exact (f2_len _ _ _ H5)|]. intros Hh. destruct h as [|h]; [lia|]. cbn [WK] in H5. clear - H5.
    induction H5 as [|x k K ks [Hx Hp] H5 IH]; constructor; auto. split; [|exact Hp]. apply W_eq in Hx. destruct Hx as (? & ? & ? & ? & -> & _). discriminate.
  - intros j t Et. destruct (forall2_nth _ _ _ _ _ Ht Et) as ([l|] & El & Hy); [|destruct Hy]. destruct Hy as [_ _ Hw Hn]. split; [exact Hn|]. exact (WR_addrs _ _ Hw).
Qed.

(** A call on one tree leaves every other tree as it is: an insertion writes to no node of another
    tree. *)
Lemma C38_writes_are_private_proof : forall (I V : Type) (X : index_ops I) (Y : slice_ops I V) (MAX : Z) (inj : Z -> I) (M : nat) (nop : bool)
    (calls : list (wcall V)) (c : wcall V) (w w' : world I V) (j : nat) (t : ptree I V),
  index_laws X MAX inj -> (1 <= M)%nat -> mcalls_fit MAX (map forget (calls ++ [c])) -> allocs_ok X Y M inj nop w_new (calls ++ [c]) ->
  w_run X Y M inj nop w_new calls = Ok w -> w_call X Y M inj nop w c = Ok w' ->
  nth_error (w_trees w) j = Some (Some t) -> changes (forget c) <> Some j ->
  nth_error (w_trees w') j = Some (Some t) /\ forall a, In a (laddrs (pt_nodes t)) -> ~ In a (w_writes w').
Proof.
  intros I V X Y MAX inj M nop calls c w w' j t L HM Hf Ha Ew Ec Et Hj.
  rewrite map_app in Hf. cbn [map] in Hf. destruct Hf as [Hf Hs]. apply Forall_app in Hf. destruct Hf as [Hf1 Hf2].
  assert (Eapp : forall a b : list (@mcall V), isum (a ++ b) = isum a + isum b) by (induction a as [|[] a IH]; intros b; cbn [isum app]; rewrite ?IH; lia).
  rewrite Eapp in Hs. pose proof (isum_nonneg MAX M HM _ Hf1) as H1. pose proof (isum_nonneg MAX M HM _ Hf2) as H2. inversion Hf2 as [|? ? Hc _]; subst.
  assert (Ha1 : allocs_ok X Y M inj nop w_new calls /\ alloc_ok w c).
  { clear - Ha Ew. revert Ha Ew. generalize (@w_new I V). induction calls as [|d calls IH]; intros w0 Ha Ew; cbn [app allocs_ok w_run] in *.
    - injection Ew as ->. tauto.
    - destruct Ha as [Ha1 Ha2]. destruct (w_call X Y M inj nop w0 d) as [w1| |]; cbn [bind] in Ew; try discriminate. destruct (IH w1 Ha2 Ew). tauto. }
  destruct Ha1 as [Ha1 Hac].
  assert (Hle : isum (map forget calls) <= MAX) by lia.
  pose proof (w_run_ok X Y MAX inj M L HM nop calls w_new 0 ([], []) (winv_new inj M) (conj Hf1 Hle) ltac:(lia) ltac:(lia) Ha1) as H0.
  unfold wcalls_ok in H0. destruct (val_run Y inj ([], []) (map forget calls)) as [st|p|]; [|congruence|contradiction].
  destruct H0 as (w0 & E & Hinv). rewrite Ew in E. injection E as <-. rewrite Z.add_0_l in Hinv. pose proof Hinv as [Ht Hcoh].
  destruct c as [|j2 hints i x n al|j2|j2]; cbn [changes forget isum] in *.
  - injection Ec as <-. cbn [w_trees w_writes]. split; [rewrite nth_error_app1; auto; apply nth_error_Some; congruence|auto].
  - destruct (nth_error (w_trees w) j2) as [[t2|]|] eqn:E2; [|cbn [w_call] in Ec; rewrite E2 in Ec; injection Ec as <-; cbn; auto..].
    destruct (forall2_nth _ _ _ _ _ Ht E2) as ([l2|] & El2 & Hy2); [|destruct Hy2]. pose proof Hy2 as [P2 Hl2 _ _].
    pose proof (insert_full_ok X Y MAX inj M L HM nop _ _ hints i x n P2 ltac:(lia) ltac:(lia) ltac:(lia)) as G.
    destruct (spec_insert Y inj l2 i x n) as [l'|p|] eqn:Es; [| |destruct G].
    + destruct (w_insert_ok X Y MAX inj M L HM nop w _ (fst st) j2 hints i x n al t2 l2 l' Hinv E2 El2 ltac:(lia) ltac:(lia) ltac:(lia) Es Hac) as (w1 & t' & E & _ & Etr & Hw).
      rewrite E in Ec. injection Ec as <-. split; [rewrite Etr, LTreeP.replace_at_other by congruence; exact Et|].
      intros a Hin Hwr. rewrite Forall_forall in Hw. apply (Hw a Hwr). unfold live. apply in_flat_map. exists (Some t). split; [|exact Hin].
      apply (nth_error_In _ j). rewrite LTreeP.replace_at_other by congruence. exact Et.
    + exfalso. cbn [w_call] in Ec. rewrite E2 in Ec. unfold c_insert in Ec. rewrite G in Ec. discriminate.
  - destruct (nth_error (w_trees w) j2) as [[t2|]|] eqn:E2; cbn [w_call] in Ec; rewrite E2 in Ec; injection Ec as <-; cbn [w_trees w_writes]; auto.
    split; [rewrite nth_error_app1; auto; apply nth_error_Some; congruence|auto].
  - destruct (nth_error (w_trees w) j2) as [[t2|]|] eqn:E2; cbn [w_call] in Ec; rewrite E2 in Ec; injection Ec as <-; cbn [w_trees w_writes]; auto.
    split; [rewrite LTreeP.replace_at_other by congruence; exact Et|auto].
Qed.

(** Iteration over a tree that shares nodes, by any sequence of `next` and `next_back`, gives its runs that
    overlap the range, if no address has ever been used for nodes of different heights.  Missing: an
    allocator that uses the address of a freed node again for a node of another height, see
    C39_cow_iter_refuted. *)
Lemma C39_cow_iter_partial_proof : forall (I V : Type) (X : index_ops I) (Y : slice_ops I V) (MAX : Z) (inj : Z -> I) (M : nat) (nop : bool)
    (w : world I V) (st : @values V) (j : nat) (l : list (V * Z)) (hints : list nat) (sb : sbound Z) (eb : ebound Z) (calls : list bool),
  index_laws X MAX inj -> (1 <= M)%nat -> cow_reaches X Y MAX inj M nop w st -> nth_error (fst st) j = Some (Some l) ->
  (forall a h h', In (a, h) (w_log w) -> In (a, h') (w_log w) -> h = h') ->
  sb_in MAX sb -> eb_in MAX eb -> range_ok (rsum l) sb eb = true ->
  w_iter X w j hints (inj_sb inj sb) (inj_eb inj eb) calls
  = Ok (map (option_map (inj_item inj)) (deque (overlapping l (range_start sb) (range_end (rsum l) eb)) calls)).
Proof.
  intros I V X Y MAX inj M nop w st j l hints sb eb calls L HM Hr El HU Hs He Ho. destruct (reached_winv X Y MAX inj M L HM nop w st Hr) as (b & [Ht Hc] & Hb).
  destruct (nth_error (w_trees w) j) as [[t|]|] eqn:Et.
  2:{ destruct (forall2_nth _ _ _ _ _ Ht Et) as (l' & El' & Hy). rewrite El in El'. injection El' as <-. destruct Hy. }
  2:{ rewrite (forall2_nth_none _ _ _ _ Ht Et) in El. discriminate. }
  destruct (forall2_nth _ _ _ _ _ Ht Et) as (l' & El' & Hy). rewrite El in El'. injection El' as <-. destruct Hy as [P Hl Hw Hn].
  pose proof (iter_ok X MAX inj M L HM (pt_rle t) l hints sb eb P ltac:(lia) Hs He) as H. rewrite Ho in H. destruct H as (it & E & H). destruct (H calls) as (it' & E').
  unfold w_iter. rewrite Et. unfold x_iter_new. rewrite E. cbn [bind]. unfold WR in Hw.
  destruct (pt_rle t) as [r|] eqn:Er.
  - pose proof Hw as Hw2. apply W_eq in Hw2. destruct Hw2 as (a & par & rs & ks & Ea & _). rewrite Ea. cbn [bind].
    eapply (calls_sim X (w_cells w) (w_log w) (r_height r) (r_node r) (pt_nodes t) Hw Hn _ HU a); [eauto|reflexivity|reflexivity| |exact E'].
    unfold IR. cbn [xi_start xi_end xi_excl xi_addr xi_height xi_state]. do 5 (split; [reflexivity|]).
    clear - E. unfold iter_new in E. repeat match type of E with
      | bind ?e _ = Ok _ => destruct e; cbn [bind] in E; try discriminate
      | (let (_, _) := ?e in _) = Ok _ => destruct e
      | (if ?b then _ else _) = Ok _ => destruct b; try discriminate
      end. injection E as <-. cbn [it_state]. match goal with |- context [if ?x then _ else _] => destruct x end; cbn; auto.
    Unshelve. intros a0 e Hin. apply find_coh; [exact Hc|]. unfold w_cells. apply in_flat_map. exists (Some t). split; [eapply nth_error_In; exact Et|]. unfold p_cells. rewrite Er. exact Hin.
  - cbn [bind]. assert (Es : it_state it = None).
    { clear - E. unfold iter_new in E. repeat match type of E with
      | bind ?e _ = Ok _ => destruct e; cbn [bind] in E; try discriminate
      | (let (_, _) := ?e in _) = Ok _ => destruct e
      | (if ?b then _ else _) = Ok _ => destruct b; try discriminate
      end. injection E as <-. reflexivity. }
    rewrite (ended_calls X None calls it Es) in E'. injection E' as E' _. rewrite <- E'.
    assert (G : forall calls (x : @xiter I), xi_state x = None -> x_calls X (w_cells w) x calls = Ok (map (fun _ => None) calls)).
    { clear. induction calls as [|b calls IH]; intros x Ex; cbn [x_calls map]; [reflexivity|]. unfold x_next, x_next_back. rewrite Ex.
      destruct b; cbn [bind]; rewrite (IH x Ex); reflexivity. }
    apply G. reflexivity.
Qed.

(** With such an allocator iteration can go wrong: `fwd_step` compares the stored parent of a child two
    levels down with the node where the step started, not with the node it came through; when the stored
    parent has been freed and its address belongs to the node where the step started, the way back up
    is lost. *)
Lemma C39_cow_iter_refuted_proof : exists (calls : list (wcall nat)) (w : world Z nat) (st : @values nat) (l : list (nat * Z)) (items : list (option (Z * Z * nat))),
  mcalls_fit 1000 (map forget calls) /\ allocs_ok sx sc 1 sid false w_new calls /\
  val_run sc sid ([], []) (map forget calls) = Ok st /\ w_run sx sc 1 sid false w_new calls = Ok w /\
  nth_error (fst st) 2 = Some (Some l) /\ length l = 9%nat /\
  w_iter sx w 2 [] SUnb EUnb (repeat false 10) = Ok items /\
  items <> map Some (spans 0 l) ++ [None] /\ ~ In (Some (8, 9, 8%nat)) items /\ In (Some (7, 10, 6%nat)) items /\ In (8, 9, 8%nat) (spans 0 l).
Proof.
  exists x_bad, x_bad_world, x_bad_vals. eexists _, _. split; [exact x_bad_fit|]. split; [exact x_bad_allocs|].
  split; [vm_compute; reflexivity|]. split; [vm_compute; reflexivity|]. split; [vm_compute; reflexivity|]. split; [reflexivity|]. split; [vm_compute; reflexivity|].
  split; [vm_compute; discriminate|]. split; [vm_compute; intros Q; repeat (destruct Q as [Q|Q]; [discriminate Q|]); destruct Q|]. split; [vm_compute; tauto|vm_compute; tauto].
Qed.
