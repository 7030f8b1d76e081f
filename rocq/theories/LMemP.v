(** Following node pointers in a well-formed tree.  Proof support only. *)
From Coq Require Import List ZArith Lia Bool Arith Permutation.
From Verif Require Import Base Index Slice Tree Insert Spec Zip Rep Upd Leaf Path Ops Find Ins IterP LTree LInsert LTreeP LUpP LLeafP LShape LShapeP LUpdP LPlanP LRef.
Import ListNotations.

Section AtPath.
  Context {I V : Type} (M : nat) (HM : 1 <= M).
  Notation tree := (tree I V).
  Notation lok := (lok M).

  Fixpoint at_path (h : nat) (lt : ltree) (t : tree) (p : list nat) : option (nat * tree * ltree) :=
    match p with
    | [] => match lt with LNil => None | _ => Some (h, t, lt) end
    | c :: p' =>
      match nth_error (l_kids lt) c, nth_error (kids_of t) c with
      | Some k, Some x => at_path (h - 1) k x p'
      | _, _ => None
      end
    end.

  Lemma shape_kids : forall a p rs ks (t : tree), shape t = lshape (LNode a p rs ks) -> map shape (kids_of t) = map lshape ks.
  Proof.
    intros a p rs ks [|tot c0 es] H; [discriminate|]. cbn [shape lshape kids_of map] in *. injection H as H.
    rewrite <- H, map_map. reflexivity.
  Qed.

  Lemma kids_child : forall (t : tree) c ch, child t c = Ok ch <-> nth_error (kids_of t) c = Some ch.
  Proof.
    intros [|tot c0 es] c ch; cbn [child kids_of]; [split; [discriminate|destruct c; discriminate]|].
    destruct c as [|c]; cbn [child_of nth_error]; [split; intros H; congruence|].
    unfold nth_ub. rewrite nth_error_map. destruct (nth_error es c); cbn [bind option_map]; split; congruence.
  Qed.

  (** ** Addresses *)
  Lemma cells_kids : forall (f : ltree -> tree -> list (nat * (nat * tree * ltree))) ks (cs : list tree),
    (forall k c, In (k, c) (combine ks cs) -> map fst (f k c) = laddrs k) -> length ks = length cs ->
    map fst ((fix go ks cs := match ks, cs with k :: ks', c :: cs' => f k c ++ go ks' cs' | _, _ => [] end) ks cs) = flat_map laddrs ks.
  Proof.
    induction ks as [|k ks IH]; intros [|c cs] H E; try discriminate; [reflexivity|].
    rewrite map_app. cbn [flat_map]. rewrite H by (left; reflexivity). f_equal. apply IH; [|injection E; auto].
    intros. apply H. right. assumption.
  Qed.

  Lemma combine_shape : forall ks (cs : list tree) k c, map shape cs = map lshape ks -> In (k, c) (combine ks cs) -> In k ks /\ shape c = lshape k.
  Proof.
    induction ks as [|x ks IH]; intros [|y cs] k c E H; try destruct H.
    - injection H as -> ->. injection E as E _. split; [left; reflexivity|exact E].
    - injection E as _ E. destruct (IH _ _ _ E H). split; [right|]; assumption.
  Qed.

  Lemma cells_addrs : forall lt (t : tree) h, shape t = lshape lt -> map fst (cells h lt t) = laddrs lt.
  Proof.
    induction lt as [|a p rs ks IH] using ltree_ind2; intros t h E; [reflexivity|].
    cbn [cells laddrs map fst]. f_equal. pose proof (shape_kids _ _ _ _ _ E) as Ek.
    apply cells_kids.
    - intros k c Hin. destruct (combine_shape _ _ _ _ Ek Hin) as [H1 H2]. rewrite Forall_forall in IH. apply IH; auto.
    - apply (f_equal (@length _)) in Ek. rewrite !map_length in Ek. auto.
  Qed.

  Lemma in_cells_go : forall (f : ltree -> tree -> list (nat * (nat * tree * ltree))) ks (cs : list tree) c k x e,
    nth_error ks c = Some k -> nth_error cs c = Some x -> In e (f k x) ->
    In e ((fix go ks cs := match ks, cs with k :: ks', c :: cs' => f k c ++ go ks' cs' | _, _ => [] end) ks cs).
  Proof.
    induction ks as [|k0 ks IH]; intros [|x0 cs] [|c] k x e H1 H2 H3; try discriminate.
    - injection H1 as ->. injection H2 as ->. apply in_or_app. auto.
    - apply in_or_app. right. eapply IH; eauto.
  Qed.

  Lemma cells_at : forall p h lt (t : tree) h' n a q rs ks, at_path h lt t p = Some (h', n, LNode a q rs ks) ->
    In (a, (h', n, LNode a q rs ks)) (cells h lt t).
  Proof.
    induction p as [|c p IH]; intros h lt t h' n a q rs ks H; cbn [at_path] in H.
    - destruct lt; [discriminate|]. injection H as -> -> -> -> -> ->. left. reflexivity.
    - destruct lt as [|a0 q0 rs0 ks0]; [destruct c; discriminate|]. cbn [l_kids] in H.
      destruct (nth_error ks0 c) as [k|] eqn:E1; [|discriminate]. destruct (nth_error (kids_of t) c) as [x|] eqn:E2; [|discriminate].
      cbn [cells]. right. exact (in_cells_go _ _ _ _ _ _ _ E1 E2 (IH _ _ _ _ _ _ _ _ _ H)).
  Qed.

  Lemma find_nodup : forall {T} (l : list (nat * T)) a x, NoDup (map fst l) -> In (a, x) l -> find (fun c => fst c =? a) l = Some (a, x).
  Proof.
    induction l as [|[b y] l IH]; intros a x Hn Hi; [destruct Hi|]. cbn [map fst] in Hn. apply NoDup_cons_iff in Hn. destruct Hn as [Hn Hn'].
    cbn [find fst]. destruct Hi as [E|Hi].
    - injection E as -> ->. rewrite Nat.eqb_refl. reflexivity.
    - destruct (Nat.eqb_spec b a) as [->|]; [|auto]. destruct Hn. apply in_map_iff. exists (a, x). auto.
  Qed.

  Lemma deref_at : forall (t : ptree I V) r p h' n a q rs ks, pt_rle t = Some r -> shape (r_node r) = lshape (pt_nodes t) ->
    NoDup (laddrs (pt_nodes t)) -> at_path (r_height r) (pt_nodes t) (r_node r) p = Some (h', n, LNode a q rs ks) ->
    deref t a = Ok (h', n, LNode a q rs ks).
  Proof.
    intros t r p h' n a q rs ks Er Es Hn H. unfold deref. rewrite Er. erewrite find_nodup; [reflexivity| |].
    - rewrite cells_addrs by exact Es. exact Hn.
    - eapply cells_at. exact H.
  Qed.

  (** ** Paths *)
  Lemma at_path_app : forall p h lt (t : tree) q, at_path h lt t (p ++ q) =
    match p with [] => at_path h lt t q | _ => match at_path h lt t p with Some (h', n, ln) => at_path h' ln n q | None => None end end.
  Proof.
    induction p as [|c p IH]; intros h lt t q; [reflexivity|]. cbn [app at_path].
    destruct (nth_error (l_kids lt) c) as [k|]; [|reflexivity]. destruct (nth_error (kids_of t) c) as [x|]; [|reflexivity].
    rewrite IH. destruct p as [|c' p]; [|reflexivity]. cbn [at_path]. destruct k; [|reflexivity].
    destruct q as [|c' q]; cbn [at_path l_kids]; [reflexivity|destruct c'; reflexivity].
  Qed.

  Lemma at_path_lok : forall p h lt (t : tree) par h' n a q rs ks, lok par lt -> shape t = lshape lt ->
    at_path h lt t p = Some (h', n, LNode a q rs ks) -> lok q (LNode a q rs ks) /\ shape n = lshape (LNode a q rs ks) /\ h' = h - length p.
  Proof.
    induction p as [|c p IH]; intros h lt t par h' n a q rs ks Hok Es H; cbn [at_path] in H.
    - destruct lt as [|a0 q0 rs0 ks0]; [discriminate|]. injection H as -> -> -> -> -> ->.
      assert (q = par) by (destruct Hok as (H & _); exact H). subst q. cbn [length]. rewrite Nat.sub_0_r. auto.
    - destruct lt as [|a0 q0 rs0 ks0]; [destruct c; discriminate|]. cbn [l_kids] in H.
      destruct (nth_error ks0 c) as [k|] eqn:E1; [|discriminate]. destruct (nth_error (kids_of t) c) as [x|] eqn:E2; [|discriminate].
      destruct Hok as (_ & _ & _ & Hk). pose proof (alli_nth _ _ _ _ _ Hk E1) as Hk1. cbn beta in Hk1.
      pose proof (shape_kids _ _ _ _ _ Es) as Ek. apply (f_equal (fun l => nth_error l c)) in Ek. rewrite !nth_error_map, E1, E2 in Ek. injection Ek as Ek.
      destruct (IH _ _ _ _ _ _ _ _ _ _ Hk1 Ek H) as (G1 & G2 & ->). split; [exact G1|]. split; [exact G2|]. cbn [length]. lia.
  Qed.

  (** The stored parent of a node. *)
  Lemma at_path_par : forall p c h lt (t : tree) par h' n a q rs ks, lok par lt -> shape t = lshape lt ->
    at_path h lt t (p ++ [c]) = Some (h', n, LNode a q rs ks) ->
    exists h2 n2 a2 q2 rs2 ks2, at_path h lt t p = Some (h2, n2, LNode a2 q2 rs2 ks2) /\ q = Some (a2, c) /\ child n2 c = Ok n.
  Proof.
    intros p c h lt t par h' n a q rs ks Hok Es H.
    assert (H0 : exists h2 n2 ln2, at_path h lt t p = Some (h2, n2, ln2) /\ at_path h2 ln2 n2 [c] = Some (h', n, LNode a q rs ks)).
    { rewrite at_path_app in H. destruct p as [|c0 p].
      - exists h, t, lt. split; [|exact H]. cbn [at_path]. destruct lt; [cbn in H; destruct c; discriminate|reflexivity].
      - destruct (at_path h lt t (c0 :: p)) as [[[h2 n2] ln2]|]; [|discriminate]. eauto 10. }
    destruct H0 as (h2 & n2 & ln2 & E & H2). destruct ln2 as [|a2 q2 rs2 ks2]; [cbn in H2; destruct c; discriminate|].
    exists h2, n2, a2, q2, rs2, ks2. split; [exact E|].
    destruct (at_path_lok _ _ _ _ _ _ _ _ _ _ _ Hok Es E) as (Hok2 & Es2 & _).
    cbn [at_path l_kids] in H2. destruct (nth_error ks2 c) as [k|] eqn:E1; [|discriminate].
    destruct (nth_error (kids_of n2) c) as [x|] eqn:E2; [|discriminate]. destruct k as [|a' q' rs' ks']; [discriminate|].
    injection H2 as <- <- -> -> -> ->. split; [|apply kids_child; exact E2].
    destruct Hok2 as (_ & _ & _ & Hk). pose proof (alli_nth _ _ _ _ _ Hk E1) as Hk1. cbn in Hk1. destruct Hk1 as (-> & _). reflexivity.
  Qed.
  Lemma at_path_root : forall h lt (t : tree) par h' n a q rs ks, lok par lt -> at_path h lt t [] = Some (h', n, LNode a q rs ks) -> q = par.
  Proof. intros h lt t par h' n a q rs ks Hok H. destruct lt as [|a0 q0 rs0 ks0]; [discriminate|]. injection H as -> -> -> -> -> ->. destruct Hok as (-> & _). reflexivity. Qed.

  (** ** The node of a key *)
  Lemma rank_at : forall p h lt (t : tree) par k e, lok par lt -> shape t = lshape lt -> srank (lshape lt) p k = Some e ->
    exists n a q rs ks r, at_path h lt t p = Some (h - length p, n, LNode a q rs ks) /\ nth_error rs k = Some r /\
      nth_error (linord lt) e = Some (Some (a, k), r) /\ node_at t p = Ok n.
  Proof.
    induction p as [|c p IH]; intros h lt t par k e Hok Es He.
    - destruct lt as [|a q rs ks]; [discriminate|]. cbn [srank lshape kl] in He. rewrite map_length in He.
      assert (Hl : length ks = S (length rs)) by (destruct Hok as (_ & _ & H & _); exact H).
      destruct (Nat.ltb_spec (S k) (length ks)) as [Hk|]; [|discriminate].
      rewrite nth_error_map in He. destruct (nth_error ks k) as [ch|] eqn:Ec; [|discriminate]. cbn [option_map] in He. injection He as <-.
      assert (q = par) by (destruct Hok as (H & _); exact H). subst q.
      destruct (node_cut M HM a par _ _ _ _ Hok Ec) as (r1 & r2 & k1 & k2 & -> & -> & Hl1 & Hl2 & ->).
      assert (Hks : loks M a 0 (k1 ++ ch :: k2)) by (destruct Hok as (_ & _ & _ & H); exact H).
      apply alli_app in Hks. destruct Hks as [Hk1 [Hkc Hk2]]. cbn [plus] in Hkc. fold (loks M a 0 k1) in Hk1.
      rewrite !app_length in *. cbn [length] in *.
      destruct r2 as [|r r2]; [cbn in *; lia|]. destruct k2 as [|k0 k2]; [discriminate|].
      exists t, a, par, (r1 ++ r :: r2), (k1 ++ ch :: k0 :: k2), r. split; [cbn [at_path length]; rewrite Nat.sub_0_r; reflexivity|].
      split; [rewrite nth_error_app2, Nat.sub_diag by lia; reflexivity|]. split; [|reflexivity].
      rewrite linord_cut by (cbn in *; lia). rewrite map_app, Hl1. cbn [map].
      rewrite <- (wls_sbefore M HM a 0 r1 k1 _ Hl1 Hk1), <- (wl_len r1 k1 a 0), <- (linord_len M HM _ _ Hkc).
      apply (nth_place0 M HM). rewrite nth_error_app2, Nat.sub_diag by lia. reflexivity.
    - destruct lt as [|a q rs ks]; [cbn [srank lshape kl] in He; destruct c; discriminate|].
      assert (q = par) by (destruct Hok as (H & _); exact H). subst q.
      pose proof (shape_kids _ _ _ _ _ Es) as Ek.
      cbn [srank lshape kl] in He. rewrite nth_error_map in He.
      destruct (nth_error ks c) as [ch|] eqn:Ec; [|discriminate]. cbn [option_map] in He.
      apply (f_equal (fun l => nth_error l c)) in Ek. rewrite !nth_error_map, Ec in Ek.
      destruct (nth_error (kids_of t) c) as [x|] eqn:Ex; [|discriminate]. cbn [option_map] in Ek. injection Ek as Ek.
      destruct (node_cut M HM a par _ _ _ _ Hok Ec) as (r1 & r2 & k1 & k2 & -> & -> & Hl1 & Hl2 & ->).
      destruct (srank (lshape ch) p k) as [e'|] eqn:Ee'; [|discriminate]. cbn [option_map] in He. injection He as <-.
      assert (Hks : loks M a 0 (k1 ++ ch :: k2)) by (destruct Hok as (_ & _ & _ & H); exact H).
      apply alli_app in Hks. destruct Hks as [Hk1 [Hkc Hk2]]. cbn [plus] in Hkc. fold (loks M a 0 k1) in Hk1.
      destruct (IH (h - 1) ch x _ k e' Hkc Ek Ee') as (n & a' & q' & rs' & ks' & r & E1 & E2 & E3 & E4).
      exists n, a', q', rs', ks', r. split; [|split; [exact E2|split]].
      + cbn [at_path l_kids length]. rewrite Ec, Ex, E1. do 3 f_equal. lia.
      + rewrite linord_cut by auto. rewrite map_app, ?Hl1. cbn [map].
        rewrite <- (wls_sbefore M HM a 0 r1 k1 _ Hl1 Hk1), <- (wl_len r1 k1 a 0).
        apply (nth_place M HM). exact E3.
      + cbn [node_at]. apply kids_child in Ex. rewrite Ex. exact E4.
  Qed.
End AtPath.

(** Every run has a place. *)
Lemma sh_ind2 : forall (P : sh -> Prop), P SX -> (forall ks, Forall P ks -> P (SN ks)) -> forall t, P t.
Proof.
  intros P H0 H1. fix F 1. intros [|ks]; [exact H0|]. apply H1. induction ks; constructor; auto.
Qed.
Lemma srank_surj : forall t i, i < scount t -> exists p k, srank t p k = Some i.
Proof.
  induction t as [|ks IH] using sh_ind2; intros i Hi; [cbn in Hi; lia|].
  assert (G : forall m, m <= length ks -> i < sbefore ks m ->
    exists c ch, nth_error ks c = Some ch /\ c < m /\ sbefore ks c <= i <= sbefore ks c + scount ch).
  { induction m as [|m IHm]; intros Hm Hs; [cbn in Hs; lia|].
    destruct (nth_error ks m) as [ch|] eqn:E; [|apply nth_error_None in E; lia].
    destruct (Nat.lt_ge_cases i (sbefore ks m)) as [H|H].
    - destruct (IHm ltac:(lia) H) as (c & ch' & E1 & E2 & E3). exists c, ch'. repeat split; auto; lia.
    - rewrite (sbefore_S _ _ _ E) in Hs. exists m, ch. repeat split; auto; lia. }
  assert (Hsc : scount (SN ks) = sbefore ks (length ks) - 1).
  { unfold sbefore. rewrite firstn_all. cbn [scount]. destruct ks; cbn [length map]; [reflexivity|]. lia. }
  destruct (G (length ks) (le_n _) ltac:(lia)) as (c & ch & E & Hc & Hb).
  destruct (Nat.eq_dec i (sbefore ks c + scount ch)) as [->|Hn].
  - exists [], c. cbn [srank kl]. destruct (Nat.ltb_spec (S c) (length ks)) as [H|H].
    + rewrite E. f_equal.
    + exfalso. assert (S c = length ks) by lia. rewrite Hsc, <- H0, (sbefore_S _ _ _ E) in Hi. lia.
  - rewrite Forall_forall in IH. destruct (IH ch (nth_error_In _ _ E) (i - sbefore ks c) ltac:(lia)) as (p & k & Ep).
    exists (c :: p), k. cbn [srank kl]. rewrite E, Ep. cbn [option_map]. f_equal. lia.
Qed.
