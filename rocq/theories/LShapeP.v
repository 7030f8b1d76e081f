(** Ranks by shape, and the shape of the pointer side.  Proof support only. *)
From Coq Require Import List Bool Arith Lia ZArith.
From Verif Require Import Base Index Slice Tree Insert Spec Zip Rep Path LTree LInsert LTreeP LShape.
Import ListNotations.

Section Ranks.
  Context {I V : Type}.
  Notation tree := (tree I V).
  Notation entry := (entry_of I V) (only parsing).

  Lemma list_sum_cons : forall x l, list_sum (x :: l) = x + list_sum l.
  Proof. reflexivity. Qed.

  Lemma tree_ind3 : forall (P : tree -> Prop), P Nil ->
    (forall tot c0 es, P c0 -> Forall (fun e : entry => P (snd e)) es -> P (Node tot c0 es)) -> forall t, P t.
  Proof.
    intros P HN HC. fix IH 1. intros [|tot c0 es]; [exact HN|]. apply HC; [apply IH|].
    induction es as [|e es IHes]; constructor; [apply IH|exact IHes].
  Qed.

  Lemma count_shape : forall t : tree, count t = scount (shape t).
  Proof.
    intros t. induction t as [|tot c0 es H0 Hes] using tree_ind3; [reflexivity|].
    rewrite count_Node. cbn [shape scount map length]. rewrite list_sum_cons, H0, map_map, map_length.
    replace (ecount es) with (list_sum (map (fun e => scount (shape (snd e))) es) + length es).
    - cbn. lia.
    - clear H0. induction Hes as [|[k ch] es H Hes IH]; [reflexivity|]. cbn [ecount map length snd] in *. rewrite list_sum_cons. rewrite H. lia.
  Qed.

  Lemma before_shape : forall c (c0 : tree) es, c <= length es ->
    before c0 es c = sbefore (shape c0 :: map (fun e => shape (snd e)) es) c.
  Proof.
    induction c as [|c IH]; intros c0 es H; [reflexivity|].
    destruct es as [|[k ch] es]; cbn [length] in H; [lia|].
    cbn [before]. rewrite IH by lia. unfold sbefore. cbn [map snd]. rewrite firstn_cons. cbn [map]. rewrite list_sum_cons, count_shape.
    lia.
  Qed.

  Lemma rank_shape : forall p (t : tree) k, rank t p k = srank (shape t) p k.
  Proof.
    induction p as [|c p IH]; intros [|tot c0 es] k; cbn [rank srank shape kl]; try reflexivity.
    - cbn [length]. rewrite map_length. destruct (Nat.ltb_spec k (length es)) as [H|H].
      + rewrite (proj2 (Nat.ltb_lt _ _)) by lia. rewrite before_shape by lia.
        pose proof (child_shape (Node tot c0 es) k) as Hc. cbn [child shape kl] in Hc.
        destruct (child_of c0 es k) as [ch| |] eqn:E.
        * rewrite (Hc _ eq_refl), count_shape. reflexivity.
        * destruct k; cbn in E; [discriminate|]. unfold nth_ub in E. destruct (nth_error es k); discriminate.
        * destruct k; cbn in E; [discriminate|]. unfold nth_ub in E. destruct (nth_error es k) eqn:E2; [discriminate|].
          apply nth_error_None in E2. lia.
      + rewrite (proj2 (Nat.ltb_ge _ _)) by lia. reflexivity.
    - destruct c; reflexivity.
    - pose proof (child_shape (Node tot c0 es) c) as Hc. cbn [child shape kl] in Hc.
      destruct (child_of c0 es c) as [ch| |] eqn:E.
      + assert (Hb : c <= length es) by (revert E; apply (child_of_bound 1 (le_n 1))). rewrite (Hc _ eq_refl), before_shape by exact Hb. rewrite IH. reflexivity.
      + destruct c; cbn in E; [discriminate|]. unfold nth_ub in E. destruct (nth_error es c); discriminate.
      + destruct c; cbn in E; [discriminate|]. unfold nth_ub in E. destruct (nth_error es c) eqn:E2; [discriminate|].
        cbn [nth_error]. rewrite nth_error_map, E2. reflexivity.
  Qed.

  Lemma erank_shape : forall p (t : tree) k, erank t p k = serank (shape t) p k.
  Proof.
    induction p as [|c p IH]; intros [|tot c0 es] k; cbn [erank serank shape kl]; try reflexivity.
    - cbn [length]. rewrite map_length. destruct (Nat.leb_spec k (length es)) as [H|H].
      + rewrite (proj2 (Nat.ltb_lt _ _)) by lia. rewrite before_shape by lia. reflexivity.
      + rewrite (proj2 (Nat.ltb_ge _ _)) by lia. reflexivity.
    - destruct c; reflexivity.
    - pose proof (child_shape (Node tot c0 es) c) as Hc. cbn [child shape kl] in Hc.
      destruct (child_of c0 es c) as [ch| |] eqn:E.
      + assert (Hb : c <= length es) by (revert E; apply (child_of_bound 1 (le_n 1))). rewrite (Hc _ eq_refl), before_shape by exact Hb. rewrite IH. reflexivity.
      + destruct c; cbn in E; [discriminate|]. unfold nth_ub in E. destruct (nth_error es c); discriminate.
      + destruct c; cbn in E; [discriminate|]. unfold nth_ub in E. destruct (nth_error es c) eqn:E2; [discriminate|].
        cbn [nth_error]. rewrite nth_error_map, E2. reflexivity.
  Qed.
End Ranks.

(** Perfect height. *)
Fixpoint hsh (h : nat) (t : sh) : Prop :=
  match h with
  | 0 => exists n, t = SN (repeat SX (S n))
  | S h' => exists ks, t = SN ks /\ ks <> [] /\ Forall (hsh h') ks
  end.

Section RepShape.
  Context {I V : Type} (inj : Z -> I) (M : nat).
  Lemma seg_shape : forall (R : tree I V -> list (V * Z) -> Prop) (P : sh -> Prop), (forall t l, R t l -> P (shape t)) ->
    forall es off l, seg inj R off es l -> Forall P (map (fun e => shape (snd e)) es).
  Proof. intros R P H es off l Hs. induction Hs; cbn [map snd]; constructor; eauto. Qed.

  Lemma rep_hsh : forall h lo (t : tree I V) l, rep inj M lo h t l -> hsh h (shape t).
  Proof.
    induction h as [|h IH]; intros lo t l (c0 & es & lc & l' & -> & _ & H0 & Hs & _).
    - destruct H0 as [-> ->]. exists (length es). cbn [shape]. f_equal. cbn [repeat]. f_equal.
      apply (seg_shape _ (fun s => s = SX)) in Hs; [|intros t0 l0 [-> _]; reflexivity].
      rewrite <- (map_length (fun e => shape (snd e)) es). induction Hs; cbn [length repeat]; congruence.
    - cbn [shape]. exists (shape c0 :: map (fun e => shape (snd e)) es). split; [reflexivity|]. split; [discriminate|].
      constructor; [eapply IH; eassumption|]. eapply seg_shape; [|eassumption]. intros; eapply IH; eassumption.
  Qed.
End RepShape.

(** ** Pointer side *)
Fixpoint lshape (t : ltree) : sh := match t with LNil => SX | LNode _ _ _ ks => SN (map lshape ks) end.
Definition lshst (st : lupstate) : sst :=
  match st with LDone n => SDone (lshape n) | LBubble b => SBub (lshape (lb_lhs b)) (lshape (lb_rhs b)) end.

Section L.
  Context (M : nat).
  Notation lok := (lok M).

  Lemma sbind_inv : forall {A B} (m : sm A) (k : A -> sm B) s r, sbind m k s = Ok r -> exists a s1, m s = Ok (a, s1) /\ k a s1 = Ok r.
  Proof. intros A B m k s r H. unfold sbind in H. destruct (m s) as [[a s1]| |]; try discriminate. eauto. Qed.

  Ltac si H := let a := fresh "x" in let s := fresh "z" in let E := fresh "Q" in
    apply sbind_inv in H; destruct H as (a & s & E & H).

  Lemma kl_lshape : forall t, kl (lshape t) = map lshape (l_kids t).
  Proof. intros []; reflexivity. Qed.
  Definition wfn (t : ltree) : Prop := length (l_kids t) = S (l_len t).
  Lemma len_lshape : forall t, wfn t -> l_len t = length (kl (lshape t)) - 1.
  Proof. intros t H. unfold wfn in H. rewrite kl_lshape, map_length, H. lia. Qed.

  Lemma set_par_shape : forall p t s t' s', set_par p t s = Ok (t', s') -> lshape t' = lshape t.
  Proof. intros p [|a q rs ks] s t' s' H; [injection H as <- <-; reflexivity|]. cbn [set_par] in H. si H. injection H as <- <-. reflexivity. Qed.
  Lemma set_idx_shape : forall p t s t' s', set_idx p t s = Ok (t', s') -> lshape t' = lshape t.
  Proof. intros p [|a q rs ks] s t' s' H; [injection H as <- <-; reflexivity|]. cbn [set_idx] in H. si H. injection H as <- <-. reflexivity. Qed.
  Lemma set_pars_shape : forall ts a i s ts' s', set_pars a i ts s = Ok (ts', s') -> map lshape ts' = map lshape ts.
  Proof.
    induction ts as [|t ts IH]; intros a i s ts' s' H; cbn [set_pars] in H; [injection H as <- <-; reflexivity|].
    si H. si H. injection H as <- <-. cbn [map]. rewrite (set_par_shape _ _ _ _ _ Q), (IH _ _ _ _ _ Q0). reflexivity.
  Qed.
  Lemma set_idxs_shape : forall ts i s ts' s', set_idxs i ts s = Ok (ts', s') -> map lshape ts' = map lshape ts.
  Proof.
    induction ts as [|t ts IH]; intros i s ts' s' H; cbn [set_idxs] in H; [injection H as <- <-; reflexivity|].
    si H. si H. injection H as <- <-. cbn [map]. rewrite (set_idx_shape _ _ _ _ _ Q), (IH _ _ _ _ Q0). reflexivity.
  Qed.
  Lemma l_split_shape : forall t m s n mid r s', l_split t m s = Ok ((n, mid, r), s') -> wfn t ->
    lshape n = SN (firstn (m + 1) (kl (lshape t))) /\ lshape r = SN (skipn (m + 1) (kl (lshape t))) /\ wfn n /\ wfn r.
  Proof.
    intros [|a p rs ks] m s n mid r s' H W; [discriminate|]. cbn [l_split] in H. destruct (nth_error rs m) eqn:E; [|discriminate].
    do 5 si H. injection H as <- <- <- <-. cbn [lshape kl]. rewrite firstn_map, skipn_map.
    rewrite (set_pars_shape _ _ _ _ _ _ Q3). unfold wfn in *. cbn [l_kids l_refs l_len] in *. unfold l_len in *. cbn [l_refs] in *.
    assert (Hm : m < length rs) by (apply nth_error_Some; congruence).
    repeat split.
    - rewrite firstn_length_le by lia. rewrite firstn_length_le by lia. lia.
    - apply set_pars_shape in Q3. apply (f_equal (@length _)) in Q3. rewrite !map_length in Q3. rewrite Q3, !skipn_length. lia.
  Qed.
  Lemma l_ikc_shape : forall t k r ch s t' s', l_insert_key_and_child M t k r ch s = Ok (t', s') ->
    lshape t' = SN (insert_at (k + 1) (lshape ch) (kl (lshape t))).
  Proof.
    intros [|a p rs ks] k r ch s t' s' H; [discriminate|]. cbn [l_insert_key_and_child] in H. destruct ((length rs <? k) || _); [discriminate|].
    do 4 si H. injection H as <- <-. cbn [lshape kl]. unfold insert_at. rewrite map_app. cbn [map].
    rewrite (set_par_shape _ _ _ _ _ Q1), (set_idxs_shape _ _ _ _ _ Q2), firstn_map, skipn_map. reflexivity.
  Qed.
  Lemma l_pkc_shape : forall t r ch s t' s', l_push_key_and_child M t r ch s = Ok (t', s') -> lshape t' = SN (kl (lshape t) ++ [lshape ch]).
  Proof.
    intros [|a p rs ks] r ch s t' s' H; [discriminate|]. cbn [l_push_key_and_child] in H. destruct (2 * M <=? length rs); [discriminate|].
    do 3 si H. injection H as <- <-. cbn [lshape kl]. rewrite map_app. cbn [map]. rewrite (set_par_shape _ _ _ _ _ Q0). reflexivity.
  Qed.
  Lemma l_ins_shape : forall t k s t' s', l_insert_key M t k s = Ok (t', s') -> lshape t' = SN (insert_at (k + 1) SX (kl (lshape t))).
  Proof.
    intros [|a p rs ks] k s t' s' H; [discriminate|]. cbn [l_insert_key] in H. destruct ((length rs <? k) || _); [discriminate|].
    do 2 si H. injection H as <- <-. cbn [lshape kl]. rewrite map_insert_at. reflexivity.
  Qed.
  Lemma l_push_shape : forall t r s t' s', l_push_key M t r s = Ok (t', s') -> lshape t' = SN (kl (lshape t) ++ [SX]).
  Proof.
    intros [|a p rs ks] r s t' s' H; [discriminate|]. cbn [l_push_key] in H. destruct (2 * M <=? length rs); [discriminate|].
    do 2 si H. injection H as <- <-. cbn [lshape kl]. rewrite map_app. reflexivity.
  Qed.
  Lemma l_rfc_shape : forall t ch s t' c0 s', l_replace_first_child t ch s = Ok ((t', c0), s') ->
    lshape t' = SN (lshape ch :: skipn 1 (kl (lshape t))) /\ firstn 1 (kl (lshape t)) = [lshape c0].
  Proof.
    intros [|a p rs [|c ks]] ch s t' c0 s' H; try discriminate. cbn [l_replace_first_child] in H. do 2 si H. injection H as <- <- <-.
    cbn [lshape kl map firstn skipn]. rewrite (set_par_shape _ _ _ _ _ Q0). split; reflexivity.
  Qed.
  Lemma l_set_child_shape : forall t c ch s t' s', l_set_child t c ch s = Ok (t', s') ->
    lshape t' = SN (replace_at c (lshape ch) (kl (lshape t))) /\ (wfn t -> wfn t').
  Proof.
    intros [|a p rs ks] c ch s t' s' H; [discriminate|]. cbn [l_set_child] in H. destruct (c <? length ks); [|discriminate].
    injection H as <- <-. cbn [lshape kl]. rewrite map_replace_at. split; [reflexivity|]. unfold wfn, l_len. cbn [l_kids l_refs].
    rewrite Zip.replace_at_length. auto.
  Qed.

  Ltac lws := repeat (match goal with H : lshape ?x = _ |- context [lshape ?x] => rewrite H end; cbn [kl]).

  Lemma lbubble_shape : forall t c b s st s', lbubble_step M t c b s = Ok (st, s') -> wfn t ->
    lshst st = s_bubble M (kl (lshape t)) c (lshape (lb_rhs b)).
  Proof.
    intros t c b s st s' H W. unfold lbubble_step in H. si H. unfold s_bubble. rewrite <- len_lshape by exact W.
    destruct (l_len t <? 2 * M).
    - do 2 si H. injection H as <- <-. cbn [lshst]. f_equal. eapply l_ikc_shape; eassumption.
    - si H. destruct x0 as [[p0 mid] r0]. apply l_split_shape in Q0; [|exact W]. destruct Q0 as (S1 & S2 & _).
      destruct (negb (c =? M)).
      + destruct (M <? c).
        * si H. si H. si H. injection H as <- <-. cbn [lshst lb_lhs lb_rhs]. apply l_ikc_shape in Q0. lws. reflexivity.
        * si H. si H. injection H as <- <-. cbn [lshst lb_lhs lb_rhs]. apply l_ikc_shape in Q0. lws. reflexivity.
      + si H. destruct x0 as [r1 c0]. si H. injection H as <- <-. cbn [lshst lb_lhs lb_rhs].
        apply l_rfc_shape in Q0. destruct Q0 as [R1 R2]. apply l_pkc_shape in Q1. lws. rewrite <- R2. lws. reflexivity.
  Qed.

  Lemma lup_shape : forall t c lst s st s', lup_step M t c lst s = Ok (st, s') -> wfn t ->
    lshst st = s_up M (lshape t) c (lshst lst).
  Proof.
    intros t c [n|b] s st s' H W; unfold lup_step in H; si H.
    - do 3 si H. injection H as <- <-. apply l_set_child_shape in Q2. destruct Q2 as [E _]. cbn [lshst]. rewrite E. reflexivity.
    - do 2 si H. apply l_set_child_shape in Q1. destruct Q1 as [E W']. apply lbubble_shape in H; [|auto]. rewrite H, E. reflexivity.
  Qed.

  Lemma l_leaf_shape : forall k two t s st s', l_no_join_leaf M k two t s = Ok (st, s') -> wfn t ->
    lshst st = s_leaf M k two (lshape t).
  Proof.
    intros k two t s st s' H W. unfold l_no_join_leaf in H. unfold s_leaf. rewrite <- len_lshape by exact W.
    destruct (l_len t <? k); [discriminate|].
    destruct (2 * M - (if two then 1 else 0) <=? l_len t).
    - si H. injection H as <- <-. unfold l_split_leaf in Q.
      destruct ((M =? 1) && (l_len t =? 1)).
      + destruct two; [|discriminate]. unfold l_split_leaf_small_m in Q. destruct (negb (M =? 1) || _ || _); [discriminate|].
        si Q. destruct x0 as [[n0 mid] r0]. apply l_split_shape in Q0; [|exact W]. destruct Q0 as (S1 & S2 & _). do 2 si Q.
        destruct (k =? 0).
        * do 4 si Q. injection Q as <- <-. cbn [lshst lb_lhs lb_rhs]. apply l_push_shape in Q2. apply l_push_shape in Q3. lws. reflexivity.
        * do 2 si Q. injection Q as <- <-. cbn [lshst lb_lhs lb_rhs]. apply l_push_shape in Q2. apply l_push_shape in Q3. lws. reflexivity.
      + destruct (choose_split M k (l_len t) two) as [m ins]. si Q. destruct x0 as [[n0 mid] r0].
        apply l_split_shape in Q0; [|exact W]. destruct Q0 as (S1 & S2 & _). do 4 si Q. unfold s_ins2.
        destruct ins as [[|]|[|]].
        * do 3 si Q. injection Q as <- <-. cbn [lshst lb_lhs lb_rhs]. apply l_ins_shape in Q4.
          destruct two; [apply l_ins_shape in Q5|injection Q5 as <- <-]; lws; reflexivity.
        * do 3 si Q. injection Q as <- <-. cbn [lshst lb_lhs lb_rhs]. apply l_ins_shape in Q4.
          destruct two; [apply l_ins_shape in Q5|injection Q5 as <- <-]; lws; reflexivity.
        * destruct two; [|discriminate]. do 4 si Q. injection Q as <- <-. cbn [lshst lb_lhs lb_rhs].
          apply l_push_shape in Q4. apply l_push_shape in Q5. lws. reflexivity.
        * do 3 si Q. injection Q as <- <-. cbn [lshst lb_lhs lb_rhs]. apply l_push_shape in Q4.
          destruct two; [apply l_ins_shape in Q6|injection Q6 as <- <-]; lws; reflexivity.
    - do 4 si H. injection H as <- <-. cbn [lshst]. unfold s_ins2. apply l_ins_shape in Q.
      destruct two; [apply l_ins_shape in Q0|injection Q0 as <- <-]; lws; reflexivity.
  Qed.

  Lemma lok_wfn : forall par t, lok par t -> (exists a p rs ks, t = LNode a p rs ks) -> wfn t.
  Proof. intros par t H (a & p & rs & ks & ->). destruct H as (_ & _ & H & _). exact H. Qed.

  Lemma alli_nth : forall {A} (P : nat -> A -> Prop) l i j x, alli P i l -> nth_error l j = Some x -> P (i + j) x.
  Proof.
    intros A P. induction l as [|y l IH]; intros i [|j] x H E; try discriminate; destruct H as [H1 H2].
    - injection E as <-. rewrite Nat.add_0_r. exact H1.
    - cbn in E. replace (i + S j) with (S i + j) by lia. eauto.
  Qed.

  Lemma lupd_shape : forall f g, (forall t par s st s', lok par t -> f t s = Ok (st, s') -> lshst st = g (lshape t)) ->
    forall p t par s st s', lok par t -> lupd M f t p s = Ok (st, s') -> lshst st = s_upd M g (lshape t) p.
  Proof.
    intros f g Hf. induction p as [|c p IH]; intros t par s st s' Hok H; cbn [lupd s_upd] in *; [eauto|].
    destruct t as [|a q rs ks]; [discriminate|]. do 2 si H. unfold l_child in H. cbn [l_kids] in H.
    destruct (nth_error ks c) as [ch|] eqn:Ec; [|apply sbind_inv in H; destruct H as (? & ? & H & _); discriminate].
    do 2 si H. injection Q1 as <- <-. cbn [lshape kl]. rewrite nth_error_map, Ec. cbn [option_map].
    rewrite (lup_shape _ _ _ _ _ _ H) by (eapply lok_wfn; eauto). destruct Hok as (_ & _ & _ & Hk).
    rewrite <- (IH ch _ _ _ _ (alli_nth _ _ _ _ _ Hk Ec) Q2). reflexivity.
  Qed.

  Lemma l_leaf_shape' : forall k two t par s st s', lok par t -> l_no_join_leaf M k two t s = Ok (st, s') ->
    lshst st = s_leaf M k two (lshape t).
  Proof.
    intros k two [|a p rs ks] par s st s' Hok H.
    - unfold l_no_join_leaf in H. destruct (l_len LNil <? k); [discriminate|].
      destruct (2 * M - (if two then 1 else 0) <=? l_len LNil).
      + si H. unfold l_split_leaf in Q. destruct ((M =? 1) && (l_len LNil =? 1)) eqn:E1.
        * cbn in E1. rewrite andb_false_r in E1. discriminate.
        * destruct (choose_split M k (l_len LNil) two). si Q. discriminate.
      + si H. discriminate.
    - eapply l_leaf_shape; [exact H|]. eapply lok_wfn; eauto.
  Qed.

  Lemma l_fin_shape : forall st s t s', l_finish_root st s = Ok (t, s') -> lshape t = s_fin (lshst st).
  Proof.
    intros [n|b] s t s' H; unfold l_finish_root in H.
    - destruct (l_par n); [discriminate|]. injection H as <- <-. reflexivity.
    - do 2 si H. assert (Et : x = t) by (destruct (p_ho z0); injection H as -> _; reflexivity). subst x.
      unfold l_make_new_parent in Q. destruct (l_par (lb_lhs b)); [discriminate|]. destruct (l_par (lb_rhs b)); [discriminate|].
      do 4 si Q. injection Q as <- <-. cbn [lshape map lshst s_fin].
      rewrite (set_par_shape _ _ _ _ _ Q2), (set_par_shape _ _ _ _ _ Q3). reflexivity.
  Qed.

  Lemma lupd_join_shape : forall k p t par s st s', lok par t -> lupd M (l_join_key k) t p s = Ok (st, s') ->
    lshst st = SDone (lshape t).
  Proof.
    intros k p t par s st s' Hok H. assert (Hn : forall p, s_upd M (fun t => SDone t) (lshape t) p = SDone (lshape t)).
    { clear. intros p. generalize (lshape t). clear t. induction p as [|c p IH]; intros t; [reflexivity|]. cbn [s_upd].
      destruct (nth_error (kl t) c) as [ch|] eqn:E; [|reflexivity]. rewrite IH. cbn [s_up]. rewrite replace_at_same by exact E.
      destruct t; [destruct c; discriminate|reflexivity]. }
    rewrite <- (Hn p). eapply lupd_shape; [|exact Hok|exact H]. clear. intros t par s st s' Hok H. unfold l_join_key in H.
    destruct (l_len t <=? k); [discriminate|]. do 3 si H. injection H as <- <-. reflexivity.
  Qed.

  Lemma run_plan_shape : forall pl t s t' s', lok None t -> run_plan M pl t s = Ok (t', s') -> lshape t' = s_plan M pl (lshape t).
  Proof.
    intros pl t s t' s' Hok H. destruct pl as [|p k|p k|p hk k two lj]; cbn [run_plan s_plan] in *.
    - do 2 si H. injection H as <- <-. unfold l_new_root in Q. si Q. injection Q as <- <-. reflexivity.
    - si H. rewrite (l_fin_shape _ _ _ _ H), (lupd_join_shape _ _ _ _ _ _ _ Hok Q). reflexivity.
    - si H. rewrite (l_fin_shape _ _ _ _ H). erewrite lupd_shape; [reflexivity| |exact Hok|exact Q].
      intros; eapply l_leaf_shape'; eassumption.
    - destruct (rhs_path p hk k) as [q j]. do 3 si H. rewrite (l_fin_shape _ _ _ _ H).
      erewrite lupd_shape; [reflexivity| |exact Hok|exact Q1]. intros; eapply l_leaf_shape'; eassumption.
  Qed.
End L.
