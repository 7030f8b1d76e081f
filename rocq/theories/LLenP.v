(** How many keys the nodes have, and that an upward step leaves all but one of them alone.  Proof
    support only. *)
From Coq Require Import List Bool Arith Lia Permutation.
From Verif Require Import Base Tree Insert Zip LTree LInsert LTreeP LUpP LShape LShapeP.
Import ListNotations.

(** The number of keys of each node. *)
Fixpoint lens (t : ltree) : list (nat * nat) :=
  match t with LNil => [] | LNode a _ rs ks => (a, length rs) :: flat_map lens ks end.
Definition lensof (st : lupstate) : list (nat * nat) :=
  match st with LDone n => lens n | LBubble b => lens (lb_lhs b) ++ lens (lb_rhs b) end.

Lemma lens_node : forall a p rs ks, lens (LNode a p rs ks) = (a, length rs) :: flat_map lens ks.
Proof. reflexivity. Qed.

Lemma ltree_ind3 : forall (P : ltree -> Prop), P LNil ->
  (forall a p rs ks, Forall P ks -> P (LNode a p rs ks)) -> forall t, P t.
Proof.
  intros P HN HC. fix IH 1. intros [|a p rs ks]; [exact HN|]. apply HC.
  induction ks as [|k ks IHk]; constructor; [apply IH|exact IHk].
Qed.

Lemma lens_laddrs : forall t, map fst (lens t) = laddrs t.
Proof.
  intros t. induction t as [|a p rs ks H] using ltree_ind3; [reflexivity|].
  cbn [lens laddrs map fst]. f_equal. induction H as [|k ks H _ IH]; [reflexivity|]. cbn [flat_map]. rewrite map_app, H, IH. reflexivity.
Qed.
Lemma flat_lens : forall ks, map fst (flat_map lens ks) = flat_map laddrs ks.
Proof. induction ks as [|k ks IH]; [reflexivity|]. cbn [flat_map]. rewrite map_app, lens_laddrs, IH. reflexivity. Qed.
Lemma lensof_addrs : forall st, map fst (lensof st) = addrsof st.
Proof. intros [n|b]; cbn [lensof addrsof]; rewrite ?map_app, !lens_laddrs; reflexivity. Qed.

Lemma nodup_app_iff : forall {T} (a b : list T), NoDup (a ++ b) <-> NoDup a /\ NoDup b /\ (forall x, In x a -> ~ In x b).
Proof.
  induction a as [|x a IH]; intros b; cbn [app].
  - split; [intros H; split; [constructor|split; [exact H|intros y []]]|intros (_ & H & _); exact H].
  - rewrite !NoDup_cons_iff, IH, in_app_iff. split.
    + intros (H1 & H2 & H3 & H4). split; [tauto|]. split; [exact H3|]. intros y [->|Hy]; [tauto|auto].
    + intros ((H1 & H2) & H3 & H4). split; [intros [H|H]; [tauto|exact (H4 x (or_introl eq_refl) H)]|]. split; [exact H2|]. split; [exact H3|].
      intros y Hy. apply H4. right. exact Hy.
Qed.

Lemma nodup_fst : forall (l : list (nat * nat)) a x y, NoDup (map fst l) -> In (a, x) l -> In (a, y) l -> x = y.
Proof.
  induction l as [|[b z] l IH]; intros a x y Hn Hx Hy; [destruct Hx|]. cbn [map fst] in Hn. inversion Hn as [|? ? Hb Hn']; subst.
  destruct Hx as [Hx|Hx], Hy as [Hy|Hy]; try congruence; try (eapply IH; eassumption).
  - injection Hx as -> ->. exfalso. apply Hb. apply in_map_iff. exists (a, y). auto.
  - injection Hy as -> ->. exfalso. apply Hb. apply in_map_iff. exists (a, x). auto.
Qed.

Lemma replace_at_split : forall {T} (l : list T) i x y, nth_error l i = Some y -> replace_at i x l = firstn i l ++ x :: skipn (S i) l.
Proof.
  intros T l i x y H. unfold replace_at. apply nth_error_split in H. destruct H as (a & b & -> & <-).
  rewrite skipn_app_len, firstn_app_len. f_equal. f_equal. change (y :: b) with ([y] ++ b). rewrite app_assoc.
  replace (S (length a)) with (length (a ++ [y])) by (rewrite app_length; cbn; lia). rewrite skipn_app_len. reflexivity.
Qed.

Lemma skipn_S_len : forall {T} (a : list T) x b, skipn (S (length a)) (a ++ x :: b) = b.
Proof. induction a as [|y a IH]; intros x b; [reflexivity|]. cbn [length app]. apply IH. Qed.

Ltac si H := let a := fresh "x" in let s := fresh "z" in let E := fresh "Q" in
  apply sbind_inv in H; destruct H as (a & s & E & H).
Ltac sr H := injection H as <- <-.

Definition mono {A} (m : sm A) : Prop := forall s x s', m s = Ok (x, s') -> p_next s <= p_next s'.

Lemma touch_mono : forall a, mono (touch a).
Proof. intros a s x s' H. injection H as <- <-. cbn. lia. Qed.
Lemma sr_update_mono : forall r l, mono (sr_update r l).
Proof. intros [r|] l s x s' H; cbn in H; [destruct (nth_error (p_store s) r); [|discriminate]|]; injection H as <- <-; cbn; lia. Qed.
Lemma sr_suspend_mono : forall r, mono (sr_suspend r).
Proof. intros [r|] s x s' H; cbn in H; [destruct (nth_error (p_store s) r) as [[]|]; try discriminate|]; injection H as <- <-; cbn; lia. Qed.
Lemma sr_updates_mono : forall rs a i, mono (sr_updates a i rs).
Proof.
  induction rs as [|r rs IH]; intros a i s x s' H; cbn [sr_updates] in H; [injection H as <- <-; lia|].
  si H. apply sr_update_mono in Q. apply IH in H. lia.
Qed.
Lemma notify_mono : forall u, mono (notify u).
Proof.
  intros u s x s' H. unfold notify in H.
  destruct u, (p_ho s) as [[]|], (p_skip s), (p_present s);
    repeat match type of H with context [if ?b then _ else _] => destruct b end; try discriminate; injection H as <- <-; cbn; lia.
Qed.

Lemma set_par_lens : forall p t s t' s', set_par p t s = Ok (t', s') -> lens t' = lens t /\ p_next s <= p_next s'.
Proof. intros p [|a q rs ks] s t' s' H; cbn [set_par] in H; [sr H; auto|]. si H. apply touch_mono in Q. sr H. auto. Qed.
Lemma set_idx_lens : forall i t s t' s', set_idx i t s = Ok (t', s') -> lens t' = lens t /\ p_next s <= p_next s'.
Proof. intros i [|a q rs ks] s t' s' H; cbn [set_idx] in H; [sr H; auto|]. si H. apply touch_mono in Q. sr H. auto. Qed.
Lemma set_pars_lens : forall ts a i s ts' s', set_pars a i ts s = Ok (ts', s') -> flat_map lens ts' = flat_map lens ts /\ p_next s <= p_next s'.
Proof.
  induction ts as [|t ts IH]; intros a i s ts' s' H; cbn [set_pars] in H; [sr H; auto|].
  si H. si H. sr H. apply set_par_lens in Q. apply IH in Q0. destruct Q as [Q ?], Q0 as [Q0 ?]. cbn [flat_map]. rewrite Q, Q0. split; [reflexivity|lia].
Qed.
Lemma set_idxs_lens : forall ts i s ts' s', set_idxs i ts s = Ok (ts', s') -> flat_map lens ts' = flat_map lens ts /\ p_next s <= p_next s'.
Proof.
  induction ts as [|t ts IH]; intros i s ts' s' H; cbn [set_idxs] in H; [sr H; auto|].
  si H. si H. sr H. apply set_idx_lens in Q. apply IH in Q0. destruct Q as [Q ?], Q0 as [Q0 ?]. cbn [flat_map]. rewrite Q, Q0. split; [reflexivity|lia].
Qed.

Lemma setp_lens : forall p t, lens (setp p t) = lens t.
Proof. intros p []; reflexivity. Qed.

Definition top (t : ltree) : list nat := match t with LNil => [] | LNode a _ _ _ => [a] end.
Definition kids (t : ltree) : list (nat * nat) := flat_map lens (l_kids t).
Lemma in_lens : forall t x n, In (x, n) (lens t) -> In x (top t) \/ In (x, n) (kids t).
Proof. intros [|a p rs ks] x n H; [destruct H|]. destruct H as [H|H]; [injection H as <- <-; left; left; reflexivity|right; exact H]. Qed.

Section Len.
  Context (M : nat).

  Lemma split_lens : forall t m s n0 mid r0 s', l_split t m s = Ok ((n0, mid, r0), s') ->
    p_next s <= p_next s' /\ top n0 = top t /\ (forall x, In x (top r0) -> p_next s <= x) /\ kids t = kids n0 ++ kids r0.
  Proof.
    intros [|a p rs ks] m s n0 mid r0 s' H; [discriminate|]. cbn [l_split] in H. destruct (nth_error rs m); [|discriminate].
    do 5 si H. injection H as <- <- <- <-. apply touch_mono in Q. unfold alloc in Q0. injection Q0 as <- <-. apply sr_updates_mono in Q1.
    apply sr_suspend_mono in Q2. apply set_pars_lens in Q3. destruct Q3 as [E Q3]. cbn [p_next] in Q1. split; [lia|]. split; [reflexivity|].
    split; [intros y [<-|[]]; exact Q|]. unfold kids. cbn [l_kids]. rewrite E, <- flat_map_app, firstn_skipn. reflexivity.
  Qed.

  Lemma ikc_lens : forall t k r ch s t' s', l_insert_key_and_child M t k r ch s = Ok (t', s') ->
    p_next s <= p_next s' /\ top t' = top t /\ (forall e, In e (kids t') -> In e (kids t) \/ In e (lens ch)).
  Proof.
    intros [|a p rs ks] k r ch s t' s' H; [discriminate|]. cbn [l_insert_key_and_child] in H. destruct (_ || _); [discriminate|].
    do 4 si H. injection H as <- <-. apply touch_mono in Q. apply sr_updates_mono in Q0. apply set_par_lens in Q1. apply set_idxs_lens in Q2.
    destruct Q1 as [E1 Q1], Q2 as [E2 Q2]. split; [lia|]. split; [reflexivity|]. unfold kids. cbn [l_kids]. intros e He.
    rewrite flat_map_app in He. cbn [flat_map] in He. rewrite E1, E2 in He.
    rewrite <- (firstn_skipn (k + 1) ks), flat_map_app, in_app_iff. rewrite !in_app_iff in He. tauto.
  Qed.

  Lemma pkc_lens : forall t r ch s t' s', l_push_key_and_child M t r ch s = Ok (t', s') ->
    p_next s <= p_next s' /\ top t' = top t /\ (forall e, In e (kids t') -> In e (kids t) \/ In e (lens ch)).
  Proof.
    intros [|a p rs ks] r ch s t' s' H; [discriminate|]. cbn [l_push_key_and_child] in H. destruct (_ <=? _); [discriminate|].
    do 3 si H. injection H as <- <-. apply touch_mono in Q. apply set_par_lens in Q0. apply sr_update_mono in Q1.
    destruct Q0 as [E1 Q0]. split; [lia|]. split; [reflexivity|]. unfold kids. cbn [l_kids]. intros e He.
    rewrite flat_map_app in He. cbn [flat_map] in He. rewrite E1, app_nil_r in He. rewrite !in_app_iff in He. tauto.
  Qed.

  Lemma rfc_lens : forall t ch s t' c0 s', l_replace_first_child t ch s = Ok ((t', c0), s') ->
    p_next s <= p_next s' /\ top t' = top t /\ (forall e, In e (kids t') \/ In e (lens c0) -> In e (kids t) \/ In e (lens ch)).
  Proof.
    intros [|a p rs [|k ks]] ch s t' c0 s' H; try discriminate. cbn [l_replace_first_child] in H.
    do 2 si H. injection H as <- <- <-. apply touch_mono in Q. apply set_par_lens in Q0.
    destruct Q0 as [E1 Q0]. split; [lia|]. split; [reflexivity|]. unfold kids. cbn [l_kids flat_map]. intros e He.
    rewrite E1 in He. rewrite !in_app_iff in *. tauto.
  Qed.

  (** What an upward step keeps: all nodes but the parent and new ones. *)
  Lemma bubble_lens : forall t c b s st s', lbubble_step M t c b s = Ok (st, s') ->
    forall x n, In (x, n) (lensof st) -> In x (top t) \/ p_next s <= x \/ In (x, n) (kids t) \/ In (x, n) (lens (lb_rhs b)).
  Proof.
    intros t c b s st s' H x n Hx. unfold lbubble_step in H. si H. assert (z = s) by (destruct t; [discriminate|sr Q; reflexivity]). subst z. clear Q.
    destruct (l_len t <? 2 * M).
    - do 2 si H. sr H. apply ikc_lens in Q. destruct Q as (_ & T & K). cbn [lensof] in Hx. apply in_lens in Hx. rewrite T in Hx.
      destruct Hx as [Hx|Hx]; [auto|]. apply K in Hx. tauto.
    - si H. destruct x1 as [[p0 mid] r0]. apply split_lens in Q. destruct Q as (Hn & T0 & Tr & K0).
      assert (K1 : forall e, In e (kids p0) -> In e (kids t)) by (intros e He; rewrite K0, in_app_iff; auto).
      assert (K2 : forall e, In e (kids r0) -> In e (kids t)) by (intros e He; rewrite K0, in_app_iff; auto).
      destruct (negb (c =? M)); [destruct (M <? c)|].
      + do 3 si H. sr H. apply ikc_lens in Q. destruct Q as (_ & T & K). cbn [lensof lb_lhs lb_rhs] in Hx. apply in_app_or in Hx.
        destruct Hx as [Hx|Hx]; apply in_lens in Hx; rewrite ?T, ?T0 in Hx.
        * destruct Hx as [Hx|Hx]; auto.
        * destruct Hx as [Hx|Hx]; [right; left; auto|]. apply K in Hx. destruct Hx; auto.
      + do 2 si H. sr H. apply ikc_lens in Q. destruct Q as (_ & T & K). cbn [lensof lb_lhs lb_rhs] in Hx. apply in_app_or in Hx.
        destruct Hx as [Hx|Hx]; apply in_lens in Hx; rewrite ?T, ?T0 in Hx.
        * destruct Hx as [Hx|Hx]; [auto|]. apply K in Hx. destruct Hx; auto.
        * destruct Hx as [Hx|Hx]; [right; left; auto|auto].
      + si H. destruct x1 as [r1 c0]. si H. sr H. apply rfc_lens in Q. destruct Q as (_ & T & K). apply pkc_lens in Q0. destruct Q0 as (_ & T' & K').
        cbn [lensof lb_lhs lb_rhs] in Hx. apply in_app_or in Hx.
        destruct Hx as [Hx|Hx]; apply in_lens in Hx; rewrite ?T', ?T, ?T0 in Hx.
        * destruct Hx as [Hx|Hx]; [auto|]. apply K' in Hx. destruct Hx as [Hx|Hx]; [auto|].
          destruct (K _ (or_intror Hx)) as [Hy|Hy]; auto.
        * destruct Hx as [Hx|Hx]; [right; left; auto|]. destruct (K _ (or_introl Hx)) as [Hy|Hy]; auto.
  Qed.

  Lemma up_lens : forall a par r ks c st s st' s', lup_step M (LNode a par r ks) c st s = Ok (st', s') ->
    forall x n, In (x, n) (lensof st') -> x = a \/ p_next s <= x \/ In (x, n) (lensof st) \/
      In (x, n) (flat_map lens (firstn c ks)) \/ In (x, n) (flat_map lens (skipn (S c) ks)).
  Proof.
    intros a par r ks c st s st' s' H x n Hx. unfold lup_step in H. cbn [l_addr] in H. si H. sr Q.
    assert (IP : forall t0 a0 c0 s0 u s1, into_parent t0 a0 c0 s0 = Ok (u, s1) -> s1 = s0).
    { intros t0 a0 c0 s0 u s1 E. unfold into_parent in E. destruct (l_par t0); [|discriminate]. destruct (loc_eqb _ _); [|discriminate]. sr E. reflexivity. }
    assert (SC : forall n0 s0 t1 s1, l_set_child (LNode a par r ks) c n0 s0 = Ok (t1, s1) -> s1 = s0 /\ top t1 = [a] /\
      forall e, In e (kids t1) -> In e (lens n0) \/ In e (flat_map lens (firstn c ks)) \/ In e (flat_map lens (skipn (S c) ks))).
    { intros n0 s0 t1 s1 E. cbn [l_set_child] in E. destruct (c <? length ks) eqn:Ec; [|discriminate]. sr E. split; [reflexivity|]. split; [reflexivity|].
      unfold kids. cbn [l_kids]. intros e He. apply Nat.ltb_lt in Ec.
      destruct (nth_error ks c) as [k|] eqn:En; [|apply nth_error_None in En; lia].
      rewrite (replace_at_split _ _ _ _ En), flat_map_app in He. cbn [flat_map] in He. rewrite !in_app_iff in He. tauto. }
    destruct st as [m|b].
    - do 3 si H. sr H. apply SC in Q1. destruct Q1 as (_ & T & K). cbn [lensof] in *. apply in_lens in Hx. rewrite T in Hx.
      destruct Hx as [[<-|[]]|Hx]; [auto|]. apply K in Hx. tauto.
    - do 2 si H. apply IP in Q. subst. apply SC in Q0. destruct Q0 as (-> & T & K). cbn [lensof] in *.
      destruct (bubble_lens _ _ _ _ _ _ H x n Hx) as [Hy|[Hy|[Hy|Hy]]]; auto.
      + rewrite T in Hy. destruct Hy as [<-|[]]. auto.
      + apply K in Hy. rewrite in_app_iff. tauto.
      + rewrite in_app_iff. auto.
  Qed.
End Len.
