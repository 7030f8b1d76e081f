(** Representation invariant: which trees represent which list of runs.  Proof support only. *)
From Coq Require Import List ZArith Bool Arith Lia.
From Verif Require Import Base Index Slice Tree Spec Zip.
Import ListNotations.
Local Open Scope Z_scope.

Section Rsum.
  Context {V : Type}.
  Lemma rsum_app : forall (a b : list (V * Z)), rsum (a ++ b) = rsum a + rsum b.
  Proof. induction a as [|[v z] a IH]; simpl; intros; [reflexivity | rewrite IH; lia]. Qed.

  Lemma rsum_cons : forall (v : V) z l, rsum ((v, z) :: l) = z + rsum l.
  Proof. reflexivity. Qed.

  Lemma rsum_nil : rsum (@nil (V * Z)) = 0.
  Proof. reflexivity. Qed.

  Definition pos_runs (l : list (V * Z)) : Prop := Forall (fun r => 0 < snd r) l.

  Lemma pos_runs_app : forall a b, pos_runs (a ++ b) <-> pos_runs a /\ pos_runs b.
  Proof. intros; unfold pos_runs; apply Forall_app. Qed.

  Lemma pos_runs_nonneg : forall l, pos_runs l -> 0 <= rsum l.
  Proof. induction 1 as [|[v z] l H _ IH]; simpl in *; lia. Qed.
End Rsum.

Section Rep.
  Context {I V : Type} (X : index_ops I) (MAX : Z) (inj : Z -> I) (M : nat).
  Notation tree := (tree I V).
  Notation entry := (entry_of I V) (only parsing).
  Notation lentry := (prod tree (I * V)%type) (only parsing).
  Notation run := (prod V Z) (only parsing).

  Inductive seg (R : tree -> list run -> Prop) : Z -> list entry -> list run -> Prop :=
  | seg_nil : forall off, seg R off [] []
  | seg_cons : forall off z s ch lc es l,
      0 < z -> R ch lc -> seg R (off + z + rsum lc) es l ->
      seg R off ((inj off, s, ch) :: es) ((s, z) :: lc ++ l).

  Inductive lseg (R : tree -> list run -> Prop) : Z -> list lentry -> list run -> Prop :=
  | lseg_nil : forall off, lseg R off [] []
  | lseg_cons : forall off a la s z lft l,
      0 < z -> R a la -> lseg R (off + rsum la + z) lft l ->
      lseg R off ((a, (inj (off + rsum la), s)) :: lft) (la ++ (s, z) :: l).

  Definition nrep (lo : nat) (R : tree -> list run -> Prop) (t : tree) (l : list run) : Prop :=
    exists c0 es lc l', t = Node (inj (rsum l)) c0 es /\ (lo <= length es <= 2 * M)%nat /\
                        R c0 lc /\ seg R (rsum lc) es l' /\ l = lc ++ l'.

  Definition leafR (t : tree) (l : list run) : Prop := t = Nil /\ l = [].

  Fixpoint rep (lo h : nat) (t : tree) (l : list run) : Prop :=
    match h with
    | O => nrep lo leafR t l
    | S h' => nrep lo (rep M h') t l
    end.

  Definition childR (h : nat) : tree -> list run -> Prop :=
    match h with O => leafR | S h' => rep M h' end.

  Lemma rep_nrep : forall lo h t l, rep lo h t l = nrep lo (childR h) t l.
  Proof. destruct h; reflexivity. Qed.

  (** Conversions between the two kinds of segments. *)
  Lemma lseg_app : forall R a off b la lb,
    lseg R off a la -> lseg R (off + rsum la) b lb -> lseg R off (a ++ b) (la ++ lb).
  Proof.
    induction a as [|x a IH]; intros off b la lb Ha Hb; inversion Ha; subst; simpl.
    - rewrite Z.add_0_r in Hb. exact Hb.
    - rewrite <- app_assoc. simpl. constructor; auto.
      apply IH; auto. rewrite rsum_app in Hb. simpl in Hb.
      replace (off + rsum la0 + z + rsum l) with (off + (rsum la0 + (z + rsum l))) by lia. exact Hb.
  Qed.

  Lemma lseg_app_inv : forall R a off b l,
    lseg R off (a ++ b) l ->
    exists la lb, l = la ++ lb /\ lseg R off a la /\ lseg R (off + rsum la) b lb.
  Proof.
    induction a as [|x a IH]; intros off b l H; simpl in H.
    - exists [], l. simpl. rewrite Z.add_0_r. repeat split; auto. constructor.
    - inversion H; subst. apply IH in H6. destruct H6 as (la1 & lb & E & Q1 & Q2). subst l0.
      exists (la ++ (s, z) :: la1), lb. rewrite <- app_assoc. simpl. repeat split; auto.
      + constructor; auto.
      + rewrite rsum_app. simpl.
        replace (off + (rsum la + (z + rsum la1))) with (off + rsum la + z + rsum la1) by lia.
        exact Q2.
  Qed.

  Lemma seg_app : forall R a off b la lb,
    seg R off a la -> seg R (off + rsum la) b lb -> seg R off (a ++ b) (la ++ lb).
  Proof.
    induction a as [|x a IH]; intros off b la lb Ha Hb; inversion Ha; subst; simpl.
    - rewrite Z.add_0_r in Hb. exact Hb.
    - rewrite <- app_assoc. constructor; auto.
      apply IH; auto. simpl in Hb. rewrite rsum_app in Hb.
      replace (off + z + rsum lc + rsum l) with (off + (z + (rsum lc + rsum l))) by lia. exact Hb.
  Qed.

  Lemma seg_app_inv : forall R a off b l,
    seg R off (a ++ b) l ->
    exists la lb, l = la ++ lb /\ seg R off a la /\ seg R (off + rsum la) b lb.
  Proof.
    induction a as [|x a IH]; intros off b l H; simpl in H.
    - exists [], l. simpl. rewrite Z.add_0_r. repeat split; auto. constructor.
    - inversion H; subst. apply IH in H6. destruct H6 as (la1 & lb & E & Q1 & Q2). subst l0.
      exists ((s, z) :: lc ++ la1), lb. simpl. rewrite <- app_assoc. repeat split; auto.
      + constructor; auto.
      + rewrite rsum_app.
        replace (off + (z + (rsum lc + rsum la1))) with (off + z + rsum lc + rsum la1) by lia.
        exact Q2.
  Qed.

  (** Relation between a node's own (first child, entries) and any zipper. *)
  Lemma zip_seg : forall (R : tree -> list run -> Prop) lft off ch rgt l1 lc l2,
    lseg R off lft l1 -> R ch lc -> seg R (off + rsum l1 + rsum lc) rgt l2 ->
    exists lc0 l', R (fst (asm lft ch rgt)) lc0 /\
                   seg R (off + rsum lc0) (snd (asm lft ch rgt)) l' /\
                   lc0 ++ l' = l1 ++ lc ++ l2.
  Proof.
    induction lft as [|[a k] lft IH]; intros off ch rgt l1 lc l2 H1 Hc H2; inversion H1; subst; simpl.
    - exists lc, l2. simpl in H2. rewrite Z.add_0_r in H2. auto.
    - rewrite rsum_app in H2. simpl in H2.
      replace (off + (rsum la + (z + rsum l)) + rsum lc)
        with (off + rsum la + z + rsum l + rsum lc) in H2 by lia.
      destruct (IH _ _ _ _ _ _ H8 Hc H2) as (lc0 & l' & A & B & C).
      exists la, ((s, z) :: lc0 ++ l'). repeat split; auto.
      + constructor; auto.
      + rewrite C, <- app_assoc. reflexivity.
  Qed.

  Lemma seg_zip : forall (R : tree -> list run -> Prop) c c0 es off lc0 l',
    (c <= length es)%nat -> R c0 lc0 -> seg R (off + rsum lc0) es l' ->
    exists lft ch rgt l1 lc l2,
      asm lft ch rgt = (c0, es) /\ length lft = c /\
      lseg R off lft l1 /\ R ch lc /\ seg R (off + rsum l1 + rsum lc) rgt l2 /\
      lc0 ++ l' = l1 ++ lc ++ l2.
  Proof.
    induction c as [|c IH]; intros c0 es off lc0 l' Hc H0 H.
    - exists [], c0, es, [], lc0, l'. simpl. rewrite Z.add_0_r. repeat split; auto. constructor.
    - inversion H; subst; simpl in Hc; [lia|].
      destruct (IH ch es0 (off + rsum lc0 + z) lc l) as (lft & ch' & rgt & l1 & lc' & l2 & E & Hl & A & B & C & D);
        [lia | auto | auto |].
      exists ((c0, (inj (off + rsum lc0), s)) :: lft), ch', rgt, (lc0 ++ (s, z) :: l1), lc', l2.
      simpl. rewrite E. simpl. repeat split; auto.
      + constructor; auto.
      + rewrite rsum_app. simpl.
        replace (off + (rsum lc0 + (z + rsum l1)) + rsum lc')
          with (off + rsum lc0 + z + rsum l1 + rsum lc') by lia. exact C.
      + rewrite D, <- app_assoc. reflexivity.
  Qed.

  Lemma zip_nrep : forall lo (R : tree -> list run -> Prop) lft ch rgt l1 lc l2 tot,
    (lo <= length lft + length rgt <= 2 * M)%nat ->
    lseg R 0 lft l1 -> R ch lc -> seg R (rsum l1 + rsum lc) rgt l2 ->
    tot = rsum l1 + rsum lc + rsum l2 ->
    nrep lo R (node (inj tot) lft ch rgt) (l1 ++ lc ++ l2).
  Proof.
    intros lo R lft ch rgt l1 lc l2 tot Hl H1 Hc H2 ->.
    destruct (zip_seg R lft 0 ch rgt l1 lc l2) as (lc0 & l' & A & B & C); auto.
    exists (fst (asm lft ch rgt)), (snd (asm lft ch rgt)), lc0, l'.
    rewrite asm_length. repeat split; auto; try lia; try congruence.
    unfold node. rewrite !rsum_app, Z.add_assoc. reflexivity.
  Qed.

  Lemma nrep_zip : forall lo R t l c,
    nrep lo R t l -> (c <= tlen t)%nat ->
    exists lft ch rgt l1 lc l2,
      t = node (inj (rsum l)) lft ch rgt /\ length lft = c /\
      (lo <= length lft + length rgt <= 2 * M)%nat /\
      lseg R 0 lft l1 /\ R ch lc /\ seg R (rsum l1 + rsum lc) rgt l2 /\ l = l1 ++ lc ++ l2.
  Proof.
    intros lo R t l c (c0 & es & lc0 & l' & -> & Hl & H0 & H & ->) Hc.
    destruct (seg_zip R c c0 es 0 lc0 l') as (lft & ch & rgt & l1 & lc & l2 & E & Hc' & A & B & C & D);
      auto.
    exists lft, ch, rgt, l1, lc, l2.
    assert (length es = (length lft + length rgt)%nat).
    { pose proof (asm_length lft ch rgt) as Q. rewrite E in Q. exact Q. }
    repeat split; auto; try lia.
    unfold node. rewrite E. reflexivity.
  Qed.

  Lemma nrep_tlen : forall lo R t l, nrep lo R t l -> (lo <= tlen t <= 2 * M)%nat.
  Proof. intros lo R t l (c0 & es & lc0 & l' & -> & Hl & _). exact Hl. Qed.

  Lemma nrep_size : forall lo R t l, nrep lo R t l -> tsize t = Ok (inj (rsum l)).
  Proof. intros lo R t l (c0 & es & lc0 & l' & -> & _). reflexivity. Qed.

  Lemma rep_size : forall lo h t l, rep lo h t l -> tsize t = Ok (inj (rsum l)).
  Proof. intros *. rewrite rep_nrep. apply nrep_size. Qed.

  Lemma rep_weaken : forall lo lo' h t l, (lo' <= lo)%nat -> rep lo h t l -> rep lo' h t l.
  Proof.
    intros *. rewrite !rep_nrep. intros Hlo (c0 & es & lc0 & l' & -> & Hl & H).
    exists c0, es, lc0, l'. repeat split; try tauto; lia.
  Qed.

  (** Positivity. *)
  Lemma seg_pos : forall (R : tree -> list run -> Prop) off es l, (forall t l, R t l -> pos_runs l) -> seg R off es l -> pos_runs l.
  Proof.
    intros R off es l HR H. induction H; [constructor|].
    constructor; [simpl; auto|]. apply pos_runs_app. split; eauto.
  Qed.

  Lemma lseg_pos : forall (R : tree -> list run -> Prop) off es l, (forall t l, R t l -> pos_runs l) -> lseg R off es l -> pos_runs l.
  Proof.
    intros R off es l HR H. induction H; [constructor|].
    apply pos_runs_app. split; eauto. constructor; auto.
  Qed.

  Lemma rep_pos : forall h lo t l, rep lo h t l -> pos_runs l.
  Proof.
    induction h as [|h IH]; intros lo t l; rewrite rep_nrep;
      intros (c0 & es & lc0 & l' & -> & Hl & H0 & H & ->); apply pos_runs_app; split.
    - destruct H0 as [-> ->]. constructor.
    - eapply seg_pos; [|exact H]. intros ? ? [-> ->]. constructor.
    - eapply IH; exact H0.
    - eapply seg_pos; [|exact H]. intros; eapply IH; eauto.
  Qed.

  Lemma childR_pos : forall h t l, childR h t l -> pos_runs l.
  Proof.
    intros [|h] t l H; simpl in H.
    - destruct H as [-> ->]. constructor.
    - eapply rep_pos; eauto.
  Qed.

  Lemma childR_nonneg : forall h t l, childR h t l -> 0 <= rsum l.
  Proof. intros. eapply pos_runs_nonneg, childR_pos; eauto. Qed.

  Lemma rep_nonneg : forall lo h t l, rep lo h t l -> 0 <= rsum l.
  Proof. intros. eapply pos_runs_nonneg, rep_pos; eauto. Qed.

  Lemma seg_nonneg : forall h off es l, seg (childR h) off es l -> 0 <= rsum l.
  Proof. intros. eapply pos_runs_nonneg, seg_pos; eauto. apply childR_pos. Qed.

  Lemma lseg_nonneg : forall h off es l, lseg (childR h) off es l -> 0 <= rsum l.
  Proof. intros. eapply pos_runs_nonneg, lseg_pos; eauto. apply childR_pos. Qed.

  (** Keys counted. *)
  Fixpoint count (t : tree) : nat :=
    match t with
    | Nil => O
    | Node _ c0 es =>
      (count c0 + (fix go (es : list entry) : nat :=
                     match es with [] => O | (_, ch) :: es' => S (count ch + go es') end) es)%nat
    end.

  Fixpoint ecount (es : list entry) : nat :=
    match es with [] => O | (_, ch) :: es' => S (count ch + ecount es') end.
  Fixpoint lcount (es : list lentry) : nat :=
    match es with [] => O | (ch, _) :: es' => S (count ch + lcount es') end.

  Lemma lcount_app : forall a b, lcount (a ++ b) = (lcount a + lcount b)%nat.
  Proof. induction a as [|[ch k] a IH]; intros; cbn [app lcount]; [reflexivity | rewrite IH; lia]. Qed.

  Lemma ecount_app : forall a b, ecount (a ++ b) = (ecount a + ecount b)%nat.
  Proof. induction a as [|[ch k] a IH]; intros; cbn [app ecount]; [reflexivity | rewrite IH; lia]. Qed.

  Lemma count_Node : forall tot c0 es, count (Node tot c0 es) = (count c0 + ecount es)%nat.
  Proof.
    intros; simpl. f_equal.
  Qed.

  Lemma count_node : forall tot lft ch rgt,
    count (node tot lft ch rgt) = (lcount lft + count ch + ecount rgt)%nat.
  Proof.
    intros. unfold node. rewrite count_Node.
    induction lft as [|[a k] lft IH]; cbn [asm fst snd lcount ecount]; lia.
  Qed.

  Lemma seg_count : forall (R : tree -> list run -> Prop) off es l, (forall t l, R t l -> count t = length l) ->
    seg R off es l -> ecount es = length l.
  Proof.
    intros R off es l HR H. induction H; [reflexivity|].
    cbn [ecount length]. rewrite app_length, IHseg, (HR _ _ H0). reflexivity.
  Qed.

  Lemma lseg_count : forall (R : tree -> list run -> Prop) off es l, (forall t l, R t l -> count t = length l) ->
    lseg R off es l -> lcount es = length l.
  Proof.
    intros R off es l HR H. induction H; [reflexivity|].
    cbn [lcount length]. rewrite app_length, IHlseg, (HR _ _ H0). simpl. lia.
  Qed.

  Lemma rep_count : forall h lo t l, rep lo h t l -> count t = length l.
  Proof.
    induction h as [|h IH]; intros lo t l; rewrite rep_nrep;
      intros (c0 & es & lc0 & l' & -> & Hl & H0 & H & ->); rewrite count_Node, app_length.
    - destruct H0 as [-> ->]. f_equal. eapply seg_count; [|exact H]. intros ? ? [-> ->]. reflexivity.
    - f_equal; [eapply IH; exact H0 |].
      eapply seg_count; [|exact H]. intros; eapply IH; eauto.
  Qed.

  Lemma childR_count : forall h t l, childR h t l -> count t = length l.
  Proof.
    intros [|h] t l H; simpl in H.
    - destruct H as [-> ->]. reflexivity.
    - eapply rep_count; eauto.
  Qed.

  (** In-order rank of the key [k] of the node at path [p]. *)
  Fixpoint before (c0 : tree) (es : list entry) (c : nat) {struct c} : nat :=
    match c with
    | O => O
    | S c' => match es with [] => O | (_, ch) :: es' => S (count c0 + before ch es' c') end
    end.

  Fixpoint rank (t : tree) (p : list nat) (k : nat) : option nat :=
    match t with
    | Nil => None
    | Node _ c0 es =>
      match p with
      | [] =>
        if (k <? length es)%nat then
          match child_of c0 es k with
          | Ok ch => Some (before c0 es k + count ch)%nat
          | _ => None
          end
        else None
      | c :: p' =>
        match child_of c0 es c with
        | Ok ch => option_map (Nat.add (before c0 es c)) (rank ch p' k)
        | _ => None
        end
      end
    end.

  Lemma before_zip : forall lft ch rgt,
    before (fst (asm lft ch rgt)) (snd (asm lft ch rgt)) (length lft) = lcount lft.
  Proof.
    induction lft as [|[a k] lft IH]; intros; [reflexivity|].
    cbn [asm fst snd length before lcount]. rewrite IH. reflexivity.
  Qed.

  Lemma rank_here : forall tot lft ch e rgt,
    rank (node tot lft ch (e :: rgt)) [] (length lft) = Some (lcount lft + count ch)%nat.
  Proof.
    intros.
    pose proof (node_child tot lft ch (e :: rgt)) as H. unfold child, node in *. cbn [rank].
    rewrite H, before_zip, asm_length. simpl length.
    destruct (Nat.ltb_spec (length lft) (length lft + S (length rgt))); [reflexivity | lia].
  Qed.

  Lemma rank_down : forall tot lft ch rgt p k,
    rank (node tot lft ch rgt) (length lft :: p) k
    = option_map (Nat.add (lcount lft)) (rank ch p k).
  Proof.
    intros.
    pose proof (node_child tot lft ch rgt) as H. unfold child, node in *. cbn [rank].
    rewrite H, before_zip. reflexivity.
  Qed.

  Definition tracks (n : tree) (cur : list nat) (r : nat) : Prop := exists k, rank n cur k = Some r.

  Lemma tracks_here : forall tot lft ch e rgt r,
    r = (lcount lft + count ch)%nat -> tracks (node tot lft ch (e :: rgt)) [] r.
  Proof. intros; subst. exists (length lft). apply rank_here. Qed.

  Lemma tracks_down : forall tot lft ch rgt p r r' c,
    tracks ch p r -> r' = (lcount lft + r)%nat -> c = length lft ->
    tracks (node tot lft ch rgt) (c :: p) r'.
  Proof.
    intros tot lft ch rgt p r r' c [k H] -> ->. exists k. rewrite rank_down, H. reflexivity.
  Qed.

  (** Evaluation of shifts. *)
  Hypothesis L : index_laws X MAX inj.

  Lemma next_pos_inj : forall R off rgt l tot,
    seg R off rgt l -> tot = off + rsum l -> next_pos (inj tot) rgt = inj off.
  Proof. intros R off rgt l tot H ->. inversion H; subst; cbn [rsum next_pos e_pos fst]; f_equal; lia. Qed.

  Lemma seg_shift : forall h f d off rgt l,
    (forall x, off <= x -> x <= off + rsum l -> f (inj x) = Ok (inj (x + d))) ->
    seg (childR h) off rgt l ->
    exists rgt',
      mapM (fun e : entry => let* p := f (e_pos e) in Ok (p, e_slice e, e_child e)) rgt = Ok rgt' /\
      seg (childR h) (off + d) rgt' l /\ length rgt' = length rgt.
  Proof.
    intros h f d off rgt l Hf H. induction H.
    - exists []. repeat split; constructor.
    - pose proof (childR_nonneg _ _ _ H0). pose proof (seg_nonneg _ _ _ _ H1).
      rewrite rsum_cons, rsum_app in Hf.
      destruct IHseg as (rgt' & E & S' & Hlen).
      { intros x Hx1 Hx2. apply Hf; lia. }
      exists ((inj (off + d), s, ch) :: rgt'). cbn [mapM e_pos e_slice e_child fst snd].
      rewrite Hf by lia. cbn [bind]. rewrite E. cbn [bind]. repeat split; auto.
      + constructor; auto.
        replace (off + d + z + rsum lc) with (off + z + rsum lc + d) by lia. exact S'.
      + simpl. congruence.
  Qed.

  Lemma lseg_shift : forall h f d off lft l1 ch rgt (lc l2 : list run),
    (forall x, off <= x -> x <= off + rsum l1 + rsum lc + rsum l2 -> f (inj x) = Ok (inj (x + d))) ->
    0 <= rsum lc ->
    lseg (childR h) off lft l1 ->
    seg (childR h) (off + rsum l1 + rsum lc) rgt l2 ->
    exists lft' rgt',
      mapM (fun e : entry => let* p := f (e_pos e) in Ok (p, e_slice e, e_child e))
           (snd (asm lft ch rgt)) = Ok (snd (asm lft' ch rgt')) /\
      fst (asm lft' ch rgt') = fst (asm lft ch rgt) /\
      lseg (childR h) (off + d) lft' l1 /\
      seg (childR h) (off + d + rsum l1 + rsum lc) rgt' l2 /\
      length lft' = length lft /\ length rgt' = length rgt /\ lcount lft' = lcount lft.
  Proof.
    intros h f d off lft l1 ch rgt lc l2 Hf Hlc H. revert Hf. induction H; intros Hf H2.
    - simpl rsum in *. rewrite Z.add_0_r in *.
      destruct (seg_shift h f d (off + rsum lc) rgt l2) as (rgt' & E & S' & Hlen); auto.
      { intros x Hx1 Hx2. apply Hf; lia. }
      exists [], rgt'. cbn [asm fst snd]. repeat split; auto; try constructor.
      replace (off + d + rsum lc) with (off + rsum lc + d) by lia. exact S'.
    - pose proof (childR_nonneg _ _ _ H0). pose proof (lseg_nonneg _ _ _ _ H1).
      pose proof (seg_nonneg _ _ _ _ H2).
      rewrite rsum_app, rsum_cons in Hf, H2.
      destruct IHlseg as (lft' & rgt' & E & F & A & B & C & D & G).
      { intros x Hx1 Hx2. apply Hf; lia. }
      { replace (off + rsum la + z + rsum l + rsum lc) with (off + (rsum la + (z + rsum l)) + rsum lc)
          by lia. exact H2. }
      exists ((a, (inj (off + d + rsum la), s)) :: lft'), rgt'.
      cbn [asm fst snd mapM e_pos e_slice e_child length lcount].
      rewrite Hf by lia. cbn [bind]. rewrite E. cbn [bind]. rewrite F. repeat split; auto.
      + replace (off + d + rsum la) with (off + rsum la + d) by lia. reflexivity.
      + constructor; auto.
        replace (off + d + rsum la + z) with (off + rsum la + z + d) by lia. exact A.
      + rewrite rsum_app, rsum_cons.
        replace (off + d + (rsum la + (z + rsum l)) + rsum lc)
          with (off + rsum la + z + d + rsum l + rsum lc) by lia. exact B.
  Qed.

  Lemma shift_fun : forall (inc : bool) pos old new (t : tree) from,
    (if inc then old <= new else new <= old) ->
    0 <= pos -> 0 <= old -> 0 <= new -> pos + old <= MAX -> pos + new <= MAX ->
    exists f,
      shift_keys X inc t from (inj pos) (inj old) (inj new) = set_key_poss_with t f from /\
      forall x, 0 <= x <= MAX -> 0 <= x + (new - old) <= MAX -> f (inj x) = Ok (inj (x + (new - old))).
  Proof.
    intros inc pos old new t from Hinc Hp Ho Hn H1 H2. unfold shift_keys.
    rewrite !(il_addr _ _ _ L) by lia. cbn [bind].
    destruct inc.
    - rewrite (il_subl _ _ _ L) by lia. cbn [bind].
      eexists. split; [reflexivity|]. intros x Hx1 Hx2. cbv beta iota.
      rewrite (il_addl _ _ _ L) by lia. do 2 f_equal. lia.
    - rewrite (il_subr _ _ _ L) by lia. cbn [bind].
      eexists. split; [reflexivity|]. intros x Hx1 Hx2. cbv beta iota.
      rewrite (il_subl _ _ _ L) by lia. do 2 f_equal. lia.
  Qed.

  (** Shift of everything right of the zipper. *)
  Lemma shift_zip : forall h (inc : bool) pos old new tot lft ch rgt off l,
    (if inc then old <= new else new <= old) ->
    0 <= pos -> 0 <= old -> 0 <= new -> pos + old <= MAX -> pos + new <= MAX ->
    seg (childR h) off rgt l -> 0 <= off -> tot = off + rsum l -> tot <= MAX ->
    0 <= off + (new - old) -> tot + (new - old) <= MAX ->
    exists rgt',
      shift_keys X inc (node (inj tot) lft ch rgt) (length lft) (inj pos) (inj old) (inj new)
      = Ok (node (inj (tot + (new - old))) lft ch rgt') /\
      seg (childR h) (off + (new - old)) rgt' l /\ length rgt' = length rgt.
  Proof.
    intros h inc pos old new tot lft ch rgt off l Hinc Hp Ho Hn H1 H2 Hs Hoff -> Ht1 Ht2 Ht3.
    pose proof (seg_nonneg _ _ _ _ Hs).
    destruct (shift_fun inc pos old new (node (inj (off + rsum l)) lft ch rgt) (length lft))
      as (f & E & Hf); auto.
    destruct (seg_shift h f (new - old) off rgt l) as (rgt' & E' & S' & Hlen); auto.
    { intros x Hx1 Hx2. apply Hf; lia. }
    exists rgt'. rewrite E. split; auto.
    apply node_set_key_poss; auto. apply Hf; lia.
  Qed.

  (** Shift of a whole node. *)
  Lemma shift_all : forall h (inc : bool) pos old new tot lft ch rgt off (l1 lc l2 : list run),
    (if inc then old <= new else new <= old) ->
    0 <= pos -> 0 <= old -> 0 <= new -> pos + old <= MAX -> pos + new <= MAX ->
    lseg (childR h) off lft l1 -> seg (childR h) (off + rsum l1 + rsum lc) rgt l2 ->
    0 <= rsum lc -> 0 <= off -> tot = off + rsum l1 + rsum lc + rsum l2 -> tot <= MAX ->
    0 <= off + (new - old) -> tot + (new - old) <= MAX ->
    exists lft' rgt',
      shift_keys X inc (node (inj tot) lft ch rgt) 0 (inj pos) (inj old) (inj new)
      = Ok (node (inj (tot + (new - old))) lft' ch rgt') /\
      lseg (childR h) (off + (new - old)) lft' l1 /\
      seg (childR h) (off + (new - old) + rsum l1 + rsum lc) rgt' l2 /\
      length lft' = length lft /\ length rgt' = length rgt /\ lcount lft' = lcount lft.
  Proof.
    intros h inc pos old new tot lft ch rgt off l1 lc l2 Hinc Hp Ho Hn H1 H2 Hs1 Hs2 Hlc Hoff -> Ht1 Ht2 Ht3.
    pose proof (seg_nonneg _ _ _ _ Hs2). pose proof (lseg_nonneg _ _ _ _ Hs1).
    destruct (shift_fun inc pos old new (node (inj (off + rsum l1 + rsum lc + rsum l2)) lft ch rgt) 0)
      as (f & E & Hf); auto.
    destruct (lseg_shift h f (new - old) off lft l1 ch rgt lc l2) as (lft' & rgt' & E' & F & A & B & C & D & G); auto.
    { intros x Hx1 Hx2. apply Hf; lia. }
    exists lft', rgt'. rewrite E. split; auto.
    unfold node. unfold set_key_poss_with.
    destruct (Nat.ltb_spec (length (snd (asm lft ch rgt))) 0); [lia|].
    cbn [skipn firstn]. rewrite E'. cbn [bind]. rewrite Hf by lia. cbn [bind]. rewrite F. reflexivity.
  Qed.

  Lemma shift_auto_eq : forall (t : tree) from pos old new,
    0 <= old <= MAX -> 0 <= new <= MAX ->
    shift_keys_auto X t from pos (inj old) (inj new)
    = shift_keys X (old <? new) t from pos (inj old) (inj new).
  Proof. intros. unfold shift_keys_auto. rewrite (il_ltb _ _ _ L) by lia. reflexivity. Qed.
End Rep.

Global Hint Rewrite @rsum_app @rsum_cons @rsum_nil : rs.
