(** The runs that a report can pass over, and what a handle that was passed over leads to.  Proof
    support only. *)
From Coq Require Import List Arith Lia.
From Verif Require Import Base Index Slice Tree Insert Spec Zip Rep Order OrderP LTree LInsert LTreeP LShape LShapeP LLenP LPlanP LRef LMemP LSpec.
Import ListNotations.

Section Passed.
  Context {I V : Type} (M : nat) (HM : 1 <= M).
  Notation tree := (tree I V).

  Lemma full_shape : forall t : tree, sfull M (shape t) <-> left_full M t.
  Proof.
    fix IH 1. intros [|tot c0 es]; [cbn; tauto|]. cbn [shape sfull left_full length]. rewrite map_length, (IH c0).
    replace (S (length es) - 1) with (length es) by lia. tauto.
  Qed.

  Lemma node_shape : forall p (t : tree), snode (shape t) p = shape (node_on t p).
  Proof.
    induction p as [|c p IH]; intros [|tot c0 es]; cbn [snode node_on shape kl]; auto.
    - destruct c; reflexivity.
    - assert (E : shape c0 :: map (fun e => shape (snd e)) es = map (@shape I V) (c0 :: map e_child es)).
      { cbn [map]. rewrite map_map. reflexivity. }
      rewrite E, nth_error_map. destruct (nth_error (c0 :: map e_child es) c) as [ch|] eqn:Ec; cbn [option_map].
      + rewrite (nth_error_nth _ _ _ Ec). apply IH.
      + apply nth_error_None in Ec. rewrite nth_overflow by exact Ec. destruct p; reflexivity.
  Qed.

  Lemma passed_shape : forall (r : @rle I V) i,
    (exists p k, srank (rshape r) p k = Some i /\ scond M (rshape r) p k) <-> in_right_half M r i.
  Proof.
    intros [r|] i; cbn [rshape in_right_half].
    2: { split; [|intros []]. intros (p & k & H & _). destruct p as [|c p]; [discriminate|]. cbn [srank kl] in H. destruct c; discriminate. }
    assert (G : forall p k, scond M (shape (r_node r)) p k <-> exists tot c0 es e, node_on (r_node r) p = Node tot c0 es /\
      2 * M <= length es /\ M <= k /\ nth_error es k = Some e /\ e_child e <> Nil /\ left_full M (e_child e)).
    { intros p k. unfold scond. rewrite node_shape. destruct (node_on (r_node r) p) as [|tot c0 es]; cbn [shape kl length nth_error].
      - split; [intros (H & _); lia|intros (? & ? & ? & ? & H & _); discriminate].
      - rewrite map_length. replace (S (length es) - 1) with (length es) by lia. rewrite nth_error_map. split.
        + intros (H1 & H2 & ch & E & H3 & H4). destruct (nth_error es k) as [e|] eqn:Ee; [|discriminate]. injection E as <-.
          exists tot, c0, es, e. split; [reflexivity|]. split; [exact H1|]. split; [exact H2|]. split; [exact Ee|].
          split; [intros Hx; apply H3; unfold e_child in Hx; rewrite Hx; reflexivity|]. apply full_shape. exact H4.
        + intros (tot' & c0' & es' & e & E & H1 & H2 & Ee & H3 & H4). injection E as <- <- <-. split; [exact H1|]. split; [exact H2|].
          rewrite Ee. exists (shape (snd e)). split; [reflexivity|]. split; [|apply full_shape; exact H4].
          intros Hx. apply H3. unfold e_child. destruct (snd e); [reflexivity|discriminate]. }
    split.
    - intros (p & k & Hr & Hc). apply G in Hc. destruct Hc as (tot & c0 & es & e & H). exists p, k, tot, c0, es, e. split; [|exact H].
      rewrite <- rank_shape in Hr. exact (rank_handles _ _ [] _ _ Hr).
    - intros (p & k & tot & c0 & es & e & Hh & H). exists p, k. split; [|apply G; exists tot, c0, es, e; exact H].
      assert (Hi : i < scount (shape (r_node r))).
      { rewrite <- count_shape, <- (handles_length _ []). apply nth_error_Some. rewrite Hh. discriminate. }
      destruct (srank_surj _ _ Hi) as (p' & k' & Hr). pose proof Hr as Hr2. rewrite <- rank_shape in Hr2.
      apply (rank_handles _ _ []) in Hr2. rewrite Hh in Hr2. cbn [app] in Hr2. injection Hr2 as -> ->. exact Hr.
  Qed.

  (** ** Memory *)
  Lemma cells_lens : forall lt h (t : tree) a x, In (a, x) (cells h lt t) -> In (a, length (l_refs (snd x))) (lens lt).
  Proof.
    induction lt as [|b p rs ks IH] using ltree_ind3; intros h t a x H; [destruct H|]. cbn [cells lens] in *.
    destruct H as [E|H]; [injection E as <- <-; left; reflexivity|]. right. revert H. generalize (kids_of t). clear - IH.
    induction IH as [|k ks Hk _ IH]; intros [|c cs] H; try destruct H. cbn [flat_map]. apply in_app_or in H. apply in_or_app.
    destruct H as [H|H]; [left; exact (Hk _ _ _ _ H)|right; exact (IH _ H)].
  Qed.

  Lemma stale_make_ref : forall (t : ptree I V) hp l, (forall n, In (fst l, n) (lens (pt_nodes t)) -> n <= snd l) -> make_ref t hp l = UB.
  Proof.
    intros t hp l H. unfold make_ref, deref. destruct (pt_rle t) as [r|]; [|reflexivity].
    destruct (find _ _) as [[a [[h n] ln]]|] eqn:E; [|reflexivity]. apply find_some in E. destruct E as [Hin Ha]. cbn [fst] in Ha. apply Nat.eqb_eq in Ha. subst a.
    cbn [bind snd]. apply cells_lens in Hin. cbn [snd] in Hin. specialize (H _ Hin). unfold nth_ub.
    destruct (nth_error (l_refs ln) (snd l)) eqn:E; [|reflexivity]. assert (snd l < length (l_refs ln)) by (apply nth_error_Some; congruence). lia.
  Qed.
End Passed.
