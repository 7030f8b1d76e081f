(** Nothing is lost or doubled by the slot-level node operations; the nodes of Tree.v are such nodes. *)
From Coq Require Import List Arith Bool Lia Permutation.
From Verif Require Import Base ListFacts Gradual SmallP Slots SlotSpec SlotP.
Import ListNotations.

Section Facts.
  Context {X : Type}.
  Lemma filled_app : forall (a b : list (option X)), filled (a ++ b) = filled a ++ filled b.
  Proof. induction a as [|[x|] a IH]; intros b; cbn [app filled]; auto. rewrite IH. reflexivity. Qed.
  Lemma filled_some : forall (l : list X), filled (map Some l) = l.
  Proof. induction l; cbn [map filled]; auto. f_equal. auto. Qed.
  Lemma filled_none : forall n, filled (repeat (@None X) n) = [].
  Proof. induction n; cbn [repeat filled]; auto. Qed.
  Lemma filled_pad : forall n (l : list X), filled (pad n l) = l.
  Proof. intros. unfold pad. rewrite filled_app, filled_some, filled_none, app_nil_r. reflexivity. Qed.
  Lemma perm_ins : forall k (x : X) l, Permutation (insert_at k x l) (x :: l).
  Proof. intros. unfold insert_at. rewrite <- Permutation_middle, firstn_skipn. reflexivity. Qed.
  Lemma nth_cut : forall (l : list X) i x, nth_error l i = Some x -> l = firstn i l ++ x :: skipn (i + 1) l.
  Proof.
    induction l as [|y l IH]; intros [|i] x E; try discriminate; cbn [nth_error firstn skipn plus app] in *.
    - injection E as ->. reflexivity.
    - f_equal. apply IH. auto.
  Qed.
  Lemma replace_cut : forall (l : list X) i x y, nth_error l i = Some x -> replace_at i y l = firstn i l ++ y :: skipn (i + 1) l.
  Proof.
    induction l as [|z l IH]; intros [|i] x y E; try discriminate; cbn [nth_error firstn skipn plus app] in *.
    - reflexivity.
    - rewrite replace_cons. f_equal. eapply IH. eauto.
  Qed.
  Lemma perm_replace : forall i (x y : X) l, nth_error l i = Some x -> Permutation (y :: l) (replace_at i y l ++ [x]).
  Proof.
    intros i x y l E. rewrite (replace_cut _ _ _ y E), <- app_assoc. cbn [app]. rewrite <- Permutation_middle. constructor.
    rewrite (nth_cut _ _ _ E) at 1. apply Permutation_app_head. apply Permutation_cons_append.
  Qed.
End Facts.

Section Total.
  Context {N X : Type}.
  Variable inn : N -> list X.
  Definition tot (p : list (option N)) : list X := concat (map inn (filled p)).
  Lemma tot_app : forall a b, tot (a ++ b) = tot a ++ tot b.
  Proof. intros. unfold tot. rewrite filled_app, map_app, concat_app. reflexivity. Qed.
  Lemma tot_snoc : forall a n, tot (a ++ [Some n]) = tot a ++ inn n.
  Proof. intros. rewrite tot_app. unfold tot at 2. cbn. rewrite app_nil_r. reflexivity. Qed.
  Lemma tot_set : forall p n v, nth_error p n = Some (Some v) -> exists rest,
    Permutation (tot p) (inn v ++ rest) /\ Permutation (tot (replace_at n None p)) rest /\
    forall v', Permutation (tot (replace_at n (Some v') p)) (inn v' ++ rest).
  Proof.
    intros p n v E. exists (tot (firstn n p) ++ tot (skipn (n + 1) p)).
    assert (A : forall v', Permutation (tot (firstn n p ++ Some v' :: skipn (n + 1) p)) (inn v' ++ tot (firstn n p) ++ tot (skipn (n + 1) p))).
    { intro v'. change (Some v' :: skipn (n + 1) p) with ([Some v'] ++ skipn (n + 1) p). rewrite !tot_app.
      unfold tot at 2. cbn [filled map concat]. rewrite app_nil_r. apply Permutation_app_swap_app. }
    split; [|split].
    - rewrite (nth_cut _ _ _ E) at 1. apply A.
    - rewrite (replace_cut _ _ _ None E). rewrite tot_app. reflexivity.
    - intro v'. rewrite (replace_cut _ _ _ (Some v') E). apply A.
  Qed.
End Total.

Section Conserve.
  Context {I S R C : Type}.
  Variables (zero : I) (no_ref : R).
  Variable M : nat.
  Notation nodeval := (nodeval I S R C).
  Notation event := (event I S R C).
  Definition v_slices (v : nodeval) : list S := map k_slice (v_keys v).
  Definition v_kids (v : nodeval) : list C := match v_childs v with None => [] | Some cs => cs end.

  Lemma slices_in_enc : forall p, slices_in (map (option_map (encode M)) p) = tot v_slices p.
  Proof.
    intro p. unfold slices_in, tot. induction p as [|[v|] p IH]; cbn [map option_map filled concat]; auto.
    rewrite IH. f_equal. cbn [a_vals encode]. apply filled_pad.
  Qed.
  Lemma childs_in_enc : forall p, childs_in (map (option_map (encode M)) p) = tot v_kids p.
  Proof.
    intro p. unfold childs_in, tot. induction p as [|[v|] p IH]; cbn [map option_map filled concat]; auto.
    rewrite IH. f_equal. cbn [a_childs encode]. unfold v_kids. destruct (v_childs v); cbn [option_map]; [apply filled_pad|reflexivity].
  Qed.

  (** What a list of events makes and takes away: slices made, slices out, children made, children out. *)
  Definition flow (e : list event) (a b : list S) (c d : list C) : Prop :=
    slices_made e = a /\ slices_out e = b /\ childs_made e = c /\ childs_out e = d.
  Lemma flow_app : forall e e' a b c d a' b' c' d', flow e a b c d -> flow e' a' b' c' d' -> flow (e ++ e') (a ++ a') (b ++ b') (c ++ c') (d ++ d').
  Proof.
    intros e e' a b c d a' b' c' d' (<- & <- & <- & <-) (<- & <- & <- & <-).
    unfold flow, slices_made, slices_out, childs_made, childs_out. rewrite !map_app, !concat_app. auto.
  Qed.
  Lemma flat_nil : forall A D (l : list A), concat (map (fun _ => @nil D) l) = [].
  Proof. induction l; cbn; auto. Qed.
  Lemma flat_one : forall A (l : list A), concat (map (fun a => [a]) l) = l.
  Proof. induction l; cbn; auto. f_equal. auto. Qed.
  Ltac flat := unfold slices_made, slices_out, childs_made, childs_out, tell_refs, tell_childs, stores, parents;
    rewrite ?map_map; cbn beta iota; first [apply flat_one | apply flat_nil].

  Lemma fl_nil : flow [] [] [] [] [].
  Proof. repeat split. Qed.
  Lemma fl_refs : forall me i ks, flow (tell_refs me i ks) [] [] [] [].
  Proof. intros. repeat split; flat. Qed.
  Lemma fl_kids : forall me i cs, flow (tell_childs me i cs) [] [] [] [].
  Proof. intros. repeat split; flat. Qed.
  Lemma fl_made : forall ss, flow (map EMade ss) ss [] [] [].
  Proof. intros. repeat split; flat. Qed.
  Lemma fl_drop : forall ss, flow (map EDrop ss) [] ss [] [].
  Proof. intros. repeat split; flat. Qed.
  Lemma fl_leak : forall ss, flow (map ELeak ss) [] ss [] [].
  Proof. intros. repeat split; flat. Qed.
  Lemma fl_share : forall cs, flow (map EShare cs) [] [] cs [].
  Proof. intros. repeat split; flat. Qed.
  Lemma fl_mkid : forall cs, flow (map EMadeChild cs) [] [] cs [].
  Proof. intros. repeat split; flat. Qed.
  Lemma fl_dkid : forall cs, flow (map EDropChild cs) [] [] [] cs.
  Proof. intros. repeat split; flat. Qed.
  Lemma fl_dkeys : forall ks : list (I * S * R), flow (map (fun k => EDrop (k_slice k)) ks) [] (map k_slice ks) [] [].
  Proof. intros. rewrite <- (map_map k_slice EDrop). apply fl_drop. Qed.

  Ltac fl := repeat (first [apply fl_refs | apply fl_kids | apply fl_made | apply fl_drop | apply fl_leak | apply fl_share | apply fl_mkid | apply fl_dkid | apply fl_dkeys
                     | apply fl_nil | (repeat split; reflexivity) | eapply flow_app ]).

  (** One step: what is given, made and there before is there afterwards or has left. *)
  Definition balance (o : nop I S R C) (evs : list event) (p p' : list (option nodeval)) : Prop :=
    Permutation (slices_given o ++ slices_made evs ++ tot v_slices p) (tot v_slices p' ++ slices_out evs) /\
    Permutation (childs_given o ++ childs_made evs ++ tot v_kids p) (tot v_kids p' ++ childs_out evs).

  Lemma bal_on : forall o evs p n v v' p', nth_error p n = Some (Some v) -> p' = replace_at n (Some v') p ->
    Permutation (slices_given o ++ slices_made evs ++ v_slices v) (v_slices v' ++ slices_out evs) ->
    Permutation (childs_given o ++ childs_made evs ++ v_kids v) (v_kids v' ++ childs_out evs) -> balance o evs p p'.
  Proof.
    intros o evs p n v v' p' N -> A B. split.
    - destruct (tot_set v_slices _ _ _ N) as (rest & P1 & _ & P3). rewrite P1, (P3 v'), <- !app_assoc.
      rewrite (Permutation_app_comm rest), !app_assoc. apply Permutation_app_tail. rewrite <- app_assoc. exact A.
    - destruct (tot_set v_kids _ _ _ N) as (rest & P1 & _ & P3). rewrite P1, (P3 v'), <- !app_assoc.
      rewrite (Permutation_app_comm rest), !app_assoc. apply Permutation_app_tail. rewrite <- app_assoc. exact B.
  Qed.
  Lemma rd_nth : forall A (p : list (option A)) n v, rd p n = Ok v -> nth_error p n = Some (Some v).
  Proof. intros A p n v. unfold rd. destruct (nth_error p n) as [[x|]|]; try discriminate. intros [= ->]. auto. Qed.
  Lemma on_inv : forall p n (f : nodeval -> res (nodeval * list event)) p' evs, v_on p n f = Ok (p', evs) ->
    exists v v', nth_error p n = Some (Some v) /\ f v = Ok (v', evs) /\ p' = replace_at n (Some v') p.
  Proof.
    intros p n f p' evs E. unfold v_on in E. destruct (rd p n) as [v| |] eqn:R0; try discriminate. cbn [bind] in E. apply rd_nth in R0.
    destruct (f v) as [[v' es]| |] eqn:F; try discriminate. cbn [bind] in E. injection E as <- <-. exists v, v'. auto.
  Qed.

  Lemma perm_push : forall X (x : X) l, Permutation (x :: l) (l ++ [x]).
  Proof. intros. apply Permutation_cons_append. Qed.

  Lemma step_bal : forall p o p' evs, v_step zero no_ref M p o = Ok (p', evs) -> balance o evs p p'.
  Proof.
    intros p o p' evs E. destruct o; cbn [v_step] in E.
    - injection E as <- <-. split; rewrite tot_snoc; cbn.
      + rewrite app_nil_r. apply perm_push.
      + rewrite !app_nil_r. auto.
    - injection E as <- <-. split; rewrite tot_snoc; cbn.
      + rewrite app_nil_r. apply perm_push.
      + rewrite app_nil_r. apply (Permutation_app_comm [lhs; rhs]).
    - apply on_inv in E as (v & v' & N & F & ->). unfold v_insert_key in F. destruct (v_childs v) eqn:EC; [discriminate|].
      destruct (may_insert M v k); [|discriminate]. apply ok_pair in F as [-> ->].
      assert (FL : flow (tell_refs n (k + 1) (skipn k (v_keys v)) ++ [EPos (pos_at v k)]) ([] ++ []) ([] ++ []) ([] ++ []) ([] ++ [])) by fl.
      destruct FL as (F1 & F2 & F3 & F4). eapply bal_on; eauto; rewrite ?F1, ?F2, ?F3, ?F4; cbn [slices_given childs_given app].
      + rewrite app_nil_r. unfold v_slices. cbn [v_keys with_keys]. rewrite map_ins. cbn [k_slice fst snd]. symmetry. apply perm_ins.
      + rewrite app_nil_r. reflexivity.
    - apply on_inv in E as (v & v' & N & F & ->). unfold v_push_key in F. destruct (v_childs v) eqn:EC; [discriminate|].
      destruct (may_insert M v 0); [|discriminate]. apply ok_pair in F as [-> ->].
      eapply bal_on; eauto; cbn.
      + rewrite app_nil_r. unfold v_slices. cbn [v_keys]. rewrite map_app. apply perm_push.
      + unfold v_kids. rewrite EC. reflexivity.
    - apply on_inv in E as (v & v' & N & F & ->). unfold v_replace_first_child in F. destruct (v_childs v) as [[|old cs]|] eqn:EC; try discriminate.
      apply ok_pair in F as [-> ->]. eapply bal_on; eauto; cbn.
      + rewrite app_nil_r. reflexivity.
      + unfold v_kids. rewrite EC. cbn [v_childs app]. constructor. apply perm_push.
    - apply on_inv in E as (v & v' & N & F & ->). unfold v_push_key_and_child in F. destruct (v_childs v) as [cs|] eqn:EC; try discriminate.
      destruct (may_insert M v 0); [|discriminate]. apply ok_pair in F as [-> ->].
      eapply bal_on; eauto; cbn.
      + rewrite app_nil_r. unfold v_slices. cbn [v_keys]. rewrite map_app. apply perm_push.
      + unfold v_kids. rewrite EC. cbn [v_childs]. rewrite app_nil_r. apply perm_push.
    - apply on_inv in E as (v & v' & N & F & ->). unfold v_insert_key_and_child in F. destruct (v_childs v) as [cs|] eqn:EC; try discriminate.
      destruct (may_insert M v k); [|discriminate]. apply ok_pair in F as [-> ->].
      match goal with |- balance _ ?e _ _ => assert (FL : flow e ([] ++ [] ++ []) ([] ++ [] ++ []) ([] ++ [] ++ []) ([] ++ [] ++ [])) by (repeat eapply flow_app; fl) end.
      destruct FL as (F1 & F2 & F3 & F4). eapply bal_on; eauto; rewrite ?F1, ?F2, ?F3, ?F4; cbn [slices_given childs_given app].
      + rewrite app_nil_r. unfold v_slices. cbn [v_keys]. rewrite map_ins. cbn [k_slice fst snd]. symmetry. apply perm_ins.
      + rewrite app_nil_r. unfold v_kids. rewrite EC. cbn [v_childs]. symmetry. apply perm_ins.
    - destruct (rd p n) as [v| |] eqn:R0; try discriminate. cbn [bind] in E. apply rd_nth in R0.
      destruct (v_split (length p) v mid) as [[[l r] es]| |] eqn:F; try discriminate. cbn [bind] in E. apply ok_pair in E as [-> ->].
      unfold v_split in F. destruct (nth_error (v_keys v) mid) as [x|] eqn:NM; [|discriminate]. apply ok_pair in F as [F ->]. injection F as -> ->.
      assert (FL : flow (tell_refs (length p) 0 (skipn (mid + 1) (v_keys v)) ++ [ESuspend (k_ref x)] ++
           match v_childs v with None => [] | Some cs => tell_childs (length p) 0 (skipn (mid + 1) cs) end ++ [EKey (k_pos x) (k_slice x) (k_ref x)])
           ([] ++ [] ++ [] ++ []) ([] ++ [] ++ [] ++ [k_slice x]) ([] ++ [] ++ [] ++ []) ([] ++ [] ++ [] ++ [])).
      { repeat eapply flow_app; fl. destruct (v_childs v); fl. }
      destruct FL as (F1 & F2 & F3 & F4). unfold balance. rewrite F1, F2, F3, F4. cbn [slices_given childs_given app]. split.
      + destruct (tot_set v_slices _ _ _ R0) as (rest & P1 & _ & P3). rewrite tot_snoc, P1, P3. unfold v_slices. cbn [v_keys].
        rewrite (nth_cut _ _ _ NM) at 1. rewrite map_app. cbn [map].
        rewrite <- !app_assoc. apply Permutation_app_head. cbn [app].
        transitivity ((rest ++ map k_slice (skipn (mid + 1) (v_keys v))) ++ [k_slice x]).
        * rewrite <- Permutation_cons_append. constructor. apply Permutation_app_comm.
        * rewrite <- app_assoc. reflexivity.
      + destruct (tot_set v_kids _ _ _ R0) as (rest & P1 & _ & P3). rewrite tot_snoc, P1, P3. unfold v_kids. cbn [v_childs]. rewrite app_nil_r.
        destruct (v_childs v) as [cs|]; cbn [option_map app]; [|rewrite app_nil_r; reflexivity].
        rewrite <- app_assoc. rewrite (Permutation_app_comm rest), app_assoc, firstn_skipn. reflexivity.
    - apply on_inv in E as (v & v' & N & F & ->). destruct (v_set_single_key_pos v k p0) as [w| |] eqn:G; try discriminate. cbn [bind] in F.
      apply ok_pair in F as [-> ->]. unfold v_set_single_key_pos in G. destruct (nth_error (v_keys v) k) as [x|] eqn:NK; [|discriminate]. injection G as <-.
      eapply bal_on; eauto; cbn; rewrite app_nil_r; unfold v_slices, v_kids; cbn [v_keys v_childs with_keys]; [|reflexivity].
      rewrite <- replace_map. cbn [k_slice fst snd].
      replace (replace_at k (k_slice x) (map k_slice (v_keys v))) with (map k_slice (v_keys v)); [reflexivity|].
      apply nth_ext'. intro i. rewrite nth_repl, nth_mapp. destruct (Nat.eqb_spec k i) as [<-|]; cbn [andb]; auto.
      destruct (k <? _); auto. rewrite NK. reflexivity.
    - apply on_inv in E as (v & v' & N & F & ->). apply ok_pair in F as [-> ->].
      eapply bal_on; eauto; cbn; rewrite app_nil_r; reflexivity.
    - apply on_inv in E as (v & v' & N & F & ->). unfold v_set_key_poss_with in F. destruct (from <=? length (v_keys v)); [|discriminate].
      destruct (remap f (skipn from (v_keys v))) as [ks b] eqn:ER. destruct (remap_props _ _ _ _ ER) as (P1 & P2 & P3).
      assert (HS : map k_slice (firstn from (v_keys v) ++ ks) = map k_slice (v_keys v)).
      { rewrite map_app, P2, <- map_app, firstn_skipn. reflexivity. }
      destruct (if b then f (v_total v) else None) as [t|]; apply ok_pair in F as [-> ->];
      (eapply bal_on; eauto; cbn; rewrite app_nil_r; unfold v_slices, v_kids; cbn [v_keys v_childs with_keys]; [rewrite HS|]; reflexivity).
    - apply on_inv in E as (v & v' & N & F & ->). unfold v_swap_slice in F. destruct (nth_error (v_keys v) k) as [x|] eqn:NK; [|discriminate].
      apply ok_pair in F as [-> ->]. eapply bal_on; eauto; cbn; unfold v_slices, v_kids; cbn [v_keys v_childs with_keys].
      + rewrite <- replace_map. cbn [k_slice fst snd]. apply perm_replace. rewrite nth_mapp, NK. reflexivity.
      + rewrite app_nil_r. reflexivity.
    - destruct (rd p n) as [v| |] eqn:R0; try discriminate. cbn [bind] in E.
      destruct (v_shallow_clone no_ref cl v) as [o es] eqn:F. apply ok_pair in E as [-> ->]. unfold v_shallow_clone in F.
      destruct (cloned cl (map k_slice (v_keys v))) as [ss b] eqn:EC. destruct b; injection F as <- <-.
      + assert (LS : length ss = length (v_keys v)) by (apply cloned_len in EC; rewrite map_length in EC; auto).
        destruct (with_slices_props no_ref _ _ LS) as (A & B & D & EE).
        assert (FL : flow (map EMade ss ++ match v_childs v with None => [] | Some cs => map EShare cs end) (ss ++ []) ([] ++ []) ([] ++ v_kids v) ([] ++ [])).
        { eapply flow_app; fl. unfold v_kids. destruct (v_childs v); fl. }
        destruct FL as (F1 & F2 & F3 & F4). unfold balance. rewrite F1, F2, F3, F4, !tot_snoc, !app_nil_r. cbn [slices_given childs_given app]. split.
        * unfold v_slices at 3. cbn [v_keys]. rewrite D. apply Permutation_app_comm.
        * unfold v_kids at 3. cbn [v_childs]. apply Permutation_app_comm.
      + assert (FL : flow (map EMade ss ++ map EDrop ss ++ [EPanic]) (ss ++ [] ++ []) ([] ++ ss ++ []) ([] ++ [] ++ []) ([] ++ [] ++ [])) by (repeat eapply flow_app; fl).
        destruct FL as (F1 & F2 & F3 & F4). unfold balance. rewrite F1, F2, F3, F4, !app_nil_r. cbn [slices_given childs_given app]. split; [apply Permutation_app_comm|reflexivity].
    - destruct (rd p n) as [v| |] eqn:R0; try discriminate. cbn [bind] in E.
      destruct (v_deep_clone no_ref (length p) cl dc v) as [o es] eqn:F. apply ok_pair in E as [-> ->]. unfold v_deep_clone in F.
      destruct (cloned cl (map k_slice (v_keys v))) as [ss b] eqn:EC. destruct b.
      + assert (LS : length ss = length (v_keys v)) by (apply cloned_len in EC; rewrite map_length in EC; auto).
        destruct (with_slices_props no_ref _ _ LS) as (A & B & D & EE).
        destruct (v_childs v) as [cs|] eqn:ECH.
        * destruct (cloned dc cs) as [cs' bc] eqn:EDC. destruct bc; injection F as <- <-.
          -- assert (FL : flow (map EMade ss ++ map EMadeChild cs' ++ tell_childs (length p) 0 cs') (ss ++ [] ++ []) ([] ++ [] ++ []) ([] ++ cs' ++ []) ([] ++ [] ++ [])) by (repeat eapply flow_app; fl).
             destruct FL as (F1 & F2 & F3 & F4). unfold balance. rewrite F1, F2, F3, F4, !tot_snoc, !app_nil_r. cbn [slices_given childs_given app]. split.
             ++ unfold v_slices at 3. cbn [v_keys]. rewrite D. apply Permutation_app_comm.
             ++ unfold v_kids at 3. cbn [v_childs]. apply Permutation_app_comm.
          -- assert (FL : flow (map EMade ss ++ (map EMadeChild cs' ++ map EDropChild cs' ++ [EPanic]) ++ map ELeak ss)
                            (ss ++ ([] ++ [] ++ []) ++ []) ([] ++ ([] ++ [] ++ []) ++ ss) ([] ++ (cs' ++ [] ++ []) ++ []) ([] ++ ([] ++ cs' ++ []) ++ [])) by (repeat eapply flow_app; fl).
             destruct FL as (F1 & F2 & F3 & F4). unfold balance. rewrite F1, F2, F3, F4, !app_nil_r. cbn [slices_given childs_given app]. rewrite ?app_nil_r. split; apply Permutation_app_comm.
        * injection F as <- <-. destruct (fl_made ss) as (F1 & F2 & F3 & F4). unfold balance. rewrite F1, F2, F3, F4, !tot_snoc, !app_nil_r. cbn [slices_given childs_given app]. split.
          ++ unfold v_slices at 3. cbn [v_keys]. rewrite D. apply Permutation_app_comm.
          ++ change (v_kids {| v_total := v_total v; v_keys := with_slices no_ref (v_keys v) ss; v_childs := None |}) with (@nil C). rewrite ?app_nil_r. reflexivity.
      + injection F as <- <-. assert (FL : flow (map EMade ss ++ map EDrop ss ++ [EPanic]) (ss ++ [] ++ []) ([] ++ ss ++ []) ([] ++ [] ++ []) ([] ++ [] ++ [])) by (repeat eapply flow_app; fl).
        destruct FL as (F1 & F2 & F3 & F4). unfold balance. rewrite F1, F2, F3, F4, !app_nil_r. cbn [slices_given childs_given app]. split; [apply Permutation_app_comm|reflexivity].
    - unfold mv in E. destruct (nth_error p n) as [[v|]|] eqn:N; try discriminate. cbn [bind] in E. apply ok_pair in E as [-> ->].
      assert (FL : flow (v_do_drop v) ([] ++ []) (v_slices v ++ []) ([] ++ []) ([] ++ v_kids v)).
      { unfold v_do_drop. eapply flow_app; fl. unfold v_kids. destruct (v_childs v); fl. }
      destruct FL as (F1 & F2 & F3 & F4). unfold balance. rewrite F1, F2, F3, F4, !app_nil_r. cbn [slices_given childs_given app]. split.
      + destruct (tot_set v_slices _ _ _ N) as (rest & P1 & P2 & _). rewrite P1, P2. apply Permutation_app_comm.
      + destruct (tot_set v_kids _ _ _ N) as (rest & P1 & P2 & _). rewrite P1, P2. apply Permutation_app_comm.
  Qed.

  Lemma run_bal : forall ops p p' evs, v_run zero no_ref M p ops = Ok (p', evs) ->
    Permutation (concat (map slices_given ops) ++ slices_made evs ++ tot v_slices p) (tot v_slices p' ++ slices_out evs) /\
    Permutation (concat (map childs_given ops) ++ childs_made evs ++ tot v_kids p) (tot v_kids p' ++ childs_out evs).
  Proof.
    induction ops as [|o ops IH]; intros p p' evs E; cbn [v_run] in E.
    - injection E as <- <-. cbn. rewrite !app_nil_r. auto.
    - destruct (v_step zero no_ref M p o) as [[p1 e1]| |] eqn:S1; try discriminate. cbn [bind] in E.
      destruct (v_run zero no_ref M p1 ops) as [[p2 e2]| |] eqn:S2; try discriminate. cbn [bind] in E. apply ok_pair in E as [-> ->].
      apply step_bal in S1 as [A1 B1]. apply IH in S2 as [A2 B2]. cbn [map concat].
      assert (FL := flow_app e1 e2 _ _ _ _ _ _ _ _ (conj eq_refl (conj eq_refl (conj eq_refl eq_refl))) (conj eq_refl (conj eq_refl (conj eq_refl eq_refl)))).
      destruct FL as (-> & -> & -> & ->). split.
      + transitivity (concat (map slices_given ops) ++ slices_made e2 ++ tot v_slices p1 ++ slices_out e1).
        * rewrite <- A1. rewrite <- !app_assoc.
          rewrite (Permutation_app_swap_app (slices_given o)). apply Permutation_app_head.
          rewrite (Permutation_app_swap_app (slices_made e1)), (Permutation_app_swap_app (slices_given o)). reflexivity.
        * rewrite (Permutation_app_comm (slices_out e1)), !app_assoc. apply Permutation_app_tail. rewrite <- app_assoc. exact A2.
      + transitivity (concat (map childs_given ops) ++ childs_made e2 ++ tot v_kids p1 ++ childs_out e1).
        * rewrite <- B1. rewrite <- !app_assoc.
          rewrite (Permutation_app_swap_app (childs_given o)). apply Permutation_app_head.
          rewrite (Permutation_app_swap_app (childs_made e1)), (Permutation_app_swap_app (childs_given o)). reflexivity.
        * rewrite (Permutation_app_comm (childs_out e1)), !app_assoc. apply Permutation_app_tail. rewrite <- app_assoc. exact B2.
  Qed.

  (** Leaks. *)
  Lemma step_leak : forall p o p' (evs : list event) (s : S), v_step zero no_ref M p o = Ok (p', evs) -> In (ELeak s) evs ->
    exists n cl dc c, o = NDeep n cl dc /\ dc c = None.
  Proof.
    intros p o p' evs s E H.
    assert (RF : forall me i ks, ~ In (ELeak s) (tell_refs (I := I) (R := R) (C := C) me i ks)).
    { intros me i ks Q. unfold tell_refs, stores in Q. apply in_map_iff in Q as (y & Q & _). discriminate. }
    assert (KF : forall me i cs, ~ In (ELeak s) (tell_childs (I := I) (R := R) (C := C) me i cs)).
    { intros me i cs Q. unfold tell_childs, parents in Q. apply in_map_iff in Q as (y & Q & _). discriminate. }
    assert (MF : forall A (f : A -> event) l, (forall a, f a <> ELeak s) -> ~ In (ELeak s) (map f l)).
    { intros A f l Q W. apply in_map_iff in W as (y & W & _). eapply Q; eauto. }
    destruct o; cbn [v_step] in E; match type of E with context [v_deep_clone] => idtac | _ => exfalso; revert H end.
    - injection E as <- <-. intros [].
    - injection E as <- <-. cbn. intuition discriminate.
    - apply on_inv in E as (v & v' & N & F & ->). unfold v_insert_key in F. destruct (v_childs v); [discriminate|].
      destruct (may_insert M v k); [|discriminate]. apply ok_pair in F as [-> ->]. rewrite in_app_iff. intros [Q|[Q|[]]]; [eapply RF; eauto|discriminate].
    - apply on_inv in E as (v & v' & N & F & ->). unfold v_push_key in F. destruct (v_childs v); [discriminate|].
      destruct (may_insert M v 0); [|discriminate]. apply ok_pair in F as [-> ->]. cbn. intuition discriminate.
    - apply on_inv in E as (v & v' & N & F & ->). unfold v_replace_first_child in F. destruct (v_childs v) as [[|]|]; try discriminate.
      apply ok_pair in F as [-> ->]. cbn. intuition discriminate.
    - apply on_inv in E as (v & v' & N & F & ->). unfold v_push_key_and_child in F. destruct (v_childs v); [|discriminate].
      destruct (may_insert M v 0); [|discriminate]. apply ok_pair in F as [-> ->]. cbn. intuition discriminate.
    - apply on_inv in E as (v & v' & N & F & ->). unfold v_insert_key_and_child in F. destruct (v_childs v); [|discriminate].
      destruct (may_insert M v k); [|discriminate]. apply ok_pair in F as [-> ->]. rewrite !in_app_iff.
      intros [Q|[Q|[Q|[]]]]; [eapply RF; eauto|eapply KF; eauto|discriminate].
    - destruct (rd p n) as [v| |]; try discriminate. cbn [bind] in E.
      destruct (v_split (length p) v mid) as [[[l r] es]| |] eqn:F; try discriminate. cbn [bind] in E. apply ok_pair in E as [-> ->].
      unfold v_split in F. destruct (nth_error (v_keys v) mid); [|discriminate]. apply ok_pair in F as [_ ->]. rewrite !in_app_iff.
      intros [Q|[[Q|[]]|[Q|[Q|[]]]]]; try discriminate; [eapply RF; eauto|]. destruct (v_childs v); [eapply KF; eauto|destruct Q].
    - apply on_inv in E as (v & v' & N & F & ->). destruct (v_set_single_key_pos v k p0); try discriminate. apply ok_pair in F as [-> ->]. intros [].
    - apply on_inv in E as (v & v' & N & F & ->). apply ok_pair in F as [-> ->]. intros [].
    - apply on_inv in E as (v & v' & N & F & ->). unfold v_set_key_poss_with in F. destruct (from <=? length (v_keys v)); [|discriminate].
      destruct (remap f (skipn from (v_keys v))) as [ks b]. destruct (if b then f (v_total v) else None); apply ok_pair in F as [-> ->]; cbn; intuition discriminate.
    - apply on_inv in E as (v & v' & N & F & ->). unfold v_swap_slice in F. destruct (nth_error (v_keys v) k); [|discriminate].
      apply ok_pair in F as [-> ->]. cbn. intuition discriminate.
    - destruct (rd p n) as [v| |]; try discriminate. cbn [bind] in E.
      destruct (v_shallow_clone no_ref cl v) as [o es] eqn:F. apply ok_pair in E as [-> ->]. unfold v_shallow_clone in F.
      destruct (cloned cl (map k_slice (v_keys v))) as [ss b]. destruct b; injection F as <- <-; rewrite ?in_app_iff.
      + intros [Q|Q]; [eapply (MF _ EMade) in Q; auto; discriminate|]. destruct (v_childs v); [eapply (MF _ EShare) in Q; auto; discriminate|destruct Q].
      + intros [Q|[Q|[Q|[]]]]; [eapply (MF _ EMade) in Q; auto; discriminate|eapply (MF _ EDrop) in Q; auto; discriminate|discriminate].
    - destruct (rd p n) as [v| |]; try discriminate. cbn [bind] in E.
      destruct (v_deep_clone no_ref (length p) cl dc v) as [o es] eqn:F. apply ok_pair in E as [-> ->]. unfold v_deep_clone in F.
      destruct (cloned cl (map k_slice (v_keys v))) as [ss b]. destruct b.
      + destruct (v_childs v) as [cs|].
        * destruct (cloned dc cs) as [cs' bc] eqn:EDC. destruct bc; injection F as <- <-.
          -- exfalso. rewrite !in_app_iff in H. destruct H as [Q|[Q|Q]]; [eapply (MF _ EMade) in Q; auto; discriminate|eapply (MF _ EMadeChild) in Q; auto; discriminate|eapply KF; eauto].
          -- exists n, cl, dc. assert (exists c, dc c = None) as [c Hc]; [|eauto].
             clear - EDC. revert cs' EDC. induction cs as [|c cs IH]; intros cs' E; cbn [cloned] in E; [discriminate|].
             destruct (dc c) eqn:D; eauto. destruct (cloned dc cs) as [r b]. injection E as <- ->. eapply IH. eauto.
        * exfalso. injection F as <- <-. eapply (MF _ EMade) in H; auto; discriminate.
      + exfalso. injection F as <- <-. rewrite !in_app_iff in H. destruct H as [Q|[Q|[Q|[]]]]; [eapply (MF _ EMade) in Q; auto; discriminate|eapply (MF _ EDrop) in Q; auto; discriminate|discriminate].
    - unfold mv in E. destruct (nth_error p n) as [[v|]|]; try discriminate. cbn [bind] in E. apply ok_pair in E as [-> ->].
      unfold v_do_drop. rewrite in_app_iff. intros [Q|Q]; [eapply (MF _ (fun k => EDrop (k_slice k))) in Q; auto; discriminate|].
      destruct (v_childs v); [eapply (MF _ EDropChild) in Q; auto; discriminate|destruct Q].
  Qed.
  Lemma run_leak : forall ops p p' (evs : list event) (s : S), v_run zero no_ref M p ops = Ok (p', evs) -> In (ELeak s) evs ->
    exists n cl dc c, In (NDeep n cl dc) ops /\ dc c = None.
  Proof.
    induction ops as [|o ops IH]; intros p p' evs s E H; cbn [v_run] in E.
    - injection E as <- <-. destruct H.
    - destruct (v_step zero no_ref M p o) as [[p1 e1]| |] eqn:S1; try discriminate. cbn [bind] in E.
      destruct (v_run zero no_ref M p1 ops) as [[p2 e2]| |] eqn:S2; try discriminate. cbn [bind] in E. apply ok_pair in E as [-> ->].
      apply in_app_iff in H as [H|H].
      + destruct (step_leak _ _ _ _ _ S1 H) as (n & cl & dc & c & -> & D). exists n, cl, dc, c. split; [left|]; auto.
      + destruct (IH _ _ _ _ S2 H) as (n & cl & dc & c & Q & D). exists n, cl, dc, c. split; [right|]; auto.
  Qed.
End Conserve.
