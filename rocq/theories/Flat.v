(** Facts about the flat specification: values, and `Constant` slices. *)
From Coq Require Import List ZArith Lia Bool Arith.
From Verif Require Import Base Slice Spec Rep HistP.
Import ListNotations.
Local Open Scope Z_scope.

Section Values.
  Context {I V D : Type} (Y : slice_ops I V) (inj : Z -> I) (den : V -> Z -> D) (fits : V -> Z -> Prop).
  Hypothesis Hd : denotes Y inj den fits.
  Notation run := (prod V Z) (only parsing).

  Definition fit (l : list run) : Prop := Forall (fun r => fits (fst r) (snd r) /\ 0 < snd r) l.
  (** Same values at every position. *)
  Definition same (l l' : list run) : Prop := forall p, 0 <= p -> value_at den l p = value_at den l' p.

  Lemma fit_nn : forall l, fit l -> 0 <= rsum l.
  Proof. induction 1 as [|[s z] l [_ H] _ IH]; cbn [rsum snd] in *; lia. Qed.

  Lemma value_app : forall a b p, fit a -> 0 <= p ->
    value_at den (a ++ b) p = if p <? rsum a then value_at den a p else value_at den b (p - rsum a).
  Proof.
    induction a as [|[s z] a IH]; intros b p Hf Hp; cbn [app value_at rsum].
    - destruct (Z.ltb_spec p 0); [lia|]. rewrite Z.sub_0_r. reflexivity.
    - inversion Hf as [|? ? [_ Hz] Hf']; subst. cbn [snd] in Hz. pose proof (fit_nn _ Hf').
      destruct (Z.ltb_spec p z).
      + destruct (Z.ltb_spec p (z + rsum a)); [reflexivity|lia].
      + rewrite IH by (auto; lia). replace (p - z - rsum a) with (p - (z + rsum a)) by lia.
        destruct (Z.ltb_spec (p - z) (rsum a)), (Z.ltb_spec p (z + rsum a)); auto; lia.
  Qed.

  Lemma value_none : forall l p, fit l -> rsum l <= p -> value_at den l p = None.
  Proof.
    induction l as [|[s z] l IH]; intros p Hf Hp; cbn [value_at rsum] in *; auto.
    inversion Hf as [|? ? [_ Hz] Hf']; subst. cbn [snd] in Hz. pose proof (fit_nn _ Hf').
    destruct (Z.ltb_spec p z); [lia|]. apply IH; auto. lia.
  Qed.

  Lemma same_app : forall a a' b b', fit a -> fit a' -> rsum a = rsum a' -> same a a' -> same b b' -> same (a ++ b) (a' ++ b').
  Proof.
    intros a a' b b' Ha Ha' Es Hs Hs' p Hp. rewrite !value_app by auto. rewrite Es.
    destruct (Z.ltb_spec p (rsum a')); [apply Hs; auto|]. apply Hs'. lia.
  Qed.

  Lemma same_refl : forall l, same l l.
  Proof. intros l p _. reflexivity. Qed.
  Lemma same_trans : forall a b c, same a b -> same b c -> same a c.
  Proof. intros a b c H1 H2 p Hp. rewrite H1, H2 by auto. reflexivity. Qed.

  (** A join, accepted or not, keeps the values of the two runs. *)
  Lemma join_same : forall a za b zb, fit [(a, za); (b, zb)] ->
    let l := match join Y a b with inl j => [(j, za + zb)] | inr (a', b') => [(a', za); (b', zb)] end in
    fit l /\ same l [(a, za); (b, zb)].
  Proof.
    intros a za b zb Hf. inversion Hf as [|? ? [Fa Ha] Hf']; subst. inversion Hf' as [|? ? [Fb Hb] _]; subst. cbn [fst snd] in *.
    unfold join. destruct (sl_may_join Y); [|split; [auto|apply same_refl]].
    destruct (sl_try_join Y a b) as [j|[a' b']] eqn:E.
    - destruct (dn_join _ _ _ _ Hd _ _ _ _ _ Fa Fb Ha Hb E) as (Fj & H1 & H2). split.
      + repeat constructor; cbn [fst snd]; auto; lia.
      + intros p Hp. cbn [value_at]. destruct (Z.ltb_spec p (za + zb)), (Z.ltb_spec p za); try lia.
        * rewrite H1 by lia. reflexivity.
        * destruct (Z.ltb_spec (p - za) zb); [|lia]. replace p with (za + (p - za)) at 1 by lia. rewrite H2 by lia. reflexivity.
        * destruct (Z.ltb_spec (p - za) zb); [lia|]. reflexivity.
    - destruct (dn_refuse _ _ _ _ Hd _ _ _ _ _ _ Fa Fb Ha Hb E) as (Fa' & Fb' & H1 & H2). split.
      + repeat constructor; cbn [fst snd]; auto; lia.
      + intros p Hp. cbn [value_at]. destruct (Z.ltb_spec p za); [rewrite H1 by lia; reflexivity|].
        destruct (Z.ltb_spec (p - za) zb); [rewrite H2 by lia; reflexivity|reflexivity].
  Qed.

  Lemma split_same : forall s z q a b, fits s z -> 0 < q < z -> sl_split_at Y s (inj q) = (a, b) ->
    fit [(a, q); (b, z - q)] /\ same [(a, q); (b, z - q)] [(s, z)].
  Proof.
    intros s z q a b Hf Hq E. destruct (dn_split _ _ _ _ Hd _ _ _ _ _ Hf Hq E) as (Fa & Fb & H1 & H2). split.
    - repeat constructor; cbn [fst snd]; auto; lia.
    - intros p Hp. cbn [value_at]. destruct (Z.ltb_spec p q), (Z.ltb_spec p z); try lia.
      + rewrite H1 by lia. reflexivity.
      + destruct (Z.ltb_spec (p - q) (z - q)); [|lia]. rewrite H2 by lia. do 2 f_equal. lia.
      + destruct (Z.ltb_spec (p - q) (z - q)); [lia|]. reflexivity.
  Qed.

  Definition ol (b : option run) : list run := match b with Some r => [r] | None => [] end.

  Lemma fit_cons : forall r l, fit (r :: l) <-> (fits (fst r) (snd r) /\ 0 < snd r) /\ fit l.
  Proof. intros. unfold fit. split; [inversion 1; auto | intros []; constructor; auto]. Qed.
  Lemma fit_app : forall a b, fit (a ++ b) <-> fit a /\ fit b.
  Proof. intros. apply Forall_app. Qed.
  Lemma fit_nil : fit [] <-> True.
  Proof. split; constructor. Qed.
  Ltac fc := repeat rewrite fit_cons in *; rewrite ?fit_nil in *; cbn [fst snd] in *; tauto.

  Lemma rsum_same2 : forall a za b zb, rsum (match join Y a b with inl j => [(j, za + zb)] | inr (a', b') => [(a', za); (b', zb)] end) = rsum [(a, za); (b, zb)].
  Proof. intros. destruct (join Y a b) as [?|[? ?]]; cbn [rsum]; lia. Qed.

  Lemma place_same : forall b x n c r, fit (ol b) -> fit [(x, n)] -> fit (ol c) -> place Y b x n c = Ok r ->
    fit r /\ same r (ol b ++ (x, n) :: ol c).
  Proof.
    intros [[s z]|] x n [[s2 z2]|] r Hb Hx Hc H; cbn [place ol app] in *.
    - assert (F1 : fit [(s, z); (x, n)]) by (fc).
      pose proof (join_same _ _ _ _ F1) as [J1 S1]. pose proof (rsum_same2 s z x n) as R1.
      destruct (join Y s x) as [m|[s' x']].
      + assert (F2 : fit [(m, z + n); (s2, z2)]) by (fc).
        pose proof (join_same _ _ _ _ F2) as [J2 S2].
        destruct (join Y m s2) as [?|[m' s2']]; inversion H; subst. split; auto.
        eapply same_trans; [exact S2|]. apply (same_app [(m, z + n)] [(s, z); (x, n)] [(s2, z2)] [(s2, z2)]); auto using same_refl.
      + assert (F2 : fit [(x', n); (s2, z2)]) by (fc).
        pose proof (join_same _ _ _ _ F2) as [J2 S2].
        assert (Fs' : fit [(s', z)]) by (fc).
        assert (G : same ((s', z) :: [(x', n); (s2, z2)]) [(s, z); (x, n); (s2, z2)]).
        { apply (same_app [(s', z); (x', n)] [(s, z); (x, n)] [(s2, z2)] [(s2, z2)]); auto using same_refl. }
        destruct (join Y x' s2) as [j|[x2 s2']]; inversion H; subst; (split; [fc|]);
          (eapply same_trans; [|exact G]); apply (same_app [(s', z)] [(s', z)]); auto using same_refl.
    - assert (F1 : fit [(s, z); (x, n)]) by (fc).
      pose proof (join_same _ _ _ _ F1) as [J1 S1]. destruct (join Y s x) as [m|[s' x']]; inversion H; subst; auto.
    - assert (F1 : fit [(x, n); (s2, z2)]) by (fc).
      pose proof (join_same _ _ _ _ F1) as [J1 S1]. destruct (join Y x s2) as [m|[s' x']]; inversion H; subst; auto.
    - inversion H; subst. auto using same_refl.
  Qed.

  Lemma place_inside_same : forall s z q x n, fits s z -> 0 < q < z -> fit [(x, n)] ->
    exists a b, sl_split_at Y s (inj q) = (a, b) /\ fit [(a, q); (b, z - q)] /\ same [(a, q); (b, z - q)] [(s, z)] /\
    fit (place_inside Y inj s z q x n) /\ same (place_inside Y inj s z q x n) [(a, q); (x, n); (b, z - q)].
  Proof.
    intros s z q x n Hs Hq Hx. unfold place_inside. destruct (sl_split_at Y s (inj q)) as [a b] eqn:E.
    destruct (split_same _ _ _ _ _ Hs Hq E) as [Fab Sab]. exists a, b. split; auto. split; auto. split; auto.
    assert (F1 : fit [(a, q); (x, n)]) by (fc).
    pose proof (join_same _ _ _ _ F1) as [J1 S1]. pose proof (rsum_same2 a q x n) as R1.
    destruct (join Y a x) as [m|[a' x']].
    - assert (F2 : fit [(m, q + n); (b, z - q)]) by (fc).
      pose proof (join_same _ _ _ _ F2) as [J2 S2].
      assert (G : same [(m, q + n); (b, z - q)] [(a, q); (x, n); (b, z - q)]).
      { apply (same_app [(m, q + n)] [(a, q); (x, n)] [(b, z - q)] [(b, z - q)]); auto using same_refl. }
      destruct (join Y m b) as [j|[m' b']]; (split; [auto|]); eapply same_trans; eauto.
    - assert (F2 : fit [(x', n); (b, z - q)]) by (fc).
      pose proof (join_same _ _ _ _ F2) as [J2 S2].
      assert (Fs' : fit [(a', q)]) by (fc).
      assert (G : same ((a', q) :: [(x', n); (b, z - q)]) [(a, q); (x, n); (b, z - q)]).
      { apply (same_app [(a', q); (x', n)] [(a, q); (x, n)] [(b, z - q)] [(b, z - q)]); auto using same_refl. }
      destruct (join Y x' b) as [j|[x2 b']]; (split; [fc|]);
        (eapply same_trans; [|exact G]); apply (same_app [(a', q)] [(a', q)]); auto using same_refl.
  Qed.

  Theorem insert_values : forall l idx x n l', fit l -> fit [(x, n)] -> 0 <= idx <= rsum l -> insert_runs Y inj l idx x n = Ok l' ->
    fit l' /\ forall p, 0 <= p -> value_at den l' p =
      if p <? idx then value_at den l p else if p <? idx + n then Some (den x (p - idx)) else value_at den l (p - n).
  Proof.
    induction l as [|[s z] l IH]; intros idx x n l' Hl Hx Hi E; cbn [insert_runs rsum] in *.
    - inversion E; subst. split; auto. intros p Hp. cbn [value_at].
      assert (idx = 0) by lia. subst. rewrite Z.sub_0_r, Z.add_0_l.
      destruct (Z.ltb_spec p 0); [lia|]. reflexivity.
    - pose proof Hl as Hl0. rewrite fit_cons in Hl. destruct Hl as [[Fs Hz] Hl]. cbn [fst snd] in *. pose proof (fit_nn _ Hl).
      assert (Hn : 0 < n) by (fc).
      assert (F1 : fit [(s, z)]) by fc.
      destruct (Z.eqb_spec idx 0) as [->|Hi0].
      { destruct (place Y None x n (Some (s, z))) as [r| |] eqn:Ep; cbn [bind] in E; inversion E; subst.
        destruct (place_same None x n (Some (s, z)) r ltac:(constructor) Hx F1 Ep) as [Fr Sr]. cbn [ol app] in Sr.
        split; [apply fit_app; auto|]. intros p Hp.
        assert (Sr2 : same (r ++ l) ([(x, n); (s, z)] ++ l)).
        { apply same_app; auto using same_refl. fc. rewrite (place_sum _ _ _ _ _ _ Ep). cbn [rsum]. lia. }
        rewrite Sr2 by auto. cbn [app value_at]. destruct (Z.ltb_spec p 0); [lia|]. rewrite Z.sub_0_r, Z.add_0_l.
        destruct (Z.ltb_spec p n); auto. }
      destruct (Z.ltb_spec idx z) as [Hlt|Hge].
      { inversion E; subst. destruct (place_inside_same s z idx x n Fs ltac:(lia) Hx) as (a & b & Es & Fab & Sab & Fr & Sr).
        split; [apply fit_app; auto|]. intros p Hp.
        assert (Sr2 : same (place_inside Y inj s z idx x n ++ l) ([(a, idx); (x, n); (b, z - idx)] ++ l)).
        { apply same_app; auto using same_refl. fc. rewrite place_inside_sum. cbn [rsum]. lia. }
        rewrite Sr2 by auto. cbn [app value_at].
        assert (Ho : forall p, 0 <= p -> value_at den ((s, z) :: l) p = value_at den ((a, idx) :: (b, z - idx) :: l) p).
        { intros p0 Hp0. symmetry. apply (same_app [(a, idx); (b, z - idx)] [(s, z)] l l); auto using same_refl. cbn [rsum]. lia. }
        specialize (Ho p Hp) as Ho1. cbn [value_at] in Ho1.
        destruct (Z.ltb_spec p idx).
        { rewrite Ho1. reflexivity. }
        destruct (Z.ltb_spec (p - idx) n), (Z.ltb_spec p (idx + n)); try lia; auto.
        specialize (Ho (p - n) ltac:(lia)) as Ho2. cbn [value_at] in Ho2. rewrite Ho2.
        destruct (Z.ltb_spec (p - n) idx); [lia|]. replace (p - n - idx) with (p - idx - n) by lia. reflexivity. }
      destruct (Z.eqb_spec idx z) as [->|Hnz].
      { destruct l as [|[s2 z2] l].
        - destruct (place_same (Some (s, z)) x n None _ F1 Hx ltac:(constructor) E) as [Fr Sr]. cbn [ol app] in Sr.
          split; auto. intros p Hp. rewrite Sr by auto. cbn [value_at].
          destruct (Z.ltb_spec p z); auto.
          destruct (Z.ltb_spec (p - z) n), (Z.ltb_spec p (z + n)); try lia; auto.
          destruct (Z.ltb_spec (p - n) z); [lia|]. reflexivity.
        - destruct (place Y (Some (s, z)) x n (Some (s2, z2))) as [r| |] eqn:Ep; cbn [bind] in E; inversion E; subst.
          pose proof Hl as Hl2. rewrite fit_cons in Hl2. destruct Hl2 as [Fs2 Hl2].
          assert (F2 : fit [(s2, z2)]) by fc.
          destruct (place_same (Some (s, z)) x n (Some (s2, z2)) r F1 Hx F2 Ep) as [Fr Sr]. cbn [ol app] in Sr.
          split; [apply fit_app; auto|]. intros p Hp.
          assert (Sr2 : same (r ++ l) ([(s, z); (x, n); (s2, z2)] ++ l)).
          { apply same_app; auto using same_refl. fc. rewrite (place_sum _ _ _ _ _ _ Ep). cbn [rsum]. lia. }
          rewrite Sr2 by auto. cbn [app]. cbn [value_at].
          destruct (Z.ltb_spec p z); auto.
          destruct (Z.ltb_spec (p - z) n), (Z.ltb_spec p (z + n)); try lia; auto.
          destruct (Z.ltb_spec (p - n) z); [lia|]. replace (p - n - z) with (p - z - n) by lia. reflexivity. }
      destruct (insert_runs Y inj l (idx - z) x n) as [r| |] eqn:Ei; cbn [bind] in E; inversion E; subst.
      destruct (IH (idx - z) x n r Hl Hx ltac:(lia) Ei) as [Fr Hv]. split; [apply fit_cons; auto|]. intros p Hp. cbn [value_at].
      destruct (Z.ltb_spec p z).
      + destruct (Z.ltb_spec p idx); [reflexivity|lia].
      + rewrite Hv by lia. replace (p - z - (idx - z)) with (p - idx) by lia.
        destruct (Z.ltb_spec (p - z) (idx - z)), (Z.ltb_spec p idx); try lia; auto.
        destruct (Z.ltb_spec (p - z) (idx - z + n)), (Z.ltb_spec p (idx + n)); try lia; auto.
        destruct (Z.ltb_spec (p - n) z); [lia|]. replace (p - n - z) with (p - z - n) by lia. reflexivity.
  Qed.

  Lemma covering_value : forall l p a b s, fit l -> covering l p = Some (a, b, s) ->
    a <= p < b /\ fits s (b - a) /\ value_at den l p = Some (den s (p - a)).
  Proof.
    assert (G : forall l off p a b s, fit l -> find (fun e => (fst (fst e) <=? p) && (p <? snd (fst e))) (spans off l) = Some (a, b, s) ->
      off <= a -> a <= p < b /\ fits s (b - a) /\ value_at den l (p - off) = Some (den s (p - a))).
    { induction l as [|[s0 z] l IH]; intros off p a b s Hf H Ho; cbn [spans find] in H; [discriminate|].
      rewrite fit_cons in Hf. destruct Hf as [[Fs Hz] Hf]. cbn [fst snd value_at] in *.
      destruct ((off <=? p) && (p <? off + z)) eqn:Ec.
      - inversion H; subst. replace (a + z - a) with z by lia. split; [lia|]. split; auto.
        destruct (Z.ltb_spec (p - a) z); [reflexivity|lia].
      - assert (Hoff : off + z <= a).
        { assert (K : forall (l : list run) o, fit l -> Forall (fun e => o <= fst (fst e)) (spans o l)).
          { induction l0 as [|[s1 z1] l0 IH0]; intros o Hl; cbn [spans]; constructor; cbn [fst]; [lia|].
            rewrite fit_cons in Hl. eapply Forall_impl; [|apply IH0; tauto]. cbn. intros e He. cbn [snd] in Hl. lia. }
          specialize (K l (off + z) Hf). rewrite Forall_forall in K. apply find_some in H. specialize (K _ (proj1 H)). exact K. }
        destruct (IH _ _ _ _ _ Hf H Hoff) as (H1 & H2 & H3). split; auto. split; auto.
        destruct (Z.ltb_spec (p - off) z); [lia|]. rewrite <- H3. f_equal. lia. }
    intros l p a b s Hf H. pose proof H as H'. unfold covering in H. apply find_some in H'. destruct H' as [Hin _].
    assert (Ha : 0 <= a).
    { assert (K : forall (l : list run) o, fit l -> Forall (fun e => o <= fst (fst e)) (spans o l)).
      { induction l0 as [|[s1 z1] l0 IH0]; intros o Hl; cbn [spans]; constructor; cbn [fst]; [lia|].
        rewrite fit_cons in Hl. eapply Forall_impl; [|apply IH0; tauto]. cbn. intros e He. cbn [snd] in Hl. lia. }
      specialize (K l 0 Hf). rewrite Forall_forall in K. exact (K _ Hin). }
    destruct (G l 0 p a b s Hf H Ha) as (H1 & H2 & H3). rewrite Z.sub_0_r in H3. auto.
  Qed.
End Values.

(** ** Constant slices *)
Section Constant.
  Context {I T : Type} (eqb : T -> T -> bool) (inj : Z -> I).
  Hypothesis Heq : forall a b, eqb a b = true <-> a = b.
  Notation Y := (@constant_ops I T eqb).

  Lemma constant_denotes : denotes Y inj (fun s _ => s) (fun _ _ => True).
  Proof.
    constructor; cbn [constant_ops sl_split_at sl_try_join]; intros.
    - inversion H1; subst. auto.
    - destruct (eqb a b) eqn:E; inversion H3; subst. apply Heq in E. subst. auto.
    - destruct (eqb a b) eqn:E; inversion H3; subst. auto.
  Qed.

  Lemma eqb_refl : forall a, eqb a a = true.
  Proof. intros. apply Heq. reflexivity. Qed.

  Lemma eqb_neq : forall a b, eqb a b = false -> a <> b.
  Proof. intros a b H ->. rewrite eqb_refl in H. discriminate. Qed.

  Lemma merged_cons : forall a z l, merged eqb ((a, z) :: l) = match l with (b, _) :: _ => negb (eqb a b) | [] => true end && merged eqb l.
  Proof. intros a z [|[b z'] l]; reflexivity. Qed.

  Lemma merged_head : forall a z z' l, merged eqb ((a, z) :: l) = merged eqb ((a, z') :: l).
  Proof. intros. rewrite !merged_cons. reflexivity. Qed.

  Definition hd_val (l : list (T * Z)) : option T := match l with (a, _) :: _ => Some a | [] => None end.

  Ltac sj := unfold place, place_inside, join; cbn [constant_ops sl_may_join sl_try_join sl_split_at].

  (** The first value can change only when inserting at the start, or inside/at the end of it (never: kept). *)
  Lemma constant_insert : forall l idx x n, merged eqb l = true -> 0 <= idx <= rsum l -> pos_runs l ->
    exists l', insert_runs Y inj l idx x n = Ok l' /\ merged eqb l' = true /\
               (0 < idx -> hd_val l' = hd_val l) /\ left_join_only Y inj l idx x = false.
  Proof.
    induction l as [|[s z] l IH]; intros idx x n Hm Hi Hp.
    - cbn [insert_runs left_join_only rsum] in *. sj. eexists. split; [reflexivity|]. split; [reflexivity|]. split; [lia|reflexivity].
    - cbn [insert_runs left_join_only rsum] in *. inversion Hp as [|? ? Hz Hp']; subst. cbn [snd] in Hz.
      pose proof (pos_runs_nonneg _ Hp').
      destruct (Z.eqb_spec idx 0) as [->|Hi0].
      { sj. destruct (eqb x s) eqn:E; cbn [bind app]; eexists; (split; [reflexivity|]); (split; [|split; [lia|reflexivity]]).
        - apply Heq in E. subst. rewrite (merged_head s (n + z) z). auto.
        - rewrite merged_cons, E. exact Hm. }
      destruct (Z.ltb_spec idx z) as [Hlt|Hge].
      { sj. destruct (eqb s x) eqn:E.
        - apply Heq in E. subst x. rewrite eqb_refl. cbn [app]. eexists. split; [reflexivity|]. split; [|split; auto].
          rewrite (merged_head s _ z). auto.
        - assert (Ex : eqb x s = false).
          { destruct (eqb x s) eqn:E2; auto. apply Heq in E2. subst. rewrite eqb_refl in E. discriminate. }
          rewrite Ex. cbn [app]. eexists. split; [reflexivity|]. split; [|split; auto].
          rewrite merged_cons, E. rewrite merged_cons, Ex. cbn [negb andb]. rewrite (merged_head s _ z). auto. }
      destruct (Z.eqb_spec idx z) as [->|Hnz].
      { assert (Ej : left_join_only Y inj l (z - z) x = false).
        { rewrite Z.sub_diag. destruct l as [|[? ?] l]; reflexivity. }
        rewrite Ej.
        destruct l as [|[s2 z2] l].
        - sj. destruct (eqb s x) eqn:E; eexists; (split; [reflexivity|]).
          + auto.
          + split; [|auto]. rewrite merged_cons, E. reflexivity.
        - rewrite merged_cons in Hm. apply andb_true_iff in Hm. destruct Hm as [Hne Hm].
          sj. destruct (eqb s x) eqn:E.
          + destruct (eqb s s2) eqn:E2; [discriminate|]. cbn [bind app]. eexists. split; [reflexivity|].
            split; [|auto]. rewrite merged_cons, E2. exact Hm.
          + destruct (eqb x s2) eqn:E2; cbn [bind app]; eexists; (split; [reflexivity|]); (split; [|auto]).
            * rewrite merged_cons, E. cbn [negb andb]. apply Heq in E2. subst. rewrite (merged_head s2 _ z2). exact Hm.
            * rewrite merged_cons, E. cbn [negb andb]. rewrite merged_cons, E2. exact Hm. }
      rewrite merged_cons in Hm. apply andb_true_iff in Hm. destruct Hm as [Hne Hm].
      destruct (IH (idx - z) x n Hm ltac:(lia) Hp') as (l' & E & M' & Hh & Hj).
      rewrite E. cbn [bind]. eexists. split; [reflexivity|]. split; [|auto].
      rewrite merged_cons, M', andb_true_r. specialize (Hh ltac:(lia)).
      destruct l' as [|[a ?] l']; auto. destruct l as [|[b ?] l]; cbn in Hh; [discriminate|]. inversion Hh; subst. exact Hne.
  Qed.

  Lemma constant_spec_insert : forall l idx x n, merged eqb l = true -> pos_runs l -> 0 <= idx -> idx <= rsum l -> 0 < n ->
    exists l', spec_insert Y inj l idx x n = Ok l' /\ merged eqb l' = true.
  Proof.
    intros l idx x n Hm Hp H0 Hi Hn. unfold spec_insert. destruct (Z.ltb_spec (rsum l) idx); [lia|]. destruct (Z.leb_spec n 0); [lia|].
    destruct (constant_insert l idx x n Hm ltac:(lia) Hp) as (l' & E & M' & _). eauto.
  Qed.
End Constant.
