(** Proofs about `RecycleVec`. *)
From Coq Require Import List Arith Bool Lia.
From Verif Require Import Base ListFacts Recycle.
Import ListNotations.

Section RecycleP.
  Context {T : Type} (CMAX : nat).
  Notation entry := (@entry T).

  (** The empty list, from its head. *)
  Fixpoint chain (vals : list entry) (h : option nat) (free : list nat) : Prop :=
    match free with
    | [] => h = None
    | i :: f => h = Some i /\ exists n, nth_error vals i = Some (Link n) /\ chain vals n f
    end.

  Record rel (r : rvec) (hs : vars) (cells : list T) (shs : vars) (sigma : nat -> nat) (free : list nat) : Prop := {
    r_vars : hs = map (option_map sigma) shs;
    r_live : forall c, 0 < owners shs c -> exists v, nth_error cells c = Some v /\ nth_error (rv_vals r) (sigma c) = Some (Value (owners shs c) v);
    r_inj : forall c c', 0 < owners shs c -> 0 < owners shs c' -> sigma c = sigma c' -> c = c';
    r_chain : chain (rv_vals r) (rv_head r) free;
    r_nodup : NoDup free;
    r_cover : forall i, i < length (rv_vals r) -> In i free \/ exists c, 0 < owners shs c /\ sigma c = i;
  }.

  Lemma chain_link : forall vals free h i, chain vals h free -> In i free -> exists n, nth_error vals i = Some (Link n).
  Proof.
    induction free as [|j free IH]; intros h i H Hi; [destruct Hi|]. destruct H as [_ (n & E & H)].
    destruct Hi as [->|Hi]; eauto.
  Qed.

  Lemma chain_change : forall free vals vals' h, chain vals h free -> (forall i, In i free -> nth_error vals' i = nth_error vals i) -> chain vals' h free.
  Proof.
    induction free as [|i free IH]; intros vals vals' h H He; [exact H|]. destruct H as [Hh (n & E & H)].
    split; auto. exists n. split; [rewrite He; auto; left; auto|]. eapply IH; eauto. intros j Hj. apply He. right; auto.
  Qed.

  Lemma owners_app : forall a b c, owners (a ++ b) c = owners a c + owners b c.
  Proof. induction a as [|[x|] a IH]; intros b c; cbn [app owners]; auto. rewrite IH. lia. Qed.

  Lemma var_owner : forall hs h c, var hs h = Some c -> 0 < owners hs c.
  Proof.
    unfold var. induction hs as [|[x|] hs IH]; intros [|h] c H; cbn [nth_error owners] in *; try discriminate.
    - inversion H; subst. rewrite Nat.eqb_refl. lia.
    - specialize (IH _ _ H). lia.
    - apply (IH _ _ H).
  Qed.

  Lemma owners_kill : forall hs h c, var hs h = Some c -> forall c', owners hs c' = (if c' =? c then 1 else 0) + owners (replace_at h None hs) c'.
  Proof.
    unfold var. induction hs as [|x hs IH]; intros [|h] c H c'; cbn [nth_error] in H; try discriminate.
    - destruct x; [|discriminate]. inversion H; subst. rewrite replace_0. cbn [owners]. rewrite (Nat.eqb_sym c c'). reflexivity.
    - rewrite replace_cons. specialize (IH _ _ H c'). destruct x as [x|]; cbn [owners]; [|auto]. lia.
  Qed.

  Lemma var_map : forall (f : nat -> nat) hs h, var (map (option_map f) hs) h = option_map f (var hs h).
  Proof. intros. unfold var. rewrite nth_error_map. destruct (nth_error hs h) as [[x|]|]; reflexivity. Qed.

  Lemma map_ext_owner : forall (f g : nat -> nat) hs, (forall c, 0 < owners hs c -> f c = g c) -> map (option_map f) hs = map (option_map g) hs.
  Proof.
    induction hs as [|[x|] hs IH]; intros H; cbn [map option_map]; auto.
    - f_equal; [f_equal; apply H; cbn [owners]; rewrite Nat.eqb_refl; lia|]. apply IH. intros c Hc. apply H. cbn [owners]. lia.
    - f_equal. apply IH. intros c Hc. apply H. exact Hc.
  Qed.

  (** One call keeps the relation and returns what the specification returns. *)
  Lemma rv_step_ok : forall r hs cells shs sigma free o, rel r hs cells shs sigma free ->
    (forall c, 0 < owners shs c -> c < length cells) ->
    match spec_step CMAX (cells, shs) o with
    | None => rv_step CMAX (r, hs) o = None
    | Some (Ok (out, (cells', shs'))) => exists r' hs' sigma' free', rv_step CMAX (r, hs) o = Some (Ok (out, (r', hs'))) /\ rel r' hs' cells' shs' sigma' free' /\
        (forall c, 0 < owners shs' c -> c < length cells') /\
        (length (rv_vals r') = length (rv_vals r) \/ (free' = [] ))
    | Some (Panic w) => rv_step CMAX (r, hs) o = Some (Panic w)
    | Some UB => False
    end.
  Proof.
    intros r hs cells shs sigma free o R Hb. destruct R as [Rv Rl Ri Rc Rn Rk].
    assert (Hfree : forall i c, In i free -> 0 < owners shs c -> sigma c <> i).
    { intros i c Hi Hc E. destruct (chain_link _ _ _ _ Rc Hi) as (n & En). destruct (Rl c Hc) as (v & _ & Ev). rewrite E, En in Ev. discriminate. }
    destruct o as [v|h|h|h|h v]; cbn [spec_step rv_step].
    - (* push *)
      unfold rv_push. set (sigma' := fun id c => if c =? length cells then id else sigma c).
      assert (Hnew : owners shs (length cells) = 0).
      { destruct (owners shs (length cells)) eqn:E; auto. specialize (Hb (length cells) ltac:(lia)). lia. }
      assert (Hone : forall c, owners (shs ++ [Some (length cells)]) c = owners shs c + (if length cells =? c then 1 else 0)).
      { intros c. rewrite owners_app. cbn [owners]. lia. }
      assert (Hmap : forall id, hs ++ [Some id] = map (option_map (sigma' id)) (shs ++ [Some (length cells)])).
      { intros id. rewrite map_app. cbn [map option_map]. unfold sigma' at 2. rewrite Nat.eqb_refl. f_equal. rewrite Rv.
        apply map_ext_owner. intros c Hc. unfold sigma'. destruct (Nat.eqb_spec c (length cells)); auto. specialize (Hb c Hc). lia. }
      assert (Hb' : forall c, 0 < owners (shs ++ [Some (length cells)]) c -> c < length (cells ++ [v])).
      { intros c. rewrite Hone, app_length. cbn [length]. destruct (Nat.eqb_spec (length cells) c); [lia|]. intros Hc. specialize (Hb c ltac:(lia)). lia. }
      destruct free as [|i free]; cbn [chain] in Rc.
      + rewrite Rc. cbn [bind]. do 2 eexists. exists (sigma' (length (rv_vals r))), []. split; [reflexivity|]. split; [|split; [exact Hb'|right; reflexivity]].
        assert (Hlt : forall c, 0 < owners shs c -> sigma c < length (rv_vals r)).
        { intros c Hc. destruct (Rl c Hc) as (v0 & _ & Ev). eapply nth_error_lt; eauto. }
        split; cbn [rv_vals rv_head].
        * apply Hmap.
        * intros c. rewrite Hone. unfold sigma'. destruct (Nat.eqb_spec c (length cells)) as [->|Hn].
          -- rewrite Nat.eqb_refl, Hnew. intros _. exists v. rewrite !nth_snoc. auto.
          -- destruct (Nat.eqb_spec (length cells) c); [lia|]. rewrite Nat.add_0_r. intros Hc. destruct (Rl c Hc) as (v0 & E1 & E2).
             exists v0. split; apply nth_app_l; auto.
        * intros c c'. rewrite !Hone. unfold sigma'. destruct (Nat.eqb_spec c (length cells)), (Nat.eqb_spec c' (length cells));
            destruct (Nat.eqb_spec (length cells) c), (Nat.eqb_spec (length cells) c'); try lia; rewrite ?Nat.add_0_r; intros Hc Hc' E.
          -- specialize (Hlt c' Hc'). lia.
          -- specialize (Hlt c Hc). lia.
          -- apply Ri; auto.
        * reflexivity.
        * constructor.
        * intros j Hj. rewrite app_length in Hj. cbn [length] in Hj. right. destruct (Nat.eq_dec j (length (rv_vals r))) as [->|Hn].
          -- exists (length cells). rewrite Hone, Nat.eqb_refl. unfold sigma'. rewrite Nat.eqb_refl. split; lia.
          -- destruct (Rk j ltac:(lia)) as [[]|(c & Hc & E)]. exists c. rewrite Hone. unfold sigma'.
             destruct (Nat.eqb_spec c (length cells)) as [->|]; [lia|]. split; [lia|auto].
      + destruct Rc as [Eh (n & En & Rc)]. rewrite Eh, En. cbn [bind]. inversion Rn as [|? ? Hni Rn']; subst.
        pose proof (nth_error_lt _ _ _ En) as Hi.
        do 2 eexists. exists (sigma' i), free. split; [reflexivity|]. split; [|split; [exact Hb'|left; cbn [rv_vals]; apply replace_len]].
        assert (Hne : forall c, 0 < owners shs c -> sigma c <> i) by (intros c Hc; apply Hfree; [left; auto|auto]).
        split; cbn [rv_vals rv_head].
        * apply Hmap.
        * intros c. rewrite Hone. unfold sigma'. destruct (Nat.eqb_spec c (length cells)) as [->|Hn].
          -- rewrite Nat.eqb_refl, Hnew. intros _. exists v. rewrite nth_snoc, replace_nth_same by auto. auto.
          -- destruct (Nat.eqb_spec (length cells) c); [lia|]. rewrite Nat.add_0_r. intros Hc. destruct (Rl c Hc) as (v0 & E1 & E2).
             exists v0. split; [apply nth_app_l; auto|]. rewrite replace_nth_other; auto. intros E. apply (Hne c Hc). auto.
        * intros c c'. rewrite !Hone. unfold sigma'. destruct (Nat.eqb_spec c (length cells)), (Nat.eqb_spec c' (length cells));
            destruct (Nat.eqb_spec (length cells) c), (Nat.eqb_spec (length cells) c'); try lia; rewrite ?Nat.add_0_r; intros Hc Hc' E.
          -- exfalso. apply (Hne c' Hc'). auto.
          -- exfalso. apply (Hne c Hc). auto.
          -- apply Ri; auto.
        * eapply chain_change; eauto. intros j Hj. apply replace_nth_other. intros ->. contradiction.
        * exact Rn'.
        * intros j Hj. rewrite replace_len in Hj. destruct (Nat.eq_dec j i) as [->|Hn].
          -- right. exists (length cells). rewrite Hone, Nat.eqb_refl. unfold sigma'. rewrite Nat.eqb_refl. split; lia.
          -- destruct (Rk j Hj) as [[Hx|Hx]|(c & Hc & E)]; [congruence|auto|]. right. exists c. rewrite Hone. unfold sigma'.
             destruct (Nat.eqb_spec c (length cells)) as [->|]; [lia|]. split; [lia|auto].
    - (* clone *)
      rewrite Rv, var_map. destruct (var shs h) as [c|] eqn:Eh; cbn [option_map]; [|reflexivity].
      pose proof (var_owner _ _ _ Eh) as Hc. destruct (Rl c Hc) as (v & E1 & E2). unfold rv_clone. rewrite E2.
      destruct (Nat.ltb_spec (owners shs c) CMAX); [|reflexivity]. cbn [bind].
      assert (Hone : forall c', owners (shs ++ [Some c]) c' = owners shs c' + (if c =? c' then 1 else 0)).
      { intros c'. rewrite owners_app. cbn [owners]. lia. }
      assert (Hpos : forall c', 0 < owners (shs ++ [Some c]) c' -> 0 < owners shs c').
      { intros c'. rewrite Hone. destruct (Nat.eqb_spec c c'); [subst; lia|lia]. }
      do 2 eexists. exists sigma, free. split; [reflexivity|]. split; [|split; [auto|left; apply replace_len]].
      split; cbn [rv_vals rv_head]; auto.
      + rewrite map_app. reflexivity.
      + intros c' Hc'. pose proof (Hpos _ Hc') as Hp. destruct (Rl c' Hp) as (v' & E1' & E2').
        destruct (Nat.eq_dec c' c) as [->|Hn].
        * exists v. split; auto. rewrite replace_nth_same by (eapply nth_error_lt; eauto). rewrite Hone, Nat.eqb_refl.
          do 2 f_equal. lia.
        * exists v'. split; auto. rewrite replace_nth_other; [rewrite Hone; destruct (Nat.eqb_spec c c'); [lia|rewrite Nat.add_0_r; auto]|].
          intros E. apply Hn. symmetry. apply Ri; auto.
      + eapply chain_change; eauto. intros i Hi. apply replace_nth_other. intros E. apply (Hfree i c Hi Hc E).
      + intros i Hi. rewrite replace_len in Hi. destruct (Rk i Hi) as [?|(a & Ha & E)]; auto. right. exists a. rewrite Hone. split; [lia|auto].
    - (* recycle *)
      rewrite Rv, var_map. destruct (var shs h) as [c|] eqn:Eh; cbn [option_map]; [|reflexivity].
      pose proof (var_owner _ _ _ Eh) as Hc. destruct (Rl c Hc) as (v & E1 & E2). unfold rv_recycle. rewrite E2.
      pose proof (owners_kill _ _ _ Eh) as Hk. set (shs' := replace_at h None shs) in *.
      assert (Hpos : forall a, 0 < owners shs' a -> 0 < owners shs a) by (intros a; rewrite (Hk a); lia).
      assert (Hmap : replace_at h None (map (option_map sigma) shs) = map (option_map sigma) shs').
      { apply (replace_map _ _ (option_map sigma) h None shs). }
      pose proof (Hk c) as Hkc. rewrite Nat.eqb_refl in Hkc. cbn [Nat.add] in Hkc. rewrite Hkc.
      destruct (owners shs' c) as [|m] eqn:Em; cbn [Nat.eqb bind].
      + do 2 eexists. exists sigma, (sigma c :: free). rewrite E1. split; [reflexivity|]. split; [|split; [intros a Ha; apply Hb, Hpos, Ha|left; apply replace_len]].
        split; cbn [rv_vals rv_head]; auto.
        * intros a Ha. pose proof (Hpos _ Ha) as Hp. destruct (Rl a Hp) as (v' & E1' & E2'). exists v'. split; auto.
          assert (a <> c) by (intros ->; lia). rewrite replace_nth_other by (intros E; apply H; symmetry; apply Ri; auto).
          rewrite E2'. do 2 f_equal. rewrite (Hk a). destruct (Nat.eqb_spec a c); [contradiction|reflexivity].
        * split; auto. exists (rv_head r). split; [apply replace_nth_same; eapply nth_error_lt; eauto|].
          eapply chain_change; eauto. intros i Hi. apply replace_nth_other. intros E. apply (Hfree i c Hi Hc E).
        * constructor; auto. intros Hi. apply (Hfree _ c Hi Hc eq_refl).
        * intros i Hi. rewrite replace_len in Hi. destruct (Rk i Hi) as [?|(a & Ha & E)]; [left; right; auto|].
          destruct (Nat.eq_dec a c) as [->|Hn]; [left; left; auto|]. right. exists a. split; auto.
          specialize (Hk a). destruct (Nat.eqb_spec a c); [contradiction|]. lia.
      + do 2 eexists. exists sigma, free. split; [reflexivity|]. split; [|split; [intros a Ha; apply Hb, Hpos, Ha|left; apply replace_len]].
        split; cbn [rv_vals rv_head]; auto.
        * intros a Ha. pose proof (Hpos _ Ha) as Hp. destruct (Rl a Hp) as (v' & E1' & E2'). destruct (Nat.eq_dec a c) as [->|Hn].
          -- exists v. split; auto. rewrite replace_nth_same by (eapply nth_error_lt; eauto). rewrite Em. reflexivity.
          -- exists v'. split; auto. rewrite replace_nth_other by (intros E; apply Hn; symmetry; apply Ri; auto).
             rewrite E2'. do 2 f_equal. rewrite (Hk a). destruct (Nat.eqb_spec a c); [contradiction|reflexivity].
        * eapply chain_change; eauto. intros i Hi. apply replace_nth_other. intros E. apply (Hfree i c Hi Hc E).
        * intros i Hi. rewrite replace_len in Hi. destruct (Rk i Hi) as [?|(a & Ha & E)]; [left; auto|]. right. exists a. split; auto.
          specialize (Hk a). destruct (Nat.eqb_spec a c); [subst a; lia|lia].
    - (* get *)
      rewrite Rv, var_map. destruct (var shs h) as [c|] eqn:Eh; cbn [option_map]; [|reflexivity].
      pose proof (var_owner _ _ _ Eh) as Hc. destruct (Rl c Hc) as (v & E1 & E2). unfold rv_get. rewrite E1, E2. cbn [bind].
      do 2 eexists. exists sigma, free. split; [reflexivity|]. split; [split; auto|]. auto.
    - (* replace *)
      rewrite Rv, var_map. destruct (var shs h) as [c|] eqn:Eh; cbn [option_map]; [|reflexivity].
      pose proof (var_owner _ _ _ Eh) as Hc. destruct (Rl c Hc) as (v0 & E1 & E2). unfold rv_replace. rewrite E1, E2. cbn [bind].
      do 2 eexists. exists sigma, free. split; [reflexivity|]. split; [|split; [intros a Ha; rewrite replace_len; auto|left; apply replace_len]].
      split; cbn [rv_vals rv_head]; auto.
      + intros a Ha. destruct (Rl a Ha) as (v' & E1' & E2'). destruct (Nat.eq_dec a c) as [->|Hn].
        * exists v. rewrite !replace_nth_same by (eapply nth_error_lt; eauto). auto.
        * exists v'. rewrite !replace_nth_other by (intros E; apply Hn; auto). auto.
      + eapply chain_change; eauto. intros i Hi. apply replace_nth_other. intros E. apply (Hfree i c Hi Hc E).
      + intros i Hi. rewrite replace_len in Hi. auto.
  Qed.

  Lemma peak_now : forall (st : list T * vars) (ops : list (@rop T)), live_cells st <= peak CMAX st ops.
  Proof. intros st [|o ops]; cbn [peak]; lia. Qed.

  Lemma live_bound : forall r hs cells shs sigma, rel r hs cells shs sigma [] -> (forall c, 0 < owners shs c -> c < length cells) ->
    length (rv_vals r) <= live_cells (cells, shs).
  Proof.
    intros r hs cells shs sigma R Hb. unfold live_cells. cbn [fst snd].
    rewrite <- (seq_length (length (rv_vals r)) 0).
    rewrite <- (map_length sigma (filter _ _)). apply NoDup_incl_length; [apply seq_NoDup|].
    intros i Hi. apply in_seq in Hi. destruct (r_cover _ _ _ _ _ _ R i ltac:(lia)) as [[]|(c & Hc & <-)].
    apply in_map, filter_In. split; [apply in_seq; specialize (Hb c Hc); lia|]. destruct (Nat.eqb_spec (owners shs c) 0); [lia|reflexivity].
  Qed.

  Lemma rv_run_ok : forall ops r hs cells shs sigma free, rel r hs cells shs sigma free ->
    (forall c, 0 < owners shs c -> c < length cells) ->
    match rspec_run CMAX (cells, shs) ops with
    | None => rv_run CMAX (r, hs) ops = None
    | Some (Ok (outs, (cells', shs'))) => exists r' hs' sigma' free', rv_run CMAX (r, hs) ops = Some (Ok (outs, (r', hs'))) /\ rel r' hs' cells' shs' sigma' free' /\
        length (rv_vals r') <= Nat.max (length (rv_vals r)) (peak CMAX (cells, shs) ops)
    | Some (Panic w) => rv_run CMAX (r, hs) ops = Some (Panic w)
    | Some UB => False
    end.
  Proof.
    induction ops as [|o ops IH]; intros r hs cells shs sigma free R Hb; cbn [rspec_run rv_run].
    - exists r, hs, sigma, free. split; auto. split; auto. lia.
    - pose proof (rv_step_ok r hs cells shs sigma free o R Hb) as H. cbn [peak].
      destruct (spec_step CMAX (cells, shs) o) as [[[out [cells' shs']]|w|]|].
      + destruct H as (r' & hs' & sigma' & free' & E & R' & Hb' & Hl). rewrite E.
        specialize (IH r' hs' cells' shs' sigma' free' R' Hb').
        destruct (rspec_run CMAX (cells', shs') ops) as [[[outs [cells2 shs2]]|w|]|].
        * destruct IH as (r2 & hs2 & sigma2 & free2 & E2 & R2 & Hl2). rewrite E2. cbn [bind].
          exists r2, hs2, sigma2, free2. split; auto. split; auto.
          assert (length (rv_vals r') <= Nat.max (length (rv_vals r)) (peak CMAX (cells', shs') ops)).
          { destruct Hl as [->| ->]; [lia|]. pose proof (live_bound _ _ _ _ _ R' Hb'). pose proof (peak_now (cells', shs') ops). lia. }
          lia.
        * rewrite IH. reflexivity.
        * contradiction.
        * rewrite IH. reflexivity.
      + rewrite H. reflexivity.
      + contradiction.
      + rewrite H. reflexivity.
  Qed.

  Lemma rel_new : rel rv_new [] [] [] (fun c => c) [].
  Proof.
    split; cbn [rv_new rv_vals rv_head map owners length].
    - reflexivity.
    - intros c H. lia.
    - intros c c' H. lia.
    - reflexivity.
    - constructor.
    - intros i H. lia.
  Qed.
End RecycleP.

(** Every call of every history returns what the specification with never-reused cells says; nothing is
    read from a freed slot; two live ids share a slot exactly when they come from the same push. *)
Lemma C22_recycle_vec_refines_proof : forall (T : Type) (CMAX : nat) (ops : list (@rop T)),
  match rspec_run CMAX ([], []) ops with
  | None => rv_run CMAX (rv_new, []) ops = None
  | Some (Ok (outs, (cells, shs))) => exists r hs, rv_run CMAX (rv_new, []) ops = Some (Ok (outs, (r, hs))) /\
      length hs = length shs /\
      forall h h' c c', var shs h = Some c -> var shs h' = Some c' ->
        exists id id', var hs h = Some id /\ var hs h' = Some id' /\ (id = id' <-> c = c')
  | Some (Panic w) => rv_run CMAX (rv_new, []) ops = Some (Panic w)
  | Some UB => False
  end.
Proof.
  intros T CMAX ops. pose proof (rv_run_ok CMAX ops rv_new [] [] [] (fun c => c) [] rel_new) as H.
  unfold vars in *. specialize (H (fun c (Hc : 0 < 0) => False_ind _ (Nat.lt_irrefl 0 Hc))).
  destruct (rspec_run CMAX ([], []) ops) as [[[outs [cells shs]]|w|]|]; auto.
  destruct H as (r & hs & sigma & free & E & R & _). exists r, hs. split; auto. destruct R as [Rv _ Ri _ _ _]. subst hs.
  split; [apply map_length|]. intros h h' c c' Hh Hh'. exists (sigma c), (sigma c'). rewrite !var_map, Hh, Hh'. cbn [option_map].
  split; auto. split; auto. split; [|congruence]. intros E'. apply Ri; auto; eapply var_owner; eauto.
Qed.

(** Freed slots are reused: the vector never has more entries than the most values alive at one time. *)
Lemma C22_recycle_vec_space_proof : forall (T : Type) (CMAX : nat) (ops : list (@rop T)) outs r hs,
  rv_run CMAX (rv_new, []) ops = Some (Ok (outs, (r, hs))) ->
  length (rv_vals r) <= peak CMAX ([], []) ops.
Proof.
  intros T CMAX ops outs r hs E. pose proof (rv_run_ok CMAX ops rv_new [] [] [] (fun c => c) [] rel_new) as H.
  unfold vars in *. specialize (H (fun c (Hc : 0 < 0) => False_ind _ (Nat.lt_irrefl 0 Hc))).
  destruct (rspec_run CMAX ([], []) ops) as [[[outs' [cells shs]]|w|]|]; [| |contradiction|].
  - destruct H as (r' & hs' & sigma & free & E' & R & Hl). pose proof (eq_trans (eq_sym E) E') as E2. inversion E2; subst. cbn [rv_new rv_vals length] in Hl. lia.
  - pose proof (eq_trans (eq_sym E) H) as E2. discriminate.
  - pose proof (eq_trans (eq_sym E) H) as E2. discriminate.
Qed.
