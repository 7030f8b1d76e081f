(** Stored counts: an insertion that follows the counts does what an insertion that knows the other trees does.
    Proof support only. *)
From Coq Require Import List Lia Bool Arith.
From Verif Require Import Base Index Slice Tree Insert LTree LInsert LTreeP LShape LRef LInvP LCow LCount.
Import ListNotations.

Definition delta (b a : addr) : nat := if a =? b then 1 else 0.
Definition lsum {A} (f : A -> nat) (l : list A) : nat := fold_right (fun x n => f x + n) 0 l.
Lemma lsum_app : forall {A} (f : A -> nat) a b, lsum f (a ++ b) = lsum f a + lsum f b.
Proof. induction a as [|x a IH]; intros b; cbn [lsum fold_right app] in *; [reflexivity|]. unfold lsum in IH at 1. rewrite IH. fold (lsum f a). lia. Qed.
Lemma lsum_cons : forall {A} (f : A -> nat) x l, lsum f (x :: l) = f x + lsum f l.
Proof. reflexivity. Qed.

Definition cnt_of (n : nat) : option nat := match n with 0 => None | _ => Some n end.

Section P.
  Context (M : nat) (others : list addr) (base : addr -> nat).
  Hypothesis base_others : forall a, base a = 0 <-> ~ In a others.
  Notation shared := (c_shared others).
  Lemma shared_in : forall a, shared a = true <-> In a others.
  Proof.
    intros a. unfold c_shared. rewrite existsb_exists. split; [intros (b & H & E); apply Nat.eqb_eq in E; subst; exact H|].
    intros H. exists a. rewrite Nat.eqb_refl. auto.
  Qed.
  Lemma shared_base : forall a, shared a = false <-> base a = 0.
  Proof. intros a. rewrite base_others, <- shared_in. destruct (shared a); split; try discriminate; auto; intros H; exfalso; auto. Qed.

  (** The pointers to [a] in [t] that are in no other tree: the pointer to its root, and those in its own nodes. *)
  Fixpoint exp (t : ltree) (a : addr) : nat :=
    match t with
    | LNil => 0
    | LNode b _ _ ks => delta b a + (if shared b then 0 else lsum (fun k => exp k a) ks)
    end.
  Notation kexp ks a := (lsum (fun k => exp k a) ks).
  Definition owned (t : ltree) : Prop := match t with LNil => False | LNode b _ _ _ => shared b = false end.
  (** Children of shared nodes are shared. *)
  Fixpoint shut (t : ltree) : Prop :=
    match t with
    | LNil => True
    | LNode b _ _ ks =>
      (shared b = true -> Forall (fun k => match k with LNil => True | LNode c _ _ _ => shared c = true end) ks) /\
      (fix go ks := match ks with [] => True | k :: ks' => shut k /\ go ks' end) ks
    end.
  Lemma shut_kids : forall b p rs ks, shut (LNode b p rs ks) -> Forall shut ks.
  Proof. intros b p rs ks [_ H]. induction ks as [|k ks IH]; constructor; [tauto|apply IH; tauto]. Qed.
  Lemma shut_node : forall b p rs ks, (shared b = true -> Forall (fun k => match k with LNil => True | LNode c _ _ _ => shared c = true end) ks) ->
    Forall shut ks -> shut (LNode b p rs ks).
  Proof. intros b p rs ks H1 H2. split; [exact H1|]. clear H1. induction H2 as [|k ks H H2 IH]; [exact Logic.I|split; [exact H|exact IH]]. Qed.

  Record ok (s : nst) (G : addr -> nat) : Prop := {
    ok_cnt : forall a, n_cnt s a = cnt_of (base a + G a);
    ok_one : forall a, base a = 0 -> G a <= 1;
    ok_inj : forall i k, k_al (n_c s) i = k_al (n_c s) k -> i = k;
    ok_new : forall i, k_i (n_c s) <= i -> base (k_al (n_c s) i) = 0 /\ G (k_al (n_c s) i) = 0;
  }.
  Lemma ok_ext : forall s G G', (forall a, G a = G' a) -> ok s G -> ok s G'.
  Proof.
    intros s G G' E [H1 H2 H3 H4]. constructor; auto.
    - intros a. rewrite <- E. apply H1.
    - intros a. rewrite <- E. apply H2.
    - intros i. rewrite <- E. apply H4.
  Qed.

  (** The counted [n], started with the pointers [w] besides others, does what [c] does and leaves the pointers [Q]. *)
  Definition sim {A} (w : addr -> nat) (n : nm A) (c : cm A) (Q : A -> addr -> nat) (P : A -> Prop) : Prop :=
    forall F s x c', ok s (fun a => F a + w a) -> c (n_c s) = Ok (x, c') ->
      exists s', n s = Ok (x, s') /\ n_c s' = c' /\ n_freed s' = n_freed s /\ ok s' (fun a => F a + Q x a) /\ P x /\
        forall a, n_cnt s a <> None -> n_cnt s' a <> None.

  Lemma sim_ext : forall {A} w w' (n : nm A) c (Q Q' : A -> addr -> nat) (P P' : A -> Prop), sim w n c Q P -> (forall a, w' a = w a) ->
    (forall x, P x -> P' x) -> (forall x a, P x -> Q x a = Q' x a) -> sim w' n c Q' P'.
  Proof.
    intros A w w' n c Q Q' P P' H E HP HQ F s x c' Hok Hc.
    destruct (H F s x c') as (s' & E1 & E2 & E3 & E4 & E5 & E6); [eapply ok_ext; [|exact Hok]; intros a; cbn; rewrite E; reflexivity|exact Hc|].
    exists s'. split; [exact E1|]. split; [exact E2|]. split; [exact E3|]. split; [eapply ok_ext; [|exact E4]; intros a; cbn; rewrite (HQ x a E5); reflexivity|]. auto.
  Qed.
  Lemma sim_frame : forall {A} R w (n : nm A) c Q P, sim w n c Q P -> sim (fun a => R a + w a) n c (fun x a => R a + Q x a) P.
  Proof.
    intros A R w n c Q P H F s x c' Hok Hc.
    destruct (H (fun a => F a + R a) s x c') as (s' & E1 & E2 & E3 & E4 & E5 & E6); [eapply ok_ext; [|exact Hok]; intros a; cbn; lia|exact Hc|].
    exists s'. split; [exact E1|]. split; [exact E2|]. split; [exact E3|]. split; [eapply ok_ext; [|exact E4]; intros a; cbn; lia|]. auto.
  Qed.
  Lemma sim_bind : forall {A B} w (n : nm A) c Q P (kn : A -> nm B) kc Q' P', sim w n c Q P -> (forall x, P x -> sim (Q x) (kn x) (kc x) Q' P') ->
    sim w (nbind n kn) (cbind c kc) Q' P'.
  Proof.
    intros A B w n c Q P kn kc Q' P' H K F s x c' Hok Hc. unfold cbind in Hc. destruct (c (n_c s)) as [[y c1]| |] eqn:Ec; try discriminate.
    destruct (H F s y c1 Hok Ec) as (s1 & E1 & E2 & E3 & E4 & E5 & E6). subst c1.
    destruct (K y E5 F s1 x c' E4 Hc) as (s2 & G1 & G2 & G3 & G4 & G5 & G6).
    exists s2. unfold nbind. rewrite E1. split; [exact G1|]. split; [exact G2|]. split; [congruence|]. split; [exact G4|]. split; [exact G5|]. auto.
  Qed.
  (** With a frame and another way to write the weights. *)
  Lemma sim_bind' : forall {A B} R w0 w (n : nm A) c Q P (kn : A -> nm B) kc Q' P', sim w n c Q P -> (forall a, w0 a = R a + w a) ->
    (forall x, P x -> sim (fun a => R a + Q x a) (kn x) (kc x) Q' P') -> sim w0 (nbind n kn) (cbind c kc) Q' P'.
  Proof.
    intros A B R w0 w n c Q P kn kc Q' P' H E K. eapply sim_ext; [eapply sim_bind; [exact (sim_frame R _ _ _ _ _ H)|exact K]|exact E|auto|auto].
  Qed.
  Lemma sim_ret : forall {A} w (x : A) (Q : A -> addr -> nat) (P : A -> Prop), P x -> (forall a, w a = Q x a) -> sim w (nret x) (cret x) Q P.
  Proof.
    intros A w x Q P HP HQ F s y c' Hok E. injection E as <- <-. exists s. split; [reflexivity|]. split; [reflexivity|]. split; [reflexivity|].
    split; [eapply ok_ext; [|exact Hok]; intros a; cbn; rewrite HQ; reflexivity|]. auto.
  Qed.
  Lemma sim_ub : forall {A} w (n : nm A) Q P, sim w n cub Q P.
  Proof. intros A w n Q P F s y c' Hok E. discriminate E. Qed.
  Lemma sim_any : forall {A} w (n : nm A) c Q P, (forall s, c s = UB) -> sim w n c Q P.
  Proof. intros A w n c Q P H F s y c' Hok E. rewrite H in E. discriminate E. Qed.

  (** What leaves the allocator alone. *)
  Definition quiet {A} (m : cm A) : Prop := forall s x c', m s = Ok (x, c') -> k_al c' = k_al s /\ k_i c' = k_i s.
  Lemma sim_lift : forall {A} w (m : cm A) (P : A -> Prop), quiet m -> (forall s x c', m s = Ok (x, c') -> P x) -> sim w (lift m) m (fun _ => w) P.
  Proof.
    intros A w m P Hq HP F s x c' [H1 H2 H3 H4] E. unfold lift. rewrite E. destruct (Hq _ _ _ E) as [Q1 Q2].
    eexists. split; [reflexivity|]. cbn [n_c n_freed n_cnt]. split; [reflexivity|]. split; [reflexivity|]. split; [|split; [exact (HP _ _ _ E)|auto]].
    constructor; cbn [n_c n_cnt]; auto; rewrite ?Q1, ?Q2; auto.
  Qed.
  Lemma quiet_ret : forall {A} (x : A), quiet (cret x).
  Proof. intros A x s y c' E. injection E as <- <-. auto. Qed.
  Lemma quiet_ub : forall {A}, quiet (@cub A).
  Proof. intros A s y c' E. discriminate. Qed.
  Lemma quiet_bind : forall {A B} (m : cm A) (k : A -> cm B), quiet m -> (forall x, quiet (k x)) -> quiet (cbind m k).
  Proof.
    intros A B m k Hm Hk s x c' E. unfold cbind in E. destruct (m s) as [[y c1]| |] eqn:Em; try discriminate.
    destruct (Hm _ _ _ Em) as [H1 H2]. destruct (Hk y _ _ _ E) as [H3 H4]. rewrite H3, H4. auto.
  Qed.
  Lemma quiet_touch : forall a, quiet (c_touch a).
  Proof. intros a s x c' E. injection E as <- <-. auto. Qed.
  Lemma quiet_set_par : forall p t, quiet (c_set_par p t).
  Proof. intros p [|a q rs ks]; [apply quiet_ret|]. apply quiet_bind; [apply quiet_touch|intros; apply quiet_ret]. Qed.

  Ltac invb E := repeat (unfold cbind, c_touch, cret, cub in E; match type of E with
    | context [if ?b then _ else _] => destruct b eqn:?; try discriminate E
    | Ok _ = Ok _ => injection E; clear E; intros; subst
    end).

  (** ** Primitives *)
  Lemma sim_addr : forall w t, sim w (lift (c_addr t)) (c_addr t) (fun _ => w) (fun a => match t with LNil => False | LNode b _ _ _ => a = b end).
  Proof. intros w [|b p rs ks]; [apply sim_any; reflexivity|]. apply sim_lift; [apply quiet_ret|]. intros s x c' E. injection E as <- <-. reflexivity. Qed.
  Lemma sim_child : forall w t c, sim w (lift (c_child t c)) (c_child t c) (fun _ => w) (fun k => nth_error (l_kids t) c = Some k).
  Proof.
    intros w t c. unfold c_child. destruct (nth_error (l_kids t) c) as [k|]; [|apply sim_any; reflexivity].
    apply sim_lift; [apply quiet_ret|]. intros s x c' E. injection E as <- <-. reflexivity.
  Qed.
  Lemma sim_touch : forall w a, sim w (lift (c_touch a)) (c_touch a) (fun _ => w) (fun _ => True).
  Proof. intros. apply sim_lift; [apply quiet_touch|auto]. Qed.
  Lemma sim_into_parent : forall w t a c, sim w (lift (c_into_parent t a c)) (c_into_parent t a c) (fun _ => w) (fun _ => True).
  Proof. intros. apply sim_lift; [|auto]. unfold c_into_parent. destruct (l_par t); [destruct (loc_eqb _ _)|]; auto using quiet_ret, quiet_ub. Qed.

  (** The same node but for its parent and keys, and but for places with no child. *)
  Definition like (t t' : ltree) : Prop := (forall a, exp t' a = exp t a) /\ (owned t -> owned t').
  Lemma sim_set_par : forall w p t, sim w (lift (c_set_par p t)) (c_set_par p t) (fun _ => w) (fun t' => t' = match t with LNil => LNil | LNode a _ rs ks => LNode a p rs ks end).
  Proof.
    intros. apply sim_lift; [apply quiet_set_par|]. intros s x c' E. destruct t as [|a q rs ks]; cbn [c_set_par] in E; invb E; reflexivity.
  Qed.
  Lemma exp_insert_nil : forall k ks a, kexp (insert_at k LNil ks) a = kexp ks a.
  Proof. intros k ks a. unfold insert_at. rewrite lsum_app, lsum_cons. cbn [exp]. rewrite <- (firstn_skipn k ks) at 3. rewrite lsum_app. lia. Qed.
  Lemma sim_insert_key : forall w t k, sim w (lift (c_insert_key M t k)) (c_insert_key M t k) (fun _ => w) (like t).
  Proof.
    intros. apply sim_lift.
    - destruct t as [|a p rs ks]; [apply quiet_ub|]. cbn [c_insert_key]. destruct (_ || _); [apply quiet_ub|]. apply quiet_bind; [apply quiet_touch|intros; apply quiet_ret].
    - intros s x c' E. destruct t as [|a p rs ks]; [discriminate|]. cbn [c_insert_key] in E. invb E. split; [|auto]. intros b. cbn [exp]. rewrite exp_insert_nil. reflexivity.
  Qed.
  Lemma sim_push_key : forall w t, sim w (lift (c_push_key M t)) (c_push_key M t) (fun _ => w) (like t).
  Proof.
    intros. apply sim_lift.
    - destruct t as [|a p rs ks]; [apply quiet_ub|]. unfold c_push_key. destruct (_ <=? _); [apply quiet_ub|]. apply quiet_bind; [apply quiet_touch|intros; apply quiet_ret].
    - intros s x c' E. destruct t as [|a p rs ks]; [discriminate|]. unfold c_push_key in E. invb E. split; [|auto]. intros b. cbn [exp].
      rewrite lsum_app, lsum_cons. cbn [lsum fold_right exp]. destruct (shared a); lia.
  Qed.
  Lemma sim_alloc : forall h, sim (fun _ => 0) (n_alloc h) (c_alloc h) (fun a => delta a) (fun a => shared a = false).
  Proof.
    intros h F s x c' [H1 H2 H3 H4] E. injection E as <- <-. unfold n_alloc, nbind, lift, c_alloc, n_set, nret. cbn [n_c n_cnt n_freed].
    destruct (H4 (k_i (n_c s)) (le_n _)) as [B0 G0].
    eexists. split; [reflexivity|]. cbn [n_c n_cnt n_freed]. split; [reflexivity|]. split; [reflexivity|].
    split; [constructor; cbn [n_c n_cnt k_al k_i]|split; [apply shared_base; exact B0|]].
    - intros a. unfold put_cnt, delta. destruct (a =? k_al (n_c s) (k_i (n_c s))) eqn:Ea.
      + apply Nat.eqb_eq in Ea. subst a. replace (base _ + _) with 1 by lia. reflexivity.
      + rewrite H1. do 2 f_equal.
    - intros a Ha. unfold delta. specialize (H2 a Ha). destruct (a =? _) eqn:Ea; [apply Nat.eqb_eq in Ea; subst a; lia|lia].
    - exact H3.
    - intros i Hi. destruct (H4 i ltac:(lia)) as [B1 G1]. split; [exact B1|]. unfold delta. destruct (_ =? _) eqn:Ea; [|lia].
      apply Nat.eqb_eq in Ea. apply H3 in Ea. lia.
    - intros a Ha. unfold put_cnt. destruct (a =? _); [discriminate|exact Ha].
  Qed.

  Lemma get_ok : forall s G a, ok s G -> 0 < G a -> n_get a s = Ok (base a + G a, s).
  Proof. intros s G a [H1 _ _ _] H. unfold n_get. rewrite H1. destruct (base a + G a) eqn:E; [lia|]. cbn [cnt_of]. reflexivity. Qed.
  Lemma unique_ok : forall s G a, ok s G -> 0 < G a -> n_is_unique a s = Ok (negb (shared a), s).
  Proof.
    intros s G a Hok H. unfold n_is_unique, nbind. rewrite (get_ok _ _ _ Hok H). unfold nret. do 2 f_equal. destruct (shared a) eqn:Es.
    - assert (base a <> 0) by (rewrite <- shared_base; congruence). cbn [negb]. apply Nat.eqb_neq. lia.
    - apply shared_base in Es. pose proof (ok_one _ _ Hok a Es). cbn [negb]. apply Nat.eqb_eq. lia.
  Qed.
  Lemma put_ok : forall s G a k G', ok s G -> (forall b, G' b = if b =? a then k - base a else G b) -> base a <> 0 -> base a <= k ->
    ok {| n_c := n_c s; n_cnt := put_cnt (n_cnt s) a (Some k); n_freed := n_freed s |} G'.
  Proof.
    intros s G a k G' [H1 H2 H3 H4] E Hb Hk. constructor; cbn [n_c n_cnt]; auto.
    - intros b. rewrite E. unfold put_cnt. destruct (b =? a) eqn:Eb; [|apply H1]. apply Nat.eqb_eq in Eb. subst b.
      replace (base a + (k - base a)) with k by lia. destruct k; [lia|reflexivity].
    - intros b Hb0. rewrite E. destruct (b =? a) eqn:Eb; [apply Nat.eqb_eq in Eb; subst b; lia|auto].
    - intros i Hi. destruct (H4 i Hi) as [B1 G1]. split; [exact B1|]. rewrite E. destruct (_ =? a) eqn:Eb; [apply Nat.eqb_eq in Eb; subst a; lia|exact G1].
  Qed.

  (** Increments of shared nodes. *)
  Lemma increment_all_ok : forall ks s G, ok s G -> Forall (fun k => match k with LNil => True | LNode c _ _ _ => shared c = true end) ks ->
    exists s', n_increment_all ks s = Ok (tt, s') /\ n_c s' = n_c s /\ n_freed s' = n_freed s /\ ok s' (fun a => G a + kexp ks a) /\
      forall a, n_cnt s a <> None -> n_cnt s' a <> None.
  Proof.
    induction ks as [|k ks IH]; intros s G Hok Hs; [|inversion Hs as [|? ? Hk Hks]; subst].
    - exists s. split; [reflexivity|]. split; [reflexivity|]. split; [reflexivity|]. split; [eapply ok_ext; [|exact Hok]; intros; cbn; lia|auto].
    - destruct k as [|c p rs kk]; cbn [n_increment_all].
      + destruct (IH s G Hok Hks) as (s' & E1 & E2 & E3 & E4 & E5). exists s'. auto.
      + assert (Hb : base c <> 0) by (rewrite <- shared_base; congruence).
        assert (Eg : n_get c s = Ok (base c + G c, s)).
        { unfold n_get. rewrite (ok_cnt _ _ Hok). destruct (base c + G c) eqn:E; [lia|]. reflexivity. }
        unfold nbind at 1. unfold n_increment, nbind. rewrite Eg. unfold n_set.
        destruct (IH {| n_c := n_c s; n_cnt := put_cnt (n_cnt s) c (Some (base c + G c + 1)); n_freed := n_freed s |} (fun a => G a + delta c a)) as (s' & E1 & E2 & E3 & E4 & E5).
        * eapply put_ok; [exact Hok| |exact Hb|lia]. intros b. cbn beta. unfold delta. destruct (b =? c) eqn:Eb; [apply Nat.eqb_eq in Eb; subst b; lia|lia].
        * exact Hks.
        * exists s'. split; [exact E1|]. split; [exact E2|]. split; [exact E3|]. split.
          { eapply ok_ext; [|exact E4]. intros a. cbn beta. rewrite lsum_cons. cbn [exp]. rewrite Hk. lia. }
          { intros a Ha. apply E5. cbn [n_cnt]. unfold put_cnt. destruct (a =? c); [discriminate|exact Ha]. }
  Qed.

  (** A shared node is copied, another one is kept. *)
  Lemma sim_unique : forall h t, shut t -> sim (exp t) (n_unique h t) (c_unique others h t) (fun t' => exp t') (fun t' => owned t' /\ shut t').
  Proof.
    intros h [|b p rs ks] Hsh; [apply sim_any; reflexivity|]. intros F s x c' Hok E. cbn [c_unique] in E.
    assert (Hd : 0 < F b + exp (LNode b p rs ks) b) by (cbn [exp]; unfold delta; rewrite Nat.eqb_refl; lia).
    cbn [n_unique]. unfold nbind at 1. rewrite (unique_ok _ _ _ Hok Hd). destruct (shared b) eqn:Es; cbn [negb].
    - pose proof (proj1 Hsh Es) as Hks.
      destruct (increment_all_ok ks s _ Hok Hks) as (s1 & E1 & E2 & E3 & E4 & E5). unfold nbind at 1. rewrite E1.
      unfold cbind in E. destruct (c_alloc h (n_c s)) as [[a' c1]| |] eqn:Ea; try discriminate. injection E as <- <-.
      destruct (sim_alloc h (fun a => F a + exp (LNode b p rs ks) a + kexp ks a) s1 a' c1) as (s2 & G1 & G2 & G3 & G4 & G5 & G6).
      { eapply ok_ext; [|exact E4]. intros a. cbn beta. lia. }
      { rewrite E2. exact Ea. }
      unfold nbind at 1. rewrite G1.
      assert (Hb : base b <> 0) by (rewrite <- shared_base; congruence).
      assert (Hab : a' <> b) by (intros ->; congruence).
      assert (Hd2 : delta b b = 1) by (unfold delta; rewrite Nat.eqb_refl; reflexivity).
      assert (Hd3 : delta a' b = 0) by (unfold delta; destruct (b =? a') eqn:Eb; [apply Nat.eqb_eq in Eb; congruence|reflexivity]).
      pose proof (get_ok _ _ b G4 ltac:(cbn [exp]; rewrite Hd2; lia)) as Eg. cbn beta in Eg. cbn [exp] in Eg. rewrite Es in Eg.
      unfold nbind at 1. cbn [n_drop]. unfold nbind at 1. unfold n_decrement, nbind at 1. rewrite Eg.
      destruct (base b + _ =? 0) eqn:E0; [apply Nat.eqb_eq in E0; lia|]. unfold nbind, n_set, nret. destruct (base b + _ =? 1) eqn:E1'; [apply Nat.eqb_eq in E1'; lia|].
      eexists. split; [reflexivity|]. cbn [n_c n_freed n_cnt]. split; [exact G2|]. split; [congruence|]. split.
      { eapply put_ok; [exact G4| |exact Hb|lia]. intros a. cbn beta. cbn [exp]. rewrite Es, G5. destruct (a =? b) eqn:Eab.
        - apply Nat.eqb_eq in Eab. subst a. rewrite Hd2. lia.
        - assert (delta b a = 0) by (unfold delta; rewrite Eab; reflexivity). lia. }
      split; [split; [exact G5|]|].
      { apply shut_node; [congruence|]. exact (shut_kids _ _ _ _ Hsh). }
      { intros a Ha. unfold put_cnt. destruct (a =? b); [discriminate|]. apply G6, E5, Ha. }
    - injection E as <- <-. exists s. split; [reflexivity|]. split; [reflexivity|]. split; [reflexivity|]. split; [exact Hok|]. split; [split; [exact Es|exact Hsh]|auto].
  Qed.

  Lemma sim_fix_par : forall p t, sim (exp t) (n_fix_par p t) (c_fix_par others p t) (fun t' => exp t') (fun t' => like t t').
  Proof.
    intros p [|b q rs ks].
    - apply sim_ret; [split; auto|reflexivity].
    - intros F s x c' Hok E. cbn [c_fix_par] in E.
      assert (Hd : 0 < F b + exp (LNode b q rs ks) b) by (cbn [exp]; unfold delta; rewrite Nat.eqb_refl; lia).
      cbn [n_fix_par]. unfold nbind. rewrite (unique_ok _ _ _ Hok Hd). destruct (shared b) eqn:Es; cbn [negb].
      + injection E as <- <-. exists s. split; [reflexivity|]. split; [reflexivity|]. split; [reflexivity|]. split; [exact Hok|]. split; [split; auto|auto].
      + destruct (sim_set_par (exp (LNode b q rs ks)) p (LNode b q rs ks) F s x c' Hok E) as (s' & E1 & E2 & E3 & E4 & E5 & E6).
        exists s'. split; [exact E1|]. split; [exact E2|]. split; [exact E3|]. subst x. split; [exact E4|]. split; [split; auto|exact E6].
  Qed.
  Lemma sim_fix_pars : forall ts a i, sim (fun b => kexp ts b) (n_fix_pars a i ts) (c_fix_pars others a i ts) (fun ts' b => kexp ts' b) (fun ts' => forall b, kexp ts' b = kexp ts b).
  Proof.
    induction ts as [|t ts IH]; intros a i; cbn [n_fix_pars c_fix_pars]; [apply sim_ret; auto|].
    eapply (sim_bind' (fun b => kexp ts b)); [apply sim_fix_par|intros b; rewrite lsum_cons; lia|]. intros t1 [Ht1 _].
    eapply (sim_bind' (exp t1)); [apply IH|intros b; cbn beta; lia|]. intros ts1 Hts1. apply sim_ret; intros b; rewrite !lsum_cons; [rewrite Ht1, Hts1|]; reflexivity.
  Qed.

  Lemma kexp_replace : forall ks c k k' a, nth_error ks c = Some k -> kexp (replace_at c k' ks) a + exp k a = kexp ks a + exp k' a.
  Proof.
    induction ks as [|x ks IH]; intros [|c] k k' a E; try discriminate; cbn [nth_error] in E.
    - injection E as ->. rewrite replace_at_0, !lsum_cons. lia.
    - rewrite replace_at_S, !lsum_cons. specialize (IH c k k' a E). lia.
  Qed.
  Lemma kexp_nth : forall ks c k a, nth_error ks c = Some k -> exp k a <= kexp ks a.
  Proof. induction ks as [|x ks IH]; intros [|c] k a E; try discriminate; cbn [nth_error] in E; rewrite lsum_cons; [injection E as ->; lia|specialize (IH c k a E); lia]. Qed.

  (** ** The search *)
  Fixpoint ownp (t : ltree) (p : list nat) : Prop :=
    owned t /\ match p with [] => True | c :: p' => forall k, nth_error (l_kids t) c = Some k -> ownp k p' end.
  Lemma ownp_prefix : forall p u t, ownp t (p ++ u) -> ownp t p.
  Proof. induction p as [|c p IH]; intros u t H; [destruct u; split; [exact (proj1 H)|exact Logic.I|exact (proj1 H)|exact Logic.I]|]. destruct H as [H1 H2]. split; [exact H1|]. intros k Hk. exact (IH u k (H2 k Hk)). Qed.

  (** The pointers in [t] but for those below its child [c]. *)
  Definition rest (t : ltree) (c : nat) (a : addr) : nat :=
    match t with LNil => 0 | LNode b _ _ ks => delta b a + kexp (replace_at c LNil ks) a end.
  Lemma exp_rest : forall t c k a, owned t -> nth_error (l_kids t) c = Some k -> exp t a = rest t c a + exp k a.
  Proof.
    intros [|b p rs ks] c k a Ho E; [destruct Ho|]. cbn [owned l_kids] in *. cbn [exp rest]. rewrite Ho. pose proof (kexp_replace ks c k LNil a E) as Q. cbn [exp] in Q. lia.
  Qed.
  Lemma sim_set_child : forall w t c ch, owned t -> sim w (lift (c_set_child t c ch)) (c_set_child t c ch) (fun _ => w)
    (fun t' => owned t' /\ (forall a, exp t' a = rest t c a + exp ch a) /\ (exists a p rs ks, t = LNode a p rs ks /\ c < length ks /\ t' = LNode a p rs (replace_at c ch ks))).
  Proof.
    intros w [|b p rs ks] c ch Ho; [destruct Ho|]. cbn [owned] in Ho. apply sim_lift; cbn [c_set_child].
    - destruct (_ <? _); [apply quiet_ret|apply quiet_ub].
    - intros s x c' E. destruct (c <? length ks) eqn:El; [|discriminate]. injection E as <- <-. apply Nat.ltb_lt in El.
      destruct (nth_error ks c) as [k|] eqn:Ek; [|apply nth_error_None in Ek; lia]. split; [exact Ho|]. split; [|exists b, p, rs, ks; auto].
      intros a. cbn [exp rest]. rewrite Ho. pose proof (kexp_replace ks c k LNil a Ek) as Q1. pose proof (kexp_replace ks c k ch a Ek) as Q2. cbn [exp] in Q1. lia.
  Qed.

  Lemma forall_replace : forall {T} (P : T -> Prop) l c x, Forall P l -> P x -> Forall P (replace_at c x l).
  Proof.
    intros T P. induction l as [|y l IH]; intros c x H Hx; [destruct c; constructor; auto|]; inversion H as [|? ? H1 H2]; subst.
    destruct c as [|c]; [rewrite replace_at_0; constructor; auto|rewrite replace_at_S; constructor; auto].
  Qed.
  Lemma nth_forall : forall {T} (P : T -> Prop) l c x, Forall P l -> nth_error l c = Some x -> P x.
  Proof. intros T P l c x H E. rewrite Forall_forall in H. apply H. eapply nth_error_In; eassumption. Qed.
  Lemma replace_nth : forall {T} (l : list T) c x, c < length l -> nth_error (replace_at c x l) c = Some x.
  Proof. induction l as [|y l IH]; intros [|c] x H; cbn [length] in H; try lia; [reflexivity|]. rewrite replace_at_S. cbn [nth_error]. apply IH. lia. Qed.

  Lemma sim_down : forall p h t, owned t -> shut t -> sim (exp t) (n_down h t p) (c_down others h t p) (fun t' => exp t') (fun t' => owned t' /\ shut t' /\ ownp t' p).
  Proof.
    induction p as [|c p IH]; intros h t Ho Hs; cbn [n_down c_down]; [apply sim_ret; [repeat split; auto|reflexivity]|].
    eapply sim_bind; [apply sim_addr|]. intros a Ha. eapply sim_bind; [apply sim_child|]. intros ch Ech.
    destruct t as [|b q rs ks]; [destruct Ho|]. subst a. cbn [l_kids] in Ech. pose proof (shut_kids _ _ _ _ Hs) as Hsk.
    eapply (sim_bind' (rest (LNode b q rs ks) c)); [apply sim_unique; exact (nth_forall _ _ _ _ Hsk Ech)|intros a; apply exp_rest; assumption|].
    intros ch1 [Ho1 Hs1]. eapply sim_bind; [apply sim_touch|]. intros ? _. eapply sim_bind; [apply sim_set_par|]. intros ch2 E2.
    destruct ch1 as [|b1 q1 rs1 ks1]; [destruct Ho1|]. subst ch2. cbn [owned] in Ho1.
    eapply (sim_bind' (rest (LNode b q rs ks) c)); [apply (IH (h - 1) (LNode b1 (Some (b, c)) rs1 ks1)); [exact Ho1|exact Hs1]|intros a; reflexivity|].
    intros ch3 (Ho3 & Hs3 & Hp3).
    eapply sim_ext; [apply sim_set_child; exact Ho|reflexivity| |].
    - intros t' (Ho' & _ & (a' & p' & rs' & ks' & Et & Hc & ->)). injection Et as <- <- <- <-. split; [exact Ho'|]. split.
      + apply shut_node; [cbn [owned] in Ho; congruence|]. apply forall_replace; auto.
      + split; [exact Ho'|]. cbn [l_kids]. intros k Ek. rewrite replace_nth in Ek by exact Hc. injection Ek as <-. exact Hp3.
    - intros t' a (_ & Ht' & _). cbn beta. rewrite Ht'. reflexivity.
  Qed.
  Lemma sim_find : forall p h t, shut t -> sim (exp t) (n_find h t p) (c_find others h t p) (fun t' => exp t') (fun t' => owned t' /\ ownp t' p).
  Proof.
    intros p h t Hs. unfold n_find, c_find. eapply sim_bind; [apply sim_unique; exact Hs|]. intros t1 [Ho1 Hs1].
    eapply sim_bind; [apply sim_set_par|]. intros t2 E2. destruct t1 as [|b1 q1 rs1 ks1]; [destruct Ho1|]. subst t2.
    eapply sim_ext; [apply (sim_down p h (LNode b1 None rs1 ks1)); [exact Ho1|exact Hs1]|reflexivity|intros x (? & _ & ?); split; assumption|reflexivity].
  Qed.

  (** ** The way up *)
  Definition sexp (st : cupstate) (a : addr) : nat := match st with CDone n => exp n a | CBubble l r => exp l a + exp r a end.
  Definition sown (st : cupstate) : Prop := match st with CDone n => owned n | CBubble l r => owned l /\ owned r end.

  Lemma sim_split : forall h t m, owned t -> sim (exp t) (n_split h t m) (c_split others h t m) (fun x a => exp (fst x) a + exp (snd x) a) (fun x => owned (fst x) /\ owned (snd x)).
  Proof.
    intros h [|b p rs ks] m Ho; [destruct Ho|]. cbn [owned] in Ho. cbn [n_split c_split]. destruct (_ <=? m); [apply sim_ub|].
    eapply sim_bind; [apply sim_touch|]. intros ? _.
    eapply (sim_bind' (exp (LNode b p rs ks))); [apply sim_alloc|intros a; cbn beta; lia|]. intros a' Ha'.
    eapply (sim_bind' (fun a => delta b a + delta a' a + kexp (firstn (m + 1) ks) a)); [apply sim_fix_pars| |].
    - intros a. cbn beta. cbn [exp]. rewrite Ho. rewrite <- (firstn_skipn (m + 1) ks) at 1. rewrite lsum_app. lia.
    - intros ks' _. apply sim_ret; [split; [exact Ho|exact Ha']|]. intros a. cbn [fst snd exp]. rewrite Ho, Ha'. lia.
  Qed.
  Lemma sim_insert_key_and_child : forall t k ch, owned t -> sim (fun a => exp t a + exp ch a) (n_insert_key_and_child M t k ch) (c_insert_key_and_child M others t k ch) (fun x => exp x) owned.
  Proof.
    intros [|b p rs ks] k ch Ho; [destruct Ho|]. cbn [owned] in Ho. cbn [n_insert_key_and_child c_insert_key_and_child]. destruct (_ || _); [apply sim_ub|].
    eapply sim_bind; [apply sim_touch|]. intros ? _.
    eapply (sim_bind' (fun a => delta b a + kexp (firstn (k + 1) ks) a)); [apply sim_fix_pars| |].
    - intros a. cbn beta. cbn [exp]. rewrite Ho, lsum_cons. rewrite <- (firstn_skipn (k + 1) ks) at 1. rewrite lsum_app. lia.
    - intros ks' _. apply sim_ret; [exact Ho|]. intros a. cbn [exp]. rewrite Ho, lsum_app. lia.
  Qed.
  Lemma sim_push_key_and_child : forall t ch, owned t -> sim (fun a => exp t a + exp ch a) (n_push_key_and_child M t ch) (c_push_key_and_child M others t ch) (fun x => exp x) owned.
  Proof.
    intros [|b p rs ks] ch Ho; [destruct Ho|]. cbn [owned] in Ho. unfold n_push_key_and_child, c_push_key_and_child. destruct (_ <=? _); [apply sim_ub|].
    eapply sim_bind; [apply sim_touch|]. intros ? _.
    eapply (sim_bind' (exp (LNode b p rs ks))); [apply sim_fix_par|reflexivity|].
    intros ch' _. apply sim_ret; [exact Ho|]. intros a. cbn [exp]. rewrite Ho, lsum_app, lsum_cons. cbn [lsum fold_right]. lia.
  Qed.
  Lemma sim_replace_first : forall w t ch, owned t -> owned ch -> sim w (lift (c_replace_first_child t ch)) (c_replace_first_child t ch) (fun _ => w)
    (fun x => owned (fst x) /\ forall a, exp (fst x) a + exp (snd x) a = exp t a + exp ch a).
  Proof.
    intros w [|b p rs [|c0 ks]] ch Ho Hc; [destruct Ho|apply sim_any; reflexivity|]. cbn [owned] in Ho. apply sim_lift.
    - cbn [c_replace_first_child]. apply quiet_bind; [apply quiet_touch|intros _]. apply quiet_bind; [apply quiet_set_par|intros; apply quiet_ret].
    - intros s x c' E. destruct ch as [|b1 p1 rs1 ks1]; [destruct Hc|]. cbn [c_replace_first_child c_set_par] in E. invb E. cbn [fst snd].
      split; [exact Ho|]. intros a. cbn [exp]. rewrite Ho, !lsum_cons. cbn [exp]. lia.
  Qed.
  Lemma sim_make_new_parent : forall h l r, owned l -> owned r -> sim (fun a => exp l a + exp r a) (n_make_new_parent h l r) (c_make_new_parent h l r) (fun x => exp x) owned.
  Proof.
    intros h l r Hl Hr. unfold n_make_new_parent, c_make_new_parent. destruct (l_par l); [apply sim_ub|]. destruct (l_par r); [apply sim_ub|].
    eapply (sim_bind' (fun a => exp l a + exp r a)); [apply sim_alloc|intros a; cbn beta; lia|]. intros b Hb.
    eapply sim_bind; [apply sim_set_par|]. intros l' ->. eapply sim_bind; [apply sim_set_par|]. intros r' ->. apply sim_ret; [exact Hb|].
    intros a. destruct l; [destruct Hl|]. destruct r; [destruct Hr|]. cbn [exp]. rewrite Hb, !lsum_cons. cbn [lsum fold_right exp]. lia.
  Qed.
  Lemma sim_bubble : forall h t c rhs, owned t -> owned rhs -> sim (fun a => exp t a + exp rhs a) (n_bubble_step M h t c rhs) (c_bubble_step M others h t c rhs) sexp sown.
  Proof.
    intros h t c rhs Ho Hr. unfold n_bubble_step, c_bubble_step. destruct (_ <? 2 * M).
    - eapply sim_bind; [apply sim_insert_key_and_child; exact Ho|]. intros t1 H1. apply sim_ret; [exact H1|reflexivity].
    - eapply (sim_bind' (exp rhs)); [apply sim_split; exact Ho|intros a; cbn beta; lia|]. intros [p0 r0] [Hp0 Hr0]. cbn [fst snd] in *.
      destruct (negb (c =? M)); [destruct (M <? c)|].
      + eapply (sim_bind' (exp p0)); [apply (sim_insert_key_and_child r0 _ rhs); exact Hr0|intros a; cbn beta; lia|]. intros i1 H1. apply sim_ret; [split; assumption|reflexivity].
      + eapply (sim_bind' (exp r0)); [apply (sim_insert_key_and_child p0 _ rhs); exact Hp0|intros a; cbn beta; lia|]. intros i1 H1. apply sim_ret; [split; assumption|]. intros a. cbn [sexp]. lia.
      + eapply sim_bind; [apply sim_replace_first; [exact Hr0|exact Hr]|]. intros [r1 c0] [Hr1 Eq]. cbn [fst snd] in *.
        eapply (sim_bind' (exp r1)); [apply (sim_push_key_and_child p0 c0); exact Hp0|intros a; specialize (Eq a); cbn beta in *; cbn [fst snd] in *; lia|]. intros p1 H1. apply sim_ret; [split; assumption|].
        intros a. cbn [sexp]. lia.
  Qed.
  Lemma sim_up_step : forall h t c st, owned t -> sown st -> sim (fun a => rest t c a + sexp st a) (n_up_step M h t c st) (c_up_step M others h t c st) sexp sown.
  Proof.
    intros h t c st Ho Hst. unfold n_up_step, c_up_step. eapply sim_bind; [apply sim_addr|]. intros b _. destruct st as [n|l r].
    - eapply sim_bind; [apply sim_into_parent|]. intros ? _. eapply sim_bind; [apply sim_touch|]. intros ? _.
      eapply sim_bind; [apply sim_set_child; exact Ho|]. intros t1 (H1 & E1 & _). apply sim_ret; [exact H1|]. intros a. cbn [sexp]. rewrite E1. reflexivity.
    - destruct Hst as [Hl Hr]. eapply sim_bind; [apply sim_into_parent|]. intros ? _. eapply sim_bind; [apply sim_set_child; exact Ho|]. intros t1 (H1 & E1 & _).
      eapply sim_ext; [apply sim_bubble; [exact H1|exact Hr]| |auto|auto]. intros a. cbn [sexp]. rewrite E1. lia.
  Qed.
  Lemma sim_upd : forall f cf, (forall t, owned t -> sim (exp t) (f t) (cf t) sexp sown) -> forall p h t, ownp t p ->
    sim (exp t) (n_upd M f h t p) (c_upd M others cf h t p) sexp sown.
  Proof.
    intros f cf Hf. induction p as [|c p IH]; intros h t [Ho Hp]; cbn [n_upd c_upd]; [apply Hf; exact Ho|].
    eapply sim_bind; [apply sim_child|]. intros ch Ech.
    eapply (sim_bind' (rest t c)); [apply (IH (h - 1) ch); exact (Hp ch Ech)|intros a; apply exp_rest; assumption|].
    intros st Hst. apply sim_up_step; assumption.
  Qed.
  Lemma sim_finish : forall h st, sown st -> sim (sexp st) (n_finish_root h st) (c_finish_root h st) (fun x => exp x) owned.
  Proof.
    intros h [n|l r] Hst; cbn [n_finish_root c_finish_root].
    - destruct (l_par n); [apply sim_ub|]. apply sim_ret; [exact Hst|reflexivity].
    - destruct Hst. apply sim_make_new_parent; assumption.
  Qed.

  (** ** At the leaf *)
  Lemma sim_opt_insert : forall w (b : bool) t k, sim w (if b then lift (c_insert_key M t k) else nret t) (if b then c_insert_key M t k else cret t) (fun _ => w) (like t).
  Proof. intros w [|] t k; [apply sim_insert_key|apply sim_ret; [split; auto|reflexivity]]. Qed.

  Lemma sim_small : forall t k, owned t -> sim (exp t) (n_split_leaf_small_m M t k) (c_split_leaf_small_m M others t k) sexp sown.
  Proof.
    intros t k Ho. unfold n_split_leaf_small_m, c_split_leaf_small_m. destruct (_ || _); [apply sim_ub|].
    eapply sim_bind; [apply sim_split; exact Ho|]. intros [n0 r0] [Hn Hr]. cbn [fst snd] in *.
    eapply sim_bind; [apply sim_push_key|]. intros n1 [E1 H1]. eapply sim_bind; [apply sim_push_key|]. intros r1 [E2 H2].
    apply sim_ret; [split; auto|]. intros a. cbn [sexp]. rewrite E1, E2. reflexivity.
  Qed.
  Lemma sim_split_leaf : forall t k hs, owned t -> sim (exp t) (n_split_leaf M t k hs) (c_split_leaf M others t k hs) sexp sown.
  Proof.
    intros t k hs Ho. unfold n_split_leaf, c_split_leaf. destruct (_ && _); [destruct hs; [apply sim_small; exact Ho|apply sim_ub]|].
    destruct (choose_split M k (l_len t) hs) as [m ins].
    eapply sim_bind; [apply sim_split; exact Ho|]. intros [n0 r0] [Hn Hr]. cbn [fst snd] in *.
    destruct ins as [[|]|[|]].
    - eapply sim_bind; [apply sim_insert_key|]. intros i1 [E1 H1]. eapply sim_bind; [apply sim_opt_insert|]. intros i2 [E2 H2].
      apply sim_ret; [split; auto|]. intros a. cbn [sexp]. rewrite E2, E1. reflexivity.
    - cbn zeta. eapply sim_bind; [apply sim_insert_key|]. intros i1 [E1 H1]. eapply sim_bind; [apply sim_opt_insert|]. intros i2 [E2 H2].
      apply sim_ret; [split; auto|]. intros a. cbn [sexp]. rewrite E2, E1. reflexivity.
    - destruct hs; [|apply sim_ub]. eapply sim_bind; [apply sim_push_key|]. intros n1 [E1 H1]. eapply sim_bind; [apply sim_push_key|]. intros n2 [E2 H2].
      apply sim_ret; [split; auto|]. intros a. cbn [sexp]. rewrite E2, E1. reflexivity.
    - eapply sim_bind; [apply sim_push_key|]. intros n1 [E1 H1]. eapply sim_bind; [apply sim_opt_insert|]. intros r1 [E2 H2].
      apply sim_ret; [split; auto|]. intros a. cbn [sexp]. rewrite E2, E1. reflexivity.
  Qed.
  Lemma sim_leaf : forall k hs t, owned t -> sim (exp t) (n_no_join_leaf M k hs t) (c_no_join_leaf M others k hs t) sexp sown.
  Proof.
    intros k hs t Ho. unfold n_no_join_leaf, c_no_join_leaf. destruct (_ <? k); [apply sim_ub|]. destruct (_ <=? _); [apply sim_split_leaf; exact Ho|].
    eapply sim_bind; [apply sim_insert_key|]. intros t1 [E1 H1]. eapply sim_bind; [apply sim_opt_insert|]. intros t2 [E2 H2].
    apply sim_ret; [cbn [sown]; auto|]. intros a. cbn [sexp]. rewrite E2, E1. reflexivity.
  Qed.
  Lemma sim_join : forall k t, owned t -> sim (exp t) (n_join_key k t) (c_join_key k t) sexp sown.
  Proof.
    intros k t Ho. unfold n_join_key. eapply sim_ext; [apply (sim_lift (exp t) _ (fun st => st = CDone t))|reflexivity| |].
    - unfold c_join_key. destruct (_ <=? _); [apply quiet_ub|]. apply quiet_bind; [destruct t; [apply quiet_ub|apply quiet_ret]|]. intros b. apply quiet_bind; [apply quiet_touch|intros; apply quiet_ret].
    - intros s x c' E. unfold c_join_key in E. destruct t as [|b p rs ks]; [destruct Ho|]. cbn [c_addr] in E. invb E. reflexivity.
    - intros x ->. exact Ho.
    - intros x a ->. reflexivity.
  Qed.

  (** ** A whole insertion *)
  Definition plan_path (pl : plan) (fp : list nat) : Prop :=
    match pl with PJoin p _ => exists u, fp = p ++ u | PEdge p _ => fp = p | _ => True end.
  Lemma sim_run_plan : forall h pl fp t, shut t -> (pl = PNew -> t = LNil) -> plan_path pl fp -> sim (exp t) (n_run_plan M h pl fp t) (c_run_plan M others h pl fp t) (fun x => exp x) owned.
  Proof.
    intros h [|p k|p k|p hk k two lj] fp t Hs Hn Hp; cbn [n_run_plan c_run_plan plan_path] in *.
    - rewrite (Hn eq_refl). eapply (sim_bind' (fun _ => 0)); [apply sim_alloc|reflexivity|]. intros b Hb. apply sim_ret; [exact Hb|]. intros a. cbn [exp]. rewrite Hb. cbn [lsum fold_right exp]. lia.
    - destruct Hp as [u ->]. eapply sim_bind; [apply sim_find; exact Hs|]. intros t1 [_ H1]. apply ownp_prefix in H1.
      eapply sim_bind; [apply sim_upd; [apply sim_join|exact H1]|]. intros st Hst. apply sim_finish; exact Hst.
    - subst fp. eapply sim_bind; [apply sim_find; exact Hs|]. intros t1 [_ H1].
      eapply sim_bind; [apply sim_upd; [apply sim_leaf|exact H1]|]. intros st Hst. apply sim_finish; exact Hst.
    - destruct (rhs_path p hk k) as [q j]. eapply sim_bind; [apply sim_find; exact Hs|]. intros t1 [_ H1].
      eapply sim_bind; [apply sim_upd; [apply sim_leaf|exact H1]|]. intros st Hst. apply sim_finish; exact Hst.
  Qed.

  (** ** Dropping *)
  Fixpoint own_list (t : ltree) : list addr :=
    match t with LNil => [] | LNode b _ _ ks => if shared b then [] else b :: flat_map own_list ks end.
  Fixpoint lsize (t : ltree) : nat := match t with LNil => 0 | LNode _ _ _ ks => S (lsum lsize ks) end.

  Lemma drop_ok : forall n t F s, lsize t < n -> ok s (fun a => F a + exp t a) ->
    exists s', n_drop t s = Ok (tt, s') /\ n_freed s' = rev (own_list t) ++ n_freed s /\ ok s' F.
  Proof.
    induction n as [|n IH]; intros t F s Hn Hok; [lia|]. destruct t as [|b p rs ks]; cbn [n_drop own_list].
    - exists s. split; [reflexivity|]. split; [reflexivity|]. eapply ok_ext; [|exact Hok]. intros a. cbn. lia.
    - cbn [lsize] in Hn. assert (Hd : 0 < F b + exp (LNode b p rs ks) b) by (cbn [exp]; unfold delta; rewrite Nat.eqb_refl; lia).
      pose proof (get_ok _ _ b Hok Hd) as Eg. cbn beta in Eg. unfold nbind at 1. unfold n_decrement, nbind at 1. rewrite Eg.
      assert (Hd2 : delta b b = 1) by (unfold delta; rewrite Nat.eqb_refl; reflexivity).
      destruct (base b + _ =? 0) eqn:E0; [apply Nat.eqb_eq in E0; lia|]. unfold nbind at 1, n_set, nret. destruct (shared b) eqn:Es.
      + assert (Hb : base b <> 0) by (rewrite <- shared_base; congruence). cbn [exp] in *. rewrite Es in *.
        destruct (base b + _ =? 1) eqn:E1; [apply Nat.eqb_eq in E1; lia|]. eexists. split; [reflexivity|]. cbn [n_freed rev app]. split; [reflexivity|].
        eapply put_ok; [exact Hok| |exact Hb|lia]. intros a. cbn beta. rewrite Hd2. destruct (a =? b) eqn:Ea; [apply Nat.eqb_eq in Ea; subst a; lia|]. unfold delta. rewrite Ea. lia.
      + pose proof Es as Hb. apply shared_base in Hb. pose proof (ok_one _ _ Hok b Hb) as H1. cbn beta in H1.
        destruct (base b + _ =? 1) eqn:E1; [|apply Nat.eqb_neq in E1; lia]. rewrite Hb in *.
        unfold nbind at 1, n_dealloc, nbind, n_get. cbn [n_cnt]. unfold put_cnt at 1. rewrite Nat.eqb_refl. unfold n_set. cbn [n_c n_cnt n_freed].
        match goal with |- context [_ ks ?z] => set (s0 := z) end.
        assert (Hok0 : ok s0 (fun a => F a + kexp ks a)).
        { pose proof Hok as [K1 K2 K3 K4]. cbn [exp] in *. rewrite Es in *. rewrite Hd2 in H1.
          assert (Z0 : F b + kexp ks b = 0) by lia. subst s0. constructor; cbn [n_c n_cnt]; auto.
          - intros a. unfold put_cnt. destruct (a =? b) eqn:Ea.
            + apply Nat.eqb_eq in Ea. subst a. rewrite Hb, Z0. reflexivity.
            + rewrite K1. f_equal. unfold delta. rewrite Ea. lia.
          - intros a Ha. specialize (K2 a Ha). lia.
          - intros i Hi. destruct (K4 i Hi). split; [assumption|lia]. }
        assert (Hf0 : n_freed s0 = b :: n_freed s) by reflexivity.
        assert (G : forall ks F s, lsum lsize ks < n -> ok s (fun a => F a + kexp ks a) ->
          exists s', (fix go (ks : list ltree) : nm unit := match ks with [] => nret tt | k :: ks' => nbind (n_drop k) (fun _ => go ks') end) ks s = Ok (tt, s') /\
            n_freed s' = rev (flat_map own_list ks) ++ n_freed s /\ ok s' F).
        { clear - IH. induction ks as [|k ks IHk]; intros F s Hl Hok.
          - exists s. split; [reflexivity|]. split; [reflexivity|]. eapply ok_ext; [|exact Hok]. intros a. cbn. lia.
          - rewrite lsum_cons in Hl. destruct (IH k (fun a => F a + kexp ks a) s ltac:(lia)) as (s1 & E1 & E2 & E3).
            { eapply ok_ext; [|exact Hok]. intros a. cbn beta. rewrite lsum_cons. lia. }
            destruct (IHk F s1 ltac:(lia) E3) as (s2 & G1 & G2 & G3). exists s2. unfold nbind at 1. rewrite E1. split; [exact G1|].
            split; [|exact G3]. rewrite G2, E2. cbn [flat_map]. rewrite rev_app_distr, app_assoc. reflexivity. }
        destruct (G ks F s0 ltac:(lia) Hok0) as (s' & G1 & G2 & G3). exists s'. split; [exact G1|]. split; [|exact G3].
        rewrite G2, Hf0. cbn [rev]. rewrite <- app_assoc. reflexivity.
  Qed.
End P.
