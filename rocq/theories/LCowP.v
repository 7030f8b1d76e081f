(** Node operations of insertion into shared trees, on both sides.  Proof support only. *)
From Coq Require Import List Bool Arith Lia.
From Verif Require Import Base Index Slice Tree Insert Zip LTree LInsert LRef LCow LCowG.
Import ListNotations.

Lemma cbind_ok : forall {A B} (m : cm A) (k : A -> cm B) s a s1, m s = Ok (a, s1) -> cbind m k s = k a s1.
Proof. intros A B m k s a s1 H. unfold cbind. rewrite H. reflexivity. Qed.

Definition cnt (x : addr) (t : ltree) : nat := count_occ Nat.eq_dec (laddrs t) x.
Definition cntl (x : addr) (ks : list ltree) : nat := count_occ Nat.eq_dec (flat_map laddrs ks) x.
Definition fc (x : addr) (s : cst) : nat := count_occ Nat.eq_dec (map fst (k_log s)) x.
Definition b1 (x a : addr) : nat := if Nat.eq_dec a x then 1 else 0.

Lemma cnt_node : forall x a p rs ks, cnt x (LNode a p rs ks) = b1 x a + cntl x ks.
Proof. intros. unfold cnt, cntl, b1. cbn [laddrs count_occ]. destruct (Nat.eq_dec a x); lia. Qed.
Lemma cntl_nil : forall x, cntl x [] = 0.
Proof. reflexivity. Qed.
Lemma cntl_app : forall x a b, cntl x (a ++ b) = cntl x a + cntl x b.
Proof. intros. unfold cntl. rewrite flat_map_app, count_occ_app. reflexivity. Qed.
Lemma cntl_cons : forall x t l, cntl x (t :: l) = cnt x t + cntl x l.
Proof. intros. unfold cntl, cnt. cbn [flat_map]. rewrite count_occ_app. reflexivity. Qed.
Lemma cnt_nil : forall x, cnt x LNil = 0.
Proof. reflexivity. Qed.
Lemma cntl_split : forall x n ks, cntl x ks = cntl x (firstn n ks) + cntl x (skipn n ks).
Proof. intros. rewrite <- (firstn_skipn n ks) at 1. apply cntl_app. Qed.
Lemma cntl_replace : forall x c k ks n, nth_error ks c = Some k -> cntl x (replace_at c n ks) + cnt x k = cntl x ks + cnt x n.
Proof.
  intros x c k ks n H. apply nth_error_split in H. destruct H as (a & b & -> & <-). unfold replace_at.
  rewrite skipn_app_len, firstn_app_len. rewrite !cntl_app, !cntl_cons. lia.
Qed.
Lemma cntl_insert : forall x i t ks, cntl x (insert_at i t ks) = cntl x ks + cnt x t.
Proof. intros. unfold insert_at. rewrite cntl_app, cntl_cons, (cntl_split x i ks). lia. Qed.

Lemma f2_app : forall {A B} (R : A -> B -> Prop) a b c d, Forall2 R a b -> Forall2 R c d -> Forall2 R (a ++ c) (b ++ d).
Proof. intros. apply Forall2_app; assumption. Qed.
Lemma f2_firstn : forall {A B} (R : A -> B -> Prop) n a b, Forall2 R a b -> Forall2 R (firstn n a) (firstn n b).
Proof. intros A B R n a b H. revert n. induction H; intros [|n]; cbn; constructor; auto. Qed.
Lemma f2_skipn : forall {A B} (R : A -> B -> Prop) n a b, Forall2 R a b -> Forall2 R (skipn n a) (skipn n b).
Proof. intros A B R n a b H. revert n. induction H; intros [|n]; cbn; auto. Qed.
Lemma f2_replace : forall {A B} (R : A -> B -> Prop) c x y a b, Forall2 R a b -> R x y -> Forall2 R (replace_at c x a) (replace_at c y b).
Proof.
  intros A B R c x y a b H Hx. revert c. induction H as [|u v a b Huv Hab IH]; intros [|c]; cbn; try constructor; auto.
  unfold replace_at in *. cbn [skipn firstn]. specialize (IH c).
  destruct (skipn c a) eqn:Ea, (skipn c b) eqn:Eb.
  - constructor; assumption.
  - pose proof (f2_skipn R c _ _ Hab) as Q. rewrite Ea, Eb in Q. inversion Q.
  - pose proof (f2_skipn R c _ _ Hab) as Q. rewrite Ea, Eb in Q. inversion Q.
  - cbn. constructor; assumption.
Qed.
Lemma f2_insert : forall {A B} (R : A -> B -> Prop) c x y a b, Forall2 R a b -> R x y -> Forall2 R (insert_at c x a) (insert_at c y b).
Proof. intros. unfold insert_at. apply f2_app; [apply f2_firstn; assumption|]. constructor; [assumption|]. apply f2_skipn. assumption. Qed.
Lemma f2_nth : forall {A B} (R : A -> B -> Prop) a b c x, Forall2 R a b -> nth_error a c = Some x -> exists y, nth_error b c = Some y /\ R x y.
Proof. intros A B R a b c x H. revert c. induction H; intros [|c] E; try discriminate; cbn in *; [injection E as <-; eauto|eauto]. Qed.
Lemma f2_impl : forall {A B} (R Q : A -> B -> Prop) a b, (forall x y, R x y -> Q x y) -> Forall2 R a b -> Forall2 Q a b.
Proof. intros A B R Q a b H F. induction F; constructor; auto. Qed.
Lemma f2_len : forall {A B} (R : A -> B -> Prop) a b, Forall2 R a b -> length a = length b.
Proof. intros A B R a b F. induction F; cbn; congruence. Qed.

Section Own.
  Context {I V : Type} (M : nat) (others : list addr) (C0 : nat -> tree I V -> ltree -> Prop) (L0 : list (addr * nat)).
  Notation tree := (tree I V).

  Definition par_ok (L : list (addr * nat)) (h : nat) (par : option loc) : Prop := forall b i, par = Some (b, i) -> In (b, S h) L.
  Definition nilR (t : tree) (lt : ltree) : Prop := t = Nil /\ lt = LNil.

  (** A node that is in no other tree, with children [K] on the side of the contents. *)
  Definition nodeR (L : list (addr * nat)) (h : nat) (R : tree -> ltree -> Prop) (K : list tree) (lt : ltree) (par : option loc) : Prop :=
    exists a rs ks, lt = LNode a par rs ks /\ ~ In a others /\ In (a, h) L /\ par_ok L h par /\ S (length rs) = length K /\ Forall2 R K ks.
  Fixpoint J (L : list (addr * nat)) (h : nat) (t : tree) (lt : ltree) : Prop :=
    C0 h t lt \/
    exists par, nodeR L h (match h with 0 => nilR | S h' => fun t lt => J L h' t lt /\ l_par lt <> None end) (kids_of t) lt par.
  Definition KR (L : list (addr * nat)) (h : nat) : tree -> ltree -> Prop :=
    match h with 0 => nilR | S h' => fun t lt => J L h' t lt /\ l_par lt <> None end.
  Definition own (L : list (addr * nat)) (h : nat) (K : list tree) (lt : ltree) (par : option loc) : Prop := nodeR L h (KR L h) K lt par.
  Lemma J_iff : forall L h t lt, J L h t lt <-> C0 h t lt \/ exists par, own L h (kids_of t) lt par.
  Proof. intros L [|h] t lt; reflexivity. Qed.
  (** A child that may still lack its parent. *)
  Definition KP (L : list (addr * nat)) (h : nat) (t : tree) (lt : ltree) : Prop :=
    match h with 0 => nilR t lt | S h' => (C0 h' t lt /\ l_par lt <> None) \/ exists par, own L h' (kids_of t) lt par end.
  Lemma KR_KP : forall L h t lt, KR L h t lt -> KP L h t lt.
  Proof. intros L [|h] t lt H; [exact H|]. destruct H as [H Hp]. apply J_iff in H. destruct H as [H|H]; [left; auto|right; exact H]. Qed.

  Definition CK (h : nat) : tree -> ltree -> Prop :=
    match h with 0 => nilR | S h' => fun t lt => C0 h' t lt /\ l_par lt <> None end.
  (** What is known of the nodes of other trees. *)
  Hypothesis C0_open : forall h t lt, C0 h t lt -> exists a par rs ks, lt = LNode a par rs ks /\ In a others /\ In (a, h) L0 /\
    par_ok L0 h par /\ S (length rs) = length (kids_of t) /\ Forall2 (CK h) (kids_of t) ks.

  Definition Lg (s : cst) : list (addr * nat) := k_log s ++ L0.
  Definition sok (s : cst) : Prop :=
    (forall i, ~ In (k_al s i) others) /\ Forall (fun a => ~ In a others) (k_writes s) /\
    map fst (k_log s) = rev (map (k_al s) (seq 0 (k_i s))).
  Definition ext (s s' : cst) : Prop := k_al s' = k_al s /\ exists n, k_log s' = n ++ k_log s.
  Lemma ext_refl : forall s, ext s s.
  Proof. split; [reflexivity|exists []; reflexivity]. Qed.
  Lemma ext_trans : forall a b c, ext a b -> ext b c -> ext a c.
  Proof. intros a b c [A1 [n A2]] [B1 [m B2]]. split; [congruence|]. exists (m ++ n). rewrite B2, A2, app_assoc. reflexivity. Qed.
  Lemma ext_incl : forall s s', ext s s' -> incl (Lg s) (Lg s').
  Proof. intros s s' [_ [n E]] x H. unfold Lg in *. rewrite E, <- app_assoc. apply in_or_app. right. exact H. Qed.

  Lemma par_mono : forall L L' h p, incl L L' -> par_ok L h p -> par_ok L' h p.
  Proof. intros L L' h p H Hp b i E. apply H. eauto. Qed.
  Lemma J_mono : forall L L', incl L L' -> forall h t lt, J L h t lt -> J L' h t lt.
  Proof.
    intros L L' Hi. induction h as [|h IH]; intros t lt [H|(par & a & rs & ks & E & H1 & H2 & H3 & H4 & H5)]; [left; exact H|right|left; exact H|right].
    - exists par, a, rs, ks. repeat split; auto. eapply par_mono; eauto.
    - exists par, a, rs, ks. repeat split; auto; [eapply par_mono; eauto|]. revert H5. apply f2_impl. intros x y [Hx Hy]. auto.
  Qed.
  Lemma KR_mono : forall L L' h t lt, incl L L' -> KR L h t lt -> KR L' h t lt.
  Proof. intros L L' [|h] t lt Hi H; [exact H|]. destruct H as [H Hp]. split; [eapply J_mono; eauto|exact Hp]. Qed.
  Lemma own_mono : forall L L' h K lt par, incl L L' -> own L h K lt par -> own L' h K lt par.
  Proof.
    intros L L' h K lt par Hi (a & rs & ks & E & H1 & H2 & H3 & H4 & H5). exists a, rs, ks.
    repeat split; auto; [eapply par_mono; eauto|]. revert H5. apply f2_impl. intros x y. apply KR_mono. exact Hi.
  Qed.
  Lemma KP_mono : forall L L' h t lt, incl L L' -> KP L h t lt -> KP L' h t lt.
  Proof. intros L L' [|h] t lt Hi H; [exact H|]. destruct H as [H|(p & H)]; [left; exact H|right; exists p; eapply own_mono; eauto]. Qed.

  Lemma own_J : forall L h t lt par, own L h (kids_of t) lt par -> J L h t lt.
  Proof. intros. apply J_iff. right. eauto. Qed.
  Lemma own_KR : forall L h t lt l, own L h (kids_of t) lt (Some l) -> KR L (S h) t lt.
  Proof. intros L h t lt l H. split; [eapply own_J; eauto|]. destruct H as (a & rs & ks & -> & _). discriminate. Qed.

  (** ** Primitive steps *)
  Lemma shared_false : forall a, ~ In a others -> c_shared others a = false.
  Proof.
    intros a H. unfold c_shared. destruct (existsb (Nat.eqb a) others) eqn:E; [|reflexivity].
    apply existsb_exists in E. destruct E as (b & Hb & E). apply Nat.eqb_eq in E. subst. contradiction.
  Qed.
  Lemma shared_true : forall a, In a others -> c_shared others a = true.
  Proof. intros a H. unfold c_shared. apply existsb_exists. exists a. split; [exact H|apply Nat.eqb_refl]. Qed.

  Lemma touch_ok : forall a s, sok s -> ~ In a others ->
    exists s', c_touch a s = Ok (tt, s') /\ sok s' /\ ext s s' /\ k_log s' = k_log s.
  Proof.
    intros a s (H1 & H2 & H3) H. eexists. split; [reflexivity|]. split; [|split; [split; [reflexivity|exists []; reflexivity]|reflexivity]].
    split; [exact H1|]. split; [constructor; assumption|exact H3].
  Qed.
  Lemma alloc_ok_ : forall h s, sok s -> exists a s', c_alloc h s = Ok (a, s') /\ sok s' /\ ext s s' /\ ~ In a others /\
    k_log s' = (a, h) :: k_log s.
  Proof.
    intros h s (H1 & H2 & H3). eexists _, _. split; [reflexivity|]. split.
    - split; [exact H1|]. split; [exact H2|]. cbn [k_log k_al k_i map fst]. rewrite H3.
      rewrite seq_S, map_app, rev_app_distr. reflexivity.
    - split; [|split; [apply H1|reflexivity]]. split; [reflexivity|]. cbn [k_log]. eexists [_]. reflexivity.
  Qed.
  Lemma fc_same : forall x s s', k_log s' = k_log s -> fc x s' = fc x s.
  Proof. intros x s s' H. unfold fc. rewrite H. reflexivity. Qed.
  Lemma fc_alloc : forall x s s' a h, k_log s' = (a, h) :: k_log s -> fc x s' = fc x s + b1 x a.
  Proof. intros x s s' a h H. unfold fc, b1. rewrite H. cbn [map fst count_occ]. destruct (Nat.eq_dec a x); lia. Qed.
  Lemma Lg_same : forall s s', k_log s' = k_log s -> Lg s' = Lg s.
  Proof. intros s s' H. unfold Lg. rewrite H. reflexivity. Qed.

  Lemma set_par_ok : forall s h K lt par p, sok s -> own (Lg s) h K lt par -> par_ok (Lg s) h p ->
    exists lt' s', c_set_par p lt s = Ok (lt', s') /\ own (Lg s) h K lt' p /\ sok s' /\ ext s s' /\ k_log s' = k_log s /\ forall x, cnt x lt' = cnt x lt.
  Proof.
    intros s h K lt par p Hs (a & rs & ks & -> & H1 & H2 & H3 & H4 & H5) Hp. cbn [c_set_par].
    destruct (touch_ok a s Hs H1) as (s1 & E1 & S1 & X1 & G1). rewrite (cbind_ok _ _ _ _ _ E1). eexists _, s1.
    split; [reflexivity|]. split; [exists a, rs, ks; repeat split; auto|]. split; [exact S1|]. split; [exact X1|]. split; [exact G1|].
    intros x. rewrite !cnt_node. reflexivity.
  Qed.

  Lemma fix_par_ok : forall s h t lt a i, sok s -> KP (Lg s) h t lt -> In (a, h) (Lg s) ->
    exists lt' s', c_fix_par others (Some (a, i)) lt s = Ok (lt', s') /\ KR (Lg s) h t lt' /\ sok s' /\ ext s s' /\ k_log s' = k_log s /\ forall x, cnt x lt' = cnt x lt.
  Proof.
    intros s [|h] t lt a i Hs Hk Ha.
    - destruct Hk as [-> ->]. cbn [c_fix_par]. eexists _, s. split; [reflexivity|]. split; [split; reflexivity|].
      split; [exact Hs|]. split; [apply ext_refl|]. split; reflexivity.
    - destruct Hk as [[Hc Hp]|(par & Ho)].
      + destruct (C0_open _ _ _ Hc) as (b & q & rs & ks & -> & Hb & _). cbn [c_fix_par]. rewrite (shared_true _ Hb).
        eexists _, s. split; [reflexivity|]. split; [split; [apply J_iff; left; exact Hc|exact Hp]|].
        split; [exact Hs|]. split; [apply ext_refl|]. split; reflexivity.
      + pose proof Ho as (b & rs & ks & -> & Hb & _). cbn [c_fix_par]. rewrite (shared_false _ Hb).
        destruct (set_par_ok s h (kids_of t) _ par (Some (a, i)) Hs Ho) as (lt' & s' & E & O & R).
        { intros b' i' Q. injection Q as <- <-. exact Ha. }
        eexists lt', s'. split; [exact E|]. split; [eapply own_KR; eassumption|exact R].
  Qed.
  Lemma fix_pars_ok : forall h K ks s a i, sok s -> Forall2 (KP (Lg s) h) K ks -> In (a, h) (Lg s) ->
    exists ks' s', c_fix_pars others a i ks s = Ok (ks', s') /\ Forall2 (KR (Lg s) h) K ks' /\ sok s' /\ ext s s' /\ k_log s' = k_log s /\
      forall x, cntl x ks' = cntl x ks.
  Proof.
    intros h K ks s a i Hs HF Ha. revert s i Hs HF Ha. induction ks as [|k ks IH] in K |- *; intros s i Hs HF Ha; inversion HF as [|t0 lt0 K0 ks0 Hh Ht]; subst; clear HF.
    - eexists _, s. split; [reflexivity|]. split; [constructor|]. split; [exact Hs|]. split; [apply ext_refl|]. split; reflexivity.
    - cbn [c_fix_pars]. destruct (fix_par_ok s h _ k a i Hs Hh Ha) as (k' & s1 & E1 & R1 & S1 & X1 & G1 & N1).
      rewrite (cbind_ok _ _ _ _ _ E1). assert (EL : Lg s1 = Lg s) by (apply Lg_same; exact G1).
      destruct (IH K0 s1 (S i) S1) as (ks' & s2 & E2 & R2 & S2 & X2 & G2 & N2); [rewrite EL; exact Ht|rewrite EL; exact Ha|].
      rewrite (cbind_ok _ _ _ _ _ E2). rewrite EL in R2. eexists _, s2. split; [reflexivity|]. split; [constructor; assumption|].
      split; [exact S2|]. split; [eapply ext_trans; eassumption|]. split; [congruence|]. intros x. rewrite !cntl_cons, N1, N2. reflexivity.
  Qed.

  Lemma f2_KP : forall L h K ks, Forall2 (KR L h) K ks -> Forall2 (KP L h) K ks.
  Proof. intros L h K ks. apply f2_impl. intros x y. apply KR_KP. Qed.

  (** ** Operations on own nodes *)
  Lemma split_ok : forall s h K lt par m Kl Kr, sok s -> own (Lg s) h K lt par -> g_split m K = Some (Kl, Kr) ->
    exists n r s', c_split others h lt m s = Ok ((n, r), s') /\ own (Lg s') h Kl n par /\ own (Lg s') h Kr r None /\ sok s' /\ ext s s' /\
      forall x, cnt x n + cnt x r + fc x s = cnt x lt + fc x s'.
  Proof.
    intros s h K lt par m Kl Kr Hs (a & rs & ks & -> & H1 & H2 & H3 & H4 & H5) Hg. unfold g_split in Hg.
    destruct (Nat.leb_spec (length K - 1) m) as [Q|Hm]; [discriminate|]. injection Hg as <- <-. pose proof (f2_len _ _ _ H5) as Hl.
    cbn [c_split]. rewrite (proj2 (Nat.leb_gt _ _)) by lia.
    destruct (touch_ok a s Hs H1) as (s1 & E1 & S1 & X1 & G1). rewrite (cbind_ok _ _ _ _ _ E1).
    destruct (alloc_ok_ h s1 S1) as (a' & s2 & E2 & S2 & X2 & Ha' & G2). rewrite (cbind_ok _ _ _ _ _ E2).
    assert (X02 : ext s s2) by (eapply ext_trans; eassumption).
    assert (Hin : In (a', h) (Lg s2)) by (unfold Lg; rewrite G2; left; reflexivity).
    destruct (fix_pars_ok h (skipn (m + 1) K) (skipn (m + 1) ks) s2 a' 0 S2) as (ks' & s3 & E3 & R3 & S3 & X3 & G3 & N3); [|exact Hin|].
    { apply f2_skipn, f2_KP. revert H5. apply f2_impl. intros t lt. apply KR_mono. apply ext_incl. exact X02. }
    rewrite (cbind_ok _ _ _ _ _ E3). assert (EL : Lg s3 = Lg s2) by (apply Lg_same; exact G3).
    pose proof (ext_incl _ _ X02) as Hi. eexists _, _, s3. split; [reflexivity|]. split; [|split; [|split; [exact S3|split; [eapply ext_trans; eassumption|]]]].
    - rewrite EL. exists a, (firstn m rs), (firstn (m + 1) ks). repeat split; auto.
      + eapply par_mono; eassumption.
      + rewrite !firstn_length. lia.
      + apply f2_firstn. revert H5. apply f2_impl. intros t lt. apply KR_mono. exact Hi.
    - rewrite EL. exists a', (skipn (m + 1) rs), ks'. repeat split; auto; [discriminate|].
      rewrite !skipn_length. lia.
    - intros x. rewrite !cnt_node, N3, (fc_same x s2 s3 G3), (fc_alloc x s1 s2 a' h G2), (fc_same x s s1 G1), (cntl_split x (m + 1) ks). lia.
  Qed.

  Lemma insert_ok : forall s h K lt par k ch lch K', sok s -> own (Lg s) h K lt par -> KP (Lg s) h ch lch -> g_ins M k ch K = Some K' ->
    exists lt' s', c_insert_key_and_child M others lt k lch s = Ok (lt', s') /\ own (Lg s') h K' lt' par /\ sok s' /\ ext s s' /\
      forall x, cnt x lt' + fc x s = cnt x lt + cnt x lch + fc x s'.
  Proof.
    intros s h K lt par k ch lch K' Hs (a & rs & ks & -> & H1 & H2 & H3 & H4 & H5) Hk Hg. unfold g_ins in Hg.
    destruct ((length K - 1 <? k) || (2 * M <=? length K - 1)) eqn:G; [discriminate|]. injection Hg as <-. pose proof (f2_len _ _ _ H5) as Hl.
    cbn [c_insert_key_and_child]. replace (length rs) with (length K - 1) by lia. rewrite G. apply orb_false_elim in G. destruct G as [G _]. apply Nat.ltb_ge in G.
    destruct (touch_ok a s Hs H1) as (s1 & E1 & S1 & X1 & G1). rewrite (cbind_ok _ _ _ _ _ E1).
    assert (EL : Lg s1 = Lg s) by (apply Lg_same; exact G1).
    destruct (fix_pars_ok h (ch :: skipn (k + 1) K) (lch :: skipn (k + 1) ks) s1 a (k + 1) S1) as (ks' & s3 & E3 & R3 & S3 & X3 & G3 & N3).
    { rewrite EL. constructor; [exact Hk|]. apply f2_skipn, f2_KP. exact H5. }
    { rewrite EL. exact H2. }
    rewrite (cbind_ok _ _ _ _ _ E3). assert (EL3 : Lg s3 = Lg s) by (rewrite <- EL; apply Lg_same; exact G3). rewrite EL in R3.
    eexists _, s3. split; [reflexivity|]. split; [|split; [exact S3|split; [eapply ext_trans; eassumption|]]].
    - rewrite EL3. exists a, (insert_at k None rs), (firstn (k + 1) ks ++ ks'). repeat split; auto.
      + unfold insert_at. rewrite !app_length. cbn [length]. rewrite !firstn_length, !skipn_length. lia.
      + unfold insert_at. apply f2_app; [apply f2_firstn; exact H5|exact R3].
    - intros x. rewrite !cnt_node, cntl_app, N3, cntl_cons, (fc_same x s1 s3 G3), (fc_same x s s1 G1), (cntl_split x (k + 1) ks). lia.
  Qed.

  Lemma insert_key_ok : forall s K lt par k K', sok s -> own (Lg s) 0 K lt par -> g_ins M k Nil K = Some K' ->
    exists lt' s', c_insert_key M lt k s = Ok (lt', s') /\ own (Lg s') 0 K' lt' par /\ sok s' /\ ext s s' /\
      forall x, cnt x lt' + fc x s = cnt x lt + fc x s'.
  Proof.
    intros s K lt par k K' Hs (a & rs & ks & -> & H1 & H2 & H3 & H4 & H5) Hg. unfold g_ins in Hg.
    destruct ((length K - 1 <? k) || (2 * M <=? length K - 1)) eqn:G; [discriminate|]. injection Hg as <-. pose proof (f2_len _ _ _ H5) as Hl.
    cbn [c_insert_key]. replace (length rs) with (length K - 1) by lia. rewrite G. apply orb_false_elim in G. destruct G as [G _]. apply Nat.ltb_ge in G.
    destruct (touch_ok a s Hs H1) as (s1 & E1 & S1 & X1 & G1). rewrite (cbind_ok _ _ _ _ _ E1).
    assert (EL : Lg s1 = Lg s) by (apply Lg_same; exact G1).
    eexists _, s1. split; [reflexivity|]. split; [|split; [exact S1|split; [exact X1|]]].
    - rewrite EL. exists a, (insert_at k None rs), (insert_at (k + 1) LNil ks). repeat split; auto.
      + unfold insert_at. rewrite !app_length. cbn [length]. rewrite !firstn_length, !skipn_length. lia.
      + apply f2_insert; [exact H5|split; reflexivity].
    - intros x. rewrite !cnt_node, cntl_insert, cnt_nil, (fc_same x s s1 G1). lia.
  Qed.

  Lemma push_key_ok : forall s K lt par K', sok s -> own (Lg s) 0 K lt par -> g_push M Nil K = Some K' ->
    exists lt' s', c_push_key M lt s = Ok (lt', s') /\ own (Lg s') 0 K' lt' par /\ sok s' /\ ext s s' /\
      forall x, cnt x lt' + fc x s = cnt x lt + fc x s'.
  Proof.
    intros s K lt par K' Hs (a & rs & ks & -> & H1 & H2 & H3 & H4 & H5) Hg. unfold g_push in Hg.
    destruct (2 * M <=? length K - 1) eqn:G; [discriminate|]. injection Hg as <-. pose proof (f2_len _ _ _ H5) as Hl.
    cbn [c_push_key]. replace (length rs) with (length K - 1) by lia. rewrite G.
    destruct (touch_ok a s Hs H1) as (s1 & E1 & S1 & X1 & G1). rewrite (cbind_ok _ _ _ _ _ E1).
    assert (EL : Lg s1 = Lg s) by (apply Lg_same; exact G1).
    eexists _, s1. split; [reflexivity|]. split; [|split; [exact S1|split; [exact X1|]]].
    - rewrite EL. eexists a, _, _. split; [reflexivity|]. repeat split; auto.
      + rewrite !app_length. cbn [length]. lia.
      + apply f2_app; [exact H5|]. constructor; [split; reflexivity|constructor].
    - intros x. rewrite !cnt_node, cntl_app, cntl_cons, cntl_nil, cnt_nil, (fc_same x s s1 G1). lia.
  Qed.

  Lemma push_child_ok : forall s h K lt par ch lch K', sok s -> own (Lg s) h K lt par -> KP (Lg s) h ch lch -> g_push M ch K = Some K' ->
    exists lt' s', c_push_key_and_child M others lt lch s = Ok (lt', s') /\ own (Lg s') h K' lt' par /\ sok s' /\ ext s s' /\
      forall x, cnt x lt' + fc x s = cnt x lt + cnt x lch + fc x s'.
  Proof.
    intros s h K lt par ch lch K' Hs (a & rs & ks & -> & H1 & H2 & H3 & H4 & H5) Hk Hg. unfold g_push in Hg.
    destruct (2 * M <=? length K - 1) eqn:G; [discriminate|]. injection Hg as <-. pose proof (f2_len _ _ _ H5) as Hl.
    cbn [c_push_key_and_child]. replace (length rs) with (length K - 1) by lia. rewrite G.
    destruct (touch_ok a s Hs H1) as (s1 & E1 & S1 & X1 & G1). rewrite (cbind_ok _ _ _ _ _ E1).
    assert (EL : Lg s1 = Lg s) by (apply Lg_same; exact G1).
    destruct (fix_par_ok s1 h ch lch a (length K - 1 + 1) S1) as (k' & s3 & E3 & R3 & S3 & X3 & G3 & N3); [rewrite EL; exact Hk|rewrite EL; exact H2|].
    rewrite (cbind_ok _ _ _ _ _ E3). assert (EL3 : Lg s3 = Lg s) by (rewrite <- EL; apply Lg_same; exact G3). rewrite EL in R3.
    eexists _, s3. split; [reflexivity|]. split; [|split; [exact S3|split; [eapply ext_trans; eassumption|]]].
    - rewrite EL3. eexists a, _, _. split; [reflexivity|]. repeat split; auto.
      + rewrite !app_length. cbn [length]. lia.
      + apply f2_app; [exact H5|]. constructor; [exact R3|constructor].
    - intros x. rewrite !cnt_node, cntl_app, cntl_cons, cntl_nil, N3, (fc_same x s1 s3 G3), (fc_same x s s1 G1). lia.
  Qed.

  Lemma replace_first_ok : forall s h c0 K lt ch lch par cpar, sok s -> own (Lg s) (S h) (c0 :: K) lt par -> own (Lg s) h (kids_of ch) lch cpar ->
    exists lt' lc0 s', c_replace_first_child lt lch s = Ok ((lt', lc0), s') /\ own (Lg s') (S h) (ch :: K) lt' par /\ KR (Lg s') (S h) c0 lc0 /\ sok s' /\ ext s s' /\
      forall x, cnt x lt' + cnt x lc0 + fc x s = cnt x lt + cnt x lch + fc x s'.
  Proof.
    intros s h c0 K lt ch lch par cpar Hs (a & rs & ks & -> & H1 & H2 & H3 & H4 & H5) Hc. inversion H5; subst. clear H5.
    cbn [c_replace_first_child].
    destruct (touch_ok a s Hs H1) as (s1 & E1 & S1 & X1 & G1). rewrite (cbind_ok _ _ _ _ _ E1).
    assert (EL : Lg s1 = Lg s) by (apply Lg_same; exact G1).
    destruct (set_par_ok s1 h (kids_of ch) lch cpar (Some (a, 0)) S1) as (k' & s3 & E3 & R3 & S3 & X3 & G3 & N3); [rewrite EL; exact Hc| |].
    { intros b i Q. injection Q as <- <-. rewrite EL. exact H2. }
    rewrite (cbind_ok _ _ _ _ _ E3). assert (EL3 : Lg s3 = Lg s) by (rewrite <- EL; apply Lg_same; exact G3). rewrite EL in R3.
    eexists _, _, s3. split; [reflexivity|]. rewrite EL3. split; [|split; [assumption|split; [exact S3|split; [eapply ext_trans; eassumption|]]]].
    - eexists a, _, _. split; [reflexivity|]. repeat split; auto. constructor; [eapply own_KR; exact R3|assumption].
    - intros x. rewrite !cnt_node, !cntl_cons, N3, (fc_same x s1 s3 G3), (fc_same x s s1 G1). lia.
  Qed.

  Lemma make_parent_ok : forall s h l r ll lr, sok s -> own (Lg s) h (kids_of l) ll None -> own (Lg s) h (kids_of r) lr None ->
    exists lt' s', c_make_new_parent h ll lr s = Ok (lt', s') /\ own (Lg s') (h + 1) [l; r] lt' None /\ sok s' /\ ext s s' /\
      forall x, cnt x lt' + fc x s = cnt x ll + cnt x lr + fc x s'.
  Proof.
    intros s h l r ll lr Hs Hl Hr. unfold c_make_new_parent.
    replace (l_par ll) with (@None loc) by (destruct Hl as (? & ? & ? & -> & _); reflexivity).
    replace (l_par lr) with (@None loc) by (destruct Hr as (? & ? & ? & -> & _); reflexivity).
    destruct (alloc_ok_ (h + 1) s Hs) as (a & s1 & E1 & S1 & X1 & Ha & G1). rewrite (cbind_ok _ _ _ _ _ E1).
    pose proof (ext_incl _ _ X1) as Hi. assert (Hin : In (a, h + 1) (Lg s1)) by (unfold Lg; rewrite G1; left; reflexivity).
    destruct (set_par_ok s1 h (kids_of l) ll None (Some (a, 0)) S1) as (l' & s2 & E2 & R2 & S2 & X2 & G2 & N2); [eapply own_mono; eassumption| |].
    { intros b i Q. injection Q as <- <-. rewrite <- Nat.add_1_r. exact Hin. }
    rewrite (cbind_ok _ _ _ _ _ E2). assert (EL : Lg s2 = Lg s1) by (apply Lg_same; exact G2).
    destruct (set_par_ok s2 h (kids_of r) lr None (Some (a, 1)) S2) as (r' & s3 & E3 & R3 & S3 & X3 & G3 & N3); [rewrite EL; eapply own_mono; eassumption| |].
    { intros b i Q. injection Q as <- <-. rewrite <- Nat.add_1_r, EL. exact Hin. }
    rewrite (cbind_ok _ _ _ _ _ E3). assert (EL3 : Lg s3 = Lg s1) by (rewrite <- EL; apply Lg_same; exact G3). rewrite EL in R3.
    eexists _, s3. split; [reflexivity|]. rewrite EL3. split; [|split; [exact S3|split; [eapply ext_trans; [exact X1|]; eapply ext_trans; eassumption|]]].
    - eexists a, _, _. split; [reflexivity|]. repeat split; auto; [discriminate|]. rewrite Nat.add_1_r.
      constructor; [eapply own_KR; exact R2|]. constructor; [eapply own_KR; exact R3|constructor].
    - intros x. rewrite !cnt_node, !cntl_cons, cntl_nil, N2, N3, (fc_same x s2 s3 G3), (fc_same x s1 s2 G2), (fc_alloc x s s1 a _ G1). lia.
  Qed.

  Lemma unique_ok : forall s h t lt, sok s -> incl L0 (Lg s) -> J (Lg s) h t lt ->
    exists lt' s', c_unique others h lt s = Ok (lt', s') /\ own (Lg s') h (kids_of t) lt' (l_par lt) /\ sok s' /\ ext s s' /\
      (forall x, cnt x lt' + fc x s <= cnt x lt + fc x s').
  Proof.
    intros s h t lt Hs HL H. apply J_iff in H. destruct H as [Hc|(par & Ho)].
    - destruct (C0_open _ _ _ Hc) as (a & par & rs & ks & -> & Ha & Hl & Hp & Hn & HF). cbn [c_unique l_par]. rewrite (shared_true _ Ha).
      destruct (alloc_ok_ h s Hs) as (a' & s1 & E1 & S1 & X1 & Ha' & G1). rewrite (cbind_ok _ _ _ _ _ E1).
      pose proof (ext_incl _ _ X1) as Hi. eexists _, s1. split; [reflexivity|]. split; [|split; [exact S1|split; [exact X1|]]].
      + exists a', rs, ks. split; [reflexivity|]. split; [exact Ha'|]. split; [unfold Lg; rewrite G1; left; reflexivity|].
        split; [eapply par_mono; [|exact Hp]; intros y Hy; apply Hi, HL, Hy|]. split; [exact Hn|]. revert HF. apply f2_impl.
        intros u lu. destruct h as [|h']; [intros Q; exact Q|]. intros [Q1 Q2]. split; [apply J_iff; left; exact Q1|exact Q2].
      + intros x. rewrite !cnt_node, (fc_alloc x s s1 a' h G1). lia.
    - pose proof Ho as (a & rs & ks & -> & Ha & _). cbn [c_unique l_par]. rewrite (shared_false _ Ha).
      eexists _, s. split; [reflexivity|]. split; [exact Ho|]. split; [exact Hs|]. split; [apply ext_refl|]. intros x. lia.
  Qed.
End Own.
