(** The reference implementation against the flat specification: histories, references, iteration. *)
From Coq Require Import List ZArith Lia Bool Arith.
From Verif Require Import Base Index Slice Range Spec Rep Ins Iter IterQ Hist HistP IterPropsP Mock ListFacts MockP.
Import ListNotations.
Local Open Scope Z_scope.

Section MockQ.
  Context {I V : Type} (X : index_ops I) (Y : slice_ops I V) (MAX : Z) (inj : Z -> I).
  Hypothesis L : index_laws X MAX inj.
  Hypothesis Hmj : sl_may_join Y = false -> forall a b, sl_try_join Y a b = inr (a, b).
  Notation run := (prod V Z) (only parsing).
  Notation drun := (prod (prod V Z) nat) (only parsing).

  Lemma join_try : forall a b, join Y a b = sl_try_join Y a b.
  Proof. intros. unfold join. destruct (sl_may_join Y); auto. rewrite Hmj; auto. Qed.

  (** The result is what the flat specification says, unless that is a `todo!()`. *)
  Lemma cut_join_spec : forall D idx nid A B x n A1 x1 n1 o B1 x2 n2 o2 sid l', dpos D -> 0 <= idx ->
    cut Y inj D idx nid A B -> ljoin Y A x n A1 x1 n1 o -> rjoin Y B x1 n1 B1 x2 n2 o2 ->
    insert_runs Y inj (plain D) idx x n = Ok l' -> plain (A1 ++ (x2, n2, sid) :: B1) = l'.
  Proof.
    intros D idx nid A B x n A1 x1 n1 o B1 x2 n2 o2 sid l' Hp H0 Hc Hl Hr Hi.
    rewrite plain_app. cbn [plain map fst]. change (map fst B1) with (plain B1).
    destruct Hc as [A B -> E|A0 s z id B0 q a b -> -> Hq Es].
    - apply dpos_app in Hp. destruct Hp as [HA HB]. rewrite plain_app in Hi.
      destruct Hl as [->|A' s z id s' x' -> Ej|A' s z id m -> Ej].
      + rewrite dsum_nil in E. subst idx. cbn [app plain map] in *.
        destruct Hr as [->|B' s z id s' x' -> Ej|B' s z id m -> Ej]; cbn [insert_runs plain map fst place] in *.
        * inversion Hi; auto.
        * cbn [Z.eqb] in Hi. rewrite join_try, Ej in Hi. cbn [bind] in Hi. inversion Hi; auto.
        * cbn [Z.eqb] in Hi. rewrite join_try, Ej in Hi. cbn [bind] in Hi. inversion Hi; auto.
      + apply dpos_app in HA. destruct HA as [HA' HA]. apply dpos_cons in HA. destruct HA as [Hz _].
        rewrite dsum_app, dsum_cons, dsum_nil, Z.add_0_r in E. subst idx. rewrite !plain_app in *. cbn [plain map fst] in *.
        change (map fst B) with (plain B) in *. change (map fst A') with (plain A') in *. rewrite <- app_assoc in Hi. cbn [app] in Hi.
        rewrite (spec_app Y inj 1 (le_n 1)) in Hi by (auto; lia). cbn [insert_runs] in Hi.
        destruct (Z.eqb_spec z 0); [lia|]. destruct (Z.ltb_spec z z); [lia|]. rewrite Z.eqb_refl in Hi.
        destruct Hr as [->|B' s1 z1 id1 s1' x1' -> Ej1|B' s1 z1 id1 m1 -> Ej1]; cbn [plain map fst place] in Hi |- *; rewrite join_try, Ej in Hi.
        * cbn [bind] in Hi. inversion Hi. rewrite <- app_assoc. auto.
        * rewrite join_try, Ej1 in Hi. cbn [bind] in Hi. inversion Hi. rewrite <- app_assoc. auto.
        * rewrite join_try, Ej1 in Hi. cbn [bind] in Hi. inversion Hi. rewrite <- app_assoc. auto.
      + apply dpos_app in HA. destruct HA as [HA' HA]. apply dpos_cons in HA. destruct HA as [Hz _].
        rewrite dsum_app, dsum_cons, dsum_nil, Z.add_0_r in E. subst idx. rewrite !plain_app in *. cbn [plain map fst] in *.
        change (map fst B) with (plain B) in *. change (map fst A') with (plain A') in *. rewrite <- app_assoc in Hi. cbn [app] in Hi.
        rewrite (spec_app Y inj 1 (le_n 1)) in Hi by (auto; lia). cbn [insert_runs] in Hi.
        destruct (Z.eqb_spec z 0); [lia|]. destruct (Z.ltb_spec z z); [lia|]. rewrite Z.eqb_refl in Hi.
        destruct Hr as [->|B' s1 z1 id1 s1' x1' -> Ej1|B' s1 z1 id1 m1 -> Ej1]; cbn [plain map fst place] in Hi |- *; rewrite join_try, Ej in Hi.
        * cbn [bind] in Hi. inversion Hi. auto.
        * rewrite join_try, Ej1 in Hi. cbn [bind] in Hi. inversion Hi. auto.
        * rewrite join_try, Ej1 in Hi. cbn [bind] in Hi. discriminate.
    - apply dpos_app in Hp. destruct Hp as [HA HB]. apply dpos_cons in HB. destruct HB as [Hz HB].
      rewrite plain_app in Hi. cbn [plain map fst] in Hi. change (map fst B0) with (plain B0) in *. unfold dsum in Hi.
      rewrite (spec_app Y inj 1 (le_n 1)) in Hi by (auto; lia). cbn [insert_runs] in Hi.
      destruct (Z.eqb_spec q 0); [lia|]. destruct (Z.ltb_spec q z); [|lia]. unfold place_inside in Hi. rewrite Es in Hi.
      inversion Hl as [En|A' s1 z1 id1 s1' x1' En Ej|A' s1 z1 id1 m1 En Ej]; subst; [destruct A0; discriminate| |];
        apply app_inj_tail in En; destruct En as [<- En]; inversion En; subst.
      + rewrite join_try, Ej in Hi. rewrite plain_app. cbn [plain map fst]. change (map fst A0) with (plain A0).
        inversion Hr as [En2|B' s2 z2 id2 s2' x2' En2 Ej2|B' s2 z2 id2 m2 En2 Ej2]; try discriminate; inversion En2; subst;
          rewrite join_try, Ej2 in Hi; cbn [bind] in Hi; inversion Hi; cbn [plain map fst app]; rewrite <- app_assoc; reflexivity.
      + rewrite join_try, Ej in Hi.
        inversion Hr as [En2|B' s2 z2 id2 s2' x2' En2 Ej2|B' s2 z2 id2 m2 En2 Ej2]; try discriminate; inversion En2; subst;
          rewrite join_try, Ej2 in Hi; cbn [bind] in Hi; inversion Hi; cbn [plain map fst app]; reflexivity.
  Qed.

  (** The run that a reference points to, by its start. *)
  Definition at_start (D : list drun) (id : nat) (a : Z) : Prop := exists A s z B, D = A ++ (s, z, id) :: B /\ dsum A = a.

  Lemma at_start_app : forall (A B : list drun) id a, at_start (A ++ B) id a -> at_start A id a \/ at_start B id (a - dsum A).
  Proof.
    intros A B id a (P & s & z & Q & E & Ea). revert A E. revert a Ea. induction P as [|[[s1 z1] id1] P IH]; intros a Ea A E.
    - destruct A as [|e A]; cbn [app] in E.
      + right. exists [], s, z, Q. rewrite dsum_nil in *. split; auto. lia.
      + left. inversion E; subst. exists [], s, z, A. auto.
    - destruct A as [|e A]; cbn [app] in E.
      + right. exists ((s1, z1, id1) :: P), s, z, Q. rewrite dsum_nil. split; auto. lia.
      + inversion E; subst e. destruct (IH (dsum P) eq_refl A H1) as [(P' & s' & z' & Q' & E' & Ea')|(P' & s' & z' & Q' & E' & Ea')].
        * left. exists ((s1, z1, id1) :: P'), s', z', Q'. rewrite E'. split; auto. rewrite !dsum_cons in *. lia.
        * right. exists P', s', z', Q'. split; auto. rewrite !dsum_cons in *. lia.
  Qed.
  Lemma at_start_l : forall (A B : list drun) id a, at_start A id a -> at_start (A ++ B) id a.
  Proof. intros A B id a (P & s & z & Q & -> & E). exists P, s, z, (Q ++ B). rewrite <- app_assoc. auto. Qed.
  Lemma at_start_r : forall (A B : list drun) id a, at_start B id a -> at_start (A ++ B) id (dsum A + a).
  Proof. intros A B id a (P & s & z & Q & -> & E). exists (A ++ P), s, z, Q. rewrite <- app_assoc, dsum_app. split; auto. lia. Qed.
  Lemma at_start_lt : forall A id a, dpos A -> at_start A id a -> 0 <= a < dsum A.
  Proof.
    intros A id a Hp (P & s & z & Q & -> & E). apply dpos_app in Hp. destruct Hp as [H1 H2]. apply dpos_cons in H2. destruct H2 as [H2 H3].
    pose proof (dpos_nn _ H1). pose proof (dpos_nn _ H3). rewrite dsum_app, dsum_cons. lia.
  Qed.
  Lemma at_start_in : forall A id a, at_start A id a -> In id (dids A).
  Proof. intros A id a (P & s & z & Q & -> & E). rewrite dids_app. apply in_app_iff. right. left. reflexivity. Qed.
  Lemma in_at_start : forall A id, In id (dids A) -> exists a, at_start A id a.
  Proof.
    intros A id H. unfold dids in H. apply in_map_iff in H. destruct H as ([[s z] id'] & E & Hin). cbn [snd] in E. subst id'.
    apply in_split in Hin. destruct Hin as (P & Q & ->). exists (dsum P), P, s, z, Q. auto.
  Qed.
  Lemma at_start_covering : forall D id a, dpos D -> at_start D id a -> exists b s, covering (plain D) a = Some (a, b, s).
  Proof.
    intros D id a Hp (P & s & z & Q & -> & E). unfold dpos in Hp. rewrite plain_app in *. cbn [plain map fst] in *.
    exists (a + z), s. pose proof Hp as Hp2. apply pos_runs_app in Hp2. destruct Hp2 as [_ Hp2]. inversion Hp2 as [|? ? Hz _]; subst. cbn [snd] in Hz.
    rewrite covering_app; auto. unfold dsum. lia.
  Qed.
  Lemma covering_at : forall (A : list drun) s z id B p, dpos (A ++ (s, z, id) :: B) -> dsum A <= p < dsum A + z ->
    covering (plain (A ++ (s, z, id) :: B)) p = Some (dsum A, dsum A + z, s).
  Proof. intros. rewrite plain_app. cbn [plain map fst]. rewrite covering_app; auto. unfold dpos in H. rewrite plain_app in H. exact H. Qed.

  (** Where a run that started at [a] starts after the insertion: at the start of the run that now
      covers its old first position. *)
  Definition follow_start (l' : list run) (idx n a : Z) : option Z :=
    option_map (fun e => fst (fst e)) (covering l' (if a <? idx then a else a + n)).

  Lemma cut_track : forall D idx nid A B id a, dpos D -> ~ In nid (dids D) -> cut Y inj D idx nid A B -> at_start D id a ->
    (at_start A id a /\ a < idx) \/ (at_start B id (a - idx) /\ idx <= a /\ id <> nid).
  Proof.
    intros D idx nid A B id a Hp Hni Hc Ha. pose proof (at_start_in _ _ _ Ha) as Hin.
    destruct Hc as [A B -> E|A0 s z id0 B0 q a0 b0 -> -> Hq Es].
    - apply at_start_app in Ha. apply dpos_app in Hp. destruct Hp as [HA HB]. destruct Ha as [Ha|Ha].
      + left. split; auto. pose proof (at_start_lt _ _ _ HA Ha). lia.
      + right. rewrite E in Ha. split; auto. pose proof (at_start_lt _ _ _ HB Ha). split; [lia|]. intros ->. auto.
    - apply at_start_app in Ha. apply dpos_app in Hp. destruct Hp as [HA HB]. destruct Ha as [Ha|Ha].
      + left. split; [apply at_start_l; auto|]. pose proof (at_start_lt _ _ _ HA Ha). lia.
      + change ((s, z, id0) :: B0) with ([(s, z, id0)] ++ B0) in Ha, HB. apply dpos_app in HB. destruct HB as [H1 H2].
        apply at_start_app in Ha. destruct Ha as [Ha|Ha].
        * left. destruct Ha as (P & s1 & z1 & Q & E & Ea). destruct P as [|p P]; [|destruct P; discriminate]. inversion E; subst.
          rewrite dsum_nil in Ea. split; [|lia]. exists A0, a0, q, []. split; auto. lia.
        * right. pose proof (at_start_lt _ _ _ H2 Ha). assert (Ez : dsum [(s, z, id0)] = z) by (unfold dsum; cbn [plain map fst rsum]; lia); rewrite Ez in *.
          assert (Hid : id <> nid) by (intros ->; apply Hni, Hin).
          split; [|split; [lia|auto]]. destruct Ha as (P & s1 & z1 & Q & E & Ea). exists ((b0, z - q, nid) :: P), s1, z1, Q.
          rewrite E. split; auto. rewrite dsum_cons. lia.
  Qed.

  Lemma nodup_remap : forall (o : option (nat * Z)) sid refs k id, nth_error (remapped o sid refs) k = Some id <->
    exists id0, nth_error refs k = Some id0 /\ id = match o with Some (i, _) => if (id0 =? i)%nat then sid else id0 | None => id0 end.
  Proof.
    intros [[i z]|] sid refs k id; unfold remapped.
    - rewrite nth_error_map. destruct (nth_error refs k); cbn [option_map]; split.
      + intros E. inversion E. eauto.
      + intros (? & E & ->). inversion E. auto.
      + discriminate.
      + intros (? & E & _). discriminate.
    - split; [eauto|]. intros (? & E & ->). auto.
  Qed.

  Lemma ljoin_shape : forall A x n A1 x1 n1 o id a, ljoin Y A x n A1 x1 n1 o -> NoDup (dids A) -> at_start A id a ->
    (match o with Some (i, _) => id <> i | None => True end /\ at_start A1 id a) \/
    (exists z, o = Some (id, z) /\ a = dsum A1).
  Proof.
    intros A x n A1 x1 n1 o id a Hl Hnd Ha. destruct Hl as [->|A' s z i s' x' -> Ej|A' s z i m -> Ej].
    - destruct Ha as ([|] & ? & ? & ? & E & _); discriminate.
    - left. split; auto. apply at_start_app in Ha. destruct Ha as [Ha|Ha]; [apply at_start_l; auto|].
      destruct Ha as (P & s1 & z1 & Q & E & Ea). destruct P as [|p P]; [|destruct P; discriminate]. inversion E; subst. rewrite dsum_nil in Ea.
      exists A', s', z1, []. split; auto. lia.
    - apply at_start_app in Ha. destruct Ha as [Ha|Ha].
      + left. split; auto. intros ->. apply at_start_in in Ha. rewrite dids_app in Hnd. apply nodup_mid in Hnd. rewrite app_nil_r in Hnd. tauto.
      + right. destruct Ha as (P & s1 & z1 & Q & E & Ea). destruct P as [|p P]; [|destruct P; discriminate]. inversion E; subst. rewrite dsum_nil in Ea.
        exists z1. split; auto. lia.
  Qed.

  Lemma rjoin_shape : forall B x n B1 x2 n2 o id a, rjoin Y B x n B1 x2 n2 o -> NoDup (dids B) -> dpos B -> at_start B id a ->
    (match o with Some (i, _) => id <> i | None => True end /\ at_start B1 id (a - osz o)) \/
    (exists z, o = Some (id, z) /\ a = 0).
  Proof.
    intros B x n B1 x2 n2 o id a Hr Hnd Hp Ha. destruct Hr as [->|B' s z i s' x' -> Ej|B' s z i m -> Ej].
    - destruct Ha as ([|] & ? & ? & ? & E & _); discriminate.
    - left. split; auto. cbn [osz]. rewrite Z.sub_0_r. destruct Ha as (P & s1 & z1 & Q & E & Ea). destruct P as [|p P].
      + inversion E; subst. exists [], s', z1, Q. auto.
      + inversion E; subst. exists ((s', z, i) :: P), s1, z1, Q. auto.
    - destruct Ha as (P & s1 & z1 & Q & E & Ea). destruct P as [|p P].
      + right. inversion E; subst. exists z1. auto.
      + left. inversion E; subst. cbn [osz]. split.
        * intros ->. inversion Hnd as [|? ? Hn _]; subst. apply Hn. change (map snd (P ++ (s1, z1, i) :: Q)) with (dids (P ++ (s1, z1, i) :: Q)).
          rewrite dids_app. apply in_app_iff. right. left. reflexivity.
        * exists P, s1, z1, Q. split; auto. rewrite dsum_cons. lia.
  Qed.

  (** One insertion. *)
  Theorem mock_insert_ok : forall m D idx x n mr, rep inj m D -> 0 <= idx <= dsum D -> 0 < n -> dsum D + n <= MAX ->
    exists m' D' o, mock_insert X Y m (inj idx) x (inj n) mr = Ok (m', o) /\ rep inj m' D' /\ dsum D' = dsum D + n /\
      (forall l', insert_runs Y inj (plain D) idx x n = Ok l' -> plain D' = l') /\
      (exists tail, rm_refs (mk_map m') = tail /\ length tail = (length (rm_refs (mk_map m)) + if mr then 1 else 0)%nat /\
         o = (if mr then Some (length (rm_refs (mk_map m))) else None)) /\
      (forall k id a, nth_error (rm_refs (mk_map m)) k = Some id -> at_start D id a ->
         exists id' a', nth_error (rm_refs (mk_map m')) k = Some id' /\ at_start D' id' a' /\ follow_start (plain D') idx n a = Some a') /\
      (mr = true -> exists id a, nth_error (rm_refs (mk_map m')) (length (rm_refs (mk_map m))) = Some id /\ at_start D' id a /\
         option_map (fun e => fst (fst e)) (covering (plain D') idx) = Some a).
  Proof.
    intros m D idx x n mr [Er Hp HR Hrefs] Hi Hn Hm. unfold mock_insert.
    rewrite (size_ok X MAX inj L D m Er), Er. pose proof (dpos_nn _ Hp) as Hnn.
    rewrite (il_zero _ _ _ L), (il_eqb _ _ _ L) by lia. destruct (Z.eqb_spec n 0); [lia|].
    rewrite (il_ltb _ _ _ L) by lia. destruct (Z.ltb_spec (dsum D) idx); [lia|].
    destruct (split_ok X Y MAX inj L D (mk_map m) idx Hp ltac:(lia) Hi HR) as (A & B & rm1 & E1 & Hcut & R1 & Hl1 & Hf1).
    rewrite E1. cbn [bind].
    assert (HAB : dpos (A ++ B) /\ dsum A = idx /\ dsum (A ++ B) = dsum D /\ (dids (A ++ B) = dids D \/ exists P Q, dids D = P ++ Q /\ dids (A ++ B) = P ++ length (rm_stable (mk_map m)) :: Q)).
    { destruct Hcut as [A B -> E|A0 s z id0 B0 q a0 b0 -> -> Hq Es]; [auto|].
      apply dpos_app in Hp. destruct Hp as [H1 H2]. apply dpos_cons in H2. destruct H2 as [H2 H3]. split.
      - apply dpos_app. split; [apply dpos_app; split; auto; apply dpos_cons; split; [lia|apply Forall_nil]|apply dpos_cons; split; auto; lia].
      - rewrite !dsum_app, !dsum_cons, !dsum_nil. split; [lia|]. split; [lia|]. right. exists (dids A0 ++ [id0]), (dids B0).
        rewrite !dids_app. cbn [dids map snd]. rewrite <- !app_assoc. auto. }
    destruct HAB as (HpAB & HsA & HsAB & Hids).
    assert (Hnid : ~ In (length (rm_stable (mk_map m))) (dids D)).
    { intros Hin. pose proof (ri_lt _ _ HR) as Hl. rewrite Forall_forall in Hl. specialize (Hl _ Hin). lia. }
    rewrite <- (il_zero _ _ _ L).
    destruct (left_ok X Y MAX inj L A B rm1 x n idx HpAB ltac:(lia) Hn (eq_sym HsA) R1) as (A1 & x1 & n1 & o & rm2 & Hlj & E2 & Hs2 & Hn1 & Hp2 & R2 & Hl2 & Hf2).
    rewrite E2. cbn [bind]. rewrite HsA in *.
    assert (HB : dpos B) by (apply dpos_app in HpAB; tauto). pose proof (dpos_nn _ HB) as HBn.
    assert (HA1 : dpos A1) by (apply dpos_app in Hp2; tauto). pose proof (dpos_nn _ HA1) as HA1n.
    rewrite dsum_app, HsA in HsAB.
    assert (Ho : 0 <= osz o).
    { destruct Hlj as [?|A' s z i s' x' -> Ej|A' s z i mm -> Ej]; cbn [osz]; try lia.
      apply dpos_app in HpAB. destruct HpAB as [Q _]. apply dpos_app in Q. destruct Q as [_ Q]. apply dpos_cons in Q. lia. }
    destruct (right_ok X Y MAX inj L A1 B rm2 x1 n1 n o idx Hp2 Hn ltac:(lia) ltac:(lia) Hn1 Ho (fun _ => Logic.I) R2) as (B1 & x2 & n2 & o2 & rm3 & Hrj & E3 & Hs3 & Hn2 & Ho2 & Hp3 & R3 & Hl3 & Hf3).
    rewrite E3. cbn [bind].
    assert (HB1 : dpos B1) by (apply dpos_app in Hp3; tauto). pose proof (dpos_nn _ HB1) as HB1n.
    destruct (finish_ok X MAX inj L A1 B1 rm3 x2 n2 n o o2 idx Hp3 Hn ltac:(lia) ltac:(lia) Ho Ho2 ltac:(lia) R3) as (rm4 & E4 & Hp4 & R4 & Hf4).
    set (sid := length (rm_stable rm3)) in *. rewrite E4. cbn [bind].
    set (D' := A1 ++ (x2, n2, sid) :: B1) in *.
    (* where the references go *)
    assert (HndAB : NoDup (dids (A ++ B))) by (apply R1). rewrite dids_app in HndAB.
    assert (HndA : NoDup (dids A)). { clear - HndAB. induction (dids A); [constructor|]. cbn [app] in HndAB. inversion HndAB; subst. constructor; auto. rewrite in_app_iff in *. tauto. }
    assert (HndB : NoDup (dids B)). { clear - HndAB. induction (dids A); auto. cbn [app] in HndAB. inversion HndAB; auto. }
    assert (Hdisj : forall i, In i (dids A) -> In i (dids B) -> False).
    { intros i H1 H2. clear - HndAB H1 H2. induction (dids A) as [|j l IH]; [destruct H1|]. cbn [app] in HndAB. inversion HndAB; subst.
      destruct H1 as [->|H1]; auto. apply H3. apply in_app_iff. auto. }
    assert (Hsid : ~ In sid (dids D)).
    { intros Hin. pose proof (ri_lt _ _ HR) as Hl. rewrite Forall_forall in Hl. specialize (Hl _ Hin). unfold sid in Hl. lia. }
    assert (Hsid' : sid <> length (rm_stable (mk_map m)) \/ True) by auto.
    assert (HoA : forall i z, o = Some (i, z) -> In i (dids A)).
    { intros i z ->. inversion Hlj; subst. rewrite dids_app. apply in_app_iff. right. left. reflexivity. }
    assert (HoB : forall i z, o2 = Some (i, z) -> In i (dids B)).
    { intros i z ->. inversion Hrj; subst. left. reflexivity. }
    assert (Htrack : forall k id a, nth_error (rm_refs (mk_map m)) k = Some id -> at_start D id a ->
         exists id' a', nth_error (rm_refs rm4) k = Some id' /\ at_start D' id' a' /\ follow_start (plain D') idx n a = Some a').
    { intros k id a Hk Ha. rewrite Hf4, Hf3, Hf2, Hf1.
      assert (Hidsid : id <> sid). { intros ->. apply Hsid. eapply at_start_in; eauto. }
      destruct (cut_track D idx _ A B id a Hp Hnid Hcut Ha) as [[HaA Hlt]|(HaB & Hge & Hidn)].
      - assert (HinA := at_start_in _ _ _ HaA).
        destruct (ljoin_shape A x n A1 x1 n1 o id a Hlj HndA HaA) as [[Hne HaA1]|(z & Eo & Ea)].
        + (* kept, on the left *)
          assert (Ek : nth_error (remapped o2 sid (remapped o sid (rm_refs (mk_map m)))) k = Some id).
          { apply nodup_remap. exists id. split.
            - apply nodup_remap. exists id. split; auto. destruct o as [[i z]|]; auto. destruct (Nat.eqb_spec id i); [congruence|auto].
            - destruct o2 as [[i z]|] eqn:Eo2; auto. destruct (Nat.eqb_spec id i); auto. subst i. exfalso. eapply Hdisj; eauto. }
          exists id, a. split; auto. split; [unfold D'; apply at_start_l; auto|].
          unfold follow_start. destruct (Z.ltb_spec a idx); [|lia].
          destruct (at_start_covering D' id a Hp4 ltac:(unfold D'; apply at_start_l; auto)) as (b & s & Ec). rewrite Ec. reflexivity.
        + (* merged with the new slice *)
          assert (Ek : nth_error (remapped o2 sid (remapped o sid (rm_refs (mk_map m)))) k = Some sid).
          { apply nodup_remap. exists sid. split.
            - apply nodup_remap. exists id. split; auto. rewrite Eo. rewrite Nat.eqb_refl. auto.
            - destruct o2 as [[i z']|]; auto. destruct (sid =? i)%nat; auto. }
          exists sid, a. split; auto. split; [exists A1, x2, n2, B1; auto|].
          unfold follow_start. destruct (Z.ltb_spec a idx); [|lia]. unfold D'. rewrite covering_at; auto; [cbn; f_equal; lia|].
          subst a. lia.
      - assert (HinB := at_start_in _ _ _ HaB).
        destruct (rjoin_shape B x1 n1 B1 x2 n2 o2 id (a - idx) Hrj HndB HB HaB) as [[Hne HaB1]|(z & Eo & Ea)].
        + assert (Ek : nth_error (remapped o2 sid (remapped o sid (rm_refs (mk_map m)))) k = Some id).
          { apply nodup_remap. exists id. split.
            - apply nodup_remap. exists id. split; auto. destruct o as [[i z]|] eqn:Eo; auto. destruct (Nat.eqb_spec id i); auto. subst i. exfalso. eapply Hdisj; eauto.
            - destruct o2 as [[i z]|] eqn:Eo2; auto. destruct (Nat.eqb_spec id i); [congruence|auto]. }
          assert (HaD : at_start D' id (a + n)).
          { unfold D'. replace (a + n) with (dsum (A1 ++ [(x2, n2, sid)]) + (a - idx - osz o2)) by (rewrite dsum_app, dsum_cons, dsum_nil; lia).
            change (A1 ++ (x2, n2, sid) :: B1) with (A1 ++ [(x2, n2, sid)] ++ B1). rewrite app_assoc. apply at_start_r. exact HaB1. }
          exists id, (a + n). split; auto. split; auto.
          unfold follow_start. destruct (Z.ltb_spec a idx); [lia|].
          destruct (at_start_covering D' id (a + n) Hp4 HaD) as (b & s & Ec). rewrite Ec. reflexivity.
        + assert (Ek : nth_error (remapped o2 sid (remapped o sid (rm_refs (mk_map m)))) k = Some sid).
          { apply nodup_remap. exists id. split.
            - apply nodup_remap. exists id. split; auto. destruct o as [[i z']|] eqn:Eo1; auto. destruct (Nat.eqb_spec id i); auto. subst i. exfalso. eapply Hdisj; eauto.
            - rewrite Eo. rewrite Nat.eqb_refl. auto. }
          exists sid, (dsum A1). split; auto. split; [exists A1, x2, n2, B1; auto|].
          unfold follow_start. destruct (Z.ltb_spec a idx); [lia|]. unfold D'. rewrite covering_at; auto.
          rewrite Eo in *. cbn [osz] in *. inversion Hrj as [|? ? ? ? ? ? ? ?|B' s' z' id' mm Eb Ej]; subst. apply dpos_cons in HB. lia. }
    assert (Hrefs' : Forall (fun sid0 => In sid0 (dids D')) (rm_refs rm4)).
    { apply Forall_forall. intros id Hin. apply In_nth_error in Hin. destruct Hin as [k Hk].
      assert (exists id0, nth_error (rm_refs (mk_map m)) k = Some id0).
      { rewrite Hf4 in Hk. apply nodup_remap in Hk. destruct Hk as (i1 & Hk & _). apply nodup_remap in Hk. destruct Hk as (i2 & Hk & _).
        rewrite Hf3, Hf2, Hf1 in Hk. eauto. }
      destruct H0 as [id0 Hk0]. rewrite Forall_forall in Hrefs. pose proof (Hrefs _ (nth_error_In _ _ Hk0)) as Hi0.
      destruct (in_at_start _ _ Hi0) as [a Ha]. destruct (Htrack k id0 a Hk0 Ha) as (id' & a' & Hk' & Ha' & _).
      rewrite Hk in Hk'. inversion Hk'; subst. eapply at_start_in; eauto. }
    assert (Hlen : length (rm_refs rm4) = length (rm_refs (mk_map m))).
    { rewrite Hf4, Hf3, Hf2, Hf1. unfold remapped. destruct o as [[? ?]|], o2 as [[? ?]|]; rewrite ?map_length; reflexivity. }
    assert (Hsum : dsum D' = dsum D + n) by (unfold D'; rewrite dsum_app, dsum_cons; lia).
    assert (Hspec : forall l', insert_runs Y inj (plain D) idx x n = Ok l' -> plain D' = l').
    { intros l'. eapply cut_join_spec; eauto. lia. }
    destruct mr.
    - cbn [fst snd mk_map mk_runs new_refid]. eexists. exists D'. eexists. split; [reflexivity|]. cbn [mk_runs mk_map rm_refs].
      split; [|split; [auto|split; [auto|split; [|split]]]].
      + split; cbn [mk_runs mk_map rm_refs]; auto.
        * destruct R4 as [Q1 Q2 Q3]. split; auto.
        * apply Forall_app. split; auto. constructor; auto. unfold D'. rewrite dids_app. apply in_app_iff. right. left. reflexivity.
      + eexists. split; [reflexivity|]. rewrite app_length. cbn [length]. split; [lia|]. rewrite Hlen. reflexivity.
      + intros k id a Hk Ha. destruct (Htrack k id a Hk Ha) as (id' & a' & Hk' & H1 & H2). exists id', a'. split; auto. apply nth_app_l. auto.
      + intros _. exists sid, (dsum A1). split; [rewrite <- Hlen; apply nth_snoc|]. split; [exists A1, x2, n2, B1; auto|].
        unfold D'. rewrite covering_at; auto. lia.
    - eexists. exists D'. eexists. split; [reflexivity|]. cbn [mk_runs mk_map rm_refs].
      split; [|split; [auto|split; [auto|split; [|split]]]].
      + split; cbn [mk_runs mk_map]; auto.
      + eexists. split; [reflexivity|]. split; [lia|auto].
      + auto.
      + discriminate.
  Qed.
End MockQ.
