(** Proofs of the property theorems about insert and get. *)
From Coq Require Import List ZArith Lia Bool Arith.
From Verif Require Import Base Index Slice Tree Insert Range Spec Iter Hist Validate Order Rep Ins IterP IterQ HistP OrderP CurP Flat Samples.
Import ListNotations.
Local Open Scope Z_scope.

Section Joins.
  Context {I V : Type} (Y : slice_ops I V) (inj : Z -> I).

  Lemma insert_runs_pos : forall l idx x n l', pos_runs l -> 0 <= idx <= rsum l -> 0 < n -> insert_runs Y inj l idx x n = Ok l' -> pos_runs l'.
  Proof.
    intros l idx x n l' Hp Hi Hn E.
    assert (D : denotes Y inj (fun _ _ => tt) (fun _ _ => True)) by (split; auto).
    assert (F : fit (fun (_ : V) (_ : Z) => True) l) by (eapply Forall_impl; [|exact Hp]; auto).
    destruct (insert_values Y inj _ _ D l idx x n l' F ltac:(repeat constructor; auto) Hi E) as [F' _].
    eapply Forall_impl; [|exact F']. cbn. tauto.
  Qed.

  Lemma runs_result : forall l idx x n, pos_runs l ->
    (insert_runs Y inj l idx x n = Panic PTodo /\ joins_both Y l idx x) \/ (exists l', insert_runs Y inj l idx x n = Ok l').
  Proof.
    induction l as [|[s z] l IH]; intros idx x n Hp; cbn [insert_runs place]; [right; eauto|].
    inversion Hp as [|? ? Hz Hp']; subst. cbn [snd] in Hz.
    destruct (Z.eqb_spec idx 0).
    { right. destruct (join Y x s) as [?|[? ?]]; cbn [bind]; eauto. }
    destruct (Z.ltb_spec idx z); [right; eauto|].
    destruct (Z.eqb_spec idx z) as [->|Hn].
    { destruct l as [|[s2 z2] l].
      - right. destruct (join Y s x) as [?|[? ?]]; eauto.
      - unfold join. destruct (sl_may_join Y) eqn:Em; cbn [bind]; [|right; eauto].
        destruct (sl_try_join Y s x) as [m|[s' x']] eqn:E1.
        + destruct (sl_try_join Y m s2) as [j|[m' s2']] eqn:E2; cbn [bind]; [left|right; eauto].
          split; auto. exists [], s, z, s2, z2, l, m, j. cbn [rsum app]. repeat split; auto.
        + right. destruct (sl_try_join Y x' s2) as [?|[? ?]]; cbn [bind]; eauto. }
    destruct (IH (idx - z) x n Hp') as [[E (A & s1 & z1 & s2 & z2 & B & m & j & El & Ei & Hj)]|[l' E]]; rewrite E; cbn [bind]; [left|right; eauto].
    split; auto. exists ((s, z) :: A), s1, z1, s2, z2, B, m, j. rewrite El. cbn [rsum app]. split; auto. split; [lia|auto].
  Qed.

  Lemma runs_both : forall A s z s2 z2 B x n m j, pos_runs (A ++ (s, z) :: (s2, z2) :: B) -> sl_may_join Y = true ->
    sl_try_join Y s x = inl m -> sl_try_join Y m s2 = inl j ->
    insert_runs Y inj (A ++ (s, z) :: (s2, z2) :: B) (rsum A + z) x n = Panic PTodo.
  Proof.
    intros A s z s2 z2 B x n m j Hp Hm E1 E2. apply pos_runs_app in Hp. destruct Hp as [HA HB].
    inversion HB as [|? ? Hz _]; subst. cbn [snd] in Hz.
    rewrite (spec_app Y inj 1 (le_n 1)) by (auto; lia). cbn [insert_runs]. destruct (Z.eqb_spec z 0); [lia|]. destruct (Z.ltb_spec z z); [lia|].
    rewrite Z.eqb_refl. cbn [place]. unfold join. rewrite Hm, E1, E2. reflexivity.
  Qed.

  Lemma runs_ok_iff : forall l idx x n, pos_runs l ->
    (joins_both Y l idx x <-> insert_runs Y inj l idx x n = Panic PTodo).
  Proof.
    intros l idx x n Hp. split.
    - intros (A & s1 & z1 & s2 & z2 & B & m & j & -> & -> & Hm & E1 & E2). eapply runs_both; eauto.
    - intros H. destruct (runs_result l idx x n Hp) as [[_ J]|[l' E]]; auto. congruence.
  Qed.
End Joins.

(** The sequence of runs seen by `iter(..)` is spliced as the flat specification says, and the
    resulting tree is again covered by this theorem. *)
Lemma C01_insert_splices_runs_proof : forall (I V : Type) (X : index_ops I) (Y : slice_ops I V) (MAX : Z) (inj : Z -> I)
    (M : nat) (nop : bool) (r : @rle I V) (l : list (V * Z)) (hints : list nat) (idx : Z) (x : V) (n : Z),
  index_laws X MAX inj -> (1 <= M)%nat -> reaches MAX inj X Y M nop r l ->
  0 <= idx <= rsum l -> 0 < n -> rsum l + n <= MAX ->
  iter_collect X r [] SUnb EUnb = Ok (map (inj_item inj) (spans 0 l)) /\
  match insert_runs Y inj l idx x n with
  | Ok l' => exists r' cur,
      insert_with_cursor X Y M nop r hints (inj idx) x (inj n) = Ok (r', cur) /\
      iter_collect X r' [] SUnb EUnb = Ok (map (inj_item inj) (spans 0 l')) /\
      reaches MAX inj X Y M nop r' l'
  | Panic w => w = PTodo /\ insert_with_cursor X Y M nop r hints (inj idx) x (inj n) = Panic PTodo
  | UB => False
  end.
Proof.
  intros I V X Y MAX inj M nop r l hints idx x n L HM Hr Hi Hn Hm.
  destruct (reaches_rep X Y MAX inj M L HM _ _ _ Hr) as [R Hl].
  split; [eapply iter_all_ok; eauto|].
  assert (Es : spec_insert Y inj l idx x n = insert_runs Y inj l idx x n).
  { unfold spec_insert. destruct (Z.ltb_spec (rsum l) idx); [lia|]. destruct (Z.leb_spec n 0); [lia|]. reflexivity. }
  destruct (runs_result Y inj l idx x n (rle_rep_pos _ _ _ _ R)) as [[E _]|[l' E]]; rewrite E in *.
  - split; auto. pose proof (insert_full_ok X Y MAX inj M L HM nop r l hints idx x n R ltac:(lia) ltac:(lia) Hm) as H.
    rewrite Es in H. exact H.
  - destruct (reaches_step X Y MAX inj M L HM nop r l hints idx x n l' Hr ltac:(lia) ltac:(lia) Hm Es) as (r' & cur & E' & Hr' & _).
    exists r', cur. split; auto. split; auto. destruct (reaches_rep X Y MAX inj M L HM _ _ _ Hr') as [R' Hl']. eapply iter_all_ok; eauto.
Qed.

(** The flat specification touches nothing but the run that contains the index, or the two runs
    around it. *)
Lemma C01_splice_is_local_proof : forall (I V : Type) (Y : slice_ops I V) (inj : Z -> I) (A B : list (V * Z)) (x : V) (n : Z),
  Forall (fun r => 0 < snd r) (A ++ B) ->
  (forall s z q, 0 < q < z ->
     insert_runs Y inj (A ++ (s, z) :: B) (rsum A + q) x n = Ok (A ++ place_inside Y inj s z q x n ++ B)) /\
  (forall s z s2 z2, 0 < z ->
     insert_runs Y inj (A ++ (s, z) :: (s2, z2) :: B) (rsum A + z) x n
     = let* r := place Y (Some (s, z)) x n (Some (s2, z2)) in Ok (A ++ r ++ B)) /\
  (forall s z, 0 < z ->
     insert_runs Y inj (A ++ [(s, z)]) (rsum A + z) x n = let* r := place Y (Some (s, z)) x n None in Ok (A ++ r)) /\
  (forall s z, insert_runs Y inj ((s, z) :: B) 0 x n = let* r := place Y None x n (Some (s, z)) in Ok (r ++ B)) /\
  insert_runs Y inj [] 0 x n = Ok [(x, n)].
Proof.
  intros I V Y inj A B x n Hp. apply pos_runs_app in Hp. destruct Hp as [HA HB].
  split; [|split; [|split; [|split; [intros; reflexivity|reflexivity]]]].
  - intros s z q Hq. rewrite (spec_app Y inj 1 (le_n 1)) by (auto; lia). cbn [insert_runs]. destruct (Z.eqb_spec q 0); [lia|].
    destruct (Z.ltb_spec q z); [|lia]. reflexivity.
  - intros s z s2 z2 Hz. rewrite (spec_app Y inj 1 (le_n 1)) by (auto; lia). cbn [insert_runs]. destruct (Z.eqb_spec z 0); [lia|].
    destruct (Z.ltb_spec z z); [lia|]. rewrite Z.eqb_refl. destruct (place Y (Some (s, z)) x n (Some (s2, z2))); reflexivity.
  - intros s z Hz. rewrite (spec_app Y inj 1 (le_n 1)) by (auto; lia). cbn [insert_runs]. destruct (Z.eqb_spec z 0); [lia|].
    destruct (Z.ltb_spec z z); [lia|]. rewrite Z.eqb_refl. reflexivity.
Qed.

(** A whole history from the empty tree. *)
Lemma C01_history_refines_runs_proof : forall (I V : Type) (X : index_ops I) (Y : slice_ops I V) (MAX : Z) (inj : Z -> I)
    (M : nat) (nop : bool) (ops : list (@op V Z)),
  index_laws X MAX inj -> (1 <= M)%nat -> ops_fit MAX ops ->
  match spec_run Y inj [] (map args ops) with
  | Ok l => exists r, run_ops X Y M nop None (map (inj_op inj) ops) = Ok r /\
                      iter_collect X r [] SUnb EUnb = Ok (map (inj_item inj) (spans 0 l))
  | Panic w => run_ops X Y M nop None (map (inj_op inj) ops) = Panic w
  | UB => False
  end.
Proof.
  intros I V X Y MAX inj M nop ops L HM [Hf Ho].
  pose proof (run_ok X Y MAX inj M L HM nop ops None [] eq_refl Hf ltac:(cbn [rsum]; lia)) as H.
  destruct (spec_run Y inj [] (map args ops)) as [l| |]; auto.
  destruct H as (r & E & R & Hs). exists r. split; auto. cbn [rsum] in Hs. eapply iter_all_ok; eauto. lia.
Qed.

(** Contents position by position, read through `get`, for slices that denote a function of the
    offset. *)
Lemma C02_values_after_insert_proof : forall (I V D : Type) (X : index_ops I) (Y : slice_ops I V) (MAX : Z) (inj : Z -> I)
    (M : nat) (nop : bool) (den : V -> Z -> D) (fits : V -> Z -> Prop) (ops : list (@op V Z)) (r r' : @rle I V)
    (hints cur : list nat) (idx : Z) (x : V) (n : Z),
  index_laws X MAX inj -> (1 <= M)%nat -> denotes Y inj den fits ->
  ops_fit MAX ops -> Forall (fun o => fits (o_slice o) (o_size o)) ops ->
  run_ops X Y M nop None (map (inj_op inj) ops) = Ok r ->
  0 <= idx <= MAX -> 0 <= n -> osum ops + n <= MAX -> fits x n ->
  insert_with_cursor X Y M nop r hints (inj idx) x (inj n) = Ok (r', cur) ->
  rle_size X r' = Ok (inj (osum ops + n)) /\
  forall p, 0 <= p < osum ops + n -> exists a b s,
    get X r' (inj p) = Ok (inj a, inj b, s) /\ a <= p < b /\ fits s (b - a) /\
    if (idx <=? p) && (p <? idx + n) then den s (p - a) = den x (p - idx)
    else exists a' b' s', let p' := if p <? idx then p else p - n in
      get X r (inj p') = Ok (inj a', inj b', s') /\ a' <= p' < b' /\ den s (p - a) = den s' (p' - a').
Proof.
  intros I V D X Y MAX inj M nop den fits ops r r' hints cur idx x n L HM Hd [Hf Ho] Hfits Er Hi Hn Hm Hx E.
  pose proof (run_ok X Y MAX inj M L HM nop ops None [] eq_refl Hf ltac:(cbn [rsum]; lia)) as H.
  destruct (spec_run Y inj [] (map args ops)) as [l|w|] eqn:Es; [|rewrite Er in H; discriminate|contradiction].
  destruct H as (r0 & E0 & R & Hs). rewrite Er in E0. inversion E0; subst r0. cbn [rsum] in Hs. rewrite Z.add_0_l in Hs.
  assert (Hfit : fit fits l).
  { revert Es. assert (G : forall ops l l0, Forall (fun o => 0 <= o_idx o <= MAX /\ 0 <= o_size o) ops -> fit fits l0 -> Forall (fun o => fits (o_slice o) (o_size o)) ops ->
      spec_run Y inj l0 (map args ops) = Ok l -> fit fits l).
    { clear - Hd. induction ops as [|o ops IH]; intros l l0 Hb Hf Hfs Es; cbn [map spec_run] in Es; [inversion Es; subst; auto|].
      unfold args at 1 in Es. inversion Hfs; subst. inversion Hb as [|? ? [Hb1 Hb2] Hb3]; subst.
      destruct (spec_insert Y inj l0 (o_idx o) (o_slice o) (o_size o)) as [l1| |] eqn:E1; cbn [bind] in Es; try discriminate.
      eapply (IH l l1); eauto. unfold spec_insert in E1. destruct (Z.ltb_spec (rsum l0) (o_idx o)); [discriminate|].
      destruct (Z.leb_spec (o_size o) 0); [discriminate|].
      eapply (insert_values Y inj den fits Hd); [exact Hf| |split; [apply Hb1|eassumption]|exact E1].
      repeat constructor; cbn [fst snd]; auto; lia. }
    apply (G ops l []); auto. constructor. }
  pose proof (insert_full_ok X Y MAX inj M L HM nop r l hints idx x n R Hi Hn ltac:(lia)) as H.
  destruct (spec_insert Y inj l idx x n) as [l'| |] eqn:Esi; [|congruence|contradiction].
  destruct H as (r1 & c1 & E1 & R' & _). rewrite E in E1. inversion E1; subst r1 c1.
  destruct (spec_insert_sum _ _ _ _ _ _ _ Esi) as (Hs' & Hnp & Hidx).
  split; [rewrite (rle_size_ok X MAX inj M L _ _ R'); do 2 f_equal; lia|].
  assert (Eir : insert_runs Y inj l idx x n = Ok l').
  { unfold spec_insert in Esi. destruct (Z.ltb_spec (rsum l) idx); [lia|]. destruct (Z.leb_spec n 0); [lia|]. exact Esi. }
  assert (Hfx : fit fits [(x, n)]) by (repeat constructor; auto).
  destruct (insert_values Y inj den fits Hd l idx x n l' Hfit Hfx ltac:(lia) Eir) as [Hfit' Hv].
  assert (Hcov : forall l p, fit fits l -> 0 <= p < rsum l -> exists a b s, covering l p = Some (a, b, s)).
  { clear. intros l p Hf Hp. destruct (covering l p) as [[[a b] s]|] eqn:E; [eauto|]. exfalso. unfold covering in E.
    assert (G : forall l off, fit fits l -> off <= p < off + rsum l -> find (fun e : Z * Z * V => (fst (fst e) <=? p) && (p <? snd (fst e))) (spans off l) <> None).
    { clear. induction l as [|[s z] l IH]; intros off Hf Hp; cbn [rsum spans find fst snd] in *; [lia|].
      destruct ((off <=? p) && (p <? off + z)) eqn:Ec; [discriminate|]. inversion Hf; subst. apply IH; auto. lia. }
    apply (G l 0); auto; lia. }
  intros p Hp. destruct (Hcov l' p Hfit' ltac:(lia)) as (a & b & s & Ec).
  destruct (covering_value den fits l' p a b s Hfit' Ec) as (Hab & Hfs & Hval).
  exists a, b, s. split; [unfold get; rewrite (get_ok X MAX inj M L HM r' l' [] p R' ltac:(lia) ltac:(lia)), Ec; reflexivity|].
  split; auto. split; auto. specialize (Hv p ltac:(lia)). rewrite Hval in Hv.
  assert (Hold : forall p', 0 <= p' < rsum l -> Some (den s (p - a)) = value_at den l p' ->
    exists a' b' s', get X r (inj p') = Ok (inj a', inj b', s') /\ a' <= p' < b' /\ den s (p - a) = den s' (p' - a')).
  { intros p' Hp' Hv'. destruct (Hcov l p' Hfit Hp') as (a' & b' & s' & Ec').
    destruct (covering_value den fits l p' a' b' s' Hfit Ec') as (Hab' & _ & Hval'). exists a', b', s'.
    split; [unfold get; rewrite (get_ok X MAX inj M L HM r l [] p' R ltac:(lia) ltac:(lia)), Ec'; reflexivity|].
    split; auto. congruence. }
  destruct (Z.leb_spec idx p), (Z.ltb_spec p (idx + n)), (Z.ltb_spec p idx); cbn [andb]; try lia.
  - congruence.
  - apply Hold; auto. lia.
  - apply Hold; auto. lia.
Qed.

(** `get` on the run that covers the index, and outside. *)
Lemma C03_get_covering_run_proof : forall (I V : Type) (X : index_ops I) (Y : slice_ops I V) (MAX : Z) (inj : Z -> I)
    (M : nat) (nop : bool) (r : @rle I V) (A B : list (V * Z)) (s : V) (z : Z) (i : Z) (hints : list nat),
  index_laws X MAX inj -> (1 <= M)%nat -> reaches MAX inj X Y M nop r (A ++ (s, z) :: B) ->
  rsum A <= i < rsum A + z ->
  get_with_cursor X r hints (inj i) = Ok (inj (rsum A), inj (rsum A + z), s) /\
  get X r (inj i) = Ok (inj (rsum A), inj (rsum A + z), s).
Proof.
  intros I V X Y MAX inj M nop r A B s z i hints L HM Hr Hi. destruct (reaches_rep X Y MAX inj M L HM _ _ _ Hr) as [R Hl].
  pose proof (rle_rep_pos _ _ _ _ R) as Hp. pose proof Hp as Hp'. apply pos_runs_app in Hp'. destruct Hp' as [HA HB].
  pose proof (pos_runs_nonneg _ HA). inversion HB as [|? ? Hz HB']; subst. pose proof (pos_runs_nonneg _ HB').
  rewrite rsum_app in Hl. cbn [rsum snd] in *.
  unfold get. rewrite !(get_ok X MAX inj M L HM r _ _ i R) by (rewrite ?rsum_app; cbn [rsum]; lia).
  rewrite covering_app by auto. auto.
Qed.

Lemma C03_get_panics_outside_proof : forall (I V : Type) (X : index_ops I) (Y : slice_ops I V) (MAX : Z) (inj : Z -> I)
    (M : nat) (nop : bool) (r : @rle I V) (l : list (V * Z)) (i : Z) (hints : list nat),
  index_laws X MAX inj -> (1 <= M)%nat -> reaches MAX inj X Y M nop r l -> 0 <= i <= MAX ->
  (get_with_cursor X r hints (inj i) = Panic POutOfBounds <-> rsum l <= i).
Proof.
  intros I V X Y MAX inj M nop r l i hints L HM Hr Hi. destruct (reaches_rep X Y MAX inj M L HM _ _ _ Hr) as [R Hl].
  pose proof (rle_rep_pos _ _ _ _ R) as Hp. pose proof (pos_runs_nonneg _ Hp).
  rewrite (get_ok X MAX inj M L HM r l hints i R Hl Hi). destruct (covering l i) as [[[a b] s]|] eqn:E.
  - split; [discriminate|]. intros Hge. apply find_some in E. destruct E as [Hin Hb].
    pose proof (spans_lo l 0 Hp) as Hs. rewrite Forall_forall in Hs. specialize (Hs _ Hin). lia.
  - split; auto. intros _. destruct (Z.le_gt_cases (rsum l) i); auto. exfalso.
    assert (G : forall (l : list (V * Z)) off, off <= i < off + rsum l -> find (fun e : Z * Z * V => (fst (fst e) <=? i) && (i <? snd (fst e))) (spans off l) <> None).
    { clear. induction l as [|[s z] l IH]; intros off Hp; cbn [rsum spans find fst snd] in *; [lia|].
      destruct ((off <=? i) && (i <? off + z)) eqn:Ec; [discriminate|]. apply IH; auto. lia. }
    apply (G l 0); auto; lia.
Qed.

(** `size()` after a history. *)
Lemma C04_size_is_sum_proof : forall (I V : Type) (X : index_ops I) (Y : slice_ops I V) (MAX : Z) (inj : Z -> I)
    (M : nat) (nop : bool) (ops : list (@op V Z)) (r : @rle I V),
  index_laws X MAX inj -> (1 <= M)%nat -> ops_fit MAX ops ->
  run_ops X Y M nop None (map (inj_op inj) ops) = Ok r ->
  rle_size X r = Ok (inj (osum ops)) /\
  exists l, iter_collect X r [] SUnb EUnb = Ok (map (inj_item inj) (spans 0 l)) /\ rsum l = osum ops.
Proof.
  intros I V X Y MAX inj M nop ops r L HM [Hf Ho] E.
  pose proof (run_ok X Y MAX inj M L HM nop ops None [] eq_refl Hf ltac:(cbn [rsum]; lia)) as H.
  destruct (spec_run Y inj [] (map args ops)) as [l| |]; [|congruence|contradiction].
  destruct H as (r' & E' & R & Hs). rewrite E in E'. inversion E'; subst r'. cbn [rsum] in Hs. rewrite Z.add_0_l in Hs.
  split; [rewrite (rle_size_ok X MAX inj M L _ _ R), Hs; reflexivity|].
  exists l. split; auto. eapply iter_all_ok; eauto. lia.
Qed.

(** `number_of_slices()` after a history. *)
Lemma C05_len_counts_runs_proof : forall (I V : Type) (X : index_ops I) (Y : slice_ops I V) (MAX : Z) (inj : Z -> I)
    (M : nat) (nop : bool) (ops : list (@op V Z)) (r : @rle I V),
  index_laws X MAX inj -> (1 <= M)%nat -> ops_fit MAX ops ->
  run_ops X Y M nop None (map (inj_op inj) ops) = Ok r ->
  exists items, iter_collect X r [] SUnb EUnb = Ok items /\ rle_len r = length items.
Proof.
  intros I V X Y MAX inj M nop ops r L HM [Hf Ho] E.
  pose proof (run_ok X Y MAX inj M L HM nop ops None [] eq_refl Hf ltac:(cbn [rsum]; lia)) as H.
  destruct (spec_run Y inj [] (map args ops)) as [l| |]; [|congruence|contradiction].
  destruct H as (r' & E' & R & Hs). rewrite E in E'. inversion E'; subst r'. cbn [rsum] in Hs.
  eexists. split; [eapply iter_all_ok; eauto; lia|]. rewrite map_length, spans_length. eapply rle_len_ok; eauto.
Qed.

(** The shape of every tree, and the bound on its height. *)
Lemma C06_shape_and_height_proof : forall (I V : Type) (X : index_ops I) (Y : slice_ops I V) (MAX : Z) (inj : Z -> I)
    (M : nat) (nop : bool) (ops : list (@op V Z)) (r : @rle I V),
  index_laws X MAX inj -> (1 <= M)%nat -> ops_fit MAX ops ->
  run_ops X Y M nop None (map (inj_op inj) ops) = Ok r ->
  validate X M r = Ok tt /\
  match r with
  | None => ops = []
  | Some t => shape M 1 (r_height t) (r_node t) = true /\ (2 * (M + 1) ^ r_height t - 1 <= r_len t)%nat
  end.
Proof.
  intros I V X Y MAX inj M nop ops r L HM [Hf Ho] E.
  pose proof (run_ok X Y MAX inj M L HM nop ops None [] eq_refl Hf ltac:(cbn [rsum]; lia)) as H.
  destruct (spec_run Y inj [] (map args ops)) as [l| |] eqn:Es; [|congruence|contradiction].
  destruct H as (r' & E' & R & Hs). rewrite E in E'. inversion E'; subst r'. cbn [rsum] in Hs.
  split; [eapply validate_ok; eauto; lia|]. destruct r as [t|].
  - split; [destruct R as [R _]; eapply rep_shape; eauto|].
    pose proof (rep_height inj M HM t l R). lia.
  - cbn in R. subst l. cbn [rsum] in Hs.
    destruct ops as [|o ops]; auto. exfalso. cbn [map spec_run] in Es. unfold args at 1 in Es.
    destruct (spec_insert Y inj [] (o_idx o) (o_slice o) (o_size o)) as [l1| |] eqn:E1; cbn [bind] in Es; try discriminate.
    destruct (spec_insert_sum _ _ _ _ _ _ _ E1) as (_ & Hn & _). inversion Hf as [|? ? _ Hf']; subst.
    assert (0 <= osum ops). { clear - Hf'. induction Hf' as [|o ops [_ H] _ IH]; cbn [osum]; lia. }
    cbn [osum] in Hs. lia.
Qed.

(** Exactly when an insert panics, and with what. *)
Lemma C07_insert_outcome_proof : forall (I V : Type) (X : index_ops I) (Y : slice_ops I V) (MAX : Z) (inj : Z -> I)
    (M : nat) (nop : bool) (r : @rle I V) (l : list (V * Z)) (hints : list nat) (idx : Z) (x : V) (n : Z),
  index_laws X MAX inj -> (1 <= M)%nat -> reaches MAX inj X Y M nop r l ->
  0 <= idx <= MAX -> 0 <= n -> rsum l + n <= MAX ->
  let call := insert_with_cursor X Y M nop r hints (inj idx) x (inj n) in
  (call = Panic POutOfBounds <-> rsum l < idx) /\
  (call = Panic PBadSize <-> idx <= rsum l /\ n = 0) /\
  (call = Panic PTodo <-> 0 < n /\ joins_both Y l idx x) /\
  ((exists r' cur, call = Ok (r', cur)) <-> idx <= rsum l /\ 0 < n /\ ~ joins_both Y l idx x) /\
  (forall w, call = Panic w -> w = POutOfBounds \/ w = PBadSize \/ w = PTodo) /\
  call <> UB.
Proof.
  intros I V X Y MAX inj M nop r l hints idx x n L HM Hr Hi Hn Hm call.
  destruct (reaches_rep X Y MAX inj M L HM _ _ _ Hr) as [R Hl]. pose proof (rle_rep_pos _ _ _ _ R) as Hp.
  pose proof (insert_full_ok X Y MAX inj M L HM nop r l hints idx x n R Hi Hn Hm) as H. fold call in H. clearbody call.
  assert (Hjb : joins_both Y l idx x -> idx <= rsum l).
  { intros (A & s1 & z1 & s2 & z2 & B & m & j & -> & -> & _). rewrite rsum_app. cbn [rsum].
    apply pos_runs_app in Hp. destruct Hp as [_ Hp]. inversion Hp as [|? ? _ Hp2]; subst. pose proof (pos_runs_nonneg _ Hp2). cbn [rsum] in *. lia. }
  assert (Ht : rsum l < idx -> call = Panic POutOfBounds) by (intros; unfold spec_insert in H; destruct (Z.ltb_spec (rsum l) idx); [auto|lia]).
  assert (Hb : idx <= rsum l /\ n = 0 -> call = Panic PBadSize).
  { intros []. unfold spec_insert in H. destruct (Z.ltb_spec (rsum l) idx); [lia|]. destruct (Z.leb_spec n 0); [auto|lia]. }
  assert (Hj : 0 < n /\ joins_both Y l idx x -> call = Panic PTodo).
  { intros [? J]. specialize (Hjb J). unfold spec_insert in H. destruct (Z.ltb_spec (rsum l) idx); [lia|]. destruct (Z.leb_spec n 0); [lia|].
    apply (runs_ok_iff Y inj l idx x n Hp) in J. rewrite J in H. exact H. }
  assert (Ho : idx <= rsum l /\ 0 < n /\ ~ joins_both Y l idx x -> exists r' cur, call = Ok (r', cur)).
  { intros (? & ? & J). unfold spec_insert in H. destruct (Z.ltb_spec (rsum l) idx); [lia|]. destruct (Z.leb_spec n 0); [lia|].
    destruct (runs_result Y inj l idx x n Hp) as [[E Jb]|[l' E]]; rewrite E in H; [contradiction|]. destruct H as (r' & cur & -> & _). eauto. }
  assert (Hcase : rsum l < idx \/ (idx <= rsum l /\ n = 0) \/ (0 < n /\ joins_both Y l idx x) \/ (idx <= rsum l /\ 0 < n /\ ~ joins_both Y l idx x)).
  { destruct (Z.lt_ge_cases (rsum l) idx); auto. destruct (Z.eq_dec n 0); auto. right. right.
    pose proof (runs_ok_iff Y inj l idx x n Hp) as J.
    destruct (runs_result Y inj l idx x n Hp) as [[E Jb]|[l' E]]; [left; split; [lia|auto]|right].
    split; auto. split; [lia|]. intros Jb. apply J in Jb. congruence. }
  clear H.
  assert (D1 : rsum l < idx -> ~ (idx <= rsum l)) by lia.
  assert (D2 : n = 0 -> ~ 0 < n) by lia.
  destruct Hcase as [C|[C|[C|C]]];
    [pose proof (Ht C) as E|pose proof (Hb C) as E|pose proof (Hj C) as E|destruct (Ho C) as (r' & cur & E)];
    rewrite E in *;
    (split; [split; [intros Q; try discriminate; auto|intros; auto; lia]|]);
    (split; [split; [intros Q; try discriminate; auto|intros Q; tauto]|]);
    (split; [split; [intros Q; try discriminate; auto|intros Q; tauto]|]);
    (split; [split; [intros (? & ? & Q); try discriminate; auto|intros Q; try tauto; eauto]|]);
    (split; [intros w Q; try discriminate; inversion Q; auto|discriminate]).
Qed.

(** No addition overflows and no subtraction underflows: with overflow checks on, no arithmetic
    panic, for inserts with any arguments that fit, and for reads afterwards. *)
Lemma C08_no_overflow_proof : forall (V : Type) (Y : slice_ops Z V) (MAX : Z) (M : nat) (nop : bool) (ops : list (@op V Z)),
  (1 <= M)%nat -> ops_fit MAX ops ->
  run_ops (checked_ops MAX) Y M nop None ops <> Panic PArith /\
  forall r, run_ops (checked_ops MAX) Y M nop None ops = Ok r ->
    (forall i hints, 0 <= i <= MAX -> get_with_cursor (checked_ops MAX) r hints i <> Panic PArith) /\
    (forall sb eb hints it calls, sb_in MAX sb -> eb_in MAX eb -> iter_new (checked_ops MAX) r hints sb eb = Ok it ->
       iter_calls (checked_ops MAX) r it calls <> Panic PArith).
Proof.
  intros V Y MAX M nop ops HM [Hf Ho]. pose proof (checked_laws MAX) as L.
  pose proof (run_ok (checked_ops MAX) Y MAX (fun z => z) M L HM nop ops None [] eq_refl Hf ltac:(cbn [rsum]; lia)) as H.
  assert (Eops : map (inj_op (fun z => z)) ops = ops).
  { rewrite <- (map_id ops) at 2. apply map_ext. intros []. reflexivity. }
  rewrite Eops in H.
  assert (Hspec : forall ops l, Forall (fun o => 0 <= o_idx o <= MAX /\ 0 <= o_size o) ops -> pos_runs l -> spec_run Y (fun z => z) l (map args ops) <> Panic PArith).
  { clear. induction ops as [|o ops IH]; intros l Hf Hp; cbn [map spec_run]; [discriminate|]. unfold args at 1.
    inversion Hf as [|? ? [H1 H2] Hf']; subst.
    unfold spec_insert. destruct (Z.ltb_spec (rsum l) (o_idx o)); [discriminate|]. destruct (Z.leb_spec (o_size o) 0); [discriminate|].
    destruct (runs_result Y (fun z => z) l (o_idx o) (o_slice o) (o_size o) Hp) as [[E _]|[l' E]]; rewrite E; cbn [bind]; [discriminate|].
    apply IH; auto. eapply (insert_runs_pos Y (fun z => z)); [exact Hp| | |exact E]; lia. }
  split.
  - destruct (spec_run Y (fun z => z) [] (map args ops)) as [l|w|] eqn:Es; [|rewrite H; intros Hw; inversion Hw; subst; revert Es; apply Hspec; [exact Hf|constructor]|contradiction].
    destruct H as (r & -> & _). discriminate.
  - intros r Er. destruct (spec_run Y (fun z => z) [] (map args ops)) as [l|w|] eqn:Es; [|congruence|contradiction].
    destruct H as (r' & E' & R & Hs). rewrite Er in E'. inversion E'; subst r'. cbn [rsum] in Hs. split.
    + intros i hints Hi. rewrite (get_ok _ MAX (fun z => z) M L HM r l hints i R ltac:(lia) Hi). destruct (covering l i) as [[[? ?] ?]|]; discriminate.
    + intros sb eb hints it calls Hsb Heb Eit.
      pose proof (iter_ok _ MAX (fun z => z) M L HM r l hints sb eb R ltac:(lia) Hsb Heb) as H.
      assert (Esb : inj_sb (fun z => z) sb = sb) by (destruct sb; reflexivity).
      assert (Eeb : inj_eb (fun z => z) eb = eb) by (destruct eb; reflexivity). rewrite Esb, Eeb in H.
      destruct (range_ok (rsum l) sb eb); [|congruence]. destruct H as (it' & E & H). rewrite Eit in E. inversion E; subst it'.
      destruct (H calls) as (it'' & ->). discriminate.
Qed.

(** `Constant` slices: runs stay maximally merged and valid inserts never panic. *)
Lemma C09_constant_merged_proof : forall (I T : Type) (eqb : T -> T -> bool) (X : index_ops I) (MAX : Z) (inj : Z -> I)
    (M : nat) (nop : bool) (ops : list (@op T Z)),
  (forall a b, eqb a b = true <-> a = b) -> index_laws X MAX inj -> (1 <= M)%nat -> ops_fit MAX ops ->
  match run_ops X (constant_ops eqb) M nop None (map (inj_op inj) ops) with
  | Ok r => exists l, iter_collect X r [] SUnb EUnb = Ok (map (inj_item inj) (spans 0 l)) /\ merged eqb l = true
  | Panic w => w = POutOfBounds \/ w = PBadSize
  | UB => False
  end.
Proof.
  intros I T eqb X MAX inj M nop ops Heq L HM [Hf Ho].
  pose proof (run_ok X (constant_ops eqb) MAX inj M L HM nop ops None [] eq_refl Hf ltac:(cbn [rsum]; lia)) as H.
  assert (G : forall ops l, Forall (fun o => 0 <= o_idx o <= MAX /\ 0 <= o_size o) ops -> pos_runs l -> merged eqb l = true ->
    match spec_run (constant_ops eqb) inj l (map args ops) with
    | Ok l' => merged eqb l' = true | Panic w => w = POutOfBounds \/ w = PBadSize | UB => False end).
  { clear - Heq. induction ops as [|o ops IH]; intros l Hf Hp Hm; cbn [map spec_run]; auto. unfold args at 1.
    inversion Hf as [|? ? [H1 H2] Hf']; subst.
    destruct (spec_insert (constant_ops eqb) inj l (o_idx o) (o_slice o) (o_size o)) as [l'|w|] eqn:E; cbn [bind].
    - destruct (spec_insert_sum _ _ _ _ _ _ _ E) as (_ & Hn & Hi).
      destruct (constant_spec_insert eqb inj Heq l (o_idx o) (o_slice o) (o_size o) Hm Hp ltac:(lia) Hi Hn) as (l2 & E2 & M2).
      rewrite E in E2. inversion E2; subst l2. apply IH; auto.
      unfold spec_insert in E. destruct (Z.ltb_spec (rsum l) (o_idx o)); [discriminate|]. destruct (Z.leb_spec (o_size o) 0); [discriminate|].
      eapply (insert_runs_pos _ inj); [exact Hp| | |exact E]; lia.
    - unfold spec_insert in E. destruct (Z.ltb_spec (rsum l) (o_idx o)); [inversion E; auto|]. destruct (Z.leb_spec (o_size o) 0); [inversion E; auto|].
      exfalso. destruct (constant_insert eqb inj Heq l (o_idx o) (o_slice o) (o_size o) Hm ltac:(lia) Hp) as (l2 & E2 & _). congruence.
    - unfold spec_insert in E. destruct (Z.ltb_spec (rsum l) (o_idx o)); [discriminate|]. destruct (Z.leb_spec (o_size o) 0); [discriminate|].
      destruct (constant_insert eqb inj Heq l (o_idx o) (o_slice o) (o_size o) Hm ltac:(lia) Hp) as (l2 & E2 & _). congruence. }
  specialize (G ops [] Hf ltac:(constructor) eq_refl).
  destruct (spec_run (constant_ops eqb) inj [] (map args ops)) as [l|w|]; [|rewrite H; exact G|contradiction].
  destruct H as (r & -> & R & Hs). cbn [rsum] in Hs. exists l. split; auto. eapply iter_all_ok; eauto. lia.
Qed.

(** Cursors are only hints: every result, including the returned cursor, is the same. *)
Lemma C11_cursors_are_hints_proof : forall (I V : Type) (X : index_ops I) (Y : slice_ops I V) (MAX : Z) (inj : Z -> I)
    (M : nat) (nop : bool) (r : @rle I V) (l : list (V * Z)) (c c' : list nat) (i : Z),
  index_laws X MAX inj -> (1 <= M)%nat -> reaches MAX inj X Y M nop r l -> 0 <= i <= MAX ->
  get_with_cursor X r c (inj i) = get_with_cursor X r c' (inj i) /\
  (forall x n, insert_with_cursor X Y M nop r c (inj i) x n = insert_with_cursor X Y M nop r c' (inj i) x n) /\
  (forall sb eb, sb_in MAX sb -> eb_in MAX eb ->
     iter_collect X r c (inj_sb inj sb) (inj_eb inj eb) = iter_collect X r c' (inj_sb inj sb) (inj_eb inj eb)).
Proof.
  intros I V X Y MAX inj M nop r l c c' i L HM Hr Hi. destruct (reaches_rep X Y MAX inj M L HM _ _ _ Hr) as [R Hl].
  split; [rewrite !(get_ok X MAX inj M L HM r l _ i R Hl Hi); reflexivity|]. split.
  - intros x n. eapply insert_hints_ok; eauto.
  - intros sb eb Hs He. rewrite !(iter_collect_ok X MAX inj M L HM r l _ sb eb R Hl Hs He). reflexivity.
Qed.

(** The cursor returned by an insert, except when the new slice merges into the left part of a run
    that it cuts (see the refutation below for that case). *)
Lemma C12_cursor_leads_to_slice_partial_proof : forall (I V : Type) (X : index_ops I) (Y : slice_ops I V) (MAX : Z) (inj : Z -> I)
    (M : nat) (nop : bool) (r : @rle I V) (l : list (V * Z)) (hints : list nat) (idx : Z) (x : V) (n : Z) (r' : @rle I V) (cur : list nat),
  index_laws X MAX inj -> (1 <= M)%nat -> reaches MAX inj X Y M nop r l ->
  0 <= idx <= MAX -> 0 <= n -> rsum l + n <= MAX ->
  insert_with_cursor X Y M nop r hints (inj idx) x (inj n) = Ok (r', cur) ->
  left_join_only Y inj l idx x = false ->
  path_to r' cur (inserted_at Y inj l idx x).
Proof.
  intros I V X Y MAX inj M nop r l hints idx x n r' cur L HM Hr Hi Hn Hm E Hj.
  destruct (reaches_rep X Y MAX inj M L HM _ _ _ Hr) as [R Hl].
  pose proof (insert_full_ok X Y MAX inj M L HM nop r l hints idx x n R Hi Hn Hm) as H.
  destruct (spec_insert Y inj l idx x n) as [l'| |]; [|congruence|contradiction].
  destruct H as (r1 & c1 & E1 & _ & T). rewrite E in E1. inversion E1; subst. apply tracks_path_to. auto.
Qed.

(** In that case it depends on the tree. *)
Lemma C12_cursor_exact_proof : forall (I V : Type) (X : index_ops I) (Y : slice_ops I V) (MAX : Z) (inj : Z -> I)
    (M : nat) (r : @rle I V) (l : list (V * Z)) (hints : list nat) (idx : Z) (x : V) (n : Z) (r' : @rle I V) (cur : list nat),
  index_laws X MAX inj -> (1 <= M)%nat -> reaches MAX inj X Y M false r l ->
  0 <= idx <= MAX -> 0 <= n -> rsum l + n <= MAX ->
  insert_with_cursor X Y M false r hints (inj idx) x (inj n) = Ok (r', cur) ->
  (path_to r' cur (inserted_at Y inj l idx x) <->
   left_join_only Y inj l idx x = false \/ cursor_kept M r (inserted_at Y inj l idx x)).
Proof.
  intros I V X Y MAX inj M r l hints idx x n r' cur L HM Hr Hi Hn Hm E.
  destruct (left_join_only Y inj l idx x) eqn:Hj.
  2:{ split; auto. intros _. eapply C12_cursor_leads_to_slice_partial_proof; eauto. }
  destruct (reaches_rep X Y MAX inj M L HM _ _ _ Hr) as [R Hl].
  pose proof (insert_full_ok X Y MAX inj M L HM false r l hints idx x n R Hi Hn Hm) as H. unfold spec_insert in H.
  destruct (Z.ltb_spec (rsum l) idx); [congruence|]. destruct (Z.leb_spec n 0); [congruence|].
  rewrite (insert_cursor_kept X MAX inj M L HM Y r l hints idx x n r' cur R) by (auto; lia).
  split; [auto|]. intros [Q|Q]; [discriminate|exact Q].
Qed.

(** With `Constant` slices that case does not occur. *)
Lemma C12_constant_cursor_proof : forall (I T : Type) (eqb : T -> T -> bool) (X : index_ops I) (MAX : Z) (inj : Z -> I)
    (M : nat) (nop : bool) (r : @rle I T) (l : list (T * Z)) (hints : list nat) (idx : Z) (x : T) (n : Z) (r' : @rle I T) (cur : list nat),
  (forall a b, eqb a b = true <-> a = b) ->
  index_laws X MAX inj -> (1 <= M)%nat -> reaches MAX inj X (constant_ops eqb) M nop r l ->
  0 <= idx <= MAX -> 0 <= n -> rsum l + n <= MAX ->
  insert_with_cursor X (constant_ops eqb) M nop r hints (inj idx) x (inj n) = Ok (r', cur) ->
  path_to r' cur (inserted_at (constant_ops eqb) inj l idx x).
Proof.
  intros I T eqb X MAX inj M nop r l hints idx x n r' cur Heq L HM Hr Hi Hn Hm E.
  eapply C12_cursor_leads_to_slice_partial_proof; eauto.
  clear - Heq. revert idx. induction l as [|[s z] l IH]; intros idx; cbn [left_join_only]; auto.
  destruct (idx =? 0); auto. destruct (idx <? z); auto.
  unfold join. cbn [constant_ops sl_split_at sl_may_join sl_try_join]. destruct (eqb s x) eqn:E; auto.
  rewrite (proj2 (Heq s s) eq_refl). reflexivity.
Qed.

(** `entry.size()` of entries from `get` and from `iter`. *)
Lemma C35_entry_size_proof : forall (I V : Type) (X : index_ops I) (Y : slice_ops I V) (MAX : Z) (inj : Z -> I)
    (M : nat) (nop : bool) (r : @rle I V) (l : list (V * Z)) (e : I * I * V),
  index_laws X MAX inj -> (1 <= M)%nat -> reaches MAX inj X Y M nop r l ->
  ((exists i hints, 0 <= i <= MAX /\ get_with_cursor X r hints (inj i) = Ok e) \/
   (exists sb eb hints items, sb_in MAX sb /\ eb_in MAX eb /\
      iter_collect X r hints (inj_sb inj sb) (inj_eb inj eb) = Ok items /\ In e items)) ->
  exists A s z B, l = A ++ (s, z) :: B /\ e = (inj (rsum A), inj (rsum A + z), s) /\
    entry_size X e = Ok (inj z) /\ ix_add_right X (fst (fst e)) (inj z) = Ok (snd (fst e)).
Proof.
  intros I V X Y MAX inj M nop r l e L HM Hr He. destruct (reaches_rep X Y MAX inj M L HM _ _ _ Hr) as [R Hl].
  pose proof (rle_rep_pos _ _ _ _ R) as Hp.
  assert (Hin : exists a b s, e = (inj a, inj b, s) /\ In (a, b, s) (spans 0 l)).
  { destruct He as [(i & hints & Hi & E)|(sb & eb & hints & items & Hs & Hb & E & Hin)].
    - rewrite (get_ok X MAX inj M L HM r l hints i R Hl Hi) in E. destruct (covering l i) as [[[a b] s]|] eqn:Ec; [|discriminate].
      inversion E; subst. apply find_some in Ec. exists a, b, s. tauto.
    - rewrite (iter_collect_ok X MAX inj M L HM r l hints sb eb R Hl Hs Hb) in E. destruct (range_ok (rsum l) sb eb); [|discriminate].
      inversion E; subst. apply in_map_iff in Hin. destruct Hin as ([[a b] s] & <- & Hin). apply filter_In in Hin. exists a, b, s. tauto. }
  destruct Hin as (a & b & s & -> & Hin).
  assert (G : forall (l : list (V * Z)) off, In (a, b, s) (spans off l) -> exists A z B, l = A ++ (s, z) :: B /\ a = off + rsum A /\ b = a + z).
  { clear. induction l as [|[s0 z0] l IH]; intros off H; cbn [spans] in H; [destruct H|]. destruct H as [H|H].
    - inversion H; subst. exists [], z0, l. cbn [app rsum]. split; auto. split; lia.
    - destruct (IH _ H) as (A & z & B & -> & -> & ->). exists ((s0, z0) :: A), z, B. cbn [app rsum]. split; auto. split; lia. }
  destruct (G l 0 Hin) as (A & z & B & El & Ea & Eb). rewrite Z.add_0_l in Ea. subst a b.
  rewrite El in Hp, Hl. apply pos_runs_app in Hp. destruct Hp as [HA HB]. pose proof (pos_runs_nonneg _ HA).
  inversion HB as [|? ? Hz HB']; subst. pose proof (pos_runs_nonneg _ HB'). rewrite rsum_app in Hl. cbn [rsum snd] in *.
  exists A, s, z, B. split; auto. split; auto. unfold entry_size. cbn [fst snd].
  rewrite (il_subr _ _ _ L) by lia. rewrite (il_addr _ _ _ L) by lia. split; auto. do 2 f_equal. lia.
Qed.

(** A build with wrapping arithmetic behaves as the build with overflow checks. *)
Lemma C08_release_build_agrees_proof : forall (V : Type) (Y : slice_ops Z V) (MAX : Z) (M : nat) (nop : bool) (ops : list (@op V Z)),
  (1 <= M)%nat -> ops_fit MAX ops ->
  match run_ops (checked_ops MAX) Y M nop None ops with
  | Ok r => exists r', run_ops (wrapping_ops MAX) Y M nop None ops = Ok r' /\
      iter_collect (wrapping_ops MAX) r' [] SUnb EUnb = iter_collect (checked_ops MAX) r [] SUnb EUnb /\
      rle_size (wrapping_ops MAX) r' = rle_size (checked_ops MAX) r /\
      forall i, 0 <= i <= MAX -> get (wrapping_ops MAX) r' i = get (checked_ops MAX) r i
  | Panic w => run_ops (wrapping_ops MAX) Y M nop None ops = Panic w
  | UB => False
  end.
Proof.
  intros V Y MAX M nop ops HM [Hf Ho]. pose proof (checked_laws MAX) as L.
  assert (H0 : 0 <= osum ops). { clear - Hf. induction Hf as [|o ops [_ H] _ IH]; cbn [osum]; lia. }
  pose proof (wrapping_laws MAX ltac:(lia)) as L'.
  assert (Eops : map (inj_op (fun z => z)) ops = ops).
  { rewrite <- (map_id ops) at 2. apply map_ext. intros []. reflexivity. }
  pose proof (run_ok (checked_ops MAX) Y MAX (fun z => z) M L HM nop ops None [] eq_refl Hf ltac:(cbn [rsum]; lia)) as H.
  pose proof (run_ok (wrapping_ops MAX) Y MAX (fun z => z) M L' HM nop ops None [] eq_refl Hf ltac:(cbn [rsum]; lia)) as H'.
  rewrite Eops in H, H'. destruct (spec_run Y (fun z => z) [] (map args ops)) as [l|w|]; [|rewrite H; exact H'|contradiction].
  destruct H as (r & -> & R & Hs). destruct H' as (r' & E' & R' & _). cbn [rsum] in Hs.
  exists r'. split; auto. split; [|split].
  - rewrite (iter_all_ok _ MAX (fun z => z) M L HM r l [] R), (iter_all_ok _ MAX (fun z => z) M L' HM r' l [] R') by lia. reflexivity.
  - rewrite (rle_size_ok _ MAX (fun z => z) M L _ _ R), (rle_size_ok _ MAX (fun z => z) M L' _ _ R'). reflexivity.
  - intros i Hi. unfold get. rewrite (get_ok _ MAX (fun z => z) M L HM r l [] i R), (get_ok _ MAX (fun z => z) M L' HM r' l [] i R') by lia. reflexivity.
Qed.

(** Joining with both neighbours is documented but ends in `todo!()`: integer intervals, which obey the
    contract of `Slice`, and a valid insert of the missing piece between two intervals. *)
Lemma C10_join_both_refuted_proof : exists (V D : Type) (Y : slice_ops Z V) (den : V -> Z -> D) (fits : V -> Z -> Prop)
    (r : @rle Z V) (l : list (V * Z)) (idx : Z) (x : V) (n : Z),
  denotes Y (fun z => z) den fits /\ reaches 1000 (fun z => z) (checked_ops 1000) Y 1 false r l /\
  0 <= idx <= rsum l /\ 0 < n /\ rsum l + n <= 1000 /\ fits x n /\
  insert (checked_ops 1000) Y 1 r idx x n = Panic PTodo.
Proof.
  exists (Z * Z)%type, Z, interval_ops, interval_den, interval_fits, i_tree, i_runs, 13, (10, 20), 10.
  split; [exact interval_denotes|]. split; [exact i_reaches|]. vm_compute. repeat split; discriminate.
Qed.

(** For every slice type: whenever both joins are accepted, the insert panics and never merges. *)
Lemma C10_join_both_always_panics_proof : forall (I V : Type) (X : index_ops I) (Y : slice_ops I V) (MAX : Z) (inj : Z -> I)
    (M : nat) (nop : bool) (r : @rle I V) (A B : list (V * Z)) (s s2 m j x : V) (z z2 n : Z) (hints : list nat),
  index_laws X MAX inj -> (1 <= M)%nat -> reaches MAX inj X Y M nop r (A ++ (s, z) :: (s2, z2) :: B) ->
  0 < n -> rsum (A ++ (s, z) :: (s2, z2) :: B) + n <= MAX ->
  sl_may_join Y = true -> sl_try_join Y s x = inl m -> sl_try_join Y m s2 = inl j ->
  insert_with_cursor X Y M nop r hints (inj (rsum A + z)) x (inj n) = Panic PTodo.
Proof.
  intros I V X Y MAX inj M nop r A B s s2 m j x z z2 n hints L HM Hr Hn Hm Hmj E1 E2.
  destruct (reaches_rep X Y MAX inj M L HM _ _ _ Hr) as [R Hl]. pose proof (rle_rep_pos _ _ _ _ R) as Hp.
  pose proof Hp as Hp'. apply pos_runs_app in Hp'. destruct Hp' as [HA HB]. pose proof (pos_runs_nonneg _ HA).
  inversion HB as [|? ? Hz HB']; subst. pose proof (pos_runs_nonneg _ HB'). rewrite rsum_app in Hl, Hm. cbn [rsum snd] in *.
  apply (C07_insert_outcome_proof I V X Y MAX inj M nop r (A ++ (s, z) :: (s2, z2) :: B) hints (rsum A + z) x n L HM Hr); try lia.
  - rewrite rsum_app. cbn [rsum]. lia.
  - split; auto. exists A, s, z, s2, z2, B, m, j. auto.
Qed.

(** The returned cursor when the new slice merges into the left part only: here the path is that of
    the node above. *)
Lemma C12_cursor_refuted_proof : exists (V D : Type) (Y : slice_ops Z V) (den : V -> Z -> D) (fits : V -> Z -> Prop)
    (r r' : @rle Z V) (l : list (V * Z)) (idx : Z) (x : V) (n : Z) (cur : list nat),
  denotes Y (fun z => z) den fits /\ reaches 1000 (fun z => z) (checked_ops 1000) Y 1 false r l /\
  0 <= idx <= rsum l /\ 0 < n /\ rsum l + n <= 1000 /\ fits x n /\
  insert_with_cursor (checked_ops 1000) Y 1 false r [] idx x n = Ok (r', cur) /\
  ~ path_to r' cur (inserted_at Y (fun z => z) l idx x).
Proof.
  exists (Z * Z)%type, Z, interval_ops, interval_den, interval_fits, i_tree.
  eexists. exists i_runs, 3, (1, 9), 8. eexists.
  split; [exact interval_denotes|]. split; [exact i_reaches|].
  split; [vm_compute; split; discriminate|]. split; [reflexivity|]. split; [vm_compute; discriminate|]. split; [reflexivity|].
  split; [vm_compute; reflexivity|].
  intros [key Hk]. vm_compute in Hk. discriminate.
Qed.
