(** Proofs about serde. *)
From Coq Require Import List ZArith Lia Bool Arith.
From Verif Require Import Base Index Slice Tree Insert Range Spec Iter Hist Rep Ins IterP IterQ HistP Flat TreePropsP Serde.
Import ListNotations.
Local Open Scope Z_scope.

(** Histories whose slices fit their sizes have fitting runs. *)
Lemma spec_run_fit : forall (I V D : Type) (Y : slice_ops I V) (inj : Z -> I) (den : V -> Z -> D) (fits : V -> Z -> Prop) MAX ops l l0,
  denotes Y inj den fits ->
  Forall (fun o => 0 <= o_idx o <= MAX /\ 0 <= o_size o) ops -> fit fits l0 -> Forall (fun o => fits (o_slice o) (o_size o)) ops ->
  spec_run Y inj l0 (map args ops) = Ok l -> fit fits l.
Proof.
  intros I V D Y inj den fits MAX ops l l0 Hd. revert l0.
  induction ops as [|o ops IH]; intros l0 Hb Hf Hfs Es; cbn [map spec_run] in Es; [inversion Es; subst; auto|].
  unfold args at 1 in Es. inversion Hfs; subst. inversion Hb as [|? ? [Hb1 Hb2] Hb3]; subst.
  destruct (spec_insert Y inj l0 (o_idx o) (o_slice o) (o_size o)) as [l1| |] eqn:E1; cbn [bind] in Es; try discriminate.
  eapply (IH l1); eauto. unfold spec_insert in E1. destruct (Z.ltb_spec (rsum l0) (o_idx o)); [discriminate|].
  destruct (Z.leb_spec (o_size o) 0); [discriminate|].
  eapply (insert_values Y inj den fits Hd); [exact Hf| |split; [apply Hb1|eassumption]|exact E1].
  repeat constructor; cbn [fst snd]; auto; lia.
Qed.

Section SerdeP.
  Context {I V : Type} (X : index_ops I) (Y : slice_ops I V) (MAX : Z) (inj : Z -> I) (M : nat).
  Hypothesis L : index_laws X MAX inj.
  Hypothesis HM : (1 <= M)%nat.
  Notation run := (prod V Z) (only parsing).

  (** The runs as the serialiser sees them. *)
  Definition inj_pair (r : run) : I * V := (inj (snd r), fst r).

  Lemma sizes_ok : forall (l : list run) off, pos_runs l -> 0 <= off -> off + rsum l <= MAX ->
    mapM (fun e => let* z := entry_size X e in Ok (z, snd e)) (map (inj_item inj) (spans off l)) = Ok (map inj_pair l).
  Proof.
    induction l as [|[s z] l IH]; intros off Hp H0 Hm; [reflexivity|].
    inversion Hp as [|? ? Hz Hp']; subst. cbn [snd rsum] in *. pose proof (pos_runs_nonneg _ Hp').
    cbn [spans map mapM]. unfold inj_item at 1, entry_size at 1. cbn [fst snd].
    rewrite (il_subr X MAX inj L) by lia. cbn [bind]. rewrite IH by (auto; lia). cbn [bind].
    unfold inj_pair at 2. cbn [fst snd]. replace (off + z - off) with z by lia. reflexivity.
  Qed.

  Lemma serialize_ok : forall r l, rle_rep inj M r l -> rsum l <= MAX -> serialize X r = Ok (map inj_pair l).
  Proof.
    intros r l R Hm. unfold serialize. rewrite (iter_all_ok X MAX inj M L HM r l [] R Hm). cbn [bind].
    apply sizes_ok; [eapply rle_rep_pos; eauto|lia|lia].
  Qed.

  (** Appending one run. *)
  Definition append_run (l : list run) (x : V) (n : Z) : list run :=
    match rev l with
    | [] => [(x, n)]
    | (s, z) :: l' => rev l' ++ match join Y s x with inl j => [(j, z + n)] | inr (s', x') => [(s', z); (x', n)] end
    end.
  Fixpoint append_all (l data : list run) : list run :=
    match data with [] => l | (x, n) :: data' => append_all (append_run l x n) data' end.

  Lemma append_ok : forall l x n, pos_runs l -> 0 < n -> spec_insert Y inj l (rsum l) x n = Ok (append_run l x n).
  Proof.
    intros l x n Hp Hn. unfold spec_insert. destruct (Z.ltb_spec (rsum l) (rsum l)); [lia|]. destruct (Z.leb_spec n 0); [lia|].
    unfold append_run. destruct (rev l) as [|[s z] l'] eqn:E.
    - assert (l = []) by (rewrite <- (rev_involutive l), E; reflexivity). subst. reflexivity.
    - assert (El : l = rev l' ++ [(s, z)]) by (rewrite <- (rev_involutive l), E; reflexivity). subst l. clear E.
      apply pos_runs_app in Hp. destruct Hp as [HA HB]. inversion HB as [|? ? Hz _]; subst. cbn [snd] in Hz.
      rewrite rsum_app. cbn [rsum]. rewrite Z.add_0_r. rewrite (spec_app Y inj 1 (le_n 1)) by (auto; lia).
      cbn [insert_runs]. destruct (Z.eqb_spec z 0); [lia|]. destruct (Z.ltb_spec z z); [lia|]. rewrite Z.eqb_refl.
      cbn [place]. destruct (join Y s x) as [j|[s' x']]; reflexivity.
  Qed.

  Lemma append_pos : forall l x n, pos_runs l -> 0 < n -> pos_runs (append_run l x n).
  Proof.
    intros l x n Hp Hn. pose proof (append_ok l x n Hp Hn) as E. pose proof (pos_runs_nonneg _ Hp). unfold spec_insert in E.
    destruct (Z.ltb_spec (rsum l) (rsum l)); [lia|]. destruct (Z.leb_spec n 0); [lia|].
    eapply (insert_runs_pos Y inj); [exact Hp| |exact Hn|exact E]. lia.
  Qed.

  Lemma append_sum : forall l x n, pos_runs l -> 0 < n -> rsum (append_run l x n) = rsum l + n.
  Proof. intros l x n Hp Hn. pose proof (append_ok l x n Hp Hn) as E. apply spec_insert_sum in E. tauto. Qed.

  Lemma visit_ok : forall (data : list run) r l, reaches MAX inj X Y M true r l -> pos_runs data -> rsum l + rsum data <= MAX ->
    exists r', visit_loop X Y M r (map inj_pair data) = Ok r' /\ reaches MAX inj X Y M true r' (append_all l data).
  Proof.
    induction data as [|[x n] data IH]; intros r l Hr Hp Hm; [exists r; auto|].
    inversion Hp as [|? ? Hn Hp']; subst. cbn [snd rsum] in *. pose proof (pos_runs_nonneg _ Hp').
    destruct (reaches_rep X Y MAX inj M L HM _ _ _ Hr) as [R Hl]. pose proof (rle_rep_pos _ _ _ _ R) as Hpl.
    pose proof (pos_runs_nonneg _ Hpl).
    cbn [map visit_loop]. unfold inj_pair at 1. cbn [fst snd]. rewrite (rle_size_ok X MAX inj M L _ _ R). cbn [bind].
    destruct (reaches_step X Y MAX inj M L HM true r l [] (rsum l) x n _ Hr ltac:(lia) ltac:(lia) ltac:(lia) (append_ok l x n Hpl Hn))
      as (r1 & cur & E1 & Hr1 & _).
    unfold insert. rewrite E1. cbn [bind]. cbn [append_all].
    apply IH; auto. rewrite append_sum by auto. lia.
  Qed.

  Lemma visit_zero : forall (data data' : list run) x r l, reaches MAX inj X Y M true r l -> pos_runs data -> rsum l + rsum data <= MAX ->
    visit_loop X Y M r (map inj_pair (data ++ (x, 0) :: data')) = Panic PBadSize.
  Proof.
    intros data data' x. induction data as [|[y n] data IH]; intros r l Hr Hp Hm.
    - destruct (reaches_rep X Y MAX inj M L HM _ _ _ Hr) as [R Hl]. pose proof (rle_rep_pos _ _ _ _ R) as Hpl.
      pose proof (pos_runs_nonneg _ Hpl). cbn [app map visit_loop]. unfold inj_pair at 1. cbn [fst snd rsum] in *.
      rewrite (rle_size_ok X MAX inj M L _ _ R). cbn [bind]. unfold insert.
      pose proof (insert_full_ok X Y MAX inj M L HM true r l [] (rsum l) x 0 R ltac:(lia) ltac:(lia) ltac:(lia)) as H1.
      unfold spec_insert in H1. destruct (Z.ltb_spec (rsum l) (rsum l)); [lia|]. cbn [Z.leb Z.compare] in H1. rewrite H1. reflexivity.
    - inversion Hp as [|? ? Hn Hp']; subst. cbn [snd rsum] in *. pose proof (pos_runs_nonneg _ Hp').
      destruct (reaches_rep X Y MAX inj M L HM _ _ _ Hr) as [R Hl]. pose proof (rle_rep_pos _ _ _ _ R) as Hpl.
      pose proof (pos_runs_nonneg _ Hpl).
      cbn [app map visit_loop]. unfold inj_pair at 1. cbn [fst snd]. rewrite (rle_size_ok X MAX inj M L _ _ R). cbn [bind].
      destruct (reaches_step X Y MAX inj M L HM true r l [] (rsum l) y n _ Hr ltac:(lia) ltac:(lia) ltac:(lia) (append_ok l y n Hpl Hn))
        as (r1 & cur & E1 & Hr1 & _).
      unfold insert. rewrite E1. cbn [bind].
      apply (IH r1 _ Hr1); auto. rewrite append_sum by auto. lia.
  Qed.

  Lemma append_all_exact : forall (data l : list run),
    (forall A s z s2 z2 B, l ++ data = A ++ (s, z) :: (s2, z2) :: B -> join Y s s2 = inr (s, s2)) ->
    append_all l data = l ++ data.
  Proof.
    induction data as [|[x n] data IH]; intros l H; cbn [append_all]; [rewrite app_nil_r; auto|].
    assert (E : append_run l x n = l ++ [(x, n)]).
    { unfold append_run. destruct (rev l) as [|[s z] l'] eqn:E.
      - assert (l = []) by (rewrite <- (rev_involutive l), E; reflexivity). subst. reflexivity.
      - assert (El : l = rev l' ++ [(s, z)]) by (rewrite <- (rev_involutive l), E; reflexivity). subst l.
        rewrite (H (rev l') s z x n data) by (rewrite <- app_assoc; reflexivity). rewrite <- app_assoc. reflexivity. }
    rewrite E, IH; rewrite <- app_assoc; auto.
  Qed.

  Lemma reaches_empty : 0 <= MAX -> reaches MAX inj X Y M true None [].
  Proof. intros. destruct (reaches_nil X Y MAX inj M HM true); [auto|lia]. Qed.

  Section Vals.
    Context {D : Type} (den : V -> Z -> D) (fits : V -> Z -> Prop).
    Hypothesis Hd : denotes Y inj den fits.

    Lemma append_all_same : forall (data l : list run), fit fits l -> fit fits data ->
      fit fits (append_all l data) /\ (forall p, 0 <= p -> value_at den (append_all l data) p = value_at den (l ++ data) p) /\
      rsum (append_all l data) = rsum l + rsum data.
    Proof.
      induction data as [|[x n] data IH]; intros l Fl Fd; cbn [append_all].
      - rewrite app_nil_r. split; auto. split; auto. cbn [rsum]. lia.
      - inversion Fd as [|? ? [Fx Hn] Fd']; subst. cbn [fst snd] in *. pose proof (fit_nn fits _ Fl).
        assert (Hp : pos_runs l) by (eapply Forall_impl; [|exact Fl]; cbn; tauto).
        pose proof (append_ok l x n Hp Hn) as E. unfold spec_insert in E.
        destruct (Z.ltb_spec (rsum l) (rsum l)); [lia|]. destruct (Z.leb_spec n 0); [lia|].
        assert (Fx1 : fit fits [(x, n)]) by (repeat constructor; auto).
        destruct (insert_values Y inj den fits Hd l (rsum l) x n _ Fl Fx1 ltac:(lia) E) as [F1 Hv].
        destruct (IH (append_run l x n) F1 Fd') as (F2 & Hs & Hsum). split; auto. split.
        + intros p Hp0. rewrite Hs by auto. rewrite (value_app den fits (append_run l x n) data p F1 Hp0). rewrite append_sum by auto.
          change ((x, n) :: data) with ([(x, n)] ++ data). rewrite app_assoc.
          assert (Flx : fit fits (l ++ [(x, n)])) by (apply Forall_app; auto).
          rewrite (value_app den fits (l ++ [(x, n)]) data p Flx Hp0). rewrite rsum_app. cbn [rsum]. rewrite Z.add_0_r.
          destruct (Z.ltb_spec p (rsum l + n)); auto. rewrite (value_app den fits l [(x, n)] p Fl Hp0). rewrite Hv by auto.
          destruct (Z.ltb_spec p (rsum l)); auto. destruct (Z.ltb_spec p (rsum l + n)); [|lia].
          cbn [value_at]. destruct (Z.ltb_spec (p - rsum l) n); [auto|lia].
        + rewrite Hsum, append_sum by auto. cbn [rsum]. lia.
    Qed.
  End Vals.
End SerdeP.

Lemma covering_some : forall {V} (fits : V -> Z -> Prop) l p, fit fits l -> 0 <= p < rsum l -> exists a b s, covering l p = Some (a, b, s).
Proof.
  intros V fits l p Hf Hp. destruct (covering l p) as [[[a b] s]|] eqn:E; [eauto|]. exfalso. unfold covering in E.
  assert (G : forall l off, fit fits l -> off <= p < off + rsum l -> find (fun e : Z * Z * V => (fst (fst e) <=? p) && (p <? snd (fst e))) (spans off l) <> None).
  { clear. induction l as [|[s z] l IH]; intros off Hf Hp; cbn [rsum spans find fst snd] in *; [lia|].
    destruct ((off <=? p) && (p <? off + z)) eqn:Ec; [discriminate|]. inversion Hf; subst. apply IH; auto. lia. }
  apply (G l 0); auto; lia.
Qed.

(** `Constant` slices: the runs are exactly those of the original tree, whatever the branching
    factors of the two trees. *)
Lemma C17_constant_round_trip_proof : forall (I T : Type) (eqb : T -> T -> bool) (X : index_ops I) (MAX : Z) (inj : Z -> I)
    (M M' : nat) (nop : bool) (ops : list (@op T Z)) (r : @rle I T),
  (forall a b, eqb a b = true <-> a = b) -> index_laws X MAX inj -> (1 <= M)%nat -> (1 <= M')%nat -> ops_fit MAX ops ->
  run_ops X (constant_ops eqb) M nop None (map (inj_op inj) ops) = Ok r ->
  exists data r', serialize X r = Ok data /\ deserialize X (constant_ops eqb) M' data = Ok r' /\
    iter_collect X r' [] SUnb EUnb = iter_collect X r [] SUnb EUnb /\
    rle_size X r' = rle_size X r /\ rle_len r' = rle_len r /\ length data = rle_len r.
Proof.
  intros I T eqb X MAX inj M M' nop ops r Heq L HM HM' Hops E.
  pose proof (C09_constant_merged_proof I T eqb X MAX inj M nop ops Heq L HM Hops) as Hc. rewrite E in Hc.
  destruct Hops as [Hf Ho].
  pose proof (run_ok X (constant_ops eqb) MAX inj M L HM nop ops None [] eq_refl Hf ltac:(cbn [rsum]; lia)) as H.
  destruct (spec_run (constant_ops eqb) inj [] (map args ops)) as [l| |] eqn:Es; [|congruence|contradiction].
  destruct H as (r0 & E0 & R & Hs). rewrite E in E0. inversion E0; subst r0. cbn [rsum] in Hs. rewrite Z.add_0_l in Hs.
  pose proof (rle_rep_pos _ _ _ _ R) as Hp. pose proof (pos_runs_nonneg _ Hp) as Hnn.
  assert (Hmg : merged eqb l = true).
  { destruct Hc as (l2 & E2 & M2). rewrite (iter_all_ok X MAX inj M L HM r l [] R ltac:(lia)) in E2. inversion E2 as [E3].
    clear - E3 M2. assert (G : forall l l2 o o2, map (inj_item inj) (spans o l) = map (inj_item inj) (spans o2 l2) -> map fst l = map (@fst T Z) l2).
    { clear. induction l as [|[s z] l IH]; intros [|[s2 z2] l2] o o2 H; cbn [spans map] in *; try discriminate; auto.
      inversion H. cbn [fst]. f_equal. eapply IH; eauto. }
    apply G in E3. revert l2 E3 M2. induction l as [|[s z] l IH]; intros [|[s2 z2] l2] E M; try discriminate; auto.
    inversion E as [[E1 E2]]. subst s2. rewrite merged_cons in *. apply andb_true_iff in M. destruct M as [M1 M2].
    apply andb_true_iff. split; [|eapply IH; eauto]. destruct l as [|[a b] l], l2 as [|[c d] l2]; try discriminate; auto.
    inversion E2; subst. auto. }
  assert (Hj : forall A s z s2 z2 B, l = A ++ (s, z) :: (s2, z2) :: B -> join (I := I) (constant_ops eqb) s s2 = inr (s, s2)).
  { intros A s z s2 z2 B ->. clear - Hmg. induction A as [|[a za] A IH].
    - cbn [app] in Hmg. rewrite merged_cons in Hmg. apply andb_true_iff in Hmg. destruct Hmg as [Hmg _]. unfold join. cbn.
      destruct (eqb s s2); auto. discriminate.
    - cbn [app] in Hmg. rewrite merged_cons in Hmg. apply andb_true_iff in Hmg. apply IH. tauto. }
  destruct (visit_ok X (constant_ops eqb) MAX inj M' L HM' l None [] (reaches_empty X _ MAX inj M' HM' ltac:(lia)) Hp ltac:(cbn [rsum]; lia)) as (r' & E' & Hr').
  rewrite append_all_exact in Hr' by (intros; eapply Hj; eauto). cbn [app] in Hr'.
  destruct (reaches_rep X _ MAX inj M' L HM' _ _ _ Hr') as [R' Hl'].
  exists (map (inj_pair inj) l), r'. split; [apply (serialize_ok X MAX inj M L HM r l R); lia|]. split; [exact E'|].
  rewrite (iter_all_ok X MAX inj M L HM r l [] R ltac:(lia)), (iter_all_ok X MAX inj M' L HM' r' l [] R' ltac:(lia)).
  rewrite (rle_size_ok X MAX inj M L _ _ R), (rle_size_ok X MAX inj M' L _ _ R').
  repeat split; auto; rewrite ?map_length; rewrite ?(rle_len_ok _ _ _ _ R), ?(rle_len_ok _ _ _ _ R'); auto.
Qed.

(** Any slice type: the runs are kept if no two neighbouring runs accept a join, and never is there
    a panic. *)
Lemma C17_exact_round_trip_proof : forall (I V : Type) (X : index_ops I) (Y : slice_ops I V) (MAX : Z) (inj : Z -> I)
    (M M' : nat) (nop : bool) (r : @rle I V) (l : list (V * Z)),
  index_laws X MAX inj -> (1 <= M)%nat -> (1 <= M')%nat -> reaches MAX inj X Y M nop r l ->
  exists data r', serialize X r = Ok data /\ deserialize X Y M' data = Ok r' /\
    (sl_may_join Y = false \/ (forall A s z s2 z2 B, l = A ++ (s, z) :: (s2, z2) :: B -> sl_try_join Y s s2 = inr (s, s2)) ->
     iter_collect X r' [] SUnb EUnb = iter_collect X r [] SUnb EUnb).
Proof.
  intros I V X Y MAX inj M M' nop r l L HM HM' Hr. destruct (reaches_rep X Y MAX inj M L HM _ _ _ Hr) as [R Hl].
  pose proof (rle_rep_pos _ _ _ _ R) as Hp. pose proof (pos_runs_nonneg _ Hp) as Hnn.
  destruct (visit_ok X Y MAX inj M' L HM' l None [] (reaches_empty X _ MAX inj M' HM' ltac:(lia)) Hp ltac:(cbn [rsum]; lia)) as (r' & E' & Hr').
  exists (map (inj_pair inj) l), r'. split; [apply (serialize_ok X MAX inj M L HM r l R); lia|]. split; [exact E'|].
  intros Hj. rewrite append_all_exact in Hr'.
  2:{ intros A s z s2 z2 B El. cbn [app] in El. unfold join. destruct Hj as [->|Hj]; auto. destruct (sl_may_join Y); auto. eapply Hj; eauto. }
  cbn [app] in Hr'. destruct (reaches_rep X _ MAX inj M' L HM' _ _ _ Hr') as [R' Hl'].
  rewrite (iter_all_ok X MAX inj M L HM r l [] R ltac:(lia)), (iter_all_ok X MAX inj M' L HM' r' l [] R' ltac:(lia)). reflexivity.
Qed.

(** Any slice type that denotes contents: same size, and the same contents at every position. *)
Lemma C17_values_round_trip_proof : forall (I V D : Type) (X : index_ops I) (Y : slice_ops I V) (MAX : Z) (inj : Z -> I)
    (M M' : nat) (nop : bool) (den : V -> Z -> D) (fits : V -> Z -> Prop) (ops : list (@op V Z)) (r : @rle I V),
  index_laws X MAX inj -> (1 <= M)%nat -> (1 <= M')%nat -> denotes Y inj den fits ->
  ops_fit MAX ops -> Forall (fun o => fits (o_slice o) (o_size o)) ops ->
  run_ops X Y M nop None (map (inj_op inj) ops) = Ok r ->
  exists data r', serialize X r = Ok data /\ deserialize X Y M' data = Ok r' /\ rle_size X r' = rle_size X r /\
    forall p, 0 <= p < osum ops -> exists a b s a' b' s',
      get X r (inj p) = Ok (inj a, inj b, s) /\ a <= p < b /\
      get X r' (inj p) = Ok (inj a', inj b', s') /\ a' <= p < b' /\ den s' (p - a') = den s (p - a).
Proof.
  intros I V D X Y MAX inj M M' nop den fits ops r L HM HM' Hd [Hf Ho] Hfits E.
  pose proof (run_ok X Y MAX inj M L HM nop ops None [] eq_refl Hf ltac:(cbn [rsum]; lia)) as H.
  destruct (spec_run Y inj [] (map args ops)) as [l| |] eqn:Es; [|congruence|contradiction].
  destruct H as (r0 & E0 & R & Hs). rewrite E in E0. inversion E0; subst r0. cbn [rsum] in Hs. rewrite Z.add_0_l in Hs.
  pose proof (rle_rep_pos _ _ _ _ R) as Hp. pose proof (pos_runs_nonneg _ Hp) as Hnn.
  assert (Fl : fit fits l) by (eapply spec_run_fit; eauto; constructor).
  destruct (visit_ok X Y MAX inj M' L HM' l None [] (reaches_empty X _ MAX inj M' HM' ltac:(lia)) Hp ltac:(cbn [rsum]; lia)) as (r' & E' & Hr').
  destruct (append_all_same Y inj M HM den fits Hd l [] ltac:(constructor) Fl) as (F' & Hv & Hsum). cbn [rsum app] in *.
  destruct (reaches_rep X _ MAX inj M' L HM' _ _ _ Hr') as [R' Hl'].
  exists (map (inj_pair inj) l), r'. split; [apply (serialize_ok X MAX inj M L HM r l R); lia|]. split; [exact E'|].
  rewrite (rle_size_ok X MAX inj M L _ _ R), (rle_size_ok X MAX inj M' L _ _ R'). split; [do 2 f_equal; lia|].
  intros p Hp0. destruct (covering_some fits l p Fl ltac:(lia)) as (a & b & s & Ec).
  destruct (covering_some fits _ p F' ltac:(lia)) as (a' & b' & s' & Ec'). exists a, b, s, a', b', s'.
  destruct (covering_value den fits _ _ _ _ _ Fl Ec) as (H1 & _ & H2).
  destruct (covering_value den fits _ _ _ _ _ F' Ec') as (H1' & _ & H2').
  unfold get. rewrite (get_ok X MAX inj M L HM r l [] p R ltac:(lia) ltac:(lia)), Ec.
  rewrite (get_ok X MAX inj M' L HM' r' _ [] p R' ltac:(lia) ltac:(lia)), Ec'.
  repeat split; auto; try lia. specialize (Hv p ltac:(lia)). congruence.
Qed.

(** Any input sequence whose sizes fit the index type: accepted exactly when every size is positive;
    a size of zero panics (it is not reported as a deserialisation error). *)
Lemma C17_deserialize_outcome_proof : forall (I V : Type) (X : index_ops I) (Y : slice_ops I V) (MAX : Z) (inj : Z -> I)
    (M : nat) (data : list (Z * V)),
  index_laws X MAX inj -> (1 <= M)%nat -> Forall (fun e => 0 <= fst e) data -> fold_right Z.add 0 (map fst data) <= MAX ->
  let call := deserialize X Y M (map (fun e => (inj (fst e), snd e)) data) in
  ((exists r, call = Ok r) <-> Forall (fun e => 0 < fst e) data) /\
  (call = Panic PBadSize <-> Exists (fun e => fst e = 0) data) /\
  call <> UB.
Proof.
  intros I V X Y MAX inj M data L HM Hnn Hm call.
  set (runs := map (fun e : Z * V => (snd e, fst e)) data).
  assert (Ec : call = visit_loop X Y M None (map (inj_pair inj) runs)).
  { unfold call, deserialize, runs. rewrite map_map. reflexivity. }
  assert (Hs : rsum runs <= MAX).
  { revert Hm. unfold runs. clear. intros H. replace (rsum (map (fun e : Z * V => (snd e, fst e)) data)) with (fold_right Z.add 0 (map fst data)); auto.
    clear. induction data as [|[z s] d IH]; cbn [map rsum fold_right fst snd] in *; auto. rewrite IH. reflexivity. }
  assert (H0 : 0 <= rsum runs).
  { unfold runs. clear - Hnn. induction Hnn as [|[z s] d H _ IH]; cbn [map rsum fst snd] in *; lia. }
  assert (Hcase : Forall (fun e => 0 < fst e) data \/ exists A s B, runs = A ++ (s, 0) :: B /\ pos_runs A /\ Exists (fun e => fst e = 0) data).
  { unfold runs. clear - Hnn. induction Hnn as [|[z s] d H _ IH]; [auto|]. cbn [fst] in H. destruct (Z.eq_dec z 0) as [->|Hz].
    - right. exists [], s, (map (fun e => (snd e, fst e)) d). split; [reflexivity|]. split; [constructor|]. left. reflexivity.
    - destruct IH as [IH|(A & t & B & E & HA & Hx)].
      + left. constructor; auto. cbn. lia.
      + right. exists ((s, z) :: A), t, B. cbn [map fst snd app]. rewrite E. split; auto. split; [constructor; auto; cbn; lia|].
        right. auto. }
  destruct Hcase as [Hpos|(A & s & B & E & HA & Hx)].
  - assert (Hp : pos_runs runs). { unfold runs. clear - Hpos. induction Hpos; cbn [map]; constructor; auto. }
    destruct (visit_ok X Y MAX inj M L HM runs None [] (reaches_empty X _ MAX inj M HM ltac:(lia)) Hp ltac:(cbn [rsum]; lia)) as (r' & E' & _).
    rewrite Ec, E'. split; [split; eauto|]. split; [|discriminate]. split; [discriminate|]. intros Hx. exfalso.
    apply Exists_exists in Hx. destruct Hx as (e & Hin & Hz). rewrite Forall_forall in Hpos. specialize (Hpos e Hin). lia.
  - assert (HsA : rsum A <= MAX).
    { assert (Hb : 0 <= rsum ((s, 0) :: B)).
      { assert (G : forall d : list (V * Z), Forall (fun e => 0 <= snd e) d -> 0 <= rsum d).
        { clear. induction 1 as [|[? ?] ? H _ IH]; cbn [rsum snd] in *; lia. }
        apply G. assert (G2 : Forall (fun e : V * Z => 0 <= snd e) runs).
        { unfold runs. clear - Hnn. induction Hnn; cbn [map]; constructor; auto. }
        rewrite E in G2. apply Forall_app in G2. tauto. }
      rewrite E, rsum_app in Hs. lia. }
    pose proof (visit_zero X Y MAX inj M L HM A B s None [] (reaches_empty X _ MAX inj M HM ltac:(lia)) HA ltac:(cbn [rsum]; lia)) as E'.
    rewrite Ec, E, E'. split; [split; [intros [? ?]; discriminate|]|split; [tauto|discriminate]].
    intros Hpos. exfalso. apply Exists_exists in Hx. destruct Hx as (e & Hin & Hz). rewrite Forall_forall in Hpos. specialize (Hpos e Hin). lia.
Qed.
