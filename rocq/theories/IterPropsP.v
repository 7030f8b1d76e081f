(** Proofs of the property theorems about iteration. *)
From Coq Require Import List ZArith Lia Bool Arith.
From Verif Require Import Base Index Slice Tree Insert Range Spec Iter Hist Rep Ins IterP IterQ HistP.
Import ListNotations.
Local Open Scope Z_scope.

(** Collecting `iter(range)` gives exactly the overlapping runs. *)
Lemma C14_iter_yields_overlapping_proof : forall (I V : Type) (X : index_ops I) (Y : slice_ops I V) (MAX : Z) (inj : Z -> I)
    (M : nat) (nop : bool) (r : @rle I V) (l : list (V * Z)) (hints : list nat) (sb : sbound Z) (eb : ebound Z),
  index_laws X MAX inj -> (1 <= M)%nat -> reaches MAX inj X Y M nop r l -> sb_in MAX sb -> eb_in MAX eb ->
  range_ok (rsum l) sb eb = true ->
  iter_collect X r hints (inj_sb inj sb) (inj_eb inj eb)
  = Ok (map (inj_item inj) (overlapping l (range_start sb) (range_end (rsum l) eb))).
Proof.
  intros I V X Y MAX inj M nop r l hints sb eb L HM Hr Hs He Ho. destruct (reaches_rep X Y MAX inj M L HM _ _ _ Hr) as [R Hl].
  rewrite (iter_collect_ok X MAX inj M L HM r l hints sb eb R Hl Hs He), Ho. reflexivity.
Qed.

(** The overlapping runs are consecutive runs, the positions of which are prefix sums, and a run is
    among them exactly when it has a position inside the range. *)
Lemma C14_overlapping_is_a_segment_proof : forall (V : Type) (l : list (V * Z)) (a b : Z),
  Forall (fun r => 0 < snd r) l -> 0 <= a -> a < b -> b <= rsum l ->
  exists A B C, l = A ++ B ++ C /\ overlapping l a b = spans (rsum A) B /\
    rsum A <= a < rsum (A ++ B) /\ b <= rsum (A ++ B) /\
    (forall s z B', B = (s, z) :: B' -> a < rsum A + z) /\
    (forall s z B', B = B' ++ [(s, z)] -> rsum (A ++ B') < b).
Proof.
  intros V l a b Hp Ha Hab Hb.
  assert (G : forall (l : list (V * Z)) off, Forall (fun r => 0 < snd r) l -> off < b -> b <= off + rsum l ->
    exists B C, l = B ++ C /\ filter (fun e => (fst (fst e) <? b) && (a <? snd (fst e))) (spans off l)
       = filter (fun e => a <? snd (fst e)) (spans off B) /\ b <= off + rsum B /\ (forall s z B', B = B' ++ [(s, z)] -> off + rsum B' < b)).
  { clear. induction l as [|[s z] l IH]; intros off Hp Ho Hb; cbn [rsum] in Hb; [lia|].
    inversion Hp as [|? ? Hz Hp']; subst. cbn [snd] in Hz. destruct (Z.lt_ge_cases (off + z) b).
    - destruct (IH (off + z) Hp' H ltac:(lia)) as (B & C & -> & E & H1 & H2). exists ((s, z) :: B), C. split; auto.
      cbn [app spans filter fst snd]. rewrite E. split; [destruct (Z.ltb_spec off b); [reflexivity|lia]|].
      cbn [rsum]. split; [lia|]. intros s0 z0 B' Eb. destruct B' as [|[s1 z1] B']; inversion Eb; subst; cbn [rsum]; [lia|].
      specialize (H2 s0 z0 B' eq_refl). lia.
    - exists [(s, z)], l. split; auto. cbn [spans filter fst snd rsum]. destruct (Z.ltb_spec off b); [|lia]. cbn [andb].
      assert (E : filter (fun e : Z * Z * V => (fst (fst e) <? b) && (a <? snd (fst e))) (spans (off + z) l) = []).
      { assert (Hf : forall (l : list (V * Z)) o, Forall (fun r => 0 < snd r) l -> b <= o -> filter (fun e : Z * Z * V => (fst (fst e) <? b) && (a <? snd (fst e))) (spans o l) = []).
        { clear. induction l as [|[s z] l IH]; intros o Hp Hb; cbn [spans filter fst snd]; auto. inversion Hp as [|? ? Hz Hp']; subst. cbn [snd] in Hz.
          destruct (Z.ltb_spec o b); [lia|]. cbn [andb]. apply IH; auto. lia. }
        apply Hf; auto. }
      rewrite E. split; [reflexivity|]. split; [lia|]. intros s0 z0 B' Eb. destruct B' as [|? [|]]; inversion Eb; subst; cbn [rsum]; lia. }
  destruct (G l 0 Hp ltac:(lia) ltac:(lia)) as (B & C & -> & E & H1 & H2).
  assert (G2 : forall (B : list (V * Z)) off, Forall (fun r => 0 < snd r) B -> off <= a < off + rsum B -> exists A B2, B = A ++ B2 /\
     filter (fun e => a <? snd (fst e)) (spans off B) = spans (off + rsum A) B2 /\ off + rsum A <= a /\
     (B2 <> []) /\ forall s z B', B2 = (s, z) :: B' -> a < off + rsum A + z).
  { clear. induction B as [|[s z] B IH]; intros off Hp Ha; cbn [rsum] in Ha; [lia|]. inversion Hp as [|? ? Hz Hp']; subst. cbn [snd] in Hz.
    cbn [spans filter fst snd]. destruct (Z.ltb_spec a (off + z)).
    - exists [], ((s, z) :: B). split; auto. cbn [rsum spans]. rewrite Z.add_0_r. split; [|split; [lia|split; [discriminate|]]].
      + f_equal. assert (Hf : forall (l : list (V * Z)) o, Forall (fun r => 0 < snd r) l -> a <= o -> filter (fun e : Z * Z * V => a <? snd (fst e)) (spans o l) = spans o l).
        { clear. induction l as [|[s z] l IH]; intros o Hp Hb; cbn [spans filter fst snd]; auto. inversion Hp as [|? ? Hz Hp']; subst. cbn [snd] in Hz.
          destruct (Z.ltb_spec a (o + z)); [|lia]. f_equal. apply IH; auto. lia. }
        apply Hf; auto. lia.
      + intros s0 z0 B' Eb. inversion Eb; subst. lia.
    - destruct (IH (off + z) Hp' ltac:(lia)) as (A & B2 & -> & E & H1 & H2 & H3). exists ((s, z) :: A), B2. split; auto. cbn [rsum].
      replace (off + (z + rsum A)) with (off + z + rsum A) by lia. auto. }
  assert (HB : Forall (fun r : V * Z => 0 < snd r) B) by (apply Forall_app in Hp; tauto).
  destruct (G2 B 0 HB ltac:(lia)) as (A & B2 & -> & E2 & H3 & H4 & H5).
  exists A, B2, C. split; [rewrite <- app_assoc; auto|]. unfold overlapping. rewrite E, E2. rewrite Z.add_0_l in *.
  split; auto. split; [lia|]. split; [lia|]. split; [exact H5|].
  intros s z B' Eb. specialize (H2 s z (A ++ B')). rewrite Eb, app_assoc in H2. specialize (H2 eq_refl). lia.
Qed.

(** Any sequence of `next` and `next_back` calls. *)
Lemma C15_next_and_next_back_proof : forall (I V : Type) (X : index_ops I) (Y : slice_ops I V) (MAX : Z) (inj : Z -> I)
    (M : nat) (nop : bool) (r : @rle I V) (l : list (V * Z)) (hints : list nat) (sb : sbound Z) (eb : ebound Z) (calls : list bool),
  index_laws X MAX inj -> (1 <= M)%nat -> reaches MAX inj X Y M nop r l -> sb_in MAX sb -> eb_in MAX eb ->
  range_ok (rsum l) sb eb = true ->
  exists it it', iter_new X r hints (inj_sb inj sb) (inj_eb inj eb) = Ok it /\
    iter_calls X r it calls
    = Ok (map (option_map (inj_item inj)) (deque (overlapping l (range_start sb) (range_end (rsum l) eb)) calls), it').
Proof.
  intros I V X Y MAX inj M nop r l hints sb eb calls L HM Hr Hs He Ho. destruct (reaches_rep X Y MAX inj M L HM _ _ _ Hr) as [R Hl].
  pose proof (iter_ok X MAX inj M L HM r l hints sb eb R Hl Hs He) as H. rewrite Ho in H. destruct H as (it & E & H).
  destruct (H calls) as (it' & E'). eauto.
Qed.

(** What the double-ended queue says: the fronts, what is left, and the reversed backs make up the
    original list, each element once; and nothing is left once a call has returned `None`. *)
Lemma C15_deque_loses_nothing_proof : forall (T : Type) (d : list T) (calls : list bool),
  length (deque d calls) = length calls /\
  exists rest, d = fronts calls (deque d calls) ++ rest ++ rev (backs calls (deque d calls)) /\
    (In None (deque d calls) -> rest = []).
Proof.
  intros T d calls. revert d. induction calls as [|[|] cs IH]; intros d; cbn [deque fronts backs].
  - split; auto. exists d. cbn [app rev]. rewrite app_nil_r. split; auto. intros [].
  - destruct (rev d) as [|x d'] eqn:E.
    + destruct (IH []) as [Hl (rest & Hd & Hn)]. cbn [length fronts backs]. rewrite Hl. split; auto.
      assert (d = []) as -> by (rewrite <- (rev_involutive d), E; reflexivity).
      exists rest. split; auto. intros _. destruct (fronts cs (deque [] cs)); [|discriminate]. destruct rest; [reflexivity|discriminate].
    + destruct (IH (rev d')) as [Hl (rest & Hd & Hn)]. cbn [length fronts backs rev]. rewrite Hl. split; auto.
      exists rest. split; [|intros [Hc|Hc]; [discriminate|auto]].
      rewrite <- (rev_involutive d), E. cbn [rev]. rewrite Hd at 1. rewrite !app_assoc. reflexivity.
  - destruct d as [|x d'].
    + destruct (IH []) as [Hl (rest & Hd & Hn)]. cbn [length fronts backs]. rewrite Hl. split; auto.
      exists rest. split; auto. intros _. destruct (fronts cs (deque [] cs)); [|discriminate]. destruct rest; [reflexivity|discriminate].
    + destruct (IH d') as [Hl (rest & Hd & Hn)]. cbn [length fronts backs]. rewrite Hl. split; auto.
      exists rest. split; [cbn [app]; f_equal; auto|intros [Hc|Hc]; [discriminate|auto]].
Qed.

(** Once a call has returned `None`, all later calls do. *)
Lemma C15_exhausted_stays_exhausted_proof : forall (T : Type) (d : list T) (c1 c2 : list bool),
  In None (deque d c1) -> deque d (c1 ++ c2) = deque d c1 ++ map (fun _ => None) c2.
Proof.
  intros T d c1 c2. assert (E : forall c, deque (@nil T) c = map (fun _ => None) c).
  { induction c as [|[|] c IH]; cbn [deque map rev]; congruence. }
  revert d. induction c1 as [|[|] c1 IH]; intros d Hn; cbn [deque app] in *; [destruct Hn| |].
  - destruct (rev d) as [|x d'] eqn:Er.
    + rewrite !E, map_app. reflexivity.
    + destruct Hn as [Hn|Hn]; [discriminate|]. cbn [app]. f_equal. apply IH. exact Hn.
  - destruct d as [|x d'].
    + rewrite !E, map_app. reflexivity.
    + destruct Hn as [Hn|Hn]; [discriminate|]. cbn [app]. f_equal. apply IH. exact Hn.
Qed.

(** Exactly the invalid ranges panic. *)
Lemma C16_iter_panics_proof : forall (I V : Type) (X : index_ops I) (Y : slice_ops I V) (MAX : Z) (inj : Z -> I)
    (M : nat) (nop : bool) (r : @rle I V) (l : list (V * Z)) (hints : list nat) (sb : sbound Z) (eb : ebound Z),
  index_laws X MAX inj -> (1 <= M)%nat -> reaches MAX inj X Y M nop r l -> sb_in MAX sb -> eb_in MAX eb ->
  let call := iter_new X r hints (inj_sb inj sb) (inj_eb inj eb) in
  let bad :=
    (exists a, sb = SIncl a /\ rsum l <= a) \/
    (exists b, eb = EIncl b /\ rsum l <= b) \/ (exists b, eb = EExcl b /\ rsum l < b) \/
    (exists a b, sb = SIncl a /\ eb = EIncl b /\ b < a) \/ (exists a b, sb = SIncl a /\ eb = EExcl b /\ b <= a) in
  (bad -> call = Panic PRange) /\ (~ bad -> exists it, call = Ok it).
Proof.
  intros I V X Y MAX inj M nop r l hints sb eb L HM Hr Hs He call bad. destruct (reaches_rep X Y MAX inj M L HM _ _ _ Hr) as [R Hl].
  pose proof (iter_ok X MAX inj M L HM r l hints sb eb R Hl Hs He) as H. fold call in H. clearbody call.
  assert (Hb : bad <-> range_ok (rsum l) sb eb = false).
  { unfold bad, range_ok. clear - Hs He. destruct sb as [a|], eb as [b|b|]; cbn [sb_in eb_in] in *; split; intros Hx;
      repeat match goal with
      | H : _ \/ _ |- _ => destruct H
      | H : exists _, _ |- _ => destruct H
      | H : _ /\ _ |- _ => destruct H
      | H : SIncl _ = _ |- _ => inversion H; clear H; subst
      | H : EIncl _ = _ |- _ => inversion H; clear H; subst
      | H : EExcl _ = _ |- _ => inversion H; clear H; subst
      | H : SUnb = SIncl _ |- _ => discriminate
      | H : EUnb = _ |- _ => discriminate
      end; try lia.
    - destruct (Z.lt_ge_cases a (rsum l)); [|left; exists a; split; auto; lia]. destruct (Z.lt_ge_cases b (rsum l)); [|right; left; exists b; split; auto; lia].
      right; right; right; left. exists a, b. repeat split; auto. lia.
    - destruct (Z.lt_ge_cases a (rsum l)); [|left; exists a; split; auto; lia]. destruct (Z.le_gt_cases b (rsum l)); [|right; right; left; exists b; split; auto; lia].
      right; right; right; right. exists a, b. repeat split; auto. lia.
    - left; exists a; split; auto; lia.
    - right; left; exists b; split; auto; lia.
    - right; right; left; exists b; split; auto; lia. }
  destruct (range_ok (rsum l) sb eb) eqn:E.
  - destruct H as (it & E' & _). split; [|eauto]. intros B. apply Hb in B. discriminate.
  - split; auto. intros B. exfalso. apply B, Hb. reflexivity.
Qed.
