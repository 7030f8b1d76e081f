(** The iterator refines a double-ended queue of the overlapping runs. *)
From Coq Require Import List ZArith Lia Bool Arith.
From Verif Require Import Base Index Slice Tree Insert Range Spec Iter Zip Rep Upd Leaf Path Ops Find Ins IterP.
Import ListNotations.

Section Sub.
  Context {T : Type}.
  Implicit Types S : list T.

  (** The elements from index [f] to [g]. *)
  Definition sub (S : list T) (f g : nat) : list T := firstn (g - f) (skipn f S).

  Lemma sub_nil : forall S f g, g <= f -> sub S f g = [].
  Proof. intros. unfold sub. replace (g - f) with 0 by lia. reflexivity. Qed.

  Lemma skipn_cons : forall S f, f < length S -> exists x, nth_error S f = Some x /\ skipn f S = x :: skipn (f + 1) S.
  Proof.
    induction S as [|y S IH]; intros f H; [cbn in H; lia|]. destruct f as [|f].
    - exists y. auto.
    - cbn [length] in H. destruct (IH f ltac:(lia)) as (x & E1 & E2). exists x. cbn. auto.
  Qed.

  Lemma sub_cons : forall S f g, f < g <= length S -> exists x, nth_error S f = Some x /\ sub S f g = x :: sub S (f + 1) g.
  Proof.
    intros S f g H. destruct (skipn_cons S f ltac:(lia)) as (x & E1 & E2). exists x. split; auto.
    unfold sub. rewrite E2. replace (g - f) with (Datatypes.S (g - (f + 1))) by lia. reflexivity.
  Qed.

  Lemma sub_snoc : forall n S f g, n = g - f -> f < g <= length S -> exists x, nth_error S (g - 1) = Some x /\ sub S f g = sub S f (g - 1) ++ [x].
  Proof.
    induction n as [|n IH]; intros S f g Hn H; [lia|].
    destruct (sub_cons S f g H) as (x & E1 & E2).
    destruct (Nat.eq_dec (f + 1) g) as [<-|Hne].
    - exists x. replace (f + 1 - 1) with f by lia. rewrite E2, !sub_nil by lia. auto.
    - destruct (IH S (f + 1) g ltac:(lia) ltac:(lia)) as (y & F1 & F2). exists y. split; auto.
      destruct (sub_cons S f (g - 1) ltac:(lia)) as (x' & G1 & G2). assert (x' = x) by congruence. subst.
      rewrite E2, G2, F2. reflexivity.
  Qed.
End Sub.

Local Open Scope Z_scope.
Section Spans.
  Context {V : Type}.
  Notation run := (prod V Z) (only parsing).

  Lemma spans_length : forall (l : list run) off, length (spans off l) = length l.
  Proof. induction l as [|[s z] l IH]; intros; cbn [spans length]; auto. Qed.

  Lemma spans_app : forall (a b : list run) off, spans off (a ++ b) = spans off a ++ spans (off + rsum a) b.
  Proof.
    induction a as [|[s z] a IH]; intros b off; cbn [app spans rsum].
    - rewrite Z.add_0_r. reflexivity.
    - rewrite IH. cbn [app]. do 3 f_equal. lia.
  Qed.

  Lemma spans_nth : forall (A : list run) s z B, nth_error (spans 0 (A ++ (s, z) :: B)) (length A) = Some (rsum A, rsum A + z, s).
  Proof.
    intros. rewrite spans_app. cbn [spans]. rewrite nth_error_app2; rewrite spans_length; [|lia].
    rewrite Nat.sub_diag. reflexivity.
  Qed.

  Lemma spans_lo : forall (l : list run) off, pos_runs l -> Forall (fun e => off <= fst (fst e) < snd (fst e) /\ snd (fst e) <= off + rsum l) (spans off l).
  Proof.
    induction l as [|[s z] l IH]; intros off H; cbn [spans rsum]; [constructor|].
    inversion H as [|? ? Hz H']; subst. cbn [snd] in Hz. pose proof (pos_runs_nonneg _ H').
    constructor; [cbn; lia|]. eapply Forall_impl; [|apply IH; auto]. cbn; intros; lia.
  Qed.

  Lemma filter_none : forall {T} (f : T -> bool) l, Forall (fun x => f x = false) l -> filter f l = [].
  Proof. induction 1; cbn; auto. rewrite H. auto. Qed.
  Lemma filter_all : forall {T} (f : T -> bool) l, Forall (fun x => f x = true) l -> filter f l = l.
  Proof. induction 1; cbn; auto. rewrite H. f_equal; auto. Qed.

  Lemma overlapping_split : forall (P Q R : list run) s z a b, pos_runs (P ++ Q ++ (s, z) :: R) ->
    rsum P <= a -> Forall (fun e => a < snd (fst e)) (spans (rsum P) (Q ++ [(s, z)])) ->
    rsum P + rsum Q < b <= rsum P + rsum Q + z ->
    overlapping (P ++ Q ++ (s, z) :: R) a b = spans (rsum P) (Q ++ [(s, z)]).
  Proof.
    intros P Q R s z a b Hp Ha Hall Hb. unfold overlapping.
    apply pos_runs_app in Hp. destruct Hp as [HP Hp]. apply pos_runs_app in Hp. destruct Hp as [HQ HR].
    inversion HR as [|? ? Hz HR']; subst. cbn [snd] in Hz.
    pose proof (pos_runs_nonneg _ HP). pose proof (pos_runs_nonneg _ HQ).
    rewrite (spans_app P). replace (Q ++ (s, z) :: R) with ((Q ++ [(s, z)]) ++ R) by (rewrite <- app_assoc; reflexivity).
    rewrite (spans_app (Q ++ [(s, z)])), !filter_app.
    rewrite (filter_none _ (spans 0 P)), (filter_all _ (spans (0 + rsum P) (Q ++ [(s, z)]))), (filter_none _ (spans (0 + rsum P + _) R)).
    - rewrite app_nil_r. reflexivity.
    - eapply Forall_impl; [|apply spans_lo; auto]. intros e [H1 H2]. cbn beta. rewrite rsum_app in *. cbn [rsum] in *.
      destruct (Z.ltb_spec (fst (fst e)) b); [lia|]. reflexivity.
    - rewrite Z.add_0_l. rewrite spans_app in *. apply Forall_app in Hall. destruct Hall as [H1 H2]. apply Forall_app. split.
      + rewrite Forall_forall in H1 |- *. pose proof (spans_lo Q (rsum P) HQ) as H3. rewrite Forall_forall in H3.
        intros e He. specialize (H1 e He). specialize (H3 e He).
        destruct (Z.ltb_spec a (snd (fst e))); [|lia].
        destruct (Z.ltb_spec (fst (fst e)) b); [reflexivity|lia].
      + cbn [spans] in *. inversion H2 as [|? ? H3 _]; subst. constructor; [|constructor]. cbn [fst snd] in *.
        destruct (Z.ltb_spec (rsum P + rsum Q) b); [|lia]. destruct (Z.ltb_spec a (rsum P + rsum Q + z)); [|lia]. reflexivity.
    - eapply Forall_impl; [|apply spans_lo; auto]. intros e [H1 H2]. cbn beta.
      destruct (Z.ltb_spec a (snd (fst e))); [lia|]. apply andb_false_r.
  Qed.
End Spans.

Section IterQ.
  Context {I V : Type} (X : index_ops I) (MAX : Z) (inj : Z -> I) (M : nat).
  Hypothesis L : index_laws X MAX inj.
  Hypothesis HM : (1 <= M)%nat.
  Notation tree := (tree I V).
  Notation run := (prod V Z) (only parsing).
  Notation rep := (@rep I V inj M).
  Notation rle_rep := (@rle_rep I V inj M).

  Definition inj_item (e : Z * Z * V) : @item I V := (inj (fst (fst e)), inj (snd (fst e)), snd e).

  (** Sum of the first [k] runs. *)
  Definition ps (l : list run) (k : nat) : Z := rsum (firstn k l).

  Lemma ps_step : forall l k, pos_runs l -> (k < length l)%nat -> exists s z,
    l = firstn k l ++ (s, z) :: skipn (k + 1) l /\ ps l (k + 1) = ps l k + z /\ 0 < z /\
    nth_error (spans 0 l) k = Some (ps l k, ps l (k + 1), s).
  Proof.
    intros l k Hp Hk. destruct (skipn_cons l k Hk) as ([s z] & E1 & E2). exists s, z.
    assert (El : l = firstn k l ++ (s, z) :: skipn (k + 1) l) by (rewrite <- E2, firstn_skipn; reflexivity).
    assert (Hl : length (firstn k l) = k) by (rewrite firstn_length; lia).
    assert (E3 : ps l (k + 1) = ps l k + z).
    { unfold ps at 1. rewrite El at 1. rewrite firstn_app, Hl. replace (k + 1 - k)%nat with 1%nat by lia.
      rewrite firstn_all2 by lia. cbn [firstn]. rewrite rsum_app. cbn [rsum]. unfold ps. lia. }
    split; [exact El|]. split; [exact E3|]. split.
    - rewrite El in Hp. apply pos_runs_app in Hp. destruct Hp as [_ Hp]. inversion Hp; subst. auto.
    - rewrite E3. pose proof (spans_nth (firstn k l) s z (skipn (k + 1) l)) as H. rewrite <- El, Hl in H. exact H.
  Qed.

  Lemma ps_mono : forall l i j, pos_runs l -> (i <= j)%nat -> ps l i <= ps l j.
  Proof.
    intros l i j Hp H. replace j with (i + (j - i))%nat by lia. generalize (j - i)%nat as d. intros d.
    unfold ps. rewrite <- (firstn_skipn i (firstn (i + d) l)), firstn_firstn, rsum_app.
    replace (Nat.min i (i + d)) with i by lia.
    assert (pos_runs (skipn i (firstn (i + d) l))) as Hq.
    { unfold pos_runs in *. rewrite <- (firstn_skipn (i + d) l) in Hp. apply Forall_app in Hp. destruct Hp as [Hp _].
      rewrite <- (firstn_skipn i) in Hp. apply Forall_app in Hp. tauto. }
    pose proof (pos_runs_nonneg _ Hq). lia.
  Qed.

  Lemma ps_all : forall l, ps l (length l) = rsum l.
  Proof. intros. unfold ps. rewrite firstn_all. reflexivity. Qed.

  Lemma ps_nonneg : forall l k, pos_runs l -> 0 <= ps l k.
  Proof. intros l k Hp. change 0 with (ps l 0). apply ps_mono; auto; lia. Qed.

  Lemma ps_le : forall l k, pos_runs l -> ps l k <= rsum l.
  Proof.
    intros l k Hp. destruct (Nat.le_gt_cases k (length l)).
    - rewrite <- ps_all. apply ps_mono; auto.
    - unfold ps. rewrite firstn_all2 by lia. lia.
  Qed.

  Lemma ps_lt : forall l i j, pos_runs l -> ps l i < ps l j -> (i < j)%nat.
  Proof. intros l i j Hp H. destruct (Nat.le_gt_cases j i) as [Hc|]; auto. pose proof (ps_mono l j i Hp Hc). lia. Qed.

  Section Run.
    Variables (r : @root I V) (l : list run) (a b : Z) (excl : bool) (i0 j0 : nat).
    Hypothesis R : rep 1 (r_height r) (r_node r) l.
    Hypothesis Hm : rsum l <= MAX.
    Hypothesis Ha : ps l i0 <= a < ps l (i0 + 1).
    Hypothesis Hb : if excl then ps l j0 < b <= ps l (j0 + 1) else ps l j0 <= b < ps l (j0 + 1).
    Hypothesis Hij : (i0 <= j0 < length l)%nat.

    Let Hp : pos_runs l := rep_pos _ _ _ _ _ _ R.

    Definition at_stack (s : @istack I) (k : nat) : Prop :=
      rank (r_node r) (fst (k_head s)) (snd (k_head s)) = Some k /\ k_end s = inj (ps l (k + 1)).

    Definition inv (it : @iter I) (f g : nat) : Prop :=
      it_start it = inj a /\ it_end it = inj b /\ it_excl it = excl /\
      match it_state it with
      | None => (g <= f)%nat
      | Some st =>
        (f <= g)%nat /\
        match s_fwd st with None => f = i0 | Some s => (i0 < f <= j0 + 1)%nat /\ at_stack s (f - 1) end /\
        match s_bkwd st with None => g = (j0 + 1)%nat | Some s => (i0 <= g <= j0)%nat /\ at_stack s g end
      end.

    Lemma at_handle : forall s k, at_stack s k -> (k < length l)%nat -> exists v,
      handle_size X (r_height r) (r_node r) (k_head s) = Ok (inj (ps l (k + 1) - ps l k)) /\
      handle_slice (r_node r) (k_head s) = Ok v /\ nth_error (spans 0 l) k = Some (ps l k, ps l (k + 1), v).
    Proof.
      intros [[p k] e] n [H1 H2] Hn. cbn [k_head k_end fst snd] in *.
      destruct (ps_step l n Hp Hn) as (s & z & El & E & Hz & En). exists s.
      assert (Hl : length (firstn n l) = n) by (rewrite firstn_length; lia).
      rewrite <- Hl in H1. destruct (handle_ok X MAX inj M L HM _ _ _ _ _ _ _ _ _ _ R Hm El H1) as (E1 & E2 & _).
      replace (ps l (n + 1) - ps l n) with z by lia. auto.
    Qed.

    Lemma make_at : forall hints tau (ex : bool) i, (i < length l)%nat ->
      (if ex then ps l i < tau <= ps l (i + 1) else ps l i <= tau < ps l (i + 1)) ->
      exists s, make_stack X (r_height r) (r_node r) [] hints (ix_zero X) (inj tau) ex = Ok s /\ at_stack s i.
    Proof.
      intros hints tau ex i Hi Ht.
      pose proof (ps_nonneg l i Hp). pose proof (ps_le l (i + 1) Hp).
      destruct (make_stack_ok X MAX inj M L HM (r_height r) 1 (r_node r) l [] hints 0 tau ex R) as (A & s & z & B & q & k & El & Hh & E & Rk); try lia.
      { destruct ex; lia. }
      rewrite (il_zero _ _ _ L), E. eexists. split; [reflexivity|]. cbn [app].
      assert (Hpa : ps l (length A) = rsum A). { unfold ps. rewrite El, firstn_app, Nat.sub_diag, firstn_all. cbn [firstn]. rewrite app_nil_r. reflexivity. }
      assert (HAl : (length A < length l)%nat) by (rewrite El, app_length; cbn [length]; lia).
      destruct (ps_step l (length A) Hp HAl) as (s' & z' & El' & E' & Hz' & _).
      rewrite El in El' at 1. apply app_mid_inv in El'; [|rewrite firstn_length; lia]. destruct El' as (_ & Esz & _). inversion Esz; subst s' z'.
      assert (length A = i).
      { unfold hits in Hh. assert (length A < i + 1)%nat by (apply (ps_lt l); auto; destruct ex; lia).
        assert (i < length A + 1)%nat by (apply (ps_lt l); auto; destruct ex; lia). lia. }
      subst i. split; cbn [k_head k_end fst snd]; auto. rewrite E'. f_equal. lia.
    Qed.

    Ltac ix := repeat (first [ rewrite (il_addr _ _ _ L) by lia
                             | rewrite (il_subr _ _ _ L) by lia ]; cbn [bind]).

    Lemma fwd_step_ok : forall s k, at_stack s k -> (k + 1 < length l)%nat ->
      exists s', fwd_step X (r_height r) (r_node r) s = Ok s' /\ at_stack s' (k + 1).
    Proof.
      intros [[p kk] e] k [H1 H2] Hk. cbn [k_head k_end fst snd] in *.
      destruct (fwd_head_ok inj M HM _ _ _ _ _ _ _ R H1 Hk) as (p' & k' & E & Rk).
      assert (H : at_stack {| k_head := (p', k'); k_end := inj (ps l (k + 1 + 1)) |} (k + 1)) by (split; auto).
      destruct (at_handle _ _ H Hk) as (v & E1 & _). cbn [k_head] in E1.
      unfold fwd_step. cbn [k_head k_end]. rewrite E. cbn [bind]. rewrite E1. cbn [bind]. rewrite H2.
      pose proof (ps_nonneg l (k + 1) Hp). pose proof (ps_le l (k + 1 + 1) Hp). pose proof (ps_mono l (k + 1) (k + 1 + 1) Hp ltac:(lia)).
      ix. eexists. split; [reflexivity|]. replace (ps l (k + 1) + (ps l (k + 1 + 1) - ps l (k + 1))) with (ps l (k + 1 + 1)) by lia. auto.
    Qed.

    Lemma bkwd_step_ok : forall s k, at_stack s (S k) -> (S k < length l)%nat ->
      exists s', bkwd_step X (r_height r) (r_node r) s = Ok s' /\ at_stack s' k.
    Proof.
      intros s k H Hk. destruct (at_handle _ _ H Hk) as (v & E1 & _).
      destruct s as [[p kk] e]. destruct H as [H1 H2]. cbn [k_head k_end fst snd] in *.
      destruct (bkwd_head_ok inj M HM _ _ _ _ _ _ _ R H1) as (p' & k' & E & Rk).
      unfold bkwd_step. cbn [k_head k_end]. rewrite E. cbn [bind]. rewrite E1. cbn [bind]. rewrite H2.
      pose proof (ps_nonneg l (S k) Hp). pose proof (ps_le l (S k + 1) Hp). pose proof (ps_mono l (S k) (S k + 1) Hp ltac:(lia)).
      ix. eexists. split; [reflexivity|]. replace (ps l (S k + 1) - (ps l (S k + 1) - ps l (S k))) with (ps l (S k)) by lia.
      split; auto. cbn [k_end]. do 2 f_equal. lia.
    Qed.

    Lemma next_ok : forall it f g, inv it f g -> exists o it', iter_next X r it = Ok (o, it') /\
      (if (f <? g)%nat then exists e, nth_error (spans 0 l) f = Some e /\ o = Some (inj_item e) /\ inv it' (f + 1) g
       else o = None /\ inv it' f g).
    Proof.
      intros it f g (E1 & E2 & E3 & Hst). unfold iter_next. destruct (it_state it) as [[cur fw bw]|] eqn:Est.
      2:{ eexists _, _. split; [reflexivity|]. destruct (Nat.ltb_spec f g); [lia|]. split; auto. unfold inv. rewrite Est. auto. }
      cbn [s_fwd s_bkwd s_cursor] in *. destruct Hst as (Hfg & Hf & Hg).
      assert (Hgj : (g <= j0 + 1)%nat) by (destruct bw as [bw|]; lia).
      set (step := match fw with Some _ => _ | None => _ end).
      assert (Step : (f = (j0 + 1)%nat /\ g = (j0 + 1)%nat /\ step = Ok None) \/
        ((i0 <= f <= j0)%nat /\ exists s cur', at_stack s f /\ step = Ok (Some (s, inj (ps l f), cur')))).
      { subst step. pose proof (ps_nonneg l (j0) Hp). pose proof (ps_le l (j0 + 1) Hp).
        destruct fw as [fwd|].
        - destruct Hf as [Hf Hs]. pose proof Hs as [Hs1 Hs2]. rewrite E3, E2, Hs2. replace (f - 1 + 1)%nat with f by lia.
          pose proof (ps_nonneg l f Hp). pose proof (ps_le l f Hp).
          destruct (Nat.eq_dec f (j0 + 1)) as [->|Hne].
          + left. split; auto. split; [lia|]. cbn zeta.
            destruct excl; unfold ix_leb; rewrite (il_ltb _ _ _ L) by lia.
            * destruct (Z.ltb_spec (ps l (j0 + 1)) b); [lia|]. reflexivity.
            * destruct (Z.ltb_spec b (ps l (j0 + 1))); [|lia]. reflexivity.
          + right. split; [lia|]. destruct (fwd_step_ok _ _ Hs ltac:(lia)) as (s' & Es & Hs').
            replace (f - 1 + 1)%nat with f in Hs' by lia. exists s', cur. split; auto. cbn zeta.
            pose proof (ps_mono l f j0 Hp ltac:(lia)).
            rewrite Es. cbn [bind]. destruct excl; unfold ix_leb; rewrite (il_ltb _ _ _ L) by lia.
            * destruct (Z.ltb_spec (ps l f) b); [|lia]. reflexivity.
            * destruct (Z.ltb_spec b (ps l f)); [lia|]. reflexivity.
        - subst f. right. split; [lia|]. rewrite E1.
          destruct (make_at cur a false i0 ltac:(lia) Ha) as (s & Em & Hs). rewrite Em. cbn [bind].
          destruct (at_handle _ _ Hs ltac:(lia)) as (v & Eh & _). rewrite Eh. cbn [bind].
          pose proof Hs as [_ Hs2]. rewrite Hs2.
          pose proof (ps_nonneg l i0 Hp). pose proof (ps_le l (i0 + 1) Hp). ix.
          replace (ps l (i0 + 1) - (ps l (i0 + 1) - ps l i0)) with (ps l i0) by lia. exists s, []. auto. }
      clearbody step.
      destruct Step as [(-> & -> & ->)|(Hfj & s & cur' & Hs & ->)]; cbn [bind].
      - eexists _, _. split; [reflexivity|]. destruct (Nat.ltb_spec (j0 + 1) (j0 + 1)); [lia|]. split; auto.
        unfold inv, ended. cbn. auto.
      - assert (Hq : match bw with Some b0 => handle_eqb (k_head b0) (k_head s) | None => false end = negb (f <? g)%nat).
        { destruct bw as [b0|].
          - destruct Hg as [Hg [Hg1 _]]. rewrite (handle_eqb_rank _ _ _ _ _ Hg1 (proj1 Hs)).
            destruct (Nat.eqb_spec g f); destruct (Nat.ltb_spec f g); auto; lia.
          - destruct (Nat.ltb_spec f g); auto; lia. }
        rewrite Hq. destruct (Nat.ltb_spec f g) as [Hlt|Hge]; cbn [negb].
        + destruct (at_handle _ _ Hs ltac:(lia)) as (v & _ & Ev & En). rewrite Ev. cbn [bind].
          eexists _, _. split; [reflexivity|]. eexists. split; [exact En|]. split.
          * unfold inj_item. cbn [fst snd]. rewrite (proj2 Hs). reflexivity.
          * unfold inv, with_state. cbn. refine (conj E1 (conj E2 (conj E3 (conj _ (conj (conj _ _) Hg))))); try lia.
            replace (f + 1 - 1)%nat with f by lia. exact Hs.
        + eexists _, _. split; [reflexivity|]. split; auto. unfold inv, ended. cbn. auto.
    Qed.

    Lemma next_back_ok : forall it f g, inv it f g -> exists o it', iter_next_back X r it = Ok (o, it') /\
      (if (f <? g)%nat then exists e, nth_error (spans 0 l) (g - 1) = Some e /\ o = Some (inj_item e) /\ inv it' f (g - 1)
       else o = None /\ inv it' f g).
    Proof.
      intros it f g (E1 & E2 & E3 & Hst). unfold iter_next_back. destruct (it_state it) as [[cur fw bw]|] eqn:Est.
      2:{ eexists _, _. split; [reflexivity|]. destruct (Nat.ltb_spec f g); [lia|]. split; auto. unfold inv. rewrite Est. auto. }
      cbn [s_fwd s_bkwd s_cursor] in *. destruct Hst as (Hfg & Hf & Hg).
      assert (Hgj : (i0 <= f)%nat) by (destruct fw as [fw|]; lia).
      set (step := match bw with Some _ => _ | None => _ end).
      assert (Step : (f = i0 /\ g = i0 /\ step = Ok None) \/
        ((i0 < g <= j0 + 1)%nat /\ exists s cur', at_stack s (g - 1) /\ step = Ok (Some (s, cur')))).
      { subst step. destruct bw as [bw|].
        - destruct Hg as [Hg Hs]. destruct (at_handle _ _ Hs ltac:(lia)) as (v & Eh & _). rewrite Eh. cbn [bind].
          rewrite (proj2 Hs). pose proof (ps_nonneg l g Hp). pose proof (ps_le l (g + 1) Hp). pose proof (ps_mono l g (g + 1) Hp ltac:(lia)). ix.
          pose proof (ps_le l (i0 + 1) Hp). pose proof (ps_nonneg l i0 Hp).
          replace (ps l (g + 1) - (ps l (g + 1) - ps l g)) with (ps l g) by lia. rewrite E1. unfold ix_leb. rewrite (il_ltb _ _ _ L) by lia.
          destruct (Nat.eq_dec g i0) as [->|Hne].
          + left. split; [lia|]. split; auto. destruct (Z.ltb_spec a (ps l i0)); [lia|]. reflexivity.
          + right. split; [lia|]. pose proof (ps_mono l (i0 + 1) g Hp ltac:(lia)). destruct (Z.ltb_spec a (ps l g)); [|lia]. cbn [negb].
            replace g with (S (g - 1)) in Hs by lia. destruct (bkwd_step_ok _ _ Hs ltac:(lia)) as (s' & Es & Hs').
            rewrite Es. cbn [bind]. exists s', cur. auto.
        - right. split; [lia|]. rewrite E2, E3. subst g. destruct (make_at cur b excl j0 ltac:(lia) Hb) as (s & Em & Hs).
          rewrite Em. cbn [bind]. replace (j0 + 1 - 1)%nat with j0 by lia. exists s, []. auto. }
      clearbody step.
      destruct Step as [(-> & -> & ->)|(Hfj & s & cur' & Hs & ->)]; cbn [bind].
      - eexists _, _. split; [reflexivity|]. destruct (Nat.ltb_spec i0 i0); [lia|]. split; auto.
        unfold inv, ended. cbn. auto.
      - assert (Hq : match fw with Some f0 => handle_eqb (k_head f0) (k_head s) | None => false end = negb (f <? g)%nat).
        { destruct fw as [f0|].
          - destruct Hf as [Hf [Hf1 _]]. rewrite (handle_eqb_rank _ _ _ _ _ Hf1 (proj1 Hs)).
            destruct (Nat.eqb_spec (f - 1) (g - 1)); destruct (Nat.ltb_spec f g); auto; lia.
          - destruct (Nat.ltb_spec f g); auto; lia. }
        rewrite Hq. destruct (Nat.ltb_spec f g) as [Hlt|Hge]; cbn [negb].
        + destruct (at_handle _ _ Hs ltac:(lia)) as (v & Eh & Ev & En). rewrite Eh, Ev. cbn [bind]. rewrite (proj2 Hs).
          pose proof (ps_nonneg l (g - 1) Hp). pose proof (ps_le l (g - 1 + 1) Hp). pose proof (ps_mono l (g - 1) (g - 1 + 1) Hp ltac:(lia)). ix.
          eexists _, _. split; [reflexivity|]. eexists. split; [exact En|]. split.
          * unfold inj_item. cbn [fst snd]. do 4 f_equal. lia.
          * unfold inv, with_state. cbn. refine (conj E1 (conj E2 (conj E3 (conj _ (conj Hf (conj _ Hs)))))); lia.
        + eexists _, _. split; [reflexivity|]. split; auto. unfold inv, ended. cbn. auto.
    Qed.

    Lemma inv_bound : forall it f g, inv it f g -> (f < g)%nat -> (g <= length l)%nat.
    Proof.
      intros it f g (_ & _ & _ & H) Hlt. destruct (it_state it) as [st|]; [|lia].
      destruct H as (_ & _ & H). destruct (s_bkwd st); lia.
    Qed.

    Lemma calls_ok : forall calls it f g, inv it f g -> exists it',
      iter_calls X (Some r) it calls = Ok (map (option_map inj_item) (deque (sub (spans 0 l) f g) calls), it').
    Proof.
      induction calls as [|c calls IH]; intros it f g H; cbn [iter_calls deque map]; [eauto|].
      cbn [iter_step]. destruct c.
      - destruct (next_back_ok _ _ _ H) as (o & it' & E & P). rewrite E. cbn [bind].
        destruct (Nat.ltb_spec f g) as [Hlt|Hge].
        + destruct P as (e & En & -> & H'). destruct (IH _ _ _ H') as (it'' & E2). rewrite E2. cbn [bind]. eexists.
          destruct (sub_snoc (g - f) (spans 0 l) f g eq_refl) as (e' & En' & Es).
          { rewrite spans_length. pose proof (inv_bound _ _ _ H Hlt). lia. }
          rewrite Es, rev_app_distr. cbn [rev app]. rewrite rev_involutive. cbn [map option_map]. do 3 f_equal. congruence.
        + destruct P as [-> H']. destruct (IH _ _ _ H') as (it'' & E2). rewrite E2. cbn [bind]. eexists.
          rewrite sub_nil by auto. reflexivity.
      - destruct (next_ok _ _ _ H) as (o & it' & E & P). rewrite E. cbn [bind].
        destruct (Nat.ltb_spec f g) as [Hlt|Hge].
        + destruct P as (e & En & -> & H'). destruct (IH _ _ _ H') as (it'' & E2). rewrite E2. cbn [bind]. eexists.
          destruct (sub_cons (spans 0 l) f g) as (e' & En' & Es).
          { rewrite spans_length. pose proof (inv_bound _ _ _ H Hlt). lia. }
          rewrite Es. cbn [map option_map]. do 3 f_equal. congruence.
        + destruct P as [-> H']. destruct (IH _ _ _ H') as (it'' & E2). rewrite E2. cbn [bind]. eexists.
          rewrite sub_nil by auto. reflexivity.
    Qed.

    Lemma overlap_sub : overlapping l a (if excl then b else b + 1) = sub (spans 0 l) i0 (j0 + 1).
    Proof.
      set (bb := if excl then b else b + 1).
      assert (Hbb : ps l j0 < bb <= ps l (j0 + 1)) by (subst bb; destruct excl; lia). clearbody bb.
      destruct (ps_step l j0 Hp ltac:(lia)) as (s & z & El & E & Hz & _).
      set (P := firstn i0 l). set (Q := skipn i0 (firstn j0 l)). set (T := skipn (j0 + 1) l) in *.
      assert (EPQ : firstn j0 l = P ++ Q).
      { subst P Q. rewrite <- (firstn_skipn i0 (firstn j0 l)) at 1. rewrite firstn_firstn. replace (Nat.min i0 j0) with i0 by lia. reflexivity. }
      assert (HlP : length P = i0) by (subst P; rewrite firstn_length; lia).
      assert (HlQ : length Q = (j0 - i0)%nat) by (subst Q; rewrite skipn_length, firstn_length; lia).
      rewrite EPQ, <- app_assoc in El.
      assert (HP : rsum P = ps l i0) by reflexivity.
      assert (HQ : rsum P + rsum Q = ps l j0). { unfold ps. rewrite EPQ, rsum_app. reflexivity. }
      assert (EP : firstn i0 l = P) by reflexivity.
      clearbody P Q T.
      assert (Hpl : pos_runs (P ++ Q ++ (s, z) :: T)) by (rewrite <- El; exact Hp).
      assert (HQs : exists s1 z1 Q1, Q ++ [(s, z)] = (s1, z1) :: Q1 /\ pos_runs Q1 /\ a < rsum P + z1).
      { destruct (ps_step l i0 Hp ltac:(lia)) as (s1 & z1 & El1 & E1 & Hz1 & _).
        assert (E3 : Q ++ (s, z) :: T = (s1, z1) :: skipn (i0 + 1) l).
        { rewrite EP in El1. rewrite El in El1 at 1. apply app_inv_head in El1. exact El1. }
        apply pos_runs_app in Hpl. destruct Hpl as [_ Hpl].
        destruct Q as [|q Q']; cbn [app] in *; inversion E3; subst.
        - exists s1, z1, []. split; auto. split; [constructor|lia].
        - exists s1, z1, (Q' ++ [(s, z)]). split; auto. split; [|lia].
          inversion Hpl as [|? ? _ Hpl']; subst. apply pos_runs_app in Hpl'. destruct Hpl' as [A1 A2].
          apply pos_runs_app. split; auto. inversion A2; subst. constructor; auto. }
      rewrite El. rewrite (overlapping_split P Q T s z a bb Hpl); [| lia | | lia].
      - unfold sub. rewrite (spans_app P), Z.add_0_l. replace (Q ++ (s, z) :: T) with ((Q ++ [(s, z)]) ++ T) by (rewrite <- app_assoc; reflexivity).
        rewrite (spans_app (Q ++ [(s, z)])). rewrite skipn_app, skipn_all2 by (rewrite spans_length; lia).
        rewrite spans_length, HlP, Nat.sub_diag. cbn [app skipn]. rewrite firstn_app.
        replace (j0 + 1 - i0)%nat with (length (spans (rsum P) (Q ++ [(s, z)]))) by (rewrite spans_length, app_length, HlQ; cbn [length]; lia).
        rewrite firstn_all, Nat.sub_diag. cbn [firstn]. rewrite app_nil_r. reflexivity.
      - destruct HQs as (s1 & z1 & Q1 & -> & HQ1 & Ha1). cbn [spans]. constructor; [cbn; lia|].
        eapply Forall_impl; [|apply spans_lo; auto]. cbn. intros; lia.
    Qed.
  End Run.

  (** The index of the run hit by a position. *)
  Lemma ps_find : forall l tau (ex : bool), pos_runs l -> (if ex then 0 < tau <= rsum l else 0 <= tau < rsum l) ->
    exists i, (i < length l)%nat /\ if ex then ps l i < tau <= ps l (i + 1) else ps l i <= tau < ps l (i + 1).
  Proof.
    induction l as [|[s z] l IH]; intros tau ex Hp Ht; cbn [rsum] in Ht.
    - destruct ex; lia.
    - inversion Hp as [|? ? Hz Hp']; subst. cbn [snd] in Hz. cbn [length].
      assert (Hc : (if ex then tau <= z else tau < z) \/ (if ex then 0 < tau - z <= rsum l else 0 <= tau - z < rsum l))
        by (destruct ex; lia).
      destruct Hc as [Hc|Hc].
      + exists 0%nat. split; [lia|]. unfold ps. cbn [Nat.add firstn rsum]. destruct ex; lia.
      + destruct (IH _ ex Hp' Hc) as (i & Hi & H). exists (S i). split; [lia|].
        assert (E : forall k, ps ((s, z) :: l) (S k) = z + ps l k) by reflexivity.
        cbn [Nat.add]. rewrite !E. destruct ex; lia.
  Qed.

  Definition inj_sb (sb : sbound Z) : sbound I := match sb with SIncl a => SIncl (inj a) | SUnb => SUnb end.
  Definition inj_eb (eb : ebound Z) : ebound I := match eb with EIncl b => EIncl (inj b) | EExcl b => EExcl (inj b) | EUnb => EUnb end.
  Definition sb_in (sb : sbound Z) : Prop := match sb with SIncl a => 0 <= a <= MAX | SUnb => True end.
  Definition eb_in (eb : ebound Z) : Prop := match eb with EIncl b | EExcl b => 0 <= b <= MAX | EUnb => True end.

  Lemma deque_nil : forall {T} calls, @deque T [] calls = map (fun _ => None) calls.
  Proof. induction calls as [|[] c IH]; cbn; f_equal; auto. Qed.

  Lemma ended_calls : forall (r : @rle I V) calls it, it_state it = None -> iter_calls X r it calls = Ok (map (fun _ => None) calls, it).
  Proof.
    induction calls as [|c calls IH]; intros it H; cbn [iter_calls map]; auto.
    assert (E : iter_step X r c it = Ok (None, it)).
    { unfold iter_step, iter_next, iter_next_back. destruct r; rewrite H; destruct c; reflexivity. }
    rewrite E. cbn [bind]. rewrite IH by auto. reflexivity.
  Qed.

  Lemma overlapping_empty : forall (l : list run) a b, pos_runs l -> b <= 0 -> overlapping l a b = [].
  Proof.
    intros l a b Hp Hb. apply filter_none. eapply Forall_impl; [|apply spans_lo; auto].
    cbn. intros e [H _]. destruct (Z.ltb_spec (fst (fst e)) b); [lia|]. reflexivity.
  Qed.

  Lemma rle_rep_pos : forall r l, rle_rep r l -> pos_runs l.
  Proof. intros [r|] l H; cbn in H; [exact (rep_pos _ _ _ _ _ _ (proj1 H)) | subst; constructor]. Qed.

  Theorem iter_ok : forall r l hints sb eb, rle_rep r l -> rsum l <= MAX -> sb_in sb -> eb_in eb ->
    if range_ok (rsum l) sb eb then
      exists it, iter_new X r hints (inj_sb sb) (inj_eb eb) = Ok it /\
        forall calls, exists it', iter_calls X r it calls =
          Ok (map (option_map inj_item) (deque (overlapping l (range_start sb) (range_end (rsum l) eb)) calls), it')
    else iter_new X r hints (inj_sb sb) (inj_eb eb) = Panic PRange.
  Proof.
    intros r l hints sb eb Hr Hm Hs He. pose proof (rle_rep_pos _ _ Hr) as Hp. pose proof (pos_runs_nonneg _ Hp) as Hnn.
    unfold iter_new. rewrite (rle_size_ok X MAX inj M L _ _ Hr). cbn [bind].
    set (a := range_start sb).
    set (b := match eb with EIncl b | EExcl b => b | EUnb => rsum l end).
    set (excl := match eb with EIncl _ => false | _ => true end).
    assert (Ha0 : 0 <= a <= MAX) by (subst a; destruct sb; cbn in *; lia).
    assert (Hb0 : 0 <= b <= MAX) by (subst b; destruct eb; cbn in *; lia).
    assert (Ea : match inj_sb sb with SIncl i => i | SUnb => ix_zero X end = inj a).
    { subst a; destruct sb; cbn; auto. apply (il_zero _ _ _ L). }
    assert (Ebe : match inj_eb eb with EIncl i => (i, false) | EExcl i => (i, true) | EUnb => (inj (rsum l), true) end = (inj b, excl)).
    { subst b excl; destruct eb; reflexivity. }
    rewrite Ea, Ebe.
    assert (E1 : starts_after_end X (inj_sb sb, inj_eb eb) = match sb, eb with SIncl a, EIncl b => b <? a | SIncl a, EExcl b => b <=? a | _, _ => false end).
    { unfold starts_after_end. destruct sb, eb; cbn in *; auto; unfold ix_leb; rewrite ?(il_ltb _ _ _ L) by lia; auto.
      rewrite Z.leb_antisym. reflexivity. }
    assert (E2 : ix_ltb X (inj a) (ix_zero X) = false).
    { rewrite (il_zero _ _ _ L), (il_ltb _ _ _ L) by lia. apply Z.ltb_ge. lia. }
    assert (E3 : match inj_sb sb with SIncl i => ix_leb X (inj (rsum l)) i | SUnb => false end = match sb with SIncl a => rsum l <=? a | SUnb => false end).
    { destruct sb; cbn in *; auto. unfold ix_leb. rewrite (il_ltb _ _ _ L) by lia. rewrite Z.leb_antisym. reflexivity. }
    assert (E4 : overlaps_naive X (SUnb, if excl then EExcl (inj b) else EIncl (inj b)) (SIncl (inj (rsum l)), EUnb) =
                 negb (if excl then b <=? rsum l else b <? rsum l)).
    { unfold overlaps_naive. cbn [is_empty_naive fst snd orb].
      destruct excl; unfold ix_leb; rewrite (il_ltb _ _ _ L) by lia.
      - rewrite Z.leb_antisym. destruct (rsum l <? b); reflexivity.
      - destruct (b <? rsum l); reflexivity. }
    assert (E5 : is_empty_naive X (SIncl (inj a), if excl then EExcl (inj b) else EIncl (inj b)) = if excl then b <=? a else b <? a).
    { cbn [is_empty_naive]. destruct excl; cbn [is_empty_naive]; unfold ix_leb; rewrite (il_ltb _ _ _ L) by lia; auto.
      rewrite Z.leb_antisym. reflexivity. }
    rewrite E1, E2, E3, E4, E5.
    destruct (range_ok (rsum l) sb eb) eqn:Ok.
    - unfold range_ok in Ok. rewrite !andb_true_iff in Ok. destruct Ok as [[O1 O2] O3].
      assert (N1 : (match sb, eb with SIncl a, EIncl b => b <? a | SIncl a, EExcl b => b <=? a | _, _ => false end) = false).
      { destruct sb, eb; auto; lia. }
      assert (N2 : (match sb with SIncl a => rsum l <=? a | SUnb => false end) = false) by (destruct sb; auto; lia).
      assert (N3 : (if excl then b <=? rsum l else b <? rsum l) = true) by (subst b excl; destruct eb; cbn; lia).
      rewrite N1, N2, N3. cbn [negb orb]. eexists. split; [reflexivity|].
      assert (Hre : range_end (rsum l) eb = if excl then b else b + 1) by (subst b excl; destruct eb; reflexivity).
      rewrite Hre.
      destruct r as [r|].
      + destruct (if excl then b <=? a else b <? a) eqn:Em.
        * intros calls. rewrite ended_calls by reflexivity. eexists. f_equal. f_equal.
          rewrite overlapping_empty, deque_nil; auto; [rewrite map_map; reflexivity|].
          subst a b excl. destruct sb, eb; cbn in *; lia.
        * destruct Hr as [Rr Hlen].
          assert (Hpos : 0 < rsum l) by (eapply rep_sum_pos; eauto).
          assert (Har : 0 <= a < rsum l) by (subst a; destruct sb; cbn in *; lia).
          assert (Hbr : if excl then 0 < b <= rsum l else 0 <= b < rsum l).
          { destruct excl; lia. }
          destruct (ps_find l a false Hp Har) as (i0 & Hi0 & Hai).
          destruct (ps_find l b excl Hp Hbr) as (j0 & Hj0 & Hbj).
          assert (Hij : (i0 <= j0 < length l)%nat).
          { split; auto. assert (i0 < j0 + 1)%nat; [|lia]. apply (ps_lt l); auto. destruct excl; lia. }
          intros calls.
          rewrite (overlap_sub r l a b excl i0 j0) by auto.
          apply (calls_ok r l a b excl i0 j0); auto.
          unfold inv. cbn. repeat split; auto. lia.
      + cbn in Hr. subst l. intros calls. rewrite ended_calls by reflexivity. eexists. f_equal. f_equal.
        cbn. rewrite deque_nil, map_map. reflexivity.
    - assert (N : (match sb, eb with SIncl a, EIncl b => b <? a | SIncl a, EExcl b => b <=? a | _, _ => false end) = true \/
                  (match sb with SIncl a => rsum l <=? a | SUnb => false end || negb (if excl then b <=? rsum l else b <? rsum l)) = true).
      { subst a b excl. unfold range_ok in Ok. destruct sb, eb; cbn in *; lia. }
      destruct N as [->| ->]; auto.
      destruct (match sb, eb with SIncl a, EIncl b => b <? a | SIncl a, EExcl b => b <=? a | _, _ => false end); auto.
  Qed.

  (** Collecting in order. *)
  Lemma collect_calls : forall n r it (d : list (Z * Z * V)) os, length d = n ->
    iter_calls X r it (repeat false (S n)) = Ok (map (option_map inj_item) (deque d (repeat false (S n))), os) ->
    collect X (S n) r it = Ok (map inj_item d).
  Proof.
    induction n as [|n IH]; intros r it d os Hd H.
    - destruct d; [|discriminate]. cbn [repeat iter_calls] in H.
      destruct (iter_step X r false it) as [[o it']| |] eqn:E; cbn [bind] in H; try discriminate.
      cbn [deque map option_map] in H. inversion H; subst. cbn [collect]. rewrite E. reflexivity.
    - destruct d as [|e d]; [discriminate|].
      change (repeat false (S (S n))) with (false :: repeat false (S n)) in H. remember (repeat false (S n)) as c eqn:Ec.
      cbn [iter_calls] in H.
      destruct (iter_step X r false it) as [[o it']| |] eqn:E; cbn [bind] in H; try discriminate.
      destruct (iter_calls X r it' c) as [[os' it'']| |] eqn:E2; cbn [bind] in H; try discriminate.
      cbn [deque map option_map] in H. inversion H; subst.
      cbn [length] in Hd. specialize (IH r it' d os ltac:(lia) E2).
      change (collect X (S (S n)) r it) with (let* (o, it') := iter_step X r false it in
        match o with None => Ok [] | Some x => let* xs := collect X (S n) r it' in Ok (x :: xs) end).
      rewrite E. cbn [bind]. rewrite IH. reflexivity.
  Qed.

  Lemma collect_more : forall f r it xs k, collect X f r it = Ok xs -> collect X (f + k) r it = @Ok (list (@item I V)) xs.
  Proof.
    induction f as [|f IH]; intros r it xs k H; [discriminate|]. cbn [Nat.add collect] in *.
    destruct (iter_step X r false it) as [[[e|] it']| |]; cbn [bind] in *; try discriminate; auto.
    destruct (collect X f r it') as [ys| |] eqn:E; cbn [bind] in H; try discriminate.
    rewrite (IH _ _ _ k E). exact H.
  Qed.

  Lemma rle_len_ok : forall r l, rle_rep r l -> rle_len r = length l.
  Proof. intros [r|] l H; cbn in *; [tauto | subst; reflexivity]. Qed.

  Lemma filter_length_le : forall {T} (f : T -> bool) l, (length (filter f l) <= length l)%nat.
  Proof. induction l as [|x l IH]; cbn; [lia|]. destruct (f x); cbn; lia. Qed.

  Lemma overlapping_all : forall (l : list run), pos_runs l -> overlapping l 0 (rsum l) = spans 0 l.
  Proof.
    intros l Hp. apply filter_all. eapply Forall_impl; [|apply spans_lo; auto].
    cbn. intros e H. destruct (Z.ltb_spec (fst (fst e)) (rsum l)); [|lia]. destruct (Z.ltb_spec 0 (snd (fst e))); [|lia]. reflexivity.
  Qed.

  Theorem iter_collect_ok : forall r l hints sb eb, rle_rep r l -> rsum l <= MAX -> sb_in sb -> eb_in eb ->
    iter_collect X r hints (inj_sb sb) (inj_eb eb) =
      if range_ok (rsum l) sb eb then Ok (map inj_item (overlapping l (range_start sb) (range_end (rsum l) eb)))
      else Panic PRange.
  Proof.
    intros r l hints sb eb Hr Hm Hs He. pose proof (iter_ok r l hints sb eb Hr Hm Hs He) as H.
    unfold iter_collect. destruct (range_ok (rsum l) sb eb).
    - destruct H as (it & E & H). rewrite E. cbn [bind].
      set (d := overlapping l _ _) in *.
      assert (Hd : (length d <= length l)%nat).
      { rewrite <- (spans_length l 0). apply filter_length_le. }
      rewrite (rle_len_ok _ _ Hr).
      replace (S (length l)) with (S (length d) + (length l - length d))%nat by lia.
      destruct (H (repeat false (S (length d)))) as (it' & E').
      apply collect_more. eapply collect_calls; eauto.
    - rewrite H. reflexivity.
  Qed.

  (** The whole contents. *)
  Theorem iter_all_ok : forall r l hints, rle_rep r l -> rsum l <= MAX ->
    iter_collect X r hints SUnb EUnb = Ok (map inj_item (spans 0 l)).
  Proof.
    intros r l hints Hr Hm. pose proof (iter_collect_ok r l hints SUnb EUnb Hr Hm Logic.I Logic.I) as H. cbn in H. rewrite H.
    rewrite overlapping_all; auto. eapply rle_rep_pos; eauto.
  Qed.
End IterQ.
