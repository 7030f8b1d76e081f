(** Proofs about the iterator: moving a handle by one run, and finding the first and last run. *)
From Coq Require Import List ZArith Lia Bool Arith.
From Verif Require Import Base Spec Index Slice Tree Insert Range Iter Zip Rep Upd Leaf Path Ops Find.
Import ListNotations.

Section Raw.
  Context {I V : Type}.
  Notation tree := (tree I V).
  Notation entry := (entry_of I V) (only parsing).

  Lemma child_bound : forall (c0 : tree) es c ch, child_of c0 es c = Ok ch -> c <= length es.
  Proof.
    intros c0 es [|c] ch H; [lia|]. cbn [child_of] in H. unfold nth_ub in H.
    destruct (nth_error es c) eqn:E; [|discriminate].
    assert (c < length es) by (apply nth_error_Some; congruence). lia.
  Qed.

  (** Runs before the node at path [p]. *)
  Fixpoint base (t : tree) (p : list nat) : option nat :=
    match p with
    | [] => Some 0
    | c :: p' =>
      match t with
      | Nil => None
      | Node _ c0 es =>
        match child_of c0 es c with
        | Ok ch => option_map (Nat.add (before c0 es c)) (base ch p')
        | _ => None
        end
      end
    end.

  Lemma rank_app : forall p t n b q k, node_at t p = Ok n -> base t p = Some b ->
    rank t (p ++ q) k = option_map (Nat.add b) (rank n q k).
  Proof.
    induction p as [|c p IH]; intros t n b q k Hn Hb.
    - cbn [node_at base app] in *. inversion Hn; inversion Hb; subst. destruct (rank n q k); reflexivity.
    - destruct t as [|tot c0 es]; [discriminate|]. cbn [node_at child base] in *. cbn [rank app].
      destruct (child_of c0 es c) as [ch| |]; try discriminate. cbn [bind] in Hn.
      destruct (base ch p) as [b'|] eqn:Eb; [|discriminate]. cbn [option_map] in Hb. injection Hb as <-.
      rewrite (IH ch n b' q k Hn Eb). destruct (rank n q k); cbn [option_map]; [f_equal; lia | reflexivity].
  Qed.

  Lemma rank_base : forall p t n b k, node_at t p = Ok n -> base t p = Some b ->
    rank t p k = option_map (Nat.add b) (rank n [] k).
  Proof. intros. rewrite <- (app_nil_r p) at 1. apply rank_app; auto. Qed.

  Lemma node_base : forall p t n, node_at t p = Ok n -> exists b, base t p = Some b.
  Proof.
    induction p as [|c p IH]; intros t n Hn; [exists 0; reflexivity|].
    destruct t as [|tot c0 es]; [discriminate|]. cbn [node_at child base] in *.
    destruct (child_of c0 es c) as [ch| |]; try discriminate. cbn [bind] in Hn.
    destruct (IH _ _ Hn) as [b ->]. eexists; reflexivity.
  Qed.

  Lemma node_at_app : forall p (t : tree) q, node_at t (p ++ q) = let* n := node_at t p in node_at n q.
  Proof.
    induction p as [|c p IH]; intros; [reflexivity|]. cbn [app node_at].
    destruct (child t c); cbn [bind]; auto.
  Qed.

  Lemma base_snoc : forall p t tot c0 es b c, node_at t p = Ok (Node tot c0 es) -> base t p = Some b ->
    c <= length es -> base t (p ++ [c]) = Some (b + before c0 es c).
  Proof.
    induction p as [|i p IH]; intros t tot c0 es b c Hn Hb Hc.
    - cbn [node_at base app] in *. inversion Hn; inversion Hb; subst.
      destruct (child_of c0 es c) eqn:E; [cbn; f_equal; lia | |].
      + destruct c; [discriminate|]. cbn in E. unfold nth_ub in E. destruct (nth_error es c) eqn:E2; [discriminate|].
        apply nth_error_None in E2. lia.
      + destruct c; [discriminate|]. cbn in E. unfold nth_ub in E. destruct (nth_error es c) eqn:E2; [discriminate|].
        apply nth_error_None in E2. lia.
    - destruct t as [|tt d0 ds]; [discriminate|]. cbn [node_at child base app] in *.
      destruct (child_of d0 ds i) as [ch| |]; try discriminate. cbn [bind] in Hn.
      destruct (base ch p) as [b'|] eqn:Eb; [|discriminate]. cbn [option_map] in Hb. inversion Hb; subst b.
      rewrite (IH ch tot c0 es b' c Hn Eb Hc). cbn [option_map]. f_equal. lia.
  Qed.

  Lemma before_step : forall c c0 (es : list entry) ch, c < length es -> child_of c0 es c = Ok ch ->
    before c0 es (S c) = before c0 es c + count ch + 1.
  Proof.
    induction c as [|c IH]; intros c0 es ch Hc E.
    - cbn [child_of] in E. inversion E; subst. destruct es as [|[k c1] es]; [cbn in Hc; lia|]. cbn [before]. lia.
    - destruct es as [|[k c1] es]; [cbn in Hc; lia|]. cbn [length] in Hc.
      assert (E' : child_of c1 es c = Ok ch).
      { cbn [child_of] in E. unfold nth_ub in E. cbn [nth_error] in E. destruct c as [|c]; cbn in *; auto. }
      specialize (IH c1 es ch ltac:(lia) E'). cbn [before] in *. lia.
  Qed.

  Lemma before_le : forall c c0 (es : list entry) ch, c < length es -> child_of c0 es c = Ok ch ->
    forall d, c < d <= length es -> before c0 es c + count ch + 1 <= before c0 es d.
  Proof.
    intros c c0 es ch Hc E d [H1 H2]. induction H1 as [|d H1 IH].
    - rewrite (before_step c c0 es ch Hc E). lia.
    - specialize (IH ltac:(lia)).
      destruct (child_of c0 es d) as [ch'| |] eqn:E'.
      + rewrite (before_step d c0 es ch') by (auto; lia). lia.
      + destruct d; [discriminate|]. cbn in E'. unfold nth_ub in E'. destruct (nth_error es d) eqn:E2; [discriminate|].
        apply nth_error_None in E2. lia.
      + destruct d; [discriminate|]. cbn in E'. unfold nth_ub in E'. destruct (nth_error es d) eqn:E2; [discriminate|].
        apply nth_error_None in E2. lia.
  Qed.

  Lemma count_last : forall tot c0 (es : list entry) ch, child_of c0 es (length es) = Ok ch ->
    count (Node tot c0 es) = before c0 es (length es) + count ch.
  Proof.
    intros tot c0 es ch. rewrite count_Node. revert c0. induction es as [|[k c1] es IH]; intros c0 E.
    - cbn in E. inversion E; subst. cbn. lia.
    - cbn [length] in *. assert (E' : child_of c1 es (length es) = Ok ch).
      { cbn [child_of] in E. unfold nth_ub in E. cbn [nth_error] in E. destruct es; cbn in *; auto. }
      specialize (IH _ E'). cbn [before ecount]. lia.
  Qed.

  Lemma before_count : forall tot c0 (es : list entry) c ch, c <= length es -> child_of c0 es c = Ok ch ->
    before c0 es c + count ch <= count (Node tot c0 es).
  Proof.
    intros tot c0 es c ch Hc E.
    destruct (Nat.eq_dec c (length es)) as [->|Hne].
    - rewrite (count_last tot c0 es ch E). lia.
    - destruct (child_of c0 es (length es)) as [ch'| |] eqn:E'.
      + rewrite (count_last tot c0 es ch' E'). pose proof (before_le c c0 es ch ltac:(lia) E (length es) ltac:(lia)). lia.
      + destruct es; [cbn in *; lia|]. cbn [length child_of] in E'. unfold nth_ub in E'.
        destruct (nth_error (p :: es) (length es)) eqn:E2; [discriminate|]. apply nth_error_None in E2. cbn in E2. lia.
      + destruct es; [cbn in *; lia|]. cbn [length child_of] in E'. unfold nth_ub in E'.
        destruct (nth_error (p :: es) (length es)) eqn:E2; [discriminate|]. apply nth_error_None in E2. cbn in E2. lia.
  Qed.

  Lemma rank_count : forall p (t : tree) k r, rank t p k = Some r -> r < count t.
  Proof.
    induction p as [|c p IH]; intros t k r H; (destruct t as [|tot c0 es]; [discriminate|]); cbn [rank] in H.
    - destruct (Nat.ltb_spec k (length es)) as [Hk|Hk]; [|discriminate].
      destruct (child_of c0 es k) as [ch| |] eqn:E; try discriminate. inversion H; subst.
      pose proof (before_step k c0 es ch Hk E) as B1.
      destruct (child_of c0 es (S k)) as [ch'| |] eqn:E'.
      + pose proof (before_count tot c0 es (S k) ch' ltac:(lia) E'). lia.
      + cbn in E'. unfold nth_ub in E'. destruct (nth_error es k) eqn:E2; [discriminate|]. apply nth_error_None in E2. lia.
      + cbn in E'. unfold nth_ub in E'. destruct (nth_error es k) eqn:E2; [discriminate|]. apply nth_error_None in E2. lia.
    - destruct (child_of c0 es c) as [ch| |] eqn:E; try discriminate.
      destruct (rank ch p k) as [r'|] eqn:Er; [|discriminate]. cbn [option_map] in H. inversion H; subst.
      specialize (IH _ _ _ Er). pose proof (before_count tot c0 es c ch (child_bound _ _ _ _ E) E). lia.
  Qed.

  Lemma rank_inj : forall p (t : tree) k p' k' r, rank t p k = Some r -> rank t p' k' = Some r -> p = p' /\ k = k'.
  Proof.
    induction p as [|c p IH]; intros t k p' k' r H H'; (destruct t as [|tot c0 es]; [discriminate|]).
    - destruct p' as [|c' p']; cbn [rank] in H, H'.
      + destruct (Nat.ltb_spec k (length es)) as [Hk|Hk]; [|discriminate].
        destruct (Nat.ltb_spec k' (length es)) as [Hk'|Hk']; [|discriminate].
        destruct (child_of c0 es k) as [ch| |] eqn:E; try discriminate.
        destruct (child_of c0 es k') as [ch'| |] eqn:E'; try discriminate.
        inversion H; inversion H'; subst. split; auto.
        destruct (Nat.lt_trichotomy k k') as [Hl|[Hl|Hl]]; auto; exfalso.
        * pose proof (before_le k c0 es ch Hk E k' ltac:(lia)). lia.
        * pose proof (before_le k' c0 es ch' Hk' E' k ltac:(lia)). lia.
      + destruct (Nat.ltb_spec k (length es)) as [Hk|Hk]; [|discriminate].
        destruct (child_of c0 es k) as [ch| |] eqn:E; try discriminate.
        destruct (child_of c0 es c') as [ch'| |] eqn:E'; try discriminate.
        destruct (rank ch' p' k') as [r'|] eqn:Er; [|discriminate]. cbn [option_map] in H'.
        inversion H; inversion H'; subst. exfalso. apply rank_count in Er.
        destruct (Nat.le_gt_cases c' k) as [Hl|Hl].
        * destruct (Nat.eq_dec c' k) as [->|]; [rewrite E in E'; inversion E'; subst; lia|].
          pose proof (before_le c' c0 es ch' ltac:(lia) E' k ltac:(lia)). lia.
        * pose proof (before_le k c0 es ch Hk E c' (conj Hl (child_bound _ _ _ _ E'))). lia.
    - destruct p' as [|c' p']; cbn [rank] in H, H'.
      + destruct (Nat.ltb_spec k' (length es)) as [Hk|Hk]; [|discriminate].
        destruct (child_of c0 es c) as [ch| |] eqn:E; try discriminate.
        destruct (child_of c0 es k') as [ch'| |] eqn:E'; try discriminate.
        destruct (rank ch p k) as [r'|] eqn:Er; [|discriminate]. cbn [option_map] in H.
        inversion H; inversion H'; subst. exfalso. apply rank_count in Er.
        destruct (Nat.le_gt_cases c k') as [Hl|Hl].
        * destruct (Nat.eq_dec c k') as [->|]; [rewrite E in E'; inversion E'; subst; lia|].
          pose proof (before_le c c0 es ch ltac:(lia) E k' ltac:(lia)). lia.
        * pose proof (before_le k' c0 es ch' Hk E' c (conj Hl (child_bound _ _ _ _ E))). lia.
      + destruct (child_of c0 es c) as [ch| |] eqn:E; try discriminate.
        destruct (child_of c0 es c') as [ch'| |] eqn:E'; try discriminate.
        destruct (rank ch p k) as [r1|] eqn:Er; [|discriminate].
        destruct (rank ch' p' k') as [r2|] eqn:Er'; [|discriminate]. cbn [option_map] in *.
        inversion H as [Q1]; inversion H' as [Q2].
        pose proof (rank_count _ _ _ _ Er) as C1. pose proof (rank_count _ _ _ _ Er') as C2.
        destruct (Nat.lt_trichotomy c c') as [Hl|[Hl|Hl]].
        * pose proof (child_bound _ _ _ _ E'). pose proof (before_le c c0 es ch ltac:(lia) E c' ltac:(lia)). lia.
        * subst c'. rewrite E in E'. inversion E'; subst ch'.
          assert (r1 = r2) by lia. subst r2. destruct (IH _ _ _ _ _ Er Er') as [-> ->]. auto.
        * pose proof (child_bound _ _ _ _ E). pose proof (before_le c' c0 es ch' ltac:(lia) E' c ltac:(lia)). lia.
  Qed.

  Lemma handle_eqb_rank : forall (t : tree) a b ra rb, rank t (fst a) (snd a) = Some ra -> rank t (fst b) (snd b) = Some rb ->
    handle_eqb a b = (ra =? rb).
  Proof.
    intros t [p k] [p' k'] ra rb H H'. unfold handle_eqb. cbn [fst snd] in *.
    destruct (Nat.eqb_spec ra rb) as [->|Hn].
    - destruct (rank_inj _ _ _ _ _ _ H H') as [-> ->]. destruct (list_eq_dec Nat.eq_dec p' p'); [apply Nat.eqb_refl | congruence].
    - destruct (list_eq_dec Nat.eq_dec p p') as [->|]; auto. apply Nat.eqb_neq. intros ->. congruence.
  Qed.

  (** The upward loops. *)
  Lemma child_ok : forall (c0 : tree) es c, c <= length es -> exists ch, child_of c0 es c = Ok ch.
  Proof.
    intros c0 es [|c] H; [eexists; reflexivity|]. cbn [child_of]. unfold nth_ub.
    destruct (nth_error es c) eqn:E; [eexists; reflexivity|]. apply nth_error_None in E. lia.
  Qed.

  Lemma fwd_up_ok : forall rp (t : tree) n b, node_at t (rev rp) = Ok n -> base t (rev rp) = Some b ->
    b + count n < count t ->
    exists p' k', fwd_up t rp = Ok (p', k') /\ rank t p' k' = Some (b + count n).
  Proof.
    induction rp as [|c rp IH]; intros t n b Hn Hb Hlt.
    - cbn in *. inversion Hn; inversion Hb; subst. lia.
    - cbn [rev] in *. rewrite node_at_app in Hn.
      destruct (node_at t (rev rp)) as [par| |] eqn:Ep; try discriminate. cbn [bind node_at] in Hn.
      destruct par as [|tot c0 es]; [discriminate|]. cbn [child] in Hn.
      destruct (child_of c0 es c) as [ch| |] eqn:Ec; try discriminate. cbn [bind] in Hn. inversion Hn; subst ch.
      destruct (node_base _ _ _ Ep) as [b0 Eb0].
      pose proof (child_bound _ _ _ _ Ec) as Hc.
      rewrite (base_snoc _ _ _ _ _ _ c Ep Eb0 Hc) in Hb. inversion Hb; subst b.
      cbn [fwd_up]. rewrite Ep. cbn [bind]. unfold tlen, keys.
      destruct (Nat.ltb_spec c (length es)) as [Hl|Hl].
      + exists (rev rp), c. split; auto. rewrite (rank_base _ _ _ _ c Ep Eb0). cbn [rank].
        destruct (Nat.ltb_spec c (length es)); [|lia]. rewrite Ec. cbn [option_map]. f_equal. lia.
      + assert (c = length es) by lia. subst c.
        destruct (IH t (Node tot c0 es) b0 Ep Eb0) as (p' & k' & E1 & E2).
        { rewrite (count_last tot c0 es n Ec). lia. }
        exists p', k'. split; auto. rewrite E2, (count_last tot c0 es n Ec). f_equal. lia.
  Qed.

  Lemma bkwd_up_ok : forall rp (t : tree) n b, node_at t (rev rp) = Ok n -> base t (rev rp) = Some (S b) ->
    exists p' k', bkwd_up t rp = Ok (p', k') /\ rank t p' k' = Some b.
  Proof.
    induction rp as [|c rp IH]; intros t n b Hn Hb.
    - cbn in Hb. discriminate.
    - cbn [rev] in *. rewrite node_at_app in Hn.
      destruct (node_at t (rev rp)) as [par| |] eqn:Ep; try discriminate. cbn [bind node_at] in Hn.
      destruct par as [|tot c0 es]; [discriminate|]. cbn [child] in Hn.
      destruct (child_of c0 es c) as [ch| |] eqn:Ec; try discriminate. clear Hn.
      destruct (node_base _ _ _ Ep) as [b0 Eb0].
      pose proof (child_bound _ _ _ _ Ec) as Hc.
      rewrite (base_snoc _ _ _ _ _ _ c Ep Eb0 Hc) in Hb. inversion Hb as [Hb'].
      cbn [bkwd_up]. destruct c as [|k].
      + cbn [before] in Hb'. rewrite Nat.add_0_r in Hb'. subst b0. eapply IH; eauto.
      + exists (rev rp), k. split; auto. rewrite (rank_base _ _ _ _ k Ep Eb0). cbn [rank].
        destruct (Nat.ltb_spec k (length es)); [|lia].
        destruct (child_ok c0 es k ltac:(lia)) as [chk Ek]. rewrite Ek. cbn [option_map].
        rewrite (before_step k c0 es chk) in Hb' by auto. f_equal. lia.
  Qed.
End Raw.

Local Open Scope Z_scope.
Section IterP.
  Context {I V : Type} (X : index_ops I) (MAX : Z) (inj : Z -> I) (M : nat).
  Hypothesis L : index_laws X MAX inj.
  Hypothesis HM : (1 <= M)%nat.
  Notation tree := (tree I V).
  Notation entry := (entry_of I V) (only parsing).
  Notation run := (prod V Z) (only parsing).
  Notation rep := (@rep I V inj M).
  Notation childR := (@childR I V inj M).

  Ltac ix := repeat (first [ rewrite (il_addr _ _ _ L) by lia
                           | rewrite (il_addl _ _ _ L) by lia
                           | rewrite (il_subl _ _ _ L) by lia
                           | rewrite (il_subr _ _ _ L) by lia ]; cbn [bind]).

  Lemma rep_view : forall lo h t l, rep lo h t l -> exists c0 es, t = Node (inj (rsum l)) c0 es /\
    (lo <= length es <= 2 * M)%nat /\
    forall c ch, child_of c0 es c = Ok ch -> exists lc, childR h ch lc.
  Proof.
    intros lo h t l R. rewrite rep_nrep in R. destruct R as (c0 & es & lc & l' & -> & Hlen & H0 & Hs & ->).
    exists c0, es. split; auto. split; auto. intros [|c] ch E.
    - cbn in E. inversion E; subst; eauto.
    - cbn in E. unfold nth_ub in E. destruct (nth_error es c) as [e|] eqn:E2; [|discriminate]. cbn in E. inversion E; subst.
      clear - E2 Hs. revert c e E2. induction Hs as [off|off z s ch lc2 es l2 Hz Hc H IH]; intros c e E2; [destruct c; discriminate|].
      destruct c; cbn in E2; [inversion E2; subst; cbn; eauto | eauto].
  Qed.

  Lemma fwd_down_ok : forall h lo n l c p, rep lo (S h) n l -> (c <= tlen n)%nat ->
    exists q tot c0 es, fwd_down h n p c = Ok (p ++ q, O) /\ n = Node tot c0 es /\ rank n q 0 = Some (before c0 es c).
  Proof.
    induction h as [|h IH]; intros lo n l c p R Hc.
    all: destruct (rep_view _ _ _ _ R) as (c0 & es & -> & Hlen & Hch).
    all: unfold tlen, keys in Hc; destruct (child_ok c0 es c Hc) as [ch Ec]; destruct (Hch c ch Ec) as [lc Rc].
    all: cbn [fwd_down child]; rewrite Ec; cbn [bind]; cbn [Rep.childR] in Rc.
    - destruct (rep_view _ _ _ _ Rc) as (d0 & ds & -> & Hlen' & Hch'). unfold tlen, keys.
      destruct (Nat.eqb_spec (length ds) 0); [lia|].
      exists [c], (inj (rsum l)), c0, es. split; auto. split; auto. cbn [rank]. rewrite Ec.
      destruct (Nat.ltb_spec 0 (length ds)); [|lia]. cbn [child_of before].
      destruct (Hch' O d0 eq_refl) as [l0 [-> _]]. cbn [count option_map]. f_equal. lia.
    - destruct (IH M ch lc O (p ++ [c]) Rc) as (q & tot & d0 & ds & E1 & -> & E3); [lia|].
      rewrite E1. exists (c :: q), (inj (rsum l)), c0, es. rewrite <- app_assoc. split; auto. split; auto.
      remember (rank (Node tot d0 ds) q 0) as r. cbn [rank]. rewrite Ec. rewrite <- Heqr, E3. cbn [before option_map]. f_equal. lia.
  Qed.

  Lemma bkwd_down_ok : forall h lo n l c p, rep lo (S h) n l -> (c <= tlen n)%nat ->
    exists q k tot c0 es ch, bkwd_down h n p c = Ok (p ++ q, k) /\ n = Node tot c0 es /\ child_of c0 es c = Ok ch /\
      (1 <= count ch)%nat /\ rank n q k = Some (before c0 es c + count ch - 1)%nat.
  Proof.
    induction h as [|h IH]; intros lo n l c p R Hc.
    all: destruct (rep_view _ _ _ _ R) as (c0 & es & -> & Hlen & Hch).
    all: unfold tlen, keys in Hc; destruct (child_ok c0 es c Hc) as [ch Ec]; destruct (Hch c ch Ec) as [lc Rc].
    all: cbn [bkwd_down child]; rewrite Ec; cbn [bind]; cbn [Rep.childR] in Rc.
    - destruct (rep_view _ _ _ _ Rc) as (d0 & ds & -> & Hlen' & Hch'). unfold tlen, keys.
      destruct (length ds) as [|k] eqn:Ek; [lia|].
      exists [c], k, (inj (rsum l)), c0, es, (Node (inj (rsum lc)) d0 ds). split; auto. split; auto. split; auto.
      destruct (child_ok d0 ds k ltac:(lia)) as [x Ex]. destruct (Hch' k x Ex) as [lx [-> _]].
      destruct (child_ok d0 ds (S k) ltac:(lia)) as [y Ey]. destruct (Hch' (S k) y Ey) as [ly [-> _]].
      pose proof (before_step k d0 ds Nil ltac:(lia) Ex) as B1.
      pose proof (count_last (inj (rsum lc)) d0 ds Nil) as B2. rewrite Ek in B2. specialize (B2 Ey).
      change (count (@Nil I V)) with O in *. split; [lia|].
      remember (count (Node (inj (rsum lc)) d0 ds)) as cc. cbn [rank]. rewrite Ec.
      destruct (Nat.ltb_spec k (length ds)); [|lia]. rewrite Ex. cbn [count option_map]. f_equal. lia.
    - destruct (IH M ch lc (tlen ch) (p ++ [c]) Rc ltac:(lia)) as (q & k & tot & d0 & ds & x & E1 & -> & Ex & Hx & E3).
      rewrite E1. exists (c :: q), k, (inj (rsum l)), c0, es, (Node tot d0 ds).
      unfold tlen, keys in *. pose proof (count_last tot d0 ds x Ex) as B2.
      rewrite <- app_assoc. split; auto. split; auto. split; auto. split; [lia|].
      remember (rank (Node tot d0 ds) q k) as r. remember (count (Node tot d0 ds)) as cc.
      cbn [rank]. rewrite Ec. rewrite <- Heqr, E3. cbn [option_map]. f_equal. lia.
  Qed.

  Lemma handle_node : forall lo h t l p k r, rep lo h t l -> rank t p k = Some r ->
    exists lo' h' n ln b, node_at t p = Ok n /\ base t p = Some b /\ rep lo' h' n ln /\ h = (h' + length p)%nat /\
      exists r0, rank n [] k = Some r0 /\ r = (b + r0)%nat.
  Proof.
    intros lo h t l p k r R H.
    destruct (path_focus inj M HM p lo h t l R (rank_height inj M HM _ _ _ _ _ _ _ R H) (rank_node_at _ _ _ _ H))
      as (lo' & h' & n & ln & la & lb & F & _).
    destruct (focus_facts inj M HM _ _ _ _ _ _ _ _ _ _ _ F) as (_ & Rn & _ & Eh & En).
    destruct (node_base _ _ _ En) as [b Eb].
    exists lo', h', n, ln, b. repeat split; auto.
    rewrite (rank_base _ _ _ _ k En Eb) in H. destruct (rank n [] k) as [r0|]; [|discriminate].
    cbn in H. inversion H; eauto.
  Qed.

  Lemma fwd_head_ok : forall lo h t l p k r, rep lo h t l -> rank t p k = Some r -> (r + 1 < length l)%nat ->
    exists p' k', fwd_head h t (p, k) = Ok (p', k') /\ rank t p' k' = Some (r + 1)%nat.
  Proof.
    intros lo h t l p k r R H Hr.
    destruct (handle_node _ _ _ _ _ _ _ R H) as (lo' & h' & n & ln & b & En & Eb & Rn & Eh & r0 & E0 & ->).
    destruct (rep_view _ _ _ _ Rn) as (c0 & es & -> & Hlen & Hch).
    cbn [rank] in E0. destruct (Nat.ltb_spec k (length es)) as [Hk|]; [|discriminate].
    destruct (child_of c0 es k) as [ch| |] eqn:Ec; try discriminate. inversion E0; subst r0. clear E0.
    unfold fwd_head. rewrite En. cbn [bind]. replace (h - length p)%nat with h' by lia.
    pose proof (before_step k c0 es ch Hk Ec) as Hstep.
    destruct h' as [|h'].
    - destruct (Hch k ch Ec) as [? [-> _]]. change (count (@Nil I V)) with O in *.
      unfold tlen, keys. destruct (Nat.ltb_spec (k + 1) (length es)) as [Hk1|Hk1].
      + exists p, (k + 1)%nat. split; auto. rewrite (rank_base _ _ _ _ _ En Eb). cbn [rank].
        destruct (Nat.ltb_spec (k + 1) (length es)); [|lia].
        destruct (child_ok c0 es (k + 1) ltac:(lia)) as [ch' Ec']. rewrite Ec'.
        destruct (Hch _ ch' Ec') as [? [-> _]]. change (count (@Nil I V)) with O.
        replace (k + 1)%nat with (S k) by lia. cbn [option_map]. f_equal. lia.
      + destruct (child_ok c0 es (S k) ltac:(lia)) as [ch' Ec']. destruct (Hch _ ch' Ec') as [? [-> _]].
        pose proof (count_last (inj (rsum ln)) c0 es Nil) as Cl. replace (length es) with (S k) in Cl by lia.
        specialize (Cl Ec'). change (count (@Nil I V)) with O in Cl.
        rewrite <- (rev_involutive p) in En, Eb.
        destruct (fwd_up_ok (rev p) t _ b En Eb) as (p' & k' & E1 & E2).
        { rewrite (rep_count inj M _ _ _ _ R), Cl. lia. }
        exists p', k'. split; auto. rewrite E2, Cl. f_equal. lia.
    - destruct (fwd_down_ok h' lo' _ ln (k + 1) p Rn) as (q & tot & d0 & ds & E1 & E2 & E3); [unfold tlen, keys; lia|].
      inversion E2; subst d0 ds. rewrite E1. exists (p ++ q), O. split; auto.
      rewrite (rank_app _ _ _ _ q O En Eb), E3. replace (k + 1)%nat with (S k) by lia. cbn [option_map]. f_equal. lia.
  Qed.

  Lemma bkwd_head_ok : forall lo h t l p k r, rep lo h t l -> rank t p k = Some (S r) ->
    exists p' k', bkwd_head h t (p, k) = Ok (p', k') /\ rank t p' k' = Some r.
  Proof.
    intros lo h t l p k r R H.
    destruct (handle_node _ _ _ _ _ _ _ R H) as (lo' & h' & n & ln & b & En & Eb & Rn & Eh & r0 & E0 & Er).
    destruct (rep_view _ _ _ _ Rn) as (c0 & es & -> & Hlen & Hch).
    cbn [rank] in E0. destruct (Nat.ltb_spec k (length es)) as [Hk|]; [|discriminate].
    destruct (child_of c0 es k) as [ch| |] eqn:Ec; try discriminate. inversion E0; subst r0. clear E0.
    unfold bkwd_head. rewrite En. cbn [bind]. replace (h - length p)%nat with h' by lia.
    destruct h' as [|h'].
    - destruct (Hch k ch Ec) as [? [-> _]]. change (count (@Nil I V)) with O in *.
      destruct k as [|k].
      + cbn [before] in Er. rewrite <- (rev_involutive p) in En, Eb. replace b with (S r) in Eb by lia.
        apply (bkwd_up_ok (rev p) t _ r En Eb).
      + exists p, k. split; auto. rewrite (rank_base _ _ _ _ _ En Eb). cbn [rank].
        destruct (Nat.ltb_spec k (length es)); [|lia].
        destruct (child_ok c0 es k ltac:(lia)) as [ch' Ec']. rewrite Ec'.
        destruct (Hch _ ch' Ec') as [? [-> _]]. change (count (@Nil I V)) with O.
        pose proof (before_step k c0 es Nil ltac:(lia) Ec') as Hstep. change (count (@Nil I V)) with O in *.
        cbn [option_map]. f_equal. lia.
    - destruct (bkwd_down_ok h' lo' _ ln k p Rn) as (q & k' & tot & d0 & ds & x & E1 & E2 & Ex & Hx & E3); [unfold tlen, keys; lia|].
      inversion E2; subst d0 ds. rewrite Ec in Ex. inversion Ex; subst x. rewrite E1. exists (p ++ q), k'. split; auto.
      rewrite (rank_app _ _ _ _ q k' En Eb), E3. cbn [option_map]. f_equal. lia.
  Qed.

  (** Finding the run that contains the first position, or the last one before an excluded end. *)
  Definition hits (excl : bool) (A : list run) (z tau : Z) : Prop :=
    if excl then rsum A < tau <= rsum A + z else rsum A <= tau < rsum A + z.

  Lemma rep_sum_pos : forall lo h t l, rep lo h t l -> (1 <= lo)%nat -> 0 < rsum l.
  Proof.
    intros lo h t l R Hlo. pose proof (rep_pos _ _ _ _ _ _ R) as Hp.
    rewrite rep_nrep in R. destruct R as (c0 & es & lc & l' & _ & Hlen & H0 & Hs & ->).
    inversion Hs as [|off z s ch lc2 es' l2 Hz Hc H]; subst; [cbn [length] in Hlen; lia|].
    apply pos_runs_app in Hp. destruct Hp as [Hp1 Hp2]. pose proof (pos_runs_nonneg _ Hp1).
    inversion Hp2 as [|? ? Hz' Hp3]; subst. pose proof (pos_runs_nonneg _ Hp3). cbn [snd] in Hz'.
    rewrite rsum_app. cbn [rsum]. lia.
  Qed.

  Lemma keyat_list : forall lo h n l k A s z B, @keyat I V inj M lo h n l k A s z B -> l = A ++ (s, z) :: B.
  Proof.
    intros lo h n l k A s z B (? & ? & ? & ? & ? & ? & ? & ? & _ & _ & _ & _ & _ & _ & _ & _ & _ & _ & Eln). exact Eln.
  Qed.

  Lemma leaf_keyat : forall lo n l k A s z B, rep lo 0 n l -> @keyat I V inj M lo 0 n l k A s z B -> length A = k.
  Proof.
    intros lo n l k A s z B R K. pose proof (keyat_rank inj M _ _ _ _ _ _ _ _ _ K) as Hr.
    apply (rep_leaf inj M HM) in R. destruct R as (-> & Hlen & _). pose proof (rank_tlen _ _ _ Hr) as Hk.
    unfold tlen, keys in Hk. rewrite lents_length in Hk. rewrite (leaf_rank inj M HM) in Hr by auto. congruence.
  Qed.

  Definition pick_ok (lo h : nat) (t : tree) (l : list run) (tau : Z) (excl : bool) (r : cok I) : Prop :=
    (exists k A s z B, r = CKey k (inj (rsum A)) /\ @keyat I V inj M lo h t l k A s z B /\ hits excl A z tau) \/
    (exists h' (lft : list (tree * (I * V))) ch rgt l1 lc l2, h = S h' /\ r = CChild (length lft) (inj (rsum l1)) /\
       t = node (inj (rsum l)) lft ch rgt /\
       lseg inj (childR h) 0 lft l1 /\ rep M h' ch lc /\ seg inj (childR h) (rsum l1 + rsum lc) rgt l2 /\ l = l1 ++ lc ++ l2 /\
       hits excl l1 (rsum lc) tau).

  Lemma stack_pick_ok : forall h lo t l hint tau (excl : bool), rep lo h t l -> (1 <= lo)%nat ->
    (if excl then 0 < tau <= rsum l else 0 <= tau < rsum l) -> rsum l <= MAX ->
    exists r, stack_pick X h t hint (inj tau) excl = Ok r /\ pick_ok lo h t l tau excl r.
  Proof.
    intros h lo t l hint tau excl R Hlo Ht Hm.
    pose proof (rep_pos _ _ _ _ _ _ R) as Hpos; pose proof (pos_runs_nonneg _ Hpos) as Hnn.
    assert (Hrange : 0 <= tau <= rsum l) by (destruct excl; lia).
    unfold stack_pick. rewrite (rep_size _ _ _ _ _ _ R). cbn [bind]. rewrite (il_eqb _ _ _ L) by lia.
    destruct (Z.eqb_spec tau (rsum l)) as [Heq|Hne]; cbn [negb].
    - (* the end of the node *)
      destruct excl; [|lia].
      destruct h as [|h].
      + destruct (tlen t) as [|i] eqn:Et.
        { apply (rep_leaf inj M HM) in R. destruct R as (-> & Hlen & _). unfold tlen, keys in Et. rewrite lents_length in Et. lia. }
        destruct (rep_keyat inj M HM _ _ _ _ i R) as (A & s & z & B & K); [lia|].
        destruct (keyat_size X MAX inj M L HM _ _ _ _ _ _ _ _ _ K Hm) as (_ & _ & E3). rewrite E3. cbn [bind].
        eexists. split; [reflexivity|]. left. exists i, A, s, z, B. split; auto. split; auto.
        pose proof (leaf_keyat _ _ _ _ _ _ _ _ R K) as HA. pose proof (keyat_list _ _ _ _ _ _ _ _ _ K) as El.
        pose proof R as R2. apply (rep_leaf inj M HM) in R2. destruct R2 as (-> & Hlen & _). unfold tlen, keys in Et. rewrite lents_length in Et.
        rewrite El, app_length in Et. cbn [length] in Et. destruct B; [|cbn [length] in Et; lia].
        rewrite El in Heq, Hpos. rewrite rsum_app in Heq. cbn [rsum] in Heq.
        apply pos_runs_app in Hpos. destruct Hpos as [_ Hpos]. inversion Hpos; subst. cbn [snd] in *. unfold hits. lia.
      + destruct (key_zip_rep inj M HM _ _ _ _ (tlen t) R) as (lft & ch & rgt & l1 & lc & l2 & Et & Hl & Hlen & H1 & Hc & H2 & El & P1 & Pc & P2); [lia|].
        assert (rgt = []). { rewrite Et, node_tlen in Hl. destruct rgt; auto. cbn [length] in Hl. lia. }
        subst rgt. inversion H2; subst l2. rewrite app_nil_r in El.
        cbn [Rep.childR] in Hc. pose proof (rep_sum_pos _ _ _ _ Hc HM).
        rewrite El, rsum_app in Heq, Hm. 
        unfold child_size. rewrite <- Hl. rewrite Et, node_child. cbn [bind].
        rewrite (rep_size _ _ _ _ _ _ Hc). cbn [bind]. rewrite node_key_pos_or_end. cbn [bind next_pos].
        replace (rsum l) with (rsum l1 + rsum lc) by (rewrite El, rsum_app; reflexivity). ix.
        eexists. split; [reflexivity|]. right. exists h, lft, ch, [], l1, lc, [].
        replace (rsum l1 + rsum lc - rsum lc) with (rsum l1) by lia.
        rewrite app_nil_r. repeat split; auto; try lia.
        rewrite El, rsum_app. reflexivity.
    - destruct (search_step_ok X MAX inj M L HM lo h t l tau hint R Hrange Hm) as (r & E & S). rewrite E. cbn [bind].
      destruct S as [(k & A & s & z & B & -> & K & Hr) | (lft & ch & rgt & l1 & lc & l2 & -> & Et & Hlen & H1 & Hc & H2 & El & Hge & Hlt)].
      + pose proof (keyat_list _ _ _ _ _ _ _ _ _ K) as El. pose proof Hpos as Hpos'. rewrite El in Hpos'.
        apply pos_runs_app in Hpos'. destruct Hpos' as [HA HB0]. inversion HB0 as [|? ? Hz HB]; subst. cbn [snd] in Hz.
        pose proof (pos_runs_nonneg _ HA). pose proof (pos_runs_nonneg _ HB).
        assert (Hm' : rsum A + z + rsum B <= MAX) by (autorewrite with rs in Hm; lia).
        rewrite (il_eqb _ _ _ L) by lia.
        destruct (Z.eqb_spec (rsum A) tau) as [Ea|Ea]; [destruct excl|rewrite andb_false_r]; cbn [andb].
        * (* excluded, exactly at the key *)
          destruct h as [|h].
          -- pose proof (leaf_keyat _ _ _ _ _ _ _ _ R K) as HlA.
             destruct k as [|k]; [destruct A; [cbn [rsum] in *; lia | discriminate]|].
             pose proof (rank_tlen _ _ _ (keyat_rank inj M _ _ _ _ _ _ _ _ _ K)) as Hk.
             destruct (rep_keyat inj M HM _ _ _ _ k R) as (A' & s' & z' & B' & K'); [lia|].
             destruct (keyat_size X MAX inj M L HM _ _ _ _ _ _ _ _ _ K' Hm) as (_ & _ & E3). rewrite E3. cbn [bind].
             eexists. split; [reflexivity|]. left. exists k, A', s', z', B'. split; auto. split; auto.
             pose proof (leaf_keyat _ _ _ _ _ _ _ _ R K') as HlA'. pose proof (keyat_list _ _ _ _ _ _ _ _ _ K') as El'.
             assert (EA : A = A' ++ [(s', z')] /\ (s, z) :: B = B').
             { apply app_inv_length; [rewrite <- app_assoc; cbn [app]; congruence | rewrite app_length; cbn [length]; lia]. }
             destruct EA as [-> _]. autorewrite with rs in *.
             apply pos_runs_app in HA. destruct HA as [_ HA]. inversion HA; subst. cbn [snd] in *. unfold hits. lia.
          -- destruct K as (lft & ch & ch' & rgt & l1 & lc & lc' & l2 & -> & <- & Hlen & H1 & Hc & _ & Hc' & H2 & -> & -> & _).
             cbn [Rep.childR] in Hc. pose proof (rep_sum_pos _ _ _ _ Hc HM).
             unfold child_size. rewrite node_child. cbn [bind]. rewrite (rep_size _ _ _ _ _ _ Hc). cbn [bind].
             rewrite rsum_app in *. pose proof (lseg_nonneg _ _ _ _ _ _ H1). ix.
             eexists. split; [reflexivity|]. right.
             exists h, lft, ch, ((inj (rsum l1 + rsum lc), s, ch') :: rgt), l1, lc, ((s, z) :: lc' ++ l2).
             replace (rsum l1 + rsum lc - rsum lc) with (rsum l1) by lia.
             repeat split; auto; try lia.
             ++ constructor; auto.
             ++ rewrite <- app_assoc. reflexivity.
        * eexists. split; [reflexivity|]. left. exists k, A, s, z, B. split; auto.
        * eexists. split; [reflexivity|]. left. exists k, A, s, z, B. split; auto. split; auto. unfold hits. destruct excl; lia.
      + pose proof (lseg_nonneg _ _ _ _ _ _ H1). pose proof (seg_nonneg _ _ _ _ _ _ H2). pose proof (childR_nonneg _ _ _ _ _ Hc).
        assert (Hsum : rsum l = rsum l1 + rsum lc + rsum l2) by (rewrite El; autorewrite with rs; lia).
        assert (Hlt' : tau < rsum l1 + rsum lc).
        { destruct Hlt as [|[-> Hlt]]; auto. inversion H2; subst l2. cbn [rsum] in *. lia. }
        assert (Hh : exists h', h = S h').
        { destruct h as [|h']; [|eauto]. destruct Hc as [_ ->]. cbn [rsum] in Hlt'. lia. }
        destruct Hh as [h' ->].
        rewrite (il_eqb _ _ _ L) by lia.
        destruct (Z.eqb_spec (rsum l1) tau) as [Ea|Ea]; [destruct excl|rewrite andb_false_r]; cbn [andb].
        * destruct lft as [|x lft0 _] using rev_ind; [inversion H1; subst; cbn [rsum] in *; lia|].
          rewrite app_length. cbn [length]. rewrite Nat.add_1_r.
          destruct x as [c1 [px sx]]. destruct (lseg_app_inv inj _ _ _ _ _ H1) as (l00 & lz & El1 & H10 & Hz0).
          inversion Hz0 as [|off ch'' la s' z lft' l3 Hz Hc1 HHn Eo Ee]; subst. inversion HHn; subst.
          pose proof (lseg_nonneg _ _ _ _ _ _ H10). pose proof (childR_nonneg _ _ _ _ _ Hc1).
          rewrite node_snoc, node_key_pos. cbn [bind].
          eexists. split; [reflexivity|]. left. exists (length lft0), (l00 ++ la), sx, z, (lc ++ l2).
          autorewrite with rs in *. split; [f_equal; f_equal; lia|]. split; [|unfold hits; autorewrite with rs; lia].
          exists lft0, c1, ch, rgt, l00, la, lc, l2.
          rewrite app_length in Hlen. cbn [length] in Hlen.
          split; [f_equal; f_equal; autorewrite with rs; lia|].
          repeat split; auto; try lia.
          -- replace (rsum l00 + rsum la + z + rsum lc) with (rsum l00 + (rsum la + (z + 0)) + rsum lc) by lia. auto.
          -- rewrite <- !app_assoc. cbn [app]. reflexivity.
        * eexists. split; [reflexivity|]. right. exists h', lft, ch, rgt, l1, lc, l2. repeat split; auto.
        * eexists. split; [reflexivity|]. right. exists h', lft, ch, rgt, l1, lc, l2. repeat split; auto.
          unfold hits. destruct excl; lia.
  Qed.

  Lemma make_stack_ok : forall h lo t l p hints hp tau (excl : bool), rep lo h t l -> (1 <= lo)%nat ->
    (if excl then 0 < tau <= rsum l else 0 <= tau < rsum l) -> 0 <= hp -> hp + rsum l <= MAX ->
    exists A s z B q k, l = A ++ (s, z) :: B /\ hits excl A z tau /\
      make_stack X h t p hints (inj hp) (inj tau) excl = Ok {| k_head := (p ++ q, k); k_end := inj (hp + rsum A + z) |} /\
      rank t q k = Some (length A).
  Proof.
    induction h as [|h IH]; intros lo t l p hints hp tau excl R Hlo Ht Hhp Hm.
    all: pose proof (rep_pos _ _ _ _ _ _ R) as Hpos; pose proof (pos_runs_nonneg _ Hpos) as Hnn.
    all: destruct (stack_pick_ok _ lo t l (hd_error hints) tau excl R Hlo Ht ltac:(lia)) as (r & E & P).
    all: cbn [make_stack]; rewrite E; cbn [bind].
    all: destruct P as [(k & A & s & z & B & -> & K & Hr) | (h' & lft & ch & rgt & l1 & lc & l2 & Eh & -> & Et & H1 & Hc & H2 & El & Hr)].
    1, 3: destruct (keyat_size X MAX inj M L HM _ _ _ _ _ _ _ _ _ K ltac:(lia)) as (E1 & E2 & _);
      pose proof (keyat_list _ _ _ _ _ _ _ _ _ K) as El; pose proof Hpos as Hpos'; rewrite El in Hpos';
      apply pos_runs_app in Hpos'; destruct Hpos' as [HA HB0]; inversion HB0 as [|? ? Hz HB]; subst l; cbn [snd] in Hz;
      pose proof (pos_runs_nonneg _ HA); pose proof (pos_runs_nonneg _ HB); autorewrite with rs in Hm;
      exists A, s, z, B, [], k; rewrite app_nil_r; split; auto; split; auto;
      rewrite E1; cbn [bind]; ix; split; auto; exact (keyat_rank inj M _ _ _ _ _ _ _ _ _ K).
    - discriminate.
    - inversion Eh; subst h'. pose proof (lseg_nonneg _ _ _ _ _ _ H1). pose proof (seg_nonneg _ _ _ _ _ _ H2). pose proof (rep_nonneg _ _ _ _ _ _ Hc).
      assert (Hsum : rsum l = rsum l1 + rsum lc + rsum l2) by (rewrite El; autorewrite with rs; lia).
      rewrite Et, node_child. cbn [bind]. unfold hits in Hr.
      ix. assert (Hx : 0 <= tau - rsum l1) by (destruct excl; lia). destruct excl; ix.
      + destruct (IH M ch lc (p ++ [length lft]) (tl hints) (hp + rsum l1) (tau - rsum l1) true Hc HM) as (A & s & z & B & q & k & Elc & Hh & E1 & Rk); try lia.
        rewrite E1. exists (l1 ++ A), s, z, (B ++ l2), (length lft :: q), k.
        rewrite <- (app_assoc p). cbn [app]. rewrite rsum_app. split; [rewrite El, Elc, <- !app_assoc; reflexivity|].
        split; [unfold hits in *; rewrite rsum_app; lia|]. split; [replace (hp + rsum l1 + rsum A + z) with (hp + (rsum l1 + rsum A) + z) by lia; reflexivity|].
        rewrite rank_down, Rk. cbn [option_map]. rewrite (lseg_count inj _ _ _ _ (childR_count inj M (S h)) H1), app_length. reflexivity.
      + destruct (IH M ch lc (p ++ [length lft]) (tl hints) (hp + rsum l1) (tau - rsum l1) false Hc HM) as (A & s & z & B & q & k & Elc & Hh & E1 & Rk); try lia.
        rewrite E1. exists (l1 ++ A), s, z, (B ++ l2), (length lft :: q), k.
        rewrite <- (app_assoc p). cbn [app]. rewrite rsum_app. split; [rewrite El, Elc, <- !app_assoc; reflexivity|].
        split; [unfold hits in *; rewrite rsum_app; lia|]. split; [replace (hp + rsum l1 + rsum A + z) with (hp + (rsum l1 + rsum A) + z) by lia; reflexivity|].
        rewrite rank_down, Rk. cbn [option_map]. rewrite (lseg_count inj _ _ _ _ (childR_count inj M (S h)) H1), app_length. reflexivity.
  Qed.
End IterP.
