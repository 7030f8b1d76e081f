(** Correctness of insertion into a leaf.  Proof support only. *)
From Coq Require Import List ZArith Bool Arith Lia.
From Verif Require Import Base Spec Index Slice Tree Insert Zip Rep Upd.
Import ListNotations.
Local Open Scope Z_scope.

Section Leaf.
  Context {I V : Type} (X : index_ops I) (MAX : Z) (inj : Z -> I) (M : nat).
  Hypothesis L : index_laws X MAX inj.
  Hypothesis HM : (1 <= M)%nat.
  Notation tree := (tree I V).
  Notation entry := (entry_of I V) (only parsing).
  Notation run := (prod V Z) (only parsing).
  Notation rep := (@rep I V inj M).
  Notation good := (@good I V inj M).

  Ltac ix := repeat (first [ rewrite (il_addr _ _ _ L) by lia
                           | rewrite (il_addl _ _ _ L) by lia
                           | rewrite (il_subl _ _ _ L) by lia
                           | rewrite (il_subr _ _ _ L) by lia ]; cbn [bind]).

  (** The entries of a leaf holding the runs [l] from offset [off]. *)
  Fixpoint lents (off : Z) (l : list run) : list entry :=
    match l with [] => [] | (s, z) :: l' => (inj off, s, Nil) :: lents (off + z) l' end.

  Lemma lents_app : forall a off b, lents off (a ++ b) = lents off a ++ lents (off + rsum a) b.
  Proof.
    induction a as [|[s z] a IH]; intros off b; cbn [app lents rsum].
    - rewrite Z.add_0_r. reflexivity.
    - rewrite IH. do 3 f_equal. lia.
  Qed.

  Lemma lents_length : forall l off, length (lents off l) = length l.
  Proof. induction l as [|[s z] l IH]; intros; cbn [lents length]; auto. Qed.

  Ltac len := rewrite ?app_length, ?lents_length in *; cbn [length] in *; rewrite ?app_length, ?lents_length; cbn [length]; try lia; auto.

  Ltac leq1 :=
    match goal with
    | |- ?a = ?a => reflexivity
    | |- (inj ?a, _, _) = (inj ?b, _, _) => replace a with b by lia; reflexivity
    | |- _ :: _ = _ :: _ => f_equal
    | |- ?a ++ _ = ?a ++ _ => f_equal
    | |- lents ?a ?l = lents ?b ?l => replace a with b by lia; reflexivity
    end.
  Ltac leq := rewrite ?lents_app, <- ?app_assoc; cbn [lents app rsum];
              rewrite ?rsum_app; cbn [rsum]; repeat leq1.

  Lemma lents_seg : forall l off, pos_runs l -> Rep.seg inj leafR off (lents off l) l.
  Proof.
    induction l as [|[s z] l IH]; intros off H; cbn [lents]; [constructor|].
    inversion H; subst. change ((s, z) :: l) with ((s, z) :: [] ++ l).
    constructor; auto.
    - split; reflexivity.
    - cbn [rsum]. rewrite Z.add_0_r. auto.
  Qed.

  Lemma seg_lents : forall es off l, Rep.seg inj leafR off es l -> es = lents off l /\ pos_runs l.
  Proof.
    intros es off l H. induction H as [|off z s ch lc es l Hz [-> ->] H [-> IH]]; [split; [reflexivity|constructor]|].
    cbn [rsum app lents]. rewrite Z.add_0_r. split; auto. constructor; auto.
  Qed.

  Lemma rep_leaf : forall lo t l,
    rep lo 0 t l <-> t = Node (inj (rsum l)) Nil (lents 0 l) /\ (lo <= length l <= 2 * M)%nat /\ pos_runs l.
  Proof.
    intros lo t l. split.
    - intros (c0 & es & lc & l' & -> & Hl & [-> ->] & H & ->). cbn [app rsum] in *.
      apply seg_lents in H. destruct H as [-> H]. rewrite lents_length in Hl. auto.
    - intros (-> & Hl & Hp). exists Nil, (lents 0 l), [], l.
      rewrite lents_length. repeat split; auto; try lia. apply lents_seg; auto.
  Qed.

  (** Node operations on an explicit list of entries. *)
  Lemma nth_mid : forall {A} (a b : list A) x, nth_ub (a ++ x :: b) (length a) = Ok x.
  Proof.
    intros. unfold nth_ub. rewrite <- (Nat.add_0_r (length a)), nth_error_app_len. reflexivity.
  Qed.

  Lemma lf_kpoe : forall kx tot (c0 : tree) ea eb, length ea = kx ->
    key_pos_or_end (Node tot c0 (ea ++ eb)) kx = Ok (next_pos tot eb).
  Proof.
    intros; subst. unfold key_pos_or_end, try_key_pos, keys. rewrite <- (Nat.add_0_r (length ea)), nth_error_app_len.
    destruct eb; reflexivity.
  Qed.

  Lemma lf_insert : forall kx tot (c0 : tree) ea eb s, length ea = kx -> (length ea + length eb < 2 * M)%nat ->
    insert_key M (Node tot c0 (ea ++ eb)) kx s
    = Ok (Node tot c0 (ea ++ (next_pos tot eb, s, Nil) :: eb), next_pos tot eb).
  Proof.
    intros; subst. unfold insert_key, insert_key_and_child. rewrite app_length.
    destruct (Nat.ltb_spec (length ea + length eb) (length ea)); [lia|].
    destruct (Nat.leb_spec (max_len M) (length ea + length eb)); [unfold max_len in *; lia|].
    cbn [orb]. rewrite lf_kpoe by reflexivity. cbn [bind]. rewrite insert_at_app. reflexivity.
  Qed.

  Lemma lf_set_pos : forall kx tot (c0 : tree) ea p s ch eb p', length ea = kx ->
    set_single_key_pos (Node tot c0 (ea ++ (p, s, ch) :: eb)) kx p'
    = Ok (Node tot c0 (ea ++ (p', s, ch) :: eb)).
  Proof. intros; subst. unfold set_single_key_pos. rewrite nth_mid. cbn [bind]. rewrite replace_at_app. reflexivity. Qed.

  Lemma lf_key_pos : forall kx tot (c0 : tree) ea p s ch eb, length ea = kx ->
    key_pos (Node tot c0 (ea ++ (p, s, ch) :: eb)) kx = Ok p.
  Proof. intros; subst. unfold key_pos, keys. rewrite nth_mid. reflexivity. Qed.

  Lemma lf_split : forall kx tot (c0 : tree) ea p s ch eb, length ea = kx ->
    split (Node tot c0 (ea ++ (p, s, ch) :: eb)) kx
    = Ok (Node tot c0 ea, (p, s), Node tot ch eb).
  Proof.
    intros; subst. unfold split. rewrite nth_mid. cbn [bind]. rewrite firstn_app_len.
    replace (length ea + 1)%nat with (length (ea ++ [(p, s, ch)])) by (rewrite app_length; reflexivity).
    change (ea ++ (p, s, ch) :: eb) with (ea ++ [(p, s, ch)] ++ eb).
    rewrite app_assoc, skipn_app_len. reflexivity.
  Qed.

  Lemma lf_push : forall tot (c0 : tree) es s tot', (length es < 2 * M)%nat ->
    push_key M (Node tot c0 es) s tot' = Ok (Node tot' c0 (es ++ [(tot, s, Nil)])).
  Proof.
    intros. unfold push_key, push_key_and_child.
    destruct (Nat.leb_spec (max_len M) (length es)); [unfold max_len in *; lia|]. reflexivity.
  Qed.

  Lemma next_lents : forall tot off l, tot = off + rsum l -> next_pos (inj tot) (lents off l) = inj off.
  Proof.
    intros tot off [|[s z] l] ->; cbn [lents next_pos rsum e_pos fst]; auto. f_equal. lia.
  Qed.

  Lemma lf_slice_size : forall kx tot (c0 : tree) ea off s z l, length ea = kx ->
    tot = off + z + rsum l -> 0 <= off -> 0 <= z -> 0 <= rsum l -> tot <= MAX ->
    slice_size X 0 (Node (inj tot) c0 (ea ++ (inj off, s, Nil) :: lents (off + z) l)) kx
    = Ok (inj z).
  Proof.
    intros kx tot c0 ea off s z l <- -> Ho Hz Hr Hm. unfold slice_size. rewrite lf_key_pos by reflexivity. cbn [bind].
    replace (length ea + 1)%nat with (length (ea ++ [(inj off, s, @Nil I V)])) by (rewrite app_length; reflexivity).
    change (ea ++ (inj off, s, Nil) :: lents (off + z) l)
      with (ea ++ [(inj off, s, Nil)] ++ lents (off + z) l).
    rewrite app_assoc, lf_kpoe, next_lents by (auto; lia). cbn [bind]. ix. do 2 f_equal. lia.
  Qed.

  Lemma lf_map : forall f d l off,
    (forall x, off <= x -> x <= off + rsum l -> f (inj x) = Ok (inj (x + d))) -> pos_runs l ->
    mapM (fun e : entry => let* p := f (e_pos e) in Ok (p, e_slice e, e_child e)) (lents off l)
    = Ok (lents (off + d) l).
  Proof.
    induction l as [|[s z] l IH]; intros off Hf Hp; cbn [lents mapM]; [reflexivity|].
    inversion Hp as [|? ? Hz Hp']; subst. cbn [snd] in Hz. pose proof (pos_runs_nonneg _ Hp').
    cbn [rsum] in Hf. cbn [e_pos e_slice e_child fst snd]. rewrite Hf by lia. cbn [bind].
    rewrite IH; auto; [|intros; apply Hf; lia]. cbn [bind]. do 3 f_equal. lia.
  Qed.

  (** Shift of the tail of a leaf. *)
  Lemma lf_shift : forall kx (inc : bool) pos old new tot (c0 : tree) ea off l, length ea = kx ->
    (if inc then old <= new else new <= old) ->
    0 <= pos -> 0 <= old -> 0 <= new -> pos + old <= MAX -> pos + new <= MAX ->
    pos_runs l -> 0 <= off -> tot = off + rsum l -> tot <= MAX ->
    0 <= off + (new - old) -> tot + (new - old) <= MAX ->
    shift_keys X inc (Node (inj tot) c0 (ea ++ lents off l)) kx (inj pos) (inj old) (inj new)
    = Ok (Node (inj (tot + (new - old))) c0 (ea ++ lents (off + (new - old)) l)).
  Proof.
    intros kx inc pos old new tot c0 ea off l <- Hinc Hp Ho Hn H1 H2 Hr Hoff -> Ht1 Ht2 Ht3.
    pose proof (pos_runs_nonneg _ Hr).
    destruct (shift_fun X MAX inj L inc pos old new (Node (inj (off + rsum l)) c0 (ea ++ lents off l)) (length ea))
      as (f & E & Hf); auto.
    rewrite E. unfold set_key_poss_with. rewrite app_length.
    destruct (Nat.ltb_spec (length ea + length (lents off l)) (length ea)); [lia|].
    rewrite firstn_app_len, skipn_app_len, (lf_map f (new - old)); auto; [|intros; apply Hf; lia].
    cbn [bind]. rewrite Hf by lia. reflexivity.
  Qed.

  Lemma lents_last : forall l off s zo zn, lents off (l ++ [(s, zo)]) = lents off (l ++ [(s, zn)]).
  Proof. intros. rewrite !lents_app. reflexivity. Qed.

  Lemma count_lents : forall l off, ecount (lents off l) = length l.
  Proof. induction l as [|[s z] l IH]; intros; cbn [lents ecount count length]; rewrite ?IH; auto. Qed.

  Lemma leaf_before : forall l off k, (k <= length l)%nat -> before Nil (lents off l) k = k.
  Proof.
    induction l as [|[s z] l IH]; intros off [|k] H; cbn [lents before length count] in *; auto; [lia|].
    rewrite IH by lia. reflexivity.
  Qed.

  Lemma leaf_child : forall l off k, (k <= length l)%nat -> child_of Nil (lents off l) k = Ok Nil.
  Proof.
    intros l off [|k] H; [reflexivity|]. unfold child_of, nth_ub.
    revert off k H. induction l as [|[s z] l IH]; intros off k H; cbn [length] in H; [lia|].
    destruct k; cbn [lents nth_error]; [reflexivity|]. apply IH. lia.
  Qed.

  Lemma leaf_rank : forall tot off l r, (r < length l)%nat -> rank (Node tot Nil (lents off l)) [] r = Some r.
  Proof.
    intros. cbn [rank]. rewrite lents_length.
    destruct (Nat.ltb_spec r (length l)); [|lia].
    rewrite leaf_child, leaf_before by lia. cbn [count]. f_equal. lia.
  Qed.

  Lemma leaf_tracks : forall tot off l r, (r < length l)%nat -> tracks (Node tot Nil (lents off l)) [] r.
  Proof. intros. exists r. apply leaf_rank; auto. Qed.

  Inductive ovok : option I -> list run -> list run -> Prop :=
  | ov_none : forall l1, ovok None l1 l1
  | ov_some : forall l10 s zo zn, 0 < zo -> 0 < zn ->
      ovok (Some (inj zn)) (l10 ++ [(s, zo)]) (l10 ++ [(s, zn)]).

  Lemma ovok_lents : forall ov l1 l1' off, ovok ov l1 l1' -> lents off l1 = lents off l1'.
  Proof. intros ov l1 l1' off H. inversion H; subst; auto. apply lents_last. Qed.

  Lemma ovok_length : forall ov l1 l1', ovok ov l1 l1' -> length l1' = length l1.
  Proof. intros ov l1 l1' H. inversion H; subst; rewrite ?app_length; auto. Qed.

  Lemma ovok_pos : forall ov l1 l1', ovok ov l1 l1' -> pos_runs l1 -> pos_runs l1'.
  Proof.
    intros ov l1 l1' H Hp. inversion H; subst; auto.
    apply pos_runs_app in Hp. apply pos_runs_app. split; [tauto|]. constructor; auto.
  Qed.

  Lemma ovok_split : forall ov A ms mz B1 l1',
    ovok ov (A ++ (ms, mz) :: B1) l1' -> 0 < mz ->
    exists mz' B1', l1' = A ++ (ms, mz') :: B1' /\ 0 < mz' /\
      ((B1 = [] /\ B1' = [] /\ match ov with None => mz' = mz | Some i => i = inj mz' end) \/
       (B1 <> [] /\ mz' = mz /\ ovok ov B1 B1')).
  Proof.
    intros ov A ms mz B1 l1' H Hmz. inversion H as [l1 E1 E2 | l10 s zo zn Hzo Hzn E1 E2 E3]; subst.
    - exists mz, B1. repeat split; auto. destruct B1; [left; auto | right].
      repeat split; [discriminate | constructor].
    - destruct B1 as [|y B1 _] using rev_ind.
      + apply app_inj_tail in E2. destruct E2 as [-> E2]. inversion E2; subst.
        exists zn, []. repeat split; auto.
      + change (A ++ (ms, mz) :: B1 ++ [y]) with (A ++ ((ms, mz) :: B1) ++ [y]) in E2.
        rewrite app_assoc in E2. apply app_inj_tail in E2. destruct E2 as [-> <-].
        exists mz, (B1 ++ [(s, zn)]). rewrite <- app_assoc. repeat split; auto.
        right. repeat split; [destruct B1; discriminate | constructor; auto].
  Qed.

  Lemma leaf_key_step : forall kx tot ea p s off l2 ov pos old new cur, length ea = kx ->
    match ov with Some q => q | None => p end = inj pos ->
    pos_runs l2 -> tot = off + rsum l2 -> 0 <= off -> 0 <= pos ->
    0 <= old -> old < new -> pos + new <= MAX -> tot + (new - old) <= MAX ->
    key_step X (Node (inj tot) Nil (ea ++ (p, s, Nil) :: lents off l2)) kx ov (inj old) (inj new) cur
    = Ok (Done (Node (inj (tot + (new - old))) Nil (ea ++ (p, s, Nil) :: lents (off + (new - old)) l2))
               (inj tot) (inj (tot + (new - old))) cur).
  Proof.
    intros kx tot ea p s off l2 ov pos old new cur <- Hov Hp Ht Hoff Hpos Ho Hn H1 H2.
    pose proof (pos_runs_nonneg _ Hp).
    assert (E : match ov with Some q => Ok q
                | None => key_pos (Node (inj tot) Nil (ea ++ (p, s, Nil) :: lents off l2)) (length ea) end
                = Ok (inj pos)).
    { destruct ov; [congruence|]. rewrite lf_key_pos by reflexivity. congruence. }
    unfold key_step. rewrite E. cbn [bind tsize].
    rewrite (shift_auto_eq X MAX inj L) by lia.
    replace (old <? new) with true by (symmetry; apply Z.ltb_lt; lia).
    replace (length ea + 1)%nat with (length (ea ++ [(p, s, @Nil I V)])) by (rewrite app_length; reflexivity).
    change (ea ++ (p, s, Nil) :: lents off l2) with (ea ++ [(p, s, Nil)] ++ lents off l2).
    rewrite app_assoc, lf_shift by (auto; lia). cbn [bind tsize].
    rewrite <- app_assoc. reflexivity.
  Qed.

  Definition snd_runs (sn : option (V * Z)) : list run :=
    match sn with Some r => [r] | None => [] end.
  Definition snd_arg (sn : option (V * Z)) : option (V * I) :=
    match sn with Some (s, n) => Some (s, inj n) | None => None end.

  (** The leaf has room. *)
  Lemma no_join_room : forall lo remap ov (f : V) n1 (sn : option (V * Z)) l1 l1' l2,
    (lo <= length (l1 ++ l2))%nat -> (length (l1 ++ l2) + length (snd_runs sn) < 2 * M)%nat ->
    pos_runs (l1 ++ l2) -> rsum (l1 ++ l2) <= MAX ->
    ovok ov l1 l1' -> 0 < n1 -> pos_runs (snd_runs sn) ->
    rsum l1 < rsum l1' + n1 + rsum (snd_runs sn) ->
    rsum l1' + n1 + rsum (snd_runs sn) + rsum l2 <= MAX ->
    (remap = true -> ov <> None) ->
    exists st,
      no_join_leaf X M remap (length l1) ov (f, inj n1) (snd_arg sn)
        (Node (inj (rsum (l1 ++ l2))) Nil (lents 0 (l1 ++ l2))) = Ok st /\
      good lo 0 (rsum (l1 ++ l2)) (l1' ++ (f, n1) :: snd_runs sn ++ l2)
        (Some (length l1 - if remap then 1 else 0)%nat) st.
  Proof.
    intros lo remap ov f n1 sn l1 l1' l2 Hlo Hlen Hp Hm Hov Hn1 Hsn Hinc Hmax Hrm.
    pose proof (ovok_length _ _ _ Hov) as HL.
    apply pos_runs_app in Hp. destruct Hp as [Hp1 Hp2].
    pose proof (ovok_pos _ _ _ Hov Hp1) as Hp1'.
    pose proof (pos_runs_nonneg _ Hp1). pose proof (pos_runs_nonneg _ Hp2).
    pose proof (pos_runs_nonneg _ Hp1'). pose proof (pos_runs_nonneg _ Hsn).
    unfold no_join_leaf. unfold tlen, keys. rewrite lents_length.
    rewrite app_length in *.
    destruct (Nat.ltb_spec (length l1 + length l2) (length l1)) as [B|_]; [lia|].
    assert (Fin : forall (d : Z) cur, rsum l1 + d = rsum l1' + n1 + rsum (snd_runs sn) ->
      (cur = []) ->
      good lo 0 (rsum (l1 ++ l2)) (l1' ++ (f, n1) :: snd_runs sn ++ l2)
        (Some (length l1 - if remap then 1 else 0)%nat)
        (Done (Node (inj (rsum (l1 ++ l2) + d)) Nil (lents 0 (l1' ++ (f, n1) :: snd_runs sn ++ l2)))
              (inj (rsum (l1 ++ l2))) (inj (rsum (l1 ++ l2) + d)) cur)).
    { intros d cur Hd ->. 
      assert (rsum (l1 ++ l2) + d = rsum (l1' ++ (f, n1) :: snd_runs sn ++ l2)) as ->
        by (autorewrite with rs; lia).
      constructor; auto.
      - apply rep_leaf. split; [reflexivity|]. split.
        + rewrite app_length. cbn [length]. rewrite app_length. lia.
        + apply pos_runs_app. split; auto. constructor; auto. apply pos_runs_app; auto.
      - intros r Hr. inversion Hr. apply leaf_tracks.
        rewrite app_length. cbn [length]. lia. }
    assert (Hk : (match ov with Some _ => true | None => false end && (length l1 =? 0)%nat) = false).
    { inversion Hov; subst; auto. rewrite app_length. cbn [length].
      destruct (Nat.eqb_spec (length l10 + 1) 0); [lia|reflexivity]. }
    rewrite Hk. cbn [orb].
    assert (Eadd : exists added, (match snd_arg sn with
                    | Some (_, size2) => ix_add_right X (inj n1) size2
                    | None => Ok (inj n1) end) = Ok (inj added) /\ added = n1 + rsum (snd_runs sn)).
    { destruct sn as [[s2 n2]|]; cbn [snd_arg snd_runs rsum] in *; [|exists n1; split; [auto|lia]].
      ix. eexists; split; [reflexivity | lia]. }
    destruct Eadd as (added & Eadd & Hadd). cbn [Datatypes.snd Datatypes.fst]. rewrite Eadd. cbn [bind].
    destruct (Nat.leb_spec (max_len M - match snd_arg sn with Some _ => 1 | None => 0 end) (length l1 + length l2)) as [B|_].
    { unfold max_len in B. destruct sn as [[s2 n2]|]; cbn [snd_arg snd_runs length] in *; lia. }
    rewrite lents_app. autorewrite with rs. rewrite Z.add_0_l.
    assert (EN : next_pos (inj (rsum l1 + rsum l2)) (lents (rsum l1) l2) = inj (rsum l1)) by (apply next_lents; lia).
    inversion Hov as [l1x E1 E2 E3 | l10 s zo zn Hzo Hzn E1 E2 E3]; subst.
    - rewrite lf_insert, EN by len. cbn [bind].
      destruct sn as [[s2 n2]|]; cbn [snd_arg snd_runs rsum app length] in *.
      + change (lents 0 l1' ++ (inj (rsum l1'), f, Nil) :: lents (rsum l1') l2)
          with (lents 0 l1' ++ [(inj (rsum l1'), f, Nil)] ++ lents (rsum l1') l2).
        rewrite app_assoc, lf_insert, EN by len.
        cbn [bind]. ix. rewrite lf_set_pos by len. cbn [bind].
        rewrite (il_zero _ _ _ L).
        rewrite leaf_key_step with (pos := rsum l1') by (auto; len).
        eexists. split; [reflexivity|].
        assert (El : lents 0 (l1' ++ (f, n1) :: (s2, n2) :: l2) =
          ((lents 0 l1' ++ [(inj (rsum l1'), f, Nil)]) ++ (inj (rsum l1' + n1), s2, Nil) ::
             lents (rsum l1' + (n1 + (n2 + 0) - 0)) l2)).
        { leq. }
        rewrite <- El, <- rsum_app. apply Fin; auto. lia.
      + rewrite Nat.add_0_r. rewrite (il_zero _ _ _ L). cbn [bind].
        rewrite leaf_key_step with (pos := rsum l1') by (auto; len).
        eexists. split; [reflexivity|].
        assert (El : lents 0 (l1' ++ (f, n1) :: l2) =
          (lents 0 l1' ++ (inj (rsum l1'), f, Nil) :: lents (rsum l1' + (n1 + 0 - 0)) l2)).
        { leq. }
        rewrite <- El, <- rsum_app. apply Fin; auto. lia.
    - rewrite lents_app. cbn [lents]. autorewrite with rs in *. rewrite !Z.add_0_l in *.
      apply pos_runs_app in Hp1. destruct Hp1 as [Hp10 _]. pose proof (pos_runs_nonneg _ Hp10).
      rewrite app_length in *. cbn [length] in *.
      replace (length l10 + 1 - 1)%nat with (length l10) by lia.
      rewrite <- (app_assoc (lents 0 l10)). cbn [app]. rewrite lf_key_pos by len. cbn [bind].
      replace (rsum l10 + (zo + 0)) with (rsum l10 + zo) in * by lia.
      rewrite lf_slice_size by len. cbn [bind]. ix.
      change (lents 0 l10 ++ (inj (rsum l10), s, Nil) :: lents (rsum l10 + zo) l2)
        with (lents 0 l10 ++ [(inj (rsum l10), s, Nil)] ++ lents (rsum l10 + zo) l2).
      rewrite app_assoc, lf_insert, EN by len. cbn [bind]. rewrite lf_set_pos by len. cbn [bind].
      destruct sn as [[s2 n2]|]; cbn [snd_arg snd_runs rsum app length] in *.
      + match goal with |- context [Node _ Nil (?a ++ ?b :: ?c)] => change (a ++ b :: c) with (a ++ [b] ++ c) end.
        rewrite app_assoc, lf_insert, EN by len. cbn [bind]. ix. rewrite lf_set_pos by len. cbn [bind].
        rewrite leaf_key_step with (pos := rsum l10) by (auto; len).
        eexists. split; [reflexivity|].
        match goal with |- good _ _ _ ?l _ (Done (Node _ _ ?e) _ _ _) => assert (El : lents 0 l = e) end.
        { leq. }
        rewrite <- El.
        apply Fin; auto. lia.
      + rewrite Nat.add_0_r. cbn [bind]. ix.
        rewrite leaf_key_step with (pos := rsum l10) by (auto; len).
        eexists. split; [reflexivity|].
        match goal with |- good _ _ _ ?l _ (Done (Node _ _ ?e) _ _ _) => assert (El : lents 0 l = e) end.
        { leq. }
        rewrite <- El.
        apply Fin; auto. lia.
  Qed.

  (** Insertion into one half of a split leaf. *)
  Lemma leaf_half : forall (T : Type) (K : tree -> res T) ov (f : V) n1 (sn : option (V * Z)) l1 l1' l2 kx,
    kx = length l1 ->
    (length (l1 ++ l2) + length (snd_runs sn) < 2 * M)%nat ->
    pos_runs (l1 ++ l2) -> rsum (l1 ++ l2) <= MAX ->
    ovok ov l1 l1' -> 0 < n1 -> pos_runs (snd_runs sn) ->
    rsum l1 < rsum l1' + n1 + rsum (snd_runs sn) ->
    rsum l1' + n1 + rsum (snd_runs sn) + rsum l2 <= MAX ->
    (let* (pos, old_size, new_size0) :=
          match ov with
          | None => let* p := key_pos_or_end (Node (inj (rsum (l1 ++ l2))) Nil (lents 0 (l1 ++ l2))) kx in
                    Ok (p, inj 0, inj 0)
          | Some s =>
            if (kx =? 0)%nat then UB else
            let* p := key_pos (Node (inj (rsum (l1 ++ l2))) Nil (lents 0 (l1 ++ l2))) (kx - 1) in
            let* sz := slice_size X 0 (Node (inj (rsum (l1 ++ l2))) Nil (lents 0 (l1 ++ l2))) (kx - 1) in
            Ok (p, sz, s)
          end in
        let* (i1, _) := insert_key M (Node (inj (rsum (l1 ++ l2))) Nil (lents 0 (l1 ++ l2))) kx f in
        let* fst_pos := ix_add_right X pos new_size0 in
        let* i2 := set_single_key_pos i1 kx fst_pos in
        let* new_size1 := ix_add_right X new_size0 (inj n1) in
        let* (i3, new_size2, from) :=
          match snd_arg sn with
          | None => Ok (i2, new_size1, (kx + 1)%nat)
          | Some (s2, size2) =>
            let* (j1, _) := insert_key M i2 (kx + 1) s2 in
            let* ns := ix_add_right X new_size1 size2 in
            let* snd_pos := ix_add_right X fst_pos (inj n1) in
            let* j2 := set_single_key_pos j1 (kx + 1) snd_pos in
            Ok (j2, ns, (kx + 2)%nat)
          end in
        let* i4 := shift_keys X true i3 from pos old_size new_size2 in K i4)
    = K (Node (inj (rsum (l1' ++ (f, n1) :: snd_runs sn ++ l2))) Nil (lents 0 (l1' ++ (f, n1) :: snd_runs sn ++ l2))).
  Proof.
    intros T K ov f n1 sn l1 l1' l2 kx -> Hlen Hp Hm Hov Hn1 Hsn Hinc Hmax.
    pose proof (ovok_length _ _ _ Hov) as HL.
    apply pos_runs_app in Hp. destruct Hp as [Hp1 Hp2].
    pose proof (ovok_pos _ _ _ Hov Hp1) as Hp1'.
    pose proof (pos_runs_nonneg _ Hp1). pose proof (pos_runs_nonneg _ Hp2).
    pose proof (pos_runs_nonneg _ Hp1'). pose proof (pos_runs_nonneg _ Hsn).
    assert (EN : next_pos (inj (rsum (l1 ++ l2))) (lents (rsum l1) l2) = inj (rsum l1)) by (apply next_lents; autorewrite with rs; lia).
    rewrite app_length in *.
    assert (Pre : exists q o n0 , 0 <= q /\ 0 <= o /\ 0 <= n0 /\ q + o = rsum l1 /\ q + n0 = rsum l1' /\
      match ov with
          | None => let* p := key_pos_or_end (Node (inj (rsum (l1 ++ l2))) Nil (lents 0 (l1 ++ l2))) (length l1) in
                    Ok (p, inj 0, inj 0)
          | Some s =>
            if (length l1 =? 0)%nat then UB else
            let* p := key_pos (Node (inj (rsum (l1 ++ l2))) Nil (lents 0 (l1 ++ l2))) (length l1 - 1) in
            let* sz := slice_size X 0 (Node (inj (rsum (l1 ++ l2))) Nil (lents 0 (l1 ++ l2))) (length l1 - 1) in
            Ok (p, sz, s)
          end = Ok (inj q, inj o, inj n0)).
    { destruct Hov as [l1 | l10 s zo zn Hzo Hzn].
      - exists (rsum l1), 0, 0. repeat split; try lia.
        rewrite lents_app, lf_kpoe by len. rewrite Z.add_0_l, EN. reflexivity.
      - autorewrite with rs in *.
        apply pos_runs_app in Hp1. destruct Hp1 as [Hp10 _]. pose proof (pos_runs_nonneg _ Hp10).
        exists (rsum l10), zo, zn. repeat split; try lia.
        rewrite app_length. cbn [length].
        destruct (Nat.eqb_spec (length l10 + 1) 0); [lia|].
        replace (length l10 + 1 - 1)%nat with (length l10) by lia.
        rewrite !lents_app, <- !app_assoc. cbn [lents app]. autorewrite with rs.
        rewrite lf_key_pos by len. cbn [bind].
        replace (0 + (rsum l10 + (zo + 0))) with (0 + rsum l10 + zo) by lia.
        rewrite lf_slice_size by (auto; len). cbn [bind]. rewrite Z.add_0_l. reflexivity. }
    destruct Pre as (q & o & n0 & Hq & Ho & Hn0 & Hqo & Hqn & ->). cbn [bind].
    rewrite lents_app. rewrite !Z.add_0_l. rewrite lf_insert, EN by len. cbn [bind].
    autorewrite with rs in Hm.
    rewrite (ovok_lents _ _ _ 0 Hov) in *.
    ix. rewrite lf_set_pos by len. cbn [bind]. ix.
    destruct sn as [[s2 n2]|]; cbn [snd_arg snd_runs rsum app length] in *.
    - match goal with |- context [Node _ Nil (?a ++ ?b :: ?c)] => change (a ++ b :: c) with (a ++ [b] ++ c) end.
      rewrite app_assoc, lf_insert, EN by len. cbn [bind]. ix. rewrite lf_set_pos by len. cbn [bind].
      match goal with |- context [Node _ Nil (?a ++ ?b :: ?c)] => change (a ++ b :: c) with (a ++ [b] ++ c) end.
      rewrite app_assoc. rewrite rsum_app.
      rewrite lf_shift by (auto; len). cbn [bind]. f_equal. f_equal; [f_equal; autorewrite with rs; lia|].
      leq.
    - match goal with |- context [Node _ Nil (?a ++ ?b :: ?c)] => change (a ++ b :: c) with (a ++ [b] ++ c) end.
      cbn [bind]. rewrite app_assoc. rewrite rsum_app.
      rewrite lf_shift by (auto; len). cbn [bind]. f_equal. f_equal; [f_equal; autorewrite with rs; lia|].
      leq.
  Qed.

  Definition leaf_of (l : list run) : tree := Node (inj (rsum l)) Nil (lents 0 l).

  Lemma leaf_of_rep : forall lo l, (lo <= length l <= 2 * M)%nat -> pos_runs l -> rep lo 0 (leaf_of l) l.
  Proof. intros. apply rep_leaf. auto. Qed.

  (** The first half of the split: both halves, the midpoint and its size. *)
  Lemma leaf_split_parts : forall l A ms mz B m, l = A ++ (ms, mz) :: B -> length A = m -> pos_runs l -> rsum l <= MAX ->
    split (leaf_of l) m = Ok (Node (inj (rsum l)) Nil (lents 0 A), (inj (rsum A), ms), Node (inj (rsum l)) Nil (lents (rsum A + mz) B)) /\
    match try_key_pos (Node (inj (rsum l)) Nil (lents (rsum A + mz) B)) 0 with Some p => p | None => inj (rsum l) end = inj (rsum A + mz) /\
    ix_sub_left X (inj (rsum A + mz)) (inj (rsum A)) = Ok (inj mz) /\
    shift_keys X false (Node (inj (rsum l)) Nil (lents (rsum A + mz) B)) 0 (inj 0) (inj (rsum A + mz)) (inj 0) = Ok (leaf_of B).
  Proof.
    intros l A ms mz B m -> HA Hp Hm. apply pos_runs_app in Hp. destruct Hp as [HpA HpB'].
    inversion HpB' as [|? ? Hmz HpB]; subst. cbn [snd] in Hmz.
    pose proof (pos_runs_nonneg _ HpA). pose proof (pos_runs_nonneg _ HpB).
    unfold leaf_of. autorewrite with rs in *. repeat split.
    - rewrite lents_app. cbn [lents]. rewrite lf_split by len. rewrite Z.add_0_l. reflexivity.
    - destruct B as [|[s z] B]; cbn [lents]; unfold try_key_pos; cbn [keys nth_error option_map e_pos fst rsum];
        f_equal; lia.
    - ix. do 2 f_equal. lia.
    - change (lents (rsum A + mz) B) with (@nil entry ++ lents (rsum A + mz) B).
      rewrite lf_shift by (auto; len). cbn [app]. do 2 f_equal; [f_equal; lia|].
      f_equal. lia.
  Qed.

  Lemma list_cut : forall {A} (l : list A) n, (n < length l)%nat ->
    exists a x b, l = a ++ x :: b /\ length a = n.
  Proof.
    intros A l n H. destruct (split_list_at n l) as (a & b & -> & Ha); [lia|].
    rewrite app_length in H. destruct b as [|x b]; [cbn [length] in H; lia|]. eauto.
  Qed.

  Lemma app_inv_length : forall {A} (a b c d : list A), a ++ b = c ++ d -> length a = length c -> a = c /\ b = d.
  Proof.
    induction a as [|x a IH]; intros b [|y c] d E H; try discriminate; auto.
    inversion E; subst. inversion H. destruct (IH _ _ _ H2 H1). subst. auto.
  Qed.

  Definition side_ok (sd : option side) (loc : option (side * nat)) (nl k : nat) : Prop :=
    match sd with
    | Some SLeft => (k < nl)%nat /\ loc = Some (SLeft, k)
    | Some SRight => (nl < k)%nat /\ loc = Some (SRight, k - (nl + 1))%nat
    | None => k = nl /\ loc = None
    end.

  Lemma split_leaf_ok : forall ov (f : V) n1 (sn : option (V * Z)) l1 l1' l2,
    (length (l1 ++ l2) <= 2 * M)%nat -> (2 * M <= length (l1 ++ l2) + length (snd_runs sn))%nat ->
    pos_runs (l1 ++ l2) -> rsum (l1 ++ l2) <= MAX ->
    ovok ov l1 l1' -> 0 < n1 -> pos_runs (snd_runs sn) ->
    rsum l1 < rsum l1' + n1 + rsum (snd_runs sn) ->
    rsum l1' + n1 + rsum (snd_runs sn) + rsum l2 <= MAX ->
    exists ll kk zz lr sd loc,
      split_leaf X M (leaf_of (l1 ++ l2)) (length l1) ov (f, inj n1) (snd_arg sn)
      = Ok ({| b_lhs := leaf_of ll; b_key := kk; b_key_size := inj zz; b_rhs := leaf_of lr;
               b_old := inj (rsum (l1 ++ l2)); b_side := sd; b_cur := [] |}, loc) /\
      ll ++ (kk, zz) :: lr = l1' ++ (f, n1) :: snd_runs sn ++ l2 /\
      (M <= length ll <= 2 * M)%nat /\ (M <= length lr <= 2 * M)%nat /\
      side_ok sd loc (length ll) (length l1).
  Proof.
    intros ov f n1 sn l1 l1' l2 Hlen1 Hlen2 Hp Hm Hov Hn1 Hsn Hinc Hmax.
    pose proof (ovok_length _ _ _ Hov) as HL.
    pose proof Hp as Hp0.
    apply pos_runs_app in Hp. destruct Hp as [Hp1 Hp2].
    pose proof (ovok_pos _ _ _ Hov Hp1) as Hp1'.
    pose proof (pos_runs_nonneg _ Hp1). pose proof (pos_runs_nonneg _ Hp2).
    pose proof (pos_runs_nonneg _ Hp1'). pose proof (pos_runs_nonneg _ Hsn).
    unfold split_leaf. 
    assert (Etl : tlen (leaf_of (l1 ++ l2)) = length (l1 ++ l2)) by (unfold tlen, leaf_of, keys; apply lents_length).
    rewrite Etl.
    assert (Hsl : (length (snd_runs sn) <= 1)%nat) by (destruct sn; cbn; lia).
    destruct ((M =? 1)%nat && (length (l1 ++ l2) =? 1)%nat) eqn:Esm.
    - (* M = 1 and one key *)
      apply andb_prop in Esm. destruct Esm as [EM E2]. apply Nat.eqb_eq in E2.
      assert (E1 : (M <= 1)%nat) by (apply Nat.eqb_eq in EM; lia).
      destruct sn as [[s2 n2]|]; cbn [snd_runs snd_arg length rsum] in *; [|lia].
      inversion Hsn as [|? ? Hn2 _]; subst. cbn [snd] in Hn2.
      unfold split_leaf_small_m. rewrite Etl, E2.
      rewrite EM.
      assert (Hk0 : (match ov with Some _ => true | None => false end && (length l1 =? 0)%nat) = false).
      { inversion Hov; subst; auto. rewrite app_length. cbn [length].
        destruct (Nat.eqb_spec (length l10 + 1) 0); [lia|reflexivity]. }
      rewrite Hk0. cbn [negb orb Nat.eqb].
      rewrite app_length in E2. destruct (Nat.ltb_spec 1 (length l1)); [lia|].
      unfold leaf_of at 1 2. cbn [tsize bind].
      destruct l1 as [|[s0 z0] l1].
      + destruct l2 as [|[sx zx] [|]]; cbn [length] in E2; try lia.
        inversion Hov; [|destruct l10; discriminate]. subst. cbn [app rsum length] in *.
        inversion Hp2 as [|? ? Hzx _]. cbn [snd] in Hzx. subst.
        change (lents 0 [(sx, zx)]) with ([] ++ [(inj 0, sx, @Nil I V)]).
        rewrite lf_split by reflexivity. cbn [bind set_subtree_size Nat.eqb fst snd].
        rewrite !(il_zero _ _ _ L), !lf_push by len. cbn [bind app].
        exists [(f, n1)], s2, n2, [(sx, zx)], (Some SLeft), (Some (SLeft, 0%nat)).
        unfold leaf_of, side_ok. cbn [rsum lents length app]. rewrite !Z.add_0_r. repeat split; lia.
      + destruct l1; cbn [length] in E2; [|lia]. destruct l2; cbn [length] in E2; [|lia].
        inversion Hp1 as [|? ? Hz0 _]. cbn [snd] in Hz0. subst. cbn [app rsum length] in *.
        assert (Ez : exists z0', match ov with Some s => s | None => inj (z0 + 0) end = inj z0' /\ l1' = [(s0, z0')] /\ 0 < z0').
        { inversion Hov as [|l10 s zo zn Hzo Hzn E3 E4]; subst.
          - exists z0. rewrite Z.add_0_r. auto.
          - destruct l10 as [|? [|]]; inversion E4; subst. exists zn. auto. }
        destruct Ez as (z0' & -> & -> & Hz0').
        change (lents 0 [(s0, z0)]) with ([] ++ [(inj 0, s0, @Nil I V)]).
        rewrite lf_split by reflexivity. cbn [bind set_subtree_size Nat.eqb fst snd].
        rewrite !(il_zero _ _ _ L), !lf_push by len. cbn [bind app].
        exists [(s0, z0')], f, n1, [(s2, n2)], None, None.
        unfold leaf_of, side_ok. cbn [rsum lents length app]. rewrite !Z.add_0_r. repeat split; lia.
    - assert (HM2 : ~ (M = 1 /\ length (l1 ++ l2) = 1)%nat).
      { intros [Q1 Q2]. rewrite Q2 in Esm. rewrite Q1 in Esm. discriminate. }
      clear Esm.
      assert (Esn : (match snd_arg sn with Some _ => true | None => false end) = (length (snd_runs sn) =? 1)%nat).
      { destruct sn as [[]|]; reflexivity. }
      rewrite Esn. cbn [fst snd].
      set (kk := length l1) in *.
      (* the midpoint *)
      destruct (choose_split M kk (length (l1 ++ l2)) (length (snd_runs sn) =? 1)%nat) as [m ia] eqn:Ech.
      assert (Hch : match ia with
        | inl SLeft => (kk <= m)%nat /\ (M <= m + 1 + length (snd_runs sn) <= 2 * M)%nat /\ (M + m + 1 <= length (l1 ++ l2) <= 2 * M + m + 1)%nat
        | inl SRight => (m < kk)%nat /\ (m = M)%nat
        | inr SLeft => (kk = m + 1)%nat /\ length (snd_runs sn) = 1%nat /\ (M <= m + 2 <= 2 * M)%nat /\ (M + m + 1 <= length (l1 ++ l2))%nat
        | inr SRight => (kk = m + 1)%nat /\ (m + 1 = M)%nat end /\ (m < length (l1 ++ l2))%nat).
      { unfold choose_split, max_len in Ech. rewrite app_length in *. unfold kk in *.
        destruct (Nat.compare_spec (length l1) M) as [Hc|Hc|Hc].
        - destruct (Nat.eqb_spec (length (snd_runs sn)) 1); cbn [andb] in Ech.
          + destruct (Nat.eqb_spec (length l1 + length l2) (2 * M)); inversion Ech; subst; repeat split; lia.
          + inversion Ech; subst; repeat split; lia.
        - destruct (Nat.eqb_spec (length (snd_runs sn)) 1); cbn [andb] in Ech.
          + destruct (Nat.ltb_spec (length l1 + length l2) (2 * M)).
            * destruct (Nat.ltb_spec (length l1) (M - 1)); inversion Ech; subst; repeat split; lia.
            * inversion Ech; subst; repeat split; lia.
          + inversion Ech; subst; repeat split; lia.
        - inversion Ech; subst; repeat split; lia. }
      destruct Hch as [Hch Hml]. clear Ech Esn.
      destruct (list_cut (l1 ++ l2) m Hml) as (A & [ms mz] & B & El & HA).
      destruct (leaf_split_parts _ _ _ _ _ _ El HA Hp0 Hm) as (E1 & E2 & E3 & E4).
      rewrite E1. cbn [bind tsize]. rewrite E2. cbn [set_subtree_size bind].
      rewrite !(il_zero _ _ _ L). rewrite E4. rewrite E3. cbn [bind].
      assert (Hmz : 0 < mz).
      { rewrite El in Hp0. apply pos_runs_app in Hp0. destruct Hp0 as [_ Hp0]. inversion Hp0; auto. }
      assert (HpA : pos_runs A) by (rewrite El in Hp0; apply pos_runs_app in Hp0; tauto).
      assert (HpB : pos_runs B) by (rewrite El in Hp0; apply pos_runs_app in Hp0; destruct Hp0 as [_ Hp0]; inversion Hp0; auto).
      pose proof (pos_runs_nonneg _ HpA). pose proof (pos_runs_nonneg _ HpB).
      pose proof (f_equal (@rsum V) El) as Erl. autorewrite with rs in Erl, Hm.
      pose proof (f_equal (@length _) El) as Ell. rewrite !app_length in Ell. cbn [length] in Ell.
      rewrite app_length in Hlen1, Hlen2, Hml.
      destruct ia as [[]|[]].
      + (* insertion into the left half *)
        destruct Hch as (Hkm & Hm1 & Hm2).
        assert (exists A2, A = l1 ++ A2 /\ l2 = A2 ++ (ms, mz) :: B) as (A2 & -> & ->).
        { destruct (split_list_at kk A) as (A1 & A2 & -> & HA1); [lia|].
          rewrite <- app_assoc in El. apply app_eq_app in El.
          destruct El as (w & [[Ea Eb] | [Ea Eb]]);
            assert (w = []) by (apply (f_equal (@length _)) in Ea; rewrite app_length in Ea; destruct w; [auto|]; cbn [length] in Ea; unfold kk in *; lia);
            subst w; rewrite app_nil_r in Ea; cbn [app] in Eb; subst; exists A2; auto. }
        assert (Eov : match ov with Some _ | _ => Ok (inj mz, ov) end = Ok (inj mz, ov)) by (destruct ov; auto).
        rewrite Eov. cbn [bind]. cbn [andb].
        apply pos_runs_app in HpA. destruct HpA as [_ HpA2].
        pose proof (pos_runs_nonneg _ HpA2).
        autorewrite with rs in Hinc, Hmax, Erl, Hm, H4.
        exists (l1' ++ (f, n1) :: snd_runs sn ++ A2), ms, mz, B, (Some SLeft), (Some (SLeft, kk)).
        split; [|split; [|split; [|split]]].
        * etransitivity; [apply leaf_half with (l1' := l1'); auto;
            first [solve [len] | solve [apply pos_runs_app; auto] | autorewrite with rs; lia] | reflexivity].
        * rewrite <- !app_assoc. cbn [app]. rewrite <- !app_assoc. reflexivity.
        * len.
        * len.
        * unfold side_ok. split; [len | reflexivity].
      + (* insertion into the right half *)
        destruct Hch as (Hkm & Hm1).
        assert (exists B1, l1 = A ++ (ms, mz) :: B1 /\ B = B1 ++ l2) as (B1 & El1 & ->).
        { destruct (list_cut l1 m) as (A1 & x & B1 & El1 & HA1); [unfold kk in *; lia|].
          rewrite El1, <- app_assoc in El.
          assert (A1 = A /\ (x :: B1) ++ l2 = (ms, mz) :: B) as [-> E5].
          { apply app_inv_length; [exact El | lia]. }
          inversion E5; subst. exists B1. auto. }
        subst l1. destruct (ovok_split _ _ _ _ _ _ Hov Hmz) as (mz' & B1' & -> & Hmz' & Hcase).
        apply pos_runs_app in HpB. destruct HpB as [HpB1 _]. pose proof (pos_runs_nonneg _ HpB1).
        autorewrite with rs in Hinc, Hmax, Erl, Hm, H4.
        unfold kk in *. clear kk. rewrite ?app_length in *. cbn [length] in *.
        assert (Eov : exists ov', match ov with
              | Some s => if (length A + S (length B1) =? m + 1)%nat then Ok (s, None) else Ok (inj mz, ov)
              | None => Ok (inj mz, ov) end = Ok (inj mz', ov') /\ ovok ov' B1 B1').
        { destruct Hcase as [(-> & -> & E)|(Hne & -> & Hov')].
          - exists None. split; [|constructor]. cbn [length]. destruct ov as [i|]; [|congruence].
            destruct (Nat.eqb_spec (length A + 1) (m + 1)); [congruence|lia].
          - exists ov. split; auto. destruct ov; auto. destruct B1; [congruence|]. cbn [length].
            destruct (Nat.eqb_spec (length A + S (S (length B1))) (m + 1)); [lia|auto]. }
        destruct Eov as (ov' & -> & Hov'). cbn [bind].
        assert (Hinc' : rsum B1 < rsum B1' + n1 + rsum (snd_runs sn)).
        { destruct Hcase as [(-> & -> & _)|(_ & -> & _)]; cbn [rsum]; lia. }
        assert (Hmax' : rsum B1' + n1 + rsum (snd_runs sn) + rsum l2 <= MAX) by lia.
        exists A, ms, mz', (B1' ++ (f, n1) :: snd_runs sn ++ l2), (Some SRight), (Some (SRight, length B1)).
        split; [|split; [|split; [|split]]].
        * etransitivity; [apply leaf_half with (l1' := B1'); auto;
            try solve [len]; try solve [apply pos_runs_app; auto]; try solve [autorewrite with rs; lia] |].
          do 3 f_equal. f_equal. lia.
        * rewrite <- !app_assoc. reflexivity.
        * len.
        * len.
        * unfold side_ok. split; [len | f_equal; f_equal; lia].
      + (* second inserted becomes the separator *)
        destruct Hch as (Hkm & Hs1 & Hm1 & Hm2).
        destruct sn as [[s2 n2]|]; [|discriminate]. cbn [snd_runs snd_arg length rsum app] in *.
        assert (l1 = A ++ [(ms, mz)] /\ l2 = B) as [El1 ->].
        { change (A ++ (ms, mz) :: B) with (A ++ [(ms, mz)] ++ B) in El. rewrite app_assoc in El.
          apply app_inv_length; [exact El | rewrite app_length; cbn [length]; unfold kk in *; lia]. }
        subst l1. destruct (ovok_split _ _ _ _ _ _ Hov Hmz) as (mz' & B1' & -> & Hmz' & Hcase).
        destruct Hcase as [(_ & -> & E)|(Hne & _)]; [|congruence].
        autorewrite with rs in Hinc, Hmax, Erl, Hm, H4.
        assert (Eov : exists ov', match ov with Some s => Ok (s, None) | None => Ok (inj mz, ov) end = Ok (inj mz', ov')).
        { destruct ov; subst; eexists; reflexivity. }
        destruct Eov as (ov' & ->). cbn [bind tsize].
        unfold kk in *. clear kk. rewrite ?app_length in *. cbn [length] in *.
        unfold tlen. cbn [keys]. rewrite lents_length.
        ix. rewrite lf_push by len. cbn [bind]. rewrite lf_push by len. cbn [bind].
        exists (A ++ [(ms, mz'); (f, n1)]), s2, n2, B, (Some SLeft), (Some (SLeft, length A + 1)%nat).
        split; [|split; [|split; [|split]]].
        * do 3 f_equal. unfold leaf_of. f_equal; [f_equal; autorewrite with rs; lia|]. rewrite <- app_assoc. leq.
        * rewrite <- !app_assoc. reflexivity.
        * len.
        * len.
        * unfold side_ok. split; [len | f_equal; f_equal; len].
      + (* first inserted becomes the separator *)
        destruct Hch as (Hkm & Hm1).
        assert (l1 = A ++ [(ms, mz)] /\ l2 = B) as [El1 ->].
        { change (A ++ (ms, mz) :: B) with (A ++ [(ms, mz)] ++ B) in El. rewrite app_assoc in El.
          apply app_inv_length; [exact El | rewrite app_length; cbn [length]; unfold kk in *; lia]. }
        subst l1. destruct (ovok_split _ _ _ _ _ _ Hov Hmz) as (mz' & B1' & -> & Hmz' & Hcase).
        destruct Hcase as [(_ & -> & E)|(Hne & _)]; [|congruence].
        autorewrite with rs in Hinc, Hmax, Erl, Hm, H4.
        assert (Eov : exists ov', match ov with Some s => Ok (s, None) | None => Ok (inj mz, ov) end = Ok (inj mz', ov')).
        { destruct ov; subst; eexists; reflexivity. }
        destruct Eov as (ov' & ->). cbn [bind tsize].
        unfold kk in *. clear kk. rewrite ?app_length in *. cbn [length] in *.
        ix. rewrite lf_push by len. cbn [bind].
        exists (A ++ [(ms, mz')]), f, n1, (snd_runs sn ++ B), None, None.
        assert (Er2 : match snd_arg sn with
          | Some (s2, size2) => let* (r', pos) := insert_key M (leaf_of B) 0 s2 in shift_keys X true r' 1 pos (inj 0) size2
          | None => Ok (leaf_of B) end = Ok (leaf_of (snd_runs sn ++ B))).
        { destruct sn as [[s2 n2]|]; cbn [snd_runs snd_arg length rsum app] in *; [|reflexivity].
          inversion Hsn as [|? ? Hn2 _]. cbn [snd] in Hn2.
          unfold leaf_of. change (lents 0 B) with ([] ++ lents 0 B).
          rewrite lf_insert by len. cbn [bind app]. 
          rewrite next_lents by (autorewrite with rs; lia).
          change ((inj 0, s2, Nil) :: lents 0 B) with ([(inj 0, s2, @Nil I V)] ++ lents 0 B).
          rewrite lf_shift by (auto; len). cbn [app lents rsum]. do 2 f_equal; [f_equal; lia|]. leq. }
        rewrite Er2. cbn [bind].
        split; [|split; [|split; [|split]]].
        * do 3 f_equal. unfold leaf_of. f_equal; [f_equal; autorewrite with rs; lia|]. leq.
        * rewrite <- !app_assoc. reflexivity.
        * len.
        * len.
        * unfold side_ok. split; [len | reflexivity].
  Qed.

  (** `do_insert_full_edge_no_join` at a leaf: the run [f] of size [n1] (and perhaps a second one)
      goes in after the first [length l1] runs, the run before it getting a new size if [ov]. *)
  Lemma no_join_leaf_ok : forall lo remap ov (f : V) n1 (sn : option (V * Z)) l1 l1' l2 t,
    rep lo 0 t (l1 ++ l2) -> rsum (l1 ++ l2) <= MAX ->
    ovok ov l1 l1' -> 0 < n1 -> pos_runs (snd_runs sn) ->
    rsum l1 < rsum l1' + n1 + rsum (snd_runs sn) ->
    rsum l1' + n1 + rsum (snd_runs sn) + rsum l2 <= MAX ->
    (remap = true -> ov <> None) ->
    exists st,
      no_join_leaf X M remap (length l1) ov (f, inj n1) (snd_arg sn) t = Ok st /\
      good lo 0 (rsum (l1 ++ l2)) (l1' ++ (f, n1) :: snd_runs sn ++ l2)
        (Some (length l1 - if remap then 1 else 0)%nat) st.
  Proof.
    intros lo remap ov f n1 sn l1 l1' l2 t R Hm Hov Hn1 Hsn Hinc Hmax Hrm.
    apply rep_leaf in R. destruct R as (-> & Hl & Hp).
    destruct (Nat.lt_ge_cases (length (l1 ++ l2) + length (snd_runs sn)) (2 * M)) as [Hc|Hc].
    { apply no_join_room; auto; lia. }
    destruct (split_leaf_ok ov f n1 sn l1 l1' l2) as (ll & kk & zz & lr & sd & loc & E & El & Hll & Hlr & Hsd); auto; try lia.
    fold (leaf_of (l1 ++ l2)). unfold no_join_leaf. rewrite E.
    assert (Etl : tlen (leaf_of (l1 ++ l2)) = length (l1 ++ l2)) by (unfold tlen, leaf_of, keys; apply lents_length).
    rewrite Etl. 
    pose proof (ovok_length _ _ _ Hov) as HL.
    pose proof Hp as Hp0. apply pos_runs_app in Hp0. destruct Hp0 as [Hp1 Hp2].
    pose proof (ovok_pos _ _ _ Hov Hp1) as Hp1'.
    pose proof (pos_runs_nonneg _ Hp1). pose proof (pos_runs_nonneg _ Hp2).
    pose proof (pos_runs_nonneg _ Hp1'). pose proof (pos_runs_nonneg _ Hsn).
    assert (Hk : (match ov with Some _ => true | None => false end && (length l1 =? 0)%nat) = false).
    { inversion Hov; subst; auto. rewrite app_length. cbn [length].
      destruct (Nat.eqb_spec (length l10 + 1) 0); [lia|reflexivity]. }
    rewrite Hk.
    destruct (Nat.ltb_spec (length (l1 ++ l2)) (length l1)) as [B|_]; [rewrite app_length in B; lia|]. cbn [orb].
    assert (Eadd : exists a, (match snd_arg sn with
       | Some (_, size2) => ix_add_right X (snd (f, inj n1)) size2
       | None => Ok (snd (f, inj n1)) end) = Ok a).
    { destruct sn as [[s2 n2]|]; cbn [snd_arg snd snd_runs rsum] in *; [|eauto].
      inversion Hsn; cbn [snd] in *. rewrite (il_addr _ _ _ L) by lia. eauto. }
    destruct Eadd as (a & ->). cbn [bind].
    assert (Eroom : (max_len M - match snd_arg sn with Some _ => 1 | None => 0 end <=? length (l1 ++ l2))%nat = true).
    { apply Nat.leb_le. unfold max_len. destruct sn as [[]|]; cbn [snd_arg snd_runs length] in *; lia. }
    rewrite Eroom. eexists. split; [reflexivity|].
    assert (Hpos : pos_runs (ll ++ (kk, zz) :: lr)).
    { rewrite El. apply pos_runs_app. split; auto. constructor; auto. apply pos_runs_app; auto. }
    apply pos_runs_app in Hpos. destruct Hpos as [HpL HpR]. inversion HpR as [|? ? Hzz HpR']; subst. cbn [snd] in Hzz.
    rewrite <- El.
    assert (Hlen : (length ll + S (length lr) = length l1 + S (length (snd_runs sn ++ l2)))%nat).
    { apply (f_equal (@length _)) in El. rewrite !app_length in El. cbn [length] in El. rewrite app_length. rewrite app_length in El. lia. }
    rewrite app_length in Hlen.
    unfold remap_leaf. destruct remap; cbn [b_lhs b_rhs b_key b_key_size b_old b_side].
    - assert (Hk1 : (1 <= length l1)%nat).
      { destruct Hov; [exfalso; apply Hrm; auto|]. rewrite app_length. cbn [length]. lia. }
      apply good_bubble; try apply leaf_of_rep; auto.
      intros r Hr. inversion Hr; subst r. clear Hr.
      destruct sd as [[]|]; unfold side_ok in Hsd; destruct Hsd as [Hk' ->].
      + apply leaf_tracks. lia.
      + destruct (length l1 - (length ll + 1))%nat as [|q] eqn:Eq.
        * split; auto. lia.
        * exists q. split; [lia|]. apply leaf_tracks. lia.
      + apply leaf_tracks. lia.
    - apply good_bubble; try apply leaf_of_rep; auto.
      intros r Hr. inversion Hr; subst r. clear Hr. rewrite Nat.sub_0_r.
      destruct sd as [[]|]; unfold side_ok in Hsd; destruct Hsd as [Hk' ->].
      + apply leaf_tracks. lia.
      + exists (length l1 - (length ll + 1))%nat. split; [lia|]. apply leaf_tracks. lia.
      + auto.
  Qed.
End Leaf.
