(** Histories of inserts refine the flat specification; get, hints, sizes. *)
From Coq Require Import List ZArith Lia Bool Arith.
From Verif Require Import Base Index Slice Tree Insert Range Spec Iter Hist Zip Rep Upd Leaf Path Ops Find Ins IterP IterQ.
Import ListNotations.
Local Open Scope Z_scope.

(** ** The flat specification *)
Section SpecP.
  Context {I V : Type} (Y : slice_ops I V) (inj : Z -> I).
  Notation run := (prod V Z) (only parsing).

  Lemma place_sum : forall b x n c r, place Y b x n c = Ok r ->
    rsum r = match b with Some (_, z) => z | None => 0 end + n + match c with Some (_, z) => z | None => 0 end.
  Proof.
    intros [[s z]|] x n [[s2 z2]|] r H; cbn [place] in H.
    - destruct (join Y s x) as [m|[s' x']].
      + destruct (join Y m s2) as [?|[m' s2']]; inversion H; subst; cbn [rsum]; lia.
      + destruct (join Y x' s2) as [?|[x2 s2']]; inversion H; subst; cbn [rsum]; lia.
    - destruct (join Y s x) as [?|[? ?]]; inversion H; subst; cbn [rsum]; lia.
    - destruct (join Y x s2) as [?|[? ?]]; inversion H; subst; cbn [rsum]; lia.
    - inversion H; subst; cbn [rsum]; lia.
  Qed.

  Lemma place_inside_sum : forall s z q x n, rsum (place_inside Y inj s z q x n) = z + n.
  Proof.
    intros. unfold place_inside. destruct (sl_split_at Y s (inj q)) as [a b].
    destruct (join Y a x) as [m|[a' x']].
    - destruct (join Y m b) as [?|[? ?]]; cbn [rsum]; lia.
    - destruct (join Y x' b) as [?|[? ?]]; cbn [rsum]; lia.
  Qed.

  Lemma insert_runs_sum : forall l idx x n r, insert_runs Y inj l idx x n = Ok r -> rsum r = rsum l + n.
  Proof.
    induction l as [|[s z] l IH]; intros idx x n r H; cbn [insert_runs] in H.
    - inversion H; subst. cbn [rsum]. lia.
    - destruct (idx =? 0).
      { destruct (place Y None x n (Some (s, z))) as [p| |] eqn:E; cbn [bind] in H; inversion H; subst.
        rewrite rsum_app, (place_sum _ _ _ _ _ E). cbn [rsum]. lia. }
      destruct (idx <? z).
      { inversion H; subst. rewrite rsum_app, place_inside_sum. cbn [rsum]. lia. }
      destruct (idx =? z).
      { destruct l as [|[s2 z2] l].
        - rewrite (place_sum _ _ _ _ _ H). cbn [rsum]. lia.
        - destruct (place Y (Some (s, z)) x n (Some (s2, z2))) as [p| |] eqn:E; cbn [bind] in H; inversion H; subst.
          rewrite rsum_app, (place_sum _ _ _ _ _ E). cbn [rsum]. lia. }
      destruct (insert_runs Y inj l (idx - z) x n) as [p| |] eqn:E; cbn [bind] in H; inversion H; subst.
      cbn [rsum]. rewrite (IH _ _ _ _ E). lia.
  Qed.

  Lemma spec_insert_sum : forall l idx x n r, spec_insert Y inj l idx x n = Ok r -> rsum r = rsum l + n /\ 0 < n /\ idx <= rsum l.
  Proof.
    intros l idx x n r H. unfold spec_insert in H. destruct (Z.ltb_spec (rsum l) idx); [discriminate|].
    destruct (Z.leb_spec n 0); [discriminate|]. split; [eapply insert_runs_sum; eauto | lia].
  Qed.

  Lemma covering_app : forall (A : list run) s z B i, pos_runs (A ++ (s, z) :: B) -> rsum A <= i < rsum A + z ->
    covering (A ++ (s, z) :: B) i = Some (rsum A, rsum A + z, s).
  Proof.
    intros A s z B i Hp Hi. unfold covering. rewrite spans_app, Z.add_0_l.
    assert (HA : forall (l : list run) off, pos_runs l -> off + rsum l <= i -> find (fun e => (fst (fst e) <=? i) && (i <? snd (fst e))) (spans off l) = None).
    { induction l as [|[s1 z1] l IH]; intros off Hl Ho; cbn [spans find rsum] in *; auto. inversion Hl; subst. cbn [fst snd] in *.
      pose proof (pos_runs_nonneg _ H2). destruct (Z.ltb_spec i (off + z1)); [lia|]. rewrite andb_false_r. apply IH; auto. lia. }
    apply pos_runs_app in Hp. destruct Hp as [Hp _].
    assert (Hf : forall (a b : list (Z * Z * V)) f, find f a = None -> find f (a ++ b) = find f b).
    { induction a as [|x a IH]; intros b f H; cbn [app find] in *; auto. destruct (f x); [discriminate|auto]. }
    rewrite Hf by (apply HA; auto; lia). cbn [spans find fst snd].
    destruct (Z.leb_spec (rsum A) i); [|lia]. destruct (Z.ltb_spec i (rsum A + z)); [|lia]. reflexivity.
  Qed.
End SpecP.

Section HistP.
  Context {I V : Type} (X : index_ops I) (Y : slice_ops I V) (MAX : Z) (inj : Z -> I) (M : nat).
  Hypothesis L : index_laws X MAX inj.
  Hypothesis HM : (1 <= M)%nat.
  Notation tree := (tree I V).
  Notation run := (prod V Z) (only parsing).
  Notation rep := (@rep I V inj M).
  Notation rle_rep := (@rle_rep I V inj M).

  (** One insert with every argument. *)
  Lemma insert_full_ok : forall nop r l hints idx x n,
    rle_rep r l -> 0 <= idx <= MAX -> 0 <= n -> rsum l + n <= MAX ->
    match spec_insert Y inj l idx x n with
    | Ok l' => exists r' cur, insert_with_cursor X Y M nop r hints (inj idx) x (inj n) = Ok (r', cur) /\
        rle_rep r' l' /\
        (left_join_only Y inj l idx x = false -> rle_tracks r' cur (inserted_at Y inj l idx x))
    | Panic w => insert_with_cursor X Y M nop r hints (inj idx) x (inj n) = Panic w
    | UB => False
    end.
  Proof.
    intros nop r l hints idx x n Hr Hi Hn Hm. pose proof (pos_runs_nonneg _ (rle_rep_pos _ _ _ _ Hr)) as Hnn.
    unfold spec_insert. destruct (Z.ltb_spec (rsum l) idx) as [Hlt|Hge].
    - unfold insert_with_cursor. rewrite (rle_size_ok X MAX inj M L _ _ Hr). cbn [bind]. rewrite (il_ltb _ _ _ L) by lia.
      destruct (Z.ltb_spec (rsum l) idx); [reflexivity|lia].
    - destruct (Z.leb_spec n 0).
      + unfold insert_with_cursor. rewrite (rle_size_ok X MAX inj M L _ _ Hr). cbn [bind]. rewrite (il_ltb _ _ _ L) by lia.
        destruct (Z.ltb_spec (rsum l) idx); [lia|]. unfold ix_leb. rewrite (il_zero _ _ _ L), (il_ltb _ _ _ L) by lia.
        destruct (Z.ltb_spec 0 n); [lia|reflexivity].
      + apply (insert_with_cursor_ok X Y MAX inj M L HM); auto; lia.
  Qed.

  Theorem run_ok : forall nop ops r l, rle_rep r l ->
    Forall (fun o => 0 <= o_idx o <= MAX /\ 0 <= o_size o) ops -> rsum l + osum ops <= MAX ->
    match spec_run Y inj l (map args ops) with
    | Ok l' => exists r', run_ops X Y M nop r (map (inj_op inj) ops) = Ok r' /\ rle_rep r' l' /\ rsum l' = rsum l + osum ops
    | Panic w => run_ops X Y M nop r (map (inj_op inj) ops) = Panic w
    | UB => False
    end.
  Proof.
    intros nop. induction ops as [|o ops IH]; intros r l Hr Hf Hm; cbn [map spec_run run_ops osum] in *.
    - exists r. split; auto. split; auto. lia.
    - inversion Hf as [|? ? [Hi Hn] Hf']; subst. unfold args at 1.
      assert (Hos : 0 <= osum ops).
      { clear - Hf'. induction Hf' as [|o ops [_ H] _ IH]; cbn [osum]; lia. }
      cbn [inj_op o_hints o_idx o_slice o_size].
      pose proof (insert_full_ok nop r l (o_hints o) (o_idx o) (o_slice o) (o_size o) Hr Hi Hn ltac:(lia)) as H.
      destruct (spec_insert Y inj l (o_idx o) (o_slice o) (o_size o)) as [l'| |] eqn:E; cbn [bind]; auto.
      + destruct H as (r' & cur & E' & Hr' & _). rewrite E'. cbn [bind].
        destruct (spec_insert_sum _ _ _ _ _ _ _ E) as (Hs & _).
        specialize (IH r' l' Hr' Hf' ltac:(lia)).
        destruct (spec_run Y inj l' (map args ops)) as [l''| |]; auto.
        destruct IH as (r'' & E2 & R2 & S2). exists r''. split; auto. split; auto. lia.
      + rewrite H. reflexivity.
  Qed.

  Lemma reaches_rep : forall nop r l, reaches MAX inj X Y M nop r l -> rle_rep r l /\ rsum l <= MAX.
  Proof.
    intros nop r l (ops & [Hf Hm] & E & S). pose proof (run_ok nop ops None [] eq_refl Hf ltac:(cbn [rsum]; lia)) as H.
    rewrite S in H. destruct H as (r' & E' & R & Hs). rewrite E in E'. inversion E'; subst r'. cbn [rsum] in Hs. split; auto. lia.
  Qed.

  Lemma reaches_nil : forall nop, reaches MAX inj X Y M nop None [] \/ MAX < 0.
  Proof.
    intros. destruct (Z.leb_spec 0 MAX); [left|right; lia]. exists []. split; [|split; reflexivity].
    split; [constructor | cbn [osum]; lia].
  Qed.

  Lemma run_app : forall nop a r b, run_ops X Y M nop r (a ++ b) = let* r' := run_ops X Y M nop r a in run_ops X Y M nop r' b.
  Proof.
    intros nop. induction a as [|o a IH]; intros r b; cbn [app run_ops bind]; auto.
    destruct (insert_with_cursor X Y M nop r (o_hints o) (o_idx o) (o_slice o) (o_size o)) as [[r' c]| |]; cbn [bind]; auto.
  Qed.

  Lemma spec_run_app : forall a l b, spec_run Y inj l (a ++ b) = let* l' := spec_run Y inj l a in spec_run Y inj l' b.
  Proof.
    induction a as [|[[i x] n] a IH]; intros l b; cbn [app spec_run bind]; auto.
    destruct (spec_insert Y inj l i x n) as [l'| |]; cbn [bind]; auto.
  Qed.

  Lemma osum_app : forall (a b : list (@op V Z)), osum (a ++ b) = osum a + osum b.
  Proof. induction a as [|o a IH]; intros; cbn [app osum]; [|rewrite IH]; lia. Qed.

  (** One more insert on a reachable tree. *)
  Lemma reaches_step : forall nop r l hints idx x n l',
    reaches MAX inj X Y M nop r l -> 0 <= idx <= MAX -> 0 <= n -> rsum l + n <= MAX ->
    spec_insert Y inj l idx x n = Ok l' ->
    exists r' cur, insert_with_cursor X Y M nop r hints (inj idx) x (inj n) = Ok (r', cur) /\
      reaches MAX inj X Y M nop r' l' /\
      (left_join_only Y inj l idx x = false -> rle_tracks r' cur (inserted_at Y inj l idx x)).
  Proof.
    intros nop r l hints idx x n l' Hr Hi Hn Hm E. destruct (reaches_rep _ _ _ Hr) as [R _].
    pose proof (insert_full_ok nop r l hints idx x n R Hi Hn Hm) as H. rewrite E in H.
    destruct H as (r' & cur & E' & R' & T). exists r', cur. split; auto. split; auto.
    destruct Hr as (ops & [Hf Ho] & Er & Es).
    assert (Hos : rsum l = osum ops).
    { pose proof (run_ok nop ops None [] eq_refl Hf ltac:(cbn [rsum]; lia)) as H. rewrite Es in H. destruct H as (? & _ & _ & H). exact H. }
    exists (ops ++ [Build_op hints idx x n]). split.
    - split.
      + apply Forall_app. split; auto.
      + rewrite osum_app. cbn [osum o_size]. lia.
    - rewrite !map_app, run_app, spec_run_app, Er, Es. cbn [bind map args run_ops spec_run inj_op o_hints o_idx o_slice o_size].
      rewrite E', E. cbn [bind]. auto.
  Qed.

  (** ** get *)
  Theorem get_ok : forall r l hints idx, rle_rep r l -> rsum l <= MAX -> 0 <= idx <= MAX ->
    get_with_cursor X r hints (inj idx) =
      match covering l idx with
      | Some (a, b, s) => Ok (inj a, inj b, s)
      | None => Panic POutOfBounds
      end.
  Proof.
    intros r l hints idx Hr Hm Hi. pose proof (rle_rep_pos _ _ _ _ Hr) as Hp. pose proof (pos_runs_nonneg _ Hp) as Hnn.
    unfold get_with_cursor. rewrite (rle_size_ok X MAX inj M L _ _ Hr). cbn [bind].
    unfold ix_leb. rewrite (il_zero _ _ _ L), !(il_ltb _ _ _ L) by lia.
    destruct (Z.ltb_spec idx 0); [lia|].
    destruct (Z.ltb_spec idx (rsum l)) as [Hlt|Hge]; cbn [negb].
    - destruct r as [r|]; cbn [Ins.rle_rep] in Hr; [|subst l; cbn [rsum] in Hlt; lia]. destruct Hr as [R _].
      destruct (get_loop_ok X MAX inj M L HM (r_height r) 1 (r_node r) l idx idx hints R) as (A & s & z & B & [El Hr] & E); try lia.
      rewrite E, El, covering_app; [|rewrite <- El; auto|auto]. replace (idx - idx + rsum A) with (rsum A) by lia. reflexivity.
    - assert (E : covering l idx = None).
      { unfold covering. destruct (find _ _) as [e|] eqn:Ef; auto. exfalso. apply find_some in Ef. destruct Ef as [Hin Hb].
        pose proof (spans_lo l 0 Hp) as Hs. rewrite Forall_forall in Hs. specialize (Hs _ Hin). lia. }
      rewrite E. reflexivity.
  Qed.

  (** ** Hints *)
  Lemma find_hints : forall h lo t l tau p a b hints hints', rep lo h t l -> 0 <= tau <= rsum l -> rsum l <= MAX ->
    find_insertion_point X Y h t hints (inj tau) p a b = find_insertion_point X Y h t hints' (inj tau) p a b.
  Proof.
    induction h as [|h IH]; intros lo t l tau p a b hints hints' R Ht Hm.
    all: cbn [find_insertion_point].
    all: destruct (search_step_ok X MAX inj M L HM lo _ t l tau (hd_error hints) R Ht Hm) as (r0 & E & S).
    all: assert (E' : search_step X _ t (hd_error hints') (inj tau) = Ok r0)
      by (rewrite <- E, !(hint_irrelevant X MAX inj M L HM lo _ t l tau _ R Ht Hm); reflexivity).
    all: rewrite E, E'; cbn [bind].
    all: destruct (norm_ok X MAX inj M L HM lo _ t l tau r0 S Ht Hm) as (r & Er & Hs); rewrite Er; cbn [bind].
    all: destruct Hs as [(k & A & s & z & B & -> & K & Hr) | (lft & ch & rgt & l1 & lc & l2 & -> & -> & Hlen & H1 & Hc & H2 & -> & Hr)]; auto.
    pose proof (lseg_nonneg _ _ _ _ _ _ H1). pose proof (seg_nonneg _ _ _ _ _ _ H2). pose proof (childR_nonneg _ _ _ _ _ Hc).
    autorewrite with rs in Hm, Ht.
    rewrite (il_subl _ _ _ L) by lia. cbn [bind]. rewrite node_child. cbn [bind].
    eapply IH; [exact Hc|lia|lia].
  Qed.

  Theorem insert_hints_ok : forall nop r l hints hints' idx x n, rle_rep r l -> rsum l <= MAX -> 0 <= idx <= MAX ->
    insert_with_cursor X Y M nop r hints (inj idx) x n = insert_with_cursor X Y M nop r hints' (inj idx) x n.
  Proof.
    intros nop r l hints hints' idx x n Hr Hm Hi. pose proof (pos_runs_nonneg _ (rle_rep_pos _ _ _ _ Hr)) as Hnn.
    unfold insert_with_cursor. rewrite (rle_size_ok X MAX inj M L _ _ Hr). cbn [bind].
    rewrite (il_ltb _ _ _ L) by lia. destruct (Z.ltb_spec (rsum l) idx); auto. destruct (ix_leb X n (ix_zero X)); auto.
    destruct r as [r|]; auto. destruct Hr as [R _]. rewrite (find_hints _ _ _ _ _ [] None None hints hints' R); auto; lia.
  Qed.
End HistP.
