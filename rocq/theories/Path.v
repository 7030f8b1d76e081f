(** Paths into the tree: focusing on a node, handles by in-order rank, and the whole upward pass. *)
From Coq Require Import List ZArith Lia Bool Arith.
From Verif Require Import Base Spec Index Slice Tree Insert Zip Rep Upd Leaf.
Import ListNotations.
Local Open Scope Z_scope.

Section Shape.
  Context {I V : Type}.
  Notation tree := (tree I V).
  Notation entry := (entry_of I V) (only parsing).

  (** Number of keys before the edge [c] of the node at path [p]. *)
  Fixpoint erank (t : tree) (p : list nat) (c : nat) : option nat :=
    match t with
    | Nil => None
    | Node _ c0 es =>
      match p with
      | [] => if (c <=? length es)%nat then Some (before c0 es c) else None
      | i :: p' =>
        match child_of c0 es i with
        | Ok ch => option_map (Nat.add (before c0 es i)) (erank ch p' c)
        | _ => None
        end
      end
    end.

  (** Two trees of the same shape: same ranks for all handles and edges. *)
  Definition ss (t t' : tree) : Prop :=
    count t = count t' /\ (forall q j, rank t' q j = rank t q j) /\ (forall q c, erank t' q c = erank t q c).

  Lemma ss_refl : forall t, ss t t.
  Proof. repeat split. Qed.

  Lemma ss_trans : forall a b c, ss a b -> ss b c -> ss a c.
  Proof.
    intros a b c (A1 & A2 & A3) (B1 & B2 & B3). repeat split; intros; [congruence | rewrite B2; auto | rewrite B3; auto].
  Qed.

  Definition ssl (es es' : list entry) : Prop := Forall2 (fun e e' => ss (e_child e) (e_child e')) es es'.

  Lemma ssl_refl : forall es, ssl es es.
  Proof. induction es; constructor; auto using ss_refl. Qed.

  Lemma ssl_length : forall es es', ssl es es' -> length es' = length es.
  Proof. intros es es' H. induction H; simpl; auto. Qed.

  Lemma ssl_before : forall c c0 c0' es es', ss c0 c0' -> ssl es es' -> before c0' es' c = before c0 es c.
  Proof.
    induction c as [|c IH]; intros c0 c0' es es' Hc H; [reflexivity|].
    destruct H as [|[k1 a] [k2 b] es es' Ha H]; [reflexivity|].
    cbn [before]. destruct Hc as [Hc _]. rewrite (IH a b es es') by auto. rewrite Hc. reflexivity.
  Qed.

  Lemma ssl_child : forall c c0 c0' es es', ss c0 c0' -> ssl es es' ->
    match child_of c0 es c, child_of c0' es' c with
    | Ok a, Ok b => ss a b
    | UB, UB => True
    | _, _ => False
    end.
  Proof.
    intros [|c] c0 c0' es es' Hc H; cbn [child_of]; auto.
    unfold nth_ub. revert c. induction H as [|x y es es' Hx H IH]; intros [|c]; cbn [nth_error bind]; auto.
    apply IH.
  Qed.

  Lemma ss_node : forall tot tot' c0 c0' es es', ss c0 c0' -> ssl es es' -> ss (Node tot c0 es) (Node tot' c0' es').
  Proof.
    intros tot tot' c0 c0' es es' Hc H. repeat split.
    - rewrite !count_Node. destruct Hc as [-> _]. f_equal.
      induction H as [|[k1 a] [k2 b] es es' [Ha _] H IH]; cbn [ecount]; auto.
    - intros [|c q] j; cbn [rank].
      + rewrite (ssl_length _ _ H). destruct (j <? length es)%nat; auto.
        pose proof (ssl_child j _ _ _ _ Hc H) as Q. rewrite (ssl_before j _ _ _ _ Hc H).
        destruct (child_of c0 es j), (child_of c0' es' j); try contradiction; auto.
        destruct Q as [-> _]. reflexivity.
      + pose proof (ssl_child c _ _ _ _ Hc H) as Q. rewrite (ssl_before c _ _ _ _ Hc H).
        destruct (child_of c0 es c), (child_of c0' es' c); try contradiction; auto.
        destruct Q as (_ & Q & _). rewrite Q. reflexivity.
    - intros [|i q] c; cbn [erank].
      + rewrite (ssl_length _ _ H), (ssl_before c _ _ _ _ Hc H). reflexivity.
      + pose proof (ssl_child i _ _ _ _ Hc H) as Q. rewrite (ssl_before i _ _ _ _ Hc H).
        destruct (child_of c0 es i), (child_of c0' es' i); try contradiction; auto.
        destruct Q as (_ & _ & Q). rewrite Q. reflexivity.
  Qed.

  Lemma ss_asm : forall lft (ch ch' : tree) rgt rgt', ss ch ch' -> ssl rgt rgt' ->
    ss (fst (asm lft ch rgt)) (fst (asm lft ch' rgt')) /\ ssl (snd (asm lft ch rgt)) (snd (asm lft ch' rgt')).
  Proof.
    induction lft as [|[a k] lft IH]; intros ch ch' rgt rgt' Hc Hr; cbn [asm fst snd]; auto.
    destruct (IH ch ch' rgt rgt' Hc Hr) as [A B]. split; [apply ss_refl|]. constructor; auto.
  Qed.

  Lemma ss_zip : forall tot tot' lft (ch ch' : tree) rgt rgt', ss ch ch' -> ssl rgt rgt' ->
    ss (node tot lft ch rgt) (node tot' lft ch' rgt').
  Proof. intros. unfold node. destruct (ss_asm lft ch ch' rgt rgt'); auto. apply ss_node; auto. Qed.

  Lemma erank_here : forall tot lft (ch : tree) rgt, erank (node tot lft ch rgt) [] (length lft) = Some (lcount lft).
  Proof.
    intros. unfold node. cbn [erank]. rewrite asm_length, before_zip.
    destruct (Nat.leb_spec (length lft) (length lft + length rgt)); [reflexivity|lia].
  Qed.

  Lemma erank_down : forall tot lft (ch : tree) rgt p c,
    erank (node tot lft ch rgt) (length lft :: p) c = option_map (Nat.add (lcount lft)) (erank ch p c).
  Proof.
    intros. pose proof (node_child tot lft ch rgt) as H. unfold child, node in *. cbn [erank].
    rewrite H, before_zip. reflexivity.
  Qed.
End Shape.

Section Path.
  Context {I V : Type} (X : index_ops I) (MAX : Z) (inj : Z -> I) (M : nat).
  Hypothesis L : index_laws X MAX inj.
  Hypothesis HM : (1 <= M)%nat.
  Notation tree := (tree I V).
  Notation entry := (entry_of I V) (only parsing).
  Notation run := (prod V Z) (only parsing).
  Notation rep := (@rep I V inj M).
  Notation childR := (@childR I V inj M).
  Notation seg := (@seg I V inj).
  Notation lseg := (@lseg I V inj).
  Notation good := (@good I V inj M).

  Ltac ix := repeat (first [ rewrite (il_addr _ _ _ L) by lia
                           | rewrite (il_addl _ _ _ L) by lia
                           | rewrite (il_subl _ _ _ L) by lia
                           | rewrite (il_subr _ _ _ L) by lia ]; cbn [bind]).

  (** The node [n] (height [h'], runs [ln]) at path [p] of [t]; [la] and [lb] are the runs outside. *)
  Inductive focus : nat -> nat -> tree -> list run -> list nat -> nat -> nat -> tree ->
                    list run -> list run -> list run -> Prop :=
  | f_here : forall lo h t l, rep lo h t l -> focus lo h t l [] lo h t l [] []
  | f_down : forall lo h lft ch rgt l1 lc l2 p lo' h' n ln la lb,
      (lo <= length lft + length rgt <= 2 * M)%nat ->
      lseg (childR (S h)) 0 lft l1 -> seg (childR (S h)) (rsum l1 + rsum lc) rgt l2 ->
      focus M h ch lc p lo' h' n ln la lb ->
      focus lo (S h) (node (inj (rsum (l1 ++ lc ++ l2))) lft ch rgt) (l1 ++ lc ++ l2)
            (length lft :: p) lo' h' n ln (l1 ++ la) (lb ++ l2).

  Lemma focus_facts : forall lo h t l p lo' h' n ln la lb, focus lo h t l p lo' h' n ln la lb ->
    rep lo h t l /\ rep lo' h' n ln /\ l = la ++ ln ++ lb /\ h = (h' + length p)%nat /\ node_at t p = Ok n.
  Proof.
    intros lo h t l p lo' h' n ln la lb H.
    induction H as [lo h t l R | lo h lft ch rgt l1 lc l2 p lo' h' n ln la lb Hlen H1 H2 F (Rc & Rn & -> & -> & E)].
    - repeat split; auto. rewrite app_nil_r. reflexivity.
    - repeat split; auto.
      + rewrite rep_nrep. apply zip_nrep; auto. rewrite !rsum_app. lia.
      + rewrite <- !app_assoc. reflexivity.
      + cbn [length]. lia.
      + cbn [node_at]. rewrite node_child. exact E.
  Qed.

  Lemma focus_rank : forall lo h t l p lo' h' n ln la lb, focus lo h t l p lo' h' n ln la lb ->
    (forall q k, rank t (p ++ q) k = option_map (Nat.add (length la)) (rank n q k)) /\
    (forall q k, erank t (p ++ q) k = option_map (Nat.add (length la)) (erank n q k)).
  Proof.
    intros lo h t l p lo' h' n ln la lb H.
    induction H as [lo h t l R | lo h lft ch rgt l1 lc l2 p lo' h' n ln la lb Hlen H1 H2 F [IH1 IH2]].
    - split; intros; cbn [app length]; [destruct (rank t q k) | destruct (erank t q k)]; reflexivity.
    - pose proof (lseg_count inj _ _ _ _ (childR_count inj M (S h)) H1) as C.
      split; intros; cbn [app]; [rewrite rank_down, IH1 | rewrite erank_down, IH2];
        [destruct (rank n q k) | destruct (erank n q k)]; cbn [option_map]; auto;
        f_equal; rewrite C, app_length; lia.
  Qed.

  Lemma focus_trans : forall lo h t l p lo' h' n ln la lb, focus lo h t l p lo' h' n ln la lb ->
    forall q lo2 h2 n2 l2 la2 lb2, focus lo' h' n ln q lo2 h2 n2 l2 la2 lb2 ->
    focus lo h t l (p ++ q) lo2 h2 n2 l2 (la ++ la2) (lb2 ++ lb).
  Proof.
    intros lo h t l p lo' h' n ln la lb H.
    induction H; intros q lo2 h2 n2 l2' la2 lb2 F.
    - rewrite app_nil_r. exact F.
    - cbn [app]. rewrite <- (app_assoc l1 la la2), (app_assoc lb2 lb l2). constructor; auto.
  Qed.

  (** The upward pass when nothing on the way needs the left-hand key. *)
  Lemma upd_ok : forall f lo h t l p lo' h' n ln la lb, focus lo h t l p lo' h' n ln la lb ->
    forall ln' wh st,
    f n = Ok st -> good lo' h' (rsum ln) ln' wh st ->
    rsum ln < rsum ln' -> rsum la + rsum ln' + rsum lb <= MAX ->
    exists st', upd X M f None t p = Ok st' /\
      good lo h (rsum l) (la ++ ln' ++ lb) (option_map (Nat.add (length la)) wh) st'.
  Proof.
    intros f lo h t l p lo' h' n ln la lb H.
    induction H as [lo h t l R | lo h lft ch rgt l1 lc l2 p lo' h' n ln la lb Hlen H1 H2 F IH];
      intros ln' wh st E G Hinc Hmax.
    - exists st. split; auto. cbn [app length]. rewrite app_nil_r.
      destruct wh; exact G.
    - destruct (focus_facts _ _ _ _ _ _ _ _ _ _ _ F) as (Rc & Rn & -> & _ & _).
      pose proof (lseg_nonneg _ _ _ _ _ _ H1). pose proof (seg_nonneg _ _ _ _ _ _ H2).
      pose proof (rep_nonneg _ _ _ _ _ _ Rc).
      rewrite !rsum_app in *.
      destruct (IH ln' wh st E G) as (st1 & E1 & G1); auto; try lia.
      cbn [upd]. rewrite node_child. cbn [bind]. rewrite E1. cbn [bind].
      destruct (up_step_ok X MAX inj M L HM lo h lft ch rgt l1 l1 (la ++ ln ++ lb) (la ++ ln' ++ lb) l2 None
                  (rsum (l1 ++ (la ++ ln ++ lb) ++ l2)) st1 (option_map (Nat.add (length la)) wh))
        as (st2 & E2 & G2); auto; try (rewrite !rsum_app in *; lia); try (rewrite !rsum_app; auto; fail).
      + constructor.
      + rewrite !rsum_app in *. exists st2. split; auto.
        match goal with |- good _ _ ?a ?b ?c _ =>
          match type of G2 with good _ _ ?a' ?b' ?c' _ =>
            assert (Eb : b = b') by (rewrite <- !app_assoc; reflexivity);
            assert (Ec : c = c') by (unfold wh_up; destruct wh; cbn [option_map]; auto; rewrite app_length; f_equal; lia);
            rewrite Eb, Ec end end.
        exact G2.
  Qed.

  Lemma upd_split : forall f l p t q,
    upd X M f (Some (length p, l)) t (p ++ q) = upd X M (fun n => upd X M f (Some (O, l)) n q) None (t : tree) p.
  Proof.
    intros f l. induction p as [|c p IH]; intros t q; [reflexivity|].
    cbn [length app upd]. destruct (child t c); cbn [bind]; auto. rewrite IH. reflexivity.
  Qed.

  (** Replacing the focused node. *)
  Lemma focus_set : forall lo h t l p lo' h' n ln la lb, focus lo h t l p lo' h' n ln la lb ->
    forall k s n' ln', set_slice n k s = Ok n' -> rep lo' h' n' ln' -> rsum ln' = rsum ln -> ss n n' ->
    exists t', set_slice_at t p k s = Ok t' /\ rep lo h t' (la ++ ln' ++ lb) /\ ss t t'.
  Proof.
    intros lo h t l p lo' h' n ln la lb H.
    induction H as [lo h t l R | lo h lft ch rgt l1 lc l2 p lo' h' n ln la lb Hlen H1 H2 F IH];
      intros k s n' ln' E R' Hsum Hss.
    - exists n'. cbn [set_slice_at app]. rewrite app_nil_r. auto.
    - destruct (IH _ _ _ _ E R' Hsum Hss) as (ch' & E1 & R1 & S1).
      exists (node (inj (rsum (l1 ++ lc ++ l2))) lft ch' rgt).
      cbn [set_slice_at]. rewrite node_child. cbn [bind]. rewrite E1. cbn [bind].
      rewrite node_set_child. split; auto. split; [|apply ss_zip; auto using ssl_refl].
      destruct (focus_facts _ _ _ _ _ _ _ _ _ _ _ F) as (_ & _ & -> & _ & _).
      replace ((l1 ++ la) ++ ln' ++ lb ++ l2) with (l1 ++ (la ++ ln' ++ lb) ++ l2) by (rewrite <- !app_assoc; reflexivity).
      rewrite rep_nrep. apply zip_nrep; auto.
      + rewrite !rsum_app in *. rewrite Hsum. auto.
      + rewrite !rsum_app. lia.
  Qed.

  (** A key seen in its node. *)
  Definition keyat (lo' h' : nat) (n : tree) (ln : list run) (k : nat) (A : list run) (s : V) (z : Z) (B : list run) : Prop :=
    exists lft ch ch' rgt l1 lc lc' l2,
      n = node (inj (rsum ln)) lft ch ((inj (rsum l1 + rsum lc), s, ch') :: rgt) /\ length lft = k /\
      (lo' <= length lft + S (length rgt) <= 2 * M)%nat /\
      lseg (childR h') 0 lft l1 /\ childR h' ch lc /\ 0 < z /\ childR h' ch' lc' /\
      seg (childR h') (rsum l1 + rsum lc + z + rsum lc') rgt l2 /\
      A = l1 ++ lc /\ B = lc' ++ l2 /\ ln = A ++ (s, z) :: B.

  Lemma rep_keyat : forall lo h n l k, rep lo h n l -> (k < tlen n)%nat ->
    exists A s z B, keyat lo h n l k A s z B.
  Proof.
    intros lo h n l k R Hk. rewrite rep_nrep in R.
    destruct (nrep_zip inj M lo _ n l k R) as (lft & ch & rgt & l1 & lc & l2 & -> & Hlk & Hlen & H1 & Hc & H2 & ->); [lia|].
    rewrite node_tlen in Hk. destruct rgt as [|e rgt]; [cbn [length] in Hk; lia|].
    inversion H2 as [|off z s ch' lc' es l2' Hz Hc' H2' Eo Ee]; subst.
    exists (l1 ++ lc), s, z, (lc' ++ l2').
    exists lft, ch, ch', rgt, l1, lc, lc', l2'. cbn [length] in Hlen.
    repeat split; auto; try lia. rewrite <- app_assoc. reflexivity.
  Qed.

  Lemma keyat_rank : forall lo h n l k A s z B, keyat lo h n l k A s z B -> rank n [] k = Some (length A).
  Proof.
    intros lo h n l k A s z B (lft & ch & ch' & rgt & l1 & lc & lc' & l2 & -> & <- & _ & H1 & Hc & _ & _ & _ & -> & _ & _).
    rewrite rank_here. rewrite (lseg_count inj _ _ _ _ (childR_count inj M h) H1), (childR_count inj M h _ _ Hc), app_length.
    reflexivity.
  Qed.

  Lemma rank_tlen : forall (n : tree) k r, rank n [] k = Some r -> (k < tlen n)%nat.
  Proof.
    intros [|tot c0 es] k r H; [discriminate|]. cbn [rank] in H. unfold tlen, keys.
    destruct (Nat.ltb_spec k (length es)); [auto|discriminate].
  Qed.

  Lemma child_of_bound : forall (c0 : tree) es c ch, child_of c0 es c = Ok ch -> (c <= length es)%nat.
  Proof.
    intros c0 es [|c] ch H; [lia|]. cbn [child_of] in H. unfold nth_ub in H.
    destruct (nth_error es c) eqn:E; [|discriminate].
    assert (c < length es)%nat by (apply nth_error_Some; congruence). lia.
  Qed.

  (** A path along which [rank] or [erank] is defined can be focused. *)
  Lemma path_focus : forall p lo h t l, rep lo h t l ->
    (length p <= h)%nat -> (exists n, node_at t p = Ok n) ->
    exists lo' h' n ln la lb, focus lo h t l p lo' h' n ln la lb /\ (p <> [] -> lo' = M) /\ (p = [] -> lo' = lo).
  Proof.
    induction p as [|c p IH]; intros lo h t l R Hh [n0 E].
    - exists lo, h, t, l, [], []. split; [apply f_here; auto | split; [congruence | auto]].
    - destruct h as [|h]; [cbn [length] in Hh; lia|]. cbn [length] in Hh. cbn [node_at] in E.
      destruct (child t c) as [ch0| |] eqn:Ec; try discriminate. cbn [bind] in E.
      assert (Hc : (c <= tlen t)%nat).
      { destruct t as [|tot c0 es]; [discriminate|]. cbn [child] in Ec. unfold tlen, keys. eapply child_of_bound; eauto. }
      rewrite rep_nrep in R.
      destruct (nrep_zip inj M lo _ t l c R Hc) as (lft & ch & rgt & l1 & lc & l2 & -> & <- & Hlen & H1 & Hch & H2 & ->).
      rewrite node_child in Ec. inversion Ec; subst ch0.
      destruct (IH M h ch lc Hch) as (lo' & h' & n & ln & la & lb & F & Q1 & Q2); [lia | eauto |].
      exists lo', h', n, ln, (l1 ++ la), (lb ++ l2). split; [apply f_down; auto | split; [|congruence]].
      intros _. destruct p; auto. apply Q1. congruence.
  Qed.

  Lemma rank_node_at : forall p (t : tree) k r, rank t p k = Some r -> exists n, node_at t p = Ok n.
  Proof.
    induction p as [|c p IH]; intros t k r H; [eexists; reflexivity|].
    destruct t as [|tot c0 es]; [discriminate|]. cbn [rank] in H. cbn [node_at child].
    destruct (child_of c0 es c) as [ch| |]; try discriminate. cbn [bind].
    destruct (rank ch p k) eqn:E; [|discriminate]. eauto.
  Qed.

  Lemma erank_node_at : forall p (t : tree) k r, erank t p k = Some r -> exists n, node_at t p = Ok n.
  Proof.
    induction p as [|c p IH]; intros t k r H; [eexists; reflexivity|].
    destruct t as [|tot c0 es]; [discriminate|]. cbn [erank] in H. cbn [node_at child].
    destruct (child_of c0 es c) as [ch| |]; try discriminate. cbn [bind].
    destruct (erank ch p k) eqn:E; [|discriminate]. eauto.
  Qed.

  Lemma rank_height : forall p lo h (t : tree) l k r, rep lo h t l -> rank t p k = Some r -> (length p <= h)%nat.
  Proof.
    induction p as [|c p IH]; intros lo h t l k r R H; [cbn [length]; lia|].
    destruct t as [|tot c0 es]; [discriminate|]. cbn [rank] in H.
    destruct (child_of c0 es c) as [ch| |] eqn:Ec; try discriminate.
    destruct (rank ch p k) eqn:E; [|discriminate].
    pose proof R as R0. rewrite rep_nrep in R0.
    destruct (nrep_zip inj M lo _ _ l c R0) as (lft & ch1 & rgt & l1 & lc & l2 & Et & <- & Hlen & H1 & Hch & H2 & ->).
    { unfold tlen, keys. eapply child_of_bound; eauto. }
    pose proof (node_child (inj (rsum (l1 ++ lc ++ l2))) lft ch1 rgt) as Ec'. rewrite <- Et in Ec'.
    cbn [child] in Ec'. rewrite Ec in Ec'. inversion Ec'; subst ch1.
    destruct h as [|h].
    - destruct Hch as [-> _]. destruct p; discriminate.
    - cbn [length]. specialize (IH M h ch lc k n Hch E). lia.
  Qed.

  (** A handle, by rank. *)
  Lemma handle_view : forall lo h t l p k r, rep lo h t l -> rank t p k = Some r ->
    exists lo' h' n ln la lb A s z B,
      focus lo h t l p lo' h' n ln la lb /\ keyat lo' h' n ln k A s z B /\ r = (length la + length A)%nat /\
      l = (la ++ A) ++ (s, z) :: B ++ lb /\ 0 < z.
  Proof.
    intros lo h t l p k r R H.
    destruct (path_focus p lo h t l R (rank_height _ _ _ _ _ _ _ R H) (rank_node_at _ _ _ _ H))
      as (lo' & h' & n & ln & la & lb & F & _).
    destruct (focus_rank _ _ _ _ _ _ _ _ _ _ _ F) as [F1 _]. specialize (F1 [] k).
    rewrite app_nil_r, H in F1.
    destruct (rank n [] k) as [r0|] eqn:E; [|discriminate]. cbn [option_map] in F1. inversion F1; subst.
    destruct (focus_facts _ _ _ _ _ _ _ _ _ _ _ F) as (_ & Rn & El & _ & _).
    destruct (rep_keyat _ _ _ _ k Rn (rank_tlen _ _ _ E)) as (A & s & z & B & K).
    pose proof (keyat_rank _ _ _ _ _ _ _ _ _ K) as E'. rewrite E in E'. inversion E'; subst.
    exists lo', h', n, ln, la, lb, A, s, z, B. repeat split; auto.
    - destruct K as (? & ? & ? & ? & ? & ? & ? & ? & _ & _ & _ & _ & _ & _ & _ & _ & _ & _ & Eln).
      rewrite Eln. rewrite <- !app_assoc. reflexivity.
    - destruct K as (? & ? & ? & ? & ? & ? & ? & ? & _ & _ & _ & _ & _ & Hz & _). exact Hz.
  Qed.

  Lemma keyat_size : forall lo h n l k A s z B, keyat lo h n l k A s z B -> rsum l <= MAX ->
    slice_size X h n k = Ok (inj z) /\ slice_at n k = Ok s /\ key_pos n k = Ok (inj (rsum A)).
  Proof.
    intros lo h n l k A s z B (lft & ch & ch' & rgt & l1 & lc & lc' & l2 & -> & <- & _ & H1 & Hc & Hz & Hc' & H2 & -> & -> & ->) Hm.
    pose proof (lseg_nonneg _ _ _ _ _ _ H1). pose proof (seg_nonneg _ _ _ _ _ _ H2).
    pose proof (childR_nonneg _ _ _ _ _ Hc). pose proof (childR_nonneg _ _ _ _ _ Hc').
    autorewrite with rs in *.
    split; [|split]; [|apply node_slice_at | apply node_key_pos].
    unfold slice_size. rewrite node_key_pos. cbn [bind]. rewrite node_key_pos_or_end1. cbn [bind].
    rewrite (next_pos_inj inj _ _ _ _ _ H2) by lia.
    destruct h as [|h]; cbn [bind].
    - destruct Hc' as [_ ->]. cbn [rsum]. ix. do 2 f_equal. lia.
    - unfold child_size. rewrite node_child1. cbn [bind]. rewrite (rep_size _ _ _ _ _ _ Hc'). cbn [bind].
      ix. do 2 f_equal. lia.
  Qed.

  Lemma app_mid_inv : forall {T} (a b a' b' : list T) x y,
    a ++ x :: b = a' ++ y :: b' -> length a = length a' -> a = a' /\ x = y /\ b = b'.
  Proof.
    intros T a b a' b' x y E H. destruct (app_inv_length a (x :: b) a' (y :: b') E H) as [-> E'].
    inversion E'; auto.
  Qed.

  Lemma handle_ok : forall lo h t l p k A s z B, rep lo h t l -> rsum l <= MAX ->
    l = A ++ (s, z) :: B -> rank t p k = Some (length A) ->
    handle_size X h t (p, k) = Ok (inj z) /\ handle_slice t (p, k) = Ok s /\ (length p <= h)%nat /\ 0 < z.
  Proof.
    intros lo h t l p k A s z B R Hm El H.
    destruct (handle_view _ _ _ _ _ _ _ R H) as (lo' & h' & n & ln & la & lb & A' & s' & z' & B' & F & K & Hr & El' & Hz).
    destruct (focus_facts _ _ _ _ _ _ _ _ _ _ _ F) as (_ & Rn & Eln & Eh & En).
    rewrite El in El'. apply app_mid_inv in El'; [|rewrite app_length; lia].
    destruct El' as (-> & E & ->). inversion E; subst s' z'.
    assert (Hm' : rsum ln <= MAX).
    { rewrite Eln in Hm, R. rewrite !rsum_app in Hm. pose proof (rep_pos _ _ _ _ _ _ R) as Hp.
      apply pos_runs_app in Hp. destruct Hp as [Hp1 Hp2]. apply pos_runs_app in Hp2. destruct Hp2 as [_ Hp2].
      pose proof (pos_runs_nonneg _ Hp1). pose proof (pos_runs_nonneg _ Hp2). lia. }
    destruct (keyat_size _ _ _ _ _ _ _ _ _ K Hm') as (E1 & E2 & E3).
    unfold handle_size, handle_slice, handle_height. cbn [fst snd]. rewrite En. cbn [bind].
    replace (h - length p)%nat with h' by lia. repeat split; auto. lia.
  Qed.

  Lemma set_slice_ok : forall lo h t l p k A s z B s', rep lo h t l ->
    l = A ++ (s, z) :: B -> rank t p k = Some (length A) ->
    exists t', set_slice_at t p k s' = Ok t' /\ rep lo h t' (A ++ (s', z) :: B) /\ ss t t'.
  Proof.
    intros lo h t l p k A s z B s' R El H.
    destruct (handle_view _ _ _ _ _ _ _ R H) as (lo' & h' & n & ln & la & lb & A' & s0 & z0 & B' & F & K & Hr & El' & Hz).
    rewrite El in El'. apply app_mid_inv in El'; [|rewrite app_length; lia].
    destruct El' as (-> & E & ->). inversion E; subst s0 z0.
    destruct K as (lft & ch & ch' & rgt & l1 & lc & lc' & l2 & -> & <- & Hlen & H1 & Hc & _ & Hc' & H2 & -> & -> & ->).
    destruct (focus_set _ _ _ _ _ _ _ _ _ _ _ F (length lft) s'
       (node (inj (rsum ((l1 ++ lc) ++ (s, z) :: lc' ++ l2))) lft ch ((inj (rsum l1 + rsum lc), s', ch') :: rgt))
       ((l1 ++ lc) ++ (s', z) :: lc' ++ l2)) as (t' & E1 & R1 & S1).
    - apply node_set_slice.
    - rewrite rep_nrep.
      replace ((l1 ++ lc) ++ (s', z) :: lc' ++ l2) with (l1 ++ lc ++ (s', z) :: lc' ++ l2) by (rewrite <- app_assoc; reflexivity).
      replace (rsum ((l1 ++ lc) ++ (s, z) :: lc' ++ l2)) with (rsum l1 + rsum lc + rsum ((s', z) :: lc' ++ l2))
        by (autorewrite with rs; lia).
      apply zip_nrep; auto. constructor; auto.
    - autorewrite with rs. lia.
    - apply ss_zip; [apply ss_refl|]. constructor; [apply ss_refl | apply ssl_refl].
    - exists t'. split; auto. split; auto.
      replace ((la ++ l1 ++ lc) ++ (s', z) :: (lc' ++ l2) ++ lb) with (la ++ ((l1 ++ lc) ++ (s', z) :: lc' ++ l2) ++ lb)
        by (rewrite <- !app_assoc; cbn [app]; rewrite <- !app_assoc; reflexivity).
      exact R1.
  Qed.
End Path.
