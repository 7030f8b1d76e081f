(** Searching: one step, get, and the insertion point. *)
From Coq Require Import List ZArith Lia Bool Arith Sorted.
From Verif Require Import Base Spec Index Slice Tree Insert Zip Rep Upd Leaf Path Ops.
Import ListNotations.
Local Open Scope Z_scope.

Section Find.
  Context {I V : Type} (X : index_ops I) (MAX : Z) (inj : Z -> I) (M : nat).
  Hypothesis L : index_laws X MAX inj.
  Hypothesis HM : (1 <= M)%nat.
  Notation tree := (tree I V).
  Notation entry := (entry_of I V) (only parsing).
  Notation run := (prod V Z) (only parsing).
  Notation rep := (@rep I V inj M).
  Notation childR := (@childR I V inj M).
  Notation seg := (@seg I V inj).
  Notation lseg := (@lseg I V inj).
  Notation focus := (@focus I V inj M).
  Notation keyat := (@keyat I V inj M).

  Ltac ix := repeat (first [ rewrite (il_addr _ _ _ L) by lia
                           | rewrite (il_addl _ _ _ L) by lia
                           | rewrite (il_subl _ _ _ L) by lia
                           | rewrite (il_subr _ _ _ L) by lia ]; cbn [bind]).

  (** Linear search in the entries of a node: the first position not less than the target. *)
  Fixpoint bsearch (es : list entry) (target : I) (i : nat) : nat + nat :=
    match es with
    | [] => inr i
    | e :: es' =>
      if ix_ltb X (e_pos e) target then bsearch es' target (Datatypes.S i)
      else if ix_eqb X (e_pos e) target then inl i else inr i
    end.

  Lemma bsearch_spec : forall (es : list entry) target i0, exists a b, es = a ++ b /\
    Forall (fun e => ix_ltb X (e_pos e) target = true) a /\
    match b with
    | [] => bsearch es target i0 = inr (i0 + length a)%nat
    | e :: _ => ix_ltb X (e_pos e) target = false /\
                bsearch es target i0 = if ix_eqb X (e_pos e) target then inl (i0 + length a)%nat else inr (i0 + length a)%nat
    end.
  Proof.
    induction es as [|e es IH]; intros target i0; cbn [bsearch].
    - exists [], []. cbn [length app]. rewrite Nat.add_0_r. auto.
    - destruct (ix_ltb X (e_pos e) target) eqn:El.
      + destruct (IH target (S i0)) as (a & b & -> & Ha & Hb).
        exists (e :: a), b. split; [reflexivity|]. split; [constructor; auto|].
        cbn [length]. rewrite Nat.add_succ_r. exact Hb.
      + exists [], (e :: es). split; [reflexivity|]. split; [constructor|]. cbn [length]. rewrite Nat.add_0_r. auto.
  Qed.

  (** What one search step at [t] (runs [l]) for the position [tau] returns. *)
  Definition step_ok (lo h : nat) (t : tree) (l : list run) (tau : Z) (r : cok I) : Prop :=
    (exists k A s z B, r = CKey k (inj (rsum A)) /\ keyat lo h t l k A s z B /\ rsum A <= tau < rsum A + z) \/
    (exists lft ch rgt l1 lc l2, r = CChild (length lft) (inj (rsum l1)) /\
       t = node (inj (rsum l)) lft ch rgt /\ (lo <= length lft + length rgt <= 2 * M)%nat /\
       lseg (childR h) 0 lft l1 /\ childR h ch lc /\ seg (childR h) (rsum l1 + rsum lc) rgt l2 /\ l = l1 ++ lc ++ l2 /\
       rsum l1 <= tau /\ (tau < rsum l1 + rsum lc \/ (rgt = [] /\ tau = rsum l1 + rsum lc))).

  (** The positions of the keys of a node increase, so the search finds the same place. *)
  Lemma seg_poss : forall h off es l, seg (childR h) off es l -> exists ps, map e_pos es = map inj ps /\ StronglySorted Z.lt ps /\
      Forall (fun p => off <= p <= off + rsum l) ps.
  Proof.
    intros h off es l H. induction H as [off|off z s ch lc es l2 Hz Hc H2 IH].
    - exists []. repeat split; constructor.
    - destruct IH as (ps & E & S & F). pose proof (childR_nonneg _ _ _ _ _ Hc).
      exists (off :: ps). autorewrite with rs. split; [cbn [map]; rewrite E; reflexivity|]. split.
      + constructor; [exact S|]. eapply Forall_impl; [|exact F]. cbn beta. intros; lia.
      + constructor; [pose proof (seg_nonneg _ _ _ _ _ _ H2); lia|]. eapply Forall_impl; [|exact F]. cbn beta. intros; lia.
  Qed.

  Lemma search_bsearch : forall lo h (t : tree) l tau, rep lo h t l -> 0 <= tau <= rsum l -> rsum l <= MAX ->
    ix_search X (map e_pos (keys t)) (inj tau) = bsearch (keys t) (inj tau) 0.
  Proof.
    intros lo h t l tau R Ht Hm.
    rewrite rep_nrep in R. destruct (nrep_zip inj M lo _ t l 0 R ltac:(lia)) as (lft & ch & rgt & l1 & lc & l2 & -> & El0 & Hlen & H1 & Hch & H2 & ->).
    destruct lft; [|discriminate]. inversion H1; subst l1. cbn [app rsum] in *. unfold node. cbn [asm keys snd].
    pose proof (childR_nonneg _ _ _ _ _ Hch) as Hcn. autorewrite with rs in Ht, Hm.
    destruct (seg_poss _ _ _ _ H2) as (ps & E & Sp & F).
    assert (F' : Forall (fun p => 0 <= p <= MAX) ps) by (eapply Forall_impl; [|exact F]; cbn beta; intros; lia).
    pose proof (il_search _ _ _ L ps tau Sp F' ltac:(lia)) as Hs. rewrite <- E in Hs.
    destruct (bsearch_spec rgt (inj tau) 0) as (a & b & -> & Ha & Hb). cbn [Nat.add] in Hb.
    assert (Ea : forall j p, nth_error ps j = Some p -> (j < length a)%nat -> p < tau).
    { intros j p Ej Hj. rewrite Forall_forall in Ha.
      destruct (nth_error a j) as [e|] eqn:Eaj; [|apply nth_error_None in Eaj; lia].
      pose proof (Ha _ (nth_error_In _ _ Eaj)) as Hlt.
      assert (Q : nth_error (map e_pos (a ++ b)) j = Some (e_pos e)).
      { apply map_nth_error. rewrite nth_error_app1 by lia. exact Eaj. }
      rewrite E, nth_error_map, Ej in Q. cbn [option_map] in Q. injection Q as Q. rewrite <- Q in Hlt.
      rewrite Forall_forall in F'. pose proof (F' _ (nth_error_In _ _ Ej)).
      rewrite (il_ltb _ _ _ L) in Hlt by lia. apply Z.ltb_lt. exact Hlt. }
    assert (Elen : length ps = (length a + length b)%nat) by (rewrite <- (map_length inj), <- E, map_length, app_length; reflexivity).
    destruct b as [|e b].
    - rewrite app_nil_r in Hb, E, Hs |- *. rewrite Hb. cbn [length] in Elen.
      destruct (ix_search X (map e_pos a) (inj tau)) as [i|i].
      + exfalso. assert (i < length ps)%nat by (apply nth_error_Some; congruence).
        pose proof (Ea i tau Hs ltac:(lia)). lia.
      + destruct Hs as [Hi Hs]. f_equal. destruct (Nat.eq_dec i (length a)); [auto|].
        destruct (nth_error ps i) as [p|] eqn:Ei; [|apply nth_error_None in Ei; lia].
        destruct (Hs i p Ei) as [_ Q]. pose proof (Q ltac:(lia)). pose proof (Ea i p Ei ltac:(lia)). lia.
    - destruct Hb as [Hb1 Hb2]. rewrite Hb2. cbn [length] in Elen.
      destruct (nth_error ps (length a)) as [p|] eqn:Ep; [|apply nth_error_None in Ep; lia].
      assert (Q : e_pos e = inj p).
      { assert (Q : nth_error (map e_pos (a ++ e :: b)) (length a) = Some (e_pos e)).
        { apply map_nth_error. rewrite nth_error_app2, Nat.sub_diag by lia. reflexivity. }
        rewrite E, nth_error_map, Ep in Q. cbn [option_map] in Q. congruence. }
      rewrite Forall_forall in F'. pose proof (F' _ (nth_error_In _ _ Ep)) as Pp.
      rewrite Q in Hb1 |- *. rewrite (il_ltb _ _ _ L) in Hb1 by lia. rewrite (il_eqb _ _ _ L) by lia.
      apply Z.ltb_ge in Hb1.
      destruct (ix_search X (map e_pos (a ++ e :: b)) (inj tau)) as [i|i].
      + destruct (lt_eq_lt_dec i (length a)) as [[Hi| ->]|Hi].
        * pose proof (Ea i tau Hs Hi). lia.
        * replace tau with p by congruence. rewrite Z.eqb_refl. reflexivity.
        * assert (p < tau) by (eapply sorted_nth; [exact Sp|exact Ep|exact Hs|lia]). lia.
      + destruct Hs as [Hi Hs]. assert (i = length a).
        { destruct (lt_eq_lt_dec i (length a)) as [[Hlt|E0]|Hgt]; [|exact E0|].
          - destruct (nth_error ps i) as [q|] eqn:Ei; [|apply nth_error_None in Ei; lia].
            destruct (Hs i q Ei) as [_ Q2]. pose proof (Q2 ltac:(lia)). pose proof (Ea i q Ei Hlt). lia.
          - destruct (Hs _ _ Ep) as [Q2 _]. pose proof (Q2 Hgt). lia. }
        subst i. destruct (Hs _ _ Ep) as [_ Q2]. pose proof (Q2 ltac:(lia)).
        destruct (Z.eqb_spec p tau); [lia|reflexivity].
  Qed.

  Definition unhinted (h : nat) (t : tree) (target : I) : res (cok I) :=
    match ix_search X (map e_pos (keys t)) target with
    | inl i => let* p := key_pos t i in Ok (CKey i p)
    | inr O => Ok (CChild 0 (ix_zero X))
    | inr (S k) =>
      let* nk := key_pos_or_end t (k + 1)%nat in
      let* ncs := child_size_or_zero X h t (k + 1)%nat in
      if ix_debug X && ix_ltb X nk target then Panic PAssert
      else
      let* start := ix_sub_right X nk ncs in
      if ix_ltb X target start then let* p := key_pos t k in Ok (CKey k p)
      else Ok (CChild (k + 1)%nat start)
    end.

  Lemma key_zip_rep : forall lo h (t : tree) l c, rep lo h t l -> (c <= tlen t)%nat ->
    exists lft ch rgt l1 lc l2, t = node (inj (rsum l)) lft ch rgt /\ length lft = c /\
      (lo <= length lft + length rgt <= 2 * M)%nat /\
      lseg (childR h) 0 lft l1 /\ childR h ch lc /\ seg (childR h) (rsum l1 + rsum lc) rgt l2 /\ l = l1 ++ lc ++ l2 /\
      0 <= rsum l1 /\ 0 <= rsum lc /\ 0 <= rsum l2.
  Proof.
    intros lo h t l c R Hc. rewrite rep_nrep in R.
    destruct (nrep_zip inj M lo _ t l c R Hc) as (lft & ch & rgt & l1 & lc & l2 & -> & <- & Hlen & H1 & Hch & H2 & ->).
    exists lft, ch, rgt, l1, lc, l2.
    pose proof (lseg_nonneg _ _ _ _ _ _ H1). pose proof (seg_nonneg _ _ _ _ _ _ H2).
    pose proof (childR_nonneg _ _ _ _ _ Hch). repeat split; auto; lia.
  Qed.

  Lemma keyat_zip : forall lo h lft ch p s ch' rgt l1 lc l2 l tot,
    tot = rsum l -> (lo <= length lft + S (length rgt) <= 2 * M)%nat ->
    lseg (childR h) 0 lft l1 -> childR h ch lc -> seg (childR h) (rsum l1 + rsum lc) ((p, s, ch') :: rgt) l2 -> l = l1 ++ lc ++ l2 ->
    exists z B, keyat lo h (node (inj tot) lft ch ((p, s, ch') :: rgt)) l (length lft) (l1 ++ lc) s z B /\ p = inj (rsum l1 + rsum lc).
  Proof.
    intros lo h lft ch p s ch' rgt l1 lc l2 l tot -> Hlen H1 Hc H2 ->.
    inversion H2 as [|off z s' ch'' lc' es l2' Hz Hc' H2' Eo Ee]; subst.
    exists z, (lc' ++ l2'). split; auto.
    exists lft, ch, ch', rgt, l1, lc, lc', l2'. repeat split; auto; try lia. rewrite <- app_assoc. reflexivity.
  Qed.

  Lemma unhinted_ok : forall lo h t l tau, rep lo h t l -> 0 <= tau <= rsum l -> rsum l <= MAX ->
    exists r, unhinted h t (inj tau) = Ok r /\ step_ok lo h t l tau r.
  Proof.
    intros lo h t l tau R Ht Hm.
    destruct (bsearch_spec (keys t) (inj tau) 0) as (a & b & Ek & Ha & Hb).
    destruct (key_zip_rep _ _ _ _ (length a) R) as (lft & ch & rgt & l1 & lc & l2 & Et & Hla & Hlen & H1 & Hc & H2 & El & P1 & Pc & P2).
    { unfold tlen. rewrite Ek, app_length. lia. }
    assert (Eab : a = snd (asm lft ch []) /\ b = rgt).
    { apply app_inv_length; [|rewrite asm_nil_length; auto].
      rewrite <- asm_snd, <- Ek, Et. reflexivity. }
    destruct Eab as [Ea ->]. rewrite Nat.add_0_l in Hb.
    assert (Hsum : rsum l = rsum l1 + rsum lc + rsum l2) by (rewrite El; autorewrite with rs; lia).
    assert (Hnext : next_pos (inj (rsum l)) rgt = inj (rsum l1 + rsum lc)) by (apply (next_pos_inj inj _ _ _ _ _ H2); lia).
    unfold unhinted. rewrite (search_bsearch _ _ _ _ _ R Ht Hm).
    (* the key found exactly *)
    assert (Hhd : rgt = [] \/ exists e rgt', rgt = e :: rgt' /\ e_pos e = inj (rsum l1 + rsum lc)).
    { destruct rgt as [|e rgt]; auto. right. exists e, rgt. split; auto. }
    assert (Hcase : (exists e rgt', rgt = e :: rgt' /\ tau = rsum l1 + rsum lc /\ bsearch (keys t) (inj tau) 0 = inl (length a)) \/
                    (bsearch (keys t) (inj tau) 0 = inr (length a) /\ (rgt = [] \/ tau < rsum l1 + rsum lc) /\ tau <= rsum l1 + rsum lc)).
    { destruct Hhd as [-> | (e & rgt' & -> & Ep)].
      - right. split; auto. split; auto. inversion H2; subst. cbn [rsum] in *. lia.
      - destruct Hb as [Hb1 Hb2]. rewrite Ep in Hb1, Hb2. rewrite (il_ltb _ _ _ L) in Hb1 by lia.
        rewrite (il_eqb _ _ _ L) in Hb2 by lia. apply Z.ltb_ge in Hb1.
        destruct (Z.eqb_spec (rsum l1 + rsum lc) tau).
        + left. exists e, rgt'. repeat split; auto.
        + right. split; auto. split; [right|]; lia. }
    destruct Hcase as [(e & rgt' & -> & Etau & Eb) | (Eb & Hlt & Hle)]; rewrite Eb; clear Hb Hhd; subst t.
    - (* exact key *)
      destruct e as [[p s] ch'].
      destruct (keyat_zip lo h lft ch p s ch' rgt' l1 lc l2 l (rsum l)) as (z & B & K & ->); auto.
      rewrite <- Hla, node_key_pos. cbn [bind].
      eexists. split; [reflexivity|]. left.
      exists (length lft), (l1 ++ lc), s, z, B. rewrite rsum_app. split; auto. split; auto.
      destruct K as (? & ? & ? & ? & ? & ? & ? & ? & _ & _ & _ & _ & _ & Hz & _). lia.
    - destruct lft as [|x lft0 _] using rev_ind.
      + cbn [length] in Hla. rewrite <- Hla. inversion H1; subst l1. cbn [app rsum length] in *.
        eexists. split; [reflexivity|]. right.
        exists [], ch, rgt, [], lc, l2. cbn [length rsum]. rewrite (il_zero _ _ _ L). repeat split; auto; try lia.
        destruct Hlt; [|left; lia]. destruct (Z.lt_ge_cases tau (0 + rsum lc)); [left; auto | right; split; auto; lia].
      + destruct x as [c1 [p s]]. rewrite app_length in Hla. cbn [length] in Hla.
        destruct (lseg_app_inv inj _ _ _ _ _ H1) as (l00 & lz & El1 & H10 & Hz0).
        inversion Hz0 as [|off ch'' la s' z lft' l3 Hz Hc1 H3 Eo Ee]; subst. inversion H3; subst.
        pose proof (lseg_nonneg _ _ _ _ _ _ H10). pose proof (childR_nonneg _ _ _ _ _ Hc1).
        replace (length (snd (asm (lft0 ++ [(c1, (inj (rsum l00 + rsum la), s))]) ch []))) with (S (length lft0)) by lia.
        assert (Hp : rsum l00 + rsum la < tau).
        { rewrite asm_snoc, asm_snd, Forall_app in Ha. destruct Ha as [_ Ha]. inversion Ha as [|? ? Hp _]; subst. cbn in Hp.
          autorewrite with rs in *. rewrite (il_ltb _ _ _ L) in Hp by lia. apply Z.ltb_lt in Hp. lia. }
        set (lft := lft0 ++ [(c1, (inj (rsum l00 + rsum la), s))]) in *.
        assert (Hll : length lft = (length lft0 + 1)%nat) by (unfold lft; rewrite app_length; reflexivity).
        autorewrite with rs in *.
        rewrite <- Hll, node_key_pos_or_end. cbn [bind]. rewrite Hnext.
        assert (Ecs : child_size_or_zero X h (node (inj (rsum l00 + (rsum la + (z + 0)) + (rsum lc + rsum l2))) lft ch rgt) (length lft) = Ok (inj (rsum lc))).
        { unfold child_size_or_zero, child_size. destruct h as [|h].
          - destruct Hc as [_ ->]. rewrite (il_zero _ _ _ L). reflexivity.
          - rewrite node_child. cbn [bind]. apply (rep_size _ _ _ _ _ _ Hc). }
        rewrite Ecs. cbn [bind]. rewrite (il_ltb _ _ _ L) by lia.
        destruct (Z.ltb_spec (rsum l00 + (rsum la + (z + 0)) + rsum lc) tau); [lia|]. rewrite andb_false_r.
        ix. rewrite (il_ltb _ _ _ L) by lia.
        destruct (Z.ltb_spec tau (rsum l00 + (rsum la + (z + 0)) + rsum lc - rsum lc)) as [Q|Q].
        * unfold lft. rewrite node_snoc, node_key_pos. cbn [bind]. eexists. split; [reflexivity|]. left.
          exists (length lft0), (l00 ++ la), s, z, (lc ++ l2). autorewrite with rs. split; [f_equal; f_equal; lia|]. split; [|lia].
          exists lft0, c1, ch, rgt, l00, la, lc, l2. autorewrite with rs in *.
          repeat split; auto; try lia.
          -- replace (rsum l00 + rsum la + z + rsum lc) with (rsum l00 + (rsum la + (z + 0)) + rsum lc) by lia. auto.
          -- rewrite <- !app_assoc. cbn [app]. reflexivity.
        * eexists. split; [reflexivity|]. right.
          exists lft, ch, rgt, (l00 ++ la ++ [(s, z)]), lc, l2. autorewrite with rs.
          split; [f_equal; f_equal; lia|].
          repeat split; auto; try lia.
          destruct Hlt; [|left; lia].
          destruct (Z.lt_ge_cases tau (rsum l00 + (rsum la + (z + 0)) + rsum lc)); [left; auto | right; split; auto; lia].
  Qed.

  (** Any hint gives the same step as no hint. *)
  Lemma hint_irrelevant : forall lo h t l tau hint, rep lo h t l -> 0 <= tau <= rsum l -> rsum l <= MAX ->
    search_step X h t hint (inj tau) = unhinted h t (inj tau).
  Proof.
    intros lo h t l tau hint R Ht Hm.
    assert (E0 : search_step X h t hint (inj tau) =
      let* hinted :=
      match hint with
      | None => Ok None
      | Some ci =>
        if (h =? 0)%nat || (tlen t <? ci)%nat then Ok None
        else
          let* cs := child_size t ci in
          let* nk := key_pos_or_end t ci in
          let* cp := ix_sub_right X nk cs in
          if ix_leb X cp (inj tau) && ix_ltb X (inj tau) nk then Ok (Some (ci, cp)) else Ok None
      end in
      match hinted with Some (ci, cp) => Ok (CChild ci cp) | None => unhinted h t (inj tau) end).
    { unfold search_step. rewrite (rep_size _ _ _ _ _ _ R). cbn [bind].
      rewrite (il_ltb _ _ _ L) by lia. destruct (Z.ltb_spec (rsum l) tau); [lia|]. rewrite andb_false_r. reflexivity. }
    rewrite E0. destruct hint as [ci|]; [|reflexivity].
    destruct h as [|h]; [reflexivity|]. cbn [Nat.eqb orb].
    destruct (Nat.ltb_spec (tlen t) ci) as [Hc|Hc]; [reflexivity|].
    destruct (key_zip_rep _ _ _ _ ci R Hc) as (lft & ch & rgt & l1 & lc & l2 & -> & <- & Hlen & H1 & Hch & H2 & El & P1 & Pc & P2).
    assert (Hsum : rsum l = rsum l1 + rsum lc + rsum l2) by (rewrite El; autorewrite with rs; lia).
    assert (Hnext : next_pos (inj (rsum l)) rgt = inj (rsum l1 + rsum lc)) by (apply (next_pos_inj inj _ _ _ _ _ H2); lia).
    unfold child_size. rewrite node_child. cbn [bind]. rewrite (rep_size _ _ _ _ _ _ Hch). cbn [bind].
    rewrite node_key_pos_or_end. cbn [bind]. rewrite Hnext. ix.
    unfold ix_leb. rewrite !(il_ltb _ _ _ L) by lia.
    destruct (Z.ltb_spec tau (rsum l1 + rsum lc - rsum lc)) as [Q1|Q1]; [reflexivity|].
    destruct (Z.ltb_spec tau (rsum l1 + rsum lc)) as [Q2|Q2]; [|reflexivity]. cbn [negb andb bind].
    (* the search lands on the same child *)
    assert (Eb : bsearch (keys (node (inj (rsum l)) lft ch rgt)) (inj tau) 0 = inr (length lft)).
    { assert (Hlast : forall off (lf : list (tree * (I * V))) lx, lseg (childR (S h)) off lf lx -> 0 <= off -> off + rsum lx <= tau ->
        forall c r i0, bsearch (snd (asm lf c r)) (inj tau) i0 = bsearch r (inj tau) (i0 + length lf)%nat).
      { clear - Ht Hm L. intros off lf lx H. induction H as [off|off a la s z lf lx Hz Ra H IH]; intros Hoff Hle c r i0.
        - cbn [asm snd length]. rewrite Nat.add_0_r. reflexivity.
        - pose proof (childR_nonneg _ _ _ _ _ Ra). pose proof (lseg_nonneg _ _ _ _ _ _ H).
          autorewrite with rs in Hle. cbn [asm snd bsearch e_pos fst length].
          rewrite (il_ltb _ _ _ L) by lia. destruct (Z.ltb_spec (off + rsum la) tau); [|lia].
          rewrite IH by lia. f_equal. lia. }
      unfold node, keys. rewrite (Hlast 0 lft l1) by (auto; lia). rewrite Nat.add_0_l.
      destruct rgt as [|e rgt]; [reflexivity|]. cbn [bsearch]. cbn [next_pos] in Hnext. rewrite Hnext.
      rewrite (il_ltb _ _ _ L), (il_eqb _ _ _ L) by lia.
      destruct (Z.ltb_spec (rsum l1 + rsum lc) tau); [lia|]. destruct (Z.eqb_spec (rsum l1 + rsum lc) tau); [lia|reflexivity]. }
    unfold unhinted. rewrite (search_bsearch _ _ _ _ _ R Ht Hm), Eb.
    destruct (length lft) as [|k] eqn:Ek.
    - destruct lft; [|discriminate]. inversion H1; subst l1. rewrite (il_zero _ _ _ L). cbn [rsum]. do 3 f_equal. lia.
    - replace (k + 1)%nat with (length lft) by lia.
      unfold child_size_or_zero, child_size. rewrite node_child, node_key_pos_or_end. cbn [bind].
      rewrite Hnext, (rep_size _ _ _ _ _ _ Hch). cbn [bind]. rewrite (il_ltb _ _ _ L) by lia.
      destruct (Z.ltb_spec (rsum l1 + rsum lc) tau); [lia|]. rewrite andb_false_r. ix. rewrite (il_ltb _ _ _ L) by lia.
      destruct (Z.ltb_spec tau (rsum l1 + rsum lc - rsum lc)); [lia|]. rewrite Ek. reflexivity.
  Qed.

  Lemma search_step_ok : forall lo h t l tau hint, rep lo h t l -> 0 <= tau <= rsum l -> rsum l <= MAX ->
    exists r, search_step X h t hint (inj tau) = Ok r /\ step_ok lo h t l tau r.
  Proof. intros. erewrite hint_irrelevant by eauto. apply unhinted_ok; auto. Qed.

  (** The run at a position, on the flat list. *)
  Definition run_at (l : list run) (tau : Z) (A : list run) (s : V) (z : Z) (B : list run) : Prop :=
    l = A ++ (s, z) :: B /\ rsum A <= tau < rsum A + z.

  Lemma get_loop_ok : forall h lo t l tau idx hints, rep lo h t l -> 0 <= tau < rsum l -> rsum l <= MAX ->
    tau <= idx -> idx - tau + rsum l <= MAX ->
    exists A s z B, run_at l tau A s z B /\
      get_loop X h t hints (inj tau) (inj idx) = Ok (inj (idx - tau + rsum A), inj (idx - tau + rsum A + z), s).
  Proof.
    induction h as [|h IH]; intros lo t l tau idx hints R Ht Hm Hi Him.
    all: destruct (search_step_ok lo _ t l tau (hd_error hints) R) as (r & E & S); [lia|auto|].
    all: cbn [get_loop]; rewrite E; cbn [bind].
    all: destruct S as [(k & A & s & z & B & -> & K & Hr) | (lft & ch & rgt & l1 & lc & l2 & -> & -> & Hlen & H1 & Hc & H2 & -> & Hge & Hlt)].
    1, 3: destruct (keyat_size X MAX inj M L HM _ _ _ _ _ _ _ _ _ K Hm) as (E1 & E2 & _);
      exists A, s, z, B;
      assert (El : l = A ++ (s, z) :: B) by (destruct K as (? & ? & ? & ? & ? & ? & ? & ? & _ & _ & _ & _ & _ & _ & _ & _ & _ & _ & Eln); exact Eln);
      pose proof (rep_pos _ _ _ _ _ _ R) as Hp; rewrite El in Hp; apply pos_runs_app in Hp; destruct Hp as [Hp1 Hp2];
      pose proof (pos_runs_nonneg _ Hp1); inversion Hp2 as [|? ? Hz Hp3]; subst; cbn [snd] in Hz;
      pose proof (pos_runs_nonneg _ Hp3);
      autorewrite with rs in *;
      split; [split; auto|]; ix; rewrite E1; cbn [bind]; ix; rewrite E2; cbn [bind];
      do 3 f_equal; f_equal; lia.
    - exfalso. destruct Hc as [-> ->]. cbn [rsum] in *. destruct Hlt as [Hlt | [-> Hlt]]; [lia|].
      inversion H2; subst. autorewrite with rs in Ht. lia.
    - cbn [Rep.childR] in Hc. pose proof (lseg_nonneg _ _ _ _ _ _ H1). pose proof (seg_nonneg _ _ _ _ _ _ H2).
      pose proof (rep_nonneg _ _ _ _ _ _ Hc). autorewrite with rs in *.
      rewrite node_child. ix.
      assert (Hlt' : tau < rsum l1 + rsum lc).
      { destruct Hlt as [|[-> Hlt]]; auto. inversion H2; subst. cbn [rsum] in *. lia. }
      destruct (IH M ch lc (tau - rsum l1) idx (next_hints (CChild (length lft) (inj (rsum l1))) hints) Hc) as (A & s & z & B & [-> Hr] & E1); try lia.
      rewrite E1. exists (l1 ++ A), s, z, (B ++ l2). split.
      + split; [rewrite <- !app_assoc; reflexivity|]. autorewrite with rs. lia.
      + autorewrite with rs. do 3 f_equal; f_equal; lia.
  Qed.

  (** The neighbours of an edge with [e] runs before it. *)
  Definition lhs_ok (T : tree) (a : option handle) (e : nat) : Prop :=
    match a with None => e = O | Some (p, k) => exists r, e = S r /\ rank T p k = Some r end.
  Definition rhs_ok (T : tree) (b : option handle) (e n : nat) : Prop :=
    match b with None => e = n | Some (p, k) => rank T p k = Some e end.

  Definition point_ok (mj : bool) (H : nat) (T : tree) (LL : list run) (tau : Z) (ip : @inspoint I) : Prop :=
    match ip with
    | EdgeInsert p k a b =>
      exists e, erank T p k = Some e /\ length p = H /\ (e <= length LL)%nat /\ rsum (firstn e LL) = tau /\
                (mj = true -> lhs_ok T a e /\ rhs_ok T b e (length LL))
    | SplitKeyInsert p hk k q =>
      exists A s z B zq, LL = A ++ (s, z) :: B /\ rank T p k = Some (length A) /\ hk = (H - length p)%nat /\
        q = inj zq /\ 0 < zq < z /\ rsum A + zq = tau
    end.

  (** An exact hit on a key is turned into the child to its left. *)
  Definition step2_ok (lo h : nat) (t : tree) (l : list run) (tau : Z) (r : cok I) : Prop :=
    (exists k A s z B, r = CKey k (inj (rsum A)) /\ keyat lo h t l k A s z B /\ rsum A < tau < rsum A + z) \/
    (exists lft ch rgt l1 lc l2, r = CChild (length lft) (inj (rsum l1)) /\
       t = node (inj (rsum l)) lft ch rgt /\ (lo <= length lft + length rgt <= 2 * M)%nat /\
       lseg (childR h) 0 lft l1 /\ childR h ch lc /\ seg (childR h) (rsum l1 + rsum lc) rgt l2 /\ l = l1 ++ lc ++ l2 /\
       rsum l1 <= tau <= rsum l1 + rsum lc).

  Lemma norm_ok : forall lo h t l tau r0, step_ok lo h t l tau r0 -> 0 <= tau <= rsum l -> rsum l <= MAX ->
    exists r, match r0 with
      | CKey k kp =>
        if ix_eqb X kp (inj tau) then
          let* cs := child_size_or_zero X h t k in
          let* cp := ix_sub_right X kp cs in
          Ok (CChild k cp)
        else Ok (CKey k kp)
      | CChild c cp => Ok (CChild c cp)
      end = Ok r /\ step2_ok lo h t l tau r.
  Proof.
    intros lo h t l tau r0 S Ht Hml.
    destruct S as [(k & A & s & z & B & -> & K & Hr) | (lft & ch & rgt & l1 & lc & l2 & -> & Et & Hlen & H1 & Hc & H2 & El & Hge & Hlt)].
    - assert (0 <= rsum A) by (destruct K as (? & ? & ? & ? & l1 & lc & ? & ? & _ & _ & _ & H1 & Hc & _ & _ & _ & -> & _);
                           pose proof (lseg_nonneg _ _ _ _ _ _ H1); pose proof (childR_nonneg _ _ _ _ _ Hc); autorewrite with rs; lia).
      rewrite (il_eqb _ _ _ L) by lia. destruct (Z.eqb_spec (rsum A) tau) as [Eq|Ne].
      + destruct K as (lft & ch & ch' & rgt & l1 & lc & lc' & l2 & -> & <- & Hlen & H1 & Hc & Hz & Hc' & H2 & EA & EB & El).
        pose proof (lseg_nonneg _ _ _ _ _ _ H1). pose proof (childR_nonneg _ _ _ _ _ Hc).
        subst A. rewrite rsum_app in *.
        assert (Ecs : child_size_or_zero X h (node (inj (rsum l)) lft ch ((inj (rsum l1 + rsum lc), s, ch') :: rgt)) (length lft) = Ok (inj (rsum lc))).
        { unfold child_size_or_zero, child_size. destruct h as [|h].
          - destruct Hc as [_ ->]. rewrite (il_zero _ _ _ L). reflexivity.
          - rewrite node_child. cbn [bind]. apply (rep_size _ _ _ _ _ _ Hc). }
        rewrite Ecs. cbn [bind]. ix.
        eexists; split; [reflexivity|]. right.
        exists lft, ch, ((inj (rsum l1 + rsum lc), s, ch') :: rgt), l1, lc, ((s, z) :: lc' ++ l2). cbn [length].
        split; [f_equal; f_equal; lia|]. split; [auto|]. split; [lia|]. split; auto. split; auto. split; [|split].
        * constructor; auto.
        * rewrite El, EB, <- app_assoc. reflexivity.
        * lia.
      + eexists; split; [reflexivity|]. left. exists k, A, s, z, B. repeat split; auto; lia.
    - eexists; split; [reflexivity|]. right. exists lft, ch, rgt, l1, lc, l2. repeat split; auto; lia.
  Qed.

  Lemma find_ok : forall (Y : slice_ops I V) h H T LL p lo t l la lb tau hints a b,
    focus 1 H T LL p lo h t l la lb -> 0 <= tau <= rsum l -> rsum LL <= MAX ->
    (sl_may_join Y = true -> lhs_ok T a (length la) /\ rhs_ok T b (length la + length l)%nat (length LL)) ->
    exists ip, find_insertion_point X Y h t hints (inj tau) p a b = Ok ip /\
      point_ok (sl_may_join Y) H T LL (rsum la + tau) ip.
  Proof.
    intros Y. induction h as [|h IH]; intros H T LL p lo t l la lb tau hints a b F Ht Hm Hab.
    all: destruct (focus_facts inj M HM _ _ _ _ _ _ _ _ _ _ _ F) as (RT & R & ELL & EH & En).
    all: destruct (focus_rank inj M HM _ _ _ _ _ _ _ _ _ _ _ F) as [FR FE].
    all: assert (Hml : 0 <= rsum la /\ 0 <= rsum lb /\ rsum l <= MAX)
      by (pose proof RT as RT'; rewrite ELL in RT'; destruct (rep_part inj M _ _ _ _ _ _ RT') as (? & ? & ?);
          rewrite ELL in Hm; autorewrite with rs in Hm; lia).
    all: destruct Hml as (Hla & Hlb & Hml).
    all: destruct (search_step_ok lo _ t l tau (hd_error hints) R) as (r0 & E & S); [lia|auto|].
    all: cbn [find_insertion_point]; rewrite E; cbn [bind].
    all: destruct (norm_ok lo _ t l tau r0 S Ht Hml) as (r & Er & Hs); rewrite Er; cbn [bind]; clear S Er E.
    all: destruct Hs as [(k & A & s & z & B & -> & K & Hr) | (lft & ch & rgt & l1 & lc & l2 & -> & -> & Hlen & H1 & Hc & H2 & -> & Hr)].
    1, 3: assert (El : l = A ++ (s, z) :: B) by (destruct K as (? & ? & ? & ? & ? & ? & ? & ? & _ & _ & _ & _ & _ & _ & _ & _ & _ & _ & Eln); exact Eln);
      assert (Hk : rank T p k = Some (length (la ++ A)))
        by (specialize (FR [] k); rewrite app_nil_r in FR; rewrite FR, (keyat_rank inj M _ _ _ _ _ _ _ _ _ K); cbn [option_map]; f_equal; rewrite app_length; lia);
      assert (0 <= rsum A) by (pose proof (rep_pos _ _ _ _ _ _ R) as Hp; rewrite El in Hp; apply pos_runs_app in Hp; destruct Hp as [Hp _]; apply pos_runs_nonneg; auto);
      ix; eexists; split; [reflexivity|];
      exists (la ++ A), s, z, (B ++ lb), (tau - rsum A); rewrite ELL, El, rsum_app;
      repeat split; try lia; try assumption; rewrite <- !app_assoc; reflexivity.
    all: pose proof (lseg_nonneg _ _ _ _ _ _ H1); pose proof (seg_nonneg _ _ _ _ _ _ H2); pose proof (childR_nonneg _ _ _ _ _ Hc).
    all: match type of Hc with Rep.childR _ _ ?hh _ _ => 
           pose proof (lseg_count inj _ _ _ _ (childR_count inj M hh) H1) as C1; pose proof (childR_count inj M hh _ _ Hc) as C2 end.
    all: match goal with |- context [find_insertion_point _ _ _ _ _ _ _ ?a1 ?b1] => set (a' := a1); set (b' := b1)
                       | |- context [EdgeInsert _ _ ?a1 ?b1] => set (a' := a1); set (b' := b1) end.
    all: assert (Hab' : sl_may_join Y = true -> lhs_ok T a' (length (la ++ l1)) /\ rhs_ok T b' (length (la ++ l1) + length lc)%nat (length LL)).
    1, 3: intros Emj; specialize (Hab Emj); destruct Hab as [Ha Hb]; unfold a', b'; rewrite Emj; split;
      [ destruct lft as [|x lft0 _] using rev_ind;
        [ cbn [length]; inversion H1; subst l1; rewrite app_nil_r; exact Ha
        | rewrite app_length; cbn [length]; rewrite Nat.add_1_r; exists (length la + lcount lft0 + count (fst x))%nat; split;
          [ rewrite app_length, <- C1, lcount_app; destruct x as [xt xk]; cbn [lcount fst]; lia
          | specialize (FR [] (length lft0)); rewrite app_nil_r in FR; rewrite FR; destruct x as [xt xk];
            rewrite node_snoc, rank_here; cbn [option_map fst]; f_equal; lia ] ]
      | rewrite node_tlen; destruct rgt as [|e rgt];
        [ cbn [length]; destruct (Nat.ltb_spec (length lft) (length lft + 0)); [lia|]; inversion H2; subst l2;
          rewrite !app_length in *; cbn [length] in *; replace (length la + length l1 + length lc)%nat with (length la + (length l1 + (length lc + 0)))%nat by lia; exact Hb
        | cbn [length]; destruct (Nat.ltb_spec (length lft) (length lft + S (length rgt))); [|lia];
          specialize (FR [] (length lft)); rewrite app_nil_r in FR; unfold rhs_ok; rewrite FR, rank_here; cbn [option_map]; f_equal; rewrite app_length; lia ] ].
    - (* leaf *)
      destruct Hc as [-> ->]. cbn [length rsum app] in *.
      eexists. split; [reflexivity|]. exists (length (la ++ l1)).
      specialize (FE [] (length lft)). rewrite app_nil_r in FE.
      split; [rewrite FE, erank_here; cbn [option_map]; f_equal; rewrite app_length; lia|].
      split; [lia|]. rewrite ELL. split; [rewrite !app_length; lia|].
      split; [|rewrite <- ELL; intros Emj; specialize (Hab' Emj); rewrite Nat.add_0_r in Hab'; exact Hab'].
      replace (la ++ (l1 ++ l2) ++ lb) with ((la ++ l1) ++ l2 ++ lb) by (rewrite <- !app_assoc; reflexivity).
      rewrite firstn_app_len, rsum_app. lia.
    - (* internal *)
      ix. rewrite node_child. cbn [bind].
      destruct (IH H T LL (p ++ [length lft]) M ch lc (la ++ l1) (l2 ++ lb) (tau - rsum l1)
                   (next_hints (CChild (length lft) (inj (rsum l1))) hints) a' b') as (ip & E1 & P1); auto.
      + apply (focus_trans inj M _ _ _ _ _ _ _ _ _ _ _ F).
        pose proof (f_down inj M lo h lft ch rgt l1 lc l2 [] M h ch lc [] [] Hlen H1 H2 (f_here inj M _ _ _ _ Hc)) as Q.
        rewrite app_nil_r in Q. exact Q.
      + lia.
      + exists ip. split; auto. rewrite rsum_app in P1. replace (rsum la + tau) with (rsum la + rsum l1 + (tau - rsum l1)) by lia. exact P1.
  Qed.
End Find.
