(** Insertion into shared trees: both sides of the search, of the way up, and of a whole call.  Proof support
    only. *)
From Coq Require Import List Bool Arith Lia.
From Verif Require Import Base Index Slice Tree Insert Zip Path LTree LInsert LShape LRef LCow LCowG LCowP.
Import ListNotations.

Section Q.
  Context {I V : Type} (M : nat) (others : list addr) (C0 : nat -> tree I V -> ltree -> Prop) (L0 : list (addr * nat)).
  Notation tree := (tree I V).
  Notation own := (own others C0).
  Notation J := (J others C0).
  Notation KR := (KR others C0).
  Notation Lg := (Lg L0).
  Notation sok := (sok others).
  Hypothesis C0_open : forall h t lt, C0 h t lt -> exists a par rs ks, lt = LNode a par rs ks /\ In a others /\ In (a, h) L0 /\
    par_ok L0 h par /\ S (length rs) = length (kids_of t) /\ Forall2 (CK C0 h) (kids_of t) ks.

  Definition gR (L : list (addr * nat)) (h : nat) (par : option loc) (g : gst tree) (cs : cupstate) : Prop :=
    match g, cs with
    | GDone K, CDone n => own L h K n par
    | GBub Kl Kr, CBubble l r => own L h Kl l par /\ own L h Kr r None
    | _, _ => False
    end.
  Definition ccnt (x : addr) (cs : cupstate) : nat := match cs with CDone n => cnt x n | CBubble l r => cnt x l + cnt x r end.

  Lemma own_len : forall L h K lt par, own L h K lt par -> l_len lt = length K - 1 /\ 1 <= length K.
  Proof. intros L h K lt par (a & rs & ks & -> & _ & _ & _ & H & _). unfold l_len. cbn [l_refs]. lia. Qed.
  Lemma own_KP : forall L h t lt par, own L h (kids_of t) lt par -> KP others C0 L (S h) t lt.
  Proof. intros. right. eauto. Qed.

  Ltac mono := match goal with |- LCowP.own _ _ (Lg ?s') _ _ _ _ => eapply own_mono; [apply (ext_incl L0); eassumption|eassumption] end.

  Lemma bubble_ok : forall s h K lt par c rhs lrhs rp g, sok s -> own (Lg s) (S h) K lt par -> own (Lg s) h (kids_of rhs) lrhs rp ->
    g_bubble M K c rhs = Some g ->
    exists cs s', c_bubble_step M others (S h) lt c lrhs s = Ok (cs, s') /\ gR (Lg s') (S h) par g cs /\ sok s' /\ ext s s' /\
      forall x, ccnt x cs + fc x s = cnt x lt + cnt x lrhs + fc x s'.
  Proof.
    intros s h K lt par c rhs lrhs rp g Hs Ho Hr Hg. unfold g_bubble in Hg. unfold c_bubble_step.
    rewrite (proj1 (own_len _ _ _ _ _ Ho)). destruct (length K - 1 <? 2 * M).
    - destruct (g_ins M c rhs K) as [K'|] eqn:G; [|discriminate]. injection Hg as <-.
      destruct (insert_ok M others C0 L0 C0_open s (S h) K lt par c rhs lrhs K' Hs Ho (own_KP _ _ _ _ _ Hr) G) as (lt' & s1 & E1 & O1 & S1 & X1 & N1).
      rewrite (cbind_ok _ _ _ _ _ E1). eexists _, s1. split; [reflexivity|]. split; [exact O1|]. split; [exact S1|]. split; [exact X1|]. exact N1.
    - destruct (g_split (if M <? c then M else M - 1) K) as [[Kl Kr]|] eqn:G; [|discriminate]. cbn [ob] in Hg.
      destruct (split_ok others C0 L0 C0_open s (S h) K lt par _ Kl Kr Hs Ho G) as (n & r & s1 & E1 & O1 & O1r & S1 & X1 & N1).
      rewrite (cbind_ok _ _ _ _ _ E1). assert (Hr1 : own (Lg s1) h (kids_of rhs) lrhs rp) by mono.
      destruct (negb (c =? M)).
      + destruct (M <? c).
        * destruct (g_ins M (c - (M + 1)) rhs Kr) as [K'|] eqn:G2; [|discriminate]. injection Hg as <-.
          destruct (insert_ok M others C0 L0 C0_open s1 (S h) Kr r None _ rhs lrhs K' S1 O1r (own_KP _ _ _ _ _ Hr1) G2) as (lt' & s2 & E2 & O2 & S2 & X2 & N2).
          rewrite (cbind_ok _ _ _ _ _ E2). eexists _, s2. split; [reflexivity|]. split; [split; [mono|exact O2]|]. split; [exact S2|].
          split; [eapply ext_trans; eassumption|]. intros x. specialize (N1 x). specialize (N2 x). cbn [ccnt]. lia.
        * destruct (g_ins M c rhs Kl) as [K'|] eqn:G2; [|discriminate]. injection Hg as <-.
          destruct (insert_ok M others C0 L0 C0_open s1 (S h) Kl n par _ rhs lrhs K' S1 O1 (own_KP _ _ _ _ _ Hr1) G2) as (lt' & s2 & E2 & O2 & S2 & X2 & N2).
          rewrite (cbind_ok _ _ _ _ _ E2). eexists _, s2. split; [reflexivity|]. split; [split; [exact O2|mono]|]. split; [exact S2|].
          split; [eapply ext_trans; eassumption|]. intros x. specialize (N1 x). specialize (N2 x). cbn [ccnt]. lia.
      + destruct Kr as [|c0 Kr]; [discriminate|]. destruct (g_push M c0 Kl) as [Kl'|] eqn:G2; [|discriminate]. injection Hg as <-.
        destruct (replace_first_ok others C0 L0 s1 h c0 Kr r rhs lrhs None rp S1 O1r Hr1) as (r' & lc0 & s2 & E2 & O2 & K2 & S2 & X2 & N2).
        rewrite (cbind_ok _ _ _ _ _ E2). assert (O1' : own (Lg s2) (S h) Kl n par) by mono.
        destruct (push_child_ok M others C0 L0 C0_open s2 (S h) Kl n par c0 lc0 Kl' S2 O1' (KR_KP _ _ _ _ _ _ K2) G2) as (l' & s3 & E3 & O3 & S3 & X3 & N3).
        rewrite (cbind_ok _ _ _ _ _ E3). eexists _, s3. split; [reflexivity|]. split; [split; [exact O3|mono]|]. split; [exact S3|].
        split; [eapply ext_trans; [|eassumption]; eapply ext_trans; eassumption|]. intros x. specialize (N1 x). specialize (N2 x). specialize (N3 x). cbn [ccnt]. lia.
  Qed.

  Lemma ins2_ok : forall s K lt par two k K', sok s -> own (Lg s) 0 K lt par -> g_ins2 Nil M two k K = Some K' ->
    exists l1 s1 l2 s2, c_insert_key M lt k s = Ok (l1, s1) /\ (if two then c_insert_key M l1 (k + 1) else cret l1) s1 = Ok (l2, s2) /\
      own (Lg s2) 0 K' l2 par /\ sok s2 /\ ext s s2 /\ forall x, cnt x l2 + fc x s = cnt x lt + fc x s2.
  Proof.
    intros s K lt par two k K' Hs Ho Hg. unfold g_ins2 in Hg. destruct (g_ins M k Nil K) as [K1|] eqn:G1; [|discriminate]. cbn [ob] in Hg.
    destruct (insert_key_ok M others C0 L0 s K lt par k K1 Hs Ho G1) as (l1 & s1 & E1 & O1 & S1 & X1 & N1). exists l1, s1.
    destruct two.
    - destruct (insert_key_ok M others C0 L0 s1 K1 l1 par (k + 1) K' S1 O1 Hg) as (l2 & s2 & E2 & O2 & S2 & X2 & N2).
      exists l2, s2. split; [exact E1|]. split; [exact E2|]. split; [exact O2|]. split; [exact S2|]. split; [eapply ext_trans; eassumption|].
      intros x. specialize (N1 x). specialize (N2 x). lia.
    - injection Hg as <-. exists l1, s1. split; [exact E1|]. split; [reflexivity|]. split; [exact O1|]. split; [exact S1|]. split; [exact X1|]. exact N1.
  Qed.

  Lemma leaf_ok : forall s K lt par k two g, sok s -> own (Lg s) 0 K lt par -> g_leaf Nil M k two K = Some g ->
    exists cs s', c_no_join_leaf M others k two lt s = Ok (cs, s') /\ gR (Lg s') 0 par g cs /\ sok s' /\ ext s s' /\
      forall x, ccnt x cs + fc x s = cnt x lt + fc x s'.
  Proof.
    intros s K lt par k two g Hs Ho Hg. unfold g_leaf in Hg. unfold c_no_join_leaf. rewrite (proj1 (own_len _ _ _ _ _ Ho)).
    destruct (length K - 1 <? k); [discriminate|].
    destruct (2 * M - (if two then 1 else 0) <=? length K - 1).
    - unfold c_split_leaf. rewrite (proj1 (own_len _ _ _ _ _ Ho)). destruct ((M =? 1) && (length K - 1 =? 1)) eqn:GM.
      + destruct two; [|discriminate]. destruct (g_split 0 K) as [[Kl Kr]|] eqn:G; [|discriminate]. cbn [ob] in Hg.
        destruct (1 <? k) eqn:G1k; [discriminate|].
        destruct (g_push M Nil Kl) as [Kl'|] eqn:Gl; [|discriminate]. cbn [ob] in Hg.
        destruct (g_push M Nil Kr) as [Kr'|] eqn:Gr; [|discriminate]. injection Hg as <-.
        unfold c_split_leaf_small_m. rewrite (proj1 (own_len _ _ _ _ _ Ho)), G1k. apply andb_prop in GM. destruct GM as [Ga Gb]. rewrite Ga, Gb. cbn [negb orb].
        destruct (split_ok others C0 L0 C0_open s 0 K lt par 0 Kl Kr Hs Ho G) as (n & r & s1 & E1 & O1 & O1r & S1 & X1 & N1).
        rewrite (cbind_ok _ _ _ _ _ E1).
        destruct (push_key_ok M others C0 L0 s1 Kl n par Kl' S1 O1 Gl) as (n' & s2 & E2 & O2 & S2 & X2 & N2). rewrite (cbind_ok _ _ _ _ _ E2).
        assert (O1r' : own (Lg s2) 0 Kr r None) by mono.
        destruct (push_key_ok M others C0 L0 s2 Kr r None Kr' S2 O1r' Gr) as (r' & s3 & E3 & O3 & S3 & X3 & N3). rewrite (cbind_ok _ _ _ _ _ E3).
        eexists _, s3. split; [reflexivity|]. split; [split; [mono|exact O3]|]. split; [exact S3|].
        split; [eapply ext_trans; [|eassumption]; eapply ext_trans; eassumption|]. intros x. specialize (N1 x). specialize (N2 x). specialize (N3 x). cbn [ccnt]. lia.
      + destruct (choose_split M k (length K - 1) two) as [m ins]. destruct (g_split m K) as [[Kl Kr]|] eqn:G; [|discriminate]. cbn [ob] in Hg.
        destruct (split_ok others C0 L0 C0_open s 0 K lt par m Kl Kr Hs Ho G) as (n & r & s1 & E1 & O1 & O1r & S1 & X1 & N1).
        rewrite (cbind_ok _ _ _ _ _ E1).
        destruct ins as [[|]|[|]].
        * destruct (g_ins2 Nil M two k Kl) as [Kl'|] eqn:Gl; [|discriminate]. injection Hg as <-.
          destruct (ins2_ok s1 Kl n par two k Kl' S1 O1 Gl) as (l1 & s2 & l2 & s3 & E2 & E3 & O3 & S3 & X3 & N3).
          rewrite (cbind_ok _ _ _ _ _ E2), (cbind_ok _ _ _ _ _ E3). eexists _, s3. split; [reflexivity|]. split; [split; [exact O3|mono]|]. split; [exact S3|].
          split; [eapply ext_trans; eassumption|]. intros x. specialize (N1 x). specialize (N3 x). cbn [ccnt]. lia.
        * destruct (g_ins2 Nil M two (k - (m + 1)) Kr) as [Kr'|] eqn:Gr; [|discriminate]. injection Hg as <-.
          destruct (ins2_ok s1 Kr r None two _ Kr' S1 O1r Gr) as (l1 & s2 & l2 & s3 & E2 & E3 & O3 & S3 & X3 & N3).
          cbv zeta. rewrite (cbind_ok _ _ _ _ _ E2), (cbind_ok _ _ _ _ _ E3). eexists _, s3. split; [reflexivity|]. split; [split; [mono|exact O3]|]. split; [exact S3|].
          split; [eapply ext_trans; eassumption|]. intros x. specialize (N1 x). specialize (N3 x). cbn [ccnt]. lia.
        * destruct two; [|discriminate].
          destruct (g_push M Nil Kl) as [Kl'|] eqn:Gl; [|discriminate]. cbn [ob] in Hg.
          destruct (g_push M Nil Kl') as [Kl''|] eqn:Gl2; [|discriminate]. injection Hg as <-.
          destruct (push_key_ok M others C0 L0 s1 Kl n par Kl' S1 O1 Gl) as (n' & s2 & E2 & O2 & S2 & X2 & N2). rewrite (cbind_ok _ _ _ _ _ E2).
          destruct (push_key_ok M others C0 L0 s2 Kl' n' par Kl'' S2 O2 Gl2) as (n'' & s3 & E3 & O3 & S3 & X3 & N3). rewrite (cbind_ok _ _ _ _ _ E3).
          eexists _, s3. split; [reflexivity|]. assert (X13 : ext s1 s3) by (eapply ext_trans; eassumption). split; [split; [exact O3|mono]|]. split; [exact S3|].
          split; [eapply ext_trans; eassumption|]. intros x. specialize (N1 x). specialize (N2 x). specialize (N3 x). cbn [ccnt]. lia.
        * destruct (g_push M Nil Kl) as [Kl'|] eqn:Gl; [|discriminate]. cbn [ob] in Hg.
          destruct (push_key_ok M others C0 L0 s1 Kl n par Kl' S1 O1 Gl) as (n' & s2 & E2 & O2 & S2 & X2 & N2). rewrite (cbind_ok _ _ _ _ _ E2).
          assert (O1r' : own (Lg s2) 0 Kr r None) by mono.
          destruct two.
          -- destruct (g_ins M 0 Nil Kr) as [Kr'|] eqn:Gr; [|discriminate]. injection Hg as <-.
             destruct (insert_key_ok M others C0 L0 s2 Kr r None 0 Kr' S2 O1r' Gr) as (r' & s3 & E3 & O3 & S3 & X3 & N3). rewrite (cbind_ok _ _ _ _ _ E3).
             eexists _, s3. split; [reflexivity|]. split; [split; [mono|exact O3]|]. split; [exact S3|].
             split; [eapply ext_trans; [|eassumption]; eapply ext_trans; eassumption|]. intros x. specialize (N1 x). specialize (N2 x). specialize (N3 x). cbn [ccnt]. lia.
          -- injection Hg as <-. rewrite (cbind_ok (cret r) _ s2 r s2 eq_refl). eexists _, s2. split; [reflexivity|]. split; [split; [exact O2|exact O1r']|]. split; [exact S2|].
             split; [eapply ext_trans; eassumption|]. intros x. specialize (N1 x). specialize (N2 x). cbn [ccnt]. lia.
    - destruct (g_ins2 Nil M two k K) as [K'|] eqn:Gl; [|discriminate]. injection Hg as <-.
      destruct (ins2_ok s K lt par two k K' Hs Ho Gl) as (l1 & s2 & l2 & s3 & E2 & E3 & O3 & S3 & X3 & N3).
      rewrite (cbind_ok _ _ _ _ _ E2), (cbind_ok _ _ _ _ _ E3). eexists _, s3. split; [reflexivity|]. split; [exact O3|]. split; [exact S3|].
      split; [exact X3|]. exact N3.
  Qed.

  (** ** The path of an insertion *)
  Fixpoint PJ (L : list (addr * nat)) (p : list nat) (h : nat) (par : option loc) (t : tree) (lt : ltree) : Prop :=
    own L h (kids_of t) lt par /\
    match p with
    | [] => True
    | c :: p' => exists h' a q rs ks ch lch, h = S h' /\ lt = LNode a q rs ks /\ nth_error (kids_of t) c = Some ch /\ nth_error ks c = Some lch /\
        PJ L p' h' (Some (a, c)) ch lch
    end.
  Lemma PJ_own : forall L p h par t lt, PJ L p h par t lt -> own L h (kids_of t) lt par.
  Proof. intros L [|c p] h par t lt [H _]; exact H. Qed.
  Lemma PJ_mono : forall L L', incl L L' -> forall p h par t lt, PJ L p h par t lt -> PJ L' p h par t lt.
  Proof.
    intros L L' Hi. induction p as [|c p IH]; intros h par t lt [H1 H2].
    - split; [eapply own_mono; eauto|exact Logic.I].
    - split; [eapply own_mono; eauto|]. destruct H2 as (h' & a & q & rs & ks & ch & lch & H2). exists h', a, q, rs, ks, ch, lch. intuition.
  Qed.

  Lemma own_set_child : forall L h K lt par c ch lch k, own L (S h) K lt par -> nth_error K c = Some k -> own L h (kids_of ch) lch (Some (fst (match lt with LNode a _ _ _ => (a, c) | LNil => (0, c) end), c)) ->
    forall s, exists lk, nth_error (l_kids lt) c = Some lk /\ exists lt', c_set_child lt c lch s = Ok (lt', s) /\ own L (S h) (replace_at c ch K) lt' par /\
      forall x, cnt x lt' + cnt x lk = cnt x lt + cnt x lch.
  Proof.
    intros L h K lt par c ch lch k (a & rs & ks & -> & H1 & H2 & H3 & H4 & H5) Hk Hc s. cbn [fst] in Hc.
    destruct (f2_nth _ _ _ _ _ H5 Hk) as (lk & Hlk & _). exists lk. split; [exact Hlk|].
    cbn [c_set_child]. assert (c < length ks) by (apply nth_error_Some; congruence). rewrite (proj2 (Nat.ltb_lt _ _)) by assumption.
    eexists. split; [reflexivity|]. split.
    - exists a, rs, (replace_at c lch ks). repeat split; auto; [rewrite Zip.replace_at_length; exact H4|].
      apply f2_replace; [exact H5|]. eapply own_KR. exact Hc.
    - intros x. rewrite !cnt_node. pose proof (cntl_replace x c lk ks lch Hlk). lia.
  Qed.

  Section Up.
    Context (X : index_ops I) (f : tree -> res (@upstate I V)) (cf : ltree -> cm cupstate) (D : bool).

    Lemma up_ok : forall s h t lt par c here st st' cs, sok s -> own (Lg s) (S h) (kids_of t) lt par ->
      (exists k, nth_error (kids_of t) c = Some k) ->
      gR (Lg s) h (match lt with LNode a _ _ _ => Some (a, c) | LNil => None end) (kst st) cs ->
      up_step X M t c here st = Ok st' ->
      exists lk cs' s', nth_error (l_kids lt) c = Some lk /\ c_up_step M others (S h) lt c cs s = Ok (cs', s') /\ gR (Lg s') (S h) par (kst st') cs' /\ sok s' /\ ext s s' /\
        forall x, ccnt x cs' + cnt x lk + fc x s = cnt x lt + ccnt x cs + fc x s'.
    Proof.
      intros s h t lt par c here st st' cs Hs Ho (k & Hk) Hst Hu. pose proof Ho as (a & rs & ks & -> & Ha & _).
      unfold c_up_step. rewrite (cbind_ok (c_addr (LNode a par rs ks)) _ s a s eq_refl).
      destruct st as [n o nw cur|b]; destruct cs as [ln|ll lr]; cbn [kst gR] in Hst; try contradiction; cbn [up_step] in Hu.
      - destruct (set_child t c n) as [t1| |] eqn:Es; cbn [bind] in Hu; try discriminate.
        apply child_step_kids in Hu. rewrite Hu. apply set_child_kids in Es. destruct Es as [Es _].
        assert (Ep : c_into_parent ln a c s = Ok (tt, s)).
        { unfold c_into_parent. destruct Hst as (? & ? & ? & -> & _). cbn [l_par]. unfold loc_eqb. cbn [fst snd]. rewrite !Nat.eqb_refl. reflexivity. }
        rewrite (cbind_ok _ _ _ _ _ Ep).
        destruct (touch_ok others a s Hs Ha) as (s1 & E1 & S1 & X1 & G1). rewrite (cbind_ok _ _ _ _ _ E1).
        destruct (own_set_child (Lg s) h (kids_of t) (LNode a par rs ks) par c n ln k Ho Hk Hst s1) as (lk & Hlk & lt' & E2 & O2 & N2).
        rewrite (cbind_ok _ _ _ _ _ E2). exists lk. eexists _, s1. split; [exact Hlk|]. split; [reflexivity|].
        split; [cbn [gR]; rewrite Es, (Lg_same L0 _ _ G1); exact O2|]. split; [exact S1|]. split; [exact X1|]. intros x. specialize (N2 x). rewrite (fc_same x _ _ G1). cbn [ccnt]. lia.
      - destruct (set_child t c (b_lhs b)) as [t1| |] eqn:Es; cbn [bind] in Hu; try discriminate.
        destruct (bubble_step X M t1 c here b) as [st1| |] eqn:Eb; cbn [bind] in Hu; try discriminate. injection Hu as <-. rewrite remap_kids.
        apply set_child_kids in Es. destruct Es as [Es _]. apply bubble_step_kids in Eb. rewrite Es in Eb. destruct Hst as [Hl Hr].
        assert (Ep : c_into_parent ll a c s = Ok (tt, s)).
        { unfold c_into_parent. destruct Hl as (? & ? & ? & -> & _). cbn [l_par]. unfold loc_eqb. cbn [fst snd]. rewrite !Nat.eqb_refl. reflexivity. }
        rewrite (cbind_ok _ _ _ _ _ Ep).
        destruct (own_set_child (Lg s) h (kids_of t) (LNode a par rs ks) par c (b_lhs b) ll k Ho Hk Hl s) as (lk & Hlk & lt' & E2 & O2 & N2).
        rewrite (cbind_ok _ _ _ _ _ E2).
        destruct (bubble_ok s h _ lt' par c (b_rhs b) lr None _ Hs O2 Hr Eb) as (cs' & s1 & E3 & R3 & S3 & X3 & N3).
        exists lk, cs', s1. split; [exact Hlk|]. split; [exact E3|]. split; [exact R3|]. split; [exact S3|]. split; [exact X3|].
        intros x. specialize (N2 x). specialize (N3 x). cbn [ccnt]. lia.
    Qed.

    Hypothesis f_ok : forall s h t lt par st, sok s -> own (Lg s) h (kids_of t) lt par -> f t = Ok st ->
      (h = 0 \/ D = true) ->
      exists cs s', cf lt s = Ok (cs, s') /\ gR (Lg s') h par (kst st) cs /\ sok s' /\ ext s s' /\ forall x, ccnt x cs + fc x s = cnt x lt + fc x s'.

    (** The path ends at a leaf, or ([D]) [f] works at any height. *)
    Lemma upd_ok : forall p s h par t lt lhs st, sok s -> PJ (Lg s) p h par t lt -> upd X M f lhs t p = Ok st ->
      (h = length p \/ D = true) ->
      exists cs s', c_upd M others cf h lt p s = Ok (cs, s') /\ gR (Lg s') h par (kst st) cs /\ sok s' /\ ext s s' /\ forall x, ccnt x cs + fc x s = cnt x lt + fc x s'.
    Proof.
      induction p as [|c p IH]; intros s h par t lt lhs st Hs HP Hu Hd; cbn [upd c_upd] in *.
      - eapply f_ok; [exact Hs|exact (proj1 HP)|exact Hu|]. exact Hd.
      - destruct HP as (Ho & h' & a & q & rs & ks & ch & lch & -> & -> & Hk & Hlk & HP).
        rewrite (kids_child _ _ _ Hk) in Hu. cbn [bind] in Hu.
        destruct (match lhs with Some (0, l) => (Some l, None) | Some (S d, l) => (None, Some (d, l)) | None => (None, None) end) as [here below].
        destruct (upd X M f below ch p) as [st1| |] eqn:E1; cbn [bind] in Hu; try discriminate.
        assert (Ec : c_child (LNode a q rs ks) c s = Ok (lch, s)) by (unfold c_child; cbn [l_kids]; rewrite Hlk; reflexivity).
        rewrite (cbind_ok _ _ _ _ _ Ec). cbn [Nat.sub]. rewrite Nat.sub_0_r.
        destruct (IH s h' (Some (a, c)) ch lch below st1 Hs HP E1) as (cs & s1 & E2 & R2 & S2 & X2 & N2); [destruct Hd as [Hd|Hd]; [left; cbn in Hd; lia|right; exact Hd]|].
        rewrite (cbind_ok _ _ _ _ _ E2).
        assert (q = par) by (destruct Ho as (? & ? & ? & Q & _); injection Q as _ Q _ _; exact Q). subst q.
        destruct (up_ok s1 h' t (LNode a par rs ks) par c here st1 st cs S2) as (lk & cs' & s2 & Hlk2 & E3 & R3 & S3 & X3 & N3); [mono|eauto|exact R2|exact Hu|].
        exists cs', s2. split; [exact E3|]. split; [exact R3|]. split; [exact S3|]. split; [eapply ext_trans; eassumption|].
        cbn [l_kids] in Hlk2. rewrite Hlk in Hlk2. injection Hlk2 as <-. intros x. specialize (N2 x). specialize (N3 x). lia.
    Qed.
  End Up.

  (** ** The search *)
  Lemma down_ok : forall p s h par t lt, sok s -> incl L0 (Lg s) -> own (Lg s) h (kids_of t) lt par -> length p <= h -> (exists n, node_at t p = Ok n) ->
    exists lt' s', c_down others h lt p s = Ok (lt', s') /\ PJ (Lg s') p h par t lt' /\ sok s' /\ ext s s' /\
      (forall x, cnt x lt' + fc x s <= cnt x lt + fc x s').
  Proof.
    induction p as [|c p IH]; intros s h par t lt Hs HL Ho Hh (n & Hn); cbn [c_down].
    - exists lt, s. split; [reflexivity|]. split; [split; [exact Ho|exact Logic.I]|]. split; [exact Hs|]. split; [apply ext_refl|]. lia.
    - cbn [length] in Hh. destruct h as [|h]; [lia|]. cbn [node_at] in Hn. destruct (child t c) as [ch| |] eqn:Ec; cbn [bind] in Hn; try discriminate.
      pose proof (child_kids _ _ _ Ec) as Hk. pose proof Ho as (a & rs & ks & -> & Ha & Hl & Hp & Hlen & HF).
      destruct (f2_nth _ _ _ _ _ HF Hk) as (lch & Hlk & [HJ Hpar]).
      rewrite (cbind_ok (c_addr (LNode a par rs ks)) _ s a s eq_refl).
      assert (Eh : c_child (LNode a par rs ks) c s = Ok (lch, s)) by (unfold c_child; cbn [l_kids]; rewrite Hlk; reflexivity).
      rewrite (cbind_ok _ _ _ _ _ Eh). cbn [Nat.sub]. rewrite Nat.sub_0_r.
      destruct (unique_ok others C0 L0 C0_open s h ch lch Hs HL HJ) as (l1 & s1 & E1 & O1 & S1 & X1 & N1). rewrite (cbind_ok _ _ _ _ _ E1).
      destruct (touch_ok others a s1 S1 Ha) as (s2 & E2 & S2 & X2 & G2). rewrite (cbind_ok _ _ _ _ _ E2).
      assert (X02 : ext s s2) by (eapply ext_trans; eassumption). pose proof (ext_incl L0 _ _ X02) as Hi.
      destruct (set_par_ok others C0 L0 s2 h (kids_of ch) l1 (l_par lch) (Some (a, c)) S2) as (l3 & s3 & E3 & O3 & S3 & X3 & G3 & N3).
      { rewrite (Lg_same L0 _ _ G2). exact O1. }
      { intros b i Q. injection Q as <- <-. apply Hi. exact Hl. }
      rewrite (cbind_ok _ _ _ _ _ E3).
      assert (EL3 : Lg s3 = Lg s2) by (apply Lg_same; exact G3).
      destruct (IH s3 h (Some (a, c)) ch l3 S3) as (l4 & s4 & E4 & P4 & S4 & X4 & N4); [rewrite EL3; intros y Hy; apply Hi, HL, Hy|rewrite EL3; exact O3|lia|eauto|].
      rewrite (cbind_ok _ _ _ _ _ E4). assert (X04 : ext s s4) by (eapply ext_trans; [exact X02|]; eapply ext_trans; eassumption).
      destruct (own_set_child (Lg s4) h (kids_of t) (LNode a par rs ks) par c ch l4 ch) with (s := s4) as (lk & Hlk2 & lt' & E5 & O5 & N5); [mono|exact Hk|exact (PJ_own _ _ _ _ _ _ P4)|].
      exists lt', s4. split; [exact E5|]. rewrite (replace_at_same _ _ _ Hk) in O5. split; [|split; [exact S4|split; [exact X04|]]].
      + split; [exact O5|]. pose proof O5 as (a' & rs' & ks' & -> & _).
        cbn [c_set_child] in E5. destruct (c <? length ks) eqn:Gc; [|discriminate]. injection E5 as <- <- <-.
        exists h, a, par, rs, (replace_at c l4 ks), ch, l4. repeat split; auto.
        apply nth_error_split in Hlk. destruct Hlk as (u & v & -> & <-). unfold replace_at. rewrite skipn_app_len, firstn_app_len.
        rewrite nth_error_app2 by lia. rewrite Nat.sub_diag. reflexivity.
      + cbn [l_kids] in Hlk2. rewrite Hlk in Hlk2. injection Hlk2 as <-. intros x. specialize (N1 x). specialize (N3 x). specialize (N4 x). specialize (N5 x).
        pose proof (fc_same x _ _ G2). pose proof (fc_same x _ _ G3). lia.
  Qed.

  Lemma find_ok : forall p s h t lt, sok s -> incl L0 (Lg s) -> J (Lg s) h t lt -> length p <= h -> (exists n, node_at t p = Ok n) ->
    exists lt' s', c_find others h lt p s = Ok (lt', s') /\ PJ (Lg s') p h None t lt' /\ sok s' /\ ext s s' /\
      (forall x, cnt x lt' + fc x s <= cnt x lt + fc x s').
  Proof.
    intros p s h t lt Hs HL HJ Hh Hn. unfold c_find.
    destruct (unique_ok others C0 L0 C0_open s h t lt Hs HL HJ) as (l1 & s1 & E1 & O1 & S1 & X1 & N1). rewrite (cbind_ok _ _ _ _ _ E1).
    destruct (set_par_ok others C0 L0 s1 h (kids_of t) l1 (l_par lt) None S1 O1) as (l2 & s2 & E2 & O2 & S2 & X2 & G2 & N2); [discriminate|].
    rewrite (cbind_ok _ _ _ _ _ E2). assert (EL2 : Lg s2 = Lg s1) by (apply Lg_same; exact G2).
    destruct (down_ok p s2 h None t l2 S2) as (l3 & s3 & E3 & P3 & S3 & X3 & N3); [rewrite EL2; intros y Hy; apply (ext_incl L0 _ _ X1), HL, Hy|rewrite EL2; exact O2|exact Hh|exact Hn|].
    exists l3, s3. split; [exact E3|]. split; [exact P3|]. split; [exact S3|]. split; [eapply ext_trans; [exact X1|]; eapply ext_trans; eassumption|].
    intros x. specialize (N1 x). specialize (N2 x). specialize (N3 x). pose proof (fc_same x _ _ G2). lia.
  Qed.

  (** Rewriting the slice of a key on the path. *)
  Lemma set_slice_PJ : forall L p q k v h par t lt t', PJ L (p ++ q) h par t lt -> set_slice_at t p k v = Ok t' -> PJ L (p ++ q) h par t' lt.
  Proof.
    intros L. induction p as [|c p IH]; intros q k v h par t lt t' HP Hs; cbn [set_slice_at app] in *.
    - apply set_slice_kids in Hs. destruct q as [|c q]; cbn [PJ] in *; rewrite Hs; exact HP.
    - destruct HP as (Ho & h' & a & pr & rs & ks & ch & lch & -> & -> & Hk & Hlk & HP).
      rewrite (kids_child _ _ _ Hk) in Hs. cbn [bind] in Hs. destruct (set_slice_at ch p k v) as [ch'| |] eqn:E; cbn [bind] in Hs; try discriminate.
      apply set_child_kids in Hs. destruct Hs as [Hs Hc]. pose proof (IH _ _ _ _ _ _ _ _ HP E) as HP'.
      assert (pr = par) by (destruct Ho as (? & ? & ? & Q & _); injection Q as _ Q _ _; exact Q). subst pr.
      split.
      + rewrite Hs. pose proof Ho as (a' & rs' & ks' & Q & Ha & Hl & Hp & Hn & HF). injection Q as <- <- <-.
        exists a, rs, ks. repeat split; auto; [rewrite Zip.replace_at_length; exact Hn|].
        rewrite <- (replace_at_same c lch ks Hlk). apply f2_replace; [exact HF|]. eapply own_KR. exact (PJ_own _ _ _ _ _ _ HP').
      + exists h', a, par, rs, ks, ch', lch. repeat split; auto. rewrite Hs.
        apply nth_error_split in Hk. destruct Hk as (u & w & Ek & <-). rewrite Ek. unfold replace_at. rewrite skipn_app_len, firstn_app_len.
        rewrite nth_error_app2 by lia. rewrite Nat.sub_diag. reflexivity.
  Qed.
  Lemma PJ_prefix : forall L p q h par t lt, PJ L (p ++ q) h par t lt -> PJ L p h par t lt.
  Proof.
    intros L. induction p as [|c p IH]; intros q h par t lt HP; [split; [eapply PJ_own; eassumption|exact Logic.I]|].
    destruct HP as (Ho & h' & a & pr & rs & ks & ch & lch & H1 & H2 & H3 & H4 & H5). split; [exact Ho|]. exists h', a, pr, rs, ks, ch, lch. repeat split; eauto.
  Qed.

  (** ** The end of a call *)
  Lemma finish_ok : forall (X : index_ops I) s h st t h' cur cs, sok s -> gR (Lg s) h None (kst st) cs -> finish_root X h st = Ok (t, h', cur) ->
    exists lt' s', c_finish_root h cs s = Ok (lt', s') /\ own (Lg s') h' (kids_of t) lt' None /\ sok s' /\ ext s s' /\
      forall x, cnt x lt' + fc x s = ccnt x cs + fc x s'.
  Proof.
    intros X s h st t h' cur cs Hs HR Hf. apply finish_kids in Hf. destruct st as [n o w c|b]; destruct cs as [ln|ll lr]; cbn [kst gR] in HR; try contradiction.
    - destruct Hf as [-> ->]. cbn [c_finish_root]. replace (l_par ln) with (@None loc) by (destruct HR as (? & ? & ? & -> & _); reflexivity).
      exists ln, s. split; [reflexivity|]. split; [exact HR|]. split; [exact Hs|]. split; [apply ext_refl|]. reflexivity.
    - destruct Hf as [Ek ->]. destruct HR as [Hl Hr]. cbn [c_finish_root].
      destruct (make_parent_ok others C0 L0 s h (b_lhs b) (b_rhs b) ll lr Hs Hl Hr) as (lt' & s' & E & O & R). rewrite Ek. exists lt', s'. split; [exact E|]. split; [exact O|exact R].
  Qed.
End Q.
