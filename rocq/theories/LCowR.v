(** Insertion into shared trees: the pointer side of a whole call succeeds when the contents side does.
    Proof support only. *)
From Coq Require Import List Bool Arith Lia.
From Verif Require Import Base Index Slice Tree Insert Zip Path LTree LInsert LTreeP LShape LRef LCow LCowG LCowP LCowQ.
Import ListNotations.

Section Contents.
  Context {I V : Type} (X : index_ops I) (Y : slice_ops I V) (M : nat).
  Notation tree := (tree I V).

  Definition pre (a : option handle) (p : list nat) : Prop := match a with None => True | Some x => exists u, p = fst x ++ u end.

  Lemma find_struct : forall h (t : tree) hints tgt path a b ip, find_insertion_point X Y h t hints tgt path a b = Ok ip ->
    pre a path -> pre b path ->
    match ip with
    | EdgeInsert p k l r => exists q, p = path ++ q /\ length q = h /\ (exists n, node_at t q = Ok n) /\ pre l p /\ pre r p
    | SplitKeyInsert p hk k _ => exists q, p = path ++ q /\ length q + hk = h /\ (exists n, node_at t q = Ok n)
    end.
  Proof.
    assert (Pn : forall a p q, pre a p -> pre a (p ++ q)).
    { intros [x|] p q; [|auto]. intros [u ->]. exists (u ++ q). rewrite app_assoc. reflexivity. }
    induction h as [|h IH]; intros t hints tgt path a b ip H Ha Hb; cbn [find_insertion_point] in H.
    all: destruct (search_step X _ t (hd_error hints) tgt) as [r0| |]; cbn [bind] in H; try discriminate.
    all: match type of H with bind ?e _ = _ => destruct e as [r| |]; cbn [bind] in H; try discriminate end.
    all: destruct r as [c cp|k kp]; [|destruct (ix_sub_left X tgt kp); cbn [bind] in H; try discriminate; injection H as <-; exists []; rewrite app_nil_r; cbn [length node_at plus]; split; [reflexivity|]; split; [reflexivity|]; eexists; reflexivity].
    - injection H as <-. exists []. rewrite app_nil_r. cbn [length node_at].
      split; [reflexivity|]. split; [reflexivity|]. split; [eauto|]. destruct (sl_may_join Y); [|auto]. split.
      + destruct c; [exact Ha|]. exists []. cbn. rewrite app_nil_r. reflexivity.
      + destruct (c <? tlen t); [|exact Hb]. exists []. cbn. rewrite app_nil_r. reflexivity.
    - destruct (ix_sub_left X tgt cp) as [t'| |]; cbn [bind] in H; try discriminate.
      destruct (child t c) as [ch| |] eqn:Ec; cbn [bind] in H; try discriminate.
      apply IH in H.
      + destruct ip as [p k l r|p hk k q0].
        * destruct H as (q & -> & Hq & Hn & Hl & Hr). exists (c :: q). rewrite <- app_assoc in *. cbn [length node_at app]. rewrite Ec. cbn [bind].
          repeat split; auto.
        * destruct H as (q & -> & Hq & Hn). exists (c :: q). rewrite <- app_assoc. cbn [length node_at app plus]. rewrite Ec. cbn [bind]. auto.
      + destruct (sl_may_join Y); [|apply Pn; exact Ha]. destruct c; [apply Pn; exact Ha|]. exists [S c]. reflexivity.
      + destruct (sl_may_join Y); [|apply Pn; exact Hb]. destruct (c <? tlen t); [exists [c]; reflexivity|apply Pn; exact Hb].
  Qed.

  Lemma upd_node_at : forall f p lhs (t : tree) st, upd X M f lhs t p = Ok st -> exists n, node_at t p = Ok n.
  Proof.
    induction p as [|c p IH]; intros lhs t st H; cbn [upd node_at] in *; [eauto|].
    destruct (child t c) as [ch| |]; cbn [bind] in *; try discriminate.
    destruct (match lhs with Some (0, l) => (Some l, None) | Some (S d, l) => (None, Some (d, l)) | None => (None, None) end) as [here below].
    destruct (upd X M f below ch p) as [st1| |] eqn:E; cbn [bind] in H; try discriminate. eapply IH. exact E.
  Qed.

  Lemma node_at_cons : forall (t : tree) c q n, node_at t (c :: q) = Ok n <-> exists ch, nth_error (kids_of t) c = Some ch /\ node_at ch q = Ok n.
  Proof.
    intros t c q n. cbn [node_at]. split.
    - destruct (child t c) as [ch| |] eqn:E; cbn [bind]; try discriminate. intros H. exists ch. split; [apply child_kids; exact E|exact H].
    - intros (ch & H1 & H2). rewrite (kids_child _ _ _ H1). exact H2.
  Qed.
  Lemma nth_replace : forall {A} (l : list A) i j x, i < length l -> nth_error (replace_at i x l) j = if i =? j then Some x else nth_error l j.
  Proof.
    intros A l i j x H. destruct (Nat.eqb_spec i j) as [<-|N]; [apply LTreeP.replace_at_nth; exact H|apply LTreeP.replace_at_other; exact N].
  Qed.
  Lemma set_slice_node_at : forall p (t t' : tree) k v, set_slice_at t p k v = Ok t' -> forall q n, node_at t' q = Ok n -> exists n', node_at t q = Ok n'.
  Proof.
    induction p as [|c p IH]; intros t t' k v H q n Hq; cbn [set_slice_at] in H.
    - apply set_slice_kids in H. destruct q as [|d q]; [cbn; eauto|]. apply node_at_cons in Hq. rewrite H in Hq. exists n. apply node_at_cons. exact Hq.
    - destruct (child t c) as [ch| |] eqn:Ec; cbn [bind] in H; try discriminate. apply child_kids in Ec.
      destruct (set_slice_at ch p k v) as [ch'| |] eqn:E; cbn [bind] in H; try discriminate. apply set_child_kids in H. destruct H as [H Hc].
      destruct q as [|d q]; [cbn; eauto|]. apply node_at_cons in Hq. destruct Hq as (e & H1 & H2). rewrite H, nth_replace in H1 by exact Hc.
      destruct (Nat.eqb_spec c d) as [<-|_].
      + injection H1 as <-. destruct (IH _ _ _ _ E _ _ H2) as [n' Hn']. exists n'. apply node_at_cons. eauto.
      + exists n. apply node_at_cons. eauto.
  Qed.

  (** Trees that differ in slices on the path [p] only. *)
  Inductive alike (p : list nat) : tree -> tree -> Prop :=
  | al_refl : forall t, alike p t t
  | al_set : forall t t1 t2 q u k v, alike p t t1 -> p = q ++ u -> set_slice_at t1 q k v = Ok t2 -> alike p t t2.
  Lemma alike_node_at : forall p t t', alike p t t' -> forall q n, node_at t' q = Ok n -> exists n', node_at t q = Ok n'.
  Proof.
    intros p t t' H. induction H as [t|t t1 t2 q u k v H IH -> Hs]; intros q0 n Hn; [eauto|].
    destruct (set_slice_node_at _ _ _ _ _ Hs _ _ Hn) as [n' Hn']. eapply IH. exact Hn'.
  Qed.
  Lemma alike_more : forall p u t t', alike p t t' -> alike (p ++ u) t t'.
  Proof. intros p u t t' H. induction H as [t|t t1 t2 q u0 k v H IH -> Hs]; [constructor|]. eapply al_set; [exact IH| |exact Hs]. rewrite <- app_assoc. reflexivity. Qed.

  (** What an edge insertion does to the contents. *)
  Lemma edge_cases : forall h (t : tree) lhs rhs slice size jr p j, edge_try_join X Y M h t lhs rhs slice size = Ok jr ->
    edge_join Y t lhs rhs slice = Ok j -> pre lhs p -> pre rhs p ->
    match j with
    | Some a => exists t1 old new st t' h' cur, jr = Joined t' h' cur /\ alike p t t1 /\ pre (Some a) p /\
        upd X M (fun n => key_step X n (snd a) None old new []) None t1 (fst a) = Ok st /\ finish_root X h st = Ok (t', h', cur)
    | None => exists t1 s, jr = NotJoined t1 s /\ alike p t t1
    end.
  Proof.
    intros h t lhs rhs slice size jr p j H Hj Hl Hr. unfold edge_try_join in H. unfold edge_join in Hj.
    assert (SJ : forall t1 a old new, single_join X M h t1 a old new = Ok jr -> alike p t t1 -> pre (Some a) p ->
      exists t1 old new st t' h' cur, jr = Joined t' h' cur /\ alike p t t1 /\ pre (Some a) p /\
        upd X M (fun n => key_step X n (snd a) None old new []) None t1 (fst a) = Ok st /\ finish_root X h st = Ok (t', h', cur)).
    { intros t1 a old new HS Ht1 Ha. unfold single_join in HS.
      destruct (upd X M _ None t1 (fst a)) as [st| |] eqn:E; cbn [bind] in HS; try discriminate.
      destruct (finish_root X h st) as [[[t' h'] cur]| |] eqn:E2; cbn [bind] in HS; try discriminate. injection HS as <-.
      exists t1, old, new, st, t', h', cur. auto. }
    destruct (negb (sl_may_join Y)); [injection H as <-; injection Hj as <-; exists t, slice; split; [reflexivity|constructor]|].
    destruct lhs as [la|]; destruct rhs as [ra|]; cbn [bind pre] in *.
    - destruct (handle_size X h t la) as [lz| |]; cbn [bind] in H; try discriminate.
      destruct (handle_size X h t ra) as [rz| |]; cbn [bind] in H; try discriminate.
      destruct (handle_slice t la) as [ls| |]; cbn [bind] in *; try discriminate.
      destruct (sl_try_join Y ls slice) as [mid|[l s]].
      + destruct (ix_add_right X lz size) as [mz| |]; cbn [bind] in H; try discriminate.
        destruct (handle_slice t ra) as [rs| |]; cbn [bind] in *; try discriminate.
        destruct (sl_try_join Y mid rs) as [?|[m r]]; [discriminate|]. injection Hj as <-.
        destruct (set_slice_at t (fst ra) (snd ra) r) as [t1| |] eqn:E1; cbn [bind] in H; try discriminate.
        destruct (set_slice_at t1 (fst la) (snd la) m) as [t2| |] eqn:E2; cbn [bind] in H; try discriminate.
        destruct Hl as [ul Hl]. destruct Hr as [ur Hr].
        eapply SJ; [exact H|eapply al_set; [eapply al_set; [constructor|exact Hr|exact E1]|exact Hl|exact E2]|exists ul; exact Hl].
      + destruct (set_slice_at t (fst la) (snd la) l) as [t1| |] eqn:E1; cbn [bind] in *; try discriminate.
        destruct (handle_slice t1 ra) as [rs| |]; cbn [bind] in *; try discriminate. destruct Hl as [ul Hl]. destruct Hr as [ur Hr].
        destruct (sl_try_join Y s rs) as [new|[s' r]]; injection Hj as <-.
        * destruct (set_slice_at t1 (fst ra) (snd ra) new) as [t2| |] eqn:E2; cbn [bind] in H; try discriminate.
          destruct (ix_add_right X size rz) as [ns| |]; cbn [bind] in H; try discriminate.
          eapply SJ; [exact H|eapply al_set; [eapply al_set; [constructor|exact Hl|exact E1]|exact Hr|exact E2]|exists ur; exact Hr].
        * destruct (set_slice_at t1 (fst ra) (snd ra) r) as [t2| |] eqn:E2; cbn [bind] in H; try discriminate. injection H as <-.
          exists t2, s'. split; [reflexivity|]. eapply al_set; [eapply al_set; [constructor|exact Hl|exact E1]|exact Hr|exact E2].
    - destruct (handle_size X h t la) as [lz| |]; cbn [bind] in H; try discriminate.
      destruct (handle_slice t la) as [ls| |]; cbn [bind] in *; try discriminate. destruct Hl as [ul Hl].
      destruct (sl_try_join Y ls slice) as [new|[l s]]; injection Hj as <-.
      + destruct (set_slice_at t (fst la) (snd la) new) as [t1| |] eqn:E1; cbn [bind] in *; try discriminate.
        destruct (ix_add_right X lz size) as [ns| |]; cbn [bind] in H; try discriminate.
        eapply SJ; [exact H|eapply al_set; [constructor|exact Hl|exact E1]|exists ul; exact Hl].
      + destruct (set_slice_at t (fst la) (snd la) l) as [t1| |] eqn:E1; cbn [bind] in *; try discriminate. injection H as <-.
        exists t1, s. split; [reflexivity|]. eapply al_set; [constructor|exact Hl|exact E1].
    - destruct (handle_size X h t ra) as [rz| |]; cbn [bind] in H; try discriminate.
      destruct (handle_slice t ra) as [rs| |]; cbn [bind] in *; try discriminate. destruct Hr as [ur Hr].
      destruct (sl_try_join Y slice rs) as [new|[s r]]; injection Hj as <-.
      + destruct (set_slice_at t (fst ra) (snd ra) new) as [t1| |] eqn:E1; cbn [bind] in *; try discriminate.
        destruct (ix_add_left X rz size) as [ns| |]; cbn [bind] in H; try discriminate.
        eapply SJ; [exact H|eapply al_set; [constructor|exact Hr|exact E1]|exists ur; exact Hr].
      + destruct (set_slice_at t (fst ra) (snd ra) r) as [t1| |] eqn:E1; cbn [bind] in *; try discriminate. injection H as <-.
        exists t1, s. split; [reflexivity|]. eapply al_set; [constructor|exact Hr|exact E1].
    - discriminate.
  Qed.

  (** [runs_leaf h t p t1 q k two t']: the insertion that gave [t'] (height [h']) ran in the leaf [q] of [t1]. *)
  Definition runs_leaf (h : nat) (t1 : tree) (q : list nat) (k : nat) (two : bool) (t' : tree) (h' : nat) : Prop :=
    exists remap ov fs sn lhs st cur, two = is_some sn /\ upd X M (no_join_leaf X M remap k ov fs sn) lhs t1 q = Ok st /\ finish_root X h st = Ok (t', h', cur).
  Lemma rhs_runs : forall h (t1 : tree) p hk k z rm fs sn t' h' cur, insert_rhs X M h t1 p hk k z rm fs sn = Ok (t', h', cur) ->
    forall q j, rhs_path p hk k = (q, j) -> runs_leaf h t1 q j (is_some sn) t' h'.
  Proof.
    intros h t1 p hk k z rm fs sn t' h' cur H q j Eq. unfold insert_rhs in H.
    destruct (node_at t1 p) as [n| |]; cbn [bind] in H; try discriminate.
    destruct (key_pos n k) as [lp| |]; cbn [bind] in H; try discriminate.
    destruct (slice_size X hk n k) as [os| |]; cbn [bind] in H; try discriminate.
    unfold rhs_path in Eq. destruct hk as [|hc]; injection Eq as <- <-.
    - destruct (upd X M _ None t1 p) as [st| |] eqn:E; cbn [bind] in H; try discriminate. unfold runs_leaf. do 7 eexists. split; [reflexivity|]. split; [exact E|exact H].
    - destruct (upd X M _ _ t1 _) as [st| |] eqn:E; cbn [bind] in H; try discriminate. unfold runs_leaf. do 7 eexists. split; [reflexivity|]. split; [exact E|exact H].
  Qed.

  Lemma split_cases : forall nop h (t : tree) p hk k q slice size t' h' cur ad pl, insert_split_key X Y M nop h t p hk k q slice size = Ok (t', h', cur, ad) ->
    split_plan Y t p hk k q slice = Ok pl ->
    match pl with
    | PJoin p' k' => p' = p /\ k' = k /\ exists t1 old new st cur, alike p t t1 /\
        upd X M (fun n => key_step X n k None old new []) None t1 p = Ok st /\ finish_root X h st = Ok (t', h', cur)
    | PRhs p' hk' k' two _ => p' = p /\ hk' = hk /\ k' = k /\ exists t1, alike p t t1 /\
        forall q j, rhs_path p hk k = (q, j) -> runs_leaf h t1 q j two t' h'
    | _ => False
    end.
  Proof.
    intros nop h t p hk k q slice size t' h' cur ad pl H Hp. unfold insert_split_key in H. unfold split_plan, handle_slice in Hp. cbn [fst snd] in Hp.
    destruct (node_at t p) as [n| |]; cbn [bind] in *; try discriminate.
    destruct (slice_size X hk n k) as [ks| |]; cbn [bind] in H; try discriminate.
    destruct (slice_at n k) as [s0| |]; cbn [bind] in *; try discriminate.
    destruct (sl_split_at Y s0 q) as [lhs rhs].
    destruct (set_slice_at t p k lhs) as [t1| |] eqn:E1; cbn [bind] in H; try discriminate.
    destruct (ix_sub_left X ks q) as [rz| |]; cbn [bind] in H; try discriminate.
    assert (A1 : alike p t t1) by (eapply al_set; [constructor|symmetry; apply app_nil_r|exact E1]).
    assert (RH : forall t2 rm z fs sn, match insert_rhs X M h t2 p hk k z rm fs sn with Ok (a, b, _) => a = t' /\ b = h' | _ => False end ->
      alike p t t2 -> exists t1, alike p t t1 /\ forall q j, rhs_path p hk k = (q, j) -> runs_leaf h t1 q j (is_some sn) t' h').
    { intros t2 rm z fs sn HH Ha. destruct (insert_rhs X M h t2 p hk k z rm fs sn) as [[[a b] c]| |] eqn:E; try contradiction. destruct HH as [-> ->].
      exists t2. split; [exact Ha|]. intros q0 j Eq. exact (rhs_runs _ _ _ _ _ _ _ _ _ _ _ _ E q0 j Eq). }
    Ltac fin RH H t2 := match type of H with bind ?e _ = Ok _ => destruct e as [[[? ?] ?]| |] eqn:?E; cbn [bind] in H; try discriminate; injection H as -> -> _ _ end.
    destruct (negb (sl_may_join Y)).
    - injection Hp as <-. fin RH H t1. repeat split; auto. eapply (RH t1 false q (slice, size) (Some (rhs, rz))); [rewrite E; auto|exact A1].
    - destruct (sl_try_join Y lhs slice) as [mid|[l s]].
      + destruct (ix_add_right X q size) as [mz| |]; cbn [bind] in H; try discriminate.
        destruct (sl_try_join Y mid rhs) as [new|[l r]]; injection Hp as <-.
        * destruct (set_slice_at t1 p k new) as [t2| |] eqn:E2; cbn [bind] in H; try discriminate.
          destruct (ix_add_right X q rz) as [old| |]; cbn [bind] in H; try discriminate.
          destruct (ix_add_right X mz rz) as [nw| |]; cbn [bind] in H; try discriminate.
          destruct (upd X M _ None t2 p) as [st| |] eqn:E3; cbn [bind] in H; try discriminate.
          destruct (finish_root X h st) as [[[a b] c]| |] eqn:E4; cbn [bind] in H; try discriminate. injection H as -> -> _ _.
          repeat split; auto. exists t2, old, nw, st, c. split; [eapply al_set; [exact A1|symmetry; apply app_nil_r|exact E2]|]. auto.
        * destruct (set_slice_at t1 p k l) as [t2| |] eqn:E2; cbn [bind] in H; try discriminate. fin RH H t2. repeat split; auto.
          eapply (RH t2 (negb nop) mz (r, rz) None); [rewrite E; auto|eapply al_set; [exact A1|symmetry; apply app_nil_r|exact E2]].
      + destruct (set_slice_at t1 p k l) as [t2| |] eqn:E2; cbn [bind] in H; try discriminate.
        assert (A2 : alike p t t2) by (eapply al_set; [exact A1|symmetry; apply app_nil_r|exact E2]).
        destruct (sl_try_join Y s rhs) as [new|[m r]]; injection Hp as <-.
        * destruct (ix_add_right X size rz) as [nz| |]; cbn [bind] in H; try discriminate. fin RH H t2. repeat split; auto.
          eapply (RH t2 false q (new, nz) None); [rewrite E; auto|exact A2].
        * fin RH H t2. repeat split; auto. eapply (RH t2 false q (m, size) (Some (r, rz))); [rewrite E; auto|exact A2].
  Qed.

  Lemma rhs_path_ext : forall p hk k, exists u, fst (rhs_path p hk k) = p ++ u /\ length u = hk.
  Proof.
    intros p [|hc] k; cbn [rhs_path fst]; [exists []; rewrite app_nil_r; auto|].
    exists ((k + 1) :: repeat 0 hc). cbn [length]. rewrite repeat_length. auto.
  Qed.
End Contents.

Section R.
  Context {I V : Type} (X : index_ops I) (Y : slice_ops I V) (M : nat) (others : list addr) (C0 : nat -> tree I V -> ltree -> Prop) (L0 : list (addr * nat)).
  Notation tree := (tree I V).
  Notation own := (own others C0).
  Notation J := (J others C0).
  Notation Lg := (Lg L0).
  Notation sok := (sok others).
  Notation PJ := (PJ others C0).
  Hypothesis C0_open : forall h t lt, C0 h t lt -> exists a par rs ks, lt = LNode a par rs ks /\ In a others /\ In (a, h) L0 /\
    par_ok L0 h par /\ S (length rs) = length (kids_of t) /\ Forall2 (CK C0 h) (kids_of t) ks.

  Lemma alike_PJ : forall p t t', alike p t t' -> forall L u h par lt, PJ L (p ++ u) h par t lt -> PJ L (p ++ u) h par t' lt.
  Proof.
    intros p t t' H. induction H as [t|t t1 t2 q u0 k v H IH -> Hs]; intros L u h par lt HP; [exact HP|].
    specialize (IH L u h par lt HP). rewrite <- app_assoc in IH |- *. eapply set_slice_PJ; [exact IH|exact Hs].
  Qed.

  Lemma join_run : forall s p u k h t lt t1 old new st t' h' cur, sok s -> PJ (Lg s) (p ++ u) h None t lt -> alike (p ++ u) t t1 ->
    upd X M (fun n => key_step X n k None old new []) None t1 p = Ok st -> finish_root X h st = Ok (t', h', cur) ->
    exists lt' s', (dc* st := c_upd M others (c_join_key k) h lt p in c_finish_root h st) s = Ok (lt', s') /\ own (Lg s') h' (kids_of t') lt' None /\ sok s' /\ ext s s' /\
      forall x, cnt x lt' + fc x s = cnt x lt + fc x s'.
  Proof.
    intros s p u k h t lt t1 old new st t' h' cur Hs HP Ha Hu Hf.
    pose proof (alike_PJ _ _ _ Ha (Lg s) [] h None lt) as HP1. rewrite app_nil_r in HP1. specialize (HP1 HP). apply PJ_prefix in HP1.
    destruct (upd_ok M others C0 L0 C0_open X (fun n => key_step X n k None old new []) (c_join_key k) true) with (p := p) (s := s) (h := h) (par := @None loc) (t := t1) (lt := lt) (lhs := @None (nat * @lhsinfo I)) (st := st)
      as (cs & s1 & E1 & R1 & S1 & X1 & N1); auto.
    { clear - C0_open. intros s h t lt par st Hs Ho Hk _. pose proof (key_step_kids _ _ _ _ _ _ _ _ Hk) as Ek. pose proof (key_step_len _ _ _ _ _ _ _ Hk) as El.
      rewrite kids_len in El. pose proof Ho as (a & rs & ks & -> & Hna & _ & _ & Hl & _). unfold c_join_key, l_len. cbn [l_refs].
      rewrite (proj2 (Nat.leb_gt _ _)) by lia. rewrite (cbind_ok (c_addr (LNode a par rs ks)) _ s a s eq_refl).
      destruct (touch_ok others a s Hs Hna) as (s1 & E1 & S1 & X1 & G1). rewrite (cbind_ok _ _ _ _ _ E1).
      eexists _, s1. split; [reflexivity|]. rewrite Ek. split; [cbn [gR]; rewrite (Lg_same L0 _ _ G1); exact Ho|]. split; [exact S1|]. split; [exact X1|].
      intros x. cbn [ccnt]. rewrite (fc_same x _ _ G1). reflexivity. }
    destruct (finish_ok others C0 L0 X s1 h st t' h' cur cs S1 R1 Hf) as (lt' & s2 & E2 & O2 & S2 & X2 & N2).
    rewrite (cbind_ok _ _ _ _ _ E1). exists lt', s2. split; [exact E2|]. split; [exact O2|]. split; [exact S2|]. split; [eapply ext_trans; eassumption|].
    intros x. specialize (N1 x). specialize (N2 x). lia.
  Qed.

  Lemma leaf_run : forall s q k two h t lt t1 t' h', sok s -> PJ (Lg s) q h None t lt -> alike q t t1 -> length q = h ->
    runs_leaf X M h t1 q k two t' h' ->
    exists lt' s', (dc* st := c_upd M others (c_no_join_leaf M others k two) h lt q in c_finish_root h st) s = Ok (lt', s') /\ own (Lg s') h' (kids_of t') lt' None /\ sok s' /\ ext s s' /\
      forall x, cnt x lt' + fc x s = cnt x lt + fc x s'.
  Proof.
    intros s q k two h t lt t1 t' h' Hs HP Ha Hq (remap & ov & fs & sn & lhs & st & cur & -> & Hu & Hf).
    pose proof (alike_PJ _ _ _ Ha (Lg s) [] h None lt) as HP1. rewrite app_nil_r in HP1. specialize (HP1 HP).
    destruct (upd_ok M others C0 L0 C0_open X (no_join_leaf X M remap k ov fs sn) (c_no_join_leaf M others k (is_some sn)) false) with (p := q) (s := s) (h := h) (par := @None loc) (t := t1) (lt := lt) (lhs := lhs) (st := st)
      as (cs & s1 & E1 & R1 & S1 & X1 & N1); auto.
    { clear - C0_open. intros s h t lt par st Hs Ho Hk [->|]; [|discriminate]. apply no_join_kids in Hk. eapply leaf_ok; eassumption. }
    destruct (finish_ok others C0 L0 X s1 h st t' h' cur cs S1 R1 Hf) as (lt' & s2 & E2 & O2 & S2 & X2 & N2).
    rewrite (cbind_ok _ _ _ _ _ E1). exists lt', s2. split; [exact E2|]. split; [exact O2|]. split; [exact S2|]. split; [eapply ext_trans; eassumption|].
    intros x. specialize (N1 x). specialize (N2 x). lia.
  Qed.

  Definition JR (L : list (addr * nat)) (r : @rle I V) (lt : ltree) : Prop :=
    match r with None => lt = LNil | Some r => J L (r_height r) (r_node r) lt end.
  Definition rheight (r : @rle I V) : nat := match r with None => 0 | Some r => r_height r end.

  Theorem run_ok : forall s nop r hints idx slice size r' cur pl fp lt, sok s -> JR (Lg s) r lt ->
    insert_with_cursor X Y M nop r hints idx slice size = Ok (r', cur) -> insert_plan X Y r hints idx slice = Ok pl -> find_path X Y r hints idx = Ok fp ->
    exists lt' s' root, c_run_plan M others (rheight r) pl fp lt s = Ok (lt', s') /\ r' = Some root /\
      own (Lg s') (r_height root) (kids_of (r_node root)) lt' None /\ sok s' /\ ext s s' /\
      forall x, cnt x lt' + fc x s <= cnt x lt + fc x s'.
  Proof.
    intros s nop r hints idx slice size r' cur pl fp lt Hs HJ Hi Hp Hfp. unfold insert_with_cursor in Hi.
    destruct (rle_size X r) as [sz| |]; cbn [bind] in Hi; try discriminate. destruct (ix_ltb X sz idx); [discriminate|]. destruct (ix_leb X size (ix_zero X)); [discriminate|].
    assert (HL : incl L0 (Lg s)) by (unfold LCowP.Lg; apply incl_appr, incl_refl).
    destruct r as [r|]; cbn [insert_plan find_path rheight JR] in *.
    - destruct (find_insertion_point X Y (r_height r) (r_node r) hints idx [] None None) as [ip| |] eqn:Ef; cbn [bind] in *; try discriminate.
      apply find_struct in Ef; [|exact Logic.I|exact Logic.I]. injection Hfp as <-.
      destruct ip as [p k lhs rhs|p hk k q].
      + destruct Ef as (q & Eq & Hlen & Hn & Hl & Hr). cbn [app] in Eq. subst q.
        destruct (insert_edge X Y M (r_height r) (r_node r) p k lhs rhs slice size) as [[[[t' h'] c'] ad]| |] eqn:Ei; cbn [bind] in Hi; try discriminate.
        injection Hi as <- _. unfold insert_edge in Ei.
        destruct (node_at (r_node r) p) as [nd| |] eqn:End; cbn [bind] in Ei; try discriminate. destruct (tlen nd <? k); [discriminate|].
        destruct (edge_try_join X Y M (r_height r) (r_node r) lhs rhs slice size) as [jr| |] eqn:Ej; cbn [bind] in Ei; try discriminate.
        destruct (edge_join Y (r_node r) lhs rhs slice) as [j| |] eqn:Eh; cbn [bind] in Hp; try discriminate. injection Hp as <-.
        pose proof (edge_cases _ _ _ _ _ _ _ _ _ _ p _ Ej Eh Hl Hr) as HE.
        destruct (find_ok others C0 L0 C0_open p s (r_height r) (r_node r) lt Hs HL HJ) as (l1 & s1 & E1 & P1 & S1 & X1 & N1); [lia|eauto|].
        destruct j as [a|].
        * destruct HE as (t1 & old & new & st & tt' & hh' & cc & -> & Ha & [u Hu] & Hup & Hfin). injection Ei as <- <- _ _. cbn [c_run_plan].
          rewrite (cbind_ok _ _ _ _ _ E1). rewrite Hu in P1, Ha.
          destruct (join_run s1 (fst a) u (snd a) _ _ _ _ _ _ _ _ _ _ S1 P1 Ha Hup Hfin) as (lt' & s2 & E2 & O2 & S2 & X2 & N2).
          exists lt', s2. eexists. split; [exact E2|]. split; [reflexivity|]. split; [exact O2|]. split; [exact S2|]. split; [eapply ext_trans; eassumption|].
          intros x. specialize (N1 x). specialize (N2 x). lia.
        * destruct HE as (t1 & sl & -> & Ha).
          destruct (upd X M _ None t1 p) as [st| |] eqn:Eu; cbn [bind] in Ei; try discriminate.
          destruct (finish_root X (r_height r) st) as [[[t2 h2] c2]| |] eqn:Eff; cbn [bind] in Ei; try discriminate. injection Ei as <- <- _ _. cbn [c_run_plan].
          rewrite (cbind_ok _ _ _ _ _ E1).
          destruct (leaf_run s1 p k false _ _ _ _ t2 h2 S1 P1 Ha Hlen) as (lt' & s2 & E2 & O2 & S2 & X2 & N2).
          { unfold runs_leaf. do 7 eexists. split; [|split; [exact Eu|exact Eff]]. reflexivity. }
          exists lt', s2. eexists. split; [exact E2|]. split; [reflexivity|]. split; [exact O2|]. split; [exact S2|]. split; [eapply ext_trans; eassumption|].
          intros x. specialize (N1 x). specialize (N2 x). lia.
      + destruct Ef as (q0 & Eq & Hlen & Hn). cbn [app] in Eq. subst q0.
        destruct (insert_split_key X Y M nop (r_height r) (r_node r) p hk k q slice size) as [[[[t' h'] c'] ad]| |] eqn:Ei; cbn [bind] in Hi; try discriminate.
        injection Hi as <- _. pose proof (split_cases _ _ _ _ _ _ _ _ _ _ _ _ _ _ _ _ _ Ei Hp) as HE.
        destruct pl as [|p' k'|p' k'|p' hk' k' two lj]; try contradiction.
        * destruct HE as (-> & -> & t1 & old & new & st & c2 & Ha & Hup & Hfin). cbn [c_run_plan].
          destruct (find_ok others C0 L0 C0_open p s (r_height r) (r_node r) lt Hs HL HJ) as (l1 & s1 & E1 & P1 & S1 & X1 & N1); [lia|eauto|].
          rewrite (cbind_ok _ _ _ _ _ E1). rewrite <- (app_nil_r p) in P1, Ha.
          destruct (join_run s1 p [] k _ _ _ _ _ _ _ _ _ _ S1 P1 Ha Hup Hfin) as (lt' & s2 & E2 & O2 & S2 & X2 & N2).
          exists lt', s2. eexists. split; [exact E2|]. split; [reflexivity|]. split; [exact O2|]. split; [exact S2|]. split; [eapply ext_trans; eassumption|].
          intros x. specialize (N1 x). specialize (N2 x). lia.
        * destruct HE as (-> & -> & -> & t1 & Ha & HR). cbn [c_run_plan]. destruct (rhs_path_ext p hk k) as (u & Hu & Hlu).
          destruct (rhs_path p hk k) as [q1 j] eqn:Eq1. cbn [fst] in Hu. specialize (HR q1 j eq_refl). subst q1.
          assert (Hn1 : exists n, node_at (r_node r) (p ++ u) = Ok n).
          { destruct HR as (? & ? & ? & ? & ? & ? & ? & _ & HR & _). apply upd_node_at in HR. destruct HR as [n' HR]. eapply alike_node_at; eassumption. }
          destruct (find_ok others C0 L0 C0_open (p ++ u) s (r_height r) (r_node r) lt Hs HL HJ) as (l1 & s1 & E1 & P1 & S1 & X1 & N1); [rewrite app_length; lia|exact Hn1|].
          rewrite (cbind_ok _ _ _ _ _ E1).
          destruct (leaf_run s1 (p ++ u) j two _ _ _ _ t' h' S1 P1 (alike_more _ u _ _ Ha)) as (lt' & s2 & E2 & O2 & S2 & X2 & N2); [rewrite app_length; lia|exact HR|].
          exists lt', s2. eexists. split; [exact E2|]. split; [reflexivity|]. split; [exact O2|]. split; [exact S2|]. split; [eapply ext_trans; eassumption|].
          intros x. specialize (N1 x). specialize (N2 x). lia.
    - injection Hp as <-. injection Hfp as <-. subst lt. cbn [c_run_plan].
      destruct (alloc_ok_ others 0 s Hs) as (a & s1 & E1 & S1 & X1 & Ha & G1). rewrite (cbind_ok _ _ _ _ _ E1).
      unfold rle_new in Hi. destruct (ix_leb X size (ix_zero X)); cbn [bind] in Hi; [discriminate|]. injection Hi as <- _.
      eexists _, s1, _. split; [reflexivity|]. split; [reflexivity|]. cbn [r_height r_node kids_of map snd].
      split; [|split; [exact S1|split; [exact X1|]]].
      + exists a, [None], [LNil; LNil]. split; [reflexivity|]. split; [exact Ha|]. split; [unfold LCowP.Lg; rewrite G1; left; reflexivity|].
        split; [discriminate|]. split; [reflexivity|]. repeat constructor.
      + intros x. rewrite (fc_alloc x s s1 a 0 G1), cnt_node. cbn. unfold b1. lia.
  Qed.
End R.
