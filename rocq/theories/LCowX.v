(** Iteration over a tree that shares nodes agrees with iteration over its contents, as long as the
    stored parents of nodes can be told apart by height.  Proof support only. *)
From Coq Require Import List ZArith Lia Bool Arith.
From Verif Require Import Base Index Slice Tree Insert Range Iter LTree LInsert LRef LMemP LLenP LInvP LCow LCowIter LCowP LCowQ LCowR LCowW.
Import ListNotations.

Section Paths.
  Context {I V : Type}.
  Notation tree := (tree I V).

  Lemma at_W : forall Lg p h lt (t : tree) h' n ln, W Lg h t lt -> at_path h lt t p = Some (h', n, ln) ->
    W Lg h' n ln /\ h' + length p = h /\ node_at t p = Ok n /\ (p <> [] -> l_par ln <> None).
  Proof.
    intros Lg. induction p as [|c p IH]; intros h lt t h' n ln HW E; cbn [at_path] in E.
    - destruct lt; [discriminate|]. injection E as <- <- <-. split; [exact HW|]. cbn [length node_at]. split; [lia|]. split; [reflexivity|]. intros []; reflexivity.
    - pose proof HW as Hw. apply W_eq in Hw. destruct Hw as (a & par & rs & ks & -> & _ & _ & _ & H5). cbn [l_kids] in E.
      destruct (nth_error ks c) as [k|] eqn:Ek; [|discriminate]. destruct (nth_error (kids_of t) c) as [x|] eqn:Ex; [|discriminate].
      destruct (f2_nth _ _ _ _ _ H5 Ex) as (k' & Ek' & Hk). rewrite Ek in Ek'. injection Ek' as <-.
      destruct h as [|h]; cbn [WK] in Hk.
      + destruct Hk as [-> ->]. destruct p as [|c' p]; [discriminate|]. cbn [at_path l_kids] in E. destruct c'; discriminate.
      + destruct Hk as [Hw Hp]. cbn [Nat.sub] in E. rewrite Nat.sub_0_r in E. destruct (IH _ _ _ _ _ _ Hw E) as (Q1 & Q2 & Q3 & Q4).
        split; [exact Q1|]. split; [cbn [length]; lia|]. split.
        * cbn [node_at]. apply kids_child in Ex. rewrite Ex. exact Q3.
        * intros _. destruct p as [|c' p]; [|apply Q4; discriminate]. cbn [at_path] in E. destruct k; [discriminate|]. injection E as <- <- <-. exact Hp.
  Qed.

  Lemma at_snoc : forall p c h lt (t : tree) h' n ln k x, at_path h lt t p = Some (h', n, ln) -> nth_error (l_kids ln) c = Some k -> nth_error (kids_of n) c = Some x -> k <> LNil ->
    at_path h lt t (p ++ [c]) = Some (h' - 1, x, k).
  Proof.
    intros p c h lt t h' n ln k x E Ek Ex Hk.
    assert (Q : at_path h' ln n [c] = Some (h' - 1, x, k)) by (cbn [at_path]; rewrite Ek, Ex; destruct k; [destruct Hk; reflexivity|reflexivity]).
    rewrite at_path_app. destruct p as [|c' p]; [|rewrite E; exact Q]. cbn [at_path] in E. destruct lt; [discriminate|]. injection E as <- <- <-. exact Q.
  Qed.
  Lemma at_snoc_inv : forall p c h lt (t : tree) h' n ln, at_path h lt t (p ++ [c]) = Some (h', n, ln) ->
    exists h2 n2 ln2, at_path h lt t p = Some (h2, n2, ln2) /\ h' = h2 - 1 /\ nth_error (l_kids ln2) c = Some ln /\ nth_error (kids_of n2) c = Some n.
  Proof.
    intros p c h lt t h' n ln E.
    assert (Q : forall h2 n2 ln2, at_path h2 ln2 n2 [c] = Some (h', n, ln) -> h' = h2 - 1 /\ nth_error (l_kids ln2) c = Some ln /\ nth_error (kids_of n2) c = Some n).
    { intros h2 n2 ln2 Q. cbn [at_path] in Q. destruct (nth_error (l_kids ln2) c) as [k|]; [|discriminate]. destruct (nth_error (kids_of n2) c) as [x|]; [|discriminate].
      destruct k; [discriminate|]. injection Q as <- <- <-. auto. }
    rewrite at_path_app in E. destruct p as [|c' p].
    - exists h, t, lt. split; [|exact (Q _ _ _ E)]. cbn [at_path]. destruct lt; [cbn in E; destruct c; discriminate|reflexivity].
    - destruct (at_path h lt t (c' :: p)) as [[[h2 n2] ln2]|]; [|discriminate]. exists h2, n2, ln2. split; [reflexivity|exact (Q _ _ _ E)].
  Qed.

  Lemma at_in : forall p h lt (t : tree) h' n a q rs ks, at_path h lt t p = Some (h', n, LNode a q rs ks) -> In a (laddrs lt).
  Proof.
    induction p as [|c p IH]; intros h lt t h' n a q rs ks E; cbn [at_path] in E.
    - destruct lt; [discriminate|]. injection E as _ _ -> _ _ _. left. reflexivity.
    - destruct lt as [|a0 q0 rs0 ks0]; [cbn in E; destruct c; discriminate|]. cbn [l_kids] in E. destruct (nth_error ks0 c) as [k|] eqn:Ek; [|discriminate].
      destruct (nth_error (kids_of t) c) as [x|]; [|discriminate]. cbn [laddrs]. right. apply in_flat_map. exists k. split; [eapply nth_error_In; exact Ek|eapply IH; exact E].
  Qed.
  Lemma nodup_flat : forall {T} (f : T -> list addr) l i j x y a, NoDup (flat_map f l) -> nth_error l i = Some x -> nth_error l j = Some y -> In a (f x) -> In a (f y) -> i = j.
  Proof.
    induction l as [|z l IH]; intros [|i] [|j] x y a Hn Ei Ej Hx Hy; try discriminate; auto; cbn [nth_error flat_map] in *; apply nodup_app_iff in Hn; destruct Hn as (N1 & N2 & N3).
    - injection Ei as ->. destruct (N3 a Hx). apply in_flat_map. exists y. split; [eapply nth_error_In; exact Ej|exact Hy].
    - injection Ej as ->. destruct (N3 a Hy). apply in_flat_map. exists x. split; [eapply nth_error_In; exact Ei|exact Hx].
    - f_equal. eauto.
  Qed.
  Lemma at_inj : forall p p' h lt (t : tree) h1 n1 a q1 rs1 ks1 h2 n2 q2 rs2 ks2, NoDup (laddrs lt) ->
    at_path h lt t p = Some (h1, n1, LNode a q1 rs1 ks1) -> at_path h lt t p' = Some (h2, n2, LNode a q2 rs2 ks2) -> p = p'.
  Proof.
    induction p as [|c p IH]; intros [|c' p'] h lt t h1 n1 a q1 rs1 ks1 h2 n2 q2 rs2 ks2 Hn E1 E2; [reflexivity| | |];
      (destruct lt as [|a0 q0 rs0 ks0]; [cbn in E1, E2; try destruct c; try destruct c'; discriminate|]); cbn [laddrs] in Hn; apply NoDup_cons_iff in Hn; destruct Hn as [Hn1 Hn2];
      cbn [at_path l_kids] in E1, E2.
    - injection E1 as _ _ -> _ _ _. destruct (nth_error ks0 c') as [k|] eqn:Ek; [|discriminate]. destruct (nth_error (kids_of t) c'); [|discriminate].
      destruct Hn1. apply in_flat_map. exists k. split; [eapply nth_error_In; exact Ek|eapply at_in; exact E2].
    - injection E2 as _ _ -> _ _ _. destruct (nth_error ks0 c) as [k|] eqn:Ek; [|discriminate]. destruct (nth_error (kids_of t) c); [|discriminate].
      destruct Hn1. apply in_flat_map. exists k. split; [eapply nth_error_In; exact Ek|eapply at_in; exact E1].
    - destruct (nth_error ks0 c) as [k|] eqn:Ek; [|discriminate]. destruct (nth_error (kids_of t) c) as [x|] eqn:Ex; [|discriminate].
      destruct (nth_error ks0 c') as [k'|] eqn:Ek'; [|discriminate]. destruct (nth_error (kids_of t) c') as [x'|] eqn:Ex'; [|discriminate].
      pose proof (nodup_flat laddrs ks0 c c' k k' a Hn2 Ek Ek' (at_in _ _ _ _ _ _ _ _ _ _ E1) (at_in _ _ _ _ _ _ _ _ _ _ E2)) as ->.
      rewrite Ek in Ek'. injection Ek' as <-. rewrite Ex in Ex'. injection Ex' as <-. f_equal. eapply IH; [|exact E1|exact E2].
      clear - Hn2 Ek. revert c' Ek. induction ks0 as [|z l IHl]; intros [|c] Ek; try discriminate; cbn [flat_map nth_error] in *; apply nodup_app_iff in Hn2; destruct Hn2 as (N1 & N2 & N3); [injection Ek as ->; exact N1|eauto].
  Qed.
End Paths.

Section Sim.
  Context {I V : Type} (X : index_ops I).
  Notation tree := (tree I V).
  Context (m : list (addr * (nat * tree * ltree))) (Lg : list (addr * nat)) (H : nat) (T : tree) (lt : ltree).
  Hypothesis HW : W Lg H T lt.
  Hypothesis HN : NoDup (laddrs lt).
  Hypothesis Hm : forall a e, In (a, e) (cells H lt T) -> find (fun c => fst c =? a) m = Some (a, e).
  Hypothesis HU : forall a h h', In (a, h) Lg -> In (a, h') Lg -> h = h'.
  Notation AT p h n ln := (at_path H lt T p = Some (h, n, ln)).
  Notation stk_t := (list (addr * nat * nat)).

  Lemma AT_W : forall p h n ln, AT p h n ln -> W Lg h n ln /\ h + length p = H /\ node_at T p = Ok n /\ (p <> [] -> l_par ln <> None).
  Proof. intros. eapply at_W; eassumption. Qed.
  Lemma AT_deref : forall p h n a q rs ks, AT p h n (LNode a q rs ks) -> x_deref m h a = Ok (n, LNode a q rs ks).
  Proof. intros p h n a q rs ks E. unfold x_deref. rewrite (Hm _ _ (cells_at _ _ _ _ _ _ _ _ _ _ E)). destruct (h =? 0); reflexivity. Qed.
  Lemma AT_child : forall p h n a q rs ks c ch, AT p (S h) n (LNode a q rs ks) -> child n c = Ok ch ->
    exists b q' rs' ks', nth_error ks c = Some (LNode b q' rs' ks') /\ AT (p ++ [c]) h ch (LNode b q' rs' ks').
  Proof.
    intros p h n a q rs ks c ch E Ec. destruct (AT_W _ _ _ _ E) as (Hw & _). apply W_eq in Hw. destruct Hw as (a0 & q0 & rs0 & ks0 & E0 & _ & _ & _ & H5). injection E0 as <- <- <- <-.
    apply kids_child in Ec. destruct (f2_nth _ _ _ _ _ H5 Ec) as (k & Ek & Hk). cbn [WK] in Hk. destruct Hk as [Hk _]. apply W_eq in Hk. destruct Hk as (b & q' & rs' & ks' & -> & _).
    exists b, q', rs', ks'. split; [exact Ek|]. rewrite (at_snoc p c _ _ _ _ _ _ _ _ E Ek Ec); [|discriminate]. cbn [Nat.sub]. rewrite Nat.sub_0_r. reflexivity.
  Qed.

  (** The stack of the iterator at the node with reversed path [rp]. *)
  Fixpoint SR (rp : list nat) (stk : stk_t) : Prop :=
    match rp with
    | [] => stk = []
    | c :: rp' => exists hN nN lN hP nP a q rs ks, AT (rev rp) hN nN lN /\ AT (rev rp') hP nP (LNode a q rs ks) /\
        ((exists stk', stk = (a, hP, c) :: stk' /\ SR rp' stk') \/ (l_par lN = Some (a, c) /\ SR rp' stk))
    end.
  Lemma SR_high : forall rp stk, SR rp stk -> Forall (fun e => H < snd (fst e) + length rp) stk.
  Proof.
    induction rp as [|c rp IH]; intros stk; cbn [SR].
    - intros ->. constructor.
    - intros (hN & nN & lN & hP & nP & a & q & rs & ks & E1 & E2 & D). destruct (AT_W _ _ _ _ E2) as (_ & El & _). rewrite rev_length in El.
      destruct D as [(stk' & -> & D)|[_ D]]; apply IH in D.
      + constructor; [cbn [fst snd length]; lia|]. eapply Forall_impl; [|exact D]. intros [[? ?] ?] Q. cbn [fst snd length] in *. lia.
      + eapply Forall_impl; [|exact D]. intros [[? ?] ?] Q. cbn [fst snd length] in *. lia.
  Qed.

  Lemma parent_sim : forall c rp stk h n a q rs ks, SR (c :: rp) stk -> AT (rev (c :: rp)) h n (LNode a q rs ks) ->
    exists nP pa qP rsP ksP stk', AT (rev rp) (S h) nP (LNode pa qP rsP ksP) /\ x_parent m H h a stk = Ok (pa, c, stk') /\ SR rp stk' /\ node_at T (rev rp) = Ok nP.
  Proof.
    intros c rp stk h n a q rs ks HS E. cbn [SR] in HS. destruct HS as (hN & nN & lN & hP & nP & pa & qP & rsP & ksP & E1 & E2 & D). rewrite E1 in E. injection E as -> -> ->.
    destruct (AT_W _ _ _ _ E1) as (_ & L1 & _). destruct (AT_W _ _ _ _ E2) as (_ & L2 & N2 & _). rewrite !rev_length in *. cbn [length] in L1.
    assert (hP = S h) as -> by lia. exists nP, pa, qP, rsP, ksP.
    assert (Hst : forall stk' : stk_t, l_par (LNode a q rs ks) = Some (pa, c) ->
      (if h =? H then Panic PAssert else let* p := x_par m h a in match p with Some (pa, c) => Ok (pa, c, stk') | None => Panic PAssert end) = @Ok (addr * nat * stk_t) (pa, c, stk')).
    { intros stk' Ep. destruct (Nat.eqb_spec h H); [lia|]. unfold x_par. rewrite (AT_deref _ _ _ _ _ _ _ E1). cbn [bind]. rewrite Ep. reflexivity. }
    destruct D as [(stk' & -> & D)|[Ep D]].
    - exists stk'. split; [exact E2|]. split; [|auto]. cbn [x_parent]. rewrite Nat.add_1_r, Nat.eqb_refl. reflexivity.
    - exists stk. split; [exact E2|]. split; [|auto]. unfold x_parent. pose proof (SR_high _ _ D) as Hh. destruct stk as [|[[pa' ph'] c'] stk']; [apply Hst; exact Ep|].
      inversion Hh as [|? ? Hq _]; subst. cbn [fst snd] in Hq. destruct (Nat.eqb_spec ph' (h + 1)); [lia|]. apply Hst. exact Ep.
  Qed.

  (** Going down to child [c] of [a], compared with [node]. *)
  Lemma down_sim : forall node hn p h n a q rs ks c ch stk, In (node, hn) Lg -> (hn = S h -> node = a) ->
    AT p (S h) n (LNode a q rs ks) -> SR (rev p) stk -> child n c = Ok ch ->
    exists b q' rs' ks' stk', AT (p ++ [c]) h ch (LNode b q' rs' ks') /\ x_child m h a c = Ok b /\ x_push m node a h c b stk = Ok stk' /\ SR (rev (p ++ [c])) stk'.
  Proof.
    intros node hn p h n a q rs ks c ch stk Hn Hna E HS Ec. destruct (AT_child _ _ _ _ _ _ _ _ _ E Ec) as (b & q' & rs' & ks' & Ek & Eb).
    assert (Ex : x_child m h a c = Ok b). { unfold x_child. rewrite Nat.add_1_r, (AT_deref _ _ _ _ _ _ _ E). cbn [bind l_kids]. unfold nth_ub. rewrite Ek. reflexivity. }
    destruct (AT_W _ _ _ _ Eb) as (Hw & _ & _ & Hp). specialize (Hp ltac:(destruct p; discriminate)). cbn [l_par] in Hp. destruct q' as [[pb pi]|]; [|congruence].
    apply W_eq in Hw. destruct Hw as (? & ? & ? & ? & Q & _ & Hpar & _). injection Q as <- <- <- <-. specialize (Hpar pb pi eq_refl).
    exists b, (Some (pb, pi)), rs', ks', (if loc_eqb (pb, pi) (node, c) then stk else (a, h + 1, c) :: stk).
    split; [exact Eb|]. split; [exact Ex|]. split.
    - unfold x_push, x_par. rewrite (AT_deref _ _ _ _ _ _ _ Eb). reflexivity.
    - rewrite rev_app_distr. cbn [rev app SR]. rewrite rev_involutive.
      exists h, ch, (LNode b (Some (pb, pi)) rs' ks'), (S h), n, a, q, rs, ks. split; [exact Eb|]. split; [exact E|].
      destruct (loc_eqb (pb, pi) (node, c)) eqn:El; [right|left; exists stk; split; [rewrite Nat.add_1_r; reflexivity|exact HS]].
      unfold loc_eqb in El. cbn [fst snd] in El. apply andb_true_iff in El. destruct El as [E1 E2]. apply Nat.eqb_eq in E1, E2. subst pb pi.
      pose proof (HU _ _ _ Hn Hpar) as Eh. specialize (Hna Eh). subst node. split; [reflexivity|exact HS].
  Qed.

  Definition HH (a : handle) (x : xhandle) (stk : stk_t) : Prop :=
    exists n q rs ks, AT (fst a) (x_height x) n (LNode (x_addr x) q rs ks) /\ snd a = x_key x /\ SR (rev (fst a)) stk.
  Definition HS (s : istack) (x : @xstack I) : Prop := HH (k_head s) (x_head x) (x_stack x) /\ k_end s = x_end x /\ x_root x = H.

  Lemma in_log : forall p h n a q rs ks, AT p h n (LNode a q rs ks) -> In (a, h) Lg.
  Proof. intros p h n a q rs ks E. destruct (AT_W _ _ _ _ E) as (Hw & _). apply W_eq in Hw. destruct Hw as (? & ? & ? & ? & Q & Hin & _). injection Q as <- <- <- <-. exact Hin. Qed.

  Ltac ib := match goal with
    | E : bind ?e _ = Ok _ |- _ => let v := fresh "v" in let Ev := fresh "Ev" in destruct e as [v| |] eqn:Ev; cbn [bind] in E |- *; try discriminate E
    end.

  Lemma make_stack_sim : forall h t p hints hp tgt ex s a q rs ks stk, AT p h t (LNode a q rs ks) -> SR (rev p) stk ->
    make_stack X h t p hints hp tgt ex = Ok s -> exists x, x_make_stack X m H h a hints hp tgt ex stk = Ok x /\ HS s x.
  Proof.
    induction h as [|h IH]; intros t p hints hp tgt ex s a q rs ks stk E Hs Em; cbn [make_stack x_make_stack] in *; rewrite (AT_deref _ _ _ _ _ _ _ E); cbn [bind]; ib;
      (destruct v as [c cp|k kp]; [|repeat ib; injection Em as <-; eexists; split; [reflexivity|]; split; [|split; reflexivity]; exists t, q, rs, ks; cbn [k_head x_head fst snd x_addr x_height x_key x_stack]; auto]).
    - discriminate.
    - repeat ib. destruct (down_sim a (S h) p h t a q rs ks c v stk (in_log _ _ _ _ _ _ _ E) ltac:(auto) E Hs Ev0) as (b & q' & rs' & ks' & stk' & Eb & E1 & E2 & E3).
      rewrite E1. cbn [bind]. rewrite E2. cbn [bind]. eapply IH; eassumption.
  Qed.

  Lemma fwd_down_sim : forall node hn h t p c a' a q rs ks stk, In (node, hn) Lg -> (hn = S h -> node = a) -> S h <= hn ->
    AT p (S h) t (LNode a q rs ks) -> SR (rev p) stk -> fwd_down h t p c = Ok a' ->
    exists stk' x, x_fwd_down m node h a c stk = Ok (stk', x) /\ HH a' x stk'.
  Proof.
    intros node hn. induction h as [|h IH]; intros t p c a' a q rs ks stk Hn Hna Hle E Hs Ed; cbn [fwd_down x_fwd_down] in *; ib;
      destruct (down_sim node hn p _ t a q rs ks c v stk Hn Hna E Hs Ev) as (b & q' & rs' & ks' & stk' & Eb & E1 & E2 & E3); rewrite E1; cbn [bind]; rewrite E2; cbn [bind].
    - unfold x_len. rewrite (AT_deref _ _ _ _ _ _ _ Eb). cbn [bind]. destruct (tlen v =? 0); [discriminate|]. injection Ed as <-. eexists _, _. split; [reflexivity|].
      exists v, q', rs', ks'. cbn [fst snd x_addr x_height x_key]. auto.
    - eapply (IH v (p ++ [c])); try eassumption; [intros Q; lia|lia].
  Qed.
  Lemma bkwd_down_sim : forall node hn h t p c a' a q rs ks stk, In (node, hn) Lg -> (hn = S h -> node = a) -> S h <= hn ->
    AT p (S h) t (LNode a q rs ks) -> SR (rev p) stk -> bkwd_down h t p c = Ok a' ->
    exists stk' x, x_bkwd_down m node h a c stk = Ok (stk', x) /\ HH a' x stk'.
  Proof.
    intros node hn. induction h as [|h IH]; intros t p c a' a q rs ks stk Hn Hna Hle E Hs Ed; cbn [bkwd_down x_bkwd_down] in *; ib;
      destruct (down_sim node hn p _ t a q rs ks c v stk Hn Hna E Hs Ev) as (b & q' & rs' & ks' & stk' & Eb & E1 & E2 & E3); rewrite E1; cbn [bind]; rewrite E2; cbn [bind];
      unfold x_len; rewrite (AT_deref _ _ _ _ _ _ _ Eb); cbn [bind].
    - destruct (tlen v) as [|k]; [discriminate|]. injection Ed as <-. eexists _, _. split; [reflexivity|].
      exists v, q', rs', ks'. cbn [fst snd x_addr x_height x_key]. auto.
    - eapply (IH v (p ++ [c])); try eassumption; [intros Q; lia|lia].
  Qed.
  Lemma fwd_up_sim : forall rp k h n a q rs ks stk a', AT (rev rp) h n (LNode a q rs ks) -> SR rp stk -> length rp <= k -> fwd_up T rp = Ok a' ->
    exists stk' x, x_fwd_up k m H h a stk = Ok (stk', x) /\ HH a' x stk'.
  Proof.
    induction rp as [|c rp IH]; intros k h n a q rs ks stk a' E Hs Hk Eu; cbn [fwd_up] in Eu; [discriminate|]. destruct k as [|k]; cbn [length] in Hk; [lia|].
    destruct (parent_sim _ _ _ _ _ _ _ _ _ Hs E) as (nP & pa & qP & rsP & ksP & stk' & E1 & E2 & E3 & E4). rewrite E4 in Eu. cbn [bind] in Eu.
    cbn [x_fwd_up]. rewrite E2. cbn [bind]. unfold x_len. rewrite Nat.add_1_r, (AT_deref _ _ _ _ _ _ _ E1). cbn [bind].
    destruct (c <? tlen nP).
    - injection Eu as <-. eexists _, _. split; [reflexivity|]. exists nP, qP, rsP, ksP. cbn [fst snd x_addr x_height x_key]. rewrite rev_involutive. auto.
    - eapply IH; try eassumption. lia.
  Qed.
  Lemma bkwd_up_sim : forall rp k h n a q rs ks stk a', AT (rev rp) h n (LNode a q rs ks) -> SR rp stk -> length rp <= k -> bkwd_up T rp = Ok a' ->
    exists stk' x, x_bkwd_up k m H h a stk = Ok (stk', x) /\ HH a' x stk'.
  Proof.
    induction rp as [|c rp IH]; intros k h n a q rs ks stk a' E Hs Hk Eu; cbn [bkwd_up] in Eu; [discriminate|]. destruct k as [|k]; cbn [length] in Hk; [lia|].
    destruct (parent_sim _ _ _ _ _ _ _ _ _ Hs E) as (nP & pa & qP & rsP & ksP & stk' & E1 & E2 & E3 & E4).
    cbn [x_bkwd_up]. rewrite E2. cbn [bind]. rewrite Nat.add_1_r. destruct c as [|c].
    - eapply IH; try eassumption. lia.
    - injection Eu as <-. eexists _, _. split; [reflexivity|]. exists nP, qP, rsP, ksP. cbn [fst snd x_addr x_height x_key]. rewrite rev_involutive. auto.
  Qed.

  Lemma size_sim : forall a x stk, HH a x stk -> x_size X m x = handle_size X H T a.
  Proof.
    intros [p k] x stk (n & q & rs & ks & E & Ek & _). cbn [fst snd] in *. unfold x_size, handle_size, handle_height. cbn [fst snd]. rewrite (AT_deref _ _ _ _ _ _ _ E). cbn [bind].
    destruct (AT_W _ _ _ _ E) as (_ & El & En & _). rewrite En. cbn [bind]. rewrite <- El, Ek. f_equal. lia.
  Qed.
  Lemma slice_sim : forall a x stk, HH a x stk -> x_slice m x = handle_slice T a.
  Proof.
    intros [p k] x stk (n & q & rs & ks & E & Ek & _). cbn [fst snd] in *. unfold x_slice, handle_slice. cbn [fst snd]. rewrite (AT_deref _ _ _ _ _ _ _ E). cbn [bind].
    destruct (AT_W _ _ _ _ E) as (_ & El & En & _). rewrite En, Ek. reflexivity.
  Qed.
  Lemma eqb_sim : forall a x stk b y stk', HH a x stk -> HH b y stk' -> x_eqb x y = handle_eqb a b.
  Proof.
    intros [p k] x stk [p' k'] y stk' (n & q & rs & ks & E & Ek & _) (n' & q' & rs' & ks' & E' & Ek' & _). cbn [fst snd] in *. unfold x_eqb, handle_eqb. cbn [fst snd]. rewrite <- Ek, <- Ek'.
    destruct (list_eq_dec Nat.eq_dec p p') as [->|Np].
    - rewrite E in E'. injection E' as _ _ Ea _ _ _. rewrite Ea, Nat.eqb_refl. reflexivity.
    - destruct (Nat.eqb_spec (x_addr x) (x_addr y)) as [Ea|]; [|reflexivity]. destruct Np. rewrite <- Ea in E'. eapply at_inj; eassumption.
  Qed.

  Lemma fwd_step_sim : forall s s' x, HS s x -> fwd_step X H T s = Ok s' -> exists x', x_fwd_step X m x = Ok x' /\ HS s' x'.
  Proof.
    intros s s' x (Hh & He & Hr) Es. unfold fwd_step in Es. destruct (fwd_head H T (k_head s)) as [a'| |] eqn:Ea; cbn [bind] in Es; try discriminate.
    assert (G : exists stk' x', match x_height (x_head x) with
      | S h' => x_fwd_down m (x_addr (x_head x)) h' (x_addr (x_head x)) (x_key (x_head x) + 1) (x_stack x)
      | 0 => let* len := x_len m 0 (x_addr (x_head x)) in
             if x_key (x_head x) + 1 <? len then Ok (x_stack x, {| x_addr := x_addr (x_head x); x_height := 0; x_key := x_key (x_head x) + 1 |})
             else x_fwd_up (S (x_root x)) m (x_root x) 0 (x_addr (x_head x)) (x_stack x)
      end = Ok (stk', x') /\ HH a' x' stk').
    { destruct (k_head s) as [p k]. destruct Hh as (n & q & rs & ks & E & Ek & HSR). cbn [fst snd] in *. destruct (AT_W _ _ _ _ E) as (_ & El & En & _). unfold fwd_head in Ea. rewrite En in Ea. cbn [bind] in Ea.
      replace (H - length p) with (x_height (x_head x)) in Ea by lia. destruct (x_height (x_head x)) as [|h'].
      - unfold x_len. rewrite (AT_deref _ _ _ _ _ _ _ E). cbn [bind]. rewrite <- Ek. destruct (k + 1 <? tlen n).
        + injection Ea as <-. eexists _, _. split; [reflexivity|]. exists n, q, rs, ks. cbn [fst snd x_addr x_height x_key]. auto.
        + rewrite Hr. eapply fwd_up_sim; [|exact HSR| |exact Ea]; [rewrite rev_involutive; exact E|rewrite rev_length; lia].
      - rewrite <- Ek. eapply fwd_down_sim; [eapply in_log; exact E|auto|lia|exact E|exact HSR|exact Ea]. }
    destruct G as (stk' & x' & E1 & Hh'). unfold x_fwd_step. rewrite E1. cbn [bind]. rewrite (size_sim _ _ _ Hh'). repeat ib. rewrite <- He, Ev0. cbn [bind]. injection Es as <-.
    eexists. split; [reflexivity|]. split; [exact Hh'|]. split; [reflexivity|exact Hr].
  Qed.
  Lemma bkwd_step_sim : forall s s' x, HS s x -> bkwd_step X H T s = Ok s' -> exists x', x_bkwd_step X m x = Ok x' /\ HS s' x'.
  Proof.
    intros s s' x (Hh & He & Hr) Es. unfold bkwd_step in Es. destruct (bkwd_head H T (k_head s)) as [a'| |] eqn:Ea; cbn [bind] in Es; try discriminate.
    rewrite <- (size_sim _ _ _ Hh) in Es.
    assert (G : exists stk' x', match x_height (x_head x) with
      | S h' => x_bkwd_down m (x_addr (x_head x)) h' (x_addr (x_head x)) (x_key (x_head x)) (x_stack x)
      | 0 => match x_key (x_head x) with
             | S k => Ok (x_stack x, {| x_addr := x_addr (x_head x); x_height := 0; x_key := k |})
             | 0 => x_bkwd_up (S (x_root x)) m (x_root x) 0 (x_addr (x_head x)) (x_stack x)
             end
      end = Ok (stk', x') /\ HH a' x' stk').
    { destruct (k_head s) as [p k]. destruct Hh as (n & q & rs & ks & E & Ek & HSR). cbn [fst snd] in *. destruct (AT_W _ _ _ _ E) as (_ & El & En & _). unfold bkwd_head in Ea. rewrite En in Ea. cbn [bind] in Ea.
      replace (H - length p) with (x_height (x_head x)) in Ea by lia. destruct (x_height (x_head x)) as [|h'].
      - rewrite <- Ek. destruct k as [|k].
        + rewrite Hr. eapply bkwd_up_sim; [|exact HSR| |exact Ea]; [rewrite rev_involutive; exact E|rewrite rev_length; lia].
        + injection Ea as <-. eexists _, _. split; [reflexivity|]. exists n, q, rs, ks. cbn [fst snd x_addr x_height x_key]. auto.
      - rewrite <- Ek. eapply bkwd_down_sim; [eapply in_log; exact E|auto|lia|exact E|exact HSR|exact Ea]. }
    destruct G as (stk' & x' & E1 & Hh'). unfold x_bkwd_step. rewrite E1. cbn [bind]. repeat ib. rewrite <- He, Ev0. cbn [bind]. injection Es as <-.
    eexists. split; [reflexivity|]. split; [exact Hh'|]. split; [reflexivity|exact Hr].
  Qed.

  (** ** The iterator *)
  Context (root : addr).
  Hypothesis Hroot : exists q rs ks, lt = LNode root q rs ks.
  Definition OS (s : option istack) (x : option (@xstack I)) : Prop := match s, x with Some s, Some x => HS s x | None, None => True | _, _ => False end.
  Definition IR (it : @iter I) (x : @xiter I) : Prop :=
    it_start it = xi_start x /\ it_end it = xi_end x /\ it_excl it = xi_excl x /\ xi_addr x = root /\ xi_height x = H /\
    match it_state it, xi_state x with
    | None, None => True
    | Some s, Some y => s_cursor s = xs_cursor y /\ OS (s_fwd s) (xs_fwd y) /\ OS (s_bkwd s) (xs_bkwd y)
    | _, _ => False
    end.
  Context (R : @Tree.root I V) (RH : r_height R = H) (RT : r_node R = T).

  Lemma root_make : forall hints hp tgt ex s, make_stack X H T [] hints hp tgt ex = Ok s -> exists x, x_make_stack X m H H root hints hp tgt ex [] = Ok x /\ HS s x.
  Proof. intros hints hp tgt ex s E. destruct Hroot as (q & rs & ks & El). eapply (make_stack_sim H T [] hints hp tgt ex s root q rs ks []); [cbn [at_path]; rewrite El; reflexivity|reflexivity|exact E]. Qed.

  Lemma OS_eqb : forall s x b y, OS s x -> HS b y ->
    match x with Some f => x_eqb (x_head f) (x_head y) | None => false end = match s with Some f => handle_eqb (k_head f) (k_head b) | None => false end.
  Proof. intros [s|] [x|] b y Ho (Hb & _); cbn [OS] in Ho; try contradiction; [|reflexivity]. destruct Ho as (Hs & _). eapply eqb_sim; eassumption. Qed.

  Lemma next_sim : forall it x o it', IR it x -> iter_next X R it = Ok (o, it') -> exists x', x_next X m x = Ok (o, x') /\ IR it' x'.
  Proof.
    intros it x o it' HI En. pose proof HI as (F1 & F2 & F3 & F4 & F5 & Hs). unfold iter_next, x_next in *. rewrite ?RH, ?RT in En.
    destruct (it_state it) as [s|] eqn:Eit; destruct (xi_state x) as [y|] eqn:Exs; try contradiction.
    2:{ injection En as <- <-. exists x. split; [reflexivity|]. exact HI. }
    destruct Hs as (G1 & G2 & G3). rewrite <- F1, <- F2, <- F3, F4, F5, <- G1.
    match type of En with bind ?e _ = _ => destruct e as [st| |] eqn:Est; cbn [bind] in En; try discriminate end.
    assert (Q : exists xst, match xs_fwd y with
      | Some fwd => if (if it_excl it then ix_leb X (it_end it) (x_end fwd) else ix_ltb X (it_end it) (x_end fwd)) then Ok None
                    else let* fwd' := x_fwd_step X m fwd in Ok (Some (fwd', x_end fwd, s_cursor s))
      | None => let* st := x_make_stack X m H H root (s_cursor s) (ix_zero X) (it_start it) false [] in
                let* sz := x_size X m (x_head st) in let* next_start := ix_sub_right X (x_end st) sz in Ok (Some (st, next_start, []))
      end = Ok xst /\ match st, xst with None, None => True | Some (f, a, c), Some (f', a', c') => HS f f' /\ a = a' /\ c = c' | _, _ => False end).
    { destruct (s_fwd s) as [f|]; destruct (xs_fwd y) as [f'|]; cbn [OS] in G2; try contradiction.
      - pose proof G2 as (_ & Ge & _). rewrite <- Ge. destruct (if it_excl it then ix_leb X (it_end it) (k_end f) else ix_ltb X (it_end it) (k_end f)).
        + injection Est as <-. exists None. auto.
        + ib. injection Est as <-. destruct (fwd_step_sim _ _ _ G2 Ev) as (x' & E1 & E2). rewrite E1. cbn [bind]. eexists. split; [reflexivity|]. cbv beta iota. auto.
      - ib. destruct (root_make _ _ _ _ _ Ev) as (x' & E1 & E2). rewrite E1. cbn [bind]. pose proof E2 as (Hh & Ge & _). rewrite (size_sim _ _ _ Hh), <- Ge. repeat ib. injection Est as <-. cbn [bind]. rewrite ?Ev1. cbn [bind].
        eexists. split; [reflexivity|]. cbv beta iota. auto. }
    destruct Q as (xst & -> & Q). cbn [bind]. destruct st as [[[f a] c]|]; destruct xst as [[[f' a'] c']|]; try contradiction.
    - destruct Q as (Hf & <- & <-). pose proof Hf as (Hh & Ge & _). pose proof (OS_eqb _ _ _ _ G3 Hf) as Eq. rewrite Eq. destruct (match s_bkwd s with Some b => handle_eqb (k_head b) (k_head f) | None => false end).
      + injection En as <- <-. eexists. split; [reflexivity|]. unfold IR; cbn [ended x_ended it_start it_end it_excl it_state xi_start xi_end xi_excl xi_addr xi_height xi_state]; auto 12.
      + rewrite (slice_sim _ _ _ Hh). ib. injection En as <- <-. rewrite <- Ge. eexists. split; [reflexivity|].
        unfold IR; cbn [with_state x_with it_start it_end it_excl it_state xi_start xi_end xi_excl xi_addr xi_height xi_state s_cursor s_fwd s_bkwd xs_cursor xs_fwd xs_bkwd OS]; auto 12.
    - injection En as <- <-. eexists. split; [reflexivity|]. unfold IR; cbn [ended x_ended it_start it_end it_excl it_state xi_start xi_end xi_excl xi_addr xi_height xi_state]; auto 12.
  Qed.

  Lemma next_back_sim : forall it x o it', IR it x -> iter_next_back X R it = Ok (o, it') -> exists x', x_next_back X m x = Ok (o, x') /\ IR it' x'.
  Proof.
    intros it x o it' HI En. pose proof HI as (F1 & F2 & F3 & F4 & F5 & Hs). unfold iter_next_back, x_next_back in *. rewrite ?RH, ?RT in En.
    destruct (it_state it) as [s|] eqn:Eit; destruct (xi_state x) as [y|] eqn:Exs; try contradiction.
    2:{ injection En as <- <-. exists x. split; [reflexivity|]. exact HI. }
    destruct Hs as (G1 & G2 & G3). rewrite <- F1, <- F2, <- F3, F4, F5, <- G1.
    match type of En with bind ?e _ = _ => destruct e as [st| |] eqn:Est; cbn [bind] in En; try discriminate end.
    assert (Q : exists xst, match xs_bkwd y with
      | Some bkwd => let* sz := x_size X m (x_head bkwd) in let* next_end := ix_sub_right X (x_end bkwd) sz in
                     if ix_leb X next_end (it_start it) then Ok None
                     else let* b' := x_bkwd_step X m bkwd in Ok (Some (b', s_cursor s))
      | None => let* st := x_make_stack X m H H root (s_cursor s) (ix_zero X) (it_end it) (it_excl it) [] in Ok (Some (st, []))
      end = Ok xst /\ match st, xst with None, None => True | Some (f, c), Some (f', c') => HS f f' /\ c = c' | _, _ => False end).
    { destruct (s_bkwd s) as [f|]; destruct (xs_bkwd y) as [f'|]; cbn [OS] in G3; try contradiction.
      - pose proof G3 as (Hh & Ge & _). rewrite <- Ge, (size_sim _ _ _ Hh). ib. ib. cbn [bind]. rewrite ?Ev0. cbn [bind]. destruct (ix_leb X v0 (it_start it)).
        + injection Est as <-. exists None. auto.
        + ib. injection Est as <-. destruct (bkwd_step_sim _ _ _ G3 Ev1) as (x' & E1 & E2). rewrite E1. cbn [bind]. eexists. split; [reflexivity|]. cbv beta iota. auto.
      - ib. destruct (root_make _ _ _ _ _ Ev) as (x' & E1 & E2). rewrite E1. cbn [bind]. injection Est as <-.
        eexists. split; [reflexivity|]. cbv beta iota. auto. }
    destruct Q as (xst & -> & Q). cbn [bind]. destruct st as [[f c]|]; destruct xst as [[f' c']|]; try contradiction.
    - destruct Q as (Hf & <-). pose proof Hf as (Hh & Ge & _). pose proof (OS_eqb _ _ _ _ G2 Hf) as Eq. rewrite Eq. destruct (match s_fwd s with Some b => handle_eqb (k_head b) (k_head f) | None => false end).
      + injection En as <- <-. eexists. split; [reflexivity|]. unfold IR; cbn [ended x_ended it_start it_end it_excl it_state xi_start xi_end xi_excl xi_addr xi_height xi_state]; auto 12.
      + rewrite (size_sim _ _ _ Hh), (slice_sim _ _ _ Hh), <- Ge. repeat ib. injection En as <- <-. cbn [bind]. rewrite ?Ev0. cbn [bind]. eexists. split; [reflexivity|].
        unfold IR; cbn [with_state x_with it_start it_end it_excl it_state xi_start xi_end xi_excl xi_addr xi_height xi_state s_cursor s_fwd s_bkwd xs_cursor xs_fwd xs_bkwd OS]; auto 12.
    - injection En as <- <-. eexists. split; [reflexivity|]. unfold IR; cbn [ended x_ended it_start it_end it_excl it_state xi_start xi_end xi_excl xi_addr xi_height xi_state]; auto 12.
  Qed.

  Lemma calls_sim : forall calls it x os it', IR it x -> iter_calls X (Some R) it calls = Ok (os, it') -> x_calls X m x calls = Ok os.
  Proof.
    induction calls as [|b calls IH]; intros it x os it' HI E; cbn [iter_calls x_calls] in *; [injection E as <- _; reflexivity|].
    ib. destruct v as [o it1]. cbn [iter_step] in Ev.
    assert (Q : exists x1, (if b then x_next_back X m x else x_next X m x) = Ok (o, x1) /\ IR it1 x1) by (destruct b; [eapply next_back_sim|eapply next_sim]; eassumption).
    destruct Q as (x1 & E1 & HI1). rewrite E1. cbn [bind]. ib. destruct v as [os1 it2]. injection E as <- _. rewrite (IH _ _ _ _ HI1 Ev0). reflexivity.
  Qed.
End Sim.
