(** Proofs about calls on trees that share nodes: the steps of an insertion, taken alone on a tree that is a value,
    make of it what the insertion makes of it. *)
From Coq Require Import List Arith Bool Lia.
From Verif Require Import Base ListFacts Index Slice Tree Insert Cow CowSpec CowU CowCall CowCallP.
Import ListNotations.

Section L.
  Context {D : Type}.
  Notation rose := (rose D).

  (** Height along the first children. *)
  Fixpoint rh (r : rose) : nat := match r with Rose _ ks => match ks with [] => 0 | k :: _ => S (rh k) end end.
  (** All leaves are at the same depth. *)
  Fixpoint uni (h : nat) (r : rose) : Prop :=
    match h with 0 => rkids r = [] | S h' => rkids r <> [] /\ Forall (uni h') (rkids r) end.
  Lemma uni_rh : forall h r, uni h r -> rh r = h.
  Proof.
    induction h as [|h IH]; intros [d ks] U; cbn [uni rkids rh] in *; [subst ks; reflexivity|]. destruct U as [N F]. destruct ks as [|k ks]; [contradiction|]. inversion F; subst. f_equal. auto.
  Qed.

  (** One thread on one tree: the tree, the path (last index first), the subtrees in hand. *)
  Definition lst : Type := (rose * list nat * list rose * list rose)%type.
  Definition lstep (l : lst) (e : ev D) : option lst :=
    let '(R, is, fl, old) := l in
    match sub R (rev is) with
    | None => None
    | Some r =>
      match e with
      | VChild i => if (i <? length (rkids r)) && (length fl + length old =? 0) then Some (R, i :: is, fl, old) else None
      | VWrite TAt d => Some (chg R (rev is) (fun _ => Rose d (rkids r)), is, fl, old)
      | VSplit m d d' _ =>
        if (length (rkids r) =? 0) || (m + 1 <? length (rkids r)) then
          Some (chg R (rev is) (fun _ => Rose d (firstn (m + 1) (rkids r))), is, fl ++ [Rose d' (skipn (m + 1) (rkids r))], old)
        else None
      | VAttach TAt k j d =>
        match nth_error fl j with
        | Some c =>
          if (rh r =? rh c + 1) && (k <=? length (rkids r)) then
            Some (chg R (rev is) (fun _ => Rose d (insert_at k c (rkids r))), is, remove_nth j fl, old) else None
        | None => None
        end
      | VAttach (TNew i) k j d =>
        match nth_error fl i, nth_error fl j with
        | Some b, Some c =>
          if negb (i =? j) && (rh b =? rh c + 1) && (k <=? length (rkids b)) then
            Some (R, is, remove_nth j (replace_at i (Rose d (insert_at k c (rkids b))) fl), old) else None
        | _, _ => None
        end
      | VFirst i j =>
        match nth_error fl i, nth_error fl j with
        | Some (Rose d (x :: ks)), Some c =>
          if negb (i =? j) && (S (rh x) =? rh c + 1) then Some (R, is, remove_nth j (replace_at i (Rose d (c :: ks)) fl), old ++ [x]) else None
        | _, _ => None
        end
      | VPush c d =>
        match nth_error old c with
        | Some b => if rh r =? rh b + 1 then Some (chg R (rev is) (fun _ => Rose d (rkids r ++ [b])), is, fl, remove_nth c old) else None
        | None => None
        end
      | VNewRoot _ j d =>
        match is, nth_error fl j with
        | [], Some b => if rh b =? rh r then Some (Rose d [R; b], [], remove_nth j fl, old) else None
        | _, _ => None
        end
      | VUp => match is with _ :: is' => Some (R, is', fl, old) | [] => None end
      | _ => None
      end
    end.
  Fixpoint lrun (l : lst) (es : list (ev D)) : option lst :=
    match es with [] => Some l | e :: es' => match lstep l e with Some l' => lrun l' es' | None => None end end.
  Lemma lrun_app : forall es es' l, lrun l (es ++ es') = match lrun l es with Some l' => lrun l' es' | None => None end.
  Proof. induction es as [|e es IH]; intros es' l; cbn [lrun app]; [reflexivity|]. destruct (lstep l e); auto. Qed.

  Lemma sub_chg : forall is (R x y : rose), sub R is = Some x -> sub (chg R is (fun _ => y)) is = Some y.
  Proof.
    induction is as [|i is IH]; intros R x y H; cbn [sub chg] in *; [reflexivity|]. destruct (nth_error (rkids R) i) as [k|] eqn:N; [|discriminate].
    cbn [rkids sub]. rewrite replace_nth_same by (eapply nth_error_lt; exact N). eapply IH; eassumption.
  Qed.
  Lemma chg_chg : forall is (R x y z : rose), sub R is = Some x -> chg (chg R is (fun _ => y)) is (fun _ => z) = chg R is (fun _ => z).
  Proof.
    induction is as [|i is IH]; intros R x y z H; cbn [sub chg] in *; [reflexivity|]. destruct (nth_error (rkids R) i) as [k|] eqn:N; [|discriminate].
    cbn [rkids rdata]. rewrite replace_nth_same by (eapply nth_error_lt; exact N). rewrite replace2. rewrite (IH _ _ _ _ H). reflexivity.
  Qed.
End L.

Section U.
  Context {I V : Type} (M : nat).
  Notation D := (@ndata I V).
  Hypothesis HM : 1 <= M.

  Lemma uni_rose : forall h (t : tree I V), uni h (rose_of h t).
  Proof.
    induction h as [|h IH]; intros t; cbn [uni]; [reflexivity|]. rewrite rkids_rose. split; [destruct t; discriminate|].
    apply Forall_forall. intros x Hx. apply in_map_iff in Hx. destruct Hx as (u & <- & _). apply IH.
  Qed.

  Lemma nth_firstn_lt : forall {A} k c (l : list A), c < k -> nth_error (firstn k l) c = nth_error l c.
  Proof. intros A. induction k as [|k IH]; intros c l H; [lia|]. destruct l as [|x l]; [reflexivity|]. destruct c as [|c]; [reflexivity|]. cbn. apply IH. lia. Qed.
  Lemma firstn_skipn_nth : forall {A} c (l : list A) x, nth_error l c = Some x -> exists r, skipn c l = x :: r.
  Proof. intros A. induction c as [|c IH]; intros l x H; destruct l as [|y l]; try discriminate; cbn in *; [injection H as ->; eauto|]. auto. Qed.
  Lemma kid_one : forall c (r : rose D) k' n, c < length (rkids r) -> rkids n = replace_at c k' (rkids r) -> kid_news c r [n] = [k'].
  Proof.
    intros c r k' n L E. unfold kid_news. cbn [flat_map]. rewrite app_nil_r, E, replace_len, Nat.eqb_refl.
    destruct (firstn_skipn_nth c (replace_at c k' (rkids r)) k') as [x ->]; [apply replace_nth_same; exact L|reflexivity].
  Qed.
  Lemma kid_two : forall c (r l r' : rose D) news, c < length (rkids r) -> flat_map rkids news = insert_at (c + 1) r' (replace_at c l (rkids r)) -> kid_news c r news = [l; r'].
  Proof.
    intros c r l r' news L E. unfold kid_news. rewrite E, insert_at_len, replace_len. destruct (Nat.eqb_spec (length (rkids r) + 1) (length (rkids r))); [lia|].
    unfold insert_at. set (K := replace_at c l (rkids r)). assert (NK : nth_error K c = Some l) by (apply replace_nth_same; exact L). clearbody K.
    assert (EK : firstn (c + 1) K = firstn c K ++ [l]).
    { clear - NK. revert K NK. induction c as [|c IH]; intros K NK; destruct K as [|y K]; try discriminate; cbn [nth_error firstn plus app] in *; [congruence|]. rewrite IH; auto. }
    assert (LK : length (firstn c K) = c) by (rewrite firstn_length; pose proof (nth_error_lt _ _ _ NK); lia).
    rewrite EK. rewrite <- app_assoc. rewrite skipn_app. rewrite LK, Nat.sub_diag. rewrite skipn_all2 by lia. reflexivity.
  Qed.

  Lemma level_run : forall c (r l r' : rose D) news h R is, uni (S h) r -> Forall (uni (S h)) news -> uni h l -> uni h r' -> c < length (rkids r) ->
    sub R (rev is) = Some (Rose (rdata r) (replace_at c l (rkids r))) ->
    match news with
    | [n] => rkids n = insert_at (c + 1) r' (replace_at c l (rkids r))
    | [n1; n2] => 2 * M + 1 <= length (rkids r) /\ rkids n1 = firstn (M + 1) (insert_at (c + 1) r' (replace_at c l (rkids r))) /\
        rkids n2 = skipn (M + 1) (insert_at (c + 1) r' (replace_at c l (rkids r)))
    | _ => False
    end ->
    exists n rest, news = n :: rest /\ lrun (R, is, [r'], []) (level M c [l; r'] news) = Some (chg R (rev is) (fun _ => n), is, rest, []).
  Proof.
    intros c r l r' news h R is Ur Un Ul Ur' Lc SR H.
    set (K := replace_at c l (rkids r)) in *. assert (LK : length K = length (rkids r)) by apply replace_len.
    assert (UK : Forall (uni h) K).
    { destruct Ur as [_ Fr]. apply Forall_forall. intros x Hx. apply In_nth_error in Hx. destruct Hx as [i Hi]. unfold K in Hi. destruct (Nat.eq_dec c i) as [<-|NE].
      - rewrite replace_nth_same in Hi by exact Lc. injection Hi as <-. exact Ul.
      - rewrite replace_nth_other in Hi by exact NE. apply nth_error_In in Hi. rewrite Forall_forall in Fr. auto. }
    assert (RK : forall (d : D) (ks : list (rose D)), ks <> [] -> Forall (uni h) ks -> rh (Rose d ks) = rh r' + 1).
    { intros d ks N F. rewrite (uni_rh _ _ Ur'). rewrite (uni_rh (S h)) by (cbn [uni rkids]; auto). lia. }
    assert (NKc : nth_error K c = Some l) by (unfold K; apply replace_nth_same; exact Lc). clearbody K.
    destruct news as [|n [|n2 [|? ?]]]; try contradiction.
    - exists n, []. split; [reflexivity|]. cbn [level lrun lstep]. rewrite SR. cbn [nth_error rkids]. rewrite RK; [|intros Z; rewrite Z in LK; cbn in LK; lia|exact UK].
      rewrite Nat.eqb_refl, LK. rewrite (proj2 (Nat.leb_le _ _)) by lia. cbn [andb]. rewrite <- H. destruct n; reflexivity.
    - destruct H as (LL & E1 & E2). exists n, [n2]. split; [reflexivity|]. cbn [level].
      assert (F1 : forall k, Forall (uni h) (firstn k K)) by (intros k; apply Forall_forall; intros x Hx; rewrite Forall_forall in UK; apply UK; rewrite <- (firstn_skipn k K); apply in_or_app; auto).
      assert (F2 : forall k, Forall (uni h) (skipn k K)) by (intros k; apply Forall_forall; intros x Hx; rewrite Forall_forall in UK; apply UK; rewrite <- (firstn_skipn k K); apply in_or_app; auto).
      assert (I1 : forall k x, insert_at k x K = firstn k K ++ x :: skipn k K) by reflexivity.
      assert (FA : forall (a b : list (rose D)) m, length a = m -> firstn m (a ++ b) = a /\ skipn m (a ++ b) = b).
      { intros a b m <-. rewrite firstn_app, skipn_app, Nat.sub_diag, firstn_all, skipn_all. cbn. rewrite app_nil_r. auto. }
      destruct (Nat.eqb_spec c M) as [->|NE]; [|destruct (Nat.ltb_spec M c) as [LT|GE]].
      + (* the new key moves up *)
        cbn [lrun lstep]. rewrite SR. cbn [rkids]. rewrite LK. rewrite (proj2 (Nat.ltb_lt (M - 1 + 1) _)) by lia. rewrite orb_true_r. replace (M - 1 + 1) with M by lia.
        cbn [lstep]; rewrite (sub_chg _ _ _ _ SR). cbn [app nth_error].
        destruct (firstn_skipn_nth M K l NKc) as [ks EK]. rewrite EK. rewrite (uni_rh _ _ Ul), (uni_rh _ _ Ur'). change (negb (1 =? 0)) with true. cbn [andb].
        rewrite (proj2 (Nat.eqb_eq (S h) (h + 1))) by lia. cbn [replace_at skipn firstn app remove_nth].
        cbn [lstep]; rewrite (sub_chg _ _ _ _ SR). cbn [nth_error rkids]. rewrite (uni_rh (S h)); [|cbn [uni rkids]; split; [intros Z; apply (f_equal (@length _)) in Z; rewrite firstn_length in Z; cbn in Z; lia|apply F1]].
        rewrite (uni_rh _ _ Ul). rewrite (proj2 (Nat.eqb_eq (S h) (h + 1))) by lia. cbn [remove_nth firstn skipn app plus].
        assert (EE : firstn (M + 1) K = firstn M K ++ [l] /\ skipn (M + 1) K = ks).
        { assert (KK : K = (firstn M K ++ [l]) ++ ks) by (rewrite <- app_assoc; cbn [app]; rewrite <- EK, firstn_skipn; reflexivity).
          destruct (FA (firstn M K ++ [l]) ks (M + 1)) as [Z1 Z2]; [rewrite app_length, firstn_length; cbn; lia|]. rewrite <- KK in Z1, Z2. auto. }
        destruct EE as [EE1 EE2]. rewrite I1, EE1, EE2 in E1, E2.
        destruct (FA (firstn M K ++ [l]) (r' :: ks) (M + 1)) as [Q1 Q2]; [rewrite app_length, firstn_length; cbn; lia|]. rewrite Q1 in E1. rewrite Q2 in E2.
        rewrite (chg_chg _ _ _ _ _ SR). rewrite <- E1, <- E2. destruct n, n2; reflexivity.
      + (* into the right half *)
        cbn [lrun lstep]. rewrite SR. cbn [rkids]. rewrite LK. rewrite (proj2 (Nat.ltb_lt (M + 1) _)) by lia. rewrite orb_true_r.
        cbn [lstep]; rewrite (sub_chg _ _ _ _ SR). cbn [app nth_error negb Nat.eqb andb rkids].
        rewrite RK; [|intros Z; apply (f_equal (@length _)) in Z; rewrite skipn_length in Z; cbn in Z; lia|apply F2]. rewrite Nat.eqb_refl.
        rewrite (proj2 (Nat.leb_le _ _)) by (rewrite skipn_length; lia). cbn [andb replace_at skipn firstn app remove_nth plus].
        destruct (FA (firstn (M + 1) K) (insert_at (c - (M + 1) + 1) r' (skipn (M + 1) K)) (M + 1)) as [Q1 Q2]; [rewrite firstn_length; lia|].
        assert (EI : insert_at (c + 1) r' K = firstn (M + 1) K ++ insert_at (c - (M + 1) + 1) r' (skipn (M + 1) K)).
        { unfold insert_at. rewrite app_assoc. f_equal; [|f_equal; rewrite skipn2; f_equal; lia].
          rewrite <- (firstn_skipn (M + 1) K) at 1. rewrite firstn_app. rewrite firstn_length. replace (Nat.min (M + 1) (length K)) with (M + 1) by lia.
          rewrite (firstn_all2 (firstn (M + 1) K)) by (rewrite firstn_length; lia). f_equal. f_equal. lia. }
        rewrite EI, Q1 in E1. rewrite EI, Q2 in E2. rewrite <- E1, <- E2. destruct n, n2; reflexivity.
      + (* into the left half *)
        cbn [lrun lstep]. rewrite SR. cbn [rkids]. rewrite LK. rewrite (proj2 (Nat.ltb_lt (M - 1 + 1) _)) by lia. rewrite orb_true_r. replace (M - 1 + 1) with M by lia.
        cbn [lstep]; rewrite (sub_chg _ _ _ _ SR). cbn [app nth_error rkids].
        rewrite RK; [|intros Z; apply (f_equal (@length _)) in Z; rewrite firstn_length in Z; cbn in Z; lia|apply F1]. rewrite Nat.eqb_refl.
        rewrite (proj2 (Nat.leb_le _ _)) by (rewrite firstn_length; lia). cbn [andb remove_nth skipn firstn app plus].
        rewrite (chg_chg _ _ _ _ _ SR).
        destruct (FA (insert_at (c + 1) r' (firstn M K)) (skipn M K) (M + 1)) as [Q1 Q2]; [rewrite insert_at_len, firstn_length; lia|].
        assert (EI : insert_at (c + 1) r' K = insert_at (c + 1) r' (firstn M K) ++ skipn M K).
        { unfold insert_at. rewrite <- app_assoc. cbn [app]. f_equal; [rewrite firstn_firstn; f_equal; lia|]. f_equal.
          rewrite <- (firstn_skipn M K) at 1. rewrite skipn_app. rewrite firstn_length. replace (c + 1 - Nat.min M (length K)) with 0 by lia. reflexivity. }
        rewrite EI, Q1 in E1. rewrite EI, Q2 in E2. rewrite <- E1, <- E2. destruct n, n2; reflexivity.
  Qed.

  Lemma chg_ext : forall is (R x y z : rose D), sub R is = Some x -> y = z -> chg R is (fun _ => y) = chg R is (fun _ => z).
  Proof. intros. subst. reflexivity. Qed.

  Theorem ups_run : forall q (r : rose D) news, grew M q r news -> forall h R is, uni h r -> Forall (uni h) news -> sub R (rev is) = Some r ->
    exists n rest, news = n :: rest /\ lrun (R, is, [], []) (map VChild q ++ ups M q r news) = Some (chg R (rev is) (fun _ => n), is, rest, []).
  Proof.
    intros q r news G. induction G as [r n E|r l n Er El En|c q r k k' n N G IH E|c q r k l r' n N G IH E|c q r k l r' n1 n2 N G IH LL E1 E2]; intros h R is Ur Un SR.
    - exists n, []. split; [reflexivity|]. cbn [map app ups lrun lstep]. rewrite SR. rewrite <- E. destruct n; reflexivity.
    - exists l, [n]. split; [reflexivity|]. cbn [map app ups lrun lstep]. rewrite SR. rewrite Er. cbn [length Nat.eqb orb firstn skipn]. rewrite <- El at 1. rewrite <- En at 2. destruct l, n; cbn in *; subst; reflexivity.
    - assert (Lc : c < length (rkids r)) by (eapply nth_error_lt; exact N).
      destruct h as [|h]; [cbn [uni] in Ur; rewrite Ur in Lc; cbn in Lc; lia|]. pose proof Ur as [_ Fr].
      assert (Uk : uni h k) by (rewrite Forall_forall in Fr; apply Fr; eapply nth_error_In; exact N).
      assert (Uk' : uni h k').
      { inversion Un; subst. match goal with H : uni _ n |- _ => destruct H as [_ Fn] end. rewrite E in Fn. rewrite Forall_forall in Fn. apply Fn. eapply nth_error_In, replace_nth_same. exact Lc. }
      assert (SK : sub R (rev (c :: is)) = Some k) by (cbn [rev]; rewrite sub_app, SR; cbn [sub]; rewrite N; reflexivity).
      destruct (IH h R (c :: is) Uk) as (n' & rest & EQ & RUN); [constructor; auto|exact SK|]. injection EQ as <- <-.
      exists n, []. split; [reflexivity|]. cbn [map app ups lrun lstep]. rewrite SR. rewrite (proj2 (Nat.ltb_lt _ _) Lc). cbn [length plus Nat.eqb andb].
      rewrite N, (kid_one c r k' n Lc E). rewrite app_assoc, lrun_app, RUN. cbn [lrun lstep]. rewrite (sub_chg _ _ _ _ SK).
      assert (ER : chg R (rev (c :: is)) (fun _ => k') = chg R (rev is) (fun _ => Rose (rdata r) (replace_at c k' (rkids r)))).
      { cbn [rev]. rewrite chg_app. rewrite (chg_const _ _ _ _ SR). cbn [chg]. rewrite N. reflexivity. }
      rewrite ER. cbn [level lrun lstep]. rewrite (sub_chg _ _ _ _ SR). cbn [rkids]. rewrite (chg_chg _ _ _ _ _ SR). rewrite <- E. destruct n; reflexivity.
    - assert (Lc : c < length (rkids r)) by (eapply nth_error_lt; exact N).
      destruct h as [|h]; [cbn [uni] in Ur; rewrite Ur in Lc; cbn in Lc; lia|]. pose proof Ur as [_ Fr].
      assert (Uk : uni h k) by (rewrite Forall_forall in Fr; apply Fr; eapply nth_error_In; exact N).
      assert (Ulr : uni h l /\ uni h r').
      { inversion Un; subst. match goal with H : uni _ n |- _ => destruct H as [_ Fn] end. rewrite E in Fn. rewrite Forall_forall in Fn. unfold insert_at in Fn. split; apply Fn.
        - apply in_or_app. left. assert (NK : nth_error (replace_at c l (rkids r)) c = Some l) by (apply replace_nth_same; exact Lc).
          eapply nth_error_In. rewrite nth_firstn_lt; [exact NK|lia].
        - apply in_or_app. right. left. reflexivity. }
      destruct Ulr as [Ul Ur'].
      assert (SK : sub R (rev (c :: is)) = Some k) by (cbn [rev]; rewrite sub_app, SR; cbn [sub]; rewrite N; reflexivity).
      destruct (IH h R (c :: is) Uk) as (n' & rest & EQ & RUN); [repeat constructor; auto|exact SK|]. injection EQ as <- <-.
      cbn [map app ups lrun lstep]. rewrite SR. rewrite (proj2 (Nat.ltb_lt _ _) Lc). cbn [length plus Nat.eqb andb].
      rewrite N, (kid_two c r l r' [n] Lc) by (cbn [flat_map]; rewrite app_nil_r; exact E). rewrite app_assoc, lrun_app, RUN. cbn [lrun lstep]. rewrite (sub_chg _ _ _ _ SK).
      assert (ER : chg R (rev (c :: is)) (fun _ => l) = chg R (rev is) (fun _ => Rose (rdata r) (replace_at c l (rkids r)))).
      { cbn [rev]. rewrite chg_app. rewrite (chg_const _ _ _ _ SR). cbn [chg]. rewrite N. reflexivity. }
      rewrite ER. destruct (level_run c r l r' [n] h (chg R (rev is) (fun _ => Rose (rdata r) (replace_at c l (rkids r)))) is Ur Un Ul Ur' Lc (sub_chg _ _ _ _ SR) E) as (n' & rest & EQ & RL).
      exists n', rest. split; [exact EQ|]. rewrite RL. rewrite (chg_chg _ _ _ _ _ SR). reflexivity.
    - assert (Lc : c < length (rkids r)) by (eapply nth_error_lt; exact N).
      destruct h as [|h]; [cbn [uni] in Ur; rewrite Ur in Lc; cbn in Lc; lia|]. pose proof Ur as [_ Fr].
      assert (Uk : uni h k) by (rewrite Forall_forall in Fr; apply Fr; eapply nth_error_In; exact N).
      assert (EF : flat_map rkids [n1; n2] = insert_at (c + 1) r' (replace_at c l (rkids r))) by (cbn [flat_map]; rewrite app_nil_r, E1, E2; apply firstn_skipn).
      assert (Ulr : uni h l /\ uni h r').
      { assert (Fn : Forall (uni h) (insert_at (c + 1) r' (replace_at c l (rkids r)))).
        { rewrite <- EF. cbn [flat_map]. rewrite app_nil_r. inversion Un as [|? ? [_ A] Un2]; subst. inversion Un2 as [|? ? [_ B] _]; subst. apply Forall_app. auto. }
        rewrite Forall_forall in Fn. unfold insert_at in Fn. split; apply Fn.
        - apply in_or_app. left. assert (NK : nth_error (replace_at c l (rkids r)) c = Some l) by (apply replace_nth_same; exact Lc).
          eapply nth_error_In. rewrite nth_firstn_lt; [exact NK|lia].
        - apply in_or_app. right. left. reflexivity. }
      destruct Ulr as [Ul Ur'].
      assert (SK : sub R (rev (c :: is)) = Some k) by (cbn [rev]; rewrite sub_app, SR; cbn [sub]; rewrite N; reflexivity).
      destruct (IH h R (c :: is) Uk) as (n' & rest & EQ & RUN); [repeat constructor; auto|exact SK|]. injection EQ as <- <-.
      cbn [map app ups lrun lstep]. rewrite SR. rewrite (proj2 (Nat.ltb_lt _ _) Lc). cbn [length plus Nat.eqb andb].
      rewrite N, (kid_two c r l r' [n1; n2] Lc) by exact EF. rewrite app_assoc, lrun_app, RUN. cbn [lrun lstep]. rewrite (sub_chg _ _ _ _ SK).
      assert (ER : chg R (rev (c :: is)) (fun _ => l) = chg R (rev is) (fun _ => Rose (rdata r) (replace_at c l (rkids r)))).
      { cbn [rev]. rewrite chg_app. rewrite (chg_const _ _ _ _ SR). cbn [chg]. rewrite N. reflexivity. }
      rewrite ER. destruct (level_run c r l r' [n1; n2] h (chg R (rev is) (fun _ => Rose (rdata r) (replace_at c l (rkids r)))) is Ur Un Ul Ur' Lc (sub_chg _ _ _ _ SR)) as (n' & rest & EQ & RL); [auto|].
      exists n', rest. split; [exact EQ|]. rewrite RL. rewrite (chg_chg _ _ _ _ _ SR). reflexivity.
  Qed.
End U.
