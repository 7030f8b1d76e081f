(** Proofs about moved-out slices. *)
From Coq Require Import List Arith Bool Lia.
From Verif Require Import Base ListFacts Holes.
Import ListNotations.

Section P.
  Context (V : Type) (MAXLEN : nat).
  Notation hnode := (hnode V).
  Notation cell := (cell V).

  (** The recorded holes are exactly the moved-out slices. *)
  Definition listed (h : option nat * option nat) (k : nat) : Prop := fst h = Some k \/ snd h = Some k.
  Definition holes_ok (n : hnode) : Prop :=
    (forall k, is_gone n k <-> listed (hn_holes n) k) /\
    match hn_holes n with (None, _) => True | (Some _, None) => False | (Some x, Some y) => x < y end.

  Lemma gone_lt : forall (n : hnode) k, is_gone n k -> k < hlen n.
  Proof. intros n k H. apply nth_error_Some. unfold is_gone in H. congruence. Qed.

  Lemma gone_replace : forall (n : hnode) k c j h, k < hlen n ->
    (is_gone {| hn_cells := replace_at k c (hn_cells n); hn_holes := h |} j <-> (j = k /\ c = Gone) \/ (j <> k /\ is_gone n j)).
  Proof.
    intros n k c j h L. unfold is_gone. cbn [hn_cells]. destruct (Nat.eq_dec k j) as [->|D].
    - rewrite replace_nth_same by auto. split; [intros E; injection E; auto|]. intros [[_ ->]|[A _]]; congruence.
    - rewrite replace_nth_other by auto. split; [right; auto|]. intros [[A _]|[_ A]]; congruence.
  Qed.

  Lemma is_at_spec : forall k o, is_at k o = true <-> o = Some k.
  Proof. intros k [h|]; cbn; [rewrite Nat.eqb_eq|]; split; congruence. Qed.

  Definition full (h : option nat * option nat) : bool := match h with (Some _, Some _) => true | _ => false end.

  Lemma not_gone : forall (n : hnode) k, k < hlen n -> ~ is_gone n k -> exists v, nth_error (hn_cells n) k = Some (Here v).
  Proof.
    intros n k L G. unfold is_gone in G. destruct (nth_error (hn_cells n) k) as [[v|]|] eqn:E; [eauto|congruence|].
    apply nth_error_None in E. unfold hlen in L. lia.
  Qed.

  Lemma gone_dec : forall (n : hnode) k, is_gone n k \/ ~ is_gone n k.
  Proof. intros n k. unfold is_gone. destruct (nth_error (hn_cells n) k) as [[v|]|]; auto; right; discriminate. Qed.

  (** Taking a slice: panics if it is gone or two others are. *)
  Lemma take_ok : forall n k, holes_ok n -> k < hlen n ->
    (exists v n', take n k = Ok (v, n') /\ nth_error (hn_cells n) k = Some (Here v) /\ hn_cells n' = replace_at k Gone (hn_cells n) /\
       holes_ok n' /\ full (hn_holes n) = false) \/
    (take n k = Panic PInvalid /\ (is_gone n k \/ full (hn_holes n) = true)).
  Proof.
    intros n k [O S] L. unfold take.
    assert (D : forall h, listed h k -> (forall j, j <> k -> (listed h j <-> listed (hn_holes n) j)) -> ~ is_gone n k -> full (hn_holes n) = false ->
        (match h with (None, _) => True | (Some _, None) => False | (Some x, Some y) => x < y end) ->
        exists v n', (let* c := cell_at n k in let* v := value c in Ok (v, {| hn_cells := replace_at k Gone (hn_cells n); hn_holes := h |})) = Ok (v, n') /\
          nth_error (hn_cells n) k = Some (Here v) /\ hn_cells n' = replace_at k Gone (hn_cells n) /\ holes_ok n' /\ full (hn_holes n) = false).
    { intros h L1 L2 G F SS. destruct (not_gone _ _ L G) as [v E]. exists v. eexists. unfold cell_at, nth_ub. rewrite E. cbn [bind value].
      split; [reflexivity|]. split; auto. split; auto. split; auto. split; [|cbn; auto]. intros j. rewrite gone_replace by auto. cbn [hn_holes].
      destruct (Nat.eq_dec j k) as [->|N]; [tauto|]. rewrite L2 by auto. rewrite (O j). tauto. }
    destruct (hn_holes n) as [[x|] [y|]] eqn:H; cbn [bind]; try contradiction.
    - right. auto.
    - assert (Gy : is_gone n y) by (apply O; right; reflexivity).
      destruct (Nat.compare_spec y k) as [->|LT|GT]; cbn [bind].
      + right. auto.
      + left. apply D; auto.
        * right. reflexivity.
        * intros j N. unfold listed. cbn [fst snd]. split; intros [A|A]; auto; try congruence.
        * intros G. apply O in G. destruct G as [G|G]; cbn in G; [discriminate|]. injection G as ->. lia.
      + left. apply D; auto.
        * left. reflexivity.
        * intros j N. unfold listed. cbn [fst snd]. split; intros [A|A]; auto; congruence.
        * intros G. apply O in G. destruct G as [G|G]; cbn in G; [discriminate|]. injection G as ->. lia.
    - left. apply D; auto.
      + right. reflexivity.
      + intros j N. unfold listed. cbn [fst snd]. split; intros [A|A]; congruence.
      + intros G. apply O in G. destruct G as [G|G]; cbn in G; discriminate.
  Qed.

  (** Filling a hole. *)
  Lemma fill_ok : forall n k v, holes_ok n -> k < hlen n -> is_gone n k ->
    exists n', fill n k v = Ok n' /\ hn_cells n' = replace_at k (Here v) (hn_cells n) /\ holes_ok n'.
  Proof.
    intros n k v [O S] L G. unfold fill. pose proof (proj1 (O k) G) as H. destruct (hn_holes n) as [x y] eqn:E. unfold listed in H. cbn [fst snd] in H.
    assert (D : forall z, (forall j, j <> k -> (z = Some j <-> listed (x, y) j)) -> z <> Some k ->
              holes_ok {| hn_cells := replace_at k (Here v) (hn_cells n); hn_holes := (None, z) |}).
    { intros z Q NK. split; [|cbn; auto]. intros j. rewrite gone_replace by auto. cbn [hn_holes]. unfold listed at 1. cbn [fst snd].
      destruct (Nat.eq_dec j k) as [->|N].
      - split; [intros [[_ A]|[A _]]; congruence|]. intros [A|A]; congruence.
      - rewrite (O j), <- (Q j) by auto. split; [intros [[A _]|[_ A]]; [congruence|auto]|]. intros [A|A]; [discriminate|auto]. }
    destruct (is_at k y) eqn:Y.
    - apply is_at_spec in Y. subst y. cbn [bind]. eexists. split; [reflexivity|]. split; [reflexivity|]. apply D.
      + intros j N. unfold listed. cbn [fst snd]. split; [auto|]. intros [A|A]; congruence.
      + destruct x as [x|]; [|discriminate]. intros Q. injection Q as ->. lia.
    - destruct (is_at k x) eqn:Z.
      + apply is_at_spec in Z. subst x. cbn [bind]. eexists. split; [reflexivity|]. split; [reflexivity|]. apply D.
        * intros j N. unfold listed. cbn [fst snd]. split; [auto|]. intros [A|A]; congruence.
        * intros Q. subst y. cbn in Y. rewrite Nat.eqb_refl in Y. discriminate.
      + exfalso. destruct H as [H|H]; rewrite <- is_at_spec in H; congruence.
  Qed.

  Lemma replace_gone : forall (n n' : hnode) k, k < hlen n -> hn_cells n' = replace_at k Gone (hn_cells n) -> is_gone n' k.
  Proof. intros n n' k L E. unfold is_gone. rewrite E. apply replace_nth_same. auto. Qed.

  Lemma hlen_replace : forall (n n' : hnode) k c, hn_cells n' = replace_at k c (hn_cells n) -> hlen n' = hlen n.
  Proof. intros n n' k c E. unfold hlen. rewrite E. apply replace_len. Qed.

  Lemma has_holes_spec : forall n, holes_ok n -> has_holes n = false -> hn_holes n = (None, None) /\ forall k, ~ is_gone n k.
  Proof.
    intros n [O S] H. unfold has_holes in H. destruct (hn_holes n) as [[x|] [y|]]; cbn in *; try discriminate; try contradiction.
    split; auto. intros k G. apply O in G. destruct G; discriminate.
  Qed.

  Lemma nth_insert : forall A k (x : A) l j, k <= length l ->
    nth_error (insert_at k x l) j = if j <? k then nth_error l j else if j =? k then Some x else nth_error l (j - 1).
  Proof.
    intros A k x l j L. unfold insert_at. destruct (Nat.ltb_spec j k) as [H|H].
    - rewrite nth_error_app1 by (rewrite firstn_length; lia). rewrite <- (firstn_skipn k l) at 2.
      rewrite nth_error_app1 by (rewrite firstn_length; lia). reflexivity.
    - rewrite nth_error_app2 by (rewrite firstn_length; lia). rewrite firstn_length. replace (Nat.min k (length l)) with k by lia.
      destruct (Nat.eqb_spec j k) as [->|D].
      + replace (k - k) with 0 by lia. reflexivity.
      + rewrite <- (firstn_skipn k l) at 2. rewrite (nth_error_app2 (firstn k l)) by (rewrite firstn_length; lia). rewrite firstn_length. replace (Nat.min k (length l)) with k by lia.
        replace (j - k) with (S (j - 1 - k)) by lia. reflexivity.
  Qed.

  (** One call. *)
  Lemma hstep_ok : forall n o, holes_ok n -> needs MAXLEN n o = true -> in_place n o ->
    let (out, n') := hstep MAXLEN n o in
    holes_ok n' /\ (out = HUB -> exists k, o = URead k /\ is_gone n k).
  Proof.
    intros n o H N P. destruct o as [k|k v|k1 k2 r|k1 k2 v|k v|v|m lft| |k]; cbn [hstep needs] in *.
    - apply Nat.ltb_lt in N. destruct (take_ok _ _ H N) as [(v & n' & E & _ & C & H' & _)|[E _]]; rewrite E; cbn [hlift snd]; split; auto; discriminate.
    - apply Nat.ltb_lt in N. destruct (take_ok _ _ H N) as [(v0 & n' & E & _ & C & H' & _)|[E _]]; rewrite E; cbn [hlift snd]; [|split; auto; discriminate].
      assert (N' : k < hlen n') by (rewrite (hlen_replace _ _ _ _ C); auto).
      destruct (fill_ok n' k v H' N' (replace_gone _ _ _ N C)) as (n2 & E2 & _ & H2). rewrite E2. cbn [hlift]. split; auto; discriminate.
    - apply andb_true_iff in N. destruct N as [N ND]. apply andb_true_iff in N. destruct N as [N1 N2]. apply Nat.ltb_lt in N1, N2.
      apply negb_true_iff, Nat.eqb_neq in ND.
      destruct (take_ok _ _ H N1) as [(v1 & n1 & E & _ & C1 & H1 & _)|[E _]]; rewrite E; cbn [hlift snd]; [|split; auto; discriminate].
      assert (N2' : k2 < hlen n1) by (rewrite (hlen_replace _ _ _ _ C1); auto).
      destruct (take_ok _ _ H1 N2') as [(v2 & n2 & E2 & _ & C2 & H2 & _)|[E2 _]]; rewrite E2; cbn [hlift snd]; [|split; auto; discriminate].
      destruct r as [[w1 w2]|]; [|split; auto; discriminate].
      assert (L2 : k2 < hlen n2) by (rewrite (hlen_replace _ _ _ _ C2); auto).
      destruct (fill_ok n2 k2 w2 H2 L2 (replace_gone _ _ _ N2' C2)) as (n3 & E3 & C3 & H3). rewrite E3. cbn [hlift].
      assert (L3 : k1 < hlen n3) by (rewrite (hlen_replace _ _ _ _ C3), (hlen_replace _ _ _ _ C2), (hlen_replace _ _ _ _ C1); auto).
      assert (G3 : is_gone n3 k1).
      { unfold is_gone. rewrite C3, C2, C1. rewrite !replace_nth_other by auto. apply replace_nth_same. auto. }
      destruct (fill_ok n3 k1 w1 H3 L3 G3) as (n4 & E4 & C4 & H4). rewrite E4. cbn [hlift]. split; auto; discriminate.
    - apply andb_true_iff in N. destruct N as [N ND]. apply andb_true_iff in N. destruct N as [N1 N2]. apply Nat.ltb_lt in N1, N2.
      apply negb_true_iff, Nat.eqb_neq in ND.
      destruct (take_ok _ _ H N1) as [(v1 & n1 & E & _ & C1 & H1 & _)|[E _]]; rewrite E; cbn [hlift snd]; [|split; auto; discriminate].
      assert (N2' : k2 < hlen n1) by (rewrite (hlen_replace _ _ _ _ C1); auto).
      destruct (take_ok _ _ H1 N2') as [(v2 & n2 & E2 & _ & C2 & H2 & _)|[E2 _]]; rewrite E2; cbn [hlift snd]; [|split; auto; discriminate].
      assert (L2 : k1 < hlen n2) by (rewrite (hlen_replace _ _ _ _ C2), (hlen_replace _ _ _ _ C1); auto).
      assert (G2 : is_gone n2 k1).
      { unfold is_gone. rewrite C2, C1. rewrite replace_nth_other by auto. apply replace_nth_same. auto. }
      destruct (fill_ok n2 k1 v H2 L2 G2) as (n3 & E3 & C3 & H3). rewrite E3. cbn [hlift]. split; auto; discriminate.
    - apply andb_true_iff in N. destruct N as [N1 N2]. apply Nat.leb_le in N1. apply Nat.ltb_lt in N2.
      unfold insert_val. destruct (Nat.ltb_spec (hlen n) k); [lia|]. destruct (Nat.leb_spec MAXLEN (hlen n)); [lia|]. cbn [orb hlift]. split; [|discriminate].
      destruct H as [O S]. split; [|auto]. intros j. cbn [hn_holes]. rewrite <- (O j). unfold is_gone. cbn [hn_cells]. rewrite nth_insert by auto.
      cbn [in_place] in P. unfold is_gone in P. destruct (Nat.ltb_spec j k) as [A|A]; [tauto|]. destruct (Nat.eqb_spec j k) as [->|D].
      + split; [discriminate|]. intros Q. exfalso. eapply (P k); eauto.
      + split; intros Q; exfalso; [eapply (P (j - 1)); eauto; lia|eapply (P j); eauto].
    - apply Nat.ltb_lt in N. unfold push_val. destruct (Nat.leb_spec MAXLEN (hlen n)); [lia|]. cbn [hlift]. split; [|discriminate].
      destruct H as [O S]. split; [|auto]. intros j. cbn [hn_holes]. rewrite <- (O j). unfold is_gone. cbn [hn_cells].
      destruct (lt_dec j (hlen n)) as [A|A].
      + rewrite nth_error_app1 by auto. tauto.
      + rewrite nth_error_app2 by (unfold hlen in A; lia). split; intros Q.
        * destruct (j - length (hn_cells n)) as [|[|?]]; discriminate.
        * apply gone_lt in Q. contradiction.
    - apply Nat.ltb_lt in N. unfold split_vals. destruct (has_holes n) eqn:HH; [cbn; split; auto; discriminate|].
      destruct (has_holes_spec _ H HH) as [E G]. destruct (not_gone _ _ N (G m)) as [v Ev]. unfold cell_at, nth_ub. rewrite Ev. cbn [bind value hlift fst snd].
      split; [|discriminate]. rewrite E.
      assert (Z : forall cs, (forall j, nth_error cs j <> Some Gone) -> holes_ok {| hn_cells := cs; hn_holes := (None, None) |}).
      { intros cs Q. split; [|cbn; auto]. intros j. unfold is_gone, listed. cbn. split; [intros A; exfalso; eapply Q; eauto|]. intros [A|A]; discriminate. }
      destruct lft; apply Z; intros j A.
      + apply (G j). unfold is_gone. rewrite <- (firstn_skipn m (hn_cells n)). rewrite nth_error_app1; auto. apply nth_error_Some. congruence.
      + apply (G (m + 1 + j)). unfold is_gone. rewrite <- (firstn_skipn (m + 1) (hn_cells n)). unfold hlen in N. rewrite nth_error_app2 by (rewrite firstn_length; lia).
        rewrite firstn_length. replace (m + 1 + j - Nat.min (m + 1) (length (hn_cells n))) with j by lia. auto.
    - unfold clone_vals. destruct (has_holes n) eqn:HH; [cbn; split; auto; discriminate|].
      destruct (has_holes_spec _ H HH) as [E G].
      assert (Q : exists vs, mapM value (hn_cells n) = Ok vs).
      { assert (A : forall c, In c (hn_cells n) -> c <> Gone) by (intros c I ->; apply In_nth_error in I; destruct I as [j I]; apply (G j I)).
        revert A. generalize (hn_cells n). induction l as [|c l IH]; intros A; [exists []; reflexivity|].
        destruct IH as [vs E2]; [intros; apply A; right; auto|]. destruct c as [v|]; [|exfalso; apply (A Gone); [left|]; reflexivity]. exists (v :: vs). cbn. rewrite E2. reflexivity. }
      destruct Q as [vs Q]. rewrite Q. cbn [bind hlift]. split; auto; discriminate.
    - apply Nat.ltb_lt in N. unfold read. destruct (is_hole n k); [cbn; split; auto; discriminate|].
      destruct (gone_dec n k) as [G|G].
      + unfold cell_at, nth_ub. rewrite G. cbn. split; eauto.
      + destruct (not_gone _ _ N G) as [v E]. unfold cell_at, nth_ub. rewrite E. cbn. split; auto; discriminate.
  Qed.

  Lemma hrun_ok : forall os n outs n', holes_ok n -> always MAXLEN in_place n os -> hrun MAXLEN n os = Some (outs, n') ->
    holes_ok n' /\ (always MAXLEN looks_away n os -> ~ In HUB outs).
  Proof.
    induction os as [|o os IH]; intros n outs n' H P R; cbn [hrun always] in *.
    - injection R as <- <-. split; auto.
    - destruct (needs MAXLEN n o) eqn:N; [|discriminate]. destruct P as [P1 P2]. pose proof (hstep_ok n o H N P1) as S.
      destruct (hstep MAXLEN n o) as [out n1] eqn:E. destruct S as [S1 S2]. cbn [snd] in P2.
      assert (C : (out = HUB /\ outs = [HUB] /\ n' = n1) \/ (out <> HUB /\ exists outs', outs = out :: outs' /\ hrun MAXLEN n1 os = Some (outs', n'))).
      { destruct out; try (right; split; [discriminate|]; destruct (hrun MAXLEN n1 os) as [[outs' n2]|]; [|discriminate]; injection R as <- <-; eauto; fail).
        left. injection R as <- <-. auto. }
      destruct C as [(-> & -> & ->)|(NU & outs' & -> & R')].
      + split; auto. intros [L _]. destruct (S2 eq_refl) as (k & -> & G). exfalso. apply L. auto.
      + destruct (IH _ _ _ S1 P2 R') as [A B]. split; auto. intros [_ L] [Q|Q]; [congruence|]. apply B in Q; auto.
  Qed.

  Lemma fresh_ok : forall vs : list V, holes_ok (fresh vs).
  Proof.
    intros vs. split; [|cbn; auto]. intros k. unfold is_gone, listed, fresh. cbn [hn_cells hn_holes fst snd]. split; [|intros [A|A]; discriminate].
    intros Q. rewrite nth_error_map in Q. destruct (nth_error vs k); discriminate.
  Qed.

  (** ** Dropping *)

  Definition vals_of (cs : list cell) : list V := flat_map (fun c => match c with Here v => [v] | Gone => [] end) cs.

  Lemma vals_of_app : forall a b, vals_of (a ++ b) = vals_of a ++ vals_of b.
  Proof. intros. unfold vals_of. apply flat_map_app. Qed.

  Lemma mapM_here : forall cs, (forall j, nth_error cs j <> Some Gone) -> mapM value cs = Ok (vals_of cs).
  Proof.
    induction cs as [|c cs IH]; intros H; [reflexivity|]. cbn [mapM vals_of flat_map].
    destruct c as [v|]; [|exfalso; apply (H 0); reflexivity]. cbn [value bind]. rewrite IH by (intros j; apply (H (S j))). reflexivity.
  Qed.

  Lemma cut : forall (cs : list cell) h, nth_error cs h = Some Gone -> cs = firstn h cs ++ Gone :: skipn (h + 1) cs.
  Proof.
    induction cs as [|c cs IH]; intros [|h] E; cbn [nth_error] in E; try discriminate.
    - injection E as ->. reflexivity.
    - cbn [firstn skipn plus app]. f_equal. replace (h + 1) with (h + 1) by auto. apply IH. auto.
  Qed.

  Lemma nth_cons : forall A (x : A) l n, nth_error (x :: l) (S n) = nth_error l n.
  Proof. reflexivity. Qed.

  Lemma drop_ok : forall n, holes_ok n -> drop_vals n = Ok (present n).
  Proof.
    intros n [O SO]. unfold drop_vals, present. change (flat_map (fun c => match c with Here v => [v] | Gone => [] end) (hn_cells n)) with (vals_of (hn_cells n)).
    unfold is_gone in O. set (cs := hn_cells n) in *.
    destruct (hn_holes n) as [[x|] [y|]] eqn:H; try contradiction; unfold listed in O; cbn [fst snd] in O; unfold hlen; fold cs.
    - assert (Gx : nth_error cs x = Some Gone) by (apply O; auto). assert (Gy : nth_error cs y = Some Gone) by (apply O; auto).
      assert (Ly : y < length cs) by (apply nth_error_Some; congruence).
      destruct (Nat.leb_spec y x); [lia|]. destruct (Nat.leb_spec (length cs) y); [lia|]. cbn [orb].
      pose proof (cut cs y Gy) as C1. assert (Gx' : nth_error (firstn y cs) x = Some Gone).
      { rewrite C1 in Gx. rewrite nth_error_app1 in Gx; auto. rewrite firstn_length. lia. }
      pose proof (cut (firstn y cs) x Gx') as C2. rewrite firstn_firstn in C2. replace (Nat.min x y) with x in C2 by lia.
      replace (vals_of cs) with (vals_of (firstn x cs ++ skipn (x + 1) (firstn y cs) ++ skipn (y + 1) cs)).
      + apply mapM_here. intros j G.
        assert (E : cs = firstn x cs ++ Gone :: skipn (x + 1) (firstn y cs) ++ Gone :: skipn (y + 1) cs).
        { rewrite C1 at 1. rewrite C2 at 1. rewrite <- app_assoc. reflexivity. }
        set (A := firstn x cs) in *. set (B := skipn (x + 1) (firstn y cs)) in *. set (D := skipn (y + 1) cs) in *.
        assert (LA : length A = x) by (unfold A; rewrite firstn_length; lia).
        assert (LB : length B = y - x - 1) by (unfold B; rewrite skipn_length, firstn_length; lia).
        clear C2 Gx'. clearbody A B D.
        assert (Q : exists j', nth_error cs j' = Some Gone /\ j' <> x /\ j' <> y).
        { destruct (lt_dec j x) as [J|J].
          - exists j. rewrite nth_error_app1 in G by lia. rewrite E, nth_error_app1 by lia. split; [auto|lia].
          - rewrite nth_error_app2 in G by lia. destruct (lt_dec (j - x) (length B)) as [J2|J2].
            + exists (S j). rewrite nth_error_app1 in G by lia. rewrite E, nth_error_app2 by lia. rewrite LA in *. replace (S j - x) with (S (j - x)) by lia.
              rewrite nth_cons, nth_error_app1 by lia. split; [auto|lia].
            + exists (S (S j)). rewrite nth_error_app2 in G by lia. rewrite E, nth_error_app2 by lia. rewrite LA in *. replace (S (S j) - x) with (S (S (j - x))) by lia.
              rewrite nth_cons, nth_error_app2 by lia. replace (S (j - x) - length B) with (S (j - x - length B)) by lia. rewrite nth_cons. split; [auto|lia]. }
        destruct Q as (j' & G' & N1 & N2). apply O in G'. destruct G'; congruence.
      + rewrite C1 at 4. rewrite C2 at 2. rewrite !vals_of_app. cbn [vals_of flat_map app]. rewrite <- app_assoc. reflexivity.
    - assert (Gy : nth_error cs y = Some Gone) by (apply O; auto).
      assert (Ly : y < length cs) by (apply nth_error_Some; congruence). destruct (Nat.leb_spec (length cs) y); [lia|].
      pose proof (cut cs y Gy) as C1. replace (vals_of cs) with (vals_of (firstn y cs ++ skipn (y + 1) cs)).
      + apply mapM_here. intros j G. set (A := firstn y cs) in *. set (D := skipn (y + 1) cs) in *. assert (LA : length A = y) by (unfold A; rewrite firstn_length; lia). clearbody A D.
        assert (Q : exists j', nth_error cs j' = Some Gone /\ j' <> y).
        { destruct (lt_dec j y) as [J|J].
          - exists j. rewrite nth_error_app1 in G by lia. rewrite C1, nth_error_app1 by lia. split; [auto|lia].
          - exists (S j). rewrite nth_error_app2 in G by lia. rewrite C1, nth_error_app2 by lia. rewrite LA in *. replace (S j - y) with (S (j - y)) by lia. split; [auto|lia]. }
        destruct Q as (j' & G' & N1). apply O in G'. destruct G'; congruence.
      + rewrite C1 at 3. rewrite !vals_of_app. reflexivity.
    - apply mapM_here. intros j G. apply O in G. destruct G; discriminate.
  Qed.

  (** If no key is ever put in front of a moved-out slice: dropping the node drops every slice that is in it,
      once, and nothing else; and there is no undefined behaviour before, unless a moved-out slice is looked at. *)
  Lemma C29_drop_partial_proof : forall (vs : list V) os outs n,
    hrun MAXLEN (fresh vs) os = Some (outs, n) -> always MAXLEN in_place (fresh vs) os ->
    drop_vals n = Ok (present n) /\ (always MAXLEN looks_away (fresh vs) os -> ~ In HUB outs).
  Proof.
    intros vs os outs n R P. destruct (hrun_ok _ _ _ _ (fresh_ok vs) P R) as [A B]. split; auto. apply drop_ok. auto.
  Qed.

  (** In such a state: taking a moved-out slice again, splitting or cloning the node panics.  Looking at a slice
      gives it if it is there.  Looking at a moved-out slice panics only if another one, further right in the same
      node, is moved out too; otherwise it is undefined behaviour. *)
  Lemma C29_access_partial_proof : forall (vs : list V) os outs n k,
    hrun MAXLEN (fresh vs) os = Some (outs, n) -> always MAXLEN in_place (fresh vs) os -> k < hlen n ->
    (is_gone n k -> take n k = Panic PInvalid /\ (forall m, split_vals n m = Panic PInvalid) /\ clone_vals n = Panic PInvalid) /\
    (forall v, nth_error (hn_cells n) k = Some (Here v) -> read n k = Ok v) /\
    (is_gone n k -> (exists j, k < j /\ is_gone n j) -> read n k = Panic PInvalid) /\
    (is_gone n k -> (forall j, k < j -> ~ is_gone n j) -> read n k = UB).
  Proof.
    intros vs os outs n k R P L. destruct (hrun_ok _ _ _ _ (fresh_ok vs) P R) as [H _]. pose proof H as [O S].
    assert (HH : is_gone n k -> has_holes n = true).
    { intros G. apply O in G. unfold has_holes. destruct (hn_holes n) as [x [y|]]; auto. destruct x; [contradiction|]. destruct G; discriminate. }
    split; [|split; [|split]].
    - intros G. split; [|split].
      + destruct (take_ok _ _ H L) as [(v & n' & E & E2 & _)|[E _]]; auto. unfold is_gone in G. congruence.
      + intros m. unfold split_vals. rewrite (HH G). reflexivity.
      + unfold clone_vals. rewrite (HH G). reflexivity.
    - intros v E. unfold read, is_hole. rewrite orb_diag. destruct (is_at k (fst (hn_holes n))) eqn:A.
      + apply is_at_spec in A. assert (G : is_gone n k) by (apply O; left; auto). unfold is_gone in G. congruence.
      + unfold cell_at, nth_ub. rewrite E. reflexivity.
    - intros G (j & J & Gj). apply O in G. apply O in Gj. unfold read, is_hole. rewrite orb_diag.
      assert (E : fst (hn_holes n) = Some k).
      { destruct (hn_holes n) as [x y]. unfold listed in *. cbn [fst snd] in *. destruct G as [G|G]; auto. destruct Gj as [Gj|Gj]; rewrite G in *.
        - rewrite Gj in S. lia.
        - injection Gj as ->. lia. }
      rewrite (proj2 (is_at_spec _ _) E). reflexivity.
    - intros G N. unfold read, is_hole. rewrite orb_diag. destruct (is_at k (fst (hn_holes n))) eqn:A.
      + exfalso. apply is_at_spec in A. destruct (hn_holes n) as [x [y|]] eqn:E; cbn [fst] in A; subst x; [|contradiction].
        apply (N y); [auto|]. apply O. right. reflexivity.
      + unfold cell_at, nth_ub. unfold is_gone in G. rewrite G. reflexivity.
  Qed.
End P.

(** A join panics, the panic is caught, the slice is looked at: it reads what was moved out. *)
Lemma C29_access_refuted_proof : exists os, hrun 4 (fresh [10; 20; 30]) os = Some ([HPanic; HUB], {| hn_cells := [Here 10; Gone; Here 30]; hn_holes := (None, Some 1) |}) /\
  os = [UPanic 1; URead 1].
Proof. eexists. split; [|reflexivity]. vm_compute. reflexivity. Qed.

(** A join panics, then a key is put in front of the moved-out slice: dropping the node drops the moved-out slice
    (and forgets another one). *)
Lemma C29_drop_refuted_proof : exists os outs n, hrun 4 (fresh [10; 20; 30]) os = Some (outs, n) /\ ~ In HUB outs /\
  os = [UPanic 1; UInsert 0 40] /\ drop_vals n = UB.
Proof. do 3 eexists. split; [|split; [|split; [reflexivity|]]]; [vm_compute; reflexivity|cbv; intuition discriminate|vm_compute; reflexivity]. Qed.
