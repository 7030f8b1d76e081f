(** What an insertion does to the runs and to the references stored beside them.  Proof support only. *)
From Coq Require Import List ZArith Lia Bool Arith.
From Verif Require Import Base Index Slice Tree Insert Spec Zip Rep Upd Leaf Path Ops Find Ins IterP OrderP LTree LInsert LTreeP LUpP LLeafP LShape LShapeP LUpdP LPlanP.
Import ListNotations.
Local Open Scope Z_scope.

Notation dent := (prod Z (option rid)) (only parsing).
Fixpoint dsum (D : list dent) : Z := match D with [] => 0 | (z, _) :: D' => z + dsum D' end.
Definition dpos (D : list dent) : Prop := Forall (fun e => 0 < fst e) D.
Definition dec {V} (l : list (V * Z)) (L : list (option rid)) : list dent := combine (map snd l) L.

(** The lengths of the runs with their references, before and after an insertion of [n] positions at
    [idx], and which run holds the new slice. *)
Inductive shift (idx n : Z) : list dent -> list dent -> nat -> Prop :=
| sh_join : forall A z r B z', dsum A <= idx <= dsum A + z -> z' = z + n -> shift idx n (A ++ (z, r) :: B) (A ++ (z', r) :: B) (length A)
| sh_one : forall A B, idx = dsum A -> shift idx n (A ++ B) (A ++ (n, None) :: B) (length A)
| sh_two : forall A z r B q, idx = dsum A + q -> 0 < q < z ->
    shift idx n (A ++ (z, r) :: B) (A ++ (q, r) :: (n, None) :: (z - q, None) :: B) (S (length A))
| sh_left : forall A z r B q, idx = dsum A + q -> 0 < q < z ->
    shift idx n (A ++ (z, r) :: B) (A ++ (q + n, r) :: (z - q, None) :: B) (length A)
| sh_right : forall A z r B q, idx = dsum A + q -> 0 < q < z ->
    shift idx n (A ++ (z, r) :: B) (A ++ (q, r) :: (n + (z - q), None) :: B) (S (length A)).

Lemma dsum_app : forall A B, dsum (A ++ B) = dsum A + dsum B.
Proof. induction A as [|[z r] A IH]; intros B; cbn [app dsum]; [lia|rewrite IH; lia]. Qed.
Lemma dpos_app : forall A B, dpos (A ++ B) <-> dpos A /\ dpos B.
Proof. intros. apply Forall_app. Qed.
Lemma dpos_nonneg : forall A, dpos A -> 0 <= dsum A.
Proof. induction A as [|[z r] A IH]; intros H; cbn [dsum]; [lia|]. inversion H; subst. specialize (IH H3). cbn [fst] in *. lia. Qed.
#[export] Hint Rewrite dsum_app : ds.

Lemma app_app_inv : forall {T} (A B C D : list T), A ++ B = C ++ D ->
  (exists u, A = C ++ u /\ D = u ++ B) \/ (exists u, C = A ++ u /\ B = u ++ D).
Proof.
  induction A as [|a A IH]; intros B C D H; cbn [app] in H.
  - right. exists C. auto.
  - destruct C as [|c C]; cbn [app] in H.
    + left. exists (a :: A). auto.
    + injection H as -> H. destruct (IH _ _ _ H) as [(u & -> & ->)|(u & -> & ->)]; [left|right]; exists u; auto.
Qed.

(** A reference stays with its run. *)
Lemma shift_ref : forall idx n D D' i P w r Q, shift idx n D D' i -> dpos D -> 0 < n -> D = P ++ (w, r) :: Q ->
  exists P' w' Q', D' = P' ++ (w', r) :: Q' /\
    dsum P' <= (if dsum P <? idx then dsum P else dsum P + n) < dsum P' + w'.
Proof.
  assert (K : forall idx n A mid0 mid B P w r Q z0, dpos (A ++ mid0 ++ B) -> 0 < n ->
    dsum A <= idx -> (mid0 = [] /\ idx = dsum A \/ exists r0, mid0 = [(z0, r0)] /\ idx <= dsum A + z0 /\
       exists q' mt, mid = (q', r0) :: mt /\ 0 < q' /\ (idx = dsum A -> n < q')) ->
    dsum mid = dsum mid0 + n -> A ++ mid0 ++ B = P ++ (w, r) :: Q ->
    exists P' w' Q', A ++ mid ++ B = P' ++ (w', r) :: Q' /\
      dsum P' <= (if dsum P <? idx then dsum P else dsum P + n) < dsum P' + w').
  { intros idx n A mid0 mid B P w r Q z0 HD Hn Hi Hm Hs E.
    pose proof HD as HD0. apply dpos_app in HD. destruct HD as [HA HB]. apply dpos_app in HB. destruct HB as [H0 HB].
    pose proof (dpos_nonneg _ HA) as NA. pose proof (dpos_nonneg _ HB) as NB. pose proof (dpos_nonneg _ H0) as N0.
    destruct (app_app_inv _ _ _ _ E) as [(u & EA & EB)|(u & EP & EB)].
    - destruct u as [|e u].
      + rewrite app_nil_r in EA. subst P. cbn [app] in EB. symmetry in EB.
        destruct Hm as [[-> ->]|(r0 & -> & Hz & q' & mt & -> & Hq & Hq2)]; cbn [app] in EB.
        * exists (A ++ mid), w, Q. rewrite EB, <- app_assoc. split; [reflexivity|]. rewrite Z.ltb_irrefl, dsum_app. cbn [dsum] in Hs.
          rewrite EB in HB. inversion HB; subst. cbn [fst] in *. lia.
        * injection EB as <- <- <-. exists A, q', (mt ++ B). split; [reflexivity|].
          destruct (Z.ltb_spec (dsum A) idx); [lia|]. assert (idx = dsum A) by lia. specialize (Hq2 ltac:(assumption)). lia.
      + cbn [app] in EB. injection EB as <- EB. subst A. exists P, w, (u ++ mid ++ B).
        split; [rewrite <- app_assoc; reflexivity|]. autorewrite with ds in *. cbn [dsum] in *.
        apply dpos_app in HA. destruct HA as [HP HA]. inversion HA; subst. cbn [fst] in *.
        pose proof (dpos_nonneg _ H3). destruct (Z.ltb_spec (dsum P) idx); lia.
    - destruct (app_app_inv _ _ _ _ EB) as [(v & Em & EC)|(v & Eu & EC)].
      + destruct v as [|e v].
        * rewrite app_nil_r in Em. subst u. cbn [app] in EC. subst B. subst P. exists (A ++ mid), w, Q.
          rewrite <- app_assoc. split; [reflexivity|]. inversion HB; subst. cbn [fst] in *. autorewrite with ds in *.
          destruct (Z.ltb_spec (dsum A + dsum mid0) idx); [|lia]. exfalso.
          destruct Hm as [[-> ->]|(r0 & -> & Hz & _)]; cbn [dsum] in *; lia.
        * cbn [app] in EC. injection EC as <- EC. destruct Hm as [[-> _]|(r0 & -> & Hz & q' & mt & -> & Hq & Hq2)]; [destruct u; discriminate|].
          destruct u as [|? [|]]; [|discriminate|discriminate]. cbn [app] in Em. injection Em as -> -> <-.
          rewrite app_nil_r in EP. subst P. exists A, q', (mt ++ B). split; [reflexivity|].
          destruct (Z.ltb_spec (dsum A) idx); [lia|]. assert (idx = dsum A) by lia. specialize (Hq2 ltac:(assumption)). lia.
      + subst u P B. exists (A ++ mid ++ v), w, Q. split; [rewrite <- !app_assoc; reflexivity|].
        apply dpos_app in HB. destruct HB as [Hv HB]. inversion HB; subst. pose proof (dpos_nonneg _ Hv). cbn [fst] in *.
        autorewrite with ds in *. destruct (Z.ltb_spec (dsum A + (dsum mid0 + dsum v)) idx); [|lia]. exfalso.
        destruct Hm as [[-> ->]|(r0 & -> & Hz & _)]; cbn [dsum] in *; lia. }
  intros idx n D D' i P w r Q H HD Hn E. destruct H; subst.
  - apply dpos_app in HD as HD'. destruct HD' as [_ HD']. inversion HD'; subst. cbn [fst] in *.
    apply (K idx n A [(z, r0)] [(z + n, r0)] B P w r Q z); auto; try lia; [right; exists r0; split; auto; split; [lia|]; exists (z + n), []; split; auto; split; lia|cbn [dsum]; lia].
  - apply (K (dsum A) n A [] [(n, None)] B P w r Q 0); auto; try lia. cbn [dsum]. lia.
  - apply (K (dsum A + q) n A [(z, r0)] [(q, r0); (n, None); (z - q, None)] B P w r Q z); auto; try lia; [right; exists r0; split; auto; split; [lia|]; eexists q, _; split; auto; split; lia|cbn [dsum]; lia].
  - apply (K (dsum A + q) n A [(z, r0)] [(q + n, r0); (z - q, None)] B P w r Q z); auto; try lia; [right; exists r0; split; auto; split; [lia|]; eexists (q + n), _; split; auto; split; lia|cbn [dsum]; lia].
  - apply (K (dsum A + q) n A [(z, r0)] [(q, r0); (n + (z - q), None)] B P w r Q z); auto; try lia; [right; exists r0; split; auto; split; [lia|]; eexists q, _; split; auto; split; lia|cbn [dsum]; lia].
Qed.

(** The run reported by the insertion holds all the inserted positions. *)
Lemma shift_new : forall idx n D D' i, shift idx n D D' i -> dpos D -> 0 < n ->
  exists P w r Q, D' = P ++ (w, r) :: Q /\ length P = i /\ dsum P <= idx /\ idx + n <= dsum P + w.
Proof.
  intros idx n D D' i H HD Hn. destruct H; subst.
  - exists A, (z + n), r, B. repeat split; auto; lia.
  - exists A, n, None, B. repeat split; auto; lia.
  - exists (A ++ [(q, r)]), n, None, ((z - q, None) :: B). rewrite <- app_assoc. split; [reflexivity|].
    rewrite app_length. cbn [length]. split; [lia|]. autorewrite with ds. cbn [dsum]. lia.
  - exists A, (q + n), r, ((z - q, None) :: B). repeat split; auto; lia.
  - exists (A ++ [(q, r)]), (n + (z - q)), None, B. rewrite <- app_assoc. split; [reflexivity|].
    rewrite app_length. cbn [length]. split; [lia|]. autorewrite with ds. cbn [dsum]. lia.
Qed.

Lemma combine_app : forall {A B} (a a' : list A) (b b' : list B), length a = length b ->
  combine (a ++ a') (b ++ b') = combine a b ++ combine a' b'.
Proof. induction a as [|x a IH]; intros a' [|y b] b' H; cbn in *; try lia; [reflexivity|]. f_equal. apply IH. lia. Qed.

Section Dec.
  Context {V : Type}.
  Notation run := (prod V Z) (only parsing).

  Lemma dec_app : forall (A B : list run) LA LB, length LA = length A -> dec (A ++ B) (LA ++ LB) = dec A LA ++ dec B LB.
  Proof. intros. unfold dec. rewrite map_app. apply combine_app. rewrite map_length. auto. Qed.
  Lemma dec_cons : forall s z (B : list run) r LB, dec ((s, z) :: B) (r :: LB) = (z, r) :: dec B LB.
  Proof. reflexivity. Qed.
  Lemma dec_len : forall (A : list run) LA, length LA = length A -> length (dec A LA) = length A.
  Proof. intros. unfold dec. rewrite combine_length, map_length. lia. Qed.
  Lemma dec_sum : forall (A : list run) LA, length LA = length A -> dsum (dec A LA) = rsum A.
  Proof. induction A as [|[s z] A IH]; intros [|r LA] H; cbn [length] in H; try lia; [reflexivity|]. rewrite dec_cons. cbn [dsum rsum]. rewrite IH; lia. Qed.
  Lemma dec_pos : forall (A : list run) LA, length LA = length A -> pos_runs A -> dpos (dec A LA).
  Proof.
    induction A as [|[s z] A IH]; intros [|r LA] H Hp; cbn [length] in H; try lia; [constructor|]. rewrite dec_cons.
    inversion Hp; subst. constructor; auto. apply IH; auto.
  Qed.
  Lemma dec_inv : forall (l : list run) L P w r Q, length L = length l -> dec l L = P ++ (w, r) :: Q ->
    exists A s B LA LB, l = A ++ (s, w) :: B /\ L = LA ++ r :: LB /\ dec A LA = P /\ dec B LB = Q /\ length LA = length A /\ length A = length P.
  Proof.
    induction l as [|[s z] l IH]; intros [|r0 L] P w r Q H E; cbn [length] in H; try lia; [destruct P; discriminate|].
    rewrite dec_cons in E. destruct P as [|p P]; cbn [app] in E.
    - injection E as -> -> <-. exists [], s, l, [], L. repeat split; auto.
    - injection E as <- E. destruct (IH L P w r Q ltac:(lia) E) as (A & s' & B & LA & LB & -> & -> & <- & <- & E1 & E2).
      exists ((s, z) :: A), s', B, (r0 :: LA), LB. repeat split; auto; cbn [length]; auto.
  Qed.
End Dec.

Section Eff.
  Context {I V : Type} (X : index_ops I) (MAX : Z) (inj : Z -> I) (M : nat) (L : index_laws X MAX inj) (HM : (0 < M)%nat).
  Context (Y : slice_ops I V).
  Notation run := (prod V Z) (only parsing).
  Notation rep := (rep inj M).
  Notation rle_rep := (rle_rep inj M).
  Notation jn := (join Y).

  Definition effect (pl : plan) (t : sh) (l l' : list run) (idx : Z) (x : V) (n : Z) (R : list (option rid)) : Prop :=
    exists i R', plan_at pl t R R' i /\ length R' = length l' /\ shift idx n (dec l R) (dec l' R') i /\
      i = inserted_at Y inj l idx x /\
      (plan_stale M pl t = true <-> left_join_only Y inj l idx x = true /\ exists p k, srank t p k = Some i /\ scond M t p k).

  Lemma split_refs : forall (A B : list run) (R : list (option rid)), length R = length (A ++ B) ->
    exists RA RB, R = RA ++ RB /\ length RA = length A /\ length RB = length B.
  Proof.
    intros A B R H. exists (firstn (length A) R), (skipn (length A) R). rewrite firstn_skipn. rewrite app_length in H.
    rewrite firstn_length, skipn_length. split; auto. lia.
  Qed.

  Lemma edge_effect : forall h t A B p k a b x n l' R,
    rep 1 h t (A ++ B) -> rsum (A ++ B) + n <= MAX -> erank t p k = Some (length A) -> length p = h ->
    (sl_may_join Y = true -> lhs_ok t a (length A) /\ rhs_ok t b (length A) (length (A ++ B))) -> A ++ B <> [] -> 0 < n ->
    length R = length (A ++ B) -> insert_runs Y inj (A ++ B) (rsum A) x n = Ok l' ->
    exists j, edge_join Y t a b x = Ok j /\
      effect (match j with Some a => PJoin (fst a) (snd a) | None => PEdge p k end) (shape t) (A ++ B) l' (rsum A) x n R.
  Proof.
    intros h t A B p k a b x n l' R Hrep Hmx He Hp Hab Hne Hn HR Hl.
    assert (Hpos : pos_runs (A ++ B)) by exact (rep_pos _ _ _ _ _ _ Hrep).
    apply pos_runs_app in Hpos. destruct Hpos as [HA HB].
    destruct (split_refs _ _ _ HR) as (RA & RB & -> & HRA & HRB).
    rewrite rsum_app in Hmx.
    assert (Hedge : forall A' x' B', l' = A' ++ (x', n) :: B' -> map snd A' = map snd A -> map snd B' = map snd B ->
      length A = inserted_at Y inj (A ++ B) (rsum A) x -> left_join_only Y inj (A ++ B) (rsum A) x = false -> effect (PEdge p k) (shape t) (A ++ B) l' (rsum A) x n (RA ++ RB)).
    { intros A' x' B' -> EA EB Ei Eljo. assert (LA : length A' = length A) by (rewrite <- (map_length snd), EA, map_length; reflexivity).
      assert (LB : length B' = length B) by (rewrite <- (map_length snd), EB, map_length; reflexivity).
      exists (length A), (RA ++ [None] ++ RB). split.
      - cbn [plan_at]. split; [|split; [rewrite <- erank_shape; exact He|]].
        + rewrite Hp. exact (rep_hsh inj M _ _ _ _ Hrep).
        + rewrite <- HRA, firstn_app_len, skipn_app_len. reflexivity.
      - split; [rewrite !app_length; cbn [length]; rewrite ?app_length; cbn [length]; lia|]. split; [|split; [exact Ei|rewrite Eljo; cbn [plan_stale]; split; [discriminate|intros [? _]; discriminate]]].
        cbn [app]. rewrite !dec_app by lia. rewrite dec_cons. unfold dec at 3 4. rewrite EA, EB. fold (dec A RA) (dec B RB).
        rewrite <- (dec_len A RA HRA). apply sh_one. symmetry. apply dec_sum; auto. }
    assert (Hjoin : forall q j A0 s z B0 A' s' z' B', rank t q j = Some (length A0) -> A ++ B = A0 ++ (s, z) :: B0 ->
      l' = A' ++ (s', z') :: B' -> z' = z + n -> map snd A' = map snd A0 -> map snd B' = map snd B0 -> rsum A0 <= rsum A <= rsum A0 + z ->
      length A0 = inserted_at Y inj (A ++ B) (rsum A) x -> left_join_only Y inj (A ++ B) (rsum A) x = false -> effect (PJoin q j) (shape t) (A ++ B) l' (rsum A) x n (RA ++ RB)).
    { intros q j A0 s z B0 A' s' z' B' Hr E -> Ez EA EB Hs Ei Eljo. rewrite E in HR |- *. rewrite E in Ei, Eljo.
      generalize dependent (RA ++ RB). intros R HR.
      destruct (split_refs A0 ((s, z) :: B0) R HR) as (R0 & R1 & -> & HR0 & HR1).
      destruct R1 as [|r R1]; [discriminate|]. cbn [length] in HR1.
      assert (LA : length A' = length A0) by (rewrite <- (map_length snd), EA, map_length; reflexivity).
      assert (LB : length B' = length B0) by (rewrite <- (map_length snd), EB, map_length; reflexivity).
      exists (length A0), (R0 ++ r :: R1). split.
      - cbn [plan_at]. split; [rewrite <- rank_shape; exact Hr|reflexivity].
      - split; [rewrite !app_length; cbn [length]; lia|]. split; [|split; [exact Ei|rewrite Eljo; cbn [plan_stale]; split; [discriminate|intros [? _]; discriminate]]].
        rewrite !dec_app by lia. rewrite !dec_cons. unfold dec at 3 4. rewrite EA, EB. fold (dec A0 R0) (dec B0 R1).
        rewrite <- (dec_len A0 R0 HR0). apply sh_join; auto. rewrite dec_sum; auto. }
    unfold edge_join. destruct (list_eq_nil A) as [->|(A0 & [s z] & ->)].
    - destruct B as [|[s2 z2] B]; [destruct Hne; reflexivity|]. inversion HB as [|? ? Hz HB']; subst. cbn [snd] in Hz.
      cbn [app rsum] in *. destruct (spec_front Y inj s2 z2 B x n Hz) as (E1 & E2 & E3). rewrite E1 in Hl. cbn [place] in Hl.
      unfold join in Hl. destruct (sl_may_join Y) eqn:Hmj; cbn [negb].
      + destruct (Hab eq_refl) as [Ha Hb]. destruct a as [[pa ka]|]; [destruct Ha as (? & ? & _); discriminate|].
        destruct b as [[pb kb]|]; [|cbn in Hb; discriminate].
        destruct (handle_ok X MAX inj M L HM _ _ _ _ pb kb [] s2 z2 B Hrep ltac:(cbn [rsum]; lia) eq_refl Hb) as (_ & Hsl & _ & _).
        rewrite Hsl. cbn [bind]. destruct (sl_try_join Y x s2) as [j|[x' s']] eqn:Ej; cbn [bind] in Hl; injection Hl as <-; eexists; (split; [reflexivity|]).
        * apply (Hjoin pb kb [] s2 z2 B [] j (n + z2) B); auto; cbn [rsum]; lia.
        * apply (Hedge [] x' ((s', z2) :: B)); auto.
      + cbn [bind] in Hl. injection Hl as <-. eexists. split; [reflexivity|]. apply (Hedge [] x ((s2, z2) :: B)); auto.
    - apply pos_runs_app in HA. destruct HA as [HA0 HA1]. inversion HA1 as [|? ? Hz _]; subst. cbn [snd] in Hz.
      destruct (spec_edge Y inj M HM A0 s z B x n HA0 Hz) as (E1 & E2 & E3). rewrite E1 in Hl. rewrite (ljo_zero Y inj B x HB) in E3.
      assert (LA : length (A0 ++ [(s, z)]) = S (length A0)) by (rewrite app_length; cbn; lia).
      assert (SA : rsum (A0 ++ [(s, z)]) = rsum A0 + z) by (rewrite rsum_app; cbn [rsum]; lia).
      rewrite E2 in Hedge, Hjoin. rewrite LA in Hedge, Hab, He. rewrite SA in *. pose proof (pos_runs_nonneg _ HA0). pose proof (pos_runs_nonneg _ HB).
      unfold join in *. destruct (sl_may_join Y) eqn:Hmj; cbn [negb].
      + destruct (Hab eq_refl) as [Ha Hb]. destruct a as [[pa ka]|]; [|discriminate Ha]. destruct Ha as (r & Er & Ha). injection Er as <-.
        destruct (handle_ok X MAX inj M L HM _ _ _ _ pa ka A0 s z B Hrep ltac:(rewrite !rsum_app; cbn [rsum]; lia) ltac:(rewrite <- app_assoc; reflexivity) Ha) as (_ & Hsa & _ & _).
        rewrite Hsa. cbn [bind].
        destruct B as [|[s2 z2] B].
        * destruct b as [[pb kb]|]; cbn [rhs_ok] in Hb.
          { exfalso. apply rank_count in Hb. pose proof (rep_count _ _ _ _ _ _ Hrep) as Hc. rewrite app_nil_r in Hc. lia. }
          cbn [hd_error tl place bind] in Hl. unfold join in Hl. rewrite Hmj in Hl. cbn [bind] in Hl.
          destruct (sl_try_join Y s x) as [j|[s' x']] eqn:Ej; cbn [bind] in Hl; injection Hl as <-; eexists; (split; [reflexivity|]).
          -- apply (Hjoin pa ka A0 s z [] A0 j (z + n) []); auto; try lia. rewrite <- app_assoc. reflexivity.
          -- apply (Hedge (A0 ++ [(s', z)]) x' []); auto; try lia; [rewrite <- app_assoc; reflexivity|rewrite !map_app; reflexivity].
        * destruct b as [[pb kb]|]; cbn [rhs_ok] in Hb; [|rewrite !app_length in Hb; cbn [length] in Hb; lia].
          cbn [hd_error tl place bind] in Hl. unfold join in Hl. rewrite Hmj in Hl. cbn [rsum] in *. inversion HB as [|? ? Hz2 HB2]; subst. cbn [snd] in Hz2.
          destruct (handle_ok X MAX inj M L HM _ _ _ _ pb kb (A0 ++ [(s, z)]) s2 z2 B Hrep ltac:(rewrite !rsum_app; cbn [rsum]; lia) eq_refl ltac:(rewrite LA; exact Hb)) as (_ & Hsb & _ & _).
          destruct (sl_try_join Y s x) as [m|[s' x']] eqn:Ej; cbn [bind] in Hl.
          -- rewrite Hsb. cbn [bind]. destruct (sl_try_join Y m s2) as [?|[m' s2']] eqn:Ej2; [discriminate|].
             cbn [bind] in Hl. injection Hl as <-. eexists. split; [reflexivity|].
             apply (Hjoin pa ka A0 s z ((s2, z2) :: B) A0 m' (z + n) ((s2', z2) :: B)); auto; try lia. rewrite <- app_assoc. reflexivity.
          -- cbn [fst snd].
             destruct (set_slice_ok inj M HM _ _ _ _ pa ka A0 s z ((s2, z2) :: B) s' Hrep ltac:(rewrite <- app_assoc; reflexivity) Ha) as (t1 & -> & R1 & (_ & S1 & _)).
             cbn [bind]. change (A0 ++ (s', z) :: (s2, z2) :: B) with (A0 ++ [(s', z)] ++ (s2, z2) :: B) in R1. rewrite app_assoc in R1.
             destruct (handle_ok X MAX inj M L HM _ _ _ _ pb kb (A0 ++ [(s', z)]) s2 z2 B R1 ltac:(rewrite !rsum_app; cbn [rsum]; lia) eq_refl ltac:(rewrite S1, app_length; cbn [length]; rewrite Nat.add_1_r; exact Hb)) as (_ & Hsb1 & _ & _).
             rewrite Hsb1. cbn [bind]. destruct (sl_try_join Y x' s2) as [j|[x2 s2']] eqn:Ej2; cbn [bind] in Hl; injection Hl as <-; eexists; (split; [reflexivity|]).
             ++ apply (Hjoin pb kb (A0 ++ [(s, z)]) s2 z2 B (A0 ++ [(s', z)]) j (n + z2) B); auto; try lia; [rewrite LA; exact Hb|rewrite <- app_assoc; reflexivity|rewrite !map_app; reflexivity].
             ++ apply (Hedge (A0 ++ [(s', z)]) x2 ((s2', z2) :: B)); auto; try lia; [rewrite <- app_assoc; reflexivity|rewrite !map_app; reflexivity].
      + eexists. split; [reflexivity|].
        assert (exists A' x' B', l' = A' ++ (x', n) :: B' /\ map snd A' = map snd (A0 ++ [(s, z)]) /\ map snd B' = map snd B) as (A' & x' & B' & El' & EA & EB).
        { destruct B as [|[s2 z2] B]; cbn [hd_error tl place] in Hl; unfold join in Hl; rewrite Hmj in Hl; cbn [bind] in Hl; injection Hl as <-.
          - exists (A0 ++ [(s, z)]), x, []. rewrite <- app_assoc. auto.
          - exists (A0 ++ [(s, z)]), x, ((s2, z2) :: B). rewrite <- app_assoc. auto. }
        apply (Hedge A' x' B'); auto. lia.
  Qed.

  Lemma split_effect : forall h t A s z B p hk k zq x n R,
    rep 1 h t (A ++ (s, z) :: B) -> rsum (A ++ (s, z) :: B) + n <= MAX -> rank t p k = Some (length A) -> hk = (h - length p)%nat ->
    0 < zq < z -> 0 < n -> length R = length (A ++ (s, z) :: B) ->
    exists pl, split_plan Y t p hk k (inj zq) x = Ok pl /\
      effect pl (shape t) (A ++ (s, z) :: B) (A ++ place_inside Y inj s z zq x n ++ B) (rsum A + zq) x n R.
  Proof.
    intros h t A s z B p hk k zq x n R Hrep Hmx Hr Hhk Hq Hn HR.
    assert (Hpos : pos_runs (A ++ (s, z) :: B)) by exact (rep_pos _ _ _ _ _ _ Hrep).
    apply pos_runs_app in Hpos. destruct Hpos as [HA _].
    destruct (split_refs _ _ _ HR) as (RA & RB & -> & HRA & HRB). destruct RB as [|r RB]; [discriminate|]. cbn [length] in HRB.
    destruct (handle_ok X MAX inj M L HM _ _ _ _ p k A s z B Hrep ltac:(lia) eq_refl Hr) as (_ & Hsl & Hlp & _).
    assert (Hh : hsh (length p + hk) (shape t)) by (rewrite Hhk; replace (length p + (h - length p))%nat with h by lia; exact (rep_hsh inj M _ _ _ _ Hrep)).
    assert (Ef : firstn (S (length A)) (RA ++ r :: RB) = RA ++ [r]).
    { change (r :: RB) with ([r] ++ RB). rewrite app_assoc. replace (S (length A)) with (length (RA ++ [r])) by (rewrite app_length; cbn; lia). apply firstn_app_len. }
    assert (Es : skipn (S (length A)) (RA ++ r :: RB) = RB).
    { change (r :: RB) with ([r] ++ RB). rewrite app_assoc. replace (S (length A)) with (length (RA ++ [r])) by (rewrite app_length; cbn; lia). apply skipn_app_len. }
    unfold split_plan, effect. rewrite Hsl. cbn [bind].
    rewrite (at_app Y inj M HM), (ljo_app Y inj M HM) by (auto; lia). cbn [inserted_at left_join_only].
    destruct (Z.eqb_spec zq 0); [lia|]. destruct (Z.ltb_spec zq z); [|lia].
    unfold place_inside. destruct (sl_split_at Y s (inj zq)) as [a b]. cbn [fst]. rewrite <- (dec_len A RA HRA).
    assert (Hs : rsum A + zq = dsum (dec A RA) + zq) by (rewrite dec_sum; auto).
    assert (Htwo : forall a' x' b', exists i R', plan_at (PRhs p hk k true false) (shape t) (RA ++ r :: RB) R' i /\
       length R' = length (A ++ [(a', zq); (x', n); (b', z - zq)] ++ B) /\
       shift (rsum A + zq) n (dec (A ++ (s, z) :: B) (RA ++ r :: RB)) (dec (A ++ [(a', zq); (x', n); (b', z - zq)] ++ B) R') i /\
       i = (length (dec A RA) + 1)%nat /\ (plan_stale M (PRhs p hk k true false) (shape t) = true <-> false = true /\ exists p' k', srank (shape t) p' k' = Some i /\ scond M (shape t) p' k')).
    { intros. exists (S (length A)), ((RA ++ [r]) ++ [None; None] ++ RB). split.
      - exists (length A). rewrite <- rank_shape. split; [exact Hr|]. split; [exact Hh|]. rewrite Ef, Es. repeat split; auto.
      - split; [rewrite !app_length; cbn [length]; lia|]. split; [|rewrite dec_len by auto; split; [lia|cbn [plan_stale]; split; [discriminate|intros [? _]; discriminate]]].
        rewrite <- app_assoc. cbn [app]. rewrite !dec_app by auto. rewrite !dec_cons. rewrite <- (dec_len A RA HRA). apply sh_two; auto. }
    assert (Hrt : forall a' x', exists i R', plan_at (PRhs p hk k false false) (shape t) (RA ++ r :: RB) R' i /\
       length R' = length (A ++ [(a', zq); (x', n + (z - zq))] ++ B) /\
       shift (rsum A + zq) n (dec (A ++ (s, z) :: B) (RA ++ r :: RB)) (dec (A ++ [(a', zq); (x', n + (z - zq))] ++ B) R') i /\
       i = (length (dec A RA) + 1)%nat /\ (plan_stale M (PRhs p hk k false false) (shape t) = true <-> false = true /\ exists p' k', srank (shape t) p' k' = Some i /\ scond M (shape t) p' k')).
    { intros. exists (S (length A)), ((RA ++ [r]) ++ [None] ++ RB). split.
      - exists (length A). rewrite <- rank_shape. split; [exact Hr|]. split; [exact Hh|]. rewrite Ef, Es. repeat split; auto.
      - split; [rewrite !app_length; cbn [length]; lia|]. split; [|rewrite dec_len by auto; split; [lia|cbn [plan_stale]; split; [discriminate|intros [? _]; discriminate]]].
        rewrite <- app_assoc. cbn [app]. rewrite !dec_app by auto. rewrite !dec_cons. rewrite <- (dec_len A RA HRA). apply sh_right; auto. }
    assert (Hlt : forall a' b', exists i R', plan_at (PRhs p hk k false true) (shape t) (RA ++ r :: RB) R' i /\
       length R' = length (A ++ [(a', zq + n); (b', z - zq)] ++ B) /\
       shift (rsum A + zq) n (dec (A ++ (s, z) :: B) (RA ++ r :: RB)) (dec (A ++ [(a', zq + n); (b', z - zq)] ++ B) R') i /\
       i = (length (dec A RA) + 0)%nat /\ (plan_stale M (PRhs p hk k false true) (shape t) = true <-> true = true /\ exists p' k', srank (shape t) p' k' = Some i /\ scond M (shape t) p' k')).
    { intros. exists (length A), ((RA ++ [r]) ++ [None] ++ RB). split.
      - exists (length A). rewrite <- rank_shape. split; [exact Hr|]. split; [exact Hh|]. rewrite Ef, Es. repeat split; auto.
      - split; [rewrite !app_length; cbn [length]; lia|]. split; [|rewrite dec_len by auto; split; [lia|]].
        2:{ cbn [plan_stale]. destruct (rhs_path p hk k) as [q j] eqn:Eq. rewrite rank_shape in Hr.
            rewrite (stale_cond M HM _ _ _ _ _ _ _ Hh Hr Eq). split.
            - intros Hc. split; [reflexivity|]. exists p, k. auto.
            - intros (_ & p' & k' & Hr' & Hc'). rewrite <- !rank_shape in *.
              pose proof (rank_handles _ _ [] _ _ Hr) as N1. pose proof (rank_handles _ _ [] _ _ Hr') as N2. rewrite N1 in N2. cbn [app] in N2. injection N2 as <- <-. exact Hc'. }
        rewrite <- app_assoc. cbn [app]. rewrite !dec_app by auto. rewrite !dec_cons. rewrite <- (dec_len A RA HRA). apply sh_left; auto. }
    unfold join. destruct (sl_may_join Y); cbn [negb].
    - destruct (sl_try_join Y a x) as [m|[a' x']].
      + destruct (sl_try_join Y m b) as [j|[m' b']].
        * eexists. split; [reflexivity|]. exists (length A), (RA ++ r :: RB). split.
          -- cbn [plan_at]. rewrite <- rank_shape. auto.
          -- split; [rewrite !app_length; cbn [length]; lia|]. split; [|rewrite dec_len by auto; split; [lia|cbn [plan_stale]; split; [discriminate|intros [? _]; discriminate]]].
             cbn [app]. rewrite !dec_app by auto. rewrite !dec_cons. rewrite <- (dec_len A RA HRA). apply sh_join; lia.
        * eexists. split; [reflexivity|]. apply Hlt.
      + destruct (sl_try_join Y x' b) as [j|[x2 b']].
        * eexists. split; [reflexivity|]. apply Hrt.
        * eexists. split; [reflexivity|]. apply Htwo.
    - eexists. split; [reflexivity|]. apply Htwo.
  Qed.

  Theorem plan_effect : forall r l hints idx x n l' R, rle_rep r l -> 0 <= idx <= rsum l -> 0 < n -> rsum l + n <= MAX ->
    length R = length l -> insert_runs Y inj l idx x n = Ok l' ->
    exists pl, insert_plan X Y r hints (inj idx) x = Ok pl /\ effect pl (rshape r) l l' idx x n R.
  Proof.
    intros [r|] l hints idx x n l' R Hr Hi Hn Hm HR Hl; cbn [Ins.rle_rep insert_plan rshape] in *.
    2:{ subst l. destruct R; [|discriminate]. cbn [insert_runs place] in Hl. injection Hl as <-. cbn [rsum] in *. assert (idx = 0) by lia. subst idx.
        exists PNew. split; [reflexivity|]. exists 0%nat, [None]. split; [cbn; auto|]. split; [reflexivity|]. split; [|split; [reflexivity|cbn [plan_stale left_join_only]; split; [discriminate|intros [? _]; discriminate]]].
        apply (sh_one 0 n [] []). reflexivity. }
    destruct Hr as [Hrep Hlen].
    assert (F : focus inj M 1 (r_height r) (r_node r) l [] 1 (r_height r) (r_node r) l [] []) by (apply f_here; auto).
    destruct (find_ok X MAX inj M L HM Y _ _ _ _ _ _ _ _ _ _ idx hints None None F) as (ip & Eip & P); try lia.
    { intros _. cbn [lhs_ok rhs_ok length]. split; lia. }
    rewrite Eip. cbn [bind rsum] in *. rewrite Z.add_0_l in P.
    pose proof (rep_ne inj M HM _ _ _ Hrep) as Hne.
    destruct ip as [p k a b|p hk k q]; cbn [point_ok] in P.
    - destruct P as (e & Ee & Hp & He & Hsum & Hab).
      destruct (split_list_at e l He) as (A & B & -> & <-).
      rewrite firstn_app, firstn_all, Nat.sub_diag in Hsum. cbn [firstn] in Hsum. rewrite app_nil_r in Hsum. subst idx.
      destruct (edge_effect _ _ _ _ _ _ _ _ x n l' R Hrep Hm Ee Hp Hab Hne Hn HR Hl) as (j & -> & E). cbn [bind].
      eexists. split; [reflexivity|]. exact E.
    - destruct P as (A & s & z & B & zq & -> & Hrk & Hhk & -> & Hq & Hsum). subst idx.
      pose proof (rep_pos _ _ _ _ _ _ Hrep) as Hpos. apply pos_runs_app in Hpos. destruct Hpos as [HA _].
      rewrite (spec_app Y inj M HM) in Hl by (auto; lia). cbn [insert_runs] in Hl.
      destruct (Z.eqb_spec zq 0); [lia|]. destruct (Z.ltb_spec zq z); [|lia]. cbn [bind] in Hl. injection Hl as <-.
      exact (split_effect _ _ _ _ _ _ _ _ _ _ x n R Hrep Hm Hrk Hhk Hq Hn HR).
  Qed.
End Eff.
