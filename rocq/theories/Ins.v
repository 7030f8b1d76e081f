(** insert_with_cursor refines the flat specification. *)
From Coq Require Import List ZArith Lia Bool Arith.
From Verif Require Import Base Index Slice Tree Insert Spec Zip Rep Upd Leaf Path Ops Find.
Import ListNotations.
Local Open Scope Z_scope.

Section Ins.
  Context {I V : Type} (X : index_ops I) (Y : slice_ops I V) (MAX : Z) (inj : Z -> I) (M : nat).
  Hypothesis L : index_laws X MAX inj.
  Hypothesis HM : (1 <= M)%nat.
  Notation tree := (tree I V).
  Notation run := (prod V Z) (only parsing).
  Notation rep := (@rep I V inj M).
  Notation good := (@good I V inj M).
  Notation focus := (@focus I V inj M).

  Ltac ix := repeat (first [ rewrite (il_addr _ _ _ L) by lia
                           | rewrite (il_addl _ _ _ L) by lia
                           | rewrite (il_subl _ _ _ L) by lia
                           | rewrite (il_subr _ _ _ L) by lia ]; cbn [bind]).

  Definition rle_rep (r : @rle I V) (l : list run) : Prop :=
    match r with
    | None => l = []
    | Some r => rep 1 (r_height r) (r_node r) l /\ r_len r = length l
    end.

  (** ** The specification at a decomposed list *)
  Lemma spec_app : forall A l q x n, pos_runs A -> 0 < q ->
    insert_runs Y inj (A ++ l) (rsum A + q) x n = let* r := insert_runs Y inj l q x n in Ok (A ++ r).
  Proof.
    induction A as [|[s z] A IH]; intros l q x n Hp Hq.
    - cbn [rsum app]. rewrite Z.add_0_l. destruct (insert_runs Y inj l q x n); reflexivity.
    - inversion Hp as [|? ? Hz Hp']; subst. cbn [snd] in Hz. pose proof (pos_runs_nonneg _ Hp').
      cbn [rsum app insert_runs].
      destruct (Z.eqb_spec (z + rsum A + q) 0); [lia|].
      destruct (Z.ltb_spec (z + rsum A + q) z); [lia|].
      destruct (Z.eqb_spec (z + rsum A + q) z); [lia|].
      replace (z + rsum A + q - z) with (rsum A + q) by lia. rewrite IH by auto.
      destruct (insert_runs Y inj l q x n); reflexivity.
  Qed.

  Lemma at_app : forall A l q x, pos_runs A -> 0 < q ->
    inserted_at Y inj (A ++ l) (rsum A + q) x = (length A + inserted_at Y inj l q x)%nat.
  Proof.
    induction A as [|[s z] A IH]; intros l q x Hp Hq.
    - cbn [rsum app length]. rewrite Z.add_0_l. reflexivity.
    - inversion Hp as [|? ? Hz Hp']; subst. cbn [snd] in Hz. pose proof (pos_runs_nonneg _ Hp').
      cbn [rsum app inserted_at length].
      destruct (Z.eqb_spec (z + rsum A + q) 0); [lia|].
      destruct (Z.ltb_spec (z + rsum A + q) z); [lia|].
      destruct (Z.eqb_spec (z + rsum A + q) z); [lia|].
      replace (z + rsum A + q - z) with (rsum A + q) by lia. rewrite IH by auto. lia.
  Qed.

  Lemma ljo_app : forall A l q x, pos_runs A -> 0 < q ->
    left_join_only Y inj (A ++ l) (rsum A + q) x = left_join_only Y inj l q x.
  Proof.
    induction A as [|[s z] A IH]; intros l q x Hp Hq.
    - cbn [rsum app length]. rewrite Z.add_0_l. reflexivity.
    - inversion Hp as [|? ? Hz Hp']; subst. cbn [snd] in Hz. pose proof (pos_runs_nonneg _ Hp').
      cbn [rsum app left_join_only].
      destruct (Z.eqb_spec (z + rsum A + q) 0); [lia|].
      destruct (Z.ltb_spec (z + rsum A + q) z); [lia|].
      replace (z + rsum A + q - z) with (rsum A + q) by lia. apply IH; auto.
  Qed.

  (** ** The insertion of one run at an edge *)
  Lemma edge_plain_ok : forall h t A B p k x n,
    rep 1 h t (A ++ B) -> erank t p k = Some (length A) -> length p = h ->
    0 < n -> rsum A + rsum B + n <= MAX ->
    exists t' h' cur,
      (let* st := upd X M (no_join_leaf X M false k None (x, inj n) None) None t p in finish_root X h st) = Ok (t', h', cur) /\
      rep 1 h' t' (A ++ (x, n) :: B) /\ tracks t' cur (length A).
  Proof.
    intros h t A B p k x n R E Hp Hn Hm.
    destruct (path_focus inj M HM p 1 h t (A ++ B) R) as (lo' & h' & nd & ln & la & lb & F & _);
      [lia | exact (erank_node_at _ _ _ _ E) |].
    destruct (focus_facts inj M HM _ _ _ _ _ _ _ _ _ _ _ F) as (_ & Rn & El & Eh & En).
    assert (h' = O) by lia. subst h'.
    destruct (focus_rank inj M HM _ _ _ _ _ _ _ _ _ _ _ F) as [_ FE]. specialize (FE [] k).
    rewrite app_nil_r, E in FE.
    pose proof Rn as Rl. apply rep_leaf in Rl; auto. destruct Rl as (-> & Hlen & Hpos).
    cbn [erank] in FE. rewrite lents_length in FE.
    destruct (Nat.leb_spec k (length ln)) as [Hk|Hk]; [|discriminate].
    cbn [option_map] in FE. inversion FE as [FE']. rewrite (leaf_before inj M HM) in FE' by lia.
    destruct (split_list_at k ln Hk) as (l1 & l2 & -> & Hl1).
    assert (EA : A = la ++ l1 /\ B = l2 ++ lb).
    { apply app_inv_length; [rewrite El, <- !app_assoc; reflexivity | rewrite app_length; lia]. }
    destruct EA as [-> ->]. pose proof (rep_pos _ _ _ _ _ _ R) as Hpp.
    apply pos_runs_app in Hpp. destruct Hpp as [Ha Hb]. apply pos_runs_app in Ha, Hb.
    pose proof (pos_runs_nonneg _ (proj1 Ha)). pose proof (pos_runs_nonneg _ (proj2 Ha)).
    pose proof (pos_runs_nonneg _ (proj1 Hb)). pose proof (pos_runs_nonneg _ (proj2 Hb)).
    rewrite !rsum_app in Hm.
    destruct (no_join_leaf_ok X MAX inj M L HM lo' false None x n None l1 l1 l2 (Node (inj (rsum (l1 ++ l2))) Nil (lents inj 0 (l1 ++ l2))))
      as (st & E4 & G4); auto; try (rewrite ?rsum_app; cbn [snd_runs rsum]; lia); try discriminate; [constructor|constructor|].
    rewrite Hl1 in E4. cbn [snd_arg] in E4.
    destruct (upd_ok X MAX inj M L HM _ _ _ _ _ _ _ _ _ _ _ _ F _ _ _ E4 G4) as (st' & E5 & G5);
      cbn [snd_runs app]; autorewrite with rs; try lia.
    rewrite E5. cbn [bind].
    destruct (finish_root_ok X MAX inj M L HM _ _ _ _ _ G5) as (t' & h2 & cur & E6 & R6 & _ & T6).
    { cbn [snd_runs app]. autorewrite with rs. lia. }
    exists t', h2, cur. split; auto. split.
    - cbn [snd_runs app] in R6. rewrite <- !app_assoc in R6. cbn [app] in R6. rewrite <- !app_assoc. exact R6.
    - apply T6. cbn [option_map]. f_equal. rewrite app_length. lia.
  Qed.

  (** ** Joins at an edge *)
  Lemma single_join_ok : forall h t p k A s z z' B,
    rep 1 h t (A ++ (s, z) :: B) -> rank t p k = Some (length A) -> z < z' -> rsum A + z' + rsum B <= MAX ->
    exists t' h' cur, single_join X M h t (p, k) (inj z) (inj z') = Ok (Joined t' h' cur) /\
      rep 1 h' t' (A ++ (s, z') :: B) /\ tracks t' cur (length A).
  Proof.
    intros h t p k A s z z' B R H Hz Hm. unfold single_join. cbn [fst snd].
    destruct (key_upd_ok X MAX inj M L HM _ _ _ _ _ _ _ _ _ _ _ R eq_refl H Hz Hm) as (st & -> & G). cbn [bind].
    destruct (finish_root_ok X MAX inj M L HM _ _ _ _ _ G) as (t' & h2 & cur & -> & R6 & _ & T6).
    { autorewrite with rs. lia. }
    cbn [bind]. exists t', h2, cur. repeat split; auto.
  Qed.

  Lemma list_eq_nil : forall (A : list run), A = [] \/ exists A0 a, A = A0 ++ [a].
  Proof. intros A. induction A using rev_ind; eauto. Qed.

  (** ** The specification at an edge *)
  Lemma spec_front : forall s z B x n, 0 < z ->
    insert_runs Y inj ((s, z) :: B) 0 x n = (let* r := place Y None x n (Some (s, z)) in Ok (r ++ B)) /\
    inserted_at Y inj ((s, z) :: B) 0 x = O /\ left_join_only Y inj ((s, z) :: B) 0 x = false.
  Proof. intros. cbn [insert_runs inserted_at left_join_only Z.eqb]. auto. Qed.

  Lemma spec_edge : forall A s z B x n, pos_runs A -> 0 < z ->
    insert_runs Y inj ((A ++ [(s, z)]) ++ B) (rsum (A ++ [(s, z)])) x n =
      (let* r := place Y (Some (s, z)) x n (hd_error B) in Ok (A ++ r ++ tl B)) /\
    inserted_at Y inj ((A ++ [(s, z)]) ++ B) (rsum (A ++ [(s, z)])) x =
      (length A + match join Y s x with inl _ => 0 | inr _ => 1 end)%nat /\
    left_join_only Y inj ((A ++ [(s, z)]) ++ B) (rsum (A ++ [(s, z)])) x =
      left_join_only Y inj B 0 x.
  Proof.
    intros A s z B x n HA Hz. rewrite <- app_assoc. cbn [app]. rewrite rsum_app. cbn [rsum]. rewrite Z.add_0_r.
    rewrite spec_app, at_app, ljo_app by auto. cbn [insert_runs inserted_at left_join_only].
    destruct (Z.eqb_spec z 0); [lia|]. rewrite Z.ltb_irrefl, Z.eqb_refl, Z.sub_diag.
    split; [|split; reflexivity].
    destruct B as [|c B]; cbn [hd_error tl].
    - destruct (place Y (Some (s, z)) x n None); cbn [bind]; try rewrite app_nil_r; reflexivity.
    - destruct (place Y (Some (s, z)) x n (Some c)); cbn [bind]; reflexivity.
  Qed.

  Lemma ljo_zero : forall B x, pos_runs B -> left_join_only Y inj B 0 x = false.
  Proof. intros [|[s z] B] x _; reflexivity. Qed.

  Definition edge_post (h : nat) (t : tree) (l l' : list run) (idx : Z) (x : V) (r : res (tree * nat * list nat * nat)) : Prop :=
    exists t' h' cur added, r = Ok (t', h', cur, added) /\ rep 1 h' t' l' /\
      length l' = (length l + added)%nat /\ tracks t' cur (inserted_at Y inj l idx x).

  Lemma insert_edge_ok : forall h t A B p k a b x n,
    rep 1 h t (A ++ B) -> erank t p k = Some (length A) -> length p = h ->
    (sl_may_join Y = true -> lhs_ok t a (length A) /\ rhs_ok t b (length A) (length (A ++ B))) ->
    A ++ B <> [] -> 0 < n -> rsum A + rsum B + n <= MAX ->
    match insert_runs Y inj (A ++ B) (rsum A) x n with
    | Ok l' => edge_post h t (A ++ B) l' (rsum A) x (insert_edge X Y M h t p k a b x (inj n))
    | Panic w => insert_edge X Y M h t p k a b x (inj n) = Panic w
    | UB => False
    end.
  Proof.
    intros h t A B p k a b x n R E Hp Hab Hne Hn Hm.
    pose proof (rep_pos _ _ _ _ _ _ R) as Hpos. apply pos_runs_app in Hpos. destruct Hpos as [HA HB].
    pose proof (pos_runs_nonneg _ HA). pose proof (pos_runs_nonneg _ HB).
    assert (Hp' : (length p <= h <= length p)%nat) by lia. clear Hp.
    unfold insert_edge.
    destruct (erank_node_at _ _ _ _ E) as (nd & En). rewrite En. cbn [bind].
    assert (Hk : (tlen nd <? k)%nat = false).
    { destruct (path_focus inj M HM p 1 h t (A ++ B) R) as (lo' & h' & nd' & ln & la & lb & F & _); [lia | eauto |].
      destruct (focus_facts inj M HM _ _ _ _ _ _ _ _ _ _ _ F) as (_ & Rn & El & Eh & En').
      rewrite En in En'. inversion En'; subst nd'.
      destruct (focus_rank inj M HM _ _ _ _ _ _ _ _ _ _ _ F) as [_ FE]. specialize (FE [] k).
      rewrite app_nil_r, E in FE. apply Nat.ltb_ge. destruct nd as [|tot c0 es]; [discriminate|].
      cbn [erank] in FE. destruct (Nat.leb_spec k (length es)); [|discriminate]. exact H1. }
    rewrite Hk.
    assert (Plain : forall t1 A' B' x', ss t t1 -> rep 1 h t1 (A' ++ B') -> length A' = length A -> length B' = length B -> rsum A' = rsum A -> rsum B' = rsum B ->
        inserted_at Y inj (A ++ B) (rsum A) x = length A ->
        edge_post h t (A ++ B) (A' ++ (x', n) :: B') (rsum A) x
          (let* st := upd X M (no_join_leaf X M false k None (x', inj n) None) None t1 p in
           let* (t', h', cur) := finish_root X h st in Ok (t', h', cur, 1%nat))).
    { intros t1 A' B' x' (S1 & S2 & S3) R1 L1 L2 L3 L4 Hat.
      destruct (edge_plain_ok h t1 A' B' p k x' n R1) as (t' & h' & cur & E1 & R2 & T); [rewrite S3, E; f_equal; lia | lia | exact Hn | lia |].
      exists t', h', cur, 1%nat. rewrite <- L1 in Hat. rewrite Hat. split.
      - destruct (upd X M (no_join_leaf X M false k None (x', inj n) None) None t1 p); cbn [bind] in *; try discriminate.
        rewrite E1. reflexivity.
      - split; auto. split; auto. rewrite !app_length. cbn [length]. lia. }
    unfold edge_try_join.
    destruct (sl_may_join Y) eqn:Hj; cbn [negb bind].
    2:{ (* no joins *)
        destruct (list_eq_nil A) as [->|(A0 & [s z] & ->)].
        - destruct B as [|[s2 z2] B]; [exfalso; apply Hne; reflexivity|]. inversion HB; subst.
          destruct (spec_front s2 z2 B x n) as (F1 & F2 & _); auto. cbn [app rsum] in *. rewrite F1. cbn [place]. unfold join. rewrite Hj. cbn [bind app].
          apply (Plain t [] ((s2, z2) :: B) x); auto using ss_refl.
        - apply pos_runs_app in HA. destruct HA as [HA0 HA1]. inversion HA1; subst. cbn [snd] in *.
          destruct (spec_edge A0 s z B x n) as (F1 & F2 & _); auto. rewrite F1.
          assert (Hpl : place Y (Some (s, z)) x n (hd_error B) = Ok ((s, z) :: (x, n) :: match hd_error B with None => [] | Some c => [c] end)).
          { unfold place, join. rewrite Hj. destruct B as [|[s2 z2] B]; reflexivity. }
          rewrite Hpl. cbn [bind].
          replace (A0 ++ ((s, z) :: (x, n) :: match hd_error B with Some c => [c] | None => [] end) ++ tl B) with ((A0 ++ [(s, z)]) ++ (x, n) :: B)
            by (rewrite <- app_assoc; destruct B; reflexivity).
          apply Plain; auto using ss_refl. rewrite F2. unfold join. rewrite Hj. rewrite app_length. reflexivity. }
    destruct (Hab eq_refl) as [Ha Hb]. clear Hab.
    destruct (list_eq_nil A) as [->|(A0 & [s z] & ->)].
    - (* at the very front *)
      destruct B as [|[s2 z2] B]; [exfalso; apply Hne; reflexivity|]. inversion HB as [|? ? Hz2 HB']; subst. cbn [snd] in Hz2.
      destruct a as [[pa ka]|]; cbn [lhs_ok] in Ha; [destruct Ha as (r & Ha & _); discriminate|].
      destruct b as [[pb kb]|]; cbn [rhs_ok] in Hb; [|cbn in Hb; discriminate].
      cbn [app length rsum] in *.
      destruct (spec_front s2 z2 B x n Hz2) as (F1 & F2 & _). rewrite F1, F2 in *. cbn [place].
      destruct (handle_ok X MAX inj M L HM _ _ _ _ pb kb [] s2 z2 B R) as (Hs & Hsl & Hl & _); auto; [cbn [rsum]; lia|].
      rewrite Hs. cbn [bind]. rewrite Hsl. cbn [bind fst snd]. unfold join. rewrite Hj.
      pose proof (pos_runs_nonneg _ HB').
      destruct (sl_try_join Y x s2) as [j|[x' s']] eqn:Ej; cbn [bind app].
      + destruct (set_slice_ok inj M HM _ _ _ _ pb kb [] s2 z2 B j R eq_refl Hb) as (t1 & Et1 & R1 & S1). rewrite Et1. cbn [bind app] in *.
        ix. destruct (single_join_ok h t1 pb kb [] j z2 (n + z2) B R1) as (t' & h' & cur & Es & R2 & T2); [destruct S1 as (_ & S1 & _); rewrite S1; exact Hb | lia | cbn [rsum]; lia |].
        rewrite Es. cbn [bind]. unfold edge_post. exists t', h', cur, O. rewrite F2. refine (conj eq_refl (conj R2 (conj _ T2))). cbn [length]; lia.
      + destruct (set_slice_ok inj M HM _ _ _ _ pb kb [] s2 z2 B s' R eq_refl Hb) as (t1 & Et1 & R1 & S1). rewrite Et1. cbn [bind app] in *.
        apply (Plain t1 [] ((s', z2) :: B) x'); auto.
    - apply pos_runs_app in HA. destruct HA as [HA0 HA1]. inversion HA1 as [|? ? Hz _]; subst. cbn [snd] in Hz. clear HA1.
      destruct (spec_edge A0 s z B x n HA0 Hz) as (F1 & F2 & _). rewrite F1, F2 in *. clear F1.
      rewrite app_length in *. cbn [length] in Ha, Hb, E.
      destruct a as [[pa ka]|]; cbn [lhs_ok] in Ha; [|lia]. destruct Ha as (r & Ha & Ra).
      assert (r = length A0) by lia. subst r. clear Ha.
      rewrite <- app_assoc in R. cbn [app] in R. rewrite rsum_app in *. cbn [rsum] in *. rewrite Z.add_0_r in *.
      pose proof (pos_runs_nonneg _ HA0).
      destruct (handle_ok X MAX inj M L HM _ _ _ _ pa ka A0 s z B R) as (Hs & Hsl & Hl & _); auto; [autorewrite with rs; lia|].
      rewrite Hs. cbn [bind].
      destruct B as [|[s2 z2] B].
      + (* at the very end *)
        destruct b as [[pb kb]|]; cbn [rhs_ok] in Hb.
        { exfalso. destruct (handle_view inj M HM _ _ _ _ _ _ _ R Hb) as (? & ? & ? & ? & la & lb & A1 & s1 & z1 & B1 & _ & _ & H3 & H4 & _).
          apply (f_equal (@length _)) in H4. rewrite !app_length in H4. cbn [length] in H4. rewrite !app_length in H4. lia. }
        cbn [bind hd_error tl place]. rewrite Hsl. cbn [bind fst snd]. unfold join in *. rewrite Hj in *.
        destruct (sl_try_join Y s x) as [j|[s' x']] eqn:Ej; cbn [bind app].
        * destruct (set_slice_ok inj M HM _ _ _ _ pa ka A0 s z [] j R eq_refl Ra) as (t1 & Et1 & R1 & S1). rewrite Et1. cbn [bind].
          cbn [rsum] in *. ix.
          destruct (single_join_ok h t1 pa ka A0 j z (z + n) [] R1) as (t' & h' & cur & Es & R2 & T2); [destruct S1 as (_ & S1 & _); rewrite S1; exact Ra | lia | cbn [rsum]; lia |].
          rewrite Es. cbn [bind]. exists t', h', cur, O. rewrite F2. replace (length A0 + 0)%nat with (length A0) by lia. refine (conj eq_refl (conj R2 (conj _ T2))). rewrite !app_length. cbn [length]. lia.
        * destruct (set_slice_ok inj M HM _ _ _ _ pa ka A0 s z [] s' R eq_refl Ra) as (t1 & Et1 & R1 & S1). rewrite Et1. cbn [bind].
          replace (A0 ++ [(s', z); (x', n)]) with ((A0 ++ [(s', z)]) ++ (x', n) :: []) by (rewrite <- app_assoc; reflexivity).
          apply (Plain t1 (A0 ++ [(s', z)]) [] x'); auto; rewrite ?app_nil_r, ?rsum_app, ?app_length; cbn [rsum length]; auto; lia.
      + destruct b as [[pb kb]|]; cbn [rhs_ok] in Hb; [|rewrite !app_length in Hb; cbn [length] in Hb; lia].
        assert (R' : rep 1 h t ((A0 ++ [(s, z)]) ++ (s2, z2) :: B)) by (rewrite <- app_assoc; exact R).
        inversion HB as [|? ? Hz2 HB']; subst. cbn [snd] in Hz2. cbn [rsum] in *. pose proof (pos_runs_nonneg _ HB').
        assert (Rb : forall s0 : V, rank t pb kb = Some (length (A0 ++ [(s0, z)]))) by (intros; rewrite app_length; exact Hb).
        destruct (handle_ok X MAX inj M L HM _ _ _ _ pb kb (A0 ++ [(s, z)]) s2 z2 B R') as (Hs2 & Hsl2 & Hl2 & _); auto; [autorewrite with rs; lia|].
        rewrite Hs2. cbn [bind hd_error tl place]. rewrite Hsl. cbn [bind fst snd]. unfold join in *. rewrite Hj in *.
        destruct (sl_try_join Y s x) as [m|[s' x']] eqn:Ej; cbn [bind app].
        * ix. rewrite Hsl2. cbn [bind].
          destruct (sl_try_join Y m s2) as [j|[m' s2']] eqn:Ej2; cbn [bind app].
          -- ix. reflexivity.
          -- destruct (set_slice_ok inj M HM _ _ _ _ pb kb (A0 ++ [(s, z)]) s2 z2 B s2' R' eq_refl (Rb s)) as (t1 & Et1 & R1 & S1). rewrite Et1. cbn [bind].
             rewrite <- app_assoc in R1. cbn [app] in R1.
             assert (Ra1 : rank t1 pa ka = Some (length A0)) by (destruct S1 as (_ & S1 & _); rewrite S1; exact Ra).
             destruct (set_slice_ok inj M HM _ _ _ _ pa ka A0 s z ((s2', z2) :: B) m' R1 eq_refl Ra1) as (t2 & Et2 & R2 & S2). rewrite Et2. cbn [bind].
             destruct (single_join_ok h t2 pa ka A0 m' z (z + n) ((s2', z2) :: B) R2) as (t' & h' & cur & Es & R3 & T3); [destruct S2 as (_ & S2 & _); rewrite S2; exact Ra1 | lia | cbn [rsum]; lia |].
             rewrite Es. cbn [bind]. exists t', h', cur, O. rewrite F2. replace (length A0 + 0)%nat with (length A0) by lia. refine (conj eq_refl (conj R3 (conj _ T3))). rewrite !app_length. cbn [length]. lia.
        * destruct (set_slice_ok inj M HM _ _ _ _ pa ka A0 s z ((s2, z2) :: B) s' R eq_refl Ra) as (t1 & Et1 & R1 & S1). rewrite Et1. cbn [bind].
          assert (R1' : rep 1 h t1 ((A0 ++ [(s', z)]) ++ (s2, z2) :: B)) by (rewrite <- app_assoc; exact R1).
          assert (Rb1 : rank t1 pb kb = Some (length (A0 ++ [(s', z)]))) by (destruct S1 as (_ & S1 & _); rewrite S1; apply Rb).
          destruct (handle_ok X MAX inj M L HM _ _ _ _ pb kb (A0 ++ [(s', z)]) s2 z2 B R1') as (_ & Hsl3 & _ & _); auto; [autorewrite with rs; lia|].
          rewrite Hsl3. cbn [bind].
          destruct (sl_try_join Y x' s2) as [j|[x2 s2']] eqn:Ej2; cbn [bind app].
          -- destruct (set_slice_ok inj M HM _ _ _ _ pb kb (A0 ++ [(s', z)]) s2 z2 B j R1' eq_refl Rb1) as (t2 & Et2 & R2 & S2). rewrite Et2. cbn [bind].
             ix. destruct (single_join_ok h t2 pb kb (A0 ++ [(s', z)]) j z2 (n + z2) B R2) as (t' & h' & cur & Es & R3 & T3); [destruct S2 as (_ & S2 & _); rewrite S2; exact Rb1 | lia | autorewrite with rs; lia |].
             rewrite Es. cbn [bind]. exists t', h', cur, O. rewrite F2. rewrite <- app_assoc in R3. rewrite app_length in T3. refine (conj eq_refl (conj R3 (conj _ T3))). rewrite !app_length. cbn [length]. lia.
          -- destruct (set_slice_ok inj M HM _ _ _ _ pb kb (A0 ++ [(s', z)]) s2 z2 B s2' R1' eq_refl Rb1) as (t2 & Et2 & R2 & S2). rewrite Et2. cbn [bind].
             replace (A0 ++ (s', z) :: (x2, n) :: (s2', z2) :: B) with ((A0 ++ [(s', z)]) ++ (x2, n) :: (s2', z2) :: B) by (rewrite <- app_assoc; reflexivity).
             apply (Plain t2 (A0 ++ [(s', z)]) ((s2', z2) :: B) x2); auto; rewrite ?rsum_app, ?app_length; cbn [rsum length]; auto; try lia.
             eapply ss_trans; eauto.
  Qed.

  (** ** Insertion strictly inside a run *)
  Lemma insert_split_key_ok : forall nop h t A s z B p k hk q x n,
    rep 1 h t (A ++ (s, z) :: B) -> rank t p k = Some (length A) -> hk = (h - length p)%nat ->
    0 < q < z -> 0 < n -> rsum A + z + rsum B + n <= MAX ->
    exists t' h' cur added,
      insert_split_key X Y M nop h t p hk k (inj q) x (inj n) = Ok (t', h', cur, added) /\
      rep 1 h' t' (A ++ place_inside Y inj s z q x n ++ B) /\
      length (place_inside Y inj s z q x n) = (1 + added)%nat /\
      (left_join_only Y inj ((s, z) :: B) q x = false \/ nop = false /\ hk = O ->
       tracks t' cur (length A + inserted_at Y inj ((s, z) :: B) q x)).
  Proof.
    intros nop h t A s z B p k hk q x n R H Hhk Hq Hn Hm.
    pose proof (rep_pos _ _ _ _ _ _ R) as Hpos. apply pos_runs_app in Hpos. destruct Hpos as [HA HB0].
    inversion HB0 as [|? ? Hz HB]; subst. cbn [snd] in Hz.
    pose proof (pos_runs_nonneg _ HA). pose proof (pos_runs_nonneg _ HB).
    destruct (handle_ok X MAX inj M L HM _ _ _ _ p k A s z B R) as (Hs & Hsl & Hl & _); auto; [autorewrite with rs; lia|].
    unfold insert_split_key. unfold handle_size, handle_slice in Hs, Hsl. cbn [fst snd] in *.
    destruct (node_at t p) as [nd| |] eqn:En; cbn [bind] in *; try discriminate.
    unfold handle_height in Hs. cbn [fst] in Hs. rewrite Hs, Hsl. cbn [bind].
    cbn [left_join_only inserted_at]. destruct (Z.eqb_spec q 0); [lia|]. destruct (Z.ltb_spec q z); [|lia].
    unfold place_inside. destruct (sl_split_at Y s (inj q)) as [lhs rhs] eqn:Esp. cbn [fst].
    destruct (set_slice_ok inj M HM _ _ _ _ p k A s z B lhs R eq_refl H) as (t1 & Et1 & R1 & S1). rewrite Et1. cbn [bind].
    assert (H1' : rank t1 p k = Some (length A)) by (destruct S1 as (_ & S1 & _); rewrite S1; exact H).
    ix. unfold join. destruct (sl_may_join Y) eqn:Hj; cbn [negb].
    2:{ destruct (insert_rhs_ok X MAX inj M L HM h t1 _ p _ k A lhs z q B false x n (Some (rhs, z - q)) R1 eq_refl H1' eq_refl)
          as (t' & h' & cur & E & R2 & _ & T2 & _); try lia; try (cbn [snd_runs rsum]; autorewrite with rs; lia).
        { cbn [snd_runs]. constructor; [cbn [snd]; lia | constructor]. }
        cbn [snd_arg] in E. rewrite E. cbn [bind]. exists t', h', cur, 2%nat. repeat split; auto. }
    destruct (sl_try_join Y lhs x) as [mid|[l' x']] eqn:Ej1.
    - ix. destruct (sl_try_join Y mid rhs) as [j|[m' r']] eqn:Ej2.
      + destruct (set_slice_ok inj M HM _ _ _ _ p k A lhs z B j R1 eq_refl H1') as (t2 & Et2 & R2 & S2). rewrite Et2. cbn [bind].
        assert (H2' : rank t2 p k = Some (length A)) by (destruct S2 as (_ & S2 & _); rewrite S2; exact H1').
        ix. replace (q + (z - q)) with z by lia.
        destruct (key_upd_ok X MAX inj M L HM _ _ _ _ _ _ _ _ z (q + n + (z - q)) _ R2 eq_refl H2') as (st & -> & G); try lia. cbn [bind].
        destruct (finish_root_ok X MAX inj M L HM _ _ _ _ _ G) as (t' & h2 & cur & -> & R6 & _ & T6).
        { autorewrite with rs. lia. }
        cbn [bind]. exists t', h2, cur, O. split; [reflexivity|]. split; [exact R6|]. split; [reflexivity|]. intros _. rewrite Nat.add_0_r. apply T6. reflexivity.
      + destruct (set_slice_ok inj M HM _ _ _ _ p k A lhs z B m' R1 eq_refl H1') as (t2 & Et2 & R2 & S2). rewrite Et2. cbn [bind].
        assert (H2' : rank t2 p k = Some (length A)) by (destruct S2 as (_ & S2 & _); rewrite S2; exact H1').
        destruct (insert_rhs_ok X MAX inj M L HM h t2 _ p _ k A m' z (q + n) B (negb nop) r' (z - q) None R2 eq_refl H2' eq_refl)
          as (t' & h' & cur & E & R3 & _ & T2 & T3); try lia; try (cbn [snd_runs rsum]; autorewrite with rs; lia).
        { constructor. }
        cbn [snd_arg] in E. rewrite E. cbn [bind]. exists t', h', cur, 1%nat. split; [reflexivity|]. split; [exact R3|]. split; [reflexivity|].
        intros [?|[-> Hh]]; [discriminate|]. rewrite Nat.add_0_r. apply T3; auto.
    - destruct (set_slice_ok inj M HM _ _ _ _ p k A lhs z B l' R1 eq_refl H1') as (t2 & Et2 & R2 & S2). rewrite Et2. cbn [bind].
      assert (H2' : rank t2 p k = Some (length A)) by (destruct S2 as (_ & S2 & _); rewrite S2; exact H1').
      destruct (sl_try_join Y x' rhs) as [j|[x2 r']] eqn:Ej2.
      + ix. destruct (insert_rhs_ok X MAX inj M L HM h t2 _ p _ k A l' z q B false j (n + (z - q)) None R2 eq_refl H2' eq_refl)
          as (t' & h' & cur & E & R3 & _ & T2 & _); try lia; try (cbn [snd_runs rsum]; autorewrite with rs; lia).
        { constructor. }
        cbn [snd_arg] in E. rewrite E. cbn [bind]. exists t', h', cur, 1%nat. split; [reflexivity|]. split; [exact R3|]. split; [reflexivity|]. intros _. apply T2. reflexivity.
      + destruct (insert_rhs_ok X MAX inj M L HM h t2 _ p _ k A l' z q B false x2 n (Some (r', z - q)) R2 eq_refl H2' eq_refl)
          as (t' & h' & cur & E & R3 & _ & T2 & _); try lia; try (cbn [snd_runs rsum]; autorewrite with rs; lia).
        { cbn [snd_runs]. constructor; [cbn [snd]; lia | constructor]. }
        cbn [snd_arg] in E. rewrite E. cbn [bind]. exists t', h', cur, 2%nat. repeat split; auto.
  Qed.

  (** ** The refinement theorem *)
  Lemma rep_ne : forall h t l, rep 1 h t l -> l <> [].
  Proof.
    intros h t l. rewrite rep_nrep. intros (c0 & es & lc & l' & _ & Hl & _ & Hs & ->) E.
    apply app_eq_nil in E. destruct E as [_ ->]. inversion Hs; subst.
    - cbn [length] in Hl. lia.
  Qed.

  Lemma rle_size_ok : forall r l, rle_rep r l -> rle_size X r = Ok (inj (rsum l)).
  Proof.
    intros [r|] l H; cbn [rle_rep rle_size] in *.
    - destruct H as [H _]. exact (rep_size _ _ _ _ _ _ H).
    - subst. rewrite (il_zero _ _ _ L). reflexivity.
  Qed.

  (** The cursor of a tree is a path; it reaches run [r] (as the last component names a key or the
      child edge just left of it). *)
  Definition rle_tracks (r : @rle I V) (cur : list nat) (k : nat) : Prop :=
    match r with None => False | Some r => tracks (r_node r) cur k end.

  Theorem insert_with_cursor_ok : forall nop r l hints idx x n,
    rle_rep r l -> 0 <= idx <= rsum l -> 0 < n -> rsum l + n <= MAX ->
    match insert_runs Y inj l idx x n with
    | Ok l' => exists r' cur, insert_with_cursor X Y M nop r hints (inj idx) x (inj n) = Ok (r', cur) /\
        rle_rep r' l' /\
        (left_join_only Y inj l idx x = false -> rle_tracks r' cur (inserted_at Y inj l idx x))
    | Panic w => insert_with_cursor X Y M nop r hints (inj idx) x (inj n) = Panic w
    | UB => False
    end.
  Proof.
    intros nop r l hints idx x n Hr Hi Hn Hm. unfold insert_with_cursor.
    rewrite (rle_size_ok _ _ Hr). cbn [bind]. rewrite (il_ltb _ _ _ L) by lia. destruct (Z.ltb_spec (rsum l) idx); [lia|].
    unfold ix_leb. rewrite (il_zero _ _ _ L), (il_ltb _ _ _ L) by lia. destruct (Z.ltb_spec 0 n); [|lia]. cbn [negb].
    destruct r as [r|]; cbn [rle_rep] in Hr.
    2:{ subst l. cbn [insert_runs place bind]. unfold rle_new. cbn [rsum] in *.
        unfold ix_leb. rewrite (il_zero _ _ _ L), (il_ltb _ _ _ L) by lia. destruct (Z.ltb_spec 0 n); [|lia]. cbn [negb bind].
        eexists. eexists. split; [reflexivity|]. split.
        - cbn [rle_rep r_height r_node r_len length]. split; auto. apply (rep_leaf inj M HM). cbn [lents rsum length].
          rewrite Z.add_0_r. split; auto. split; [lia|]. repeat constructor; cbn [snd]; lia.
        - intros _. cbn [rle_tracks r_node inserted_at]. apply (leaf_tracks inj M HM _ 0 [(x, n)]). cbn; lia. }
    destruct Hr as [R Hlen].
    assert (F : focus 1 (r_height r) (r_node r) l [] 1 (r_height r) (r_node r) l [] []) by (apply f_here; auto).
    destruct (find_ok X MAX inj M L HM Y _ _ _ _ _ _ _ _ _ _ idx hints None None F) as (ip & Eip & P); try lia.
    { intros _. cbn [lhs_ok rhs_ok length]. split; lia. }
    rewrite Eip. cbn [bind rsum] in *. rewrite Z.add_0_l in P.
    pose proof (rep_ne _ _ _ R) as Hne.
    destruct ip as [p k a b|p hk k q]; cbn [point_ok] in P.
    - destruct P as (e & Ee & Hp & He & Hsum & Hab).
      destruct (split_list_at e l He) as (A & B & -> & <-).
      rewrite firstn_app, firstn_all, Nat.sub_diag in Hsum. cbn [firstn] in Hsum. rewrite app_nil_r in Hsum.
      rewrite <- Hsum. rewrite rsum_app in Hm.
      pose proof (insert_edge_ok (r_height r) (r_node r) A B p k a b x n R Ee Hp Hab Hne Hn ltac:(lia)) as IE.
      destruct (insert_runs Y inj (A ++ B) (rsum A) x n) as [l'| |]; auto.
      + destruct IE as (t' & h' & cur & added & -> & R' & Hl' & T'). cbn [bind].
        eexists. eexists. split; [reflexivity|]. split.
        * cbn [rle_rep r_height r_node r_len]. split; auto. rewrite Hl'. lia.
        * intros _. exact T'.
      + rewrite IE. reflexivity.
    - destruct P as (A & s & z & B & zq & -> & Hr & Hhk & -> & Hq & Hsum).
      rewrite <- Hsum. rewrite rsum_app in Hm. cbn [rsum] in Hm.
      pose proof (rep_pos _ _ _ _ _ _ R) as Hpos. apply pos_runs_app in Hpos. destruct Hpos as [HA _].
      rewrite spec_app, at_app, ljo_app by (auto; lia).
      destruct (insert_split_key_ok nop _ _ _ _ _ _ _ _ _ zq x n R Hr Hhk Hq Hn) as (t' & h' & cur & added & E & R' & Hl' & T'); [lia|].
      rewrite E. cbn [bind insert_runs]. destruct (Z.eqb_spec zq 0); [lia|]. destruct (Z.ltb_spec zq z); [|lia]. cbn [bind].
      eexists. eexists. split; [reflexivity|]. split.
      + cbn [rle_rep r_height r_node r_len]. split; auto. rewrite !app_length, Hl'. rewrite Hlen, app_length. cbn [length]. lia.
      + intros Hl. apply T'. left. exact Hl.
  Qed.
End Ins.
