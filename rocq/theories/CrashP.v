(** What a panic of the slice type leaves behind.  Proof support only. *)
From Coq Require Import List ZArith Lia Bool Arith.
From Verif Require Import Base Index Slice Tree Insert Spec Zip Rep Upd Leaf Path Ops Find Ins Crash CrashSpec.
Import ListNotations.
Local Open Scope Z_scope.

Section Tmap.
  Context {I V W : Type} (f : V -> W) (inj : Z -> I) (M : nat).

  Definition rmap (r : V * Z) : W * Z := (f (fst r), snd r).
  Definition emap (e : entry_of I V) : entry_of I W := (e_pos e, f (e_slice e), tmap f (snd e)).

  Lemma rsum_rmap : forall l, rsum (map rmap l) = rsum l.
  Proof. induction l as [|[s z] l IH]; cbn [map rsum rmap fst snd]; congruence. Qed.

  Lemma tmap_Node : forall tot c0 es, tmap f (Node tot c0 es : tree I V) = Node tot (tmap f c0) (map emap es).
  Proof. reflexivity. Qed.

  Lemma tmap_seg : forall (R : tree I V -> _ -> Prop) (R' : tree I W -> _ -> Prop),
    (forall t l, R t l -> R' (tmap f t) (map rmap l)) ->
    forall off es l, seg inj R off es l -> seg inj R' off (map emap es) (map rmap l).
  Proof.
    intros R R' HR off es l H. induction H as [off|off z s ch lc es l Hz Hc H IH]; [constructor|].
    cbn [map]. rewrite map_app. unfold emap at 1, rmap at 1. cbn [fst snd e_pos e_slice]. constructor; auto.
    rewrite rsum_rmap. exact IH.
  Qed.

  Lemma tmap_rep : forall h lo t l, rep inj M lo h t l -> rep inj M lo h (tmap f t) (map rmap l).
  Proof.
    induction h as [|h IH]; intros lo t l; rewrite !rep_nrep; intros (c0 & es & lc & l' & -> & Hl & H0 & H & ->);
      exists (tmap f c0), (map emap es), (map rmap lc), (map rmap l'); rewrite tmap_Node, map_length, !rsum_rmap, !map_app;
      (split; [reflexivity|]); (split; [exact Hl|]).
    - destruct H0 as [-> ->]. split; [split; reflexivity|]. split; [|reflexivity].
      eapply tmap_seg; [|exact H]. intros t l [-> ->]. split; reflexivity.
    - cbn [childR] in *. split; [apply IH; auto|]. split; [|reflexivity]. eapply tmap_seg; [|exact H]. intros. apply IH; auto.
  Qed.

  Lemma tmap_count : forall t : tree I V, count (tmap f t) = count t.
  Proof.
    fix G 1. intros [|tot c0 es]; [reflexivity|]. cbn [tmap count]. rewrite (G c0). f_equal.
    induction es as [|[k ch] es IH]; [reflexivity|]. cbn [map snd]. rewrite (G ch), IH. reflexivity.
  Qed.

  Lemma tmap_child : forall c0 es c, child_of (tmap f c0) (map emap es) c = match child_of c0 es c with Ok t => Ok (tmap f t) | Panic w => Panic w | UB => UB end.
  Proof.
    intros c0 es [|k]; [reflexivity|]. cbn [child_of]. unfold nth_ub. rewrite nth_error_map. destruct (nth_error es k); reflexivity.
  Qed.

  Lemma tmap_before : forall c c0 es, before (tmap f c0) (map emap es) c = before c0 es c.
  Proof.
    induction c as [|c IH]; intros c0 es; [reflexivity|]. cbn [before]. destruct es as [|[k ch] es]; [reflexivity|].
    cbn [map emap snd]. rewrite tmap_count, IH. reflexivity.
  Qed.

  Lemma tmap_rank : forall p (t : tree I V) k, rank (tmap f t) p k = rank t p k.
  Proof.
    induction p as [|c p IH]; intros [|tot c0 es] k; try reflexivity; rewrite tmap_Node; cbn [rank]; rewrite tmap_child, tmap_before.
    - rewrite map_length. destruct (k <? length es)%nat; auto. destruct (child_of c0 es k); auto. rewrite tmap_count. reflexivity.
    - destruct (child_of c0 es c); auto. rewrite IH. reflexivity.
  Qed.
End Tmap.

Section CrashP.
  Context {I V : Type} (X : index_ops I) (F : fslice_ops I V) (MAX : Z) (inj : Z -> I) (M : nat).
  Hypothesis L : index_laws X MAX inj.
  Hypothesis HM : (1 <= M)%nat.
  Notation tree := (tree I V).
  Notation run := (prod V Z) (only parsing).
  Notation rep := (@rep I V inj M).
  Notation orep := (@Rep.rep I (option V) inj M).
  Notation keep := (@keep V).
  Notation U := (unfailing F).

  Ltac ix := repeat (first [ rewrite (il_addr _ _ _ L) by lia
                           | rewrite (il_addl _ _ _ L) by lia
                           | rewrite (il_subl _ _ _ L) by lia
                           | rewrite (il_subr _ _ _ L) by lia ]; cbn [bind]).

  (** ** The specification at a decomposed list *)

  Lemma lost_app : forall A l q x, pos_runs A -> 0 < q ->
    lost F inj (A ++ l) (rsum A + q) x = option_map (fun p => (map keep A ++ fst p, snd p)) (lost F inj l q x).
  Proof.
    induction A as [|[s z] A IH]; intros l q x Hp Hq.
    - cbn [rsum app map]. rewrite Z.add_0_l. destruct (lost F inj l q x) as [[? ?]|]; reflexivity.
    - inversion Hp as [|? ? Hz Hp']; subst. cbn [snd] in Hz. pose proof (pos_runs_nonneg _ Hp').
      cbn [rsum app lost].
      destruct (Z.eqb_spec (z + rsum A + q) 0); [lia|].
      destruct (Z.ltb_spec (z + rsum A + q) z); [lia|].
      destruct (Z.eqb_spec (z + rsum A + q) z); [lia|].
      replace (z + rsum A + q - z) with (rsum A + q) by lia. rewrite IH by auto.
      destruct (lost F inj l q x) as [[? ?]|]; reflexivity.
  Qed.

  Lemma lost_inside_app : forall A s z B q x, pos_runs A -> 0 < q < z ->
    lost F inj (A ++ (s, z) :: B) (rsum A + q) x = option_map (fun p => (map keep A ++ fst p ++ map keep B, snd p)) (lost_inside F inj s z q x).
  Proof.
    intros A s z B q x HA Hq. rewrite lost_app by (auto; lia). cbn [lost].
    destruct (Z.eqb_spec q 0); [lia|]. destruct (Z.ltb_spec q z); [|lia]. unfold after. destruct (lost_inside F inj s z q x) as [[? ?]|]; reflexivity.
  Qed.

  Lemma lost_edge_app : forall A s z B x, pos_runs A -> 0 < z ->
    lost F inj (A ++ (s, z) :: B) (rsum A + z) x
    = option_map (fun p => (map keep A ++ fst p ++ map keep (tl B), snd p)) (lost_between F (Some (s, z)) x (hd_error B)).
  Proof.
    intros A s z B x HA Hz. rewrite lost_app by (auto; lia). cbn [lost].
    destruct (Z.eqb_spec z 0); [lia|]. destruct (Z.ltb_spec z z); [lia|]. rewrite Z.eqb_refl.
    destruct B as [|c B]; cbn [hd_error tl map]; unfold after.
    - destruct (lost_between F (Some (s, z)) x None) as [[? ?]|]; cbn [option_map fst snd]; rewrite ?app_nil_r; reflexivity.
    - destruct (lost_between F (Some (s, z)) x (Some c)) as [[? ?]|]; reflexivity.
  Qed.

  (** ** Slices moved out *)

  Lemma keep_rmap : forall l : list run, map (rmap Some) l = map keep l.
  Proof. reflexivity. Qed.

  Lemma orep_tmap : forall h lo t l, rep lo h t l -> orep lo h (tmap Some t) (map keep l).
  Proof. intros. rewrite <- keep_rmap. apply tmap_rep. exact H. Qed.

  Lemma hollow1 : forall lo h (t : tree) A s z B p k, rep lo h t (A ++ (s, z) :: B) -> rank t p k = Some (length A) ->
    exists t', hollow (tmap Some t) (@cons handle (p, k) (@nil handle)) = Ok t' /\ orep lo h t' (map keep A ++ (None, z) :: map keep B).
  Proof.
    intros lo h t A s z B p k R H. apply orep_tmap in R. rewrite map_app in R. cbn [map] in R. unfold CrashSpec.keep at 2 in R. cbn [fst snd] in R.
    destruct (set_slice_ok inj M HM _ _ _ _ p k (map keep A) (Some s) z (map keep B) None R eq_refl) as (t' & E & R' & _).
    { rewrite tmap_rank, map_length. exact H. }
    exists t'. cbn [hollow fst snd]. rewrite E. cbn [bind]. auto.
  Qed.

  Lemma hollow2 : forall lo h (t : tree) A s z s2 z2 B p k p2 k2, rep lo h t (A ++ (s, z) :: (s2, z2) :: B) ->
    rank t p k = Some (length A) -> rank t p2 k2 = Some (S (length A)) ->
    exists t', hollow (tmap Some t) (@cons handle (p, k) (@cons handle (p2, k2) (@nil handle))) = Ok t' /\ orep lo h t' (map keep A ++ (None, z) :: (None, z2) :: map keep B).
  Proof.
    intros lo h t A s z s2 z2 B p k p2 k2 R H H2. apply orep_tmap in R. rewrite map_app in R. cbn [map] in R.
    unfold CrashSpec.keep at 2 3 in R. cbn [fst snd] in R.
    destruct (set_slice_ok inj M HM _ _ _ _ p k (map keep A) (Some s) z ((Some s2, z2) :: map keep B) None R eq_refl) as (t' & E & R' & S').
    { rewrite tmap_rank, map_length. exact H. }
    assert (R2 : orep lo h t' ((map keep A ++ [(None, z)]) ++ (Some s2, z2) :: map keep B)) by (rewrite <- app_assoc; exact R').
    destruct (set_slice_ok inj M HM _ _ _ _ p2 k2 (map keep A ++ [(None, z)]) (Some s2) z2 (map keep B) None R2 eq_refl) as (t2 & E2 & R3 & _).
    { destruct S' as (_ & S' & _). rewrite S', tmap_rank, app_length, map_length. cbn [length]. rewrite Nat.add_1_r. exact H2. }
    rewrite <- app_assoc in R3. exists t2. cbn [hollow fst snd]. rewrite E. cbn [bind]. rewrite E2. cbn [bind]. auto.
  Qed.

  (** ** Agreement when nothing panics *)
  Ltac go := repeat first [ reflexivity | match goal with
    | |- context [match ?e with pair _ _ => _ end] => is_var e; destruct e; cbn [bind]
    | |- context [match ?e with Joined _ _ _ => _ | NotJoined _ _ => _ end] => is_var e; destruct e; cbn [bind]
    | |- context [bind ?e _] =>
      lazymatch e with context [bind _ _] => fail | Ok _ => cbn [bind] | Panic _ => cbn [bind] | UB => cbn [bind] | _ => destruct e; cbn [bind] end
    end ].

  Definition edge_res (h : nat) (t : tree) (l : list run) (idx : Z) (x : V) (f : res (@fres I V (tree * nat * list nat * nat)))
             (g : res (tree * nat * list nat * nat)) : Prop :=
    match lost F inj l idx x with
    | None => f = let* q := g in Ok (FRet q)
    | Some (l', todo) => exists t', f = Ok (FCrash t' (if todo then 1 else 0)%nat) /\ orep 1 h t' l'
    end.
  Lemma finsert_edge_ok : forall h t A B p k a b x n,
    rep 1 h t (A ++ B) -> erank t p k = Some (length A) -> length p = h ->
    (fs_may_join F = true -> lhs_ok t a (length A) /\ rhs_ok t b (length A) (length (A ++ B))) ->
    A ++ B <> [] -> 0 < n -> rsum A + rsum B + n <= MAX ->
    edge_res h t (A ++ B) (rsum A) x (finsert_edge X F M h t p k a b x (inj n)) (insert_edge X U M h t p k a b x (inj n)).
  Proof.
    intros h t A B p k a b x n R E Hp Hab Hne Hn Hm. unfold edge_res.
    pose proof (rep_pos _ _ _ _ _ _ R) as Hpos. apply pos_runs_app in Hpos. destruct Hpos as [HA HB].
    pose proof (pos_runs_nonneg _ HA). pose proof (pos_runs_nonneg _ HB).
    unfold finsert_edge, insert_edge.
    destruct (erank_node_at _ _ _ _ E) as (nd & En). rewrite En. cbn [bind].
    assert (Hk : (tlen nd <? k)%nat = false).
    { destruct (path_focus inj M HM p 1 h t (A ++ B) R) as (lo' & h' & nd' & ln & la & lb & Fo & _); [lia | eauto |].
      destruct (focus_facts inj M HM _ _ _ _ _ _ _ _ _ _ _ Fo) as (_ & Rn & El & Eh & En').
      rewrite En in En'. inversion En'; subst nd'.
      destruct (focus_rank inj M HM _ _ _ _ _ _ _ _ _ _ _ Fo) as [_ FE]. specialize (FE [] k).
      rewrite app_nil_r, E in FE. apply Nat.ltb_ge. destruct nd as [|tot c0 es]; [discriminate|].
      cbn [erank] in FE. destruct (Nat.leb_spec k (length es)); [|discriminate]. exact H1. }
    rewrite Hk. unfold fedge_try_join, edge_try_join, crash. cbn [unfailing sl_may_join sl_try_join].
    destruct (fs_may_join F) eqn:Hj; cbn [negb bind].
    2:{ assert (EL : lost F inj (A ++ B) (rsum A) x = None).
        { destruct (list_eq_nil A) as [->|(A0 & [s z] & ->)].
          - destruct B as [|[s2 z2] B]; [reflexivity|]. cbn [app rsum lost Z.eqb]. unfold lost_between. rewrite Hj. reflexivity.
          - apply pos_runs_app in HA. destruct HA as [HA0 HA1]. inversion HA1; subst. cbn [snd] in *.
            rewrite <- app_assoc, rsum_app. cbn [app rsum]. rewrite Z.add_0_r, lost_edge_app by auto. unfold lost_between. rewrite Hj. reflexivity. }
        rewrite EL. go. }
    destruct (Hab eq_refl) as [Ha Hb]. clear Hab.
    destruct (list_eq_nil A) as [->|(A0 & [s z] & ->)].
    - (* at the very front *)
      destruct B as [|[s2 z2] B]; [exfalso; apply Hne; reflexivity|]. inversion HB as [|? ? Hz2 HB']; subst. cbn [snd] in Hz2.
      destruct a as [[pa ka]|]; cbn [lhs_ok] in Ha; [destruct Ha as (r & Ha & _); discriminate|].
      destruct b as [[pb kb]|]; cbn [rhs_ok] in Hb; [|cbn in Hb; discriminate].
      cbn [app length rsum lost Z.eqb] in *. unfold lost_between. rewrite Hj.
      destruct (handle_ok X MAX inj M L HM _ _ _ _ pb kb [] s2 z2 B R) as (Hs & Hsl & Hl & _); auto; [cbn [rsum]; lia|].
      rewrite Hs. cbn [bind]. rewrite Hsl. cbn [bind fst snd].
      destruct (fs_try_join F x s2) as [[j|[x' s']]|] eqn:Ej; cbn [after option_map fst snd].
      + go.
      + go.
      + destruct (hollow1 1 _ t [] s2 z2 B pb kb R Hb) as (t' & Et & R'). exists t'. rewrite Et. cbn [bind]. auto.
    - apply pos_runs_app in HA. destruct HA as [HA0 HA1]. inversion HA1 as [|? ? Hz _]; subst. cbn [snd] in Hz. clear HA1.
      rewrite app_length in *. cbn [length] in Ha, Hb, E.
      destruct a as [[pa ka]|]; cbn [lhs_ok] in Ha; [|lia]. destruct Ha as (r & Ha & Ra).
      assert (r = length A0) by lia. subst r. clear Ha.
      rewrite <- app_assoc in *. cbn [app] in *. rewrite rsum_app in *. cbn [rsum] in *. rewrite Z.add_0_r in *.
      rewrite lost_edge_app by auto.
      pose proof (pos_runs_nonneg _ HA0).
      destruct (handle_ok X MAX inj M L HM _ _ _ _ pa ka A0 s z B R) as (Hs & Hsl & Hl & _); auto; [autorewrite with rs; lia|].
      rewrite Hs. cbn [bind]. unfold lost_between. rewrite Hj.
      destruct B as [|[s2 z2] B].
      + (* at the very end *)
        destruct b as [[pb kb]|]; cbn [rhs_ok] in Hb.
        { exfalso. destruct (handle_view inj M HM _ _ _ _ _ _ _ R Hb) as (? & ? & ? & ? & la & lb & A1 & s1 & z1 & B1 & _ & _ & H3 & H4 & _).
          apply (f_equal (@length _)) in H4. rewrite !app_length in H4. cbn [length] in H4. rewrite !app_length in H4. lia. }
        cbn [bind hd_error tl]. rewrite Hsl. cbn [bind fst snd].
        destruct (fs_try_join F s x) as [[j|[s' x']]|] eqn:Ej; cbn [option_map fst snd map].
        * go.
        * go.
        * destruct (hollow1 1 _ t A0 s z [] pa ka R Ra) as (t' & Et & R'). exists t'. rewrite Et. cbn [bind]. auto.
      + destruct b as [[pb kb]|]; cbn [rhs_ok] in Hb; [|rewrite !app_length in Hb; cbn [length] in Hb; lia].
        assert (R' : rep 1 (length p) t ((A0 ++ [(s, z)]) ++ (s2, z2) :: B)) by (rewrite <- app_assoc; exact R).
        inversion HB as [|? ? Hz2 HB']; subst. cbn [snd] in Hz2. cbn [rsum] in *. pose proof (pos_runs_nonneg _ HB').
        assert (Rb : forall s0 : V, rank t pb kb = Some (length (A0 ++ [(s0, z)]))) by (intros; rewrite app_length; exact Hb).
        destruct (handle_ok X MAX inj M L HM _ _ _ _ pb kb (A0 ++ [(s, z)]) s2 z2 B R') as (Hs2 & Hsl2 & Hl2 & _); auto; [autorewrite with rs; lia|].
        rewrite Hs2. cbn [bind hd_error tl]. rewrite Hsl. cbn [bind fst snd].
        destruct (fs_try_join F s x) as [[m|[s' x']]|] eqn:Ej; cbn [option_map fst snd map app].
        * ix. rewrite Hsl2. cbn [bind].
          destruct (fs_try_join F m s2) as [[j|[m' s2']]|] eqn:Ej2; cbn [option_map fst snd map app].
          -- destruct (set_slice_ok inj M HM _ _ _ _ pa ka A0 s z ((s2, z2) :: B) j R eq_refl Ra) as (t1 & Et1 & R1 & S1). rewrite Et1. cbn [bind].
             ix. assert (R1' : rep 1 (length p) t1 ((A0 ++ [(j, z)]) ++ (s2, z2) :: B)) by (rewrite <- app_assoc; exact R1).
             destruct (hollow1 1 _ t1 (A0 ++ [(j, z)]) s2 z2 B pb kb R1') as (t' & Et & R2); [destruct S1 as (_ & S1 & _); rewrite S1; apply Rb|].
             exists t'. rewrite Et. cbn [bind]. split; auto. rewrite map_app, <- app_assoc in R2. exact R2.
          -- go.
          -- destruct (hollow2 1 _ t A0 s z s2 z2 B pa ka pb kb R Ra) as (t' & Et & R2); [rewrite <- Nat.add_1_r; exact Hb|].
             exists t'. rewrite Et. cbn [bind]. auto.
        * destruct (set_slice_ok inj M HM _ _ _ _ pa ka A0 s z ((s2, z2) :: B) s' R eq_refl Ra) as (t1 & Et1 & R1 & S1). rewrite Et1. cbn [bind].
          assert (R1' : rep 1 (length p) t1 ((A0 ++ [(s', z)]) ++ (s2, z2) :: B)) by (rewrite <- app_assoc; exact R1).
          assert (Rb1 : rank t1 pb kb = Some (length (A0 ++ [(s', z)]))) by (destruct S1 as (_ & S1 & _); rewrite S1; apply Rb).
          destruct (handle_ok X MAX inj M L HM _ _ _ _ pb kb (A0 ++ [(s', z)]) s2 z2 B R1') as (_ & Hsl3 & _ & _); auto; [autorewrite with rs; lia|].
          rewrite Hsl3. cbn [bind].
          destruct (fs_try_join F x' s2) as [[j|[x2 s2']]|] eqn:Ej2; cbn [option_map fst snd map app].
          -- go.
          -- go.
          -- destruct (hollow1 1 _ t1 (A0 ++ [(s', z)]) s2 z2 B pb kb R1' Rb1) as (t' & Et & R2).
             exists t'. rewrite Et. cbn [bind]. split; auto. rewrite map_app, <- app_assoc in R2. exact R2.
        * destruct (hollow1 1 _ t A0 s z ((s2, z2) :: B) pa ka R Ra) as (t' & Et & R2).
          exists t'. rewrite Et. cbn [bind]. auto.
  Qed.

  Lemma finsert_split_key_ok : forall nop h t A s z B p k hk q x n,
    rep 1 h t (A ++ (s, z) :: B) -> rank t p k = Some (length A) -> hk = (h - length p)%nat ->
    0 < q < z -> 0 < n -> rsum A + z + rsum B + n <= MAX ->
    edge_res h t (A ++ (s, z) :: B) (rsum A + q) x (finsert_split_key X F M nop h t p hk k (inj q) x (inj n))
      (insert_split_key X U M nop h t p hk k (inj q) x (inj n)).
  Proof.
    intros nop h t A s z B p k hk q x n R H Hhk Hq Hn Hm. unfold edge_res.
    pose proof (rep_pos _ _ _ _ _ _ R) as Hpos. apply pos_runs_app in Hpos. destruct Hpos as [HA HB0].
    inversion HB0 as [|? ? Hz HB]; subst. cbn [snd] in Hz.
    pose proof (pos_runs_nonneg _ HA). pose proof (pos_runs_nonneg _ HB).
    rewrite lost_inside_app by auto.
    destruct (handle_ok X MAX inj M L HM _ _ _ _ p k A s z B R) as (Hs & Hsl & Hl & _); auto; [autorewrite with rs; lia|].
    unfold handle_size, handle_slice, handle_height in Hs, Hsl. cbn [fst snd] in Hs, Hsl.
    unfold finsert_split_key, insert_split_key, crash, lost_inside. cbn [unfailing sl_may_join sl_try_join sl_split_at].
    destruct (node_at t p) as [nd| |]; cbn [bind] in *; try discriminate. rewrite Hs. cbn [bind]. rewrite Hsl. cbn [bind].
    destruct (fs_split_at F s (inj q)) as [[a b]|] eqn:Es.
    2:{ cbn [option_map fst snd]. destruct (hollow1 1 _ t A s z B p k R H) as (t' & Et & R'). change (hollow (tmap Some t) [(p, k)] = Ok t') in Et. exists t'. rewrite Et. cbn [bind]. auto. }
    destruct (set_slice_ok inj M HM _ _ _ _ p k A s z B a R eq_refl H) as (t1 & Et1 & R1 & S1). rewrite Et1. cbn [bind]. ix.
    assert (H1' : rank t1 p k = Some (length A)) by (destruct S1 as (_ & S1 & _); rewrite S1; exact H).
    destruct (fs_may_join F) eqn:Hj; cbn [negb option_map]; [|go].
    destruct (hollow1 1 _ t1 A a z B p k R1 H1') as (t' & Et & R'). change (hollow (tmap Some t1) [(p, k)] = Ok t') in Et.
    destruct (fs_try_join F a x) as [[m|[a' x']]|] eqn:Ej; cbn [option_map fst snd app].
    - ix. destruct (fs_try_join F m b) as [[j|[m' b']]|] eqn:Ej2; cbn [option_map fst snd app].
      + go.
      + go.
      + exists t'. rewrite Et. cbn [bind]. auto.
    - destruct (set_slice_ok inj M HM _ _ _ _ p k A a z B a' R1 eq_refl H1') as (t2 & Et2 & R2 & S2). rewrite Et2. cbn [bind].
      destruct (fs_try_join F x' b) as [[j|[x2 b']]|] eqn:Ej2; cbn [option_map fst snd app hollow bind].
      + go.
      + go.
      + exists (tmap Some t2). split; auto. apply orep_tmap in R2. rewrite map_app in R2. exact R2.
    - exists t'. rewrite Et. cbn [bind]. auto.
  Qed.

  Theorem finsert_ok : forall nop r l hints idx x n,
    rle_rep inj M r l -> 0 <= idx <= rsum l -> 0 < n -> rsum l + n <= MAX ->
    match lost F inj l idx x with
    | None => finsert_with_cursor X F M nop r hints (inj idx) x (inj n)
              = let* (r', cur) := insert_with_cursor X U M nop r hints (inj idx) x (inj n) in Ok (FReturned r' cur)
    | Some (l', todo) => exists h t, finsert_with_cursor X F M nop r hints (inj idx) x (inj n)
                         = Ok (FPanicked {| r_height := h; r_node := t; r_len := length l - (if todo then 1 else 0) |}) /\ orep 1 h t l'
    end.
  Proof.
    intros nop r l hints idx x n Hr Hi Hn Hm. unfold finsert_with_cursor, insert_with_cursor.
    rewrite (rle_size_ok X MAX inj M L _ _ Hr). cbn [bind]. rewrite (il_ltb _ _ _ L) by lia. destruct (Z.ltb_spec (rsum l) idx); [lia|].
    unfold ix_leb. rewrite (il_zero _ _ _ L), (il_ltb _ _ _ L) by lia. destruct (Z.ltb_spec 0 n); [|lia]. cbn [negb].
    destruct r as [r|]; cbn [rle_rep] in Hr.
    2:{ subst l. cbn [lost]. go. }
    destruct Hr as [R Hlen].
    assert (Fo : focus inj M 1 (r_height r) (r_node r) l [] 1 (r_height r) (r_node r) l [] []) by (apply f_here; auto).
    destruct (find_ok X MAX inj M L HM U _ _ _ _ _ _ _ _ _ _ idx hints None None Fo) as (ip & Eip & P); try lia.
    { intros _. cbn [lhs_ok rhs_ok length]. split; lia. }
    change (find_insertion_point X (only_may_join F)) with (find_insertion_point X U).
    rewrite Eip. cbn [bind rsum] in *. rewrite Z.add_0_l in P.
    pose proof (rep_ne inj M HM _ _ _ R) as Hne.
    destruct ip as [p k a b|p hk k q]; cbn [point_ok] in P.
    - destruct P as (e & Ee & Hp & He & Hsum & Hab).
      destruct (split_list_at e l He) as (A & B & -> & <-).
      rewrite firstn_app, firstn_all, Nat.sub_diag in Hsum. cbn [firstn] in Hsum. rewrite app_nil_r in Hsum.
      rewrite <- Hsum. rewrite rsum_app in Hm.
      pose proof (finsert_edge_ok (r_height r) (r_node r) A B p k a b x n R Ee Hp Hab Hne Hn ltac:(lia)) as IE. unfold edge_res in IE.
      destruct (lost F inj (A ++ B) (rsum A) x) as [[l' todo]|].
      + destruct IE as (t' & -> & R'). cbn [bind]. rewrite Hlen. eauto.
      + rewrite IE. destruct (insert_edge X U M (r_height r) (r_node r) p k a b x (inj n)) as [[[[? ?] ?] ?]| |]; reflexivity.
    - destruct P as (A & s & z & B & zq & -> & Hr & Hhk & -> & Hq & Hsum).
      rewrite <- Hsum. rewrite rsum_app in Hm. cbn [rsum] in Hm.
      pose proof (finsert_split_key_ok nop _ _ _ _ _ _ _ _ _ zq x n R Hr Hhk Hq Hn ltac:(lia)) as IE. unfold edge_res in IE.
      destruct (lost F inj (A ++ (s, z) :: B) (rsum A + zq) x) as [[l' todo]|].
      + destruct IE as (t' & -> & R'). cbn [bind]. rewrite Hlen. eauto.
      + rewrite IE. destruct (insert_split_key X U M nop (r_height r) (r_node r) p hk k (inj zq) x (inj n)) as [[[[? ?] ?] ?]| |]; reflexivity.
  Qed.
End CrashP.
