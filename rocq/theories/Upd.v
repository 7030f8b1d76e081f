(** Correctness of the upward steps of insertion.  Proof support only. *)
From Coq Require Import List ZArith Bool Arith Lia.
From Verif Require Import Base Spec Index Slice Tree Insert Zip Rep.
Import ListNotations.
Local Open Scope Z_scope.

Section Upd.
  Context {I V : Type} (X : index_ops I) (MAX : Z) (inj : Z -> I) (M : nat).
  Hypothesis L : index_laws X MAX inj.
  Hypothesis HM : (1 <= M)%nat.
  Notation tree := (tree I V).
  Notation entry := (entry_of I V) (only parsing).
  Notation lentry := (prod tree (I * V)%type) (only parsing).
  Notation run := (prod V Z) (only parsing).
  Notation rep := (@rep I V inj M).
  Notation childR := (@childR I V inj M).
  Notation seg := (@seg I V inj).
  Notation lseg := (@lseg I V inj).

  (** What a state on the way up stands for: [lc'] in place of something of size [old]; [wh] is the
      rank of the run the cursor should lead to, if tracked. *)
  Inductive good (lo h : nat) (old : Z) : list run -> option nat -> upstate -> Prop :=
  | good_done : forall n lc' wh new cur,
      rep lo h n lc' -> new = rsum lc' ->
      (forall r, wh = Some r -> tracks n cur r) ->
      good lo h old lc' wh (Done n (inj old) (inj new) cur)
  | good_bubble : forall lhs rhs k z ll lr wh sd cur,
      rep M h lhs ll -> rep M h rhs lr -> 0 < z ->
      (forall r, wh = Some r ->
         match sd with
         | None => cur = [] /\ r = length ll
         | Some SLeft => tracks lhs cur r
         | Some SRight => exists r', r = (length ll + 1 + r')%nat /\ tracks rhs cur r'
         end) ->
      good lo h old (ll ++ (k, z) :: lr) wh
           (Bubble {| b_lhs := lhs; b_key := k; b_key_size := inj z; b_rhs := rhs;
                      b_old := inj old; b_side := sd; b_cur := cur |}).

  Ltac ix := repeat (first [ rewrite (il_addr _ _ _ L) by lia
                           | rewrite (il_addl _ _ _ L) by lia
                           | rewrite (il_subl _ _ _ L) by lia
                           | rewrite (il_subr _ _ _ L) by lia ]; cbn [bind]).

  Lemma good_pos : forall lo h old lc wh st, good lo h old lc wh st -> 0 <= rsum lc.
  Proof.
    intros lo h old lc wh st H. inversion H; subst.
    - eapply rep_nonneg; eauto.
    - rewrite rsum_app, rsum_cons.
      pose proof (rep_nonneg _ _ _ _ _ _ H0). pose proof (rep_nonneg _ _ _ _ _ _ H1). lia.
  Qed.

  Lemma key_step_ok : forall h tot lft ch p s c' rgt ov pos old new cur off l2,
    match ov with Some q => q | None => p end = inj pos ->
    seg (childR h) off rgt l2 -> tot = off + rsum l2 -> 0 <= off -> 0 <= pos ->
    0 <= old -> old < new -> pos + new <= MAX -> tot + (new - old) <= MAX ->
    exists rgt',
      key_step X (node (inj tot) lft ch ((p, s, c') :: rgt)) (length lft) ov (inj old) (inj new) cur
      = Ok (Done (node (inj (tot + (new - old))) lft ch ((p, s, c') :: rgt'))
                 (inj tot) (inj (tot + (new - old))) cur) /\
      seg (childR h) (off + (new - old)) rgt' l2 /\ length rgt' = length rgt.
  Proof.
    intros h tot lft ch p s c' rgt ov pos old new cur off l2 Hov Hs Ht Hoff Hpos Ho Hn H1 H2.
    pose proof (seg_nonneg _ _ _ _ _ _ Hs).
    assert (E : match ov with Some q => Ok q
                | None => key_pos (node (inj tot) lft ch ((p, s, c') :: rgt)) (length lft) end
                = Ok (inj pos)).
    { destruct ov; [congruence|]. rewrite node_key_pos. congruence. }
    unfold key_step. rewrite E. cbn [bind]. rewrite node_tsize. cbn [bind].
    rewrite (shift_auto_eq X MAX inj L) by lia.
    replace (old <? new) with true by (symmetry; apply Z.ltb_lt; lia).
    rewrite <- node_snoc.
    replace (length lft + 1)%nat with (length (lft ++ [(ch, (p, s))]))
      by (rewrite app_length; reflexivity).
    destruct (shift_zip X MAX inj M L h true pos old new tot (lft ++ [(ch, (p, s))]) c' rgt off l2)
      as (rgt' & E' & S' & Hl); auto; try lia.
    rewrite E'. cbn [bind]. rewrite node_tsize. cbn [bind].
    exists rgt'. rewrite node_snoc. auto.
  Qed.

  Lemma child_step_ok : forall h tot lft ch rgt old new cur off l2,
    seg (childR h) off rgt l2 -> tot = off + rsum l2 -> 0 <= old -> old <= off ->
    old < new -> tot + (new - old) <= MAX ->
    exists rgt',
      child_step X (node (inj tot) lft ch rgt) (length lft) None (inj old) (inj new) cur
      = Ok (Done (node (inj (tot + (new - old))) lft ch rgt')
                 (inj tot) (inj (tot + (new - old))) (length lft :: cur)) /\
      seg (childR h) (off + (new - old)) rgt' l2 /\ length rgt' = length rgt.
  Proof.
    intros h tot lft ch rgt old new cur off l2 Hs Ht Ho Hoff Hn H1.
    pose proof (seg_nonneg _ _ _ _ _ _ Hs).
    unfold child_step. cbn [bind]. rewrite node_key_pos_or_end. cbn [bind].
    erewrite next_pos_inj by eauto. ix. rewrite node_tsize. cbn [bind].
    rewrite (shift_auto_eq X MAX inj L) by lia.
    replace (old <? new) with true by (symmetry; apply Z.ltb_lt; lia).
    destruct (shift_zip X MAX inj M L h true (off - old) old new tot lft ch rgt off l2)
      as (rgt' & E' & S' & Hl); auto; try lia.
    rewrite E'. cbn [bind]. rewrite node_tsize. cbn [bind]. exists rgt'. auto.
  Qed.

  Lemma child_step_here_ok : forall h tot lft ch rgt pos zo zn rm old new cur off l2,
    seg (childR h) off rgt l2 -> tot = off + rsum l2 -> 0 <= old -> 0 <= pos -> 0 <= zo -> 0 <= zn ->
    pos + zo + old = off ->
    old < new -> zo + old < zn + new -> tot + (zn + new - (zo + old)) <= MAX ->
    exists rgt',
      child_step X (node (inj tot) lft ch rgt) (length lft)
                 (Some {| l_pos := inj pos; l_old := inj zo; l_new := inj zn; l_remap := rm |})
                 (inj old) (inj new) cur
      = Ok (Done (node (inj (tot + (zn + new - (zo + old)))) lft ch rgt')
                 (inj tot) (inj (tot + (zn + new - (zo + old))))
                 (length lft :: if rm then [] else cur)) /\
      seg (childR h) (off + (zn + new - (zo + old))) rgt' l2 /\ length rgt' = length rgt.
  Proof.
    intros h tot lft ch rgt pos zo zn rm old new cur off l2 Hs Ht Ho Hp Hzo Hzn Hoff Hn Hn2 H1.
    pose proof (seg_nonneg _ _ _ _ _ _ Hs).
    unfold child_step. cbn [bind l_pos l_old l_new l_remap]. rewrite node_key_pos_or_end.
    erewrite next_pos_inj by eauto. ix. rewrite node_tsize. cbn [bind].
    rewrite (shift_auto_eq X MAX inj L) by lia.
    match goal with |- context [?a <? ?b] => replace (a <? b) with true by (symmetry; apply Z.ltb_lt; lia) end.
    match goal with |- context [shift_keys X true _ _ _ (inj ?o) (inj ?n)] =>
      destruct (shift_zip X MAX inj M L h true pos o n tot lft ch rgt off l2)
        as (rgt' & E' & S' & Hl); auto; try lia end.
    rewrite E'. cbn [bind]. rewrite node_tsize. cbn [bind].
    match goal with |- context [node (inj (tot + ?d))] =>
       replace d with (zn + new - (zo + old)) in * by lia end.
    exists rgt'. auto.
  Qed.

  (** The left-hand key whose size changes is the last one left of the zipper. *)
  Inductive hereok : option (@lhsinfo I) -> list lentry -> list run -> list run -> Prop :=
  | here_none : forall lft l1, hereok None lft l1 l1
  | here_some : forall lft0 a s l0 zo zn rm,
      0 < zo -> 0 < zn -> 0 <= rsum l0 ->
      hereok (Some {| l_pos := inj (rsum l0); l_old := inj zo; l_new := inj zn; l_remap := rm |})
             (lft0 ++ [(a, (inj (rsum l0), s))]) (l0 ++ [(s, zo)]) (l0 ++ [(s, zn)]).

  Lemma lseg_snoc_inv : forall R off lft a p s l0 s' z,
    lseg R off (lft ++ [(a, (p, s))]) (l0 ++ [(s', z)]) ->
    exists l00 la, s' = s /\ l0 = l00 ++ la /\ lseg R off lft l00 /\ R a la /\
                   p = inj (off + rsum l00 + rsum la) /\ 0 < z.
  Proof.
    intros R off lft a p s l0 s' z H.
    apply lseg_app_inv in H. destruct H as (la & lb & E & H1 & H2).
    inversion H2; subst.
    match goal with Q : Rep.lseg _ _ _ [] _ |- _ => inversion Q; subst end.
    rewrite app_assoc in E. apply app_inj_tail in E. destruct E as [-> E]. inversion E; subst.
    exists la, la0. auto 10.
  Qed.

  Lemma lseg_snoc : forall R off lft a s l00 la z,
    lseg R off lft l00 -> R a la -> 0 < z ->
    lseg R off (lft ++ [(a, (inj (off + rsum l00 + rsum la), s))]) ((l00 ++ la) ++ [(s, z)]).
  Proof.
    intros. rewrite <- app_assoc. apply lseg_app; auto.
    constructor; auto. constructor.
  Qed.

  Lemma hereok_lseg : forall R here lft l1 l1',
    hereok here lft l1 l1' -> lseg R 0 lft l1 -> lseg R 0 lft l1'.
  Proof.
    intros R here lft l1 l1' H Hs. inversion H; subst; auto.
    apply lseg_snoc_inv in Hs. destruct Hs as (l00 & la & E & -> & Hs & Ra & P & _).
    rewrite P. apply lseg_snoc; auto.
  Qed.

  Lemma hereok_length : forall here lft l1 l1', hereok here lft l1 l1' -> length l1 = length l1'.
  Proof. intros here lft l1 l1' H. inversion H; subst; rewrite ?app_length; reflexivity. Qed.

  (** The same state with another cursor. *)
  Definition recur (sd : option side) (cur : list nat) (st : @upstate I V) : upstate :=
    match st with
    | Done n o nw _ => Done n o nw cur
    | Bubble b => Bubble {| b_lhs := b_lhs b; b_key := b_key b; b_key_size := b_key_size b; b_rhs := b_rhs b;
                            b_old := b_old b; b_side := sd; b_cur := cur |}
    end.

  (** The last key left of the zipper is in the node itself. *)
  Lemma tracks_last : forall h tot lft ch rgt l1, lseg (childR h) 0 lft l1 -> lft <> [] ->
    tracks (node tot lft ch rgt) [] (length l1 - 1).
  Proof.
    intros h tot lft ch rgt l1 H Hn. pose proof (lseg_count inj _ _ _ _ (childR_count inj M h) H) as C.
    destruct lft as [|[a q] lft _] using rev_ind; [congruence|]. rewrite node_snoc.
    destruct q as [q1 q2]. rewrite lcount_app in C. cbn [lcount] in C. apply tracks_here. lia.
  Qed.

  Definition wh_up (here : option (@lhsinfo I)) (n : nat) (wh : option nat) : option nat :=
    match here with
    | Some l => if l_remap l then None else option_map (Nat.add n) wh
    | None => option_map (Nat.add n) wh
    end.

  (** Case A: the parent has room. *)
  Lemma bubble_step_room : forall lo h lft rgt l1 l1' (lc : list run) l2 here tot lh rh k z ll lr sd cur wh,
    (lo <= length lft + length rgt < 2 * M)%nat ->
    lseg (childR (S h)) 0 lft l1 -> seg (childR (S h)) (rsum l1 + rsum lc) rgt l2 ->
    hereok here lft l1 l1' ->
    tot = rsum l1 + rsum lc + rsum l2 -> 0 <= rsum lc ->
    rep M h lh ll -> rep M h rh lr -> 0 < z ->
    rsum lc < rsum ll + z + rsum lr ->
    rsum l1 + rsum lc < rsum l1' + (rsum ll + z + rsum lr) ->
    rsum l1' + (rsum ll + z + rsum lr) + rsum l2 <= MAX ->
    (forall r, wh = Some r ->
         match sd with
         | None => cur = [] /\ r = length ll
         | Some SLeft => tracks lh cur r
         | Some SRight => exists r', r = (length ll + 1 + r')%nat /\ tracks rh cur r'
         end) ->
    exists st',
      bubble_step X M (node (inj tot) lft lh rgt) (length lft) here
        {| b_lhs := lh; b_key := k; b_key_size := inj z; b_rhs := rh;
           b_old := inj (rsum lc); b_side := sd; b_cur := cur |} = Ok st' /\
      good lo (S h) tot (l1' ++ (ll ++ (k, z) :: lr) ++ l2) (wh_up here (length l1) wh) st' /\
      (exists n o nw c, st' = Done n o nw c /\
         c = match here with
             | Some l => if l_remap l then [] else opt_cons (option_map (fun s => (length lft + side_nat s)%nat) sd) cur
             | None => opt_cons (option_map (fun s => (length lft + side_nat s)%nat) sd) cur
             end) /\
      (lft <> [] -> good lo (S h) tot (l1' ++ (ll ++ (k, z) :: lr) ++ l2) (Some (length l1 - 1)%nat) (recur None [] st')).
  Proof.
    intros lo h lft rgt l1 l1' lc l2 here tot lh rh k z ll lr sd cur wh Hlen H1 H2 Hh Ht Hlc Rl Rr Hz Hinc Hinc2 Hmax Htr.
    pose proof (rep_nonneg _ _ _ _ _ _ Rl). pose proof (rep_nonneg _ _ _ _ _ _ Rr).
    pose proof (lseg_nonneg _ _ _ _ _ _ H1). pose proof (seg_nonneg _ _ _ _ _ _ H2).
    pose proof (hereok_lseg _ _ _ _ _ Hh H1) as H1'.
    pose proof (lseg_nonneg _ _ _ _ _ _ H1').
    pose proof (lseg_count inj _ _ _ _ (childR_count inj M (S h)) H1) as C1.
    pose proof (rep_count _ _ _ _ _ _ Rl) as Cl.
    pose proof (hereok_length _ _ _ _ Hh) as HL.
    unfold bubble_step. cbn [b_lhs b_key b_key_size b_rhs b_old b_side b_cur].
    rewrite (rep_size _ _ _ _ _ _ Rl), (rep_size _ _ _ _ _ _ Rr). cbn [bind].
    rewrite node_tlen.
    destruct (Nat.ltb_spec (length lft + length rgt) (max_len M)) as [_|B];
      [|unfold max_len in B; lia].
    rewrite node_key_pos_or_end. erewrite next_pos_inj by (eauto; lia).
    (* the final state, given the facts about the shift *)
    assert (Fin : forall rgt' cur',
      seg (childR (S h)) (rsum l1' + rsum ll + z + rsum lr) rgt' l2 ->
      length rgt' = length rgt ->
      (forall r, wh_up here (length l1) wh = Some r ->
         cur' = opt_cons (option_map (fun s => (length lft + side_nat s)%nat) sd) cur) ->
      good lo (S h) tot (l1' ++ (ll ++ (k, z) :: lr) ++ l2) (wh_up here (length l1) wh)
        (Done (node (inj (rsum l1' + (rsum ll + z + rsum lr) + rsum l2)) lft lh
                 ((inj (rsum l1' + rsum ll), k, rh) :: rgt'))
              (inj tot) (inj (rsum l1' + (rsum ll + z + rsum lr) + rsum l2)) cur') /\
      (lft <> [] ->
       good lo (S h) tot (l1' ++ (ll ++ (k, z) :: lr) ++ l2) (Some (length l1 - 1)%nat)
        (Done (node (inj (rsum l1' + (rsum ll + z + rsum lr) + rsum l2)) lft lh
                 ((inj (rsum l1' + rsum ll), k, rh) :: rgt'))
              (inj tot) (inj (rsum l1' + (rsum ll + z + rsum lr) + rsum l2)) []))).
    { intros rgt' cur' S' Hl' Hcur.
      match goal with |- good _ _ _ _ _ (Done ?n _ _ _) /\ _ => assert (RN : rep lo (S h) n (l1' ++ (ll ++ (k, z) :: lr) ++ l2)) end.
      { rewrite rep_nrep.
        replace (l1' ++ (ll ++ (k, z) :: lr) ++ l2) with (l1' ++ ll ++ ((k, z) :: lr ++ l2))
          by (rewrite <- !app_assoc; reflexivity).
        apply zip_nrep; auto.
        + simpl length. lia.
        + constructor; auto.
        + autorewrite with rs. lia. }
      split; [|intros Hne; constructor; auto; [autorewrite with rs; lia | intros r Hr; injection Hr as <-; rewrite HL; eapply tracks_last; eauto]].
      constructor; auto.
      - autorewrite with rs. lia.
      - intros r Hr. rewrite (Hcur r Hr).
        assert (exists r0, wh = Some r0 /\ r = (length l1 + r0)%nat) as (r0 & -> & ->).
        { unfold wh_up in Hr. destruct here as [li|]; [destruct (l_remap li); [discriminate|]|];
            (destruct wh as [r0|]; [|discriminate]); inversion Hr; eauto. }
        specialize (Htr r0 eq_refl). destruct sd as [[]|]; cbn [option_map opt_cons side_nat].
        + rewrite Nat.add_0_r. eapply tracks_down; [eauto | lia | lia].
        + destruct Htr as (r' & -> & Tr). rewrite <- node_snoc.
          eapply tracks_down; [eauto | | rewrite app_length; reflexivity].
          rewrite lcount_app. cbn [lcount]. lia.
        + destruct Htr as [-> ->]. apply tracks_here. lia. }
    destruct Hh as [lft l1 | lft0 a s l0 zo zn rm Hzo Hzn Hl0].
    - (* no left-hand key *)
      ix. rewrite node_insert_key_and_child by lia. cbn [bind].
      erewrite next_pos_inj by (eauto; lia). ix.
      rewrite node_set_single_key_pos. cbn [bind].
      match goal with |- context [key_step X _ _ (Some (inj ?p)) (inj ?o) (inj ?n) ?c] =>
        destruct (key_step_ok (S h) tot lft lh (inj (p + rsum ll)) k rh rgt (Some (inj p)) p o n c
                    (rsum l1 + rsum lc) l2) as (rgt' & E & S' & Hl'); auto; try lia end.
      rewrite E. eexists. split; [reflexivity|]. match goal with |- ?a /\ ?b /\ ?c => cut (a /\ c); [intros [? ?]; split; [assumption|]; split; [|assumption]; do 4 eexists; split; [reflexivity|]; cbn [l_remap]; try destruct rm; reflexivity|] end.
      cbn [recur].
      match goal with |- good _ _ _ _ _ (Done (node (inj ?a) _ _ ((inj ?b, _, _) :: _)) _ _ _) /\ _ =>
        replace a with (rsum l1 + (rsum ll + z + rsum lr) + rsum l2) by lia;
        replace b with (rsum l1 + rsum ll) by lia end.
      apply Fin; auto.
      match type of S' with Rep.seg _ _ ?a _ _ =>
        replace (rsum l1 + rsum ll + z + rsum lr) with a by lia end. exact S'.
    - cbn [l_pos l_old l_new l_remap].
      autorewrite with rs in *. 
      ix. rewrite node_insert_key_and_child by lia. cbn [bind].
      erewrite next_pos_inj by (eauto; lia). ix.
      rewrite node_set_single_key_pos. cbn [bind].
      match goal with |- context [key_step X _ _ (Some (inj ?p)) (inj ?o) (inj ?n) ?c] =>
        destruct (key_step_ok (S h) tot (lft0 ++ [(a, (inj (rsum l0), s))]) lh (inj (p + zn + rsum ll)) k rh rgt (Some (inj p)) p o n c
                    (rsum l0 + (zo + 0) + rsum lc) l2) as (rgt' & E & S' & Hl'); auto; try lia end.
      rewrite E. eexists. split; [reflexivity|]. match goal with |- ?a /\ ?b /\ ?c => cut (a /\ c); [intros [? ?]; split; [assumption|]; split; [|assumption]; do 4 eexists; split; [reflexivity|]; cbn [l_remap]; try destruct rm; reflexivity|] end.
      cbn [recur].
      match goal with |- good _ _ _ _ _ (Done (node (inj ?a) _ _ ((inj ?b, _, _) :: _)) _ _ _) /\ _ =>
        replace a with (rsum l0 + (zn + 0) + (rsum ll + z + rsum lr) + rsum l2) by lia;
        replace b with (rsum l0 + (zn + 0) + rsum ll) by lia end.
      apply Fin; auto.
      + match type of S' with Rep.seg _ _ ?a _ _ =>
          replace (rsum l0 + (zn + 0) + rsum ll + z + rsum lr) with a by lia end. exact S'.
      + cbn [wh_up l_remap]. destruct rm; [discriminate | reflexivity].
  Qed.

  Definition tr (lh rh : tree) (ll : list run) (sd : option side) (cur : list nat) (r : nat) : Prop :=
    match sd with
    | None => cur = [] /\ r = length ll
    | Some SLeft => tracks lh cur r
    | Some SRight => exists r', r = (length ll + 1 + r')%nat /\ tracks rh cur r'
    end.

  Lemma lseg_last : forall R off lft l0 s zo zn,
    lseg R off lft (l0 ++ [(s, zo)]) -> 0 < zn -> lseg R off lft (l0 ++ [(s, zn)]).
  Proof.
    intros R off lft l0 s zo zn H Hz. destruct lft as [|x lft _] using rev_ind.
    - inversion H. destruct l0; discriminate.
    - destruct x as [a [p s0]]. apply lseg_snoc_inv in H.
      destruct H as (l00 & la & -> & -> & Hs & Ra & -> & _). apply lseg_snoc; auto.
  Qed.

  Lemma lseg_nil_inv : forall R off l, lseg R off [] l -> l = [].
  Proof. intros R off l H. inversion H; reflexivity. Qed.

  Lemma lseg_nil_l : forall R off lft, lseg R off lft [] -> lft = [].
  Proof. intros R off lft H. inversion H as [|? ? la]; subst; auto. destruct la; discriminate. Qed.

  Lemma here_split : forall h here lft1 a mp ms lft2 l1 l1',
    hereok here (lft1 ++ (a, (mp, ms)) :: lft2) l1 l1' ->
    lseg (childR h) 0 (lft1 ++ (a, (mp, ms)) :: lft2) l1 ->
    exists la1 laa mz mz' l12 l12',
      l1 = la1 ++ laa ++ (ms, mz) :: l12 /\ l1' = la1 ++ laa ++ (ms, mz') :: l12' /\
      lseg (childR h) 0 lft1 la1 /\ childR h a laa /\ mp = inj (rsum la1 + rsum laa) /\
      0 < mz /\ 0 < mz' /\ lseg (childR h) (rsum la1 + rsum laa + mz) lft2 l12 /\
      length l12 = length l12' /\
      match here with
      | None => mz' = mz /\ l12' = l12
      | Some l =>
        (lft2 = [] /\ l12 = [] /\ l12' = [] /\ l_new l = inj mz') \/
        (lft2 <> [] /\ mz' = mz /\
         exists l120 s zo zn, l12 = l120 ++ [(s, zo)] /\ l12' = l120 ++ [(s, zn)] /\
           0 < zo /\ 0 < zn /\ 0 <= rsum l120 /\
           l_pos l = inj (rsum la1 + rsum laa + mz + rsum l120) /\
           l_old l = inj zo /\ l_new l = inj zn)
      end.
  Proof.
    intros h here lft1 a mp ms lft2 l1 l1' Hh Hs.
    pose proof Hs as Hs0.
    apply lseg_app_inv in Hs. destruct Hs as (la1 & lb & -> & S1 & S2).
    inversion S2 as [|off a0 laa s0 mz lft l12 Hmz Ra S3]; subst.
    remember (lft1 ++ (a, (inj (rsum la1 + rsum laa), ms)) :: lft2) as lftx eqn:El.
    remember (la1 ++ laa ++ (ms, mz) :: l12) as l1x eqn:E1.
    destruct Hh as [lftz l1z | lft0 a1 s l0 zo zn rm Hzo Hzn Hl0].
    - subst. exists la1, laa, mz, mz, l12, l12. repeat split; auto.
    - destruct lft2 as [|y lft2 _] using rev_ind.
      + apply lseg_nil_inv in S3. subst l12.
        apply app_inj_tail in El. destruct El as [-> El]. inversion El; subst.
        rewrite app_assoc in E1. apply app_inj_tail in E1. destruct E1 as [-> E1]. inversion E1; subst.
        exists la1, laa, mz, zn, [], []. rewrite <- ?app_assoc. repeat split; auto; constructor.
      + change (lft1 ++ (a, (inj (rsum la1 + rsum laa), ms)) :: lft2 ++ [y])
          with (lft1 ++ ((a, (inj (rsum la1 + rsum laa), ms)) :: lft2) ++ [y]) in El.
        rewrite app_assoc in El. apply app_inj_tail in El. destruct El as [_ <-].
        assert (exists l120, l12 = l120 ++ [(s, zo)] /\ l0 = la1 ++ laa ++ (ms, mz) :: l120) as (l120 & -> & E0).
        { destruct l12 as [|q l12 _] using rev_ind.
          - apply lseg_nil_l in S3. destruct lft2; discriminate.
          - exists l12.
            change (la1 ++ laa ++ (ms, mz) :: l12 ++ [q]) with (la1 ++ laa ++ ((ms, mz) :: l12) ++ [q]) in E1.
            rewrite !app_assoc in E1. apply app_inj_tail in E1. destruct E1 as [-> <-].
            rewrite <- app_assoc. auto. }
        exists la1, laa, mz, mz, (l120 ++ [(s, zo)]), (l120 ++ [(s, zn)]).
        assert (0 <= rsum l120).
        { apply (lseg_pos inj _ _ _ _ (childR_pos inj M h)) in S3.
          apply pos_runs_app in S3. apply pos_runs_nonneg. tauto. }
        repeat split; auto.
        * subst l0. rewrite <- !app_assoc. simpl. rewrite <- ?app_assoc. reflexivity.
        * rewrite !app_length. reflexivity.
        * right. repeat split; auto; [destruct lft2; discriminate|].
          exists l120, s, zo, zn. cbn [l_pos l_old l_new]. repeat split; auto.
          subst l0. autorewrite with rs. f_equal. lia.
  Qed.

  (** Insertion into one half of a split parent. *)
  Lemma half_insert : forall lo h lft rgt l1 l1' (lc : list run) l2 s' tot lh rh k z ll lr sd cur,
    (lo <= S (length lft + length rgt))%nat -> (length lft + length rgt < 2 * M)%nat ->
    lseg (childR (S h)) 0 lft l1 -> seg (childR (S h)) (rsum l1 + rsum lc) rgt l2 ->
    ((s' = None /\ l1' = l1) \/
     (exists l0 s zo zn, s' = Some (inj (rsum l0), inj zo, inj zn) /\ l1 = l0 ++ [(s, zo)] /\
        l1' = l0 ++ [(s, zn)] /\ 0 < zo /\ 0 < zn /\ 0 <= rsum l0)) ->
    tot = rsum l1 + rsum lc + rsum l2 -> 0 <= rsum lc ->
    rep M h lh ll -> rep M h rh lr -> 0 < z ->
    rsum lc < rsum ll + z + rsum lr ->
    rsum l1 + rsum lc < rsum l1' + (rsum ll + z + rsum lr) ->
    rsum l1' + (rsum ll + z + rsum lr) + rsum l2 <= MAX ->
    exists n,
      (forall K : tree -> res (@upstate I V),
      (let* (lhs_child_pos, shift_pos, old0, new0) :=
          match s' with
          | None =>
            let* next := key_pos_or_end (node (inj tot) lft lh rgt) (length lft) in
            let* p := ix_sub_right X next (inj (rsum lc)) in
            Ok (p, p, inj 0, inj 0)
          | Some (lp, lo, ln) =>
            let* p := ix_add_right X lp ln in
            Ok (p, lp, lo, ln)
          end in
        let* key_pos := ix_add_right X lhs_child_pos (inj (rsum ll)) in
        let* old_size := ix_add_right X old0 (inj (rsum lc)) in
        let* new_size := ix_add_right X new0 (inj (rsum ll + z + rsum lr)) in
        let* (i1, _) := insert_key_and_child M (node (inj tot) lft lh rgt) (length lft) k rh in
        let* i2 := set_single_key_pos i1 (length lft) key_pos in
        let* i3 := shift_keys X true i2 (length lft + 1) shift_pos old_size new_size in
        K i3) = K n) /\
      rep lo (S h) n (l1' ++ (ll ++ (k, z) :: lr) ++ l2) /\
      (forall r, tr lh rh ll sd cur r ->
         tracks n (opt_cons (option_map (fun s => (length lft + side_nat s)%nat) sd) cur) (length l1 + r)%nat) /\
      (lft <> [] -> tracks n [] (length l1 - 1)).
  Proof.
    intros lo h lft rgt l1 l1' lc l2 s' tot lh rh k z ll lr sd cur
      Hlo Hlen H1 H2 Hs' Ht Hlc Rl Rr Hz Hinc Hinc2 Hmax.
    pose proof (rep_nonneg _ _ _ _ _ _ Rl). pose proof (rep_nonneg _ _ _ _ _ _ Rr).
    pose proof (lseg_nonneg _ _ _ _ _ _ H1). pose proof (seg_nonneg _ _ _ _ _ _ H2).
    pose proof (lseg_count inj _ _ _ _ (childR_count inj M (S h)) H1) as C1.
    pose proof (rep_count _ _ _ _ _ _ Rl) as Cl.
    assert (H1' : lseg (childR (S h)) 0 lft l1').
    { destruct Hs' as [[_ ->] | (l0 & s & zo & zn & _ & -> & -> & _ & Hzn & _)]; auto.
      eapply lseg_last; eauto. }
    pose proof (lseg_nonneg _ _ _ _ _ _ H1').
    assert (Q : exists q o nw,
      0 <= q /\ 0 <= o /\ o < nw /\ q + nw <= MAX /\ nw - o = rsum l1' + (rsum ll + z + rsum lr) - (rsum l1 + rsum lc) /\
      (forall K : tree -> res (@upstate I V), (let* (lhs_child_pos, shift_pos, old0, new0) :=
          match s' with
          | None =>
            let* next := key_pos_or_end (node (inj tot) lft lh rgt) (length lft) in
            let* p := ix_sub_right X next (inj (rsum lc)) in
            Ok (p, p, inj 0, inj 0)
          | Some (lp, lo, ln) =>
            let* p := ix_add_right X lp ln in
            Ok (p, lp, lo, ln)
          end in
        let* key_pos := ix_add_right X lhs_child_pos (inj (rsum ll)) in
        let* old_size := ix_add_right X old0 (inj (rsum lc)) in
        let* new_size := ix_add_right X new0 (inj (rsum ll + z + rsum lr)) in
        let* (i1, _) := insert_key_and_child M (node (inj tot) lft lh rgt) (length lft) k rh in
        let* i2 := set_single_key_pos i1 (length lft) key_pos in
        let* i3 := shift_keys X true i2 (length lft + 1) shift_pos old_size new_size in
        K i3) = let* i3 := shift_keys X true (node (inj tot) lft lh ((inj (rsum l1' + rsum ll), k, rh) :: rgt))
                       (length lft + 1) (inj q) (inj o) (inj nw) in K i3)).
    { assert (EN : next_pos (inj tot) rgt = inj (rsum l1 + rsum lc)) by (eapply next_pos_inj; eauto; lia).
      destruct Hs' as [[-> ->] | (l0 & s & zo & zn & -> & -> & -> & Hzo & Hzn & Hl0)].
      - exists (rsum l1), (rsum lc), (rsum ll + z + rsum lr). repeat split; try lia. intros K.
        rewrite node_key_pos_or_end, node_insert_key_and_child, EN by lia.
        cbn [bind]. ix.
        rewrite node_set_single_key_pos. cbn [bind].
        repeat match goal with |- context [inj (?a + ?b - ?b)] => replace (a + b - b) with a by lia end.
        rewrite !Z.add_0_l. reflexivity.
      - autorewrite with rs in *.
        exists (rsum l0), (zo + rsum lc), (zn + (rsum ll + z + rsum lr)). repeat split; try lia. intros K.
        rewrite node_insert_key_and_child, EN by lia.
        ix. rewrite node_set_single_key_pos. cbn [bind].
        replace (rsum l0 + (zn + 0) + rsum ll) with (rsum l0 + zn + rsum ll) by lia. reflexivity. }
    destruct Q as (q & o & nw & Hq & Ho & Hnw & Hqm & Hd & EQ).
    destruct (shift_zip X MAX inj M L (S h) true q o nw tot (lft ++ [(lh, (inj (rsum l1' + rsum ll), k))])
                rh rgt (rsum l1 + rsum lc) l2) as (rgt' & E & S' & Hl); auto; try lia.
    rewrite app_length, !node_snoc in E. cbn [length] in E.
    eexists. split; [intros K; rewrite EQ, E; reflexivity|]. split; [|split; [|intros Hne; eapply tracks_last; eauto]].
    - rewrite rep_nrep.
      replace (l1' ++ (ll ++ (k, z) :: lr) ++ l2) with (l1' ++ ll ++ ((k, z) :: lr ++ l2))
        by (rewrite <- !app_assoc; reflexivity).
      apply zip_nrep; auto.
      + simpl length. lia.
      + constructor; auto.
        match type of S' with Rep.seg _ _ ?a _ _ =>
          replace (rsum l1' + rsum ll + z + rsum lr) with a by lia end. exact S'.
      + autorewrite with rs. lia.
    - intros r Htr. unfold tr in Htr. destruct sd as [[]|]; cbn [option_map opt_cons side_nat].
      + rewrite Nat.add_0_r. eapply tracks_down; [eauto | lia | lia].
      + destruct Htr as (r' & -> & Tr). rewrite <- node_snoc.
        eapply tracks_down; [eauto | | rewrite app_length; reflexivity].
        rewrite lcount_app. cbn [lcount]. lia.
      + destruct Htr as [-> ->]. apply tracks_here. lia.
  Qed.

  Ltac bubble_pre Rl Rr :=
    unfold bubble_step; cbn [b_lhs b_key b_key_size b_rhs b_old b_side b_cur];
    rewrite (rep_size _ _ _ _ _ _ Rl), (rep_size _ _ _ _ _ _ Rr); cbn [bind];
    rewrite node_tlen.

  (** Case B1: full parent, insertion left of the midpoint. *)
  Lemma bubble_step_left : forall lo h lft rgt l1 l1' (lc : list run) l2 here tot lh rh k z ll lr sd cur wh,
    (length lft + length rgt = 2 * M)%nat -> (length lft < M)%nat ->
    lseg (childR (S h)) 0 lft l1 -> seg (childR (S h)) (rsum l1 + rsum lc) rgt l2 ->
    hereok here lft l1 l1' ->
    tot = rsum l1 + rsum lc + rsum l2 -> 0 <= rsum lc ->
    rep M h lh ll -> rep M h rh lr -> 0 < z ->
    rsum lc < rsum ll + z + rsum lr ->
    rsum l1 + rsum lc < rsum l1' + (rsum ll + z + rsum lr) ->
    rsum l1' + (rsum ll + z + rsum lr) + rsum l2 <= MAX ->
    (forall r, wh = Some r -> tr lh rh ll sd cur r) ->
    exists st',
      bubble_step X M (node (inj tot) lft lh rgt) (length lft) here
        {| b_lhs := lh; b_key := k; b_key_size := inj z; b_rhs := rh;
           b_old := inj (rsum lc); b_side := sd; b_cur := cur |} = Ok st' /\
      good lo (S h) tot (l1' ++ (ll ++ (k, z) :: lr) ++ l2) (option_map (Nat.add (length l1)) wh) st' /\
      (exists b, st' = Bubble b) /\
      (lft <> [] -> exists sd', (sd' = None <-> length lft = (M + 1)%nat) /\
         good lo (S h) tot (l1' ++ (ll ++ (k, z) :: lr) ++ l2) (Some (length l1 - 1)%nat) (recur sd' [] st')).
  Proof.
    intros lo h lft rgt l1 l1' lc l2 here tot lh rh k z ll lr sd cur wh Hlen HcM H1 H2 Hh Ht Hlc Rl Rr Hz Hinc Hinc2 Hmax Htr.
    pose proof (rep_nonneg _ _ _ _ _ _ Rl). pose proof (rep_nonneg _ _ _ _ _ _ Rr).
    pose proof (lseg_nonneg _ _ _ _ _ _ H1). pose proof (seg_nonneg _ _ _ _ _ _ H2).
    pose proof (hereok_lseg _ _ _ _ _ Hh H1) as H1'.
    pose proof (lseg_nonneg _ _ _ _ _ _ H1').
    destruct (split_list_at (M - 1 - length lft) rgt) as (rgt1 & rgt2' & -> & Hl1); [lia|].
    rewrite app_length in Hlen.
    destruct rgt2' as [|[[mp ms] mc] rgt2]; [simpl in Hlen; lia|]. simpl length in Hlen.
    apply seg_app_inv in H2. destruct H2 as (l21 & l2x & -> & S1 & S2).
    inversion S2 as [|off mz s0 ch0 lmc es0 l22 Hmz Rmc S3]; subst. clear S2.
    pose proof (seg_nonneg _ _ _ _ _ _ S1). pose proof (seg_nonneg _ _ _ _ _ _ S3).
    pose proof (childR_nonneg _ _ _ _ _ Rmc).
    autorewrite with rs in *.
    bubble_pre Rl Rr. rewrite app_length. cbn [length].
    destruct (Nat.ltb_spec (length lft + (length rgt1 + S (length rgt2))) (max_len M)) as [B|_];
      [unfold max_len in B; lia|].
    rewrite node_tsize. cbn [bind].
    destruct (Nat.ltb_spec M (length lft)) as [B|_]; [lia|].
    replace (M - 1)%nat with (length lft + length rgt1)%nat by lia.
    rewrite node_split_r. cbn [bind]. rewrite node_set_subtree_size. cbn [bind].
    rewrite (node_nil (inj _) mc rgt2).
    change (try_key_pos (node ?t [] mc rgt2) 0) with (try_key_pos (node t [] mc rgt2) (length (@nil lentry))).
    rewrite node_try_key_pos.
    destruct rgt2 as [|[[p2 s2] c2] rgt2]; [simpl in Hlen; lia|].
    cbn [hd_error option_map e_pos fst].
    assert (p2 = inj (rsum l1 + rsum lc + rsum l21 + mz + rsum lmc)) as -> by (inversion S3; auto).
    destruct (Nat.eqb_spec (length lft) M) as [B|_]; [lia|].
    destruct (Nat.eqb_spec (length lft) (M + 1)) as [B|_]; [lia|].
    cbn [orb negb]. unfold child_size.
    change (child (node ?t [] ?a ?b) 0) with (child (node t [] a b) (length (@nil lentry))).
    rewrite node_child. cbn [bind].
    rewrite (rep_size _ _ _ _ _ _ Rmc).
    set (tot := rsum l1 + rsum lc + (rsum l21 + (mz + (rsum lmc + rsum l22)))) in *.
    set (rs := rsum l1 + rsum lc + rsum l21 + mz).
    assert (Htot : tot <= MAX) by (unfold tot; lia).
    cbn [bind]. ix.
    rewrite (il_zero _ _ _ L).
    match goal with |- context [shift_keys X false _ 0 _ (inj ?r) _] => replace r with rs by (unfold rs; lia) end.
    match goal with |- context [shift_keys X false (node _ [] _ ?r)] =>
      destruct (shift_all X MAX inj M L (S h) false 0 rs 0 tot [] mc r rs [] lmc l22)
        as (lft' & rgt2' & E & _ & S3' & Hlf & Hlr & _); auto; unfold rs, tot in *; try (cbn [rsum]; lia) end.
    { constructor. }
    { cbn [rsum]. rewrite Z.add_0_r. exact S3. }
    rewrite E. clear E. cbn [bind]. destruct lft'; [|discriminate]. clear Hlf.
    set (msz := match here with Some l => _ | None => _ end).
    assert (exists s', 
      ((s' = None /\ l1' = l1) \/
     (exists l0 s zo zn, s' = Some (inj (rsum l0), inj zo, inj zn) /\ l1 = l0 ++ [(s, zo)] /\
        l1' = l0 ++ [(s, zn)] /\ 0 < zo /\ 0 < zn /\ 0 <= rsum l0)) /\
      msz = (inj mz, match here with Some l => Some l | None => None end) /\
      s' = match here with Some l => Some (l_pos l, l_old l, l_new l) | None => None end)
      as (s' & Hs' & Em & Es').
    { inversion Hh; subst; unfold msz.
      - exists None. repeat split; auto. do 2 f_equal. lia.
      - eexists. split; [right; exists l0; do 3 eexists; repeat split; eauto|].
        destruct (Nat.eqb_spec (length (lft0 ++ [(a, (inj (rsum l0), s))])) (M + 1)); [lia|].
        split; auto. do 2 f_equal. lia. }
    rewrite Em. cbv beta iota.
    assert (Ebind : match (match here with Some l => Some l | None => None end) with
            | None => Ok None
            | Some l => Ok (Some (l_pos l, l_old l, l_new l)) end = Ok s').
    { subst s'. destruct here; reflexivity. }
    rewrite Ebind. cbn [bind].
    edestruct (half_insert) with (h := h) (lft := lft) (rgt := rgt1) (l1 := l1) (l1' := l1') (lc := lc)
      (l2 := l21) (s' := s') (tot := rsum l1 + rsum lc + rsum l21) (lh := lh) (rh := rh) (k := k) (z := z) (ll := ll) (lr := lr)
      (sd := sd) (cur := cur) (lo := M)
      as (n & E & Rn & Tn & Tl); [.. | ]; auto; try lia.
    eexists. split; [etransitivity; [apply E | reflexivity]|].
    match goal with |- good _ _ _ ?lst _ (Bubble {| b_lhs := ?a; b_key := ?b; b_key_size := ?c; b_rhs := ?d; b_old := ?e; b_side := _; b_cur := _ |}) /\ _ =>
      assert (Gen : forall wh' sd' cur', (forall r, wh' = Some r -> tr a d (l1' ++ (ll ++ (k, z) :: lr) ++ l21) sd' cur' r) ->
        good lo (S h) tot lst wh' (Bubble {| b_lhs := a; b_key := b; b_key_size := c; b_rhs := d; b_old := e; b_side := sd'; b_cur := cur' |})) end.
    { intros wh' sd' cur' Htr'.
    replace (l1' ++ (ll ++ (k, z) :: lr) ++ l21 ++ (ms, mz) :: lmc ++ l22)
      with ((l1' ++ (ll ++ (k, z) :: lr) ++ l21) ++ (ms, mz) :: lmc ++ l22)
      by (rewrite <- !app_assoc; simpl; rewrite <- ?app_assoc; reflexivity).
    constructor; auto.
    - rewrite rep_nrep. change (lmc ++ l22) with ([] ++ lmc ++ l22).
      apply zip_nrep; auto; try constructor.
      + cbn [length] in *. lia.
      + cbn [length] in *. lia.
      + cbn [rsum] in S3'. match type of S3' with Rep.seg _ _ ?a _ _ => replace (rsum [] + rsum lmc) with a by (cbn [rsum]; lia) end. exact S3'.
      + cbn [rsum]. lia. }
    split; [apply Gen; intros r Hr; destruct wh as [r0|]; [|discriminate]; cbn [option_map] in Hr; inversion Hr; apply Tn; auto|]. split; [eauto|].
    intros Hne. exists (Some SLeft). split; [split; intros; [discriminate|lia]|]. cbn [recur]. apply Gen. intros r Hr. injection Hr as <-. apply Tl. exact Hne.
  Qed.

(** Case B2: full parent, insertion right of the midpoint. *)
  Lemma bubble_step_right : forall lo h lft rgt l1 l1' (lc : list run) l2 here tot lh rh k z ll lr sd cur wh,
    (length lft + length rgt = 2 * M)%nat -> (M < length lft)%nat ->
    lseg (childR (S h)) 0 lft l1 -> seg (childR (S h)) (rsum l1 + rsum lc) rgt l2 ->
    hereok here lft l1 l1' ->
    tot = rsum l1 + rsum lc + rsum l2 -> tot <= MAX -> 0 <= rsum lc ->
    rep M h lh ll -> rep M h rh lr -> 0 < z ->
    rsum lc < rsum ll + z + rsum lr ->
    rsum l1 + rsum lc < rsum l1' + (rsum ll + z + rsum lr) ->
    rsum l1' + (rsum ll + z + rsum lr) + rsum l2 <= MAX ->
    (forall r, wh = Some r -> tr lh rh ll sd cur r) ->
    exists st',
      bubble_step X M (node (inj tot) lft lh rgt) (length lft) here
        {| b_lhs := lh; b_key := k; b_key_size := inj z; b_rhs := rh;
           b_old := inj (rsum lc); b_side := sd; b_cur := cur |} = Ok st' /\
      good lo (S h) tot (l1' ++ (ll ++ (k, z) :: lr) ++ l2) (option_map (Nat.add (length l1)) wh) st' /\
      (exists b, st' = Bubble b) /\
      (lft <> [] -> exists sd', (sd' = None <-> length lft = (M + 1)%nat) /\
         good lo (S h) tot (l1' ++ (ll ++ (k, z) :: lr) ++ l2) (Some (length l1 - 1)%nat) (recur sd' [] st')).
  Proof.
    intros lo h lft rgt l1 l1' lc l2 here tot lh rh k z ll lr sd cur wh Hlen HcM H1 H2 Hh Ht Htm Hlc Rl Rr Hz Hinc Hinc2 Hmax Htr.
    pose proof (rep_nonneg _ _ _ _ _ _ Rl). pose proof (rep_nonneg _ _ _ _ _ _ Rr).
    pose proof (seg_nonneg _ _ _ _ _ _ H2).
    destruct (split_list_at M lft) as (lft1 & lft2' & -> & Hl1); [lia|].
    rewrite app_length in Hlen, HcM.
    destruct lft2' as [|[a [mp ms]] lft2]; [simpl in HcM; lia|]. simpl length in Hlen.
    destruct (here_split _ _ _ _ _ _ _ _ _ Hh H1)
      as (la1 & laa & mz & mz' & l12 & l12' & -> & -> & S1 & Ra & -> & Hmz & Hmz' & S2 & Hll & Hhere).
    clear Hh H1.
    pose proof (lseg_nonneg _ _ _ _ _ _ S1). pose proof (lseg_nonneg _ _ _ _ _ _ S2).
    pose proof (childR_nonneg _ _ _ _ _ Ra).
    assert (0 <= rsum l12').
    { destruct here as [li|]; [destruct Hhere as [(_ & _ & -> & _) | (_ & _ & l120 & s & zo & zn & _ & -> & ? & ? & ? & _)]|destruct Hhere as [_ ->]]; autorewrite with rs; try lia. }
    autorewrite with rs in Hmax, Hinc2, Ht.
    bubble_pre Rl Rr. ix. rewrite app_length. cbn [length].
    destruct (Nat.ltb_spec (length lft1 + S (length lft2) + length rgt) (max_len M)) as [B|_];
      [unfold max_len in B; lia|].
    rewrite node_tsize. cbn [bind].
    destruct (Nat.ltb_spec M (length lft1 + S (length lft2))) as [_|B]; [|lia].
    pose proof (node_split_l (inj tot) lft1 a (inj (rsum la1 + rsum laa)) ms lft2 lh rgt) as Esp.
    rewrite Hl1 in Esp. rewrite Esp. clear Esp. cbn [bind]. rewrite node_set_subtree_size. cbn [bind].
    set (rs := rsum la1 + rsum laa + mz).
    (* start of the right half *)
    set (fk := match try_key_pos _ 0 with Some _ => _ | None => _ end).
    set (fc := if _ || _ then _ else _).
    assert (Frs : exists fz, fk = Ok (inj (rs + fz)) /\ fc = Ok (inj fz) /\ 0 <= fz /\ rs + fz <= MAX).
    { unfold fk, fc. destruct lft2 as [|[a2 [p2 s2]] lft2].
      - apply lseg_nil_inv in S2. subst l12. exists (rsum lc). autorewrite with rs in *.
        change (try_key_pos (node ?t [] lh rgt) 0) with (try_key_pos (node t [] lh rgt) (length (@nil lentry))).
        rewrite node_try_key_pos. cbn [length] in *.
        destruct (Nat.eqb_spec (length lft1 + 1) (M + 1)) as [_|B]; [|lia]. rewrite orb_true_r.
        repeat split; auto; [|unfold rs; lia].
        pose proof (next_pos_inj inj _ _ _ _ tot H2 ltac:(lia)) as EN.
        replace (rs + rsum lc) with (rsum la1 + (rsum laa + (mz + 0)) + rsum lc) by (unfold rs; lia).
        destruct rgt as [|e rgt]; cbn [hd_error option_map next_pos] in *; [|congruence].
        destruct (Nat.ltb_spec 1 M); [cbn [length] in *; lia|]. rewrite node_tsize. congruence.
      - inversion S2 as [|off a0 la2 s0 z2 lft l12x Hz2 Ra2 S2']; subst.
        pose proof (lseg_nonneg _ _ _ _ _ _ S2'). pose proof (childR_nonneg _ _ _ _ _ Ra2).
        exists (rsum la2). unfold node at 1. cbn [asm snd]. unfold try_key_pos, keys.
        cbn [nth_error option_map e_pos fst length] in *.
        destruct (Nat.eqb_spec (length lft1 + S (S (length lft2))) (length lft1)) as [B|_]; [lia|].
        destruct (Nat.eqb_spec (length lft1 + S (S (length lft2))) (length lft1 + 1)) as [B|_]; [lia|].
        cbn [orb]. unfold child_size, child, node. cbn [asm fst child_of bind].
        rewrite (rep_size _ _ _ _ _ _ Ra2). autorewrite with rs in *.
        repeat split; auto. unfold rs. lia. }
    destruct Frs as (fz & -> & -> & Hfz & Hfm). cbn [bind]. ix.
    replace (rs + fz - fz) with rs by lia. unfold rs at 1. ix.
    destruct (Nat.eqb_spec (length lft1 + S (length lft2)) M) as [B|_]; [lia|]. cbn [negb].
    rewrite (il_zero _ _ _ L). autorewrite with rs in *.
    destruct (shift_all X MAX inj M L (S h) false 0 rs 0 tot lft2 lh rgt rs l12 lc l2)
        as (lft2s & rgts & E & S2s & H2s & Hlf & Hlr & Hlcount); auto; unfold rs in *; try lia.
    { match type of H2 with Rep.seg _ _ ?q _ _ => 
        replace (rsum la1 + rsum laa + mz + rsum l12 + rsum lc) with q by lia end. exact H2. }
    fold rs in E, S2s, H2s. fold rs.
    replace (rs + (0 - rs)) with 0 in * by lia. rewrite Z.add_0_l in H2s.
    rewrite E. clear E. cbn [bind].
    replace (length lft1 + S (length lft2) - (M + 1))%nat with (length lft2s) by lia.
    set (msz := match here with Some l => _ | None => _ end).
    assert (exists sh, msz = (inj mz', sh) /\
      exists s', (match sh with None => Ok None | Some l => 
                   let* p := ix_sub_left X (l_pos l) (inj rs) in Ok (Some (p, l_old l, l_new l)) end) = Ok s' /\
      ((s' = None /\ l12' = l12) \/
       (exists l0 s zo zn, s' = Some (inj (rsum l0), inj zo, inj zn) /\ l12 = l0 ++ [(s, zo)] /\
        l12' = l0 ++ [(s, zn)] /\ 0 < zo /\ 0 < zn /\ 0 <= rsum l0)))
      as (sh & -> & s' & Es & Hs').
    { unfold msz. destruct here as [li|].
      - destruct Hhere as [(-> & -> & -> & El) | (Hne & -> & l120 & s & zo & zn & -> & -> & Hzo & Hzn & Hl0 & Ep & Eo & En)].
        + cbn [length]. destruct (Nat.eqb_spec (length lft1 + 1) (M + 1)) as [_|B]; [|lia].
          exists None. rewrite El. split; auto. exists None. auto.
        + destruct lft2 as [|y lft2]; [congruence|]. cbn [length].
          destruct (Nat.eqb_spec (length lft1 + S (S (length lft2))) (M + 1)) as [B|_]; [lia|].
          exists (Some li). split.
          { do 2 f_equal. lia. }
          rewrite Ep, Eo, En. autorewrite with rs in *. ix. eexists. split; [reflexivity|].
          right. exists l120, s, zo, zn. repeat split; auto. unfold rs. do 3 f_equal. f_equal. lia.
      - destruct Hhere as [-> ->]. exists None. split; [do 2 f_equal; lia|]. exists None. auto. }
    assert (Hb : rsum l12 + rsum lc < rsum l12' + (rsum ll + z + rsum lr)).
    { destruct here as [li|]; [destruct Hhere as [(_ & -> & -> & _) | (_ & -> & _)]|destruct Hhere as [-> _]]; cbn [rsum]; lia. }
    cbv beta iota. rewrite Es. cbn [bind].
    replace (tot + (0 - rs)) with (rsum l12 + rsum lc + rsum l2) by (unfold rs; lia).
    edestruct (half_insert) with (h := h) (lft := lft2s) (rgt := rgts) (l1 := l12) (l1' := l12') (lc := lc)
      (l2 := l2) (s' := s') (tot := rsum l12 + rsum lc + rsum l2) (lh := lh) (rh := rh) (k := k) (z := z) (ll := ll) (lr := lr)
      (sd := sd) (cur := cur) (lo := M)
      as (n & E & Rn & Tn & Tl); [.. | ]; auto; try lia.
    eexists. split; [etransitivity; [apply E | reflexivity]|].
    match goal with |- good _ _ _ ?lst _ (Bubble {| b_lhs := ?a; b_key := ?b; b_key_size := ?c; b_rhs := ?d; b_old := ?e; b_side := _; b_cur := _ |}) /\ _ =>
      assert (Gen : forall wh' sd' cur', (forall r, wh' = Some r -> tr a d (la1 ++ laa) sd' cur' r) ->
        good lo (S h) tot lst wh' (Bubble {| b_lhs := a; b_key := b; b_key_size := c; b_rhs := d; b_old := e; b_side := sd'; b_cur := cur' |})) end.
    { intros wh' sd' cur' Htr'.
    replace ((la1 ++ laa ++ (ms, mz') :: l12') ++ (ll ++ (k, z) :: lr) ++ l2)
      with ((la1 ++ laa) ++ (ms, mz') :: l12' ++ (ll ++ (k, z) :: lr) ++ l2)
      by (rewrite <- !app_assoc; simpl; rewrite <- ?app_assoc; reflexivity).
    constructor; auto.
    - rewrite rep_nrep. replace (la1 ++ laa) with (la1 ++ laa ++ []) by (rewrite app_nil_r; reflexivity).
      apply zip_nrep; auto; try constructor; cbn [length rsum]; lia. }
    split; [apply Gen; intros r Hr; destruct wh as [r0|]; [|discriminate]; cbn [option_map] in Hr; inversion Hr|].
    { exists (length l12 + r0)%nat. split; [|apply Tn; auto].
      rewrite !app_length. simpl length. lia. }
    split; [eauto|]. intros _. rewrite app_length. cbn [length]. destruct lft2 as [|y lft2].
    - exists None. split; [split; intros; [cbn [length]; lia|reflexivity]|]. cbn [recur]. apply Gen. intros r Hr. injection Hr as <-.
      apply lseg_nil_inv in S2. subst l12. cbn [tr]. split; auto. rewrite !app_length. cbn [length]. lia.
    - exists (Some SRight). split; [split; intros; [discriminate|cbn [length] in *; lia]|]. cbn [recur]. apply Gen. intros r Hr. injection Hr as <-.
      assert (Hne : lft2s <> []) by (destruct lft2s; discriminate).
      cbn [tr]. exists (length l12 - 1)%nat. split; [|apply Tl; exact Hne].
      inversion S2; subst. rewrite !app_length. cbn [length]. rewrite !app_length. cbn [length]. lia.
  Qed.

(** Case B3: full parent, the bubbled key becomes the midpoint. *)
  Lemma bubble_step_mid : forall lo h lft rgt l1 l1' (lc : list run) l2 here tot lh rh k z ll lr sd cur wh,
    (length lft + length rgt = 2 * M)%nat -> (length lft = M)%nat ->
    lseg (childR (S h)) 0 lft l1 -> seg (childR (S h)) (rsum l1 + rsum lc) rgt l2 ->
    hereok here lft l1 l1' ->
    tot = rsum l1 + rsum lc + rsum l2 -> tot <= MAX -> 0 <= rsum lc ->
    rep M h lh ll -> rep M h rh lr -> 0 < z ->
    rsum l1' + (rsum ll + z + rsum lr) + rsum l2 <= MAX ->
    (forall r, wh = Some r -> tr lh rh ll sd cur r) ->
    exists st',
      bubble_step X M (node (inj tot) lft lh rgt) (length lft) here
        {| b_lhs := lh; b_key := k; b_key_size := inj z; b_rhs := rh;
           b_old := inj (rsum lc); b_side := sd; b_cur := cur |} = Ok st' /\
      good lo (S h) tot (l1' ++ (ll ++ (k, z) :: lr) ++ l2) (option_map (Nat.add (length l1)) wh) st' /\
      (exists b, st' = Bubble b) /\
      (lft <> [] -> exists sd', (sd' = None <-> length lft = (M + 1)%nat) /\
         good lo (S h) tot (l1' ++ (ll ++ (k, z) :: lr) ++ l2) (Some (length l1 - 1)%nat) (recur sd' [] st')).
  Proof.
    intros lo h lft rgt l1 l1' lc l2 here tot lh rh k z ll lr sd cur wh Hlen HcM H1 H2 Hh Ht Htm Hlc Rl Rr Hz Hmax Htr.
    pose proof (rep_nonneg _ _ _ _ _ _ Rl). pose proof (rep_nonneg _ _ _ _ _ _ Rr).
    pose proof (seg_nonneg _ _ _ _ _ _ H2).
    pose proof (rep_count _ _ _ _ _ _ Rl) as Cl.
    destruct lft as [|[a [mp ms]] lft1 _] using rev_ind; [simpl in HcM; lia|].
    destruct (here_split _ _ _ _ _ _ _ _ _ Hh H1)
      as (la1 & laa & mz & mz' & l12 & l12' & -> & -> & S1 & Ra & -> & Hmz & Hmz' & S2 & Hll & Hhere).
    clear Hh H1.
    apply lseg_nil_inv in S2. subst l12. destruct l12'; [|discriminate].
    pose proof (lseg_nonneg _ _ _ _ _ _ S1).
    pose proof (childR_nonneg _ _ _ _ _ Ra).
    pose proof (lseg_count inj _ _ _ _ (childR_count inj M (S h)) S1) as C1.
    pose proof (childR_count _ _ _ _ _ Ra) as Ca.
    autorewrite with rs in *. rewrite app_length in Hlen, HcM. cbn [length] in Hlen, HcM.
    bubble_pre Rl Rr. ix. rewrite app_length. cbn [length].
    destruct (Nat.ltb_spec (length lft1 + 1 + length rgt) (max_len M)) as [B|_];
      [unfold max_len in B; lia|].
    rewrite node_tsize. cbn [bind].
    destruct (Nat.ltb_spec M (length lft1 + 1)) as [B|_]; [lia|].
    replace (M - 1)%nat with (length lft1) by lia.
    rewrite node_split_l. cbn [bind]. rewrite node_set_subtree_size. cbn [bind].
    destruct rgt as [|[[p1 s1] c1] rgt]; [simpl in Hlen; lia|].
    assert (p1 = inj (rsum la1 + (rsum laa + (mz + 0)) + rsum lc)) as -> by (inversion H2; auto).
    change (try_key_pos (node ?t [] lh ?r) 0) with (try_key_pos (node t [] lh r) (length (@nil lentry))).
    rewrite node_try_key_pos. cbn [hd_error option_map e_pos fst bind].
    destruct (Nat.eqb_spec (length lft1 + 1) M) as [_|B]; [|lia].
    cbn [orb negb bind]. ix.
    set (msz := match here with Some l => _ | None => _ end).
    assert (msz = inj mz') as ->.
    { unfold msz. destruct here as [li|].
      - destruct Hhere as [(_ & _ & _ & El) | (Hne & _)]; [auto | congruence].
      - destruct Hhere as [-> _]. f_equal. lia. }
    change (replace_first_child (node ?t [] ?b ?r) rh) with (Ok (Node t rh r, b)). cbn [bind].
    rewrite (rep_size _ _ _ _ _ _ Rl). cbn [bind]. rewrite node_tsize. cbn [bind]. ix.
    rewrite node_push_key_and_child by lia. cbn [bind].
    rewrite (node_nil (inj tot) rh).
    change (key_pos (node ?t [] ?b ?r) 0) with (key_pos (node t [] b r) (length (@nil lentry))).
    rewrite node_key_pos. cbn [bind]. rewrite (il_zero _ _ _ L).
    match goal with |- context [shift_keys_auto X _ _ _ (inj ?o) _] => set (rs := o) in * end.
    rewrite (shift_auto_eq X MAX inj L) by (unfold rs; lia).
    destruct (shift_zip X MAX inj M L (S h) (rs <? rsum lr) 0 rs (rsum lr) tot [] rh
      ((inj rs, s1, c1) :: rgt) rs l2) as (rgt' & E & S' & Hl'); auto; try (unfold rs; lia).
    { destruct (Z.ltb_spec rs (rsum lr)); lia. }
    change (length (@nil lentry)) with O in E. rewrite E. cbn [bind].
    eexists. split; [reflexivity|].
    match goal with |- good _ _ _ ?lst _ (Bubble {| b_lhs := ?a; b_key := ?b; b_key_size := ?c; b_rhs := ?d; b_old := ?e; b_side := _; b_cur := _ |}) /\ _ =>
      assert (Gen : forall wh' sd' cur', (forall r, wh' = Some r -> tr a d (la1 ++ laa ++ (ms, mz') :: ll ++ []) sd' cur' r) ->
        good lo (S h) tot lst wh' (Bubble {| b_lhs := a; b_key := b; b_key_size := c; b_rhs := d; b_old := e; b_side := sd'; b_cur := cur' |})) end.
    { intros wh' sd' cur' Htr'.
    replace ((la1 ++ laa ++ [(ms, mz')]) ++ (ll ++ (k, z) :: lr) ++ (l2 : list run))
      with ((la1 ++ laa ++ (ms, mz') :: ll ++ []) ++ (k, z) :: lr ++ l2)
      by (rewrite app_nil_r, <- !app_assoc; simpl; rewrite <- ?app_assoc; reflexivity).
    replace (rs + (rsum lr - rs)) with (rsum lr) in S' by lia.
    constructor; auto.
    - rewrite rep_nrep. apply zip_nrep; auto.
      + cbn [length]. lia.
      + constructor; auto. constructor.
      + autorewrite with rs. lia.
    - rewrite rep_nrep. change (lr ++ l2) with ([] ++ lr ++ l2).
      cbn [length] in *. apply zip_nrep; auto; try (cbn [length rsum]; lia). constructor. }
    split; [apply Gen|].
    { intros r Hr. destruct wh as [r0|]; [|discriminate]. cbn [option_map] in Hr. inversion Hr.
      specialize (Htr r0 eq_refl). unfold tr in Htr. destruct sd as [[]|]; cbn [option_map opt_cons].
      + rewrite <- node_snoc. eapply tracks_down; [eauto | | rewrite app_length; cbn [length]; lia].
        rewrite lcount_app, !app_length. cbn [lcount length]. lia.
      + destruct Htr as (r' & -> & Tr). exists r'. split.
        * rewrite !app_length. cbn [length]. rewrite !app_length. cbn [length]. lia.
        * eapply tracks_down; [eauto | reflexivity | reflexivity].
      + destruct Htr as [-> ->]. split; auto. rewrite !app_length. cbn [length]. rewrite !app_length. cbn [length]. lia. }
    split; [eauto|]. intros _. exists (Some SLeft). split.
    { split; intros Q; [discriminate|]. lia. }
    cbn [recur]. apply Gen. intros r Hr. injection Hr as <-.
    cbn [tr]. rewrite <- node_snoc. rewrite node_snoc. apply tracks_here. rewrite !app_length. cbn [length]. lia.
  Qed.

(** One upward step, all cases. *)
  Lemma up_step_ok : forall lo h lft ch rgt l1 l1' (lc lc' : list run) l2 here tot st wh,
    (lo <= length lft + length rgt <= 2 * M)%nat ->
    lseg (childR (S h)) 0 lft l1 -> seg (childR (S h)) (rsum l1 + rsum lc) rgt l2 ->
    hereok here lft l1 l1' ->
    tot = rsum l1 + rsum lc + rsum l2 -> tot <= MAX -> 0 <= rsum lc ->
    good M h (rsum lc) lc' wh st ->
    rsum lc < rsum lc' ->
    rsum l1 + rsum lc < rsum l1' + rsum lc' ->
    rsum l1' + rsum lc' + rsum l2 <= MAX ->
    exists st',
      up_step X M (node (inj tot) lft ch rgt) (length lft) here st = Ok st' /\
      good lo (S h) tot (l1' ++ lc' ++ l2) (wh_up here (length l1) wh) st'.
  Proof.
    intros lo h lft ch rgt l1 l1' lc lc' l2 here tot st wh Hlen H1 H2 Hh Ht Htm Hlc G Hinc Hinc2 Hmax.
    pose proof (hereok_lseg _ _ _ _ _ Hh H1) as H1'.
    pose proof (lseg_nonneg _ _ _ _ _ _ H1). pose proof (seg_nonneg _ _ _ _ _ _ H2).
    pose proof (lseg_nonneg _ _ _ _ _ _ H1').
    pose proof (lseg_count inj _ _ _ _ (childR_count inj M (S h)) H1) as C1.
    destruct G as [n lc' wh new cur Rn -> Htr | lhs rhs k z ll lr wh sd cur Rl Rr Hz Htr].
    - unfold up_step. rewrite node_set_child. cbn [bind].
      assert (Fin : forall rgt' cur',
        seg (childR (S h)) (rsum l1' + rsum lc') rgt' l2 ->
        length rgt' = length rgt ->
        (forall r, wh_up here (length l1) wh = Some r -> cur' = cur) ->
        good lo (S h) tot (l1' ++ lc' ++ l2) (wh_up here (length l1) wh)
          (Done (node (inj (rsum l1' + rsum lc' + rsum l2)) lft n rgt') (inj tot)
                (inj (rsum l1' + rsum lc' + rsum l2)) (length lft :: cur'))).
      { intros rgt' cur' S' Hl' Hc. constructor.
        - rewrite rep_nrep. apply zip_nrep; auto. lia.
        - autorewrite with rs. lia.
        - intros r Hr. rewrite (Hc r Hr).
          assert (exists r0, wh = Some r0 /\ r = (length l1 + r0)%nat) as (r0 & -> & ->).
          { unfold wh_up in Hr. destruct here as [li|]; [destruct (l_remap li); [discriminate|]|];
              (destruct wh as [r0|]; [|discriminate]); inversion Hr; eauto. }
          eapply tracks_down; [apply Htr; reflexivity | lia | reflexivity]. }
      destruct Hh as [lft l1 | lft0 a s l0 zo zn rm Hzo Hzn Hl0].
      + destruct (child_step_ok (S h) tot lft n rgt (rsum lc) (rsum lc') cur (rsum l1 + rsum lc) l2)
          as (rgt' & E & S' & Hl'); auto; try lia.
        rewrite E. eexists. split; [reflexivity|].
        replace (tot + (rsum lc' - rsum lc)) with (rsum l1 + rsum lc' + rsum l2) by lia.
        apply Fin; auto. match type of S' with Rep.seg _ _ ?q _ _ => replace (rsum l1 + rsum lc') with q by lia end. exact S'.
      + autorewrite with rs in *.
        destruct (child_step_here_ok (S h) tot (lft0 ++ [(a, (inj (rsum l0), s))]) n rgt (rsum l0) zo zn rm (rsum lc) (rsum lc') cur
                    (rsum l0 + (zo + 0) + rsum lc) l2)
          as (rgt' & E & S' & Hl'); auto; try lia.
        rewrite E. eexists. split; [reflexivity|].
        match goal with |- good _ _ _ _ _ (Done (node (inj ?q) _ _ _) _ _ _) =>
          replace q with (rsum l0 + (zn + 0) + rsum lc' + rsum l2) by lia end.
        apply Fin; auto.
        * match type of S' with Rep.seg _ _ ?q _ _ => replace (rsum l0 + (zn + 0) + rsum lc') with q by lia end. exact S'.
        * cbn [wh_up l_remap]. destruct rm; [discriminate | reflexivity].
    - unfold up_step. cbn [b_lhs]. rewrite node_set_child. cbn [bind].
      rewrite rsum_app, rsum_cons in Hinc, Hinc2, Hmax.
      destruct (Nat.lt_ge_cases (length lft + length rgt) (2 * M)) as [Hr|Hr].
      + destruct (bubble_step_room lo h lft rgt l1 l1' lc l2 here tot lhs rhs k z ll lr sd cur wh)
          as (st' & E & G & (n & o & nw & c & Est & _) & _); auto; try lia.
        rewrite E. cbn [bind]. eexists. split; [reflexivity|]. subst st'.
        destruct here; exact G.
      + assert (Full : (length lft + length rgt = 2 * M)%nat) by lia.
        assert (exists st',
          bubble_step X M (node (inj tot) lft lhs rgt) (length lft) here
            {| b_lhs := lhs; b_key := k; b_key_size := inj z; b_rhs := rhs;
               b_old := inj (rsum lc); b_side := sd; b_cur := cur |} = Ok st' /\
          good lo (S h) tot (l1' ++ (ll ++ (k, z) :: lr) ++ l2) (option_map (Nat.add (length l1)) wh) st' /\
          exists b, st' = Bubble b) as (st' & E & G & b & ->).
        { destruct (lt_eq_lt_dec (length lft) M) as [[Hc|Hc]|Hc].
          - destruct (bubble_step_left lo h lft rgt l1 l1' lc l2 here tot lhs rhs k z ll lr sd cur wh) as (st' & ? & ? & ? & _); eauto; lia.
          - destruct (bubble_step_mid lo h lft rgt l1 l1' lc l2 here tot lhs rhs k z ll lr sd cur wh) as (st' & ? & ? & ? & _); eauto; lia.
          - destruct (bubble_step_right lo h lft rgt l1 l1' lc l2 here tot lhs rhs k z ll lr sd cur wh) as (st' & ? & ? & ? & _); eauto; lia. }
        rewrite E. cbn [bind]. eexists. split; [reflexivity|].
        unfold remap_bubble, wh_up. destruct here as [li|]; [|exact G].
        destruct (l_remap li); [|exact G].
        inversion G; subst. constructor; auto. discriminate.
  Qed.

  (** The upward step at the node with the left-hand key, when the cursor is set anew: where that
      key is afterwards, and which cursor the code gives instead. *)
  Lemma up_step_lhs : forall lo h lft ch rgt l1 l1' (lc lc' : list run) l2 li tot st wh,
    (lo <= length lft + length rgt <= 2 * M)%nat ->
    lseg (childR (S h)) 0 lft l1 -> seg (childR (S h)) (rsum l1 + rsum lc) rgt l2 ->
    hereok (Some li) lft l1 l1' -> l_remap li = true ->
    tot = rsum l1 + rsum lc + rsum l2 -> tot <= MAX -> 0 <= rsum lc ->
    good M h (rsum lc) lc' wh st ->
    rsum lc < rsum lc' ->
    rsum l1 + rsum lc < rsum l1' + rsum lc' ->
    rsum l1' + rsum lc' + rsum l2 <= MAX ->
    exists st' sd,
      up_step X M (node (inj tot) lft ch rgt) (length lft) (Some li) st = Ok st' /\
      good lo (S h) tot (l1' ++ lc' ++ l2) (Some (length l1 - 1)%nat) (recur sd [] st') /\
      match st, st' with
      | Done _ _ _ _, Done _ _ _ c => c = [length lft]
      | Bubble _, Done _ _ _ c => (length lft + length rgt < 2 * M)%nat /\ c = []
      | Bubble _, Bubble b => (length lft + length rgt = 2 * M)%nat /\ b_side b = None /\ b_cur b = [] /\
                              (sd = None <-> length lft = (M + 1)%nat)
      | Done _ _ _ _, Bubble _ => False
      end.
  Proof.
    intros lo h lft ch rgt l1 l1' lc lc' l2 li tot st wh Hlen H1 H2 Hh Hrm Ht Htm Hlc G Hinc Hinc2 Hmax.
    pose proof (hereok_lseg _ _ _ _ _ Hh H1) as H1'.
    pose proof (lseg_nonneg _ _ _ _ _ _ H1). pose proof (seg_nonneg _ _ _ _ _ _ H2).
    pose proof (lseg_nonneg _ _ _ _ _ _ H1').
    pose proof (hereok_length _ _ _ _ Hh) as HL.
    assert (Hne : lft <> []) by (inversion Hh; subst; destruct lft0; discriminate).
    destruct G as [n lc' wh new cur Rn -> Htr | lhs rhs k z ll lr wh sd cur Rl Rr Hz Htr].
    - unfold up_step. rewrite node_set_child. cbn [bind].
      inversion Hh as [|lft0 a s l0 zo zn rm Hzo Hzn Hl0]; subst. cbn [l_remap] in Hrm. subst rm.
      autorewrite with rs in *.
      match goal with |- context [node (inj ?q) _ n _] =>
      destruct (child_step_here_ok (S h) q (lft0 ++ [(a, (inj (rsum l0), s))]) n rgt (rsum l0) zo zn true (rsum lc) (rsum lc') cur
                  (rsum l0 + (zo + 0) + rsum lc) l2)
        as (rgt' & E & S' & Hl'); auto; try lia end.
      rewrite E. eexists. exists None. split; [reflexivity|]. split; [|reflexivity]. cbn [recur].
      match goal with |- good _ _ _ _ _ (Done (node (inj ?q) _ _ _) _ _ _) =>
        replace q with (rsum l0 + (zn + 0) + rsum lc' + rsum l2) by lia end.
      constructor.
      + rewrite rep_nrep. apply zip_nrep; auto; try lia.
        * match type of S' with Rep.seg _ _ ?q _ _ => replace (rsum (l0 ++ [(s, zn)]) + rsum lc') with q by (autorewrite with rs; lia) end. exact S'.
        * autorewrite with rs. lia.
      + autorewrite with rs. lia.
      + intros r Hr. injection Hr as <-. rewrite HL. eapply tracks_last; eauto.
    - unfold up_step. cbn [b_lhs]. rewrite node_set_child. cbn [bind].
      rewrite rsum_app, rsum_cons in Hinc, Hinc2, Hmax.
      destruct (Nat.lt_ge_cases (length lft + length rgt) (2 * M)) as [Hr|Hr].
      + destruct (bubble_step_room lo h lft rgt l1 l1' lc l2 (Some li) tot lhs rhs k z ll lr sd cur wh)
          as (st' & E & G & (n & o & nw & c & Est & Ec) & Gl); auto; try lia.
        rewrite E. cbn [bind]. rewrite Hrm in Ec. subst st' c. exists (Done n o nw []), None. cbn [remap_bubble]. auto.
      + assert (Full : (length lft + length rgt = 2 * M)%nat) by lia.
        assert (exists st' sd',
          bubble_step X M (node (inj tot) lft lhs rgt) (length lft) (Some li)
            {| b_lhs := lhs; b_key := k; b_key_size := inj z; b_rhs := rhs;
               b_old := inj (rsum lc); b_side := sd; b_cur := cur |} = Ok st' /\
          (exists b, st' = Bubble b) /\ (sd' = None <-> length lft = (M + 1)%nat) /\
          good lo (S h) tot (l1' ++ (ll ++ (k, z) :: lr) ++ l2) (Some (length l1 - 1)%nat) (recur sd' [] st')) as (st' & sd' & E & (b & ->) & Hsd & G).
        { destruct (lt_eq_lt_dec (length lft) M) as [[Hc|Hc]|Hc].
          - destruct (bubble_step_left lo h lft rgt l1 l1' lc l2 (Some li) tot lhs rhs k z ll lr sd cur wh) as (st' & ? & ? & ? & Q); auto; try lia.
            destruct (Q Hne) as (sd' & ? & ?). eauto 10.
          - destruct (bubble_step_mid lo h lft rgt l1 l1' lc l2 (Some li) tot lhs rhs k z ll lr sd cur wh) as (st' & ? & ? & ? & Q); auto; try lia.
            destruct (Q Hne) as (sd' & ? & ?). eauto 10.
          - destruct (bubble_step_right lo h lft rgt l1 l1' lc l2 (Some li) tot lhs rhs k z ll lr sd cur wh) as (st' & ? & ? & ? & Q); auto; try lia.
            destruct (Q Hne) as (sd' & ? & ?). eauto 10. }
        rewrite E. cbn [bind]. unfold remap_bubble. rewrite Hrm. do 2 eexists. split; [reflexivity|].
        split; [exact G|]. cbn [b_side b_cur]. auto.
  Qed.
End Upd.
