(** What an insertion that panics leaves: the whole insertion.  Proof support only. *)
From Coq Require Import List ZArith Bool Arith Lia Permutation Relations.
From Verif Require Import Base Index Slice Tree Insert Crash Wild WildQ WildR Zip Rep Leaf Path Find Hist Unwind UnwindSpec UnwindP UnwindQ UnwindR UnwindS UnwindT.
Import ListNotations.

Section Holes.
  Context {I V W : Type} (f : V -> W).
  Lemma slices_tmap : forall t : tree I V, slices (tmap f t) = map f (slices t).
  Proof.
    induction t as [|tot c0 es IH H] using tree_ind4; [reflexivity|]. cbn [tmap slices]. rewrite map_app, IH. f_equal.
    induction H as [|e es He H IHes]; [reflexivity|]. cbn [map flat_map fst snd e_slice app]. rewrite He, IHes, map_app. reflexivity.
  Qed.
  Lemma count_tmap : forall t : tree I V, count (tmap f t) = count t.
  Proof. intros t. rewrite <- !slices_count, slices_tmap. apply map_length. Qed.
  Lemma before_tmap : forall es c (c0 : tree I V), before (tmap f c0) (map (fun e => (e_pos e, f (e_slice e), tmap f (snd e))) es) c = before c0 es c.
  Proof.
    induction es as [|[k ch] es IH]; intros [|c] c0; try reflexivity. cbn [map before snd fst e_pos e_slice]. rewrite count_tmap. f_equal. f_equal. apply IH.
  Qed.
  Lemma child_tmap : forall (c0 : tree I V) es c, child_of (tmap f c0) (map (fun e => (e_pos e, f (e_slice e), tmap f (snd e))) es) c =
    match child_of c0 es c with Ok a => Ok (tmap f a) | Panic w => Panic w | UB => UB end.
  Proof. intros c0 es [|k]; [reflexivity|]. cbn [child_of]. unfold nth_ub. rewrite nth_error_map. destruct (nth_error es k); reflexivity. Qed.
  Lemma rank_tmap : forall p (t : tree I V) k, rank (tmap f t) p k = rank t p k.
  Proof.
    induction p as [|c p IH]; intros [|tot c0 es] k; try reflexivity; cbn [tmap rank].
    - rewrite map_length, before_tmap, child_tmap. destruct (k <? length es); [|reflexivity]. destruct (child_of c0 es k); try reflexivity. rewrite count_tmap. reflexivity.
    - rewrite child_tmap, before_tmap. destruct (child_of c0 es c); try reflexivity. rewrite IH. reflexivity.
  Qed.
  Lemma wshape_tmap : forall M b h lo (t : tree I V), wshape M b lo h (tmap f t) = wshape M b lo h t.
  Proof.
    intros M b. induction h as [|h IH]; intros lo [|tot c0 es]; try reflexivity; cbn [tmap]; rewrite !wshape_S, map_length, map_map; cbn [e_child snd]; f_equal; cbn [forallb]; f_equal.
    - destruct c0; reflexivity.
    - induction es as [|e es IHe]; [reflexivity|]. cbn [map forallb]. rewrite IHe. f_equal. unfold e_child. destruct (snd e); reflexivity.
    - apply IH.
    - induction es as [|e es IHe]; [reflexivity|]. cbn [map forallb]. rewrite IHe. f_equal. apply IH.
  Qed.
End Holes.

Lemma somes_some : forall {V} (l : list V), somes (map Some l) = l.
Proof. intros V. induction l; [reflexivity|]. cbn. f_equal. exact IHl. Qed.
Lemma somes_app : forall {V} (a b : list (option V)), somes (a ++ b) = somes a ++ somes b.
Proof. intros. apply flat_map_app. Qed.

Section Top.
  Context {I V : Type} (X : index_ops I) (Cp : @cmp_panics I) (Y : slice_ops I V) (M lo : nat).
  Hypothesis HX : index_any X.
  Hypothesis HM : 1 <= M.
  Hypothesis Hlo : lo = 0 \/ lo = 1 /\ 3 <= M.
  Notation tree := (tree I V).
  Notation T1 := (fun _ => True).
  Notation wsh h t := (wshape M lo lo h t = true).
  Notation st_ok := (@st_ok I V M lo).
  Notation left_ok := (@left_ok I V M lo).
  Notation remains := (@remains I V).
  Notation fin_ok := (@fin_ok I V M lo).

  Ltac nub1 :=
    lazymatch goal with
    | |- post _ (ix_add_left _ _ _) => apply p_addl, HX
    | |- post _ (ix_add_right _ _ _) => apply p_addr, HX
    | |- post _ (ix_sub_left _ _ _) => apply p_subl, HX
    | |- post _ (ix_sub_right _ _ _) => apply p_subr, HX
    end.
  Ltac nub := nub1.

  (** Calls of the slice type. *)
  Lemma re_refl : forall l, reworked Y l l.
  Proof. intros. apply rt_refl. Qed.
  Lemma re_trans : forall a b c, reworked Y a b -> reworked Y b c -> reworked Y a c.
  Proof. intros a b c. apply rt_trans. Qed.
  Lemma re_step : forall a b, worked Y a b -> reworked Y a b.
  Proof. intros. apply rt_step. assumption. Qed.
  Lemma re_split : forall a s q l r b, sl_split_at Y s q = (l, r) -> reworked Y (a ++ s :: b) (a ++ l :: r :: b).
  Proof. intros. apply re_step. econstructor. eassumption. Qed.
  Lemma re_join : forall a x y z b, sl_try_join Y x y = inl z -> reworked Y (a ++ x :: y :: b) (a ++ z :: b).
  Proof. intros. apply re_step. constructor 2. assumption. Qed.
  Lemma re_refuse : forall a x y x' y' b, sl_try_join Y x y = inr (x', y') -> reworked Y (a ++ x :: y :: b) (a ++ x' :: y' :: b).
  Proof. intros. apply re_step. constructor 3. assumption. Qed.

  (** What is left when the whole insertion unwinds. *)
  Definition mid_ok (h : nat) (S0 : list V) (x : V) (m : remains) (d : list V) : Prop :=
    wshape M lo lo h (m_tree m) = true /\ (exists L, put Y S0 x L /\ accounted (somes (slices (m_tree m))) d L) /\
    length (somes (slices (m_tree m))) + m_taken m <= length S0 + m_added m.

  Lemma mid_whole : forall h S0 x L n t d, wsh h t -> put Y S0 x L -> accounted (slices t) d L -> length (slices t) <= length S0 + n -> mid_ok h S0 x (whole n t) d.
  Proof.
    intros h S0 x L n t d H P A Hl. unfold mid_ok, whole. cbn [m_tree m_added m_taken]. rewrite wshape_tmap, slices_tmap, somes_some.
    split; [exact H|]. split; [exists L; auto|]. lia.
  Qed.
  Lemma q_all_in : forall {A} (P : A -> Prop) h S0 x L n m, put Y S0 x L -> length L <= length S0 + n -> uspec P (left_ok h L) m -> uspec P (mid_ok h S0 x) (all_in n m).
  Proof.
    intros A P h S0 x L n m HP Hl H. eapply u_umap; [exact H|]. intros l d [W Ac]. eexists. split; [reflexivity|].
    eapply mid_whole; [exact W|exact HP|exact Ac|]. apply acc_len in Ac. lia.
  Qed.
  Lemma q_holed : forall {A} (P : A -> Prop) h S0 x L t p k a s b taken d m, wsh h t -> rank t p k = Some (length a) -> slices t = a ++ s :: b ->
    put Y S0 x L -> accounted (a ++ b) d L -> length (a ++ b) + taken <= length S0 -> post P m -> uspec P (mid_ok h S0 x) (holed t (p, k) taken d m : ures _ V A).
  Proof.
    intros A P h S0 x L t p k a s b taken d m H R E HP Ac Hl Hm. unfold holed. destruct m as [q|w|]; [exact Hm| |exact Hm].
    destruct (key_at X Cp M lo HX HM Hlo h (tmap Some t) p k (length a)) as (n & a' & s' & b' & _ & _ & _ & _ & Es & La & _ & Set').
    { rewrite wshape_tmap. exact H. }
    { rewrite rank_tmap. exact R. }
    rewrite slices_tmap, E, map_app in Es. cbn [map] in Es. apply app_mid_inv in Es; [|rewrite map_length; congruence]. destruct Es as (<- & <- & <-).
    destruct (Set' None) as (o & Eo & Wo & So & _). cbn [fst snd]. rewrite Eo. cbn [uspec]. unfold mid_ok. cbn [m_tree m_added m_taken].
    rewrite So, somes_app. cbn [somes flat_map app]. fold (somes (map Some b)). rewrite !somes_some. split; [exact Wo|]. split; [exists L; auto|]. lia.
  Qed.

  (** The result of a whole insertion. *)
  Definition ins_ok (S0 : list V) (x : V) (q : tree * nat * list nat * nat) : Prop :=
    wsh (snd (fst (fst q))) (fst (fst (fst q))) /\ put Y S0 x (slices (fst (fst (fst q)))) /\ length (slices (fst (fst (fst q)))) = length S0 + snd q.

  Lemma q_split_key : forall nop h t p k r q x n, wsh h t -> rank t p k = Some r ->
    uspec (ins_ok (slices t) x) (mid_ok h (slices t) x) (uinsert_split_key X Cp Y M nop h t p (h - length p) k q x n).
  Proof.
    intros nop h t p k r q x n H R. destruct (key_at X Cp M lo HX HM Hlo h t p k r H R) as (nd & A & s & B & En & Hp & Hk & Wn & Es & LA & Sn & Set').
    subst r. set (S0 := slices t) in *. unfold uinsert_split_key. rewrite En. cbn [at_ ubind].
    assert (Pe : put Y S0 x (S0 ++ [x])) by (exists S0, []; rewrite app_nil_r; split; apply re_refl).
    assert (Q0 : mid_ok h S0 x (whole 0 t) [x]) by (eapply mid_whole; [exact H|exact Pe|fold S0; acct|fold S0; lia]).
    eapply u_at with (P := T1); [eapply p_slice_size; eauto|exact Q0|intros ks _]. rewrite Sn. cbn [at_ ubind].
    destruct (sl_split_at Y s q) as [lhs rhs] eqn:Esp. destruct (Set' lhs) as (t1 & Et1 & W1 & S1 & SS1). rewrite Et1. cbn [at_ ubind].
    assert (R1 : rank t1 p k = Some (length A)) by (destruct SS1 as (_ & SS & _); rewrite SS; exact R).
    assert (Hlen : length S0 = length A + 1 + length B) by (rewrite Es, app_length; cbn [length]; lia).
    (* the new slice between the halves *)
    assert (P1 : put Y S0 x (A ++ lhs :: x :: rhs :: B)).
    { exists (A ++ [lhs]), (rhs :: B). rewrite <- !app_assoc. cbn [app]. split; [rewrite Es; eapply re_split; eassumption|apply re_refl]. }
    assert (Pr : forall L, reworked Y (A ++ lhs :: x :: rhs :: B) L -> put Y S0 x L).
    { intros L HL. destruct P1 as (a & b & K1 & K2). exists a, b. split; [exact K1|]. eapply re_trans; [exact K2|exact HL]. }
    assert (Q1 : mid_ok h S0 x (whole 0 t1) [x; rhs]).
    { eapply mid_whole; [exact W1|exact P1|rewrite S1; acct|rewrite S1, app_length; cbn [length]; lia]. }
    eapply u_at with (P := T1); [nub|exact Q1|intros rz _]. cbv zeta.
    assert (Rhs : forall t2 lh z remap fs sn, wsh h t2 -> rank t2 p k = Some (length A) -> slices t2 = A ++ lh :: B ->
      reworked Y (A ++ lhs :: x :: rhs :: B) (A ++ lh :: fst fs :: snds sn ++ B) ->
      uspec (ins_ok S0 x) (mid_ok h S0 x)
        (let! (t', h', cur) := all_in (1 + length (snds sn)) (uinsert_rhs X Cp M h t2 p (h - length p) k z remap fs sn) in UOk (t', h', cur, 1 + length (snds sn)))).
    { intros t2 lh z remap fs sn W2 R2 S2 Re. pose proof (Pr _ Re) as HP.
      assert (HL : length (A ++ lh :: fst fs :: snds sn ++ B) = length S0 + (1 + length (snds sn))) by (rewrite app_length; cbn [length]; rewrite app_length; lia).
      eapply u_bind.
      - eapply q_all_in; [exact HP|lia|]. apply (q_insert_rhs X Cp M lo HX HM Hlo h t2 p k A lh B z remap fs sn W2 R2 S2).
      - intros [[t' h'] cur] [W' S']. cbn [fst snd] in W', S'. cbn [uspec]. unfold ins_ok. cbn [fst snd]. rewrite S'. split; [exact W'|]. split; [exact HP|]. exact HL. }
    destruct (sl_may_join Y) eqn:Ej; cbn [negb].
    2: { apply (Rhs t1 lhs q false (x, n) (Some (rhs, rz)) W1 R1 S1). apply re_refl. }
    destruct (sl_try_join Y lhs x) as [mid|[l x']] eqn:Ej1.
    - eapply u_bind with (P := T1).
      { eapply (q_holed T1 h S0 x (A ++ mid :: rhs :: B) t1 p k A lhs B 0); [exact W1|exact R1|exact S1| |acct|rewrite app_length; lia|nub].
        apply Pr. apply re_join. exact Ej1. }
      intros mz _. destruct (sl_try_join Y mid rhs) as [new|[l r]] eqn:Ej2.
      + assert (Re : reworked Y (A ++ lhs :: x :: rhs :: B) (A ++ new :: B)) by (eapply re_trans; [apply re_join; exact Ej1|apply re_join; exact Ej2]).
        destruct (key_at X Cp M lo HX HM Hlo h t1 p k _ W1 R1) as (_ & a1 & s1 & b1 & _ & _ & _ & _ & E1 & L1 & _ & Set1).
        rewrite S1 in E1. apply app_mid_inv in E1; [|congruence]. destruct E1 as (<- & <- & <-).
        destruct (Set1 new) as (t2 & E2 & W2 & S2 & SS2). rewrite E2. cbn [at_ ubind].
        assert (R2 : rank t2 p k = Some (length A)) by (destruct SS2 as (_ & SS & _); rewrite SS; exact R1).
        assert (HL : length (A ++ new :: B) = length S0) by (rewrite app_length; cbn [length]; lia).
        assert (Q2 : mid_ok h S0 x (whole 0 t2) []) by (eapply mid_whole; [exact W2|apply Pr, Re|rewrite S2; apply acc_all|rewrite S2; lia]).
        eapply u_at with (P := T1); [nub|exact Q2|intros old _]. eapply u_at with (P := T1); [nub|exact Q2|intros new' _].
        eapply u_bind.
        { eapply q_all_in; [apply Pr, Re|lia|]. rewrite <- S2. eapply (q_key_upd X Cp M lo HX HM Hlo); [exact W2|exact R2]. }
        intros st Hst. eapply u_bind.
        { eapply q_all_in; [apply Pr, Re|lia|]. rewrite <- S2. apply (q_finish X M lo HX HM Hlo). exact Hst. }
        intros [[t' h'] cur] [W' S']. cbn [fst snd] in W', S'. cbn [uspec]. unfold ins_ok. cbn [fst snd]. rewrite S', S2. split; [exact W'|]. split; [apply Pr, Re|lia].
      + assert (Re : reworked Y (A ++ lhs :: x :: rhs :: B) (A ++ l :: r :: B)) by (eapply re_trans; [apply re_join; exact Ej1|apply re_refuse; exact Ej2]).
        destruct (key_at X Cp M lo HX HM Hlo h t1 p k _ W1 R1) as (_ & a1 & s1 & b1 & _ & _ & _ & _ & E1 & L1 & _ & Set1).
        rewrite S1 in E1. apply app_mid_inv in E1; [|congruence]. destruct E1 as (<- & <- & <-).
        destruct (Set1 l) as (t2 & E2 & W2 & S2 & SS2). rewrite E2. cbn [at_ ubind].
        assert (R2 : rank t2 p k = Some (length A)) by (destruct SS2 as (_ & SS & _); rewrite SS; exact R1).
        apply (Rhs t2 l mz (negb nop) (r, rz) None W2 R2 S2 Re).
    - destruct (key_at X Cp M lo HX HM Hlo h t1 p k _ W1 R1) as (_ & a1 & s1 & b1 & _ & _ & _ & _ & E1 & L1 & _ & Set1).
      rewrite S1 in E1. apply app_mid_inv in E1; [|congruence]. destruct E1 as (<- & <- & <-).
      destruct (Set1 l) as (t2 & E2 & W2 & S2 & SS2). rewrite E2. cbn [at_ ubind].
      assert (R2 : rank t2 p k = Some (length A)) by (destruct SS2 as (_ & SS & _); rewrite SS; exact R1).
      assert (Re1 : reworked Y (A ++ lhs :: x :: rhs :: B) (A ++ l :: x' :: rhs :: B)) by (apply re_refuse; exact Ej1).
      assert (App : forall c : list V, A ++ l :: c = (A ++ [l]) ++ c) by (intros; rewrite <- app_assoc; reflexivity).
      destruct (sl_try_join Y x' rhs) as [new|[m r]] eqn:Ej2.
      + assert (Re : reworked Y (A ++ lhs :: x :: rhs :: B) (A ++ l :: new :: B)).
        { eapply re_trans; [exact Re1|]. rewrite (App (x' :: _)), (App (new :: _)). apply re_join. exact Ej2. }
        assert (Q2 : mid_ok h S0 x (whole 1 t2) [new]).
        { eapply mid_whole; [exact W2|apply Pr, Re|rewrite S2; acct|rewrite S2, app_length; cbn [length]; lia]. }
        eapply u_at with (P := T1); [nub|exact Q2|intros size' _].
        apply (Rhs t2 l q false (new, size') None W2 R2 S2 Re).
      + assert (Re : reworked Y (A ++ lhs :: x :: rhs :: B) (A ++ l :: m :: r :: B)).
        { eapply re_trans; [exact Re1|]. rewrite (App (x' :: _)), (App (m :: _)). apply re_refuse. exact Ej2. }
        apply (Rhs t2 l q false (m, n) (Some (r, rz)) W2 R2 S2 Re).
  Qed.

  (** A key that takes part in a join. *)
  Lemma hand : forall h (t : tree) p k A s B, wsh h t -> rank t p k = Some (length A) -> slices t = A ++ s :: B ->
    handle_slice t (p, k) = Ok s /\ post T1 (handle_size X h t (p, k)) /\
    (forall s', exists t', set_slice_at t p k s' = Ok t' /\ wsh h t' /\ slices t' = A ++ s' :: B /\ ss t t').
  Proof.
    intros h t p k A s B H R E. destruct (key_at X Cp M lo HX HM Hlo h t p k _ H R) as (n & a & s1 & b & En & _ & Hk & Wn & Es & La & Sn & Set').
    rewrite E in Es. apply app_mid_inv in Es; [|congruence]. destruct Es as (<- & <- & <-). unfold handle_slice. cbn [fst snd]. rewrite En.
    split; [exact Sn|]. split; [|exact Set']. eapply (p_handle_size X M lo HX); [exact H|]. exists n. auto.
  Qed.

  Definition jr_ok (h : nat) (t : tree) (A B : list V) (x : V) (j : @join_result I V) : Prop :=
    match j with
    | Joined t' h' _ => wsh h' t' /\ put Y (A ++ B) x (slices t') /\ length (slices t') = length (A ++ B)
    | NotJoined t1 s => wsh h t1 /\ ss t t1 /\ exists A1 B1, slices t1 = A1 ++ B1 /\ length A1 = length A /\ length B1 = length B /\ reworked Y (A ++ x :: B) (A1 ++ s :: B1)
    end.

  Lemma q_single : forall h t0 (t : tree) p k r A B x o n, wsh h t -> rank t p k = Some r -> put Y (A ++ B) x (slices t) -> length (slices t) = length (A ++ B) ->
    uspec (jr_ok h t0 A B x) (mid_ok h (A ++ B) x) (usingle_join X Cp M h t (p, k) o n).
  Proof.
    intros h t0 t p k r A B x o n H R HP HL. unfold usingle_join. cbn [fst snd]. eapply u_bind.
    { eapply q_all_in; [exact HP|lia|]. eapply (q_key_upd X Cp M lo HX HM Hlo); [exact H|exact R]. }
    intros st Hst. eapply u_bind.
    { eapply q_all_in; [exact HP|lia|]. apply (q_finish X M lo HX HM Hlo). exact Hst. }
    intros [[t' h'] cur] [W' S']. cbn [fst snd] in W', S'. cbn [uspec jr_ok]. rewrite S'. auto.
  Qed.

  Lemma q_try_join : forall h (t : tree) A B a b x n, wsh h t -> slices t = A ++ B ->
    (sl_may_join Y = true -> lhs_ok t a (length A) /\ rhs_ok t b (length A) (count t)) ->
    uspec (jr_ok h t A B x) (mid_ok h (A ++ B) x) (uedge_try_join X Cp Y M h t a b x n).
  Proof.
    intros h t A B a b x n H Es Hj. unfold uedge_try_join.
    destruct (sl_may_join Y) eqn:Ej; cbn [negb].
    2: { cbn [uspec jr_ok]. split; [exact H|]. split; [apply ss_refl|]. exists A, B. repeat split; auto. apply re_refl. }
    destruct (Hj eq_refl) as [Ha Hb]. clear Hj.
    assert (Pr : forall L, reworked Y (A ++ x :: B) L -> put Y (A ++ B) x L) by (intros L HL; exists A, B; split; [apply re_refl|exact HL]).
    assert (Q0 : mid_ok h (A ++ B) x (whole 0 t) [x]).
    { eapply mid_whole; [exact H|apply Pr, re_refl|rewrite Es; acct|rewrite Es; lia]. }
    rewrite <- slices_count, Es in Hb.
    (* the neighbours *)
    assert (Na : match a with None => A = [] | Some (pa, ka) => exists A' ls, A = A' ++ [ls] /\ rank t pa ka = Some (length A') end).
    { destruct a as [[pa ka]|]; cbn [lhs_ok] in Ha; [|destruct A; [reflexivity|discriminate Ha]]. destruct Ha as (r & Hr & Ra).
      destruct A as [|ls A' _] using rev_ind; [discriminate Hr|]. exists A', ls. split; [reflexivity|]. rewrite app_length in Hr. cbn in Hr. rewrite Ra. f_equal. lia. }
    assert (Nb : match b with None => B = [] | Some (pb, kb) => exists rs B', B = rs :: B' /\ rank t pb kb = Some (length A) end).
    { destruct b as [[pb kb]|]; cbn [rhs_ok] in Hb.
      - destruct (key_at X Cp M lo HX HM Hlo h t pb kb _ H Hb) as (_ & a' & s' & b' & _ & _ & _ & _ & E & L' & _).
        rewrite Es in E. apply app_inv_length in E; [|congruence]. destruct E as [_ E]. exists s', b'. auto.
      - rewrite app_length in Hb. destruct B; [reflexivity|cbn in Hb; lia]. }
    clear Ha Hb.
    eapply u_at with (P := fun q => match a with None => q = None | Some c => exists z, q = Some (z, c) end); [|exact Q0|intros lsz Hl].
    { destruct a as [[pa ka]|]; [|reflexivity]. destruct Na as (A' & ls & -> & Ra). rewrite <- app_assoc in Es. destruct (hand h t pa ka A' ls B H Ra Es) as (_ & Hz & _).
      eapply post_bind; [exact Hz|]. intros z _ _. cbn. eauto. }
    eapply u_at with (P := fun q => match b with None => q = None | Some c => exists z, q = Some (z, c) end); [|exact Q0|intros rsz Hr].
    { destruct b as [[pb kb]|]; [|reflexivity]. destruct Nb as (rs & B' & -> & Rb). destruct (hand h t pb kb A rs B' H Rb Es) as (_ & Hz & _).
      eapply post_bind; [exact Hz|]. intros z _ _. cbn. eauto. }
    destruct a as [[pa ka]|]; destruct b as [[pb kb]|].
    - destruct Hl as [lz ->]. destruct Hr as [rz ->]. destruct Na as (A' & ls & -> & Ra). destruct Nb as (rs & B' & -> & Rb).
      assert (Es1 : slices t = A' ++ ls :: rs :: B') by (rewrite Es, <- app_assoc; reflexivity).
      destruct (hand h t pa ka A' ls _ H Ra Es1) as (Sa & _ & SetA). destruct (hand h t pb kb (A' ++ [ls]) rs B' H Rb Es) as (Sb & _ & SetB).
      rewrite Sa. cbn [at_ ubind].
      assert (E1 : (A' ++ [ls]) ++ x :: rs :: B' = A' ++ ls :: x :: rs :: B') by (rewrite <- app_assoc; reflexivity).
      destruct (sl_try_join Y ls x) as [mid|[l x']] eqn:J1.
      + eapply u_bind with (P := T1).
        { eapply (q_holed T1 h _ x (A' ++ mid :: rs :: B') t pa ka A' ls (rs :: B') 0); [exact H|exact Ra|exact Es1| |acct| |nub].
          - apply Pr. rewrite E1. apply re_join. exact J1.
          - rewrite !app_length. cbn [length]. lia. }
        intros mz _. rewrite Sb. cbn [at_ ubind]. destruct (sl_try_join Y mid rs) as [new|[m r]] eqn:J2.
        * destruct (SetA new) as (t1 & Et1 & W1 & S1 & SS1). cbn [fst snd]. rewrite Et1. cbn [at_ ubind].
          assert (R1 : rank t1 pb kb = Some (length (A' ++ [new]))) by (destruct SS1 as (_ & SS & _); rewrite SS, Rb, !app_length; reflexivity).
          assert (Es2 : slices t1 = (A' ++ [new]) ++ rs :: B') by (rewrite S1, <- app_assoc; reflexivity).
          assert (HP : put Y ((A' ++ [ls]) ++ rs :: B') x (A' ++ new :: B')).
          { apply Pr. rewrite E1. eapply re_trans; [apply re_join; exact J1|apply re_join; exact J2]. }
          assert (Hol : forall P (m : res I), post P m -> uspec P (mid_ok h ((A' ++ [ls]) ++ rs :: B') x) (holed t1 (pb, kb) 1 [] m)).
          { intros P m Hm. eapply (q_holed P h _ x _ t1 pb kb (A' ++ [new]) rs B' 1 []); [exact W1|exact R1|exact Es2|exact HP| |rewrite !app_length; cbn [length]; lia|exact Hm].
            rewrite <- app_assoc. apply acc_all. }
          assert (Hol' : forall P (m : res (@join_result I V)), post P m -> uspec P (mid_ok h ((A' ++ [ls]) ++ rs :: B') x) (holed t1 (pb, kb) 1 [] m)).
          { intros P m Hm. eapply (q_holed P h _ x _ t1 pb kb (A' ++ [new]) rs B' 1 []); [exact W1|exact R1|exact Es2|exact HP| |rewrite !app_length; cbn [length]; lia|exact Hm].
            rewrite <- app_assoc. apply acc_all. }
          eapply u_bind with (P := T1); [apply Hol; nub|]. intros _ _. apply Hol'. exact Logic.I.
        * destruct (SetB r) as (t1 & Et1 & W1 & S1 & SS1). cbn [fst snd]. rewrite Et1. cbn [at_ ubind].
          assert (R1 : rank t1 pa ka = Some (length A')) by (destruct SS1 as (_ & SS & _); rewrite SS; exact Ra).
          assert (Es2 : slices t1 = A' ++ ls :: r :: B') by (rewrite S1, <- app_assoc; reflexivity).
          destruct (hand h t1 pa ka A' ls _ W1 R1 Es2) as (_ & _ & SetA1). destruct (SetA1 m) as (t2 & Et2 & W2 & S2 & SS2). rewrite Et2. cbn [at_ ubind].
          eapply q_single; [exact W2|destruct SS2 as (_ & SS & _); rewrite SS; exact R1| |rewrite S2, !app_length; cbn [length]; lia].
          rewrite S2. apply Pr. rewrite E1. eapply re_trans; [apply re_join; exact J1|apply re_refuse; exact J2].
      + destruct (SetA l) as (t1 & Et1 & W1 & S1 & SS1). cbn [fst snd]. rewrite Et1. cbn [at_ ubind].
        assert (R1 : rank t1 pb kb = Some (length (A' ++ [l]))) by (destruct SS1 as (_ & SS & _); rewrite SS, Rb, !app_length; reflexivity).
        assert (Es2 : slices t1 = (A' ++ [l]) ++ rs :: B') by (rewrite S1, <- app_assoc; reflexivity).
        destruct (hand h t1 pb kb _ rs B' W1 R1 Es2) as (Sb1 & _ & SetB1). rewrite Sb1. cbn [at_ ubind].
        assert (Re1 : reworked Y ((A' ++ [ls]) ++ x :: rs :: B') ((A' ++ [l]) ++ x' :: rs :: B')).
        { rewrite E1, <- app_assoc. apply re_refuse. exact J1. }
        destruct (sl_try_join Y x' rs) as [new|[x'' r]] eqn:J2.
        * destruct (SetB1 new) as (t2 & Et2 & W2 & S2 & SS2). rewrite Et2. cbn [at_ ubind].
          assert (HP : put Y ((A' ++ [ls]) ++ rs :: B') x (slices t2)).
          { rewrite S2. apply Pr. eapply re_trans; [exact Re1|]. apply re_join. exact J2. }
          assert (HL : length (slices t2) = length ((A' ++ [ls]) ++ rs :: B')) by (rewrite S2, !app_length; reflexivity).
          eapply u_at with (P := T1); [nub| |intros ns _].
          { eapply mid_whole; [exact W2|exact HP|apply acc_all|lia]. }
          eapply q_single; [exact W2|destruct SS2 as (_ & SS & _); rewrite SS; exact R1|exact HP|exact HL].
        * destruct (SetB1 r) as (t2 & Et2 & W2 & S2 & SS2). rewrite Et2. cbn [at_ ubind uspec jr_ok]. split; [exact W2|].
          split; [eapply ss_trans; eassumption|]. exists (A' ++ [l]), (r :: B'). split; [exact S2|]. split; [rewrite !app_length; reflexivity|]. split; [reflexivity|].
          eapply re_trans; [exact Re1|]. apply re_refuse. exact J2.
    - destruct Hl as [lz ->]. cbn in Hr. subst rsz. destruct Na as (A' & ls & -> & Ra). subst B.
      assert (Es1 : slices t = A' ++ ls :: []) by (rewrite Es, app_nil_r; reflexivity).
      destruct (hand h t pa ka A' ls _ H Ra Es1) as (Sa & _ & SetA). rewrite Sa. cbn [at_ ubind].
      assert (E1 : (A' ++ [ls]) ++ [x] = A' ++ ls :: x :: []) by (rewrite <- app_assoc; reflexivity).
      destruct (sl_try_join Y ls x) as [new|[l x']] eqn:J1.
      + destruct (SetA new) as (t1 & Et1 & W1 & S1 & SS1). cbn [fst snd]. rewrite Et1. cbn [at_ ubind].
        assert (HP : put Y ((A' ++ [ls]) ++ []) x (slices t1)) by (rewrite S1; apply Pr; rewrite E1; apply re_join; exact J1).
        assert (HL : length (slices t1) = length ((A' ++ [ls]) ++ [])) by (rewrite S1, app_nil_r, !app_length; reflexivity).
        eapply u_at with (P := T1); [nub| |intros ns _].
        { eapply mid_whole; [exact W1|exact HP|apply acc_all|lia]. }
        eapply q_single; [exact W1|destruct SS1 as (_ & SS & _); rewrite SS; exact Ra|exact HP|exact HL].
      + destruct (SetA l) as (t1 & Et1 & W1 & S1 & SS1). cbn [fst snd]. rewrite Et1. cbn [at_ ubind uspec jr_ok]. split; [exact W1|].
        split; [exact SS1|]. exists (A' ++ [l]), []. split; [rewrite app_nil_r; exact S1|]. split; [rewrite !app_length; reflexivity|]. split; [reflexivity|].
        rewrite E1, <- app_assoc. apply re_refuse. exact J1.
    - destruct Hr as [rz ->]. cbn in Hl. subst lsz. destruct Nb as (rs & B' & -> & Rb). subst A. cbn [app] in *.
      destruct (hand h t pb kb [] rs B' H Rb Es) as (Sb & _ & SetB). rewrite Sb. cbn [at_ ubind].
      destruct (sl_try_join Y x rs) as [new|[x' r]] eqn:J1.
      + destruct (SetB new) as (t1 & Et1 & W1 & S1 & SS1). cbn [fst snd]. rewrite Et1. cbn [at_ ubind].
        assert (HP : put Y ([] ++ rs :: B') x (slices t1)) by (rewrite S1; apply Pr; apply (re_join []); exact J1).
        assert (HL : length (slices t1) = length ([] ++ rs :: B')) by (rewrite S1; reflexivity).
        change (rs :: B') with ([] ++ rs :: B'). eapply u_at with (P := T1); [nub| |intros ns _].
        { eapply mid_whole; [exact W1|exact HP|apply acc_all|lia]. }
        eapply q_single; [exact W1|destruct SS1 as (_ & SS & _); rewrite SS; exact Rb|exact HP|exact HL].
      + destruct (SetB r) as (t1 & Et1 & W1 & S1 & SS1). cbn [fst snd]. rewrite Et1. cbn [at_ ubind uspec jr_ok]. split; [exact W1|].
        split; [exact SS1|]. exists [], (r :: B'). split; [exact S1|]. split; [reflexivity|]. split; [reflexivity|]. apply (re_refuse []). exact J1.
    - cbn in Hl, Hr. subst. exact Q0.
  Qed.

  Lemma q_insert_edge : forall h (t : tree) p k a b e x n, wsh h t -> erank t p k = Some e -> length p = h -> e <= count t ->
    (sl_may_join Y = true -> lhs_ok t a e /\ rhs_ok t b e (count t)) ->
    uspec (ins_ok (slices t) x) (mid_ok h (slices t) x) (uinsert_edge X Cp Y M h t p k a b x n).
  Proof.
    intros h t p k a b e x n H R Hp He Hj. rewrite <- slices_count in He.
    destruct (cut_list (slices t) e He) as (A & B & Es & LA). subst e. rewrite Es. unfold uinsert_edge.
    destruct (erank_node_at p t k _ R) as [nd En]. rewrite En. cbn [at_ ubind].
    assert (Path : forall t1, wsh h t1 -> ss t t1 -> exists n1 pre suf, node_at t1 p = Ok n1 /\ wsh 0 n1 /\ slices t1 = pre ++ slices n1 ++ suf /\ k <= tlen n1 /\ length A = length pre + k /\
      forall f L, uspec (st_ok 0 L) (left_ok 0 L) (f n1) -> uspec (st_ok h (pre ++ L ++ suf)) (left_ok h (pre ++ L ++ suf)) (uupd X Cp M f None t1 p)).
    { intros t1 W1 SS. assert (R1 : erank t1 p k = Some (length A)) by (destruct SS as (_ & _ & SS); rewrite SS; exact R).
      destruct (erank_node_at p t1 k _ R1) as [n1 E1].
      destruct (q_path X Cp M lo HX HM Hlo p h t1 n1 W1 E1 ltac:(lia)) as (pre & suf & S1 & Wn & _ & R2 & U & _).
      replace (h - length p) with 0 in * by lia. exists n1, pre, suf. split; [exact E1|]. split; [exact Wn|]. split; [exact S1|].
      specialize (R2 [] k). rewrite app_nil_r, R1 in R2.
      assert (Hn : n1 <> Nil) by (intros ->; discriminate Wn).
      assert (Hk : k <= tlen n1).
      { destruct n1 as [|tot c0 es]; [congruence|]. cbn [erank] in R2. unfold tlen. cbn [keys]. destruct (Nat.leb_spec k (length es)); [assumption|discriminate R2]. }
      split; [exact Hk|]. destruct (WildQ.node_split n1 k Hk Hn) as (tot & lft & ch & rgt & -> & <-). rewrite erank_here in R2. cbn in R2. inversion R2 as [R3].
      assert (K : okn M lo 0 (fst (asm lft ch rgt)) (map kv (snd (asm lft ch rgt)))).
      { unfold node in Wn. rewrite wshape_S in Wn. apply andb_prop in Wn. destruct Wn as [_ Wn]. apply (okc_forallb M lo 0). exact Wn. }
      apply (asm_ok M lo Hlo) in K. destruct K as [K _].
      assert (Ek : lcount lft = length lft) by (clear - K; induction K as [|[q c] l Ha K IH]; [reflexivity|]; cbn in *; subst q; cbn; lia).
      split; [lia|]. intros f L Hf. exact (U f L None Hf). }
    destruct (Path t H (ss_refl t)) as (n0 & _ & _ & E0 & _ & _ & Hk0 & _). rewrite En in E0. inversion E0; subst n0.
    destruct (Nat.ltb_spec (tlen nd) k); [lia|].
    eapply u_bind; [eapply (q_try_join h t A B a b x n H Es Hj)|]. intros [t' h' cur|t1 s] Hjr; cbn [jr_ok] in Hjr.
    - destruct Hjr as (W' & P' & L'). cbn [uspec]. unfold ins_ok. cbn [fst snd]. rewrite Nat.add_0_r. auto.
    - destruct Hjr as (W1 & SS1 & A1 & B1 & S1 & LA1 & LB1 & Re). destruct (Path t1 W1 SS1) as (n1 & pre & suf & E1 & Wn & Sn & Hk1 & LA' & U).
      destruct (wsh_leaf _ _ _ Wn) as (ln & Ln & Lln). rewrite (le_tlen _ _ Ln) in Hk1. destruct (cut_list ln k Hk1) as (a1 & b1 & -> & La1).
      rewrite S1, (le_slices _ _ Ln) in Sn. replace (pre ++ (a1 ++ b1) ++ suf) with ((pre ++ a1) ++ b1 ++ suf) in Sn by (rewrite <- !app_assoc; reflexivity).
      apply app_inv_length in Sn; [|rewrite app_length; lia]. destruct Sn as [-> ->].
      assert (HP : put Y (A ++ B) x (pre ++ (a1 ++ s :: [] ++ b1) ++ suf)).
      { exists A, B. split; [apply re_refl|]. replace (pre ++ (a1 ++ s :: [] ++ b1) ++ suf) with ((pre ++ a1) ++ s :: b1 ++ suf) by (blocks; reflexivity). exact Re. }
      assert (HL : length (pre ++ (a1 ++ s :: [] ++ b1) ++ suf) = length (A ++ B) + 1).
      { rewrite !app_length in *. cbn [app length]. lia. }
      eapply u_bind.
      { eapply q_all_in; [exact HP|lia|]. apply U. apply (q_no_join X Cp M lo HX HM Hlo n1 a1 b1 false k None (s, n) None); [exact Ln|exact La1|exact Lln|congruence]. }
      intros st Hst. eapply u_bind.
      { eapply q_all_in; [exact HP|lia|]. apply (q_finish X M lo HX HM Hlo). exact Hst. }
      intros [[t' h'] cur] [W' S']. cbn [fst snd] in W', S'. cbn [uspec]. unfold ins_ok. cbn [fst snd]. rewrite S'. auto.
  Qed.

  (** ** The whole call *)
  Definition rle_ok (r : @rle I V) : Prop :=
    match r with None => True | Some r => wsh (r_height r) (r_node r) /\ length (slices (r_node r)) <= r_len r end.
  Definition left_over (r : @rle I V) (x : V) (o : option (@root I (option V))) (d : list V) : Prop :=
    match o with
    | None => r = None
    | Some o => (exists r0, r = Some r0 /\ r_height o = r_height r0) /\ wshape M lo lo (r_height o) (r_node o) = true /\ length (somes (slices (r_node o))) <= r_len o
    end /\
    exists L, put Y (rle_slices r) x L /\ accounted (somes (match o with Some o => slices (r_node o) | None => [] end)) d L.

  Lemma q_untouched : forall r x, rle_ok r -> left_over r x (untouched r) [x].
  Proof.
    intros r x Hr. assert (P : forall l, put Y l x (l ++ [x])) by (intros l; exists l, []; rewrite app_nil_r; split; apply re_refl).
    destruct r as [r|]; cbn [untouched].
    - destruct Hr as [W Hl]. unfold remaining, whole. cbn [m_tree m_added m_taken]. unfold left_over. cbn [r_height r_node r_len].
      rewrite slices_tmap, somes_some, wshape_tmap. split; [split; [eauto|]; split; [exact W|lia]|]. exists (slices (r_node r) ++ [x]). split; [apply P|]. acct.
    - split; [reflexivity|]. exists [x]. split; [exact (P [])|]. cbn [somes flat_map]. acct.
  Qed.

  Lemma q_insert : forall nop r hints idx x n, rle_ok r ->
    uspec (fun q => rle_ok (fst q) /\ put Y (rle_slices r) x (rle_slices (fst q))) (left_over r x) (uinsert_with_cursor X Cp Y M nop r hints idx x n).
  Proof.
    intros nop r hints idx x n Hr. unfold uinsert_with_cursor. pose proof (q_untouched r x Hr) as Q0.
    eapply u_at with (P := T1); [|exact Q0|intros sz _].
    { destruct r as [r|]; [|exact Logic.I]. eapply (p_rle_size X M lo). exists lo. apply Hr. }
    eapply u_at with (P := T1); [destruct (cp_search Cp); exact Logic.I|exact Q0|intros _ _].
    destruct (ix_ltb X sz idx); [exact Q0|]. destruct (ix_leb X n (ix_zero X)) eqn:En; [exact Q0|].
    destruct r as [r|].
    2: { unfold rle_new. rewrite En. cbn [at_ ubind uspec fst rle_ok r_height r_node r_len rle_slices slices flat_map app length snd]. split; [split; [|lia]|].
         - assert (J : is (Node n Nil [(ix_zero X, x, Nil)]) Nil [(x, @Nil I V)]) by (exists n, [(ix_zero X, x, Nil)]; auto).
           eapply is_wsh; [exact J|cbn [length]; lia|]. split; [reflexivity|]. constructor; [reflexivity|constructor].
         - exists [], []. split; apply re_refl. }
    destruct Hr as [W Hl]. eapply u_at; [eapply (p_find_root X M lo HX Y lo); exact W|exact Q0|intros ip Hip].
    eapply u_bind with (P := ins_ok (slices (r_node r)) x).
    - eapply u_umap with (Q := mid_ok (r_height r) (slices (r_node r)) x).
      + destruct ip as [p k a b|p hk k q]; cbn [wpoint] in Hip.
        * destruct Hip as (e & R & Hp & He & Hj). eapply q_insert_edge; eauto.
        * destruct Hip as (e & R & -> & He). eapply q_split_key; eauto.
      + intros m d (Wm & (L & HP & Ac) & Hc). eexists. split; [reflexivity|]. unfold remaining, left_over. cbn [r_height r_node r_len rle_slices].
        split; [split; [eauto|]; split; [exact Wm|lia]|]. exists L. auto.
    - intros [[[t' h'] cur] added] (W' & P' & L'). cbn [fst snd] in *. cbn [uspec fst rle_ok r_height r_node r_len rle_slices]. split; [split; [exact W'|lia]|exact P'].
  Qed.
End Top.
