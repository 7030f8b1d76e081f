(** Proofs about weak memory: the kinds of steps. *)
From Coq Require Import List Arith Bool Lia.
From Verif Require Import Base ListFacts Cow CowSpec CowP CowQ CowR CowS CowT Weak WeakP WeakQ WeakR.
Import ListNotations.

Section WT.
  Context {D : Type}.
  Notation heap := (heap D).
  Notation cnode := (cnode D).
  Notation pc := (pc D).
  Notation cstate := (cstate D).
  Notation wstate := (wstate D).
  Variable o : ords.
  Notation winv := (@winv D o).

  Lemma claim_one : forall (m : heap) hs (p : pc) c, tinv m hs p -> In c (frames p ++ tips p) -> has_cnt m 1 c.
  Proof. intros m hs p c TI C. apply in_app_or in C. destruct C; [eapply frames_cnt|eapply tips_cnt]; eauto. Qed.

  Definition known_at (w : wstate) (t : nat) (l : place) : Prop :=
    (forall i, know w l i -> In i (w_k w t)) /\ forall a, refers (w_s w) a l -> exists E, ereach (w_s w) E a /\ forall i, eknow w E i -> In i (w_k w t).
  Definition told_at (w' : wstate) (t : nat) (l : place) : Prop :=
    (forall i, In i (w_k w' t) -> know w' l i) /\ forall E i, In i (w_k w' t) -> through (w_s w') E l -> eknow w' E i.

  Record basics (w w' : wstate) (t : nat) (p p' : pc) : Prop := {
    b_inv : inv (w_s w');
    b_k : forall u, w_k w' u = w_k w u;
    b_log : w_log w' = w_log w;
    b_thr : c_threads (w_s w') = replace_at t p' (c_threads (w_s w));
    b_hands : hands w w' t p p'
  }.

  Lemma moved_mn : forall (w w' : wstate) t p p' (xi xo : place -> Prop), winv w -> thr w t p -> basics w w' t p p' ->
    (forall l, xi l -> known_at w t l) -> (forall l, xo l -> told_at w' t l) ->
    (inv (w_s w') -> (forall a n', look (mem_of w') a = Some n' ->
      (look (mem_of w) a = None /\ hview w' a = [] /\ exists m, w_hist w' a = [m] /\ g_val m = n_cnt n') \/
      (exists n, look (mem_of w) a = Some n /\ w_hist w' a = w_hist w a /\ n_cnt n' = n_cnt n) \/
      (exists n m, look (mem_of w) a = Some n /\ w_hist w' a = m :: w_hist w a /\ g_val m = n_cnt n' /\ incl (hview w a) (g_view m) /\
         (forall u q, other (w_s w) t u q -> ~ In a (claims q)) /\ (n_cnt n = 1 -> forall l', refers (w_s w') a l' -> know w' l' (g_ev m))))) ->
    (forall a l, refers (w_s w) a l -> look (mem_of w') a <> None ->
      refers (w_s w') a l \/ ((mn t p l \/ xi l) /\ ((exists l', (mn t p' l' \/ xo l') /\ refers (w_s w') a l') \/ incl (w_k w t) (hview w' a)))) ->
    (forall a l', refers (w_s w') a l' -> look (mem_of w) a <> None ->
      refers (w_s w) a l' \/
      ((mn t p' l' \/ xo l') /\ ((exists l, (mn t p l \/ xi l) /\ refers (w_s w) a l) \/
                   ((exists m, w_hist w' a = m :: w_hist w a /\ In (g_ev m) (w_k w t)) /\
                    exists E, ereach (w_s w) E a /\ forall i, eknow w E i -> In i (w_k w t))))) ->
    (forall a, In a (dying p) -> look (mem_of w') a <> None -> In a (dying p')) ->
    (forall a, In a (dying p') -> look (mem_of w) a <> None -> In a (dying p) \/ exists l, (mn t p l \/ xi l) /\ refers (w_s w) a l) ->
    (forall a, look (mem_of w') a = None -> match look (mem_of w) a with None => incl (w_gone w a) (w_gone w' a) | Some _ => forall i, up w a i -> In i (w_gone w' a) end) ->
    (forall a, look (mem_of w) a = None -> look (mem_of w') a <> None -> incl (w_gone w a) (w_k w t) /\ has_cnt (mem_of w') 1 a /\ exists l', (mn t p' l' \/ xo l') /\ refers (w_s w') a l') ->
    (forall a, In a (frames p' ++ tips p') -> incl (hview w' a) (w_k w t)) ->
    (forall a, In a (dying p') -> In (g_ev (newest w' a)) (w_k w t) /\ (acquires (o_dec o) = true -> incl (hview w' a) (w_k w t))) ->
    winv w'.
  Proof.
    intros w w' t p p' xi xo V T [I' EK EL TH HD] XI XO MH ML MG DL DG GO NE CL DY.
    assert (T' : thr w' t p') by (unfold thr; rewrite TH; apply replace_nth_same; eapply nth_error_lt; eauto).
    destruct (hands_uses o w w' t p p' V T HD TH) as [HR HW].
    apply (moved o w w' t p p' (fun l => mn t p l \/ xi l) (fun l => mn t p' l \/ xo l) V T). constructor; auto.
    - intros l [M|X]; [eapply (mn_inp o); eauto|apply XI; auto].
    - intros l [M|X]; rewrite <- (EK t); [eapply mn_outp; eauto|apply XO; auto].
    - intros h a R R'. eapply (hands_hr w w' t p p'); eauto.
  Qed.

  (** Steps that change no count of an existing node. *)
  Lemma shuffle : forall (w w' : wstate) t p p' (xi xo : place -> Prop) nw, winv w -> thr w t p -> basics w w' t p p' ->
    (forall l, xi l -> known_at w t l) -> (forall l, xo l -> told_at w' t l) ->
    (forall a, nw <> Some a -> w_hist w' a = w_hist w a /\ w_gone w' a = w_gone w a) ->
    (forall a n, look (mem_of w) a = Some n -> exists n', look (mem_of w') a = Some n' /\ n_cnt n' = n_cnt n) ->
    (forall a, look (mem_of w) a = None -> nw <> Some a -> look (mem_of w') a = None) ->
    (forall a, nw = Some a -> look (mem_of w) a = None /\ incl (w_gone w a) (w_k w t) /\ has_cnt (mem_of w') 1 a /\
      (exists m, w_hist w' a = [m] /\ g_val m = 1 /\ g_view m = []) /\ exists l', (mn t p' l' \/ xo l') /\ refers (w_s w') a l') ->
    (forall a l, refers (w_s w) a l -> refers (w_s w') a l \/ ((mn t p l \/ xi l) /\ exists l', (mn t p' l' \/ xo l') /\ refers (w_s w') a l')) ->
    (forall a l', refers (w_s w') a l' -> nw = Some a \/ refers (w_s w) a l' \/ ((mn t p' l' \/ xo l') /\ exists l, (mn t p l \/ xi l) /\ refers (w_s w) a l)) ->
    (forall a, In a (dying p') <-> In a (dying p)) ->
    (forall a, In a (frames p' ++ tips p') -> nw = Some a \/ In a (frames p ++ tips p) \/ incl (hview w a) (w_k w t)) ->
    winv w'.
  Proof.
    intros w w' t p p' xi xo nw V T B XI XO HH FW BW NW LO GA DY CL.
    assert (HV : forall a, nw <> Some a -> hview w' a = hview w a) by (intros a N; unfold hview, newest; rewrite (proj1 (HH a N)); auto).
    assert (DEC : forall a, nw = Some a \/ nw <> Some a).
    { intros a. destruct nw as [b|]; [|right; discriminate]. destruct (Nat.eq_dec b a) as [->|N]; [auto|right; congruence]. }
    apply (moved_mn w w' t p p' xi xo V T B XI XO).
    - intros I' a n' L'. destruct (DEC a) as [N|N].
      + left. destruct (NW a N) as (L & _ & (n1 & L1 & C1) & (m & H & G & VW) & _). rewrite L' in L1. injection L1 as <-. split; auto. split.
        * unfold hview, newest. rewrite H. auto.
        * exists m. split; auto. congruence.
      + right. left. destruct (look (mem_of w) a) as [n|] eqn:L; [|rewrite (BW a L N) in L'; discriminate]. exists n. split; auto. split; [apply (HH a N)|].
        destruct (FW a n L) as (n1 & L1 & C1). rewrite L' in L1. injection L1 as <-. auto.
    - intros a l R _. destruct (LO a l R) as [X|[M X]]; auto.
    - intros a l R LA. destruct (GA a l R) as [N|[X|[M X]]]; auto. exfalso. apply LA. apply (NW a N).
    - intros a X _. apply DY. auto.
    - intros a X _. left. apply DY. auto.
    - intros a L'. destruct (look (mem_of w) a) as [n|] eqn:L.
      + destruct (FW a n L) as (n1 & L1 & _). congruence.
      + destruct (DEC a) as [N|N]; [|rewrite (proj2 (HH a N)); apply incl_refl]. destruct (NW a N) as (_ & _ & (n1 & L1 & _) & _). congruence.
    - intros a L L'. destruct (DEC a) as [N|N]; [|exfalso; auto]. destruct (NW a N) as (_ & A & Bn & _ & C). auto.
    - intros a C. destruct (DEC a) as [N|N].
      + destruct (NW a N) as (_ & _ & _ & (m & H & _ & VW) & _). unfold hview, newest. rewrite H, VW. intros i [].
      + rewrite (HV a N). destruct (CL a C) as [X|[X|X]]; [congruence| |auto]. eapply (v_claim o w V); eauto.
    - intros a C. apply DY in C. destruct (claim_live _ t p a (v_inv o w V) T (dying_claims _ _ C)) as (n & L).
      assert (N : nw <> Some a) by (intros E; destruct (NW a E) as (L0 & _); unfold mem_of in L0; congruence).
      unfold newest. rewrite (HV a N), (proj1 (HH a N)). apply (v_dying o w V t p a T C).
  Qed.

  (** Steps that count a new reference to [c], at place [L]. *)
  Lemma bump : forall (w w' : wstate) t p p' (xo : place -> Prop) c n g L E, winv w -> thr w t p -> basics w w' t p p' ->
    (forall l, xo l -> told_at w' t l) ->
    look (mem_of w) c = Some n -> 1 <= n_cnt n -> mem_of w' = put (mem_of w) c (with_cnt n (n_cnt n + 1)) ->
    w_gone w' = w_gone w -> w_hist w' = upd (w_hist w) c (g :: w_hist w c) -> g_val g = n_cnt n + 1 -> incl (hview w c) (g_view g) -> In (g_ev g) (w_k w t) ->
    (forall a l, refers (w_s w') a l <-> refers (w_s w) a l \/ (a = c /\ l = L)) -> (mn t p' L \/ xo L) ->
    (forall u q, other (w_s w) t u q -> ~ In c (claims q)) -> (n_cnt n = 1 -> forall l, refers (w_s w) c l -> know w' l (g_ev g)) ->
    ereach (w_s w) E c -> (forall i, eknow w E i -> In i (w_k w t)) ->
    frames p' ++ tips p' = frames p ++ tips p -> dying p' = [] -> dying p = [] ->
    winv w'.
  Proof.
    intros w w' t p p' xo c n g L E V T B XO LC POS ME GE HE GV VW GI RE LO UN ONE ER EK FT DY' DY.
    assert (HC : w_hist w' c = g :: w_hist w c) by (rewrite HE; apply upd_same).
    assert (HO : forall a, a <> c -> w_hist w' a = w_hist w a) by (intros a N; rewrite HE; apply upd_other; auto).
    assert (LK : forall a, look (mem_of w') a = if a =? c then Some (with_cnt n (n_cnt n + 1)) else look (mem_of w) a) by (intros a; rewrite ME; apply (look_put _ _ _ _ _ LC)).
    assert (TOLD : told_at w' t L).
    { destruct LO as [M|X]; auto. destruct B as [I' BK BL TH HD]. assert (T' : thr w' t p') by (unfold thr; rewrite TH; apply replace_nth_same; eapply nth_error_lt; eauto). eapply mn_outp; eauto. }
    apply (moved_mn w w' t p p' (fun _ => False) xo V T B); auto; try contradiction.
    - intros I' a n' L'. destruct (Nat.eq_dec a c) as [->|N].
      + right. right. exists n, g. rewrite LK, Nat.eqb_refl in L'. injection L' as <-. cbn [n_cnt with_cnt]. split; [auto|]. split; [auto|]. split; [auto|]. split; [auto|]. split; [auto|].
        intros C1 l R. apply RE in R. destruct R as [R|[_ ->]]; auto. apply TOLD. rewrite (b_k _ _ _ _ _ B). auto.
      + right. left. rewrite LK in L'. rewrite (proj2 (Nat.eqb_neq a c) N) in L'. exists n'. auto.
    - intros a l R _. left. apply RE. auto.
    - intros a l R _. apply RE in R. destruct R as [R|[-> ->]]; auto. right. split; auto. right. split; eauto.
    - intros a X. rewrite DY in X. destruct X.
    - intros a X. rewrite DY' in X. destruct X.
    - intros a L'. rewrite LK in L'. destruct (a =? c); [discriminate|]. rewrite L', GE. apply incl_refl.
    - intros a L1 L2. exfalso. apply L2. rewrite LK. destruct (Nat.eqb_spec a c) as [->|N]; congruence.
    - intros a C. rewrite FT in C. destruct (Nat.eq_dec a c) as [->|N].
      + exfalso. rewrite <- FT in C. pose proof (b_inv _ _ _ _ _ B) as I'. assert (T' : thr w' t p') by (unfold thr; rewrite (b_thr _ _ _ _ _ B); apply replace_nth_same; eapply nth_error_lt; eauto).
        destruct (claim_one _ _ _ _ (i_thread _ I' t p' T') C) as (n1 & L1 & C1). fold (mem_of w') in L1. rewrite LK, Nat.eqb_refl in L1. injection L1 as <-. cbn in C1. lia.
      + unfold hview, newest. rewrite HO by auto. eapply (v_claim o w V); eauto.
    - intros a X. rewrite DY' in X. destruct X.
  Qed.

  (** Steps that count down a reference in the hand of the thread. *)
  Lemma lower : forall (w w' : wstate) t p p' c n g, winv w -> thr w t p -> basics w w' t p p' ->
    look (mem_of w) c = Some n -> n_cnt n <> 0 -> mem_of w' = put (mem_of w) c (with_cnt n (n_cnt n - 1)) -> In c (in_hand p) ->
    c_handles (w_s w') = c_handles (w_s w) ->
    w_gone w' = w_gone w -> w_hist w' = upd (w_hist w) c (g :: w_hist w c) -> g_val g = n_cnt n - 1 -> incl (hview w c) (g_view g) -> incl (w_k w t) (g_view g) -> In (g_ev g) (w_k w t) ->
    (acquires (o_dec o) = true -> incl (g_view g) (w_k w t)) ->
    (forall a, In a (in_hand p) -> a = c \/ In a (in_hand p')) -> incl (in_hand p') (in_hand p) ->
    frames p' ++ tips p' = frames p ++ tips p -> dying p' = (if n_cnt n =? 1 then [c] else []) ++ dying p ->
    winv w'.
  Proof.
    intros w w' t p p' c n g V T B LC NZ ME HC HS GE HE GV VW VK GI GA H1 H2 FT DY.
    assert (HCc : w_hist w' c = g :: w_hist w c) by (rewrite HE; apply upd_same).
    assert (HO : forall a, a <> c -> w_hist w' a = w_hist w a) by (intros a N; rewrite HE; apply upd_other; auto).
    assert (LK : forall a, look (mem_of w') a = if a =? c then Some (with_cnt n (n_cnt n - 1)) else look (mem_of w) a) by (intros a; rewrite ME; apply (look_put _ _ _ _ _ LC)).
    assert (T' : thr w' t p') by (unfold thr; rewrite (b_thr _ _ _ _ _ B); apply replace_nth_same; eapply nth_error_lt; eauto).
    pose proof (b_inv _ _ _ _ _ B) as I'. pose proof (v_inv o w V) as I.
    assert (RE : forall a l, refers (w_s w) a l -> refers (w_s w') a l \/ (a = c /\ l = LHand t)).
    { intros a [h|b|u] R; cbn [refers] in *.
      - left. rewrite HS. auto.
      - left. destruct R as (nb & L & K). fold (mem_of w) in L. fold (mem_of w'). rewrite LK. destruct (Nat.eqb_spec b c) as [->|]; eauto. rewrite LC in L. injection L as ->. eexists. split; [reflexivity|exact K].
      - destruct R as (q & N & K). destruct (Nat.eq_dec u t) as [->|NE].
        + unfold thr in T. rewrite T in N. injection N as <-. destruct (H1 a K) as [->|K']; auto. left. exists p'. auto.
        + left. exists q. split; auto. rewrite (b_thr _ _ _ _ _ B), replace_nth_other; auto. }
    assert (RB : forall a l, refers (w_s w') a l -> refers (w_s w) a l).
    { intros a [h|b|u] R; cbn [refers] in *.
      - rewrite <- HS. auto.
      - destruct R as (nb & L & K). fold (mem_of w') in L. fold (mem_of w). rewrite LK in L. destruct (Nat.eqb_spec b c) as [->|]; eauto. injection L as <-. eexists. split; [exact LC|exact K].
      - destruct R as (q & N & K). destruct (Nat.eq_dec u t) as [->|NE].
        + unfold thr in T'. rewrite T' in N. injection N as <-. exists p. split; auto.
        + exists q. split; auto. rewrite (b_thr _ _ _ _ _ B), replace_nth_other in N; auto. }
    assert (NF : ~ In c (frames p ++ tips p)).
    { intros C. destruct (claim_one _ _ _ _ (i_thread _ I t p T) C) as (n1 & L1 & C1). fold (mem_of w) in L1. rewrite LC in L1. injection L1 as <-.
      rewrite <- FT in C. destruct (claim_one _ _ _ _ (i_thread _ I' t p' T') C) as (n2 & L2 & C2). fold (mem_of w') in L2. rewrite LK, Nat.eqb_refl in L2. injection L2 as <-. cbn in C2. lia. }
    assert (ND : ~ In c (dying p)).
    { intros C. destruct (dying_cnt _ _ _ _ (i_thread _ I t p T) C) as (n1 & L1 & C1). fold (mem_of w) in L1. rewrite LC in L1. injection L1 as <-. auto. }
    apply (moved_mn w w' t p p' (fun _ => False) (fun _ => False) V T B); try contradiction.
    - intros _ a n' L'. destruct (Nat.eq_dec a c) as [->|N].
      + right. right. exists n, g. rewrite LK, Nat.eqb_refl in L'. injection L' as <-. cbn [n_cnt with_cnt]. split; [auto|]. split; [auto|]. split; [auto|]. split; [auto|]. split.
        * intros u q OT. eapply (not_claimed _ t p c (LHand t)); eauto; [cbn; eauto|reflexivity].
        * intros C1 l R. exfalso. apply (refers_zero (w_s w') c l I'); auto. exists (with_cnt n (n_cnt n - 1)). fold (mem_of w'). rewrite LK, Nat.eqb_refl. split; auto. cbn. lia.
      + right. left. rewrite LK in L'. rewrite (proj2 (Nat.eqb_neq a c) N) in L'. exists n'. auto.
    - intros a l R _. destruct (RE a l R) as [X|[-> ->]]; auto. right. split; [left; reflexivity|]. right. unfold hview, newest. rewrite HCc. auto.
    - intros a l R _. left. auto.
    - intros a X _. rewrite DY. apply in_or_app. auto.
    - intros a X _. rewrite DY in X. apply in_app_or in X. destruct X as [X|X]; auto. right. destruct (n_cnt n =? 1); [|destruct X]. destruct X as [<-|[]].
      exists (LHand t). split; [left; reflexivity|]. cbn. eauto.
    - intros a L'. rewrite LK in L'. destruct (a =? c); [discriminate|]. rewrite L', GE. apply incl_refl.
    - intros a L1 L2. exfalso. apply L2. rewrite LK. destruct (Nat.eqb_spec a c) as [->|N]; congruence.
    - intros a C. rewrite FT in C. assert (N : a <> c) by (intros ->; auto). unfold hview, newest. rewrite HO by auto. eapply (v_claim o w V); eauto.
    - intros a X. rewrite DY in X. apply in_app_or in X. destruct (Nat.eq_dec a c) as [->|N].
      + unfold newest, hview. unfold newest. rewrite HCc. split; auto.
      + destruct X as [X|X]; [destruct (n_cnt n =? 1); [|destruct X]; destruct X as [X|[]]; congruence|].
        unfold hview, newest. rewrite HO by auto. apply (v_dying o w V t p a T X).
  Qed.

  (** A node is freed. *)
  Lemma freed : forall (w w' : wstate) t p p' c n ds, winv w -> thr w t p -> basics w w' t p p' ->
    look (mem_of w) c = Some n -> dying p = c :: ds -> mem_of w' = free (mem_of w) c -> c_handles (w_s w') = c_handles (w_s w) -> incl (hview w c) (w_k w t) ->
    w_gone w' = upd (w_gone w) c (w_k w t) -> w_hist w' = w_hist w ->
    (forall a, In a (in_hand p') <-> In a (in_hand p) \/ In a (n_kids n)) -> dying p' = ds -> frames p' ++ tips p' = frames p ++ tips p ->
    winv w'.
  Proof.
    intros w w' t p p' c n ds V T B LC DY ME HS HV GE HE HA DY' FT.
    assert (LK : forall a, look (mem_of w') a = if a =? c then None else look (mem_of w) a) by (intros a; rewrite ME; apply (look_free _ _ _ _ LC)).
    assert (T' : thr w' t p') by (unfold thr; rewrite (b_thr _ _ _ _ _ B); apply replace_nth_same; eapply nth_error_lt; eauto).
    pose proof (b_inv _ _ _ _ _ B) as I'. pose proof (v_inv o w V) as I.
    assert (DC : In c (dying p)) by (rewrite DY; left; auto).
    assert (UP : forall i, up w c i -> In i (w_k w t)) by (intros i U; destruct (dying_up o w t p c i V T U DC); auto).
    assert (HVE : forall a, hview w' a = hview w a) by (intros a; unfold hview, newest; rewrite HE; auto).
    apply (moved_mn w w' t p p' (fun l => l = LKid c) (fun _ => False) V T B); try contradiction.
    - intros l ->. split; [exact UP|]. intros a (nc & L & K). exists (EThread t). split; auto. exists c. split; [cbn; exists p; auto|]. eapply reach_kid; eauto. constructor.
    - intros _ a n' L'. right. left. rewrite LK in L'. destruct (a =? c); [discriminate|]. exists n'. rewrite HE. auto.
    - intros a [h|b|u] R LA; cbn [refers] in *.
      + left. rewrite HS. auto.
      + destruct R as (nb & L & K). destruct (Nat.eq_dec b c) as [->|N].
        * right. split; auto. left. exists (LHand t). split; [left; reflexivity|]. cbn. exists p'. split; auto. apply HA. fold (mem_of w) in L. rewrite LC in L. injection L as <-. auto.
        * left. fold (mem_of w'). rewrite LK. rewrite (proj2 (Nat.eqb_neq b c) N). eauto.
      + left. destruct R as (q & N & K). destruct (Nat.eq_dec u t) as [->|NE].
        * unfold thr in T. rewrite T in N. injection N as <-. exists p'. split; auto. apply HA. auto.
        * exists q. split; auto. rewrite (b_thr _ _ _ _ _ B), replace_nth_other; auto.
    - intros a [h|b|u] R LA; cbn [refers] in *.
      + left. rewrite <- HS. auto.
      + left. destruct R as (nb & L & K). fold (mem_of w') in L. rewrite LK in L. destruct (b =? c); [discriminate|]. eauto.
      + destruct R as (q & N & K). destruct (Nat.eq_dec u t) as [->|NE].
        * unfold thr in T'. rewrite T' in N. injection N as <-. apply HA in K. destruct K as [K|K]; [left; exists p; auto|]. right. split; [left; reflexivity|]. left. exists (LKid c). split; auto. cbn. eauto.
        * left. exists q. split; auto. rewrite (b_thr _ _ _ _ _ B), replace_nth_other in N; auto.
    - intros a X LA. rewrite DY in X. rewrite DY'. destruct X as [<-|X]; auto. exfalso. apply LA. rewrite LK, Nat.eqb_refl. auto.
    - intros a X _. left. rewrite DY. right. congruence.
    - intros a L'. rewrite GE. destruct (Nat.eq_dec a c) as [->|N].
      + rewrite LC, upd_same. auto.
      + rewrite LK, (proj2 (Nat.eqb_neq a c) N) in L'. rewrite L', upd_other by auto. apply incl_refl.
    - intros a L1 L2. exfalso. apply L2. rewrite LK. destruct (a =? c); auto.
    - intros a C. rewrite FT in C. rewrite HVE. eapply (v_claim o w V); eauto.
    - intros a X. unfold newest. rewrite HVE, HE. apply (v_dying o w V t p a T). rewrite DY. right. congruence.
  Qed.
End WT.
