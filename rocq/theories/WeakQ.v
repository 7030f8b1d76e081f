(** Proofs about weak memory: what a change of the nodes has to keep. *)
From Coq Require Import List Arith Bool Lia.
From Verif Require Import Base ListFacts Cow CowSpec CowP CowQ CowR CowS Weak WeakP.
Import ListNotations.

Section WQ.
  Context {D : Type}.
  Notation heap := (heap D).
  Notation cnode := (cnode D).
  Notation pc := (pc D).
  Notation cstate := (cstate D).
  Notation wstate := (wstate D).
  Variable o : ords.
  Notation winv := (@winv D o).

  Definition mem_of (w : wstate) : heap := c_mem (w_s w).

  (** [inp], [outp]: places of which thread [t] knows all that is known there; before and after. *)
  Record moves (w w' : wstate) (t : nat) (p p' : pc) (inp outp : place -> Prop) : Prop := {
    m_inv : inv (w_s w');
    m_k : forall u, w_k w' u = w_k w u;
    m_log : w_log w' = w_log w;
    m_thr : c_threads (w_s w') = replace_at t p' (c_threads (w_s w));
    m_inp : forall l, inp l -> (forall i, know w l i -> In i (w_k w t)) /\
      forall a, refers (w_s w) a l -> exists E, ereach (w_s w) E a /\ forall i, eknow w E i -> In i (w_k w t);
    m_outp : forall l, outp l -> (forall i, In i (w_k w t) -> know w' l i) /\ forall E i, In i (w_k w t) -> through (w_s w') E l -> eknow w' E i;
    m_hist : forall a n', look (mem_of w') a = Some n' ->
      (look (mem_of w) a = None /\ hview w' a = [] /\ exists m, w_hist w' a = [m] /\ g_val m = n_cnt n') \/
      (exists n, look (mem_of w) a = Some n /\ w_hist w' a = w_hist w a /\ n_cnt n' = n_cnt n) \/
      (exists n m, look (mem_of w) a = Some n /\ w_hist w' a = m :: w_hist w a /\ g_val m = n_cnt n' /\ incl (hview w a) (g_view m) /\
         (forall u q, other (w_s w) t u q -> ~ In a (claims q)) /\ (n_cnt n = 1 -> forall l', refers (w_s w') a l' -> know w' l' (g_ev m)));
    m_lost : forall a l, refers (w_s w) a l -> look (mem_of w') a <> None ->
      refers (w_s w') a l \/ (inp l /\ ((exists l', outp l' /\ refers (w_s w') a l') \/ incl (w_k w t) (hview w' a)));
    m_gain : forall a l', refers (w_s w') a l' -> look (mem_of w) a <> None ->
      refers (w_s w) a l' \/
      (outp l' /\ ((exists l, inp l /\ refers (w_s w) a l) \/
                   ((exists m, w_hist w' a = m :: w_hist w a /\ In (g_ev m) (w_k w t)) /\
                    exists E, ereach (w_s w) E a /\ forall i, eknow w E i -> In i (w_k w t))));
    m_dylost : forall a, In a (dying p) -> look (mem_of w') a <> None -> In a (dying p');
    m_dygain : forall a, In a (dying p') -> look (mem_of w) a <> None -> In a (dying p) \/ exists l, inp l /\ refers (w_s w) a l;
    m_gone : forall a, look (mem_of w') a = None -> match look (mem_of w) a with None => incl (w_gone w a) (w_gone w' a) | Some _ => forall i, up w a i -> In i (w_gone w' a) end;
    m_new : forall a, look (mem_of w) a = None -> look (mem_of w') a <> None -> incl (w_gone w a) (w_k w t) /\ has_cnt (mem_of w') 1 a /\ exists l', outp l' /\ refers (w_s w') a l';
    m_hr : forall h a, refers (w_s w) a (LRoot h) -> refers (w_s w') a (LRoot h) ->
      (forall i, know w (LRoot h) i -> know w' (LRoot h) i) /\ (forall i, eknow w (ETree h) i -> eknow w' (ETree h) i);
    m_read : forall u q h, thr w' u q -> uses h q = true -> incl (w_hw w' h) (w_k w u);
    m_write : forall u q h, thr w' u q -> writes h q = true -> incl (w_hr w' h) (w_k w u);
    m_claim : forall a, In a (frames p' ++ tips p') -> incl (hview w' a) (w_k w t);
    m_dying : forall a, In a (dying p') -> In (g_ev (newest w' a)) (w_k w t) /\ (acquires (o_dec o) = true -> incl (hview w' a) (w_k w t))
  }.

  Lemma look_dec : forall (m : heap) a, {look m a = None} + {look m a <> None}.
  Proof. intros m a. destruct (look m a); [right; discriminate|left; auto]. Qed.

  Lemma look_some : forall (m : heap) a, look m a <> None -> exists n, look m a = Some n.
  Proof. intros m a H. destruct (look m a); [eauto|congruence]. Qed.

  Section M.
    Variables (w w' : wstate) (t : nat) (p p' : pc) (inp outp : place -> Prop).
    Hypothesis V : winv w.
    Hypothesis T : thr w t p.
    Hypothesis M : moves w w' t p p' inp outp.

    Lemma thr_new : forall u q, thr w' u q -> (u = t /\ q = p') \/ (u <> t /\ thr w u q).
    Proof.
      intros u q E. unfold thr in E. rewrite (m_thr _ _ _ _ _ _ _ M) in E. destruct (Nat.eq_dec u t) as [->|N].
      - rewrite replace_nth_same in E by (eapply nth_error_lt; eauto). injection E as <-. auto.
      - rewrite replace_nth_other in E by auto. right. auto.
    Qed.

    Lemma thr_other : forall u q, u <> t -> thr w u q -> thr w' u q.
    Proof. intros u q N E. unfold thr. rewrite (m_thr _ _ _ _ _ _ _ M). rewrite replace_nth_other by auto. exact E. Qed.

    Lemma thr_t : thr w' t p'.
    Proof. unfold thr. rewrite (m_thr _ _ _ _ _ _ _ M). apply replace_nth_same. eapply nth_error_lt; eauto. Qed.

    Lemma outp_up : forall a i, In i (w_k w t) -> (exists l', outp l' /\ refers (w_s w') a l') -> up w' a i.
    Proof. intros a i K (l' & O & R). eapply know_up; eauto. apply (proj1 (m_outp _ _ _ _ _ _ _ M l' O)). auto. Qed.

    Lemma know_step : forall a l i, refers (w_s w) a l -> refers (w_s w') a l -> (forall b, l = LKid b -> know w l i -> look (mem_of w) b <> None -> look (mem_of w') b <> None -> up w' b i) ->
      know w l i -> know w' l i.
    Proof.
      intros a l i R R' H K. destruct l as [h|b|u].
      - apply (proj1 (m_hr _ _ _ _ _ _ _ M h a R R')). auto.
      - cbn. apply (H b); auto; [destruct R as (n & L & _)|destruct R' as (n & L & _)]; unfold mem_of; rewrite L; discriminate.
      - cbn in *. rewrite (m_k _ _ _ _ _ _ _ M). auto.
    Qed.

    Lemma place_step : forall a l i, refers (w_s w) a l -> look (mem_of w') a <> None -> know w l i ->
      (forall b, l = LKid b -> look (mem_of w) b <> None -> look (mem_of w') b <> None -> up w' b i) -> up w' a i.
    Proof.
      intros a l i R L K H. destruct (m_lost _ _ _ _ _ _ _ M a l R L) as [R'|(IN & O)].
      - eapply know_up; eauto. eapply know_step; eauto.
      - pose proof (proj1 (m_inp _ _ _ _ _ _ _ M l IN) i K) as KT. destruct O as [O|O]; [apply outp_up; auto|]. apply up_view. apply O. auto.
    Qed.

    Lemma up_mono : forall a i, up w a i -> look (mem_of w) a <> None -> look (mem_of w') a <> None -> up w' a i.
    Proof.
      intros a i U. induction U as [a i X|a h i R X|a h u q i R TU U K|a u q i TU X K|a u q i TU X K|a b n i L K U IH]; intros LA LA'.
      - apply up_view. destruct (look_some _ _ LA') as (n' & L'). destruct (m_hist _ _ _ _ _ _ _ M a n' L') as [(Z & _)|[(n & _ & H & _)|(n & m & _ & H & _ & V2 & _)]].
        + congruence.
        + unfold hview, newest in *. rewrite H. auto.
        + unfold hview, newest at 1. rewrite H. apply V2. auto.
      - apply (place_step a (LRoot h)); auto; [cbn; auto|discriminate].
      - apply (place_step a (LRoot h)); auto; [cbn; right; eauto|discriminate].
      - apply (place_step a (LHand u)); auto; [cbn; eauto|discriminate].
      - destruct (Nat.eq_dec u t) as [->|N].
        + unfold thr in *. rewrite T in TU. injection TU as <-. apply (up_dying w' a t p'); [apply thr_t|apply (m_dylost _ _ _ _ _ _ _ M); auto|rewrite (m_k _ _ _ _ _ _ _ M); auto].
        + apply (up_dying w' a u q); [apply thr_other; auto|auto|rewrite (m_k _ _ _ _ _ _ _ M); auto].
      - apply (place_step a (LKid b)); auto; [cbn; eauto|]. intros b' E. injection E as <-. auto.
    Qed.

    Lemma know_mono : forall a l i, refers (w_s w) a l -> refers (w_s w') a l -> know w l i -> know w' l i.
    Proof. intros a l i R R' K. eapply know_step; eauto. intros b -> K' L L'. apply up_mono; auto. Qed.

    Lemma inp_ent : forall a l, inp l -> refers (w_s w) a l -> exists E, ereach (w_s w) E a /\ forall i, eknow w E i -> In i (w_k w t).
    Proof. intros a l IN R. apply (proj2 (m_inp _ _ _ _ _ _ _ M l IN)). auto. Qed.

    Lemma gain_ent : forall a l' E, refers (w_s w') a l' -> look (mem_of w) a <> None -> through (w_s w') E l' ->
      refers (w_s w) a l' \/ exists E0, ereach (w_s w) E0 a /\ forall i, eknow w E0 i -> eknow w' E i.
    Proof.
      intros a l' E R L TH. destruct (m_gain _ _ _ _ _ _ _ M a l' R L) as [R0|(O & H)]; auto. right.
      assert (X : exists E0, ereach (w_s w) E0 a /\ forall i, eknow w E0 i -> In i (w_k w t)).
      { destruct H as [(l & IN & R1)|(_ & X)]; auto. eapply inp_ent; eauto. }
      destruct X as (E0 & A & B). exists E0. split; auto. intros i K. eapply (proj2 (m_outp _ _ _ _ _ _ _ M l' O)); eauto.
    Qed.

    Lemma ent_back : forall E b a, top (w_s w') E b -> reach (c_mem (w_s w')) b a -> look (mem_of w) a <> None ->
      exists E0, ereach (w_s w) E0 a /\ forall i, eknow w E0 i -> eknow w' E i.
    Proof.
      intros E b a TP R. induction R as [|x n a R IH L K]; intros LA.
      - destruct E as [h|u].
        + destruct (gain_ent b (LRoot h) (ETree h) TP LA eq_refl) as [R0|X]; auto. exists (ETree h). split; [exists b; split; [exact R0|constructor]|].
          apply (proj2 (m_hr _ _ _ _ _ _ _ M h b R0 TP)).
        + destruct TP as (q & TQ & [X|X]).
          * assert (R1 : refers (w_s w') b (LHand u)) by (cbn; eauto). destruct (gain_ent b (LHand u) (EThread u) R1 LA eq_refl) as [(q0 & TQ0 & X0)|Y]; auto.
            exists (EThread u). split; [exists b; split; [cbn; eauto|constructor]|]. cbn. intros i. rewrite (m_k _ _ _ _ _ _ _ M). auto.
          * destruct (thr_new u q TQ) as [[-> ->]|[N T0]].
            -- destruct (m_dygain _ _ _ _ _ _ _ M b X LA) as [X0|(l & IN & R0)].
               ++ exists (EThread t). split; [exists b; split; [cbn; exists p; auto|constructor]|]. cbn. intros i. rewrite (m_k _ _ _ _ _ _ _ M). auto.
               ++ destruct (inp_ent b l IN R0) as (E0 & A & B). exists E0. split; auto. intros i K. cbn. rewrite (m_k _ _ _ _ _ _ _ M). auto.
            -- exists (EThread u). split; [exists b; split; [cbn; exists q; auto|constructor]|]. cbn. intros i. rewrite (m_k _ _ _ _ _ _ _ M). auto.
      - assert (R1 : refers (w_s w') a (LKid x)) by (cbn; eauto). assert (TH : through (w_s w') E (LKid x)) by (exists b; auto).
        destruct (gain_ent a (LKid x) E R1 LA TH) as [(n0 & L0 & K0)|Y]; auto.
        destruct IH as (E0 & A & B); [unfold mem_of; congruence|]. exists E0. split; auto. eapply ereach_kid; eauto.
    Qed.

    Lemma new_ent : forall E a i, ereach (w_s w') E a -> look (mem_of w) a = None -> look (mem_of w') a <> None -> In i (w_k w t) -> eknow w' E i.
    Proof.
      intros E a i (b & TP & R) LA LA' K. destruct (m_new _ _ _ _ _ _ _ M a LA LA') as (_ & C1 & l' & O & R').
      pose proof (m_inv _ _ _ _ _ _ _ M) as I'.
      assert (G : forall l, refers (w_s w') a l -> through (w_s w') E l -> eknow w' E i).
      { intros l R0 TH. rewrite (refers_one _ _ _ _ I' C1 R0 R') in TH. eapply (proj2 (m_outp _ _ _ _ _ _ _ M l' O)); eauto. }
      inversion R as [|x n y R0 L0 K0]; subst.
      - destruct E as [h|u]; [apply (G (LRoot h)); auto; reflexivity|]. destruct TP as (q & TQ & [X|X]); [apply (G (LHand u)); [cbn; eauto|reflexivity]|].
        exfalso. destruct (dying_cnt _ _ _ _ (i_thread _ I' u q TQ) X) as (n1 & L1 & Z1). destruct C1 as (n2 & L2 & Z2). unfold mem_of in L2. congruence.
      - apply (G (LKid x)); [cbn; eauto|]. exists b. auto.
    Qed.

    Lemma other_hist : forall u q a, u <> t -> thr w u q -> In a (claims q) -> w_hist w' a = w_hist w a.
    Proof.
      intros u q a N TU C. destruct (claim_live _ u q a (v_inv o w V) TU C) as (n & L). destruct (claim_live _ u q a (m_inv _ _ _ _ _ _ _ M) (thr_other u q N TU) C) as (n' & L').
      destruct (m_hist _ _ _ _ _ _ _ M a n' L') as [(Z & _)|[(n0 & _ & H & _)|(n0 & m & _ & _ & _ & _ & U & _)]]; auto.
      - unfold mem_of in Z. congruence.
      - exfalso. apply (U u q); auto. split; auto.
    Qed.

    Theorem moved : winv w'.
    Proof.
      pose proof (v_inv o w V) as I. pose proof (m_inv _ _ _ _ _ _ _ M) as I'. constructor.
      - auto.
      - intros a n' L'. destruct (m_hist _ _ _ _ _ _ _ M a n' L') as [(_ & _ & m & H & G)|[(n & L & H & E)|(n & m & _ & H & G & _)]].
        + exists m, []. auto.
        + destruct (v_hist o w V a n L) as (m & ms & A & B). exists m, ms. rewrite H, E. auto.
        + exists m, (w_hist w a). auto.
      - intros i a WR E R. rewrite (m_log _ _ _ _ _ _ _ M) in WR. destruct (look_dec (mem_of w) a) as [LA|LA].
        + assert (LA' : look (mem_of w') a <> None).
          { destruct R as (b & TP & R). destruct R as [|x n y R L0 K0].
            - destruct E as [h|u].
              + destruct (refers_live _ b (LRoot h) I' TP) as (n & L & _). unfold mem_of. congruence.
              + destruct TP as (q & TQ & [X|X]).
                * destruct (refers_live _ b (LHand u) I') as (n & L & _); [cbn; eauto|]. unfold mem_of. congruence.
                * destruct (claim_live _ u q b I' TQ (dying_claims _ _ X)) as (n & L). unfold mem_of. congruence.
            - destruct (refers_live _ y (LKid x) I') as (n1 & L1 & _); [cbn; eauto|]. unfold mem_of. congruence. }
          eapply new_ent; eauto. apply (proj1 (m_new _ _ _ _ _ _ _ M a LA LA')).
          assert (US : used (w_log w) i a) by (destruct WR as (u & xs & x & A & B & C & _); exists u, xs, x; auto).
          pose proof (v_up o w V i a US) as Y. unfold mem_of in LA. rewrite LA in Y. auto.
        + destruct R as (b & TP & R). destruct (ent_back E b a TP R LA) as (E0 & A & B). apply B. eapply (v_wr o w V); eauto.
      - intros u q h TU U. rewrite (m_k _ _ _ _ _ _ _ M). eapply (m_read _ _ _ _ _ _ _ M); eauto.
      - intros u q h TU U. rewrite (m_k _ _ _ _ _ _ _ M). eapply (m_write _ _ _ _ _ _ _ M); eauto.
      - intros i a US. rewrite (m_log _ _ _ _ _ _ _ M) in US. pose proof (v_up o w V i a US) as Y.
        destruct (look (c_mem (w_s w')) a) as [n'|] eqn:L'.
        + assert (LA' : look (mem_of w') a <> None) by (unfold mem_of; congruence).
          destruct (look (c_mem (w_s w)) a) as [n|] eqn:L.
          * apply up_mono; auto. unfold mem_of. congruence.
          * destruct (m_new _ _ _ _ _ _ _ M a L LA') as (G & _ & O). apply outp_up; auto.
        + pose proof (m_gone _ _ _ _ _ _ _ M a L') as G. unfold mem_of in G. destruct (look (c_mem (w_s w)) a); auto.
      - intros u q a TU C. rewrite (m_k _ _ _ _ _ _ _ M). destruct (thr_new u q TU) as [[-> ->]|[N T0]]; [apply (m_claim _ _ _ _ _ _ _ M); auto|].
        unfold hview, newest. rewrite (other_hist u q a N T0 (ft_claims _ _ C)). apply (v_claim o w V u q a T0 C).
      - intros u q a TU C. rewrite (m_k _ _ _ _ _ _ _ M). destruct (thr_new u q TU) as [[-> ->]|[N T0]]; [apply (m_dying _ _ _ _ _ _ _ M); auto|].
        unfold hview, newest. rewrite (other_hist u q a N T0 (dying_claims _ _ C)). apply (v_dying o w V u q a T0 C).
      - intros a pre m post l' E P G R' LA'. destruct (look_some _ _ LA') as (n' & L').
        assert (OLD : forall pre' m' post', w_hist w a = pre' ++ m' :: post' -> pre' <> [] -> g_val m' = 1 -> look (mem_of w) a <> None ->
                  (exists m1, w_hist w' a = m1 :: w_hist w a) \/ exists m1, In m1 pre' /\ know w' l' (g_ev m1)).
        { intros pre' m' post' E' P' G' LA. destruct (m_gain _ _ _ _ _ _ _ M a l' R' LA) as [R0|(O & [(l & IN & R1)|((m1 & H & _) & _)])].
          - right. destruct (v_old o w V a pre' m' post' l' E' P' G' R0 LA) as (m1 & A & B). exists m1. split; auto. eapply know_mono; eauto.
          - right. destruct (v_old o w V a pre' m' post' l E' P' G' R1 LA) as (m1 & A & B). exists m1. split; auto.
            apply (proj1 (m_outp _ _ _ _ _ _ _ M l' O)). apply (proj1 (m_inp _ _ _ _ _ _ _ M l IN)). auto.
          - left. eauto. }
        destruct (m_hist _ _ _ _ _ _ _ M a n' L') as [(_ & _ & m0 & H & _)|[(n & L & H & _)|(n & m0 & L & H & G0 & _ & _ & ONE)]].
        + exfalso. rewrite H in E. destruct pre as [|x [|]]; [congruence| |]; cbn in E; discriminate.
        + rewrite H in E. destruct (OLD pre m post E P G) as [(m1 & X)|X]; auto; [congruence|].
          exfalso. apply (f_equal (@length msg)) in X. rewrite H in X. cbn in X. lia.
        + rewrite H in E. destruct pre as [|x pre]; [congruence|]. cbn in E. injection E as <- E.
          assert (LA : look (mem_of w) a <> None) by congruence.
          destruct pre as [|y pre].
          * exists m0. split; [left; auto|]. apply ONE; auto. destruct (v_hist o w V a n L) as (m1 & ms & A & B). cbn in E. rewrite A in E. injection E as -> _. congruence.
          * destruct (m_gain _ _ _ _ _ _ _ M a l' R' LA) as [R0|(O & [(l & IN & R1)|((m1 & H1 & K1) & _)])].
            -- destruct (v_old o w V a (y :: pre) m post l' E) as (m1 & A & B); auto; [discriminate|]. exists m1. split; [right; auto|]. eapply know_mono; eauto.
            -- destruct (v_old o w V a (y :: pre) m post l E) as (m1 & A & B); auto; [discriminate|]. exists m1. split; [right; auto|].
               apply (proj1 (m_outp _ _ _ _ _ _ _ M l' O)). apply (proj1 (m_inp _ _ _ _ _ _ _ M l IN)). auto.
            -- rewrite H in H1. injection H1 as <-. exists m0. split; [left; auto|]. apply (proj1 (m_outp _ _ _ _ _ _ _ M l' O)). auto.
      - intros RC. apply (v_race o w V). unfold race in *. rewrite (m_log _ _ _ _ _ _ _ M) in RC. auto.
    Qed.
  End M.
End WQ.
