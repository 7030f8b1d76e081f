(** Proofs about calls on trees that share nodes, with weak memory: they do what they do without. *)
From Coq Require Import List Arith Bool Lia.
From Verif Require Import Base ListFacts Index Slice Tree Insert LInsert LRef LCow Cow CowSpec CowP CowT CowU CowV CowPropsP Weak WeakP WeakR WeakS WeakX WeakPropsP CowCall CowCallP CowCallQ CowCallR CowCallS CowCallPropsP CowCallWeak.
Import ListNotations.

(** ** A step that reads the newest count *)
Section N.
  Context {D : Type}.
  Notation wstate := (wstate D).
  Variable o : ords.

  Lemma newest_val : forall (w : wstate) a n, winv o w -> look (c_mem (w_s w)) a = Some n -> g_val (newest w a) = n_cnt n.
  Proof. intros w a n W L. destruct (v_hist o w W a n L) as (m & ms & E & G). unfold newest. rewrite E. exact G. Qed.

  Lemma load_newest : forall (w : wstate) k a r n, winv o w -> look (c_mem (w_s w)) a = Some n -> exists g, reads_count o w k (ALoad a r) 0 = Some (n_cnt n, g).
  Proof. intros w k a r n W L. destruct (v_hist o w W a n L) as (m & ms & E & G). cbn [reads_count]. rewrite E. cbn [nth_error firstn existsb]. rewrite G. eauto. Qed.

  Lemma wstep_newest : forall (w : wstate) t e s' b, winv o w -> cstep (w_s w) t e = Next s' b -> e <> VShared ->
    exists w', wstep o w t e 0 = WNext w' b /\ w_s w' = s'.
  Proof.
    intros w t e s' b W H NS.
    assert (G : forall v g, reads_count o w (w_k w t ++ joins w t e) (atomic o (w_s w) t e) 0 = Some (v, g) -> vstep (w_s w) t e v = Next s' b -> exists w', wstep o w t e 0 = WNext w' b /\ w_s w' = s').
    { intros v g R VS. unfold wstep. cbv zeta. rewrite R, VS. eexists. split; [reflexivity|reflexivity]. }
    destruct (nth_error (c_threads (w_s w)) t) as [p|] eqn:T; [|unfold cstep in H; rewrite T in H; discriminate].
    assert (DEF : (forall v, vstep (w_s w) t e v = cstep (w_s w) t e) -> (exists v g, reads_count o w (w_k w t ++ joins w t e) (atomic o (w_s w) t e) 0 = Some (v, g)) -> exists w', wstep o w t e 0 = WNext w' b /\ w_s w' = s').
    { intros E (v & g & R). eapply G; [exact R|]. rewrite E. exact H. }
    destruct p as [|h is y|ws|h fr en|h fr y fl old].
    - apply DEF; [intros v; unfold vstep; rewrite T; destruct e; congruence|]. unfold atomic. rewrite T. destruct e; cbn [reads_count]; eauto. match goal with |- context [nth_error (c_handles ?s) ?h] => destruct (nth_error (c_handles s) h) as [[[?|]|]|] end; cbn [reads_count]; eauto.
    - apply DEF; [intros v; unfold vstep; rewrite T; destruct e; congruence|]. unfold atomic. rewrite T. destruct e; cbn [reads_count]; eauto.
    - apply DEF; [intros v; unfold vstep; rewrite T; destruct e; congruence|]. unfold atomic. rewrite T. destruct ws as [|[a|a] ws]; destruct e; cbn [reads_count]; eauto.
      unfold cstep in H. rewrite T in H. cbn [work_step] in H. destruct (look (c_mem (w_s w)) a) as [n|] eqn:L; [|discriminate]. destruct (load_newest w (w_k w t ++ joins w t (VStep a0)) a (o_last o) n W L) as (g & R). eauto.
    - destruct en as [|d q done|z ws|z].
      + destruct e; try (apply DEF; [intros v; unfold vstep; rewrite T; congruence|unfold atomic; rewrite T; cbn [reads_count]; eauto]; fail).
        unfold cstep in H. rewrite T in H. cbn [ens_step] in H. destruct (slot (w_s w) h fr) as [x|] eqn:SL; [|discriminate]. destruct (look (c_mem (w_s w)) x) as [n|] eqn:L; [|discriminate].
        destruct (load_newest w (w_k w t ++ joins w t (VStep a)) x (o_unique o) n W L) as (g & R). eapply G; [unfold atomic; rewrite T, SL; cbn [oload]; exact R|]. unfold vstep. rewrite T, SL, L. exact H.
      + destruct e; apply DEF; try (intros v; unfold vstep; rewrite T; congruence); unfold atomic; rewrite T; cbn [reads_count]; eauto. destruct (next_kid _ _ _ _); cbn [reads_count]; eauto.
      + destruct e; apply DEF; try (intros v; unfold vstep; rewrite T; congruence); unfold atomic; rewrite T; destruct ws as [|[a0|a0] ws]; cbn [reads_count]; eauto.
        unfold cstep in H. rewrite T in H. cbn [ens_step work_step] in H. destruct (look (c_mem (w_s w)) a0) as [n|] eqn:L; [|discriminate]. destruct (load_newest w (w_k w t ++ joins w t (VStep a)) a0 (o_last o) n W L) as (g & R). eauto.
      + destruct e; apply DEF; try (intros v; unfold vstep; rewrite T; congruence); unfold atomic; rewrite T; cbn [reads_count]; eauto.
    - destruct e; try (apply DEF; [intros v; unfold vstep; rewrite T; congruence|unfold atomic; rewrite T; cbn [reads_count]; eauto]; fail).
      unfold cstep in H. rewrite T in H. unfold at_step in H. destruct (look (c_mem (w_s w)) y) as [ny|] eqn:LY; [|discriminate].
      destruct (pick y fl t0) as [z|] eqn:P; [|discriminate]. destruct (look (c_mem (w_s w)) z) as [nz|] eqn:LZ; [|discriminate]. destruct (nth_error (n_kids nz) i) as [c|] eqn:NK; [|discriminate].
      destruct (look (c_mem (w_s w)) c) as [nc|] eqn:LC; [|discriminate]. destruct (load_newest w (w_k w t ++ joins w t (VFix t0 i)) c (o_unique o) nc W LC) as (g & R).
      eapply G; [unfold atomic; rewrite T; unfold fix_kid; rewrite P, LZ, NK; cbn [oload]; exact R|]. unfold vstep. rewrite T, LY, P, LZ, NK, LC. exact H.
  Qed.
End N.

Section Q.
  Context {I V : Type} (X : index_ops I) (Y : slice_ops I V) (M : nat).
  Notation D := (@ndata I V).
  Notation client := (@client I V).
  Notation wclient := (@wclient I V).
  Notation act := (@act I V).

  Definition plain (e : ev D) : Prop := match e with VStep _ | VFix _ _ | VShared => False | _ => True end.

  Lemma level_plain : forall c kids news, Forall plain (level M c kids news).
  Proof. intros c kids news. unfold level. destruct kids as [|k [|k' kids]]; destruct news as [|l [|r [|r' news]]]; try (repeat constructor; fail); destruct (c =? M); try (destruct (M <? c)); repeat constructor. Qed.
  Lemma ups_plain : forall q r news, Forall plain (ups M q r news).
  Proof.
    induction q as [|c q IH]; intros r news; cbn [ups].
    - destruct news as [|l [|n [|n' news]]]; repeat constructor.
    - destruct (nth_error (rkids r) c) as [k|]; [|constructor]. apply Forall_app. split; [apply IH|]. constructor; [exact Logic.I|apply level_plain].
  Qed.
  Lemma program_plain : forall j q r r', Forall plain (program M j q r r').
  Proof.
    intros j q r r'. unfold program. destruct r as [r|], r' as [r'|]; try (repeat constructor; fail). cbv zeta. constructor; [exact Logic.I|].
    apply Forall_app. split; [apply Forall_forall; intros e IN; apply in_map_iff in IN; destruct IN as (i & <- & _); exact Logic.I|]. apply Forall_app. split; [|repeat constructor].
    destruct (_ =? _); [apply ups_plain|]. apply Forall_app. split; [apply ups_plain|repeat constructor].
  Qed.
  Lemma steps_plain : forall ts c e es, steps_of X Y M ts c = Some (e, es) -> plain e /\ Forall plain es.
  Proof.
    intros ts c e es H. destruct c as [|nop j hints idx slice size|j|j]; cbn [steps_of] in H; try (injection H as <- <-; repeat constructor; fail).
    destruct (nth_error ts j) as [[r|]|]; try discriminate. destruct (insert_with_cursor _ _ _ _ _ _ _ _ _) as [[r' cur]| |]; try discriminate. destruct (insert_plan _ _ _ _ _ _) as [pl| |]; try discriminate.
    destruct (find_path _ _ _ _ _) as [fp| |]; try discriminate. pose proof (program_plain j (way pl fp) r r') as F. destruct (program M j (way pl fp) r r'); [discriminate|]. injection H as <- <-. inversion F; auto.
  Qed.
  Lemma placed_plain : forall a e, plain e -> plain (placed a e).
  Proof. intros a e H. destruct e; exact H. Qed.

  (** The client of CowCall.v that has done the same. *)
  Definition sc_of (q : wclient) : client := {| k_c := w_s (q_w q); k_todo := q_todo q; k_trees := q_trees q |}.
  Definition qinv (q : wclient) : Prop := winv code_ords (q_w q) /\ Forall (Forall plain) (q_todo q).

  Lemma qstart_inv : forall n, qinv (qstart n).
  Proof. intros n. split; [apply wstart_inv|]. cbn. induction n; constructor; auto. Qed.

  Lemma forall_replace : forall {A} (P : A -> Prop) l j x, Forall P l -> P x -> Forall P (replace_at j x l).
  Proof.
    intros A P l j x F H. apply Forall_forall. intros y IN. apply In_nth_error in IN. destruct IN as [i N]. rewrite Forall_forall in F.
    destruct (Nat.eq_dec i j) as [->|NE].
    - destruct (Nat.lt_ge_cases j (length l)) as [LT|GE]; [rewrite replace_nth_same in N by exact LT; congruence|]. apply nth_error_lt in N. rewrite replace_len in N. lia.
    - rewrite replace_nth_other in N by auto. apply F. eapply nth_error_In; exact N.
  Qed.

  Lemma qmachine_ok : forall q t e j w, qinv q -> qmachine q t e j = Some w -> winv code_ords w /\ exists e', alike e e' /\ machine (sc_of q) t e' = Some (w_s w).
  Proof.
    intros q t e j w [W _] H. unfold qmachine in H. pose proof (wstep_ok code_ords code_strong (q_w q) t e j W) as G. destruct (wstep code_ords (q_w q) t e j) as [| |w' b]; try discriminate. injection H as <-.
    destruct G as (W' & e' & A & E). split; [exact W'|]. exists e'. split; [exact A|]. unfold machine. cbn [sc_of k_c]. rewrite E. reflexivity.
  Qed.
  Lemma plain_alike : forall e e' : ev D, plain e -> alike e e' -> e' = e.
  Proof. intros e e' P [->|[_ F]]; [reflexivity|]. destruct e; contradiction. Qed.

  Lemma qstep_sim : forall q x j q', qinv q -> qstep X Y M q x j = Some q' -> qinv q' /\
    exists x', kstep X Y M (sc_of q) x' = Some (sc_of q') /\ calls [x'] = calls [x].
  Proof.
    intros q x j q' Q H. pose proof Q as [W F].
    assert (ON : forall t e x', (forall e', alike e e' -> exists x', (only (sc_of q) t e' = kstep X Y M (sc_of q) x' /\ calls [x'] = calls [x])) -> x = x' -> qonly q t e j = Some q' -> qinv q' /\
      exists x', kstep X Y M (sc_of q) x' = Some (sc_of q') /\ calls [x'] = calls [x]).
    { intros t e x0 AL _ E. unfold qonly in E. destruct (qmachine q t e j) as [w|] eqn:EM; [|discriminate]. injection E as <-. destruct (qmachine_ok _ _ _ _ _ Q EM) as (W' & e' & A & ME).
      split; [split; [exact W'|exact F]|]. destruct (AL e' A) as (x' & EO & C). exists x'. split; [|exact C]. rewrite <- EO. unfold only. rewrite ME. reflexivity. }
    assert (PL : forall t e, plain e -> only (sc_of q) t e = kstep X Y M (sc_of q) x -> qonly q t e j = Some q' -> qinv q' /\ exists x', kstep X Y M (sc_of q) x' = Some (sc_of q') /\ calls [x'] = calls [x]).
    { intros t e P E. apply (ON t e x); [|reflexivity]. intros e' A. rewrite (plain_alike _ _ P A). exists x. auto. }
    destruct x as [t c a|t a|t a|t|t tg i|t h|t i|t]; cbn [qstep] in H.
    - destruct (nth_error (q_todo q) t) as [[|]|] eqn:NT; try discriminate. destruct (steps_of X Y M (q_trees q) c) as [[e es]|] eqn:ST; try discriminate.
      destruct (seq1 X Y M (q_trees q) c) as [ts|] eqn:SQ; try discriminate. destruct (qmachine q t (placed a e) j) as [w|] eqn:EM; [|discriminate]. injection H as <-.
      destruct (steps_plain _ _ _ _ ST) as [Pe Pes]. destruct (qmachine_ok _ _ _ _ _ Q EM) as (W' & e' & A & ME). rewrite (plain_alike _ _ (placed_plain a _ Pe) A) in ME.
      split; [split; [exact W'|cbn [q_todo]; apply forall_replace; auto]|]. exists (KCall t c a). split; [|reflexivity]. cbn [kstep]. cbn [sc_of k_todo k_trees]. rewrite NT, ST, SQ, ME. reflexivity.
    - destruct (nth_error (q_todo q) t) as [[|e es]|] eqn:NT; try discriminate. destruct (qmachine q t (placed a e) j) as [w|] eqn:EM; [|discriminate]. injection H as <-.
      assert (P : Forall plain (e :: es)) by (rewrite Forall_forall in F; apply F; eapply nth_error_In; exact NT). inversion P as [|? ? Pe Pes]; subst.
      destruct (qmachine_ok _ _ _ _ _ Q EM) as (W' & e' & A & ME). rewrite (plain_alike _ _ (placed_plain a _ Pe) A) in ME.
      split; [split; [exact W'|cbn [q_todo]; apply forall_replace; auto]|]. exists (KNext t a). split; [|reflexivity]. cbn [kstep]. cbn [sc_of k_todo k_trees]. rewrite NT, ME. reflexivity.
    - apply (ON t (VStep a) (KStep t a)); [|reflexivity|exact H]. intros e' [->|[-> _]]; [exists (KStep t a)|exists (KShared t)]; split; reflexivity.
    - discriminate.
    - apply (ON t (VFix tg i) (KFix t tg i)); [|reflexivity|exact H]. intros e' [->|[-> _]]; [exists (KFix t tg i)|exists (KShared t)]; split; reflexivity.
    - eapply PL; [|  |exact H]; [exact Logic.I|reflexivity].
    - eapply PL; [|  |exact H]; [exact Logic.I|reflexivity].
    - eapply PL; [|  |exact H]; [exact Logic.I|reflexivity].
  Qed.

  Lemma qrun_sim : forall xs q q', qinv q -> qrun X Y M q xs = Some q' -> qinv q' /\
    exists ys, krun X Y M (sc_of q) ys = Some (sc_of q') /\ calls ys = calls (map fst xs).
  Proof.
    induction xs as [|[x j] xs IH]; intros q q' Q H; cbn [qrun] in H.
    - injection H as <-. split; [exact Q|]. exists []. auto.
    - destruct (qstep X Y M q x j) as [q1|] eqn:E; [|discriminate]. destruct (qstep_sim _ _ _ _ Q E) as (Q1 & x' & KS & C1). destruct (IH _ _ Q1 H) as (Q' & ys & KR & C).
      split; [exact Q'|]. exists (x' :: ys). split; [cbn [krun]; rewrite KS; exact KR|]. cbn [map].
      unfold calls in *. cbn [flat_map map fst] in *. rewrite app_nil_r in C1. rewrite app_nil_r in C1. rewrite C1, C. reflexivity.
  Qed.

  (** ** The other way round, as long as loads read the newest count *)

  Lemma kstep_weak : forall q x k', qinv q -> kstep X Y M (sc_of q) x = Some k' -> match x with KShared _ => False | _ => True end ->
    exists q', qstep X Y M q x 0 = Some q' /\ sc_of q' = k'.
  Proof.
    intros q x k' [W F] H NS.
    assert (MA : forall t e s, machine (sc_of q) t e = Some s -> e <> VShared -> exists w, qmachine q t e 0 = Some w /\ w_s w = s).
    { intros t e s EM NE. unfold machine in EM. cbn [sc_of k_c] in EM. destruct (cstep (w_s (q_w q)) t e) as [| |s' b] eqn:E; try discriminate. injection EM as <-.
      destruct (wstep_newest code_ords _ _ _ _ _ W E NE) as (w & EW & ES). exists w. split; [unfold qmachine; rewrite EW; reflexivity|exact ES]. }
    assert (ON : forall t e, e <> VShared -> only (sc_of q) t e = Some k' -> exists q', qonly q t e 0 = Some q' /\ sc_of q' = k').
    { intros t e NE E. unfold only in E. destruct (machine (sc_of q) t e) as [s|] eqn:EM; [|discriminate]. injection E as <-. destruct (MA _ _ _ EM NE) as (w & EW & <-). unfold qonly. rewrite EW. eexists. split; reflexivity. }
    destruct x as [t c a|t a|t a|t|t tg i|t h|t i|t]; cbn [kstep qstep] in *; try (apply ON; [discriminate|exact H]); try contradiction.
    - cbn [sc_of k_todo k_trees] in H. destruct (nth_error (q_todo q) t) as [[|]|] eqn:NT; try discriminate. destruct (steps_of X Y M (q_trees q) c) as [[e es]|] eqn:ST; try discriminate.
      destruct (seq1 X Y M (q_trees q) c) as [ts|] eqn:SQ; try discriminate. destruct (machine (sc_of q) t (placed a e)) as [s|] eqn:EM; [|discriminate]. injection H as <-.
      destruct (steps_plain _ _ _ _ ST) as [Pe _]. destruct (MA _ _ _ EM) as (w & EW & <-); [intros Z; pose proof (placed_plain a _ Pe) as P; rewrite Z in P; exact P|]. rewrite EW. eexists. split; reflexivity.
    - cbn [sc_of k_todo k_trees] in H. destruct (nth_error (q_todo q) t) as [[|e es]|] eqn:NT; try discriminate. destruct (machine (sc_of q) t (placed a e)) as [s|] eqn:EM; [|discriminate]. injection H as <-.
      assert (P : Forall plain (e :: es)) by (rewrite Forall_forall in F; apply F; eapply nth_error_In; exact NT). inversion P as [|? ? Pe Pes]; subst.
      destruct (MA _ _ _ EM) as (w & EW & <-); [intros Z; pose proof (placed_plain a _ Pe) as P2; rewrite Z in P2; exact P2|]. rewrite EW. eexists. split; reflexivity.
  Qed.

  Lemma krun_weak : forall xs q k', qinv q -> krun X Y M (sc_of q) xs = Some k' -> Forall (fun x => match x with KShared _ => False | _ => True end) xs ->
    exists q', qrun X Y M q (map (fun x => (x, 0)) xs) = Some q' /\ sc_of q' = k'.
  Proof.
    induction xs as [|x xs IH]; intros q k' Q H F; cbn [krun map qrun] in *.
    - injection H as <-. exists q. auto.
    - inversion F as [|? ? Fx Fxs]; subst. destruct (kstep X Y M (sc_of q) x) as [k1|] eqn:E; [|discriminate]. destruct (kstep_weak _ _ _ Q E Fx) as (q1 & EQ & <-). rewrite EQ.
      destruct (qstep_sim _ _ _ _ Q EQ) as (Q1 & _). eapply IH; eauto.
  Qed.

  (** ** The steps are steps of Weak.v *)
  Lemma qstep_wstep : forall q x j q', qstep X Y M q x j = Some q' -> exists t e b, wstep code_ords (q_w q) t e j = WNext (q_w q') b.
  Proof.
    intros q x j q' H.
    assert (MA : forall t e w, qmachine q t e j = Some w -> exists b, wstep code_ords (q_w q) t e j = WNext w b).
    { intros t e w E. unfold qmachine in E. destruct (wstep code_ords (q_w q) t e j) as [| |w' b]; try discriminate. injection E as <-. eauto. }
    assert (ON : forall t e, qonly q t e j = Some q' -> exists t e b, wstep code_ords (q_w q) t e j = WNext (q_w q') b).
    { intros t e E. unfold qonly in E. destruct (qmachine q t e j) as [w|] eqn:EM; [|discriminate]. injection E as <-. destruct (MA _ _ _ EM) as [b Hb]. exists t, e, b. exact Hb. }
    destruct x as [t c a|t a|t a|t|t tg i|t h|t i|t]; cbn [qstep] in *; try (eapply ON; exact H); try discriminate.
    - destruct (nth_error (q_todo q) t) as [[|]|]; try discriminate. destruct (steps_of X Y M (q_trees q) c) as [[e es]|]; try discriminate.
      destruct (seq1 X Y M (q_trees q) c) as [ts|]; try discriminate. destruct (qmachine q t (placed a e) j) as [w|] eqn:EM; [|discriminate]. injection H as <-. destruct (MA _ _ _ EM) as [b Hb]. eauto.
    - destruct (nth_error (q_todo q) t) as [[|e es]|]; try discriminate. destruct (qmachine q t (placed a e) j) as [w|] eqn:EM; [|discriminate]. injection H as <-. destruct (MA _ _ _ EM) as [b Hb]. eauto.
  Qed.
  Lemma qrun_wrun : forall xs q q', qrun X Y M q xs = Some q' -> exists es outs, wrun code_ords (q_w q) es = Some (outs, q_w q').
  Proof.
    induction xs as [|[x j] xs IH]; intros q q' H; cbn [qrun] in H.
    - injection H as <-. exists [], []. reflexivity.
    - destruct (qstep X Y M q x j) as [q1|] eqn:E; [|discriminate]. destruct (qstep_wstep _ _ _ _ E) as (t & e & b & Hw). destruct (IH _ _ H) as (es & outs & Hr).
      eexists ((t, e, j) :: es). eexists. cbn [wrun]. rewrite Hw, Hr. reflexivity.
  Qed.
End Q.
