(** Proofs about the number of steps of a call: all threads, with weak memory. *)
From Coq Require Import List Arith Bool Lia.
From Verif Require Import Base ListFacts Index Slice Tree Insert LInsert LRef LCow Cow CowSpec CowP CowQ CowS CowT CowU CowV CowPropsP Weak WeakP WeakS
  CowCall CowCallP CowCallQ CowCallR CowCallS CowCallPropsP CowCallWeak CowCallWeakP Wild UnwindSpec Unwind UnwindPropsP CowWait CowWaitP.
Import ListNotations.

Section Q.
  Context {I V : Type} (X : index_ops I) (Y : slice_ops I V) (M : nat).
  Notation D := (@ndata I V).
  Notation client := (@client I V).
  Notation wclient := (@wclient I V).
  Notation act := (@act I V).
  Hypothesis HM : 1 <= M.
  Variable K : nat.

  Definition wide (r : rose D) : Prop := forall is x, sub r is = Some x -> length (rkids x) <= K.

  Lemma chain_narrow : forall (s : cstate D) h fr top R, root (c_handles s) h = Some top -> shows (c_mem s) top R -> wide R -> narrow K (c_mem s) (c_handles s) h fr.
  Proof.
    intros s h fr top R RT SH W a n C LA. destruct (chain_sub _ _ _ _ _ _ _ C RT SH) as (x & SX & SA). destruct (shows_elim _ _ _ SA) as (n' & L' & _ & F).
    rewrite LA in L'. injection L' as <-. rewrite (Forall2_length _ _ _ _ _ F). eapply W; eauto.
  Qed.

  Definition late (e : ev D) : Prop := match e with VChild _ | VAbort | VStep _ | VShared | VFix _ _ => False | _ => True end.

  Definition bud (k : client) (t n : nat) : Prop :=
    exists p n1 q rest, nth_error (c_threads (k_c k)) t = Some p /\ nth_error (k_todo k) t = Some (map VChild q ++ rest) /\ Forall late rest /\
      pays K (c_mem (k_c k)) (c_handles (k_c k)) p n1 /\ n1 + length q * (2 * K + 7) + length rest <= n /\
      (q <> [] -> exists h top R, writes h p = true /\ root (c_handles (k_c k)) h = Some top /\ shows (c_mem (k_c k)) top R /\ wide R).

  Lemma kstep_who : forall (k : client) x k', kstep X Y M k x = Some k' ->
    (exists e o, cstep (k_c k) (who x) e = Next (k_c k') o) /\ forall t, t <> who x -> nth_error (k_todo k') t = nth_error (k_todo k) t.
  Proof.
    intros k x k' H.
    assert (ON : forall t e, only k t e = Some k' -> (exists e o, cstep (k_c k) t e = Next (k_c k') o) /\ forall u, u <> t -> nth_error (k_todo k') u = nth_error (k_todo k) u).
    { intros t e E. unfold only in E. destruct (machine k t e) as [s|] eqn:EM; [|discriminate]. injection E as <-. destruct (machine_next _ _ _ _ EM) as [o Ho]. split; [eauto|reflexivity]. }
    destruct x as [t c a|t a|t a|t|t tg i|t h|t i|t]; cbn [kstep who] in *; try (eapply ON; exact H).
    - destruct (nth_error (k_todo k) t) as [[|]|]; try discriminate. destruct (steps_of X Y M (k_trees k) c) as [[e es]|]; try discriminate.
      destruct (seq1 X Y M (k_trees k) c); try discriminate. destruct (machine k t (placed a e)) as [s|] eqn:EM; [|discriminate]. injection H as <-. destruct (machine_next _ _ _ _ EM) as [o Ho].
      split; [eauto|]. intros u NE. cbn [k_todo]. apply replace_nth_other. auto.
    - destruct (nth_error (k_todo k) t) as [[|e es]|]; try discriminate. destruct (machine k t (placed a e)) as [s|] eqn:EM; [|discriminate]. injection H as <-. destruct (machine_next _ _ _ _ EM) as [o Ho].
      split; [eauto|]. intros u NE. cbn [k_todo]. apply replace_nth_other. auto.
  Qed.

  (** The steps of other threads. *)
  Lemma bud_other : forall (k : client) sp x k' t n, kinv k sp -> kstep X Y M k x = Some k' -> who x <> t -> bud k t n -> bud k' t n.
  Proof.
    intros k sp x k' t n KI H NE (p & n1 & q & rest & NP & NT & FR & P & B & W). destruct (kstep_who _ _ _ H) as ((e & o & Hc) & TD).
    pose proof (step_local _ (who x) e (ki_inv _ _ KI)) as G. rewrite Hc in G. destruct G as (pu & pu' & NU & L & ET).
    exists p, n1, q, rest. split; [rewrite ET, replace_nth_other; auto|]. split; [rewrite TD; auto|]. split; [exact FR|]. split; [|split; [exact B|]].
    - exact (pays_other K (k_c k) (who x) pu pu' _ _ (ki_inv _ _ KI) NU L t p n1 NP NE P).
    - intros Q. destruct (W Q) as (h & top & R & WH & RT & SH & WD). exists h, top, R. split; [exact WH|].
      pose proof (root_kept _ _ _ _ _ _ L t p NP NE h WH) as RK. split; [rewrite RK; exact RT|]. split; [|exact WD].
      exact (shows_keeps (k_c k) (who x) pu _ _ _ (ki_inv _ _ KI) NU (l_keeps _ _ _ _ _ _ L) (root_free (k_c k) (who x) pu (ki_inv _ _ KI) NU t p NP NE h top WH RT) SH).
  Qed.

  (** Steps that only concern sharing. *)
  Lemma wide_quiet : forall (k k' : client) sp t p p', kinv k sp -> kinv k' sp -> nth_error (c_threads (k_c k)) t = Some p -> nth_error (c_threads (k_c k')) t = Some p' ->
    (exists h top R, writes h p = true /\ root (c_handles (k_c k)) h = Some top /\ shows (c_mem (k_c k)) top R /\ wide R) ->
    exists h top R, writes h p' = true /\ root (c_handles (k_c k')) h = Some top /\ shows (c_mem (k_c k')) top R /\ wide R.
  Proof.
    intros k k' sp t p p' K1 K2 NP NP' (h & top & R & WH & RT & SH & WD).
    pose proof (r_threads _ _ (ki_rel _ _ K1) t) as T1. rewrite NP in T1. pose proof (r_threads _ _ (ki_rel _ _ K2) t) as T2. rewrite NP' in T2.
    destruct (nth_error (s_threads sp) t) as [s|]; [|contradiction]. cbn [orel] in *.
    assert (ES : exists is fl old, s = SIns h is fl old).
    { destruct p; cbn in WH; try discriminate; apply Nat.eqb_eq in WH; subst; destruct s; cbn [trel] in T1; try contradiction; destruct T1 as (-> & _); eauto. }
    destruct ES as (is & fl & old & ->).
    pose proof (r_trees _ _ (ki_rel _ _ K1) h) as H1. rewrite (root_nth _ _ _ RT) in H1. pose proof (r_trees _ _ (ki_rel _ _ K2) h) as H2.
    destruct (nth_error (s_trees sp) h) as [[[R1|]|]|]; cbn [holds] in H1; try contradiction. rewrite (shows_det _ _ _ _ H1 SH) in H2.
    destruct (nth_error (c_handles (k_c k')) h) as [[[top'|]|]|] eqn:RT'; cbn [holds] in H2; try contradiction.
    exists h, top', R. split; [|split; [unfold root; rewrite RT'; reflexivity|split; [exact H2|exact WD]]].
    destruct p'; cbn [trel] in T2; try contradiction; destruct T2 as (-> & _); cbn; apply Nat.eqb_refl.
  Qed.

  Lemma only_c : forall (k : client) t e k', only k t e = Some k' -> exists o, cstep (k_c k) t e = Next (k_c k') o /\ k_todo k' = k_todo k.
  Proof. intros k t e k' H. unfold only in H. destruct (machine k t e) as [s|] eqn:EM; [|discriminate]. injection H as <-. destruct (machine_next _ _ _ _ EM) as [o Ho]. eauto. Qed.

  Lemma bud_quiet : forall (k : client) sp t e k' n, kinv k sp -> only k t e = Some k' -> fst (sstep sp t e) = sp ->
    (forall p, nth_error (c_threads (k_c k)) t = Some p -> sharing p e) -> bud k t n -> exists n', n = S n' /\ bud k' t n'.
  Proof.
    intros k sp t e k' n KI H E SH (p & n1 & q & rest & NP & NT & FR & P & B & W). pose proof (kinv_quiet _ _ _ _ _ KI H E) as KI'.
    destruct (only_c _ _ _ _ H) as (o & Hc & TD). destruct (pays_own K _ _ _ _ _ _ _ (ki_inv _ _ KI) NP Hc (SH _ NP) P) as (p' & n2 & NP' & P' & ->).
    exists (n - 1). split; [lia|]. exists p', n2, q, rest. split; [exact NP'|]. split; [rewrite TD; exact NT|]. split; [exact FR|]. split; [exact P'|]. split; [lia|].
    intros Q. eapply wide_quiet; [exact KI|exact KI'| | |]; eauto.
  Qed.

  Lemma bud_same : forall (k : client) sp t e k' n, kinv k sp -> only k t e = Some k' -> fst (sstep sp t e) = sp ->
    (exists h fr a fl old, nth_error (c_threads (k_c k)) t = Some (PAt h fr a fl old) /\ nth_error (c_threads (k_c k')) t = Some (PAt h fr a fl old)) -> bud k t n -> bud k' t n.
  Proof.
    intros k sp t e k' n KI H E (h & fr & a & fl & old & N1 & N2) (p & n1 & q & rest & NP & NT & FR & P & B & W). pose proof (kinv_quiet _ _ _ _ _ KI H E) as KI'.
    destruct (only_c _ _ _ _ H) as (o & Hc & TD). rewrite N1 in NP. injection NP as <-.
    exists (PAt h fr a fl old), n1, q, rest. split; [exact N2|]. split; [rewrite TD; exact NT|]. split; [exact FR|]. split; [exact Logic.I|]. split; [exact B|].
    intros Q. eapply wide_quiet; [exact KI|exact KI'| | |]; eauto.
  Qed.

  Lemma bud_read : forall (k : client) sp t e k' n, kinv k sp -> only k t e = Some k' -> match e with VRead _ | VDown _ | VReadEnd => True | _ => False end -> bud k t n -> bud k' t n.
  Proof.
    intros k sp t e k' n KI H EV (p & n1 & q & rest & NP & NT & FR & P & B & W). destruct (only_c _ _ _ _ H) as (o & Hc & TD).
    pose proof (r_threads _ _ (ki_rel _ _ KI) t) as Q. rewrite NP in Q. destruct (nth_error (s_threads sp) t) as [s|] eqn:NS; [|contradiction]. cbn [orel] in Q. pose proof (ki_thread _ _ KI _ _ NS) as TG.
    pose proof (nth_error_lt _ _ _ NP) as LT.
    assert (PR : match p with PIdle | PRead _ _ _ => True | _ => False end /\ exists p', nth_error (c_threads (k_c k')) t = Some p' /\ match p' with PIdle | PRead _ _ _ => True | _ => False end).
    { unfold cstep in Hc. rewrite NP in Hc. destruct p as [|h is x|ws|h fr en|h fr x fl old]; destruct e; try contradiction; try discriminate.
      - destruct (nth_error (c_handles (k_c k)) h) as [[[r|]|]|]; try discriminate. destruct (existsb _ _); [discriminate|]. destruct (look (c_mem (k_c k)) r); [|discriminate]. injection Hc as <- _.
        split; auto. eexists. split; [cbn [go c_threads]; apply replace_nth_same; exact LT|exact Logic.I].
      - destruct (look (c_mem (k_c k)) x) as [nx|]; [|discriminate]. destruct (nth_error (n_kids nx) i) as [c|]; [|discriminate]. destruct (look (c_mem (k_c k)) c); [|discriminate]. injection Hc as <- _.
        split; auto. eexists. split; [cbn [go c_threads]; apply replace_nth_same; exact LT|exact Logic.I].
      - injection Hc as <- _. split; auto. eexists. split; [cbn [go c_threads]; apply replace_nth_same; exact LT|exact Logic.I].
      - unfold at_step in Hc. destruct (look (c_mem (k_c k)) x); discriminate.
      - unfold at_step in Hc. destruct (look (c_mem (k_c k)) x); discriminate.
      - unfold at_step in Hc. destruct (look (c_mem (k_c k)) x); discriminate. }
    destruct PR as (PP & p' & NP' & PP').
    assert (EM : map VChild q ++ rest = []) by (destruct p; try contradiction; destruct s; cbn [trel] in Q; try contradiction; cbn [tgood] in TG; congruence).
    apply app_eq_nil in EM. destruct EM as [EQ ER]. apply map_eq_nil in EQ. subst q rest.
    exists p', 0, [], []. split; [exact NP'|]. split; [rewrite TD; exact NT|]. split; [constructor|]. split; [destruct p'; try contradiction; exact Logic.I|]. split; [cbn; lia|]. intros []; reflexivity.
  Qed.

  (** The next step of a call. *)
  Lemma at_late : forall (s : cstate D) t h fr a fl old e s' o, nth_error (c_threads s) t = Some (PAt h fr a fl old) -> at_step s t h fr a fl old e = Next s' o -> late e ->
    exists p', nth_error (c_threads s') t = Some p' /\ match p' with PIdle | PAt _ _ _ _ _ => True | _ => False end.
  Proof.
    intros s t h fr a fl old e s' o NP H LA. pose proof (nth_error_lt _ _ _ NP) as LT. unfold at_step in H. destruct (look (c_mem s) a) as [n|]; [|discriminate].
    destruct e; cbn [late] in LA; try contradiction; try discriminate;
      repeat match type of H with
             | match ?x with _ => _ end = _ => destruct x; try discriminate
             | (if ?x then _ else _) = _ => destruct x; try discriminate
             end;
      injection H as <- _; cbn [go mem hand c_threads]; rewrite ?replace_nth_same by exact LT; rewrite ?NP; eexists; (split; [reflexivity|exact Logic.I]).
  Qed.

  Lemma bud_next : forall (k : client) sp t a k' n, kinv k sp -> kstep X Y M k (KNext t a) = Some k' -> bud k t n -> exists n', n = S n' /\ bud k' t n'.
  Proof.
    intros k sp t a k' n KI H (p & n1 & q & rest & NP & NT & FR & P & B & W). cbn [kstep] in H. pose proof (nth_error_lt _ _ _ NP) as LT.
    pose proof (nth_error_lt _ _ _ NT) as LTD.
    pose proof (r_threads _ _ (ki_rel _ _ KI) t) as Q. rewrite NP in Q. destruct (nth_error (s_threads sp) t) as [s|] eqn:NS; [|contradiction]. cbn [orel] in Q. pose proof (ki_thread _ _ KI _ _ NS) as TG.
    rewrite NT in H. destruct (map VChild q ++ rest) as [|e es] eqn:EE; [discriminate|]. destruct (machine k t (placed a e)) as [s'|] eqn:EM; [|discriminate]. injection H as <-.
    destruct (machine_next _ _ _ _ EM) as [o Hc]. unfold cstep in Hc. rewrite NP in Hc.
    destruct p as [|h is x|ws|h fr en|h fr x fl old].
    - destruct s; cbn [trel] in Q; try contradiction. cbn [tgood] in TG. congruence.
    - destruct s; cbn [trel] in Q; try contradiction. cbn [tgood] in TG. congruence.
    - destruct s; cbn [trel] in Q; try contradiction. cbn [tgood] in TG. congruence.
    - exfalso. destruct q as [|i q]; cbn [map app] in EE.
      + subst rest. inversion FR as [|? ? LE _]; subst. destruct e; cbn [late] in LE; try contradiction; cbn [placed] in Hc; discriminate.
      + injection EE as <- <-. cbn [placed] in Hc. discriminate.
    - destruct q as [|i q]; cbn [map app] in EE.
      + subst rest. inversion FR as [|? ? LE FR']; subst. assert (LE' : late (placed a e)) by (destruct e; exact LE).
        destruct (at_late _ _ _ _ _ _ _ _ _ _ NP Hc LE') as (p' & NP' & PP). exists (n - 1). cbn [length] in B. split; [lia|].
        exists p', 0, [], es. split; [exact NP'|]. split; [cbn [k_todo]; apply replace_nth_same; exact LTD|]. split; [exact FR'|]. split; [destruct p'; try contradiction; exact Logic.I|]. split; [cbn [length]; lia|]. intros []; reflexivity.
      + injection EE as <- <-. destruct (W ltac:(discriminate)) as (h' & top & R & WH & RT & SH & WD). cbn in WH. apply Nat.eqb_eq in WH. subst h'. cbn [placed] in Hc. unfold at_step in Hc.
        destruct (look (c_mem (k_c k)) x) as [nx|]; [|discriminate]. destruct (_ && _); [|discriminate]. injection Hc as <- _. cbn [length] in B.
        exists (n - 1). split; [lia|]. exists (PEns h ((x, i) :: fr) ELoad), (2 * K + 6), q, rest. cbn [k_c go c_threads c_mem c_handles k_todo].
        split; [apply replace_nth_same; exact LT|]. split; [apply replace_nth_same; exact LTD|]. split; [exact FR|]. split; [split; [eapply chain_narrow; eauto|lia]|]. split; [lia|].
        intros _. exists h, top, R. split; [cbn; apply Nat.eqb_refl|]. auto.
  Qed.

  (** Any step. *)
  Definition counts (k : client) (t : nat) (x : act) : bool :=
    match x with
    | KShared u => (u =? t) && match nth_error (c_threads (k_c k)) u with Some (PEns _ _ ELoad) => true | _ => false end
    | _ => counted t x
    end.

  Lemma bud_step : forall (k : client) sp x k' t n, kinv k sp -> kstep X Y M k x = Some k' -> begins t x = false -> bud k t n ->
    if counts k t x then exists n', n = S n' /\ bud k' t n' else bud k' t n.
  Proof.
    intros k sp x k' t n KI H NB B. destruct (Nat.eq_dec (who x) t) as [E|NE].
    2: { assert (C : counts k t x = false) by (destruct x; cbn in *; try reflexivity; destruct (Nat.eqb_spec t0 t); try congruence; reflexivity). rewrite C. eapply bud_other; eauto. }
    destruct x as [u c a|u a|u a|u|u tg i|u h|u i|u]; cbn [who] in E; subst u; cbn [counts counted begins] in *; rewrite ?Nat.eqb_refl in *; try discriminate.
    - eapply bud_next; eauto.
    - eapply bud_quiet; eauto. intros p _. exact Logic.I.
    - cbn [andb]. cbn [kstep] in H. destruct (only_c _ _ _ _ H) as (o & Hc & _). destruct (nth_error (c_threads (k_c k)) t) as [p|] eqn:NP; [|unfold cstep in Hc; rewrite NP in Hc; discriminate].
      unfold cstep in Hc. rewrite NP in Hc. destruct p as [|h is x|ws|h fr en|h fr x fl old]; try discriminate.
      + destruct en; try discriminate. eapply bud_quiet; eauto. intros p NP2. rewrite NP in NP2. injection NP2 as <-. exact Logic.I.
      + eapply bud_same; eauto. exists h, fr, x, fl, old. split; [exact NP|]. unfold at_step in Hc. destruct (look (c_mem (k_c k)) x); [|discriminate]. injection Hc as <- _. exact NP.
    - cbn [kstep] in H. eapply bud_same; eauto. destruct (only_c _ _ _ _ H) as (o & Hc & _). destruct (nth_error (c_threads (k_c k)) t) as [p|] eqn:NP; [|unfold cstep in Hc; rewrite NP in Hc; discriminate].
      unfold cstep in Hc. rewrite NP in Hc. destruct p as [|h is x|ws|h fr en|h fr x fl old]; try discriminate.
      exists h, fr, x, fl, old. split; [reflexivity|]. unfold at_step in Hc. destruct (look (c_mem (k_c k)) x); [|discriminate].
      destruct (pick x fl tg) as [b|]; [|discriminate]. destruct (look (c_mem (k_c k)) b) as [nb|]; [|discriminate]. destruct (nth_error (n_kids nb) i) as [kc|]; [|discriminate].
      destruct (look (c_mem (k_c k)) kc) as [nc|]; [|discriminate]. injection Hc as <- _. destruct (n_cnt nc =? 1); exact NP.
    - eapply bud_read; eauto. exact Logic.I.
    - eapply bud_read; eauto. exact Logic.I.
    - eapply bud_read; eauto. exact Logic.I.
  Qed.

  (** With weak memory, a [KStep] may be a [KShared], but only of a thread that is about to load the count. *)
  Lemma wstep_step : forall (w : wstate D) t a j w' b, wstep code_ords w t (VStep a) j = WNext w' b ->
    match nth_error (c_threads (w_s w)) t with Some (PAt _ _ _ _ _) | Some (PRead _ _ _) | Some PIdle | None => False | _ => True end.
  Proof.
    intros w t a j w' b H. unfold wstep in H. cbv zeta in H. destruct (reads_count _ _ _ _ _) as [[v g]|]; [|discriminate].
    destruct (vstep (w_s w) t (VStep a) v) as [| |s' b'] eqn:E; try discriminate. unfold vstep, cstep in E. destruct (nth_error (c_threads (w_s w)) t) as [[|h is x|ws|h fr en|h fr x fl old]|] eqn:NP; auto; try discriminate.
    unfold at_step in E. destruct (look (c_mem (w_s w)) x); discriminate.
  Qed.

  Lemma qstep_counts : forall (q : wclient) x j q' t, qinv q -> qstep X Y M q x j = Some q' -> begins t x = false ->
    exists x', kstep X Y M (sc_of q) x' = Some (sc_of q') /\ begins t x' = false /\ (counted t x = true -> counts (sc_of q) t x' = true).
  Proof.
    intros q x j q' t Q H NB. pose proof Q as [_ F].
    assert (PL : forall u e, plain e -> only (sc_of q) u e = kstep X Y M (sc_of q) x -> qonly q u e j = Some q' -> counts (sc_of q) t x = counted t x ->
      exists x', kstep X Y M (sc_of q) x' = Some (sc_of q') /\ begins t x' = false /\ (counted t x = true -> counts (sc_of q) t x' = true)).
    { intros u e P E HQ EC. unfold qonly in HQ. destruct (qmachine q u e j) as [w|] eqn:EM; [|discriminate]. injection HQ as <-. destruct (qmachine_ok _ _ _ _ _ Q EM) as (W' & e' & A & ME).
      rewrite (plain_alike _ _ P A) in ME. exists x. split; [rewrite <- E; unfold only; rewrite ME; reflexivity|]. split; [exact NB|congruence]. }
    destruct x as [u c a|u a|u a|u|u tg i|u h|u i|u].
    - cbn [qstep] in H. destruct (nth_error (q_todo q) u) as [[|]|] eqn:NT; try discriminate. destruct (steps_of X Y M (q_trees q) c) as [[e es]|] eqn:ST; try discriminate.
      destruct (seq1 X Y M (q_trees q) c) as [ts|] eqn:SQ; try discriminate. destruct (qmachine q u (placed a e) j) as [w|] eqn:EM; [|discriminate]. injection H as <-.
      destruct (steps_plain _ _ _ _ _ _ _ ST) as [Pe Pes]. destruct (qmachine_ok _ _ _ _ _ Q EM) as (W' & e' & A & ME). rewrite (plain_alike _ _ (placed_plain a _ Pe) A) in ME.
      exists (KCall u c a). split; [|split; [exact NB|discriminate]]. cbn [kstep]. cbn [sc_of k_todo k_trees]. rewrite NT, ST, SQ, ME. reflexivity.
    - cbn [qstep] in H. destruct (nth_error (q_todo q) u) as [[|e es]|] eqn:NT; try discriminate. destruct (qmachine q u (placed a e) j) as [w|] eqn:EM; [|discriminate]. injection H as <-.
      assert (P : Forall plain (e :: es)) by (rewrite Forall_forall in F; apply F; eapply nth_error_In; exact NT). inversion P as [|? ? Pe Pes]; subst.
      destruct (qmachine_ok _ _ _ _ _ Q EM) as (W' & e' & A & ME). rewrite (plain_alike _ _ (placed_plain a _ Pe) A) in ME.
      exists (KNext u a). split; [|split; [exact NB|auto]]. cbn [kstep]. cbn [sc_of k_todo k_trees]. rewrite NT, ME. reflexivity.
    - cbn [qstep] in H. unfold qonly in H. destruct (qmachine q u (VStep a) j) as [w|] eqn:EM; [|discriminate]. injection H as <-. destruct (qmachine_ok _ _ _ _ _ Q EM) as (W' & e' & A & ME).
      destruct A as [->|[-> _]].
      + exists (KStep u a). split; [cbn [kstep]; unfold only; rewrite ME; reflexivity|]. auto.
      + exists (KShared u). split; [cbn [kstep]; unfold only; rewrite ME; reflexivity|]. split; [reflexivity|]. cbn [counted counts]. intros ->. cbn [andb].
        unfold qmachine in EM. destruct (wstep code_ords (q_w q) u (VStep a) j) as [| |w' b] eqn:EW; try discriminate. pose proof (wstep_step _ _ _ _ _ _ EW) as Z.
        destruct (machine_next _ _ _ _ ME) as [o Hc]. unfold cstep in Hc. cbn [sc_of k_c] in *. destruct (nth_error (c_threads (w_s (q_w q))) u) as [[|h is x|ws|h fr en|h fr x fl old]|]; try contradiction; try discriminate.
        destruct en; try discriminate. reflexivity.
    - discriminate.
    - cbn [qstep] in H. unfold qonly in H. destruct (qmachine q u (VFix tg i) j) as [w|] eqn:EM; [|discriminate]. injection H as <-. destruct (qmachine_ok _ _ _ _ _ Q EM) as (W' & e' & A & ME).
      destruct A as [->|[-> _]]; [exists (KFix u tg i)|exists (KShared u)]; (split; [cbn [kstep]; unfold only; rewrite ME; reflexivity|split; [reflexivity|discriminate]]).
    - apply (PL u (VRead h)); [exact Logic.I|reflexivity|exact H|reflexivity].
    - apply (PL u (VDown i)); [exact Logic.I|reflexivity|exact H|reflexivity].
    - apply (PL u VReadEnd); [exact Logic.I|reflexivity|exact H|reflexivity].
  Qed.

  Lemma bud_less : forall k t n n', bud k t n -> n <= n' -> bud k t n'.
  Proof. intros k t n n' (p & n1 & q & rest & A & B & C & P & L & W) LE. exists p, n1, q, rest. repeat (split; [assumption|]). split; [lia|exact W]. Qed.

  Lemma bud_run : forall ys (q q' : wclient) sp t n, qinv q -> kinv (sc_of q) sp -> bud (sc_of q) t n -> qrun X Y M q ys = Some q' -> existsb (begins t) (map fst ys) = false -> own t ys <= n.
  Proof.
    induction ys as [|[x j] ys IH]; intros q q' sp t n Q KI B H NB; cbn [qrun map fst existsb] in *; [unfold own; cbn; lia|].
    destruct (qstep X Y M q x j) as [q1|] eqn:E; [|discriminate]. apply orb_false_elim in NB. destruct NB as [NB1 NB].
    destruct (qstep_sim X Y M _ _ _ _ Q E) as (Q1 & _). destruct (qstep_counts _ _ _ _ _ Q E NB1) as (x' & KS & NB' & CT).
    destruct (kinv_kstep X Y M HM _ _ _ _ KI KS) as [sp' KI']. pose proof (bud_step _ _ _ _ _ _ KI KS NB' B) as B'.
    unfold own. cbn [map fst filter]. destruct (counted t x); cbn [length].
    - rewrite (CT eq_refl) in B'. destruct B' as (n' & -> & B'). pose proof (IH _ _ _ _ _ Q1 KI' B' H NB) as R. unfold own in R. lia.
    - assert (B2 : bud (sc_of q1) t n) by (destruct (counts (sc_of q) t x'); [destruct B' as (n' & -> & B'); eapply bud_less; [exact B'|lia]|exact B']).
      exact (IH _ _ _ _ _ Q1 KI' B2 H NB).
  Qed.
End Q.

(** ** The start of a call *)
Section S.
  Context {I V : Type} (X : index_ops I) (Y : slice_ops I V) (M : nat).
  Notation D := (@ndata I V).
  Notation client := (@client I V).
  Hypothesis HM : 1 <= M.

  Lemma wide_rose : forall b h lo (t : tree I V), wshape M b lo h t = true -> wide (2 * M + 1) (rose_of h t).
  Proof.
    intros b. induction h as [|h IH]; intros lo [|tot c0 es] H is x S0; try discriminate.
    - destruct is as [|i is]; cbn in S0; [injection S0 as <-; cbn; lia|]. destruct i; discriminate.
    - cbn [wshape] in H. apply andb_prop in H. destruct H as [H HK]. apply andb_prop in H. destruct H as [_ H]. apply Nat.leb_le in H. rewrite forallb_forall in HK.
      destruct is as [|i is].
      + cbn in S0. injection S0 as <-. cbn [rkids rose_of below map length]. rewrite !map_length. lia.
      + cbn [sub rose_of rkids] in S0. destruct (nth_error (map (rose_of h) (below (Node tot c0 es))) i) as [k|] eqn:N; [|discriminate]. apply nth_error_In in N. apply in_map_iff in N. destruct N as (u & <- & IN).
        eapply (IH b u); [apply HK; exact IN|exact S0].
  Qed.
  Lemma intact_wide : forall r, @intact I V M (Some r) -> wide (2 * M + 1) (rose_of (r_height r) (r_node r)).
  Proof. intros r [H _]. eapply wide_rose; exact H. Qed.

  Lemma seq1_intact : forall ts c ts', index_any X -> Forall (fun o => match o with Some r => intact M r | None => True end) ts -> seq1 X Y M ts c = Some ts' ->
    Forall (fun o => match o with Some r => intact M r | None => True end) ts'.
  Proof.
    intros ts c ts' HX F H. destruct c as [|nop j hints idx slice size|j|j]; cbn [seq1] in H.
    - injection H as <-. apply Forall_app. split; [exact F|repeat constructor].
    - destruct (nth_error ts j) as [[r|]|] eqn:N; try discriminate. destruct (insert_with_cursor X Y M nop r hints idx slice size) as [[r' cur]| |] eqn:E; try discriminate. injection H as <-.
      apply forall_replace; [exact F|]. rewrite Forall_forall in F. pose proof (F _ (nth_error_In _ _ N)) as IN. cbn beta iota in IN.
      pose proof (intact_insert I V X calm Y M nop r hints idx slice size HX HM IN) as Q. rewrite <- (proj1 (C51_same_outcome_proof I V X calm Y M nop r hints idx slice size)) in E.
      destruct (uinsert_with_cursor X calm Y M nop r hints idx slice size) as [[r1 c1]| |]; cbn in E; try discriminate. injection E as <- <-. apply Q.
    - destruct (nth_error ts j) as [[r|]|] eqn:N; try discriminate. injection H as <-. apply Forall_app. split; [exact F|]. constructor; [|constructor]. rewrite Forall_forall in F. exact (F _ (nth_error_In _ _ N)).
    - destruct (nth_error ts j) as [[r|]|] eqn:N; try discriminate. injection H as <-. apply forall_replace; [exact F|exact Logic.I].
  Qed.
  Lemma seq_intact : forall cs ts ts', index_any X -> Forall (fun o => match o with Some r => intact M r | None => True end) ts -> seq X Y M ts cs = Some ts' ->
    Forall (fun o => match o with Some r => intact M r | None => True end) ts'.
  Proof. induction cs as [|c cs IH]; intros ts ts' HX F H; cbn [seq] in H; [injection H as <-; exact F|]. destruct (seq1 X Y M ts c) as [t1|] eqn:E; [|discriminate]. refine (IH t1 ts' HX _ H). eapply seq1_intact; eauto. Qed.

  Lemma level_late : forall c kids news, Forall late (@level I V M c kids news).
  Proof. intros c kids news. unfold level. destruct kids as [|k [|k' kids]]; destruct news as [|l [|r [|r' news]]]; try (repeat constructor; fail); destruct (c =? M); try (destruct (M <? c)); repeat constructor. Qed.
  Lemma ups_late : forall q r news, Forall late (@ups I V M q r news).
  Proof.
    induction q as [|c q IH]; intros r news; cbn [ups].
    - destruct news as [|l [|n [|n' news]]]; repeat constructor.
    - destruct (nth_error (rkids r) c) as [k|]; [|constructor]. apply Forall_app. split; [apply IH|]. constructor; [exact Logic.I|apply level_late].
  Qed.
  Lemma level_len : forall c kids news, length (@level I V M c kids news) <= 3.
  Proof. intros c kids news. unfold level. destruct kids as [|k [|k' kids]]; destruct news as [|l [|r [|r' news]]]; try (cbn; lia); destruct (c =? M); try (destruct (M <? c)); cbn [length]; lia. Qed.
  Lemma ups_len : forall q r news, length (@ups I V M q r news) <= 4 * length q + 1.
  Proof.
    induction q as [|c q IH]; intros r news; cbn [ups].
    - destruct news as [|l [|n [|n' news]]]; cbn; lia.
    - destruct (nth_error (rkids r) c) as [k|]; [|cbn; lia]. rewrite app_length. cbn [length]. specialize (IH k (kid_news c r news)). pose proof (level_len c (kid_news c r news) news). lia.
  Qed.

  Lemma path_sub : forall q (R : rose D) is fl old es l x, lrun (R, is, fl, old) (map VChild q ++ es) = Some l -> sub R (rev is) = Some x -> exists y, sub x q = Some y.
  Proof.
    induction q as [|i q IH]; intros R is fl old es l x H S0; [exists x; reflexivity|]. cbn [map app lrun] in H. unfold lstep in H at 1. rewrite S0 in H.
    destruct (_ && _) eqn:E in H; [|discriminate]. apply andb_prop in E. destruct E as [E _]. apply Nat.ltb_lt in E. apply nth_error_Some in E. destruct (nth_error (rkids x) i) as [k|] eqn:N; [|contradiction].
    cbn [sub]. rewrite N. eapply IH; [exact H|]. cbn [rev]. rewrite sub_app, S0. cbn [sub]. rewrite N. reflexivity.
  Qed.
  Lemma sub_height : forall q h (t : tree I V) y, sub (rose_of h t) q = Some y -> length q <= h.
  Proof.
    induction q as [|i q IH]; intros h t y H; [cbn; lia|]. destruct h as [|h]; cbn [rose_of sub rkids] in H; [destruct i; discriminate|].
    destruct (nth_error (map (rose_of h) (below t)) i) as [k|] eqn:N; [|discriminate]. apply nth_error_In in N. apply in_map_iff in N. destruct N as (u & <- & _). apply IH in H. cbn. lia.
  Qed.

  (** What is left of an insertion after its first step. *)
  Lemma program_parts : forall nop r0 hints idx slice size r' cur pl fp j, insert_with_cursor X Y M nop (Some r0) hints idx slice size = Ok (r', cur) ->
    insert_plan X Y (Some r0) hints idx slice = Ok pl -> find_path X Y (Some r0) hints idx = Ok fp ->
    exists q rest, program M j (way pl fp) (Some r0) r' = VInsert j :: map VChild q ++ rest /\ Forall late rest /\ length q <= r_height r0 /\ length rest <= 4 * length q + 3.
  Proof.
    intros nop r0 hints idx slice size r' cur pl fp j Hi Hp Hf. destruct (program_run X Y M HM _ _ _ _ _ _ _ _ _ _ j Hi Hp Hf) as (b & r1 & -> & P & RUN).
    exists (way pl fp). cbn [program] in *. cbv zeta in *. eexists. split; [reflexivity|].
    set (mid := if r_height r1 =? r_height r0 then ups M (way pl fp) (rose_of (r_height r0) (r_node r0)) [rose_of (r_height r1) (r_node r1)]
       else ups M (way pl fp) (rose_of (r_height r0) (r_node r0)) (rkids (rose_of (r_height r1) (r_node r1))) ++ [VNewRoot 0 0 (rdata (rose_of (r_height r1) (r_node r1)))]) in *.
    assert (EB : b = map VChild (way pl fp) ++ mid) by (injection P as P; rewrite app_assoc in P; apply app_inj_tail in P; symmetry; apply P). subst b.
    destruct (path_sub _ _ _ _ _ _ _ _ RUN eq_refl) as (y & SY). apply sub_height in SY.
    assert (FM : Forall late mid) by (unfold mid; destruct (_ =? _); [apply ups_late|apply Forall_app; split; [apply ups_late|repeat constructor]]).
    assert (LM : length mid <= 4 * length (way pl fp) + 2).
    { unfold mid. destruct (_ =? _); [pose proof (ups_len (way pl fp) (rose_of (r_height r0) (r_node r0)) [rose_of (r_height r1) (r_node r1)]); lia|].
      rewrite app_length. cbn [length]. pose proof (ups_len (way pl fp) (rose_of (r_height r0) (r_node r0)) (rkids (rose_of (r_height r1) (r_node r1)))). lia. }
    split; [apply Forall_app; split; [exact FM|repeat constructor]|]. split; [exact SY|]. rewrite app_length. cbn [length]. lia.
  Qed.

  Lemma bud_start : forall (k : client) sp t c a k', index_any X -> kinv k sp -> Forall (fun o => match o with Some r => intact M r | None => True end) (k_trees k) ->
    kstep X Y M k (KCall t c a) = Some k' -> bud (2 * M + 1) k' t (limit M (k_trees k) c).
  Proof.
    intros k sp t c a k' HX KI F H. cbn [kstep] in H. destruct (nth_error (k_todo k) t) as [[|]|] eqn:NT; try discriminate. destruct (steps_of X Y M (k_trees k) c) as [[e es]|] eqn:ST; try discriminate.
    destruct (seq1 X Y M (k_trees k) c) as [ts|] eqn:SQ; try discriminate. destruct (machine k t (placed a e)) as [s'|] eqn:EM; [|discriminate]. injection H as <-.
    destruct (machine_next _ _ _ _ EM) as [o Hc]. pose proof (pc_idle _ _ _ _ _ _ (ki_rel _ _ KI) Hc) as PI. pose proof (cstep_free _ _ _ _ _ Hc) as FR. pose proof (nth_error_lt _ _ _ NT) as LTD.
    unfold cstep in Hc. destruct (nth_error (c_threads (k_c k)) t) as [p|] eqn:NP; [|discriminate]. pose proof (nth_error_lt _ _ _ NP) as LT.
    assert (IDLE : forall n, nth_error (c_threads s') t = Some PIdle -> es = [] -> bud (2 * M + 1) {| k_c := s'; k_todo := replace_at t es (k_todo k); k_trees := ts |} t n).
    { intros n NI ->. exists PIdle, 0, [], []. split; [exact NI|]. split; [cbn [k_todo]; apply replace_nth_same; exact LTD|]. split; [constructor|]. split; [exact Logic.I|]. split; [cbn; lia|]. intros []; reflexivity. }
    pose proof (seq_steps X Y M HM _ _ _ _ _ ST SQ) as Z.
    assert (AT : forall h fr x fl old, match e with VEmpty | VNew _ _ _ | VClone _ | VDrop _ | VInsert _ => True | _ => False end -> p <> PAt h fr x fl old).
    { intros h fr x fl old E ->. unfold at_step in Hc. destruct (look (c_mem (k_c k)) x); [|discriminate]. destruct e; try contradiction; discriminate. }
    assert (EI : match e with VEmpty | VNew _ _ _ | VClone _ | VDrop _ | VInsert _ => True | _ => False end -> p = PIdle).
    { intros E. destruct p as [|h is x|ws|h fr en|h fr x fl old]; [reflexivity| | | |exfalso; eapply AT; eauto]; destruct e; try contradiction; cbn [placed] in Hc; try discriminate; destruct ws; discriminate. }
    destruct c as [|nop j hints idx slice size|j|j].
    - destruct Z as (-> & -> & ->). rewrite (EI Logic.I) in *. cbn [placed] in Hc. injection Hc as <- _. apply IDLE; auto.
    - destruct Z as (r & r1 & NJ & -> & Z). cbn [limit]. rewrite NJ. destruct r as [r0|].
      + cbn [steps_of] in ST. rewrite NJ in ST. destruct (insert_with_cursor X Y M nop (Some r0) hints idx slice size) as [[r' cur]| |] eqn:Ei; try discriminate.
        destruct (insert_plan X Y (Some r0) hints idx slice) as [pl| |] eqn:Ep; try discriminate. destruct (find_path X Y (Some r0) hints idx) as [fp| |] eqn:Ef; try discriminate.
        destruct (program_parts _ _ _ _ _ _ _ _ _ _ j Ei Ep Ef) as (q & rest & EP & FL & LQ & LR). rewrite EP in ST. destruct Z as (-> & _). injection ST as <-.
        rewrite (EI Logic.I) in *. cbn [placed] in *. pose proof (unused _ _ _ (ki_rel _ _ KI) FR) as UN.
        assert (TJ : nth_error (s_trees sp) j = Some (Some (Some (rose_of (r_height r0) (r_node r0))))).
        { rewrite (ki_tree _ _ KI), NJ; [reflexivity|]. intros t1 is fl old N1. exact (UN _ _ N1 eq_refl). }
        destruct (nth_error (c_handles (k_c k)) j) as [[[top|]|]|] eqn:NH; try discriminate. rewrite FR in Hc. injection Hc as <- _.
        pose proof (r_trees _ _ (ki_rel _ _ KI) j) as SH. rewrite NH, TJ in SH. cbn [holds] in SH.
        assert (RT : CowP.root (c_handles (k_c k)) j = Some top) by (unfold CowP.root; rewrite NH; reflexivity).
        assert (WD : wide (2 * M + 1) (rose_of (r_height r0) (r_node r0))) by (apply intact_wide; rewrite Forall_forall in F; exact (F _ (nth_error_In _ _ NJ))).
        exists (PEns j [] ELoad), (2 * (2 * M + 1) + 6), q, rest. cbn [k_c go c_threads c_mem c_handles k_todo].
        split; [apply replace_nth_same; exact LT|]. split; [apply replace_nth_same; exact LTD|]. split; [exact FL|]. split; [split; [eapply chain_narrow; eauto|lia]|].
        split; [|intros _; exists j, top, (rose_of (r_height r0) (r_node r0)); split; [cbn; apply Nat.eqb_refl|auto]].
        assert (A : length q * (4 * M + 13) <= r_height r0 * (4 * M + 13)) by (apply Nat.mul_le_mono_r; exact LQ). nia.
      + destruct Z as (-> & -> & _). rewrite (EI Logic.I) in *. cbn [placed] in *. destruct (nth_error (c_handles (k_c k)) j) as [[[top|]|]|]; try discriminate. rewrite FR in Hc.
        destruct (alloc (c_mem (k_c k)) a _) as [m|]; [|discriminate]. injection Hc as <- _. apply IDLE; auto.
    - destruct Z as (-> & -> & r & NJ & ->). rewrite (EI Logic.I) in *. cbn [placed] in *. destruct (nth_error (c_handles (k_c k)) j) as [[[top|]|]|]; try discriminate; rewrite FR in Hc.
      + destruct (look (c_mem (k_c k)) top); [|discriminate]. injection Hc as <- _. apply IDLE; auto.
      + injection Hc as <- _. apply IDLE; auto.
    - destruct Z as (-> & -> & (r & NJ) & ->). rewrite (EI Logic.I) in *. cbn [placed limit] in *. rewrite NJ. pose proof (unused _ _ _ (ki_rel _ _ KI) FR) as UN.
      assert (TJ : nth_error (s_trees sp) j = Some (Some (rle_rose r))).
      { rewrite (ki_tree _ _ KI), NJ; [reflexivity|]. intros t1 is fl old N1. exact (UN _ _ N1 eq_refl). }
      pose proof (r_trees _ _ (ki_rel _ _ KI) j) as SH. rewrite TJ in SH.
      destruct (nth_error (c_handles (k_c k)) j) as [[o1|]|] eqn:NH; try discriminate. rewrite FR in Hc. injection Hc as <- _.
      exists (PDrop (match o1 with Some a0 => [WDec a0] | None => [] end)), (match r with Some r2 => 2 * nodes (rose_of (r_height r2) (r_node r2)) + 1 | None => 1 end), [], []. cbn [k_c go hand c_threads c_mem c_handles k_todo].
      split; [apply replace_nth_same; exact LT|]. split; [apply replace_nth_same; exact LTD|]. split; [constructor|]. cbn [pays length].
      destruct o1 as [top|], r as [r|]; cbn [holds rle_rose] in SH; try contradiction.
      + split; [exists [rose_of (r_height r) (r_node r)]; split; [unfold pile; apply Forall2_cons; [exact SH|apply Forall2_nil]|cbn [costs wcost]; lia]|]. split; [lia|]. intros E; contradiction E; reflexivity.
      + split; [exists []; split; [apply Forall2_nil|cbn [costs]; lia]|]. split; [lia|]. intros E; contradiction E; reflexivity.
  Qed.
End S.
