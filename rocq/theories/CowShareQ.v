(** Proofs that nothing is copied as long as no tree has been cloned. *)
From Coq Require Import List Arith Bool Lia Permutation.
From Verif Require Import Base ListFacts Index Slice Tree Insert LInsert LRef LCow Cow CowSpec CowP CowQ CowT CowU CowV Weak WeakP WeakR WeakS WeakX WeakPropsP
  CowCall CowCallP CowCallQ CowCallR CowCallS CowCallPropsP CowCallWeak CowCallWeakP CowWait CowWaitQ CowShare CowShareP.
Import ListNotations.

Section W.
  Context {D : Type}.
  Notation wstate := (wstate D).
  Notation cstate := (cstate D).
  Variable o : ords.

  Definition quiet (p : pc D) : Prop := match p with PEns _ _ (EInc _ _ _) | PEns _ _ (EWork _ _) => False | _ => True end.
  Definition uncl (e : ev D) : Prop := match e with VClone _ => False | _ => True end.
  Definition grows (e : ev D) : nat := match e with VNew _ _ _ | VSplit _ _ _ _ | VNewRoot _ _ _ => 1 | _ => 0 end.

  Record single (w : wstate) : Prop := {
    g_cnt : forall a n, look (c_mem (w_s w)) a = Some n -> n_cnt n <= 1;
    g_hist : forall a n, look (c_mem (w_s w)) a = Some n -> n_cnt n = 1 -> Forall (fun m => g_val m = 1) (w_hist w a);
    g_pc : forall t p, nth_error (c_threads (w_s w)) t = Some p -> quiet p
  }.

  (** What a step does to counts. *)
  Definition fate (s s' : cstate) (t : nat) (e : ev D) : Prop := forall a n', look (c_mem s') a = Some n' ->
    (exists n, look (c_mem s) a = Some n /\ (n_cnt n' = n_cnt n /\ atomic o s t e <> ASub a /\ allocates s t e <> Some a \/ n_cnt n' = 0)) \/
    allocates s t e = Some a /\ n_cnt n' = 1 /\ atomic o s t e = ANone.

  Lemma slot_refers : forall (s : cstate) h fr a, slot s h fr = Some a -> exists l, refers s a l.
  Proof.
    intros s h [|[p i] fr] a H; cbn [slot] in H.
    - exists (LRoot h). cbn [refers]. unfold root. exact H.
    - destruct (look (c_mem s) p) as [n|] eqn:L; [|discriminate]. exists (LKid p). cbn [refers]. exists n. split; [exact L|eapply nth_error_In; exact H].
  Qed.

  Lemma fate_same : forall (s s' : cstate) t e, c_mem s' = c_mem s -> allocates s t e = None -> (forall a, atomic o s t e <> ASub a) -> fate s s' t e.
  Proof. intros s s' t e E A S0 a n' L. left. exists n'. rewrite E in L. split; [exact L|]. left. rewrite A. repeat split; auto; discriminate. Qed.
  Lemma fate_put : forall (s s' : cstate) t e b n nb, c_mem s' = put (c_mem s) b nb -> look (c_mem s) b = Some n -> n_cnt nb = n_cnt n -> allocates s t e = None -> (forall a, atomic o s t e <> ASub a) -> fate s s' t e.
  Proof.
    intros s s' t e b n nb E LB C A S0 a n' L. left. rewrite E, (look_put _ _ _ _ _ LB) in L. destruct (Nat.eqb_spec a b) as [->|NE].
    - injection L as <-. exists n. split; [exact LB|]. left. rewrite A. repeat split; auto; discriminate.
    - exists n'. split; [exact L|]. left. rewrite A. repeat split; auto; discriminate.
  Qed.

  Lemma alloc_free : forall (m : heap D) a n m', alloc m a n = Some m' -> look m a = None.
  Proof.
    intros m a n m' H. unfold alloc in H. unfold look. destruct (Nat.eqb_spec a (length m)) as [->|NE]; [destruct (nth_error m (length m)) as [x|] eqn:N; [apply nth_error_lt in N; lia|reflexivity]|].
    destruct (nth_error m a) as [[x|]|]; try discriminate; reflexivity.
  Qed.
  Lemma put_alloc : forall (m : heap D) a n m' b k, alloc m a n = Some m' -> look m b = Some k -> look m' b = Some k.
  Proof. intros m a n m' b k A L. rewrite (look_alloc _ _ _ _ _ A). destruct (Nat.eqb_spec b a) as [->|NE]; [rewrite (alloc_free _ _ _ _ A) in L; discriminate|exact L]. Qed.
  Lemma put_look : forall (m : heap D) b n nb a k, look m b = Some n -> n_cnt nb = n_cnt n -> look (put m b nb) a = Some k -> exists k0, look m a = Some k0 /\ n_cnt k = n_cnt k0.
  Proof. intros m b n nb a k L C H. rewrite (look_put _ _ _ _ _ L) in H. destruct (Nat.eqb_spec a b) as [->|NE]; [injection H as <-; eauto|eauto]. Qed.
  Lemma look_put_some : forall (m : heap D) b n nb a k, look m b = Some n -> look m a = Some k -> n_cnt nb = n_cnt n -> exists k', look (put m b nb) a = Some k' /\ n_cnt k' = n_cnt k.
  Proof. intros m b n nb a k L A C. rewrite (look_put _ _ _ _ _ L). destruct (Nat.eqb_spec a b) as [->|NE]; [|eauto]. rewrite L in A. injection A as <-. eauto. Qed.

  (** The memory after a step has the nodes it had, with the same counts. *)
  Definition keeps (m m' : heap D) : Prop := forall a n', look m' a = Some n' -> exists n, look m a = Some n /\ n_cnt n' = n_cnt n.
  Definition adds (m m' : heap D) (b : addr) : Prop := look m b = None /\ forall a n', look m' a = Some n' -> (exists n, look m a = Some n /\ n_cnt n' = n_cnt n) \/ a = b /\ n_cnt n' = 1.
  Lemma keeps_refl : forall m, keeps m m.
  Proof. intros m a n' L. eauto. Qed.
  Lemma keeps_put : forall m b n nb, look m b = Some n -> n_cnt nb = n_cnt n -> keeps m (put m b nb).
  Proof. intros m b n nb L C a n' H. eapply put_look; eauto. Qed.
  Lemma keeps_put2 : forall m b n nb c k kc, look m b = Some n -> look m c = Some k -> n_cnt nb = n_cnt n -> n_cnt kc = n_cnt k -> keeps m (put (put m b nb) c kc).
  Proof.
    intros m b n nb c k kc L L' C C' a n' H. destruct (look_put_some _ _ _ nb _ _ L L' C) as (k' & E & CK). destruct (put_look _ _ _ kc _ _ E ltac:(congruence) H) as (k0 & E0 & C0).
    destruct (put_look _ _ _ nb _ _ L C E0) as (k1 & E1 & C1). exists k1. split; [exact E1|congruence].
  Qed.
  Lemma adds_alloc : forall m b n m', alloc m b n = Some m' -> n_cnt n = 1 -> adds m m' b.
  Proof. intros m b n m' A C. split; [eapply alloc_free; exact A|]. intros a n' L. rewrite (look_alloc _ _ _ _ _ A) in L. destruct (Nat.eqb_spec a b) as [->|NE]; [injection L as <-; auto|eauto]. Qed.
  Lemma adds_put : forall m b m' c k kc, adds m m' b -> look m' c = Some k -> n_cnt kc = n_cnt k -> adds m (put m' c kc) b.
  Proof. intros m b m' c k kc [A B] L C. split; [exact A|]. intros a n' H. destruct (put_look _ _ _ _ _ _ L C H) as (k0 & E & CK). destruct (B _ _ E) as [(n & N & Q)|[-> Q]]; [left; exists n; split; [exact N|congruence]|right; split; [reflexivity|congruence]]. Qed.
  Lemma adds_keeps : forall m m1 m' b, keeps m m1 -> adds m1 m' b -> look m b = None -> adds m m' b.
  Proof. intros m m1 m' b K [A B] N. split; [exact N|]. intros a n' H. destruct (B _ _ H) as [(n & L & Q)|?]; auto. destruct (K _ _ L) as (n0 & L0 & Q0). left. exists n0. split; [exact L0|congruence]. Qed.

  Lemma fate_keeps : forall (s s' : cstate) t e, keeps (c_mem s) (c_mem s') -> allocates s t e = None -> (forall a, atomic o s t e <> ASub a) -> fate s s' t e.
  Proof. intros s s' t e K A S0 a n' L. left. destruct (K _ _ L) as (n & N & C). exists n. split; [exact N|]. left. rewrite A. repeat split; auto; discriminate. Qed.
  Lemma fate_adds : forall (s s' : cstate) t e b, adds (c_mem s) (c_mem s') b -> allocates s t e = Some b -> atomic o s t e = ANone -> fate s s' t e.
  Proof.
    intros s s' t e b [F K] A S0 a n' L. destruct (K _ _ L) as [(n & N & C)|[-> C]]; [|right; auto].
    left. exists n. split; [exact N|]. left. rewrite S0, A. repeat split; auto; try discriminate. intros Z. injection Z as ->. congruence.
  Qed.

  Ltac peel H := repeat match type of H with
    | Bad = _ => discriminate H | Blocked = _ => discriminate H
    | context [match look ?m ?a with _ => _ end] => let E := fresh "L" in destruct (look m a) eqn:E
    | context [match alloc ?m ?a ?n with _ => _ end] => let E := fresh "A" in destruct (alloc m a n) eqn:E
    | context [match work_step ?m ?w with _ => _ end] => let E := fresh "W" in destruct (work_step m w) as [[? ?]|] eqn:E
    | context [match ?x with _ => _ end] => destruct x
    end.
  Ltac thr := let u := fresh "u" in let z := fresh "z" in let N := fresh "N" in let NE := fresh "NE" in intros u z N; cbn [go hand mem c_threads] in N; first [left; exact N|
    match type of N with nth_error (replace_at ?t ?p ?l) u = _ => destruct (Nat.eq_dec u t) as [->|NE]; [rewrite replace_nth_same in N by assumption; injection N as <-; right; exact Logic.I|rewrite replace_nth_other in N by auto; left; exact N] end].

  Lemma vstep_single : forall (s : cstate) t e v s' b p, nth_error (c_threads s) t = Some p -> quiet p -> uncl e -> (forall a n, look (c_mem s) a = Some n -> n_cnt n <= 1) ->
    (match p, e with PEns _ _ ELoad, VStep _ => v = 1 | _, _ => True end) -> vstep s t e v = Next s' b ->
    fate s s' t e /\ (forall u z, nth_error (c_threads s') u = Some z -> nth_error (c_threads s) u = Some z \/ quiet z) /\ used (c_mem s') <= used (c_mem s) + grows e.
  Proof.
    intros s t e v s' b p NP QP UE LE V1 H. pose proof (nth_error_lt _ _ _ NP) as LT. unfold vstep in H. rewrite NP in H.
    destruct p as [|h is x|ws|h fr en|h fr x fl old].
    - assert (H' : cstep s t e = Next s' b) by (destruct e; try exact H; discriminate). clear H. unfold cstep in H'. rewrite NP in H'.
      destruct e; try discriminate; try contradiction; peel H'; try discriminate; injection H' as <- <-.
      all: try (split; [apply fate_same; [reflexivity|unfold allocates; rewrite NP; reflexivity|unfold atomic; rewrite NP; intros; discriminate]|split; [thr|cbn [c_mem mem hand go]; lia]]; fail).
      split; [eapply fate_adds; [eapply adds_alloc; [eassumption|reflexivity]|unfold allocates; rewrite NP; reflexivity|unfold atomic; rewrite NP; reflexivity]|split; [thr|cbn [c_mem mem hand go grows]; erewrite used_alloc by eassumption; lia]].
    - assert (H' : cstep s t e = Next s' b) by (destruct e; try exact H; discriminate). clear H. unfold cstep in H'. rewrite NP in H'.
      destruct e; try discriminate; peel H'; try discriminate; injection H' as <- <-.
      all: split; [apply fate_same; [reflexivity|unfold allocates; rewrite NP; reflexivity|unfold atomic; rewrite NP; intros; discriminate]|split; [thr|cbn [c_mem mem hand go]; lia]].
    - assert (H' : cstep s t e = Next s' b) by (destruct e; try exact H; discriminate). clear H. unfold cstep in H'. rewrite NP in H'.
      destruct e; try discriminate. destruct ws as [|w ws].
      + injection H' as <- <-. split; [apply fate_same; [reflexivity|unfold allocates; rewrite NP; reflexivity|unfold atomic; rewrite NP; intros; discriminate]|split; [thr|cbn [c_mem mem hand go]; lia]].
      + destruct (work_step (c_mem s) w) as [[m ws']|] eqn:WS; [|discriminate]. injection H' as <- <-. split; [|split; [thr|cbn [c_mem mem go]; apply used_work in WS; lia]].
        intros a0 n' L. cbn [c_mem mem go] in L. left. destruct w as [d|d]; cbn [work_step] in WS; destruct (look (c_mem s) d) as [n|] eqn:LD; try discriminate.
        * pose proof (LE _ _ LD). destruct (n_cnt n) as [|[|c]] eqn:CN; try discriminate; [|lia]. injection WS as <- <-. rewrite (look_put _ _ _ _ _ LD) in L. destruct (Nat.eqb_spec a0 d) as [->|NE].
          -- injection L as <-. exists n. split; [exact LD|]. right. reflexivity.
          -- exists n'. split; [exact L|]. left. unfold atomic, allocates. rewrite NP. repeat split; congruence.
        * injection WS as <- <-. rewrite (look_free _ _ _ _ LD) in L. destruct (a0 =? d); [discriminate|]. exists n'. split; [exact L|]. left. unfold atomic, allocates. rewrite NP. repeat split; congruence.
    - destruct en as [|d0 q0 done|z ws|z]; try contradiction.
      + destruct e; try (assert (H' : cstep s t e = Next s' b) by exact H); try (unfold cstep in H; rewrite NP in H); try discriminate H.
        * rewrite V1 in H. change (1 =? 1) with true in H. cbv iota in H. peel H; try discriminate. injection H as <- <-.
          split; [apply fate_same; [reflexivity|unfold allocates; rewrite NP; reflexivity|]|split; [thr|cbn [c_mem mem hand go]; lia]].
          unfold atomic; rewrite NP; intros; destruct (slot s h fr); discriminate.
        * injection H as <- <-. split; [apply fate_same; [reflexivity|unfold allocates; rewrite NP; reflexivity|unfold atomic; rewrite NP; intros; discriminate]|split; [thr|cbn [c_mem mem hand go]; lia]].
      + destruct e; try (unfold cstep in H; rewrite NP in H); try discriminate H. cbn [ens_step] in H. peel H; try discriminate. injection H as <- <-.
        split; [eapply fate_keeps; [eapply keeps_put; [eassumption|reflexivity]|unfold allocates; rewrite NP; reflexivity|unfold atomic; rewrite NP; intros; discriminate]|split; [thr|cbn [c_mem mem hand go]; erewrite used_put by eassumption; lia]].
    - destruct e; try discriminate H; try (unfold cstep in H; rewrite NP in H; unfold at_step in H).
      all: peel H; try discriminate; injection H as <- <-.
      all: try (split; [eapply fate_keeps; [first [apply keeps_refl|eapply keeps_put; [eassumption|reflexivity]|eapply keeps_put2; [eassumption|eassumption|reflexivity|reflexivity]]|unfold allocates; rewrite NP; reflexivity
                 |unfold atomic; rewrite NP; intros; try discriminate; try (destruct (fix_kid _ _ _ _ _); discriminate)]
               |split; [thr|cbn [c_mem mem hand go grows]; first [lia|erewrite used_put by eassumption; lia|erewrite used_put2 by eassumption; lia]]]; fail).
      + split; [eapply fate_adds; [eapply adds_put; [eapply adds_alloc; [eassumption|reflexivity]|eapply put_alloc; eassumption|reflexivity]|unfold allocates; rewrite NP; reflexivity|unfold atomic; rewrite NP; reflexivity]|].
        split; [thr|cbn [c_mem mem hand go grows]; erewrite used_put_alloc by eassumption; lia].
      + split; [eapply fate_adds; [eapply adds_keeps; [|eapply adds_alloc; [eassumption|reflexivity]|]; [eapply keeps_put2; [eassumption|eassumption|reflexivity|reflexivity]|]|unfold allocates; rewrite NP; reflexivity|unfold atomic; rewrite NP; reflexivity]|].
        * match goal with A : alloc _ _ _ = _ |- _ => apply alloc_free in A; rename A into AF end. match goal with |- look ?m ?a = None => destruct (look m a) as [k|] eqn:LK; [exfalso|reflexivity] end.
          match goal with L1 : look (c_mem s) x = Some ?c1, L2 : look (c_mem s) ?y = Some ?c2, AF : look (put (put _ x ?n1) ?y ?n2) _ = None |- _ =>
            destruct (look_put_some _ _ _ n1 _ _ L1 LK eq_refl) as (k1 & E1 & _); destruct (look_put_some _ _ _ n1 _ _ L1 L2 eq_refl) as (k2 & E2 & C2); rewrite (look_put _ _ _ _ _ E2) in AF; destruct (_ =? _); congruence end.
        * split; [thr|cbn [c_mem mem hand go grows]; erewrite used_alloc by eassumption; erewrite used_put2 by eassumption; lia].
  Qed.

  Lemma wstep_single : forall (w w' : wstate) t e j b, winv o w -> single w -> uncl e -> wstep o w t e j = WNext w' b -> single w' /\ used (c_mem (w_s w')) <= used (c_mem (w_s w)) + grows e.
  Proof.
    intros w w' t e j b W [GC GH GP] UE H. unfold wstep in H. cbv zeta in H. destruct (reads_count o w (w_k w t ++ joins w t e) (atomic o (w_s w) t e) j) as [[v g]|] eqn:R; [|discriminate].
    destruct (vstep (w_s w) t e v) as [| |s' b'] eqn:VS; try discriminate. injection H as <- <-. cbn [w_s].
    destruct (nth_error (c_threads (w_s w)) t) as [p|] eqn:NP; [|unfold vstep in VS; rewrite NP in VS; unfold cstep in VS; rewrite NP in VS; destruct e; discriminate].
    assert (V1 : match p, e with PEns _ _ ELoad, VStep _ => v = 1 | _, _ => True end).
    { destruct p as [|h is x|ws|h fr en|h fr x fl old]; try exact Logic.I. destruct en; try exact Logic.I. destruct e; try exact Logic.I. unfold vstep in VS. rewrite NP in VS.
      unfold atomic in R. rewrite NP in R. destruct (slot (w_s w) h fr) as [z|] eqn:SL; [|discriminate]. destruct (look (c_mem (w_s w)) z) as [n|] eqn:L; [|discriminate].
      destruct (slot_refers _ _ _ _ SL) as (l & RF). destruct (refers_live _ _ _ (v_inv _ _ W) RF) as (n0 & L0 & C0). rewrite L in L0. injection L0 as <-. pose proof (GC _ _ L) as C1.
      pose proof (GH _ _ L ltac:(lia)) as F. cbn [oload reads_count] in R. destruct (nth_error (w_hist w z) j) as [m|] eqn:NM; [|discriminate]. destruct (existsb _ _); [discriminate|]. injection R as <- _.
      rewrite Forall_forall in F. apply F. eapply nth_error_In; exact NM. }
    destruct (vstep_single _ _ _ _ _ _ _ NP (GP _ _ NP) UE GC V1 VS) as (FA & TH & US). split; [|exact US].
    assert (NA : forall a, atomic o (w_s w) t e <> AAdd a).
    { pose proof (GP _ _ NP) as QP. intros a Z. unfold atomic in Z. rewrite NP in Z. destruct p as [|h is x|ws|h fr en|h fr x fl old]; try (destruct e; discriminate || contradiction).
      - destruct ws as [|[d|d] ws]; destruct e; discriminate.
      - destruct en; try contradiction; destruct e; try discriminate. destruct (slot (w_s w) h fr); discriminate.
      - destruct e; try discriminate. destruct (fix_kid _ _ _ _ _); discriminate. }
    constructor; cbn [w_s w_hist].
    - intros a n L. destruct (FA _ _ L) as [(n0 & L0 & [[C _]|C])|[_ [C _]]]; [rewrite C; eapply GC; exact L0|lia|lia].
    - intros a n L C1. unfold hist'. destruct (FA _ _ L) as [(n0 & L0 & [(C & NS & AL)|C])|(AL & _ & AN)]; [|lia|].
      + pose proof (GH _ _ L0 ltac:(lia)) as F. destruct (atomic o (w_s w) t e) as [|z r|z|z] eqn:AT; try (exfalso; exact (NA _ eq_refl)).
        * destruct (allocates (w_s w) t e) as [z|]; [|exact F]. unfold upd. destruct (Nat.eqb_spec a z) as [->|NE]; [congruence|exact F].
        * destruct (allocates (w_s w) t e) as [y|]; [|exact F]. unfold upd. destruct (Nat.eqb_spec a y) as [->|NE]; [congruence|exact F].
        * unfold upd. destruct (Nat.eqb_spec a z) as [->|NE]; [congruence|exact F].
      + rewrite AN, AL. unfold upd. rewrite Nat.eqb_refl. constructor; [reflexivity|constructor].
    - intros u z N. destruct (TH _ _ N) as [N0|Q]; [eapply GP; exact N0|exact Q].
  Qed.
End W.

Section Q.
  Context {I V : Type} (X : index_ops I) (Y : slice_ops I V) (M : nat) (HM : 1 <= M).
  Notation D := (@ndata I V).
  Notation wclient := (@wclient I V).
  Notation act := (@act I V).

  Definition grown (es : list (ev D)) : nat := fold_right plus 0 (map grows es).
  Lemma grown_app : forall es es', grown (es ++ es') = grown es + grown es'.
  Proof. induction es as [|e es IH]; intros es'; [reflexivity|]. unfold grown in *. cbn [app map fold_right]. rewrite IH. lia. Qed.
  Lemma grown_needs : forall es, grown es + childs es <= needs es.
  Proof.
    induction es as [|e es IH]; [cbn; lia|]. change (e :: es) with ([e] ++ es). rewrite grown_app, childs_app, needs_app.
    assert (grown [e] + childs [e] <= needs [e]) by (destruct e; cbn; lia). lia.
  Qed.

  Lemma steps_growth : forall ts c e es, steps_of X Y M ts c = Some (e, es) -> grows e + grown es <= growth X Y M ts c.
  Proof.
    intros ts c e es H. destruct c as [|nop j hints idx slice size|j|j]; cbn [steps_of growth] in *; try (injection H as <- <-; cbn; lia).
    destruct (nth_error ts j) as [[r|]|]; try discriminate. destruct (insert_with_cursor _ _ _ _ _ _ _ _ _) as [[r' cur]| |] eqn:Hi; try discriminate. destruct (insert_plan _ _ _ _ _ _) as [pl| |] eqn:Hp; try discriminate.
    destruct (find_path _ _ _ _ _) as [fp| |] eqn:Hf; try discriminate. destruct r as [r0|].
    - destruct (program_run X Y M HM _ _ _ _ _ _ _ _ _ _ j Hi Hp Hf) as (b & r1 & -> & P & RUN). pose proof (lrun_nodes _ _ _ _ _ _ _ _ _ RUN) as N. rewrite !tot_nil in N.
      rewrite P in H. injection H as <- <-. rewrite grown_app. change (grown [VEnd]) with 0. cbn [grows]. pose proof (grown_needs b). cbn [rle_nodes]. lia.
    - cbn [program] in H. destruct r' as [r1|]; [|discriminate]. injection H as <- <-. cbn [grown grows map fold_right rle_nodes]. pose proof (nodes_eq (rose_of (r_height r1) (r_node r1))). lia.
  Qed.

  Lemma level_uncl : forall c kids news, Forall uncl (level M c kids news : list (ev D)).
  Proof. intros c kids news. unfold level. destruct kids as [|k [|k' kids]]; destruct news as [|l [|r [|r' news]]]; try (repeat constructor; fail); destruct (c =? M); try (destruct (M <? c)); repeat constructor. Qed.
  Lemma ups_uncl : forall q r news, Forall uncl (ups M q r news : list (ev D)).
  Proof.
    induction q as [|c q IH]; intros r news; cbn [ups].
    - destruct news as [|l [|n [|n' news]]]; repeat constructor.
    - destruct (nth_error (rkids r) c) as [k|]; [|constructor]. apply Forall_app. split; [apply IH|]. constructor; [exact Logic.I|apply level_uncl].
  Qed.
  Lemma program_uncl : forall j q r r', Forall uncl (program M j q r r' : list (ev D)).
  Proof.
    intros j q r r'. unfold program. destruct r as [r|], r' as [r'|]; try (repeat constructor; fail). cbv zeta. constructor; [exact Logic.I|].
    apply Forall_app. split; [apply Forall_forall; intros e IN; apply in_map_iff in IN; destruct IN as (i & <- & _); exact Logic.I|]. apply Forall_app. split; [|repeat constructor].
    destruct (_ =? _); [apply ups_uncl|]. apply Forall_app. split; [apply ups_uncl|repeat constructor].
  Qed.
  Lemma steps_uncl : forall ts c e es, clones c = false -> steps_of X Y M ts c = Some (e, es) -> uncl e /\ Forall uncl es.
  Proof.
    intros ts c e es NC H. destruct c as [|nop j hints idx slice size|j|j]; cbn [steps_of] in H; try discriminate; try (injection H as <- <-; repeat constructor; fail).
    destruct (nth_error ts j) as [[r|]|]; try discriminate. destruct (insert_with_cursor _ _ _ _ _ _ _ _ _) as [[r' cur]| |]; try discriminate. destruct (insert_plan _ _ _ _ _ _) as [pl| |]; try discriminate.
    destruct (find_path _ _ _ _ _) as [fp| |]; try discriminate. pose proof (program_uncl j (way pl fp) r r') as F. destruct (program M j (way pl fp) r r'); [discriminate|]. injection H as <- <-. inversion F; auto.
  Qed.

  Definition qsing (q : wclient) : Prop := single (q_w q) /\ Forall (Forall uncl) (q_todo q).
  Definition gpot (q : wclient) (t : nat) : nat := grown (nth t (q_todo q) []).
  Definition gives (q : wclient) (x : act) : nat := match x with KCall _ c _ => growth X Y M (q_trees q) c | _ => 0 end.
  Definition cloning (x : act) : bool := match x with KCall _ c _ => clones c | _ => false end.

  Lemma uncl_placed : forall a (e : ev D), uncl e -> uncl (placed a e).
  Proof. intros a e H. destruct e; exact H. Qed.
  Lemma grows_placed : forall a (e : ev D), grows (placed a e) = grows e.
  Proof. intros a e. destruct e; reflexivity. Qed.

  Lemma qmachine_single : forall q t e j w, qinv q -> qsing q -> uncl e -> qmachine q t e j = Some w -> single w /\ used (c_mem (w_s w)) <= used (c_mem (w_s (q_w q))) + grows e.
  Proof.
    intros q t e j w [W _] [G _] U H. unfold qmachine in H. destruct (wstep code_ords (q_w q) t e j) as [| |w' b] eqn:E; try discriminate. injection H as <-. eapply wstep_single; eauto.
  Qed.

  Lemma qstep_growth : forall q x j q', qinv q -> qsing q -> cloning x = false -> qstep X Y M q x j = Some q' ->
    qsing q' /\ (used (c_mem (w_s (q_w q'))) - used (c_mem (w_s (q_w q)))) + gpot q' (who x) <= gpot q (who x) + gives q x /\
    forall t, t <> who x -> gpot q' t = gpot q t.
  Proof.
    intros q x j q' Q G NC H. pose proof G as [_ F].
    assert (ON : forall t e, uncl e -> grows e = 0 -> qonly q t e j = Some q' -> qsing q' /\ (used (c_mem (w_s (q_w q'))) - used (c_mem (w_s (q_w q)))) + gpot q' t <= gpot q t + 0 /\ forall u, u <> t -> gpot q' u = gpot q u).
    { intros t e U Z E. unfold qonly in E. destruct (qmachine q t e j) as [w|] eqn:EM; [|discriminate]. injection E as <-. destruct (qmachine_single _ _ _ _ _ Q G U EM) as [S0 B].
      split; [split; [exact S0|exact F]|]. unfold gpot. cbn [q_w q_todo]. split; [lia|reflexivity]. }
    assert (TODO : forall t es l, nth_error (q_todo q) t = Some l -> nth t (replace_at t es (q_todo q)) [] = es).
    { intros t es l N. apply nth_some. apply replace_nth_same. eapply nth_error_lt; exact N. }
    assert (OTH : forall t u es, u <> t -> nth u (replace_at t es (q_todo q)) [] = nth u (q_todo q) []).
    { intros t u es NE. destruct (nth_error (q_todo q) u) as [z|] eqn:N.
      - rewrite (nth_some _ _ _ [] N). apply nth_some. rewrite replace_nth_other by auto. exact N.
      - rewrite !nth_overflow; [reflexivity|apply nth_error_None; exact N|apply nth_error_None; rewrite replace_nth_other by auto; exact N]. }
    destruct x as [t c a|t a|t a|t|t tg i|t h|t i|t]; cbn [qstep who gives cloning] in *; try (eapply ON; [| |exact H]; [exact Logic.I|reflexivity]); try discriminate.
    - destruct (nth_error (q_todo q) t) as [[|]|] eqn:NT; try discriminate. destruct (steps_of X Y M (q_trees q) c) as [[e es]|] eqn:ST; try discriminate.
      destruct (seq1 X Y M (q_trees q) c) as [ts|] eqn:SQ; try discriminate. destruct (qmachine q t (placed a e) j) as [w|] eqn:EM; [|discriminate]. injection H as <-.
      destruct (steps_uncl _ _ _ _ NC ST) as [Ue Ues]. destruct (qmachine_single _ _ _ _ _ Q G (uncl_placed a _ Ue) EM) as [S0 B]. rewrite grows_placed in B. pose proof (steps_growth _ _ _ _ ST).
      split; [split; [exact S0|cbn [q_todo]; apply forall_replace; auto]|]. unfold gpot. cbn [q_w q_todo]. split; [|intros u NE; rewrite OTH by auto; reflexivity].
      rewrite (TODO _ es _ NT), (nth_some _ _ _ [] NT). change (grown []) with 0. lia.
    - destruct (nth_error (q_todo q) t) as [[|e es]|] eqn:NT; try discriminate. destruct (qmachine q t (placed a e) j) as [w|] eqn:EM; [|discriminate]. injection H as <-.
      assert (P : Forall uncl (e :: es)) by (rewrite Forall_forall in F; apply F; eapply nth_error_In; exact NT). inversion P as [|? ? Pe Pes]; subst.
      destruct (qmachine_single _ _ _ _ _ Q G (uncl_placed a _ Pe) EM) as [S0 B]. rewrite grows_placed in B.
      split; [split; [exact S0|cbn [q_todo]; apply forall_replace; auto]|]. unfold gpot. cbn [q_w q_todo]. split; [|intros u NE; rewrite OTH by auto; reflexivity].
      rewrite (TODO _ es _ NT), (nth_some _ _ _ [] NT). change (grown (e :: es)) with (grows e + grown es). lia.
  Qed.

  Lemma qstart_sing : forall n, qsing (qstart n).
  Proof.
    intros n. split.
    - constructor; cbn [qstart q_w wstart w_s start c_mem c_threads].
      + intros a k L. unfold look in L. destruct a; discriminate.
      + intros a k L. unfold look in L. destruct a; discriminate.
      + intros t p N. apply nth_error_In in N. apply repeat_spec in N. subst. exact Logic.I.
    - cbn. induction n; constructor; auto.
  Qed.

  Lemma qrun_sing : forall xs q q', qinv q -> qsing q -> existsb cloning (map fst xs) = false -> qrun X Y M q xs = Some q' -> qinv q' /\ qsing q'.
  Proof.
    induction xs as [|[x j] xs IH]; intros q q' Q G NC H; cbn [qrun] in H; [injection H as <-; auto|].
    destruct (qstep X Y M q x j) as [q1|] eqn:E; [|discriminate]. cbn [map fst existsb] in NC. apply orb_false_iff in NC. destruct NC as [NC1 NC].
    destruct (qstep_sim X Y M _ _ _ _ Q E) as (Q1 & _). destruct (qstep_growth _ _ _ _ Q G NC1 E) as (G1 & _). eauto.
  Qed.

  Lemma made_growth : forall ys q q' t, qinv q -> qsing q -> existsb cloning (map fst ys) = false -> qrun X Y M q ys = Some q' -> existsb (begins t) (map fst ys) = false ->
    made X Y M t q ys + gpot q' t <= gpot q t.
  Proof.
    induction ys as [|[x j] ys IH]; intros q q' t Q G NC H NB; cbn [qrun made] in *; [injection H as <-; lia|].
    destruct (qstep X Y M q x j) as [q1|] eqn:E; [|discriminate]. cbn [map fst existsb] in NC, NB. apply orb_false_iff in NC. destruct NC as [NC1 NC]. apply orb_false_iff in NB. destruct NB as [NB1 NB].
    destruct (qstep_sim X Y M _ _ _ _ Q E) as (Q1 & _). destruct (qstep_growth _ _ _ _ Q G NC1 E) as (G1 & B & OT). specialize (IH _ _ _ Q1 G1 NC H NB).
    destruct (Nat.eqb_spec (who x) t) as [<-|NE].
    - assert (Z : gives q x = 0) by (destruct x as [u c a|u a|u a|u|u tg i|u h|u i|u]; try reflexivity; cbn [begins who] in NB1; rewrite Nat.eqb_refl in NB1; discriminate). lia.
    - rewrite OT in IH by auto. lia.
  Qed.

  Lemma cloning_calls : forall xs : list act, existsb cloning xs = existsb clones (calls xs).
  Proof. induction xs as [|x xs IH]; [reflexivity|]. destruct x; cbn [existsb cloning]; unfold calls in *; cbn [flat_map app existsb]; rewrite IH; reflexivity. Qed.
End Q.
