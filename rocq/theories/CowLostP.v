(** Proofs about clients some of whose trees are given up (CowLost.v): the other trees are not affected. *)
From Coq Require Import List Arith Bool Lia.
From Verif Require Import Base ListFacts Index Slice Tree Insert LInsert LCow Cow CowSpec CowP CowT CowU CowV CowPropsP Weak WeakR WeakS WeakX CowCall CowCallP CowCallQ CowCallR CowCallS CowCallWeak CowCallWeakP WeakPropsP CowLost.
Import ListNotations.

Section G.
  Context {D : Type}.

  Lemma snoc_ne : forall {A} (l : list A) x h, h <> length l -> nth_error (l ++ [x]) h = nth_error l h.
  Proof.
    intros A l x h N. destruct (lt_dec h (length l)) as [L|L]; [apply nth_error_app1; exact L|]. rewrite (proj2 (nth_error_None l h)) by lia. apply nth_error_None. rewrite app_length. cbn. lia.
  Qed.
  Lemma snoc_end : forall {A} (l : list A) x, nth_error (l ++ [x]) (length l) = Some x.
  Proof. intros A l x. rewrite nth_error_app2, Nat.sub_diag by lia. reflexivity. Qed.

  Lemma change_trees : forall (sp : sstate D) h is f h1, h1 <> h -> nth_error (s_trees (change sp h is f)) h1 = nth_error (s_trees sp) h1.
  Proof. intros sp h is f h1 NE. unfold change. destruct (tree_of sp h); [|reflexivity]. cbn [shand s_trees]. apply replace_nth_other. auto. Qed.
  Lemma change_len : forall (sp : sstate D) h is f, length (s_trees (change sp h is f)) = length (s_trees sp).
  Proof. intros sp h is f. unfold change. destruct (tree_of sp h); [|reflexivity]. cbn [shand s_trees]. apply replace_len. Qed.
  Lemma change_threads : forall (sp : sstate D) h is f, s_threads (change sp h is f) = s_threads sp.
  Proof. intros sp h is f. unfold change. destruct (tree_of sp h); reflexivity. Qed.

  Definition starts (e : ev D) : bool := match e with VEmpty | VNew _ _ _ | VClone _ | VDrop _ | VRead _ | VInsert _ => true | _ => false end.

  (** What a thread that changes tree [h] may do to the trees and to itself. *)
  Lemma inside : forall (sp : sstate D) t e h is fl old, nth_error (s_threads sp) t = Some (SIns h is fl old) -> starts e = false ->
    exists q', (q' = SNone \/ exists is' fl' old', q' = SIns h is' fl' old') /\ s_threads (fst (sstep sp t e)) = replace_at t q' (s_threads sp) /\
      (forall h1, h1 <> h -> nth_error (s_trees (fst (sstep sp t e))) h1 = nth_error (s_trees sp) h1) /\ length (s_trees (fst (sstep sp t e))) = length (s_trees sp).
  Proof.
    intros sp t e h is fl old N ST.
    assert (ID : s_threads sp = replace_at t (SIns h is fl old) (s_threads sp)) by (symmetry; apply replace_id; exact N).
    assert (SAME : exists q', (q' = SNone \/ exists is' fl' old', q' = SIns h is' fl' old') /\ s_threads sp = replace_at t q' (s_threads sp) /\
      (forall h1, h1 <> h -> nth_error (s_trees sp) h1 = nth_error (s_trees sp) h1) /\ length (s_trees sp) = length (s_trees sp)) by (exists (SIns h is fl old); eauto 10).
    assert (GO : forall q', (q' = SNone \/ exists is' fl' old', q' = SIns h is' fl' old') -> exists q', (q' = SNone \/ exists is' fl' old', q' = SIns h is' fl' old') /\
      s_threads (sgo sp t q' ) = replace_at t q' (s_threads sp) /\ (forall h1, h1 <> h -> nth_error (s_trees (sgo sp t q')) h1 = nth_error (s_trees sp) h1) /\ length (s_trees (sgo sp t q')) = length (s_trees sp)) by (intros q' Q; exists q'; auto).
    assert (CH : forall is1 f q', (q' = SNone \/ exists is' fl' old', q' = SIns h is' fl' old') -> exists q0, (q0 = SNone \/ exists is' fl' old', q0 = SIns h is' fl' old') /\
      s_threads (sgo (change sp h is1 f) t q') = replace_at t q0 (s_threads sp) /\ (forall h1, h1 <> h -> nth_error (s_trees (sgo (change sp h is1 f) t q')) h1 = nth_error (s_trees sp) h1) /\
      length (s_trees (sgo (change sp h is1 f) t q')) = length (s_trees sp)).
    { intros is1 f q' Q. exists q'. split; [exact Q|]. cbn [sgo s_threads s_trees]. rewrite change_threads, change_len. split; [reflexivity|]. split; [|reflexivity]. intros h1 NE. apply change_trees. exact NE. }
    unfold sstep. rewrite N. destruct e as [|h0 a d|h0|h0|h0|i| |h0|a|i|tg d|mm d d' a|tg k j d|i j|c d|a j d|tg i| | | |]; try discriminate ST; cbn [fst]; try exact SAME.
    all: try (eexists; split; [left; reflexivity|]; cbn [sgo s_threads s_trees]; split; [reflexivity|]; split; [reflexivity|reflexivity]).
    - eexists. split; [right; do 3 eexists; reflexivity|]. cbn [sgo s_threads s_trees]. auto.
    - destruct tg as [|j].
      + exists (SIns h is fl old). cbn [fst]. rewrite change_threads, change_len. split; [right; eauto|]. split; [exact ID|]. split; [|reflexivity]. intros h1 NE. apply change_trees. exact NE.
      + destruct (nth_error fl j); cbn [fst]; [|exact SAME]. eexists. split; [right; do 3 eexists; reflexivity|]. cbn [sgo s_threads s_trees]. auto.
    - destruct (here sp h is); cbn [fst]; [|exact SAME]. apply CH. right. eauto.
    - destruct tg as [|i].
      + destruct (nth_error fl j); cbn [fst]; [|exact SAME]. apply CH. right. eauto.
      + destruct (nth_error fl i); cbn [fst]; [|exact SAME]. destruct (nth_error fl j); cbn [fst]; [|exact SAME]. eexists. split; [right; do 3 eexists; reflexivity|]. cbn [sgo s_threads s_trees]. auto.
    - destruct (nth_error fl i) as [[d [|x ks]]|]; cbn [fst]; try exact SAME. destruct (nth_error fl j); cbn [fst]; [|exact SAME]. eexists. split; [right; do 3 eexists; reflexivity|]. cbn [sgo s_threads s_trees]. auto.
    - destruct (nth_error old c); cbn [fst]; [|exact SAME]. apply CH. right. eauto.
    - destruct (nth_error fl j); cbn [fst]; [|exact SAME]. apply CH. right. eauto.
    - eexists. split; [right; do 3 eexists; reflexivity|]. cbn [sgo s_threads s_trees]. auto.
  Qed.

  (** And a thread that changes none. *)
  Lemma outside : forall (sp : sstate D) t e q, nth_error (s_threads sp) t = Some q -> match q with SIns _ _ _ _ => False | _ => True end -> starts e = false ->
    exists q', match q' with SIns _ _ _ _ => False | _ => True end /\ fst (sstep sp t e) = sgo sp t q'.
  Proof.
    intros sp t e q N Q ST.
    assert (SAME : exists q', match q' with SIns _ _ _ _ => False | _ => True end /\ sp = sgo sp t q').
    { exists q. split; [exact Q|]. unfold sgo. rewrite replace_id by exact N. destruct sp; reflexivity. }
    unfold sstep. rewrite N. destruct q as [|h is|h is fl old]; [| |contradiction].
    all: destruct e as [|h0 a d|h0|h0|h0|i| |h0|a|i|tg d|mm d d' a|tg k j d|i j|c d|a j d|tg i| | | |]; try discriminate ST; cbn [fst]; try exact SAME; try (destruct tg; exact SAME).
    all: eexists; split; [|reflexivity]; exact Logic.I.
  Qed.
End G.

Section L.
  Context {I V : Type} (X : index_ops I) (Y : slice_ops I V) (M : nat).
  Notation D := (@ndata I V).
  Notation client := (@client I V).
  Notation rle := (@rle I V).
  Hypothesis HM : 1 <= M.

  (** [W]: the trees that have been given up. *)
  Definition wgood (W : list nat) (todo : list (list (ev D))) (tr : list (option (option (rose D)))) (ts : list (option rle)) (t : nat) (q : sthread D) : Prop :=
    tgood todo tr ts t q \/ exists h is fl old, q = SIns h is fl old /\ In h W /\ nth_error todo t = Some [].

  Record xinv (W : list nat) (k : client) (sp : sstate D) : Prop := {
    x_inv : inv (k_c k);
    x_rel : rel (k_c k) sp;
    x_thread : forall t q, nth_error (s_threads sp) t = Some q -> wgood W (k_todo k) (s_trees sp) (k_trees k) t q;
    x_tree : forall j, ~ In j W -> (forall t is fl old, nth_error (s_threads sp) t <> Some (SIns j is fl old)) ->
      nth_error (s_trees sp) j = option_map (option_map rle_rose) (nth_error (k_trees k) j);
    x_len : length (s_trees sp) = length (k_trees k);
    x_lost : forall j, In j W -> nth_error (k_trees k) j = Some None
  }.

  Lemma x_some : forall W k sp j x, xinv W k sp -> nth_error (k_trees k) j = Some x -> j < length (s_trees sp).
  Proof. intros W k sp j x K N. rewrite (x_len _ _ _ K). eapply nth_error_lt. exact N. Qed.
  Lemma x_ins : forall W k sp t h is fl old, xinv W k sp -> nth_error (s_threads sp) t = Some (SIns h is fl old) -> h < length (s_trees sp).
  Proof.
    intros W k sp t h is fl old K N. destruct (x_thread _ _ _ K _ _ N) as [(es & R & r & _ & Z & _)|(h' & ? & ? & ? & E & IN & _)]; [eapply nth_error_lt; exact Z|].
    injection E as <- _ _ _. eapply x_some; [exact K|]. eapply x_lost; eauto.
  Qed.

  (** A step of thread [t] that changes nothing but itself and tree [h0]. *)
  Lemma xinv_step : forall W W' k sp t q s' sp' q' es' ts' h0, xinv W k sp -> nth_error (s_threads sp) t = Some q -> inv s' -> rel s' sp' ->
    s_threads sp' = replace_at t q' (s_threads sp) ->
    (forall h, h <> h0 -> nth_error (s_trees sp') h = nth_error (s_trees sp) h /\ nth_error ts' h = nth_error (k_trees k) h) ->
    (forall t' is fl old, t' <> t -> nth_error (s_threads sp) t' <> Some (SIns h0 is fl old)) ->
    match q with SIns h _ _ _ => h = h0 | _ => True end ->
    wgood W' (replace_at t es' (k_todo k)) (s_trees sp') ts' t q' ->
    match q' with SIns h _ _ _ => h = h0 | _ => In h0 W' \/ nth_error (s_trees sp') h0 = option_map (option_map rle_rose) (nth_error ts' h0) end ->
    length (s_trees sp') = length ts' -> (forall j, In j W' -> nth_error ts' j = Some None) -> (forall j, In j W -> In j W') ->
    xinv W' {| k_c := s'; k_todo := replace_at t es' (k_todo k); k_trees := ts' |} sp'.
  Proof.
    intros W W' k sp t q s' sp' q' es' ts' h0 K N I' R' ST OTH EX HQ TG HQ' LEN LO SUB. assert (LT : t < length (s_threads sp)) by (eapply nth_error_lt; exact N).
    constructor; cbn [k_c k_todo k_trees]; auto.
    - intros t1 q1 N1. rewrite ST in N1. destruct (Nat.eq_dec t t1) as [<-|NE].
      + rewrite replace_nth_same in N1 by exact LT. injection N1 as <-. exact TG.
      + rewrite replace_nth_other in N1 by exact NE. destruct (x_thread _ _ _ K _ _ N1) as [G|(h & is & fl & old & -> & IN & NT)].
        * left. unfold tgood in *. rewrite replace_nth_other by exact NE.
          destruct q1 as [|h is|h is fl old]; auto. assert (NH : h <> h0) by (intros ->; eapply (EX t1); eauto).
          destruct (OTH h NH) as [-> ->]. exact G.
        * right. exists h, is, fl, old. rewrite replace_nth_other by exact NE. auto.
    - intros j NI NJ. destruct (Nat.eq_dec j h0) as [->|NE].
      + destruct q' as [|h is|h is fl old]; [destruct HQ' as [?|HQ']; [contradiction|exact HQ']..|]. subst h. exfalso. apply (NJ t is fl old). rewrite ST. apply replace_nth_same. exact LT.
      + destruct (OTH j NE) as [-> ->]. apply (x_tree _ _ _ K); [intros ?; apply NI; auto|]. intros t1 is fl old N1. destruct (Nat.eq_dec t t1) as [<-|NT].
        * rewrite N in N1. injection N1 as ->. congruence.
        * apply (NJ t1 is fl old). rewrite ST, replace_nth_other by exact NT. exact N1.
  Qed.

  Lemma lost_kept : forall W k sp ts' h0, xinv W k sp -> (forall h, h <> h0 -> nth_error ts' h = nth_error (k_trees k) h) -> nth_error (k_trees k) h0 <> Some None ->
    forall j, In j W -> nth_error ts' j = Some None.
  Proof. intros W k sp ts' h0 K E N j IN. pose proof (x_lost _ _ _ K _ IN) as L. rewrite E; [exact L|]. intros ->. contradiction. Qed.

  Lemma xmachine_rel : forall W (k : client) sp t e s', xinv W k sp -> machine k t e = Some s' -> inv s' /\ rel s' (fst (sstep sp t e)).
  Proof.
    intros W k sp t e s' K H. apply machine_next in H. destruct H as [o H]. pose proof (step_good _ t e (x_inv _ _ _ K)) as G. pose proof (step_sim _ _ t e (x_inv _ _ _ K) (x_rel _ _ _ K)) as S.
    rewrite H in G, S. split; [exact G|exact (proj1 S)].
  Qed.

  Lemma xinv_quiet : forall W k sp t e k', xinv W k sp -> only k t e = Some k' -> fst (sstep sp t e) = sp -> xinv W k' sp.
  Proof.
    intros W k sp t e k' K H E. unfold only in H. destruct (machine k t e) as [s'|] eqn:Em; [|discriminate]. injection H as <-.
    destruct (xmachine_rel _ _ _ _ _ _ K Em) as [I' R']. rewrite E in R'. constructor; cbn [k_c k_todo k_trees]; auto; apply K.
  Qed.

  Lemma x_idle : forall W k sp t q, xinv W k sp -> nth_error (s_threads sp) t = Some q -> match q with SIns _ _ _ _ => False | _ => True end -> nth_error (k_todo k) t = Some [].
  Proof. intros W k sp t q K N Q. destruct (x_thread _ _ _ K _ _ N) as [G|(h & is & fl & old & -> & _)]; [|contradiction]. destruct q; [exact G|exact G|contradiction]. Qed.

  Lemma xinv_read : forall W k sp t e k' q', xinv W k sp -> only k t e = Some k' -> (match nth_error (s_threads sp) t with Some (SIns _ _ _ _) | None => False | _ => True end) ->
    match q' with SIns _ _ _ _ => False | _ => True end ->
    fst (sstep sp t e) = sgo sp t q' -> exists sp', xinv W k' sp'.
  Proof.
    intros W k sp t e k' q' K H Q Q' E. unfold only in H. destruct (machine k t e) as [s'|] eqn:Em; [|discriminate]. injection H as <-.
    destruct (xmachine_rel _ _ _ _ _ _ K Em) as [I' R']. rewrite E in R'. destruct (nth_error (s_threads sp) t) as [q|] eqn:N; [|contradiction].
    assert (T : nth_error (k_todo k) t = Some []) by (eapply x_idle; eauto; destruct q; auto).
    exists (sgo sp t q'). rewrite <- (replace_id t [] (k_todo k) T).
    eapply (xinv_step W W k sp t q s' (sgo sp t q') q' [] (k_trees k) (length (s_trees sp))); auto.
    - intros t' is fl old _ N'. apply (x_ins _ _ _ _ _ _ _ _ K) in N'. lia.
    - destruct q; auto; contradiction.
    - left. rewrite (replace_id t [] (k_todo k) T). unfold tgood. destruct q'; auto; contradiction.
    - cbn [s_trees sgo]. rewrite !(proj2 (nth_error_None _ _)) by (rewrite ?(x_len _ _ _ K); lia). destruct q'; auto; contradiction.
    - apply (x_len _ _ _ K).
    - apply (x_lost _ _ _ K).
  Qed.

  Theorem xinv_kstep : forall W k sp x k', xinv W k sp -> kstep X Y M k x = Some k' -> exists sp', xinv W k' sp'.
  Proof.
    intros W k sp x k' K H. destruct x as [t c a|t a|t a|t|t tg i|t j|t i|t]; cbn [kstep] in H.
    - destruct (nth_error (k_todo k) t) as [[|]|] eqn:NT; try discriminate. destruct (steps_of X Y M (k_trees k) c) as [[e es]|] eqn:ES; [|discriminate]. destruct (seq1 X Y M (k_trees k) c) as [ts|] eqn:EQ; [|discriminate].
      destruct (machine k t (placed a e)) as [s'|] eqn:Em; [|discriminate]. injection H as <-. destruct (xmachine_rel _ _ _ _ _ _ K Em) as [I' R'].
      pose proof (machine_next _ _ _ _ Em) as [o Hc]. pose proof (pc_idle _ _ _ _ _ _ (x_rel _ _ _ K) Hc) as PI. pose proof (cstep_free _ _ _ _ _ Hc) as FR. pose proof (seq_steps X Y M HM _ _ _ _ _ ES EQ) as Z.
      pose proof (x_len _ _ _ K) as LEN.
      assert (NTL : nth_error (k_trees k) (length (s_trees sp)) <> Some None) by (rewrite LEN, (proj2 (nth_error_None _ _)) by lia; discriminate).
      assert (ID : forall q : sthread D, nth_error (s_threads sp) t = Some q -> s_threads sp = replace_at t q (s_threads sp)) by (intros q Q; symmetry; apply replace_id; exact Q).
      assert (OUT : forall t' is fl old, t' <> t -> nth_error (s_threads sp) t' <> Some (SIns (length (s_trees sp)) is fl old)).
      { intros t' is fl old _ N'. apply (x_ins _ _ _ _ _ _ _ _ K) in N'. lia. }
      destruct c as [|nop j hints idx slice size|j|j].
      + destruct Z as (-> & -> & ->). cbn [placed sstep fst] in *. exists (add sp (Some None)).
        eapply (xinv_step W W k sp t SNone s' (add sp (Some None)) SNone [] _ (length (s_trees sp))); auto.
        * intros h NE. cbn [add s_trees]. rewrite !snoc_ne by lia. auto.
        * left. unfold tgood. rewrite replace_id by exact NT. exact NT.
        * right. cbn [add s_trees]. rewrite snoc_end, LEN, snoc_end. reflexivity.
        * cbn [add s_trees]. rewrite !app_length, LEN. reflexivity.
        * eapply lost_kept; [exact K| |exact NTL]. intros h NE. rewrite snoc_ne by lia. reflexivity.
      + destruct Z as (r & r1 & NJ & -> & Z). assert (LJ : j < length (s_trees sp)) by (exact (x_some _ _ _ _ _ K NJ)). destruct r as [r0|].
        * destruct Z as (-> & b & -> & RUN). cbn [placed sstep fst] in *. pose proof (unused _ _ _ (x_rel _ _ _ K) FR) as UN.
          assert (TJ : nth_error (s_trees sp) j = Some (Some (Some (rose_of (r_height r0) (r_node r0))))).
          { rewrite (x_tree _ _ _ K), NJ; [reflexivity|intros IN; rewrite (x_lost _ _ _ K _ IN) in NJ; discriminate|]. intros t1 is fl old N1. exact (UN _ _ N1 eq_refl). }
          exists (sgo sp t (SIns j [] [] [])).
          eapply (xinv_step W W k sp t SNone s' _ (SIns j [] [] []) _ _ j); auto.
          -- intros h NE. cbn [sgo s_trees]. rewrite replace_nth_other by auto. auto.
          -- intros t' is fl old _ N'. exact (UN _ _ N' eq_refl).
          -- left. unfold tgood. exists b, (rose_of (r_height r0) (r_node r0)), r1. split; [apply replace_nth_same; eapply nth_error_lt; eauto|]. split; [exact TJ|]. split; [apply replace_nth_same; lia|exact RUN].
          -- cbn [sgo s_trees]. rewrite replace_len. exact LEN.
          -- eapply lost_kept; [exact K| |rewrite NJ; discriminate]. intros h NE. apply replace_nth_other. auto.
        * destruct Z as (-> & -> & RO). cbn [placed sstep fst] in *. pose proof (unused _ _ _ (x_rel _ _ _ K) FR) as UN.
          eexists. eapply (xinv_step W W k sp t SNone s' _ SNone [] _ j); [exact K|exact PI|exact I'|exact R'| | | | | | | | |]; auto.
          -- intros h NE. cbn [shand s_trees]. rewrite !replace_nth_other by auto. auto.
          -- intros t' is fl old _ N'. exact (UN _ _ N' eq_refl).
          -- left. unfold tgood. rewrite replace_id by exact NT. exact NT.
          -- right. cbn [shand s_trees]. rewrite !replace_nth_same by lia. cbn [option_map rle_rose]. rewrite RO. reflexivity.
          -- cbn [shand s_trees]. rewrite !replace_len. exact LEN.
          -- eapply lost_kept; [exact K| |rewrite NJ; discriminate]. intros h NE. apply replace_nth_other. auto.
      + destruct Z as (-> & -> & r & NJ & ->). cbn [placed sstep fst] in *. pose proof (unwritten _ _ _ (x_rel _ _ _ K) FR) as UN.
        assert (TJ : nth_error (s_trees sp) j = Some (Some (rle_rose r))) by (rewrite (x_tree _ _ _ K), NJ; [reflexivity|intros IN; rewrite (x_lost _ _ _ K _ IN) in NJ; discriminate|exact UN]).
        assert (TO : tree_of sp j = rle_rose r) by (unfold tree_of; rewrite TJ; reflexivity). rewrite TO in R'.
        eexists. eapply (xinv_step W W k sp t SNone s' _ SNone [] _ (length (s_trees sp))); [exact K|exact PI|exact I'|exact R'| | | | | | | | |]; auto.
        * intros h NE. cbn [add s_trees]. rewrite !snoc_ne by lia. auto.
        * left. unfold tgood. rewrite replace_id by exact NT. exact NT.
        * right. cbn [add s_trees]. rewrite snoc_end, LEN, snoc_end. reflexivity.
        * cbn [add s_trees]. rewrite !app_length, LEN. reflexivity.
        * eapply lost_kept; [exact K| |exact NTL]. intros h NE. rewrite snoc_ne by lia. reflexivity.
      + destruct Z as (-> & -> & (r & NJ) & ->). cbn [placed sstep fst] in *. pose proof (unused _ _ _ (x_rel _ _ _ K) FR) as UN. assert (LJ : j < length (s_trees sp)) by (exact (x_some _ _ _ _ _ K NJ)).
        eexists. eapply (xinv_step W W k sp t SNone s' _ SNone [] _ j); [exact K|exact PI|exact I'|exact R'| | | | | | | | |]; auto.
        * intros h NE. cbn [shand s_trees]. rewrite !replace_nth_other by auto. auto.
        * intros t' is fl old _ N'. exact (UN _ _ N' eq_refl).
        * left. unfold tgood. rewrite replace_id by exact NT. exact NT.
        * right. cbn [shand s_trees]. rewrite !replace_nth_same by lia. reflexivity.
        * cbn [shand s_trees]. rewrite !replace_len. exact LEN.
        * eapply lost_kept; [exact K| |rewrite NJ; discriminate]. intros h NE. apply replace_nth_other. auto.
    - destruct (nth_error (k_todo k) t) as [[|e es]|] eqn:NT; try discriminate. destruct (machine k t (placed a e)) as [s'|] eqn:Em; [|discriminate]. injection H as <-.
      destruct (xmachine_rel _ _ _ _ _ _ K Em) as [I' R']. pose proof (machine_next _ _ _ _ Em) as [o Hc].
      destruct (nth_error (s_threads sp) t) as [q|] eqn:N.
      2: { exfalso. pose proof (r_threads _ _ (x_rel _ _ _ K) t) as Q. rewrite N in Q. unfold cstep in Hc. destruct (nth_error (c_threads (k_c k)) t); [contradiction|discriminate]. }
      destruct (x_thread _ _ _ K _ _ N) as [G|(h & is & fl & old & _ & _ & G)]; [|rewrite NT in G; discriminate]. destruct q as [|h is|h is fl old]; cbn [tgood] in G; try (rewrite NT in G; discriminate).
      destruct G as (b & R & r & NB & TR & TS & RUN). rewrite NT in NB. injection NB as NB.
      assert (EX : forall t' is' fl' old', t' <> t -> nth_error (s_threads sp) t' <> Some (SIns h is' fl' old')).
      { intros t' is' fl' old' NE N'. apply NE. eapply (one_writer _ _ _ _ _ _ _ _ _ _ _ (x_inv _ _ _ K) (x_rel _ _ _ K)); eauto. }
      destruct b as [|e' b]; cbn [app] in NB; injection NB as -> ->.
      + cbn [lrun] in RUN. injection RUN as -> -> -> ->. cbn [placed] in *. unfold sstep in R'. cbn [fst] in R'.
        eexists. eapply (xinv_step W W k sp t _ s' _ SNone [] _ h); [exact K|exact N|exact I'|exact R'| | | |reflexivity| | |exact (x_len _ _ _ K)|exact (x_lost _ _ _ K)|]; auto.
        * left. unfold tgood. apply replace_nth_same. eapply nth_error_lt; eauto.
        * right. cbn [sgo s_trees]. rewrite TR, TS. reflexivity.
      + cbn [lrun] in RUN. destruct (lstep (R, is, fl, old) e') as [[[[R1 is1] fl1] old1]|] eqn:EL; [|discriminate].
        rewrite (lstep_sstep sp t h is fl old R _ R1 is1 fl1 old1 N TR (placed_same a _ _ _ EL)) in R'.
        eexists. eapply (xinv_step W W k sp t _ s' _ (SIns h is1 fl1 old1) _ _ h); [exact K|exact N|exact I'|exact R'| | | |reflexivity| |reflexivity| |exact (x_lost _ _ _ K)|]; auto.
        * intros h1 NE. cbn [s_trees]. rewrite replace_nth_other by auto. auto.
        * left. unfold tgood. exists b, R1, r. split; [apply replace_nth_same; eapply nth_error_lt; eauto|]. split; [cbn [s_trees]; apply replace_nth_same; eapply nth_error_lt; eauto|]. split; auto.
        * cbn [s_trees]. rewrite replace_len. exact (x_len _ _ _ K).
    - exists sp. eapply xinv_quiet; eauto.
    - exists sp. eapply xinv_quiet; eauto.
    - exists sp. eapply xinv_quiet; eauto.
    - pose proof H as H'. unfold only in H'. destruct (machine k t (VRead j)) as [s'|] eqn:Em; [|discriminate]. pose proof (machine_next _ _ _ _ Em) as [o Hc]. pose proof (pc_idle _ _ _ _ _ _ (x_rel _ _ _ K) Hc) as PI. cbn in PI.
      eapply xinv_read; [exact K|exact H|rewrite PI; exact Logic.I| |reflexivity]. exact Logic.I.
    - pose proof H as H'. unfold only in H'. destruct (machine k t (VDown i)) as [s'|] eqn:Em; [|discriminate]. pose proof (machine_next _ _ _ _ Em) as [o Hc]. pose proof (pc_idle _ _ _ _ _ _ (x_rel _ _ _ K) Hc) as (h & is & PI).
      eapply (xinv_read W k sp t _ k' (SRead h (i :: is))); [exact K|exact H|rewrite PI; exact Logic.I|exact Logic.I|]. unfold sstep. rewrite PI. reflexivity.
    - pose proof H as H'. unfold only in H'. destruct (machine k t VReadEnd) as [s'|] eqn:Em; [|discriminate]. pose proof (machine_next _ _ _ _ Em) as [o Hc]. pose proof (pc_idle _ _ _ _ _ _ (x_rel _ _ _ K) Hc) as (h & is & PI).
      eapply xinv_read; [exact K|exact H|rewrite PI; exact Logic.I| |reflexivity]. exact Logic.I.
  Qed.

  Lemma xinv_krun : forall W xs k sp k', xinv W k sp -> krun X Y M k xs = Some k' -> exists sp', xinv W k' sp'.
  Proof.
    intros W. induction xs as [|x xs IH]; intros k sp k' K H; cbn [krun] in H; [injection H as <-; eauto|].
    destruct (kstep X Y M k x) as [k1|] eqn:E; [|discriminate]. destruct (xinv_kstep _ _ _ _ _ K E) as [sp1 K1]. eauto.
  Qed.

  (** ** Steps on trees that have been given up *)
  Lemma given_in : forall W j, given_up W j = true -> In j W.
  Proof. intros W j H. unfold given_up in H. apply existsb_exists in H. destruct H as (i & IN & E). apply Nat.eqb_eq in E. subst i. exact IN. Qed.

  Lemma xinv_free : forall W k sp t e s', xinv W k sp -> nth_error (k_todo k) t = Some [] -> astray W e = true -> machine k t e = Some s' ->
    exists sp', if makes e then xinv (length (k_trees k) :: W) {| k_c := s'; k_todo := k_todo k; k_trees := k_trees k ++ [None] |} sp'
                else xinv W {| k_c := s'; k_todo := k_todo k; k_trees := k_trees k |} sp'.
  Proof.
    intros W k sp t e s' K NT AS Em. destruct (xmachine_rel _ _ _ _ _ _ K Em) as [I' R']. pose proof (machine_next _ _ _ _ Em) as [o Hc].
    pose proof (pc_idle _ _ _ _ _ _ (x_rel _ _ _ K) Hc) as PI. pose proof (cstep_free _ _ _ _ _ Hc) as FR. pose proof (x_len _ _ _ K) as LEN.
    assert (ON : only k t e = Some {| k_c := s'; k_todo := k_todo k; k_trees := k_trees k |}) by (unfold only; rewrite Em; reflexivity).
    assert (TI : replace_at t [] (k_todo k) = k_todo k) by (apply replace_id; exact NT).
    assert (ID : nth_error (s_threads sp) t = Some SNone -> s_threads sp = replace_at t SNone (s_threads sp)) by (intros Q; symmetry; apply replace_id; exact Q).
    assert (OUT : forall t' is fl old, t' <> t -> nth_error (s_threads sp) t' <> Some (SIns (length (s_trees sp)) is fl old)).
    { intros t' is fl old _ N'. apply (x_ins _ _ _ _ _ _ _ _ K) in N'. lia. }
    assert (LO : forall j, In j (length (k_trees k) :: W) -> nth_error (k_trees k ++ [None]) j = Some None).
    { intros j [<-|IN]; [apply snoc_end|]. pose proof (x_lost _ _ _ K _ IN) as L. rewrite nth_error_app1; [exact L|eapply nth_error_lt; exact L]. }
    assert (NEW : forall r, nth_error (s_threads sp) t = Some SNone -> rel s' (add sp r) ->
      exists sp', xinv (length (k_trees k) :: W) {| k_c := s'; k_todo := k_todo k; k_trees := k_trees k ++ [None] |} sp').
    { intros r N RR. exists (add sp r). rewrite <- TI.
      eapply (xinv_step W _ k sp t SNone s' (add sp r) SNone [] _ (length (s_trees sp))); [exact K|exact N|exact I'|exact RR|exact (ID N)| |exact OUT|exact Logic.I| | | |exact LO|].
      - intros h NE. cbn [add s_trees]. rewrite !snoc_ne by lia. auto.
      - left. rewrite TI. exact NT.
      - left. left. auto.
      - cbn [add s_trees]. rewrite !app_length, LEN. reflexivity.
      - intros j IN. right. exact IN. }
    assert (OLD : forall h r, nth_error (s_threads sp) t = Some SNone -> In h W -> existsb (uses h) (c_threads (k_c k)) = false -> rel s' (shand sp h r) ->
      exists sp', xinv W {| k_c := s'; k_todo := k_todo k; k_trees := k_trees k |} sp').
    { intros h r N IN U RR. exists (shand sp h r). rewrite <- TI. pose proof (unused _ _ _ (x_rel _ _ _ K) U) as UN.
      eapply (xinv_step W W k sp t SNone s' (shand sp h r) SNone [] _ h); [exact K|exact N|exact I'|exact RR|exact (ID N)| | |exact Logic.I| | | |exact (x_lost _ _ _ K)|auto].
      - intros h1 NE. cbn [shand s_trees]. rewrite replace_nth_other by auto. auto.
      - intros t' is fl old _ N'. exact (UN _ _ N' eq_refl).
      - left. rewrite TI. exact NT.
      - left. exact IN.
      - cbn [shand s_trees]. rewrite replace_len. exact LEN. }
    destruct (nth_error (s_threads sp) t) as [q|] eqn:N.
    2: { exfalso. pose proof (r_threads _ _ (x_rel _ _ _ K) t) as Q. rewrite N in Q. unfold cstep in Hc. destruct (nth_error (c_threads (k_c k)) t); [contradiction|discriminate]. }
    destruct (starts e) eqn:ST.
    - destruct e as [|h0 a d|h0|h0|h0|i| |h0|a|i|tg d|mm d d' a|tg kk j d|i j|c d|a j d|tg i| | | |]; try discriminate ST; cbn [makes astray] in *; injection PI as ->; cbn [sstep fst] in R'.
      + apply (NEW (Some None)); auto.
      + eapply OLD; [reflexivity|apply given_in; exact AS|exact FR|exact R'].
      + eapply NEW; [reflexivity|exact R'].
      + eapply OLD; [reflexivity|apply given_in; exact AS|exact FR|exact R'].
      + eapply (xinv_read W k sp t _ _ (SRead h0 [])); [exact K|exact ON|rewrite N; exact Logic.I|exact Logic.I|reflexivity].
      + pose proof (unused _ _ _ (x_rel _ _ _ K) FR) as UN. exists (sgo sp t (SIns h0 [] [] [])). rewrite <- TI. apply given_in in AS.
        eapply (xinv_step W W k sp t SNone s' _ (SIns h0 [] [] []) [] _ h0); [exact K|exact N|exact I'|exact R'|reflexivity|auto| |exact Logic.I| |reflexivity|exact LEN|exact (x_lost _ _ _ K)|auto].
        * intros t' is fl old _ N'. exact (UN _ _ N' eq_refl).
        * right. exists h0, [], [], []. rewrite TI. auto.
    - assert (MK : makes e = false) by (destruct e; try discriminate ST; reflexivity). rewrite MK.
      destruct q as [|h is|h is fl old].
      + destruct (outside sp t e SNone N Logic.I ST) as (q' & Q' & E). eapply (xinv_read W k sp t e _ q'); [exact K|exact ON|rewrite N; exact Logic.I|exact Q'|exact E].
      + destruct (outside sp t e (SRead h is) N Logic.I ST) as (q' & Q' & E). eapply (xinv_read W k sp t e _ q'); [exact K|exact ON|rewrite N; exact Logic.I|exact Q'|exact E].
      + destruct (x_thread _ _ _ K _ _ N) as [(b & R & r & Z & _)|(h' & is' & fl' & old' & E & IN & _)]; [rewrite NT in Z; destruct b; discriminate|]. injection E as <- <- <- <-.
        destruct (inside sp t e h is fl old N ST) as (q' & Q' & E1 & E2 & E3). exists (fst (sstep sp t e)). rewrite <- TI.
        eapply (xinv_step W W k sp t _ s' _ q' [] _ h); [exact K|exact N|exact I'|exact R'|exact E1|auto| |reflexivity| | |rewrite E3; exact LEN|exact (x_lost _ _ _ K)|auto].
        * intros t' is' fl' old' NE N'. apply NE. eapply (one_writer _ _ _ _ _ _ _ _ _ _ _ (x_inv _ _ _ K) (x_rel _ _ _ K)); eauto.
        * rewrite TI. destruct Q' as [->|(is' & fl' & old' & ->)]; [left; exact NT|right; exists h, is', fl', old'; auto].
        * destruct Q' as [->|(is' & fl' & old' & ->)]; [left; exact IN|reflexivity].
  Qed.

  Lemma xinv_lose : forall W k sp i, xinv W k sp -> i < length (k_trees k) -> existsb (writes i) (c_threads (k_c k)) = false ->
    xinv (i :: W) {| k_c := k_c k; k_todo := k_todo k; k_trees := replace_at i None (k_trees k) |} sp.
  Proof.
    intros W k sp i K LI U. pose proof (unwritten _ _ _ (x_rel _ _ _ K) U) as UN. constructor; cbn [k_c k_todo k_trees]; try apply K.
    - intros t q N. destruct (x_thread _ _ _ K _ _ N) as [G|(h & is & fl & old & -> & IN & NT)].
      + left. unfold tgood in *. destruct q as [|h is|h is fl old]; auto. rewrite replace_nth_other; [exact G|]. intros ->. exact (UN _ _ _ _ N).
      + right. exists h, is, fl, old. split; [reflexivity|]. split; [right; exact IN|exact NT].
    - intros j NI NJ. rewrite replace_nth_other by (intros ->; apply NI; left; reflexivity). apply (x_tree _ _ _ K); [intros ?; apply NI; right; assumption|exact NJ].
    - rewrite replace_len. apply (x_len _ _ _ K).
    - intros j [<-|IN]; [apply replace_nth_same; exact LI|]. destruct (Nat.eq_dec i j) as [<-|NE]; [apply replace_nth_same; exact LI|].
      rewrite replace_nth_other by exact NE. apply (x_lost _ _ _ K _ IN).
  Qed.

  (** ** Runs *)
  Definition dinv (l : @lclient I V) : Prop := qinv (l_q l) /\ exists sp, xinv (l_lost l) (sc_of (l_q l)) sp.

  Lemma dinv_step : forall l d j l', dinv l -> dstep X Y M l d j = Some l' -> dinv l' /\ told X Y M (q_trees (l_q l)) d = Some (q_trees (l_q l')).
  Proof.
    intros l d j l' [Q (sp & K)] H. destruct d as [x|i|t e]; cbn [dstep] in H.
    - destruct (qstep X Y M (l_q l) x j) as [q'|] eqn:E; [|discriminate]. injection H as <-. cbn [l_q l_lost]. destruct (qstep_sim X Y M _ _ _ _ Q E) as (Q' & x' & KS & _).
      destruct (xinv_kstep _ _ _ _ _ K KS) as [sp' K']. split; [split; [exact Q'|exists sp'; exact K']|].
      destruct x as [t c a|t a|t a|t|t tg i|t h|t i|t]; cbn [qstep told] in *; try discriminate.
      + destruct (nth_error (q_todo (l_q l)) t) as [[|]|]; try discriminate. destruct (steps_of X Y M (q_trees (l_q l)) c) as [[e es]|]; [|discriminate]. destruct (seq1 X Y M (q_trees (l_q l)) c) as [ts|]; [|discriminate].
        destruct (qmachine (l_q l) t (placed a e) j); [|discriminate]. injection E as <-. reflexivity.
      + destruct (nth_error (q_todo (l_q l)) t) as [[|e es]|]; try discriminate. destruct (qmachine (l_q l) t (placed a e) j); [|discriminate]. injection E as <-. reflexivity.
      + unfold qonly in E. destruct (qmachine _ _ _ _); [|discriminate]. injection E as <-. reflexivity.
      + unfold qonly in E. destruct (qmachine _ _ _ _); [|discriminate]. injection E as <-. reflexivity.
      + unfold qonly in E. destruct (qmachine _ _ _ _); [|discriminate]. injection E as <-. reflexivity.
      + unfold qonly in E. destruct (qmachine _ _ _ _); [|discriminate]. injection E as <-. reflexivity.
      + unfold qonly in E. destruct (qmachine _ _ _ _); [|discriminate]. injection E as <-. reflexivity.
    - destruct (_ && _) eqn:G; [|discriminate]. injection H as <-. apply andb_prop in G. destruct G as [G1 G2]. apply Nat.ltb_lt in G1. apply negb_true_iff in G2.
      split; [|reflexivity]. split; [exact Q|]. exists sp. exact (xinv_lose _ _ _ _ K G1 G2).
    - destruct (nth_error (q_todo (l_q l)) t) as [[|]|] eqn:NT; try discriminate. destruct (astray (l_lost l) e) eqn:AS; [|discriminate]. destruct (qmachine (l_q l) t e j) as [w|] eqn:EM; [|discriminate]. injection H as <-.
      destruct (qmachine_ok _ _ _ _ _ Q EM) as (W' & e' & A & ME). destruct Q as [_ PL].
      assert (AS' : astray (l_lost l) e' = true) by (destruct A as [->|[-> _]]; [exact AS|reflexivity]).
      assert (MK : makes e' = makes e) by (destruct A as [->|[-> F]]; [reflexivity|destruct e; try contradiction; reflexivity]).
      destruct (xinv_free _ _ _ _ _ _ K NT AS' ME) as [sp' K']. rewrite MK in K'. cbn [told].
      destruct (makes e); (split; [split; [split; [exact W'|exact PL]|exists sp'; exact K']|reflexivity]).
  Qed.

  Lemma dinv_start : forall n, dinv (dstart n).
  Proof.
    intros n. split; [apply qstart_inv|]. exists (sstart n). pose proof (kinv_start (I := I) (V := V) n) as K. constructor; try apply K.
    - intros t q N. left. exact (ki_thread _ _ K _ _ N).
    - intros j _ U. exact (ki_tree _ _ K _ U).
    - reflexivity.
    - intros j [].
  Qed.
  Lemma dinv_run : forall xs l l', dinv l -> drun X Y M l xs = Some l' -> dinv l' /\ telling X Y M (q_trees (l_q l)) (map fst xs) = Some (q_trees (l_q l')).
  Proof.
    induction xs as [|[d j] xs IH]; intros l l' K H; cbn [drun map fst telling] in *; [injection H as <-; auto|].
    destruct (dstep X Y M l d j) as [l1|] eqn:E; [|discriminate]. destruct (dinv_step _ _ _ _ K E) as [K1 T]. rewrite T. exact (IH _ _ K1 H).
  Qed.
  Lemma xfinish : forall W n (k : client) sp t es, xinv W k sp -> leafh (c_mem (k_c k)) -> nth_error (k_todo k) t = Some es -> es <> [] -> length es <= n -> t < length (c_threads (k_c k)) -> finishes X Y M k t.
  Proof.
    intros W. induction n as [n IH] using lt_wf_ind. intros k sp t es K LH NT NEMP LE LT.
    destruct (nth_error (c_threads (k_c k)) t) as [p|] eqn:NP; [|apply nth_error_None in NP; lia].
    pose proof (r_threads _ _ (x_rel _ _ _ K) t) as Q. rewrite NP in Q. destruct (nth_error (s_threads sp) t) as [q|] eqn:NQ; [|contradiction]. cbn [orel] in Q. assert (TG : tgood (k_todo k) (s_trees sp) (k_trees k) t q) by (destruct (x_thread _ _ _ K _ _ NQ) as [G|(? & ? & ? & ? & _ & _ & G)]; [exact G|congruence]).
    pose proof (x_inv _ _ _ K) as KI.
    assert (AT : forall (k : client) sp h fr a fl old, xinv W k sp -> leafh (c_mem (k_c k)) -> nth_error (k_todo k) t = Some es -> nth_error (c_threads (k_c k)) t = Some (PAt h fr a fl old) -> finishes X Y M k t).
    { clear - IH LE HM NEMP. intros k sp h fr a fl old K LH NT NP. pose proof (nth_error_lt _ _ _ NP) as LT.
      pose proof (r_threads _ _ (x_rel _ _ _ K) t) as Q. rewrite NP in Q. destruct (nth_error (s_threads sp) t) as [q|] eqn:NQ; [|contradiction]. cbn [orel] in Q. assert (TG : tgood (k_todo k) (s_trees sp) (k_trees k) t q) by (destruct (x_thread _ _ _ K _ _ NQ) as [G|(? & ? & ? & ? & _ & _ & G)]; [exact G|congruence]).
      destruct q as [|h' is|h' is rfl rold]; cbn [trel] in Q; try contradiction. destruct Q as (-> & Q). cbn [tgood] in TG. destruct TG as (b & R & r & NB & TR & TS & RUN). rewrite NT in NB. injection NB as ->.
      assert (ST : exists e es', b ++ [VEnd] = e :: es' /\ exists s' o, cstep (k_c k) t (placed (length (c_mem (k_c k))) e) = Next s' o).
      { destruct b as [|e b].
        - exists VEnd, []. split; [reflexivity|]. cbn [placed]. cbn [lrun] in RUN. injection RUN as -> -> -> ->. destruct Q as (_ & F1 & F2). inversion F1; subst. inversion F2; subst.
          pose proof (not_bad _ t VEnd (x_inv _ _ _ K)) as B. unfold cstep in *. rewrite NP in *. unfold at_step in *. destruct (look (c_mem (k_c k)) a); [|contradiction]. cbn. eauto.
        - exists e, (b ++ [VEnd]). split; [reflexivity|]. cbn [lrun] in RUN. destruct (lstep (R, is, rfl, rold) e) as [l1|] eqn:EL; [|discriminate].
          eapply (can_step (k_c k) sp t h fr a fl old R rfl rold is _ l1); eauto; [apply K|apply K|apply placed_same; exact EL|destruct e; cbn; auto]. }
      destruct ST as (e & es' & EE & s' & o & Hc). rewrite EE in NT, LE.
      assert (KN : kstep X Y M k (KNext t (length (c_mem (k_c k)))) = Some {| k_c := s'; k_todo := replace_at t es' (k_todo k); k_trees := k_trees k |}) by (cbn [kstep]; rewrite NT; unfold machine; rewrite Hc; reflexivity).
      eapply (finish_more X Y M [KNext t (length (c_mem (k_c k)))]); [cbn [krun]; rewrite KN; reflexivity|constructor; [split; [reflexivity|exact Logic.I]|constructor]|].
      destruct (xinv_kstep _ _ _ _ _ K KN) as [sp' K'].
      destruct es' as [|e2 es'].
      { exists [], {| k_c := s'; k_todo := replace_at t [] (k_todo k); k_trees := k_trees k |}. split; [reflexivity|]. split; [constructor|]. cbn [k_todo k_c]. split; [apply replace_nth_same; eapply nth_error_lt; exact NT|].
        assert (e = VEnd) by (destruct b as [|e0 [|]]; cbn in EE; injection EE; auto; discriminate). subst e. cbn [placed] in Hc.
        unfold cstep in Hc. rewrite NP in Hc. unfold at_step in Hc. destruct (look (c_mem (k_c k)) a); [|discriminate]. destruct (_ =? 0); [|discriminate]. injection Hc as <- _. cbn [go c_threads]. apply replace_nth_same. exact LT. }
      eapply (IH (length (e2 :: es'))); [cbn [length] in *; lia|exact K'| |cbn [k_todo]; apply replace_nth_same; eapply nth_error_lt; eauto|discriminate|reflexivity|].
      - cbn [k_c]. eapply leaf_step; [exact LH|apply K|exact Hc].
      - cbn [k_c]. rewrite (cstep_len _ _ _ _ _ Hc). exact LT. }
    destruct p as [|h is x|w|h fr en|h fr x fl old].
    1,2,3: exfalso; apply NEMP; destruct q; cbn [trel] in Q; try contradiction; cbn [tgood] in TG; congruence.
    - destruct (ens_ends _ _ _ _ _ KI NP) as (l & outs & s' & b & R & NI). pose proof (krun_steps X Y M _ _ _ _ _ R KI) as KR.
      destruct (xinv_krun _ _ _ _ _ K KR) as [sp' K']. eapply finish_more; [exact KR|apply steps_who|].
      eapply AT; [exact K'|eapply krun_leaf; eauto|exact NT|exact NI].
    - eapply AT; eauto.
  Qed.

  Lemma x_holds : forall W (k : client) sp j, xinv W k sp -> ~ In j W -> existsb (writes j) (c_threads (k_c k)) = false ->
    holds (c_mem (k_c k)) (nth_error (c_handles (k_c k)) j) (option_map (option_map rle_rose) (nth_error (k_trees k) j)).
  Proof. intros W k sp j K NI U. rewrite <- (x_tree _ _ _ K j NI (unwritten _ _ _ (x_rel _ _ _ K) U)). apply (r_trees _ _ (x_rel _ _ _ K)). Qed.

  Lemma xstart : forall W (k : client) sp t c ts, xinv W k sp -> nth_error (k_todo k) t = Some [] -> nth_error (c_threads (k_c k)) t = Some PIdle ->
    seq1 X Y M (k_trees k) c = Some ts ->
    match c with
    | CNew => True
    | CInsert _ j _ _ _ _ | CDrop j => existsb (uses j) (c_threads (k_c k)) = false
    | CClone j => existsb (writes j) (c_threads (k_c k)) = false
    end -> exists a k', kstep X Y M k (KCall t c a) = Some k'.
  Proof.
    intros W k sp t c ts K NT NP HS U.
    assert (NL : forall j (r : rle), nth_error (k_trees k) j = Some (Some r) -> ~ In j W) by (intros j r NJ IN; rewrite (x_lost _ _ _ K _ IN) in NJ; discriminate).
  assert (UW : forall j, existsb (uses j) (c_threads (k_c k)) = false -> existsb (writes j) (c_threads (k_c k)) = false).
  { intros j UJ. destruct (existsb (writes j) (c_threads (k_c k))) eqn:E; auto. apply existsb_exists in E. destruct E as (p & IN & WR).
    assert (X1 : existsb (uses j) (c_threads (k_c k)) = true); [|congruence]. apply existsb_exists. exists p. split; auto. destruct p; try discriminate WR; exact WR. }
  exists (length (c_mem (k_c k))). cbn [kstep]. rewrite NT, HS.
  assert (ST : exists e es, steps_of X Y M (k_trees k) c = Some (e, es)).
  { destruct c as [|nop j hints idx slice size|j|j]; cbn [steps_of seq1] in *; eauto. destruct (nth_error (k_trees k) j) as [[r|]|]; try discriminate.
    destruct (insert_with_cursor X Y M nop r hints idx slice size) as [[r' cur]| |] eqn:Ei; try discriminate. destruct (insert_grew X Y M HM _ _ _ _ _ _ _ _ Ei) as (pl & fp & r1 & -> & -> & -> & _).
    destruct r as [r0|]; cbn [program]; eauto. }
  destruct ST as (e & es & ST). rewrite ST. pose proof (seq_steps X Y M HM _ _ _ _ _ ST HS) as Z. pose proof (not_bad _ t (placed (length (c_mem (k_c k))) e) (x_inv _ _ _ K)) as B.
  assert (NX : exists s o, cstep (k_c k) t (placed (length (c_mem (k_c k))) e) = Next s o); [|destruct NX as (s & o & NX); unfold machine; rewrite NX; eauto].
  destruct c as [|nop j hints idx slice size|j|j].
  - destruct Z as (-> & _). unfold cstep. rewrite NP. cbn. eauto.
  - destruct Z as (r & r1 & NJ & _ & Z). pose proof (x_holds _ _ _ _ K (NL _ _ NJ) (UW _ U)) as HH. rewrite NJ in HH. cbn [option_map] in HH.
    destruct r as [r0|]; cbn [rle_rose] in HH; destruct (nth_error (c_handles (k_c k)) j) as [[[a0|]|]|] eqn:NH; cbn [holds] in HH; try contradiction.
    + destruct Z as (-> & _). unfold cstep. rewrite NP. cbn [placed]. rewrite NH, U. eauto.
    + destruct Z as (-> & _). unfold cstep. rewrite NP. cbn [placed]. rewrite NH, U, alloc_new. eauto.
  - destruct Z as (-> & _ & r & NJ & _). pose proof (x_holds _ _ _ _ K (NL _ _ NJ) U) as HH. rewrite NJ in HH. cbn [option_map] in HH. unfold cstep in *. rewrite NP in *. cbn [placed] in *.
    destruct (nth_error (c_handles (k_c k)) j) as [[[a0|]|]|] eqn:NH; destruct r; cbn [holds rle_rose] in HH; try contradiction; rewrite U in *; [destruct (look (c_mem (k_c k)) a0); [eauto|contradiction]|eauto].
  - destruct Z as (-> & _ & (r & NJ) & _). pose proof (x_holds _ _ _ _ K (NL _ _ NJ) (UW _ U)) as HH. rewrite NJ in HH. cbn [option_map] in HH. unfold cstep in *. rewrite NP in *. cbn [placed] in *.
    destruct (nth_error (c_handles (k_c k)) j) as [[[a0|]|]|] eqn:NH; destruct r; cbn [holds rle_rose] in HH; try contradiction; rewrite U in *; eauto.
Qed.

  Lemma dstep_wstep : forall l d j l', dstep X Y M l d j = Some l' -> q_w (l_q l') = q_w (l_q l) \/ exists t e b, wstep code_ords (q_w (l_q l)) t e j = WNext (q_w (l_q l')) b.
  Proof.
    intros l d j l' H. destruct d as [x|i|t e]; cbn [dstep] in H.
    - destruct (qstep X Y M (l_q l) x j) as [q'|] eqn:E; [|discriminate]. injection H as <-. right. exact (qstep_wstep X Y M _ _ _ _ E).
    - destruct (_ && _); [|discriminate]. injection H as <-. left. reflexivity.
    - destruct (nth_error (q_todo (l_q l)) t) as [[|]|]; try discriminate. destruct (astray (l_lost l) e); [|discriminate]. destruct (qmachine (l_q l) t e j) as [w|] eqn:EM; [|discriminate]. injection H as <-. right.
      unfold qmachine in EM. destruct (wstep code_ords (q_w (l_q l)) t e j) as [| |w' b] eqn:EW; try discriminate. injection EM as <-. exists t, e, b. destruct (makes e); exact EW.
  Qed.
  Lemma drun_wrun : forall xs l l', drun X Y M l xs = Some l' -> exists es outs, wrun code_ords (q_w (l_q l)) es = Some (outs, q_w (l_q l')).
  Proof.
    induction xs as [|[d j] xs IH]; intros l l' H; cbn [drun] in H.
    - injection H as <-. exists [], []. reflexivity.
    - destruct (dstep X Y M l d j) as [l1|] eqn:E; [|discriminate]. destruct (IH _ _ H) as (es & outs & Hr). destruct (dstep_wstep _ _ _ _ E) as [<-|(t & e & b & Hw)]; [eauto|].
      eexists ((t, e, j) :: es). eexists. cbn [wrun]. rewrite Hw, Hr. reflexivity.
  Qed.
  Lemma drun_leaf : forall xs l l', dinv l -> leafh (c_mem (w_s (q_w (l_q l)))) -> drun X Y M l xs = Some l' ->
    leafh (c_mem (w_s (q_w (l_q l')))) /\ length (c_threads (w_s (q_w (l_q l')))) = length (c_threads (w_s (q_w (l_q l)))).
  Proof.
    induction xs as [|[d j] xs IH]; intros l l' K LH H; cbn [drun] in H; [injection H as <-; auto|].
    destruct (dstep X Y M l d j) as [l1|] eqn:E; [|discriminate]. destruct (dinv_step _ _ _ _ K E) as [K1 _].
    assert (Z : leafh (c_mem (w_s (q_w (l_q l1)))) /\ length (c_threads (w_s (q_w (l_q l1)))) = length (c_threads (w_s (q_w (l_q l))))).
    { destruct (dstep_wstep _ _ _ _ E) as [->|(t & e & b & Hw)]; [auto|]. destruct K as [[WI _] (sp & K)]. pose proof (wstep_ok code_ords code_strong (q_w (l_q l)) t e j WI) as G. rewrite Hw in G.
      destruct G as (_ & e' & _ & Hc). split; [eapply leaf_step; [exact LH|exact (x_inv _ _ _ K)|exact Hc]|eapply cstep_len; exact Hc]. }
    destruct Z as [Z1 Z2]. destruct (IH _ _ K1 Z1 H) as [H1 H2]. split; [exact H1|congruence].
  Qed.
  Lemma drun_acts : forall ys (q q' : @wclient I V) W, qrun X Y M q ys = Some q' ->
    drun X Y M {| l_q := q; l_lost := W |} (map (fun y => (DAct (fst y), snd y)) ys) = Some {| l_q := q'; l_lost := W |}.
  Proof.
    induction ys as [|[x j] ys IH]; intros q q' W H; cbn [qrun map drun fst snd] in *; [injection H as <-; reflexivity|].
    destruct (qstep X Y M q x j) as [q1|] eqn:E; [|discriminate]. cbn [dstep l_q l_lost]. rewrite E. apply IH. exact H.
  Qed.
End L.
