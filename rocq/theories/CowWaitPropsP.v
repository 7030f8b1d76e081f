(** Proofs that a call is over after a bounded number of steps, whatever the other threads do. *)
From Coq Require Import List Arith Bool Lia.
From Verif Require Import Base ListFacts Index Slice Tree Insert LInsert Hist LSpec Cow CowSpec CowP CowV Weak CowCall CowCallR CowCallS CowCallPropsP CowCallWeak CowCallWeakP CowCallWeakPropsP
  Wild UnwindSpec Unwind UnwindPropsP CowWait CowWaitP CowWaitQ.
Import ListNotations.

Lemma call_sim : forall (I V : Type) (X : index_ops I) (Y : slice_ops I V) (M : nat) (q : wclient) t c a j q1, qinv q -> qstep X Y M q (KCall t c a) j = Some q1 ->
  kstep X Y M (sc_of q) (KCall t c a) = Some (sc_of q1).
Proof.
  intros I V X Y M q t c a j q1 Q H. cbn [qstep kstep] in *. cbn [sc_of k_todo k_trees].
  destruct (nth_error (q_todo q) t) as [[|]|] eqn:NT; try discriminate. destruct (steps_of X Y M (q_trees q) c) as [[e es]|] eqn:ST; try discriminate.
  destruct (seq1 X Y M (q_trees q) c) as [ts|] eqn:SQ; try discriminate. destruct (qmachine q t (placed a e) j) as [w|] eqn:EM; [|discriminate]. injection H as <-.
  destruct (steps_plain _ _ _ _ _ _ _ ST) as [Pe _]. destruct (qmachine_ok _ _ _ _ _ Q EM) as (_ & e' & A & ME). rewrite (plain_alike _ _ (placed_plain a _ Pe) A) in ME. rewrite ME. reflexivity.
Qed.

(** A call takes no more than [limit] steps after its first, however the steps of the other threads come between: an
    insertion a number that depends only on the height of its own tree and on M, a drop no more than two for each node of
    its tree.  Nothing another thread does makes a thread start again. *)
Lemma C58_bounded_steps_proof : forall (I V : Type) (X : index_ops I) (Y : slice_ops I V) (M n : nat) (xs ys : list (act * nat)) (q q1 q2 : wclient)
    (t : nat) (c : call) (a j : nat) (ts : list (option rle)),
  index_any X -> 1 <= M -> qrun X Y M (qstart n) xs = Some q -> seq X Y M [] (calls (map fst xs)) = Some ts ->
  qstep X Y M q (KCall t c a) j = Some q1 -> qrun X Y M q1 ys = Some q2 -> existsb (begins t) (map fst ys) = false ->
  own t ys <= limit M ts c.
Proof.
  intros I V X Y M n xs ys q q1 q2 t c a j ts HX HM H SQ ST R NB. destruct (from_qstart _ _ _ _ _ _ _ _ H) as (Q & zs & KR & EC).
  destruct (kreach X Y M HM _ _ _ KR) as (sp & K & _). pose proof (krun_seq X Y M _ _ _ KR) as SQ'. cbn [kstart k_trees] in SQ'. rewrite EC, SQ in SQ'. injection SQ' as ->.
  pose proof (call_sim _ _ _ _ _ _ _ _ _ _ _ Q ST) as KS. destruct (qstep_sim X Y M _ _ _ _ Q ST) as (Q1 & _).
  assert (F : Forall (fun o => match o with Some r => intact M r | None => True end) (k_trees (sc_of q))) by (eapply (seq_intact X Y M HM); [exact HX| |exact SQ]; constructor).
  pose proof (bud_start X Y M HM _ _ _ _ _ _ HX K F KS) as B. destruct (kinv_kstep X Y M HM _ _ _ _ K KS) as (sp1 & K1).
  exact (bud_run X Y M HM _ _ _ _ _ _ _ Q1 K1 B R NB).
Qed.

(** And a thread whose call is not over waits for nobody: it can take a step of that call right now. *)
Lemma C58_progress_proof : forall (I V : Type) (X : index_ops I) (Y : slice_ops I V) (M n : nat) (xs : list (act * nat)) (q : wclient) (t : nat),
  1 <= M -> qrun X Y M (qstart n) xs = Some q -> t < n ->
  nth_error (q_todo q) t = Some [] /\ match nth_error (c_threads (w_s (q_w q))) t with Some PIdle | Some (PRead _ _ _) => True | _ => False end \/
  exists x j q', counted t x = true /\ qstep X Y M q x j = Some q'.
Proof.
  intros I V X Y M n xs q t HM H LT. destruct (from_qstart _ _ _ _ _ _ _ _ H) as (Q & zs & KR & EC). destruct (kreach X Y M HM _ _ _ KR) as (sp & K & _).
  destruct (C55_ends _ _ _ _ _ _ _ _ _ HM KR LT) as (ys & k' & R & E & H1 & H2). destruct ys as [|y ys]; cbn [krun] in R.
  - injection R as <-. left. split; [exact H1|]. cbn [sc_of k_c] in H2. rewrite H2. exact Logic.I.
  - destruct (kstep X Y M (sc_of q) y) as [k1|] eqn:KS; [|discriminate]. inversion E as [|? ? [W Z] _]; subst.
    destruct (kstep_weak X Y M _ _ _ Q KS) as (q' & QS & _); [destruct y; auto|].
    destruct y as [u c a|u a|u a|u|u tg i|u h|u i|u]; try contradiction.
    + right. exists (KNext u a), 0, q'. split; [apply Nat.eqb_refl|exact QS].
    + right. exists (KStep u a), 0, q'. split; [apply Nat.eqb_refl|exact QS].
    + left. cbn [who] in *. cbn [kstep] in KS. unfold only in KS. destruct (machine (sc_of q) u VReadEnd) as [s|] eqn:EM; [|discriminate]. destruct (machine_next _ _ _ _ EM) as [o Hc].
      pose proof (r_threads _ _ (ki_rel _ _ K) u) as TR. unfold cstep in Hc. cbn [sc_of k_c] in *. destruct (nth_error (c_threads (w_s (q_w q))) u) as [p|] eqn:NP; [|discriminate].
      destruct (nth_error (s_threads sp) u) as [s0|] eqn:NS; [|contradiction]. cbn [orel] in TR. pose proof (ki_thread _ _ K _ _ NS) as TG.
      destruct p as [|h is x|ws|h fr en|h fr x fl old]; try discriminate.
      * split; [|exact Logic.I]. destruct s0; cbn [trel] in TR; try contradiction; exact TG.
      * unfold at_step in Hc. destruct (look _ x); discriminate.
Qed.
