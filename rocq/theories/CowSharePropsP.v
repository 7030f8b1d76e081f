(** Proofs about the memory that calls on trees that share nodes take. *)
From Coq Require Import List Arith Bool Lia.
From Verif Require Import Base ListFacts Index Slice Tree Insert LInsert Cow CowSpec CowP CowV Weak CowCall CowCallP CowCallR CowCallS CowCallPropsP CowCallWeak CowCallWeakP CowCallWeakPropsP
  CowWait CowWaitQ CowWaitPropsP CowShare CowShareP CowShareQ.
Import ListNotations.

(** A call allocates no more nodes than [amount] says, whatever the other threads do meanwhile: an insertion one for each
    level of its own tree besides those by which the tree grows, and the other calls none.  So of a tree that is shared
    only the nodes on one path are ever copied, each at most once. *)
Lemma C59_copies_proof : forall (I V : Type) (X : index_ops I) (Y : slice_ops I V) (M n : nat) (xs ys : list (act * nat)) (q q2 : wclient)
    (t : nat) (c : call) (a j : nat) (ts : list (option rle)),
  1 <= M -> qrun X Y M (qstart n) xs = Some q -> seq X Y M [] (calls (map fst xs)) = Some ts ->
  qrun X Y M q ((KCall t c a, j) :: ys) = Some q2 -> existsb (begins t) (map fst ys) = false ->
  made X Y M t q ((KCall t c a, j) :: ys) <= amount X Y M ts c.
Proof.
  intros I V X Y M n xs ys q q2 t c a j ts HM H SQ R NB. destruct (from_qstart _ _ _ _ _ _ _ _ H) as (Q & zs & KR & EC).
  destruct (kreach X Y M HM _ _ _ KR) as (sp & K & _). pose proof (krun_seq X Y M _ _ _ KR) as SQ'. cbn [kstart k_trees] in SQ'. rewrite EC, SQ in SQ'. injection SQ' as ->.
  cbn [qrun made who] in *. destruct (qstep X Y M q (KCall t c a) j) as [q1|] eqn:ST; [|discriminate]. rewrite Nat.eqb_refl.
  pose proof (call_sim _ _ _ _ _ _ _ _ _ _ _ Q ST) as KS. destruct (qstep_sim X Y M _ _ _ _ Q ST) as (Q1 & _). destruct (kinv_kstep X Y M HM _ _ _ _ K KS) as (sp1 & K1).
  pose proof (made_pot X Y M HM _ _ _ _ _ Q1 K1 R NB) as B. pose proof (kstep_pot X Y M HM _ _ _ KS) as B0. cbn [who given sc_of k_c k_trees] in B0. cbn [sc_of k_trees].
  assert (Z : tpot (sc_of q) t = 0); [|unfold sc_of in *; cbn [k_c k_trees] in *; lia].
  unfold tpot. cbn [sc_of k_c k_todo]. cbn [qstep] in ST. destruct (nth_error (q_todo q) t) as [[|]|] eqn:NT; try discriminate. rewrite (nth_some _ _ _ [] NT).
  destruct (steps_of X Y M (q_trees q) c) as [[e es]|] eqn:SO; try discriminate. destruct (nth_error (c_threads (w_s (q_w q))) t) as [p|] eqn:NP.
  - rewrite (nth_some _ _ _ PIdle NP). pose proof (r_threads _ _ (ki_rel _ _ K) t) as TR. cbn [sc_of k_c] in TR. rewrite NP in TR. destruct (nth_error (s_threads sp) t) as [s0|] eqn:NS; [|contradiction].
    pose proof (ki_thread _ _ K _ _ NS) as TG. cbn [orel] in TR. destruct p as [|h is x|ws|h fr en|h fr x fl old]; try reflexivity. 
    destruct en; try reflexivity; exfalso; clear - TR TG NT; cbn [sc_of k_todo] in *; destruct s0; cbn [trel] in TR; try contradiction; cbn [tgood] in TG; destruct TG as (es' & R0 & r0 & N0 & _); rewrite NT in N0; injection N0 as N0; destruct es'; discriminate.
  - rewrite nth_overflow by (apply nth_error_None; exact NP). reflexivity.
Qed.

(** And never are more nodes in memory than the insertions so far may allocate together, one after another: trees made by
    cloning cost nothing, and no schedule makes the trees of several threads take more. *)
Lemma C59_memory_proof : forall (I V : Type) (X : index_ops I) (Y : slice_ops I V) (M n : nat) (xs : list (act * nat)) (q : wclient),
  1 <= M -> qrun X Y M (qstart n) xs = Some q -> used (c_mem (w_s (q_w q))) <= cost X Y M [] (calls (map fst xs)).
Proof.
  intros I V X Y M n xs q HM H. destruct (from_qstart _ _ _ _ _ _ _ _ H) as (_ & zs & KR & EC).
  assert (K0 : exists sp, kinv (kstart n : client) sp) by (destruct (kreach X Y M HM n [] (kstart n) eq_refl) as (sp & K & _); eauto). destruct K0 as (sp & K0).
  pose proof (krun_pots X Y M HM _ _ _ _ K0 KR) as B. cbn [sc_of k_c] in B. rewrite EC in B. cbn [kstart k_trees k_c start c_mem] in B. change (used []) with 0 in B.
  assert (Z : forall l, fold_right plus 0 (map (tpot (kstart n : @client I V)) l) = 0).
  { induction l as [|t l IH]; [reflexivity|]. cbn [map fold_right]. rewrite IH. unfold tpot, kstart. cbn [k_c k_todo start c_threads]. rewrite !nth_repeat. reflexivity. }
  unfold pots at 2 in B. rewrite Z in B. unfold sc_of in B. lia.
Qed.

(** What an insertion allocates does not depend on how much is in the tree, only on its height. *)
Lemma C59_levels_proof : forall (I V : Type) (X : index_ops I) (Y : slice_ops I V) (M n : nat) (xs ys : list (act * nat)) (q q2 : wclient)
    (t : nat) (nop : bool) (h : nat) (hints : list nat) (idx size : I) (slice : V) (a j : nat) (ts : list (option rle)) (r : rle),
  1 <= M -> qrun X Y M (qstart n) xs = Some q -> seq X Y M [] (calls (map fst xs)) = Some ts -> nth_error ts h = Some (Some r) ->
  qrun X Y M q ((KCall t (CInsert nop h hints idx slice size) a, j) :: ys) = Some q2 -> existsb (begins t) (map fst ys) = false ->
  made X Y M t q ((KCall t (CInsert nop h hints idx slice size) a, j) :: ys) <= 2 * levels r + 1.
Proof.
  intros I V X Y M n xs ys q q2 t nop h hints idx size slice a j ts r HM H SQ NH R NB.
  pose proof (C59_copies_proof _ _ _ _ _ _ _ _ _ _ _ _ _ _ _ HM H SQ R NB) as B. refine (Nat.le_trans _ _ _ B _). cbn [amount]. rewrite NH.
  destruct (insert_with_cursor X Y M nop r hints idx slice size) as [[r' cur]| |] eqn:Hi; try lia.
  destruct r as [r0|].
  - destruct (insert_grew X Y M HM _ _ _ _ _ _ _ _ Hi) as (pl & fp & r1 & Hp & Hf & _ & _). destruct (program_needs X Y M HM _ _ _ _ _ _ _ _ _ _ h Hi Hp Hf) as [_ L]. cbn [levels]. lia.
  - cbn [levels rle_nodes]. unfold insert_with_cursor in Hi. destruct (rle_size X None) as [sz| |]; try discriminate. cbn [bind] in Hi. destruct (ix_ltb X sz idx); [discriminate|]. destruct (ix_leb X size (ix_zero X)); [discriminate|].
    unfold rle_new in Hi. cbn [bind] in Hi. destruct (ix_leb X size (ix_zero X)); try discriminate; injection Hi as <- _; cbn; lia.
Qed.

(** As long as no tree has been cloned nothing is copied: an insertion allocates only the nodes by which its tree grows,
    and other calls nothing. *)
Lemma C59_unshared_proof : forall (I V : Type) (X : index_ops I) (Y : slice_ops I V) (M n : nat) (xs ys : list (act * nat)) (q q2 : wclient)
    (t : nat) (c : call) (a j : nat) (ts : list (option rle)),
  1 <= M -> qrun X Y M (qstart n) xs = Some q -> seq X Y M [] (calls (map fst xs)) = Some ts ->
  qrun X Y M q ((KCall t c a, j) :: ys) = Some q2 -> existsb (begins t) (map fst ys) = false ->
  existsb clones (calls (map fst (xs ++ (KCall t c a, j) :: ys))) = false ->
  made X Y M t q ((KCall t c a, j) :: ys) <= growth X Y M ts c.
Proof.
  intros I V X Y M n xs ys q q2 t c a j ts HM H SQ R NB NC. destruct (from_qstart _ _ _ _ _ _ _ _ H) as (Q & zs & KR & EC).
  pose proof (krun_seq X Y M _ _ _ KR) as SQ'. cbn [kstart k_trees] in SQ'. rewrite EC, SQ in SQ'. injection SQ' as ->.
  rewrite <- cloning_calls, map_app, existsb_app in NC. apply orb_false_iff in NC. destruct NC as [NC1 NC2]. cbn [map fst existsb] in NC2. apply orb_false_iff in NC2. destruct NC2 as [NC2 NC3].
  destruct (qrun_sing X Y M HM _ _ _ (qstart_inv n) (qstart_sing n) NC1 H) as [_ G]. cbn [qrun made who] in *. destruct (qstep X Y M q (KCall t c a) j) as [q1|] eqn:ST; [|discriminate]. rewrite Nat.eqb_refl.
  destruct (qstep_sim X Y M _ _ _ _ Q ST) as (Q1 & _). destruct (qstep_growth X Y M HM _ _ _ _ Q G NC2 ST) as (G1 & B & _). cbn [who gives] in B.
  pose proof (made_growth X Y M HM _ _ _ _ Q1 G1 NC3 R NB) as B1. cbn [sc_of k_trees].
  assert (Z : gpot q t = 0); [|lia]. unfold gpot. cbn [qstep] in ST. destruct (nth_error (q_todo q) t) as [[|]|] eqn:NT; try discriminate. rewrite (nth_some _ _ _ [] NT). reflexivity.
Qed.
