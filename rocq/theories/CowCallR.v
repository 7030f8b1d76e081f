(** Proofs about calls on trees that share nodes: any interleaving gives the trees that the calls give one after
    another. *)
From Coq Require Import List Arith Bool Lia.
From Verif Require Import Base ListFacts Index Slice Tree Insert LInsert LCow Cow CowSpec CowP CowT CowU CowV CowPropsP CowCall CowCallP CowCallQ.
Import ListNotations.

Section G.
  Context {D : Type}.

  Lemma lstep_sstep : forall (sp : sstate D) t h is fl old R e R' is' fl' old', nth_error (s_threads sp) t = Some (SIns h is fl old) ->
    nth_error (s_trees sp) h = Some (Some (Some R)) -> lstep (R, is, fl, old) e = Some (R', is', fl', old') ->
    fst (sstep sp t e) = {| s_trees := replace_at h (Some (Some R')) (s_trees sp); s_threads := replace_at t (SIns h is' fl' old') (s_threads sp) |}.
  Proof.
    intros sp t h is fl old R e R' is' fl' old' N T H. unfold lstep in H. destruct (sub R (rev is)) as [r|] eqn:SR; [|discriminate].
    assert (TO : tree_of sp h = Some R) by (unfold tree_of; rewrite T; reflexivity).
    assert (ST : replace_at h (Some (Some R)) (s_trees sp) = s_trees sp) by (apply replace_id; exact T).
    assert (SH : replace_at t (SIns h is fl old) (s_threads sp) = s_threads sp) by (apply replace_id; exact N).
    unfold sstep. destruct e as [|h0 a d|h0|h0|h0|i| |h0|a|i|tg d|mm d d' a|tg k j d|i j|c d|a j d|tg i| | | |]; try discriminate H; rewrite N.
    - destruct (_ && _); [|discriminate]. injection H as <- <- <- <-. cbn [fst]. unfold sgo. rewrite ST. reflexivity.
    - destruct tg as [|j]; [|discriminate]. injection H as <- <- <- <-. cbn [fst]. unfold change. rewrite TO. unfold shand. rewrite SH. rewrite (chg_const _ _ _ _ SR). reflexivity.
    - destruct (_ || _); [|discriminate]. injection H as <- <- <- <-. unfold here, change. rewrite TO, SR. cbn [fst]. unfold sgo, shand. cbn [s_trees s_threads].
      rewrite (chg_const _ _ _ _ SR). reflexivity.
    - destruct tg as [|i].
      + destruct (nth_error fl j) as [c|]; [|discriminate]. destruct (_ && _); [|discriminate]. injection H as <- <- <- <-. unfold change. rewrite TO. cbn [fst]. unfold sgo, shand. cbn [s_trees s_threads].
        rewrite (chg_const _ _ _ _ SR). reflexivity.
      + destruct (nth_error fl i) as [b|]; [|discriminate]. destruct (nth_error fl j) as [c|]; [|discriminate]. destruct (_ && _); [|discriminate]. injection H as <- <- <- <-. cbn [fst]. unfold sgo. rewrite ST. reflexivity.
    - destruct (nth_error fl i) as [[d [|x ks]]|]; try discriminate. destruct (nth_error fl j) as [c|]; [|discriminate]. destruct (_ && _); [|discriminate]. injection H as <- <- <- <-. cbn [fst]. unfold sgo. rewrite ST. reflexivity.
    - destruct (nth_error old c) as [b|]; [|discriminate]. destruct (_ =? _); [|discriminate]. injection H as <- <- <- <-. unfold change. rewrite TO. cbn [fst]. unfold sgo, shand. cbn [s_trees s_threads].
      rewrite (chg_const _ _ _ _ SR). reflexivity.
    - destruct is as [|i0 is]; [|discriminate]. destruct (nth_error fl j) as [b|]; [|discriminate]. destruct (_ =? _); [|discriminate]. injection H as <- <- <- <-. unfold change. rewrite TO. cbn [fst].
      unfold sgo, shand. cbn [s_trees s_threads rev chg]. reflexivity.
    - destruct is as [|i0 is]; [discriminate|]. injection H as <- <- <- <-. cbn [fst tl]. unfold sgo. rewrite ST. reflexivity.
  Qed.

  (** Borrows, seen from the values. *)
  Lemma unused : forall (s : cstate D) sp h, rel s sp -> existsb (uses h) (c_threads s) = false ->
    forall t q, nth_error (s_threads sp) t = Some q -> match q with SNone => True | SRead h' _ | SIns h' _ _ _ => h' <> h end.
  Proof.
    intros s sp h R U t q N. pose proof (r_threads _ _ R t) as Q. rewrite N in Q. destruct (nth_error (c_threads s) t) as [p|] eqn:NP; [|contradiction].
    assert (UP : uses h p = false).
    { destruct (uses h p) eqn:E; auto. assert (X : existsb (uses h) (c_threads s) = true) by (apply existsb_exists; exists p; split; [eapply nth_error_In; eauto|auto]). congruence. }
    destruct p; destruct q; cbn in *; try contradiction; auto; destruct Q as (-> & _); intros ->; rewrite Nat.eqb_refl in UP; discriminate.
  Qed.
  Lemma unwritten : forall (s : cstate D) sp h, rel s sp -> existsb (writes h) (c_threads s) = false ->
    forall t is fl old, nth_error (s_threads sp) t <> Some (SIns h is fl old).
  Proof.
    intros s sp h R U t is fl old N. pose proof (r_threads _ _ R t) as Q. rewrite N in Q. destruct (nth_error (c_threads s) t) as [p|] eqn:NP; [|contradiction].
    assert (X : existsb (writes h) (c_threads s) = true); [|congruence]. apply existsb_exists. exists p. split; [eapply nth_error_In; eauto|].
    destruct p; cbn in *; try contradiction; destruct Q as (-> & _); apply Nat.eqb_refl.
  Qed.
  Lemma one_writer : forall (s : cstate D) sp t t' h is fl old is' fl' old', inv s -> rel s sp -> nth_error (s_threads sp) t = Some (SIns h is fl old) ->
    nth_error (s_threads sp) t' = Some (SIns h is' fl' old') -> t' = t.
  Proof.
    intros s sp t t' h is fl old is' fl' old' I R N N'. destruct (Nat.eq_dec t' t) as [|NE]; auto. exfalso.
    pose proof (r_threads _ _ R t) as Q. rewrite N in Q. destruct (nth_error (c_threads s) t) as [p|] eqn:NP; [|contradiction].
    pose proof (r_threads _ _ R t') as Q'. rewrite N' in Q'. destruct (nth_error (c_threads s) t') as [p'|] eqn:NP'; [|contradiction].
    assert (W : writes h p = true) by (destruct p; cbn in *; try contradiction; destruct Q as (-> & _); apply Nat.eqb_refl).
    assert (W' : uses h p' = true) by (destruct p'; cbn in *; try contradiction; destruct Q' as (-> & _); apply Nat.eqb_refl).
    rewrite (i_lock s I t p t' p' h NP NP') in W'; auto. discriminate.
  Qed.
  Lemma read_unwritten : forall (s : cstate D) sp t h is, inv s -> rel s sp -> nth_error (s_threads sp) t = Some (SRead h is) ->
    forall t' is' fl' old', nth_error (s_threads sp) t' <> Some (SIns h is' fl' old').
  Proof.
    intros s sp t h is I R N t' is' fl' old' N'. assert (NE : t' <> t) by (intros ->; rewrite N in N'; discriminate).
    pose proof (r_threads _ _ R t) as Q. rewrite N in Q. destruct (nth_error (c_threads s) t) as [p|] eqn:NP; [|contradiction].
    pose proof (r_threads _ _ R t') as Q'. rewrite N' in Q'. destruct (nth_error (c_threads s) t') as [p'|] eqn:NP'; [|contradiction].
    assert (W : uses h p = true) by (destruct p; cbn in *; try contradiction; destruct Q as (-> & _); apply Nat.eqb_refl).
    assert (W' : writes h p' = true) by (destruct p'; cbn in *; try contradiction; destruct Q' as (-> & _); apply Nat.eqb_refl).
    rewrite (i_lock s I t' p' t p h NP' NP) in W; auto. discriminate.
  Qed.
End G.

Section R.
  Context {I V : Type} (X : index_ops I) (Y : slice_ops I V) (M : nat).
  Notation D := (@ndata I V).
  Notation client := (@client I V).
  Notation rle := (@rle I V).
  Hypothesis HM : 1 <= M.

  Definition tgood (todo : list (list (ev D))) (tr : list (option (option (rose D)))) (ts : list (option rle)) (t : nat) (q : sthread D) : Prop :=
    match q with
    | SIns h is fl old => exists es R r, nth_error todo t = Some (es ++ [VEnd]) /\ nth_error tr h = Some (Some (Some R)) /\
        nth_error ts h = Some (Some (Some r)) /\ lrun (R, is, fl, old) es = Some (rose_of (r_height r) (r_node r), [], [], [])
    | _ => nth_error todo t = Some []
    end.

  Record kinv (k : client) (sp : sstate D) : Prop := {
    ki_inv : inv (k_c k);
    ki_rel : rel (k_c k) sp;
    ki_thread : forall t q, nth_error (s_threads sp) t = Some q -> tgood (k_todo k) (s_trees sp) (k_trees k) t q;
    ki_tree : forall j, (forall t is fl old, nth_error (s_threads sp) t <> Some (SIns j is fl old)) ->
      nth_error (s_trees sp) j = option_map (option_map rle_rose) (nth_error (k_trees k) j)
  }.

  Lemma ki_some : forall k sp j x, kinv k sp -> nth_error (k_trees k) j = Some x -> j < length (s_trees sp).
  Proof.
    intros k sp j x K N. apply nth_error_Some. intros Z.
    assert (E : nth_error (s_trees sp) j = option_map (option_map rle_rose) (nth_error (k_trees k) j)).
    { apply (ki_tree _ _ K). intros t is fl old T. pose proof (ki_thread _ _ K _ _ T) as (es & R & r & _ & E & _). congruence. }
    rewrite Z, N in E. discriminate.
  Qed.
  Lemma ki_len : forall k sp, kinv k sp -> length (s_trees sp) = length (k_trees k).
  Proof.
    intros k sp K. destruct (lt_eq_lt_dec (length (s_trees sp)) (length (k_trees k))) as [[L|E]|L]; auto; exfalso.
    - destruct (nth_error (k_trees k) (length (s_trees sp))) as [x|] eqn:N; [apply (ki_some _ _ _ _ K) in N; lia|]. apply nth_error_None in N. lia.
    - destruct (nth_error (s_trees sp) (length (k_trees k))) as [x|] eqn:N; [|apply nth_error_None in N; lia].
      assert (E : nth_error (s_trees sp) (length (k_trees k)) = option_map (option_map rle_rose) (nth_error (k_trees k) (length (k_trees k)))).
      { apply (ki_tree _ _ K). intros t is fl old T. pose proof (ki_thread _ _ K _ _ T) as (es & R & r & _ & _ & E & _). apply nth_error_lt in E. lia. }
      rewrite N, (proj2 (nth_error_None (k_trees k) (length (k_trees k)))) in E by lia. discriminate.
  Qed.

  (** A step of thread [t] that changes nothing but itself and tree [h0]. *)
  Lemma kinv_step : forall k sp t q s' sp' q' es' ts' h0, kinv k sp -> nth_error (s_threads sp) t = Some q -> inv s' -> rel s' sp' ->
    s_threads sp' = replace_at t q' (s_threads sp) ->
    (forall h, h <> h0 -> nth_error (s_trees sp') h = nth_error (s_trees sp) h /\ nth_error ts' h = nth_error (k_trees k) h) ->
    (forall t' is fl old, t' <> t -> nth_error (s_threads sp) t' <> Some (SIns h0 is fl old)) ->
    match q with SIns h _ _ _ => h = h0 | _ => True end ->
    tgood (replace_at t es' (k_todo k)) (s_trees sp') ts' t q' ->
    match q' with SIns h _ _ _ => h = h0 | _ => nth_error (s_trees sp') h0 = option_map (option_map rle_rose) (nth_error ts' h0) end ->
    kinv {| k_c := s'; k_todo := replace_at t es' (k_todo k); k_trees := ts' |} sp'.
  Proof.
    intros k sp t q s' sp' q' es' ts' h0 K N I' R' ST OTH EX HQ TG HQ'. assert (LT : t < length (s_threads sp)) by (eapply nth_error_lt; exact N).
    constructor; cbn [k_c k_todo k_trees]; auto.
    - intros t1 q1 N1. rewrite ST in N1. destruct (Nat.eq_dec t t1) as [<-|NE].
      + rewrite replace_nth_same in N1 by exact LT. injection N1 as <-. exact TG.
      + rewrite replace_nth_other in N1 by exact NE. pose proof (ki_thread _ _ K _ _ N1) as G. unfold tgood in *. rewrite replace_nth_other by exact NE.
        destruct q1 as [|h is|h is fl old]; auto. assert (NH : h <> h0) by (intros ->; eapply (EX t1); eauto).
        destruct (OTH h NH) as [-> ->]. exact G.
    - intros j NJ. destruct (Nat.eq_dec j h0) as [->|NE].
      + destruct q' as [|h is|h is fl old]; auto. subst h. exfalso. apply (NJ t is fl old). rewrite ST. apply replace_nth_same. exact LT.
      + destruct (OTH j NE) as [-> ->]. apply (ki_tree _ _ K). intros t1 is fl old N1. destruct (Nat.eq_dec t t1) as [<-|NT].
        * rewrite N in N1. injection N1 as ->. congruence.
        * apply (NJ t1 is fl old). rewrite ST, replace_nth_other by exact NT. exact N1.
  Qed.

  Lemma placed_same : forall a (e : ev D) l l', lstep l e = Some l' -> lstep l (placed a e) = Some l'.
  Proof. intros a e l l' H. destruct e; exact H. Qed.

  Lemma pc_idle : forall (s : cstate D) sp t e s' o, rel s sp -> cstep s t e = Next s' o ->
    match e with VEmpty | VNew _ _ _ | VClone _ | VDrop _ | VRead _ | VInsert _ => nth_error (s_threads sp) t = Some SNone | VDown _ | VReadEnd => exists h is, nth_error (s_threads sp) t = Some (SRead h is) | _ => True end.
  Proof.
    intros s sp t e s' o R H. unfold cstep in H. destruct (nth_error (c_threads s) t) as [p|] eqn:N; [|discriminate].
    pose proof (r_threads _ _ R t) as Q. rewrite N in Q. destruct (nth_error (s_threads sp) t) as [q|]; [|contradiction]. cbn [orel] in Q.
    destruct p as [|h is x|w|h fr en|h fr x fl old]; destruct q; cbn [trel] in Q; try contradiction; destruct e; try discriminate H; eauto.
    all: try (destruct w; discriminate H).
    all: try (unfold at_step in H; destruct (look (c_mem s) x); discriminate H).
  Qed.

  (** ** Starting an insertion *)
  Lemma program_run : forall nop r0 hints idx slice size r' cur pl fp j, insert_with_cursor X Y M nop (Some r0) hints idx slice size = Ok (r', cur) ->
    insert_plan X Y (Some r0) hints idx slice = Ok pl -> find_path X Y (Some r0) hints idx = Ok fp ->
    exists es r1, r' = Some r1 /\ program M j (way pl fp) (Some r0) r' = VInsert j :: es ++ [VEnd] /\
      lrun (rose_of (r_height r0) (r_node r0), [], [], []) es = Some (rose_of (r_height r1) (r_node r1), [], [], []).
  Proof.
    intros nop r0 hints idx slice size r' cur pl fp j Hi Hp Hf. destruct (insert_grew X Y M HM _ _ _ _ _ _ _ _ Hi) as (pl' & fp' & r1 & Hp' & Hf' & -> & Hh & G).
    rewrite Hp in Hp'. injection Hp' as <-. rewrite Hf in Hf'. injection Hf' as <-. cbn [program]. unfold root_news in G, Hh.
    set (t := rose_of (r_height r0) (r_node r0)) in *. set (t' := rose_of (r_height r1) (r_node r1)) in *.
    destruct (Nat.eqb_spec (r_height r1) (r_height r0)) as [E|E].
    - eexists (map VChild (way pl fp) ++ ups M (way pl fp) t [t']), r1. split; [reflexivity|]. split; [rewrite app_assoc; reflexivity|].
      rewrite <- E in G. fold t' in G.
      destruct (ups_run M HM _ _ _ G (r_height r0) t []) as (n & rest & EN & RUN); [apply uni_rose|constructor; [rewrite <- E; apply uni_rose|constructor]|reflexivity|].
      injection EN as <- <-. exact RUN.
    - eexists (map VChild (way pl fp) ++ ups M (way pl fp) t (rkids t') ++ [VNewRoot 0 0 (rdata t')]), r1. split; [reflexivity|]. split; [rewrite app_assoc; reflexivity|].
      fold t'.       destruct Hh as [?|[Hh L2]]; [contradiction|].
      assert (UT : Forall (uni (r_height r0)) (rkids t')) by (pose proof (uni_rose (r_height r1) (r_node r1)) as U; fold t' in U; rewrite Hh, Nat.add_1_r in U; clear - U; destruct t' as [d ks]; cbn [uni rkids] in *; apply U).
      destruct (ups_run M HM _ _ _ G (r_height r0) t []) as (n & rest & EN & RUN); [apply uni_rose|exact UT|reflexivity|].
      assert (ET : Rose (rdata t') (rkids t') = t') by (destruct t'; reflexivity). clearbody t'. rewrite EN in ET.
      rewrite EN in L2. destruct rest as [|n2 [|n3 rest]]; try discriminate L2.
      rewrite app_assoc, lrun_app, RUN. rewrite EN in UT. inversion UT as [|? ? U1 UT2]; subst. inversion UT2 as [|? ? U2 _]; subst.
      cbn [rev chg lrun lstep sub nth_error]. rewrite (uni_rh _ _ U1), (uni_rh _ _ U2), Nat.eqb_refl. cbn.
      rewrite ET. reflexivity.
  Qed.

  Lemma machine_next : forall (k : client) t e s', machine k t e = Some s' -> exists o, cstep (k_c k) t e = Next s' o.
  Proof. intros k t e s' H. unfold machine in H. destruct (cstep (k_c k) t e) as [| |s o]; try discriminate. injection H as <-. eauto. Qed.

  Lemma machine_rel : forall (k : client) sp t e s', kinv k sp -> machine k t e = Some s' -> inv s' /\ rel s' (fst (sstep sp t e)).
  Proof.
    intros k sp t e s' K H. apply machine_next in H. destruct H as [o H]. pose proof (step_good _ t e (ki_inv _ _ K)) as G. pose proof (step_sim _ _ t e (ki_inv _ _ K) (ki_rel _ _ K)) as S.
    rewrite H in G, S. split; [exact G|exact (proj1 S)].
  Qed.

  Lemma kinv_quiet : forall k sp t e k', kinv k sp -> only k t e = Some k' -> fst (sstep sp t e) = sp -> kinv k' sp.
  Proof.
    intros k sp t e k' K H E. unfold only in H. destruct (machine k t e) as [s'|] eqn:Em; [|discriminate]. injection H as <-.
    destruct (machine_rel _ _ _ _ _ K Em) as [I' R']. rewrite E in R'. constructor; cbn [k_c k_todo k_trees]; auto; apply K.
  Qed.

  Lemma todo_id : forall k sp t, kinv k sp -> nth_error (k_todo k) t = Some [] -> replace_at t [] (k_todo k) = k_todo k.
  Proof. intros. apply replace_id. assumption. Qed.

  Lemma kinv_read : forall k sp t e k' q', kinv k sp -> only k t e = Some k' -> (match nth_error (s_threads sp) t with Some (SIns _ _ _ _) | None => False | _ => True end) ->
    match q' with SIns _ _ _ _ => False | _ => True end ->
    fst (sstep sp t e) = sgo sp t q' -> exists sp', kinv k' sp'.
  Proof.
    intros k sp t e k' q' K H Q Q' E. unfold only in H. destruct (machine k t e) as [s'|] eqn:Em; [|discriminate]. injection H as <-.
    destruct (machine_rel _ _ _ _ _ K Em) as [I' R']. rewrite E in R'. destruct (nth_error (s_threads sp) t) as [q|] eqn:N; [|contradiction].
    assert (T : nth_error (k_todo k) t = Some []) by (pose proof (ki_thread _ _ K _ _ N) as G; destruct q; [exact G|exact G|contradiction]).
    exists (sgo sp t q'). rewrite <- (replace_id t [] (k_todo k) T).
    eapply (kinv_step k sp t q s' (sgo sp t q') q' [] (k_trees k) (length (s_trees sp))); auto.
    - intros t' is fl old _ N'. pose proof (ki_thread _ _ K _ _ N') as (es & R & r & _ & Z & _). apply nth_error_lt in Z. lia.
    - destruct q; auto; contradiction.
    - rewrite (replace_id t [] (k_todo k) T). unfold tgood. destruct q'; auto; contradiction.
    - cbn [s_trees sgo]. rewrite !(proj2 (nth_error_None _ _)) by (rewrite ?(ki_len _ _ K); lia). destruct q'; auto; contradiction.
  Qed.

  Lemma seq_steps : forall ts c e es ts', steps_of X Y M ts c = Some (e, es) -> seq1 X Y M ts c = Some ts' ->
    match c with
    | CNew => e = VEmpty /\ es = [] /\ ts' = ts ++ [Some None]
    | CClone j => e = VClone j /\ es = [] /\ exists r, nth_error ts j = Some (Some r) /\ ts' = ts ++ [Some r]
    | CDrop j => e = VDrop j /\ es = [] /\ (exists r, nth_error ts j = Some (Some r)) /\ ts' = replace_at j None ts
    | CInsert _ j _ _ _ _ => exists r r1, nth_error ts j = Some (Some r) /\ ts' = replace_at j (Some (Some r1)) ts /\
        match r with
        | None => e = VNew j 0 (tdata (r_node r1)) /\ es = [] /\ rose_of (r_height r1) (r_node r1) = Rose (tdata (r_node r1)) []
        | Some r0 => e = VInsert j /\ exists b, es = b ++ [VEnd] /\ lrun (rose_of (r_height r0) (r_node r0), [], [], []) b = Some (rose_of (r_height r1) (r_node r1), [], [], [])
        end
    end.
  Proof.
    intros ts c e es ts' H1 H2. destruct c as [|nop j hints idx slice size|j|j]; cbn [steps_of seq1] in *.
    - injection H1 as <- <-. injection H2 as <-. auto.
    - destruct (nth_error ts j) as [[r|]|] eqn:N; try discriminate. destruct (insert_with_cursor X Y M nop r hints idx slice size) as [[r' cur]| |] eqn:Ei; try discriminate.
      injection H2 as <-. destruct (insert_plan X Y r hints idx slice) as [pl| |] eqn:Ep; try discriminate. destruct (find_path X Y r hints idx) as [fp| |] eqn:Ef; try discriminate.
      destruct r as [r0|].
      + destruct (program_run _ _ _ _ _ _ _ _ _ _ j Ei Ep Ef) as (b & r1 & -> & P & RUN). rewrite P in H1. injection H1 as <- <-. exists (Some r0), r1. eauto 10.
      + destruct (insert_grew X Y M HM _ _ _ _ _ _ _ _ Ei) as (pl' & fp' & r1 & _ & _ & -> & Hh). cbn [program] in H1. injection H1 as <- <-. exists None, r1. rewrite Hh. cbn [rose_of]. auto 10.
    - destruct (nth_error ts j) as [[r|]|] eqn:N; try discriminate. injection H1 as <- <-. injection H2 as <-. eauto 10.
    - destruct (nth_error ts j) as [[r|]|] eqn:N; try discriminate. injection H1 as <- <-. injection H2 as <-. eauto 10.
  Qed.

  Lemma cstep_free : forall (s : cstate D) t e s' o, cstep s t e = Next s' o ->
    match e with
    | VNew j _ _ | VDrop j | VInsert j => existsb (uses j) (c_threads s) = false
    | VClone j => existsb (writes j) (c_threads s) = false
    | _ => True
    end.
  Proof.
    intros s t e s' o H. unfold cstep in H. destruct (nth_error (c_threads s) t) as [p|]; [|discriminate].
    destruct e as [|j a d|j|j|j|i| |j|a|i|tg d|mm d d' a|tg k j d|i j|c d|a j d|tg i| | | |]; auto; destruct p as [|h is x|w|h fr en|h fr x fl old]; try discriminate H.
    all: try (destruct w; discriminate H).
    all: try (unfold at_step in H; destruct (look (c_mem s) x); discriminate H).
    - destruct (nth_error (c_handles s) j) as [[[r|]|]|]; try discriminate. destruct (existsb _ _); [discriminate|auto].
    - destruct (nth_error (c_handles s) j) as [[r|]|]; try discriminate. destruct (existsb _ _); [discriminate|auto].
    - destruct (nth_error (c_handles s) j) as [[r|]|]; try discriminate. destruct (existsb _ _); [discriminate|auto].
    - destruct (nth_error (c_handles s) j) as [[[r|]|]|]; try discriminate. destruct (existsb _ _); [discriminate|auto].
  Qed.

  Lemma snoc_other : forall {A} (l : list A) x h, h <> length l -> nth_error (l ++ [x]) h = nth_error l h.
  Proof.
    intros A l x h N. destruct (lt_dec h (length l)) as [L|L]; [apply nth_error_app1; exact L|]. rewrite (proj2 (nth_error_None l h)) by lia. apply nth_error_None. rewrite app_length. cbn. lia.
  Qed.
  Lemma snoc_last : forall {A} (l : list A) x, nth_error (l ++ [x]) (length l) = Some x.
  Proof. intros A l x. rewrite nth_error_app2, Nat.sub_diag by lia. reflexivity. Qed.

  Theorem kinv_kstep : forall k sp x k', kinv k sp -> kstep X Y M k x = Some k' -> exists sp', kinv k' sp'.
  Proof.
    intros k sp x k' K H. destruct x as [t c a|t a|t a|t|t tg i|t j|t i|t]; cbn [kstep] in H.
    - destruct (nth_error (k_todo k) t) as [[|]|] eqn:NT; try discriminate. destruct (steps_of X Y M (k_trees k) c) as [[e es]|] eqn:ES; [|discriminate]. destruct (seq1 X Y M (k_trees k) c) as [ts|] eqn:EQ; [|discriminate].
      destruct (machine k t (placed a e)) as [s'|] eqn:Em; [|discriminate]. injection H as <-. destruct (machine_rel _ _ _ _ _ K Em) as [I' R'].
      pose proof (machine_next _ _ _ _ Em) as [o Hc]. pose proof (pc_idle _ _ _ _ _ _ (ki_rel _ _ K) Hc) as PI. pose proof (cstep_free _ _ _ _ _ Hc) as FR. pose proof (seq_steps _ _ _ _ _ ES EQ) as Z.
      pose proof (ki_len _ _ K) as LEN.
      assert (ID : forall q : sthread D, nth_error (s_threads sp) t = Some q -> s_threads sp = replace_at t q (s_threads sp)) by (intros q Q; symmetry; apply replace_id; exact Q).
      assert (OUT : forall t' is fl old, t' <> t -> nth_error (s_threads sp) t' <> Some (SIns (length (s_trees sp)) is fl old)).
      { intros t' is fl old _ N'. pose proof (ki_thread _ _ K _ _ N') as (es1 & R & r & _ & ZZ & _). apply nth_error_lt in ZZ. lia. }
      destruct c as [|nop j hints idx slice size|j|j].
      + destruct Z as (-> & -> & ->). cbn [placed sstep fst] in *. exists (add sp (Some None)).
        eapply (kinv_step k sp t SNone s' (add sp (Some None)) SNone [] _ (length (s_trees sp))); auto.
        * intros h NE. cbn [add s_trees]. rewrite !snoc_other by lia. auto.
        * unfold tgood. rewrite replace_id by exact NT. exact NT.
        * cbn [add s_trees]. rewrite snoc_last, LEN, snoc_last. reflexivity.
      + destruct Z as (r & r1 & NJ & -> & Z). assert (LJ : j < length (s_trees sp)) by (eapply ki_some; eauto). destruct r as [r0|].
        * destruct Z as (-> & b & -> & RUN). cbn [placed sstep fst] in *. pose proof (unused _ _ _ (ki_rel _ _ K) FR) as UN.
          assert (TJ : nth_error (s_trees sp) j = Some (Some (Some (rose_of (r_height r0) (r_node r0))))).
          { rewrite (ki_tree _ _ K), NJ; [reflexivity|]. intros t1 is fl old N1. exact (UN _ _ N1 eq_refl). }
          exists (sgo sp t (SIns j [] [] [])).
          eapply (kinv_step k sp t SNone s' _ (SIns j [] [] []) _ _ j); auto.
          -- intros h NE. cbn [sgo s_trees]. rewrite replace_nth_other by auto. auto.
          -- intros t' is fl old _ N'. exact (UN _ _ N' eq_refl).
          -- unfold tgood. exists b, (rose_of (r_height r0) (r_node r0)), r1. split; [apply replace_nth_same; eapply nth_error_lt; eauto|]. split; [exact TJ|]. split; [apply replace_nth_same; lia|exact RUN].
        * destruct Z as (-> & -> & RO). cbn [placed sstep fst] in *. pose proof (unused _ _ _ (ki_rel _ _ K) FR) as UN.
          eexists. eapply (kinv_step k sp t SNone s' _ SNone [] _ j); [exact K|exact PI|exact I'|exact R'| | | | | |]; auto.
          -- intros h NE. cbn [shand s_trees]. rewrite !replace_nth_other by auto. auto.
          -- intros t' is fl old _ N'. exact (UN _ _ N' eq_refl).
          -- unfold tgood. rewrite replace_id by exact NT. exact NT.
          -- cbn [shand s_trees]. rewrite !replace_nth_same by lia. cbn [option_map rle_rose]. rewrite RO. reflexivity.
      + destruct Z as (-> & -> & r & NJ & ->). cbn [placed sstep fst] in *. pose proof (unwritten _ _ _ (ki_rel _ _ K) FR) as UN.
        assert (TJ : nth_error (s_trees sp) j = Some (Some (rle_rose r))) by (rewrite (ki_tree _ _ K), NJ by exact UN; reflexivity).
        assert (TO : tree_of sp j = rle_rose r) by (unfold tree_of; rewrite TJ; reflexivity). rewrite TO in R'.
        eexists. eapply (kinv_step k sp t SNone s' _ SNone [] _ (length (s_trees sp))); [exact K|exact PI|exact I'|exact R'| | | | | |]; auto.
        * intros h NE. cbn [add s_trees]. rewrite !snoc_other by lia. auto.
        * unfold tgood. rewrite replace_id by exact NT. exact NT.
        * cbn [add s_trees]. rewrite snoc_last, LEN, snoc_last. reflexivity.
      + destruct Z as (-> & -> & (r & NJ) & ->). cbn [placed sstep fst] in *. pose proof (unused _ _ _ (ki_rel _ _ K) FR) as UN. assert (LJ : j < length (s_trees sp)) by (eapply ki_some; eauto).
        eexists. eapply (kinv_step k sp t SNone s' _ SNone [] _ j); [exact K|exact PI|exact I'|exact R'| | | | | |]; auto.
        * intros h NE. cbn [shand s_trees]. rewrite !replace_nth_other by auto. auto.
        * intros t' is fl old _ N'. exact (UN _ _ N' eq_refl).
        * unfold tgood. rewrite replace_id by exact NT. exact NT.
        * cbn [shand s_trees]. rewrite !replace_nth_same by lia. reflexivity.
    - destruct (nth_error (k_todo k) t) as [[|e es]|] eqn:NT; try discriminate. destruct (machine k t (placed a e)) as [s'|] eqn:Em; [|discriminate]. injection H as <-.
      destruct (machine_rel _ _ _ _ _ K Em) as [I' R']. pose proof (machine_next _ _ _ _ Em) as [o Hc].
      destruct (nth_error (s_threads sp) t) as [q|] eqn:N.
      2: { exfalso. pose proof (r_threads _ _ (ki_rel _ _ K) t) as Q. rewrite N in Q. unfold cstep in Hc. destruct (nth_error (c_threads (k_c k)) t); [contradiction|discriminate]. }
      pose proof (ki_thread _ _ K _ _ N) as G. destruct q as [|h is|h is fl old]; cbn [tgood] in G; try (rewrite NT in G; discriminate).
      destruct G as (b & R & r & NB & TR & TS & RUN). rewrite NT in NB. injection NB as NB.
      assert (EX : forall t' is' fl' old', t' <> t -> nth_error (s_threads sp) t' <> Some (SIns h is' fl' old')).
      { intros t' is' fl' old' NE N'. apply NE. eapply (one_writer _ _ _ _ _ _ _ _ _ _ _ (ki_inv _ _ K) (ki_rel _ _ K)); eauto. }
      destruct b as [|e' b]; cbn [app] in NB; injection NB as -> ->.
      + cbn [lrun] in RUN. injection RUN as -> -> -> ->. cbn [placed] in *. unfold sstep in R'. cbn [fst] in R'.
        eexists. eapply (kinv_step k sp t _ s' _ SNone [] _ h); [exact K|exact N|exact I'|exact R'| | | |reflexivity| |]; auto.
        * unfold tgood. apply replace_nth_same. eapply nth_error_lt; eauto.
        * cbn [sgo s_trees]. rewrite TR, TS. reflexivity.
      + cbn [lrun] in RUN. destruct (lstep (R, is, fl, old) e') as [[[[R1 is1] fl1] old1]|] eqn:EL; [|discriminate].
        rewrite (lstep_sstep sp t h is fl old R _ R1 is1 fl1 old1 N TR (placed_same a _ _ _ EL)) in R'.
        eexists. eapply (kinv_step k sp t _ s' _ (SIns h is1 fl1 old1) _ _ h); [exact K|exact N|exact I'|exact R'| | | |reflexivity| |reflexivity]; auto.
        * intros h1 NE. cbn [s_trees]. rewrite replace_nth_other by auto. auto.
        * unfold tgood. exists b, R1, r. split; [apply replace_nth_same; eapply nth_error_lt; eauto|]. split; [cbn [s_trees]; apply replace_nth_same; eapply nth_error_lt; eauto|]. split; auto.
    - exists sp. eapply kinv_quiet; eauto.
    - exists sp. eapply kinv_quiet; eauto.
    - exists sp. eapply kinv_quiet; eauto.
    - pose proof H as H'. unfold only in H'. destruct (machine k t (VRead j)) as [s'|] eqn:Em; [|discriminate]. pose proof (machine_next _ _ _ _ Em) as [o Hc]. pose proof (pc_idle _ _ _ _ _ _ (ki_rel _ _ K) Hc) as PI. cbn in PI.
      eapply kinv_read; [exact K|exact H|rewrite PI; exact Logic.I| |reflexivity]. exact Logic.I.
    - pose proof H as H'. unfold only in H'. destruct (machine k t (VDown i)) as [s'|] eqn:Em; [|discriminate]. pose proof (machine_next _ _ _ _ Em) as [o Hc]. pose proof (pc_idle _ _ _ _ _ _ (ki_rel _ _ K) Hc) as (h & is & PI).
      eapply (kinv_read k sp t _ k' (SRead h (i :: is))); [exact K|exact H|rewrite PI; exact Logic.I|exact Logic.I|]. unfold sstep. rewrite PI. reflexivity.
    - pose proof H as H'. unfold only in H'. destruct (machine k t VReadEnd) as [s'|] eqn:Em; [|discriminate]. pose proof (machine_next _ _ _ _ Em) as [o Hc]. pose proof (pc_idle _ _ _ _ _ _ (ki_rel _ _ K) Hc) as (h & is & PI).
      eapply kinv_read; [exact K|exact H|rewrite PI; exact Logic.I| |reflexivity]. exact Logic.I.
  Qed.

  Lemma kinv_start : forall n, kinv (kstart n) (sstart n).
  Proof.
    intros n. constructor; cbn [kstart k_c k_todo k_trees].
    - apply start_inv.
    - apply start_rel.
    - intros t q N. unfold sstart in N. cbn [s_threads] in N. pose proof (nth_error_In _ _ N) as Z. apply repeat_spec in Z. subst q. cbn [tgood].
      apply nth_error_lt in N. rewrite repeat_length in N. clear - N. revert t N. induction n as [|n IH]; intros [|t] N; cbn; [lia|lia|reflexivity|apply IH; lia].
    - intros j _. cbn [sstart s_trees]. destruct j; reflexivity.
  Qed.

  Theorem kinv_krun : forall xs k sp k', kinv k sp -> krun X Y M k xs = Some k' -> exists sp', kinv k' sp'.
  Proof.
    induction xs as [|x xs IH]; intros k sp k' K H; cbn [krun] in H; [injection H as <-; eauto|].
    destruct (kstep X Y M k x) as [k1|] eqn:E; [|discriminate]. destruct (kinv_kstep _ _ _ _ K E) as [sp1 K1]. eauto.
  Qed.

  (** ** The calls, one after another *)
  Lemma krun_seq : forall xs k k', krun X Y M k xs = Some k' -> seq X Y M (k_trees k) (calls xs) = Some (k_trees k').
  Proof.
    induction xs as [|x xs IH]; intros k k' H; cbn [krun calls flat_map seq] in *; [injection H as <-; reflexivity|].
    destruct (kstep X Y M k x) as [k1|] eqn:E; [|discriminate]. specialize (IH _ _ H).
    destruct x as [t c a|t a|t a|t|t tg i|t j|t i|t]; cbn [kstep] in E; cbn [app].
    - destruct (nth_error (k_todo k) t) as [[|]|]; try discriminate. destruct (steps_of X Y M (k_trees k) c) as [[e es]|]; [|discriminate]. cbn [seq]. destruct (seq1 X Y M (k_trees k) c) as [ts|]; [|discriminate].
      destruct (machine k t (placed a e)); [|discriminate]. injection E as <-. exact IH.
    - destruct (nth_error (k_todo k) t) as [[|e es]|]; try discriminate. destruct (machine k t (placed a e)); [|discriminate]. injection E as <-. exact IH.
    - unfold only in E. destruct (machine _ _ _); [|discriminate]. injection E as <-. exact IH.
    - unfold only in E. destruct (machine _ _ _); [|discriminate]. injection E as <-. exact IH.
    - unfold only in E. destruct (machine _ _ _); [|discriminate]. injection E as <-. exact IH.
    - unfold only in E. destruct (machine _ _ _); [|discriminate]. injection E as <-. exact IH.
    - unfold only in E. destruct (machine _ _ _); [|discriminate]. injection E as <-. exact IH.
    - unfold only in E. destruct (machine _ _ _); [|discriminate]. injection E as <-. exact IH.
  Qed.

  Lemma kstep_cstep : forall k x k', kstep X Y M k x = Some k' -> exists t e o, cstep (k_c k) t e = Next (k_c k') o.
  Proof.
    intros k x k' E.
    destruct x as [t c a|t a|t a|t|t tg i|t j|t i|t]; cbn [kstep] in E.
    - destruct (nth_error (k_todo k) t) as [[|]|]; try discriminate. destruct (steps_of X Y M (k_trees k) c) as [[e es]|]; [|discriminate]. destruct (seq1 X Y M (k_trees k) c) as [ts|]; [|discriminate].
      destruct (machine k t (placed a e)) eqn:Em; [|discriminate]. injection E as <-. apply machine_next in Em. destruct Em. eauto.
    - destruct (nth_error (k_todo k) t) as [[|e es]|]; try discriminate. destruct (machine k t (placed a e)) eqn:Em; [|discriminate]. injection E as <-. apply machine_next in Em. destruct Em. eauto.
    - unfold only in E. destruct (machine _ _ _) eqn:Em; [|discriminate]. injection E as <-. apply machine_next in Em. destruct Em. eauto.
    - unfold only in E. destruct (machine _ _ _) eqn:Em; [|discriminate]. injection E as <-. apply machine_next in Em. destruct Em. eauto.
    - unfold only in E. destruct (machine _ _ _) eqn:Em; [|discriminate]. injection E as <-. apply machine_next in Em. destruct Em. eauto.
    - unfold only in E. destruct (machine _ _ _) eqn:Em; [|discriminate]. injection E as <-. apply machine_next in Em. destruct Em. eauto.
    - unfold only in E. destruct (machine _ _ _) eqn:Em; [|discriminate]. injection E as <-. apply machine_next in Em. destruct Em. eauto.
    - unfold only in E. destruct (machine _ _ _) eqn:Em; [|discriminate]. injection E as <-. apply machine_next in Em. destruct Em. eauto.
  Qed.
  Lemma krun_crun : forall xs k k', krun X Y M k xs = Some k' -> exists es outs, crun (k_c k) es = Some (outs, k_c k').
  Proof.
    induction xs as [|x xs IH]; intros k k' H; cbn [krun] in H; [injection H as <-; exists [], []; reflexivity|].
    destruct (kstep X Y M k x) as [k1|] eqn:E; [|discriminate]. destruct (kstep_cstep _ _ _ E) as (t & e & o & Hc). destruct (IH _ _ H) as (es & outs & Hr).
    exists ((t, e) :: es). cbn [crun]. rewrite Hc, Hr. eauto.
  Qed.
End R.
