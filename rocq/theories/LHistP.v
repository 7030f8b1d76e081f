(** Histories of a tree with references.  Proof support only. *)
From Coq Require Import List ZArith Lia Bool Arith Permutation.
From Verif Require Import Base Index Slice Tree Insert Spec Zip Rep Upd Leaf Path Ops Find Ins IterP LTree LInsert LTreeP LUpP LLeafP LShape LShapeP LUpdP LPlanP LEffP Iter IterQ HistP RefSpec LRef LMemP LClimbP LLenP LSpec LPassP LInvP.
Import ListNotations.
Local Open Scope Z_scope.

Section Refs.
  Context {I V : Type} (X : index_ops I) (MAX : Z) (inj : Z -> I) (M : nat) (L : index_laws X MAX inj) (HM : (1 <= M)%nat) (Y : slice_ops I V).
  Notation run := (prod V Z) (only parsing).
  Notation pinv := (@pinv I V MAX inj M).

  (** The run with reference id [r] starts at [a]. *)
  Definition at_start (l : list run) (R : list (option rid)) (r : rid) (a : Z) : Prop :=
    exists A s z B, l = A ++ (s, z) :: B /\ nth_error R (length A) = Some (Some r) /\ rsum A = a.

  Lemma start_at_app : forall (A : list run) s z B p, pos_runs (A ++ (s, z) :: B) -> rsum A <= p < rsum A + z -> start_at (A ++ (s, z) :: B) p = Some (rsum A).
  Proof. intros A s z B p Hp Hi. unfold start_at. rewrite covering_app by auto. reflexivity. Qed.

  Lemma at_start_shift : forall l R l' R' idx n i r a, length R = length l -> length R' = length l' -> pos_runs l -> pos_runs l' -> 0 < n ->
    shift idx n (dec l R) (dec l' R') i -> at_start l R r a ->
    exists a', follow l' idx n a = Some a' /\ at_start l' R' r a'.
  Proof.
    intros l R l' R' idx n i r a HR HR' Hp Hp' Hn Hsh (A & s & z & B & -> & Hr & <-).
    pose proof (nth_split3 _ _ _ Hr) as ER. set (RA := firstn (length A) R) in *. set (RB := skipn (S (length A)) R) in *.
    assert (HRA : length RA = length A) by (unfold RA; rewrite firstn_length, HR, app_length; lia).
    assert (ED : dec (A ++ (s, z) :: B) R = dec A RA ++ (z, Some r) :: dec B RB).
    { rewrite ER, dec_app by exact HRA. rewrite dec_cons. reflexivity. }
    destruct (shift_ref _ _ _ _ _ _ _ _ _ Hsh (dec_pos _ _ HR Hp) Hn ED) as (P' & w' & Q' & E' & Hlo).
    destruct (dec_inv _ _ _ _ _ _ HR' E') as (A' & s' & B' & LA & LB & -> & -> & <- & _ & HLA & _).
    rewrite (dec_sum _ _ HRA), (dec_sum _ _ HLA) in Hlo. exists (rsum A'). split.
    - unfold follow. apply start_at_app; auto.
    - exists A', s', w', B'. split; [reflexivity|]. split; [|reflexivity]. rewrite nth_error_app2, HLA, Nat.sub_diag by lia. reflexivity.
  Qed.

  Lemma at_start_put : forall l R i r r' o a, nth_error R i = Some o -> (forall x, o = Some x -> r' = x) -> at_start l R r a -> at_start l (replace_at i (Some r') R) r a.
  Proof.
    intros l R i r r' o a Hi Ho (A & s & z & B & -> & Hr & Ha). exists A, s, z, B. split; [reflexivity|]. split; [|exact Ha].
    destruct (Nat.eq_dec i (length A)) as [->|Hne].
    - rewrite Hr in Hi. injection Hi as <-. rewrite (Ho _ eq_refl). apply replace_at_nth. apply nth_error_Some. rewrite Hr. discriminate.
    - rewrite replace_at_other by auto. exact Hr.
  Qed.

  Definition rinv (t : rtree) (l : list run) (starts : list Z) : Prop :=
    pinv (rt_tree t) (rt_heap t) l /\ Forall2 (at_start l (lrefs (pt_nodes (rt_tree t)))) (rt_refs t) starts.

  Lemma add_ref_ok : forall (t : rtree) A s z B starts lc o, rinv t (A ++ (s, z) :: B) starts ->
    nth_error (linord (pt_nodes (rt_tree t))) (length A) = Some (Some lc, o) ->
    exists t' r, add_ref t lc = Ok t' /\ rinv t' (A ++ (s, z) :: B) (starts ++ [rsum A]) /\ rt_refs t' = rt_refs t ++ [r].
  Proof.
    intros t A s z B starts lc o [P HF] Hi.
    destruct (make_ref_ok X MAX inj M L HM _ _ _ _ _ _ P Hi) as (t' & hp' & r & E & P' & Er & Erf & Ho & _ & _ & _).
    assert (Hl : nth_error (lrefs (pt_nodes (rt_tree t))) (length A) = Some o) by (unfold lrefs; rewrite nth_error_map, Hi; reflexivity).
    unfold add_ref. rewrite E. cbn [bind]. eexists. exists r. split; [reflexivity|]. split; [|reflexivity]. split; cbn [rt_tree rt_heap rt_refs]; [exact P'|].
    apply Forall2_app; [|constructor; [|constructor]].
    - rewrite Erf. clear - HM HF Hl Ho. induction HF; constructor; auto. eapply at_start_put; eauto.
    - exists A, s, z, B. split; [reflexivity|]. split; [|reflexivity]. rewrite Erf. apply replace_at_nth. apply nth_error_Some. rewrite Hl. discriminate.
  Qed.

  Lemma ref_view_ok : forall t hp l r a, pinv t hp l -> at_start l (lrefs (pt_nodes t)) r a ->
    exists b s, covering l a = Some (a, b, s) /\ ref_view X t hp r = Ok (inj a, inj b, s).
  Proof.
    intros t hp l r a P (A & s & z & B & E & Hr & <-). exists (rsum A + z), s.
    pose proof (rle_rep_pos inj M _ _ (pi_rep _ _ _ _ _ _ P)) as Hp.
    assert (Hz : 0 < z) by (rewrite E in Hp; apply pos_runs_app in Hp; destruct Hp as [_ Hp]; exact (Forall_inv Hp)).
    split; [rewrite E in *; apply covering_app; [exact Hp|lia]|].
    unfold lrefs in Hr. rewrite nth_error_map in Hr. destruct (nth_error (linord (pt_nodes t)) (length A)) as [[ol o]|] eqn:Hi; [|discriminate].
    cbn [option_map snd] in Hr. injection Hr as ->.
    destruct (linord_addr _ _ _ (nth_error_In _ _ Hi)) as (ad & k & -> & _).
    pose proof (Sok_in _ _ _ _ (pi_sok _ _ _ _ _ _ P) (nth_error_In _ _ Hi)) as Hs. unfold ref_view. rewrite Hs.
    pose proof (pi_rep _ _ _ _ _ _ P) as Hrep. pose proof (pi_shape _ _ _ _ _ _ P) as Hsh.
    destruct (pt_rle t) as [rr|] eqn:Er; cbn [Ins.rle_rep rshape] in *; [|subst l; destruct A; discriminate]. destruct Hrep as [Hrep _].
    destruct (handle_view_ok X MAX inj M L HM t rr Er l Hrep (pi_max _ _ _ _ _ _ P) Hsh (pi_lok _ _ _ _ _ _ P) (pi_nodup _ _ _ _ _ _ P) _ _ _ _ _ _ _ E Hi)
      as (p & h' & n & q & rs & ks & _ & _ & _ & _ & Hrg & Hv & _).
    rewrite Hrg. cbn [bind]. rewrite Hv. reflexivity.
  Qed.

  Lemma refs_same : forall t hp l r r' a a', pinv t hp l -> at_start l (lrefs (pt_nodes t)) r a -> at_start l (lrefs (pt_nodes t)) r' a' -> (r = r' <-> a = a').
  Proof.
    intros t hp l r r' a a' P (A & s & z & B & E & Hr & <-) (A' & s' & z' & B' & E' & Hr' & <-).
    pose proof (rle_rep_pos inj M _ _ (pi_rep _ _ _ _ _ _ P)) as Hp.
    assert (Hlen : r = r' -> length A = length A').
    { intros <-. pose proof (pi_rids _ _ _ _ _ _ P) as Hnd. revert Hr Hr' Hnd. generalize (lrefs (pt_nodes t)) (length A) (length A'). clear.
      induction l as [|o l IH]; intros [|i] [|j] H1 H2 Hn; try discriminate; auto; cbn [nth_error rids flat_map] in *.
      - injection H1 as ->. cbn [orid app] in Hn. apply NoDup_cons_iff in Hn. destruct Hn as [Hn _]. destruct Hn. apply nth_error_In in H2. apply in_rids. exact H2.
      - injection H2 as ->. cbn [orid app] in Hn. apply NoDup_cons_iff in Hn. destruct Hn as [Hn _]. destruct Hn. apply nth_error_In in H1. apply in_rids. exact H1.
      - f_equal. apply IH; auto. apply nodup_app_iff in Hn. tauto. }
    split.
    - intros Er. specialize (Hlen Er). rewrite E in E'. apply app_mid_inv in E'; [|exact Hlen]. destruct E' as (-> & _). reflexivity.
    - intros Ea. assert (Hl : length A = length A').
      { rewrite E in E', Hp. destruct (app_app_inv _ _ _ _ E') as [(u & EA & EB)|(u & EA & EB)]; destruct u as [|[s0 z0] u]; subst; rewrite ?app_nil_r; auto; exfalso.
        - autorewrite with rs in Ea. cbn [app] in Hp. apply pos_runs_app in Hp. destruct Hp as [Hp _]. apply pos_runs_app in Hp. destruct Hp as [_ Hp].
          pose proof (Forall_inv Hp) as Hz0. pose proof (pos_runs_nonneg _ (Forall_inv_tail Hp)). cbn [rsum snd] in *. lia.
        - injection EB as <- <- ->. autorewrite with rs in Ea. cbn [rsum] in Ea. apply pos_runs_app in Hp. destruct Hp as [_ Hp].
          pose proof (Forall_inv Hp) as Hz0. pose proof (Forall_inv_tail Hp) as Hp2. apply (pos_runs_app u) in Hp2. pose proof (pos_runs_nonneg _ (proj1 Hp2)). cbn [snd] in *. lia. }
      rewrite Hl, Hr' in Hr. congruence.
  Qed.

  (** ** One call *)
  Lemma p_insert_panic : forall nop t hp l hints idx x n w, pinv t hp l -> 0 <= idx <= MAX -> 0 <= n -> rsum l + n <= MAX -> spec_insert Y inj l idx x n = Panic w ->
    p_insert X Y M nop t hp hints (inj idx) x (inj n) = Panic w.
  Proof.
    intros nop t hp l hints idx x n w P Hi Hn Hm E.
    pose proof (insert_full_ok X Y MAX inj M L HM nop _ _ hints idx x n (pi_rep _ _ _ _ _ _ P) Hi Hn Hm) as G. rewrite E in G.
    unfold p_insert. rewrite G. reflexivity.
  Qed.

  Lemma spec_ok_inv : forall l idx x n l', spec_insert Y inj l idx x n = Ok l' -> idx <= rsum l /\ 0 < n /\ insert_runs Y inj l idx x n = Ok l'.
  Proof.
    intros l idx x n l' E. unfold spec_insert in E. destruct (Z.ltb_spec (rsum l) idx); [discriminate|]. destruct (Z.leb_spec n 0); [discriminate|]. repeat split; auto; lia.
  Qed.

  Lemma insert_refs : forall (t : rtree) l starts idx x n l', rinv t l starts -> 0 <= idx -> rsum l + n <= MAX -> spec_insert Y inj l idx x n = Ok l' ->
    exists p hp lc log starts', p_insert X Y M true (rt_tree t) (rt_heap t) [] (inj idx) x (inj n) = Ok (p, hp, Some lc, log) /\
      all_some (map (follow l' idx n) starts) = Some starts' /\
      rinv {| rt_tree := p; rt_heap := hp; rt_refs := rt_refs t |} l' starts' /\
      (passed_over Y inj M (pt_rle (rt_tree t)) l idx x /\ add_ref {| rt_tree := p; rt_heap := hp; rt_refs := rt_refs t |} lc = UB \/
       ~ passed_over Y inj M (pt_rle (rt_tree t)) l idx x /\ exists A s z B o, l' = A ++ (s, z) :: B /\ rsum A <= idx /\ idx + n <= rsum A + z /\
         nth_error (linord (pt_nodes p)) (length A) = Some (Some lc, o)).
  Proof.
    intros t l starts idx x n l' [P HF] Hi Hm E. destruct (spec_ok_inv _ _ _ _ _ E) as (Hi2 & Hn & El).
    destruct (p_insert_ok X MAX inj M L HM Y true _ _ l [] idx x n l' P ltac:(lia) Hn Hm El) as (p & hp & lc & log & i & Ep & P' & Hsh & Hie & _ & Hh & _ & _).
    pose proof (rle_rep_pos inj M _ _ (pi_rep _ _ _ _ _ _ P)) as Hp. pose proof (rle_rep_pos inj M _ _ (pi_rep _ _ _ _ _ _ P')) as Hp'.
    pose proof (pinv_len MAX inj M HM _ _ _ P) as HR. pose proof (pinv_len MAX inj M HM _ _ _ P') as HR'.
    assert (G : exists starts', all_some (map (follow l' idx n) starts) = Some starts' /\ Forall2 (at_start l' (lrefs (pt_nodes p))) (rt_refs t) starts').
    { clear - HM HF HR HR' Hp Hp' Hn Hsh. induction HF as [|r a refs starts Ha HF (ss & IH1 & IH2)]; [exists []; split; [reflexivity|constructor]|].
      destruct (at_start_shift _ _ _ _ _ _ _ _ _ HR HR' Hp Hp' Hn Hsh Ha) as (a' & Hf & Ha'). exists (a' :: ss). cbn [map all_some]. rewrite Hf, IH1. split; [reflexivity|constructor; auto]. }
    destruct G as (starts' & G1 & G2). exists p, hp, lc, log, starts'. split; [exact Ep|]. split; [exact G1|]. split; [split; auto|].
    destruct Hh as (b & Hb & Hh). rewrite (passed_shape M HM), Hie in Hb. change (b = true <-> passed_over Y inj M (pt_rle (rt_tree t)) l idx x) in Hb. destruct b.
    { left. split; [apply Hb; reflexivity|]. unfold add_ref. cbn [rt_tree rt_heap]. rewrite (stale_make_ref M HM _ _ _ Hh). reflexivity. }
    right. split; [rewrite <- Hb; discriminate|]. destruct Hh as (o & Ho).
    destruct (shift_new _ _ _ _ _ Hsh (dec_pos _ _ HR Hp) Hn) as (P0 & w & r & Q & ED & Hlen & H1 & H2).
    destruct (dec_inv _ _ _ _ _ _ HR' ED) as (A & s & B & LA & LB & -> & ER & EP & _ & HLA & HlA).
    rewrite <- EP, (dec_sum _ _ HLA) in H1, H2. exists A, s, w, B, o. split; [reflexivity|]. split; [exact H1|]. split; [exact H2|]. rewrite HlA, Hlen. exact Ho.
  Qed.

  Lemma get_handle_ok : forall t hp l tau hints, pinv t hp l -> 0 <= tau < rsum l ->
    exists A s z B lc o, run_at l tau A s z B /\ get_handle X t hints (inj tau) = Ok lc /\ nth_error (linord (pt_nodes t)) (length A) = Some (Some lc, o).
  Proof.
    intros t hp l tau hints P Ht. pose proof (pi_rep _ _ _ _ _ _ P) as Hrep. pose proof (pi_shape _ _ _ _ _ _ P) as Hsh. pose proof (pi_max _ _ _ _ _ _ P) as Hm.
    unfold get_handle. rewrite (rle_size_ok X MAX inj M L _ _ Hrep). cbn [bind].
    rewrite (il_zero _ _ _ L), (il_ltb _ _ _ L) by lia. destruct (Z.ltb_spec tau 0); [lia|].
    unfold ix_leb. rewrite (il_ltb _ _ _ L) by lia. destruct (Z.ltb_spec tau (rsum l)); [|lia]. cbn [negb].
    destruct (pt_rle t) as [rr|] eqn:Er; cbn [Ins.rle_rep rshape] in *; [|subst l; cbn in Ht; lia]. destruct Hrep as [Hrep _].
    destruct (find_handle_ok X MAX inj M L HM _ _ _ _ _ _ tau hints Hrep (pi_lok _ _ _ _ _ _ P) Hsh Ht Hm) as (A & s & z & B & p & k & n & a & q & rs & ks & Hr & Erk & Ef & Ha).
    rewrite rank_shape, Hsh in Erk.
    destruct (rank_at M HM p (r_height rr) _ (r_node rr) _ _ _ (pi_lok _ _ _ _ _ _ P) Hsh Erk) as (n' & a' & q' & rs' & ks' & o & E1 & E2 & E3 & _).
    rewrite Ha in E1. injection E1 as <- <- <- <- <-. exists A, s, z, B, (a, k), o. auto.
  Qed.

  Lemma start_at_none : forall (l : list run) p, pos_runs l -> 0 <= p -> start_at l p = None -> rsum l <= p.
  Proof.
    intros l p Hp H0 E. destruct (Z.le_gt_cases (rsum l) p) as [|Hlt]; auto. exfalso.
    assert (G : forall (l : list run) off, off <= p < off + rsum l -> find (fun e : Z * Z * V => (fst (fst e) <=? p) && (p <? snd (fst e))) (spans off l) <> None).
    { clear. induction l as [|[s z] l IH]; intros off Hp; cbn [rsum spans find fst snd] in *; [lia|].
      destruct (Z.leb_spec off p); [|lia]. cbn [andb]. destruct (Z.ltb_spec p (off + z)); [discriminate|]. apply IH. lia. }
    unfold start_at, covering in E. specialize (G l 0 ltac:(lia)). destruct (find _ _); [discriminate|contradiction].
  Qed.

  (** ** Histories *)
  Definition run_ok (t : rtree) (calls : list (rcall V)) (o : res (list run * list Z)) : Prop :=
    match o with
    | Ok (l, starts) => exists t', rt_run X Y M inj t calls = Ok t' /\ rinv t' l starts
    | Panic w => rt_run X Y M inj t calls = Panic w
    | UB => False
    end.

  Lemma csum_nonneg : forall calls : list (rcall V), Forall (fun c => match c with CInsert i _ n | CInsertRef i _ n => 0 <= i <= MAX /\ 0 <= n | CMakeRef i => 0 <= i <= MAX end) calls -> 0 <= csum calls.
  Proof. induction 1 as [|c calls H _ IH]; cbn [csum]; [lia|]. destruct c; lia. Qed.

  Lemma rt_run_ok : forall calls (t : rtree) l starts, rinv t l starts -> calls_fit MAX calls -> rsum l + csum calls <= MAX ->
    run_ok t calls (ref_run Y inj l starts calls) \/ rt_run X Y M inj t calls = UB /\ refs_safe Y inj l calls = false.
  Proof.
    induction calls as [|c calls IH]; intros t l starts R [Hf Hs] Hm.
    - left. cbn. exists t. auto.
    - inversion Hf as [|? ? Hc Hf']; subst. pose proof (csum_nonneg _ Hf') as Hcs. pose proof R as [P HF].
      pose proof (rle_rep_pos inj M _ _ (pi_rep _ _ _ _ _ _ P)) as Hp. pose proof (pos_runs_nonneg _ Hp) as Hnn.
      unfold run_ok. cbn [ref_run rt_run]. destruct c as [i x n|i x n|i]; cbn [csum refs_safe rt_call] in *.
      + unfold ref_insert. destruct (spec_insert Y inj l i x n) as [l'|w|] eqn:E.
        * cbn [bind]. destruct (insert_refs t l starts i x n l' R ltac:(lia) ltac:(lia) E) as (p & hp & lc & log & ss & Ep & Ess & R' & _).
          rewrite Ess. cbn [bind]. rewrite Ep. cbn [bind]. apply IH; auto.
          -- split; auto; lia.
          -- destruct (spec_insert_sum _ _ _ _ _ _ _ E). lia.
        * left. cbn [bind]. rewrite (p_insert_panic true _ _ l [] i x n w P) by (auto; lia). reflexivity.
        * cbn [bind]. pose proof (insert_full_ok X Y MAX inj M L HM true _ _ [] i x n (pi_rep _ _ _ _ _ _ P) ltac:(lia) ltac:(lia) ltac:(lia)) as G. rewrite E in G. destruct G.
      + unfold ref_insert. destruct (spec_insert Y inj l i x n) as [l'|w|] eqn:E.
        * cbn [bind]. destruct (insert_refs t l starts i x n l' R ltac:(lia) ltac:(lia) E) as (p & hp & lc & log & ss & Ep & Ess & R' & Hh).
          destruct Hh as [[[Hlj _] Hu]|(_ & A & s & z & B & o & -> & H1 & H2 & Ho)].
          { right. rewrite Ep. cbn [bind]. rewrite Hu, Hlj. auto. } destruct (spec_ok_inv _ _ _ _ _ E) as (_ & Hn & _).
          pose proof (rle_rep_pos inj M _ _ (pi_rep _ _ _ _ _ _ (proj1 R'))) as Hp'.
          rewrite Ess. cbn [bind]. rewrite Ep. cbn [bind]. unfold ref_add. rewrite start_at_app by (auto; lia). cbn [bind].
          destruct (add_ref_ok {| rt_tree := p; rt_heap := hp; rt_refs := rt_refs t |} _ _ _ _ _ _ _ R' Ho) as (t' & r & Ea & R2 & _). rewrite Ea. cbn [bind].
          edestruct IH as [G|[G1 G2]]; [exact R2|split; [exact Hf'|lia]|destruct (spec_insert_sum _ _ _ _ _ _ _ E); lia|left; exact G|right].
          split; [exact G1|]. rewrite G2. destruct (left_join_only Y inj l i x); reflexivity.
        * left. cbn [bind]. rewrite (p_insert_panic true _ _ l [] i x n w P) by (auto; lia). reflexivity.
        * cbn [bind]. pose proof (insert_full_ok X Y MAX inj M L HM true _ _ [] i x n (pi_rep _ _ _ _ _ _ P) ltac:(lia) ltac:(lia) ltac:(lia)) as G. rewrite E in G. destruct G.
      + unfold ref_add. destruct (Z.lt_ge_cases i (rsum l)) as [Hi|Hi].
        * destruct (get_handle_ok _ _ l i [] P ltac:(lia)) as (A & s & z & B & lc & o & [-> Hr] & Eg & Ho).
          rewrite start_at_app by auto. cbn [bind]. rewrite Eg. cbn [bind]. destruct (add_ref_ok t _ _ _ _ _ _ _ R Ho) as (t' & r & Ea & R2 & _). rewrite Ea. cbn [bind].
          apply IH; auto. split; auto.
        * assert (E : start_at l i = None).
          { unfold start_at, covering. destruct (find _ _) as [e|] eqn:Ef; auto. exfalso. apply find_some in Ef. destruct Ef as [Hin Hb].
            pose proof (spans_lo l 0 Hp) as Hsp. rewrite Forall_forall in Hsp. specialize (Hsp _ Hin). lia. }
          left. rewrite E. cbn [bind]. unfold get_handle. rewrite (rle_size_ok X MAX inj M L _ _ (pi_rep _ _ _ _ _ _ P)). cbn [bind].
          pose proof (pi_max _ _ _ _ _ _ P). rewrite (il_zero _ _ _ L), (il_ltb _ _ _ L) by lia. destruct (Z.ltb_spec i 0); [lia|].
          unfold ix_leb. rewrite (il_ltb _ _ _ L) by lia. destruct (Z.ltb_spec i (rsum l)); [lia|]. reflexivity.
  Qed.

  Lemma rinv_new : 0 <= MAX -> rinv rt_new [] [].
  Proof. intros H. split; [apply pinv_empty; auto|constructor]. Qed.

  Lemma rt_view_ok : forall (t : rtree) l starts, rinv t l starts ->
    exists vs, rt_view X t = Ok vs /\ Forall2 (fun a v => exists b s, covering l a = Some (a, b, s) /\ v = (inj a, inj b, s)) starts vs.
  Proof.
    intros t l starts [P HF]. unfold rt_view. induction HF as [|r a refs starts Ha HF (vs & IH1 & IH2)]; [exists []; split; [reflexivity|constructor]|].
    destruct (ref_view_ok _ _ _ _ _ P Ha) as (b & s & Hc & Hv). exists ((inj a, inj b, s) :: vs). cbn [mapM]. rewrite Hv. cbn [bind]. rewrite IH1. cbn [bind].
    split; [reflexivity|]. constructor; eauto.
  Qed.
End Refs.
