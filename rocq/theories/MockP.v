(** Proofs about the reference implementation: it refines the flat specification. *)
From Coq Require Import List ZArith Lia Bool Arith.
From Verif Require Import Base Index Slice Range Spec Rep Ins IterQ Mock ListFacts HistP.
Import ListNotations.

(** ** The reference map *)
Section IndexOf.
  (** Position of [id] in [ids]. *)
  Fixpoint index_of (id : nat) (ids : list nat) : option nat :=
    match ids with
    | [] => None
    | i :: ids' => if i =? id then Some 0 else option_map S (index_of id ids')
    end.

  Lemma index_of_app : forall id a b,
    index_of id (a ++ b) = match index_of id a with Some i => Some i | None => option_map (plus (length a)) (index_of id b) end.
  Proof.
    induction a as [|i a IH]; intros b; cbn [app index_of length].
    - destruct (index_of id b); reflexivity.
    - destruct (i =? id); auto. rewrite IH. destruct (index_of id a); cbn [option_map]; auto.
      destruct (index_of id b); reflexivity.
  Qed.

  Lemma index_of_lt : forall id a i, index_of id a = Some i -> i < length a.
  Proof.
    induction a as [|j a IH]; intros i H; cbn [index_of length] in *; [discriminate|].
    destruct (j =? id); [inversion H; lia|]. destruct (index_of id a); [|discriminate]. inversion H; subst.
    specialize (IH _ eq_refl). lia.
  Qed.

  Lemma index_of_none : forall id a, index_of id a = None <-> ~ In id a.
  Proof.
    induction a as [|j a IH]; cbn [index_of In]; [tauto|]. destruct (Nat.eqb_spec j id).
    - split; [discriminate|tauto].
    - destruct (index_of id a); cbn [option_map]; split; try discriminate; intuition (try discriminate; try congruence).
  Qed.

  Lemma index_of_self : forall id a b, ~ In id a -> index_of id (a ++ id :: b) = Some (length a).
  Proof.
    intros. rewrite index_of_app. rewrite (proj2 (index_of_none id a)) by auto. cbn [index_of]. rewrite Nat.eqb_refl.
    cbn [option_map]. rewrite Nat.add_0_r. reflexivity.
  Qed.

  (** Every stable id maps to the position of its run, and to nothing if it has none. *)
  Record RI (m : refmap) (ids : list nat) : Prop := {
    ri_nodup : NoDup ids;
    ri_lt : Forall (fun id => id < length (rm_stable m)) ids;
    ri_map : rm_stable m = map (fun id => index_of id ids) (seq 0 (length (rm_stable m)));
  }.

  Lemma ri_nth : forall m ids id, RI m ids -> id < length (rm_stable m) -> nth_error (rm_stable m) id = Some (index_of id ids).
  Proof.
    intros m ids id H Hl. rewrite (ri_map _ _ H). rewrite nth_error_map, (nth_error_nth' (seq 0 _) 0) by (rewrite seq_length; auto).
    rewrite seq_nth by auto. reflexivity.
  Qed.

  Lemma ri_intro : forall m ids, NoDup ids -> Forall (fun id => id < length (rm_stable m)) ids ->
    (forall id, id < length (rm_stable m) -> nth_error (rm_stable m) id = Some (index_of id ids)) -> RI m ids.
  Proof.
    intros m ids Hn Hl H. split; auto.
    apply (nth_ext _ _ None None); [rewrite map_length, seq_length; auto|].
    intros k Hk. rewrite (nth_indep (map _ _) None (index_of 0 ids)) by (rewrite map_length, seq_length; auto).
    rewrite (map_nth (fun id => index_of id ids)), seq_nth by auto. cbn [plus].
    specialize (H k Hk). erewrite nth_error_nth; eauto.
  Qed.

  Lemma nodup_mid : forall (a b : list nat) id, NoDup (a ++ id :: b) <-> ~ In id (a ++ b) /\ NoDup (a ++ b).
  Proof.
    intros. split.
    - intros H. split; [eapply NoDup_remove_2; eauto | eapply NoDup_remove_1; eauto].
    - intros [H1 H2]. induction a as [|x a IH]; cbn [app] in *; [constructor; auto|].
      inversion H2; subst. constructor.
      + rewrite in_app_iff in *. cbn [In] in *. intros [H|[->|H]]; [tauto|apply H1; tauto|tauto].
      + apply IH; auto. cbn [In] in H1. tauto.
  Qed.

  Lemma ri_insert : forall m a b, RI m (a ++ b) ->
    RI (fst (rm_insert m (length a))) (a ++ length (rm_stable m) :: b) /\
    snd (rm_insert m (length a)) = length (rm_stable m) /\
    length (rm_stable (fst (rm_insert m (length a)))) = S (length (rm_stable m)) /\
    rm_refs (fst (rm_insert m (length a))) = rm_refs m.
  Proof.
    intros m a b H. unfold rm_insert, new_stableid, stable_apply. cbn [fst snd rm_stable rm_refs].
    rewrite app_length, map_length. cbn [length]. split; [|repeat split; auto; lia].
    assert (Hnew : ~ In (length (rm_stable m)) (a ++ b)).
    { intros Hin. pose proof (ri_lt _ _ H) as Hl. rewrite Forall_forall in Hl. specialize (Hl _ Hin). lia. }
    apply ri_intro; cbn [rm_stable]; rewrite ?app_length, ?map_length; cbn [length].
    - apply nodup_mid. split; auto. apply (ri_nodup _ _ H).
    - pose proof (ri_lt _ _ H) as Hl. apply Forall_app in Hl. destruct Hl as [Ha Hb]. apply Forall_app. split; [|constructor; [lia|]];
        (eapply Forall_impl; [|eassumption]); cbn; intros; lia.
    - intros id Hid. destruct (Nat.eq_dec id (length (rm_stable m))) as [->|Hne].
      + rewrite nth_error_app2 by (rewrite map_length; lia). rewrite map_length, Nat.sub_diag. cbn [nth_error].
        rewrite index_of_self; auto. intros Hin. apply Hnew. apply in_app_iff. auto.
      + rewrite nth_error_app1 by (rewrite map_length; lia). rewrite nth_error_map, (ri_nth _ _ _ H) by lia. cbn [option_map].
        f_equal. rewrite !index_of_app. cbn [index_of]. destruct (index_of id a) as [i|] eqn:E; cbn [option_map].
        * apply index_of_lt in E. destruct (Nat.leb_spec (length a) i); [lia|reflexivity].
        * destruct (Nat.eqb_spec (length (rm_stable m)) id); [congruence|].
          destruct (index_of id b) as [j|]; cbn [option_map]; auto. destruct (Nat.leb_spec (length a) (length a + j)); [f_equal; lia|lia].
  Qed.

  Lemma ri_remove : forall m a id b, RI m (a ++ id :: b) ->
    exists m', rm_remove m id (length a) = Ok m' /\ RI m' (a ++ b) /\ length (rm_stable m') = length (rm_stable m) /\ rm_refs m' = rm_refs m.
  Proof.
    intros m a id b H. unfold rm_remove, vset.
    pose proof (ri_lt _ _ H) as Hl. rewrite Forall_forall in Hl. pose proof (Hl id ltac:(apply in_app_iff; right; left; auto)) as Hid.
    pose proof (ri_nodup _ _ H) as Hn. apply nodup_mid in Hn. destruct Hn as [Hnin Hn].
    destruct (Nat.ltb_spec id (length (rm_stable m))); [|lia]. cbn [bind]. eexists. split; [reflexivity|].
    unfold stable_apply. cbn [rm_stable rm_refs]. rewrite map_length, replace_len. split; [|auto].
    apply ri_intro; cbn [rm_stable]; rewrite ?map_length, ?replace_len; auto.
    - apply Forall_forall. intros x Hx. apply Hl. apply in_app_iff in Hx. apply in_app_iff. cbn [In]. tauto.
    - intros k Hk. rewrite nth_error_map. destruct (Nat.eq_dec k id) as [->|Hne].
      + rewrite replace_nth_same by auto. cbn [option_map]. f_equal. symmetry. apply index_of_none. auto.
      + rewrite replace_nth_other by auto. rewrite (ri_nth _ _ _ H) by auto. cbn [option_map]. f_equal.
        rewrite !index_of_app. cbn [index_of]. destruct (index_of k a) as [i|] eqn:E; cbn [option_map].
        * apply index_of_lt in E. destruct (Nat.ltb_spec (length a) i); [lia|reflexivity].
        * destruct (Nat.eqb_spec id k); [congruence|]. destruct (index_of k b) as [j|]; cbn [option_map]; auto.
          destruct (Nat.ltb_spec (length a) (length a + S j)); [f_equal; lia|lia].
  Qed.

  Lemma ri_reinsert : forall m a id b, RI m (a ++ b) -> id < length (rm_stable m) -> ~ In id (a ++ b) ->
    exists m', rm_reinsert m (length a) id = Ok m' /\ RI m' (a ++ id :: b) /\ length (rm_stable m') = length (rm_stable m) /\ rm_refs m' = rm_refs m.
  Proof.
    intros m a id b H Hid Hnin. unfold rm_reinsert, vset, stable_apply. cbn [rm_stable rm_refs]. rewrite map_length.
    destruct (Nat.ltb_spec id (length (rm_stable m))); [|lia]. cbn [bind]. eexists. split; [reflexivity|].
    cbn [rm_stable rm_refs]. rewrite replace_len, map_length. split; [|auto].
    apply ri_intro; cbn [rm_stable]; rewrite ?replace_len, ?map_length.
    - apply nodup_mid. split; auto. apply (ri_nodup _ _ H).
    - pose proof (ri_lt _ _ H) as Hl. apply Forall_app in Hl. destruct Hl as [Ha Hb]. apply Forall_app. split; auto.
    - intros k Hk. destruct (Nat.eq_dec k id) as [->|Hne].
      + rewrite replace_nth_same by (rewrite map_length; auto). rewrite index_of_self; auto. intros Hin. apply Hnin. apply in_app_iff. auto.
      + rewrite replace_nth_other by auto. rewrite nth_error_map, (ri_nth _ _ _ H) by auto. cbn [option_map]. f_equal.
        rewrite !index_of_app. cbn [index_of]. destruct (index_of k a) as [i|] eqn:E; cbn [option_map].
        * apply index_of_lt in E. destruct (Nat.leb_spec (length a) i); [lia|reflexivity].
        * destruct (Nat.eqb_spec id k); [congruence|]. destruct (index_of k b) as [j|]; cbn [option_map]; auto.
          destruct (Nat.leb_spec (length a) (length a + j)); [f_equal; lia|lia].
  Qed.
End IndexOf.

Local Open Scope Z_scope.

(** ** Runs with stable ids *)
Section MockP.
  Context {I V : Type} (X : index_ops I) (Y : slice_ops I V) (MAX : Z) (inj : Z -> I).
  Hypothesis L : index_laws X MAX inj.
  Notation run := (prod V Z) (only parsing).
  Notation drun := (prod (prod V Z) nat) (only parsing).

  Ltac ix := repeat (first [ rewrite (il_addr _ _ _ L) by lia | rewrite (il_addl _ _ _ L) by lia
                           | rewrite (il_subl _ _ _ L) by lia | rewrite (il_subr _ _ _ L) by lia
                           | rewrite (il_ltb _ _ _ L) by lia | rewrite (il_eqb _ _ _ L) by lia
                           | rewrite (il_zero _ _ _ L) ]; cbn [bind]).

  Definition plain (D : list drun) : list run := map fst D.
  Definition dids (D : list drun) : list nat := map snd D.
  Definition dsum (D : list drun) : Z := rsum (plain D).

  Fixpoint enc (off : Z) (D : list drun) : list (I * V * nat) :=
    match D with [] => [] | (s, z, id) :: D' => (inj (off + z), s, id) :: enc (off + z) D' end.

  Definition dpos (D : list drun) : Prop := pos_runs (plain D).

  Lemma plain_app : forall A B, plain (A ++ B) = plain A ++ plain B.
  Proof. intros. apply map_app. Qed.
  Lemma dids_app : forall A B, dids (A ++ B) = dids A ++ dids B.
  Proof. intros. apply map_app. Qed.
  Lemma dsum_app : forall A B, dsum (A ++ B) = dsum A + dsum B.
  Proof. intros. unfold dsum. rewrite plain_app. apply rsum_app. Qed.
  Lemma dsum_cons : forall s z id A, dsum ((s, z, id) :: A) = z + dsum A.
  Proof. reflexivity. Qed.
  Lemma dsum_nil : dsum [] = 0.
  Proof. reflexivity. Qed.
  Lemma dpos_app : forall A B, dpos (A ++ B) <-> dpos A /\ dpos B.
  Proof. intros. unfold dpos. rewrite plain_app. apply pos_runs_app. Qed.
  Lemma dpos_cons : forall s z id B, dpos ((s, z, id) :: B) <-> 0 < z /\ dpos B.
  Proof.
    intros. unfold dpos, pos_runs, plain. cbn [map fst]. split; [inversion 1; auto|intros []; constructor; auto].
  Qed.
  Lemma dpos_nn : forall A, dpos A -> 0 <= dsum A.
  Proof. intros. apply pos_runs_nonneg. auto. Qed.
  Lemma enc_app : forall A B off, enc off (A ++ B) = enc off A ++ enc (off + dsum A) B.
  Proof.
    induction A as [|[[s z] id] A IH]; intros B off; cbn [app enc].
    - rewrite dsum_nil, Z.add_0_r. reflexivity.
    - rewrite IH, dsum_cons. do 3 f_equal. lia.
  Qed.
  Lemma enc_len : forall A off, length (enc off A) = length A.
  Proof. induction A as [|[[s z] id] A IH]; intros; cbn [enc length]; auto. Qed.
  Lemma dids_len : forall A, length (dids A) = length A.
  Proof. intros. apply map_length. Qed.

  (** Last run. *)
  Lemma snoc_case : forall (A : list drun), A = [] \/ exists A' s z id, A = A' ++ [(s, z, id)].
  Proof. intros A. destruct A as [|a A]; auto. right. destruct (exists_last (l := a :: A)) as (A' & [[s z] id] & E); [discriminate|]. eauto 6. Qed.

  Lemma start_ok : forall A B off, start_of X (enc off (A ++ B)) (length A) = match A with [] => Ok (inj 0) | _ => Ok (inj (off + dsum A)) end.
  Proof.
    intros A B off. destruct (snoc_case A) as [->|(A' & s & z & id & ->)]; [cbn; rewrite (il_zero _ _ _ L); auto|].
    rewrite app_length. cbn [length]. rewrite Nat.add_1_r. cbn [start_of]. unfold vget. rewrite <- app_assoc. cbn [app].
    rewrite enc_app. cbn [enc]. rewrite nth_error_app2 by (rewrite enc_len; lia). rewrite enc_len, Nat.sub_diag. cbn [nth_error bind fst].
    rewrite dsum_app, dsum_cons, dsum_nil, Z.add_0_r. rewrite Z.add_assoc. destruct A'; reflexivity.
  Qed.
  Lemma start_ok0 : forall A B, start_of X (enc 0 (A ++ B)) (length A) = Ok (inj (dsum A)).
  Proof. intros. rewrite start_ok. destruct A; [reflexivity|]. rewrite Z.add_0_l. reflexivity. Qed.

  Lemma vget_ok : forall A s z id B off, vget (enc off (A ++ (s, z, id) :: B)) (length A) = Ok (inj (off + dsum A + z), s, id).
  Proof.
    intros. unfold vget. rewrite enc_app. cbn [enc]. rewrite nth_error_app2 by (rewrite enc_len; lia). rewrite enc_len, Nat.sub_diag. reflexivity.
  Qed.

  Lemma firstn_len_app : forall {T} (A B : list T), firstn (length A) (A ++ B) = A.
  Proof. intros. rewrite firstn_app, Nat.sub_diag, firstn_all, firstn_O, app_nil_r. reflexivity. Qed.
  Lemma skipn_len_app : forall {T} (A B : list T), skipn (length A) (A ++ B) = B.
  Proof. intros. rewrite skipn_app, Nat.sub_diag, skipn_all. reflexivity. Qed.

  Lemma skipn_enc : forall A T off, skipn (length A) (enc off A ++ T) = T.
  Proof. intros. rewrite <- (enc_len A off). apply skipn_len_app. Qed.
  Lemma firstn_enc : forall A T off, firstn (length A) (enc off A ++ T) = enc off A.
  Proof. intros. rewrite <- (enc_len A off). apply firstn_len_app. Qed.
  Lemma skipn_enc1 : forall A y T off, skipn (length A + 1) (enc off A ++ y :: T) = T.
  Proof.
    intros. change (enc off A ++ y :: T) with (enc off A ++ [y] ++ T). rewrite app_assoc.
    replace (length A + 1)%nat with (length (enc off A ++ [y])) by (rewrite app_length, enc_len; reflexivity). apply skipn_len_app.
  Qed.
  Lemma firstn_enc1 : forall A y T off, firstn (length A + 1) (enc off A ++ y :: T) = enc off A ++ [y].
  Proof.
    intros. change (enc off A ++ y :: T) with (enc off A ++ [y] ++ T). rewrite app_assoc.
    replace (length A + 1)%nat with (length (enc off A ++ [y])) by (rewrite app_length, enc_len; reflexivity). apply firstn_len_app.
  Qed.
  Lemma insert_enc : forall A x T off, insert_at (length A) x (enc off A ++ T) = enc off A ++ x :: T.
  Proof. intros. unfold insert_at. rewrite firstn_enc, skipn_enc. reflexivity. Qed.
  Lemma insert_enc1 : forall A x y T off, insert_at (length A + 1) x (enc off A ++ y :: T) = enc off A ++ y :: x :: T.
  Proof. intros. unfold insert_at. rewrite firstn_enc1, skipn_enc1, <- app_assoc. reflexivity. Qed.
  Lemma replace_enc : forall A x y T off, replace_at (length A) x (enc off A ++ y :: T) = enc off A ++ x :: T.
  Proof. intros. unfold replace_at. rewrite skipn_enc, firstn_enc. reflexivity. Qed.

  (** Searching. *)
  Lemma search_ok : forall A B off i, dpos (A ++ B) -> 0 <= off -> off + dsum (A ++ B) <= MAX -> off + dsum A <= i <= MAX ->
    match B with [] => True | (_, z, _) :: _ => i < off + dsum A + z end ->
    search X (enc off (A ++ B)) (inj i) = if (i =? off + dsum A) && negb (length A =? 0)%nat then inl (length A - 1)%nat else inr (length A).
  Proof.
    induction A as [|[[s z] id] A IH]; intros B off i Hp H0 Hm Hi HB.
    - cbn [app length]. rewrite andb_false_r. rewrite dsum_nil in *. destruct B as [|[[s z] id] B]; [reflexivity|].
      cbn [enc search app]. apply dpos_cons in Hp. destruct Hp as [Hz Hp]. pose proof (dpos_nn _ Hp).
      cbn [app] in Hm. rewrite dsum_cons in Hm. ix.
      destruct (Z.ltb_spec (off + z) i); [lia|]. destruct (Z.eqb_spec (off + z) i); [lia|]. reflexivity.
    - cbn [app enc search length]. cbn [app] in Hp, Hm. apply dpos_cons in Hp. destruct Hp as [Hz Hp]. rewrite dsum_cons in *.
      pose proof (dpos_nn _ Hp). pose proof Hp as Hp2. apply dpos_app in Hp2. destruct Hp2 as [HA HBp].
      pose proof (dpos_nn _ HA). pose proof (dpos_nn _ HBp). rewrite dsum_app in *. ix.
      destruct (Z.ltb_spec (off + z) i).
      + rewrite IH; rewrite ?dsum_app; auto; try lia.
        2:{ destruct B as [|[[? ?] ?] ?]; auto. lia. }
        rewrite Z.add_assoc. destruct A as [|a A].
        * rewrite dsum_nil in *. destruct (Z.eqb_spec i (off + z + 0)); [lia|]. cbn. reflexivity.
        * cbn [length]. destruct (Z.eqb_spec i (off + z + dsum (a :: A))); cbn [andb negb Nat.eqb]; f_equal; lia.
      + destruct A as [|[[s1 z1] id1] A].
        * rewrite dsum_nil in *. destruct (Z.eqb_spec (off + z) i); [|lia]. cbn. destruct (Z.eqb_spec i (off + (z + 0))); [reflexivity|lia].
        * exfalso. apply dpos_cons in HA. destruct HA as [? HA]. pose proof (dpos_nn _ HA). rewrite dsum_cons in *. lia.
  Qed.

  Lemma run_index_ok : forall A B i, dpos (A ++ B) -> dsum (A ++ B) <= MAX -> dsum A <= i <= MAX ->
    match B with [] => True | (_, z, _) :: _ => i < dsum A + z end ->
    run_index X (enc 0 (A ++ B)) (inj i) = length A.
  Proof.
    intros A B i Hp Hm Hi HB. unfold run_index. rewrite search_ok; auto; try lia.
    destruct (i =? 0 + dsum A); cbn [andb]; auto. destruct A; cbn [length negb Nat.eqb]; [reflexivity|lia].
  Qed.

  (** ** The representation *)
  Record rep (m : mock I V) (D : list drun) : Prop := {
    mr_runs : mk_runs m = enc 0 D;
    mr_pos : dpos D;
    mr_map : RI (mk_map m) (dids D);
    mr_refs : Forall (fun sid => In sid (dids D)) (rm_refs (mk_map m));
  }.

  Lemma size_ok : forall D m, mk_runs m = enc 0 D -> mock_size X m = inj (dsum D).
  Proof.
    intros D m E. unfold mock_size. rewrite E. destruct (snoc_case D) as [->|(A' & s & z & id & ->)].
    - cbn. apply (il_zero _ _ _ L).
    - rewrite enc_app. cbn [enc]. rewrite rev_app_distr. cbn [rev app fst]. rewrite dsum_app, dsum_cons, dsum_nil. do 2 f_equal. lia.
  Qed.

  (** Every valid position has a run, or is the end. *)
  Lemma locate : forall (D : list drun) i, dpos D -> 0 <= i < dsum D ->
    exists A s z id B, D = A ++ (s, z, id) :: B /\ dsum A <= i < dsum A + z.
  Proof.
    induction D as [|[[s z] id] D IH]; intros i Hp Hi; [rewrite dsum_nil in Hi; lia|].
    apply dpos_cons in Hp. destruct Hp as [Hz Hp]. rewrite dsum_cons in Hi. destruct (Z.lt_ge_cases i z).
    - exists [], s, z, id, D. split; auto. rewrite dsum_nil. lia.
    - destruct (IH (i - z) Hp ltac:(lia)) as (A & s' & z' & id' & B & -> & H1). exists ((s, z, id) :: A), s', z', id', B.
      split; auto. rewrite dsum_cons. lia.
  Qed.

  (** ** Inserting *)

  (** How the runs are cut at [idx]. *)
  Inductive cut (D : list drun) (idx : Z) (nid : nat) : list drun -> list drun -> Prop :=
  | cut_bound : forall A B, D = A ++ B -> dsum A = idx -> cut D idx nid A B
  | cut_in : forall A0 s z id B0 q a b, D = A0 ++ (s, z, id) :: B0 -> idx = dsum A0 + q -> 0 < q < z -> sl_split_at Y s (inj q) = (a, b) ->
      cut D idx nid (A0 ++ [(a, q, id)]) ((b, z - q, nid) :: B0).

  Lemma split_ok : forall D rm idx, dpos D -> dsum D <= MAX -> 0 <= idx <= dsum D -> RI rm (dids D) ->
    exists A B rm', mock_split X Y (enc 0 D) rm (inj idx) = Ok (enc 0 (A ++ B), rm', length A) /\
      cut D idx (length (rm_stable rm)) A B /\ RI rm' (dids (A ++ B)) /\ (length (rm_stable rm) <= length (rm_stable rm'))%nat /\ rm_refs rm' = rm_refs rm.
  Proof.
    intros D rm idx Hp Hm Hi HR. unfold mock_split. destruct (Z.eq_dec idx (dsum D)) as [->|Hne].
    - exists D, [], rm. rewrite app_nil_r. replace (run_index X (enc 0 D) (inj (dsum D))) with (length D).
      + rewrite enc_len. destruct (Nat.ltb_spec (length D) (length D)); [lia|]. split; auto. split; [|auto].
        apply cut_bound; rewrite ?app_nil_r; auto.
      + symmetry. rewrite <- (app_nil_r D) at 1. apply run_index_ok; rewrite ?app_nil_r; auto. lia.
    - destruct (locate D idx Hp ltac:(lia)) as (A & s & z & id & B & -> & Ha).
      rewrite run_index_ok; auto; try lia. rewrite enc_len, app_length. cbn [length].
      destruct (Nat.ltb_spec (length A) (length A + S (length B))); [|lia]. rewrite start_ok0. cbn [bind].
      pose proof Hp as Hp2. apply dpos_app in Hp2. destruct Hp2 as [HA HB]. apply dpos_cons in HB. destruct HB as [Hz HB].
      pose proof (dpos_nn _ HA). pose proof (dpos_nn _ HB). rewrite dsum_app, dsum_cons in *. ix.
      destruct (Z.ltb_spec (dsum A) idx).
      + rewrite vget_ok. cbn [bind fst snd]. destruct (sl_split_at Y s (inj (idx - dsum A))) as [a b] eqn:Es.
        unfold vset. rewrite enc_len, app_length. cbn [length]. destruct (Nat.ltb_spec (length A) (length A + S (length B))); [|lia]. cbn [bind].
        pose proof HR as HR2. rewrite dids_app in HR2. cbn [dids map snd] in HR2.
        change (map snd B) with (dids B) in HR2. rewrite (app_assoc (dids A) [id] (dids B)) in HR2 || change (dids A ++ id :: dids B) with (dids A ++ [id] ++ dids B) in HR2; try rewrite app_assoc in HR2.
        destruct (ri_insert rm _ _ HR2) as (R1 & R2 & R3 & R4).
        assert (El : length (dids A ++ [id]) = (length A + 1)%nat) by (rewrite app_length, dids_len; reflexivity).
        rewrite El in *. destruct (rm_insert rm (length A + 1)) as [rm1 sid]. cbn [fst snd] in *. subst sid.
        exists (A ++ [(a, idx - dsum A, id)]), ((b, z - (idx - dsum A), length (rm_stable rm)) :: B), rm1.
        split.
        * f_equal. f_equal; [|rewrite app_length; reflexivity]. f_equal.
          rewrite (enc_app A). cbn [enc]. rewrite replace_enc, insert_enc1.
          rewrite !enc_app. cbn [enc]. rewrite <- app_assoc. cbn [app]. rewrite dsum_app, dsum_cons, dsum_nil, !Z.add_0_r, !Z.add_0_l.
          replace (dsum A + (idx - dsum A)) with idx by lia. replace (idx + (z - (idx - dsum A))) with (dsum A + z) by lia. reflexivity.
        * split; [|split; [|split; auto; lia]].
          -- eapply cut_in; eauto; lia.
          -- rewrite !dids_app. cbn [dids map snd] in *. exact R1.
      + exists A, ((s, z, id) :: B), rm. split; auto. split; [|auto]. apply cut_bound; auto. lia.
  Qed.

  (** Joining on the left. *)
  Inductive ljoin (A : list drun) (x : V) (n : Z) : list drun -> V -> Z -> option (nat * Z) -> Prop :=
  | lj_none : A = [] -> ljoin A x n [] x n None
  | lj_no : forall A' s z id s' x', A = A' ++ [(s, z, id)] -> sl_try_join Y s x = inr (s', x') -> ljoin A x n (A' ++ [(s', z, id)]) x' n None
  | lj_yes : forall A' s z id m, A = A' ++ [(s, z, id)] -> sl_try_join Y s x = inl m -> ljoin A x n A' m (z + n) (Some (id, z)).

  Inductive rjoin (B : list drun) (x : V) (n : Z) : list drun -> V -> Z -> option (nat * Z) -> Prop :=
  | rj_none : B = [] -> rjoin B x n [] x n None
  | rj_no : forall B' s z id s' x', B = (s, z, id) :: B' -> sl_try_join Y x s = inr (x', s') -> rjoin B x n ((s', z, id) :: B') x' n None
  | rj_yes : forall B' s z id m, B = (s, z, id) :: B' -> sl_try_join Y x s = inl m -> rjoin B x n B' m (n + z) (Some (id, z)).

  Definition osz (o : option (nat * Z)) : Z := match o with Some (_, z) => z | None => 0 end.

  Lemma left_ok : forall A B rm x n idx, dpos (A ++ B) -> dsum (A ++ B) + n <= MAX -> 0 < n -> idx = dsum A -> RI rm (dids (A ++ B)) ->
    exists A1 x1 n1 o rm', ljoin A x n A1 x1 n1 o /\
      mock_left X Y {| ml_runs := enc 0 (A ++ B); ml_map := rm; ml_idx := length A; ml_slice := x; ml_base := inj idx;
                     ml_old := ix_zero X; ml_new := inj n; ml_override := None; ml_lhs := None; ml_rhs := None |} (inj idx)
      = Ok {| ml_runs := enc 0 A1 ++ enc (dsum A) B; ml_map := rm'; ml_idx := length A1; ml_slice := x1; ml_base := inj (dsum A1);
              ml_old := inj (osz o); ml_new := inj n1; ml_override := match o with Some _ => Some (inj idx) | None => None end;
              ml_lhs := option_map fst o; ml_rhs := None |} /\
      dsum A1 + osz o = dsum A /\ n1 = osz o + n /\ dpos (A1 ++ B) /\ RI rm' (dids (A1 ++ B)) /\ length (rm_stable rm') = length (rm_stable rm) /\ rm_refs rm' = rm_refs rm.
  Proof.
    intros A B rm x n idx Hp Hm Hn -> HR. unfold mock_left. cbn [ml_idx ml_runs ml_map ml_slice ml_base ml_old ml_new ml_override ml_lhs ml_rhs].
    destruct (snoc_case A) as [->|(A' & s & z & id & ->)].
    - exists [], x, n, None, rm. cbn [length app enc osz option_map]. rewrite dsum_nil in *. split; [constructor; auto|].
      rewrite (il_zero _ _ _ L). repeat split; auto; try apply HR; lia.
    - rewrite app_length. cbn [length]. rewrite Nat.add_1_r.
      pose proof Hp as Hp2. apply dpos_app in Hp2. destruct Hp2 as [HA HB]. apply dpos_app in HA. destruct HA as [HA' HA2]. apply dpos_cons in HA2. destruct HA2 as [Hz _].
      pose proof (dpos_nn _ HA'). pose proof (dpos_nn _ HB). rewrite !dsum_app, dsum_cons, dsum_nil, Z.add_0_r in *.
      unfold vremove. rewrite <- app_assoc. cbn [app]. rewrite vget_ok, Z.add_0_l. cbn [bind].
      pose proof HR as HR2. rewrite <- app_assoc in HR2. cbn [app] in HR2. rewrite dids_app in HR2. cbn [dids map snd] in HR2. change (map snd B) with (dids B) in HR2.
      destruct (ri_remove rm _ _ _ HR2) as (rm1 & E1 & R1 & Hl1 & Hf1). rewrite dids_len in E1. rewrite E1. cbn [bind].
      assert (Eb : ix_eqb X (inj (dsum A' + z)) (inj (dsum A' + z)) = true) by (ix; apply Z.eqb_refl). rewrite Eb.
      assert (Er : firstn (length A') (enc 0 (A' ++ (s, z, id) :: B)) ++ skipn (length A' + 1) (enc 0 (A' ++ (s, z, id) :: B)) = enc 0 A' ++ enc (dsum A' + z) B).
      { rewrite enc_app. cbn [enc]. rewrite firstn_enc, skipn_enc1, Z.add_0_l. reflexivity. }
      rewrite Er. destruct (sl_try_join Y s x) as [m|[s' x']] eqn:Ej.
      + assert (Es : start_of X (enc 0 A' ++ enc (dsum A' + z) B) (length A') = Ok (inj (dsum A'))).
        { destruct (snoc_case A') as [->|(A2 & s2 & z2 & id2 & ->)]; [cbn; rewrite (il_zero _ _ _ L); auto|].
          rewrite app_length. cbn [length]. rewrite Nat.add_1_r. cbn [start_of]. unfold vget. rewrite enc_app. cbn [enc]. rewrite <- app_assoc. cbn [app].
          rewrite nth_error_app2 by (rewrite enc_len; lia). rewrite enc_len, Nat.sub_diag. cbn [nth_error bind fst].
          rewrite dsum_app, dsum_cons, dsum_nil. do 2 f_equal. lia. }
        rewrite Es. cbn [bind]. rewrite (il_zero _ _ _ L). ix.
        exists A', m, (z + n), (Some (id, z)), rm1. cbn [osz option_map fst]. split; [eapply lj_yes; eauto|].
        split; [repeat f_equal; lia|]. split; [lia|]. split; [lia|]. split; [apply dpos_app; auto|].
        rewrite dids_app. auto.
      + pose proof (ri_nodup _ _ HR2) as Hnd. apply nodup_mid in Hnd. destruct Hnd as [Hnin _].
        pose proof (ri_lt _ _ HR2) as Hlt. rewrite Forall_forall in Hlt.
        destruct (ri_reinsert rm1 (dids A') id (dids B) R1) as (rm2 & E2 & R2 & Hl2 & Hf2).
        { rewrite Hl1. apply Hlt. apply in_app_iff. right. left. auto. }
        { auto. }
        rewrite dids_len in E2. rewrite E2. cbn [bind].
        exists (A' ++ [(s', z, id)]), x', n, None, rm2. cbn [osz option_map]. split; [eapply lj_no; eauto|].
        rewrite (il_zero _ _ _ L). split.
        { f_equal. f_equal.
          - rewrite insert_enc, enc_app. cbn [enc]. rewrite <- app_assoc. reflexivity.
          - rewrite app_length. cbn [length]. lia.
          - rewrite dsum_app, dsum_cons, dsum_nil. f_equal. lia. }
        rewrite !dsum_app, dsum_cons, dsum_nil. split; [lia|]. split; [lia|]. split.
        { apply dpos_app. split; auto. apply dpos_app. split; auto. apply dpos_cons. split; auto. apply Forall_nil. }
        rewrite dids_app, dids_app. cbn [dids map snd]. rewrite <- app_assoc. split; [exact R2|]. split; congruence.
  Qed.

  Lemma right_ok : forall A1 B rm x1 n1 n o idx, dpos (A1 ++ B) -> 0 < n -> idx + dsum B + n <= MAX ->
    idx = dsum A1 + osz o -> n1 = osz o + n -> 0 <= osz o -> (o = None -> True) -> RI rm (dids (A1 ++ B)) ->
    exists B1 x2 n2 o2 rm', rjoin B x1 n1 B1 x2 n2 o2 /\
      mock_right X Y {| ml_runs := enc 0 A1 ++ enc idx B; ml_map := rm; ml_idx := length A1; ml_slice := x1; ml_base := inj (dsum A1);
              ml_old := inj (osz o); ml_new := inj n1; ml_override := match o with Some _ => Some (inj idx) | None => None end;
              ml_lhs := option_map fst o; ml_rhs := None |}
      = Ok {| ml_runs := enc 0 A1 ++ enc (idx + osz o2) B1; ml_map := rm'; ml_idx := length A1; ml_slice := x2; ml_base := inj (dsum A1);
              ml_old := inj (osz o + osz o2); ml_new := inj n2; ml_override := match o with Some _ => Some (inj idx) | None => None end;
              ml_lhs := option_map fst o; ml_rhs := option_map fst o2 |} /\
      dsum B1 + osz o2 = dsum B /\ n2 = n1 + osz o2 /\ 0 <= osz o2 /\ dpos (A1 ++ B1) /\ RI rm' (dids (A1 ++ B1)) /\ length (rm_stable rm') = length (rm_stable rm) /\ rm_refs rm' = rm_refs rm.
  Proof.
    intros A1 B rm x1 n1 n o idx Hp Hn Hm Hidx Hn1 Ho _ HR. unfold mock_right. cbn [ml_idx ml_runs ml_map ml_slice ml_base ml_old ml_new ml_override ml_lhs ml_rhs].
    rewrite app_length, !enc_len. pose proof Hp as Hp2. apply dpos_app in Hp2. destruct Hp2 as [HA HB]. pose proof (dpos_nn _ HA).
    destruct B as [|[[s z] id] B'].
    - cbn [length]. destruct (Nat.ltb_spec (length A1) (length A1 + 0)); [lia|].
      exists [], x1, n1, None, rm. cbn [osz option_map]. rewrite !Z.add_0_r. split; [constructor; auto|].
      split; [reflexivity|]. rewrite dsum_nil. repeat split; auto; try apply HR; lia.
    - cbn [length]. destruct (Nat.ltb_spec (length A1) (length A1 + S (length B'))); [|lia].
      apply dpos_cons in HB. destruct HB as [Hz HB']. pose proof (dpos_nn _ HB'). rewrite dsum_cons in *.
      unfold vremove, vget. rewrite nth_error_app2 by (rewrite enc_len; lia). rewrite enc_len, Nat.sub_diag. cbn [enc nth_error bind].
      rewrite dids_app in HR. cbn [dids map snd] in HR. change (map snd B') with (dids B') in HR.
      destruct (ri_remove rm _ _ _ HR) as (rm1 & E1 & R1 & Hl1 & Hf1). rewrite dids_len in E1. rewrite E1. cbn [bind].
      assert (Er : firstn (length A1) (enc 0 A1 ++ (inj (idx + z), s, id) :: enc (idx + z) B') ++ skipn (length A1 + 1) (enc 0 A1 ++ (inj (idx + z), s, id) :: enc (idx + z) B') = enc 0 A1 ++ enc (idx + z) B').
      { rewrite firstn_enc, skipn_enc1. reflexivity. }
      rewrite Er. destruct (sl_try_join Y x1 s) as [m|[x' s']] eqn:Ej.
      + assert (Es : match (match o with Some _ => Some (inj idx) | None => None end) with Some e => Ok e | None => start_of X (enc 0 A1 ++ enc (idx + z) B') (length A1) end = Ok (inj idx)).
        { destruct o as [[lid lz]|]; auto. cbn [osz] in Hidx. rewrite Z.add_0_r in Hidx. subst idx.
          destruct (snoc_case A1) as [->|(A2 & s2 & z2 & id2 & ->)]; [cbn; rewrite (il_zero _ _ _ L); auto|].
          rewrite app_length. cbn [length]. rewrite Nat.add_1_r. cbn [start_of]. unfold vget. rewrite enc_app. cbn [enc]. rewrite <- app_assoc. cbn [app].
          rewrite nth_error_app2 by (rewrite enc_len; lia). rewrite enc_len, Nat.sub_diag. cbn [nth_error bind fst].
          rewrite dsum_app, dsum_cons, dsum_nil. do 2 f_equal. lia. }
        rewrite Es. cbn [bind]. ix. replace (idx + z - idx) with z by lia.
        exists B', m, (n1 + z), (Some (id, z)), rm1. cbn [osz option_map fst]. split; [eapply rj_yes; eauto|].
        split; [reflexivity|]. split; [lia|]. split; [lia|]. split; [lia|]. split; [apply dpos_app; auto|]. rewrite dids_app. auto.
      + pose proof (ri_nodup _ _ HR) as Hnd. apply nodup_mid in Hnd. destruct Hnd as [Hnin _].
        pose proof (ri_lt _ _ HR) as Hlt. rewrite Forall_forall in Hlt.
        destruct (ri_reinsert rm1 (dids A1) id (dids B') R1) as (rm2 & E2 & R2 & Hl2 & Hf2).
        { rewrite Hl1. apply Hlt. apply in_app_iff. right. left. auto. }
        { auto. }
        rewrite dids_len in E2. rewrite E2. cbn [bind].
        exists ((s', z, id) :: B'), x', n1, None, rm2. cbn [osz option_map]. rewrite !Z.add_0_r. split; [eapply rj_no; eauto|].
        split.
        { f_equal. f_equal. rewrite insert_enc. reflexivity. }
        rewrite dsum_cons. split; [lia|]. split; [lia|]. split; [lia|]. split; [apply dpos_app; split; auto; apply dpos_cons; auto|].
        rewrite dids_app. cbn [dids map snd]. split; [exact R2|]. split; congruence.
  Qed.

  Lemma shift_ok : forall B off d, dpos B -> 0 <= off -> 0 <= d -> off + dsum B + d <= MAX ->
    mapM (fun r : I * V * nat => let* i := ix_add_left X (fst (fst r)) (inj d) in Ok (i, snd (fst r), snd r)) (enc off B) = Ok (enc (off + d) B).
  Proof.
    induction B as [|[[s z] id] B IH]; intros off d Hp H0 Hd Hm; [reflexivity|].
    apply dpos_cons in Hp. destruct Hp as [Hz Hp]. pose proof (dpos_nn _ Hp). rewrite dsum_cons in Hm.
    cbn [enc mapM fst snd]. ix. rewrite IH by (auto; lia). cbn [bind].
    replace (d + (off + z)) with (off + d + z) by lia. replace (off + z + d) with (off + d + z) by lia. reflexivity.
  Qed.

  (** The references after the merge: those of the merged runs point to the new one. *)
  Definition remapped (o : option (nat * Z)) (sid : nat) (refs : list nat) : list nat :=
    match o with Some (id, _) => map (fun i => if (i =? id)%nat then sid else i) refs | None => refs end.

  Lemma finish_ok : forall A1 B1 rm x2 n2 n o o2 idx, dpos (A1 ++ B1) -> 0 < n ->
    idx = dsum A1 + osz o -> n2 = osz o + n + osz o2 -> 0 <= osz o -> 0 <= osz o2 -> idx + osz o2 + dsum B1 + n <= MAX ->
    RI rm (dids (A1 ++ B1)) ->
    let sid := length (rm_stable rm) in
    exists rm', mock_finish X {| ml_runs := enc 0 A1 ++ enc (idx + osz o2) B1; ml_map := rm; ml_idx := length A1; ml_slice := x2; ml_base := inj (dsum A1);
              ml_old := inj (osz o + osz o2); ml_new := inj n2; ml_override := match o with Some _ => Some (inj idx) | None => None end;
              ml_lhs := option_map fst o; ml_rhs := option_map fst o2 |}
      = Ok ({| mk_runs := enc 0 (A1 ++ (x2, n2, sid) :: B1); mk_map := rm' |}, sid) /\
      dpos (A1 ++ (x2, n2, sid) :: B1) /\ RI rm' (dids (A1 ++ (x2, n2, sid) :: B1)) /\ rm_refs rm' = remapped o2 sid (remapped o sid (rm_refs rm)).
  Proof.
    intros A1 B1 rm x2 n2 n o o2 idx Hp Hn Hidx Hn2 Ho Ho2 Hm HR sid. unfold mock_finish.
    cbn [ml_idx ml_runs ml_map ml_slice ml_base ml_old ml_new ml_override ml_lhs ml_rhs].
    apply dpos_app in Hp. destruct Hp as [HA HB]. pose proof (dpos_nn _ HA). pose proof (dpos_nn _ HB).
    rewrite dids_app in HR. destruct (ri_insert rm _ _ HR) as (R1 & R2 & R3 & R4). rewrite dids_len in *.
    destruct (rm_insert rm (length A1)) as [rm1 sid']. cbn [fst snd] in *. subst sid'. ix.
    assert (Ei : insert_at (length A1) (inj (dsum A1 + n2), x2, sid) (enc 0 A1 ++ enc (idx + osz o2) B1) = enc 0 A1 ++ (inj (dsum A1 + n2), x2, sid) :: enc (idx + osz o2) B1).
    { apply insert_enc. }
    fold sid. rewrite Ei.
    rewrite firstn_enc1, skipn_enc1. replace (dsum A1 + n2 - (dsum A1 + (osz o + osz o2))) with n by lia.
    rewrite shift_ok by (auto; lia). cbn [bind].
    eexists. split; [|split; [|split]].
    - f_equal. f_equal. f_equal. rewrite enc_app. cbn [enc]. rewrite <- app_assoc. cbn [app]. rewrite Z.add_0_l. do 3 f_equal. lia.
    - apply dpos_app. split; auto. apply dpos_cons. split; auto. lia.
    - rewrite dids_app. cbn [dids map snd].
      destruct o as [[? ?]|], o2 as [[? ?]|]; cbn [option_map fst]; destruct R1 as [Q1 Q2 Q3]; (split; [exact Q1|exact Q2|exact Q3]).
    - unfold remapped. destruct o as [[? ?]|], o2 as [[? ?]|]; cbn [option_map fst rm_remap rm_refs]; rewrite ?R4; reflexivity.
  Qed.
End MockP.
