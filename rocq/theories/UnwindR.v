(** What an insertion that panics leaves: paths and the way up.  Proof support only. *)
From Coq Require Import List ZArith Bool Arith Lia Permutation.
From Verif Require Import Base Index Slice Tree Insert Crash Wild WildQ WildR Zip Rep Path Hist Unwind UnwindSpec UnwindP UnwindQ.
Import ListNotations.

Section Up.
  Context {I V : Type} (X : index_ops I) (Cp : @cmp_panics I) (M lo : nat).
  Hypothesis HX : index_any X.
  Hypothesis HM : 1 <= M.
  Hypothesis Hlo : lo = 0 \/ lo = 1 /\ 3 <= M.
  Notation tree := (tree I V).
  Notation entry := (entry_of I V) (only parsing).
  Notation T1 := (fun _ => True).
  Notation wsh h t := (wshape M lo lo h t = true).
  Notation okn := (@okn I V M lo).
  Notation okc := (@okc I V M lo).
  Notation st_ok := (@st_ok I V M lo).
  Notation left_ok := (@left_ok I V M lo).

  Fixpoint lsl (lft : list (tree * (I * V))) : list V :=
    match lft with [] => [] | (a, k) :: lft' => slices a ++ snd k :: lsl lft' end.
  Lemma lsl_length : forall lft, length (lsl lft) = lcount lft.
  Proof. induction lft as [|[a k] l IH]; [reflexivity|]. cbn [lsl lcount]. rewrite app_length. cbn [length]. rewrite IH, slices_count. lia. Qed.
  Lemma asm_slices : forall lft ch rgt, slices (fst (asm lft ch rgt)) ++ fl (map kv (snd (asm lft ch rgt))) = lsl lft ++ slices ch ++ fl (map kv rgt).
  Proof.
    induction lft as [|[a k] l IH]; intros ch rgt; [reflexivity|]. cbn [asm fst snd lsl map]. unfold kv at 1. cbn [fst snd]. rewrite fl_cons, IH, <- app_assoc. reflexivity.
  Qed.
  Lemma asm_ok : forall h lft (ch : tree) rgt, okn h (fst (asm lft ch rgt)) (map kv (snd (asm lft ch rgt))) <->
    Forall (fun q => okc h (fst q)) lft /\ okc h ch /\ Forall (fun q => okc h (snd q)) (map kv rgt).
  Proof.
    intros h. induction lft as [|[a k] l IH]; intros ch rgt; cbn [asm fst snd map].
    - unfold UnwindP.okn. intuition.
    - unfold UnwindP.okn. rewrite !Forall_cons_iff. cbn [fst snd kv]. specialize (IH ch rgt). unfold UnwindP.okn in IH. tauto.
  Qed.
  Lemma is_node : forall tot lft (ch : tree) rgt, is (node tot lft ch rgt) (fst (asm lft ch [])) (map kv (snd (asm lft ch [])) ++ map kv rgt).
  Proof.
    intros. exists tot, (snd (asm lft ch rgt)). split.
    - unfold node. rewrite (asm_fst lft ch rgt []). reflexivity.
    - rewrite asm_snd, map_app. reflexivity.
  Qed.

  (** A child in its node, with the number of slices before it. *)
  Lemma zip_at : forall h t c, wsh (S h) t -> c <= tlen t -> exists ch pre suf, child t c = Ok ch /\ wsh h ch /\ slices t = pre ++ slices ch ++ suf /\
    (forall p k, rank t (c :: p) k = option_map (Nat.add (length pre)) (rank ch p k)) /\
    (forall p k, erank t (c :: p) k = option_map (Nat.add (length pre)) (erank ch p k)) /\
    forall n, exists t' c0' A B, set_child t c n = Ok t' /\ is t' c0' (A ++ B) /\ length A = c /\ lo <= length (A ++ B) <= 2 * M /\
      slices c0' ++ fl A = pre ++ slices n /\ fl B = suf /\ (wsh h n -> okn (S h) c0' (A ++ B)) /\ (ss ch n -> ss t t').
  Proof.
    intros h t c H Hc. assert (Hn : t <> Nil) by (intros ->; discriminate H).
    destruct (WildQ.node_split t c Hc Hn) as (tot & lft & ch & rgt & -> & <-).
    pose proof (WildQ.shape_len _ _ _ _ _ H) as Hl. rewrite node_tlen in Hl.
    assert (K : okn (S h) (fst (asm lft ch rgt)) (map kv (snd (asm lft ch rgt)))).
    { unfold node in H. rewrite wshape_S in H. apply andb_prop in H. destruct H as [_ H]. apply (okc_forallb M lo (S h)). exact H. }
    apply asm_ok in K. destruct K as (K1 & K2 & K3).
    exists ch, (lsl lft), (fl (map kv rgt)). split; [apply node_child|]. split; [exact K2|]. split.
    { rewrite (is_slices _ _ _ (is_node tot lft ch rgt)), fl_app, app_assoc. pose proof (asm_slices lft ch []) as E. cbn [map] in E. rewrite fl_nil, app_nil_r in E.
      rewrite E, <- app_assoc. reflexivity. }
    rewrite lsl_length. split; [intros; apply rank_down|]. split; [intros; apply erank_down|].
    intros n. exists (node tot lft n rgt), (fst (asm lft n [])), (map kv (snd (asm lft n []))), (map kv rgt).
    split; [apply node_set_child|]. split; [apply is_node|]. split; [rewrite map_length, asm_nil_length; reflexivity|].
    split; [rewrite app_length, !map_length, asm_nil_length; exact Hl|]. split.
    { pose proof (asm_slices lft n []) as E. cbn [map] in E. rewrite fl_nil, app_nil_r in E. exact E. }
    split; [reflexivity|]. split.
    - intros Wn. rewrite <- map_app, <- asm_snd, (asm_fst lft n [] rgt). apply asm_ok. auto.
    - intros S0. apply ss_zip; [exact S0|apply ssl_refl].
  Qed.

  Lemma q_up_step : forall h t c ch pre suf L st here, wsh (S h) t -> child t c = Ok ch ->
    (forall n, exists t' c0' A B, set_child t c n = Ok t' /\ is t' c0' (A ++ B) /\ length A = c /\ lo <= length (A ++ B) <= 2 * M /\
      slices c0' ++ fl A = pre ++ slices n /\ fl B = suf /\ (wsh h n -> okn (S h) c0' (A ++ B)) /\ (ss ch n -> ss t t')) ->
    st_ok h L st -> uspec (st_ok (S h) (pre ++ L ++ suf)) (left_ok (S h) (pre ++ L ++ suf)) (uup_step X Cp M t c here st).
  Proof.
    intros h t c ch pre suf L st here H Ec Z Hst. destruct st as [n o n' cur|b]; cbn [UnwindQ.st_ok] in Hst; unfold uup_step.
    - destruct Hst as [Hn En]. destruct (Z n) as (t' & c0' & A & B & Es & It & LA & LAB & Ep & Ef & Ko & _).
      eapply u_at_ok; [exact Es|]. eapply (q_child_step X Cp M lo HX); [exact It|exact LAB|apply Ko, Hn| |rewrite app_length; lia].
      rewrite fl_app, app_assoc, Ep, Ef, <- En, <- app_assoc. reflexivity.
    - destruct Hst as (Hl & Hr & En). destruct (Z (b_lhs b)) as (t' & c0' & A & B & Es & It & LA & LAB & Ep & Ef & Ko & _).
      eapply u_at_ok; [exact Es|]. eapply u_bind.
      + rewrite <- LA. eapply (q_bubble_step X Cp M lo HX HM Hlo h); [exact It|exact LAB|apply Ko, Hl|exact Hl|exact Hr|].
        rewrite app_assoc, Ep, Ef, <- app_assoc, <- En, <- !app_assoc. reflexivity.
      + intros st' Hs. cbn [uspec]. destruct st' as [n o n' cur|b']; [destruct here; exact Hs|]. destruct here as [l|]; [|exact Hs].
        unfold remap_bubble. destruct (l_remap l); exact Hs.
  Qed.

  (** A node below, and a change of it carried up. *)
  Lemma q_path : forall p h t n, wsh h t -> node_at t p = Ok n -> length p <= h -> exists pre suf,
    slices t = pre ++ slices n ++ suf /\ wsh (h - length p) n /\
    (forall q k, rank t (p ++ q) k = option_map (Nat.add (length pre)) (rank n q k)) /\
    (forall q k, erank t (p ++ q) k = option_map (Nat.add (length pre)) (erank n q k)) /\
    (forall f L lhs, uspec (st_ok (h - length p) L) (left_ok (h - length p) L) (f n) ->
       uspec (st_ok h (pre ++ L ++ suf)) (left_ok h (pre ++ L ++ suf)) (uupd X Cp M f lhs t p)) /\
    (forall k s n', set_slice n k s = Ok n' -> wsh (h - length p) n' -> exists t', set_slice_at t p k s = Ok t' /\ wsh h t' /\
       slices t' = pre ++ slices n' ++ suf /\ (ss n n' -> ss t t')).
  Proof.
    induction p as [|c p IH]; intros h t n H E Hp; cbn [node_at length] in *.
    - inversion E; subst. exists [], []. rewrite Nat.sub_0_r. cbn [app length]. repeat split; auto.
      + rewrite app_nil_r. reflexivity.
      + intros. destruct (rank n q k); reflexivity.
      + intros. destruct (erank n q k); reflexivity.
      + intros f L lhs Hf. rewrite app_nil_r. exact Hf.
      + intros k s n' Es Hn'. exists n'. rewrite app_nil_r. auto.
    - destruct (child t c) as [ch| |] eqn:Ec; try discriminate. cbn [bind] in E. destruct h as [|h]; [lia|].
      pose proof (WildQ.child_bound t c ch Ec) as Hc.
      destruct (zip_at h t c H Hc) as (ch' & pre & suf & Ec' & Wc & Es & R1 & R2 & Z). rewrite Ec in Ec'. inversion Ec'; subst ch'; clear Ec'.
      destruct (IH h ch n Wc E ltac:(lia)) as (pre' & suf' & Es' & Wn & R1' & R2' & U & S'). exists (pre ++ pre'), (suf' ++ suf).
      cbn [Nat.sub]. split; [rewrite Es, Es'; rewrite <- !app_assoc; reflexivity|]. split; [exact Wn|].
      split; [intros q k; cbn [app]; rewrite R1, R1', app_length; destruct (rank n q k); cbn [option_map]; f_equal; lia|].
      split; [intros q k; cbn [app]; rewrite R2, R2', app_length; destruct (erank n q k); cbn [option_map]; f_equal; lia|]. split.
      + intros f L lhs Hf. cbn [uupd]. rewrite Ec. cbn [at_ ubind].
        destruct (match lhs with Some (0, l) => _ | Some (Datatypes.S d, l) => _ | None => _ end) as [here below].
        replace ((pre ++ pre') ++ L ++ suf' ++ suf) with (pre ++ (pre' ++ L ++ suf') ++ suf) by (rewrite <- !app_assoc; reflexivity).
        eapply u_bind.
        * eapply u_umap; [apply (U f L below Hf)|]. intros l d [Wl Al]. destruct (Z l) as (t' & c0' & A & B & Eset & It & LA & LAB & Ep & Ef & Ko & _).
          exists t'. split; [exact Eset|]. eapply q_is; [exact It|exact LAB|apply Ko, Wl|].
          rewrite fl_app, app_assoc, Ep, Ef, <- app_assoc. apply acc_keep, acc_keep_r, Al.
        * intros st Hst. eapply q_up_step; [exact H|exact Ec|exact Z|exact Hst].
      + intros k s n' Eset Hn'. destruct (S' k s n' Eset Hn') as (ch' & Ech & Wch & Sch & SS). cbn [set_slice_at]. rewrite Ec. cbn [bind]. rewrite Ech. cbn [bind].
        destruct (Z ch') as (t' & c0' & A & B & Eset' & It & LA & LAB & Ep & Ef & Ko & K). exists t'. split; [exact Eset'|].
        split; [eapply is_wsh; [exact It|exact LAB|apply Ko, Wch]|]. split; [|intros; apply K, SS; assumption].
        rewrite (is_slices _ _ _ It), fl_app, app_assoc, Ep, Ef, Sch, <- !app_assoc. reflexivity.
  Qed.
End Up.
