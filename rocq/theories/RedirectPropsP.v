(** Proofs about the slow path of `collapse_refs`. *)
From Coq Require Import List Arith Bool Lia.
From Verif Require Import Base ListFacts Recycle RefState RefStateP RefPropsP Redirect.
Import ListNotations.

Section RedirectP.
  Variable CMAX : nat.

  Definition upd (t : @rvec stored) (i : nat) (e : @entry stored) : rvec := {| rv_vals := replace_at i e (rv_vals t); rv_head := rv_head t |}.

  Lemma upd_same : forall t i e x, nth_error (rv_vals t) i = Some x -> nth_error (rv_vals (upd t i e)) i = Some e.
  Proof. intros t i e x H. cbn [upd rv_vals]. apply replace_nth_same. eapply nth_error_lt; eauto. Qed.
  Lemma upd_other : forall t i j e, i <> j -> nth_error (rv_vals (upd t i e)) j = nth_error (rv_vals t) j.
  Proof. intros. cbn [upd rv_vals]. apply replace_nth_other; auto. Qed.

  Lemma leads_len : forall t n i f, leads t n i f -> forall m g, leads t m i g -> n = m /\ f = g.
  Proof.
    intros t n i f L. induction L as [i c p H|i c H|n i c j f H L IH]; intros m g L'; inversion L' as [i' c' p' H'|i' c' H'|n' i' c' j' f' H' L'']; subst; try congruence; auto.
    assert (j' = j) by congruence. subst j'. destruct (IH _ _ L'') as [-> ->]. auto.
  Qed.

  (** Changing a slot from which the way is longer changes nothing. *)
  Lemma leads_upd : forall t n j f, leads t n j f -> forall m i g e, leads t m i g -> n < m -> leads (upd t i e) n j f.
  Proof.
    intros t n j f L. induction L as [j c p H|j c H|n j c k f H L IH]; intros m i g e Li Lt.
    - eapply leads_handle. rewrite upd_other; eauto. intros <-.
      destruct (leads_len _ _ _ _ Li _ _ (leads_handle t i c p H)). lia.
    - eapply leads_removed. rewrite upd_other; eauto. intros <-.
      destruct (leads_len _ _ _ _ Li _ _ (leads_removed t i c H)). lia.
    - eapply leads_on; [|eapply IH; eauto; lia]. rewrite upd_other; eauto. intros <-.
      destruct (leads_len _ _ _ _ Li _ _ (leads_on t n i c k f H L)). lia.
  Qed.

  (** Neither does changing a count. *)
  Lemma leads_count : forall t n j f, leads t n j f -> forall i c c' v, nth_error (rv_vals t) i = Some (Value c v) ->
    leads (upd t i (Value c' v)) n j f.
  Proof.
    intros t n j f L. induction L as [j c0 p H|j c0 H|n j c0 k f H L IH]; intros i c c' v E.
    - destruct (Nat.eq_dec i j) as [<-|D].
      + assert (v = SHandle p) by congruence. subst v. eapply leads_handle. eapply upd_same; eauto.
      + eapply leads_handle. rewrite upd_other; eauto.
    - destruct (Nat.eq_dec i j) as [<-|D].
      + assert (v = SRemoved) by congruence. subst v. eapply leads_removed. eapply upd_same; eauto.
      + eapply leads_removed. rewrite upd_other; eauto.
    - destruct (Nat.eq_dec i j) as [<-|D].
      + assert (v = SRedirect k) by congruence. subst v. eapply leads_on; [eapply upd_same; eauto|eauto].
      + eapply leads_on; [rewrite upd_other; eauto|eauto].
  Qed.

  Lemma leads_slot : forall t n i f, leads t n i f -> exists c v, nth_error (rv_vals t) i = Some (Value c v).
  Proof. intros t n i f L. destruct L; eauto. Qed.

  Lemma leads_end : forall t n i h, leads t n i (Some h) -> exists c p, nth_error (rv_vals t) h = Some (Value c (SHandle p)).
  Proof.
    intros t n i h L. remember (Some h) as f eqn:F. revert h F. induction L as [i c p H|i c H|n i c j f H L IH]; intros h F; try discriminate; auto.
    injection F as <-. eauto.
  Qed.

  Lemma replace_twice : forall A i (x y : A) l, replace_at i x (replace_at i y l) = replace_at i x l.
  Proof.
    induction i as [|i IH]; intros x y [|z l]; try reflexivity. rewrite !replace_cons. f_equal. apply IH.
  Qed.
  Lemma replace_comm : forall A i j (x y : A) l, i <> j -> replace_at i x (replace_at j y l) = replace_at j y (replace_at i x l).
  Proof.
    induction i as [|i IH]; intros [|j] x y [|z l] D; try reflexivity; try congruence;
      rewrite ?replace_cons, ?replace_0, ?replace_cons, ?replace_0; try reflexivity. f_equal. apply IH. lia.
  Qed.
  Lemma replace_self : forall A i (x : A) l, nth_error l i = Some x -> replace_at i x l = l.
  Proof.
    induction i as [|i IH]; intros x [|z l] H; try discriminate.
    - injection H as ->. reflexivity.
    - rewrite replace_cons. f_equal. apply IH. exact H.
  Qed.

  Lemma find_ok : forall t n m f, leads t n m f -> counts_ok CMAX 1 t -> forall this c v fuel, nth_error (rv_vals t) m = Some (Value c v) -> n < fuel ->
    exists e ce ve, find_final CMAX fuel (upd t m (Value (S c) v)) this (Some m) = Some (Ok (f, upd t e (Value (S ce) ve))) /\
      nth_error (rv_vals t) e = Some (Value ce ve).
  Proof.
    intros t n m f L CO. induction L as [m c0 p H|m c0 H|n m c0 j f H L IH]; intros this c v fuel E FU; (destruct fuel as [|fuel]; [lia|]).
    - rewrite H in E. injection E as <- <-. exists m, c0, (SHandle p). split; auto. cbn [find_final]. unfold rv_get.
      rewrite (upd_same _ _ _ _ H). reflexivity.
    - rewrite H in E. injection E as <- <-. exists m, c0, SRemoved. split; auto. cbn [find_final]. unfold rv_get.
      rewrite (upd_same _ _ _ _ H). reflexivity.
    - rewrite H in E. injection E as <- <-. destruct (leads_slot _ _ _ _ L) as (cj & vj & Ej).
      assert (D : m <> j). { intros <-. destruct (leads_len _ _ _ _ L _ _ (leads_on _ _ _ _ _ _ H L)). lia. }
      cbn [find_final]. unfold rv_get at 1. rewrite (upd_same _ _ _ _ H).
      unfold rv_clone. rewrite upd_other by auto. rewrite Ej. destruct (CO _ _ _ Ej) as [_ B]. replace (cj <? CMAX) with true by (symmetry; apply Nat.ltb_lt; lia).
      cbv iota beta. unfold rv_recycle at 1. cbn [rv_vals]. rewrite replace_nth_other by auto. rewrite (upd_same _ _ _ _ H).
      destruct (CO _ _ _ H) as [C1 _]. destruct c0 as [|c0]; [lia|]. cbv iota beta.
      destruct (IH this cj vj fuel Ej ltac:(lia)) as (e & ce & ve & Q & Qe). exists e, ce, ve. split; auto. rewrite <- Q. do 2 f_equal.
      unfold upd. cbn [rv_vals rv_head]. f_equal. rewrite (replace_comm _ m j) by auto. rewrite replace_twice. rewrite (replace_self _ m) by exact H. reflexivity.
  Qed.

  (** The first loop from the slot itself. *)
  Lemma find_start : forall t n i f c j, leads t n i f -> counts_ok CMAX 1 t -> nth_error (rv_vals t) i = Some (Value c (SRedirect j)) ->
    forall fuel, n < fuel -> exists e ce ve, find_final CMAX fuel t i None = Some (Ok (f, upd t e (Value (S ce) ve))) /\ nth_error (rv_vals t) e = Some (Value ce ve).
  Proof.
    intros t n i f c j L CO E fuel FU. destruct L as [i c0 p H|i c0 H|n i c0 k f H L]; try congruence.
    assert (k = j) by congruence. subst k. destruct fuel as [|fuel]; [lia|]. cbn [find_final]. unfold rv_get. rewrite H.
    destruct (leads_slot _ _ _ _ L) as (cj & vj & Ej). unfold rv_clone. rewrite Ej. destruct (CO _ _ _ Ej) as [_ B].
    replace (cj <? CMAX) with true by (symmetry; apply Nat.ltb_lt; lia). cbv iota beta.
    apply (find_ok _ _ _ _ L CO i cj vj fuel Ej). lia.
  Qed.

  (** A reference whose slot is redirected never gets a result: if the redirections end, and counts do not overflow,
      the table is borrowed a second time and that panics. *)
  Lemma C48_redirect_panics_proof : forall t i c j, nth_error (rv_vals t) i = Some (Value c (SRedirect j)) ->
    (forall fuel x, collapse CMAX fuel t (Some i) <> Some (Ok x)) /\
    (forall n f fuel, leads t n i f -> counts_ok CMAX 1 t -> n < fuel -> collapse CMAX fuel t (Some i) = Some (Panic PBorrow)).
  Proof.
    intros t i c j E. unfold collapse, rv_get. rewrite E. unfold slow_path, slow_path_via. cbn [cell_borrow_mut]. split.
    - intros fuel x. destruct (find_final CMAX fuel t i None) as [[[f t1]|y|]|]; cbn [cell_borrow bind]; discriminate.
    - intros n f fuel L CO FU. destruct (find_start _ _ _ _ _ _ L CO E fuel FU) as (e & ce & ve & -> & _). reflexivity.
  Qed.

  (** *** With line 593 corrected *)

  Lemma set_ok : forall n u h i fuel, leads u n i (Some h) -> counts_ok CMAX (n + 2) u -> 
    (forall c v, nth_error (rv_vals u) h = Some (Value c v) -> 1 <= c) -> n < fuel ->
    exists t3, set_all CMAX fuel u (Some h) i = Some (Ok t3) /\ rv_get t3 h = Ok (SRedirect h).
  Proof.
    induction n as [|n IH]; intros u h i fuel L CO C1 FU; (destruct fuel as [|fuel]; [lia|]).
    - inversion L as [i' c p H| |]; subst. cbn [set_all]. destruct (CO _ _ _ H) as [D1 D2]. unfold rv_clone. rewrite H.
      replace (c <? CMAX) with true by (symmetry; apply Nat.ltb_lt; lia). cbn [bind]. cbv iota beta. unfold rv_replace. cbn [rv_vals].
      rewrite replace_nth_same by (eapply nth_error_lt; eauto). cbv iota beta. unfold rv_recycle. cbn [rv_vals rv_head].
      rewrite replace_twice. rewrite replace_nth_same by (eapply nth_error_lt; eauto). destruct c as [|c]; [lia|]. cbv iota beta.
      eexists. split; [reflexivity|]. unfold rv_get. cbn [rv_vals]. rewrite replace_twice.
      rewrite replace_nth_same by (eapply nth_error_lt; eauto). reflexivity.
    - inversion L as [| |n' i' ci j f' H L']; subst. destruct (leads_end _ _ _ _ L') as (ch & p & Eh).
      assert (D : h <> i). { intros <-. congruence. }
      destruct (CO _ _ _ Eh) as [D1 D2]. cbn [set_all]. unfold rv_clone. rewrite Eh.
      replace (ch <? CMAX) with true by (symmetry; apply Nat.ltb_lt; lia). cbn [bind]. cbv iota beta. unfold rv_replace. cbn [rv_vals rv_head].
      rewrite replace_nth_other by auto. rewrite H. cbv iota beta.
      set (u2 := {| rv_vals := replace_at i (Value ci (SRedirect h)) (replace_at h (Value (S ch) (SHandle p)) (rv_vals u)); rv_head := rv_head u |}).
      assert (L2 : leads u2 n j (Some h)).
      { change u2 with (upd (upd u h (Value (S ch) (SHandle p))) i (Value ci (SRedirect h))).
        eapply leads_upd; [|eapply (leads_count _ _ _ _ L); eauto|lia]. eapply leads_count; eauto. }
      assert (CO2 : counts_ok CMAX (n + 2) u2).
      { intros k c v Hk. unfold u2 in Hk. cbn [rv_vals] in Hk. apply nth_replace in Hk. destruct Hk as [[<- Hk]|[_ Hk]].
        - injection Hk as -> ->. destruct (CO _ _ _ H). lia.
        - apply nth_replace in Hk. destruct Hk as [[<- Hk]|[_ Hk]]; [injection Hk as -> ->; lia|]. destruct (CO _ _ _ Hk). lia. }
      apply (IH u2 h j fuel L2 CO2); [|lia]. intros c v Hc. destruct (CO2 _ _ _ Hc). lia.
  Qed.

  (** With that borrow corrected it still panics when there is a handle at the end: the second loop goes on to the slot with the handle
      and overwrites it too. *)
  Lemma C48_corrected_panics_proof : forall t i c j n h fuel, nth_error (rv_vals t) i = Some (Value c (SRedirect j)) ->
    leads t n i (Some h) -> counts_ok CMAX (n + 4) t -> n < fuel -> slow_path_corrected CMAX fuel t i = Some (Panic PUnreachable).
  Proof.
    intros t i c j n h fuel E L CO FU. unfold slow_path_corrected, slow_path_via. cbn [cell_borrow_mut].
    assert (CO1 : counts_ok CMAX 1 t). { intros k c0 v Hk. destruct (CO _ _ _ Hk). lia. }
    destruct (find_start _ _ _ _ _ _ L CO1 E fuel FU) as (e & ce & ve & -> & Ee). cbn [bind]. cbv iota beta.
    set (t1 := upd t e (Value (S ce) ve)).
    assert (L1 : leads t1 n i (Some h)) by (eapply leads_count; eauto).
    assert (CO2 : counts_ok CMAX (n + 3) t1).
    { intros k c0 v Hk. unfold t1, upd in Hk. cbn [rv_vals] in Hk. apply nth_replace in Hk. destruct Hk as [[<- Hk]|[_ Hk]].
      - injection Hk as -> ->. destruct (CO _ _ _ Ee). lia.
      - destruct (CO _ _ _ Hk). lia. }
    destruct (leads_slot _ _ _ _ L1) as (c1 & v1 & E1). unfold rv_clone. rewrite E1. destruct (CO2 _ _ _ E1) as [B1 B2].
    replace (c1 <? CMAX) with true by (symmetry; apply Nat.ltb_lt; lia). cbv iota beta.
    change {| rv_vals := replace_at i (Value (S c1) v1) (rv_vals t1); rv_head := rv_head t1 |} with (upd t1 i (Value (S c1) v1)).
    destruct (set_ok n (upd t1 i (Value (S c1) v1)) h i fuel) as (t3 & -> & G); auto.
    - eapply leads_count; eauto.
    - intros k c0 v Hk. unfold upd in Hk. cbn [rv_vals] in Hk. apply nth_replace in Hk. destruct Hk as [[<- Hk]|[_ Hk]].
      + injection Hk as -> ->. lia.
      + destruct (CO2 _ _ _ Hk). lia.
    - intros c0 v Hk. unfold upd in Hk. cbn [rv_vals] in Hk. apply nth_replace in Hk. destruct Hk as [[<- Hk]|[_ Hk]].
      + injection Hk as -> ->. lia.
      + destruct (CO2 _ _ _ Hk). lia.
    - rewrite G. reflexivity.
  Qed.

  (** Two redirections lead to a handle, and it is not found. *)
  Lemma C48_follows_redirects_refuted_proof : exists (t : @rvec stored) i h, leads t 2 i (Some h) /\ counts_ok 100 10 t /\ i <> h /\
    collapse 100 10 t (Some i) = Some (Panic PBorrow) /\ slow_path_corrected 100 10 t i = Some (Panic PUnreachable).
  Proof.
    exists {| rv_vals := [Value 1 (SRedirect 1); Value 2 (SRedirect 2); Value 2 (SHandle true)]; rv_head := None |}, 0, 2.
    split.
    { eapply leads_on; [reflexivity|]. eapply leads_on; [reflexivity|]. eapply leads_handle. reflexivity. }
    split.
    { intros i c v H. cbn [rv_vals] in H. destruct i as [|[|[|i]]]; cbn [nth_error] in H; try (injection H as <- _; lia). destruct i; discriminate. }
    split; [lia|]. split; vm_compute; reflexivity.
  Qed.

  (** But no slot is ever redirected, or removed: in every history every slot holds a handle, so that the fast path is
      taken and finds it. *)
  Lemma C48_never_redirected_proof : forall k os outs w i e,
    nrun CMAX (start k) os = Some (outs, w) -> length os + 2 <= CMAX -> ~ In OUB outs -> w_tree w <> TGone ->
    nth_error (rv_vals (table_of w)) i = Some e -> exists c p, e = Value c (SHandle p) /\
      forall fuel, collapse CMAX fuel (table_of w) (Some i) = Some (Ok {| c_id := Some i; c_table := table_of w; c_found := Some p |}).
  Proof.
    intros k os outs w i e H BD N T E. destruct (reach_inv CMAX _ _ _ _ H BD N) as (a & b & c & G & _).
    destruct (to_slot _ _ _ _ (g_tbl _ _ _ _ _ G T) _ _ E) as (cc & p & -> & _). exists cc, p. split; auto.
    intros fuel. unfold collapse, rv_get. rewrite E. reflexivity.
  Qed.
End RedirectP.
