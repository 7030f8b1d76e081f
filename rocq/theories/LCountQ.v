(** Counting pointers.  Proof support only. *)
From Coq Require Import List Lia Bool Arith.
From Verif Require Import Base LTree LInsert LTreeP LShape LRef LInvP LCow LCount LCountSpec LCountP.
Import ListNotations.

(** ** Nodes and pointers of one tree *)
Fixpoint subs (t : ltree) : list ltree := match t with LNil => [] | LNode _ _ _ ks => t :: flat_map subs ks end.

Lemma lsize_kid : forall ks k, In k ks -> lsize k <= lsum lsize ks.
Proof. induction ks as [|x ks IH]; intros k H; [destruct H|]; destruct H as [<-|H]; rewrite lsum_cons; [lia|]. specialize (IH k H). lia. Qed.
Lemma ltree_ind' : forall P : ltree -> Prop, P LNil -> (forall a p rs ks, Forall P ks -> P (LNode a p rs ks)) -> forall t, P t.
Proof.
  intros P H0 H1 t. remember (lsize t) as n eqn:E. assert (Hn : lsize t <= n) by lia. clear E. revert t Hn.
  induction n as [|n IH]; intros [|a p rs ks] Hn; auto; cbn [lsize] in Hn; [lia|]. apply H1. apply Forall_forall. intros k Hk. apply IH. pose proof (lsize_kid ks k Hk). lia.
Qed.
Lemma subs_addr : forall t a, In a (laddrs t) <-> exists p rs ks, In (LNode a p rs ks) (subs t).
Proof.
  intros t. induction t as [|b p rs ks IH] using ltree_ind'; intros a; cbn [laddrs subs].
  - split; [intros []|intros (? & ? & ? & [])].
  - rewrite Forall_forall in IH. split.
    + intros [<-|H]; [do 3 eexists; left; reflexivity|]. apply in_flat_map in H. destruct H as (k & Hk & Ha). apply (IH k Hk) in Ha. destruct Ha as (p' & rs' & ks' & H).
      exists p', rs', ks'. right. apply in_flat_map. eauto.
    + intros (p' & rs' & ks' & [E|H]); [injection E as <- _ _ _; left; reflexivity|]. right. apply in_flat_map in H. destruct H as (k & Hk & H). apply in_flat_map. exists k. split; [exact Hk|].
      apply (IH k Hk). eauto.
Qed.
Lemma subs_kid : forall t a p rs ks k, In (LNode a p rs ks) (subs t) -> In k ks -> k <> LNil -> In k (subs t).
Proof.
  intros t. induction t as [|b q rq kq IH] using ltree_ind'; intros a p rs ks k Hin Hk Hn; cbn [subs] in *; [destruct Hin|].
  rewrite Forall_forall in IH. destruct Hin as [E|Hin].
  - injection E as -> -> -> ->. right. apply in_flat_map. exists k. split; [exact Hk|]. destruct k; [congruence|left; reflexivity].
  - apply in_flat_map in Hin. destruct Hin as (x & Hx & Hin). right. apply in_flat_map. exists x. split; [exact Hx|]. eapply IH; eassumption.
Qed.

Lemma in_slots_from : forall ks a c e, In e (slots_from a c ks) <-> exists i k b, nth_error ks i = Some k /\ In b (l_at k) /\ e = (PSlot a (c + i), b).
Proof.
  induction ks as [|k ks IH]; intros a c e; cbn [slots_from].
  - split; [intros []|intros ([|i] & k & b & E & _); discriminate].
  - rewrite in_app_iff, IH, in_map_iff. split.
    + intros [(b & <- & Hb)|(i & k' & b & E & Hb & ->)]; [exists 0, k, b; rewrite Nat.add_0_r; auto|]. exists (S i), k', b. rewrite Nat.add_succ_r. auto.
    + intros ([|i] & k' & b & E & Hb & ->); cbn [nth_error] in E; [injection E as ->; left; exists b; rewrite Nat.add_0_r; auto|].
      right. exists i, k', b. rewrite Nat.add_succ_r. auto.
Qed.
Definition slot_of (nodes : list ltree) (e : pointer * addr) : Prop :=
  exists a p rs ks c k b, In (LNode a p rs ks) nodes /\ nth_error ks c = Some k /\ In b (l_at k) /\ e = (PSlot a c, b).
Lemma in_slots : forall t e, In e (slots_in t) <-> slot_of (subs t) e.
Proof.
  intros t. induction t as [|b p rs ks IH] using ltree_ind'; intros e; cbn [slots_in].
  - split; [intros []|intros (? & ? & ? & ? & ? & ? & ? & [] & _)].
  - rewrite Forall_forall in IH. rewrite in_app_iff, in_slots_from, in_flat_map. split.
    + intros [(i & k & x & E & Hx & ->)|(k & Hk & H)].
      * exists b, p, rs, ks, i, k, x. split; [left; reflexivity|auto].
      * apply (IH k Hk) in H. destruct H as (a' & p' & rs' & ks' & c & k' & x & H & R). exists a', p', rs', ks', c, k', x. split; [|exact R]. right. apply in_flat_map. eauto.
    + intros (a' & p' & rs' & ks' & c & k' & x & [E|H] & E2 & Hx & ->).
      * injection E as <- <- <- <-. left. exists c, k', x. auto.
      * right. apply in_flat_map in H. destruct H as (k & Hk & H). exists k. split; [exact Hk|]. apply (IH k Hk). do 7 eexists. eauto.
Qed.

(** ** Exposed slots *)
Section X.
  Context (others : list addr).
  Notation shared := (c_shared others).
  Fixpoint sel (a : addr) (l : list (pointer * addr)) : list pointer :=
    match l with [] => [] | e :: l' => if snd e =? a then fst e :: sel a l' else sel a l' end.
  Lemma sel_in : forall a l p, In p (sel a l) <-> In (p, a) l.
  Proof.
    intros a. induction l as [|[q b] l IH]; intros p; cbn [sel snd fst]; [reflexivity|]. destruct (b =? a) eqn:E; cbn [In]; rewrite IH.
    - apply Nat.eqb_eq in E. subst b. split; intros [H|H]; auto; [subst; auto|injection H as ->; auto].
    - split; [auto|]. intros [H|H]; [injection H as -> ->; rewrite Nat.eqb_refl in E; discriminate|exact H].
  Qed.
  Lemma sel_app : forall a l m, sel a (l ++ m) = sel a l ++ sel a m.
  Proof. intros a. induction l as [|e l IH]; intros m; cbn [sel app]; [reflexivity|]. rewrite IH. destruct (_ =? a); reflexivity. Qed.
  Lemma sel_filter : forall a l, sel a l = map fst (filter (fun e => snd e =? a) l).
  Proof. intros a. induction l as [|e l IH]; cbn [sel filter]; [reflexivity|]. destruct (_ =? a); cbn [map]; rewrite IH; reflexivity. Qed.
  Lemma sel_at : forall (p : pointer) a t, length (sel a (map (fun b => (p, b)) (l_at t))) = match t with LNil => 0 | LNode b _ _ _ => delta b a end.
  Proof. intros p a [|b q rs ks]; [reflexivity|]. cbn [l_at map sel snd fst]. unfold delta. rewrite Nat.eqb_sym. destruct (a =? b); reflexivity. Qed.

  Fixpoint xs (t : ltree) : list (pointer * addr) :=
    match t with LNil => [] | LNode b _ _ ks => if shared b then [] else slots_from b 0 ks ++ flat_map xs ks end.

  Lemma sel_slots : forall a b ks c, length (sel a (slots_from b c ks)) = lsum (fun k => match k with LNil => 0 | LNode x _ _ _ => delta x a end) ks.
  Proof. intros a b. induction ks as [|k ks IH]; intros c; [reflexivity|]. cbn [slots_from]. rewrite sel_app, app_length, sel_at, IH, lsum_cons. reflexivity. Qed.
  Lemma exp_split : forall t a, exp others t a = (match t with LNil => 0 | LNode b _ _ _ => delta b a end) + length (sel a (xs t)).
  Proof.
    intros t a. induction t as [|b p rs ks IH] using ltree_ind'; [reflexivity|]. cbn [exp xs]. destruct (shared b); [reflexivity|].
    rewrite sel_app, app_length, sel_slots. f_equal.
    induction IH as [|k ks Hk IH IH2]; [reflexivity|]. cbn [flat_map]. rewrite !lsum_cons, sel_app, app_length, Hk. lia.
  Qed.

  Lemma xs_slots : forall t e, In e (xs t) -> exists a p rs ks c k b, In (LNode a p rs ks) (subs t) /\ shared a = false /\ nth_error ks c = Some k /\ In b (l_at k) /\ e = (PSlot a c, b).
  Proof.
    intros t. induction t as [|b p rs ks IH] using ltree_ind'; intros e H; cbn [xs] in H; [destruct H|]. destruct (shared b) eqn:Es; [destruct H|].
    rewrite Forall_forall in IH. apply in_app_or in H. destruct H as [H|H].
    - apply in_slots_from in H. destruct H as (i & k & x & E & Hx & ->). exists b, p, rs, ks, i, k, x. split; [left; reflexivity|auto].
    - apply in_flat_map in H. destruct H as (k & Hk & H). apply (IH k Hk) in H. destruct H as (a' & p' & rs' & ks' & c & k' & x & H & R).
      exists a', p', rs', ks', c, k', x. split; [|exact R]. right. apply in_flat_map. eauto.
  Qed.
  (** Below a shared node everything is shared. *)
  Lemma shut_all : forall t, shut others t -> match t with LNil => True | LNode b _ _ _ => shared b = true end -> forall a, In a (laddrs t) -> shared a = true.
  Proof.
    intros t. induction t as [|b p rs ks IH] using ltree_ind'; intros Hs Hb a Ha; [destruct Ha|]. destruct Ha as [<-|Ha]; [exact Hb|].
    apply in_flat_map in Ha. destruct Ha as (k & Hk & Ha). pose proof (shut_kids _ _ _ _ _ Hs) as H1. pose proof (proj1 Hs Hb) as H2. rewrite Forall_forall in IH, H1, H2.
    exact (IH k Hk (H1 k Hk) (H2 k Hk) a Ha).
  Qed.
  Lemma slots_xs : forall t, shut others t -> forall a p rs ks c k b, In (LNode a p rs ks) (subs t) -> shared a = false -> nth_error ks c = Some k -> In b (l_at k) -> In (PSlot a c, b) (xs t).
  Proof.
    intros t. induction t as [|x q rq kq IH] using ltree_ind'; intros Hs a p rs ks c k b Hin Ha Hk Hb; [destruct Hin|]. cbn [xs]. destruct (shared x) eqn:Ex.
    - exfalso. assert (shared a = true); [|congruence]. apply (shut_all _ Hs Ex). apply subs_addr. eauto.
    - destruct Hin as [E|Hin].
      + injection E as -> -> -> ->. apply in_or_app. left. apply in_slots_from. exists c, k, b. auto.
      + apply in_or_app. right. apply in_flat_map in Hin. destruct Hin as (y & Hy & Hin). apply in_flat_map. exists y. split; [exact Hy|].
        rewrite Forall_forall in IH. pose proof (shut_kids _ _ _ _ _ Hs) as H1. rewrite Forall_forall in H1. eapply IH; eauto.
  Qed.
  Lemma own_list_in : forall t, shut others t -> forall a, In a (own_list others t) <-> In a (laddrs t) /\ shared a = false.
  Proof.
    intros t. induction t as [|x q rq kq IH] using ltree_ind'; intros Hs a; [cbn; tauto|]. cbn [own_list]. destruct (shared x) eqn:Ex.
    - split; [intros []|]. intros [Ha Hn]. rewrite (shut_all _ Hs Ex a Ha) in Hn. discriminate.
    - pose proof (shut_kids _ _ _ _ _ Hs) as H1. rewrite Forall_forall in IH, H1. cbn [laddrs In]. rewrite !in_flat_map. split.
      + intros [<-|(k & Hk & Ha)]; [auto|]. apply (IH k Hk (H1 k Hk)) in Ha. destruct Ha. split; [right; eauto|assumption].
      + intros [[<-|(k & Hk & Ha)] Hn]; [auto|]. right. exists k. split; [exact Hk|]. apply (IH k Hk (H1 k Hk)). auto.
  Qed.

  Lemma nodup_app : forall {T} (l m : list T), NoDup l -> NoDup m -> (forall x, In x l -> ~ In x m) -> NoDup (l ++ m).
  Proof.
    intros T. induction l as [|x l IH]; intros m H1 H2 H3; [exact H2|]. apply NoDup_cons_iff in H1. destruct H1 as [Hx H1]. cbn [app]. constructor.
    - intros H. apply in_app_or in H. destruct H as [H|H]; [exact (Hx H)|exact (H3 x (or_introl eq_refl) H)].
    - apply IH; auto. intros y Hy. apply H3. right. exact Hy.
  Qed.
  Lemma nodup_app_inv : forall {T} (l m : list T), NoDup (l ++ m) -> NoDup l /\ NoDup m /\ forall x, In x l -> ~ In x m.
  Proof.
    intros T. induction l as [|x l IH]; intros m H; [split; [constructor|split; [exact H|intros x []]]|]. cbn [app] in H. apply NoDup_cons_iff in H. destruct H as [Hx H].
    destruct (IH m H) as (H1 & H2 & H3). split; [constructor; [|exact H1]; intros Q; apply Hx, in_or_app; auto|]. split; [exact H2|].
    intros y [<-|Hy]; [intros Q; apply Hx, in_or_app; auto|exact (H3 y Hy)].
  Qed.
  Lemma slots_nodup : forall ks a c, NoDup (map fst (slots_from a c ks)).
  Proof.
    induction ks as [|k ks IH]; intros a c; cbn [slots_from]; [constructor|]. rewrite map_app. apply nodup_app; [|apply IH|].
    - destruct k; cbn; constructor; [intros []|constructor].
    - intros p Hp Hq. rewrite in_map_iff in Hp, Hq. destruct Hp as (e & <- & He). destruct Hq as (e' & E' & He'). apply in_map_iff in He. destruct He as (b & <- & _).
      apply in_slots_from in He'. destruct He' as (i & k' & b' & _ & _ & ->). cbn [fst] in E'. injection E' as E'. lia.
  Qed.
  Lemma xs_addr : forall t p, In p (map fst (xs t)) -> exists a c, p = PSlot a c /\ In a (laddrs t).
  Proof.
    intros t p H. apply in_map_iff in H. destruct H as (e & <- & He). apply xs_slots in He. destruct He as (a & q & rs & ks & c & k & b & Hin & _ & _ & _ & ->).
    exists a, c. split; [reflexivity|]. apply subs_addr. eauto.
  Qed.
  Lemma xs_nodup : forall t, NoDup (laddrs t) -> NoDup (map fst (xs t)).
  Proof.
    intros t. induction t as [|b p rs ks IH] using ltree_ind'; intros Hn; cbn [xs]; [constructor|]. destruct (shared b); [constructor|].
    cbn [laddrs] in Hn. apply NoDup_cons_iff in Hn. destruct Hn as [Hb Hn]. rewrite map_app. apply nodup_app; [apply slots_nodup| |].
    - clear Hb. induction IH as [|k ks Hk IH IH2]; cbn [flat_map]; [constructor|]. cbn [flat_map] in Hn. apply nodup_app_inv in Hn. destruct Hn as (N1 & N2 & N3).
      rewrite map_app. apply nodup_app; [exact (Hk N1)|exact (IH2 N2)|]. intros q Hq Hq'. apply xs_addr in Hq. destruct Hq as (a & c & -> & Ha). apply (N3 a Ha).
      apply in_map_iff in Hq'. destruct Hq' as (e & E & He). apply in_flat_map in He. destruct He as (k' & Hk' & He). apply in_flat_map. exists k'. split; [exact Hk'|].
      destruct (xs_addr k' (PSlot a c)) as (a' & c' & E' & Ha'); [apply in_map_iff; exists e; auto|]. injection E' as <- _. exact Ha'.
    - intros q Hq Hq'. apply in_map_iff in Hq. destruct Hq as (e & <- & He). apply in_slots_from in He. destruct He as (i & k & x & _ & _ & ->). cbn [fst] in Hq'.
      apply in_map_iff in Hq'. destruct Hq' as (e & E & He). apply in_flat_map in He. destruct He as (k' & Hk' & He). apply Hb. apply in_flat_map. exists k'. split; [exact Hk'|].
      destruct (xs_addr k' (PSlot b (0 + i))) as (a' & c' & E' & Ha'); [apply in_map_iff; exists e; auto|]. injection E' as <- _. exact Ha'.
  Qed.
  Lemma sel_nodup : forall a l, NoDup (map fst l) -> NoDup (sel a l).
  Proof.
    intros a. induction l as [|e l IH]; intros H; cbn [sel map] in *; [constructor|]. apply NoDup_cons_iff in H. destruct H as [H1 H2]. destruct (_ =? a); [constructor|]; auto.
    intros Q. apply H1. apply sel_in in Q. apply in_map_iff. exists (fst e, a). auto.
  Qed.
  Lemma exp_le : forall t a, exp others t a <= count_occ Nat.eq_dec (laddrs t) a.
  Proof.
    intros t a. induction t as [|b p rs ks IH] using ltree_ind'; [cbn; lia|]. cbn [exp laddrs count_occ].
    assert (G : lsum (fun k => exp others k a) ks <= count_occ Nat.eq_dec (flat_map laddrs ks) a).
    { induction IH as [|k ks Hk IH IH2]; [cbn; lia|]. cbn [flat_map]. rewrite lsum_cons, count_occ_app. lia. }
    unfold delta. destruct (Nat.eq_dec b a) as [->|Hn]; [rewrite Nat.eqb_refl|destruct (a =? b) eqn:E; [apply Nat.eqb_eq in E; congruence|]]; destruct (shared _); lia.
  Qed.
End X.

(** ** All trees *)
Section T.
  Context {I V : Type}.
  Notation ptree := (ptree I V).
  Definition onodes (o : option ptree) : list ltree := match o with Some t => subs (pt_nodes t) | None => [] end.
  Definition tnodes (ts : list (option ptree)) : list ltree := flat_map onodes ts.
  Definition tcoh (ts : list (option ptree)) : Prop :=
    forall a p rs ks p' rs' ks', In (LNode a p rs ks) (tnodes ts) -> In (LNode a p' rs' ks') (tnodes ts) -> ks = ks'.

  Lemma live_nodes : forall (ts : list (option ptree)) a, In a (live ts) <-> exists p rs ks, In (LNode a p rs ks) (tnodes ts).
  Proof.
    intros ts a. unfold live, tnodes. rewrite in_flat_map. split.
    - intros ([t|] & Ht & Ha); [|destruct Ha]. apply subs_addr in Ha. destruct Ha as (p & rs & ks & H). exists p, rs, ks. apply in_flat_map. exists (Some t). auto.
    - intros (p & rs & ks & H). apply in_flat_map in H. destruct H as ([t|] & Ht & H); [|destruct H]. exists (Some t). split; [exact Ht|]. apply subs_addr. eauto.
  Qed.
  Lemma tnodes_kid : forall (ts : list (option ptree)) a p rs ks k, In (LNode a p rs ks) (tnodes ts) -> In k ks -> k <> LNil -> In k (tnodes ts).
  Proof.
    intros ts a p rs ks k H Hk Hn. apply in_flat_map in H. destruct H as ([t|] & Ht & H); [|destruct H]. apply in_flat_map. exists (Some t). split; [exact Ht|]. eapply subs_kid; eassumption.
  Qed.
  Lemma in_pointers : forall (ts : list (option ptree)) i e, In e (pointers i ts) <->
    (exists j t b, nth_error ts j = Some (Some t) /\ In b (l_at (pt_nodes t)) /\ e = (PRoot (i + j), b)) \/ slot_of (tnodes ts) e.
  Proof.
    induction ts as [|[t|] ts IH]; intros i e; cbn [pointers].
    - split; [intros []|]. intros [([|j] & t & b & E & _)|(? & ? & ? & ? & ? & ? & ? & [] & _)]; discriminate.
    - rewrite !in_app_iff, IH, in_slots. unfold root_of. rewrite in_map_iff. unfold slot_of, tnodes. cbn [flat_map onodes]. split.
      + intros [(b & <- & Hb)|[(a & p & rs & ks & c & k & b & H & R)|[(j & t' & b & E & Hb & ->)|(a & p & rs & ks & c & k & b & H & R)]]].
        * left. exists 0, t, b. rewrite Nat.add_0_r. auto.
        * right. exists a, p, rs, ks, c, k, b. split; [apply in_or_app; auto|exact R].
        * left. exists (S j), t', b. rewrite Nat.add_succ_r. auto.
        * right. exists a, p, rs, ks, c, k, b. split; [apply in_or_app; auto|exact R].
      + intros [([|j] & t' & b & E & Hb & ->)|(a & p & rs & ks & c & k & b & H & R)].
        * injection E as ->. left. exists b. rewrite Nat.add_0_r. auto.
        * right. right. left. exists j, t', b. rewrite Nat.add_succ_r. auto.
        * apply in_app_or in H. destruct H as [H|H]; [right; left|right; right; right]; exists a, p, rs, ks, c, k, b; auto.
    - rewrite IH. unfold tnodes. cbn [flat_map onodes app]. split; (intros [H|H]; [left|right; exact H]).
      + destruct H as (j & t' & b & E & Hb & ->). exists (S j), t', b. rewrite Nat.add_succ_r. auto.
      + destruct H as ([|j] & t' & b & E & Hb & ->); [discriminate|]. exists j, t', b. rewrite Nat.add_succ_r. auto.
  Qed.

  Lemma same_length : forall (l m : list pointer), NoDup l -> NoDup m -> (forall p, In p l <-> In p m) -> length l = length m.
  Proof. intros l m H1 H2 H. apply Nat.le_antisymm; apply NoDup_incl_length; auto; intros p Hp; apply H; exact Hp. Qed.

  Lemma pointers_live : forall (ts : list (option ptree)) a, pointers_to ts a = 0 <-> ~ In a (live ts).
  Proof.
    intros ts a. unfold pointers_to. rewrite <- sel_filter.
    assert (G : (exists p, In p (sel a (pointers 0 ts))) <-> In a (live ts)).
    { split.
      - intros [p H]. apply sel_in, in_pointers in H. destruct H as [(j & t & b & E & Hb & Eq)|(a' & p' & rs & ks & c & k & b & H & Hc & Hb & Eq)]; injection Eq as -> ->; apply live_nodes.
        + destruct (pt_nodes t) as [|b0 q rs ks] eqn:Et; [destruct Hb|]. destruct Hb as [->|[]]. exists q, rs, ks. apply in_flat_map. exists (Some t).
          split; [eapply nth_error_In; exact E|]. cbn [onodes]. rewrite Et. left. reflexivity.
        + destruct k as [|b0 q rq kq]; [destruct Hb|]. destruct Hb as [->|[]]. exists q, rq, kq. eapply tnodes_kid; [exact H|eapply nth_error_In; exact Hc|discriminate].
      - intros H. apply in_flat_map in H. destruct H as ([t|] & Ht & Ha); [|destruct Ha]. apply In_nth_error in Ht. destruct Ht as [j Hj].
        assert (R : In a (l_at (pt_nodes t)) \/ exists p, In (p, a) (slots_in (pt_nodes t))).
        { clear Hj. revert Ha. generalize (pt_nodes t). clear t. intros t. induction t as [|b p rs ks IH] using ltree_ind'; intros Ha; [destruct Ha|]. destruct Ha as [->|Ha]; [left; left; reflexivity|].
          right. apply in_flat_map in Ha. destruct Ha as (k & Hk & Ha). rewrite Forall_forall in IH. cbn [slots_in]. destruct (IH k Hk Ha) as [H|[q H]].
          - apply In_nth_error in Hk. destruct Hk as [i Hi]. exists (PSlot b i). apply in_or_app. left. apply in_slots_from. exists i, k, a. auto.
          - exists q. apply in_or_app. right. apply in_flat_map. eauto. }
        destruct R as [R|[p R]].
        + exists (PRoot j). apply sel_in, in_pointers. left. exists j, t, a. auto.
        + exists p. apply sel_in, in_pointers. right. apply in_slots in R. destruct R as (a' & p' & rs & ks & c & k & b & H & R'). exists a', p', rs, ks, c, k, b. split; [|exact R'].
          apply in_flat_map. exists (Some t). split; [eapply nth_error_In; exact Hj|exact H]. }
    rewrite <- G. split.
    - intros H [p Hp]. apply (nodup_In pointer_eq_dec) in Hp. apply length_zero_iff_nil in H. rewrite H in Hp. destruct Hp.
    - intros H. destruct (nodup pointer_eq_dec (sel a (pointers 0 ts))) as [|p l] eqn:E; [reflexivity|]. exfalso. apply H. exists p. apply (nodup_In pointer_eq_dec). rewrite E. left. reflexivity.
  Qed.

  Section One.
    Context (ts : list (option ptree)) (j : nat) (t : ptree).
    Hypothesis Ej : nth_error ts j = Some None.
    Notation ts1 := (replace_at j (Some t) ts).
    Notation others := (live ts).
    Hypothesis Hc : tcoh ts1.
    Hypothesis Hn : NoDup (laddrs (pt_nodes t)).

    Lemma tnodes_replace : forall n, In n (tnodes ts1) <-> In n (subs (pt_nodes t)) \/ In n (tnodes ts).
    Proof.
      intros n. unfold tnodes. clear Hc. revert j Ej. induction ts as [|o l IH]; intros [|i] E; try discriminate; cbn [nth_error] in E.
      - injection E as ->. rewrite replace_at_0. cbn [flat_map onodes app]. rewrite in_app_iff. reflexivity.
      - rewrite replace_at_S. cbn [flat_map]. rewrite !in_app_iff, (IH i E). tauto.
    Qed.
    Lemma one_node : forall a p rs ks, In (LNode a p rs ks) (subs (pt_nodes t)) -> c_shared others a = true -> exists p' rs', In (LNode a p' rs' ks) (tnodes ts).
    Proof.
      intros a p rs ks Hin Hs. apply shared_in in Hs. apply live_nodes in Hs. destruct Hs as (p' & rs' & ks' & H'). exists p', rs'.
      rewrite (Hc a p rs ks p' rs' ks'); [exact H'| |]; apply tnodes_replace; auto.
    Qed.
    Lemma one_shut : shut others (pt_nodes t).
    Proof.
      assert (G : forall u, (forall n, In n (subs u) -> In n (subs (pt_nodes t))) -> shut others u); [|apply G; auto].
      intros u. induction u as [|b p rs ks IH] using ltree_ind'; intros Hu; [exact Logic.I|]. apply shut_node.
      - intros Hs. destruct (one_node b p rs ks (Hu _ (or_introl eq_refl)) Hs) as (p' & rs' & H'). apply Forall_forall. intros k Hk. destruct k as [|c q rq kq]; [exact Logic.I|].
        apply shared_in, live_nodes. exists q, rq, kq. eapply tnodes_kid; [exact H'|exact Hk|discriminate].
      - rewrite Forall_forall in *. intros k Hk. apply (IH k Hk). intros n Hin. apply Hu. right. apply in_flat_map. eauto.
    Qed.
    Lemma nth_replace : forall i x, nth_error ts1 i = Some (Some x) <-> (i = j /\ x = t) \/ (i <> j /\ nth_error ts i = Some (Some x)).
    Proof.
      intros i x. destruct (Nat.eq_dec i j) as [->|Hi].
      - rewrite replace_nth by (apply nth_error_Some; congruence). split; [intros E; injection E as ->; auto|]. intros [[_ ->]|[H _]]; [reflexivity|congruence].
      - rewrite LTreeP.replace_at_other by congruence. split; [auto|]. intros [[H _]|[_ H]]; [congruence|exact H].
    Qed.
    Theorem pointers_one : forall a, pointers_to ts1 a = pointers_to ts a + exp others (pt_nodes t) a.
    Proof.
      intros a. unfold pointers_to. rewrite <- !sel_filter. rewrite exp_split, <- (sel_at (PRoot j)).
      set (E := sel a (map (fun b => (PRoot j, b)) (l_at (pt_nodes t))) ++ sel a (xs others (pt_nodes t))).
      rewrite <- app_length. fold E. rewrite <- (app_length (nodup pointer_eq_dec (sel a (pointers 0 ts))) E).
      assert (HE : forall p, In p E <-> (p = PRoot j /\ In a (l_at (pt_nodes t))) \/ In (p, a) (xs others (pt_nodes t))).
      { intros p. unfold E. rewrite in_app_iff, !sel_in, in_map_iff. split; (intros [H|H]; [left|right; exact H]).
        - destruct H as (b & Eb & Hb). injection Eb as <- ->. auto.
        - destruct H as [-> H]. eauto. }
      apply same_length; [apply NoDup_nodup|apply nodup_app; [apply NoDup_nodup| |]|].
      - unfold E. apply nodup_app.
        + apply sel_nodup. destruct (pt_nodes t); cbn; constructor; [intros []|constructor].
        + apply sel_nodup, xs_nodup. exact Hn.
        + intros p Hp Hq. apply sel_in in Hp, Hq. apply in_map_iff in Hp. destruct Hp as (b & Eb & _). injection Eb as <- _. apply xs_slots in Hq.
          destruct Hq as (? & ? & ? & ? & ? & ? & ? & _ & _ & _ & _ & Eq). discriminate.
      - intros p Hp Hq. apply nodup_In, sel_in, in_pointers in Hp. apply HE in Hq. destruct Hq as [[-> _]|Hq].
        + destruct Hp as [(i & x & b & Ei & _ & Eq)|(? & ? & ? & ? & ? & ? & ? & _ & _ & _ & Eq)]; [|discriminate]. injection Eq as Eq _. subst i. congruence.
        + apply xs_slots in Hq. destruct Hq as (b & p' & rs & ks & c & k & x & Hin & Hs & Ek & Hx & Eq). injection Eq as -> <-.
          destruct Hp as [(i & y & z & _ & _ & Eq)|(b' & p2 & rs2 & ks2 & c2 & k2 & x2 & Hin2 & _ & _ & Eq)]; [discriminate|]. injection Eq as <- <- <-.
          assert (c_shared others b = true); [|congruence]. apply shared_in, live_nodes. eauto.
      - intros p. rewrite nodup_In, in_app_iff, nodup_In, !sel_in, HE, !in_pointers. split.
        + intros [(i & x & b & Ei & Hb & Eq)|(b & p' & rs & ks & c & k & x & Hin & Ek & Hx & Eq)]; injection Eq as -> <-.
          * apply nth_replace in Ei. destruct Ei as [[-> ->]|[Hi Ei]]; [right; left; auto|]. left. left. exists i, x, a. auto.
          * apply tnodes_replace in Hin. destruct Hin as [Hin|Hin]; [|left; right; exists b, p', rs, ks, c, k, a; auto].
            destruct (c_shared others b) eqn:Es.
            -- destruct (one_node _ _ _ _ Hin Es) as (p2 & rs2 & H2). left. right. exists b, p2, rs2, ks, c, k, a. auto.
            -- right. right. eapply slots_xs; [exact one_shut|exact Hin|exact Es|exact Ek|exact Hx].
        + intros [[(i & x & b & Ei & Hb & Eq)|(b & p' & rs & ks & c & k & x & Hin & Ek & Hx & Eq)]|[[-> H]|H]].
          * injection Eq as -> <-. left. exists i, x, a. split; [apply nth_replace; right; split; [intros ->; congruence|exact Ei]|auto].
          * injection Eq as -> <-. right. exists b, p', rs, ks, c, k, a. split; [apply tnodes_replace; auto|auto].
          * left. exists j, t, a. split; [apply nth_replace; auto|auto].
          * apply xs_slots in H. destruct H as (b & p' & rs & ks & c & k & x & Hin & Hs & Ek & Hx & Eq). injection Eq as -> <-. right. exists b, p', rs, ks, c, k, a.
            split; [apply tnodes_replace; auto|auto].
    Qed.
  End One.
End T.
