(** Proofs about the memory that calls on trees that share nodes take. *)
From Coq Require Import List Arith Bool Lia Permutation.
From Verif Require Import Base ListFacts Index Slice Tree Insert LInsert LRef LCow Cow CowSpec CowP CowQ CowT CowU CowV Weak WeakP WeakR WeakS WeakX
  CowCall CowCallP CowCallQ CowCallR CowCallS CowCallPropsP CowCallWeak CowCallWeakP CowWait CowWaitQ CowShare.
Import ListNotations.

(** ** Memory *)
Section H.
  Context {D : Type}.
  Notation heap := (heap D).
  Notation node := (cnode D).

  Lemma used_app : forall (m m' : heap), used (m ++ m') = used m + used m'.
  Proof. intros. unfold used. rewrite filter_app, app_length. reflexivity. Qed.
  Lemma used_cons : forall o (m : heap), used (o :: m) = (match o with Some _ => 1 | None => 0 end) + used m.
  Proof. intros [n|] m; reflexivity. Qed.
  Lemma used_replace : forall (m : heap) a o o', nth_error m a = Some o ->
    used (replace_at a o' m) + (match o with Some _ => 1 | None => 0 end) = used m + (match o' with Some _ => 1 | None => 0 end).
  Proof.
    induction m as [|x m IH]; intros a o o' N; [destruct a; discriminate|]. destruct a as [|a]; cbn [nth_error] in N.
    - injection N as ->. rewrite replace_0, !used_cons. lia.
    - rewrite replace_cons, !used_cons. specialize (IH _ _ o' N). lia.
  Qed.
  Lemma used_put : forall (m : heap) a n n', look m a = Some n -> used (put m a n') = used m.
  Proof. intros m a n n' L. unfold look in L. destruct (nth_error m a) as [[k|]|] eqn:N; try discriminate. pose proof (used_replace m a _ (Some n') N) as Q. unfold put. cbn in Q. lia. Qed.
  Lemma used_free : forall (m : heap) a n, look m a = Some n -> used (free m a) + 1 = used m.
  Proof. intros m a n L. unfold look in L. destruct (nth_error m a) as [[k|]|] eqn:N; try discriminate. pose proof (used_replace m a _ None N) as Q. unfold free. cbn in Q. lia. Qed.
  Lemma used_alloc : forall (m : heap) a n m', alloc m a n = Some m' -> used m' = used m + 1.
  Proof.
    intros m a n m' H. unfold alloc in H. destruct (a =? length m); [injection H as <-; rewrite used_app; reflexivity|].
    destruct (nth_error m a) as [[k|]|] eqn:N; try discriminate. injection H as <-. pose proof (used_replace m a _ (Some n) N) as Q. unfold put. cbn in Q. lia.
  Qed.
  Lemma used_work : forall (m : heap) w m' ws, work_step m w = Some (m', ws) -> used m' <= used m.
  Proof.
    intros m [a|a] m' ws H; cbn [work_step] in H; destruct (look m a) as [n|] eqn:L; try discriminate.
    - destruct (n_cnt n) as [|[|c]]; try discriminate; injection H as <- <-; rewrite (used_put _ _ _ _ L); lia.
    - injection H as <- <-. pose proof (used_free _ _ _ L). lia.
  Qed.

  Lemma used_put2 : forall (m : heap) a b n n' k k', look m a = Some n -> look m b = Some k -> used (put (put m a n') b k') = used m.
  Proof.
    intros m a b n n' k k' A B. destruct (look (put m a n') b) as [z|] eqn:E; [rewrite (used_put _ _ _ _ E); eapply used_put; exact A|].
    rewrite (look_put _ _ _ _ _ A) in E. destruct (b =? a); congruence.
  Qed.
  Lemma used_put_alloc : forall (m : heap) a b n m' k k', alloc m b n = Some m' -> look m a = Some k -> used (put m' a k') = used m + 1.
  Proof.
    intros m a b n m' k k' A B. destruct (look m' a) as [z|] eqn:E; [rewrite (used_put _ _ _ _ E); eapply used_alloc; exact A|].
    rewrite (look_alloc _ _ _ _ _ A) in E. destruct (a =? b); congruence.
  Qed.

  (** What a thread may still allocate on its own, and what a step of a call allows it to. *)
  Definition epot (p : pc D) : nat := match p with PEns _ _ ELoad | PEns _ _ (EInc _ _ _) => 1 | _ => 0 end.
  Definition need (e : ev D) : nat := match e with VChild _ | VInsert _ | VNew _ _ _ | VSplit _ _ _ _ | VNewRoot _ _ _ => 1 | _ => 0 end.
  Definition needs (es : list (ev D)) : nat := fold_right plus 0 (map need es).

  Lemma set_mem : forall (s : cstate D) h fr a s', set_slot s h fr a = Some s' -> used (c_mem s') = used (c_mem s) /\ c_threads s' = c_threads s.
  Proof.
    intros s h fr a s' H. unfold set_slot in H. destruct fr as [|[p i] fr]; [injection H as <-; auto|].
    destruct (look (c_mem s) p) as [n|] eqn:L; [|discriminate]. injection H as <-. split; [|reflexivity]. cbn [c_mem mem]. eapply used_put; exact L.
  Qed.

  Ltac same := eexists; split; [eassumption|cbn [c_mem mem hand go epot need]].
  Ltac gone := eexists; split; [apply replace_nth_same; assumption|cbn [c_mem mem hand go epot need]].
  Ltac peel H := repeat match type of H with
    | Bad = _ => discriminate H | Blocked = _ => discriminate H
    | context [match look ?m ?a with _ => _ end] => let E := fresh "L" in destruct (look m a) eqn:E
    | context [match alloc ?m ?a ?n with _ => _ end] => let E := fresh "A" in destruct (alloc m a n) eqn:E
    | context [match work_step ?m ?w with _ => _ end] => let E := fresh "W" in destruct (work_step m w) as [[? ?]|] eqn:E
    | context [match set_slot ?s ?h ?fr ?a with _ => _ end] => let E := fresh "T" in destruct (set_slot s h fr a) eqn:E
    | context [match ?x with _ => _ end] => destruct x
    end.

  Lemma cstep_pot : forall (s : cstate D) t e s' o p, nth_error (c_threads s) t = Some p -> cstep s t e = Next s' o ->
    exists p', nth_error (c_threads s') t = Some p' /\ (used (c_mem s') - used (c_mem s)) + epot p' <= epot p + need e.
  Proof.
    intros s t e s' o p NP H. pose proof (nth_error_lt _ _ _ NP) as LT. unfold cstep in H. rewrite NP in H.
    destruct p as [|h is x|ws|h fr en|h fr x fl old].
    - destruct e; try discriminate; peel H; try discriminate; injection H as <- <-; first [gone; lia|same; try lia].
      + erewrite used_alloc by eassumption. lia.
      + erewrite used_put by eassumption. lia.
    - destruct e; try discriminate; peel H; try discriminate; injection H as <- <-; gone; lia.
    - destruct e; try discriminate; peel H; try discriminate; injection H as <- <-; gone; try lia. match goal with W : work_step _ _ = _ |- _ => apply used_work in W; lia end.
    - destruct e; try discriminate; try (destruct en; discriminate).
      + unfold ens_step in H. destruct en as [|d q done|new ws|new].
        * peel H; try discriminate; injection H as <- <-; gone; lia.
        * peel H; try discriminate; injection H as <- <-; first [gone; erewrite used_put by eassumption; lia|idtac].
          match goal with T : set_slot _ _ _ _ = _ |- _ => apply set_mem in T; destruct T as [TU TT] end. eexists. split; [cbn [go c_threads]; rewrite TT; apply replace_nth_same; assumption|].
          cbn [c_mem go epot need] in *. rewrite TU. cbn [mem c_mem]. erewrite used_alloc by eassumption. lia.
        * peel H; try discriminate; injection H as <- <-; gone; try lia. match goal with W : work_step _ _ = _ |- _ => apply used_work in W; lia end.
        * peel H; try discriminate. injection H as <- <-. gone. erewrite used_put by eassumption. lia.
      + destruct en; try discriminate. injection H as <- <-. gone. lia.
      + destruct en; try discriminate. peel H; try discriminate. injection H as <- <-. gone. lia.
    - unfold at_step in H. destruct (look (c_mem s) x) as [n|] eqn:LX; [|discriminate]. destruct e; try discriminate.
      all: peel H; try discriminate; injection H as <- <-.
      all: first [gone; lia|same; lia|same; erewrite used_put by eassumption; lia|gone; erewrite used_put by eassumption; lia|gone; erewrite used_put2 by eassumption; lia
        |gone; erewrite used_put_alloc by eassumption; lia|gone; erewrite used_alloc by eassumption; erewrite used_put2 by eassumption; lia].
  Qed.
End H.

(** ** The nodes of trees *)
Section N.
  Context {D : Type}.
  Notation rose := (rose D).

  Definition tot (l : list rose) : nat := fold_right plus 0 (map nodes l).
  Lemma nodes_eq : forall r : rose, nodes r = 1 + tot (rkids r).
  Proof. intros [d ks]. reflexivity. Qed.
  Lemma tot_cons : forall x (l : list rose), tot (x :: l) = nodes x + tot l.
  Proof. reflexivity. Qed.
  Lemma tot_nil : tot [] = 0.
  Proof. reflexivity. Qed.
  Lemma tot_app : forall l l' : list rose, tot (l ++ l') = tot l + tot l'.
  Proof. induction l as [|x l IH]; intros l'; [reflexivity|]. cbn [app]. rewrite !tot_cons, IH. lia. Qed.
  Lemma tot_cut : forall k (l : list rose), tot (firstn k l) + tot (skipn k l) = tot l.
  Proof. intros. rewrite <- tot_app, firstn_skipn. reflexivity. Qed.
  Lemma tot_insert : forall k c (l : list rose), tot (insert_at k c l) = tot l + nodes c.
  Proof. intros. unfold insert_at. rewrite tot_app, tot_cons. pose proof (tot_cut k l). lia. Qed.
  Lemma tot_replace : forall i x y (l : list rose), nth_error l i = Some x -> tot (replace_at i y l) + nodes x = tot l + nodes y.
  Proof.
    induction i as [|i IH]; intros x y [|z l] N; try discriminate; cbn [nth_error] in N.
    - injection N as ->. rewrite replace_0, !tot_cons. lia.
    - rewrite replace_cons, !tot_cons. specialize (IH _ y _ N). lia.
  Qed.
  Lemma tot_remove : forall j c (l : list rose), nth_error l j = Some c -> tot (remove_nth j l) + nodes c = tot l.
  Proof.
    intros j c l N. unfold remove_nth. rewrite tot_app. pose proof (tot_cut j l) as T. destruct (firstn_skipn_nth _ _ _ N) as [r E].
    assert (E2 : skipn (j + 1) l = r).
    { clear - E. revert l E. induction j as [|j IH]; intros [|z l] E; cbn in *; try discriminate; [congruence|auto]. }
    rewrite E2. rewrite E, tot_cons in T. lia.
  Qed.
  Lemma nodes_chg : forall is (R x y : rose), sub R is = Some x -> nodes (chg R is (fun _ => y)) + nodes x = nodes R + nodes y.
  Proof.
    induction is as [|i is IH]; intros R x y S0; cbn [sub chg] in *; [injection S0 as ->; lia|].
    destruct (nth_error (rkids R) i) as [k|] eqn:N; [|discriminate]. rewrite (nodes_eq R), (nodes_eq (Rose _ _)). cbn [rkids]. pose proof (tot_replace _ _ (chg k is (fun _ => y)) _ N). specialize (IH _ _ y S0). lia.
  Qed.

  Definition childs (es : list (ev D)) : nat := length (filter (fun e => match e with VChild _ => true | _ => false end) es).
  Lemma needs_cons : forall (e : ev D) es, needs (e :: es) = need e + needs es.
  Proof. reflexivity. Qed.
  Lemma needs_app : forall es es' : list (ev D), needs (es ++ es') = needs es + needs es'.
  Proof. induction es as [|e es IH]; intros es'; [reflexivity|]. cbn [app]. rewrite !needs_cons, IH. lia. Qed.
  Lemma childs_app : forall es es' : list (ev D), childs (es ++ es') = childs es + childs es'.
  Proof. intros. unfold childs. rewrite filter_app, app_length. reflexivity. Qed.
  Lemma childs_path : forall q, childs (map VChild q) = length q.
  Proof. induction q as [|i q IH]; [reflexivity|]. unfold childs in *. cbn. auto. Qed.
  Lemma childs_late : forall es : list (ev D), Forall (fun e => match e with VChild _ => False | _ => True end) es -> childs es = 0.
  Proof. induction 1 as [|e es H F IH]; [reflexivity|]. unfold childs in *. cbn [filter]. destruct e; try contradiction; exact IH. Qed.

  Lemma lstep_nodes : forall (R : rose) is fl old e R' is' fl' old', lstep (R, is, fl, old) e = Some (R', is', fl', old') ->
    nodes R' + tot fl' + tot old' + childs [e] = nodes R + tot fl + tot old + need e.
  Proof.
    intros R is fl old e R' is' fl' old' H. unfold lstep in H. destruct (sub R (rev is)) as [r|] eqn:S0; [|discriminate].
    destruct e as [| | | | | | | | |i|tg d|m d d' new|tg k j d|i j|c d|new j d| | | | |]; try discriminate; try (destruct tg as [|i]; try discriminate).
    - destruct (_ && _); [|discriminate]. injection H as <- <- <- <-. cbn. lia.
    - injection H as <- <- <- <-. pose proof (nodes_chg _ _ _ (Rose d (rkids r)) S0) as Q. rewrite (nodes_eq r), (nodes_eq (Rose _ _)) in Q. cbn [rkids] in Q. cbn. lia.
    - destruct (_ || _); [|discriminate]. injection H as <- <- <- <-. pose proof (nodes_chg _ _ _ (Rose d (firstn (m + 1) (rkids r))) S0) as Q.
      rewrite (nodes_eq r), (nodes_eq (Rose _ _)) in Q. cbn [rkids] in Q. pose proof (tot_cut (m + 1) (rkids r)). rewrite tot_app, tot_cons, tot_nil, (nodes_eq (Rose d' _)). cbn [rkids need childs filter length]. lia.
    - destruct (nth_error fl j) as [c|] eqn:N; [|discriminate]. destruct (_ && _); [|discriminate]. injection H as <- <- <- <-.
      pose proof (nodes_chg _ _ _ (Rose d (insert_at k c (rkids r))) S0) as Q. rewrite (nodes_eq r), (nodes_eq (Rose _ _)) in Q. cbn [rkids] in Q. rewrite tot_insert in Q. pose proof (tot_remove _ _ _ N). cbn. lia.
    - destruct (nth_error fl i) as [b|] eqn:Ni; [|discriminate]. destruct (nth_error fl j) as [c|] eqn:Nj; [|discriminate].
      destruct (Nat.eqb_spec i j) as [E|E]; [discriminate|]. cbn [negb andb] in H. destruct (_ && _); [|discriminate]. injection H as <- <- <- <-.
      pose proof (tot_replace _ _ (Rose d (insert_at k c (rkids b))) _ Ni) as Q. rewrite (nodes_eq b), (nodes_eq (Rose _ _)) in Q. cbn [rkids] in Q. rewrite tot_insert in Q.
      assert (N2 : nth_error (replace_at i (Rose d (insert_at k c (rkids b))) fl) j = Some c) by (rewrite replace_nth_other; auto). pose proof (tot_remove _ _ _ N2). cbn [need childs filter length]. lia.
    - destruct (nth_error fl i) as [[d [|x ks]]|] eqn:Ni; try discriminate. destruct (nth_error fl j) as [c|] eqn:Nj; [|discriminate].
      destruct (Nat.eqb_spec i j) as [E|E]; [discriminate|]. cbn [negb andb] in H. destruct (_ =? _); [|discriminate]. injection H as <- <- <- <-.
      pose proof (tot_replace _ _ (Rose d (c :: ks)) _ Ni) as Q. rewrite !nodes_eq in Q. cbn [rkids] in Q. rewrite !tot_cons in Q.
      assert (N2 : nth_error (replace_at i (Rose d (c :: ks)) fl) j = Some c) by (rewrite replace_nth_other; auto). pose proof (tot_remove _ _ _ N2). rewrite tot_app, tot_cons, tot_nil. cbn [need childs filter length]. lia.
    - destruct (nth_error old c) as [b|] eqn:N; [|discriminate]. destruct (_ =? _); [|discriminate]. injection H as <- <- <- <-.
      pose proof (nodes_chg _ _ _ (Rose d (rkids r ++ [b])) S0) as Q. rewrite (nodes_eq r), (nodes_eq (Rose _ _)) in Q. cbn [rkids] in Q. rewrite tot_app, tot_cons, tot_nil in Q. pose proof (tot_remove _ _ _ N). cbn [need childs filter length]. lia.
    - destruct is; [|discriminate]. destruct (nth_error fl j) as [b|] eqn:N; [|discriminate]. destruct (_ =? _); [|discriminate]. injection H as <- <- <- <-. pose proof (tot_remove _ _ _ N).
      rewrite (nodes_eq (Rose _ _)). cbn [rkids]. rewrite !tot_cons, tot_nil. cbn [need childs filter length]. lia.
    - destruct is; [discriminate|]. injection H as <- <- <- <-. cbn. lia.
  Qed.
  Lemma lrun_nodes : forall es (R : rose) is fl old R' is' fl' old', lrun (R, is, fl, old) es = Some (R', is', fl', old') ->
    nodes R' + tot fl' + tot old' + childs es = nodes R + tot fl + tot old + needs es.
  Proof.
    induction es as [|e es IH]; intros R is fl old R' is' fl' old' H; cbn [lrun] in H; [injection H as <- <- <- <-; cbn; lia|].
    destruct (lstep (R, is, fl, old) e) as [[[[R1 is1] fl1] old1]|] eqn:E; [|discriminate]. apply lstep_nodes in E. apply IH in H. change (e :: es) with ([e] ++ es). rewrite childs_app, needs_app. cbn [needs map fold_right]. lia.
  Qed.
End N.

(** ** What a call allocates *)
Section K.
  Context {I V : Type} (X : index_ops I) (Y : slice_ops I V) (M : nat) (HM : 1 <= M).
  Notation D := (@ndata I V).
  Notation client := (@client I V).
  Notation wclient := (@wclient I V).
  Notation act := (@act I V).

  Lemma needs_path : forall q, needs (map VChild q : list (ev D)) = length q.
  Proof. induction q as [|i q IH]; [reflexivity|]. cbn [map]. rewrite needs_cons, IH. reflexivity. Qed.
  Lemma level_needs : forall c kids (news : list (rose D)), needs (level M c kids news) <= 1.
  Proof. intros c kids news. unfold level. destruct kids as [|k [|k' kids]]; destruct news as [|l [|r [|r' news]]]; try (cbn; lia); destruct (c =? M); try (destruct (M <? c)); cbn; lia. Qed.
  Lemma ups_needs : forall q (r : rose D) news, needs (ups M q r news) <= length q + 1.
  Proof.
    induction q as [|c q IH]; intros r news; cbn [ups].
    - destruct news as [|l [|n [|n' news]]]; cbn; lia.
    - destruct (nth_error (rkids r) c) as [k|]; [|cbn; lia]. rewrite needs_app, needs_cons. pose proof (IH k (kid_news c r news)). pose proof (level_needs c (kid_news c r news) news). cbn [need length]. lia.
  Qed.

  Lemma late_childs : forall es : list (ev D), Forall late es -> childs es = 0.
  Proof. intros es F. apply childs_late. apply Forall_forall. intros e IN. rewrite Forall_forall in F. specialize (F e IN). destruct e; auto. Qed.

  Lemma program_needs : forall nop r0 hints idx slice size r' cur pl fp j, insert_with_cursor X Y M nop (Some r0) hints idx slice size = Ok (r', cur) ->
    insert_plan X Y (Some r0) hints idx slice = Ok pl -> find_path X Y (Some r0) hints idx = Ok fp ->
    needs (program M j (way pl fp) (Some r0) r') <= levels (Some r0) + (rle_nodes r' - rle_nodes (Some r0)) /\ rle_nodes r' <= rle_nodes (Some r0) + r_height r0 + 2.
  Proof.
    intros nop r0 hints idx slice size r' cur pl fp j Hi Hp Hf. destruct (program_run X Y M HM _ _ _ _ _ _ _ _ _ _ j Hi Hp Hf) as (b & r1 & -> & P & RUN).
    destruct (program_parts X Y M HM _ _ _ _ _ _ _ _ _ _ j Hi Hp Hf) as (q & rest & P2 & FL & LQ & _). pose proof (lrun_nodes _ _ _ _ _ _ _ _ _ RUN) as N. rewrite !tot_nil in N.
    assert (EB : b ++ [VEnd] = map VChild q ++ rest) by congruence. pose proof (f_equal childs EB) as C. rewrite !childs_app, childs_path, (late_childs rest FL) in C. change (childs [VEnd]) with 0 in C.
    pose proof (f_equal needs EB) as E. rewrite !needs_app, needs_path in E. change (needs [VEnd : ev D]) with 0 in E.
    rewrite P, needs_cons, needs_app. change (needs [VEnd : ev D]) with 0. cbn [need]. unfold rle_nodes, levels. split; [lia|].
    assert (NR : needs b <= length q + length (way pl fp) + 2).
    { cbn [program] in P. cbv zeta in P. injection P as P. rewrite app_assoc in P. apply app_inj_tail in P. destruct P as [P _]. rewrite <- P.
      assert (Lq : length (way pl fp) = length q).
      { cbn [program] in P2. cbv zeta in P2. injection P2 as P2. pose proof (f_equal childs P2) as C2. rewrite !childs_app, !childs_path, (late_childs rest FL) in C2.
        assert (Z : childs (if r_height r1 =? r_height r0 then ups M (way pl fp) (rose_of (r_height r0) (r_node r0)) [rose_of (r_height r1) (r_node r1)]
          else ups M (way pl fp) (rose_of (r_height r0) (r_node r0)) (rkids (rose_of (r_height r1) (r_node r1))) ++ [VNewRoot 0 0 (rdata (rose_of (r_height r1) (r_node r1)))]) = 0)
          by (apply late_childs; destruct (_ =? _); [apply ups_late|apply Forall_app; split; [apply ups_late|repeat constructor]]).
        rewrite Z in C2. change (childs [VEnd]) with 0 in C2. lia. }
      rewrite needs_app, needs_path. destruct (_ =? _); [pose proof (ups_needs (way pl fp) (rose_of (r_height r0) (r_node r0)) [rose_of (r_height r1) (r_node r1)]); lia|].
      rewrite needs_app. pose proof (ups_needs (way pl fp) (rose_of (r_height r0) (r_node r0)) (rkids (rose_of (r_height r1) (r_node r1)))). cbn [needs map fold_right need]. lia. }
    pose proof (program_parts X Y M HM _ _ _ _ _ _ _ _ _ _ j Hi Hp Hf) as (q2 & rest2 & P3 & FL2 & LQ2 & _). 
    cut (length (way pl fp) <= r_height r0); [intros LW; lia|].
    cbn [program] in P2. cbv zeta in P2. injection P2 as P2. pose proof (f_equal childs P2) as C2. rewrite !childs_app, !childs_path, (late_childs rest FL) in C2. lia.
  Qed.

  Lemma nodes_pos : forall r : rose D, 1 <= nodes r.
  Proof. intros r. rewrite nodes_eq. lia. Qed.

  Lemma steps_amount : forall ts c e es, steps_of X Y M ts c = Some (e, es) -> need e + needs es <= amount X Y M ts c.
  Proof.
    intros ts c e es H. destruct c as [|nop j hints idx slice size|j|j]; cbn [steps_of amount] in *; try (injection H as <- <-; cbn; lia).
    destruct (nth_error ts j) as [[r|]|]; try discriminate. destruct (insert_with_cursor _ _ _ _ _ _ _ _ _) as [[r' cur]| |] eqn:Hi; try discriminate. destruct (insert_plan _ _ _ _ _ _) as [pl| |] eqn:Hp; try discriminate.
    destruct (find_path _ _ _ _ _) as [fp| |] eqn:Hf; try discriminate. rewrite <- needs_cons. destruct r as [r0|].
    - pose proof (program_needs _ _ _ _ _ _ _ _ _ _ j Hi Hp Hf) as [N _]. destruct (program M j (way pl fp) (Some r0) r'); [discriminate|]. injection H as <- <-. exact N.
    - cbn [program] in H. destruct r' as [r1|]; [|discriminate]. injection H as <- <-. cbn [needs need map fold_right levels rle_nodes]. pose proof (nodes_pos (rose_of (r_height r1) (r_node r1))). lia.
  Qed.

  (** ** What the threads may still allocate *)
  Definition tpot (k : client) (t : nat) : nat := epot (nth t (c_threads (k_c k)) PIdle) + needs (nth t (k_todo k) []).
  Definition given (k : client) (x : act) : nat := match x with KCall _ c _ => amount X Y M (k_trees k) c | _ => 0 end.

  Lemma nth_some : forall {A} (l : list A) t x d, nth_error l t = Some x -> nth t l d = x.
  Proof. intros A l t x d H. apply (nth_error_nth l t d) in H. exact H. Qed.
  Lemma need_placed : forall a e, need (placed a e : ev D) = need e.
  Proof. intros a e. destruct e; reflexivity. Qed.

  Lemma machine_pot : forall (k : client) t e s, machine k t e = Some s -> (used (c_mem s) - used (c_mem (k_c k))) + epot (nth t (c_threads s) PIdle) <= epot (nth t (c_threads (k_c k)) PIdle) + need e.
  Proof.
    intros k t e s H. destruct (machine_next _ _ _ _ H) as [o Hc]. destruct (nth_error (c_threads (k_c k)) t) as [p|] eqn:N; [|unfold cstep in Hc; rewrite N in Hc; discriminate].
    destruct (cstep_pot _ _ _ _ _ _ N Hc) as (p' & N' & B). rewrite (nth_some _ _ _ PIdle N), (nth_some _ _ _ PIdle N'). exact B.
  Qed.

  Lemma kstep_pot : forall (k : client) x k', kstep X Y M k x = Some k' -> (used (c_mem (k_c k')) - used (c_mem (k_c k))) + tpot k' (who x) <= tpot k (who x) + given k x.
  Proof.
    intros k x k' H.
    assert (ON : forall t e, need e = 0 -> only k t e = Some k' -> (used (c_mem (k_c k')) - used (c_mem (k_c k))) + tpot k' t <= tpot k t).
    { intros t e NE E. unfold only in E. destruct (machine k t e) as [s|] eqn:EM; [|discriminate]. injection E as <-. pose proof (machine_pot _ _ _ _ EM). unfold tpot. cbn [k_c k_todo]. lia. }
    assert (TODO : forall t es l, nth_error (k_todo k) t = Some l -> nth t (replace_at t es (k_todo k)) [] = es).
    { intros t es l N. apply nth_some. apply replace_nth_same. eapply nth_error_lt; exact N. }
    destruct x as [t c a|t a|t a|t|t tg i|t h|t i|t]; cbn [kstep who given] in *; rewrite ?Nat.add_0_r; try (eapply ON; [|exact H]; reflexivity).
    - destruct (nth_error (k_todo k) t) as [[|]|] eqn:NT; try discriminate. destruct (steps_of X Y M (k_trees k) c) as [[e es]|] eqn:ST; try discriminate.
      destruct (seq1 X Y M (k_trees k) c); try discriminate. destruct (machine k t (placed a e)) as [s|] eqn:EM; [|discriminate]. injection H as <-.
      pose proof (machine_pot _ _ _ _ EM) as B. rewrite need_placed in B. pose proof (steps_amount _ _ _ _ ST). unfold tpot. cbn [k_c k_todo]. rewrite (TODO _ es _ NT), (nth_some _ _ _ [] NT). cbn [needs map fold_right]. lia.
    - destruct (nth_error (k_todo k) t) as [[|e es]|] eqn:NT; try discriminate. destruct (machine k t (placed a e)) as [s|] eqn:EM; [|discriminate]. injection H as <-.
      pose proof (machine_pot _ _ _ _ EM) as B. rewrite need_placed in B. unfold tpot. cbn [k_c k_todo]. rewrite (TODO _ es _ NT), (nth_some _ _ _ [] NT), needs_cons. lia.
  Qed.

  Lemma kstep_other : forall k sp x k' t, kinv k sp -> kstep X Y M k x = Some k' -> t <> who x -> tpot k' t = tpot k t.
  Proof.
    intros k sp x k' t K H NE. destruct (kstep_who X Y M _ _ _ H) as ((e & o & Hc) & F). pose proof (step_local (k_c k) (who x) e (ki_inv _ _ K)) as G. rewrite Hc in G. destruct G as (p & p' & _ & _ & E).
    unfold tpot. rewrite E. f_equal; [|f_equal].
    - rewrite !nth_default_eq || idtac. destruct (nth_error (c_threads (k_c k)) t) as [z|] eqn:N.
      + rewrite (nth_some _ _ _ PIdle N). f_equal. apply nth_some. rewrite replace_nth_other by auto. exact N.
      + rewrite (nth_overflow (c_threads (k_c k))) by (apply nth_error_None; exact N). f_equal. apply nth_overflow. apply nth_error_None. rewrite replace_nth_other by auto. exact N.
    - specialize (F t NE). destruct (nth_error (k_todo k) t) as [z|] eqn:N.
      + rewrite (nth_some _ _ _ [] N). apply nth_some. exact F.
      + rewrite !nth_overflow; [reflexivity|apply nth_error_None; exact N|apply nth_error_None; exact F].
  Qed.
  Lemma kstep_threads : forall k sp x k', kinv k sp -> kstep X Y M k x = Some k' -> length (c_threads (k_c k')) = length (c_threads (k_c k)) /\ who x < length (c_threads (k_c k)).
  Proof.
    intros k sp x k' K H. destruct (kstep_who X Y M _ _ _ H) as ((e & o & Hc) & F). pose proof (step_local (k_c k) (who x) e (ki_inv _ _ K)) as G. rewrite Hc in G. destruct G as (p & p' & N & _ & E).
    rewrite E, replace_len. split; [reflexivity|eapply nth_error_lt; exact N].
  Qed.

  Definition pots (k : client) (n : nat) : nat := fold_right plus 0 (map (tpot k) (List.seq 0 n)).
  Lemma sum_other : forall (f g : nat -> nat) l t, ~ In t l -> (forall u, u <> t -> f u = g u) -> fold_right plus 0 (map f l) = fold_right plus 0 (map g l).
  Proof. intros f g l t NI H. f_equal. apply map_ext_in. intros u IN. apply H. intros ->. auto. Qed.
  Lemma sum_one : forall (f g : nat -> nat) l t, NoDup l -> In t l -> (forall u, u <> t -> f u = g u) -> fold_right plus 0 (map f l) + g t = fold_right plus 0 (map g l) + f t.
  Proof.
    induction l as [|u l IH]; intros t ND IN H; [contradiction|]. inversion ND as [|? ? NI ND']; subst. cbn [map fold_right]. destruct IN as [->|IN].
    - rewrite (sum_other f g l t NI H). lia.
    - assert (u <> t) by (intros ->; auto). specialize (IH _ ND' IN H). rewrite (H u) by auto. lia.
  Qed.

  Lemma kstep_pots : forall k sp x k', kinv k sp -> kstep X Y M k x = Some k' ->
    used (c_mem (k_c k')) + pots k' (length (c_threads (k_c k'))) <= used (c_mem (k_c k)) + pots k (length (c_threads (k_c k))) + given k x.
  Proof.
    intros k sp x k' K H. destruct (kstep_threads _ _ _ _ K H) as [L LT]. rewrite L. pose proof (kstep_pot _ _ _ H) as B.
    assert (S0 : pots k' (length (c_threads (k_c k))) + tpot k (who x) = pots k (length (c_threads (k_c k))) + tpot k' (who x)).
    { unfold pots. apply sum_one; [apply seq_NoDup|apply in_seq; lia|]. intros u NE. eapply kstep_other; eauto. }
    lia.
  Qed.

  Lemma kstep_trees : forall k x k', kstep X Y M k x = Some k' -> match x with KCall _ c _ => seq1 X Y M (k_trees k) c = Some (k_trees k') | _ => k_trees k' = k_trees k end.
  Proof.
    intros k x k' H. assert (ON : forall t e, only k t e = Some k' -> k_trees k' = k_trees k) by (intros t e E; unfold only in E; destruct (machine k t e); [|discriminate]; injection E as <-; reflexivity).
    destruct x as [t c a|t a|t a|t|t tg i|t h|t i|t]; cbn [kstep] in H; try (eapply ON; exact H).
    - destruct (nth_error (k_todo k) t) as [[|]|]; try discriminate. destruct (steps_of X Y M (k_trees k) c) as [[e es]|]; try discriminate.
      destruct (seq1 X Y M (k_trees k) c) as [ts|]; try discriminate. destruct (machine k t (placed a e)); [|discriminate]. injection H as <-. reflexivity.
    - destruct (nth_error (k_todo k) t) as [[|e es]|]; try discriminate. destruct (machine k t (placed a e)); [|discriminate]. injection H as <-. reflexivity.
  Qed.

  Lemma krun_pots : forall xs k sp k', kinv k sp -> krun X Y M k xs = Some k' ->
    used (c_mem (k_c k')) + pots k' (length (c_threads (k_c k'))) <= used (c_mem (k_c k)) + pots k (length (c_threads (k_c k))) + cost X Y M (k_trees k) (calls xs).
  Proof.
    induction xs as [|x xs IH]; intros k sp k' K H; cbn [krun] in H; [injection H as <-; cbn; lia|].
    destruct (kstep X Y M k x) as [k1|] eqn:E; [|discriminate]. destruct (kinv_kstep X Y M HM _ _ _ _ K E) as (sp1 & K1). specialize (IH _ _ _ K1 H). pose proof (kstep_pots _ _ _ _ K E) as B. pose proof (kstep_trees _ _ _ E) as T.
    destruct x as [t c a|t a|t a|t|t tg i|t h|t i|t]; cbn [given] in B; unfold calls in *; cbn [flat_map app]; try (rewrite T in IH; lia).
    cbn [cost]. rewrite T. lia.
  Qed.

  (** ** With weak memory *)
  Lemma qstep_sim_who : forall q x j q', qinv q -> qstep X Y M q x j = Some q' ->
    exists x', kstep X Y M (sc_of q) x' = Some (sc_of q') /\ who x' = who x /\ calls [x'] = calls [x].
  Proof.
    intros q x j q' Q H. pose proof Q as [W F].
    assert (ON : forall t e, (forall e', alike e e' -> exists x', (only (sc_of q) t e' = kstep X Y M (sc_of q) x' /\ who x' = who x /\ calls [x'] = calls [x])) -> qonly q t e j = Some q' ->
      exists x', kstep X Y M (sc_of q) x' = Some (sc_of q') /\ who x' = who x /\ calls [x'] = calls [x]).
    { intros t e AL E. unfold qonly in E. destruct (qmachine q t e j) as [w|] eqn:EM; [|discriminate]. injection E as <-. destruct (qmachine_ok _ _ _ _ _ Q EM) as (_ & e' & A & ME).
      destruct (AL e' A) as (x' & EO & C). exists x'. split; [|exact C]. rewrite <- EO. unfold only. rewrite ME. reflexivity. }
    assert (PL : forall t e, plain e -> only (sc_of q) t e = kstep X Y M (sc_of q) x -> qonly q t e j = Some q' -> exists x', kstep X Y M (sc_of q) x' = Some (sc_of q') /\ who x' = who x /\ calls [x'] = calls [x]).
    { intros t e P E. apply (ON t e). intros e' A. rewrite (plain_alike _ _ P A). exists x. auto. }
    destruct x as [t c a|t a|t a|t|t tg i|t h|t i|t]; cbn [qstep] in H.
    - exists (KCall t c a). split; [|auto]. destruct (nth_error (q_todo q) t) as [[|]|] eqn:NT; try discriminate. destruct (steps_of X Y M (q_trees q) c) as [[e es]|] eqn:ST; try discriminate.
      destruct (seq1 X Y M (q_trees q) c) as [ts|] eqn:SQ; try discriminate. destruct (qmachine q t (placed a e) j) as [w|] eqn:EM; [|discriminate]. injection H as <-.
      destruct (steps_plain _ _ _ _ _ _ _ ST) as [Pe Pes]. destruct (qmachine_ok _ _ _ _ _ Q EM) as (W' & e' & A & ME). rewrite (plain_alike _ _ (placed_plain a _ Pe) A) in ME.
      cbn [kstep]. cbn [sc_of k_todo k_trees]. rewrite NT, ST, SQ, ME. reflexivity.
    - exists (KNext t a). split; [|auto]. destruct (nth_error (q_todo q) t) as [[|e es]|] eqn:NT; try discriminate. destruct (qmachine q t (placed a e) j) as [w|] eqn:EM; [|discriminate]. injection H as <-.
      assert (P : Forall plain (e :: es)) by (rewrite Forall_forall in F; apply F; eapply nth_error_In; exact NT). inversion P as [|? ? Pe Pes]; subst.
      destruct (qmachine_ok _ _ _ _ _ Q EM) as (W' & e' & A & ME). rewrite (plain_alike _ _ (placed_plain a _ Pe) A) in ME. cbn [kstep]. cbn [sc_of k_todo k_trees]. rewrite NT, ME. reflexivity.
    - apply (ON t (VStep a)); [|exact H]. intros e' [->|[-> _]]; [exists (KStep t a)|exists (KShared t)]; repeat split.
    - discriminate.
    - apply (ON t (VFix tg i)); [|exact H]. intros e' [->|[-> _]]; [exists (KFix t tg i)|exists (KShared t)]; repeat split.
    - eapply PL; [| |exact H]; [exact Logic.I|reflexivity].
    - eapply PL; [| |exact H]; [exact Logic.I|reflexivity].
    - eapply PL; [| |exact H]; [exact Logic.I|reflexivity].
  Qed.

  Lemma made_pot : forall ys q sp q' t, qinv q -> kinv (sc_of q) sp -> qrun X Y M q ys = Some q' -> existsb (begins t) (map fst ys) = false -> made X Y M t q ys + tpot (sc_of q') t <= tpot (sc_of q) t.
  Proof.
    induction ys as [|[x j] ys IH]; intros q sp q' t Q K H NB; cbn [qrun made] in *; [injection H as <-; lia|].
    destruct (qstep X Y M q x j) as [q1|] eqn:E; [|discriminate]. destruct (qstep_sim X Y M _ _ _ _ Q E) as (Q1 & _). destruct (qstep_sim_who _ _ _ _ Q E) as (x' & KS & EW & EC).
    destruct (kinv_kstep X Y M HM _ _ _ _ K KS) as (sp1 & K1). cbn [map fst existsb] in NB. apply orb_false_iff in NB. destruct NB as [NB1 NB]. specialize (IH _ _ _ _ Q1 K1 H NB).
    destruct (Nat.eqb_spec (who x) t) as [<-|NE].
    - pose proof (kstep_pot _ _ _ KS) as B. rewrite EW in B. cbn [sc_of k_c] in B. assert (G : given (sc_of q) x' = 0).
      { destruct x' as [u c a|u a|u a|u|u tg i|u h|u i|u]; try reflexivity. destruct x as [u' c' a'|u' a'|u' a'|u'|u' tg i|u' h|u' i|u']; try discriminate. cbn [begins who] in NB1. rewrite Nat.eqb_refl in NB1. discriminate. }
      rewrite G in B. lia.
    - rewrite (kstep_other _ _ _ _ t K KS) in IH by congruence. lia.
  Qed.
End K.
