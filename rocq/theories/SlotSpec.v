(** What the node operations of Slots.v mean: a node is a list of keys and, for an internal node, a list of
    children; nothing is said about slots. *)
From Coq Require Import List Arith Bool.
From Verif Require Import Base Index Slice Tree Slots.
Import ListNotations.

Section Spec.
  Context {I S R C : Type}.
  Variables (zero : I) (no_ref : R).
  Variable M : nat.
  Notation event := (event I S R C).
  Notation nop := (nop I S R C).

  (** A node: subtree size, keys (position, slice, reference id), children (none for a leaf). *)
  Record nodeval : Type := {
    v_total : I;
    v_keys : list (I * S * R);
    v_childs : option (list C)
  }.
  Definition k_pos (k : I * S * R) : I := fst (fst k).
  Definition k_slice (k : I * S * R) : S := snd (fst k).
  Definition k_ref (k : I * S * R) : R := snd k.

  (** At most 2*M keys, and one child more than keys in an internal node. *)
  Definition v_ok (v : nodeval) : Prop :=
    length (v_keys v) <= 2 * M /\
    match v_childs v with None => True | Some cs => length cs = length (v_keys v) + 1 end.

  (** The arrays that hold a node: its values first, nothing behind them. *)
  Definition pad {T} (n : nat) (l : list T) : list (option T) := map Some l ++ repeat None (n - length l).
  Definition encode (v : nodeval) : raw I S R C :=
    {| a_len := length (v_keys v); a_total := v_total v;
       a_keys := pad (2 * M) (map k_pos (v_keys v));
       a_vals := pad (2 * M) (map k_slice (v_keys v));
       a_refs := pad (2 * M) (map k_ref (v_keys v));
       a_childs := option_map (pad (2 * M + 1)) (v_childs v) |}.

  (** Values with their indices, counted from [i]. *)
  Definition numbered {T} (i : nat) (l : list T) : list (T * nat) := combine l (seq i (length l)).
  Definition tell_refs (me i : nat) (ks : list (I * S * R)) : list event := stores me (numbered i (map k_ref ks)).
  Definition tell_childs (me i : nat) (cs : list C) : list event := parents me (numbered i cs).

  Definition pos_at (v : nodeval) (k : nat) : I :=
    match nth_error (v_keys v) k with Some x => k_pos x | None => v_total v end.
  Definition with_keys (v : nodeval) (ks : list (I * S * R)) : nodeval :=
    {| v_total := v_total v; v_keys := ks; v_childs := v_childs v |}.

  (** The documented requirements of the insertions ("## Safety" of `insert_key`, `push_key`,
      `insert_key_and_child`, `push_key_and_child`). *)
  Definition may_insert (v : nodeval) (k : nat) : bool := (k <=? length (v_keys v)) && (length (v_keys v) <? 2 * M).

  Definition v_insert_key (me : nat) (v : nodeval) (k : nat) (s : S) : res (nodeval * list event) :=
    match v_childs v with
    | Some _ => UB
    | None =>
      if may_insert v k then
        let p := pos_at v k in
        Ok (with_keys v (insert_at k (p, s, no_ref) (v_keys v)), tell_refs me (k + 1) (skipn k (v_keys v)) ++ [EPos p])
      else UB
    end.

  Definition v_push_key (me : nat) (v : nodeval) (s : S) (r : R) (t : I) : res (nodeval * list event) :=
    match v_childs v with
    | Some _ => UB
    | None =>
      if may_insert v 0 then
        Ok ({| v_total := t; v_keys := v_keys v ++ [(v_total v, s, r)]; v_childs := None |}, [EStore r me (length (v_keys v))])
      else UB
    end.

  Definition v_replace_first_child (me : nat) (v : nodeval) (c : C) : res (nodeval * list event) :=
    match v_childs v with
    | Some (old :: cs) =>
      Ok ({| v_total := v_total v; v_keys := v_keys v; v_childs := Some (c :: cs) |}, [EParent c me 0; EOldChild old])
    | _ => UB
    end.

  Definition v_push_key_and_child (me : nat) (v : nodeval) (s : S) (r : R) (c : C) (t : I) : res (nodeval * list event) :=
    match v_childs v with
    | None => UB
    | Some cs =>
      if may_insert v 0 then
        Ok ({| v_total := t; v_keys := v_keys v ++ [(v_total v, s, r)]; v_childs := Some (cs ++ [c]) |},
            [EParent c me (length cs); EStore r me (length (v_keys v))])
      else UB
    end.

  (** The new child goes to the right of the new key. *)
  Definition v_insert_key_and_child (me : nat) (v : nodeval) (k : nat) (s : S) (r : R) (c : C) : res (nodeval * list event) :=
    match v_childs v with
    | None => UB
    | Some cs =>
      if may_insert v k then
        let p := pos_at v k in
        Ok ({| v_total := v_total v; v_keys := insert_at k (p, s, r) (v_keys v); v_childs := Some (insert_at (k + 1) c cs) |},
            tell_refs me k ((p, s, r) :: skipn k (v_keys v)) ++ tell_childs me (k + 1) (c :: skipn (k + 1) cs) ++ [EPos p])
      else UB
    end.

  (** Left part, right part, key in between; each child stays on its side. *)
  Definition v_split (new : nat) (v : nodeval) (mid : nat) : res (nodeval * nodeval * list event) :=
    match nth_error (v_keys v) mid with
    | None => UB
    | Some k =>
      let l := firstn mid (v_keys v) in
      let r := skipn (mid + 1) (v_keys v) in
      Ok ({| v_total := v_total v; v_keys := l; v_childs := option_map (firstn (mid + 1)) (v_childs v) |},
          {| v_total := v_total v; v_keys := r; v_childs := option_map (skipn (mid + 1)) (v_childs v) |},
          tell_refs new 0 r ++ [ESuspend (k_ref k)] ++
          match v_childs v with None => [] | Some cs => tell_childs new 0 (skipn (mid + 1) cs) end ++
          [EKey (k_pos k) (k_slice k) (k_ref k)])
    end.

  Definition v_set_single_key_pos (v : nodeval) (k : nat) (p : I) : res nodeval :=
    match nth_error (v_keys v) k with
    | None => UB
    | Some x => Ok (with_keys v (replace_at k (p, k_slice x, k_ref x) (v_keys v)))
    end.

  Definition v_set_subtree_size (v : nodeval) (t : I) : nodeval :=
    {| v_total := t; v_keys := v_keys v; v_childs := v_childs v |}.

  (** Every key until [f] panics (then nothing behind it, and not the total). *)
  Fixpoint remap (f : I -> option I) (ks : list (I * S * R)) : list (I * S * R) * bool :=
    match ks with
    | [] => ([], true)
    | k :: ks' =>
      match f (k_pos k) with
      | None => (ks, false)
      | Some p => let (r, b) := remap f ks' in ((p, k_slice k, k_ref k) :: r, b)
      end
    end.
  Definition v_set_key_poss_with (v : nodeval) (f : I -> option I) (from : nat) : res (nodeval * list event) :=
    if from <=? length (v_keys v) then
      let (ks, finished) := remap f (skipn from (v_keys v)) in
      let all := firstn from (v_keys v) ++ ks in
      match (if finished then f (v_total v) else None) with
      | Some t => Ok ({| v_total := t; v_keys := all; v_childs := v_childs v |}, [])
      | None => Ok (with_keys v all, [EPanic])
      end
    else UB.

  Definition v_swap_slice (v : nodeval) (k : nat) (s : S) : res (nodeval * list event) :=
    match nth_error (v_keys v) k with
    | None => UB
    | Some x => Ok (with_keys v (replace_at k (k_pos x, s, k_ref x) (v_keys v)), [ETaken (k_slice x)])
    end.

  (** The clones made before the first panic, and whether there was none. *)
  Fixpoint cloned {T} (cl : T -> option T) (l : list T) : list T * bool :=
    match l with
    | [] => ([], true)
    | x :: l' => match cl x with None => ([], false) | Some y => let (r, b) := cloned cl l' in (y :: r, b) end
    end.
  Fixpoint with_slices (ks : list (I * S * R)) (ss : list S) : list (I * S * R) :=
    match ks, ss with
    | k :: ks', s :: ss' => (k_pos k, s, no_ref) :: with_slices ks' ss'
    | _, _ => []
    end.

  Definition v_shallow_clone (cl : S -> option S) (v : nodeval) : option nodeval * list event :=
    let (ss, fine) := cloned cl (map k_slice (v_keys v)) in
    if fine then
      (Some {| v_total := v_total v; v_keys := with_slices (v_keys v) ss; v_childs := v_childs v |},
       map EMade ss ++ match v_childs v with None => [] | Some cs => map EShare cs end)
    else (None, map EMade ss ++ map EDrop ss ++ [EPanic]).

  Definition v_deep_clone (new : nat) (cl : S -> option S) (dc : C -> option C) (v : nodeval) : option nodeval * list event :=
    let (ss, fine) := cloned cl (map k_slice (v_keys v)) in
    if fine then
      match v_childs v with
      | None => (Some {| v_total := v_total v; v_keys := with_slices (v_keys v) ss; v_childs := None |}, map EMade ss)
      | Some cs =>
        let (cs', finec) := cloned dc cs in
        if finec then
          (Some {| v_total := v_total v; v_keys := with_slices (v_keys v) ss; v_childs := Some cs' |},
           map EMade ss ++ map EMadeChild cs' ++ tell_childs new 0 cs')
        else (None, map EMade ss ++ (map EMadeChild cs' ++ map EDropChild cs' ++ [EPanic]) ++ map ELeak ss)
      end
    else (None, map EMade ss ++ map EDrop ss ++ [EPanic]).

  Definition v_do_drop (v : nodeval) : list event :=
    map (fun k => EDrop (k_slice k)) (v_keys v) ++
    match v_childs v with None => [] | Some cs => map EDropChild cs end.

  (** Histories. *)
  Definition vpool : Type := list (option nodeval).

  Definition v_on (p : vpool) (n : nat) (f : nodeval -> res (nodeval * list event)) : res (vpool * list event) :=
    let* v := rd p n in
    let* (v', evs) := f v in
    Ok (replace_at n (Some v') p, evs).

  Definition v_step (p : vpool) (o : nop) : res (vpool * list event) :=
    match o with
    | NNewRoot s size => Ok (p ++ [Some {| v_total := size; v_keys := [(zero, s, no_ref)]; v_childs := None |}], [])
    | NNewParent pos total s r lhs rhs =>
      let me := length p in
      Ok (p ++ [Some {| v_total := total; v_keys := [(pos, s, r)]; v_childs := Some [lhs; rhs] |}],
          [EParent lhs me 0; EParent rhs me 1; EStore r me 0])
    | NInsertKey n k s => v_on p n (fun v => v_insert_key n v k s)
    | NPushKey n s r t => v_on p n (fun v => v_push_key n v s r t)
    | NReplaceFirst n c => v_on p n (fun v => v_replace_first_child n v c)
    | NPushBoth n s r c t => v_on p n (fun v => v_push_key_and_child n v s r c t)
    | NInsertBoth n k s r c => v_on p n (fun v => v_insert_key_and_child n v k s r c)
    | NSplit n mid =>
      let* v := rd p n in
      let* (l, r, evs) := v_split (length p) v mid in
      Ok (replace_at n (Some l) p ++ [Some r], evs)
    | NSetPos n k q => v_on p n (fun v => let* v' := v_set_single_key_pos v k q in Ok (v', []))
    | NSetTotal n t => v_on p n (fun v => Ok (v_set_subtree_size v t, []))
    | NSetPoss n f from => v_on p n (fun v => v_set_key_poss_with v f from)
    | NSwap n k s => v_on p n (fun v => v_swap_slice v k s)
    | NShallow n cl =>
      let* v := rd p n in
      let (o, evs) := v_shallow_clone cl v in
      Ok (p ++ match o with Some b => [Some b] | None => [] end, evs)
    | NDeep n cl dc =>
      let* v := rd p n in
      let (o, evs) := v_deep_clone (length p) cl dc v in
      Ok (p ++ match o with Some b => [Some b] | None => [] end, evs)
    | NDrop n =>
      let* (v, p') := mv p n in
      Ok (p', v_do_drop v)
    end.

  Fixpoint v_run (p : vpool) (ops : list nop) : res (vpool * list event) :=
    match ops with
    | [] => Ok (p, [])
    | o :: ops' =>
      let* (p', evs) := v_step p o in
      let* (p'', evs') := v_run p' ops' in
      Ok (p'', evs ++ evs')
    end.

  (** Where slices and children are: given to a call, in the arrays of a node, or leaving through an event. *)
  Definition slices_given (o : nop) : list S :=
    match o with
    | NNewRoot s _ | NNewParent _ _ s _ _ _ | NInsertKey _ _ s | NPushKey _ s _ _ | NPushBoth _ s _ _ _
    | NInsertBoth _ _ s _ _ | NSwap _ _ s => [s]
    | _ => []
    end.
  Definition childs_given (o : nop) : list C :=
    match o with
    | NNewParent _ _ _ _ a b => [a; b]
    | NReplaceFirst _ c | NPushBoth _ _ _ c _ | NInsertBoth _ _ _ _ c => [c]
    | _ => []
    end.
  Fixpoint filled {T} (l : list (option T)) : list T :=
    match l with [] => [] | Some x :: l' => x :: filled l' | None :: l' => filled l' end.
  Definition slices_in (p : apool (I := I) (S := S) (R := R) (C := C)) : list S := concat (map (fun a => filled (a_vals a)) (filled p)).
  Definition childs_in (p : apool (I := I) (S := S) (R := R) (C := C)) : list C :=
    concat (map (fun a => match a_childs a with None => [] | Some cs => filled cs end) (filled p)).
  Definition slices_made (evs : list event) : list S :=
    concat (map (fun e => match e with EMade s => [s] | _ => [] end) evs).
  Definition slices_out (evs : list event) : list S :=
    concat (map (fun e => match e with EKey _ s _ => [s] | ETaken s => [s] | EDrop s => [s] | ELeak s => [s] | _ => [] end) evs).
  Definition childs_made (evs : list event) : list C :=
    concat (map (fun e => match e with EMadeChild c => [c] | EShare c => [c] | _ => [] end) evs).
  Definition childs_out (evs : list event) : list C :=
    concat (map (fun e => match e with EOldChild c => [c] | EDropChild c => [c] | _ => [] end) evs).
End Spec.
Arguments nodeval : clear implicits.

(** A node of Tree.v at height [h] as such a list; its children are the subtrees themselves.  Reference ids
    are left out of Tree.v, so they are all the same here. *)
Definition node_view {I S : Type} (h : nat) (total : I) (c0 : tree I S) (es : list (I * S * tree I S)) : nodeval I S unit (tree I S) :=
  {| v_total := total;
     v_keys := map (fun e => (e_pos e, e_slice e, tt)) es;
     v_childs := match h with O => None | Datatypes.S _ => Some (c0 :: map e_child es) end |}.

(** The arrays hold the node [t] of Tree.v. *)
Definition holds {I S : Type} (M h : nat) (a : raw I S unit (tree I S)) (t : tree I S) : Prop :=
  match t with
  | Nil => False
  | Node total c0 es => length es <= 2 * M /\ a = encode M (node_view h total c0 es)
  end.
