(** Properties of moved-out slices. *)
From Coq Require Import List Arith Bool.
From Verif Require Import Base Holes HolesP.
Import ListNotations.

(** If no key is ever put in front of a moved-out slice: dropping the node drops every slice that is in it,
    once, and nothing else; and there is no undefined behaviour before, unless a moved-out slice is looked at. *)
Theorem C29_drop_partial : forall V MAXLEN (vs : list V) os outs n,
  hrun MAXLEN (fresh vs) os = Some (outs, n) -> always MAXLEN in_place (fresh vs) os ->
  drop_vals n = Ok (present n) /\ (always MAXLEN looks_away (fresh vs) os -> ~ In HUB outs).
Proof. exact C29_drop_partial_proof. Qed.
Print Assumptions C29_drop_partial.


(** Two panics leave two slices moved out; a third key is pushed behind them. *)
Example C29_drop_partial_ex : exists outs n, hrun 4 (fresh [10; 20; 30]) [UPanic 2; UPush 40; UPanic 0; UReplace 1 50] = Some (outs, n) /\
  always 4 in_place (fresh [10; 20; 30]) [UPanic 2; UPush 40; UPanic 0; UReplace 1 50] /\
  outs = [HPanic; HUnit; HPanic; HPanic] /\ drop_vals n = Ok [20; 40].
Proof. eexists. eexists. split; [vm_compute; reflexivity|]. vm_compute. tauto. Qed.

(** In such a state: taking a moved-out slice again, splitting or cloning the node panics.  Looking at a slice
    gives it if it is there.  Looking at a moved-out slice panics only if another one, further right in the same
    node, is moved out too; otherwise it is undefined behaviour. *)
Theorem C29_access_partial : forall V MAXLEN (vs : list V) os outs n k,
  hrun MAXLEN (fresh vs) os = Some (outs, n) -> always MAXLEN in_place (fresh vs) os -> k < hlen n ->
  (is_gone n k -> take n k = Panic PInvalid /\ (forall m, split_vals n m = Panic PInvalid) /\ clone_vals n = Panic PInvalid) /\
  (forall v, nth_error (hn_cells n) k = Some (Here v) -> read n k = Ok v) /\
  (is_gone n k -> (exists j, k < j /\ is_gone n j) -> read n k = Panic PInvalid) /\
  (is_gone n k -> (forall j, k < j -> ~ is_gone n j) -> read n k = UB).
Proof. exact C29_access_partial_proof. Qed.
Print Assumptions C29_access_partial.


Example C29_access_partial_ex : exists outs n, hrun 4 (fresh [10; 20; 30]) [UPanic 2; UPanic 0] = Some (outs, n) /\
  always 4 in_place (fresh [10; 20; 30]) [UPanic 2; UPanic 0] /\ is_gone n 0 /\ is_gone n 2 /\ read n 0 = Panic PInvalid /\ read n 1 = Ok 20 /\ read n 2 = UB.
Proof. eexists. eexists. split; [vm_compute; reflexivity|]. vm_compute. tauto. Qed.

(** A join panics, the panic is caught, the slice is looked at: it reads what was moved out. *)
Theorem C29_access_refuted : exists os, hrun 4 (fresh [10; 20; 30]) os = Some ([HPanic; HUB], {| hn_cells := [Here 10; Gone; Here 30]; hn_holes := (None, Some 1) |}) /\
  os = [UPanic 1; URead 1].
Proof. exact C29_access_refuted_proof. Qed.
Print Assumptions C29_access_refuted.


(** A join panics, then a key is put in front of the moved-out slice: dropping the node drops the moved-out slice
    (and forgets another one). *)
Theorem C29_drop_refuted : exists os outs n, hrun 4 (fresh [10; 20; 30]) os = Some (outs, n) /\ ~ In HUB outs /\
  os = [UPanic 1; UInsert 0 40] /\ drop_vals n = UB.
Proof. exact C29_drop_refuted_proof. Qed.
Print Assumptions C29_drop_refuted.

