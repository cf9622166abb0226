(** What a CellDatConst is supposed to be: one matrix per cell. *)
From Coq Require Import List Arith Bool.
Import ListNotations.
From Verif Require Import CellDat_Model CellConst_Model.

(** The contents: cell, row, column -> value. *)
Definition matrices (T : Type) := nat -> nat -> nat -> T.

Definition replace {T} (f : matrices T) (c r k : nat) (v : T) : matrices T :=
  fun c' r' k' => if (c' =? c) && (r' =? r) && (k' =? k) then v else f c' r' k'.

(** The host side matrix [d] has the entries [m row col], 0 <= row < nrow, 0 <= col < ncol. *)
Definition host_matrix {T} (nrow ncol : nat) (d : celldata T) (m : nat -> nat -> T) : Prop :=
  cd_nrow d = nrow /\ cd_ncol d = ncol /\ length (cd_data d) = nrow * ncol /\
  forall r k, r < nrow -> k < ncol -> at_ d r k = Some (m r k).

(** The effect of each call on the contents. *)
Inductive cc_effect {T} (ncells nrow ncol : nat) (f : matrices T) : cc_call -> matrices T -> Prop :=
| e_fill v : cc_effect ncells nrow ncol f (CFill v) (fun _ _ _ => v)
| e_set_value c r k v : c < ncells -> r < nrow -> k < ncol ->
    cc_effect ncells nrow ncol f (CSetValue c r k v) (replace f c r k v)
| e_set_cell c d m : c < ncells -> host_matrix nrow ncol d m ->
    cc_effect ncells nrow ncol f (CSetCell c d) (fun c' r k => if c' =? c then m r k else f c' r k)
| e_set_all tmp ds ms : length ds = ncells -> nrow * ncol * ncells <= length tmp ->
    (forall c, c < ncells -> exists d, nth_error ds c = Some d /\ host_matrix nrow ncol d (ms c)) ->
    cc_effect ncells nrow ncol f (CSetAll tmp ds) ms
| e_write c r k v : c < ncells -> r < nrow -> k < ncol ->
    cc_effect ncells nrow ncol f (CWrite c r k v) (replace f c r k v)
| e_write_component c r k v : c < ncells -> r < nrow -> k < ncol ->
    cc_effect ncells nrow ncol f (CWriteComponent c (nrow * k + r) v) (replace f c r k v)
| e_fetch op c r k v : c < ncells -> r < nrow -> k < ncol ->
    cc_effect ncells nrow ncol f (CFetch op c r k v) (replace f c r k (op (f c r k) v)).

Inductive cc_history {T} (ncells nrow ncol : nat) : matrices T -> list cc_call -> matrices T -> Prop :=
| h_nil f : cc_history ncells nrow ncol f [] f
| h_cons f f1 f2 a h : cc_effect ncells nrow ncol f a f1 -> cc_history ncells nrow ncol f1 h f2 ->
    cc_history ncells nrow ncol f (a :: h) f2.
