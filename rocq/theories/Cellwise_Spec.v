(** What the operations that work cell by cell are supposed to do. *)
From Coq Require Import List Arith Bool.
Import ListNotations.
From Verif Require Import Base CellDat_Model CellConst_Model Cellwise_Model.

Section Spec.
  Context {T : Type}.
  Definition cc_valid (x : cell_const T) : Prop := length (cc_data x) = cc_ncells x * cc_nrow x * cc_ncol x.
  Definition same_shape (x y : cell_const T) : Prop := cc_ncells x = cc_ncells y /\ cc_nrow x = cc_nrow y /\ cc_ncol x = cc_ncol y.
  Definition inside (x : cell_const T) (cell row col : nat) : Prop := cell < cc_ncells x /\ row < cc_nrow x /\ col < cc_ncol x.

  (** An argument fits the result: it has the shape of the result, or a single value per cell. *)
  Definition fits (result x : cell_const T) : Prop :=
    cc_ncells x = cc_ncells result /\ ((cc_nrow x = 1 /\ cc_ncol x = 1) \/ (cc_nrow x = cc_nrow result /\ cc_ncol x = cc_ncol result)).
  (** The value of an argument for an element of the result: its own element, or the single value of the cell. *)
  Definition operand (x : cell_const T) (cell row col : nat) : option T :=
    if (cc_nrow x =? 1) && (cc_ncol x =? 1) then cc_get_value x cell 0 0 else cc_get_value x cell row col.
  Definition operands (s : list (cell_const T)) (args : list nat) (cell row col : nat) (vs : list T) : Prop :=
    Forall2 (fun a v => exists x, nth_error s a = Some x /\ operand x cell row col = Some v) args vs.

  (** Layer [layer] of cell [cell] is the particle number [k] of the selection in the cell. *)
  Definition selected (sel : list (list nat)) (cell k layer : nat) : Prop :=
    exists ls, nth_error sel cell = Some ls /\ nth_error ls k = Some layer.
End Spec.
