(** Specification of CellDat: what the calling code may rely on, as a table of
    the rows per cell and the values written. *)
From Coq Require Import List Arith Bool.
Import ListNotations.
From Verif Require Import CellDat_Model.

Section Spec.
Context {T : Type} (ncells ncol : nat).

(** [rows c]: number of rows of cell [c].  [known c r j = Some v]: the value in
    row [r] and column [j] of cell [c] is [v]; [None]: indeterminate.  [dirty]:
    the cells resized since the last wait. *)
Record table := mk_table {
  rows : nat -> nat;
  known : nat -> nat -> nat -> option T;
  dirty : list nat }.

Definition empty : table := mk_table (fun _ => 0) (fun _ _ _ => None) [].

Definition keep (rows : nat -> nat) (k : nat -> nat -> nat -> option T) : nat -> nat -> nat -> option T :=
  fun c r j => if r <? rows c then k c r j else None.

Definition write (k : nat -> nat -> nat -> option T) (cell row col : nat) (v : T) : nat -> nat -> nat -> option T :=
  fun c r j => if (c =? cell) && (r =? row) && (j =? col) then Some v else k c r j.

Definition after (t : table) (c : call T) : table :=
  match c with
  | SetNrow cell n =>
      let rs := fun c => if c =? cell then n else rows t c in
      mk_table rs (keep rs (known t)) (cell :: dirty t)
  | ReduceNrow l =>
      let rs := fun c => nth c l 0 in mk_table rs (keep rs (known t)) (dirty t)
  | Wait _ => mk_table (rows t) (known t) []
  | DeviceWrite cell row col v | SetValue cell row col v =>
      mk_table (rows t) (write (known t) cell row col v) (dirty t)
  | SetCell cell d =>
      mk_table (rows t)
        (fun c r j => if (c =? cell) && (r <? rows t c) && (j <? ncol) then at_ d r j else known t c r j)
        (dirty t)
  | Progress _ | GetNrowMax => t
  end.

(** The calls allowed by the documentation: cells, rows and columns in range; the
    data is accessed only when no resize is outstanding, and a resize of a cell is
    waited for before the cell is resized again. *)
Definition allowed (t : table) (c : call T) : Prop :=
  match c with
  | SetNrow cell n => cell < ncells /\ ~ In cell (dirty t)
  | ReduceNrow l => length l = ncells /\ forall c, c < ncells -> nth c l 0 <= rows t c
  | DeviceWrite cell row col _ | SetValue cell row col _ =>
      dirty t = [] /\ cell < ncells /\ row < rows t cell /\ col < ncol
  | SetCell cell d =>
      dirty t = [] /\ cell < ncells /\ rows t cell <= cd_nrow d /\ ncol <= cd_ncol d /\
      length (cd_data d) = cd_nrow d * cd_ncol d
  | Progress _ | Wait _ | GetNrowMax => True
  end.

Fixpoint all_allowed (t : table) (cs : list (call T)) : Prop :=
  match cs with
  | [] => True
  | c :: cs' => allowed t c /\ all_allowed (after t c) cs'
  end.

Definition history (cs : list (call T)) : table := fold_left after cs empty.
End Spec.
Arguments table : clear implicits.
