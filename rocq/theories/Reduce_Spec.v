(** What reductions into a CellDatConst are supposed to do. *)
From Coq Require Import List Arith ZArith Bool Permutation.
Import ListNotations.
From Verif Require Import Base Loop_Spec SubGroup_Model SubGroup_Spec CellConst_Model Reduce_Model.

(** An operation that can be applied in any order and grouping to the values [ok], with the
    neutral element [ident]. *)
Record reducible {T} (op : T -> T -> T) (ident : T) (ok : T -> Prop) : Prop := {
  red_closed : forall a b, ok a -> ok b -> ok (op a b);
  red_assoc : forall a b c, ok a -> ok b -> ok c -> op a (op b c) = op (op a b) c;
  red_comm : forall a b, ok a -> ok b -> op a b = op b a;
  red_ident : ok ident;
  red_neutral : forall a, ok a -> op a ident = a
}.

(** [old] combined with one value after the other. *)
Definition combined {T} (op : T -> T -> T) (old : T) (vals : list T) : T := fold_left op vals old.

(** A CellDatConst of [N] matrices with all of its values [ok]. *)
Definition well_formed {T} (ok : T -> Prop) (x : cell_const T) : Prop :=
  length (cc_data x) = cc_ncells x * cc_nrow x * cc_ncol x /\ Forall ok (cc_data x).

Definition same_dimensions {T} (x y : cell_const T) : Prop :=
  cc_ncells x = cc_ncells y /\ cc_nrow x = cc_nrow y /\ cc_ncol x = cc_ncol y.

(** Component [comp] of the particle property [dat] has the values [vals] for the particles
    of cell [c] listed in [content]. *)
Definition values_in_cell {T} (dat : list (list (list T))) (content : list (list nat)) (comp c : nat) (vals : list T) : Prop :=
  Forall2 (fun l v => exists col column, nth_error dat comp = Some col /\ nth_error col c = Some column /\ nth_error column l = Some v)
    (nth c content []) vals.

(** The property has an [ok] value for each particle of [content]. *)
Definition has_values {T} (ok : T -> Prop) (dat : list (list (list T))) (content : list (list nat)) (comp : nat) : Prop :=
  exists col, nth_error dat comp = Some col /\
  forall c, c < length content -> exists column, nth_error col c = Some column /\
    forall l, In l (nth c content []) -> exists v, nth_error column l = Some v /\ ok v.

(** The values a kernel combines into entry (row, col) for the particles with the given
    layers of cell [c]. *)
Definition contributions {T} (kernel : nat -> nat -> list (@contribution T)) (c row col : nat) (layers : list nat) : list T :=
  flat_map (fun l => map c_value (filter (fun a => (c_row a =? row) && (c_col a =? col)) (kernel c l))) layers.
