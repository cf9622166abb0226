(** What the map to an external order is supposed to be. *)
From Coq Require Import List Arith ZArith Bool.
Import ListNotations.
From Verif Require Import Base Dof_Model.
Local Open Scope nat_scope.

Section Spec.
  Context {T : Type}.
  (** The external index of a degree of freedom: the last one set, -1 if there is none. *)
  Definition external (cs : list (dcall T)) (cell dof : nat) : Z :=
    fold_left (fun x c => match c with DSet a b i => if ((a =? Z.of_nat cell) && (b =? Z.of_nat dof))%Z then i else x | _ => x end) cs (-1)%Z.
  (** The indices are a numbering of the degrees of freedom. *)
  Definition numbering (cells dofs : nat) (ix : nat -> nat -> Z) : Prop :=
    (forall c i, c < cells -> i < dofs -> (0 <= ix c i < Z.of_nat (cells * dofs))%Z) /\
    (forall c i c' i', c < cells -> i < dofs -> c' < cells -> i' < dofs -> ix c i = ix c' i' -> c = c' /\ i = i').
End Spec.
