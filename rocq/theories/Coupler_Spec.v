(** What the coupling of two meshes is supposed to do. *)
From Coq Require Import List Arith ZArith QArith Bool.
Import ListNotations.
From Verif Require Import Base Bmi_Model Bmi_Spec Coupler_Model.
Local Open Scope nat_scope.

Definition sumq (l : list Q) : Q := fold_right Qplus 0%Q l.
(** The entries of a rank with their cells of mesh A. *)
Definition items (m : cmap) : list (nat * entry) := flat_map (fun cell => map (fun e => (cell, e)) (nth cell m [])) (seq 0 (length m)).
(** Component [i] of [cell] in an array of coefficients. *)
Definition coef (n : nat) (dofs : list Q) (cell i : nat) : Q := nth (cell * n + i) dofs 0%Q.

Section Spec.
  (** Each global cell of B belongs to a rank and has a number there. *)
  Variables (owner : Z -> nat) (number : Z -> nat).
  (** The sum over all cells of A on all ranks of weight times coefficient. *)
  Definition forward_value (maps : list cmap) (dofs_A : list (list Q)) (n r cell i : nat) : Q :=
    sumq (flat_map (fun s =>
      map (fun p => coef n (nth s dofs_A []) (fst p) i * e_fwd (snd p))%Q
        (filter (fun p => (owner (e_cell (snd p)) =? r) && (number (e_cell (snd p)) =? cell)) (items (nth s maps [])))) (seq 0 (length maps))).
  (** The sum over the entries of a cell of A of weight times coefficient. *)
  Definition backward_value (maps : list cmap) (dofs_B : list (list Q)) (n r cell i : nat) : Q :=
    sumq (map (fun e => coef n (nth (owner (e_cell e)) dofs_B []) (number (e_cell e)) i * e_bwd e)%Q (nth cell (nth r maps []) [])).

  (** The cells named by the entries are cells of B: they have an owner, and the owner knows them under a number below its number of cells. *)
  Definition mesh_ok (b : mesh_b) (maps : list cmap) : Prop :=
    length (b_count b) = length maps /\
    forall m es e, In m maps -> In es m -> In e es ->
      owner_of b (e_cell e) = Some (owner (e_cell e)) /\
      b_local b (owner (e_cell e)) (e_cell e) = Some (number (e_cell e)) /\
      exists count, nth_error (b_count b) (owner (e_cell e)) = Some count /\ number (e_cell e) < count.
  (** The neighbours MPI reports, see Bmi_Spec. *)
  Definition graphs_ok (maps : list cmap) (graphs : list graph) : Prop :=
    mpi_neighbours owner (map (fun m => map (fun p => e_cell (snd p)) (items m)) maps) graphs.
  (** One array per rank, large enough. *)
  Definition arrays_ok (n : nat) (counts : list nat) (dofs : list (list Q)) : Prop :=
    Forall2 (fun c a => c * n <= length a) counts dofs.
End Spec.
