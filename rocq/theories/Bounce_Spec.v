(** Specification of truncation and reflection at a boundary: vectors of [n]
    components, distances. *)
From Coq Require Import List Arith Reals.
Import ListNotations.
Local Open Scope R_scope.

Definition co (v : list R) (i : nat) : R := nth i v 0.
(** The scalar product and the distance of the first [n] components. *)
Definition scalar (n : nat) (a b : nat -> R) : R := fold_right Rplus 0 (map (fun i => a i * b i) (seq 0 n)).
Definition distance (n : nat) (a b : nat -> R) : R := sqrt (scalar n (fun i => a i - b i) (fun i => a i - b i)).
(** The point which divides the way from [a] to [b] in the ratio [t]. *)
Definition between (a b : nat -> R) (t : R) (i : nat) : R := a i + t * (b i - a i).
