(** What a particle loop and its indices are supposed to do. *)
From Coq Require Import List Arith ZArith Bool Permutation.
Import ListNotations.
From Verif Require Import Loop_Model.

(** The particles of the cells a, a + 1, ..., b - 1, given the number of
    particles of each cell. *)
Definition particles_of_cells (np : list nat) (a b : nat) : list (nat * nat) :=
  flat_map (fun c => map (pair c) (seq 0 (nth c np 0))) (seq a (b - a)).

(** The cells named by execute(), execute(i) and execute(i, j). *)
Inductive call_names (ncell : nat) : option Z -> option Z -> nat -> nat -> Prop :=
| call_all : call_names ncell None None 0 ncell
| call_one i : i < ncell -> call_names ncell (Some (Z.of_nat i)) None i (i + 1)
| call_range i j : i <= ncell -> j <= ncell ->
    call_names ncell (Some (Z.of_nat i)) (Some (Z.of_nat j)) i j.

(** [es] holds the exclusive prefix sums of [np]. *)
Definition prefix_sums (np es : list nat) : Prop :=
  forall c, c < length np -> nth_error es c = Some (list_sum (firstn c np)).

(** [f] numbers the elements of [l] by 0, 1, ..., length l - 1, each number used
    exactly once. *)
Definition numbers_densely {A} (f : A -> option nat) (l : list A) : Prop :=
  exists ns, Forall2 (fun a n => f a = Some n) l ns /\ Permutation ns (seq 0 (length l)).

(** The device can launch the loop: the ranges of work items fit, as does the
    work group. *)
Definition ample (lim : limits) (np : list nat) (ls0 : nat) : Prop :=
  (lim_global0 lim = 0 \/ length np <= lim_global0 lim) /\
  (lim_global1 lim = 0 \/ forall n, In n np -> n + ls0 <= lim_global1 lim) /\
  1 <= ls0 <= lim_group lim.
