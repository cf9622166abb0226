(** What an all-to-all iteration over n particles is supposed to do. *)
From Coq Require Import List Arith.
Import ListNotations.
From Verif Require Import AllToAll_Model.

(** The unordered pairs of distinct numbers below n, each written with the
    smaller one first. *)
Definition all_pairs (n : nat) : list (nat * nat) :=
  flat_map (fun i => map (fun j => (i, j)) (seq (i + 1) (n - (i + 1)))) (seq 0 n).

(** The kernel calls of a work item. *)
Fixpoint calls (evs : list event) : list (nat * nat) :=
  match evs with
  | [] => []
  | Call i j :: r => (i, j) :: calls r
  | Sync :: r => calls r
  end.

(** The number of synchronisations of a work item. *)
Fixpoint syncs (evs : list event) : nat :=
  match evs with
  | [] => 0
  | Call _ _ :: r => syncs r
  | Sync :: r => S (syncs r)
  end.

(** The kernel calls a work item makes after exactly k of its
    synchronisations. *)
Fixpoint calls_after (k : nat) (evs : list event) : list (nat * nat) :=
  match evs with
  | [] => []
  | Call i j :: r => if k =? 0 then (i, j) :: calls_after k r else calls_after k r
  | Sync :: r => match k with 0 => [] | S k' => calls_after k' r end
  end.
