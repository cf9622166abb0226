(** Specification of the resource pools, in terms of the log of the calls. *)
From Coq Require Import List Arith Bool.
Import ListNotations.
From Verif Require Import Pool_Model.

(** Objects handed out and not given back, most recent first. *)
Definition after (held : list nat) (e : event) : list nat :=
  match e with
  | Got _ o => o :: held
  | Put _ o => remove Nat.eq_dec o held
  | Freed _ => held
  end.
Definition held (l : list event) : list nat := fold_left after l [].

(** Objects freed. *)
Definition freed (l : list event) : list nat :=
  flat_map (fun e => match e with Freed o => [o] | _ => [] end) l.

(** Number of objects handed out and given back under a key. *)
Definition gots (k : nat) (l : list event) : nat :=
  length (filter (fun e => match e with Got k' _ => k' =? k | _ => false end) l).
Definition puts (k : nat) (l : list event) : nat :=
  length (filter (fun e => match e with Put k' _ => k' =? k | _ => false end) l).
