(** What points held by other ranks are supposed to do. *)
From Coq Require Import List Arith ZArith Bool Permutation.
Import ListNotations.
From Verif Require Import Base Quad_Model MHC_Model MHC_Spec.
Local Open Scope nat_scope.

Section Spec.
  Context {P T : Type}.
  (** The values of the points: by the rank that added the point, the number it was added as, and the number of components. *)
  Definition table := nat -> nat -> nat -> list T.
  (** The point [i] of rank [r] is held by rank [r] itself. *)
  Definition at_home (moved : list (list (qpart P T))) (r i : nat) : bool :=
    existsb (fun p => (q_rank p =? r) && (q_index p =? i)) (nth r moved []).
  Definition all_at_home (pts : list (list P)) (moved : list (list (qpart P T))) : Prop :=
    forall r l i, nth_error pts r = Some l -> i < length l -> at_home moved r i = true.

  (** What a call does to the table, and what it returns on the ranks. *)
  Definition spec_step (pts : list (list P)) (moved : list (list (qpart P T))) (s : table * list (list (list T))) (c : call P T) : table * list (list (list T)) :=
    match c with
    | Write n f => (fun r i n' => match nth_error (nth r pts []) i with Some x => if n' =? n then f x r i else fst s r i n' | None => fst s r i n' end, snd s)
    | Set_ _ n inputs => (fun r i n' => if (n' =? n) && at_home moved r i then firstn n (skipn (i * n) (nth r inputs [])) else fst s r i n', snd s)
    | Get _ n => (fst s, snd s ++ [map (fun rl => flat_map (fun i => fst s (fst rl) i n) (seq 0 (length (snd rl)))) (combine (seq 0 (length pts)) pts)])
    end.
  Definition spec_calls (zero : T) (pts : list (list P)) (moved : list (list (qpart P T))) (cs : list (call P T)) : list (list (list T)) :=
    snd (fold_left (spec_step pts moved) cs (fun _ _ n => repeat zero n, [])).

  Definition components_ok (n : nat) : Prop := 0 < n < 1000.
  (** Calls that are not wrong.  In a call of get with more than one component no point may be held by another rank (see C75_get_refuted). *)
  Definition call_ok (pts : list (list P)) (moved : list (list (qpart P T))) (c : call P T) : Prop :=
    match c with
    | Write n f => components_ok n /\ forall x r i, length (f x r i) = n
    | Set_ env n inputs => components_ok n /\ length inputs = length pts /\
        (forall r l inp, nth_error pts r = Some l -> nth_error inputs r = Some inp -> length l * n <= length inp)
    | Get env n => components_ok n /\ (forall r, device_ok (e_dev (env r))) /\ (n = 1 \/ all_at_home pts moved)
    end.

  (** The moves leave every point, with its data, on some rank. *)
  Definition moves (zero : T) (pts : list (list P)) (moved : list (list (qpart P T))) : Prop :=
    length moved = length pts /\ Permutation (concat moved) (concat (map (fun rl => added zero (fst rl) (snd rl)) (combine (seq 0 (length pts)) pts))).
End Spec.
