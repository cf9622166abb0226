(** What the communication of the moves must achieve. *)
From Coq Require Import List Arith Bool Permutation.
Import ListNotations.
From Verif Require Import Protocol_Model.

Definition op_outs {B} (o : op B) : nat -> list (nat * payload B) :=
  match o with OpGlobal outs => outs | OpLocal outs _ => outs end.

(** What rank [r] has to receive in an operation: every message sent to it, with
    its source.  A local move sends no data with an empty message. *)
Definition expected {B} (n : nat) (o : op B) (r : nat) : result B :=
  flat_map (fun s => flat_map (fun m => if fst m =? r then
      [(s, (fst (snd m), match o with
                         | OpGlobal _ => Some (snd (snd m))
                         | OpLocal _ _ => if 0 <? fst (snd m) then Some (snd (snd m)) else None
                         end))] else []) (op_outs o s)) (seq 0 n).

(** Every rank sends at most one message to every rank; the ranks exist; a rank
    expects local messages from exactly the ranks that can send to it. *)
Definition ops_ok {B} (n : nat) (ops : list (op B)) : Prop :=
  forall o, In o ops ->
    (forall s, s < n -> NoDup (map fst (op_outs o s)) /\ forall d m, In (d, m) (op_outs o s) -> d < n) /\
    match o with
    | OpGlobal _ => True
    | OpLocal outs srcs => forall r, r < n -> NoDup (srcs r) /\
        forall s, In s (srcs r) <-> s < n /\ In r (map fst (outs s))
    end.
