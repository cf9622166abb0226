(** What a loop with a SymVector is supposed to use: the dats that exist when the loop is executed,
    EphemeralDats first. *)
From Coq Require Import List Arith Bool.
Import ListNotations.
From Verif Require Import Base SymCache_Model.

(** The dats that exist, without any cache. *)
Record existing := mk_existing { x_dats : nat -> option nat; x_eph : option (nat -> option nat); x_next : nat }.
Definition set_ (m : nat -> option nat) (k : nat) (v : option nat) : nat -> option nat := fun k' => if k' =? k then v else m k'.
Definition current (x : existing) (sym : nat) : option nat :=
  match x_eph x with
  | Some m => match m sym with Some p => Some p | None => x_dats x sym end
  | None => x_dats x sym
  end.
Definition spec_step (x : existing) (o : op) : option (existing * list (list nat)) :=
  match o with
  | AddDat s => Some (match x_dats x s with Some _ => x | None => mk_existing (set_ (x_dats x) s (Some (x_next x))) (x_eph x) (S (x_next x)) end, [])
  | RemoveDat s => match x_dats x s with Some _ => Some (mk_existing (set_ (x_dats x) s None) (x_eph x) (x_next x), []) | None => None end
  | AddEph s => match x_eph x with
                | Some m => Some (match m s with Some _ => x | None => mk_existing (x_dats x) (Some (set_ m s (Some (x_next x)))) (S (x_next x)) end, [])
                | None => None
                end
  | RemoveEph s => match x_eph x with
                   | Some m => match m s with Some _ => Some (mk_existing (x_dats x) (Some (set_ m s None)) (x_next x), []) | None => None end
                   | None => None
                   end
  | ResetEph => match x_eph x with Some _ => Some (mk_existing (x_dats x) (Some (fun _ => None)) (x_next x), []) | None => None end
  | Loop _ syms => match mapM (current x) syms with Some ps => Some (x, [ps]) | None => None end
  end.
(** The pointers of all loops of a program; None if a step fails. *)
Fixpoint spec_run (x : existing) (h : list op) : option (list (list nat)) :=
  match h with
  | [] => Some []
  | o :: h' => match spec_step x o with Some (x', r) => match spec_run x' h' with Some rs => Some (r ++ rs) | None => None end | None => None end
  end.

(** Programs that do not change what a Sym means after it was used in a SymVector: [all] are the Syms used
    so far, [recent] those since the last reset of the EphemeralDats. *)
Fixpoint tidy (x : existing) (all recent : list nat) (h : list op) : Prop :=
  match h with
  | [] => True
  | o :: h' =>
      (match o with
       | RemoveDat s => ~ In s all
       | AddEph s => x_dats x s = None \/ ~ In s all
       | RemoveEph s => ~ In s recent
       | _ => True
       end) /\
      match spec_step x o with
      | None => True
      | Some (x', _) => match o with
                        | Loop _ syms => tidy x' (syms ++ all) (syms ++ recent) h'
                        | ResetEph => tidy x' all [] h'
                        | _ => tidy x' all recent h'
                        end
      end
  end.
