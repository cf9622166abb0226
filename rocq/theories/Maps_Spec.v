(** Specification of the containers: finite maps and row-major arrays. *)
From Coq Require Import List Arith ZArith Bool.
Import ListNotations.

(** The value last added for [k] in a history of (key, value) pairs. *)
Fixpoint last_added {V} (hist : list (Z * V)) (k : Z) : option V :=
  match hist with
  | [] => None
  | (k', v) :: later =>
      match last_added later k with
      | Some w => Some w
      | None => if (k' =? k)%Z then Some v else None
      end
  end.

(** Index tuples inside a shape. *)
Definition inside (shape ix : list Z) : Prop := Forall2 (fun s i => 0 <= i < s)%Z shape ix.
(** Number of tuples inside a shape. *)
Definition volume (shape : list Z) : Z := fold_right Z.mul 1%Z shape.
(** Row-major position: the last index runs fastest. *)
Fixpoint row_major (shape ix : list Z) : Z :=
  match shape, ix with
  | _ :: shape', i :: ix' => (i * volume shape' + row_major shape' ix')%Z
  | _, _ => 0%Z
  end.
(** Sum of the contributions to one index. *)
Fixpoint contributions {T} (plus : T -> T -> T) (z : T) (ix : list Z) (cs : list (list Z * T)) : T :=
  match cs with
  | [] => z
  | (ix', v) :: cs' =>
      if list_eq_dec Z.eq_dec ix' ix then contributions plus (plus z v) ix cs' else contributions plus z ix cs'
  end.
