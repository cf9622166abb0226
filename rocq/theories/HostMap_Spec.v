(** What the mapper is supposed to do. *)
From Coq Require Import List Arith ZArith QArith Bool.
Import ListNotations.
From Verif Require Import Base HostMap_Model.
Local Open Scope nat_scope.

(** Cell and rank of a position: a cell of this rank if there is one, else a cell of the halo on its rank, else nothing. *)
Definition place (rank : Z) (locate : list Q -> Z) (hl : option halo) (x : list Q) : Z * Z :=
  if (0 <=? locate x)%Z then (locate x, rank)
  else match hl with
       | None => (-1, -1)%Z
       | Some h => if (0 <=? h_locate h x)%Z
                   then match h_remote h (h_locate h x) with Some (r, c) => (c, r) | None => (-1, -1)%Z end
                   else (-1, -1)%Z
       end.
(** The particles in question: those of one cell, or all. *)
Definition selected (map_cell : Z) (c : nat) : Prop := (map_cell < 0)%Z \/ map_cell = Z.of_nat c.
(** The dats have the same numbers of particles, and positions have at least [ndim] components. *)
Definition group_ok (ndim : nat) (g : group) : Prop :=
  map (@length _) (g_cell g) = map (@length _) (g_pos g) /\ map (@length _) (g_rank g) = map (@length _) (g_pos g) /\
  forall row x, In row (g_pos g) -> In x row -> ndim <= length x.
(** The cells of the halo mesh have an owner. *)
Definition halo_ok (hl : option halo) : Prop :=
  forall h x, hl = Some h -> (0 <= h_locate h x)%Z -> exists rc, h_remote h (h_locate h x) = Some rc.
