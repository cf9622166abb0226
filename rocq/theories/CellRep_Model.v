(** A mesh cell as bytes: CellSTDRepresentation and DMPlexCellSerialise.
    src/external_interfaces/petsc/dmplex_cell_serialise.cpp L122-258,
    include/neso_particles/external_interfaces/petsc/dmplex_cell_serialise.hpp. *)
From Coq Require Import List Arith ZArith Bool.
Import ListNotations.
From Verif Require Import Base Serial_Model.

(** Coordinates are taken as the 64 bits that represent them.  [ni]: sizeof(PetscInt), 4 or 8. *)
Definition zmap (A : Type) := list (Z * A).
(** A std::map: the entries in the order of the keys.  operator[] with assignment, at, and count. *)
Fixpoint map_set {A} (m : zmap A) (k : Z) (v : A) : zmap A :=
  match m with [] => [(k, v)] | (j, w) :: t => if (k <? j)%Z then (k, v) :: m else if (k =? j)%Z then (k, v) :: t else (j, w) :: map_set t k v end.
Fixpoint map_get {A} (m : zmap A) (k : Z) : option A :=
  match m with [] => None | (j, w) :: t => if (k =? j)%Z then Some w else map_get t k end.

(** dmplex_cell_serialise.hpp L28-33. *)
Record cell_rep := mk_rep { cones : zmap (list Z); orientations : zmap (list Z); vertices : zmap (list Z) }.

Definition enc_ints (n : nat) (l : list Z) : list byte := concat (map (le n) l).
(** L122-163. *)
Definition rep_ints (r : cell_rep) : option (list Z) :=
  points <- mapM (fun e => o <- map_get (orientations r) (fst e) ;; Some (fst e :: Z.of_nat (length (snd e)) :: snd e ++ o)) (cones r) ;;      (* L127-138 *)
  Some (Z.of_nat (length (cones r)) :: concat points ++
        Z.of_nat (length (vertices r)) :: flat_map (fun e => [fst e; Z.of_nat (length (snd e))]) (vertices r)).                      (* L140-148 *)
Definition rep_serialise (ni : nat) (r : cell_rep) : option (list byte) :=
  ints <- rep_ints r ;;
  let scalars := flat_map snd (vertices r) in
  Some (le 8 (Z.of_nat (length ints * ni)) ++ le 8 (Z.of_nat (length scalars * 8)) ++ enc_ints ni ints ++ enc_ints 8 scalars).

(** [k] numbers of [n] bytes from the front of a buffer. *)
Fixpoint read_ints (n k : nat) (b : list byte) : option (list Z * list byte) :=
  match k with
  | 0 => Some ([], b)
  | S k' => hr <- take n b ;; rest <- read_ints n k' (snd hr) ;; Some (un_le (fst hr) :: fst rest, snd rest)
  end.
(** buffer.at(index++), once and [n] times. *)
Definition next (l : list Z) : option (Z * list Z) := match l with [] => None | x :: t => Some (x, t) end.
Definition next_n (n : nat) (l : list Z) : option (list Z * list Z) := if n <=? length l then Some (firstn n l, skipn n l) else None.
(** reserve with a negative number throws. *)
Definition as_size (x : Z) : option nat := if (0 <=? x)%Z then Some (Z.to_nat x) else None.
(** L188-207: one point. *)
Definition read_point (st : cell_rep * list Z) : option (cell_rep * list Z) :=
  let r := fst st in
  p <- next (snd st) ;; n <- next (snd p) ;; k <- as_size (fst n) ;;
  c <- next_n k (snd n) ;; o <- next_n k (snd c) ;;
  Some (mk_rep (map_set (cones r) (fst p) (fst c)) (map_set (orientations r) (fst p) (fst o)) (vertices r), snd o).
(** L210-217: one vertex; the coordinates are appended to what the map holds. *)
Definition read_vertex (st : cell_rep * (list Z * list Z)) : option (cell_rep * (list Z * list Z)) :=
  let r := fst st in
  p <- next (fst (snd st)) ;; n <- next (snd p) ;; k <- as_size (fst n) ;;
  x <- next_n k (snd (snd st)) ;;
  let old := match map_get (vertices r) (fst p) with Some l => l | None => [] end in
  Some (mk_rep (cones r) (orientations r) (map_set (vertices r) (fst p) (old ++ fst x)), (snd n, snd x)).
Fixpoint times {A} (n : nat) (f : A -> option A) (a : A) : option A := match n with 0 => Some a | S n' => b <- f a ;; times n' f b end.
(** L165-221, on the object [r0].  A loop up to a negative number does nothing. *)
Definition rep_deserialise (ni : nat) (r0 : cell_rep) (buffer : list byte) : option cell_rep :=
  a <- take 8 buffer ;; b <- take 8 (snd a) ;;                                                       (* L166-173 *)
  let num_int := (un_le (fst a) / Z.of_nat ni)%Z in let num_scalar := (un_le (fst b) / 8)%Z in
  _ <- assert (un_le (fst a) + un_le (fst b) <=? Z.of_nat (length (snd b)))%Z ;;                     (* the copies L182-184 stay in the buffer *)
  ints <- read_ints ni (Z.to_nat num_int) (snd b) ;;
  scalars <- read_ints 8 (Z.to_nat num_scalar) (snd ints) ;;
  let vals := map (signed ni) (fst ints) in
  n <- next vals ;;
  pts <- times (Z.to_nat (fst n)) read_point (r0, snd n) ;;
  m <- next (snd pts) ;;
  vs <- times (Z.to_nat (fst m)) read_vertex (fst pts, (snd m, fst scalars)) ;;
  _ <- assert (match fst (snd vs) with [] => true | _ => false end) ;;                               (* L219 *)
  _ <- assert (match snd (snd vs) with [] => true | _ => false end) ;;                               (* L220 *)
  Some (fst vs).

(** DMPlexCellSerialise: dmplex_cell_serialise.hpp L96-100. *)
Record cell_msg := mk_cell { local_id : Z; global_id : Z; owning_rank : Z; cell_type : Z; representation : list byte }.
Definition cell_serial (ni : nat) : serial cell_msg :=
  mk_serial cell_msg
    (fun c => 2 * ni + 2 * 4 + length (representation c))                                             (* hpp L124-127 *)
    (fun c => Some (le ni (local_id c) ++ le ni (global_id c) ++ le 4 (owning_rank c) ++ le 4 (cell_type c) ++ representation c))        (* cpp L223-240 *)
    (fun b =>                                                                                          (* cpp L242-258 *)
      l <- take ni b ;; g <- take ni (snd l) ;; o <- take 4 (snd g) ;; t <- take 4 (snd o) ;;
      Some (mk_cell (signed ni (un_le (fst l))) (signed ni (un_le (fst g))) (signed 4 (un_le (fst o))) (signed 4 (un_le (fst t))) (snd t))).
