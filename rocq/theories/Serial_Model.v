(** Objects as bytes: the serialisation interface and its container.
    include/neso_particles/mesh_hierarchy_data/serial_interface.hpp, serial_container.hpp. *)
From Coq Require Import List Arith ZArith Bool.
Import ListNotations.
From Verif Require Import Base.

(** A byte, as a number. *)
Definition byte := Z.
(** memcpy of an integer of [n] bytes into a buffer and back, little-endian. *)
Fixpoint le (n : nat) (x : Z) : list byte :=
  match n with 0 => [] | S n' => (x mod 256)%Z :: le n' (x / 256)%Z end.
Definition un_le (l : list byte) : Z := fold_right (fun b acc => (b + 256 * acc)%Z) 0%Z l.
(** An integer of [n] bytes read as signed. *)
Definition signed (n : nat) (x : Z) : Z := if (x <? 256 ^ Z.of_nat n / 2)%Z then x else (x - 256 ^ Z.of_nat n)%Z.
(** memcpy of [n] bytes out of the front of a buffer, and what follows: reading beyond the end is a failure. *)
Definition take (n : nat) (b : list byte) : option (list byte * list byte) :=
  if n <=? length b then Some (firstn n b, skipn n b) else None.

(** serial_interface.hpp L11-41: a type with get_num_bytes, serialise (the bytes it writes to the space it is given) and deserialise. *)
Record serial (T : Type) := mk_serial { num_bytes : T -> nat; ser : T -> option (list byte); deser : list byte -> option T }.
Arguments num_bytes {T}. Arguments ser {T}. Arguments deser {T}.

Definition size_max : Z := (2 ^ 64 - 1)%Z.
(** serial_container.hpp L39-67: each object is preceded by its number of bytes.  An object that writes more or fewer bytes than it
    announced is a failure. *)
Definition pack {T} (S : serial T) (inputs : list T) : option (list byte) :=
  parts <- mapM (fun x => b <- ser S x ;; _ <- assert (length b =? num_bytes S x) ;; Some (le 8 (Z.of_nat (num_bytes S x)) ++ b)) inputs ;;
  Some (concat parts).
(** L74-105: the loop that counts the objects (L83-92) and the loop that deserialises them (L95-104) take the same steps and are one
    loop here.  The fuel is the number of bytes: each object takes at least eight. *)
Fixpoint unpack_fuel {T} (S : serial T) (fuel : nat) (buffer : list byte) : option (list T) :=
  match buffer with
  | [] => Some []
  | _ =>
    match fuel with
    | 0 => None
    | Datatypes.S f =>
      hr <- take 8 buffer ;;
      let size := un_le (fst hr) in
      _ <- assert (size <? size_max)%Z ;;
      _ <- assert (size <=? Z.of_nat (length (snd hr)))%Z ;;
      xr <- take (Z.to_nat size) (snd hr) ;;
      x <- deser S (fst xr) ;;
      rest <- unpack_fuel S f (snd xr) ;;
      Some (x :: rest)
    end
  end.
Definition unpack {T} (S : serial T) (buffer : list byte) : option (list T) := unpack_fuel S (length buffer) buffer.

(** mesh_hierarchy_container.hpp L58-96: MHCellBuffer, a cell and a buffer. *)
Definition mh_cell_buffer : serial (Z * list byte) :=
  mk_serial (Z * list byte)
    (fun e => 8 + 8 + length (snd e))                                                              (* L66-68 *)
    (fun e => Some (le 8 (fst e) ++ le 8 (Z.of_nat (length (snd e))) ++ snd e))                    (* L69-80 *)
    (fun buffer =>                                                                                  (* L81-95 *)
      cr <- take 8 buffer ;;
      nr <- take 8 (snd cr) ;;
      let size := un_le (fst nr) in
      _ <- assert (size <? size_max)%Z ;;
      _ <- assert (size =? Z.of_nat (length (snd nr)))%Z ;;
      Some (signed 8 (un_le (fst cr)), snd nr)).
