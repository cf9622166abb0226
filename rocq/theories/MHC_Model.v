(** Objects collected on the cells of the mesh hierarchy: MeshHierarchyContainer.
    include/neso_particles/mesh_hierarchy_data/mesh_hierarchy_container.hpp; the exchanges of
    src/communication/communication_edges_counter.cpp L37-98. *)
From Coq Require Import List Arith ZArith Bool.
Import ListNotations.
From Verif Require Import Base Serial_Model.

(** ** Exchanges with named sources.  [sends]: of each rank, in the order of the calls, the messages and their destinations. *)

(** The messages rank [r] gets if it posts receives from [sources] in this order: the j-th receive from a rank matches the j-th message
    of that rank, since all have one tag.  Some message left over, or some receive without message, is a failure. *)
Definition queues {M} (sends : list (list (nat * M))) (r : nat) : list (list M) := map (fun l => map snd (filter (fun m => fst m =? r) l)) sends.
Definition receive {M} (qo : list (list M) * list M) (s : nat) : option (list (list M) * list M) :=
  q <- rd (fst qo) s ;;
  match q with [] => None | m :: q' => qs <- upd (fst qo) s q' ;; Some (qs, snd qo ++ [m]) end.
Definition receive_all {M} (sends : list (list (nat * M))) (r : nat) (sources : list nat) : option (list M) :=
  qo <- foldM receive (queues sends r, []) sources ;;
  _ <- assert (forallb (fun q => match q with [] => true | _ => false end) (fst qo)) ;;
  Some (snd qo).

Definition int_max : Z := (2 ^ 31 - 1)%Z.
(** communication_edges_counter.cpp L37-72 with ordered = true. *)
Definition exchange_counts (sends : list (list (nat * Z))) (sources : list (list nat)) : option (list (list Z)) :=
  mapM (fun rs => receive_all sends (fst rs) (snd rs)) (combine (seq 0 (length sources)) sources).
(** L74-98: [recvs] holds the sources and the sizes of the buffers.  Counts are converted to int: larger ones are a failure here, as is a
    message that does not fit.  A buffer longer than its message keeps its zeros. *)
Definition fill (nm : Z * list byte) : option (list byte) :=
  _ <- assert ((0 <=? fst nm) && (fst nm <=? int_max))%Z ;;
  _ <- assert (Z.of_nat (length (snd nm)) <=? fst nm)%Z ;;
  Some (snd nm ++ repeat 0%Z (Z.to_nat (fst nm) - length (snd nm))).
Definition exchange_data (sends : list (list (nat * list byte))) (recvs : list (list (nat * Z))) : option (list (list (nat * list byte))) :=
  mapM (fun rs => ms <- receive_all sends (fst rs) (map fst (snd rs)) ;;
                  bs <- mapM fill (combine (map snd (snd rs)) ms) ;;
                  Some (combine (map fst (snd rs)) bs)) (combine (seq 0 (length recvs)) recvs).

(** ** The container *)

(** The members of the container on a rank (L98-102): map_cell_buffers, of which the key is an int; cells_gathered;
    cells_gathered_no_owner. *)
Record mhc := mk_mhc { cell_buffers : Z -> option (list byte); gathered : list Z; no_owner : list Z }.
Definition as_int (x : Z) : Z := ((x + 2 ^ 31) mod 2 ^ 32 - 2 ^ 31)%Z.
Definition mem (x : Z) (l : list Z) : bool := existsb (Z.eqb x) l.
Definition buffer_of (m : Z -> option (list byte)) (cell : Z) : list byte := match m (as_int cell) with Some b => b | None => [] end.
Definition set_buffer (m : Z -> option (list byte)) (cell : Z) (b : list byte) : Z -> option (list byte) := fun k => if (k =? as_int cell)%Z then Some b else m k.

(** A std::map keyed by rank with no key twice: iteration is in the order of the ranks. *)
Definition rank_map {A} (size : nat) (l : list (nat * A)) : option (list (nat * A)) :=
  _ <- assert (forallb (fun s => length (filter (fun e => fst e =? s) l) <=? 1) (seq 0 size)) ;;
  Some (flat_map (fun s => filter (fun e => fst e =? s) l) (seq 0 size)).

(** L104-121: generic_unpack; [incoming] is the map from ranks to buffers. *)
Definition append_cell (st : mhc) (e : Z * list byte) : mhc :=
  mk_mhc (set_buffer (cell_buffers st) (fst e) (buffer_of (cell_buffers st) (fst e) ++ snd e)) (fst e :: gathered st) (no_owner st).
Definition generic_unpack (st : mhc) (incoming : list (nat * list byte)) : option mhc :=
  foldM (fun st e => l <- unpack mh_cell_buffer (snd e) ;; Some (fold_left append_cell l st)) st incoming.

(** What get_remote_ranks returns on all ranks, given what all ranks pass (C68). *)
Definition remote := list (list (nat * Z)) -> list (list (nat * Z)).

Section Container.
  Context {T : Type} (S : serial T) (size : nat) (owners : Z -> option Z).

  (** mesh_hierarchy.cpp L212-215; L179, L295: a rank, or none.  [owners]: the ownership map; outside of it is a failure. *)
  Definition owner_rank (cell : Z) : option (option nat) :=
    o <- owners cell ;; Some (if ((-1 <? o) && (o <? Z.of_nat size))%Z then Some (Z.to_nat o) else None).

  (** Appending to the entry of a rank in a map from ranks. *)
  Fixpoint push {A} (l : list (nat * list A)) (r : nat) (b : list A) : list (nat * list A) :=
    match l with [] => [(r, b)] | (s, c) :: t => if s =? r then (s, c ++ b) :: t else (s, c) :: push t r b end.

  (** L290-320: the packed cells for each rank. *)
  Definition construct_pack (data : list (Z * list T)) : option (list (nat * list byte)) :=
    l <- foldM (fun acc e =>
           o <- owner_rank (fst e) ;;
           match o with
           | None => Some acc
           | Some r => contents <- pack S (snd e) ;; packed <- pack mh_cell_buffer [(fst e, contents)] ;; Some (push acc r packed)
           end) [] data ;;
    rank_map size l.
  Definition sizes (l : list (nat * list byte)) : list (nat * Z) := map (fun e => (fst e, Z.of_nat (length (snd e)))) l.
  (** L278-347, on all ranks. *)
  Definition construct (find : remote) (data : list (list (Z * list T))) : option (list mhc) :=
    sends <- mapM construct_pack data ;;
    let found := find (map sizes sends) in                                             (* L327 *)
    incoming <- exchange_data sends found ;;                                           (* L343 *)
    mapM (fun l => m <- rank_map size l ;; generic_unpack (mk_mhc (fun _ => None) [] []) m) incoming.

  (** L158-163: the set of the cells not yet gathered, in increasing order. *)
  Fixpoint insert (x : Z) (l : list Z) : list Z :=
    match l with [] => [x] | y :: t => if (x <? y)%Z then x :: l else if (x =? y)%Z then l else y :: insert x t end.
  Definition cells_set (st : mhc) (cells : list Z) : list Z :=
    fold_left (fun s c => if mem c (gathered st) then s else insert c s) cells [].
  (** L175-183: the cells by owner, and those without. *)
  Definition by_owner (cells : list Z) : option (list (nat * list Z) * list Z) :=
    foldM (fun acc c => o <- owner_rank c ;; Some (match o with Some r => (push (fst acc) r [c], snd acc) | None => (fst acc, snd acc ++ [c]) end)) ([], []) cells.
  (** L231-245: what a rank answers, in the order in which it found the requests; looking up a cell creates its entry. *)
  Definition serve_cell (mb : (Z -> option (list byte)) * list byte) (cell : Z) : option ((Z -> option (list byte)) * list byte) :=
    let b := buffer_of (fst mb) cell in
    packed <- pack mh_cell_buffer [(cell, b)] ;;
    Some (set_buffer (fst mb) cell b, snd mb ++ packed).
  Fixpoint ints_of (fuel : nat) (b : list byte) : option (list Z) :=
    match b with
    | [] => Some []
    | _ => match fuel with 0 => None | Datatypes.S f => hr <- take 8 b ;; rest <- ints_of f (snd hr) ;; Some (signed 8 (un_le (fst hr)) :: rest) end
    end.
  Definition serve (ma : (Z -> option (list byte)) * list (nat * list byte)) (rq : nat * list byte) : option ((Z -> option (list byte)) * list (nat * list byte)) :=
    cells <- ints_of (length (snd rq)) (snd rq) ;;
    mb <- foldM serve_cell (fst ma, []) cells ;;
    Some (fst mb, snd ma ++ [(fst rq, snd mb)]).

  (** L154-267, on all ranks.  The maps of L214 and L230 are keyed by rank and used in the order of recv_ranks; as no rank is found twice
      (checked by [rank_map]), they are lists in that order here. *)
  Definition gather (find : remote) (st : list mhc) (req : list (list Z)) : option (list mhc) :=
    let sets := map (fun sc => cells_set (fst sc) (snd sc)) (combine st req) in
    if forallb (fun s : list Z => match s with [] => true | _ => false end) sets then Some st else        (* L166-172 *)
    split <- mapM by_owner sets ;;                                                                        (* L175-183 *)
    asks <- mapM (fun p => rank_map size (fst p)) split ;;                                                (* L186-203 *)
    let requests := map (map (fun e => (fst e, concat (map (le 8) (snd e))))) asks in
    let found := find (map sizes requests) in                                                             (* L209 *)
    _ <- mapM (rank_map size) found ;;
    incoming <- exchange_data requests found ;;                                                           (* L225 *)
    served <- mapM (fun mr => foldM serve (cell_buffers (fst mr), []) (snd mr)) (combine st incoming) ;;  (* L230-245 *)
    counts <- exchange_counts (map (fun x => sizes (snd x)) served) (map (map fst) asks) ;;               (* L248 *)
    answers <- exchange_data (map snd served) (map (fun ac => combine (map fst (fst ac)) (snd ac)) (combine asks counts)) ;;        (* L252-264 *)
    mapM (fun x => m <- rank_map size (snd (snd x)) ;;                                                    (* L266 *)
                   generic_unpack (mk_mhc (fst (fst (snd x))) (gathered (fst (fst x))) (snd (snd (fst x)) ++ no_owner (fst (fst x)))) m)
         (combine (combine st split) (combine served answers)).
End Container.

(** L135-145. *)
Definition get {T} (S : serial T) (st : mhc) (cell : Z) : option (list T) :=
  if mem cell (gathered st) then (b <- cell_buffers st (as_int cell) ;; unpack S b)
  else if mem cell (no_owner st) then Some [] else None.
