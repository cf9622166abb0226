(** Model of UnseenValueExtractor, include/neso_particles/algorithms/unseen_value_extractor.hpp:
    the values of a particle property that were not seen in an earlier call. *)
From Coq Require Import List Arith ZArith Bool.
Import ListNotations.
From Verif Require Import Base Maps_Model Union_Model.
Local Open Scope nat_scope.

(** L13 *)
Definition node_width : Z := 128.

(** A call: the device, the contents of the buffer of the resource stack after realloc_no_copy
    (at least one entry per particle, L55), and the values of the component for the particles of
    the group, L73-111 (the two loops differ only in where the value is read, see C77). *)
Record xcall := mk_xcall { x_dev : device; x_buffer : list Z; x_values : list Z }.

(** The kernel, L76-90 and L96-110; the state is the counter and the buffer.  NodeType holds the
    value itself. *)
Definition extract_item (t : tree Z) (s : nat * list Z) (value : Z) : option (nat * list Z) :=
  in_tree <- (match root t with
              | None => Some false
              | Some r => x <- get node_width (heap t) (Some r) value ;; Some (match x with Some _ => true | None => false end)
              end) ;;
  if in_tree : bool then Some s
  else buf <- upd (snd s) (fst s) value ;; Some (fst s + 1, buf).

(** L48-142 [extract]. *)
Definition extract (fresh_node : nat -> node Z) (t : tree Z) (c : xcall) : option (tree Z * list Z) :=
  s <- foldM (extract_item t) (0, x_buffer c) (ord (x_dev c) 0 (x_values c)) ;;
  h_buffer <- (if 0 <? fst s then slice (snd s) 0 (fst s) else Some []) ;;
  let output_set := insert_all h_buffer [] in
  t' <- foldM (fun t ix => add node_width fresh_node t ix ix) t output_set ;;
  Some (t', output_set).

(** Calls one after the other on one extractor (unseen_value_extractor.cpp L5-11). *)
Definition extract_calls (fresh_node : nat -> node Z) (cs : list xcall) : option (tree Z * list (list Z)) :=
  foldM (fun s c => r <- extract fresh_node (fst s) c ;; Some (fst r, snd s ++ [snd r])) (new_tree, []) cs.
