(** Model of BoundaryTruncation and BoundaryReflection, for one particle
    (include/neso_particles/boundary/boundary_truncation.hpp L25-99,
    boundary_reflection.hpp L21-40, src/boundary/boundary_truncation.cpp,
    src/boundary/boundary_reflection.cpp).  REAL is the real numbers: rounding is
    not modelled; 0/0 is a failure.  The arrays of three entries are lists of
    [k_ndim] entries: the code uses no others. *)
From Coq Require Import List Arith Reals Bool.
Import ListNotations.
From Verif Require Import Base.
Local Open Scope R_scope.

Definition rlt (a b : R) : bool := if Rlt_dec a b then true else false.

(** device_functions.hpp L79-85 *)
Definition dot_product (n : nat) (a b : list R) : option R :=
  foldM (fun value ix => x <- rd a ix ;; y <- rd b ix ;; Some (value + x * y)) 0 (seq 0 n).

(** boundary_truncation.hpp L37-62: the vector back to the previous position and
    whether the move was small. *)
Definition back_vector (k_ndim : nat) (PP IP : list R) : option (list R) :=
  mapM (fun dx => a <- rd PP dx ;; b <- rd IP dx ;; Some (a - b)) (seq 0 k_ndim).
(** L64-68: the new position before the check. *)
Definition new_position (k_ndim : nat) (small_move : bool) (PP IP o : list R) : option (list R) :=
  mapM (fun dx => a <- rd PP dx ;; b <- rd IP dx ;; c <- rd o dx ;; Some (if small_move then a else b + c)) (seq 0 k_ndim).
(** L72-75 *)
Definition moved_past (k_ndim : nat) (PP np o : list R) : option bool :=
  foldM (fun mp dx => a <- rd PP dx ;; b <- rd np dx ;; c <- rd o dx ;; Some (mp || rlt ((a - b) * c) 0)) false (seq 0 k_ndim).
(** L81-98: the new entries of TSP. *)
Definition time_update (k_ndim : nat) (o_norm : R) (p PP TSP : list R) : option (list R) :=
  f <- mapM (fun dx => a <- rd p dx ;; b <- rd PP dx ;; Some (a - b)) (seq 0 k_ndim) ;;
  f2 <- dot_product k_ndim f f ;;
  let dist_full_step := sqrt f2 in
  let tmp := if rlt (/ 10 ^ 16) dist_full_step then o_norm / dist_full_step else 1 in
  let tmp := if rlt tmp 0 then 0 else tmp in
  let proportion_achieved := if rlt 1 tmp then 1 else tmp in
  t0 <- rd TSP 0 ;; last_dt <- rd TSP 1 ;;
  let correct_last_dt := last_dt * proportion_achieved in
  t <- upd TSP 0 (t0 - last_dt + correct_last_dt) ;;
  upd t 1 correct_last_dt.
(** L25-99 truncate_trajectory: the new P and TSP. *)
Definition truncate_trajectory (k_ndim : nat) (k_reset_distance : R) (P TSP PP IP : list R) : option (list R * list R) :=
  p <- mapM (rd P) (seq 0 k_ndim) ;;
  oo <- back_vector k_ndim PP IP ;;
  o_norm2 <- dot_product k_ndim oo oo ;;
  let o_norm := sqrt o_norm2 in
  let small_move := rlt o_norm (k_reset_distance * (1 / 10)) in
  o_inorm <- (if small_move then Some k_reset_distance
              else _ <- assert (rlt 0 o_norm) ;; Some (k_reset_distance / o_norm)) ;;
  let o := map (fun x => x * o_inorm) oo in
  np <- new_position k_ndim small_move PP IP o ;;
  past <- moved_past k_ndim PP np o ;;
  P' <- foldM (fun P dx => a <- rd PP dx ;; b <- rd np dx ;; upd P dx (if past : bool then a else b)) P (seq 0 k_ndim) ;;
  TSP' <- time_update k_ndim o_norm p PP TSP ;;
  Some (P', TSP').

(** boundary_reflection.hpp L21-40 reflect_trajectory: the new V. *)
Definition reflect_trajectory (k_ndim : nat) (V N : list R) : option (list R) :=
  n <- mapM (rd N) (seq 0 k_ndim) ;; v <- mapM (rd V) (seq 0 k_ndim) ;;
  in_dot_product <- dot_product k_ndim n v ;;
  foldM (fun V dx => a <- rd v dx ;; b <- rd n dx ;; upd V dx (a - 2 * in_dot_product * b)) V (seq 0 k_ndim).

(** src/boundary/boundary_reflection.cpp L14-75 execute, for one particle: the
    new P, V and TSP.  BoundaryTruncation::execute is truncate_trajectory alone. *)
Definition reflect (k_ndim : nat) (k_reset_distance : R) (P V TSP PP IP N : list R) : option (list R * list R * list R) :=
  _ <- assert ((0 <? k_ndim) && (k_ndim <? 4))%nat ;;
  t <- truncate_trajectory k_ndim k_reset_distance P TSP PP IP ;;
  V' <- reflect_trajectory k_ndim V N ;;
  Some (fst t, V', snd t).
