(** Model of DMPlexProjectEvaluateDG: piecewise constant functions on the cells of a mesh.
    "dg.hpp" and "dg.cpp" are dmplex_project_evaluate_dg.hpp and .cpp of
    external_interfaces/petsc/project_evaluate.  REAL is [Q].  A CellDatConst with one column is its
    number of rows and the list of its entries; entry [row] of [cell] is at [cell * nrow + row]
    (see CellConst_Model). *)
From Coq Require Import List Arith ZArith QArith Bool.
Import ListNotations.
From Verif Require Import Base DeviceFn_Model.
Local Open Scope nat_scope.

(** dg.hpp L19-22, L107: cdc_volumes (the inverse volumes), cdc_project, the points of the
    QuadraturePointMapper as their cell and ADDING_RANK_INDEX[3], and its ParticleDats "contrib_n". *)
Record dg := mk_dg { d_inverse : list Q; d_nrow : nat; d_data : list Q; d_points : option (list (nat * Z)); d_contrib : list (nat * list (list Q)) }.
Definition ncells (s : dg) : nat := length (d_inverse s).
Definition with_data (s : dg) (nrow : nat) (data : list Q) : dg := mk_dg (d_inverse s) nrow data (d_points s) (d_contrib s).

(** dg.cpp L46-81: the constructors.  The new CellDatConst has arbitrary contents. *)
Definition construct (junk_ : nat -> Q) (volumes : list Q) (points : option (list (nat * Z))) : option dg :=
  inverse <- mapM (fun volume => rdiv 1 volume) volumes ;;
  Some (mk_dg inverse 1 (map junk_ (seq 0 (length volumes))) points []).

(** dg.cpp L15-21. *)
Definition check_ncomp (junk_ : nat -> Q) (s : dg) (ncomp : nat) : dg :=
  if d_nrow s <? ncomp then with_data s ncomp (map junk_ (seq 0 (ncells s * ncomp))) else s.

(** QuadraturePointMapper::get_sym, quadrature_point_mapper.cpp L275-283: the values of a new dat are arbitrary. *)
Definition contrib (junk_ : nat -> Q) (s : dg) (ncomp : nat) (points : list (nat * Z)) : list (list Q) :=
  match find (fun e => fst e =? ncomp) (d_contrib s) with
  | Some e => snd e
  | None => map (fun j => map (fun cx => junk_ (j + cx)) (seq 0 ncomp)) (seq 0 (length points))
  end.
Definition set_contrib (s : dg) (ncomp : nat) (values : list (list Q)) : dg :=
  mk_dg (d_inverse s) (d_nrow s) (d_data s) (d_points s) ((ncomp, values) :: d_contrib s).

(** dg.hpp L27-61 [project_inner].  A particle is its cell and its values; the loop over the particles adds
    to the entries in any order (the reductions in local memory are in Reduce_Model). *)
Definition project (d : device) (junk_ : nat -> Q) (s : dg) (ncomp : nat) (ps : list (nat * list Q)) : option dg :=
  let s := check_ncomp junk_ s ncomp in
  data <- foldM (fun data p =>
    iv <- rd (d_inverse s) (fst p) ;;
    foldM (fun data cx =>
      v <- rd (snd p) cx ;; old <- rd data (fst p * d_nrow s + cx) ;;
      upd data (fst p * d_nrow s + cx) (old + v * iv)%Q) data (seq 0 ncomp))
    (repeat 0%Q (ncells s * d_nrow s)) (ord d 0 ps) ;;
  let s := with_data s (d_nrow s) data in
  match d_points s with
  | None => Some s
  | Some points =>
      values <- mapM (fun p => mapM (fun cx => rd (d_data s) (fst p * d_nrow s + cx)) (seq 0 ncomp)) points ;;
      Some (set_contrib s ncomp values)
  end.

(** dg.hpp L63-103 [evaluate_inner], for particles in the given cells. *)
Definition evaluate (d : device) (junk_ : nat -> Q) (s : dg) (ncomp : nat) (cells : list nat) : option (dg * list (list Q)) :=
  let s := check_ncomp junk_ s ncomp in
  s <- match d_points s with
       | None => Some s
       | Some points =>
           let source := contrib junk_ s ncomp points in
           data <- foldM (fun data j =>
             p <- rd points j ;;
             if (snd p =? 0)%Z then
               foldM (fun data cx => row <- rd source j ;; v <- rd row cx ;; upd data (fst p * d_nrow s + cx) v) data (seq 0 ncomp)
             else Some data) (d_data s) (ord d 0 (seq 0 (length points))) ;;
           Some (set_contrib (with_data s (d_nrow s) data) ncomp source)
       end ;;
  out <- mapM (fun cell => mapM (fun cx => rd (d_data s) (cell * d_nrow s + cx)) (seq 0 ncomp)) cells ;;
  Some (s, out).

(** dg.cpp L105-125; the result is [dofs]. *)
Definition get_dofs (s : dg) (ncomp : nat) : option (list Q) :=
  if 0 <? ncomp then
    _ <- assert (ncomp <=? d_nrow s) ;;
    r <- mapM (fun cx => mapM (fun nx => rd (d_data s) (cx * d_nrow s + nx)) (seq 0 ncomp)) (seq 0 (ncells s)) ;;
    Some (concat r)
  else Some [].

(** dg.cpp L127-159 *)
Definition set_dofs (junk_ : nat -> Q) (s : dg) (ncomp : nat) (dofs : list Q) : option dg :=
  if 0 <? ncomp then
    let s := check_ncomp junk_ s ncomp in
    _ <- assert (ncells s * ncomp <=? length dofs) ;;
    r <- mapM (fun cx => v <- mapM (fun nx => rd dofs (cx * ncomp + nx)) (seq 0 ncomp) ;; Some (v ++ repeat 0%Q (d_nrow s - ncomp))) (seq 0 (ncells s)) ;;
    Some (with_data s (d_nrow s) (concat r))
  else Some s.

(** A program: the calls, and QuadraturePointMapper::set (all points of a dat). *)
Inductive op :=
| Project (d : device) (junk_ : nat -> Q) (ncomp : nat) (ps : list (nat * list Q))
| Evaluate (d : device) (junk_ : nat -> Q) (ncomp : nat) (cells : list nat)
| GetDofs (ncomp : nat)
| SetDofs (junk_ : nat -> Q) (ncomp : nat) (dofs : list Q)
| SetPoints (ncomp : nat) (values : list (list Q)).
Definition step (s : dg) (o : op) : option (dg * list (list Q)) :=
  match o with
  | Project d j n ps => s' <- project d j s n ps ;; Some (s', [])
  | Evaluate d j n cells => evaluate d j s n cells
  | GetDofs n => r <- get_dofs s n ;; Some (s, [r])
  | SetDofs j n dofs => s' <- set_dofs j s n dofs ;; Some (s', [])
  | SetPoints n values => Some (set_contrib s n values, [])
  end.
Definition run (s : dg) (ops : list op) : option (dg * list (list (list Q))) :=
  foldM (fun r o => x <- step (fst r) o ;; Some (fst x, snd r ++ [snd x])) (s, []) ops.
