(** Model of ParticleGroupTemporary.  "temp.cpp" is src/particle_group_temporary.cpp, "group.cpp" src/particle_group.cpp, "group.hpp"
    include/neso_particles/particle_group.hpp.  The names of properties are numbers.  The properties of one type are listed in
    the order in which they were added, which is the order of the ParticleSpec; std::map has another order, which makes no
    difference here. *)
From Coq Require Import List Arith Bool.
Import ListNotations.
From Verif Require Import Base.
Local Open Scope nat_scope.

(** Name, number of components and the positions flag. *)
Definition dats := list (nat * (nat * bool)).
Definition look (l : dats) (s : nat) : option (nat * bool) := option_map snd (find (fun e => fst e =? s) l).
(** The name NESO_MPI_RANK. *)
Definition mpi_rank : nat := 0.
(** A ParticleGroup: its properties, the names of the positions and cell id dats, the numbers of particles in its cells. *)
Record pg := PG { real : dats; int_ : dats; pos : nat; cell : nat; npart : list nat }.

(** group.cpp L253-274 and group.hpp L196-207: an existing dat must have the same number of components. *)
Definition add_dat (l : dats) (s n : nat) (flag : bool) : option dats :=
  match look l s with
  | Some (m, _) => if m =? n then Some l else None
  | None => Some (l ++ [(s, (n, flag))])
  end.
(** group.cpp L1131-1153: the dats [keep] cannot be removed. *)
Definition remove_dat (keep : list nat) (l : dats) (s : nat) : option dats :=
  match look l s with
  | None => None
  | Some _ => if existsb (Nat.eqb s) keep then None else Some (filter (fun e => negb (fst e =? s)) l)
  end.
Definition keep_real (g : pg) : list nat := [pos g].
Definition keep_int (g : pg) : list nat := [mpi_rank; cell g].

(** The name of the last flagged dat, group.cpp L257-260 and L268-271; a group without one is not used. *)
Definition flagged (l : dats) : option nat := option_map fst (find (fun e => snd (snd e)) (rev l)).
(** The constructor with a specification: group.cpp L75-135. *)
Definition construct (ncell : nat) (spec_real spec_int : dats) : option pg :=
  r <- foldM (fun l e => add_dat l (fst e) (fst (snd e)) (snd (snd e))) [] spec_real ;;
  i <- foldM (fun l e => add_dat l (fst e) (fst (snd e)) (snd (snd e))) [(mpi_rank, (2, false))] spec_int ;;
  p <- flagged r ;;
  c <- flagged i ;;
  Some (PG r i p c (repeat 0 ncell)).
(** temp.cpp L26-44 *)
Definition check_new (keep : list nat) (source l : dats) : option dats :=
  foldM (fun l e => match look l (fst e) with
                    | Some (m, _) => if m =? fst (snd e) then Some l
                                     else l' <- remove_dat keep l (fst e) ;; add_dat l' (fst e) (fst (snd e)) false
                    | None => add_dat l (fst e) (fst (snd e)) false
                    end) l source.
(** temp.cpp L49-55; the loop runs over a copy of the map. *)
Definition check_old (keep : list nat) (source l : dats) : option dats :=
  foldM (fun l e => match look source (fst e) with None => remove_dat keep l (fst e) | Some _ => Some l end) l l.

(** A source group with its stack of temporary groups, and the temporary groups in use. *)
Record state := State { source : pg; stack : list pg; used : list pg }.
(** temp.cpp L6-63 [get] and containers/resource_stack.hpp L66-79. *)
Definition get (st : state) : option state :=
  ts <- match stack st with
        | [] => t <- construct (length (npart (source st))) (real (source st)) (int_ (source st)) ;; Some (t, [])
        | t :: rest => Some (t, rest)
        end ;;
  let t := fst ts in
  r1 <- check_new (keep_real t) (real (source st)) (real t) ;;
  i1 <- check_new (keep_int t) (int_ (source st)) (int_ t) ;;
  r2 <- check_old (keep_real t) (real (source st)) r1 ;;
  i2 <- check_old (keep_int t) (int_ (source st)) i1 ;;
  Some (State (source st) (snd ts) (PG r2 i2 (pos t) (cell t) (npart t) :: used st)).
(** temp.cpp L65-75, resource_stack.hpp L89-104 and group.cpp L239-251: the restored group is cleared. *)
Definition restore (st : state) (k : nat) : option state :=
  t <- rd (used st) k ;;
  Some (State (source st) (PG (real t) (int_ t) (pos t) (cell t) (repeat 0 (length (npart t))) :: stack st) (firstn k (used st) ++ skipn (S k) (used st))).

(** What a user may do with a group: add and remove properties, and change the particles. *)
Inductive change := AddReal (s n : nat) | AddInt (s n : nat) | RemoveReal (s : nat) | RemoveInt (s : nat) | Particles (cellx n : nat).
Definition apply (g : pg) (c : change) : option pg :=
  match c with
  | AddReal s n => r <- add_dat (real g) s n false ;; Some (PG r (int_ g) (pos g) (cell g) (npart g))
  | AddInt s n => i <- add_dat (int_ g) s n false ;; Some (PG (real g) i (pos g) (cell g) (npart g))
  | RemoveReal s => r <- remove_dat (keep_real g) (real g) s ;; Some (PG r (int_ g) (pos g) (cell g) (npart g))
  | RemoveInt s => i <- remove_dat (keep_int g) (int_ g) s ;; Some (PG (real g) i (pos g) (cell g) (npart g))
  | Particles c n => np <- upd (npart g) c n ;; Some (PG (real g) (int_ g) (pos g) (cell g) np)
  end.
Inductive event := Source (c : change) | Temp (k : nat) (c : change) | Get | Restore (k : nat).
Definition step (st : state) (e : event) : option state :=
  match e with
  | Source c => g <- apply (source st) c ;; Some (State g (stack st) (used st))
  | Temp k c => t <- rd (used st) k ;; t' <- apply t c ;; u <- upd (used st) k t' ;; Some (State (source st) (stack st) u)
  | Get => get st
  | Restore k => restore st k
  end.
(** A history from a group without temporary groups. *)
Definition run (g : pg) (es : list event) : option state := foldM step (State g [] []) es.
