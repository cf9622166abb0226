(** Model of the pointers that particle loops with a SymVector use:
    include/neso_particles/containers/sym_vector_pointer_cache.hpp,
    include/neso_particles/containers/sym_vector_impl.hpp, src/containers/ephemeral_dats.cpp and the
    addition and removal of ParticleDats in src/particle_group.cpp. *)
From Coq Require Import List Arith Bool.
Import ListNotations.
From Verif Require Import Base.

(** std::map with keys compared by [eqb]. *)
Fixpoint assoc {K A} (eqb : K -> K -> bool) (k : K) (l : list (K * A)) : option A :=
  match l with [] => None | (k', a) :: l' => if eqb k' k then Some a else assoc eqb k l' end.
Definition erase {K A} (eqb : K -> K -> bool) (k : K) (l : list (K * A)) : list (K * A) := filter (fun e => negb (eqb (fst e) k)) l.
Definition key_eqb (a b : list nat) : bool := if list_eq_dec Nat.eq_dec a b then true else false.

(** A Sym is the number of its name.  A ParticleDat is the number of its allocation; [next] is the
    number of the next allocation, so that a dat that is created later is another one.  The caches
    for REAL and INT are independent: this is one of them. *)
Record state := mk_state {
  dats : list (nat * nat);              (** the map of the ParticleGroup *)
  eph : option (list (nat * nat));      (** EphemeralDats; None: the cache of the ParticleGroup, nullptr *)
  ptrs : list (list nat * list nat);    (** map_syms_ptrs, L27-29 *)
  cptrs : list (list nat * list nat);   (** map_syms_const_ptrs, L30-32 *)
  ekeys : list (list nat);              (** ephemeral_keys, L35 *)
  next : nat }.

(** L100-131 [find]: the dat and whether it is an EphemeralDat. *)
Definition find (s : state) (sym : nat) : option (nat * bool) :=
  match (match eph s with Some m => assoc Nat.eqb sym m | None => None end) with
  | Some p => Some (p, true)
  | None => p <- assoc Nat.eqb sym (dats s) ;; Some (p, false)
  end.

Definition cached (s : state) (const : bool) : list (list nat * list nat) := if const then cptrs s else ptrs s.
(** L160-178 [create] and L185-204 [create_const]. *)
Definition create (s : state) (const : bool) (syms : list nat) : option state :=
  match assoc key_eqb syms (cached s const) with
  | Some _ => Some s
  | None =>
      xs <- mapM (find s) syms ;;
      let e := (syms, map fst xs) in
      Some (mk_state (dats s) (eph s) (if const then ptrs s else e :: ptrs s) (if const then e :: cptrs s else cptrs s)
              (if existsb snd xs then syms :: ekeys s else ekeys s) (next s))
  end.
(** L211-220 [get] and L228-237 [get_const]. *)
Definition get (s : state) (const : bool) (syms : list nat) : option (list nat) :=
  _ <- mapM (find s) syms ;; assoc key_eqb syms (cached s const).
(** L51-57 [reset_ephemeral]. *)
Definition erase_keys (ks : list (list nat)) (m : list (list nat * list nat)) : list (list nat * list nat) := fold_left (fun m k => erase key_eqb k m) ks m.

(** What a program does.  A loop with a SymVector gives the pointers the kernel uses. *)
Inductive op := AddDat (sym : nat) | RemoveDat (sym : nat) | AddEph (sym : nat) | RemoveEph (sym : nat) | ResetEph | Loop (const : bool) (syms : list nat).

Definition step (s : state) (o : op) : option (state * list (list nat)) :=
  match o with
  | AddDat sym =>
      (** particle_group.cpp L253-274: nothing if there is a compatible dat. *)
      match assoc Nat.eqb sym (dats s) with
      | Some _ => Some (s, [])
      | None => Some (mk_state ((sym, next s) :: dats s) (eph s) (ptrs s) (cptrs s) (ekeys s) (S (next s)), [])
      end
  | RemoveDat sym =>
      (** particle_group.cpp L1131-1152, particle_group.hpp L279-285.  The dats that cannot be removed are not modelled. *)
      _ <- assoc Nat.eqb sym (dats s) ;;
      Some (mk_state (erase Nat.eqb sym (dats s)) (eph s) (ptrs s) (cptrs s) (ekeys s) (next s), [])
  | AddEph sym =>
      (** ephemeral_dats.hpp L70-92, for a number of components that agrees with an existing dat. *)
      m <- eph s ;;
      match assoc Nat.eqb sym m with
      | Some _ => Some (s, [])
      | None => Some (mk_state (dats s) (Some ((sym, next s) :: m)) (ptrs s) (cptrs s) (ekeys s) (S (next s)), [])
      end
  | RemoveEph sym =>
      (** ephemeral_dats.hpp L99-106, ephemeral_dats.cpp L27-32. *)
      m <- eph s ;; _ <- assoc Nat.eqb sym m ;;
      Some (mk_state (dats s) (Some (erase Nat.eqb sym m)) (ptrs s) (cptrs s) (ekeys s) (next s), [])
  | ResetEph =>
      (** ephemeral_dats.cpp L4-15. *)
      _ <- eph s ;;
      Some (mk_state (dats s) (Some []) (erase_keys (ekeys s) (ptrs s)) (erase_keys (ekeys s) (cptrs s)) [] (next s), [])
  | Loop const syms =>
      (** sym_vector_impl.hpp L12-49: pre_loop and create_loop_arg. *)
      s' <- create s const syms ;; r <- get s' const syms ;; Some (s', [r])
  end.

(** A new group ([sub] = false) or sub group of a group that has the dats of [group]. *)
Definition start (sub : bool) (group : list (nat * nat)) (n : nat) : state := mk_state group (if sub then Some [] else None) [] [] [] n.
Definition run (s : state) (h : list op) : option (state * list (list nat)) :=
  foldM (fun a o => r <- step (fst a) o ;; Some (fst r, snd a ++ snd r)) (s, []) h.
