(** What the random numbers of kernels are supposed to be: numbers from the host's
    generation function, none used twice. *)
From Coq Require Import List Arith ZArith Bool Permutation.
Import ListNotations.
From Verif Require Import Base Loop_Model Loop_Spec RNG_Model.

(** The samples that a loop's kernel may ask for: each component of each particle, given
    by the particle's (cell, layer). *)
Definition samples_of (particles : list (nat * nat)) (ncomp : nat) : list ((nat * nat) * nat) :=
  list_prod particles (seq 0 ncomp).

(** [ns] numbers the calls of the generation function: results and numbers agree. *)
Definition from_draws {T} (gen : nat -> T) (values : list T) (ns : list nat) : Prop :=
  Forall2 (fun v n => v = gen n) values ns.

(** For each call of [at] the result: a valid sample, which is the k-th number that the
    generation function returned, or 0 and not valid. *)
Definition outcome {T} (gen : nat -> T) (zero : T) (result : bool * T) (draw : option nat) : Prop :=
  match draw with
  | Some k => result = (true, gen k)
  | None => result = (false, zero)
  end.

Definition some_of {A} (l : list (option A)) : list A := flat_map (fun o => match o with Some a => [a] | None => [] end) l.

(** A schedule of [n] calls, each made of a first and a second step. *)
Definition call_schedule (sched : list nat) (n : nat) : Prop := Permutation sched (seq 0 n ++ seq 0 n).

(** What can happen to an atomic RNG: a change of the number of random numbers, or a loop
    over [n] particles whose kernels ask for [ncalls] samples. *)
Inductive rng_event {T : Type} : Type :=
| ESetNumber (o : option nat)
| ELoop (early : nat -> bool) (junk : nat -> T) (reallocated : bool) (n launches ncalls : nat) (sched : list nat).
Arguments rng_event : clear implicits.

(** All events in turn; the results of the calls, loop by loop. *)
Definition rng_run {T} (gen : nat -> T) (zero : T) (junkc : Z * Z) (events : list (rng_event T)) (r : atomic_rng)
  : option (atomic_rng * list (list (bool * T))) :=
  foldM (fun s e =>
    match e with
    | ESetNumber o => Some (set_num_random_numbers o (fst s), snd s)
    | ELoop early junk reallocated n launches ncalls sched =>
        x <- at_loop gen zero early junk junkc reallocated n launches ncalls sched (fst s) ;;
        Some (fst x, snd s ++ [snd x])
    end) (r, []) events.

(** The events are possible on a device with 32 bit counters: loops over less than 2^31-1
    samples, schedules with less than 2^32 calls, calls only in loops that launch
    something. *)
Definition event_ok {T} (ncomp : nat) (e : rng_event T) : Prop :=
  match e with
  | ESetNumber o => match o with Some m => 1 <= m /\ (Z.of_nat m <= int_max)%Z | None => True end
  | ELoop _ _ _ n launches ncalls sched =>
      (Z.of_nat (n * ncomp) < int_max)%Z /\ call_schedule sched ncalls /\ (Z.of_nat ncalls < 2 ^ 32)%Z /\
      (launches = 0 <-> n = 0) /\ (launches = 0 -> ncalls = 0)
  end.

(** A history of loops with a per particle RNG: how each element of memory is copied, the
    number of particles, the launches and the samples read (loop linear index, component). *)
Record pp_use (T : Type) : Type := mk_use {
  u_early : nat -> bool;
  u_junk : nat -> T;
  u_n : nat;
  u_launches : nat;
  u_reads : list (nat * nat)
}.
Arguments mk_use {T}. Arguments u_early {T}. Arguments u_junk {T}. Arguments u_n {T}. Arguments u_launches {T}. Arguments u_reads {T}.
Definition pp_run {T} (gen : nat -> T) (zero : T) (uses : list (pp_use T)) (r : per_particle) : option (per_particle * list (list T)) :=
  foldM (fun s u =>
    x <- pp_loop gen zero (u_early u) (u_junk u) (u_n u) (u_launches u) (u_reads u) (fst s) ;;
    Some (fst x, snd s ++ [snd x])) (r, []) uses.
(** Each loop is over less than 2^31 - 1 samples, launches something if it has particles and
    reads samples of its particles, each once. *)
Definition use_ok {T} (ncomp : nat) (u : pp_use T) : Prop :=
  (Z.of_nat (u_n u) < int_max)%Z /\ (Z.of_nat (u_n u * ncomp) <= int_max)%Z /\ (u_launches u = 0 <-> u_n u = 0) /\
  NoDup (u_reads u) /\ forall ix c, In (ix, c) (u_reads u) -> ix < u_n u /\ c < ncomp.
