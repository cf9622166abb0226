(** Model of the random numbers of kernels:
    include/neso_particles/containers/rng/host_rng_common.hpp,
    host_per_particle_block_rng.hpp, host_atomic_block_kernel_rng.hpp and the size of the
    iteration set of a loop, src/loop/particle_loop_utility.cpp. *)
From Coq Require Import List Arith ZArith Bool.
Import ListNotations.
From Verif Require Import Base.

Definition int_max : Z := 2147483647.

Section RNG.
  (** [gen i] is what the i-th call of the host's generation function returns, for
      i = 0, 1, ...; [zero] is T(). *)
  Context {T : Type} (gen : nat -> T) (zero : T).

  (** [memcpy_part sel mem src dst n]: the elements, chosen by [sel], of a copy of [n]
      elements from [src] to the positions [dst], ... of the device memory. *)
  Definition memcpy_part (sel : nat -> bool) (mem src : list T) (dst n : nat) : option (list T) :=
    foldM (fun mem ix => if sel (dst + ix) then v <- rd src ix ;; upd mem (dst + ix) v else Some mem) mem (seq 0 n).

  (** host_rng_common.hpp L107-132: the loop of draw_random_samples.  [cur], [nxt]: the
      two host buffers; [pend]: the destination and size of the copy that is not yet
      complete: an element is copied when the copy is submitted or when the host waits for it, as
      [early] says.  Its source is the buffer [nxt], to which ptr_next points since the
      pointers were swapped.  [g]: the number of calls of the generation function so far.
      A block size of zero gives an endless loop. *)
  Fixpoint draw_loop (fuel block_size : nat) (early : nat -> bool) (cur nxt mem : list T) (pend : nat * nat)
      (d_ptr left g : nat) : option (list T * nat) :=
    match fuel with
    | 0 => None
    | S fuel =>
        if 0 <? left then
          let num_to_memcpy := Nat.min block_size left in
          cur <- foldM (fun cur ix => upd cur ix (gen (g + ix))) cur (seq 0 num_to_memcpy) ;;
          mem <- memcpy_part (fun i => negb (early i)) mem nxt (fst pend) (snd pend) ;;
          mem <- memcpy_part early mem cur d_ptr num_to_memcpy ;;
          draw_loop fuel block_size early nxt cur mem (d_ptr, num_to_memcpy) (d_ptr + num_to_memcpy)
            (left - num_to_memcpy) (g + num_to_memcpy)
        else
          mem <- memcpy_part (fun i => negb (early i)) mem nxt (fst pend) (snd pend) ;; Some (mem, g)
    end.

  (** L90-139 [draw_random_samples] into the positions d_ptr, d_ptr + 1, ...; the assertions
      at the end are left out.  The pointer of an empty request is not used. *)
  Definition draw_random_samples (early : nat -> bool) (block_size : nat) (buf : option (list T)) (d_ptr num_numbers g : nat)
    : option (option (list T) * nat) :=
    if num_numbers =? 0 then Some (buf, g)
    else
      mem <- buf ;;
      r <- draw_loop (S num_numbers) block_size early (repeat zero block_size) (repeat zero block_size) mem (d_ptr, 0)
             d_ptr num_numbers g ;;
      Some (Some (fst r), snd r).

  (** L194-222 [allocate] for one compute device: the buffer ([None]: not yet created).
      [junk]: what allocated memory holds.  The product with 1.1 is computed exactly. *)
  Definition allocate (junk : nat -> T) (buf : option (list T)) (required_size : nat) : option (list T) :=
    if required_size =? 0 then buf
    else
      let padded_size := Nat.max required_size (required_size * 11 / 10) in
      match buf with
      | None => Some (map junk (seq 0 padded_size))
      | Some b => if length b <? required_size then Some (b ++ map junk (seq (length b) (padded_size - length b))) else Some b
      end.

  (* ---------------------------------------------------------------- *)
  (** HostPerParticleBlockRNG, host_per_particle_block_rng.hpp L79-200.  [p_drawn]: the
      calls of the generation function so far (the state of that function). *)
  Record per_particle := mk_pp {
    p_state : nat;
    p_buf : option (list T);
    p_ncomp : nat;
    p_block : nat;
    p_drawn : nat
  }.
  (** L98-108, L118-128, constructors. *)
  Definition pp_create (num_components block_size drawn : nat) : per_particle := mk_pp 0 None num_components block_size drawn.

  (** L158-187 [impl_pre_loop_read]; [n] is get_loop_iteration_set_size. *)
  Definition pp_pre_loop (early : nat -> bool) (junk : nat -> T) (n : nat) (r : per_particle) : option per_particle :=
    _ <- assert (p_state r =? 0) ;;
    if 0 <? p_ncomp r then
      let num := n * p_ncomp r in
      x <- draw_random_samples early (p_block r) (allocate junk (p_buf r) num) 0 num (p_drawn r) ;;
      Some (mk_pp 1 (fst x) (p_ncomp r) (p_block r) (snd x))
    else Some (mk_pp 1 (p_buf r) (p_ncomp r) (p_block r) (p_drawn r)).

  (** L134-151 [impl_get_const], once for each launch: the kernel's view (stride, data). *)
  Definition pp_get_const (n : nat) (r : per_particle) : option (per_particle * (Z * list T)) :=
    _ <- assert ((p_state r =? 1) || (p_state r =? 2)) ;;
    let r' := mk_pp 2 (p_buf r) (p_ncomp r) (p_block r) (p_drawn r) in
    if p_ncomp r =? 0 then Some (r', (0%Z, []))
    else
      _ <- assert (Z.of_nat n <? int_max)%Z ;;
      b <- p_buf r ;; Some (r', (Z.of_nat n, b)).

  (** L192-196 [impl_post_loop_read]. *)
  Definition pp_post_loop (r : per_particle) : per_particle := mk_pp 0 (p_buf r) (p_ncomp r) (p_block r) (p_drawn r).

  (** L37-39 [at(row, col)], L50-55: the row is the loop linear index, converted to int.
      Arithmetic on int: overflow is a failure. *)
  Definition to_int (z : Z) : option Z := if ((- int_max - 1 <=? z) && (z <=? int_max))%Z then Some z else None.
  Definition pp_at (view : Z * list T) (row col : nat) : option T :=
    r <- to_int (Z.of_nat row) ;;
    p <- to_int (Z.of_nat col * fst view) ;;
    i <- to_int (p + r) ;;
    if (i <? 0)%Z then None else rd (snd view) (Z.to_nat i).

  (** A loop over [n] particles with [launches] launches whose kernel calls read the
      samples [reads] (loop linear index, component), in this order: reads do not change
      anything. *)
  Definition pp_loop (early : nat -> bool) (junk : nat -> T) (n launches : nat) (reads : list (nat * nat)) (r : per_particle)
    : option (per_particle * list T) :=
    r <- pp_pre_loop early junk n r ;;
    x <- foldM (fun s _ => pp_get_const n (fst s)) (r, (0%Z, [])) (seq 0 launches) ;;
    vs <- mapM (fun a => pp_at (snd x) (fst a) (snd a)) reads ;;
    Some (pp_post_loop (fst x), vs).

  (* ---------------------------------------------------------------- *)
  (** HostAtomicBlockKernelRNG, host_atomic_block_kernel_rng.hpp L55-292.  [a_counter]: the
      two device counters ([None]: not yet created), [a_num]: num_values, [a_override]:
      num_random_numbers_override ([None] for -1). *)
  Record atomic_rng := mk_at {
    a_state : nat;
    a_buf : option (list T);
    a_counter : option (Z * Z);
    a_num : nat;
    a_ncomp : nat;
    a_block : nat;
    a_override : option nat;
    a_valid : bool;
    a_drawn : nat
  }.
  (** L239-250, L264-275, constructors; L288-290 [set_num_random_numbers]. *)
  Definition at_create (num_components block_size drawn : nat) : atomic_rng :=
    mk_at 0 None None 0 num_components block_size None true drawn.
  Definition set_num_random_numbers (o : option nat) (r : atomic_rng) : atomic_rng :=
    mk_at (a_state r) (a_buf r) (a_counter r) (a_num r) (a_ncomp r) (a_block r) o (a_valid r) (a_drawn r).

  (** L74-84 [create_counter], [get_counter_ptr]: [junkc] is what the memory holds. *)
  Definition get_counter (junkc : Z * Z) (r : atomic_rng) : Z * Z := match a_counter r with Some c => c | None => junkc end.
  (** Conversion of an int to std::size_t. *)
  Definition to_size_t (z : Z) : Z := (z mod 2 ^ 64)%Z.

  (** L131-196 [impl_pre_loop_read].  [reallocated]: the value of the local variable of
      that name if [allocate] leaves it uninitialised (for an empty request); otherwise
      [allocate] sets it to false. *)
  Definition at_pre_loop (early : nat -> bool) (junk : nat -> T) (junkc : Z * Z) (reallocated : bool) (n : nat) (r : atomic_rng)
    : option atomic_rng :=
    _ <- assert (a_state r =? 0) ;;
    if 0 <? a_ncomp r then
      let num := match a_override r with Some o => o | None => n * a_ncomp r end in
      _ <- assert (Z.of_nat (n * a_ncomp r) <? int_max)%Z ;;
      let buf := allocate junk (a_buf r) num in
      let reallocated := (num =? 0) && reallocated in
      x <- (if reallocated then
              d <- draw_random_samples early (a_block r) buf 0 num (a_drawn r) ;; Some (d, num)
            else
              let current_count := to_size_t (fst (get_counter junkc r)) in
              y <- (if (0 <? current_count)%Z then
                      let num_required := Z.min (Z.of_nat num) current_count in
                      d <- draw_random_samples early (a_block r) buf 0 (Z.to_nat num_required) (a_drawn r) ;;
                      Some (d, if (num_required <? current_count)%Z then Z.to_nat num_required else a_num r)
                    else Some ((buf, a_drawn r), a_num r)) ;;
              let '((buf, g), previous_end) := y in
              if previous_end <? num then
                d <- draw_random_samples early (a_block r) buf previous_end (num - previous_end) g ;; Some (d, num)
              else Some ((buf, g), previous_end)) ;;
      let '((buf, g), num_values) := x in
      Some (mk_at 1 buf (Some (0, 0)%Z) num_values (a_ncomp r) (a_block r) (a_override r) (a_valid r) g)
    else Some (mk_at 1 (a_buf r) (a_counter r) (a_num r) (a_ncomp r) (a_block r) (a_override r) (a_valid r) (a_drawn r)).

  (** L111-125 [impl_get_const]: buffer_size and data; the counters stay on the device. *)
  Definition at_get_const (junkc : Z * Z) (r : atomic_rng) : option (atomic_rng * (Z * list T)) :=
    _ <- assert ((a_state r =? 1) || (a_state r =? 2)) ;;
    let r' := mk_at 2 (a_buf r) (Some (get_counter junkc r)) (a_num r) (a_ncomp r) (a_block r) (a_override r) (a_valid r) (a_drawn r) in
    if a_ncomp r =? 0 then Some (r', (0%Z, []))
    else b <- a_buf r ;; Some (r', (Z.of_nat (a_num r), b)).

  (** L202-220 [impl_post_loop_read]; the warning is left out. *)
  Definition at_post_loop (junkc : Z * Z) (r : atomic_rng) : atomic_rng :=
    let c := get_counter junkc r in
    let bad := (Z.of_nat (a_num r) <? fst c)%Z || negb (snd c =? 0)%Z in
    mk_at 0 (a_buf r) (Some c) (a_num r) (a_ncomp r) (a_block r) (a_override r) (a_valid r && negb bad) (a_drawn r).

  (** Wrap around of the atomic addition on int. *)
  Definition wrap32 (z : Z) : Z := ((z + 2 ^ 31) mod 2 ^ 32 - 2 ^ 31)%Z.

  (** The calls of [at] by the kernels, L20-31 (and L33-46 for pair loops), each of two
      atomic steps.  State: the counters; per call the index between its steps; per call
      the result (valid_sample, value). *)
  Definition at_state : Type := (Z * Z) * list (option Z) * list (option (bool * T)).
  Definition at_step (view : Z * list T) (s : at_state) (call : nat) : option at_state :=
    let '((count, poison), pending, results) := s in
    p <- rd pending call ;;
    match p with
    | None =>
        pending <- upd pending call (Some count) ;; Some ((wrap32 (count + 1), poison), pending, results)
    | Some index =>
        let valid_tmp := ((index <? fst view) && (0 <=? index))%Z in
        let to_poison := if valid_tmp then 0%Z else 1%Z in
        let valid := valid_tmp && (poison =? 0)%Z in
        v <- (if valid then rd (snd view) (Z.to_nat index) else Some zero) ;;
        results <- upd results call (Some (valid, v)) ;;
        Some ((count, Z.max poison to_poison), pending, results)
    end.
  (** [sched]: the calls 0, ..., ncalls - 1, each twice: its first and its second step.  The
      counters are in the memory of the rng. *)
  Definition at_calls (view : Z * list T) (sched : list nat) (ncalls : nat) (counters : Z * Z) : option ((Z * Z) * list (bool * T)) :=
    s <- foldM (at_step view) (counters, repeat None ncalls, repeat None ncalls) sched ;;
    let '(c, _, results) := s in
    rs <- mapM (fun r => r) results ;; Some (c, rs).

  (** A loop over [n] particles with [launches] launches, whose kernels call [at] [ncalls]
      times.  Without a launch there are no calls. *)
  Definition at_loop (early : nat -> bool) (junk : nat -> T) (junkc : Z * Z) (reallocated : bool) (n launches ncalls : nat)
      (sched : list nat) (r : atomic_rng) : option (atomic_rng * list (bool * T)) :=
    r <- at_pre_loop early junk junkc reallocated n r ;;
    x <- foldM (fun s _ => at_get_const junkc (fst s)) (r, (0%Z, [])) (seq 0 launches) ;;
    let '(r, view) := x in
    y <- at_calls view sched ncalls (get_counter junkc r) ;;
    let r := mk_at (a_state r) (a_buf r) (Some (fst y)) (a_num r) (a_ncomp r) (a_block r) (a_override r) (a_valid r) (a_drawn r) in
    Some (at_post_loop junkc r, snd y).
End RNG.

(** src/loop/particle_loop_utility.cpp L6-31 [get_loop_npart]: the particles of the cells
    of a loop; [np] are the counts of the group or sub-group and [npart_local] its number of
    particles. *)
Definition get_loop_npart (np : list nat) (npart_local : nat) (all_cells : bool) (starting_cell bounding_cell : nat) : option nat :=
  if all_cells then Some npart_local
  else foldM (fun s c => n <- rd np c ;; Some (s + n)) 0 (seq starting_cell (bounding_cell - starting_cell)).
