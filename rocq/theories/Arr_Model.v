(** Model of LocalArray and GlobalArray, and of the loops that use them.
    include/neso_particles/containers/local_array.hpp, global_array.hpp;
    include/neso_particles/loop/particle_loop.hpp L152-305. *)
From Coq Require Import List Arith Bool.
Import ListNotations.
From Verif Require Import Base.

Section Arr.
  Context {V : Type} (add : V -> V -> V) (zero : V).

  (** global_array.hpp L170-172.  The size (L279) is the length of [ga_buf]: the buffer is
      allocated with it and never reallocated (L304). *)
  Record garray := GA { ga_buf : list V; ga_stage : option (list V) }.
  (** The arrays of one rank; a LocalArray (local_array.hpp L214) is its values. *)
  Record rank_arrays := RA { globals : list garray; locals : list (list V) }.

  (** ** Calls from the host *)
  (** global_array.hpp L300-311 and L318-323; local_array.hpp L254-263, L270-275 *)
  Definition create_global (size : nat) (value : V) : garray := GA (repeat value size) None.
  Definition create_local (size : nat) (value : V) : list V := repeat value size.
  Definition fill_global (value : V) (a : garray) : garray := GA (map (fun _ => value) (ga_buf a)) (ga_stage a).
  Definition fill_local (value : V) (a : list V) : list V := map (fun _ => value) a.
  (** local_array.hpp L294-305 *)
  Definition set_local (data a : list V) : option (list V) := _ <- assert (length data =? length a) ;; Some data.

  (** ** Loops *)
  (** The arguments of a loop: an access mode and an array, by its number. *)
  Inductive target := TG (id : nat) | TL (id : nat).
  Inductive arg := AAdd (t : target) | ARead (t : target).
  (** What a kernel does with argument number [a]. *)
  Inductive op := OAdd (a component : nat) (value : V) | ORead (a component : nat).

  (** device_buffers.hpp L73-91 [realloc_no_copy] without a size factor *)
  Definition realloc_no_copy (junk : nat -> V) (size : nat) (buf : list V) : list V :=
    if length buf <? size then map junk (seq 0 size) else buf.
  (** queue.fill of the first [size] elements *)
  Definition fill_front (size : nat) (buf : list V) : option (list V) :=
    _ <- assert (size <=? length buf) ;; Some (repeat zero size ++ skipn size buf).

  (** global_array.hpp L197-208; [pooled] is the buffer get_resource returns, with any
      length and contents.  The previous stage buffer, if there is one, is dropped. *)
  Definition impl_pre_loop_add (junk : nat -> V) (pooled : list V) (a : garray) : option garray :=
    stage <- fill_front (length (ga_buf a)) (realloc_no_copy junk (length (ga_buf a)) pooled) ;;
    Some (GA (ga_buf a) (Some stage)).
  (** particle_loop.hpp L169: the arguments in order; only Add of a GlobalArray does
      something. [pooled j]: what the pool gives for argument [j]. *)
  Definition apply_pre_loop (junk : nat -> V) (pooled : nat -> list V) (args : list arg) (w : rank_arrays) : option rank_arrays :=
    foldM (fun w ja => match snd ja with
        | AAdd (TG id) => a <- rd (globals w) id ;; a' <- impl_pre_loop_add junk (pooled (fst ja)) a ;;
                          gs <- upd (globals w) id a' ;; Some (RA gs (locals w))
        | _ => Some w
        end) w (combine (seq 0 (length args)) args).

  (** Access::GlobalArray::Add::add (L53-55) on impl_get (L178-183), Read::at (L36-37) on
      impl_get_const (L189-191); Access::LocalArray::Add::fetch_add (local_array.hpp
      L51-53), Read::at (L36-37).  The result is what the kernel gets. *)
  Definition do_op (args : list arg) (w : rank_arrays) (o : op) : option (rank_arrays * option V) :=
    match o with
    | OAdd j c v =>
        x <- rd args j ;;
        match x with
        | AAdd (TG id) => a <- rd (globals w) id ;; stage <- ga_stage a ;; old <- rd stage c ;; stage' <- upd stage c (add old v) ;;
                          gs <- upd (globals w) id (GA (ga_buf a) (Some stage')) ;; Some (RA gs (locals w), None)
        | AAdd (TL id) => a <- rd (locals w) id ;; old <- rd a c ;; a' <- upd a c (add old v) ;;
                          ls <- upd (locals w) id a' ;; Some (RA (globals w) ls, Some old)
        | ARead _ => None
        end
    | ORead j c =>
        x <- rd args j ;;
        match x with
        | ARead (TG id) => a <- rd (globals w) id ;; v <- rd (ga_buf a) c ;; Some (w, Some v)
        | ARead (TL id) => a <- rd (locals w) id ;; v <- rd a c ;; Some (w, Some v)
        | AAdd _ => None
        end
    end.
  (** The kernels of all particles of a rank: [ops] lists what they do, in any order.
      Adds are atomic (atomic_fetch_add), so that the operations of all
      particles are interleaved in some order [sched] of their numbers.  The log pairs the number of
      an operation with its result; it is not part of the code. *)
  Definition run_kernels (args : list arg) (w : rank_arrays) (sched : list (nat * op)) : option (rank_arrays * list (nat * option V)) :=
    foldM (fun s io => r <- do_op args (fst s) (snd io) ;; Some (fst r, snd s ++ [(fst io, snd r)])) (w, []) sched.

  (** What one submit of the loop finds: a schedule, the pool, new memory. *)
  Record env := Env { e_order : nat -> list (nat * op) -> list (nat * op); e_junk : nat -> nat -> V; e_pooled : nat -> nat -> list V;
                      e_acc : nat -> nat -> list V; e_reduce : nat -> list V -> list V }.
  (** particle_loop.hpp L208-274 on all ranks; [ops r] are the operations of rank [r]. *)
  Definition submit (e : env) (args : list arg) (ops : nat -> list op) (w : list rank_arrays) : option (list (rank_arrays * list (nat * option V))) :=
    mapM (fun rw => let r := fst rw in
        w1 <- apply_pre_loop (e_junk e r) (e_pooled e r) args (snd rw) ;;
        run_kernels args w1 (e_order e r (combine (seq 0 (length (ops r))) (ops r))))
      (combine (seq 0 (length w)) w).

  (** global_array.hpp L213-268 for array [id] on all ranks, argument number [j]: the element-wise sum of the
      stage buffers in an order of MPI's choice ([e_reduce]), which may differ between the
      ranks.  Without device-aware MPI the values go through host vectors of [size]
      elements (L239-254), with the same result. *)
  Definition impl_post_loop_add (e : env) (j id : nat) (w : list rank_arrays) : option (list rank_arrays) :=
    stages <- mapM (fun x => a <- rd (globals x) id ;; ga_stage a) w ;;
    mapM (fun rw => let r := fst rw in
        a <- rd (globals (snd rw)) id ;;
        let size := length (ga_buf a) in
        acc <- fill_front size (realloc_no_copy (e_junk e r) size (e_acc e r j)) ;;
        sums <- mapM (fun c => vs <- mapM (fun stage => rd stage c) stages ;; Some (fold_right add zero (e_reduce e r vs))) (seq 0 size) ;;
        let acc' := sums ++ skipn size acc in
        buf <- mapM (fun c => d <- rd (ga_buf a) c ;; s <- rd acc' c ;; Some (add d s)) (seq 0 size) ;;
        gs <- upd (globals (snd rw)) id (GA buf None) ;; Some (RA gs (locals (snd rw))))
      (combine (seq 0 (length w)) w).
  (** particle_loop.hpp L288-304 [wait] *)
  Definition wait (e : env) (args : list arg) (w : list rank_arrays) : option (list rank_arrays) :=
    foldM (fun w ja => match snd ja with AAdd (TG id) => impl_post_loop_add e (fst ja) id w | _ => Some w end) w (combine (seq 0 (length args)) args).
  (** L320-328 [execute] *)
  Definition execute (e : env) (args : list arg) (ops : nat -> list op) (w : list rank_arrays) : option (list rank_arrays * list (list (nat * option V))) :=
    s <- submit e args ops w ;;
    w' <- wait e args (map fst s) ;;
    Some (w', map snd s).

  (** ** Histories *)
  Inductive event :=
  | EFillGlobal (rank id : nat) (value : V) | EFillLocal (rank id : nat) (value : V) | ESetLocal (rank id : nat) (data : list V)
  | ELoop (args : list arg) (ops : nat -> list op).
  Definition on_rank (r : nat) (f : rank_arrays -> option rank_arrays) (w : list rank_arrays) : option (list rank_arrays) :=
    x <- rd w r ;; x' <- f x ;; upd w r x'.
  (** The arrays after an event, and for a loop the results of the operations of each rank. *)
  Definition exec (w : list rank_arrays) (ee : env * event) : option (list rank_arrays * list (list (nat * option V))) :=
    match snd ee with
    | EFillGlobal r id v => w' <- on_rank r (fun x => a <- rd (globals x) id ;; gs <- upd (globals x) id (fill_global v a) ;; Some (RA gs (locals x))) w ;; Some (w', [])
    | EFillLocal r id v => w' <- on_rank r (fun x => a <- rd (locals x) id ;; ls <- upd (locals x) id (fill_local v a) ;; Some (RA (globals x) ls)) w ;; Some (w', [])
    | ESetLocal r id data => w' <- on_rank r (fun x => a <- rd (locals x) id ;; a' <- set_local data a ;; ls <- upd (locals x) id a' ;; Some (RA (globals x) ls)) w ;; Some (w', [])
    | ELoop args ops => execute (fst ee) args ops w
    end.
  Definition exec_all (w : list rank_arrays) (es : list (env * event)) : option (list rank_arrays * list (list (list (nat * option V)))) :=
    foldM (fun s ee => r <- exec (fst s) ee ;; Some (fst r, snd s ++ [snd r])) (w, []) es.
End Arr.
