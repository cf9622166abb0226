(** Model of /repo/include/neso_particles/device_functions.hpp: geometry and
    matrices over the rationals (rounding is not modelled), compare-and-swap
    reductions, the eight element sort. *)
From Coq Require Import List Arith ZArith QArith Qabs Bool Permutation.
Import ListNotations.
From Verif Require Import Base.

(* ------------------------------------------------------------------ *)
(** * Geometry *)
Open Scope Q_scope.

(** Division of REAL.  A division by zero (infinity or NaN) is a failure. *)
Definition rdiv (a b : Q) : option Q := if Qeq_bool b 0 then None else Some (a / b).
Definition rle (a b : Q) : bool := Qle_bool a b.
Definition rlt (a b : Q) : bool := negb (Qle_bool b a).

(** consistent_line_orientation_2d, device_functions.hpp L112-123. *)
Definition consistent_line_orientation_2d (ax ay bx by_ : Q) : Q * Q * Q * Q :=
  let axfirst := rlt ax bx in
  let ayfirst := rlt ay by_ in
  let afirst := if Qeq_bool ax bx then ayfirst else axfirst in
  (if afirst then ax else bx, if afirst then ay else by_,
   if afirst then bx else ax, if afirst then by_ else ay).

(** line_segment_intersection_2d_lambda, device_functions.hpp L141-158. *)
Definition line_segment_intersection_2d_lambda (xa ya xb yb x0 y0 x1 y1 : Q) : option (Q * Q) :=
  inverse_x1mx0 <- rdiv 1 (x1 - x0) ;;
  l0 <- rdiv (- ya + y0 + (xa - x0) * (y1 - y0) * inverse_x1mx0)
             (yb - ya - (xb - xa) * (y1 - y0) * inverse_x1mx0) ;;
  Some (l0, (xa - x0 + l0 * (xb - xa)) * inverse_x1mx0).

(** line_segment_intersection_2d, device_functions.hpp L179-228.  The outputs
    are only written when the lines are not parallel: [None] inside [Some]. *)
Definition line_segment_intersection_2d (xa ya xb yb x0 y0 x1 y1 tol : Q)
    : option (bool * option (Q * Q * Q)) :=
  let vabx := xb - xa in
  let vaby := yb - ya in
  let v01x := x1 - x0 in
  let v01y := y1 - y0 in
  let cross_product_z := vabx * v01y - vaby * v01x in
  if negb (Qeq_bool cross_product_z 0) then
    l0_out <- (if rlt (Qabs (xb - xa)) (Qabs (x1 - x0)) then
                 r <- line_segment_intersection_2d_lambda xa ya xb yb x0 y0 x1 y1 ;; Some (fst r)
               else
                 r <- line_segment_intersection_2d_lambda x0 y0 x1 y1 xa ya xb yb ;; Some (snd r)) ;;
    let xi := xa + l0_out * (xb - xa) in
    let yi := ya + l0_out * (yb - ya) in
    let in_bounds_01 := rle (0 - tol) l0_out && rle l0_out (1 + tol) in
    let x_cond := rlt x0 x1 in
    let x_min := if x_cond then x0 else x1 in
    let x_max := if x_cond then x1 else x0 in
    let y_cond := rlt y0 y1 in
    let y_min := if y_cond then y0 else y1 in
    let y_max := if y_cond then y1 else y0 in
    let in_bounds_ab := rle (x_min - tol) xi && rle xi (x_max + tol) &&
                        rle (y_min - tol) yi && rle yi (y_max + tol) in
    Some (in_bounds_01 && in_bounds_ab, Some (xi, yi, l0_out))
  else Some (false, None).

(** The ratio computed by the axis aligned versions, device_functions.hpp
    L255-264 and L341-349: [is_crossed], [colocated] and [ratio] for the
    coordinates [za], [zb] of the end points and [z0] of the line or plane. *)
Definition crossing (za zb z0 : Q) : option (bool * bool * Q) :=
  let diff_a := za - z0 in
  let diff_b := zb - z0 in
  let is_crossed := rle (diff_a * diff_b) 0 in
  let abs_diff_a := Qabs diff_a in
  let abs_diff_b := Qabs diff_b in
  let width := abs_diff_a + abs_diff_b in
  let colocated := Qeq_bool width 0 in
  ratio <- (if negb colocated then rdiv abs_diff_a width else Some 0) ;;
  Some (is_crossed, colocated, ratio).

(** The test of one coordinate against an unordered interval, L269-270, L355-358. *)
Definition between_tol (u0 u1 tol x : Q) : bool :=
  (rle (u0 - tol) x && rle x (u1 + tol)) || (rle (u1 - tol) x && rle x (u0 + tol)).

(** line_segment_intersection_2d_x_axis_aligned, device_functions.hpp L250-273. *)
Definition line_segment_intersection_2d_x_axis_aligned (xa ya xb yb x0 y0 x1 tol : Q)
    : option (bool * (Q * Q)) :=
  c <- crossing ya yb y0 ;;
  let '(is_crossed, colocated, ratio) := c in
  let xi := xa + ratio * (xb - xa) in
  let yi := y0 in
  let in_bounds := between_tol x0 x1 tol xi in
  Some (is_crossed && negb colocated && in_bounds, (xi, yi)).

(** line_segment_intersection_2d_y_axis_aligned, device_functions.hpp L294-300:
    the coordinates are exchanged. *)
Definition line_segment_intersection_2d_y_axis_aligned (xa ya xb yb x0 y0 y1 tol : Q)
    : option (bool * (Q * Q)) :=
  r <- line_segment_intersection_2d_x_axis_aligned ya xa yb xb y0 x0 y1 tol ;;
  Some (fst r, (snd (snd r), fst (snd r))).

(** plane_intersection_3d_xy_plane_aligned, device_functions.hpp L336-361. *)
Definition plane_intersection_3d_xy_plane_aligned (ax ay az bx by_ bz p0x p0y p0z p1x p2y tol : Q)
    : option (bool * (Q * Q * Q)) :=
  c <- crossing az bz p0z ;;
  let '(is_crossed, colocated, ratio) := c in
  let xi := ax + ratio * (bx - ax) in
  let yi := ay + ratio * (by_ - ay) in
  let zi := p0z in
  let in_bounds_x := between_tol p0x p1x tol xi in
  let in_bounds_y := between_tol p0y p2y tol yi in
  Some (is_crossed && negb colocated && in_bounds_x && in_bounds_y, (xi, yi, zi)).

(* ------------------------------------------------------------------ *)
(** * Matrices *)
(** naive_matrix_inverse<3>, device_functions.hpp L375-389, row major. *)
Definition naive_matrix_inverse_3 (M : list Q) : option (list Q) :=
  match M with
  | [m0; m1; m2; m3; m4; m5; m6; m7; m8] =>
    inverse_factor <- rdiv 1 (m0 * m4 * m8 - m0 * m5 * m7 - m1 * m3 * m8 + m1 * m5 * m6 + m2 * m3 * m7 - m2 * m4 * m6) ;;
    Some [
      (m4 * m8 - m5 * m7) * inverse_factor;
      (-m1 * m8 + m2 * m7) * inverse_factor;
      (m1 * m5 - m2 * m4) * inverse_factor;
      (-m3 * m8 + m5 * m6) * inverse_factor;
      (m0 * m8 - m2 * m6) * inverse_factor;
      (-m0 * m5 + m2 * m3) * inverse_factor;
      (m3 * m7 - m4 * m6) * inverse_factor;
      (-m0 * m7 + m1 * m6) * inverse_factor;
      (m0 * m4 - m1 * m3) * inverse_factor]
  | _ => None
  end.
(** naive_matrix_inverse<4>, device_functions.hpp L391-454. *)
Definition naive_matrix_inverse_4 (M : list Q) : option (list Q) :=
  match M with
  | [m0; m1; m2; m3; m4; m5; m6; m7; m8; m9; m10; m11; m12; m13; m14; m15] =>
    inverse_factor <- rdiv 1 (-m0 * m10 * m13 * m7 + m0 * m10 * m15 * m5 + m0 * m11 * m13 * m6 - m0 * m11 * m14 * m5 + m0 * m14 * m7 * m9 - m0 * m15 * m6 * m9 + m10 * m12 * m1 * m7 - m10 * m12 * m3 * m5 + m10 * m13 * m3 * m4 - m10 * m15 * m1 * m4 - m11 * m12 * m1 * m6 + m11 * m12 * m2 * m5 - m11 * m13 * m2 * m4 + m11 * m14 * m1 * m4 - m12 * m2 * m7 * m9 + m12 * m3 * m6 * m9 + m13 * m2 * m7 * m8 - m13 * m3 * m6 * m8 - m14 * m1 * m7 * m8 - m14 * m3 * m4 * m9 + m14 * m3 * m5 * m8 + m15 * m1 * m6 * m8 + m15 * m2 * m4 * m9 - m15 * m2 * m5 * m8) ;;
    Some [
      (-m10 * m13 * m7 + m10 * m15 * m5 + m11 * m13 * m6 - m11 * m14 * m5 + m14 * m7 * m9 - m15 * m6 * m9) * inverse_factor;
      (m10 * m13 * m3 - m10 * m15 * m1 - m11 * m13 * m2 + m11 * m14 * m1 - m14 * m3 * m9 + m15 * m2 * m9) * inverse_factor;
      (m13 * m2 * m7 - m13 * m3 * m6 - m14 * m1 * m7 + m14 * m3 * m5 + m15 * m1 * m6 - m15 * m2 * m5) * inverse_factor;
      (m10 * m1 * m7 - m10 * m3 * m5 - m11 * m1 * m6 + m11 * m2 * m5 - m2 * m7 * m9 + m3 * m6 * m9) * inverse_factor;
      (m10 * m12 * m7 - m10 * m15 * m4 - m11 * m12 * m6 + m11 * m14 * m4 - m14 * m7 * m8 + m15 * m6 * m8) * inverse_factor;
      (m0 * m10 * m15 - m0 * m11 * m14 - m10 * m12 * m3 + m11 * m12 * m2 + m14 * m3 * m8 - m15 * m2 * m8) * inverse_factor;
      (m0 * m14 * m7 - m0 * m15 * m6 - m12 * m2 * m7 + m12 * m3 * m6 - m14 * m3 * m4 + m15 * m2 * m4) * inverse_factor;
      (-m0 * m10 * m7 + m0 * m11 * m6 + m10 * m3 * m4 - m11 * m2 * m4 + m2 * m7 * m8 - m3 * m6 * m8) * inverse_factor;
      (m11 * m12 * m5 - m11 * m13 * m4 - m12 * m7 * m9 + m13 * m7 * m8 + m15 * m4 * m9 - m15 * m5 * m8) * inverse_factor;
      (m0 * m11 * m13 - m0 * m15 * m9 - m11 * m12 * m1 + m12 * m3 * m9 - m13 * m3 * m8 + m15 * m1 * m8) * inverse_factor;
      (-m0 * m13 * m7 + m0 * m15 * m5 + m12 * m1 * m7 - m12 * m3 * m5 + m13 * m3 * m4 - m15 * m1 * m4) * inverse_factor;
      (-m0 * m11 * m5 + m0 * m7 * m9 + m11 * m1 * m4 - m1 * m7 * m8 - m3 * m4 * m9 + m3 * m5 * m8) * inverse_factor;
      (-m10 * m12 * m5 + m10 * m13 * m4 + m12 * m6 * m9 - m13 * m6 * m8 - m14 * m4 * m9 + m14 * m5 * m8) * inverse_factor;
      (-m0 * m10 * m13 + m0 * m14 * m9 + m10 * m12 * m1 - m12 * m2 * m9 + m13 * m2 * m8 - m14 * m1 * m8) * inverse_factor;
      (m0 * m13 * m6 - m0 * m14 * m5 - m12 * m1 * m6 + m12 * m2 * m5 - m13 * m2 * m4 + m14 * m1 * m4) * inverse_factor;
      (m0 * m10 * m5 - m0 * m6 * m9 - m10 * m1 * m4 + m1 * m6 * m8 + m2 * m4 * m9 - m2 * m5 * m8) * inverse_factor]
  | _ => None
  end.
Close Scope Q_scope.

(* ------------------------------------------------------------------ *)
(** * Compare-and-swap reductions *)
Section CAS.
Context {T : Type} (ltb : T -> T -> bool).

(** Equality of values as seen by compare_exchange.  The two zeros and the
    NaNs of floating point are not modelled. *)
Definition eqb (a b : T) : bool := negb (ltb a b) && negb (ltb b a).

Inductive op := Max | Min.

(** sycl::max(value, expected), sycl::min(value, expected), L477 and L503. *)
Definition combine (o : op) (value expected : T) : T :=
  match o with
  | Max => if ltb value expected then expected else value
  | Min => if ltb expected value then expected else value
  end.

(** (expected < value), (expected > value): the retry condition, L479 and L505. *)
Definition retry (o : op) (value expected : T) : bool :=
  match o with
  | Max => ltb expected value
  | Min => ltb value expected
  end.

(** A work item: in the loop with its current [expected], or returned. *)
Inductive item := Trying (expected : T) | Returned (r : T).

(** One iteration of the loops L476-481 and L502-507: the compare-exchange is
    the only access to shared memory.  Returns the new memory content and the
    new state of the work item. *)
Definition iteration (o : op) (value : T) (mem expected : T) : T * item :=
  let desired := combine o value expected in
  if eqb mem expected then (desired, Returned expected)
  else
    let expected := mem in
    if retry o value expected then (mem, Trying expected) else (mem, Returned expected).

(** Work items that call the function on one address ([ops]: operation and
    value), and other code that stores to the address.  An execution is a list
    of actions. *)
Inductive action := Step (i : nat) | Store (x : T).
(** What happened: item [i] returned [r]; a store. *)
Inductive event := Return (i : nat) (r : T) | Stored (x : T).

Record state := mk_state { mem : T; items : list item; log : list event }.

Definition act (ops : list (op * T)) (s : state) (a : action) : option state :=
  match a with
  | Store x => Some (mk_state x (items s) (log s ++ [Stored x]))
  | Step i =>
      ov <- rd ops i ;;
      it <- rd (items s) i ;;
      match it with
      | Returned _ => None
      | Trying e =>
          let '(m', it') := iteration (fst ov) (snd ov) (mem s) e in
          its' <- upd (items s) i it' ;;
          Some (mk_state m' its' (log s ++ match it' with Returned r => [Return i r] | Trying _ => [] end))
      end
  end.

(** The initial [expected] is numeric_limits<T>::min() for the maximum (L474)
    and numeric_limits<T>::max() for the minimum (L500). *)
Definition start (lim_min lim_max : T) (ops : list (op * T)) (m0 : T) : state :=
  mk_state m0 (map (fun ov => Trying (match fst ov with Max => lim_min | Min => lim_max end)) ops) [].

Definition execute (lim_min lim_max : T) (ops : list (op * T)) (m0 : T) (acts : list action) : option state :=
  foldM (act ops) (start lim_min lim_max ops m0) acts.
End CAS.
Arguments item T : clear implicits.
Arguments state T : clear implicits.
Arguments action T : clear implicits.
Arguments event T : clear implicits.

(* ------------------------------------------------------------------ *)
(** * bitonic8 *)
Section Bitonic.
Context {T : Type} (ltb : T -> T -> bool).

(** device_functions.hpp L660-663. *)
Definition indices : list (list nat) :=
  [[1; 0; 3; 2; 5; 4; 7; 6]; [3; 2; 1; 0; 7; 6; 5; 4];
   [1; 0; 3; 2; 5; 4; 7; 6]; [7; 6; 5; 4; 3; 2; 1; 0];
   [2; 3; 0; 1; 6; 7; 4; 5]; [1; 0; 3; 2; 5; 4; 7; 6]].

(** The work items of a group; item [j] works on the eight elements that start
    at [8 * (j / 8)] of the shared memory (the calls pass
    [&la[(local_id / 8) * 8]]); [regs] are the variables [v0] of the items.
    Between two barriers the items run in any order: [ord1], [ord2]. *)
Definition read_phase (stage : list nat) (smem : list T) (regs : list T) (j : nat) : option T :=
  let i0 := j mod 8 in
  let s := 8 * (j / 8) in
  i1 <- rd stage i0 ;;
  v0 <- rd regs j ;;
  v1 <- rd smem (s + i1) ;;
  let vmax := if ltb v1 v0 then v0 else v1 in
  let vmin := if ltb v1 v0 then v1 else v0 in
  Some (if i0 <? i1 then vmin else vmax).

(** One pass of the loop L668-679: all items read (L671-675), barrier, all
    items write (L678).  The reads do not change shared memory, so each item's
    new register is a function of the memory at the barrier; the writes are a
    fold over the items in the order [sched]. *)
Definition stage_pass (n : nat) (sched : list nat) (st : list T * list T) (stage : list nat)
    : option (list T * list T) :=
  regs' <- mapM (read_phase stage (fst st) (snd st)) (seq 0 n) ;;
  smem' <- foldM (fun m j => v <- rd regs' j ;; upd m (8 * (j / 8) + j mod 8) v) (fst st) sched ;;
  Some (smem', regs').

(** bitonic8, device_functions.hpp L657-680, for a group of [n] items; the
    schedule of the writes of each stage is given by [scheds]. *)
Definition bitonic8 (n : nat) (scheds : list (list nat)) (smem : list T) : option (list T) :=
  regs <- mapM (fun j => rd smem (8 * (j / 8) + j mod 8)) (seq 0 n) ;;
  r <- foldM (fun st ps => stage_pass n (snd ps) st (fst ps)) (smem, regs) (List.combine indices scheds) ;;
  Some (fst r).
End Bitonic.
