(** Specification of the device functions: segments, determinants, orders, the
    sequential meaning of fetch_max and fetch_min. *)
From Coq Require Import List Arith ZArith QArith Bool Permutation.
Import ListNotations.
From Verif Require Import Base DeviceFn_Model.

(** ** Geometry *)
Open Scope Q_scope.
(** The point (px, py) lies on the closed segment from (ax, ay) to (bx, by). *)
Definition on_segment (px py ax ay bx by_ : Q) : Prop :=
  exists t, 0 <= t <= 1 /\ px == ax + t * (bx - ax) /\ py == ay + t * (by_ - ay).
Definition parallel (xa ya xb yb x0 y0 x1 y1 : Q) : Prop := (xb - xa) * (y1 - y0) == (yb - ya) * (x1 - x0).
(** The same for a segment in space and for an axis aligned rectangle. *)
Definition on_segment3 (px py pz ax ay az bx by_ bz : Q) : Prop :=
  exists t, 0 <= t <= 1 /\ px == ax + t * (bx - ax) /\ py == ay + t * (by_ - ay) /\ pz == az + t * (bz - az).
Definition between (u0 u1 x : Q) : Prop := u0 <= x <= u1 \/ u1 <= x <= u0.

(** ** Matrices: row-major lists *)
Definition entry (n : nat) (M : list Q) (i j : nat) : Q := nth (n * i + j) M 0.
Definition qsum (l : list Q) : Q := fold_right Qplus 0 l.
(** Laplace expansion along the first row. *)
Fixpoint det (n : nat) (M : nat -> nat -> Q) : Q :=
  match n with
  | O => 1
  | S n' => qsum (map (fun j => (if Nat.even j then 1 else -1) * M O j *
                         det n' (fun i k => M (S i) (if (k <? j)%nat then k else S k))) (seq 0 n))
  end.
Definition product (n : nat) (A B : list Q) (i j : nat) : Q :=
  qsum (map (fun k => entry n A i k * entry n B k j) (seq 0 n)).
Close Scope Q_scope.

(** ** Orders *)
Definition total_order {T} (ltb : T -> T -> bool) : Prop :=
  (forall a, ltb a a = false) /\
  (forall a b c, ltb a b = true -> ltb b c = true -> ltb a c = true) /\
  (forall a b, ltb a b = false -> ltb b a = false -> a = b).

(** ** fetch_max and fetch_min as atomic operations *)
Definition maximum {T} (ltb : T -> T -> bool) (a b : T) : T := if ltb a b then b else a.
Definition minimum {T} (ltb : T -> T -> bool) (a b : T) : T := if ltb b a then b else a.
(** Running the logged operations one after the other: each returns the
    content of the memory and leaves the maximum (minimum) of the content and
    its value.  [None] if a returned value is not the content. *)
Fixpoint sequentially {T} (ltb : T -> T -> bool) (ops : list (op * T)) (m : T) (l : list (event T)) (final : T) : Prop :=
  match l with
  | [] => final = m
  | Stored x :: l' => sequentially ltb ops x l' final
  | Return i r :: l' =>
      r = m /\ exists o v, nth_error ops i = Some (o, v) /\
      sequentially ltb ops (match o with Max => maximum ltb m v | Min => minimum ltb m v end) l' final
  end.
Definition returns_of {T} (l : list (event T)) : list nat :=
  flat_map (fun e => match e with Return i _ => [i] | Stored _ => [] end) l.

(** Every call has returned. *)
Definition finished {T} (its : list (item T)) : Prop :=
  forall i it, nth_error its i = Some it -> exists r, it = Returned r.
(** Nobody else stores to the address. *)
Definition no_stores {T} (acts : list (action T)) : Prop := forall x, ~ In (Store x) acts.

(** ** Sorting *)
Definition ascending {T} (ltb : T -> T -> bool) (l : list T) : Prop :=
  forall i j x y, i < j -> nth_error l i = Some x -> nth_error l j = Some y -> ltb y x = false.
(** The [k]-th group of eight. *)
Definition eight {T} (m : list T) (k : nat) : list T := firstn 8 (skipn (8 * k) m).
