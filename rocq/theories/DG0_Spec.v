(** What projection onto and evaluation of piecewise constant functions is supposed to do. *)
From Coq Require Import List Arith ZArith QArith Bool.
Import ListNotations.
From Verif Require Import Base DG0_Model.
Local Open Scope nat_scope.

Definition qsum (l : list Q) : Q := fold_right Qplus 0%Q l.
(** The functions: how many components are defined, the value of a component in a cell, and the values at
    the points of the mapper for each number of components. *)
Record fns := mk_fns { known : nat; val : nat -> nat -> Q; at_points : nat -> option (list (list Q)) }.
Definition no_fns : fns := mk_fns 0 (fun _ _ => 0%Q) (fun _ => None).
Definition set_at (f : nat -> option (list (list Q))) (n : nat) (v : list (list Q)) : nat -> option (list (list Q)) := fun k => if k =? n then Some v else f k.

Section Spec.
  Variables (volumes : list Q) (points : option (list (nat * Z))).
  Let N := length volumes.
  (** The density of component [i] in [cell]: the sum of the particle values over the volume. *)
  Definition density (ps : list (nat * list Q)) (cell i : nat) : Q :=
    (qsum (map (fun p => nth i (snd p) 0%Q) (filter (fun p => fst p =? cell) ps)) / nth cell volumes 0)%Q.
  (** The value at the point with index 0 of a cell. *)
  Definition point_value (pts : list (nat * Z)) (values : list (list Q)) (cell i : nat) : Q :=
    match find (fun e => (fst (fst e) =? cell) && (snd (fst e) =? 0)%Z) (List.combine pts values) with
    | Some e => nth i (snd e) 0%Q
    | None => 0%Q
    end.
  Definition after_project (s : fns) (n : nat) (ps : list (nat * list Q)) : fns :=
    let v := fun cell i => if i <? n then density ps cell i else 0%Q in
    mk_fns (max (known s) n) v (match points with Some pts => set_at (at_points s) n (map (fun p => map (v (fst p)) (seq 0 n)) pts) | None => at_points s end).
  Definition after_evaluate (s : fns) (n : nat) : fns :=
    match points with
    | None => s
    | Some pts => mk_fns (max (known s) n) (fun cell i => if i <? n then match at_points s n with Some values => point_value pts values cell i | None => 0%Q end else val s cell i) (at_points s)
    end.
  Definition after (s : fns) (o : op) : fns :=
    match o with
    | Project _ _ n ps => after_project s n ps
    | Evaluate _ _ n _ => after_evaluate s n
    | GetDofs _ => s
    | SetDofs _ n dofs => mk_fns (max (known s) n) (fun cell i => if i <? n then nth (cell * n + i) dofs 0%Q else 0%Q) (at_points s)
    | SetPoints n values => mk_fns (known s) (val s) (set_at (at_points s) n values)
    end.
  Definition output (s : fns) (o : op) : list (list Q) :=
    match o with
    | Evaluate _ _ n cells => map (fun cell => map (val (after_evaluate s n) cell) (seq 0 n)) cells
    | GetDofs n => [flat_map (fun cell => map (val s cell) (seq 0 n)) (seq 0 N)]
    | _ => []
    end.
  (** The calls with a meaning: components that are defined, particles in cells of the mesh, values for all components. *)
  Definition allowed (s : fns) (o : op) : Prop :=
    match o with
    | Project d _ n ps => device_ok d /\ 1 <= n /\ Forall (fun p => fst p < N /\ length (snd p) = n) ps
    | Evaluate d _ n cells => device_ok d /\ 1 <= n /\ Forall (fun c => c < N) cells /\ match points with None => n <= known s | Some _ => at_points s n <> None end
    | GetDofs n => 1 <= n <= known s
    | SetDofs _ n dofs => 1 <= n /\ N * n <= length dofs
    | SetPoints n values => match points with Some pts => length values = length pts /\ Forall (fun row => length row = n) values | None => False end
    end.
  Fixpoint allowed_all (s : fns) (ops : list op) : Prop :=
    match ops with [] => True | o :: ops' => allowed s o /\ allowed_all (after s o) ops' end.
  Fixpoint outputs (s : fns) (ops : list op) : list (list (list Q)) :=
    match ops with [] => [] | o :: ops' => output s o :: outputs (after s o) ops' end.
  (** The mesh: positive volumes; the points, if there are any, are in cells and each cell has exactly one point with index 0. *)
  Definition setting_ok : Prop :=
    Forall (fun v => 0 < v)%Q volumes /\
    match points with
    | None => True
    | Some pts => Forall (fun p => fst p < N) pts /\ NoDup (map fst (filter (fun p => (snd p =? 0)%Z) pts)) /\ forall c, c < N -> In c (map fst (filter (fun p => (snd p =? 0)%Z) pts))
    end.
  (** Equal as numbers. *)
  Definition same (a b : list (list Q)) : Prop := Forall2 (Forall2 Qeq) a b.
End Spec.
