(** What it means for a selection to be up to date, without version counters. *)
From Coq Require Import List Arith Bool.
Import ListNotations.
From Verif Require Import Base Version_Model.

Section Spec.
  Context {V G Sel : Type}.
  Notation state := (state V G Sel).
  Notation node := (node V G Sel).

  (** [x] is a selection for sub-group [i] computed from the present contents of the
      group.  A static sub-group keeps the selection it has.  Any other is what its
      selector computes, for some order of execution, from the present structure,
      the present values of its properties and present selections of its parents. *)
  Inductive current (st : state) : nat -> Sel -> Prop :=
  | current_static i n x :
      nth_error (nodes st) i = Some n -> static n = true -> visible st i = Some x -> current st i x
  | current_computed i n t vals passes x :
      nth_error (nodes st) i = Some n -> static n = false ->
      values st n = Some vals -> length passes = nloops n ->
      (forall xs, In xs passes -> Forall2 (current st) (parents n) xs) ->
      run n t (structure st) vals passes = Some x -> current st i x.

  Definition has_children (st : state) (i : nat) : Prop :=
    exists j m, nth_error (nodes st) j = Some m /\ In i (parents m).

  (** The histories for which selections are kept up to date:
      - a property is written through a raw pointer only while it is marked as
        always written, i.e. no tracked write came after the pointer was taken;
      - CellDat::set_value is not used;
      - no property is added again after it was removed;
      - a static sub-group with children is not released (static_status(false)) or
        explicitly re-created;
      - sub-groups of a partition are not made static;
      - a partitioner is not itself a partition, and every selector looks at its
        parents at least once (true of all selectors). *)
  Definition allowed (st : state) (o : op V G Sel) : Prop :=
    match o with
    | RawWrite p _ => exists d, dat_at st p = Some d /\ always d = true
    | SetValue _ _ => False
    | AddProperty p _ => p = length (dats st)
    | SetStatic i b => (forall n, nth_error (nodes st) i = Some n -> b = true -> view n = None) /\
        (b = false -> has_children st i -> forall n, nth_error (nodes st) i = Some n -> static n = false)
    | Create i => has_children st i -> forall n, nth_error (nodes st) i = Some n -> static n = false
    | NewSubGroup _ _ loops _ => 1 <= loops
    | NewPartition _ q _ => forall n, nth_error (nodes st) q = Some n -> view n = None
    | _ => True
    end.

  Fixpoint allowed_history (st : state) (os : list (op V G Sel)) : Prop :=
    match os with
    | [] => True
    | o :: os => allowed st o /\ forall r, step st o = Some r -> allowed_history (fst r) os
    end.

  (** [o] releases or re-creates sub-group [i]. *)
  Definition releases (i : nat) (o : op V G Sel) : Prop :=
    match o with SetStatic j false => j = i | Create j => j = i | _ => False end.
  Definition is_structural (o : op V G Sel) : bool :=
    match o with Structural _ _ _ _ => true | _ => false end.

  (** Nothing in [st] can make a use fail: no sub-group is static, the properties
      the sub-groups depend on exist and the selectors work. *)
  Definition usable (st : state) : Prop :=
    forall i n, nth_error (nodes st) i = Some n -> static n = false /\
      (forall p, In p (map fst (deps n)) -> exists d, dat_at st p = Some d) /\
      (forall t vals passes, length vals = length (deps n) -> length passes = nloops n ->
         (forall xs, In xs passes -> length xs = length (parents n)) ->
         exists x, run n t (structure st) vals passes = Some x).
End Spec.
