(** Specification of the particle containers: what a user of ParticleSet,
    ParticleSetDevice, ProductMatrix and get_particles may rely on. *)
From Coq Require Import List Arith ZArith Bool.
Import ListNotations.
From Verif Require Import Base Group_Model Group_Spec Add_Model PSet_Model.

(** ** Containers *)
(** (row, property, component) exists in a container of [n] particles. *)
Definition valid (sp : pspec) (n row prop comp : nat) : Prop :=
  exists sym nc, nth_error sp prop = Some (sym, nc) /\ comp < nc /\ row < n.

(** A ParticleSet table is consistent: every name has a number of components and
    one value per particle and component. *)
Definition hset_ok {V} (n : nat) (s : hset V) : Prop :=
  forall sym, match look (hs_vals s) sym, look (hs_ncomp s) sym with
              | Some v, Some nc => length v = n * nc
              | None, None => True
              | _, _ => False
              end.
(** The name has component [comp]. *)
Definition has {V} (s : hset V) (sym comp : nat) : Prop :=
  exists nc, look (hs_ncomp s) sym = Some nc /\ comp < nc.

(** What one table of a device container holds: the values by property,
    component and row, and the default values by name and component. *)
Record table (V : Type) := mk_table { value : nat -> nat -> nat -> V; default : nat -> nat -> V }.
Arguments mk_table {V}. Arguments value {V}. Arguments default {V}.

Section Table.
Context {V : Type} (plus : V -> V -> V) (sp : pspec) (n : nat).

Definition set_value (f : nat -> nat -> nat -> V) (prop comp row : nat) (v : V) : nat -> nat -> nat -> V :=
  fun p c r => if (p =? prop) && (c =? comp) && (r =? row) then v else f p c r.

Definition table_after (t : table V) (c : hcall V) : table V :=
  match c with
  | Default sym comp v =>
      mk_table (value t) (fun s c => if (s =? sym) && (c =? comp) then v else default t s c)
  | Write row prop comp v => mk_table (set_value (value t) prop comp row v) (default t)
  | Add row prop comp v => mk_table (set_value (value t) prop comp row (plus (value t prop comp row) v)) (default t)
  end.
Definition table_allowed (c : hcall V) : Prop :=
  match c with
  | Default _ _ _ => True
  | Write row prop comp _ | Add row prop comp _ => valid sp n row prop comp
  end.

(** All rows have the default values. *)
Definition table_reset (t : table V) : table V :=
  mk_table (fun p c _ => match nth_error sp p with Some (sym, _) => default t sym c | None => value t p c 0 end) (default t).
(** The properties the ParticleSet has are copied, the others keep their values. *)
Definition table_set (t : table V) (s : hset V) : table V :=
  mk_table (fun p c r => match nth_error sp p with
                         | Some (sym, _) => match hs_at n s sym r c with Some v => v | None => value t p c r end
                         | None => value t p c r
                         end) (default t).
Definition set_allowed (s : hset V) : Prop :=
  hset_ok n s /\ forall sym nc nc', In (sym, nc) sp -> look (hs_ncomp s) sym = Some nc' -> nc' = nc.
End Table.

(** The whole container. *)
Record contents (R : Type) := mk_contents { number : nat; real : table R; int : table Z }.
Arguments mk_contents {R}. Arguments number {R}. Arguments real {R}. Arguments int {R}.

Section Contents.
Context {R : Type} (zeroR : R) (plusR : R -> R -> R) (spR spZ : pspec).

Definition nothing : contents R :=
  mk_contents 0 (mk_table (fun _ _ _ => zeroR) (fun _ _ => zeroR)) (mk_table (fun _ _ _ => 0%Z) (fun _ _ => 0%Z)).

Definition after (t : contents R) (c : dcall R) : contents R :=
  match c with
  | OnReal c => mk_contents (number t) (table_after plusR (real t) c) (int t)
  | OnInt c => mk_contents (number t) (real t) (table_after Z.add (int t) c)
  | Reset n => mk_contents (Z.to_nat n) (table_reset spR (real t)) (table_reset spZ (int t))
  | SetFrom s => mk_contents (number t) (table_set spR (number t) (real t) (ps_real s))
                                        (table_set spZ (number t) (int t) (ps_int s))
  end.
Definition allowed (t : contents R) (c : dcall R) : Prop :=
  match c with
  | OnReal c => table_allowed spR (number t) c
  | OnInt c => table_allowed spZ (number t) c
  | Reset n => (0 <= n)%Z
  | SetFrom s => ps_n s = number t /\ set_allowed spR (number t) (ps_real s) /\ set_allowed spZ (number t) (ps_int s)
  end.
Fixpoint all_allowed (t : contents R) (cs : list (dcall R)) : Prop :=
  match cs with
  | [] => True
  | c :: cs' => allowed t c /\ all_allowed (after t c) cs'
  end.
Definition history (cs : list (dcall R)) : contents R := fold_left after cs nothing.
End Contents.

(** ** get_particles *)
(** The requests are existing particles. *)
Definition requests_ok (np : list nat) (cells layers : list Z) : Prop :=
  length layers = length cells /\
  forall i, i < length cells -> exists c l m, nth_error cells i = Some (Z.of_nat c) /\ nth_error layers i = Some (Z.of_nat l) /\
     nth_error np c = Some m /\ l < m.

(** The table has exactly the properties [sp]. *)
Definition has_properties {V} (sp : pspec) (s : hset V) : Prop :=
  (forall sym, hs_contains s sym = true <-> In sym (map fst sp)) /\
  (forall sym nc, In (sym, nc) sp -> look (hs_ncomp s) sym = Some nc).
(** The ParticleSet has the properties of the group and, for request [i] of
    (cell, layer), the values of the particle the group has there. *)
Definition returns {R} (g : group R) (spR spZ : pspec) (ps : particle_set R) (cells layers : list Z) : Prop :=
  ps_n ps = length cells /\ hset_ok (ps_n ps) (ps_real ps) /\ hset_ok (ps_n ps) (ps_int ps) /\
  has_properties spR (ps_real ps) /\ has_properties spZ (ps_int ps) /\
  forall i c l, nth_error cells i = Some (Z.of_nat c) -> nth_error layers i = Some (Z.of_nat l) ->
    exists vs zs, particle_at (st g) c l = Some (vs, zs) /\
      (forall p sym nc cx, nth_error spR p = Some (sym, nc) -> cx < nc ->
         hs_at (ps_n ps) (ps_real ps) sym i cx = nth_error vs (list_sum (map snd (firstn p spR)) + cx)) /\
      (forall p sym nc cx, nth_error spZ p = Some (sym, nc) -> cx < nc ->
         hs_at (ps_n ps) (ps_int ps) sym i cx = nth_error zs (list_sum (map snd (firstn p spZ)) + cx)).
