(** Specification of LocalArray and GlobalArray: values that loops add to and read. *)
From Coq Require Import List Arith Bool Permutation.
Import ListNotations.
From Verif Require Import Base Bmi_Spec Arr_Model.

Section Spec.
  Context {V : Type} (add : V -> V -> V) (zero : V).

  (** The values of the global and of the local arrays of each rank. *)
  Definition values : Type := list (list (list V) * list (list V)).
  Definition view (w : list (@rank_arrays V)) : values := map (fun x => (map ga_buf (globals x), locals x)) w.

  Definition target_eqb (t t' : target) : bool :=
    match t, t' with TG i, TG j => i =? j | TL i, TL j => i =? j | _, _ => false end.
  (** What the operations [ops] add to component [c] of the array [t]. *)
  Definition contributions (args : list arg) (ops : list (@op V)) (t : target) (c : nat) : list V :=
    flat_map (fun o => match o with
      | OAdd j c' v => match nth_error args j with
          | Some (AAdd t') => if target_eqb t' t && (c' =? c) then [v] else []
          | _ => [] end
      | ORead _ _ => [] end) ops.

  (** The arrays [A'] are [A] with the sum of [f id c] added to component [c] of array [id]. *)
  Definition grown (f : nat -> nat -> list V) (A A' : list (list V)) : Prop :=
    length A' = length A /\ forall id a, nth_error A id = Some a ->
      exists a', nth_error A' id = Some a' /\ length a' = length a /\
        forall c v, nth_error a c = Some v -> nth_error a' c = Some (add v (sum add zero (f id c))).
  (** After a loop: global arrays have the contributions of all ranks added, local arrays
      those of their rank. *)
  Definition after_loop (args : list arg) (ops : nat -> list (@op V)) (s s' : values) : Prop :=
    length s' = length s /\ forall r G L, nth_error s r = Some (G, L) ->
      exists G' L', nth_error s' r = Some (G', L') /\
        grown (fun id c => flat_map (fun q => contributions args (ops q) (TG id) c) (seq 0 (length s))) G G' /\
        grown (fun id c => contributions args (ops r) (TL id) c) L L'.
  (** The results of the operations of a rank: a read gives the value before the loop.  The
      operations took effect in some order: an add to a local array returns the value
      before the loop plus what was added to it earlier in that order. *)
  Definition results (args : list arg) (ops : list (@op V)) (G L : list (list V)) (log : list (nat * option V)) : Prop :=
    exists order, Permutation order (combine (seq 0 (length ops)) ops) /\ length log = length order /\
      forall k i o, nth_error order k = Some (i, o) -> exists res, nth_error log k = Some (i, res) /\
        match o with
        | ORead j c => exists t a v, nth_error args j = Some (ARead t) /\
            (match t with TG id => nth_error G id | TL id => nth_error L id end) = Some a /\ nth_error a c = Some v /\ res = Some v
        | OAdd j c _ => match nth_error args j with
            | Some (AAdd (TL id)) => exists a v, nth_error L id = Some a /\ nth_error a c = Some v /\
                res = Some (add v (sum add zero (contributions args (map snd (firstn k order)) (TL id) c)))
            | _ => res = None
            end
        end.

  (** [A'] is [A] with array [id] replaced by one of the same size with the values [f]. *)
  Definition replaced (id : nat) (f : list V -> list V) (A A' : list (list V)) : Prop :=
    length A' = length A /\ forall i a, nth_error A i = Some a -> nth_error A' i = Some (if i =? id then f a else a).
  Definition on_one_rank (r : nat) (P : list (list V) * list (list V) -> list (list V) * list (list V) -> Prop) (s s' : values) : Prop :=
    length s' = length s /\ forall q x, nth_error s q = Some x -> exists x', nth_error s' q = Some x' /\ if q =? r then P x x' else x' = x.
  Definition effect_of (ev : @event V) (s s' : values) (logs : list (list (nat * option V))) : Prop :=
    match ev with
    | EFillGlobal r id v => on_one_rank r (fun x x' => replaced id (map (fun _ => v)) (fst x) (fst x') /\ snd x' = snd x) s s'
    | EFillLocal r id v => on_one_rank r (fun x x' => fst x' = fst x /\ replaced id (map (fun _ => v)) (snd x) (snd x')) s s'
    | ESetLocal r id data => on_one_rank r (fun x x' => fst x' = fst x /\ replaced id (fun _ => data) (snd x) (snd x')) s s'
    | ELoop args ops => after_loop args ops s s' /\ length logs = length s /\
        forall r G L log, nth_error s r = Some (G, L) -> nth_error logs r = Some log -> results args (ops r) G L log
    end.

  (** All ranks have the same number of global arrays, with the same sizes. *)
  Definition same_sizes (s : values) : Prop :=
    forall r r' G L G' L', nth_error s r = Some (G, L) -> nth_error s r' = Some (G', L') -> map (@length V) G' = map (@length V) G.
  (** What the caller has to observe.  Arrays and components exist; sizes match; a loop gets a
      global array at most once for adding, and does not both read and add to a
      local array. *)
  Definition op_allowed (args : list arg) (G L : list (list V)) (o : @op V) : Prop :=
    match o with
    | OAdd j c _ => exists t a, nth_error args j = Some (AAdd t) /\ (match t with TG id => nth_error G id | TL id => nth_error L id end) = Some a /\ c < length a
    | ORead j c => exists t a, nth_error args j = Some (ARead t) /\ (match t with TG id => nth_error G id | TL id => nth_error L id end) = Some a /\ c < length a
    end.
  Definition allowed (s : values) (ev : @event V) : Prop :=
    match ev with
    | EFillGlobal r id _ => exists G L a, nth_error s r = Some (G, L) /\ nth_error G id = Some a
    | EFillLocal r id _ => exists G L a, nth_error s r = Some (G, L) /\ nth_error L id = Some a
    | ESetLocal r id data => exists G L a, nth_error s r = Some (G, L) /\ nth_error L id = Some a /\ length data = length a
    | ELoop args ops =>
        (forall r G L, nth_error s r = Some (G, L) ->
           (forall id, In (AAdd (TG id)) args -> id < length G) /\ forall o, In o (ops r) -> op_allowed args G L o) /\
        (forall i j id, nth_error args i = Some (AAdd (TG id)) -> nth_error args j = Some (AAdd (TG id)) -> i = j) /\
        (forall id, In (AAdd (TL id)) args -> ~ In (ARead (TL id)) args)
    end.
  (** The values before and after a history, with the results of each event. *)
  Inductive history : values -> list event -> list (list (list (nat * option V))) -> values -> Prop :=
  | h_nil s : history s [] [] s
  | h_cons s ev logs s' es ls s'' : effect_of ev s s' logs -> history s' es ls s'' -> history s (ev :: es) (logs :: ls) s''.
End Spec.

(** Schedules and MPI's order of summation are permutations. *)
Definition env_ok {V} (e : @env V) : Prop := (forall r l, Permutation (e_order e r l) l) /\ (forall r l, Permutation (e_reduce e r l) l).
(** No loop is running. *)
Definition idle {V} (w : list (@rank_arrays V)) : Prop := forall x a, In x w -> In a (globals x) -> ga_stage a = None.
