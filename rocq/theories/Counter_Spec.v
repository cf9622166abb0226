(** What the counts of a ParticleGroup are supposed to be after a history: how
    many particles each operation adds to and takes from each cell. *)
From Coq Require Import List Arith ZArith Bool.
Import ListNotations.
From Verif Require Import Counter_Model.

(** Number of entries of [cells] that name cell [c]. *)
Definition number_in (c : nat) (cells : list Z) : nat :=
  length (filter (fun z => (z =? Z.of_nat c)%Z) cells).

(** The layers 0, ..., n-1 of cell [c] that the lists name / do not name. *)
Definition named (cells layers : list Z) (c l : nat) : bool :=
  existsb (fun e => (fst e =? Z.of_nat c)%Z && (snd e =? Z.of_nat l)%Z) (combine cells layers).
Definition number_kept (cells layers : list Z) (c n : nat) : nat :=
  length (filter (fun l => negb (named cells layers c l)) (seq 0 n)).

(** The counts after an operation, cell by cell. *)
Definition by_cell (f : nat -> nat -> nat) (np : list nat) : list nat :=
  map (fun e => f (fst e) (snd e)) (combine (seq 0 (length np)) np).
Definition count_step (np : list nat) (o : op) : list nat :=
  match o with
  | OAddDat _ | ORemoveDat _ => np
  | OClear => by_cell (fun _ _ => 0) np
  | OAddSet l | OAddProducts l | OAddSubGroup l => by_cell (fun c n => n + number_in c l) np
  | OAddGroup other _ => by_cell (fun c n => n + nth c other 0) np
  | ORemove cs ls => by_cell (number_kept cs ls) np
  | OCellMove ms =>
      by_cell (fun c n => n + length (filter (fun m => (snd m =? Z.of_nat c)%Z) ms)
                            - length (filter (fun m => fst (fst m) =? c) ms)) np
  | ORankMove cs ls recv =>
      by_cell (fun c n => number_kept cs ls c n + if c =? 0 then recv else 0) np
  | OHybridMove cs ls recv cs2 ls2 recv2 =>
      by_cell (fun c n => number_kept cs2 ls2 c n + if c =? 0 then recv2 else 0)
        (by_cell (fun c n => number_kept cs ls c n + if c =? 0 then recv else 0) np)
  end.

(** The properties after an operation. *)
Definition names_step (names : list nat) (o : op) : list nat :=
  match o with
  | OAddDat s => s :: names
  | ORemoveDat s => filter (fun x => negb (x =? s)) names
  | _ => names
  end.

(** A list of particles to remove: equally long, and an entry with an existing
    cell and a non-negative layer names an existing particle. *)
Definition removable (np : list nat) (cells layers : list Z) : Prop :=
  length cells = length layers /\
  forall c l, In (Z.of_nat c, Z.of_nat l) (combine cells layers) -> c < length np -> l < nth c np 0.

(** The operation may be called: a set names cells of this rank, the source group
    has as many cells and as many particles as it says, the removed particles
    exist, the particles that change cell exist, are listed once and go to another
    cell of this rank, a property to be removed exists and is not one of the three
    that the group needs; with particles received from other ranks there is a cell
    0. *)
Definition callable (reserved : list nat) (np names : list nat) (o : op) : Prop :=
  match o with
  | OAddDat _ | OClear | OAddProducts _ | OAddSubGroup _ => True
  | ORemoveDat s => In s names /\ ~ In s reserved
  | OAddSet l => forall z, In z l -> (0 <= z < Z.of_nat (length np))%Z
  | OAddGroup other n => length other = length np /\ n = list_sum other
  | ORemove cs ls => removable np cs ls
  | OCellMove ms =>
      NoDup (map fst ms) /\
      forall c l z, In (c, l, z) ms -> c < length np /\ l < nth c np 0 /\
        (0 <= z < Z.of_nat (length np))%Z /\ z <> Z.of_nat c
  | ORankMove cs ls recv => 0 < length np /\ removable np cs ls
  | OHybridMove cs ls recv cs2 ls2 recv2 =>
      0 < length np /\ removable np cs ls /\
      removable (by_cell (fun c n => number_kept cs ls c n + if c =? 0 then recv else 0) np) cs2 ls2
  end.

(** Every operation of the history may be called when its turn comes. *)
Fixpoint callable_all (reserved np names : list nat) (ops : list op) : Prop :=
  match ops with
  | [] => True
  | o :: rest => callable reserved np names o /\
                 callable_all reserved (count_step np o) (names_step names o) rest
  end.

(** All the tables say the same, and it is [np]: the group's counts, the counts
    of every property, host and device, the exclusive sums, host and device, and
    the total. *)
Definition tables_agree (np names : list nat) (t : tables) : Prop :=
  get_npart_local t = list_sum np /\
  (forall c, get_npart_cell t c = nth_error np c) /\
  (forall c, nth_error (d_npart t) c = nth_error np c) /\
  (forall c, c < length np -> nth_error (h_es t) c = Some (list_sum (firstn c np)) /\
                              nth_error (d_es t) c = Some (list_sum (firstn c np))) /\
  (forall s, has_dat t s <-> In s names) /\
  (forall s c, In s names -> dat_npart_host t s c = nth_error np c /\
                             dat_npart_device t s c = nth_error np c).
