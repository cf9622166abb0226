(** C12: the counters of a group agree with its contents after every history.

    Counter_Spec says how many particles each operation adds to and takes from each
    cell ([count_step], folded over the history) and which properties there are
    ([names_step]).  [tables_agree np names t]: get_npart_local() is the sum of
    [np], get_npart_cell(c) is entry c of [np], the tables of exclusive sums hold
    the sums of the entries before c, and the properties are exactly [names] and
    each reports [np], on the host and on the device. *)
From Coq Require Import List Arith ZArith Bool Lia.
Import ListNotations.
From Verif Require Import Base Counter_Model Counter_Spec CounterHistory_Proofs.
From Verif Require Counter_Proofs Compress_Props.

Theorem C12_counters_agree : forall d hint s_rank s_pos s_cell nc syms ops,
  device_ok d -> In s_pos syms -> In s_cell syms ->
  callable_all [s_rank; s_pos; s_cell] (repeat 0 nc) (rev syms ++ [s_rank]) ops ->
  exists t, run d hint s_rank s_pos s_cell nc syms ops = Some t /\
    tables_agree (fold_left count_step ops (repeat 0 nc)) (fold_left names_step ops (rev syms ++ [s_rank])) t.
Proof.
  intros d hint s_rank s_pos s_cell nc syms ops Ok Hp Hc C.
  destruct (run_ok d hint s_rank s_pos s_cell Ok nc syms ops Hp Hc C) as [t [E I]].
  exists t. split; auto. eapply inv_agree; eauto.
Qed.
Print Assumptions C12_counters_agree.

(** Without an allocation hint (NESO_PARTICLES_NPART_CELL_HINT unset) every
    property has exactly one row per particle in every cell. *)
Theorem C12_rows_agree : forall d s_rank s_pos s_cell nc syms ops t,
  device_ok d -> In s_pos syms -> In s_cell syms ->
  callable_all [s_rank; s_pos; s_cell] (repeat 0 nc) (rev syms ++ [s_rank]) ops ->
  run d 0 s_rank s_pos s_cell nc syms ops = Some t ->
  forall s c, In s (fold_left names_step ops (rev syms ++ [s_rank])) ->
    dat_nrow t s c = nth_error (fold_left count_step ops (repeat 0 nc)) c.
Proof.
  intros d s_rank s_pos s_cell nc syms ops t Ok Hp Hc C R s c Is.
  destruct (run_ok d 0 s_rank s_pos s_cell Ok nc syms ops Hp Hc C) as [t' [E I]].
  assert (t' = t) by congruence. subst t'. destruct I as [D _ _ _ _ _]. destruct D as [Sh _ _ [R0 _] N].
  destruct (Counter_Proofs.dat_of_names s_rank s_pos s_cell t s _ Sh N Is) as [a [Ea [Ia _]]].
  unfold dat_nrow. rewrite Ea. cbn [obind]. unfold rd2, rd. rewrite (R0 eq_refl a Ia). reflexivity.
Qed.
Print Assumptions C12_rows_agree.

(** An instance: three cells; properties 1 (positions), 2 (cell ids) and 7 besides
    the rank property 0.  Particles are added, a property is added, particles are
    removed (one of them twice), change cell, leave and arrive, and a property is
    removed. *)
Definition C12_ops : list op :=
  [OAddSet [0; 2; 2; 1; 2]%Z; OAddDat 9; ORemove [2; 2; 0; -1]%Z [0; 0; 0; 3]%Z;
   OAddProducts [1; 1]%Z; OCellMove [(2, 1, 0%Z); (1, 0, 2%Z)]; ORemoveDat 7;
   OAddGroup [1; 0; 2] 3; OAddSubGroup [0]%Z; ORankMove [1; 2]%Z [1; 0]%Z 4;
   OHybridMove [0]%Z [6]%Z 1 [0; 0]%Z [0; 1]%Z 2].

Example C12_instance_callable : callable_all [0; 1; 2] (repeat 0 3) (rev [1; 2; 7] ++ [0]) C12_ops.
Proof.
  assert (K : forall np cs ls, length cs = length ls ->
    forallb (fun e => (length np <=? Z.to_nat (fst e)) || (Z.to_nat (snd e) <? nth (Z.to_nat (fst e)) np 0) ||
                      (fst e <? 0)%Z) (combine cs ls) = true -> removable np cs ls).
  { intros np cs ls L F. split; auto. intros c l I Hc. rewrite forallb_forall in F. specialize (F _ I). cbn [fst snd] in F.
    rewrite !Nat2Z.id in F. apply orb_prop in F. destruct F as [F|F].
    - apply orb_prop in F. destruct F as [F|F]; [apply Nat.leb_le in F; lia|apply Nat.ltb_lt in F; auto].
    - apply Z.ltb_lt in F. lia. }
  unfold C12_ops. repeat (apply conj; [|]); try exact Logic.I;
    try (apply K; vm_compute; reflexivity); try (vm_compute; lia); try (vm_compute; tauto).
  - intros z I. vm_compute in I. cbn. lia.
  - vm_compute. repeat constructor; cbn; intuition discriminate.
  - intros c l z I. vm_compute in I. destruct I as [[= <- <- <-]|[[= <- <- <-]|[]]]; cbn; lia.
Qed.

Example C12_instance :
  option_map (fun t => (get_npart_local t, map (get_npart_cell t) [0; 1; 2; 3], (h_es t, d_es t), map fst (dats t),
                        map (fun s => map (dat_npart_device t s) [0; 1; 2]) [0; 1; 2; 9],
                        map (dat_nrow t 9) [0; 1; 2]))
    (run Compress_Props.C01_device 0 0 1 2 3 [1; 2; 7] C12_ops) =
  Some (11, [Some 7; Some 1; Some 3; None], ([0; 7; 8], [0; 7; 8]), [9; 2; 1; 0],
        repeat [Some 7; Some 1; Some 3] 4, [Some 7; Some 1; Some 3]).
Proof. vm_compute. reflexivity. Qed.

(** Findings.

    With the allocation hint NESO_PARTICLES_NPART_CELL_HINT set, the number of rows
    of a property, i.e. the size of the matrix that get_cell returns, need not be
    the number of particles.  A property added to a group with more particles in a
    cell than the hint has too few rows there (3 particles, 2 rows): get_cell does
    not return the values of all particles, and the next reallocation, which copies
    as many rows as there are, loses the others. *)
Theorem C12_rows_hint_too_few_refuted : exists hint ops t,
  callable_all [0; 1; 2] (repeat 0 1) (rev [1; 2] ++ [0]) ops /\
  run Compress_Props.C01_device hint 0 1 2 1 [1; 2] ops = Some t /\
  exists s n r, dat_npart_host t s 0 = Some n /\ dat_nrow t s 0 = Some r /\ r < n.
Proof.
  exists 2, [OAddSet [0; 0; 0]%Z; OAddDat 5]. eexists. split; [|split; [vm_compute; reflexivity|]].
  - split; [|split; exact Logic.I]. intros z I. vm_compute in I. cbn. lia.
  - exists 5, 3, 2. split; [reflexivity|]. split; [reflexivity|lia].
Qed.
Print Assumptions C12_rows_hint_too_few_refuted.

(** In a new, empty group get_cell returns as many (uninitialised) rows as the
    hint. *)
Theorem C12_rows_hint_empty_refuted : exists hint t,
  run Compress_Props.C01_device hint 0 1 2 1 [1; 2] [] = Some t /\ get_npart_cell t 0 = Some 0 /\ dat_nrow t 1 0 = Some 10.
Proof. exists 10. eexists. split; [vm_compute; reflexivity|]. split; reflexivity. Qed.
Print Assumptions C12_rows_hint_empty_refuted.

(** A rank without cells: hybrid_move reads (and writes) entry 0 of tables with no
    entries, also when there are no particles anywhere. *)
Theorem C12_move_without_cells_refuted : exists d t,
  device_ok d /\ run d 0 0 1 2 0 [1; 2] [] = Some t /\ get_npart_local t = 0 /\
  step d 0 0 1 2 t (OHybridMove [] [] 0 [] [] 0) = None.
Proof.
  exists Compress_Props.C01_device. eexists. split; [exact Compress_Props.C01_instance_device|].
  split; [vm_compute; reflexivity|]. split; reflexivity.
Qed.
Print Assumptions C12_move_without_cells_refuted.
