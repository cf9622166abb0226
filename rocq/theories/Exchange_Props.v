(** Property theorems: C08 - C11 (packing, global and local moves). *)
From Coq Require Import List Arith Lia ZArith Bool Permutation.
Import ListNotations.
From Verif Require Import Base Group_Model Group_Spec Group_Proofs Compress_Props Add_Model Add_Spec Add_Props Pack_Model Pack_Spec
  Depart_Proofs Pack_Proofs Unpack_Proofs Exchange_Model Exchange_Spec Exchange_Proofs World_Proofs.

(** ** C10: for all rank values (also negative and too large ones) and all
    schedules of the three atomic counters, the departure pass lists every
    particle that names another rank exactly once, numbers the particles for
    each rank 0, 1, ... and (GlobalMove: [rc = 0]) registers each destination
    once.  See [is_departing] in Pack_Spec.v. *)
Theorem C10_departing_particles_are_identified_once :
  forall d, device_ok d -> forall rc size rank np ranks, 0 < size ->
  (forall c n l, nth_error np c = Some n -> l < n -> exists z, rd2 ranks c l = Some z) ->
  exists dp, identify d rc size rank np ranks = Some dp /\ is_departing rc size rank np ranks dp.
Proof. intros d Hd rc size rank np ranks Hs Hr. apply identify_correct; auto. Qed.
Print Assumptions C10_departing_particles_are_identified_once.

(** The packing layers of the particles for one rank are 0 .. n-1, each once. *)
Theorem C10_packing_layers_are_dense :
  forall rc size rank np ranks dp, is_departing rc size rank np ranks dp ->
  forall o, In o (other_ranks size rank) ->
  forall i i' c l c' l' k k', i < dp_num dp -> i' < dp_num dp ->
    nth_error (dp_cells dp) i = Some c -> nth_error (dp_layers_src dp) i = Some l -> nth_error (dp_layers_dst dp) i = Some k ->
    nth_error (dp_cells dp) i' = Some c' -> nth_error (dp_layers_src dp) i' = Some l' -> nth_error (dp_layers_dst dp) i' = Some k' ->
    names ranks o (c, l) = true -> names ranks o (c', l') = true ->
    k < length (going np ranks o) /\ (k = k' -> (c, l) = (c', l')).
Proof.
  intros rc size rank np ranks dp [_ [_ [_ [_ [_ [H _]]]]]] o Ho i i' c l c' l' k k' Hi Hi' A B C A' B' C' N N'.
  destruct (H o Ho) as [_ [order [P Q]]].
  pose proof (Q i c l k Hi A B C N) as X. pose proof (Q i' c' l' k' Hi' A' B' C' N') as X'. split.
  - rewrite <- (Permutation_length P). eapply nth_error_some_lt; eauto.
  - intros ->. congruence.
Qed.
Print Assumptions C10_packing_layers_are_dense.

(** Seven particles in three cells on rank 1 of 4; ranks -1 and 9 do not exist. *)
Definition C10_ranks : list (list Z) := [[2; 1; 0]; []; [-1; 2; 9; 2]]%Z.
Example C10_instance :
  exists dp, identify C01_device 0 4 1 [3; 0; 4] C10_ranks = Some dp /\
    dp_num dp = 4 /\ dp_num_ranks dp = 2 /\ dp_counts dp = [1; 0; 3; 0] /\
    departures 4 1 [3; 0; 4] C10_ranks = [(0, 0); (0, 2); (2, 1); (2, 3)] /\
    combine (firstn 4 (dp_cells dp)) (firstn 4 (dp_layers_src dp)) = [(0, 0); (0, 2); (2, 1); (2, 3)] /\
    firstn 4 (dp_layers_dst dp) = [2; 0; 1; 0] /\ firstn 2 (dp_send_ranks dp) = [2; 0].
Proof. eexists. split; [vm_compute; reflexivity|]. vm_compute. auto 10. Qed.
Example C10_instance_hypotheses : device_ok C01_device /\ 0 < 4 /\
  forall c n l, nth_error [3; 0; 4] c = Some n -> l < n -> exists z, rd2 C10_ranks c l = Some z.
Proof.
  split; [apply C01_instance_device|]. split; [lia|].
  intros [|[|[|c]]] n l; cbn [nth_error]; try (destruct c; discriminate); intros [= <-] H; try lia;
    repeat (destruct l as [|l]; [vm_compute; eexists; reflexivity|]); lia.
Qed.

(** ** C08: a message sent by one rank and unpacked on another rank appends exactly
    the particles that named that rank, with every component of every property
    as it was; for all property specifications, all byte layouts of the values,
    device aware MPI or not, all schedules on both sides. *)
Theorem C08_pack_then_unpack_is_the_identity :
  forall R byte (E : encoding R byte), encoding_ok E -> forall spR spZ e e', device_ok (e_dev e) -> device_ok (e_dev e') ->
  forall (g h : group R) cid rid size rank,
  wf_group g -> spec_of spR (reals (st g)) -> spec_of spZ (ints (st g)) -> cid < length (ints (st g)) -> rid < length (ints (st g)) ->
  wf_group h -> spec_of spR (reals (st h)) -> spec_of spZ (ints (st h)) -> 0 < length (npart_cell h) ->
  rank < size -> size <= length (e_buf0 e) ->
  (forall p, In p (particles g) -> wanted rid size rank p = rank -> exists z, nth_error (snd p) cid = Some z /\ (0 <= z)%Z) ->
  exists g1 out, global_send E spR spZ e cid rid size rank g = Some (g1, out) /\
    forall o m, In (o, m) out -> exists ps h', global_recv E spR spZ e' [(rank, m)] h = Some h' /\
      fst m = length ps /\ Permutation ps (filter (fun p => wanted rid size rank p =? o) (particles g)) /\
      wf_group h' /\ length (npart_cell h') = length (npart_cell h) /\
      forall c, c < length (npart_cell h) -> exists old, cell_particles h c = Some old /\
        cell_particles h' c = Some (old ++ if c =? 0 then ps else []).
Proof.
  intros R byte E EOk spR spZ e e' Hd Hd' g h cid rid size rank WF SR SZ Hcid Hrid WFh SRh SZh Hch Hrank Hbuf Hids.
  destruct (nth_error_lt_some _ _ Hrid) as [ranks Er].
  destruct (global_send_correct E EOk spR spZ e Hd g WF SR SZ rid size rank ranks Er Hrank Hbuf cid Hcid Hids)
    as [g1 [out [Es [[qs [-> [ND [Hq _]]]] _]]]].
  exists g1. eexists. split; [exact Es|]. intros o m Hm. apply in_map_iff in Hm. destruct Hm as [[o' ps] [[= <- <-] Hi]].
  cbn [fst snd]. destruct (Hq _ _ Hi) as [_ [_ [P Hne]]].
  assert (Fu : forall p, In p ps -> full spR spZ p).
  { intros p Hp. eapply Permutation_in in Hp; [|exact P]. apply filter_In in Hp. destruct Hp as [Hp _].
    rewrite (particles_pv g WF) in Hp. apply in_map_iff in Hp. destruct Hp as [w [<- Hw]]. apply (pv_full spR spZ g WF SR SZ); auto. }
  destruct (global_recv_correct E EOk spR spZ e' Hd' h WFh SRh SZh Hch [(rank, ps)]) as [h' [A1 [A2 [A3 [_ [_ A4]]]]]].
  { intros s q p [[= <- <-]|[]]. auto. } { intros s q [[= <- <-]|[]]. auto. }
  exists ps, h'. split; [exact A1|]. cbn [flat_map snd] in A4. rewrite app_nil_r in A4. auto.
Qed.
Print Assumptions C08_pack_then_unpack_is_the_identity.

(** Messages from several ranks do not overwrite each other: the particles of all
    of them are appended, message after message. *)
Theorem C08_messages_do_not_overlap :
  forall R byte (E : encoding R byte), encoding_ok E -> forall spR spZ e, device_ok (e_dev e) ->
  forall h : group R, wf_group h -> spec_of spR (reals (st h)) -> spec_of spZ (ints (st h)) -> 0 < length (npart_cell h) ->
  forall qs : list (nat * list (particle R)),
  (forall s ps, In (s, ps) qs -> ps <> [] /\
     forall p, In p ps -> length (fst p) = list_sum (map snd spR) /\ length (snd p) = list_sum (map snd spZ)) ->
  exists h', global_recv E spR spZ e (map (fun q => (fst q, (length (snd q), wire E (snd q)))) qs) h = Some h' /\
    wf_group h' /\ length (npart_cell h') = length (npart_cell h) /\
    forall c, c < length (npart_cell h) -> exists old, cell_particles h c = Some old /\
      cell_particles h' c = Some (old ++ if c =? 0 then concat (map snd qs) else []).
Proof.
  intros R byte E EOk spR spZ e Hd h WF SR SZ Hc qs Hq.
  destruct (global_recv_correct E EOk spR spZ e Hd h WF SR SZ Hc qs) as [h' [A1 [A2 [A3 [_ [_ A4]]]]]].
  { intros s ps p Hi Hp. apply (Hq s ps Hi). auto. } { intros s ps Hi. apply (Hq s ps Hi). }
  exists h'. rewrite <- flat_map_concat_map. auto.
Qed.
Print Assumptions C08_messages_do_not_overlap.

(** The same for LocalMove, where a message may be empty. *)
Theorem C08_local_messages_do_not_overlap :
  forall R byte (E : encoding R byte), encoding_ok E -> forall spR spZ e, device_ok (e_dev e) ->
  forall h : group R, wf_group h -> spec_of spR (reals (st h)) -> spec_of spZ (ints (st h)) -> 0 < length (npart_cell h) ->
  forall qs : list (nat * list (particle R)),
  (forall s ps, In (s, ps) qs ->
     forall p, In p ps -> length (fst p) = list_sum (map snd spR) /\ length (snd p) = list_sum (map snd spZ)) ->
  exists h', local_recv E spR spZ e (map (fun q => (fst q, (length (snd q), wire E (snd q)))) qs) h = Some h' /\
    wf_group h' /\ length (npart_cell h') = length (npart_cell h) /\
    forall c, c < length (npart_cell h) -> exists old, cell_particles h c = Some old /\
      cell_particles h' c = Some (old ++ if c =? 0 then concat (map snd qs) else []).
Proof.
  intros R byte E EOk spR spZ e Hd h WF SR SZ Hc qs Hq.
  destruct (local_recv_correct E EOk spR spZ e Hd h WF SR SZ Hc qs) as [h' [A1 [A2 [A3 [_ [_ A4]]]]]].
  { intros s ps p Hi Hp. apply (Hq s ps Hi). auto. }
  exists h'. rewrite <- flat_map_concat_map. auto.
Qed.
Print Assumptions C08_local_messages_do_not_overlap.

(** A layout with 2 bytes per REAL and 3 bytes per INT. *)
Definition C08_enc : encoding nat Z :=
  mk_encoding nat Z 2 3 (fun x => [Z.of_nat x; 1]%Z)
    (fun bs => match bs with [a; 1%Z] => Some (Z.to_nat a) | _ => None end)
    (fun z => [2; z; 3]%Z) (fun bs => match bs with [2%Z; z; 3%Z] => Some z | _ => None end).
Example C08_enc_ok : encoding_ok C08_enc.
Proof.
  split; [reflexivity|]. split; [|split; [reflexivity|auto]]. intros x. cbn. rewrite Nat2Z.id. auto.
Qed.

(** Three ranks: REAL property with 2 components; INT properties cell id (1) and
    MPI rank (2 components, components 1 and 2 of the INT data). *)
Definition C09_spR : pspec := [(0, 2)].
Definition C09_spZ : pspec := [(0, 1); (1, 2)].
Definition C09_g0 : group nat := mk_group (mk_store
  [[[10; 11]; [12]]; [[20; 21]; [22]]]
  [[[0; 0]; [1]]; [[1; 0]; [2]]; [[0; -1]; [1]]]%Z) [2; 1].
Definition C09_g1 : group nat := mk_group (mk_store
  [[[30]; [31; 32]]; [[40]; [41; 42]]]
  [[[0]; [1; 1]]; [[2]; [2; 7]]; [[1]; [0; -1]]]%Z) [1; 2].
Definition C09_g2 : group nat := mk_group (mk_store
  [[[]; [50]]; [[]; [60]]]
  [[[]; [1]]; [[]; [2]]; [[]; [1]]]%Z) [0; 1].
Definition C09_ranks := [C09_g0; C09_g1; C09_g2].
Definition C09_env (aware : bool) (r : nat) : rank_env nat Z :=
  mk_env C01_device aware [[5; 5]; []; [6; 6; 6; 6; 6; 6; 6; 6; 6; 6; 6; 6; 6; 6; 6; 6]]%Z (fun _ _ => 8%Z) (fun _ => 9%Z) (fun _ => 4%Z) junkR junkZ.
Definition C09_arr (r : nat) {A} (l : list A) := rev l.

(** Rank 0 sends to ranks 1 and 2. *)
Example C08_instance :
  exists g1 out h', global_send C08_enc C09_spR C09_spZ (C09_env true 0) 0 1 3 0 C09_g0 = Some (g1, out) /\
    map fst out = [2; 1] /\
    (exists m, nth_error out 0 = Some (2, m) /\
      global_recv C08_enc C09_spR C09_spZ (C09_env false 2) [(0, m)] C09_g2 = Some h') /\
    cell_particles h' 0 = Some [([12; 22], [1; 2; 1]%Z)] /\
    cell_particles h' 1 = Some [([50; 60], [1; 2; 1]%Z)].
Proof.
  eexists. eexists. eexists. split; [vm_compute; reflexivity|]. split; [vm_compute; reflexivity|].
  split; [eexists; split; [vm_compute; reflexivity|vm_compute; reflexivity]|]. vm_compute. auto.
Qed.

(** ** C09: for all numbers of ranks, all distributions of particles and rank
    values, all schedules on each rank and all arrival orders of the messages,
    [global_move] succeeds and every cell of every rank holds what it should
    ([exchanged] in Exchange_Spec.v).  The hypotheses say: usable groups with
    the same properties on all ranks ([ranks_ok]), a packing buffer with a column
    per rank. *)
Theorem C09_global_move_delivers_to_the_named_rank :
  forall R byte (E : encoding R byte), encoding_ok E -> forall spR spZ cid rid (gs : list (group R)),
  ranks_ok spR spZ cid rid gs ->
  forall env, (forall r, r < length gs -> device_ok (e_dev (env r)) /\ length gs <= length (e_buf0 (env r))) ->
  forall arr, (forall r l, Permutation (arr r l) l) ->
  exists gs', global_move E spR spZ env cid rid arr gs = Some gs' /\ exchanged rid gs gs' /\
    forall r g', nth_error gs' r = Some g' -> wf_group g'.
Proof.
  intros R byte E EOk spR spZ cid rid gs Hok env Henv arr Harr.
  destruct (global_move_correct E EOk spR spZ env cid rid gs Hok Henv arr Harr) as [gs' [A [B C]]].
  exists gs'. split; [auto|]. split; [auto|]. intros r g' Hg'. destruct B as [L _].
  destruct (nth_error_lt_some gs r) as [g Hg]; [rewrite <- L; eapply nth_error_some_lt; eauto|]. apply (C r g g' Hg Hg').
Qed.
Print Assumptions C09_global_move_delivers_to_the_named_rank.

(** In particular the multiset of all particles over all ranks is unchanged, and
    afterwards no particle names a rank other than the one it is on. *)
Theorem C09_global_move_conserves_particles :
  forall R byte (E : encoding R byte), encoding_ok E -> forall spR spZ cid rid (gs : list (group R)),
  ranks_ok spR spZ cid rid gs ->
  forall env, (forall r, r < length gs -> device_ok (e_dev (env r)) /\ length gs <= length (e_buf0 (env r))) ->
  forall arr, (forall r l, Permutation (arr r l) l) ->
  exists gs', global_move E spR spZ env cid rid arr gs = Some gs' /\
    Permutation (flat_map particles gs') (flat_map particles gs) /\
    forall r g' p z, nth_error gs' r = Some g' -> In p (particles g') ->
      nth_error (snd p) rid = Some z -> (0 <= z < Z.of_nat (length gs))%Z -> z = Z.of_nat r.
Proof.
  intros R byte E EOk spR spZ cid rid gs Hok env Henv arr Harr.
  destruct (global_move_correct E EOk spR spZ env cid rid gs Hok Henv arr Harr) as [gs' [A [B C]]].
  assert (Hc : forall r g, nth_error gs r = Some g -> 0 < length (npart_cell g)) by (intros r g Hg; apply (Hok r g Hg)).
  exists gs'. split; [auto|]. split; [eapply exchanged_conserves; eauto|]. intros. eapply exchanged_placed; eauto.
Qed.
Print Assumptions C09_global_move_conserves_particles.

Example C09_instance :
  exists gs', global_move C08_enc C09_spR C09_spZ (C09_env false) 0 1 (fun r => C09_arr r) C09_ranks = Some gs' /\
    map (fun g => cell_particles g 0) gs' =
      [Some [([11; 21], [0; 0; -1]%Z)]; Some [([10; 20], [0; 1; 0]%Z)];
       Some [([31; 41], [1; 2; 0]%Z); ([30; 40], [0; 2; 1]%Z); ([12; 22], [1; 2; 1]%Z)]] /\
    map (fun g => cell_particles g 1) gs' =
      [Some []; Some [([32; 42], [1; 7; -1]%Z)]; Some [([50; 60], [1; 2; 1]%Z)]].
Proof. eexists. split; [vm_compute; reflexivity|]. vm_compute. auto. Qed.

Lemma C09_particles_ok (g : group nat) (q : particle nat -> bool) :
  forallb q (particles g) = true -> forall p, In p (particles g) -> q p = true.
Proof. intros H. apply forallb_forall. auto. Qed.
Lemma C09_id_ok (p : particle nat) : (match nth_error (snd p) 0 with Some z => (0 <=? z)%Z | None => false end) = true ->
  exists z, nth_error (snd p) 0 = Some z /\ (0 <= z)%Z.
Proof. destruct (nth_error (snd p) 0); [|discriminate]. intros H%Z.leb_le. eauto. Qed.
Example C09_instance_hypotheses :
  (forall rid, rid < 3 -> ranks_ok C09_spR C09_spZ 0 rid C09_ranks) /\
  (forall b r, device_ok (e_dev (C09_env b r)) /\ 3 <= length (e_buf0 (C09_env b r))) /\
  (forall r (l : list (nat * message (byte:=Z))), Permutation (C09_arr r l) l).
Proof.
  split; [|split].
  - intros rid Hrid r g Hg.
    assert (Hin : In g C09_ranks) by (eapply nth_error_In; eauto).
    assert (Hall : wf_groupb g = true /\ length (reals (st g)) = 2 /\ length (ints (st g)) = 3 /\ length (npart_cell g) = 2 /\
       forallb (fun p => match nth_error (snd p) 0 with Some z => (0 <=? z)%Z | None => false end) (particles g) = true).
    { destruct Hin as [<-|[<-|[<-|[]]]]; vm_compute; auto. }
    destruct Hall as [A [B [C [D F]]]]. split; [apply wf_groupb_sound; auto|]. rewrite B, C, D.
    split; [reflexivity|]. split; [reflexivity|]. split; [lia|]. split; [lia|]. split; [lia|].
    intros p Hp _. apply C09_id_ok. apply (C09_particles_ok g _ F p Hp).
  - intros b r. split; [apply C01_instance_device|cbn; lia].
  - intros r l. unfold C09_arr. symmetry. apply Permutation_rev.
Qed.

(** ** C11: the same for LocalMove, for every neighbour lists such that the rank
    every particle names is its rank or in the list of neighbours. *)
Theorem C11_local_move_delivers_to_the_named_neighbour :
  forall R byte (E : encoding R byte), encoding_ok E -> forall spR spZ cid rid (gs : list (group R)),
  ranks_ok spR spZ cid rid gs ->
  forall env, (forall r, r < length gs -> device_ok (e_dev (env r)) /\ length gs <= length (e_buf0 (env r))) ->
  forall arr, (forall r l, Permutation (arr r l) l) ->
  forall nbrs : nat -> list Z,
  (forall r z, r < length gs -> In z (nbrs r) -> (0 <= z < Z.of_nat (length gs))%Z) ->
  (forall r g p, nth_error gs r = Some g -> In p (particles g) -> wanted rid (length gs) r p <> r ->
     In (Z.of_nat (wanted rid (length gs) r p)) (nbrs r)) ->
  exists gs', local_move E spR spZ env cid rid nbrs arr gs = Some gs' /\ exchanged rid gs gs' /\
    forall r g', nth_error gs' r = Some g' -> wf_group g'.
Proof.
  intros R byte E EOk spR spZ cid rid gs Hok env Henv arr Harr nbrs Hn Hreach.
  destruct (local_move_correct E EOk spR spZ env cid rid gs Hok Henv arr Harr nbrs Hn Hreach) as [gs' [A [B C]]].
  exists gs'. split; [auto|]. split; [auto|]. intros r g' Hg'. destruct B as [L _].
  destruct (nth_error_lt_some gs r) as [g Hg]; [rewrite <- L; eapply nth_error_some_lt; eauto|]. apply (C r g g' Hg Hg').
Qed.
Print Assumptions C11_local_move_delivers_to_the_named_neighbour.

Theorem C11_local_move_conserves_particles :
  forall R byte (E : encoding R byte), encoding_ok E -> forall spR spZ cid rid (gs : list (group R)),
  ranks_ok spR spZ cid rid gs ->
  forall env, (forall r, r < length gs -> device_ok (e_dev (env r)) /\ length gs <= length (e_buf0 (env r))) ->
  forall arr, (forall r l, Permutation (arr r l) l) ->
  forall nbrs : nat -> list Z,
  (forall r z, r < length gs -> In z (nbrs r) -> (0 <= z < Z.of_nat (length gs))%Z) ->
  (forall r g p, nth_error gs r = Some g -> In p (particles g) -> wanted rid (length gs) r p <> r ->
     In (Z.of_nat (wanted rid (length gs) r p)) (nbrs r)) ->
  exists gs', local_move E spR spZ env cid rid nbrs arr gs = Some gs' /\
    Permutation (flat_map particles gs') (flat_map particles gs) /\
    forall r g' p z, nth_error gs' r = Some g' -> In p (particles g') ->
      nth_error (snd p) rid = Some z -> (0 <= z < Z.of_nat (length gs))%Z -> z = Z.of_nat r.
Proof.
  intros R byte E EOk spR spZ cid rid gs Hok env Henv arr Harr nbrs Hn Hreach.
  destruct (local_move_correct E EOk spR spZ env cid rid gs Hok Henv arr Harr nbrs Hn Hreach) as [gs' [A [B C]]].
  assert (Hc : forall r g, nth_error gs r = Some g -> 0 < length (npart_cell g)) by (intros r g Hg; apply (Hok r g Hg)).
  exists gs'. split; [auto|]. split; [eapply exchanged_conserves; eauto|]. intros. eapply exchanged_placed; eauto.
Qed.
Print Assumptions C11_local_move_conserves_particles.

(** A particle that names a rank outside the list of neighbours is reported, not
    dropped: the move does not complete. *)
Theorem C11_unreachable_rank_is_reported :
  forall R byte (E : encoding R byte), encoding_ok E -> forall spR spZ cid rid (gs : list (group R)),
  ranks_ok spR spZ cid rid gs ->
  forall env, (forall r, r < length gs -> device_ok (e_dev (env r)) /\ length gs <= length (e_buf0 (env r))) ->
  forall arr (nbrs : nat -> list Z) r g p,
  (forall z, In z (nbrs r) -> (0 <= z < Z.of_nat (length gs))%Z) ->
  nth_error gs r = Some g -> In p (particles g) -> wanted rid (length gs) r p <> r ->
  ~ In (Z.of_nat (wanted rid (length gs) r p)) (nbrs r) ->
  local_move E spR spZ env cid rid nbrs arr gs = None.
Proof. intros. eapply local_move_unreachable; eauto. Qed.
Print Assumptions C11_unreachable_rank_is_reported.

(** Neighbours in a ring (rank 0 lists itself and a neighbour twice). *)
Definition C11_nbrs (r : nat) : list Z := nth r [[0; 1; 1; 2]; [2; 0]; [1]]%Z [].
Example C11_instance :
  exists gs', local_move C08_enc C09_spR C09_spZ (C09_env true) 0 2 C11_nbrs (fun r => C09_arr r) C09_ranks = Some gs' /\
    map (fun g => cell_particles g 0) gs' =
      [Some [([10; 20], [0; 1; 0]%Z); ([11; 21], [0; 0; -1]%Z); ([31; 41], [1; 2; 0]%Z)];
       Some [([30; 40], [0; 2; 1]%Z); ([50; 60], [1; 2; 1]%Z); ([12; 22], [1; 2; 1]%Z)]; Some []] /\
    map (fun g => cell_particles g 1) gs' = [Some []; Some [([32; 42], [1; 7; -1]%Z)]; Some []].
Proof. eexists. split; [vm_compute; reflexivity|]. vm_compute. auto. Qed.
Example C11_instance_hypotheses :
  (forall r z, r < 3 -> In z (C11_nbrs r) -> (0 <= z < 3)%Z) /\
  (forall r g p, nth_error C09_ranks r = Some g -> In p (particles g) -> wanted 2 3 r p <> r ->
     In (Z.of_nat (wanted 2 3 r p)) (C11_nbrs r)).
Proof.
  split.
  - intros r z Hr Hz. assert (Q : forallb (fun z => (0 <=? z) && (z <? 3))%Z (C11_nbrs r) = true).
    { destruct r as [|[|[|r]]]; [reflexivity|reflexivity|reflexivity|lia]. }
    pose proof (proj1 (forallb_forall _ _) Q z Hz) as W. apply andb_true_iff in W.
    rewrite Z.leb_le, Z.ltb_lt in W. auto.
  - intros r g p Hg Hp Hw.
    assert (Q : forallb (fun p => (wanted 2 3 r p =? r) || existsb (Z.eqb (Z.of_nat (wanted 2 3 r p))) (C11_nbrs r)) (particles g) = true).
    { destruct r as [|[|[|r]]]; cbn [C09_ranks nth_error] in Hg; [| | |destruct r; discriminate]; injection Hg as <-; vm_compute; reflexivity. }
    pose proof (proj1 (forallb_forall _ _) Q p Hp) as W. apply orb_true_iff in W. destruct W as [W|W].
    + apply Nat.eqb_eq in W. congruence.
    + apply existsb_exists in W. destruct W as [z [A B]]. apply Z.eqb_eq in B. rewrite B. auto.
Qed.

(** A neighbour that is not a rank of the communicator is reported. *)
Theorem C11_invalid_neighbour_is_reported :
  forall size rank neighbours z, In z neighbours -> ~ (0 <= z < Z.of_nat size)%Z -> local_send_ranks size rank neighbours = None.
Proof. exact local_send_ranks_bad. Qed.
Print Assumptions C11_invalid_neighbour_is_reported.
Example C11_instance_invalid_neighbour : In 4%Z [1; 4; 0]%Z /\ ~ (0 <= 4 < Z.of_nat 4)%Z /\
  local_send_ranks 4 2 [1; 4; 0]%Z = None /\ local_send_ranks 4 2 [3; 1; 2; 1; 0]%Z = Some [0; 1; 3].
Proof. split; [right; left; auto|]. split; [intros [_ H]; discriminate H|]. split; reflexivity. Qed.
