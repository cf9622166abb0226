(** Property theorems: C30 (get_particles) and C31 (containers of particles). *)
From Coq Require Import List Arith Lia ZArith Bool Permutation.
Import ListNotations.
From Verif Require Import Base Kernel Group_Model Group_Spec Group_Proofs Compress_Props Move_Model Add_Model Add_Spec
  Add_Proofs Add_Props PSet_Model PSet_Spec PSet_Proofs.

(** ** C31 *)

(** C31: distinct (row, property, component) triples address distinct elements
    inside the allocation of n rows. *)
Theorem C31_addresses_are_distinct_and_in_bounds : forall sp n row prop comp row' prop' comp',
  valid sp n row prop comp -> valid sp n row' prop' comp' ->
  exists a a', address sp n row prop comp = Some a /\ address sp n row' prop' comp' = Some a' /\
    a < n * list_sum (map snd sp) /\ (a = a' -> row = row' /\ prop = prop' /\ comp = comp').
Proof.
  intros sp n row prop comp row' prop' comp' H H'. destruct (valid_address _ _ _ _ _ H) as [E B]. destruct (valid_address _ _ _ _ _ H') as [E' _].
  eexists _, _. split; [exact E|]. split; [exact E'|]. split; [exact B|]. apply address_inj; auto.
Qed.
Print Assumptions C31_addresses_are_distinct_and_in_bounds.

(** C31: any history of resets, default values, kernel writes, atomic adds and
    copies from a ParticleSet, for every order of the concurrent fills and any
    contents of new allocations: the container holds the last value written to
    each element, or the default value since the last reset.  Both kernel reads
    and [get] return it. *)
Theorem C31_device_container_history :
  forall d, device_ok d -> forall R junkR junkZ (zeroR : R) plusR spR spZ cs,
    all_allowed plusR spR spZ (nothing zeroR) cs ->
    exists s, ds_run d junkR junkZ zeroR plusR spR spZ cs = Some s /\
      let t := history zeroR plusR spR spZ cs in
      ds_num s = number t /\
      (forall r p c, valid spR (number t) r p c -> at_read spR (ds_real s) (ds_num s) r p c = Some (value (real t) p c r)) /\
      (forall r p c, valid spZ (number t) r p c -> at_read spZ (ds_int s) (ds_num s) r p c = Some (value (int t) p c r)) /\
      (NoDup (map fst spR) -> NoDup (map fst spZ) -> exists ps, ds_get zeroR spR spZ s = Some ps /\
        ps_n ps = number t /\ hset_ok (ps_n ps) (ps_real ps) /\ hset_ok (ps_n ps) (ps_int ps) /\
        has_properties spR (ps_real ps) /\ has_properties spZ (ps_int ps) /\
        (forall r p c sym nc, nth_error spR p = Some (sym, nc) -> c < nc -> r < number t ->
           hs_at (ps_n ps) (ps_real ps) sym r c = Some (value (real t) p c r)) /\
        (forall r p c sym nc, nth_error spZ p = Some (sym, nc) -> c < nc -> r < number t ->
           hs_at (ps_n ps) (ps_int ps) sym r c = Some (value (int t) p c r))).
Proof.
  intros d D R junkR junkZ zeroR plusR spR spZ cs A.
  destruct (ds_run_correct d junkR junkZ zeroR plusR spR spZ cs D A) as (s & E & N & HR & HZ).
  exists s. split; [exact E|]. cbn zeta. split; [exact N|]. rewrite N. split; [|split].
  - intros. eapply holds_read; eauto.
  - intros. eapply holds_read; eauto.
  - intros NR NZ. unfold ds_get. rewrite N.
    destruct (matrix_get_correct _ _ _ _ _ NR HR) as (r & E1 & O1 & C1 & D1 & V1). rewrite E1; cbn [obind].
    destruct (matrix_get_correct _ _ _ _ _ NZ HZ) as (z & E2 & O2 & C2 & D2 & V2). rewrite E2; cbn [obind].
    eexists; split; [reflexivity|]. cbn [ps_n ps_real ps_int]. unfold has_properties. auto 10.
Qed.
Print Assumptions C31_device_container_history.

(** A specification with properties 0 (two components), 3 and INT property 0; the
    second component of property 0 gets the default value 5. *)
Definition C31_spR : pspec := [(0, 2); (3, 1)].
Definition C31_spZ : pspec := [(0, 1)].
Definition C31_calls : list (dcall nat) :=
  [OnReal (Default 0 1 5); Reset 3; OnReal (Write 2 1 0 7); OnReal (Add 2 0 1 4); OnInt (Write 1 0 0 (-2)%Z);
   SetFrom (mk_ps 3 (mk_hset [(3, [70; 71; 72]); (9, [1; 2; 3])] [(3, 1); (9, 1)]) (mk_hset [] [])); OnReal (Write 0 1 0 8)].
Example C31_instance_hypotheses : all_allowed Nat.add C31_spR C31_spZ (nothing 0) C31_calls.
Proof.
  cbn. repeat split; try lia.
  - exists 3, 1. repeat split; auto; lia.
  - exists 0, 2. repeat split; auto; lia.
  - exists 0, 1. repeat split; auto; lia.
  - intros sym. cbn. unfold look; cbn. destruct (sym =? 3); [reflexivity|]. destruct (sym =? 9); reflexivity.
  - intros sym nc nc'. unfold look; cbn. intros [[= <- <-]|[[= <- <-]|[]]]; cbn; try discriminate. intros [= <-]; auto.
  - intros sym nc nc' _. cbn. discriminate.
  - exists 3, 1. repeat split; auto; lia.
Qed.
Example C31_instance :
  exists s, ds_run C01_device (fun _ _ => 999) (fun _ _ => 998%Z) 0 Nat.add C31_spR C31_spZ C31_calls = Some s /\
    firstn 9 (data (ds_real s)) = [0; 0; 0; 5; 5; 9; 8; 71; 72] /\ firstn 3 (data (ds_int s)) = [0; -2; 0]%Z.
Proof. eexists. split; [vm_compute; reflexivity|]. vm_compute. auto. Qed.

(** C31: errors are reported: a negative number of particles, a ParticleSet with
    another number of particles, or with another number of components of a
    property the container has. *)
Theorem C31_errors : forall d R junkR junkZ (zeroR : R) plusR spR spZ s,
  (forall n, (n < 0)%Z -> ds_step d junkR junkZ zeroR plusR spR spZ s (Reset n) = None) /\
  (forall ps, ps_n ps <> ds_num s -> ds_step d junkR junkZ zeroR plusR spR spZ s (SetFrom ps) = None).
Proof.
  intros d R junkR junkZ zeroR plusR spR spZ s. split.
  - intros n H. cbn [ds_step]. unfold ds_reset. destruct (Z.leb_spec 0 n); [lia|]. reflexivity.
  - intros ps H. cbn [ds_step]. unfold ds_set. destruct (Nat.eqb_spec (ds_num s) (ps_n ps)); [congruence|]. reflexivity.
Qed.
Print Assumptions C31_errors.

(** C31: a ParticleSet.  A new set has the properties of its specification, all
    zero. *)
Theorem C31_particle_set_create : forall V (zero : V) n sp, NoDup (map fst sp) ->
  let s := hs_create zero n sp in hset_ok n s /\ has_properties sp s /\
    forall sym nc i c, In (sym, nc) sp -> i < n -> c < nc -> hs_at n s sym i c = Some zero.
Proof.
  intros V zero n sp ND s. pose proof (hs_create_ok zero n sp) as Ok. split; [exact Ok|].
  assert (Nc : forall sym nc, In (sym, nc) sp -> look (hs_ncomp s) sym = Some nc) by (intros; apply (hs_create_in zero n sp sym nc ND); auto).
  split; [split; [|exact Nc]|].
  - eapply contains_iff; eauto. intros sym N. unfold hs_contains, s. rewrite (proj1 (hs_create_notin zero n sp sym N)). auto.
  - intros sym nc i c I Hi Hc. unfold hs_at, s. rewrite (proj1 (hs_create_in zero n sp sym nc ND I)). cbn [obind]. unfold rd.
    destruct (nth_error_lt_some (repeat zero (n * nc)) (c * n + i)) as [v E]; [rewrite repeat_length; apply elt_bound; auto|].
    rewrite E. f_equal. apply nth_error_In in E. eapply repeat_spec; eauto.
Qed.
Print Assumptions C31_particle_set_create.

(** C31: writing one element, one column, or all properties shared with another
    set changes exactly that. *)
Theorem C31_particle_set_write : forall V n (s : hset V), hset_ok n s ->
  (forall sym p c x, has s sym c -> p < n ->
     exists s', hs_write n s sym p c x = Some s' /\ hset_ok n s' /\ hs_ncomp s' = hs_ncomp s /\
       forall k p' c', p' < n -> hs_at n s' k p' c' = if (k =? sym) && (p' =? p) && (c' =? c) then Some x else hs_at n s k p' c') /\
  (forall sym c values, has s sym c -> length values = n ->
     exists s', hs_set_column n s sym (Z.of_nat c) values = Some s' /\ hset_ok n s' /\ hs_ncomp s' = hs_ncomp s /\
       forall k p' c', p' < n -> hs_at n s' k p' c' = if (k =? sym) && (c' =? c) then nth_error values p' else hs_at n s k p' c') /\
  (forall other, hset_ok n other ->
     (forall sym nc nc', look (hs_ncomp s) sym = Some nc -> look (hs_ncomp other) sym = Some nc' -> nc = nc') ->
     exists s', hs_set n s other = Some s' /\ hset_ok n s' /\ hs_ncomp s' = hs_ncomp s /\
       forall k p c, p < n -> has s k c ->
         hs_at n s' k p c = if hs_contains other k then hs_at n other k p c else hs_at n s k p c).
Proof.
  intros V n s Ok. split; [|split]; intros.
  - apply hs_write_correct; auto.
  - apply hs_column_correct; auto.
  - apply hs_set_correct; auto.
Qed.
Print Assumptions C31_particle_set_write.

(** C31: setting a column with a wrong length or component, or from a set with
    another number of particles, is an error. *)
Theorem C31_particle_set_errors : forall V n (s : hset V) sym comp values,
  (length values <> n \/ (comp < 0)%Z \/ (forall nc, look (hs_ncomp s) sym = Some nc -> (Z.of_nat nc <= comp)%Z) ->
   hs_set_column n s sym comp values = None) /\
  (forall R (a b : particle_set R), ps_n a <> ps_n b -> ps_set a b = None).
Proof.
  intros V n s sym comp values. split.
  - intros H. unfold hs_set_column. destruct (look (hs_vals s) sym) as [v|]; cbn [obind]; auto.
    destruct (Nat.eqb_spec (length values) n); cbn [assert obind]; auto.
    destruct (look (hs_ncomp s) sym) as [nc|] eqn:E; cbn [obind]; auto.
    destruct (Z.leb_spec 0 comp); cbn [andb assert obind]; auto.
    destruct (Z.ltb_spec comp (Z.of_nat nc)); cbn [assert obind]; auto.
    exfalso. destruct H as [H|[H|H]]; try lia. specialize (H nc eq_refl). lia.
  - intros R a b H. unfold ps_set. destruct (Nat.eqb_spec (ps_n b) (ps_n a)); [congruence|]. reflexivity.
Qed.
Print Assumptions C31_particle_set_errors.

Definition C31_set : hset nat := hs_create 0 3 C31_spR.
Example C31_particle_set_instance :
  hset_ok 3 C31_set /\ has C31_set 0 1 /\
  exists s', hs_write 3 C31_set 0 2 1 6 = Some s' /\ exists s2, hs_set_column 3 s' 0 0%Z [1; 2; 3] = Some s2 /\
    hs_vals s2 = [(0, [1; 2; 3; 0; 0; 6]); (3, [0; 0; 0])].
Proof.
  split; [apply hs_create_ok|]. split; [exists 2; cbn; auto|].
  eexists. split; [vm_compute; reflexivity|]. eexists. split; vm_compute; reflexivity.
Qed.

(** The claim "an element that does not exist is an error" is false of
    ParticleSet::at: an index beyond the last particle gives an element of the
    next component, because only the whole vector has a bounds check. *)
Theorem C31_at_beyond_the_particles_is_an_error_refuted :
  exists (s : hset nat) n sym p c v, hset_ok n s /\ ~ p < n /\ hs_at n s sym p c = Some v.
Proof.
  exists C31_set, 3, 0, 4, 0, 0. split; [apply hs_create_ok|]. split; [lia|]. vm_compute. reflexivity.
Qed.
Print Assumptions C31_at_beyond_the_particles_is_an_error_refuted.

(** C31: DescendantProducts.  A reset gives every product the default values and
    no parent (-1); the rows of (parent, product) pairs are distinct rows of the
    matrix, and recording the parent of one product changes no other. *)
Theorem C31_descendants_reset :
  forall d, device_ok d -> forall R junkR junkZ (zeroR : R) plusR spR spZ per_parent cs s t n,
    all_allowed plusR spR spZ (nothing zeroR) cs -> ds_run d junkR junkZ zeroR plusR spR spZ cs = Some (de_set s) ->
    t = history zeroR plusR spR spZ cs -> (0 <= n)%Z ->
    exists s', desc_reset d junkR junkZ zeroR spR spZ per_parent s n = Some s' /\ de_parents s' = Z.to_nat n /\
      ds_num (de_set s') = Z.to_nat n * per_parent /\
      (forall r p c sym nc, nth_error spR p = Some (sym, nc) -> c < nc -> r < Z.to_nat n * per_parent ->
         at_read spR (ds_real (de_set s')) (ds_num (de_set s')) r p c = Some (default (real t) sym c)) /\
      (forall r p c sym nc, nth_error spZ p = Some (sym, nc) -> c < nc -> r < Z.to_nat n * per_parent ->
         at_read spZ (ds_int (de_set s')) (ds_num (de_set s')) r p c = Some (default (int t) sym c)) /\
      (forall i, i < Z.to_nat n * per_parent -> nth_error (de_cells s') i = Some (-1)%Z /\ nth_error (de_layers s') i = Some (-1)%Z).
Proof.
  intros d D R junkR junkZ zeroR plusR spR spZ per_parent cs s t n A E -> Hn.
  destruct (ds_run_correct d junkR junkZ zeroR plusR spR spZ cs D A) as (s0 & E0 & H0). rewrite E in E0. injection E0 as <-.
  destruct (desc_reset_correct d junkR junkZ zeroR spR spZ per_parent s _ n D H0 Hn) as (s' & E1 & (N & HR & HZ) & P & C).
  exists s'. split; [exact E1|]. split; [exact P|]. cbn in N, HR, HZ. rewrite Nat2Z.id in *.
  split; [exact N|]. rewrite N. split; [|split; [|exact C]].
  - intros r p c sym nc Ep Hc Hr. rewrite (holds_read _ _ _ _ _ r p c HR); [cbn; rewrite Ep; auto|exists sym, nc; auto].
  - intros r p c sym nc Ep Hc Hr. rewrite (holds_read _ _ _ _ _ r p c HZ); [cbn; rewrite Ep; auto|exists sym, nc; auto].
Qed.
Print Assumptions C31_descendants_reset.

Theorem C31_descendants_rows_and_parents : forall R (s : descendants R) per_parent,
  (forall i, i < de_parents s * per_parent -> exists a b, nth_error (de_cells s) i = Some a /\ nth_error (de_layers s) i = Some b) ->
  (forall ll product, ll < de_parents s -> product < per_parent -> ll + product * de_parents s < de_parents s * per_parent) /\
  (forall ll product ll' product', ll < de_parents s -> product < per_parent -> ll' < de_parents s -> product' < per_parent ->
     ll + product * de_parents s = ll' + product' * de_parents s -> ll = ll' /\ product = product') /\
  forall ll cell layer product, ll < de_parents s -> product < per_parent ->
    exists s', set_parent s ll cell layer product = Some s' /\ de_set s' = de_set s /\ de_parents s' = de_parents s /\
      forall ll' product', ll' < de_parents s -> product' < per_parent ->
        let row := ll' + product' * de_parents s in
        nth_error (de_cells s') row = (if (ll' =? ll) && (product' =? product) then Some (Z.of_nat cell) else nth_error (de_cells s) row) /\
        nth_error (de_layers s') row = (if (ll' =? ll) && (product' =? product) then Some (Z.of_nat layer) else nth_error (de_layers s) row).
Proof.
  intros R s per_parent H. split; [|split].
  - intros ll product A B. assert ((product + 1) * de_parents s <= per_parent * de_parents s) by (apply Nat.mul_le_mono_r; lia). lia.
  - intros. eapply row_inj; eauto.
  - intros. eapply set_parent_correct; eauto.
Qed.
Print Assumptions C31_descendants_rows_and_parents.

Example C31_descendants_instance :
  exists s s', desc_reset C01_device (fun _ _ => 999) (fun _ _ => 998%Z) 0 C31_spR C31_spZ 2
      (mk_desc (ds_create (fun _ _ => 999) (fun _ _ => 998%Z)) 0 [] []) 3%Z = Some s /\
    set_parent s 1 7 4 1 = Some s' /\ de_parents s = 3 /\
    de_cells s' = [-1; -1; -1; -1; 7; -1]%Z /\ de_layers s' = [-1; -1; -1; -1; 4; -1]%Z.
Proof. eexists _, _. split; [vm_compute; reflexivity|]. split; [vm_compute; reflexivity|]. vm_compute. auto. Qed.

(** ** C30 *)

(** C30: get_particles returns the particles of the requests, in their order, with
    all their properties, for all schedules, all contents of the pooled buffers
    and all orders of the properties in the specification; a request for a
    particle that does not exist, or lists of different lengths, is an error. *)
Theorem C30_get_particles :
  forall d, device_ok d -> forall R (zeroR : R) poolR poolZ junkR junkZ spR spZ qR qZ (g : group R) cells layers,
    wf_group g -> spec_of spR (reals (st g)) -> spec_of spZ (ints (st g)) ->
    Permutation qR spR -> Permutation qZ spZ -> NoDup (map fst spR) -> NoDup (map fst spZ) ->
    (requests_ok (npart_cell g) cells layers ->
     exists ps, get_particles d zeroR poolR poolZ junkR junkZ spR spZ qR qZ g cells layers = Some ps /\
       returns g spR spZ ps cells layers) /\
    (~ requests_ok (npart_cell g) cells layers ->
     get_particles d zeroR poolR poolZ junkR junkZ spR spZ qR qZ g cells layers = None).
Proof. intros. apply get_particles_ok; auto. Qed.
Print Assumptions C30_get_particles.

(** C30: the same on a sub-group, whose member (c, l) is layer [sel c l] of the
    group; requests outside the sub-group are errors. *)
Theorem C30_get_particles_of_a_sub_group :
  forall d, device_ok d -> forall R (zeroR : R) poolR poolZ junkR junkZ spR spZ qR qZ (g : group R) sel cells layers,
    wf_group g -> spec_of spR (reals (st g)) -> spec_of spZ (ints (st g)) ->
    Permutation qR spR -> Permutation qZ spZ -> NoDup (map fst spR) -> NoDup (map fst spZ) ->
    (forall c ls n, nth_error sel c = Some ls -> nth_error (npart_cell g) c = Some n -> forall l, In l ls -> l < n) ->
    length sel = length (npart_cell g) ->
    (requests_ok (map (@length nat) sel) cells layers ->
     exists ps inner, sub_get_particles d zeroR poolR poolZ junkR junkZ spR spZ qR qZ g sel cells layers = Some ps /\
       length inner = length cells /\
       (forall i c l, nth_error cells i = Some (Z.of_nat c) -> nth_error layers i = Some (Z.of_nat l) ->
          exists x, rd2 sel c l = Some x /\ nth_error inner i = Some (Z.of_nat x)) /\
       returns g spR spZ ps cells inner) /\
    (~ requests_ok (map (@length nat) sel) cells layers ->
     sub_get_particles d zeroR poolR poolZ junkR junkZ spR spZ qR qZ g sel cells layers = None).
Proof. intros. apply sub_get_ok; auto. Qed.
Print Assumptions C30_get_particles_of_a_sub_group.

(** C30: adding what get_particles returned duplicates the particles, when the
    cell ids of the particles agree with their cells. *)
Theorem C30_get_then_add_duplicates :
  forall d, device_ok d -> forall R (zeroR : R) uR uZ poolR poolZ junkR junkZ spR spZ qR qZ cid_sym pc (g : group R) cells layers ps,
    wf_group g -> spec_of spR (reals (st g)) -> spec_of spZ (ints (st g)) ->
    Permutation qR spR -> Permutation qZ spZ -> NoDup (map fst spR) -> NoDup (map fst spZ) ->
    nth_error spZ pc = Some (cid_sym, 1) ->
    (forall c l vs zs, particle_at (st g) c l = Some (vs, zs) -> nth_error zs (list_sum (map snd (firstn pc spZ))) = Some (Z.of_nat c)) ->
    get_particles d zeroR poolR poolZ junkR junkZ spR spZ qR qZ g cells layers = Some ps ->
    exists g', add_particle_set d zeroR uR uZ spR spZ cid_sym g (ps_n ps) (hs_vals (ps_real ps)) (hs_vals (ps_int ps)) = Some g' /\
      wf_group g' /\ length (npart_cell g') = length (npart_cell g) /\
      forall c, c < length (npart_cell g) -> exists old copies, cell_particles g c = Some old /\
        mapM (fun i => l <- nth_error layers i ;; particle_at (st g) c (Z.to_nat l)) (entries_of cells c) = Some copies /\
        cell_particles g' c = Some (old ++ copies).
Proof.
  intros d D R zeroR uR uZ poolR poolZ junkR junkZ spR spZ qR qZ cid_sym pc g cells layers ps W SR SZ PR PZ NR NZ Hc Cid E.
  destruct (get_particles_ok d zeroR poolR poolZ junkR junkZ spR spZ qR qZ g cells layers D W SR SZ PR PZ NR NZ) as [Good Bad].
  assert (Q : requests_ok (npart_cell g) cells layers \/ ~ requests_ok (npart_cell g) cells layers).
  { destruct (Nat.eq_dec (length layers) (length cells)) as [L|L]; [|right; intros [Q _]; tauto].
    destruct (foldM (fun _ p => check_request (npart_cell g) (fst p) (snd p)) tt (combine cells layers)) as [[]|] eqn:F.
    - left. apply checks_iff; auto.
    - right. intros Q. apply (checks_iff _ _ _ L) in Q. congruence. }
  destruct Q as [Q|Q]; [|rewrite (Bad Q) in E; discriminate].
  destruct (Good Q) as (ps' & E' & Rt). rewrite E in E'. injection E' as <-. clear Good Bad.
  destruct (returned_values zeroR g spR spZ ps cells layers SR SZ NR NZ Rt) as (S1 & S2 & Val).
  destruct Rt as (N & OR & OZ & _ & [_ HZ] & P). destruct Q as [Ll Q].
  assert (Ids : look (hs_vals (ps_int ps)) cid_sym = Some cells).
  { apply (hs_column_data (ps_n ps)); auto; [apply HZ; eapply nth_error_In; eauto|]. intros i Hi. rewrite N in Hi.
    destruct (Q i Hi) as (c & l & m & E1 & E2 & _). destruct (P i c l E1 E2) as (vs & zs & Ep & _ & B).
    rewrite (B pc cid_sym 1 0 Hc) by lia. rewrite Nat.add_0_r, (Cid c l vs zs Ep), E1. auto. }
  destruct (C05_add_particle_set_appends_exactly_the_set d D R zeroR uR uZ spR spZ cid_sym g (ps_n ps) (hs_vals (ps_real ps)) (hs_vals (ps_int ps)) cells
     W SR SZ S1 S2 Ids) as (g' & E1 & W' & L' & A).
  - lia.
  - intros p z Hp Ez. destruct (Q p) as (c & l & m & E1 & E2 & E3 & _); [lia|]. rewrite Ez in E1. injection E1 as ->.
    apply nth_error_some_lt in E3. lia.
  - exists g'. split; [exact E1|]. split; [exact W'|]. split; [exact L'|]. intros c C. destruct (A c C) as (old & F1 & F2).
    rewrite N, firstn_all in F2. eexists old, _. split; [exact F1|]. split; [|exact F2].
    rewrite <- N. apply mapM_some_map. intros i I. unfold entries_of in I. apply filter_In in I. destruct I as [I1 I2]. apply in_seq in I1.
    destruct (Q i) as (c' & l & m & G1 & G2 & _); [lia|]. rewrite G1 in I2. apply Z.eqb_eq, Nat2Z.inj in I2. subst c'.
    rewrite G2; cbn [obind]. rewrite Nat2Z.id. apply Val; auto.
Qed.
Print Assumptions C30_get_then_add_duplicates.

Example C30_instance_hypotheses :
  wf_group C05_group /\ spec_of C05_spR (reals (st C05_group)) /\ spec_of C05_spZ (ints (st C05_group)) /\
  NoDup (map fst C05_spR) /\ NoDup (map fst C05_spZ) /\
  requests_ok (npart_cell C05_group) [2; 0; 2]%Z [1; 0; 1]%Z /\
  ~ requests_ok (npart_cell C05_group) [2; 1]%Z [0; 0]%Z /\
  nth_error C05_spZ 0 = Some (0, 1) /\
  (forall c l vs zs, particle_at (st C05_group) c l = Some (vs, zs) -> nth_error zs 0 = Some (Z.of_nat c)).
Proof.
  split; [apply wf_groupb_sound; reflexivity|]. split; [reflexivity|]. split; [reflexivity|].
  split; [repeat constructor; cbn; intuition lia|]. split; [repeat constructor; cbn; intuition lia|]. split; [|split; [|split]].
  - split; [auto|]. intros [|[|[|i]]] Hi; cbn in Hi; [exists 2, 1, 2|exists 0, 0, 1|exists 2, 1, 2|lia]; vm_compute; auto.
  - intros [_ H]. destruct (H 1) as (c & l & m & E1 & E2 & E3 & E4); [cbn; lia|]. cbn in E1, E2.
    injection E1 as E1. injection E2 as E2. assert (c = 1) by lia. subst. vm_compute in E3. injection E3 as <-. lia.
  - reflexivity.
  - intros c l vs zs E. destruct c as [|[|[|c]]].
    + destruct l as [|[|l]]; try discriminate E. vm_compute in E. injection E as <- <-. reflexivity.
    + destruct l; discriminate E.
    + destruct l as [|[|[|l]]]; try discriminate E; vm_compute in E; injection E as <- <-; reflexivity.
    + vm_compute in E. destruct c; discriminate E.
Qed.
Example C30_instance :
  exists ps, get_particles C01_device 0 [99; 98] [97]%Z (fun _ => 999) (fun _ => 998%Z) C05_spR C05_spZ (rev C05_spR) C05_spZ
      C05_group [2; 0; 2]%Z [1; 0; 1]%Z = Some ps /\ ps_n ps = 3 /\
    (exists v, hs_at 3 (ps_real ps) (fst (hd (0, 0) C05_spR)) 0 0 = Some v /\ v = 13) /\
    sub_get_particles C01_device 0 [] [] (fun _ => 999) (fun _ => 998%Z) C05_spR C05_spZ C05_spR C05_spZ
      C05_group [[]; []; [1]] [2; 2]%Z [0; 0]%Z <> None /\
    get_particles C01_device 0 [] [] (fun _ => 999) (fun _ => 998%Z) C05_spR C05_spZ C05_spR C05_spZ
      C05_group [2; 1]%Z [0; 0]%Z = None.
Proof.
  eexists. split; [vm_compute; reflexivity|]. split; [reflexivity|]. split; [eexists; split; vm_compute; reflexivity|].
  split; [vm_compute; discriminate|]. vm_compute. reflexivity.
Qed.
