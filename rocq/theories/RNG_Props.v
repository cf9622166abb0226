(** Property theorems: C58 (per particle random numbers) and C59 (atomic random numbers). *)
From Coq Require Import List Arith Lia ZArith Bool Permutation.
Import ListNotations.
From Verif Require Import Base Kernel Loop_Model Loop_Spec Loop_Proofs RNG_Model RNG_Spec RNG_Proofs RNG2_Proofs RNG3_Proofs.

(** C58: for a loop over the particles of the named cells the generation function is called
    once for each component of each of these particles and for nothing else; the calls are
    numbered by [num].  Kernels that read any samples of the particles, in any order, get
    those values, however the copies to the device are scheduled and whatever the memory held. *)
Theorem C58_each_sample_has_its_own_draw :
  forall T (gen : nat -> T) zero lim np es nbin ls cs ce a b bs all s e early junk r,
    call_names (length np) cs ce a b -> 1 <= nbin ->
    prepare_submit lim np true (list_sum np) nbin ls 1 cs ce = Some bs ->
    determine_iteration_set (length np) cs ce = Some (all, s, e) -> prefix_sums np es ->
    p_state r = 0 -> 1 <= p_block r ->
    (Z.of_nat (length (particles_of_cells np a b)) < int_max)%Z ->
    (Z.of_nat (length (particles_of_cells np a b) * p_ncomp r) <= int_max)%Z ->
    exists n (num : (nat * nat) * nat -> nat),
      get_loop_npart np (list_sum np) all (Z.to_nat s) (Z.to_nat e) = Some n /\ n = length (particles_of_cells np a b) /\
      Permutation (map num (samples_of (particles_of_cells np a b) (p_ncomp r))) (seq (p_drawn r) (n * p_ncomp r)) /\
      forall samples, incl samples (samples_of (particles_of_cells np a b) (p_ncomp r)) ->
        exists reads r',
          mapM (fun x => ix <- get_loop_linear_index es (Z.to_nat s) (fst (fst x)) (snd (fst x)) ;; Some (ix, snd x)) samples = Some reads /\
          pp_loop gen zero early junk n (length bs) reads r = Some (r', map (fun x => gen (num x)) samples) /\
          p_state r' = 0 /\ p_ncomp r' = p_ncomp r /\ p_block r' = p_block r /\ p_drawn r' = p_drawn r + n * p_ncomp r.
Proof.
  intros T gen zero lim np es nbin ls cs ce a b bs all s e early junk r Hc Hn Hp Hd He H0 Hb L1 L2.
  destruct (determine_ok _ _ _ _ _ _ _ _ Hc Hd) as (-> & -> & Hall). rewrite !Nat2Z.id.
  pose proof (call_names_le _ _ _ _ _ Hc) as [Ha Hbb]. pose proof (submit_empty _ _ _ _ _ _ _ _ _ Hc Hn Hp) as Hlau.
  set (ps := particles_of_cells np a b) in *. set (n := length ps) in *.
  destruct (numbering (fun w => get_loop_linear_index es a (fst w) (snd w)) ps (particles_of_cells_nodup np a b)) as (g & G1 & G2).
  { apply (loop_index_dense np es a b); [exact He|exact Hbb|reflexivity]. }
  exists n, (fun x => p_drawn r + (snd x * n + g (fst x))). split; [apply loop_npart_ok; assumption|]. split; [reflexivity|]. split; [apply samples_numbered; [reflexivity|exact G2]|].
  intros samples Hs. exists (map (fun x => (g (fst x), snd x)) samples).
  assert (Em : mapM (fun x => ix <- get_loop_linear_index es a (fst (fst x)) (snd (fst x)) ;; Some (ix, snd x)) samples = Some (map (fun x => (g (fst x), snd x)) samples)).
  { apply mapM_some. intros [p c] Hx. apply Hs in Hx. apply in_prod_iff in Hx as [Hx _]. cbn [fst snd]. rewrite (G1 p Hx). reflexivity. }
  destruct (pp_loop_ok gen zero early junk n (length bs) (map (fun x => (g (fst x), snd x)) samples) r H0 Hb ltac:(auto) L1) as [buf E].
  - intros ix c Hx. apply in_map_iff in Hx as ([p c'] & [= <- <-] & Hx). apply Hs in Hx. apply in_prod_iff in Hx as [Hx Hcc]. apply in_seq in Hcc. cbn [fst snd]. split; [|lia].
    assert (In (g p) (seq 0 n)) by (apply (Permutation_in _ G2), in_map; exact Hx). apply in_seq in H. lia.
  - destruct (Nat.eq_dec (length bs) 0) as [B0|B0]; [|right; lia]. left. apply Hlau in B0. destruct samples as [|x samples]; [reflexivity|exfalso].
    specialize (Hs x (or_introl eq_refl)). unfold samples_of in Hs. destruct ps; [destruct Hs|discriminate].
  - apply Hlau.
  - eexists. split; [exact Em|]. split; [rewrite E, map_map; reflexivity|]. cbn. auto.
Qed.
Print Assumptions C58_each_sample_has_its_own_draw.

(** C58: over every history of loops no value of the generation function is used for two samples. *)
Theorem C58_no_draw_is_used_twice :
  forall T (gen : nat -> T) zero ncomp block drawn uses, 1 <= block -> Forall (use_ok ncomp) uses ->
    exists r vss draws, pp_run gen zero uses (pp_create ncomp block drawn) = Some (r, vss) /\
      map (@length T) vss = map (fun u => length (u_reads u)) uses /\
      Forall2 (from_draws gen) vss draws /\ NoDup (concat draws) /\ (forall k, In k (concat draws) -> drawn <= k < p_drawn r) /\
      p_drawn r = drawn + list_sum (map (fun u => u_n u * ncomp) uses).
Proof.
  intros T gen zero ncomp block drawn uses Hb Hu. unfold pp_run.
  match goal with |- context [foldM ?f _ _] => set (F := f) end.
  destruct (foldM_ind F (fun pre s => p_state (fst s) = 0 /\ p_ncomp (fst s) = ncomp /\ p_block (fst s) = block /\ map (@length T) (snd s) = map (fun u => length (u_reads u)) pre /\ p_drawn (fst s) = drawn + list_sum (map (fun u => u_n u * ncomp) pre) /\
      exists draws, Forall2 (from_draws gen) (snd s) draws /\ NoDup (concat draws) /\ forall k, In k (concat draws) -> drawn <= k < p_drawn (fst s)) uses (pp_create ncomp block drawn, [])) as ([r vss] & E & A & B & C & D & D2 & draws & G1 & G2 & G3).
  - cbn. repeat (split; [auto|]). exists []. split; [constructor|]. split; [constructor|intros k []].
  - intros pre u post [r vss] Es (A & B & C & D & D2 & draws & G1 & G2 & G3). cbn [fst snd] in *.
    assert (Hu' : use_ok ncomp u). { rewrite Forall_forall in Hu. apply Hu. rewrite Es. apply in_or_app. right. left. reflexivity. } destruct Hu' as (U1 & U2 & U3 & U4 & U5).
    destruct (pp_loop_ok gen zero (u_early u) (u_junk u) (u_n u) (u_launches u) (u_reads u) r A) as [buf El]; try (rewrite ?B, ?C; auto; fail).
    { destruct (u_reads u) as [|[ix c] l]; [left; reflexivity|]. right. destruct (U5 ix c (or_introl eq_refl)). assert (u_launches u <> 0) by (intros Q; apply U3 in Q; lia). lia. }
    { apply U3. }
    unfold F. cbn [fst snd]. rewrite El. cbn [obind fst snd]. eexists. split; [reflexivity|]. cbn [fst snd p_state p_ncomp p_block p_drawn].
    split; [reflexivity|]. split; [exact B|]. split; [exact C|]. split; [rewrite !map_app, D; cbn; rewrite map_length; reflexivity|].
    split; [rewrite map_app, list_sum_app, D2, B; cbn; lia|].
    set (ds := map (fun a => p_drawn r + (snd a * u_n u + fst a)) (u_reads u)). exists (draws ++ [ds]).
    assert (Hds : forall k, In k ds -> p_drawn r <= k < p_drawn r + u_n u * p_ncomp r).
    { intros k Hk. apply in_map_iff in Hk as ([ix c] & <- & Hx). destruct (U5 ix c Hx). cbn [fst snd]. rewrite B. nia. }
    split; [|split].
    + apply Forall2_app; [exact G1|]. constructor; [|constructor]. unfold from_draws, ds. clear. induction (u_reads u) as [|a l IH]; cbn; constructor; [reflexivity|exact IH].
    + rewrite concat_app. cbn [concat]. rewrite app_nil_r. apply NoDup_app_intro; [exact G2| |].
      * unfold ds. assert (Hinj : forall x y, In x (u_reads u) -> In y (u_reads u) -> p_drawn r + (snd x * u_n u + fst x) = p_drawn r + (snd y * u_n u + fst y) -> x = y).
        { intros [ix c] [iy d] Hx Hy Q. destruct (U5 ix c Hx), (U5 iy d Hy). cbn [fst snd] in Q. assert (c = d) by nia. subst d. f_equal. lia. }
        clear -U4 Hinj. induction (u_reads u) as [|x l IH]; [constructor|]. inversion U4; subst. cbn [map]. constructor.
        -- intros Hin. apply in_map_iff in Hin as (y & Q & Hy). assert (y = x) by (apply Hinj; [right; exact Hy|left; reflexivity|exact Q]). subst y. contradiction.
        -- apply IH; [assumption|]. intros y z Hy Hz. apply Hinj; right; assumption.
      * intros k Hk Hk2. apply G3 in Hk. apply Hds in Hk2. lia.
    + intros k Hk. rewrite concat_app in Hk. cbn [concat] in Hk. rewrite app_nil_r in Hk. apply in_app_or in Hk as [Hk|Hk]; [apply G3 in Hk; lia|apply Hds in Hk; lia].
  - rewrite E. cbn [fst snd] in *. exists r, vss, draws. auto 10.
Qed.
Print Assumptions C58_no_draw_is_used_twice.

(** C58: an RNG that is in use by a loop is refused to a second use. *)
Theorem C58_overlapping_use_is_refused :
  forall T (gen : nat -> T) zero early junk n m (r r' : per_particle),
    pp_pre_loop gen zero early junk n r = Some r' -> pp_pre_loop gen zero early junk m r' = None.
Proof.
  intros T gen zero early junk n m r r'. unfold pp_pre_loop at 1. destruct (p_state r =? 0); cbn [assert obind]; [|discriminate].
  destruct (0 <? p_ncomp r).
  - destruct (draw_random_samples _ _ _ _ _ _ _ _); cbn [obind]; [|discriminate]. intros [= <-]. reflexivity.
  - intros [= <-]. reflexivity.
Qed.
Print Assumptions C58_overlapping_use_is_refused.

(** C58, finding: only the number of particles is checked against the range of int.  For
    65536 particles and 40001 components the index of a sample overflows. *)
Theorem C58_index_overflow_refuted :
  exists n ncomp row col, (Z.of_nat n < int_max)%Z /\ row < n /\ col < ncomp /\
    forall T (data : list T), pp_at (Z.of_nat n, data) row col = None.
Proof.
  assert (E1 : Z.of_nat (Z.to_nat 65536) = 65536%Z) by (apply Z2Nat.id; discriminate).
  assert (E2 : Z.of_nat (Z.to_nat 40001) = 40001%Z) by (apply Z2Nat.id; discriminate).
  assert (E3 : Z.of_nat (Z.to_nat 40000) = 40000%Z) by (apply Z2Nat.id; discriminate).
  generalize dependent (Z.to_nat 65536). generalize dependent (Z.to_nat 40001). generalize dependent (Z.to_nat 40000).
  intros c E3 nc E2 n E1. exists n, nc, 0, c. split; [rewrite E1; reflexivity|]. split; [lia|]. split; [lia|].
  intros T data. unfold pp_at. cbn [fst snd]. rewrite E1, E3.
  replace (to_int (Z.of_nat 0)) with (Some 0%Z) by reflexivity. cbn [obind].
  replace (to_int (40000 * 65536)) with (@None Z) by reflexivity. reflexivity.
Qed.
Print Assumptions C58_index_overflow_refuted.

Definition C58_np : list nat := [2; 0; 3; 1].
Definition C58_limits : limits := {| lim_global0 := 0; lim_global1 := 64; lim_group := 16; lim_mem := 0 |}.
(** Cells 2 and 3, two components, blocks of three numbers; some elements are copied late. *)
Example C58_instance :
  call_names (length C58_np) (Some 2%Z) (Some 4%Z) 2 4 /\ prefix_sums C58_np [0; 2; 2; 5] /\
  (exists bs, prepare_submit C58_limits C58_np true 6 2 4 1 (Some 2%Z) (Some 4%Z) = Some bs /\ length bs = 2) /\
  get_loop_npart C58_np 6 false 2 4 = Some 4 /\
  option_map snd (pp_loop (fun k => 100 + k) 0 (fun i => Nat.odd i) (fun _ => 77) 4 2 [(0, 0); (3, 1); (1, 1); (3, 0)] (pp_create 2 3 9))
    = Some [109; 116; 114; 112].
Proof.
  split; [exact (call_range 4 2 4 ltac:(lia) ltac:(lia))|]. split.
  - intros c Hc. cbn in Hc. destruct c as [|[|[|[|c]]]]; try reflexivity. lia.
  - split; [eexists; split; [vm_compute; reflexivity|reflexivity]|]. split; reflexivity.
Qed.

Example C58_history_instance :
  let uses := [mk_use (fun _ => true) (fun _ => 77) 3 1 [(2, 1); (0, 0)]; mk_use (fun i => Nat.even i) (fun _ => 78) 5 2 [(4, 0); (4, 1)]] in
  Forall (use_ok 2) uses /\
  option_map snd (pp_run (fun k => 100 + k) 0 uses (pp_create 2 4 0)) = Some [[105; 100]; [110; 115]].
Proof.
  cbv zeta. split; [|reflexivity]. apply Forall_cons; [|apply Forall_cons; [|apply Forall_nil]].
  - repeat split; cbn; try (vm_compute; congruence); try lia.
    + constructor; [intros [[=]|[]]|]. constructor; [intros []|constructor].
    + destruct H as [[= <- <-]|[[= <- <-]|[]]]; lia.
    + destruct H as [[= <- <-]|[[= <- <-]|[]]]; lia.
  - repeat split; cbn; try (vm_compute; congruence); try lia.
    + constructor; [intros [[=]|[]]|]. constructor; [intros []|constructor].
    + destruct H as [[= <- <-]|[[= <- <-]|[]]]; lia.
    + destruct H as [[= <- <-]|[[= <- <-]|[]]]; lia.
Qed.

(** C59: over every history of loops and of changes of the number of random numbers, with
    every interleaving of the kernels' calls, a call gives either a value of the generation
    function that no other call got, or an invalid sample; and the RNG's flag says whether all
    samples so far were valid. *)
Theorem C59_no_draw_is_used_twice :
  forall T (gen : nat -> T) zero junkc ncomp block drawn events, 1 <= ncomp -> 1 <= block -> Forall (event_ok ncomp) events ->
    exists r rss draws, rng_run gen zero junkc events (at_create ncomp block drawn) = Some (r, rss) /\
      Forall2 (Forall2 (outcome gen zero)) rss draws /\ NoDup (some_of (concat draws)) /\
      (forall k, In k (some_of (concat draws)) -> drawn <= k < a_drawn r) /\
      (a_valid r = true <-> forall rs x, In rs rss -> In x rs -> fst x = true).
Proof.
  intros T gen zero junkc ncomp block drawn events Hc Hb He. destruct (run_ok gen zero junkc ncomp block drawn events Hc Hb He) as (r & rss & draws & A & B & C & D & E).
  exists r, rss, draws. split; [exact A|]. split; [exact B|]. split; [apply (ai_nodup _ _ _ _ _ C)|]. split; [apply (ai_used _ _ _ _ _ C)|].
  rewrite E. unfold all_valid. rewrite forallb_forall. split.
  - intros H rs x Hr Hx. specialize (H rs Hr). rewrite forallb_forall in H. apply H. exact Hx.
  - intros H rs Hr. apply forallb_forall. intros x Hx. apply (H rs x Hr Hx).
Qed.
Print Assumptions C59_no_draw_is_used_twice.

(** C59: after every history, a loop whose kernels ask for at most as many samples as were
    announced (the number that was set or, without one, particles times components) gets a
    valid sample for each call. *)
Theorem C59_announced_samples_are_valid :
  forall T (gen : nat -> T) zero junkc ncomp block drawn events r rss early junk reallocated n launches ncalls sched,
    1 <= ncomp -> 1 <= block -> Forall (event_ok ncomp) events ->
    rng_run gen zero junkc events (at_create ncomp block drawn) = Some (r, rss) ->
    event_ok ncomp (ELoop early junk reallocated n launches ncalls sched) ->
    ncalls <= (match a_override r with Some m => m | None => n * ncomp end) ->
    exists r' rs, at_loop gen zero early junk junkc reallocated n launches ncalls sched r = Some (r', rs) /\
      length rs = ncalls /\ (forall x, In x rs -> fst x = true) /\ a_valid r' = a_valid r.
Proof.
  intros T gen zero junkc ncomp block drawn events r rss early junk reallocated n launches ncalls sched Hc Hb He Hr Hev Hle.
  destruct (run_ok gen zero junkc ncomp block drawn events Hc Hb He) as (r0 & rss0 & draws & A & B & C & D & E). rewrite Hr in A. injection A as <- <-.
  destruct (loop_ok gen zero junkc early junk reallocated n launches ncalls sched drawn r _ C) as (r' & rs & ds & E1 & _ & _ & _ & E5 & E6 & E7); [rewrite D; exact Hev|].
  assert (Hv : forallb fst rs = true) by (apply E7; unfold requested; rewrite D; exact Hle).
  exists r', rs. split; [exact E1|]. split; [exact E6|]. split; [apply forallb_forall; exact Hv|]. rewrite E5, Hv. apply andb_true_r.
Qed.
Print Assumptions C59_announced_samples_are_valid.

(** C59, finding: with zero components the counters on the device are never set, but read
    after the loop.  Without a single call the flag can become false. *)
Theorem C59_zero_components_refuted :
  exists junkc r, at_loop (fun k => k) 0 (fun _ => true) (fun _ => 77) junkc false 1 1 0 [] (at_create 0 4 0) = Some (r, []) /\ a_valid r = false.
Proof. exists (5, 0)%Z. eexists. split; [vm_compute; reflexivity|reflexivity]. Qed.
Print Assumptions C59_zero_components_refuted.

(** Three loops: two of four numbers used, so two are kept; then all of them are used in an
    interleaved order; then three calls for two values. *)
Definition C59_events : list (rng_event nat) :=
  [ELoop (fun _ => true) (fun _ => 77) false 4 1 2 [0; 1; 1; 0];
   ELoop (fun i => Nat.odd i) (fun _ => 78) false 4 2 4 [3; 0; 0; 1; 3; 2; 2; 1];
   ESetNumber (Some 2);
   ELoop (fun i => Nat.even i) (fun _ => 78) false 4 1 3 [2; 1; 1; 0; 2; 0]].
Example C59_instance :
  Forall (event_ok 1) C59_events /\
  option_map (fun x => (a_valid (fst x), snd x)) (rng_run (fun k => 100 + k) 0 (9, 9)%Z C59_events (at_create 1 3 0)) =
    Some (false, [[(true, 100); (true, 101)]; [(true, 105); (true, 102); (true, 103); (true, 104)]; [(false, 0); (true, 107); (true, 106)]]).
Proof.
  split; [|vm_compute; reflexivity].
  assert (P : forall l n, Permutation l (seq 0 n ++ seq 0 n) -> call_schedule l n) by (intros l n H; exact H).
  repeat apply Forall_cons; try apply Forall_nil; cbn [event_ok].
  - split; [vm_compute; reflexivity|]. split; [|split; [vm_compute; reflexivity|lia]]. apply P. apply (Permutation_count_occ Nat.eq_dec). intros i. do 2 (destruct i as [|i]; [reflexivity|]). reflexivity.
  - split; [vm_compute; reflexivity|]. split; [|split; [vm_compute; reflexivity|lia]]. apply P. apply (Permutation_count_occ Nat.eq_dec). intros i. do 4 (destruct i as [|i]; [reflexivity|]). reflexivity.
  - split; [lia|]. vm_compute. congruence.
  - split; [vm_compute; reflexivity|]. split; [|split; [vm_compute; reflexivity|lia]]. apply P. apply (Permutation_count_occ Nat.eq_dec). intros i. do 3 (destruct i as [|i]; [reflexivity|]). reflexivity.
Qed.
