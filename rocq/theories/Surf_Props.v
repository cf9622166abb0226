(** C63: functions on the boundary of the mesh. *)
From Coq Require Import List Arith Lia ZArith Bool Permutation.
Import ListNotations.
From Verif Require Import Base Kernel Bmi_Model Bmi_Spec Bmi_Proofs Bmi3_Proofs Bmi4_Proofs Bmi_Props Surf_Model Surf_Spec Surf_Proofs.

(** A function on the boundary is one value per facet.  For every allowed history of
    collective calls (new facets seen by the ranks, fills, new values, projections of
    particles and evaluations at particles), for every schedule of the kernels, content
    of new allocations and pooled buffers and order of the neighbours MPI reports, and
    with or without device aware MPI: no call fails, all evaluations return the values of
    this function, and the owners of the facets hold these values at the end. *)
Theorem C63_boundary_function_is_one_value_per_facet :
  forall {T} (add : T -> T -> T) zero scale owner own aware host_readable junk (evs : list (env T * event T)),
    commutative_monoid add zero -> ownership owner own -> aware || host_readable = true ->
    (forall e ev, In (e, ev) evs -> forall r, device_ok (e_ds e r)) ->
    allowed_all add zero scale owner own (surface_zero zero own) (map snd evs) ->
    exists w fs, exec_all add zero scale aware host_readable (surface_start zero junk own) evs
        = Some ((w, fs), snd (steps add zero scale owner own (surface_zero zero own) (map snd evs))) /\
      length fs = length own /\
      forall r o f, nth_error own r = Some o -> nth_error fs r = Some f ->
        get_dofs f = map (s_value (fst (steps add zero scale owner own (surface_zero zero own) (map snd evs)))) o.
Proof.
  intros T add zero scale owner own aware host junk evs Mo [Nd Ow] Ha Hd A.
  destruct (exec_all_ok add zero scale Mo owner own Nd Ow aware host Ha evs _ _ _ [] (start_ok add zero scale owner own Nd junk) Hd A) as [w [fs [E [v [vf R]]]]].
  exists w, fs. split; [|split].
  - unfold exec_all. rewrite (surjective_pairing (surface_start zero junk own)). rewrite E. reflexivity.
  - apply (re_len _ _ _ _ _ _ _ _ _ _ R).
  - intros r o f Eo Ef. destruct (rd_lists own w r o (wi_len _ _ _ _ _ (re_w _ _ _ _ _ _ _ _ _ _ R)) Eo) as [b Eb].
    apply (fr_dofs _ _ _ _ _ _ _ _ _ _ (re_f _ _ _ _ _ _ _ _ _ _ R r b o f Eb Eo Ef)).
Qed.
Print Assumptions C63_boundary_function_is_one_value_per_facet.

(** In particular: a projection with any number of contributions sets each facet to the
    sum of what the particles of all ranks on this facet contribute. *)
Theorem C63_projection_sums_particles :
  forall {T} (add : T -> T -> T) zero scale owner own s (contribs : list (list (list (Z * T)))) g,
    commutative_monoid add zero -> (forall l, In l contribs -> length l = length own) ->
    s_value (fst (steps add zero scale owner own s (EInitialise :: map (@EContribute T) contribs ++ [EFinalise]))) g
    = sum add zero (map (fun p => scale (snd p)) (filter (fun p => (fst p =? g)%Z) (concat (concat contribs)))).
Proof.
  intros T add zero scale owner own s contribs g Mo L.
  assert (G : forall s p, s_proj s = Some p -> length (p_acc p) = length own ->
    s_value (fst (steps add zero scale owner own s (map (@EContribute T) contribs ++ [EFinalise]))) g =
    add (s_value s g) (add (dep1 add zero scale (concat (p_acc p)) g) (dep1 add zero scale (concat (concat contribs)) g))).
  { induction contribs as [|c contribs IH]; intros s0 p Ep Lp.
    - cbn. rewrite Ep. cbn. f_equal. unfold deposited. symmetry. change (dep1 add zero scale [] g) with zero. apply (add_zero _ _ Mo).
    - cbn [map app steps step]. rewrite Ep.
      match goal with |- context [steps add zero scale owner own ?s1 ?l] => pose proof (IH (fun l0 I0 => L l0 (or_intror I0)) s1 _ eq_refl) as IH'; destruct (steps add zero scale owner own s1 l) as [s2 o2] eqn:E2 end.
      cbn [fst s_value p_acc] in *. rewrite IH'.
      + f_equal. cbn [concat]. rewrite concat_app, dep1_app, (add_assoc _ _ Mo) by auto. f_equal. rewrite <- dep1_app by auto.
        unfold dep1. apply sum_perm; auto. apply Permutation_map, Add_Proofs.filter_perm.
        assert (Lc : length c = length (p_acc p)) by (rewrite Lp; apply L; left; auto).
        clear -Lc. revert Lc. generalize (p_acc p). induction c as [|x c IH]; intros [|a acc] Lc; try discriminate; [constructor|].
        cbn [combine map concat fst snd]. rewrite <- !app_assoc. apply Permutation_app_head.
        rewrite (IH acc) by (cbn in Lc; lia). rewrite !app_assoc. apply Permutation_app_tail. apply Permutation_app_comm.
      + rewrite map_length, combine_length, Lp, (L c (or_introl eq_refl)). lia. }
  cbn [steps step]. match goal with |- context [steps add zero scale owner own ?s1 ?l] => pose proof (G s1 _ eq_refl) as G'; destruct (steps add zero scale owner own s1 l) as [s2 o2] end.
  cbn [fst s_value p_acc] in *. rewrite G' by apply map_length.
  assert (E : concat (map (fun _ : list Z => @nil (Z * T)) own) = []) by (clear; induction own; auto). rewrite E.
  change (dep1 add zero scale [] g) with zero. rewrite !(add_comm _ _ Mo zero), !(add_zero _ _ Mo). reflexivity.
Qed.
Print Assumptions C63_projection_sums_particles.

(* ------------------------------------------------------------------ *)
(** Three ranks with the facets of C62: a projection of particles of two ranks in two
    contributions, evaluation on other ranks, and a new facet which is then evaluated with
    the stored values. *)
Definition e63 : env Z := Env (fun _ => dev62) (fun r i => (-100 - Z.of_nat r)%Z) (fun _ => [5]%Z) (fun _ => []).
Definition h63 (k : nat) : event Z := match nth_error h3 k with Some (ids, gs) => EExtend ids gs | None => EInitialise end.
Definition evs63 : list (event Z) :=
  [h63 0; EInitialise;
   EContribute [[(31, 1); (20, 2); (31, 4)]; [(31, 8); (11, 16)]; []]%Z;
   EContribute [[]; [(11, 32)]; []]%Z;
   EFinalise;
   EEvaluate [[20; 31; 31]; [31; 11]; []]%Z [[0; 0; 0]; [0; 0]; []]%Z;
   ESetDofs [[7; 70]; [9]; [300; 310]]%Z;
   h63 1;
   EEvaluate [[30; 31]; [11]; []]%Z [[0; 0]; [0]; []]%Z;
   EFill 3%Z;
   EEvaluate [[30; 31]; [11]; []]%Z [[0; 0]; [0]; []]%Z].

Lemma allowed63 : allowed_all Z.add 0%Z (fun x => 10 * x)%Z owner3 own3 (surface_zero 0%Z own3) evs63.
Proof.
  destruct legal3 as [A1 [A2 [A3 [B1 [B2 [B3 _]]]]]].
  assert (D : forall known (ls : list (list Z)), (fix chk (r : nat) (l : list (list Z)) := match l with [] => true | x :: l' => forallb (fun g => existsb (Z.eqb g) (nth r known [])) x && chk (S r) l' end) 0 ls = true ->
    forall r l g, nth_error ls r = Some l -> In g l -> In g (nth r known [])).
  { intros known ls H. assert (G : forall (k : nat) (ls : list (list Z)), (fix chk (r : nat) (l : list (list Z)) := match l with [] => true | x :: l' => forallb (fun g => existsb (Z.eqb g) (nth r known [])) x && chk (S r) l' end) k ls = true ->
      forall r l g, nth_error ls r = Some l -> In g l -> In g (nth (k + r) known [])).
    { clear. intros k ls. revert k. induction ls as [|x ls IH]; intros k H [|r] l g E I; cbn in E; try discriminate; apply andb_true_iff in H; destruct H as [H1 H2].
      - injection E as ->. rewrite forallb_forall in H1. specialize (H1 g I). apply existsb_exists in H1. destruct H1 as [y [J Ey]]. apply Z.eqb_eq in Ey. subst. rewrite Nat.add_0_r. auto.
      - replace (k + S r) with (S k + r) by lia. apply (IH (S k) H2 r l g); auto. }
    apply (G 0 ls H). }
  assert (D2 : forall known (ls : list (list (Z * Z))), (forall r l g, nth_error (map (map fst) ls) r = Some l -> In g l -> In g (nth r known [])) ->
    forall r l p, nth_error ls r = Some l -> In p l -> In (fst p) (nth r known [])).
  { intros known ls H r l p E I. apply (H r (map fst l)); [rewrite nth_error_map, E; reflexivity|apply in_map; auto]. }
  unfold evs63, h63, h3. cbn [nth_error allowed_all].
  split; [split; [exact A1|split; [exact A2|split; [exact A3|exact I]]]|].
  split; [exact I|].
  split; [split; [discriminate|split; [reflexivity|apply D2, D; vm_compute; reflexivity]]|].
  split; [split; [discriminate|split; [reflexivity|apply D2, D; vm_compute; reflexivity]]|].
  split; [eexists; split; [reflexivity|reflexivity]|].
  split; [split; [reflexivity|split; [reflexivity|split; [reflexivity|split; [apply D; vm_compute; reflexivity|]]]]|].
  { intros [|[|[|r]]] l v0 E1 E2; cbn in E1, E2; try (injection E1 as <-; injection E2 as <-; reflexivity). destruct r; discriminate. }
  split; [split; [reflexivity|]|].
  { intros [|[|[|r]]] l v0 E1 E2; cbn in E1, E2; try (injection E1 as <-; injection E2 as <-; reflexivity). destruct r; discriminate. }
  split; [split; [exact B1|split; [exact B2|split; [exact B3|exact I]]]|].
  split; [split; [reflexivity|split; [reflexivity|split; [reflexivity|split; [apply D; vm_compute; reflexivity|]]]]|].
  { intros [|[|[|r]]] l v0 E1 E2; cbn in E1, E2; try (injection E1 as <-; injection E2 as <-; reflexivity). destruct r; discriminate. }
  split; [exact I|].
  split; [split; [reflexivity|split; [reflexivity|split; [reflexivity|split; [apply D; vm_compute; reflexivity|]]]]|exact I].
  { intros [|[|[|r]]] l v0 E1 E2; cbn in E1, E2; try (injection E1 as <-; injection E2 as <-; reflexivity). destruct r; discriminate. }
Qed.

Example C63_hypotheses : commutative_monoid Z.add 0%Z /\ ownership owner3 own3 /\
  (forall e ev, In (e, ev) (map (fun ev => (e63, ev)) evs63) -> forall r, device_ok (e_ds e r)) /\
  allowed_all Z.add 0%Z (fun x => 10 * x)%Z owner3 own3 (surface_zero 0%Z own3) (map snd (map (fun ev => (e63, ev)) evs63)).
Proof.
  split; [split; intros; lia|]. split; [apply ownership3|]. split.
  - intros e ev I r. apply in_map_iff in I. destruct I as [x [[= <- <-] _]]. apply dev62_ok.
  - rewrite map_map. rewrite map_id. apply allowed63.
Qed.

Example C63_values : forall aware, exists w fs,
  exec_all Z.add 0%Z (fun x => 10 * x)%Z aware true (surface_start 0%Z (fun _ _ => 99%Z) own3) (map (fun ev => (e63, ev)) evs63)
  = Some ((w, fs), [[[20; 130; 130]; [130; 480]; []]; [[300; 310]; [70]; []]; [[3; 3]; [3]; []]])%Z /\
  map get_dofs fs = [[3; 3]; [3]; [3; 3]]%Z.
Proof. intros [|]; eexists; eexists; split; vm_compute; reflexivity. Qed.

(** New facets during a projection: rank 0 sees its own facets 10 and 11 and is then told
    of facet 20, after the projection was initialised. *)
Definition g2a : list graph := [Graph [0] [0] [0] [0]; Graph [1] [1] [1] [1]].
Definition g2b : list graph := [Graph [1; 0] [0] [0; 1] [0]; Graph [1] [0; 1] [1] [1; 0]].
Definition own2 : list (list Z) := [[10; 11]; [20]]%Z.

Lemma allowed_ext own known ids gs (p : option (projection Z)) v :
  (match p with Some q => p_full q = true | None => True end) ->
  length ids = length own -> (forall l, In l ids -> pairs_ok owner3 own l) -> mpi_neighbours owner3 (extend_known known (map ids_of ids)) gs ->
  allowed owner3 own (Surface known v p) (EExtend ids gs).
Proof. intros. repeat (split; auto). Qed.

Example C63_facets_seen_during_a_projection :
  let evs := [EExtend [[(0, 10%Z); (0, 11%Z)]; [(1, 20%Z)]] g2a; EInitialise; EContribute [[(11, 5)]; [(20, 2)]]%Z;
              EExtend [[(1, 20%Z)]; []] g2b; EContribute [[(20, 1)]; []]%Z; EFinalise; EEvaluate [[20; 11]; []]%Z [[0; 0]; []]%Z] in
  allowed_all Z.add 0%Z (fun x => x) owner3 own2 (surface_zero 0%Z own2) evs /\
  exists w fs, exec_all Z.add 0%Z (fun x => x) true true (surface_start 0%Z (fun _ _ => 99%Z) own2) (map (fun ev => (e63, ev)) evs)
    = Some ((w, fs), [[[3; 5]; []]])%Z /\ map get_dofs fs = [[0; 5]; [3]]%Z.
Proof.
  cbv zeta. split; [|eexists; eexists; split; vm_compute; reflexivity].
  cbn [allowed_all].
  split.
  { apply allowed_ext; [exact I|reflexivity| |].
    - intros l J d g K. cbn in J. destruct J as [<-|[<-|[]]]; cbn in K; intuition (try (injection H as <- <-); try (injection H0 as <- <-)); try reflexivity; eexists; split; try reflexivity; cbn; auto.
    - split; [reflexivity|]. intros [|[|r]] g E; cbn [nth_error] in E; [| |destruct r; discriminate]; injection E as <-; cbn [g_dests g_srcs g_rsrcs g_rdests].
      all: split; [repeat constructor; cbn; intuition discriminate|]; split; [apply dests_dec; vm_compute; reflexivity|].
      all: split; [repeat constructor; cbn; intuition discriminate|]; split; [apply srcs_dec; vm_compute; reflexivity|].
      all: split; apply Permutation_refl. }
  split; [exact I|].
  split.
  { split; [discriminate|]. split; [reflexivity|]. intros [|[|r]] l p E J; cbn in E; [injection E as <-|injection E as <-|destruct r; discriminate]; cbn in J; destruct J as [<-|[]]; vm_compute; auto. }
  split.
  { apply allowed_ext; [reflexivity|reflexivity| |].
    - intros l J d g K. cbn in J. destruct J as [<-|[<-|[]]]; cbn in K; [|destruct K]. destruct K as [[= <- <-]|[]]. split; [reflexivity|]. eexists. split; [reflexivity|cbn; auto].
    - split; [reflexivity|]. intros [|[|r]] g E; cbn [nth_error] in E; [| |destruct r; discriminate]; injection E as <-; cbn [g_dests g_srcs g_rsrcs g_rdests].
      all: split; [repeat constructor; cbn; intuition discriminate|]; split; [apply dests_dec; vm_compute; reflexivity|].
      all: split; [repeat constructor; cbn; intuition discriminate|]; split; [apply srcs_dec; vm_compute; reflexivity|].
      all: split; try apply Permutation_refl; apply perm_swap. }
  split.
  { split; [discriminate|]. split; [reflexivity|]. intros [|[|r]] l p E J; cbn in E; [injection E as <-|injection E as <-|destruct r; discriminate]; cbn in J; [|destruct J]. destruct J as [<-|[]]; vm_compute; auto. }
  split; [eexists; split; reflexivity|].
  split; [|exact I].
  split; [reflexivity|]. split; [reflexivity|]. split; [reflexivity|]. split.
  - intros [|[|r]] l g E J; cbn in E; [injection E as <-|injection E as <-|destruct r; discriminate]; cbn in J; [|destruct J]. destruct J as [<-|[<-|[]]]; vm_compute; auto.
  - intros [|[|r]] l g E J; cbn in E, J; [injection E as <-; injection J as <-; reflexivity|injection E as <-; injection J as <-; reflexivity|destruct r; discriminate].
Qed.

(** The restrictions on new facets during a projection are needed.  If a rank owns more
    facets than it had seen, contributions to a new facet are added to memory that was
    never set. *)
Theorem C63_new_facets_read_unset_memory_refuted :
  exists (evs : list (env Z * event Z)) junk junk' w fs w' fs',
    map snd evs = [EExtend [[(0, 10%Z)]; []] [Graph [0] [0] [0] [0]; Graph [] [] [] []]; EInitialise;
                   EExtend [[(0, 11%Z)]; []] [Graph [0] [0] [0] [0]; Graph [] [] [] []]; EContribute [[(11, 5)]; []]%Z; EFinalise] /\
    (forall e ev, In (e, ev) evs -> forall r, device_ok (e_ds e r)) /\
    exec_all Z.add 0%Z (fun x => x) true true (surface_start 0%Z junk own2) evs = Some ((w, fs), []) /\
    exec_all Z.add 0%Z (fun x => x) true true (surface_start 0%Z junk' own2) evs = Some ((w', fs'), []) /\
    map get_dofs fs = [[0; 5]; [0]]%Z /\ map get_dofs fs' = [[0; 104]; [0]]%Z.
Proof.
  exists (map (fun ev => (e63, ev)) [EExtend [[(0, 10%Z)]; []] [Graph [0] [0] [0] [0]; Graph [] [] [] []]; EInitialise;
                   EExtend [[(0, 11%Z)]; []] [Graph [0] [0] [0] [0]; Graph [] [] [] []]; EContribute [[(11, 5)]; []]%Z; EFinalise]).
  exists (fun _ _ => 0%Z), (fun _ _ => 99%Z). do 4 eexists.
  split; [reflexivity|]. split; [intros e ev J r; apply in_map_iff in J; destruct J as [x [[= <- <-] _]]; apply dev62_ok|].
  split; [vm_compute; reflexivity|]. split; [vm_compute; reflexivity|]. split; reflexivity.
Qed.
Print Assumptions C63_new_facets_read_unset_memory_refuted.

(** If there is no contribution after the new facets were seen, the end of the projection
    reads beyond the end of the buffer. *)
Theorem C63_no_contribution_after_new_facets_refuted :
  exists (evs : list (env Z * event Z)),
    map snd evs = [EExtend [[(0, 10%Z); (0, 11%Z)]; [(1, 20%Z)]] g2a; EInitialise; EContribute [[(11, 5)]; [(20, 2)]]%Z;
              EExtend [[(1, 20%Z)]; []] g2b; EFinalise] /\
    (forall e ev, In (e, ev) evs -> forall r, device_ok (e_ds e r)) /\
    exec_all Z.add 0%Z (fun x => x) true true (surface_start 0%Z (fun _ _ => 0%Z) own2) evs = None.
Proof.
  exists (map (fun ev => (e63, ev)) [EExtend [[(0, 10%Z); (0, 11%Z)]; [(1, 20%Z)]] g2a; EInitialise; EContribute [[(11, 5)]; [(20, 2)]]%Z;
              EExtend [[(1, 20%Z)]; []] g2b; EFinalise]).
  split; [reflexivity|]. split; [intros e ev J r; apply in_map_iff in J; destruct J as [x [[= <- <-] _]]; apply dev62_ok|]. vm_compute. reflexivity.
Qed.
Print Assumptions C63_no_contribution_after_new_facets_refuted.
