(** post_integration as a whole. *)
From Coq Require Import List Arith ZArith QArith Qabs Bool Lia Lqa Permutation.
Import ListNotations.
From Verif Require Import Base Kernel Mesh_Model Mesh_Spec MeshPos_Proofs CartMesh_Model CartMesh_Spec CartMesh_Proofs CartFace_Model CartFace_Spec CartFace_Proofs
  CartMap_Spec CartMap_Proofs Traj_Model Traj_Spec Traj_Proofs Traj2_Proofs.
Local Open Scope nat_scope.

Lemma nth_error_at (l : list Q) i : i < length l -> nth_error l i = Some (at_ l i).
Proof. intros L. unfold at_. apply nth_error_nth'. exact L. Qed.

Lemma realloc_len {A} (fresh : nat -> A) buf size : size <= length (realloc_no_copy fresh buf size).
Proof. unfold realloc_no_copy. destruct (Nat.ltb_spec (length buf) size); [rewrite map_length, seq_length|]; lia. Qed.

Section All.
  Context (m : cmesh) (H : cmesh_ok m) (N2 : (2 <= ndim (hier m))%nat) (tol : Q) (T0 : (0 <= tol)%Q) (T1 : (tol < fine_width (hier m))%Q).
  Notation nd := (ndim (hier m)).
  Notation h := (hier m).
  Definition exts : list Q := arr3 nd (fun i => (extent h * inject_Z (nth i (dims h) 0%Z))%Q) 0%Q.
  Lemma exts_eq i : (i < nd)%nat -> (nt exts i == length_of m i)%Q.
  Proof.
    intros L. rewrite (len_eq m i L). unfold nt. assert (L3 : (i < 3)%nat) by (pose proof (nd_le m H); lia).
    pose proof (arr3_rd nd (fun i => (extent h * inject_Z (nth i (dims h) 0%Z))%Q) 0%Q i L3) as R. unfold rd in R. apply (nth_error_nth _ _ 0%Q) in R. unfold exts. rewrite R.
    destruct (Nat.ltb_spec i nd); [reflexivity|lia].
  Qed.
  Lemma exts_len : length exts = 3.
  Proof. reflexivity. Qed.
  Lemma tol_len i : (tol < length_of m i)%Q.
  Proof.
    pose proof (grid_pos m H i) as G. pose proof (wpos m H). unfold length_of. assert (1 <= inject_Z (grid m i))%Q by (change 1%Q with (inject_Z 1); rewrite <- Zle_Qle; lia). nra.
  Qed.
  Lemma tol_ext i : (i < nd)%nat -> (tol < nt exts i)%Q.
  Proof. intros L. rewrite (exts_eq i L). apply tol_len. Qed.

  Definition depb (p : tpart) : bool := existsb (fun i => Qle_bool (at_ (pos p) i) 0 || Qle_bool (nt exts i) (at_ (pos p) i)) (seq 0 nd).
  Lemma depb_iff p : depb p = true <-> ~ inside m (at_ (pos p)).
  Proof.
    unfold depb, inside. rewrite existsb_exists. split.
    - intros (i & I & B) X. apply in_seq in I. specialize (X i ltac:(lia)). apply orb_true_iff in B. destruct B as [B|B]; apply Qle_bool_iff in B; [lra|].
      rewrite (exts_eq i ltac:(lia)) in B. lra.
    - intros X. destruct (existsb (fun i => Qle_bool (at_ (pos p) i) 0 || Qle_bool (nt exts i) (at_ (pos p) i)) (seq 0 nd)) eqn:E; [apply existsb_exists; exact E|].
      exfalso. apply X. intros i L. assert (F : forall j, In j (seq 0 nd) -> Qle_bool (at_ (pos p) j) 0 || Qle_bool (nt exts j) (at_ (pos p) j) = false).
      { intros j Ij. destruct (Qle_bool (at_ (pos p) j) 0 || Qle_bool (nt exts j) (at_ (pos p) j)) eqn:Q; [|reflexivity].
        assert (existsb (fun i => Qle_bool (at_ (pos p) i) 0 || Qle_bool (nt exts i) (at_ (pos p) i)) (seq 0 nd) = true) by (apply existsb_exists; eauto). congruence. }
      specialize (F i ltac:(apply in_seq; lia)). apply orb_false_iff in F. destruct F as [A B]. apply Qle_bool_false in A, B. rewrite (exts_eq i L) in B. split; assumption.
  Qed.
  Lemma departing_ok p : length (pos p) = nd -> departing nd exts (pos p) = Some (depb p).
  Proof.
    intros L. unfold depb. pose proof (nd_cases m H N2) as C. destruct (list3 exts exts_len) as (e0 & e1 & e2 & ->). unfold departing, at_, nt.
    destruct C as [E|E]; rewrite E in *.
    - destruct (list2 _ L) as (a & b & ->). unfold rd. cbn [nth_error obind Nat.eqb seq existsb nth]. rewrite orb_false_r, !orb_assoc. reflexivity.
    - destruct (list3 _ L) as (a & b & c & ->). unfold rd. cbn [nth_error obind Nat.eqb seq existsb nth]. rewrite orb_false_r, !orb_assoc. reflexivity.
  Qed.

  Definition W (p : tpart) : found_face := match intersect nd exts tol (pos p) (prev p) with Some w => w | None => mk_found [] 0 false end.
  Definition side (p : tpart) : nat := Z.to_nat (ff_face (W p)).
  Definition point (p : tpart) : list Q := ff_point (W p).

  Lemma face_of_lt q i : (i < nd)%nat -> (face_of tol q i < 2 * nd)%nat /\ side_dim (face_of tol q i) = i /\ side_high (face_of tol q i) = negb (base tol (q i)).
  Proof.
    intros L. pose proof (nd_le m H). destruct i as [|[|[|i]]]; [..|lia]; unfold face_of, side_dim, side_high;
      match goal with |- context [base tol ?x] => destruct (base tol x) end; cbn [nth negb]; (split; [lia|split; reflexivity]).
  Qed.
  Lemma W_ok p : length (pos p) = nd -> length (prev p) = nd -> moves m p -> ~ inside m (at_ (pos p)) ->
    intersect nd exts tol (pos p) (prev p) = Some (W p) /\ length (ff_point (W p)) = nd /\ ff_found (W p) = true /\ ff_face (W p) = Z.of_nat (side p) /\
    leaves_through m tol p (side p) (point p).
  Proof.
    intros L1 L2 (D & M) O. destruct M as [M|(k & Lk & Mk & Nk)]; [contradiction|].
    destruct (intersect_ok nd exts tol (pos p) (prev p) (nd_cases m H N2) exts_len L1 L2 T0 tol_ext) as (w & i & E & Lw & F & Li & Fi & t & R & Tp & Pp & B).
    { intros i L. rewrite (exts_eq i L). specialize (D i L). unfold nt, at_ in *. lra. }
    { exists k. split; [exact Lk|]. split; [|exact Nk]. intros (X1 & X2). apply Mk. rewrite (exts_eq k Lk) in X2. split; assumption. }
    unfold side, point, W. rewrite E. destruct (face_of_lt (nt (pos p)) i Li) as (G1 & G2 & G3). split; [reflexivity|]. split; [exact Lw|]. split; [exact F|].
    rewrite Fi, Nat2Z.id. split; [reflexivity|]. split; [exact G1|]. split; [exact Lw|]. exists t. split; [exact R|]. split; [exact Tp|]. split.
    - rewrite G2, G3. unfold at_, nt in *. rewrite Pp. unfold pl, plane. destruct (base tol (nth i (pos p) 0%Q)); cbn [negb]; [reflexivity|]. apply (exts_eq i Li).
    - intros j Lj. specialize (B j Lj). unfold at_, nt in *. pose proof (exts_eq j Lj) as Q. unfold nt in Q. rewrite Q in B. exact B.
  Qed.

  (** The face cell that is written. *)
  Definition l0 (f : nat) (x : list Q) : Z := fcell m (dA f) (at_ x (dA f)).
  Definition l1 (f : nat) (x : list Q) : Z := fcell m (dB f) (if (nd =? 3) then at_ x (dB f) else 0%Q).
  Lemma l_tok f x : (f < 2 * nd)%nat -> in_domain m tol (at_ x) -> tok m f (l0 f x) (l1 f x).
  Proof.
    intros L D. split; [exact L|]. pose proof (nd_cases m H N2) as C. split.
    - assert (Ld : (dA f < nd)%nat) by (unfold dA; destruct C as [E|E]; rewrite E in *; destruct f as [|[|[|[|[|[|f]]]]]]; cbn [nth]; lia).
      apply (fcell_ok m H N2 (dA f) tol); [exact T0|exact T1|]. apply (D _ Ld).
    - apply (fcell_ok m H N2 (dB f) tol); [exact T0|exact T1|]. destruct C as [E|E]; rewrite E in *; cbn [Nat.eqb]; [lra|].
      apply D. rewrite E. unfold dB. destruct f as [|[|[|[|[|[|f]]]]]]; cbn [nth]; lia.
  Qed.
  Lemma l_facet f x : (f < 2 * nd)%nat -> in_domain m tol (at_ x) -> facet_of_point m f (cellt m f (l0 f x) (l1 f x)) x.
  Proof.
    intros L D. pose proof (l_tok f x L D) as T. split; [apply (cellt_ok m H N2); exact T|]. intros i Li Ni.
    assert (E : nth i (cellt m f (l0 f x) (l1 f x)) 0%Z = fcell m i (at_ x i)).
    { pose proof (nd_le m H). unfold cellt. assert (R : nth i (map (fun i0 => if i0 =? side_dim f then lastv m f else if i0 =? dA f then l0 f x else l1 f x) [0; 1; 2]) 0%Z =
        (if i =? side_dim f then lastv m f else if i =? dA f then l0 f x else l1 f x)) by (destruct i as [|[|[|i]]]; [reflexivity..|lia]). rewrite R. clear R.
      destruct (Nat.eqb_spec i (side_dim f)); [contradiction|]. unfold l0, l1. destruct (Nat.eqb_spec i (dA f)) as [->|Na]; [reflexivity|].
      destruct (nd_cases m H N2) as [C|C]; rewrite C in *; cbn [Nat.eqb].
      - exfalso. unfold side_dim, dA in *. destruct f as [|[|[|[|f]]]]; cbn [nth] in *; lia.
      - assert (Ei : i = dB f). { unfold side_dim, dA, dB in *. destruct f as [|[|[|[|[|[|f]]]]]]; cbn [nth] in *; lia. } rewrite <- Ei. reflexivity. }
    rewrite E. apply (fcell_ok m H N2 i tol); [exact T0|exact T1|]. apply (D i Li).
  Qed.

  Definition nrm (f : nat) : list Q := firstn nd (nth f normals []).
  Lemma nrm_ok f : (f < 2 * nd)%nat -> inward_normal m f (nrm f).
  Proof.
    intros L. unfold nrm, inward_normal. destruct (nd_cases m H N2) as [E|E]; rewrite E in *.
    - destruct f as [|[|[|[|f]]]]; [..|lia]; (split; [reflexivity|]); intros [|[|i]] Li; try lia; reflexivity.
    - destruct f as [|[|[|[|[|[|f]]]]]]; [..|lia]; (split; [reflexivity|]); intros [|[|[|i]]] Li; try lia; reflexivity.
  Qed.
  Lemma nrm_rd f : (f < 2 * nd)%nat -> exists row, rd normals f = Some row /\ mapM (rd row) (seq 0 nd) = Some (nrm f).
  Proof.
    intros L. unfold nrm. destruct (nd_cases m H N2) as [E|E]; rewrite E in *.
    - destruct f as [|[|[|[|f]]]]; [..|lia]; eexists; (split; reflexivity).
    - destruct f as [|[|[|[|[|[|f]]]]]]; [..|lia]; eexists; (split; reflexivity).
  Qed.

  Section Dep.
    Variables (dep : list tpart) (b : bufs) (mp : list Z).
    Hypothesis HW : forall p, In p dep -> length (ff_point (W p)) = nd /\ ff_face (W p) = Z.of_nat (side p) /\ leaves_through m tol p (side p) (point p).
    Hypothesis Wr : forall i, i < length dep -> written nd dep W b i.
    Hypothesis Lm : length mp = 6.

    Lemma idx p : In p dep -> exists i, i < length dep /\ nth_error (k_lut b) (lin p) = Some (Z.of_nat i) /\ nth_error (k_buffer_int b) i = Some (Z.of_nat (side p)) /\
      forall dx, dx < nd -> nth_error (k_buffer b) (length dep * dx + i) = nth_error (point p) dx.
    Proof.
      intros I. apply In_nth_error in I as (i & Ei). assert (Li : i < length dep) by (apply nth_error_Some; congruence). exists i. split; [exact Li|].
      destruct (Wr i Li p Ei) as (A & B & C). destruct (HW p (nth_error_In _ _ Ei)) as (_ & F & _). split; [exact C|]. split; [rewrite B, F; reflexivity|]. exact A.
    Qed.
    Lemma side_lt p : In p dep -> side p < 2 * nd /\ side p < 6.
    Proof. intros I. destruct (HW p I) as (_ & _ & L & _). pose proof (nd_le m H). lia. Qed.
    Lemma in_group_ok g p : In p dep -> in_group b mp g p = Some (Z.eqb (nth (side p) mp 0%Z) g).
    Proof.
      intros I. destruct (idx p I) as (i & Li & E1 & E2 & _). unfold in_group, rd. rewrite E1. cbn [obind].
      assert (X : (0 <=? Z.of_nat i)%Z = true) by (apply Z.leb_le; lia). rewrite X. cbn [assert obind]. rewrite Nat2Z.id, E2. cbn [obind].
      assert (Y : (0 <=? Z.of_nat (side p))%Z = true) by (apply Z.leb_le; lia). rewrite Y. cbn [assert obind]. rewrite Nat2Z.id.
      rewrite (nth_error_nth' mp 0%Z) by (rewrite Lm; apply (side_lt p I)). reflexivity.
    Qed.
    Lemma collect_ok p : In p dep -> collect_information m (length dep) b mp p =
      Some (mk_hit p (point p) (nrm (side p)) [nth (side p) mp 0%Z; idof m (side p) (l0 (side p) (point p)) (l1 (side p) (point p))]).
    Proof.
      intros I. destruct (idx p I) as (i & Li & E1 & E2 & E3). destruct (HW p I) as (Lp & Fp & LT). destruct (side_lt p I) as (S1 & S2). unfold collect_information, rd at 1. rewrite E1. cbn [obind].
      assert (X : (0 <=? Z.of_nat i)%Z = true) by (apply Z.leb_le; lia). rewrite X. cbn [assert obind]. rewrite Nat2Z.id. unfold rd at 1. rewrite E2. cbn [obind].
      assert (Y : (0 <=? Z.of_nat (side p))%Z = true) by (apply Z.leb_le; lia). rewrite Y. cbn [assert obind]. rewrite Nat2Z.id. unfold rd at 1.
      rewrite (nth_error_nth' mp 0%Z) by (rewrite Lm; exact S2). cbn [obind].
      assert (MP : mapM (fun dx => rd (k_buffer b) (length dep * dx + i)) (seq 0 nd) = Some (point p)).
      { rewrite (mapM_some _ (at_ (point p))). 2:{ intros dx Id. apply in_seq in Id. unfold rd. rewrite E3 by lia. apply nth_error_at. unfold point. lia. }
        f_equal. apply nth_error_ext. intros j. destruct (Nat.lt_ge_cases j nd) as [Lj|Lj].
        - rewrite (map_nth_error _ j (seq 0 nd) (d := j)); [symmetry; apply nth_error_at; unfold point; lia|]. rewrite nth_error_seq. destruct (Nat.ltb_spec j nd); [reflexivity|lia].
        - rewrite !(proj2 (nth_error_None _ _)); [reflexivity|unfold point; lia|rewrite map_length, seq_length; lia]. }
      rewrite MP. cbn [obind]. destruct (nrm_rd (side p) S1) as (row & R1 & R2). rewrite R1. cbn [obind]. rewrite R2. cbn [obind].
      assert (Fi : rd facet_to_indices (side p) = Some (dA (side p), dB (side p))).
      { unfold facet_to_indices, dA, dB, rd. destruct (side p) as [|[|[|[|[|[|f]]]]]]; [reflexivity..|lia]. }
      rewrite Fi. cbn [obind fst snd].
      assert (LdA : dA (side p) < nd). { unfold dA. destruct (nd_cases m H N2) as [C|C]; rewrite C in *; destruct (side p) as [|[|[|[|[|[|f]]]]]]; cbn [nth]; lia. }
      unfold rd at 1. rewrite (nth_error_at (point p)) by (unfold point; lia). cbn [obind].
      assert (P1 : (if nd =? 3 then rd (point p) (dB (side p)) else Some 0%Q) = Some (if nd =? 3 then at_ (point p) (dB (side p)) else 0%Q)).
      { destruct (Nat.eqb_spec nd 3) as [C|C]; [|reflexivity]. unfold rd. apply nth_error_at. unfold point. rewrite Lp, C. unfold dB. destruct (side p) as [|[|[|[|[|[|f]]]]]]; cbn [nth]; lia. }
      rewrite P1. cbn [obind]. destruct (est0 m H N2 (side p) S1) as (s0 & Es0 & R0). destruct (est1 m H N2 (side p) S1) as (s1 & Es1 & R1'). destruct (offsets_rd m H N2 (side p) S2) as (o & Eo & Ro).
      rewrite Es0. cbn [obind]. rewrite Es1. cbn [obind]. rewrite Eo. cbn [obind]. rewrite R0. cbn [obind]. rewrite R1'. cbn [obind]. rewrite Ro. cbn [obind]. reflexivity.
    Qed.
  End Dep.

  Lemma post_ok groups parts npart b0 fq fz sched : groups_ok m groups -> parts_ok m parts npart -> (forall l, Permutation (sched l) l) ->
    (forall p, In p parts -> moves m p) ->
    let dep := filter depb parts in
    exists mp, length mp = 6 /\
      (forall f, (f < 6)%nat -> (exists g, nth_error mp f = Some g /\ group_of groups f g) \/ (nth_error mp f = Some MASK_VALUE /\ forall g fs, In (g, fs) groups -> ~ In (Z.of_nat f) fs)) /\
      post_integration m tol groups parts npart b0 fq fz sched =
      Some (map (fun bx => (fst bx, map (fun p => mk_hit p (point p) (nrm (side p)) [nth (side p) mp 0%Z; idof m (side p) (l0 (side p) (point p)) (l1 (side p) (point p))])
                                     (filter (fun p => Z.eqb (nth (side p) mp 0%Z) (fst bx)) dep))) groups).
  Proof.
    intros (GA & GB) (ND & PB) SP M dep.
    destruct (group_map_ok nd groups (nd_cases m H N2) GA) as (mp & Emp & Lmp & Rmp); [intros g fs I; apply (GB g fs I)|].
    exists mp. split; [exact Lmp|]. split; [exact Rmp|]. unfold post_integration. cbv zeta.
    assert (X : ((nd =? 2) || (nd =? 3)) = true) by (destruct (nd_cases m H N2) as [E|E]; rewrite E; reflexivity). rewrite X. cbn [assert obind].
    unfold k_extents. rewrite (extents_eq m H). cbn [obind]. fold exts.
    rewrite (select_ok _ depb) by (intros p I; apply departing_ok; apply (PB p I)). cbn [obind]. fold dep.
    assert (ID : forall p, In p dep -> In p parts /\ ~ inside m (at_ (pos p))).
    { intros p I. unfold dep in I. apply filter_In in I. destruct I as (I & D). split; [exact I|]. apply depb_iff. exact D. }
    assert (HW : forall p, In p dep -> intersect nd exts tol (pos p) (prev p) = Some (W p) /\ length (ff_point (W p)) = nd /\ ff_found (W p) = true /\ ff_face (W p) = Z.of_nat (side p) /\ leaves_through m tol p (side p) (point p)).
    { intros p I. destruct (ID p I) as (I1 & I2). destruct (PB p I1) as (_ & L1 & L2). apply W_ok; [exact L1|exact L2|apply M; exact I1|exact I2]. }
    assert (ND' : NoDup (map lin dep)).
    { unfold dep. clear -ND. induction parts as [|p l IH]; [constructor|]. cbn [map] in ND. inversion ND as [|? ? N1 N2']; subst. cbn [filter]. destruct (depb p); [|apply IH; exact N2'].
      cbn [map]. constructor; [|apply IH; exact N2']. intros X. apply N1. apply in_map_iff in X. destruct X as (q & E & I). apply filter_In in I. apply in_map_iff. exists q. tauto. }
    match goal with |- context [foldM _ ?b (sched _)] => set (b1 := b) end.
    destruct (steps_ok nd exts tol dep W) with (b0 := b1) (sched := sched (seq 0 (length dep))) as (b & Eb & Wr).
    { intros p I. destruct (HW p I) as (A & B & C & _). auto. }
    { exact ND'. }
    { apply SP. }
    { intros p I. unfold b1. cbn [k_lut]. pose proof (realloc_len fz (k_lut b0) npart). destruct (PB p (proj1 (ID p I))) as (L & _). lia. }
    { unfold b1. cbn [k_buffer]. apply realloc_len. }
    { unfold b1. cbn [k_buffer_int]. apply realloc_len. }
    rewrite Eb. cbn [obind].
    assert (HW' : forall p, In p dep -> length (ff_point (W p)) = nd /\ ff_face (W p) = Z.of_nat (side p) /\ leaves_through m tol p (side p) (point p)).
    { intros p I. destruct (HW p I) as (_ & A & _ & B & C). auto. }
    rewrite (mapM_some _ (fun _ => true)).
    2:{ intros p I. destruct (idx dep b HW' Wr p I) as (i & _ & E1 & _). unfold rd. rewrite E1. cbn [obind]. f_equal. apply Z.ltb_lt. lia. }
    cbn [obind]. assert (Y : forallb (fun x : bool => x) (map (fun _ : tpart => true) dep) = true) by (clear; induction dep; [reflexivity|exact IHdep]).
    rewrite Y. cbn [assert obind]. rewrite Emp. cbn [obind]. apply mapM_some. intros [g fs] I. cbn [fst].
    rewrite (select_ok _ (fun p => Z.eqb (nth (side p) mp 0%Z) g)) by (intros p Ip; apply (in_group_ok dep b mp HW' Wr Lmp); exact Ip). cbn [obind].
    rewrite (mapM_some _ (fun p => mk_hit p (point p) (nrm (side p)) [nth (side p) mp 0%Z; idof m (side p) (l0 (side p) (point p)) (l1 (side p) (point p))])).
    2:{ intros p Ip. apply filter_In in Ip. apply (collect_ok dep b mp HW' Wr Lmp). apply Ip. }
    reflexivity.
  Qed.
End All.
