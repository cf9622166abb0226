(** The buffers, groups and face cells of the trajectory intersection. *)
From Coq Require Import List Arith ZArith QArith Qabs Bool Lia Lqa Permutation.
Import ListNotations.
From Verif Require Import Base Kernel Mesh_Model Mesh_Spec MeshPos_Proofs CartMesh_Model CartMesh_Spec CartMesh_Proofs CartFace_Model CartFace_Spec CartFace_Proofs
  CartMap_Spec CartMap_Proofs Traj_Model Traj_Spec Traj_Proofs.
Local Open Scope nat_scope.

Lemma select_ok {A} (f : A -> option bool) (g : A -> bool) l : (forall a, In a l -> f a = Some (g a)) -> select f l = Some (filter g l).
Proof.
  intros H. unfold select. rewrite (mapM_some f g l H). cbn [obind]. f_equal. clear H. induction l as [|a l IH]; [reflexivity|]. cbn [map combine filter snd].
  destruct (g a); cbn [map fst]; rewrite IH; reflexivity.
Qed.

Lemma write_point n i (pt : list Q) : forall nd kb, i < n -> length pt = nd -> nd * n <= length kb ->
  exists kb', foldM (fun kb dx => v <- rd pt dx ;; upd kb (n * dx + i) v) kb (seq 0 nd) = Some kb' /\ length kb' = length kb /\
    (forall dx, dx < nd -> nth_error kb' (n * dx + i) = nth_error pt dx) /\
    (forall j, (forall dx, dx < nd -> j <> n * dx + i) -> nth_error kb' j = nth_error kb j).
Proof.
  intros nd kb Li Lp Lk.
  destruct (foldM_ind (fun kb dx => v <- rd pt dx ;; upd kb (n * dx + i) v)
    (fun pre (k : list Q) => length k = length kb /\ (forall dx, In dx pre -> nth_error k (n * dx + i) = nth_error pt dx) /\
       (forall j, (forall dx, In dx pre -> j <> n * dx + i) -> nth_error k j = nth_error kb j)) (seq 0 nd) kb) as (kb' & E & L & I & O).
  - split; [reflexivity|]. split; [intros dx []|]. reflexivity.
  - intros pre dx post k Es (L & I & O). assert (Ld : dx < nd). { assert (In dx (seq 0 nd)) by (rewrite Es; apply in_or_app; right; left; reflexivity). apply in_seq in H. lia. }
    destruct (nth_error pt dx) as [v|] eqn:Ev; [|apply nth_error_None in Ev; lia]. unfold rd at 1. rewrite Ev. cbn [obind].
    destruct (upd_some k (n * dx + i) v) as [k' Ek]; [nia|]. exists k'. split; [exact Ek|]. split; [rewrite (upd_length _ _ _ _ Ek); exact L|]. split.
    + intros d Hd. rewrite (upd_nth _ _ _ _ _ Ek). destruct (Nat.eqb_spec (n * d + i) (n * dx + i)) as [X|X].
      * assert (d = dx) by nia. subst. symmetry. exact Ev.
      * apply in_app_or in Hd. destruct Hd as [Hd|[<-|[]]]; [apply I; exact Hd|congruence].
    + intros j Hj. rewrite (upd_nth_neq _ _ _ _ _ Ek); [|apply Hj; apply in_or_app; right; left; reflexivity].
      apply O. intros d Hd. apply Hj. apply in_or_app. left. exact Hd.
  - exists kb'. split; [exact E|]. split; [exact L|]. split.
    + intros dx Ld. apply I. apply in_seq. lia.
    + intros j Hj. apply O. intros dx Hd. apply in_seq in Hd. apply Hj. lia.
Qed.

Section Buffers.
  Variables (nd : nat) (ext : list Q) (tol : Q) (dep : list tpart) (W : tpart -> found_face).
  Notation n := (length dep).
  Hypothesis HW : forall p, In p dep -> intersect nd ext tol (pos p) (prev p) = Some (W p) /\ length (ff_point (W p)) = nd /\ ff_found (W p) = true.
  Hypothesis ND : NoDup (map lin dep).

  Definition written (b : bufs) (i : nat) : Prop := forall p, nth_error dep i = Some p ->
    (forall dx, dx < nd -> nth_error (k_buffer b) (n * dx + i) = nth_error (ff_point (W p)) dx) /\
    nth_error (k_buffer_int b) i = Some (ff_face (W p)) /\ nth_error (k_lut b) (lin p) = Some (Z.of_nat i).

  Lemma lin_inj i j p q : nth_error dep i = Some p -> nth_error dep j = Some q -> lin p = lin q -> i = j.
  Proof.
    intros Ei Ej E. apply (proj1 (NoDup_nth_error (map lin dep)) ND).
    - rewrite map_length. apply nth_error_Some. congruence.
    - rewrite (map_nth_error lin _ _ Ei), (map_nth_error lin _ _ Ej). congruence.
  Qed.

  Lemma steps_ok b0 sched : Permutation sched (seq 0 n) -> (forall p, In p dep -> lin p < length (k_lut b0)) ->
    nd * n <= length (k_buffer b0) -> n <= length (k_buffer_int b0) ->
    exists b, foldM (intersect_step nd ext tol dep) b0 sched = Some b /\ forall i, i < n -> written b i.
  Proof.
    intros Pm Hl Hb Hi. assert (NS : NoDup sched) by (eapply Permutation_NoDup; [symmetry; exact Pm|apply seq_NoDup]).
    destruct (foldM_ind (intersect_step nd ext tol dep)
      (fun pre b => length (k_buffer b) = length (k_buffer b0) /\ length (k_buffer_int b) = length (k_buffer_int b0) /\ length (k_lut b) = length (k_lut b0) /\
        forall i, In i pre -> written b i) sched b0) as (b & E & _ & _ & _ & I).
    - split; [reflexivity|]. split; [reflexivity|]. split; [reflexivity|]. intros i [].
    - intros pre i post b Es (L1 & L2 & L3 & I). assert (Ii : In i sched) by (rewrite Es; apply in_or_app; right; left; reflexivity).
      pose proof (Permutation_in _ Pm Ii) as Li. apply in_seq in Li. destruct (nth_error dep i) as [p|] eqn:Ep; [|apply nth_error_None in Ep; lia].
      assert (Ip : In p dep) by (eapply nth_error_In; exact Ep). destruct (HW p Ip) as (Ew & Lw & Fw).
      unfold intersect_step, rd at 1. rewrite Ep. cbn [obind]. rewrite Ew. cbn [obind].
      destruct (write_point n i (ff_point (W p)) nd (k_buffer b)) as (kb & Ekb & Lkb & Wkb & Okb); [lia|exact Lw|lia|]. rewrite Ekb. cbn [obind].
      destruct (upd_some (k_buffer_int b) i (ff_face (W p))) as [ki Eki]; [lia|]. rewrite Eki. cbn [obind]. rewrite Fw.
      destruct (upd_some (k_lut b) (lin p) (Z.of_nat i)) as [kl Ekl]; [specialize (Hl p Ip); lia|]. rewrite Ekl. cbn [obind].
      eexists. split; [reflexivity|]. cbn [k_buffer k_buffer_int k_lut]. split; [lia|]. split; [rewrite (upd_length _ _ _ _ Eki); exact L2|].
      split; [rewrite (upd_length _ _ _ _ Ekl); exact L3|]. intros j Hj q Eq. cbn [k_buffer k_buffer_int k_lut].
      assert (Lj : j < n) by (apply nth_error_Some; congruence). destruct (Nat.eq_dec j i) as [->|Nj].
      + assert (q = p) by congruence. subst q. split; [exact Wkb|]. split; [apply (upd_nth_eq _ _ _ _ Eki)|apply (upd_nth_eq _ _ _ _ Ekl)].
      + apply in_app_or in Hj. destruct Hj as [Hj|[->|[]]]; [|congruence]. destruct (I j Hj q Eq) as (W1 & W2 & W3). split; [|split].
        * intros dx Ld. rewrite Okb; [apply W1; exact Ld|]. intros dx' Ld' X. apply Nj. destruct (Nat.lt_trichotomy dx dx') as [Y|[Y|Y]]; nia.
        * rewrite (upd_nth_neq _ _ _ _ _ Eki); [exact W2|congruence].
        * rewrite (upd_nth_neq _ _ _ _ _ Ekl); [exact W3|]. intros X. apply Nj. apply (lin_inj j i q p Eq Ep X).
    - exists b. split; [exact E|]. intros i Li. apply I. eapply Permutation_in; [symmetry; exact Pm|]. apply in_seq. lia.
  Qed.
End Buffers.

(** ** The map from faces to groups *)
Local Open Scope Z_scope.
Lemma group_map_ok nd groups : nd = 2%nat \/ nd = 3%nat -> ascending (map fst groups) ->
  (forall g fs, In (g, fs) groups -> forall f, In f fs -> 0 <= f < 2 * Z.of_nat nd) ->
  exists mp, boundary_group_map nd groups = Some mp /\ length mp = 6%nat /\
    forall f, (f < 6)%nat -> (exists g, nth_error mp f = Some g /\ group_of groups f g) \/
       (nth_error mp f = Some MASK_VALUE /\ forall g fs, In (g, fs) groups -> ~ In (Z.of_nat f) fs).
Proof.
  intros N A B. unfold boundary_group_map. cbv zeta.
  set (inner := fun (bx : Z * list Z) mp ex => _ <- assert ((-1 <? ex) && (ex <? (if (nd =? 2)%nat then 4 else 6))) ;; upd mp (Z.to_nat ex) (fst bx)).
  assert (I : forall g fs mp, length mp = 6%nat -> (forall f, In f fs -> 0 <= f < 2 * Z.of_nat nd) ->
    exists mp', foldM (inner (g, fs)) mp fs = Some mp' /\ length mp' = 6%nat /\
      forall f, (In (Z.of_nat f) fs -> nth_error mp' f = Some g) /\ (~ In (Z.of_nat f) fs -> nth_error mp' f = nth_error mp f)).
  { intros g fs mp L F. destruct (foldM_ind (inner (g, fs)) (fun pre mp' => length mp' = 6%nat /\ forall f, (In (Z.of_nat f) pre -> nth_error mp' f = Some g) /\ (~ In (Z.of_nat f) pre -> nth_error mp' f = nth_error mp f)) fs mp) as (mp' & E & L' & R).
    - split; [exact L|]. intros f. split; [intros []|reflexivity].
    - intros pre ex post mp' Es (L' & R). assert (Fx := F ex ltac:(rewrite Es; apply in_or_app; right; left; reflexivity)). unfold inner.
      assert (Eb : (-1 <? ex) && (ex <? (if (nd =? 2)%nat then 4 else 6)) = true).
      { apply andb_true_iff. split; [apply Z.ltb_lt; lia|]. apply Z.ltb_lt. destruct N as [->| ->]; cbn [Nat.eqb]; lia. }
      rewrite Eb. cbn [assert obind fst]. destruct (upd_some mp' (Z.to_nat ex) g) as [mq Eq]; [destruct N as [->| ->]; lia|]. exists mq. split; [exact Eq|].
      split; [rewrite (upd_length _ _ _ _ Eq); exact L'|]. intros f. rewrite (upd_nth _ _ _ _ _ Eq). rewrite in_app_iff. cbn [In].
      destruct (Nat.eqb_spec f (Z.to_nat ex)) as [->|X].
      + split; [reflexivity|]. intros Y. exfalso. apply Y. right. left. lia.
      + split; [intros [Y|[Y|[]]]; [apply R; exact Y|lia]|]. intros Y. apply R. tauto.
    - eauto. }
  destruct (foldM_ind (fun mp bx => foldM (inner bx) mp (snd bx))
    (fun pre mp => length mp = 6%nat /\ forall f, (f < 6)%nat -> (exists g, nth_error mp f = Some g /\ group_of pre f g) \/
       (nth_error mp f = Some MASK_VALUE /\ forall g fs, In (g, fs) pre -> ~ In (Z.of_nat f) fs)) groups (repeat MASK_VALUE 6)) as (mp & E & L & R).
  - split; [reflexivity|]. intros f Lf. right. split; [apply nth_error_repeat; exact Lf|]. intros g fs [].
  - intros pre [g fs] post mp Es (L & R). cbn [snd]. destruct (I g fs mp L) as (mp' & E' & L' & R').
    { intros f Hf. apply (B g fs); [rewrite Es; apply in_or_app; right; left; reflexivity|exact Hf]. }
    exists mp'. split; [exact E'|]. split; [exact L'|]. intros f Lf. destruct (R' f) as [R1 R2]. destruct (in_dec Z.eq_dec (Z.of_nat f) fs) as [D|D].
    + left. exists g. split; [apply R1; exact D|]. split; [exists fs; split; [apply in_or_app; right; left; reflexivity|exact D]|].
      intros g' fs' Hg Hf. apply in_app_or in Hg. destruct Hg as [Hg|[[= -> ->]|[]]]; [|lia].
      rewrite Es, map_app in A. cbn [map fst] in A. clear -A Hg. induction pre as [|[a b] pre IH]; [destruct Hg|].
      cbn [map app ascending fst] in A. destruct Hg as [[= -> ->]|Hg]; [|apply IH; [apply A|exact Hg]]. destruct A as [A _]. specialize (A g). apply Z.lt_le_incl, A, in_or_app. right. left. reflexivity.
    + rewrite R2 by exact D. destruct (R f Lf) as [(g' & E1 & (fs' & I1 & I2) & M)|(E1 & M)].
      * left. exists g'. split; [exact E1|]. split; [exists fs'; split; [apply in_or_app; left; exact I1|exact I2]|].
        intros g2 fs2 Hg Hf. apply in_app_or in Hg. destruct Hg as [Hg|[[= -> ->]|[]]]; [eapply M; eassumption|contradiction].
      * right. split; [exact E1|]. intros g2 fs2 Hg. apply in_app_or in Hg. destruct Hg as [Hg|[[= -> ->]|[]]]; [eapply M; eassumption|exact D].
  - exists mp. split; [exact E|]. split; [exact L|exact R].
Qed.

(** ** Face cells *)
Section Cells.
  Context (m : cmesh) (H : cmesh_ok m) (N2 : (2 <= ndim (hier m))%nat).
  Notation nd := (ndim (hier m)).
  Notation h := (hier m).

  Lemma scan_nth l : forall total f, (f < length l)%nat -> nth_error (exclusive_scan total l) f = Some (fold_left Z.add (firstn f l) total).
  Proof. induction l as [|a l IH]; intros total [|f] L; cbn [length] in L; try lia; [reflexivity|]. cbn [exclusive_scan nth_error firstn fold_left]. apply IH. lia. Qed.
  Lemma counts_geoms : element_counts m = num_geoms_per_face m.
  Proof.
    pose proof (geoms_eq m H N2) as G. unfold element_counts, num_geoms_per_face in *. destruct (nd_cases m H N2) as [E|E]; rewrite E in *; cbn [Nat.eqb] in *.
    - destruct (rd (dims h) 0) as [d0|]; [|discriminate]. destruct (rd (dims h) 1) as [d1|]; [|discriminate]. cbn [obind] in *.
      assert (X : (fold_left Z.add [d0 * ncells_dim_fine h; d1 * ncells_dim_fine h; d0 * ncells_dim_fine h; d1 * ncells_dim_fine h; 0; 0] 0 =? ncells_dim_fine h * (d0 + d1 + d0 + d1)) = true)
        by (apply Z.eqb_eq; cbn [fold_left]; ring). rewrite X. reflexivity.
    - destruct (rd (dims h) 0) as [d0|]; [|discriminate]. destruct (rd (dims h) 1) as [d1|]; [|discriminate]. cbn [obind] in *.
      destruct (rd (dims h) 2) as [d2|]; [|discriminate]. cbn [obind].
      match goal with |- context [assert ?b] => assert (X : b = true) by (apply Z.eqb_eq; cbn [fold_left]; ring) end. rewrite X. reflexivity.
  Qed.
  Lemma offsets_rd f : (f < 6)%nat -> exists o, element_offsets m = Some o /\ rd o f = Some (off (geoms m) f).
  Proof.
    intros L. unfold element_offsets. rewrite counts_geoms, (geoms_eq m H N2). cbn [obind]. eexists. split; [reflexivity|].
    unfold rd. rewrite scan_nth by (rewrite geoms_len; exact L). reflexivity.
  Qed.
  Lemma est0 f : (f < 2 * nd)%nat -> exists s, element_strides0 m = Some s /\ rd s f = Some (grid m (dA f)).
  Proof.
    intros L. destruct (strides0_rd m H N2 f L) as (s & E & R). unfold element_strides0. unfold face_strides0 in E.
    destruct (nd_cases m H N2) as [En|En]; rewrite En in *; cbn [Nat.eqb] in *.
    - destruct (rd (dims h) 0) as [d0|]; [|discriminate]. destruct (rd (dims h) 1) as [d1|]; [|discriminate]. cbn [obind] in *. injection E as <-.
      eexists. split; [reflexivity|]. rewrite <- R. destruct f as [|[|[|[|f]]]]; [..|lia]; reflexivity.
    - destruct (rd (dims h) 0) as [d0|]; [|discriminate]. destruct (rd (dims h) 1) as [d1|]; [|discriminate]. destruct (rd (dims h) 2) as [d2|]; [|discriminate]. cbn [obind] in *. injection E as <-.
      eexists. split; [reflexivity|]. exact R.
  Qed.
  Lemma est1 f : (f < 2 * nd)%nat -> exists s, element_strides1 m = Some s /\ rd s f = Some (grid m (dB f)).
  Proof.
    intros L. destruct (strides1_rd m H N2 f L) as (s & E & R). unfold element_strides1. unfold face_strides1 in E.
    destruct (nd_cases m H N2) as [En|En]; rewrite En in *; cbn [Nat.eqb] in *.
    - injection E as <-. eexists. split; [reflexivity|]. rewrite <- R. destruct f as [|[|[|[|f]]]]; [..|lia]; reflexivity.
    - eexists. split; [exact E|exact R].
  Qed.

  (** The index of the face cell in one dimension. *)
  Definition fcell (i : nat) (x : Q) : Z := Z.min (grid m i - 1) (Qtrunc (inverse_cell_width_fine h * x)).
  Lemma trunc_comm x : Qtrunc (inverse_cell_width_fine h * x) = Qtrunc (x * inverse_cell_width_fine h).
  Proof. unfold Qtrunc, Qmult. cbn [Qnum Qden]. rewrite Z.mul_comm, Pos.mul_comm. reflexivity. Qed.
  Lemma fcell_ok i tol x : (0 <= tol)%Q -> (tol < fine_width h)%Q -> (- tol <= x)%Q ->
    0 <= fcell i x < grid m i /\ ((x < 0)%Q -> fcell i x = 0) /\ ((length_of m i <= x)%Q -> fcell i x = grid m i - 1) /\
    ((0 <= x)%Q -> (x < length_of m i)%Q -> in_cell h (fcell i x) x).
  Proof.
    intros T0 T1 B. pose proof (grid_pos m H i) as G. unfold fcell. rewrite trunc_comm. set (iw := inverse_cell_width_fine h). pose proof (wpos m H) as Wp. pose proof (iww m H) as IW. fold iw in IW.
    destruct (Qlt_le_dec x 0) as [X|X].
    - assert (E : Qtrunc (x * iw) = 0).
      { pose proof (Qtrunc_abs (x * iw)) as [L _]. assert (Li : (0 < iw)%Q) by nra. rewrite Qabs_Qmult, (Qabs_neg x), (Qabs_pos iw) in L by lra.
        assert (L2 : (inject_Z (Z.abs (Qtrunc (x * iw))) < inject_Z 1)%Q) by (change (inject_Z 1) with 1%Q; nra). apply inject_lt in L2. lia. }
      rewrite E. assert (Lp := len_pos m H i). split; [lia|]. split; [intros; lia|]. split; [intros; exfalso; lra|intros; exfalso; lra].
    - destruct (trunc_cell m H x X) as ((C1 & C2) & C3). fold iw in C1, C2, C3. set (t := Qtrunc (x * iw)) in *. clearbody t.
      split; [lia|]. split; [intros; exfalso; lra|]. split.
      + intros L. unfold length_of in L. assert (L2 : (inject_Z (grid m i) < inject_Z (t + 1))%Q) by (apply (Qmult_lt_r _ _ (fine_width h)); [exact Wp|lra]). apply inject_lt in L2. lia.
      + intros _ L. assert (Tg : t < grid m i) by (apply (in_cell_lt m H t x (grid m i)); [split; assumption|exact L]). rewrite Z.min_r by lia. split; assumption.
  Qed.
End Cells.
