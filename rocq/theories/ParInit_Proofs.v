(** Proofs: parallel initialisation. *)
From Coq Require Import List Arith ZArith QArith Qabs Bool Lia Lqa Permutation.
Import ListNotations.
From Verif Require Import Base Kernel Group_Model Group_Spec Group_Proofs Compress_Proofs AddGroup_Proofs Add_Model Pack_Model Pack_Spec Pack_Proofs Exchange_Model Exchange_Spec Exchange_Proofs World_Proofs
  Mesh_Model Mesh_Spec CartMesh_Model CartMesh_Spec CartMesh_Props CartMap_Model CartMap_Spec CartLoop_Proofs CartMap_Proofs CartMap_Props
  CartMove_Model CartMove_Spec CartMove_Proofs CartMove2_Proofs CartMove3_Proofs CartMove_Props ParInit_Model.
Local Open Scope nat_scope.
Local Notation gst := Group_Model.st.

(** ** Writes to consecutive components *)
Lemma upd_mid {V} (A : list V) x C v : upd (A ++ x :: C) (length A) v = Some (A ++ v :: C).
Proof. unfold upd. induction A as [|a A IH]; cbn; [reflexivity|]. cbn in IH. rewrite IH. reflexivity. Qed.
Lemma writes_run {V} (v : nat -> V) pid : forall n k A xs C, length xs = n -> length A = pid + k ->
  apply_writes (A ++ xs ++ C) (map (fun dx => (pid + dx, v dx)) (seq k n)) = Some (A ++ map v (seq k n) ++ C).
Proof.
  unfold apply_writes. induction n as [|n IH]; intros k A xs C L LA; destruct xs as [|x xs]; try discriminate; [reflexivity|]. cbn [seq map foldM app fst snd].
  rewrite <- LA, upd_mid. cbn [obind]. specialize (IH (S k) (A ++ [v k]) xs C). rewrite <- !app_assoc in IH. cbn [app] in IH. apply IH; [cbn in L; lia|rewrite app_length; cbn; lia].
Qed.
Lemma writes_two {V} (o v : nat -> V) pid oid : forall n k A xs B os, length xs = n -> length os = n -> length A = pid + k -> length A + n + length B = oid + k ->
  apply_writes (A ++ xs ++ B ++ os) (concat (map (fun dx => [(oid + dx, o dx); (pid + dx, v dx)]) (seq k n))) = Some (A ++ map v (seq k n) ++ B ++ map o (seq k n)).
Proof.
  unfold apply_writes. induction n as [|n IH]; intros k A xs B os L LO LA LB; destruct xs as [|x xs], os as [|w os]; try discriminate; [reflexivity|].
  cbn [seq map concat app foldM fst snd]. cbn [length] in L, LO.
  replace (A ++ x :: xs ++ B ++ w :: os) with ((A ++ x :: xs ++ B) ++ w :: os) by (rewrite <- app_assoc; cbn; rewrite <- app_assoc; reflexivity).
  replace (oid + k) with (length (A ++ x :: xs ++ B)) by (rewrite app_length; cbn; rewrite app_length; lia). rewrite upd_mid. cbn [obind].
  replace ((A ++ x :: xs ++ B) ++ o k :: os) with (A ++ x :: xs ++ B ++ o k :: os) by (rewrite <- app_assoc; cbn; rewrite <- app_assoc; reflexivity).
  rewrite <- LA, upd_mid. cbn [obind]. specialize (IH (S k) (A ++ [v k]) xs (B ++ [o k]) os). rewrite <- !app_assoc in IH. cbn [app] in IH.
  apply IH; [lia|lia|rewrite app_length; cbn; lia|rewrite !app_length; cbn; lia].
Qed.
Lemma map_nth_seq {V} (v : V) : forall l n, length l = n -> map (fun i => nth i l v) (seq 0 n) = l.
Proof.
  intros l n <-. induction l as [|x l IH]; [reflexivity|]. cbn [length seq map nth]. f_equal. rewrite <- seq_shift, map_map. exact IH.
Qed.
Lemma rd_mid {V} (A xs C : list V) i v : i < length xs -> rd (A ++ xs ++ C) (length A + i) = Some (nth i xs v).
Proof. intros L. unfold rd. rewrite nth_error_app2 by lia. rewrite nth_error_app1 by lia. replace (length A + i - length A) with i by lia. apply nth_error_nth'. exact L. Qed.

Lemma app_inj {V} : forall (a b c e : list V), a ++ b = c ++ e -> length a = length c -> a = c /\ b = e.
Proof.
  induction a as [|x a IH]; intros b [|y c] e Q L; cbn in *; try discriminate; [auto|]. injection Q as -> Q. destruct (IH _ _ _ Q) as (-> & ->); [lia|auto].
Qed.

(** ** Properties added and removed *)
Definition via {A B} (P : A -> B -> Prop) (l : list A) (l' : list B) : Prop := exists ps, Permutation ps l /\ Forall2 P ps l'.
Lemma via_trans {A B C} (P1 : A -> B -> Prop) (P2 : B -> C -> Prop) (P3 : A -> C -> Prop) l l1 l2 :
  (forall a b c, P1 a b -> P2 b c -> P3 a c) -> via P1 l l1 -> via P2 l1 l2 -> via P3 l l2.
Proof.
  intros T (ps & P & F) (qs & P' & F'). apply Forall2_flip' in F. destruct (Permutation_Forall2 (Permutation_sym P') F) as (ps' & Pp & F''). apply Forall2_flip' in F''.
  exists ps'. split; [rewrite <- Pp; exact P|]. clear -T F' F''. revert l2 F'. induction F'' as [|a b ps qs H F IH]; intros l2 F2; inversion F2; subst; constructor; eauto.
Qed.
Lemma via_forall {A B} (P : A -> B -> Prop) (G : A -> Prop) (P' : A -> B -> Prop) l l' : (forall a b, In a l -> P a b -> P' a b) -> via P l l' -> via P' l l'.
Proof. intros H (ps & Q & F). exists ps. split; [exact Q|]. eapply Forall2_impl_in; [|exact F]. intros a b I. apply H. eapply Permutation_in; eauto. Qed.
Lemma via_in {A B} (P : A -> B -> Prop) l l' b : via P l l' -> In b l' -> exists a, In a l /\ P a b.
Proof. intros (ps & Q & F) I. destruct (Forall2_in_r _ _ _ _ F I) as (a & Ia & Pa). exists a. split; [eapply Permutation_in; eauto|exact Pa]. Qed.

(** One rank: the same places, [n] REAL components, every particle changed as [R] says. *)
Definition becomes (n : nat) (R : particle Q -> particle Q -> Prop) (g g' : group Q) : Prop :=
  npart_cell g' = npart_cell g /\ wf_group g' /\ length (reals (gst g')) = n /\ length (ints (gst g')) = length (ints (gst g)) /\
  Forall2 R (particles g) (particles g').
Lemma each_becomes R g g' : wf_group g -> each R g g' -> becomes (length (reals (gst g))) R g g'.
Proof. intros W X. pose proof (each_particles _ _ _ W X) as F. destruct X as (N & W' & A & B & _). repeat (split; [assumption|]). exact F. Qed.
Lemma becomes_trans n1 n2 R1 R2 g g1 g2 : becomes n1 R1 g g1 -> becomes n2 R2 g1 g2 -> becomes n2 (fun p p2 => exists p1, R1 p p1 /\ R2 p1 p2) g g2.
Proof.
  intros (N1 & W1 & A1 & B1 & F1) (N2 & W2 & A2 & B2 & F2). split; [congruence|]. split; [exact W2|]. split; [exact A2|]. split; [congruence|].
  clear -F1 F2. revert F2. generalize (particles g2). induction F1; intros l2 F2; inversion F2; subst; constructor; eauto.
Qed.
Lemma becomes_impl n (R R' : particle Q -> particle Q -> Prop) g g' : (forall p p', In p (particles g) -> R p p' -> R' p p') -> becomes n R g g' -> becomes n R' g g'.
Proof. intros H (N & W & A & B & F). repeat (split; [assumption|]). eapply Forall2_impl_in; [|exact F]. exact H. Qed.

Lemma places_become n (R : particle Q -> particle Q -> Prop) (g g' : group Q) : npart_cell g' = npart_cell g -> wf_group g -> wf_group g' -> length (reals (gst g')) = n -> length (ints (gst g')) = length (ints (gst g)) ->
  (forall w p p', In w (all_particles (npart_cell g)) -> particle_at (gst g) (fst w) (snd w) = Some p -> particle_at (gst g') (fst w) (snd w) = Some p' -> R p p') -> becomes n R g g'.
Proof.
  intros N W W' A B H. repeat (split; [assumption|]). rewrite (particles_pv g W), (particles_pv g' W'), N.
  assert (K : forall ws, incl ws (all_particles (npart_cell g)) -> Forall2 R (map (pv g) ws) (map (pv g') ws)).
  { induction ws as [|w ws IH]; intros I; cbn [map]; constructor.
    - apply (H w); [apply I; left; reflexivity| |]; destruct w as (c, l); apply particle_at_vals; auto; [|rewrite N]; apply I; left; reflexivity.
    - apply IH. intros x J. apply I. right; exact J. }
  apply K. intros x I; exact I.
Qed.
Lemma add_dat_becomes ncomp u g : wf_group g ->
  becomes (length (reals (gst g)) + ncomp) (fun p p' => snd p' = snd p /\ exists xs, length xs = ncomp /\ fst p' = fst p ++ xs) g (add_dat ncomp u g).
Proof.
  intros W. assert (W' : wf_group (add_dat ncomp u g)).
  { destruct W as (W1 & W2). split; [|exact W2]. intros col I. cbn [add_dat gst reals npart_cell] in *. apply in_app_or in I. destruct I as [I|I]; [apply W1, I|].
    apply in_map_iff in I. destruct I as (f & <- & _). split; [rewrite map_length, combine_length, seq_length; lia|]. intros c n r En Er.
    rewrite nth_error_map in Er. destruct (nth_error (combine _ _) c) as [(c', n')|] eqn:Ec; [|discriminate]. apply index_nth_error in Ec. destruct Ec as (-> & Ec).
    cbn in Er. injection Er as <-. rewrite map_length, seq_length. assert (n' = n) by congruence. lia. }
  apply places_become; try reflexivity; try assumption.
  - cbn [add_dat gst reals]. rewrite app_length, map_length, seq_length. reflexivity.
  - intros (c, l) p p' I E E'. cbn [fst snd] in *. apply particle_row in E. apply particle_row in E'. destruct E as (E1 & E2), E' as (E1' & E2'). cbn [add_dat gst reals ints] in *.
    split; [congruence|]. unfold row in *. rewrite mapM_app in E1'. rewrite E1 in E1'. cbn [obind] in E1'. destruct (mapM _ (map _ _)) as [xs|] eqn:X; [|discriminate]. cbn [obind] in E1'. exists xs.
    split; [|congruence]. rewrite (mapM_length _ _ _ X), map_length, seq_length. reflexivity.
Qed.
Lemma mapM_firstn {A B} (f : A -> option B) n l ys : mapM f l = Some ys -> mapM f (firstn n l) = Some (firstn n ys).
Proof.
  revert n ys. induction l as [|a l IH]; intros n ys E; cbn [mapM] in E.
  - injection E as <-. rewrite !firstn_nil. reflexivity.
  - destruct (f a) as [b|] eqn:Fa; [|discriminate]. cbn [obind] in E. destruct (mapM f l) as [bs|] eqn:M; [|discriminate]. cbn [obind] in E. injection E as <-.
    destruct n as [|n]; [reflexivity|]. cbn [firstn mapM]. rewrite Fa. cbn [obind]. rewrite (IH n bs eq_refl). reflexivity.
Qed.
Lemma remove_dat_becomes n g : wf_group g -> n <= length (reals (gst g)) -> becomes n (fun p p' => p' = (firstn n (fst p), snd p)) g (remove_dat n g).
Proof.
  intros W L. assert (W' : wf_group (remove_dat n g)).
  { destruct W as (W1 & W2). split; [|exact W2]. intros col I. apply W1. cbn [remove_dat gst reals] in I. rewrite <- (firstn_skipn n (reals (gst g))). apply in_or_app. left; exact I. }
  apply places_become; try reflexivity; try assumption.
  - cbn [remove_dat gst reals]. apply firstn_length_le, L.
  - intros (c, l) p (r, z) I E E'. cbn [fst snd] in *. apply particle_row in E. apply particle_row in E'. destruct E as (E1 & E2), E' as (E1' & E2'). cbn [remove_dat gst reals ints fst snd] in *.
    unfold row in *. rewrite (mapM_firstn _ n _ _ E1) in E1'. congruence.
Qed.
Lemma loop_becomes d k K (R : particle Q -> particle Q -> Prop) g : device_ok d -> wf_group g -> (forall p, In p (particles g) -> exists p', effect K p = Some p' /\ R p p') ->
  exists g', loop_all d k K g = Some g' /\ becomes (length (reals (gst g))) R g g'.
Proof.
  intros Hd W P. destruct (loop_all_rel d Hd k K R g W) as (g' & E & N & W' & SS & C).
  - intros c ps p Ec I. apply P, in_particles. eauto.
  - exists g'. split; [exact E|]. apply each_becomes; [exact W|]. apply each_intro; assumption.
Qed.

(** ** A particle during the journey *)
Section P.
  Context (m : cmesh) (H : cmesh_ok m) (nR pid ncomp rid num_steps : nat).
  Context (ND : ndim (hier m) <= ncomp) (N3 : ncomp <= 3) (NP : pid + ncomp <= nR).

  Definition inb (xs : list Q) : Prop := forall i, i < ndim (hier m) -> (0 <= nth i xs 0 /\ nth i xs 0 <= length_of m i)%Q.
  (** [q] is the particle [p] after [j] steps. *)
  Definition track (j : nat) (p q : particle Q) : Prop :=
    exists A pos B xs, length A = pid /\ length pos = ncomp /\ length xs = ncomp /\ length (A ++ pos ++ B) = nR /\
      fst p = A ++ pos ++ B /\ fst q = A ++ xs ++ B ++ pos /\
      length (snd q) = length (snd p) /\ (forall i, ~ In i [rid; rid + 1] -> nth_error (snd q) i = nth_error (snd p) i) /\
      inb pos /\ inb xs /\ (0 < j -> j = num_steps -> Forall2 Qeq xs pos).

  Lemma position_mid (A xs C : list Q) z i : length A = pid -> i < length xs -> position pid (A ++ xs ++ C, z) i = nth i xs 0%Q.
  Proof. intros <- L. unfold position. cbn [fst]. rewrite app_nth2 by lia. replace (length A + i - length A) with i by lia. apply app_nth1, L. Qed.
  Lemma track_inside j p q : track j p q -> inside m (position pid q).
  Proof.
    intros (A & pos & B & xs & LA & LP & LX & LN & Ep & Eq & _ & _ & _ & IX & _) i Li. destruct q as (r, z). cbn [fst] in Eq. subst r.
    rewrite position_mid by lia. apply IX, Li.
  Qed.
  Lemma track_same j p q q' : track j p q -> same_except [rid; rid + 1] q q' -> track j p q'.
  Proof.
    intros (A & pos & B & xs & LA & LP & LX & LN & Ep & Eq & L & S & IP & IX & Z) (F & L' & S'). exists A, pos, B, xs. do 5 (split; [assumption|]).
    split; [congruence|]. split; [congruence|]. split; [intros i I; rewrite S', S by exact I; reflexivity|]. auto.
  Qed.
  Lemma split_real (l : list Q) : length l = nR -> exists A pos B, l = A ++ pos ++ B /\ length A = pid /\ length pos = ncomp.
  Proof.
    intros L. exists (firstn pid l), (firstn ncomp (skipn pid l)), (skipn ncomp (skipn pid l)). rewrite !firstn_skipn. split; [reflexivity|].
    rewrite !firstn_length, skipn_length. lia.
  Qed.

  Lemma store_effect pt p xs0 : length pt = 3 -> length (fst p) = nR -> inside m (position pid p) -> inb pt -> length xs0 = ncomp ->
    exists q, effect (store_kernel pid nR ncomp pt) (fst p ++ xs0, snd p) = Some q /\ snd q = snd p /\ track 0 p q.
  Proof.
    intros LT LP IP IT L0. destruct (split_real _ LP) as (A & pos & B & Ep & LA & Lp). destruct p as (r, z). cbn [fst snd] in *. subst r.
    unfold effect, store_kernel. cbn [fst snd].
    rewrite (mapM_some _ (fun dx => [(nR + dx, nth dx pos 0%Q); (pid + dx, nth dx pt 0%Q)])).
    2:{ intros dx I. apply in_seq in I. rewrite <- LA, <- !app_assoc, (rd_mid A pos _ dx 0%Q) by lia. cbn [obind]. unfold rd. rewrite (nth_error_nth' pt 0%Q) by lia. reflexivity. }
    cbn [obind fst snd]. rewrite <- !app_assoc. rewrite (writes_two (fun dx => nth dx pos 0%Q) (fun dx => nth dx pt 0%Q) pid nR ncomp 0 A pos B xs0).
    2-5: rewrite ?app_length in *; lia.
    cbn [obind apply_writes foldM fst snd]. rewrite (map_nth_seq 0%Q pos ncomp Lp). eexists. split; [reflexivity|]. split; [reflexivity|].
    exists A, pos, B, (map (fun dx => nth dx pt 0%Q) (seq 0 ncomp)). cbn [fst snd]. do 2 (split; [assumption|]). split; [rewrite map_length, seq_length; reflexivity|].
    split; [exact LP|]. do 3 (split; [reflexivity|]). split; [reflexivity|]. split.
    { intros i Li. specialize (IP i Li). rewrite position_mid in IP by lia. exact IP. }
    split; [|lia]. intros i Li. rewrite (nth_indep _ 0%Q (nth 0 pt 0%Q)) by (rewrite map_length, seq_length; lia).
    rewrite (map_nth (fun dx => nth dx pt 0%Q)), seq_nth by lia. apply IT, Li.
  Qed.

  Lemma inv_bounds j : j < num_steps -> (0 <= inverse_steps_left num_steps j /\ inverse_steps_left num_steps j <= 1 /\ (S j = num_steps -> inverse_steps_left num_steps j == 1))%Q.
  Proof.
    intros L. unfold inverse_steps_left. set (a := inject_Z (Z.of_nat num_steps)). set (b := inject_Z (Z.of_nat j)).
    assert (D : (1 <= a - b)%Q) by (unfold a, b, Qle, inject_Z; cbn; lia). split; [|split].
    - unfold Qdiv. rewrite Qmult_1_l. apply Qinv_le_0_compat. lra.
    - apply Qle_shift_div_r; lra.
    - intros E. assert (X : (a - b == 1)%Q) by (unfold a, b, Qeq, inject_Z; cbn; lia). rewrite X. reflexivity.
  Qed.
  Lemma convex (x o t l : Q) : (0 <= t -> t <= 1 -> 0 <= x -> x <= l -> 0 <= o -> o <= l -> 0 <= x + t * (o - x) /\ x + t * (o - x) <= l)%Q.
  Proof. intros. split; nra. Qed.
  Lemma step_effect j q : j < num_steps -> (exists p, track j p q) ->
    exists q', effect (step_kernel pid nR ncomp (inverse_steps_left num_steps j)) q = Some q' /\ snd q' = snd q /\ forall p, track j p q -> track (S j) p q'.
  Proof.
    intros Lj (p0 & T0). pose proof T0 as (A & pos & B & xs & LA & LP & LX & LN & Ep & Eq & _). destruct q as (r, z). cbn [fst snd] in *. subst r.
    unfold effect, step_kernel. cbn [fst snd]. set (t := inverse_steps_left num_steps j). destruct (inv_bounds j Lj) as (T1 & T2 & T3). fold t in T1, T2, T3.
    set (v := fun dx => (nth dx xs 0 + t * (nth dx pos 0 - nth dx xs 0))%Q).
    rewrite (mapM_some _ (fun dx => (pid + dx, v dx))).
    2:{ intros dx I. apply in_seq in I. assert (R1 : rd (A ++ xs ++ B ++ pos) (nR + dx) = Some (nth dx pos 0%Q)).
        { replace (A ++ xs ++ B ++ pos) with ((A ++ xs ++ B) ++ pos ++ []) by (rewrite app_nil_r, <- !app_assoc; reflexivity).
          replace nR with (length (A ++ xs ++ B)) by (rewrite !app_length in *; lia). apply rd_mid. lia. }
        rewrite R1. cbn [obind]. rewrite <- LA, (rd_mid A xs _ dx 0%Q) by lia. reflexivity. }
    cbn [obind fst snd]. rewrite (writes_run v pid ncomp 0 A xs (B ++ pos)) by lia. cbn [obind apply_writes foldM fst snd]. eexists. split; [reflexivity|]. split; [reflexivity|].
    intros p (A' & pos' & B' & xs' & LA' & LP' & LX' & LN' & Ep' & Eq' & LL & S & IP & IX & _). cbn [fst snd] in *.
    assert (EE : A' = A /\ xs' = xs /\ B' = B /\ pos' = pos).
    { apply app_inj in Eq'; [|lia]. destruct Eq' as (-> & Eq'). apply app_inj in Eq'; [|lia]. destruct Eq' as (-> & Eq'). apply app_inj in Eq'; [|rewrite !app_length in *; lia]. destruct Eq' as (-> & ->). auto. }
    destruct EE as (-> & -> & -> & ->). exists A, pos, B, (map v (seq 0 ncomp)). cbn [fst snd]. do 2 (split; [assumption|]). split; [rewrite map_length, seq_length; reflexivity|].
    do 2 (split; [assumption|]). split; [reflexivity|]. do 3 (split; [assumption|]).
    assert (NV : forall i, i < ncomp -> nth i (map v (seq 0 ncomp)) 0%Q = v i).
    { intros i Li. rewrite (nth_indep _ 0%Q (v 0)) by (rewrite map_length, seq_length; lia). rewrite map_nth, seq_nth by lia. reflexivity. }
    split.
    - intros i Li. rewrite NV by lia. unfold v. destruct (IP i Li), (IX i Li). apply convex; assumption.
    - intros _ ES. specialize (T3 ES). rewrite <- (map_nth_seq 0%Q pos ncomp LP) at 1. clear -T3 v. unfold v. induction (seq 0 ncomp) as [|i s IH]; cbn [map]; constructor; [|exact IH].
      rewrite T3. ring.
  Qed.

  Lemma close_self o x : (x == o)%Q -> close_enough o x = true.
  Proof.
    intros E. unfold close_enough. assert (Z : (Qabs (o - x) == 0)%Q) by (rewrite E; setoid_replace (o - o)%Q with 0%Q by ring; reflexivity).
    destruct (Qle_bool (1 # 1000000) (Qabs (o - x))) eqn:B; [|reflexivity]. apply Qle_bool_iff in B. rewrite Z in B. exfalso. revert B. unfold Qle. cbn. lia.
  Qed.
  Lemma restore_effect q : 0 < num_steps -> (exists p, track num_steps p q) ->
    restore_check pid nR ncomp q = Some true /\
    exists q', effect (restore_kernel pid nR ncomp) q = Some q' /\ snd q' = snd q /\ forall p, track num_steps p q -> same_except [rid; rid + 1] p (firstn nR (fst q'), snd q').
  Proof.
    intros Ln (p0 & T0). pose proof T0 as (A & pos & B & xs & LA & LP & LX & LN & Ep & Eq & _ & _ & _ & _ & ZZ). destruct q as (r, z). cbn [fst snd] in *. subst r. specialize (ZZ Ln eq_refl).
    assert (R1 : forall dx, dx < ncomp -> rd (A ++ xs ++ B ++ pos) (nR + dx) = Some (nth dx pos 0%Q)).
    { intros dx I. replace (A ++ xs ++ B ++ pos) with ((A ++ xs ++ B) ++ pos ++ []) by (rewrite app_nil_r, <- !app_assoc; reflexivity).
      replace nR with (length (A ++ xs ++ B)) by (rewrite !app_length in *; lia). apply rd_mid. lia. }
    split.
    - unfold restore_check. cbn [fst]. rewrite (mapM_some _ (fun _ => true)).
      + cbn [obind]. f_equal. apply forallb_forall. intros b I. apply in_map_iff in I. destruct I as (? & <- & _). reflexivity.
      + intros dx I. apply in_seq in I. rewrite R1 by lia. cbn [obind]. rewrite <- LA, (rd_mid A xs _ dx 0%Q) by lia. cbn [obind]. f_equal. apply close_self.
        assert (Ld : dx < length xs) by lia. clear -ZZ Ld. revert dx Ld. induction ZZ; intros [|dx] L; cbn in *; try lia; [assumption|]. apply IHZZ. lia.
    - unfold effect, restore_kernel. cbn [fst snd]. rewrite (mapM_some _ (fun dx => (pid + dx, nth dx pos 0%Q))).
      2:{ intros dx I. apply in_seq in I. rewrite R1 by lia. reflexivity. }
      cbn [obind fst snd]. rewrite (writes_run (fun dx => nth dx pos 0%Q) pid ncomp 0 A xs (B ++ pos)) by lia. cbn [obind apply_writes foldM fst snd]. eexists. split; [reflexivity|]. split; [reflexivity|].
      intros p (A' & pos' & B' & xs' & LA' & LP' & LX' & LN' & Ep' & Eq' & LL & S & _). cbn [fst snd] in *.
      assert (EE : A' = A /\ xs' = xs /\ B' = B /\ pos' = pos).
      { apply app_inj in Eq'; [|lia]. destruct Eq' as (-> & Eq'). apply app_inj in Eq'; [|lia]. destruct Eq' as (-> & Eq'). apply app_inj in Eq'; [|rewrite !app_length in *; lia]. destruct Eq' as (-> & ->). auto. }
      destruct EE as (-> & -> & -> & ->). split; [|split; assumption]. cbn [fst]. rewrite (map_nth_seq 0%Q pos ncomp LP), Ep'.
      replace (A ++ pos ++ B ++ pos) with ((A ++ pos ++ B) ++ pos) by (rewrite <- !app_assoc; reflexivity). rewrite firstn_app, LN, Nat.sub_diag, firstn_O, app_nil_r. rewrite <- LN. apply firstn_all.
  Qed.
End P.

Lemma groups_become m spR spR' spZ cid pid rid gs gs' n R : groups_ok m spR spZ cid pid rid gs -> pointwise (fun _ => becomes n R) gs gs' ->
  list_sum (map snd spR') = n -> pid + ndim (hier m) <= n -> (forall p p', R p p' -> snd p' = snd p) -> groups_ok m spR' spZ cid pid rid gs'.
Proof.
  intros (L & N1 & N2 & K) PW LS LP S. split; [rewrite <- L; apply PW|]. split; [exact N1|]. split; [exact N2|]. intros r g' E'.
  destruct (pw_right _ _ _ _ _ PW E') as (g & E & (N & W & A & B & F)). destruct (K r g E) as (_ & H1 & H2 & H3 & H4 & H5 & H6 & H7).
  rewrite A, B, N. do 7 (split; [assumption|]). intros p' I. destruct (Forall2_in_r _ _ _ _ F I) as (p & Ip & Rp). rewrite (S _ _ Rp). apply H7, Ip.
Qed.
Lemma ranks_via n R (gs gs' : list (group Q)) : pointwise (fun _ => becomes n R) gs gs' -> via R (flat_map particles gs) (flat_map particles gs').
Proof. intros PW. exists (flat_map particles gs). split; [reflexivity|]. apply ranks_particles. eapply pw_weaken; [exact PW|]. intros r g g' _ _ (_ & _ & _ & _ & F). exact F. Qed.
Lemma in_ranks (gs : list (group Q)) r g p : nth_error gs r = Some g -> In p (particles g) -> In p (flat_map particles gs).
Proof. intros E I. apply in_flat_map. exists g. split; [eapply nth_error_In; eauto|exact I]. Qed.

Section All.
  Context (m : cmesh) (H : cmesh_ok m) (owners : list Z) (OM : owner_map m owners) (IG : int_grid m).
  Context {byte : Type} (E : encoding Q byte) (EOk : encoding_ok E) (spR spZ : pspec).
  Context (dev : nat -> device) (u : nat -> nat -> nat -> nat -> Q) (genv lenv : nat -> nat -> rank_env Q byte) (uninit : nat -> nat -> list Z).
  Context (garr larr : nat -> nat -> list (nat * message (byte:=byte)) -> list (nat * message (byte:=byte))).
  Context (orig nR cid pid ncomp rid num_steps : nat).
  Context (Hdev : forall r, r < csize (comm m) -> device_ok (dev r)).
  Context (Hg : forall i, envs_ok m (genv i)) (Hl : forall i, envs_ok m (lenv i)).
  Context (Ga : forall i r l, Permutation (garr i r l) l) (La : forall i r l, Permutation (larr i r l) l).
  Context (ND : ndim (hier m) <= ncomp) (N3 : ncomp <= 3) (NP : pid + ncomp <= nR) (LR : list_sum (map snd spR) = nR) (NS : 0 < num_steps).
  Notation track := (track m nR pid ncomp rid num_steps).
  Notation spR' := (spR ++ [(orig, ncomp)]).

  Lemma sum_spR' : list_sum (map snd spR') = nR + ncomp.
  Proof. rewrite map_app, list_sum_app. cbn. lia. Qed.
  Lemma move_step sp i gs : groups_ok m sp spZ cid pid rid gs -> all_inside m pid gs ->
    exists gs', hybrid_move E sp spZ m owners (genv i) (lenv i) (uninit i) cid pid rid (garr i) (larr i) gs = Some gs' /\
      on_its_rank m pid gs' /\ conserved [rid; rid + 1] gs gs' /\ groups_ok m sp spZ cid pid rid gs'.
  Proof. intros G A. exact (C54_hybrid_move_brings_particles_to_their_rank m owners H OM IG byte E EOk sp spZ (genv i) (lenv i) (Hg i) (Hl i) (garr i) (larr i) (Ga i) (La i) (uninit i) cid pid rid gs G A). Qed.

  Lemma store_all gs : groups_ok m spR spZ cid pid rid gs -> all_inside m pid gs ->
    exists gs1, on_ranks (fun r => parallel_advection_store m (dev r) (u r) pid ncomp r) gs = Some gs1 /\
      groups_ok m spR' spZ cid pid rid gs1 /\ via (track 0) (flat_map particles gs) (flat_map particles gs1).
  Proof.
    intros G IN. pose proof G as (L & _ & _ & K).
    destruct (on_ranks_ok (fun r => parallel_advection_store m (dev r) (u r) pid ncomp r)
      (fun _ => becomes (nR + ncomp) (fun p q => snd q = snd p /\ track 0 p q)) gs) as (gs1 & E1 & P1).
    { intros r g Eg. destruct (K r g Eg) as (W & KR & _). assert (R : r < csize (comm m)) by (rewrite <- L; eapply nth_error_some_lt; eauto).
      destruct (C52_point_in_the_subdomain m r H R) as (pt & Ept & Lpt & c & Ow & Co). unfold parallel_advection_store. rewrite Ept. cbn [obind].
      set (pt3 := pt ++ repeat 0%Q (3 - length pt)). pose proof (add_dat_becomes ncomp (u r) g W) as AB.
      assert (LG : length (reals (gst g)) = nR) by congruence. rewrite LG in *.
      assert (IPT : inb m pt3).
      { intros i Li. unfold pt3. rewrite app_nth1 by lia. exact (proj1 (contains_cellof m H _ _ Co) i Li). }
      destruct (loop_becomes (dev r) 320 (store_kernel pid nR ncomp pt3) (fun q q' => forall p, In p (particles g) -> snd q = snd p -> (exists xs, length xs = ncomp /\ fst q = fst p ++ xs) -> snd q' = snd p /\ track 0 p q') (add_dat ncomp (u r) g) (Hdev r R) (proj1 (proj2 AB))) as (g' & Eg' & B').
      { intros q Iq. destruct AB as (_ & _ & _ & _ & F). destruct (Forall2_in_r _ _ _ _ F Iq) as (p & Ip & Sq & xs & Lx & Fq). destruct (particle_full g p W Ip) as (Lp & _).
        destruct (store_effect m nR pid ncomp rid num_steps ND N3 NP pt3 p xs) as (q' & Eq & Sq' & Tq); [unfold pt3; rewrite app_length, repeat_length; lia|congruence|apply (IN r g p Eg Ip)|exact IPT|exact Lx|].
        assert (Q : q = (fst p ++ xs, snd p)) by (destruct q; cbn in *; congruence). subst q. exists q'. split; [exact Eq|].
        intros p2 Ip2 S2 (xs2 & Lx2 & F2). cbn [fst snd] in *. destruct (particle_full g p2 W Ip2) as (Lp2 & _). apply app_inj in F2; [|congruence]. destruct F2 as (F2 & _).
        assert (p2 = p) by (destruct p, p2; cbn in *; congruence). subst p2. auto. }
      exists g'. split; [exact Eg'|]. pose proof (becomes_trans _ _ _ _ _ _ _ AB B') as T.
      replace (length (reals (gst (add_dat ncomp (u r) g)))) with (nR + ncomp) in T by (symmetry; apply AB).
      eapply becomes_impl; [|exact T]. intros p q Ip (q1 & (Sq & X) & Q1). exact (Q1 p Ip Sq X). }
    exists gs1. split; [exact E1|]. split.
    - eapply groups_become; [exact G|exact P1|apply sum_spR'|lia|]. intros p q (S & _). exact S.
    - pose proof (ranks_via _ _ _ _ P1) as V. destruct V as (ps & P & F). exists ps. split; [exact P|]. eapply Forall2_impl_in; [|exact F]. intros a b _ (_ & T). exact T.
  Qed.
  Lemma track_all_inside j gs gs1 : via (track j) (flat_map particles gs) (flat_map particles gs1) -> all_inside m pid gs1.
  Proof. intros V r g q Eg I. destruct (via_in _ _ _ _ V (in_ranks _ _ _ _ Eg I)) as (p & _ & T). eapply (track_inside m nR pid ncomp rid num_steps); eassumption. Qed.

  Lemma step_all gs j gs1 : j < num_steps -> groups_ok m spR' spZ cid pid rid gs1 -> via (track j) (flat_map particles gs) (flat_map particles gs1) ->
    exists gs2 gs3, on_ranks (fun r => parallel_advection_step (e_dev (genv j r)) pid nR ncomp num_steps j) gs1 = Some gs2 /\
      hybrid_move E spR' spZ m owners (genv j) (lenv j) (uninit j) cid pid rid (garr j) (larr j) gs2 = Some gs3 /\
      groups_ok m spR' spZ cid pid rid gs3 /\ via (track (S j)) (flat_map particles gs) (flat_map particles gs3).
  Proof.
    intros Lj G V. pose proof G as (L & _ & _ & K).
    destruct (on_ranks_ok (fun r => parallel_advection_step (e_dev (genv j r)) pid nR ncomp num_steps j)
      (fun _ => becomes (nR + ncomp) (fun q q' => snd q' = snd q /\ forall p, track j p q -> track (S j) p q')) gs1) as (gs2 & E2 & P2).
    { intros r g Eg. destruct (K r g Eg) as (W & KR & _). assert (R : r < csize (comm m)) by (rewrite <- L; eapply nth_error_some_lt; eauto).
      assert (LG : length (reals (gst g)) = nR + ncomp) by (rewrite <- KR; apply sum_spR'). unfold parallel_advection_step. rewrite <- LG. apply loop_becomes; [apply (Hg j r R)|exact W|].
      intros q Iq. destruct (via_in _ _ _ _ V (in_ranks _ _ _ _ Eg Iq)) as (p & _ & T). apply (step_effect m nR pid ncomp rid num_steps ND N3 NP j q Lj). eauto. }
    assert (G2 : groups_ok m spR' spZ cid pid rid gs2) by (eapply groups_become; [exact G|exact P2|apply sum_spR'|lia|intros p q (S & _); exact S]).
    assert (V2 : via (track (S j)) (flat_map particles gs) (flat_map particles gs2)).
    { eapply via_trans; [|exact V|exact (ranks_via _ _ _ _ P2)]. intros a b c T (_ & F). exact (F a T). }
    destruct (move_step spR' j gs2 G2 (track_all_inside _ _ _ V2)) as (gs3 & E3 & _ & C3 & G3). exists gs2, gs3. do 3 (split; [assumption|]).
    eapply via_trans; [|exact V2|exact C3]. intros a b c T S. exact (track_same m nR pid ncomp rid num_steps _ a b c T S).
  Qed.

  Lemma steps_all gs : forall k j gs1, j + k = num_steps -> groups_ok m spR' spZ cid pid rid gs1 -> via (track j) (flat_map particles gs) (flat_map particles gs1) ->
    exists gs2, foldM (fun gs step =>
        gs' <- on_ranks (fun r => parallel_advection_step (e_dev (genv step r)) pid nR ncomp num_steps step) gs ;;
        hybrid_move E spR' spZ m owners (genv step) (lenv step) (uninit step) cid pid rid (garr step) (larr step) gs') gs1 (seq j k) = Some gs2 /\
      groups_ok m spR' spZ cid pid rid gs2 /\ via (track num_steps) (flat_map particles gs) (flat_map particles gs2).
  Proof.
    induction k as [|k IH]; intros j gs1 Ej G V; cbn [seq foldM].
    - exists gs1. split; [reflexivity|]. split; [exact G|]. replace num_steps with j by lia. replace j with num_steps in V by lia. replace j with num_steps by lia. exact V.
    - destruct (step_all gs j gs1) as (gs2 & gs3 & E2 & E3 & G3 & V3); [lia|exact G|exact V|]. rewrite E2. cbn [obind]. rewrite E3. cbn [obind]. apply (IH (S j) gs3); [lia|exact G3|exact V3].
  Qed.

  Lemma restore_all gs gs2 : groups_ok m spR' spZ cid pid rid gs2 -> via (track num_steps) (flat_map particles gs) (flat_map particles gs2) ->
    exists gs3, on_ranks (fun r => parallel_advection_restore (dev r) pid nR ncomp) gs2 = Some gs3 /\
      groups_ok m spR spZ cid pid rid gs3 /\ conserved [rid; rid + 1] gs gs3.
  Proof.
    intros G V. pose proof G as (L & _ & _ & K).
    destruct (on_ranks_ok (fun r => parallel_advection_restore (dev r) pid nR ncomp)
      (fun _ => becomes nR (fun q q' => snd q' = snd q /\ forall p, track num_steps p q -> same_except [rid; rid + 1] p q')) gs2) as (gs3 & E3 & P3).
    { intros r g Eg. destruct (K r g Eg) as (W & KR & _). assert (R : r < csize (comm m)) by (rewrite <- L; eapply nth_error_some_lt; eauto).
      assert (LG : length (reals (gst g)) = nR + ncomp) by (rewrite <- KR; apply sum_spR'). unfold parallel_advection_restore.
      assert (T : forall q, In q (particles g) -> exists p, track num_steps p q) by (intros q Iq; destruct (via_in _ _ _ _ V (in_ranks _ _ _ _ Eg Iq)) as (p & _ & T); eauto).
      rewrite (mapM_some _ (fun _ => true)).
      2:{ intros (c, l) I. cbn [fst snd]. pose proof I as I'. apply in_all_particles in I'. destruct I' as (n & En & Ln). destruct (wf_place g c l n W En Ln) as (Ep & Ip). rewrite Ep. cbn [obind].
          apply (restore_effect m nR pid ncomp rid num_steps ND N3 NP _ NS (T _ Ip)). }
      cbn [obind].
      destruct (loop_becomes (dev r) 322 (restore_kernel pid nR ncomp) (fun q q' => snd q' = snd q /\ forall p, track num_steps p q -> same_except [rid; rid + 1] p (firstn nR (fst q'), snd q')) g (Hdev r R) W) as (g1 & E1 & B1).
      { intros q Iq. apply (restore_effect m nR pid ncomp rid num_steps ND N3 NP q NS (T q Iq)). }
      rewrite E1. cbn [obind]. replace (forallb _ _) with true.
      2:{ symmetry. apply forallb_forall. intros b I. apply in_map_iff in I. destruct I as (? & <- & _). reflexivity. }
      cbn [assert obind]. exists (remove_dat nR g1). split; [reflexivity|]. rewrite LG in B1.
      pose proof (becomes_trans _ _ _ _ _ _ _ B1 (remove_dat_becomes nR g1 (proj1 (proj2 B1)) ltac:(destruct B1 as (_ & _ & A & _); lia))) as B2.
      eapply becomes_impl; [|exact B2]. intros q q' _ (q1 & (S1 & F1) & ->). split; [exact S1|exact F1]. }
    exists gs3. split; [exact E3|]. split.
    - eapply groups_become; [exact G|exact P3|exact LR|lia|]. intros p q (S & _). exact S.
    - eapply via_trans; [|exact V|exact (ranks_via _ _ _ _ P3)]. intros a b c Ta (_ & F). exact (F a Ta).
  Qed.

  Theorem initialisation_ok gs : groups_ok m spR spZ cid pid rid gs -> all_inside m pid gs ->
    exists gs', parallel_advection_initialisation E spR spZ m owners dev u genv lenv uninit garr larr orig nR cid pid ncomp rid num_steps gs = Some gs' /\
      on_its_rank m pid gs' /\ conserved [rid; rid + 1] gs gs' /\ groups_ok m spR spZ cid pid rid gs'.
  Proof.
    intros G IN. unfold parallel_advection_initialisation. destruct (store_all gs G IN) as (gs1 & E1 & G1 & V1). rewrite E1. cbn [obind].
    destruct (steps_all gs num_steps 0 gs1 eq_refl G1 V1) as (gs2 & E2 & G2 & V2). rewrite E2. cbn [obind].
    destruct (restore_all gs gs2 G2 V2) as (gs3 & E3 & G3 & C3). rewrite E3. cbn [obind].
    destruct (move_step spR num_steps gs3 G3) as (gs4 & E4 & O4 & C4 & G4).
    { intros r g q Eg I. destruct (conserved_back _ _ _ _ _ _ C3 Eg I) as (s & g0 & p & Es & Ip & (Fq & _)). rewrite (position_eq pid p q Fq). exact (IN s g0 p Es Ip). }
    exists gs4. split; [exact E4|]. split; [exact O4|]. split; [|exact G4]. eapply conserved_trans; eassumption.
  Qed.
End All.
