(** Truncation and reflection. *)
From Coq Require Import List Arith Reals Bool Lia Lra Psatz.
Import ListNotations.
From Verif Require Import Base Kernel Bounce_Model Bounce_Spec.
Local Open Scope R_scope.

Lemma rd_co v i : (i < length v)%nat -> rd v i = Some (co v i).
Proof. intros L. apply nth_error_nth'. exact L. Qed.
Lemma rlt_true a b : a < b -> rlt a b = true.
Proof. intros H. unfold rlt. destruct (Rlt_dec a b); [reflexivity|contradiction]. Qed.
Lemma rlt_false a b : b <= a -> rlt a b = false.
Proof. intros H. unfold rlt. destruct (Rlt_dec a b); [lra|reflexivity]. Qed.
Lemma co_map g n i : (i < n)%nat -> co (map g (seq 0 n)) i = g i.
Proof. intros L. unfold co. rewrite (nth_indep _ 0 (g 0%nat)) by (rewrite map_length, seq_length; exact L). rewrite map_nth, seq_nth by exact L. reflexivity. Qed.

Lemma scalar_S n a b : scalar (S n) a b = scalar n a b + a n * b n.
Proof.
  unfold scalar. rewrite seq_S, map_app, fold_right_app. cbn [map fold_right Nat.add]. rewrite Rplus_0_r. induction (map (fun i => a i * b i) (seq 0 n)) as [|x l IH]; cbn [fold_right]; [lra|]. rewrite IH. lra.
Qed.
Lemma scalar_ext n a b a' b' : (forall i, (i < n)%nat -> a i = a' i /\ b i = b' i) -> scalar n a b = scalar n a' b'.
Proof.
  intros H. induction n as [|n IH]; [reflexivity|]. rewrite !scalar_S, IH by (intros; apply H; lia). destruct (H n ltac:(lia)) as (-> & ->). reflexivity.
Qed.
Lemma scalar_comm n a b : scalar n a b = scalar n b a.
Proof. induction n as [|n IH]; [reflexivity|]. rewrite !scalar_S, IH. lra. Qed.
Lemma scalar_lin n a b c k : scalar n (fun i => a i + k * b i) c = scalar n a c + k * scalar n b c.
Proof. induction n as [|n IH]; [unfold scalar; cbn; lra|]. rewrite !scalar_S, IH. lra. Qed.
Lemma scalar_scale n a k : scalar n (fun i => k * a i) (fun i => k * a i) = k * k * scalar n a a.
Proof. induction n as [|n IH]; [unfold scalar; cbn; lra|]. rewrite !scalar_S, IH. ring. Qed.
Lemma scalar_nonneg n a : 0 <= scalar n a a.
Proof. induction n as [|n IH]; [unfold scalar; cbn; lra|]. rewrite scalar_S. nra. Qed.
Lemma scalar_zero n a : scalar n a a = 0 -> forall i, (i < n)%nat -> a i = 0.
Proof.
  induction n as [|n IH]; intros E i L; [lia|]. rewrite scalar_S in E. pose proof (scalar_nonneg n a). assert (a n * a n = 0) by nra. destruct (Nat.eq_dec i n) as [->|]; [nra|]. apply IH; [nra|lia].
Qed.
Lemma sqrt_scale n a k : 0 <= k -> sqrt (scalar n (fun i => k * a i) (fun i => k * a i)) = k * sqrt (scalar n a a).
Proof. intros K. rewrite scalar_scale, sqrt_mult, sqrt_square; [reflexivity|exact K|nra|apply scalar_nonneg]. Qed.

Lemma foldM_ext {A S} (f g : S -> A -> option S) l : (forall s a, f s a = g s a) -> forall s, foldM f s l = foldM g s l.
Proof. intros X. induction l as [|a l IH]; intros s; [reflexivity|]. cbn [foldM]. rewrite X. destruct (g s a); cbn [obind]; [apply IH|reflexivity]. Qed.
Lemma dot_ok n a b : (n <= length a)%nat -> (n <= length b)%nat -> dot_product n a b = Some (scalar n (co a) (co b)).
Proof.
  unfold dot_product. induction n as [|n IH]; intros La Lb; [reflexivity|]. rewrite seq_S, foldM_app, IH by lia. cbn [obind foldM Nat.add]. rewrite !rd_co by lia. cbn [obind]. rewrite scalar_S. reflexivity.
Qed.

(** Writing the first components. *)
Lemma write_ok n (f : nat -> option R) (g : nat -> R) l : (n <= length l)%nat -> (forall i, (i < n)%nat -> f i = Some (g i)) ->
  exists l', foldM (fun l i => v <- f i ;; upd l i v) l (seq 0 n) = Some l' /\ length l' = length l /\ (forall i, (i < n)%nat -> co l' i = g i) /\
    forall i, (n <= i)%nat -> nth_error l' i = nth_error l i.
Proof.
  intros L F. induction n as [|n IH]; [exists l; split; [reflexivity|split; [reflexivity|split; [intros; lia|reflexivity]]]|].
  destruct IH as (l1 & E & L1 & C & O); [lia|intros; apply F; lia|]. rewrite seq_S, foldM_app, E. cbn [obind foldM Nat.add]. rewrite F by lia. cbn [obind].
  destruct (upd_some l1 n (g n)) as [l2 E2]; [lia|]. rewrite E2. exists l2. split; [reflexivity|]. split; [rewrite (upd_length _ _ _ _ E2); exact L1|]. split.
  - intros i Li. destruct (Nat.eq_dec i n) as [->|N].
    + unfold co. apply nth_error_nth. apply (upd_nth_eq _ _ _ _ E2).
    + rewrite <- C by lia. unfold co. pose proof (upd_nth_neq _ _ _ _ i E2 N) as Q. rewrite (nth_error_nth' l2 0) in Q by (rewrite (upd_length _ _ _ _ E2); lia). symmetry in Q. apply (nth_error_nth _ _ 0) in Q. symmetry. exact Q.
  - intros i Li. rewrite (upd_nth_neq _ _ _ _ _ E2) by lia. apply O. lia.
Qed.

Lemma reflect_ok n V N : (n <= length V)%nat -> (n <= length N)%nat ->
  exists V', reflect_trajectory n V N = Some V' /\ length V' = length V /\ (forall i, (i < n)%nat -> co V' i = co V i - 2 * scalar n (co N) (co V) * co N i) /\
    forall i, (n <= i)%nat -> nth_error V' i = nth_error V i.
Proof.
  intros LV LN. unfold reflect_trajectory.
  rewrite (mapM_some (rd N) (co N)) by (intros i I; apply in_seq in I; apply rd_co; lia). cbn [obind].
  rewrite (mapM_some (rd V) (co V)) by (intros i I; apply in_seq in I; apply rd_co; lia). cbn [obind].
  rewrite dot_ok by (rewrite map_length, seq_length; lia). cbn [obind].
  rewrite (scalar_ext n (co (map (co N) (seq 0 n))) (co (map (co V) (seq 0 n))) (co N) (co V)) by (intros i L; rewrite !co_map by exact L; auto).
  set (k := scalar n (co N) (co V)).
  destruct (write_ok n (fun dx => a <- rd (map (co V) (seq 0 n)) dx ;; b <- rd (map (co N) (seq 0 n)) dx ;; Some (a - 2 * k * b)) (fun i => co V i - 2 * k * co N i) V LV) as (V' & E & L & C & O).
  { intros i L. rewrite !rd_co by (rewrite map_length, seq_length; exact L). cbn [obind]. rewrite !co_map by exact L. reflexivity. }
  exists V'. split; [|auto]. rewrite <- E. apply foldM_ext. intros v dx.
  destruct (rd (map (co V) (seq 0 n)) dx) as [a|]; cbn [obind]; [|reflexivity]. destruct (rd (map (co N) (seq 0 n)) dx) as [b|]; reflexivity.
Qed.

Lemma past_ok n PP np o : (n <= length PP)%nat -> (n <= length np)%nat -> (n <= length o)%nat ->
  exists b, moved_past n PP np o = Some b /\ (b = true <-> exists i, (i < n)%nat /\ (co PP i - co np i) * co o i < 0).
Proof.
  intros L1 L2 L3. unfold moved_past. induction n as [|n IH]; [exists false; split; [reflexivity|split; [discriminate|intros (i & L & _); lia]]|].
  destruct IH as (b & E & I); [lia..|]. rewrite seq_S, foldM_app, E. cbn [obind foldM Nat.add]. rewrite !rd_co by lia. cbn [obind]. eexists. split; [reflexivity|].
  rewrite orb_true_iff, I. split.
  - intros [(i & L & X)|X]; [exists i; split; [lia|exact X]|]. exists n. split; [lia|]. unfold rlt in X. destruct (Rlt_dec _ 0); [assumption|discriminate].
  - intros (i & L & X). destruct (Nat.eq_dec i n) as [->|N]; [right; apply rlt_true; exact X|left; exists i; split; [lia|exact X]].
Qed.

Lemma time_ok n d p PP TSP : (n <= length p)%nat -> (n <= length PP)%nat -> (2 <= length TSP)%nat -> 0 <= d ->
  exists TSP' r, time_update n d p PP TSP = Some TSP' /\ length TSP' = length TSP /\ 0 <= r <= 1 /\
    (/ 10 ^ 16 < distance n (co p) (co PP) -> d <= distance n (co p) (co PP) -> r * distance n (co p) (co PP) = d) /\
    co TSP' 1 = r * co TSP 1 /\ co TSP' 0 = co TSP 0 - co TSP 1 + r * co TSP 1 /\ forall i, (2 <= i)%nat -> nth_error TSP' i = nth_error TSP i.
Proof.
  intros Lp LPP LT D0. unfold time_update.
  rewrite (mapM_some _ (fun i => co p i - co PP i)) by (intros i I; apply in_seq in I; rewrite !rd_co by lia; reflexivity). cbn [obind].
  rewrite dot_ok by (rewrite map_length, seq_length; lia). cbn [obind].
  rewrite (scalar_ext n _ _ (fun i => co p i - co PP i) (fun i => co p i - co PP i)) by (intros i L; rewrite !co_map by exact L; auto). fold (distance n (co p) (co PP)).
  set (D := distance n (co p) (co PP)). assert (P16 : 0 < / 10 ^ 16) by (apply Rinv_0_lt_compat; apply pow_lt; lra).
  destruct TSP as [|t0 [|t1 T]]; cbn [length] in LT; try lia. unfold rd at 1 2. cbn [nth_error obind upd].
  set (tmp := if rlt (/ 10 ^ 16) D then d / D else 1).
  assert (T0 : 0 <= tmp).
  { unfold tmp, rlt. destruct (Rlt_dec _ D); [|lra]. apply Rmult_le_pos; [exact D0|]. apply Rlt_le, Rinv_0_lt_compat. lra. }
  rewrite (rlt_false tmp 0) by exact T0. exists (t0 - t1 + t1 * (if rlt 1 tmp then 1 else tmp) :: t1 * (if rlt 1 tmp then 1 else tmp) :: T), (if rlt 1 tmp then 1 else tmp).
  split; [reflexivity|]. split; [reflexivity|]. split; [unfold rlt; destruct (Rlt_dec 1 tmp); lra|]. split.
  - intros A B. assert (E : tmp = d / D) by (unfold tmp; rewrite rlt_true by exact A; reflexivity).
    assert (E2 : tmp * D = d) by (rewrite E; field; lra). assert (tmp <= 1) by nra. rewrite rlt_false by assumption. exact E2.
  - unfold co. cbn [nth]. split; [lra|]. split; [lra|]. intros [|[|i]] L; try lia. reflexivity.
Qed.

Lemma truncate_ok n reset P TSP PP IP : 0 < reset -> (n <= length P)%nat -> (n <= length PP)%nat -> (n <= length IP)%nat -> (2 <= length TSP)%nat ->
  exists P' TSP' u, truncate_trajectory n reset P TSP PP IP = Some (P', TSP') /\ length P' = length P /\ (forall i, (n <= i)%nat -> nth_error P' i = nth_error P i) /\
    0 < u <= 1 /\ (forall i, (i < n)%nat -> co P' i = between (co IP) (co PP) u i) /\
    (reset <= distance n (co PP) (co IP) -> u * distance n (co PP) (co IP) = reset) /\ (distance n (co PP) (co IP) <= reset -> u = 1 \/ distance n (co PP) (co IP) = reset) /\
    exists d p, p = map (co P) (seq 0 n) /\ d = distance n (co PP) (co IP) /\ time_update n d p PP TSP = Some TSP'.
Proof.
  intros R0 LP LPP LIP LT. unfold truncate_trajectory, back_vector.
  rewrite (mapM_some (rd P) (co P)) by (intros i I; apply in_seq in I; apply rd_co; lia). cbn [obind].
  rewrite (mapM_some _ (fun i => co PP i - co IP i)) by (intros i I; apply in_seq in I; rewrite !rd_co by lia; reflexivity). cbn [obind].
  rewrite dot_ok by (rewrite map_length, seq_length; lia). cbn [obind].
  rewrite (scalar_ext n _ _ (fun i => co PP i - co IP i) (fun i => co PP i - co IP i)) by (intros i L; rewrite !co_map by exact L; auto). fold (distance n (co PP) (co IP)).
  set (d := distance n (co PP) (co IP)). assert (D0 : 0 <= d) by (apply sqrt_pos).
  set (small := rlt d (reset * (1 / 10))).
  assert (EI : exists k, (if small then Some reset else _ <- assert (rlt 0 d) ;; Some (reset / d)) = Some k /\ (small = false -> 0 < d /\ k * d = reset)).
  { unfold small, rlt at 1. destruct (Rlt_dec d (reset * (1 / 10))) as [X|X].
    - exists reset. split; [reflexivity|]. unfold rlt. destruct (Rlt_dec d (reset * (1 / 10))); [discriminate|contradiction].
    - assert (0 < d) by lra. rewrite rlt_true by assumption. cbn [assert obind]. exists (reset / d). split; [reflexivity|]. intros _. split; [assumption|]. field. lra. }
  destruct EI as (k & EI & K). rewrite EI. cbn [obind]. rewrite map_map. unfold new_position.
  set (o := map (fun x => (co PP x - co IP x) * k) (seq 0 n)). assert (Lo : length o = n) by (unfold o; rewrite map_length, seq_length; reflexivity).
  assert (Co : forall i, (i < n)%nat -> co o i = (co PP i - co IP i) * k) by (intros i L; unfold o; rewrite co_map by exact L; reflexivity).
  rewrite (mapM_some _ (fun i => if small then co PP i else co IP i + (co PP i - co IP i) * k)) by (intros i I; apply in_seq in I; rewrite !rd_co by lia; cbn [obind]; rewrite Co by lia; reflexivity). cbn [obind].
  set (np := map _ (seq 0 n)). assert (Lnp : length np = n) by (unfold np; rewrite map_length, seq_length; reflexivity).
  assert (Cnp : forall i, (i < n)%nat -> co np i = if small then co PP i else co IP i + (co PP i - co IP i) * k) by (intros i L; unfold np; rewrite co_map by exact L; reflexivity).
  destruct (past_ok n PP np o LPP) as (past & EP & HP); [lia..|]. rewrite EP. cbn [obind].
  destruct (write_ok n (fun dx => a <- rd PP dx ;; b <- rd np dx ;; Some (if past then a else b)) (fun i => if past then co PP i else co np i) P LP) as (P' & E & L & C & O).
  { intros i Li. rewrite !rd_co by lia. reflexivity. }
  assert (E' : foldM (fun P dx => a <- rd PP dx ;; b <- rd np dx ;; upd P dx (if past then a else b)) P (seq 0 n) = Some P').
  { rewrite <- E. apply foldM_ext. intros v dx. destruct (rd PP dx) as [a|]; cbn [obind]; [|reflexivity]. destruct (rd np dx) as [b|]; reflexivity. }
  rewrite E'. cbn [obind].
  destruct (time_ok n d (map (co P) (seq 0 n)) PP TSP) as (TSP' & r & ET & _); [rewrite map_length, seq_length; lia|exact LPP|exact LT|exact D0|]. rewrite ET. cbn [obind].
  assert (G : exists u, 0 < u <= 1 /\ (forall i, (i < n)%nat -> co P' i = between (co IP) (co PP) u i) /\ (reset <= d -> u * d = reset) /\ (d <= reset -> u = 1 \/ d = reset)).
  { destruct small eqn:Es.
    - exists 1. split; [lra|]. split; [|split].
      + intros i Li. rewrite C, Cnp by exact Li. unfold between. destruct past; lra.
      + intros X. exfalso. unfold small, rlt in Es. destruct (Rlt_dec d (reset * (1 / 10))); [lra|discriminate].
      + intros _. left. reflexivity.
    - destruct (K eq_refl) as (Dp & Kd). assert (Kp : 0 < k) by nra. assert (Pe : past = true <-> 1 < k).
      { rewrite HP. split.
        - intros (i & Li & X). rewrite Cnp, Co in X by exact Li. set (a := co PP i - co IP i) in *. replace (co PP i - (co IP i + a * k)) with (a * (1 - k)) in X by (unfold a; ring). destruct (Rlt_dec 1 k); [assumption|]. exfalso. assert (0 <= a * a) by nra. assert (0 <= (a * a) * ((1 - k) * k)) by (apply Rmult_le_pos; nra). nra.
        - intros X. assert (Z : exists i, (i < n)%nat /\ co PP i - co IP i <> 0).
          { assert (W : (exists i, (i < n)%nat /\ co PP i - co IP i <> 0) \/ forall i, (i < n)%nat -> co PP i - co IP i = 0).
            { clear. induction n as [|n IH]; [right; intros; lia|]. destruct (Req_dec (co PP n - co IP n) 0) as [Q|Q]; [|left; exists n; split; [lia|exact Q]].
              destruct IH as [(i & Li & Qi)|IH]; [left; exists i; split; [lia|exact Qi]|]. right. intros i Li. destruct (Nat.eq_dec i n); [subst; exact Q|apply IH; lia]. }
            destruct W as [W|W]; [exact W|]. exfalso. unfold d, distance in Dp. rewrite (scalar_ext n _ _ (fun _ => 0) (fun _ => 0)) in Dp by (intros i Li; rewrite W by exact Li; auto).
            replace (scalar n (fun _ => 0) (fun _ => 0)) with 0 in Dp; [rewrite sqrt_0 in Dp; lra|]. clear. induction n as [|n IH]; [reflexivity|]. rewrite scalar_S, <- IH. lra. }
          destruct Z as (i & Li & Z). exists i. split; [exact Li|]. rewrite Cnp, Co by exact Li. set (a := co PP i - co IP i) in *. replace (co PP i - (co IP i + a * k)) with (a * (1 - k)) by (unfold a; ring).
          assert (0 < a * a) by nra. assert (0 < (a * a) * ((k - 1) * k)) by (apply Rmult_lt_0_compat; nra). nra. }
      destruct past.
      + exists 1. assert (1 < k) by (apply Pe; reflexivity). split; [lra|]. split; [intros i Li; rewrite C by exact Li; unfold between; lra|]. split; [intros; exfalso; nra|intros; left; reflexivity].
      + assert (Kle : k <= 1) by (destruct (Rlt_dec 1 k) as [Q|Q]; [apply Pe in Q; discriminate|lra]). exists k. split; [lra|]. split; [intros i Li; rewrite C, Cnp by exact Li; unfold between; ring|]. split; [intros; exact Kd|]. intros X. right. nra. }
  destruct G as (u & U & Cu & U1 & U2). exists P', TSP', u. split; [reflexivity|]. split; [exact L|]. split; [exact O|]. split; [exact U|]. split; [exact Cu|]. split; [exact U1|]. split; [exact U2|]. eexists _, _. split; [reflexivity|]. split; [reflexivity|exact ET].
Qed.
