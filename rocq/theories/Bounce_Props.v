(** C61: truncation puts a particle back inside, just before the boundary, and
    sets its time back to the time of the hit; reflection mirrors the velocity. *)
From Coq Require Import List Arith Reals Bool Lia Lra Psatz.
Import ListNotations.
From Verif Require Import Base Kernel Bounce_Model Bounce_Spec Bounce_Proofs.
Local Open Scope R_scope.

(** The new position lies between the intersection point (excluded) and the
    previous position: at the reset distance from the intersection point, or at
    the previous position when that is closer. *)
Theorem C61_position : forall n reset P TSP PP IP, 0 < reset ->
  (n <= length P)%nat -> (n <= length PP)%nat -> (n <= length IP)%nat -> (2 <= length TSP)%nat ->
  exists P' TSP', truncate_trajectory n reset P TSP PP IP = Some (P', TSP') /\
    (exists u, 0 < u <= 1 /\ forall i, (i < n)%nat -> co P' i = between (co IP) (co PP) u i) /\
    (reset <= distance n (co PP) (co IP) -> distance n (co P') (co IP) = reset) /\
    (distance n (co PP) (co IP) <= reset -> forall i, (i < n)%nat -> co P' i = co PP i) /\
    length P' = length P /\ forall i, (n <= i)%nat -> nth_error P' i = nth_error P i.
Proof.
  intros n reset P TSP PP IP R0 L1 L2 L3 L4. destruct (truncate_ok n reset P TSP PP IP R0 L1 L2 L3 L4) as (P' & TSP' & u & E & L & O & U & C & U1 & U2 & _).
  exists P', TSP'. split; [exact E|]. split; [exists u; auto|]. split; [|split; [|auto]].
  - intros X. rewrite <- (U1 X). unfold distance. rewrite (scalar_ext n (fun i => co P' i - co IP i) (fun i => co P' i - co IP i) (fun i => u * (co PP i - co IP i)) (fun i => u * (co PP i - co IP i))).
    + apply sqrt_scale. lra.
    + intros i Li. rewrite C by exact Li. unfold between. lra.
  - intros X i Li. rewrite C by exact Li. unfold between. destruct (U2 X) as [->|Q]; [lra|]. assert (u = 1) by (rewrite Q in U1; specialize (U1 ltac:(lra)); nra). subst u. lra.
Qed.
Print Assumptions C61_position.

(** A particle which was strictly inside a box and hit its boundary is strictly
    inside afterwards: it does not leave again before it is moved. *)
Theorem C61_back_inside : forall n reset P TSP PP IP P' TSP' (lo hi : nat -> R), 0 < reset ->
  (n <= length P)%nat -> (n <= length PP)%nat -> (n <= length IP)%nat -> (2 <= length TSP)%nat ->
  (forall i, (i < n)%nat -> lo i < co PP i < hi i) -> (forall i, (i < n)%nat -> lo i <= co IP i <= hi i) ->
  truncate_trajectory n reset P TSP PP IP = Some (P', TSP') -> forall i, (i < n)%nat -> lo i < co P' i < hi i.
Proof.
  intros n reset P TSP PP IP P' TSP' lo hi R0 L1 L2 L3 L4 A B E i Li.
  destruct (C61_position n reset P TSP PP IP R0 L1 L2 L3 L4) as (P1 & T1 & E1 & (u & U & C) & _). assert (P1 = P') by congruence. subst P1. rewrite C by exact Li. unfold between.
  specialize (A i Li). specialize (B i Li). nra.
Qed.
Print Assumptions C61_back_inside.

(** The time: the start of the last move stays the same, the part of the last
    move that remains is the part of the way up to the intersection point. *)
Theorem C61_time : forall n reset P TSP PP IP P' TSP', 0 < reset ->
  (n <= length P)%nat -> (n <= length PP)%nat -> (n <= length IP)%nat -> (2 <= length TSP)%nat ->
  truncate_trajectory n reset P TSP PP IP = Some (P', TSP') ->
  co TSP' 0 - co TSP' 1 = co TSP 0 - co TSP 1 /\
  (exists r, 0 <= r <= 1 /\ co TSP' 1 = r * co TSP 1) /\
  (forall t, 0 <= t <= 1 -> / 10 ^ 16 < distance n (co P) (co PP) -> (forall i, (i < n)%nat -> co IP i = between (co PP) (co P) t i) -> co TSP' 1 = t * co TSP 1) /\
  length TSP' = length TSP /\ forall i, (2 <= i)%nat -> nth_error TSP' i = nth_error TSP i.
Proof.
  intros n reset P TSP PP IP P' TSP' R0 L1 L2 L3 L4 E. destruct (truncate_ok n reset P TSP PP IP R0 L1 L2 L3 L4) as (P1 & T1 & u & E1 & _ & _ & _ & _ & _ & _ & d & p & Ep & Ed & ET).
  assert (T1 = TSP') by congruence. subst T1. assert (D0 : 0 <= d) by (subst d; apply sqrt_pos). assert (Lp : (n <= length p)%nat) by (subst p; rewrite map_length, seq_length; lia).
  destruct (time_ok n d p PP TSP Lp L2 L4 D0) as (T2 & r & ET2 & LT & R & Rd & T2a & T2b & O). assert (T2 = TSP') by congruence. subst T2.
  assert (ED : distance n (co p) (co PP) = distance n (co P) (co PP)).
  { unfold distance. f_equal. apply scalar_ext. intros i Li. subst p. rewrite co_map by exact Li. auto. }
  rewrite ED in Rd. split; [lra|]. split; [exists r; auto|]. split; [|auto].
  intros t T0 A B. assert (Dt : d = t * distance n (co P) (co PP)).
  { subst d. unfold distance. rewrite <- sqrt_scale by lra. rewrite (scalar_ext n (fun i => co PP i - co IP i) (fun i => co PP i - co IP i) (fun i => (-1) * (t * (co P i - co PP i))) (fun i => (-1) * (t * (co P i - co PP i)))).
    - rewrite scalar_scale. f_equal. ring.
    - intros i Li. rewrite B by exact Li. unfold between. lra. }
  assert (P16 : 0 < / 10 ^ 16) by (apply Rinv_0_lt_compat; apply pow_lt; lra).
  set (D := distance n (co P) (co PP)) in *. specialize (Rd A ltac:(nra)). assert (r = t) by nra. rewrite T2a. subst r. reflexivity.
Qed.
Print Assumptions C61_time.

(** Reflection at a plane with unit normal: the speed and the tangential
    components stay, the normal component changes sign, the direction of the
    normal does not matter, a second reflection undoes the first. *)
Theorem C61_reflection : forall n V N, (n <= length V)%nat -> (n <= length N)%nat -> scalar n (co N) (co N) = 1 ->
  exists V', reflect_trajectory n V N = Some V' /\
    scalar n (co V') (co V') = scalar n (co V) (co V) /\ scalar n (co V') (co N) = - scalar n (co V) (co N) /\
    (forall T, scalar n T (co N) = 0 -> scalar n (co V') T = scalar n (co V) T) /\
    (forall N', (n <= length N')%nat -> (forall i, (i < n)%nat -> co N' i = - co N i) -> reflect_trajectory n V N' = Some V') /\
    reflect_trajectory n V' N = Some V /\ forall i, (n <= i)%nat -> nth_error V' i = nth_error V i.
Proof.
  intros n V N LV LN U. destruct (reflect_ok n V N LV LN) as (V' & E & L & C & O). exists V'. split; [exact E|].
  set (k := scalar n (co N) (co V)) in *.
  assert (X : forall T, scalar n (co V') T = scalar n (co V) T + (- 2 * k) * scalar n (co N) T).
  { intros T. rewrite <- scalar_lin. apply scalar_ext. intros i Li. rewrite C by exact Li. split; [lra|reflexivity]. }
  assert (XN : scalar n (co V') (co N) = - scalar n (co V) (co N)) by (rewrite X, U, (scalar_comm n (co V) (co N)); fold k; lra).
  split; [|split; [exact XN|split; [|split; [|split; [|exact O]]]]].
  - rewrite X, (scalar_comm n (co V) (co V')), (scalar_comm n (co N) (co V')), X, XN, (scalar_comm n (co V) (co N)). fold k. lra.
  - intros T HT. rewrite X, (scalar_comm n (co N) T), HT. lra.
  - intros N' LN' HN. destruct (reflect_ok n V N' LV LN') as (V2 & E2 & L2 & C2 & O2). rewrite E2. f_equal. apply nth_error_ext. intros i.
    destruct (Nat.lt_ge_cases i n) as [Li|Li]; [|rewrite O2, O by exact Li; reflexivity].
    rewrite !(nth_error_nth' _ 0) by lia. f_equal. change (co V2 i = co V' i). rewrite C2, C by exact Li. rewrite HN by exact Li.
    assert (K : scalar n (co N') (co V) = - k). { unfold k. transitivity (scalar n (fun j => 0 + (-1) * co N j) (co V)); [apply scalar_ext; intros j Lj; rewrite HN by exact Lj; split; [lra|reflexivity]|]. rewrite scalar_lin. assert (Z : scalar n (fun _ => 0) (co V) = 0) by (clear; induction n as [|n IH]; [reflexivity|rewrite scalar_S, IH; lra]). rewrite Z. lra. }
    rewrite K. lra.
  - destruct (reflect_ok n V' N) as (V2 & E2 & L2 & C2 & O2); [lia|exact LN|]. rewrite E2. f_equal. apply nth_error_ext. intros i.
    destruct (Nat.lt_ge_cases i n) as [Li|Li]; [|rewrite O2, O by exact Li; reflexivity].
    rewrite !(nth_error_nth' _ 0) by lia. f_equal. change (co V2 i = co V i). rewrite C2, C by exact Li. rewrite (scalar_comm n (co N) (co V')), XN, (scalar_comm n (co V) (co N)). fold k. lra.
Qed.
Print Assumptions C61_reflection.

(** Both together. *)
Theorem C61_execute : forall n reset P V TSP PP IP N, (0 < n < 4)%nat -> 0 < reset ->
  (n <= length P)%nat -> (n <= length V)%nat -> (n <= length PP)%nat -> (n <= length IP)%nat -> (n <= length N)%nat -> (2 <= length TSP)%nat ->
  exists P' V' TSP', reflect n reset P V TSP PP IP N = Some (P', V', TSP') /\
    truncate_trajectory n reset P TSP PP IP = Some (P', TSP') /\ reflect_trajectory n V N = Some V'.
Proof.
  intros n reset P V TSP PP IP N L0 R0 L1 L2 L3 L4 L5 L6. destruct (C61_position n reset P TSP PP IP R0 L1 L3 L4 L6) as (P' & T' & E & _). destruct (reflect_ok n V N L2 L5) as (V' & E2 & _).
  exists P', V', T'. unfold reflect. destruct (Nat.ltb_spec 0 n); [|lia]. destruct (Nat.ltb_spec n 4); [|lia]. cbn [andb assert obind]. rewrite E. cbn [obind]. rewrite E2. auto.
Qed.
Print Assumptions C61_execute.

(** A move from (0,0) to (6,8), the wall is met at (3,4), at half of the way:
    the particle is put back by one tenth of a unit and half of its time. *)
Example C61_instance : exists P' TSP',
  truncate_trajectory 2 (1 / 10) [6; 8] [1; 1 / 2] [0; 0] [3; 4] = Some (P', TSP') /\
  distance 2 (co P') (co [3; 4]) = 1 / 10 /\ co TSP' 1 = 1 / 4 /\ co TSP' 0 = 3 / 4 /\ 0 < co P' 0 < 3 /\
  scalar 2 (co [1; 0]) (co [1; 0]) = 1 /\ reflect_trajectory 2 [5; 7] [1; 0] = Some [5 - 2 * (0 + 1 * 5 + 0 * 7) * 1; 7 - 2 * (0 + 1 * 5 + 0 * 7) * 0].
Proof.
  assert (D1 : distance 2 (co [0; 0]) (co [3; 4]) = 5).
  { unfold distance, scalar, co. cbn [seq map fold_right nth]. replace ((0 - 3) * (0 - 3) + ((0 - 4) * (0 - 4) + 0)) with (5 * 5) by ring. apply sqrt_square. lra. }
  assert (D2 : distance 2 (co [6; 8]) (co [0; 0]) = 10).
  { unfold distance, scalar, co. cbn [seq map fold_right nth]. replace ((6 - 0) * (6 - 0) + ((8 - 0) * (8 - 0) + 0)) with (10 * 10) by ring. apply sqrt_square. lra. }
  destruct (C61_position 2 (1 / 10) [6; 8] [1; 1 / 2] [0; 0] [3; 4]) as (P' & TSP' & E & (u & U & C) & R & _); try (cbn [length]; lia); try lra.
  exists P', TSP'. split; [exact E|]. split; [apply R; rewrite D1; lra|].
  destruct (C61_time 2 (1 / 10) [6; 8] [1; 1 / 2] [0; 0] [3; 4] P' TSP') as (S0 & _ & St & _); try (cbn [length]; lia); try lra; [exact E|].
  assert (T1 : co TSP' 1 = 1 / 2 * co [1; 1 / 2] 1).
  { apply St; [lra| |].
    - rewrite D2. apply Rlt_trans with 1; [|lra]. rewrite <- Rinv_1. apply Rinv_lt_contravar; [rewrite Rmult_1_l; apply pow_lt; lra|]. apply Rlt_pow_R1; [lra|lia].
    - intros [|[|i]] L; [| |lia]; unfold between, co; cbn [nth]; lra. }
  assert (Q : distance 2 (co P') (co [3; 4]) = 1 / 10) by (apply R; rewrite D1; lra).
  unfold co in T1, S0. cbn [nth] in T1, S0. fold (co TSP' 0) in S0. fold (co TSP' 1) in T1, S0. split; [lra|]. split; [lra|]. split.
  - assert (Hu : u < 1).
    { destruct (Rlt_dec u 1); [assumption|]. assert (u = 1) by lra. subst u. exfalso. unfold distance in Q. rewrite (scalar_ext 2 (fun i => co P' i - co [3; 4] i) (fun i => co P' i - co [3; 4] i) (fun i => co [0; 0] i - co [3; 4] i) (fun i => co [0; 0] i - co [3; 4] i)) in Q by (intros i Li; rewrite C by exact Li; unfold between; split; lra).
      fold (distance 2 (co [0; 0]) (co [3; 4])) in Q. lra. }
    rewrite C by lia. unfold between, co. cbn [nth]. lra.
  - split; [unfold scalar, co; cbn [seq map fold_right nth]; lra|reflexivity].
Qed.
