(** Lemmas about the geometry and matrix functions. *)
From Coq Require Import List Arith ZArith QArith Qabs Bool Permutation Lia Lqa Field Psatz.
Import ListNotations.
From Verif Require Import Base DeviceFn_Model DeviceFn_Spec.
Open Scope Q_scope.

Lemma rdiv_some a b : ~ b == 0 -> rdiv a b = Some (a / b).
Proof. intros H. unfold rdiv. destruct (Qeq_bool b 0) eqn:E; auto. exfalso; apply H, Qeq_bool_eq; auto. Qed.
Lemma rdiv_none a b : b == 0 -> rdiv a b = None.
Proof. intros H. unfold rdiv. rewrite (proj2 (Qeq_bool_iff _ _) H); auto. Qed.
Lemma rle_iff a b : rle a b = true <-> a <= b.
Proof. apply Qle_bool_iff. Qed.
Lemma rlt_iff a b : rlt a b = true <-> a < b.
Proof.
  unfold rlt. rewrite negb_true_iff. split; intros H.
  - apply Qnot_le_lt. intros L. apply Qle_bool_iff in L. congruence.
  - destruct (Qle_bool b a) eqn:E; auto. apply Qle_bool_iff in E. lra.
Qed.
Lemma rlt_false a b : rlt a b = false <-> b <= a.
Proof. unfold rlt. rewrite negb_false_iff. apply Qle_bool_iff. Qed.

(** ** Determinants and inverses *)
Lemma inverse3_correct M : length M = 9%nat -> ~ det 3 (entry 3 M) == 0 ->
  exists L, naive_matrix_inverse_3 M = Some L /\ length L = 9%nat /\
  forall i j, (i < 3)%nat -> (j < 3)%nat ->
    product 3 M L i j == (if (i =? j)%nat then 1 else 0) /\
    product 3 L M i j == (if (i =? j)%nat then 1 else 0).
Proof.
  do 9 (destruct M as [|? M]; [discriminate|]). destruct M; [|discriminate]. intros _ Hd.
  unfold naive_matrix_inverse_3.
  match goal with |- context [rdiv 1 ?d] => set (D := d) end.
  assert (HD : D == det 3 (entry 3 [q; q0; q1; q2; q3; q4; q5; q6; q7])).
  { unfold D; cbn -[Qmult Qplus Qminus]. ring. }
  assert (ND : ~ D == 0) by (rewrite HD; auto).
  rewrite (rdiv_some _ _ ND); cbn [obind]. eexists; split; [reflexivity|]. split; [reflexivity|].
  intros i j Hi Hj.
  assert (E : D * (1 / D) == 1) by (field; auto).
  set (F := 1 / D) in *. clearbody F.
  destruct i as [|[|[|i]]]; try lia; destruct j as [|[|[|j]]]; try lia;
  cbn -[Qmult Qplus Qminus Qopp]; (split; [|]);
  match goal with |- ?l == 1 => transitivity (D * F); [unfold D; ring|exact E] | |- ?l == 0 => ring end.
Qed.

Lemma inverse4_correct M : length M = 16%nat -> ~ det 4 (entry 4 M) == 0 ->
  exists L, naive_matrix_inverse_4 M = Some L /\ length L = 16%nat /\
  forall i j, (i < 4)%nat -> (j < 4)%nat ->
    product 4 M L i j == (if (i =? j)%nat then 1 else 0) /\
    product 4 L M i j == (if (i =? j)%nat then 1 else 0).
Proof.
  do 16 (destruct M as [|? M]; [discriminate|]). destruct M; [|discriminate]. intros _ Hd.
  unfold naive_matrix_inverse_4.
  match goal with |- context [rdiv 1 ?d] => set (D := d) end.
  assert (HD : D == det 4 (entry 4 [q; q0; q1; q2; q3; q4; q5; q6; q7; q8; q9; q10; q11; q12; q13; q14])).
  { unfold D; cbn -[Qmult Qplus Qminus]. ring. }
  assert (ND : ~ D == 0) by (rewrite HD; auto).
  rewrite (rdiv_some _ _ ND); cbn [obind]. eexists; split; [reflexivity|]. split; [reflexivity|].
  intros i j Hi Hj.
  assert (E : D * (1 / D) == 1) by (field; auto).
  set (F := 1 / D) in *. clearbody F.
  destruct i as [|[|[|[|i]]]]; try lia; destruct j as [|[|[|[|j]]]]; try lia;
  cbn -[Qmult Qplus Qminus Qopp]; (split; [|]);
  match goal with |- ?l == 1 => transitivity (D * F); [unfold D; ring|exact E] | |- ?l == 0 => ring end.
Qed.

Lemma inverse3_singular M : length M = 9%nat -> det 3 (entry 3 M) == 0 -> naive_matrix_inverse_3 M = None.
Proof.
  do 9 (destruct M as [|? M]; [discriminate|]). destruct M; [|discriminate]. intros _ Hd.
  unfold naive_matrix_inverse_3. rewrite rdiv_none; [reflexivity|]. rewrite <- Hd. cbn -[Qmult Qplus Qminus Qopp]. ring.
Qed.
Lemma inverse4_singular M : length M = 16%nat -> det 4 (entry 4 M) == 0 -> naive_matrix_inverse_4 M = None.
Proof.
  do 16 (destruct M as [|? M]; [discriminate|]). destruct M; [|discriminate]. intros _ Hd.
  unfold naive_matrix_inverse_4. rewrite rdiv_none; [reflexivity|]. rewrite <- Hd. cbn -[Qmult Qplus Qminus Qopp]. ring.
Qed.

(** ** Line segments *)
Lemma lambda_correct xa ya xb yb x0 y0 x1 y1 : ~ x1 - x0 == 0 -> ~ parallel xa ya xb yb x0 y0 x1 y1 ->
  exists l0 l1, line_segment_intersection_2d_lambda xa ya xb yb x0 y0 x1 y1 = Some (l0, l1) /\
    xa + l0 * (xb - xa) == x0 + l1 * (x1 - x0) /\ ya + l0 * (yb - ya) == y0 + l1 * (y1 - y0).
Proof.
  intros Hx Hp. unfold line_segment_intersection_2d_lambda. rewrite (rdiv_some _ _ Hx); cbn [obind].
  assert (Hd : ~ yb - ya - (xb - xa) * (y1 - y0) * (1 / (x1 - x0)) == 0).
  { intros E. apply Hp. unfold parallel. 
    assert (E' : (yb - ya - (xb - xa) * (y1 - y0) * (1 / (x1 - x0))) * (x1 - x0) == 0) by (rewrite E; ring).
    assert (E2 : (yb - ya - (xb - xa) * (y1 - y0) * (1 / (x1 - x0))) * (x1 - x0) == (yb - ya) * (x1 - x0) - (xb - xa) * (y1 - y0)) by (field; auto).
    rewrite E2 in E'. lra. }
  rewrite (rdiv_some _ _ Hd); cbn [obind]. eexists _, _; split; [reflexivity|].
  assert (Hp' : ~ (yb - ya) * (x1 - x0) - (xb - xa) * (y1 - y0) == 0).
  { intros E. apply Hp. unfold parallel. lra. }
  split; field; split; auto.
Qed.

Lemma intersection_core xa ya xb yb x0 y0 x1 y1 tol : ~ parallel xa ya xb yb x0 y0 x1 y1 ->
  exists l0 l1 xi yi b, line_segment_intersection_2d xa ya xb yb x0 y0 x1 y1 tol = Some (b, Some (xi, yi, l0)) /\
    xi == xa + l0 * (xb - xa) /\ yi == ya + l0 * (yb - ya) /\
    xi == x0 + l1 * (x1 - x0) /\ yi == y0 + l1 * (y1 - y0) /\
    (b = true <-> - tol <= l0 <= 1 + tol /\ 
       (x0 - tol <= xi <= x1 + tol \/ x1 - tol <= xi <= x0 + tol) /\
       (y0 - tol <= yi <= y1 + tol \/ y1 - tol <= yi <= y0 + tol) /\
       (x0 < x1 \/ x1 - tol <= xi <= x0 + tol) /\ (x1 <= x0 \/ x0 - tol <= xi <= x1 + tol) /\
       (y0 < y1 \/ y1 - tol <= yi <= y0 + tol) /\ (y1 <= y0 \/ y0 - tol <= yi <= y1 + tol)).
Proof.
  intros Hp. unfold line_segment_intersection_2d.
  assert (Hc : Qeq_bool ((xb - xa) * (y1 - y0) - (yb - ya) * (x1 - x0)) 0 = false).
  { destruct (Qeq_bool _ _) eqn:E; auto. apply Qeq_bool_eq in E. exfalso; apply Hp. unfold parallel. lra. }
  rewrite Hc; cbn [negb].
  assert (H : exists l0 l1, (if rlt (Qabs (xb - xa)) (Qabs (x1 - x0)) then
                 r <- line_segment_intersection_2d_lambda xa ya xb yb x0 y0 x1 y1 ;; Some (fst r)
               else
                 r <- line_segment_intersection_2d_lambda x0 y0 x1 y1 xa ya xb yb ;; Some (snd r)) = Some l0 /\
     xa + l0 * (xb - xa) == x0 + l1 * (x1 - x0) /\ ya + l0 * (yb - ya) == y0 + l1 * (y1 - y0)).
  { destruct (rlt (Qabs (xb - xa)) (Qabs (x1 - x0))) eqn:E.
    - apply rlt_iff in E. assert (Hx : ~ x1 - x0 == 0).
      { intros Z. rewrite Z in E. pose proof (Qabs_nonneg (xb - xa)). change (Qabs 0) with 0 in E. lra. }
      destruct (lambda_correct xa ya xb yb x0 y0 x1 y1 Hx Hp) as [l0 [l1 [El [A B]]]].
      rewrite El; cbn [obind fst]. exists l0, l1; auto.
    - apply rlt_false in E. assert (Hx : ~ xb - xa == 0).
      { intros Z. apply Hp. unfold parallel. rewrite Z in *. change (Qabs 0) with 0 in E.
        assert (x1 - x0 == 0).
        { pose proof (Qabs_nonneg (x1 - x0)). assert (Qabs (x1 - x0) == 0) by lra. 
          revert H0. apply Qabs_case; intros; lra. }
        rewrite H. ring. }
      assert (Hp' : ~ parallel x0 y0 x1 y1 xa ya xb yb) by (unfold parallel in *; intros Z; apply Hp; lra).
      destruct (lambda_correct x0 y0 x1 y1 xa ya xb yb Hx Hp') as [l0 [l1 [El [A B]]]].
      rewrite El; cbn [obind snd]. exists l1, l0. split; auto. split; symmetry; auto. }
  destruct H as [l0 [l1 [-> [A B]]]]; cbn [obind].
  exists l0, l1. eexists _, _, _. split; [reflexivity|]. split; [reflexivity|]. split; [reflexivity|]. split; [exact A|]. split; [exact B|].
  rewrite !andb_true_iff, !rle_iff.
  destruct (rlt x0 x1) eqn:Ex; [apply rlt_iff in Ex|apply rlt_false in Ex];
  (destruct (rlt y0 y1) eqn:Ey; [apply rlt_iff in Ey|apply rlt_false in Ey]); intuition lra.
Qed.

Lemma Qmult_integral_l' a b : ~ a == 0 -> a * b == 0 -> b == 0.
Proof. intros H E. apply Qmult_integral in E. tauto. Qed.

(** A parameter inside the box of a non-degenerate segment is in [0, 1]. *)
Lemma param_range x0 x1 xi l : ~ x1 - x0 == 0 -> xi == x0 + l * (x1 - x0) -> between x0 x1 xi -> 0 <= l <= 1.
Proof.
  intros N E B. assert (x1 - x0 < 0 \/ 0 < x1 - x0) as [L|L].
  { destruct (Q_dec (x1 - x0) 0) as [[?|?]|?]; auto. contradiction. }
  - unfold between in B. split; nra.
  - unfold between in B. split; nra.
Qed.
Lemma param_between x0 x1 xi l : 0 <= l <= 1 -> xi == x0 + l * (x1 - x0) -> between x0 x1 xi.
Proof. intros L E. unfold between. destruct (Qlt_le_dec x0 x1); [left|right]; split; nra. Qed.

Lemma intersection_exact xa ya xb yb x0 y0 x1 y1 : ~ parallel xa ya xb yb x0 y0 x1 y1 ->
  exists l0 xi yi b, line_segment_intersection_2d xa ya xb yb x0 y0 x1 y1 0 = Some (b, Some (xi, yi, l0)) /\
    xi == xa + l0 * (xb - xa) /\ yi == ya + l0 * (yb - ya) /\
    (b = true -> on_segment xi yi xa ya xb yb /\ on_segment xi yi x0 y0 x1 y1) /\
    (forall px py, on_segment px py xa ya xb yb -> on_segment px py x0 y0 x1 y1 -> b = true /\ xi == px /\ yi == py).
Proof.
  intros Hp. destruct (intersection_core xa ya xb yb x0 y0 x1 y1 0 Hp) as (l0 & l1 & xi & yi & b & E & A1 & A2 & B1 & B2 & Hb).
  exists l0, xi, yi, b. split; [exact E|]. split; [exact A1|]. split; [exact A2|].
  assert (Hl : b = true -> 0 <= l0 <= 1 /\ 0 <= l1 <= 1).
  { intros T. apply Hb in T. destruct T as (T0 & Tx & Ty & _). split; [lra|].
    destruct (Qeq_dec (x1 - x0) 0) as [Zx|Zx].
    - assert (Ny : ~ y1 - y0 == 0).
      { intros Zy. apply Hp. unfold parallel. rewrite Zx, Zy. ring. }
      apply (param_range y0 y1 yi l1 Ny B2). unfold between; lra.
    - apply (param_range x0 x1 xi l1 Zx B1). unfold between; lra. }
  split.
  - intros T. destruct (Hl T) as [L0 L1]. split; [exists l0|exists l1]; auto.
  - intros px py [t [Ht [Pt1 Pt2]]] [u [Hu [Pu1 Pu2]]].
    assert (Q0 : t == l0).
    { assert (H : ((xb - xa) * (y1 - y0) - (yb - ya) * (x1 - x0)) * (t - l0) == 0).
      { assert (H1 : (t - l0) * (xb - xa) == (u - l1) * (x1 - x0)) by (rewrite Pt1 in Pu1; rewrite A1 in B1; lra).
        assert (H2 : (t - l0) * (yb - ya) == (u - l1) * (y1 - y0)) by (rewrite Pt2 in Pu2; rewrite A2 in B2; lra).
        transitivity ((t - l0) * (xb - xa) * (y1 - y0) - (t - l0) * (yb - ya) * (x1 - x0)); [ring|].
        rewrite H1, H2. ring. }
      apply Qmult_integral_l' in H; [lra|]. intros Z. apply Hp. unfold parallel. lra. }
    assert (Qx : xi == px) by (rewrite A1, Pt1, Q0; reflexivity).
    assert (Qy : yi == py) by (rewrite A2, Pt2, Q0; reflexivity).
    split; [|auto]. apply Hb.
    assert (Bx : between x0 x1 xi) by (rewrite <- Qx in Pu1; apply (param_between x0 x1 xi u Hu Pu1)).
    assert (By : between y0 y1 yi) by (rewrite <- Qy in Pu2; apply (param_between y0 y1 yi u Hu Pu2)).
    unfold between in *. assert (0 <= l0 <= 1) by lra. repeat split; lra.
Qed.

Lemma intersection_tol xa ya xb yb x0 y0 x1 y1 tol : ~ parallel xa ya xb yb x0 y0 x1 y1 -> 0 <= tol ->
  exists l0 l1 xi yi b, line_segment_intersection_2d xa ya xb yb x0 y0 x1 y1 tol = Some (b, Some (xi, yi, l0)) /\
    xi == xa + l0 * (xb - xa) /\ yi == ya + l0 * (yb - ya) /\
    xi == x0 + l1 * (x1 - x0) /\ yi == y0 + l1 * (y1 - y0) /\
    (b = true -> - tol <= l0 <= 1 + tol /\
       (x0 - tol <= xi <= x1 + tol \/ x1 - tol <= xi <= x0 + tol) /\
       (y0 - tol <= yi <= y1 + tol \/ y1 - tol <= yi <= y0 + tol)) /\
    (forall px py, on_segment px py xa ya xb yb -> on_segment px py x0 y0 x1 y1 -> b = true /\ xi == px /\ yi == py).
Proof.
  intros Hp Ht0. destruct (intersection_core xa ya xb yb x0 y0 x1 y1 tol Hp) as (l0 & l1 & xi & yi & b & E & A1 & A2 & B1 & B2 & Hb).
  exists l0, l1, xi, yi, b. split; [exact E|]. split; [exact A1|]. split; [exact A2|]. split; [exact B1|]. split; [exact B2|].
  split; [intros T; apply Hb in T; destruct T as (T1 & T2 & T3 & _); split; [exact T1|split; [exact T2|exact T3]]|].
  intros px py [t [Ht [Pt1 Pt2]]] [u [Hu [Pu1 Pu2]]].
    assert (Q0 : t == l0).
    { assert (H : ((xb - xa) * (y1 - y0) - (yb - ya) * (x1 - x0)) * (t - l0) == 0).
      { assert (H1 : (t - l0) * (xb - xa) == (u - l1) * (x1 - x0)) by (rewrite Pt1 in Pu1; rewrite A1 in B1; lra).
        assert (H2 : (t - l0) * (yb - ya) == (u - l1) * (y1 - y0)) by (rewrite Pt2 in Pu2; rewrite A2 in B2; lra).
        transitivity ((t - l0) * (xb - xa) * (y1 - y0) - (t - l0) * (yb - ya) * (x1 - x0)); [ring|].
        rewrite H1, H2. ring. }
      apply Qmult_integral_l' in H; [lra|]. intros Z. apply Hp. unfold parallel. lra. }
    assert (Qx : xi == px) by (rewrite A1, Pt1, Q0; reflexivity).
    assert (Qy : yi == py) by (rewrite A2, Pt2, Q0; reflexivity).
    split; [|auto]. apply Hb.
    assert (Bx : between x0 x1 xi) by (rewrite <- Qx in Pu1; apply (param_between x0 x1 xi u Hu Pu1)).
    assert (By : between y0 y1 yi) by (rewrite <- Qy in Pu2; apply (param_between y0 y1 yi u Hu Pu2)).
    unfold between in *. assert (0 <= l0 <= 1) by lra. clear - Bx By H Ht0. 
    repeat split; lra.
Qed.

Lemma intersection_parallel xa ya xb yb x0 y0 x1 y1 tol : parallel xa ya xb yb x0 y0 x1 y1 ->
  line_segment_intersection_2d xa ya xb yb x0 y0 x1 y1 tol = Some (false, None).
Proof.
  intros Hp. unfold line_segment_intersection_2d.
  assert (Hc : Qeq_bool ((xb - xa) * (y1 - y0) - (yb - ya) * (x1 - x0)) 0 = true).
  { apply Qeq_bool_iff. unfold parallel in Hp. lra. }
  rewrite Hc; reflexivity.
Qed.

(** ** Axis aligned versions *)
Lemma crossing_correct za zb z0 : exists cr co r, crossing za zb z0 = Some (cr, co, r) /\
  (co = true <-> za == z0 /\ zb == z0) /\
  (co = false -> cr = true -> 0 <= r <= 1 /\ za + r * (zb - za) == z0) /\
  (co = false -> forall t, 0 <= t <= 1 -> za + t * (zb - za) == z0 -> cr = true /\ r == t).
Proof.
  unfold crossing. set (da := za - z0). set (db := zb - z0).
  destruct (Qeq_bool (Qabs da + Qabs db) 0) eqn:E; cbn [negb obind].
  - exists (rle (da * db) 0), true, 0. split; [reflexivity|].
    apply Qeq_bool_eq in E. pose proof (Qabs_nonneg da). pose proof (Qabs_nonneg db).
    split; [|split; discriminate]. split; [intros _|auto].
    assert (A : Qabs da == 0) by lra. assert (B : Qabs db == 0) by lra.
    revert A B. unfold da, db. apply Qabs_case; apply Qabs_case; intros; lra.
  - assert (N : ~ Qabs da + Qabs db == 0) by (intros Z; apply Qeq_bool_iff in Z; congruence).
    rewrite (rdiv_some _ _ N); cbn [obind].
    exists (rle (da * db) 0), false, (Qabs da / (Qabs da + Qabs db)). split; [reflexivity|].
    pose proof (Qabs_nonneg da) as P1. pose proof (Qabs_nonneg db) as P2.
    set (w := Qabs da + Qabs db) in *. assert (Pw : 0 < w) by (unfold w in *; lra).
    assert (R : forall x, x / w * w == x) by (intros x; field; auto).
    pose proof (R (Qabs da)) as R'. set (r := Qabs da / w) in *.
    assert (Zab : za - z0 == da) by reflexivity. assert (Zbb : zb - z0 == db) by reflexivity.
    split; [|split].
    + split; [discriminate|]. intros [Za Zb]. exfalso. apply N. unfold w.
      assert (da == 0) by lra. assert (db == 0) by lra. rewrite H, H0. reflexivity.
    + intros _ C. apply rle_iff in C.
      assert (R01 : 0 <= r <= 1) by (unfold w in *; split; nra). split; [exact R01|].
      assert (G : (za + r * (zb - za) - z0) * w == 0).
      { transitivity (da * w + (r * w) * (db - da)); [rewrite <- Zab, <- Zbb; ring|]. rewrite R'. unfold w.
        apply (Qabs_case da); apply (Qabs_case db); intros; nra. }
      assert (Nw : ~ w == 0) by lra.
      assert (za + r * (zb - za) - z0 == 0); [|lra].
      apply (Qmult_integral_l' w); auto. rewrite <- G. ring.
    + intros _ t Ht Et.
      assert (Ed : da + t * (db - da) == 0) by (rewrite <- Zab, <- Zbb; lra).
      assert (C : da * db <= 0).
      { destruct (Qlt_le_dec 0 (da * db)) as [L|L]; auto. exfalso.
        assert (0 < da /\ 0 < db \/ da < 0 /\ db < 0) as [[? ?]|[? ?]].
        { destruct (Q_dec da 0) as [[?|?]|?], (Q_dec db 0) as [[?|?]|?]; try nra. }
        - nra.
        - nra. }
      split; [apply rle_iff; auto|].
      assert (G : (r - t) * w == 0).
      { transitivity (Qabs da - t * w); [rewrite <- R'; ring|]. unfold w.
        revert P1 P2. apply (Qabs_case da); apply (Qabs_case db); intros; try lra.
        - assert (Z3 : da == 0 \/ db == 0). { assert (da * db == 0) by nra. apply Qmult_integral; auto. }
          destruct Z3 as [Z|Z]; rewrite Z in *; nra.
        - assert (Z3 : da == 0 \/ db == 0). { assert (da * db == 0) by nra. apply Qmult_integral; auto. }
          destruct Z3 as [Z|Z]; rewrite Z in *; nra. }
      assert (Nw : ~ w == 0) by lra.
      assert (r - t == 0); [|lra]. apply (Qmult_integral_l' w); auto. rewrite <- G. ring.
Qed.

Lemma between_tol_zero u0 u1 x : between_tol u0 u1 0 x = true <-> between u0 u1 x.
Proof. unfold between_tol, between. rewrite orb_true_iff, !andb_true_iff, !rle_iff. split; intros [?|?]; [left|right|left|right]; lra. Qed.

Lemma x_aligned_correct xa ya xb yb x0 y0 x1 :
  exists b xi yi, line_segment_intersection_2d_x_axis_aligned xa ya xb yb x0 y0 x1 0 = Some (b, (xi, yi)) /\
    (b = true -> on_segment xi yi xa ya xb yb /\ on_segment xi yi x0 y0 x1 y0) /\
    (~ (ya == y0 /\ yb == y0) ->
     forall px py, on_segment px py xa ya xb yb -> on_segment px py x0 y0 x1 y0 -> b = true /\ xi == px /\ yi == py) /\
    (ya == y0 /\ yb == y0 -> b = false).
Proof.
  unfold line_segment_intersection_2d_x_axis_aligned.
  destruct (crossing_correct ya yb y0) as (cr & co & r & E & H1 & H2 & H3). rewrite E; cbn [obind].
  eexists _, _, _. split; [reflexivity|]. split; [|split].
  - rewrite !andb_true_iff, negb_true_iff. intros [[Hc Hn] Hb]. destruct (H2 Hn Hc) as [Hr Ey].
    apply between_tol_zero in Hb. split.
    + exists r. split; [auto|]. split; [reflexivity|]. symmetry; auto.
    + destruct (Qeq_dec (x1 - x0) 0) as [Z|Z].
      * exists 0. split; [lra|]. unfold between in Hb. split; lra.
      * exists ((xa + r * (xb - xa) - x0) / (x1 - x0)). split.
        -- apply (param_range x0 x1 (xa + r * (xb - xa))); auto. field. auto.
        -- split; field; auto.
  - intros Hne px py [t [Ht [P1 P2]]] [u [Hu [Q1 Q2]]].
    destruct co; [exfalso; apply Hne, H1; auto|].
    assert (Ey : py == y0) by (rewrite Q2; ring).
    destruct (H3 eq_refl t Ht) as [-> Er]; [rewrite <- P2; auto|].
    assert (Ex : xa + r * (xb - xa) == px) by (rewrite P1, Er; reflexivity).
    split; [|split; [auto|symmetry; auto]]. cbn [negb andb]. apply between_tol_zero.
    apply (param_between x0 x1 _ u Hu). rewrite Ex; auto.
  - intros Hc. apply H1 in Hc. subst co. rewrite andb_false_r. reflexivity.
Qed.

Lemma plane_correct ax ay az bx by_ bz p0x p0y p0z p1x p2y :
  exists b xi yi zi, plane_intersection_3d_xy_plane_aligned ax ay az bx by_ bz p0x p0y p0z p1x p2y 0 = Some (b, (xi, yi, zi)) /\
    (b = true -> on_segment3 xi yi zi ax ay az bx by_ bz /\ between p0x p1x xi /\ between p0y p2y yi /\ zi == p0z) /\
    (~ (az == p0z /\ bz == p0z) ->
     forall px py pz, on_segment3 px py pz ax ay az bx by_ bz -> between p0x p1x px -> between p0y p2y py -> pz == p0z ->
       b = true /\ xi == px /\ yi == py /\ zi == pz) /\
    (az == p0z /\ bz == p0z -> b = false).
Proof.
  unfold plane_intersection_3d_xy_plane_aligned.
  destruct (crossing_correct az bz p0z) as (cr & co & r & E & H1 & H2 & H3). rewrite E; cbn [obind].
  eexists _, _, _, _. split; [reflexivity|]. split; [|split].
  - rewrite !andb_true_iff, negb_true_iff. intros [[[Hc Hn] Hbx] Hby]. destruct (H2 Hn Hc) as [Hr Ez].
    apply between_tol_zero in Hbx. apply between_tol_zero in Hby. split; [|split; [auto|split; [auto|reflexivity]]].
    exists r. split; [auto|]. split; [reflexivity|]. split; [reflexivity|]. symmetry; auto.
  - intros Hne px py pz [t [Ht [P1 [P2 P3]]]] Bx By Ez.
    destruct co; [exfalso; apply Hne, H1; auto|].
    destruct (H3 eq_refl t Ht) as [-> Er]; [rewrite <- P3; auto|].
    assert (Ex : ax + r * (bx - ax) == px) by (rewrite P1, Er; reflexivity).
    assert (Ey : ay + r * (by_ - ay) == py) by (rewrite P2, Er; reflexivity).
    split; [|split; [auto|split; [auto|symmetry; auto]]]. cbn [negb andb]. apply andb_true_iff; split; apply between_tol_zero.
    + unfold between in *. lra.
    + unfold between in *. lra.
  - intros Hc. apply H1 in Hc. subst co. rewrite andb_false_r. reflexivity.
Qed.

Lemma orientation_correct ax ay bx by_ :
  (consistent_line_orientation_2d ax ay bx by_ = (ax, ay, bx, by_) \/
   consistent_line_orientation_2d ax ay bx by_ = (bx, by_, ax, ay)) /\
  (let '(px, py, qx, qy) := consistent_line_orientation_2d ax ay bx by_ in px < qx \/ (px == qx /\ py <= qy)).
Proof.
  unfold consistent_line_orientation_2d. destruct (Qeq_bool ax bx) eqn:E.
  - apply Qeq_bool_eq in E. destruct (rlt ay by_) eqn:L; (split; [auto|]).
    + apply rlt_iff in L. right; split; [auto|lra].
    + apply rlt_false in L. right; split; [lra|auto].
  - assert (N : ~ ax == bx) by (intros Z; apply Qeq_bool_iff in Z; congruence).
    destruct (rlt ax bx) eqn:L; (split; [auto|]).
    + apply rlt_iff in L. auto.
    + apply rlt_false in L. left. apply Qle_lteq in L. destruct L as [L|L]; [auto|]. exfalso; apply N; symmetry; auto.
Qed.
