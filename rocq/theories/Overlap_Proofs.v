(** The overlaps of a box with the cells. *)
From Coq Require Import List Arith ZArith QArith Qminmax Qround Bool Lia Lqa.
Import ListNotations.
From Verif Require Import Base Kernel Mesh_Model Mesh_Spec Mesh_Proofs MeshNb_Proofs MeshPos_Proofs CellRep_Model Overlap_Model Overlap_Spec.
Open Scope Z_scope.

Lemma inj1 z : (inject_Z (z + 1) == inject_Z z + 1)%Q.
Proof. rewrite inject_Z_plus. reflexivity. Qed.
Lemma mono w : (0 < w)%Q -> forall a b, (a <= b)%Z -> (inject_Z a * w <= inject_Z b * w)%Q.
Proof. intros W a b L. apply Qmult_le_compat_r; [rewrite <- Zle_Qle; exact L|lra]. Qed.

Section Line.
  Context (w iw lhs rhs : Q) (N : Z) (W : (0 < w)%Q) (IW : (iw * w == 1)%Q) (HN : 0 < N).
  Definition first_cell : Z := let c := Qtrunc (lhs * iw) in let c := if c <? 0 then 0 else c in if N <=? c then N else c.
  Definition end_cell : Z := let c := Qtrunc (rhs * iw + 1) in let c := if c <? 0 then 0 else c in if N <? c then N else c.
  Lemma iw_pos : (0 < iw)%Q.
  Proof. destruct (Qlt_le_dec 0 iw) as [|L]; [assumption|]. exfalso. assert (iw * w <= 0 * w)%Q by (apply Qmult_le_compat_r; lra). lra. Qed.
  Lemma first_range : 0 <= first_cell <= N.
  Proof. unfold first_cell. cbv zeta. destruct (Z.ltb_spec (Qtrunc (lhs * iw)) 0); [|destruct (Z.leb_spec N (Qtrunc (lhs * iw))); lia]. destruct (Z.leb_spec N 0); lia. Qed.
  Lemma end_range : 0 <= end_cell <= N.
  Proof. unfold end_cell. cbv zeta. destruct (Z.ltb_spec (Qtrunc (rhs * iw + 1)) 0); [|destruct (Z.ltb_spec N (Qtrunc (rhs * iw + 1))); lia]. destruct (Z.ltb_spec N 0); lia. Qed.
  Lemma trunc_neg q : (q < 0)%Q -> Qtrunc q <= 0.
  Proof. intros H. unfold Qtrunc. destruct q as [n d]. unfold Qlt in H. cbn in H. cbn [Qnum Qden]. assert (Z.quot n (Z.pos d) = - Z.quot (- n) (Z.pos d)) as -> by (rewrite Z.quot_opp_l by lia; lia). pose proof (Z.quot_pos (- n) (Z.pos d)). lia. Qed.
  Lemma first_below c : (lhs < inject_Z (c + 1) * w)%Q -> 0 <= c < N -> first_cell <= c.
  Proof.
    intros L C. unfold first_cell. cbv zeta. destruct (Qlt_le_dec lhs 0) as [X|X].
    - assert (lhs * iw < 0)%Q by (pose proof iw_pos; assert (lhs * iw < 0 * iw)%Q by (apply Qmult_lt_compat_r; lra); lra). pose proof (trunc_neg (lhs * iw) H). destruct (Z.ltb_spec (Qtrunc (lhs * iw)) 0); [destruct (Z.leb_spec N 0); lia|destruct (Z.leb_spec N (Qtrunc (lhs * iw))); lia].
    - destruct (trunc_div lhs w iw W IW X) as (T0 & T1 & T2). assert (Qtrunc (lhs * iw) < c + 1).
      { destruct (Z_lt_le_dec (Qtrunc (lhs * iw)) (c + 1)) as [|Y]; [assumption|]. exfalso. pose proof (mono w W _ _ Y). lra. }
      destruct (Z.ltb_spec (Qtrunc (lhs * iw)) 0); [lia|]. destruct (Z.leb_spec N (Qtrunc (lhs * iw))); lia.
  Qed.
  Lemma end_above c : (inject_Z c * w < rhs)%Q -> 0 <= c < N -> c < end_cell.
  Proof.
    intros L C. unfold end_cell. cbv zeta. assert (X : (0 < rhs)%Q). { pose proof (mono w W 0 c ltac:(lia)). unfold inject_Z in H at 1. lra. }
    pose proof iw_pos as P. assert (Y : (0 <= rhs * iw)%Q) by (apply Qmult_le_0_compat; lra). rewrite Qtrunc_floor by lra.
    assert (inject_Z (c + 1) <= rhs * iw + 1)%Q. { rewrite inj1. assert (inject_Z c * w * iw < rhs * iw)%Q by (apply Qmult_lt_compat_r; lra). assert (inject_Z c * w * iw == inject_Z c)%Q by (rewrite <- Qmult_assoc, (Qmult_comm w iw), IW; ring). lra. }
    apply Qfloor_resp_le in H. rewrite Qfloor_Z in H. destruct (Z.ltb_spec (Qfloor (rhs * iw + 1)) 0); [lia|]. destruct (Z.ltb_spec N (Qfloor (rhs * iw + 1))); lia.
  Qed.
  (** The overlap is positive if and only if the interiors meet, and is then the length of the common part. *)
  Lemma overlap_pos c : (0 <= overlap_1d lhs rhs c w)%Q /\
    ((0 < overlap_1d lhs rhs c w)%Q <-> exists x, (inject_Z c * w < x /\ x < inject_Z (c + 1) * w /\ lhs < x /\ x < rhs)%Q) /\
    ((0 < overlap_1d lhs rhs c w)%Q -> (overlap_1d lhs rhs c w == Qmin (inject_Z (c + 1) * w) rhs - Qmax (inject_Z c * w) lhs)%Q).
  Proof.
    assert (E : (inject_Z c * w + w == inject_Z (c + 1) * w)%Q) by (rewrite inj1; ring).
    assert (Em : (Qmin (inject_Z c * w + w) rhs == Qmin (inject_Z (c + 1) * w) rhs)%Q) by (rewrite E; reflexivity).
    unfold overlap_1d. cbv zeta. set (a := (inject_Z c * w)%Q) in *. set (b := (inject_Z (c + 1) * w)%Q) in *.
    destruct (Q.min_spec b rhs) as [(M1 & M2)|(M1 & M2)]; destruct (Q.max_spec a lhs) as [(X1 & X2)|(X1 & X2)];
    (destruct (Qle_bool rhs a) eqn:B1; [apply Qle_bool_iff in B1; split; [lra|]; split; [split; [lra|intros (x & H); lra]|lra]|]);
    (destruct (Qle_bool (a + w) lhs) eqn:B2; [apply Qle_bool_iff in B2; split; [lra|]; split; [split; [lra|intros (x & H); lra]|lra]|]);
    (assert (R1 : (a < rhs)%Q) by (apply Qnot_le_lt; intros K; apply Qle_bool_iff in K; congruence));
    (assert (R2 : (lhs < a + w)%Q) by (apply Qnot_le_lt; intros K; apply Qle_bool_iff in K; congruence));
    (destruct (Qle_bool (Qmin (a + w) rhs - Qmax a lhs) 0) eqn:B3; cbn [negb];
      [apply Qle_bool_iff in B3; split; [lra|]; split; [split; [lra|intros (x & H); lra]|lra]
      |assert (R3 : (0 < Qmin (a + w) rhs - Qmax a lhs)%Q) by (apply Qnot_le_lt; intros K; apply Qle_bool_iff in K; congruence);
       split; [lra|]; split; [split; [intros _; exists ((Qmin (a + w) rhs + Qmax a lhs) * (1 # 2))%Q; lra|intros _; exact R3]|lra]]).
  Qed.

  (** The overlaps add up to the length of the box. *)
  Definition clamp (x : Q) : Q := Qmax lhs (Qmin rhs x).
  Lemma overlap_clamp c : (lhs <= rhs)%Q -> (overlap_1d lhs rhs c w == clamp (inject_Z (c + 1) * w) - clamp (inject_Z c * w))%Q.
  Proof.
    intros L. assert (E : (inject_Z c * w + w == inject_Z (c + 1) * w)%Q) by (rewrite inj1; ring). destruct (overlap_pos c) as (P0 & P1 & P2).
    unfold clamp. set (a := (inject_Z c * w)%Q) in *. set (b := (inject_Z (c + 1) * w)%Q) in *.
    destruct (Qlt_le_dec 0 (overlap_1d lhs rhs c w)) as [X|X].
    - rewrite (P2 X). apply P1 in X. destruct X as (x & X).
      destruct (Q.min_spec b rhs) as [(M1 & M2)|(M1 & M2)]; destruct (Q.max_spec a lhs) as [(X1 & X2)|(X1 & X2)]; destruct (Q.min_spec rhs b) as [(M3 & M4)|(M3 & M4)]; destruct (Q.min_spec rhs a) as [(M5 & M6)|(M5 & M6)];
      destruct (Q.max_spec lhs (Qmin rhs b)) as [(X3 & X4)|(X3 & X4)]; destruct (Q.max_spec lhs (Qmin rhs a)) as [(X5 & X6)|(X5 & X6)]; lra.
    - assert (Z0 : (overlap_1d lhs rhs c w == 0)%Q) by lra. rewrite Z0. assert (K : forall x, ~ (a < x /\ x < b /\ lhs < x /\ x < rhs)%Q) by (intros x H; assert (0 < overlap_1d lhs rhs c w)%Q by (apply P1; exists x; exact H); lra).
      pose proof (K ((a + b) * (1 # 2))%Q) as K1. pose proof (K ((a + rhs) * (1 # 2))%Q) as K2. pose proof (K ((lhs + b) * (1 # 2))%Q) as K3. pose proof (K ((lhs + rhs) * (1 # 2))%Q) as K4.
      destruct (Q.min_spec rhs b) as [(M3 & M4)|(M3 & M4)]; destruct (Q.min_spec rhs a) as [(M5 & M6)|(M5 & M6)];
      destruct (Q.max_spec lhs (Qmin rhs b)) as [(X3 & X4)|(X3 & X4)]; destruct (Q.max_spec lhs (Qmin rhs a)) as [(X5 & X6)|(X5 & X6)]; try lra; exfalso.
      all: first [apply K1; lra|apply K2; lra|apply K3; lra|apply K4; lra].
  Qed.
  Lemma zrange_cons a b : (a < b)%Z -> zrange a b = a :: zrange (a + 1) b.
  Proof.
    intros L. unfold zrange. replace (Z.to_nat (b - a)) with (S (Z.to_nat (b - (a + 1)))) by lia. cbn [seq map]. f_equal; [lia|]. rewrite <- seq_shift, map_map. apply map_ext. intros i. lia.
  Qed.
  Lemma zrange_nil a b : (b <= a)%Z -> zrange a b = [].
  Proof. intros L. unfold zrange. replace (Z.to_nat (b - a)) with 0%nat by lia. reflexivity. Qed.
  Lemma telescope : (lhs <= rhs)%Q -> forall n a b, Z.to_nat (b - a) = n -> (a <= b)%Z -> (qsum (map (fun c => overlap_1d lhs rhs c w) (zrange a b)) == clamp (inject_Z b * w) - clamp (inject_Z a * w))%Q.
  Proof.
    intros L. induction n as [|n IH]; intros a b E H; [assert (a = b) by lia; subst b; rewrite zrange_nil by lia; cbn; ring|]. rewrite zrange_cons by lia. cbn [map qsum fold_right]. fold (qsum (map (fun c => overlap_1d lhs rhs c w) (zrange (a + 1) b))).
    rewrite (IH (a + 1) b) by lia. rewrite overlap_clamp by exact L. ring.
  Qed.
  Lemma overlap_total : (0 <= lhs)%Q -> (lhs <= rhs)%Q -> (rhs <= inject_Z N * w)%Q -> (qsum (map (fun c => overlap_1d lhs rhs c w) (zrange first_cell end_cell)) == rhs - lhs)%Q.
  Proof.
    intros L0 L1 L2. destruct (trunc_div lhs w iw W IW L0) as (T0 & T1 & T2). pose proof iw_pos as P. assert (Y : (0 <= rhs * iw)%Q) by (apply Qmult_le_0_compat; lra).
    assert (F : (inject_Z first_cell * w <= lhs)%Q). { unfold first_cell. cbv zeta. destruct (Z.ltb_spec (Qtrunc (lhs * iw)) 0); [lia|]. destruct (Z.leb_spec N (Qtrunc (lhs * iw))); [|exact T1]. pose proof (mono w W _ _ H0). lra. }
    assert (G : (rhs <= inject_Z end_cell * w)%Q).
    { unfold end_cell. cbv zeta. rewrite Qtrunc_floor by lra. destruct (floor_bounds (rhs * iw + 1)) as (F1 & F2). assert (X : (rhs * iw < inject_Z (Qfloor (rhs * iw + 1)))%Q) by (rewrite inj1 in F2; lra).
      assert (X1 : (rhs * iw * w < inject_Z (Qfloor (rhs * iw + 1)) * w)%Q) by (apply Qmult_lt_compat_r; lra). assert (X2 : (rhs * iw * w == rhs)%Q) by (rewrite <- Qmult_assoc, IW; ring).
      assert (X3 : 0 <= Qfloor (rhs * iw + 1)). { assert (inject_Z 0 < inject_Z (Qfloor (rhs * iw + 1)))%Q by (unfold inject_Z at 1; lra). apply inject_lt in H. lia. }
      destruct (Z.ltb_spec (Qfloor (rhs * iw + 1)) 0); [lia|]. destruct (Z.ltb_spec N (Qfloor (rhs * iw + 1))); [exact L2|lra]. }
    assert (O : first_cell <= end_cell \/ (lhs == rhs)%Q). { destruct (Z_le_gt_dec first_cell end_cell) as [|X]; [left; assumption|right]. pose proof (mono w W end_cell first_cell ltac:(lia)). lra. }
    destruct O as [O|O].
    - rewrite (telescope L1 _ _ _ eq_refl O). unfold clamp. destruct (Q.min_spec rhs (inject_Z end_cell * w)) as [(M1 & M2)|(M1 & M2)]; destruct (Q.min_spec rhs (inject_Z first_cell * w)) as [(M3 & M4)|(M3 & M4)];
      destruct (Q.max_spec lhs (Qmin rhs (inject_Z end_cell * w))) as [(X1 & X2)|(X1 & X2)]; destruct (Q.max_spec lhs (Qmin rhs (inject_Z first_cell * w))) as [(X3 & X4)|(X3 & X4)]; lra.
    - assert (Z0 : forall c, (overlap_1d lhs rhs c w == 0)%Q). { intros c. destruct (overlap_pos c) as (P0 & P1 & _). destruct (Qlt_le_dec 0 (overlap_1d lhs rhs c w)) as [X|X]; [|lra]. apply P1 in X. destruct X as (x & X). lra. }
      assert (S0 : forall l, (qsum (map (fun c => overlap_1d lhs rhs c w) l) == 0)%Q). { induction l as [|c l IH]; [reflexivity|]. cbn [map qsum fold_right]. fold (qsum (map (fun c => overlap_1d lhs rhs c w) l)). rewrite IH, Z0. ring. }
      rewrite S0. lra.
  Qed.
End Line.
