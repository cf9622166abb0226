(** Proofs about the sampler with replacement: the pair that two samples stand for. *)
From Coq Require Import List Arith Lia ZArith QArith Qround Bool Lqa.
Import ListNotations.
From Verif Require Import Base Mesh_Model MeshPos_Proofs Partition_Model SamplerNTC_Model SamplerNTC_Spec.
Local Open Scope nat_scope.

Definition pickz (n : Z) (u : Q) : Z := Z.min (Qtrunc (inject_Z n * u)) (n - 1).

Lemma Qtrunc_nonneg q : (0 <= q)%Q -> (0 <= Qtrunc q)%Z.
Proof. intros H. rewrite Qtrunc_floor by auto. change 0%Z with (Qfloor 0). apply Qfloor_resp_le. auto. Qed.

Lemma mul_nonneg n u : (0 <= n)%Z -> (0 <= u)%Q -> (0 <= inject_Z n * u)%Q.
Proof. intros Hn Hu. apply Qmult_le_0_compat; auto. change 0%Q with (inject_Z 0). rewrite <- Zle_Qle. auto. Qed.

Lemma pickz_range n u : (1 <= n)%Z -> (0 <= u)%Q -> (0 <= pickz n u < n)%Z.
Proof. intros Hn Hu. unfold pickz. assert (0 <= Qtrunc (inject_Z n * u))%Z by (apply Qtrunc_nonneg, mul_nonneg; [lia|auto]). lia. Qed.

Lemma floor_unique q z : (inject_Z z <= q)%Q -> (q < inject_Z (z + 1))%Q -> Qfloor q = z.
Proof.
  intros H1 H2. pose proof (Qfloor_le q) as F1. pose proof (Qlt_floor q) as F2.
  assert (inject_Z z < inject_Z (Qfloor q + 1))%Q by (eapply Qle_lt_trans; eauto).
  assert (inject_Z (Qfloor q) < inject_Z (z + 1))%Q by (eapply Qle_lt_trans; eauto).
  rewrite <- Zlt_Qlt in *. lia.
Qed.

Lemma pickz_part n k u : (0 <= u)%Q -> (u < 1)%Q -> 1 <= n -> (part n k u <-> pickz (Z.of_nat n) u = Z.of_nat k).
Proof.
  intros H0 H1 Hn. assert (NN : (0 <= inject_Z (Z.of_nat n) * u)%Q) by (apply mul_nonneg; [lia|auto]).
  assert (Lt : (inject_Z (Z.of_nat n) * u < inject_Z (Z.of_nat n))%Q).
  { rewrite <- (Qmult_1_r (inject_Z (Z.of_nat n))) at 2. apply Qmult_lt_l; auto. change 0%Q with (inject_Z 0). rewrite <- Zlt_Qlt. lia. }
  assert (P : pickz (Z.of_nat n) u = Qfloor (inject_Z (Z.of_nat n) * u)).
  { unfold pickz. rewrite Qtrunc_floor by auto. apply Z.min_l. pose proof (Qfloor_le (inject_Z (Z.of_nat n) * u)) as F.
    assert (inject_Z (Qfloor (inject_Z (Z.of_nat n) * u)) < inject_Z (Z.of_nat n))%Q by (eapply Qle_lt_trans; eauto). rewrite <- Zlt_Qlt in *. lia. }
  rewrite P. unfold part. split.
  - intros [A B]. apply floor_unique; auto.
  - intros E. rewrite <- E. split; [apply Qfloor_le|apply Qlt_floor].
Qed.

Lemma rem_mod a n : 1 <= n -> (0 <= a)%Z -> Z.rem a (Z.of_nat n) = Z.of_nat (Z.to_nat a mod n).
Proof. intros Hn Ha. rewrite Z.rem_mod_nonneg by lia. rewrite <- (Z2Nat.id a) at 1 by auto. rewrite <- Nat2Z.inj_mod. auto. Qed.

Lemma shift_neq k m n : k < n -> m < n - 1 -> (k + 1 + m) mod n <> k.
Proof.
  intros Hk Hm. destruct (lt_dec (k + 1 + m) n).
  - rewrite Nat.mod_small; lia.
  - replace (k + 1 + m) with (k + 1 + m - n + 1 * n) by lia. rewrite Nat.mod_add by lia. rewrite Nat.mod_small; lia.
Qed.

Section Pair.
  Context (same : bool) (sel_a sel_b : list (list nat)) (c : nat) (row_a row_b : list nat) (u v : Q).
  Hypothesis Ha : nth_error sel_a c = Some row_a.
  Hypothesis Hb : nth_error sel_b c = Some row_b.
  Hypothesis Hsame : same = true -> row_a = row_b.
  Hypothesis enough : if same then 2 <= length row_a else 1 <= length row_a /\ 1 <= length row_b.
  Hypothesis Hu : (0 <= u)%Q.
  Hypothesis Hv : (0 <= v)%Q.
  Definition other : nat := if same then length row_a - 1 else length row_b.

  Lemma pair_layers_ok : exists k m i j, k < length row_a /\ m < other /\
    pickz (Z.of_nat (length row_a)) u = Z.of_nat k /\ pickz (Z.of_nat other) v = Z.of_nat m /\
    pair_layers same sel_a sel_b c u v = Some (i, j) /\ nth_error row_a k = Some i /\
    nth_error row_b (if same then (k + 1 + m) mod length row_a else m) = Some j.
  Proof.
    assert (La : 1 <= length row_a) by (destruct same; lia).
    assert (Lo : 1 <= other) by (unfold other; destruct same; lia).
    destruct (pickz_range (Z.of_nat (length row_a)) u) as [P1 P2]; [lia|auto|].
    destruct (pickz_range (Z.of_nat other) v) as [P3 P4]; [lia|auto|].
    set (k := Z.to_nat (pickz (Z.of_nat (length row_a)) u)). set (m := Z.to_nat (pickz (Z.of_nat other) v)).
    assert (Hk : k < length row_a) by lia. assert (Hm : m < other) by lia.
    assert (HJ : (if same then (k + 1 + m) mod length row_a else m) < length row_b).
    { destruct same eqn:Es; [rewrite <- Hsame by auto; apply Nat.mod_upper_bound; lia|unfold other in Hm; rewrite Es in Hm; auto]. }
    destruct (nth_error_lt_some row_a k Hk) as [i Ei]. destruct (nth_error_lt_some row_b _ HJ) as [j Ej].
    exists k, m, i, j. split; auto. split; auto. split; [lia|]. split; [lia|]. split; [|auto].
    unfold pair_layers, rd. rewrite Ha, Hb. cbn [obind].
    assert (Eo : (if same then (Z.of_nat (length row_a) - 1)%Z else Z.of_nat (length row_b)) = Z.of_nat other) by (unfold other; destruct same; lia).
    rewrite Eo. fold (pickz (Z.of_nat (length row_a)) u) (pickz (Z.of_nat other) v).
    assert (negb same || negb (Z.of_nat (length row_a) =? 0)%Z = true) as ->.
    { destruct (Z.eqb_spec (Z.of_nat (length row_a)) 0); [lia|]. apply orb_true_r. }
    cbn [assert obind].
    assert (I1 : index_of (pickz (Z.of_nat (length row_a)) u) = Some k).
    { unfold index_of. destruct (Z.ltb_spec (pickz (Z.of_nat (length row_a)) u) 0); [lia|auto]. }
    rewrite I1. cbn [obind].
    assert (I2 : index_of (if same then Z.rem (pickz (Z.of_nat (length row_a)) u + 1 + pickz (Z.of_nat other) v) (Z.of_nat (length row_a)) else pickz (Z.of_nat other) v)
      = Some (if same then (k + 1 + m) mod length row_a else m)).
    { unfold index_of. destruct same.
      - rewrite rem_mod by lia. destruct (Z.ltb_spec (Z.of_nat (Z.to_nat (pickz (Z.of_nat (length row_a)) u + 1 + pickz (Z.of_nat other) v) mod length row_a)) 0); [lia|].
        rewrite Nat2Z.id. do 2 f_equal. lia.
      - destruct (Z.ltb_spec (pickz (Z.of_nat other) v) 0); [lia|auto]. }
    rewrite I2. cbn [obind]. rewrite Ei. cbn [obind]. rewrite Ej. auto.
  Qed.

  Lemma pair_facts : NoDup row_a -> exists i j, pair_layers same sel_a sel_b c u v = Some (i, j) /\ In i row_a /\ In j row_b /\ (same = true -> i <> j) /\
    ((u < 1)%Q -> (v < 1)%Q -> chosen same row_a row_b u v i j).
  Proof.
    intros ND. destruct pair_layers_ok as [k [m [i [j [Hk [Hm [Pk [Pm [E [Ei Ej]]]]]]]]]]. exists i, j. split; auto.
    split; [eapply nth_error_In; eauto|]. split; [eapply nth_error_In; eauto|]. split.
    - intros Es Eij. rewrite Es in *. apply (shift_neq k m (length row_a)); [auto|unfold other in Hm; rewrite Es in Hm; auto|].
      symmetry. apply (proj1 (NoDup_nth_error row_a) ND); auto. rewrite <- (Hsame eq_refl) in Ej. congruence.
    - intros Hu1 Hv1. exists k, m.
      assert (La : 1 <= length row_a) by lia. assert (Lo : 1 <= other) by lia.
      split; [apply pickz_part; auto|]. split; auto. apply pickz_part in Pm; auto. unfold other in Pm. destruct same; [|auto]. rewrite <- (Hsame eq_refl) in Ej. auto.
  Qed.
End Pair.

(** Each pair has the same share of the samples. *)
Lemma part_fun n k k' u : part n k u -> part n k' u -> k = k'.
Proof. intros [A B] [C D]. assert (Z.of_nat k = Z.of_nat k'); [|lia]. rewrite <- (floor_unique _ _ A B). apply floor_unique; auto. Qed.

Lemma part_lt n k u : (u < 1)%Q -> 1 <= n -> part n k u -> k < n.
Proof.
  intros Hu Hn [A _]. assert (inject_Z (Z.of_nat n) * u < inject_Z (Z.of_nat n))%Q as Lt.
  { rewrite <- (Qmult_1_r (inject_Z (Z.of_nat n))) at 2. apply Qmult_lt_l; auto. change 0%Q with (inject_Z 0). rewrite <- Zlt_Qlt. lia. }
  assert (inject_Z (Z.of_nat k) < inject_Z (Z.of_nat n))%Q as Z by (eapply Qle_lt_trans; eauto). rewrite <- Zlt_Qlt in Z. lia.
Qed.

Lemma chosen_equal same row_a row_b i j : NoDup row_a -> NoDup row_b -> In i row_a -> In j row_b ->
  (same = true -> row_a = row_b /\ i <> j) ->
  exists k m, k < length row_a /\ m < (if same then length row_a - 1 else length row_b) /\
    forall u v, (0 <= u)%Q -> (u < 1)%Q -> (0 <= v)%Q -> (v < 1)%Q ->
      (chosen same row_a row_b u v i j <-> part (length row_a) k u /\ part (if same then length row_a - 1 else length row_b) m v).
Proof.
  intros Na Nb Hi Hj Hs. apply In_nth_error in Hi as [k Hk], Hj as [l Hl]. assert (Lk : k < length row_a) by (eapply nth_error_some_lt; eauto).
  assert (Ll : l < length row_b) by (eapply nth_error_some_lt; eauto).
  destruct same.
  - destruct (Hs eq_refl) as [<- Nij]. clear Hs. set (n := length row_a) in *. assert (k <> l) by congruence.
    exists k. exists (if k <? l then l - k - 1 else l + n - k - 1).
    assert (Em : forall m, m < n - 1 -> ((k + 1 + m) mod n = l <-> m = if k <? l then l - k - 1 else l + n - k - 1)).
    { intros m Hm. destruct (lt_dec (k + 1 + m) n).
      - rewrite Nat.mod_small by lia. destruct (Nat.ltb_spec k l); lia.
      - replace (k + 1 + m) with (k + 1 + m - n + 1 * n) by lia. rewrite Nat.mod_add by lia. rewrite Nat.mod_small by lia. destruct (Nat.ltb_spec k l); lia. }
    split; auto. split; [destruct (Nat.ltb_spec k l); lia|]. intros u v Hu0 Hu1 Hv0 Hv1. split.
    + intros [k' [m [P [Ek [P' Em']]]]]. fold n in P, P', Em'. assert (k' < n) by (apply nth_error_some_lt in Ek; auto).
      assert (k' = k) as -> by (apply (proj1 (NoDup_nth_error row_a) Na); auto; congruence). split; auto.
      assert (m < n - 1) by (eapply part_lt; eauto; lia). assert ((k + 1 + m) mod n = l).
      { apply (proj1 (NoDup_nth_error row_a) Na); [apply Nat.mod_upper_bound; lia|congruence]. }
      apply Em in H2; auto. rewrite <- H2. auto.
    + intros [P P']. assert (M : (if k <? l then l - k - 1 else l + n - k - 1) < n - 1) by (destruct (Nat.ltb_spec k l); lia).
      exists k. eexists. split; [exact P|]. split; [auto|]. split; [exact P'|]. fold n. rewrite (proj2 (Em _ M) eq_refl). auto.
  - exists k, l. split; auto. split; auto. intros u v Hu0 Hu1 Hv0 Hv1. split.
    + intros [k' [m [P [Ek [P' Em']]]]]. assert (k' = k) as -> by (apply (proj1 (NoDup_nth_error row_a) Na); [apply nth_error_some_lt in Ek; auto|congruence]).
      assert (m = l) as -> by (apply (proj1 (NoDup_nth_error row_b) Nb); [apply nth_error_some_lt in Em'; auto|congruence]). auto.
    + intros [P P']. exists k, l. auto.
Qed.
