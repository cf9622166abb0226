(** Lemmas about matrix_transpose. *)
From Coq Require Import List Arith Bool Permutation Lia.
Import ListNotations.
From Verif Require Import Base Kernel Scan_Model Transpose_Model.

Lemma in_prod_seq a b p : In p (list_prod (seq 0 a) (seq 0 b)) <-> fst p < a /\ snd p < b.
Proof. destruct p as [i j]. rewrite in_prod_iff, !in_seq. cbn. lia. Qed.

Lemma ppow_pos n : 1 <= get_prev_power_of_two n.
Proof. unfold get_prev_power_of_two. lia. Qed.

Lemma div_mul_add a b c : c < b -> (a * b + c) / b = a /\ (a * b + c) mod b = c.
Proof.
  intros H. assert (b <> 0) by lia. rewrite Nat.add_comm. split.
  - rewrite Nat.div_add by auto. rewrite Nat.div_small by auto. lia.
  - rewrite Nat.mod_add by auto. apply Nat.mod_small; auto.
Qed.

Lemma mul_add_inj m a1 a2 b1 b2 : a1 * m + a2 = b1 * m + b2 -> a2 < m -> b2 < m -> a1 = b1 /\ a2 = b2.
Proof.
  intros E H1 H2. destruct (div_mul_add a1 m a2 H1) as [A B]. destruct (div_mul_add b1 m b2 H2) as [C D].
  rewrite E in A, B. split; congruence.
Qed.

Lemma linear_lt lsr lsc it : fst it < lsr -> snd it < lsc -> linear lsc it < lsr * lsc.
Proof. intros. unfold linear. nia. Qed.

Lemma next_multiple_div n m k : 1 <= m -> k < n -> k / m < get_next_multiple n m / m.
Proof.
  intros Hm Hk. unfold get_next_multiple. rewrite Nat.div_mul by lia.
  apply (Nat.div_lt_upper_bound k m); [lia|].
  pose proof (Nat.div_mod (n + (m - 1)) m ltac:(lia)). pose proof (Nat.mod_upper_bound (n + (m - 1)) m ltac:(lia)). nia.
Qed.

Section Group.
Context {T : Type} (zero : T) (rows cols lsr lsc : nat) (d : device).
Hypothesis dok : device_ok d.
Hypothesis Hr : 1 <= lsr.
Hypothesis Hc : 1 <= lsc.
Hypothesis Rp : 1 <= rows.

Definition wr (src : list T) (g : nat * nat) (j : nat) : option T :=
  if (j <? rows * cols) && (j / rows / lsc =? snd g) && (j mod rows / lsr =? fst g)
  then nth_error src (j mod rows * cols + j / rows) else None.

Lemma group_correct k src local0 dst g : length src = rows * cols -> length dst = rows * cols -> length local0 = lsr * lsc ->
  exists dst', group_run zero rows cols lsr lsc d k src local0 dst g = Some dst' /\ length dst' = rows * cols /\
  forall j, nth_error dst' j = match wr src g j with Some v => Some v | None => nth_error dst j end.
Proof.
  intros Ls Ld Ll. unfold group_run. set (items := list_prod (seq 0 lsr) (seq 0 lsc)).
  assert (Hin : forall k it, In it (ord d k items) -> fst it < lsr /\ snd it < lsc).
  { intros k' it H. apply in_ord in H; auto. apply in_prod_seq in H. auto. }
  assert (Hin' : forall k it, fst it < lsr /\ snd it < lsc -> In it (ord d k items)).
  { intros k' it H. apply in_ord; auto. apply in_prod_seq. auto. }
  set (val := fun it : nat * nat => 
     if (fst g * lsr + fst it <? rows) && (snd g * lsc + snd it <? cols)
     then nth ((fst g * lsr + fst it) * cols + (snd g * lsc + snd it)) src zero else zero).
  destruct (foldM_upd (read_item zero rows cols lsr lsc src g) (fun it => fst it * lsc + snd it) val (ord d k items) local0)
    as [lm [E1 [L1 [W1 _]]]].
  { intros m' it _ Hi. unfold read_item, val. destruct (Nat.ltb_spec (fst g * lsr + fst it) rows); [|reflexivity].
    destruct (Nat.ltb_spec (snd g * lsc + snd it) cols); [|reflexivity]. cbn [andb]. unfold rd.
    rewrite (nth_error_nth' src zero); [reflexivity|]. rewrite Ls. nia. }
  { intros it Hi. apply Hin in Hi. rewrite Ll. nia. }
  { intros a b Ha Hb Eq. apply Hin in Ha. apply Hin in Hb. replace b with a; auto.
    destruct a as [a1 a2], b as [b1 b2]; cbn in *. destruct (mul_add_inj lsc a1 a2 b1 b2); [auto|lia|lia|]. subst; auto. }
  rewrite E1; cbn [obind].
  destruct (@foldM_kernel (nat * nat) (list T) nat T (write_item rows cols lsr lsc g lm) (fun m j => nth_error m j)
     (fun m => length m = rows * cols)
     (fun it j => let wr_ := snd g * lsc + linear lsc it / lsr in let wc := fst g * lsr + linear lsc it mod lsr in
        if (wr_ <? cols) && (wc <? rows) && (j =? wr_ * rows + wc) then nth_error src (wc * cols + wr_) else None)
     (ord d (k + 1) items) dst Ld) as [dst' [E2 [L2 [W2 N2]]]].
  { intros s it Lsn Hi. apply Hin in Hi. destruct Hi as [I1 I2]. unfold write_item. cbn zeta.
    pose proof (linear_lt lsr lsc it I1 I2) as Lt.
    assert (Q : linear lsc it / lsr < lsc) by (apply Nat.div_lt_upper_bound; lia).
    assert (M : linear lsc it mod lsr < lsr) by (apply Nat.mod_upper_bound; lia).
    set (q := linear lsc it / lsr) in *. set (m := linear lsc it mod lsr) in *.
    pose proof (W1 (m, q) (Hin' k (m, q) (conj M Q))) as V. cbn [fst snd] in V. unfold rd. rewrite V; cbn [obind].
    destruct (Nat.ltb_spec (snd g * lsc + q) cols) as [B1|B1]; [|exists s; auto].
    destruct (Nat.ltb_spec (fst g * lsr + m) rows) as [B2|B2]; [|exists s; auto]. cbn [andb].
    assert (BA : (snd g * lsc + q) * rows + (fst g * lsr + m) < rows * cols) by nia.
    destruct (upd_some s ((snd g * lsc + q) * rows + (fst g * lsr + m)) (val (m, q))) as [s' Es]; [lia|].
    exists s'. split; auto. split; [rewrite (upd_length _ _ _ _ Es); auto|]. intros j. rewrite (upd_nth _ _ _ _ j Es).
    destruct (j =? _); auto. unfold val; cbn [fst snd].
    destruct (Nat.ltb_spec (fst g * lsr + m) rows); [|lia]. destruct (Nat.ltb_spec (snd g * lsc + q) cols); [|lia]. cbn [andb].
    rewrite (nth_error_nth' src zero); auto. rewrite Ls. nia. }
  { intros a b j v w Ha Hb. cbn zeta.
    set (wa := snd g * lsc + linear lsc a / lsr). set (ca := fst g * lsr + linear lsc a mod lsr).
    set (wb := snd g * lsc + linear lsc b / lsr). set (cb := fst g * lsr + linear lsc b mod lsr).
    destruct (Nat.ltb_spec wa cols); [|discriminate]. destruct (Nat.ltb_spec ca rows); [|discriminate].
    destruct (Nat.eqb_spec j (wa * rows + ca)); [|discriminate].
    destruct (Nat.ltb_spec wb cols); [|discriminate]. destruct (Nat.ltb_spec cb rows); [|discriminate].
    destruct (Nat.eqb_spec j (wb * rows + cb)); [|discriminate]. cbn [andb].
    assert (wa = wb /\ ca = cb) as [Ew Ec] by (apply (mul_add_inj rows); lia). rewrite Ew, Ec. congruence. }
  exists dst'. split; auto. split; auto. intros j. unfold wr.
  destruct (Nat.ltb_spec j (rows * cols)) as [Hj|Hj]; cbn [andb].
  2:{ apply N2. intros it Hi. cbn zeta. destruct (Nat.ltb_spec (snd g * lsc + linear lsc it / lsr) cols); auto.
      destruct (Nat.ltb_spec (fst g * lsr + linear lsc it mod lsr) rows); auto. cbn [andb].
      destruct (Nat.eqb_spec j ((snd g * lsc + linear lsc it / lsr) * rows + (fst g * lsr + linear lsc it mod lsr))); auto. nia. }
  pose proof (Nat.div_mod j rows ltac:(lia)) as DM. pose proof (Nat.mod_upper_bound j rows ltac:(lia)) as MB.
  set (jr := j / rows) in *. set (jc := j mod rows) in *.
  assert (JR : jr < cols) by (apply Nat.div_lt_upper_bound; lia).
  destruct (Nat.eqb_spec (jr / lsc) (snd g)) as [G1|G1]; cbn [andb].
  - destruct (Nat.eqb_spec (jc / lsr) (fst g)) as [G2|G2].
    + pose proof (Nat.div_mod jr lsc ltac:(lia)) as D1. pose proof (Nat.mod_upper_bound jr lsc ltac:(lia)) as B1.
      pose proof (Nat.div_mod jc lsr ltac:(lia)) as D2. pose proof (Nat.mod_upper_bound jc lsr ltac:(lia)) as B2.
      set (lin := (jr mod lsc) * lsr + jc mod lsr). assert (Llin : lin < lsr * lsc) by (unfold lin; nia).
      pose proof (div_mul_add (jr mod lsc) lsr (jc mod lsr) B2) as [Q1 Q2]. fold lin in Q1, Q2.
      set (it := (lin / lsc, lin mod lsc)).
      assert (Eit : linear lsc it = lin). { unfold linear, it; cbn [fst snd]. rewrite (Nat.div_mod lin lsc) at 3 by lia. lia. }
      assert (Iit : fst it < lsr /\ snd it < lsc).
      { unfold it; cbn [fst snd]. split; [apply Nat.div_lt_upper_bound; lia|apply Nat.mod_upper_bound; lia]. }
      destruct (nth_error_lt_some src (jc * cols + jr)) as [v Ev]; [rewrite Ls; nia|]. rewrite Ev.
      apply (W2 it); [apply Hin'; auto|]. cbn zeta. rewrite Eit, Q1, Q2.
      replace (snd g * lsc + jr mod lsc) with jr by (rewrite <- G1; lia).
      replace (fst g * lsr + jc mod lsr) with jc by (rewrite <- G2; lia).
      destruct (Nat.ltb_spec jr cols); [|lia]. destruct (Nat.ltb_spec jc rows); [|lia]. cbn [andb].
      destruct (Nat.eqb_spec j (jr * rows + jc)); [auto|lia].
    + apply N2. intros it Hi. apply Hin in Hi. cbn zeta.
      destruct (Nat.ltb_spec (snd g * lsc + linear lsc it / lsr) cols); auto.
      destruct (Nat.ltb_spec (fst g * lsr + linear lsc it mod lsr) rows); auto. cbn [andb].
      destruct (Nat.eqb_spec j ((snd g * lsc + linear lsc it / lsr) * rows + (fst g * lsr + linear lsc it mod lsr))) as [Ej|]; auto.
      exfalso; apply G2. assert (jc = fst g * lsr + linear lsc it mod lsr) as -> by (apply (mul_add_inj rows jr _ (snd g * lsc + linear lsc it / lsr)); lia).
      apply div_mul_add. apply Nat.mod_upper_bound; lia.
  - apply N2. intros it Hi. apply Hin in Hi. cbn zeta.
    destruct (Nat.ltb_spec (snd g * lsc + linear lsc it / lsr) cols); auto.
    destruct (Nat.ltb_spec (fst g * lsr + linear lsc it mod lsr) rows); auto. cbn [andb].
    destruct (Nat.eqb_spec j ((snd g * lsc + linear lsc it / lsr) * rows + (fst g * lsr + linear lsc it mod lsr))) as [Ej|]; auto.
    exfalso; apply G1. assert (jr = snd g * lsc + linear lsc it / lsr) as -> by (apply (mul_add_inj rows _ jc _ (fst g * lsr + linear lsc it mod lsr)); lia).
    apply div_mul_add. apply Nat.div_lt_upper_bound; [lia|]. apply linear_lt; tauto.
Qed.
End Group.

Lemma transpose_correct {T} (zero : T) d nwi rows cols local0 src dst :
  device_ok d -> 2 <= rows -> 2 <= cols -> length src = rows * cols -> length dst = rows * cols ->
  exists dst', matrix_transpose zero d nwi rows cols local0 src dst = Some dst' /\ length dst' = rows * cols /\
  forall i j, i < rows -> j < cols -> nth_error dst' (j * rows + i) = nth_error src (i * cols + j).
Proof.
  intros dok Hr Hc Ls Ld. unfold matrix_transpose.
  destruct (Nat.leb_spec rows 1); [lia|]. destruct (Nat.leb_spec cols 1); [lia|]. cbn [orb].
  set (lsr := get_prev_power_of_two (Nat.min rows (Nat.sqrt nwi))). set (lsc := get_prev_power_of_two (Nat.min cols (Nat.sqrt nwi))).
  pose proof (ppow_pos (Nat.min rows (Nat.sqrt nwi))) as P1. fold lsr in P1.
  pose proof (ppow_pos (Nat.min cols (Nat.sqrt nwi))) as P2. fold lsc in P2.
  set (groups := list_prod _ _).
  match goal with |- context [foldM ?F dst ?S] => 
    destruct (@foldM_kernel (nat * nat) (list T) nat T F (fun m j => nth_error m j)
       (fun m => length m = rows * cols) (fun g j => wr rows cols lsr lsc src g j) S dst Ld) as [dst' [E [L [W _]]]] end.
  - intros s g Lsn Hg.
    destruct (group_correct zero rows cols lsr lsc d dok P1 P2 ltac:(lia) (401 + 2 * (fst g * cols + snd g)) src
       (map (local0 g) (seq 0 (lsr * lsc))) s g Ls Lsn) as [s' [E' [L' G']]]; [rewrite map_length, seq_length; auto|].
    exists s'; auto.
  - intros a b j v w _ _. unfold wr. destruct (_ && _); [|discriminate]. destruct (_ && _); [|discriminate]. congruence.
  - exists dst'. split; auto. split; auto. intros i j Hi Hj.
    destruct (nth_error_lt_some src (i * cols + j)) as [v Ev]; [rewrite Ls; nia|]. rewrite Ev.
    assert (A1 : (j * rows + i) / rows = j /\ (j * rows + i) mod rows = i) by (apply div_mul_add; auto). destruct A1 as [A1 A2].
    apply (W (i / lsr, j / lsc)).
    + apply in_ord; auto. apply in_prod_seq. cbn. split; apply next_multiple_div; auto.
    + unfold wr. rewrite A1, A2. cbn [fst snd]. rewrite !Nat.eqb_refl.
      destruct (Nat.ltb_spec (j * rows + i) (rows * cols)); [cbn [andb]; auto|nia].
Qed.
