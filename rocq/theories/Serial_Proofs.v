(** Packing objects into bytes and back. *)
From Coq Require Import List Arith ZArith Bool Lia.
Import ListNotations.
From Verif Require Import Base Kernel Serial_Model MHC_Spec.
Local Open Scope nat_scope.

Lemma le_length n : forall x, length (le n x) = n.
Proof. induction n as [|n IH]; intros x; [reflexivity|]. cbn [le length]. rewrite IH. reflexivity. Qed.
Lemma un_le_le n : forall x, un_le (le n x) = (x mod 256 ^ Z.of_nat n)%Z.
Proof.
  induction n as [|n IH]; intros x; [cbn; rewrite Z.mod_1_r; reflexivity|]. cbn [le un_le fold_right]. fold (un_le (le n (x / 256))). rewrite IH.
  replace (Z.of_nat (S n)) with (Z.succ (Z.of_nat n)) by lia. rewrite Z.pow_succ_r by lia. assert (0 < 256 ^ Z.of_nat n)%Z by (apply Z.pow_pos_nonneg; lia).
  rewrite Z.rem_mul_r by lia. reflexivity.
Qed.
Lemma un_le8 x : (0 <= x < 2 ^ 64)%Z -> un_le (le 8 x) = x.
Proof. intros H. rewrite un_le_le. apply Z.mod_small. change (256 ^ Z.of_nat 8)%Z with (2 ^ 64)%Z. lia. Qed.
Lemma signed_le n x : 1 <= n -> (- (256 ^ Z.of_nat n / 2) <= x < 256 ^ Z.of_nat n / 2)%Z -> signed n (un_le (le n x)) = x.
Proof.
  intros Ln H. rewrite un_le_le. unfold signed. assert (E : (256 ^ Z.of_nat n = 2 * (256 ^ Z.of_nat n / 2))%Z). { replace (Z.of_nat n) with (Z.succ (Z.of_nat n - 1)) by lia. rewrite Z.pow_succ_r by lia. replace (256 * 256 ^ (Z.of_nat n - 1))%Z with (128 * 256 ^ (Z.of_nat n - 1) * 2)%Z by lia. rewrite Z.div_mul by lia. lia. }
  set (h := (256 ^ Z.of_nat n / 2)%Z) in *. rewrite E. destruct (Z_lt_le_dec x 0) as [N|P].
  - replace (x mod (2 * h))%Z with (x + 2 * h)%Z by (apply (Z.mod_unique x (2 * h) (-1) (x + 2 * h)); lia). destruct (Z.ltb_spec (x + 2 * h) h); lia.
  - rewrite Z.mod_small by lia. destruct (Z.ltb_spec x h); lia.
Qed.
Lemma signed8 x : (- 2 ^ 63 <= x < 2 ^ 63)%Z -> signed 8 (un_le (le 8 x)) = x.
Proof. intros H. apply signed_le; [lia|]. change (256 ^ Z.of_nat 8 / 2)%Z with (2 ^ 63)%Z. lia. Qed.
Lemma take_app n a b : n = length a -> take n (a ++ b) = Some (a, b).
Proof. intros ->. unfold take. rewrite app_length. destruct (Nat.leb_spec (length a) (length a + length b)); [|lia]. rewrite firstn_app, Nat.sub_diag, firstn_all, skipn_app, skipn_all, Nat.sub_diag. cbn. rewrite app_nil_r. reflexivity. Qed.

Section Packed.
  Context {T : Type} (S : serial T) (ok : T -> Prop) (H : serial_ok S ok).
  Definition small (x : T) : Prop := (Z.of_nat (num_bytes S x) < size_max)%Z.
  Definition packed1 (x : T) : list byte := le 8 (Z.of_nat (num_bytes S x)) ++ match ser S x with Some b => b | None => [] end.
  Definition packed (l : list T) : list byte := flat_map packed1 l.
  Lemma packed_app a b : packed (a ++ b) = packed a ++ packed b.
  Proof. apply flat_map_app. Qed.
  Lemma packed1_length x : ok x -> length (packed1 x) = 8 + num_bytes S x.
  Proof. intros O. destruct (H x O) as (b & E & L & _). unfold packed1. rewrite E, app_length, le_length, L. reflexivity. Qed.
  Lemma packed_length l : Forall ok l -> length (packed l) = bytes_of S l.
  Proof.
    induction 1 as [|x l O F IH]; [reflexivity|]. unfold packed in *. cbn [flat_map]. rewrite app_length, IH, packed1_length by exact O. unfold bytes_of. cbn [map]. unfold list_sum. cbn [fold_right]. lia.
  Qed.
  Lemma pack_packed l : Forall ok l -> pack S l = Some (packed l).
  Proof.
    intros F. unfold pack. enough (E : mapM (fun x => b <- ser S x;; _ <- assert (length b =? num_bytes S x);; Some (le 8 (Z.of_nat (num_bytes S x)) ++ b)) l = Some (map packed1 l)) by (rewrite E; cbn [obind]; unfold packed; rewrite flat_map_concat_map; reflexivity).
    induction F as [|x l O F IH]; [reflexivity|]. cbn [mapM]. destruct (H x O) as (b & E & L & _). cbn [map]. unfold packed1 at 1. rewrite E. cbn [obind]. rewrite L, Nat.eqb_refl. cbn [assert obind]. rewrite IH. reflexivity.
  Qed.
  Lemma unpack_fuel_packed l : Forall ok l -> Forall small l -> forall fuel, length (packed l) <= fuel -> unpack_fuel S fuel (packed l) = Some l.
  Proof.
    induction 1 as [|x l O F IH]; intros Sm fuel Lf; [destruct fuel; reflexivity|]. inversion Sm as [|? ? Sx Sl]; subst.
    assert (E : packed (x :: l) = packed1 x ++ packed l) by reflexivity. rewrite E in *. rewrite app_length, packed1_length in Lf by exact O. destruct fuel as [|f]; [lia|].
    destruct (packed1 x ++ packed l) as [|y t] eqn:E'; [apply (f_equal (@length _)) in E'; rewrite app_length, packed1_length in E' by exact O; cbn in E'; lia|]. cbn [unpack_fuel]. rewrite <- E'. clear E' y t E.
    destruct (H x O) as (b & Es & Lb & Ed). unfold packed1 at 1. rewrite Es, <- app_assoc. rewrite take_app by (rewrite le_length; reflexivity). cbn [obind fst snd]. unfold small, size_max in *.
    rewrite un_le8 by lia. destruct (Z.ltb_spec (Z.of_nat (num_bytes S x)) (2 ^ 64 - 1)); [|lia]. cbn [assert obind]. rewrite app_length. destruct (Z.leb_spec (Z.of_nat (num_bytes S x)) (Z.of_nat (length b + length (packed l)))); [|lia]. cbn [assert obind].
    rewrite Nat2Z.id. rewrite take_app by lia. cbn [obind fst snd]. rewrite Ed. cbn [obind]. rewrite IH by (auto; lia). reflexivity.
  Qed.
  Lemma unpack_packed l : Forall ok l -> Forall small l -> unpack S (packed l) = Some l.
  Proof. intros. apply unpack_fuel_packed; auto. Qed.
  Lemma bytes_small l : (Z.of_nat (bytes_of S l) < 2 ^ 31)%Z -> Forall small l.
  Proof.
    unfold bytes_of. intros L. apply Forall_forall. intros x I. unfold small, size_max. apply in_split in I. destruct I as (a & b & ->). rewrite map_app, list_sum_app in L. cbn [map] in L. unfold list_sum at 2 in L. cbn [fold_right] in L. lia.
  Qed.
End Packed.

Definition mh_ok (e : Z * list byte) : Prop := (- 2 ^ 63 <= fst e < 2 ^ 63)%Z /\ (Z.of_nat (length (snd e)) < size_max)%Z.
Lemma mh_serial_ok : serial_ok mh_cell_buffer mh_ok.
Proof.
  intros (c, b) (Hc & Hb). cbn [fst snd] in *. exists (le 8 c ++ le 8 (Z.of_nat (length b)) ++ b). split; [reflexivity|]. split; [cbn [num_bytes mh_cell_buffer snd]; rewrite !app_length, !le_length; lia|].
  cbn [deser mh_cell_buffer]. rewrite take_app by (rewrite le_length; reflexivity). cbn [obind fst snd]. rewrite take_app by (rewrite le_length; reflexivity). cbn [obind fst snd]. unfold size_max in *. rewrite un_le8 by lia. destruct (Z.ltb_spec (Z.of_nat (length b)) (2 ^ 64 - 1)); [|lia]. cbn [assert obind]. rewrite Z.eqb_refl. cbn [assert obind]. rewrite signed8 by lia. reflexivity.
Qed.
