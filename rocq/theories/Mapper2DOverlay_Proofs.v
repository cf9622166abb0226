(** The overlay mesh. *)
From Coq Require Import List Arith ZArith QArith Qminmax Qround Bool Lia Lqa.
Import ListNotations.
From Verif Require Import Base Kernel DeviceFn_Model Mesh_Model Mesh_Spec MeshNb_Proofs MeshPos_Proofs Overlap_Model Overlap_Proofs OverlapMap_Proofs Mapper2D_Model Mapper2D_Spec Mapper2DPoly_Proofs.
Open Scope Z_scope.

Lemma eps_pos : (0 < epsilon)%Q. Proof. reflexivity. Qed.
Lemma clamp_in n c : 0 < n -> 0 <= clamp n c < n.
Proof. intros H. unfold clamp. destruct (Z.ltb_spec c 0); [destruct (Z.leb_spec n 0)|destruct (Z.leb_spec n c)]; lia. Qed.
Lemma clamp_id n c : 0 <= c < n -> clamp n c = c.
Proof. intros H. unfold clamp. destruct (Z.ltb_spec c 0); [lia|]. destruct (Z.leb_spec n c); lia. Qed.
Lemma clamp_mono n a b : a <= b -> clamp n a <= clamp n b.
Proof. intros H. unfold clamp. destruct (Z.ltb_spec a 0); destruct (Z.ltb_spec b 0); try lia; cbv zeta; repeat match goal with |- context [?x <=? ?y] => destruct (Z.leb_spec x y) end; lia. Qed.
Lemma clamp_max n c : 0 < n -> 0 <= c -> clamp n c = Z.min c (n - 1).
Proof. intros P H. unfold clamp. destruct (Z.ltb_spec c 0); [lia|].  destruct (Z.leb_spec n c); lia. Qed.

Section Line.
  Context (w iw : Q) (n : Z) (W : (0 < w)%Q) (IW : (iw * w == 1)%Q) (Hn : 0 < n).
  Lemma kz a b : (inject_Z a * w < inject_Z b * w)%Q -> a < b.
  Proof. intros X. destruct (Z_lt_le_dec a b) as [|Y]; [assumption|]. pose proof (mono w W _ _ Y). lra. Qed.
  Lemma cell_contains x : (0 <= x)%Q -> (x <= inject_Z n * w)%Q -> let c := clamp n (Qtrunc (x * iw)) in (inject_Z c * w <= x /\ x <= inject_Z (c + 1) * w)%Q /\ ((x < inject_Z n * w)%Q -> (x < inject_Z (c + 1) * w)%Q).
  Proof.
    intros X0 X1 c. destruct (trunc_div x w iw W IW X0) as (T0 & T1 & T2). set (f := Qtrunc (x * iw)) in *. assert (f <= n) by (assert (f < n + 1) by (apply kz; rewrite (inj1 n); lra); lia).
    unfold c. rewrite clamp_max by assumption. destruct (Z_lt_le_dec f n) as [L|L].
    - rewrite Z.min_l by lia. split; [split; lra|intros; lra].
    - assert (f = n) by lia. clearbody f. subst f. rewrite Z.min_r by lia. replace (n - 1 + 1) with n by lia. split; [split; [|lra]|intros; lra]. pose proof (mono w W (n - 1) n ltac:(lia)). lra.
  Qed.
  Definition first_ (s : Q) : Z := clamp n (if Qle_bool (s - epsilon) (inject_Z (Qtrunc (s * iw)) * w) then Qtrunc (s * iw) - 1 else Qtrunc (s * iw)).
  Definition end_ (u : Q) : Z := clamp n (if Qle_bool (inject_Z (Qtrunc (u * iw) + 1) * w) (u + epsilon) then Qtrunc (u * iw) + 1 else Qtrunc (u * iw)) + 1.
  Lemma range_bounds s u : 0 <= first_ s < n /\ 1 <= end_ u <= n.
  Proof. unfold first_, end_. split; [apply clamp_in, Hn|]. match goal with |- 1 <= clamp n ?x + 1 <= n => pose proof (clamp_in n x Hn) end. lia. Qed.
  Lemma range_complete s u c : (0 <= s)%Q -> (0 <= u)%Q -> 0 <= c < n -> (inject_Z c * w <= u)%Q -> (s <= inject_Z (c + 1) * w)%Q -> first_ s <= c < end_ u.
  Proof.
    intros S0 U0 C Cu Cs. pose proof eps_pos as EP. destruct (trunc_div s w iw W IW S0) as (T0 & T1 & T2). destruct (trunc_div u w iw W IW U0) as (V0 & V1 & V2). unfold first_, end_. set (f := Qtrunc (s * iw)) in *. set (g := Qtrunc (u * iw)) in *. clearbody f g.
    assert (Hg : c <= g) by (assert (c < g + 1) by (apply kz; lra); lia).
    assert (Hf : f <= c + 1) by (assert (f < c + 2) by (apply kz; replace (c + 2) with (c + 1 + 1) by lia; rewrite (inj1 (c + 1)); lra); lia). split.
    - destruct (Qle_bool (s - epsilon) (inject_Z f * w)) eqn:E.
      + rewrite <- (clamp_id n c C). apply clamp_mono. lia.
      + assert (f <= c). { destruct (Z_le_gt_dec f c) as [|G]; [assumption|exfalso]. assert (f = c + 1) by lia. subst f. assert (Qle_bool (s - epsilon) (inject_Z (c + 1) * w) = true) by (apply Qle_bool_iff; lra). congruence. }
        rewrite <- (clamp_id n c C). apply clamp_mono. lia.
    - assert (c <= clamp n (if Qle_bool (inject_Z (g + 1) * w) (u + epsilon) then g + 1 else g)). { rewrite <- (clamp_id n c C) at 1. apply clamp_mono. destruct (Qle_bool (inject_Z (g + 1) * w) (u + epsilon)); lia. } lia.
  Qed.
  Lemma range_sound s u c : (0 <= s)%Q -> (s <= inject_Z n * w)%Q -> (0 <= u)%Q -> first_ s <= c < end_ u -> (inject_Z c * w <= u + epsilon /\ s - epsilon <= inject_Z (c + 1) * w)%Q.
  Proof.
    intros S0 S1 U0 C. pose proof eps_pos as EP. destruct (trunc_div s w iw W IW S0) as (T0 & T1 & T2). destruct (trunc_div u w iw W IW U0) as (V0 & V1 & V2). pose proof (range_bounds s u) as ((F0 & F1) & _). unfold first_, end_ in *. set (f := Qtrunc (s * iw)) in *. set (g := Qtrunc (u * iw)) in *. clearbody f g. split.
    - assert (Hg : (inject_Z (if Qle_bool (inject_Z (g + 1) * w) (u + epsilon) then g + 1 else g) * w <= u + epsilon)%Q) by (destruct (Qle_bool (inject_Z (g + 1) * w) (u + epsilon)) eqn:E; [apply Qle_bool_iff in E; exact E|lra]).
      assert (G0 : 0 <= (if Qle_bool (inject_Z (g + 1) * w) (u + epsilon) then g + 1 else g)) by (destruct (Qle_bool (inject_Z (g + 1) * w) (u + epsilon)); lia).
      set (g' := if Qle_bool (inject_Z (g + 1) * w) (u + epsilon) then g + 1 else g) in *. clearbody g'. rewrite (clamp_max n g' Hn G0) in C. pose proof (mono w W c g' ltac:(lia)). lra.
    - assert (Hf : (s - epsilon <= inject_Z ((if Qle_bool (s - epsilon) (inject_Z f * w) then f - 1 else f) + 1) * w)%Q) by (destruct (Qle_bool (s - epsilon) (inject_Z f * w)) eqn:E; [apply Qle_bool_iff in E; replace (f - 1 + 1) with f by lia; exact E|lra]).
      set (f' := if Qle_bool (s - epsilon) (inject_Z f * w) then f - 1 else f) in *. clearbody f'.
      destruct (Z_lt_le_dec f' 0) as [N|N].
      + assert (0 <= c) by lia. pose proof (mono w W (f' + 1) (c + 1) ltac:(lia)). lra.
      + rewrite (clamp_max n f' Hn N) in C. destruct (Z_lt_le_dec f' n) as [L|L].
        * pose proof (mono w W (f' + 1) (c + 1) ltac:(lia)). lra.
        * pose proof (mono w W n (c + 1) ltac:(lia)). lra.
  Qed.
End Line.

Lemma flat_map_single {A B} (f : A -> B) l : flat_map (fun x => [f x]) l = map f l.
Proof. induction l as [|x l IH]; [reflexivity|]. cbn [flat_map map app]. rewrite IH. reflexivity. Qed.
Section Overlay.
  Context (ov : overlay) (Ho : overlay_ok ov).
  Definition cnt (i : nat) : Z := nth i (o_counts ov) 0.
  Lemma cnt_pos i : (i < o_ndim ov)%nat -> 0 < cnt i.
  Proof. intros L. destruct Ho as (_ & _ & L3 & _ & F). rewrite Forall_forall in F. apply F. apply nth_In. lia. Qed.
  Lemma ext_pos i : (i < o_ndim ov)%nat -> (0 < nth i (o_extents ov) 0)%Q.
  Proof. intros L. destruct Ho as (_ & L2 & _ & F & _). rewrite Forall_forall in F. apply F. apply nth_In. lia. Qed.
  Lemma width_pos i : (i < o_ndim ov)%nat -> (0 < o_width ov i)%Q.
  Proof. intros L. unfold o_width. apply Qlt_shift_div_l; [apply inject_pos, (cnt_pos i L)|]. pose proof (ext_pos i L). lra. Qed.
  Lemma inv_ok i : (i < o_ndim ov)%nat -> ((1 / o_width ov i) * o_width ov i == 1)%Q.
  Proof. intros L. pose proof (width_pos i L). field. lra. Qed.
  Lemma ext_ok i : (i < o_ndim ov)%nat -> (inject_Z (cnt i) * o_width ov i == nth i (o_extents ov) 0)%Q.
  Proof. intros L. unfold o_width. pose proof (inject_pos _ (cnt_pos i L)). fold (cnt i). field. lra. Qed.
  Lemma width_ok i : (i < o_ndim ov)%nat -> width ov i = Some (o_width ov i).
  Proof. intros L. destruct Ho as (L1 & L2 & L3 & _). unfold width. rewrite (rd_nth _ i 0%Q) by lia. rewrite (rd_nth _ i 0) by lia. reflexivity. Qed.
  Lemma mapper_cell_ok i x : (i < o_ndim ov)%nat -> mapper_cell ov i x = Some (clamp (cnt i) (Qtrunc ((x - nth i (o_origin ov) 0) * (1 / o_width ov i))%Q)).
  Proof. intros L. destruct Ho as (L1 & L2 & L3 & _). unfold mapper_cell, inverse_width. rewrite (width_ok i L), (rd_nth (o_origin ov) i 0%Q) by lia. cbn [obind]. rewrite (rd_nth (o_counts ov) i 0) by lia. reflexivity. Qed.
  Definition fst_ (b : box) (i : nat) : Z := first_ (o_width ov i) (1 / o_width ov i) (cnt i) (b_lo ov b i).
  Definition lst_ (b : box) (i : nat) : Z := end_ (o_width ov i) (1 / o_width ov i) (cnt i) (b_hi ov b i).
  Lemma lower_ok b i : (i < o_ndim ov)%nat -> length b = 6%nat -> (i < 3)%nat -> (x <- lower b i ;; get_cell_in_dimension_lower ov i x) = Some (fst_ b i).
  Proof.
    intros L Lb L3. destruct Ho as (L1 & L2 & Lc & _). unfold lower. rewrite (rd_nth b i 0%Q) by lia. cbn [obind]. unfold get_cell_in_dimension_lower, inverse_width. rewrite (proj2 (Nat.ltb_lt _ _) L). cbn [assert obind]. rewrite (rd_nth (o_origin ov) i 0%Q) by lia. cbn [obind]. rewrite (width_ok i L). cbn [obind]. rewrite (rd_nth (o_counts ov) i 0) by lia. reflexivity.
  Qed.
  Lemma upper_ok b i : (i < o_ndim ov)%nat -> length b = 6%nat -> (i < 3)%nat -> (x <- upper b i ;; get_cell_in_dimension_upper ov i x) = Some (lst_ b i).
  Proof.
    intros L Lb L3. destruct Ho as (L1 & L2 & Lc & _). unfold upper. rewrite (rd_nth b (3 + i) 0%Q) by lia. cbn [obind]. unfold get_cell_in_dimension_upper, inverse_width. rewrite (proj2 (Nat.ltb_lt _ _) L). cbn [assert obind]. rewrite (rd_nth (o_origin ov) i 0%Q) by lia. cbn [obind]. rewrite (width_ok i L). cbn [obind]. rewrite (rd_nth (o_counts ov) i 0) by lia. reflexivity.
  Qed.

  (** Two dimensions. *)
  Definition cells2 (b : box) : list Z := flat_map (fun c0 => map (fun c1 => c1 * cnt 0 + c0) (zrange (fst_ b 1) (lst_ b 1))) (zrange (fst_ b 0) (lst_ b 0)).
  Lemma linear2 c0 c1 : o_ndim ov = 2%nat -> get_linear_cell_index ov [c0; c1] = Some (c1 * cnt 0 + c0).
  Proof. intros E. destruct Ho as (_ & _ & Lc & _). unfold get_linear_cell_index, cnt. rewrite E in *. destruct (o_counts ov) as [|n0 [|n1 [|]]]; try discriminate. reflexivity. Qed.
  Lemma linear1 c0 c1 : o_ndim ov = 1%nat -> get_linear_cell_index ov [c0; c1] = Some c0.
  Proof. intros E. unfold get_linear_cell_index. rewrite E in *. reflexivity. Qed.
  Lemma intersecting2 b : o_ndim ov = 2%nat -> length b = 6%nat -> get_intersecting_cells ov b = Some (cells2 b).
  Proof.
    intros E Lb. unfold get_intersecting_cells. assert (S2 : seq 0 (o_ndim ov) = [0%nat; 1%nat]) by (rewrite E; reflexivity). rewrite S2. cbn [mapM]. rewrite !lower_ok, !upper_ok by lia. cbn [obind]. rewrite E. cbn [get_all_cells rd nth_error obind]. rewrite E. cbn [Nat.sub Nat.ltb Nat.leb].
    rewrite (foldM_append _ (fun c0 => map (fun c1 => c1 * cnt 0 + c0) (zrange (fst_ b 1) (lst_ b 1)))); [reflexivity|].
    intros c0 acc _. cbn [upd obind]. rewrite (foldM_append _ (fun c1 => [c1 * cnt 0 + c0])); [cbn [obind app]; rewrite flat_map_single; reflexivity|].
    intros c1 acc1 _. cbn [upd obind]. rewrite (linear2 c0 c1 E). reflexivity.
  Qed.
  Lemma intersecting1 b : o_ndim ov = 1%nat -> length b = 6%nat -> get_intersecting_cells ov b = Some (zrange (fst_ b 0) (lst_ b 0)).
  Proof.
    intros E Lb. unfold get_intersecting_cells. assert (S2 : seq 0 (o_ndim ov) = [0%nat]) by (rewrite E; reflexivity). rewrite S2. cbn [mapM]. rewrite !lower_ok, !upper_ok by lia. cbn [obind]. rewrite E. cbn [get_all_cells rd nth_error obind]. rewrite E. cbn [Nat.sub Nat.ltb Nat.leb].
    rewrite (foldM_append _ (fun c0 => [c0])); [cbn [app]; rewrite (flat_map_single (fun c => c)), map_id; reflexivity|].
    intros c0 acc _. cbn [upd obind]. rewrite (linear1 c0 0 E). reflexivity.
  Qed.
  Lemma in_range b i c : (i < o_ndim ov)%nat -> box_inside ov b -> fst_ b i <= c < lst_ b i -> 0 <= c < cnt i /\ (inject_Z c * o_width ov i <= b_hi ov b i + epsilon /\ b_lo ov b i - epsilon <= inject_Z (c + 1) * o_width ov i)%Q.
  Proof.
    intros L (_ & B) C. destruct (B i L) as (B1 & B2 & B3). pose proof (range_bounds (o_width ov i) (1 / o_width ov i) (cnt i) (cnt_pos i L) (b_lo ov b i) (b_hi ov b i)) as ((R1 & R2) & R3 & R4). unfold fst_, lst_ in C. split; [lia|].
    apply (range_sound (o_width ov i) (1 / o_width ov i) (cnt i) (width_pos i L) (inv_ok i L) (cnt_pos i L) (b_lo ov b i) (b_hi ov b i) c); auto; [rewrite (ext_ok i L); lra|lra].
  Qed.
  Lemma range_in b i c : (i < o_ndim ov)%nat -> box_inside ov b -> 0 <= c < cnt i -> (inject_Z c * o_width ov i <= b_hi ov b i)%Q -> (b_lo ov b i <= inject_Z (c + 1) * o_width ov i)%Q -> fst_ b i <= c < lst_ b i.
  Proof.
    intros L (_ & B) C C1 C2. destruct (B i L) as (B1 & B2 & B3). apply (range_complete (o_width ov i) (1 / o_width ov i) (cnt i) (width_pos i L) (inv_ok i L)); auto. lra.
  Qed.
End Overlay.
Lemma intersecting ov b : overlay_ok ov -> o_ndim ov = 1%nat \/ o_ndim ov = 2%nat -> box_inside ov b ->
  exists cells, get_intersecting_cells ov b = Some cells /\ NoDup cells /\
    (forall t, overlay_cell ov t -> near ov 0 b t -> In (overlay_index ov t) cells) /\
    (forall c, In c cells -> exists t, overlay_cell ov t /\ overlay_index ov t = c /\ near ov epsilon b t).
Proof.
  intros Ho E B. assert (Lb : length b = 6%nat) by apply B. assert (Lc : length (o_counts ov) = o_ndim ov) by apply Ho. destruct E as [E|E].
  - exists (zrange (fst_ ov b 0) (lst_ ov b 0)). split; [apply intersecting1; assumption|]. split; [apply zrange_nodup|]. unfold overlay_cell, overlay_index. rewrite E in Lc. pose proof (fun c => in_range ov Ho b 0 c ltac:(lia) B) as IR. pose proof (fun c => range_in ov Ho b 0 c ltac:(lia) B) as RI. unfold cnt in *. unfold near. rewrite E. destruct (o_counts ov) as [|n0 [|]]; try discriminate. cbn [nth] in IR, RI. split.
    + intros t T N. inversion T as [|? c0 ? ? C0 T']; subst. inversion T'; subst. specialize (N 0%nat ltac:(lia)). unfold o_lo, o_hi in N. cbn [nth] in N. apply in_zrange. replace (linear_index [n0] [c0]) with c0 by (unfold linear_index, zprod; cbn; lia). apply RI; [exact C0|lra|lra].
    + intros c I. apply in_zrange in I. destruct (IR c I) as (C & N). exists [c]. split; [repeat constructor; lia|]. split; [unfold linear_index, zprod; cbn; lia|]. intros [|i] L; [unfold o_lo, o_hi; cbn [nth]; exact N|lia].
  - exists (cells2 ov b). split; [apply intersecting2; assumption|]. unfold cells2, overlay_cell, overlay_index. rewrite E in Lc. pose proof (fun c => in_range ov Ho b 0 c ltac:(lia) B) as IR0. pose proof (fun c => range_in ov Ho b 0 c ltac:(lia) B) as RI0. pose proof (fun c => in_range ov Ho b 1 c ltac:(lia) B) as IR1. pose proof (fun c => range_in ov Ho b 1 c ltac:(lia) B) as RI1.
    unfold cnt in *. unfold near. rewrite E. destruct (o_counts ov) as [|n0 [|n1 [|]]]; try discriminate. cbn [nth] in *.
    assert (LI : forall c0 c1, linear_index [n0; n1] [c0; c1] = c1 * n0 + c0) by (intros; unfold linear_index, zprod; cbn [length seq map nth firstn fold_right]; lia).
    split; [|split].
    + set (l0 := zrange (fst_ ov b 0) (lst_ ov b 0)). set (l1 := zrange (fst_ ov b 1) (lst_ ov b 1)).
      assert (G : NoDup (map (fun p => snd p * n0 + fst p) (list_prod l0 l1))).
      { apply nodup_map_on; [|intros (a0, a1) (d0, d1) I J; cbn [fst snd]; apply in_prod_iff in I; apply in_prod_iff in J; destruct I as (I0 & I1); destruct J as (J0 & J1); apply in_zrange in I0, I1, J0, J1; destruct (IR0 _ I0) as (Q0 & _); destruct (IR0 _ J0) as (Q2 & _); intros X; assert (a1 = d1) by nia; subst; f_equal; lia].
        assert (N0 : NoDup l0) by apply zrange_nodup. assert (N1 : NoDup l1) by apply zrange_nodup. clear - N0 N1. induction N0 as [|x l NI N0 IH]; [constructor|]. cbn [list_prod]. apply NoDup_app_intro; [apply nodup_map_on; [exact N1|intros a c _ _ X; injection X; auto]|exact IH|]. intros (u, v) I J. apply in_map_iff in I. destruct I as (q & Q & _). injection Q as <- <-. apply in_prod_iff in J. apply NI, J. }
      assert (Eq : map (fun p => snd p * n0 + fst p) (list_prod l0 l1) = flat_map (fun c0 => map (fun c1 => c1 * n0 + c0) l1) l0) by (clear; induction l0 as [|x l IH]; [reflexivity|]; cbn [list_prod flat_map]; rewrite map_app, IH, map_map; reflexivity).
      rewrite <- Eq. exact G.
    + intros t T N. inversion T as [|? c0 ? ? C0 T']; subst. inversion T' as [|? c1 ? ? C1 T'']; subst. inversion T''; subst. pose proof (N 0%nat ltac:(lia)) as Na. pose proof (N 1%nat ltac:(lia)) as Nb. unfold o_lo, o_hi in Na, Nb. cbn [nth] in Na, Nb. rewrite LI. apply in_flat_map. exists c0. split; [apply in_zrange, RI0; [exact C0|lra|lra]|]. apply in_map_iff. exists c1. split; [reflexivity|apply in_zrange, RI1; [exact C1|lra|lra]].
    + intros c I. apply in_flat_map in I. destruct I as (c0 & I0 & I). apply in_map_iff in I. destruct I as (c1 & <- & I1). apply in_zrange in I0, I1. destruct (IR0 _ I0) as (C0 & N0). destruct (IR1 _ I1) as (C1 & N1). exists [c0; c1]. split; [repeat constructor; lia|]. split; [apply LI|]. intros [|[|i]] L; [unfold o_lo, o_hi; cbn [nth]; exact N0|unfold o_lo, o_hi; cbn [nth]; exact N1|lia].
Qed.
