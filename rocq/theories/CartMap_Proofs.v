(** Positions on a Cartesian mesh: the arithmetic, periodic wrapping, binning. *)
From Coq Require Import List Arith ZArith QArith Qabs Qround Lqa Bool Lia Permutation.
Import ListNotations.
From Verif Require Import Base Kernel Group_Model Group_Spec Mesh_Model Mesh_Spec MeshPos_Proofs
  CartMesh_Model CartMesh_Spec CartMesh_Proofs CartMap_Model CartMap_Spec CartLoop_Proofs.
Local Open Scope Z_scope.

(** ** Loops with a relation *)
Section Rel.
  Context (d : device) (Hd : device_ok d) (k : nat) (K : kernel) (R : particle Q -> particle Q -> Prop).
  Let F (p : particle Q) : particle Q := match effect K p with Some q => q | None => p end.
  Lemma loop_all_rel (g : group Q) : wf_group g ->
    (forall c ps p, cell_particles g c = Some ps -> In p ps -> exists p', effect K p = Some p' /\ R p p') ->
    exists g', loop_all d k K g = Some g' /\ npart_cell g' = npart_cell g /\ wf_group g' /\ same_shape (Group_Model.st g) (Group_Model.st g') /\
      forall c ps, cell_particles g c = Some ps -> exists ps', cell_particles g' c = Some ps' /\ Forall2 R ps ps'.
  Proof.
    intros W P. destruct (loop_all_ok d Hd k K F g W) as (g' & E & N & W' & SS & C).
    - intros c ps p Ec I. destruct (P c ps p Ec I) as (p' & E & _). unfold F. rewrite E. reflexivity.
    - exists g'. repeat (split; [assumption|]). intros c ps Ec. exists (map F ps). split; [apply C, Ec|].
      pose proof (fun p => P c ps p Ec) as P'. clear -P'. induction ps as [|p ps IH]; cbn [map]; constructor.
      + destruct (P' p (or_introl eq_refl)) as (p' & E & Rp). unfold F. rewrite E. exact Rp.
      + apply IH. intros q I. apply P'. right; exact I.
  Qed.
  Lemma loop_cell_rel (g : group Q) cell : wf_group g -> (cell < length (npart_cell g))%nat ->
    (forall ps p, cell_particles g cell = Some ps -> In p ps -> exists p', effect K p = Some p' /\ R p p') ->
    exists g', loop_cell d k K cell g = Some g' /\ npart_cell g' = npart_cell g /\ wf_group g' /\ same_shape (Group_Model.st g) (Group_Model.st g') /\
      forall c ps, cell_particles g c = Some ps -> exists ps', cell_particles g' c = Some ps' /\
        if (c =? cell)%nat then Forall2 R ps ps' else ps' = ps.
  Proof.
    intros W L P. destruct (loop_cell_ok d Hd k K F g cell W L) as (g' & E & N & W' & SS & C).
    - intros ps p Ec I. destruct (P ps p Ec I) as (p' & E & _). unfold F. rewrite E. reflexivity.
    - exists g'. repeat (split; [assumption|]). intros c ps Ec. rewrite (C c ps Ec). eexists. split; [reflexivity|].
      destruct (Nat.eqb_spec c cell) as [->|]; [|reflexivity]. pose proof (fun p => P ps p Ec) as P'. clear -P'. induction ps as [|p ps IH]; cbn [map]; constructor.
      + destruct (P' p (or_introl eq_refl)) as (p' & E & Rp). unfold F. rewrite E. exact Rp.
      + apply IH. intros q I. apply P'. right; exact I.
  Qed.
End Rel.

(** ** Truncation *)
Lemma Qtrunc_opp q : Qtrunc (- q) = - Qtrunc q.
Proof. destruct q as [a b]. unfold Qtrunc, Qopp. cbn [Qnum Qden]. apply Z.quot_opp_l. lia. Qed.
Lemma Qtrunc_nonneg q : (0 <= q)%Q -> (inject_Z (Qtrunc q) <= q)%Q /\ (q < inject_Z (Qtrunc q + 1))%Q /\ 0 <= Qtrunc q.
Proof.
  intros P. rewrite (Qtrunc_floor q P). destruct (floor_bounds q) as (A & B). split; [exact A|]. split; [exact B|].
  assert (inject_Z 0 < inject_Z (Qfloor q + 1))%Q by (change (inject_Z 0) with 0%Q; lra). apply inject_lt in H. lia.
Qed.
Lemma Qtrunc_abs q : (inject_Z (Z.abs (Qtrunc q)) <= Qabs q)%Q /\ (Qabs q < inject_Z (Z.abs (Qtrunc q) + 1))%Q.
Proof.
  destruct (Qlt_le_dec q 0) as [N|N].
  - destruct (Qtrunc_nonneg (- q)) as (A & B & C); [lra|]. rewrite Qtrunc_opp in *. rewrite (Qabs_neg q) by lra.
    rewrite <- Z.abs_opp, Z.abs_eq by exact C. auto.
  - destruct (Qtrunc_nonneg q N) as (A & B & C). rewrite Qabs_pos by exact N. rewrite Z.abs_eq by exact C. auto.
Qed.
Lemma to_int_ok q B : 0 <= B < 2 ^ 31 -> (Qabs q < inject_Z (B + 1))%Q -> to_int q = Some (Qtrunc q) /\ Z.abs (Qtrunc q) <= B.
Proof.
  intros HB L. destruct (Qtrunc_abs q) as (A & _). assert (inject_Z (Z.abs (Qtrunc q)) < inject_Z (B + 1))%Q by lra.
  apply inject_lt in H. split; [|lia]. unfold to_int, i32. destruct (Z.leb_spec (- 2 ^ 31) (Qtrunc q)); [|lia]. destruct (Z.ltb_spec (Qtrunc q) (2 ^ 31)); [|lia]. reflexivity.
Qed.
Lemma i32_ok z : - 2 ^ 31 <= z < 2 ^ 31 -> i32 z = Some z.
Proof. intros B. unfold i32. destruct (Z.leb_spec (- 2 ^ 31) z); [|lia]. destruct (Z.ltb_spec z (2 ^ 31)); [|lia]. reflexivity. Qed.

(** ** One dimension of the periodic wrap *)
Lemma Qabs_lt_both x y : (Qabs x < y)%Q -> (- y < x)%Q /\ (x < y)%Q.
Proof. intros L. apply Qabs_Qlt_condition in L. exact L. Qed.
Lemma periodic_ok E x : (0 < E)%Q -> (Qabs x < inject_Z (2 ^ 31 - 2) * E)%Q ->
  exists v j, periodic_dim E (1 / E) x = Some v /\ (0 <= v)%Q /\ (v < E)%Q /\ (v == x + inject_Z j * E)%Q.
Proof.
  intros P L. unfold periodic_dim.
  assert (Q1 : (x * (1 / E) == x / E)%Q) by (field; lra).
  assert (B : (Qabs (x * (1 / E)) < inject_Z (2 ^ 31 - 3 + 1))%Q).
  { rewrite Qabs_Qmult. rewrite (Qabs_pos (1 / E)) by (apply Qle_shift_div_l; lra).
    setoid_replace (Qabs x * (1 / E))%Q with (Qabs x / E)%Q by (field; lra). apply Qlt_shift_div_r; [exact P|]. exact L. }
  destruct (to_int_ok _ (2 ^ 31 - 3) ltac:(lia) B) as (-> & Ab). set (n := Qtrunc (x * (1 / E))) in *. cbn [obind].
  rewrite i32_ok by lia. cbn [obind]. rewrite i32_ok by lia. cbn [obind].
  destruct (Qtrunc_abs (x * (1 / E))) as (_ & T). fold n in T. apply Qabs_lt_both in T. destruct T as (T1 & T2).
  assert (X1 : (- (inject_Z (Z.abs n + 1) * E) < x)%Q).
  { setoid_replace x with (x * (1 / E) * E)%Q by (field; lra). nra. }
  set (y := (x + inject_Z (Z.abs n + 2) * E)%Q).
  assert (Y : (0 <= y)%Q).
  { unfold y. assert (inject_Z (Z.abs n + 2) == inject_Z (Z.abs n + 1) + 1)%Q. { rewrite <- (inject_Z_plus _ 1). f_equiv. lia. }
    nra. }
  unfold fmod. destruct (Qeq_bool E 0) eqn:Z; [apply Qeq_bool_iff in Z; lra|].
  destruct (trunc_div y E (/ E)) as (A & A1 & A2); [exact P|field; lra|exact Y|]. fold (y / E)%Q in *.
  exists (y - inject_Z (Qtrunc (y / E)) * E)%Q, (Z.abs n + 2 - Qtrunc (y / E)). split; [reflexivity|]. split; [lra|]. split.
  - assert (inject_Z (Qtrunc (y / E) + 1) == inject_Z (Qtrunc (y / E)) + 1)%Q by (rewrite inject_Z_plus; reflexivity). nra.
  - unfold y. unfold Z.sub. rewrite !inject_Z_plus, inject_Z_opp. ring.
Qed.

Section Mesh.
  Context (m : cmesh) (H : cmesh_ok m).
  Notation nd := (ndim (hier m)).
  Notation h := (hier m).
  Notation w := (fine_width (hier m)).
  Notation iw := (inverse_cell_width_fine (hier m)).

  Lemma ext_pos : (0 < extent h)%Q.
  Proof. destruct H as ((_ & _ & _ & E) & _). exact E. Qed.
  Lemma wpos : (0 < w)%Q.
  Proof. apply w_pos, ext_pos. Qed.
  Lemma iww : (iw * w == 1)%Q.
  Proof. apply ifw, ext_pos. Qed.
  Lemma cwf : cell_width_fine h = w.
  Proof. reflexivity. Qed.
  Lemma len_eq i : (i < nd)%nat -> (length_of m i == extent h * inject_Z (nth i (dims h) 0%Z))%Q.
  Proof.
    intros L. unfold length_of, grid. destruct (Nat.ltb_spec i nd); [|lia]. unfold extent_cells, fine_width.
    rewrite inject_Z_mult. field. intros Q. assert (K : 0 < 2 ^ Z.of_nat (order h)) by (apply Z.pow_pos_nonneg; lia). pose proof (inject_pos _ K). lra.
  Qed.
  Lemma len_pos i : (0 < length_of m i)%Q.
  Proof.
    pose proof wpos. pose proof (inject_pos _ (grid_pos m H i)). unfold length_of. nra.
  Qed.
  Lemma extents_eq : global_extents m = Some (arr3 nd (fun i => (extent h * inject_Z (nth i (dims h) 0%Z))%Q) 0%Q).
  Proof.
    pose proof (nd_le m H). unfold global_extents. apply fill3_arr; [lia|]. intros i L. rewrite (dims_rd m H i L). reflexivity.
  Qed.

  (** ** The cell of a position *)
  Definition cidx (i : nat) (x : Q) : Z :=
    let t := Qtrunc (x * iw) in if grid m i <=? t then grid m i - 1 else if t <? 0 then 0 else t.
  Definition cellof (x : nat -> Q) : list Z := map (fun i => if (i <? nd)%nat then cidx i (x i) else 0) [0; 1; 2]%nat.

  Lemma in_cell_lt c x n : in_cell h c x -> (x < inject_Z n * w)%Q -> c < n.
  Proof.
    intros (A & _) L. pose proof wpos. apply inject_lt. apply (Qmult_lt_r _ _ w); lra.
  Qed.
  Lemma trunc_cell x : (0 <= x)%Q -> in_cell h (Qtrunc (x * iw)) x /\ 0 <= Qtrunc (x * iw).
  Proof. intros P. destruct (trunc_div x w iw wpos iww P) as (A & B & C). split; [split; assumption|exact A]. Qed.
  Lemma inject_succ z : (inject_Z (z + 1) == inject_Z z + 1)%Q.
  Proof. rewrite inject_Z_plus. reflexivity. Qed.

  Lemma cidx_range i x : 0 <= cidx i x < grid m i.
  Proof. pose proof (grid_pos m H i). unfold cidx. cbn zeta. destruct (Z.leb_spec (grid m i) (Qtrunc (x * iw))); [lia|]. destruct (Z.ltb_spec (Qtrunc (x * iw)) 0); lia. Qed.
  Lemma cidx_in i x : (0 <= x)%Q -> (x <= length_of m i)%Q ->
    in_cell h (cidx i x) x \/ ((x == length_of m i)%Q /\ cidx i x = grid m i - 1).
  Proof.
    intros A B. destruct (trunc_cell x A) as (C & D). unfold cidx. cbn zeta. pose proof wpos.
    destruct (Z.leb_spec (grid m i) (Qtrunc (x * iw))) as [Q|Q].
    - right. split; [|reflexivity]. destruct C as (C & _). rewrite Zle_Qle in Q. unfold length_of in *. nra.
    - left. destruct (Z.ltb_spec (Qtrunc (x * iw)) 0); [lia|]. exact C.
  Qed.
  Lemma cellof_contains x : inside m x -> contains m (cellof x) x.
  Proof.
    intros I. pose proof (nd_le m H). split.
    - split; [reflexivity|]. intros i L. unfold cellof. destruct i as [|[|[|i]]]; [| | |lia]; cbn [map nth];
        match goal with |- context [(?a <? nd)%nat] => destruct (Nat.ltb_spec a nd) end; try apply cidx_range; unfold grid; match goal with |- context [(?a <? nd)%nat] => destruct (Nat.ltb_spec a nd) end; lia.
    - intros i L. destruct (I i L) as (A & B). replace (nth i (cellof x) 0) with (cidx i (x i)); [apply cidx_in; assumption|].
      unfold cellof. destruct i as [|[|[|i]]]; [| | |lia]; cbn [map nth]; match goal with |- context [(?a <? nd)%nat] => destruct (Nat.ltb_spec a nd) end; try lia; reflexivity.
  Qed.
  Lemma contains_unique c c' x : contains m c x -> contains m c' x -> c = c'.
  Proof.
    intros ((L1 & G1) & C1) ((L2 & G2) & C2).
    assert (E : forall i, (i < 3)%nat -> nth i c 0 = nth i c' 0).
    { intros i L. specialize (G1 i L). specialize (G2 i L). unfold grid in G1, G2. destruct (Nat.ltb_spec i nd) as [Q|Q]; [|lia].
      assert (U : forall a, in_cell h a (x i) -> (x i == length_of m i)%Q -> a < extent_cells h i -> False).
      { intros a (_ & A) B La. unfold length_of, grid in B. destruct (Nat.ltb_spec i nd); [|lia]. pose proof wpos.
        assert (Le : a + 1 <= extent_cells h i) by lia. rewrite Zle_Qle in Le. nra. }
      destruct (C1 i Q) as [A1|(A1 & B1)], (C2 i Q) as [A2|(A2 & B2)].
      - eapply in_cell_unique; eauto. apply ext_pos.
      - exfalso. eapply (U (nth i c 0)); eauto; lia.
      - exfalso. eapply (U (nth i c' 0)); eauto; lia.
      - lia. }
    destruct c as [|a [|b [|e [|? ?]]]]; try discriminate L1. destruct c' as [|a' [|b' [|e' [|? ?]]]]; try discriminate L2.
    pose proof (E 0%nat ltac:(lia)). pose proof (E 1%nat ltac:(lia)). pose proof (E 2%nat ltac:(lia)). cbn [nth] in *. congruence.
  Qed.
  Lemma contains_cellof c x : contains m c x -> inside m x /\ c = cellof x.
  Proof.
    intros C. assert (I : inside m x).
    { intros i L. destruct C as ((L3 & G) & C). pose proof (nd_le m H). specialize (G i ltac:(lia)). pose proof wpos.
      destruct (C i L) as [(A & B)|(A & _)].
      - assert (A0 : 0 <= nth i c 0) by lia. assert (A1 : nth i c 0 + 1 <= grid m i) by lia. rewrite Zle_Qle in A0, A1. change (inject_Z 0) with 0%Q in A0. unfold length_of.
        split; nra.
      - pose proof (len_pos i). lra. }
    split; [exact I|]. eapply contains_unique; [exact C|apply cellof_contains, I].
  Qed.
End Mesh.
