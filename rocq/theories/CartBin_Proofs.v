(** The kernels of the periodic map and of the cell bin. *)
From Coq Require Import List Arith ZArith QArith Qabs Qround Lqa Bool Lia Permutation.
Import ListNotations.
From Verif Require Import Base Kernel Group_Model Group_Spec Mesh_Model Mesh_Spec MeshNb_Proofs MeshPos_Proofs
  CartMesh_Model CartMesh_Spec CartMesh_Proofs CartOwner_Proofs CartMap_Model CartMap_Spec CartLoop_Proofs CartMap_Proofs.
Local Open Scope Z_scope.

Lemma finite_choice_any {V} (v0 : V) n (P : nat -> V -> Prop) : (forall i, (i < n)%nat -> exists k, P i k) ->
  exists f, forall i, (i < n)%nat -> P i (f i).
Proof.
  induction n as [|n IH]; intros H; [exists (fun _ => v0); intros i Hi; lia|].
  destruct IH as (f & Hf); [intros i Hi; apply H; lia|]. destruct (H n) as (k & Hk); [lia|].
  exists (fun i => if Nat.eqb i n then k else f i). intros i Hi. destruct (Nat.eqb_spec i n); [subst; auto|apply Hf; lia].
Qed.
Lemma apply_spec {V} : forall (ws : list (nat * V)) xs, NoDup (map fst ws) -> (forall j v, In (j, v) ws -> (j < length xs)%nat) ->
  exists xs', apply_writes xs ws = Some xs' /\ length xs' = length xs /\
    (forall j v, In (j, v) ws -> nth_error xs' j = Some v) /\
    (forall j, ~ In j (map fst ws) -> nth_error xs' j = nth_error xs j).
Proof.
  unfold apply_writes. induction ws as [|[j v] ws IH]; intros xs ND B; cbn [foldM].
  - exists xs. split; [reflexivity|]. split; [reflexivity|]. split; [intros ? ? []|auto].
  - cbn [map fst snd] in *. inversion ND as [|? ? N ND']; subst. destruct (upd_some xs j v) as (ys & E); [apply (B j v); left; reflexivity|].
    rewrite E. cbn [obind]. destruct (IH ys ND') as (xs' & E' & L & A & C).
    + intros j' v' I. rewrite (upd_length _ _ _ _ E). apply (B j' v'). right; exact I.
    + exists xs'. split; [exact E'|]. split; [rewrite L; eapply upd_length; eauto|]. split.
      * intros j' v' [Q|I]; [injection Q as -> ->|apply A, I]. rewrite C by exact N. rewrite (upd_nth _ _ _ _ j' E), Nat.eqb_refl. reflexivity.
      * intros j' I. rewrite C by (intros K; apply I; right; exact K). rewrite (upd_nth _ _ _ _ j' E). destruct (Nat.eqb_spec j' j); [subst; exfalso; apply I; left; reflexivity|reflexivity].
Qed.

Lemma effect_int (K : kernel) p f v : K p = Some ([], [(f, v)]) -> (f < length (snd p))%nat ->
  exists p', effect K p = Some p' /\ set_int p p' f v.
Proof.
  intros E L. unfold effect. rewrite E. cbn [obind fst snd]. unfold apply_writes. cbn [foldM fst snd obind].
  destruct (upd_some (snd p) f v L) as (z & Ez). rewrite Ez. cbn [obind]. eexists. split; [reflexivity|].
  split; [reflexivity|]. cbn [snd]. split; [eapply upd_length; eauto|]. intros i _. apply upd_nth, Ez.
Qed.
Lemma effect_none (K : kernel) p : K p = Some ([], []) -> effect K p = Some p.
Proof. intros E. unfold effect. rewrite E. cbn. destruct p; reflexivity. Qed.

Section Mesh.
  Context (m : cmesh) (H : cmesh_ok m).
  Notation nd := (ndim (hier m)).
  Notation h := (hier m).
  Notation w := (fine_width (hier m)).
  Notation iw := (inverse_cell_width_fine (hier m)).

  Lemma pos_rd pid p i : (pid + nd <= length (fst p))%nat -> (i < nd)%nat -> rd (fst p) (pid + i) = Some (position pid p i).
  Proof. intros L Li. unfold rd, position. apply nth_error_nth'. lia. Qed.

  (** ** The periodic map *)
  Lemma abs_of a x : (- a < x)%Q -> (x < a)%Q -> (Qabs x < a)%Q.
  Proof. intros A B. apply Qabs_Qlt_condition. auto. Qed.
  Definition is_masked (masks : option (list Z)) (i : nat) : bool := match masks with None => true | Some l => negb (nth i l 0 =? 0) end.
  Lemma is_masked_iff masks i : is_masked masks i = true <-> masked masks i.
  Proof. unfold is_masked, masked. destruct masks; [|tauto]. rewrite negb_true_iff, Z.eqb_neq. tauto. Qed.

  Lemma periodic_effect pid masks p : (match masks with Some l => nd <= length l | None => True end)%nat ->
    (pid + nd <= length (fst p))%nat ->
    (forall i, (i < nd)%nat -> masked masks i -> (- (inject_Z (2 ^ 31 - 2) * length_of m i) < position pid p i)%Q /\ (position pid p i < inject_Z (2 ^ 31 - 2) * length_of m i)%Q) ->
    exists p', effect (periodic_kernel m pid masks) p = Some p' /\ wrapped m pid masks p p'.
  Proof.
    intros ML PL B. pose proof (nd_le m H) as ND.
    set (E := fun i => (extent h * inject_Z (nth i (dims h) 0%Z))%Q).
    assert (P : forall i, (i < nd)%nat -> exists v, (masked masks i ->
      periodic_dim (E i) (1 / E i)%Q (position pid p i) = Some v /\ (0 <= v)%Q /\ (v < length_of m i)%Q /\ exists j, (v == position pid p i + inject_Z j * length_of m i)%Q)).
    { intros i L. destruct (is_masked masks i) eqn:Q.
      - apply is_masked_iff in Q. destruct (B i L Q) as (B1 & B2). pose proof (len_eq m i L) as LE. fold (E i) in LE. pose proof (len_pos m H i) as LP.
        destruct (periodic_ok (E i) (position pid p i)) as (v & j & V1 & V2 & V3 & V4); [lra|apply abs_of; rewrite <- LE; assumption|].
        exists v. intros _. split; [exact V1|]. split; [exact V2|]. split; [lra|]. exists j. rewrite LE. exact V4.
      - exists 0%Q. intros Mk. apply is_masked_iff in Mk. congruence. }
    destruct (finite_choice_any 0%Q nd _ P) as (v & V).
    set (r := map (fun i => if is_masked masks i then [((pid + i)%nat, v i)] else []) (seq 0 nd)).
    assert (KE : periodic_kernel m pid masks p = Some (concat r, [])).
    { unfold periodic_kernel. rewrite (extents_eq m H). cbn [obind]. fold E.
      rewrite (mapM_some _ (fun i => if is_masked masks i then [((pid + i)%nat, v i)] else [])); [reflexivity|].
      intros i I. apply in_seq in I. assert (L : (i < nd)%nat) by lia.
      replace (match masks with Some l => x <- rd l i ;; Some (negb (x =? 0)) | None => Some true end) with (Some (is_masked masks i)).
      2:{ unfold is_masked. destruct masks as [l|]; [|reflexivity]. unfold rd. rewrite (nth_error_nth' l 0) by lia. reflexivity. }
      cbn [obind]. destruct (is_masked masks i) eqn:Q; [|reflexivity]. rewrite pos_rd by assumption. cbn [obind].
      rewrite arr3_rd by lia. destruct (Nat.ltb_spec i nd); [|lia]. cbn [obind]. apply is_masked_iff in Q. destruct (V i L Q) as (-> & _). reflexivity. }
    assert (IN : forall j x, In (j, x) (concat r) <-> exists i, (i < nd)%nat /\ masked masks i /\ j = (pid + i)%nat /\ x = v i).
    { intros j x. rewrite in_concat. unfold r. split.
      - intros (l & Il & Ix). apply in_map_iff in Il. destruct Il as (i & <- & Ii). apply in_seq in Ii. destruct (is_masked masks i) eqn:Q; [|destruct Ix].
        destruct Ix as [Ix|[]]. injection Ix as <- <-. exists i. split; [lia|]. split; [apply is_masked_iff, Q|auto].
      - intros (i & L & Q & -> & ->). exists [((pid + i)%nat, v i)]. split; [|left; reflexivity]. apply in_map_iff. exists i. apply is_masked_iff in Q. rewrite Q. split; [reflexivity|apply in_seq; lia]. }
    destruct (apply_spec (concat r) (fst p)) as (xs' & Ex & Lx & A & C).
    { unfold r. clear. generalize (seq_NoDup nd 0). generalize (seq 0 nd). induction l as [|i l IH]; intros ND; [constructor|]. inversion ND as [|? ? N ND']; subst.
      cbn [map concat]. rewrite map_app. destruct (is_masked masks i); [|apply IH, ND']. cbn [map app fst]. constructor; [|apply IH, ND'].
      intros I. apply in_map_iff in I. destruct I as ((j & x) & Ej & I). cbn [fst] in Ej. subst j. apply in_concat in I. destruct I as (y & Iy & I).
      apply in_map_iff in Iy. destruct Iy as (i' & <- & Ii'). destruct (is_masked masks i'); [|destruct I]. destruct I as [I|[]]. injection I as I _.
      assert (i' = i) by lia. subst. contradiction. }
    { intros j x I. apply IN in I. destruct I as (i & L & _ & -> & _). lia. }
    exists (xs', snd p). split.
    - unfold effect. rewrite KE. cbn [obind fst snd]. rewrite Ex. reflexivity.
    - split; [reflexivity|]. split; [exact Lx|]. split.
      + intros i L Q. assert (X : position pid (xs', snd p) i = v i).
        { unfold position. cbn [fst]. apply nth_error_nth. apply A. apply IN. exists i. auto. }
        rewrite X. destruct (V i L Q) as (_ & A1 & A2 & j & A3). split; [exact A1|]. split; [exact A2|]. exists j. exact A3.
      + intros j N. cbn [fst]. apply C. intros I. apply in_map_iff in I. destruct I as ((j' & x) & Ej & I). cbn [fst] in Ej. subst j'.
        apply IN in I. destruct I as (i & L & Q & -> & _). exact (N i L Q eq_refl).
  Qed.

  (** ** The bin *)
  Lemma scale x a : (Qabs x < a * w)%Q -> (Qabs (x * iw) < a)%Q.
  Proof.
    intros L. pose proof (wpos m H) as W. pose proof (iww m H) as I. assert (P : (0 < iw)%Q).
    { destruct (Qlt_le_dec 0 iw); [assumption|]. exfalso. assert (iw * w <= 0)%Q by nra. lra. }
    rewrite Qabs_Qmult, (Qabs_pos iw) by lra. apply (Qmult_lt_r _ _ w); [exact W|].
    setoid_replace (Qabs x * iw * w)%Q with (Qabs x * (iw * w))%Q by ring. rewrite I. lra.
  Qed.
  Lemma bin_dim_range i s n x : 0 <= s -> 0 < n -> s + n <= grid m i -> grid m i < 2 ^ 31 ->
    (- (inject_Z (2 ^ 31 - grid m i) * w) < x)%Q -> (x < inject_Z (2 ^ 31 - grid m i) * w)%Q ->
    exists t, bin_dim h s n x = Some t /\ 0 <= t < n.
  Proof.
    intros S N SN G A B. unfold bin_dim. cbn zeta. rewrite cwf. pose proof (wpos m H) as W.
    destruct (to_int_ok ((x - inject_Z s * w) * iw) (2 ^ 31 - 1)) as (-> & _); [lia| |].
    - apply scale. assert (G1 : grid m i <= 2 ^ 31) by lia. assert (S1 : s <= grid m i) by lia.
      rewrite Zle_Qle in S, S1. change (inject_Z 0) with 0%Q in S. unfold Z.sub in A, B. rewrite inject_Z_plus, inject_Z_opp in A, B.
      replace (2 ^ 31 - 1 + 1) with (2 ^ 31) by lia. assert (inject_Z s * w <= inject_Z (grid m i) * w)%Q by nra. assert (0 <= inject_Z s * w)%Q by nra.
      apply abs_of; nra.
    - cbn [obind]. eexists. split; [reflexivity|]. destruct (Z.ltb_spec (Qtrunc ((x - inject_Z s * w) * iw)) 0).
      + destruct (Z.leb_spec n 0); lia.
      + destruct (Z.leb_spec n (Qtrunc ((x - inject_Z s * w) * iw))); lia.
  Qed.
  Lemma bin_dim_in i s n x t : 0 <= s -> s <= t < s + n -> s + n <= grid m i -> grid m i < 2 ^ 31 ->
    in_cell h t x \/ ((x == length_of m i)%Q /\ t = grid m i - 1) -> bin_dim h s n x = Some (t - s).
  Proof.
    intros S T SN G C. unfold bin_dim. cbn zeta. rewrite cwf. pose proof (wpos m H) as W. set (y := (x - inject_Z s * w)%Q).
    assert (Y : (0 <= y)%Q /\ (y <= inject_Z n * w)%Q /\ (in_cell h (t - s) y \/ (y == inject_Z n * w)%Q /\ t - s = n - 1)).
    { unfold y. destruct C as [(C1 & C2)|(C1 & C2)].
      - assert (T1 : s <= t) by lia. assert (T2 : t + 1 <= s + n) by lia. rewrite Zle_Qle in T1, T2. rewrite (inject_Z_plus s n) in T2.
        split; [nra|]. split; [nra|]. left. unfold in_cell. unfold Z.sub. rewrite !inject_Z_plus, inject_Z_opp. rewrite inject_Z_plus in C2. split; nra.
      - assert (En : s + n = grid m i) by lia. unfold length_of in C1. rewrite <- En in C1. rewrite inject_Z_plus in C1.
        assert (N0 : 0 <= n) by lia. rewrite Zle_Qle in N0. change (inject_Z 0) with 0%Q in N0. split; [nra|]. split; [nra|]. right. split; [nra|lia]. }
    destruct Y as (Y0 & Y1 & Y2).
    destruct (to_int_ok (y * iw) (2 ^ 31 - 1)) as (-> & _); [lia| |].
    - apply scale. rewrite Qabs_pos by exact Y0. assert (NG : n + 1 <= 2 ^ 31 - 1 + 1) by lia. rewrite Zle_Qle in NG. rewrite inject_succ in NG. nra.
    - cbn [obind]. f_equal. destruct (trunc_cell m H y Y0) as (I & P). destruct (Z.ltb_spec (Qtrunc (y * iw)) 0); [lia|].
      destruct Y2 as [Y2|(Y2 & Y3)].
      + rewrite <- (in_cell_unique h _ _ y (ext_pos m H) Y2 I). destruct (Z.leb_spec n (t - s)); lia.
      + destruct I as (I1 & I2). assert (n <= Qtrunc (y * iw)).
        { enough (n < Qtrunc (y * iw) + 1) by lia. apply inject_lt. apply (Qmult_lt_r _ _ w W). lra. }
        destruct (Z.leb_spec n (Qtrunc (y * iw))); lia.
  Qed.

  Lemma arr3_eq {A} n (f : nat -> A) (a : A) : arr3 n f a = [if (0 <? n)%nat then f 0%nat else a; if (1 <? n)%nat then f 1%nat else a; if (2 <? n)%nat then f 2%nat else a].
  Proof. reflexivity. Qed.

  Lemma bin_linear_ok x T : coords_in (cdims (comm m)) x -> Z.of_nat (length (owned m x)) < 2 ^ 31 ->
    (forall i, (i < nd)%nat -> 0 <= T i < en m x i - st m x i) ->
    exists l, bin_linear nd (arr3 nd (fun i => en m x i - st m x i) 0) (arr3 nd T 0) = Some l /\
      0 <= l < Z.of_nat (length (owned m x)) /\
      nth_error (owned m x) (Z.to_nat l) = Some (map (fun i => if (i <? nd)%nat then st m x i + T i else 0) [0; 1; 2]%nat).
  Proof.
    intros C LB B. pose proof (nd_le m H) as ND. pose proof (region m H x 0 C) as R0. pose proof (region m H x 1 C) as R1. pose proof (region m H x 2 C) as R2.
    rewrite (owned_length m x C) in LB |- *. set (n0 := en m x 0 - st m x 0) in *. set (n1 := en m x 1 - st m x 1) in *. set (n2 := en m x 2 - st m x 2) in *.
    assert (Lz : Z.of_nat (Z.to_nat n2 * (Z.to_nat n1 * Z.to_nat n0)) = n2 * (n1 * n0)) by (rewrite !Nat2Z.inj_mul, !Z2Nat.id by (unfold n0, n1, n2; lia); reflexivity).
    rewrite Lz in LB |- *.
    set (T' := fun i => if (i <? nd)%nat then T i else 0).
    assert (B0 : 0 <= T' 0%nat < n0). { unfold T'. destruct (Nat.ltb_spec 0 nd); [apply B; lia|unfold n0; lia]. }
    assert (B1 : 0 <= T' 1%nat < n1). { unfold T'. destruct (Nat.ltb_spec 1 nd); [apply B; lia|unfold n1; lia]. }
    assert (B2 : 0 <= T' 2%nat < n2). { unfold T'. destruct (Nat.ltb_spec 2 nd); [apply B; lia|unfold n2; lia]. }
    set (l := T' 0%nat + n0 * (T' 1%nat + n1 * T' 2%nat)).
    assert (L1 : 0 <= T' 1%nat + n1 * T' 2%nat < n1 * n2) by nia.
    assert (L0 : 0 <= l < n2 * (n1 * n0)) by (unfold l; nia).
    exists l. split; [|split; [exact L0|]].
    - rewrite !arr3_eq. cbn [app]. change (en m x 0 - st m x 0) with n0. change (en m x 1 - st m x 1) with n1.
      unfold bin_linear, T' in *. unfold l. destruct nd as [|[|[|[|k]]]]; [lia| | | |lia]; cbn -[i32 Z.mul Z.add Z.pow].
      + cbn [Nat.ltb Nat.leb] in *. f_equal. ring.
      + cbn [Nat.ltb Nat.leb] in *. rewrite i32_ok by nia. cbn [obind]. rewrite i32_ok by nia. cbn [obind]. f_equal. ring.
      + cbn [Nat.ltb Nat.leb] in *. rewrite i32_ok by nia. cbn [obind]. rewrite i32_ok by nia. cbn [obind]. rewrite i32_ok by nia. cbn [obind]. rewrite i32_ok by nia. cbn [obind]. f_equal. ring.
    - unfold owned. rewrite box_nth; [|lia|lia|].
      + cbn zeta. rewrite Z2Nat.id by lia. fold n0 n1.
        assert (E0 : l mod n0 = T' 0%nat) by (unfold l; rewrite Z.mul_comm, Z_mod_plus_full; apply Z.mod_small; lia).
        assert (D0 : l / n0 = T' 1%nat + n1 * T' 2%nat) by (unfold l; rewrite Z.mul_comm, Z.div_add, Z.div_small by lia; lia).
        rewrite E0, D0. rewrite (Z.mul_comm n1), Z_mod_plus_full, (Z.mod_small (T' 1%nat)) by lia. rewrite Z.div_add, (Z.div_small (T' 1%nat)) by lia.
        cbn [map]. unfold T', st. repeat f_equal; match goal with |- context [(?a <? nd)%nat] => destruct (Nat.ltb_spec a nd) end; lia.
      + change (box _ _ _ _ _ _) with (owned m x). rewrite (owned_length m x C). fold n0 n1 n2. lia.
  Qed.

  (** The cell ids given by the bin. *)
  Lemma bin_effect rank pid cid p : (rank < csize (comm m))%nat -> int_grid m -> int_cells m rank ->
    (pid + nd <= length (fst p))%nat -> (cid < length (snd p))%nat -> few_cells m (position pid p) \/ (exists c, owns m rank c /\ contains m c (position pid p)) ->
    exists p', effect (bin_kernel m rank pid cid) p = Some p' /\ binned m rank pid cid p p'.
  Proof.
    intros R IG IC PL CL FC. pose proof (nd_le m H) as ND. destruct (ranks m H rank R) as (x & Ex & C & _ & Eo).
    assert (CC : get_cart_cell_count m rank = Some (length (owned m x))) by (unfold get_cart_cell_count; rewrite Eo; reflexivity).
    specialize (IC _ CC).
    set (q := position pid p). set (n := fun i => en m x i - st m x i).
    assert (P : forall i, (i < nd)%nat -> exists t, bin_dim h (st m x i) (n i) (q i) = Some t /\ 0 <= t < n i /\
      forall c, owns m rank c -> contains m c q -> t = nth i c 0 - st m x i).
    { intros i L. pose proof (region m H x i C) as Ri. specialize (IG i).
      assert (In_ : forall c, owns m rank c -> contains m c q -> bin_dim h (st m x i) (n i) (q i) = Some (nth i c 0 - st m x i) /\ 0 <= nth i c 0 - st m x i < n i).
      { intros c O (Gc & Cc). apply (owns_iff m H rank x c Ex C R) in O. apply owned_in in O; [|exact C]. destruct O as (_ & O). specialize (O i ltac:(lia)).
        split; [|unfold n; lia]. apply (bin_dim_in i); [lia|unfold n; lia|unfold n; lia|exact IG|]. apply Cc, L. }
      destruct FC as [FC|(c & O & Cc)].
      - destruct (FC i L) as (F1 & F2). destruct (bin_dim_range i (st m x i) (n i) (q i)) as (t & Et & Bt); [lia|unfold n; lia|unfold n; lia|exact IG|exact F1|exact F2|].
        exists t. split; [exact Et|]. split; [exact Bt|]. intros c O Cc. destruct (In_ c O Cc) as (E & _). congruence.
      - destruct (In_ c O Cc) as (E & B). exists (nth i c 0 - st m x i). split; [exact E|]. split; [exact B|]. intros c' O' Cc'. destruct (In_ c' O' Cc') as (E' & _). congruence. }
    destruct (finite_choice nd _ P) as (T & HT).
    destruct (bin_linear_ok x T C IC) as (l & El & Bl & Nl); [intros i L; apply HT, L|].
    assert (KE : bin_kernel m rank pid cid p = Some ([], [(cid, l)])).
    { unfold bin_kernel. rewrite Ex. cbn [obind]. rewrite (starts_eq m H x C). cbn [obind]. rewrite (local_eq m H x C). cbn [obind].
      rewrite (fill3_arr 0 _ T); [|lia|].
      - cbn [obind]. rewrite El. reflexivity.
      - intros i L. rewrite pos_rd by assumption. cbn [obind]. rewrite rd3_st by lia. cbn [obind]. rewrite arr3_rd by lia. destruct (Nat.ltb_spec i nd); [|lia].
        cbn [obind]. apply (HT i L). }
    destruct (effect_int _ p cid l KE CL) as (p' & Ep & Sp). exists p'. split; [exact Ep|]. exists l. split; [exact Sp|]. split; [exists (length (owned m x)); auto|].
    intros c O Cc. rewrite <- (Z2Nat.id l) by lia. rewrite (tuple_index_eq m H rank x) by (assumption || lia). rewrite Nl. f_equal.
    pose proof Cc as ((L3 & G) & _). apply (owns_iff m H rank x c Ex C R) in O. apply owned_in in O; [|exact C]. destruct O as (_ & O).
    destruct c as [|a [|b [|e [|? ?]]]]; try discriminate L3.
    assert (Q : forall i, (i < 3)%nat -> (if (i <? nd)%nat then st m x i + T i else 0) = nth i [a; b; e] 0).
    { intros i L. destruct (Nat.ltb_spec i nd) as [Q|Q]; [destruct (HT i Q) as (_ & _ & K); rewrite (K [a; b; e] ltac:(apply (owns_iff m H rank x _ Ex C R); apply owned_in; [exact C|split; [reflexivity|exact O]]) Cc); lia|].
      specialize (O i L). unfold st, en in O. destruct (Nat.ltb_spec i nd); lia. }
    cbn [map]. rewrite (Q 0%nat), (Q 1%nat), (Q 2%nat) by lia. reflexivity.
  Qed.
End Mesh.
