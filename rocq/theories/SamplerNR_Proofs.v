(** Proofs about the sampler without replacement. *)
From Coq Require Import List Arith Lia ZArith QArith Bool Permutation.
Import ListNotations.
From Verif Require Import Base Kernel Scan_Model Scan_Spec Scan_Proofs Compress_Model Compress_Proofs Mesh_Model PairList_Model PairList_Spec
  PairSimple_Proofs PairLoop_Proofs Maps_Model Maps_Props Partition_Model Partition_Spec Partition_Proofs SamplerNR_Model SamplerNR_Spec.
Local Open Scope nat_scope.

(** * Drawing an index *)
Lemma index_of_nat n : index_of (Z.of_nat n) = Some n.
Proof. unfold index_of. destruct (Z.ltb_spec (Z.of_nat n) 0); [lia|]. rewrite Nat2Z.id. reflexivity. Qed.

(** The index of the array that a sample picks. *)
Definition pick (u : Q) (n : nat) : nat := Z.to_nat (Z.min (Z.of_nat n - 1) (Z.max 0 (Qtrunc (u * inject_Z (Z.of_nat n))%Q))).

Lemma firstn_split_last {A} (l : list A) n y : nth_error l n = Some y -> firstn (S n) l = firstn n l ++ [y].
Proof.
  revert n. induction l as [|x l IH]; intros [|n]; cbn; try discriminate; [intros [= ->]; auto|].
  intros H. f_equal. apply IH. exact H.
Qed.

Lemma swap_out (l l' : list nat) i n x y : i <= n -> nth_error l i = Some x -> nth_error l n = Some y -> upd l i y = Some l' ->
  Permutation (firstn (S n) l) (x :: firstn n l').
Proof.
  intros Hi Hx Hy U. destruct (Nat.eq_dec i n) as [->|N].
  - assert (x = y) by congruence. subst y. rewrite (firstn_split_last l n x Hy).
    assert (firstn n l' = firstn n l) as ->.
    { apply nth_error_ext. intros j. rewrite !nth_error_firstn, (upd_nth _ _ _ _ j U). destruct (Nat.ltb_spec j n); auto.
      destruct (Nat.eqb_spec j n); [lia|auto]. }
    rewrite Permutation_app_comm. reflexivity.
  - rewrite (firstn_split_last l n y Hy).
    apply nth_error_split in Hx as [l1 [l2 [-> <-]]].
    assert (l' = l1 ++ y :: l2) as ->.
    { apply nth_error_ext. intros j. rewrite (upd_nth _ _ _ _ j U). destruct (Nat.eqb_spec j (length l1)) as [->|Ne].
      - rewrite nth_error_app2, Nat.sub_diag by lia. reflexivity.
      - destruct (Nat.lt_ge_cases j (length l1)); [rewrite !nth_error_app1 by auto; auto|].
        rewrite !nth_error_app2 by lia. destruct (j - length l1) eqn:E; [lia|reflexivity]. }
    rewrite !firstn_app, !(firstn_all2 l1) by lia. destruct (n - length l1) as [|m] eqn:E; [lia|]. cbn [firstn].
    rewrite <- app_assoc. cbn [app]. rewrite <- Permutation_middle. constructor.
    apply Permutation_app_head. rewrite <- Permutation_cons_append. reflexivity.
Qed.

Lemma sample_index_ok u n idx : 1 <= n <= length idx ->
  exists x idx', sample_index u (Z.of_nat n) idx = Some (x, (Z.of_nat (n - 1), idx')) /\ length idx' = length idx /\
    nth_error idx (pick u n) = Some x /\ pick u n < n /\ Permutation (firstn n idx) (x :: firstn (n - 1) idx').
Proof.
  intros Hn. unfold sample_index.
  assert (Hp : Z.min (Z.of_nat n - 1) (Z.max 0 (Qtrunc (u * inject_Z (Z.of_nat n))%Q)) = Z.of_nat (pick u n)).
  { unfold pick. rewrite Z2Nat.id; lia. }
  rewrite Hp, index_of_nat. replace (Z.of_nat n - 1)%Z with (Z.of_nat (n - 1)) by lia. rewrite index_of_nat. cbn [obind].
  assert (Hlt : pick u n < n) by lia.
  destruct (nth_error_lt_some idx (pick u n)) as [x Hx]; [lia|]. destruct (nth_error_lt_some idx (n - 1)) as [y Hy]; [lia|].
  unfold rd. rewrite Hx, Hy. cbn [obind].
  destruct (upd_some idx (pick u n) y) as [idx' E]; [lia|]. rewrite E. cbn [obind].
  exists x, idx'. split; [reflexivity|]. split; [apply (upd_length _ _ _ _ E)|]. split; auto. split; auto.
  assert (H1 : pick u n <= n - 1) by lia. pose proof (swap_out _ _ _ _ _ _ H1 Hx Hy E) as P. replace (S (n - 1)) with n in P by lia. exact P.
Qed.

(** Every index can be picked. *)
Lemma pick_any n i : i < n -> exists u, (0 <= u)%Q /\ (u < 1)%Q /\ pick u n = i.
Proof.
  intros Hi. exists (Z.of_nat i # Pos.of_nat n)%Q.
  assert (Hn : Z.pos (Pos.of_nat n) = Z.of_nat n) by lia.
  split; [unfold Qle; cbn; lia|]. split; [unfold Qlt; cbn; lia|].
  unfold pick, Qtrunc. cbn [Qmult inject_Z Qnum Qden]. rewrite Pos.mul_1_r, Hn.
  rewrite Z.quot_mul by lia. lia.
Qed.

(** * The pairs of one collision cell *)
Definition pool : Type := (Z * list nat)%type.

Section Draws.
  Context (same : bool) (reals : list Q) (num_pairs base : nat).

  (** The part of sample_pair that chooses the particles. *)
  Definition draw (st : list (nat * nat) * (pool * pool)) (pairx : nat) : option (list (nat * nat) * (pool * pool)) :=
    let '(out, (A, B)) := st in
    ua <- rd reals (pairx + base) ;;
    ub <- rd reals (pairx + base + num_pairs) ;;
    ra <- sample_index ua (fst A) (snd A) ;;
    rb <- (if same then sample_index ub (fst (snd ra)) (snd (snd ra)) else sample_index ub (fst B) (snd B)) ;;
    Some (out ++ [(fst ra, fst rb)], if same then (snd rb, B) else (snd ra, snd rb)).

  (** [used] of the particles [0 .. n) are gone, the pool holds the others. *)
  Definition pool_ok (n : nat) (used : list nat) (p : pool) : Prop :=
    fst p = Z.of_nat (n - length used) /\ n <= length (snd p) /\
    Permutation (seq 0 n) (used ++ firstn (n - length used) (snd p)).

  Definition pools_ok (na nb : nat) (out : list (nat * nat)) (AB : pool * pool) : Prop :=
    if same then pool_ok na (particles_of out) (fst AB)
    else pool_ok na (map fst out) (fst AB) /\ pool_ok nb (map snd out) (snd AB).

  Lemma draw_one u n used p : pool_ok n used p -> length used < n ->
    exists x p', sample_index u (fst p) (snd p) = Some (x, p') /\ pool_ok n (used ++ [x]) p' /\
      nth_error (firstn (n - length used) (snd p)) (pick u (n - length used)) = Some x.
  Proof.
    intros [E [L P]] H. rewrite E.
    destruct (sample_index_ok u (n - length used) (snd p)) as [x [idx' [E1 [L1 [N1 [K1 P1]]]]]]; [lia|].
    exists x, (Z.of_nat (n - length used - 1), idx'). split; [exact E1|]. split.
    - unfold pool_ok. cbn [fst snd]. rewrite app_length. cbn [length].
      replace (n - (length used + 1)) with (n - length used - 1) by lia. split; [reflexivity|]. split; [lia|].
      rewrite P, P1, <- app_assoc. reflexivity.
    - rewrite nth_error_firstn. destruct (Nat.ltb_spec (pick u (n - length used)) (n - length used)); [auto|lia].
  Qed.

  Lemma particles_app (l : list (nat * nat)) p : particles_of (l ++ [p]) = particles_of l ++ [fst p; snd p].
  Proof. unfold particles_of. rewrite flat_map_app. reflexivity. Qed.
  Lemma particles_length (l : list (nat * nat)) : length (particles_of l) = 2 * length l.
  Proof. unfold particles_of. induction l as [|p l IH]; [reflexivity|]. cbn [flat_map app length]. lia. Qed.

  Definition enough (na nb n : nat) : Prop := if same then 2 * n <= na else n <= na /\ n <= nb.

  Lemma draw_ok na nb out AB pairx : pools_ok na nb out AB -> enough na nb (S (length out)) ->
    pairx + base + num_pairs < length reals ->
    exists p AB', draw (out, AB) pairx = Some (out ++ [p], AB') /\ pools_ok na nb (out ++ [p]) AB'.
  Proof.
    destruct AB as [A B]. intros HP HE HR. unfold draw, rd.
    destruct (nth_error_lt_some reals (pairx + base)) as [ua Ua]; [lia|].
    destruct (nth_error_lt_some reals (pairx + base + num_pairs)) as [ub Ub]; [lia|].
    rewrite Ua, Ub. cbn [obind]. unfold pools_ok, enough in *. cbn [fst snd] in *. destruct same.
    - pose proof (particles_length out) as L.
      destruct (draw_one ua na (particles_of out) A HP) as [x [A1 [E1 [P1 _]]]]; [lia|]. rewrite E1. cbn [obind fst snd].
      destruct (draw_one ub na (particles_of out ++ [x]) A1 P1) as [y [A2 [E2 [P2 _]]]]; [rewrite app_length; cbn; lia|].
      rewrite E2. cbn [obind fst snd]. exists (x, y), (A2, B). split; [reflexivity|]. rewrite particles_app.
      cbn [fst snd]. rewrite <- app_assoc in P2. exact P2.
    - destruct HP as [PA PB].
      destruct (draw_one ua na (map fst out) A PA) as [x [A1 [E1 [P1 _]]]]; [rewrite map_length; lia|]. rewrite E1. cbn [obind fst snd].
      destruct (draw_one ub nb (map snd out) B PB) as [y [B1 [E2 [P2 _]]]]; [rewrite map_length; lia|]. rewrite E2. cbn [obind fst snd].
      exists (x, y), (A1, B1). split; [reflexivity|]. rewrite !map_app. auto.
  Qed.

  Lemma draws_ok na nb AB n : pools_ok na nb [] AB -> enough na nb n -> n + base + num_pairs <= length reals \/ n = 0 ->
    exists out AB', foldM draw ([], AB) (seq 0 n) = Some (out, AB') /\ length out = n /\ pools_ok na nb out AB'.
  Proof.
    induction n as [|n IH]; intros HP HE HR.
    - exists [], AB. auto.
    - destruct IH as [out [AB1 [E [L P]]]]; auto; [unfold enough in *; destruct same; lia|lia|].
      rewrite seq_S, foldM_app, E. cbn [obind foldM plus].
      destruct (draw_ok na nb out AB1 n P) as [p [AB' [E2 P2]]]; [rewrite L; auto|lia|].
      rewrite E2. cbn [obind]. exists (out ++ [p]), AB'. rewrite app_length. cbn. split; auto. split; [lia|auto].
  Qed.
End Draws.

Lemma NoDup_app_l {A} (l1 l2 : list A) : NoDup (l1 ++ l2) -> NoDup l1.
Proof. induction l1 as [|x l1 IH]; cbn; intros H; constructor; inversion_clear H; auto. rewrite in_app_iff in H0. tauto. Qed.
Lemma NoDup_app_r {A} (l1 l2 : list A) : NoDup (l1 ++ l2) -> NoDup l2.
Proof. induction l1 as [|x l1 IH]; cbn; auto. intros H. inversion_clear H. auto. Qed.

(** Any choice of pairs is drawn for some samples. *)
Definition choice_ok (same : bool) (na nb : nat) (T : list (nat * nat)) : Prop :=
  (forall p, In p T -> fst p < na /\ snd p < nb) /\
  if same then NoDup (particles_of T) else NoDup (map fst T) /\ NoDup (map snd T).

Lemma pick_unused n used p x : pool_ok n used p -> NoDup (used ++ [x]) -> x < n -> length used < n /\
  exists u, (0 <= u)%Q /\ (u < 1)%Q /\ exists p', sample_index u (fst p) (snd p) = Some (x, p') /\ pool_ok n (used ++ [x]) p'.
Proof.
  intros HP ND Hx. pose proof HP as [E [L P]].
  assert (In x (firstn (n - length used) (snd p))) as I.
  { assert (In x (seq 0 n)) as I by (apply in_seq; lia). apply (Permutation_in _ P) in I. apply in_app_iff in I as [I|I]; auto.
    exfalso. apply NoDup_remove_2 in ND. apply ND. rewrite app_nil_r. auto. }
  apply In_nth_error in I as [i Hi]. pose proof (nth_error_some_lt _ _ _ Hi) as Hl. rewrite firstn_length in Hl.
  assert (Hlt : length used < n) by lia. split; auto.
  destruct (pick_any (n - length used) i) as [u [U0 [U1 Ep]]]; [lia|]. exists u. split; auto. split; auto.
  destruct (draw_one u n used p HP Hlt) as [x' [p' [E1 [P1 N1]]]]. rewrite Ep in N1.
  assert (x' = x) by congruence. subst x'. eauto.
Qed.

Lemma draws_any same na nb AB T : pools_ok same na nb [] AB -> choice_ok same na nb T -> (same = true -> na = nb) ->
  exists ua ub AB', length ua = length T /\ length ub = length T /\ (forall u, In u (ua ++ ub) -> (0 <= u)%Q /\ (u < 1)%Q) /\
    pools_ok same na nb T AB' /\
    forall reals num_pairs base,
      (forall i u, nth_error ua i = Some u -> nth_error reals (i + base) = Some u) ->
      (forall i u, nth_error ub i = Some u -> nth_error reals (i + base + num_pairs) = Some u) ->
      foldM (draw same reals num_pairs base) ([], AB) (seq 0 (length T)) = Some (T, AB').
Proof.
  intros HP. induction T as [|[x y] T IH] using rev_ind; intros [HB HD] Hs.
  - exists [], [], AB. split; auto. split; auto. split; [intros u []|]. split; auto.
  - destruct IH as [ua [ub [[A B] [La [Lb [H1 [HPT HF]]]]]]]; auto.
    { split; [intros p Hp; apply HB, in_or_app; auto|]. destruct same.
      - rewrite particles_app in HD. apply NoDup_app_l in HD. auto.
      - rewrite !map_app in HD. destruct HD as [D1 D2]. split; [apply NoDup_app_l in D1|apply NoDup_app_l in D2]; auto. }
    destruct (HB (x, y)) as [Bx By]; [apply in_or_app; cbn; auto|]. cbn [fst snd] in Bx, By.
    assert (exists u v AB', ((0 <= u)%Q /\ (u < 1)%Q) /\ ((0 <= v)%Q /\ (v < 1)%Q) /\ pools_ok same na nb (T ++ [(x, y)]) AB' /\
      exists ra, sample_index u (fst A) (snd A) = Some (x, ra) /\ exists rb,
        (if same then sample_index v (fst ra) (snd ra) else sample_index v (fst B) (snd B)) = Some (y, rb) /\
        AB' = (if same then (rb, B) else (ra, rb))) as [u [v [AB' [Hu [Hv [HP' [ra [Ea [rb [Eb ->]]]]]]]]]].
    { unfold pools_ok in *. destruct same; cbn [fst snd] in *.
      - rewrite particles_app in HD. cbn [fst snd] in HD.
        replace (particles_of T ++ [x; y]) with ((particles_of T ++ [x]) ++ [y]) in HD by (rewrite <- app_assoc; auto).
        destruct (pick_unused na (particles_of T) A x HPT) as [_ [u [U0 [U1 [A1 [E1 P1]]]]]]; auto.
        { apply NoDup_app_l in HD. auto. }
        destruct (pick_unused na (particles_of T ++ [x]) A1 y P1 HD) as [_ [v [V0 [V1 [A2 [E2 P2]]]]]]; [rewrite (Hs eq_refl); auto|].
        exists u, v, (A2, B). split; auto. split; auto. split.
        + rewrite particles_app. cbn [fst snd]. rewrite <- app_assoc in P2. exact P2.
        + exists A1. split; auto. exists A2. auto.
      - rewrite !map_app in HD. destruct HD as [D1 D2]. destruct HPT as [PA PB].
        destruct (pick_unused na (map fst T) A x PA) as [_ [u [U0 [U1 [A1 [E1 P1]]]]]]; auto.
        destruct (pick_unused nb (map snd T) B y PB) as [_ [v [V0 [V1 [B1 [E2 P2]]]]]]; auto.
        exists u, v, (A1, B1). split; auto. split; auto. rewrite !map_app. split; auto. exists A1. split; auto. exists B1. auto. }
    exists (ua ++ [u]), (ub ++ [v]). eexists. rewrite !app_length. cbn [length]. split; [lia|]. split; [lia|]. split.
    { intros w Hw. rewrite !in_app_iff in Hw. cbn in Hw.
      destruct Hw as [[Hw|[<-|[]]]|[Hw|[<-|[]]]]; auto; apply H1, in_or_app; auto. }
    split; [exact HP'|]. intros reals num_pairs base Ra Rb. rewrite Nat.add_1_r, seq_S, foldM_app, HF.
    + cbn [obind foldM plus]. unfold draw, rd. rewrite (Ra (length T) u), (Rb (length T) v).
      * cbn [obind]. rewrite Ea. cbn [obind fst snd]. rewrite Eb. reflexivity.
      * rewrite <- Lb, nth_error_app2, Nat.sub_diag by lia. reflexivity.
      * rewrite <- La, nth_error_app2, Nat.sub_diag by lia. reflexivity.
    + intros i w Hw. apply Ra. rewrite nth_error_app1; auto. eapply nth_error_some_lt; eauto.
    + intros i w Hw. apply Rb. rewrite nth_error_app1; auto. eapply nth_error_some_lt; eauto.
Qed.

(** What the pools say about the choice. *)
Lemma pool_used n used p : pool_ok n used p -> NoDup used /\ forall x, In x used -> x < n.
Proof.
  intros [_ [_ P]]. split.
  - eapply NoDup_app_l. eapply Permutation_NoDup; [exact P|apply seq_NoDup].
  - intros x Hx. assert (In x (seq 0 n)) as I by (apply (Permutation_in _ (Permutation_sym P)), in_or_app; auto). apply in_seq in I. lia.
Qed.
Lemma pools_choice same na nb out AB : pools_ok same na nb out AB -> (same = true -> na = nb) -> choice_ok same na nb out.
Proof.
  unfold pools_ok, choice_ok. destruct same; intros HP Hs.
  - apply pool_used in HP as [N B]. split; auto. intros p Hp. rewrite <- (Hs eq_refl).
    split; apply B; unfold particles_of; apply in_flat_map; exists p; cbn; auto.
  - destruct HP as [PA PB]. apply pool_used in PA as [N1 B1], PB as [N2 B2]. split; auto.
    intros p Hp. split; [apply B1|apply B2]; apply in_map; auto.
Qed.

(** * The work item of a collision cell *)
Section Item.
  Context (cp : partition) (a b : nat) (reals : list Q) (num_pairs c cc om oc : nat) (cells : nat).
  Context (la lb : nat -> nat) (na nb : nat).
  Hypothesis Hla : forall i, i < na -> get_particle_layer cp c cc a i = Some (la i).
  Hypothesis Hlb : forall i, i < nb -> get_particle_layer cp c cc b i = Some (lb i).
  Hypothesis Hs : (a =? b) = true -> na = nb.
  Hypothesis Hc : c < cells.

  Definition layers (p : nat * nat) : nat * nat := (la (fst p), lb (snd p)).

  Lemma item_ok pl nr AB out AB' n : pls cells pl nr -> oc + n <= nr c ->
    foldM (draw (a =? b) reals num_pairs (oc + om)) ([], AB) (seq 0 n) = Some (out, AB') ->
    length out = n -> (forall p, In p out -> fst p < na /\ snd p < nb) ->
    exists pl', foldM (sample_pair cp a b reals num_pairs c cc om oc) (pl, AB) (seq 0 n) = Some (pl', AB') /\ pls cells pl' nr /\
      forall c' f r, rd3 pl' c' f r =
        if (c' =? c) && (f <? 2) && (oc <=? r) && (r <? oc + n)
        then match nth_error out (r - oc) with
             | Some p => Some (if f =? 0 then la (fst p) else lb (snd p))
             | None => None
             end
        else rd3 pl c' f r.
  Proof.
    intros Hpl Hn. revert out AB'. induction n as [|n IH]; intros out AB' E L HB.
    - cbn in E. injection E as <- <-. exists pl. split; [reflexivity|]. split; auto. intros c' f r.
      destruct (Nat.leb_spec oc r), (Nat.ltb_spec r (oc + 0)); rewrite ?andb_false_r; auto. lia.
    - rewrite seq_S, foldM_app in E. cbn [plus] in E.
      destruct (foldM (draw (a =? b) reals num_pairs (oc + om)) ([], AB) (seq 0 n)) as [[out1 [A B]]|] eqn:E1; cbn [obind] in E; [|discriminate].
      cbn [foldM] in E. destruct (draw _ _ _ _ (out1, (A, B)) n) as [[out2 AB2]|] eqn:E2; cbn [obind] in E; [|discriminate].
      injection E as -> ->. unfold draw in E2. unfold rd in E2.
      destruct (nth_error reals (n + (oc + om))) as [ua|] eqn:Ua; cbn [obind] in E2; [|discriminate].
      destruct (nth_error reals (n + (oc + om) + num_pairs)) as [ub|] eqn:Ub; cbn [obind] in E2; [|discriminate].
      destruct (sample_index ua (fst A) (snd A)) as [[ia A1]|] eqn:Sa; cbn [obind fst snd] in E2; [|discriminate].
      destruct (if a =? b then sample_index ub (fst A1) (snd A1) else sample_index ub (fst B) (snd B)) as [[ib B1]|] eqn:Sb;
        cbn [obind fst snd] in E2; [|discriminate].
      injection E2 as <- <-. rewrite app_length in L. cbn in L.
      destruct (HB (ia, ib)) as [Ba Bb]; [apply in_or_app; cbn; auto|]. cbn [fst snd] in Ba, Bb.
      destruct (IH ltac:(lia) out1 (A, B) eq_refl ltac:(lia)) as [pl1 [F1 [Hpl1 R1]]]; [intros p Hp; apply HB, in_or_app; auto|].
      destruct (pls_upd3 cells pl1 nr c 0 (oc + n) (la ia) Hpl1 Hc ltac:(lia)) as [pl2 [U2 [Hpl2 R2]]]; [lia|].
      destruct (pls_upd3 cells pl2 nr c 1 (oc + n) (lb ib) Hpl2 Hc ltac:(lia)) as [pl3 [U3 [Hpl3 R3]]]; [lia|].
      exists pl3. split; [|split; [exact Hpl3|]].
      + rewrite seq_S, foldM_app, F1. cbn [obind foldM plus]. unfold sample_pair, rd.
        replace (n + oc + om) with (n + (oc + om)) by lia. rewrite Ua, Ub. cbn [obind]. rewrite Sa. cbn [obind].
        rewrite Sb. cbn [obind]. rewrite (Hla ia Ba), (Hlb ib Bb). cbn [obind]. rewrite U2. cbn [obind]. rewrite U3. cbn [obind].
        destruct (a =? b); reflexivity.
      + intros c' f r. rewrite R3, R2, R1.
        destruct (Nat.eqb_spec c' c) as [->|]; cbn [andb]; [|reflexivity].
        destruct (Nat.eqb_spec r (oc + n)) as [->|Nr].
        * destruct (Nat.leb_spec oc (oc + n)); [|lia]. destruct (Nat.ltb_spec (oc + n) (oc + S n)); [|lia].
          destruct (Nat.ltb_spec (oc + n) (oc + n)); [lia|]. rewrite !andb_false_r. cbn [andb].
          replace (oc + n - oc) with (length out1) by lia. rewrite nth_error_app2, Nat.sub_diag by lia. cbn [nth_error fst snd].
          destruct (Nat.eqb_spec f 1) as [->|N1]; [reflexivity|]. destruct (Nat.eqb_spec f 0) as [->|N0]; [reflexivity|].
          destruct (Nat.ltb_spec f 2); [lia|]. reflexivity.
        * rewrite !andb_false_r. destruct (Nat.ltb_spec r (oc + n)), (Nat.ltb_spec r (oc + S n)); try lia; rewrite ?andb_false_r; auto.
          rewrite !andb_true_r. destruct (Nat.leb_spec oc r); [|rewrite !andb_false_r; auto]. rewrite !andb_true_r.
          destruct (f <? 2); auto. rewrite nth_error_app1 by lia. reflexivity.
  Qed.
End Item.
