(** Proofs about the sampler without replacement: every choice of pairs is drawn for
    some samples. *)
From Coq Require Import List Arith Lia ZArith QArith Bool Permutation.
Import ListNotations.
From Verif Require Import Base Kernel Compress_Model Mesh_Model PairList_Model PairList_Spec PairSet_Proofs Maps_Model Maps_Props
  Partition_Model Partition_Spec Partition_Proofs SamplerNR_Model SamplerNR_Spec SamplerNR_Proofs SamplerNRKernel_Proofs.
Local Open Scope nat_scope.

Lemma finite_choice {A} (x0 : A) (Q : nat -> A -> Prop) n :
  (forall i, i < n -> exists x, Q i x) -> exists f, forall i, i < n -> Q i (f i).
Proof.
  induction n as [|n IH]; intros H; [exists (fun _ => x0); intros; lia|].
  destruct IH as [f Hf]; [intros; apply H; lia|]. destruct (H n) as [x Hx]; [lia|].
  exists (fun i => if i =? n then x else f i). intros i Hi. destruct (Nat.eqb_spec i n) as [->|]; auto. apply Hf. lia.
Qed.

Lemma nth_concat {A} (L : list (list A)) k l i q : nth_error L k = Some l -> nth_error l i = Some q ->
  nth_error (concat L) (length (concat (firstn k L)) + i) = Some q.
Proof.
  revert k. induction L as [|x L IH]; intros [|k] H Hi; try discriminate; cbn in H.
  - injection H as ->. cbn. rewrite nth_error_app1; auto. eapply nth_error_some_lt; eauto.
  - cbn [firstn concat]. rewrite app_length, nth_error_app2 by lia.
    replace (length x + length (concat (firstn k L)) + i - length x) with (length (concat (firstn k L)) + i) by lia. apply IH; auto.
Qed.
Lemma concat_map_length {A} (g : nat -> list A) n : length (concat (map g (seq 0 n))) = list_sum (map (fun i => length (g i)) (seq 0 n)).
Proof. induction n as [|n IH]; [reflexivity|]. rewrite seq_S, !map_app, concat_app, app_length, IH, list_sum_app. cbn. rewrite app_nil_r. lia. Qed.

Section Reach.
  Context (d : device) (cells : nat) (W : Z) (ids : list Z) (parts : list particle) (ccells : list nat) (cp : partition).
  Context (a b : Z) (qa qb : nat) (counts : list (list nat)).
  Hypothesis Hd : device_ok d.
  Hypothesis Hc : 0 < cells.
  Hypothesis HV : valid cells ids parts ccells.
  Hypothesis HC : constructed W cells ids parts ccells cp.
  Hypothesis HA : lin ids a = Some qa.
  Hypothesis HB : lin ids b = Some qb.
  Hypothesis HR : forall c, c < cells -> exists row, nth_error counts c = Some row /\ length row <= nth c ccells 0 /\
     forall cc n, nth_error row cc = Some n ->
       (Z.of_nat n <= most_pairs false (a =? b)%Z (length (members parts c cc a)) (length (members parts c cc b)))%Z.
  Hypothesis HN : NoDup (map (fun p => (p_cell p, p_layer p)) parts).

  Local Notation row := (row counts).
  Local Notation nreq := (nreq counts).
  Local Notation oc := (oc counts).
  Local Notation om := (om counts).
  Local Notation NP := (NP cells counts).
  Local Notation na := (na parts a).
  Local Notation nb := (nb parts b).
  Local Notation M := (M cells ccells).
  Local Notation lay := (lay cp).

  Lemma lay_surj c cc x q y : c < cells -> cc < M -> lin ids x = Some q -> In y (members parts c cc x) ->
    exists i, i < length (members parts c cc x) /\ lay c cc q i = y.
  Proof.
    intros H1 H2 H3 Hy. apply (Permutation_in _ (Permutation_sym (lay_perm cells W ids parts ccells cp Hc HC c cc x q H1 H2 H3))) in Hy.
    apply in_map_iff in Hy as [i [E Hi]]. apply in_seq in Hi. exists i. split; [lia|auto].
  Qed.

  Lemma indices_of c cc ps : c < cells -> cc < M ->
    (forall p, In p ps -> In (fst p) (members parts c cc a) /\ In (snd p) (members parts c cc b)) ->
    exists T, map (fun p => (lay c cc qa (fst p), lay c cc qb (snd p))) T = ps /\
      forall p, In p T -> fst p < na c cc /\ snd p < nb c cc.
  Proof.
    intros H1 H2. induction ps as [|[x y] ps IH]; intros H; [exists []; split; [auto|intros p []]|].
    destruct IH as [T [E B]]; [intros; apply H; right; auto|].
    destruct (H (x, y) (or_introl eq_refl)) as [Hx Hy]. cbn [fst snd] in Hx, Hy.
    destruct (lay_surj c cc a qa x H1 H2 HA Hx) as [i [Hi Ei]]. destruct (lay_surj c cc b qb y H1 H2 HB Hy) as [j [Hj Ej]].
    exists ((i, j) :: T). cbn [map fst snd]. rewrite E, Ei, Ej. split; auto. intros p [<-|Hp]; auto.
  Qed.

  Lemma indices_choice c cc T : NoDup (particles_of (map (fun p => (lay c cc qa (fst p), lay c cc qb (snd p))) T)) ->
    (forall p, In p T -> fst p < na c cc /\ snd p < nb c cc) -> choice_ok (qa =? qb) (na c cc) (nb c cc) T.
  Proof.
    intros ND HBd. split; auto. destruct (Nat.eqb_spec qa qb) as [E|N].
    - rewrite (particles_map (lay c cc qa) (lay c cc qb)) in ND by (rewrite E; auto). apply NoDup_map_inv in ND. auto.
    - apply (Permutation_NoDup (particles_perm _)) in ND. rewrite !map_map in ND. cbn [fst snd] in ND.
      rewrite <- (map_map fst (lay c cc qa)), <- (map_map snd (lay c cc qb)) in ND.
      split; [apply NoDup_app_l in ND|apply NoDup_app_r in ND]; apply NoDup_map_inv in ND; auto.
  Qed.

  (** The samples of a collision cell. *)
  Definition samples_for (k : nat) (P : nat -> list (list (nat * nat))) (c cc : nat) (u : list Q * list Q) : Prop :=
    length (fst u) = nreq c cc /\ length (snd u) = nreq c cc /\ (forall v, In v (fst u ++ snd u) -> (0 <= v)%Q /\ (v < 1)%Q) /\
    forall rng, 
      (forall i v, nth_error (fst u) i = Some v -> nth_error (rng (2 * NP)) (i + (oc c cc + om c)) = Some v) ->
      (forall i v, nth_error (snd u) i = Some v -> nth_error (rng (2 * NP)) (i + (oc c cc + om c) + NP) = Some v) ->
      chosen d cells parts cp a b qa qb counts rng k c cc = nth cc (P c) [].

  Lemma samples_ok k P c cc : c < cells -> cc < length (row c) -> as_requested parts a b (row c) c (P c) ->
    exists u, samples_for k P c cc u.
  Proof.
    intros H1 H2 AR. destruct (row_len cells ids parts ccells a b counts Hc HV HR c H1) as [_ Lr].
    assert (Ep : nth_error (P c) cc = Some (nth cc (P c) [])) by (apply nth_error_nth'; rewrite (ar_length _ _ _ _ _ _ AR); auto).
    set (ps := nth cc (P c) []) in *.
    destruct (indices_of c cc ps H1 ltac:(lia) (fun p => ar_members _ _ _ _ _ _ AR cc ps p Ep)) as [T [ET BT]].
    assert (LT : length T = nreq c cc).
    { pose proof (ar_count _ _ _ _ _ _ AR cc ps Ep) as L. unfold SamplerNRKernel_Proofs.nreq. rewrite (nth_error_nth (row c) cc 0 L), <- ET, map_length. auto. }
    assert (ND : NoDup (particles_of ps)).
    { pose proof (ar_distinct _ _ _ _ _ _ AR) as ND. rewrite particles_concat in ND.
      apply nth_error_split in Ep as [l1 [l2 [E _]]]. rewrite E, map_app, concat_app in ND. apply NoDup_app_r in ND. cbn [map concat] in ND.
      apply NoDup_app_l in ND. auto. }
    rewrite <- ET in ND. pose proof (indices_choice c cc T ND BT) as CH.
    destruct (draws_any (qa =? qb) (na c cc) (nb c cc) (pools d parts cp a b qa qb k c cc) T) as [ua [ub [AB' [La [Lb [HU [_ HF]]]]]]]; auto.
    { eapply pools_start; eauto. }
    { eapply same_num; eauto. }
    exists (ua, ub). unfold samples_for. cbn [fst snd]. split; [lia|]. split; [lia|]. split; auto. intros rng Ra Rb.
    unfold chosen, drawn, reals. rewrite <- LT, (HF (rng (2 * NP)) NP (oc c cc + om c) Ra Rb). auto.
  Qed.

  Lemma reach k (P : nat -> list (list (nat * nat))) : (forall c, c < cells -> as_requested parts a b (row c) c (P c)) ->
    exists rng, (forall n, length (rng n) = n) /\ (forall n u, In u (rng n) -> (0 <= u)%Q /\ (u < 1)%Q) /\
      forall c, c < cells -> Pof d cells parts cp a b qa qb counts rng k c = P c.
  Proof.
    intros AR.
    assert (exists U, forall c, c < cells -> forall cc, cc < length (row c) -> samples_for k P c cc (U c cc)) as [U HU].
    { apply (finite_choice (fun _ => ([], [])) (fun c g => forall cc, cc < length (row c) -> samples_for k P c cc (g cc))).
      intros c Hx. apply (finite_choice ([], [])). intros cc Hcc. apply samples_ok; auto. }
    set (RA := map (fun c => concat (map (fun cc => fst (U c cc)) (seq 0 (length (row c))))) (seq 0 cells)).
    set (RB := map (fun c => concat (map (fun cc => snd (U c cc)) (seq 0 (length (row c))))) (seq 0 cells)).
    assert (G : forall sel : list Q * list Q -> list Q, (forall c cc, c < cells -> cc < length (row c) -> length (sel (U c cc)) = nreq c cc) ->
      let R := map (fun c => concat (map (fun cc => sel (U c cc)) (seq 0 (length (row c))))) (seq 0 cells) in
      length (concat R) = NP /\
      forall c cc i v, c < cells -> cc < length (row c) -> nth_error (sel (U c cc)) i = Some v ->
        nth_error (concat R) (i + (oc c cc + om c)) = Some v).
    { intros sel HS R.
      assert (Rc : forall c, c < cells -> forall n, n <= length (row c) ->
        length (concat (map (fun cc => sel (U c cc)) (seq 0 n))) = oc c n).
      { intros c Hx n Hn. induction n as [|n IH]; [reflexivity|]. rewrite seq_S, map_app, concat_app, app_length, IH by lia.
        cbn [map concat plus]. rewrite app_nil_r, HS by lia. rewrite (oc_S counts c n) by lia. auto. }
      assert (Rm : forall n, n <= cells -> length (concat (firstn n R)) = om n).
      { intros n Hn. unfold R. rewrite firstn_map_seq by auto. rewrite concat_map_length. unfold SamplerNRKernel_Proofs.om. f_equal. apply map_ext_in.
        intros c Hx. apply in_seq in Hx. rewrite Rc by lia. unfold SamplerNRKernel_Proofs.oc. rewrite firstn_all. auto. }
      split.
      - rewrite <- (firstn_all R). replace (length R) with cells by (unfold R; rewrite map_length, seq_length; auto). apply Rm. auto.
      - intros c cc i v Hx Hcc Hv. replace (i + (oc c cc + om c)) with (length (concat (firstn c R)) + (oc c cc + i)) by (rewrite Rm by lia; lia).
        apply (nth_concat R c (concat (map (fun cc => sel (U c cc)) (seq 0 (length (row c)))))).
        + unfold R. rewrite nth_error_map_seq. destruct (Nat.ltb_spec c cells); [auto|lia].
        + rewrite <- (Rc c Hx cc) by lia. rewrite <- (firstn_map_seq (fun cc => sel (U c cc)) cc (length (row c))) by lia.
          apply (nth_concat _ cc (sel (U c cc))); auto. rewrite nth_error_map_seq. destruct (Nat.ltb_spec cc (length (row c))); [auto|lia]. }
    destruct (G fst) as [LA NA]; [intros c cc Hx Hcc; apply (HU c Hx cc Hcc)|]. destruct (G snd) as [LB NB]; [intros c cc Hx Hcc; apply (HU c Hx cc Hcc)|].
    fold RA in LA, NA. fold RB in LB, NB.
    exists (fun n => if n =? 2 * NP then concat RA ++ concat RB else repeat 0%Q n). split; [|split].
    - intros n. destruct (Nat.eqb_spec n (2 * NP)) as [->|]; [rewrite app_length; lia|apply repeat_length].
    - intros n u Hu. destruct (n =? 2 * NP).
      + assert (G2 : forall sel : list Q * list Q -> list Q, (forall w v, In v (sel w) -> In v (fst w ++ snd w)) ->
          In u (concat (map (fun c => concat (map (fun cc => sel (U c cc)) (seq 0 (length (row c))))) (seq 0 cells))) -> (0 <= u)%Q /\ (u < 1)%Q).
        { intros sel HS I. apply in_concat in I as [l [I J]]. apply in_map_iff in I as [c [<- Hx]]. apply in_concat in J as [l [I J]].
          apply in_map_iff in I as [cc [<- Hcc]]. apply in_seq in Hx, Hcc. destruct (HU c ltac:(lia) cc ltac:(lia)) as [_ [_ [B _]]]. apply B, HS, J. }
        apply in_app_iff in Hu as [Hu|Hu]; [apply (G2 fst)|apply (G2 snd)]; auto; intros w v Hv; apply in_or_app; auto.
      + apply repeat_spec in Hu. subst u. split; [apply Qle_refl|reflexivity].
    - intros c Hx. pose proof (AR c Hx) as A. apply nth_error_ext. intros cc. unfold Pof. rewrite nth_error_map_seq.
      destruct (Nat.ltb_spec cc (length (row c))) as [Hcc|Hcc].
      + destruct (HU c Hx cc Hcc) as [_ [_ [_ HF]]]. cbn [plus]. rewrite HF.
        * symmetry. apply nth_error_nth'. rewrite (ar_length _ _ _ _ _ _ A). auto.
        * intros i v Hv. rewrite Nat.eqb_refl. rewrite nth_error_app1; [apply NA; auto|]. eapply nth_error_some_lt, NA; eauto.
        * intros i v Hv. rewrite Nat.eqb_refl. rewrite nth_error_app2 by lia. rewrite LA, Nat.add_sub. apply NB; auto.
      + symmetry. apply nth_error_None. rewrite (ar_length _ _ _ _ _ _ A). auto.
  Qed.
End Reach.
