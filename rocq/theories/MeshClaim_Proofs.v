(** Proofs about the mesh hierarchy: claims and owners. *)
From Coq Require Import List Arith ZArith Bool Lia Permutation.
Import ListNotations.
From Verif Require Import Base Kernel Scan_Model Scan_Proofs Mesh_Model Mesh_Spec.
Open Scope Z_scope.

Definition is_max (P : Z -> Prop) (v : Z) : Prop := P v /\ forall x, P x -> x <= v.

Lemma is_max_ext P Q v : (forall x, P x <-> Q x) -> is_max P v -> is_max Q v.
Proof. intros E (A & B). split; [apply E, A|]. intros x Hx. apply B, E, Hx. Qed.

Lemma mapM_seq_ex {B} (f : nat -> option B) (P : nat -> B -> Prop) n :
  (forall i, (i < n)%nat -> exists b, f i = Some b /\ P i b) ->
  exists r, mapM f (seq 0 n) = Some r /\ length r = n /\ forall i b, nth_error r i = Some b -> (i < n)%nat /\ P i b.
Proof.
  intros H. destruct (mapM_total f (seq 0 n)) as (r & E).
  { intros a Ha. apply in_seq in Ha. destruct (H a) as (b & Hb & _); [lia|eauto]. }
  exists r. split; [exact E|]. pose proof (mapM_length _ _ _ E) as L. rewrite seq_length in L. split; [exact L|].
  intros i b Hb. pose proof (nth_error_some_lt _ _ _ Hb). split; [lia|].
  pose proof (mapM_nth _ _ _ i i E) as G. rewrite nth_error_seq in G. destruct (Nat.ltb_spec i n); [|lia]. specialize (G eq_refl).
  destruct (H i) as (b' & Hb' & HP); [lia|]. rewrite G, Hb in Hb'. injection Hb' as ->. exact HP.
Qed.

Lemma acc_fold l : forall mp, (forall e, In e l -> (fst e < length mp)%nat) ->
  exists mp', foldM acc_max mp l = Some mp' /\ length mp' = length mp /\
    forall c v, nth_error mp c = Some v -> exists v', nth_error mp' c = Some v' /\ is_max (fun x => x = v \/ In (c, x) l) v'.
Proof.
  induction l as [|[i x] l IH]; intros mp H.
  - exists mp. split; [reflexivity|]. split; [reflexivity|]. intros c v Hv. exists v. split; [exact Hv|].
    split; [auto|]. intros y [->|[]]. lia.
  - cbn [foldM]. unfold acc_max at 1. cbn [fst snd].
    destruct (nth_error_lt_some mp i) as (a & Ea); [apply (H (i, x)); left; auto|]. unfold rd. rewrite Ea. cbn [obind].
    destruct (upd_some mp i (Z.max a x)) as (m1 & E1); [eapply nth_error_some_lt; eauto|]. rewrite E1. cbn [obind].
    pose proof (upd_length _ _ _ _ E1) as L1.
    destruct (IH m1) as (m2 & E2 & L2 & G). { intros e He. rewrite L1. apply H. right; auto. }
    exists m2. split; [exact E2|]. split; [lia|]. intros c v Hv.
    destruct (Nat.eq_dec c i) as [->|N].
    + rewrite Ea in Hv. injection Hv as ->. destruct (G i _ (upd_nth_eq _ _ _ _ E1)) as (v' & Hv' & A & B). exists v'. split; [exact Hv'|]. split.
      * destruct A as [A|A]; [|right; right; exact A]. destruct (Z.max_spec v x) as [(_ & K)|(_ & K)]; rewrite K in A; [right; left; congruence|left; exact A].
      * pose proof (B _ (or_introl eq_refl)) as B0. intros y [->|[[= ->]|Hy]]; [lia|lia|]. apply B; auto.
    + rewrite <- (upd_nth_neq _ _ _ _ _ E1 N) in Hv. destruct (G c v Hv) as (v' & Hv' & M). exists v'. split; [exact Hv'|].
      eapply is_max_ext; [|exact M]. intros y. cbn [In]. split; [intros [?|?]; auto|]. intros [?|[[= ? ?]|?]]; auto; congruence.
Qed.

Lemma init_fold l : forall (mp : list Z), (forall c, In c l -> (c < length mp)%nat) ->
  exists mp', foldM (fun m c => upd m c mask) mp l = Some mp' /\ length mp' = length mp /\
    forall c, nth_error mp' c = if in_dec Nat.eq_dec c l then Some mask else nth_error mp c.
Proof.
  induction l as [|i l IH]; intros mp H.
  - exists mp. split; [reflexivity|]. split; reflexivity.
  - cbn [foldM]. destruct (upd_some mp i mask) as (m1 & E1); [apply H; left; auto|]. rewrite E1. cbn [obind].
    pose proof (upd_length _ _ _ _ E1) as L1. destruct (IH m1) as (m2 & E2 & L2 & G). { intros c Hc. rewrite L1. apply H; right; auto. }
    exists m2. split; [exact E2|]. split; [lia|]. intros c. rewrite G. destruct (in_dec Nat.eq_dec c l) as [K|K].
    + destruct (in_dec Nat.eq_dec c (i :: l)) as [|Q]; [reflexivity|]. exfalso; apply Q; right; exact K.
    + destruct (Nat.eq_dec c i) as [->|N].
      * rewrite (upd_nth_eq _ _ _ _ E1). destruct (in_dec Nat.eq_dec i (i :: l)) as [|Q]; [reflexivity|]. exfalso; apply Q; left; reflexivity.
      * rewrite (upd_nth_neq _ _ _ _ _ E1 N). destruct (in_dec Nat.eq_dec c (i :: l)) as [[?|?]|Q]; try congruence; try contradiction.
Qed.

Lemma foldM_flat {A B S} (f : S -> B -> option S) (g : A -> list B) l : forall s,
  foldM (fun s a => foldM f s (g a)) s l = foldM f s (flat_map g l).
Proof.
  induction l as [|a l IH]; intros s; [reflexivity|]. cbn [foldM flat_map]. rewrite foldM_app.
  destruct (foldM f s (g a)); cbn [obind]; auto.
Qed.

Lemma initialise_correct n k (mp : list Z) : (0 < k)%nat -> length mp = n -> claim_initialise n k mp = Some (repeat mask n).
Proof.
  intros K L. unfold claim_initialise. rewrite foldM_flat.
  destruct (init_fold (flat_map (fun rank => seq (decomp_start k n rank) (decomp_end k n rank - decomp_start k n rank)) (seq 0 k)) mp) as (r & E & Lr & G).
  { intros c Hc. apply in_flat_map in Hc as (r & Hr & Hc). apply in_seq in Hr. apply in_seq in Hc.
    pose proof (decomp_end_le k n r ltac:(lia) ltac:(lia)). lia. }
  rewrite E. f_equal. apply nth_error_ext. intros c. rewrite G. destruct (in_dec Nat.eq_dec c _) as [I|I].
  - symmetry. apply nth_error_repeat. apply in_flat_map in I as (r' & Hr & Hc). apply in_seq in Hr. apply in_seq in Hc.
    pose proof (decomp_end_le k n r' ltac:(lia) ltac:(lia)). lia.
  - destruct (le_lt_dec n c) as [Q|Q].
    + transitivity (@None Z); [apply nth_error_None; lia|]. symmetry. apply nth_error_None. rewrite repeat_length; lia.
    + exfalso. apply I. destruct (decomp_cover k n c) as (r' & Hr & Hc); [lia|exact Q|]. apply in_flat_map. exists r'. rewrite !in_seq. lia.
Qed.

Lemma reduce_correct n maps : maps <> [] -> Forall (fun mp : list Z => length mp = n) maps ->
  exists r, all_reduce_max maps = Some (repeat r (length maps)) /\ length r = n /\
    forall c, (c < n)%nat -> exists v, nth_error r c = Some v /\ is_max (fun x => exists mp, In mp maps /\ nth_error mp c = Some x) v.
Proof.
  intros N F. destruct maps as [|m0 rest]; [congruence|]. clear N. inversion F as [|? ? L0 Fr]; subst.
  cbn [all_reduce_max].
  assert (G : forall rest a, Forall (fun mp : list Z => length mp = length m0) rest -> length a = length m0 -> exists r,
    foldM (fun a b => _ <- assert (length a =? length b)%nat ;; Some (map (fun p => Z.max (fst p) (snd p)) (combine a b))) a rest = Some r /\
    length r = length m0 /\
    forall c, (c < length m0)%nat -> exists v, nth_error r c = Some v /\ is_max (fun x => exists mp, In mp (a :: rest) /\ nth_error mp c = Some x) v).
  { clear. induction rest as [|b rest IH]; intros a Fr La.
    - exists a. split; [reflexivity|]. split; [exact La|]. intros c Hc. destruct (nth_error_lt_some a c) as (v & Hv); [lia|]. exists v. split; [exact Hv|].
      split; [exists a; split; [left; reflexivity|exact Hv]|]. intros x (mp & [<-|[]] & E). rewrite Hv in E. injection E as ->. lia.
    - inversion Fr as [|? ? Lb Fr']; subst. cbn [foldM]. destruct (Nat.eqb_spec (length a) (length b)); [|lia]. cbn [assert obind].
      set (ab := map (fun p => Z.max (fst p) (snd p)) (combine a b)).
      assert (Lab : length ab = length m0) by (unfold ab; rewrite map_length, combine_length; lia).
      destruct (IH ab Fr' Lab) as (r & E & Lr & M). exists r. split; [exact E|]. split; [exact Lr|]. intros c Hc.
      destruct (M c Hc) as (v & Hv & (mp & I & Hmp) & B). exists v. split; [exact Hv|].
      destruct (nth_error_lt_some a c) as (va & Ha); [lia|]. destruct (nth_error_lt_some b c) as (vb & Hb); [lia|].
      assert (Hab : nth_error ab c = Some (Z.max va vb)).
      { unfold ab. rewrite nth_error_map. replace (nth_error (combine a b) c) with (Some (va, vb)); [reflexivity|].
        clear -Ha Hb. revert b c Ha Hb. induction a as [|x a IH]; intros [|y b] [|c] Ha Hb; cbn in *; try discriminate; [congruence|apply IH; auto]. }
      split.
      + destruct I as [<-|I]; [|exists mp; split; [right; right; exact I|exact Hmp]].
        rewrite Hab in Hmp. injection Hmp as <-. destruct (Z.max_spec va vb) as [(_ & K)|(_ & K)]; rewrite K; [exists b|exists a]; cbn [In]; auto.
      + pose proof (B _ (ex_intro _ ab (conj (or_introl eq_refl) Hab))) as B0.
        intros x (mp' & [<-|[<-|I']] & E'); [rewrite Ha in E'; injection E' as <-; lia|rewrite Hb in E'; injection E' as <-; lia|].
        apply B. exists mp'. split; [right; exact I'|exact E']. }
  destruct (G rest m0 Fr eq_refl) as (r & E & Lr & M). exists r. rewrite E. cbn [obind]. split; [|split; [exact Lr|exact M]].
  f_equal. clear. cbn [map repeat length]. f_equal. induction rest; cbn [map repeat length]; congruence.
Qed.

Section Claims_proofs.
  Context (n : nat) (nodes : list (list nat)) (claims : nat -> list (nat * Z)).
  Context (sched1 sched2 : nat -> list (nat * Z) -> list (nat * Z)) (maps0 : list (list Z)).

  Definition valid_claims : Prop := forall r, In r (concat nodes) -> forall c w, In (c, w) (claims r) -> (c < n)%nat /\ 0 < w < 2 ^ 31 - 1.

  Lemma rank_claims_correct r : valid_claims -> In r (concat nodes) ->
    rank_claims claims r = Some (map (fun e => (fst e, snd e + mask)) (claims r)).
  Proof.
    intros V I. unfold rank_claims. apply mapM_some. intros [c w] Hc. destruct (V r I c w Hc) as (_ & W).
    cbn [fst snd]. unfold claim_weight, mask in *. destruct (Z.eqb_spec w (- 2 ^ 31)); [lia|]. destruct (Z.ltb_spec 0 w); [|lia].
    destruct (Z.ltb_spec w (-1 * (- 2 ^ 31 + 1))); [|lia]. reflexivity.
  Qed.

  Lemma in_node k ranks r : nth_error nodes k = Some ranks -> In r ranks -> In r (concat nodes).
  Proof. intros E I. apply in_concat. exists ranks. split; [eapply nth_error_In; eauto|exact I]. Qed.

  Lemma binned_correct mp r : length mp = n -> valid_claims -> In r (concat nodes) ->
    exists b, binned mp r (map (fun e => (fst e, snd e + mask)) (claims r)) = Some b /\
      forall c x, In (c, x) b <-> x = Z.of_nat r /\ exists w v, In (c, w) (claims r) /\ nth_error mp c = Some v /\ v <= w + mask.
  Proof.
    intros L V I. unfold binned. rewrite mapM_map.
    rewrite (mapM_some _ (fun e => (nth (fst e) mp 0 <=? snd e + mask, (fst e, snd e + mask)))).
    2: { intros [c w] Hc. destruct (V r I c w Hc) as (Hn & _). cbn [fst snd]. destruct (nth_error_lt_some mp c) as (v & Hv); [lia|]. unfold rd. rewrite Hv. cbn [obind].
         rewrite (nth_error_nth _ _ 0 Hv). reflexivity. }
    cbn [obind]. eexists. split; [reflexivity|]. intros c x. rewrite in_map_iff. split.
    - intros ([q [c' w']] & E & H). cbn [fst snd] in E. injection E as -> <-. apply filter_In in H as (H & Q). cbn [fst] in Q. subst q.
      apply in_map_iff in H as ([c1 w1] & E & H). cbn [fst snd] in E. injection E as E1 -> <-. split; [reflexivity|].
      destruct (V r I c w1 H) as (Hn & _). destruct (nth_error_lt_some mp c) as (v & Hv); [lia|]. exists w1, v. split; [exact H|]. split; [exact Hv|].
      rewrite (nth_error_nth _ _ 0 Hv) in E1. apply Z.leb_le, E1.
    - intros (-> & w & v & H & Hv & Le). exists (true, (c, w + mask)). split; [reflexivity|]. apply filter_In. split; [|reflexivity].
      apply in_map_iff. exists (c, w). cbn [fst snd]. split; [|exact H]. rewrite (nth_error_nth _ _ 0 Hv). f_equal. apply Z.leb_le, Le.
  Qed.

  Hypothesis S1 : forall k l, Permutation (sched1 k l) l.
  Hypothesis S2 : forall k l, Permutation (sched2 k l) l.
  Hypothesis Hnodes : nodes <> [].
  Hypothesis Hranks : Forall (fun ranks => ranks <> []) nodes.
  Hypothesis Lmaps : length maps0 = length nodes.
  Hypothesis Fmaps : Forall (fun mp => length mp = n) maps0.
  Hypothesis V : valid_claims.

  Notation N := (length nodes).

  Lemma node_claim c r w : claimed (concat nodes) claims c r w <-> exists k ranks, nth_error nodes k = Some ranks /\ In r ranks /\ In (c, w) (claims r).
  Proof.
    unfold claimed. rewrite in_concat. split.
    - intros ((ranks & H & I) & C). apply In_nth_error in H as (k & Hk). eauto.
    - intros (k & ranks & Hk & I & C). split; [|exact C]. exists ranks. split; [eapply nth_error_In; eauto|exact I].
  Qed.

  Lemma maps1_correct :
    mapM (fun k => ranks <- rd nodes k ;; m <- rd maps0 k ;; claim_initialise n (length ranks) m) (seq 0 N) = Some (repeat (repeat mask n) N).
  Proof.
    rewrite (mapM_some _ (fun _ => repeat mask n)).
    - f_equal. assert (G : forall (l : list nat), map (fun _ => repeat mask n) l = repeat (repeat mask n) (length l)) by (induction l; cbn [map length repeat]; congruence).
      rewrite G, seq_length. reflexivity.
    - intros k Hk. apply in_seq in Hk. destruct (nth_error_lt_some nodes k) as (ranks & Hr); [lia|]. destruct (nth_error_lt_some maps0 k) as (mp & Hm); [lia|].
      unfold rd. rewrite Hr, Hm. cbn [obind]. rewrite Forall_forall in Hranks, Fmaps. apply initialise_correct.
      + specialize (Hranks ranks (nth_error_In _ _ Hr)). destruct ranks; [congruence|cbn; lia].
      + apply Fmaps. eapply nth_error_In; eauto.
  Qed.

  Lemma phase1 : exists maps2,
    mapM (fun k => ranks <- rd nodes k ;; m <- rd (repeat (repeat mask n) N) k ;;
               cs <- mapM (rank_claims claims) ranks ;; foldM acc_max m (sched1 k (concat cs))) (seq 0 N) = Some maps2 /\ length maps2 = N /\
    forall k mp, nth_error maps2 k = Some mp -> (k < N)%nat /\ length mp = n /\
      forall c, (c < n)%nat -> exists v, nth_error mp c = Some v /\
        is_max (fun x => x = mask \/ exists ranks r w, nth_error nodes k = Some ranks /\ In r ranks /\ In (c, w) (claims r) /\ x = w + mask) v.
  Proof.
    apply mapM_seq_ex. intros k Hk. destruct (nth_error_lt_some nodes k) as (ranks & Hr); [lia|]. unfold rd. rewrite Hr. cbn [obind].
    rewrite nth_error_repeat by lia. cbn [obind].
    rewrite (mapM_some _ (fun r => map (fun e => (fst e, snd e + mask)) (claims r))).
    2: { intros r I. apply rank_claims_correct; [exact V|eapply in_node; eauto]. }
    cbn [obind]. set (l := concat _).
    assert (Il : forall c x, In (c, x) (sched1 k l) <-> exists r w, In r ranks /\ In (c, w) (claims r) /\ x = w + mask).
    { intros c x. split.
      - intros H. apply (Permutation_in _ (S1 k l)) in H. unfold l in H. apply in_concat in H as (b & Hb & H). apply in_map_iff in Hb as (r & <- & I).
        apply in_map_iff in H as ([c' w] & E & H). cbn [fst snd] in E. injection E as -> <-. eauto.
      - intros (r & w & I & H & ->). apply (Permutation_in _ (Permutation_sym (S1 k l))). apply in_concat. eexists. split; [apply in_map_iff; exists r; split; [reflexivity|exact I]|].
        apply in_map_iff. exists (c, w). split; [reflexivity|exact H]. }
    destruct (acc_fold (sched1 k l) (repeat mask n)) as (mp & E & L & G).
    { intros [c x] H. apply Il in H as (r & w & I & H & _). rewrite repeat_length. cbn [fst]. apply (V r (in_node _ _ _ Hr I) c w H). }
    exists mp. split; [exact E|]. rewrite repeat_length in L. split; [exact L|]. intros c Hc. destruct (G c mask) as (v & Hv & M); [apply nth_error_repeat, Hc|].
    exists v. split; [exact Hv|]. eapply is_max_ext; [|exact M]. intros x. cbn beta. rewrite Il. split.
    - intros [?|(r & w & I & H & ->)]; [auto|right; exists ranks, r, w; auto].
    - intros [?|(ranks' & r & w & E' & I & H & ->)]; [auto|right]. try rewrite Hr in E'. injection E' as <-. eauto.
  Qed.

  Lemma phase2 mp3 : length mp3 = n -> exists maps4,
    mapM (fun k => ranks <- rd nodes k ;; m <- rd (repeat mp3 N) k ;;
               bs <- mapM (fun r => cs <- rank_claims claims r ;; binned m r cs) ranks ;;
               foldM acc_max m (sched2 k (concat bs))) (seq 0 N) = Some maps4 /\ length maps4 = N /\
    forall k mp, nth_error maps4 k = Some mp -> (k < N)%nat /\ length mp = n /\
      forall c v0, nth_error mp3 c = Some v0 -> exists v, nth_error mp c = Some v /\
        is_max (fun x => x = v0 \/ exists ranks r w, nth_error nodes k = Some ranks /\ In r ranks /\ In (c, w) (claims r) /\ v0 <= w + mask /\ x = Z.of_nat r) v.
  Proof.
    intros L3. apply mapM_seq_ex. intros k Hk. destruct (nth_error_lt_some nodes k) as (ranks & Hr); [lia|]. unfold rd. rewrite Hr. cbn [obind].
    rewrite nth_error_repeat by lia. cbn [obind].
    assert (T : exists bs, mapM (fun r => cs <- rank_claims claims r ;; binned mp3 r cs) ranks = Some bs /\
       forall c x, In (c, x) (concat bs) <-> exists r w v, In r ranks /\ In (c, w) (claims r) /\ nth_error mp3 c = Some v /\ v <= w + mask /\ x = Z.of_nat r).
    { assert (Ir : forall r, In r ranks -> In r (concat nodes)) by (intros r; apply (in_node k); exact Hr). clear Hr.
      induction ranks as [|r rs IH]; [exists []; split; [reflexivity|]; intros c x; split; [intros []|intros (r & ? & ? & [] & _)]|].
      destruct IH as (bs & E & G); [intros r' ?; apply Ir; right; auto|]. cbn [mapM]. rewrite rank_claims_correct by (try exact V; apply Ir; left; auto). cbn [obind].
      destruct (binned_correct mp3 r L3 V (Ir r (or_introl eq_refl))) as (b & Eb & Gb). rewrite Eb. cbn [obind]. rewrite E. cbn [obind]. exists (b :: bs). split; [reflexivity|].
      intros c x. cbn [concat]. rewrite in_app_iff, Gb, G. split.
      - intros [(-> & w & v & ? & ? & ?)|(r' & w & v & ? & ?)]; [exists r, w, v|exists r', w, v]; cbn [In]; auto.
      - intros (r' & w & v & [<-|I] & ? & ? & ? & ->); [left; eauto 10|right; exists r', w, v; auto]. }
    destruct T as (bs & Eb & Gb). rewrite Eb. cbn [obind]. set (l := concat bs) in *.
    destruct (acc_fold (sched2 k l) mp3) as (mp & E & L & G).
    { intros [c x] H. apply (Permutation_in _ (S2 k l)) in H. apply Gb in H as (r & w & v & I & H & Hv & _). cbn [fst]. eapply nth_error_some_lt; eauto. }
    exists mp. split; [exact E|]. split; [lia|]. intros c v0 Hv0. destruct (G c v0 Hv0) as (v & Hv & M). exists v. split; [exact Hv|].
    eapply is_max_ext; [|exact M]. intros x. cbn beta. split.
    - intros [?|H]; [auto|right]. apply (Permutation_in _ (S2 k l)) in H. apply Gb in H as (r & w & v1 & I & H & Hv1 & Le & ->). rewrite Hv0 in Hv1. injection Hv1 as <-. exists ranks, r, w. auto.
    - intros [?|(ranks' & r & w & E' & I & H & Le & ->)]; [auto|right]. try rewrite Hr in E'. injection E' as <-. apply (Permutation_in _ (Permutation_sym (S2 k l))). apply Gb. exists r, w, v0. auto.
  Qed.

  Lemma epoch_correct : exists map_, claim_epoch n nodes claims sched1 sched2 maps0 = Some (repeat map_ N) /\ length map_ = n /\
    forall c, (c < n)%nat ->
      (exists r, owner_of (concat nodes) claims c r /\ nth_error map_ c = Some (Z.of_nat r)) \/
      (unclaimed (concat nodes) claims c /\ nth_error map_ c = Some mask).
  Proof.
    assert (N0 : (0 < N)%nat) by (destruct nodes; [congruence|cbn; lia]).
    unfold claim_epoch. rewrite maps1_correct. cbn [obind].
    destruct phase1 as (maps2 & E2 & L2 & G2). rewrite E2. cbn [obind].
    destruct (reduce_correct n maps2) as (mp3 & E3 & L3 & G3).
    { intros ->; cbn in L2; lia. }
    { apply Forall_forall. intros mp I. apply In_nth_error in I as (k & Hk). apply (G2 k mp Hk). }
    rewrite E3, L2. cbn [obind].
    destruct (phase2 mp3 L3) as (maps4 & E4 & L4 & G4). rewrite E4. cbn [obind].
    destruct (reduce_correct n maps4) as (mp5 & E5 & L5 & G5).
    { intros ->; cbn in L4; lia. }
    { apply Forall_forall. intros mp I. apply In_nth_error in I as (k & Hk). apply (G4 k mp Hk). }
    rewrite E5, L4. exists mp5. split; [reflexivity|]. split; [exact L5|]. intros c Hc.
    destruct (G3 c Hc) as (v3 & Hv3 & M3).
    assert (M3' : is_max (fun x => x = mask \/ exists r w, claimed (concat nodes) claims c r w /\ x = w + mask) v3).
    { destruct M3 as ((mp & I & Hmp) & B3). split.
      - apply In_nth_error in I as (k & Hk). destruct (G2 k mp Hk) as (_ & _ & G). destruct (G c Hc) as (v & Hv & A & _). rewrite Hmp in Hv. injection Hv as <-.
        destruct A as [?|(ranks & r & w & Hr & I & H & ->)]; [auto|right]. exists r, w. split; [apply node_claim; eauto|reflexivity].
      - assert (Bk : forall k, (k < N)%nat -> exists v, v <= v3 /\ is_max (fun x => x = mask \/ exists ranks r w, nth_error nodes k = Some ranks /\ In r ranks /\ In (c, w) (claims r) /\ x = w + mask) v).
        { intros k Hk. destruct (nth_error_lt_some maps2 k) as (mk & Hmk); [lia|]. destruct (G2 k mk Hmk) as (_ & _ & G). destruct (G c Hc) as (v & Hv & A). exists v. split; [|exact A].
          apply B3. exists mk. split; [eapply nth_error_In; eauto|exact Hv]. }
        intros x [->|(r & w & C & ->)].
        + destruct (Bk 0%nat N0) as (v & Lv & _ & B). specialize (B mask (or_introl eq_refl)). lia.
        + apply node_claim in C as (k & ranks & Hr & I' & H). destruct (Bk k (nth_error_some_lt _ _ _ Hr)) as (v & Lv & _ & B).
          specialize (B (w + mask)). assert (w + mask <= v) by (apply B; right; exists ranks, r, w; auto). lia. }
    destruct (G5 c Hc) as (v5 & Hv5 & M5).
    assert (M5' : is_max (fun x => x = v3 \/ exists r w, claimed (concat nodes) claims c r w /\ v3 <= w + mask /\ x = Z.of_nat r) v5).
    { destruct M5 as ((mp & I & Hmp) & B5). split.
      - apply In_nth_error in I as (k & Hk). destruct (G4 k mp Hk) as (_ & _ & G). destruct (G c v3 Hv3) as (v & Hv & A & _). rewrite Hmp in Hv. injection Hv as <-.
        destruct A as [?|(ranks & r & w & Hr & I & H & Le & ->)]; [auto|right]. exists r, w. split; [apply node_claim; eauto|auto].
      - assert (Bk : forall k, (k < N)%nat -> exists v, v <= v5 /\ is_max (fun x => x = v3 \/ exists ranks r w, nth_error nodes k = Some ranks /\ In r ranks /\ In (c, w) (claims r) /\ v3 <= w + mask /\ x = Z.of_nat r) v).
        { intros k Hk. destruct (nth_error_lt_some maps4 k) as (mk & Hmk); [lia|]. destruct (G4 k mk Hmk) as (_ & _ & G). destruct (G c v3 Hv3) as (v & Hv & A). exists v. split; [|exact A].
          apply B5. exists mk. split; [eapply nth_error_In; eauto|exact Hv]. }
        intros x [->|(r & w & C & Le & ->)].
        + destruct (Bk 0%nat N0) as (v & Lv & _ & B). specialize (B v3 (or_introl eq_refl)). lia.
        + apply node_claim in C as (k & ranks & Hr & I' & H). destruct (Bk k (nth_error_some_lt _ _ _ Hr)) as (v & Lv & _ & B).
          assert (Z.of_nat r <= v) by (apply B; right; exists ranks, r, w; auto). lia. }
    destruct M3' as (A3 & B3). destruct M5' as (A5 & B5).
    assert (Wr : forall r w, claimed (concat nodes) claims c r w -> 0 < w < 2 ^ 31 - 1) by (intros r w (I & H); apply (V r I c w H)).
    destruct A3 as [A3|(r0 & w0 & C0 & A3)].
    - right. assert (U : unclaimed (concat nodes) claims c).
      { intros r w C. specialize (B3 (w + mask)). assert (w + mask <= v3) by (apply B3; right; eauto). specialize (Wr r w C). lia. }
      split; [exact U|]. rewrite Hv5. f_equal. destruct A5 as [->|(r & w & C & _)]; [exact A3|exfalso; apply (U r w C)].
    - left. assert (M : forall r w, claimed (concat nodes) claims c r w -> w <= w0).
      { intros r w C. assert (w + mask <= v3) by (apply B3; right; eauto). lia. }
      assert (P5 : 0 <= v5). { assert (Z.of_nat r0 <= v5) by (apply B5; right; exists r0, w0; split; [exact C0|]; split; [lia|reflexivity]). lia. }
      destruct A5 as [A5|(r & w & C & Le & A5)].
      + exfalso. specialize (Wr _ _ C0). unfold mask in *. lia.
      + exists r. split; [|rewrite Hv5, A5; reflexivity]. assert (w = w0) by (specialize (M _ _ C); lia). subst w. exists w0. split; [exact C|]. split; [exact M|].
        intros r' C'. assert (Z.of_nat r' <= v5) by (apply B5; right; exists r', w0; split; [exact C'|]; split; [lia|reflexivity]). lia.
  Qed.
End Claims_proofs.

(** An invalid weight is reported. *)
Lemma epoch_invalid n nodes claims sched1 sched2 maps0 r c w : In r (concat nodes) -> In (c, w) (claims r) -> ~ 0 < w < 2 ^ 31 - 1 ->
  claim_epoch n nodes claims sched1 sched2 maps0 = None.
Proof.
  intros I H W. unfold claim_epoch. destruct (mapM _ (seq 0 (length nodes))) as [maps1|]; [|reflexivity]. cbn [obind].
  assert (R : rank_claims claims r = None).
  { unfold rank_claims. induction (claims r) as [|e l IH]; [destruct H|]. cbn [mapM]. destruct H as [->|H].
    - cbn [fst snd]. unfold claim_weight. replace (negb (w =? mask) && (0 <? w) && (w <? -1 * (mask + 1))) with false; [reflexivity|].
      unfold mask. symmetry. destruct (Z.eqb_spec w (- 2 ^ 31)), (Z.ltb_spec 0 w), (Z.ltb_spec w (-1 * (- 2 ^ 31 + 1))); cbn [negb andb]; try reflexivity. exfalso; apply W; lia.
    - destruct (claim_weight (snd e)); cbn [obind]; [rewrite (IH H); reflexivity|reflexivity]. }
  apply in_concat in I as (ranks & Hr & I). apply In_nth_error in Hr as (k & Hk).
  match goal with |- context [mapM ?g (seq 0 ?N)] => destruct (mapM g (seq 0 N)) as [maps2|] eqn:E end; [|reflexivity]. exfalso.
  destruct (mapM_in _ _ _ k E) as (b & Hb & _). { apply in_seq. pose proof (nth_error_some_lt _ _ _ Hk). lia. }
  unfold rd in Hb at 1. rewrite Hk in Hb. cbn [obind] in Hb. destruct (rd maps1 k); [|discriminate]. cbn [obind] in Hb.
  destruct (mapM (rank_claims claims) ranks) as [cs|] eqn:Ec; [|discriminate]. destruct (mapM_in _ _ _ r Ec I) as (x & Hx & _). congruence.
Qed.
