(** Lemmas about piecewise constant functions. *)
From Coq Require Import List Arith ZArith QArith Bool Lia Lqa Permutation.
Import ListNotations.
From Verif Require Import Base Kernel DeviceFn_Model DG0_Model DG0_Spec.
Local Open Scope nat_scope.

Lemma rdn {A} (l : list A) i d : i < length l -> rd l i = Some (nth i l d).
Proof. intros H. unfold rd. apply nth_error_nth'. exact H. Qed.
Lemma updn (l : list Q) i v : i < length l -> exists l', upd l i v = Some l' /\ length l' = length l /\ forall j, nth j l' 0%Q = if j =? i then v else nth j l 0%Q.
Proof.
  intros H. destruct (upd_some l i v H) as (l' & E). exists l'. split; [exact E|]. split; [exact (upd_length _ _ _ _ E)|]. intros j. destruct (Nat.eqb_spec j i) as [e|D].
  - rewrite e. apply nth_error_nth. exact (upd_nth_eq _ _ _ _ E).
  - pose proof (upd_nth_neq _ _ _ _ j E D) as N. destruct (nth_error l j) eqn:Ej; [rewrite (nth_error_nth _ _ _ N), (nth_error_nth _ _ _ Ej); reflexivity|]. rewrite !nth_overflow; [reflexivity|apply nth_error_None; exact Ej|apply nth_error_None; exact N].
Qed.
Lemma mapM_map {A B} (f : A -> option B) g l : (forall a, In a l -> f a = Some (g a)) -> mapM f l = Some (map g l).
Proof. induction l as [|a l IH]; intros H; cbn [mapM map]; [reflexivity|]. rewrite H by (left; reflexivity). cbn [obind]. rewrite IH by (intros; apply H; right; assumption). reflexivity. Qed.
Lemma div_eq c p i x n : i < n -> x < n -> c * n + i = p * n + x -> c = p /\ i = x.
Proof. intros H1 H2 E. assert (c = p) by nia. subst. split; [reflexivity|lia]. Qed.
Lemma off_le c n r M : c < M -> n <= r -> c * r + n <= M * r.
Proof. nia. Qed.
Lemma off_lt c i r M : c < M -> i < r -> c * r + i < M * r.
Proof. nia. Qed.
Lemma off_same p c i n r : p * r <= c * r + i -> c * r + i < p * r + n -> n <= r -> i < r -> p = c /\ i < n.
Proof. intros. assert (p = c) by nia. subst. split; [reflexivity|lia]. Qed.
Lemma qsum_app a b : (qsum (a ++ b) == qsum a + qsum b)%Q.
Proof. induction a as [|x a IH]; cbn [app qsum fold_right]; [unfold qsum; cbn; ring|]. fold (qsum (a ++ b)). fold (qsum a). rewrite IH. ring. Qed.
Lemma qsum_perm l l' : Permutation l l' -> (qsum l == qsum l')%Q.
Proof.
  induction 1; cbn [qsum fold_right]; [reflexivity| | |etransitivity; eassumption].
  - fold (qsum l). fold (qsum l'). rewrite IHPermutation. reflexivity.
  - fold (qsum l). ring.
Qed.
Lemma filter_perm {A} (f : A -> bool) l l' : Permutation l l' -> Permutation (filter f l) (filter f l').
Proof.
  induction 1; cbn [filter]; [constructor| | |eapply Permutation_trans; eassumption].
  - destruct (f x); [constructor; assumption|assumption].
  - destruct (f x); destruct (f y); try apply Permutation_refl. constructor.
Qed.
Lemma concat_nth (g : nat -> list Q) n N : (forall c, c < N -> length (g c) = n) -> length (concat (map g (seq 0 N))) = N * n /\ forall c i, c < N -> i < n -> nth (c * n + i) (concat (map g (seq 0 N))) 0%Q = nth i (g c) 0%Q.
Proof.
  induction N as [|N IH]; intros H; [split; [reflexivity|intros; lia]|]. rewrite seq_S, map_app, concat_app. cbn [map concat Nat.add]. rewrite app_nil_r. destruct IH as (L & V); [intros; apply H; lia|]. split; [rewrite app_length, L, H by lia; lia|].
  intros c i Hc Hi. destruct (Nat.eq_dec c N) as [->|D].
  - rewrite app_nth2 by lia. rewrite L. f_equal. lia.
  - rewrite app_nth1; [apply V; lia|]. rewrite L. nia.
Qed.

Section Run.
  Variables (volumes : list Q) (points : option (list (nat * Z))).
  Hypothesis Hset : setting_ok volumes points.
  Let N := length volumes.
  Let inv : list Q := map (fun v => 1 / v)%Q volumes.

  Definition rep (s : dg) (f : fns) : Prop :=
    d_inverse s = inv /\ d_points s = points /\ d_nrow s = max 1 (known f) /\ length (d_data s) = N * d_nrow s /\
    (forall c i, c < N -> i < known f -> (nth (c * d_nrow s + i) (d_data s) 0 == val f c i)%Q) /\
    (forall n v, at_points f n = Some v -> exists v', find (fun e => fst e =? n) (d_contrib s) = Some (n, v') /\ same v' v /\ (forall pts, points = Some pts -> length v = length pts) /\ Forall (fun row => length row = n) v).
  Lemma inv_length : length inv = N.
  Proof. unfold inv. apply map_length. Qed.
  Lemma cells_eq s f : rep s f -> ncells s = N.
  Proof. intros (E & _). unfold ncells. rewrite E. apply inv_length. Qed.
  Lemma inv_nth c : c < N -> (nth c inv 0 == 1 / nth c volumes 0)%Q.
  Proof. intros H. unfold inv. rewrite nth_indep with (d' := (1 / 0)%Q) by (rewrite map_length; exact H). rewrite map_nth with (f := fun v => (1 / v)%Q). reflexivity. Qed.

  Lemma construct_ok j : exists s, construct j volumes points = Some s /\ rep s no_fns.
  Proof.
    unfold construct. rewrite (mapM_map _ (fun v => 1 / v)%Q).
    - cbn [obind]. eexists. split; [reflexivity|]. unfold rep. cbn [d_inverse d_points d_nrow d_data d_contrib no_fns known at_points]. repeat split; try reflexivity; [rewrite map_length, seq_length; fold N; lia|intros; lia|discriminate].
    - intros v I. destruct Hset as (P & _). rewrite Forall_forall in P. specialize (P v I). unfold rdiv. destruct (Qeq_bool v 0) eqn:E; [apply Qeq_bool_iff in E; lra|reflexivity].
  Qed.

  Lemma check_ok j s f n : rep s f -> 1 <= n -> exists s1, check_ncomp j s n = s1 /\ d_inverse s1 = inv /\ d_points s1 = points /\ d_nrow s1 = max 1 (max (known f) n) /\ n <= d_nrow s1 /\ length (d_data s1) = N * d_nrow s1 /\ d_contrib s1 = d_contrib s /\
    (known f <> 0 -> n <= known f -> s1 = s) /\ (n <= known f \/ known f < n).
  Proof.
    intros R Hn. pose proof (cells_eq s f R) as Ec. destruct R as (R1 & R2 & R3 & R4 & R5 & R6). unfold check_ncomp. destruct (Nat.ltb_spec (d_nrow s) n) as [L|L]; eexists; (split; [reflexivity|]); cbn [with_data d_inverse d_points d_nrow d_data d_contrib].
    - rewrite Ec, map_length, seq_length. repeat split; auto; try lia.
    - repeat split; auto; try lia.
  Qed.

  (** *** Projection *)
  Lemma add_row vals iv off n data : n <= length vals -> off + n <= length data ->
    exists data', foldM (fun data cx => v <- rd vals cx ;; old <- rd data (off + cx) ;; upd data (off + cx) (old + v * iv)%Q) data (seq 0 n) = Some data' /\ length data' = length data /\
      forall k, nth k data' 0%Q = if (off <=? k) && (k <? off + n) then (nth k data 0 + nth (k - off) vals 0 * iv)%Q else nth k data 0%Q.
  Proof.
    induction n as [|n IH]; intros H1 H2.
    - exists data. split; [reflexivity|]. split; [reflexivity|]. intros k. destruct (Nat.leb_spec off k); destruct (Nat.ltb_spec k (off + 0)); cbn [andb]; try reflexivity. lia.
    - destruct IH as (d1 & E1 & L1 & V1); [lia|lia|]. rewrite seq_S, foldM_app, E1. cbn [obind Nat.add foldM]. rewrite (rdn vals n 0%Q) by lia. rewrite (rdn d1 (off + n) 0%Q) by lia. cbn [obind]. destruct (updn d1 (off + n) (nth (off + n) d1 0 + nth n vals 0 * iv)%Q) as (d2 & E2 & L2 & V2); [lia|]. rewrite E2. cbn [obind]. exists d2. split; [reflexivity|]. split; [lia|]. intros k. rewrite V2, !V1. destruct (Nat.eqb_spec k (off + n)) as [->|D].
      + destruct (Nat.leb_spec off (off + n)); [|lia]. destruct (Nat.ltb_spec (off + n) (off + n)); [lia|]. destruct (Nat.ltb_spec (off + n) (off + S n)); [|lia]. cbn [andb]. replace (off + n - off) with n by lia. reflexivity.
      + destruct (Nat.leb_spec off k); cbn [andb]; [|reflexivity]. destruct (Nat.ltb_spec k (off + n)); destruct (Nat.ltb_spec k (off + S n)); try lia; reflexivity.
  Qed.
  Definition part (ps : list (nat * list Q)) (c i : nat) : Q := qsum (map (fun p => nth i (snd p) 0%Q) (filter (fun p => fst p =? c) ps)).
  Lemma part_snoc ps p c i : (part (ps ++ [p]) c i == part ps c i + (if (fst p =? c)%nat then nth i (snd p) 0 else 0))%Q.
  Proof. unfold part. rewrite filter_app, map_app, qsum_app. cbn [filter]. destruct (fst p =? c); unfold qsum; cbn; ring. Qed.
  Lemma sums_ok d n nrow ps : device_ok d -> n <= nrow -> Forall (fun p => fst p < N /\ length (snd p) = n) ps ->
    exists data, foldM (fun data p => iv <- rd inv (fst p) ;; foldM (fun data cx => v <- rd (snd p) cx ;; old <- rd data (fst p * nrow + cx) ;; upd data (fst p * nrow + cx) (old + v * iv)%Q) data (seq 0 n)) (repeat 0%Q (N * nrow)) (ord d 0 ps) = Some data /\ length data = N * nrow /\
      forall c i, c < N -> i < nrow -> (nth (c * nrow + i) data 0 == if (i <? n)%nat then density volumes ps c i else 0)%Q.
  Proof.
    intros Hd Hn Hp. rewrite Forall_forall in Hp.
    destruct (foldM_ind (fun data p => iv <- rd inv (fst p) ;; foldM (fun data cx => v <- rd (snd p) cx ;; old <- rd data (fst p * nrow + cx) ;; upd data (fst p * nrow + cx) (old + v * iv)%Q) data (seq 0 n))
      (fun pre data => length data = N * nrow /\ forall c i, c < N -> i < nrow -> (nth (c * nrow + i) data 0 == if (i <? n)%nat then part pre c i * nth c inv 0 else 0)%Q) (ord d 0 ps) (repeat 0%Q (N * nrow))) as (data & E & L & V).
    - split; [apply repeat_length|]. intros c i Hc Hi. rewrite (nth_error_nth _ _ _ (nth_error_repeat 0%Q (m := N * nrow) (n := c * nrow + i) (off_lt c i nrow N Hc Hi))). destruct (i <? n); [unfold part, qsum; cbn; ring|reflexivity].
    - intros pre p post data Es (L & V). assert (Ip : In p ps) by (apply (in_ord d 0 ps p Hd); rewrite Es; apply in_app_iff; right; left; reflexivity). destruct (Hp p Ip) as (Hc & Lv). rewrite (rdn inv (fst p) 0%Q) by (rewrite inv_length; exact Hc). cbn [obind].
      destruct (add_row (snd p) (nth (fst p) inv 0%Q) (fst p * nrow) n data) as (data' & E' & L' & V'); [lia|rewrite L; apply off_le; [assumption|lia]|]. exists data'. split; [exact E'|]. split; [lia|]. intros c i Hc' Hi. rewrite V'. pose proof (V c i Hc' Hi) as Vc.
      destruct (Nat.eq_dec (fst p) c) as [Ec|Ec].
      + subst c. destruct (Nat.leb_spec (fst p * nrow) (fst p * nrow + i)); [|lia]. replace (fst p * nrow + i - fst p * nrow) with i by lia. destruct (Nat.ltb_spec i n) as [X|X]; destruct (Nat.ltb_spec (fst p * nrow + i) (fst p * nrow + n)); try lia; cbn [andb]; [|exact Vc]. rewrite Vc, part_snoc, Nat.eqb_refl. ring.
      + destruct (Nat.leb_spec (fst p * nrow) (c * nrow + i)); cbn [andb]; [destruct (Nat.ltb_spec (c * nrow + i) (fst p * nrow + n))|].
        * exfalso. apply Ec. apply (off_same (fst p) c i n nrow); assumption.
        * rewrite Vc. destruct (i <? n); [|reflexivity]. rewrite part_snoc. destruct (Nat.eqb_spec (fst p) c); [contradiction|]. ring.
        * rewrite Vc. destruct (i <? n); [|reflexivity]. rewrite part_snoc. destruct (Nat.eqb_spec (fst p) c); [contradiction|]. ring.
    - exists data. split; [exact E|]. split; [exact L|]. intros c i Hc Hi. rewrite V by assumption. destruct (i <? n); [|reflexivity]. unfold density. fold (part ps c i). rewrite inv_nth by exact Hc. assert (Pm : (part (ord d 0 ps) c i == part ps c i)%Q) by (apply qsum_perm, Permutation_map, filter_perm, (proj1 Hd)). rewrite Pm. unfold Qdiv. ring.
  Qed.

  Lemma map_same {A} (g h : A -> Q) l : (forall a, In a l -> (g a == h a)%Q) -> Forall2 Qeq (map g l) (map h l).
  Proof. induction l as [|a l IH]; intros H; cbn [map]; constructor; [apply H; left; reflexivity|apply IH; intros; apply H; right; assumption]. Qed.
  Lemma maps_same {A} (g h : A -> list Q) l : (forall a, In a l -> Forall2 Qeq (g a) (h a)) -> same (map g l) (map h l).
  Proof. unfold same. induction l as [|a l IH]; intros H; cbn [map]; constructor; [apply H; left; reflexivity|apply IH; intros; apply H; right; assumption]. Qed.
  Lemma read_rows s n cells : n <= d_nrow s -> length (d_data s) = N * d_nrow s -> (forall c, In c cells -> c < N) ->
    mapM (fun c => mapM (fun cx => rd (d_data s) (c * d_nrow s + cx)) (seq 0 n)) cells = Some (map (fun c => map (fun cx => nth (c * d_nrow s + cx) (d_data s) 0%Q) (seq 0 n)) cells).
  Proof. intros Hn L H. apply mapM_map. intros c I. apply mapM_map. intros cx Ix. apply in_seq in Ix. apply rdn. rewrite L. apply off_lt; [exact (H c I)|lia]. Qed.

  Lemma project_ok d j s f n ps : rep s f -> allowed volumes points f (Project d j n ps) -> exists s', project d j s n ps = Some s' /\ rep s' (after_project volumes points f n ps).
  Proof.
    intros R (Hd & Hn & Hp). destruct (check_ok j s f n R Hn) as (s1 & E1 & C1 & C2 & C3 & C4 & C5 & C6 & _). unfold project. rewrite E1. assert (Ec : ncells s1 = N) by (unfold ncells; rewrite C1; apply inv_length). rewrite Ec, C1. destruct (sums_ok d n (d_nrow s1) ps Hd C4 Hp) as (data & Ed & Ld & Vd). rewrite Ed. cbn [obind]. cbn [with_data d_points d_data d_nrow]. rewrite C2.
    destruct R as (_ & _ & _ & _ & _ & R6).
    assert (V : forall c i, c < N -> i < max (known f) n -> (nth (c * d_nrow s1 + i) data 0 == if (i <? n)%nat then density volumes ps c i else 0)%Q) by (intros c i Hc Hi; apply Vd; [exact Hc|rewrite C3; lia]).
    destruct points as [pts|] eqn:Ep.
    - destruct Hset as (_ & Hpts & _). rewrite Forall_forall in Hpts.
      rewrite (mapM_map _ (fun p => map (fun cx => nth (fst p * d_nrow s1 + cx) data 0%Q) (seq 0 n))).
      + cbn [obind]. eexists. split; [reflexivity|]. unfold rep, after_project. rewrite Ep. cbn [set_contrib with_data d_inverse d_points d_nrow d_data d_contrib known val at_points]. repeat split; auto.
        intros k v Ev. unfold set_at in Ev. cbn [find fst]. destruct (Nat.eqb_spec k n) as [->|D].
        * rewrite Nat.eqb_refl. inversion Ev; subst v. eexists. split; [reflexivity|]. split; [|split; [intros q Eq; inversion Eq; subst q; apply map_length|apply Forall_forall; intros row Ir; apply in_map_iff in Ir; destruct Ir as (p & <- & _); rewrite map_length, seq_length; reflexivity]].
          apply maps_same. intros p Ip. apply map_same. intros cx Ix. apply in_seq in Ix. apply V; [apply Hpts; exact Ip|lia].
        * destruct (Nat.eqb_spec n k); [congruence|]. rewrite C6. exact (R6 k v Ev).
      + intros p Ip. apply mapM_map. intros cx Ix. apply in_seq in Ix. apply rdn. rewrite Ld. apply off_lt; [exact (Hpts p Ip)|lia].
    - eexists. split; [reflexivity|]. unfold rep, after_project. rewrite Ep. cbn [with_data d_inverse d_points d_nrow d_data d_contrib known val at_points]. repeat split; auto. rewrite C6. exact R6.
  Qed.

  (** *** The points *)
  Lemma zero_unique (pts : list (nat * Z)) : NoDup (map fst (filter (fun p => (snd p =? 0)%Z) pts)) -> forall i j p q, nth_error pts i = Some p -> nth_error pts j = Some q -> snd p = 0%Z -> snd q = 0%Z -> fst p = fst q -> i = j.
  Proof.
    induction pts as [|a pts IH]; intros ND [|i] [|j] p q; cbn [nth_error]; try discriminate; cbn [filter] in ND.
    - reflexivity.
    - intros [= ->] Ej Zp Zq E. exfalso. rewrite Zp in ND. cbn [Z.eqb map] in ND. inversion ND as [|? ? N1 _]; subst. apply N1. apply in_map_iff. exists q. split; [symmetry; exact E|]. apply filter_In. split; [exact (nth_error_In _ _ Ej)|rewrite Zq; reflexivity].
    - intros Ei [= ->] Zp Zq E. exfalso. rewrite Zq in ND. cbn [Z.eqb map] in ND. inversion ND as [|? ? N1 _]; subst. apply N1. apply in_map_iff. exists p. split; [exact E|]. apply filter_In. split; [exact (nth_error_In _ _ Ei)|rewrite Zp; reflexivity].
    - intros Ei Ej Zp Zq E. f_equal. apply (IH) with (p := p) (q := q); try assumption. destruct (snd a =? 0)%Z; [inversion ND; assumption|exact ND].
  Qed.
  Lemma combine_nth_error {A B} (u : list A) (v : list B) : forall k e, nth_error (List.combine u v) k = Some e -> nth_error u k = Some (fst e) /\ nth_error v k = Some (snd e).
  Proof. revert v. induction u as [|x u IH]; intros [|y v] [|k] e; cbn; try discriminate; [intros [= <-]; auto|apply IH]. Qed.
  Lemma combine_nth_some {A B} (u : list A) (v : list B) : forall k a c, nth_error u k = Some a -> nth_error v k = Some c -> nth_error (List.combine u v) k = Some (a, c).
  Proof. revert v. induction u as [|x u IH]; intros [|y v] [|k] a c; cbn; try discriminate; [intros [= ->] [= ->]; reflexivity|apply IH]. Qed.
  Lemma point_value_at pts values j p row i : NoDup (map fst (filter (fun p => (snd p =? 0)%Z) pts)) -> nth_error pts j = Some p -> nth_error values j = Some row -> snd p = 0%Z -> point_value pts values (fst p) i = nth i row 0%Q.
  Proof.
    intros ND Ej Ev Z0. unfold point_value. destruct (find _ (List.combine pts values)) as [e|] eqn:E.
    - apply find_some in E. destruct E as (I & T). apply andb_true_iff in T. destruct T as (T1 & T2). apply Nat.eqb_eq in T1. apply Z.eqb_eq in T2. apply In_nth_error in I. destruct I as (k & Ek). apply combine_nth_error in Ek. destruct Ek as (K1 & K2). assert (k = j) by (apply (zero_unique pts ND k j (fst e) p); assumption). subst k. congruence.
    - exfalso. pose proof (find_none _ _ E (p, row) (nth_error_In _ _ (combine_nth_some _ _ _ _ _ Ej Ev))) as X. cbn [fst snd] in X. rewrite Nat.eqb_refl, Z0 in X. discriminate.
  Qed.

  Lemma write_row row off n data : n <= length row -> off + n <= length data ->
    exists data', foldM (fun data cx => v <- rd row cx ;; upd data (off + cx) v) data (seq 0 n) = Some data' /\ length data' = length data /\
      forall k, nth k data' 0%Q = if (off <=? k) && (k <? off + n) then nth (k - off) row 0%Q else nth k data 0%Q.
  Proof.
    induction n as [|n IH]; intros H1 H2.
    - exists data. split; [reflexivity|]. split; [reflexivity|]. intros k. destruct (Nat.leb_spec off k); destruct (Nat.ltb_spec k (off + 0)); cbn [andb]; try reflexivity. lia.
    - destruct IH as (d1 & E1 & L1 & V1); [lia|lia|]. rewrite seq_S, foldM_app, E1. cbn [obind Nat.add foldM]. rewrite (rdn row n 0%Q) by lia. cbn [obind]. destruct (updn d1 (off + n) (nth n row 0%Q)) as (d2 & E2 & L2 & V2); [lia|]. rewrite E2. cbn [obind]. exists d2. split; [reflexivity|]. split; [lia|]. intros k. rewrite V2, V1. destruct (Nat.eqb_spec k (off + n)) as [->|D].
      + destruct (Nat.leb_spec off (off + n)); [|lia]. destruct (Nat.ltb_spec (off + n) (off + S n)); [|lia]. cbn [andb]. replace (off + n - off) with n by lia. reflexivity.
      + destruct (Nat.leb_spec off k); cbn [andb]; [|reflexivity]. destruct (Nat.ltb_spec k (off + n)); destruct (Nat.ltb_spec k (off + S n)); try lia; reflexivity.
  Qed.

  Lemma copy_ok d pts source n nrow data0 : device_ok d -> points = Some pts -> n <= nrow -> length source = length pts -> Forall (fun row => length row = n) source -> length data0 = N * nrow ->
    exists data, foldM (fun data j => p <- rd pts j ;; if (snd p =? 0)%Z then foldM (fun data cx => row <- rd source j ;; v <- rd row cx ;; upd data (fst p * nrow + cx) v) data (seq 0 n) else Some data) data0 (ord d 0 (seq 0 (length pts))) = Some data /\ length data = N * nrow /\
      (forall c i, c < N -> i < n -> nth (c * nrow + i) data 0%Q = point_value pts source c i) /\ (forall c i, c < N -> n <= i < nrow -> nth (c * nrow + i) data 0%Q = nth (c * nrow + i) data0 0%Q).
  Proof.
    intros Hd Ep Hn Ls Hrow L0. destruct Hset as (_ & Hpts). rewrite Ep in Hpts. destruct Hpts as (Hc & ND & All). rewrite Forall_forall in Hc, Hrow.
    destruct (foldM_ind (fun data j => p <- rd pts j ;; if (snd p =? 0)%Z then foldM (fun data cx => row <- rd source j ;; v <- rd row cx ;; upd data (fst p * nrow + cx) v) data (seq 0 n) else Some data)
      (fun pre data => length data = N * nrow /\ (forall j p, In j pre -> nth_error pts j = Some p -> snd p = 0%Z -> forall i, i < n -> nth (fst p * nrow + i) data 0%Q = nth i (nth j source []) 0%Q) /\
         (forall c i, c < N -> n <= i < nrow -> nth (c * nrow + i) data 0%Q = nth (c * nrow + i) data0 0%Q)) (ord d 0 (seq 0 (length pts))) data0) as (data & E & L & V & U).
    - split; [exact L0|]. split; [intros j p []|auto].
    - intros pre j post data Es (L & V & U). assert (Lj : j < length pts). { assert (I : In j (ord d 0 (seq 0 (length pts)))) by (rewrite Es; apply in_app_iff; right; left; reflexivity). apply in_ord in I; [|exact Hd]. apply in_seq in I. lia. }
      destruct (nth_error pts j) as [p|] eqn:Ej; [|apply nth_error_None in Ej; lia]. unfold rd at 1. rewrite Ej. cbn [obind]. pose proof (Hc p (nth_error_In _ _ Ej)) as Lp. cbn beta in Lp. fold N in Lp. destruct (Z.eqb_spec (snd p) 0) as [Z0|Z0].
      + assert (Er : rd source j = Some (nth j source [])) by (apply rdn; lia). assert (Lr : length (nth j source []) = n) by (apply Hrow, nth_In; lia).
        destruct (write_row (nth j source []) (fst p * nrow) n data) as (data' & E' & L' & V'); [lia|rewrite L; apply off_le; [assumption|lia]|]. exists data'. split; [rewrite <- E'; rewrite Er; reflexivity|]. split; [lia|]. split.
        * intros j' q I Eq Zq i Hi. rewrite V'. destruct (Nat.eq_dec j' j) as [->|D].
          -- assert (q = p) by congruence. subst q. destruct (Nat.leb_spec (fst p * nrow) (fst p * nrow + i)); [|lia]. destruct (Nat.ltb_spec (fst p * nrow + i) (fst p * nrow + n)); [|lia]. cbn [andb]. f_equal. lia.
          -- assert (I' : In j' pre) by (apply in_app_iff in I; destruct I as [I|[I|[]]]; [exact I|congruence]). rewrite <- (V j' q I' Eq Zq i Hi). destruct (Nat.leb_spec (fst p * nrow) (fst q * nrow + i)); cbn [andb]; [|reflexivity]. destruct (Nat.ltb_spec (fst q * nrow + i) (fst p * nrow + n)); [|reflexivity]. exfalso. apply D. symmetry. apply (zero_unique pts ND j j' p q); try assumption. apply (off_same (fst p) (fst q) i n nrow); try assumption; lia.
        * intros c i Lc Hi. rewrite V'. rewrite <- (U c i Lc Hi). destruct (Nat.leb_spec (fst p * nrow) (c * nrow + i)); cbn [andb]; [|reflexivity]. destruct (Nat.ltb_spec (c * nrow + i) (fst p * nrow + n)); [|reflexivity]. exfalso. destruct (off_same (fst p) c i n nrow); try assumption; lia.
      + exists data. split; [reflexivity|]. split; [exact L|]. split; [|exact U]. intros j' q I Eq Zq. apply in_app_iff in I. destruct I as [I|[<-|[]]]; [exact (V j' q I Eq Zq)|congruence].
    - exists data. split; [exact E|]. split; [exact L|]. split; [|exact U]. intros c i Lc Hi. pose proof (All c Lc) as Ic. apply in_map_iff in Ic. destruct Ic as (p & <- & Ip). apply filter_In in Ip. destruct Ip as (Ip & Zp). apply Z.eqb_eq in Zp. apply In_nth_error in Ip. destruct Ip as (j & Ej). assert (Lj : j < length pts) by (apply nth_error_Some; rewrite Ej; discriminate).
      rewrite (V j p (proj2 (in_ord d 0 (seq 0 (length pts)) j Hd) ltac:(apply in_seq; lia)) Ej Zp i Hi). symmetry. apply (point_value_at pts source j); [exact ND|exact Ej|apply nth_error_nth'; lia|exact Zp].
  Qed.
  Lemma point_value_same pts a b' c i : same a b' -> (point_value pts a c i == point_value pts b' c i)%Q.
  Proof.
    intros S0. revert pts. unfold point_value. induction S0 as [|x y a b' Hx _ IH]; intros [|p pts]; cbn [List.combine find]; try reflexivity. cbn [fst snd]. destruct ((fst p =? c) && (snd p =? 0)%Z); [|apply IH]. cbn [snd]. clear IH. revert i. induction Hx as [|u v x y Hu _ IHx]; intros [|i]; cbn [nth]; try reflexivity; [exact Hu|apply IHx].
  Qed.
  Lemma same_lengths a b' n : same a b' -> length a = length b' /\ (Forall (fun row => length row = n) b' -> Forall (fun row => length row = n) a).
  Proof.
    assert (X : forall x y : list Q, Forall2 Qeq x y -> length x = length y) by (intros x y H; induction H; cbn; congruence).
    unfold same. induction 1 as [|x y a b' Hx _ (IH1 & IH2)]; [split; [reflexivity|auto]|]. split; [cbn; congruence|]. intros F. inversion F; subst. constructor; [apply X; exact Hx|auto].
  Qed.

  Lemma evaluate_ok d j s f n cells : rep s f -> allowed volumes points f (Evaluate d j n cells) ->
    exists s' out, evaluate d j s n cells = Some (s', out) /\ rep s' (after_evaluate points f n) /\ same out (output volumes points f (Evaluate d j n cells)).
  Proof.
    intros R (Hd & Hn & Hc & Ha). rewrite Forall_forall in Hc. destruct (check_ok j s f n R Hn) as (s1 & E1 & C1 & C2 & C3 & C4 & C5 & C6 & C7 & _). unfold evaluate. rewrite E1, C2. pose proof R as (R1 & R2 & R3 & R4 & R5 & R6). pose proof (copy_ok d) as CO.
    destruct points as [pts|] eqn:Ep.
    - destruct (at_points f n) as [v|] eqn:Ev; [|congruence]. destruct (R6 n v Ev) as (v' & Fv & Sv & Lv & Rv). assert (Src : contrib j s1 n pts = v') by (unfold contrib; rewrite C6, Fv; reflexivity). rewrite Src. destruct (same_lengths v' v n Sv) as (SL & SF).
      destruct (CO pts v' n (d_nrow s1) (d_data s1) Hd eq_refl C4) as (data & Ed & Ld & Vd & Ud); [rewrite SL; apply Lv; reflexivity|apply SF; exact Rv|exact C5|]. rewrite Ed. cbn [obind]. set (s2 := set_contrib (with_data s1 (d_nrow s1) data) n v').
      rewrite (read_rows s2 n cells C4 Ld Hc). cbn [obind]. eexists. eexists. split; [reflexivity|].
      assert (KN : forall c i, c < N -> i < max (known f) n -> (nth (c * d_nrow s1 + i) data 0 == if (i <? n)%nat then point_value pts v c i else val f c i)%Q).
      { intros c i Lc Li. destruct (Nat.ltb_spec i n) as [X|X]; [rewrite Vd by assumption; apply point_value_same; exact Sv|]. rewrite Ud by (try assumption; lia). assert (s1 = s) by (apply C7; lia). subst s1. rewrite H in *. apply R5; [exact Lc|lia]. }
      split.
      + unfold rep, after_evaluate. rewrite Ep. cbn [s2 set_contrib with_data d_inverse d_points d_nrow d_data d_contrib known val at_points]. rewrite Ev. repeat split; auto.
        intros k w Ew. cbn [find fst]. destruct (Nat.eqb_spec n k) as [<-|D]; [|rewrite C6; exact (R6 k w Ew)]. assert (w = v) by congruence. subst w. exists v'. auto.
      + cbn [output]. unfold after_evaluate. cbn [val]. rewrite Ev. apply maps_same. intros c Ic. apply map_same. intros cx Ix. apply in_seq in Ix. apply KN; [exact (Hc c Ic)|lia].
    - cbn [obind]. assert (Es : s1 = s) by (apply C7; lia). rewrite (read_rows s1 n cells C4 C5 Hc). cbn [obind]. exists s1. eexists. split; [reflexivity|]. rewrite Es. unfold after_evaluate. split; [exact R|]. cbn [output]. unfold after_evaluate. apply maps_same. intros c Ic. apply map_same. intros cx Ix. apply in_seq in Ix. apply R5; [exact (Hc c Ic)|lia].
  Qed.

  Lemma get_ok s f n : rep s f -> allowed volumes points f (GetDofs n) -> exists r, get_dofs s n = Some r /\ same [r] (output volumes points f (GetDofs n)).
  Proof.
    intros R H. pose proof (cells_eq s f R) as Ec. cbn [allowed] in H. unfold get_dofs. destruct (Nat.ltb_spec 0 n); [|lia]. destruct R as (R1 & R2 & R3 & R4 & R5 & R6). destruct (Nat.leb_spec n (d_nrow s)); [|lia]. cbn [assert obind]. rewrite Ec. rewrite (read_rows s n (seq 0 N)) by (try assumption; intros c I; apply in_seq in I; lia). cbn [obind]. eexists. split; [reflexivity|]. cbn [output]. constructor; [|constructor]. fold N.
    assert (X : forall l, (forall c, In c l -> c < N) -> Forall2 Qeq (concat (map (fun c => map (fun cx => nth (c * d_nrow s + cx) (d_data s) 0%Q) (seq 0 n)) l)) (flat_map (fun cell => map (val f cell) (seq 0 n)) l)).
    { induction l as [|c l IH]; intros Hl; cbn [map concat flat_map]; [constructor|]. apply Forall2_app; [|apply IH; intros; apply Hl; right; assumption]. apply map_same. intros cx Ix. apply in_seq in Ix. apply R5; [apply Hl; left; reflexivity|lia]. }
    apply X. intros c I. apply in_seq in I. lia.
  Qed.
  Lemma set_ok j s f n dofs : rep s f -> allowed volumes points f (SetDofs j n dofs) -> exists s', set_dofs j s n dofs = Some s' /\ rep s' (after volumes points f (SetDofs j n dofs)).
  Proof.
    intros R (Hn & Hl). destruct (check_ok j s f n R Hn) as (s1 & E1 & C1 & C2 & C3 & C4 & C5 & C6 & _). unfold set_dofs. destruct (Nat.ltb_spec 0 n); [|lia]. rewrite E1. assert (Ec : ncells s1 = N) by (unfold ncells; rewrite C1; apply inv_length). rewrite Ec. destruct (Nat.leb_spec (N * n) (length dofs)); [|fold N in Hl; lia]. cbn [assert obind].
    rewrite (mapM_map _ (fun cx => map (fun nx => nth (cx * n + nx) dofs 0%Q) (seq 0 n) ++ repeat 0%Q (d_nrow s1 - n))).
    - cbn [obind]. eexists. split; [reflexivity|]. destruct (concat_nth (fun cx => map (fun nx => nth (cx * n + nx) dofs 0%Q) (seq 0 n) ++ repeat 0%Q (d_nrow s1 - n)) (d_nrow s1) N) as (L & V); [intros c _; rewrite app_length, map_length, seq_length, repeat_length; lia|].
      destruct R as (_ & _ & _ & _ & _ & R6). unfold rep. cbn [after with_data d_inverse d_points d_nrow d_data d_contrib known val at_points]. repeat split; auto; [|rewrite C6; exact R6].
      intros c i Hc Hi. rewrite V by lia. destruct (Nat.ltb_spec i n) as [X|X].
      + rewrite app_nth1 by (rewrite map_length, seq_length; exact X). rewrite nth_indep with (d' := nth (c * n + n) dofs 0%Q) by (rewrite map_length, seq_length; exact X). rewrite (map_nth (fun nx => nth (c * n + nx) dofs 0%Q)), seq_nth by exact X. reflexivity.
      + rewrite app_nth2; rewrite map_length, seq_length; [|exact X]. rewrite (nth_error_nth _ _ _ (nth_error_repeat 0%Q (m := d_nrow s1 - n) (n := i - n) ltac:(lia))). reflexivity.
    - intros c Ic. apply in_seq in Ic. rewrite (mapM_map _ (fun nx => nth (c * n + nx) dofs 0%Q)); [reflexivity|]. intros nx Ix. apply in_seq in Ix. apply rdn. apply Nat.lt_le_trans with (N * n); [apply off_lt; lia|assumption].
  Qed.

  Lemma step_ok s f o : rep s f -> allowed volumes points f o -> exists s' out, step s o = Some (s', out) /\ rep s' (after volumes points f o) /\ same out (output volumes points f o).
  Proof.
    intros R A. destruct o as [d j n ps|d j n cells|n|j n dofs|n values]; cbn [step].
    - destruct (project_ok d j s f n ps R A) as (s' & E & R'). rewrite E. cbn [obind]. exists s', []. split; [reflexivity|]. split; [exact R'|constructor].
    - destruct (evaluate_ok d j s f n cells R A) as (s' & out & E & R' & S'). exists s', out. auto.
    - destruct (get_ok s f n R A) as (r & E & S'). rewrite E. cbn [obind]. exists s, [r]. auto.
    - destruct (set_ok j s f n dofs R A) as (s' & E & R'). rewrite E. cbn [obind]. exists s', []. split; [reflexivity|]. split; [exact R'|constructor].
    - exists (set_contrib s n values), []. split; [reflexivity|]. split; [|constructor]. destruct R as (R1 & R2 & R3 & R4 & R5 & R6). cbn [allowed] in A. destruct points as [pts|] eqn:Ep; [|contradiction]. destruct A as (A1 & A2). unfold rep. rewrite Ep. cbn [after set_contrib d_inverse d_points d_nrow d_data d_contrib known val at_points]. repeat split; auto.
      intros k v Ev. unfold set_at in Ev. cbn [find fst]. destruct (Nat.eqb_spec k n) as [->|D].
      + rewrite Nat.eqb_refl. inversion Ev; subst v. exists values. split; [reflexivity|]. split; [|split; [intros q [= <-]; exact A1|exact A2]]. clear. induction values as [|r l IH]; constructor; [|exact IH]. induction r; constructor; [reflexivity|assumption].
      + destruct (Nat.eqb_spec n k); [congruence|]. exact (R6 k v Ev).
  Qed.
  Lemma run_ok ops : forall s f acc, rep s f -> allowed_all volumes points f ops ->
    exists s' outs, foldM (fun r o => x <- step (fst r) o ;; Some (fst x, snd r ++ [snd x])) (s, acc) ops = Some (s', acc ++ outs) /\ Forall2 same outs (outputs volumes points f ops).
  Proof.
    induction ops as [|o ops IH]; intros s f acc R A; cbn [foldM outputs].
    - exists s, []. rewrite app_nil_r. split; [reflexivity|constructor].
    - destruct A as (A1 & A2). cbn [fst snd]. destruct (step_ok s f o R A1) as (s1 & out & E & R1 & S1). rewrite E. cbn [obind fst snd]. destruct (IH s1 _ (acc ++ [out]) R1 A2) as (s2 & outs & E2 & S2). exists s2, (out :: outs). split; [rewrite E2, <- app_assoc; reflexivity|]. constructor; assumption.
  Qed.
End Run.
