(** The intersection kernels of one particle. *)
From Coq Require Import List Arith ZArith QArith Qabs Bool Lia Lqa.
Import ListNotations.
From Verif Require Import Base Mesh_Model CartMesh_Model Traj_Model.
Local Open Scope Q_scope.

Lemma Qle_bool_false a b : Qle_bool a b = false -> b < a.
Proof. intros H. apply Qnot_le_lt. intros L. apply Qle_bool_iff in L. congruence. Qed.
Lemma Qeq_bool_false a b : Qeq_bool a b = false -> ~ a == b.
Proof. intros H L. apply Qeq_bool_iff in L. congruence. Qed.
Lemma qmin_exists a b : a <= b \/ b <= a.
Proof. destruct (Qlt_le_dec a b); [left|right]; lra. Qed.

(** One dimension: from [a] to [b], plane at [y]. *)
Definition cr (a b y : Q) : bool := Qle_bool ((a - y) * (b - y)) 0.
Definition co (a b y : Q) : bool := Qeq_bool (Qabs (a - y) + Qabs (b - y)) 0.
Definition ra (a b y : Q) : Q := if negb (co a b y) then (Qabs (a - y) / (Qabs (a - y) + Qabs (b - y)))%Q else 0.
Definition wi (L tol x : Q) : bool := (Qle_bool (0 - tol) x && Qle_bool x (L + tol)) || (Qle_bool (L - tol) x && Qle_bool x (0 + tol)).

Lemma wi_iff L tol x : 0 <= L -> 0 <= tol -> wi L tol x = true <-> - tol <= x <= L + tol.
Proof.
  intros HL Ht. unfold wi. rewrite orb_true_iff, !andb_true_iff, !Qle_bool_iff. split; [intros [?|?]; lra|]. intros [? ?]. left. lra.
Qed.

Lemma cross_ok a b y : cr a b y = true -> co a b y = false -> 0 <= ra a b y <= 1 /\ a + ra a b y * (b - a) == y.
Proof.
  unfold cr, ra. intros C W. rewrite W. cbn [negb]. unfold co in W. apply Qle_bool_iff in C. apply Qeq_bool_false in W.
  set (w := Qabs (a - y) + Qabs (b - y)) in *. assert (Pw : 0 < w).
  { pose proof (Qabs_nonneg (a - y)). pose proof (Qabs_nonneg (b - y)). unfold w in *. clear w. lra. }
  set (r := Qabs (a - y) / w). assert (Er : r * w == Qabs (a - y)) by (unfold r; field; lra).
  assert (R : 0 <= r <= 1).
  { pose proof (Qabs_nonneg (a - y)). pose proof (Qabs_nonneg (b - y)). split; unfold r.
    - apply Qle_shift_div_l; [exact Pw|]. lra.
    - apply Qle_shift_div_r; [exact Pw|]. unfold w. lra. }
  split; [exact R|]. clearbody r. unfold w in *. clear w.
  destruct (Qlt_le_dec (a - y) 0) as [A|A], (Qlt_le_dec (b - y) 0) as [B|B].
  - exfalso. assert (0 < (a - y) * (b - y)) by nra. lra.
  - rewrite (Qabs_neg (a - y)), (Qabs_pos (b - y)) in * by lra. lra.
  - rewrite (Qabs_pos (a - y)), (Qabs_neg (b - y)) in * by lra. lra.
  - rewrite (Qabs_pos (a - y)), (Qabs_pos (b - y)) in * by lra.
    assert ((a - y) * (b - y) == 0) by nra. apply Qmult_integral in H. destruct H as [H|H]; [|].
    + assert (E : r * (b - y) == 0) by (rewrite H in Er; lra). apply Qmult_integral in E. destruct E as [E|E]; [rewrite E; lra|]. exfalso. lra.
    + assert (E : (1 - r) * (a - y) == 0) by nra. apply Qmult_integral in E. destruct E as [E|E]; [|exfalso; lra]. assert (r == 1) by lra. rewrite H0. lra.
Qed.

(** The plane the kernels choose. *)
Definition base (tol b : Q) : bool := Qle_bool (b - tol) 0.
Definition plane (tol L b : Q) : Q := if base tol b then 0 else L.
Lemma out_crossed a b L tol : 0 <= a <= L -> 0 <= tol -> tol < L -> ~ 0 < b < L -> ~ a == b ->
  cr a b (plane tol L b) = true /\ co a b (plane tol L b) = false /\
  forall s, 0 <= s <= ra a b (plane tol L b) -> 0 <= a + s * (b - a) <= L.
Proof.
  intros A Ht HL B N. assert (E : (b <= 0 /\ plane tol L b = 0) \/ (L <= b /\ plane tol L b = L)).
  { destruct (Qlt_le_dec 0 b) as [b0|b0].
    - right. assert (L <= b) by (destruct (Qlt_le_dec b L); [exfalso; apply B; lra|lra]). split; [lra|]. unfold plane, base.
      destruct (Qle_bool (b - tol) 0) eqn:Q; [apply Qle_bool_iff in Q; exfalso; lra|reflexivity].
    - left. split; [exact b0|]. unfold plane, base. destruct (Qle_bool (b - tol) 0) eqn:Q; [reflexivity|]. apply Qle_bool_false in Q. exfalso. lra. }
  assert (C : cr a b (plane tol L b) = true) by (unfold cr; apply Qle_bool_iff; destruct E as [[? ->]|[? ->]]; nra).
  assert (W : co a b (plane tol L b) = false).
  { unfold co. destruct (Qeq_bool _ 0) eqn:Q; [|reflexivity]. apply Qeq_bool_iff in Q. exfalso. apply N.
    set (y := plane tol L b) in *. pose proof (Qabs_nonneg (a - y)). pose proof (Qabs_nonneg (b - y)).
    pose proof (Qle_Qabs (a - y)). pose proof (Qle_Qabs (b - y)). pose proof (Qle_Qabs (- (a - y))). pose proof (Qle_Qabs (- (b - y))). rewrite Qabs_opp in *. lra. }
  split; [exact C|]. split; [exact W|]. destruct (cross_ok a b _ C W) as [R ER]. set (r := ra a b (plane tol L b)) in *. clearbody r.
  intros s S0. destruct E as [[b0 E]|[b0 E]]; rewrite E in ER; split; nra.
Qed.
Lemma stays a b L s : 0 <= a <= L -> 0 < b < L \/ a == b -> 0 <= s <= 1 -> 0 <= a + s * (b - a) <= L.
Proof. intros A [B|B] [S0 S1]; [nra|]. assert (b - a == 0) by lra. rewrite H. lra. Qed.

(** A list of three booleans, one of which holds. *)
Lemma some_min (P : nat -> Prop) (r : nat -> Q) n : (exists i, (i < n)%nat /\ P i) -> (forall i, P i \/ ~ P i) ->
  exists i, (i < n)%nat /\ P i /\ forall j, (j < n)%nat -> P j -> r i <= r j.
Proof.
  intros E D. induction n as [|n IH]; [destruct E as (i & L & _); lia|].
  destruct (D n) as [Pn|Pn].
  - assert (X : (exists i, (i < n)%nat /\ P i) \/ ~ exists i, (i < n)%nat /\ P i).
    { clear -D. induction n as [|n IH]; [right; intros (i & L & _); lia|]. destruct (D n); [left; exists n; split; [lia|assumption]|].
      destruct IH as [(i & L & Pi)|N]; [left; exists i; split; [lia|assumption]|]. right. intros (i & L & Pi). destruct (Nat.eq_dec i n); [congruence|]. apply N. exists i. split; [lia|assumption]. }
    destruct X as [X|X].
    + destruct (IH X) as (i & L & Pi & M). destruct (qmin_exists (r i) (r n)).
      * exists i. split; [lia|]. split; [exact Pi|]. intros j Lj Pj. destruct (Nat.eq_dec j n); [subst; lra|]. apply M; [lia|exact Pj].
      * exists n. split; [lia|]. split; [exact Pn|]. intros j Lj Pj. destruct (Nat.eq_dec j n); [subst; lra|]. specialize (M j ltac:(lia) Pj). lra.
    + exists n. split; [lia|]. split; [exact Pn|]. intros j Lj Pj. destruct (Nat.eq_dec j n); [subst; lra|]. exfalso. apply X. exists j. split; [lia|exact Pj].
  - destruct E as (i & L & Pi). assert (i <> n) by congruence. destruct IH as (k & Lk & Pk & M); [exists i; split; [lia|exact Pi]|].
    exists k. split; [lia|]. split; [exact Pk|]. intros j Lj Pj. destruct (Nat.eq_dec j n); [congruence|]. apply M; [lia|exact Pj].
Qed.

Section OneParticle.
  Variables (nd : nat) (e p q : nat -> Q) (tol : Q).
  Hypothesis Ht : 0 <= tol.
  Hypothesis He : forall i, (i < nd)%nat -> tol < e i.
  Hypothesis Hq : forall i, (i < nd)%nat -> 0 <= q i <= e i.

  Definition pl (i : nat) : Q := plane tol (e i) (p i).
  Definition rt (i : nat) : Q := ra (q i) (p i) (pl i).
  (** The trajectory at the crossing of the plane of dimension [i]. *)
  Definition xc (i j : nat) : Q := q j + rt i * (p j - q j).
  (** Both kernels find the face of dimension [i] iff this holds. *)
  Definition hits (i : nat) : bool :=
    cr (q i) (p i) (pl i) && negb (co (q i) (p i) (pl i)) && forallb (fun j => (j =? i)%nat || wi (e j) tol (xc i j)) (seq 0 nd).

  Definition mv (i : nat) : Prop := ~ 0 < p i < e i /\ ~ q i == p i.
  Lemma mv_dec i : mv i \/ ~ mv i.
  Proof.
    unfold mv. destruct (Qeq_dec (q i) (p i)) as [E|E]; [right; tauto|].
    destruct (Qlt_le_dec 0 (p i)), (Qlt_le_dec (p i) (e i)); [right; intros [X _]; apply X; split; assumption|left..]; (split; [intros [? ?]; lra|exact E]).
  Qed.
  Lemma not_mv i : ~ mv i -> 0 < p i < e i \/ q i == p i.
  Proof.
    unfold mv. intros N. destruct (Qeq_dec (q i) (p i)) as [E|E]; [right; exact E|]. left.
    destruct (Qlt_le_dec 0 (p i)), (Qlt_le_dec (p i) (e i)); [split; assumption|exfalso; apply N; (split; [intros [? ?]; lra|exact E])..].
  Qed.

  Lemma some_hit : (exists i, (i < nd)%nat /\ mv i) -> exists i, (i < nd)%nat /\ hits i = true.
  Proof.
    intros X. destruct (some_min mv rt nd X mv_dec) as (i & L & M & Mn). exists i. split; [exact L|]. unfold hits.
    destruct (out_crossed (q i) (p i) (e i) tol (Hq i L) Ht (He i L) (proj1 M) (proj2 M)) as (C & W & In).
    fold (pl i) in *. fold (rt i) in *. rewrite C, W. cbn [negb andb]. apply forallb_forall. intros j Hj. apply in_seq in Hj. apply orb_true_iff.
    destruct (Nat.eq_dec j i) as [->|N]; [left; apply Nat.eqb_refl|]. right. assert (Lj : (j < nd)%nat) by lia. pose proof (He j Lj).
    destruct (cross_ok _ _ _ C W) as [R _]. fold (pl i) in R. fold (rt i) in R.
    assert (B : 0 <= xc i j <= e j).
    { unfold xc. destruct (mv_dec j) as [Mj|Mj].
      - destruct (out_crossed (q j) (p j) (e j) tol (Hq j Lj) Ht (He j Lj) (proj1 Mj) (proj2 Mj)) as (_ & _ & In2). apply In2. specialize (Mn j Lj Mj). unfold rt, pl in *. lra.
      - apply stays; [apply Hq; exact Lj|apply not_mv; exact Mj|exact R]. }
    apply wi_iff; lra.
  Qed.
  Lemma hit_ok i : (i < nd)%nat -> hits i = true ->
    0 <= rt i <= 1 /\ xc i i == pl i /\ forall j, (j < nd)%nat -> - tol <= xc i j <= e j + tol.
  Proof.
    unfold hits. intros L H. apply andb_true_iff in H. destruct H as [H F]. apply andb_true_iff in H. destruct H as [C W]. apply negb_true_iff in W.
    destruct (cross_ok _ _ _ C W) as [R E]. split; [exact R|]. split; [exact E|]. intros j Lj. pose proof (He j Lj). destruct (Nat.eq_dec j i) as [->|N].
    - unfold xc, rt. rewrite E. unfold pl, plane. destruct (base tol (p i)); lra.
    - rewrite forallb_forall in F. specialize (F j). rewrite in_seq in F. specialize (F ltac:(lia)). apply orb_true_iff in F. destruct F as [F|F]; [apply Nat.eqb_eq in F; congruence|].
      apply wi_iff in F; lra.
  Qed.
End OneParticle.

Definition face_of (tol : Q) (p : nat -> Q) (i : nat) : nat :=
  match i with 0 => if base tol (p 0%nat) then 3 else 1 | 1 => if base tol (p 1%nat) then 0 else 2 | _ => if base tol (p 2%nat) then 4 else 5 end%nat.

Definition nt (l : list Q) (i : nat) : Q := nth i l 0.

Lemma intersect_2d_ok e0 e1 er tol p0 p1 q0 q1 :
  let e := nt [e0; e1] in let p := nt [p0; p1] in let q := nt [q0; q1] in
  exists w, intersect_2d (e0 :: e1 :: er) tol [p0; p1] [q0; q1] = Some w /\ length (ff_point w) = 2%nat /\
    ff_found w = hits 2 e p q tol 1 || hits 2 e p q tol 0 /\
    (ff_found w = true -> exists i, (i < 2)%nat /\ hits 2 e p q tol i = true /\ ff_face w = Z.of_nat (face_of tol p i) /\
       forall j, (j < 2)%nat -> nt (ff_point w) j = if (j =? i)%nat then pl e p tol i else xc e p q tol i j).
Proof.
  cbv zeta. unfold intersect_2d, rd, obind, nth_error, line_segment_intersection_2d_x_axis_aligned. cbv zeta.
  change (Qle_bool (p1 - tol) 0) with (base tol p1). change (Qle_bool (p0 - tol) 0) with (base tol p0).
  change (if base tol p1 then 0 else e1) with (plane tol e1 p1). change (if base tol p0 then 0 else e0) with (plane tol e0 p0).
  match goal with |- exists w, Some (mk_found [if ?b0 then _ else _; _] _ (_ || ?b1)) = _ /\ _ =>
    assert (H1 : hits 2 (nt [e0; e1]) (nt [p0; p1]) (nt [q0; q1]) tol 1 = b0);
    [|assert (H0 : hits 2 (nt [e0; e1]) (nt [p0; p1]) (nt [q0; q1]) tol 0 = b1)] end.
  { unfold hits, xc, rt, pl, wi, ra, cr, co. cbn [forallb seq Nat.eqb orb nt nth]. rewrite andb_true_r. reflexivity. }
  { unfold hits, xc, rt, pl, wi, ra, cr, co. cbn [forallb seq Nat.eqb orb nt nth]. rewrite andb_true_r. cbn [andb]. rewrite ?andb_true_r. reflexivity. }
  rewrite <- H0, <- H1. set (e := nt [e0; e1]) in *. set (p := nt [p0; p1]) in *. set (q := nt [q0; q1]) in *.
  eexists. split; [reflexivity|]. cbn [ff_point ff_found ff_face]. split; [reflexivity|]. split; [reflexivity|].
  destruct (hits 2 e p q tol 1) eqn:E1; cbn [orb].
  - intros _. exists 1%nat. split; [lia|]. split; [exact E1|]. split; [cbn [face_of]; unfold p, nt; cbn [nth]; destruct (base tol p1); reflexivity|].
    intros [|[|j]] L; [| |lia]; cbn [Nat.eqb nt nth]; reflexivity.
  - intros E0. exists 0%nat. split; [lia|]. split; [exact E0|]. split; [cbn [face_of]; unfold p, nt; cbn [nth]; destruct (base tol p0); reflexivity|].
    intros [|[|j]] L; [| |lia]; cbn [Nat.eqb nt nth]; reflexivity.
Qed.

Lemma intersect_3d_ok e0 e1 e2 er tol p0 p1 p2 q0 q1 q2 :
  let e := nt [e0; e1; e2] in let p := nt [p0; p1; p2] in let q := nt [q0; q1; q2] in
  exists w, intersect_3d (e0 :: e1 :: e2 :: er) tol [p0; p1; p2] [q0; q1; q2] = Some w /\ length (ff_point w) = 3%nat /\
    ff_found w = hits 3 e p q tol 2 || hits 3 e p q tol 1 || hits 3 e p q tol 0 /\
    (ff_found w = true -> exists i, (i < 3)%nat /\ hits 3 e p q tol i = true /\ ff_face w = Z.of_nat (face_of tol p i) /\
       forall j, (j < 3)%nat -> nt (ff_point w) j = if (j =? i)%nat then pl e p tol i else xc e p q tol i j).
Proof.
  cbv zeta. unfold intersect_3d, rd, obind, nth_error, plane_intersection_3d_xy_plane_aligned. cbv zeta.
  change (Qle_bool (p2 - tol) 0) with (base tol p2). change (Qle_bool (p1 - tol) 0) with (base tol p1). change (Qle_bool (p0 - tol) 0) with (base tol p0).
  change (if base tol p2 then 0 else e2) with (plane tol e2 p2).
  change (if base tol p1 then 0 else e1) with (plane tol e1 p1). change (if base tol p0 then 0 else e0) with (plane tol e0 p0).
  match goal with |- exists w, Some (fold_left _ [(?b2, _, _, _, _); (?b1, _, _, _, _); (?b0, _, _, _, _)] _) = _ /\ _ =>
    assert (H2 : hits 3 (nt [e0; e1; e2]) (nt [p0; p1; p2]) (nt [q0; q1; q2]) tol 2 = b2);
    [|assert (H1 : hits 3 (nt [e0; e1; e2]) (nt [p0; p1; p2]) (nt [q0; q1; q2]) tol 1 = b1);
      [|assert (H0 : hits 3 (nt [e0; e1; e2]) (nt [p0; p1; p2]) (nt [q0; q1; q2]) tol 0 = b0)]] end.
  1-3: unfold hits, xc, rt, pl, wi, ra, cr, co; cbn [forallb seq Nat.eqb orb nt nth]; rewrite ?andb_true_r; cbn [andb]; rewrite ?andb_assoc; reflexivity.
  rewrite <- H0, <- H1, <- H2. set (e := nt [e0; e1; e2]) in *. set (p := nt [p0; p1; p2]) in *. set (q := nt [q0; q1; q2]) in *.
  cbn [fold_left ff_point ff_found ff_face]. eexists. split; [reflexivity|]. cbn [ff_point ff_found ff_face].
  split; [destruct (hits 3 e p q tol 0), (hits 3 e p q tol 1), (hits 3 e p q tol 2); reflexivity|]. split; [reflexivity|].
  destruct (hits 3 e p q tol 0) eqn:E0; [|destruct (hits 3 e p q tol 1) eqn:E1; [|destruct (hits 3 e p q tol 2) eqn:E2; [|discriminate]]]; intros _.
  - exists 0%nat. split; [lia|]. split; [exact E0|]. split; [cbn [face_of]; unfold p, nt; cbn [nth]; destruct (base tol p0); reflexivity|].
    intros [|[|[|j]]] L; [| | |lia]; cbn [Nat.eqb nt nth]; reflexivity.
  - exists 1%nat. split; [lia|]. split; [exact E1|]. split; [cbn [face_of]; unfold p, nt; cbn [nth]; destruct (base tol p1); reflexivity|].
    intros [|[|[|j]]] L; [| | |lia]; cbn [Nat.eqb nt nth]; reflexivity.
  - exists 2%nat. split; [lia|]. split; [exact E2|]. split; [cbn [face_of]; unfold p, nt; cbn [nth]; destruct (base tol p2); reflexivity|].
    intros [|[|[|j]]] L; [| | |lia]; cbn [Nat.eqb nt nth]; reflexivity.
Qed.

Lemma hits_ext nd e p q tol i e' p' q' : (forall j, (j < nd)%nat -> e j = e' j /\ p j = p' j /\ q j = q' j) -> (i < nd)%nat -> hits nd e p q tol i = hits nd e' p' q' tol i.
Proof.
  intros X L. unfold hits, pl. destruct (X i L) as (-> & -> & ->). f_equal.
  assert (G : forall l, (forall j, In j l -> (j < nd)%nat) -> forallb (fun j => (j =? i)%nat || wi (e j) tol (xc e p q tol i j)) l = forallb (fun j => (j =? i)%nat || wi (e' j) tol (xc e' p' q' tol i j)) l).
  { induction l as [|j l IH]; intros F; [reflexivity|]. cbn [forallb]. rewrite IH by (intros; apply F; right; assumption). unfold xc, rt, pl.
    destruct (X i L) as (-> & -> & ->). destruct (X j (F j (or_introl eq_refl))) as (-> & -> & ->). reflexivity. }
  apply G. intros j Hj. apply in_seq in Hj. lia.
Qed.

Lemma list2 {A} (l : list A) : length l = 2%nat -> exists a b, l = [a; b].
Proof. destruct l as [|a [|b [|]]]; try discriminate. eauto. Qed.
Lemma list3 {A} (l : list A) : length l = 3%nat -> exists a b c, l = [a; b; c].
Proof. destruct l as [|a [|b [|c [|]]]]; try discriminate. eauto. Qed.

(** The whole kernel: a face is found, and what it is. *)
Lemma intersect_ok nd ext tol P PP : nd = 2%nat \/ nd = 3%nat -> length ext = 3%nat -> length P = nd -> length PP = nd ->
  0 <= tol -> (forall i, (i < nd)%nat -> tol < nt ext i) -> (forall i, (i < nd)%nat -> 0 <= nt PP i <= nt ext i) ->
  (exists i, (i < nd)%nat /\ mv (nt ext) (nt P) (nt PP) i) ->
  exists w i, intersect nd ext tol P PP = Some w /\ length (ff_point w) = nd /\ ff_found w = true /\ (i < nd)%nat /\
    ff_face w = Z.of_nat (face_of tol (nt P) i) /\
    exists t, 0 <= t <= 1 /\ (forall j, (j < nd)%nat -> nt (ff_point w) j == nt PP j + t * (nt P j - nt PP j)) /\
      nt (ff_point w) i == pl (nt ext) (nt P) tol i /\ forall j, (j < nd)%nat -> - tol <= nt (ff_point w) j <= nt ext j + tol.
Proof.
  intros N LE LP LQ Ht He Hq X. destruct (some_hit nd (nt ext) (nt P) (nt PP) tol Ht He Hq X) as (k & Lk & Hk).
  assert (G : exists w i, intersect nd ext tol P PP = Some w /\ length (ff_point w) = nd /\ ff_found w = true /\ (i < nd)%nat /\ ff_face w = Z.of_nat (face_of tol (nt P) i) /\
    hits nd (nt ext) (nt P) (nt PP) tol i = true /\ forall j, (j < nd)%nat -> nt (ff_point w) j = if (j =? i)%nat then pl (nt ext) (nt P) tol i else xc (nt ext) (nt P) (nt PP) tol i j).
  { destruct N as [->| ->]; unfold intersect; cbn [Nat.eqb].
    - destruct (list3 ext LE) as (e0 & e1 & e2 & ->), (list2 P LP) as (p0 & p1 & ->), (list2 PP) as (q0 & q1 & ->); [exact LQ|]. clear LP LQ LE.
      destruct (intersect_2d_ok e0 e1 [e2] tol p0 p1 q0 q1) as (w & E & L & F & D). rewrite E. cbn [length] in *.
      assert (X2 : forall i, (i < 2)%nat -> hits 2 (nt [e0; e1]) (nt [p0; p1]) (nt [q0; q1]) tol i = hits 2 (nt [e0; e1; e2]) (nt [p0; p1]) (nt [q0; q1]) tol i).
      { intros i Li. apply hits_ext; [|exact Li]. intros [|[|j]] Lj; [| |lia]; auto. }
      rewrite !X2 in F by lia. assert (F' : ff_found w = true).
      { rewrite F. apply orb_true_iff. destruct k as [|[|k]]; [right; exact Hk|left; exact Hk|lia]. }
      destruct (D F') as (i & Li & Hi & Fi & Pi). exists w, i. rewrite X2 in Hi by exact Li. repeat split; try assumption.
      intros j Lj. rewrite Pi by exact Lj. unfold xc, rt, pl. destruct i as [|[|i]]; [| |lia]; reflexivity.
    - destruct (list3 ext LE) as (e0 & e1 & e2 & ->), (list3 P LP) as (p0 & p1 & p2 & ->), (list3 PP) as (q0 & q1 & q2 & ->); [exact LQ|]. clear LP LQ LE.
      destruct (intersect_3d_ok e0 e1 e2 [] tol p0 p1 p2 q0 q1 q2) as (w & E & L & F & D). rewrite E. cbn [length] in *.
      assert (F' : ff_found w = true).
      { rewrite F. rewrite !orb_true_iff. destruct k as [|[|[|k]]]; [right; exact Hk|left; right; exact Hk|left; left; exact Hk|lia]. }
      destruct (D F') as (i & Li & Hi & Fi & Pi). exists w, i. repeat split; assumption. }
  destruct G as (w & i & E & L & F & Li & Fi & Hi & Pi). exists w, i. repeat (split; [assumption|]).
  destruct (hit_ok nd (nt ext) (nt P) (nt PP) tol Ht He i Li Hi) as (R & Ep & B). exists (rt (nt ext) (nt P) (nt PP) tol i). split; [exact R|]. split; [|split].
  - intros j Lj. rewrite Pi by exact Lj. destruct (Nat.eqb_spec j i) as [->|]; [symmetry; exact Ep|reflexivity].
  - rewrite Pi by exact Li. rewrite Nat.eqb_refl. reflexivity.
  - intros j Lj. rewrite Pi by exact Lj. destruct (Nat.eqb_spec j i) as [->|]; [specialize (B i Li); rewrite Ep in B; exact B|apply B; exact Lj].
Qed.
