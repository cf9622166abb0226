(** Counting crossings decides whether a point is in a convex cell. *)
From Coq Require Import List Arith ZArith QArith Qminmax Bool Lia Lqa.
Import ListNotations.
From Verif Require Import Base Kernel DeviceFn_Model Mapper2D_Model Mapper2D_Spec.
Open Scope Q_scope.

Lemma rlt_spec a b : rlt a b = true <-> a < b.
Proof. unfold rlt. rewrite negb_true_iff. split; [intros H; apply Qnot_le_lt; intros X; apply Qle_bool_iff in X; congruence|]. intros H. destruct (Qle_bool b a) eqn:E; [|reflexivity]. apply Qle_bool_iff in E. lra. Qed.
Lemma rlt_false a b : rlt a b = false <-> b <= a.
Proof. unfold rlt. rewrite negb_false_iff. apply Qle_bool_iff. Qed.
Definition above (p v : point) : bool := rlt (snd p) (snd v).
Lemma above_t p v : above p v = true <-> snd p < snd v.
Proof. apply rlt_spec. Qed.
Lemma above_f p v : above p v = false <-> snd v <= snd p.
Proof. apply rlt_false. Qed.

(** The test of one face, without the order of its ends. *)
Definition later (p : point) (f : point * point) : Prop := (same p (fst f) /\ before (snd f) (fst f)) \/ (same p (snd f) /\ before (fst f) (snd f)) \/ (same p (fst f) /\ same p (snd f)).
Definition on_line (p : point) (f : point * point) : Prop := xorb (above p (fst f)) (above p (snd f)) = true /\ cross (fst f) (snd f) p == 0.
Lemma orient a b : let r := consistent_line_orientation_2d (fst a) (snd a) (fst b) (snd b) in
  (r = (fst a, snd a, fst b, snd b) /\ (before a b)) \/ (r = (fst b, snd b, fst a, snd a) /\ (before b a \/ same a b)).
Proof.
  unfold consistent_line_orientation_2d. destruct (Qeq_bool (fst a) (fst b)) eqn:E.
  - apply Qeq_bool_iff in E. destruct (rlt (snd a) (snd b)) eqn:F.
    + apply rlt_spec in F. left. split; [reflexivity|]. right. auto.
    + apply rlt_false in F. right. split; [reflexivity|]. destruct (Qeq_dec (snd a) (snd b)); [right; split; assumption|left; right; split; lra].
  - apply Qeq_bool_neq in E. destruct (rlt (fst a) (fst b)) eqn:F.
    + apply rlt_spec in F. left. split; [reflexivity|]. left. exact F.
    + apply rlt_false in F. right. split; [reflexivity|]. left. left. lra.
Qed.
(** An upward face ([a] not above, [b] above) is crossed iff the point is to its left. *)
Lemma face_spec p a b :
  match face_test p (a, b) with
  | None => later p (a, b) \/ on_line p (a, b)
  | Some c => ~ later p (a, b) /\ ~ on_line p (a, b) /\
      c = match above p a, above p b with false, true => rlt 0 (cross a b p) | true, false => rlt (cross a b p) 0 | _, _ => false end
  end.
Proof.
  unfold face_test. cbn [fst snd]. destruct p as (x, y). pose proof (orient a b) as O. cbv zeta in O.
  assert (K : forall i j : point, before i j \/ same i j -> forall c, 
     (if Qeq_bool x (fst j) && Qeq_bool y (snd j) then None else
      if xorb (rlt y (snd j)) (rlt y (snd i)) then
        if Qeq_bool ((x - fst j) * (snd i - snd j) - (fst i - fst j) * (y - snd j)) 0 then None
        else Some (xorb (rlt ((x - fst j) * (snd i - snd j) - (fst i - fst j) * (y - snd j)) 0) (rlt (snd i) (snd j)))
      else Some false) = c ->
     match c with
     | None => same (x, y) j \/ on_line (x, y) (i, j)
     | Some c => ~ same (x, y) j /\ ~ on_line (x, y) (i, j) /\
        c = match above (x, y) i, above (x, y) j with false, true => rlt 0 (cross i j (x, y)) | true, false => rlt (cross i j (x, y)) 0 | _, _ => false end
     end).
  { intros i j _ c <-. unfold on_line, same, above. cbn [fst snd].
    assert (Ed : (x - fst j) * (snd i - snd j) - (fst i - fst j) * (y - snd j) == cross i j (x, y)) by (unfold cross; cbn [fst snd]; ring).
    set (det := (x - fst j) * (snd i - snd j) - (fst i - fst j) * (y - snd j)) in *. set (cr := cross i j (x, y)) in *. clearbody det cr.
    destruct (Qeq_bool x (fst j)) eqn:E1; destruct (Qeq_bool y (snd j)) eqn:E2; cbn [andb]; try (left; split; apply Qeq_bool_iff; assumption).
    all: assert (Ns : ~ (x == fst j /\ y == snd j)) by (intros (A & B); apply Qeq_bool_iff in A; apply Qeq_bool_iff in B; congruence).
    all: destruct (rlt y (snd j)) eqn:Aj; destruct (rlt y (snd i)) eqn:Ai; cbn [xorb]; try (split; [exact Ns|]; split; [intros (A & _); discriminate|reflexivity]).
    all: destruct (Qeq_bool det 0) eqn:D; [apply Qeq_bool_iff in D; right; split; [reflexivity|lra]|].
    all: apply Qeq_bool_neq in D; split; [exact Ns|]; split; [intros (_ & A); lra|].
    all: try apply rlt_spec in Aj; try apply rlt_spec in Ai; try apply rlt_false in Aj; try apply rlt_false in Ai.
    all: match goal with |- xorb ?a ?b = ?c => destruct a eqn:F1; destruct b eqn:F2; destruct c eqn:F3 end; cbn [xorb]; try reflexivity; exfalso.
    all: repeat match goal with H : rlt _ _ = true |- _ => apply rlt_spec in H | H : rlt _ _ = false |- _ => apply rlt_false in H end; try lra; apply D; lra. }
  destruct O as [(Eo & B)|(Eo & B)]; rewrite Eo.
  - specialize (K a b (or_introl B) _ eq_refl). match goal with |- match ?cc with _ => _ end => destruct cc as [c|] end.
    + destruct K as (K1 & K2 & K3). split; [|split; assumption]. intros [(S & B')|[(S & _)|(S & S')]]; [|exact (K1 S)|exact (K1 S')]. unfold before, same in *. cbn [fst snd] in *. lra.
    + destruct K as [K|K]; [left; right; left; split; assumption|right; exact K].
  - assert (B2 : before b a \/ same b a) by (destruct B as [B|(B1 & B2)]; [left; exact B|right; split; symmetry; assumption]). specialize (K b a B2 _ eq_refl). match goal with |- match ?cc with _ => _ end => destruct cc as [c|] end.
    + destruct K as (K1 & K2 & K3). split; [|split].
      * intros [(S & _)|[(S & B')|(S & S')]]; [exact (K1 S)| |exact (K1 S)]. destruct B as [B|B]; unfold before, same in *; cbn [fst snd] in *; lra.
      * intros (X & Y). apply K2. unfold on_line in *. cbn [fst snd] in *. split; [rewrite xorb_comm; exact X|]. unfold cross in *. cbn [fst snd] in *. lra.
      * rewrite K3. assert (Ex : cross b a (x, y) == - cross a b (x, y)) by (unfold cross; cbn [fst snd]; ring). set (u := cross b a (x, y)) in *. set (v := cross a b (x, y)) in *. clearbody u v. destruct (above (x, y) a); destruct (above (x, y) b); try reflexivity.
        all: match goal with |- ?a = ?c => destruct a eqn:F1; destruct c eqn:F3 end; try reflexivity; exfalso; repeat match goal with H : rlt _ _ = true |- _ => apply rlt_spec in H | H : rlt _ _ = false |- _ => apply rlt_false in H end; lra.
    + destruct K as [K|(X & Y)]; [left; destruct B as [B|B]; [left; split; assumption|right; right; split; [exact K|]; destruct K, B; split; cbn [fst snd] in *; lra]|right; split; cbn [fst snd] in *; [rewrite xorb_comm; exact X|]]. unfold cross in *. cbn [fst snd] in *. lra.
Qed.
Lemma face_sym p a b : face_test p (a, b) = face_test p (b, a).
Proof.
  pose proof (face_spec p a b) as H1. pose proof (face_spec p b a) as H2.
  assert (L : later p (a, b) <-> later p (b, a)) by (unfold later; cbn [fst snd]; tauto).
  assert (Ec : cross b a p == - cross a b p) by (unfold cross; ring).
  assert (O : on_line p (a, b) <-> on_line p (b, a)) by (unfold on_line; cbn [fst snd]; rewrite (xorb_comm (above p b)); split; intros (X & Y); (split; [exact X|lra])).
  destruct (face_test p (a, b)) as [c1|]; destruct (face_test p (b, a)) as [c2|]; try reflexivity; try tauto.
  destruct H1 as (_ & _ & ->). destruct H2 as (_ & _ & ->). f_equal. set (u := cross b a p) in *. set (v := cross a b p) in *. clearbody u v. destruct (above p a); destruct (above p b); try reflexivity.
  all: match goal with |- ?a = ?c => destruct a eqn:F1; destruct c eqn:F3 end; try reflexivity; exfalso; repeat match goal with H : rlt _ _ = true |- _ => apply rlt_spec in H | H : rlt _ _ = false |- _ => apply rlt_false in H end; lra.
Qed.
Lemma rev3 p a b c : point_in_cell p [a; b; c] = point_in_cell p [a; c; b].
Proof.
  unfold point_in_cell. cbn [faces app List.combine num_crossings]. rewrite (face_sym p a c), (face_sym p c b), (face_sym p b a).
  destruct (face_test p (a, b)) as [[|]|]; destruct (face_test p (b, c)) as [[|]|]; destruct (face_test p (c, a)) as [[|]|]; reflexivity.
Qed.
Lemma rev4 p a b c d : point_in_cell p [a; b; c; d] = point_in_cell p [a; d; c; b].
Proof.
  unfold point_in_cell. cbn [faces app List.combine num_crossings]. rewrite (face_sym p a d), (face_sym p d c), (face_sym p c b), (face_sym p b a).
  destruct (face_test p (a, b)) as [[|]|]; destruct (face_test p (b, c)) as [[|]|]; destruct (face_test p (c, d)) as [[|]|]; destruct (face_test p (d, a)) as [[|]|]; reflexivity.
Qed.

(** ** Anticlockwise polygons *)
Lemma cross_affine e f a b l p : fst p == fst a + l * (fst b - fst a) -> snd p == snd a + l * (snd b - snd a) -> cross e f p == (1 - l) * cross e f a + l * cross e f b.
Proof. intros X Y. unfold cross. rewrite X, Y. ring. Qed.
Lemma comb_nonneg l u v : 0 <= l -> l <= 1 -> 0 <= u -> 0 <= v -> 0 <= (1 - l) * u + l * v.
Proof. intros. assert (0 <= (1 - l) * u) by (apply Qmult_le_0_compat; lra). assert (0 <= l * v) by (apply Qmult_le_0_compat; lra). lra. Qed.
(** The point of the face at the height [y]. *)
Lemma face_point a b y : (snd a <= y /\ y < snd b) \/ (snd b <= y /\ y < snd a) -> exists q l, 0 <= l /\ l <= 1 /\ fst q == fst a + l * (fst b - fst a) /\ snd q == snd a + l * (snd b - snd a) /\ snd q == y.
Proof.
  intros H. set (l := (y - snd a) / (snd b - snd a)). exists (fst a + l * (fst b - fst a), y), l. cbn [fst snd].
  assert (E : l * (snd b - snd a) == y - snd a) by (unfold l; field; lra).
  assert (B : 0 <= l /\ l <= 1).
  { destruct H as [(H1 & H2)|(H1 & H2)].
    - split; [unfold l; apply Qle_shift_div_l; lra|unfold l; apply Qle_shift_div_r; lra].
    - set (k := snd a - snd b). assert (K : 0 < k) by (unfold k; lra). assert (El : l == (snd a - y) / k) by (unfold l, k; field; lra). rewrite El. split; [apply Qle_shift_div_l; lra|apply Qle_shift_div_r; unfold k; lra]. }
  destruct B as (B1 & B2). split; [exact B1|]. split; [exact B2|]. split; [reflexivity|]. split; [lra|reflexivity].
Qed.
Lemma on_edge a b p : xorb (above p a) (above p b) = true -> cross a b p == 0 -> forall e f, 0 <= cross e f a -> 0 <= cross e f b -> 0 <= cross e f p.
Proof.
  intros X C e f Ha Hb. assert (St : (snd a <= snd p /\ snd p < snd b) \/ (snd b <= snd p /\ snd p < snd a)) by (destruct (above p a) eqn:A; destruct (above p b) eqn:B; try discriminate; try apply above_t in A; try apply above_f in A; try apply above_t in B; try apply above_f in B; auto).
  destruct (face_point a b (snd p) St) as (q & l & L1 & L2 & Q1 & Q2 & Q3).
  assert (E : fst q == fst p). { assert (Z : cross a b q == 0) by (rewrite (cross_affine a b a b l q Q1 Q2); unfold cross; ring). unfold cross in Z, C. rewrite Q3 in Z. assert (W : (snd b - snd a) * (fst q - fst p) == 0) by lra. apply Qmult_integral in W. destruct W; lra. }
  assert (Ep : cross e f p == cross e f q) by (unfold cross; rewrite E, Q3; reflexivity). rewrite Ep, (cross_affine e f a b l q Q1 Q2). apply comb_nonneg; assumption.
Qed.
Lemma chord a b c d p : snd a <= snd p -> snd p < snd b -> snd d <= snd p -> snd p < snd c -> 0 <= cross a b p -> 0 <= cross c d p ->
  forall e f, 0 <= cross e f a -> 0 <= cross e f b -> 0 <= cross e f c -> 0 <= cross e f d -> 0 <= cross e f p.
Proof.
  intros A B D C Cab Ccd e f Ea Eb Ec Ed. destruct (face_point a b (snd p) (or_introl (conj A B))) as (q & l & L1 & L2 & Q1 & Q2 & Q3). destruct (face_point c d (snd p) (or_intror (conj D C))) as (r & k & K1 & K2 & R1 & R2 & R3).
  assert (Hq : 0 <= cross e f q) by (rewrite (cross_affine e f a b l q Q1 Q2); apply comb_nonneg; assumption). assert (Hr : 0 <= cross e f r) by (rewrite (cross_affine e f c d k r R1 R2); apply comb_nonneg; assumption).
  assert (Zq : cross a b q == 0) by (rewrite (cross_affine a b a b l q Q1 Q2); unfold cross; ring). assert (Zr : cross c d r == 0) by (rewrite (cross_affine c d c d k r R1 R2); unfold cross; ring).
  assert (X1 : fst p <= fst q). { apply Qnot_lt_le. intros N. unfold cross in Zq, Cab. rewrite Q3 in Zq. assert (W : 0 < (snd b - snd a) * (fst p - fst q)) by (apply Qmult_lt_0_compat; lra). lra. }
  assert (X2 : fst r <= fst p). { apply Qnot_lt_le. intros N. unfold cross in Zr, Ccd. rewrite R3 in Zr. assert (W : 0 < (snd c - snd d) * (fst r - fst p)) by (apply Qmult_lt_0_compat; lra). lra. }
  unfold cross in Hq, Hr |- *. rewrite Q3 in Hq. rewrite R3 in Hr. destruct (Qlt_le_dec (snd f - snd e) 0) as [N|N].
  - assert (W : 0 <= - (snd f - snd e) * (fst p - fst r)) by (apply Qmult_le_0_compat; lra). lra.
  - assert (W : 0 <= (snd f - snd e) * (fst q - fst p)) by (apply Qmult_le_0_compat; lra). lra.
Qed.
Lemma not_both a b c d p : snd a <= snd p -> snd p < snd b -> snd d <= snd p -> snd p < snd c -> 0 <= cross a b c -> 0 <= cross a b d -> cross a b p < 0 -> cross c d p < 0 -> False.
Proof.
  intros A B D C Hc Hd Cab Ccd. destruct (face_point c d (snd p) (or_intror (conj D C))) as (r & k & K1 & K2 & R1 & R2 & R3).
  assert (Hr : 0 <= cross a b r) by (rewrite (cross_affine a b c d k r R1 R2); apply comb_nonneg; assumption). assert (Zr : cross c d r == 0) by (rewrite (cross_affine c d c d k r R1 R2); unfold cross; ring).
  unfold cross in Hr, Zr, Cab, Ccd. rewrite R3 in Hr, Zr. destruct (Qlt_le_dec (fst p) (fst r)) as [N|N].
  - assert (W : 0 < (snd b - snd a) * (fst r - fst p)) by (apply Qmult_lt_0_compat; lra). lra.
  - assert (W : 0 <= (snd c - snd d) * (fst p - fst r)) by (apply Qmult_le_0_compat; lra). lra.
Qed.
(** A point of a face, or an end of it, is where the ends are. *)
Lemma boundary p a b : face_test p (a, b) = None -> forall e f, 0 <= cross e f a -> 0 <= cross e f b -> 0 <= cross e f p.
Proof.
  intros E e f Ha Hb. pose proof (face_spec p a b) as F. rewrite E in F. destruct F as [[((S1 & S2) & _)|[((S1 & S2) & _)|((S1 & S2) & _)]]|(X & Y)]; cbn [fst snd] in *.
  - unfold cross in *. rewrite S1, S2. exact Ha.
  - unfold cross in *. rewrite S1, S2. exact Hb.
  - unfold cross in *. rewrite S1, S2. exact Ha.
  - exact (on_edge a b p X Y e f Ha Hb).
Qed.
Lemma not_on_line p a b c : face_test p (a, b) = Some c -> xorb (above p a) (above p b) = true -> ~ cross a b p == 0.
Proof. intros E X Y. pose proof (face_spec p a b) as F. rewrite E in F. destruct F as (_ & F & _). apply F. split; assumption. Qed.
Lemma face_value p a b c : face_test p (a, b) = Some c -> c = match above p a, above p b with false, true => rlt 0 (cross a b p) | true, false => rlt (cross a b p) 0 | _, _ => false end.
Proof. intros E. pose proof (face_spec p a b) as F. rewrite E in F. apply F. Qed.
(** One upward face and one downward face. *)
Lemma odd_up_down a b c d p c1 c2 : above p a = false -> above p b = true -> above p c = true -> above p d = false -> face_test p (a, b) = Some c1 -> face_test p (c, d) = Some c2 -> 0 <= cross a b c -> 0 <= cross a b d ->
  (xorb c1 c2 = true <-> 0 <= cross a b p /\ 0 <= cross c d p).
Proof.
  intros A B C D E1 E2 Hc Hd. pose proof (not_on_line _ _ _ _ E1) as N1. rewrite A, B in N1. specialize (N1 eq_refl). pose proof (not_on_line _ _ _ _ E2) as N2. rewrite C, D in N2. specialize (N2 eq_refl).
  apply face_value in E1. rewrite A, B in E1. apply face_value in E2. rewrite C, D in E2. subst c1 c2.
  apply above_f in A, D. apply above_t in B, C. pose proof (not_both a b c d p A B D C Hc Hd) as NB.
  destruct (rlt 0 (cross a b p)) eqn:F1; destruct (rlt (cross c d p) 0) eqn:F2; cbn [xorb].
  all: repeat match goal with H : rlt _ _ = true |- _ => apply rlt_spec in H | H : rlt _ _ = false |- _ => apply rlt_false in H end.
  - split; [discriminate|]. intros (X & Y). lra.
  - split; [|reflexivity]. intros _. split; lra.
  - split; [|reflexivity]. intros _. exfalso. apply NB; lra.
  - split; [discriminate|]. intros (X & Y). exfalso. apply N1. lra.
Qed.
Lemma all_some3 p a b c c1 c2 c3 : face_test p (a, b) = Some c1 -> face_test p (b, c) = Some c2 -> face_test p (c, a) = Some c3 -> point_in_cell p [a; b; c] = xorb c1 (xorb c2 c3).
Proof. intros E1 E2 E3. unfold point_in_cell. cbn [faces app List.combine num_crossings]. rewrite E1, E2, E3. destruct c1; destruct c2; destruct c3; reflexivity. Qed.
Lemma all_some4 p a b c d c1 c2 c3 c4 : face_test p (a, b) = Some c1 -> face_test p (b, c) = Some c2 -> face_test p (c, d) = Some c3 -> face_test p (d, a) = Some c4 -> point_in_cell p [a; b; c; d] = xorb c1 (xorb c2 (xorb c3 c4)).
Proof. intros E1 E2 E3 E4. unfold point_in_cell. cbn [faces app List.combine num_crossings]. rewrite E1, E2, E3, E4. destruct c1; destruct c2; destruct c3; destruct c4; reflexivity. Qed.
Lemma some_none p vs f : In f (faces vs) -> face_test p f = None -> point_in_cell p vs = true.
Proof.
  unfold point_in_cell. intros I E. assert (G : forall fs n, In f fs -> num_crossings p fs n = 1%nat).
  { induction fs as [|g fs IH]; intros n J; [destruct J|]. cbn [num_crossings]. destruct J as [->|J]; [rewrite E; reflexivity|]. destruct (face_test p g) as [[|]|]; auto. }
  rewrite (G (faces vs) 0%nat I). reflexivity.
Qed.
Definition inner (vs : list point) (p : point) : Prop := forall f, In f (faces vs) -> 0 <= cross (fst f) (snd f) p.
Ltac up_down HF :=
  match goal with
  | A : above ?p ?a = false, B : above ?p ?b = true, E1 : face_test ?p (?a, ?b) = Some _ |- _ =>
      match goal with
      | C : above p ?c = true, D : above p ?d = false, E2 : face_test p (?c, ?d) = Some _ |- _ =>
          pose proof (odd_up_down a b c d p _ _ A B C D E1 E2 (HF (a, b) c ltac:(cbn; auto 6) ltac:(cbn; auto 6)) (HF (a, b) d ltac:(cbn; auto 6) ltac:(cbn; auto 6))) as UD;
          pose proof (chord a b c d p (proj1 (above_f _ _) A) (proj1 (above_t _ _) B) (proj1 (above_f _ _) D) (proj1 (above_t _ _) C)) as CH;
          assert (inner_up : forall vs, inner vs p -> In (a, b) (faces vs) -> In (c, d) (faces vs) -> 0 <= cross a b p /\ 0 <= cross c d p) by (intros vs W I1 I2; split; [exact (W (a, b) I1)|exact (W (c, d) I2)])
      end
  end.
Ltac level := repeat match goal with E : face_test ?p (?a, ?b) = Some ?c, A : above ?p ?a = _, B : above ?p ?b = _ |- _ => is_var c; let V := fresh in pose proof (face_value _ _ _ _ E) as V; rewrite A, B in V; cbv iota in V; match type of V with c = false => subst c end end.
Lemma triangle p a b c : 0 < cross a b c -> (forall f v, In f (faces [a; b; c]) -> In v [a; b; c] -> 0 <= cross (fst f) (snd f) v) ->
  (point_in_cell p [a; b; c] = true -> inner [a; b; c] p) /\ (inner [a; b; c] p -> below_top [a; b; c] p -> point_in_cell p [a; b; c] = true).
Proof.
  intros P HF.
  destruct (face_test p (a, b)) as [c1|] eqn:E1; [|split; [intros _ f I; apply (boundary p a b E1); apply HF; cbn; auto|intros _ _; apply (some_none p _ (a, b)); [cbn; auto|exact E1]]].
  destruct (face_test p (b, c)) as [c2|] eqn:E2; [|split; [intros _ f I; apply (boundary p b c E2); apply HF; cbn; auto|intros _ _; apply (some_none p _ (b, c)); [cbn; auto|exact E2]]].
  destruct (face_test p (c, a)) as [c3|] eqn:E3; [|split; [intros _ f I; apply (boundary p c a E3); apply HF; cbn; auto|intros _ _; apply (some_none p _ (c, a)); [cbn; auto|exact E3]]].
  rewrite (all_some3 p a b c c1 c2 c3 E1 E2 E3).
  destruct (above p a) eqn:Aa; destruct (above p b) eqn:Ab; destruct (above p c) eqn:Ac.
  { level. cbn [xorb]. split; [discriminate|]. intros W _. exfalso. apply above_t in Aa, Ab, Ac.
    assert (W1 := W (a, b) (or_introl eq_refl)). assert (W2 := W (b, c) (or_intror (or_introl eq_refl))). assert (W3 := W (c, a) (or_intror (or_intror (or_introl eq_refl)))). cbn [fst snd] in *.
    assert (Id : cross a b p * (snd c - snd p) + cross b c p * (snd a - snd p) + cross c a p * (snd b - snd p) == 0) by (unfold cross; ring).
    assert (Su : cross a b p + cross b c p + cross c a p == cross a b c) by (unfold cross; ring).
    set (x := cross a b p) in *. set (y := cross b c p) in *. set (z := cross c a p) in *. set (u := snd c - snd p) in *. set (v := snd a - snd p) in *. set (w := snd b - snd p) in *. assert (0 < u) by (unfold u; lra). assert (0 < v) by (unfold v; lra). assert (0 < w) by (unfold w; lra). clearbody x y z u v w. assert (0 <= x * u) by (apply Qmult_le_0_compat; lra). assert (0 <= y * v) by (apply Qmult_le_0_compat; lra). assert (0 <= z * w) by (apply Qmult_le_0_compat; lra).
    assert (K : forall s t, 0 <= s -> 0 < t -> s * t <= 0 -> s == 0) by (intros s t Hs Ht Hst; destruct (Qlt_le_dec 0 s) as [L|L]; [pose proof (Qmult_lt_0_compat _ _ L Ht); lra|lra]).
    assert (x == 0) by (apply (K x u); lra). assert (y == 0) by (apply (K y v); lra). assert (z == 0) by (apply (K z w); lra). lra. }
  1-6: up_down HF; level; rewrite ?xorb_false_r, ?xorb_false_l in *; split;
    [intros H; match type of UD with xorb ?u ?v = true <-> _ => assert (H' : xorb u v = true) by (first [exact H|rewrite xorb_comm; exact H]) end; apply UD in H'; destruct H' as (H1 & H2); intros f I; apply (CH H1 H2); apply HF; cbn; auto 6
    |intros W _; assert (H' := proj2 UD (inner_up _ W ltac:(cbn; auto 6) ltac:(cbn; auto 6))); first [exact H'|rewrite xorb_comm; exact H']].
  level. cbn [xorb]. split; [discriminate|]. intros _ (v & I & L). exfalso. apply above_f in Aa, Ab, Ac. cbn in I. destruct I as [<-|[<-|[<-|[]]]]; lra.
Qed.
(** All corners above (or below) a point of a triangle: impossible. *)
Lemma one_side y1 y2 y3 x1 x2 x3 : 0 <= x1 -> 0 <= x2 -> 0 <= x3 -> 0 < x1 + x2 + x3 -> x1 * y1 + x2 * y2 + x3 * y3 == 0 -> 0 < y1 -> 0 < y2 -> 0 < y3 -> False.
Proof.
  intros X1 X2 X3 S E Y1 Y2 Y3. assert (0 <= x1 * y1) by (apply Qmult_le_0_compat; lra). assert (0 <= x2 * y2) by (apply Qmult_le_0_compat; lra). assert (0 <= x3 * y3) by (apply Qmult_le_0_compat; lra).
  assert (K : forall s t, 0 <= s -> 0 < t -> s * t <= 0 -> s == 0) by (intros s t Hs Ht Hst; destruct (Qlt_le_dec 0 s) as [L|L]; [pose proof (Qmult_lt_0_compat _ _ L Ht); lra|lra]).
  assert (x1 == 0) by (apply (K x1 y1); lra). assert (x2 == 0) by (apply (K x2 y2); lra). assert (x3 == 0) by (apply (K x3 y3); lra). lra.
Qed.
Lemma bary a b c p : cross a b p * (snd c - snd p) + cross b c p * (snd a - snd p) + cross c a p * (snd b - snd p) == 0 /\ cross a b p + cross b c p + cross c a p == cross a b c.
Proof. split; unfold cross; ring. Qed.
(** The diagonals of a convex quadrilateral meet. *)
Lemma diagonals a b c d y : 0 < cross b c d -> 0 < cross a c d -> 0 < cross a b d -> 0 < cross a b c -> y < snd a -> y < snd c -> snd b <= y -> snd d <= y -> False.
Proof.
  intros A B C D Ya Yc Yb Yd. assert (Id : cross b c d * (snd a - y) + cross a b d * (snd c - y) + cross a c d * (y - snd b) + cross a b c * (y - snd d) == 0) by (unfold cross; ring).
  assert (0 < cross b c d * (snd a - y)) by (apply Qmult_lt_0_compat; lra). assert (0 < cross a b d * (snd c - y)) by (apply Qmult_lt_0_compat; lra). assert (0 <= cross a c d * (y - snd b)) by (apply Qmult_le_0_compat; lra). assert (0 <= cross a b c * (y - snd d)) by (apply Qmult_le_0_compat; lra). lra.
Qed.
Lemma quad p a b c d : 0 < cross a b c -> 0 < cross a b d -> 0 < cross b c d -> 0 < cross a c d -> (forall f v, In f (faces [a; b; c; d]) -> In v [a; b; c; d] -> 0 <= cross (fst f) (snd f) v) ->
  (point_in_cell p [a; b; c; d] = true -> inner [a; b; c; d] p) /\ (inner [a; b; c; d] p -> below_top [a; b; c; d] p -> point_in_cell p [a; b; c; d] = true).
Proof.
  intros P1 P2 P3 P4 HF.
  destruct (face_test p (a, b)) as [c1|] eqn:E1; [|split; [intros _ f I; apply (boundary p a b E1); apply HF; cbn; auto|intros _ _; apply (some_none p _ (a, b)); [cbn; auto|exact E1]]].
  destruct (face_test p (b, c)) as [c2|] eqn:E2; [|split; [intros _ f I; apply (boundary p b c E2); apply HF; cbn; auto|intros _ _; apply (some_none p _ (b, c)); [cbn; auto|exact E2]]].
  destruct (face_test p (c, d)) as [c3|] eqn:E3; [|split; [intros _ f I; apply (boundary p c d E3); apply HF; cbn; auto|intros _ _; apply (some_none p _ (c, d)); [cbn; auto|exact E3]]].
  destruct (face_test p (d, a)) as [c4|] eqn:E4; [|split; [intros _ f I; apply (boundary p d a E4); apply HF; cbn; auto|intros _ _; apply (some_none p _ (d, a)); [cbn; auto 6|exact E4]]].
  rewrite (all_some4 p a b c d c1 c2 c3 c4 E1 E2 E3 E4).
  destruct (above p a) eqn:Aa; destruct (above p b) eqn:Ab; destruct (above p c) eqn:Ac; destruct (above p d) eqn:Ad.
  6: { exfalso. apply above_t in Aa, Ac. apply above_f in Ab, Ad. exact (diagonals a b c d (snd p) P3 P4 P2 P1 Aa Ac Ab Ad). }
  10: { exfalso. apply above_f in Aa, Ac. apply above_t in Ab, Ad. assert (E : forall x y z, cross x y z == cross y z x) by (intros; unfold cross; ring). pose proof (E a c d) as Q1. pose proof (E a b d) as Q2. pose proof (E a b c) as Q3. apply (diagonals b c d a (snd p)); auto; lra. }
  { level. cbn [xorb]. split; [discriminate|]. intros W _. exfalso. apply above_t in Aa, Ab, Ac, Ad.
    assert (W1 := W (a, b) (or_introl eq_refl)). assert (W2 := W (b, c) (or_intror (or_introl eq_refl))). assert (W3 := W (c, d) (or_intror (or_intror (or_introl eq_refl)))). assert (W4 := W (d, a) (or_intror (or_intror (or_intror (or_introl eq_refl))))). cbn [fst snd] in *.
    assert (Ec : cross c a p == - cross a c p) by (unfold cross; ring). destruct (Qlt_le_dec (cross a c p) 0) as [N|N].
    - destruct (bary a b c p) as (B1 & B2). apply (one_side (snd c - snd p) (snd a - snd p) (snd b - snd p) (cross a b p) (cross b c p) (cross c a p)); lra.
    - destruct (bary a c d p) as (B1 & B2). apply (one_side (snd d - snd p) (snd a - snd p) (snd c - snd p) (cross a c p) (cross c d p) (cross d a p)); lra. }
  1-12: up_down HF; level; rewrite ?xorb_false_r, ?xorb_false_l in *; split;
    [intros H; match type of UD with xorb ?u ?v = true <-> _ => assert (H' : xorb u v = true) by (first [exact H|rewrite xorb_comm; exact H]) end; apply UD in H'; destruct H' as (H1 & H2); intros f I; apply (CH H1 H2); apply HF; cbn; auto 6
    |intros W _; assert (H' := proj2 UD (inner_up _ W ltac:(cbn; auto 6) ltac:(cbn; auto 6))); first [exact H'|rewrite xorb_comm; exact H']].
  level. cbn [xorb]. split; [discriminate|]. intros _ (v & I & L). exfalso. apply above_f in Aa, Ab, Ac, Ad. cbn in I. destruct I as [<-|[<-|[<-|[<-|[]]]]]; lra.
Qed.
