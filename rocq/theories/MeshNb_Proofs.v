(** Proofs about the mesh hierarchy: neighbour cells. *)
From Coq Require Import List Arith ZArith QArith Qabs Bool Lia Permutation.
Import ListNotations.
From Verif Require Import Base Mesh_Model Mesh_Spec Mesh_Proofs.
Open Scope Z_scope.

(** ** std::set *)
Lemma in_set_add a l : forall b, In b (set_add a l) <-> b = a \/ In b l.
Proof.
  induction l as [|c l IH]; intros b; cbn [set_add In]; [intuition|].
  destruct (Z.ltb_spec a c); [cbn [In]; intuition|].
  destruct (Z.eqb_spec a c); [subst; cbn [In]; intuition|]. cbn [In]. rewrite IH. intuition.
Qed.
Lemma set_add_ascending a l : ascending l -> ascending (set_add a l).
Proof.
  induction l as [|c l IH]; cbn [set_add ascending]; [intros _; split; [intros b []|exact I]|].
  intros (A & B). destruct (Z.ltb_spec a c).
  - cbn [ascending In]. split; [|split; auto]. intros b [<-|Hb]; [lia|]. specialize (A b Hb); lia.
  - destruct (Z.eqb_spec a c); [cbn [ascending]; auto|]. cbn [ascending]. split; [|auto].
    intros b Hb. apply in_set_add in Hb as [->|Hb]; [lia|auto].
Qed.

Lemma in_zrange a b x : In x (zrange a b) <-> a <= x < b.
Proof.
  unfold zrange. rewrite in_map_iff. split.
  - intros (i & <- & Hi). apply in_seq in Hi. lia.
  - intros H. exists (Z.to_nat (x - a)). split; [lia|]. apply in_seq. lia.
Qed.

(** ** Coordinates *)
Lemma extent_cells_pos m i : mesh_ok m -> (i < ndim m)%nat -> 0 < nth i (dims m) 0 /\ 0 < extent_cells m i.
Proof.
  intros H Hi. destruct (mesh_widths m H) as (L1 & _ & F1 & _ & _ & _ & W & _ & _ & P).
  unfold extent_cells. change (2 ^ Z.of_nat (order m)) with (ncells_dim_fine m).
  destruct (nth_error_lt_some (coarse_widths m) i) as [w Ew]; [lia|].
  rewrite Forall_forall in F1. assert (0 < w) by (apply F1; eapply nth_error_In; eauto).
  rewrite <- W in Ew by lia. unfold rd in Ew. rewrite (nth_error_nth _ _ 0 Ew). nia.
Qed.

Definition tuple_of (m : mesh) (y : nat -> Z) : list Z :=
  map (fun i => y i / ncells_dim_fine m) (seq 0 (ndim m)) ++ map (fun i => y i mod ncells_dim_fine m) (seq 0 (ndim m)).

Lemma Forall2_nth_intro {A B} (R : A -> B -> Prop) (da : A) (db : B) l1 : forall l2, length l1 = length l2 ->
  (forall i, (i < length l1)%nat -> R (nth i l1 da) (nth i l2 db)) -> Forall2 R l1 l2.
Proof.
  induction l1 as [|a l1 IH]; intros [|b l2] L H; cbn in L; try discriminate; constructor.
  - apply (H 0%nat); cbn; lia.
  - apply IH; [lia|]. intros i Hi. apply (H (S i)); cbn; lia.
Qed.
Lemma Forall2_nth_elim {A B} (R : A -> B -> Prop) (da : A) (db : B) l1 l2 : Forall2 R l1 l2 ->
  forall i, (i < length l1)%nat -> R (nth i l1 da) (nth i l2 db).
Proof. induction 1; intros [|i] Hi; cbn in *; try lia; auto. apply IHForall2; lia. Qed.

Lemma nth_map_seq' {B} (f : nat -> B) n i d : (i < n)%nat -> nth i (map f (seq 0 n)) d = f i.
Proof. intros H. rewrite (nth_indep _ d (f 0%nat)) by (rewrite map_length, seq_length; lia). rewrite map_nth, seq_nth by lia. reflexivity. Qed.

Lemma coarse_nth m i : mesh_ok m -> (i < ndim m)%nat -> nth i (coarse_widths m) 0 = nth i (dims m) 0.
Proof.
  intros H Hi. destruct (mesh_widths m H) as (L1 & _ & _ & _ & _ & _ & W & _).
  destruct (nth_error_lt_some (coarse_widths m) i) as [w Ew]; [lia|].
  pose proof Ew as Ew'. rewrite <- W in Ew' by lia. unfold rd in Ew'.
  rewrite (nth_error_nth _ _ 0 Ew), (nth_error_nth _ _ 0 Ew'). reflexivity.
Qed.
Lemma fine_nth m i : (i < ndim m)%nat -> nth i (fine_widths m) 0 = ncells_dim_fine m.
Proof.
  intros Hi. unfold fine_widths. change (2 ^ Z.of_nat (order m)) with (ncells_dim_fine m).
  rewrite (nth_indep _ 0 (ncells_dim_fine m)) by (rewrite repeat_length; lia). apply nth_repeat.
Qed.

Lemma tuple_of_cell m y : mesh_ok m -> (forall i, (i < ndim m)%nat -> 0 <= y i < extent_cells m i) ->
  cell_tuple m (tuple_of m y) /\ forall i, (i < ndim m)%nat -> coord m (tuple_of m y) i = y i.
Proof.
  intros H Y. destruct (mesh_widths m H) as (L1 & L2 & _ & _ & _ & _ & _ & _ & _ & P).
  split.
  - eexists _, _. split; [reflexivity|]. split.
    + apply (Forall2_nth_intro _ 0 0); [rewrite map_length, seq_length; lia|]. intros i Hi. rewrite L1 in Hi.
      rewrite coarse_nth, nth_map_seq' by auto. specialize (Y i Hi). unfold extent_cells in Y.
      change (2 ^ Z.of_nat (order m)) with (ncells_dim_fine m) in Y.
      split; [apply Z.div_pos; lia|]. apply Z.div_lt_upper_bound; lia.
    + apply (Forall2_nth_intro _ 0 0); [rewrite map_length, seq_length; lia|]. intros i Hi. rewrite L2 in Hi.
      rewrite fine_nth, nth_map_seq' by auto. apply Z.mod_pos_bound; lia.
  - intros i Hi. unfold coord, tuple_of. change (2 ^ Z.of_nat (order m)) with (ncells_dim_fine m).
    rewrite app_nth1 by (rewrite map_length, seq_length; lia).
    rewrite app_nth2 by (rewrite map_length, seq_length; lia). rewrite map_length, seq_length.
    replace (ndim m + i - ndim m)%nat with i by lia. rewrite !nth_map_seq' by lia.
    rewrite (Z.div_mod (y i) (ncells_dim_fine m)) at 3 by lia. ring.
Qed.

Lemma cell_tuple_coord m t : mesh_ok m -> cell_tuple m t ->
  (forall i, (i < ndim m)%nat -> 0 <= coord m t i < extent_cells m i) /\ t = tuple_of m (coord m t).
Proof.
  intros H C. destruct (mesh_widths m H) as (L1 & L2 & _ & _ & _ & _ & _ & _ & _ & P).
  destruct C as (tc & tf & -> & Bc & Bf).
  pose proof (in_box_length _ _ Bc) as Lc. pose proof (in_box_length _ _ Bf) as Lf.
  assert (E : forall i, (i < ndim m)%nat -> coord m (tc ++ tf) i = nth i tc 0 * ncells_dim_fine m + nth i tf 0).
  { intros i Hi. unfold coord. rewrite app_nth1 by lia. rewrite app_nth2 by lia. replace (ndim m + i - length tc)%nat with i by lia. reflexivity. }
  assert (R : forall i, (i < ndim m)%nat -> 0 <= nth i tc 0 < nth i (dims m) 0 /\ 0 <= nth i tf 0 < ncells_dim_fine m).
  { intros i Hi. split.
    - rewrite <- coarse_nth by auto. apply (Forall2_nth_elim _ 0 0 _ _ Bc); lia.
    - rewrite <- (fine_nth m i) by auto. apply (Forall2_nth_elim _ 0 0 _ _ Bf); lia. }
  split.
  - intros i Hi. rewrite E by auto. specialize (R i Hi). unfold extent_cells. change (2 ^ Z.of_nat (order m)) with (ncells_dim_fine m). nia.
  - unfold tuple_of. f_equal.
    + apply (nth_ext _ _ 0 0); [rewrite map_length, seq_length; lia|]. intros i Hi. rewrite nth_map_seq', E by lia.
      specialize (R i ltac:(lia)). rewrite Z.div_add_l, Z.div_small by lia. ring.
    + apply (nth_ext _ _ 0 0); [rewrite map_length, seq_length; lia|]. intros i Hi. rewrite nth_map_seq', E by lia.
      specialize (R i ltac:(lia)). rewrite Z.add_comm, Z.mod_add, Z.mod_small by lia. reflexivity.
Qed.

Lemma cell_tuple_length m t : mesh_ok m -> cell_tuple m t -> length t = (2 * ndim m)%nat.
Proof. intros H C. apply (cell_tuple_parts m t H C). Qed.

Lemma mapM_seq {B} (f : nat -> option B) (g : nat -> B) n : (forall i, (i < n)%nat -> f i = Some (g i)) ->
  mapM f (seq 0 n) = Some (map g (seq 0 n)).
Proof.
  intros H. assert (G : forall l, (forall i, In i l -> (i < n)%nat) -> mapM f l = Some (map g l)).
  { induction l as [|a l IH]; intros Hl; [reflexivity|]. cbn [mapM map]. rewrite H by (apply Hl; left; auto). cbn [obind].
    rewrite IH by (intros i Hi; apply Hl; right; auto). reflexivity. }
  apply G. intros i Hi. apply in_seq in Hi; lia.
Qed.

Lemma cart_tuple_correct m t : mesh_ok m -> cell_tuple m t ->
  map_tuple_to_cart_tuple m t = Some (map (coord m t) (seq 0 (ndim m))).
Proof.
  intros H C. pose proof (cell_tuple_length m t H C) as L. unfold map_tuple_to_cart_tuple. apply mapM_seq. intros i Hi.
  destruct (nth_error_lt_some t (ndim m + i)) as [f Ef]; [lia|]. destruct (nth_error_lt_some t i) as [c Ec]; [lia|].
  unfold rd. rewrite Ef, Ec. cbn [obind]. unfold coord. rewrite (nth_error_nth _ _ 0 Ef), (nth_error_nth _ _ 0 Ec). f_equal. unfold ncells_dim_fine; ring.
Qed.

Lemma cart_to_tuple_correct m y : mesh_ok m -> (ndim m <= length y)%nat -> (forall i, (i < ndim m)%nat -> 0 <= nth i y 0) ->
  cart_tuple_to_tuple m y = Some (tuple_of m (fun i => nth i y 0)).
Proof.
  intros H L Y. destruct (mesh_widths m H) as (_ & _ & _ & _ & _ & _ & _ & _ & _ & P).
  unfold cart_tuple_to_tuple, tuple_of.
  rewrite (mapM_seq _ (fun i => nth i y 0 / ncells_dim_fine m)).
  2: { intros i Hi. destruct (nth_error_lt_some y i) as [v Ev]; [lia|]. unfold rd. rewrite Ev. cbn [obind]. specialize (Y i Hi).
       rewrite (nth_error_nth _ _ 0 Ev) in *. rewrite Z.quot_div_nonneg by lia. reflexivity. }
  cbn [obind]. rewrite (mapM_seq _ (fun i => nth i y 0 mod ncells_dim_fine m)).
  2: { intros i Hi. destruct (nth_error_lt_some y i) as [v Ev]; [lia|]. unfold rd. rewrite Ev. cbn [obind]. specialize (Y i Hi).
       rewrite (nth_error_nth _ _ 0 Ev) in *. rewrite Z.rem_mod_nonneg by lia. reflexivity. }
  reflexivity.
Qed.

(** ** One offset *)
Definition ovalid (m : mesh) (pbc : bool) (t ox : list Z) : bool :=
  forallb (fun i => pbc || ((0 <=? coord m t i + nth i ox 0) && (coord m t i + nth i ox 0 <? extent_cells m i))) (seq 0 (ndim m)).
Definition otarget (m : mesh) (t ox : list Z) : Z :=
  cell_index m (tuple_of m (fun i => (coord m t i + nth i ox 0) mod extent_cells m i)).

Lemma forallb_map {A B} (f : B -> bool) (g : A -> B) l : forallb f (map g l) = forallb (fun x => f (g x)) l.
Proof. induction l as [|a l IH]; cbn [map forallb]; [reflexivity|rewrite IH; reflexivity]. Qed.

Lemma tuple_of_ext m y1 y2 : (forall i, (i < ndim m)%nat -> y1 i = y2 i) -> tuple_of m y1 = tuple_of m y2.
Proof.
  intros E. unfold tuple_of. f_equal; apply map_ext_in; intros i Hi; apply in_seq in Hi; rewrite E by lia; reflexivity.
Qed.

Lemma item_correct m pbc t cc output ox c : mesh_ok m -> cell_tuple m t -> length ox = 3%nat -> (ndim m <= 3)%nat ->
  (forall i, (i < ndim m)%nat -> nth_error cc i = Some (extent_cells m i)) ->
  (forall i, (i < ndim m)%nat -> Z.abs (nth i ox 0) <= extent_cells m i) ->
  neighbour_item m c pbc cc (map (coord m t) (seq 0 (ndim m))) output ox
  = Some (if ovalid m pbc t ox && negb (otarget m t ox =? c) then set_add (otarget m t ox) output else output).
Proof.
  intros H C Lox N3 Hcc Hox.
  destruct (mesh_widths m H) as (_ & _ & _ & _ & _ & _ & _ & _ & _ & P).
  destruct (cell_tuple_coord m t H C) as (R & _).
  set (y := fun i => (coord m t i + nth i ox 0) mod extent_cells m i).
  assert (Y : forall i, (i < ndim m)%nat -> 0 <= y i < extent_cells m i).
  { intros i Hi. apply Z.mod_pos_bound. apply (extent_cells_pos m i H Hi). }
  unfold neighbour_item.
  rewrite (mapM_seq _ (fun i => (pbc || ((0 <=? coord m t i + nth i ox 0) && (coord m t i + nth i ox 0 <? extent_cells m i)),
                                (y i / ncells_dim_fine m, y i mod ncells_dim_fine m)))).
  2: { intros i Hi. unfold rd. rewrite nth_error_map_seq, Hcc by auto. destruct (Nat.ltb_spec i (ndim m)); [|lia].
       destruct (nth_error_lt_some ox i) as [o Eo]; [lia|]. rewrite Eo. cbn [obind plus].
       destruct (extent_cells_pos m i H Hi) as (_ & Pi). destruct (Z.eqb_spec (extent_cells m i) 0); [lia|]. cbn [negb assert obind].
       specialize (R i Hi). specialize (Hox i Hi). specialize (Y i Hi). rewrite (nth_error_nth _ _ 0 Eo) in *.
       assert (Ey : Z.rem (coord m t i + o + extent_cells m i) (extent_cells m i) = y i).
       { unfold y. rewrite (nth_error_nth _ _ 0 Eo). rewrite Z.rem_mod_nonneg by lia.
         replace (coord m t i + o + extent_cells m i) with (coord m t i + o + 1 * extent_cells m i) by ring. apply Z.mod_add; lia. }
       rewrite Ey. rewrite Z.quot_div_nonneg, Z.rem_mod_nonneg by lia. reflexivity. }
  cbn [obind]. rewrite forallb_map. cbn [fst]. rewrite !map_map. cbn [fst snd].
  change (map (fun x => y x / ncells_dim_fine m) (seq 0 (ndim m)) ++ map (fun x => y x mod ncells_dim_fine m) (seq 0 (ndim m))) with (tuple_of m y).
  destruct (tuple_of_cell m y H Y) as (Ct & _). destruct (to_linear_correct m _ H Ct) as (E1 & B & _).
  rewrite E1. cbn [obind]. rewrite ncells_global_correct by exact H. cbn [obind].
  destruct (Z.ltb_spec (cell_index m (tuple_of m y)) (ncells m)); [|lia]. cbn [assert obind].
  destruct (Z.ltb_spec (-1) (cell_index m (tuple_of m y))); [|lia]. cbn [assert obind]. reflexivity.
Qed.

Lemma items_fold m pbc t cc c : mesh_ok m -> cell_tuple m t -> (ndim m <= 3)%nat ->
  (forall i, (i < ndim m)%nat -> nth_error cc i = Some (extent_cells m i)) ->
  forall os, (forall ox, In ox os -> length ox = 3%nat /\ forall i, (i < ndim m)%nat -> Z.abs (nth i ox 0) <= extent_cells m i) ->
  forall output, exists out,
    foldM (neighbour_item m c pbc cc (map (coord m t) (seq 0 (ndim m)))) output os = Some out /\
    (forall d, In d out <-> In d output \/ exists ox, In ox os /\ ovalid m pbc t ox = true /\ otarget m t ox = d /\ d <> c) /\
    (ascending output -> ascending out).
Proof.
  intros H C N3 Hcc. induction os as [|ox os IH]; intros Hos output.
  - exists output. split; [reflexivity|]. split; [|auto]. intros d. split; [auto|]. intros [?|(ox & [] & _)]; auto.
  - cbn [foldM]. destruct (Hos ox (or_introl eq_refl)) as (Lox & Box).
    rewrite (item_correct m pbc t cc output ox c H C Lox N3 Hcc Box). cbn [obind].
    set (o1 := if ovalid m pbc t ox && negb (otarget m t ox =? c) then set_add (otarget m t ox) output else output).
    destruct (IH (fun o Ho => Hos o (or_intror Ho)) o1) as (out & E & I & S). exists out. split; [exact E|]. split.
    + intros d. rewrite I.
      assert (I1 : In d o1 <-> In d output \/ (ovalid m pbc t ox = true /\ otarget m t ox = d /\ d <> c)).
      { unfold o1. destruct (ovalid m pbc t ox) eqn:V; cbn [andb].
        - destruct (Z.eqb_spec (otarget m t ox) c) as [Q|Q]; cbn [negb].
          + split; [auto|]. intros [?|(_ & <- & ?)]; [auto|congruence].
          + rewrite in_set_add. split; [intros [->|?]; auto|]. intros [?|(_ & <- & ?)]; auto.
        - split; [auto|]. intros [?|(? & _)]; [auto|congruence]. }
      rewrite I1. split.
      * intros [[?|(? & ? & ?)]|(o & Ho & ?)]; [auto|right; exists ox; cbn [In]; auto|right; exists o; cbn [In]; auto].
      * intros [?|(o & [<-|Ho] & ? & ? & ?)]; [auto|left; right; auto|right; exists o; auto].
    + intros A. apply S. unfold o1. destruct (_ && _); [apply set_add_ascending|]; exact A.
Qed.

Lemma finite_choice n (P : nat -> Z -> Prop) : (forall i, (i < n)%nat -> exists k, P i k) ->
  exists f, forall i, (i < n)%nat -> P i (f i).
Proof.
  induction n as [|n IH]; intros H; [exists (fun _ => 0); intros i Hi; lia|].
  destruct IH as (f & Hf); [intros i Hi; apply H; lia|]. destruct (H n) as (k & Hk); [lia|].
  exists (fun i => if Nat.eqb i n then k else f i). intros i Hi. destruct (Nat.eqb_spec i n); [subst; auto|apply Hf; lia].
Qed.

(** ** The neighbours of one cell *)
Lemma setup3 m offset : mesh_ok m -> (ndim m <= 3)%nat ->
  exists s0 s1 s2 e0 e1 e2 cc,
    foldM (fun a dimx => upd a dimx (- offset)) [0; 0; 0] (seq 0 (ndim m)) = Some [s0; s1; s2] /\
    foldM (fun a dimx => upd a dimx (offset + 1)) [1; 1; 1] (seq 0 (ndim m)) = Some [e0; e1; e2] /\
    foldM (fun a dimx => d <- rd (dims m) dimx ;; upd a dimx (d * ncells_dim_fine m)) [1; 1; 1] (seq 0 (ndim m)) = Some cc /\
    (forall i, (i < ndim m)%nat -> nth i [s0; s1; s2] 0 = - offset /\ nth i [e0; e1; e2] 0 = offset + 1 /\ nth_error cc i = Some (extent_cells m i)) /\
    (forall i, (ndim m <= i < 3)%nat -> nth i [s0; s1; s2] 0 = 0 /\ nth i [e0; e1; e2] 0 = 1).
Proof.
  intros ((N & L) & _) N3. unfold extent_cells.
  destruct (ndim m) as [|[|[|[|n]]]]; try lia; destruct (dims m) as [|d0 [|d1 [|d2 ds]]]; cbn in L; try lia;
    cbn [seq foldM upd rd nth_error obind]; eexists _, _, _, _, _, _, _; (split; [reflexivity|]); (split; [reflexivity|]); (split; [reflexivity|]);
    (split; intros i Hi; destruct i as [|[|[|i]]]; try lia; cbn; auto).
Qed.

Lemma one_correct m c offset pbc output : mesh_ok m -> (ndim m <= 3)%nat -> 0 <= c < ncells m ->
  0 <= offset -> (forall i, (i < ndim m)%nat -> offset <= extent_cells m i) ->
  exists out, get_neighbour_mh_cells_one m c offset pbc output = Some out /\
    (forall d, In d out <-> In d output \/ (d <> c /\ close_cells m offset pbc c d)) /\
    (ascending output -> ascending out).
Proof.
  intros H N3 Hc O0 ON. destruct (to_tuple_correct m c H Hc) as (t & Et & C & Ic & _).
  destruct (setup3 m offset H N3) as (s0 & s1 & s2 & e0 & e1 & e2 & cc & E1 & E2 & E3 & In1 & In2).
  unfold get_neighbour_mh_cells_one. rewrite E1, E2, E3, Et. cbn [obind]. rewrite (cart_tuple_correct m t H C). cbn [obind rd nth_error].
  set (os := flat_map _ _).
  assert (Hos : forall ox, In ox os <-> exists o0 o1 o2, ox = [o0; o1; o2] /\ s0 <= o0 < e0 /\ s1 <= o1 < e1 /\ s2 <= o2 < e2).
  { intros ox. unfold os. rewrite in_flat_map. split.
    - intros (o2 & H2 & Hx). apply in_flat_map in Hx as (o1 & H1 & Hx). apply in_map_iff in Hx as (o0 & <- & H0).
      rewrite in_zrange in H0, H1, H2. eauto 10.
    - intros (o0 & o1 & o2 & -> & H0 & H1 & H2). exists o2. rewrite in_zrange. split; [exact H2|]. apply in_flat_map. exists o1. rewrite in_zrange.
      split; [exact H1|]. apply in_map_iff. exists o0. rewrite in_zrange. auto. }
  assert (Hb : forall ox, In ox os <-> length ox = 3%nat /\ (forall i, (i < 3)%nat -> nth i [s0; s1; s2] 0 <= nth i ox 0 < nth i [e0; e1; e2] 0)).
  { intros ox. rewrite Hos. split.
    - intros (o0 & o1 & o2 & -> & H0 & H1 & H2). split; [reflexivity|]. intros [|[|[|i]]] Hi; cbn [nth]; lia.
    - intros (L & B). destruct ox as [|o0 [|o1 [|o2 [|]]]]; try discriminate. exists o0, o1, o2. split; [reflexivity|].
      pose proof (B 0%nat ltac:(lia)). pose proof (B 1%nat ltac:(lia)). pose proof (B 2%nat ltac:(lia)). cbn [nth] in *. auto. }
  clear Hos.
  destruct (items_fold m pbc t cc c H C N3 (fun i Hi => proj2 (proj2 (In1 i Hi))) os) with (output := output) as (out & E & I & S).
  { intros ox Hox. apply Hb in Hox as (L & B). split; [exact L|]. intros i Hi. specialize (B i ltac:(lia)). destruct (In1 i Hi) as (-> & -> & _) in B.
    specialize (ON i Hi). lia. }
  exists out. split; [exact E|]. split; [|exact S]. intros d. rewrite I.
  destruct (cell_tuple_coord m t H C) as (R & _).
  split; (intros [?|X]; [left; assumption|right]).
  - destruct X as (ox & Hox & V & T & Nd). split; [exact Nd|]. apply Hb in Hox as (L & B).
    set (y := fun i => (coord m t i + nth i ox 0) mod extent_cells m i).
    assert (Y : forall i, (i < ndim m)%nat -> 0 <= y i < extent_cells m i).
    { intros i Hi. apply Z.mod_pos_bound. apply (extent_cells_pos m i H Hi). }
    destruct (tuple_of_cell m y H Y) as (Ct & Cy).
    exists t, (tuple_of m y). split; [exact C|]. split; [exact Ct|]. split; [exact Ic|]. split; [exact T|].
    intros i Hi. rewrite Cy by exact Hi. destruct (extent_cells_pos m i H Hi) as (_ & Pi).
    exists (- ((coord m t i + nth i ox 0) / extent_cells m i)). split.
    + intros ->. unfold ovalid in V. rewrite forallb_forall in V. specialize (V i). rewrite in_seq in V. specialize (V ltac:(lia)).
      cbn [orb] in V. apply andb_true_iff in V as (V1 & V2). apply Z.leb_le in V1. apply Z.ltb_lt in V2. rewrite Z.div_small by lia. reflexivity.
    + specialize (B i ltac:(lia)). destruct (In1 i Hi) as (-> & -> & _) in B.
      pose proof (Z.div_mod (coord m t i + nth i ox 0) (extent_cells m i) ltac:(lia)) as D. unfold y. nia.
  - destruct X as (Nd & t1 & t2 & C1 & C2 & I1 & I2 & K).
    assert (t1 = t) by (apply (index_inj m); auto; congruence). subst t1.
    apply finite_choice in K as (k & K).
    set (o := fun i => if (i <? ndim m)%nat then coord m t2 i - coord m t i - k i * extent_cells m i else 0).
    destruct (cell_tuple_coord m t2 H C2) as (R2 & E2').
    exists [o 0%nat; o 1%nat; o 2%nat]. assert (On : forall i, (i < 3)%nat -> nth i [o 0%nat; o 1%nat; o 2%nat] 0 = o i) by (intros [|[|[|i]]] Hi; try lia; reflexivity).
    split; [|split; [|split; [|exact Nd]]].
    + apply Hb. split; [reflexivity|]. intros i Hi. rewrite On by exact Hi. unfold o. destruct (Nat.ltb_spec i (ndim m)) as [Q|Q].
      * destruct (In1 i Q) as (-> & -> & _). destruct (K i Q) as (_ & A). lia.
      * destruct (In2 i ltac:(lia)) as (-> & ->). lia.
    + unfold ovalid. apply forallb_forall. intros i Hi. apply in_seq in Hi. rewrite On by lia. unfold o.
      destruct (Nat.ltb_spec i (ndim m)); [|lia]. destruct pbc; [reflexivity|]. cbn [orb].
      destruct (K i ltac:(lia)) as (Z0 & _). rewrite Z0 by reflexivity. specialize (R2 i ltac:(lia)). apply andb_true_iff. split; [apply Z.leb_le|apply Z.ltb_lt]; lia.
    + unfold otarget. rewrite <- I2. f_equal. transitivity (tuple_of m (coord m t2)); [|symmetry; exact E2']. apply tuple_of_ext. intros i Hi. rewrite On by lia. unfold o.
      destruct (Nat.ltb_spec i (ndim m)); [|lia].
      replace (coord m t i + (coord m t2 i - coord m t i - k i * extent_cells m i)) with (coord m t2 i + (- k i) * extent_cells m i) by ring.
      destruct (extent_cells_pos m i H Hi) as (_ & Pi). rewrite Z.mod_add by lia. apply Z.mod_small. apply R2, Hi.
Qed.

Lemma in_fold_set_add l : forall s d, In d (fold_left (fun s c => set_add c s) l s) <-> In d s \/ In d l.
Proof.
  induction l as [|a l IH]; intros s d; cbn [fold_left In]; [intuition|]. rewrite IH, in_set_add. intuition.
Qed.
Lemma fold_set_add_ascending l : forall s, ascending s -> ascending (fold_left (fun s c => set_add c s) l s).
Proof. induction l as [|a l IH]; intros s A; cbn [fold_left]; [exact A|]. apply IH, set_add_ascending, A. Qed.

Lemma list_correct m cells extra offset pbc : mesh_ok m -> (ndim m <= 3)%nat -> Forall (fun c => 0 <= c < ncells m) cells ->
  0 <= offset -> (forall i, (i < ndim m)%nat -> offset <= extent_cells m i) ->
  exists out, get_neighbour_mh_cells m cells extra offset pbc = Some out /\
    (forall d, In d out <-> In d cells \/ In d extra \/ exists c, In c cells /\ close_cells m offset pbc c d) /\
    ascending out.
Proof.
  intros H N3 Hc O0 ON. unfold get_neighbour_mh_cells.
  assert (G : forall cs, Forall (fun c => 0 <= c < ncells m) cs -> forall s, ascending s -> exists out,
    foldM (fun s c => get_neighbour_mh_cells_one m c offset pbc s) s cs = Some out /\
    (forall d, In d out <-> In d s \/ exists c, In c cs /\ d <> c /\ close_cells m offset pbc c d) /\ ascending out).
  { induction 1 as [|c cs Bc F IH]; intros s A.
    - exists s. split; [reflexivity|]. split; [|exact A]. intros d. split; [auto|]. intros [?|(c & [] & _)]; auto.
    - cbn [foldM]. destruct (one_correct m c offset pbc s H N3 Bc O0 ON) as (o1 & E1 & I1 & A1). rewrite E1. cbn [obind].
      destruct (IH o1 (A1 A)) as (out & E & I & Aout). exists out. split; [exact E|]. split; [|exact Aout].
      intros d. rewrite I, I1. split.
      + intros [[?|(? & ?)]|(c' & ? & ?)]; [auto|right; exists c; cbn [In]; auto|right; exists c'; cbn [In]; auto].
      + intros [?|(c' & [<-|?] & ? & ?)]; [auto|left; right; auto|right; exists c'; auto]. }
  destruct (G cells Hc (fold_left (fun s c => set_add c s) extra (fold_left (fun s c => set_add c s) cells []))) as (out & E & I & A).
  { apply fold_set_add_ascending, fold_set_add_ascending. exact Logic.I. }
  exists out. split; [exact E|]. split; [|exact A]. intros d. rewrite I, !in_fold_set_add. cbn [In]. split.
  - intros [[[[]|?]|?]|(c & ? & ? & ?)]; eauto.
  - intros [?|[?|(c & ? & ?)]]; auto. destruct (Z.eq_dec d c) as [->|Q]; [left; left; auto|right; exists c; auto].
Qed.
