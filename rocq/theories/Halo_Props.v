(** C70: a mesh cell that is sent arrives as it was, and the mesh built from the cells received is the part of the mesh they make up.
    C71: the numbers of cells and points on a rank. *)
From Coq Require Import List Arith ZArith Bool Lia Sorting.Sorted.
Import ListNotations.
From Verif Require Import Base Kernel Serial_Model MHC_Spec Serial_Proofs CellRep_Model CellRep_Spec CellRep_Proofs Halo_Model Halo_Spec HaloRep_Proofs HaloMap_Proofs Halo_Proofs.

(** ** C70 *)
Theorem C70_round_trip : forall ni r, width ni -> rep_ok ni r ->
  exists b, rep_serialise ni r = Some b /\ rep_deserialise ni (mk_rep [] [] []) b = Some r.
Proof. exact round_trip. Qed.
Print Assumptions C70_round_trip.

(** Cells meet the contract of the objects that are collected on the cells of the mesh hierarchy (C69). *)
Theorem C70_contract : forall ni, width ni -> serial_ok (cell_serial ni) (cell_ok ni).
Proof. exact cell_serial_ok. Qed.
Print Assumptions C70_contract.

(** The message of a cell holds its numbers and its points, with the global numbers. *)
Theorem C70_message : forall ni ndim G d num a b h rank types local point, width ni -> mesh_ok ndim G -> part_of ni G d num -> (pstart d <= a /\ b <= pend d)%Z ->
  make_helper d num a b = Some h -> get_dmplex_cell_index h local = Some point -> small_cell G (abs_id (num point)) ->
  exists m r, copyable_cell ni h rank types local = Some m /\ local_id m = local /\ owning_rank m = rank /\ cell_type m = types point /\ global_id m = num point /\
    rep_deserialise ni (mk_rep [] [] []) (representation m) = Some r /\ represents G (num point) r.
Proof.
  intros ni ndim G d num a b h rank types local point W Hn Hp Ch Eh Ei Sm.
  assert (I : In point (filter (own num) (range a b))).
  { destruct (helper_cells d num a b) as (H0 & H1). destruct (filter (own num) (range a b)) as [|x t] eqn:Ef; [rewrite H0 in Eh by reflexivity; discriminate|]. destruct H1 as (h' & Eh' & _ & _ & En & _); [discriminate|]. assert (h' = h) by congruence. subst h'.
    unfold get_dmplex_cell_index, znth in Ei. destruct (0 <=? local)%Z; [|discriminate]. rewrite En in Ei. apply nth_error_In in Ei. exact Ei. }
  apply filter_In in I. destruct I as (I & O). apply range_in in I. unfold own in O. apply Z.ltb_lt in O. assert (Ea : abs_id (num point) = num point) by (unfold abs_id; destruct (Z.ltb_spec (-1) (num point)); [reflexivity|lia]).
  destruct (copyable_ok ni ndim G d num a b h rank types local point W Hn Hp Eh Ei) as (m & r & E & A1 & A2 & A3 & A4 & A5 & A6); [unfold in_chart; rewrite andb_true_iff, Z.leb_le, Z.ltb_lt; lia|exact Sm|].
  exists m, r. rewrite A4, Ea in A6. rewrite Ea in A4. repeat (split; [assumption|]). exact A6.
Qed.
Print Assumptions C70_message.

Theorem C70_halo : forall ni ndim G cells, width ni -> mesh_ok ndim G -> Forall (sent ni G) cells ->
  exists h new, halo_from ni ndim cells = Some h /\ halo_ok G ndim cells h new.
Proof.
  intros ni ndim G cells W Hn F. destruct cells as [|c0 cs].
  - exists (mk_halo 0 [] [] 0 0 [] []), (fun q => q). split; [reflexivity|]. unfold halo_ok. cbn [h_chart h_cones h_ornt h_vstart h_vend h_coords h_remote map_get]. assert (N : forall q, ~ points_of G [] q) by (intros q (c & [] & _)).
    repeat split; try (intros; exfalso; eapply N; eassumption); try discriminate; try (intros; lia); try (intros (q & A & _); destruct (N q A)). intros c [].
  - apply halo_from_ok; [exact Hn|discriminate|]. intros c I. rewrite Forall_forall in F. destruct (F c I) as (d & num & a & b & h & rank & types & local & Hp & Ch & Eh & Ec & Sm).
    pose proof Ec as Ec'. unfold copyable_cell in Ec'. destruct (get_dmplex_cell_index h local) as [point|] eqn:Ei; [cbn [obind] in Ec'|discriminate].
    assert (Eg : get_point_global_index h point = Some (global_id c)). { destruct (rep_of (hdm h) (get_point_global_index h) point) as [r|]; [cbn [obind] in Ec'|discriminate]. destruct (rep_serialise ni r) as [bs|]; [cbn [obind] in Ec'|discriminate]. destruct (get_point_global_index h point) as [g|]; [cbn [obind] in Ec'|discriminate]. injection Ec' as <-. reflexivity. }
    destruct (helper_ok _ _ _ _ _ Eh) as (Ed & En). unfold get_point_global_index in Eg. rewrite Ed, En in Eg. destruct (in_chart d point) eqn:Cp; [cbn [assert obind] in Eg|discriminate]. injection Eg as Eg. rewrite <- Eg in Sm.
    destruct (copyable_ok ni ndim G d num a b h rank types local point W Hn Hp Eh Ei Cp Sm) as (m & r & E & _ & _ & _ & _ & A5 & A6). assert (m = c) by congruence. subst m. exists r. split; assumption.
Qed.
Print Assumptions C70_halo.

(** The object that reads a representation must be empty: the coordinates of vertices are appended to the coordinates it holds. *)
Theorem C70_reuse_refuted : exists r, rep_ok 4 r /\ map_get (vertices r) 3 = Some [5; 6]%Z /\
  (b <- rep_serialise 4 r ;; r' <- rep_deserialise 4 r b ;; map_get (vertices r') 3) = Some [5; 6; 5; 6]%Z.
Proof.
  exists (mk_rep [(3, [])]%Z [(3, [])]%Z [(3, [5; 6])]%Z). split; [|split; reflexivity]. split; [|split].
  - split; [repeat constructor|]. split; [repeat constructor|]. split; [reflexivity|]. intros p c o. cbn [map_get cones orientations]. destruct (p =? 3)%Z; intros A B; [injection A as <-; injection B as <-; reflexivity|discriminate].
  - assert (I3 : int_ok 4 3) by (split; [discriminate|reflexivity]). split; [|split]; cbn [cones orientations vertices]; intros p x [E|[]]; injection E as <- <-; [split; [exact I3|constructor]|constructor|]. split; [exact I3|]. repeat constructor; discriminate.
  - reflexivity.
Qed.
Print Assumptions C70_reuse_refuted.

(** ** Two triangles that share an edge, on two ranks.  Cells 0 and 1, vertices 2 to 5, edges 6 to 10. *)
Definition hx_cone (p : Z) : list (Z * Z) :=
  (if p =? 0 then [(6, 0); (7, 0); (8, 0)] else if p =? 1 then [(7, -1); (10, 0); (9, 0)] else
   if p =? 6 then [(2, 0); (3, 0)] else if p =? 7 then [(3, 0); (4, 0)] else if p =? 8 then [(4, 0); (2, 0)] else if p =? 9 then [(4, 0); (5, 0)] else if p =? 10 then [(5, 0); (3, 0)] else [])%Z.
Definition hx_depth (p : Z) : nat := if (p =? 0)%Z then 2 else if (p =? 1)%Z then 2 else if (p =? 6)%Z then 1 else if (p =? 7)%Z then 1 else if (p =? 8)%Z then 1 else if (p =? 9)%Z then 1 else if (p =? 10)%Z then 1 else 0.
Definition hx_coord (p : Z) : list Z := (if p =? 2 then [0; 0] else if p =? 3 then [100; 0] else if p =? 4 then [0; 100] else [100; 100])%Z.
Definition hx : mesh := mk_mesh hx_cone hx_depth hx_coord.
(** The first rank numbers its points 0 (the cell), 1 2 3, 4 5 6; the second as well, and the vertices 3, 4 and the edge 7 are not its own. *)
Definition hx_local (cone : Z -> list (Z * Z)) (coord : Z -> list Z) : dm :=
  mk_dm 0 7 cone (fun p => if p =? 0 then 0 else if p <? 4 then 2 else 1)%Z 2 coord.
Definition hx_num0 (p : Z) : Z := (if p =? 0 then 0 else if p =? 1 then 2 else if p =? 2 then 3 else if p =? 3 then 4 else if p =? 4 then 6 else if p =? 5 then 7 else if p =? 6 then 8 else 1000 + p)%Z.
Definition hx_num1 (p : Z) : Z := (if p =? 0 then 1 else if p =? 1 then -4 else if p =? 2 then -5 else if p =? 3 then 5 else if p =? 4 then -8 else if p =? 5 then 9 else if p =? 6 then 10 else 1000 + p)%Z.
Definition hx_dm0 : dm := hx_local (fun p => if p =? 0 then [(4, 0); (5, 0); (6, 0)] else if p =? 4 then [(1, 0); (2, 0)] else if p =? 5 then [(2, 0); (3, 0)] else if p =? 6 then [(3, 0); (1, 0)] else [])%Z (fun p => hx_coord (hx_num0 p)).
Definition hx_dm1 : dm := hx_local (fun p => if p =? 0 then [(4, -1); (6, 0); (5, 0)] else if p =? 4 then [(1, 0); (2, 0)] else if p =? 5 then [(2, 0); (3, 0)] else if p =? 6 then [(3, 0); (1, 0)] else [])%Z (fun p => hx_coord (abs_id (hx_num1 p))).
Definition hx_msg (d : dm) (num : Z -> Z) (rank : Z) : option cell_msg := h <- make_helper d num 0 1 ;; copyable_cell 8 h rank (fun _ => 4%Z) 0.
(** The vertices get 0 to 3, the edges 4 to 8, the cells 9 and 10; a cell that comes twice does no harm. *)
Example C70_case : option_map (fun h => (h_chart h, h_cones h, (h_vstart h, h_vend h, h_coords h), h_remote h))
    (m0 <- hx_msg hx_dm0 hx_num0 20 ;; m1 <- hx_msg hx_dm1 hx_num1 30 ;; halo_from 8 2 [m1; m0; m1]) =
  Some (11, [(0, []); (1, []); (2, []); (3, []); (4, [0; 1]); (5, [1; 2]); (6, [2; 0]); (7, [2; 3]); (8, [3; 1]); (9, [4; 5; 6]); (10, [5; 8; 7])],
        (0, 4, [Some 0; Some 0; Some 100; Some 0; Some 0; Some 100; Some 100; Some 100]),
        [(0, (-1, -1, 2)); (1, (-1, -1, 3)); (2, (-1, -1, 4)); (3, (-1, -1, 5)); (4, (-1, -1, 6)); (5, (-1, -1, 7)); (6, (-1, -1, 8)); (7, (-1, -1, 9)); (8, (-1, -1, 10)); (9, (20, 0, 0)); (10, (30, 0, 1))])%Z.
Proof. reflexivity. Qed.
Lemma hx_mesh_ok : mesh_ok 2 hx.
Proof.
  intros p. cbn [gcone gdepth gcoord hx]. unfold hx_cone, hx_depth, hx_coord. repeat match goal with |- context [(p =? ?k)%Z] => destruct (Z.eqb_spec p k); [try subst p|] end; cbn; repeat split; try discriminate; try reflexivity; try contradiction; intros c o I; repeat (destruct I as [I|I]; [injection I as <- <-; reflexivity|]); try destruct I.
Qed.
Lemma hx_small p : (0 <= p <= 10)%Z -> small_cell hx p.
Proof.
  intros Hp l N C. assert (R : forall q, closure hx p q -> (0 <= q <= 10)%Z).
  { induction 1 as [|q c o L IH I]; [exact Hp|]. cbn [gcone hx] in I. unfold hx_cone in I. repeat match type of I with context [(q =? ?k)%Z] => destruct (q =? k)%Z end; cbn in I; repeat (destruct I as [I|I]; [injection I as <- <-; lia|]); destruct I. }
  assert (Ll : length l <= 11). { change 11 with (length (range 0 11)). apply NoDup_incl_length; [exact N|]. intros q I. apply range_in. specialize (R q (C q I)). lia. }
  assert (B : list_sum (map (fun q => (2 + 2 * length (gcone hx q)) + (2 + length (gcoord hx q))) l) <= list_sum (map (fun _ => 12) l)). { apply list_sum_map_le. intros q _. cbn [gcone gcoord hx]. unfold hx_cone, hx_coord. repeat match goal with |- context [(q =? ?k)%Z] => destruct (q =? k)%Z end; cbn; lia. }
  assert (E : list_sum (map (fun _ : Z => 12) l) = 12 * length l). { clear. induction l as [|q l IH]; [reflexivity|]. cbn [map length]. rewrite list_sum_cons, IH. lia. } assert (200 < 2 ^ 31)%Z by reflexivity. lia.
Qed.
Lemma hx_points (Q : Z -> Prop) : Q 0%Z -> Q 1%Z -> Q 2%Z -> Q 3%Z -> Q 4%Z -> Q 5%Z -> Q 6%Z -> forall p, (0 <= p < 7)%Z -> Q p.
Proof. intros. assert (E : (p = 0 \/ p = 1 \/ p = 2 \/ p = 3 \/ p = 4 \/ p = 5 \/ p = 6)%Z) by lia. repeat (destruct E as [->|E]; [assumption|]). subst p. assumption. Qed.
Ltac hx_part :=
  split; [intros p q Cp Cq; apply andb_true_iff in Cp; apply andb_true_iff in Cq; cbn in Cp, Cq; rewrite Z.leb_le, Z.ltb_lt in Cp, Cq; revert p Cp; refine (hx_points _ _ _ _ _ _ _ _); revert q Cq; refine (hx_points _ _ _ _ _ _ _ _); vm_compute; intros E; congruence|];
  intros p Cp; apply andb_true_iff in Cp; cbn in Cp; rewrite Z.leb_le, Z.ltb_lt in Cp; revert p Cp; refine (hx_points _ _ _ _ _ _ _ _);
  (split; [split; vm_compute; [discriminate|reflexivity]|]; split; [reflexivity|]; split; [cbn; intros e I; repeat (destruct I as [<-|I]; [split; [reflexivity|split; vm_compute; [discriminate|reflexivity]]|]); destruct I|]; split; [cbn; lia|]; split; [reflexivity|]; cbn; intros E; (discriminate || (split; [reflexivity|]; repeat constructor; vm_compute; (discriminate || reflexivity)))).
Lemma hx_part0 : part_of 8 hx hx_dm0 hx_num0.
Proof. hx_part. Qed.
Lemma hx_part1 : part_of 8 hx hx_dm1 hx_num1.
Proof. hx_part. Qed.
Example C70_case_hypotheses : exists m0 m1, hx_msg hx_dm0 hx_num0 20 = Some m0 /\ hx_msg hx_dm1 hx_num1 30 = Some m1 /\ width 8 /\ mesh_ok 2 hx /\ Forall (sent 8 hx) [m1; m0; m1].
Proof.
  assert (K : forall d num rank g, part_of 8 hx d num -> pstart d = 0%Z -> pend d = 7%Z -> option_map global_id (hx_msg d num rank) = Some g -> (0 <= g <= 10)%Z -> exists m, hx_msg d num rank = Some m /\ sent 8 hx m).
  { intros d num rank g Hp Es Ee Em Lg. destruct (hx_msg d num rank) as [m|] eqn:E; [|discriminate]. cbn [option_map] in Em. injection Em as Em. exists m. split; [reflexivity|]. unfold hx_msg in E. destruct (make_helper d num 0 1) as [h|] eqn:Eh; [cbn [obind] in E|discriminate]. exists d, num, 0%Z, 1%Z, h, rank, (fun _ => 4%Z), 0%Z. rewrite Es, Ee. split; [exact Hp|]. split; [lia|]. split; [exact Eh|]. split; [exact E|]. apply hx_small. lia. }
  pose proof (K hx_dm0 hx_num0 20%Z 0%Z hx_part0 eq_refl eq_refl eq_refl ltac:(lia)) as S0. pose proof (K hx_dm1 hx_num1 30%Z 1%Z hx_part1 eq_refl eq_refl eq_refl ltac:(lia)) as S1.
  destruct S0 as (m0 & E0 & S0). destruct S1 as (m1 & E1 & S1). exists m0, m1. split; [exact E0|]. split; [exact E1|]. split; [right; reflexivity|]. split; [exact hx_mesh_ok|]. repeat constructor; assumption.
Qed.

(** ** C71 *)
Theorem C71_cells : forall d num a b,
  (make_helper d num a b = None <-> forall p, (a <= p < b)%Z -> (num p < 0)%Z) /\
  forall h, make_helper d num a b = Some h ->
    (forall i p, get_dmplex_cell_index h i = Some p -> get_local_cell_index h p = Some i /\ (a <= p < b)%Z /\ (0 <= num p)%Z) /\
    (forall p, (a <= p < b)%Z -> (0 <= num p)%Z -> exists i, get_local_cell_index h p = Some i /\ get_dmplex_cell_index h i = Some p) /\
    (forall p i, get_local_cell_index h p = Some i -> get_dmplex_cell_index h i = Some p) /\
    (forall i, (0 <= i < Z.of_nat (length (np_to_petsc h)))%Z <-> exists p, get_dmplex_cell_index h i = Some p).
Proof.
  intros d num a b. pose proof (helper_cells d num a b) as (H0 & H1). split.
  - split.
    + intros E p L. destruct (filter (own num) (range a b)) as [|x t] eqn:Ef; [|destruct H1 as (h & Eh & _); [discriminate|congruence]]. destruct (Z_lt_le_dec (num p) 0); [assumption|exfalso]. assert (I : In p (filter (own num) (range a b))) by (apply filter_In; split; [apply range_in; exact L|unfold own; apply Z.ltb_lt; lia]). rewrite Ef in I. destruct I.
    + intros H. apply H0. destruct (filter (own num) (range a b)) as [|x t] eqn:Ef; [reflexivity|exfalso]. assert (I : In x (filter (own num) (range a b))) by (rewrite Ef; left; reflexivity). apply filter_In in I. destruct I as (I & O). apply range_in in I. specialize (H x I). unfold own in O. apply Z.ltb_lt in O. lia.
  - intros h Eh. destruct (filter (own num) (range a b)) as [|x t] eqn:Ef; [rewrite H0 in Eh by reflexivity; discriminate|]. destruct H1 as (h' & Eh' & _ & _ & En & Hl & _); [discriminate|]. assert (h' = h) by congruence. subst h'. rewrite <- Ef in *. clear x t Ef.
    assert (Z1 : forall i p, get_dmplex_cell_index h i = Some p <-> get_local_cell_index h p = Some i). { intros i p. unfold get_dmplex_cell_index, get_local_cell_index, znth. rewrite En, Hl. split; [intros E; destruct (Z.leb_spec 0 i); [|discriminate]; exists (Z.to_nat i); split; [exact E|lia]|]. intros (k & Ek & ->). destruct (Z.leb_spec 0 (Z.of_nat k)); [|lia]. rewrite Nat2Z.id. exact Ek. }
    split; [|split; [|split]].
    + intros i p E. split; [apply Z1; exact E|]. unfold get_dmplex_cell_index, znth in E. destruct (0 <=? i)%Z; [|discriminate]. rewrite En in E. apply nth_error_In, filter_In in E. destruct E as (I & O). apply range_in in I. unfold own in O. apply Z.ltb_lt in O. split; [exact I|lia].
    + intros p L O. assert (I : In p (filter (own num) (range a b))) by (apply filter_In; split; [apply range_in; exact L|unfold own; apply Z.ltb_lt; lia]). apply In_nth_error in I. destruct I as (k & Ek). exists (Z.of_nat k). assert (E : get_local_cell_index h p = Some (Z.of_nat k)) by (unfold get_local_cell_index; rewrite Hl; exists k; split; [exact Ek|reflexivity]). split; [exact E|apply Z1; exact E].
    + intros p i E. apply Z1. exact E.
    + intros i. unfold get_dmplex_cell_index, znth. split.
      * intros L. destruct (Z.leb_spec 0 i); [|lia]. destruct (nth_error (np_to_petsc h) (Z.to_nat i)) as [p|] eqn:E; [exists p; reflexivity|]. apply nth_error_None in E. lia.
      * intros (p & E). destruct (Z.leb_spec 0 i); [|discriminate]. assert (Z.to_nat i < length (np_to_petsc h)) by (apply nth_error_Some; congruence). lia.
Qed.
Print Assumptions C71_cells.

Theorem C71_points : forall d num a b h, (forall p q, in_chart d p = true -> in_chart d q = true -> abs_id (num p) = abs_id (num q) -> p = q) -> make_helper d num a b = Some h ->
  (forall p g, in_chart d p = true -> get_point_global_index h p = Some g -> (0 <= g)%Z /\ (num p = g \/ num p = - g - 1)%Z /\ get_local_point h g = Some p) /\
  (forall p, in_chart d p = true -> exists g, get_point_global_index h p = Some g) /\
  (forall g p, (0 <= g)%Z -> get_local_point h g = Some p -> in_chart d p = true /\ get_point_global_index h p = Some g) /\
  (forall p, in_chart d p = false -> get_point_global_index h p = None).
Proof.
  intros d num a b h Inj Eh. destruct (helper_cells d num a b) as (H0 & H1). destruct (filter (own num) (range a b)) as [|x t] eqn:Ef; [rewrite H0 in Eh by reflexivity; discriminate|]. destruct H1 as (h' & Eh' & Ed & En & _ & _ & Eg); [discriminate|]. assert (h' = h) by congruence. subst h'. clear x t Ef H0 Eh'.
  pose proof (global_to_local_ok d num Inj) as K. rewrite <- Eg in K. assert (Ap : forall c, (0 <= abs_id c)%Z /\ (c = abs_id c \/ c = - abs_id c - 1)%Z) by (intros c; unfold abs_id; destruct (Z.ltb_spec (-1) c); lia). assert (Ai : forall g, (0 <= g)%Z -> abs_id g = g) by (intros g L; unfold abs_id; destruct (Z.ltb_spec (-1) g); [reflexivity|lia]).
  unfold get_point_global_index. rewrite Ed, En. split; [|split; [|split]].
  - intros p g C E. rewrite C in E. cbn [assert obind] in E. injection E as <-. destruct (Ap (num p)) as (A & B). split; [exact A|]. split; [exact B|]. unfold get_local_point. rewrite (Ai _ A). rewrite (proj2 (K (abs_id (num p)) p) (conj C eq_refl)). reflexivity.
  - intros p C. rewrite C. eexists. reflexivity.
  - intros g p Lg E. unfold get_local_point in E. rewrite (Ai g Lg) in E. destruct (map_get (global_to_local h) g) as [q|] eqn:Eq; [|discriminate]. cbn [obind] in E. injection E as <-. apply K in Eq. destruct Eq as (C & <-). rewrite C. split; reflexivity.
  - intros p C. rewrite C. reflexivity.
Qed.
Print Assumptions C71_points.

(** With the signed number of a point that another rank owns, which the check accepts, get_local_point_from_global_point returns point 0. *)
Theorem C71_signed_refuted : exists d num h p, make_helper d num 0 1 = Some h /\ in_chart d p = true /\ get_local_point h (num p) = Some 0%Z /\ p <> 0%Z /\
  (forall p q, in_chart d p = true -> in_chart d q = true -> abs_id (num p) = abs_id (num q) -> p = q).
Proof. exists hx_dm1, hx_num1. eexists. exists 4%Z. split; [reflexivity|]. split; [reflexivity|]. split; [reflexivity|]. split; [discriminate|]. exact (proj1 hx_part1). Qed.
Print Assumptions C71_signed_refuted.

Example C71_case : option_map (fun h => (np_to_petsc h, petsc_to_np h, global_to_local h)) (make_helper (mk_dm 0 5 (fun _ => []) (fun _ => 0%Z) 0 (fun _ => [])) (fun p => if p =? 1 then -8 else 2 * p)%Z 0 4) =
  Some ([0; 2; 3], [(0, 0); (2, 1); (3, 2)], [(0, 0); (4, 2); (6, 3); (7, 1); (8, 4)])%Z.
Proof. reflexivity. Qed.
