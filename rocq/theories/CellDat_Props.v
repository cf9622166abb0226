(** C32: resizing a cell keeps its rows; rows, columns and cells do not alias. *)
From Coq Require Import List Arith Bool ZArith Permutation Lia.
Import ListNotations.
From Verif Require Import Base CellDat_Model CellDat_Spec CellDat_Proofs.

Section C32.
Context {T : Type} (junk : nat -> nat -> T) (junk_ptr : nat -> ptr) (grow : nat -> nat -> nat) (ncells ncol : nat).
Hypotheses (Hcells : 1 <= ncells) (Hcol : 1 <= ncol).

(** Any sequence of resizes, waits and writes that the documentation allows
    succeeds, for every growth policy and every order in which the device
    executes the copies.  Afterwards the number of rows of each cell is the last
    one asked for, and when no resize is outstanding every row and column can be
    read by kernels and by the host, with the last value written. *)
Theorem C32_history cs : all_allowed ncells ncol (@empty T) cs ->
  exists s, run junk junk_ptr grow ncells ncol cs = Some s /\
    let t := history ncol cs in
    nrow s = map (rows t) (seq 0 ncells) /\
    (dirty t = [] -> forall c r j, c < ncells -> r < rows t c -> j < ncol ->
       exists v, device_read s c r j = Some v /\ get_value s c r j = Some v /\
         forall w, known t c r j = Some w -> v = w).
Proof.
  intros A. destruct (run_inv junk grow ncells ncol cs _ _ (create_inv junk_ptr ncells ncol Hcol) eq_refl eq_refl Hcells A)
    as (s & E & I & N & M). exists s. split; [exact E|]. cbn zeta. unfold history. split.
  - rewrite (i_nrow _ _ I), N. reflexivity.
  - intros D c r j C R J. apply (read_correct s _ c r j I D); congruence.
Qed.

(** get_cell returns the rows of the cell. *)
Theorem C32_get_cell cs init cell s : all_allowed ncells ncol (@empty T) cs -> dirty (history ncol cs) = [] ->
  run junk junk_ptr grow ncells ncol cs = Some s -> cell < ncells ->
  exists d, get_cell s init cell = Some d /\ cd_nrow d = rows (history ncol cs) cell /\ cd_ncol d = ncol /\
    length (cd_data d) = cd_nrow d * cd_ncol d /\
    forall r j, r < rows (history ncol cs) cell -> j < ncol -> at_ d r j = device_read s cell r j.
Proof.
  intros A D E C. destruct (run_inv junk grow ncells ncol cs _ _ (create_inv junk_ptr ncells ncol Hcol) eq_refl eq_refl Hcells A)
    as (s1 & E1 & I & N & M). unfold run in E. rewrite E1 in E. injection E. intros <-.
  pose proof (get_cell_correct s1 _ init cell I D) as G. rewrite M in G. apply G. congruence.
Qed.

(** A resize followed by the wait, with the device executing copies in between
    in any order: the rows that remain are unchanged, in this and in all other
    cells, also those whose values are indeterminate. *)
Theorem C32_resize_keeps_rows cs s cell n progress order :
  all_allowed ncells ncol (@empty T) cs -> dirty (history ncol cs) = [] ->
  run junk junk_ptr grow ncells ncol cs = Some s -> cell < ncells ->
  exists s', foldM (step junk grow) s (SetNrow cell n :: map (@Progress T) progress ++ [Wait order]) = Some s' /\
    nrow s' = map (fun c => if c =? cell then n else rows (history ncol cs) c) (seq 0 ncells) /\
    forall c r j, c < ncells -> j < ncol -> r < rows (history ncol cs) c -> (c = cell -> r < n) ->
      device_read s' c r j = device_read s c r j /\ get_value s' c r j = device_read s c r j.
Proof.
  intros A D E C. destruct (run_inv junk grow ncells ncol cs _ _ (create_inv junk_ptr ncells ncol Hcol) eq_refl eq_refl Hcells A)
    as (s1 & E1 & I & N & M). unfold run in E. rewrite E1 in E. injection E. intros <-. clear E.
  fold (history ncol cs) in I. pose proof (contents_inv s1 _ I D) as IC.
  set (t := contents s1 (history ncol cs)) in *.
  set (t1 := after ncol t (SetNrow cell n)).
  assert (Pr : forall l, all_allowed ncells ncol t1 (map (@Progress T) l ++ [Wait order]) /\
     fold_left (after ncol) (map (@Progress T) l ++ [Wait order]) t1 = after ncol t1 (Wait order)).
  { induction l as [|x l [IH1 IH2]]; cbn; auto. }
  destruct (Pr progress) as [P1 P2].
  destruct (run_inv junk grow ncells ncol (SetNrow cell n :: map (@Progress T) progress ++ [Wait order]) s1 t IC N M Hcells)
    as (s' & E' & I' & N' & M').
  { split; [|exact P1]. cbn. split; auto. rewrite D. intros []. }
  exists s'. split; [exact E'|]. cbn [fold_left] in I'. fold t1 in I'. rewrite P2 in I'. split.
  - rewrite (i_nrow _ _ I'), N'. reflexivity.
  - intros c r j Hc Hj Hr Hn.
    destruct (read_correct s1 _ c r j I D) as (v & Dv & _ & _); [congruence|auto|congruence|].
    assert (K : known (after ncol t1 (Wait order)) c r j = Some v).
    { cbn [after known t1]. unfold keep. cbn [rows].
      assert (Lr : r < (if c =? cell then n else rows t c)).
      { destruct (Nat.eqb_spec c cell) as [Ec|Nc]; [auto|exact Hr]. }
      apply Nat.ltb_lt in Lr. rewrite Lr. unfold t, contents. cbn [known].
      destruct (Nat.ltb_spec c (CellDat_Model.ncells s1)); [|lia]. destruct (Nat.ltb_spec r (rows (history ncol cs) c)); [|lia].
      destruct (Nat.ltb_spec j (CellDat_Model.ncol s1)); [|lia]. exact Dv. }
    destruct (read_correct s' _ c r j I' eq_refl) as (w & Dw & Gw & Kw); [congruence| |congruence|].
    + eapply (i_below _ _ I'). exact K.
    + rewrite (Kw v K) in *. rewrite Dw, Gw, Dv. auto.
Qed.

(** A write changes the value at its row and column of its cell and no other. *)
Theorem C32_writes_do_not_alias cs s cell row col v :
  all_allowed ncells ncol (@empty T) cs -> dirty (history ncol cs) = [] ->
  run junk junk_ptr grow ncells ncol cs = Some s ->
  cell < ncells -> row < rows (history ncol cs) cell -> col < ncol ->
  exists s', device_write s cell row col v = Some s' /\ set_value s cell row col v = Some s' /\
    device_read s' cell row col = Some v /\
    forall c r j, c < ncells -> r < rows (history ncol cs) c -> j < ncol -> (c, r, j) <> (cell, row, col) ->
      device_read s' c r j = device_read s c r j.
Proof.
  intros A D E C R J. destruct (run_inv junk grow ncells ncol cs _ _ (create_inv junk_ptr ncells ncol Hcol) eq_refl eq_refl Hcells A)
    as (s1 & E1 & I & N & M). unfold run in E. rewrite E1 in E. injection E. intros <-. clear E.
  fold (history ncol cs) in I. pose proof (contents_inv s1 _ I D) as IC.
  destruct (device_write_inv s1 _ cell row col v IC D) as (s' & W1 & W2 & I' & N' & M'); [lia|exact R|lia|].
  exists s'. split; auto. split; auto.
  assert (G : forall c r j w, c < ncells -> r < rows (history ncol cs) c -> j < ncol ->
     write (known (contents s1 (history ncol cs))) cell row col v c r j = Some w -> device_read s' c r j = Some w).
  { intros c r j w Hc Hr Hj K.
    destruct (read_correct s' _ c r j I' D) as (x & Dx & _ & Kx); [congruence|exact Hr|congruence|]. rewrite Dx, (Kx w); auto. }
  split.
  - apply G; auto. unfold write. rewrite !Nat.eqb_refl. reflexivity.
  - intros c r j Hc Hr Hj Ne. destruct (read_correct s1 _ c r j I D) as (x & Dx & _ & _); [congruence|auto|congruence|].
    rewrite Dx. apply G; auto. unfold write.
    destruct ((c =? cell) && (r =? row) && (j =? col)) eqn:Q.
    + exfalso. apply Ne. apply andb_prop in Q. destruct Q as [Q Q3]. apply andb_prop in Q. destruct Q as [Q1 Q2].
      apply Nat.eqb_eq in Q1, Q2, Q3. congruence.
    + cbn [contents known]. destruct (Nat.ltb_spec c (CellDat_Model.ncells s1)); [|lia].
      destruct (Nat.ltb_spec r (rows (history ncol cs) c)); [|lia]. destruct (Nat.ltb_spec j (CellDat_Model.ncol s1)); [|lia]. exact Dx.
Qed.

(** get_nrow_max is the largest number of rows; get_nrow_min is the smallest
    one, except that it may be -1 as long as all cells are empty. *)
Theorem C32_nrow_max cs s : all_allowed ncells ncol (@empty T) cs -> run junk junk_ptr grow ncells ncol cs = Some s ->
  (exists s', get_nrow_max s = Some (s', Z.of_nat (list_max (map (rows (history ncol cs)) (seq 0 ncells))))) /\
  (exists s' m, get_nrow_min s = Some (s', m) /\
     let l := map (rows (history ncol cs)) (seq 0 ncells) in
     (exists n, m = Z.of_nat n /\ In n l /\ forall x, In x l -> n <= x) \/ (m = (-1)%Z /\ forall x, In x l -> x = 0)).
Proof.
  intros A E. destruct (run_inv junk grow ncells ncol cs _ _ (create_inv junk_ptr ncells ncol Hcol) eq_refl eq_refl Hcells A)
    as (s1 & E1 & I & N & M). unfold run in E. rewrite E1 in E. injection E. intros <-. clear E.
  assert (Er : nrow s1 = map (rows (history ncol cs)) (seq 0 ncells)) by (rewrite (i_nrow _ _ I), N; reflexivity).
  split.
  - destruct (get_nrow_max_inv s1 _ I) as (s' & E' & _); [lia|]. exists s'. rewrite E', Er. reflexivity.
  - destruct (get_nrow_min_correct s1 _ I) as (s' & m & E' & H); [lia|]. exists s', m. split; auto. rewrite Er in H. exact H.
Qed.
End C32.
Print Assumptions C32_history.
Print Assumptions C32_get_cell.
Print Assumptions C32_resize_keeps_rows.
Print Assumptions C32_writes_do_not_alias.
Print Assumptions C32_nrow_max.

(** A new CellDat reports -1 as the smallest number of rows. *)
Theorem C32_nrow_min_refuted : exists s s' : celldat nat,
  run (fun _ _ => 0) (fun _ => None) (fun _ n => n) 2 1 [] = Some s /\ get_nrow_min s = Some (s', (-1)%Z).
Proof. eexists. eexists. split; vm_compute; reflexivity. Qed.
Print Assumptions C32_nrow_min_refuted.

(** Two resizes of a cell without a wait in between can lose the rows: the copy
    of the second resize may execute before the copy of the first one. *)
Theorem C32_two_resizes_refuted : exists cs1 cs2 (order : nat -> nat) (s s' : celldat nat),
  let run := run (fun _ _ => 99) (fun _ => None) (fun _ n => n) 1 1 in
  cs2 = [SetNrow 0 2; SetNrow 0 3; Wait order] /\
  run cs1 = Some s /\ get_value s 0 0 0 = Some 7 /\
  run (cs1 ++ cs2) = Some s' /\ get_value s' 0 0 0 = Some 99.
Proof.
  exists [SetNrow 0 1; Wait (fun _ => 0); SetValue 0 0 0 7]. eexists. exists (fun k => if k =? 0 then 2 else 0). eexists. eexists.
  cbn zeta. split; [reflexivity|]. split; [vm_compute; reflexivity|]. split; [vm_compute; reflexivity|].
  split; vm_compute; reflexivity.
Qed.
Print Assumptions C32_two_resizes_refuted.

(** Fixed size layout of ephemeral properties: for every number of particles per
    cell the pointers of the kernel and of the host agree, and distinct rows,
    columns and cells have distinct addresses inside the allocation. *)
Theorem C32_fixed_size junk_ptr sched np es ncol :
  Permutation sched (seq 0 (length np)) ->
  es = map (fun c => list_sum (firstn c np)) (seq 0 (length np)) -> 0 < list_sum np ->
  exists d h, fixed junk_ptr sched (length np) ncol (list_sum np) np np es = Some (d, h, list_sum np * ncol) /\
    exists at_ : nat -> nat -> nat,
    (forall c j, c < length np -> j < ncol ->
       nth_error d (c * ncol + j) = Some (Some (0, at_ c j)) /\ nth_error h (c * ncol + j) = Some (Some (0, at_ c j))) /\
    (forall c j r, c < length np -> j < ncol -> r < nth c np 0 -> at_ c j + r < list_sum np * ncol) /\
    (forall c j r c' j' r', c < length np -> c' < length np -> j < ncol -> j' < ncol -> r < nth c np 0 -> r' < nth c' np 0 ->
       at_ c j + r = at_ c' j' + r' -> c = c' /\ j = j' /\ r = r').
Proof.
  intros P E S. unfold fixed. destruct (Nat.ltb_spec 0 (list_sum np)); [|lia].
  destruct (fixed_device junk_ptr np (length np) ncol eq_refl sched es P E) as (d & Ed & Ld & Wd).
  match goal with |- context [obind (foldM ?f ?x ?y) _] => replace (foldM f x y) with (Some d) by (symmetry; exact Ed) end.
  cbn [obind].
  destruct (fixed_host np (length np) ncol eq_refl) as (h & p & Eh & Lh & Wh).
  match goal with |- context [obind (foldM ?f ?x ?y) _] => replace (foldM f x y) with (Some (h, p)) by (symmetry; exact Eh) end.
  cbn [obind fst]. exists d, h. split; [reflexivity|]. exists (fun c j => address np ncol c j 0). split; [|split].
  - intros c j C J. auto.
  - intros c j r C J R. pose proof (address_bound np (length np) ncol eq_refl c j r C J R). unfold address in *. lia.
  - intros c j r c' j' r' C C' J J' R R' Q. apply (address_inj np (length np) ncol eq_refl); auto. unfold address in *. lia.
Qed.
Print Assumptions C32_fixed_size.

(** Instances: a cell that is resized within and beyond its allocation, with
    copies executed out of order; two cells. *)
Definition example_calls : list (call nat) :=
  [SetNrow 1 2; SetNrow 0 1; Progress 3; Wait (fun k => k + 1);
   DeviceWrite 1 0 1 5; SetValue 1 1 0 6; DeviceWrite 0 0 0 8; SetNrow 1 4; SetNrow 0 3; Progress 2; Wait (fun k => 7 - k);
   SetCell 0 (mk_celldata 3 2 [1; 2; 3; 4; 5; 6]); SetNrow 1 1; Wait (fun _ => 0); SetNrow 1 2; Wait (fun _ => 0)].

Example C32_instance :
  all_allowed 2 2 (@empty nat) example_calls /\ dirty (history 2 example_calls) = [] /\
  exists s, run (fun b i => 1000 + b * 10 + i) (fun _ => None) (fun c n => n + 1) 2 2 example_calls = Some s /\
  nrow s = [3; 2] /\ nrow_alloc s = [4; 5] /\
  device_read s 1 0 1 = Some 5 /\ device_read s 0 1 1 = Some 5 /\ device_read s 0 2 0 = Some 3 /\
  known (history 2 example_calls) 1 0 1 = Some 5 /\ known (history 2 example_calls) 1 1 0 = None.
Proof.
  split.
  - vm_compute. repeat split; try lia; try (intros []; lia); try (intros H; repeat destruct H as [H|H]; try discriminate; tauto).
  - split; [reflexivity|]. eexists. split; [vm_compute; reflexivity|]. repeat split; vm_compute; reflexivity.
Qed.

Example C32_fixed_instance :
  exists d h, fixed (fun _ => None) [2; 0; 1] 3 2 5 [2; 0; 3] [2; 0; 3] [0; 2; 2] = Some (d, h, 10) /\ d = h /\
  d = [Some (0, 0); Some (0, 2); Some (0, 4); Some (0, 4); Some (0, 4); Some (0, 7)].
Proof. eexists. eexists. split; [vm_compute; reflexivity|]. split; reflexivity. Qed.
