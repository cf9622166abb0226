(** Property theorems: C55 (a CellDatConst is an array of matrices, one per cell). *)
From Coq Require Import List Arith Lia Bool ZArith.
Import ListNotations.
From Verif Require Import Base CellDat_Model CellConst_Model CellConst_Spec CellConst_Proofs.

(** C55: after the constructor and any sequence of fill, set_value, set_cell,
    set_all_cells and of writes and atomic updates by kernels, with indices and
    matrices of the right size, get_value and a kernel's read, both by row and column
    and by component, give the contents that the sequence prescribes. *)
Theorem C55_values {T} (zero : T) init N R K h f :
  cc_history N R K (fun _ _ _ => zero) h f ->
  exists x, cc_run zero init N R K h = Some x /\
    forall c r k, c < N -> r < R -> k < K ->
      cc_get_value x c r k = Some (f c r k) /\ cc_kernel_read x c r k = Some (f c r k) /\
      cc_kernel_read_component x c (R * k + r) = Some (f c r k).
Proof.
  intros H. unfold cc_run. destruct (create_holds N R K zero init) as (x0 & E & H0). rewrite E. cbn [obind].
  destruct (history_holds N R K _ _ _ H x0 H0) as (x & F & Hx). exists x. split; [exact F|]. intros c r k Hc Hr Hk.
  pose proof (ch_at _ _ _ _ _ Hx c r k Hc Hr Hk) as G. unfold addr in G.
  unfold cc_get_value, cc_kernel_read, cc_kernel_read_component, cc_stride, rd. rewrite (ch_r _ _ _ _ _ Hx), (ch_k _ _ _ _ _ Hx).
  split; [|split; exact G]. rewrite <- G. f_equal. lia.
Qed.
Print Assumptions C55_values.

(** C55: get_cell and get_all_cells give the same matrices, whatever the temporary
    buffers held. *)
Theorem C55_cells {T} (zero : T) init N R K h f x init' tmp :
  cc_history N R K (fun _ _ _ => zero) h f -> cc_run zero init N R K h = Some x -> R * K * N <= length tmp ->
  (forall c, c < N -> exists d, cc_get_cell x init' c = Some d /\ host_matrix R K d (f c)) /\
  exists ds, cc_get_all x init' tmp = Some ds /\ length ds = N /\
    forall c, c < N -> exists d, nth_error ds c = Some d /\ host_matrix R K d (f c).
Proof.
  intros H. unfold cc_run. destruct (create_holds N R K zero init) as (x0 & E & H0). rewrite E. cbn [obind].
  destruct (history_holds N R K _ _ _ H x0 H0) as (x' & F & Hx). rewrite F. intros [= <-] Ht. split.
  - intros c Hc. eauto using get_cell_holds.
  - eauto using get_all_holds.
Qed.
Print Assumptions C55_cells.

(** C55: an atomic update returns the value it replaced. *)
Theorem C55_fetch {T} (zero : T) init N R K h f x op c r k v :
  cc_history N R K (fun _ _ _ => zero) h f -> cc_run zero init N R K h = Some x -> c < N -> r < R -> k < K ->
  exists x', cc_fetch op x c r k v = Some (f c r k, x').
Proof.
  intros H. unfold cc_run. destruct (create_holds N R K zero init) as (x0 & E & H0). rewrite E. cbn [obind].
  destruct (history_holds N R K _ _ _ H x0 H0) as (x' & F & Hx). rewrite F. intros [= <-] Hc Hr Hk.
  unfold cc_fetch, cc_stride. rewrite (ch_r _ _ _ _ _ Hx), (ch_k _ _ _ _ _ Hx). fold (addr R K c r k). unfold rd.
  rewrite (ch_at _ _ _ _ _ Hx) by assumption. cbn [obind].
  destruct (upd_some (cc_data x') (addr R K c r k) (op (f c r k) v)) as [m U].
  { rewrite (ch_len _ _ _ _ _ Hx). auto using addr_lt. } rewrite U. cbn [obind]. eauto.
Qed.
Print Assumptions C55_fetch.

(** set_cell accepts a matrix with more rows than the CellDatConst has (L702-703)
    and then does not copy its upper left part: the columns are shifted. *)
Theorem C55_set_cell_larger_matrix_refuted :
  exists (x : cell_const nat) (d : celldata nat),
    cc_run 0 (fun _ => 7) 1 2 2 [CSetCell 0 d] = Some x /\
    cd_nrow d = 3 /\ cd_ncol d = 2 /\ length (cd_data d) = 6 /\
    at_ d 0 1 = Some 20 /\ cc_get_value x 0 0 1 = Some 12.
Proof.
  exists (mk_cc 1 2 2 [10; 11; 12; 20]), (mk_celldata 3 2 [10; 11; 12; 20; 21; 22]).
  repeat split; vm_compute; reflexivity.
Qed.
Print Assumptions C55_set_cell_larger_matrix_refuted.

(** Two cells of 2 x 3 matrices. *)
Definition C55_d : celldata nat := mk_celldata 2 3 [1; 2; 3; 4; 5; 6].
Definition C55_h : list (@cc_call nat) :=
  [CSetCell 1 C55_d; CSetValue 0 1 2 9; CWrite 1 0 1 8; CWriteComponent 0 (2 * 0 + 1) 4; CFetch Nat.add 1 1 1 30].

Example C55_instance :
  (exists f, cc_history 2 2 3 (fun _ _ _ => 0) C55_h f /\ f 1 0 1 = 8 /\ f 1 1 1 = 34 /\ f 0 1 2 = 9 /\ f 1 1 2 = 6) /\
  option_map cc_data (cc_run 0 (fun _ => 77) 2 2 3 C55_h) = Some [0; 4; 0; 0; 0; 9; 1; 2; 8; 34; 5; 6].
Proof.
  split; [|reflexivity]. eexists. split.
  - assert (M : host_matrix 2 3 C55_d (fun r k => 1 + 2 * k + r)).
    { split; [reflexivity|]. split; [reflexivity|]. split; [reflexivity|]. intros r k Hr Hk.
      destruct r as [|[|r]], k as [|[|[|k]]]; try lia; reflexivity. }
    unfold C55_h. eapply h_cons; [eapply (e_set_cell 2 2 3 _ 1 C55_d); [lia|exact M]|].
    eapply h_cons; [apply e_set_value; lia|]. eapply h_cons; [apply e_write; lia|].
    eapply h_cons; [apply e_write_component; lia|]. eapply h_cons; [apply e_fetch; lia|]. apply h_nil.
  - repeat split; reflexivity.
Qed.
