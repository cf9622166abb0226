(** Property theorems: C56 (cellwise reductions of particle properties) and C57 (loops
    whose kernels reduce into a CellDatConst). *)
From Coq Require Import List Arith Lia Bool ZArith QArith Permutation.
Import ListNotations.
From Verif Require Import Base Kernel Scan_Model Compress_Model Group_Model Loop_Model Loop_Spec SubGroup_Model SubGroup_Spec
  CellConst_Model CellConst_Spec CellConst_Proofs Reduce_Model Reduce_Spec Reduce_Proofs Reduce2_Proofs Reduce3_Proofs Reduce4_Proofs.
Local Open Scope nat_scope.

(** The operations of the code on INT: the values of minimum and maximum are limited by
    their identities, the numeric limits of the type. *)
Theorem C56_plus_reducible : reducible Z.add 0%Z (fun _ => True).
Proof. constructor; intros; try exact I; lia. Qed.
Theorem C56_minimum_reducible top : reducible Z.min top (fun v => (v <= top)%Z).
Proof. constructor; intros; lia. Qed.
Theorem C56_maximum_reducible bottom : reducible Z.max bottom (fun v => (bottom <= v)%Z).
Proof. constructor; intros; lia. Qed.

(** C56: reduce_dat_component_cellwise combines, in each cell, the entry (row, col) of the
    matrix with the values of the component of the particles of the group or sub-group in
    that cell, each once, and changes no other entry, whatever order the device uses. *)
Theorem C56_component {T} (op : T -> T -> T) ident ok (M : reducible op ident ok) d (Hd : device_ok d) P content
    (It : iterates P content) (W : i_whole P = true -> content = whole_group (map (@length nat) content)) dat k comp
    (x : cell_const T) row col :
  well_formed ok x -> length content = cc_ncells x -> row < cc_nrow x -> col < cc_ncol x -> has_values ok dat content comp ->
  exists x', reduce_dat_component_cellwise op ident d k (cc_ncells x) P dat comp x row col = Some x' /\
    well_formed ok x' /\ same_dimensions x x' /\
    forall c r q, c < cc_ncells x -> r < cc_nrow x -> q < cc_ncol x ->
      exists old vals, cc_get_value x c r q = Some old /\ values_in_cell dat content comp c vals /\
        cc_get_value x' c r q = Some (if (r =? row) && (q =? col) then combined op old vals else old).
Proof. apply (component_ok M d Hd P content It W dat). Qed.
Print Assumptions C56_component.

(** C56: with a CellDatConst of another number of cells, or an entry outside of its
    matrices, the call is refused. *)
Theorem C56_component_refused {T} (op : T -> T -> T) ident d k ncell P dat comp (x : cell_const T) row col :
  ncell <> cc_ncells x \/ cc_nrow x <= row \/ cc_ncol x <= col ->
  reduce_dat_component_cellwise op ident d k ncell P dat comp x row col = None.
Proof.
  intros H. unfold reduce_dat_component_cellwise, assert.
  destruct (Nat.eqb_spec ncell (cc_ncells x)); [|reflexivity]. destruct (Nat.ltb_spec row (cc_nrow x)); [|reflexivity].
  destruct (Nat.ltb_spec col (cc_ncol x)); [|reflexivity]. lia.
Qed.
Print Assumptions C56_component_refused.

(** C56: reduce_dat_components_cellwise does so for all components at once: component
    r * ncol + q goes to entry (r, q). *)
Theorem C56_components {T} (op : T -> T -> T) ident ok (M : reducible op ident ok) d (Hd : device_ok d) P content
    (It : iterates P content) (W : i_whole P = true -> content = whole_group (map (@length nat) content)) dat k (x : cell_const T) :
  well_formed ok x -> length content = cc_ncells x -> length dat = cc_nrow x * cc_ncol x ->
  (forall comp, comp < length dat -> has_values ok dat content comp) ->
  exists x', reduce_dat_components_cellwise op ident d k (cc_ncells x) P dat x = Some x' /\
    well_formed ok x' /\ same_dimensions x x' /\
    forall c r q, c < cc_ncells x -> r < cc_nrow x -> q < cc_ncol x ->
      exists old vals, cc_get_value x c r q = Some old /\ values_in_cell dat content (r * cc_ncol x + q) c vals /\
        cc_get_value x' c r q = Some (combined op old vals).
Proof. apply (components_ok M d Hd P content It W dat). Qed.
Print Assumptions C56_components.

Definition C56_d : device :=
  {| ord := fun A k l => if Nat.even k then rev l else l; junk := fun _ _ => 77%Z; local_size := 2; max_compute_units := 3 |}.
Lemma C56_d_ok : device_ok C56_d.
Proof. split; [|cbn; lia]. intros A k l. cbn. destruct (Nat.even k); [symmetry; apply Permutation_rev|reflexivity]. Qed.

(** A property with more components than the matrices have entries is accepted (L367-370
    assert >=; the documentation says the numbers must match).  The surplus components are
    added to entry (0, 0). *)
Theorem C56_surplus_components_refuted :
  exists (x x' : cell_const Z) dat, length dat = 2 /\ cc_nrow x * cc_ncol x = 1 /\
    reduce_dat_components_cellwise Z.add 0%Z C56_d 0 1 (group_iset [2] [0]) dat x = Some x' /\
    nth_error dat 0 = Some [[10; 20]]%Z /\ cc_get_value x 0 0 0 = Some 0%Z /\ cc_get_value x' 0 0 0 = Some 330%Z.
Proof.
  exists (mk_cc 1 1 1 [0%Z]), (mk_cc 1 1 1 [330%Z]), [[[10; 20]]; [[100; 200]]]%Z.
  repeat split; vm_compute; reflexivity.
Qed.
Print Assumptions C56_surplus_components_refuted.

(** Three cells with 2, 0 and 3 particles. *)
Definition C56_P := group_iset [2; 0; 3] [0; 2; 2].
Definition C56_content := whole_group [2; 0; 3].
Definition C56_dat : list (list (list Z)) := [[[1; 2]; []; [3; 4; 5]]; [[10; 20]; []; [30; 40; 50]]]%Z.
Definition C56_x : cell_const Z := mk_cc 3 2 1 [0; 7; 0; 7; 0; 7]%Z.

Lemma C56_iterates : iterates C56_P C56_content.
Proof.
  intros c ls H. destruct c as [|[|[|c]]]; cbn in H; try (destruct c; discriminate); injection H as <-; repeat split.
  all: intros j l Hj; cbn in Hj; repeat (destruct j as [|j]; cbn in Hj; [injection Hj as <-; reflexivity|]); try discriminate; destruct j; discriminate.
Qed.

Example C56_instance :
  (device_ok C56_d /\ iterates C56_P C56_content /\ (i_whole C56_P = true -> C56_content = whole_group (map (@length nat) C56_content)) /\
   well_formed (fun _ => True) C56_x /\ length C56_content = cc_ncells C56_x /\ length C56_dat = cc_nrow C56_x * cc_ncol C56_x /\
   forall comp, comp < length C56_dat -> has_values (fun _ => True) C56_dat C56_content comp) /\
  option_map cc_data (reduce_dat_components_cellwise Z.add 0%Z C56_d 0 3 C56_P C56_dat C56_x) = Some [3; 37; 0; 7; 12; 127]%Z /\
  option_map cc_data (reduce_dat_component_cellwise Z.max (-100)%Z C56_d 0 3 C56_P C56_dat 1 C56_x 1 0) = Some [0; 20; 0; 7; 0; 50]%Z.
Proof.
  split; [|split; vm_compute; reflexivity]. split; [exact C56_d_ok|]. split; [exact C56_iterates|]. split; [reflexivity|].
  split; [split; [reflexivity|repeat constructor]|]. split; [reflexivity|]. split; [reflexivity|].
  intros comp Hc. destruct comp as [|[|comp]]; [| |cbn in Hc; lia]; eexists; (split; [reflexivity|]); intros c Hc'.
  all: destruct c as [|[|[|c]]]; [| | |cbn in Hc'; lia]; eexists; (split; [reflexivity|]); intros l Hl; cbn in Hl.
  all: repeat (destruct Hl as [<-|Hl]; [eexists; split; [reflexivity|exact I]|]); destruct Hl.
Qed.

(* ------------------------------------------------------------------ *)

(** C57: after a loop with a reduction over the particles of a group or sub-group in all
    cells, one cell or a range of cells, each entry of the matrices of these cells is its
    previous value combined with all the values the kernel combined into it, and the
    matrices of other cells are unchanged.  This holds for every order of execution, every
    work group size that is a power of two, every block size and every content of the
    local memory. *)
Theorem C57_reduction_loop {T} (op : T -> T -> T) ident ok (M : reducible op ident ok) d (Hd : device_ok d) P content
    (It : iterates P content) kernel (x : cell_const T) k lim nbin local_size stride init cell_start cell_end a b :
  well_formed ok x -> length content = cc_ncells x ->
  (forall c l, In l (nth c content []) -> forall call, In call (kernel c l) ->
     c_row call < cc_nrow x /\ c_col call < cc_ncol x /\ ok (c_value call)) ->
  1 <= stride -> 1 <= nbin -> is_power_of_two local_size = true -> ample lim (map (@length nat) content) local_size ->
  call_names (length content) cell_start cell_end a b ->
  exists y, reduction_loop op ident kernel d k lim (cc_ncells x) nbin local_size stride init P cell_start cell_end x = Some y /\
    same_dimensions x y /\
    forall c r q, c < cc_ncells x -> r < cc_nrow x -> q < cc_ncol x ->
      exists old, cc_get_value x c r q = Some old /\
        cc_get_value y c r q =
          Some (if (a <=? c) && (c <? b) then combined op old (contributions kernel c r q (nth c content [])) else old).
Proof.
  intros Wx Lc Hk Hst Hnb Hp Ha Hc.
  destruct (reduction_loop_ok op ident ok M d Hd P content It kernel x Wx ltac:(lia) Hk k lim nbin local_size stride init cell_start cell_end a b Hst Hnb Hp Ha Hc)
    as (y & E & (D1 & D2 & D3) & L & N).
  rewrite Lc in E. exists y. split; [exact E|]. split; [repeat split; congruence|]. intros c r q H1 H2 H3.
  assert (Hi : addr (cc_nrow x) (cc_ncol x) c r q < length (cc_data x)) by (rewrite (proj1 Wx); apply addr_lt; assumption).
  destruct (nth_error_lt_some _ _ Hi) as [v Hv]. pose proof (N c r q v H2 H3 Hv) as G. exists v.
  unfold cc_get_value, rd, cc_stride. rewrite D2, D3. unfold addr in Hv, G.
  rewrite <- Hv, <- G. split; f_equal; lia.
Qed.
Print Assumptions C57_reduction_loop.

(** C57: another work group size is refused. *)
Theorem C57_power_of_two {T} (op : T -> T -> T) ident kernel d k lim ncell nbin n stride init P cs ce (x : cell_const T) :
  (forall e, n <> 2 ^ e) -> reduction_loop op ident kernel d k lim ncell nbin n stride init P cs ce x = None.
Proof.
  intros H. unfold reduction_loop. destruct (is_power_of_two n) eqn:E; [|reflexivity]. destruct (pow2_is n E) as [e He]. destruct (H e He).
Qed.
Print Assumptions C57_power_of_two.

(** C57: the work group size that is chosen for a kernel that needs local memory fits into
    that memory, and it is a power of two if the default is. *)
Theorem C57_local_size mem offset bytes default r : 1 <= bytes -> get_num_local_work_items mem offset bytes default = Some r ->
  1 <= r <= default /\ r * bytes + offset <= mem /\ ((exists e, default = 2 ^ e) -> exists e, r = 2 ^ e).
Proof.
  intros Hb H. destruct (get_num_local_work_items_ok _ _ _ _ _ H Hb) as (A & B & C). split; [exact A|]. split; [exact B|].
  intros [e ->]. apply pow2_is. apply C. apply is_pow2.
Qed.
Print Assumptions C57_local_size.

(** A sub-group of particles in three cells; per particle 0, 1 or 2 calls. *)
Definition C57_content : list (list nat) := [[1; 3; 4]; []; [0; 2]].
Definition C57_P : iset :=
  {| i_whole := false; i_hn := [3; 0; 2; 9]; i_dn := [3; 0; 2; 8]; i_es := [0; 3; 3];
     i_layer := fun c j => ls <- rd C57_content c ;; rd ls j |}.
Definition C57_kernel (c l : nat) : list (@contribution Z) :=
  match l with
  | 0 => [mk_contribution 0 0 5%Z; mk_contribution 1 0 6%Z]
  | 3 => []
  | _ => [mk_contribution 0 0 (Z.of_nat l); mk_contribution 0 0 100%Z]
  end.
Definition C57_lim : limits := {| lim_global0 := 0; lim_global1 := 0; lim_group := 8; lim_mem := 100 |}.

Example C57_instance :
  (iterates C57_P C57_content /\ ample C57_lim (map (@length nat) C57_content) 4 /\ is_power_of_two 4 = true /\
   call_names 3 (Some 0%Z) None 0 1 /\
   forall c l, In l (nth c C57_content []) -> forall call, In call (C57_kernel c l) ->
     c_row call < cc_nrow C56_x /\ c_col call < cc_ncol C56_x /\ True) /\
  option_map cc_data (reduction_loop Z.add 0%Z C57_kernel C56_d 3 C57_lim 3 2 4 2 (fun _ _ => 55%Z) C57_P None None C56_x)
    = Some [205; 7; 0; 7; 107; 13]%Z /\
  option_map cc_data (reduction_loop Z.add 0%Z C57_kernel C56_d 3 C57_lim 3 2 4 2 (fun _ _ => 55%Z) C57_P (Some 0%Z) None C56_x)
    = Some [205; 7; 0; 7; 0; 7]%Z.
Proof.
  split; [|split; vm_compute; reflexivity]. split; [|split; [|split; [reflexivity|split; [apply (call_one 3 0); lia|]]]].
  - intros c ls H. destruct c as [|[|[|c]]]; cbn in H; try (destruct c; discriminate); injection H as <-; repeat split.
    all: intros j l Hj; exact Hj.
  - split; [left; reflexivity|]. split; [left; reflexivity|]. cbn. lia.
  - intros c l _ call Hc. cbn [C56_x cc_nrow cc_ncol]. destruct l as [|[|[|[|l]]]]; cbn in Hc; repeat (destruct Hc as [<-|Hc]; [cbn; lia|]); destruct Hc.
Qed.
