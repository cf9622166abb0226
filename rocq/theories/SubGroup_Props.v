(** Property theorems: C24 (selection by a kernel), C27 (truncate and discard),
    C28 (cell ranges, copies, unions) and C29 (partition). *)
From Coq Require Import List Arith Lia ZArith Bool Permutation.
Import ListNotations.
From Verif Require Import Base Kernel Compress_Model Compress_Props Loop_Model Loop_Spec.
From Verif Require Import SubGroup_Model SubGroup_Spec SubGroup_Proofs SubGroupKernel_Proofs SubGroupSelect_Proofs
  SubGroupUnion_Proofs SubGroupPartition_Proofs SubGroupProps_Proofs.

(** A group of counts 3, 0, 4 and 2, and storage left behind by an earlier user. *)
Definition C24_np := [3; 0; 4; 2].
Definition C24_es := [0; 3; 3; 7].
Definition C24_group := group_iset C24_np C24_es.
Definition C24_map : pmap :=
  {| m_layers := [9; 9; 9]; m_hstarts := [4; 4; 4; 4]; m_starts := [5; 5; 5; 5]; m_total := 31;
     m_hn := repeat 6 12; m_dn := repeat 7 12; m_hes := [8; 8; 8; 8]; m_des := [1; 1; 1; 1] |}.
(** Selects the even layers and all of cell 3. *)
Definition C24_kern (c l : nat) : bool := (c =? 3) || Nat.even l.

Example C24_instance_group : prefix_sums C24_np C24_es /\ content_of_group C24_np (whole_group C24_np) /\
  iterates C24_group (whole_group C24_np) /\ map_sizes 2 4 C24_map /\ device_ok C01_device.
Proof.
  assert (H : prefix_sums C24_np C24_es) by (intros [|[|[|[|c]]]] Hc; cbn in *; auto; lia).
  split; [exact H|]. split; [apply whole_content|]. split; [apply group_iterates, H|]. split; [repeat split|apply C01_instance_device].
Qed.

(** ** C24 *)

(** C24: for every parent (the whole group or any sub-group), every kernel, every
    order of the atomics and of the other work items and any contents of the pooled
    storage, the sub-group lists exactly the particles of the parent for which the
    kernel returned true, each once ([content_of_group]); counts, exclusive sums and
    npart_local are those of the list ([selects]).  The parent may have been rebuilt
    in another order between the two loops ([P0], [P1]). *)
Theorem C24_kernel_sub_group :
  forall d, device_ok d -> forall CL, 1 <= CL -> forall k gnp ges kern P0 P1 content0 content1 m,
  map_sizes CL (length gnp) m -> prefix_sums gnp ges ->
  content_of_group gnp content0 -> iterates P0 content0 -> iterates P1 content1 -> same_particles content1 content0 ->
  exists m' s content, selector_create CL d k (length gnp) gnp ges kern P0 P1 m = Some (m', s) /\
    map_sizes CL (length gnp) m' /\ selects s m' content /\ content_of_group gnp content /\
    forall c l, listed content c l <-> listed content0 c l /\ kern c l = true.
Proof.
  intros d D CL HCL k gnp ges kern P0 P1 content0 content1 m Sz Es HC H0 H1 HS.
  destruct (selector_correct CL d gnp ges kern k P0 P1 content0 content1 m D HCL Sz Es HC H0 H1 HS) as [m' [s [ct [E [Sz' [S' C']]]]]].
  exists m', s, ct. split; [exact E|]. split; [exact Sz'|]. split; [exact S'|]. split.
  - eapply content_same; [exact C'|]. apply content_chosen, HC.
  - intros c l. rewrite (listed_same _ _ c l C'). apply listed_chosen.
Qed.
Print Assumptions C24_kernel_sub_group.

(** The whole group meets the hypotheses (see also [C24_instance_group]), and so
    does every sub-group built by the theorems of this file. *)
Theorem C24_whole_group : forall np es, prefix_sums np es ->
  content_of_group np (whole_group np) /\ iterates (group_iset np es) (whole_group np) /\
  forall c l, listed (whole_group np) c l <-> exists n, nth_error np c = Some n /\ l < n.
Proof. intros np es H. split; [apply whole_content|]. split; [apply group_iterates, H|]. intros; apply listed_whole. Qed.
Print Assumptions C24_whole_group.

Definition C24_sub := selector_create 2 C01_device 0 4 C24_np C24_es C24_kern C24_group C24_group C24_map.
Example C24_instance : option_map (fun r => (get_host_map (snd r) (fst r), s_npart (snd r), m_hes (fst r))) C24_sub =
  Some (Some [[2; 0]; []; [2; 0]; [1; 0]], 6, [0; 2; 2; 4]).
Proof. vm_compute. reflexivity. Qed.

(** A sub-group of that sub-group. *)
Example C24_instance_nested :
  option_map (fun r => (get_host_map (snd r) (fst r), s_npart (snd r), m_hes (fst r)))
    (r <- C24_sub ;; selector_create 2 C01_device 1 4 C24_np C24_es (fun c l => 0 <? l)
       (sub_iset (fst r)) (sub_iset (fst r)) C24_map) =
  Some (Some [[2]; []; [2]; [1]], 3, [0; 1; 1; 2]).
Proof. vm_compute. reflexivity. Qed.

(** C24: the selector based on a scan keeps the order of the parent: its list is
    the parent's list with the unselected particles left out. *)
Theorem C24_ordered_kernel_sub_group :
  forall d, device_ok d -> forall CL k cc npart kern P0 P1 content m,
  1 <= cc -> map_sizes CL cc m -> length content = cc -> npart = number_of_particles content ->
  iterates P0 content -> iterates P1 content ->
  exists m' s, scan_selector_create d k cc npart kern P0 P1 m = Some (m', s) /\
    map_sizes CL cc m' /\ selects s m' (chosen kern content).
Proof. intros. apply scan_selector_correct; auto. Qed.
Print Assumptions C24_ordered_kernel_sub_group.

Example C24_instance_ordered :
  option_map (fun r => (get_host_map (snd r) (fst r), s_npart (snd r), m_hes (fst r)))
    (scan_selector_create C01_device 0 4 9 C24_kern C24_group C24_group C24_map) =
  Some (Some [[0; 2]; []; [0; 2]; [0; 1]], 6, [0; 2; 2; 4]).
Proof. vm_compute. reflexivity. Qed.

(** C24: what a user of the sub-group sees is the list of [selects]: the host map,
    the vectors of get_cells_layers, and the particles visited by a loop over the
    sub-group, each once. *)
Theorem C24_uses_see_the_selection : forall d k s m content, selects s m content ->
  get_host_map s m = Some content /\
  get_cells_layers d k s m = Some (map fst (pairs_of content), map snd (pairs_of content)) /\
  mapM (sub_group_visit m) (particles_of_cells (m_dn m) 0 (s_ncell s)) = Some (pairs_of content).
Proof.
  intros d k s m content H. split; [apply host_map_correct, H|]. split; [apply cells_layers_correct, H|apply sub_group_loop_correct, H].
Qed.
Print Assumptions C24_uses_see_the_selection.

Example C24_instance_uses :
  (r <- C24_sub ;; get_cells_layers C01_device 3 (snd r) (fst r)) = Some ([0; 0; 2; 2; 3; 3], [2; 0; 2; 0; 1; 0]) /\
  (r <- C24_sub ;; mapM (sub_group_visit (fst r)) (particles_of_cells (m_dn (fst r)) 0 (s_ncell (snd r)))) =
    Some [(0, 2); (0, 0); (2, 2); (2, 0); (3, 1); (3, 0)].
Proof. split; vm_compute; reflexivity. Qed.

(** Finding: when the parent is rebuilt in another order between the two loops (a
    dat of the parent's kernel is marked as always written, and the parent's order
    comes from atomics), the scan selector lists a particle its kernel rejected. *)
Definition C24_parent (ls : list nat) : iset :=
  {| i_whole := false; i_hn := [length ls]; i_dn := [length ls]; i_es := [0]; i_layer := fun c l => nth_error ls l |}.
Theorem C24_ordered_rebuilt_parent_refuted :
  exists d k kern P0 P1 content0 content1 m m' s,
    device_ok d /\ iterates P0 content0 /\ iterates P1 content1 /\ same_particles content1 content0 /\
    content_of_group [2] content0 /\ map_sizes 1 1 m /\
    scan_selector_create d k 1 2 kern P0 P1 m = Some (m', s) /\
    get_host_map s m' = Some [[1]] /\ kern 0 1 = false.
Proof.
  exists C01_device, 1, (fun c l => l =? 0), (C24_parent [0; 1]), (C24_parent [1; 0]), [[0; 1]], [[1; 0]],
    {| m_layers := []; m_hstarts := [0]; m_starts := [0]; m_total := 0; m_hn := [0; 0]; m_dn := [0; 0]; m_hes := [0]; m_des := [0] |}.
  eexists _, _. split; [apply C01_instance_device|].
  assert (I : forall ls, iterates (C24_parent ls) [ls]).
  { intros ls [|[|c]] x E; cbn in E; try discriminate. injection E as <-. cbn. auto. }
  split; [apply I|]. split; [apply I|]. split; [repeat constructor|]. split.
  { split; [auto|]. intros [|[|c]] ls n E En; cbn in E, En; try discriminate. injection E as <-. injection En as <-. split.
    - repeat constructor; cbn; lia.
    - cbn. lia. }
  split; [repeat split|]. split; [vm_compute; reflexivity|]. split; vm_compute; reflexivity.
Qed.
Print Assumptions C24_ordered_rebuilt_parent_refuted.

(** Finding: on a rank without cells the scan selector reports whatever number the
    storage held. *)
Theorem C24_ordered_no_cells_refuted :
  exists d k kern m m' s, device_ok d /\ map_sizes 1 0 m /\
    scan_selector_create d k 0 0 kern (group_iset [] []) (group_iset [] []) m = Some (m', s) /\
    s_npart s = 31 /\ number_of_particles (whole_group []) = 0.
Proof.
  exists C01_device, 0, C24_kern,
    {| m_layers := []; m_hstarts := []; m_starts := []; m_total := 31; m_hn := []; m_dn := []; m_hes := []; m_des := [] |}.
  eexists _, _. split; [apply C01_instance_device|]. split; [repeat split|]. split; [vm_compute; reflexivity|]. split; reflexivity.
Qed.
Print Assumptions C24_ordered_no_cells_refuted.

(** ** C27 *)

(** C27: truncate keeps the first [num] particles of each cell of the parent,
    discard the others, both in the order of the parent; cell by cell the one
    followed by the other is the parent, and (the parent listing no particle twice)
    they have no particle in common. *)
Theorem C27_truncate_and_discard_split_the_parent :
  forall d, device_ok d -> forall CL k k' cc num P content m1 m2,
  1 <= cc -> (0 <= num)%Z -> map_sizes CL cc m1 -> map_sizes CL cc m2 -> length content = cc -> iterates P content ->
  exists m1' s1 m2' s2 front back,
    truncate_create d k cc num P m1 = Some (m1', s1) /\ map_sizes CL cc m1' /\ selects s1 m1' front /\
    discard_create d k' cc num P m2 = Some (m2', s2) /\ map_sizes CL cc m2' /\ selects s2 m2' back /\
    front = map (firstn (Z.to_nat num)) content /\ back = map (skipn (Z.to_nat num)) content /\
    joined cc [front; back] = content /\
    forall gnp, content_of_group gnp content -> forall c l, listed front c l -> listed back c l -> False.
Proof.
  intros d D CL k k' cc num P content m1 m2 Hcc Hn S1 S2 Lc HP.
  destruct (truncate_correct CL d k cc num P content m1 D Hcc Hn S1 Lc HP) as [m1' [s1 [E1 [S1' T1]]]].
  destruct (discard_correct CL d k' cc num P content m2 D Hcc Hn S2 Lc HP) as [m2' [s2 [E2 [S2' T2]]]].
  eexists m1', s1, m2', s2, _, _. split; [exact E1|]. split; [exact S1'|]. split; [exact T1|].
  split; [exact E2|]. split; [exact S2'|]. split; [exact T2|]. split; [reflexivity|]. split; [reflexivity|].
  split; [apply joined_split, Lc|].
  intros gnp [LL C] c l [a [Ea Ha]] [b [Eb Hb]]. rewrite nth_error_map in Ea, Eb. destruct (nth_error content c) as [ls|] eqn:E; [|discriminate].
  cbn in Ea, Eb. injection Ea as <-. injection Eb as <-.
  destruct (nth_error_lt_some gnp c) as [n En]; [rewrite <- LL; eauto using nth_error_some_lt|].
  destruct (C _ _ _ E En) as [ND _]. rewrite <- (firstn_skipn (Z.to_nat num) ls) in ND.
  revert ND Ha Hb. generalize (firstn (Z.to_nat num) ls) as x, (skipn (Z.to_nat num) ls) as y. clear.
  induction x as [|z x IH]; intros y ND [] Hb.
  - subst. inversion ND; subst. apply H1. apply in_or_app; auto.
  - inversion ND; subst. eapply IH; eauto.
Qed.
Print Assumptions C27_truncate_and_discard_split_the_parent.

(** C27: a negative number is rejected. *)
Theorem C27_negative_is_rejected : forall d k cc num P m, (num < 0)%Z ->
  truncate_create d k cc num P m = None /\ discard_create d k cc num P m = None.
Proof. intros. unfold truncate_create, discard_create. apply Z.leb_gt in H. rewrite H. split; reflexivity. Qed.
Print Assumptions C27_negative_is_rejected.

Definition seen (r : option (pmap * selection)) :=
  option_map (fun r => (get_host_map (snd r) (fst r), s_npart (snd r), m_hes (fst r))) r.
Example C27_instance :
  seen (truncate_create C01_device 0 4 1 C24_group C24_map) = Some (Some [[0]; []; [0]; [0]], 3, [0; 1; 1; 2]) /\
  seen (discard_create C01_device 0 4 1 C24_group C24_map) = Some (Some [[1; 2]; []; [1; 2; 3]; [1]], 6, [0; 2; 2; 5]) /\
  seen (r <- C24_sub ;; truncate_create C01_device 7 4 1 (sub_iset (fst r)) C24_map) = Some (Some [[2]; []; [2]; [1]], 3, [0; 1; 1; 2]) /\
  seen (r <- C24_sub ;; discard_create C01_device 9 4 1 (sub_iset (fst r)) C24_map) = Some (Some [[0]; []; [0]; [0]], 3, [0; 1; 1; 2]).
Proof. repeat split; vm_compute; reflexivity. Qed.

(** Finding: on a rank without cells both read the last entry of an empty array. *)
Theorem C27_no_cells_refuted :
  exists d k num P m, device_ok d /\ (0 <= num)%Z /\ map_sizes 1 0 m /\ iterates P [] /\
    truncate_create d k 0 num P m = None /\ discard_create d k 0 num P m = None.
Proof.
  exists C01_device, 0, 1%Z, (group_iset [] []),
    {| m_layers := []; m_hstarts := []; m_starts := []; m_total := 31; m_hn := []; m_dn := []; m_hes := []; m_des := [] |}.
  split; [apply C01_instance_device|]. split; [lia|]. split; [repeat split|]. split; [intros [|c] ls E; discriminate|].
  split; vm_compute; reflexivity.
Qed.
Print Assumptions C27_no_cells_refuted.

(** ** C28 *)

(** C28: cells first, ..., last - 1.  The constructor accepts exactly the ranges
    inside the mesh, including empty ones; after it, however often the sub-group is
    rebuilt from whatever parents, it lists exactly the parent's particles in the
    range, in the order of the parent. *)
Theorem C28_cell_range :
  forall d, device_ok d -> forall CL cc first last m, map_sizes CL cc m ->
  (0 <= first <= last)%Z -> (last <= Z.of_nat cc)%Z ->
  exists m0, cell_selector_init cc first last m = Some m0 /\
    forall parents contents,
      Forall2 (fun p content => length content = cc /\ iterates (snd p) content) parents contents ->
      exists rs, range_history d cc (Z.to_nat first) (Z.to_nat last) m0 parents = Some rs /\
        Forall2 (fun r content => selects (snd r) (fst r) (in_cells (Z.to_nat first) (Z.to_nat last) content)) rs contents.
Proof.
  intros d D CL cc first last m Sz H1 H2. destruct (cell_selector_init_correct CL cc first last m Sz H1 H2) as [m0 [E R]].
  exists m0. split; [exact E|]. intros parents contents H. eapply range_history_correct; eauto.
Qed.
Print Assumptions C28_cell_range.

Theorem C28_cell_range_listed : forall first last content c l,
  listed (in_cells first last content) c l <-> listed content c l /\ first <= c < last.
Proof. exact listed_in_cells. Qed.
Print Assumptions C28_cell_range_listed.

Theorem C28_other_ranges_are_rejected : forall cc first last m,
  ~ (0 <= first <= last /\ last <= Z.of_nat cc)%Z -> cell_selector_init cc first last m = None.
Proof. exact cell_selector_init_rejects. Qed.
Print Assumptions C28_other_ranges_are_rejected.

Definition C28_range (first last : Z) : option (list (option (list (list nat)) * nat)) :=
  m0 <- cell_selector_init 4 first last C24_map ;;
  sub <- C24_sub ;;
  rs <- range_history C01_device 4 (Z.to_nat first) (Z.to_nat last) m0
          [(0, C24_group); (3, sub_iset (fst sub)); (4, C24_group)] ;;
  Some (map (fun r => (get_host_map (snd r) (fst r), s_npart (snd r))) rs).
Example C28_instance_range :
  C28_range 1 3 = Some [(Some [[]; []; [0; 1; 2; 3]; []], 4); (Some [[]; []; [2; 0]; []], 2); (Some [[]; []; [0; 1; 2; 3]; []], 4)] /\
  C28_range 2 2 = Some (repeat (Some [[]; []; []; []], 0) 3) /\
  C28_range 2 5 = None /\ C28_range 3 2 = None /\ C28_range (-1) 2 = None.
Proof. repeat split; vm_compute; reflexivity. Qed.

(** C28: a copy lists exactly what its source lists, in the same order. *)
Theorem C28_copy : forall d, device_ok d -> forall CL k s0 m0 content m,
  selects s0 m0 content -> map_sizes CL (length content) m ->
  exists m' s, copy_selector_create d k (s_ncell s0) (s_npart s0) (sub_iset m0) m = Some (m', s) /\
    map_sizes CL (length content) m' /\ selects s m' content.
Proof.
  intros d D CL k s0 m0 content m [E1 [E2 [E3 _]]] Sz. rewrite E1, E2. apply copy_selector_correct; auto.
Qed.
Print Assumptions C28_copy.

Example C28_instance_copy :
  seen (r <- C24_sub ;; copy_selector_create C01_device 6 4 6 (sub_iset (fst r)) C24_map) =
  Some (Some [[2; 0]; []; [2; 0]; [1; 0]], 6, [0; 2; 2; 4]).
Proof. vm_compute. reflexivity. Qed.

(** C28: the union of sub-groups lists, cell by cell, the lists of its parents one
    after the other, so a particle is listed exactly if one of the parents lists it;
    with disjoint parents no particle is listed twice. *)
Theorem C28_union : forall d, device_ok d -> forall CL k cc ps contents m,
  1 <= cc -> map_sizes CL cc m -> Forall2 (fun p content => selects (snd p) (fst p) content /\ length content = cc) ps contents ->
  exists m' s, union_create d k cc (map (fun p => sub_iset (fst p)) ps) (map (fun p => s_npart (snd p)) ps) m = Some (m', s) /\
    map_sizes CL cc m' /\ selects s m' (joined cc contents) /\
    (forall c l, listed (joined cc contents) c l <-> exists content, In content contents /\ listed content c l) /\
    (forall gnp, length gnp = cc -> (forall content, In content contents -> content_of_group gnp content) ->
       (forall i j a b c l, nth_error contents i = Some a -> nth_error contents j = Some b -> listed a c l -> listed b c l -> i = j) ->
       content_of_group gnp (joined cc contents)).
Proof.
  intros d D CL k cc ps contents m Hcc Sz H.
  assert (HL : forall ct, In ct contents -> length ct = cc).
  { clear - H. intros ct Hi. induction H as [|p c ps contents [_ L] H IH]; [destruct Hi|]. destruct Hi as [<-|Hi]; auto. }
  assert (HI : Forall2 iterates (map (fun p => sub_iset (fst p)) ps) contents).
  { clear - H. induction H as [|p c ps contents [[_ [_ [I _]]] L] H IH]; cbn; constructor; auto. }
  assert (HN : map (fun p => s_npart (snd p)) ps = map number_of_particles contents).
  { clear - H. induction H as [|p c ps contents [[_ [I _]] L] H IH]; cbn; [auto|]. f_equal; auto. }
  destruct (union_correct CL d k cc (map (fun p => sub_iset (fst p)) ps) contents (map (fun p => s_npart (snd p)) ps) m D Hcc Sz HI HL) as [m' [s [E [Sz' S']]]]; auto.
  { intros P Hi. apply in_map_iff in Hi as [p [<- _]]. reflexivity. }
  exists m', s. split; [exact E|]. split; [exact Sz'|]. split; [exact S'|]. split; [intros c l; apply listed_joined, HL|].
  intros gnp Lg HC HD. apply content_joined; auto.
Qed.
Print Assumptions C28_union.

(** C28: the whole group is not accepted as a parent of a union. *)
Theorem C28_union_rejects_the_group : forall d k cc Ps nps m, (exists P, In P Ps /\ i_whole P = true) ->
  union_create d k cc Ps nps m = None.
Proof.
  intros d k cc Ps nps m [P [Hi Hw]]. unfold union_create.
  assert (E : forallb (fun P => negb (i_whole P)) Ps = false).
  { apply not_true_is_false. intros Q. rewrite forallb_forall in Q. specialize (Q P Hi). rewrite Hw in Q. discriminate. }
  rewrite E. reflexivity.
Qed.
Print Assumptions C28_union_rejects_the_group.

(** The even layers and cell 3, together with the odd layers of the other cells. *)
Example C28_instance_union :
  seen (a <- C24_sub ;;
        b <- selector_create 2 C01_device 1 4 C24_np C24_es (fun c l => negb (C24_kern c l)) C24_group C24_group C24_map ;;
        union_create C01_device 2 4 [sub_iset (fst b); sub_iset (fst a)] [3; 6] C24_map) =
  Some (Some [[1; 2; 0]; []; [1; 3; 2; 0]; [1; 0]], 9, [0; 3; 3; 7]).
Proof. vm_compute. reflexivity. Qed.

(** ** C29 *)

(** C29: every sub-group [p] that still exists lists exactly the particles of the
    parent whose value is [p], each once, for every order of the atomics; values
    outside 0, ..., n - 1 and values of sub-groups already destroyed are listed
    nowhere. *)
Theorem C29_partition :
  forall d, device_ok d -> forall CL k cc gnp ex val P0 P1 content ms,
  1 <= cc -> length gnp = cc -> length ms = length ex -> (forall m, In m ms -> map_sizes CL cc m) ->
  content_of_group gnp content -> number_of_particles content <= list_sum gnp ->
  iterates P0 content -> iterates P1 content ->
  exists ms' ss, partition_create d k cc (list_sum gnp) ex val P0 P1 ms = Some (ms', ss) /\
    length ms' = length ex /\ length ss = length ex /\
    forall p, nth_error ex p = Some true ->
      exists m s part, nth_error ms' p = Some m /\ nth_error ss p = Some s /\ map_sizes CL cc m /\
        selects s m part /\ content_of_group gnp part /\
        forall c l, listed part c l <-> listed content c l /\ val c l = Z.of_nat p.
Proof.
  intros d D CL k cc gnp ex val P0 P1 content ms Hcc Lg Lms Sz HC HN H0 H1.
  destruct (partition_correct CL d cc ex val k (list_sum gnp) P0 P1 content ms D Hcc Lms Sz) as [ms' [ss [E [L1 [L2 H]]]]]; auto.
  { destruct HC. lia. }
  exists ms', ss. split; [exact E|]. split; [exact L1|]. split; [exact L2|]. intros p Ep.
  destruct (H p Ep) as [m [s [ct [Em [Es [Sz' [S' C']]]]]]]. exists m, s, ct.
  split; [exact Em|]. split; [exact Es|]. split; [exact Sz'|]. split; [exact S'|]. split.
  - eapply content_same; [exact C'|]. apply content_chosen, HC.
  - intros c l. rewrite (listed_same _ _ c l C'), listed_chosen. unfold has_value. rewrite Z.eqb_eq. reflexivity.
Qed.
Print Assumptions C29_partition.

(** Values 0, 1, 2 and, for layer 3, a value that names no partition; the second
    sub-group was destroyed in the second case. *)
Definition C29_val (c l : nat) : Z := if l =? 3 then (-1)%Z else Z.of_nat ((c + l) mod 3).
Definition C29_seen (r : option (list pmap * list selection)) :=
  option_map (fun r => map (fun p => (get_host_map (snd p) (fst p), s_npart (snd p))) (combine (fst r) (snd r))) r.
Example C29_instance :
  C29_seen (partition_create C01_device 0 4 9 [true; true; true] C29_val C24_group C24_group [C24_map; C24_map; C24_map]) =
  Some [(Some [[0]; []; [1]; [0]], 3); (Some [[1]; []; [2]; [1]], 3); (Some [[2]; []; [0]; []], 2)] /\
  option_map (fun l => (nth_error l 0, nth_error l 2))
   (C29_seen (partition_create C01_device 0 4 9 [true; false; true] C29_val C24_group C24_group [C24_map; C24_map; C24_map])) =
  Some (Some (Some [[0]; []; [1]; [0]], 3), Some (Some [[2]; []; [0]; []], 2)).
Proof. split; vm_compute; reflexivity. Qed.

Example C29_instance_hypotheses : content_of_group C24_np (whole_group C24_np) /\
  number_of_particles (whole_group C24_np) <= list_sum C24_np /\ iterates C24_group (whole_group C24_np) /\
  (forall m, In m [C24_map; C24_map; C24_map] -> map_sizes 2 4 m).
Proof.
  split; [apply whole_content|]. split; [cbn; lia|]. split; [apply C24_instance_group|].
  intros m [<-|[<-|[<-|[]]]]; repeat split.
Qed.

(** Finding: with a parent rebuilt in another order between the two loops, particles
    are lost and the sub-groups list particles that do not exist (here 5, left in the
    storage by an earlier user, of a cell with three particles). *)
Theorem C29_rebuilt_parent_refuted :
  exists d k val P0 P1 content0 content1 ms ms' ss,
    device_ok d /\ iterates P0 content0 /\ iterates P1 content1 /\ same_particles content1 content0 /\
    content_of_group [3] content0 /\ (forall m, In m ms -> map_sizes 1 1 m) /\
    partition_create d k 1 3 [true; true] val P0 P1 ms = Some (ms', ss) /\
    C29_seen (Some (ms', ss)) = Some [(Some [[2; 5]], 2); (Some [[5]], 1)].
Proof.
  set (m0 := {| m_layers := [5; 5; 5]; m_hstarts := [0]; m_starts := [0]; m_total := 0; m_hn := [0; 0]; m_dn := [0; 0]; m_hes := [0]; m_des := [0] |}).
  exists {| ord := fun A k l => l; junk := fun _ _ => 0%Z; local_size := 1; max_compute_units := 1 |}, 0,
    (fun c l => if l =? 1 then 1%Z else 0%Z), (C24_parent [0; 1; 2]), (C24_parent [0; 2; 1]), [[0; 1; 2]], [[0; 2; 1]], [m0; m0].
  eexists _, _. split; [split; [auto|cbn; lia]|].
  assert (I : forall ls, iterates (C24_parent ls) [ls]).
  { intros ls [|[|c]] x E; cbn in E; try discriminate. injection E as <-. cbn. auto. }
  split; [apply I|]. split; [apply I|]. split; [repeat constructor|]. split.
  { split; [auto|]. intros [|[|c]] ls n E En; cbn in E, En; try discriminate. injection E as <-. injection En as <-. split.
    - repeat constructor; cbn; lia.
    - cbn. lia. }
  split; [intros m [<-|[<-|[]]]; repeat split|].
  split; vm_compute; reflexivity.
Qed.
Print Assumptions C29_rebuilt_parent_refuted.
