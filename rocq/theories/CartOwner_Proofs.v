(** Proofs about the Cartesian mesh: the owners of the cells of the mesh
    hierarchy and the neighbouring ranks. *)
From Coq Require Import List Arith ZArith QArith Bool Lia Permutation.
Import ListNotations.
From Verif Require Import Base Kernel Scan_Model Scan_Proofs Mesh_Model Mesh_Spec Mesh_Proofs MeshNb_Proofs MeshClaim_Proofs CartMesh_Model CartMesh_Spec CartMesh_Proofs.
Local Open Scope Z_scope.

Section Owner.
  Context (m : cmesh) (H : cmesh_ok m).
  Notation nd := (ndim (hier m)).
  Notation h := (hier m).

  Definition midx (c : list Z) : Z := cell_index h (tuple_of h (fun i => nth i c 0)).
  Lemma h_ok : mesh_ok h.
  Proof. exact (proj1 H). Qed.
  Lemma grid_coord c i : grid_cell m c -> (i < nd)%nat -> 0 <= nth i c 0 < extent_cells h i.
  Proof.
    intros (L3 & G) L. pose proof (nd_le m H). specialize (G i ltac:(lia)). unfold grid in G. destruct (Nat.ltb_spec i nd); lia.
  Qed.
  Lemma grid_zero c i : grid_cell m c -> (nd <= i < 3)%nat -> nth i c 0 = 0.
  Proof. intros (L3 & G) L. specialize (G i ltac:(lia)). unfold grid in G. destruct (Nat.ltb_spec i nd); lia. Qed.
  Lemma mesh_index_ok c : grid_cell m c -> mesh_index m c = Some (midx c) /\ 0 <= midx c < ncells h.
  Proof.
    intros G. pose proof (nd_le m H). unfold mesh_index. rewrite cart_to_tuple_correct.
    - cbn [obind]. destruct (tuple_of_cell h (fun i => nth i c 0) h_ok) as (T & _); [intros i L; apply grid_coord; assumption|].
      destruct (to_linear_correct h _ h_ok T) as (E & B & _). split; assumption.
    - exact h_ok.
    - destruct G as (L3 & _). lia.
    - intros i L. apply (grid_coord c i G L).
  Qed.
  Lemma midx_inj c c' : grid_cell m c -> grid_cell m c' -> midx c = midx c' -> c = c'.
  Proof.
    intros G G' E. pose proof (nd_le m H).
    destruct (tuple_of_cell h (fun i => nth i c 0) h_ok) as (T & K); [intros i L; apply grid_coord; assumption|].
    destruct (tuple_of_cell h (fun i => nth i c' 0) h_ok) as (T' & K'); [intros i L; apply grid_coord; assumption|].
    pose proof (index_inj h _ _ h_ok T T' E) as Q.
    apply (nth_ext _ _ 0 0); [destruct G as (-> & _), G' as (-> & _); reflexivity|]. intros i L. destruct G as (L3 & G0). rewrite L3 in L.
    destruct (Nat.lt_ge_cases i nd) as [A|A].
    - rewrite <- (K i A), <- (K' i A), Q. reflexivity.
    - rewrite (grid_zero c i), (grid_zero c' i); [reflexivity|exact G'|lia|split; assumption|lia].
  Qed.

  (** *** Claims *)
  Lemma claims_eq r x : ccoords (comm m) r = Some x -> coords_in (cdims (comm m)) x ->
    mesh_claims m r = Some (map (fun c => (Z.to_nat (midx c), 1)) (owned m x)).
  Proof.
    intros E C. unfold mesh_claims. rewrite (owned_eq m H r x E C). cbn [obind].
    apply mapM_some. intros c I. pose proof (owned_grid m H x c C I) as G. destruct (mesh_index_ok c G) as (-> & B). cbn [obind].
    destruct (Z.leb_spec 0 (midx c)); [|lia]. reflexivity.
  Qed.

  Lemma all_claims : exists cl, mapM (mesh_claims m) (seq 0 (csize (comm m))) = Some cl /\ length cl = csize (comm m) /\
    forall r c w, (r < csize (comm m))%nat -> In (c, w) (nth r cl []) <-> w = 1 /\ exists d, owns m r d /\ c = Z.to_nat (midx d).
  Proof.
    set (g := fun r => match ccoords (comm m) r with Some x => map (fun c => (Z.to_nat (midx c), 1)) (owned m x) | None => [] end).
    exists (map g (seq 0 (csize (comm m)))). split; [|split].
    - apply mapM_seq. intros r L. destruct (ranks m H r L) as (x & E & C & _). unfold g. rewrite E. apply claims_eq; assumption.
    - rewrite map_length, seq_length. reflexivity.
    - intros r c w L. rewrite nth_map_seq' by exact L. destruct (ranks m H r L) as (x & E & C & _). unfold g. rewrite E, in_map_iff. split.
      + intros (d & [= <- <-] & I). split; [reflexivity|]. exists d. split; [|reflexivity]. apply (owns_iff m H r x d E C L), I.
      + intros (-> & d & O & ->). exists d. split; [reflexivity|]. apply (owns_iff m H r x d E C L), O.
  Qed.

  Lemma build_ok nodes s1 s2 maps0 :
    (forall k l, Permutation (s1 k l) l) -> (forall k l, Permutation (s2 k l) l) ->
    Permutation (concat nodes) (seq 0 (csize (comm m))) -> nodes <> [] -> Forall (fun l => l <> []) nodes ->
    length maps0 = length nodes -> Forall (fun mp => length mp = Z.to_nat (ncells h)) maps0 ->
    exists owners, build_owners m nodes s1 s2 maps0 = Some (repeat owners (length nodes)) /\ owner_map m owners.
  Proof.
    intros P1 P2 PN N F L0 F0. unfold build_owners. rewrite ncells_global_correct by exact h_ok. cbn [obind].
    destruct all_claims as (cl & -> & Lc & K). cbn [obind].
    assert (R : forall r, In r (concat nodes) <-> (r < csize (comm m))%nat).
    { intros r. rewrite (Permutation_in' eq_refl PN), in_seq. lia. }
    destruct (epoch_correct (Z.to_nat (ncells h)) nodes (fun r => nth r cl []) s1 s2 maps0 P1 P2 N F L0 F0) as (mp & E & Lm & G).
    { intros r I c w Q. apply R in I. apply (K r c w I) in Q. destruct Q as (-> & d & O & ->). destruct (owns_coords m H r d O) as (Gd & _).
      destruct (mesh_index_ok d Gd) as (_ & B). lia. }
    exists mp. split; [exact E|]. intros c Gc. destruct (mesh_index_ok c Gc) as (Ei & B). destruct (owner_exists m H c Gc) as (r & _ & _ & O).
    exists (midx c), r. split; [exact Ei|]. split; [|exact O].
    unfold get_owner. destruct (Z.ltb_spec (midx c) 0); [lia|]. unfold rd.
    destruct (G (Z.to_nat (midx c)) ltac:(lia)) as [(q & (w & (I & Q) & _) & V)|(U & _)].
    - apply R in I. apply (K q _ w I) in Q. destruct Q as (_ & d & Od & Ed). destruct (owns_coords m H q d Od) as (Gd & _).
      destruct (mesh_index_ok d Gd) as (_ & Bd). assert (c = d) by (apply midx_inj; [exact Gc|exact Gd|lia]). subst d.
      rewrite (owns_unique m H r q c O Od). exact V.
    - exfalso. apply (U r 1). split; [apply R, (proj1 O)|]. apply (K r _ 1 (proj1 O)). split; [reflexivity|]. exists c. auto.
  Qed.

  (** *** Neighbours *)
  Context (owners : list Z) (OM : owner_map m owners).

  Definition sw := Z.of_nat (stencil_width m).
  Definition lo (x : list nat) (i : nat) : Z := if (i <? nd)%nat then st m x i - sw else 0.
  Definition hi (x : list nat) (i : nat) : Z := if (i <? nd)%nat then en m x i + sw else 1.
  Definition wrap (c : list Z) : list Z := map (fun i => if (i <? nd)%nat then nth i c 0 mod grid m i else 0) [0; 1; 2]%nat.

  Lemma rd3_st x i : (i < 3)%nat -> rd [st m x 0; st m x 1; st m x 2] i = Some (st m x i).
  Proof. intros L. destruct i as [|[|[|i]]]; [reflexivity..|lia]. Qed.
  Lemma rd3_en x i : (i < 3)%nat -> rd [en m x 0; en m x 1; en m x 2] i = Some (en m x i).
  Proof. intros L. destruct i as [|[|[|i]]]; [reflexivity..|lia]. Qed.
  Lemma nth3 {A} (f : nat -> A) i d : (i < 3)%nat -> nth i (map f [0; 1; 2]%nat) d = f i.
  Proof. intros L. destruct i as [|[|[|i]]]; [reflexivity..|lia]. Qed.
  Lemma grid_lt i : (i < nd)%nat -> grid m i = extent_cells h i.
  Proof. intros L. unfold grid. destruct (Nat.ltb_spec i nd); [reflexivity|lia]. Qed.

  Lemma wrap_grid c : length c = 3%nat -> grid_cell m (wrap c).
  Proof.
    intros L3. split; [reflexivity|]. intros i L. unfold wrap. rewrite nth3 by exact L. pose proof (grid_pos m H i).
    destruct (Nat.ltb_spec i nd) as [Q|Q]; [apply Z.mod_pos_bound; lia|]. unfold grid in *. destruct (Nat.ltb_spec i nd); lia.
  Qed.

  Lemma stencil_eq x : coords_in (cdims (comm m)) x ->
    stencil_cells m (arr3 nd (extent_cells h) 0) [st m x 0; st m x 1; st m x 2] [en m x 0; en m x 1; en m x 2]
    = Some (map wrap (box (lo x 0) (lo x 1) (lo x 2) (hi x 0) (hi x 1) (hi x 2))).
  Proof.
    intros C. pose proof (nd_le m H) as ND. unfold stencil_cells. fold sw.
    rewrite (fill3_arr 0 _ (fun i => st m x i - sw)); [|lia|intros i L; rewrite rd3_st by lia; reflexivity].
    rewrite (fill3_arr 1 _ (fun i => en m x i + sw)); [|lia|intros i L; rewrite rd3_en by lia; reflexivity]. cbn [obind].
    rewrite (box3_eq _ _ (lo x 0) (lo x 1) (lo x 2) (hi x 0) (hi x 1) (hi x 2)); [|reflexivity|reflexivity]. cbn [obind].
    apply mapM_some. intros c I. apply box_in in I. destruct I as (a & b & d & -> & A & B & D).
    apply mapM_some. intros i Hi. assert (L : (i < 3)%nat) by (cbn in Hi; lia).
    assert (K : lo x i <= nth i [a; b; d] 0 < hi x i) by (destruct i as [|[|[|i]]]; cbn [nth]; lia).
    unfold rd at 1. rewrite (nth_error_nth' _ 0) by (cbn; lia). cbn [obind]. rewrite arr3_rd by exact L. cbn [obind].
    pose proof (region m H x i C) as R. assert (0 <= sw) by (unfold sw; lia).
    unfold lo, hi in K. destruct (Nat.ltb_spec i nd) as [Q|Q].
    - pose proof (grid_pos m H i) as P. rewrite (grid_lt i Q) in *.
      set (dd := if (i =? 0)%nat then extent_cells h i else Z.max (extent_cells h i) 1).
      assert (Ed : dd = extent_cells h i) by (unfold dd; destruct (i =? 0)%nat; lia). rewrite Ed.
      destruct (Z.eqb_spec (extent_cells h i) 0); [lia|]. cbn [negb assert obind]. f_equal.
      rewrite Z.rem_mod_nonneg by nia. apply Z.mod_add. lia.
    - assert (Ei : (i =? 0)%nat = false) by (apply Nat.eqb_neq; lia). rewrite Ei. cbn [Z.max Z.compare Z.eqb negb assert obind].
      rewrite Z.mul_0_r, Z.add_0_r. f_equal. assert (E0 : nth i [a; b; d] 0 = 0) by lia. rewrite E0. reflexivity.
  Qed.

  (** A cell of the stencil, wrapped: a cell within the width of an owned one. *)
  Lemma stencil_in x c' : coords_in (cdims (comm m)) x ->
    In c' (map wrap (box (lo x 0) (lo x 1) (lo x 2) (hi x 0) (hi x 1) (hi x 2))) <->
    grid_cell m c' /\ exists c, In c (owned m x) /\ within m sw c c'.
  Proof.
    intros C. pose proof (nd_le m H) as ND. assert (SW : 0 <= sw) by (unfold sw; lia). split.
    - intros I. apply in_map_iff in I. destruct I as (sc & <- & I). apply box_in in I. destruct I as (a & b & d & -> & A & B & D).
      split; [apply wrap_grid; reflexivity|].
      set (sc := [a; b; d]) in *.
      assert (K : forall i, (i < 3)%nat -> lo x i <= nth i sc 0 < hi x i) by (intros i L; destruct i as [|[|[|i]]]; cbn [nth sc]; lia).
      exists (map (fun i => Z.max (st m x i) (Z.min (en m x i - 1) (nth i sc 0))) [0; 1; 2]%nat). split.
      + apply (owned_in m x _ C). split; [reflexivity|]. intros i L. rewrite nth3 by exact L. pose proof (region m H x i C). lia.
      + intros i L. rewrite nth3 by lia. unfold wrap. rewrite nth3 by lia. destruct (Nat.ltb_spec i nd); [|lia].
        pose proof (grid_pos m H i) as P. specialize (K i ltac:(lia)). unfold lo, hi in K. destruct (Nat.ltb_spec i nd); [|lia].
        pose proof (region m H x i C). exists (- (nth i sc 0 / grid m i)).
        pose proof (Z.div_mod (nth i sc 0) (grid m i) ltac:(lia)). lia.
    - intros (G & c & I & W). apply (owned_in m x _ C) in I. destruct I as (L3 & I).
      destruct (finite_choice nd (fun i k => Z.abs (nth i c 0 + k * grid m i - nth i c' 0) <= sw) W) as (k & K).
      set (sc := fun i => if (i <? nd)%nat then nth i c' 0 - k i * grid m i else 0).
      apply in_map_iff. exists [sc 0%nat; sc 1%nat; sc 2%nat]. split.
      + apply (nth_ext _ _ 0 0); [destruct G as (-> & _); reflexivity|]. intros i L. change (length (wrap _)) with 3%nat in L. unfold wrap. rewrite nth3 by exact L.
        destruct (Nat.ltb_spec i nd) as [Q|Q].
        * replace (nth i [sc 0%nat; sc 1%nat; sc 2%nat] 0) with (sc i) by (destruct i as [|[|[|i]]]; [reflexivity..|lia]).
          unfold sc. destruct (Nat.ltb_spec i nd); [|lia]. destruct G as (_ & G). specialize (G i L).
          replace (nth i c' 0 - k i * grid m i) with (nth i c' 0 + (- k i) * grid m i) by ring. rewrite Z.mod_add by lia. apply Z.mod_small. exact G.
        * symmetry. apply grid_zero; [exact G|lia].
      + assert (K' : forall i, (i < 3)%nat -> lo x i <= sc i < hi x i).
        { intros i L. unfold lo, hi, sc. destruct (Nat.ltb_spec i nd) as [Q|Q]; [|lia]. specialize (K i Q). specialize (I i L). lia. }
        apply box_in. exists (sc 0%nat), (sc 1%nat), (sc 2%nat). split; [reflexivity|]. split; [apply K'; lia|]. split; apply K'; lia.
  Qed.

  Lemma fold_owners : forall cells s, (forall c, In c cells -> grid_cell m c) ->
    exists out, foldM (fun s c => i <- mesh_index m c ;; o <- get_owner owners i ;; Some (set_add o s)) s cells = Some out /\
      (forall q, In q out <-> In q s \/ exists c r, In c cells /\ owns m r c /\ q = Z.of_nat r) /\ (ascending s -> ascending out).
  Proof.
    induction cells as [|c cells IH]; intros s G; cbn [foldM].
    - exists s. split; [reflexivity|]. split; [|auto]. intros q. split; [auto|]. intros [?|(c & r & [] & _)]; assumption.
    - destruct (OM c) as (i & r & Ei & Eo & O); [apply G; left; reflexivity|]. rewrite Ei. cbn [obind]. rewrite Eo. cbn [obind].
      destruct (IH (set_add (Z.of_nat r) s)) as (out & E & I & A); [intros d Hd; apply G; right; exact Hd|]. exists out. split; [exact E|]. split.
      + intros q. rewrite I, in_set_add. split.
        * intros [[->|?]|(d & r' & Hd & Or & ->)]; [right; exists c, r; cbn [In]; auto|auto|right; exists d, r'; cbn [In]; auto].
        * intros [?|(d & r' & [<-|Hd] & Or & ->)]; [auto| |right; exists d, r'; auto]. left; left. f_equal. exact (owns_unique m H r' r c Or O).
      + intros As. apply A, set_add_ascending, As.
  Qed.

  Lemma neighbours_ok rank : (rank < csize (comm m))%nat ->
    exists nb, get_local_communication_neighbours m owners rank = Some nb /\ ascending nb /\
      forall q, In q nb <-> exists r c c', q = Z.of_nat r /\ owns m rank c /\ owns m r c' /\ within m (Z.of_nat (stencil_width m)) c c'.
  Proof.
    intros L. destruct (ranks m H rank L) as (x & E & C & _). unfold get_local_communication_neighbours. rewrite E. cbn [obind].
    rewrite (counts_eq m H). cbn [obind]. rewrite (starts_eq m H x C), (ends_eq m H x C). cbn [obind]. rewrite (stencil_eq x C). cbn [obind].
    destruct (fold_owners (map wrap (box (lo x 0) (lo x 1) (lo x 2) (hi x 0) (hi x 1) (hi x 2))) []) as (nb & Ef & I & A).
    { intros c Hc. apply (stencil_in x c C) in Hc. apply Hc. }
    exists nb. split; [exact Ef|]. split; [apply A; exact Logic.I|]. intros q. rewrite I. split.
    - intros [[]|(c' & r & Ic & O & ->)]. apply (stencil_in x c' C) in Ic. destruct Ic as (_ & c & Oc & W).
      exists r, c, c'. split; [reflexivity|]. split; [apply (owns_iff m H rank x c E C L), Oc|]. split; [exact O|exact W].
    - intros (r & c & c' & -> & Oc & O & W). right. exists c', r. split; [|auto]. apply (stencil_in x c' C).
      split; [apply (owns_coords m H r c' O)|]. exists c. split; [apply (owns_iff m H rank x c E C L), Oc|exact W].
  Qed.
End Owner.
