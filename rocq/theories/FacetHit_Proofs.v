(** Lemmas about BoundaryInteraction2D: the store of facets and the nearest crossing. *)
From Coq Require Import List Arith ZArith QArith Qminmax Qround Bool Lia Lqa Permutation.
Import ListNotations.
From Verif Require Import Base Kernel Maps_Model Maps_Spec Maps_Proofs Maps_Props Mesh_Model Mesh_Spec Mesh_Proofs MeshNb_Proofs MeshPos_Proofs DeviceFn_Model DeviceFn_Spec DeviceFn_Props Overlap_Model Overlap_Spec OverlapMap_Proofs OverlapClaim_Proofs Overlap_Props Facet_Model Facet_Spec Facet_Proofs.
Local Open Scope nat_scope.

Lemma in_pick {A B} (f : A -> option B) l y : In y (pick f l) <-> exists a, In a l /\ f a = Some y.
Proof.
  induction l as [|a l IH]; cbn [pick In]; [split; [tauto|intros (a & [] & _)]|]. destruct (f a) eqn:E; cbn [In]; rewrite ?IH; split.
  - intros [<-|(x & I & Ex)]; eauto.
  - intros (x & [<-|I] & Ex); [left; congruence|right; eauto].
  - intros (x & I & Ex); eauto.
  - intros (x & [<-|I] & Ex); [congruence|eauto].
Qed.
Lemma labels_in groups labels : get_labels groups = Some labels -> forall l, In l labels <-> exists item, In item groups /\ In l (snd item).
Proof.
  unfold get_labels.
  assert (I1 : forall xs acc r, foldM (fun labels ix => _ <- assert (negb (mem ix labels)) ;; Some (labels ++ [ix])) acc xs = Some r -> forall l, In l r <-> In l acc \/ In l xs).
  { induction xs as [|x xs IH]; intros acc r; cbn [foldM]; [intros [= <-] l; cbn [In]; tauto|]. destruct (negb (mem x acc)); cbn [assert obind]; [|discriminate]. intros E l. rewrite (IH _ _ E), in_app_iff. cbn [In]. tauto. }
  enough (G : forall (gs : list (Z * list Z)) acc r, foldM (fun labels item => foldM (fun labels ix => _ <- assert (negb (mem ix labels)) ;; Some (labels ++ [ix])) labels (nodup Z.eq_dec (snd item))) acc gs = Some r -> forall l, In l r <-> In l acc \/ exists item, In item gs /\ In l (snd item : list Z)).
  { intros E l. rewrite (G _ _ _ E). cbn [In]. tauto. }
  induction gs as [|g gs IH]; intros acc r; cbn [foldM]; [intros [= <-] l; split; [tauto|intros [H|(i & [] & _)]; exact H]|].
  destruct (foldM _ acc (nodup Z.eq_dec (snd g))) as [acc'|] eqn:E1; cbn [obind]; [|discriminate]. intros E l. rewrite (IH _ _ E), (I1 _ _ _ E1), nodup_In. split.
  - intros [[H|H]|(i & I & H)]; [tauto|right; exists g; cbn; auto|right; exists i; cbn; auto].
  - intros [H|(i & [<-|I] & H)]; [tauto|tauto|right; eauto].
Qed.

Section Hits.
  Variables (m : mesh) (groups : list (Z * list Z)) (tol max_real : Q) (ranks : list (list (Z * list facet))) (b : interaction).
  Hypothesis Hm : mesh_ok m.
  Hypothesis H2 : ndim m = 2.
  Hypothesis Ht : (0 <= tol)%Q.
  Hypothesis Hc : construct m groups tol max_real ranks = Some b.
  Hypothesis Hin : forall f, boundary_facet groups ranks f -> facet_inside m f.
  Hypothesis Hnormal : forall f g, boundary_facet groups ranks f -> boundary_facet groups ranks g -> f_id f = f_id g -> f_n f = f_n g.
  Variables (fresh_e : nat -> node (list edge)) (fresh_n : nat -> node (Q * Q)).
  Hypothesis He : allocation width8 fresh_e.
  Hypothesis Hn : allocation width8 fresh_n.

  Definition the_box (f : facet) : box :=
    [Qmin (f_x0 f - padding) (f_x1 f - padding); Qmin (f_y0 f - padding) (f_y1 f - padding); 0;
     Qmax (f_x0 f + padding) (f_x1 f + padding); Qmax (f_y0 f + padding) (f_y1 f + padding); 0]%Q.
  Lemma built : i_mesh b = m /\ i_groups b = groups /\ i_tol b = tol /\ i_max b = max_real /\ i_bounds b = [extent_cells m 0; extent_cells m 1; 0%Z] /\
    (forall f, In f (i_facets b) <-> boundary_facet groups ranks f) /\
    mapM (fun f => cs <- bounding_box_map m (the_box f) ;; Some (map fst cs)) (i_facets b) = Some (i_cells b).
  Proof.
    revert Hc. unfold construct. destruct (forallb _ groups); cbn [assert obind]; [|discriminate]. rewrite H2. destruct Hm as ((_ & D) & _). rewrite H2 in D. cbn [seq mapM]. rewrite !(rd_nth (dims m) _ 0%Z) by lia. cbn [obind].
    destruct (get_labels groups) as [labels|] eqn:El; cbn [obind]; [|discriminate]. pose proof (labels_in _ _ El) as Lab.
    set (fs := flat_map _ ranks). destruct (mapM _ fs) as [cells|] eqn:Ec; cbn [obind]; [|discriminate]. intros [= <-]. cbn [i_mesh i_groups i_tol i_max i_bounds i_facets i_cells].
    split; [reflexivity|]. split; [reflexivity|]. split; [reflexivity|]. split; [reflexivity|]. split; [reflexivity|]. split.
    - intros f. unfold fs. rewrite in_flat_map. split.
      + intros (sets & Is & I). apply in_flat_map in I. destruct I as (item & Ii & I). destruct (mem (fst item) labels) eqn:M; [|destruct I]. apply in_map_iff in I. destruct I as (f0 & <- & If). apply mem_in in M. apply Lab in M. destruct M as ((g & ls) & Ig & Il). exists sets, item, f0, g, ls. auto 10.
      + intros (sets & item & f0 & g & ls & Is & Ii & If & Ig & Il & ->). exists sets. split; [exact Is|]. apply in_flat_map. exists item. split; [exact Ii|]. assert (M : mem (fst item) labels = true) by (apply mem_in, Lab; exists (g, ls); auto). rewrite M. apply in_map_iff. exists f0. auto.
    - rewrite <- Ec. apply mapM_ext_in. intros f _. reflexivity.
  Qed.
  Lemma Bf f : In f (i_facets b) <-> boundary_facet groups ranks f.
  Proof. exact (proj1 (proj2 (proj2 (proj2 (proj2 (proj2 built))))) f). Qed.

  Lemma grouped f : In f (i_facets b) -> exists g labels, group_of groups (f_label f) = Some g /\ In (g, labels) groups /\ In (f_label f) labels.
  Proof.
    intros I. apply Bf in I. destruct I as (sets & item & f0 & g & ls & _ & _ & _ & Ig & Il & ->). cbn [f_label]. unfold group_of. destruct (find (fun item0 => mem (fst item) (snd item0)) groups) as [(g' & ls')|] eqn:E.
    - apply find_some in E. destruct E as (I1 & I2). cbn [snd] in I2. apply mem_in in I2. exists g', ls'. auto.
    - exfalso. pose proof (find_none _ _ E _ Ig) as X. cbn [snd] in X. apply mem_in in Il. congruence.
  Qed.
  Definition edge_of (f : facet) : edge := mk_edge (f_x0 f) (f_y0 f) (f_x1 f) (f_y1 f) (match group_of groups (f_label f) with Some g => g | None => 0%Z end) (f_id f).

  (** ** A crossed facet is in a cell of the trajectory *)
  Lemma facets_at_in cell f : In f (facets_at b cell) -> In f (i_facets b).
  Proof. unfold facets_at. rewrite in_map_iff. intros ((f' & cs) & E & I). cbn [fst] in E. subst f'. apply filter_In in I. destruct I as (I & _). apply in_combine_l in I. exact I. Qed.
  Lemma facets_at_meets f t : In f (i_facets b) -> cell_tuple m t -> meets m (the_box f) t -> In f (facets_at b (cell_index m t)).
  Proof.
    intros I C M. destruct built as (_ & _ & _ & _ & _ & _ & E). apply In_nth_error in I. destruct I as (k & Ek). pose proof (mapM_nth _ _ _ _ _ E Ek) as N. cbn beta in N. destruct (C72_overlap m (the_box f) Hm ltac:(lia) eq_refl) as (cells & Ec & _ & Hcells & _). rewrite Ec in N. cbn [obind] in N. unfold facets_at. apply in_map_iff. exists (f, map fst cells). split; [reflexivity|]. apply filter_In. split.
    - apply (nth_error_In _ k). assert (X : forall (u : list facet) (v : list (list Z)) k a c, nth_error u k = Some a -> nth_error v k = Some c -> nth_error (List.combine u v) k = Some (a, c)). { clear. induction u as [|x u IH]; intros [|y v] [|k] a c; cbn; try discriminate; [intros [= ->] [= ->]; reflexivity|apply IH]. } apply X; [exact Ek|symmetry; exact N].
    - cbn [snd]. apply mem_in. apply Hcells. exists t. auto.
  Qed.

  Lemma between_mono a c x o : (exists t, 0 <= t <= 1 /\ x == a + t * (c - a))%Q -> (Z.min (cart_dim m o a) (cart_dim m o c) <= cart_dim m o x <= Z.max (cart_dim m o a) (cart_dim m o c))%Z.
  Proof.
    intros (t & T & E). destruct (Qlt_le_dec a c) as [L|L].
    - assert (a <= x)%Q by nra. assert (x <= c)%Q by nra. pose proof (cart_mono m Hm H2 o a x H). pose proof (cart_mono m Hm H2 o x c H0). lia.
    - assert (c <= x)%Q by nra. assert (x <= a)%Q by nra. pose proof (cart_mono m Hm H2 o c x H). pose proof (cart_mono m Hm H2 o x a H0). lia.
  Qed.
  Lemma between_box a c x : (exists t, 0 <= t <= 1 /\ x == a + t * (c - a))%Q -> (Qmin (a - padding) (c - padding) < x /\ x < Qmax (a + padding) (c + padding))%Q.
  Proof.
    intros (t & T & E). assert (P : (0 < padding)%Q) by reflexivity. destruct (Qlt_le_dec a c) as [L|L].
    - assert (a <= x)%Q by nra. assert (x <= c)%Q by nra. split; [pose proof (Q.le_min_l (a - padding) (c - padding)); lra|pose proof (Q.le_max_r (a + padding) (c + padding)); lra].
    - assert (c <= x)%Q by nra. assert (x <= a)%Q by nra. split; [pose proof (Q.le_min_r (a - padding) (c - padding)); lra|pose proof (Q.le_max_l (a + padding) (c + padding)); lra].
  Qed.
  Lemma domain_w i : (domain m i == inject_Z (extent_cells m i) * fine_width m)%Q.
  Proof. unfold domain, fine_width, extent_cells. rewrite inject_Z_mult. field. assert (0 < 2 ^ Z.of_nat (order m))%Z by (apply Z.pow_pos_nonneg; lia). rewrite Zlt_Qlt in H. change (inject_Z 0) with 0%Q in H. lra. Qed.

  (** One dimension. *)
  Definition ccell (x : Q) (i : nat) : Z := Z.min (cart_dim m (nth i (origin m) 0%Q) x) (extent_cells m i - 1).
  Lemma one_dim i x f0 f1 a c : i < 2 -> (exists t, 0 <= t <= 1 /\ x == f0 + t * (f1 - f0))%Q -> (exists t, 0 <= t <= 1 /\ x == a + t * (c - a))%Q ->
    let o := nth i (origin m) 0%Q in (0 <= f0 - o <= domain m i)%Q -> (0 <= f1 - o <= domain m i)%Q -> (a - o < domain m i)%Q ->
    (0 <= x - o <= domain m i)%Q /\
    (0 <= ccell x i < extent_cells m i)%Z /\ (Z.max (Z.min (cart_dim m o a) (cart_dim m o c)) 0 <= ccell x i < Z.min (extent_cells m i - 1) (Z.max (cart_dim m o a) (cart_dim m o c)) + 1)%Z /\
    ((x - o < domain m i)%Q -> in_cell m (ccell x i) (x - o)) /\ ((x - o == domain m i)%Q -> ccell x i = extent_cells m i - 1)%Z.
  Proof.
    intros Hi Xf Xa o D0 D1 Da. pose proof (ext_pos m Hm H2 i Hi) as Ep. destruct (widths_pos m Hm) as (W & _). pose proof (domain_w i) as Dw.
    assert (R : (0 <= x - o <= domain m i)%Q). { destruct Xf as (t & T & E). split; nra. }
    assert (CI : forall y, (0 <= y - o)%Q -> in_cell m (cart_dim m o y) (y - o)) by (intros y Y; apply cart_inside; [exact Hm|lra]).
    assert (LT : forall y, (y - o < domain m i)%Q -> (cart_dim m o y <= extent_cells m i - 1)%Z). { intros y Y. destruct (Qlt_le_dec (y - o) 0) as [N|N]; [pose proof (cart_mono m Hm H2 o y o ltac:(lra)) as M; assert (Z0 : cart_dim m o o = 0%Z); [destruct (CI o ltac:(lra)) as (A1 & A2); assert (A3 : (inject_Z (cart_dim m o o) * fine_width m <= 0)%Q) by lra; assert (A4 : (inject_Z (cart_dim m o o) <= inject_Z 0)%Q) by (change (inject_Z 0) with 0%Q; nra); rewrite <- Zle_Qle in A4; assert (A5 : (inject_Z 0 < inject_Z (cart_dim m o o + 1))%Q) by (change (inject_Z 0) with 0%Q; nra); rewrite <- Zlt_Qlt in A5; lia|lia]|]. destruct (CI y N) as (A1 & _). assert (A : (inject_Z (cart_dim m o y) < inject_Z (extent_cells m i))%Q) by nra. rewrite <- Zlt_Qlt in A. lia. }
    assert (Cx : (0 <= cart_dim m o x)%Z). { destruct (CI x ltac:(lra)) as (_ & A2). assert (A : (inject_Z 0 < inject_Z (cart_dim m o x + 1))%Q) by (change (inject_Z 0) with 0%Q; nra). rewrite <- Zlt_Qlt in A. lia. }
    split; [exact R|]. unfold ccell. fold o. split; [lia|]. split; [pose proof (between_mono a c x o Xa); pose proof (LT a Da); lia|]. split.
    - intros L. pose proof (LT x L). rewrite Z.min_l by lia. apply CI. lra.
    - intros E. destruct (CI x ltac:(lra)) as (_ & A2). assert (A : (inject_Z (extent_cells m i) < inject_Z (cart_dim m o x + 1))%Q) by nra. rewrite <- Zlt_Qlt in A. lia.
  Qed.

  Lemma crossed_cell f p x : In f (i_facets b) -> length (p_prev p) = 2 -> length (p_cur p) = 2 -> (forall i, i < 2 -> (rel_pos m (p_prev p) i < domain m i)%Q) -> crosses f p x ->
    exists c l, In c (traj m p) /\ linear_cell m c = Some l /\ In f (facets_at b l).
  Proof.
    intros If Lp Lc Hd (_ & (tf & Tf & Fx & Fy) & (ta & Ta & Ax & Ay)). destruct (Hin f (proj1 (Bf f) If)) as (I1 & I2 & I3 & I4). unfold rel_pos in *. cbn [nth] in I1, I2, I3, I4.
    destruct (one_dim 0 (fst x) (f_x0 f) (f_x1 f) (prev_x p) (cur_x p)) as (A1 & A2 & A3 & A4 & A5); [lia|eauto|eauto|exact I1|exact I3|exact (Hd 0 ltac:(lia))|].
    destruct (one_dim 1 (snd x) (f_y0 f) (f_y1 f) (prev_y p) (cur_y p)) as (B1 & B2 & B3 & B4 & B5); [lia|eauto|eauto|exact I2|exact I4|exact (Hd 1 ltac:(lia))|].
    set (c := [ccell (fst x) 0; ccell (snd x) 1; 0%Z]). exists c, (cell_index m (tup m c)).
    assert (Ran : forall i, i < 2 -> (0 <= nth i c 0 < extent_cells m i)%Z) by (intros [|[|i]] Li; [exact A2|exact B2|lia]).
    split; [apply grid_in; exists (ccell (fst x) 0), (ccell (snd x) 1); split; [reflexivity|]; split; assumption|].
    split; [apply linear_ok; try assumption; cbn; lia|].
    destruct (tuple_of_cell m (fun i => nth i c 0%Z) Hm) as (C & Co); [intros i Hi; rewrite H2 in Hi; apply Ran; exact Hi|]. apply facets_at_meets; [exact If|exact C|].
    apply (position_meets m Hm ltac:(lia) (the_box f) [fst x; snd x]); [exact C| |].
    - intros i Hi. unfold tup. rewrite Co by exact Hi. rewrite H2 in Hi. unfold rel_pos. destruct i as [|[|i]]; [cbn [nth c]; split; assumption|cbn [nth c]; split; assumption|lia].
    - intros i Hi. rewrite H2 in Hi. unfold rel_pos, box_lo, box_hi.
      destruct (between_box (f_x0 f) (f_x1 f) (fst x)) as (X1 & X2); [eauto|]. destruct (between_box (f_y0 f) (f_y1 f) (snd x)) as (Y1 & Y2); [eauto|].
      destruct i as [|[|i]]; [| |lia]; cbn [nth the_box Nat.add].
      + destruct (Qlt_le_dec (fst x - nth 0 (origin m) 0%Q) (domain m 0)) as [L|L]; [left; repeat split; lra|right; repeat split; lra].
      + destruct (Qlt_le_dec (snd x - nth 1 (origin m) 0%Q) (domain m 1)) as [L|L]; [left; repeat split; lra|right; repeat split; lra].
  Qed.

  (** ** The store *)
  Definition adds {V} (f : nat -> node V) (h : list (Z * V)) : option (tree V) := foldM (fun t kv => add width8 f t (fst kv) (snd kv)) new_tree h.
  Lemma adds_snoc {V} (f : nat -> node V) h t k v : allocation width8 f -> adds f h = Some t -> exists t', add width8 f t k v = Some t' /\ adds f (h ++ [(k, v)]) = Some t'.
  Proof.
    intros A E. destruct (C21_tree_is_a_finite_map V width8 f (h ++ [(k, v)]) ltac:(unfold width8; lia) A) as (t' & E' & _). exists t'. split; [|exact E']. rewrite foldM_app in E'. unfold adds in E. rewrite E in E'. cbn [obind foldM fst snd] in E'. destruct (add width8 f t k v); [cbn [obind] in E'; exact E'|discriminate].
  Qed.
  Lemma adds_get {V} (f : nat -> node V) h t r k : allocation width8 f -> adds f h = Some t -> root t = Some r -> get width8 (heap t) (Some r) k = Some (last_added h k).
  Proof. intros A E R. rewrite <- (app_nil_r h). apply (C21_device_get V width8 f h [] t t r ltac:(unfold width8; lia) A E R). rewrite app_nil_r. exact E. Qed.
  Lemma adds_root {V} (f : nat -> node V) h t : allocation width8 f -> adds f h = Some t -> root t = None -> forall k, last_added h k = None.
  Proof. intros A E R k. destruct (C21_tree_is_a_finite_map V width8 f h ltac:(unfold width8; lia) A) as (t' & E' & G). assert (t' = t) by (unfold adds in E; congruence). subst t'. specialize (G k). unfold tree_host_get in G. rewrite R in G. congruence. Qed.

  Definition normals_ok (hn : list (Z * (Q * Q))) (pushed : list Z) : Prop :=
    (forall f, In f (i_facets b) -> In (f_id f) pushed -> last_added hn (f_id f) = Some (f_n f)) /\ (forall id, last_added hn id <> None -> In id pushed).
  Definition store_ok (s : store) : Prop := exists he hn, adds fresh_e he = Some (s_edges s) /\ adds fresh_n hn = Some (s_normals s) /\
    (forall cell, last_added he cell = None \/ facets_at b cell <> [] /\ last_added he cell = Some (map edge_of (facets_at b cell))) /\
    (forall cell, In cell (s_collected s) -> facets_at b cell <> [] -> last_added he cell <> None) /\
    normals_ok hn (s_pushed s) /\ (forall cell f, In cell (s_collected s) -> In f (facets_at b cell) -> In (f_id f) (s_pushed s)).

  Lemma collect_facets fs : forall es t hn pushed, (forall f, In f fs -> In f (i_facets b)) -> adds fresh_n hn = Some t -> normals_ok hn pushed ->
    exists t' hn' pushed', foldM (collect_facet fresh_n groups) (es, (t, pushed)) fs = Some (es ++ map edge_of fs, (t', pushed')) /\ adds fresh_n hn' = Some t' /\ normals_ok hn' pushed' /\
      (forall x, In x pushed -> In x pushed') /\ (forall f, In f fs -> In (f_id f) pushed').
  Proof.
    induction fs as [|f fs IH]; intros es t hn pushed Hf E N; cbn [foldM map].
    - exists t, hn, pushed. rewrite app_nil_r. repeat split; auto; try apply N. intros f [].
    - destruct (grouped f (Hf f (or_introl eq_refl))) as (g & ls & Eg & _).
      assert (Ec : collect_facet fresh_n groups (es, (t, pushed)) f = if mem (f_id f) pushed then Some (es ++ [edge_of f], (t, pushed)) else t' <- add width8 fresh_n t (f_id f) (f_n f) ;; Some (es ++ [edge_of f], (t', f_id f :: pushed))) by (unfold collect_facet, edge_of; cbn [fst snd]; rewrite Eg; reflexivity). rewrite Ec. clear Ec.
      destruct (mem (f_id f) pushed) eqn:M.
      + apply mem_in in M. destruct (IH (es ++ [edge_of f]) t hn pushed) as (t' & hn' & pu' & E1 & E2 & E3 & E4 & E5); [intros; apply Hf; right; assumption|exact E|exact N|]. exists t', hn', pu'. split; [cbn [obind]; rewrite E1, <- app_assoc; reflexivity|]. split; [exact E2|]. split; [exact E3|]. split; [exact E4|]. intros f' [<-|I]; auto.
      + assert (NM : ~ In (f_id f) pushed) by (intros X; apply mem_in in X; congruence). destruct (adds_snoc fresh_n hn t (f_id f) (f_n f) Hn E) as (t1 & Et & E1). rewrite Et. cbn [obind].
        destruct (IH (es ++ [edge_of f]) t1 (hn ++ [(f_id f, f_n f)]) (f_id f :: pushed)) as (t' & hn' & pu' & F1 & F2 & F3 & F4 & F5); [intros; apply Hf; right; assumption|exact E1| |].
        * destruct N as (N1 & N2). split.
          -- intros f' If' [I|I]; rewrite last_added_app; cbn [last_added].
             ++ rewrite I, Z.eqb_refl. f_equal. apply Hnormal; [apply Bf; apply Hf; left; reflexivity|apply Bf; exact If'|exact I].
             ++ destruct (Z.eqb_spec (f_id f) (f_id f')) as [X|X]; [exfalso; apply NM; rewrite X; exact I|]. exact (N1 f' If' I).
          -- intros id. rewrite last_added_app. cbn [last_added]. destruct (Z.eqb_spec (f_id f) id) as [X|X]; [intros _; left; exact X|]. intros Y. right. apply N2. exact Y.
        * exists t', hn', pu'. split; [rewrite F1, <- app_assoc; reflexivity|]. split; [exact F2|]. split; [exact F3|]. split; [intros x I; apply F4; right; exact I|]. intros f' [<-|I]; [apply F4; left; reflexivity|auto].
  Qed.

  Lemma collect_ok s cell : store_ok s -> exists s', collect_cell fresh_e fresh_n b s cell = Some s' /\ store_ok s' /\ (forall c, In c (s_collected s') <-> c = cell \/ In c (s_collected s)).
  Proof.
    intros (he & hn & E1 & E2 & A & C & N & P). destruct built as (_ & Eg & _). unfold collect_cell. rewrite Eg. destruct (facets_at b cell) as [|f0 fs0] eqn:Ef.
    - eexists. split; [reflexivity|]. split; [|intros c; cbn [s_collected]; apply in_set_add]. exists he, hn. cbn [s_edges s_normals s_pushed s_collected]. repeat split; auto; try apply N.
      + intros c I. apply in_set_add in I. destruct I as [->|I]; [congruence|auto].
      + intros c f I. apply in_set_add in I. destruct I as [->|I]; [rewrite Ef; intros []|apply P; exact I].
    - destruct (collect_facets (f0 :: fs0) [] (s_normals s) hn (s_pushed s)) as (t' & hn' & pu' & F1 & F2 & F3 & F4 & F5); [rewrite <- Ef; apply facets_at_in|exact E2|exact N|]. rewrite F1. cbn [obind fst snd app]. destruct (adds_snoc fresh_e he (s_edges s) cell (map edge_of (f0 :: fs0)) He E1) as (te & G1 & G2). rewrite G1. cbn [obind]. eexists. split; [reflexivity|]. split; [|intros c; cbn [s_collected]; apply in_set_add].
      exists (he ++ [(cell, map edge_of (f0 :: fs0))]), hn'. cbn [s_edges s_normals s_pushed s_collected]. split; [exact G2|]. split; [exact F2|]. split.
      + intros c. rewrite last_added_app. cbn [last_added]. destruct (Z.eqb_spec cell c) as [<-|X]; [right; rewrite Ef; split; [discriminate|reflexivity]|apply A].
      + split; [|split; [exact F3|]].
        * intros c I Fc. rewrite last_added_app. cbn [last_added]. destruct (Z.eqb_spec cell c) as [<-|X]; [discriminate|]. apply in_set_add in I. destruct I as [->|I]; [congruence|exact (C c I Fc)].
        * intros c f I If. apply in_set_add in I. destruct I as [->|I]; [rewrite Ef in If; apply F5; exact If|]. apply F4. exact (P c f I If).
  Qed.
  Lemma collect_all cells : forall s, store_ok s -> exists s', foldM (collect_cell fresh_e fresh_n b) s cells = Some s' /\ store_ok s' /\ (forall c, In c (s_collected s') <-> In c cells \/ In c (s_collected s)).
  Proof.
    induction cells as [|c cells IH]; intros s H; cbn [foldM In]; [exists s; split; [reflexivity|]; split; [exact H|tauto]|].
    destruct (collect_ok s c H) as (s1 & E1 & H1 & C1). rewrite E1. cbn [obind]. destruct (IH s1 H1) as (s2 & E2 & H2' & C2). exists s2. split; [exact E2|]. split; [exact H2'|]. intros c'. rewrite C2, C1. split; [intros [X|[->|X]]; auto|intros [[->|X]|X]; auto].
  Qed.

  (** ** The nearest crossing of a particle *)
  Section Particle.
    Variables (s : store) (p : particle).
    Hypothesis Hs : store_ok s.
    Hypothesis Lp : length (p_prev p) = 2.
    Hypothesis Lc : length (p_cur p) = 2.
    Hypothesis Hfar : (dist2 p (cur_x p, cur_y p) < max_real)%Q.
    Hypothesis Hd : forall i, i < 2 -> (rel_pos m (p_prev p) i < domain m i)%Q.
    Hypothesis Hcol : forall c l, In c (traj m p) -> linear_cell m c = Some l -> In l (s_collected s).

    Definition init : hit := mk_hit max_real (0, 0)%Q (0, 0)%Q (0, 0, 0)%Z.
    Definition found (h : hit) (f : facet) : Prop :=
      In f (i_facets b) /\ crosses_within tol f p (h_p h) /\ (h_dist h == dist2 p (h_p h))%Q /\ exists g, group_of groups (f_label f) = Some g /\ h_c h = (1%Z, g, f_id f).
    Definition state_ok (h : hit) : Prop := h = init \/ exists f, found h f /\ h_n h = f_n f.
    Definition below (h : hit) (f : facet) : Prop := forall x, crosses f p x -> (h_dist h <= dist2 p x)%Q.

    Lemma test_ok fs st f : (snd st = false -> state_ok (fst st)) -> (snd st = true -> exists f, In f fs /\ found (fst st) f) -> In f fs -> In f (i_facets b) ->
      exists st', test_edge tol (p_prev p) (p_cur p) st (edge_of f) = Some st' /\ (snd st' = false -> state_ok (fst st')) /\ (snd st' = true -> exists f, In f fs /\ found (fst st') f) /\
        (h_dist (fst st') <= h_dist (fst st))%Q /\ ((h_dist (fst st) <= max_real)%Q -> (forall x, crosses f p x -> (h_dist (fst st') <= dist2 p x)%Q)).
    Proof.
      intros A1 A2 Iff If. unfold test_edge. rewrite !(rd_nth (p_prev p) _ 0%Q), !(rd_nth (p_cur p) _ 0%Q) by lia. cbn [obind edge_of e_x0 e_y0 e_x1 e_y1 e_group e_id].
      change (nth 0 (p_prev p) 0%Q) with (prev_x p). change (nth 1 (p_prev p) 0%Q) with (prev_y p). change (nth 0 (p_cur p) 0%Q) with (cur_x p). change (nth 1 (p_cur p) 0%Q) with (cur_y p).
      destruct (grouped f If) as (g & ls & Eg & _). rewrite Eg.
      destruct (Qeq_dec ((f_x1 f - f_x0 f) * (cur_y p - prev_y p)) ((f_y1 f - f_y0 f) * (cur_x p - prev_x p))) as [Pa|Pa].
      { rewrite C36_parallel by exact Pa. cbn [obind]. exists st. split; [reflexivity|]. split; [exact A1|]. split; [exact A2|]. split; [lra|]. intros _ x (NP & _). exfalso. apply NP. exact Pa. }
      destruct (C36_segments_tolerance (f_x0 f) (f_y0 f) (f_x1 f) (f_y1 f) (prev_x p) (prev_y p) (cur_x p) (cur_y p) tol Pa Ht) as (l0 & l1 & xi & yi & ans & E & X1 & X2 & X3 & X4 & X5 & X6). rewrite E. cbn [obind].
      assert (DX : forall x, crosses f p x -> ans = true /\ (dist2 p (xi, yi) == dist2 p x)%Q). { intros x (_ & S1 & S2). destruct (X6 _ _ S1 S2) as (B & C & D). split; [exact B|]. unfold dist2. cbn [fst snd]. rewrite C, D. reflexivity. }
      destruct ans.
      - destruct (X5 eq_refl) as (Y1 & Y2 & Y3).
        change ((prev_x p - xi) * (prev_x p - xi) + (prev_y p - yi) * (prev_y p - yi))%Q with (dist2 p (xi, yi)). unfold rlt. destruct (Qle_bool (h_dist (fst st)) (dist2 p (xi, yi))) eqn:Q1; cbn [negb].
        + apply Qle_bool_iff in Q1. exists st. split; [reflexivity|]. split; [exact A1|]. split; [exact A2|]. split; [lra|]. intros _ x Cx. destruct (DX x Cx) as (_ & D). lra.
        + assert (Q2 : (dist2 p (xi, yi) < h_dist (fst st))%Q) by (destruct (Qlt_le_dec (dist2 p (xi, yi)) (h_dist (fst st))) as [|K]; [assumption|apply Qle_bool_iff in K; congruence]).
          eexists. split; [reflexivity|]. cbn [fst snd]. split; [discriminate|]. split; [|split; [cbn [h_dist]; lra|]].
          * intros _. exists f. split; [exact Iff|]. split; [exact If|]. cbn [h_p h_dist h_c]. split; [|split; [reflexivity|exists g; auto]]. split; [exact Pa|]. exists l0, l1. cbn [fst snd]. auto 10.
          * intros _ x Cx. cbn [h_dist]. destruct (DX x Cx) as (_ & D). lra.
      - exists st. split; [reflexivity|]. split; [exact A1|]. split; [exact A2|]. split; [lra|]. intros _ x Cx. destruct (DX x Cx) as (D & _). discriminate.
    Qed.

    Lemma edges_ok fs : forall done st, (forall f, In f (done ++ fs) -> In f (i_facets b)) -> (snd st = false -> state_ok (fst st)) -> (snd st = true -> exists f, In f (done ++ fs) /\ found (fst st) f) -> (h_dist (fst st) <= max_real)%Q ->
      exists st', foldM (test_edge tol (p_prev p) (p_cur p)) st (map edge_of fs) = Some st' /\ (snd st' = false -> state_ok (fst st')) /\ (snd st' = true -> exists f, In f (done ++ fs) /\ found (fst st') f) /\ (h_dist (fst st') <= h_dist (fst st))%Q /\
        (forall f, In f fs -> below (fst st') f).
    Proof.
      induction fs as [|f fs IH]; intros done st Hf A1 A2 A3; cbn [map foldM].
      - exists st. split; [reflexivity|]. split; [exact A1|]. split; [exact A2|]. split; [lra|]. intros f [].
      - destruct (test_ok (done ++ f :: fs) st f A1 A2) as (st1 & E1 & B1 & B2 & B3 & B4); [apply in_app_iff; right; left; reflexivity|apply Hf; apply in_app_iff; right; left; reflexivity|]. rewrite E1. cbn [obind].
        assert (Ea : done ++ f :: fs = (done ++ [f]) ++ fs) by (rewrite <- app_assoc; reflexivity). rewrite Ea in *.
        destruct (IH (done ++ [f]) st1 Hf B1 B2) as (st2 & E2 & C1 & C2 & C3 & C4); [lra|]. exists st2. split; [exact E2|]. split; [exact C1|]. split; [exact C2|]. split; [lra|]. intros f' [<-|I]; [|exact (C4 f' I)]. intros x Cx. pose proof (B4 A3 x Cx). lra.
    Qed.

    Lemma cell_ok h r cell : root (s_edges s) = Some r -> In cell (s_collected s) -> state_ok h -> (h_dist h <= max_real)%Q ->
      exists h', find_in_cell tol s r (p_prev p) (p_cur p) h cell = Some h' /\ state_ok h' /\ (h_dist h' <= h_dist h)%Q /\ forall f, In f (facets_at b cell) -> below h' f.
    Proof.
      intros Er Ic A B. destruct Hs as (he & hn & E1 & E2 & A' & C & (N1 & N2) & P). unfold find_in_cell. rewrite (adds_get fresh_e he (s_edges s) r cell He E1 Er). cbn [obind].
      destruct (A' cell) as [L|(Fc & L)]; rewrite L.
      - exists h. split; [reflexivity|]. split; [exact A|]. split; [lra|]. intros f If. exfalso. apply (C cell Ic); [|exact L]. intros X. rewrite X in If. destruct If.
      - destruct (edges_ok (facets_at b cell) [] (h, false)) as (st & Es & B1 & B2 & B3 & B4); [intros f I; exact (facets_at_in cell f I)|auto|discriminate|exact B|]. rewrite Es. cbn [obind]. destruct (snd st) eqn:Sn.
        + destruct (B2 eq_refl) as (f & If & Fo). cbn [app] in If. pose proof (P cell f Ic If) as Pu. pose proof (N1 f (facets_at_in cell f If) Pu) as Nf.
          destruct (root (s_normals s)) as [rn|] eqn:Rn; [|pose proof (adds_root fresh_n hn (s_normals s) Hn E2 Rn (f_id f)); congruence]. cbn [obind]. destruct Fo as (F1 & F2 & F3 & g & F4 & F5). rewrite F5. cbn [snd]. rewrite (adds_get fresh_n hn (s_normals s) rn (f_id f) Hn E2 Rn), Nf. cbn [obind].
          eexists. split; [reflexivity|]. split; [right; exists f; split; [|reflexivity]; split; [exact F1|]; cbn [h_p h_dist h_c]; split; [exact F2|]; split; [exact F3|exists g; auto]|]. split; [cbn [h_dist]; cbn [fst] in B3; lra|]. intros f' If' x Cx. exact (B4 f' If' x Cx).
        + exists (fst st). split; [reflexivity|]. split; [exact (B1 eq_refl)|]. split; [exact B3|]. exact B4.
    Qed.

    Lemma cells_ok r cells : root (s_edges s) = Some r -> (forall c, In c cells -> In c (traj m p)) -> forall h, state_ok h -> (h_dist h <= max_real)%Q ->
      exists h', foldM (fun h c => l <- linear_cell m c ;; find_in_cell tol s r (p_prev p) (p_cur p) h l) h cells = Some h' /\ state_ok h' /\ (h_dist h' <= h_dist h)%Q /\
        forall c l f, In c cells -> linear_cell m c = Some l -> In f (facets_at b l) -> below h' f.
    Proof.
      intros Er. induction cells as [|c cells IH]; intros Hcs h A B; cbn [foldM].
      - exists h. split; [reflexivity|]. split; [exact A|]. split; [lra|]. intros c l f [].
      - destruct (traj_linear m Hm H2 p c (Hcs c (or_introl eq_refl))) as (l & El & _). rewrite El. cbn [obind]. destruct (cell_ok h r l Er (Hcol c l (Hcs c (or_introl eq_refl)) El) A B) as (h1 & E1 & A1 & B1 & C1). rewrite E1. cbn [obind]. destruct (IH ltac:(intros; apply Hcs; right; assumption) h1 A1) as (h2 & E2 & A2 & B2 & C2); [lra|]. exists h2. split; [exact E2|]. split; [exact A2|]. split; [lra|]. intros c' l' f [<-|I] El' If; [|exact (C2 c' l' f I El' If)]. assert (l' = l) by congruence. subst l'. intros x Cx. pose proof (C1 f If x Cx). lra.
    Qed.

    Lemma trajectory_eq : trajectory_cells b 2 (p_prev p) (p_cur p) = Some (traj m p).
    Proof.
      destruct built as (Em & _ & _ & _ & Eb & _). unfold trajectory_cells. rewrite Em, Eb. cbn [seq mapM]. rewrite !(rd_nth (p_prev p) _ 0%Q), !(rd_nth (p_cur p) _ 0%Q) by lia. cbn [obind]. rewrite !(cart_eq m Hm H2) by assumption. cbn [obind]. rewrite H2. cbn [Nat.sub repeat app rd nth_error obind mapM map fst snd]. apply grid_eq.
    Qed.

    Definition result (h : option hit) : option ((Q * Q) * (Q * Q) * (Z * Z)) := option_map (fun h => (h_p h, h_n h, (snd (fst (h_c h)), snd (h_c h)))) h.
    Lemma short x f : crosses f p x -> (dist2 p x < max_real)%Q.
    Proof.
      intros (_ & _ & t & T & X & Y). assert (E : (dist2 p x == t * t * dist2 p (cur_x p, cur_y p))%Q) by (unfold dist2; cbn [fst snd]; rewrite X, Y; ring). assert (P : (0 <= dist2 p (cur_x p, cur_y p))%Q) by (assert (Sq : forall u : Q, (0 <= u * u)%Q) by (intros u; destruct (Qlt_le_dec u 0); nra); unfold dist2; cbn [fst snd]; pose proof (Sq (prev_x p - cur_x p)%Q); pose proof (Sq (prev_y p - cur_y p)%Q); lra). assert (t * t <= 1)%Q by nra. nra.
    Qed.
    Lemma intersection_ok : exists h, find_intersection b s 2 p = Some h /\ nearest groups ranks tol p (result h).
    Proof.
      destruct built as (Em & _ & Et & Ex & _). unfold find_intersection. destruct (root (s_edges s)) as [r|] eqn:Er.
      - rewrite trajectory_eq, Em, Et, Ex. cbn [obind]. destruct (cells_ok r (traj m p) Er (fun c I => I) init) as (h & E & A & B & C); [left; reflexivity|apply Qle_refl|]. change (mk_hit max_real (0, 0)%Q (0, 0)%Q (0, 0, 0)%Z) with init. rewrite E. cbn [obind]. eexists. split; [reflexivity|].
        assert (All : forall f x, boundary_facet groups ranks f -> crosses f p x -> (h_dist h <= dist2 p x)%Q). { intros f x Bo Cx. apply Bf in Bo. destruct (crossed_cell f p x Bo Lp Lc Hd Cx) as (c & l & I1 & I2 & I3). exact (C c l f I1 I2 I3 x Cx). }
        destruct A as [->|(f & (F1 & F2 & F3 & g & F4 & F5) & F6)].
        + cbn. intros f x Bo Cx. pose proof (All f x Bo Cx) as L. pose proof (short x f Cx). cbn [init h_dist] in L. lra.
        + rewrite F5. cbn [fst snd Z.eqb Pos.eqb result option_map nearest]. rewrite F5. cbn [fst snd]. split.
          * destruct (grouped f F1) as (g' & ls & Eg & Ig & Il). assert (g' = g) by congruence. subst g'. exists f, ls. rewrite F6. split; [apply Bf; exact F1|]. auto 10.
          * intros f' x Bo Cx. pose proof (All f' x Bo Cx). lra.
      - exists None. split; [reflexivity|]. cbn. intros f x Bo Cx. apply Bf in Bo. destruct (crossed_cell f p x Bo Lp Lc Hd Cx) as (c & l & I1 & I2 & I3). destruct Hs as (he & hn & E1 & _ & _ & C & _). apply (C l (Hcol c l I1 I2)); [intros X; rewrite X in I3; destruct I3|]. exact (adds_root fresh_e he (s_edges s) He E1 Er l).
    Qed.
  End Particle.
End Hits.
