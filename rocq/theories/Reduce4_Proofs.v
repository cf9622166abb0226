(** Proofs about loops with a reduction: the whole loop. *)
From Coq Require Import List Arith Lia ZArith Bool Permutation.
Import ListNotations.
From Verif Require Append_Proofs.
From Verif Require Import Base Kernel Scan_Model Compress_Model Group_Model Loop_Model Loop_Spec Loop_Proofs SubGroup_Model SubGroup_Spec
  CellConst_Model CellConst_Spec CellConst_Proofs Reduce_Model Reduce_Spec Reduce_Proofs World_Proofs SubGroupKernel_Proofs Reduce3_Proofs.

(** ** Work groups have a power of two of work items *)
Definition pow2_at_most (n r : nat) : Prop := (exists e, r = 2 ^ e) /\ r <= n.

Lemma generic_pow2 lim h a b nbin n stride bs : is_power_of_two n = true -> get_generic lim h a b nbin n 0 stride = Some bs ->
  forall bk, In bk bs -> pow2_at_most n (range_local bk).
Proof.
  intros Hn. unfold get_generic, get_local_size. rewrite !Nat.mul_0_r. cbn [Nat.leb Nat.eqb assert obind].
  destruct (pow2_is n Hn) as [e He]. assert (Hp : get_prev_power_of_two n = Some n).
  { unfold get_prev_power_of_two. pose proof (Nat.pow_nonzero 2 e ltac:(lia)). destruct (Nat.eqb_spec n 0); [lia|]. rewrite He, Nat.log2_pow2 by lia. f_equal. lia. }
  rewrite Hp. cbn [obind]. rewrite !Nat.mul_0_r. cbn [Nat.leb assert obind]. rewrite Nat.min_id.
  destruct (assert (0 <? n)); [|discriminate]. cbn [obind]. destruct (nonempty_range _ _ _) as [[sv ev]|]; [|discriminate]. cbn [obind].
  destruct (occupancy_range _ _ _) as [[mn mx]|]; [|discriminate]. cbn [obind]. destruct (get_prev_power_of_two mx) as [p|] eqn:Ep; [|discriminate]. cbn [obind].
  set (ls := if 2 * p <? n then 2 * p else n).
  assert (Hls : pow2_at_most n ls).
  { unfold ls. destruct (Nat.ltb_spec (2 * p) n); [|split; [exists e; exact He|lia]]. split; [|lia].
    unfold get_prev_power_of_two in Ep. destruct (Nat.eqb_spec mx 0); [discriminate|]. injection Ep as <-. exists (S (Nat.log2 mx)).
    pose proof (Nat.pow_nonzero 2 (Nat.log2 mx) ltac:(lia)). rewrite Nat.max_l by lia. reflexivity. }
  clearbody ls. destruct (ev <=? sv); [intros [= <-] bk []|]. destruct mn as [m|]; [|discriminate]. cbn [obind].
  destruct (if 0 <? m / (ls * stride) * (ls * stride) then _ else _) as [first|] eqn:Ef; [|discriminate]. cbn [obind].
  destruct (mapM _ _) as [peels|] eqn:Em; [|discriminate]. cbn [obind]. intros [= <-] bk Hin. apply in_app_or in Hin. destruct Hin as [Hin|Hin].
  - match type of Ef with context [0 <? ?e] => destruct (0 <? e) end; [|injection Ef as <-; destruct Hin].
    match type of Ef with context [validate_nd_range ?a1 ?a2 ?a3 ?a4] => destruct (validate_nd_range a1 a2 a3 a4) end; [|discriminate]. cbn [obind] in Ef. injection Ef as <-.
    destruct Hin as [<-|[]]. exact Hls.
  - apply in_concat in Hin. destruct Hin as (pl & Hpl & Hin). destruct (In_nth_error _ _ Hpl) as [i Hi].
    assert (Hil : i < length (seq 0 (Nat.min nbin (ev - sv)))). { rewrite <- (mapM_length _ _ _ Em). apply nth_error_Some. congruence. }
    destruct (nth_error_lt_some _ _ Hil) as [x Hx]. pose proof (mapM_nth _ _ _ _ _ Em Hx) as Q. rewrite Hi in Q. unfold peel_block in Q.
    match type of Q with context [foldM ?a1 ?a2 ?a3] => destruct (foldM a1 a2 a3) end; [|discriminate]. cbn [obind] in Q.
    match type of Q with context [sub_ ?a1 ?a2] => destruct (sub_ a1 a2) end; [|discriminate]. cbn [obind] in Q.
    match type of Q with context [0 <? ?e] => destruct (0 <? e) end; [|injection Q as <-; destruct Hin].
    match type of Q with context [validate_nd_range ?a1 ?a2 ?a3 ?a4] => destruct (validate_nd_range a1 a2 a3 a4) end; [|discriminate]. cbn [obind] in Q. injection Q as <-. destruct Hin as [<-|[]]. exact Hls.
Qed.

Lemma submit_pow2 lim h g np nbin n stride cs ce bs : is_power_of_two n = true ->
  prepare_submit lim h g np nbin n stride cs ce = Some bs -> forall bk, In bk bs -> pow2_at_most n (range_local bk).
Proof.
  intros Hn. unfold prepare_submit. destruct (determine_iteration_set _ _ _) as [[[al s] e]|]; [|discriminate]. cbn [obind].
  destruct (iteration_set_is_empty _ _ _ _ _ _) as [[]|]; [intros [= <-] bk []| |discriminate]. cbn [obind].
  destruct al; apply generic_pow2; exact Hn.
Qed.

(** ** The visits of the work groups *)
Lemma seq_blocks Q n : seq 0 (Q * n) = flat_map (fun g => map (fun i => g * n + i) (seq 0 n)) (seq 0 Q).
Proof.
  induction Q as [|Q IH]; [reflexivity|]. rewrite seq_S, flat_map_app, <- IH. cbn [plus flat_map]. rewrite app_nil_r.
  replace (S Q * n) with (Q * n + n) by lia. rewrite seq_app. f_equal. apply seq_shift_map.
Qed.

Lemma flat_map_flat_map {A B C} (f : A -> list B) (g : B -> list C) l : flat_map g (flat_map f l) = flat_map (fun a => flat_map g (f a)) l.
Proof. induction l as [|a l IH]; cbn; [reflexivity|]. rewrite flat_map_app, IH. reflexivity. Qed.
Lemma flat_map_map {A B C} (f : A -> B) (g : B -> list C) l : flat_map g (map f l) = flat_map (fun a => g (f a)) l.
Proof. induction l as [|a l IH]; cbn; [reflexivity|]. rewrite IH. reflexivity. Qed.
Lemma list_prod_flat {A B} (l : list A) (m : list B) : list_prod l m = flat_map (fun a => map (pair a) m) l.
Proof. induction l as [|a l IH]; cbn; [reflexivity|]. rewrite IH. reflexivity. Qed.
Lemma flat_map_ext_in_ {A B} (f g : A -> list B) l : (forall a, In a l -> f a = g a) -> flat_map f l = flat_map g l.
Proof. induction l as [|a l IH]; intros H; cbn; [reflexivity|]. rewrite H by (left; reflexivity). rewrite IH by (intros; apply H; right; assumption). reflexivity. Qed.
Lemma map_flat_map {A B C} (f : A -> list B) (g : B -> C) l : map g (flat_map f l) = flat_map (fun a => map g (f a)) l.
Proof. induction l as [|a l IH]; cbn; [reflexivity|]. rewrite map_app, IH. reflexivity. Qed.
Lemma filter_flat_map {A B} (f : A -> list B) p l : filter p (flat_map f l) = flat_map (fun a => filter p (f a)) l.
Proof. induction l as [|a l IH]; cbn; [reflexivity|]. rewrite filter_app, IH. reflexivity. Qed.
Lemma flat_map_if {A B} (f : A -> list B) (p : A -> bool) l : flat_map (fun a => if p a then f a else []) l = flat_map f (filter p l).
Proof. induction l as [|a l IH]; cbn; [reflexivity|]. rewrite IH. destruct (p a); reflexivity. Qed.
Lemma mapM_pure {A B} (f : A -> option B) (g : A -> B) l : (forall a, In a l -> f a = Some (g a)) -> mapM f l = Some (map g l).
Proof.
  induction l as [|a l IH]; intros H; cbn [mapM map]; [reflexivity|]. rewrite H by (left; reflexivity). cbn [obind].
  rewrite IH by (intros; apply H; right; assumption). reflexivity.
Qed.
Lemma map_combine_seq {A B} (f : A -> B) (l : list A) : forall k, map (fun g : nat * A => f (snd g)) (combine (seq k (length l)) l) = map f l.
Proof. induction l as [|a l IH]; intros k; cbn; [reflexivity|]. f_equal. apply IH. Qed.

Lemma visit_reduction_ext dn np stride b w : nth_error dn (fst w + offset_cell b) = nth_error np (fst w + offset_cell b) ->
  visit_reduction dn stride b w = visit_reduction np stride b w.
Proof. intros E. unfold visit_reduction, work_item_required, rd. rewrite E. reflexivity. Qed.

Lemma filter_all_ {A} (p : A -> bool) l : (forall a, In a l -> p a = true) -> filter p l = l.
Proof. induction l as [|a l IH]; intros H; cbn; [reflexivity|]. rewrite H by (left; reflexivity). rewrite IH by (intros; apply H; right; assumption). reflexivity. Qed.
Lemma filter_none_ {A} (p : A -> bool) l : (forall a, In a l -> p a = false) -> filter p l = [].
Proof. induction l as [|a l IH]; intros H; cbn; [reflexivity|]. rewrite H by (left; reflexivity). apply IH. intros; apply H; right; assumption. Qed.
Lemma flat_map_seq_nth {A B} (f : A -> list B) l z : flat_map f l = flat_map (fun j => f (nth j l z)) (seq 0 (length l)).
Proof. induction l as [|a l IH]; cbn [length seq flat_map nth]; [reflexivity|]. rewrite <- seq_shift, flat_map_map, <- IH. reflexivity. Qed.

Lemma flat_map_if' {A B} (f : A -> B) (p : A -> bool) l : flat_map (fun a => if p a then [f a] else []) l = map f (filter p l).
Proof. induction l as [|a l IH]; cbn; [reflexivity|]. rewrite IH. destruct (p a); reflexivity. Qed.
Lemma filter_map_ {A B} (f : A -> B) p l : filter p (map f l) = map f (filter (fun a => p (f a)) l).
Proof. induction l as [|a l IH]; cbn; [reflexivity|]. rewrite IH. destruct (p (f a)); reflexivity. Qed.
Lemma filter_eq_seq_ x n : x < n -> filter (fun y => y =? x) (seq 0 n) = [x].
Proof.
  intros H. replace n with (x + S (n - S x)) by lia. rewrite seq_app, filter_app. cbn [plus seq filter]. rewrite Nat.eqb_refl.
  rewrite filter_none_ by (intros y Hy; apply in_seq in Hy; apply Nat.eqb_neq; lia).
  rewrite filter_none_ by (intros y Hy; apply in_seq in Hy; apply Nat.eqb_neq; lia). reflexivity.
Qed.

Definition get {A} (x : option (list A)) : list A := match x with Some l => l | None => [] end.

Section ReductionLoop.
  Context {T : Type} {op : T -> T -> T} {ident : T} {ok : T -> Prop} (M : reducible op ident ok).
  Notation total := (@total T op ident).
  Context (d : device) (Hd : device_ok d) (P : iset) (content : list (list nat)) (It : iterates P content).
  Context (kernel : nat -> nat -> list (@contribution T)) (x : cell_const T) (Wx : well_formed ok x)
    (Hcells : length content <= cc_ncells x)
    (Hk : forall c l, In l (nth c content []) -> forall a, In a (kernel c l) -> c_row a < cc_nrow x /\ c_col a < cc_ncol x /\ ok (c_value a)).
  Let np := map (@length nat) content.
  Let E := cc_nrow x * cc_ncol x.

  Lemma np_nth c : nth c np 0 = length (nth c content []).
  Proof. unfold np. change 0 with (length (@nil nat)). apply map_nth. Qed.

  Lemma counts_np : firstn (length content) (i_hn P) = np.
  Proof.
    apply nth_error_ext. intros i. destruct (Nat.lt_ge_cases i (length content)) as [Hi|Hi].
    - destruct (nth_error_lt_some _ _ Hi) as [ls Hl]. destruct (It _ _ Hl) as (A & _). unfold np. rewrite (map_nth_error (@length nat) _ _ Hl).
      rewrite nth_error_firstn. destruct (Nat.ltb_spec i (length content)); [exact A|lia].
    - unfold np. rewrite (proj2 (nth_error_None (map _ content) i)) by (rewrite map_length; exact Hi).
      apply nth_error_None. rewrite firstn_length. lia.
  Qed.

  Lemma layer_of c j : c < length content -> j < nth c np 0 -> i_layer P c j = Some (nth j (nth c content []) 0).
  Proof.
    intros Hc Hj. destruct (nth_error_lt_some _ _ Hc) as [ls Hl]. destruct (It _ _ Hl) as (_ & _ & _ & L). apply L.
    rewrite np_nth in Hj. rewrite (nth_error_nth _ _ [] Hl) in *. apply nth_error_nth'. exact Hj.
  Qed.

  (** What the kernel combines for the visited (cell, index). *)
  Definition calls_of (v : nat * nat) : list (@contribution T) := kernel (fst v) (nth (snd v) (nth (fst v) content []) 0).

  Context (stride : nat) (Hst : 1 <= stride) (a b : nat) (bs : list block) (Ht : tiles np a b stride bs).

  Definition seen (bk : block) (w : nat * nat) : list (nat * nat) := get (visit_reduction np stride bk w).

  Lemma seen_ok bk g0 g1 : In bk bs -> g0 < range0 bk -> g1 < range1 bk ->
    visit_reduction (i_dn P) stride bk (g0, g1) = Some (seen bk (g0, g1)) /\
    forall v, In v (seen bk (g0, g1)) -> fst v = g0 + offset_cell bk /\ fst v < length content /\ snd v < nth (fst v) np 0.
  Proof.
    intros Hb H0 H1. destruct Ht as (T1 & _ & _). destruct (T1 bk Hb) as (L1 & L2 & L3 & _).
    destruct (interlaced_good np stride bk Hst L1 L2 L3) as (lay & V & _). unfold seen. rewrite (V g0 g1 H0 H1). cbn [get].
    unfold np in L3. rewrite map_length in L3. split.
    - rewrite (visit_reduction_ext _ np), (V g0 g1 H0 H1); [reflexivity|]. cbn [fst]. assert (Hc : g0 + offset_cell bk < length content) by lia.
      destruct (nth_error_lt_some _ _ Hc) as [ls Hl]. destruct (It _ _ Hl) as (_ & D & _). rewrite D. symmetry. unfold np. apply map_nth_error. exact Hl.
    - intros v Hv. apply filter_In in Hv. destruct Hv as [Hv Hlt]. apply Nat.ltb_lt in Hlt. apply in_map_iff in Hv. destruct Hv as (s & <- & _). cbn [fst snd] in *.
      split; [reflexivity|]. split; [lia|exact Hlt].
  Qed.

  Definition group_cell (g : block * (nat * nat)) : nat := fst (snd g) + offset_cell (fst g).
  Definition group_seen (g : block * (nat * nat)) : list (nat * nat) :=
    flat_map (fun li => seen (fst g) (fst (snd g), snd (snd g) * range_local (fst g) + li)) (seq 0 (range_local (fst g))).

  Lemma in_groups g : In g (launch_groups bs) -> In (fst g) bs /\ fst (snd g) < range0 (fst g) /\
    1 <= range_local (fst g) /\ (forall li, li < range_local (fst g) -> snd (snd g) * range_local (fst g) + li < range1 (fst g)).
  Proof.
    unfold launch_groups. intros H. apply in_flat_map in H. destruct H as (bk & Hb & H). apply in_map_iff in H. destruct H as ([g0 gg] & <- & H). cbn [fst snd].
    apply in_prod_iff in H. destruct H as [H0 H1]. apply in_seq in H0, H1. destruct Ht as (T1 & _). destruct (T1 bk Hb) as (L1 & L2 & _).
    split; [exact Hb|]. split; [lia|]. split; [exact L1|]. intros li Hli. pose proof (Nat.div_mod (range1 bk) (range_local bk) ltac:(lia)). nia.
  Qed.

  Lemma all_seen : Permutation (flat_map group_seen (launch_groups bs)) (particles_of_cells np a b).
  Proof.
    destruct (tiles_reduction np a b stride bs Hst Ht) as (vs & V & Pm). rewrite <- Pm. clear Pm.
    assert (Q : vs = flat_map (fun bk => flat_map (seen bk) (items bk)) bs).
    { unfold all_visits in V. destruct (mapM _ bs) as [rs|] eqn:Em; [|discriminate]. cbn [obind] in V. injection V as <-.
      rewrite (mapM_pure _ (fun bk => flat_map (seen bk) (items bk))) in Em; [injection Em as <-; symmetry; apply flat_map_concat_map|].
      intros bk Hb. rewrite (mapM_pure _ (seen bk)); [cbn [obind]; rewrite flat_map_concat_map; reflexivity|].
      intros [g0 g1] Hw. unfold items in Hw. apply in_prod_iff in Hw. destruct Hw as [H0 H1]. apply in_seq in H0, H1.
      destruct (seen_ok bk g0 g1 Hb) as [S1 _]; [lia|lia|]. unfold seen. destruct Ht as (T1 & _). destruct (T1 bk Hb) as (L1 & L2 & L3 & _).
      destruct (interlaced_good np stride bk Hst L1 L2 L3) as (lay & V & _). rewrite (V g0 g1) by lia. reflexivity. }
    rewrite Q. unfold launch_groups. rewrite flat_map_flat_map. erewrite flat_map_ext_in_; [reflexivity|]. intros bk Hb. rewrite flat_map_map.
    unfold group_seen, items. cbn [fst snd]. destruct Ht as (T1 & _). destruct (T1 bk Hb) as (L1 & L2 & _).
    rewrite !list_prod_flat, !flat_map_flat_map. apply flat_map_ext_in_. intros g0 _. rewrite !flat_map_map. cbn [fst snd].
    pose proof (Nat.div_mod (range1 bk) (range_local bk) ltac:(lia)) as Dm.
    replace (seq 0 (range1 bk)) with (seq 0 (range1 bk / range_local bk * range_local bk)) by (f_equal; lia).
    rewrite seq_blocks, flat_map_flat_map. apply flat_map_ext_in_. intros gg _. rewrite flat_map_map. reflexivity.
  Qed.

  (** Values for entry [ex] of the visited (cell, index). *)
  Definition vals (ex : nat) (v : nat * nat) : list T := map c_value (filter (fun c => entry (cc_nrow x) c =? ex) (calls_of v)).

  Lemma seen_calls bk g0 g1 v : In bk bs -> g0 < range0 bk -> g1 < range1 bk -> In v (seen bk (g0, g1)) ->
    forall c, In c (calls_of v) -> c_row c < cc_nrow x /\ c_col c < cc_ncol x /\ ok (c_value c).
  Proof.
    intros Hb H0 H1 Hv c Hc. destruct (seen_ok bk g0 g1 Hb H0 H1) as [_ S1]. destruct (S1 v Hv) as (_ & A & B). unfold calls_of in Hc.
    refine (Hk _ _ _ _ Hc). apply nth_In. rewrite <- np_nth. exact B.
  Qed.

  Context (loc : nat) (Hp : forall bk, In bk bs -> pow2_at_most loc (range_local bk)) (init : nat -> nat -> T).

  Lemma item_ok g li : In g (launch_groups bs) -> li < range_local (fst g) ->
    item_calls kernel P stride (fst g) (fst (snd g)) (snd (snd g)) li =
    Some (map (pair li) (flat_map calls_of (seen (fst g) (fst (snd g), snd (snd g) * range_local (fst g) + li)))).
  Proof.
    intros Hg Hli. destruct (in_groups g Hg) as (Hb & H0 & _ & H1). specialize (H1 li Hli).
    destruct (seen_ok (fst g) (fst (snd g)) (snd (snd g) * range_local (fst g) + li) Hb H0 H1) as [S1 S2].
    unfold item_calls. rewrite S1. cbn [obind]. rewrite (mapM_pure _ calls_of).
    - cbn [obind]. rewrite <- flat_map_concat_map. reflexivity.
    - intros v Hv. destruct (S2 v Hv) as (_ & A & B). rewrite (layer_of _ _ A B). reflexivity.
  Qed.

  Lemma group_ok k n g : In g (launch_groups bs) ->
    group_updates op ident kernel d k stride loc init P x n g =
    Some (map (fun ex => (group_cell g * E + ex, total (flat_map (vals ex) (group_seen g)))) (seq 0 E)).
  Proof.
    intros Hg. destruct (in_groups g Hg) as (Hb & H0 & H1 & H2). pose proof (fun li => item_ok g li Hg) as Hi. destruct (Hp _ Hb) as [Pe Pl].
    destruct g as [bk [g0 gg]]. unfold group_updates, group_cell. cbn [fst snd] in *.
    rewrite (mapM_pure _ (fun li => map (pair li) (flat_map calls_of (seen bk (g0, gg * range_local bk + li))))) by (intros li Hli; apply in_seq in Hli; apply Hi; lia).
    cbn [obind]. rewrite (work_group_ok M d Hd); [|exact Pe|exact Pl|].
    - cbn [obind]. fold E. f_equal. rewrite map_map. apply map_ext. intros ex. cbn [fst snd]. f_equal. f_equal.
      unfold values_at, group_seen. cbn [fst snd]. rewrite <- flat_map_concat_map, filter_flat_map, map_flat_map, flat_map_flat_map.
      apply flat_map_ext_in_. intros li _. unfold vals.
      induction (seen bk (g0, gg * range_local bk + li)) as [|v l IH]; [reflexivity|]. cbn [flat_map]. rewrite map_app, filter_app, map_app, IH. f_equal.
      clear. induction (calls_of v) as [|c l IH]; [reflexivity|]. cbn [map filter snd]. destruct (entry _ c =? ex); cbn [map snd]; congruence.
    - intros li c Hin. apply in_concat in Hin. destruct Hin as (l & Hl & Hin). apply in_map_iff in Hl. destruct Hl as (li' & <- & Hli). apply in_seq in Hli.
      apply in_map_iff in Hin. destruct Hin as (c' & Q & Hc). injection Q as -> ->. split; [lia|]. apply in_flat_map in Hc. destruct Hc as (v & Hv & Hc).
      apply (seen_calls bk g0 (gg * range_local bk + li) v Hb H0); [apply H2; lia|exact Hv|exact Hc].
  Qed.

  Lemma vals_ok ex g : In g (launch_groups bs) -> Forall ok (flat_map (vals ex) (group_seen g)).
  Proof.
    intros Hg. destruct (in_groups g Hg) as (Hb & H0 & H1 & H2). apply Forall_forall. intros t Hin. apply in_flat_map in Hin. destruct Hin as (v & Hv & Hin).
    unfold group_seen in Hv. apply in_flat_map in Hv. destruct Hv as (li & Hli & Hv). apply in_seq in Hli. unfold vals in Hin. apply in_map_iff in Hin.
    destruct Hin as (c & <- & Hc). apply filter_In in Hc. apply (seen_calls _ _ _ v Hb H0 (H2 li ltac:(lia)) Hv c (proj1 Hc)).
  Qed.

  Lemma group_cells g v : In g (launch_groups bs) -> In v (group_seen g) -> fst v = group_cell g.
  Proof.
    intros Hg Hv. destruct (in_groups g Hg) as (Hb & H0 & H1 & H2). unfold group_seen in Hv. apply in_flat_map in Hv. destruct Hv as (li & Hli & Hv). apply in_seq in Hli.
    destruct (seen_ok _ _ _ Hb H0 (H2 li ltac:(lia))) as [_ S2]. apply (S2 v Hv).
  Qed.

  Lemma group_cell_lt g : In g (launch_groups bs) -> group_cell g < length content /\ a <= group_cell g < b.
  Proof.
    intros Hg. destruct (in_groups g Hg) as (Hb & H0 & _). destruct Ht as (T1 & _). destruct (T1 _ Hb) as (_ & _ & L3 & L4 & L5 & _).
    unfold np in L3. rewrite map_length in L3. unfold group_cell. lia.
  Qed.

  Lemma particles_in_cell c : filter (fun v => fst v =? c) (particles_of_cells np a b) =
    if (a <=? c) && (c <? b) then map (pair c) (seq 0 (nth c np 0)) else [].
  Proof.
    unfold particles_of_cells. rewrite filter_flat_map.
    rewrite (flat_map_ext_in_ _ (fun c' => if c' =? c then map (pair c) (seq 0 (nth c np 0)) else [])).
    - rewrite (flat_map_if (fun _ => _) (fun c' => c' =? c)). assert (F : forall n s, filter (fun c' => c' =? c) (seq s n) = if (s <=? c) && (c <? s + n) then [c] else []).
      { induction n as [|n IH]; intros s; cbn [seq filter].
        - destruct (Nat.leb_spec s c), (Nat.ltb_spec c (s + 0)); try reflexivity; lia.
        - rewrite IH. destruct (Nat.eqb_spec s c), (Nat.leb_spec s c), (Nat.leb_spec (S s) c), (Nat.ltb_spec c (S s + n)), (Nat.ltb_spec c (s + S n)); cbn [andb]; try reflexivity; try lia; congruence. }
      rewrite F. destruct (Nat.leb_spec a c), (Nat.ltb_spec c (a + (b - a))), (Nat.ltb_spec c b); cbn [andb]; try lia; try reflexivity. apply app_nil_r.
    - intros c' _. destruct (Nat.eqb_spec c' c) as [->|Hn].
      + induction (seq 0 (nth c np 0)) as [|j l IH]; [reflexivity|]. cbn [map filter fst]. rewrite Nat.eqb_refl, IH. reflexivity.
      + induction (seq 0 (nth c' np 0)) as [|j l IH]; [reflexivity|]. cbn [map filter fst]. destruct (Nat.eqb_spec c' c); [congruence|exact IH].
  Qed.

  (** All values combined into entry (c, r, q). *)
  Lemma cell_values_perm c r q : r < cc_nrow x -> q < cc_ncol x ->
    Permutation (flat_map (vals (cc_nrow x * q + r)) (flat_map group_seen (filter (fun g => group_cell g =? c) (launch_groups bs))))
      (if (a <=? c) && (c <? b) then contributions kernel c r q (nth c content []) else []).
  Proof.
    intros Hr Hq. transitivity (flat_map (vals (cc_nrow x * q + r)) (filter (fun v => fst v =? c) (particles_of_cells np a b))).
    - apply Permutation_flat_map. rewrite <- (flat_map_if group_seen).
      rewrite <- (Permutation_filter (fun v => fst v =? c) _ _ all_seen), filter_flat_map. erewrite flat_map_ext_in_; [reflexivity|].
      intros g Hg. destruct (Nat.eqb_spec (group_cell g) c) as [Q|Q].
      + symmetry. apply filter_all_. intros v Hv. rewrite (group_cells g v Hg Hv). apply Nat.eqb_eq. exact Q.
      + symmetry. apply filter_none_. intros v Hv. rewrite (group_cells g v Hg Hv). apply Nat.eqb_neq. exact Q.
    - rewrite particles_in_cell. destruct ((a <=? c) && (c <? b)) eqn:Eab; [|reflexivity]. rewrite flat_map_map, np_nth. unfold contributions.
      assert (G : forall l, nth c content [] = l -> flat_map (fun j => vals (cc_nrow x * q + r) (c, j)) (seq 0 (length l)) =
        flat_map (fun l => map c_value (filter (fun a => (c_row a =? r) && (c_col a =? q)) (kernel c l))) l).
      { intros l Hl. rewrite (flat_map_seq_nth (fun l => map c_value (filter (fun a => (c_row a =? r) && (c_col a =? q)) (kernel c l))) l 0).
        apply flat_map_ext_in_. intros j Hj. apply in_seq in Hj. unfold vals, calls_of. cbn [fst snd]. rewrite Hl. f_equal. apply filter_ext_in. intros ct Hct.
        destruct (Hk c (nth j l 0)) with (a := ct) as (A & B & _); [rewrite Hl; apply nth_In; lia|exact Hct|]. unfold entry.
        destruct (Nat.eqb_spec (cc_nrow x * c_col ct + c_row ct) (cc_nrow x * q + r)), (Nat.eqb_spec (c_row ct) r), (Nat.eqb_spec (c_col ct) q); cbn [andb]; try reflexivity; exfalso; try nia.
        all: subst; try lia. }
      rewrite (G _ eq_refl). reflexivity.
  Qed.

  Lemma all_updates k : exists us, mapM (fun g => group_updates op ident kernel d k stride loc init P x (fst g) (snd g))
      (combine (seq 0 (length (launch_groups bs))) (launch_groups bs)) = Some us /\
    concat us = flat_map (fun g => map (fun ex => (group_cell g * E + ex, total (flat_map (vals ex) (group_seen g)))) (seq 0 E)) (launch_groups bs).
  Proof.
    exists (map (fun g => map (fun ex => (group_cell g * E + ex, total (flat_map (vals ex) (group_seen g)))) (seq 0 E)) (launch_groups bs)).
    split; [|symmetry; apply flat_map_concat_map].
    rewrite (mapM_pure _ (fun g : nat * (block * (nat * nat)) => map (fun ex => (group_cell (snd g) * E + ex, total (flat_map (vals ex) (group_seen (snd g))))) (seq 0 E))).
    - f_equal. apply (map_combine_seq (fun g => map (fun ex => (group_cell g * E + ex, total (flat_map (vals ex) (group_seen g)))) (seq 0 E))).
    - intros [n g] Hg. cbn [fst snd]. apply group_ok. apply in_combine_r in Hg. exact Hg.
  Qed.

  Lemma data_ok k : exists data, foldM (fun data u => current <- rd data (fst u) ;; upd data (fst u) (op current (snd u))) (cc_data x)
      (ord d k (flat_map (fun g => map (fun ex => (group_cell g * E + ex, total (flat_map (vals ex) (group_seen g)))) (seq 0 E)) (launch_groups bs))) = Some data /\
    length data = length (cc_data x) /\
    forall c r q v, r < cc_nrow x -> q < cc_ncol x -> nth_error (cc_data x) (addr (cc_nrow x) (cc_ncol x) c r q) = Some v ->
      nth_error data (addr (cc_nrow x) (cc_ncol x) c r q) =
      Some (if (a <=? c) && (c <? b) then combined op v (contributions kernel c r q (nth c content [])) else v).
  Proof.
    destruct Wx as [Lx Ox]. set (us := flat_map _ (launch_groups bs)).
    assert (Hus : forall u, In u us -> exists g ex, In g (launch_groups bs) /\ ex < E /\ u = (group_cell g * E + ex, total (flat_map (vals ex) (group_seen g)))).
    { intros u Hu. unfold us in Hu. apply in_flat_map in Hu. destruct Hu as (g & Hg & Hu). apply in_map_iff in Hu. destruct Hu as (ex & <- & Hex). apply in_seq in Hex. exists g, ex. split; [exact Hg|]. split; [lia|reflexivity]. }
    destruct (plain_updates (op := op) fst snd (ord d k us) (cc_data x)) as (data & F & L & N).
    { intros u Hu. apply (in_ord d) in Hu; [|exact Hd]. destruct (Hus u Hu) as (g & ex & Hg & Hex & ->). cbn [fst]. rewrite Lx. pose proof (group_cell_lt g Hg).
      unfold E in *. rewrite <- Nat.mul_assoc. assert (group_cell g * (cc_nrow x * cc_ncol x) + cc_nrow x * cc_ncol x <= cc_ncells x * (cc_nrow x * cc_ncol x)) by (rewrite <- Nat.mul_succ_l; apply Nat.mul_le_mono_r; lia). lia. }
    exists data. split; [exact F|]. split; [exact L|]. intros c r q v Hr Hq Hv. rewrite (N _ _ Hv). f_equal.
    assert (Hvok : ok v) by (rewrite Forall_forall in Ox; apply Ox; apply nth_error_In in Hv; exact Hv).
    set (ex := cc_nrow x * q + r). set (sel := filter (fun g => group_cell g =? c) (launch_groups bs)).
    assert (Hex : ex < E) by (apply inner_lt; assumption).
    assert (Q : filter (fun u => fst u =? addr (cc_nrow x) (cc_ncol x) c r q) us = map (fun g => (group_cell g * E + ex, total (flat_map (vals ex) (group_seen g)))) sel).
    { unfold us, sel. rewrite filter_flat_map. rewrite <- (flat_map_if' (fun g => (group_cell g * E + ex, total (flat_map (vals ex) (group_seen g))))). apply flat_map_ext_in_. intros g Hg.
      rewrite filter_map_. rewrite (filter_ext_in _ (fun ex' => (group_cell g =? c) && (ex' =? ex))).
      - destruct (Nat.eqb_spec (group_cell g) c) as [Qc|Qc]; cbn [andb].
        + rewrite filter_eq_seq_ by exact Hex. reflexivity.
        + rewrite filter_none_ by reflexivity. reflexivity.
      - intros ex' Hin. apply in_seq in Hin. cbn [fst]. unfold addr. fold E. fold ex.
        destruct (Nat.eqb_spec (group_cell g * E + ex') (c * E + ex)) as [Qa|Qa], (Nat.eqb_spec (group_cell g) c) as [Qc|Qc], (Nat.eqb_spec ex' ex) as [Qe|Qe]; cbn [andb]; try reflexivity; exfalso.
        all: try (apply Qa; rewrite Qc, Qe; reflexivity).
        all: destruct (addr_cell (cc_nrow x) (cc_ncol x) c r q (group_cell g) ex') as [G1 G2]; [exact Hr|exact Hq|unfold E in Hin; lia|unfold addr; fold E; fold ex; lia|]; fold ex in G2; congruence. }
    assert (Hsel : forall g, In g sel -> In g (launch_groups bs)) by (intros g Hg; apply filter_In in Hg; apply Hg).
    assert (Ht1 : Forall ok (map (fun g => total (flat_map (vals ex) (group_seen g))) sel)).
    { apply Forall_forall. intros t Hin. apply in_map_iff in Hin. destruct Hin as (g & <- & Hg). apply (total_ok M). apply vals_ok. auto. }
    assert (Pm : Permutation (map snd (filter (fun u => fst u =? addr (cc_nrow x) (cc_ncol x) c r q) (ord d k us))) (map (fun g => total (flat_map (vals ex) (group_seen g))) sel)).
    { rewrite (Permutation_map snd (Permutation_filter (fun u => fst u =? addr (cc_nrow x) (cc_ncol x) c r q) _ _ (proj1 Hd _ k us))), Q, map_map. reflexivity. }
    rewrite (combined_total M) by (try exact Hvok; apply (Forall_perm _ _ (Permutation_sym Pm) Ht1)).
    rewrite (total_perm M _ _ Pm) by (apply (Forall_perm _ _ (Permutation_sym Pm) Ht1)).
    rewrite <- (total_flat_map M) by (intros g Hg; apply vals_ok; auto).
    pose proof (cell_values_perm c r q Hr Hq) as Cp. fold ex sel in Cp. rewrite flat_map_flat_map in Cp.
    assert (Hall : Forall ok (flat_map (fun g => flat_map (vals ex) (group_seen g)) sel)).
    { apply Forall_forall. intros t Hin. apply in_flat_map in Hin. destruct Hin as (g & Hg & Hin). pose proof (vals_ok ex g (Hsel g Hg)) as Hvk. rewrite Forall_forall in Hvk. apply Hvk. exact Hin. }
    rewrite (total_perm M _ _ Cp Hall). pose proof (Forall_perm _ _ Cp Hall) as Hc.
    destruct ((a <=? c) && (c <? b)); [|apply (red_neutral _ _ _ M); exact Hvok]. rewrite (combined_total M); [reflexivity|exact Hc|exact Hvok].
  Qed.
End ReductionLoop.

Theorem reduction_loop_ok {T} (op : T -> T -> T) ident ok (M : reducible op ident ok) d (Hd : device_ok d) P content (It : iterates P content)
    kernel (x : cell_const T) (Wx : well_formed ok x) (Hcells : length content <= cc_ncells x)
    (Hk : forall c l, In l (nth c content []) -> forall a, In a (kernel c l) -> c_row a < cc_nrow x /\ c_col a < cc_ncol x /\ ok (c_value a))
    k lim nbin loc stride init cs ce a b :
  1 <= stride -> 1 <= nbin -> is_power_of_two loc = true -> ample lim (map (@length nat) content) loc -> call_names (length content) cs ce a b ->
  exists y, reduction_loop op ident kernel d k lim (length content) nbin loc stride init P cs ce x = Some y /\ same_dimensions y x /\
    length (cc_data y) = length (cc_data x) /\
    forall c r q v, r < cc_nrow x -> q < cc_ncol x -> nth_error (cc_data x) (addr (cc_nrow x) (cc_ncol x) c r q) = Some v ->
      nth_error (cc_data y) (addr (cc_nrow x) (cc_ncol x) c r q) =
      Some (if (a <=? c) && (c <? b) then combined op v (contributions kernel c r q (nth c content [])) else v).
Proof.
  intros Hst Hnb Hp Ha Hc. unfold reduction_loop. rewrite Hp. cbn [assert obind]. rewrite (counts_np P content It x Hcells).
  rewrite <- (map_length (@length nat)) in Hc.
  destruct (prepare_submit_some lim (map (@length nat) content) true nbin loc stride cs ce a b Hc Hst Hnb Ha) as [bs Hbs]. rewrite Hbs. cbn [obind].
  pose proof (prepare_submit_tiles _ _ _ _ _ _ _ _ _ _ _ Hc Hst Hnb Hbs) as Ht.
  pose proof (submit_pow2 _ _ _ _ _ _ _ _ _ _ Hp Hbs) as H2.
  destruct (all_updates M d Hd P content It kernel x Hcells Hk stride Hst a b bs Ht loc H2 init (k + 1)) as (us & E1 & E2). rewrite E1. cbn [obind]. rewrite E2.
  destruct (data_ok M d Hd P content It kernel x Wx Hcells Hk stride Hst a b bs Ht k) as (data & F & L & N). rewrite F. cbn [obind].
  eexists. split; [reflexivity|]. unfold cc_with. split; [repeat split|]. split; [exact L|exact N].
Qed.
