(** The new numbers of the points. *)
From Coq Require Import List Arith ZArith Bool Lia Sorting.Sorted.
Import ListNotations.
From Verif Require Import Base Kernel Serial_Model MHC_Spec Serial_Proofs CellRep_Model CellRep_Spec CellRep_Proofs Halo_Model Halo_Spec HaloRep_Proofs.
Local Open Scope nat_scope.

Lemma foldM_nest2 {A B S} (f : A -> S -> B -> option S) (g : A -> list B) l : forall s,
  foldM (fun s a => foldM (f a) s (g a)) s l = foldM (fun s x => f (fst x) s (snd x)) s (flat_map (fun a => map (pair a) (g a)) l).
Proof.
  induction l as [|a l IH]; intros s; [reflexivity|]. cbn [foldM flat_map]. rewrite foldM_app.
  replace (foldM (fun s x => f (fst x) s (snd x)) s (map (pair a) (g a))) with (foldM (f a) s (g a)); [destruct (foldM (f a) s (g a)); cbn [obind]; auto|].
  generalize (g a). clear IH. intros k. revert s. induction k as [|b k IH]; intros s; [reflexivity|]. cbn [foldM map fst snd]. destruct (f a s b); cbn [obind]; auto.
Qed.

(** ** Sorted lists *)
Lemma sorted_interval (l : list Z) : StronglySorted Z.lt l -> forall a, (forall x, In x l -> (a <= x)%Z) -> (forall x, In (x + 1)%Z l -> (a <= x)%Z -> In x l) ->
  l = map (fun i => (a + Z.of_nat i)%Z) (seq 0 (length l)).
Proof.
  induction 1 as [|x l S IH F]; intros a Lo Dn; [reflexivity|]. rewrite Forall_forall in F. assert (E : x = a).
  { pose proof (Lo x (or_introl eq_refl)). destruct (Z.eq_dec x a); [assumption|exfalso]. assert (I : In (x - 1)%Z (x :: l)) by (apply Dn; [replace (x - 1 + 1)%Z with x by lia; left; reflexivity|lia]). destruct I as [I|I]; [lia|]. specialize (F _ I). lia. }
  subst x. cbn [length seq map]. f_equal; [lia|]. rewrite <- seq_shift, map_map. rewrite (IH (a + 1)%Z) at 1.
  - apply map_ext. intros i. lia.
  - intros x I. specialize (F x I). lia.
  - intros x I L. destruct (Dn x (or_intror I)) as [E|I']; [lia|lia|exact I'].
Qed.
Lemma sorted_nth (l : list Z) : StronglySorted Z.lt l -> forall i j x y, nth_error l i = Some x -> nth_error l j = Some y -> (i < j <-> (x < y)%Z).
Proof.
  induction 1 as [|z l S IH F]; intros i j x y Ei Ej; [destruct i; discriminate|]. rewrite Forall_forall in F. destruct i as [|i], j as [|j]; cbn [nth_error] in *.
  - injection Ei as <-. injection Ej as <-. split; lia.
  - injection Ei as <-. apply nth_error_In in Ej. specialize (F y Ej). split; [auto|lia].
  - injection Ej as <-. apply nth_error_In in Ei. specialize (F x Ei). split; lia.
  - rewrite <- (IH i j x y Ei Ej). lia.
Qed.

(** ** Numbering layers of points *)
Section Layers.
  Context (P : nat -> list Z) (D : nat).
  Definition off (d : nat) : nat := length (flat_map P (seq 0 d)).
  Definition layer_map : zmap (list Z) := map (fun d => (Z.of_nat d, P d)) (seq 0 (S D)).
  Lemma off_S d : off (S d) = off d + length (P d).
  Proof. unfold off. rewrite seq_S, flat_map_app, app_length. cbn [flat_map Nat.add]. rewrite app_nil_r. reflexivity. Qed.
  Lemma layer_get d : d <= D -> map_get layer_map (Z.of_nat d) = Some (P d).
  Proof.
    intros L. apply in_map_get; [|apply in_map_iff; exists d; split; [reflexivity|apply in_seq; lia]]. unfold layer_map. rewrite map_map. cbn [fst]. apply FinFun.Injective_map_NoDup; [|apply seq_NoDup]. intros a b. lia.
  Qed.
  Lemma strata_ok : strata layer_map D = Some (map (fun d => Z.of_nat (off d)) (seq 0 (S D)), map (fun d => Z.of_nat (off (S d))) (seq 0 (S D))).
  Proof.
    unfold strata. change 0%Z with (Z.of_nat 0). rewrite layer_get by lia. cbn [obind].
    destruct (foldM_ind (fun st depth => prev_end <- nth_error (snd st) (depth - 1) ;; p <- map_get layer_map (Z.of_nat depth) ;; Some (fst st ++ [prev_end], snd st ++ [(prev_end + Z.of_nat (length p))%Z]))
      (fun pre st => st = (map (fun d => Z.of_nat (off d)) (seq 0 (S (length pre))), map (fun d => Z.of_nat (off (S d))) (seq 0 (S (length pre))))) (seq 1 D) ([Z.of_nat 0], [Z.of_nat (length (P 0))])) as (st & E & ->).
    - cbn [length seq map]. rewrite off_S. reflexivity.
    - intros pre a post st E ->. cbn [fst snd].
      assert (Ea : a = S (length pre) /\ a <= D). { assert (nth_error (seq 1 D) (length pre) = Some a) by (rewrite E, nth_error_app2, Nat.sub_diag by lia; reflexivity). assert (length pre < D) by (apply (f_equal (@length nat)) in E; rewrite seq_length, app_length in E; cbn [length] in E; lia). rewrite (nth_error_nth' _ 0) in H by (rewrite seq_length; lia). rewrite seq_nth in H by lia. injection H as <-. lia. }
      destruct Ea as (-> & La). replace (S (length pre) - 1) with (length pre) by lia. rewrite (map_nth_error _ (length pre) (seq 0 (S (length pre))) (d := length pre)) by (rewrite (nth_error_nth' _ 0) by (rewrite seq_length; lia); rewrite seq_nth by lia; reflexivity). cbn [obind]. rewrite layer_get by lia. cbn [obind].
      eexists. split; [reflexivity|]. rewrite app_length. cbn [length]. rewrite Nat.add_1_r. rewrite (seq_S (S (length pre)) 0), !map_app. cbn [map Nat.add]. f_equal. f_equal. rewrite (off_S (S (length pre))). rewrite Nat2Z.inj_add. reflexivity.
    - rewrite seq_length in E. exact E.
  Qed.
  Definition partial_starts (k : nat) : list Z := map (fun d => Z.of_nat (if d <? k then off (S d) else off d)) (seq 0 (S D)).
  Definition located (L : list Z) (m : zmap Z) : Prop := forall p z, map_get m p = Some z <-> exists i, nth_error L i = Some p /\ z = Z.of_nat i.
  Context (N : NoDup (flat_map P (seq 0 (S D)))).
  Lemma number_layer k m : k <= D -> located (flat_map P (seq 0 k)) m ->
    exists m', foldM (fun st g => let '(si, m, n) := st in k' <- as_size (Z.of_nat k) ;; local <- nth_error si k' ;; si' <- upd si k' (local + 1)%Z ;; Some (si', map_set m g local, n + 1)%Z)
      (partial_starts k, m, Z.of_nat (off k)) (P k) = Some (partial_starts (S k), m', Z.of_nat (off (S k))) /\ located (flat_map P (seq 0 (S k))) m'.
  Proof.
    intros Lk Hm. set (f := fun (st : list Z * zmap Z * Z) (g : Z) => let '(si, m, n) := st in k' <- as_size (Z.of_nat k) ;; local <- nth_error si k' ;; si' <- upd si k' (local + 1)%Z ;; Some (si', map_set m g local, n + 1)%Z).
    destruct (foldM_ind f (fun pre st => let '(si, m, n) := st in length si = S D /\ (forall d, d <= D -> nth_error si d = Some (Z.of_nat (if d =? k then off k + length pre else if d <? k then off (S d) else off d))) /\ located (flat_map P (seq 0 k) ++ pre) m /\ n = Z.of_nat (off k + length pre)) (P k) (partial_starts k, m, Z.of_nat (off k))) as ([[si m'] n] & E & Ls & Hs & Hm' & En).
    - split; [unfold partial_starts; rewrite map_length, seq_length; reflexivity|]. split; [|split; [rewrite app_nil_r; exact Hm|cbn [length]; rewrite Nat.add_0_r; reflexivity]]. intros d Ld. unfold partial_starts. rewrite (map_nth_error _ d (seq 0 (S D)) (d := d)) by (rewrite (nth_error_nth' _ 0) by (rewrite seq_length; lia); rewrite seq_nth by lia; reflexivity). destruct (Nat.eqb_spec d k) as [->|]; [|reflexivity]. rewrite Nat.ltb_irrefl. cbn [length]. rewrite Nat.add_0_r. reflexivity.
    - intros pre g post [[si m1] n] E (Ls & Hs & Hm1 & En). unfold f. rewrite as_size_nat. cbn [obind]. rewrite (Hs k) by lia. rewrite Nat.eqb_refl. cbn [obind]. destruct (upd_some si k (Z.of_nat (off k + length pre) + 1)%Z) as (si' & Eu); [lia|]. rewrite Eu. cbn [obind]. eexists. split; [reflexivity|]. split; [rewrite (upd_length _ _ _ _ Eu); exact Ls|]. split; [|split].
      + intros d Ld. destruct (Nat.eq_dec d k) as [->|Nd]; [rewrite (upd_nth_eq _ _ _ _ Eu), Nat.eqb_refl, app_length; cbn [length]; f_equal; lia|]. rewrite (upd_nth_neq _ _ _ _ d Eu Nd), (Hs d Ld). destruct (Nat.eqb_spec d k); [contradiction|reflexivity].
      + intros p z. rewrite map_get_set, app_assoc. assert (Lp : length (flat_map P (seq 0 k) ++ pre) = off k + length pre) by (rewrite app_length; reflexivity).
        assert (Ng : ~ In g (flat_map P (seq 0 k) ++ pre)).
        { intros I. revert N. replace (S D) with (k + S (D - k)) by lia. rewrite seq_app, flat_map_app. cbn [Nat.add seq flat_map]. rewrite E, <- !app_assoc. cbn [app]. rewrite app_assoc. intros N'. apply NoDup_remove_2 in N'. apply N'. apply in_or_app. left. exact I. }
        destruct (Z.eqb_spec p g) as [->|Np].
        * split; [intros Ez; injection Ez as <-; exists (off k + length pre); split; [rewrite <- Lp, nth_error_app2, Nat.sub_diag by lia; reflexivity|reflexivity]|]. intros (i & Ei & ->). destruct (Nat.lt_ge_cases i (off k + length pre)) as [Li|Li]; [rewrite nth_error_app1 in Ei by lia; apply nth_error_In in Ei; contradiction|]. rewrite nth_error_app2 in Ei by lia. rewrite Lp in Ei. destruct (i - (off k + length pre)) as [|j] eqn:Ej; [f_equal; lia|destruct j; discriminate].
        * rewrite (Hm1 p z). split; intros (i & Ei & ->); exists i; (split; [|reflexivity]).
          -- rewrite nth_error_app1; [exact Ei|]. apply nth_error_Some. congruence.
          -- destruct (Nat.lt_ge_cases i (off k + length pre)) as [Li|Li]; [rewrite nth_error_app1 in Ei by lia; exact Ei|]. rewrite nth_error_app2 in Ei by lia. rewrite Lp in Ei. destruct (i - (off k + length pre)) as [|j]; [cbn in Ei; congruence|destruct j; discriminate].
      + rewrite En, app_length. cbn [length]. lia.
    - rewrite E. exists m'. rewrite off_S. split.
      + f_equal. f_equal; [|exact En]. f_equal. apply nth_error_ext. intros d. destruct (Nat.lt_ge_cases d (S D)) as [Ld|Ld].
        * rewrite (Hs d) by lia. unfold partial_starts. rewrite (map_nth_error _ d (seq 0 (S D)) (d := d)) by (rewrite (nth_error_nth' _ 0) by (rewrite seq_length; lia); rewrite seq_nth by lia; reflexivity). f_equal. f_equal. destruct (Nat.eqb_spec d k) as [->|]; [destruct (Nat.ltb_spec k (S k)); [|lia]; rewrite off_S; reflexivity|]. destruct (Nat.ltb_spec d k), (Nat.ltb_spec d (S k)); try lia; reflexivity.
        * rewrite !(proj2 (nth_error_None _ _)); [reflexivity|unfold partial_starts; rewrite map_length, seq_length; lia|lia].
      + rewrite seq_S, flat_map_app. cbn [flat_map Nat.add]. rewrite app_nil_r. exact Hm'.
  Qed.
  Lemma number_ok : exists m, number_points layer_map (map (fun d => Z.of_nat (off d)) (seq 0 (S D))) = Some (map (fun d => Z.of_nat (off (S d))) (seq 0 (S D)), m, Z.of_nat (off (S D))) /\ located (flat_map P (seq 0 (S D))) m.
  Proof.
    unfold number_points. set (F := fun st dp => _).
    destruct (foldM_ind F (fun pre st => exists m, st = (partial_starts (length pre), m, Z.of_nat (off (length pre))) /\ located (flat_map P (seq 0 (length pre))) m) layer_map (map (fun d => Z.of_nat (off d)) (seq 0 (S D)), [], 0%Z)) as (st & E & m & -> & Hm).
    - exists []. split; [reflexivity|]. intros p z. cbn. split; [discriminate|]. intros (i & Ei & _). destruct i; discriminate.
    - intros pre dp post st E (m & -> & Hm).
      assert (Ea : dp = (Z.of_nat (length pre), P (length pre)) /\ length pre <= D).
      { assert (A : nth_error layer_map (length pre) = Some dp) by (rewrite E, nth_error_app2, Nat.sub_diag by lia; reflexivity). assert (Ll : length pre < S D) by (apply (f_equal (@length _)) in E; unfold layer_map in E; rewrite map_length, seq_length, app_length in E; cbn [length] in E; lia). unfold layer_map in A. rewrite (map_nth_error _ (length pre) (seq 0 (S D)) (d := length pre)) in A by (rewrite (nth_error_nth' _ 0) by (rewrite seq_length; lia); rewrite seq_nth by lia; reflexivity). injection A as <-. split; [reflexivity|lia]. }
      destruct Ea as (-> & La). destruct (number_layer (length pre) m La Hm) as (m' & E' & Hm'). unfold F. cbn [fst snd]. rewrite E'. eexists. split; [reflexivity|]. exists m'. rewrite app_length. cbn [length]. rewrite Nat.add_1_r. split; [reflexivity|exact Hm'].
    - rewrite E. unfold layer_map in *. rewrite map_length, seq_length in *. exists m. split; [|exact Hm]. f_equal. f_equal. f_equal. unfold partial_starts. apply map_ext_in. intros d I. apply in_seq in I. destruct (Nat.ltb_spec d (S D)); [reflexivity|lia].
  Qed.
  Lemma max_keys n : forall a, fold_left Z.max (map Z.of_nat (seq (S a) n)) (Z.of_nat a) = Z.of_nat (a + n).
  Proof. induction n as [|n IH]; intros a; cbn [seq map fold_left]; [rewrite Nat.add_0_r; reflexivity|]. rewrite Z.max_r by lia. rewrite IH. f_equal. lia. Qed.
  Lemma min_keys n : forall a b, a <= b -> fold_left Z.min (map Z.of_nat (seq b n)) (Z.of_nat a) = Z.of_nat a.
  Proof. induction n as [|n IH]; intros a b L; cbn [seq map fold_left]; [reflexivity|]. rewrite Z.min_l by lia. apply IH. lia. Qed.
  Lemma index_mapper_ok cells : cells <> [] -> depth_points cells = Some layer_map -> exists m,
    index_mapper cells = Some (mk_mapper (map (fun d => Z.of_nat (off d)) (seq 0 (S D))) (map (fun d => Z.of_nat (off (S d))) (seq 0 (S D))) m (Z.of_nat (off (S D)))) /\ located (flat_map P (seq 0 (S D))) m.
  Proof.
    intros Ne E. destruct cells as [|c0 cells]; [congruence|]. destruct number_ok as (m & En & Hm). exists m. split; [|exact Hm]. unfold index_mapper. rewrite E. cbn [obind].
    assert (Ek : map fst layer_map = Z.of_nat 0 :: map Z.of_nat (seq 1 D)) by (unfold layer_map; rewrite map_map; reflexivity). rewrite Ek. rewrite (min_keys D 0 1) by lia. cbn [Z.of_nat Z.eqb assert obind]. change 0%Z with (Z.of_nat 0). rewrite max_keys. cbn [Nat.add]. rewrite Nat2Z.id, strata_ok. cbn [obind fst snd]. rewrite En. cbn [obind].
    replace (forallb _ (seq 0 (S D))) with true.
    2:{ symmetry. apply forallb_forall. intros d I. apply in_seq in I. rewrite (map_nth_error _ d (seq 0 (S D)) (d := d)) by (rewrite (nth_error_nth' _ 0) by (rewrite seq_length; lia); rewrite seq_nth by lia; reflexivity). apply Z.eqb_refl. }
    cbn [assert obind]. rewrite map_length, seq_length. replace (S D - 1) with D by lia. rewrite (map_nth_error _ D (seq 0 (S D)) (d := D)) by (rewrite (nth_error_nth' _ 0) by (rewrite seq_length; lia); rewrite seq_nth by lia; reflexivity). cbn [obind]. rewrite Z.eqb_refl. reflexivity.
  Qed.
End Layers.

(** ** The points of the cells received *)
Section Mapper.
  Context (ndim : nat) (G : mesh) (Hn : mesh_ok ndim G) (ids : list Z) (reps : list cell_rep) (Hr : Forall2 (represents G) ids reps) (Ne : ids <> []).
  Definition U (q : Z) : Prop := exists g, In g ids /\ closure G g q.
  Local Notation dep := (fun p => Z.of_nat (gdepth G p)).
  Lemma U_cone p c o : U p -> In (c, o) (gcone G p) -> U c.
  Proof. intros (g & I & L) J. exists g. split; [exact I|]. apply (closure_cone G g p c o L J). Qed.
  Lemma chain g n : forall p, gdepth G p = n -> closure G g p -> exists l, NoDup l /\ length l = S n /\ (forall q, In q l -> closure G g q /\ gdepth G q <= n).
  Proof.
    induction n as [|n IH]; intros p E L.
    - exists [p]. split; [repeat constructor; intros []|]. split; [reflexivity|]. intros q [<-|[]]. split; [exact L|lia].
    - destruct (gcone G p) as [|(c, o) t] eqn:Ec; [pose proof (proj1 (proj2 (Hn p)) Ec); lia|]. assert (I : In (c, o) (gcone G p)) by (rewrite Ec; left; reflexivity). pose proof (proj1 (Hn p) c o I) as Ed.
      destruct (IH c) as (l & Nl & Ll & Hl); [lia|apply (closure_cone G g p c o L I)|]. exists (p :: l). split; [constructor; [|exact Nl]; intros J; destruct (Hl p J); lia|]. split; [cbn [length]; lia|]. intros q [<-|J]; [split; [exact L|lia]|]. destruct (Hl q J). split; [assumption|lia].
  Qed.
  Lemma depth_fuel_ok g r fuel : represents G g r -> forall p, closure G g p -> gdepth G p < fuel -> depth_fuel fuel r p = Some (Z.of_nat (gdepth G p)).
  Proof.
    intros (_ & Hc & _). induction fuel as [|fuel IH]; intros p L Lf; [lia|]. cbn [depth_fuel]. rewrite (proj2 (Hc p (map fst (gcone G p)))) by (split; [exact L|reflexivity]). cbn [obind]. destruct (gcone G p) as [|(c, o) t] eqn:Ec; cbn [map fst]; [rewrite (proj1 (proj2 (Hn p)) Ec); reflexivity|].
    assert (I : In (c, o) (gcone G p)) by (rewrite Ec; left; reflexivity). pose proof (proj1 (Hn p) c o I) as Ed. rewrite (IH c); [|apply (closure_cone G g p c o L I)|lia]. cbn [obind]. f_equal. lia.
  Qed.
  Lemma point_depth_ok g r p : represents G g r -> closure G g p -> point_depth r p = Some (Z.of_nat (gdepth G p)).
  Proof.
    intros R L. unfold point_depth. apply (depth_fuel_ok g); [exact R|exact L|]. destruct (chain g (gdepth G p) p eq_refl L) as (l & Nl & Ll & Hl). destruct R as (_ & Hc & _).
    assert (I : incl l (map fst (cones r))). { intros q J. destruct (Hl q J) as (Lq & _). assert (A : map_get (cones r) q = Some (map fst (gcone G q))) by (apply Hc; split; [exact Lq|reflexivity]). apply map_get_in in A. apply (in_map fst) in A. exact A. }
    pose proof (NoDup_incl_length Nl I) as B. rewrite map_length in B. lia.
  Qed.
  Definition events : list (cell_rep * (Z * list Z)) := flat_map (fun r => map (pair r) (cones r)) reps.
  Lemma reps_in r : In r reps -> exists g, In g ids /\ represents G g r.
  Proof. clear Ne. pose proof Hr as R0. clear Hr. induction R0 as [|g r' i k A B IH]; intros I; [destruct I|]. destruct I as [<-|I]; [exists g; split; [left; reflexivity|exact A]|]. destruct (IH I) as (g' & I' & R'). exists g'. split; [right; exact I'|exact R']. Qed.
  Lemma reps_of g : In g ids -> exists r, In r reps /\ represents G g r.
  Proof. clear Ne. pose proof Hr as R0. clear Hr. induction R0 as [|g' r' i k A B IH]; intros I; [destruct I|]. destruct I as [<-|I]; [exists r'; split; [left; reflexivity|exact A]|]. destruct (IH I) as (r & I' & R'). exists r. split; [right; exact I'|exact R']. Qed.
  Lemma events_in r e : In (r, e) events -> exists g, In g ids /\ represents G g r /\ closure G g (fst e) /\ snd e = map fst (gcone G (fst e)).
  Proof.
    unfold events. rewrite in_flat_map. intros (r' & Ir & I). apply in_map_iff in I. destruct I as (e' & Ee & I). injection Ee as -> ->. destruct (reps_in r Ir) as (g & Ig & R). exists g. split; [exact Ig|]. split; [exact R|]. destruct e as (p, c). destruct R as (W & Hc & _). apply (is_map_get _ p c (proj1 W)) in I. apply Hc in I. exact I.
  Qed.
  Lemma events_U q : U q <-> exists x, In x events /\ fst (snd x) = q.
  Proof.
    split.
    - intros (g & Ig & L). destruct (reps_of g Ig) as (r & Ir & R). exists (r, (q, map fst (gcone G q))). split; [|reflexivity]. unfold events. apply in_flat_map. exists r. split; [exact Ir|]. apply in_map. destruct R as (W & Hc & _). apply map_get_in. apply Hc. split; [exact L|reflexivity].
    - intros ((r, e) & I & <-). destruct (events_in r e I) as (g & Ig & _ & L & _). exists g. split; assumption.
  Qed.
  Lemma depth_points_graded : exists m, depth_points reps = Some m /\ graded_map dep m /\ forall q, has dep m q <-> U q.
  Proof.
    unfold depth_points. rewrite (foldM_nest2 (fun r m e => d <- point_depth r (fst e) ;; Some (map_set m d (set_add (get_or_empty m d) (fst e)))) cones). fold events.
    destruct (foldM_ind (fun (s : zmap (list Z)) (x : cell_rep * (Z * list Z)) => d <- point_depth (fst x) (fst (snd x)) ;; Some (map_set s d (set_add (get_or_empty s d) (fst (snd x)))))
      (fun pre m => graded_map dep m /\ forall q, has dep m q <-> exists x, In x pre /\ fst (snd x) = q) events []) as (m & E & Gm & Hm).
    - split; [split; [constructor|intros k l []]|]. intros q. split; [intros []|intros (x & [] & _)].
    - intros pre (r, e) post m E (Gm & Hm). cbn [fst snd]. assert (I : In (r, e) events) by (rewrite E; apply in_elt). destruct (events_in r e I) as (g & _ & R & L & _). rewrite (point_depth_ok g r (fst e) R L). cbn [obind]. eexists. split; [reflexivity|]. destruct (graded_add dep m (fst e) Gm) as (G' & H'). split; [exact G'|]. intros q. rewrite H', Hm. split.
      + intros [->|(x & Ix & Ex)]; [exists (r, e); split; [apply in_elt|reflexivity]|exists x; split; [apply in_or_app; left; exact Ix|exact Ex]].
      + intros (x & Ix & Ex). apply in_app_or in Ix. destruct Ix as [Ix|[<-|[]]]; [right; exists x; split; assumption|left; symmetry; exact Ex].
    - exists m. split; [exact E|]. split; [exact Gm|]. intros q. rewrite Hm, events_U. reflexivity.
  Qed.

  (** The mapper: layers of points, each sorted. *)
  Definition mapped (P : nat -> list Z) (D : nat) (mp : mapper) : Prop :=
    index_mapper reps = Some mp /\ starts mp = map (fun d => Z.of_nat (off P d)) (seq 0 (S D)) /\ ends mp = map (fun d => Z.of_nat (off P (S d))) (seq 0 (S D)) /\
    chart_end mp = Z.of_nat (off P (S D)) /\ located (flat_map P (seq 0 (S D))) (to_local mp) /\ NoDup (flat_map P (seq 0 (S D))) /\
    (forall d p, In p (P d) -> gdepth G p = d) /\ (forall d, StronglySorted Z.lt (P d)) /\ (forall q, U q <-> gdepth G q <= D /\ In q (P (gdepth G q))).
  Lemma mapper_ok : exists P D mp, mapped P D mp.
  Proof.
    destruct depth_points_graded as (m & E & Gm & Hm). pose proof Gm as Gm'. destruct Gm as (M & K).
    assert (Ky : forall k, In k (map fst m) <-> exists p, U p /\ dep p = k).
    { intros k. split.
      - intros I. apply in_map_iff in I. destruct I as ((k', l) & <- & I). destruct (K k' l I) as (_ & Nl & F). destruct l as [|p l]; [congruence|]. exists p. specialize (F p (or_introl eq_refl)). split; [|exact F]. apply Hm. unfold has, get_or_empty. cbv beta in F |- *. rewrite F. apply is_map_get in I; [|exact M]. rewrite I. left. reflexivity.
      - intros (p & Up & <-). apply Hm in Up. unfold has in Up. apply get_or_empty_in in Up. destruct Up as (l & I & _). apply (in_map fst) in I. exact I. }
    assert (Eint : map fst m = map (fun i => (0 + Z.of_nat i)%Z) (seq 0 (length (map fst m)))).
    { apply sorted_interval; [exact M| |].
      - intros x I. apply Ky in I. destruct I as (p & _ & <-). lia.
      - intros x I Lx. apply Ky in I. destruct I as (p & Up & Ep). apply Ky. destruct (gcone G p) as [|(c, o) t] eqn:Ec; [pose proof (proj1 (proj2 (Hn p)) Ec); lia|]. assert (I : In (c, o) (gcone G p)) by (rewrite Ec; left; reflexivity). exists c. split; [apply (U_cone p c o Up I)|]. pose proof (proj1 (Hn p) c o I). lia. }
    assert (Nz : exists D, length (map fst m) = S D). { destruct ids as [|g ids'] eqn:Ei; [congruence|]. assert (Ug : U g) by (exists g; rewrite Ei; split; [left; reflexivity|constructor]). assert (I : In (dep g) (map fst m)) by (apply Ky; exists g; split; [exact Ug|reflexivity]). destruct (map fst m); [destruct I|]. eexists. reflexivity. }
    destruct Nz as (D & ED). rewrite ED in Eint. set (P := fun d => get_or_empty m (Z.of_nat d)).
    assert (Em : m = layer_map P D).
    { unfold layer_map. assert (A : m = map (fun k => (k, get_or_empty m k)) (map fst m)). { rewrite map_map. rewrite <- (map_id m) at 1. apply map_ext_in. intros (k, l) I. cbn [fst]. f_equal. unfold get_or_empty. apply is_map_get in I; [|exact M]. rewrite I. reflexivity. } rewrite A at 1. rewrite Eint, map_map. apply map_ext. intros d. reflexivity. }
    destruct (graded_flat dep m Gm') as (Nf & Hf). assert (Ef : flat_map snd m = flat_map P (seq 0 (S D))). { rewrite Em at 1. unfold layer_map. clear. induction (seq 0 (S D)) as [|d l IH]; [reflexivity|]. cbn [map flat_map snd]. rewrite IH. reflexivity. } rewrite Ef in Nf.
    assert (Nr : reps <> []). { intros Er. rewrite Er in Hr. inversion Hr; congruence. }
    rewrite Em in E. destruct (index_mapper_ok P D Nf reps Nr E) as (loc & Ei & Hl). exists P, D. eexists. split; [exact Ei|]. cbn [starts ends to_local chart_end]. repeat (split; [reflexivity|]). split; [exact Hl|]. split; [exact Nf|].
    split; [|split].
    - intros d p I. unfold P in I. apply get_or_empty_in in I. destruct I as (l & I1 & I2). destruct (K _ _ I1) as (_ & _ & F). specialize (F p I2). cbv beta in F. lia.
    - intros d. unfold P, get_or_empty. destruct (map_get m (Z.of_nat d)) as [l|] eqn:El; [|constructor]. apply map_get_in in El. apply (K _ _ El).
    - intros q. rewrite <- Hm. split; [|intros (_ & I); exact I]. intros I. split; [|exact I]. assert (J : In (dep q) (map fst m)) by (apply Ky; exists q; split; [apply Hm; exact I|reflexivity]). rewrite Eint in J. apply in_map_iff in J. destruct J as (i & Ei' & J). apply in_seq in J. cbv beta in Ei'. lia.
  Qed.

  (** ** The new number of a point *)
  Context (P : nat -> list Z) (D : nat) (mp : mapper) (HM : mapped P D mp).
  Definition new (q : Z) : Z := match map_get (to_local mp) q with Some z => z | None => (-1)%Z end.
  Lemma off_mono a b : a <= b -> off P a <= off P b.
  Proof. induction 1 as [|b L IH]; [lia|]. rewrite off_S. lia. Qed.
  Lemma nth_layer d j p : d <= D -> nth_error (P d) j = Some p -> nth_error (flat_map P (seq 0 (S D))) (off P d + j) = Some p.
  Proof.
    intros L E. replace (S D) with (d + S (D - d)) by lia. rewrite seq_app, flat_map_app. cbn [Nat.add seq flat_map]. unfold off. rewrite nth_error_app2 by lia. replace (length (flat_map P (seq 0 d)) + j - length (flat_map P (seq 0 d))) with j by lia. rewrite nth_error_app1; [exact E|]. apply nth_error_Some. congruence.
  Qed.
  Lemma new_layer q : U q -> exists j, nth_error (P (gdepth G q)) j = Some q /\ map_get (to_local mp) q = Some (Z.of_nat (off P (gdepth G q) + j)) /\ new q = Z.of_nat (off P (gdepth G q) + j) /\ j < length (P (gdepth G q)).
  Proof.
    intros Uq. destruct HM as (_ & _ & _ & _ & Hl & _ & _ & _ & HU). apply HU in Uq. destruct Uq as (Ld & I). apply In_nth_error in I. destruct I as (j & Ej). exists j. assert (A : map_get (to_local mp) q = Some (Z.of_nat (off P (gdepth G q) + j))). { apply Hl. exists (off P (gdepth G q) + j). split; [apply nth_layer; assumption|reflexivity]. }
    unfold new. rewrite A. repeat split; [exact Ej|]. apply nth_error_Some. congruence.
  Qed.
  Lemma new_get q : U q -> map_get (to_local mp) q = Some (new q).
  Proof. intros Uq. destruct (new_layer q Uq) as (j & _ & A & B & _). rewrite B. exact A. Qed.
  Lemma new_range q : U q -> (0 <= new q < chart_end mp)%Z.
  Proof.
    intros Uq. destruct (new_layer q Uq) as (j & _ & _ & B & L). destruct HM as (_ & _ & _ & Ec & _ & _ & _ & _ & HU). apply HU in Uq. destruct Uq as (Ld & _). rewrite B, Ec. pose proof (off_mono (S (gdepth G q)) (S D)). rewrite off_S in H. lia.
  Qed.
  Lemma new_onto i : (0 <= i < chart_end mp)%Z -> exists q, U q /\ new q = i.
  Proof.
    destruct HM as (_ & _ & _ & Ec & Hl & _ & Hd & _ & HU). intros Li. rewrite Ec in Li. destruct (nth_error (flat_map P (seq 0 (S D))) (Z.to_nat i)) as [q|] eqn:E; [|apply nth_error_None in E; fold (off P (S D)) in E; lia]. exists q.
    assert (A : map_get (to_local mp) q = Some i). { apply Hl. exists (Z.to_nat i). split; [exact E|lia]. } unfold new. rewrite A. split; [|reflexivity]. apply nth_error_In, in_flat_map in E. destruct E as (d & Id & Iq). apply in_seq in Id. apply HU. rewrite (Hd d q Iq). split; [lia|exact Iq].
  Qed.
  Lemma new_inj q q' : U q -> U q' -> new q = new q' -> q = q'.
  Proof.
    intros A B E. pose proof (new_get q A) as Eq. pose proof (new_get q' B) as Eq'. destruct HM as (_ & _ & _ & _ & Hl & _). apply Hl in Eq. apply Hl in Eq'. destruct Eq as (i & Ei & Ez). destruct Eq' as (i' & Ei' & Ez'). assert (i = i') by lia. subst i'. congruence.
  Qed.
  Lemma new_order q q' : U q -> U q' -> (new q < new q')%Z <-> gdepth G q < gdepth G q' \/ gdepth G q = gdepth G q' /\ (q < q')%Z.
  Proof.
    assert (One : forall q q', U q -> U q' -> gdepth G q < gdepth G q' -> (new q < new q')%Z). { intros a b A B L. destruct (new_layer a A) as (j & _ & _ & Ej & Lj). destruct (new_layer b B) as (k & _ & _ & Ek & _). rewrite Ej, Ek. pose proof (off_mono (S (gdepth G a)) (gdepth G b) L) as M. rewrite off_S in M. lia. }
    intros A B. destruct (Nat.lt_trichotomy (gdepth G q) (gdepth G q')) as [L|[E|L]].
    - split; [intros _; left; exact L|intros _; apply One; assumption].
    - destruct (new_layer q A) as (j & Nj & _ & Ej & _). destruct (new_layer q' B) as (k & Nk & _ & Ek & _). rewrite Ej, Ek. rewrite <- E in *. destruct HM as (_ & _ & _ & _ & _ & _ & _ & Hs & _). pose proof (sorted_nth _ (Hs (gdepth G q)) j k q q' Nj Nk) as S. split; [intros L; right; split; [reflexivity|apply S; lia]|]. intros [L|(_ & L)]; [lia|]. apply S in L. lia.
    - pose proof (One q' q B A L). split; [lia|]. intros [L'|(L' & _)]; lia.
  Qed.
  Lemma new_vertex q : U q -> (new q < Z.of_nat (off P 1))%Z <-> gdepth G q = 0.
  Proof.
    intros Uq. destruct (new_layer q Uq) as (j & _ & _ & Ej & Lj). rewrite Ej. split.
    - intros L. destruct (gdepth G q) as [|d]; [reflexivity|exfalso]. pose proof (off_mono 1 (S d)). lia.
    - intros E. rewrite E in *. rewrite (off_S P 0). lia.
  Qed.
End Mapper.
