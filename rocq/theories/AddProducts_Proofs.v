From Coq Require Import List Arith Lia ZArith Permutation Bool.
Import ListNotations.
From Verif Require Import Base Kernel Group_Model Group_Spec Compress_Proofs Group_Proofs Append_Proofs
  Move_Model Add_Model Add_Spec Add_Proofs AddGroup_Proofs.

Lemma find_sym_nodup sp i sym nc : NoDup (map fst sp) -> nth_error sp i = Some (sym, nc) -> find_sym sym sp = Some i.
Proof.
  revert i; induction sp as [|[s m] sp IH]; intros [|i] ND E; try discriminate; cbn [nth_error find_sym map fst] in *.
  - injection E as -> ->. rewrite Nat.eqb_refl. auto.
  - inversion ND as [|? ? Hn ND']; subst. destruct (Nat.eqb_spec sym s) as [->|].
    + exfalso. apply Hn. apply nth_error_In in E. apply (in_map fst) in E. auto.
    + rewrite (IH i); auto.
Qed.

Lemma same_ncomp_refl sp : NoDup (map fst sp) -> same_ncomp sp sp.
Proof.
  intros ND sym nc j nc' Hi Ef Ej. apply In_nth_error in Hi. destruct Hi as [i Ei].
  rewrite (find_sym_nodup _ _ _ _ ND Ei) in Ef. injection Ef as <-. congruence.
Qed.

Lemma spec_contains_ncomp sp spm : NoDup (map fst sp) -> spec_contains sp spm = true -> same_ncomp sp spm.
Proof.
  intros ND Hc sym nc j nc' Hi Ef Ej. unfold spec_contains in Hc. rewrite forallb_forall in Hc.
  specialize (Hc _ (nth_error_In _ _ Ej)). apply existsb_exists in Hc. destruct Hc as [[s m] [Hin Hq]]. cbn in Hq.
  apply andb_true_iff in Hq. destruct Hq as [Q1 Q2]. apply Nat.eqb_eq in Q1, Q2. subst s m.
  apply In_nth_error in Hin, Hi. destruct Hin as [a Ea], Hi as [b Eb].
  pose proof (find_sym_nodup _ _ _ _ ND Ea) as F1. pose proof (find_sym_nodup _ _ _ _ ND Eb) as F2.
  rewrite F1 in F2. injection F2 as ->. congruence.
Qed.

Lemma row_entry_len {V} (zero : V) spm data n p (dflt : nat * nat -> list V) : (forall e, length (dflt e) = snd e) ->
  forall e : nat * nat, length (match find_sym (fst e) spm with
     | Some j => map (fun cx => nth ((list_sum (map snd (firstn j spm)) + cx) * n + p) data zero) (seq 0 (snd e))
     | None => dflt e end) = snd e.
Proof. intros L e. destruct (find_sym (fst e) spm); auto. rewrite map_length, seq_length. auto. Qed.

Lemma row_values_len {V} (zero : V) sp spm data n p dflt : (forall e, length (dflt e) = snd e) ->
  length (row_values zero sp spm data n p dflt) = list_sum (map snd sp).
Proof. intros L. apply flat_len. apply row_entry_len; auto. Qed.

Section PM.
  Context {V : Type} (zero : V) (sp spm psp : pspec) (data : list V) (n : nat).
  Context (np npp : list nat) (D pD : list (list (list V))) (pcells players cells : list Z).

  Definition dflt_none (e : nat * nat) : list V := repeat zero (snd e).
  Definition dflt_par (a : nat) (e : nat * nat) : list V := convert zero [e] psp (at_entry pD pcells players a).

  Lemma dflt_par_len a e : length (dflt_par a e) = snd e.
  Proof. unfold dflt_par. rewrite convert_len. cbn. lia. Qed.

  Lemma pm_source_some hp other i : same_ncomp sp spm -> i < length sp ->
    exists s, pm_source sp spm data hp other i = Some s.
  Proof.
    intros HN Hi. unfold pm_source, rd. destruct (nth_error_lt_some sp i Hi) as [[sym nc] Ei]. rewrite Ei. cbn [obind fst snd].
    destruct (find_sym sym spm) as [j|] eqn:Ef.
    - destruct (find_sym_some _ _ _ Ef) as [nc' Ej]. rewrite Ej. cbn [obind snd].
      rewrite (HN sym nc j nc' (nth_error_In _ _ Ei) Ef Ej), Nat.eqb_refl. cbn. eauto.
    - destruct hp; [|eauto]. destruct other as [[sp' src]|]; [|eauto]. destruct (find_sym sym sp'); eauto.
  Qed.

  Lemma pm_val (hp : bool) (other : option (pspec * list (list (list V)))) (dflt : nat * nat -> list V) m i a sym nc cx :
    same_ncomp sp spm -> length data = list_sum (map snd spm) * n -> a < n ->
    (forall e, length (dflt e) = snd e) ->
    nth_error sp i = Some (sym, nc) -> cx < nc ->
    (find_sym sym spm = None ->
       source_val zero sp n (fun _ => if hp then match other with
           | Some (sp', src) => match find_sym sym sp' with Some j => Some (from_other src (comp_offset sp' j)) | None => Some from_zero end
           | None => Some from_self end else Some from_zero) pcells players i a m cx = nth_error (dflt (sym, nc)) cx) ->
    source_val zero sp n (pm_source sp spm data hp other) pcells players i a m cx =
    nth_error (row_values zero sp spm data n a dflt) (comp_offset sp i + cx).
  Proof.
    intros HN Ld Ha Hd Ei Hcx Hn. unfold row_values.
    rewrite (flat_nth sp _ i (sym, nc)) by (auto; apply row_entry_len; auto).
    cbn [fst snd]. unfold source_val, pm_source. unfold rd at 1. rewrite Ei. cbn [obind fst snd].
    destruct (find_sym sym spm) as [j|] eqn:Ef.
    - destruct (find_sym_some _ _ _ Ef) as [nc' Ej]. unfold rd at 1. rewrite Ej. cbn [obind snd].
      pose proof (HN sym nc j nc' (nth_error_In _ _ Ei) Ef Ej) as Q.
      rewrite Q, Nat.eqb_refl. cbn [assert obind]. rewrite nth_error_map_seq. destruct (Nat.ltb_spec cx nc); [|lia].
      unfold rd. rewrite comp_offset_firstn. apply nth_error_nth'. rewrite Ld.
      pose proof (comp_offset_le _ _ _ _ Ej) as Le. rewrite comp_offset_firstn in Le. nia.
    - rewrite <- (Hn eq_refl). unfold source_val. reflexivity.
  Qed.

  Lemma pm_val_none m i a sym nc cx :
    same_ncomp sp spm -> length data = list_sum (map snd spm) * n -> a < n ->
    nth_error sp i = Some (sym, nc) -> cx < nc ->
    source_val zero sp n (pm_source sp spm data false None) pcells players i a m cx =
    nth_error (row_values zero sp spm data n a dflt_none) (comp_offset sp i + cx).
  Proof.
    intros HN Ld Ha Ei Hcx. eapply pm_val; eauto.
    - intros e. apply repeat_length.
    - intros _. cbn. symmetry. apply nth_error_repeat'. auto.
  Qed.

  Lemma pm_val_par other m i a sym nc cx :
    same_ncomp sp spm -> length data = list_sum (map snd spm) * n -> a < n ->
    (forall col, In col pD -> wf_comp npp col) -> spec_of psp pD -> same_ncomp sp psp ->
    old_rows np D m ->
    ((other = None /\ psp = sp /\ pD = D /\ npp = np /\ NoDup (map fst sp)) \/ other = Some (psp, pD)) ->
    (exists c l, nth_error pcells a = Some (Z.of_nat c) /\ nth_error players a = Some (Z.of_nat l) /\ In (c, l) (all_particles npp)) ->
    nth_error sp i = Some (sym, nc) -> cx < nc ->
    source_val zero sp n (pm_source sp spm data true other) pcells players i a m cx =
    nth_error (row_values zero sp spm data n a (dflt_par a)) (comp_offset sp i + cx).
  Proof.
    intros HN Ld Ha WP SP NP Om Hother [c [l [E1 [E2 Hin]]]] Ei Hcx.
    eapply pm_val; eauto; [apply dflt_par_len|]. intros Hno. unfold source_val, rd.
    assert (Eat : at_entry pD pcells players a = vals_at pD c l).
    { unfold at_entry. rewrite (nth_error_nth _ _ _ E1), (nth_error_nth _ _ _ E2), !Nat2Z.id. auto. }
    unfold dflt_par. rewrite Eat. change cx with (comp_offset [(sym, nc)] 0 + cx) at 3.
    destruct Hother as [[-> [-> [-> [-> ND]]]]| ->].
    - cbn [obind]. rewrite E1, E2. cbn [obind].
      destruct (Z.leb_spec 0 (Z.of_nat c)); [|lia]. destruct (Z.leb_spec 0 (Z.of_nat l)); [|lia]. cbn [andb assert obind].
      rewrite !Nat2Z.id.
      pose proof (find_sym_nodup _ _ _ _ ND Ei) as Fi.
      rewrite (convert_some zero [(sym, nc)] sp _ 0 sym nc i nc cx eq_refl Fi Ei eq_refl)
        by (auto; rewrite (vals_at_len np); auto).
      rewrite (old_rows_rd np D m _ _ _ Om Hin). apply (vals_at_rd3 np); auto. eapply comp_lt; eauto.
    - destruct (find_sym sym psp) as [j|] eqn:Ef.
      + destruct (find_sym_some _ _ _ Ef) as [nc' Ej].
        pose proof (NP sym nc j nc' (nth_error_In _ _ Ei) Ef Ej) as Q.
        cbn [obind]. rewrite E1, E2. cbn [obind].
        destruct (Z.leb_spec 0 (Z.of_nat c)); [|lia]. destruct (Z.leb_spec 0 (Z.of_nat l)); [|lia]. cbn [andb assert obind].
        rewrite !Nat2Z.id.
        rewrite (convert_some zero [(sym, nc)] psp _ 0 sym nc j nc' cx eq_refl Ef Ej Q)
          by (auto; rewrite (vals_at_len npp); auto).
        apply (vals_at_rd3 npp); auto. eapply comp_lt; eauto. lia.
      + cbn [obind]. rewrite (convert_none zero [(sym, nc)] psp _ 0 sym nc cx eq_refl Ef Hcx). auto.
  Qed.
End PM.

Lemma product_cells_model {R} cid_sym (pm : product_matrix R) par :
  length (pm_int pm) = list_sum (map snd (pm_specZ pm)) * pm_num pm -> cell_id_column_ok cid_sym pm ->
  (forall p, par = Some p -> find_sym cid_sym (pm_specZ pm) = None -> pm_num pm <= length (par_cells p)) ->
  (match find_sym cid_sym (pm_specZ pm) with
   | None => match par with None => Some (repeat 0%Z (pm_num pm)) | Some p => slice (par_cells p) 0 (pm_num pm) end
   | Some j => slice (pm_int pm) (pm_num pm * j) (pm_num pm * j + pm_num pm)
   end) = Some (product_cells cid_sym pm par) /\ length (product_cells cid_sym pm par) = pm_num pm.
Proof.
  intros Ld Hc Hp. unfold product_cells. destruct (find_sym cid_sym (pm_specZ pm)) as [j|] eqn:Ef.
  - destruct (Hc j Ef) as [[nc Ej] Hj]. rewrite Hj.
    pose proof (comp_offset_le _ _ _ _ Ej) as Le. rewrite comp_offset_firstn, Hj in Le.
    assert (pm_num pm * j + pm_num pm <= length (pm_int pm)) by (rewrite Ld; nia).
    rewrite slice_some by lia. replace (pm_num pm * j + pm_num pm - pm_num pm * j) with (pm_num pm) by lia.
    rewrite (Nat.mul_comm (pm_num pm) j). split; auto. rewrite firstn_length, skipn_length. lia.
  - destruct par as [p|].
    + specialize (Hp p eq_refl eq_refl). rewrite slice_some by lia. rewrite Nat.sub_0_r. cbn [skipn].
      split; auto. rewrite firstn_length. lia.
    + split; auto. apply repeat_length.
Qed.

Lemma appended_nil {R} (g : group R) new : wf_group g -> appended g g [] new.
Proof.
  intros WF. split; auto. intros c Hc. rewrite (cell_particles_vals g c WF Hc). eexists. exists []. split; [reflexivity|].
  split; [constructor|]. cbn. rewrite app_nil_r. auto.
Qed.

Lemma add_products_no_parents {R} d (zeroR : R) uR uZ spR spZ cid_sym g pm :
  device_ok d -> wf_group g -> spec_of spR (reals (st g)) -> spec_of spZ (ints (st g)) ->
  NoDup (map fst spR) -> NoDup (map fst spZ) -> pm_ok spR spZ pm -> cell_id_column_ok cid_sym pm ->
  exists g', add_product_matrix d zeroR uR uZ spR spZ cid_sym g pm None = Some g' /\ wf_group g' /\
    appended g g' (product_cells cid_sym pm None)
      (fun i => (row_values zeroR spR (pm_specR pm) (pm_real pm) (pm_num pm) i (fun e => repeat zeroR (snd e)),
                 row_values 0%Z spZ (pm_specZ pm) (pm_int pm) (pm_num pm) i (fun e => repeat 0%Z (snd e)))).
Proof.
  intros Ok WF SR SZ NDR NDZ [C1 [C2 [L1 L2]]] Hc. unfold add_product_matrix.
  rewrite C1, C2. cbn [andb assert obind].
  destruct (product_cells_model cid_sym pm None L2 Hc) as [Ec Lc]; [discriminate|].
  destruct (Nat.eqb_spec (pm_num pm) 0) as [H0|H0].
  - exists g. split; [auto|]. split; [auto|]. rewrite H0 in Lc. apply length_zero_iff_nil in Lc. rewrite Lc.
    apply appended_nil; auto.
  - rewrite Ec. cbn [obind option_map].
    apply entries_appended; auto.
    + apply freshZ_length.
    + intros a. rewrite row_values_len; auto. intros e. apply repeat_length.
    + intros a. rewrite row_values_len; auto. intros e. apply repeat_length.
    + intros i Hi. apply pm_source_some; auto. apply spec_contains_ncomp; auto.
    + intros i Hi. apply pm_source_some; auto. apply spec_contains_ncomp; auto.
    + intros m i a sym nc cx _ Ha _ Ei Hcx. eapply pm_val_none; eauto. apply spec_contains_ncomp; auto.
    + intros m i a sym nc cx _ Ha _ Ei Hcx. eapply pm_val_none; eauto. apply spec_contains_ncomp; auto.
Qed.

Lemma add_products_parents {R} d (zeroR : R) uR uZ spR spZ cid_sym g pm par pspR pspZ pg :
  device_ok d -> wf_group g -> spec_of spR (reals (st g)) -> spec_of spZ (ints (st g)) ->
  NoDup (map fst spR) -> NoDup (map fst spZ) -> pm_ok spR spZ pm -> cell_id_column_ok cid_sym pm ->
  wf_group pg -> spec_of pspR (reals (st pg)) -> spec_of pspZ (ints (st pg)) ->
  same_ncomp spR pspR -> same_ncomp spZ pspZ ->
  length (par_cells par) = pm_num pm ->
  parents_ok spR spZ g par pspR pspZ pg (length (npart_cell g)) (product_cells cid_sym pm (Some par)) ->
  exists g', add_product_matrix d zeroR uR uZ spR spZ cid_sym g pm (Some par) = Some g' /\ wf_group g' /\
    exists new, appended g g' (product_cells cid_sym pm (Some par)) new /\
    forall i z, nth_error (product_cells cid_sym pm (Some par)) i = Some z ->
      (0 <= z < Z.of_nat (length (npart_cell g)))%Z ->
      exists c l p, nth_error (par_cells par) i = Some (Z.of_nat c) /\ nth_error (par_layers par) i = Some (Z.of_nat l) /\
        particle_at (st pg) c l = Some p /\
        new i = (row_values zeroR spR (pm_specR pm) (pm_real pm) (pm_num pm) i (fun e => convert zeroR [e] pspR (fst p)),
                 row_values 0%Z spZ (pm_specZ pm) (pm_int pm) (pm_num pm) i (fun e => convert 0%Z [e] pspZ (snd p))).
Proof.
  intros Ok WF SR SZ NDR NDZ [C1 [C2 [L1 L2]]] Hc WP SPR SPZ NPR NPZ Lp [Hpg Hpar].
  set (cells := product_cells cid_sym pm (Some par)) in *.
  set (newR := fun i => row_values zeroR spR (pm_specR pm) (pm_real pm) (pm_num pm) i
                 (dflt_par zeroR pspR (reals (st pg)) (par_cells par) (par_layers par) i)).
  set (newZ := fun i => row_values 0%Z spZ (pm_specZ pm) (pm_int pm) (pm_num pm) i
                 (dflt_par 0%Z pspZ (ints (st pg)) (par_cells par) (par_layers par) i)).
  assert (Hfin : forall i z, nth_error cells i = Some z -> (0 <= z < Z.of_nat (length (npart_cell g)))%Z ->
      exists c l p, nth_error (par_cells par) i = Some (Z.of_nat c) /\ nth_error (par_layers par) i = Some (Z.of_nat l) /\
        particle_at (st pg) c l = Some p /\
        (newR i, newZ i) =
          (row_values zeroR spR (pm_specR pm) (pm_real pm) (pm_num pm) i (fun e => convert zeroR [e] pspR (fst p)),
                 row_values 0%Z spZ (pm_specZ pm) (pm_int pm) (pm_num pm) i (fun e => convert 0%Z [e] pspZ (snd p)))).
  { intros i z Ez Hz. destruct (Hpar i z Ez Hz) as [c [l [E1 [E2 Hin]]]]. exists c, l. eexists.
    split; [auto|]. split; [auto|]. split; [apply particle_at_vals; auto|]. cbn [fst snd].
    unfold newR, newZ, dflt_par, at_entry.
    rewrite (nth_error_nth _ _ _ E1), (nth_error_nth _ _ _ E2), !Nat2Z.id. auto. }
  unfold add_product_matrix. rewrite C1, C2. cbn [andb assert obind].
  destruct (product_cells_model cid_sym pm (Some par) L2 Hc) as [Ec Lc]; [intros p [= <-] _; lia|].
  fold cells in Ec, Lc.
  destruct (Nat.eqb_spec (pm_num pm) 0) as [H0|H0].
  - exists g. split; [auto|]. split; [auto|]. rewrite H0 in Lc. apply length_zero_iff_nil in Lc.
    exists (fun i => (newR i, newZ i)). split; [rewrite Lc; apply appended_nil; auto|exact Hfin].
  - rewrite Ec. cbn [obind].
    destruct (entries_appended d zeroR uR uZ spR spZ g (pm_num pm) 1000 2000
      (pm_source spR (pm_specR pm) (pm_real pm) true (option_map (fun q => (fst (fst q), reals (snd q))) (par_group par)))
      (pm_source spZ (pm_specZ pm) (pm_int pm) true (option_map (fun q => (snd (fst q), ints (snd q))) (par_group par)))
      cells (par_cells par) (par_layers par) newR newZ (freshZ d 201 (pm_num pm))) as [g' [E [W A]]]; auto.
    + apply freshZ_length.
    + intros a. unfold newR. rewrite row_values_len; auto. intros e. apply dflt_par_len.
    + intros a. unfold newZ. rewrite row_values_len; auto. intros e. apply dflt_par_len.
    + intros i Hi. apply pm_source_some; auto. apply spec_contains_ncomp; auto.
    + intros i Hi. apply pm_source_some; auto. apply spec_contains_ncomp; auto.
    + intros m i a sym nc cx Om Ha Hv Ei Hcx.
      eapply (pm_val_par zeroR spR (pm_specR pm) pspR (pm_real pm) (pm_num pm) (npart_cell g) (npart_cell pg)
        (reals (st g)) (reals (st pg)) (par_cells par) (par_layers par)); eauto.
      * apply spec_contains_ncomp; auto.
      * apply WP.
      * destruct Hpg as [[-> [-> [-> ->]]]| ->]; [left; auto|right; auto].
      * destruct (nth_error_lt_some cells a) as [z Ez]; [lia|]. apply (Hpar a z Ez). apply valid_cell_spec. auto.
    + intros m i a sym nc cx Om Ha Hv Ei Hcx.
      eapply (pm_val_par 0%Z spZ (pm_specZ pm) pspZ (pm_int pm) (pm_num pm) (npart_cell g) (npart_cell pg)
        (ints (st g)) (ints (st pg)) (par_cells par) (par_layers par)); eauto.
      * apply spec_contains_ncomp; auto.
      * apply WP.
      * destruct Hpg as [[-> [-> [-> ->]]]| ->]; [left; auto|right; auto].
      * destruct (nth_error_lt_some cells a) as [z Ez]; [lia|]. apply (Hpar a z Ez). apply valid_cell_spec. auto.
    + exists g'. split; [exact E|]. split; [auto|]. exists (fun i => (newR i, newZ i)). split; [exact A|exact Hfin].
Qed.
