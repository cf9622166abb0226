From Coq Require Import List Arith Lia ZArith Permutation Bool.
Import ListNotations.
From Verif Require Import Base Kernel Group_Model Group_Spec Compress_Proofs Group_Proofs Append_Proofs
  Move_Model Add_Model Add_Spec Add_Proofs.

Definition vals_at {V} (D : list (list (list V))) (c l : nat) : list V :=
  match mapM (fun col => rd2 col c l) D with Some v => v | None => [] end.

Lemma vals_at_rd3 {V} np (D : list (list (list V))) c l f :
  (forall col, In col D -> wf_comp np col) -> In (c, l) (all_particles np) -> f < length D ->
  rd3 D f c l = nth_error (vals_at D c l) f.
Proof.
  intros WF Hin Hf. apply in_all_particles in Hin. destruct Hin as [n [En Hl]].
  unfold vals_at. rewrite mapM_cols.
  destruct (mapM_total (fun f => rd3 D f c l) (seq 0 (length D))) as [r Er].
  { intros g Hg. apply in_seq in Hg. eapply (wf_rd3' np D WF); eauto; lia. }
  rewrite Er. apply (mapM_nth _ _ _ f f Er). rewrite nth_error_seq.
  destruct (Nat.ltb_spec f (length D)); [auto|lia].
Qed.

Lemma vals_at_len {V} np (D : list (list (list V))) c l :
  (forall col, In col D -> wf_comp np col) -> In (c, l) (all_particles np) -> length (vals_at D c l) = length D.
Proof.
  intros WF Hin. apply in_all_particles in Hin. destruct Hin as [n [En Hl]].
  unfold vals_at. rewrite mapM_cols.
  destruct (mapM_total (fun f => rd3 D f c l) (seq 0 (length D))) as [r Er].
  { intros g Hg. apply in_seq in Hg. eapply (wf_rd3' np D WF); eauto; lia. }
  rewrite Er, (mapM_length _ _ _ Er), seq_length. auto.
Qed.

Lemma particle_at_vals {R} (g : group R) c l : wf_group g -> In (c, l) (all_particles (npart_cell g)) ->
  particle_at (st g) c l = Some (vals_at (reals (st g)) c l, vals_at (ints (st g)) c l).
Proof.
  intros WF Hin. pose proof Hin as Hin'. apply in_all_particles in Hin. destruct Hin as [n [En Hl]].
  destruct (wf_particle_at g c l n WF En Hl) as [p Ep]. unfold particle_at, vals_at in *.
  destruct (mapM _ (reals (st g))); [|discriminate]. destruct (mapM _ (ints (st g))); [auto|discriminate].
Qed.

Lemma prop_value_nth {V} (zero : V) sp vs j cx nm nc : nth_error sp j = Some (nm, nc) -> cx < nc ->
  length vs = list_sum (map snd sp) -> nth_error vs (comp_offset sp j + cx) = Some (prop_value zero sp vs j cx).
Proof.
  intros Ej Hcx L. unfold prop_value. rewrite <- comp_offset_firstn. apply nth_error_nth'.
  rewrite L. pose proof (comp_offset_le _ _ _ _ Ej). lia.
Qed.

Lemma convert_entry_len {V} (zero : V) sp' vs (e : nat * nat) :
  length (match find_sym (fst e) sp' with
          | Some j => map (prop_value zero sp' vs j) (seq 0 (snd e))
          | None => repeat zero (snd e) end) = snd e.
Proof. destruct (find_sym (fst e) sp'); [rewrite map_length, seq_length; auto|apply repeat_length]. Qed.

Lemma convert_len {V} (zero : V) sp sp' vs : length (convert zero sp sp' vs) = list_sum (map snd sp).
Proof. apply flat_len. intros e. apply convert_entry_len. Qed.

Lemma convert_some {V} (zero : V) sp sp' vs i sym nc j nc' cx :
  nth_error sp i = Some (sym, nc) -> find_sym sym sp' = Some j -> nth_error sp' j = Some (sym, nc') -> nc' = nc ->
  length vs = list_sum (map snd sp') -> cx < nc ->
  nth_error (convert zero sp sp' vs) (comp_offset sp i + cx) = nth_error vs (comp_offset sp' j + cx).
Proof.
  intros Ei Ef Ej -> L Hcx. unfold convert. rewrite (flat_nth sp _ i (sym, nc)) by (auto; apply convert_entry_len).
  cbn [fst snd]. rewrite Ef, nth_error_map_seq. destruct (Nat.ltb_spec cx nc); [|lia].
  symmetry. eapply prop_value_nth; eauto.
Qed.

Lemma convert_none {V} (zero : V) sp sp' vs i sym nc cx :
  nth_error sp i = Some (sym, nc) -> find_sym sym sp' = None -> cx < nc ->
  nth_error (convert zero sp sp' vs) (comp_offset sp i + cx) = Some zero.
Proof.
  intros Ei Ef Hcx. unfold convert. rewrite (flat_nth sp _ i (sym, nc)) by (auto; apply convert_entry_len).
  cbn [fst snd]. rewrite Ef. apply nth_error_repeat'; auto.
Qed.

(** ** Matching properties by name *)
Lemma match_dats_correct sp sp' :
  (forall i, i < length sp -> In i (map fst (fst (match_dats sp sp'))) \/ In i (snd (match_dats sp sp'))) /\
  (forall i j, In (i, j) (fst (match_dats sp sp')) -> exists sym nc, nth_error sp i = Some (sym, nc) /\ find_sym sym sp' = Some j) /\
  (forall i, In i (snd (match_dats sp sp')) -> exists sym nc, nth_error sp i = Some (sym, nc) /\ find_sym sym sp' = None).
Proof.
  unfold match_dats.
  set (f := fun (s : list (nat * nat) * list nat) i => _).
  assert (G : forall l s, (forall i, In i l -> i < length sp) ->
    (forall i j, In (i, j) (fst s) -> exists sym nc, nth_error sp i = Some (sym, nc) /\ find_sym sym sp' = Some j) ->
    (forall i, In i (snd s) -> exists sym nc, nth_error sp i = Some (sym, nc) /\ find_sym sym sp' = None) ->
    (forall i, In i l \/ In i (map fst (fst s)) \/ In i (snd s) ->
       In i (map fst (fst (fold_left f l s))) \/ In i (snd (fold_left f l s))) /\
    (forall i j, In (i, j) (fst (fold_left f l s)) -> exists sym nc, nth_error sp i = Some (sym, nc) /\ find_sym sym sp' = Some j) /\
    (forall i, In i (snd (fold_left f l s)) -> exists sym nc, nth_error sp i = Some (sym, nc) /\ find_sym sym sp' = None)).
  { induction l as [|x l IH]; intros s Hl H1 H2; cbn [fold_left].
    - split; [|auto]. intros i [[]|H]; auto.
    - destruct (nth_error_lt_some sp x) as [[sym nc] Ex]; [apply Hl; left; auto|].
      assert (Hl' : forall i, In i l -> i < length sp) by (intros; apply Hl; right; auto).
      unfold f at 2 4 6 8. rewrite Ex. cbn [fst]. destruct (find_sym sym sp') as [j|] eqn:Ef.
      + destruct (IH (fst s ++ [(x, j)], snd s) Hl') as [A [B C]]; cbn [fst snd] in *; auto.
        { intros i k Hi. apply in_app_or in Hi. destruct Hi as [Hi|[[= <- <-]|[]]]; eauto. }
        split; [|split; auto]. intros i Hi. apply A. rewrite map_app, in_app_iff. cbn.
        destruct Hi as [[->|Hi]|[Hi|Hi]]; tauto.
      + destruct (IH (fst s, snd s ++ [x]) Hl') as [A [B C]]; cbn [fst snd] in *; auto.
        { intros i Hi. apply in_app_or in Hi. destruct Hi as [Hi|[<-|[]]]; eauto. }
        split; [|split; auto]. intros i Hi. apply A. rewrite in_app_iff. cbn.
        destruct Hi as [[->|Hi]|[Hi|Hi]]; tauto. }
  destruct (G (seq 0 (length sp)) ([], [])) as [A [B C]]; try (cbn; tauto).
  { intros i Hi. apply in_seq in Hi. lia. }
  split; [|split; auto]. intros i Hi. apply A. left. apply in_seq. lia.
Qed.

Lemma test_dat_ok sp sp' : same_ncomp sp sp' -> test_dat sp sp' = Some tt.
Proof.
  intros Hs. unfold test_dat. assert (forall l s, (forall e, In e l -> In e sp) ->
    foldM (fun _ e => match find_sym (fst e) sp' with Some j => e' <- rd sp' j ;; assert (snd e =? snd e') | None => Some tt end) s l = Some tt) as G; [|auto].
  induction l as [|[sym nc] l IH]; intros [] Hl; cbn [foldM fst snd]; auto.
  destruct (find_sym sym sp') as [j|] eqn:E; cbn [obind].
  - destruct (find_sym_some _ _ _ E) as [nc' Ej]. unfold rd. rewrite Ej. cbn [obind snd].
    rewrite (Hs sym nc j nc'); auto; [|apply Hl; left; auto]. rewrite Nat.eqb_refl. cbn [assert obind].
    apply IH. intros; apply Hl; right; auto.
  - apply IH. intros; apply Hl; right; auto.
Qed.

Lemma test_dat_bad sp sp' sym nc j nc' : In (sym, nc) sp -> find_sym sym sp' = Some j ->
  nth_error sp' j = Some (sym, nc') -> nc' <> nc -> test_dat sp sp' = None.
Proof.
  intros Hi Ef Ej Hn. unfold test_dat.
  apply (foldM_unit_none (fun e => match find_sym (fst e) sp' with
     | Some j => e' <- rd sp' j ;; assert (snd e =? snd e') | None => Some tt end) sp (sym, nc)); auto.
  cbn [fst snd]. rewrite Ef. unfold rd. rewrite Ej. cbn [obind snd].
  destruct (Nat.eqb_spec nc nc'); [congruence|auto].
Qed.

(** ** Adding a group *)
Section GroupWrite.
  Context {V : Type} (d : device) (Ok : device_ok d) (zero : V) (sp sp' : pspec) (k : nat).
  Context (u : nat -> nat -> nat -> V) (np nps np' : list nat) (D src : list (list (list V))).

  Definition cell_entries (c : nat) : list (nat * nat) := map (pair c) (seq 0 (nth c nps 0)).

  Lemma group_write_correct :
    (forall col, In col D -> wf_comp np col) -> spec_of sp D ->
    (forall col, In col src -> wf_comp nps col) -> spec_of sp' src ->
    same_ncomp sp sp' -> length nps = length np -> length np' = length np ->
    (forall c n, nth_error np c = Some n -> nth_error np' c = Some (n + nth c nps 0)) ->
    exists D1, foldM (group_copy_item sp sp' zero (fst (match_dats sp sp')) (snd (match_dats sp sp')) np src)
                 (realloc_rows u np' D) (ord d k (all_particles nps)) = Some D1 /\
      length D1 = length D /\ (forall col, In col D1 -> wf_comp np' col) /\ old_rows np D D1 /\
      (forall f c n' k a, f < length D -> nth_error np c = Some n' -> nth_error (cell_entries c) k = Some a ->
         rd3 D1 f c (n' + k) = nth_error (convert zero sp sp' (vals_at src (fst a) (snd a))) f).
  Proof.
    intros WF Hsp WFs Hsp' Hnc Ls Lnp Hnp.
    destruct (match_dats_correct sp sp') as [S1 [S2 S3]].
    set (copies := fst (match_dats sp sp')) in *. set (zeros := snd (match_dats sp sp')) in *.
    set (cellof := fun w : nat * nat => fst w). set (layof := fun w : nat * nat => nth (fst w) np 0 + snd w).
    set (vals := fun i (w : nat * nat) (_ : list (list (list V))) cx =>
                   nth_error (convert zero sp sp' (vals_at src (fst w) (snd w))) (comp_offset sp i + cx)).
    set (blk := fun w : nat * nat => map (fun e : nat * nat => (fst e, w)) copies ++ map (fun i : nat => (i, w)) zeros).
    assert (Hw : forall w, In w (ord d k (all_particles nps)) -> In w (all_particles nps)).
    { intros w. apply in_ord; auto. }
    assert (Ef : foldM (group_copy_item sp sp' zero copies zeros np src) (realloc_rows u np' D) (ord d k (all_particles nps)) =
                 foldM (kitem sp cellof layof (fun _ => true) vals) (realloc_rows u np' D)
                   (flat_map blk (ord d k (all_particles nps)))).
    { rewrite <- foldM_flat. apply foldM_ext_in. intros m [c l] Hi. apply Hw in Hi.
      pose proof (proj1 (in_all_particles _ _ _) Hi) as [ns [En Hl]].
      destruct (nth_error_lt_some np c) as [n Enp]; [pose proof (nth_error_some_lt _ _ _ En); lia|].
      unfold group_copy_item, blk, rd. cbn [fst snd]. rewrite Enp. cbn [obind].
      rewrite foldM_app, foldM_map.
      assert (Ela : layof (c, l) = n + l). { unfold layof. cbn. rewrite (nth_error_nth _ _ _ Enp). auto. }
      rewrite (foldM_ext_in _ (fun s (a : nat * nat) => kitem sp cellof layof (fun _ => true) vals s (fst a, (c, l)))).
      - destruct (foldM _ m copies); cbn [obind]; auto. rewrite foldM_map. apply foldM_ext_in.
        intros m' i Hiz. destruct (S3 _ Hiz) as [sym [nc [E1 E2]]].
        unfold kitem. cbn [fst snd]. rewrite Ela. unfold write_dat, rd. rewrite nth_error_map, E1. cbn [option_map obind snd].
        apply foldM_ext_in. intros m2 cx Hcx. apply in_seq in Hcx. unfold vals.
        rewrite (convert_none zero sp sp' _ i sym nc cx) by (auto; lia). auto.
      - intros m' [i j] Hij. destruct (S2 _ _ Hij) as [sym [nc [E1 E2]]].
        destruct (find_sym_some _ _ _ E2) as [nc' Ej].
        pose proof (Hnc sym nc j nc' (nth_error_In _ _ E1) E2 Ej) as Q.
        unfold kitem. cbn [fst snd]. rewrite Ela. unfold write_dat, rd. rewrite nth_error_map, E1. cbn [option_map obind snd].
        apply foldM_ext_in. intros m2 cx Hcx. apply in_seq in Hcx. unfold vals. cbn [fst snd].
        rewrite (convert_some zero sp sp' _ i sym nc j nc' cx E1 E2 Ej Q) by (try rewrite (vals_at_len nps); auto; lia).
        rewrite (vals_at_rd3 nps); auto.
        rewrite <- Hsp'. pose proof (comp_offset_le _ _ _ _ Ej). lia. }
    rewrite Ef. apply (append_props u np np' D sp cell_entries (fun w => convert zero sp sp' (vals_at src (fst w) (snd w)))); auto.
    - intros c n En. unfold cell_entries. rewrite map_length, seq_length. auto.
    - intros a. rewrite convert_len. auto.
    - intros c j [c' l'] Hj. unfold cell_entries in Hj. rewrite nth_error_map, nth_error_seq in Hj.
      destruct (Nat.ltb_spec j (nth c nps 0)) as [Hlt|]; [|discriminate]. cbn in Hj. injection Hj as <- <-.
      split; [auto|]. split; [auto|].
      destruct (lt_dec c (length nps)) as [Hc|Hc]; [|rewrite nth_overflow in Hlt by lia; lia].
      destruct (nth_error_lt_some np c) as [n En]; [lia|]. exists n; split; auto.
      unfold layof. cbn. rewrite (nth_error_nth _ _ _ En). auto.
    - intros i w Hi. apply in_flat_map in Hi. destruct Hi as [w' [Hw' Hi]]. apply Hw in Hw'.
      assert (w' = w /\ i < length sp) as [-> Hlt].
      { unfold blk in Hi. apply in_app_or in Hi. destruct Hi as [Hi|Hi]; apply in_map_iff in Hi.
        - destruct Hi as [[i' j] [[= <- <-] Hi]]. destruct (S2 _ _ Hi) as [? [? [E _]]].
          split; auto. eapply nth_error_some_lt; eauto.
        - destruct Hi as [i' [[= <- <-] Hi]]. destruct (S3 _ Hi) as [? [? [E _]]].
          split; auto. eapply nth_error_some_lt; eauto. }
      split; auto. intros _. destruct w as [c l]. pose proof (proj1 (in_all_particles _ _ _) Hw') as [n [En Hl]].
      exists l. unfold cell_entries, cellof. cbn [fst]. rewrite nth_error_map, nth_error_seq, (nth_error_nth _ _ _ En).
      destruct (Nat.ltb_spec l n); [auto|lia].
    - intros i c w Hi Hc Hin. unfold cell_entries in Hin. apply in_map_iff in Hin. destruct Hin as [l [<- Hl]]. apply in_seq in Hl.
      apply in_flat_map. exists (c, l). split.
      + apply (proj2 (in_ord d _ _ _ Ok)). apply in_all_particles. exists (nth c nps 0). split; [apply nth_error_nth'; lia|lia].
      + unfold blk. apply in_or_app. destruct (S1 i Hi) as [Hm|Hz].
        * left. apply in_map_iff in Hm. destruct Hm as [[i' j] [Q Hm]]. cbn in Q. subst i'.
          apply in_map_iff. exists (i, j). auto.
        * right. apply in_map_iff. exists i. auto.
  Qed.
End GroupWrite.

Lemma mapM_sum np nps : length np = length nps ->
  exists np', mapM (fun c => a <- rd np c ;; b <- rd nps c ;; Some (a + b)) (seq 0 (length np)) = Some np' /\
    length np' = length np /\ forall c n, nth_error np c = Some n -> nth_error np' c = Some (n + nth c nps 0).
Proof.
  intros L. exists (map (fun c => nth c np 0 + nth c nps 0) (seq 0 (length np))). split; [|split].
  - apply mapM_some. intros c Hc. apply in_seq in Hc. unfold rd.
    rewrite (nth_error_nth' np 0), (nth_error_nth' nps 0) by lia. auto.
  - rewrite map_length, seq_length. auto.
  - intros c n En. rewrite nth_error_map_seq. pose proof (nth_error_some_lt _ _ _ En).
    destruct (Nat.ltb_spec c (length np)); [|lia]. rewrite (nth_error_nth _ _ _ En). auto.
Qed.

Lemma cell_particles_vals {R} (g : group R) c : wf_group g -> c < length (npart_cell g) ->
  cell_particles g c = Some (map (fun w => (vals_at (reals (st g)) (fst w) (snd w), vals_at (ints (st g)) (fst w) (snd w)))
                                 (cell_entries (npart_cell g) c)).
Proof.
  intros WF Hc. destruct (nth_error_lt_some _ _ Hc) as [n En]. unfold cell_particles, cell_entries.
  rewrite En, (nth_error_nth _ _ _ En). cbn [obind].
  rewrite (mapM_some _ (fun l => (vals_at (reals (st g)) c l, vals_at (ints (st g)) c l))).
  - rewrite map_map. auto.
  - intros l Hl. apply in_seq in Hl. apply particle_at_vals; auto. apply in_all_particles. exists n. split; auto; lia.
Qed.

Lemma add_group_correct {R} d (zeroR : R) uR uZ spR spZ g spR' spZ' gs :
  device_ok d -> wf_group g -> wf_group gs -> length (npart_cell gs) = length (npart_cell g) ->
  spec_of spR (reals (st g)) -> spec_of spZ (ints (st g)) ->
  spec_of spR' (reals (st gs)) -> spec_of spZ' (ints (st gs)) ->
  same_ncomp spR spR' -> same_ncomp spZ spZ' ->
  exists g', add_group d zeroR uR uZ spR spZ g spR' spZ' gs = Some g' /\ wf_group g' /\
    length (npart_cell g') = length (npart_cell g) /\
    forall c, c < length (npart_cell g) -> exists old src,
      cell_particles g c = Some old /\ cell_particles gs c = Some src /\
      cell_particles g' c = Some (old ++ map (fun p => (convert zeroR spR spR' (fst p), convert 0%Z spZ spZ' (snd p))) src).
Proof.
  intros Ok WF WFs Ls SR SZ SR' SZ' NR NZ. unfold add_group.
  rewrite Ls, Nat.eqb_refl. cbn [assert obind]. rewrite !test_dat_ok by auto. cbn [obind].
  destruct (mapM_sum (npart_cell g) (npart_cell gs)) as [np' [E [L1 Hnp]]]; [auto|]. rewrite E. cbn [obind].
  destruct (group_write_correct d Ok zeroR spR spR' 220 uR (npart_cell g) (npart_cell gs) np' (reals (st g)) (reals (st gs)))
    as [D1 [E1 [A1 [A2 [A3 A4]]]]]; auto; [apply WF|apply WFs|].
  destruct (group_write_correct d Ok 0%Z spZ spZ' 220 uZ (npart_cell g) (npart_cell gs) np' (ints (st g)) (ints (st gs)))
    as [D2 [E2 [B1 [B2 [B3 B4]]]]]; auto; [apply WF|apply WFs|].
  rewrite E1, E2. cbn [obind]. eexists. split; [reflexivity|]. split; [split; auto|]. split; [auto|].
  intros c Hc.
  destruct (append_cells g (mk_group (mk_store D1 D2) np') (cell_entries (npart_cell gs))
     (fun a => convert zeroR spR spR' (vals_at (reals (st gs)) (fst a) (snd a)))
     (fun a => convert 0%Z spZ spZ' (vals_at (ints (st gs)) (fst a) (snd a)))) with (c := c) as [old [Eo En]];
     cbn [st npart_cell reals ints]; auto.
  - intros a. rewrite convert_len. auto.
  - intros a. rewrite convert_len. auto.
  - intros c' n En. unfold cell_entries. rewrite map_length, seq_length. auto.
  - exists old. eexists. split; [auto|]. split; [apply cell_particles_vals; auto; lia|].
    rewrite En, map_map. auto.
Qed.

(** ** Entries with destinations from get_new_layers *)
Definition source_val {V} (zero : V) (sp : pspec) (n : nat) (src : nat -> option (source V)) (scells slayers : list Z)
    (i idx : nat) (D : list (list (list V))) (cx : nat) : option V :=
  s <- src i ;;
  match s with
  | from_zero => Some zero
  | from_data data off => rd data ((off + cx) * n + idx)
  | from_other src off =>
      c <- rd scells idx ;; l <- rd slayers idx ;;
      _ <- assert ((0 <=? c) && (0 <=? l))%Z ;;
      rd3 src (off + cx) (Z.to_nat c) (Z.to_nat l)
  | from_self =>
      c <- rd scells idx ;; l <- rd slayers idx ;;
      _ <- assert ((0 <=? c) && (0 <=? l))%Z ;;
      rd3 D (comp_offset sp i + cx) (Z.to_nat c) (Z.to_nat l)
  end.

Section Entries.
  Context {V : Type} (d : device) (Ok : device_ok d) (zero : V) (sp : pspec) (n k : nat).
  Context (u : nat -> nat -> nat -> V) (np np' : list nat) (D : list (list (list V))).
  Context (src : nat -> option (source V)) (cells layers scells slayers : list Z) (new : nat -> list V).

  Lemma entries_write_correct :
    (forall col, In col D -> wf_comp np col) -> spec_of sp D ->
    length cells = n -> length np' = length np -> length layers = length cells ->
    (forall i z, nth_error cells i = Some z -> valid_cell (length np) z = false -> nth_error layers i = Some (-1)%Z) ->
    (forall c n, nth_error np c = Some n -> nth_error np' c = Some (n + length (layer_order d cells c)) /\
       forall k i, nth_error (layer_order d cells c) k = Some i -> nth_error layers i = Some (Z.of_nat (n + k))) ->
    (forall a, length (new a) = length D) ->
    (forall i, i < length sp -> exists s, src i = Some s) ->
    (forall m i a sym nc cx, old_rows np D m -> a < n ->
       (forall z, nth_error cells a = Some z -> valid_cell (length np) z = true) ->
       nth_error sp i = Some (sym, nc) -> cx < nc ->
       source_val zero sp n src scells slayers i a m cx = nth_error (new a) (comp_offset sp i + cx)) ->
    exists D1, entries_write d zero sp n src cells layers scells slayers k (realloc_rows u np' D) = Some D1 /\
      length D1 = length D /\ (forall col, In col D1 -> wf_comp np' col) /\ old_rows np D D1 /\
      (forall f c n' k a, f < length D -> nth_error np c = Some n' -> nth_error (layer_order d cells c) k = Some a ->
         rd3 D1 f c (n' + k) = nth_error (new a) f).
  Proof.
    intros WF Hsp Lc Lnp Ll HI HV Hnew Hsrc Hval.
    set (cellof := fun a => Z.to_nat (nth a cells 0%Z)). set (layof := fun a => Z.to_nat (nth a layers 0%Z)).
    set (active := fun a => (-1 <? nth a layers 0)%Z).
    set (items := flat_map (fun i => map (pair i) (ord d (k + i) (seq 0 n))) (seq 0 (length sp))).
    assert (Hask : forall a c, In a (layer_order d cells c) <-> nth_error cells a = Some (Z.of_nat c)).
    { intros a c. rewrite <- in_entries. split; apply Permutation_in; [|symmetry]; apply layer_order_perm; auto. }
    assert (Ef : entries_write d zero sp n src cells layers scells slayers k (realloc_rows u np' D) =
                 foldM (kitem sp cellof layof active (source_val zero sp n src scells slayers)) (realloc_rows u np' D) items).
    { unfold entries_write, items. rewrite <- foldM_flat. apply foldM_ext_in. intros m i Hi. apply in_seq in Hi.
      rewrite foldM_map. destruct (Hsrc i) as [s Es]; [lia|]. rewrite Es. cbn [obind].
      apply foldM_ext_in. intros m' a Ha. apply (proj1 (in_ord d _ _ _ Ok)) in Ha. apply in_seq in Ha.
      unfold entry_item, kitem, rd at 1 2. cbn [fst snd].
      rewrite (nth_error_nth' cells 0%Z), (nth_error_nth' layers 0%Z) by lia. cbn [obind].
      unfold active, cellof, layof. destruct (-1 <? nth a layers 0)%Z; auto.
      unfold write_dat. destruct (rd (map snd sp) i); cbn [obind]; auto.
      apply foldM_ext_in. intros m2 cx _. unfold source_val. rewrite Es. cbn [obind]. reflexivity. }
    (* an entry is active exactly when its cell exists *)
    assert (Hact : forall a, a < n -> active a = true -> exists c, nth_error cells a = Some (Z.of_nat c) /\ c < length np).
    { intros a Ha Hac. destruct (nth_error_lt_some cells a) as [z Ez]; [lia|].
      destruct (valid_cell (length np) z) eqn:Ev.
      - apply valid_cell_spec in Ev. exists (Z.to_nat z). split; [rewrite Ez; f_equal; lia|lia].
      - pose proof (HI a z Ez Ev) as Q. unfold active in Hac. rewrite (nth_error_nth _ _ _ Q) in Hac. discriminate. }
    set (E := fun c => if c <? length np then layer_order d cells c else []).
    assert (HE : forall c, c < length np -> E c = layer_order d cells c).
    { intros c Hc. unfold E. destruct (Nat.ltb_spec c (length np)); [auto|lia]. }
    assert (Hit : forall i a, In (i, a) items <-> i < length sp /\ a < n).
    { intros i a. unfold items. rewrite in_flat_map. split.
      - intros [i' [Hi' Hp]]. apply in_map_iff in Hp. destruct Hp as [a' [[= <- <-] Hp]].
        apply (proj1 (in_ord d _ _ _ Ok)) in Hp. apply in_seq in Hp, Hi'. lia.
      - intros [Hi Ha]. exists i. split; [apply in_seq; lia|]. apply in_map_iff. exists a. split; auto.
        apply (proj2 (in_ord d _ _ _ Ok)). apply in_seq. lia. }
    rewrite Ef.
    destruct (append_props u np np' D sp E new cellof layof active
                (source_val zero sp n src scells slayers) items) as [D1 [G1 [G2 [G3 [G4 G5]]]]]; auto.
    - intros c m Em. rewrite HE by (eapply nth_error_some_lt; eauto). apply HV; auto.
    - intros c j a Hj. unfold E in Hj. destruct (Nat.ltb_spec c (length np)) as [Hc|]; [|destruct j; discriminate].
      pose proof (nth_error_In _ _ Hj) as Ha. apply Hask in Ha.
      destruct (nth_error_lt_some np c Hc) as [m Em]. pose proof (proj2 (HV c m Em) _ _ Hj) as Q.
      split; [unfold active; rewrite (nth_error_nth _ _ _ Q); apply Z.ltb_lt; lia|].
      split; [unfold cellof; rewrite (nth_error_nth _ _ _ Ha); lia|].
      exists m. split; auto. unfold layof. rewrite (nth_error_nth _ _ _ Q). lia.
    - intros m i a nm nc cx Om Hw Ha Ei Hcx. apply Hit in Hw. apply (Hval m i a nm nc cx); auto; [lia|].
      intros z Ez. destruct (Hact a) as [c [Ec Hc]]; [lia|auto|]. rewrite Ez in Ec. injection Ec as ->.
      apply valid_cell_spec. lia.
    - intros i a Hw. apply Hit in Hw. split; [lia|]. intros Ha. destruct (Hact a) as [c [Ec Hc]]; [lia|auto|].
      assert (cellof a = c) as -> by (unfold cellof; rewrite (nth_error_nth _ _ _ Ec); lia).
      rewrite HE by auto. apply In_nth_error, Hask. auto.
    - intros i c a Hi Hc Ha. rewrite HE in Ha by auto. apply Hask in Ha. apply Hit. split; auto.
      rewrite <- Lc. eapply nth_error_some_lt; eauto.
    - exists D1. split; [exact G1|]. split; [auto|]. split; [auto|]. split; [auto|].
      intros f c n' j a Hf Hc Hj. eapply G5; eauto. rewrite HE; auto. eapply nth_error_some_lt; eauto.
  Qed.
End Entries.

(** The group after the two kernels. *)
Lemma entries_appended {R} d (zeroR : R) uR uZ spR spZ (g : group R) n kR kZ srcR srcZ cells scells slayers newR newZ layers0 :
  device_ok d -> wf_group g -> spec_of spR (reals (st g)) -> spec_of spZ (ints (st g)) ->
  length cells = n -> length layers0 = n ->
  (forall a, length (newR a) = length (reals (st g))) -> (forall a, length (newZ a) = length (ints (st g))) ->
  (forall i, i < length spR -> exists s, srcR i = Some s) -> (forall i, i < length spZ -> exists s, srcZ i = Some s) ->
  (forall m i a sym nc cx, old_rows (npart_cell g) (reals (st g)) m -> a < n ->
     (forall z, nth_error cells a = Some z -> valid_cell (length (npart_cell g)) z = true) ->
     nth_error spR i = Some (sym, nc) -> cx < nc ->
     source_val zeroR spR n srcR scells slayers i a m cx = nth_error (newR a) (comp_offset spR i + cx)) ->
  (forall m i a sym nc cx, old_rows (npart_cell g) (ints (st g)) m -> a < n ->
     (forall z, nth_error cells a = Some z -> valid_cell (length (npart_cell g)) z = true) ->
     nth_error spZ i = Some (sym, nc) -> cx < nc ->
     source_val 0%Z spZ n srcZ scells slayers i a m cx = nth_error (newZ a) (comp_offset spZ i + cx)) ->
  exists g',
    (s <- get_new_layers d (npart_cell g) cells layers0 ;;
     let '(np', layers) := s in
     reals1 <- entries_write d zeroR spR n srcR cells layers scells slayers kR (realloc_rows uR np' (reals (st g))) ;;
     ints1 <- entries_write d 0%Z spZ n srcZ cells layers scells slayers kZ (realloc_rows uZ np' (ints (st g))) ;;
     Some (mk_group (mk_store reals1 ints1) np')) = Some g' /\
    wf_group g' /\ appended g g' cells (fun a => (newR a, newZ a)).
Proof.
  intros Ok WF SR SZ Lc L0 LR LZ HsR HsZ HvR HvZ.
  destruct (get_new_layers_inv d (npart_cell g) cells layers0 Ok) as [np' [layers [E [L1 [L2 [HI HV]]]]]]; [congruence|].
  rewrite E. cbn [obind].
  destruct (entries_write_correct d Ok zeroR spR n kR uR (npart_cell g) np' (reals (st g)) srcR cells layers scells slayers newR)
    as [D1 [E1 [A1 [A2 [A3 A4]]]]]; auto; [apply WF|].
  destruct (entries_write_correct d Ok 0%Z spZ n kZ uZ (npart_cell g) np' (ints (st g)) srcZ cells layers scells slayers newZ)
    as [D2 [E2 [B1 [B2 [B3 B4]]]]]; auto; [apply WF|].
  rewrite E1, E2. cbn [obind]. eexists. split; [reflexivity|]. split; [split; auto|]. split; [auto|].
  intros c Hc.
  destruct (append_cells g (mk_group (mk_store D1 D2) np') (layer_order d cells) newR newZ) with (c := c) as [old [Eo En]];
     cbn [st npart_cell reals ints]; auto.
  - intros c' m Em. apply HV; auto.
  - exists old, (layer_order d cells c). split; [auto|]. split; [apply layer_order_perm; auto|]. auto.
Qed.

(** ** Adding a sub-group *)
Lemma comp_lt {V} sp (D : list (list (list V))) i nm nc cx : spec_of sp D -> nth_error sp i = Some (nm, nc) -> cx < nc ->
  comp_offset sp i + cx < length D.
Proof. intros Hs Ei Hcx. rewrite <- Hs. pose proof (comp_offset_le _ _ _ _ Ei). lia. Qed.

Definition at_entry {V} (D : list (list (list V))) (cells layers : list Z) (i : nat) : list V :=
  vals_at D (Z.to_nat (nth i cells 0%Z)) (Z.to_nat (nth i layers 0%Z)).

Lemma old_rows_rd {V} np (D m : list (list (list V))) f c l : old_rows np D m -> In (c, l) (all_particles np) ->
  rd3 m f c l = rd3 D f c l.
Proof. intros O H. apply in_all_particles in H. destruct H as [n [En Hl]]. eapply O; eauto. Qed.

Lemma add_sub_group_self {R} d (zeroR : R) uR uZ spR spZ g cells slayers :
  device_ok d -> wf_group g -> spec_of spR (reals (st g)) -> spec_of spZ (ints (st g)) ->
  members_ok (npart_cell g) cells slayers ->
  exists g', add_sub_group d zeroR uR uZ spR spZ g None cells slayers = Some g' /\ wf_group g' /\
    exists new, appended g g' cells new /\
      forall i c l, nth_error cells i = Some (Z.of_nat c) -> nth_error slayers i = Some (Z.of_nat l) ->
        particle_at (st g) c l = Some (new i).
Proof.
  intros Ok WF SR SZ [Ls Hm].
  assert (Hnew : forall i c l, nth_error cells i = Some (Z.of_nat c) -> nth_error slayers i = Some (Z.of_nat l) ->
     In (c, l) (all_particles (npart_cell g)) /\
     at_entry (reals (st g)) cells slayers i = vals_at (reals (st g)) c l /\
     at_entry (ints (st g)) cells slayers i = vals_at (ints (st g)) c l).
  { intros i c l E1 E2. destruct (Hm i (nth_error_some_lt _ _ _ E1)) as [c' [l' [E1' [E2' Hin]]]].
    rewrite E1 in E1'. rewrite E2 in E2'. injection E1' as Q1. injection E2' as Q2.
    assert (c' = c) by lia. assert (l' = l) by lia. subst. split; auto.
    unfold at_entry. rewrite (nth_error_nth _ _ _ E1), (nth_error_nth _ _ _ E2), !Nat2Z.id. auto. }
  unfold add_sub_group. cbn [option_map].
  (* default values where the entry does not exist, to have the right length *)
  set (pad := fun V (D : list (list (list V))) (z : V) i =>
     if i <? length cells then at_entry D cells slayers i else repeat z (length D)).
  assert (Hpad : forall V (D : list (list (list V))) (z : V) i, (forall col, In col D -> wf_comp (npart_cell g) col) ->
     length (pad V D z i) = length D).
  { intros V D z i WD. unfold pad. destruct (Nat.ltb_spec i (length cells)); [|apply repeat_length].
    destruct (Hm i) as [c [l [E1 [E2 Hin]]]]; auto. unfold at_entry.
    rewrite (nth_error_nth _ _ _ E1), (nth_error_nth _ _ _ E2), !Nat2Z.id. eapply vals_at_len; eauto. }
  assert (Hv : forall V (z : V) sp (D m : list (list (list V))) i a sym nc cx, (forall col, In col D -> wf_comp (npart_cell g) col) ->
     spec_of sp D -> old_rows (npart_cell g) D m -> a < length cells -> nth_error sp i = Some (sym, nc) -> cx < nc ->
     source_val z sp (length cells) (sub_source sp None) cells slayers i a m cx = nth_error (pad V D z a) (comp_offset sp i + cx)).
  { intros V z sp D m i a sym nc cx WD HS Om Ha Ei Hcx. unfold source_val, sub_source, rd. rewrite Ei. cbn [obind].
    destruct (Hm a Ha) as [c [l [E1 [E2 Hin]]]]. rewrite E1, E2. cbn [obind].
    destruct (Z.leb_spec 0 (Z.of_nat c)); [|lia]. destruct (Z.leb_spec 0 (Z.of_nat l)); [|lia]. cbn [andb assert obind].
    rewrite !Nat2Z.id. rewrite (old_rows_rd _ _ _ _ _ _ Om Hin).
    rewrite (vals_at_rd3 (npart_cell g)) by (auto; eapply comp_lt; eauto).
    unfold pad. destruct (Nat.ltb_spec a (length cells)); [|lia]. unfold at_entry.
    rewrite (nth_error_nth _ _ _ E1), (nth_error_nth _ _ _ E2), !Nat2Z.id. auto. }
  assert (Hs : forall V sp i, i < length sp -> exists s : source V, sub_source sp None i = Some s).
  { intros V sp i Hi. unfold sub_source, rd. destruct (nth_error_lt_some sp i Hi) as [e E]. rewrite E. cbn. eauto. }
  destruct (Nat.ltb_spec 0 (length cells)) as [Hpos|Hz].
  - destruct (entries_appended d zeroR uR uZ spR spZ g (length cells) 1000 2000 (sub_source spR None) (sub_source spZ None)
       cells cells slayers (pad R (reals (st g)) zeroR) (pad Z (ints (st g)) 0%Z) (freshZ d 201 (length cells)))
       as [g' [E [W A]]]; auto.
    + apply freshZ_length; auto.
    + intros a. apply Hpad. apply WF.
    + intros a. apply Hpad. apply WF.
    + intros m i a sym nc cx Om Ha _ Ei Hcx. eapply Hv; eauto. apply WF.
    + intros m i a sym nc cx Om Ha _ Ei Hcx. eapply Hv; eauto. apply WF.
    + exists g'. split; [exact E|]. split; [auto|]. eexists. split; [exact A|].
      intros i c l E1 E2. destruct (Hnew i c l E1 E2) as [Hin [Q1 Q2]].
      rewrite (particle_at_vals g c l WF Hin). unfold pad.
      destruct (Nat.ltb_spec i (length cells)); [|pose proof (nth_error_some_lt _ _ _ E1); lia]. rewrite Q1, Q2. auto.
  - exists g. split; [auto|]. split; [auto|]. exists (fun i => (pad R (reals (st g)) zeroR i, pad Z (ints (st g)) 0%Z i)).
    split.
    + split; [auto|]. intros c Hc. rewrite (cell_particles_vals g c WF Hc). eexists. exists []. split; [reflexivity|].
      destruct cells; [|cbn in Hz; lia]. split; [constructor|]. cbn. rewrite app_nil_r. auto.
    + intros i c l E1 E2. pose proof (nth_error_some_lt _ _ _ E1). lia.
Qed.

Lemma add_sub_group_other {R} d (zeroR : R) uR uZ spR spZ g spR' spZ' gs cells slayers :
  device_ok d -> wf_group g -> wf_group gs ->
  spec_of spR (reals (st g)) -> spec_of spZ (ints (st g)) ->
  spec_of spR' (reals (st gs)) -> spec_of spZ' (ints (st gs)) ->
  same_ncomp spR spR' -> same_ncomp spZ spZ' ->
  members_ok (npart_cell gs) cells slayers ->
  exists g', add_sub_group d zeroR uR uZ spR spZ g (Some (spR', spZ', st gs)) cells slayers = Some g' /\ wf_group g' /\
    exists new, appended g g' cells new /\
      forall i c l, nth_error cells i = Some (Z.of_nat c) -> nth_error slayers i = Some (Z.of_nat l) ->
        exists p, particle_at (st gs) c l = Some p /\
          new i = (convert zeroR spR spR' (fst p), convert 0%Z spZ spZ' (snd p)).
Proof.
  intros Ok WF WFs SR SZ SR' SZ' NR NZ [Ls Hm].
  unfold add_sub_group. cbn [option_map fst snd].
  set (newR := fun i => convert zeroR spR spR' (at_entry (reals (st gs)) cells slayers i)).
  set (newZ := fun i => convert 0%Z spZ spZ' (at_entry (ints (st gs)) cells slayers i)).
  assert (Hv : forall V (z : V) sp sp' (D m src : list (list (list V))) i a sym nc cx,
     (forall col, In col src -> wf_comp (npart_cell gs) col) ->
     spec_of sp D -> spec_of sp' src -> same_ncomp sp sp' ->
     a < length cells -> nth_error sp i = Some (sym, nc) -> cx < nc ->
     source_val z sp (length cells) (sub_source sp (Some (sp', src))) cells slayers i a m cx =
     nth_error (convert z sp sp' (at_entry src cells slayers a)) (comp_offset sp i + cx)).
  { intros V z sp sp' D m src i a sym nc cx WD HS HS' HN Ha Ei Hcx.
    unfold source_val, sub_source, rd. rewrite Ei. cbn [obind fst snd].
    destruct (Hm a Ha) as [c [l [E1 [E2 Hin]]]].
    destruct (find_sym sym sp') as [j|] eqn:Ef.
    - destruct (find_sym_some _ _ _ Ef) as [nc' Ej]. rewrite Ej. cbn [obind snd].
      pose proof (HN sym nc j nc' (nth_error_In _ _ Ei) Ef Ej) as Q. rewrite Q, Nat.eqb_refl. cbn [assert obind].
      rewrite E1, E2. cbn [obind].
      destruct (Z.leb_spec 0 (Z.of_nat c)); [|lia]. destruct (Z.leb_spec 0 (Z.of_nat l)); [|lia]. cbn [andb assert obind].
      rewrite !Nat2Z.id. unfold at_entry. rewrite (nth_error_nth _ _ _ E1), (nth_error_nth _ _ _ E2), !Nat2Z.id.
      rewrite (convert_some z sp sp' _ i sym nc j nc' cx Ei Ef Ej Q) by (auto; rewrite (vals_at_len (npart_cell gs)); auto).
      apply (vals_at_rd3 (npart_cell gs)); auto. eapply comp_lt; eauto. lia.
    - cbn [obind]. rewrite (convert_none z sp sp' _ i sym nc cx Ei Ef Hcx). auto. }
  assert (Hs : forall V sp sp' (src : list (list (list V))) i, same_ncomp sp sp' -> i < length sp ->
     exists s : source V, sub_source sp (Some (sp', src)) i = Some s).
  { intros V sp sp' src i HN Hi. unfold sub_source, rd. destruct (nth_error_lt_some sp i Hi) as [[sym nc] Ei].
    rewrite Ei. cbn [obind fst snd].
    destruct (find_sym sym sp') as [j|] eqn:Ef; [|eauto]. destruct (find_sym_some _ _ _ Ef) as [nc' Ej]. rewrite Ej. cbn [obind snd].
    rewrite (HN sym nc j nc' (nth_error_In _ _ Ei) Ef Ej), Nat.eqb_refl. cbn. eauto. }
  assert (Hp : forall i c l, nth_error cells i = Some (Z.of_nat c) -> nth_error slayers i = Some (Z.of_nat l) ->
     exists p, particle_at (st gs) c l = Some p /\
          (newR i, newZ i) = (convert zeroR spR spR' (fst p), convert 0%Z spZ spZ' (snd p))).
  { intros i c l E1 E2. destruct (Hm i (nth_error_some_lt _ _ _ E1)) as [c' [l' [E1' [E2' Hin]]]].
    rewrite E1 in E1'. rewrite E2 in E2'. injection E1' as Q1. injection E2' as Q2.
    assert (c' = c) by lia. assert (l' = l) by lia. subst.
    eexists. split; [apply particle_at_vals; auto|]. unfold newR, newZ, at_entry.
    rewrite (nth_error_nth _ _ _ E1), (nth_error_nth _ _ _ E2), !Nat2Z.id. auto. }
  destruct (Nat.ltb_spec 0 (length cells)) as [Hpos|Hz].
  - destruct (entries_appended d zeroR uR uZ spR spZ g (length cells) 1000 2000
       (sub_source spR (Some (spR', reals (st gs)))) (sub_source spZ (Some (spZ', ints (st gs))))
       cells cells slayers newR newZ (freshZ d 201 (length cells)))
       as [g' [E [W A]]]; auto.
    + apply freshZ_length; auto.
    + intros a. unfold newR. rewrite convert_len. auto.
    + intros a. unfold newZ. rewrite convert_len. auto.
    + intros m i a sym nc cx Om Ha _ Ei Hcx. eapply Hv; eauto. apply WFs.
    + intros m i a sym nc cx Om Ha _ Ei Hcx. eapply Hv; eauto. apply WFs.
    + exists g'. split; [exact E|]. split; [auto|]. eexists. split; [exact A|]. exact Hp.
  - exists g. split; [auto|]. split; [auto|]. exists (fun i => (newR i, newZ i)). split; [|exact Hp].
    split; [auto|]. intros c Hc. rewrite (cell_particles_vals g c WF Hc). eexists. exists []. split; [reflexivity|].
    destruct cells; [|cbn in Hz; lia]. split; [constructor|]. cbn. rewrite app_nil_r. auto.
Qed.
