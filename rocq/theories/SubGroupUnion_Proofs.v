(** Proofs about unions of sub-groups and about reading a selection. *)
From Coq Require Import List Arith ZArith Bool Lia Permutation.
Import ListNotations.
From Verif Require Import Base Kernel Scan_Spec Scan_Model Scan_Proofs Compress_Model Compress_Proofs.
From Verif Require Import Loop_Model Loop_Spec SubGroup_Model SubGroup_Spec SubGroup_Proofs SubGroupKernel_Proofs SubGroupSelect_Proofs.

Definition cell_of (c : nat) (contents : list (list (list nat))) : list nat :=
  flat_map (fun content => nth c content []) contents.

Lemma joined_nth cc contents c : c < cc -> nth_error (joined cc contents) c = Some (cell_of c contents).
Proof. intros H. unfold joined. rewrite nth_error_map_seq. apply Nat.ltb_lt in H. rewrite H. auto. Qed.

Lemma joined_length cc contents : length (joined cc contents) = cc.
Proof. unfold joined. rewrite map_length, seq_length. auto. Qed.

Lemma cell_of_length c contents : length (cell_of c contents) = list_sum (map (fun ct => length (nth c ct [])) contents).
Proof.
  unfold cell_of. induction contents as [|ct contents IH]; cbn [flat_map map]; auto. rewrite app_length, IH. reflexivity.
Qed.

Lemma list_sum_add {A} (f g : A -> nat) l : list_sum (map (fun a => f a + g a) l) = list_sum (map f l) + list_sum (map g l).
Proof.
  induction l as [|a l IH]; auto. cbn [map].
  change (f a + g a + list_sum (map (fun a => f a + g a) l) = (f a + list_sum (map f l)) + (g a + list_sum (map g l))). lia.
Qed.

Lemma joined_before cc contents c : (forall ct, In ct contents -> length ct = cc) -> c <= cc ->
  psum (ncnt (joined cc contents)) c = list_sum (map (fun ct => psum (ncnt ct) c) contents).
Proof.
  intros HL. induction c as [|c IH]; intros Hc.
  - change (psum (ncnt (joined cc contents)) 0) with 0. clear. induction contents as [|a l IH]; auto.
  - assert (E : nth_error (ncnt (joined cc contents)) c = Some (length (cell_of c contents))).
    { apply ncnt_nth, joined_nth. lia. }
    rewrite (psum_S _ _ _ E), IH, cell_of_length by lia. rewrite <- list_sum_add. f_equal. apply map_ext_in.
    intros ct Hi. destruct (nth_error_lt_some ct c) as [ls El]; [rewrite (HL ct Hi); lia|].
    rewrite (psum_S _ _ _ (ncnt_nth _ _ _ El)), (nth_error_nth _ _ [] El). auto.
Qed.

Lemma joined_number cc contents : (forall ct, In ct contents -> length ct = cc) ->
  number_of_particles (joined cc contents) = list_sum (map number_of_particles contents).
Proof.
  intros HL. rewrite number_psum, joined_length, joined_before by auto. f_equal. apply map_ext_in. intros ct Hi.
  rewrite number_psum, (HL ct Hi). auto.
Qed.

Lemma union_counts_correct cc Ps contents c : Forall2 iterates Ps contents ->
  (forall ct, In ct contents -> length ct = cc) -> c < cc ->
  union_counts Ps c = Some (length (cell_of c contents), list_sum (map (fun ct => psum (ncnt ct) c) contents)).
Proof.
  intros HF HL Hc. unfold union_counts.
  assert (G : forall n e, foldM (fun st P => let '(n, e) := st in
           np <- rd (i_dn P) c ;; ep <- rd (i_es P) c ;; Some (n + np, e + ep)) (n, e) Ps =
     Some (n + length (cell_of c contents), e + list_sum (map (fun ct => psum (ncnt ct) c) contents))); [|apply G].
  induction HF as [|P ct Ps contents HP HF IH]; intros n e; cbn [foldM].
  - unfold cell_of. cbn. rewrite !Nat.add_0_r. auto.
  - destruct (nth_error_lt_some ct c) as [ls El]; [rewrite (HL ct) by (left; auto); lia|].
    unfold rd at 1 2. rewrite (iterates_dn _ _ _ HP), (ncnt_nth _ _ _ El), (iterates_es _ _ _ HP) by (rewrite (HL ct) by (left; auto); auto).
    cbn [obind]. rewrite IH by (intros; apply HL; right; auto). unfold cell_of. cbn [flat_map map]. rewrite (nth_error_nth _ _ [] El), app_length.
    change (list_sum (?a :: ?l)) with (a + list_sum l). f_equal. f_equal; [lia|].
    change (list_sum (psum (ncnt ct) c :: map (fun ct0 => psum (ncnt ct0) c) contents)) with (psum (ncnt ct) c + list_sum (map (fun ct0 => psum (ncnt ct0) c) contents)). lia.
Qed.

(** The positions written by one work item. *)
Fixpoint union_pos (ls c index : nat) (offset : nat) (contents : list (list (list nat))) : list nat :=
  match contents with
  | [] => []
  | ct :: r => let n := length (nth c ct []) in
      map (fun ix => offset + ix) (for_loop index n ls) ++ union_pos ls c index (offset + n) r
  end.

Lemma union_pos_cover ls c contents : 1 <= ls -> forall offset j, offset <= j < offset + length (cell_of c contents) ->
  exists index, index < ls /\ In j (union_pos ls c index offset contents).
Proof.
  intros H. induction contents as [|ct r IH]; intros offset j Hj; unfold cell_of in Hj; cbn [flat_map length] in Hj; [lia|].
  rewrite app_length in Hj. cbn [union_pos]. set (n := length (nth c ct [])) in *.
  destruct (le_lt_dec (offset + n) j) as [L|L].
  - destruct (IH (offset + n) j) as [i [Hi Ii]]; [unfold cell_of; lia|]. exists i. split; auto. apply in_or_app. right. auto.
  - exists ((j - offset) mod ls). split; [apply Nat.mod_upper_bound; lia|]. apply in_or_app. left. apply in_map_iff.
    exists (j - offset). split; [lia|]. apply strided_in; auto; [apply Nat.mod_upper_bound; lia|]. split; [lia|auto].
Qed.

Lemma union_kernel_correct d cc Ps contents m c index lay : device_ok d -> Forall2 iterates Ps contents ->
  (forall ct, In ct contents -> length ct = cc) -> c < cc -> index < local_size d ->
  starts_ok m (joined cc contents) -> number_of_particles (joined cc contents) <= length lay ->
  exists lay', union_kernel d Ps m lay (c, index) = Some lay' /\ length lay' = length lay /\
    forall c' ls' j', nth_error (joined cc contents) c' = Some ls' -> j' < length ls' ->
      nth_error lay' (psum (ncnt (joined cc contents)) c' + j') =
        if (c' =? c) && existsb (fun x => x =? j') (union_pos (local_size d) c index 0 contents)
        then nth_error (cell_of c contents) j' else nth_error lay (psum (ncnt (joined cc contents)) c' + j').
Proof.
  intros [_ DL] HF HL Hc Hi Hs Hlen. unfold union_kernel.
  set (J := joined cc contents) in *.
  assert (EJ : nth_error J c = Some (cell_of c contents)) by (apply joined_nth; auto).
  match goal with |- context [foldM ?f (lay, 0) Ps] => set (F := f) end.
  assert (G : forall pre post Ps', contents = pre ++ post -> Forall2 iterates Ps' post ->
    forall lay0, length lay0 = length lay ->
    exists lay' off, foldM F (lay0, length (cell_of c pre)) Ps' = Some (lay', off) /\ length lay' = length lay0 /\
      forall c' ls' j', nth_error J c' = Some ls' -> j' < length ls' ->
        nth_error lay' (psum (ncnt J) c' + j') =
          if (c' =? c) && existsb (fun x => x =? j') (union_pos (local_size d) c index (length (cell_of c pre)) post)
          then nth_error (cell_of c contents) j' else nth_error lay0 (psum (ncnt J) c' + j')).
  { intros pre post. revert pre. induction post as [|ct post IH]; intros pre Ps' Ec HP lay0 L0; inversion HP as [|P0 ct0 Pr post0 HP0 HPr]; subst Ps'; cbn [foldM].
    - eexists _, _. split; [reflexivity|]. split; [auto|]. intros. cbn [union_pos existsb]. rewrite andb_false_r. auto.
    - subst. unfold F at 1. cbn [fst snd].
      assert (Lct : length ct = cc) by (apply HL; apply in_or_app; right; left; auto).
      destruct (nth_error_lt_some ct c) as [ls El]; [lia|].
      unfold rd at 1. rewrite (iterates_dn _ _ _ HP0), (ncnt_nth _ _ _ El) by lia. cbn [obind].
      assert (Hcell : cell_of c (pre ++ ct :: post) = cell_of c pre ++ ls ++ cell_of c post).
      { unfold cell_of. rewrite flat_map_app. cbn [flat_map]. rewrite (nth_error_nth _ _ [] El). auto. }
      destruct (puts_correct m J (fun lay ix => v <- i_layer P0 c ix ;; put_layer m lay c (length (cell_of c pre) + ix) v) c (cell_of c (pre ++ ct :: post))
        (fun ix => length (cell_of c pre) + ix) (fun ix => nth ix ls 0) (for_loop index (length ls) (local_size d)) Hs EJ) with (lay := lay0) as [lay1 [E1 [L1 F1]]].
      { intros ix Hx. apply for_loop_in in Hx; auto. rewrite Hcell, nth_error_app2 by lia.
        replace (length (cell_of c pre) + ix - length (cell_of c pre)) with ix by lia.
        rewrite nth_error_app1 by lia. apply nth_error_nth'. lia. }
      { intros ly ix Hx. apply for_loop_in in Hx; auto. destruct (HP0 _ _ El) as [_ [_ [_ Hl]]].
        rewrite (Hl ix (nth ix ls 0)); [auto|]. apply nth_error_nth'. lia. }
      { lia. }
      rewrite E1. cbn [obind].
      assert (Eoff : length (cell_of c pre) + length ls = length (cell_of c (pre ++ [ct]))).
      { unfold cell_of. rewrite flat_map_app, app_length. cbn [flat_map]. rewrite (nth_error_nth _ _ [] El), app_nil_r. auto. }
      rewrite Eoff.
      destruct (IH (pre ++ [ct]) Pr) with (lay0 := lay1) as [lay2 [off [E2 [L2 F2]]]]; [rewrite <- app_assoc; auto|auto|lia|].
      exists lay2, off. split; [auto|]. split; [lia|]. intros c' ls' j' E' Hj'. rewrite (F2 _ _ _ E' Hj'), (F1 _ _ _ E' Hj').
      cbn [union_pos]. rewrite (nth_error_nth _ _ [] El), Eoff, existsb_app.
      replace (existsb (fun x0 => x0 =? j') (map (fun ix => length (cell_of c pre) + ix) (for_loop index (length ls) (local_size d))))
        with (existsb (fun x0 => length (cell_of c pre) + x0 =? j') (for_loop index (length ls) (local_size d))).
      2:{ generalize (for_loop index (length ls) (local_size d)) as L. clear. induction L as [|a L IH]; cbn [map existsb]; auto. rewrite IH; auto. }
      destruct (c' =? c); cbn [andb]; auto.
      destruct (existsb _ (union_pos _ _ _ _ _)); [rewrite orb_true_r; auto|]. rewrite orb_false_r. auto. }
  destruct (G [] contents Ps eq_refl HF lay eq_refl) as [lay' [off [E [L H]]]]. change (length (cell_of c [])) with 0 in E, H.
  rewrite E. cbn [obind fst]. exists lay'. split; [auto|]. split; [auto|]. exact H.
Qed.

Theorem union_correct CL d k cc Ps contents nps m :
  device_ok d -> 1 <= cc -> map_sizes CL cc m -> Forall2 iterates Ps contents ->
  (forall ct, In ct contents -> length ct = cc) -> (forall P, In P Ps -> i_whole P = false) ->
  nps = map number_of_particles contents ->
  exists m' s, union_create d k cc Ps nps m = Some (m', s) /\ map_sizes CL cc m' /\ selects s m' (joined cc contents).
Proof.
  intros D Hcc Sz HF HL HW ->. pose proof Sz as [S1 [S2 [S3 [S4 [S5 S6]]]]]. unfold union_create.
  replace (forallb (fun P => negb (i_whole P)) Ps) with true
    by (symmetry; apply forallb_forall; intros P HP; rewrite (HW P HP); auto).
  cbn [assert obind]. set (J := joined cc contents).
  assert (LJ : length J = cc) by apply joined_length.
  assert (EJ : forall c, c < cc -> nth_error J c = Some (cell_of c contents)) by (intros; apply joined_nth; auto).
  assert (EJ' : forall c ls, nth_error J c = Some ls -> c < cc /\ ls = cell_of c contents).
  { intros c ls E. pose proof (nth_error_some_lt _ _ _ E) as H. rewrite LJ in H. rewrite EJ in E by auto. split; congruence. }
  destruct (foldM_kernel (fun st c => let '(dn, des) := st in
          r <- union_counts Ps c ;; dn' <- upd dn c (fst r) ;; des' <- upd des c (snd r) ;; Some (dn', des'))
     (fun (st : list nat * list nat) (q : bool * nat) => if fst q then nth_error (fst st) (snd q) else nth_error (snd st) (snd q))
     (fun st => length (fst st) = length (m_dn m) /\ length (snd st) = cc)
     (fun c q => if snd q =? c then Some (if fst q then length (cell_of c contents) else psum (ncnt J) c) else None)
     (ord d k (seq 0 cc)) (m_dn m, m_des m)) as [[dn des] [E1 [[L1 L2] [W1 _]]]].
  { auto. }
  { intros [a b] c [La Lb] Hi. apply in_ord in Hi; auto. apply in_seq in Hi. cbn [fst snd] in *.
    rewrite (union_counts_correct cc Ps contents c) by (auto; lia). cbn [obind fst snd].
    replace (list_sum (map (fun ct => psum (ncnt ct) c) contents)) with (psum (ncnt J) c) by (apply joined_before; auto; lia).
    destruct (upd_some a c (length (cell_of c contents))) as [a' Ea]; [lia|]. destruct (upd_some b c (psum (ncnt J) c)) as [b' Eb]; [lia|].
    rewrite Ea. cbn [obind]. rewrite Eb. cbn [obind]. exists (a', b'). split; [auto|]. split.
    - cbn. rewrite (upd_length _ _ _ _ Ea), (upd_length _ _ _ _ Eb). auto.
    - intros [[|] j]; cbn [fst snd]; rewrite ?(upd_nth _ _ _ _ _ Ea), ?(upd_nth _ _ _ _ _ Eb); destruct (j =? c); auto. }
  { intros a b [q j] v w _ _. cbn [fst snd]. destruct (Nat.eqb_spec j a), (Nat.eqb_spec j b); try discriminate. subst. congruence. }
  cbn [fst snd] in *. rewrite E1. cbn [obind].
  assert (Hdn : forall c ls, nth_error J c = Some ls -> nth_error dn c = Some (length ls)).
  { intros c ls E. destruct (EJ' _ _ E) as [Hc ->]. apply (W1 c (true, c)); [apply in_ord; auto; apply in_seq; lia|]. cbn. rewrite Nat.eqb_refl. auto. }
  assert (Hdes : forall c, c < cc -> nth_error des c = Some (particles_before J c)).
  { intros c Hc. rewrite before_psum. apply (W1 c (false, c)); [apply in_ord; auto; apply in_seq; lia|]. cbn [fst snd]. rewrite Nat.eqb_refl. auto. }
  destruct (copy_prefix_correct dn (m_hn m) cc) as [hn [E2 [L3 F2]]]; [lia|lia|]. rewrite E2. cbn [obind].
  destruct (copy_prefix_correct des (m_hes m) cc) as [hes [E3 [L4 F3]]]; [lia|lia|]. rewrite E3. cbn [obind].
  assert (Hhn : forall c ls, nth_error J c = Some ls -> nth_error hn c = Some (length ls)).
  { intros c ls E. rewrite F2. destruct (EJ' _ _ E) as [H _]. apply Nat.ltb_lt in H. rewrite H. auto. }
  assert (Hhes : forall c, c < cc -> nth_error hes c = Some (particles_before J c)).
  { intros c H. rewrite F3. pose proof H as H'. apply Nat.ltb_lt in H'. rewrite H'. auto. }
  destruct (map_create_correct d (k + 1) CL cc (with_counts m hn dn hes des) J) as [m1 [E6 [Sz1 [M1 [M2 [M3 [M4 [M5 [M6 M7]]]]]]]]]; auto.
  { unfold map_sizes, with_counts; cbn. lia. }
  rewrite E6. cbn [obind]. cbn [with_counts m_hn m_dn m_hes m_des] in M1, M2, M3, M4.
  destruct (fill_map (union_kernel d Ps m1)
     (fun p q => if (fst q =? fst p) && existsb (fun x => x =? snd q) (union_pos (local_size d) (fst p) (snd p) 0 contents)
                 then nth_error (cell_of (fst p) contents) (snd q) else None)
     (ord d (k + 2) (list_prod (seq 0 cc) (seq 0 (local_size d)))) (m_layers m1) J) as [lay [E7 [L7 F7]]].
  { intros lay [c i] Ll Hi. apply in_ord in Hi; auto. apply in_prod_iff in Hi. rewrite !in_seq in Hi.
    destruct (union_kernel_correct d cc Ps contents m1 c i lay) as [lay' [Ep [Lp Fp]]]; auto; try lia.
    { fold J. lia. }
    exists lay'. split; [auto|]. split; [lia|]. intros c' ls' j' E' Hj. fold J in Fp. rewrite (Fp _ _ _ E' Hj). cbn [fst snd].
    destruct (Nat.eqb_spec c' c) as [->|]; cbn [andb]; auto. destruct (EJ' _ _ E') as [_ ->].
    destruct (nth_error_lt_some _ _ Hj) as [v Ev]. rewrite Ev. destruct (existsb _ _); auto. }
  { intros [c i] c' j ls v _ E. cbn [fst snd]. destruct (Nat.eqb_spec c' c) as [->|]; [|discriminate]. cbn [andb].
    destruct (existsb _ _); [|discriminate]. destruct (EJ' _ _ E) as [_ ->]. auto. }
  { intros c j ls v E Ej. destruct (EJ' _ _ E) as [Hc ->]. pose proof (nth_error_some_lt _ _ _ Ej).
    destruct (union_pos_cover (local_size d) c contents ltac:(apply D) 0 j) as [i [Hi Ii]]; [lia|].
    exists (c, i), v. split.
    - apply in_ord; auto. apply in_prod; apply in_seq; lia.
    - cbn [fst snd]. rewrite Nat.eqb_refl. replace (existsb _ _) with true; [auto|]. symmetry. apply existsb_exists. exists j. split; [auto|apply Nat.eqb_refl]. }
  rewrite E7. cbn [obind]. unfold sub_. destruct (Nat.ltb_spec cc 1); [lia|]. cbn [obind].
  unfold rd. rewrite (Hhes (cc - 1)), (Hhn _ _ (EJ (cc - 1) ltac:(lia))) by lia. cbn [obind].
  assert (Et : particles_before J (cc - 1) + length (cell_of (cc - 1) contents) = number_of_particles J).
  { rewrite before_psum, number_psum, LJ. rewrite <- (psum_S _ _ _ (ncnt_nth _ _ _ (EJ (cc - 1) ltac:(lia)))). f_equal. lia. }
  rewrite Et. unfold J at 1. rewrite joined_number, Nat.eqb_refl by auto. cbn [assert obind].
  eexists _, _. split; [reflexivity|]. split; [exact Sz1|].
  eapply (selects_intro CL); cbn [with_layers m_hn m_dn m_hes m_des m_starts m_layers]; eauto.
  - rewrite M1. auto.
  - rewrite M2. auto.
  - rewrite M3. auto.
  - rewrite M4. auto.
Qed.

(** ** Reading a selection *)
Lemma nth_seq_map {A} (l : list A) (x : A) : map (fun c => nth c l x) (seq 0 (length l)) = l.
Proof.
  apply nth_error_ext. intros i. rewrite nth_error_map_seq. destruct (Nat.ltb_spec i (length l)).
  - symmetry. apply nth_error_nth'. auto.
  - symmetry. apply nth_error_None. auto.
Qed.

Theorem host_map_correct s m content : selects s m content -> get_host_map s m = Some content.
Proof.
  intros [H1 [H2 [H3 H4]]]. unfold get_host_map. rewrite H1.
  rewrite (mapM_some _ (fun c => nth c content [])); [rewrite nth_seq_map; auto|].
  intros c Hi. apply in_seq in Hi. destruct (nth_error_lt_some content c) as [ls E]; [lia|].
  rewrite (nth_error_nth _ _ [] E). destruct (H3 _ _ E) as [A1 [_ [_ A2]]]. cbn [sub_iset i_hn i_layer] in A1, A2.
  unfold rd at 1. rewrite A1. cbn [obind]. destruct (Nat.ltb_spec 0 (length ls)) as [Hl|Hl].
  - unfold rd in A2. destruct (nth_error_lt_some ls 0 Hl) as [y Ey]. pose proof (A2 0 y Ey) as B0.
    unfold rd. destruct (nth_error (m_starts m) c) as [p|]; [|discriminate]. cbn [obind] in *.
    assert (Hlast : p + length ls <= length (m_layers m)).
    { destruct (nth_error_lt_some ls (length ls - 1)) as [z Ez]; [lia|]. pose proof (A2 _ _ Ez) as Q. apply nth_error_some_lt in Q. lia. }
    rewrite slice_some by lia. f_equal. apply nth_error_ext. intros i. rewrite nth_error_firstn.
    replace (p + length ls - p) with (length ls) by lia. destruct (Nat.ltb_spec i (length ls)) as [Hi'|Hi'].
    + rewrite nth_error_skipn. destruct (nth_error_lt_some ls i Hi') as [z Ez]. rewrite Ez. apply A2. auto.
    + symmetry. apply nth_error_None. auto.
  - destruct ls; [auto|cbn in Hl; lia].
Qed.

Lemma pairs_length content : length (pairs_of content) = number_of_particles content.
Proof.
  unfold pairs_of, number_of_particles.
  replace (map (@length nat) content) with (map (fun c => length (nth c content [])) (seq 0 (length content)))
    by (rewrite <- (map_map (fun c => nth c content []) (@length nat)), nth_seq_map; auto).
  generalize (seq 0 (length content)) as l. induction l as [|a l IH]; cbn [flat_map map]; auto.
  rewrite app_length, map_length, IH. reflexivity.
Qed.

Theorem cells_layers_correct d k s m content : selects s m content ->
  get_cells_layers d k s m = Some (map fst (pairs_of content), map snd (pairs_of content)).
Proof.
  intros H. unfold get_cells_layers. rewrite (host_map_correct _ _ _ H). cbn [obind].
  destruct H as [H1 [H2 _]]. rewrite H1. fold (pairs_of content). rewrite H2, <- pairs_length.
  set (L := pairs_of content).
  destruct (foldM_ind (fun st p => let '(cells, layers, index) := st in
         cells' <- upd cells index (fst p) ;; layers' <- upd layers index (snd p) ;; Some (cells', layers', index + 1))
    (fun pre (st : list nat * list nat * nat) => let '(cells, layers, index) := st in index = length pre /\ length cells = length L /\ length layers = length L /\
       firstn index cells = map fst pre /\ firstn index layers = map snd pre) L
       (fresh d k (length L), fresh d (k + 1) (length L), 0)) as [[[cs ls] ix] [E [I1 [I2 [I3 [I4 I5]]]]]].
  - rewrite !fresh_length. auto.
  - intros pre a post [[cs ls] ix] Es [I1 [I2 [I3 [I4 I5]]]]. 
    assert (Hlt : ix < length L) by (rewrite Es, app_length; cbn; lia).
    destruct (upd_some cs ix (fst a)) as [cs' Ec]; [lia|]. destruct (upd_some ls ix (snd a)) as [ls' El]; [lia|].
    rewrite Ec. cbn [obind]. rewrite El. cbn [obind]. eexists. split; [reflexivity|]. cbn zeta.
    rewrite app_length, (upd_length _ _ _ _ Ec), (upd_length _ _ _ _ El). cbn [length].
    assert (G : forall (l l' : list nat) v, ix < length l -> upd l ix v = Some l' -> firstn (ix + 1) l' = firstn ix l ++ [v]).
    { clear. intros l l' v Hl E. apply nth_error_ext. intros i. rewrite nth_error_firstn, (upd_nth _ _ _ _ _ E).
      destruct (Nat.ltb_spec i (ix + 1)).
      - destruct (Nat.eqb_spec i ix) as [->|].
        + rewrite nth_error_app2 by (rewrite firstn_length; lia). rewrite firstn_length. replace (ix - Nat.min ix (length l)) with 0 by lia. auto.
        + rewrite nth_error_app1 by (rewrite firstn_length; lia). rewrite nth_error_firstn. destruct (Nat.ltb_spec i ix); [auto|lia].
      - symmetry. apply nth_error_None. rewrite app_length, firstn_length. cbn. lia. }
    rewrite (G cs cs' (fst a) ltac:(lia) Ec), (G ls ls' (snd a) ltac:(lia) El), I4, I5, !map_app. cbn [map]. split; [lia|]. auto.
  - match goal with |- context [foldM ?f ?x ?y] => replace (foldM f x y) with (Some (cs, ls, ix)) by (symmetry; exact E) end.
    cbn [obind fst]. subst ix. rewrite firstn_all2 in I4, I5 by lia. congruence.
Qed.

(** A loop over the sub-group visits the selected particles. *)
Theorem sub_group_loop_correct m s content : selects s m content ->
  mapM (sub_group_visit m) (particles_of_cells (m_dn m) 0 (s_ncell s)) = Some (pairs_of content).
Proof.
  intros [H1 [_ [H3 _]]]. rewrite H1. unfold pairs_of, particles_of_cells. rewrite Nat.sub_0_r.
  assert (G : forall l, (forall c, In c l -> c < length content) ->
     mapM (sub_group_visit m) (flat_map (fun c => map (pair c) (seq 0 (nth c (m_dn m) 0))) l) =
     Some (flat_map (fun c => map (pair c) (nth c content [])) l)).
  { induction l as [|c l IH]; intros Hl; cbn [flat_map]; auto. rewrite mapM_app, IH by (intros; apply Hl; right; auto).
    destruct (nth_error_lt_some content c) as [ls E]; [apply Hl; left; auto|].
    destruct (H3 _ _ E) as [_ [A1 [_ A2]]]. cbn [sub_iset i_dn] in A1. rewrite (nth_error_nth _ _ 0 A1), (nth_error_nth _ _ [] E).
    rewrite mapM_map, (mapM_some _ (fun j => (c, nth j ls 0))).
    - cbn [obind]. f_equal. f_equal. rewrite <- (nth_seq_map ls 0) at 2. rewrite map_map. auto.
    - intros j Hj. apply in_seq in Hj. unfold sub_group_visit. cbn [fst snd].
      rewrite (A2 j (nth j ls 0)) by (apply nth_error_nth'; lia). auto. }
  apply G. intros c Hc. apply in_seq in Hc. lia.
Qed.
