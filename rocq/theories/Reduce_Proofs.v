(** Proofs about reductions: sums in any order, and the functions
    reduce_dat_component(s)_cellwise. *)
From Coq Require Import List Arith Lia ZArith Bool Permutation.
Import ListNotations.
From Verif Require Import Base Kernel Scan_Model Compress_Model Group_Model Loop_Model Loop_Spec SubGroup_Model SubGroup_Spec
  CellConst_Model CellConst_Spec CellConst_Proofs Reduce_Model Reduce_Spec.

Section Monoid.
  Context {T : Type} {op : T -> T -> T} {ident : T} {ok : T -> Prop} (M : reducible op ident ok).

  (** The sum of a list. *)
  Definition total (l : list T) : T := fold_right op ident l.

  Lemma total_ok l : Forall ok l -> ok (total l).
  Proof. induction 1; cbn; [apply (red_ident _ _ _ M)|apply (red_closed _ _ _ M); assumption]. Qed.

  Lemma neutral_l a : ok a -> op ident a = a.
  Proof. intros H. rewrite (red_comm _ _ _ M) by (auto; apply (red_ident _ _ _ M)). apply (red_neutral _ _ _ M); exact H. Qed.

  Lemma combined_total l : Forall ok l -> forall a, ok a -> combined op a l = op a (total l).
  Proof.
    unfold combined. induction 1 as [|x l Hx Hl IH]; intros a Ha; cbn [fold_left total fold_right].
    - symmetry. apply (red_neutral _ _ _ M). exact Ha.
    - rewrite IH by (apply (red_closed _ _ _ M); assumption). symmetry. apply (red_assoc _ _ _ M); auto. apply total_ok. exact Hl.
  Qed.

  Lemma combined_ok l a : Forall ok l -> ok a -> ok (combined op a l).
  Proof. intros Hl Ha. rewrite combined_total by assumption. apply (red_closed _ _ _ M); auto using total_ok. Qed.

  Lemma total_app l1 l2 : Forall ok l1 -> Forall ok l2 -> total (l1 ++ l2) = op (total l1) (total l2).
  Proof.
    intros H1 H2. induction H1 as [|x l Hx Hl IH]; cbn [total fold_right app].
    - symmetry. apply neutral_l. apply total_ok. exact H2.
    - fold (total (l ++ l2)). rewrite IH. fold (total l). rewrite (red_assoc _ _ _ M); auto using total_ok.
  Qed.

  Lemma total_perm l1 l2 : Permutation l1 l2 -> Forall ok l1 -> total l1 = total l2.
  Proof.
    induction 1 as [|x l l' P IH|x y l|l l' l'' P1 IH1 P2 IH2]; intros H.
    - reflexivity.
    - inversion H; subst. cbn. fold (total l) (total l'). rewrite IH by assumption. reflexivity.
    - inversion H as [|? ? Hy H']; subst. inversion H' as [|? ? Hx Hl]; subst. cbn [total fold_right]. fold (total l). pose proof (total_ok l Hl) as Ht.
      rewrite (red_assoc _ _ _ M) by auto. rewrite (red_comm _ _ _ M y x) by auto. symmetry. apply (red_assoc _ _ _ M); auto.
    - rewrite IH1 by assumption. apply IH2. apply Forall_forall. intros a Ha. rewrite Forall_forall in H. apply H.
      apply (Permutation_in _ (Permutation_sym P1) Ha).
  Qed.

  Lemma Forall_perm (l1 l2 : list T) : Permutation l1 l2 -> Forall ok l1 -> Forall ok l2.
  Proof. intros P H. apply Forall_forall. intros a Ha. rewrite Forall_forall in H. apply H. apply (Permutation_in _ (Permutation_sym P) Ha). Qed.

  Lemma total_concat ls : Forall (Forall ok) ls -> total (concat ls) = total (map total ls).
  Proof.
    induction 1 as [|l ls Hl Hls IH]; [reflexivity|]. cbn [concat map]. rewrite total_app; [rewrite IH; reflexivity|exact Hl|].
    apply Forall_concat. exact Hls.
  Qed.

  Lemma total_flat_map {A} (f : A -> list T) l : (forall a, In a l -> Forall ok (f a)) -> total (flat_map f l) = total (map (fun a => total (f a)) l).
  Proof.
    intros H. rewrite flat_map_concat_map, total_concat, map_map; [reflexivity|]. apply Forall_forall. intros x Hx. apply in_map_iff in Hx.
    destruct Hx as (a & <- & Ha). auto.
  Qed.

  Lemma total_idents l : (forall a, In a l -> a = ident) -> total l = ident.
  Proof.
    induction l as [|a l IH]; intros H; [reflexivity|]. cbn. rewrite (H a) by (left; reflexivity). fold (total l). rewrite IH by (intros; apply H; right; assumption).
    apply (red_neutral _ _ _ M). apply (red_ident _ _ _ M).
  Qed.

  (** Updates [m[pos] := op m[pos] val] in any order. *)
  Lemma updates_ok {A} (f : list T -> A -> option (list T)) (pos : A -> nat) (vals : A -> list T) sched m :
    (forall m' a, length m' = length m -> Forall ok m' -> In a sched ->
       exists m'', f m' a = Some m'' /\ length m'' = length m /\
         forall j x, nth_error m' j = Some x -> nth_error m'' j = Some (if j =? pos a then combined op x (vals a) else x)) ->
    (forall a, In a sched -> Forall ok (vals a)) -> Forall ok m ->
    exists r, foldM f m sched = Some r /\ length r = length m /\ Forall ok r /\
      forall j x, nth_error m j = Some x ->
        nth_error r j = Some (combined op x (flat_map (fun a => if j =? pos a then vals a else []) sched)).
  Proof.
    revert m. induction sched as [|a sched IH]; intros m Hf Hv Hm; cbn [foldM].
    - exists m. split; [reflexivity|]. split; [reflexivity|]. split; [exact Hm|]. intros j x Hj. exact Hj.
    - destruct (Hf m a) as (m1 & E & L & N); auto; [left; reflexivity|]. rewrite E. cbn [obind].
      assert (Hm1 : Forall ok m1).
      { apply Forall_forall. intros v Hv'. apply In_nth_error in Hv'. destruct Hv' as [j Hj].
        destruct (nth_error_lt_some m j) as [x Hx]; [rewrite <- L; eauto using nth_error_some_lt|].
        rewrite (N j x Hx) in Hj. injection Hj as <-. assert (ok x) by (rewrite Forall_forall in Hm; apply Hm; eauto using nth_error_In).
        destruct (_ =? _); [apply combined_ok; auto; apply Hv; left; reflexivity|assumption]. }
      destruct (IH m1) as (r & F & L' & O & G); auto.
      { intros m' b Lm Hok Hb. destruct (Hf m' b) as (m'' & Q1 & Q2 & Q3); [congruence|assumption|right; assumption|]. exists m''. split; [exact Q1|]. split; [congruence|exact Q3]. }
      { intros b Hb. apply Hv. right. exact Hb. }
      exists r. split; [exact F|]. split; [congruence|]. split; [exact O|]. intros j x Hj. rewrite (G j _ (N j x Hj)).
      f_equal. unfold combined. cbn [flat_map]. rewrite fold_left_app. destruct (j =? pos a); reflexivity.
  Qed.

  (** ** One work group *)
  Lemma strided_perm n ls : 1 <= ls -> Permutation (concat (map (fun w => for_loop w n ls) (seq 0 ls))) (seq 0 n).
  Proof.
    intros Hl. apply NoDup_Permutation; [|apply seq_NoDup|].
    - rewrite <- flat_map_concat_map. assert (G : forall l, NoDup l -> (forall w, In w l -> w < ls) -> NoDup (flat_map (fun w => for_loop w n ls) l)).
      { induction 1 as [|w l Hw Hn IH]; intros H; cbn [flat_map]; [constructor|].
        assert (D : forall x, In x (for_loop w n ls) -> ~ In x (flat_map (fun w => for_loop w n ls) l)).
        { intros x Hx Hx'. apply in_flat_map in Hx'. destruct Hx' as (w' & Hw' & Hx').
          apply for_loop_in in Hx; [|exact Hl]. apply for_loop_in in Hx'; [|exact Hl].
          assert (w <> w') by (intros ->; contradiction). assert (w < ls) by (apply H; left; reflexivity). assert (w' < ls) by (apply H; right; assumption).
          destruct Hx as ([? ?] & ?), Hx' as ([? ?] & ?).
          match goal with A : (x - w) mod ls = 0, B : (x - w') mod ls = 0 |- _ => apply Nat.mod_divides in A; [|lia]; apply Nat.mod_divides in B; [|lia]; destruct A as [q A], B as [q' B] end.
          assert (q = q') by nia. subst. lia. }
        clear Hw. induction (for_loop_nodup ls w n Hl) as [|x l' Hx Hn' IH']; cbn [app]; [apply IH; intros; apply H; right; assumption|].
        constructor; [|apply IH'; intros; apply D; right; assumption]. rewrite in_app_iff. intros [A|A]; [contradiction|]. apply (D x); [left; reflexivity|exact A]. }
      apply G; [apply seq_NoDup|]. intros w Hw. apply in_seq in Hw. lia.
    - intros x. rewrite <- flat_map_concat_map, in_flat_map, in_seq. split.
      + intros (w & _ & Hx). apply for_loop_in in Hx; [|exact Hl]. lia.
      + intros Hx. exists (x mod ls). split; [apply in_seq; pose proof (Nat.mod_upper_bound x ls); lia|]. apply for_loop_in; [exact Hl|].
        pose proof (Nat.div_mod x ls). pose proof (Nat.mod_le x ls). split; [lia|].
        replace (x - x mod ls) with (x / ls * ls) by lia. apply Nat.mod_mul. lia.
  Qed.

  Lemma item_value (get : nat -> option T) (val : nat -> T) idx : (forall i, In i idx -> get i = Some (val i) /\ ok (val i)) ->
    forall a, ok a -> foldM (fun value i => v <- get i ;; Some (op value v)) a idx = Some (combined op a (map val idx)).
  Proof.
    induction idx as [|i idx IH]; intros H a Ha; cbn [foldM map]; [reflexivity|].
    destruct (H i) as [E O]; [left; reflexivity|]. rewrite E. cbn [obind]. rewrite IH; [reflexivity| |apply (red_closed _ _ _ M); assumption].
    intros j Hj. apply H. right. exact Hj.
  Qed.

  Lemma group_reduce_ok d k (get : nat -> option T) vals : device_ok d ->
    (forall i v, nth_error vals i = Some v -> get i = Some v) -> Forall ok vals ->
    group_reduce op ident d k get (length vals) = Some (total vals).
  Proof.
    intros [Hd Hl] Hg Ho. set (n := length vals). set (ls := local_size d).
    set (val := fun i => nth i vals ident).
    assert (Hval : forall i, i < n -> get i = Some (val i) /\ ok (val i)).
    { intros i Hi. pose proof (nth_error_nth' vals ident Hi) as E. split; [apply Hg; exact E|]. rewrite Forall_forall in Ho. apply Ho. eauto using nth_error_In. }
    assert (Vals : map val (seq 0 n) = vals).
    { apply nth_error_ext. intros i. rewrite nth_error_map_seq. cbn [plus]. destruct (Nat.ltb_spec i n) as [Hi|Hi].
      - symmetry. apply nth_error_nth'. exact Hi.
      - symmetry. apply nth_error_None. exact Hi. }
    unfold group_reduce. fold ls. rewrite (mapM_some _ (fun w => total (map val (for_loop w n ls)))).
    - cbn [obind]. unfold reduce_over_group. set (ts := map (fun w => total (map val (for_loop w n ls))) (seq 0 ls)).
      assert (Hts : Forall ok ts).
      { apply Forall_forall. intros t Ht. apply in_map_iff in Ht. destruct Ht as (w & <- & _). apply total_ok. apply Forall_forall.
        intros v Hv. apply in_map_iff in Hv. destruct Hv as (i & <- & Hi). apply for_loop_in in Hi; [|exact Hl]. apply Hval. lia. }
      assert (Tt : total ts = total vals).
      { subst ts. transitivity (total (concat (map (fun w => map val (for_loop w n ls)) (seq 0 ls)))).
        - rewrite total_concat, map_map; [reflexivity|]. apply Forall_forall. intros l Hx. apply in_map_iff in Hx. destruct Hx as (w & <- & _).
          apply Forall_forall. intros v Hv. apply in_map_iff in Hv. destruct Hv as (i & <- & Hi). apply for_loop_in in Hi; [|exact Hl]. apply Hval. lia.
        - transitivity (total (map val (seq 0 n))); [|rewrite Vals; reflexivity]. apply total_perm.
          + rewrite <- (map_map (fun w => for_loop w n ls) (map val)), <- concat_map. apply Permutation_map. apply strided_perm. exact Hl.
          + apply Forall_concat. apply Forall_forall. intros l Hx. apply in_map_iff in Hx. destruct Hx as (w & <- & _).
            apply Forall_forall. intros v Hv. apply in_map_iff in Hv. destruct Hv as (i & <- & Hi). apply for_loop_in in Hi; [|exact Hl]. apply Hval. lia. }
      pose proof (Hd T k ts) as P. destruct (ord d k ts) as [|v l] eqn:E.
      + exfalso. apply Permutation_length in P. unfold ts in P. rewrite map_length, seq_length in P. cbn in P. unfold ls in P. lia.
      + f_equal. assert (Hvl : Forall ok (v :: l)) by (apply (Forall_perm ts); [apply Permutation_sym; exact P|exact Hts]).
        pose proof (Forall_inv Hvl). pose proof (Forall_inv_tail Hvl). change (combined op v l = total vals). rewrite combined_total by assumption.
        rewrite <- Tt. symmetry. apply (total_perm ts (v :: l)); [apply Permutation_sym; exact P|exact Hts].
    - intros w Hw. rewrite (item_value get val).
      + f_equal. rewrite combined_total; [apply neutral_l; apply total_ok| |apply (red_ident _ _ _ M)];
          apply Forall_forall; intros v Hv; apply in_map_iff in Hv; destruct Hv as (i & <- & Hi); apply for_loop_in in Hi; try exact Hl; apply Hval; lia.
      + intros i Hi. apply for_loop_in in Hi; [|exact Hl]. apply Hval. lia.
      + apply (red_ident _ _ _ M).
  Qed.
End Monoid.

(** ** reduce_dat_component(s)_cellwise *)
Section Cellwise.
  Context {T : Type} {op : T -> T -> T} {ident : T} {ok : T -> Prop} (M : reducible op ident ok).
  Context (d : device) (Hd : device_ok d) (P : iset) (content : list (list nat)) (It : iterates P content)
    (W : i_whole P = true -> content = whole_group (map (@length nat) content)) (dat : list (list (list T))).

  Lemma cell_values comp c : has_values ok dat content comp -> c < length content ->
    exists vals, values_in_cell dat content comp c vals /\ Forall ok vals.
  Proof.
    intros (col & Hcol & H) Hc. destruct (H c Hc) as (column & Hcolumn & G). unfold values_in_cell.
    induction (nth c content []) as [|l ls IH]; [exists []; split; constructor|].
    destruct IH as (vals & F & O); [intros; apply G; right; assumption|]. destruct (G l) as (v & Hv & Hok); [left; reflexivity|].
    exists (v :: vals). split; constructor; auto. exists col, column. auto.
  Qed.

  Lemma cell_reduce_ok k comp c vals : c < length content -> values_in_cell dat content comp c vals -> Forall ok vals -> vals <> [] ->
    cell_reduce op ident d k P dat comp c (length vals) = Some (total (op := op) (ident := ident) vals).
  Proof.
    intros Hc F O Hne. unfold cell_reduce. unfold values_in_cell in F.
    pose proof (nth_error_nth' content [] Hc) as E. destruct (It c _ E) as (_ & _ & _ & Lay).
    destruct vals as [|v0 vals0]; [congruence|]. set (vals := v0 :: vals0) in *.
    assert (D : exists col column, nth_error dat comp = Some col /\ nth_error col c = Some column /\
      forall i v, nth_error vals i = Some v -> exists l, nth_error (nth c content []) i = Some l /\ nth_error column l = Some v).
    { assert (exists col column, nth_error dat comp = Some col /\ nth_error col c = Some column) as (col & column & D1 & D2).
      { inversion F as [|l v ls vs (col & column & D1 & D2 & _) _]; subst. eauto. }
      exists col, column. split; [exact D1|]. split; [exact D2|]. clear -F D1 D2. induction F as [|l v ls vs (col' & column' & E1 & E2 & E3) F IH]; intros i w Hi.
      - destruct i; discriminate.
      - destruct i as [|i]; cbn [nth_error] in *.
        + injection Hi as <-. exists l. split; [reflexivity|]. congruence.
        + apply IH. exact Hi. }
    destruct D as (col & column & D1 & D2 & D3). unfold rd at 1. rewrite D1. cbn [obind]. unfold rd at 1. rewrite D2. cbn [obind].
    destruct (i_whole P) eqn:Q.
    - apply (group_reduce_ok M d k); auto. intros i v Hi. destruct (D3 i v Hi) as (l & Hl & Hv). unfold rd.
      specialize (W eq_refl). assert (l = i); [|congruence]. rewrite W in Hl. unfold whole_group in Hl.
      rewrite (nth_indep _ [] (seq 0 0)) in Hl by (rewrite !map_length; exact Hc). rewrite map_nth, nth_error_seq in Hl. cbn [plus] in Hl. destruct (_ <? _); [injection Hl as <-; reflexivity|discriminate].
    - apply (group_reduce_ok M d k); auto. intros i v Hi. destruct (D3 i v Hi) as (l & Hl & Hv). rewrite (Lay i l Hl). cbn [obind]. exact Hv.
  Qed.

  (** A work group that reduces component [comp] into [off] of its cell. *)
  Lemma group_update k comp stride off N (m : list T) c : length m = N * stride -> off < stride -> length content = N -> c < N ->
    has_values ok dat content comp -> Forall ok m ->
    exists vals m'', values_in_cell dat content comp c vals /\ Forall ok vals /\
      (npart_cell <- rd (i_dn P) c ;;
       if 0 <? npart_cell then
         value <- cell_reduce op ident d k P dat comp c npart_cell ;;
         current <- rd m (c * stride + off) ;; upd m (c * stride + off) (op current value)
       else Some m) = Some m'' /\ length m'' = length m /\
      forall j x, nth_error m j = Some x -> nth_error m'' j = Some (if j =? c * stride + off then combined op x vals else x).
  Proof.
    intros Lm Ho Lc Hc Hv Hm. assert (Hc' : c < length content) by lia. destruct (cell_values comp c Hv Hc') as (vals & F & O).
    pose proof (nth_error_nth' content [] Hc') as E. destruct (It c _ E) as (_ & Dn & _ & _).
    assert (Ln : length (nth c content []) = length vals) by (clear -F; induction F; cbn; congruence).
    exists vals. unfold rd at 1. rewrite Dn, Ln. cbn [obind]. destruct (Nat.ltb_spec 0 (length vals)) as [Hp|Hp].
    - rewrite (cell_reduce_ok k comp c vals) by (auto; intros ->; cbn in Hp; lia). cbn [obind].
      assert (Hi : c * stride + off < length m) by (rewrite Lm; nia).
      destruct (nth_error_lt_some m _ Hi) as [cur Hcur]. unfold rd. rewrite Hcur. cbn [obind].
      destruct (upd_some m (c * stride + off) (op cur (total (op := op) (ident := ident) vals)) Hi) as [m'' U].
      exists m''. split; [exact F|]. split; [exact O|]. split; [exact U|]. split; [apply (upd_length _ _ _ _ U)|].
      intros j x Hj. rewrite (upd_nth _ _ _ _ j U). destruct (Nat.eqb_spec j (c * stride + off)) as [->|]; [|exact Hj].
      rewrite Hcur in Hj. injection Hj as ->. f_equal. symmetry. apply (combined_total M); auto. rewrite Forall_forall in Hm. apply Hm. eauto using nth_error_In.
    - exists m. split; [exact F|]. split; [exact O|]. split; [reflexivity|]. split; [reflexivity|]. intros j x Hj. rewrite Hj.
      destruct vals; [|cbn in Hp; lia]. destruct (_ =? _); reflexivity.
  Qed.

  Lemma values_unique comp c v1 v2 : values_in_cell dat content comp c v1 -> values_in_cell dat content comp c v2 -> v1 = v2.
  Proof.
    unfold values_in_cell. intros F. revert v2. induction F as [|l v ls vs (a & b & A & B & C) F IH]; intros v2 G; inversion G as [|? ? ? ? (a' & b' & A' & B' & C') G']; subst; [reflexivity|].
    f_equal; [congruence|apply IH; assumption].
  Qed.

  Lemma flat_map_single {A} (f : nat -> list A) (p : nat -> bool) l c : NoDup l -> In c l -> (forall a, In a l -> p a = true <-> a = c) ->
    flat_map (fun a => if p a then f a else []) l = f c.
  Proof.
    induction 1 as [|a l Ha Hl IH]; intros Hc Hp; [destruct Hc|]. cbn [flat_map].
    assert (R : forall l', (forall a, In a l' -> p a = false) -> flat_map (fun a => if p a then f a else []) l' = []).
    { induction l' as [|b l' IH']; intros H; [reflexivity|]. cbn [flat_map]. rewrite (H b) by (left; reflexivity). apply IH'. intros; apply H; right; assumption. }
    destruct Hc as [->|Hc].
    - replace (p c) with true by (symmetry; apply Hp; [left|]; reflexivity). rewrite R; [apply app_nil_r|].
      intros b Hb. destruct (p b) eqn:E; [|reflexivity]. apply Hp in E; [|right; exact Hb]. subst. contradiction.
    - destruct (p a) eqn:E.
      + apply Hp in E; [|left; reflexivity]. subst. contradiction.
      + apply IH; [exact Hc|]. intros b Hb. apply Hp. right. exact Hb.
  Qed.

  Lemma flat_map_none {A} (f : nat -> list A) (p : nat -> bool) l : (forall a, In a l -> p a = false) -> flat_map (fun a => if p a then f a else []) l = [].
  Proof. induction l as [|b l' IH']; intros H; [reflexivity|]. cbn [flat_map]. rewrite (H b) by (left; reflexivity). apply IH'. intros; apply H; right; assumption. Qed.

  Theorem component_ok k comp (x : cell_const T) row col : well_formed ok x -> length content = cc_ncells x ->
    row < cc_nrow x -> col < cc_ncol x -> has_values ok dat content comp ->
    exists x', reduce_dat_component_cellwise op ident d k (cc_ncells x) P dat comp x row col = Some x' /\
      well_formed ok x' /\ same_dimensions x x' /\
      forall c r q, c < cc_ncells x -> r < cc_nrow x -> q < cc_ncol x ->
        exists old vals, cc_get_value x c r q = Some old /\ values_in_cell dat content comp c vals /\
          cc_get_value x' c r q = Some (if (r =? row) && (q =? col) then combined op old vals else old).
  Proof.
    intros [Lx Ox] Lc Hrow Hcol Hv. unfold reduce_dat_component_cellwise, assert. rewrite Nat.eqb_refl. cbn [obind].
    destruct (Nat.ltb_spec row (cc_nrow x)); [|lia]. destruct (Nat.ltb_spec col (cc_ncol x)); [|lia]. cbn [obind].
    set (N := cc_ncells x) in *. set (R := cc_nrow x) in *. set (K := cc_ncol x) in *. set (off := R * col + row).
    assert (Hoff : off < R * K) by (apply inner_lt; assumption). unfold cc_stride. fold R K.
    assert (Hval : forall c, c < N -> exists vals, values_in_cell dat content comp c vals /\ Forall ok vals) by (intros; apply cell_values; [assumption|lia]).
    assert (exists vs : nat -> list T, forall c, c < N -> values_in_cell dat content comp c (vs c) /\ Forall ok (vs c)) as [vs Hvs].
    { clear -Hval. induction N as [|n IH]; [exists (fun _ => []); intros; lia|]. destruct IH as [vs Hvs]; [intros; apply Hval; lia|].
      destruct (Hval n) as (v & Hv & Ho); [lia|]. exists (fun c => if c =? n then v else vs c). intros c Hc. destruct (Nat.eqb_spec c n) as [->|]; [auto|apply Hvs; lia]. }
    assert (Hin : forall a, In a (ord d k (seq 0 N)) -> a < N) by (intros a Ha; apply (in_ord d) in Ha; [apply in_seq in Ha; lia|exact Hd]).
    destruct (updates_ok M (component_group op ident d k P dat comp (R * K) off) (fun c => c * (R * K) + off) vs (ord d k (seq 0 N)) (cc_data x))
      as (data & F & L & O & G).
    { intros m' c Lm Om Hc. apply Hin in Hc. destruct (group_update (k + 1 + c) comp (R * K) off N m' c) as (vals & m'' & V1 & V2 & E & L' & G'); auto; [rewrite Lm; lia|].
      exists m''. split; [exact E|]. split; [congruence|]. destruct (Hvs c Hc) as [V3 _]. rewrite (values_unique comp c (vs c) vals V3 V1). exact G'. }
    { intros a Ha. apply Hvs. auto. } { exact Ox. }
    rewrite F. cbn [obind]. eexists. split; [reflexivity|]. split; [split; [cbn; rewrite L; exact Lx|exact O]|]. split; [repeat split|].
    intros c r q Hc Hr Hq. unfold cc_get_value, cc_stride, rd. cbn [cc_with cc_nrow cc_ncol cc_data]. fold R K.
    replace (c * (R * K) + q * R + r) with (addr R K c r q) by (unfold addr; lia).
    destruct (nth_error_lt_some (cc_data x) (addr R K c r q)) as [old Hold]; [rewrite Lx; apply addr_lt; assumption|].
    exists old, (vs c). split; [exact Hold|]. split; [apply Hvs; exact Hc|]. rewrite (G _ _ Hold). f_equal.
    assert (ND : NoDup (ord d k (seq 0 N))) by (apply (Permutation_NoDup (l := seq 0 N)); [apply Permutation_sym; apply Hd|apply seq_NoDup]).
    destruct ((r =? row) && (q =? col)) eqn:Q.
    - apply andb_true_iff in Q. destruct Q as [->%Nat.eqb_eq ->%Nat.eqb_eq]. rewrite (flat_map_single vs (fun a => addr R K c row col =? a * (R * K) + off) _ c); auto.
      + apply (in_ord d); [exact Hd|]. apply in_seq. lia.
      + intros a Ha. rewrite Nat.eqb_eq. split; [|intros ->; reflexivity]. intros E. apply addr_cell in E; auto. symmetry. apply E.
    - rewrite flat_map_none; [reflexivity|]. intros a Ha. apply Nat.eqb_neq. intros E. change (a * (R * K) + off) with (addr R K a row col) in E.
      apply addr_inj in E; auto. destruct E as [_ [-> ->]]. rewrite !Nat.eqb_refl in Q. discriminate.
  Qed.
End Cellwise.
