(** The values of the points on all ranks. *)
From Coq Require Import List Arith ZArith Bool Permutation Lia.
Import ListNotations.
From Verif Require Import Base Kernel MHC_Model MHC_Spec MHCmsg_Proofs Quad_Model Quad_Spec Pack_Proofs QuadRank_Proofs QuadFin_Proofs.
Local Open Scope nat_scope.

(** ** Lists *)
Lemma blocks_eq {T I} n (g : I -> list T) (l : list I) b : 0 < n -> (forall i, In i l -> length (g i) = n) -> length l * n <= length b ->
  (forall j i cx, nth_error l j = Some i -> cx < n -> nth_error b (j * n + cx) = nth_error (g i) cx) -> firstn (length l * n) b = flat_map g l.
Proof.
  intros Hn Hg Lb H. apply nth_error_ext. intros k. rewrite nth_error_firstn. destruct (Nat.ltb_spec k (length l * n)) as [L|L].
  - pose proof (Nat.div_mod k n) as D. assert (Lc : k mod n < n) by (apply Nat.mod_upper_bound; lia). assert (Lj : k / n < length l) by (apply Nat.div_lt_upper_bound; nia). destruct (nth_error_lt_some l _ Lj) as (i & Ei).
    replace k with (k / n * n + k mod n) by lia. rewrite (H _ i) by assumption. symmetry. apply flat_map_const_nth; assumption.
  - symmetry. apply nth_error_None. rewrite (flat_map_const_len g n) by exact Hg. lia.
Qed.
Lemma slice_block {T I} n (g : I -> list T) (l : list I) ix a : (forall i, In i l -> length (g i) = n) -> nth_error l ix = Some a -> slice (flat_map g l) (ix * n) (ix * n + n) = Some (g a).
Proof.
  intros Hg E. assert (L : ix < length l) by (apply nth_error_Some; congruence). assert (La : length (g a) = n) by (apply Hg; eapply nth_error_In; eauto). rewrite slice_some; [|lia|rewrite (flat_map_const_len g n) by exact Hg; nia]. f_equal. apply nth_error_ext. intros k. rewrite nth_error_firstn, nth_error_skipn.
  destruct (Nat.ltb_spec k (ix * n + n - ix * n)) as [Lk|Lk]; [apply flat_map_const_nth; [exact Hg|exact E|lia]|]. symmetry. apply nth_error_None. lia.
Qed.
Lemma map_nth_all {A} (l : list A) d : map (fun i => nth i l d) (seq 0 (length l)) = l.
Proof. apply nth_error_ext. intros i. rewrite nth_error_map, nth_error_seq. destruct (Nat.ltb_spec i (length l)) as [L|L]; cbn [option_map]; [symmetry; apply nth_error_nth'; exact L|symmetry; apply nth_error_None; exact L]. Qed.
Lemma mapM_each {A B} (h : A -> option B) (g : nat -> B) l : (forall s a, nth_error l s = Some a -> h a = Some (g s)) -> mapM h l = Some (map g (seq 0 (length l))).
Proof. intros H. destruct (mapM_total h l) as (r & E). { intros a I. apply In_nth_error in I. destruct I as (s & Es). eauto. } rewrite E. f_equal. apply nth_error_ext. intros s. destruct (nth_error l s) as [a|] eqn:Ea.
  - rewrite <- (mapM_nth _ _ _ _ _ E Ea), (H s a Ea). symmetry. apply nth_map_seq. apply nth_error_Some. congruence.
  - apply nth_error_None in Ea. rewrite (proj2 (nth_error_None r s)) by (rewrite (mapM_length _ _ _ E); exact Ea). symmetry. apply nth_error_None. rewrite map_length, seq_length. exact Ea. Qed.
Lemma map_each {A B} (h : A -> B) (g : nat -> B) l : (forall s a, nth_error l s = Some a -> h a = g s) -> map h l = map g (seq 0 (length l)).
Proof. intros H. pose proof (mapM_each (fun a => Some (h a)) g l (fun s a E => f_equal Some (H s a E))) as Q. rewrite (mapM_eq _ h) in Q by reflexivity. congruence. Qed.
Lemma nodup_parts {A} (a b : list A) : NoDup (a ++ b) -> NoDup a /\ NoDup b.
Proof. induction a as [|x a IH]; intros N; [split; [constructor|exact N]|]. cbn in N. inversion N as [|? ? N1 N2]; subst. destruct (IH N2). split; [constructor; [intros I; apply N1, in_or_app; left; exact I|assumption]|assumption]. Qed.
Lemma nth_error_nth_d {A} (l : list A) i x d : nth_error l i = Some x -> nth i l d = x.
Proof. apply nth_error_nth. Qed.

Section World.
  Context {P T : Type} (zero : T).
  Variables (pts : list (list P)) (moved : list (list (qpart P T))) (f : nat -> nat -> list nat) (srcs : nat -> list nat).
  Let size := length pts.
  Let here (s : nat) := nth s moved [].
  Let npl (r : nat) := length (nth r pts []).
  Hypothesis Nsrcs : forall r, r < size -> NoDup (srcs r).
  Hypothesis Isrcs : forall r s, r < size -> (In s (srcs r) <-> s < size /\ f s r <> []).
  Hypothesis Lmoved : length moved = size.
  (** Every point is in one place. *)
  Hypothesis Uniq : forall s k p s' k' p', s < size -> s' < size -> nth_error (here s) k = Some p -> nth_error (here s') k' = Some p' -> q_rank p = q_rank p' -> q_index p = q_index p' -> s = s' /\ k = k'.
  Hypothesis Valid : forall s k p, s < size -> nth_error (here s) k = Some p -> q_rank p < size /\ nth_error (nth (q_rank p) pts []) (q_index p) = Some (q_coords p).
  Hypothesis Exist : forall r i, r < size -> i < npl r -> exists s k p, s < size /\ nth_error (here s) k = Some p /\ q_rank p = r /\ q_index p = i.

  Definition rank_ok (t : table) (s : nat) (m : qpm P T) : Prop :=
    slots_ok size s (f s) (parts m) /\ length (parts m) = length (here s) /\
    (forall i p, nth_error (parts m) i = Some p -> exists p0, nth_error (here s) i = Some p0 /\ q_coords p = q_coords p0 /\ q_rank p = q_rank p0 /\ q_index p = q_index p0 /\ forall n, q_contrib p n = t (q_rank p) (q_index p) n) /\
    npoint_local m = npl s /\ npoint_remote m = length (sent size (f s)) /\ adding m = counted size (f s) /\ owning m = owned f srcs s /\
    owning_point_indices m = map (fun si => idx (here (fst si)) (snd si)) (arriving f srcs s).
  Definition good (t : table) (w : list (qpm P T)) : Prop := length w = size /\ forall s m, nth_error w s = Some m -> rank_ok t s m.
  Definition tab_ok (t : table) : Prop := forall r i n, i < npl r -> length (t r i n : list T) = n.

  Lemma rank_upd (t t' : table) s m m' : rank_ok t s m -> length (parts m') = length (parts m) ->
    (forall i p', nth_error (parts m') i = Some p' -> exists p, nth_error (parts m) i = Some p /\ q_coords p' = q_coords p /\ q_rank p' = q_rank p /\ q_index p' = q_index p /\ q_slot p' = q_slot p /\ forall n, q_contrib p' n = t' (q_rank p) (q_index p) n) ->
    npoint_local m' = npoint_local m -> npoint_remote m' = npoint_remote m -> adding m' = adding m -> owning m' = owning m -> owning_point_indices m' = owning_point_indices m -> rank_ok t' s m'.
  Proof.
    intros ((S1 & S2 & S3 & S4 & S5) & Lp & Hp & A1 & A2 & A3 & A4 & A5) L H E1 E2 E3 E4 E5. assert (Fwd : forall i p, nth_error (parts m) i = Some p -> exists p', nth_error (parts m') i = Some p' /\ q_rank p' = q_rank p /\ q_slot p' = q_slot p).
    { intros i p E. destruct (nth_error_lt_some (parts m') i) as (p' & E'); [rewrite L; apply nth_error_Some; congruence|]. destruct (H i p' E') as (q & Eq & _ & H2 & _ & H4 & _). exists p'. split; [exact E'|]. assert (q = p) by congruence. subst. auto. }
    split; [split; [|split; [|split; [exact S3|split]]]|].
    - intros p I. apply In_nth_error in I. destruct I as (i & E). destruct (H i p E) as (q & Eq & _ & H2 & _). rewrite H2. apply S1. eapply nth_error_In; eauto.
    - intros r i. rewrite S2. split; intros (N & p & E & Er); (split; [exact N|]); [destruct (Fwd i p E) as (p' & E' & R & _); exists p'; split; [exact E'|congruence]|]. destruct (H i p E) as (q & Eq & _ & H2 & _). exists q. split; [exact Eq|congruence].
    - intros p I Er. apply In_nth_error in I. destruct I as (i & E). destruct (H i p E) as (q & Eq & _ & H2 & H3 & H4 & _). rewrite H4, H3. apply S4; [eapply nth_error_In; eauto|congruence].
    - intros j i Ej. destruct (S5 j i Ej) as (p & E & Es). destruct (Fwd i p E) as (p' & E' & _ & R). exists p'. split; [exact E'|congruence].
    - split; [congruence|]. split; [|rewrite E1, E2, E3, E4, E5; auto]. intros i p E. destruct (H i p E) as (q & Eq & H1 & H2 & H3 & _ & H5). destruct (Hp i q Eq) as (p0 & E0 & G1 & G2 & G3 & _). exists p0. rewrite H2, H3. split; [exact E0|]. split; [congruence|]. split; [congruence|]. split; [congruence|exact H5].
  Qed.

  (** ** get *)
  Section Get.
    Variables (t : table (T := T)) (n : nat).
    Hypothesis Ht : tab_ok t.
    Hypothesis Hn : 0 < n < 1000.
    Definition val (s i : nat) : list T := match nth_error (here s) i with Some p => t (q_rank p) (q_index p) n | None => [] end.
    Lemma val_length s i p : s < size -> nth_error (here s) i = Some p -> length (val s i) = n.
    Proof. intros L E. unfold val. rewrite E. apply Ht. destruct (Valid s i p L E) as (_ & V). unfold npl. apply nth_error_Some. congruence. Qed.
    Lemma contribs_length (junk : nat -> T) b k : k <= length (make_contribs junk b k).
    Proof. unfold make_contribs. destruct b as [b|]; [|rewrite map_length, seq_length; lia]. destruct (Nat.ltb_spec (length b) (Nat.max k 1)); [rewrite map_length, seq_length; lia|lia]. Qed.

    Lemma get_rank_ok (e : qenv T) s m : s < size -> device_ok (e_dev e) -> rank_ok t s m ->
      exists m' out recv, get_rank zero e s n m = Some (m', out, flat_map (val s) (sent size (f s)), recv) /\ rank_ok t s m' /\ length out = npl s * n /\ length recv = length (arriving f srcs s) /\
        forall k p, nth_error (here s) k = Some p -> q_rank p = s -> forall cx, cx < n -> nth_error out (q_index p * n + cx) = nth_error (t s (q_index p) n) cx.
    Proof.
      intros Ls Hd R. destruct R as ((S1 & S2 & S3 & S4 & S5) & Lp & Hp & A1 & A2 & A3 & A4 & A5). unfold get_rank. set (ps := parts m) in *. rewrite A1, A2.
      set (l0 := make_contribs (e_reals e) (local_contribs m) (npl s * n)). set (r0 := make_contribs (e_reals e) (remote_contribs m) (length (sent size (f s)) * n)).
      assert (Ll : npl s * n <= length l0) by apply contribs_length. assert (Lr : length (sent size (f s)) * n <= length r0) by apply contribs_length.
      set (sched := ord (e_dev e) 3 (seq 0 (length ps))). assert (Hs : forall i, In i sched <-> i < length ps) by (intros i; apply (sched_lt (e_dev e) ps Hd)). assert (Ns : NoDup sched) by (apply (sched_nodup (e_dev e) ps Hd)).
      set (q := fun i => match nth_error ps i with Some p => q_rank p =? s | None => false end). set (sl := fun i => match nth_error ps i with Some p => q_slot p | None => 0 end). set (vals := fun i => match nth_error ps i with Some p => q_contrib p n | None => [] end).
      set (g := fun (b : list T) i => p <- rd ps i ;; put n (q_slot p * n) (q_contrib p n) b).
      assert (Gp : forall i b, In i sched -> g b i = put n (sl i * n) (vals i) b). { intros i b I. apply Hs in I. destruct (nth_error_lt_some ps i I) as (p & E). unfold g, sl, vals, rd. rewrite E. reflexivity. }
      assert (Vv : forall i, In i sched -> vals i = val s i /\ length (vals i) = n). { intros i I. apply Hs in I. destruct (nth_error_lt_some ps i I) as (p & E). destruct (Hp i p E) as (p0 & E0 & _ & H2 & H3 & H4). assert (X : vals i = val s i) by (unfold vals, val; rewrite E, E0, H4, H2, H3; reflexivity). split; [exact X|]. rewrite X. apply (val_length s i p0 Ls E0). }
      assert (Loc : forall i, In i sched -> q i = true -> exists p0, nth_error (here s) i = Some p0 /\ q_rank p0 = s /\ sl i = q_index p0 /\ q_index p0 < npl s).
      { intros i I Q. apply Hs in I. destruct (nth_error_lt_some ps i I) as (p & E). unfold q in Q. rewrite E in Q. apply Nat.eqb_eq in Q. destruct (Hp i p E) as (p0 & E0 & _ & H2 & H3 & _). exists p0. split; [exact E0|]. split; [congruence|]. split; [unfold sl; rewrite E, (S4 p (nth_error_In _ _ E) Q); exact H3|]. destruct (Valid s i p0 Ls E0) as (_ & V). unfold npl. apply nth_error_Some. replace s with (q_rank p0) by congruence. congruence. }
      assert (Rem : forall i, In i sched -> q i = false -> nth_error (sent size (f s)) (sl i) = Some i).
      { intros i I Q. apply Hs in I. destruct (nth_error_lt_some ps i I) as (p & E). unfold q in Q. rewrite E in Q. apply Nat.eqb_neq in Q. assert (J : In i (sent size (f s))). { apply in_flat_map. exists (q_rank p). split; [apply in_seq; split; [lia|]; apply S1; eapply nth_error_In; eauto|]. apply S2. split; [exact Q|]. exists p. auto. }
        apply In_nth_error in J. destruct J as (j & Ej). destruct (S5 j i Ej) as (p' & E' & Es). unfold sl. rewrite E'. congruence. }
      destruct (blocks_ok n vals sl g (filter q sched) l0) as (l & El & Ll1 & L1 & _).
      { intros i b I _. apply filter_In in I. apply Gp, I. }
      { intros i I. apply filter_In in I. destruct I as (I & Q). split; [apply Vv, I|]. destruct (Loc i I Q) as (p0 & _ & _ & Es & Lx). rewrite Es. nia. }
      { apply NoDup_map_inj; [|apply NoDup_filter, Ns]. intros i j I J E. apply filter_In in I. apply filter_In in J. destruct (Loc i (proj1 I) (proj2 I)) as (p1 & E1 & R1 & X1 & _). destruct (Loc j (proj1 J) (proj2 J)) as (p2 & E2 & R2 & X2 & _). apply (Uniq s i p1 s j p2 Ls Ls E1 E2); congruence. }
      destruct (blocks_ok n vals sl g (filter (fun i => negb (q i)) sched) r0) as (r & Er & Lr1 & R1 & _).
      { intros i b I _. apply filter_In in I. apply Gp, I. }
      { intros i I. apply filter_In in I. destruct I as (I & Q). apply negb_true_iff in Q. split; [apply Vv, I|]. pose proof (Rem i I Q) as X. assert (sl i < length (sent size (f s))) by (apply nth_error_Some; congruence). nia. }
      { apply NoDup_map_inj; [|apply NoDup_filter, Ns]. intros i j I J E. apply filter_In in I. apply filter_In in J. destruct I as (I & QI), J as (J & QJ). apply negb_true_iff in QI. apply negb_true_iff in QJ. pose proof (Rem i I QI). pose proof (Rem j J QJ). congruence. }
      rewrite (foldM_two q g g (get_item s n ps)) with (a' := l) (b' := r); [|intros a b i; unfold get_item, g, q, rd; destruct (nth_error ps i) as [p|]; cbn [obind fst snd]; [reflexivity|reflexivity]|exact El|exact Er].
      cbn [obind fst snd]. rewrite slice_some by lia. cbn [obind]. rewrite slice_some by lia. cbn [obind]. rewrite !Nat.sub_0_r. cbn [skipn].
      rewrite (blocks_eq n (val s)); [| lia | | lia |].
      - eexists _, _, _. split; [reflexivity|]. split; [unfold rank_ok, slots_ok; cbn; auto 20|]. split; [rewrite firstn_length; lia|]. split.
        + unfold resize. rewrite app_length, firstn_length, repeat_length, A4. pose proof (owned_sum f srcs s 1) as O. rewrite map_mul1 in O. rewrite O. lia.
        + intros k p E Ep cx Lc. destruct (Valid s k p Ls E) as (_ & V). rewrite Ep in V. assert (Lx : q_index p < npl s) by (unfold npl; apply nth_error_Some; congruence). rewrite nth_error_firstn. destruct (Nat.ltb_spec (q_index p * n + cx) (npl s * n)); [|nia].
          assert (Ik : In k sched) by (apply Hs; rewrite Lp; apply nth_error_Some; congruence). assert (Qk : q k = true). { destruct (nth_error_lt_some ps k) as (p' & E'); [apply Hs, Ik|]. destruct (Hp k p' E') as (p0 & E0 & _ & H2 & _). unfold q. rewrite E'. apply Nat.eqb_eq. congruence. }
          destruct (Loc k Ik Qk) as (p0 & E0 & _ & Es & _). assert (p0 = p) by congruence. subst p0. rewrite <- Es. rewrite L1 by (try exact Lc; apply filter_In; auto). rewrite (proj1 (Vv k Ik)). unfold val. rewrite E, Ep, Es. reflexivity.
      - intros i I. apply In_nth_error in I. destruct I as (j & Ej). destruct (S5 j i Ej) as (p & E & _). apply (Hp i p) in E. destruct E as (p0 & E0 & _). apply (val_length s i p0 Ls E0).
      - intros j i cx Ej Lc. destruct (S5 j i Ej) as (p & E & Es). assert (I : In i sched) by (apply Hs; apply nth_error_Some; congruence). assert (Q : q i = false). { apply nth_error_In, in_flat_map in Ej. destruct Ej as (r' & _ & J). apply S2 in J. destruct J as (N & p' & E' & E2). unfold q. rewrite E'. apply Nat.eqb_neq. congruence. }
        assert (sl i = j) as <- by (unfold sl; rewrite E; exact Es). rewrite R1 by (try exact Lc; apply filter_In; rewrite Q; auto). rewrite (proj1 (Vv i I)). reflexivity.
    Qed.

    (** What arrives. *)
    Lemma arriving_good w r s i : good t w -> r < size -> In (s, i) (arriving f srcs r) -> s < size /\ r <> s /\ exists p, nth_error (here s) i = Some p /\ q_rank p = r /\ q_index p < npl r.
    Proof.
      intros (Lw & G) Lr I. apply (arriving_in size f srcs Isrcs) in I; [|exact Lr]. destruct I as (Ls & I). destruct (nth_error_lt_some w s) as (m & Em); [lia|]. destruct (G s m Em) as ((_ & S2 & _) & _ & Hp & _). apply S2 in I. destruct I as (N & p & E & Er). destruct (Hp i p E) as (p0 & E0 & _ & H2 & H3 & _).
      split; [exact Ls|]. split; [exact N|]. exists p0. split; [exact E0|]. split; [congruence|]. destruct (Valid s i p0 Ls E0) as (_ & V). unfold npl. apply nth_error_Some. replace r with (q_rank p0) by congruence. congruence.
    Qed.
    Lemma arriving_nodup w r : good t w -> r < size -> NoDup (arriving f srcs r).
    Proof.
      intros (Lw & G) Lr. apply NoDup_flat_map; [apply Nsrcs, Lr| |].
      - intros s Is. apply (Isrcs r s Lr) in Is. destruct Is as (Ls & _). destruct (nth_error_lt_some w s) as (m & Em); [lia|]. destruct (G s m Em) as ((_ & _ & S3 & _) & _). apply NoDup_map_inj; [intros x y _ _ E; congruence|].
        unfold sent in S3. replace size with (r + S (size - S r)) in S3 by lia. rewrite seq_app, flat_map_app in S3. cbn [seq flat_map] in S3. change (0 + r) with r in S3. apply nodup_parts in S3. destruct S3 as (_ & S3). apply nodup_parts in S3. apply S3.
      - intros a1 a2 b _ _ I1 I2. apply in_map_iff in I1. apply in_map_iff in I2. destruct I1 as (x & <- & _). destruct I2 as (y & E & _). congruence.
    Qed.
    Lemma arriving_keys w r : good t w -> r < size -> NoDup (map (fun si => idx (here (fst si)) (snd si)) (arriving f srcs r)).
    Proof.
      intros G Lr. apply NoDup_map_inj; [|apply (arriving_nodup w); assumption]. intros (s & i) (s' & i') I I' E. cbn [fst snd] in E. destruct (arriving_good w r s i G Lr I) as (Ls & _ & p & Ep & Rp & _). destruct (arriving_good w r s' i' G Lr I') as (Ls' & _ & p' & Ep' & Rp' & _). unfold idx in E. rewrite Ep, Ep' in E.
      destruct (Uniq s i p s' i' p' Ls Ls' Ep Ep') as (-> & ->); [congruence|exact E|reflexivity].
    Qed.
    Lemma fill_ok w r m out : good t w -> r < size -> rank_ok t r m -> length out = npl r * n ->
      (forall k p, nth_error (here r) k = Some p -> q_rank p = r -> forall cx, cx < n -> nth_error out (q_index p * n + cx) = nth_error (t r (q_index p) n) cx) ->
      fill_output n (owning_point_indices m) (flat_map (fun si => val (fst si) (snd si)) (arriving f srcs r)) out = Some (flat_map (fun i => t r i n) (seq 0 (npl r))).
    Proof.
      intros G Lr (_ & _ & _ & _ & _ & _ & _ & A5) Lo Ho. rewrite A5. set (ar := arriving f srcs r). set (key := fun si : nat * nat => idx (here (fst si)) (snd si)). unfold fill_output. rewrite map_length.
      assert (Va : forall si, In si ar -> length (val (fst si) (snd si)) = n). { intros (s & i) I. destruct (arriving_good w r s i G Lr I) as (Ls & _ & p & Ep & _). apply (val_length s i p Ls Ep). }
      assert (Ka : forall si, In si ar -> key si < npl r /\ val (fst si) (snd si) = t r (key si) n). { intros (s & i) I. destruct (arriving_good w r s i G Lr I) as (Ls & _ & p & Ep & Rp & Lx). unfold key, idx, val. cbn [fst snd]. rewrite Ep, Rp. auto. }
      set (sl := fun ix => nth ix (map key ar) 0). set (vals := fun ix => match nth_error ar ix with Some si => val (fst si) (snd si) | None => [] end).
      assert (Sl : forall ix si, nth_error ar ix = Some si -> sl ix = key si). { intros ix si E. unfold sl. apply nth_error_nth. rewrite nth_error_map, E. reflexivity. }
      destruct (blocks_ok n vals sl (fun out ix => dst_index <- rd (map key ar) ix ;; v <- slice (flat_map (fun si => val (fst si) (snd si)) ar) (ix * n) (ix * n + n) ;; put n (dst_index * n) v out) (seq 0 (length ar)) out) as (b & Eb & Lb & B1 & B2).
      - intros ix b I _. apply in_seq in I. destruct (nth_error_lt_some ar ix) as (si & E); [lia|]. unfold rd. rewrite nth_error_map, E. cbn [option_map obind]. rewrite (slice_block n (fun si => val (fst si) (snd si)) ar ix si Va E). cbn [obind]. rewrite (Sl ix si E). unfold vals. rewrite E. reflexivity.
      - intros ix I. apply in_seq in I. destruct (nth_error_lt_some ar ix) as (si & E); [lia|]. pose proof (nth_error_In _ _ E) as Is. unfold vals. rewrite E, (Sl ix si E). split; [apply Va, Is|]. pose proof (proj1 (Ka si Is)). rewrite Lo. nia.
      - unfold sl. rewrite <- (map_length key ar), map_nth_all. apply (arriving_keys w); assumption.
      - rewrite Eb. f_equal. assert (Es : map sl (seq 0 (length ar)) = map key ar) by (unfold sl; rewrite <- (map_length key ar) at 1; apply map_nth_all). rewrite Es in B2.
        pose proof (blocks_eq n (fun i => t r i n) (seq 0 (npl r)) b) as X. rewrite seq_length in X. rewrite <- X; [symmetry; apply firstn_all2; lia|lia|intros i I; apply in_seq in I; apply Ht; lia|lia|].
        intros j i cx Ej Lc. rewrite nth_error_seq in Ej. destruct (Nat.ltb_spec j (npl r)) as [Lj|Lj]; [|discriminate]. inversion Ej; subst i. cbn [plus].
        destruct (Exist r j Lr Lj) as (s & k & p & Ls & Ek & Rp & Ip). destruct (Nat.eq_dec s r) as [->|Ns].
        + rewrite B2; [|intros I|exact Lc]. { pose proof (Ho k p Ek Rp cx Lc) as Q. rewrite Ip in Q. exact Q. }
          apply in_map_iff in I. destruct I as ((s' & i') & Ei & Is). destruct (arriving_good w r s' i' G Lr Is) as (Ls' & Ns' & p' & Ep' & Rp' & _). unfold key, idx in Ei. cbn [fst snd] in Ei. rewrite Ep' in Ei. destruct (Uniq r k p s' i' p' Lr Ls' Ek Ep'); congruence.
        + assert (I : In (s, k) ar). { apply (arriving_in size f srcs Isrcs); [exact Lr|]. split; [exact Ls|]. destruct G as (Lw & G). destruct (nth_error_lt_some w s) as (ms & Em); [lia|]. destruct (G s ms Em) as ((_ & S2 & _) & Lp & Hp & _). apply S2. split; [auto|]. destruct (nth_error_lt_some (parts ms) k) as (p' & E'); [rewrite Lp; apply nth_error_Some; congruence|]. exists p'. split; [exact E'|]. destruct (Hp k p' E') as (p0 & E0 & _ & H2 & _). congruence. }
          apply In_nth_error in I. destruct I as (ix & Eix). assert (Iq : In ix (seq 0 (length ar))) by (apply in_seq; split; [lia|]; apply nth_error_Some; congruence). pose proof (B1 ix cx Iq Lc) as Q. rewrite (Sl ix (s, k) Eix) in Q. unfold vals in Q. rewrite Eix in Q. rewrite (proj2 (Ka (s, k) (nth_error_In _ _ Eix))) in Q.
          replace (key (s, k)) with j in Q by (unfold key, idx; cbn [fst snd]; rewrite Ek; auto). exact Q.
    Qed.

    Lemma get_x (env : nat -> qenv T) w : good t w -> (forall r, device_ok (e_dev (env r))) -> exists x, mapM (fun r => m <- rd w r ;; get_rank zero (env r) r n m) (seq 0 (length w)) = Some x /\ length x = size /\
      forall r a, nth_error x r = Some a -> exists m' out recv, a = (m', out, flat_map (val r) (sent size (f r)), recv) /\ rank_ok t r m' /\ length out = npl r * n /\ length recv = length (arriving f srcs r) /\
        forall k p, nth_error (here r) k = Some p -> q_rank p = r -> forall cx, cx < n -> nth_error out (q_index p * n + cx) = nth_error (t r (q_index p) n) cx.
    Proof.
      intros (Lw & G) Hd. rewrite Lw. assert (H : forall r, r < size -> exists m' out recv, (m <- rd w r ;; get_rank zero (env r) r n m) = Some (m', out, flat_map (val r) (sent size (f r)), recv) /\ rank_ok t r m' /\ length out = npl r * n /\ length recv = length (arriving f srcs r) /\
        forall k p, nth_error (here r) k = Some p -> q_rank p = r -> forall cx, cx < n -> nth_error out (q_index p * n + cx) = nth_error (t r (q_index p) n) cx).
      { intros r Lr. destruct (nth_error_lt_some w r) as (m & Em); [lia|]. unfold rd. rewrite Em. cbn [obind]. apply get_rank_ok; [exact Lr|apply Hd|apply G, Em]. }
      destruct (mapM_total (fun r => m <- rd w r ;; get_rank zero (env r) r n m) (seq 0 size)) as (x & Ex). { intros r I. apply in_seq in I. destruct (H r) as (m' & out & recv & E & _); [lia|]. eauto. }
      exists x. split; [exact Ex|]. assert (Lx : length x = size) by (rewrite (mapM_length _ _ _ Ex); apply seq_length). split; [exact Lx|]. intros r a Ea. assert (Lr : r < size) by (rewrite <- Lx; apply nth_error_Some; congruence).
      assert (Es : nth_error (seq 0 size) r = Some r) by (rewrite nth_error_seq; destruct (Nat.ltb_spec r size); [reflexivity|lia]). pose proof (mapM_nth _ _ _ _ _ Ex Es) as Q. rewrite Ea in Q. destruct (H r Lr) as (m' & out & recv & E & K). rewrite E in Q. inversion Q; subst a. exists m', out, recv. auto.
    Qed.
    Lemma get_ok (env : nat -> qenv T) w : good t w -> (forall r, device_ok (e_dev (env r))) -> (n = 1 \/ forall r, r < size -> arriving f srcs r = []) ->
      exists w', get zero env n w = Some (w', map (fun r => flat_map (fun i => t r i n) (seq 0 (npl r))) (seq 0 size)) /\ good t w'.
    Proof.
      intros G Hd Hc. destruct (get_x env w G Hd) as (x & Ex & Lx & Hx). unfold get. destruct (Nat.ltb_spec 0 n); [|lia]. destruct (Nat.ltb_spec n 1000); [|lia]. cbn [andb assert obind]. rewrite Ex. cbn [obind].
      assert (Vs : forall s i, s < size -> In i (sent size (f s)) -> length (val s i) = n).
      { intros s i Ls I. destruct G as (Lw & G). destruct (nth_error_lt_some w s) as (m & Em); [lia|]. destruct (G s m Em) as ((_ & _ & _ & _ & S5) & _ & Hp & _). apply In_nth_error in I. destruct I as (j & Ej). destruct (S5 j i Ej) as (p & E & _). destruct (Hp i p E) as (p0 & E0 & _). apply (val_length s i p0 Ls E0). }
      rewrite (mapM_each _ (fun s => map (fun e => (fst e, flat_map (val s) (snd e))) (row size (f s)))).
      2:{ intros s a Ea. assert (Ls : s < size) by (rewrite <- Lx; apply nth_error_Some; congruence). destruct (Hx s a Ea) as (m' & out & recv & -> & R & _). destruct R as (_ & _ & _ & _ & _ & A3 & _). rewrite A3. apply pack_ok. intros i I. apply Vs; assumption. }
      cbn [obind]. rewrite Lx. rewrite (map_each (fun '(m, _, _, _) => owning m) (owned f srcs) x). 2:{ intros s a Ea. destruct (Hx s a Ea) as (m' & out & recv & -> & R & _). apply R. }
      rewrite Lx. rewrite (exchange_ok size f srcs Nsrcs Isrcs n val).
      2:{ exact Vs. } 2:{ rewrite map_length. exact Lx. } 2:{ intros r b Eb. rewrite nth_error_map in Eb. destruct (nth_error x r) as [a|] eqn:Ea; [|discriminate]. assert (Lr : r < size) by (rewrite <- Lx; apply nth_error_Some; congruence). destruct (Hx r a Ea) as (m' & out & recv & -> & _ & _ & Lrecv & _). cbn in Eb. inversion Eb; subst b. rewrite Lrecv. destruct Hc as [->|Hc]; [lia|rewrite (Hc r Lr); reflexivity]. }
      cbn [obind]. rewrite (proj1 G).
      destruct (mapM_total (fun r => a <- rd x r ;; recv <- rd (map (fun r0 => flat_map (fun si => val (fst si) (snd si)) (arriving f srcs r0)) (seq 0 size)) r ;;
           let '(m, output, _, _) := a in out <- fill_output n (owning_point_indices m) recv output ;;
           Some (mk_qpm (parts m) (npoint_local m) (npoint_remote m) (adding m) (owning m) (owning_point_indices m) (local_contribs m) (remote_contribs m) recv, out)) (seq 0 size)) as (y & Ey).
      { intros r I. apply in_seq in I. destruct (nth_error_lt_some x r) as (a & Ea); [lia|]. unfold rd. rewrite Ea. cbn [obind]. rewrite nth_map_seq by lia. cbn [obind]. destruct (Hx r a Ea) as (m' & out & recv & -> & R & Lo & _ & Ho). rewrite (fill_ok w r m' out G) by (try assumption; lia). cbn [obind]. eauto. }
      assert (Hy : forall r b, nth_error y r = Some b -> rank_ok t r (fst b) /\ snd b = flat_map (fun i => t r i n) (seq 0 (npl r))).
      { intros r b Eb. assert (Ly : length y = size) by (rewrite (mapM_length _ _ _ Ey); apply seq_length). assert (Lr : r < size) by (rewrite <- Ly; apply nth_error_Some; congruence).
        assert (Es : nth_error (seq 0 size) r = Some r) by (rewrite nth_error_seq; destruct (Nat.ltb_spec r size); [reflexivity|lia]). pose proof (mapM_nth _ _ _ _ _ Ey Es) as Q. rewrite Eb in Q. destruct (nth_error_lt_some x r) as (a & Ea); [lia|]. unfold rd in Q. rewrite Ea in Q. cbn [obind] in Q. rewrite nth_map_seq in Q by lia. cbn [obind] in Q. destruct (Hx r a Ea) as (m' & out & recv & -> & R & Lo & _ & Ho). rewrite (fill_ok w r m' out G) in Q by assumption. cbn [obind] in Q. inversion Q; subst b. cbn [fst snd]. split; [|reflexivity].
        unfold rank_ok in *. cbn. exact R. }
      rewrite Ey. cbn [obind]. assert (Ly : length y = size) by (rewrite (mapM_length _ _ _ Ey); apply seq_length). exists (map fst y). rewrite (map_each snd (fun r => flat_map (fun i => t r i n) (seq 0 (npl r))) y) by (intros r b Eb; apply (Hy r b Eb)). rewrite Ly. split; [reflexivity|]. split; [rewrite map_length; exact Ly|].
      intros s m Em. rewrite nth_error_map in Em. destruct (nth_error y s) as [b|] eqn:Eb; [|discriminate]. cbn in Em. inversion Em; subst m. apply (Hy s b Eb).
    Qed.
    Lemma get_none (env : nat -> qenv T) w r : good t w -> (forall r, device_ok (e_dev (env r))) -> n <> 1 -> r < size -> arriving f srcs r <> [] -> get zero env n w = None.
    Proof.
      intros G Hd N1 Lr Na. destruct (get_x env w G Hd) as (x & Ex & Lx & Hx). unfold get. destruct (Nat.ltb_spec 0 n); [|lia]. destruct (Nat.ltb_spec n 1000); [|lia]. cbn [andb assert obind]. rewrite Ex. cbn [obind].
      destruct (mapM _ x) as [sends|]; [|reflexivity]. cbn [obind]. rewrite (map_each (fun '(m, _, _, _) => owning m) (owned f srcs) x). 2:{ intros s a Ea. destruct (Hx s a Ea) as (m' & out & recv & -> & R & _). apply R. }
      rewrite Lx. destruct (nth_error_lt_some x r) as (a & Ea); [lia|]. destruct (Hx r a Ea) as (m' & out & recv & -> & _ & _ & Lrecv & _). rewrite (exchange_short size f srcs n sends _ r recv); [reflexivity|exact Lr|rewrite nth_error_map, Ea; reflexivity|]. rewrite Lrecv. destruct (arriving f srcs r); [contradiction|]. cbn [length]. nia.
    Qed.
  End Get.
End World.
