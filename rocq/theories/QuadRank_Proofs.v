(** The points on one rank: lists, places and buffers. *)
From Coq Require Import List Arith ZArith Bool Permutation Lia.
Import ListNotations.
From Verif Require Import Base Kernel MHC_Model MHCmsg_Proofs Quad_Model SubGroupKernel_Proofs.
Local Open Scope nat_scope.

(** ** Offsets *)
Definition start {A} (f : nat -> list A) (a : nat) : nat := length (flat_map f (seq 0 a)).
Lemma start_S {A} (f : nat -> list A) a : start f (S a) = start f a + length (f a).
Proof. unfold start. rewrite seq_S, flat_map_app, app_length. cbn. rewrite app_nil_r. reflexivity. Qed.
Lemma row_offsets {A} (f : nat -> list A) c : forall n a,
  offsets (start f a * c) (map (fun e => length (snd e) * c) (flat_map (fun r => match f r with [] => [] | l => [(r, l)] end) (seq a n))) =
  map (fun e => start f (fst e) * c) (flat_map (fun r => match f r with [] => [] | l => [(r, l)] end) (seq a n)).
Proof.
  induction n as [|n IH]; intros a; [reflexivity|]. cbn [seq flat_map]. specialize (IH (S a)). rewrite start_S in IH.
  destruct (f a) as [|x l] eqn:E; [cbn [app]; cbn [length] in IH; rewrite Nat.add_0_r in IH; exact IH|].
  cbn [app map offsets fst snd]. f_equal. rewrite <- Nat.mul_add_distr_r. exact IH.
Qed.
Lemma combine_map2 {A B C} (g : A -> B) (h : A -> C) l : combine (map g l) (map h l) = map (fun a => (g a, h a)) l.
Proof. induction l as [|a l IH]; [reflexivity|]. cbn. rewrite IH. reflexivity. Qed.
Lemma row_in {A} size (f : nat -> list A) r l : In (r, l) (row size f) <-> r < size /\ f r = l /\ l <> [].
Proof.
  unfold row. rewrite in_flat_map. split.
  - intros (s & Is & I). apply in_seq in Is. destruct (f s) as [|x k] eqn:E; [destruct I|]. destruct I as [I|[]]. inversion I; subst. split; [lia|]. split; [exact E|discriminate].
  - intros (L & E & N). exists r. split; [apply in_seq; lia|]. rewrite E. destruct l; [contradiction|]. left; reflexivity.
Qed.
Lemma row_concat {A} size (f : nat -> list A) : concat (map snd (row size f)) = flat_map f (seq 0 size).
Proof. unfold row. induction (seq 0 size) as [|a l IH]; [reflexivity|]. cbn [flat_map]. rewrite map_app, concat_app, IH. f_equal. destruct (f a); [reflexivity|]. cbn. rewrite app_nil_r. reflexivity. Qed.
Lemma row_nodup {A} size (f : nat -> list A) : NoDup (map fst (row size f)).
Proof.
  unfold row. assert (H : forall n a, NoDup (map fst (flat_map (fun r => match f r with [] => [] | l => [(r, l)] end) (seq a n))) /\ forall r, In r (map fst (flat_map (fun r => match f r with [] => [] | l => [(r, l)] end) (seq a n))) -> a <= r).
  { induction n as [|n IH]; intros a; [split; [constructor|intros ? []]|]. cbn [seq flat_map]. destruct (IH (S a)) as (N & G). destruct (f a) as [|x l]; cbn [app map fst]; [split; [exact N|intros r I; specialize (G r I); lia]|].
    split; [constructor; [intros I; specialize (G a I); lia|exact N]|]. intros r [<-|I]; [lia|]. specialize (G r I); lia. }
  apply H.
Qed.
Lemma flat_map_at {A} (f : nat -> list A) n r j x : r < n -> nth_error (f r) j = Some x -> nth_error (flat_map f (seq 0 n)) (start f r + j) = Some x.
Proof.
  intros L E. replace n with (r + S (n - S r)) by lia. rewrite seq_app, flat_map_app. unfold start. rewrite nth_error_app2 by lia.
  replace (length _ + j - length _) with j by lia. cbn [seq flat_map]. change (0 + r) with r. rewrite nth_error_app1; [exact E|]. apply nth_error_Some. rewrite E. discriminate.
Qed.
Lemma start_mono {A} (f : nat -> list A) a b : a <= b -> start f a <= start f b.
Proof. intros L. unfold start. replace b with (a + (b - a)) by lia. rewrite seq_app, flat_map_app, app_length. lia. Qed.
Lemma flat_map_where {A} (f : nat -> list A) n j x : nth_error (flat_map f (seq 0 n)) j = Some x -> exists r i, r < n /\ nth_error (f r) i = Some x /\ j = start f r + i.
Proof.
  revert j. induction n as [|n IH]; intros j E; [destruct j; discriminate|]. rewrite seq_S, flat_map_app in E. cbn [flat_map] in E. rewrite app_nil_r in E. cbn [plus] in E.
  destruct (lt_dec j (start f n)) as [L|L].
  - rewrite nth_error_app1 in E by exact L. destruct (IH j E) as (r & i & Lr & Ei & Ej). exists r, i. split; [lia|]. auto.
  - rewrite nth_error_app2 in E by (unfold start in L; lia). exists n, (j - start f n). split; [lia|]. split; [exact E|]. lia.
Qed.

(** ** Writing blocks *)
Lemma put_ok {T} c a (v buf : list T) : length v = c -> a + c <= length buf ->
  exists b, put c a v buf = Some b /\ length b = length buf /\
    (forall cx, cx < c -> nth_error b (a + cx) = nth_error v cx) /\ (forall k, k < a \/ a + c <= k -> nth_error b k = nth_error buf k).
Proof.
  intros Lv Lb. unfold put.
  destruct (foldM_ind (fun b cx => x <- rd v cx ;; upd b (a + cx) x) (fun pre b => length b = length buf /\ (forall cx, cx < length pre -> nth_error b (a + cx) = nth_error v cx) /\
     (forall k, k < a \/ a + length pre <= k -> nth_error b k = nth_error buf k)) (seq 0 c) buf) as (b & E & H1 & H2 & H3).
  - split; [reflexivity|]. split; [intros cx L; cbn in L; lia|reflexivity].
  - intros pre x post b Es (H1 & H2 & H3). assert (Lp : length (pre ++ x :: post) = c) by (rewrite <- Es; apply seq_length). rewrite app_length in Lp. cbn in Lp.
    assert (Ex : x = length pre). { pose proof (nth_error_seq 0 c (length pre)) as Q. rewrite Es, nth_error_app2, Nat.sub_diag in Q by lia. cbn [nth_error] in Q. destruct (Nat.ltb_spec (length pre) c); [injection Q as Q; exact Q|lia]. }
    destruct (nth_error_lt_some v x) as (y & Ey); [lia|]. unfold rd. rewrite Ey. cbn [obind]. destruct (upd_some b (a + x) y) as (b' & Eb); [lia|]. exists b'. split; [exact Eb|].
    split; [rewrite (upd_length _ _ _ _ Eb); exact H1|]. rewrite app_length. cbn [length]. split.
    + intros cx L. destruct (Nat.eq_dec cx x) as [->|N]; [rewrite (upd_nth_eq _ _ _ _ Eb), Ey; reflexivity|]. rewrite (upd_nth_neq _ _ _ _ _ Eb) by lia. apply H2. lia.
    + intros k L. rewrite (upd_nth_neq _ _ _ _ _ Eb) by lia. apply H3. lia.
  - rewrite seq_length in *. exists b. auto.
Qed.
(** Blocks of [c] values at distinct places. *)
Lemma blocks_ok {T I} c (vals : I -> list T) (sl : I -> nat) (step : list T -> I -> option (list T)) : forall sched buf,
  (forall i b, In i sched -> length b = length buf -> step b i = put c (sl i * c) (vals i) b) ->
  (forall i, In i sched -> length (vals i) = c /\ sl i * c + c <= length buf) -> NoDup (map sl sched) ->
  exists b, foldM step buf sched = Some b /\ length b = length buf /\
    (forall i cx, In i sched -> cx < c -> nth_error b (sl i * c + cx) = nth_error (vals i) cx) /\
    (forall s cx, ~ In s (map sl sched) -> cx < c -> nth_error b (s * c + cx) = nth_error buf (s * c + cx)).
Proof.
  induction sched as [|i sched IH]; intros buf HS H N; [exists buf; cbn; split; [reflexivity|]; split; [reflexivity|]; split; [intros ? ? []|reflexivity]|].
  cbn [map] in N. inversion N as [|? ? N1 N2]; subst. destruct (H i (or_introl eq_refl)) as (Hv & Hb). destruct (put_ok c (sl i * c) (vals i) buf Hv Hb) as (b1 & E1 & L1 & A1 & A2).
  cbn [foldM]. rewrite (HS i buf (or_introl eq_refl) eq_refl), E1. cbn [obind]. destruct (IH b1) as (b & E & L & B1 & B2).
  { intros j b Ij Lb. apply HS; [right; exact Ij|congruence]. } { intros j Ij. rewrite L1. apply H. right. exact Ij. } { exact N2. }
  exists b. split; [exact E|]. split; [congruence|]. assert (D : forall s cx, s <> sl i -> cx < c -> s * c + cx < sl i * c \/ sl i * c + c <= s * c + cx). { intros s cx Ns Lc. destruct (lt_dec s (sl i)); [left|right]; nia. }
  split.
  - intros j cx [<-|Ij] Lc; [|apply B1; assumption]. rewrite B2 by assumption. apply A1, Lc.
  - intros s cx Ns Lc. rewrite B2 by (try exact Lc; intros X; apply Ns; right; exact X). apply A2, D; [intros ->; apply Ns; left; reflexivity|exact Lc].
Qed.
(** A loop that works on one of two buffers. *)
Lemma foldM_two {I A B} (q : I -> bool) (ga : A -> I -> option A) (gb : B -> I -> option B) (step : A * B -> I -> option (A * B)) :
  (forall a b i, step (a, b) i = if q i then a' <- ga a i ;; Some (a', b) else b' <- gb b i ;; Some (a, b')) ->
  forall sched a b a' b', foldM ga a (filter q sched) = Some a' -> foldM gb b (filter (fun i => negb (q i)) sched) = Some b' -> foldM step (a, b) sched = Some (a', b').
Proof.
  intros H. induction sched as [|i sched IH]; intros a b a' b' Ea Eb; cbn [filter foldM] in *; [inversion Ea; inversion Eb; reflexivity|]. rewrite H.
  destruct (q i); cbn [negb foldM] in Ea, Eb.
  - destruct (ga a i) as [a1|]; [|discriminate]. cbn [obind] in *. apply IH; assumption.
  - destruct (gb b i) as [b1|]; [|discriminate]. cbn [obind] in *. apply IH; assumption.
Qed.

Section Rank.
  Context {P T : Type}.
  Implicit Types ps : list (qpart P T).
  Definition is_of ps (r i : nat) : bool := match nth_error ps i with Some p => q_rank p =? r | None => false end.
  (** The points of rank [r] which rank [rank] holds, as numbers of particles, in the order of their places. *)
  Definition chunk (d : device) ps (rank r : nat) : list nat := if r =? rank then [] else filter (is_of ps r) (ord d 1 (seq 0 (length ps))).

  Section One.
    Variables (d : device) (size rank : nat) (ps : list (qpart P T)).
    Hypothesis Hd : device_ok d.
    Hypothesis Hr : forall p, In p ps -> q_rank p < size.
    Let n := length ps.
    Let f := chunk d ps rank.

    Lemma sched_lt k i : In i (ord d k (seq 0 n)) <-> i < n.
    Proof. rewrite (in_ord d k _ _ Hd), in_seq. lia. Qed.
    Lemma sched_nodup k : NoDup (ord d k (seq 0 n)).
    Proof. apply (Permutation_NoDup (l := seq 0 n)); [symmetry; apply Hd|apply seq_NoDup]. Qed.
    Lemma chunk_in r i : In i (f r) <-> r <> rank /\ exists p, nth_error ps i = Some p /\ q_rank p = r.
    Proof.
      unfold f, chunk. destruct (Nat.eqb_spec r rank) as [->|N]; [split; [intros []|intros (C & _); contradiction]|]. rewrite filter_In; fold n; rewrite sched_lt. unfold is_of. split.
      - intros (L & E). destruct (nth_error ps i) as [p|]; [|discriminate]. apply Nat.eqb_eq in E. split; [exact N|]. exists p. auto.
      - intros (_ & p & E & Ep). split; [unfold n; apply nth_error_Some; congruence|]. rewrite E. apply Nat.eqb_eq, Ep.
    Qed.
    Lemma chunk_nodup r : NoDup (f r).
    Proof. unfold f, chunk. destruct (r =? rank); [constructor|]. apply NoDup_filter, sched_nodup. Qed.

    (** L89-108 *)
    Definition remote_i (i : nat) : bool := match nth_error ps i with Some p => negb (q_rank p =? rank) | None => false end.
    Definition key_i (i : nat) : nat * nat := match nth_error ps i with Some p => (q_rank p, q_index p) | None => (0, 0) end.
    Lemma list_ok sched init : (forall i, In i sched -> i < n) -> length (filter remote_i sched) <= length init ->
      exists b, foldM (list_point rank ps) (0, init) sched = Some (length (filter remote_i sched), b) /\ length b = length init /\
        forall j i, nth_error (filter remote_i sched) j = Some i -> nth_error b j = Some (key_i i).
    Proof.
      intros HS HL. destruct (foldM_ind (list_point rank ps) (fun pre s => fst s = length (filter remote_i pre) /\ length (snd s) = length init /\ forall j i, nth_error (filter remote_i pre) j = Some i -> nth_error (snd s) j = Some (key_i i)) sched (0, init)) as ((c & b) & E & A & B & C).
      - split; [reflexivity|]. split; [reflexivity|]. intros [|j] i Ei; discriminate.
      - intros pre i post (c & b) Es (A & B & C). cbn [fst snd] in *. assert (Li : i < n) by (apply HS; rewrite Es; apply in_or_app; right; left; reflexivity). unfold list_point. cbn [fst snd].
        destruct (nth_error_lt_some ps i Li) as (p & Ep). unfold rd. rewrite Ep. cbn [obind].
        assert (Er : remote_i i = negb (q_rank p =? rank)) by (unfold remote_i; rewrite Ep; reflexivity). assert (Ek : key_i i = (q_rank p, q_index p)) by (unfold key_i; rewrite Ep; reflexivity).
        rewrite !filter_app. cbn [filter]. rewrite Er. destruct (negb (q_rank p =? rank)).
        + assert (Lc : c < length b). { rewrite Es, filter_app, app_length in HL. cbn [filter] in HL. rewrite Er in HL. cbn [length] in HL. lia. }
          destruct (upd_some b c (q_rank p, q_index p) Lc) as (b' & Eb). rewrite Eb. cbn [obind]. eexists. split; [reflexivity|]. cbn [fst snd]. split; [rewrite app_length; cbn; lia|]. split; [rewrite (upd_length _ _ _ _ Eb); exact B|].
          intros j k Ej. destruct (lt_dec j (length (filter remote_i pre))) as [Lj|Lj].
          * rewrite nth_error_app1 in Ej by exact Lj. rewrite (upd_nth_neq _ _ _ _ _ Eb) by lia. apply C, Ej.
          * assert (j = length (filter remote_i pre)). { assert (j < length (filter remote_i pre ++ [i])) as X by (apply nth_error_Some; congruence). rewrite app_length in X. cbn in X. lia. }
            subst j. rewrite nth_error_app2, Nat.sub_diag in Ej by lia. cbn in Ej. inversion Ej; subst k. rewrite <- A, Ek. eapply upd_nth_eq; eauto.
        + eexists. split; [reflexivity|]. cbn [fst snd]. rewrite app_nil_r. auto.
      - cbn [fst snd] in *. subst c. exists b. auto.
    Qed.
    Lemma remote_slice b : forall l : list nat, length l <= length b -> (forall j i, nth_error l j = Some i -> nth_error b j = Some (key_i i)) -> slice b 0 (length l) = Some (map key_i l).
    Proof.
      intros l L H. rewrite slice_some by lia. rewrite Nat.sub_0_r. cbn [skipn]. f_equal. revert b L H. induction l as [|i l IH]; intros b L H; [reflexivity|]. destruct b as [|x b]; [cbn in L; lia|]. cbn [length firstn map]. f_equal.
      - pose proof (H 0 i eq_refl) as Q. cbn in Q. congruence.
      - apply IH; [cbn in L; lia|]. intros j k E. apply (H (S j) k E).
    Qed.
    Lemma counts_ok k r : length (filter (fun rp => fst rp =? r) (map key_i (filter remote_i (ord d k (seq 0 n))))) = length (f r).
    Proof.
      assert (X : forall l, (forall i, In i l -> i < n) -> length (filter (fun rp => fst rp =? r) (map key_i (filter remote_i l))) = length (if r =? rank then [] else filter (is_of ps r) l)).
      { induction l as [|i l IH]; intros HI; [destruct (r =? rank); reflexivity|]. specialize (IH (fun j Ij => HI j (or_intror Ij))). destruct (nth_error_lt_some ps i (HI i (or_introl eq_refl))) as (p & Ep).
        cbn [filter]. unfold remote_i at 1, is_of at 1. rewrite Ep. destruct (Nat.eqb_spec (q_rank p) rank) as [E|E]; cbn [negb].
        - rewrite IH. destruct (Nat.eqb_spec r rank); [reflexivity|]. destruct (Nat.eqb_spec (q_rank p) r); [congruence|reflexivity].
        - cbn [map filter]. unfold key_i at 1. rewrite Ep. cbn [fst]. destruct (Nat.eqb_spec (q_rank p) r) as [E2|E2].
          + destruct (Nat.eqb_spec r rank); [congruence|]. cbn [length]. rewrite IH. reflexivity.
          + exact IH. }
      rewrite X by (intros i I; apply (sched_lt k), I). unfold f, chunk. destruct (r =? rank); [reflexivity|]. apply Permutation_length, Permutation_filter. transitivity (seq 0 n); [apply Hd|symmetry; apply Hd].
    Qed.
    Lemma remote_length k : length (filter remote_i (ord d k (seq 0 n))) = length (flat_map f (seq 0 size)).
    Proof.
      set (l := filter remote_i (ord d k (seq 0 n))). assert (X : forall (l : list (nat * nat)), (forall x, In x l -> fst x < size) -> length l = length (flat_map (fun r => filter (fun rp => fst rp =? r) l) (seq 0 size))).
      { clear. induction l as [|x l IH]; intros H; [induction (seq 0 size); cbn; auto|].
        assert (Y : forall m a, length (flat_map (fun r => filter (fun rp => fst rp =? r) (x :: l)) (seq a m)) = (if (a <=? fst x) && (fst x <? a + m) then 1 else 0) + length (flat_map (fun r => filter (fun rp => fst rp =? r) l) (seq a m))).
        { induction m as [|m IHm]; intros a; [cbn [seq flat_map length]; destruct (Nat.leb_spec a (fst x)), (Nat.ltb_spec (fst x) (a + 0)); cbn; lia|]. cbn [seq flat_map]. rewrite !app_length, IHm. cbn [filter].
          destruct (Nat.eqb_spec (fst x) a) as [->|N]; [cbn [length]; destruct (Nat.leb_spec (S a) a); [lia|]; destruct (Nat.leb_spec a a); [|lia]; destruct (Nat.ltb_spec a (a + S m)); [|lia]; cbn; lia|].
          replace ((S a <=? fst x) && (fst x <? S a + m)) with ((a <=? fst x) && (fst x <? a + S m)); [lia|]. destruct (Nat.leb_spec a (fst x)), (Nat.leb_spec (S a) (fst x)), (Nat.ltb_spec (fst x) (a + S m)), (Nat.ltb_spec (fst x) (S a + m)); cbn; try reflexivity; lia. }
        rewrite Y. cbn [length]. rewrite (IH (fun y I => H y (or_intror I))) at 1. pose proof (H x (or_introl eq_refl)). destruct (Nat.leb_spec 0 (fst x)), (Nat.ltb_spec (fst x) (0 + size)); cbn; lia. }
      rewrite <- (map_length key_i l). rewrite X.
      - clear X. unfold l. induction (seq 0 size) as [|a s IH]; [reflexivity|]. cbn [flat_map]. rewrite !app_length, counts_ok, IH. reflexivity.
      - intros x I. apply in_map_iff in I. destruct I as (i & <- & I). apply filter_In in I. destruct I as (I & E). unfold remote_i in E. unfold key_i. destruct (nth_error ps i) as [p|] eqn:Ep; [|discriminate]. cbn. apply Hr. eapply nth_error_In; eauto.
    Qed.

    (** L161-179 *)
    Definition placed (i w : nat) ps' : Prop := exists p, nth_error ps i = Some p /\ nth_error ps' i = Some (with_slot p w).
    Lemma place_ok starts0 : length starts0 = size -> (forall r, f r <> [] -> nth_error starts0 r = Some (start f r)) ->
      exists starts ps', foldM (place_point rank) (starts0, ps) (ord d 1 (seq 0 n)) = Some (starts, ps') /\ length ps' = n /\
        (forall r, f r <> [] -> nth_error starts r = Some (start f r + length (f r))) /\
        (forall i p, nth_error ps i = Some p -> q_rank p = rank -> placed i (q_index p) ps') /\
        (forall r j i, nth_error (f r) j = Some i -> placed i (start f r + j) ps').
    Proof.
      intros Ls H0. set (g := fun pre r => if r =? rank then [] else filter (is_of ps r) pre). set (sched := ord d 1 (seq 0 n)).
      assert (Gf : forall r, g sched r = f r) by reflexivity.
      destruct (foldM_ind (place_point rank) (fun pre s => length (fst s) = size /\ length (snd s) = n /\ (forall r, f r <> [] -> nth_error (fst s) r = Some (start f r + length (g pre r))) /\
         (forall i, ~ In i pre -> nth_error (snd s) i = nth_error ps i) /\ (forall i p, In i pre -> nth_error ps i = Some p -> q_rank p = rank -> placed i (q_index p) (snd s)) /\
         (forall r j i, nth_error (g pre r) j = Some i -> placed i (start f r + j) (snd s))) sched (starts0, ps)) as ((st & ps') & E & _ & A & B & _ & C & D).
      - cbn [fst snd]. split; [exact Ls|]. split; [reflexivity|]. split; [intros r Nr; rewrite (H0 r Nr); unfold g; cbn; destruct (r =? rank); cbn; f_equal; lia|]. split; [reflexivity|]. split; [intros i p []|]. intros r j i Ei. unfold g in Ei. cbn in Ei. destruct (r =? rank); destruct j; discriminate.
      - intros pre i post (st & qs) Es (A & B & C & D & F & G). cbn [fst snd] in *. assert (Ii : In i sched) by (rewrite Es; apply in_or_app; right; left; reflexivity). pose proof (proj1 (sched_lt 1 i) Ii) as Li.
        assert (Ni : ~ In i pre). { pose proof (sched_nodup 1) as N. fold sched in N. rewrite Es in N. apply NoDup_remove_2 in N. intros X. apply N, in_or_app. left. exact X. }
        destruct (nth_error_lt_some ps i Li) as (p & Ep). unfold place_point. cbn [fst snd]. unfold rd. rewrite (D i Ni), Ep. cbn [obind].
        assert (Keep : forall w qs', upd qs i (with_slot p w) = Some qs' -> length qs' = n /\ (forall k, ~ In k (pre ++ [i]) -> nth_error qs' k = nth_error ps k) /\ placed i w qs' /\ (forall k w', In k pre -> placed k w' qs -> placed k w' qs')).
        { intros w qs' Eq. split; [rewrite (upd_length _ _ _ _ Eq); exact B|]. split; [intros k Nk; rewrite (upd_nth_neq _ _ _ _ _ Eq) by (intros ->; apply Nk, in_or_app; right; left; reflexivity); apply D; intros X; apply Nk, in_or_app; left; exact X|].
          split; [exists p; split; [exact Ep|eapply upd_nth_eq; eauto]|]. intros k w' Ik (p' & E1 & E2). exists p'. split; [exact E1|]. rewrite (upd_nth_neq _ _ _ _ _ Eq); [exact E2|]. intros ->. contradiction. }
        assert (Gpre : forall r j k, nth_error (g pre r) j = Some k -> In k pre). { intros r j k Ek. apply nth_error_In in Ek. unfold g in Ek. destruct (r =? rank); [destruct Ek|]. apply filter_In in Ek. apply Ek. }
        destruct (Nat.eqb_spec (q_rank p) rank) as [Er|Er]; cbn [negb].
        + destruct (upd_some qs i (with_slot p (q_index p))) as (qs' & Eq); [lia|]. rewrite Eq. cbn [obind]. destruct (Keep _ _ Eq) as (K1 & K2 & K3 & K4). eexists. split; [reflexivity|]. cbn [fst snd].
          assert (Gs : forall r, g (pre ++ [i]) r = g pre r). { intros r. unfold g. destruct (Nat.eqb_spec r rank); [reflexivity|]. rewrite filter_app. cbn [filter]. unfold is_of at 2. rewrite Ep. destruct (Nat.eqb_spec (q_rank p) r); [congruence|]. apply app_nil_r. }
          split; [exact A|]. split; [exact K1|]. split; [intros r Nr; rewrite Gs; apply C, Nr|]. split; [exact K2|]. split.
          * intros k p' Ik Ek Hk. apply in_app_or in Ik. destruct Ik as [Ik|[<-|[]]]; [apply K4; [exact Ik|apply F; assumption]|]. rewrite Ep in Ek. inversion Ek; subst p'. exact K3.
          * intros r j k Ek. rewrite Gs in Ek. apply K4; [eapply Gpre; eauto|apply G, Ek].
        + set (r0 := q_rank p) in *. assert (Lr : r0 < size) by (apply Hr; eapply nth_error_In; eauto). assert (Nr : f r0 <> []). { intros X. assert (I : In i (f r0)) by (apply chunk_in; split; [exact Er|exists p; auto]). rewrite X in I. destruct I. }
          rewrite (C r0 Nr). cbn [obind]. destruct (upd_some st r0 (start f r0 + length (g pre r0) + 1)) as (st' & Et); [lia|]. rewrite Et. cbn [obind].
          destruct (upd_some qs i (with_slot p (start f r0 + length (g pre r0)))) as (qs' & Eq); [lia|]. rewrite Eq. cbn [obind]. destruct (Keep _ _ Eq) as (K1 & K2 & K3 & K4). eexists. split; [reflexivity|]. cbn [fst snd].
          assert (Gs : forall r, g (pre ++ [i]) r = if r =? r0 then g pre r ++ [i] else g pre r).
          { intros r. unfold g. rewrite filter_app. cbn [filter]. unfold is_of at 2. rewrite Ep. fold r0. destruct (Nat.eqb_spec r r0) as [->|N0]; [destruct (Nat.eqb_spec r0 rank); [contradiction|]; rewrite Nat.eqb_refl; reflexivity|]. destruct (Nat.eqb_spec r rank); [reflexivity|]. destruct (Nat.eqb_spec r0 r); [congruence|]. apply app_nil_r. }
          split; [rewrite (upd_length _ _ _ _ Et); exact A|]. split; [exact K1|]. split.
          { intros r Nr'. rewrite Gs, (upd_nth _ _ _ _ r Et). destruct (Nat.eqb_spec r r0) as [->|]; [rewrite app_length; cbn; f_equal; lia|apply C, Nr']. }
          split; [exact K2|]. split.
          * intros k p' Ik Ek Hk. apply in_app_or in Ik. destruct Ik as [Ik|[<-|[]]]; [apply K4; [exact Ik|apply F; assumption]|]. rewrite Ep in Ek. inversion Ek; subst p'. contradiction.
          * intros r j k Ek. rewrite Gs in Ek. destruct (Nat.eqb_spec r r0) as [->|]; [|apply K4; [eapply Gpre; eauto|apply G, Ek]]. destruct (lt_dec j (length (g pre r0))) as [Lj|Lj].
            -- rewrite nth_error_app1 in Ek by exact Lj. apply K4; [eapply Gpre; eauto|apply G, Ek].
            -- assert (j = length (g pre r0)). { assert (j < length (g pre r0 ++ [i])) as X by (apply nth_error_Some; congruence). rewrite app_length in X. cbn in X. lia. } subst j. rewrite nth_error_app2, Nat.sub_diag in Ek by lia. cbn in Ek. inversion Ek; subst k. exact K3.
      - cbn [fst snd] in *. exists st, ps'. split; [exact E|]. split; [exact A|]. split; [exact B|]. split; [|exact D]. intros i p Ei Er. apply C; [|exact Ei|exact Er]. apply sched_lt. unfold n. apply nth_error_Some. congruence.
    Qed.
  End One.
End Rank.
