(** Proofs about the communication protocol. *)
From Coq Require Import List Arith Lia Bool Permutation.
Import ListNotations.
From Verif Require Import Base Group_Model Exchange_Model Protocol_Model Protocol_Spec.

(** ** Lists *)
Definition mem (x : nat) (l : list nat) : bool := existsb (Nat.eqb x) l.
Lemma mem_in x l : mem x l = true <-> In x l.
Proof.
  unfold mem. rewrite existsb_exists. split.
  - intros [y [A B]]. apply Nat.eqb_eq in B. subst. auto.
  - intros H. exists x. rewrite Nat.eqb_refl. auto.
Qed.
Lemma mem_not_in x l : mem x l = false <-> ~ In x l.
Proof. rewrite <- mem_in. destruct (mem x l); split; intros; try congruence; tauto. Qed.

Lemma filter_length_change (f f' : nat -> bool) n a : a < n -> f a = false -> f' a = true ->
  (forall s, s <> a -> f' s = f s) -> length (filter f' (seq 0 n)) = length (filter f (seq 0 n)) + 1.
Proof.
  intros Ha F F' E. replace n with (a + S (n - a - 1)) by lia. rewrite seq_app, !filter_app, !app_length. cbn [seq filter].
  rewrite Nat.add_0_l, F, F'. cbn [length].
  rewrite (filter_ext_in f' f (seq 0 a)), (filter_ext_in f' f (seq (S a) _)); [lia| |];
    intros s Hs; apply in_seq in Hs; apply E; lia.
Qed.

Lemma prefix_head {A} (l : list A) h t x F u v : F = (l ++ h :: t) ++ u -> F = (l ++ [x]) ++ v -> h = x.
Proof.
  intros -> H. rewrite <- !app_assoc in H. apply app_inv_head in H. cbn in H. congruence.
Qed.

Section Lookup.
  Context {A : Type}.
  Lemma lookup_in (l : list (nat * A)) r m : lookup l r = Some m -> In (r, m) l.
  Proof.
    unfold lookup. destruct (find (fun e => fst e =? r) l) as [[k v]|] eqn:Ef; [|discriminate]. intros [= <-].
    apply find_some in Ef. destruct Ef as [A1 A2]. apply Nat.eqb_eq in A2. cbn in *. subst. auto.
  Qed.
  Lemma lookup_none (l : list (nat * A)) r : lookup l r = None <-> ~ In r (map fst l).
  Proof.
    unfold lookup. split.
    - intros H Hi. apply in_map_iff in Hi. destruct Hi as [[k v] [<- Hi]].
      destruct (find (fun e => fst e =? fst (k, v)) l) eqn:Ef; [discriminate|].
      pose proof (find_none _ _ Ef _ Hi) as Q. cbn in Q. rewrite Nat.eqb_refl in Q. discriminate.
    - intros H. destruct (find (fun e => fst e =? r) l) as [[k v]|] eqn:Ef; auto. exfalso. apply H.
      apply find_some in Ef. destruct Ef as [A1 A2]. apply Nat.eqb_eq in A2. apply in_map_iff. exists (k, v). auto.
  Qed.
  Lemma lookup_nodup (l : list (nat * A)) r m : NoDup (map fst l) -> In (r, m) l -> lookup l r = Some m.
  Proof.
    unfold lookup. induction l as [|[k v] l IH]; intros N Hi; [destruct Hi|]. cbn [map fst] in N. inversion N as [|? ? N1 N2]; subst.
    cbn [find fst]. destruct (Nat.eqb_spec k r) as [->|Hne].
    - destruct Hi as [[= ->]|Hi]; auto. exfalso. apply N1, in_map_iff. exists (r, m). auto.
    - destruct Hi as [[= -> ->]|Hi]; [congruence|]. auto.
  Qed.
End Lookup.

Section Msgs.
  Context {B A : Type} (f : payload B -> A).
  Lemma filter_fst_lookup (outs : list (nat * payload B)) r : NoDup (map fst outs) ->
    filter (fun m => fst m =? r) outs = match lookup outs r with Some m => [(r, m)] | None => [] end.
  Proof.
    unfold lookup. induction outs as [|[k v] l IH]; intros N; auto. cbn [map fst] in N. inversion N as [|? ? N1 N2]; subst.
    cbn [filter find fst]. destruct (Nat.eqb_spec k r) as [->|Hne].
    - cbn [option_map snd]. rewrite IH by auto.
      assert (Q : lookup l r = None) by (apply lookup_none; auto). unfold lookup in Q. rewrite Q. auto.
    - auto.
  Qed.
  Lemma msgs_for_lookup (outs : list (nat * payload B)) r : NoDup (map fst outs) ->
    msgs_for f outs r = match lookup outs r with Some m => [f m] | None => [] end.
  Proof. intros N. unfold msgs_for. rewrite filter_fst_lookup by auto. destruct (lookup outs r); auto. Qed.
  Lemma msgs_for_nonempty (outs : list (nat * payload B)) r : NoDup (map fst outs) ->
    msgs_for f (nonempty_outs outs) r = match lookup outs r with Some m => if 0 <? fst m then [f m] else [] | None => [] end.
  Proof.
    intros N. unfold msgs_for, nonempty_outs.
    replace (filter (fun m => fst m =? r) (filter (fun m => 0 <? fst (snd m)) outs))
      with (filter (fun m => 0 <? fst (snd m)) (filter (fun m => fst m =? r) outs)).
    - rewrite filter_fst_lookup by auto. destruct (lookup outs r) as [m|]; auto. cbn [filter snd]. destruct (0 <? fst m); auto.
    - induction outs as [|m l IH]; auto. cbn [map] in N. inversion N; subst. cbn [filter].
      destruct (0 <? fst (snd m)) eqn:E1, (fst m =? r) eqn:E2; cbn [filter]; rewrite ?E1, ?E2, IH; auto.
  Qed.
End Msgs.

Section Proto.
  Context {B : Type} (n : nat) (ops : list (op B)) (sync : bool) (Hops : ops_ok n ops).

  (** The message of rank [s] to rank [r] in operation [k]. *)
  Definition msg (k s r : nat) : option (payload B) :=
    match nth_error ops k with Some o => lookup (op_outs o s) r | None => None end.
  Definition isg (k : nat) : bool := match nth_error ops k with Some (OpGlobal _) => true | _ => false end.
  Definition issome {A} (o : option A) : bool := match o with Some _ => true | None => false end.
  Definition senders (k r : nat) : list nat := filter (fun s => issome (msg k s r)) (seq 0 n).

  Definition E42 (k s r : nat) : list nat := if isg k then match msg k s r with Some m => [fst m] | None => [] end else [].
  Definition E43c (k s r : nat) : list (wire43 B) := if isg k then [] else match msg k s r with Some m => [WCount (fst m)] | None => [] end.
  Definition E43d (k s r : nat) : list (wire43 B) :=
    match msg k s r with Some m => if isg k || (0 <? fst m) then [WData (snd m)] else [] | None => [] end.
  Definition F42 (k s r : nat) := flat_map (fun j => E42 j s r) (seq 0 k).
  Definition F43 (k s r : nat) := flat_map (fun j => E43c j s r ++ E43d j s r) (seq 0 k).

  Lemma F42_S k s r : F42 (k + 1) s r = F42 k s r ++ E42 k s r.
  Proof. unfold F42. rewrite seq_app, flat_map_app. cbn. rewrite app_nil_r. auto. Qed.
  Lemma F43_S k s r : F43 (k + 1) s r = F43 k s r ++ E43c k s r ++ E43d k s r.
  Proof. unfold F43. rewrite seq_app, flat_map_app. cbn [seq flat_map]. rewrite app_nil_r. auto. Qed.
  Lemma F42_split k j s r : F42 (k + j) s r = F42 k s r ++ flat_map (fun j => E42 j s r) (seq k j).
  Proof. unfold F42. rewrite seq_app, flat_map_app. auto. Qed.
  Lemma F43_split k j s r : F43 (k + j) s r = F43 k s r ++ flat_map (fun j => E43c j s r ++ E43d j s r) (seq k j).
  Proof. unfold F43. rewrite seq_app, flat_map_app. auto. Qed.

  Lemma in_senders k s r : In s (senders k r) <-> s < n /\ msg k s r <> None.
  Proof.
    unfold senders. rewrite filter_In, in_seq. destruct (msg k s r); cbn; split; intros [? ?]; split; try lia; congruence.
  Qed.
  Lemma senders_nodup k r : NoDup (senders k r).
  Proof. apply NoDup_filter, seq_NoDup. Qed.

  Lemma op_ok k o : nth_error ops k = Some o -> forall s, s < n -> NoDup (map fst (op_outs o s)).
  Proof. intros E s Hs. apply nth_error_In in E. apply (Hops o E). auto. Qed.

  Lemma isg_global k outs : nth_error ops k = Some (OpGlobal outs) -> isg k = true.
  Proof. unfold isg. intros ->. auto. Qed.
  Lemma isg_local k outs srcs : nth_error ops k = Some (OpLocal outs srcs) -> isg k = false.
  Proof. unfold isg. intros ->. auto. Qed.

  Lemma srcs_senders k outs srcs r : nth_error ops k = Some (OpLocal outs srcs) -> r < n -> Permutation (srcs r) (senders k r).
  Proof.
    intros E Hr. pose proof (nth_error_In _ _ E) as Hin. destruct (Hops _ Hin) as [_ H]. destruct (H r Hr) as [N I].
    apply NoDup_Permutation; auto using senders_nodup. intros s. rewrite I, in_senders. unfold msg. rewrite E. cbn [op_outs].
    pose proof (lookup_none (outs s) r) as Q. split; intros [A C]; split; auto.
    - intros X. apply Q in X. auto.
    - destruct (in_dec Nat.eq_dec r (map fst (outs s))); auto. exfalso. apply C, Q. auto.
  Qed.

  (** ** The invariant *)
  Definition rank_ok (st : state B) (r : nat) : Prop :=
    let k := pc st r in
    match ph st r with
    | Start => k <= length ops
    | Bar1 | Bar2 => isg k = true
    | Acc rest => isg k = true /\ exists o done, nth_error ops k = Some o /\ map fst (op_outs o r) = done ++ rest
    | Counts nrecv got => isg k = true /\ nrecv = length (senders k r) /\ NoDup (map fst got) /\
        forall s c, In (s, c) got -> s < n /\ exists d, msg k s r = Some (c, d)
    | LCounts rem got => k < length ops /\ isg k = false /\ Permutation (rem ++ map fst got) (senders k r) /\
        forall s c, In (s, c) got -> exists d, msg k s r = Some (c, d)
    | Data cnts rem got => k < length ops /\ Permutation (map fst cnts) (senders k r) /\
        (forall s c, In (s, c) cnts -> exists d, msg k s r = Some (c, d)) /\
        Permutation (rem ++ map fst got) (map fst (filter (fun e => isg k || (0 <? snd e)) cnts)) /\
        forall s d, In (s, d) got -> exists c, msg k s r = Some (c, d)
    | Fail => False
    end.

  Definition S42 (st : state B) (s r : nat) := F42 (pc st s) s r ++ if 4 <=? phn (ph st s) then E42 (pc st s) s r else [].
  Definition R42 (st : state B) (s r : nat) :=
    F42 (pc st r) s r ++ match ph st r with
                         | Counts _ got => if mem s (map fst got) then E42 (pc st r) s r else []
                         | Data _ _ _ => E42 (pc st r) s r
                         | _ => []
                         end.
  Definition S43 (st : state B) (s r : nat) :=
    F43 (pc st s) s r ++ (if 4 <=? phn (ph st s) then E43c (pc st s) s r else []) ++
                         (if 5 <=? phn (ph st s) then E43d (pc st s) s r else []).
  Definition R43 (st : state B) (s r : nat) :=
    F43 (pc st r) s r ++ match ph st r with
                         | LCounts rem _ => if mem s rem then [] else E43c (pc st r) s r
                         | Data _ rem _ => E43c (pc st r) s r ++ if mem s rem then [] else E43d (pc st r) s r
                         | _ => []
                         end.

  (** Rank [s] has counted itself on the window of [r] in operation [k]. *)
  Definition accd (st : state B) (k r s : nat) : bool :=
    issome (msg k s r) &&
    ((6 * k + 3 <=? pos st s) || match ph st s with Acc rest => (pc st s =? k) && negb (mem r rest) | _ => false end).

  Definition res_ok (st : state B) (r : nat) : Prop :=
    length (res st r) = pc st r /\
    forall k o x, nth_error ops k = Some o -> nth_error (res st r) k = Some x -> Permutation x (expected n o r).

  Record inv (st : state B) : Prop := {
    i_rank : forall r, r < n -> rank_ok st r;
    i_b1 : forall k s r, isg k = true -> s < n -> r < n -> 6 * k + 2 <= pos st s -> 6 * k + 1 <= pos st r;
    i_b2 : forall k s r, isg k = true -> s < n -> r < n -> 6 * k + 4 <= pos st s -> 6 * k + 3 <= pos st r;
    i_win : forall r, r < n -> 1 <= phn (ph st r) <= 3 ->
              win st r = length (filter (accd st (pc st r) r) (seq 0 n));
    i_42 : forall s r, s < n -> r < n -> S42 st s r = R42 st s r ++ c42 st s r;
    i_43 : forall s r, s < n -> r < n -> S43 st s r = R43 st s r ++ c43 st s r;
    i_res : forall r, r < n -> res_ok st r }.

  Lemma inv_init w : inv (init w).
  Proof.
    split; unfold init.
    - intros r _. unfold rank_ok. cbn. lia.
    - unfold pos. cbn. lia.
    - unfold pos. cbn. lia.
    - cbn. lia.
    - reflexivity.
    - reflexivity.
    - intros r _. split; auto. intros k o x _. cbn. destruct k; discriminate.
  Qed.

  (** Data is expected from [s] exactly when [s] sends some. *)
  Lemma data_from k s r : E43d k s r <> [] -> s < n -> In s (senders k r).
  Proof. unfold E43d. intros H Hs. apply in_senders. split; auto. destruct (msg k s r); congruence. Qed.

  (** *** No counts of later operations *)
  Lemma no_later st k s r : inv st -> s < n -> r < n -> isg k = true -> pc st r = k -> phn (ph st r) = 4 ->
    S42 st s r = F42 k s r \/ S42 st s r = F42 k s r ++ E42 k s r.
  Proof.
    intros I Hs Hr Hg Hk Hp.
    assert (Pr : pos st r = 6 * k + 4) by (unfold pos; lia).
    assert (Ps : 6 * k + 3 <= pos st s) by (apply (i_b2 st I k r s); auto; lia).
    assert (Later : forall j, isg j = true -> 6 * j + 4 <= pos st s -> j <= k).
    { intros j Hj Hj2. pose proof (i_b2 st I j s r Hj Hs Hr Hj2). lia. }
    unfold S42. unfold pos in Ps. assert (Pn : phn (ph st s) <= 5) by (destruct (ph st s); cbn; lia).
    destruct (Nat.eq_dec (pc st s) k) as [E|E].
    - rewrite E. destruct (4 <=? phn (ph st s)); [right; auto|left; rewrite app_nil_r; auto].
    - right. assert (Hlt : k < pc st s) by lia. replace (pc st s) with ((k + 1) + (pc st s - k - 1)) at 1 by lia.
      rewrite F42_split, F42_S, <- app_assoc.
      assert (X : flat_map (fun j => E42 j s r) (seq (k + 1) (pc st s - k - 1)) = []).
      { assert (forall j, In j (seq (k + 1) (pc st s - k - 1)) -> E42 j s r = []).
        { intros j Hj. apply in_seq in Hj. unfold E42. destruct (isg j) eqn:Ej; auto. exfalso.
          specialize (Later j Ej). unfold pos in Later. lia. }
        induction (seq (k + 1) (pc st s - k - 1)) as [|j l IH]; auto. cbn. rewrite H by (left; auto).
        apply IH. intros; apply H; right; auto. }
      rewrite X. destruct (Nat.leb_spec 4 (phn (ph st s))); [|rewrite !app_nil_r; auto].
      assert (Y : E42 (pc st s) s r = []).
      { unfold E42. destruct (isg (pc st s)) eqn:Ej; auto. exfalso. specialize (Later _ Ej). unfold pos in Later. lia. }
      rewrite Y, !app_nil_r. auto.
  Qed.

  (** *** What a receive with MPI_ANY_SOURCE gets *)
  Lemma count_received st s r nrecv got c t : inv st -> s < n -> r < n -> ph st r = Counts nrecv got -> c42 st s r = c :: t ->
    ~ In s (map fst got) /\ t = [] /\ exists d, msg (pc st r) s r = Some (c, d).
  Proof.
    intros I Hs Hr Hp Hc. pose proof (i_rank st I r Hr) as RK. unfold rank_ok in RK. rewrite Hp in RK. destruct RK as [Hg _].
    destruct (no_later st (pc st r) s r I Hs Hr Hg eq_refl) as [N|N]; [rewrite Hp; auto| |];
      rewrite (i_42 st I s r Hs Hr), Hc in N; unfold R42 in N; rewrite Hp in N; rewrite <- app_assoc in N.
    - rewrite <- (app_nil_r (F42 (pc st r) s r)) in N at 2. apply app_inv_head in N.
      apply app_eq_nil in N. destruct N. discriminate.
    - apply app_inv_head in N. destruct (mem s (map fst got)) eqn:Em.
      + rewrite <- (app_nil_r (E42 (pc st r) s r)) in N at 2. apply app_inv_head in N. discriminate.
      + apply mem_not_in in Em. split; auto. cbn [app] in N. unfold E42 in N. rewrite Hg in N.
        destruct (msg (pc st r) s r) as [[c' d]|]; [|discriminate]. injection N as -> ->. eauto.
  Qed.

  (** *** What a receive from a given rank gets *)
  Lemma S43_prefix st s r : exists u, F43 (pc st s + 1) s r = S43 st s r ++ u.
  Proof.
    unfold S43. rewrite F43_S. destruct (4 <=? phn (ph st s)) eqn:E4; destruct (5 <=? phn (ph st s)) eqn:E5.
    - exists []. rewrite app_nil_r. auto.
    - exists (E43d (pc st s) s r). rewrite app_nil_r, <- app_assoc. auto.
    - apply Nat.leb_gt in E4. apply Nat.leb_le in E5. lia.
    - exists (E43c (pc st s) s r ++ E43d (pc st s) s r). rewrite !app_nil_r. auto.
  Qed.

  Lemma next43 st s r w t x v : inv st -> s < n -> r < n -> c43 st s r = w :: t ->
    F43 (pc st r + 1) s r = (R43 st s r ++ [x]) ++ v -> w = x.
  Proof.
    intros I Hs Hr Hc Hx. destruct (S43_prefix st s r) as [u Hu].
    rewrite (i_43 st I s r Hs Hr), Hc in Hu.
    set (m := Nat.max (pc st s + 1) (pc st r + 1)).
    assert (A : F43 m s r = F43 (pc st s + 1) s r ++ flat_map (fun j => E43c j s r ++ E43d j s r) (seq (pc st s + 1) (m - (pc st s + 1)))).
    { rewrite <- F43_split. f_equal. lia. }
    assert (C : F43 m s r = F43 (pc st r + 1) s r ++ flat_map (fun j => E43c j s r ++ E43d j s r) (seq (pc st r + 1) (m - (pc st r + 1)))).
    { rewrite <- F43_split. f_equal. lia. }
    rewrite Hu in A. rewrite Hx in C. rewrite <- app_assoc in A. rewrite <- (app_assoc (R43 st s r ++ [x])) in C.
    eapply prefix_head; [exact A|exact C].
  Qed.

  Lemma data_received st s r cnts rem got w t : inv st -> s < n -> r < n -> ph st r = Data cnts rem got -> In s rem ->
    c43 st s r = w :: t -> exists c d, w = WData d /\ msg (pc st r) s r = Some (c, d) /\ E43d (pc st r) s r = [w].
  Proof.
    intros I Hs Hr Hp Hin Hc. pose proof (i_rank st I r Hr) as RK. unfold rank_ok in RK. rewrite Hp in RK.
    destruct RK as [Hk [P1 [H1 [P2 _]]]].
    assert (Hs2 : In s (map fst (filter (fun e => isg (pc st r) || (0 <? snd e)) cnts))).
    { eapply Permutation_in; [exact P2|]. apply in_or_app. auto. }
    apply in_map_iff in Hs2. destruct Hs2 as [[s' c] [Es Hf]]. cbn in Es. subst s'. apply filter_In in Hf. destruct Hf as [Hf1 Hf2].
    destruct (H1 _ _ Hf1) as [d Hm]. cbn [snd] in Hf2.
    assert (Ed : E43d (pc st r) s r = [WData d]) by (unfold E43d; rewrite Hm; cbn [fst snd]; rewrite Hf2; auto).
    assert (W : w = WData d).
    { eapply (next43 st s r w t (WData d) []); eauto. unfold R43. rewrite Hp, (proj2 (mem_in _ _) Hin), F43_S, Ed, !app_nil_r, <- app_assoc. auto. }
    exists c, d. rewrite W. auto.
  Qed.

  Lemma lcount_received st s r rem got w t : inv st -> s < n -> r < n -> ph st r = LCounts rem got -> In s rem ->
    c43 st s r = w :: t -> exists c d, w = WCount c /\ msg (pc st r) s r = Some (c, d) /\ E43c (pc st r) s r = [w].
  Proof.
    intros I Hs Hr Hp Hin Hc. pose proof (i_rank st I r Hr) as RK. unfold rank_ok in RK. rewrite Hp in RK.
    destruct RK as [Hk [Hg [P1 H1]]].
    assert (Hs2 : In s (senders (pc st r) r)) by (eapply Permutation_in; [exact P1|]; apply in_or_app; auto).
    apply in_senders in Hs2. destruct Hs2 as [_ Hm]. destruct (msg (pc st r) s r) as [[c d]|] eqn:Em; [|congruence].
    assert (Ec : E43c (pc st r) s r = [WCount c]) by (unfold E43c; rewrite Hg, Em; auto).
    assert (W : w = WCount c).
    { eapply (next43 st s r w t (WCount c) (E43d (pc st r) s r)); eauto. unfold R43. rewrite Hp, (proj2 (mem_in _ _) Hin), F43_S, Ec, app_nil_r, <- app_assoc. auto. }
    exists c, d. rewrite W. auto.
  Qed.

  (** ** Preservation *)
  Lemma frame a st st' : step n ops sync a st st' -> forall r, r <> a -> pc st' r = pc st r /\ ph st' r = ph st r /\ res st' r = res st r.
  Proof. intros S r Hr. destruct S; cbn; unfold fupd; destruct (Nat.eqb_spec r r0); try congruence; auto. Qed.

  Lemma pos_frame a st st' : step n ops sync a st st' -> forall r, r <> a -> pos st' r = pos st r.
  Proof. intros S r Hr. destruct (frame _ _ _ S r Hr) as [A [C _]]. unfold pos. rewrite A, C. auto. Qed.

  Ltac sx := cbn [pc ph win c42 c43 res] in *.
  Ltac fu := unfold fupd, fupd2 in *.

  (** The position of the rank that acts. *)
  Lemma pos_mono a st st' : step n ops sync a st st' -> forall r, pos st r <= pos st' r.
  Proof.
    intros S r. destruct (Nat.eq_dec r a) as [->|Hn]; [|rewrite (pos_frame _ _ _ S r Hn); auto].
    unfold pos. destruct S; sx; fu; rewrite Nat.eqb_refl; try match goal with H : ph _ _ = _ |- _ => rewrite H end; cbn [phn];
      try (destruct w; cbn [phn]); lia.
  Qed.

  Lemma pres_b1 a st st' : inv st -> step n ops sync a st st' ->
    forall k s r, isg k = true -> s < n -> r < n -> 6 * k + 2 <= pos st' s -> 6 * k + 1 <= pos st' r.
  Proof.
    intros I S k s r Hg Hs Hr Hp.
    destruct (Nat.eq_dec s a) as [->|Hn].
    2:{ rewrite (pos_frame _ _ _ S s Hn) in Hp. pose proof (i_b1 st I k s r Hg Hs Hr Hp). pose proof (pos_mono _ _ _ S r). lia. }
    destruct (Nat.le_gt_cases (6 * k + 2) (pos st a)) as [Hle|Hgt].
    { pose proof (i_b1 st I k a r Hg Hs Hr Hle). pose proof (pos_mono _ _ _ S r). lia. }
    enough (6 * k + 1 <= pos st r) by (pose proof (pos_mono _ _ _ S r); lia).
    unfold pos in Hp, Hgt. destruct S; sx; fu; rewrite Nat.eqb_refl in Hp;
      match goal with H : ph _ _ = _ |- _ => rewrite H in Hgt; cbn [phn] in Hp, Hgt end; try (destruct w; cbn [phn] in Hp); try lia.
    - assert (Ek : pc st r0 = k) by lia. rewrite <- Ek. auto.
    - assert (Ek : pc st r0 = k) by lia. rewrite <- Ek, (isg_local _ _ _ H0) in Hg. discriminate.
  Qed.

  Lemma pres_b2 a st st' : inv st -> step n ops sync a st st' ->
    forall k s r, isg k = true -> s < n -> r < n -> 6 * k + 4 <= pos st' s -> 6 * k + 3 <= pos st' r.
  Proof.
    intros I S k s r Hg Hs Hr Hp.
    destruct (Nat.eq_dec s a) as [->|Hn].
    2:{ rewrite (pos_frame _ _ _ S s Hn) in Hp. pose proof (i_b2 st I k s r Hg Hs Hr Hp). pose proof (pos_mono _ _ _ S r). lia. }
    destruct (Nat.le_gt_cases (6 * k + 4) (pos st a)) as [Hle|Hgt].
    { pose proof (i_b2 st I k a r Hg Hs Hr Hle). pose proof (pos_mono _ _ _ S r). lia. }
    enough (6 * k + 3 <= pos st r) by (pose proof (pos_mono _ _ _ S r); lia).
    unfold pos in Hp, Hgt. destruct S; sx; fu; rewrite Nat.eqb_refl in Hp;
      match goal with H : ph _ _ = _ |- _ => rewrite H in Hgt; cbn [phn] in Hp, Hgt end; try (destruct w; cbn [phn] in Hp); try lia.
    - assert (Ek : pc st r0 = k) by lia. rewrite <- Ek. auto.
    - assert (Ek : pc st r0 = k) by lia. rewrite <- Ek, (isg_local _ _ _ H0) in Hg. discriminate.
  Qed.

  Lemma got_complete st r nrecv got : inv st -> r < n -> ph st r = Counts nrecv got -> length got = nrecv ->
    Permutation (map fst got) (senders (pc st r) r).
  Proof.
    intros I Hr Hp Hl. pose proof (i_rank st I r Hr) as RK. unfold rank_ok in RK. rewrite Hp in RK. destruct RK as [Hg [Hn [ND H]]].
    apply NoDup_Permutation_bis; auto.
    - rewrite map_length. lia.
    - intros s Hs. apply in_map_iff in Hs. destruct Hs as [[s' c] [<- Hs]]. destruct (H _ _ Hs) as [A [d E]].
      apply in_senders. cbn. split; auto. congruence.
  Qed.

  Lemma acc_frame a st st' k r s : step n ops sync a st st' -> s <> a -> accd st' k r s = accd st k r s.
  Proof.
    intros S Hs. unfold accd. rewrite (pos_frame _ _ _ S s Hs). destruct (frame _ _ _ S s Hs) as [-> [-> _]]. auto.
  Qed.

  Lemma leb_same a b c : (a <= b <-> a <= c) -> (a <=? b) = (a <=? c).
  Proof. intros H. destruct (Nat.leb_spec a b), (Nat.leb_spec a c); auto; lia. Qed.

  Lemma dst_msg k o s r : nth_error ops k = Some o -> (msg k s r = None <-> ~ In r (map fst (op_outs o s))).
  Proof. intros E. unfold msg. rewrite E. apply lookup_none. Qed.

  Lemma pres_win a st st' : inv st -> step n ops sync a st st' ->
    forall r, r < n -> 1 <= phn (ph st' r) <= 3 -> win st' r = length (filter (accd st' (pc st' r) r) (seq 0 n)).
  Proof.
    intros I S r Hr Hp.
    assert (Same : r <> a -> win st' r = win st r -> accd st' (pc st r) r a = accd st (pc st r) r a ->
      win st' r = length (filter (accd st' (pc st' r) r) (seq 0 n))).
    { intros Hn Hw Ha. destruct (frame _ _ _ S r Hn) as [F1 [F2 _]]. rewrite F1, Hw. rewrite F2 in Hp.
      rewrite (i_win st I r Hr Hp). f_equal. apply filter_ext_in. intros s _. destruct (Nat.eq_dec s a) as [->|Hs]; auto.
      symmetry. apply (acc_frame a); auto. }
    assert (Own : r = a -> win st' r = win st r -> pc st' r = pc st r -> 1 <= phn (ph st r) <= 3 -> accd st' (pc st r) r a = accd st (pc st r) r a ->
      win st' r = length (filter (accd st' (pc st' r) r) (seq 0 n))).
    { intros -> Hw Hpc Hp0 Ha. rewrite Hpc, Hw, (i_win st I a Hr Hp0). f_equal. apply filter_ext_in. intros s _.
      destruct (Nat.eq_dec s a) as [->|Hs]; auto. symmetry. apply (acc_frame a); auto. }
    assert (Hg : r <> a -> isg (pc st r) = true).
    { intros Hn. destruct (frame _ _ _ S r Hn) as [F1 [F2 _]]. rewrite F2 in Hp. pose proof (i_rank st I r Hr) as RK.
      unfold rank_ok in RK. destruct (ph st r); cbn in Hp; try lia; tauto. }
    pose proof S as S0. destruct S.
    - (* init *) destruct (Nat.eq_dec r r0) as [->|Hn].
      + sx. fu. rewrite Nat.eqb_refl in *.
        assert (Z0 : forall s, s < n -> accd (mk_state (pc st) (fun x => if x =? r0 then Bar1 else ph st x) (fun x => if x =? r0 then 0 else win st x) (c42 st) (c43 st) (res st)) (pc st r0) r0 s = false).
        { intros s Hs. unfold accd. apply andb_false_iff. right. apply orb_false_iff. unfold pos. sx.
          assert (B1 : ~ 6 * pc st r0 + 2 <= pos st s).
          { intros X. pose proof (i_b1 st I (pc st r0) s r0 (isg_global _ _ H0) Hs H X) as Q. unfold pos in Q. rewrite H1 in Q. cbn in Q. lia. }
          unfold pos in B1. destruct (Nat.eqb_spec s r0) as [->|Hn].
          - cbn [phn]. split; auto. apply Nat.leb_gt. lia.
          - split; [apply Nat.leb_gt; lia|]. destruct (ph st s) eqn:Ep; auto. apply andb_false_iff. left. apply Nat.eqb_neq. cbn in B1. lia. }
        symmetry. rewrite length_zero_iff_nil. 
        destruct (filter _ (seq 0 n)) as [|x l] eqn:Ef; auto. exfalso. assert (In x (x :: l)) by (left; auto). rewrite <- Ef in H2.
        apply filter_In in H2. destruct H2 as [A1 A2]. apply in_seq in A1. rewrite Z0 in A2 by lia. discriminate.
      + apply Same; auto. { sx. fu. destruct (Nat.eqb_spec r r0); congruence. }
        unfold accd, pos. sx. fu. rewrite Nat.eqb_refl, H1. cbn [phn]. f_equal. f_equal. apply leb_same. lia.
    - (* bar1 *) assert (Ha : accd (mk_state (pc st) (fupd (ph st) r0 (Acc (map fst (outs r0)))) (win st) (c42 st) (c43 st) (res st)) (pc st r) r r0 = accd st (pc st r) r r0).
      { unfold accd, pos. sx. fu. rewrite Nat.eqb_refl, H1. cbn [phn].
        destruct (issome (msg (pc st r) r0 r)) eqn:Em; auto. cbn [andb].
        replace (6 * pc st r + 3 <=? 6 * pc st r0 + 2) with (6 * pc st r + 3 <=? 6 * pc st r0 + 1) by (apply leb_same; lia). f_equal.
        destruct (Nat.eqb_spec (pc st r0) (pc st r)) as [Ek|]; auto. cbn [andb]. apply negb_false_iff, mem_in.
        rewrite <- Ek in Em. destruct (in_dec Nat.eq_dec r (map fst (outs r0))) as [|Hni]; auto. exfalso.
        assert (Q : msg (pc st r0) r0 r = None) by (apply (dst_msg _ _ _ _ H0); auto). rewrite Q in Em. discriminate. }
      destruct (Nat.eq_dec r r0) as [->|Hn]; [apply Own; auto; rewrite H1; cbn; lia|apply Same; auto].
    - (* accumulate *) pose proof (i_rank st I r0 H) as RK. unfold rank_ok in RK. rewrite H0 in RK.
      destruct RK as [Hg0 [o [dn [Eo Ed]]]].
      assert (ND : NoDup (map fst (op_outs o r0))) by (eapply op_ok; eauto).
      rewrite Ed in ND. pose proof (NoDup_remove_2 _ _ _ ND) as Nd. rewrite in_app_iff in Nd.
      assert (Dlt : d < n).
      { assert (In d (map fst (op_outs o r0))) by (rewrite Ed; apply in_or_app; right; left; auto).
        apply in_map_iff in H1. destruct H1 as [[d' m] [<- Hi]]. pose proof (nth_error_In _ _ Eo) as Hin.
        apply (Hops o Hin) in H. destruct H as [_ H]. eapply H; eauto. }
      assert (Pa : pos st r0 = 6 * pc st r0 + 2) by (unfold pos; rewrite H0; auto).
      destruct (Nat.eq_dec r d) as [->|Hrd].
      + (* the window that is incremented *)
        assert (Hp0 : 1 <= phn (ph st d) <= 3).
        { destruct (Nat.eq_dec d r0) as [->|Hn]; [rewrite H0; cbn; lia|]. sx. fu. destruct (Nat.eqb_spec d r0); [congruence|auto]. }
        assert (Ek : pc st d = pc st r0).
        { pose proof (i_b1 st I (pc st r0) r0 d Hg0 H Dlt ltac:(lia)) as Q1.
          destruct (Nat.le_gt_cases (6 * pc st r0 + 4) (pos st d)) as [Hle|Hgt].
          - pose proof (i_b2 st I (pc st r0) d r0 Hg0 Dlt H Hle). lia.
          - unfold pos in Q1, Hgt. lia. }
        sx. unfold fupd at 1. rewrite Nat.eqb_refl, (i_win st I d Dlt Hp0). symmetry. rewrite Ek. apply filter_length_change with (a := r0); auto.
        * unfold accd. rewrite H0, Pa. rewrite Nat.eqb_refl. destruct (Nat.leb_spec (6 * pc st r0 + 3) (6 * pc st r0 + 2)); [lia|].
          assert (mem d (d :: rest) = true) by (apply mem_in; left; auto). rewrite H2. cbn. apply andb_false_r.
        * unfold accd, pos. sx. fu. rewrite !Nat.eqb_refl. cbn [phn andb].
          assert (Q : msg (pc st r0) r0 d <> None).
          { intros X. apply (dst_msg _ _ _ _ Eo) in X. apply X. rewrite Ed. apply in_or_app. right. left. auto. }
          assert (mem d rest = false) by (apply mem_not_in; tauto). rewrite H1. destruct (msg (pc st r0) r0 d); [|congruence].
          cbn. apply orb_true_r.
        * intros s Hs. unfold accd, pos. sx. fu. destruct (Nat.eqb_spec s r0); [congruence|auto].
      + assert (Ha : accd (mk_state (pc st) (fupd (ph st) r0 (Acc rest)) (fupd (win st) d (win st d + 1)) (c42 st) (c43 st) (res st)) (pc st r) r r0 = accd st (pc st r) r r0).
        { unfold accd, pos. sx. fu. rewrite Nat.eqb_refl, H0. cbn [phn]. do 4 f_equal. unfold mem. cbn [existsb].
          destruct (Nat.eqb_spec r d); [congruence|]. auto. }
        assert (Hw : fupd (win st) d (win st d + 1) r = win st r) by (unfold fupd; destruct (Nat.eqb_spec r d); congruence).
        destruct (Nat.eq_dec r r0) as [->|Hn]; [apply Own; auto; rewrite H0; cbn; lia|apply Same; auto].
    - (* enter bar2 *)
      assert (Ha : accd (mk_state (pc st) (fupd (ph st) r0 Bar2) (win st) (c42 st) (c43 st) (res st)) (pc st r) r r0 = accd st (pc st r) r r0).
      { unfold accd, pos. sx. fu. rewrite Nat.eqb_refl, H0. cbn [phn mem existsb negb]. rewrite andb_true_r, orb_false_r. f_equal.
        destruct (Nat.eqb_spec (pc st r0) (pc st r)) as [->|]; cbn [orb].
        - destruct (Nat.leb_spec (6 * pc st r + 3) (6 * pc st r + 3)); [|lia]. rewrite orb_true_r. auto.
        - rewrite orb_false_r. apply leb_same. lia. }
      destruct (Nat.eq_dec r r0) as [->|Hn]; [apply Own; auto; rewrite H0; cbn; lia|apply Same; auto].
    - (* bar2 *) destruct (Nat.eq_dec r r0) as [->|Hn]; [sx; fu; rewrite Nat.eqb_refl in Hp; cbn in Hp; lia|].
      apply Same; auto. unfold accd, pos. sx. fu. rewrite Nat.eqb_refl, H1. cbn [phn]. f_equal. f_equal. apply leb_same. lia.
    - destruct (Nat.eq_dec r r0) as [->|Hn]; [sx; fu; rewrite Nat.eqb_refl in Hp; cbn in Hp; lia|].
      apply Same; auto. unfold accd, pos. sx. fu. rewrite Nat.eqb_refl, H1. cbn [phn]. f_equal.
    - destruct (Nat.eq_dec r r0) as [->|Hn]; [sx; fu; rewrite Nat.eqb_refl in Hp; cbn in Hp; lia|].
      apply Same; auto. unfold accd, pos. sx. fu. rewrite Nat.eqb_refl, H1. cbn [phn]. f_equal. f_equal. apply leb_same. lia.
    - destruct (Nat.eq_dec r r0) as [->|Hn]; [sx; fu; rewrite Nat.eqb_refl in Hp; destruct w; cbn in Hp; lia|].
      apply Same; auto. unfold accd, pos. sx. fu. rewrite Nat.eqb_refl, H0. destruct w; cbn [phn]; auto.
    - destruct (Nat.eq_dec r r0) as [->|Hn]; [sx; fu; rewrite Nat.eqb_refl in Hp; cbn in Hp; lia|].
      apply Same; auto. unfold accd, pos. sx. fu. rewrite !Nat.eqb_refl, H0. cbn [phn]. f_equal. f_equal. apply leb_same. lia.
    - destruct (Nat.eq_dec r r0) as [->|Hn]; [sx; fu; rewrite Nat.eqb_refl in Hp; cbn in Hp; lia|].
      apply Same; auto. unfold accd, pos. sx. fu. rewrite !Nat.eqb_refl, H1. cbn [phn]. f_equal. f_equal. apply leb_same.
      specialize (Hg Hn). assert (pc st r <> pc st r0) by (intros X; rewrite X, (isg_local _ _ _ H0) in Hg; discriminate). lia.
    - destruct (Nat.eq_dec r r0) as [->|Hn]; [sx; fu; rewrite Nat.eqb_refl in Hp; destruct w; cbn in Hp; lia|].
      apply Same; auto. unfold accd, pos. sx. fu. rewrite Nat.eqb_refl, H0. 
      destruct w; cbn [phn]; auto; f_equal; f_equal; apply leb_same; lia.
    - destruct (Nat.eq_dec r r0) as [->|Hn]; [sx; fu; rewrite Nat.eqb_refl in Hp; cbn in Hp; lia|].
      apply Same; auto. unfold accd, pos. sx. fu. rewrite !Nat.eqb_refl, H1. cbn [phn]. f_equal. f_equal. apply leb_same. lia.
  Qed.

  Lemma post_eq {A} (c : nat -> nat -> list A) r f (outs : list (nat * payload B)) s d :
    post c r f outs s d = if s =? r then c s d ++ msgs_for f outs d else c s d.
  Proof. reflexivity. Qed.

  Lemma msgs42 k outs s r : nth_error ops k = Some (OpGlobal outs) -> s < n -> msgs_for fst (outs s) r = E42 k s r.
  Proof.
    intros E Hs. rewrite msgs_for_lookup by (apply (op_ok _ _ E s Hs)). unfold E42, msg. rewrite E, (isg_global _ _ E). auto.
  Qed.
  Lemma msgs43g k outs s r : nth_error ops k = Some (OpGlobal outs) -> s < n ->
    msgs_for (fun m => WData (snd m)) (outs s) r = E43d k s r.
  Proof.
    intros E Hs. rewrite msgs_for_lookup by (apply (op_ok _ _ E s Hs)). unfold E43d, msg. rewrite E, (isg_global _ _ E). auto.
  Qed.
  Lemma msgs43c k outs srcs s r : nth_error ops k = Some (OpLocal outs srcs) -> s < n ->
    msgs_for (fun m => WCount (fst m)) (outs s) r = E43c k s r.
  Proof.
    intros E Hs. rewrite msgs_for_lookup by (apply (op_ok _ _ E s Hs)). unfold E43c, msg. rewrite E, (isg_local _ _ _ E). auto.
  Qed.
  Lemma msgs43l k outs srcs s r : nth_error ops k = Some (OpLocal outs srcs) -> s < n ->
    msgs_for (fun m => WData (snd m)) (nonempty_outs (outs s)) r = E43d k s r.
  Proof.
    intros E Hs. rewrite msgs_for_nonempty by (apply (op_ok _ _ E s Hs)). unfold E43d, msg. rewrite E, (isg_local _ _ _ E). auto.
  Qed.

  Lemma E42_local k s r : isg k = false -> E42 k s r = [].
  Proof. unfold E42. intros ->. auto. Qed.
  Lemma E43c_global k s r : isg k = true -> E43c k s r = [].
  Proof. unfold E43c. intros ->. auto. Qed.
  Lemma not_sender k s r : s < n -> ~ In s (senders k r) -> msg k s r = None.
  Proof. intros Hs H. destruct (msg k s r) eqn:E; auto. exfalso. apply H, in_senders. split; auto. congruence. Qed.

  Lemma data_from_lt st r cnts rem got s : inv st -> r < n -> ph st r = Data cnts rem got -> In s rem -> s < n.
  Proof.
    intros I Hr Hp Hin. pose proof (i_rank st I r Hr) as RK. unfold rank_ok in RK. rewrite Hp in RK. destruct RK as [_ [P1 [_ [P2 _]]]].
    assert (X : In s (senders (pc st r) r)); [|apply in_senders in X; apply X]. eapply Permutation_in; [exact P1|].
    assert (Y : In s (map fst (filter (fun e => isg (pc st r) || (0 <? snd e)) cnts))).
    { eapply Permutation_in; [exact P2|]. apply in_or_app. auto. }
    apply in_map_iff in Y. destruct Y as [y [<- Y]]. apply filter_In in Y. apply in_map. apply Y.
  Qed.
  Lemma lcount_from_lt st r rem got s : inv st -> r < n -> ph st r = LCounts rem got -> In s rem -> s < n.
  Proof.
    intros I Hr Hp Hin. pose proof (i_rank st I r Hr) as RK. unfold rank_ok in RK. rewrite Hp in RK. destruct RK as [_ [_ [P _]]].
    assert (X : In s (senders (pc st r) r)); [|apply in_senders in X; apply X]. eapply Permutation_in; [exact P|].
    apply in_or_app. auto.
  Qed.

  Lemma pres_42 a st st' : inv st -> step n ops sync a st st' ->
    forall s r, s < n -> r < n -> S42 st' s r = R42 st' s r ++ c42 st' s r.
  Proof.
    intros I S s r Hs Hr. pose proof (i_42 st I s r Hs Hr) as IH.
    destruct S; unfold S42, R42 in *; sx; fu; rewrite ?post_eq.
    - destruct (Nat.eqb_spec s r0), (Nat.eqb_spec r r0); subst; rewrite ?H1 in IH; exact IH.
    - destruct (Nat.eqb_spec s r0), (Nat.eqb_spec r r0); subst; rewrite ?H1 in IH; exact IH.
    - destruct (Nat.eqb_spec s r0), (Nat.eqb_spec r r0); subst; rewrite ?H0 in IH; exact IH.
    - destruct (Nat.eqb_spec s r0), (Nat.eqb_spec r r0); subst; rewrite ?H0 in IH; exact IH.
    - (* bar2 *) destruct (Nat.eqb_spec s r0), (Nat.eqb_spec r r0); subst; rewrite ?H1 in IH; cbn [phn Nat.leb map mem existsb] in *;
        rewrite ?app_nil_r in *; auto; rewrite (msgs42 _ _ _ _ H0 Hs), app_assoc, <- IH; auto.
    - (* count *) destruct (count_received st s0 r0 nrecv got c t I H0 H H1 H3) as [Hni [-> [d Hm]]].
      pose proof (i_rank st I r0 H) as RK. unfold rank_ok in RK. rewrite H1 in RK. destruct RK as [Hg _].
      replace (phn (if s =? r0 then Counts nrecv ((s0, c) :: got) else ph st s)) with (phn (ph st s))
        by (destruct (Nat.eqb_spec s r0) as [->|]; [rewrite H1|]; auto).
      rewrite IH. destruct (Nat.eqb_spec r r0) as [->|].
      + rewrite H1. cbn [map mem existsb fst]. destruct (Nat.eqb_spec s s0) as [->|Hn].
        * cbn [andb orb]. assert (Q : existsb (Nat.eqb s0) (map fst got) = false) by (apply mem_not_in; auto). 
          unfold mem. rewrite Q. rewrite H3, !app_nil_r. unfold E42. rewrite Hg, Hm. auto.
        * cbn [andb orb]. auto.
      + rewrite andb_false_r. auto.
    - (* counts done *)
      pose proof (got_complete st r0 nrecv got I H H1 H2) as P.
      assert (Hg : mem s (map fst got) = false -> E42 (pc st r0) s r0 = []).
      { intros X. apply mem_not_in in X. unfold E42. rewrite (not_sender (pc st r0) s r0); [destruct (isg _); auto|auto|].
        intros Y. apply X. eapply Permutation_in; [symmetry; exact P|auto]. }
      replace (phn (if s =? r0 then Data got (map fst got) [] else ph st s)) with (if s =? r0 then 5 else phn (ph st s))
        by (destruct (s =? r0); auto).
      destruct (Nat.eqb_spec s r0), (Nat.eqb_spec r r0); subst s || subst r || idtac; subst; rewrite ?H1 in IH; cbn [phn Nat.leb] in *.
      + destruct (mem r0 (map fst got)) eqn:Em; auto. rewrite (Hg eq_refl) in *. auto.
      + auto.
      + rewrite IH. destruct (mem s (map fst got)) eqn:Em; auto. rewrite (Hg eq_refl). auto.
      + auto.
    - (* data *) destruct w.
      + exfalso. pose proof (data_from_lt st r0 _ _ _ s0 I H H0 (in_elt _ _ _)) as Hs0.
        destruct (data_received st s0 r0 _ _ _ _ _ I Hs0 H H0 (in_elt _ _ _) H1) as [? [? [? _]]]; discriminate.
      + destruct (Nat.eqb_spec s r0), (Nat.eqb_spec r r0); subst; rewrite ?H0 in IH; exact IH.
    - (* data done *) rewrite F42_S || idtac.
      destruct (Nat.eqb_spec s r0), (Nat.eqb_spec r r0); subst; rewrite ?H0 in IH; cbn [phn Nat.leb] in *; rewrite ?F42_S, ?app_nil_r in *; auto.
    - (* local *) pose proof (E42_local (pc st r0) s r (isg_local _ _ _ H0)) as L1.
      destruct (Nat.eqb_spec s r0), (Nat.eqb_spec r r0); subst; rewrite ?H1 in IH; cbn [phn Nat.leb] in *; rewrite ?L1 in *; auto.
    - (* lcount *) pose proof (i_rank st I r0 H) as RK. unfold rank_ok in RK. rewrite H0 in RK. destruct RK as [Hk [Hg [P _]]].
      pose proof (E42_local (pc st r0) s r Hg) as L1. pose proof (E42_local (pc st r0) s r0 Hg) as L2.
      destruct w; destruct (Nat.eqb_spec s r0), (Nat.eqb_spec r r0); subst; rewrite ?H0 in IH; cbn [phn Nat.leb] in *; rewrite ?L1, ?L2 in *; auto.
    - (* lcounts done *) pose proof (E42_local (pc st r0) s r (isg_local _ _ _ H0)) as L1.
      pose proof (E42_local (pc st r0) s r0 (isg_local _ _ _ H0)) as L2.
      destruct (Nat.eqb_spec s r0), (Nat.eqb_spec r r0); subst; rewrite ?H1 in IH; cbn [phn Nat.leb] in *; rewrite ?L1, ?L2 in *; auto.
  Qed.

  Lemma mem_app x l1 l2 : mem x (l1 ++ l2) = mem x l1 || mem x l2.
  Proof. unfold mem. apply existsb_app. Qed.
  Lemma mem_remove x s rem1 rem2 : x <> s -> mem x (rem1 ++ s :: rem2) = mem x (rem1 ++ rem2).
  Proof. intros H. rewrite !mem_app. cbn. destruct (Nat.eqb_spec x s); [congruence|auto]. Qed.

  Lemma cnts_nodup k r (cnts : list (nat * nat)) f : Permutation (map fst cnts) (senders k r) -> NoDup (map fst (filter f cnts)).
  Proof.
    intros P. assert (N : NoDup (map fst cnts)) by (eapply Permutation_NoDup; [symmetry; exact P|apply senders_nodup]).
    clear P. induction cnts as [|e l IH]; cbn [filter map]; [constructor|]. cbn [map] in N. inversion N as [|? ? N1 N2]; subst.
    destruct (f e); auto. cbn [map]. constructor; auto. intros Hi. apply N1. apply in_map_iff in Hi. destruct Hi as [y [<- Hy]].
    apply filter_In in Hy. apply in_map. apply Hy.
  Qed.

  Lemma data_rem_nodup st r cnts rem1 s rem2 got : inv st -> r < n -> ph st r = Data cnts (rem1 ++ s :: rem2) got ->
    ~ In s (rem1 ++ rem2) /\ ~ In s (map fst got).
  Proof.
    intros I Hr Hp. pose proof (i_rank st I r Hr) as RK. unfold rank_ok in RK. rewrite Hp in RK. destruct RK as [_ [P1 [_ [P2 _]]]].
    assert (N : NoDup ((rem1 ++ s :: rem2) ++ map fst got)).
    { eapply Permutation_NoDup; [symmetry; exact P2|]. eapply cnts_nodup; eauto. }
    rewrite <- app_assoc in N. cbn in N. apply NoDup_remove_2 in N. rewrite !in_app_iff in *. tauto.
  Qed.
  Lemma lcount_rem_nodup st r rem1 s rem2 got : inv st -> r < n -> ph st r = LCounts (rem1 ++ s :: rem2) got ->
    ~ In s (rem1 ++ rem2) /\ ~ In s (map fst got).
  Proof.
    intros I Hr Hp. pose proof (i_rank st I r Hr) as RK. unfold rank_ok in RK. rewrite Hp in RK. destruct RK as [_ [_ [P _]]].
    assert (N : NoDup ((rem1 ++ s :: rem2) ++ map fst got)).
    { eapply Permutation_NoDup; [symmetry; exact P|]. apply senders_nodup. }
    rewrite <- app_assoc in N. cbn in N. apply NoDup_remove_2 in N. rewrite !in_app_iff in *. tauto.
  Qed.

  Lemma pres_43 a st st' : inv st -> step n ops sync a st st' ->
    forall s r, s < n -> r < n -> S43 st' s r = R43 st' s r ++ c43 st' s r.
  Proof.
    intros I S s r Hs Hr. pose proof (i_43 st I s r Hs Hr) as IH.
    destruct S; unfold S43, R43 in *; sx; fu; rewrite ?post_eq.
    - destruct (Nat.eqb_spec s r0), (Nat.eqb_spec r r0); subst; rewrite ?H1 in IH; exact IH.
    - destruct (Nat.eqb_spec s r0), (Nat.eqb_spec r r0); subst; rewrite ?H1 in IH; exact IH.
    - destruct (Nat.eqb_spec s r0), (Nat.eqb_spec r r0); subst; rewrite ?H0 in IH; exact IH.
    - destruct (Nat.eqb_spec s r0), (Nat.eqb_spec r r0); subst; rewrite ?H0 in IH; exact IH.
    - (* bar2 *) pose proof (E43c_global (pc st r0) s r (isg_global _ _ H0)) as L1.
      destruct (Nat.eqb_spec s r0), (Nat.eqb_spec r r0); subst; rewrite ?H1 in IH; cbn [phn Nat.leb] in *; rewrite ?L1 in *; auto.
    - (* count *) 
      destruct (Nat.eqb_spec s r0), (Nat.eqb_spec r r0); subst; rewrite ?H1 in IH; exact IH.
    - (* counts done *)
      pose proof (got_complete st r0 nrecv got I H H1 H2) as P.
      assert (Hg : mem s (map fst got) = false -> E43d (pc st r0) s r0 = []).
      { intros X. apply mem_not_in in X. unfold E43d. rewrite (not_sender (pc st r0) s r0); auto.
        intros Y. apply X. eapply Permutation_in; [symmetry; exact P|auto]. }
      pose proof (E43c_global (pc st r0) s r (isg_global _ _ H0)) as L1.
      pose proof (E43c_global (pc st r0) s r0 (isg_global _ _ H0)) as L2.
      assert (L3 : (if mem s (map fst got) then [] else E43d (pc st r0) s r0) = []).
      { destruct (mem s (map fst got)) eqn:Em; auto. }
      destruct (Nat.eqb_spec s r0), (Nat.eqb_spec r r0); subst r || idtac; try subst s; rewrite ?H1 in IH; cbn [phn Nat.leb] in *;
        rewrite ?L1, ?L2, ?L3 in *; cbn [app] in *; rewrite ?app_nil_r in *; auto; rewrite (msgs43g _ _ _ _ H0 Hs), app_assoc, <- IH; auto.
    - (* data *) pose proof (data_from_lt st r0 _ _ _ s0 I H H0 (in_elt _ _ _)) as Hs0.
      destruct (data_received st s0 r0 _ _ _ _ _ I Hs0 H H0 (in_elt _ _ _) H1) as [c [d [-> [Hm Ed]]]].
      destruct (data_rem_nodup st r0 _ _ _ _ _ I H H0) as [Nr _].
      replace (phn (if s =? r0 then Data cnts (rem1 ++ rem2) ((s0, d) :: got) else ph st s)) with (phn (ph st s))
        by (destruct (Nat.eqb_spec s r0) as [->|]; [rewrite H0|]; auto).
      rewrite IH. destruct (Nat.eqb_spec r r0) as [->|].
      + rewrite H0. destruct (Nat.eqb_spec s s0) as [->|Hn].
        * cbn [andb]. rewrite (proj2 (mem_in _ _) (in_elt _ _ _)), (proj2 (mem_not_in _ _) Nr), H1, Ed, app_nil_r, <- !app_assoc. auto.
        * cbn [andb]. rewrite mem_remove by auto. auto.
      + rewrite andb_false_r. auto.
    - (* data done *)
      destruct (Nat.eqb_spec s r0), (Nat.eqb_spec r r0); subst; rewrite ?H0 in IH; cbn [phn Nat.leb mem existsb] in *; rewrite ?F43_S, ?app_nil_r in *; auto.
    - (* local *)
      assert (L : (if mem s (srcs r0) then [] else E43c (pc st r0) s r0) = []).
      { destruct (mem s (srcs r0)) eqn:Em; auto. apply mem_not_in in Em. unfold E43c. rewrite (not_sender (pc st r0) s r0); [destruct (isg _); auto|auto|].
        intros Y. apply Em. eapply Permutation_in; [symmetry; apply (srcs_senders _ _ _ _ H0 H)|auto]. }
      destruct (Nat.eqb_spec s r0), (Nat.eqb_spec r r0); try subst r; try subst s; rewrite ?H1 in IH; cbn [phn Nat.leb] in *;
        rewrite ?L in *; cbn [app] in *; rewrite ?app_nil_r in *; auto; rewrite (msgs43c _ _ _ _ _ H0 Hs), app_assoc, <- IH; auto.
    - (* lcount *) pose proof (lcount_from_lt st r0 _ _ s0 I H H0 (in_elt _ _ _)) as Hs0.
      destruct (lcount_received st s0 r0 _ _ _ _ I Hs0 H H0 (in_elt _ _ _) H1) as [c [d [-> [Hm Ed]]]].
      destruct (lcount_rem_nodup st r0 _ _ _ _ I H H0) as [Nr _].
      replace (phn (if s =? r0 then LCounts (rem1 ++ rem2) ((s0, c) :: got) else ph st s)) with (phn (ph st s))
        by (destruct (Nat.eqb_spec s r0) as [->|]; [rewrite H0|]; auto).
      rewrite IH. destruct (Nat.eqb_spec r r0) as [->|].
      + rewrite H0. destruct (Nat.eqb_spec s s0) as [->|Hn].
        * cbn [andb]. rewrite (proj2 (mem_in _ _) (in_elt _ _ _)), (proj2 (mem_not_in _ _) Nr), H1, Ed, app_nil_r, <- !app_assoc. auto.
        * cbn [andb]. rewrite mem_remove by auto. auto.
      + rewrite andb_false_r. auto.
    - (* lcounts done *) pose proof (i_rank st I r0 H) as RK. unfold rank_ok in RK. rewrite H1 in RK.
      destruct RK as [Hk [Hg [P Hc]]]. cbn [app] in P.
      assert (L : (if mem s (map fst (filter (fun e => 0 <? snd e) got)) then [] else E43d (pc st r0) s r0) = []).
      { destruct (mem s _) eqn:Em; auto. apply mem_not_in in Em. unfold E43d. destruct (msg (pc st r0) s r0) as [[c d]|] eqn:Emm; auto.
        rewrite Hg. cbn [orb fst snd]. destruct (0 <? c) eqn:Ec; auto. exfalso. apply Em.
        assert (X : In s (map fst got)) by (eapply Permutation_in; [symmetry; exact P|]; apply in_senders; split; auto; congruence).
        apply in_map_iff in X. destruct X as [[s' c'] [<- X]]. destruct (Hc _ _ X) as [d' E]. cbn [fst] in *.
        apply in_map_iff. exists (s', c'). split; auto. apply filter_In. split; auto. cbn [snd]. congruence. }
      cbn [mem existsb] in IH.
      destruct (Nat.eqb_spec s r0), (Nat.eqb_spec r r0); try subst r; try subst s; rewrite ?H1 in IH; cbn [phn Nat.leb mem existsb] in *;
        rewrite ?L in *; cbn [app] in *; rewrite ?app_nil_r in *; auto; rewrite (msgs43l _ _ _ _ _ H0 Hs), !app_assoc; rewrite ?app_assoc in IH; rewrite <- IH; auto.
  Qed.

  Lemma isg_lt k : isg k = true -> k < length ops.
  Proof. unfold isg. intros H. apply nth_error_Some. destruct (nth_error ops k); congruence. Qed.

  Lemma pres_rank a st st' : inv st -> step n ops sync a st st' -> forall r, r < n -> rank_ok st' r.
  Proof.
    intros I S r Hr. pose proof (i_rank st I r Hr) as RK.
    destruct (Nat.eq_dec r a) as [->|Hn].
    2:{ unfold rank_ok in *. destruct (frame _ _ _ S r Hn) as [-> [-> _]]. auto. }
    unfold rank_ok in *. destruct S; sx; fu; rewrite ?Nat.eqb_refl; match goal with X : ph _ _ = _ |- _ => rewrite X in RK end.
    - apply (isg_global _ _ H0).
    - split; [auto|]. exists (OpGlobal outs), []. auto.
    - destruct RK as [Hg [o [dn [Eo Ed]]]]. split; auto. exists o, (dn ++ [d]). rewrite <- app_assoc. auto.
    - apply RK.
    - split; [auto|]. split; [|split; [constructor|intros s c []]].
      rewrite (i_win st I r H) by (rewrite H1; cbn; lia). f_equal. unfold senders. apply filter_ext_in.
      intros s Hs. apply in_seq in Hs. unfold accd. destruct (Nat.leb_spec (6 * pc st r + 3) (pos st s)).
      + cbn. rewrite andb_true_r. auto.
      + specialize (H2 s). lia.
    - destruct RK as [Hg [Hn [ND Hc]]]. destruct (count_received st s r nrecv got c t I H0 H H1 H3) as [Hni [_ [d Hm]]].
      split; [auto|]. split; [auto|]. split; [cbn; constructor; auto|]. intros s' c' [[= <- <-]|Hi]; eauto.
    - destruct RK as [Hg [Hn [ND Hc]]]. pose proof (got_complete st r nrecv got I H H1 H2) as P.
      split; [apply isg_lt; auto|]. split; [auto|]. split; [intros s c Hi; apply (Hc _ _ Hi)|]. split; [|intros s d []].
      cbn [map]. rewrite app_nil_r, Hg. cbn [orb].
      replace (filter (fun _ => true) got) with got; auto. clear. induction got; cbn; congruence.
    - destruct RK as [Hk [P1 [H2 [P2 H3]]]]. pose proof (data_from_lt st r _ _ _ s I H H0 (in_elt _ _ _)) as Hs0.
      destruct (data_received st s r _ _ _ _ _ I Hs0 H H0 (in_elt _ _ _) H1) as [c [d [-> [Hm Ed]]]].
      split; [auto|]. split; [auto|]. split; [auto|]. split.
      + rewrite <- P2. cbn [map fst]. rewrite <- !app_assoc. apply Permutation_app_head. cbn. symmetry. apply Permutation_middle.
      + intros s' d' [[= <- <-]|Hi]; eauto.
    - lia.
    - split; [apply nth_error_Some; congruence|]. split; [apply (isg_local _ _ _ H0)|]. split; [|intros s c []].
      cbn. rewrite app_nil_r. eapply srcs_senders; eauto.
    - destruct RK as [Hk [Hg [P H2]]]. pose proof (lcount_from_lt st r _ _ s I H H0 (in_elt _ _ _)) as Hs0.
      destruct (lcount_received st s r _ _ _ _ I Hs0 H H0 (in_elt _ _ _) H1) as [c [d [-> [Hm Ed]]]].
      split; [auto|]. split; [auto|]. split.
      + rewrite <- P. cbn [map fst]. rewrite <- !app_assoc. apply Permutation_app_head. cbn. symmetry. apply Permutation_middle.
      + intros s' c' [[= <- <-]|Hi]; eauto.
    - destruct RK as [Hk [Hg [P Hc]]]. cbn [app] in P. split; [auto|]. split; [auto|]. split; [auto|]. split; [|intros s d []].
      cbn [map]. rewrite app_nil_r, Hg. cbn [orb]. auto.
  Qed.

  (** ** Results *)
  Definition entry (k r s : nat) : result B :=
    match msg k s r with
    | Some m => [(s, (fst m, if isg k || (0 <? fst m) then Some (snd m) else None))]
    | None => []
    end.

  Lemma expected_entry k o r : nth_error ops k = Some o -> expected n o r = flat_map (entry k r) (senders k r).
  Proof.
    intros E.
    assert (A : expected n o r = flat_map (entry k r) (seq 0 n)).
    { unfold expected. rewrite !(flat_map_concat_map _ (seq 0 n)). f_equal. apply map_ext_in. intros s Hs. apply in_seq in Hs.
      pose proof (op_ok _ _ E s ltac:(lia)) as N.
      pose (G := fun m : nat * payload B => (s, (fst (snd m), match o with OpGlobal _ => Some (snd (snd m))
                         | OpLocal _ _ => if 0 <? fst (snd m) then Some (snd (snd m)) else None end))).
      change (flat_map (fun m => if fst m =? r then [G m] else []) (op_outs o s) = entry k r s).
      assert (F : forall l, flat_map (fun m => if fst m =? r then [G m] else []) l = map G (filter (fun m => fst m =? r) l)).
      { induction l as [|m l IH]; auto. cbn. rewrite IH. destruct (fst m =? r); auto. }
      rewrite F, filter_fst_lookup by auto. unfold entry, msg. rewrite E. destruct (lookup (op_outs o s) r) as [m|]; auto.
      cbn [map]. unfold G. cbn [fst snd]. unfold isg. rewrite E. destruct o; auto. }
    rewrite A. unfold senders. clear A. induction (seq 0 n) as [|s l IH]; auto. cbn [flat_map filter]. rewrite IH.
    destruct (issome (msg k s r)) eqn:Em; cbn [flat_map]; auto.
    replace (entry k r s) with (@nil (nat * (nat * option (list B)))); auto. unfold entry. destruct (msg k s r); auto; discriminate.
  Qed.

  Lemma result_correct k o r (cnts : list (nat * nat)) (got : list (nat * list B)) : nth_error ops k = Some o ->
    Permutation (map fst cnts) (senders k r) -> (forall s c, In (s, c) cnts -> exists d, msg k s r = Some (c, d)) ->
    Permutation (map fst got) (map fst (filter (fun e => isg k || (0 <? snd e)) cnts)) ->
    (forall s d, In (s, d) got -> exists c, msg k s r = Some (c, d)) ->
    Permutation (to_result cnts got) (expected n o r).
  Proof.
    intros E P1 H1 P2 H2. rewrite (expected_entry k o r E), <- P1.
    replace (flat_map (entry k r) (map fst cnts)) with (to_result cnts got); auto.
    unfold to_result. rewrite !flat_map_concat_map, map_map.
    assert (X : forall e, In e cnts -> entry k r (fst e) = [(fst e, (snd e, lookup got (fst e)))]).
    { intros [s c] Hi. destruct (H1 _ _ Hi) as [d Hm]. unfold entry. cbn [fst snd]. rewrite Hm. cbn [fst snd]. do 3 f_equal.
      assert (Hd : In s (map fst got) <-> isg k || (0 <? c) = true).
      { split.
        - intros X. eapply Permutation_in in X; [|exact P2]. apply in_map_iff in X. destruct X as [[s' c'] [<- X]].
          apply filter_In in X. destruct X as [X1 X2]. destruct (H1 _ _ X1) as [d' Hm']. cbn [fst snd] in *. congruence.
        - intros X. eapply Permutation_in; [symmetry; exact P2|]. apply in_map_iff. exists (s, c). split; auto. apply filter_In. auto. }
      destruct (lookup got s) as [d'|] eqn:El.
      - apply lookup_in in El. destruct (H2 _ _ El) as [c' Hm'].
        assert (isg k || (0 <? c) = true) as -> by (apply Hd, in_map_iff; exists (s, d'); auto). congruence.
      - apply lookup_none in El. destruct (isg k || (0 <? c)); auto. exfalso. apply El, Hd. auto. }
    clear P1 P2. induction cnts as [|e l IH]; auto. cbn [map concat]. rewrite (X e (or_introl eq_refl)). cbn [app]. f_equal.
    apply IH; intros; [eapply H1; right; eauto|apply X; right; auto].
  Qed.

  Lemma pres_res a st st' : inv st -> step n ops sync a st st' -> forall r, r < n -> res_ok st' r.
  Proof.
    intros I S r Hr. pose proof (i_res st I r Hr) as RK.
    destruct (Nat.eq_dec r a) as [->|Hn].
    2:{ unfold res_ok in *. destruct (frame _ _ _ S r Hn) as [-> [_ ->]]. auto. }
    unfold res_ok in *. destruct S; sx; auto. fu. rewrite !Nat.eqb_refl. destruct RK as [L H2]. split; [rewrite app_length; cbn; lia|].
    intros k o x Eo Ex. destruct (Nat.lt_ge_cases k (length (res st r))) as [Hk|Hk].
    - rewrite nth_error_app1 in Ex by auto. eauto.
    - rewrite nth_error_app2 in Ex by auto.
      assert (Ek : k = length (res st r)).
      { assert (k - length (res st r) < 1); [|lia]. change 1 with (length [to_result cnts got]). apply nth_error_Some. congruence. }
      rewrite Ek, Nat.sub_diag in Ex. injection Ex as <-. rewrite L in Ek. subst k.
      pose proof (i_rank st I r H) as RK. unfold rank_ok in RK. rewrite H0 in RK. destruct RK as [_ [P1 [A1 [P2 A2]]]].
      eapply result_correct; eauto.
  Qed.

  Lemma inv_step a st st' : inv st -> step n ops sync a st st' -> inv st'.
  Proof.
    intros I S. constructor.
    - eapply pres_rank; eauto.
    - eapply pres_b1; eauto.
    - eapply pres_b2; eauto.
    - eapply pres_win; eauto.
    - eapply pres_42; eauto.
    - eapply pres_43; eauto.
    - eapply pres_res; eauto.
  Qed.

  Lemma inv_run w k st : run n ops sync (init w) k st -> inv st.
  Proof.
    intros R. remember (init w) as st0. induction R; [subst; apply inv_init|]. eapply inv_step; eauto.
  Qed.

  (** ** Progress *)
  Lemma argmin (f : nat -> nat) m : 0 < m -> exists r, r < m /\ forall s, s < m -> f r <= f s.
  Proof.
    induction m as [|m IH]; [lia|]. intros _. destruct (Nat.eq_dec m 0) as [->|Hm].
    - exists 0. split; auto. intros s Hs. replace s with 0 by lia. auto.
    - destruct (IH ltac:(lia)) as [r [Hr H]]. destruct (Nat.le_gt_cases (f r) (f m)).
      + exists r. split; [lia|]. intros s Hs. destruct (Nat.eq_dec s m) as [->|]; auto. apply H. lia.
      + exists m. split; [lia|]. intros s Hs. destruct (Nat.eq_dec s m) as [->|]; auto. specialize (H s ltac:(lia)). lia.
  Qed.

  Lemma all_or_some {A} (f : nat -> list A) m : (forall d, d < m -> f d = []) \/ exists d x l, d < m /\ f d = x :: l.
  Proof.
    induction m as [|m [IH|[d [x [l [Hd E]]]]]].
    - left. lia.
    - destruct (f m) as [|x l] eqn:E.
      + left. intros d Hd. destruct (Nat.eq_dec d m) as [->|]; auto. apply IH. lia.
      + right. exists m, x, l. auto.
    - right. exists d, x, l. split; auto.
  Qed.

  Lemma F42_le j k s r : j <= k -> exists u, F42 k s r = F42 j s r ++ u.
  Proof. intros H. replace k with (j + (k - j)) by lia. rewrite F42_split. eauto. Qed.
  Lemma F43_le j k s r : j <= k -> exists u, F43 k s r = F43 j s r ++ u.
  Proof. intros H. replace k with (j + (k - j)) by lia. rewrite F43_split. eauto. Qed.

  (** What was sent, from the position of the sender. *)
  Lemma sent42 st k s r : 6 * k + 4 <= pos st s -> exists u, S42 st s r = F42 (k + 1) s r ++ u.
  Proof.
    unfold pos, S42. intros H. assert (Pn : phn (ph st s) <= 5) by (destruct (ph st s); cbn; lia).
    destruct (Nat.eq_dec (pc st s) k) as [<-|Hn].
    - assert (4 <=? phn (ph st s) = true) as -> by (apply Nat.leb_le; lia). rewrite F42_S. exists []. rewrite app_nil_r. auto.
    - destruct (F42_le (k + 1) (pc st s) s r ltac:(lia)) as [u ->]. rewrite <- app_assoc. eauto.
  Qed.
  Lemma sent43c st k s r : 6 * k + 4 <= pos st s -> exists u, S43 st s r = (F43 k s r ++ E43c k s r) ++ u.
  Proof.
    unfold pos, S43. intros H. assert (Pn : phn (ph st s) <= 5) by (destruct (ph st s); cbn; lia).
    destruct (Nat.eq_dec (pc st s) k) as [<-|Hn].
    - assert (4 <=? phn (ph st s) = true) as -> by (apply Nat.leb_le; lia). rewrite app_assoc. eauto.
    - destruct (F43_le (k + 1) (pc st s) s r ltac:(lia)) as [u ->]. rewrite F43_S. eexists. rewrite <- !app_assoc. reflexivity.
  Qed.
  Lemma sent43d st k s r : 6 * k + 5 <= pos st s -> exists u, S43 st s r = F43 (k + 1) s r ++ u.
  Proof.
    unfold pos, S43. intros H. assert (Pn : phn (ph st s) <= 5) by (destruct (ph st s); cbn; lia).
    destruct (Nat.eq_dec (pc st s) k) as [<-|Hn].
    - assert (4 <=? phn (ph st s) = true) as -> by (apply Nat.leb_le; lia).
      assert (5 <=? phn (ph st s) = true) as -> by (apply Nat.leb_le; lia). rewrite F43_S. exists []. rewrite app_nil_r. auto.
    - destruct (F43_le (k + 1) (pc st s) s r ltac:(lia)) as [u ->]. rewrite <- app_assoc. eauto.
  Qed.

  Lemma app_none {A} (u v c : list A) : u = (u ++ v) ++ c -> c = [].
  Proof.
    intros H. rewrite <- app_assoc in H. rewrite <- (app_nil_r u) in H at 1. apply app_inv_head in H. symmetry in H.
    apply app_eq_nil in H. tauto.
  Qed.

  (** A sender that was not heard yet has a message in flight. *)
  Lemma counts_pending st r nrecv got : inv st -> r < n -> ph st r = Counts nrecv got -> length got < nrecv ->
    (forall s, s < n -> 6 * pc st r + 4 <= pos st s) -> exists s c t, s < n /\ c42 st s r = c :: t.
  Proof.
    intros I Hr Hp Hl Hmin. pose proof (i_rank st I r Hr) as RK. unfold rank_ok in RK. rewrite Hp in RK. destruct RK as [Hg [Hn [ND Hc]]].
    assert (X : exists s, In s (senders (pc st r) r) /\ ~ In s (map fst got)).
    { destruct (Exists_dec (fun s => ~ In s (map fst got)) (senders (pc st r) r)) as [E|E].
      - intros s. destruct (in_dec Nat.eq_dec s (map fst got)); [right; auto|left; auto].
      - apply Exists_exists in E. auto.
      - exfalso. assert (J : incl (senders (pc st r) r) (map fst got)).
        { intros s Hs. destruct (in_dec Nat.eq_dec s (map fst got)); auto. exfalso. apply E, Exists_exists. eauto. }
        apply (NoDup_incl_length (senders_nodup _ _)) in J. rewrite map_length in J. lia. }
    destruct X as [s [Hs Hns]]. apply in_senders in Hs. destruct Hs as [Hs Hm].
    destruct (msg (pc st r) s r) as [[c d]|] eqn:Em; [|congruence].
    destruct (sent42 st (pc st r) s r (Hmin s Hs)) as [u Hu]. rewrite (i_42 st I s r Hs Hr) in Hu. unfold R42 in Hu.
    rewrite Hp, (proj2 (mem_not_in _ _) Hns), app_nil_r, F42_S, <- app_assoc in Hu. apply app_inv_head in Hu.
    unfold E42 in Hu. rewrite Hg, Em in Hu. cbn in Hu. exists s, c, u. auto.
  Qed.

  Lemma count_not_full st s r nrecv got c t : inv st -> s < n -> r < n -> ph st r = Counts nrecv got -> c42 st s r = c :: t ->
    length got < nrecv.
  Proof.
    intros I Hs Hr Hp Hc. destruct (count_received st s r nrecv got c t I Hs Hr Hp Hc) as [Hni [_ [d Hm]]].
    pose proof (i_rank st I r Hr) as RK. unfold rank_ok in RK. rewrite Hp in RK. destruct RK as [Hg [-> [ND Hc2]]].
    assert (J : incl (s :: map fst got) (senders (pc st r) r)).
    { intros x [<-|Hx]; [apply in_senders; split; auto; congruence|]. apply in_map_iff in Hx. destruct Hx as [[s' c'] [<- Hx]].
      destruct (Hc2 _ _ Hx) as [A [d' E]]. apply in_senders. cbn. split; auto. congruence. }
    apply NoDup_incl_length in J; [|constructor; auto]. cbn in J. rewrite map_length in J. lia.
  Qed.

  Lemma got_le st r nrecv got : inv st -> r < n -> ph st r = Counts nrecv got -> length got <= nrecv.
  Proof.
    intros I Hr Hp. pose proof (i_rank st I r Hr) as RK. unfold rank_ok in RK. rewrite Hp in RK. destruct RK as [Hg [-> [ND Hc2]]].
    rewrite <- (map_length fst). apply NoDup_incl_length; auto.
    intros x Hx. apply in_map_iff in Hx. destruct Hx as [[s' c'] [<- Hx]].
    destruct (Hc2 _ _ Hx) as [A [d' E]]. apply in_senders. cbn. split; auto. congruence.
  Qed.

  Theorem progress st : inv st -> ~ finished n ops st -> exists a st', step n ops sync a st st'.
  Proof.
    intros I NF. assert (Hn0 : 0 < n).
    { destruct n; [|lia]. exfalso. apply NF. intros r Hr. lia. }
    destruct (argmin (pos st) n Hn0) as [r [Hr Hmin]].
    pose proof (i_rank st I r Hr) as RK. unfold rank_ok in RK. unfold pos at 1 in Hmin.
    destruct (ph st r) as [| |rest| |nrecv got|rem got|cnts rem got|] eqn:Ep; cbn [phn] in Hmin; [..|tauto].
    - (* Start *) assert (Hk : pc st r < length ops).
      { destruct (Nat.eq_dec (pc st r) (length ops)) as [E|]; [|lia]. exfalso. apply NF. intros s Hs. specialize (Hmin s Hs).
        pose proof (i_rank st I s Hs) as RS. unfold rank_ok in RS. unfold pos in Hmin.
        destruct (ph st s) eqn:Es; cbn in Hmin; [lia|..];
          try (exfalso; tauto); try (assert (pc st s < length ops) by (apply isg_lt; tauto); lia); lia. }
      apply nth_error_Some in Hk. destruct (nth_error ops (pc st r)) as [[outs|outs srcs]|] eqn:Eo; [..|congruence].
      + eexists _, _. eapply s_init; eauto.
      + eexists _, _. eapply s_local; eauto.
    - (* Bar1 *) assert (Q : exists outs, nth_error ops (pc st r) = Some (OpGlobal outs)).
      { unfold isg in RK. destruct (nth_error ops (pc st r)) as [[outs|]|]; try discriminate. eauto. }
      destruct Q as [outs Eo]. eexists _, _. eapply s_bar1; eauto.
    - destruct rest as [|d rest]; eexists _, _; [eapply s_bar2_enter|eapply s_acc]; eauto.
    - assert (Q : exists outs, nth_error ops (pc st r) = Some (OpGlobal outs)).
      { unfold isg in RK. destruct (nth_error ops (pc st r)) as [[outs|]|]; try discriminate. eauto. }
      destruct Q as [outs Eo]. eexists _, _. eapply s_bar2; eauto.
    - (* Counts *) destruct RK as [Hg _].
      assert (Q : exists outs, nth_error ops (pc st r) = Some (OpGlobal outs)).
      { unfold isg in Hg. destruct (nth_error ops (pc st r)) as [[outs|]|]; try discriminate. eauto. }
      destruct Q as [outs Eo].
      pose proof (got_le st r nrecv got I Hr Ep) as Hle. destruct (Nat.eq_dec (length got) nrecv) as [El|El].
      + destruct (all_or_some (fun d => c42 st r d) n) as [Ha|[d [c [t [Hd Ec]]]]].
        { eexists _, _. eapply s_counts_done; eauto. }
        pose proof (Hmin d Hd) as Pd.
        assert (ES : S42 st r d = F42 (pc st r) r d ++ E42 (pc st r) r d) by (unfold S42; rewrite Ep; auto).
        pose proof (i_42 st I r d Hr Hd) as E42'. rewrite ES, Ec in E42'. rewrite <- F42_S in E42'. unfold R42 in E42'.
        destruct (Nat.eq_dec (pc st d) (pc st r)) as [Ek|Ek].
        2:{ exfalso. assert (Pn : phn (ph st d) <= 5) by (destruct (ph st d); cbn; lia). unfold pos in Pd.
            destruct (F42_le (pc st r + 1) (pc st d) r d ltac:(lia)) as [u Eu]. rewrite Eu in E42'. apply (f_equal (@length _)) in E42'. rewrite !app_length in E42'. cbn [length] in E42'. lia. }
        unfold pos in Pd. rewrite Ek in *. pose proof (i_rank st I d Hd) as RD. unfold rank_ok in RD. rewrite Ek in RD.
        destruct (ph st d) as [| |rest| |nrecv' got'|rem' got'|cnts' rem' got'|] eqn:Epd; cbn [phn] in Pd; try lia.
        * eexists _, _. eapply (s_count n ops sync st d r); [auto|auto|exact Epd| |exact Ec]. exact (count_not_full st r d _ _ _ _ I Hr Hd Epd Ec).
        * destruct RD as [_ [RD _]]. congruence.
        * exfalso. rewrite F42_S in E42'. apply (f_equal (@length _)) in E42'. rewrite !app_length in E42'. cbn [length] in E42'. lia.
      + destruct (counts_pending st r nrecv got I Hr Ep ltac:(lia) Hmin) as [s [c [t [Hs Hc]]]].
        eexists _, _. eapply (s_count n ops sync st r s); [auto|auto|exact Ep|lia|exact Hc].
    - (* LCounts *) destruct RK as [Hk [Hg [P Hc]]].
      assert (Q : exists outs srcs, nth_error ops (pc st r) = Some (OpLocal outs srcs)).
      { unfold isg in Hg. apply nth_error_Some in Hk. destruct (nth_error ops (pc st r)) as [[outs|]|]; try discriminate; try congruence. eauto. }
      destruct Q as [outs [srcs Eo]]. destruct rem as [|s rem].
      + destruct (all_or_some (fun d => c43 st r d) n) as [Ha|[d [c [t [Hd Ec]]]]].
        { eexists _, _. eapply s_lcounts_done; eauto. }
        pose proof (Hmin d Hd) as Pd.
        assert (ES : S43 st r d = F43 (pc st r) r d ++ E43c (pc st r) r d) by (unfold S43; rewrite Ep; cbn [phn Nat.leb]; rewrite app_nil_r; auto).
        pose proof (i_43 st I r d Hr Hd) as E43'. rewrite ES, Ec in E43'. unfold R43 in E43'.
        destruct (Nat.eq_dec (pc st d) (pc st r)) as [Ek|Ek].
        2:{ exfalso. assert (Pn : phn (ph st d) <= 5) by (destruct (ph st d); cbn; lia). unfold pos in Pd.
            destruct (F43_le (pc st r + 1) (pc st d) r d ltac:(lia)) as [u Eu]. rewrite Eu, F43_S in E43'. apply (f_equal (@length _)) in E43'. rewrite !app_length in E43'. cbn [length] in E43'. lia. }
        unfold pos in Pd. rewrite Ek in *. pose proof (i_rank st I d Hd) as RD. unfold rank_ok in RD. rewrite Ek in RD.
        destruct (ph st d) as [| |rest| |nrecv' got'|rem' got'|cnts' rem' got'|] eqn:Epd; cbn [phn] in Pd; try lia.
        * destruct RD as [RD _]. congruence.
        * destruct (mem r rem') eqn:Em.
          -- apply mem_in, in_split in Em. destruct Em as [r1 [r2 ->]]. eexists _, _. eapply (s_lcount n ops sync st d r); [auto|exact Epd|exact Ec].
          -- exfalso. apply (f_equal (@length _)) in E43'. rewrite !app_length in E43'. cbn [length] in E43'. lia.
        * exfalso. apply (f_equal (@length _)) in E43'. rewrite !app_length in E43'. cbn [length] in E43'. lia.
      + assert (Hs : In s (senders (pc st r) r)) by (eapply Permutation_in; [exact P|left; auto]).
        apply in_senders in Hs. destruct Hs as [Hs Hm]. destruct (msg (pc st r) s r) as [[c d]|] eqn:Em; [|congruence].
        destruct (sent43c st (pc st r) s r (Hmin s Hs)) as [u Hu]. rewrite (i_43 st I s r Hs Hr) in Hu. unfold R43 in Hu.
        rewrite Ep in Hu. cbn [mem existsb] in Hu. rewrite Nat.eqb_refl in Hu. cbn [orb] in Hu. rewrite app_nil_r, <- app_assoc in Hu.
        apply app_inv_head in Hu. unfold E43c in Hu. rewrite Hg, Em in Hu. cbn in Hu.
        eexists _, _. eapply (s_lcount n ops sync st r s _ _ [] rem); eauto.
    - (* Data *) destruct RK as [Hk [P1 [Hc [P2 _]]]]. destruct rem as [|s rem].
      + destruct (all_or_some (fun d => c43 st r d) n) as [Ha|[d [c [t [Hd Ec]]]]].
        { eexists _, _. eapply s_data_done; eauto. }
        pose proof (Hmin d Hd) as Pd.
        assert (ES : S43 st r d = F43 (pc st r + 1) r d) by (unfold S43; rewrite Ep, F43_S; auto).
        pose proof (i_43 st I r d Hr Hd) as E43'. rewrite ES, Ec in E43'. unfold R43 in E43'.
        destruct (Nat.eq_dec (pc st d) (pc st r)) as [Ek|Ek].
        2:{ exfalso. assert (Pn : phn (ph st d) <= 5) by (destruct (ph st d); cbn; lia). unfold pos in Pd.
            destruct (F43_le (pc st r + 1) (pc st d) r d ltac:(lia)) as [u Eu]. rewrite Eu in E43'. apply (f_equal (@length _)) in E43'. rewrite !app_length in E43'. cbn [length] in E43'. lia. }
        unfold pos in Pd. rewrite Ek in *. pose proof (i_rank st I d Hd) as RD. unfold rank_ok in RD. rewrite Ek in RD.
        destruct (ph st d) as [| |rest| |nrecv' got'|rem' got'|cnts' rem' got'|] eqn:Epd; cbn [phn] in Pd; try lia.
        * destruct (mem r rem') eqn:Em.
          -- apply mem_in, in_split in Em. destruct Em as [r1 [r2 ->]]. eexists _, _. eapply (s_data n ops sync st d r); [auto|exact Epd|exact Ec].
          -- exfalso. rewrite F43_S in E43'. apply (f_equal (@length _)) in E43'. rewrite !app_length in E43'. cbn [length] in E43'. lia.
      + assert (Hs2 : In s (map fst (filter (fun e => isg (pc st r) || (0 <? snd e)) cnts))).
        { eapply Permutation_in; [exact P2|]. left. auto. }
        apply in_map_iff in Hs2. destruct Hs2 as [[s' c] [Es Hf]]. cbn in Es. subst s'. apply filter_In in Hf. destruct Hf as [Hf1 Hf2].
        assert (Hs : In s (senders (pc st r) r)) by (eapply Permutation_in; [exact P1|]; apply in_map_iff; exists (s, c); auto).
        apply in_senders in Hs. destruct Hs as [Hs _]. destruct (Hc _ _ Hf1) as [d Hm]. cbn [snd] in Hf2.
        destruct (sent43d st (pc st r) s r (Hmin s Hs)) as [u Hu]. rewrite (i_43 st I s r Hs Hr) in Hu. unfold R43 in Hu.
        rewrite Ep in Hu. cbn [mem existsb] in Hu. rewrite Nat.eqb_refl in Hu. cbn [orb] in Hu. rewrite app_nil_r, F43_S, <- !app_assoc in Hu.
        do 2 apply app_inv_head in Hu. unfold E43d in Hu. rewrite Hm in Hu. cbn [fst snd] in Hu. rewrite Hf2 in Hu. cbn in Hu.
        eexists _, _. eapply (s_data n ops sync st r s _ _ cnts [] rem); eauto.
  Qed.

  (** ** Termination *)
  Definition wphase (p : phase B) : nat :=
    match p with
    | Start => 3 * n + 9
    | Bar1 => 3 * n + 8
    | Acc rest => 2 * n + 7 + length rest
    | Bar2 => 2 * n + 6
    | Counts _ got => n + 5 + (n - length got)
    | LCounts rem _ => n + 5 + length rem
    | Data _ rem _ => 2 + length rem
    | Fail => 0
    end.
  Definition mu (st : state B) (r : nat) : nat := (length ops - pc st r) * (3 * n + 10) + wphase (ph st r).
  Definition total (st : state B) : nat := list_sum (map (mu st) (seq 0 n)).

  Lemma filter_le {A} (f : A -> bool) l : length (filter f l) <= length l.
  Proof. induction l as [|a l IH]; cbn; auto. destruct (f a); cbn; lia. Qed.

  Lemma senders_le k r : length (senders k r) <= n.
  Proof. unfold senders. rewrite <- (seq_length n 0) at 2. apply filter_le. Qed.

  Lemma outs_le k o r : nth_error ops k = Some o -> r < n -> length (map fst (op_outs o r)) <= n.
  Proof.
    intros E Hr. apply nth_error_In in E. destruct (Hops o E) as [H _]. destruct (H r Hr) as [N D].
    rewrite <- (seq_length n 0). apply NoDup_incl_length; auto. intros d Hd. apply in_map_iff in Hd. destruct Hd as [[d' m] [<- Hd]].
    apply in_seq. cbn. apply D in Hd. lia.
  Qed.

  Lemma mu_step a st st' : inv st -> step n ops sync a st st' -> mu st' a < mu st a.
  Proof.
    intros I S. pose proof (inv_step a st st' I S) as I'. unfold mu.
    destruct S; sx; fu; rewrite ?Nat.eqb_refl; match goal with X : ph _ _ = _ |- _ => rewrite X end; cbn [wphase].
    - lia.
    - pose proof (outs_le _ _ r H0 H) as X. cbn [op_outs] in X. lia.
    - cbn [length]. lia.
    - cbn [length]. lia.
    - cbn [length]. lia.
    - cbn [length]. pose proof (i_rank st I r H) as RK. unfold rank_ok in RK. rewrite H1 in RK. destruct RK as [_ [RK _]].
      pose proof (senders_le (pc st r) r). lia.
    - rewrite map_length. pose proof (i_rank st I r H) as RK. unfold rank_ok in RK. rewrite H1 in RK. destruct RK as [_ [RK _]].
      pose proof (senders_le (pc st r) r). lia.
    - pose proof (i_rank _ I' r H) as RK. unfold rank_ok in RK. cbn [ph] in RK. unfold fupd in RK. rewrite Nat.eqb_refl in RK.
      destruct w; [tauto|]. cbn [wphase]. rewrite !app_length. cbn [length]. lia.
    - pose proof (i_rank st I r H) as RK. unfold rank_ok in RK. rewrite H0 in RK. destruct RK as [RK _]. cbn [length].
      replace (length ops - pc st r) with (S (length ops - (pc st r + 1))) by lia. lia.
    - pose proof (srcs_senders _ _ _ _ H0 H) as P. apply Permutation_length in P. pose proof (senders_le (pc st r) r). lia.
    - pose proof (i_rank _ I' r H) as RK. unfold rank_ok in RK. cbn [ph] in RK. unfold fupd in RK. rewrite Nat.eqb_refl in RK.
      destruct w; [|tauto]. cbn [wphase]. rewrite !app_length. cbn [length]. lia.
    - pose proof (i_rank st I r H) as RK. unfold rank_ok in RK. rewrite H1 in RK. destruct RK as [_ [_ [P _]]]. cbn [app] in P.
      apply Permutation_length in P. pose proof (senders_le (pc st r) r). rewrite map_length in *.
      pose proof (filter_le (fun e : nat * nat => 0 <? snd e) got). cbn [length]. lia.
  Qed.

  Lemma sum_decrease (f g : nat -> nat) a l : NoDup l -> In a l -> g a < f a -> (forall r, r <> a -> g r = f r) ->
    list_sum (map g l) < list_sum (map f l).
  Proof.
    intros ND Hi Ha Ho. induction l as [|x l IH]; [destruct Hi|].
    change (g x + list_sum (map g l) < f x + list_sum (map f l)). inversion ND as [|? ? N1 N2]; subst. destruct Hi as [->|Hi].
    - assert (E : map g l = map f l).
      { apply map_ext_in. intros y Hy. apply Ho. intros ->. auto. }
      rewrite E. lia.
    - rewrite (Ho x) by (intros ->; auto). specialize (IH N2 Hi). lia.
  Qed.

  Lemma step_rank a st st' : step n ops sync a st st' -> a < n.
  Proof. intros S. destruct S; auto. Qed.

  Lemma total_step a st st' : inv st -> step n ops sync a st st' -> total st' < total st.
  Proof.
    intros I S. apply (sum_decrease _ _ a); [apply seq_NoDup|apply in_seq; pose proof (step_rank _ _ _ S); lia|eapply mu_step; eauto|].
    intros r Hr. unfold mu. destruct (frame _ _ _ S r Hr) as [-> [-> _]]. auto.
  Qed.

  Lemma total_run w k st : run n ops sync (init w) k st -> k + total st <= total (init w).
  Proof.
    intros R. remember (init w) as st0. induction R as [st0|st0 k st1 st2 a R IH S]; [cbn; lia|]. specialize (IH Heqst0).
    subst st0. pose proof (total_step a st1 st2 (inv_run _ _ _ R) S). lia.
  Qed.

  Lemma sum_const x (l : list nat) : list_sum (map (fun _ => x) l) = length l * x.
  Proof. induction l as [|y l IH]; auto. change (x + list_sum (map (fun _ => x) l) = S (length l) * x). lia. Qed.

  Lemma total_init w : total (init w) = n * (length ops * (3 * n + 10) + (3 * n + 9)).
  Proof.
    unfold total. rewrite <- (seq_length n 0) at 2. rewrite <- sum_const. f_equal. apply map_ext. intros r. unfold mu, init.
    cbn [pc ph wphase]. rewrite Nat.sub_0_r. auto.
  Qed.

  Lemma run_app st k st' j st'' : run n ops sync st k st' -> run n ops sync st' j st'' -> run n ops sync st (j + k) st''.
  Proof. intros R1 R2. induction R2; auto. cbn. econstructor; eauto. Qed.

  Lemma finished_dec st : finished n ops st \/ ~ finished n ops st.
  Proof.
    unfold finished. destruct (Forall_dec (fun r => pc st r = length ops) (fun r => Nat.eq_dec _ _) (seq 0 n)) as [F|F].
    - left. intros r Hr. rewrite Forall_forall in F. apply F, in_seq. lia.
    - right. intros X. apply F, Forall_forall. intros r Hr. apply in_seq in Hr. apply X. lia.
  Qed.

  Theorem completes w k st : run n ops sync (init w) k st -> exists j st', run n ops sync st j st' /\ finished n ops st'.
  Proof.
    remember (total st) as m eqn:Em. revert k st Em. induction m as [m IH] using (well_founded_induction lt_wf). intros k st -> R.
    destruct (finished_dec st) as [F|F]; [exists 0, st; split; auto; constructor|].
    pose proof (inv_run _ _ _ R) as I. destruct (progress st I F) as [a [st1 St]].
    destruct (IH (total st1) (total_step a st st1 I St) (S k) st1 eq_refl (run_step _ _ _ _ _ _ _ _ R St)) as [j [st' [R' F']]].
    exists (j + 1), st'. split; auto. eapply run_app; [|exact R']. econstructor; [constructor|exact St].
  Qed.

  Lemma pc_le st : inv st -> forall r, r < n -> pc st r <= length ops.
  Proof.
    intros I r Hr. pose proof (i_rank st I r Hr) as RK. unfold rank_ok in RK.
    destruct (ph st r); try lia; try (apply Nat.lt_le_incl, isg_lt; tauto).
  Qed.

  Lemma done_start st : inv st -> finished n ops st -> forall r, r < n -> ph st r = Start.
  Proof.
    intros I F r Hr. pose proof (i_rank st I r Hr) as RK. unfold rank_ok in RK. pose proof (F r Hr) as E. rewrite E in RK.
    destruct (ph st r); auto; exfalso; try lia; try (assert (length ops < length ops) by (apply isg_lt; tauto); lia).
  Qed.

  Lemma done_empty st : inv st -> finished n ops st -> forall r, r < n -> forall s, s < n -> c42 st s r = [] /\ c43 st s r = [].
  Proof.
    intros I F r Hr s Hs. pose proof (i_42 st I s r Hs Hr) as E2. pose proof (i_43 st I s r Hs Hr) as E3.
    unfold S42, R42 in E2. unfold S43, R43 in E3.
    rewrite (done_start st I F r Hr), (done_start st I F s Hs), (F r Hr), (F s Hs) in E2, E3. cbn [phn Nat.leb app] in E2, E3.
    rewrite !app_nil_r in E2, E3. split.
    - rewrite <- (app_nil_r (F42 _ _ _)) in E2 at 1. apply app_inv_head in E2. auto.
    - rewrite <- (app_nil_r (F43 _ _ _)) in E3 at 1. apply app_inv_head in E3. auto.
  Qed.
End Proto.

(** ** The constructor of LocalMove *)
Lemma setup_tags_spec acc : setup_tags acc = (length acc, combine acc (seq 0 (length acc))).
Proof.
  unfold setup_tags.
  assert (G : forall l p : list nat, fold_left (fun st s => (fst st + 1, snd st ++ [(s, fst st)])) l (length p, combine p (seq 0 (length p))) =
    (length (p ++ l), combine (p ++ l) (seq 0 (length (p ++ l))))).
  { induction l as [|s l IH]; intros p; cbn [fold_left]; [rewrite app_nil_r; auto|].
    specialize (IH (p ++ [s])). rewrite <- app_assoc in IH. cbn [app] in IH. rewrite <- IH. f_equal. cbn [fst snd].
    rewrite app_length. cbn [length]. f_equal. rewrite seq_app. cbn [seq plus].
    assert (C : forall (a b : list nat) c d, length a = length b -> combine (a ++ c) (b ++ d) = combine a b ++ combine c d).
    { induction a as [|x a IHa]; intros [|y b] c d Hl; cbn in *; try discriminate; auto. f_equal. apply IHa. lia. }
    rewrite C by (rewrite seq_length; auto). auto. }
  apply (G acc []).
Qed.

Lemma filter_tag (acc : list nat) o x s : nth_error acc x = Some s ->
  filter (fun e => snd e =? o + x) (combine acc (seq o (length acc))) = [(s, o + x)].
Proof.
  revert o x. induction acc as [|a acc IH]; intros o x E; [destruct x; discriminate|]. cbn [length seq combine filter snd].
  assert (N : forall (l : list nat) o' y, y < o' -> filter (fun e => snd e =? y) (combine l (seq o' (length l))) = []).
  { induction l as [|b l IHl]; intros o' y Hy; auto. cbn [length seq combine filter snd]. destruct (Nat.eqb_spec o' y); [lia|]. apply IHl. lia. }
  destruct x as [|x].
  - injection E as ->. rewrite Nat.add_0_r, Nat.eqb_refl. f_equal. apply N. lia.
  - cbn in E. destruct (Nat.eqb_spec o (o + S x)); [lia|]. replace (o + S x) with (S o + x) by lia. apply IH. auto.
Qed.

Lemma setup_recv_spec (acc : list nat) : forall k j, k + j <= length acc ->
  setup_recv (combine acc (seq 0 (length acc))) (seq k j) = Some (firstn j (skipn k acc)).
Proof.
  intros k j. revert k. induction j as [|j IH]; intros k H; auto. cbn [seq setup_recv].
  destruct (nth_error acc k) as [s|] eqn:E.
  2:{ apply nth_error_None in E. lia. }
  pose proof (filter_tag acc 0 k s E) as Q. cbn [plus] in Q. rewrite Q, IH by lia. cbn [fst]. f_equal.
  clear -E. revert k E. induction acc as [|a acc IHa]; intros [|k] E; cbn in *; try discriminate; [congruence|]. apply IHa. auto.
Qed.

Lemma local_setup_correct n sends order r : (forall l, Permutation (order r l) l) ->
  exists srcs, local_setup n sends order r = Some srcs /\ NoDup srcs /\
    forall s, In s srcs <-> s < n /\ In r (sends s).
Proof.
  intros Ho. unfold local_setup. rewrite setup_tags_spec, setup_recv_spec by lia. cbn [skipn]. rewrite firstn_all.
  set (l := filter (fun s => existsb (Nat.eqb r) (sends s)) (seq 0 n)).
  exists (order r l). split; [auto|]. split.
  - eapply Permutation_NoDup; [symmetry; apply Ho|]. apply NoDup_filter, seq_NoDup.
  - intros s. transitivity (In s l).
    + split; apply Permutation_in; [|symmetry]; apply Ho.
    + unfold l. rewrite filter_In, in_seq, existsb_exists. split.
      * intros [H [x [Hx Ex]]]. apply Nat.eqb_eq in Ex. subst. split; auto. lia.
      * intros [H Hx]. split; [lia|]. exists r. split; auto. apply Nat.eqb_refl.
Qed.

Lemma expected_inbox (byte : Type) (sent : list (list (nat * (@message byte)))) r :
  expected (length sent) (OpGlobal (fun s => nth s sent [])) r =
  map (fun m => (fst m, (fst (snd m), Some (snd (snd m))))) (inbox r sent).
Proof.
  unfold expected, inbox. cbn [op_outs]. unfold mapi.
  assert (G : forall l pre, flat_map (fun s => flat_map (fun m : nat * (@message byte) => if fst m =? r
              then [(s, (fst (snd m), Some (snd (snd m))))] else []) (nth s (pre ++ l) [])) (seq (length pre) (length l)) =
     map (fun m => (fst m, (fst (snd m), Some (snd (snd m)))))
       (concat (map (fun p => map (fun m => (fst p, snd m)) (filter (fun m => fst m =? r) (snd p))) (combine (seq (length pre) (length l)) l)))).
  { induction l as [|x l IH]; intros pre; auto. cbn [length seq flat_map combine map concat fst snd].
    rewrite map_app. f_equal.
    - rewrite app_nth2, Nat.sub_diag by lia. cbn [nth]. rewrite map_map. cbn [fst snd].
      clear. induction x as [|m x IH]; auto. cbn [flat_map filter]. rewrite IH. destruct (fst m =? r); auto.
    - specialize (IH (pre ++ [x])). rewrite app_length, <- app_assoc in IH. cbn [length app] in IH. rewrite Nat.add_1_r in IH. exact IH. }
  exact (G sent []).
Qed.
