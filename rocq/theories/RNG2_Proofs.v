(** Proofs about the atomic random numbers of kernels. *)
From Coq Require Import List Arith Lia ZArith Bool Permutation.
Import ListNotations.
From Verif Require Import Base Kernel RNG_Model RNG_Spec RNG_Proofs.

Lemma wrap32_succ k : wrap32 (wrap32 k + 1) = wrap32 (k + 1).
Proof.
  unfold wrap32. f_equal.
  replace ((k + 2 ^ 31) mod 2 ^ 32 - 2 ^ 31 + 1 + 2 ^ 31)%Z with ((k + 2 ^ 31) mod 2 ^ 32 + 1)%Z by lia.
  rewrite Z.add_mod_idemp_l by lia. replace (k + 1 + 2 ^ 31)%Z with (k + 2 ^ 31 + 1)%Z by lia. reflexivity.
Qed.

Lemma wrap32_low k : (0 <= k < 2 ^ 31)%Z -> wrap32 k = k.
Proof. intros H. unfold wrap32. rewrite Z.mod_small by lia. lia. Qed.

Lemma wrap32_high k : (2 ^ 31 <= k < 2 ^ 32)%Z -> wrap32 k = (k - 2 ^ 32)%Z.
Proof.
  intros H. unfold wrap32. replace (k + 2 ^ 31)%Z with ((k - 2 ^ 31) + 1 * 2 ^ 32)%Z by lia. rewrite Z.mod_add by lia. rewrite Z.mod_small by lia. lia.
Qed.

Lemma count_snoc (l : list nat) a i : count_occ Nat.eq_dec (l ++ [a]) i = count_occ Nat.eq_dec l i + (if Nat.eq_dec a i then 1 else 0).
Proof. rewrite count_occ_app. cbn. destruct (Nat.eq_dec a i); reflexivity. Qed.

Lemma count_seq n i : count_occ Nat.eq_dec (seq 0 n) i = if i <? n then 1 else 0.
Proof.
  destruct (Nat.ltb_spec i n) as [H|H].
  - apply NoDup_count_occ'; [apply seq_NoDup|]. apply in_seq. lia.
  - apply count_occ_not_In. intros Hin. apply in_seq in Hin. lia.
Qed.

Section Calls.
  Context {T : Type} (zero : T) (data : list T) (num m : nat) (Hnum : (Z.of_nat num <= int_max)%Z) (Hdata : num <= length data)
    (Hm : (Z.of_nat m < 2 ^ 32)%Z).
  Let view := (Z.of_nat num, data).

  Lemma valid_index k : k < m -> ((wrap32 (Z.of_nat k) <? Z.of_nat num) && (0 <=? wrap32 (Z.of_nat k)))%Z = (k <? num).
  Proof.
    intros Hk. unfold int_max in Hnum. destruct (Z.lt_ge_cases (Z.of_nat k) (2 ^ 31)) as [L|L].
    - rewrite wrap32_low by lia. rewrite (proj2 (Z.leb_le 0 (Z.of_nat k))) by lia. rewrite andb_true_r.
      destruct (Z.ltb_spec (Z.of_nat k) (Z.of_nat num)), (Nat.ltb_spec k num); try reflexivity; lia.
    - rewrite wrap32_high by lia. destruct (Nat.ltb_spec k num); [lia|]. apply andb_false_intro2. apply Z.leb_gt. lia.
  Qed.

  (** After the steps [pre]: [order] are the calls that took their first step, in order. *)
  Record calls_inv (pre : list nat) (s : @at_state T) (order : list nat) : Prop := {
    ci_nodup : NoDup order;
    ci_in : forall i, In i order <-> 1 <= count_occ Nat.eq_dec pre i;
    ci_count : fst (fst (fst s)) = wrap32 (Z.of_nat (length order));
    ci_plen : length (snd (fst s)) = m;
    ci_rlen : length (snd s) = m;
    ci_none : forall i, i < m -> count_occ Nat.eq_dec pre i = 0 -> nth_error (snd (fst s)) i = Some None;
    ci_pend : forall i k, nth_error order k = Some i -> nth_error (snd (fst s)) i = Some (Some (wrap32 (Z.of_nat k)));
    ci_poison : snd (fst (fst s)) = 0%Z \/ snd (fst (fst s)) = 1%Z;
    ci_res : forall i k, nth_error order k = Some i -> count_occ Nat.eq_dec pre i = 2 ->
      (k < num /\ exists x, nth_error data k = Some x /\ nth_error (snd s) i = Some (Some (true, x))) \/
      (nth_error (snd s) i = Some (Some (false, zero)) /\ snd (fst (fst s)) = 1%Z);
    ci_bad : snd (fst (fst s)) = 1%Z -> exists i k, nth_error order k = Some i /\ count_occ Nat.eq_dec pre i = 2 /\ num <= k /\ nth_error (snd s) i = Some (Some (false, zero));
    ci_over : forall i k, nth_error order k = Some i -> count_occ Nat.eq_dec pre i = 2 -> num <= k -> snd (fst (fst s)) = 1%Z
  }.

  Lemma step_inv pre i s order : i < m -> count_occ Nat.eq_dec (pre ++ [i]) i <= 2 -> (forall j, In j pre -> j < m) ->
    (forall j, count_occ Nat.eq_dec pre j <= 2) -> calls_inv pre s order ->
    exists s' order', at_step zero view s i = Some s' /\ calls_inv (pre ++ [i]) s' order'.
  Proof.
    intros Hi Hc Hpre Hle I. destruct s as [[[count poison] pending] results]. destruct I as [I1 I2 I3 I4 I5 I6 I7 I8 I9 I10 I11]. cbn [fst snd] in *.
    assert (Lo : length order <= m).
    { rewrite <- (seq_length m 0). apply NoDup_incl_length; [exact I1|]. intros j Hj. apply in_seq. apply I2 in Hj. split; [lia|]. apply Hpre. apply count_occ_In with (eq_dec := Nat.eq_dec). lia. }
    unfold at_step. destruct (Nat.eq_dec (count_occ Nat.eq_dec pre i) 0) as [Z0|Z0].
    - (* first step *)
      unfold rd. rewrite (I6 i Hi Z0). cbn [obind]. destruct (upd_some pending i (Some count)) as [p' U]; [lia|]. rewrite U. cbn [obind].
      assert (Hnot : ~ In i order) by (rewrite I2; lia).
      eexists _, (order ++ [i]). split; [reflexivity|]. constructor; cbn [fst snd].
      + apply NoDup_app_intro; [exact I1|constructor; [intros []|constructor]|]. intros j Hj [<-|[]]. contradiction.
      + intros j. rewrite in_app_iff, count_snoc, I2. cbn [In]. destruct (Nat.eq_dec i j); split; intros; lia.
      + rewrite I3, wrap32_succ, app_length. cbn. f_equal. lia.
      + rewrite (upd_length _ _ _ _ U). exact I4.
      + exact I5.
      + intros j Hj Hj0. rewrite count_snoc in Hj0. destruct (Nat.eq_dec i j) as [->|Hn]; [lia|]. rewrite (upd_nth_neq _ _ _ _ _ U) by congruence. apply I6; lia.
      + intros j k Hk. destruct (Nat.lt_ge_cases k (length order)) as [Hlt|Hge].
        * rewrite nth_error_app1 in Hk by exact Hlt. rewrite (upd_nth_neq _ _ _ _ _ U); [apply I7; exact Hk|]. intros Q. subst j. apply Hnot. apply nth_error_In in Hk. exact Hk.
        * rewrite nth_error_app2 in Hk by exact Hge. destruct (k - length order) as [|q] eqn:Eq; [|destruct q; discriminate]. cbn in Hk. injection Hk as <-.
          rewrite (upd_nth_eq _ _ _ _ U). do 2 f_equal. rewrite I3. f_equal. lia.
      + exact I8.
      + intros j k Hk H2. rewrite count_snoc in H2. destruct (Nat.eq_dec i j) as [->|Hn]; [lia|]. destruct (Nat.lt_ge_cases k (length order)) as [Hlt|Hge].
        * rewrite nth_error_app1 in Hk by exact Hlt. apply I9; [exact Hk|lia].
        * rewrite nth_error_app2 in Hk by exact Hge. destruct (k - length order) as [|q] eqn:Eq; [|destruct q; discriminate]. cbn in Hk. congruence.
      + intros Hp. destruct (I10 Hp) as (j & k & A & B & C & D). exists j, k. rewrite count_snoc. split; [rewrite nth_error_app1; [exact A|apply nth_error_Some; congruence]|].
        split; [|auto]. destruct (Nat.eq_dec i j) as [<-|]; lia.
      + intros j k Hk H2 Hn. rewrite count_snoc in H2. destruct (Nat.eq_dec i j) as [->|Hne]; [lia|]. destruct (Nat.lt_ge_cases k (length order)) as [Hlt|Hge].
        * rewrite nth_error_app1 in Hk by exact Hlt. apply (I11 j k); [exact Hk|lia|exact Hn].
        * rewrite nth_error_app2 in Hk by exact Hge. destruct (k - length order) as [|q] eqn:Eq; [|destruct q; discriminate]. cbn in Hk. congruence.
    - (* second step *)
      assert (Hin : In i order) by (rewrite I2; lia). destruct (In_nth_error _ _ Hin) as [k Hk]. unfold rd at 1. rewrite (I7 i k Hk). cbn [obind fst snd view].
      assert (Hkl : k < length order) by (apply nth_error_Some; congruence). rewrite (valid_index k) by lia.
      assert (C1 : count_occ Nat.eq_dec pre i = 1). { rewrite count_snoc in Hc. destruct (Nat.eq_dec i i); [|congruence]. lia. }
      set (ok := (k <? num) && (poison =? 0)%Z).
      assert (exists v, (if ok then rd data (Z.to_nat (wrap32 (Z.of_nat k))) else Some zero) = Some v /\ (ok = true -> k < num /\ nth_error data k = Some v) /\ (ok = false -> v = zero)) as (v & Ev & V1 & V2).
      { unfold ok. destruct (Nat.ltb_spec k num) as [Hkn|Hkn]; cbn [andb]; [|exists zero; split; [reflexivity|]; split; [discriminate|reflexivity]].
        destruct (Z.eqb_spec poison 0); [|exists zero; split; [reflexivity|]; split; [discriminate|reflexivity]].
        unfold int_max in Hnum. rewrite wrap32_low by lia. rewrite Nat2Z.id. assert (Hkd : k < length data) by lia. destruct (nth_error_lt_some _ _ Hkd) as [x Hx].
        unfold rd. exists x. split; [exact Hx|]. split; [auto|discriminate]. }
      assert (Eo : ok = (k <? num) && (poison =? 0)%Z) by reflexivity. clearbody ok.
      rewrite Ev. cbn [obind]. destruct (upd_some results i (Some (ok, v))) as [r' U]; [lia|]. rewrite U. cbn [obind].
      eexists _, order. split; [reflexivity|]. constructor; cbn [fst snd]; auto.
      + intros j. rewrite I2, count_snoc. destruct (Nat.eq_dec i j) as [<-|]; lia.
      + rewrite (upd_length _ _ _ _ U). exact I5.
      + intros j Hj Hj0. rewrite count_snoc in Hj0. apply I6; [exact Hj|lia].
      + destruct I8 as [-> | ->]; destruct (k <? num); cbn; auto.
      + intros j k' Hk' H2. rewrite count_snoc in H2. destruct (Nat.eq_dec i j) as [<-|Hn].
        * assert (k' = k) as ->. { apply (NoDup_nth_error order); [exact I1|apply nth_error_Some; congruence|congruence]. }
          rewrite (upd_nth_eq _ _ _ _ U). destruct ok.
          -- left. destruct (V1 eq_refl) as [A B]. split; [exact A|]. exists v. auto.
          -- right. rewrite (V2 eq_refl). split; [reflexivity|]. rename Eo into Eok. destruct (k <? num); cbn [andb] in Eok; [|destruct I8 as [-> | ->]; reflexivity].
             symmetry in Eok; apply Z.eqb_neq in Eok. destruct I8 as [-> | ->]; [lia|reflexivity].
        * rewrite (upd_nth_neq _ _ _ _ _ U) by congruence. destruct (I9 j k' Hk' ltac:(lia)) as [A|[A B]]; [left; exact A|right; split; [exact A|]]. rewrite B. destruct (k <? num); reflexivity.
      + intros Hp. destruct (k <? num) eqn:Ekn.
        * assert (Hp' : poison = 1%Z) by (destruct I8 as [-> | ->]; cbn in Hp; congruence). destruct (I10 Hp') as (j & k' & A & B & C & D). exists j, k'. rewrite count_snoc.
          assert (Hij : i <> j) by (intros ->; lia). split; [exact A|]. split; [destruct (Nat.eq_dec i j); [congruence|lia]|]. split; [exact C|]. rewrite (upd_nth_neq _ _ _ _ _ U) by congruence. exact D.
        * exists i, k. split; [exact Hk|]. rewrite count_snoc. split; [destruct (Nat.eq_dec i i); [lia|congruence]|]. apply Nat.ltb_ge in Ekn. split; [exact Ekn|].
          rewrite (upd_nth_eq _ _ _ _ U). assert (ok = false) as Ef by (rewrite Eo; destruct (Nat.ltb_spec k num); [lia|reflexivity]). rewrite (V2 Ef), Ef. reflexivity.
      + intros j k' Hk' H2 Hn. rewrite count_snoc in H2. destruct (Nat.eq_dec i j) as [<-|Hne].
        * assert (k' = k) as ->. { apply (NoDup_nth_error order); [exact I1|apply nth_error_Some; congruence|congruence]. }
          destruct (Nat.ltb_spec k num); [lia|]. destruct I8 as [-> | ->]; reflexivity.
        * rewrite (I11 j k' Hk' ltac:(lia) Hn). destruct (k <? num); reflexivity.
  Qed.

  Lemma calls_ok sched : call_schedule sched m ->
    exists poison rs (pos : nat -> nat) (ok : nat -> bool),
      at_calls zero view sched m (0, 0)%Z = Some ((wrap32 (Z.of_nat m), poison), rs) /\ length rs = m /\
      (forall i j, i < m -> j < m -> pos i = pos j -> i = j) /\ (forall i, i < m -> pos i < m) /\
      (forall i, i < m -> ok i = true -> pos i < num /\ exists x, nth_error data (pos i) = Some x /\ nth_error rs i = Some (true, x)) /\
      (forall i, i < m -> ok i = false -> nth_error rs i = Some (false, zero)) /\
      (poison = 0%Z /\ m <= num /\ (forall i, i < m -> ok i = true) \/ poison = 1%Z /\ num < m /\ exists i, i < m /\ ok i = false).
  Proof.
    intros Hs. assert (Hc : forall i, count_occ Nat.eq_dec sched i = if i <? m then 2 else 0).
    { intros i. rewrite (proj1 (Permutation_count_occ Nat.eq_dec _ _) Hs i), count_occ_app, !count_seq. destruct (i <? m); reflexivity. }
    destruct (foldM_ind (at_step zero view) (fun pre s => exists order, calls_inv pre s order) sched ((0, 0)%Z, repeat None m, repeat None m)) as (s & F & order & I).
    - exists []. constructor; cbn [fst snd]; try (rewrite repeat_length; reflexivity).
      + constructor.
      + intros i. cbn. split; [intros []|lia].
      + reflexivity.
      + intros i Hi _. apply nth_error_repeat. exact Hi.
      + intros i k Hk. destruct k; discriminate.
      + left. reflexivity.
      + intros i k Hk. destruct k; discriminate.
      + discriminate.
      + intros i k Hk. destruct k; discriminate.
    - intros pre a post s Es [order I]. assert (Hcnt : forall j, count_occ Nat.eq_dec (pre ++ [a]) j <= 2).
      { intros j. specialize (Hc j). rewrite Es in Hc. replace (pre ++ a :: post) with ((pre ++ [a]) ++ post) in Hc by (rewrite <- app_assoc; reflexivity). rewrite count_occ_app in Hc. destruct (j <? m); lia. }
      assert (Hbound : forall j, In j sched -> j < m). { intros j Hj. apply (count_occ_In Nat.eq_dec) in Hj. rewrite Hc in Hj. destruct (Nat.ltb_spec j m); [assumption|lia]. }
      destruct (step_inv pre a s order) as (s' & order' & E & I'); auto.
      + apply Hbound. rewrite Es. apply in_or_app. right. left. reflexivity.
      + intros j Hj. apply Hbound. rewrite Es. apply in_or_app. left. exact Hj.
      + intros j. specialize (Hcnt j). rewrite count_snoc in Hcnt. lia.
      + exists s'. split; [exact E|]. exists order'. exact I'.
    - destruct s as [[[count poison] pending] results]. destruct I as [I1 I2 I3 I4 I5 I6 I7 I8 I9 I10 I11]. cbn [fst snd] in *. unfold at_calls. rewrite F. cbn [obind].
      assert (Po : Permutation order (seq 0 m)).
      { apply NoDup_Permutation; [exact I1|apply seq_NoDup|]. intros i. rewrite I2, Hc, in_seq. destruct (Nat.ltb_spec i m); lia. }
      assert (Lo : length order = m) by (rewrite (Permutation_length Po); apply seq_length).
      assert (Hex : forall i, i < m -> exists k, nth_error order k = Some i).
      { intros i Hi. apply In_nth_error. rewrite Po. apply in_seq. lia. }
      assert (exists pos : nat -> nat, forall i, i < m -> nth_error order (pos i) = Some i) as [pos Hpos].
      { clear -Hex. assert (G : forall q, q <= m -> exists pos : nat -> nat, forall i, i < q -> nth_error order (pos i) = Some i).
        { induction q as [|q IH]; intros Hq; [exists (fun i => i); intros; lia|]. destruct IH as [pos Hp]; [lia|]. destruct (Hex q) as [k Hk]; [lia|].
          exists (fun i => if i =? q then k else pos i). intros i Hi. destruct (Nat.eqb_spec i q) as [->|]; [exact Hk|apply Hp; lia]. }
        apply (G m (le_n m)). }
      assert (Hres : forall i, i < m -> (pos i < num /\ exists x, nth_error data (pos i) = Some x /\ nth_error results i = Some (Some (true, x))) \/ (nth_error results i = Some (Some (false, zero)) /\ poison = 1%Z)).
      { intros i Hi. apply (I9 i (pos i) (Hpos i Hi)). rewrite Hc. destruct (Nat.ltb_spec i m); [reflexivity|lia]. }
      destruct (mapM_total (fun r : option (bool * T) => r) results) as [rs Hrs].
      { intros r Hr. destruct (In_nth_error _ _ Hr) as [i Hi]. assert (Him : i < m) by (rewrite <- I5; apply nth_error_Some; congruence).
        destruct (Hres i Him) as [(_ & x & _ & E)|[E _]]; rewrite Hi in E; injection E as ->; eauto. }
      assert (Hrn : forall i x, nth_error results i = Some (Some x) -> nth_error rs i = Some x) by (intros i x Hx; symmetry; apply (mapM_nth _ _ _ _ _ Hrs Hx)).
      exists poison, rs, pos, (fun i => match nth_error rs i with Some (true, _) => true | _ => false end).
      rewrite Hrs. cbn [obind]. split; [rewrite I3, Lo; reflexivity|]. split; [rewrite (mapM_length _ _ _ Hrs); exact I5|]. split; [|split; [|split; [|split]]].
      + intros i j Hi Hj Q. apply Hpos in Hi. apply Hpos in Hj. rewrite Q in Hi. congruence.
      + intros i Hi. rewrite <- Lo. apply nth_error_Some. rewrite (Hpos i Hi). discriminate.
      + intros i Hi Ho. destruct (Hres i Hi) as [(A & x & B & C)|[C _]]; [split; [exact A|]; exists x; split; [exact B|]; apply Hrn; exact C|].
        rewrite (Hrn _ _ C) in Ho. discriminate.
      + intros i Hi Ho. destruct (Hres i Hi) as [(A & x & B & C)|[C _]]; [rewrite (Hrn _ _ C) in Ho; discriminate|]. apply Hrn. exact C.
      + destruct I8 as [Hp|Hp].
        * left. split; [exact Hp|]. split.
          -- destruct (Nat.le_gt_cases m num) as [L|L]; [exact L|exfalso]. assert (Hn : num < length order) by lia. destruct (nth_error_lt_some _ _ Hn) as [i Hi].
             assert (Him : i < m). { assert (In i order) by (apply nth_error_In in Hi; exact Hi). rewrite Po in H. apply in_seq in H. lia. }
             specialize (I11 i num Hi). rewrite Hc in I11. destruct (Nat.ltb_spec i m); [|lia]. specialize (I11 eq_refl (le_n num)). lia.
          -- intros i Hi. destruct (Hres i Hi) as [(A & x & B & C)|[_ C]]; [rewrite (Hrn _ _ C); reflexivity|lia].
        * right. split; [exact Hp|]. destruct (I10 Hp) as (i & k & A & B & C & D). assert (k < m) by (rewrite <- Lo; apply nth_error_Some; congruence). split; [lia|].
          exists i. assert (Him : i < m). { assert (In i order) by (apply nth_error_In in A; exact A). rewrite Po in H0. apply in_seq in H0. lia. }
          split; [exact Him|]. rewrite (Hrn _ _ D). reflexivity.
  Qed.
End Calls.

(** ** Loops *)
Section Loops.
  Context {T : Type} (gen : nat -> T) (zero : T) (junkc : Z * Z).

  Definition bufl (r : @atomic_rng T) : list T := match a_buf r with Some b => b | None => [] end.
  Definition consumed (r : @atomic_rng T) : Z := to_size_t (fst (get_counter junkc r)).
  (** The positions from [c] on hold unused draws. *)
  Definition fresh (lo : nat) (U : list nat) (r : @atomic_rng T) (c : Z) (dn : nat -> nat) : Prop :=
    (forall i, (c <= Z.of_nat i)%Z -> i < a_num r -> nth_error (bufl r) i = Some (gen (dn i)) /\ lo <= dn i < a_drawn r /\ ~ In (dn i) U) /\
    (forall i j, (c <= Z.of_nat i)%Z -> i < a_num r -> (c <= Z.of_nat j)%Z -> j < a_num r -> dn i = dn j -> i = j).

  Record at_inv (lo : nat) (r : @atomic_rng T) (U : list nat) : Prop := {
    ai_state : a_state r = 0;
    ai_ncomp : 1 <= a_ncomp r;
    ai_block : 1 <= a_block r;
    ai_num : (Z.of_nat (a_num r) <= int_max)%Z;
    ai_len : a_num r <= length (bufl r);
    ai_over : match a_override r with Some o => 1 <= o /\ (Z.of_nat o <= int_max)%Z | None => True end;
    ai_lo : lo <= a_drawn r;
    ai_used : forall k, In k U -> lo <= k < a_drawn r;
    ai_nodup : NoDup U;
    ai_fresh : exists dn, fresh lo U r (consumed r) dn
  }.

  Definition requested (r : @atomic_rng T) (n : nat) : nat := match a_override r with Some o => o | None => n * a_ncomp r end.

  Lemma to_size_t_pos z : (0 <= to_size_t z)%Z.
  Proof. unfold to_size_t. apply Z.mod_pos_bound. lia. Qed.

  Lemma pre_loop_ok early junk reallocated n lo r U : at_inv lo r U -> (Z.of_nat (n * a_ncomp r) < int_max)%Z ->
    exists b num drawn, at_pre_loop gen zero early junk junkc reallocated n r =
        Some (mk_at 1 b (Some (0, 0)%Z) num (a_ncomp r) (a_block r) (a_override r) (a_valid r) drawn) /\
      requested r n <= num /\ (Z.of_nat num <= int_max)%Z /\ a_drawn r <= drawn /\ (1 <= requested r n -> b <> None) /\
      num <= length (match b with Some b => b | None => [] end) /\
      exists dn, fresh lo U (mk_at 1 b (Some (0, 0)%Z) num (a_ncomp r) (a_block r) (a_override r) (a_valid r) drawn) 0 dn.
  Proof.
    intros I Hn. unfold at_pre_loop. rewrite (ai_state _ _ _ I). cbn [Nat.eqb assert obind]. destruct (Nat.ltb_spec 0 (a_ncomp r)) as [Hc|Hc]; [|pose proof (ai_ncomp _ _ _ I); lia].
    rewrite (proj2 (Z.ltb_lt _ _) Hn). cbn [assert obind]. fold (requested r n).
    assert (Hreq : (Z.of_nat (requested r n) <= int_max)%Z).
    { pose proof (ai_over _ _ _ I) as Ho. unfold requested. destruct (a_override r); [apply Ho|lia]. }
    set (num := requested r n) in *. pose proof (to_size_t_pos (fst (get_counter junkc r))) as Hcc. fold (consumed r) in *.
    destruct (ai_fresh _ _ _ I) as [dn [F1 F2]].
    destruct (Nat.eqb_spec num 0) as [Z0|Z0].
    - (* nothing requested *)
      assert (Ha : allocate junk (a_buf r) num = a_buf r) by (rewrite Z0; reflexivity). rewrite Ha. destruct reallocated; cbn [andb].
      + rewrite Z0, draw_none. cbn [obind]. eexists _, 0, _. split; [reflexivity|]. repeat (split; [unfold int_max; lia|]). exists (fun i => i). split; cbn [a_num]; intros; lia.
      + destruct (Z.ltb_spec 0 (consumed r)) as [Hp|Hp].
        * rewrite Z0. rewrite Z.min_l by lia. cbn [Z.of_nat Z.to_nat]. rewrite draw_none. cbn [obind]. rewrite (proj2 (Z.ltb_lt _ _) Hp). cbn [Nat.ltb Nat.leb].
          eexists _, 0, _. split; [reflexivity|]. repeat (split; [unfold int_max; lia|]). exists (fun i => i). split; cbn [a_num]; intros; lia.
        * cbn [obind]. rewrite Z0. destruct (Nat.ltb_spec (a_num r) 0); [lia|]. eexists _, _, _. split; [reflexivity|].
          split; [lia|]. split; [apply (ai_num _ _ _ I)|]. split; [lia|]. split; [lia|]. split; [apply (ai_len _ _ _ I)|]. exists dn. replace (consumed r) with 0%Z in * by lia. split; [exact F1|exact F2].
    - cbn [andb]. destruct (allocate_ok junk (a_buf r) num) as (b & Ea & Lb & Old); [lia|]. rewrite Ea.
      assert (Hold : a_num r <= length b /\ forall i, i < a_num r -> nth_error b i = nth_error (bufl r) i).
      { pose proof (ai_len _ _ _ I) as Hl. unfold bufl in *. destruct (a_buf r) as [old|]; [|cbn in Hl; split; intros; lia]. destruct (Old old eq_refl) as [A B]. split; [lia|]. intros i Hi. apply B. lia. }
      destruct Hold as [HoldL HoldN]. set (req := Z.to_nat (Z.min (Z.of_nat num) (consumed r))).
      set (pe := if (Z.min (Z.of_nat num) (consumed r) <? consumed r)%Z then req else a_num r).
      destruct (draw_ok gen zero early (a_block r) b 0 req (a_drawn r) (ai_block _ _ _ I)) as (b1 & E1 & L1 & A1 & B1); [unfold req; lia|]. cbn [plus] in A1, B1.
      assert (E2 : (if (0 <? consumed r)%Z then
                      d <- draw_random_samples gen zero early (a_block r) (Some b) 0 req (a_drawn r) ;;
                      Some (d, if (Z.min (Z.of_nat num) (consumed r) <? consumed r)%Z then req else a_num r)
                    else Some ((Some b, a_drawn r), a_num r)) = Some ((Some b1, a_drawn r + req), pe)).
      { destruct (Z.ltb_spec 0 (consumed r)) as [Hp|Hp]; [rewrite E1; reflexivity|].
        assert (R0 : req = 0) by (unfold req; lia). rewrite R0, draw_none in E1. injection E1 as <- _. unfold pe. rewrite R0. destruct (Z.ltb_spec (Z.min (Z.of_nat num) (consumed r)) (consumed r)); [lia|]. do 3 f_equal. lia. }
      cbv zeta. fold req. fold pe in E2. rewrite E2. cbn [obind].
      assert (Hpe : pe <= length b /\ (Z.of_nat pe <= int_max)%Z /\ (forall i, req <= i -> i < pe -> (consumed r <= Z.of_nat i)%Z /\ i < a_num r) /\ (req < num -> pe = a_num r)).
      { pose proof (ai_num _ _ _ I). unfold pe. destruct (Z.ltb_spec (Z.min (Z.of_nat num) (consumed r)) (consumed r)); unfold req; repeat split; intros; try lia. }
      destruct Hpe as (P1 & P2 & P3 & P4).
      set (dn' := fun i => if i <? pe then (if i <? req then a_drawn r + i else dn i) else a_drawn r + req + (i - pe)).
      assert (Hlow : forall i, req <= i -> i < pe -> lo <= dn i < a_drawn r /\ ~ In (dn i) U /\ nth_error b1 i = Some (gen (dn i))).
      { intros i H1 H2. destruct (P3 i H1 H2) as [Q1 Q2]. destruct (F1 i Q1 Q2) as (A & B & C). split; [exact B|]. split; [exact C|]. rewrite B1 by (right; lia). rewrite HoldN by exact Q2. exact A. }
      assert (Hnew : forall k, a_drawn r <= k -> ~ In k U) by (intros k Hk Hin; apply (ai_used _ _ _ I) in Hin; lia).
      pose proof (ai_lo _ _ _ I) as Hlo.
      assert (Hinj : forall bound i j, i < bound -> j < bound -> dn' i = dn' j -> i = j).
      { intros bound i j Hi Hj. unfold dn'. destruct (Nat.ltb_spec i pe), (Nat.ltb_spec j pe).
        - destruct (Nat.ltb_spec i req), (Nat.ltb_spec j req).
          + lia.
          + destruct (Hlow j) as [? _]; lia.
          + destruct (Hlow i) as [? _]; lia.
          + intros Q. destruct (P3 i), (P3 j); try assumption. apply F2; assumption.
        - destruct (Nat.ltb_spec i req); [lia|]. destruct (Hlow i) as [? _]; lia.
        - destruct (Nat.ltb_spec j req); [lia|]. destruct (Hlow j) as [? _]; lia.
        - lia. }
      destruct (Nat.ltb_spec pe num) as [Hlt|Hge].
      + destruct (draw_ok gen zero early (a_block r) b1 pe (num - pe) (a_drawn r + req) (ai_block _ _ _ I)) as (b2 & E3 & L3 & A3 & B3); [lia|]. rewrite E3. cbn [obind].
        eexists _, num, _. split; [reflexivity|]. split; [lia|]. split; [exact Hreq|]. split; [lia|]. split; [discriminate|]. split; [lia|].
        exists dn'. split; [|intros i j _ Hi _ Hj; apply (Hinj num); assumption]. cbn [a_num a_drawn]. unfold bufl. cbn [a_buf]. intros i _ Hi. unfold dn'. destruct (Nat.ltb_spec i pe) as [H1|H1].
        * rewrite B3 by (left; exact H1). destruct (Nat.ltb_spec i req) as [H2|H2]; [rewrite (A1 i H2); split; [reflexivity|]; split; [unfold req in *; lia|apply Hnew; lia]|].
          destruct (Hlow i H2 H1) as (A & B & C). split; [exact C|]. split; [lia|exact B].
        * replace i with (pe + (i - pe)) at 1 by lia. rewrite A3 by lia. split; [reflexivity|]. split; [lia|apply Hnew; lia].
      + eexists _, pe, _. split; [reflexivity|]. split; [exact Hge|]. split; [exact P2|]. split; [lia|]. split; [discriminate|]. split; [lia|].
        exists dn'. split; [|intros i j _ Hi _ Hj; apply (Hinj pe); assumption]. cbn [a_num a_drawn]. unfold bufl. cbn [a_buf]. intros i _ Hi. unfold dn'. destruct (Nat.ltb_spec i pe) as [H1|H1]; [|lia].
        destruct (Nat.ltb_spec i req) as [H2|H2]; [rewrite (A1 i H2); split; [reflexivity|]; split; [lia|apply Hnew; lia]|].
        destruct (Hlow i H2 H1) as (A & B & C). split; [exact C|]. split; [lia|exact B].
  Qed.

  Lemma Forall2_nth_error {A B} (R : A -> B -> Prop) l1 : forall l2, length l1 = length l2 ->
    (forall i x y, nth_error l1 i = Some x -> nth_error l2 i = Some y -> R x y) -> Forall2 R l1 l2.
  Proof.
    induction l1 as [|a l1 IH]; intros [|b l2] L H; try discriminate; constructor.
    - apply (H 0); reflexivity.
    - apply IH; [cbn in L; lia|]. intros i x y Hx Hy. apply (H (S i)); assumption.
  Qed.

  Lemma in_some_of {A} (l : list (option A)) a : In a (some_of l) <-> In (Some a) l.
  Proof.
    unfold some_of. rewrite in_flat_map. split.
    - intros (o & H & E). destruct o as [x|]; [|destruct E]. destruct E as [->|[]]. exact H.
    - intros H. exists (Some a). split; [exact H|left; reflexivity].
  Qed.

  Lemma nodup_some_of {A} (f : nat -> option A) m : (forall i j a, i < m -> j < m -> f i = Some a -> f j = Some a -> i = j) -> NoDup (some_of (map f (seq 0 m))).
  Proof.
    induction m as [|m IH]; intros H; [constructor|]. rewrite seq_S, map_app. unfold some_of. rewrite flat_map_app. apply NoDup_app_intro.
    - apply IH. intros i j a Hi Hj. apply H; lia.
    - cbn. destruct (f m); cbn; repeat constructor. intros [].
    - intros a Ha Hb. cbn in Hb. rewrite app_nil_r in Hb. destruct (f m) as [a'|] eqn:Em; [|destruct Hb]. destruct Hb as [->|[]]. apply (proj1 (in_some_of _ _)) in Ha. apply in_map_iff in Ha as (i & Ei & Hi). apply in_seq in Hi.
      specialize (H i m a ltac:(lia) ltac:(lia) Ei Em). lia.
  Qed.

  Lemma get_const_loop r k : 1 <= a_ncomp r -> a_state r = 1 -> (exists c, a_counter r = Some c) -> (1 <= k -> a_buf r <> None) ->
    exists s view, foldM (fun s _ => at_get_const junkc (fst s)) (r, (0%Z, [])) (seq 0 k) =
      Some (mk_at s (a_buf r) (a_counter r) (a_num r) (a_ncomp r) (a_block r) (a_override r) (a_valid r) (a_drawn r), view) /\ (s = 1 \/ s = 2) /\
      (1 <= k -> view = (Z.of_nat (a_num r), bufl r)) /\ (k = 0 -> view = (0%Z, [])).
  Proof.
    intros Hc Hs [c Ec] Hb. induction k as [|k IH].
    - exists 1, (0%Z, []). split; [cbn; destruct r; cbn in *; subst; reflexivity|]. split; [left; reflexivity|]. split; [lia|reflexivity].
    - destruct IH as (s & view & F & Hs' & _ & _); [intros; apply Hb; lia|]. rewrite seq_S, foldM_app, F. cbn [obind foldM fst plus]. unfold at_get_const. cbn [a_state a_ncomp a_buf a_num a_block a_override a_valid a_drawn].
      replace ((s =? 1) || (s =? 2)) with true by (destruct Hs' as [-> | ->]; reflexivity). cbn [assert obind]. destruct (Nat.eqb_spec (a_ncomp r) 0); [lia|].
      specialize (Hb ltac:(lia)). destruct (a_buf r) as [b|] eqn:Eb; [|congruence]. cbn [obind]. unfold get_counter. cbn [a_counter]. rewrite Ec.
      exists 2, (Z.of_nat (a_num r), b). split; [reflexivity|]. split; [right; reflexivity|]. unfold bufl. rewrite Eb. split; [reflexivity|lia].
  Qed.

  Lemma loop_ok early junk reallocated n launches ncalls sched lo r U : at_inv lo r U ->
    event_ok (a_ncomp r) (ELoop early junk reallocated n launches ncalls sched) ->
    exists r' rs draws, at_loop gen zero early junk junkc reallocated n launches ncalls sched r = Some (r', rs) /\
      Forall2 (outcome gen zero) rs draws /\ at_inv lo r' (U ++ some_of draws) /\ a_ncomp r' = a_ncomp r /\
      a_valid r' = a_valid r && forallb fst rs /\ length rs = ncalls /\
      (ncalls <= requested r n -> forallb fst rs = true).
  Proof.
    intros I (E1 & E2 & E3 & E4 & E5). destruct (pre_loop_ok early junk reallocated n lo r U I E1) as (b & num & drawn & Ep & R1 & R2 & R3 & R4 & R5 & dn & F1 & F2).
    unfold at_loop. rewrite Ep. cbn [obind].
    set (r1 := mk_at 1 b (Some (0, 0)%Z) num (a_ncomp r) (a_block r) (a_override r) (a_valid r) drawn) in *.
    destruct (get_const_loop r1 launches) as (s & view & G & Hs & V1 & V2).
    { apply (ai_ncomp _ _ _ I). } { reflexivity. } { eexists; reflexivity. }
    { intros Hl. apply R4. unfold requested. pose proof (ai_over _ _ _ I) as Ho. destruct (a_override r); [apply Ho|]. pose proof (ai_ncomp _ _ _ I). assert (n <> 0) by (intros Q; apply E4 in Q; lia). nia. }
    rewrite G. cbn [obind]. cbn [r1 a_buf a_counter a_num a_ncomp a_block a_override a_valid a_drawn get_counter].
    assert (exists vnum vdata, view = (Z.of_nat vnum, vdata) /\ (Z.of_nat vnum <= int_max)%Z /\ vnum <= length vdata /\ (launches = 0 \/ (vnum = num /\ vdata = bufl r1)) /\ (ncalls = 0 \/ (vnum = num /\ vdata = bufl r1))) as (vnum & vdata & Ev & W1 & W2 & W3 & W4).
    { destruct (Nat.eq_dec launches 0) as [L0|L0].
      - exists 0, []. rewrite (V2 L0). cbn. unfold int_max. repeat split; try lia; left; auto.
      - exists num, (bufl r1). rewrite V1 by lia. repeat split; auto. }
    rewrite Ev. destruct (calls_ok zero vdata vnum ncalls W1 W2 E3 sched E2) as (poison & rs & pos & ok & C1 & C2 & C3 & C4 & C5 & C6 & C7).
    rewrite C1. cbn [obind fst snd].
    set (f := fun i => if ok i then Some (dn (pos i)) else None).
    assert (Hall : forallb fst rs = true <-> forall i, i < ncalls -> ok i = true).
    { rewrite forallb_forall. split.
      - intros H i Hi. destruct (ok i) eqn:Eo; [reflexivity|exfalso]. specialize (C6 i Hi Eo). apply nth_error_In in C6. apply H in C6. discriminate.
      - intros H x Hx. destruct (In_nth_error _ _ Hx) as [i Hi]. assert (Hin : i < ncalls) by (rewrite <- C2; apply nth_error_Some; congruence).
        destruct (C5 i Hin (H i Hin)) as (_ & y & _ & Ey). rewrite Hi in Ey. injection Ey as ->. reflexivity. }
    assert (Hfresh : forall i, i < ncalls -> ok i = true -> pos i < num /\ nth_error rs i = Some (true, gen (dn (pos i))) /\ lo <= dn (pos i) < drawn /\ ~ In (dn (pos i)) U).
    { intros i Hi Ho. destruct (C5 i Hi Ho) as (A & x & B & C). destruct W4 as [W4|[-> ->]]; [lia|]. destruct (F1 (pos i) ltac:(lia) A) as (D & D2 & D3). rewrite D in B. injection B as <-. cbn [r1 a_drawn] in D2. auto. }
    eexists _, rs, (map f (seq 0 ncalls)). split; [reflexivity|]. split; [|split; [|split; [|split; [|split]]]].
    - apply Forall2_nth_error; [rewrite map_length, seq_length; exact C2|]. intros i x y Hx Hy. assert (Hi : i < ncalls) by (rewrite <- C2; apply nth_error_Some; congruence).
      rewrite nth_error_map in Hy. rewrite nth_error_seq in Hy. destruct (Nat.ltb_spec i ncalls); [|lia]. cbn in Hy. injection Hy as <-. unfold f, outcome. destruct (ok i) eqn:Eo.
      + destruct (Hfresh i Hi Eo) as (_ & A & _). congruence.
      + specialize (C6 i Hi Eo). congruence.
    - unfold at_post_loop. cbn [get_counter a_counter a_state a_buf a_num a_ncomp a_block a_override a_valid a_drawn fst snd].
      assert (Hin : forall k, In k (some_of (map f (seq 0 ncalls))) -> exists i, i < ncalls /\ ok i = true /\ k = dn (pos i)).
      { intros k Hk. apply in_some_of in Hk. apply in_map_iff in Hk as (i & Ei & Hi). apply in_seq in Hi. unfold f in Ei. destruct (ok i) eqn:Eo; [|discriminate]. injection Ei as <-. exists i. split; [lia|]. auto. }
      constructor; cbn [a_counter a_state a_buf a_num a_ncomp a_block a_override a_valid a_drawn].
      + reflexivity.
      + apply (ai_ncomp _ _ _ I).
      + apply (ai_block _ _ _ I).
      + exact R2.
      + exact R5.
      + apply (ai_over _ _ _ I).
      + pose proof (ai_lo _ _ _ I). lia.
      + intros k Hk. apply in_app_or in Hk as [Hk|Hk]; [apply (ai_used _ _ _ I) in Hk; lia|]. destruct (Hin k Hk) as (i & Hi & Ho & ->). apply (Hfresh i Hi Ho).
      + apply NoDup_app_intro; [apply (ai_nodup _ _ _ I)| |].
        * apply nodup_some_of. intros i j a Hi Hj A B. unfold f in A, B. destruct (ok i) eqn:Ei; [|discriminate]. destruct (ok j) eqn:Ej; [|discriminate].
          apply C3; [exact Hi|exact Hj|]. destruct (Hfresh i Hi Ei) as [P1 _]. destruct (Hfresh j Hj Ej) as [P2 _]. apply F2; cbn [r1 a_num]; try lia. congruence.
        * intros k Hk Hk2. destruct (Hin k Hk2) as (i & Hi & Ho & ->). destruct (Hfresh i Hi Ho) as (_ & _ & _ & N). contradiction.
      + exists dn. unfold consumed. cbn [get_counter a_counter fst].
        destruct (Z.lt_ge_cases (Z.of_nat ncalls) (2 ^ 31)) as [Hlt|Hge].
        * rewrite wrap32_low by lia. unfold to_size_t. rewrite Z.mod_small by lia. split; cbn [a_num a_drawn].
          -- intros i Hi Hi2. destruct (F1 i ltac:(lia) Hi2) as (A & B & C). split; [exact A|]. split; [exact B|]. intros Hk. apply in_app_or in Hk as [Hk|Hk]; [contradiction|].
             destruct (Hin _ Hk) as (j & Hj & Ho & Q). destruct (Hfresh j Hj Ho) as [P1 _]. assert (i = pos j) by (apply F2; cbn [r1 a_num]; try lia; exact Q). specialize (C4 j Hj). lia.
          -- intros i j Hi Hi2 Hj Hj2. apply F2; cbn [r1 a_num]; lia.
        * rewrite wrap32_high by lia. unfold to_size_t. replace (Z.of_nat ncalls - 2 ^ 32)%Z with (Z.of_nat ncalls - 2 ^ 32 + 2 ^ 64 + (-1) * 2 ^ 64)%Z by lia. rewrite Z.mod_add by lia. rewrite Z.mod_small by lia.
          unfold int_max in R2. split; cbn [a_num a_drawn]; intros; lia.
    - reflexivity.
    - unfold at_post_loop. cbn [get_counter a_counter a_state a_buf a_num a_ncomp a_block a_override a_valid a_drawn fst snd]. f_equal.
      destruct (Nat.eq_dec ncalls 0) as [N0|N0].
      + destruct rs; [|cbn in C2; lia]. cbn [forallb]. rewrite N0 in *. destruct C7 as [(-> & _)|(_ & Q & _)]; [|lia]. change (wrap32 (Z.of_nat 0)) with 0%Z. destruct (Z.ltb_spec (Z.of_nat num) 0); [lia|]. reflexivity.
      + destruct W4 as [W4|[-> ->]]; [lia|]. destruct C7 as [(-> & Q & A)|(-> & Q & i & Hi & A)].
        * rewrite (proj2 Hall A). rewrite wrap32_low by (unfold int_max in R2; lia). destruct (Z.ltb_spec (Z.of_nat num) (Z.of_nat ncalls)); [lia|]. reflexivity.
        * rewrite orb_true_r. cbn [negb]. destruct (forallb fst rs) eqn:Ef; [|reflexivity]. rewrite (proj1 Hall eq_refl i Hi) in A. discriminate.
    - exact C2.
    - intros Hle. apply Hall. destruct C7 as [(_ & _ & A)|(_ & Q & _)]; [exact A|]. destruct W4 as [W4|[-> _]]; lia.
  Qed.

  Lemma set_number_ok lo r U o : at_inv lo r U -> event_ok (T := T) (a_ncomp r) (ESetNumber o) -> at_inv lo (set_num_random_numbers o r) U.
  Proof.
    intros [] Ho. constructor; cbn [set_num_random_numbers a_state a_buf a_counter a_num a_ncomp a_block a_override a_valid a_drawn]; assumption.
  Qed.

  Definition all_valid (rss : list (list (bool * T))) : bool := forallb (forallb fst) rss.

  Lemma run_ok ncomp block lo events : 1 <= ncomp -> 1 <= block -> Forall (event_ok ncomp) events ->
    exists r rss draws, rng_run gen zero junkc events (at_create ncomp block lo) = Some (r, rss) /\
      Forall2 (Forall2 (outcome gen zero)) rss draws /\ at_inv lo r (some_of (concat draws)) /\ a_ncomp r = ncomp /\ a_valid r = all_valid rss.
  Proof.
    intros Hc Hb He. unfold rng_run.
    match goal with |- context [foldM ?f _ _] => set (F := f) end.
    destruct (foldM_ind F (fun pre s => exists draws, Forall2 (Forall2 (outcome gen zero)) (snd s) draws /\ at_inv lo (fst s) (some_of (concat draws)) /\ a_ncomp (fst s) = ncomp /\ a_valid (fst s) = all_valid (snd s)) events (at_create ncomp block lo, [])) as ([r rss] & E & draws & A & B & C & D).
    - exists []. cbn [fst snd]. split; [constructor|]. split; [|split; reflexivity]. constructor; cbn; try lia; try reflexivity; try (exact Logic.I); try (unfold int_max; lia); try (intros k []; fail); try (constructor; fail).
      exists (fun i => i). split; cbn; intros; lia.
    - intros pre e post [r rss] Es (draws & A & B & C & D). cbn [fst snd] in *. assert (Hev : event_ok ncomp e). { rewrite Forall_forall in He. apply He. rewrite Es. apply in_or_app. right. left. reflexivity. }
      destruct e as [o|early junk reallocated n launches ncalls sched]; unfold F; cbn [fst snd].
      + eexists. split; [reflexivity|]. exists draws. cbn [fst snd]. split; [exact A|]. split; [apply set_number_ok; [exact B|rewrite C; exact Hev]|]. split; [exact C|exact D].
      + destruct (loop_ok early junk reallocated n launches ncalls sched lo r _ B) as (r' & rs & ds & E1 & E2 & E3 & E4 & E5 & _ & _); [rewrite C; exact Hev|].
        rewrite E1. cbn [obind fst snd]. eexists. split; [reflexivity|]. exists (draws ++ [ds]). cbn [fst snd]. split; [apply Forall2_app; [exact A|constructor; [exact E2|constructor]]|].
        split; [|split; [congruence|]].
        * rewrite concat_app. cbn [concat]. rewrite app_nil_r. unfold some_of in *. rewrite flat_map_app. exact E3.
        * unfold all_valid. rewrite forallb_app. cbn [forallb]. rewrite andb_true_r, E5, D. reflexivity.
    - rewrite E. exists r, rss, draws. auto.
  Qed.
End Loops.
