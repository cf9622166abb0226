(** Proofs about the random numbers of kernels. *)
From Coq Require Import List Arith Lia ZArith Bool Permutation.
Import ListNotations.
From Verif Require Import Base Kernel Loop_Model Loop_Spec Loop_Proofs RNG_Model RNG_Spec.

Section Draw.
  Context {T : Type} (gen : nat -> T) (zero : T).

  Lemma memcpy_part_ok sel (mem src : list T) dst n : dst + n <= length mem -> n <= length src ->
    exists r, memcpy_part sel mem src dst n = Some r /\ length r = length mem /\
      (forall j, dst <= j < dst + n -> sel j = true -> nth_error r j = nth_error src (j - dst)) /\
      (forall j, ~ (dst <= j < dst + n) \/ sel j = false -> nth_error r j = nth_error mem j).
  Proof.
    intros Hm Hs. unfold memcpy_part. induction n as [|n IH].
    - exists mem. cbn. split; [reflexivity|]. split; [reflexivity|]. split; [intros; lia|reflexivity].
    - destruct IH as (r & E & L & A & B); [lia|lia|]. rewrite seq_S, foldM_app, E. cbn [obind foldM plus].
      destruct (sel (dst + n)) eqn:Es.
      + assert (Hn : n < length src) by lia. destruct (nth_error_lt_some _ _ Hn) as [v Hv]. unfold rd. rewrite Hv. cbn [obind].
        destruct (upd_some r (dst + n) v) as [r' U]; [lia|]. rewrite U. cbn [obind]. exists r'. split; [reflexivity|]. split; [rewrite (upd_length _ _ _ _ U); exact L|]. split.
        * intros j Hj Hsel. destruct (Nat.eq_dec j (dst + n)) as [->|Hne].
          -- rewrite (upd_nth_eq _ _ _ _ U). replace (dst + n - dst) with n by lia. symmetry. exact Hv.
          -- rewrite (upd_nth_neq _ _ _ _ _ U) by lia. apply A; [lia|exact Hsel].
        * intros j Hj. rewrite (upd_nth_neq _ _ _ _ _ U) by (intros Q; subst j; destruct Hj; [lia|congruence]). apply B. destruct Hj; [left; lia|right; assumption].
      + exists r. split; [reflexivity|]. split; [exact L|]. split.
        * intros j Hj Hsel. apply A; [|exact Hsel]. destruct (Nat.eq_dec j (dst + n)) as [->|]; [congruence|lia].
        * intros j Hj. destruct (Nat.eq_dec j (dst + n)) as [->|]; [apply B; right; exact Es|]. apply B. destruct Hj; [left; lia|right; assumption].
  Qed.

  Lemma fill_ok (cur : list T) g n : n <= length cur ->
    exists r, foldM (fun cur ix => upd cur ix (gen (g + ix))) cur (seq 0 n) = Some r /\ length r = length cur /\
      forall i, i < n -> nth_error r i = Some (gen (g + i)).
  Proof.
    intros Hn. destruct (foldM_upd (fun cur ix => upd cur ix (gen (g + ix))) (fun ix => ix) (fun ix => gen (g + ix)) (seq 0 n) cur) as (r & E & L & A & _); [reflexivity| |congruence|].
    { intros ix Hix. apply in_seq in Hix. lia. }
    exists r. split; [exact E|]. split; [exact L|]. intros i Hi. apply (A i). apply in_seq. lia.
  Qed.

  Lemma draw_loop_ok bs (early : nat -> bool) (tgt : nat -> T) : 1 <= bs -> forall fuel (cur nxt mem : list T) (pend : nat * nat) d_ptr left g,
    left < fuel -> length cur = bs -> length nxt = bs -> snd pend <= bs -> fst pend + snd pend = d_ptr -> d_ptr + left <= length mem ->
    (forall j, fst pend <= j < d_ptr -> if early j then nth_error mem j = Some (tgt j) else nth_error nxt (j - fst pend) = Some (tgt j)) ->
    exists r, draw_loop gen fuel bs early cur nxt mem pend d_ptr left g = Some (r, g + left) /\ length r = length mem /\
      (forall j, fst pend <= j < d_ptr -> nth_error r j = Some (tgt j)) /\
      (forall i, i < left -> nth_error r (d_ptr + i) = Some (gen (g + i))) /\
      (forall j, j < fst pend \/ d_ptr + left <= j -> nth_error r j = nth_error mem j).
  Proof.
    intros Hbs. intros fuel. revert tgt. induction fuel as [|fuel IH]; intros tgt cur nxt mem [pd pn] d_ptr left g Hf Lc Ln Hp Hpd Hm Ht; [lia|]. cbn [fst snd] in *. cbn [draw_loop].
    destruct (Nat.ltb_spec 0 left) as [H0|H0].
    - set (n := Nat.min bs left). destruct (fill_ok cur g n) as (cur' & E1 & L1 & A1); [subst n; lia|]. rewrite E1. cbn [obind fst snd].
      destruct (memcpy_part_ok (fun i => negb (early i)) mem nxt pd pn) as (m1 & E2 & L2 & A2 & B2); [lia|lia|]. rewrite E2. cbn [obind].
      destruct (memcpy_part_ok early m1 cur' d_ptr n) as (m2 & E3 & L3 & A3 & B3); [subst n; lia|subst n; lia|]. rewrite E3. cbn [obind].
      destruct (IH (fun j => gen (g + (j - d_ptr))) nxt cur' m2 (d_ptr, n) (d_ptr + n) (left - n) (g + n)) as (r & E & L & A & B & C); cbn [fst snd]; try (subst n; lia).
      { intros j Hj. destruct (early j) eqn:Ee.
        - rewrite A3 by (auto; lia). apply A1. lia.
        - apply A1. lia. }
      exists r. split; [rewrite E; f_equal; f_equal; subst n; lia|]. split; [lia|]. cbn [fst] in *. split; [|split].
      + intros j Hj. rewrite C by lia. rewrite B3 by lia. specialize (Ht j Hj). destruct (early j) eqn:Ee.
        * rewrite B2 by (right; rewrite Ee; reflexivity). exact Ht.
        * rewrite A2 by (rewrite ?Ee; try reflexivity; lia). exact Ht.
      + intros i Hi. destruct (Nat.lt_ge_cases i n) as [Hlt|Hge].
        * rewrite A by lia. do 3 f_equal. lia.
        * replace (d_ptr + i) with (d_ptr + n + (i - n)) by lia. rewrite B by lia. do 2 f_equal. lia.
      + intros j Hj. rewrite C by lia. rewrite B3 by (left; subst n; lia). apply B2. left. lia.
    - cbn [fst snd]. destruct (memcpy_part_ok (fun i => negb (early i)) mem nxt pd pn) as (m1 & E2 & L2 & A2 & B2); [lia|lia|]. rewrite E2. cbn [obind].
      exists m1. split; [f_equal; f_equal; lia|]. split; [exact L2|]. split; [|split].
      + intros j Hj. specialize (Ht j Hj). destruct (early j) eqn:Ee.
        * rewrite B2 by (right; rewrite Ee; reflexivity). exact Ht.
        * rewrite A2 by (rewrite ?Ee; try reflexivity; lia). exact Ht.
      + intros i Hi. lia.
      + intros j Hj. apply B2. left. lia.
  Qed.

  Lemma draw_ok early bs mem off num g : 1 <= bs -> off + num <= length mem ->
    exists r, draw_random_samples gen zero early bs (Some mem) off num g = Some (Some r, g + num) /\ length r = length mem /\
      (forall i, i < num -> nth_error r (off + i) = Some (gen (g + i))) /\
      (forall j, j < off \/ off + num <= j -> nth_error r j = nth_error mem j).
  Proof.
    intros Hbs Hm. unfold draw_random_samples. destruct (Nat.eqb_spec num 0) as [->|Hn].
    - exists mem. split; [f_equal; f_equal; lia|]. split; [reflexivity|]. split; [intros; lia|reflexivity].
    - cbn [obind]. destruct (draw_loop_ok bs early gen Hbs (S num) (repeat zero bs) (repeat zero bs) mem (off, 0) off num g) as (r & E & L & _ & B & C); cbn [fst snd]; rewrite ?repeat_length; try lia.
      rewrite E. cbn [obind fst snd]. exists r. split; [reflexivity|]. split; [exact L|]. split; [exact B|exact C].
  Qed.

  Lemma draw_none early bs buf off g : draw_random_samples gen zero early bs buf off 0 g = Some (buf, g).
  Proof. reflexivity. Qed.

  Lemma allocate_ok junk (buf : option (list T)) req : 1 <= req ->
    exists b, allocate junk buf req = Some b /\ req <= length b /\
      forall old, buf = Some old -> length old <= length b /\ forall j, j < length old -> nth_error b j = nth_error old j.
  Proof.
    intros Hr. unfold allocate. destruct (Nat.eqb_spec req 0); [lia|]. destruct buf as [old|].
    - destruct (Nat.ltb_spec (length old) req) as [Hl|Hl].
      + eexists. split; [reflexivity|]. rewrite app_length, map_length, seq_length. split; [lia|]. intros o [= <-]. split; [lia|]. intros j Hj. apply nth_error_app1. exact Hj.
      + exists old. split; [reflexivity|]. split; [exact Hl|]. intros o [= <-]. split; [lia|reflexivity].
    - eexists. split; [reflexivity|]. rewrite map_length, seq_length. split; [lia|]. discriminate.
  Qed.
End Draw.

(** ** The per particle RNG *)
Section PerParticle.
  Context {T : Type} (gen : nat -> T) (zero : T).

  Lemma to_int_ok z : (0 <= z <= int_max)%Z -> to_int z = Some z.
  Proof.
    intros H. unfold to_int. rewrite (proj2 (Z.leb_le (- int_max - 1) z)) by (unfold int_max in *; lia). rewrite (proj2 (Z.leb_le z int_max)) by lia. reflexivity.
  Qed.

  Lemma pp_loop_ok early junk n launches reads (r : @per_particle T) : p_state r = 0 -> 1 <= p_block r ->
    (1 <= p_ncomp r -> (Z.of_nat (n * p_ncomp r) <= int_max)%Z) -> (Z.of_nat n < int_max)%Z ->
    (forall ix c, In (ix, c) reads -> ix < n /\ c < p_ncomp r) -> (reads = [] \/ 1 <= launches) -> (n = 0 -> launches = 0) ->
    exists b, pp_loop gen zero early junk n launches reads r =
      Some (mk_pp 0 b (p_ncomp r) (p_block r) (p_drawn r + n * p_ncomp r),
            map (fun a => gen (p_drawn r + (snd a * n + fst a))) reads).
  Proof.
    intros H0 Hb Hi Hn Hr Hl H1. unfold pp_loop, pp_pre_loop. rewrite H0. cbn [Nat.eqb assert obind].
    assert (exists buf, (if 0 <? p_ncomp r then
        x <- draw_random_samples gen zero early (p_block r) (allocate junk (p_buf r) (n * p_ncomp r)) 0 (n * p_ncomp r) (p_drawn r) ;;
        Some (mk_pp 1 (fst x) (p_ncomp r) (p_block r) (snd x))
      else Some (mk_pp 1 (p_buf r) (p_ncomp r) (p_block r) (p_drawn r))) = Some (mk_pp 1 buf (p_ncomp r) (p_block r) (p_drawn r + n * p_ncomp r)) /\
      (1 <= n * p_ncomp r -> exists m, buf = Some m /\ forall i, i < n * p_ncomp r -> nth_error m i = Some (gen (p_drawn r + i)))) as (buf & E & B).
    { destruct (Nat.ltb_spec 0 (p_ncomp r)) as [Hc|Hc].
      - destruct (Nat.eq_dec (n * p_ncomp r) 0) as [Z0|Z0].
        + rewrite Z0, draw_none. cbn [obind fst snd]. eexists. split; [f_equal; f_equal; lia|]. lia.
        + destruct (allocate_ok junk (p_buf r) (n * p_ncomp r)) as (m & Ea & La & _); [lia|]. rewrite Ea.
          destruct (draw_ok gen zero early (p_block r) m 0 (n * p_ncomp r) (p_drawn r) Hb) as (m' & Ed & Ld & A & _); [lia|]. rewrite Ed. cbn [obind fst snd].
          eexists. split; [reflexivity|]. intros _. exists m'. split; [reflexivity|]. intros i Hi'. apply (A i Hi').
      - exists (p_buf r). split; [f_equal; f_equal; nia|]. nia. }
    rewrite E. cbn [obind].
    assert (G : forall k, exists s view, foldM (fun s _ => pp_get_const n (fst s)) (mk_pp 1 buf (p_ncomp r) (p_block r) (p_drawn r + n * p_ncomp r), (0%Z, [])) (seq 0 (if n =? 0 then 0 else k)) =
        Some (mk_pp s buf (p_ncomp r) (p_block r) (p_drawn r + n * p_ncomp r), view) /\ (s = 1 \/ s = 2) /\
        (1 <= n -> 1 <= k -> 1 <= p_ncomp r -> fst view = Z.of_nat n /\ buf = Some (snd view))).
    { intros k. destruct (Nat.eqb_spec n 0) as [->|Hn0]; [exists 1, (0%Z, []); split; [reflexivity|]; split; [left; reflexivity|lia]|].
      induction k as [|k IH]; [exists 1, (0%Z, []); split; [reflexivity|]; split; [left; reflexivity|lia]|].
      destruct IH as (s & view & F & Hs & _). rewrite seq_S, foldM_app, F. cbn [obind foldM plus fst].
      unfold pp_get_const. cbn [p_state p_ncomp p_buf p_block p_drawn]. replace ((s =? 1) || (s =? 2)) with true by (destruct Hs as [-> | ->]; reflexivity). cbn [assert obind].
      destruct (Nat.eqb_spec (p_ncomp r) 0) as [Zc|Zc].
      - cbn [obind]. exists 2, (0%Z, []). split; [reflexivity|]. split; [right; reflexivity|lia].
      - destruct B as (m & -> & _); [nia|]. destruct (Z.ltb_spec (Z.of_nat n) int_max); [|lia]. cbn [assert obind]. exists 2, (Z.of_nat n, m). split; [reflexivity|]. split; [right; reflexivity|auto]. }
    destruct (G launches) as (s & view & F & Hs & V).
    replace (if n =? 0 then 0 else launches) with launches in F by (destruct (Nat.eqb_spec n 0); auto).
    rewrite F. cbn [obind fst snd].
    assert (Em : mapM (fun a => pp_at view (fst a) (snd a)) reads = Some (map (fun a => gen (p_drawn r + (snd a * n + fst a))) reads)).
    { assert (Hreads : forall a, In a reads -> pp_at view (fst a) (snd a) = Some (gen (p_drawn r + (snd a * n + fst a)))).
      { intros [ix c] Hin. destruct (Hr ix c Hin) as [Hix Hc]. cbn [fst snd]. destruct Hl as [->|Hl]; [destruct Hin|].
        destruct V as [V1 V2]; [lia|lia|lia|]. destruct B as (m & Eb & Bm); [nia|]. rewrite V2 in Eb. injection Eb as Eb. specialize (Hi ltac:(lia)).
        assert (Hlt : c * n + ix < n * p_ncomp r) by nia. unfold pp_at. rewrite V1.
        rewrite (to_int_ok (Z.of_nat ix)) by lia. cbn [obind]. rewrite (to_int_ok (Z.of_nat c * Z.of_nat n)) by nia. cbn [obind].
        rewrite to_int_ok by nia. cbn [obind]. destruct (Z.ltb_spec (Z.of_nat c * Z.of_nat n + Z.of_nat ix) 0); [nia|].
        rewrite Eb. unfold rd. replace (Z.to_nat (Z.of_nat c * Z.of_nat n + Z.of_nat ix)) with (c * n + ix) by lia. apply Bm. exact Hlt. }
      clear -Hreads. induction reads as [|a l IH]; [reflexivity|]. cbn [mapM map]. rewrite Hreads by (left; reflexivity). cbn [obind]. rewrite IH by (intros; apply Hreads; right; assumption). reflexivity. }
    rewrite Em. cbn [obind]. exists buf. reflexivity.
  Qed.
End PerParticle.
