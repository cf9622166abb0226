(** Proofs about moving particles between ranks. *)
From Coq Require Import List Arith Lia ZArith Permutation Bool.
Import ListNotations.
From Verif Require Import Base Kernel Group_Model Group_Spec Group_Proofs Compress_Model Compress_Spec Compress_Proofs
  Add_Model Add_Spec Append_Proofs Add_Proofs AddGroup_Proofs Pack_Model Pack_Spec Depart_Proofs Pack_Proofs
  Unpack_Proofs Exchange_Model Exchange_Spec.

(** ** Lists *)
Lemma nth_error_comb {A B} (l1 : list A) (l2 : list B) i :
  nth_error (combine l1 l2) i =
    match nth_error l1 i, nth_error l2 i with Some a, Some b => Some (a, b) | _, _ => None end.
Proof.
  revert l2 i. induction l1 as [|a l1 IH]; intros [|b l2] [|i]; cbn [combine nth_error]; auto.
  destruct (nth_error l1 i); auto.
Qed.

Lemma map_fst_combine {A B} (l1 : list A) (l2 : list B) : length l1 <= length l2 -> map fst (combine l1 l2) = l1.
Proof.
  revert l2. induction l1 as [|a l1 IH]; intros [|b l2] H; cbn [combine map fst length] in *; auto; [lia|].
  rewrite IH by lia. auto.
Qed.

Lemma filter_map_comm {A B} (f : A -> B) (p : B -> bool) l : filter p (map f l) = map f (filter (fun a => p (f a)) l).
Proof. induction l as [|a l IH]; cbn; auto. destruct (p (f a)); cbn; rewrite IH; auto. Qed.

Lemma list_choice {A} (Q : nat -> A -> Prop) n : (forall j, j < n -> exists x, Q j x) ->
  exists l, length l = n /\ forall j x, nth_error l j = Some x -> Q j x.
Proof.
  induction n as [|n IH]; intros H.
  - exists []. split; auto. intros [|j]; discriminate.
  - destruct IH as [l [L Hl]]; [intros; apply H; lia|]. destruct (H n) as [x Hx]; [lia|].
    exists (l ++ [x]). split; [rewrite app_length; cbn; lia|]. intros j y Hj.
    destruct (lt_dec j n).
    + rewrite nth_error_app1 in Hj by lia. auto.
    + assert (j = n).
      { pose proof (nth_error_some_lt _ _ _ Hj) as Q1. rewrite app_length in Q1. cbn in Q1. lia. }
      subst j. rewrite nth_error_app2 in Hj by lia. replace (n - length l) with 0 in Hj by lia.
      cbn in Hj. injection Hj as <-. auto.
Qed.

Lemma NoDup_nth_inj {A} (l : list A) i j a : NoDup l -> nth_error l i = Some a -> nth_error l j = Some a -> i = j.
Proof.
  intros N Hi Hj. apply (proj1 (NoDup_nth_error l) N); [eapply nth_error_some_lt; eauto|congruence].
Qed.

Lemma filter_key {B} (l : list (nat * B)) r x : NoDup (map fst l) -> In (r, x) l ->
  filter (fun m => fst m =? r) l = [(r, x)].
Proof.
  induction l as [|[k v] l IH]; intros N Hin; [destruct Hin|]. cbn [map fst] in N. inversion N as [|? ? Nk Nl]; subst.
  cbn [filter fst]. destruct Hin as [[= -> ->]|Hin].
  - rewrite Nat.eqb_refl. f_equal. clear IH N Nl. induction l as [|[k' v'] l IH]; auto.
    cbn [filter fst]. destruct (Nat.eqb_spec k' r) as [->|]; [exfalso; apply Nk; left; auto|].
    apply IH. intros H. apply Nk. right. auto.
  - destruct (Nat.eqb_spec k r) as [->|]; [|auto]. exfalso. apply Nk. apply in_map_iff. exists (r, x). auto.
Qed.

Lemma filter_key_none {B} (l : list (nat * B)) r : ~ In r (map fst l) -> filter (fun m => fst m =? r) l = [].
Proof.
  induction l as [|[k v] l IH]; intros N; auto. cbn [filter fst map In] in *.
  destruct (Nat.eqb_spec k r); [exfalso; auto|]. apply IH. auto.
Qed.

(** ** What the particles of a group want *)
Lemma particles_pv {R} (g : group R) : wf_group g -> particles g = map (pv g) (all_particles (npart_cell g)).
Proof.
  intros WF. set (np := npart_cell g). unfold particles, all_particles. fold np. rewrite flat_map_concat_map, (flat_map_concat_map (fun c => map (pair c) _)).
  rewrite concat_map, map_map. f_equal. apply map_ext_in. intros c Hc. apply in_seq in Hc.
  rewrite cell_particles_vals by (auto; unfold np in Hc; lia). unfold cell_entries. fold np. auto.
Qed.

Section Rank.
  Context {R byte : Type} (g : group R) (WF : wf_group g) (rid size rank : nat) (ranks : list (list Z)).
  Context (Hr : nth_error (ints (st g)) rid = Some ranks) (Hrank : rank < size).
  Let np := npart_cell g.

  Lemma ranks_value w : In w (all_particles np) -> rd2 ranks (fst w) (snd w) = nth_error (snd (pv g w)) rid.
  Proof.
    intros Hw. destruct w as [c l]. destruct WF as [_ W]. unfold pv. cbn [fst snd].
    rewrite <- (vals_at_rd3 np (ints (st g)) c l rid); auto.
    - unfold rd3, rd. rewrite Hr. auto.
    - eapply nth_error_some_lt; eauto.
  Qed.

  Lemma has_rank : forall c n l, nth_error np c = Some n -> l < n -> exists z, rd2 ranks c l = Some z.
  Proof.
    intros c n l Hc Hl. destruct WF as [_ W].
    destruct (wf_rd3' np (ints (st g)) W rid c l n) as [z Ez]; auto.
    - eapply nth_error_some_lt; eauto.
    - exists z. unfold rd3, rd in Ez. rewrite Hr in Ez. auto.
  Qed.

  Lemma names_wanted o w : In w (all_particles np) -> o < size -> o <> rank ->
    names ranks o w = (wanted rid size rank (pv g w) =? o).
  Proof.
    intros Hw Ho Hn. unfold names, wanted. rewrite (ranks_value w Hw).
    destruct (nth_error (snd (pv g w)) rid) as [z|].
    - apply eq_true_iff_eq. rewrite Z.eqb_eq, Nat.eqb_eq.
      destruct (Z.leb_spec 0 z), (Z.ltb_spec z (Z.of_nat size)); cbn [andb]; lia.
    - symmetry. apply Nat.eqb_neq. auto.
  Qed.

  Lemma departs_wanted w : In w (all_particles np) ->
    existsb (fun o => names ranks o w) (other_ranks size rank) = negb (wanted rid size rank (pv g w) =? rank).
  Proof.
    intros Hw. apply eq_true_iff_eq. rewrite existsb_exists, negb_true_iff, Nat.eqb_neq. split.
    - intros [o [Ho Hn]]. apply (in_other size rank) in Ho. destruct Ho as [Ho1 Ho2].
      rewrite names_wanted in Hn by auto. apply Nat.eqb_eq in Hn. lia.
    - intros Hn. exists (wanted rid size rank (pv g w)).
      assert (wanted rid size rank (pv g w) < size).
      { unfold wanted in *. destruct (nth_error (snd (pv g w)) rid) as [z|]; [|lia].
        destruct (Z.leb_spec 0 z), (Z.ltb_spec z (Z.of_nat size)); cbn [andb] in *; lia. }
      split; [apply (in_other size rank); auto|]. rewrite names_wanted, Nat.eqb_eq by auto. auto.
  Qed.

  Lemma going_pv o : o < size -> o <> rank ->
    map (pv g) (going np ranks o) = filter (fun p => wanted rid size rank p =? o) (particles g).
  Proof.
    intros Ho Hn. rewrite (particles_pv g WF), filter_map_comm. f_equal. unfold going. apply filter_ext_in.
    intros w Hw. apply names_wanted; auto.
  Qed.
End Rank.

(** ** What a rank sends *)
Section Send.
  Context {R byte : Type} (E : encoding R byte) (EOk : encoding_ok E) (spR spZ : pspec).
  Let nb := bytes_per_particle E spR spZ.

  (** The particles of every message of one rank. *)
  Definition out_of (q : nat * list (particle R)) : nat * message := (fst q, (length (snd q), wire E (snd q))).

  (** [out] carries, for every other rank, the particles that want to be there. *)
  Definition out_ok (rid size rank : nat) (g : group R) (pos : bool) (out : list (nat * message)) : Prop :=
    exists qs : list (nat * list (particle R)), out = map out_of qs /\ NoDup (map fst qs) /\
      (forall o ps, In (o, ps) qs -> o < size /\ o <> rank /\
         Permutation ps (filter (fun p => wanted rid size rank p =? o) (particles g)) /\
         (pos = true -> ps <> [])) /\
      (forall o, o < size -> o <> rank -> ~ In o (map fst qs) ->
         filter (fun p => wanted rid size rank p =? o) (particles g) = []).

  Context (e : rank_env R byte) (Hd : device_ok (e_dev e)).
  Context (g : group R) (WF : wf_group g) (SR : spec_of spR (reals (st g))) (SZ : spec_of spZ (ints (st g))).
  Context (rid size rank : nat) (ranks : list (list Z)).
  Context (Hr : nth_error (ints (st g)) rid = Some ranks) (Hrank : rank < size) (Hbuf : size <= length (e_buf0 e)).
  Let np := npart_cell g.

  (** Packing for the destinations [dsts]. *)
  Lemma pack_dsts rc dp dsts rank_map npart : is_departing rc size rank np ranks dp ->
    NoDup dsts -> (forall o, In o dsts -> o < size /\ o <> rank) ->
    (forall o, o < size -> o <> rank -> going np ranks o <> [] -> In o dsts) ->
    (forall j o, nth_error dsts j = Some o -> nth_error rank_map o = Some j) ->
    npart = map (fun o => length (going np ranks o)) dsts ->
    exists buf msgs, 
      pack (e_dev e) E spR spZ (e_ubuf e) (length dsts) npart rank_map (dp_num dp) (dp_cells dp)
        (dp_layers_src dp) (dp_layers_dst dp) ranks (st g) (e_buf0 e) = Some buf /\
      packed_messages E spR spZ (e_aware e) (e_hsend e) (length dsts) size npart buf = Some msgs /\
      exists pss, length pss = length dsts /\ combine dsts (combine npart msgs) = map out_of (combine dsts pss) /\
        forall j o ps, nth_error dsts j = Some o -> nth_error pss j = Some ps ->
          Permutation ps (filter (fun p => wanted rid size rank p =? o) (particles g)).
  Proof.
    intros [D1 [D2 [D3 [D4 [D5 [D6 [D7 [D8 _]]]]]]]] ND Hin Hcov Hmap ->.
    destruct (list_choice (fun j order => forall o, nth_error dsts j = Some o ->
        Permutation order (going np ranks o) /\
        forall i c l k, i < dp_num dp -> nth_error (dp_cells dp) i = Some c -> nth_error (dp_layers_src dp) i = Some l ->
          nth_error (dp_layers_dst dp) i = Some k -> names ranks o (c, l) = true ->
          nth_error order k = Some (c, l)) (length dsts)) as [orders [Lo Ho]].
    { intros j Hj. destruct (nth_error_lt_some dsts j Hj) as [o Eo]. pose proof (Hin o (nth_error_In _ _ Eo)) as [A B].
      destruct (D6 o) as [_ [order Q]]; [apply (in_other size rank); auto|]. exists order. intros o' Eo'.
      rewrite Eo in Eo'. injection Eo' as <-. auto. }
    set (P := fun j => nth j orders []).
    assert (HPj : forall j, j < length dsts -> exists o, nth_error dsts j = Some o /\ Permutation (P j) (going np ranks o) /\
        forall i c l k, i < dp_num dp -> nth_error (dp_cells dp) i = Some c -> nth_error (dp_layers_src dp) i = Some l ->
          nth_error (dp_layers_dst dp) i = Some k -> names ranks o (c, l) = true -> nth_error (P j) k = Some (c, l)).
    { intros j Hj. destruct (nth_error_lt_some dsts j Hj) as [o Eo]. exists o. split; auto.
      destruct (nth_error_lt_some orders j) as [order Eor]; [lia|]. unfold P. rewrite (nth_error_nth _ _ _ Eor).
      apply (Ho j order Eor o Eo). }
    assert (HP : forall j w, In w (P j) -> In w (all_particles np)).
    { intros j w Hw. destruct (lt_dec j (length dsts)) as [Hj|Hj].
      - destruct (HPj j Hj) as [o [Eo [Pm _]]]. eapply Permutation_in in Hw; [|exact Pm].
        apply filter_In in Hw. tauto.
      - unfold P in Hw. rewrite nth_overflow in Hw by lia. destruct Hw. }
    assert (Hn : forall j, j < length dsts ->
       nth_error (map (fun o => length (going np ranks o)) dsts) j = Some (length (P j))).
    { intros j Hj. destruct (HPj j Hj) as [o [Eo [Pm _]]]. rewrite nth_error_map, Eo. cbn. f_equal.
      apply Permutation_length. symmetry. auto. }
    (* the entries of the departing list *)
    assert (Hent0 : forall i, i < dp_num dp -> exists c l k,
      nth_error (dp_cells dp) i = Some c /\ nth_error (dp_layers_src dp) i = Some l /\
      nth_error (dp_layers_dst dp) i = Some k /\ In (c, l) (departures size rank np ranks)).
    { intros i Hi. destruct (nth_error_lt_some (dp_cells dp) i) as [c Ec]; [lia|].
      destruct (nth_error_lt_some (dp_layers_src dp) i) as [l El]; [lia|].
      destruct (nth_error_lt_some (dp_layers_dst dp) i) as [k Ek]; [lia|].
      exists c, l, k. repeat split; auto. eapply Permutation_in; [exact D4|]. apply (nth_error_In _ i).
      rewrite nth_error_comb, !nth_error_firstn. destruct (Nat.ltb_spec i (dp_num dp)); [|lia]. rewrite Ec, El. auto. }
    assert (Hent : forall i, i < dp_num dp -> exists c l k z o j,
      nth_error (dp_cells dp) i = Some c /\ nth_error (dp_layers_src dp) i = Some l /\ nth_error (dp_layers_dst dp) i = Some k /\
      rd2 ranks c l = Some z /\ z = Z.of_nat o /\ nth_error rank_map o = Some j /\ j < length dsts /\
      nth_error (P j) k = Some (c, l)).
    { intros i Hi. destruct (Hent0 i Hi) as [c [l [k [A [B [C Hd0]]]]]]. unfold departures in Hd0.
      apply filter_In in Hd0. destruct Hd0 as [Ha Hx]. apply existsb_exists in Hx. destruct Hx as [o [Ho1 Ho2]].
      apply (in_other size rank) in Ho1. destruct Ho1 as [Ho1 Ho3].
      assert (Hg : In o dsts).
      { apply Hcov; auto. intros Hg. assert (In (c, l) (going np ranks o)) by (apply filter_In; auto).
        rewrite Hg in *. auto. }
      apply In_nth_error in Hg. destruct Hg as [j Ej]. pose proof (nth_error_some_lt _ _ _ Ej) as Hj.
      destruct (HPj j Hj) as [o' [Eo' [_ Hk]]]. rewrite Ej in Eo'. injection Eo' as <-.
      pose proof Ho2 as Ho4. unfold names in Ho4. cbn [fst snd] in Ho4.
      destruct (rd2 ranks c l) as [z|] eqn:Ez; [|discriminate]. apply Z.eqb_eq in Ho4.
      exists c, l, k, z, o, j. repeat split; auto. apply (Hk i); auto. }
    assert (Hcv : forall j k c l, j < length dsts -> nth_error (P j) k = Some (c, l) -> exists i o,
      i < dp_num dp /\ nth_error (dp_cells dp) i = Some c /\ nth_error (dp_layers_src dp) i = Some l /\
      nth_error (dp_layers_dst dp) i = Some k /\
      rd2 ranks c l = Some (Z.of_nat o) /\ nth_error rank_map o = Some j).
    { intros j k c l Hj Hk. destruct (HPj j Hj) as [o [Eo [Pm Hk2]]].
      assert (Hg : In (c, l) (going np ranks o)) by (eapply Permutation_in; [exact Pm|]; eapply nth_error_In; eauto).
      apply filter_In in Hg. destruct Hg as [Ha Hnm].
      assert (Hdep : In (c, l) (departures size rank np ranks)).
      { apply filter_In. split; auto. apply existsb_exists. exists o. split; auto.
        apply (in_other size rank). apply Hin. eapply nth_error_In; eauto. }
      eapply Permutation_in in Hdep; [|symmetry; exact D4]. apply In_nth_error in Hdep. destruct Hdep as [i Ei].
      pose proof (nth_error_some_lt _ _ _ Ei) as Li. rewrite combine_length, !firstn_length in Li.
      rewrite nth_error_comb, !nth_error_firstn in Ei. destruct (Nat.ltb_spec i (dp_num dp)) as [Hi|]; [|discriminate].
      destruct (nth_error (dp_cells dp) i) as [c'|] eqn:Ec; [|discriminate].
      destruct (nth_error (dp_layers_src dp) i) as [l'|] eqn:El; [|discriminate]. injection Ei as -> ->.
      destruct (nth_error_lt_some (dp_layers_dst dp) i) as [k' Ek']; [lia|].
      pose proof (Hk2 i c l k' Hi Ec El Ek' Hnm) as Q.
      assert (k' = k).
      { eapply (NoDup_nth_inj (P j)); eauto. eapply Permutation_NoDup; [symmetry; exact Pm|].
        apply NoDup_filter, all_particles_nodup. }
      subst k'. pose proof Hnm as Hnm2. unfold names in Hnm2. cbn [fst snd] in Hnm2.
      destruct (rd2 ranks c l) as [z|] eqn:Ez; [|discriminate]. apply Z.eqb_eq in Hnm2. subst z.
      exists i, o. repeat split; auto. }
    assert (Ld : length dsts <= size).
    { rewrite <- (seq_length size 0). apply NoDup_incl_length; auto. intros o Ho1. apply in_seq. destruct (Hin o Ho1). lia. }
    destruct (pack_correct (e_dev e) Hd E EOk spR spZ g WF SR SZ ranks (length dsts) (dp_num dp) _ rank_map (dp_cells dp)
                (dp_layers_src dp) (dp_layers_dst dp) P HP Hn Hent Hcv (e_ubuf e) (e_buf0 e)) as [buf [Ep [Lb Hb]]]; [lia|].
    exists buf. eexists. split; [exact Ep|]. split.
    { apply (messages_correct E EOk spR spZ g WF SR SZ (length dsts) _ P HP Hn); [lia|auto]. }
    exists (map (fun j => map (pv g) (P j)) (seq 0 (length dsts))).
    split; [rewrite map_length, seq_length; auto|]. split.
    - apply nth_error_ext. intros j. rewrite nth_error_map, !nth_error_comb, !nth_error_map_seq, nth_error_map.
      destruct (Nat.ltb_spec j (length dsts)) as [Hj|Hj].
      + destruct (HPj j Hj) as [o [Eo [Pm _]]]. rewrite Eo. cbn [option_map]. unfold out_of. cbn [fst snd].
        rewrite map_length, Nat.add_0_l, (Permutation_length Pm). auto.
      + apply nth_error_None in Hj. rewrite Hj. auto.
    - intros j o ps Ej Es. rewrite nth_error_map_seq in Es. destruct (Nat.ltb_spec j (length dsts)) as [Hj|]; [|discriminate].
      injection Es as <-. destruct (HPj j Hj) as [o' [Eo' [Pm _]]]. rewrite Ej in Eo'. injection Eo' as <-.
      pose proof (Hin o (nth_error_In _ _ Ej)) as [A B].
      rewrite <- (going_pv g WF rid size rank ranks Hr Hrank o A B). apply Permutation_map. auto.
  Qed.

  (** Removing the departed particles. *)
  Lemma remove_departed cid rc dp : is_departing rc size rank np ranks dp -> cid < length (ints (st g)) ->
    (forall p, In p (particles g) -> wanted rid size rank p = rank -> exists z, nth_error (snd p) cid = Some z /\ (0 <= z)%Z) ->
    exists g1, remove_particles (e_dev e) cid g (map Z.of_nat (firstn (dp_num dp) (dp_cells dp)))
        (map Z.of_nat (firstn (dp_num dp) (dp_layers_src dp))) = Some g1 /\ wf_group g1 /\
      length (npart_cell g1) = length (npart_cell g) /\ length (reals (st g1)) = length (reals (st g)) /\
      length (ints (st g1)) = length (ints (st g)) /\
      forall c, c < length (npart_cell g) -> exists old new, cell_particles g c = Some old /\
        cell_particles g1 c = Some new /\ Permutation new (filter (fun p => wanted rid size rank p =? rank) old).
  Proof.
    intros [D1 [D2 [D3 [D4 _]]]] Hcid Hids.
    set (cells := firstn (dp_num dp) (dp_cells dp)) in *. set (layers := firstn (dp_num dp) (dp_layers_src dp)) in *.
    assert (Lc : length cells = dp_num dp) by (unfold cells; rewrite firstn_length; lia).
    assert (Ll : length layers = dp_num dp) by (unfold layers; rewrite firstn_length; lia).
    assert (Hl : forall c l, listed (map Z.of_nat cells) (map Z.of_nat layers) c l = true <-> In (c, l) (combine cells layers)).
    { intros c l. unfold listed. rewrite existsb_exists. split.
      - intros [[x y] [Hi Hx]]. apply andb_true_iff in Hx. destruct Hx as [H1 H2]. apply Z.eqb_eq in H1, H2. cbn [fst snd] in *. subst.
        apply In_nth_error in Hi. destruct Hi as [i Ei]. rewrite nth_error_comb, !nth_error_map in Ei.
        apply (nth_error_In _ i). rewrite nth_error_comb.
        destruct (nth_error cells i) as [a|]; [|discriminate]. destruct (nth_error layers i) as [b|]; [|discriminate].
        cbn in Ei. injection Ei as E1 E2. apply Nat2Z.inj in E1, E2. subst. auto.
      - intros Hi. exists (Z.of_nat c, Z.of_nat l). cbn [fst snd]. rewrite !Z.eqb_refl. split; auto.
        apply In_nth_error in Hi. destruct Hi as [i Ei]. rewrite nth_error_comb in Ei.
        apply (nth_error_In _ i). rewrite nth_error_comb, !nth_error_map.
        destruct (nth_error cells i) as [a|]; [|discriminate]. destruct (nth_error layers i) as [b|]; [|discriminate].
        cbn. injection Ei as -> ->. auto. }
    assert (Hl2 : forall c l, In (c, l) (all_particles np) ->
       negb (listed (map Z.of_nat cells) (map Z.of_nat layers) c l) = (wanted rid size rank (pv g (c, l)) =? rank)).
    { intros c l Hin. apply eq_true_iff_eq. rewrite negb_true_iff, <- not_true_iff_false, Hl.
      pose proof (departs_wanted g WF rid size rank ranks Hr Hrank (c, l) Hin) as Q.
      split.
      - intros Hn. destruct (wanted rid size rank (pv g (c, l)) =? rank); auto. exfalso. apply Hn.
        eapply Permutation_in; [symmetry; exact D4|]. apply filter_In. auto.
      - intros Hw Hn. eapply Permutation_in in Hn; [|exact D4]. apply filter_In in Hn. destruct Hn as [_ Hn].
        rewrite Q, Hw in Hn. discriminate. }
    destruct (remove_correct (e_dev e) R cid g (map Z.of_nat cells) (map Z.of_nat layers) Hd WF Hcid)
      as [g1 [Er [WF1 [A1 [A2 [A3 A4]]]]]].
    - split; [rewrite !map_length; lia|]. intros i c l n Hc Hla Hn.
      rewrite nth_error_map in Hc, Hla. destruct (nth_error cells i) as [c'|] eqn:Ec; [|discriminate].
      destruct (nth_error layers i) as [l'|] eqn:El; [|discriminate]. cbn in Hc, Hla.
      injection Hc as Hc. injection Hla as Hla. apply Nat2Z.inj in Hc, Hla. subst c' l'.
      assert (Hi : In (c, l) (combine cells layers)) by (apply (nth_error_In _ i); rewrite nth_error_comb, Ec, El; auto).
      eapply Permutation_in in Hi; [|exact D4]. apply filter_In in Hi. destruct Hi as [Hi _].
      apply in_all_particles in Hi. destruct Hi as [n' [En' Hl']]. unfold np in En'. congruence.
    - intros c l n Hc Hl' Hls. assert (Hin : In (c, l) (all_particles np)) by (apply in_all_particles; eauto).
      pose proof (Hl2 c l Hin) as Q. rewrite Hls in Q. cbn [negb] in Q. symmetry in Q. apply Nat.eqb_eq in Q.
      destruct (Hids (pv g (c, l))) as [z [Hz1 Hz2]]; auto.
      { rewrite (particles_pv g WF). apply in_map; auto. }
      exists z. split; auto. unfold cell_id_of. rewrite (vals_at_rd3 np (ints (st g)) c l cid); auto. apply WF.
    - exists g1. split; [auto|]. split; [auto|]. split; [auto|]. split; [auto|]. split; [auto|].
      intros c Hc. destruct (nth_error_lt_some _ _ Hc) as [n En]. destruct (A4 c n En) as [_ [ps [ps' [B1 [B2 B3]]]]].
      rewrite (cell_particles_vals g c WF Hc). eexists. exists ps'. split; [reflexivity|]. split; [auto|].
      rewrite B3. unfold cell_entries. rewrite (nth_error_nth _ _ 0 En), !map_map.
      match goal with |- Permutation _ ?x => assert (Eq : ps = x); [|rewrite Eq; auto] end.
      rewrite filter_map_comm.
      assert (B1' : mapM (particle_at (st g) c) (kept_layers (map Z.of_nat cells) (map Z.of_nat layers) c n) =
         Some (map (fun l => pv g (c, l)) (kept_layers (map Z.of_nat cells) (map Z.of_nat layers) c n))).
      { apply mapM_some. intros l Hlk. apply filter_In in Hlk. destruct Hlk as [Hlk _]. apply in_seq in Hlk.
        apply particle_at_vals; auto. apply in_all_particles. exists n. split; auto. cbn; lia. }
      rewrite B1 in B1'. injection B1' as ->. unfold kept_layers. f_equal. apply filter_ext_in. intros l Hlk.
      apply in_seq in Hlk. rewrite Hl2; auto. apply in_all_particles. exists n. split; auto. lia.
  Qed.

  (** *** GlobalMove *)
  Lemma global_send_correct cid : cid < length (ints (st g)) ->
    (forall p, In p (particles g) -> wanted rid size rank p = rank -> exists z, nth_error (snd p) cid = Some z /\ (0 <= z)%Z) ->
    exists g1 out, global_send E spR spZ e cid rid size rank g = Some (g1, out) /\ out_ok rid size rank g true out /\
      wf_group g1 /\
      length (npart_cell g1) = length (npart_cell g) /\ length (reals (st g1)) = length (reals (st g)) /\
      length (ints (st g1)) = length (ints (st g)) /\
      forall c, c < length (npart_cell g) -> exists old new, cell_particles g c = Some old /\
        cell_particles g1 c = Some new /\ Permutation new (filter (fun p => wanted rid size rank p =? rank) old).
  Proof.
    intros Hcid Hids. unfold global_send, rd. rewrite Hr. cbn [obind].
    destruct (identify_correct (e_dev e) Hd 0 size rank np ranks (has_rank g WF rid ranks Hr) ltac:(lia)) as [dp [Ei Dp]].
    fold np. rewrite Ei. cbn [obind].
    pose proof Dp as [D1 [D2 [D3 [D4 [D5 [D6 [D7 [D8 D9]]]]]]]]. destruct (D9 eq_refl) as [D10 D11].
    set (nr := dp_num_ranks dp) in *. set (dsts := firstn nr (dp_send_ranks dp)) in *.
    assert (Ld : length dsts = nr) by (unfold dsts; rewrite firstn_length; lia).
    assert (Hin : forall o, In o dsts -> o < size /\ o <> rank).
    { intros o Ho. eapply Permutation_in in Ho; [|exact D10]. apply filter_In in Ho. apply (in_other size rank). tauto. }
    assert (Hnz : forall o, In o dsts -> 0 < length (going np ranks o)).
    { intros o Ho. eapply Permutation_in in Ho; [|exact D10]. apply filter_In in Ho. destruct Ho as [_ Ho].
      apply negb_true_iff, Nat.eqb_neq in Ho. lia. }
    assert (Hcov : forall o, o < size -> o <> rank -> going np ranks o <> [] -> In o dsts).
    { intros o Ho Hn Hg. eapply Permutation_in; [symmetry; exact D10|]. apply filter_In.
      split; [apply (in_other size rank); auto|]. apply negb_true_iff, Nat.eqb_neq. destruct (going np ranks o); [congruence|cbn; lia]. }
    assert (ND : NoDup dsts).
    { eapply Permutation_NoDup; [symmetry; exact D10|]. apply NoDup_filter. unfold other_ranks. apply NoDup_filter, seq_NoDup. }
    assert (Hj : forall j, j < nr -> exists o, nth_error (dp_send_ranks dp) j = Some o /\ nth_error dsts j = Some o).
    { intros j Hj. destruct (nth_error_lt_some (dp_send_ranks dp) j) as [o Eo]; [lia|]. exists o. split; auto.
      unfold dsts. rewrite nth_error_firstn. destruct (Nat.ltb_spec j nr); [auto|lia]. }
    set (npart := map (fun o => length (going np ranks o)) dsts).
    assert (En : (if 0 <? nr then
                foldM (send_npart_item (dp_send_ranks dp) (dp_counts dp)) (fresh (e_dev e) 205 nr)
                  (ord (e_dev e) 205 (seq 0 nr))
              else Some (fresh (e_dev e) 205 nr)) = Some npart).
    { assert (Lf : length (fresh (e_dev e) 205 nr) = nr) by (apply fresh_length).
      destruct (Nat.ltb_spec 0 nr) as [Hn|Hn].
      - destruct (foldM_upd (send_npart_item (dp_send_ranks dp) (dp_counts dp)) (fun j => j)
                    (fun j => length (going np ranks (nth j dsts 0))) (ord (e_dev e) 205 (seq 0 nr)) (fresh (e_dev e) 205 nr))
          as [m [Ef [Lm [Wm Nm]]]].
        + intros m j Lm Hjs. apply (proj1 (in_ord _ _ _ _ Hd)) in Hjs. apply in_seq in Hjs.
          destruct (Hj j) as [o [E1 E2]]; [lia|]. unfold send_npart_item, rd. rewrite E1. cbn [obind].
          destruct (D6 o) as [Ec _]; [apply (in_other size rank), Hin; eapply nth_error_In; eauto|]. rewrite Ec. cbn [obind].
          rewrite (nth_error_nth _ _ _ E2). auto.
        + intros j Hjs. apply (proj1 (in_ord _ _ _ _ Hd)) in Hjs. apply in_seq in Hjs. lia.
        + intros; subst; auto.
        + rewrite Ef. f_equal. apply nth_error_ext. intros j. unfold npart. rewrite nth_error_map.
          destruct (lt_dec j nr) as [Hjn|Hjn].
          * destruct (Hj j Hjn) as [o [E1 E2]]. rewrite E2. cbn.
            rewrite (Wm j) by (apply (proj2 (in_ord _ _ _ _ Hd)), in_seq; lia).
            rewrite (nth_error_nth _ _ _ E2). auto.
          * rewrite (proj2 (nth_error_None m j)) by lia. rewrite (proj2 (nth_error_None dsts j)) by lia. auto.
      - assert (nr = 0) by lia. assert (dsts = []) by (apply length_zero_iff_nil; lia).
        unfold npart. replace dsts with (@nil nat). replace nr with 0. reflexivity. }
    rewrite En. cbn [obind].
    destruct (pack_dsts 0 dp dsts (dp_rank_map dp) npart Dp ND Hin Hcov) as [buf [msgs [Ep [Em [pss [Lp [Ec Hp]]]]]]]; auto.
    { intros j o Ejo. pose proof (nth_error_some_lt _ _ _ Ejo). apply D11; [lia|].
      destruct (Hj j) as [o' [E1 E2]]; [lia|]. congruence. }
    rewrite <- Ld, Ep. cbn [obind]. rewrite Ld.
    rewrite (mapM_some _ (fun _ => tt)).
    2:{ intros j Hjs. apply in_seq in Hjs. destruct (Hj j) as [o [E1 E2]]; [lia|]. unfold send_ok, rd. rewrite E1. cbn [obind].
        unfold npart. rewrite nth_error_map, E2. cbn [option_map obind].
        destruct (Hin o (nth_error_In _ _ E2)) as [A _]. pose proof (Hnz o (nth_error_In _ _ E2)).
        destruct (Nat.ltb_spec o size); [|lia]. destruct (Nat.ltb_spec 0 (length (going np ranks o))); [|lia]. auto. }
    cbn [obind]. rewrite <- Ld, Em. cbn [obind]. rewrite Ld.
    destruct (remove_departed cid 0 dp Dp Hcid Hids) as [g1 [Er [WF1 [A1 [A2 [A3 A4]]]]]].
    rewrite Er. cbn [obind].
    assert (Ed : mapM (fun i => nth_error (dp_send_ranks dp) i) (seq 0 nr) = Some dsts).
    { rewrite (mapM_some _ (fun j => nth j dsts 0)).
      - f_equal. apply nth_error_ext. intros j. rewrite nth_error_map_seq. destruct (Nat.ltb_spec j nr) as [Hjn|Hjn].
        + destruct (Hj j Hjn) as [o [E1 E2]]. rewrite Nat.add_0_l, E2, (nth_error_nth _ _ _ E2). auto.
        + symmetry. apply nth_error_None. lia.
      - intros j Hjs. apply in_seq in Hjs. destruct (Hj j) as [o [E1 E2]]; [lia|]. rewrite E1, (nth_error_nth _ _ _ E2). auto. }
    rewrite Ed. cbn [obind]. exists g1. eexists. split; [reflexivity|]. split; [|auto 10].
    exists (combine dsts pss). split; [auto|].
    assert (Ef : map fst (combine dsts pss) = dsts).
    { apply map_fst_combine. lia. }
    rewrite Ef. split; [auto|]. split.
    - intros o ps Hi. apply In_nth_error in Hi. destruct Hi as [j Ejc]. rewrite nth_error_comb in Ejc.
      destruct (nth_error dsts j) as [o'|] eqn:Eo; [|discriminate]. destruct (nth_error pss j) as [ps'|] eqn:Es; [|discriminate].
      injection Ejc as -> ->. destruct (Hin o (nth_error_In _ _ Eo)) as [A B]. split; [auto|]. split; [auto|]. split; [eauto|].
      intros _ ->. pose proof (Hp j o [] Eo Es) as Q. apply Permutation_length in Q.
      rewrite <- (going_pv g WF rid size rank ranks Hr Hrank o A B), map_length in Q. cbn [length] in Q.
      pose proof (Hnz o (nth_error_In _ _ Eo)) as Q2. unfold np in Q2. lia.
    - intros o Ho Hn Hni. rewrite <- (going_pv g WF rid size rank ranks Hr Hrank o Ho Hn).
      destruct (going (npart_cell g) ranks o) eqn:Eg; auto. exfalso. apply Hni, Hcov; auto. unfold np. congruence.
  Qed.

  (** *** LocalMove *)
  Lemma rank_map_correct send_ranks : NoDup send_ranks -> (forall o, In o send_ranks -> o < size) ->
    exists m, local_rank_map (e_dev e) size send_ranks = Some m /\
      forall j o, nth_error send_ranks j = Some o -> nth_error m o = Some j.
  Proof.
    intros ND Hin. unfold local_rank_map.
    destruct (foldM_upd (fun m rankx => rank <- rd send_ranks rankx ;; upd m rank rankx) (fun j => nth j send_ranks 0)
                (fun j => j) (seq 0 (length send_ranks)) (fresh (e_dev e) 206 size)) as [m [Ef [Lm [Wm _]]]].
    - intros m j _ Hj. apply in_seq in Hj. unfold rd. destruct (nth_error_lt_some send_ranks j) as [o Eo]; [lia|].
      rewrite Eo, (nth_error_nth _ _ _ Eo). auto.
    - intros j Hj. apply in_seq in Hj. rewrite fresh_length. apply Hin, nth_In. lia.
    - intros a b Ha Hb Hab. apply in_seq in Ha, Hb. apply (proj1 (NoDup_nth send_ranks 0) ND); lia.
    - exists m. split; auto. intros j o Ej. pose proof (nth_error_some_lt _ _ _ Ej).
      pose proof (Wm j ltac:(apply in_seq; lia)) as Q. rewrite (nth_error_nth _ _ _ Ej) in Q. auto.
  Qed.

  Lemma zero_counts_correct send_ranks (counts : list nat) : (forall o, In o send_ranks -> o < length counts) ->
    exists m, foldM (fun m rankx => rank <- rd send_ranks rankx ;; upd m rank 0) counts (seq 0 (length send_ranks)) = Some m /\
      length m = length counts /\ (forall o, In o send_ranks -> nth_error m o = Some 0) /\
      (forall o, ~ In o send_ranks -> nth_error m o = nth_error counts o).
  Proof.
    intros Hin.
    destruct (foldM_upd (fun m rankx => rank <- rd send_ranks rankx ;; upd m rank 0) (fun j => nth j send_ranks 0)
                (fun j => 0) (seq 0 (length send_ranks)) counts) as [m [Ef [Lm [Wm Nm]]]].
    - intros m j _ Hj. apply in_seq in Hj. unfold rd. destruct (nth_error_lt_some send_ranks j) as [o Eo]; [lia|].
      rewrite Eo, (nth_error_nth _ _ _ Eo). auto.
    - intros j Hj. apply in_seq in Hj. apply Hin, nth_In. lia.
    - auto.
    - exists m. split; auto. split; auto. split.
      + intros o Ho. apply In_nth_error in Ho. destruct Ho as [j Ej]. pose proof (nth_error_some_lt _ _ _ Ej).
        pose proof (Wm j ltac:(apply in_seq; lia)) as Q. rewrite (nth_error_nth _ _ _ Ej) in Q. auto.
      + intros o Ho. apply Nm. intros j Hj Heq. apply in_seq in Hj. apply Ho. rewrite <- Heq. apply nth_In. lia.
  Qed.

  (** Whether the check for unreachable ranks passes. *)
  Lemma reach_check send_ranks dp rc m : is_departing rc size rank np ranks dp ->
    (forall o, In o send_ranks -> o < size /\ o <> rank) ->
    length m = length (dp_counts dp) -> (forall o, In o send_ranks -> nth_error m o = Some 0) ->
    (forall o, ~ In o send_ranks -> nth_error m o = nth_error (dp_counts dp) o) ->
    forallb (fun rank => match rd m rank with Some n => n =? 0 | None => false end) (seq 0 size) = true <->
    (forall p, In p (particles g) -> wanted rid size rank p <> rank -> In (wanted rid size rank p) send_ranks).
  Proof.
    intros [D1 [D2 [D3 [D4 [D5 [D6 [D7 _]]]]]]] Hin Lm H0 H1. rewrite forallb_forall.
    assert (Hw : forall p, In p (particles g) -> wanted rid size rank p < size).
    { intros p _. unfold wanted. destruct (nth_error (snd p) rid) as [z|]; [|lia].
      destruct (Z.leb_spec 0 z), (Z.ltb_spec z (Z.of_nat size)); cbn [andb]; lia. }
    split.
    - intros Ha p Hp Hne. destruct (in_dec Nat.eq_dec (wanted rid size rank p) send_ranks) as [|Hni]; auto. exfalso.
      pose proof (Hw p Hp) as Hlt. specialize (Ha (wanted rid size rank p)).
      rewrite (H1 _ Hni) in Ha || (unfold rd in Ha; rewrite (H1 _ Hni) in Ha).
      destruct (D6 (wanted rid size rank p)) as [Ec _]; [apply (in_other size rank); auto|].
      rewrite Ec in Ha. assert (Q : length (going np ranks (wanted rid size rank p)) =? 0 = true) by (apply Ha, in_seq; lia).
      apply Nat.eqb_eq in Q. apply length_zero_iff_nil in Q.
      pose proof (going_pv g WF rid size rank ranks Hr Hrank (wanted rid size rank p) Hlt Hne) as G. fold np in G. rewrite Q in G.
      cbn in G. assert (In p []); [|auto]. rewrite G. apply filter_In. rewrite Nat.eqb_refl. auto.
    - intros Hall o Ho. apply in_seq in Ho. unfold rd. destruct (in_dec Nat.eq_dec o send_ranks) as [Hi|Hni].
      + rewrite (H0 _ Hi). auto.
      + rewrite (H1 _ Hni). destruct (Nat.eq_dec o rank) as [->|Hne].
        * rewrite D7. destruct (Nat.ltb_spec rank size); [auto|lia].
        * destruct (D6 o) as [Ec _]; [apply (in_other size rank); split; [lia|auto]|]. rewrite Ec. apply Nat.eqb_eq.
          rewrite <- (map_length (pv g)). unfold np. rewrite (going_pv g WF rid size rank ranks Hr Hrank o) by lia.
          apply length_zero_iff_nil. destruct (filter (fun p => wanted rid size rank p =? o) (particles g)) as [|p l] eqn:Ef; auto.
          exfalso. assert (Hp : In p (p :: l)) by (left; auto). rewrite <- Ef in Hp. apply filter_In in Hp.
          destruct Hp as [Hp1 Hp2]. apply Nat.eqb_eq in Hp2. apply Hni. rewrite <- Hp2. apply Hall; auto. lia.
  Qed.

  Lemma local_send_correct cid send_ranks : NoDup send_ranks -> (forall o, In o send_ranks -> o < size /\ o <> rank) ->
    (forall p, In p (particles g) -> wanted rid size rank p <> rank -> In (wanted rid size rank p) send_ranks) ->
    cid < length (ints (st g)) ->
    (forall p, In p (particles g) -> wanted rid size rank p = rank -> exists z, nth_error (snd p) cid = Some z /\ (0 <= z)%Z) ->
    exists g1 out, local_send E spR spZ e cid rid size rank send_ranks g = Some (g1, out) /\
      out_ok rid size rank g false out /\ wf_group g1 /\
      length (npart_cell g1) = length (npart_cell g) /\ length (reals (st g1)) = length (reals (st g)) /\
      length (ints (st g1)) = length (ints (st g)) /\
      forall c, c < length (npart_cell g) -> exists old new, cell_particles g c = Some old /\
        cell_particles g1 c = Some new /\ Permutation new (filter (fun p => wanted rid size rank p =? rank) old).
  Proof.
    intros ND Hin Hreach Hcid Hids. unfold local_send.
    assert (Er0 : rd (ints (st g)) rid = Some ranks) by exact Hr. rewrite Er0. cbn [obind].
    destruct (rank_map_correct send_ranks ND) as [rm [Erm Hrm]]; [intros o Ho; apply (Hin o Ho)|]. rewrite Erm. cbn [obind].
    destruct (identify_correct (e_dev e) Hd 1 size rank np ranks (has_rank g WF rid ranks Hr) ltac:(lia)) as [dp [Ei Dp]].
    fold np. rewrite Ei. cbn [obind].
    pose proof Dp as [D1 [D2 [D3 [D4 [D5 [D6 [D7 [D8 D9]]]]]]]].
    set (npart := map (fun o => length (going np ranks o)) send_ranks).
    assert (En : mapM (fun rankx => rank <- rd send_ranks rankx ;; rd (dp_counts dp) rank) (seq 0 (length send_ranks)) = Some npart).
    { rewrite (mapM_some _ (fun j => length (going np ranks (nth j send_ranks 0)))).
      - f_equal. apply nth_error_ext. intros j. unfold npart. rewrite nth_error_map_seq, nth_error_map.
        destruct (Nat.ltb_spec j (length send_ranks)) as [Hj|Hj].
        + destruct (nth_error_lt_some _ _ Hj) as [o Eo]. rewrite Nat.add_0_l, Eo, (nth_error_nth _ _ _ Eo). auto.
        + apply nth_error_None in Hj. rewrite Hj. auto.
      - intros j Hj. apply in_seq in Hj. destruct (nth_error_lt_some send_ranks j) as [o Eo]; [lia|].
        unfold rd. rewrite Eo, (nth_error_nth _ _ _ Eo). cbn [obind].
        apply (D6 o). apply (in_other size rank), Hin. eapply nth_error_In; eauto. }
    rewrite En. cbn [obind].
    destruct (zero_counts_correct send_ranks (dp_counts dp)) as [m [Em [Lm [M0 M1]]]].
    { intros o Ho. rewrite D5. apply (Hin o Ho). }
    rewrite Em. cbn [obind]. rewrite (proj2 (reach_check send_ranks dp 1 m Dp Hin Lm M0 M1) Hreach). cbn [assert obind].
    destruct (pack_dsts 1 dp send_ranks rm npart Dp ND Hin) as [buf [msgs [Ep [Emm [pss [Lp [Ec Hp]]]]]]]; auto.
    { intros o Ho Hn Hg. destruct (going np ranks o) as [|w l] eqn:Eg; [congruence|].
      assert (Hw : In (pv g w) (map (pv g) (going np ranks o))) by (rewrite Eg; left; auto).
      unfold np in Hw. rewrite (going_pv g WF rid size rank ranks Hr Hrank o Ho Hn) in Hw. apply filter_In in Hw.
      destruct Hw as [Hw1 Hw2]. apply Nat.eqb_eq in Hw2. rewrite <- Hw2. apply Hreach; auto. lia. }
    rewrite Ep. cbn [obind]. rewrite Emm. cbn [obind].
    destruct (remove_departed cid 1 dp Dp Hcid Hids) as [g1 [Er [WF1 [A1 [A2 [A3 A4]]]]]].
    rewrite Er. cbn [obind]. exists g1. eexists. split; [reflexivity|]. split; [|auto 10].
    exists (combine send_ranks pss). split; [auto|]. rewrite map_fst_combine by lia. split; [auto|]. split.
    - intros o ps Hi. apply In_nth_error in Hi. destruct Hi as [j Ejc]. rewrite nth_error_comb in Ejc.
      destruct (nth_error send_ranks j) as [o'|] eqn:Eo; [|discriminate]. destruct (nth_error pss j) as [ps'|] eqn:Es; [|discriminate].
      injection Ejc as -> ->. destruct (Hin o (nth_error_In _ _ Eo)) as [A B]. split; [auto|]. split; [auto|]. split; [eauto|].
      discriminate.
    - intros o Ho Hn Hni. destruct (filter (fun p => wanted rid size rank p =? o) (particles g)) as [|p l] eqn:Ef; auto.
      exfalso. assert (Hp1 : In p (p :: l)) by (left; auto). rewrite <- Ef in Hp1. apply filter_In in Hp1.
      destruct Hp1 as [Hp1 Hp2]. apply Nat.eqb_eq in Hp2. apply Hni. rewrite <- Hp2. apply Hreach; auto. lia.
  Qed.

  (** A particle for an unreachable rank is reported. *)
  Lemma local_send_unreachable cid send_ranks p : NoDup send_ranks -> (forall o, In o send_ranks -> o < size /\ o <> rank) ->
    In p (particles g) -> wanted rid size rank p <> rank -> ~ In (wanted rid size rank p) send_ranks ->
    local_send E spR spZ e cid rid size rank send_ranks g = None.
  Proof.
    intros ND Hin Hp Hw Hni. unfold local_send.
    assert (Er0 : rd (ints (st g)) rid = Some ranks) by exact Hr. rewrite Er0. cbn [obind].
    destruct (rank_map_correct send_ranks ND) as [rm [Erm Hrm]]; [intros o Ho; apply (Hin o Ho)|]. rewrite Erm. cbn [obind].
    destruct (identify_correct (e_dev e) Hd 1 size rank np ranks (has_rank g WF rid ranks Hr) ltac:(lia)) as [dp [Ei Dp]].
    fold np. rewrite Ei. cbn [obind]. pose proof Dp as [D1 [D2 [D3 [D4 [D5 _]]]]].
    destruct (mapM _ (seq 0 (length send_ranks))); [|auto]. cbn [obind].
    destruct (zero_counts_correct send_ranks (dp_counts dp)) as [m [Em [Lm [M0 M1]]]].
    { intros o Ho. rewrite D5. apply (Hin o Ho). }
    rewrite Em. cbn [obind].
    destruct (forallb (fun rank => match rd m rank with Some n => n =? 0 | None => false end) (seq 0 size)) eqn:Ef; auto.
    exfalso. apply Hni. apply (proj1 (reach_check send_ranks dp 1 m Dp Hin Lm M0 M1) Ef); auto.
  Qed.
End Send.

(** ** The neighbour list *)
Lemma set_insert_in a l o : In o (set_insert a l) <-> o = a \/ In o l.
Proof.
  induction l as [|b l IH]; cbn [set_insert In]; [intuition|].
  destruct (Nat.ltb_spec a b); [cbn; intuition|]. destruct (Nat.eqb_spec a b) as [->|]; [cbn; intuition|].
  cbn [In]. rewrite IH. intuition.
Qed.

Fixpoint increasing (l : list nat) : Prop :=
  match l with [] => True | a :: t => (forall b, In b t -> a < b) /\ increasing t end.

Lemma set_insert_increasing a l : increasing l -> increasing (set_insert a l).
Proof.
  induction l as [|b l IH]; cbn [set_insert increasing]; intros H; [cbn; intuition|].
  destruct H as [H1 H2]. destruct (Nat.ltb_spec a b).
  - cbn [increasing]. split; [|split; auto]. intros x [<-|Hx]; [auto|]. specialize (H1 x Hx). lia.
  - destruct (Nat.eqb_spec a b); [cbn; auto|]. cbn [increasing]. split; [|auto].
    intros x Hx. apply set_insert_in in Hx. destruct Hx as [->|Hx]; [lia|auto].
Qed.

Lemma increasing_nodup l : increasing l -> NoDup l.
Proof.
  induction l as [|a l IH]; intros H; constructor; destruct H as [H1 H2]; auto. intros Ha. specialize (H1 a Ha). lia.
Qed.

Lemma local_send_ranks_correct size rank zs : (forall z, In z zs -> (0 <= z < Z.of_nat size)%Z) ->
  exists sr, local_send_ranks size rank zs = Some sr /\ NoDup sr /\
    forall o, In o sr <-> o <> rank /\ In (Z.of_nat o) zs.
Proof.
  intros Hz. unfold local_send_ranks.
  destruct (foldM_ind (fun set remote_rank =>
      _ <- assert ((0 <=? remote_rank) && (remote_rank <? Z.of_nat size))%Z ;;
      Some (if (remote_rank =? Z.of_nat rank)%Z then set else set_insert (Z.to_nat remote_rank) set))
    (fun pre (sr : list nat) => increasing sr /\ forall o, In o sr <-> o <> rank /\ In (Z.of_nat o) pre) zs [])
    as [sr [Ef [Hi Hs]]].
  - split; [cbn; auto|]. cbn. tauto.
  - intros pre z post sr Ez [Hi Hs].
    assert (Hzz : (0 <= z < Z.of_nat size)%Z) by (apply Hz; rewrite Ez; apply in_or_app; right; left; auto).
    destruct (Z.leb_spec 0 z); [|lia]. destruct (Z.ltb_spec z (Z.of_nat size)); [|lia]. cbn [andb assert obind].
    eexists; split; [reflexivity|]. destruct (Z.eqb_spec z (Z.of_nat rank)) as [->|Hne].
    + split; auto. intros o. rewrite Hs, in_app_iff. cbn [In]. split; [tauto|]. intros [A [B|[B|[]]]]; [auto|].
      apply Nat2Z.inj in B. congruence.
    + split; [apply set_insert_increasing; auto|]. intros o. rewrite set_insert_in, Hs, in_app_iff. cbn [In]. split.
      * intros [->|[A B]]; [|tauto]. split; [lia|]. right. left. lia.
      * intros [A [B|[B|[]]]]; [tauto|]. left. lia.
  - exists sr. split; auto. split; auto using increasing_nodup.
Qed.

Lemma local_send_ranks_bad size rank zs z : In z zs -> ~ (0 <= z < Z.of_nat size)%Z -> local_send_ranks size rank zs = None.
Proof.
  intros Hin Hz. unfold local_send_ranks. generalize (@nil nat). induction zs as [|a zs IH]; intros sr; [destruct Hin|].
  cbn [foldM]. destruct Hin as [->|Hin].
  - destruct (Z.leb_spec 0 z), (Z.ltb_spec z (Z.of_nat size)); cbn [andb assert obind]; auto. lia.
  - destruct (Z.leb_spec 0 a), (Z.ltb_spec a (Z.of_nat size)); cbn [andb assert obind]; auto.
Qed.

(** ** What a rank receives *)
Section Recv.
  Context {R byte : Type} (E : encoding R byte) (EOk : encoding_ok E) (spR spZ : pspec).
  Context (e : rank_env R byte) (Hd : device_ok (e_dev e)).
  Context (g : group R) (WF : wf_group g) (SR : spec_of spR (reals (st g))) (SZ : spec_of spZ (ints (st g))).
  Context (Hc : 0 < length (npart_cell g)).

  Lemma recv_common (qs : list (nat * list (particle R))) :
    (forall s ps p, In (s, ps) qs -> In p ps -> full spR spZ p) ->
    exists g', (r <- unpack_reset E spR spZ (map (fun m => fst (snd m)) (map (out_of E) qs)) (length (map (out_of E) qs)) ;;
                recv <- receive_messages E spR spZ (e_hrecv e) (fst r) (snd r) (map (fun m => snd (snd m)) (map (out_of E) qs)) ;;
                unpack (e_dev e) E spR spZ (e_uR e) (e_uZ e) (snd r) recv g) = Some g' /\ wf_group g' /\
      length (npart_cell g') = length (npart_cell g) /\
      length (reals (st g')) = length (reals (st g)) /\ length (ints (st g')) = length (ints (st g)) /\
      forall c, c < length (npart_cell g) -> exists old, cell_particles g c = Some old /\
        cell_particles g' c = Some (old ++ if c =? 0 then flat_map snd qs else []).
  Proof.
    intros Fu. set (pss := map snd qs).
    assert (Fp : forall ps p, In ps pss -> In p ps -> full spR spZ p).
    { intros ps p Hp Hi. apply in_map_iff in Hp. destruct Hp as [[s ps'] [<- Hq]]. eapply Fu; eauto. }
    rewrite map_length, !map_map. replace (length qs) with (length pss) by (unfold pss; apply map_length).
    rewrite (unpack_reset_correct E spR spZ _ pss).
    2:{ unfold pss. rewrite map_map. apply map_ext. intros [s ps]. auto. }
    cbn [obind fst snd].
    unfold out_of. cbn [fst snd]. rewrite <- (map_map (@snd nat (list (particle R))) (wire E)). fold pss.
    rewrite (receive_correct E EOk spR spZ (e_hrecv e) pss Fp). cbn [obind].
    rewrite flat_map_concat_map. fold pss.
    apply (unpack_correct (e_dev e) Hd E EOk spR spZ (e_uR e) (e_uZ e) g (concat pss)); auto.
    intros p Hp. apply in_concat in Hp. destruct Hp as [ps [A B]]. eauto.
  Qed.

  Lemma out_lengths (qs : list (nat * list (particle R))) : (forall s ps p, In (s, ps) qs -> In p ps -> full spR spZ p) ->
    forall m, In m (map snd (map (out_of E) qs)) -> length (snd m) = fst m * bytes_per_particle E spR spZ.
  Proof.
    intros Fu m Hm. rewrite map_map in Hm. apply in_map_iff in Hm. destruct Hm as [[s ps] [<- Hq]].
    unfold out_of. cbn [fst snd]. apply wire_len; auto. intros p Hp. eapply Fu; eauto.
  Qed.

  Lemma global_recv_correct (qs : list (nat * list (particle R))) :
    (forall s ps p, In (s, ps) qs -> In p ps -> full spR spZ p) -> (forall s ps, In (s, ps) qs -> ps <> []) ->
    exists g', global_recv E spR spZ e (map (out_of E) qs) g = Some g' /\ wf_group g' /\
      length (npart_cell g') = length (npart_cell g) /\
      length (reals (st g')) = length (reals (st g)) /\ length (ints (st g')) = length (ints (st g)) /\
      forall c, c < length (npart_cell g) -> exists old, cell_particles g c = Some old /\
        cell_particles g' c = Some (old ++ if c =? 0 then flat_map snd qs else []).
  Proof.
    intros Fu Ne. destruct (recv_common qs Fu) as [g' [E1 E2]]. exists g'. split; [|auto].
    unfold global_recv.
    assert (A1 : forallb (fun n => 0 <? n) (map (fun m => fst (snd m)) (map (out_of E) qs)) = true).
    { apply forallb_forall. intros n Hn. rewrite map_map in Hn. apply in_map_iff in Hn. destruct Hn as [[s ps] [<- Hq]].
      unfold out_of. cbn [fst snd]. apply Nat.ltb_lt. pose proof (Ne s ps Hq). destruct ps; [congruence|cbn; lia]. }
    rewrite A1. cbn [assert obind].
    assert (A2 : forallb (fun m => length (snd m) =? fst m * bytes_per_particle E spR spZ) (map snd (map (out_of E) qs)) = true).
    { apply forallb_forall. intros m Hm. apply Nat.eqb_eq. eapply out_lengths; eauto. }
    rewrite A2. destruct (unpack_reset _ _ _ _ _) as [r|]; [|discriminate]. cbn [assert obind] in *. auto.
  Qed.

  Lemma local_recv_correct (qs : list (nat * list (particle R))) :
    (forall s ps p, In (s, ps) qs -> In p ps -> full spR spZ p) ->
    exists g', local_recv E spR spZ e (map (out_of E) qs) g = Some g' /\ wf_group g' /\
      length (npart_cell g') = length (npart_cell g) /\
      length (reals (st g')) = length (reals (st g)) /\ length (ints (st g')) = length (ints (st g)) /\
      forall c, c < length (npart_cell g) -> exists old, cell_particles g c = Some old /\
        cell_particles g' c = Some (old ++ if c =? 0 then flat_map snd qs else []).
  Proof.
    intros Fu. destruct (recv_common qs Fu) as [g' [E1 E2]]. exists g'. split; [|auto].
    unfold local_recv.
    assert (A2 : forallb (fun m => length (snd m) <=? fst m * bytes_per_particle E spR spZ) (map snd (map (out_of E) qs)) = true).
    { apply forallb_forall. intros m Hm. apply Nat.leb_le. rewrite (out_lengths qs Fu m Hm). auto. }
    rewrite A2.
    replace (map (fun m : nat * (nat * list byte) => if 0 <? fst (snd m) then snd (snd m) else []) (map (out_of E) qs))
      with (map (fun m : nat * (nat * list byte) => snd (snd m)) (map (out_of E) qs)).
    2:{ rewrite !map_map. apply map_ext. intros [s ps]. unfold out_of. cbn [fst snd]. destruct ps; auto. }
    destruct (unpack_reset _ _ _ _ _) as [r|]; [|discriminate]. cbn [assert obind] in *. auto.
  Qed.
End Recv.
