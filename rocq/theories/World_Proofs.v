(** One move on all ranks. *)
From Coq Require Import List Arith ZArith Lia Permutation Bool.
Import ListNotations.
From Verif Require Import Base Kernel Group_Model Group_Spec Group_Proofs Compress_Model Compress_Proofs Add_Model Add_Spec
  Pack_Model Pack_Spec Pack_Proofs Unpack_Proofs Exchange_Model Exchange_Spec Exchange_Proofs.

Lemma concat_perm {A} (l l' : list (list A)) : length l = length l' ->
  (forall j a b, nth_error l j = Some a -> nth_error l' j = Some b -> Permutation a b) -> Permutation (concat l) (concat l').
Proof.
  revert l'. induction l as [|a l IH]; intros [|b l'] L H; try discriminate; cbn; auto.
  apply Permutation_app; [apply (H 0); auto|]. apply IH; [cbn in L; lia|]. intros j. apply (H (S j)).
Qed.

Lemma flat_map_concat2 {A B} (f : A -> list B) l : flat_map f (concat l) = concat (map (flat_map f) l).
Proof. induction l as [|a l IH]; cbn; auto. rewrite flat_map_app, IH. auto. Qed.

Lemma mapM_all {A B} (f : A -> option B) (l : list A) : (forall i a, nth_error l i = Some a -> exists b, f a = Some b) ->
  exists r, mapM f l = Some r.
Proof. intros H. apply mapM_total. intros a Ha. apply In_nth_error in Ha. destruct Ha as [i Hi]. eauto. Qed.

Lemma nth_error_index {A} (l : list A) r x : nth_error l r = Some x -> nth_error (combine (seq 0 (length l)) l) r = Some (r, x).
Proof.
  intros H. rewrite nth_error_comb. pose proof (nth_error_some_lt _ _ _ H).
  rewrite (nth_error_nth' _ 0) by (rewrite seq_length; lia). rewrite seq_nth by lia. rewrite H. auto.
Qed.

Lemma index_nth_error {A} (l : list A) n i r x : nth_error (combine (seq 0 n) l) i = Some (r, x) -> r = i /\ nth_error l r = Some x.
Proof.
  rewrite nth_error_comb. destruct (nth_error (seq 0 n) i) as [j|] eqn:Ej; [|discriminate].
  pose proof (nth_error_some_lt _ _ _ Ej) as H. rewrite seq_length in H.
  rewrite (nth_error_nth' _ 0) in Ej by (rewrite seq_length; lia). rewrite seq_nth in Ej by lia. injection Ej as <-.
  destruct (nth_error l i) eqn:El; [|discriminate]. intros [= <- <-]. auto.
Qed.

(** The messages of the ranks [out_of] the lists [qss]. *)
Section World.
  Context {R byte : Type} (E : encoding R byte) (EOk : encoding_ok E) (spR spZ : pspec).

  Definition tagged (r s : nat) (qs : list (nat * list (particle R))) : list (nat * list (particle R)) :=
    map (fun q => (s, snd q)) (filter (fun q => fst q =? r) qs).

  Lemma inbox_tagged r qss : inbox r (map (map (out_of E)) qss) = map (out_of E) (concat (mapi (tagged r) qss)).
  Proof.
    unfold inbox. rewrite concat_map. f_equal. apply nth_error_ext. intros s.
    rewrite nth_error_map, !nth_error_mapi, nth_error_map. destruct (nth_error qss s) as [qs|]; cbn [option_map]; auto. f_equal.
    unfold tagged. rewrite map_map. induction qs as [|q qs IH]; auto. cbn [map filter]. unfold out_of at 1 2. cbn [fst snd].
    destruct (fst q =? r); cbn [map]; rewrite IH; auto.
  Qed.

  Lemma tagged_perm r s qs rid size (g : group R) pos : r < size -> r <> s ->
    NoDup (map fst qs) ->
    (forall o ps, In (o, ps) qs -> o < size /\ o <> s /\
         Permutation ps (filter (fun p => wanted rid size s p =? o) (particles g)) /\ (pos = true -> ps <> [])) ->
    (forall o, o < size -> o <> s -> ~ In o (map fst qs) -> filter (fun p => wanted rid size s p =? o) (particles g) = []) ->
    Permutation (flat_map snd (tagged r s qs)) (filter (fun p => wanted rid size s p =? r) (particles g)).
  Proof.
    intros Hr Hne ND H1 H2. unfold tagged. destruct (in_dec Nat.eq_dec r (map fst qs)) as [Hi|Hni].
    - apply in_map_iff in Hi. destruct Hi as [[o ps] [Ho Hi]]. cbn in Ho. subst o.
      rewrite (filter_key _ _ _ ND Hi). cbn [map flat_map snd]. rewrite app_nil_r. apply (H1 _ _ Hi).
    - rewrite (filter_key_none _ _ Hni), H2; auto.
  Qed.

  Lemma tagged_self r qs : ~ In r (map fst qs) -> tagged r r qs = [].
  Proof. intros H. unfold tagged. rewrite (filter_key_none _ _ H). auto. Qed.

  Context (send : nat -> group R -> option (group R * list (nat * message (byte:=byte))))
          (recv : nat -> list (nat * message (byte:=byte)) -> group R -> option (group R)).
  Context (rid : nat) (gs : list (group R)) (pos : bool).
  Let size := length gs.
  Context (Hsend : forall r g, nth_error gs r = Some g -> exists g1 out, send r g = Some (g1, out) /\
      out_ok E rid size r g pos out /\ wf_group g1 /\
      length (npart_cell g1) = length (npart_cell g) /\ length (reals (st g1)) = length (reals (st g)) /\
      length (ints (st g1)) = length (ints (st g)) /\
      forall c, c < length (npart_cell g) -> exists old new, cell_particles g c = Some old /\
        cell_particles g1 c = Some new /\ Permutation new (filter (fun p => wanted rid size r p =? r) old)).
  Context (Hrecv : forall r g g1 qs, nth_error gs r = Some g -> wf_group g1 ->
      length (npart_cell g1) = length (npart_cell g) -> length (reals (st g1)) = length (reals (st g)) ->
      length (ints (st g1)) = length (ints (st g)) ->
      (forall s ps p, In (s, ps) qs -> In p ps -> full spR spZ p) -> (forall s ps, In (s, ps) qs -> pos = true -> ps <> []) ->
      exists g', recv r (map (out_of E) qs) g1 = Some g' /\ wf_group g' /\
      length (npart_cell g') = length (npart_cell g1) /\
      length (reals (st g')) = length (reals (st g1)) /\ length (ints (st g')) = length (ints (st g1)) /\
      forall c, c < length (npart_cell g1) -> exists old, cell_particles g1 c = Some old /\
        cell_particles g' c = Some (old ++ if c =? 0 then flat_map snd qs else [])).
  Context (arr : nat -> list (nat * message (byte:=byte)) -> list (nat * message (byte:=byte))) (Harr : forall r l, Permutation (arr r l) l).
  Context (Hfull : forall s g p, nth_error gs s = Some g -> In p (particles g) -> full spR spZ p).

  Lemma exchange_correct : exists gs', exchange send recv arr gs = Some gs' /\ exchanged rid gs gs' /\
    forall r g g', nth_error gs r = Some g -> nth_error gs' r = Some g' -> wf_group g' /\
      length (reals (st g')) = length (reals (st g)) /\ length (ints (st g')) = length (ints (st g)).
  Proof.
    unfold exchange.
    destruct (mapM_all (fun p => send (fst p) (snd p)) (combine (seq 0 (length gs)) gs)) as [sent Es].
    { intros i [r g] Hi. apply index_nth_error in Hi. destruct Hi as [-> Hg].
      destruct (Hsend _ _ Hg) as [g1 [out [E1 _]]]. eauto. }
    rewrite Es. cbn [obind].
    assert (Ls : length sent = length gs).
    { rewrite (mapM_length _ _ _ Es), combine_length, seq_length. lia. }
    assert (Hs : forall r g, nth_error gs r = Some g -> exists g1 out, nth_error sent r = Some (g1, out) /\ send r g = Some (g1, out)).
    { intros r g Hg. pose proof (mapM_nth _ _ _ r _ Es (nth_error_index _ _ _ Hg)) as Q. cbn in Q.
      destruct (Hsend _ _ Hg) as [g1 [out [E1 _]]]. exists g1, out. split; auto. congruence. }
    (* the particles of every message *)
    destruct (list_choice (fun s qs => forall g, nth_error gs s = Some g -> exists g1, nth_error sent s = Some (g1, map (out_of E) qs) /\
       NoDup (map fst qs) /\
      (forall o ps, In (o, ps) qs -> o < size /\ o <> s /\
         Permutation ps (filter (fun p => wanted rid size s p =? o) (particles g)) /\ (pos = true -> ps <> [])) /\
      (forall o, o < size -> o <> s -> ~ In o (map fst qs) ->
         filter (fun p => wanted rid size s p =? o) (particles g) = [])) size) as [qss [Lq Hq]].
    { intros s Hs'. destruct (nth_error_lt_some gs s Hs') as [g Hg]. destruct (Hs _ _ Hg) as [g1 [out [A B]]].
      destruct (Hsend _ _ Hg) as [g1' [out' [C [D _]]]]. rewrite B in C. injection C as <- <-.
      destruct D as [qs [D1 [D2 [D3 D4]]]]. exists qs. intros g' Hg'. assert (g' = g) by congruence. subst g'.
      exists g1. rewrite <- D1. auto. }
    assert (Eo : map snd sent = map (map (out_of E)) qss).
    { apply nth_error_ext. intros s. rewrite !nth_error_map. destruct (nth_error qss s) as [qs|] eqn:Eq.
      - pose proof (nth_error_some_lt _ _ _ Eq) as Hl. rewrite Lq in Hl. destruct (nth_error_lt_some gs s Hl) as [g Hg].
        destruct (Hq _ _ Eq g Hg) as [g1 [A _]]. rewrite A. auto.
      - apply nth_error_None in Eq. rewrite (proj2 (nth_error_None sent s)); auto. unfold size in Lq. lia. }
    rewrite Eo.
    (* what rank r receives *)
    assert (Hin : forall r, r < size -> exists qs', arr r (inbox r (map (map (out_of E)) qss)) = map (out_of E) qs' /\
        Permutation qs' (concat (mapi (tagged r) qss))).
    { intros r Hr. rewrite inbox_tagged.
      destruct (Permutation_map_inv (out_of E) _ (Harr r (map (out_of E) (concat (mapi (tagged r) qss))))) as [qs' [A B]].
      exists qs'. split; auto. symmetry. auto. }
    assert (Hmem : forall r s ps, In (s, ps) (concat (mapi (tagged r) qss)) -> exists g, nth_error gs s = Some g /\
        (pos = true -> ps <> []) /\ forall p, In p ps -> In p (particles g)).
    { intros r s ps Hi. apply in_concat in Hi. destruct Hi as [t [A B]]. apply In_nth_error in A. destruct A as [s' A].
      rewrite nth_error_mapi in A. destruct (nth_error qss s') as [qs|] eqn:Eq; [|discriminate]. injection A as <-.
      unfold tagged in B. apply in_map_iff in B. destruct B as [[o ps'] [B1 B2]]. cbn [snd] in B1. injection B1 as -> ->.
      apply filter_In in B2. destruct B2 as [B2 _].
      pose proof (nth_error_some_lt _ _ _ Eq) as Hl. rewrite Lq in Hl. destruct (nth_error_lt_some gs s Hl) as [g Hg].
      exists g. split; auto. destruct (Hq _ _ Eq g Hg) as [g1 [_ [_ [C _]]]]. destruct (C _ _ B2) as [_ [_ [C1 C2]]]. split; auto.
      intros p Hp. eapply Permutation_in in Hp; [|exact C1]. apply filter_In in Hp. apply Hp. }
    assert (Harr2 : forall r qs', r < size -> Permutation qs' (concat (mapi (tagged r) qss)) ->
        Permutation (flat_map snd qs') (arrivals rid gs r)).
    { intros r qs' Hr Hp. rewrite (Permutation_flat_map snd Hp). unfold arrivals.
      rewrite flat_map_concat2.
      apply concat_perm.
      - rewrite !map_length, !mapi_length. auto.
      - intros s a b Ha Hb. rewrite nth_error_mapi in Hb. destruct (nth_error gs s) as [g|] eqn:Hg; [|discriminate]. injection Hb as <-.
        rewrite !nth_error_map, nth_error_mapi in Ha. destruct (nth_error qss s) as [qs|] eqn:Eq; [|discriminate]. injection Ha as <-.
        destruct (Hq _ _ Eq g Hg) as [g1 [_ [ND [C D]]]].
        destruct (Nat.eqb_spec s r) as [->|Hne].
        + rewrite tagged_self; auto. intros Hi. apply in_map_iff in Hi. destruct Hi as [[o ps] [F Hi]]. cbn in F. subst o.
          destruct (C _ _ Hi) as [_ [X _]]. congruence.
        + eapply tagged_perm; eauto. }
    destruct (mapM_all (fun p => recv (fst p) (arr (fst p) (inbox (fst p) (map (map (out_of E)) qss))) (fst (snd p)))
      (combine (seq 0 (length gs)) sent)) as [gs' Er].
    { intros i [r [g1 out]] Hi. apply index_nth_error in Hi. destruct Hi as [-> Hg1]. cbn [fst snd].
      pose proof (nth_error_some_lt _ _ _ Hg1) as Hl. rewrite Ls in Hl. destruct (nth_error_lt_some gs i Hl) as [g Hg].
      destruct (Hin i Hl) as [qs' [A B]]. rewrite A.
      destruct (Hs _ _ Hg) as [g1' [out' [X1 X2]]]. rewrite Hg1 in X1. injection X1 as <- <-.
      destruct (Hsend _ _ Hg) as [g1' [out' [Y1 [_ [Y2 [Y3 [Y4 [Y5 _]]]]]]]]. rewrite X2 in Y1. injection Y1 as <- <-.
      destruct (Hrecv i g g1 qs') as [g' [Z1 _]]; auto.
      - intros s ps p Hi Hp. eapply Permutation_in in Hi; [|exact B]. destruct (Hmem _ _ _ Hi) as [gg [G1 [_ G2]]]. eauto.
      - intros s ps Hi. eapply Permutation_in in Hi; [|exact B]. destruct (Hmem _ _ _ Hi) as [gg [G1 [G2 _]]]. auto.
      - eauto. }
    rewrite Er. exists gs'. split; auto.
    assert (Main : forall r g, nth_error gs r = Some g -> exists g', nth_error gs' r = Some g' /\ wf_group g' /\
        length (npart_cell g') = length (npart_cell g) /\
        length (reals (st g')) = length (reals (st g)) /\ length (ints (st g')) = length (ints (st g)) /\
        forall c, c < length (npart_cell g) -> exists old new,
          cell_particles g c = Some old /\ cell_particles g' c = Some new /\
          Permutation new (filter (fun p => wanted rid (length gs) r p =? r) old ++ if c =? 0 then arrivals rid gs r else [])).
    { intros r g Hg. pose proof (nth_error_some_lt _ _ _ Hg) as Hl.
      destruct (Hs _ _ Hg) as [g1 [out [X1 X2]]].
      destruct (Hsend _ _ Hg) as [g1' [out' [Y1 [_ [Y2 [Y3 [Y4 [Y5 Y6]]]]]]]]. rewrite X2 in Y1. injection Y1 as <- <-.
      destruct (Hin r Hl) as [qs' [A B]].
      assert (Ei : nth_error (combine (seq 0 (length gs)) sent) r = Some (r, (g1, out))).
      { rewrite <- Ls. apply nth_error_index. auto. }
      pose proof (mapM_nth _ _ _ r _ Er Ei) as Q. cbn [fst snd] in Q. rewrite A in Q.
      destruct (Hrecv r g g1 qs') as [g' [Z1 [Z2 [Z3 [Z4 [Z5 Z6]]]]]]; auto.
      { intros s ps p Hi Hp. eapply Permutation_in in Hi; [|exact B]. destruct (Hmem _ _ _ Hi) as [gg [G1 [_ G2]]]. eauto. }
      { intros s ps Hi. eapply Permutation_in in Hi; [|exact B]. destruct (Hmem _ _ _ Hi) as [gg [G1 [G2 _]]]. auto. }
      exists g'. split; [congruence|]. split; auto. split; [congruence|]. split; [congruence|]. split; [congruence|].
      intros c Hc. destruct (Y6 c Hc) as [old [mid [W1 [W2 W3]]]]. rewrite Y3 in Z6. destruct (Z6 c Hc) as [mid' [V1 V2]].
      assert (mid' = mid) by congruence. subst mid'. exists old. eexists. split; [exact W1|]. split; [exact V2|].
      apply Permutation_app; [exact W3|]. destruct (c =? 0); auto. }
    split; [split|].
    - rewrite (mapM_length _ _ _ Er), combine_length, seq_length, Ls. lia.
    - intros r g Hg. destruct (Main r g Hg) as [g' [A [_ [B [_ [_ C]]]]]]. eauto 6.
    - intros r g g' Hg Hg'. destruct (Main r g Hg) as [g'' [A [B [_ [C [D _]]]]]]. assert (g'' = g') by congruence. subst. auto.
  Qed.
End World.

(** ** Consequences for the whole communicator *)
Lemma Permutation_flat_map_ext {A B} (f f' : A -> list B) l : (forall a, In a l -> Permutation (f a) (f' a)) ->
  Permutation (flat_map f l) (flat_map f' l).
Proof.
  induction l as [|a l IH]; intros H; cbn; auto. apply Permutation_app; [apply H; left; auto|].
  apply IH. intros. apply H. right. auto.
Qed.

Lemma flat_map_app_perm {A B} (f f' : A -> list B) l :
  Permutation (flat_map (fun a => f a ++ f' a) l) (flat_map f l ++ flat_map f' l).
Proof.
  induction l as [|a l IH]; cbn; auto. rewrite IH, <- !app_assoc. apply Permutation_app_head.
  rewrite !app_assoc. apply Permutation_app_tail, Permutation_app_comm.
Qed.

Lemma flat_map_swap {A B C} (f : A -> B -> list C) l l' :
  Permutation (flat_map (fun a => flat_map (f a) l') l) (flat_map (fun b => flat_map (fun a => f a b) l) l').
Proof.
  induction l as [|a l IH]; cbn [flat_map].
  - induction l'; cbn; auto.
  - rewrite IH. rewrite <- (flat_map_app_perm (f a) (fun b => flat_map (fun a => f a b) l)). auto.
Qed.

Lemma flat_map_ext_in {A B} (f g : A -> list B) l : (forall a, In a l -> f a = g a) -> flat_map f l = flat_map g l.
Proof. induction l as [|a l IH]; intros H; cbn; auto. rewrite H, IH; auto; [intros; apply H; right; auto|left; auto]. Qed.

Lemma flat_map_nil {A B} (f : A -> list B) l : (forall a, In a l -> f a = []) -> flat_map f l = [].
Proof. induction l as [|a l IH]; intros H; cbn; auto. rewrite H, IH; auto; [intros; apply H; right; auto|left; auto]. Qed.

(** Sorting a list by a key gives a permutation. *)
Lemma by_key {A} (key : A -> nat) n l : (forall a, In a l -> key a < n) ->
  Permutation (flat_map (fun r => filter (fun a => key a =? r) l) (seq 0 n)) l.
Proof.
  induction l as [|a l IH]; intros H.
  - rewrite flat_map_nil; auto.
  - assert (Hp : Permutation (flat_map (fun r => filter (fun a => key a =? r) (a :: l)) (seq 0 n))
       (flat_map (fun r => (if key a =? r then [a] else []) ++ filter (fun a => key a =? r) l) (seq 0 n))).
    { apply Permutation_flat_map_ext. intros r _. cbn [filter]. destruct (key a =? r); auto. }
    rewrite Hp, flat_map_app_perm, IH by (intros; apply H; right; auto).
    specialize (H a (or_introl eq_refl)). replace n with (key a + S (n - key a - 1)) by lia.
    rewrite seq_app, flat_map_app. cbn [seq flat_map]. rewrite Nat.add_0_l, Nat.eqb_refl.
    rewrite flat_map_nil. 2:{ intros r Hr. apply in_seq in Hr. destruct (Nat.eqb_spec (key a) r); [lia|auto]. }
    rewrite flat_map_nil. 2:{ intros r Hr. apply in_seq in Hr. destruct (Nat.eqb_spec (key a) r); [lia|auto]. }
    auto.
Qed.

Lemma filter_flat_map {A B} (f : A -> list B) q l : filter q (flat_map f l) = flat_map (fun a => filter q (f a)) l.
Proof. induction l; cbn; auto. rewrite filter_app, IHl. auto. Qed.

Lemma flat_map_seq_index {A B} (f : nat -> A -> list B) (l : list A) :
  concat (mapi f l) = flat_map (fun i => match nth_error l i with Some a => f i a | None => [] end) (seq 0 (length l)).
Proof.
  rewrite flat_map_concat_map. f_equal. apply nth_error_ext. intros i. rewrite nth_error_mapi, nth_error_map_seq.
  destruct (Nat.ltb_spec i (length l)) as [H|H].
  - rewrite Nat.add_0_l. destruct (nth_error_lt_some _ _ H) as [a E]. rewrite E. auto.
  - apply nth_error_None in H. rewrite H. auto.
Qed.

Section Consequences.
  Context {R : Type} (rid : nat) (gs gs' : list (group R)) (HX : exchanged rid gs gs').
  Context (Hcells : forall r g, nth_error gs r = Some g -> 0 < length (npart_cell g)).
  Let size := length gs.

  (** A rank holds the particles that wanted to be there. *)
  Lemma exchanged_rank r g g' : nth_error gs r = Some g -> nth_error gs' r = Some g' ->
    Permutation (particles g') (filter (fun p => wanted rid size r p =? r) (particles g) ++ arrivals rid gs r).
  Proof.
    intros Hg Hg'. destruct HX as [_ H]. destruct (H r g Hg) as [g'' [E [L Hc]]]. assert (g'' = g') by congruence. subst g''.
    unfold particles at 1. rewrite L.
    assert (P : Permutation (flat_map (fun c => match cell_particles g' c with Some ps => ps | None => [] end) (seq 0 (length (npart_cell g))))
      (flat_map (fun c => filter (fun p => wanted rid size r p =? r) (match cell_particles g c with Some ps => ps | None => [] end)
                          ++ if c =? 0 then arrivals rid gs r else []) (seq 0 (length (npart_cell g))))).
    { apply Permutation_flat_map_ext. intros c Hcc. apply in_seq in Hcc. destruct (Hc c) as [old [new [A [B C]]]]; [lia|].
      rewrite A, B. exact C. }
    rewrite P, flat_map_app_perm. apply Permutation_app.
    - unfold particles. rewrite filter_flat_map. auto.
    - specialize (Hcells r g Hg). replace (length (npart_cell g)) with (1 + (length (npart_cell g) - 1)) by lia.
      rewrite seq_app, flat_map_app. cbn [seq flat_map Nat.eqb]. rewrite app_nil_r, flat_map_nil; [rewrite app_nil_r; auto|].
      intros c Hcc. apply in_seq in Hcc. destruct (Nat.eqb_spec c 0); [lia|auto].
  Qed.

  Lemma rank_all r g : nth_error gs r = Some g ->
    Permutation (filter (fun p => wanted rid size r p =? r) (particles g) ++ arrivals rid gs r)
      (flat_map (fun s => match nth_error gs s with Some g => filter (fun p => wanted rid size s p =? r) (particles g) | None => [] end) (seq 0 size)).
  Proof.
    intros Hg. unfold arrivals. fold size. rewrite flat_map_seq_index.
    pose proof (nth_error_some_lt _ _ _ Hg) as Hr. fold size in Hr |- *.
    replace size with (r + S (size - r - 1)) by lia. rewrite seq_app, !flat_map_app. cbn [seq flat_map]. rewrite Nat.add_0_l, Hg.
    replace (r + S (size - r - 1)) with size by lia.
    rewrite Nat.eqb_refl. cbn [app].
    match goal with |- Permutation (?a ++ ?b ++ ?c) (?b' ++ ?a' ++ ?c') => assert (Eb : b = b'); [|assert (Ec : c = c')] end.
    - apply flat_map_ext_in. intros s Hs. apply in_seq in Hs. destruct (nth_error gs s); auto. destruct (Nat.eqb_spec s r); [lia|auto].
    - apply flat_map_ext_in. intros s Hs. apply in_seq in Hs. destruct (nth_error gs s); auto. destruct (Nat.eqb_spec s r); [lia|auto].
    - rewrite Eb, Ec, !app_assoc. apply Permutation_app_tail, Permutation_app_comm.
  Qed.

  Lemma all_by_index (l : list (group R)) :
    flat_map particles l = flat_map (fun s => match nth_error l s with Some g => particles g | None => [] end) (seq 0 (length l)).
  Proof.
    rewrite <- (flat_map_seq_index (fun _ g => particles g)). rewrite flat_map_concat_map. f_equal.
    apply nth_error_ext. intros i. rewrite nth_error_map, nth_error_mapi. auto.
  Qed.

  Lemma wanted_lt s g (p : particle R) : nth_error gs s = Some g -> wanted rid size s p < size.
  Proof.
    intros Hg. pose proof (nth_error_some_lt _ _ _ Hg). fold size in H. unfold wanted. destruct (nth_error (snd p) rid) as [z|]; [|auto].
    destruct (Z.leb_spec 0 z), (Z.ltb_spec z (Z.of_nat size)); cbn [andb]; lia.
  Qed.

  (** No particle is lost, duplicated or changed. *)
  Lemma exchanged_conserves : Permutation (flat_map particles gs') (flat_map particles gs).
  Proof.
    rewrite !all_by_index. destruct HX as [L HX']. rewrite L. fold size.
    assert (P : Permutation (flat_map (fun s => match nth_error gs' s with Some g => particles g | None => [] end) (seq 0 size))
      (flat_map (fun r => flat_map (fun s => match nth_error gs s with
           Some g => filter (fun p => wanted rid size s p =? r) (particles g) | None => [] end) (seq 0 size)) (seq 0 size))).
    { apply Permutation_flat_map_ext. intros r Hr. apply in_seq in Hr. destruct (nth_error_lt_some gs r) as [g Hg]; [unfold size in Hr; lia|].
      destruct (HX' r g Hg) as [g' [E _]]. rewrite E, (exchanged_rank r g g' Hg E). apply (rank_all r g Hg). }
    rewrite P, flat_map_swap. apply Permutation_flat_map_ext. intros s Hs. apply in_seq in Hs.
    destruct (nth_error_lt_some gs s) as [g Hg]; [unfold size in Hs; lia|].
    rewrite Hg. apply by_key. intros p _. apply (wanted_lt s g p Hg).
  Qed.

  (** Every particle is on the rank it names. *)
  Lemma exchanged_placed r g' p z : nth_error gs' r = Some g' -> In p (particles g') ->
    nth_error (snd p) rid = Some z -> (0 <= z < Z.of_nat size)%Z -> z = Z.of_nat r.
  Proof.
    intros Hg' Hp Hz Hr. destruct HX as [L HX']. pose proof (nth_error_some_lt _ _ _ Hg') as Hlt. rewrite L in Hlt.
    destruct (nth_error_lt_some gs r Hlt) as [g Hg].
    assert (W : forall s, wanted rid size s p = r -> z = Z.of_nat r).
    { intros s. unfold wanted. rewrite Hz. destruct (Z.leb_spec 0 z), (Z.ltb_spec z (Z.of_nat size)); cbn [andb]; lia. }
    eapply Permutation_in in Hp; [|apply (exchanged_rank r g g' Hg Hg')].
    eapply Permutation_in in Hp; [|apply (rank_all r g Hg)]. apply in_flat_map in Hp. destruct Hp as [s [_ Hp]].
    destruct (nth_error gs s); [|destruct Hp]. apply filter_In in Hp. destruct Hp as [_ Hp]. apply Nat.eqb_eq in Hp. eauto.
  Qed.
End Consequences.

(** ** GlobalMove and LocalMove *)
Section Moves.
  Context {R byte : Type} (E : encoding R byte) (EOk : encoding_ok E) (spR spZ : pspec).
  Context (env : nat -> rank_env R byte) (cid rid : nat) (gs : list (group R)).
  Context (Hok : ranks_ok spR spZ cid rid gs).
  Context (Henv : forall r, r < length gs -> device_ok (e_dev (env r)) /\ length gs <= length (e_buf0 (env r))).
  Context (arr : nat -> list (nat * message (byte:=byte)) -> list (nat * message (byte:=byte))) (Harr : forall r l, Permutation (arr r l) l).

  Lemma all_full s g p : nth_error gs s = Some g -> In p (particles g) -> full spR spZ p.
  Proof.
    intros Hg Hp. destruct (Hok s g Hg) as [WF [SR [SZ _]]]. rewrite (particles_pv g WF) in Hp.
    apply in_map_iff in Hp. destruct Hp as [w [<- Hw]]. apply (pv_full spR spZ g WF SR SZ). auto.
  Qed.

  Theorem global_move_correct : exists gs', global_move E spR spZ env cid rid arr gs = Some gs' /\ exchanged rid gs gs' /\
    forall r g g', nth_error gs r = Some g -> nth_error gs' r = Some g' -> wf_group g' /\
      length (reals (st g')) = length (reals (st g)) /\ length (ints (st g')) = length (ints (st g)).
  Proof.
    unfold global_move. apply (exchange_correct E spR spZ _ _ rid gs true).
    - intros r g Hg. destruct (Hok r g Hg) as [WF [SR [SZ [H1 [H2 [H3 H4]]]]]].
      pose proof (nth_error_some_lt _ _ _ Hg) as Hr. destruct (Henv r Hr) as [V1 V2].
      destruct (nth_error_lt_some _ _ H2) as [ranks Er].
      eapply global_send_correct; eauto.
    - intros r g g1 qs Hg WF1 L1 L2 L3 Fu Ne. destruct (Hok r g Hg) as [WF [SR [SZ [H1 [H2 [H3 H4]]]]]].
      pose proof (nth_error_some_lt _ _ _ Hg) as Hr. destruct (Henv r Hr) as [V1 V2].
      apply (global_recv_correct E EOk spR spZ); auto; try (unfold spec_of; congruence); try lia. intros s ps Hi. apply (Ne s ps Hi eq_refl).
    - auto.
    - intros. eapply all_full; eauto.
  Qed.

  Theorem local_move_correct (nbrs : nat -> list Z) :
    (forall r z, r < length gs -> In z (nbrs r) -> (0 <= z < Z.of_nat (length gs))%Z) ->
    (forall r g p, nth_error gs r = Some g -> In p (particles g) -> wanted rid (length gs) r p <> r ->
       In (Z.of_nat (wanted rid (length gs) r p)) (nbrs r)) ->
    exists gs', local_move E spR spZ env cid rid nbrs arr gs = Some gs' /\ exchanged rid gs gs' /\
    forall r g g', nth_error gs r = Some g -> nth_error gs' r = Some g' -> wf_group g' /\
      length (reals (st g')) = length (reals (st g)) /\ length (ints (st g')) = length (ints (st g)).
  Proof.
    intros Hn Hreach. unfold local_move. apply (exchange_correct E spR spZ _ _ rid gs false).
    - intros r g Hg. destruct (Hok r g Hg) as [WF [SR [SZ [H1 [H2 [H3 H4]]]]]].
      pose proof (nth_error_some_lt _ _ _ Hg) as Hr. destruct (Henv r Hr) as [V1 V2].
      destruct (nth_error_lt_some _ _ H2) as [ranks Er].
      destruct (local_send_ranks_correct (length gs) r (nbrs r)) as [sr [Es [ND Hs]]]; [intros z; apply Hn; auto|].
      rewrite Es. cbn [obind]. eapply local_send_correct; eauto.
      + intros o Ho. apply Hs in Ho. destruct Ho as [A B]. split; auto. specialize (Hn r _ Hr B). lia.
      + intros p Hp Hw. apply Hs. split; eauto.
    - intros r g g1 qs Hg WF1 L1 L2 L3 Fu Ne. destruct (Hok r g Hg) as [WF [SR [SZ [H1 [H2 [H3 H4]]]]]].
      pose proof (nth_error_some_lt _ _ _ Hg) as Hr. destruct (Henv r Hr) as [V1 V2].
      apply (local_recv_correct E EOk spR spZ); auto; try (unfold spec_of; congruence); lia.
    - auto.
    - intros. eapply all_full; eauto.
  Qed.

  (** A particle for a rank that is not a neighbour: the move reports an error. *)
  Theorem local_move_unreachable (nbrs : nat -> list Z) r g p :
    (forall z, In z (nbrs r) -> (0 <= z < Z.of_nat (length gs))%Z) ->
    nth_error gs r = Some g -> In p (particles g) -> wanted rid (length gs) r p <> r ->
    ~ In (Z.of_nat (wanted rid (length gs) r p)) (nbrs r) ->
    local_move E spR spZ env cid rid nbrs arr gs = None.
  Proof.
    intros Hn Hg Hp Hw Hni. unfold local_move, exchange.
    destruct (mapM _ (combine (seq 0 (length gs)) gs)) as [sent|] eqn:Em; [|auto]. exfalso.
    destruct (Hok r g Hg) as [WF [SR [SZ [H1 [H2 [H3 H4]]]]]].
    pose proof (nth_error_some_lt _ _ _ Hg) as Hr. destruct (Henv r Hr) as [V1 V2].
    destruct (nth_error_lt_some _ _ H2) as [ranks Er].
    destruct (local_send_ranks_correct (length gs) r (nbrs r)) as [sr [Es [ND Hs]]]; [auto|].
    pose proof (mapM_nth _ _ _ r _ Em (nth_error_index _ _ _ Hg)) as Q. cbn [fst snd] in Q. rewrite Es in Q. cbn [obind] in Q.
    assert (Hlt : r < length sent) by (rewrite (mapM_length _ _ _ Em), combine_length, seq_length; lia).
    destruct (nth_error_lt_some _ _ Hlt) as [x Ex]. rewrite Ex in Q.
    assert (N : local_send E spR spZ (env r) cid rid (length gs) r sr g = None).
    { eapply local_send_unreachable; eauto.
      - intros o Ho. apply Hs in Ho. destruct Ho as [A B]. split; auto. specialize (Hn _ B). lia.
      - intros Hi. apply Hs in Hi. apply Hni, Hi. }
    congruence.
  Qed.
End Moves.
