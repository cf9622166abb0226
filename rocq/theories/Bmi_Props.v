(** C62: the exchange of boundary values between the ranks that see a facet and the rank
    that owns it. *)
From Coq Require Import List Arith Lia ZArith Bool Permutation.
Import ListNotations.
From Verif Require Import Base Kernel Bmi_Model Bmi_Spec Bmi_Proofs Bmi2_Proofs Bmi3_Proofs Bmi4_Proofs.

Lemma run_ok owner own h : forall known v w, (forall o, In o own -> NoDup o) -> winv owner own known v w -> legal owner own known h ->
  exists w', foldM (fun w p => extend_exchange_pattern w (fst p) (snd p)) w h = Some w' /\
    winv owner own (known_after known h) (v + news known h) w' /\
    forall r b b', nth_error w r = Some b -> nth_error w' r = Some b' -> exists t, m_lin b' = m_lin b ++ t.
Proof.
  induction h as [|[ids gs] h IH]; intros known v w Nd W L.
  - exists w. cbn. rewrite Nat.add_0_r. split; [auto|]. split; [auto|]. intros r b b' E E'. assert (b' = b) by congruence. subst. exists []. symmetry; apply app_nil_r.
  - destruct L as [L1 [L2 [L3 L4]]]. cbn [foldM fst snd].
    destruct (extend_ok owner own known v w ids gs W L1 L2 L3) as [w1 [E1 [W1 T1]]]. rewrite E1. cbn [obind].
    destruct (IH _ _ w1 Nd W1 L4) as [w' [E' [W' T']]]. exists w'. split; [auto|]. split.
    + cbn [known_after news]. unfold is_new, news1 in W'. rewrite <- Nat.add_assoc in W'. exact W'.
    + intros r b b' Eb Eb'. destruct (nth_error_lt_some w1 r) as [b1 Eb1].
      { rewrite (wi_len _ _ _ _ _ W1), <- (wi_len _ _ _ _ _ W). eapply nth_error_some_lt; eauto. }
      destruct (T1 r b b1 Eb Eb1) as [t1 H1]. destruct (T' r b1 b' Eb1 Eb') as [t2 H2]. exists (t1 ++ t2). rewrite H2, H1, app_assoc. auto.
Qed.

Lemma run_winv owner own h w : ownership owner own -> legal owner own (nothing own) h -> run own h = Some w ->
  winv owner own (passed own h) (1 + news (nothing own) h) w.
Proof.
  intros [Nd _] L E. destruct (run_ok owner own h (nothing own) 1 (map bmi_create own) Nd (winv_init owner own Nd) L) as [w' [E' [W _]]].
  unfold run in E. assert (w' = w) by congruence. subst. exact W.
Qed.

Lemma linv_numbering owner own known o b : linv owner own known o b -> numbering known b.
Proof.
  intros L. constructor; unfold get_geom_id_from_seq_index, get_seq_index_from_geom_id, get_num_intersection_geoms, rd.
  - intros i. split; [intros [g E]; eapply nth_error_some_lt; eauto|apply nth_error_lt_some].
  - intros g. rewrite <- (li_lin _ _ _ _ _ L). split.
    + intros [i E]. apply (li_seq _ _ _ _ _ L) in E. eapply nth_error_In; eauto.
    + intros I. destruct (In_nth_error _ _ I) as [i E]. exists i. apply (li_seq _ _ _ _ _ L). auto.
  - intros i g. symmetry. apply (li_seq _ _ _ _ _ L).
Qed.

(** Whatever facets the ranks find, in any number of collective calls, and in whatever
    order MPI reports the neighbours: the calls succeed, every rank numbers the facets it
    has passed, and the version counts the calls that brought something new. *)
Theorem C62_every_history_of_extensions_succeeds :
  forall owner own h,
    ownership owner own -> legal owner own (nothing own) h ->
    exists w, run own h = Some w /\ length w = length own /\
      forall r b, nth_error w r = Some b ->
        numbering (nth r (passed own h) []) b /\ m_version b = 1 + news (nothing own) h.
Proof.
  intros owner own h [Nd Hown] L.
  destruct (run_ok owner own h (nothing own) 1 (map bmi_create own) Nd (winv_init owner own Nd) L) as [w [E [W _]]].
  exists w. split; [exact E|]. split; [apply (wi_len _ _ _ _ _ W)|]. intros r b Eb.
  destruct (wi_loc _ _ _ _ _ W r b Eb) as [o [_ [Li V]]]. split; auto. eapply linv_numbering; eauto.
Qed.
Print Assumptions C62_every_history_of_extensions_succeeds.

(** Later calls keep the numbers of the facets. *)
Theorem C62_numbers_are_kept :
  forall owner own h h' w w' r b b' g i,
    ownership owner own -> legal owner own (nothing own) (h ++ h') ->
    run own h = Some w -> run own (h ++ h') = Some w' ->
    nth_error w r = Some b -> nth_error w' r = Some b' ->
    get_seq_index_from_geom_id b g = Some i -> get_seq_index_from_geom_id b' g = Some i.
Proof.
  intros owner own h h' w w' r b b' g i O L E E' Eb Eb' Ei.
  assert (Lapp : forall known h, legal owner own known (h ++ h') -> legal owner own known h /\ legal owner own (known_after known h) h').
  { clear. intros known h. revert known. induction h as [|[ids gs] h IH]; intros known H; [split; [exact I|exact H]|].
    destruct H as [H1 [H2 [H3 H4]]]. destruct (IH _ H4) as [H5 H6]. split; [repeat (split; auto)|auto]. }
  destruct (Lapp _ _ L) as [L1 L2].
  pose proof (run_winv owner own h w O L1 E) as W. pose proof (run_winv owner own _ w' O L E') as W'.
  unfold run in E'. rewrite foldM_app in E'. unfold run in E. rewrite E in E'. cbn [obind] in E'.
  destruct (run_ok owner own h' _ _ w (proj1 O) W L2) as [w2 [E2 [_ T]]]. assert (w2 = w') by congruence. subst w2.
  destruct (T r b b' Eb Eb') as [t Ht].
  destruct (wi_loc _ _ _ _ _ W r b Eb) as [o [_ [Li _]]]. destruct (wi_loc _ _ _ _ _ W' r b' Eb') as [o' [_ [Li' _]]].
  unfold get_seq_index_from_geom_id in *. apply (li_seq _ _ _ _ _ Li) in Ei. apply (li_seq _ _ _ _ _ Li').
  rewrite Ht, nth_error_app1; auto. eapply nth_error_some_lt; eauto.
Qed.
Print Assumptions C62_numbers_are_kept.

(** Deposition: after any history, exchanging the values of the ranks adds to each
    component of each facet, on its owner, the sum of the values of all the ranks that
    know the facet.  Nothing else changes.  This holds for every schedule of the kernels,
    for every content of the pooled buffers, and with or without device aware MPI. *)
Theorem C62_exchange_adds_all_contributions :
  forall {T} (add : T -> T -> T) zero owner own h w (ds : nat -> device) aware ncomp srcs dsts outs ins,
    commutative_monoid add zero -> ownership owner own -> legal owner own (nothing own) h -> run own h = Some w ->
    (forall r, device_ok (ds r)) ->
    sized w (fun b => get_num_intersection_geoms b * ncomp) srcs -> owned_arrays own ncomp dsts ->
    sized w (fun b => list_sum (m_outc b) * ncomp) outs -> sized w (fun b => list_sum (m_inc b) * ncomp) ins ->
    exists res, exchange_from_device add zero aware ds w ncomp srcs dsts outs ins = Some res /\ length res = length own /\
      forall r o dst dst', nth_error own r = Some o -> nth_error dsts r = Some dst -> nth_error res r = Some dst' ->
        length dst' = length dst /\
        (forall i g c x, nth_error o i = Some g -> c < ncomp -> nth_error dst (i * ncomp + c) = Some x ->
           nth_error dst' (i * ncomp + c) = Some (add x (sum add zero (contributions_of w srcs ncomp c g)))) /\
        (forall j, length o * ncomp <= j -> nth_error dst' j = nth_error dst j).
Proof.
  intros T add zero owner own h w ds aware ncomp srcs dsts outs ins M O L E Hd S1 [L2 S2] S3 S4.
  pose proof (run_winv owner own h w O L E) as W. destruct O as [Nd Hown].
  destruct (exchange_ok add zero M owner own Nd _ _ w W ds Hd ncomp aware srcs dsts outs ins Hown S1) as [res [E1 [L1 H]]]; auto.
  - rewrite L2. symmetry. apply (wi_len _ _ _ _ _ W).
  - exists res. split; [auto|]. split; [rewrite L1; apply (wi_len _ _ _ _ _ W)|auto].
Qed.
Print Assumptions C62_exchange_adds_all_contributions.

(** Evaluation: the reverse exchange gives every rank, for each facet it knows, the
    values the owner has. *)
Theorem C62_reverse_exchange_copies_owned_values :
  forall {T} (zero : T) owner own h w (ds : nat -> device) aware host_readable ncomp srcs dsts outs ins,
    ownership owner own -> legal owner own (nothing own) h -> run own h = Some w ->
    (forall r, device_ok (ds r)) -> aware || host_readable = true ->
    owned_arrays own ncomp srcs -> sized w (fun b => get_num_intersection_geoms b * ncomp) dsts ->
    sized w (fun b => length (m_rpack b) * ncomp) outs -> sized w (fun b => length (m_runpack b) * ncomp) ins ->
    exists res, reverse_exchange_from_device zero aware host_readable ds w ncomp srcs dsts outs ins = Some res /\ length res = length own /\
      forall r b dst dst', nth_error w r = Some b -> nth_error dsts r = Some dst -> nth_error res r = Some dst' ->
        length dst' = length dst /\
        (forall g c o k src, In g (nth r (passed own h) []) -> c < ncomp ->
           nth_error own (owner g) = Some o -> nth_error o k = Some g -> nth_error srcs (owner g) = Some src ->
           staged b ncomp c dst' g = nth_error src (k * ncomp + c)) /\
        (forall j, get_num_intersection_geoms b * ncomp <= j -> nth_error dst' j = nth_error dst j).
Proof.
  intros T zero owner own h w ds aware host ncomp srcs dsts outs ins O L E Hd Ha [L2 S2] S1 S3 S4.
  pose proof (run_winv owner own h w O L E) as W. destruct O as [Nd Hown].
  destruct (reverse_exchange_ok zero owner own _ _ w W ds Hd ncomp aware host srcs dsts outs ins Ha) as [res [E1 [L1 H]]]; auto.
  - split; auto. rewrite L2. symmetry. apply (wi_len _ _ _ _ _ W).
  - exists res. split; [auto|]. split; [rewrite L1; apply (wi_len _ _ _ _ _ W)|].
    intros r b dst dst' Eb Ed Er. destruct (H r b dst dst' Eb Ed Er) as [K1 [K2 K3]]. split; auto. split; auto.
    intros g c o k src Ig Lc Eo Ek Es. destruct (wi_loc _ _ _ _ _ W r b Eb) as [o' [_ [Li _]]].
    destruct (proj2 (num_known _ _ (linv_numbering _ _ _ _ _ Li) g) Ig) as [i Ei]. unfold staged. rewrite Ei. cbn [obind].
    apply (K2 g i c o k src); auto.
Qed.
Print Assumptions C62_reverse_exchange_copies_owned_values.

(* ------------------------------------------------------------------ *)
(** Three ranks.  The first two see facets of the third and of each other; a second call
    brings facet 30 to the first rank and nothing to the others.  MPI reports neighbours
    in various orders. *)
Definition own3 : list (list Z) := [[10; 11]; [20]; [30; 31]]%Z.
Definition owner3 (g : Z) : nat := Z.to_nat (g / 10 - 1).
Definition h3 : history :=
  [([[(2, 31%Z); (1, 20%Z); (2, 31%Z)]; [(2, 31%Z); (0, 11%Z)]; []],
    [Graph [2; 1] [1] [1; 2] [1]; Graph [0; 2] [0] [0; 2] [0]; Graph [] [1; 0] [] [0; 1]]);
   ([[(2, 30%Z)]; [(0, 11%Z)]; []],
    [Graph [1; 2] [1] [2; 1] [1]; Graph [2; 0] [0] [0; 2] [0]; Graph [] [0; 1] [] [1; 0]])].

Lemma ownership3 : ownership owner3 own3.
Proof.
  split.
  - intros o [<-|[<-|[<-|[]]]]; repeat constructor; cbn; intuition discriminate.
  - intros [|[|[|[|r]]]] o g E; cbn in E; try discriminate; injection E as <-; cbn; intuition subst; reflexivity.
Qed.

Lemma dests_dec (f : Z -> nat) K L :
  forallb (fun d => existsb (fun x => f x =? d) K) L = true -> forallb (fun x => existsb (Nat.eqb (f x)) L) K = true ->
  forall d, In d L <-> exists x, In x K /\ f x = d.
Proof.
  rewrite !forallb_forall. intros H1 H2 d. split.
  - intros I. specialize (H1 d I). apply existsb_exists in H1. destruct H1 as [x [J E]]. apply Nat.eqb_eq in E. eauto.
  - intros [x [I <-]]. specialize (H2 x I). apply existsb_exists in H2. destruct H2 as [y [J E]]. apply Nat.eqb_eq in E. congruence.
Qed.

Lemma srcs_dec (f : Z -> nat) known r L :
  forallb (fun s => existsb (fun x => f x =? r) (nth s known [])) L = true ->
  forallb (fun s => negb (existsb (fun x => f x =? r) (nth s known [])) || existsb (Nat.eqb s) L) (seq 0 (length known)) = true ->
  forall s, In s L <-> exists x, In x (nth s known []) /\ f x = r.
Proof.
  rewrite !forallb_forall. intros H1 H2 s. split.
  - intros I. specialize (H1 s I). apply existsb_exists in H1. destruct H1 as [x [J E]]. apply Nat.eqb_eq in E. eauto.
  - intros [x [I E]]. assert (Ls : In s (seq 0 (length known))).
    { apply in_seq. destruct (lt_dec s (length known)); [lia|]. rewrite nth_overflow in I by lia. destruct I. }
    specialize (H2 s Ls). apply orb_true_iff in H2. destruct H2 as [H2|H2].
    + apply negb_true_iff in H2. assert (existsb (fun x => f x =? r) (nth s known []) = true); [|congruence].
      apply existsb_exists. exists x. split; auto. apply Nat.eqb_eq. auto.
    + apply existsb_exists in H2. destruct H2 as [y [J Ey]]. apply Nat.eqb_eq in Ey. congruence.
Qed.

Lemma legal3 : legal owner3 own3 (nothing own3) h3.
Proof.
  assert (Hp : forall ids, In ids (map fst h3) -> forall l, In l ids -> pairs_ok owner3 own3 l).
  { intros ids I l J d g K. cbn in I. repeat (destruct I as [<-|I]; [cbn in J; repeat (destruct J as [<-|J]; [cbn in K; repeat (destruct K as [[= <- <-]|K]; [split; [reflexivity|]; eexists; split; [reflexivity|cbn; auto]|]); try (destruct K)|]); try (destruct J)|]). destruct I. }
  split; [reflexivity|]. split; [apply Hp; left; reflexivity|]. split.
  2: split; [reflexivity|]; split; [apply Hp; right; left; reflexivity|]; split; [|exact I].
  all: split; [reflexivity|]; intros [|[|[|r]]] g E; cbn [nth_error] in E; [| | |destruct r; discriminate]; injection E as <-; cbn [g_dests g_srcs g_rsrcs g_rdests].
  all: split; [repeat constructor; cbn; intuition discriminate|]; split; [apply dests_dec; vm_compute; reflexivity|].
  all: split; [repeat constructor; cbn; intuition discriminate|]; split; [apply srcs_dec; vm_compute; reflexivity|].
  all: split; try apply Permutation_refl; apply perm_swap.
Qed.

Definition w3 := match run own3 h3 with Some w => w | None => [] end.

Example C62_history : run own3 h3 = Some w3 /\ passed own3 h3 = [[31; 20; 31; 30]; [31; 11; 11]; []]%Z /\
  map m_lin w3 = [[31; 20; 30]; [31; 11]; []]%Z /\ map m_version w3 = [3; 3; 3] /\
  run own3 (h3 ++ [([[(1, 20%Z)]; []; []], [Graph [1; 2] [1] [2; 1] [1]; Graph [2; 0] [0] [0; 2] [0]; Graph [] [0; 1] [] [1; 0]])]) = Some w3.
Proof. vm_compute. auto 6. Qed.

(** The values for a device that runs the first kernel backwards. *)
Definition dev62 : device := {| ord := fun A k l => if Nat.even k then rev l else l; junk := fun _ _ => 77%Z; local_size := 2; max_compute_units := 3 |}.
Lemma dev62_ok : device_ok dev62.
Proof. split; [|cbn; lia]. intros A k l. cbn. destruct (Nat.even k); [symmetry; apply Permutation_rev|apply Permutation_refl]. Qed.

Example C62_values : forall aware,
  exchange_from_device Z.add 0%Z aware (fun _ => dev62) w3 2
    [[1; 2; 10; 20; 100; 200]; [5; 6; 50; 60]; []]%Z
    [[1000; 1000; 1000; 1000; 7]; [0; 0]; [0; 0; 0; 0]]%Z
    [[-1; -1; -1; -1; -1; -1; -1]; [-1; -1; -1; -1]; []]%Z [[-1; -1]; [-1; -1; -1]; [-1; -1; -1; -1; -1; -1]]%Z
  = Some [[1000; 1000; 1050; 1060; 7]; [10; 20]; [100; 200; 6; 8]]%Z /\
  reverse_exchange_from_device 0%Z aware true (fun _ => dev62) w3 2
    [[1; 2; 3; 4]; [5; 6]; [7; 8; 9; 10]]%Z [[0; 0; 0; 0; 0; 0]; [0; 0; 0; 0; -3]; []]%Z
    [[-1; -1; -1; -1; -1; -1; -1]; [-1; -1; -1; -1]; [-1; -1; -1; -1; -1; -1]]%Z [[-1; -1; -1; -1; -1; -1]; [-1; -1; -1; -1]; [-1; -1; -1; -1; -1; -1]]%Z
  = Some [[9; 10; 5; 6; 7; 8]; [9; 10; 3; 4; -3]; []]%Z.
Proof. intros [|]; vm_compute; auto. Qed.

(** The restriction to memory that kernels can read is needed: without device aware MPI
    the last kernel of the reverse exchange reads a buffer of the host. *)
Theorem C62_reverse_exchange_reads_host_memory_refuted :
  exists w ds srcs dsts outs ins,
    run own3 h3 = Some w /\ (forall r, device_ok (ds r)) /\
    owned_arrays own3 1 srcs /\ sized w (fun b => get_num_intersection_geoms b * 1) dsts /\
    sized w (fun b => length (m_rpack b) * 1) outs /\ sized w (fun b => length (m_runpack b) * 1) ins /\
    reverse_exchange_from_device 0%Z false false ds w 1 srcs dsts outs ins = None.
Proof.
  exists w3, (fun _ => dev62), [[1; 2]; [3]; [4; 5]]%Z, [[0; 0; 0]; [0; 0]; []]%Z, [[0]; [0]; [0; 0; 0]]%Z, [[0; 0; 0]; [0; 0]; []]%Z.
  split; [vm_compute; reflexivity|]. split; [intros; apply dev62_ok|].
  repeat (split; [split; [vm_compute; reflexivity|intros [|[|[|[|r]]]] b m E1 E2; vm_compute in E1, E2; try discriminate; injection E1 as <-; injection E2 as <-; vm_compute; lia]|]).
  vm_compute. reflexivity.
Qed.
Print Assumptions C62_reverse_exchange_reads_host_memory_refuted.

(** The examples meet the hypotheses of the theorems. *)
Example C62_hypotheses :
  ownership owner3 own3 /\ legal owner3 own3 (nothing own3) h3 /\ commutative_monoid Z.add 0%Z /\
  sized w3 (fun b => get_num_intersection_geoms b * 2) [[1; 2; 10; 20; 100; 200]; [5; 6; 50; 60]; []]%Z /\
  owned_arrays own3 2 [[1000; 1000; 1000; 1000; 7]; [0; 0]; [0; 0; 0; 0]]%Z /\
  sized w3 (fun b => list_sum (m_outc b) * 2) [[-1; -1; -1; -1; -1; -1; -1]; [-1; -1; -1; -1]; []]%Z /\
  sized w3 (fun b => list_sum (m_inc b) * 2) [[-1; -1]; [-1; -1; -1]; [-1; -1; -1; -1; -1; -1]]%Z /\
  sized w3 (fun b => length (m_rpack b) * 2) [[-1; -1; -1; -1; -1; -1; -1]; [-1; -1; -1; -1]; [-1; -1; -1; -1; -1; -1]]%Z /\
  sized w3 (fun b => length (m_runpack b) * 2) [[-1; -1; -1; -1; -1; -1]; [-1; -1; -1; -1]; [-1; -1; -1; -1; -1; -1]]%Z.
Proof.
  split; [apply ownership3|]. split; [apply legal3|]. split; [split; intros; lia|].
  repeat split; try reflexivity; intros [|[|[|[|r]]]] b m E1 E2; vm_compute in E1, E2; try discriminate; injection E1 as <-; injection E2 as <-; vm_compute; lia.
Qed.
