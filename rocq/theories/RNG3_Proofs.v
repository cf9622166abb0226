(** Proofs about the random numbers of the particles of a loop. *)
From Coq Require Import List Arith Lia ZArith Bool Permutation.
Import ListNotations.
From Verif Require Import Base Kernel Compress_Proofs Loop_Model Loop_Spec Loop_Proofs RNG_Model RNG_Spec RNG_Proofs.

Lemma npart_fold np l : (forall c, In c l -> c < length np) -> forall s,
  foldM (fun s c => n <- rd np c ;; Some (s + n)) s l = Some (s + length (flat_map (fun c => map (pair c) (seq 0 (nth c np 0))) l)).
Proof.
  induction l as [|c l IH]; intros H s; cbn [foldM flat_map length]; [f_equal; lia|].
  unfold rd at 1. rewrite (nth_error_nth' np 0) by (apply H; left; reflexivity). cbn [obind]. rewrite IH by (intros; apply H; right; assumption).
  rewrite app_length, map_length, seq_length. f_equal. lia.
Qed.

Lemma loop_npart_ok np all a b : (all = true -> a = 0 /\ b = length np) -> b <= length np ->
  get_loop_npart np (list_sum np) all a b = Some (length (particles_of_cells np a b)).
Proof.
  intros Ha Hb. unfold get_loop_npart. destruct all.
  - destruct (Ha eq_refl) as [-> ->]. rewrite particles_of_cells_length by lia. unfold psum. rewrite firstn_all. change (Some (list_sum np) = Some (list_sum np - 0)). f_equal. lia.
  - rewrite npart_fold; [reflexivity|]. intros c Hc. apply in_seq in Hc. lia.
Qed.

Lemma determine_ok ncell cs ce a b all s e : call_names ncell cs ce a b -> determine_iteration_set ncell cs ce = Some (all, s, e) ->
  s = Z.of_nat a /\ e = Z.of_nat b /\ (all = true -> a = 0 /\ b = ncell).
Proof.
  intros [|i Hi|i j Hi Hj]; cbn [determine_iteration_set]; intros [= <- <- <-].
  - auto.
  - split; [reflexivity|]. split; [lia|discriminate].
  - split; [reflexivity|]. split; [reflexivity|]. rewrite andb_true_iff, !Z.eqb_eq. lia.
Qed.

Lemma submit_empty lim np nbin ls cs ce a b bs : call_names (length np) cs ce a b -> 1 <= nbin ->
  prepare_submit lim np true (list_sum np) nbin ls 1 cs ce = Some bs ->
  (length bs = 0 <-> length (particles_of_cells np a b) = 0).
Proof.
  intros Hc Hn E. split.
  - intros H. destruct bs; [|discriminate]. destruct (tiles_plain np a b false [] (prepare_submit_tiles lim np true nbin ls 1 cs ce a b [] Hc (le_n 1) Hn E)) as (vs & Ev & P).
    cbn in Ev. injection Ev as <-. apply Permutation_length in P. cbn in P. congruence.
  - intros H. pose proof (call_names_le _ _ _ _ _ Hc) as Hab. unfold prepare_submit in E. destruct (determine_iteration_set (length np) cs ce) as [[[all s] e]|] eqn:D; [|discriminate].
    destruct (determine_ok _ _ _ _ _ _ _ _ Hc D) as (-> & -> & Hall). cbn [obind] in E. unfold iteration_set_is_empty in E.
    assert (Hz : forall c, a <= c < b -> nth c np 0 = 0).
    { intros c Hcc. destruct (nth c np 0) as [|k] eqn:Ek; [reflexivity|exfalso]. assert (Hin : In (c, 0) (particles_of_cells np a b)) by (apply in_particles_of_cells; lia).
      destruct (particles_of_cells np a b); [destruct Hin|discriminate]. }
    destruct all; cbn [negb] in E.
    + destruct (Hall eq_refl) as [-> ->]. assert (Hs : list_sum np = 0).
      { rewrite particles_of_cells_length in H by lia. unfold psum in H. rewrite firstn_all in H. change (list_sum np - 0 = 0) in H. lia. }
      rewrite Hs in E. cbn in E. injection E as <-. reflexivity.
    + unfold assert in E. destruct (_ && _)%bool in E; [|discriminate]. cbn [obind] in E. rewrite !Nat2Z.id in E.
      destruct (foldM_max np (seq a (b - a)) 0) as (r & Er & _ & _ & M). { intros c Hcc. apply in_seq in Hcc. lia. }
      rewrite Er in E. cbn [obind] in E. assert (r = 0). { destruct M as [->|(c & Hcc & <-)]; [reflexivity|]. apply in_seq in Hcc. apply Hz. lia. }
      subst r. cbn in E. injection E as <-. reflexivity.
Qed.

Lemma numbering {A} (f : A -> option nat) l : NoDup l -> numbers_densely f l ->
  exists g : A -> nat, (forall a, In a l -> f a = Some (g a)) /\ Permutation (map g l) (seq 0 (length l)).
Proof.
  intros _ (ns & F & P). exists (fun a => match f a with Some n => n | None => 0 end).
  assert (G : forall l ns, Forall2 (fun a n => f a = Some n) l ns -> map (fun a => match f a with Some n => n | None => 0 end) l = ns /\ forall a, In a l -> f a = Some (match f a with Some n => n | None => 0 end)).
  { clear. induction 1 as [|a n l ns H F [IH1 IH2]]; [split; [reflexivity|intros a []]|]. cbn [map]. rewrite H, IH1. split; [reflexivity|]. intros a' [<-|Ha]; [rewrite H; reflexivity|apply IH2; exact Ha]. }
  destruct (G l ns F) as [E1 E2]. split; [exact E2|]. rewrite E1. exact P.
Qed.

Lemma samples_numbered {A} (g : A -> nat) (l : list A) n ncomp drawn : length l = n -> Permutation (map g l) (seq 0 n) ->
  Permutation (map (fun s => drawn + (snd s * n + g (fst s))) (list_prod l (seq 0 ncomp))) (seq drawn (n * ncomp)).
Proof.
  intros L P. apply NoDup_Permutation_bis.
  - assert (Ninj : forall x y, In x l -> In y l -> g x = g y -> x = y /\ True) by
      (intros x y Hx Hy Q; split; [|exact I]; assert (Nd : NoDup (map g l)) by (apply (Permutation_NoDup (Permutation_sym P)), seq_NoDup);
       clear -Nd Hx Hy Q; induction l as [|a l IH]; [destruct Hx|]; cbn in Nd; inversion Nd; subst;
       destruct Hx as [<-|Hx], Hy as [<-|Hy]; [reflexivity|exfalso; apply H1; rewrite Q; apply in_map; exact Hy|exfalso; apply H1; rewrite <- Q; apply in_map; exact Hx|apply IH; assumption]).
    assert (Hb : forall x, In x l -> g x < n). { intros x Hx. assert (In (g x) (seq 0 n)) by (apply (Permutation_in _ P), in_map; exact Hx). apply in_seq in H. lia. }
    assert (Nl : NoDup l) by (apply (NoDup_map_inv g), (Permutation_NoDup (Permutation_sym P)), seq_NoDup).
    assert (Np : NoDup (list_prod l (seq 0 ncomp))).
    { clear -Nl. induction l as [|a l IH]; [constructor|]. inversion Nl; subst. cbn [list_prod]. apply NoDup_app_intro.
      - apply FinFun.Injective_map_NoDup; [intros x y [=]; assumption|apply seq_NoDup].
      - apply IH. assumption.
      - intros [x c] H1' H2'. apply in_map_iff in H1' as (c' & [= <- <-] & _). apply in_prod_iff in H2' as [H2' _]. contradiction. }
    assert (Hinj : forall s t, In s (list_prod l (seq 0 ncomp)) -> In t (list_prod l (seq 0 ncomp)) -> drawn + (snd s * n + g (fst s)) = drawn + (snd t * n + g (fst t)) -> s = t).
    { intros [x c] [y d] H1 H2 Q. apply in_prod_iff in H1 as [H1 _]. apply in_prod_iff in H2 as [H2 _]. cbn [fst snd] in Q. pose proof (Hb x H1). pose proof (Hb y H2).
      assert (c = d) by nia. subst d. destruct (Ninj x y H1 H2 ltac:(lia)) as [-> _]. reflexivity. }
    clear -Np Hinj. induction (list_prod l (seq 0 ncomp)) as [|s t IH]; [constructor|]. inversion Np; subst. cbn [map]. constructor.
    + intros Hin. apply in_map_iff in Hin as (u & Q & Hu). assert (u = s) by (apply Hinj; [right; exact Hu|left; reflexivity|exact Q]). subst u. contradiction.
    + apply IH; [assumption|]. intros u v Hu Hv. apply Hinj; right; assumption.
  - rewrite seq_length, map_length, prod_length, seq_length, L. lia.
  - intros k Hk. apply in_map_iff in Hk as ([x c] & <- & Hx). apply in_prod_iff in Hx as [Hx Hc]. apply in_seq in Hc. cbn [fst snd].
    assert (In (g x) (seq 0 n)) by (apply (Permutation_in _ P), in_map; exact Hx). apply in_seq in H. apply in_seq. nia.
Qed.
