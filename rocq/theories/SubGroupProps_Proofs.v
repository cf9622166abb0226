(** Facts that connect the sub-group theorems to their reading per particle. *)
From Coq Require Import List Arith ZArith Bool Lia Permutation.
Import ListNotations.
From Verif Require Import Base Kernel Compress_Model Compress_Proofs Loop_Model Loop_Spec.
From Verif Require Import SubGroup_Model SubGroup_Spec SubGroup_Proofs SubGroupKernel_Proofs SubGroupSelect_Proofs.

Lemma before_whole np c : particles_before (whole_group np) c = list_sum (firstn c np).
Proof.
  unfold particles_before, whole_group. rewrite firstn_map, map_map. f_equal.
  rewrite <- (map_id (firstn c np)) at 2. apply map_ext. intros a. apply seq_length.
Qed.

Lemma group_iterates np es : prefix_sums np es -> iterates (group_iset np es) (whole_group np).
Proof.
  intros H c ls E. unfold whole_group in E. rewrite nth_error_map in E. destruct (nth_error np c) as [n|] eqn:En; [|discriminate].
  injection E as <-. cbn [group_iset i_hn i_dn i_es i_layer]. rewrite seq_length. split; [auto|]. split; [auto|]. split.
  - pose proof (nth_error_some_lt _ _ _ En). rewrite before_whole. auto.
  - intros j l El. rewrite nth_error_seq in El. destruct (j <? n); [|discriminate]. injection El as <-. auto.
Qed.

Lemma whole_content np : content_of_group np (whole_group np).
Proof.
  split; [apply map_length|]. intros c ls n E En. unfold whole_group in E. rewrite nth_error_map, En in E. injection E as <-.
  split; [apply seq_NoDup|]. intros l Hl. apply in_seq in Hl. lia.
Qed.

Lemma listed_whole np c l : listed (whole_group np) c l <-> exists n, nth_error np c = Some n /\ l < n.
Proof.
  unfold listed, whole_group. split.
  - intros [ls [E Hi]]. rewrite nth_error_map in E. destruct (nth_error np c) as [n|]; [|discriminate]. injection E as <-.
    apply in_seq in Hi. exists n. split; [auto|lia].
  - intros [n [E Hl]]. exists (seq 0 n). rewrite nth_error_map, E. split; [auto|]. apply in_seq. lia.
Qed.

Lemma same_nth a b c ls : same_particles a b -> nth_error a c = Some ls ->
  exists ls', nth_error b c = Some ls' /\ Permutation ls ls'.
Proof.
  intros H. revert c ls. induction H as [|x y a b Hxy H IH]; intros [|c] ls E; cbn in *; try discriminate.
  - injection E as <-. eauto.
  - eauto.
Qed.

Lemma same_length a b : same_particles a b -> length a = length b.
Proof. intros H. induction H; cbn; auto. Qed.

Lemma same_sym a b : same_particles a b -> same_particles b a.
Proof. intros H. induction H; constructor; auto. apply Permutation_sym; auto. Qed.

Lemma same_refl a : same_particles a a.
Proof. induction a; constructor; auto. Qed.

Lemma listed_same a b c l : same_particles a b -> listed a c l <-> listed b c l.
Proof.
  assert (G : forall a b, same_particles a b -> listed a c l -> listed b c l).
  { intros a0 b0 H [ls [E Hi]]. destruct (same_nth _ _ _ _ H E) as [ls' [E' P]]. exists ls'. split; [auto|].
    eapply Permutation_in; eauto. }
  intros H. split; apply G; auto using same_sym.
Qed.

Lemma listed_chosen kern content c l : listed (chosen kern content) c l <-> listed content c l /\ kern c l = true.
Proof.
  unfold listed, chosen. split.
  - intros [ls [E Hi]]. rewrite per_cell_nth in E. destruct (nth_error content c) as [x|]; [|discriminate].
    injection E as <-. apply filter_In in Hi as [Hi Hk]. eauto.
  - intros [[ls [E Hi]] Hk]. exists (filter (kern c) ls). rewrite per_cell_nth, E. split; [auto|]. apply filter_In; auto.
Qed.

Lemma listed_in_cells first last content c l :
  listed (in_cells first last content) c l <-> listed content c l /\ first <= c < last.
Proof.
  unfold listed, in_cells. split.
  - intros [ls [E Hi]]. rewrite per_cell_nth in E. destruct (nth_error content c) as [x|]; [|discriminate].
    injection E as <-. destruct ((first <=? c) && (c <? last)) eqn:B; [|destruct Hi].
    apply andb_true_iff in B as [B1 B2]. apply Nat.leb_le in B1. apply Nat.ltb_lt in B2. eauto.
  - intros [[ls [E Hi]] [H1 H2]]. exists ls. rewrite per_cell_nth, E. split; [|auto].
    apply Nat.leb_le in H1. apply Nat.ltb_lt in H2. rewrite H1, H2. auto.
Qed.

Lemma content_same gnp a b : same_particles a b -> content_of_group gnp b -> content_of_group gnp a.
Proof.
  intros H [L C]. split; [rewrite (same_length _ _ H); auto|]. intros c ls n E En.
  destruct (same_nth _ _ _ _ H E) as [ls' [E' P]]. destruct (C _ _ _ E' En) as [N B]. split.
  - eapply Permutation_NoDup; [apply Permutation_sym; eauto|auto].
  - intros l Hl. apply B. eapply Permutation_in; eauto.
Qed.

Lemma content_per_cell gnp f content : (forall c ls, NoDup ls -> NoDup (f c ls)) -> (forall c ls l, In l (f c ls) -> In l ls) ->
  content_of_group gnp content -> content_of_group gnp (per_cell f content).
Proof.
  intros HN HI [L C]. split; [rewrite per_cell_length; auto|]. intros c ls n E En. rewrite per_cell_nth in E.
  destruct (nth_error content c) as [x|] eqn:Ex; [|discriminate]. injection E as <-. destruct (C _ _ _ Ex En) as [N B].
  split; [auto|]. intros l Hl. eapply B, HI; eauto.
Qed.

Lemma content_chosen gnp kern content : content_of_group gnp content -> content_of_group gnp (chosen kern content).
Proof.
  apply content_per_cell.
  - intros. apply NoDup_filter; auto.
  - intros c ls l Hl. apply filter_In in Hl. tauto.
Qed.

Lemma content_in_cells gnp first last content : content_of_group gnp content -> content_of_group gnp (in_cells first last content).
Proof.
  apply content_per_cell; intros c ls; destruct (_ && _); auto; try constructor. intros l [].
Qed.

Lemma listed_joined cc contents c l : (forall ct, In ct contents -> length ct = cc) ->
  listed (joined cc contents) c l <-> exists ct, In ct contents /\ listed ct c l.
Proof.
  intros HL. unfold listed, joined. split.
  - intros [ls [E Hi]]. rewrite nth_error_map_seq in E. destruct (c <? cc) eqn:B; [|discriminate]. injection E as <-.
    apply in_flat_map in Hi as [ct [Hc Hi]]. exists ct. split; [auto|]. exists (nth c ct []). split; [|auto].
    apply nth_error_nth'. rewrite (HL _ Hc). apply Nat.ltb_lt; auto.
  - intros [ct [Hc [ls [E Hi]]]]. pose proof (nth_error_some_lt _ _ _ E) as B. rewrite (HL _ Hc) in B.
    exists (flat_map (fun content => nth c content []) contents). rewrite nth_error_map_seq.
    apply Nat.ltb_lt in B. rewrite B. split; [auto|]. apply in_flat_map. exists ct. split; [auto|].
    rewrite (nth_error_nth _ _ [] E). auto.
Qed.

Lemma joined_split cc n content : length content = cc ->
  joined cc [map (firstn n) content; map (skipn n) content] = content.
Proof.
  intros L. apply nth_error_ext. intros c. unfold joined. rewrite nth_error_map_seq.
  destruct (Nat.ltb_spec c cc) as [H|H].
  - destruct (nth_error_lt_some content c) as [ls E]; [lia|]. rewrite E. f_equal. cbn [flat_map Nat.add].
    rewrite app_nil_r, (nth_error_nth _ _ [] (map_nth_error (firstn n) c content E)), (nth_error_nth _ _ [] (map_nth_error (skipn n) c content E)).
    apply firstn_skipn.
  - symmetry. apply nth_error_None. lia.
Qed.

Lemma range_history_correct CL d cc first last : device_ok d -> forall parents contents m,
  range_ready CL cc first last m ->
  Forall2 (fun p content => length content = cc /\ iterates (snd p) content) parents contents ->
  exists rs, range_history d cc first last m parents = Some rs /\
    Forall2 (fun r content => selects (snd r) (fst r) (in_cells first last content)) rs contents.
Proof.
  intros D parents contents m R H. revert m R. induction H as [|[k P] ct parents contents [Lc HP] H IH]; intros m R.
  - exists []. split; [reflexivity|constructor].
  - cbn [range_history snd] in *. destruct (cell_selector_correct CL d k cc first last P ct m D R Lc HP) as [m' [s [E [R' S']]]].
    rewrite E. cbn [obind fst]. destruct (IH m' R') as [rs [E' F]]. rewrite E'. cbn [obind]. exists ((m', s) :: rs).
    split; [reflexivity|]. constructor; auto.
Qed.

Lemma NoDup_cells c : forall contents, (forall ct ls, In ct contents -> nth_error ct c = Some ls -> NoDup ls) ->
  (forall i j a b l, nth_error contents i = Some a -> nth_error contents j = Some b -> listed a c l -> listed b c l -> i = j) ->
  NoDup (flat_map (fun content => nth c content []) contents).
Proof.
  induction contents as [|a contents IH]; intros HN HD; cbn [flat_map]; [constructor|].
  assert (Hl : forall ct l, In l (nth c ct []) -> listed ct c l).
  { intros ct l Hi. destruct (nth_error ct c) as [ls|] eqn:E.
    - rewrite (nth_error_nth _ _ [] E) in Hi. exists ls; auto.
    - apply nth_error_None in E. rewrite nth_overflow in Hi by auto. destruct Hi. }
  apply NoDup_app_intro.
  - destruct (nth_error a c) as [ls|] eqn:E.
    + rewrite (nth_error_nth _ _ [] E). apply (HN a); auto. left; auto.
    + apply nth_error_None in E. rewrite nth_overflow by auto. constructor.
  - apply IH; [intros ct ls Hi; apply HN; right; auto|]. intros i j x y l Ei Ej Hx Hy.
    pose proof (HD (S i) (S j) x y l Ei Ej Hx Hy). lia.
  - intros l Ha Hb. apply in_flat_map in Hb as [ct [Hc Hi]]. apply In_nth_error in Hc as [i Ei].
    pose proof (HD 0 (S i) a ct l eq_refl Ei (Hl _ _ Ha) (Hl _ _ Hi)). lia.
Qed.

Lemma content_joined gnp cc contents : length gnp = cc -> (forall content, In content contents -> content_of_group gnp content) ->
  (forall i j a b c l, nth_error contents i = Some a -> nth_error contents j = Some b -> listed a c l -> listed b c l -> i = j) ->
  content_of_group gnp (joined cc contents).
Proof.
  intros Lg HC HD. split; [unfold joined; rewrite map_length, seq_length; auto|]. intros c ls n E En.
  pose proof (nth_error_some_lt _ _ _ En) as Hc.
  unfold joined in E. rewrite nth_error_map_seq in E. destruct (c <? cc); [|discriminate]. injection E as <-. cbn [Nat.add]. split.
  - apply NoDup_cells.
    + intros ct ls Hi E. destruct (HC ct Hi) as [_ Q]. apply (Q c ls n); auto.
    + intros i j a b l. apply HD.
  - intros l Hl. apply in_flat_map in Hl as [ct [Hi Hl]]. destruct (HC ct Hi) as [L Q].
    destruct (nth_error_lt_some ct c) as [ls E]; [lia|]. rewrite (nth_error_nth _ _ [] E) in Hl. apply (Q c ls n); auto.
Qed.
