(** Proofs: the moves of all ranks on a Cartesian mesh. *)
From Coq Require Import List Arith ZArith QArith Bool Lia Permutation.
Import ListNotations.
From Verif Require Import Base Kernel Group_Model Group_Spec Group_Proofs Compress_Proofs AddGroup_Proofs Add_Model Pack_Model Pack_Spec Pack_Proofs
  Exchange_Model Exchange_Spec Exchange_Proofs World_Proofs Move_Model Move_Spec Move_Proofs
  Mesh_Model Mesh_Spec CartMesh_Model CartMesh_Spec CartMesh_Proofs CartOwner_Proofs CartMesh_Props
  CartMap_Model CartMap_Spec CartLoop_Proofs CartMap_Proofs CartMap_Props CartMove_Model CartMove_Spec.
Local Open Scope nat_scope.
Local Notation gst := Group_Model.st.

(** ** Lists of ranks *)
Definition pointwise {A B} (P : nat -> A -> B -> Prop) (l : list A) (l' : list B) : Prop :=
  length l' = length l /\ forall r a b, nth_error l r = Some a -> nth_error l' r = Some b -> P r a b.
Lemma pw_right {A B} (P : nat -> A -> B -> Prop) l l' r b : pointwise P l l' -> nth_error l' r = Some b -> exists a, nth_error l r = Some a /\ P r a b.
Proof.
  intros (L & H) E. destruct (nth_error_lt_some l r) as (a & Ea); [rewrite <- L; eapply nth_error_some_lt; eauto|]. eauto.
Qed.
Lemma on_ranks_ok {A B} (f : nat -> A -> option B) (P : nat -> A -> B -> Prop) gs :
  (forall r g, nth_error gs r = Some g -> exists g', f r g = Some g' /\ P r g g') ->
  exists gs', on_ranks f gs = Some gs' /\ pointwise P gs gs'.
Proof.
  intros H. unfold on_ranks. destruct (mapM_all (fun p => f (fst p) (snd p)) (combine (seq 0 (length gs)) gs)) as (gs' & Es).
  { intros i (r, g) Hi. apply index_nth_error in Hi. destruct Hi as (-> & Hg). destruct (H _ _ Hg) as (g' & E1 & _). eauto. }
  exists gs'. split; [exact Es|]. split.
  - rewrite (mapM_length _ _ _ Es), combine_length, seq_length. lia.
  - intros r g g' Hg Hg'. pose proof (mapM_nth _ _ _ r _ Es (nth_error_index _ _ _ Hg)) as Q. cbn [fst snd] in Q.
    destruct (H r g Hg) as (g'' & E1 & Pg). rewrite E1, Hg' in Q. injection Q as ->. exact Pg.
Qed.
Lemma pw_weaken {A B} (P P' : nat -> A -> B -> Prop) l l' : pointwise P l l' ->
  (forall r a b, nth_error l r = Some a -> nth_error l' r = Some b -> P r a b -> P' r a b) -> pointwise P' l l'.
Proof. intros (L & H) K. split; [exact L|]. eauto. Qed.

(** ** The particles of a group *)
Lemma in_particles {R} (g : group R) p : In p (particles g) <-> exists c ps, cell_particles g c = Some ps /\ In p ps.
Proof.
  unfold particles. rewrite in_flat_map. split.
  - intros (c & _ & I). destruct (cell_particles g c) as [ps|] eqn:Q; [|destruct I]. eauto.
  - intros (c & ps & Q & I). exists c. rewrite Q. split; [|exact I]. apply in_seq. unfold cell_particles in Q.
    destruct (nth_error (npart_cell g) c) eqn:N; [|discriminate]. pose proof (nth_error_some_lt _ _ _ N). lia.
Qed.
Lemma cell_particles_some {R} (g : group R) c : wf_group g -> c < length (npart_cell g) -> exists ps, cell_particles g c = Some ps.
Proof. intros W L. rewrite cell_particles_vals by assumption. eauto. Qed.
Lemma cell_particles_lt {R} (g : group R) c ps : cell_particles g c = Some ps -> c < length (npart_cell g).
Proof. unfold cell_particles. destruct (nth_error (npart_cell g) c) eqn:N; [|discriminate]. intros _. eapply nth_error_some_lt; eauto. Qed.
Lemma particle_full {R} (g : group R) p : wf_group g -> In p (particles g) -> length (fst p) = length (reals (gst g)) /\ length (snd p) = length (ints (gst g)).
Proof.
  intros W I. rewrite particles_pv in I by exact W. apply in_map_iff in I. destruct I as ((c, l) & <- & I). unfold pv. cbn [fst snd].
  destruct W as (W1 & W2). split; eapply vals_at_len; eauto.
Qed.

(** ** [each] *)
Lemma each_trans R1 R2 g g1 g2 : each R1 g g1 -> each R2 g1 g2 -> each (fun p p2 => exists p1, R1 p p1 /\ R2 p1 p2) g g2.
Proof.
  intros (N1 & W1 & L1 & L1' & C1) (N2 & W2 & L2 & L2' & C2). split; [congruence|]. split; [exact W2|]. split; [congruence|]. split; [congruence|].
  intros c ps E. destruct (C1 c ps E) as (ps1 & E1 & F1). destruct (C2 c ps1 E1) as (ps2 & E2 & F2). exists ps2. split; [exact E2|].
  clear -F1 F2. revert ps2 F2. induction F1 as [|p p1 ps ps1 H1 F1 IH]; intros ps2 F2; inversion F2; subst; constructor; eauto.
Qed.
Lemma Forall2_impl_in {A B} (P P' : A -> B -> Prop) l l' : (forall a b, In a l -> P a b -> P' a b) -> Forall2 P l l' -> Forall2 P' l l'.
Proof. intros H F. induction F; constructor; [apply H; [left; reflexivity|assumption]|]. apply IHF. intros a b I. apply H. right. exact I. Qed.
Lemma each_impl (R1 R2 : particle Q -> particle Q -> Prop) g g' : each R1 g g' -> (forall p p', In p (particles g) -> R1 p p' -> R2 p p') -> each R2 g g'.
Proof.
  intros (N & W & L & L' & C) H. do 4 (split; [assumption|]). intros c ps E. destruct (C c ps E) as (ps' & E' & F). exists ps'. split; [exact E'|].
  eapply Forall2_impl_in; [|exact F]. intros p p' I. apply H. apply in_particles. eauto.
Qed.
Lemma Forall2_in_r {A B} (P : A -> B -> Prop) l l' b : Forall2 P l l' -> In b l' -> exists a, In a l /\ P a b.
Proof. intros F. induction F; intros []; [subst; eexists; split; [left; reflexivity|assumption]|]. destruct (IHF H0) as (a & I & Pa). exists a. split; [right; exact I|exact Pa]. Qed.
Lemma each_back R g g' c ps' p' : wf_group g -> each R g g' -> cell_particles g' c = Some ps' -> In p' ps' ->
  exists ps p, cell_particles g c = Some ps /\ In p ps /\ R p p'.
Proof.
  intros W (N & W' & _ & _ & C) E I. pose proof (cell_particles_lt _ _ _ E) as L. rewrite N in L. destruct (cell_particles_some g c W L) as (ps & E0).
  destruct (C c ps E0) as (ps1 & E1 & F). assert (ps1 = ps') by congruence. subst ps1. destruct (Forall2_in_r _ _ _ _ F I) as (p & Ip & Rp). eauto.
Qed.
Lemma each_particles R g g' : wf_group g -> each R g g' -> Forall2 R (particles g) (particles g').
Proof.
  intros W (N & W' & _ & _ & C). unfold particles. rewrite N.
  assert (H : forall cs, (forall c, In c cs -> c < length (npart_cell g)) ->
    Forall2 R (flat_map (fun c => match cell_particles g c with Some ps => ps | None => [] end) cs)
              (flat_map (fun c => match cell_particles g' c with Some ps => ps | None => [] end) cs)).
  { induction cs as [|c cs IH]; intros Hc; cbn [flat_map]; [constructor|]. destruct (cell_particles_some g c W (Hc c (or_introl eq_refl))) as (ps & E).
    destruct (C c ps E) as (ps' & E' & F). rewrite E, E'. apply Forall2_app; [exact F|]. apply IH. intros x I. apply Hc. right; exact I. }
  apply H. intros c I. apply in_seq in I. lia.
Qed.
Lemma ranks_particles (R : particle Q -> particle Q -> Prop) : forall gs gs' : list (group Q), pointwise (fun _ g g' => Forall2 R (particles g) (particles g')) gs gs' ->
  Forall2 R (flat_map particles gs) (flat_map particles gs').
Proof.
  induction gs as [|g gs IH]; intros [|g' gs'] (L & H); try discriminate; cbn [flat_map]; [constructor|].
  apply Forall2_app; [apply (H 0); reflexivity|]. apply IH. split; [cbn in L; lia|]. intros r a b. apply (H (S r)).
Qed.

(** ** [conserved] *)
Lemma same_except_trans f p p1 p2 : same_except f p p1 -> same_except f p1 p2 -> same_except f p p2.
Proof.
  intros (A & B & C) (A' & B' & C'). split; [congruence|]. split; [congruence|]. intros i N. rewrite C', C; auto.
Qed.
Lemma conserved_each f gs gs' : Forall2 (same_except f) (flat_map particles gs) (flat_map particles gs') -> conserved f gs gs'.
Proof. intros F. exists (flat_map particles gs). split; [reflexivity|exact F]. Qed.
Lemma same_except_refl f p : same_except f p p.
Proof. repeat split. Qed.
Lemma Forall2_refl' {A} (P : A -> A -> Prop) l : (forall a, P a a) -> Forall2 P l l.
Proof. intros H. induction l; constructor; auto. Qed.
Lemma conserved_perm f gs gs' : Permutation (flat_map particles gs') (flat_map particles gs) -> conserved f gs gs'.
Proof. intros P. exists (flat_map particles gs'). split; [exact P|]. apply Forall2_refl', same_except_refl. Qed.
Lemma Forall2_flip' {A B} (P : A -> B -> Prop) l l' : Forall2 P l l' -> Forall2 (fun b a => P a b) l' l.
Proof. intros F. induction F; constructor; auto. Qed.
Lemma Forall2_trans' {A} (P : A -> A -> Prop) (T : forall a b c, P a b -> P b c -> P a c) : forall l l1 l2, Forall2 P l l1 -> Forall2 P l1 l2 -> Forall2 P l l2.
Proof. intros l l1 l2 F. revert l2. induction F; intros l2 F2; inversion F2; subst; constructor; eauto. Qed.
Lemma conserved_trans f gs gs1 gs2 : conserved f gs gs1 -> conserved f gs1 gs2 -> conserved f gs gs2.
Proof.
  intros (ps & P & F) (ps1 & P1 & F1). apply Forall2_flip' in F. destruct (Permutation_Forall2 (Permutation_sym P1) F) as (ps' & P' & F').
  apply Forall2_flip' in F'. exists ps'. split; [rewrite <- P'; exact P|]. eapply Forall2_trans'; [apply same_except_trans|exact F'|exact F1].
Qed.
Lemma same_except_mono f f' p p' : incl f f' -> same_except f p p' -> same_except f' p p'.
Proof. intros I (A & B & C). split; [exact A|]. split; [exact B|]. intros i N. apply C. intros J. apply N, I, J. Qed.
Lemma conserved_mono f f' gs gs' : incl f f' -> conserved f gs gs' -> conserved f' gs gs'.
Proof.
  intros I (ps & P & F). exists ps. split; [exact P|]. eapply Forall2_impl_in; [|exact F]. intros a b _. apply same_except_mono, I.
Qed.
Lemma conserved_back f gs gs' r g' p' : conserved f gs gs' -> nth_error gs' r = Some g' -> In p' (particles g') ->
  exists s g p, nth_error gs s = Some g /\ In p (particles g) /\ same_except f p p'.
Proof.
  intros (ps & P & F) E I. assert (I' : In p' (flat_map particles gs')) by (apply in_flat_map; exists g'; split; [eapply nth_error_In; eauto|exact I]).
  destruct (Forall2_in_r _ _ _ _ F I') as (p & Ip & H). apply (Permutation_in _ P) in Ip. apply in_flat_map in Ip. destruct Ip as (g & Ig & Ip).
  apply In_nth_error in Ig. destruct Ig as (s & Es). eauto 6.
Qed.

(** ** What the moves keep *)
Definition same_group (g g' : group Q) : Prop :=
  wf_group g' /\ length (reals (gst g')) = length (reals (gst g)) /\ length (ints (gst g')) = length (ints (gst g)) /\ length (npart_cell g') = length (npart_cell g).
Lemma groups_kept m spR spZ cid pid rid gs gs' f : groups_ok m spR spZ cid pid rid gs -> pointwise (fun _ => same_group) gs gs' ->
  conserved f gs gs' -> ~ In cid f -> groups_ok m spR spZ cid pid rid gs'.
Proof.
  intros (L & N1 & N2 & H) PW CO NI. split; [rewrite <- L; apply PW|]. split; [exact N1|]. split; [exact N2|]. intros r g' E'.
  destruct (pw_right _ _ _ _ _ PW E') as (g & E & W & A & B & C). destruct (H r g E) as (_ & H1 & H2 & H3 & H4 & H5 & H6 & _).
  rewrite A, B, C. do 7 (split; [assumption|]). intros p' I. destruct (conserved_back _ _ _ _ _ _ CO E' I) as (s & gg & p & Es & Ip & (_ & _ & S)).
  destruct (H s gg Es) as (_ & _ & _ & _ & _ & _ & _ & H8). destruct (H8 p Ip) as (z & Ez & Z0). exists z. rewrite S by exact NI. auto.
Qed.
Lemma exchanged_same {R} rid (gs gs' : list (group R)) r g g' : exchanged rid gs gs' -> nth_error gs r = Some g -> nth_error gs' r = Some g' -> length (npart_cell g') = length (npart_cell g).
Proof. intros (_ & H) E E'. destruct (H r g E) as (g'' & E'' & L & _). congruence. Qed.
Lemma exchanged_in {R} rid (gs gs' : list (group R)) r g' c ps' p : exchanged rid gs gs' -> nth_error gs' r = Some g' -> cell_particles g' c = Some ps' -> In p ps' ->
  (exists g ps, nth_error gs r = Some g /\ cell_particles g c = Some ps /\ In p ps /\ wanted rid (length gs) r p = r) \/
  (c = 0 /\ exists s g, s <> r /\ nth_error gs s = Some g /\ In p (particles g) /\ wanted rid (length gs) s p = r).
Proof.
  intros (L & H) E' Ec I. destruct (nth_error_lt_some gs r) as (g & E); [rewrite <- L; eapply nth_error_some_lt; eauto|].
  destruct (H r g E) as (g'' & E'' & Ln & Hc). assert (g'' = g') by congruence. subst g''. pose proof (cell_particles_lt _ _ _ Ec) as Lc. rewrite Ln in Lc.
  destruct (Hc c Lc) as (old & new & Eo & En & P). assert (new = ps') by congruence. subst new. apply (Permutation_in _ P) in I. apply in_app_or in I. destruct I as [I|I].
  - apply filter_In in I. destruct I as (I & W). apply Nat.eqb_eq in W. left. exists g, old. auto.
  - destruct (Nat.eqb_spec c 0) as [->|]; [|destruct I]. right. split; [reflexivity|]. unfold arrivals in I. rewrite flat_map_seq_index in I.
    apply in_flat_map in I. destruct I as (s & _ & I). destruct (nth_error gs s) as [gg|] eqn:Es; [|destruct I]. destruct (Nat.eqb_spec s r); [destruct I|].
    apply filter_In in I. destruct I as (I & W). apply Nat.eqb_eq in W. exists s, gg. auto.
Qed.
