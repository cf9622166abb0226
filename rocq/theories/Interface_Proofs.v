(** The halo cells of all ranks. *)
From Coq Require Import List Arith ZArith QArith Bool Lia Lqa Permutation Sorting.Sorted.
Import ListNotations.
From Verif Require Import Base Kernel Mesh_Model Mesh_Spec Mesh_Proofs MeshNb_Proofs MeshPos_Proofs Serial_Model MHC_Model CellRep_Model CellRep_Spec CellRep_Proofs Halo_Model Overlap_Model Overlap_Spec.
From Verif Require Import Overlap_Proofs OverlapMap_Proofs OverlapClaim_Proofs Interface_Model Interface_Spec InterfaceClaim_Proofs.
From Verif Require MHC_Spec MHC_Props Halo_Spec Halo_Proofs Halo_Props Mesh_Props.
Open Scope Z_scope.

(** ** The map of the remote cells *)
Lemma foldM_inv {A B} (P : A -> Prop) (f : A -> B -> option A) l : (forall a b a', P a -> f a b = Some a' -> P a') -> forall a a', P a -> foldM f a l = Some a' -> P a'.
Proof.
  intros H. induction l as [|x l IH]; intros a a' Pa E; cbn [foldM] in E; [injection E as <-; exact Pa|]. destruct (f a x) as [a1|] eqn:F; [|discriminate]. cbn [obind] in E. apply (IH a1 a'); [apply (H a x a1 Pa F)|exact E].
Qed.
Lemma remote_is_map ni nd cells h : halo_from ni nd cells = Some h -> is_map (h_remote h).
Proof.
  unfold halo_from. intros E. destruct (mapM _ cells) as [reps|]; [|discriminate]. cbn [obind] in E. destruct (index_mapper reps) as [mp|]; [|discriminate]. cbn [obind] in E.
  match type of E with (x <- ?f ;; _) = _ => destruct f as [remote|] eqn:Er; [|discriminate] end. cbn [obind] in E.
  assert (R : is_map remote). { refine (foldM_inv is_map _ _ _ _ _ _ Er); [|constructor]. intros a c a' Pa F. destruct (map_get (to_local mp) (global_id c)) as [l|]; [|discriminate]. cbn [obind] in F. injection F as <-. apply map_set_sorted, Pa. }
  destruct cells as [|c0 cs]; [injection E as <-; exact R|].
  destruct (cone_sizes mp reps) as [sizes|]; [|discriminate]. cbn [obind] in E. destruct (set_cones mp sizes remote reps) as [((seen, (cs', os)), remote')|] eqn:Es; [|discriminate]. cbn [obind] in E.
  assert (R' : is_map remote').
  { change remote' with (snd (seen, (cs', os), remote')). refine (foldM_inv (fun st => is_map (snd st)) _ _ _ _ _ _ Es); [|exact R]. intros a r a' Pa F. refine (foldM_inv (fun st => is_map (snd st)) _ _ _ _ _ Pa F). clear. intros ((sn, (c1, o1)), rem) e a' Pa F. cbn [snd] in Pa.
    destruct (mem_z (fst e) sn); [injection F as <-; exact Pa|]. destruct (map_get (to_local mp) (fst e)) as [l|]; [|discriminate]. cbn [obind] in F. destruct (mapM _ (snd e)) as [c|]; [|discriminate]. cbn [obind] in F. destruct (map_get sizes l) as [s|]; [|discriminate]. cbn [obind] in F.
    destruct (next_n s c) as [c'|]; [|discriminate]. cbn [obind] in F. destruct (map_get (orientations r) (fst e)) as [o|]; [|discriminate]. cbn [obind] in F. destruct (next_n s o) as [o'|]; [|discriminate]. cbn [obind] in F. injection F as <-. cbn [snd]. destruct (map_get rem l); [exact Pa|apply map_set_sorted, Pa]. }
  destruct (nth_error (starts mp) 0) as [vs|]; [|discriminate]. cbn [obind] in E. destruct (nth_error (ends mp) 0) as [ve|]; [|discriminate]. cbn [obind] in E. destruct (as_size (ve - vs)) as [nv|]; [|discriminate]. cbn [obind] in E. destruct (write_coords _ _ _ _ _) as [co|]; [|discriminate]. cbn [obind] in E. injection E as <-. exact R'.
Qed.
Lemma remote_ranks_ok size h : (forall e, In e (h_remote h) -> fst (fst (snd e)) < Z.of_nat size) ->
  exists nb, remote_ranks size h = Some nb /\ ascending nb /\ forall s, In s nb <-> -1 < s /\ exists e, In e (h_remote h) /\ fst (fst (snd e)) = s.
Proof.
  unfold remote_ranks. intros H. assert (K : forall l s0, (forall e, In e l -> fst (fst (snd e)) < Z.of_nat size) -> ascending s0 ->
    exists nb, foldM (fun s (e : Z * (Z * Z * Z)) => let remote_rank := fst (fst (snd e)) in if -1 <? remote_rank then _ <- assert (remote_rank <? Z.of_nat size) ;; Some (Mesh_Model.set_add remote_rank s) else Some s) s0 l = Some nb /\
      ascending nb /\ forall s, In s nb <-> In s s0 \/ -1 < s /\ exists e, In e l /\ fst (fst (snd e)) = s).
  { clear H. induction l as [|e l IH]; intros s0 H A; [exists s0; split; [reflexivity|]; split; [exact A|]; intros s; split; [auto|intros [X|(_ & e & [] & _)]; exact X]|]. cbn [foldM]. cbv zeta.
    assert (H' : forall e, In e l -> fst (fst (snd e)) < Z.of_nat size) by (intros x I; apply H; right; exact I). destruct (Z.ltb_spec (-1) (fst (fst (snd e)))) as [L|L].
    - assert (Q : fst (fst (snd e)) <? Z.of_nat size = true) by (apply Z.ltb_lt, H; left; reflexivity). rewrite Q. cbn [assert obind]. destruct (IH (Mesh_Model.set_add (fst (fst (snd e))) s0) H' (set_add_ascending _ _ A)) as (nb & E & A' & I). exists nb. split; [exact E|]. split; [exact A'|]. intros s. rewrite I, in_set_add. split.
      + intros [[->|X]|(X & y & Y & Z)]; [right; split; [exact L|exists e; split; [left|]; reflexivity]|auto|right; split; [exact X|exists y; split; [right; exact Y|exact Z]]].
      + intros [X|(X & y & [<-|Y] & Z)]; [auto|left; left; symmetry; exact Z|right; split; [exact X|exists y; auto]].
    - cbn [obind]. destruct (IH s0 H' A) as (nb & E & A' & I). exists nb. split; [exact E|]. split; [exact A'|]. intros s. rewrite I. split.
      + intros [X|(X & y & Y & Z)]; [auto|right; split; [exact X|exists y; split; [right; exact Y|exact Z]]].
      + intros [X|(X & y & [<-|Y] & Z)]; [auto|lia|right; split; [exact X|exists y; auto]]. }
  destruct (K (h_remote h) [] H Logic.I) as (nb & E & A & I). exists nb. split; [exact E|]. split; [exact A|]. intros s. rewrite I. cbn. tauto.
Qed.

Section Halos.
  Context (ni : nat) (G : Halo_Spec.mesh) (m : mesh) (ranks : list rank_mesh).
  Context (W : width ni) (Hm : mesh_ok m) (H3 : (ndim m <= 3)%nat) (HG : Halo_Spec.mesh_ok (ndim m) G).
  Context (Hr : Forall (rank_ok ni G) ranks) (Hs : Z.of_nat (length ranks) < 2 ^ 31) (Ha : apart ranks).
  Context (nodes : list (list nat)) (maps0 : list (list Z)) (M0 : length maps0 = length nodes).
  Context (owners : list Z) (Lo : length owners = Z.to_nat (ncells m)).
  Context (find0 find1 : remote) (F0 : MHC_Spec.finds (length ranks) find0) (F1 : MHC_Spec.finds (length ranks) find1).
  Context (Hl : not_too_large ni m ranks).
  Lemma rank_at r : (r < length ranks)%nat -> exists rm, nth_error ranks r = Some rm.
  Proof. intros L. destruct (nth_error ranks r) as [rm|] eqn:E; [exists rm; reflexivity|]. apply nth_error_None in E. lia. Qed.
  Definition is_halo (r : nat) (msg : cell_msg) : Prop :=
    exists s n b t, s <> r /\ element ni ranks s n b msg /\ meets m b t /\ reached m ranks owners r t /\ exists o, (o < length ranks)%nat /\ owner owners m t o.
  Lemma element_at s n b msg : element ni ranks s n b msg -> owning_rank msg = Z.of_nat s /\ local_id msg = Z.of_nat n /\ cell_ok ni msg /\ Halo_Spec.sent ni G msg /\
    exists rm p, nth_error ranks s = Some rm /\ get_dmplex_cell_index (rk_helper rm) (Z.of_nat n) = Some p /\ global_id msg = hnum (rk_helper rm) p.
  Proof.
    intros (rm & E & Nb & Em). destruct (element_ok ni G m ranks W H3 HG Hr Hs nodes maps0 M0 s rm n b E Nb) as (msg' & Em' & A & B & C & D & p & P1 & P2). assert (msg' = msg) by congruence. subst msg'. repeat (split; [assumption|]). exists rm, p. auto.
  Qed.
  (** Rank and global number determine a cell. *)
  Lemma element_same s n b msg s' n' b' msg' : element ni ranks s n b msg -> element ni ranks s' n' b' msg' -> global_id msg = global_id msg' -> s = s' /\ n = n'.
  Proof.
    intros A B E. destruct (element_at _ _ _ _ A) as (_ & _ & _ & _ & rm & p & R1 & P1 & G1). destruct (element_at _ _ _ _ B) as (_ & _ & _ & _ & rm' & p' & R2 & P2 & G2).
    assert (S : s = s') by (apply (Ha s s' rm rm' _ _ p p' R1 R2 P1 P2); congruence). split; [exact S|]. subst s'. assert (rm' = rm) by congruence. subst rm'.
    destruct (rank_in ni G ranks Hr s rm R1) as (d & num & a & e & Hp & Ch & Eh & _).
    destruct (proj2 (Halo_Props.C71_cells d num a e) (rk_helper rm) Eh) as (C1 & _). destruct (C1 _ _ P1) as (L1 & B1 & N1). destruct (C1 _ _ P2) as (L2 & B2 & N2).
    destruct (Halo_Proofs.helper_ok _ _ _ _ _ Eh) as (_ & En). rewrite G1, G2, En in E.
    assert (p = p'). { apply (proj1 Hp); [unfold in_chart; rewrite andb_true_iff, Z.leb_le, Z.ltb_lt; lia|unfold in_chart; rewrite andb_true_iff, Z.leb_le, Z.ltb_lt; lia|]. rewrite E. reflexivity. }
    subst p'. assert (Z.of_nat n = Z.of_nat n') by congruence. lia.
  Qed.

  Lemma data_all : exists data, mapM (fun x => element_cells ni (fst x) (fst (snd x)) (snd (snd x))) (List.combine (seq 0 (length ranks)) (List.combine ranks (map (lc_of m) ranks))) = Some data /\
    length data = length ranks /\
    forall r rm, nth_error ranks r = Some rm -> exists d, nth_error data r = Some d /\ map fst d = map fst (geom_map (lc_of m rm)) /\
      forall c msgs, In (c, msgs) d -> exists t, cell_tuple m t /\ cell_index m t = c /\ forall msg, In msg msgs <-> exists n b, element ni ranks r n b msg /\ meets m b t.
  Proof.
    assert (NC : forall r rm, nth_error ranks r = Some rm -> nth_error (List.combine (seq 0 (length ranks)) (List.combine ranks (map (lc_of m) ranks))) r = Some (r, (rm, lc_of m rm))).
    { intros r rm E. rewrite nth_combine, (nth_ids _ _ _ E), nth_combine, E, nth_error_map, E. reflexivity. }
    set (items := List.combine (seq 0 (length ranks)) (List.combine ranks (map (lc_of m) ranks))) in *. assert (Li : length items = length ranks) by (unfold items; rewrite !combine_length, seq_length, map_length; lia).
    assert (NI : forall r x, nth_error items r = Some x -> exists rm, nth_error ranks r = Some rm /\ x = (r, (rm, lc_of m rm))).
    { intros r x X. assert (r < length ranks)%nat by (rewrite <- Li; apply nth_error_Some; congruence). destruct (rank_at r) as (rm & E); [assumption|]. exists rm. split; [exact E|]. rewrite (NC r rm E) in X. congruence. }
    destruct (mapM_total (fun x => element_cells ni (fst x) (fst (snd x)) (snd (snd x))) items) as (data & Ed).
    { intros x I. apply In_nth_error in I. destruct I as (r & X). destruct (NI r x X) as (rm & E & ->). cbn [fst snd]. destruct (element_cells_ok ni G m ranks W Hm H3 HG Hr Hs nodes maps0 M0 r rm E) as (d & D & _). exists d. exact D. }
    exists data. split; [exact Ed|]. apply mapM_nth in Ed. destruct Ed as (Ld & Hd). split; [lia|]. intros r rm E. destruct (Hd r _ (NC r rm E)) as (d & D & Q). exists d. split; [exact D|]. cbn [fst snd] in Q.
    destruct (element_cells_ok ni G m ranks W Hm H3 HG Hr Hs nodes maps0 M0 r rm E) as (d' & D' & Z). assert (d' = d) by congruence. subst d'. exact Z.
  Qed.
  Lemma objects_at data c t : length data = length ranks ->
    (forall r rm, nth_error ranks r = Some rm -> exists d, nth_error data r = Some d /\ map fst d = map fst (geom_map (lc_of m rm)) /\
      forall c msgs, In (c, msgs) d -> exists t, cell_tuple m t /\ cell_index m t = c /\ forall msg, In msg msgs <-> exists n b, element ni ranks r n b msg /\ meets m b t) ->
    cell_tuple m t -> cell_index m t = c -> forall msg, In msg (MHC_Spec.objects data c) <-> exists s n b, element ni ranks s n b msg /\ meets m b t.
  Proof.
    intros Ld H C Ec msg. unfold MHC_Spec.objects. rewrite in_flat_map. split.
    - intros (d & I & J). apply In_nth_error in I. destruct I as (s & I). destruct (rank_at s) as (rm & E); [rewrite <- Ld; apply nth_error_Some; congruence|]. destruct (H s rm E) as (d' & D & _ & K). assert (d' = d) by congruence. subst d'. apply in_flat_map in J. destruct J as ((c', msgs) & J & L). cbn [fst snd] in L. destruct (Z.eqb_spec c' c) as [->|]; [|destruct L]. destruct (K c msgs J) as (t' & C' & E' & Q). assert (t' = t) by (apply (index_inj m); auto; congruence). subst t'. apply Q in L. destruct L as (n & b & L). exists s, n, b. exact L.
    - intros (s & n & b & El & M). pose proof El as (rm & E & Nb & _). destruct (H s rm E) as (d & D & Fs & K). exists d. split; [apply (nth_error_In _ _ D)|]. destruct (in_geom ni G m ranks Hm H3 Hr s rm n b t E Nb C M) as (l & Il & _). assert (If : In (cell_index m t) (map fst d)) by (rewrite Fs; apply (in_map fst) in Il; exact Il). apply in_map_iff in If. destruct If as ((c', msgs) & Q & J). cbn [fst] in Q. rewrite Ec in Q. subst c'. apply in_flat_map. exists (c, msgs). split; [exact J|]. cbn [fst snd]. rewrite Z.eqb_refl. destruct (K c msgs J) as (t' & C' & E' & Q'). assert (t' = t) by (apply (index_inj m); auto; congruence). subst t'. apply Q'. exists n, b. auto.
  Qed.
  Lemma create_ok : exists out, create_halos ni m owners find0 find1 ranks (map (lc_of m) ranks) = Some out /\ length out = length ranks /\
    forall r cells h nb, nth_error out r = Some (cells, h, nb) ->
      (forall msg, In msg cells <-> is_halo r msg) /\ halo_from ni (ndim m) cells = Some h /\ remote_ranks (length ranks) h = Some nb.
  Proof.
    unfold create_halos. cbv zeta. destruct data_all as (data & Ed & Ld & Hd). pose proof (Hl _ _ (lcs_ok ni G m ranks Hm H3 Hr) Ed) as Sz. rewrite Ed. cbn [obind].
    assert (CO : forall t, cell_tuple m t -> MHC_Spec.cell_ok (get_owner owners) (cell_index m t)).
    { intros t C. pose proof (index_bounds m Hm t C) as B. split; [lia|]. unfold get_owner. destruct (Z.ltb_spec (cell_index m t) 0); [lia|]. unfold rd. intros X. apply nth_error_None in X. lia. }
    (* the requests *)
    set (rq := List.combine (seq 0 (length ranks)) (map (lc_of m) ranks)).
    assert (Lr : length rq = length ranks) by (unfold rq; rewrite !combine_length, seq_length, map_length; lia).
    assert (NR : forall r rm, nth_error ranks r = Some rm -> nth_error rq r = Some (r, lc_of m rm)) by (intros r rm E; unfold rq; rewrite nth_combine, (nth_ids _ _ _ E), nth_error_map, E; reflexivity).
    assert (NI : forall r x, nth_error rq r = Some x -> exists rm, nth_error ranks r = Some rm /\ x = (r, lc_of m rm)).
    { intros r x X. destruct (rank_at r) as (rm & E); [rewrite <- Lr; apply nth_error_Some; congruence|]. exists rm. split; [exact E|]. rewrite (NR r rm E) in X. congruence. }
    destruct (mapM_total (fun x => cells_to_gather m owners (fst x) (snd x)) rq) as (req & Er).
    { intros x I. apply In_nth_error in I. destruct I as (r & X). destruct (NI r x X) as (rm & E & ->). cbn [fst snd]. destruct (gather_cells ni G m ranks Hm H3 Hr nodes maps0 M0 owners r rm Lo E) as (o & O & _). exists o. exact O. }
    rewrite Er. pose proof Er as Er'. apply mapM_nth in Er'. destruct Er' as (Lq & Hq). rewrite Lr in Lq.
    assert (RQ : forall r rm, nth_error ranks r = Some rm -> exists q, nth_error req r = Some q /\ ascending q /\ (forall c, In c q -> exists t, cell_tuple m t /\ cell_index m t = c) /\ forall t, cell_tuple m t -> In (cell_index m t) q <-> reached m ranks owners r t).
    { intros r rm E. destruct (Hq r _ (NR r rm E)) as (q & Q & X). exists q. split; [exact Q|]. cbn [fst snd] in X. destruct (gather_cells ni G m ranks Hm H3 Hr nodes maps0 M0 owners r rm Lo E) as (o & O & Y). assert (o = q) by congruence. subst o. exact Y. }
    (* the container *)
    destruct (MHC_Props.C69_container cell_msg (cell_serial ni) (cell_ok ni) (length ranks) (get_owner owners) data find0 [(find1, req)]) as (st0 & st & Ec & Eg & Ls & Hc).
    { apply Halo_Props.C70_contract, W. }
    { split; [exact Ld|]. split; [|lia]. intros d I. apply In_nth_error in I. destruct I as (r & I). destruct (rank_at r) as (rm & E); [rewrite <- Ld; apply nth_error_Some; congruence|]. destruct (Hd r rm E) as (d' & D & Fs & K). assert (d' = d) by congruence. subst d'. split.
      - rewrite Fs. apply sorted_nodup, geom_is_map.
      - intros (c, msgs) J. cbn [fst snd]. destruct (K c msgs J) as (t & C & Ei & Q). split; [rewrite <- Ei; apply CO, C|]. apply Forall_forall. intros msg X. apply Q in X. destruct X as (n & b & El & _). apply (element_at _ _ _ _ El). }
    { exact F0. }
    { intros f q [X|[]]. injection X as <- <-. split; [exact F1|]. split; [exact Lq|]. intros cells I. apply In_nth_error in I. destruct I as (r & I). destruct (rank_at r) as (rm & E); [rewrite <- Lq; apply nth_error_Some; congruence|]. destruct (RQ r rm E) as (q & Q & As & T & _). assert (q = cells) by congruence. subst q. split; [intros c X; destruct (T c X) as (t & C & <-); apply CO, C|].
      assert (length cells <= Z.to_nat (ncells m))%nat; [|lia]. rewrite <- (seq_length (Z.to_nat (ncells m)) 0). rewrite <- (map_length Z.of_nat). apply NoDup_incl_length; [apply (ascending_nodup m H3), As|].
      intros c X. destruct (T c X) as (t & C & <-). pose proof (index_bounds m Hm t C). apply in_map_iff. exists (Z.to_nat (cell_index m t)). split; [lia|]. apply in_seq. lia. }
    rewrite Ec. cbn [obind foldM fst snd] in Eg |- *. destruct (gather (length ranks) (get_owner owners) find1 st0 req) as [st'|]; [|discriminate]. cbn [obind] in Eg |- *. injection Eg as ->.
    (* the results *)
    set (fin := List.combine (seq 0 (length ranks)) (List.combine st req)). assert (Lf : length fin = length ranks) by (unfold fin; rewrite !combine_length, seq_length; lia).
    assert (NF : forall r x, nth_error fin r = Some x -> exists rm s q, nth_error ranks r = Some rm /\ nth_error st r = Some s /\ nth_error req r = Some q /\ x = (r, (s, q))).
    { intros r x X. destruct (rank_at r) as (rm & E); [rewrite <- Lf; apply nth_error_Some; congruence|]. unfold fin in X. rewrite !nth_combine, (nth_ids _ _ _ E) in X. destruct (nth_error st r) as [s|]; [|discriminate]. destruct (nth_error req r) as [q|]; [|discriminate]. exists rm, s, q. split; [exact E|]. split; [reflexivity|]. split; [reflexivity|]. congruence. }
    assert (HC : forall r rm s q, nth_error ranks r = Some rm -> nth_error st r = Some s -> nth_error req r = Some q -> exists cells, halo_cells ni r s q = Some cells /\ forall msg, In msg cells <-> is_halo r msg).
    { intros r rm s q E Es Eq. destruct (RQ r rm E) as (q' & Q & _ & T & RT). assert (q' = q) by congruence. subst q'.
      assert (GT : forall t, cell_tuple m t -> In (cell_index m t) q -> exists l, get (cell_serial ni) s (cell_index m t) = Some l /\ forall msg, In msg l <-> (exists o, (o < length ranks)%nat /\ owner owners m t o) /\ exists s' n b, element ni ranks s' n b msg /\ meets m b t).
      { intros t C I. destruct (Hc r s (cell_index m t) Es (CO t C)) as (C1 & C2 & _). assert (RQ' : MHC_Spec.requested (map snd [(find1, req)]) r (cell_index m t)) by (exists req, q; split; [left; reflexivity|auto]).
        destruct (CO t C) as (_ & No). destruct (get_owner owners (cell_index m t)) as [z|] eqn:Ez; [|congruence]. clear No. destruct (Z_lt_le_dec z 0) as [Lz|Lz]; [|destruct (Z_lt_le_dec z (Z.of_nat (length ranks))) as [Lz'|Lz']].
        - exists []. split; [apply C2; [|exact RQ']; intros o (Lo' & X); rewrite Ez in X; injection X as X; lia|]. intros msg. split; [intros []|]. intros ((o & Lo' & X) & _). unfold owner in X. rewrite Ez in X. injection X as X. lia.
        - exists (MHC_Spec.objects data (cell_index m t)). assert (Ow : (Z.to_nat z < length ranks)%nat /\ owner owners m t (Z.to_nat z)) by (unfold owner; rewrite Ez, Z2Nat.id by lia; split; [lia|reflexivity]). split; [apply (C1 (Z.to_nat z)); [exact Ow|left; exact RQ']|]. intros msg. rewrite (objects_at data (cell_index m t) t Ld Hd C eq_refl msg). split; [intros X; split; [exists (Z.to_nat z); exact Ow|exact X]|tauto].
        - exists []. split; [apply C2; [|exact RQ']; intros o (Lo' & X); rewrite Ez in X; injection X as X; lia|]. intros msg. split; [intros []|]. intros ((o & Lo' & X) & _). unfold owner in X. rewrite Ez in X. injection X as X. lia. }
      unfold halo_cells.
      destruct (foldM_app_total (fun c => l <- get (cell_serial ni) s c ;; Some (filter (fun x => negb (owning_rank x =? Z.of_nat r)) l)) q) with (acc := @nil cell_msg) as (cells & Ef).
      { intros c I. destruct (T c I) as (t & C & <-). destruct (GT t C I) as (l & L & _). rewrite L. eexists. reflexivity. }
      assert (Eq' : foldM (fun acc c => l <- get (cell_serial ni) s c ;; Some (acc ++ filter (fun x => negb (owning_rank x =? Z.of_nat r)) l)) [] q = Some cells).
      { rewrite <- Ef. clear. generalize (@nil cell_msg). induction q as [|c q IH]; intros acc; [reflexivity|]. cbn [foldM]. destruct (get (cell_serial ni) s c) as [l|]; cbn [obind]; [apply IH|reflexivity]. }
      exists cells. split; [exact Eq'|]. intros msg. rewrite (in_foldM_app _ _ _ _ Ef msg). split.
      - intros [[]|(c & x & I & F & J)]. destruct (T c I) as (t & C & <-). destruct (GT t C I) as (l & L & X). rewrite L in F. cbn [obind] in F. injection F as <-. apply filter_In in J. destruct J as (J & N). apply X in J. destruct J as (O & s' & n & b & El & M). exists s', n, b, t. split; [|split; [exact El|split; [exact M|split; [apply RT; assumption|exact O]]]].
        intros ->. destruct (element_at _ _ _ _ El) as (Eo & _). rewrite Eo, Z.eqb_refl in N. discriminate.
      - intros (s' & n & b & t & N & El & M & Re & O). right. pose proof (proj1 Re) as C. pose proof (proj2 (RT t C) Re) as I. destruct (GT t C I) as (l & L & X). exists (cell_index m t), (filter (fun x => negb (owning_rank x =? Z.of_nat r)) l). split; [exact I|]. rewrite L. split; [reflexivity|]. apply filter_In. split; [apply X; split; [exact O|exists s', n, b; auto]|]. destruct (element_at _ _ _ _ El) as (Eo & _). rewrite Eo. apply negb_true_iff, Z.eqb_neq. lia. }
    assert (HF : forall r cells, (forall msg, In msg cells <-> is_halo r msg) -> exists h nb, halo_from ni (ndim m) cells = Some h /\ remote_ranks (length ranks) h = Some nb).
    { intros r cells Hcl. destruct (Halo_Props.C70_halo ni (ndim m) G cells W HG) as (h & new & Eh & Hh). { apply Forall_forall. intros msg I. apply Hcl in I. destruct I as (s & n & b & t & _ & El & _). apply (element_at _ _ _ _ El). }
      exists h. destruct (remote_ranks_ok (length ranks) h) as (nb & Enb & _); [|exists nb; auto]. intros (k, v) I. cbn [snd].
      destruct Hh as (_ & Hk & _ & _ & _ & _ & _ & _ & _ & R1 & R2 & R3). apply (in_map_get _ _ _ (sorted_nodup _ (remote_is_map _ _ _ _ Eh))) in I.
      assert (B : 0 <= k < h_chart h). { destruct (Z_le_dec 0 k); [|rewrite R3 in I by lia; discriminate]. destruct (Z_lt_dec k (h_chart h)); [lia|rewrite R3 in I by lia; discriminate]. }
      destruct (Hk k B) as (q & Pq & <-). destruct (in_dec Z.eq_dec q (map global_id cells)) as [J|J].
      - apply in_map_iff in J. destruct J as (c & <- & J). destruct (R1 c J) as (c' & J' & _ & R). rewrite R in I. injection I as <-. cbn [fst]. apply Hcl in J'. destruct J' as (s & n & b & t & _ & El & _). destruct (element_at _ _ _ _ El) as (-> & _ & _ & _ & rm & p & X & _). assert (s < length ranks)%nat by (apply nth_error_Some; congruence). lia.
      - rewrite (R2 q Pq J) in I. injection I as <-. cbn [fst]. lia. }
    destruct (mapM_total (fun x => cells <- halo_cells ni (fst x) (fst (snd x)) (snd (snd x)) ;; h <- halo_from ni (ndim m) cells ;; nb <- remote_ranks (length ranks) h ;; Some (cells, h, nb)) fin) as (out & Eo).
    { intros x I. apply In_nth_error in I. destruct I as (r & X). destruct (NF r x X) as (rm & s & q & E & Es & Eq & ->). cbn [fst snd]. destruct (HC r rm s q E Es Eq) as (cells & -> & Hcl). cbn [obind]. destruct (HF r cells Hcl) as (h & nb & -> & A). cbn [obind]. rewrite A. eexists. reflexivity. }
    exists out. split; [exact Eo|]. apply mapM_nth in Eo. destruct Eo as (L & Ho). split; [lia|]. intros r cells h nb X. assert (Lr' : (r < length fin)%nat) by (rewrite <- L; apply nth_error_Some; congruence). destruct (nth_error fin r) as [x|] eqn:Ex; [|apply nth_error_None in Ex; lia]. destruct (Ho r x Ex) as (y & Y & F). destruct (NF r x Ex) as (rm & s & q & E & Es & Eq & ->). cbn [fst snd] in F. destruct (HC r rm s q E Es Eq) as (cells' & Ecl & Hcl). rewrite Ecl in F. cbn [obind] in F. destruct (HF r cells' Hcl) as (h' & nb' & Eh' & En'). rewrite Eh' in F. cbn [obind] in F. rewrite En' in F. cbn [obind] in F.
    assert (cells' = cells /\ h' = h /\ nb' = nb) as (-> & -> & ->) by (repeat split; congruence). auto.
  Qed.
  Lemma halo_facts r cells h nb : (forall msg, In msg cells <-> is_halo r msg) -> halo_from ni (ndim m) cells = Some h -> remote_ranks (length ranks) h = Some nb ->
    (exists new, Halo_Spec.halo_ok G (ndim m) cells h new /\ forall msg, In msg cells -> map_get (h_remote h) (new (global_id msg)) = Some (owning_rank msg, local_id msg, global_id msg)) /\
    ascending nb /\ forall s, In s nb <-> exists msg, In msg cells /\ owning_rank msg = s.
  Proof.
    intros Hcl Eh En. destruct (Halo_Props.C70_halo ni (ndim m) G cells W HG) as (h' & new & Eh' & Hh). { apply Forall_forall. intros msg I. apply Hcl in I. destruct I as (s & n & b & t & _ & El & _). apply (element_at _ _ _ _ El). }
    assert (h' = h) by congruence. subst h'. pose proof Hh as Hh'. destruct Hh' as (_ & Hk & _ & _ & _ & _ & _ & _ & _ & R1 & R2 & R3).
    assert (RM : forall msg, In msg cells -> map_get (h_remote h) (new (global_id msg)) = Some (owning_rank msg, local_id msg, global_id msg)).
    { intros msg I. destruct (R1 msg I) as (c' & J & Eg & R). rewrite R. apply Hcl in I. apply Hcl in J. destruct I as (s & n & b & t & _ & El & _). destruct J as (s' & n' & b' & t' & _ & El' & _). destruct (element_same _ _ _ _ _ _ _ _ El' El Eg) as (-> & ->). destruct (element_at _ _ _ _ El) as (-> & -> & _). destruct (element_at _ _ _ _ El') as (-> & -> & _). reflexivity. }
    split; [exists new; auto|].
    assert (RV : forall e, In e (h_remote h) -> fst (fst (snd e)) = -1 \/ exists msg, In msg cells /\ owning_rank msg = fst (fst (snd e))).
    { intros (k, v) I. cbn [snd]. apply (in_map_get _ _ _ (sorted_nodup _ (remote_is_map _ _ _ _ Eh))) in I.
      assert (B : 0 <= k < h_chart h). { destruct (Z_le_dec 0 k); [|rewrite R3 in I by lia; discriminate]. destruct (Z_lt_dec k (h_chart h)); [lia|rewrite R3 in I by lia; discriminate]. }
      destruct (Hk k B) as (q & Pq & <-). destruct (in_dec Z.eq_dec q (map global_id cells)) as [J|J].
      - apply in_map_iff in J. destruct J as (c & <- & J). rewrite (RM c J) in I. injection I as <-. right. exists c. auto.
      - rewrite (R2 q Pq J) in I. injection I as <-. left. reflexivity. }
    assert (OR : forall msg, In msg cells -> 0 <= owning_rank msg < Z.of_nat (length ranks)). { intros msg I. apply Hcl in I. destruct I as (s & n & b & t & _ & El & _). destruct (element_at _ _ _ _ El) as (-> & _ & _ & _ & rm & p & X & _). assert (s < length ranks)%nat by (apply nth_error_Some; congruence). lia. }
    destruct (remote_ranks_ok (length ranks) h) as (nb' & En' & As & I). { intros e J. destruct (RV e J) as [X|(msg & K & X)]; [lia|]. specialize (OR msg K). lia. }
    assert (nb' = nb) by congruence. subst nb'. split; [exact As|]. intros s. rewrite I. split.
    - intros (L & e & J & X). destruct (RV e J) as [Y|(msg & K & Y)]; [lia|]. exists msg. split; [exact K|congruence].
    - intros (msg & K & <-). specialize (OR msg K). split; [lia|]. exists (new (global_id msg), (owning_rank msg, local_id msg, global_id msg)). split; [apply map_get_in, RM, K|reflexivity].
  Qed.
End Halos.
