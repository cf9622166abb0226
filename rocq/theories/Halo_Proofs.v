(** The mesh built from the cells received. *)
From Coq Require Import List Arith ZArith Bool Lia Sorting.Sorted.
Import ListNotations.
From Verif Require Import Base Kernel Serial_Model MHC_Spec Serial_Proofs CellRep_Model CellRep_Spec CellRep_Proofs Halo_Model Halo_Spec HaloRep_Proofs HaloMap_Proofs.
Local Open Scope nat_scope.

Lemma mem_z_in x l : mem_z x l = true <-> In x l.
Proof. unfold mem_z. rewrite existsb_exists. split; [intros (y & I & E); apply Z.eqb_eq in E; subst; exact I|intros I; exists x; split; [exact I|apply Z.eqb_refl]]. Qed.

Section Rebuild.
  Context (ndim : nat) (G : mesh) (Hn : mesh_ok ndim G) (cells : list cell_msg) (reps : list cell_rep) (Hr : Forall2 (represents G) (map global_id cells) reps) (Ne : map global_id cells <> []).
  Context (P : nat -> list Z) (D : nat) (mp : mapper) (HM : mapped G (map global_id cells) reps P D mp).
  Local Notation US := (U G (map global_id cells)).
  Local Notation nw := (new mp).
  Local Notation evs := (events reps).
  Lemma US_points q : US q <-> points_of G cells q.
  Proof. split; [intros (g & I & L); apply in_map_iff in I; destruct I as (c & <- & I); exists c; split; assumption|intros (c & I & L); exists (global_id c); split; [apply in_map; exact I|exact L]]. Qed.
  Lemma nw_get q : US q -> map_get (to_local mp) q = Some (nw q).
  Proof. apply (new_get G (map global_id cells) reps P D mp HM). Qed.
  Lemma nw_range q : US q -> (0 <= nw q < chart_end mp)%Z.
  Proof. apply (new_range G (map global_id cells) reps P D mp HM). Qed.
  Lemma nw_inj q q' : US q -> US q' -> nw q = nw q' -> q = q'.
  Proof. apply (new_inj G (map global_id cells) reps P D mp HM). Qed.
  Lemma ev_in r e : In (r, e) evs -> exists g, In g (map global_id cells) /\ represents G g r /\ closure G g (fst e) /\ snd e = map fst (gcone G (fst e)).
  Proof. apply (events_in G (map global_id cells) reps Hr). Qed.
  Lemma ev_U q : US q <-> exists x, In x evs /\ fst (snd x) = q.
  Proof. apply (events_U G (map global_id cells) reps Hr). Qed.
  Definition seen_of (pre : list (cell_rep * (Z * list Z))) (seen : list Z) : Prop := forall q, In q seen <-> exists x, In x pre /\ fst (snd x) = q.
  Lemma seen_step pre r e seen : seen_of pre seen -> seen_of (pre ++ [(r, e)]) (set_add seen (fst e)).
  Proof.
    intros H q. rewrite set_add_in, (H q). split.
    - intros [->|(x & I & E)]; [exists (r, e); split; [apply in_elt|reflexivity]|exists x; split; [apply in_or_app; left; exact I|exact E]].
    - intros (x & I & E). apply in_app_or in I. destruct I as [I|[<-|[]]]; [right; exists x; split; assumption|left; symmetry; exact E].
  Qed.
  Lemma seen_skip pre r e seen : seen_of pre seen -> In (fst e) seen -> seen_of (pre ++ [(r, e)]) seen.
  Proof.
    intros H I q. rewrite (H q). split.
    - intros (x & J & E); exists x; split; [apply in_or_app; left; exact J|exact E].
    - intros (x & J & E). apply in_app_or in J. destruct J as [J|[<-|[]]]; [exists x; split; assumption|]. cbn [snd] in E. subst q. apply H. exact I.
  Qed.
  Lemma seen_US pre post seen q : evs = pre ++ post -> seen_of pre seen -> In q seen -> US q.
  Proof. intros E H I. apply H in I. destruct I as (x & I & Ex). apply ev_U. exists x. split; [rewrite E; apply in_or_app; left; exact I|exact Ex]. Qed.

  Lemma cone_sizes_ok : exists sizes, cone_sizes mp reps = Some sizes /\ forall q, US q -> map_get sizes (nw q) = Some (length (gcone G q)).
  Proof.
    unfold cone_sizes. rewrite (foldM_nest2 (fun r st e => let '(seen, sizes) := st in if mem_z (fst e) seen then Some st else l <- map_get (to_local mp) (fst e) ;; _ <- assert ((0 <=? l)%Z && (l <? chart_end mp)%Z) ;; Some (set_add seen (fst e), map_set sizes l (length (snd e)))) cones). fold (events reps).
    set (f := fun s x => _). destruct (foldM_ind f (fun pre st => seen_of pre (fst st) /\ forall q, In q (fst st) -> map_get (snd st) (nw q) = Some (length (gcone G q))) evs ([], [])) as ((seen, sizes) & E & Hs & Hz).
    - split; [|intros q []]. intros q. split; [intros []|intros (x & [] & _)].
    - intros pre (r, e) post (seen, sizes) E (Hs & Hz). cbn [fst snd] in *. assert (I : In (r, e) evs) by (rewrite E; apply in_elt). destruct (ev_in r e I) as (g & _ & R & L & Es). assert (Uq : US (fst e)) by (apply ev_U; exists (r, e); split; [exact I|reflexivity]).
      unfold f. cbn [fst snd]. destruct (mem_z (fst e) seen) eqn:Em.
      + exists (seen, sizes). split; [reflexivity|]. split; [apply seen_skip; [exact Hs|apply mem_z_in; exact Em]|exact Hz].
      + rewrite (nw_get _ Uq). cbn [obind]. pose proof (nw_range _ Uq) as Rg. destruct (Z.leb_spec 0 (nw (fst e))); [|lia]. destruct (Z.ltb_spec (nw (fst e)) (chart_end mp)); [|lia]. cbn [andb assert obind]. eexists. split; [reflexivity|]. cbn [fst snd]. split; [apply seen_step; exact Hs|]. intros q Iq. rewrite map_get_set. destruct (Z.eqb_spec (nw q) (nw (fst e))) as [En|Nn].
        * assert (US q). { apply set_add_in in Iq. destruct Iq as [->|Iq]; [exact Uq|]. apply (seen_US pre ((r, e) :: post) seen q E Hs Iq). } rewrite (nw_inj q (fst e) H1 Uq En). rewrite Es, map_length. reflexivity.
        * apply Hz. apply set_add_in in Iq. destruct Iq as [->|Iq]; [congruence|exact Iq].
    - rewrite E. cbn [obind snd]. exists sizes. split; [reflexivity|]. intros q Uq. apply Hz. apply Hs. apply ev_U. exact Uq.
  Qed.
  Lemma rename_cone q : US q -> mapM (map_get (to_local mp)) (map fst (gcone G q)) = Some (map (fun e => nw (fst e)) (gcone G q)).
  Proof.
    intros Uq. rewrite mapM_map. apply (mapM_some _ (fun e : Z * Z => nw (fst e))). intros (c, o) I. apply nw_get. apply (U_cone G (map global_id cells) q c o Uq I).
  Qed.
  Lemma set_cones_ok sizes remote : (forall q, US q -> map_get sizes (nw q) = Some (length (gcone G q))) -> exists seen cs os remote',
    set_cones mp sizes remote reps = Some (seen, (cs, os), remote') /\
    (forall i c, map_get cs i = Some c <-> exists q, US q /\ nw q = i /\ c = map (fun e => nw (fst e)) (gcone G q)) /\
    (forall i c, map_get os i = Some c <-> exists q, US q /\ nw q = i /\ c = map snd (gcone G q)) /\
    (forall q, US q -> map_get remote' (nw q) = match map_get remote (nw q) with Some t => Some t | None => Some (-1, -1, q)%Z end) /\
    (forall i, (forall q, US q -> nw q <> i) -> map_get remote' i = map_get remote i).
  Proof.
    intros Hz. unfold set_cones. rewrite (foldM_nest2 (fun r st e => let '(seen, (cs, os), remote) := st in
      if mem_z (fst e) seen then Some st
      else l <- map_get (to_local mp) (fst e) ;; c <- mapM (map_get (to_local mp)) (snd e) ;; s <- map_get sizes l ;; c' <- next_n s c ;; o <- map_get (orientations r) (fst e) ;; o' <- next_n s o ;;
           let remote' := match map_get remote l with Some _ => remote | None => map_set remote l (-1, -1, fst e)%Z end in
           Some (set_add seen (fst e), (map_set cs l (fst c'), map_set os l (fst o')), remote')) cones). fold (events reps). set (f := fun s x => _).
    destruct (foldM_ind f (fun pre st => let '(seen, (cs, os), rm) := st in seen_of pre seen /\
      (forall i c, map_get cs i = Some c <-> exists q, In q seen /\ nw q = i /\ c = map (fun e => nw (fst e)) (gcone G q)) /\
      (forall i c, map_get os i = Some c <-> exists q, In q seen /\ nw q = i /\ c = map snd (gcone G q)) /\
      (forall q, In q seen -> map_get rm (nw q) = match map_get remote (nw q) with Some t => Some t | None => Some (-1, -1, q)%Z end) /\
      (forall i, (forall q, In q seen -> nw q <> i) -> map_get rm i = map_get remote i)) evs ([], ([], []), remote)) as ([[seen [cs os]] rm] & E & Hs & Hc & Ho & Hm & Hm').
    - split; [|split; [|split; [|split]]]; try (intros i c; cbn; split; [discriminate|intros (q & [] & _)]); [|intros q []|intros i _; reflexivity]. intros q. split; [intros []|intros (x & [] & _)].
    - intros pre (r, e) post [[seen [cs os]] rm] E (Hs & Hc & Ho & Hm & Hm'). assert (I : In (r, e) evs) by (rewrite E; apply in_elt). destruct (ev_in r e I) as (g & _ & R & L & Es). assert (Uq : US (fst e)) by (apply ev_U; exists (r, e); split; [exact I|reflexivity]). assert (Us : forall q, In q seen -> US q) by (intros q; apply (seen_US pre ((r, e) :: post) seen q E Hs)).
      unfold f. cbn [fst snd]. destruct (mem_z (fst e) seen) eqn:Em.
      + eexists. split; [reflexivity|]. cbv beta iota. split; [apply seen_skip; [exact Hs|apply mem_z_in; exact Em]|]. auto.
      + assert (Nm : ~ In (fst e) seen) by (intros J; apply mem_z_in in J; congruence). assert (Nn : forall q, In q seen -> nw q <> nw (fst e)) by (intros q J En; apply Nm; rewrite <- (nw_inj q (fst e) (Us q J) Uq En); exact J).
        rewrite (nw_get _ Uq). cbn [obind]. rewrite Es, (rename_cone _ Uq). cbn [obind]. rewrite (Hz _ Uq). cbn [obind].
        rewrite <- (app_nil_r (map (fun e => nw (fst e)) (gcone G (fst e)))), next_n_app by (rewrite map_length; reflexivity). cbn [obind fst]. destruct R as (_ & _ & Ro & _). rewrite (proj2 (Ro (fst e) (map snd (gcone G (fst e))))) by (split; [exact L|reflexivity]). cbn [obind]. rewrite <- (app_nil_r (map snd (gcone G (fst e)))), next_n_app by (rewrite map_length; reflexivity). cbn [obind fst].
        eexists. split; [reflexivity|]. cbv beta iota. split; [apply seen_step; exact Hs|]. split; [|split; [|split]].
        * intros i c. rewrite map_get_set. destruct (Z.eqb_spec i (nw (fst e))) as [->|Ni]; split.
          -- intros Ec. injection Ec as <-. exists (fst e). split; [apply set_add_in; left; reflexivity|split; reflexivity].
          -- intros (q & J & En & ->). apply set_add_in in J. destruct J as [->|J]; [reflexivity|]. destruct (Nn q J En).
          -- intros Ec. apply Hc in Ec. destruct Ec as (q & J & Ec). exists q. split; [apply set_add_in; right; exact J|exact Ec].
          -- intros (q & J & En & Ec). apply Hc. apply set_add_in in J. destruct J as [->|J]; [congruence|]. exists q. repeat split; assumption.
        * intros i c. rewrite map_get_set. destruct (Z.eqb_spec i (nw (fst e))) as [->|Ni]; split.
          -- intros Ec. injection Ec as <-. exists (fst e). split; [apply set_add_in; left; reflexivity|split; reflexivity].
          -- intros (q & J & En & ->). apply set_add_in in J. destruct J as [->|J]; [reflexivity|]. destruct (Nn q J En).
          -- intros Ec. apply Ho in Ec. destruct Ec as (q & J & Ec). exists q. split; [apply set_add_in; right; exact J|exact Ec].
          -- intros (q & J & En & Ec). apply Ho. apply set_add_in in J. destruct J as [->|J]; [congruence|]. exists q. repeat split; assumption.
        * intros q J. pose proof (Hm' (nw (fst e)) Nn) as Ee. apply set_add_in in J. destruct J as [->|J].
          -- rewrite Ee. destruct (map_get remote (nw (fst e))); [exact Ee|]. rewrite map_get_set, Z.eqb_refl. reflexivity.
          -- destruct (map_get rm (nw (fst e))); [apply Hm; exact J|]. rewrite map_get_set. destruct (Z.eqb_spec (nw q) (nw (fst e))) as [En|]; [destruct (Nn q J En)|apply Hm; exact J].
        * intros i Hi. assert (Ni : nw (fst e) <> i) by (apply Hi; apply set_add_in; left; reflexivity). assert (Hi' : forall q, In q seen -> nw q <> i) by (intros q J; apply Hi; apply set_add_in; right; exact J). destruct (map_get rm (nw (fst e))); [apply Hm'; exact Hi'|]. rewrite map_get_set. destruct (Z.eqb_spec i (nw (fst e))); [congruence|apply Hm'; exact Hi'].
    - exists seen, cs, os, rm. split; [exact E|]. assert (Es : forall q, In q seen <-> US q) by (intros q; rewrite ev_U; apply Hs). split; [|split; [|split]].
      + intros i c. rewrite Hc. split; intros (q & J & K); exists q; (split; [apply Es; exact J|exact K]).
      + intros i c. rewrite Ho. split; intros (q & J & K); exists q; (split; [apply Es; exact J|exact K]).
      + intros q J. apply Hm. apply Es. exact J.
      + intros i Hi. apply Hm'. intros q J. apply Hi. apply Es. exact J.
  Qed.

  (** The map of the cells. *)
  Lemma remote_ok : exists rm, foldM (fun m c => l <- map_get (to_local mp) (global_id c) ;; Some (map_set m l (owning_rank c, local_id c, global_id c))) [] cells = Some rm /\
    (forall i t, map_get rm i = Some t -> exists c, In c cells /\ nw (global_id c) = i /\ t = (owning_rank c, local_id c, global_id c)) /\
    (forall c, In c cells -> map_get rm (nw (global_id c)) <> None).
  Proof.
    apply (foldM_ind _ (fun pre rm => (forall i t, map_get rm i = Some t -> exists c, In c pre /\ nw (global_id c) = i /\ t = (owning_rank c, local_id c, global_id c)) /\ (forall c, In c pre -> map_get rm (nw (global_id c)) <> None))).
    - split; [discriminate|intros c []].
    - intros pre c post rm E (A & B). assert (I : In c cells) by (rewrite E; apply in_elt). assert (Uc : US (global_id c)) by (exists (global_id c); split; [apply in_map; exact I|constructor]). rewrite (nw_get _ Uc). cbn [obind]. eexists. split; [reflexivity|]. split.
      + intros i t. rewrite map_get_set. destruct (Z.eqb_spec i (nw (global_id c))) as [->|Ni]; intros Et; [injection Et as <-; exists c; split; [apply in_elt|split; reflexivity]|]. destruct (A i t Et) as (c' & I' & K). exists c'. split; [apply in_or_app; left; exact I'|exact K].
      + intros c' I'. rewrite map_get_set. destruct (Z.eqb_spec (nw (global_id c')) (nw (global_id c))) as [|Nn]; [discriminate|]. apply B. apply in_app_or in I'. destruct I' as [I'|[<-|[]]]; [exact I'|congruence].
  Qed.

  (** The coordinates. *)
  Definition vevents : list (cell_rep * (Z * list Z)) := flat_map (fun r => map (pair r) (vertices r)) reps.
  Lemma vevents_in r e : In (r, e) vevents -> US (fst e) /\ gdepth G (fst e) = 0 /\ snd e = gcoord G (fst e).
  Proof.
    unfold vevents. rewrite in_flat_map. intros (r' & Ir & I). apply in_map_iff in I. destruct I as (e' & Ee & I). injection Ee as -> ->. destruct (reps_in G (map global_id cells) reps Hr r Ir) as (g & Ig & R). destruct e as (p, x). destruct R as (W & _ & _ & Hv). apply (is_map_get _ p x (proj1 (proj2 W))) in I. apply Hv in I. destruct I as (L & Dp & Ex). split; [exists g; split; assumption|]. split; assumption.
  Qed.
  Lemma vevents_of q : US q -> gdepth G q = 0 -> exists r, In (r, (q, gcoord G q)) vevents.
  Proof.
    intros (g & Ig & L) Dq. destruct (reps_of G (map global_id cells) reps Hr g Ig) as (r & Ir & (W & _ & _ & Hv)). exists r. unfold vevents. apply in_flat_map. exists r. split; [exact Ir|]. apply in_map. apply map_get_in. apply Hv. repeat split; assumption.
  Qed.
  Definition nv := off P 1.
  Lemma vertex_small q : US q -> gdepth G q = 0 -> Z.to_nat (nw q) < nv.
  Proof. intros Uq Dq. pose proof (proj2 (new_vertex G (map global_id cells) reps P D mp HM q Uq) Dq). pose proof (nw_range q Uq). unfold nv. lia. Qed.
  Lemma write_coords_ok : exists v, write_coords mp ndim 0 (repeat None (nv * ndim)) reps = Some v /\ length v = nv * ndim /\
    forall q k, US q -> gdepth G q = 0 -> k < ndim -> nth_error v (Z.to_nat (nw q) * ndim + k) = Some (nth_error (gcoord G q) k).
  Proof.
    unfold write_coords. rewrite (foldM_nest2 (fun r coords e => l <- map_get (to_local mp) (fst e) ;; vertex_index <- as_size (l - 0)%Z ;; foldM (fun coords dimx => x <- nth_error (snd e) dimx ;; upd coords (vertex_index * ndim + dimx) (Some x)) coords (seq 0 ndim)) vertices). fold vevents. set (f := fun s x => _).
    destruct (foldM_ind f (fun pre v => length v = nv * ndim /\ forall r q x k, In (r, (q, x)) pre -> k < ndim -> nth_error v (Z.to_nat (nw q) * ndim + k) = Some (nth_error (gcoord G q) k)) vevents (repeat None (nv * ndim))) as (v & E & Lv & Hv).
    - split; [apply repeat_length|]. intros r q x k [].
    - intros pre (r, e) post v E (Lv & Hv). assert (Iv : forall y, In y (pre ++ [(r, e)]) -> In y vevents) by (intros y Iy; rewrite E; apply in_app_or in Iy; apply in_or_app; destruct Iy as [Iy|[<-|[]]]; [left; exact Iy|right; left; reflexivity]). destruct (vevents_in r e (Iv _ (in_elt _ _ _))) as (Uq & Dq & Ex). unfold f. cbn [fst snd]. rewrite (nw_get _ Uq). cbn [obind]. rewrite Z.sub_0_r. pose proof (nw_range _ Uq) as Rg. assert (Ea : as_size (nw (fst e)) = Some (Z.to_nat (nw (fst e)))) by (unfold as_size; destruct (Z.leb_spec 0 (nw (fst e))); [reflexivity|lia]). rewrite Ea. cbn [obind]. pose proof (vertex_small _ Uq Dq) as Ls. pose proof (proj2 (proj2 (Hn (fst e))) Dq) as Lc. rewrite Ex.
      set (b := Z.to_nat (nw (fst e))) in *.
      destruct (foldM_ind (fun coords dimx => x <- nth_error (gcoord G (fst e)) dimx ;; upd coords (b * ndim + dimx) (Some x)) (fun pre' v' => length v' = nv * ndim /\ (forall k, In k pre' -> nth_error v' (b * ndim + k) = Some (nth_error (gcoord G (fst e)) k)) /\ (forall j, (forall k, k < ndim -> j <> b * ndim + k) -> nth_error v' j = nth_error v j)) (seq 0 ndim) v) as (v' & E' & Lv' & Hin & Hout).
      + split; [exact Lv|]. split; [intros k []|reflexivity].
      + intros pre' k post' v' E' (Lv' & Hin & Hout). assert (Lk : k < ndim) by (assert (I : In k (seq 0 ndim)) by (rewrite E'; apply in_elt); apply in_seq in I; lia). destruct (nth_error (gcoord G (fst e)) k) as [x|] eqn:Ek; [|apply nth_error_None in Ek; lia]. cbn [obind]. destruct (upd_some v' (b * ndim + k) (Some x)) as (v'' & Eu); [nia|]. exists v''. split; [exact Eu|]. split; [rewrite (upd_length _ _ _ _ Eu); exact Lv'|]. split.
        * intros k' I'. apply in_app_or in I'. destruct (Nat.eq_dec k' k) as [->|Nk]; [rewrite (upd_nth_eq _ _ _ _ Eu), Ek; reflexivity|]. rewrite (upd_nth_neq _ _ _ _ (b * ndim + k') Eu) by lia. destruct I' as [I'|[->|[]]]; [apply Hin; exact I'|congruence].
        * intros j Hj. rewrite (upd_nth_neq _ _ _ _ j Eu) by (apply Hj; exact Lk). apply Hout. exact Hj.
      + exists v'. split; [exact E'|]. split; [exact Lv'|]. intros r' q x k I Lk. destruct (vevents_in r' (q, x) (Iv _ I)) as (Uq' & Dq' & _). cbn [fst] in *. destruct (Z.eq_dec q (fst e)) as [->|Nq]; [apply Hin; apply in_seq; lia|].
        assert (Nb : Z.to_nat (nw q) <> b). { intros Eb. apply Nq. apply nw_inj; [exact Uq'|exact Uq|]. pose proof (nw_range q Uq'). unfold b in Eb. lia. }
        rewrite Hout.
        * apply (Hv r' q x k); [|exact Lk]. apply in_app_or in I. destruct I as [I|[I|[]]]; [exact I|]. exfalso. apply Nq. injection I as _ Ee. rewrite Ee. reflexivity.
        * intros k' Lk'. set (a := Z.to_nat (nw q)) in *. destruct (Nat.lt_ge_cases a b); nia.
    - exists v. split; [exact E|]. split; [exact Lv|]. intros q k Uq Dq Lk. destruct (vevents_of q Uq Dq) as (r & I). apply (Hv r q (gcoord G q) k I Lk).
  Qed.

  Lemma rebuild_ok : exists h, (rm <- foldM (fun m c => l <- map_get (to_local mp) (global_id c) ;; Some (map_set m l (owning_rank c, local_id c, global_id c))) [] cells ;;
    sizes <- cone_sizes mp reps ;; st <- set_cones mp sizes rm reps ;; let '(_, (cs, os), remote') := st in
    vs <- nth_error (starts mp) 0 ;; ve <- nth_error (ends mp) 0 ;; n <- as_size (ve - vs)%Z ;; coords <- write_coords mp ndim vs (repeat None (n * ndim)) reps ;;
    Some (mk_halo (chart_end mp) cs os vs ve coords remote')) = Some h /\ halo_ok G ndim cells h nw.
  Proof.
    destruct remote_ok as (rm & Em & Hrm & Hrm'). rewrite Em. cbn [obind]. destruct cone_sizes_ok as (sizes & Es & Hz). rewrite Es. cbn [obind]. destruct (set_cones_ok sizes rm Hz) as (seen & cs & os & rm' & Ec & Hc & Ho & Hm & Hm'). rewrite Ec. cbn [obind].
    pose proof HM as (_ & Est & Een & _). rewrite Est, Een. cbn [seq map nth_error obind]. change (off P 0) with 0. cbn [Z.of_nat]. rewrite Z.sub_0_r, as_size_nat. cbn [obind]. fold nv. destruct write_coords_ok as (v & Ev & Lv & Hv). rewrite Ev. cbn [obind]. eexists. split; [reflexivity|]. unfold halo_ok. cbn [h_chart h_cones h_ornt h_vstart h_vend h_coords h_remote].
    split; [intros q A; apply nw_range, US_points, A|]. split; [intros i A; destruct (new_onto G (map global_id cells) reps P D mp HM i A) as (q & Uq & En); exists q; split; [apply US_points; exact Uq|exact En]|].
    split; [intros q q' A B; apply US_points in A; apply US_points in B; apply (new_order G (map global_id cells) reps P D mp HM q q' A B)|].
    split; [intros i c; rewrite Hc; split; intros (q & A & B); exists q; (split; [apply US_points; exact A|exact B])|].
    split; [intros i c; rewrite Ho; split; intros (q & A & B); exists q; (split; [apply US_points; exact A|exact B])|].
    split; [reflexivity|]. split; [intros q A; apply US_points in A; apply (new_vertex G (map global_id cells) reps P D mp HM q A)|]. split; [rewrite Nat2Z.id; exact Lv|].
    split; [intros q k A Dq Lk; apply Hv; [apply US_points; exact A|exact Dq|exact Lk]|].
    assert (Ug : forall c, In c cells -> US (global_id c)) by (intros c I; exists (global_id c); split; [apply in_map; exact I|constructor]). split; [|split].
    - intros c I. rewrite (Hm _ (Ug c I)). destruct (map_get rm (nw (global_id c))) as [t|] eqn:Et; [|destruct (Hrm' c I Et)]. destruct (Hrm _ _ Et) as (c' & I' & En & ->). exists c'. apply nw_inj in En; [|apply Ug; exact I'|apply Ug; exact I]. rewrite En. repeat split; assumption.
    - intros q A B. apply US_points in A. rewrite (Hm _ A). destruct (map_get rm (nw q)) as [t|] eqn:Et; [|reflexivity]. exfalso. destruct (Hrm _ _ Et) as (c' & I' & En & _). apply B. rewrite <- (nw_inj _ _ (Ug c' I') A En). apply in_map. exact I'.
    - intros i Hi. rewrite Hm'; [|intros q Uq En; apply Hi; rewrite <- En; apply nw_range; exact Uq]. destruct (map_get rm i) as [t|] eqn:Et; [|reflexivity]. exfalso. destruct (Hrm _ _ Et) as (c' & I' & En & _). apply Hi. rewrite <- En. apply nw_range. apply Ug. exact I'.
  Qed.
End Rebuild.

Lemma halo_from_ok ni ndim G cells : mesh_ok ndim G -> cells <> [] ->
  (forall c, In c cells -> exists r, rep_deserialise ni (mk_rep [] [] []) (representation c) = Some r /\ represents G (global_id c) r) ->
  exists h new, halo_from ni ndim cells = Some h /\ halo_ok G ndim cells h new.
Proof.
  intros Hn Ne H. assert (E : exists reps, mapM (fun c => rep_deserialise ni (mk_rep [] [] []) (representation c)) cells = Some reps /\ Forall2 (represents G) (map global_id cells) reps).
  { clear Ne. induction cells as [|c cells IH]; [exists []; split; [reflexivity|constructor]|]. destruct (H c (or_introl eq_refl)) as (r & Er & Rr). destruct IH as (reps & Es & Rs); [intros; apply H; right; assumption|]. exists (r :: reps). cbn [mapM map]. rewrite Er. cbn [obind]. rewrite Es. split; [reflexivity|constructor; assumption]. }
  destruct E as (reps & Es & Rs). assert (Ne' : map global_id cells <> []) by (destruct cells; [congruence|discriminate]).
  destruct (mapper_ok ndim G Hn (map global_id cells) reps Rs Ne') as (P & D & mp & HM). destruct (rebuild_ok ndim G Hn cells reps Rs P D mp HM) as (h & Eh & Hh). exists h, (new mp). split; [|exact Hh]. unfold halo_from. rewrite Es. cbn [obind]. pose proof (proj1 HM) as Em. rewrite Em. cbn [obind].
  destruct cells as [|c0 cs]; [congruence|]. exact Eh.
Qed.

(** ** A cell that is sent *)
Lemma helper_ok d num a b h : make_helper d num a b = Some h -> hdm h = d /\ hnum h = num.
Proof.
  unfold make_helper. match goal with |- context [fold_left ?f (range a b) ?s] => destruct (fold_left f (range a b) s) as [[np pn] ix] end. intros E. repeat (match type of E with (_ <- assert ?b ;; _) = _ => destruct b; cbn [assert obind] in E; [|discriminate] end). injection E as <-. split; reflexivity.
Qed.
Lemma copyable_ok ni ndim G d num a b h rank types local point : width ni -> mesh_ok ndim G -> part_of ni G d num -> make_helper d num a b = Some h ->
  get_dmplex_cell_index h local = Some point -> in_chart d point = true -> small_cell G (abs_id (num point)) ->
  exists m r, copyable_cell ni h rank types local = Some m /\ local_id m = local /\ owning_rank m = rank /\ cell_type m = types point /\ global_id m = abs_id (num point) /\
    rep_deserialise ni (mk_rep [] [] []) (representation m) = Some r /\ represents G (global_id m) r.
Proof.
  intros W Hn Hp Eh Ei C Sm. destruct (helper_ok _ _ _ _ _ Eh) as (Ed & En). assert (R : forall q, in_chart d q = true -> get_point_global_index h q = Some (abs_id (num q))) by (intros q Cq; unfold get_point_global_index; rewrite Ed, En, Cq; reflexivity).
  destruct (rep_of_ok ni ndim G d num Hn Hp (get_point_global_index h) point R C) as (r & Er & Rr). pose proof (represents_ok ni G d num Hp point r C Sm Rr) as Ok. destruct (round_trip ni r W Ok) as (bs & Es & Eds).
  unfold copyable_cell. rewrite Ei. cbn [obind]. rewrite Ed, Er. cbn [obind]. rewrite Es. cbn [obind]. rewrite (R point C). cbn [obind]. eexists. exists r. split; [reflexivity|]. cbn [local_id owning_rank cell_type global_id representation]. repeat (split; [reflexivity|]). split; [exact Eds|exact Rr].
Qed.

(** ** The numbers of cells and points on a rank *)
Definition own (num : Z -> Z) (p : Z) : bool := (-1 <? num p)%Z.
Lemma range_in a b p : In p (range a b) <-> (a <= p < b)%Z.
Proof.
  unfold range. rewrite in_map_iff. split; [intros (i & <- & I); apply in_seq in I; lia|]. intros H. exists (Z.to_nat (p - a)). split; [lia|apply in_seq; lia].
Qed.
Lemma range_nodup a b : NoDup (range a b).
Proof. unfold range. apply FinFun.Injective_map_NoDup; [|apply seq_NoDup]. intros x y. lia. Qed.
Lemma fold_left_inv {A S} (f : S -> A -> S) (Q : list A -> S -> Prop) l s0 : Q [] s0 -> (forall pre x post s, l = pre ++ x :: post -> Q pre s -> Q (pre ++ [x]) (f s x)) -> Q l (fold_left f l s0).
Proof.
  intros H0 Hs. assert (K : forall post pre s, l = pre ++ post -> Q pre s -> Q l (fold_left f post s)). { induction post as [|x post IH]; intros pre s E Hp; cbn [fold_left]; [rewrite app_nil_r in E; subst; exact Hp|]. apply (IH (pre ++ [x])); [rewrite <- app_assoc; exact E|]. apply (Hs pre x post s E Hp). }
  apply (K l [] s0); [reflexivity|exact H0].
Qed.
Lemma map_set_length {A} (m : zmap A) k v : map_get m k = None -> length (map_set m k v) = S (length m).
Proof.
  induction m as [|(j, w) t IH]; cbn [map_get map_set length]; [reflexivity|]. destruct (k <? j)%Z; [reflexivity|]. destruct (k =? j)%Z; [discriminate|]. intros E. cbn [length]. rewrite (IH E). reflexivity.
Qed.
Lemma helper_cells d num a b : let cells := filter (own num) (range a b) in
  (cells = [] -> make_helper d num a b = None) /\ (cells <> [] -> exists h, make_helper d num a b = Some h /\ hdm h = d /\ hnum h = num /\ np_to_petsc h = cells /\ (forall p i, map_get (petsc_to_np h) p = Some i <-> exists k, nth_error cells k = Some p /\ i = Z.of_nat k) /\ global_to_local h = fold_left (fun m px => map_set m (abs_id (num px)) px) (range (pstart d) (pend d)) []).
Proof.
  intros cells. unfold make_helper. match goal with |- context [fold_left ?f (range a b) ?s] => set (F := f) end.
  pose proof (fold_left_inv F (fun pre st => let '(np, pn, ix) := st in np = filter (own num) pre /\ ix = Z.of_nat (length np) /\ length pn = length np /\ located np pn) (range a b) ([], [], 0%Z)) as Inv. destruct (fold_left F (range a b) ([], [], 0%Z)) as [[np pn] ix].
  assert (K : np = filter (own num) (range a b) /\ ix = Z.of_nat (length np) /\ length pn = length np /\ located np pn).
  { apply Inv.
    - repeat split; [discriminate|]. intros (i & Ei & _). destruct i; discriminate.
    - intros pre x post [[n m] j] E (En & Ej & Lm & Lo). unfold F. rewrite filter_app. cbn [filter]. destruct (own num x) eqn:Ex; unfold own in Ex; rewrite Ex; [|rewrite app_nil_r; auto]. rewrite <- En.
      assert (Nx : ~ In x n). { rewrite En. intros I. apply filter_In in I. destruct I as (I & _). pose proof (range_nodup a b) as N. rewrite E in N. apply NoDup_remove_2 in N. apply N. apply in_or_app. left. exact I. }
      assert (Mx : map_get m x = None). { destruct (map_get m x) as [z|] eqn:Ez; [|reflexivity]. apply Lo in Ez. destruct Ez as (i & Ei & _). apply nth_error_In in Ei. contradiction. }
      split; [reflexivity|]. split; [rewrite app_length; cbn [length]; lia|]. split; [rewrite map_set_length by exact Mx; rewrite app_length; cbn [length]; lia|].
      intros p z. rewrite map_get_set. destruct (Z.eqb_spec p x) as [->|Np].
      + split; [intros Ez; injection Ez as <-; exists (length n); split; [rewrite nth_error_app2, Nat.sub_diag by lia; reflexivity|exact Ej]|]. intros (i & Ei & ->). destruct (Nat.lt_ge_cases i (length n)) as [Li|Li]; [rewrite nth_error_app1 in Ei by lia; apply nth_error_In in Ei; contradiction|]. rewrite nth_error_app2 in Ei by lia. destruct (i - length n) as [|k] eqn:Ek; [f_equal; lia|destruct k; discriminate].
      + rewrite (Lo p z). split; intros (i & Ei & ->); exists i; (split; [|reflexivity]).
        * rewrite nth_error_app1; [exact Ei|]. apply nth_error_Some. congruence.
        * destruct (Nat.lt_ge_cases i (length n)) as [Li|Li]; [rewrite nth_error_app1 in Ei by lia; exact Ei|]. rewrite nth_error_app2 in Ei by lia. destruct (i - length n) as [|k]; [cbn in Ei; congruence|destruct k; discriminate]. }
  destruct K as (En & Ei & Ln & Lo). rewrite Ln, Ei, Z.eqb_refl. cbn [assert obind]. subst np. fold cells. split.
  - intros Ec. fold cells in Lo. rewrite Ec. reflexivity.
  - intros Nc. destruct (length cells =? 0) eqn:El; [apply Nat.eqb_eq in El; destruct cells; [congruence|discriminate]|]. cbn [negb assert obind]. eexists. split; [reflexivity|]. cbn [hdm hnum np_to_petsc petsc_to_np global_to_local]. repeat split; apply Lo.
Qed.
Lemma global_to_local_ok d num : (forall p q, in_chart d p = true -> in_chart d q = true -> abs_id (num p) = abs_id (num q) -> p = q) ->
  forall g p, map_get (fold_left (fun m px => map_set m (abs_id (num px)) px) (range (pstart d) (pend d)) []) g = Some p <-> in_chart d p = true /\ abs_id (num p) = g.
Proof.
  intros Inj. assert (Ch : forall p, in_chart d p = true <-> In p (range (pstart d) (pend d))). { intros p. rewrite range_in. unfold in_chart. rewrite andb_true_iff, Z.leb_le, Z.ltb_lt. reflexivity. }
  assert (K : forall g p, map_get (fold_left (fun m px => map_set m (abs_id (num px)) px) (range (pstart d) (pend d)) []) g = Some p <-> In p (range (pstart d) (pend d)) /\ abs_id (num p) = g).
  { apply (fold_left_inv _ (fun pre m => forall g p, map_get m g = Some p <-> In p pre /\ abs_id (num p) = g)).
    - intros g p. cbn. split; [discriminate|intros ([] & _)].
    - intros pre x post m E H g p. rewrite map_get_set. assert (Cx : in_chart d x = true) by (apply Ch; rewrite E; apply in_elt). destruct (Z.eqb_spec g (abs_id (num x))) as [->|Ng]; split.
      + intros Ep. injection Ep as <-. split; [apply in_elt|reflexivity].
      + intros (I & Eg). f_equal. apply Inj; [exact Cx| |symmetry; exact Eg]. apply Ch. rewrite E. apply in_app_or in I. apply in_or_app. destruct I as [I|[<-|[]]]; [left; exact I|right; left; reflexivity].
      + intros Ep. apply H in Ep. destruct Ep as (I & Eg). split; [apply in_or_app; left; exact I|exact Eg].
      + intros (I & Eg). apply H. split; [|exact Eg]. apply in_app_or in I. destruct I as [I|[<-|[]]]; [exact I|congruence]. }
  intros g p. rewrite K, Ch. reflexivity.
Qed.
