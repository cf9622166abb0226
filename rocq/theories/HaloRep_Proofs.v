(** The representation of a cell that is sent. *)
From Coq Require Import List Arith ZArith Bool Lia Sorting.Sorted.
Import ListNotations.
From Verif Require Import Base Kernel Serial_Model MHC_Spec Serial_Proofs CellRep_Model CellRep_Spec CellRep_Proofs Halo_Model Halo_Spec.
Local Open Scope nat_scope.

(** ** Sets and maps of sets *)
Lemma set_add_in l x y : In y (set_add l x) <-> y = x \/ In y l.
Proof.
  induction l as [|z t IH]; cbn [set_add In]; [intuition|]. destruct (Z.ltb_spec x z); cbn [In]; [intuition|]. destruct (Z.eqb_spec x z) as [->|]; cbn [In]; [intuition; subst; auto|]. rewrite IH. intuition.
Qed.
Lemma set_add_sorted l x : StronglySorted Z.lt l -> StronglySorted Z.lt (set_add l x).
Proof.
  induction l as [|z t IH]; intros S; cbn [set_add]; [repeat constructor|]. inversion S as [|? ? S' F]; subst. rewrite Forall_forall in F. destruct (Z.ltb_spec x z).
  - constructor; [exact S|]. constructor; [exact H|]. apply Forall_forall. intros y I. specialize (F y I). lia.
  - destruct (Z.eqb_spec x z); [exact S|]. constructor; [auto|]. apply Forall_forall. intros y I. apply set_add_in in I. destruct I as [->|I]; [lia|auto].
Qed.
Lemma map_set_fst {A} (m : zmap A) k v : map fst (map_set m k v) = set_add (map fst m) k.
Proof. induction m as [|(j, w) t IH]; cbn [map_set map fst set_add]; [reflexivity|]. destruct (k <? j)%Z; [reflexivity|]. destruct (Z.eqb_spec k j) as [->|]; cbn [map fst]; [reflexivity|]. rewrite IH. reflexivity. Qed.
Lemma get_or_empty_set {A} (m : zmap (list A)) k v j : get_or_empty (map_set m k v) j = if (j =? k)%Z then v else get_or_empty m j.
Proof. unfold get_or_empty. rewrite map_get_set. destruct (j =? k)%Z; reflexivity. Qed.
Lemma get_or_empty_in {A} (m : zmap (list A)) k x : In x (get_or_empty m k) -> exists l, In (k, l) m /\ In x l.
Proof. unfold get_or_empty. destruct (map_get m k) as [l|] eqn:E; intros I; [|destruct I]. exists l. split; [apply map_get_in; exact E|exact I]. Qed.
Lemma is_map_nodup {A} (m : zmap A) : is_map m -> NoDup (map fst m).
Proof. apply sorted_nodup. Qed.
Lemma is_map_get {A} (m : zmap A) k v : is_map m -> In (k, v) m <-> map_get m k = Some v.
Proof. intros M. split; [apply in_map_get, is_map_nodup, M|apply map_get_in]. Qed.

(** A map from a class of points to the points. *)
Definition graded_map (f : Z -> Z) (m : zmap (list Z)) : Prop :=
  is_map m /\ forall k l, In (k, l) m -> StronglySorted Z.lt l /\ l <> [] /\ forall p, In p l -> f p = k.
Definition has (f : Z -> Z) (m : zmap (list Z)) (p : Z) : Prop := In p (get_or_empty m (f p)).
Lemma graded_add f m p : graded_map f m -> graded_map f (map_set m (f p) (set_add (get_or_empty m (f p)) p)) /\
  (forall q, has f (map_set m (f p) (set_add (get_or_empty m (f p)) p)) q <-> q = p \/ has f m q).
Proof.
  intros (M & K). split.
  - split; [apply map_set_sorted; exact M|]. intros k l I. apply is_map_get in I; [|apply map_set_sorted; exact M]. rewrite map_get_set in I. destruct (Z.eqb_spec k (f p)) as [->|N].
    + injection I as <-. assert (E : StronglySorted Z.lt (get_or_empty m (f p)) /\ forall q, In q (get_or_empty m (f p)) -> f q = f p).
      { unfold get_or_empty. destruct (map_get m (f p)) as [l|] eqn:E; [|split; [constructor|intros q []]]. apply map_get_in in E. destruct (K _ _ E) as (A & _ & B). auto. }
      destruct E as (E1 & E2). split; [apply set_add_sorted; exact E1|]. split; [intros E; assert (In p []) by (rewrite <- E; apply set_add_in; left; reflexivity); contradiction|]. intros q I. apply set_add_in in I. destruct I as [->|I]; auto.
    + apply map_get_in in I. auto.
  - intros q. unfold has. rewrite get_or_empty_set. destruct (Z.eqb_spec (f q) (f p)) as [E|N]; [rewrite set_add_in, E; reflexivity|]. split; [intros; right; assumption|]. intros [->|]; [congruence|assumption].
Qed.
Lemma graded_flat f m : graded_map f m -> NoDup (flat_map snd m) /\ forall p, In p (flat_map snd m) <-> has f m p.
Proof.
  intros (M & K). split.
  - assert (Nk := is_map_nodup m M). clear M. induction m as [|(k, l) t IH]; [constructor|]. cbn [flat_map snd]. cbn [map fst] in Nk. inversion Nk as [|? ? N1 N2]; subst.
    assert (IHt : NoDup (flat_map snd t)) by (apply IH; [intros; apply K; right; assumption|exact N2]). destruct (K k l (or_introl eq_refl)) as (S & _ & Fl).
    apply sorted_nodup in S. revert S Fl. clear IH. intros S Fl. assert (D : forall x, In x l -> ~ In x (flat_map snd t)). { intros x Ix J. apply in_flat_map in J. destruct J as ((k', l') & J1 & J2). destruct (K k' l' (or_intror J1)) as (_ & _ & F'). apply N1. rewrite <- (Fl x Ix), (F' x J2). apply (in_map fst) in J1. exact J1. }
    clear Fl K N1 Nk. induction S as [|x l Nx S IH]; [exact IHt|]. cbn [app]. constructor; [|apply IH; intros; apply D; right; assumption]. intros I. apply in_app_or in I. destruct I as [I|I]; [contradiction|]. apply (D x (or_introl eq_refl) I).
  - intros p. split.
    + intros I. apply in_flat_map in I. destruct I as ((k, l) & I & J). destruct (K k l I) as (_ & _ & F). unfold has, get_or_empty. cbn [snd] in J. rewrite (F p J). apply is_map_get in I; [|exact M]. rewrite I. exact J.
    + intros I. unfold has in I. apply get_or_empty_in in I. destruct I as (l & I1 & I2). apply in_flat_map. exists (f p, l). split; assumption.
Qed.

(** ** The points of a cell *)
Section Sender.
  Context (ni ndim : nat) (G : mesh) (d : dm) (num : Z -> Z) (Hn : mesh_ok ndim G) (Hp : part_of ni G d num).
  Local Notation gid := (fun p => abs_id (num p)).
  Inductive lclosure (p : Z) : Z -> Prop :=
  | lc_self : lclosure p p
  | lc_cone q e : lclosure p q -> In e (dcone d q) -> lclosure p (fst e).
  Lemma part_chart p : in_chart d p = true -> int_ok ni (gid p) /\ gcone G (gid p) = map (fun e => (gid (fst e), snd e)) (dcone d p) /\
     (forall e, In e (dcone d p) -> in_chart d (fst e) = true /\ int_ok ni (snd e)) /\
     (0 <= dheight d p <= ddepth d)%Z /\ dheight d p = (ddepth d - Z.of_nat (gdepth G (gid p)))%Z /\
     (gdepth G (gid p) = 0 -> dcoords d p = gcoord G (gid p) /\ Forall bits_ok (dcoords d p)).
  Proof. intros C. exact (proj2 Hp p C). Qed.
  Lemma gid_inj p q : in_chart d p = true -> in_chart d q = true -> gid p = gid q -> p = q.
  Proof. exact (proj1 Hp p q). Qed.
  Lemma child_height p e : in_chart d p = true -> In e (dcone d p) -> dheight d (fst e) = (dheight d p + 1)%Z.
  Proof.
    intros C I. destruct (part_chart p C) as (_ & Ec & Ch & _ & Hh & _). destruct (Ch e I) as (C' & _). destruct (part_chart (fst e) C') as (_ & _ & _ & _ & Hh' & _). rewrite Hh, Hh'.
    assert (D : gdepth G (gid p) = S (gdepth G (gid (fst e)))). { apply (proj1 (Hn (gid p)) (gid (fst e)) (snd e)). rewrite Ec. apply in_map_iff. exists e. split; [reflexivity|exact I]. } rewrite D. lia.
  Qed.
  Lemma lclosure_chart p q : in_chart d p = true -> lclosure p q -> in_chart d q = true.
  Proof. intros C. induction 1 as [|q e L IH I]; [exact C|]. apply (part_chart q IH). exact I. Qed.
  Lemma lclosure_trans p q r : lclosure p q -> lclosure q r -> lclosure p r.
  Proof. intros A. induction 1 as [|r e L IH I]; [exact A|]. apply (lc_cone p r e); assumption. Qed.
  Lemma lclosure_inv p r : lclosure p r -> r = p \/ exists e, In e (dcone d p) /\ lclosure (fst e) r.
  Proof.
    induction 1 as [|q e L IH I]; [left; reflexivity|]. right. destruct IH as [->|(e' & I' & L')]; [exists e; split; [exact I|constructor]|]. exists e'. split; [exact I'|]. apply (lc_cone (fst e') q e); assumption.
  Qed.
  Lemma lclosure_closure p q : in_chart d p = true -> lclosure p q -> closure G (gid p) (gid q).
  Proof.
    intros C. induction 1 as [|q e L IH I]; [constructor|]. apply (closure_cone G (gid p) (gid q) (gid (fst e)) (snd e) IH). destruct (part_chart q (lclosure_chart p q C L)) as (_ & Ec & _). cbv beta in *. rewrite Ec. apply in_map_iff. exists e. split; [reflexivity|exact I].
  Qed.
  Lemma closure_lclosure p x : in_chart d p = true -> closure G (gid p) x -> exists q, lclosure p q /\ gid q = x.
  Proof.
    intros C. induction 1 as [|x c o L (q & Lq & E) I]; [exists p; split; [constructor|reflexivity]|]. destruct (part_chart q (lclosure_chart p q C Lq)) as (_ & Ec & _). cbv beta in *. rewrite <- E, Ec in I. apply in_map_iff in I. destruct I as (e & Ee & I). injection Ee as <- <-. exists (fst e). split; [apply (lc_cone p q e); assumption|reflexivity].
  Qed.

  Lemma traverse_ok fuel : forall p acc, in_chart d p = true -> Z.to_nat (ddepth d - dheight d p) < fuel -> graded_map (dheight d) acc ->
    exists acc', traverse fuel d p acc = Some acc' /\ graded_map (dheight d) acc' /\ forall q, has (dheight d) acc' q <-> has (dheight d) acc q \/ lclosure p q.
  Proof.
    induction fuel as [|fuel IH]; intros p acc C Lf Ga; [lia|]. cbn [traverse]. rewrite C. cbn [assert obind]. destruct (part_chart p C) as (_ & _ & Ch & Hh & _). destruct (Z.leb_spec 0 (dheight d p)); [|lia]. destruct (Z.leb_spec (dheight d p) (ddepth d)); [|lia]. cbn [andb assert obind].
    destruct (graded_add (dheight d) acc p Ga) as (G1 & H1). set (acc1 := map_set acc (dheight d p) (set_add (get_or_empty acc (dheight d p)) p)) in *.
    destruct (foldM_ind (fun acc c => traverse fuel d (fst c) acc) (fun pre s => graded_map (dheight d) s /\ forall q, has (dheight d) s q <-> has (dheight d) acc1 q \/ exists e, In e pre /\ lclosure (fst e) q) (dcone d p) acc1) as (s & Es & Gs & Hs).
    - split; [exact G1|]. intros q. split; [auto|]. intros [A|(e & [] & _)]; exact A.
    - intros pre e post s E (Gs & Hs). assert (I : In e (dcone d p)) by (rewrite E; apply in_elt). destruct (Ch e I) as (C' & _). pose proof (child_height p e C I) as Eh. destruct (part_chart (fst e) C') as (_ & _ & _ & Hh' & _). destruct (IH (fst e) s C') as (s' & Es' & Gs' & Hs'); [lia|exact Gs|].
      exists s'. split; [exact Es'|]. split; [exact Gs'|]. intros q. rewrite Hs', Hs. split.
      + intros [[A|(e' & I' & L')]|A]; [left; exact A|right; exists e'; split; [apply in_or_app; left; exact I'|exact L']|right; exists e; split; [apply in_elt|exact A]].
      + intros [A|(e' & I' & L')]; [left; left; exact A|]. apply in_app_or in I'. destruct I' as [I'|[<-|[]]]; [left; right; exists e'; split; assumption|right; exact L'].
    - exists s. split; [exact Es|]. split; [exact Gs|]. intros q. rewrite Hs, H1. split.
      + intros [[->|A]|(e & I & L)]; [right; constructor|left; exact A|right]. apply (lclosure_trans p (fst e) q); [apply (lc_cone p p e); [constructor|exact I]|exact L].
      + intros [A|L]; [left; right; exact A|]. apply lclosure_inv in L. destruct L as [->|(e & I & L)]; [left; left; reflexivity|right; exists e; split; assumption].
  Qed.

  Lemma rename_children rename p : (forall q, in_chart d q = true -> rename q = Some (gid q)) -> in_chart d p = true ->
    mapM (fun e => rename (fst e)) (dcone d p) = Some (map fst (gcone G (gid p))) /\ map snd (dcone d p) = map snd (gcone G (gid p)).
  Proof.
    intros R C. destruct (part_chart p C) as (_ & Ec & Ch & _). cbv beta in Ec. rewrite Ec, !map_map. cbn [fst snd]. split; [|reflexivity]. apply (mapM_some _ (fun e : Z * Z => gid (fst e))). intros e I. apply R. apply Ch. exact I.
  Qed.
  (** What the loop over the points has put in. *)
  Definition filled (pre : list Z) (r : cell_rep) : Prop :=
    is_map (cones r) /\ map fst (orientations r) = map fst (cones r) /\ vertices r = [] /\
    (forall q c, map_get (cones r) q = Some c <-> exists p, In p pre /\ gid p = q /\ c = map fst (gcone G q)) /\
    (forall q c, map_get (orientations r) q = Some c <-> exists p, In p pre /\ gid p = q /\ c = map snd (gcone G q)).
  Lemma fill_points rename pts : (forall q, in_chart d q = true -> rename q = Some (gid q)) -> NoDup pts -> (forall p, In p pts -> in_chart d p = true) ->
    exists r, foldM (fun r ix => q <- rename ix ;; c <- mapM (fun e => rename (fst e)) (dcone d ix) ;;
           Some (mk_rep (map_set (cones r) q (get_or_empty (cones r) q ++ c))
                        (map_set (orientations r) q (get_or_empty (orientations r) q ++ map snd (dcone d ix))) (vertices r))) (mk_rep [] [] []) pts = Some r /\ filled pts r.
  Proof.
    intros R N C. apply foldM_ind.
    - repeat split; cbn; try constructor; try discriminate; intros (p & [] & _).
    - intros pre p post r E (M & K & V & Hc & Ho). assert (Ip : In p pts) by (rewrite E; apply in_elt). rewrite (R p (C p Ip)). cbn [obind]. destruct (rename_children rename p R (C p Ip)) as (E1 & E2). rewrite E1, E2. cbn [obind].
      assert (Fresh : forall p', In p' pre -> gid p' <> gid p). { intros p' I' Eg. apply gid_inj in Eg; [|apply C; rewrite E; apply in_or_app; left; exact I'|apply C; exact Ip]. subst p'. rewrite E in N. apply NoDup_remove_2 in N. apply N. apply in_or_app. left. exact I'. }
      assert (F1 : get_or_empty (cones r) (gid p) = []). { unfold get_or_empty. destruct (map_get (cones r) (gid p)) as [c|] eqn:Eg; [|reflexivity]. apply Hc in Eg. destruct Eg as (p' & I' & E' & _). destruct (Fresh p' I' E'). }
      assert (F2 : get_or_empty (orientations r) (gid p) = []). { unfold get_or_empty. destruct (map_get (orientations r) (gid p)) as [c|] eqn:Eg; [|reflexivity]. apply Ho in Eg. destruct Eg as (p' & I' & E' & _). destruct (Fresh p' I' E'). }
      cbv beta in F1, F2. rewrite F1, F2. cbn [app]. eexists. split; [reflexivity|]. unfold filled. cbn [cones orientations vertices]. split; [apply map_set_sorted; exact M|]. split; [rewrite !map_set_fst, K; reflexivity|]. split; [exact V|].
      split; intros q c; rewrite map_get_set; (destruct (Z.eqb_spec q (abs_id (num p))) as [->|Nq]; split).
      + intros Ec. injection Ec as <-. exists p. split; [apply in_elt|split; reflexivity].
      + intros (p' & _ & _ & ->). reflexivity.
      + intros Ec. apply Hc in Ec. destruct Ec as (p' & I' & E' & Ec). exists p'. split; [apply in_or_app; left; exact I'|split; assumption].
      + intros (p' & I' & E' & Ec). apply Hc. exists p'. apply in_app_or in I'. destruct I' as [I'|[<-|[]]]; [repeat split; assumption|congruence].
      + intros Ec. injection Ec as <-. exists p. split; [apply in_elt|split; reflexivity].
      + intros (p' & _ & _ & ->). reflexivity.
      + intros Ec. apply Ho in Ec. destruct Ec as (p' & I' & E' & Ec). exists p'. split; [apply in_or_app; left; exact I'|split; assumption].
      + intros (p' & I' & E' & Ec). apply Ho. exists p'. apply in_app_or in I'. destruct I' as [I'|[<-|[]]]; [repeat split; assumption|congruence].
  Qed.
  Lemma fill_vertices rename r0 pts : (forall q, in_chart d q = true -> rename q = Some (gid q)) -> NoDup pts -> (forall p, In p pts -> in_chart d p = true /\ gdepth G (gid p) = 0) -> vertices r0 = [] ->
    exists r, foldM (fun r vx => q <- rename vx ;; Some (mk_rep (cones r) (orientations r) (map_set (vertices r) q (get_or_empty (vertices r) q ++ dcoords d vx)))) r0 pts = Some r /\
      cones r = cones r0 /\ orientations r = orientations r0 /\ is_map (vertices r) /\ forall q x, map_get (vertices r) q = Some x <-> exists p, In p pts /\ gid p = q /\ x = gcoord G q.
  Proof.
    intros R N C V0. apply (foldM_ind _ (fun pre r => cones r = cones r0 /\ orientations r = orientations r0 /\ is_map (vertices r) /\ forall q x, map_get (vertices r) q = Some x <-> exists p, In p pre /\ gid p = q /\ x = gcoord G q)).
    - rewrite V0. repeat split; try constructor; try discriminate. intros (p & [] & _).
    - intros pre p post r E (Kc & Ko & M & Hv). assert (Ip : In p pts) by (rewrite E; apply in_elt). destruct (C p Ip) as (Cp & Dp). rewrite (R p Cp). cbn [obind].
      assert (Fresh : forall p', In p' pre -> gid p' <> gid p). { intros p' I' Eg. apply gid_inj in Eg; [|apply C; rewrite E; apply in_or_app; left; exact I'|exact Cp]. subst p'. rewrite E in N. apply NoDup_remove_2 in N. apply N. apply in_or_app. left. exact I'. }
      assert (F1 : get_or_empty (vertices r) (gid p) = []). { unfold get_or_empty. destruct (map_get (vertices r) (gid p)) as [c|] eqn:Eg; [|reflexivity]. apply Hv in Eg. destruct Eg as (p' & I' & E' & _). destruct (Fresh p' I' E'). }
      cbv beta in F1. rewrite F1. cbn [app]. destruct (part_chart p Cp) as (_ & _ & _ & _ & _ & Hc). destruct (Hc Dp) as (Ec & _). rewrite Ec. eexists. split; [reflexivity|]. cbn [cones orientations vertices]. split; [exact Kc|]. split; [exact Ko|]. split; [apply map_set_sorted; exact M|].
      intros q x. rewrite map_get_set. destruct (Z.eqb_spec q (abs_id (num p))) as [->|Nq]; split.
      + intros Ex. injection Ex as <-. exists p. split; [apply in_elt|split; reflexivity].
      + intros (p' & _ & _ & ->). reflexivity.
      + intros Ex. apply Hv in Ex. destruct Ex as (p' & I' & E' & Ex). exists p'. split; [apply in_or_app; left; exact I'|split; assumption].
      + intros (p' & I' & E' & Ex). apply Hv. exists p'. apply in_app_or in I'. destruct I' as [I'|[<-|[]]]; [repeat split; assumption|congruence].
  Qed.

  Lemma foldM_nest {A B S} (f : S -> B -> option S) (g : A -> list B) l : forall s, foldM (fun s a => foldM f s (g a)) s l = foldM f s (flat_map g l).
  Proof. induction l as [|a l IH]; intros s; [reflexivity|]. cbn [foldM flat_map]. rewrite foldM_app. destruct (foldM f s (g a)); cbn [obind]; auto. Qed.

  Lemma rep_of_ok rename index : (forall q, in_chart d q = true -> rename q = Some (gid q)) -> in_chart d index = true ->
    exists r, rep_of d rename index = Some r /\ represents G (gid index) r.
  Proof.
    intros R C. unfold rep_of. destruct (part_chart index C) as (_ & _ & _ & Hh & _).
    destruct (traverse_ok (S (Z.to_nat (ddepth d))) index []) as (ph & Eph & Gph & Hph); [exact C|lia|split; [constructor|intros k l []]|]. rewrite Eph. cbn [obind]. rewrite foldM_nest.
    destruct (graded_flat _ _ Gph) as (Nf & Hf). assert (Hl : forall p, In p (flat_map snd ph) <-> lclosure index p). { intros p. rewrite Hf, Hph. split; [intros [[]|A]; exact A|auto]. }
    assert (Cl : forall p, In p (flat_map snd ph) -> in_chart d p = true). { intros p I. apply Hl in I. apply (lclosure_chart index p C I). }
    destruct (fill_points rename (flat_map snd ph) R Nf Cl) as (r1 & E1 & M1 & K1 & V1 & Hc1 & Ho1). rewrite E1. cbn [obind].
    assert (Vp : forall p, In p (get_or_empty ph (ddepth d)) <-> lclosure index p /\ gdepth G (gid p) = 0).
    { intros p. split.
      - intros I. apply get_or_empty_in in I. destruct I as (l & I1 & I2). destruct (proj2 Gph _ _ I1) as (_ & _ & F). specialize (F p I2). assert (L : lclosure index p) by (apply Hl; apply in_flat_map; exists (ddepth d, l); split; assumption). split; [exact L|]. destruct (part_chart p (lclosure_chart index p C L)) as (_ & _ & _ & _ & Hd & _). lia.
      - intros (L & D). destruct (part_chart p (lclosure_chart index p C L)) as (_ & _ & _ & _ & Hd & _). apply Hl, Hf in L. unfold has in L. replace (ddepth d) with (dheight d p) by lia. exact L. }
    destruct (fill_vertices rename r1 (get_or_empty ph (ddepth d))) as (r & E & Kc & Ko & Mv & Hv); [exact R| | |exact V1|].
    { unfold get_or_empty. destruct (map_get ph (ddepth d)) as [l|] eqn:El; [|constructor]. apply map_get_in in El. apply sorted_nodup. apply (proj2 Gph _ _ El). }
    { intros p I. apply Vp in I. destruct I as (L & D). split; [apply (lclosure_chart index p C L)|exact D]. }
    exists r. split; [exact E|].
    assert (Cc : forall q c, map_get (cones r) q = Some c <-> closure G (gid index) q /\ c = map fst (gcone G q)).
    { intros q c. rewrite Kc, Hc1. split.
      - intros (p & I & <- & ->). apply Hl in I. split; [apply lclosure_closure; assumption|reflexivity].
      - intros (L & ->). destruct (closure_lclosure index q C L) as (p & Lp & Ep). exists p. split; [apply Hl; exact Lp|split; [exact Ep|reflexivity]]. }
    assert (Co : forall q c, map_get (orientations r) q = Some c <-> closure G (gid index) q /\ c = map snd (gcone G q)).
    { intros q c. rewrite Ko, Ho1. split.
      - intros (p & I & <- & ->). apply Hl in I. split; [apply lclosure_closure; assumption|reflexivity].
      - intros (L & ->). destruct (closure_lclosure index q C L) as (p & Lp & Ep). exists p. split; [apply Hl; exact Lp|split; [exact Ep|reflexivity]]. }
    split; [|split; [exact Cc|split; [exact Co|]]].
    - unfold rep_wf. rewrite Kc, Ko. split; [exact M1|]. split; [exact Mv|]. split; [exact K1|]. rewrite <- Kc, <- Ko. intros p c o A B. apply Cc in A. apply Co in B. destruct A as (_ & ->). destruct B as (_ & ->). rewrite !map_length. reflexivity.
    - intros q x. rewrite Hv. split.
      + intros (p & I & <- & ->). apply Vp in I. destruct I as (L & D). split; [apply lclosure_closure; assumption|split; [exact D|reflexivity]].
      + intros (L & D & ->). destruct (closure_lclosure index q C L) as (p & Lp & Ep). exists p. split; [apply Vp; split; [exact Lp|cbv beta in Ep |- *; rewrite Ep; exact D]|split; [exact Ep|reflexivity]].
  Qed.

  Lemma list_sum_map_le {A} (f g : A -> nat) l : (forall x, In x l -> f x <= g x) -> list_sum (map f l) <= list_sum (map g l).
  Proof. induction l as [|x l IH]; intros H; [reflexivity|]. cbn [map]. rewrite !list_sum_cons. pose proof (H x (or_introl eq_refl)). assert (list_sum (map f l) <= list_sum (map g l)) by (apply IH; intros; apply H; right; assumption). lia. Qed.
  Lemma list_sum_map_plus {A} (f g : A -> nat) l : list_sum (map (fun x => f x + g x) l) = list_sum (map f l) + list_sum (map g l).
  Proof. induction l as [|x l IH]; [reflexivity|]. cbn [map]. rewrite !list_sum_cons, IH. lia. Qed.
  Lemma list_sum_incl (f : Z -> nat) a : NoDup a -> forall b, incl a b -> list_sum (map f a) <= list_sum (map f b).
  Proof.
    induction 1 as [|x a Nx N IH]; intros b I; [cbn; lia|]. assert (Ix : In x b) by (apply I; left; reflexivity). apply in_split in Ix. destruct Ix as (b1 & b2 & ->). rewrite map_app, list_sum_app. cbn [map]. rewrite !list_sum_cons.
    assert (list_sum (map f a) <= list_sum (map f (b1 ++ b2))). { apply IH. intros y Iy. specialize (I y (or_intror Iy)). apply in_app_or in I. apply in_or_app. destruct I as [I|[<-|I]]; auto. contradiction. }
    rewrite map_app, list_sum_app in H. lia.
  Qed.
  Lemma list_sum_two {A} (f : A -> nat) l : 2 * length l + list_sum (map f l) = list_sum (map (fun x => 2 + f x) l).
  Proof. induction l as [|e l IH]; [reflexivity|]. cbn [map length]. rewrite !list_sum_cons, <- IH. lia. Qed.
  Lemma represents_ok index r : in_chart d index = true -> small_cell G (gid index) -> represents G (gid index) r -> rep_ok ni r.
  Proof.
    intros C Sm (Wf & Hc & Ho & Hv). pose proof Wf as Wf'. destruct Wf as (Mc & Mv & K & _). assert (Mo : is_map (orientations r)) by (unfold is_map; rewrite K; exact Mc).
    assert (Gc : forall q, closure G (gid index) q -> exists p, in_chart d p = true /\ gid p = q). { intros q L. destruct (closure_lclosure index q C L) as (p & Lp & Ep). exists p. split; [apply (lclosure_chart index p C Lp)|exact Ep]. }
    assert (Gi : forall q, closure G (gid index) q -> int_ok ni q /\ Forall (int_ok ni) (map fst (gcone G q)) /\ Forall (int_ok ni) (map snd (gcone G q)) /\ (gdepth G q = 0 -> Forall bits_ok (gcoord G q))).
    { intros q L. destruct (Gc q L) as (p & Cp & <-). destruct (part_chart p Cp) as (A1 & A2 & A3 & _ & _ & A4). cbv beta in *. split; [exact A1|]. rewrite A2, !map_map. cbn [fst snd]. split; [|split].
      - apply Forall_forall. intros x I. apply in_map_iff in I. destruct I as (e & <- & I). apply (part_chart (fst e)). apply A3. exact I.
      - apply Forall_forall. intros x I. apply in_map_iff in I. destruct I as (e & <- & I). apply A3. exact I.
      - intros D. destruct (A4 D) as (E & F). rewrite <- E. exact F. }
    split; [exact Wf'|]. split.
    - split; [|split]; intros p c I.
      + apply (is_map_get _ p c Mc) in I. apply Hc in I. destruct I as (L & ->). destruct (Gi p L) as (A & B & _). split; assumption.
      + apply (is_map_get _ p c Mo) in I. apply Ho in I. destruct I as (L & ->). apply (Gi p L).
      + apply (is_map_get _ p c Mv) in I. apply Hv in I. destruct I as (L & D & ->). split; apply (Gi p L). exact D.
    - unfold rep_fits, rep_numbers.
      assert (B := Sm (map fst (cones r)) (is_map_nodup _ Mc)). assert (Ki : forall q, In q (map fst (cones r)) -> closure G (gid index) q). { intros q I. apply in_map_iff in I. destruct I as ((q', c) & <- & I). apply (is_map_get _ q' c Mc) in I. apply Hc in I. apply I. } specialize (B Ki).
      assert (E1 : list_sum (map (fun e => 2 + 2 * length (snd e)) (cones r)) = list_sum (map (fun q => 2 + 2 * length (gcone G q)) (map fst (cones r)))). { rewrite map_map. f_equal. apply map_ext_in. intros (q, c) I. apply (is_map_get _ q c Mc) in I. apply Hc in I. destruct I as (_ & ->). cbn [fst snd]. rewrite map_length. reflexivity. }
      assert (E2 : 2 * length (vertices r) + list_sum (map (fun e => length (snd e)) (vertices r)) = list_sum (map (fun q => 2 + length (gcoord G q)) (map fst (vertices r)))).
      { rewrite map_map. replace (list_sum (map (fun e => length (snd e)) (vertices r))) with (list_sum (map (fun e : Z * list Z => length (gcoord G (fst e))) (vertices r))).
        - apply list_sum_two.
        - f_equal. apply map_ext_in. intros (q, c) I. apply (is_map_get _ q c Mv) in I. apply Hv in I. destruct I as (_ & _ & ->). reflexivity. }
      assert (Iv : incl (map fst (vertices r)) (map fst (cones r))). { intros q I. apply in_map_iff in I. destruct I as ((q', x) & <- & I). apply (is_map_get _ q' x Mv) in I. apply Hv in I. destruct I as (L & _ & _). assert (A : map_get (cones r) q' = Some (map fst (gcone G q'))) by (apply Hc; split; [exact L|reflexivity]). apply map_get_in in A. apply (in_map fst) in A. exact A. }
      pose proof (list_sum_incl (fun q => 2 + length (gcoord G q)) _ (is_map_nodup _ Mv) _ Iv) as Li. rewrite list_sum_map_plus in B. rewrite E1. rewrite <- Nat.add_assoc, E2. lia.
  Qed.
End Sender.
