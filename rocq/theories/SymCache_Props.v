(** C79: the pointers of loops with a SymVector. *)
From Coq Require Import List Arith Bool Lia.
Import ListNotations.
From Verif Require Import Base Kernel SymCache_Model SymCache_Spec.

Lemma key_eqb_spec a b : reflect (a = b) (key_eqb a b).
Proof. unfold key_eqb. destruct (list_eq_dec Nat.eq_dec a b); constructor; assumption. Qed.
Lemma assoc_erase_nat {A} k k' (l : list (nat * A)) : assoc Nat.eqb k' (erase Nat.eqb k l) = if k' =? k then None else assoc Nat.eqb k' l.
Proof.
  induction l as [|(j & a) l IH]; cbn [erase filter assoc fst]; [destruct (k' =? k); reflexivity|]. change (filter (fun e : nat * A => negb (fst e =? k)) l) with (erase Nat.eqb k l). destruct (Nat.eqb_spec j k) as [->|N]; cbn [negb].
  - rewrite IH. rewrite (Nat.eqb_sym k k'). destruct (k' =? k); reflexivity.
  - cbn [assoc]. rewrite IH. destruct (Nat.eqb_spec j k') as [->|]; [|reflexivity]. destruct (Nat.eqb_spec k' k); [contradiction|reflexivity].
Qed.
Lemma assoc_erase_key {A} k k' (l : list (list nat * A)) : assoc key_eqb k' (erase key_eqb k l) = if key_eqb k' k then None else assoc key_eqb k' l.
Proof.
  induction l as [|(j & a) l IH]; cbn [erase filter assoc fst]; [destruct (key_eqb k' k); reflexivity|]. change (filter (fun e : list nat * A => negb (key_eqb (fst e) k)) l) with (erase key_eqb k l). destruct (key_eqb_spec j k) as [->|N]; cbn [negb].
  - rewrite IH. destruct (key_eqb_spec k' k) as [->|N]; [reflexivity|]. destruct (key_eqb_spec k k'); [congruence|reflexivity].
  - cbn [assoc]. rewrite IH. destruct (key_eqb_spec j k') as [->|]; [|reflexivity]. destruct (key_eqb_spec k' k); [contradiction|reflexivity].
Qed.
Lemma assoc_erase_keys ks : forall m k, assoc key_eqb k (erase_keys ks m) = if existsb (key_eqb k) ks then None else assoc key_eqb k m.
Proof.
  unfold erase_keys. induction ks as [|j ks IH]; intros m k; cbn [fold_left existsb]; [reflexivity|]. rewrite IH, assoc_erase_key. destruct (key_eqb k j); cbn [orb]; [destruct (existsb (key_eqb k) ks); reflexivity|reflexivity].
Qed.
Lemma existsb_key k ks : existsb (key_eqb k) ks = true <-> In k ks.
Proof. rewrite existsb_exists. split; [intros (j & I & E); destruct (key_eqb_spec k j); [subst; exact I|discriminate]|]. intros I. exists k. split; [exact I|]. destruct (key_eqb_spec k k); congruence. Qed.

(** The model and the specification have the same dats. *)
Definition same (s : state) (x : existing) : Prop :=
  (forall k, assoc Nat.eqb k (dats s) = x_dats x k) /\
  match eph s, x_eph x with Some m, Some m' => forall k, assoc Nat.eqb k m = m' k | None, None => True | _, _ => False end /\ next s = x_next x.
Definition in_eph (x : existing) (k : nat) : Prop := match x_eph x with Some m => m k <> None | None => False end.

Lemma find_current s x k : same s x -> option_map fst (find s k) = current x k /\ (forall p b, find s k = Some (p, b) -> (b = true <-> in_eph x k)).
Proof.
  intros (A & B & _). unfold find, current, in_eph. destruct (eph s) as [m|], (x_eph x) as [m'|]; try contradiction.
  - rewrite <- B. destruct (assoc Nat.eqb k m) as [p|]; cbn [option_map]; [split; [reflexivity|]; intros q b E; inversion E; subst; split; congruence|]. rewrite <- A. destruct (assoc Nat.eqb k (dats s)); cbn [obind option_map]; (split; [reflexivity|]); intros q b E; inversion E; subst; split; congruence.
  - rewrite <- A. destruct (assoc Nat.eqb k (dats s)); cbn [obind option_map]; (split; [reflexivity|]); intros q b E; inversion E; subst; split; [congruence|tauto].
Qed.
Lemma find_all s x l : same s x ->
  match mapM (find s) l with
  | Some xs => mapM (current x) l = Some (map fst xs) /\ (existsb snd xs = false -> forall k, In k l -> ~ in_eph x k)
  | None => mapM (current x) l = None
  end.
Proof.
  intros Sm. induction l as [|k l IH]; cbn [mapM map]; [split; [reflexivity|]; intros _ k []|]. destruct (find_current s x k Sm) as (F & G). destruct (find s k) as [(p & b)|]; cbn [obind option_map fst] in *; rewrite <- F; cbn [obind]; [|reflexivity].
  destruct (mapM (find s) l) as [xs|]; cbn [obind]; [|rewrite IH; reflexivity]. destruct IH as (-> & I). cbn [obind map fst existsb snd]. split; [reflexivity|]. intros E j [<-|J]; apply orb_false_iff in E; destruct E as (E1 & E2); [|apply I; assumption]. intros X. apply (G p b eq_refl) in X. congruence.
Qed.

(** The caches agree with the dats that exist. *)
Definition coherent (s : state) (x : existing) (all recent : list nat) : Prop :=
  (forall const k ps, assoc key_eqb k (cached s const) = Some ps ->
     mapM (current x) k = Some ps /\ incl k all /\ (In k (ekeys s) \/ forall sym, In sym k -> ~ in_eph x sym)) /\
  (forall k, In k (ekeys s) -> incl k recent).

Lemma mapM_current x x' k : (forall sym, In sym k -> current x' sym = current x sym) -> mapM (current x') k = mapM (current x) k.
Proof. intros H. apply mapM_ext_in. exact H. Qed.
Lemma current_some x k ps sym : mapM (current x) k = Some ps -> In sym k -> current x sym <> None.
Proof.
  revert ps. induction k as [|j k IH]; intros ps E I; [destruct I|]. cbn [mapM] in E. destruct (current x j) eqn:C; cbn [obind] in E; [|discriminate]. destruct (mapM (current x) k) as [qs|] eqn:M; cbn [obind] in E; [|discriminate]. destruct I as [<-|I]; [congruence|]. exact (IH qs eq_refl I).
Qed.

Lemma coherent_step s x all recent o s' r : same s x -> coherent s x all recent ->
  match o with RemoveDat j => ~ In j all | AddEph j => x_dats x j = None \/ ~ In j all | RemoveEph j => ~ In j recent | _ => True end ->
  match o with Loop _ syms => incl syms all /\ incl syms recent | _ => True end ->
  step s o = Some (s', r) -> exists x', spec_step x o = Some (x', r) /\ same s' x' /\ coherent s' x' all (match o with ResetEph => [] | _ => recent end).
Proof.
  intros Sm Co Ti Us E. pose proof Sm as (SA & SB & SC). pose proof Co as (C1 & C2). destruct o as [j|j|j|j| |const syms]; cbn [step spec_step] in *.
  - rewrite SA in E. destruct (x_dats x j) as [p|] eqn:D; inversion E; subst; eexists; (split; [reflexivity|]); [split; assumption|]. split.
    + split; [|split; [exact SB|cbn [next x_next]; lia]]. intros k. cbn [dats assoc x_dats]. unfold set_. rewrite (Nat.eqb_sym k j). destruct (j =? k); [congruence|apply SA].
    + split; [|exact C2]. intros const k ps H. destruct (C1 const k ps H) as (M & I & X). split; [|split; [exact I|exact X]]. rewrite <- M. apply mapM_current. intros sym Hs. pose proof (current_some x k ps sym M Hs) as CS. unfold current in *. cbn [x_eph x_dats]. unfold set_. destruct (Nat.eqb_spec sym j) as [->|]; [|reflexivity]. rewrite D in *. destruct (x_eph x) as [m|]; [destruct (m j); congruence|congruence].
  - rewrite SA in E. destruct (x_dats x j) as [p|] eqn:D; cbn [obind] in E; [|discriminate]. inversion E; subst. eexists; split; [reflexivity|]. split.
    + split; [|split; [exact SB|exact SC]]. intros k. cbn [dats x_dats]. rewrite assoc_erase_nat, SA. reflexivity.
    + split; [|exact C2]. intros const k ps H. destruct (C1 const k ps H) as (M & I & X). split; [|split; [exact I|exact X]]. rewrite <- M. apply mapM_current. intros sym Hs. unfold current. cbn [x_eph x_dats]. unfold set_. destruct (Nat.eqb_spec sym j) as [->|]; [|reflexivity]. exfalso. exact (Ti (I _ Hs)).
  - destruct (eph s) as [m|] eqn:Es, (x_eph x) as [m'|] eqn:Ex; cbn [obind] in E; try contradiction; try discriminate. rewrite SB in E. destruct (m' j) as [p|] eqn:D; inversion E; subst; eexists; (split; [reflexivity|]); [split; [exact Sm|exact Co]|]. split.
    + split; [exact SA|]. split; [|cbn [next x_next]; lia]. cbn [eph x_eph]. intros k. cbn [assoc]. unfold set_. rewrite (Nat.eqb_sym k j). destruct (j =? k); [congruence|apply SB].
    + assert (NK : forall const k ps, assoc key_eqb k (cached s const) = Some ps -> ~ In j k). { intros const k ps H Ij. destruct (C1 const k ps H) as (M & I & _). pose proof (current_some x k ps j M Ij) as CS. unfold current in CS. rewrite Ex, D in CS. destruct Ti as [Ti|Ti]; [contradiction|]. exact (Ti (I _ Ij)). }
      split; [|exact C2]. intros const k ps H. destruct (C1 const k ps H) as (M & I & X). pose proof (NK const k ps H) as NJ. split; [|split; [exact I|]].
      * rewrite <- M. apply mapM_current. intros sym Hs. unfold current. cbn [x_eph x_dats]. rewrite Ex. unfold set_. destruct (Nat.eqb_spec sym j) as [->|]; [contradiction|reflexivity].
      * destruct X as [X|X]; [left; exact X|]. right. intros sym Hs. specialize (X sym Hs). unfold in_eph in *. cbn [x_eph]. rewrite Ex in X. unfold set_. destruct (Nat.eqb_spec sym j) as [->|]; [contradiction|exact X].
  - destruct (eph s) as [m|] eqn:Es, (x_eph x) as [m'|] eqn:Ex; cbn [obind] in E; try contradiction; try discriminate. rewrite SB in E. destruct (m' j) as [p|] eqn:D; cbn [obind] in E; inversion E; subst. eexists; split; [reflexivity|]. split.
    + split; [exact SA|]. split; [|exact SC]. cbn [eph x_eph]. intros k. rewrite assoc_erase_nat, SB. reflexivity.
    + split; [|exact C2]. intros const k ps H. destruct (C1 const k ps H) as (M & I & X).
      assert (NJ : ~ In j k). { intros Ij. destruct X as [X|X]; [exact (Ti (C2 k X _ Ij))|]. apply (X j Ij). unfold in_eph. rewrite Ex, D. discriminate. }
      split; [|split; [exact I|]].
      * rewrite <- M. apply mapM_current. intros sym Hs. unfold current. cbn [x_eph x_dats]. rewrite Ex. unfold set_. destruct (Nat.eqb_spec sym j) as [->|]; [contradiction|reflexivity].
      * destruct X as [X|X]; [left; exact X|]. right. intros sym Hs. specialize (X sym Hs). unfold in_eph in *. cbn [x_eph]. rewrite Ex in X. unfold set_. destruct (Nat.eqb_spec sym j) as [->|]; [contradiction|exact X].
  - destruct (eph s) as [m|] eqn:Es, (x_eph x) as [m'|] eqn:Ex; cbn [obind] in E; try contradiction; try discriminate. inversion E; subst. eexists; split; [reflexivity|]. split.
    + split; [exact SA|]. split; [|exact SC]. cbn [eph x_eph]. reflexivity.
    + split; [|intros k []]. intros const k ps H.
      assert (H' : assoc key_eqb k (cached s const) = Some ps /\ ~ In k (ekeys s)). { unfold cached in *. destruct const; cbn [cptrs ptrs] in H; rewrite assoc_erase_keys in H; destruct (existsb (key_eqb k) (ekeys s)) eqn:B; try discriminate; (split; [exact H|]); intros X; apply existsb_key in X; congruence. }
      destruct H' as (H' & NE). destruct (C1 const k ps H') as (M & I & X). destruct X as [X|X]; [contradiction|]. split; [|split; [exact I|right; intros sym _; cbn; congruence]]. rewrite <- M. apply mapM_current. intros sym Hs. specialize (X sym Hs). unfold in_eph in X. rewrite Ex in X. unfold current. cbn [x_eph x_dats]. rewrite Ex. destruct (m' sym); [exfalso; apply X; discriminate|reflexivity].
  - unfold create, get in E. pose proof (find_all s x syms Sm) as FA. destruct (assoc key_eqb syms (cached s const)) as [ps|] eqn:Ca; cbn [obind] in E.
    + destruct (mapM (find s) syms) as [xs|]; cbn [obind] in E; [|discriminate]. rewrite Ca in E. cbn [obind] in E. inversion E; subst. destruct (C1 const syms ps Ca) as (M & _). rewrite M. exists x. split; [reflexivity|]. split; assumption.
    + destruct (mapM (find s) syms) as [xs|] eqn:F; cbn [obind] in E; [|discriminate].
      set (s1 := mk_state (dats s) (eph s) (if const then ptrs s else (syms, map fst xs) :: ptrs s) (if const then (syms, map fst xs) :: cptrs s else cptrs s) (if existsb snd xs then syms :: ekeys s else ekeys s) (next s)) in *.
      assert (FS : mapM (find s1) syms = Some xs) by (rewrite <- F; apply mapM_ext_in; reflexivity). rewrite FS in E. cbn [obind] in E.
      assert (CA : forall c k, assoc key_eqb k (cached s1 c) = if Bool.eqb c const then if key_eqb syms k then Some (map fst xs) else assoc key_eqb k (cached s c) else assoc key_eqb k (cached s c)) by (intros [|] k; unfold cached, s1; destruct const; reflexivity).
      rewrite CA in E. destruct (key_eqb_spec syms syms) as [_|N]; [|congruence]. rewrite eqb_reflx in E. cbn [obind] in E. inversion E; subst s' r. destruct FA as (M & EP). rewrite M. exists x. split; [reflexivity|]. split; [exact Sm|]. destruct Us as (U1 & U2). split.
      * intros c k ps H. rewrite CA in H. destruct (Bool.eqb c const && key_eqb syms k) eqn:B.
        -- apply andb_true_iff in B. destruct B as (B1 & B2). rewrite B1, B2 in H. inversion H; subst ps. destruct (key_eqb_spec syms k); [subst k|discriminate]. split; [exact M|]. split; [exact U1|]. cbn [s1 ekeys]. destruct (existsb snd xs) eqn:EB; [left; left; reflexivity|]. right. exact (EP eq_refl).
        -- assert (H' : assoc key_eqb k (cached s c) = Some ps) by (destruct (Bool.eqb c const); [destruct (key_eqb syms k); [discriminate|exact H]|exact H]). destruct (C1 c k ps H') as (M' & I & X). split; [exact M'|]. split; [exact I|]. destruct X as [X|X]; [left; cbn [s1 ekeys]; destruct (existsb snd xs); [right|]; exact X|right; exact X].
      * cbn [s1 ekeys]. intros k I. destruct (existsb snd xs); [destruct I as [<-|I]; [exact U2|apply C2; exact I]|apply C2; exact I].
Qed.

Lemma step_none s x all recent o : same s x -> coherent s x all recent -> step s o = None -> spec_step x o = None.
Proof.
  intros Sm Co E. pose proof Sm as (SA & SB & SC). destruct o as [j|j|j|j| |const syms]; cbn [step spec_step] in *.
  - destruct (assoc Nat.eqb j (dats s)); discriminate.
  - rewrite SA in E. destruct (x_dats x j); cbn [obind] in E; [discriminate|reflexivity].
  - destruct (eph s) as [m|], (x_eph x) as [m'|]; cbn [obind] in E; try contradiction; [destruct (assoc Nat.eqb j m); discriminate|reflexivity].
  - destruct (eph s) as [m|], (x_eph x) as [m'|]; cbn [obind] in E; try contradiction; [|reflexivity]. rewrite SB in E. destruct (m' j); cbn [obind] in E; [discriminate|reflexivity].
  - destruct (eph s) as [m|], (x_eph x) as [m'|]; cbn [obind] in E; try contradiction; [discriminate|reflexivity].
  - pose proof (find_all s x syms Sm) as FA. unfold create, get in E. destruct (assoc key_eqb syms (cached s const)) as [ps|] eqn:Ca; cbn [obind] in E.
    + destruct (mapM (find s) syms); cbn [obind] in E; [rewrite Ca in E; discriminate|rewrite FA; reflexivity].
    + destruct (mapM (find s) syms) as [xs|] eqn:F; cbn [obind] in E; [|rewrite FA; reflexivity]. exfalso.
      set (s1 := mk_state (dats s) (eph s) (if const then ptrs s else (syms, map fst xs) :: ptrs s) (if const then (syms, map fst xs) :: cptrs s else cptrs s) (if existsb snd xs then syms :: ekeys s else ekeys s) (next s)) in *.
      assert (FS : mapM (find s1) syms = Some xs) by (rewrite <- F; apply mapM_ext_in; reflexivity). rewrite FS in E. cbn [obind] in E. assert (CA : assoc key_eqb syms (cached s1 const) = Some (map fst xs)) by (unfold cached, s1; destruct const; cbn [assoc cptrs ptrs]; destruct (key_eqb_spec syms syms); congruence). rewrite CA in E. discriminate.
Qed.

Lemma coherent_mono s x all all' recent recent' : incl all all' -> incl recent recent' -> coherent s x all recent -> coherent s x all' recent'.
Proof. intros A B (C1 & C2). split; [intros c k ps H; destruct (C1 c k ps H) as (M & I & X); split; [exact M|]; split; [eapply incl_tran; eassumption|exact X]|intros k H; eapply incl_tran; [apply C2; exact H|exact B]]. Qed.

(** The dats of a group as a function. *)
Definition of_group (sub : bool) (group : list (nat * nat)) (n : nat) : existing := mk_existing (fun k => assoc Nat.eqb k group) (if sub then Some (fun _ => None) else None) n.

(** For programs that do not change what a Sym means after it was used in a SymVector, all loops use the dats that exist when they are executed. *)
Theorem C79_current_dats : forall sub group n h, tidy (of_group sub group n) [] [] h ->
  option_map snd (run (start sub group n) h) = spec_run (of_group sub group n) h.
Proof.
  assert (G : forall h s x all recent acc, same s x -> coherent s x all recent -> tidy x all recent h ->
    option_map snd (foldM (fun a o => r <- step (fst a) o ;; Some (fst r, snd a ++ snd r)) (s, acc) h) = option_map (app acc) (spec_run x h)).
  { induction h as [|o h IH]; intros s x all recent acc Sm Co Ti; cbn [foldM spec_run fst snd]; [cbn [option_map]; rewrite app_nil_r; reflexivity|]. cbn [tidy] in Ti. destruct Ti as (T1 & T2). destruct (step s o) as [(s' & r)|] eqn:E; cbn [obind fst snd].
    - assert (X : exists all' recent' x', incl all all' /\ spec_step x o = Some (x', r) /\ same s' x' /\ coherent s' x' all' recent' /\ tidy x' all' recent' h).
      { destruct o as [j|j|j|j| |const syms].
        1-5: match type of E with step ?s0 ?o = _ => destruct (coherent_step s0 x all recent o s' r Sm Co T1 I E) as (x' & Ex & Sm' & Co') end; rewrite Ex in T2; eexists _, _, x'; (split; [apply incl_refl|]); (split; [exact Ex|]); (split; [exact Sm'|]); (split; [exact Co'|exact T2]).
        destruct (coherent_step s x (syms ++ all) (syms ++ recent) (Loop const syms) s' r Sm) as (x' & Ex & Sm' & Co'); [eapply coherent_mono; [| |exact Co]; apply incl_appr, incl_refl|exact I|split; apply incl_appl, incl_refl|exact E|]. rewrite Ex in T2. exists (syms ++ all), (syms ++ recent), x'. split; [apply incl_appr, incl_refl|]. split; [exact Ex|]. split; [exact Sm'|]. split; [exact Co'|exact T2]. }
      destruct X as (all' & recent' & x' & _ & Ex & Sm' & Co' & T'). rewrite Ex. rewrite (IH s' x' all' recent' (acc ++ r) Sm' Co' T'). destruct (spec_run x' h); cbn [option_map]; [rewrite app_assoc|]; reflexivity.
    - rewrite (step_none s x all recent o Sm Co E). reflexivity. }
  intros sub group n h Ti. unfold run. rewrite (G h (start sub group n) (of_group sub group n) [] [] []).
  - destruct (spec_run (of_group sub group n) h); reflexivity.
  - split; [reflexivity|]. split; [|reflexivity]. destruct sub; cbn; auto.
  - split; [|intros k []]. intros [|] k ps H; discriminate.
  - exact Ti.
Qed.
Print Assumptions C79_current_dats.

(** ** What the cache gets wrong for other programs *)

(** Nothing but [ResetEph] takes pointers out of the caches. *)
Lemma loop_again s const syms s' r : step s (Loop const syms) = Some (s', r) -> assoc key_eqb syms (cached s' const) <> None /\ r = match assoc key_eqb syms (cached s' const) with Some p => [p] | None => [] end /\ dats s' = dats s /\ eph s' = eph s /\ next s' = next s /\ exists xs, mapM (find s) syms = Some xs.
Proof.
  cbn [step]. unfold create, get. destruct (assoc key_eqb syms (cached s const)) as [ps|] eqn:Ca; cbn [obind].
  - destruct (mapM (find s) syms) as [xs|]; cbn [obind]; [|discriminate]. rewrite Ca. cbn [obind]. intros E. inversion E; subst. rewrite Ca. repeat split; [discriminate|]. eauto.
  - destruct (mapM (find s) syms) as [xs|] eqn:F; cbn [obind]; [|discriminate]. set (s1 := mk_state (dats s) (eph s) _ _ _ (next s)). destruct (mapM (find s1) syms) as [ys|]; cbn [obind]; [|discriminate]. destruct (assoc key_eqb syms (cached s1 const)) as [p|] eqn:C1; cbn [obind]; [|discriminate]. intros E. inversion E; subst. rewrite C1. repeat split; [discriminate|]. eauto.
Qed.
Lemma hit s const syms p : assoc key_eqb syms (cached s const) = Some p -> mapM (find s) syms <> None -> step s (Loop const syms) = Some (s, [p]).
Proof. intros Ca F. cbn [step]. unfold create, get. rewrite Ca. cbn [obind]. destruct (mapM (find s) syms); [|contradiction]. cbn [obind]. rewrite Ca. reflexivity. Qed.

(** After any program that ends with a loop, removing a ParticleDat of the loop and adding it again makes the
    next loop use the pointers of the first loop, although the ParticleDat now has another pointer. *)
Theorem C79_removed_dat_refuted : forall sub group n h s outs const syms sym old s1 r,
  run (start sub group n) h = Some (s, outs) -> step s (Loop const syms) = Some (s1, r) -> In sym syms ->
  assoc Nat.eqb sym (dats s) = Some old -> (forall m, eph s = Some m -> assoc Nat.eqb sym m = None) ->
  exists s2, run (start sub group n) (h ++ [Loop const syms; RemoveDat sym; AddDat sym; Loop const syms]) = Some (s2, outs ++ r ++ r) /\
    assoc Nat.eqb sym (dats s2) = Some (next s).
Proof.
  intros sub group n h s outs const syms sym old s1 r R L I D N. unfold run in *. rewrite foldM_app, R. cbn [obind foldM fst snd]. rewrite L. cbn [obind fst snd].
  destruct (loop_again s const syms s1 r L) as (C & Er & Ed & Ee & En & xs & F). rewrite <- Ed in D. cbn [step]. rewrite D. cbn [obind fst snd dats]. rewrite assoc_erase_nat, Nat.eqb_refl. cbn [obind fst snd dats eph ptrs cptrs ekeys next].
  set (s2 := mk_state ((sym, next s1) :: erase Nat.eqb sym (dats s1)) (eph s1) (ptrs s1) (cptrs s1) (ekeys s1) (S (next s1))).
  assert (Cs : cached s2 const = cached s1 const) by reflexivity. destruct (assoc key_eqb syms (cached s1 const)) as [p|] eqn:Ca; [|contradiction].
  assert (Hit : step s2 (Loop const syms) = Some (s2, [p])).
  { apply hit; [rewrite Cs; exact Ca|]. intros X. assert (Y : exists ys, mapM (find s2) syms = Some ys).
    { apply mapM_total. intros k Ik. assert (Fk : find s k <> None). { clear - F Ik. revert xs F. induction syms as [|j l IH]; intros xs F; [destruct Ik|]. cbn [mapM] in F. destruct (find s j) eqn:Fj; cbn [obind] in F; [|discriminate]. destruct (mapM (find s) l) as [q|]; cbn [obind] in F; [|discriminate]. destruct Ik as [<-|Ik]; [congruence|]. exact (IH Ik q eq_refl). }
      unfold find in *. cbn [s2 eph dats]. rewrite Ee, Ed. destruct (match eph s with Some m => assoc Nat.eqb k m | None => None end); [eauto|]. cbn [assoc]. destruct (Nat.eqb_spec sym k) as [->|Nk]; cbn [obind]; [eauto|]. rewrite assoc_erase_nat. destruct (Nat.eqb_spec k sym); [congruence|]. destruct (assoc Nat.eqb k (dats s)); cbn [obind] in *; [eauto|congruence]. }
    destruct Y as (ys & Y). congruence. }
  cbn [step] in Hit. rewrite Hit. cbn [obind fst snd]. exists s2. split.
  - rewrite Er, !app_nil_r, <- app_assoc. reflexivity.
  - cbn [s2 dats assoc]. rewrite Nat.eqb_refl, En. reflexivity.
Qed.
Print Assumptions C79_removed_dat_refuted.

(** A loop, then an EphemeralDat for a Sym of the loop, then the loop again: the loop goes on using the ParticleDat. *)
Theorem C79_shadowed_dat_refuted : forall group n h s outs const syms sym s1 r,
  run (start true group n) h = Some (s, outs) -> step s (Loop const syms) = Some (s1, r) -> In sym syms ->
  (forall m, eph s = Some m -> assoc Nat.eqb sym m = None) -> eph s <> None ->
  exists s2, run (start true group n) (h ++ [Loop const syms; AddEph sym; Loop const syms]) = Some (s2, outs ++ r ++ r) /\
    option_map fst (find s2 sym) = Some (next s).
Proof.
  intros group n h s outs const syms sym s1 r R L I N NE. unfold run in *. rewrite foldM_app, R. cbn [obind foldM fst snd]. rewrite L. cbn [obind fst snd].
  destruct (loop_again s const syms s1 r L) as (C & Er & Ed & Ee & En & xs & F). cbn [step]. rewrite Ee. destruct (eph s) as [m|] eqn:Es; [|contradiction]. cbn [obind]. rewrite (N m eq_refl). cbn [obind fst snd].
  set (s2 := mk_state (dats s1) (Some ((sym, next s1) :: m)) (ptrs s1) (cptrs s1) (ekeys s1) (S (next s1))).
  assert (Cs : cached s2 const = cached s1 const) by reflexivity. destruct (assoc key_eqb syms (cached s1 const)) as [p|] eqn:Ca; [|contradiction].
  assert (Hit : step s2 (Loop const syms) = Some (s2, [p])).
  { apply hit; [rewrite Cs; exact Ca|]. intros X. assert (Y : exists ys, mapM (find s2) syms = Some ys).
    { apply mapM_total. intros k Ik. assert (Fk : find s k <> None). { clear - F Ik. revert xs F. induction syms as [|j l IH]; intros xs F; [destruct Ik|]. cbn [mapM] in F. destruct (find s j) eqn:Fj; cbn [obind] in F; [|discriminate]. destruct (mapM (find s) l) as [q|]; cbn [obind] in F; [|discriminate]. destruct Ik as [<-|Ik]; [congruence|]. exact (IH Ik q eq_refl). }
      unfold find in *. cbn [s2 eph dats assoc]. rewrite Ed. rewrite Es in Fk. destruct (sym =? k); [eauto|]. destruct (assoc Nat.eqb k m); [eauto|]. destruct (assoc Nat.eqb k (dats s)); cbn [obind] in *; [eauto|congruence]. }
    destruct Y as (ys & Y). congruence. }
  cbn [step] in Hit. rewrite Hit. cbn [obind fst snd]. exists s2. split.
  - rewrite Er, app_nil_r, <- app_assoc. reflexivity.
  - unfold find. cbn [s2 eph assoc]. rewrite Nat.eqb_refl, En. reflexivity.
Qed.
Print Assumptions C79_shadowed_dat_refuted.

(** An EphemeralDat removed and added again between two loops: the second loop uses the pointer of the removed one. *)
Theorem C79_removed_ephemeral_refuted : forall group n h s outs const syms sym m old s1 r,
  run (start true group n) h = Some (s, outs) -> step s (Loop const syms) = Some (s1, r) -> In sym syms ->
  eph s = Some m -> assoc Nat.eqb sym m = Some old ->
  exists s2, run (start true group n) (h ++ [Loop const syms; RemoveEph sym; AddEph sym; Loop const syms]) = Some (s2, outs ++ r ++ r) /\
    option_map fst (find s2 sym) = Some (next s).
Proof.
  intros group n h s outs const syms sym m old s1 r R L I Es O. unfold run in *. rewrite foldM_app, R. cbn [obind foldM fst snd]. rewrite L. cbn [obind fst snd].
  destruct (loop_again s const syms s1 r L) as (C & Er & Ed & Ee & En & xs & F). cbn [step]. rewrite Ee, Es. cbn [obind]. rewrite O. cbn [obind fst snd eph]. rewrite assoc_erase_nat, Nat.eqb_refl. cbn [obind fst snd dats eph ptrs cptrs ekeys next].
  set (s2 := mk_state (dats s1) (Some ((sym, next s1) :: erase Nat.eqb sym m)) (ptrs s1) (cptrs s1) (ekeys s1) (S (next s1))).
  assert (Cs : cached s2 const = cached s1 const) by reflexivity. destruct (assoc key_eqb syms (cached s1 const)) as [p|] eqn:Ca; [|contradiction].
  assert (Hit : step s2 (Loop const syms) = Some (s2, [p])).
  { apply hit; [rewrite Cs; exact Ca|]. intros X. assert (Y : exists ys, mapM (find s2) syms = Some ys).
    { apply mapM_total. intros k Ik. assert (Fk : find s k <> None). { clear - F Ik. revert xs F. induction syms as [|j l IH]; intros xs F; [destruct Ik|]. cbn [mapM] in F. destruct (find s j) eqn:Fj; cbn [obind] in F; [|discriminate]. destruct (mapM (find s) l) as [q|]; cbn [obind] in F; [|discriminate]. destruct Ik as [<-|Ik]; [congruence|]. exact (IH Ik q eq_refl). }
      unfold find in *. cbn [s2 eph dats assoc]. rewrite Ed. rewrite Es in Fk. destruct (Nat.eqb_spec sym k) as [->|Nk]; [eauto|]. rewrite assoc_erase_nat. destruct (Nat.eqb_spec k sym); [congruence|]. destruct (assoc Nat.eqb k m); [eauto|]. destruct (assoc Nat.eqb k (dats s)); cbn [obind] in *; [eauto|congruence]. }
    destruct Y as (ys & Y). congruence. }
  cbn [step] in Hit. rewrite Hit. cbn [obind fst snd]. exists s2. split.
  - rewrite Er, !app_nil_r, <- app_assoc. reflexivity.
  - unfold find. cbn [s2 eph assoc]. rewrite Nat.eqb_refl, En. reflexivity.
Qed.
Print Assumptions C79_removed_ephemeral_refuted.

(** ** Examples: dats 0 and 1 with pointers 10 and 11. *)
Definition g79 : list (nat * nat) := [(0, 10); (1, 11)].
(** EphemeralDats come and go with resets, a dat is added and another, unused one removed. *)
Definition h79 : list op := [Loop true [0]; AddEph 5; Loop false [5; 0]; Loop true [5; 0]; ResetEph; AddDat 6; AddEph 5; Loop false [5; 0]; RemoveDat 1; Loop false [6; 0]; Loop false [0; 6]; ResetEph; AddDat 5; Loop false [5; 0]].
Example C79_example : tidy (of_group true g79 20) [] [] h79 /\
  option_map snd (run (start true g79 20) h79) = Some [[10]; [20; 10]; [20; 10]; [22; 10]; [21; 10]; [10; 21]; [23; 10]].
Proof. split; [|vm_compute; reflexivity]. cbn. repeat split; try (left; reflexivity); intuition discriminate. Qed.
(** The three programs for which the cache gives old pointers: the right ones are 20, 20 and 21. *)
Example C79_example_refuted :
  option_map snd (run (start false g79 20) [Loop true [0; 1]; RemoveDat 0; AddDat 0; Loop true [0; 1]]) = Some [[10; 11]; [10; 11]] /\
  spec_run (of_group false g79 20) [Loop true [0; 1]; RemoveDat 0; AddDat 0; Loop true [0; 1]] = Some [[10; 11]; [20; 11]] /\
  option_map snd (run (start true g79 20) [Loop true [0]; AddEph 0; Loop true [0]]) = Some [[10]; [10]] /\
  spec_run (of_group true g79 20) [Loop true [0]; AddEph 0; Loop true [0]] = Some [[10]; [20]] /\
  option_map snd (run (start true g79 20) [AddEph 0; Loop true [0]; RemoveEph 0; AddEph 0; Loop true [0]]) = Some [[20]; [20]] /\
  spec_run (of_group true g79 20) [AddEph 0; Loop true [0]; RemoveEph 0; AddEph 0; Loop true [0]] = Some [[20]; [21]].
Proof. vm_compute. repeat split. Qed.
