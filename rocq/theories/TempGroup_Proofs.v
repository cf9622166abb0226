(** Proofs about temporary groups. *)
From Coq Require Import List Arith Bool Lia.
Import ListNotations.
From Verif Require Import Base Kernel TempGroup_Model TempGroup_Spec.
Local Open Scope nat_scope.

Lemma look_in l s v : NoDup (map fst l) -> (look l s = Some v <-> In (s, v) l).
Proof.
  unfold look. induction l as [|(a, w) l IH]; intros ND; cbn [find fst]; [split; [discriminate|intros []]|]. cbn [map fst] in ND. apply NoDup_cons_iff in ND. destruct ND as (NI & ND).
  destruct (Nat.eqb_spec a s) as [->|Na]; cbn [option_map snd].
  - split; [intros [= ->]; left; reflexivity|]. intros [E|I]; [congruence|]. destruct NI. apply in_map_iff. exists (s, v). auto.
  - rewrite (IH ND). cbn [In]. split; [auto|]. intros [E|I]; [congruence|exact I].
Qed.
Lemma look_none l s : look l s = None <-> ~ In s (map fst l).
Proof.
  unfold look. induction l as [|(a, w) l IH]; cbn [find fst map In]; [tauto|]. destruct (Nat.eqb_spec a s) as [->|Na]; cbn [option_map]; [split; [discriminate|tauto]|]. rewrite IH. tauto.
Qed.
Lemma look_app l l' s : look (l ++ l') s = match look l s with Some v => Some v | None => look l' s end.
Proof. unfold look. induction l as [|(a, w) l IH]; cbn [app find fst]; [reflexivity|]. destruct (a =? s); [reflexivity|exact IH]. Qed.
Lemma look_filter l s s' : look (filter (fun e => negb (fst e =? s)) l) s' = if s' =? s then None else look l s'.
Proof.
  induction l as [|(a, w) l IH]; cbn [filter fst]; [destruct (s' =? s); reflexivity|]. destruct (Nat.eqb_spec a s) as [->|Na]; cbn [negb].
  - rewrite IH. unfold look. cbn [find fst]. rewrite (Nat.eqb_sym s s'). destruct (s' =? s); reflexivity.
  - unfold look in *. cbn [find fst]. destruct (Nat.eqb_spec a s') as [->|Nb]; [|exact IH]. destruct (Nat.eqb_spec s' s); [congruence|reflexivity].
Qed.
Lemma filter_keys (f : nat * (nat * bool) -> bool) l : NoDup (map fst l) -> NoDup (map fst (filter f l)).
Proof.
  induction l as [|e l IH]; intros ND; cbn [filter map]; [constructor|]. cbn [map] in ND. apply NoDup_cons_iff in ND. destruct ND as (NI & ND). destruct (f e); [|auto]. cbn [map]. constructor; [|auto].
  intros I. apply NI. apply in_map_iff in I. destruct I as (x & E & I). apply filter_In in I. apply in_map_iff. exists x. tauto.
Qed.

(** The entries [F] are in the list, and no other entry is flagged. *)
Definition dinv (F l : dats) : Prop := NoDup (map fst l) /\ incl F l /\ forall s n, In (s, (n, true)) l -> In (s, (n, true)) F.
Lemma add_ok F l s n l' : dinv F l -> add_dat l s n false = Some l' -> dinv F l' /\ (forall s', s' <> s -> look l' s' = look l s') /\ exists b, look l' s = Some (n, b).
Proof.
  intros (ND & IF & FL) E. unfold add_dat in E. destruct (look l s) as [(m, b)|] eqn:El.
  - destruct (Nat.eqb_spec m n) as [->|]; [|discriminate]. injection E as <-. split; [split; auto|]. eauto.
  - injection E as <-. split; [split; [|split]|split].
    + rewrite map_app. cbn [map fst]. apply look_none in El. apply (NoDup_Add (a := s) (l := map fst l)); [rewrite <- (app_nil_r (map fst l)) at 1; apply Add_app|auto].
    + intros x I. apply in_or_app. auto.
    + intros s' n' I. apply in_app_or in I. destruct I as [I|[I|[]]]; [auto|discriminate].
    + intros s' N. rewrite look_app. destruct (look l s'); [reflexivity|]. unfold look. cbn. destruct (Nat.eqb_spec s s'); [congruence|reflexivity].
    + exists false. rewrite look_app, El. unfold look. cbn. rewrite Nat.eqb_refl. reflexivity.
Qed.
Lemma mem_keep s (F : dats) : existsb (Nat.eqb s) (map fst F) = true <-> In s (map fst F).
Proof. rewrite existsb_exists. split; [intros (x & I & E); apply Nat.eqb_eq in E; congruence|]. intros I. exists s. split; [exact I|apply Nat.eqb_refl]. Qed.
Lemma remove_ok F l s l' : dinv F l -> remove_dat (map fst F) l s = Some l' -> dinv F l' /\ look l' s = None /\ forall s', s' <> s -> look l' s' = look l s'.
Proof.
  intros (ND & IF & FL) E. unfold remove_dat in E. destruct (look l s); [|discriminate]. destruct (existsb _ _) eqn:K; [discriminate|]. injection E as <-. split; [split; [|split]|split].
  - apply filter_keys. exact ND.
  - intros x I. apply filter_In. split; [auto|]. apply negb_true_iff, Nat.eqb_neq. intros Ex. assert (J : In s (map fst F)) by (apply in_map_iff; eauto). apply mem_keep in J. congruence.
  - intros s' n' I. apply filter_In in I. apply FL. tauto.
  - rewrite look_filter, Nat.eqb_refl. reflexivity.
  - intros s' N. rewrite look_filter. destruct (Nat.eqb_spec s' s); [congruence|reflexivity].
Qed.
Lemma remove_some (F l : dats) s : look l s <> None -> ~ In s (map fst F) -> exists l', remove_dat (map fst F) l s = Some l'.
Proof. intros A B. unfold remove_dat. destruct (look l s); [|congruence]. destruct (existsb _ _) eqn:K; [apply mem_keep in K; contradiction|eauto]. Qed.
Lemma key_split (src pre post : dats) (e e' : nat * (nat * bool)) : NoDup (map fst src) -> src = pre ++ e :: post -> In e' pre -> fst e' <> fst e.
Proof.
  intros ND -> I E. rewrite map_app in ND. cbn [map] in ND. apply NoDup_remove_2 in ND. apply ND, in_or_app. left. rewrite <- E. apply in_map. exact I.
Qed.
Lemma new_ok F src l : dinv F l -> dinv F src -> exists l', check_new (map fst F) src l = Some l' /\ dinv F l' /\ forall s n b, In (s, (n, b)) src -> exists b', look l' s = Some (n, b').
Proof.
  intros Hl (NDs & IFs & _). unfold check_new.
  match goal with |- context [foldM ?f _ _] => destruct (foldM_ind f (fun (pre : dats) l => dinv F l /\ forall e : nat * (nat * bool), In e pre -> exists b', look l (fst e) = Some (fst (snd e), b')) src l) as (l' & E & D & V) end.
  - split; [exact Hl|]. intros e [].
  - intros pre (s, (n, b)) post m Es (D & V). cbn [fst snd].
    assert (IS : In (s, (n, b)) src) by (rewrite Es; apply in_elt).
    assert (K : exists m', match look m s with Some (k, _) => if k =? n then Some m else l' <- remove_dat (map fst F) m s ;; add_dat l' s n false | None => add_dat m s n false end = Some m' /\ dinv F m' /\ (forall s', s' <> s -> look m' s' = look m s') /\ exists b', look m' s = Some (n, b')).
    { destruct (look m s) as [(k, b0)|] eqn:El.
      - destruct (Nat.eqb_spec k n) as [->|Nk]; [exists m; split; [reflexivity|]; split; [exact D|]; eauto|].
        destruct (remove_some F m s) as (m1 & E1); [congruence| |].
        { intros I. apply in_map_iff in I. destruct I as ((s0, (k0, c0)) & Ee & I). cbn [fst] in Ee. subst s0. destruct D as (NDm & IFm & _).
          pose proof (proj2 (look_in m s (k0, c0) NDm) (IFm _ I)) as L1. pose proof (proj2 (look_in src s _ NDs) (IFs _ I)) as L2. pose proof (proj2 (look_in src s _ NDs) IS) as L3. congruence. }
        rewrite E1. cbn [obind]. destruct (remove_ok F m s m1 D E1) as (D1 & N1 & U1). assert (E2 : add_dat m1 s n false = Some (m1 ++ [(s, (n, false))])) by (unfold add_dat; rewrite N1; reflexivity).
        destruct (add_ok F m1 s n _ D1 E2) as (D2 & U2 & V2). exists (m1 ++ [(s, (n, false))]). split; [exact E2|]. split; [exact D2|]. split; [|exact V2]. intros s' N'. rewrite U2, U1 by exact N'. reflexivity.
      - assert (E2 : add_dat m s n false = Some (m ++ [(s, (n, false))])) by (unfold add_dat; rewrite El; reflexivity). destruct (add_ok F m s n _ D E2) as (D2 & U2 & V2). eauto 6. }
    destruct K as (m' & Em & Dm & Um & Vm). exists m'. split; [exact Em|]. split; [exact Dm|]. intros e I. apply in_app_or in I. destruct I as [I|[<-|[]]]; [|exact Vm].
    pose proof (key_split src pre post _ e NDs Es I) as N. cbn [fst] in N. rewrite Um by exact N. auto.
  - exists l'. split; [exact E|]. split; [exact D|]. intros s n b I. exact (V _ I).
Qed.
Lemma old_ok F src l : dinv F l -> dinv F src -> exists l', check_old (map fst F) src l = Some l' /\ dinv F l' /\ forall s, look l' s = match look src s with None => None | Some _ => look l s end.
Proof.
  intros Hl (NDs & IFs & _). unfold check_old. pose proof Hl as (NDl & _).
  match goal with |- context [foldM ?f _ _] => destruct (foldM_ind f (fun (pre : dats) m => dinv F m /\ forall s, (In s (map fst pre) -> look src s = None -> look m s = None) /\ (~ In s (map fst pre) \/ look src s <> None -> look m s = look l s)) l l) as (l' & E & D & V) end.
  - split; [exact Hl|]. intros s. split; [intros []|reflexivity].
  - intros pre (s, v) post m El (D & V). cbn [fst]. destruct (look src s) as [w|] eqn:Es.
    + exists m. split; [reflexivity|]. split; [exact D|]. intros s'. rewrite map_app. cbn [map fst]. split.
      * intros I N. apply in_app_or in I. destruct I as [I|[<-|[]]]; [apply V; assumption|congruence].
      * intros [N|N]; apply V; [left; intros I; apply N, in_or_app; auto|auto].
    + assert (Np : ~ In s (map fst pre)). { intros I. apply in_map_iff in I. destruct I as (e & Ee & I). apply (key_split l pre post (s, v) e NDl El I). exact Ee. }
      destruct (remove_some F m s) as (m1 & E1).
      { rewrite (proj2 (V s)) by auto. rewrite (proj2 (look_in l s v NDl)) by (rewrite El; apply in_elt). discriminate. }
      { intros I. apply in_map_iff in I. destruct I as ((s0, w) & Ee & I). cbn [fst] in Ee. subst s0. apply look_none in Es. apply Es, in_map_iff. exists (s, w). auto. }
      rewrite E1. exists m1. split; [reflexivity|]. destruct (remove_ok F m s m1 D E1) as (D1 & N1 & U1). split; [exact D1|]. intros s'. rewrite map_app. cbn [map fst]. destruct (Nat.eq_dec s' s) as [->|Ns].
      * split; [auto|]. intros [N|N]; [destruct N; apply in_elt|congruence].
      * rewrite U1 by exact Ns. split.
        -- intros I. apply in_app_or in I. destruct I as [I|[I|[]]]; [apply V; exact I|congruence].
        -- intros [N|N]; apply V; [left; intros I; apply N, in_or_app; auto|auto].
  - exists l'. split; [exact E|]. split; [exact D|]. intros s. destruct (V s) as (V1 & V2). destruct (look src s) eqn:Es; [apply V2; right; congruence|].
    destruct (look l s) eqn:Ell; [|apply V2; left; apply look_none; exact Ell]. apply V1; [|reflexivity]. destruct (in_dec Nat.eq_dec s (map fst l)) as [I|N]; [exact I|]. apply look_none in N. congruence.
Qed.
Lemma sync_ok F src l : dinv F l -> dinv F src -> exists l1 l2, check_new (map fst F) src l = Some l1 /\ check_old (map fst F) src l1 = Some l2 /\ dinv F l2 /\
  forall s n, (exists b, In (s, (n, b)) l2) <-> (exists b, In (s, (n, b)) src).
Proof.
  intros Hl Hs. destruct (new_ok F src l Hl Hs) as (l1 & E1 & D1 & V1). destruct (old_ok F src l1 D1 Hs) as (l2 & E2 & D2 & V2). exists l1, l2. split; [exact E1|]. split; [exact E2|]. split; [exact D2|].
  destruct D2 as (ND2 & _). destruct Hs as (NDs & _). intros s n. split; intros (b & I).
  - apply (look_in _ _ _ ND2) in I. rewrite V2 in I. destruct (look src s) as [(n0, b0)|] eqn:Es; [|discriminate]. apply (look_in _ _ _ NDs) in Es. destruct (V1 _ _ _ Es) as (b' & Eb). rewrite Eb in I. injection I as <- _. eauto.
  - destruct (V1 _ _ _ I) as (b' & Eb). exists b'. apply (look_in _ _ _ ND2). rewrite V2. apply (look_in _ _ _ NDs) in I. rewrite I. exact Eb.
Qed.
Lemma add_all src : forall acc, NoDup (map fst (acc ++ src)) -> foldM (fun l e => add_dat l (fst e) (fst (snd e)) (snd (snd e))) acc src = Some (acc ++ src).
Proof.
  induction src as [|(s, (n, b)) src IH]; intros acc ND; cbn [foldM]; [rewrite app_nil_r; reflexivity|]. unfold add_dat at 1. cbn [fst snd].
  assert (N : look acc s = None). { apply look_none. rewrite map_app in ND. cbn [map fst] in ND. apply NoDup_remove_2 in ND. intros I. apply ND, in_or_app. auto. }
  rewrite N. cbn [obind]. rewrite IH; rewrite <- app_assoc; [reflexivity|exact ND].
Qed.
Lemma add_int src : forall acc, (forall n b, In (mpi_rank, (n, b)) src -> n = 2) -> look acc mpi_rank = Some (2, false) -> NoDup (map fst (acc ++ filter (fun e => negb (fst e =? mpi_rank)) src)) ->
  foldM (fun l e => add_dat l (fst e) (fst (snd e)) (snd (snd e))) acc src = Some (acc ++ filter (fun e => negb (fst e =? mpi_rank)) src).
Proof.
  induction src as [|(s, (n, b)) src IH]; intros acc H2 HR ND; cbn [foldM filter fst] in *; [rewrite app_nil_r; reflexivity|]. unfold add_dat at 1. cbn [fst snd].
  destruct (Nat.eqb_spec s mpi_rank) as [->|N]; cbn [negb] in *.
  - rewrite HR. rewrite (H2 n b) by (left; reflexivity). rewrite Nat.eqb_refl. cbn [obind]. apply IH; [intros; eapply H2; right; eauto|exact HR|exact ND].
  - assert (L : look acc s = None). { apply look_none. rewrite map_app in ND. cbn [map fst] in ND. apply NoDup_remove_2 in ND. intros I. apply ND, in_or_app. auto. }
    rewrite L. cbn [obind]. rewrite IH; [rewrite <- app_assoc; reflexivity|intros; eapply H2; right; eauto|rewrite look_app, HR; reflexivity|rewrite <- app_assoc; exact ND].
Qed.
Lemma flagged_ok l p : (exists n, In (p, (n, true)) l) -> (forall s n, In (s, (n, true)) l -> s = p) -> flagged l = Some p.
Proof.
  intros (n & I) U. unfold flagged. destruct (find _ (rev l)) as [(s, (m, b))|] eqn:E.
  - apply find_some in E. destruct E as (J & Eb). cbn [snd] in Eb. subst b. rewrite <- in_rev in J. cbn. rewrite (U _ _ J). reflexivity.
  - apply find_none with (x := (p, (n, true))) in E; [discriminate|]. rewrite <- in_rev. exact I.
Qed.

Section Group.
  Variables p pn c cn N : nat.
  Definition FR : dats := [(p, (pn, true))].
  Definition FI : dats := [(mpi_rank, (2, false)); (c, (cn, true))].
  Definition ginv (g : pg) : Prop := dinv FR (real g) /\ dinv FI (int_ g) /\ pos g = p /\ cell g = c /\ length (npart g) = N.
  Lemma props_inv g : props_ok g p pn c cn -> length (npart g) = N -> ginv g.
  Proof.
    intros (A & B & P & C & R & I & K) L. split; [|split; [|auto]].
    - split; [exact A|]. split; [intros x [<-|[]]; apply R; auto|]. intros s n J. apply R in J. destruct J as (-> & ->). left. reflexivity.
    - split; [exact B|]. split; [intros x [<-|[<-|[]]]; [exact K|apply I; auto]|]. intros s n J. apply I in J. destruct J as (-> & ->). right. left. reflexivity.
  Qed.
  Lemma keeps g : ginv g -> keep_real g = map fst FR /\ keep_int g = map fst FI.
  Proof. intros (_ & _ & P & C & _). unfold keep_real, keep_int. rewrite P, C. split; reflexivity. Qed.
  Lemma apply_ok g ch g' : ginv g -> apply g ch = Some g' -> ginv g'.
  Proof.
    intros H E. destruct (keeps g H) as (KR & KI). destruct H as (R & I & P & C & L). destruct ch; cbn [apply] in E.
    - destruct (add_dat _ _ _ _) as [r|] eqn:Ea; [|discriminate]. injection E as <-. destruct (add_ok _ _ _ _ _ R Ea) as (D & _). split; [exact D|]. auto.
    - destruct (add_dat _ _ _ _) as [r|] eqn:Ea; [|discriminate]. injection E as <-. destruct (add_ok _ _ _ _ _ I Ea) as (D & _). split; [exact R|]. split; [exact D|]. auto.
    - rewrite KR in E. destruct (remove_dat _ _ _) as [r|] eqn:Ea; [|discriminate]. injection E as <-. destruct (remove_ok _ _ _ _ R Ea) as (D & _). split; [exact D|]. auto.
    - rewrite KI in E. destruct (remove_dat _ _ _) as [r|] eqn:Ea; [|discriminate]. injection E as <-. destruct (remove_ok _ _ _ _ I Ea) as (D & _). split; [exact R|]. split; [exact D|]. auto.
    - destruct (upd _ _ _) as [np|] eqn:Ea; [|discriminate]. injection E as <-. split; [exact R|]. split; [exact I|]. cbn. rewrite (upd_length _ _ _ _ Ea). auto.
  Qed.
  Lemma construct_ok g : ginv g -> exists t, construct N (real g) (int_ g) = Some t /\ ginv t /\ npart t = repeat 0 N.
  Proof.
    intros ((NR & IR & UR) & (NI & II & UI) & P & C & L). unfold construct. rewrite (add_all (real g) []) by exact NR. cbn [obind app].
    assert (RK : forall n b, In (mpi_rank, (n, b)) (int_ g) -> (n, b) = (2, false)). { intros n b J. apply (look_in _ _ _ NI) in J. pose proof (proj2 (look_in _ _ _ NI) (II _ (or_introl eq_refl))) as J'. congruence. }
    set (ii := [(mpi_rank, (2, false))] ++ filter (fun e => negb (fst e =? mpi_rank)) (int_ g)).
    assert (NDi : NoDup (map fst ii)). { unfold ii. cbn [app map fst]. constructor; [|apply filter_keys; exact NI]. intros J. apply in_map_iff in J. destruct J as (e & Ee & J). apply filter_In in J. destruct J as (_ & J). rewrite Ee in J. discriminate. }
    rewrite (add_int (int_ g) [(mpi_rank, (2, false))]); [|intros n b J; apply RK in J; congruence|reflexivity|exact NDi]. cbn [obind]. fold ii.
    assert (SUB : forall e, In e ii <-> In e (int_ g)).
    { intros (s, (n, b)). unfold ii. rewrite in_app_iff, filter_In. cbn [In fst]. split.
      - intros [[E|[]]|(J & _)]; [rewrite <- E; apply II; left; reflexivity|exact J].
      - intros J. destruct (Nat.eqb_spec s mpi_rank) as [->|Ns]; [left; left; apply RK in J; congruence|right; auto]. }
    rewrite (flagged_ok (real g) p); [|exists pn; apply IR; left; reflexivity|intros s n J; destruct (UR _ _ J) as [E|[]]; congruence]. cbn [obind].
    rewrite (flagged_ok ii c); [|exists cn; apply SUB, II; right; left; reflexivity|intros s n J; apply SUB in J; destruct (UI _ _ J) as [E|[E|[]]]; congruence]. cbn [obind].
    eexists. split; [reflexivity|]. split; [|reflexivity]. split; [split; auto|]. split; [split; [exact NDi|]; split; [intros x J; apply SUB, II; exact J|intros s n J; apply UI, SUB; exact J]|]. cbn. rewrite repeat_length. auto.
  Qed.
  Definition sinv (st : state) : Prop := ginv (source st) /\ Forall (fun t => ginv t /\ npart t = repeat 0 N) (stack st) /\ Forall ginv (used st).
  Lemma get_ok st : sinv st -> exists st' t, get st = Some st' /\ sinv st' /\ source st' = source st /\ used st' = t :: used st /\ stack st' = tl (stack st) /\ empty_copy t (source st).
  Proof.
    intros (S & K & U). unfold get. pose proof S as (SR & SI & SP & SC & SL).
    assert (T : exists t rest, match stack st with [] => t <- construct (length (npart (source st))) (real (source st)) (int_ (source st)) ;; Some (t, []) | t :: rest => Some (t, rest) end = Some (t, rest) /\ rest = tl (stack st) /\ ginv t /\ npart t = repeat 0 N /\ Forall (fun t => ginv t /\ npart t = repeat 0 N) rest).
    { destruct (stack st) as [|t rest].
      - rewrite SL. destruct (construct_ok (source st) S) as (t & Et & Gt & Nt). rewrite Et. exists t, []. auto.
      - inversion K as [|? ? (Gt & Nt) Kr]. subst. exists t, rest. auto. }
    destruct T as (t & rest & Et & Er & Gt & Nt & Kr). rewrite Et. cbn [obind fst snd]. destruct (keeps t Gt) as (KR & KI). rewrite KR, KI. pose proof Gt as (TR & TI & TP & TC & TL).
    destruct (sync_ok FR _ _ TR SR) as (r1 & r2 & R1 & R2 & DR & VR). destruct (sync_ok FI _ _ TI SI) as (i1 & i2 & I1 & I2 & DI & VI).
    rewrite R1. cbn [obind]. rewrite I1. cbn [obind]. rewrite R2. cbn [obind]. rewrite I2. cbn [obind]. eexists _, _. split; [reflexivity|].
    split; [split; [exact S|]; split; [exact Kr|]; constructor; [|exact U]; split; [exact DR|]; split; [exact DI|]; auto|]. split; [reflexivity|]. split; [reflexivity|]. split; [exact Er|].
    split; [exact VR|]. split; [exact VI|]. cbn. split; [congruence|]. split; [congruence|]. rewrite SL. exact Nt.
  Qed.
  Lemma forall_skip {A} (Q : A -> Prop) l k : Forall Q l -> Forall Q (firstn k l ++ skipn (S k) l).
  Proof.
    intros H. rewrite Forall_forall in *. intros x I. apply H. apply in_app_or in I. destruct I as [I|I]; [rewrite <- (firstn_skipn k l)|rewrite <- (firstn_skipn (S k) l)]; apply in_or_app; auto.
  Qed.
  Lemma step_ok st e st' : sinv st -> step st e = Some st' -> sinv st'.
  Proof.
    intros H E. destruct e as [ch|k ch| |k]; cbn [step] in E.
    - destruct H as (S & K & U). destruct (apply _ _) as [g|] eqn:Ea; [|discriminate]. injection E as <-. split; [eapply apply_ok; eauto|]. auto.
    - destruct H as (S & K & U). unfold rd in E. destruct (nth_error (used st) k) as [t|] eqn:Et; [|discriminate]. cbn [obind] in E. destruct (apply t ch) as [t'|] eqn:Ea; [|discriminate]. cbn [obind] in E. destruct (upd _ _ _) as [u|] eqn:Eu; [|discriminate]. injection E as <-.
      assert (Gt : ginv t) by (rewrite Forall_forall in U; eapply U, nth_error_In; eauto). split; [exact S|]. split; [exact K|]. cbn. rewrite Forall_forall in *. intros x I. apply In_nth_error in I. destruct I as (j & Ej). rewrite (upd_nth _ _ _ _ j Eu) in Ej. destruct (j =? k); [injection Ej as <-; eapply apply_ok; eauto|]. eapply U, nth_error_In; eauto.
    - destruct (get_ok st H) as (st1 & t & E1 & I1 & _). congruence.
    - destruct H as (S & K & U). unfold restore, rd in E. destruct (nth_error (used st) k) as [t|] eqn:Et; [|discriminate]. cbn [obind] in E. injection E as <-.
      assert (Gt : ginv t) by (rewrite Forall_forall in U; eapply U, nth_error_In; eauto). destruct Gt as (A & B & C' & D & L). split; [exact S|]. split; [|apply forall_skip; exact U]. constructor; [|exact K]. cbn. rewrite L. split; [|reflexivity]. split; [exact A|]. split; [exact B|]. cbn. rewrite repeat_length. auto.
  Qed.
  Lemma run_ok es : forall st st', sinv st -> foldM step st es = Some st' -> sinv st'.
  Proof. induction es as [|e es IH]; intros st st' H E; cbn [foldM] in E; [congruence|]. destruct (step st e) as [st1|] eqn:E1; [|discriminate]. cbn [obind] in E. eapply IH; [eapply step_ok; eauto|exact E]. Qed.
End Group.
