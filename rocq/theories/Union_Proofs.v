(** The ranks follow a common list of transfers. *)
From Coq Require Import List Arith ZArith Bool Lia Sorted.
Import ListNotations.
From Verif Require Import Base Kernel Union_Model Union_Spec.
Local Open Scope nat_scope.

(** A transfer of a set: not begun; count sent; all sent; count sent and received; all sent and count received. *)
Inductive phase := P0 | P1 (v : list Z) | P2 (v : list Z) | P3 (v : list Z) | P4 (v : list Z).
Record elem := mk_elem { e_src : nat; e_dst : nat; e_mode : mode; e_ph : phase }.
Definition set_ph (e : elem) (p : phase) : elem := mk_elem (e_src e) (e_dst e) (e_mode e) p.

Definition sender_part (e : elem) : list act :=
  match e_ph e with P0 => [SendSet (e_dst e)] | P1 v | P3 v => [SendData (e_dst e) v] | P2 _ | P4 _ => [] end.
Definition receiver_part (e : elem) : list act :=
  match e_ph e with P0 | P1 _ | P2 _ => [RecvSet (e_src e) (e_mode e)] | P3 v | P4 v => [RecvData (e_src e) (length v) (e_mode e)] end.
Definition proj (r : nat) (e : elem) : list act :=
  if r =? e_src e then sender_part e else if r =? e_dst e then receiver_part e else [].
Definition data_msgs (v : list Z) : list msg := match v with [] => [] | _ => [MData v] end.
Definition queue_part (e : elem) : list msg :=
  match e_ph e with P0 | P3 _ => [] | P1 v => [MCount (length v)] | P2 v => MCount (length v) :: data_msgs v | P4 v => [MData v] end.
Definition qproj (s d : nat) (e : elem) : list msg := if (s =? e_src e) && (d =? e_dst e) then queue_part e else [].
Definition started (e : elem) : bool := match e_ph e with P0 => false | _ => true end.
Definition wf_elem (size : nat) (e : elem) : Prop :=
  e_src e <> e_dst e /\ e_src e < size /\ e_dst e < size /\ match e_ph e with P1 v | P3 v | P4 v => v <> [] | _ => True end.
(** What the transfers, one after the other, make of the working sets. *)
Definition setw (w : nat -> list Z) (r : nat) (v : list Z) : nat -> list Z := fun i => if i =? r then v else w i.
Definition do_elem (w : nat -> list Z) (e : elem) : nat -> list Z :=
  setw w (e_dst e) (absorb (e_mode e) (w (e_dst e)) (match e_ph e with P0 => w (e_src e) | P1 v | P2 v | P3 v | P4 v => v end)).
Definition do_all (C : list elem) (w : nat -> list Z) : nat -> list Z := fold_left do_elem C w.

Definition later_started (a b : elem) : Prop := started b = true -> proj (e_src b) a = [].
Fixpoint ordered (C : list elem) : Prop :=
  match C with [] => True | a :: C' => (forall b, In b C' -> later_started a b) /\ ordered C' end.

Definition weight (e : elem) : nat :=
  match e_ph e with P0 => 6 | P1 _ => 4 | P2 [] => 1 | P2 _ => 2 | P3 _ => 3 | P4 _ => 1 end.
Definition b2n (o : option nat) : nat := match o with Some _ => 1 | None => 0 end.
Definition total (size : nat) (C : list elem) (c : sys) : nat :=
  list_sum (map weight C) + list_sum (map (fun r => b2n (waits (procs c r))) (seq 0 size)).

Definition follows (size : nat) (final : nat -> list Z) (C : list elem) (c : sys) : Prop :=
  (forall e, In e C -> wf_elem size e) /\
  (forall r, todo (procs c r) = flat_map (proj r) C) /\
  (forall s d, net c s d = flat_map (qproj s d) C) /\
  ordered C /\
  (forall r d, waits (procs c r) = Some d -> net c r d <> []) /\
  (forall r, do_all C (fun r => work (procs c r)) r = final r).

(** ** Lists *)
Lemma flat_map_nil {A B} (f : A -> list B) l : (forall a, In a l -> f a = []) -> flat_map f l = [].
Proof. induction l as [|a l IH]; cbn; intros H; [reflexivity|]. rewrite (H a (or_introl eq_refl)), IH; auto. Qed.
Lemma flat_map_nil_inv {A B} (f : A -> list B) l : flat_map f l = [] -> forall a, In a l -> f a = [].
Proof. induction l as [|b l IH]; cbn; intros H a I; [destruct I|]. apply app_eq_nil in H. destruct I as [<-|I]; [tauto|]. apply IH; tauto. Qed.
Lemma flat_map_head {A B} (f : A -> list B) l x rest : flat_map f l = x :: rest ->
  exists l1 a l2 t, l = l1 ++ a :: l2 /\ (forall b, In b l1 -> f b = []) /\ f a = x :: t /\ rest = t ++ flat_map f l2.
Proof.
  induction l as [|a l IH]; cbn; [discriminate|]. intros H. destruct (f a) as [|y t] eqn:E; cbn in H.
  - destruct (IH H) as (l1 & a' & l2 & t & -> & H1 & H2 & H3). exists (a :: l1), a', l2, t. split; [reflexivity|]. split; [|auto]. intros b [<-|I]; auto.
  - injection H as <- <-. exists [], a, l, t. repeat split; auto. intros b [].
Qed.
Lemma ordered_app A B : ordered (A ++ B) <-> ordered A /\ ordered B /\ forall a b, In a A -> In b B -> later_started a b.
Proof.
  induction A as [|a A IH]; cbn; [intuition|]. rewrite IH. split.
  - intros (H1 & H2 & H3 & H4). split; [split; [|auto]|]. { intros b I. apply H1. apply in_or_app; auto. } split; [auto|]. intros a' b [<-|I] J; [apply H1; apply in_or_app; auto|auto].
  - intros ((H1 & H2) & H3 & H4). split; [|split; [auto|split; auto]]. intros b I. apply in_app_or in I. destruct I; auto.
Qed.
Lemma do_all_app A B w : do_all (A ++ B) w = do_all B (do_all A w).
Proof. apply fold_left_app. Qed.
Lemma do_elem_ext e w w' : (forall r, w r = w' r) -> forall r, do_elem w e r = do_elem w' e r.
Proof. intros H r. unfold do_elem, setw. rewrite !H. destruct (e_ph e); rewrite ?H; reflexivity. Qed.
Lemma do_all_ext C : forall w w', (forall r, w r = w' r) -> forall r, do_all C w r = do_all C w' r.
Proof. induction C as [|e C IH]; cbn; intros w w' H r; [apply H|]. apply IH. intros r'. apply do_elem_ext, H. Qed.
(** Transfers in which [r] has nothing to do do not depend on its set and leave it. *)
Lemma proj_nil r e : e_src e <> e_dst e -> proj r e = [] -> e_dst e <> r /\ (e_ph e = P0 -> e_src e <> r).
Proof.
  intros W. unfold proj, sender_part, receiver_part. destruct (Nat.eqb_spec r (e_src e)) as [->|N].
  - destruct (e_ph e); try discriminate; intros _; split; auto; discriminate.
  - destruct (Nat.eqb_spec r (e_dst e)) as [->|N2]; [destruct (e_ph e); discriminate|]. auto.
Qed.
Lemma frame A r : (forall e, In e A -> e_src e <> e_dst e) -> (forall e, In e A -> proj r e = []) -> forall w v, do_all A w r = w r /\ forall i, do_all A (setw w r v) i = setw (do_all A w) r v i.
Proof.
  induction A as [|e A IH]; intros W H w v; [split; reflexivity|]. cbn [do_all fold_left]. destruct (proj_nil r e (W e (or_introl eq_refl)) (H e (or_introl eq_refl))) as (N & N0).
  destruct (IH (fun e I => W e (or_intror I)) (fun e I => H e (or_intror I)) (do_elem w e) v) as (I1 & I2). split.
  - fold (do_all A (do_elem w e)). rewrite I1. unfold do_elem, setw. destruct (Nat.eqb_spec r (e_dst e)); [congruence|reflexivity].
  - intros i. fold (do_all A (do_elem (setw w r v) e)). fold (do_all A (do_elem w e)). rewrite <- I2. apply do_all_ext. intros j. unfold do_elem, setw.
    destruct (Nat.eqb_spec (e_dst e) r) as [|_]; [congruence|]. destruct (Nat.eqb_spec j (e_dst e)) as [->|Nj]; destruct (Nat.eqb_spec (e_dst e) r) as [|_]; try congruence.
    + destruct (e_ph e); try reflexivity. destruct (Nat.eqb_spec (e_src e) r); [exfalso; apply N0; auto|reflexivity].
Qed.

Lemma if_same {A} (b : bool) (x : A) : (if b then x else x) = x.
Proof. destruct b; reflexivity. Qed.
(** ** Counting *)
Lemma sum_change (f g : nat -> nat) size r : r < size -> (forall i, i <> r -> g i = f i) -> list_sum (map g (seq 0 size)) + f r = list_sum (map f (seq 0 size)) + g r.
Proof.
  intros L H. assert (E : seq 0 size = seq 0 r ++ r :: seq (S r) (size - S r)).
  { replace size with (r + S (size - S r)) at 1 by lia. rewrite seq_app. cbn. reflexivity. }
  rewrite E, !map_app, !list_sum_app. cbn [map list_sum fold_right].
  assert (A : forall l, ~ In r l -> map g l = map f l). { intros l N. apply map_ext_in. intros a I. apply H. intros ->. auto. }
  unfold list_sum in *. cbn [fold_right]. rewrite (A (seq 0 r)), (A (seq (S r) (size - S r))) by (rewrite in_seq; lia). lia.
Qed.
Lemma waits_set f r p size : r < size ->
  list_sum (map (fun i => b2n (waits (set_proc f r p i))) (seq 0 size)) + b2n (waits (f r)) = list_sum (map (fun i => b2n (waits (f i))) (seq 0 size)) + b2n (waits p).
Proof.
  intros L. pose proof (sum_change (fun i => b2n (waits (f i))) (fun i => b2n (waits (set_proc f r p i))) size r L) as H. cbv beta in H. rewrite H.
  - unfold set_proc. rewrite Nat.eqb_refl. reflexivity.
  - intros i N. unfold set_proc. destruct (Nat.eqb_spec i r); [congruence|reflexivity].
Qed.
Lemma sum_leq (f g : nat -> nat) l : (forall i, g i <= f i) -> list_sum (map g l) <= list_sum (map f l).
Proof. intros H. unfold list_sum in *. induction l as [|a l IH]; cbn [map fold_right]; [lia|]. specialize (H a). lia. Qed.

Lemma unblock_work f s d q r : work (unblock f s d q r) = work (f r) /\ todo (unblock f s d q r) = todo (f r).
Proof. unfold unblock. destruct q; [|auto]. destruct (waits (f s)); [|auto]. destruct (n =? d); [|auto]. unfold set_proc. destruct (Nat.eqb_spec r s) as [->|]; auto. Qed.
Lemma unblock_waits f s d q r : waits (unblock f s d q r) = waits (f r) \/ waits (unblock f s d q r) = None.
Proof. unfold unblock. destruct q; [|auto]. destruct (waits (f s)); [|auto]. destruct (n =? d); [|auto]. unfold set_proc. destruct (Nat.eqb_spec r s) as [->|]; auto. Qed.
Lemma unblock_waits_s f s d q : waits (unblock f s d q s) = Some d -> q <> [].
Proof.
  unfold unblock. destruct q; [|discriminate]. destruct (waits (f s)) eqn:E; [|congruence]. destruct (Nat.eqb_spec n d) as [->|]; [|congruence]. unfold set_proc. rewrite Nat.eqb_refl. discriminate.
Qed.

(** ** Steps *)
Section Steps.
  Variables (size : nat) (final : nat -> list Z).
  Lemma no_queue_after A e B s d : ordered (A ++ e :: B) -> proj s e <> [] -> e_src e = s -> flat_map (qproj s d) B = [].
  Proof.
    intros O P E. apply flat_map_nil. intros b I. unfold qproj. destruct (Nat.eqb_spec s (e_src b)) as [Es|]; [|reflexivity]. destruct (d =? e_dst b); [|reflexivity]. cbn.
    destruct (started b) eqn:Sb; [|unfold started in Sb; unfold queue_part; destruct (e_ph b); try discriminate; reflexivity].
    apply ordered_app in O. destruct O as (_ & (O & _) & _). specialize (O b I Sb). rewrite <- Es in O. contradiction.
  Qed.
  Lemma find_elem C r x rest : (forall e, In e C -> wf_elem size e) -> flat_map (proj r) C = x :: rest ->
    exists A e B, C = A ++ e :: B /\ (forall b, In b A -> proj r b = []) /\ proj r e = [x] /\ rest = flat_map (proj r) B.
  Proof.
    intros W H. destruct (flat_map_head _ _ _ _ H) as (A & e & B & t & -> & HA & He & ->). exists A, e, B. split; [reflexivity|]. split; [exact HA|].
    assert (t = []) as ->; [|auto]. unfold proj, sender_part, receiver_part in He. destruct (r =? e_src e); [destruct (e_ph e); congruence|]. destruct (r =? e_dst e); [destruct (e_ph e); congruence|discriminate].
  Qed.

  (** Replacing a transfer by one further on. *)
  Lemma ordered_replace A e e' B : ordered (A ++ e :: B) -> e_src e' = e_src e -> e_dst e' = e_dst e ->
    (forall r, proj r e = [] -> proj r e' = []) -> (started e' = true -> forall a, In a A -> proj (e_src e) a = []) -> ordered (A ++ e' :: B).
  Proof.
    intros O E1 E2 P N. apply ordered_app in O. destruct O as (O1 & (O2 & O3) & O4). apply ordered_app. split; [exact O1|]. split.
    - cbn. split; [|exact O3]. intros b I Sb. apply P. apply O2; auto.
    - intros a b I [<-|J]; [|apply O4; auto; right; auto]. intros Sb. rewrite E1. auto.
  Qed.
  Lemma ordered_remove A e B : ordered (A ++ e :: B) -> ordered (A ++ B).
  Proof. intros O. apply ordered_app in O. destruct O as (O1 & (O2 & O3) & O4). apply ordered_app. split; [exact O1|]. split; [exact O3|]. intros a b I J. apply O4; auto. right; auto. Qed.
  Lemma sum_mid (A B : list elem) x y : list_sum (map weight (A ++ x :: B)) + weight y = list_sum (map weight (A ++ y :: B)) + weight x.
  Proof. rewrite !map_app, !list_sum_app. unfold list_sum. cbn [map fold_right]. lia. Qed.
  Lemma sum_drop (A B : list elem) x : list_sum (map weight (A ++ x :: B)) = list_sum (map weight (A ++ B)) + weight x.
  Proof. rewrite !map_app, !list_sum_app. unfold list_sum. cbn [map fold_right]. lia. Qed.

  Definition goal (C : list elem) (c c' : sys) : Prop := exists C', follows size final C' c' /\ total size C' c' < total size C c.

  (** A send: transfer [e] of [r] becomes [e'], with [m] added to the network. *)
  Lemma send_step A e B c r d rest' x m p : let C := A ++ e :: B in let e' := set_ph e p in
    follows size final C c -> (forall b, In b A -> proj r b = []) -> proj r e = [x] -> e_src e = r -> e_dst e = d -> waits (procs c r) = None ->
    wf_elem size e' -> started e' = true -> receiver_part e' = receiver_part e -> rest' = sender_part e' ++ flat_map (proj r) B -> queue_part e' = queue_part e ++ [m] -> weight e' + 2 <= weight e ->
    (forall w, w r = work (procs c r) -> forall i, do_elem w e' i = do_elem w e i) ->
    goal C c (mk_sys (set_proc (procs c) r (mk_proc (work (procs c r)) rest' (Some d))) (set_net (net c) r d (net c r d ++ [m]))).
  Proof.
    intros C e' (W & T & N & O & Wt & F) HA He Es Ed Hw We' Se' Rp -> Qp Wg V. subst C. assert (We : wf_elem size e) by (apply W; apply in_or_app; right; left; auto).
    assert (NoB : forall d', flat_map (qproj r d') B = []). { intros d'. eapply no_queue_after; eauto. rewrite He. discriminate. }
    exists (A ++ e' :: B). split; [split|].
    - intros b I. apply in_app_or in I. destruct I as [I|[<-|I]]; [apply W; apply in_or_app; auto|exact We'|apply W; apply in_or_app; right; right; auto].
    - split; [|split; [|split; [|split]]]; cbn [procs net].
      + intros i. unfold set_proc. rewrite flat_map_app. cbn [flat_map]. destruct (Nat.eqb_spec i r) as [->|Ni]; cbn [todo].
        * rewrite (flat_map_nil (proj r) A HA). cbn. f_equal. unfold proj. cbn [e_src e' set_ph]. rewrite Es, Nat.eqb_refl. reflexivity.
        * rewrite T, flat_map_app. cbn [flat_map]. f_equal. f_equal. unfold proj. cbn [e_src e_dst e' set_ph]. destruct (Nat.eqb_spec i (e_src e)); [congruence|]. destruct (i =? e_dst e); [symmetry; exact Rp|reflexivity].
      + intros i j. unfold set_net. rewrite flat_map_app. cbn [flat_map]. destruct (Nat.eqb_spec i r) as [->|Ni]; cbn [andb].
        * destruct (Nat.eqb_spec j d) as [->|Nj].
          -- rewrite N, flat_map_app. cbn [flat_map]. rewrite NoB, !app_nil_r. unfold qproj at 2 4. cbn [e_src e_dst e' set_ph]. rewrite Es, Ed, !Nat.eqb_refl. cbn [andb]. rewrite Qp. rewrite app_assoc. reflexivity.
          -- rewrite N, flat_map_app. cbn [flat_map]. f_equal. f_equal. unfold qproj. cbn [e_src e_dst e' set_ph]. rewrite Ed. destruct (Nat.eqb_spec j d); [congruence|]. rewrite !andb_false_r. reflexivity.
        * rewrite N, flat_map_app. cbn [flat_map]. f_equal. f_equal. unfold qproj. cbn [e_src e_dst e' set_ph]. rewrite Es. destruct (Nat.eqb_spec i r); [congruence|]. reflexivity.
      + eapply ordered_replace; [exact O|reflexivity|reflexivity| |].
        * intros i. unfold proj. cbn [e_src e_dst e' set_ph]. destruct (Nat.eqb_spec i (e_src e)) as [Ei|]; [|destruct (i =? e_dst e); [rewrite <- Rp; auto|auto]].
          intros X. exfalso. unfold proj in He. rewrite Es, Nat.eqb_refl in He. rewrite X in He. discriminate.
        * intros _ a I. rewrite Es. auto.
      + intros i j. unfold set_proc, set_net. destruct (Nat.eqb_spec i r) as [->|Ni]; cbn [waits andb].
        * intros [= <-]. rewrite Nat.eqb_refl. intros X. apply app_eq_nil in X. destruct X. discriminate.
        * apply Wt.
      + intros i. rewrite <- F. rewrite !do_all_app. cbn [do_all fold_left]. fold (do_all B). apply do_all_ext. intros j.
        rewrite (do_elem_ext e' _ (do_all A (fun r0 => work (procs c r0)))).
        * apply V. destruct (frame A r (fun e I => proj1 (W e (in_or_app _ _ _ (or_introl I)))) HA (fun r0 => work (procs c r0)) []) as (X & _). exact X.
        * intros k. apply do_all_ext. intros k'. unfold set_proc. destruct (Nat.eqb_spec k' r) as [->|]; reflexivity.
    - unfold total. cbn [procs]. pose proof (sum_mid A B e e') as M.
      destruct We as (_ & L & _). rewrite Es in L. pose proof (waits_set (procs c) r (mk_proc (work (procs c r)) (sender_part e' ++ flat_map (proj r) B) (Some d)) size L) as Sc. rewrite Hw in Sc. cbn [b2n waits] in Sc. lia.
  Qed.

  Lemma no_queue_before A s r : (forall e, In e A -> wf_elem size e) -> (forall b, In b A -> proj r b = []) -> flat_map (qproj s r) A = [].
  Proof.
    intros W HA. apply flat_map_nil. intros b I. unfold qproj. destruct (Nat.eqb_spec r (e_dst b)) as [E|]; [|rewrite andb_false_r; reflexivity]. exfalso.
    destruct (proj_nil r b (proj1 (W b I)) (HA b I)). congruence.
  Qed.
  (** A receive: transfer [e] to [r] becomes [E'], with the first message of its queue taken. *)
  Lemma recv_step A e B c r s x m q t E' pr : let C := A ++ e :: B in
    follows size final C c -> (forall b, In b A -> proj r b = []) -> proj r e = [x] -> e_dst e = r -> e_src e = s -> waits (procs c r) = None -> net c s r = m :: q ->
    queue_part e = m :: t -> (forall e', In e' E' -> wf_elem size e') -> waits pr = None -> todo pr = flat_map (proj r) E' ++ flat_map (proj r) B ->
    (forall i, i <> r -> flat_map (proj i) E' = proj i e) -> (forall i j, flat_map (qproj i j) E' = if (i =? s) && (j =? r) then t else []) ->
    list_sum (map weight E') < weight e -> ordered (A ++ E' ++ B) -> (forall w, w r = work (procs c r) -> forall i, do_all E' (setw w r (work pr)) i = do_elem w e i) ->
    goal C c (mk_sys (unblock (set_proc (procs c) r pr) s r q) (set_net (net c) s r q)).
  Proof.
    intros C (W & T & N & O & Wt & F) HA He Ed Es Hw Hn Qe WE Pw Pt PE QE WgE OE V. subst C. assert (We : wf_elem size e) by (apply W; apply in_or_app; right; left; auto).
    assert (WA : forall e, In e A -> wf_elem size e) by (intros; apply W; apply in_or_app; auto).
    assert (Nsr : s <> r) by (destruct We; congruence).
    assert (Hq : q = t ++ flat_map (qproj s r) B).
    { rewrite N, flat_map_app in Hn. cbn [flat_map] in Hn. rewrite (no_queue_before A s r WA HA) in Hn. cbn [app] in Hn. unfold qproj at 1 in Hn. rewrite Es, Ed, !Nat.eqb_refl in Hn. cbn [andb] in Hn. rewrite Qe in Hn. cbn [app] in Hn. injection Hn as <-. reflexivity. }
    exists (A ++ E' ++ B). split; [split|].
    - intros b I. apply in_app_or in I. destruct I as [I|I]; [auto|]. apply in_app_or in I. destruct I as [I|I]; [auto|]. apply W. apply in_or_app; right; right; auto.
    - split; [|split; [|split; [exact OE|split]]]; cbn [procs net].
      + intros i. rewrite (proj2 (unblock_work (set_proc (procs c) r pr) s r q i)). unfold set_proc. rewrite !flat_map_app. destruct (Nat.eqb_spec i r) as [->|Ni].
        * rewrite (flat_map_nil (proj r) A HA). exact Pt.
        * rewrite T, flat_map_app. cbn [flat_map]. rewrite PE; auto.
      + intros i j. unfold set_net. rewrite !flat_map_app, QE. destruct (Nat.eqb_spec i s) as [->|Ni]; [destruct (Nat.eqb_spec j r) as [->|Nj]|]; cbn [andb].
        * rewrite (no_queue_before A s r WA HA). exact Hq.
        * rewrite N, flat_map_app. cbn [flat_map]. f_equal. f_equal. unfold qproj. rewrite Ed. destruct (Nat.eqb_spec j r); [congruence|]. rewrite andb_false_r. reflexivity.
        * rewrite N, flat_map_app. cbn [flat_map]. f_equal. f_equal. unfold qproj. rewrite Es. destruct (Nat.eqb_spec i s); [congruence|]. reflexivity.
      + intros i j. destruct (Nat.eqb_spec i s) as [->|Ni].
        * unfold set_net. rewrite Nat.eqb_refl. cbn [andb]. destruct (Nat.eqb_spec j r) as [->|Nj]; [apply unblock_waits_s|]. intros X.
          destruct (unblock_waits (set_proc (procs c) r pr) s r q s) as [E|E]; [|congruence]. rewrite E in X. unfold set_proc in X. destruct (Nat.eqb_spec s r); [congruence|]. apply Wt, X.
        * intros X. unfold set_net. destruct (Nat.eqb_spec i s); [congruence|]. cbn [andb]. destruct (unblock_waits (set_proc (procs c) r pr) s r q i) as [E|E]; [|congruence]. rewrite E in X. unfold set_proc in X.
          destruct (Nat.eqb_spec i r) as [->|]; [congruence|]. apply Wt, X.
      + intros i. rewrite <- F. rewrite !do_all_app. cbn [do_all fold_left]. fold (do_all B). apply do_all_ext. intros j. fold (do_all A (fun r0 => work (procs c r0))).
        destruct (frame A r (fun e I => proj1 (WA e I)) HA (fun r0 => work (procs c r0)) (work pr)) as (X1 & X2). rewrite <- (V _ X1). apply do_all_ext. intros k. rewrite <- X2. apply do_all_ext. intros k'.
        rewrite (proj1 (unblock_work (set_proc (procs c) r pr) s r q k')). unfold set_proc, setw. destruct (Nat.eqb_spec k' r) as [->|]; reflexivity.
    - unfold total. cbn [procs]. rewrite !map_app, !list_sum_app. cbn [map]. change (list_sum (weight e :: map weight B)) with (weight e + list_sum (map weight B)).
      pose proof (sum_leq (fun i => b2n (waits (procs c i))) (fun i => b2n (waits (unblock (set_proc (procs c) r pr) s r q i))) (seq 0 size)) as L. cbv beta in L.
      assert (Hl : forall i, b2n (waits (unblock (set_proc (procs c) r pr) s r q i)) <= b2n (waits (procs c i))); [|specialize (L Hl); lia].
      intros i. destruct (unblock_waits (set_proc (procs c) r pr) s r q i) as [->| ->]; [|cbn; lia]. unfold set_proc. destruct (Nat.eqb_spec i r) as [->|]; [rewrite Pw; cbn; lia|lia].
  Qed.

  (** With [P0] or [P3] first for its receiver nothing can have arrived. *)
  Lemma arrived A e B c r s m q : follows size final (A ++ e :: B) c -> (forall b, In b A -> proj r b = []) -> e_dst e = r -> e_src e = s -> net c s r = m :: q -> queue_part e <> [].
  Proof.
    intros (W & T & N & O & _ & _) HA Ed Es Hn Q. rewrite N, flat_map_app in Hn. rewrite no_queue_before in Hn; [|intros; apply W; apply in_or_app; auto|exact HA]. cbn [flat_map app] in Hn.
    unfold qproj at 1 in Hn. rewrite Es, Ed, !Nat.eqb_refl in Hn. cbn [andb] in Hn. rewrite Q in Hn. cbn [app] in Hn.
    rewrite (no_queue_after A e B s r) in Hn; [discriminate|exact O| |exact Es]. unfold proj. rewrite Es, Nat.eqb_refl. unfold queue_part in Q. unfold sender_part. destruct (e_ph e); discriminate.
  Qed.

  Lemma call_goal C c c' : follows size final C c -> call c c' -> goal C c c'.
  Proof.
    intros H K. pose proof H as (W & T & N & O & Wt & F). destruct K as [c r d rest E Hw|c r d v rest E Hw|c r s m rest n q E Hw Hn|c r s n m rest v q E Hw Hn Hl].
    - rewrite T in E. destruct (find_elem C r _ _ W E) as (A & e & B & -> & HA & He & ->). assert (We : wf_elem size e) by (apply W; apply in_or_app; right; left; auto).
      assert (e_src e = r /\ e_ph e = P0 /\ e_dst e = d) as (Es & Ep & Ed).
      { unfold proj, sender_part, receiver_part in He. destruct (Nat.eqb_spec r (e_src e)); [|destruct (r =? e_dst e); destruct (e_ph e); discriminate]. destruct (e_ph e) eqn:Ep; try discriminate. injection He as <-. auto. }
      destruct We as (We1 & We2 & We3 & We4).
      apply (send_step A e B c r d _ (SendSet d) _ (match work (procs c r) with [] => P2 [] | v => P1 v end)); auto.
      + unfold wf_elem. cbn. repeat split; auto. destruct (work (procs c r)); auto. discriminate.
      + cbn. unfold started. cbn. destruct (work (procs c r)); reflexivity.
      + unfold receiver_part. rewrite Ep. cbn. destruct (work (procs c r)); reflexivity.
      + unfold sender_part. cbn. rewrite Ed. destruct (work (procs c r)); reflexivity.
      + unfold queue_part. rewrite Ep. cbn. destruct (work (procs c r)); reflexivity.
      + unfold weight. rewrite Ep. cbn. destruct (work (procs c r)); cbn; lia.
      + intros w Hr i. unfold do_elem. cbn [set_ph e_dst e_mode e_ph]. rewrite Ep, Es, Hr. destruct (work (procs c r)); reflexivity.
    - rewrite T in E. destruct (find_elem C r _ _ W E) as (A & e & B & -> & HA & He & ->). assert (We : wf_elem size e) by (apply W; apply in_or_app; right; left; auto).
      assert (e_src e = r /\ e_dst e = d /\ (e_ph e = P1 v \/ e_ph e = P3 v)) as (Es & Ed & Ep).
      { unfold proj, sender_part, receiver_part in He. destruct (Nat.eqb_spec r (e_src e)); [|destruct (r =? e_dst e); destruct (e_ph e); discriminate]. destruct (e_ph e) eqn:Ep; try discriminate; injection He as <- <-; auto. }
      destruct We as (We1 & We2 & We3 & We4). assert (Hv : v <> []) by (destruct Ep as [Ep|Ep]; rewrite Ep in We4; auto).
      apply (send_step A e B c r d _ (SendData d v) _ (match e_ph e with P1 v => P2 v | _ => P4 v end)); auto.
      + unfold wf_elem. cbn. destruct Ep as [-> | ->]; auto.
      + unfold started. cbn. destruct Ep as [-> | ->]; auto.
      + unfold receiver_part. cbn. destruct Ep as [-> | ->]; auto.
      + unfold sender_part. cbn. destruct Ep as [-> | ->]; auto.
      + unfold queue_part. cbn. destruct Ep as [-> | ->]; destruct v; cbn; congruence.
      + unfold weight. cbn. destruct Ep as [-> | ->]; destruct v; cbn; lia || congruence.
      + intros w Hr i. unfold do_elem. cbn [set_ph e_dst e_mode e_ph]. destruct Ep as [-> | ->]; reflexivity.
    - rewrite T in E. destruct (find_elem C r _ _ W E) as (A & e & B & -> & HA & He & ->). assert (We : wf_elem size e) by (apply W; apply in_or_app; right; left; auto).
      assert (e_dst e = r /\ e_src e = s /\ e_mode e = m /\ (e_ph e = P0 \/ (exists v, e_ph e = P1 v) \/ (exists v, e_ph e = P2 v))) as (Ed & Es & Em & Ep).
      { unfold proj, sender_part, receiver_part in He. destruct (Nat.eqb_spec r (e_src e)); [destruct (e_ph e); discriminate|]. destruct (Nat.eqb_spec r (e_dst e)); [|discriminate]. destruct (e_ph e) eqn:Ep; try discriminate; injection He as <- <-; eauto 8. }
      pose proof (arrived A e B c r s _ _ H HA Ed Es Hn) as Ar. destruct We as (We1 & We2 & We3 & We4).
      assert (Hm : hd_error (queue_part e) = Some (MCount n)).
      { rewrite N, flat_map_app in Hn. rewrite no_queue_before in Hn; [|intros; apply W; apply in_or_app; auto|exact HA]. cbn [flat_map app] in Hn. unfold qproj at 1 in Hn. rewrite Es, Ed, !Nat.eqb_refl in Hn. cbn [andb] in Hn.
        destruct (queue_part e); [congruence|]. cbn in Hn. injection Hn as -> _. reflexivity. }
      destruct Ep as [Ep|[[v Ep]|[v Ep]]]; unfold queue_part in Hm; rewrite Ep in Hm; cbn in Hm; [discriminate| |].
      + injection Hm as <-. rewrite Ep in We4. destruct v as [|z v]; [congruence|]. cbn [length].
        apply (recv_step A e B c r s (RecvSet s m) (MCount (S (length v))) q [] [set_ph e (P3 (z :: v))]); auto.
        * unfold queue_part. rewrite Ep. reflexivity.
        * intros e' [<-|[]]. unfold wf_elem. cbn. auto.
        * cbn [flat_map todo]. assert (X : proj r (set_ph e (P3 (z :: v))) = [RecvData s (S (length v)) m]); [|rewrite X; reflexivity]. unfold proj. cbn [set_ph e_src e_dst]. destruct (Nat.eqb_spec r (e_src e)); [congruence|]. rewrite Ed, Nat.eqb_refl. unfold receiver_part. cbn. rewrite Es, Em. reflexivity.
        * intros i Ni. cbn [flat_map]. rewrite app_nil_r. unfold proj. cbn [set_ph e_src e_dst]. rewrite Ed. destruct (Nat.eqb_spec i r); [congruence|]. destruct (i =? e_src e); [|reflexivity]. unfold sender_part. cbn. rewrite Ep. reflexivity.
        * intros i j. cbn [flat_map]. rewrite app_nil_r. unfold qproj, queue_part. cbn. rewrite !if_same. reflexivity.
        * unfold weight. rewrite Ep. cbn. lia.
        * cbn [app]. eapply ordered_replace; [exact O|reflexivity|reflexivity| |].
          -- intros i. unfold proj. cbn [set_ph e_src e_dst]. unfold sender_part, receiver_part. cbn. rewrite Ep. destruct (i =? e_src e); [auto|]. destruct (i =? e_dst e); [discriminate|auto].
          -- intros _ a I. apply ordered_app in O. destruct O as (_ & _ & O). apply (O a e I (or_introl eq_refl)). unfold started. rewrite Ep. reflexivity.
        * intros w Hr i. cbn [do_all fold_left]. unfold do_elem. cbn [set_ph e_dst e_mode e_ph work]. rewrite Ep, Ed. unfold setw. rewrite Nat.eqb_refl, Hr. destruct (Nat.eqb_spec i r); reflexivity.
      + injection Hm as <-. destruct v as [|z v]; cbn [length].
        * apply (recv_step A e B c r s (RecvSet s m) (MCount 0) q [] []); auto.
          -- unfold queue_part. rewrite Ep. reflexivity.
          -- intros e' [].
          -- intros i Ni. cbn. unfold proj. rewrite Ed. destruct (Nat.eqb_spec i r); [congruence|]. unfold sender_part. rewrite Ep. destruct (i =? e_src e); reflexivity.
          -- intros i j. cbn. rewrite if_same. reflexivity.
          -- unfold weight. rewrite Ep. cbn. lia.
          -- cbn [app]. eapply ordered_remove; eauto.
          -- intros w Hr i. cbn [do_all fold_left]. unfold do_elem. cbn [work]. rewrite Ep, Ed, Em, Hr. reflexivity.
        * apply (recv_step A e B c r s (RecvSet s m) (MCount (S (length v))) q [MData (z :: v)] [set_ph e (P4 (z :: v))]); auto.
          -- unfold queue_part. rewrite Ep. reflexivity.
          -- intros e' [<-|[]]. unfold wf_elem. cbn. repeat split; auto. discriminate.
          -- cbn [flat_map todo]. assert (X : proj r (set_ph e (P4 (z :: v))) = [RecvData s (S (length v)) m]); [|rewrite X; reflexivity]. unfold proj. cbn [set_ph e_src e_dst]. destruct (Nat.eqb_spec r (e_src e)); [congruence|]. rewrite Ed, Nat.eqb_refl. unfold receiver_part. cbn. rewrite Es, Em. reflexivity.
          -- intros i Ni. cbn [flat_map]. rewrite app_nil_r. unfold proj. cbn [set_ph e_src e_dst]. rewrite Ed. destruct (Nat.eqb_spec i r); [congruence|]. destruct (i =? e_src e); [|reflexivity]. unfold sender_part. cbn. rewrite Ep. reflexivity.
          -- intros i j. cbn [flat_map]. rewrite app_nil_r. unfold qproj, queue_part. cbn. rewrite Es, Ed. reflexivity.
          -- unfold weight. rewrite Ep. cbn. lia.
          -- cbn [app]. eapply ordered_replace; [exact O|reflexivity|reflexivity| |].
             ++ intros i. unfold proj. cbn [set_ph e_src e_dst]. unfold sender_part, receiver_part. cbn. rewrite Ep. destruct (i =? e_src e); [auto|]. destruct (i =? e_dst e); [discriminate|auto].
             ++ intros _ a I. apply ordered_app in O. destruct O as (_ & _ & O). apply (O a e I (or_introl eq_refl)). unfold started. rewrite Ep. reflexivity.
          -- intros w Hr i. cbn [do_all fold_left]. unfold do_elem. cbn [set_ph e_dst e_mode e_ph work]. rewrite Ep, Ed. unfold setw. rewrite Nat.eqb_refl, Hr. destruct (Nat.eqb_spec i r); reflexivity.
    - rewrite T in E. destruct (find_elem C r _ _ W E) as (A & e & B & -> & HA & He & ->). assert (We : wf_elem size e) by (apply W; apply in_or_app; right; left; auto).
      assert (e_dst e = r /\ e_src e = s /\ e_mode e = m /\ exists v', e_ph e = P3 v' \/ e_ph e = P4 v') as (Ed & Es & Em & v' & Ep).
      { unfold proj, sender_part, receiver_part in He. destruct (Nat.eqb_spec r (e_src e)); [destruct (e_ph e); discriminate|]. destruct (Nat.eqb_spec r (e_dst e)); [|discriminate]. destruct (e_ph e) eqn:Ep; try discriminate; injection He as <- <- <-; eauto 8. }
      pose proof (arrived A e B c r s _ _ H HA Ed Es Hn) as Ar. destruct Ep as [Ep|Ep]; [unfold queue_part in Ar; rewrite Ep in Ar; congruence|]. destruct We as (We1 & We2 & We3 & We4).
      assert (Hm : queue_part e = [MData v]).
      { rewrite N, flat_map_app in Hn. rewrite no_queue_before in Hn; [|intros; apply W; apply in_or_app; auto|exact HA]. cbn [flat_map app] in Hn. unfold qproj at 1 in Hn. rewrite Es, Ed, !Nat.eqb_refl in Hn. cbn [andb] in Hn.
        unfold queue_part in *. rewrite Ep in *. cbn in Hn. injection Hn as -> _. reflexivity. }
      assert (v' = v) as ->. { unfold queue_part in Hm. rewrite Ep in Hm. congruence. }
      apply (recv_step A e B c r s (RecvData s n m) (MData v) q [] []); auto.
      + intros e' [].
      + intros i Ni. cbn. unfold proj. rewrite Ed. destruct (Nat.eqb_spec i r); [congruence|]. unfold sender_part. rewrite Ep. destruct (i =? e_src e); reflexivity.
      + intros i j. cbn. rewrite if_same. reflexivity.
      + unfold weight. rewrite Ep. cbn. lia.
      + cbn [app]. eapply ordered_remove; eauto.
      + intros w Hr i. cbn [do_all fold_left]. unfold do_elem. cbn [work]. rewrite Ep, Ed, Em, Hr. reflexivity.
  Qed.

  Lemma buffered_goal C c c' : follows size final C c -> buffered c c' -> goal C c c'.
  Proof.
    intros (W & T & N & O & Wt & F) K. destruct K as [c r d Hw]. exists C. split; [split; [exact W|]|].
    - split; [|split; [exact N|split; [exact O|split]]]; cbn [procs net].
      + intros i. unfold set_proc. destruct (Nat.eqb_spec i r) as [->|]; apply T.
      + intros i j. unfold set_proc. destruct (Nat.eqb_spec i r) as [->|]; [discriminate|apply Wt].
      + intros i. rewrite <- F. apply do_all_ext. intros j. unfold set_proc. destruct (Nat.eqb_spec j r) as [->|]; reflexivity.
    - assert (L : r < size).
      { specialize (Wt r d Hw). rewrite N in Wt. destruct (flat_map (qproj r d) C) as [|x l] eqn:E; [congruence|]. destruct (flat_map_head _ _ _ _ E) as (A & e & B & t & -> & _ & He & _).
        destruct (W e) as (_ & L & _); [apply in_or_app; right; left; auto|]. unfold qproj in He. destruct (Nat.eqb_spec r (e_src e)) as [->|]; [exact L|discriminate]. }
      unfold total. cbn [procs]. pose proof (waits_set (procs c) r (mk_proc (work (procs c r)) (todo (procs c r)) None) size L) as Sc. rewrite Hw in Sc. cbn [b2n waits] in Sc. lia.
  Qed.

  Lemma progress C c : follows size final C c -> (C = [] /\ finished size c /\ (forall s d, net c s d = []) /\ forall r, work (procs c r) = final r) \/ exists c', call c c'.
  Proof.
    intros (W & T & N & O & Wt & F). destruct C as [|e C].
    - left. split; [reflexivity|]. split; [|split; [intros; apply N|intros; apply F]]. intros r _. split; [apply T|]. destruct (waits (procs c r)) eqn:E; [|reflexivity]. exfalso. apply (Wt _ _ E). apply N.
    - right. assert (We := W e (or_introl eq_refl)). destruct We as (We1 & We2 & We3 & We4). destruct O as (O & _).
      assert (Idle : forall r, proj r e <> [] -> (r = e_src e -> queue_part e = []) -> waits (procs c r) = None).
      { intros r P Q. destruct (waits (procs c r)) as [d|] eqn:E; [|reflexivity]. exfalso. specialize (Wt _ _ E). rewrite N in Wt. destruct (flat_map (qproj r d) (e :: C)) as [|x l] eqn:E2; [congruence|].
        destruct (flat_map_head _ _ _ _ E2) as (A & b & B & t & E3 & _ & He & _). unfold qproj in He. destruct (Nat.eqb_spec r (e_src b)) as [Er|]; [|discriminate]. destruct (d =? e_dst b); [|discriminate]. cbn in He.
        assert (I : In b (e :: C)) by (rewrite E3; apply in_or_app; right; left; auto). destruct I as [<-|I]; [rewrite Q in He; [discriminate|auto]|].
        apply P. rewrite Er. apply O; [exact I|]. unfold started. unfold queue_part in He. destruct (e_ph b); [discriminate|reflexivity..]. }
      assert (Ts : todo (procs c (e_src e)) = sender_part e ++ flat_map (proj (e_src e)) C). { rewrite T. cbn. f_equal. unfold proj. rewrite Nat.eqb_refl. reflexivity. }
      assert (Td : todo (procs c (e_dst e)) = receiver_part e ++ flat_map (proj (e_dst e)) C). { rewrite T. cbn. f_equal. unfold proj. destruct (Nat.eqb_spec (e_dst e) (e_src e)); [congruence|]. rewrite Nat.eqb_refl. reflexivity. }
      assert (Nq : net c (e_src e) (e_dst e) = queue_part e ++ flat_map (qproj (e_src e) (e_dst e)) C). { rewrite N. cbn. f_equal. unfold qproj. rewrite !Nat.eqb_refl. reflexivity. }
      assert (Is : sender_part e <> [] -> queue_part e = [] -> waits (procs c (e_src e)) = None). { intros X Y. apply Idle; [|auto]. unfold proj. rewrite Nat.eqb_refl. exact X. }
      assert (Id : waits (procs c (e_dst e)) = None). { apply Idle; [|congruence]. unfold proj. destruct (Nat.eqb_spec (e_dst e) (e_src e)); [congruence|]. rewrite Nat.eqb_refl. unfold receiver_part. destruct (e_ph e); discriminate. }
      unfold sender_part, receiver_part, queue_part in *. destruct (e_ph e) as [|v|v|v|v] eqn:Ep; cbn [app] in *.
      + eexists. eapply call_send_count; eauto. apply Is; [discriminate|reflexivity].
      + eexists. eapply call_recv_count; eauto.
      + eexists. eapply call_recv_count; eauto.
      + eexists. eapply call_send_data; eauto. apply Is; [discriminate|reflexivity].
      + eexists. eapply call_recv_data; eauto.
  Qed.

  Theorem transfers_end C a : follows size final C a ->
    always_ends size a /\ forall n b, execution n a b -> finished size b -> (forall s d, net b s d = []) /\ forall r, work (procs b r) = final r.
  Proof.
    intros H. assert (I : forall n b, execution n a b -> exists C', follows size final C' b /\ n + total size C' b <= total size C a).
    { intros n b K. remember a as a0 eqn:Ea. revert Ea. induction K as [a'|n a' b c K IH S']; intros Ea.
      - exists C. subst. split; [exact H|lia].
      - subst a'. destruct (IH H eq_refl) as (C' & F' & L). assert (goal C' b c) as (C2 & F2 & L2); [|exists C2; split; [exact F2|lia]]. destruct S'; [eapply call_goal|eapply buffered_goal]; eauto. }
    split; [split|].
    - exists (total size C a). intros n b K. destruct (I n b K) as (C' & _ & L). lia.
    - intros n b K. destruct (I n b K) as (C' & F' & _). destruct (progress C' b F') as [(_ & X & _)|X]; auto.
    - intros n b K Fi. destruct (I n b K) as (C' & F' & _). destruct (progress C' b F') as [(_ & _ & X)|(b' & X)]; [exact X|]. exfalso.
      destruct F' as (W & T & _).
      assert (T0 : forall r, todo (procs b r) = []).
      { intros r. rewrite T. destruct (lt_dec r size) as [L|L]; [rewrite <- T; apply Fi, L|]. apply flat_map_nil. intros e Ie. destruct (W e Ie) as (_ & L1 & L2 & _). unfold proj. destruct (Nat.eqb_spec r (e_src e)); [lia|]. destruct (Nat.eqb_spec r (e_dst e)); [lia|reflexivity]. }
      destruct X as [c r ? ? E|c r ? ? ? E|c r ? ? ? ? ? E|c r ? ? ? ? ? ? E]; rewrite T0 in E; discriminate.
  Qed.
End Steps.
