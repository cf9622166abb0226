(** Objects collected on cells. *)
From Coq Require Import List Arith ZArith Bool Lia Sorted.
Import ListNotations.
From Verif Require Import Base Kernel Serial_Model MHC_Model MHC_Spec Edges_Spec Serial_Proofs MHCmsg_Proofs.
Local Open Scope nat_scope.

Definition in_range (c : Z) : Prop := (0 <= c < 2 ^ 31)%Z.
Lemma as_int_id c : in_range c -> as_int c = c.
Proof. unfold in_range, as_int. intros H. rewrite Z.mod_small by lia. lia. Qed.
Lemma mem_in c l : mem c l = true <-> In c l.
Proof. unfold mem. rewrite existsb_exists. split; [intros (x & I & E); apply Z.eqb_eq in E; subst; exact I|intros I; exists c; split; [exact I|apply Z.eqb_refl]]. Qed.

(** ** Appending *)
Definition sel (c : Z) (l : list (Z * list byte)) : list byte := flat_map (fun e => if (fst e =? c)%Z then snd e else []) l.
Definition has (c : Z) (l : list (Z * list byte)) : bool := existsb (fun e => (fst e =? c)%Z) l.
Lemma buffer_set m c b c' : in_range c -> in_range c' -> buffer_of (set_buffer m c b) c' = if (c =? c')%Z then b else buffer_of m c'.
Proof. intros R R'. unfold buffer_of, set_buffer. rewrite !as_int_id by auto. rewrite (Z.eqb_sym c'). destruct (c =? c')%Z; reflexivity. Qed.
Lemma append_all l : forall st c, in_range c -> Forall (fun e => in_range (fst e)) l ->
  let st' := fold_left append_cell l st in
  buffer_of (cell_buffers st') c = buffer_of (cell_buffers st) c ++ sel c l /\
  mem c (gathered st') = mem c (gathered st) || has c l /\
  (cell_buffers st (as_int c) <> None \/ has c l = true -> cell_buffers st' (as_int c) <> None) /\ no_owner st' = no_owner st.
Proof.
  induction l as [|(k, b) l IH]; intros st c R F; cbn zeta in *; cbn [fold_left].
  - cbn. rewrite app_nil_r, orb_false_r. split; [reflexivity|]. split; [reflexivity|]. split; [intros [H|H]; [exact H|discriminate]|reflexivity].
  - inversion F as [|? ? Rk Fl]; subst. cbn [fst] in Rk. destruct (IH (append_cell st (k, b)) c R Fl) as (H1 & H2 & H3 & H4). rewrite H1, H2, H4. unfold append_cell. cbn [cell_buffers gathered no_owner fst snd]. rewrite buffer_set by auto. unfold sel, has. cbn [flat_map existsb fst snd mem]. split; [|split; [|split; [|reflexivity]]].
    + destruct (Z.eqb_spec k c) as [->|N]; [rewrite <- app_assoc; reflexivity|reflexivity].
    + unfold mem. cbn [existsb]. rewrite (Z.eqb_sym c k). destruct (k =? c)%Z; cbn [orb]; rewrite ?orb_true_r; reflexivity.
    + intros H. apply H3. unfold append_cell. cbn [cell_buffers fst snd]. unfold set_buffer. rewrite !as_int_id in * by auto. rewrite (Z.eqb_sym c k). destruct (k =? c)%Z; [left; discriminate|]. exact H.
Qed.
Lemma sel_flat {A} c (g : A -> list (Z * list byte)) l : sel c (flat_map g l) = flat_map (fun a => sel c (g a)) l.
Proof. unfold sel. induction l as [|a l IH]; [reflexivity|]. cbn [flat_map]. rewrite flat_map_app, IH. reflexivity. Qed.
Lemma has_in c l : has c l = true <-> exists e, In e l /\ fst e = c.
Proof. unfold has. rewrite existsb_exists. split; intros (e & I & E); exists e; (split; [exact I|]); [apply Z.eqb_eq, E|apply Z.eqb_eq, E]. Qed.

(** ** Unpacking *)
Definition mhp := packed mh_cell_buffer.
Lemma mhp_small e : mh_ok e -> (Z.of_nat (length (snd e)) < 2 ^ 31)%Z -> small mh_cell_buffer e.
Proof. intros _ L. unfold small, size_max. cbn [num_bytes mh_cell_buffer]. lia. Qed.
Definition good (e : Z * list byte) : Prop := in_range (fst e) /\ (Z.of_nat (length (snd e)) < 2 ^ 31)%Z.
Lemma good_ok e : good e -> mh_ok e /\ small mh_cell_buffer e.
Proof. intros (R & L). unfold in_range in R. assert (mh_ok e) by (unfold mh_ok, size_max; lia). split; [auto|apply mhp_small; auto]. Qed.
Lemma good_all l : Forall good l -> Forall mh_ok l /\ Forall (small mh_cell_buffer) l.
Proof. intros F. split; eapply Forall_impl; [|exact F| |exact F]; intros e X; apply good_ok, X. Qed.
Lemma generic_unpack_ok (E : nat -> list (Z * list byte)) l : forall st, (forall s, In s l -> Forall good (E s)) ->
  generic_unpack st (map (fun s => (s, mhp (E s))) l) = Some (fold_left append_cell (flat_map E l) st).
Proof.
  induction l as [|s l IH]; intros st H; [reflexivity|]. unfold generic_unpack in *. cbn [map foldM snd]. destruct (good_all _ (H s (or_introl eq_refl))) as (O & Sm). unfold mhp at 1. rewrite (unpack_packed _ mh_ok mh_serial_ok _ O Sm). cbn [obind flat_map]. rewrite fold_left_app. apply IH. intros s' I. apply H. right. exact I.
Qed.
Lemma mhp_nil l : mhp l = [] <-> l = [].
Proof. split; [|intros ->; reflexivity]. destruct l as [|e l]; [reflexivity|]. unfold mhp, packed. cbn [flat_map]. unfold packed1. discriminate. Qed.
Lemma mhp_length l : Forall good l -> length (mhp l) = list_sum (map (fun e => 24 + length (snd e)) l).
Proof.
  intros F. destruct (good_all _ F) as (O & _). unfold mhp. rewrite (packed_length _ mh_ok mh_serial_ok) by exact O. unfold bytes_of. cbn [num_bytes mh_cell_buffer]. f_equal.
Qed.
Lemma flat_map_senders {A B} size (h : nat -> list A) (g : nat -> list B) : (forall s, s < size -> h s = [] -> g s = []) -> flat_map g (senders size h) = flat_map g (seq 0 size).
Proof.
  intros H. unfold senders. assert (K : forall l, (forall s, In s l -> h s = [] -> g s = []) -> flat_map g (filter (fun s => match h s with [] => false | _ => true end) l) = flat_map g l).
  { induction l as [|s l IH]; intros Q; [reflexivity|]. cbn [filter flat_map]. destruct (h s) eqn:E; [rewrite (Q s (or_introl eq_refl) E); apply IH; intros; apply Q; [right|]; auto|]. cbn [flat_map]. rewrite IH by (intros; apply Q; [right|]; auto). reflexivity. }
  apply K. intros s I. apply in_seq in I. apply H. lia.
Qed.

Lemma map_nth_seq {A} (l : list A) d : map (fun i => nth i l d) (seq 0 (length l)) = l.
Proof.
  apply nth_error_ext. intros i. destruct (lt_dec i (length l)) as [L|L]; [rewrite nth_map_seq by exact L; symmetry; apply nth_error_nth'; exact L|]. transitivity (@None A); [apply nth_error_None; rewrite map_length, seq_length; lia|symmetry; apply nth_error_None; lia].
Qed.
Lemma flat_map_map {A B C} (f : A -> B) (g : B -> list C) l : flat_map g (map f l) = flat_map (fun a => g (f a)) l.
Proof. induction l as [|a l IH]; [reflexivity|]. cbn. rewrite IH. reflexivity. Qed.

Section Mhc.
  Context {T : Type} (S : serial T) (ok : T -> Prop) (size : nat) (owners : Z -> option Z) (data : list (list (Z * list T))).
  Hypothesis HS : serial_ok S ok.
  Hypothesis D : data_ok S ok size owners data.

  Definition owner_of (c : Z) : option nat := match owners c with Some o => if ((-1 <? o) && (o <? Z.of_nat size))%Z then Some (Z.to_nat o) else None | None => None end.
  Definition owns (r : nat) (c : Z) : bool := match owner_of c with Some r' => r' =? r | None => false end.
  Lemma owner_rank_ok c : owners c <> None -> owner_rank size owners c = Some (owner_of c).
  Proof. unfold owner_rank, owner_of. destruct (owners c); [reflexivity|congruence]. Qed.
  Lemma owner_of_owned c r : owner_of c = Some r <-> owned size owners c r.
  Proof.
    unfold owner_of, owned. destruct (owners c) as [o|]; [|split; [discriminate|intros (_ & X); discriminate]]. destruct (Z.ltb_spec (-1) o); destruct (Z.ltb_spec o (Z.of_nat size)); cbn [andb]; split; intros X; try discriminate.
    - inversion X; subst. split; [lia|]. f_equal. lia.
    - destruct X as (_ & X). inversion X; subst. f_equal. lia.
    - destruct X as (L & X). inversion X. lia.
    - destruct X as (L & X). inversion X. lia.
    - destruct X as (L & X). inversion X. lia.
  Qed.
  Lemma owns_owned r c : owns r c = true <-> owned size owners c r.
  Proof. rewrite <- owner_of_owned. unfold owns. destruct (owner_of c) as [r'|]; split; intros X; try discriminate; [apply Nat.eqb_eq in X; congruence|]. inversion X. apply Nat.eqb_refl. Qed.

  Definition P (c : Z) : list byte := packed S (objects data c).
  Definition pk (e : Z * list T) : Z * list byte := (fst e, packed S (snd e)).
  Definition ents (d : list (Z * list T)) (r : nat) : list (Z * list byte) := map pk (filter (fun e => owns r (fst e)) d).

  Lemma in_list_sum {A} (w : A -> nat) l a : In a l -> w a <= list_sum (map w l).
  Proof. intros I. apply in_split in I. destruct I as (x & y & ->). rewrite map_app, list_sum_app. cbn [map]. unfold list_sum at 2. cbn [fold_right]. lia. Qed.
  Lemma filter_sum {A} (w : A -> nat) p l : list_sum (map w (filter p l)) <= list_sum (map w l).
  Proof. induction l as [|a l IH]; [auto|]. cbn [filter]. unfold list_sum in *. destruct (p a); cbn [map fold_right]; lia. Qed.
  Lemma entry_ok d e : In d data -> In e d -> cell_ok owners (fst e) /\ Forall ok (snd e) /\ length (packed S (snd e)) = bytes_of S (snd e) /\ 24 + bytes_of S (snd e) <= total_bytes S data.
  Proof.
    intros Id Ie. destruct D as (_ & Dd & _). destruct (Dd d Id) as (_ & De). destruct (De e Ie) as (C & O). split; [exact C|]. split; [exact O|]. split; [apply (packed_length S ok HS), O|].
    unfold total_bytes. pose proof (in_list_sum (fun d => list_sum (map (fun e => 24 + bytes_of S (snd e)) d)) data d Id) as X. pose proof (in_list_sum (fun e => 24 + bytes_of S (snd e)) d e Ie) as Y. cbv beta in *. lia.
  Qed.
  Lemma ents_good d r : In d data -> Forall good (ents d r).
  Proof.
    intros Id. apply Forall_forall. intros e I. unfold ents in I. apply in_map_iff in I. destruct I as (e0 & <- & I). apply filter_In in I. destruct I as (I & _). destruct (entry_ok d e0 Id I) as ((R & _) & _ & L & B). destruct D as (_ & _ & Dt). split; [exact R|]. cbn [pk snd]. lia.
  Qed.
  Lemma ents_bytes d r : In d data -> (Z.of_nat (length (mhp (ents d r))) <= int_max)%Z.
  Proof.
    intros Id. rewrite mhp_length by (apply ents_good, Id). unfold ents. rewrite map_map. destruct D as (_ & _ & Dt). unfold int_max.
    assert (E : map (fun e => 24 + length (snd (pk e))) (filter (fun e => owns r (fst e)) d) = map (fun e => 24 + bytes_of S (snd e)) (filter (fun e => owns r (fst e)) d)). { apply map_ext_in. intros e I. apply filter_In in I. destruct (entry_ok d e Id (proj1 I)) as (_ & _ & L & _). cbn [pk snd]. rewrite L. reflexivity. }
    rewrite E. pose proof (filter_sum (fun e => 24 + bytes_of S (snd e)) (fun e => owns r (fst e)) d). pose proof (in_list_sum (fun d => list_sum (map (fun e => 24 + bytes_of S (snd e)) d)) data d Id) as X. cbv beta in X. unfold total_bytes in Dt. lia.
  Qed.

  Definition items (d : list (Z * list T)) : list (nat * list byte) := flat_map (fun e => match owner_of (fst e) with Some r => [(r, mhp [pk e])] | None => [] end) d.
  Lemma construct_pack_ok d : In d data -> construct_pack S size owners d = Some (row size (fun r => mhp (ents d r))).
  Proof.
    intros Id. unfold construct_pack.
    assert (F : foldM (fun acc e => o <- owner_rank size owners (fst e);; match o with None => Some acc | Some r => contents <- pack S (snd e);; packed0 <- pack mh_cell_buffer [(fst e, contents)];; Some (push acc r packed0) end) [] d = Some (pushes (items d))).
    { unfold pushes. generalize (@nil (nat * list byte)) as acc. assert (Hd : forall e, In e d -> In e d) by auto. revert Hd. generalize d at 1 3 4 as d'. induction d' as [|e d' IH]; intros Hd acc; [reflexivity|]. cbn [foldM]. destruct (entry_ok d e Id (Hd e (or_introl eq_refl))) as (C & O & L & B).
      rewrite owner_rank_ok by (apply C). cbn [obind]. unfold items. cbn [flat_map]. rewrite fold_left_app. destruct (owner_of (fst e)) as [r|] eqn:Er; [|cbn [obind fold_left]; apply IH; intros; apply Hd; right; auto].
      rewrite (pack_packed S ok HS) by exact O. cbn [obind]. assert (G : Forall mh_ok [(fst e, packed S (snd e))]). { constructor; [|constructor]. destruct C as (R & _). destruct D as (_ & _ & Dt). apply good_ok. split; [exact R|]. cbn [snd]. lia. }
      rewrite (pack_packed _ mh_ok mh_serial_ok) by exact G. cbn [obind fold_left fst snd]. apply IH. intros; apply Hd; right; auto. }
    rewrite F. cbn [obind]. rewrite rank_map_pushes.
    - f_equal. unfold row. apply flat_map_ext. intros r. replace (pieces (items d) r) with (mhp (ents d r)); [reflexivity|]. unfold pieces, items, ents. induction d as [|e d' IH]; [reflexivity|]. cbn [flat_map filter]. rewrite flat_map_app.
      assert (Q : flat_map (fun i => if fst i =? r then snd i else []) (flat_map (fun e0 => match owner_of (fst e0) with Some r0 => [(r0, mhp [pk e0])] | None => [] end) d') = mhp (map pk (filter (fun e0 => owns r (fst e0)) d'))).
      { clear. induction d' as [|e d' IH]; [reflexivity|]. cbn [flat_map filter]. rewrite flat_map_app, IH. unfold owns. destruct (owner_of (fst e)) as [r'|]; [|reflexivity]. cbn [flat_map fst snd]. destruct (r' =? r); [|reflexivity]. cbn [map]. unfold mhp. rewrite app_nil_r, <- packed_app. reflexivity. }
      rewrite Q. unfold owns at 1. destruct (owner_of (fst e)) as [r'|]; [|reflexivity]. cbn [flat_map fst snd]. destruct (r' =? r); [|reflexivity]. cbn [map]. unfold mhp. rewrite app_nil_r, <- packed_app. reflexivity.
    - intros i I. unfold items in I. apply in_flat_map in I. destruct I as (e & _ & I). destruct (owner_of (fst e)); [|contradiction]. destruct I as [<-|[]]. cbn [snd]. intros X. apply mhp_nil in X. discriminate.
  Qed.

  (** The state after construction. *)
  Definition empty : mhc := mk_mhc (fun _ => None) [] [].
  Definition built (r : nat) : mhc := fold_left append_cell (flat_map (fun d => ents d r) data) empty.
  Lemma construct_ok find : finds size find -> construct S size owners find data = Some (map built (seq 0 size)).
  Proof.
    intros F. unfold construct. destruct D as (Ld & _). rewrite (mapM_eq _ (fun d => row size (fun r => mhp (ents d r)))) by (intros d Id; apply construct_pack_ok, Id). cbn [obind].
    set (f := fun s r => mhp (ents (nth s data []) r)). assert (Et : map (fun d => row size (fun r => mhp (ents d r))) data = table size f). { unfold table, f. rewrite <- (map_nth_seq data []) at 1. rewrite map_map, Ld. reflexivity. }
    rewrite Et. assert (In_ : forall s, s < size -> In (nth s data []) data) by (intros s Ls; apply nth_In; lia).
    destruct (exchange_found size find f F) as (G & HG & _ & _ & X). { intros s r Ls Lr. apply ents_bytes, In_, Ls. }
    rewrite X. cbn [obind]. rewrite Kernel.mapM_map. apply mapM_eq. intros r Ir. apply in_seq in Ir. destruct (HG r ltac:(lia)) as (N & I). rewrite (rank_map_senders size (fun s => f s r)); [|exact N|exact I]. cbn [obind]. rewrite row_senders. unfold f. rewrite (generic_unpack_ok (fun s => ents (nth s data []) r)).
    - f_equal. unfold built. f_equal. rewrite flat_map_senders by (intros s Ls E; apply mhp_nil, E). pose proof (flat_map_map (fun i => nth i data []) (fun d => ents d r) (seq 0 (length data))) as Y. rewrite map_nth_seq, Ld in Y. symmetry. exact Y.
    - intros s Is. apply senders_in in Is. apply ents_good, In_. tauto.
  Qed.

  Definition inv (reqs : list (list (list Z))) (stf : nat -> mhc) : Prop := forall r c, r < size -> cell_ok owners c ->
    (mem c (gathered (stf r)) = true <-> exists o, owned size owners c o /\ (requested reqs r c \/ o = r /\ held data c)) /\
    (mem c (no_owner (stf r)) = true <-> requested reqs r c /\ ~ exists o, owned size owners c o) /\
    (mem c (gathered (stf r)) = true -> cell_buffers (stf r) (as_int c) = Some (P c)) /\
    (mem c (gathered (stf r)) = false -> buffer_of (cell_buffers (stf r)) c = []).
  Lemma present m c b : m (as_int c) <> None -> buffer_of m c = b -> m (as_int c) = Some b.
  Proof. unfold buffer_of. destruct (m (as_int c)); [congruence|contradiction]. Qed.
  Lemma sel_ents c r : flat_map (fun d => sel c (ents d r)) data = if owns r c then P c else [].
  Proof.
    unfold P, objects. assert (K : forall d, sel c (ents d r) = if owns r c then packed S (flat_map (fun e => if (fst e =? c)%Z then snd e else []) d) else []).
    { intros d. unfold sel, ents. induction d as [|e d IH]; [destruct (owns r c); reflexivity|]. cbn [filter flat_map]. rewrite packed_app. destruct (owns r (fst e)) eqn:Eo; cbn [map flat_map pk fst snd]; rewrite IH; destruct (Z.eqb_spec (fst e) c) as [<-|N]; rewrite ?Eo; try reflexivity; destruct (owns r c); reflexivity. }
    clear D. induction data as [|d l IH]; [destruct (owns r c); reflexivity|]. cbn [flat_map]. rewrite packed_app, IH, K. destruct (owns r c); reflexivity.
  Qed.
  Lemma built_inv : inv [] built.
  Proof.
    intros r c Lr C. pose proof (append_all (flat_map (fun d => ents d r) data) empty c (proj1 C)) as A. destruct A as (A1 & A2 & A3 & A4).
    { apply Forall_forall. intros e I. apply in_flat_map in I. destruct I as (d & Id & I). pose proof (ents_good d r Id) as G. rewrite Forall_forall in G. apply (G e I). }
    fold (built r) in *. rewrite sel_flat, sel_ents in A1. cbn [empty buffer_of cell_buffers app gathered mem existsb orb no_owner] in *.
    assert (Hh : has c (flat_map (fun d => ents d r) data) = true <-> owned size owners c r /\ held data c).
    { rewrite has_in. split.
      - intros (e & I & E). apply in_flat_map in I. destruct I as (d & Id & I). unfold ents in I. apply in_map_iff in I. destruct I as (e0 & <- & I). apply filter_In in I. cbn [pk fst] in E. subst c. split; [apply owns_owned, I|]. exists d, e0. tauto.
      - intros (O & d & e & Id & Ie & E). exists (pk e). split; [|exact E]. apply in_flat_map. exists d. split; [exact Id|]. unfold ents. apply in_map, filter_In. split; [exact Ie|]. apply owns_owned. rewrite E. exact O. }
    rewrite A2. split; [|split; [|split]].
    - rewrite Hh. split; [intros (O & Hd); exists r; auto|]. intros (o & O & [(q & ? & [] & _)|(-> & Hd)]). auto.
    - rewrite A4. split; [discriminate|]. intros ((q & ? & [] & _) & _).
    - intros M. apply present; [apply A3; right; exact M|]. rewrite A1. apply Hh in M. destruct M as (O & _). apply owns_owned in O. rewrite O. reflexivity.
    - intros M. rewrite A1. destruct (owns r c) eqn:Eo; [|reflexivity]. assert (Nh : ~ held data c). { intros Hd. apply owns_owned in Eo. assert (has c (flat_map (fun d => ents d r) data) = true) by (apply Hh; auto). congruence. }
      unfold P, objects. rewrite (flat_map_single _ data); [reflexivity|]. intros d Id. apply flat_map_single. intros e Ie. destruct (Z.eqb_spec (fst e) c) as [E|E]; [|reflexivity]. exfalso. apply Nh. exists d, e. auto.
  Qed.

  (** ** Gather *)
  Lemma insert_in x y l : In x (insert y l) <-> x = y \/ In x l.
  Proof.
    induction l as [|a l IH]; cbn [insert]; [cbn; intuition|]. destruct (y <? a)%Z; [cbn; intuition|]. destruct (Z.eqb_spec y a) as [->|N]; [cbn; intuition|]. cbn [In]. rewrite IH. intuition.
  Qed.
  Lemma insert_sorted x l : StronglySorted Z.lt l -> StronglySorted Z.lt (insert x l).
  Proof.
    induction 1 as [|a l Sl IH Fa]; cbn [insert]; [repeat constructor|]. destruct (Z.ltb_spec x a) as [L|L].
    - constructor; [constructor; auto|]. constructor; [exact L|]. eapply Forall_impl; [|exact Fa]. intros; cbn in *; lia.
    - destruct (Z.eqb_spec x a) as [->|N]; [constructor; auto|]. constructor; [exact IH|]. apply Forall_forall. intros y I. apply insert_in in I. destruct I as [->|I]; [lia|]. rewrite Forall_forall in Fa. apply Fa, I.
  Qed.
  Lemma insert_length x l : length (insert x l) <= 1 + length l.
  Proof. induction l as [|a l IH]; cbn [insert]; [auto|]. destruct (x <? a)%Z; [cbn; lia|]. destruct (x =? a)%Z; cbn [length]; lia. Qed.
  Lemma sorted_nodup l : StronglySorted Z.lt l -> NoDup l.
  Proof. induction 1 as [|a l Sl IH Fa]; constructor; auto. intros I. rewrite Forall_forall in Fa. specialize (Fa a I). lia. Qed.
  Lemma cells_set_ok st cells : NoDup (cells_set st cells) /\ (forall c, In c (cells_set st cells) <-> In c cells /\ mem c (gathered st) = false) /\ length (cells_set st cells) <= length cells.
  Proof.
    unfold cells_set. assert (K : forall l acc, StronglySorted Z.lt acc -> let s := fold_left (fun s c => if mem c (gathered st) then s else insert c s) l acc in
      StronglySorted Z.lt s /\ (forall c, In c s <-> In c acc \/ In c l /\ mem c (gathered st) = false) /\ length s <= length acc + length l).
    { induction l as [|x l IH]; intros acc A; cbn zeta; cbn [fold_left]; [split; [exact A|]; split; [intros c; cbn; intuition|cbn; lia]|]. destruct (mem x (gathered st)) eqn:Ex.
      - destruct (IH acc A) as (X & Y & Z). split; [exact X|]. split; [|cbn [length]; lia]. intros c. rewrite Y. cbn [In]. split; [intuition|]. intros [I|([<-|I] & M)]; [auto|congruence|auto].
      - destruct (IH (insert x acc) (insert_sorted x acc A)) as (X & Y & Z). split; [exact X|]. split; [|pose proof (insert_length x acc); cbn [length]; lia]. intros c. rewrite Y, insert_in. cbn [In]. split; [intros [[->|I]|I]; intuition|]. intros [I|([<-|I] & M)]; auto. }
    destruct (K cells [] (SSorted_nil _)) as (X & Y & Z). split; [apply sorted_nodup, X|]. split; [|cbn in Z; lia]. intros c. rewrite Y. cbn. intuition.
  Qed.

  Definition ask_of (set : list Z) (s : nat) : list Z := filter (owns s) set.
  Definition none_of (set : list Z) : list Z := filter (fun c => match owner_of c with None => true | _ => false end) set.
  Definition ask_items (set : list Z) : list (nat * list Z) := flat_map (fun c => match owner_of c with Some r => [(r, [c])] | None => [] end) set.
  Lemma by_owner_ok set : (forall c, In c set -> owners c <> None) -> by_owner size owners set = Some (pushes (ask_items set), none_of set).
  Proof.
    intros H. unfold by_owner, pushes. assert (K : forall l a n, (forall c, In c l -> owners c <> None) ->
      foldM (fun acc c => o <- owner_rank size owners c;; Some match o with Some r => (push (fst acc) r [c], snd acc) | None => (fst acc, snd acc ++ [c]) end) (a, n) l = Some (fold_left (fun acc i => push acc (fst i) (snd i)) (ask_items l) a, n ++ none_of l)).
    { clear H. induction l as [|c l IH]; intros a n H; [cbn; rewrite app_nil_r; reflexivity|]. cbn [foldM]. rewrite owner_rank_ok by (apply H; left; auto). cbn [obind fst snd]. unfold ask_items, none_of. cbn [flat_map filter]. rewrite fold_left_app. destruct (owner_of c); cbn [fold_left fst snd]; rewrite IH by (intros; apply H; right; auto); [reflexivity|]. rewrite <- app_assoc. reflexivity. }
    apply (K set [] [] H).
  Qed.
  Lemma ask_pieces set s : pieces (ask_items set) s = ask_of set s.
  Proof. unfold pieces, ask_items, ask_of. induction set as [|c set IH]; [reflexivity|]. cbn [flat_map filter]. rewrite flat_map_app, IH. unfold owns at 2. destruct (owner_of c) as [r|]; [|reflexivity]. cbn [flat_map fst snd]. destruct (r =? s); reflexivity. Qed.
  Lemma ask_map set : rank_map size (pushes (ask_items set)) = Some (row size (ask_of set)).
  Proof.
    rewrite rank_map_pushes. { f_equal. unfold row. apply flat_map_ext. intros s. rewrite ask_pieces. reflexivity. }
    intros i I. unfold ask_items in I. apply in_flat_map in I. destruct I as (c & _ & I). destruct (owner_of c); [|contradiction]. destruct I as [<-|[]]. discriminate.
  Qed.
  Definition enc (cells : list Z) : list byte := concat (map (le 8) cells).
  Lemma enc_nil l : enc l = [] <-> l = [].
  Proof. split; [|intros ->; reflexivity]. destruct l; [reflexivity|]. discriminate. Qed.
  Lemma enc_length l : length (enc l) = 8 * length l.
  Proof. unfold enc. induction l as [|c l IH]; [reflexivity|]. cbn [map concat]. rewrite app_length, IH, le_length. cbn [length]. lia. Qed.
  Lemma ints_of_enc l : Forall in_range l -> forall fuel, length (enc l) <= fuel -> ints_of fuel (enc l) = Some l.
  Proof.
    induction 1 as [|c l R F IH]; intros fuel L; [destruct fuel; reflexivity|]. assert (E : enc (c :: l) = le 8 c ++ enc l) by reflexivity. rewrite E in *. rewrite app_length, le_length in L. destruct fuel as [|f]; [lia|].
    destruct (le 8 c ++ enc l) as [|b t] eqn:E'; [discriminate|]. cbn [ints_of]. rewrite <- E'. rewrite take_app by (rewrite le_length; reflexivity). cbn [obind fst snd]. rewrite IH by lia. cbn [obind]. unfold in_range in R. rewrite signed8 by lia. reflexivity.
  Qed.
  (** Serving *)
  Definition touch (m : Z -> option (list byte)) (cells : list Z) : Z -> option (list byte) := fold_left (fun m c => set_buffer m c (buffer_of m c)) cells m.
  Definition same (m m' : Z -> option (list byte)) : Prop := forall k, m' k = m k \/ m k = None /\ m' k = Some [].
  Lemma touch_same : forall cells m, same m (touch m cells).
  Proof.
    induction cells as [|c l IH]; intros m; [intros k; left; reflexivity|]. unfold touch in *. cbn [fold_left]. set (m1 := set_buffer m c (buffer_of m c)). intros k. assert (m1 k = m k \/ m k = None /\ m1 k = Some []) as X.
    { unfold m1, set_buffer, buffer_of. destruct (Z.eqb_spec k (as_int c)) as [->|N]; [|left; reflexivity]. destruct (m (as_int c)); auto. }
    destruct (IH m1 k) as [Y|(Y1 & Y2)]; [rewrite Y; exact X|]. destruct X as [X|(X1 & X2)]; [right; split; congruence|congruence].
  Qed.
  Lemma same_buffer m m' c : same m m' -> buffer_of m' c = buffer_of m c.
  Proof. intros H. unfold buffer_of. destruct (H (as_int c)) as [->|(-> & ->)]; reflexivity. Qed.
  Definition bufs (m : Z -> option (list byte)) (cells : list Z) : list (Z * list byte) := map (fun c => (c, buffer_of m c)) cells.
  Lemma serve_cells_ok m0 : forall cells m b, same m0 m -> Forall good (bufs m0 cells) -> foldM serve_cell (m, b) cells = Some (touch m cells, b ++ mhp (bufs m0 cells)).
  Proof.
    induction cells as [|c l IH]; intros m b E F; [cbn; rewrite app_nil_r; reflexivity|]. inversion F as [|? ? G Fl]; subst. cbn [foldM]. unfold serve_cell at 1. cbn [fst snd]. rewrite (same_buffer m0 m c E). fold (bufs m0 l) in Fl.
    rewrite (pack_packed _ mh_ok mh_serial_ok) by (constructor; [apply good_ok, G|constructor]). cbn [obind]. assert (T1 : same m0 (set_buffer m c (buffer_of m0 c))).
    { intros k. unfold set_buffer, buffer_of. destruct (Z.eqb_spec k (as_int c)) as [->|N]; [destruct (m0 (as_int c)); auto|apply E]. }
    rewrite IH by auto. unfold touch. cbn [fold_left]. rewrite (same_buffer m0 m c E). unfold bufs. cbn [map]. unfold mhp, packed. cbn [flat_map]. rewrite app_nil_r, app_assoc. reflexivity.
  Qed.
  Lemma serve_ok m0 (asks : nat -> list Z) : forall g m out, same m0 m -> (forall r, In r g -> Forall in_range (asks r) /\ Forall good (bufs m0 (asks r))) ->
    foldM serve (m, out) (map (fun r => (r, enc (asks r))) g) = Some (touch m (flat_map asks g), out ++ map (fun r => (r, mhp (bufs m0 (asks r)))) g).
  Proof.
    induction g as [|r g IH]; intros m out E H; [cbn; rewrite app_nil_r; reflexivity|]. cbn [map foldM]. unfold serve at 1. cbn [fst snd]. destruct (H r (or_introl eq_refl)) as (R & G). rewrite ints_of_enc by auto. cbn [obind]. rewrite (serve_cells_ok m0) by auto. cbn [obind fst snd app].
    rewrite IH; [|intros k; destruct (touch_same (asks r) m k) as [X|(X1 & X2)]; destruct (E k) as [Y|(Y1 & Y2)]; [left; congruence|right; split; congruence|right; split; congruence|congruence]|intros; apply H; right; auto].
    cbn [flat_map]. unfold touch. rewrite fold_left_app, <- app_assoc. reflexivity.
  Qed.

  (** The bytes for distinct cells are not more than all bytes. *)
  Lemma weight_cells {X} (key : X -> Z) (w : X -> nat) (L : list X) : forall cs, NoDup cs ->
    list_sum (map (fun c => list_sum (map (fun x => if (key x =? c)%Z then w x else 0) L)) cs) <= list_sum (map w L).
  Proof.
    induction L as [|x L IH]; intros cs N; [cbn [map]; induction cs as [|c cs IHc]; [cbn; lia|]; inversion N; subst; cbn [map]; unfold list_sum in *; cbn [fold_right]; rewrite Nat.add_0_l; apply IHc; auto|].
    specialize (IH cs N). assert (E : list_sum (map (fun c => list_sum (map (fun x0 => if (key x0 =? c)%Z then w x0 else 0) (x :: L))) cs) = list_sum (map (fun c => if (key x =? c)%Z then w x else 0) cs) + list_sum (map (fun c => list_sum (map (fun x0 => if (key x0 =? c)%Z then w x0 else 0) L)) cs)).
    { clear. induction cs as [|c cs IHc]; [reflexivity|]. cbn [map] in *. unfold list_sum in *. cbn [fold_right] in *. lia. }
    assert (O : list_sum (map (fun c => if (key x =? c)%Z then w x else 0) cs) <= w x).
    { clear - N. induction N as [|c cs Nc N IH]; [cbn; lia|]. cbn [map]. unfold list_sum in *. cbn [fold_right]. destruct (Z.eqb_spec (key x) c) as [E|E]; [|lia]. enough (fold_right Nat.add 0 (map (fun c0 => if (key x =? c0)%Z then w x else 0) cs) = 0) by lia. subst c. clear IH N. induction cs as [|c cs IH]; [reflexivity|]. cbn [map fold_right]. rewrite IH by (intros I; apply Nc; right; exact I). destruct (Z.eqb_spec (key x) c) as [E|]; [|reflexivity]. exfalso. apply Nc. left. auto. }
    rewrite E. cbn [map]. unfold list_sum in *. cbn [fold_right]. lia.
  Qed.
  Lemma objects_ok c : Forall ok (objects data c).
  Proof.
    apply Forall_forall. intros x I. unfold objects in I. apply in_flat_map in I. destruct I as (d & Id & I). apply in_flat_map in I. destruct I as (e & Ie & I). destruct (fst e =? c)%Z; [|contradiction]. destruct (entry_ok d e Id Ie) as (_ & O & _). rewrite Forall_forall in O. apply O, I.
  Qed.
  Lemma bytes_flat {A} (g : A -> list T) l : bytes_of S (flat_map g l) = list_sum (map (fun a => bytes_of S (g a)) l).
  Proof. unfold bytes_of. induction l as [|a l IH]; [reflexivity|]. cbn [flat_map map]. rewrite map_app, list_sum_app, IH. reflexivity. Qed.
  Lemma P_sum cs : NoDup cs -> list_sum (map (fun c => length (P c)) cs) <= total_bytes S data.
  Proof.
    intros N. assert (E : forall c, length (P c) = list_sum (map (fun e => if (fst e =? c)%Z then bytes_of S (snd e) else 0) (concat data))).
    { intros c. unfold P. rewrite (packed_length S ok HS) by apply objects_ok. unfold objects. rewrite bytes_flat. clear. induction data as [|d l IH]; [reflexivity|]. cbn [map concat]. rewrite map_app, list_sum_app, <- IH. unfold list_sum at 1. cbn [fold_right]. f_equal. rewrite bytes_flat. f_equal. apply map_ext. intros e. destruct (fst e =? c)%Z; reflexivity. }
    rewrite (map_ext _ _ E). eapply Nat.le_trans; [apply (weight_cells fst (fun e => bytes_of S (snd e)) (concat data) cs N)|]. unfold total_bytes. clear. induction data as [|d l IH]; [cbn; lia|]. cbn [concat map]. rewrite map_app, list_sum_app. unfold list_sum at 3. cbn [fold_right]. fold (list_sum (map (fun d0 => list_sum (map (fun e => 24 + bytes_of S (snd e)) d0)) l)).
    assert (list_sum (map (fun e => bytes_of S (snd e)) d) <= list_sum (map (fun e => 24 + bytes_of S (snd e)) d)). { clear. induction d as [|e d IH]; [auto|]. cbn [map]. unfold list_sum in *. cbn [fold_right]. lia. } lia.
  Qed.
  Lemma P_small c : (Z.of_nat (length (P c)) < 2 ^ 31)%Z.
  Proof. destruct D as (_ & _ & Dt). pose proof (P_sum [c] ltac:(repeat constructor; intros [])) as X. cbn [map] in X. unfold list_sum in X. cbn [fold_right] in X. lia. Qed.

  Lemma requested_snoc reqs req r c : requested (reqs ++ [req]) r c <-> requested reqs r c \/ In c (nth r req []).
  Proof.
    unfold requested. split.
    - intros (q & cells & I & E & Ic). apply in_app_or in I. destruct I as [I|[<-|[]]]; [left; exists q, cells; auto|]. right. rewrite (nth_error_nth req r [] E). exact Ic.
    - intros [(q & cells & I & E & Ic)|I]; [exists q, cells; split; [apply in_or_app; auto|auto]|]. destruct (nth_error req r) as [cells|] eqn:E; [exists req, cells; split; [apply in_or_app; right; left; auto|]; split; [exact E|]; rewrite (nth_error_nth req r [] E) in I; exact I|].
      apply nth_error_None in E. rewrite nth_overflow in I by exact E. contradiction.
  Qed.
  Lemma combine_map2 {X Y} (f : nat -> X) (h : nat -> Y) l : combine (map f l) (map h l) = map (fun s => (f s, h s)) l.
  Proof. apply combine_map. Qed.

  Lemma gather_ok find reqs stf req : finds size find -> inv reqs stf -> request_ok S data size owners req ->
    exists stf', gather size owners find (map stf (seq 0 size)) req = Some (map stf' (seq 0 size)) /\ inv (reqs ++ [req]) stf'.
  Proof.
    intros F I (Lr & Rq). set (set_ := fun r => cells_set (stf r) (nth r req [])).
    assert (Rok : forall r, r < size -> (forall c, In c (nth r req []) -> cell_ok owners c) /\ (Z.of_nat (24 * length (nth r req []) + total_bytes S data) < 2 ^ 31)%Z) by (intros r L; apply Rq, nth_In; lia).
    assert (Sn : forall r, NoDup (set_ r)) by (intros r; apply cells_set_ok). assert (Sin : forall r c, In c (set_ r) <-> In c (nth r req []) /\ mem c (gathered (stf r)) = false) by (intros r; apply cells_set_ok). assert (Sl : forall r, length (set_ r) <= length (nth r req [])) by (intros r; apply cells_set_ok).
    assert (Sc : forall r c, r < size -> In c (set_ r) -> cell_ok owners c) by (intros r c L X; apply Sin in X; apply (Rok r L), X).
    unfold gather. cbv zeta. replace (combine (map stf (seq 0 size)) req) with (map (fun r => (stf r, nth r req [])) (seq 0 size)) by (rewrite <- combine_map2; f_equal; rewrite <- Lr; apply map_nth_seq). rewrite map_map. cbn [fst snd]. change (fun x => cells_set (stf x) (nth x req [])) with set_.
    destruct (forallb _ (map set_ (seq 0 size))) eqn:Ef.
    { exists stf. split; [reflexivity|]. assert (Es : forall r, r < size -> set_ r = []). { intros r L. rewrite forallb_forall in Ef. assert (Is : In (set_ r) (map set_ (seq 0 size))) by (apply in_map, in_seq; lia). specialize (Ef (set_ r) Is). destruct (set_ r); [reflexivity|discriminate]. }
      intros r c L C. destruct (I r c L C) as (I1 & I2 & I3 & I4). assert (Hn : In c (nth r req []) -> mem c (gathered (stf r)) = true). { intros X. destruct (mem c (gathered (stf r))) eqn:M; [reflexivity|]. assert (In c (set_ r)) as Y by (apply Sin; auto). rewrite (Es r L) in Y. contradiction. }
      split; [|split; [|auto]].
      - rewrite I1. split; intros (o & O & H); exists o; (split; [exact O|]).
        + destruct H as [H|H]; [left; apply requested_snoc; auto|auto].
        + destruct H as [H|H]; [|auto]. apply requested_snoc in H. destruct H as [H|H]; [auto|]. apply Hn, I1 in H. destruct H as (o' & O' & H). replace o with o' by (apply owner_of_owned in O; apply owner_of_owned in O'; congruence). exact H.
      - rewrite I2, requested_snoc. split; [tauto|]. intros ([H|H] & Nn); [auto|]. exfalso. apply Nn. apply Hn, I1 in H. destruct H as (o' & O' & _). eauto. }
    clear Ef. rewrite Kernel.mapM_map. rewrite (mapM_eq _ (fun r => (pushes (ask_items (set_ r)), none_of (set_ r)))). 2:{ intros r Ir. apply in_seq in Ir. apply by_owner_ok. intros c X. apply (Sc r c ltac:(lia) X). }
    cbn [obind]. rewrite Kernel.mapM_map. cbn [fst]. rewrite (mapM_eq _ (fun r => row size (ask_of (set_ r)))) by (intros r _; apply ask_map). cbn [obind].
    set (ask := fun r s => ask_of (set_ r) s). assert (Ea : map (map (fun e => (fst e, concat (map (le 8) (snd e))))) (map (fun r => row size (ask_of (set_ r))) (seq 0 size)) = table size (fun r s => enc (ask r s))).
    { unfold table. rewrite map_map. apply map_ext. intros r. change (fun e : nat * list Z => (fst e, concat (map (le 8) (snd e)))) with (fun e : nat * list Z => (fst e, enc (snd e))). rewrite (row_map size (ask_of (set_ r)) enc); [reflexivity|reflexivity|]. intros l X Y. apply X, enc_nil, Y. }
    rewrite Ea. clear Ea. set (f := fun r s => enc (ask r s)).
    assert (Al : forall r s, length (ask r s) <= length (set_ r)). { intros r s. unfold ask, ask_of. generalize (set_ r) as l. induction l as [|x l IH]; [auto|]. cbn [filter]. destruct (owns s x); cbn [length]; lia. }
    destruct (exchange_found size find f F) as (G & HG & Lf & Ef & X).
    { intros r s L1 L2. unfold f. rewrite enc_length. pose proof (Al r s). pose proof (Sl r). destruct (Rok r L1) as (_ & B). unfold int_max. lia. }
    destruct (mapM_total (rank_map size) (find (map sizes (table size f)))) as (ig & Eg).
    { intros l Il. apply In_nth_error in Il. destruct Il as (s & El). assert (Ls : s < size) by (rewrite <- Lf; apply nth_error_Some; congruence). rewrite (Ef s Ls) in El. inversion El; subst l. destruct (HG s Ls) as (N & Ig). eexists. apply rank_map_enum; [exact N|intros r Ir; apply Ig, Ir]. }
    rewrite Eg. cbn [obind]. rewrite X. cbn [obind]. rewrite combine_map2, Kernel.mapM_map. cbn [fst snd].
    assert (Aok : forall r s c, r < size -> In c (ask r s) -> In c (set_ r) /\ owned size owners c s /\ cell_ok owners c). { intros r s c L Y. unfold ask, ask_of in Y. apply filter_In in Y. destruct Y as (Y & O). split; [exact Y|]. split; [apply owns_owned, O|apply (Sc r c L Y)]. }
    assert (Bp : forall r s c, r < size -> s < size -> In c (ask r s) -> buffer_of (cell_buffers (stf s)) c = P c).
    { intros r s c L1 L2 Y. destruct (Aok r s c L1 Y) as (_ & O & C). destruct (I s c L2 C) as (I1 & _ & I3 & I4). destruct (mem c (gathered (stf s))) eqn:M; [unfold buffer_of; rewrite (I3 eq_refl); reflexivity|]. rewrite (I4 eq_refl). unfold P, objects. rewrite (flat_map_single _ data); [reflexivity|]. intros d Id. apply flat_map_single. intros e Ie. destruct (Z.eqb_spec (fst e) c) as [E|E]; [|reflexivity]. exfalso.
      assert (false = true) as Q; [|discriminate Q]. apply I1. exists s. split; [exact O|]. right. split; [reflexivity|]. exists d, e. auto. }
    set (ans := fun s r => mhp (map (fun c => (c, P c)) (ask r s))).
    assert (Gd : forall r s, r < size -> Forall good (map (fun c => (c, P c)) (ask r s))). { intros r s L. apply Forall_forall. intros e Y. apply in_map_iff in Y. destruct Y as (c & <- & Y). split; [apply (Aok r s c L Y)|apply P_small]. }
    assert (Eb : forall r s, r < size -> s < size -> bufs (cell_buffers (stf s)) (ask r s) = map (fun c => (c, P c)) (ask r s)). { intros r s L1 L2. unfold bufs. apply map_ext_in. intros c Y. rewrite (Bp r s c L1 L2 Y). reflexivity. }
    rewrite (mapM_eq _ (fun s => (touch (cell_buffers (stf s)) (flat_map (fun r => ask r s) (G s)), map (fun r => (r, ans s r)) (G s)))).
    2:{ intros s Is. apply in_seq in Is. assert (Gs : forall r, In r (G s) -> r < size) by (intros r Ir; apply (HG s ltac:(lia)), Ir). unfold f. rewrite (serve_ok (cell_buffers (stf s)) (fun r => ask r s)).
        - cbn [app]. f_equal. f_equal. apply map_ext_in. intros r Ir. unfold ans. rewrite (Eb r s (Gs r Ir) ltac:(lia)). reflexivity.
        - intros k. left. reflexivity.
        - intros r Ir. rewrite (Eb r s (Gs r Ir) ltac:(lia)). split; [|apply Gd, Gs, Ir]. apply Forall_forall. intros c Y. apply (Aok r s c (Gs r Ir) Y). }
    cbn [obind]. rewrite !map_map. cbn [snd].
    assert (Ans : forall r s, r < size -> (Z.of_nat (length (ans s r)) <= int_max)%Z).
    { intros r s L. unfold ans. rewrite mhp_length by (apply Gd, L). rewrite map_map. cbn [snd]. assert (E : list_sum (map (fun c => 24 + length (P c)) (ask r s)) = 24 * length (ask r s) + list_sum (map (fun c => length (P c)) (ask r s))). { generalize (ask r s). induction l as [|x l IH]; [reflexivity|]. cbn [map length]. unfold list_sum in *. cbn [fold_right]. lia. }
      rewrite E. pose proof (P_sum (ask r s) ltac:(apply NoDup_filter, Sn)). pose proof (Al r s). pose proof (Sl r). destruct (Rok r L) as (_ & B). unfold int_max. lia. }
    assert (Esr : map (fun x => map fst (row size (ask_of (set_ x)))) (seq 0 size) = map (fun r => senders size (ask r)) (seq 0 size)). { apply map_ext. intros r. rewrite row_senders, map_map. cbn [fst]. rewrite map_id. reflexivity. }
    rewrite Esr. assert (Gr : forall r s, r < size -> s < size -> (In r (G s) <-> In s (senders size (ask r)))). { intros r s L1 L2. destruct (HG s L2) as (_ & Ig). rewrite Ig, senders_in. unfold f. split; intros (_ & Y); split; auto; intros Q; apply Y; apply enc_nil; exact Q. }
    assert (Gsel : forall {B} (v : nat -> nat -> B) r s, r < size -> s < size -> map snd (filter (fun e => fst e =? r) (map (fun r => (r, v s r)) (G s))) = if in_dec Nat.eq_dec s (senders size (ask r)) then [v s r] else []).
    { intros B v r s L1 L2. rewrite (filter_enum (v s) r (G s)) by (apply HG, L2). destruct (in_dec Nat.eq_dec r (G s)) as [J|J]; destruct (in_dec Nat.eq_dec s (senders size (ask r))) as [J'|J']; try reflexivity; exfalso; [apply J', Gr; auto|apply J, Gr; auto]. }
    rewrite (exchange_counts_ok size _ _ (fun r => senders size (ask r)) (fun s r => Z.of_nat (length (ans s r)))).
    2:{ rewrite map_length, seq_length. reflexivity. }
    2:{ rewrite map_length, seq_length. reflexivity. }
    2:{ intros r L. apply (nth_map_seq (fun r => senders size (ask r)) size r L). }
    2:{ intros r L. split; [apply senders_nodup|]. intros s J. apply senders_in in J. tauto. }
    2:{ intros r s l L El. assert (Ls : s < size). { assert (s < length (map (fun x => sizes (map (fun r => (r, ans x r)) (G x))) (seq 0 size))) as Y by (apply nth_error_Some; congruence). rewrite map_length, seq_length in Y. exact Y. } rewrite nth_map_seq in El by exact Ls. inversion El; subst l. unfold sizes. rewrite map_map. cbn [fst snd]. apply (Gsel Z (fun s r => Z.of_nat (length (ans s r))) r s L Ls). }
    cbn [obind]. rewrite combine_map2, map_map. cbn [fst snd].
    rewrite (exchange_data_ok size _ _ (fun r => senders size (ask r)) ans).
    2:{ rewrite map_length, seq_length. reflexivity. }
    2:{ rewrite map_length, seq_length. reflexivity. }
    2:{ intros r L. rewrite nth_map_seq by exact L. f_equal. rewrite row_senders, map_map. cbn [fst]. apply combine_map. }
    2:{ intros r L. split; [apply senders_nodup|]. intros s J. apply senders_in in J. split; [tauto|]. apply Ans, L. }
    2:{ intros r s l L El. assert (Ls : s < size). { assert (s < length (map (fun s => map (fun r => (r, ans s r)) (G s)) (seq 0 size))) as Y by (apply nth_error_Some; congruence). rewrite map_length, seq_length in Y. exact Y. } rewrite nth_map_seq in El by exact Ls. inversion El; subst l. apply (Gsel _ ans r s L Ls). }
    cbn [obind]. rewrite !combine_map2, Kernel.mapM_map. cbn [fst snd].
    set (stream := fun r => flat_map (fun s => map (fun c => (c, P c)) (ask r s)) (seq 0 size)).
    set (start := fun r => mk_mhc (touch (cell_buffers (stf r)) (flat_map (fun r' => ask r' r) (G r))) (gathered (stf r)) (none_of (set_ r) ++ no_owner (stf r))).
    exists (fun r => fold_left append_cell (stream r) (start r)). split.
    { apply mapM_eq. intros r Ir. apply in_seq in Ir. rewrite rank_map_enum by (try apply senders_nodup; intros s J; apply senders_in in J; tauto). cbn [obind]. assert (Efl : filter (fun s => if in_dec Nat.eq_dec s (senders size (ask r)) then true else false) (seq 0 size) = senders size (ask r)).
      { unfold senders at 2. apply filter_ext_in. intros s Is. apply in_seq in Is. destruct (in_dec Nat.eq_dec s (senders size (ask r))) as [J|J]; [apply senders_in in J; destruct (ask r s); [tauto|reflexivity]|]. destruct (ask r s) eqn:E; [reflexivity|]. exfalso. apply J, senders_in. split; [lia|congruence]. }
      rewrite Efl. unfold ans. rewrite (generic_unpack_ok (fun s => map (fun c => (c, P c)) (ask r s))) by (intros s J; apply Gd; lia). f_equal. unfold start, stream. f_equal. apply flat_map_senders. intros s _ E. rewrite E. reflexivity. }
    intros r c L C. destruct (I r c L C) as (I1 & I2 & I3 & I4). pose proof (append_all (stream r) (start r) c (proj1 C)) as A. destruct A as (A1 & A2 & A3 & A4).
    { apply Forall_forall. intros e Y. unfold stream in Y. apply in_flat_map in Y. destruct Y as (s & _ & Y). pose proof (Gd r s L) as Z. rewrite Forall_forall in Z. apply (Z e Y). }
    assert (Hst : has c (stream r) = true <-> In c (set_ r) /\ exists o, owned size owners c o).
    { rewrite has_in. unfold stream. split.
      - intros (e & Y & E). apply in_flat_map in Y. destruct Y as (s & _ & Y). apply in_map_iff in Y. destruct Y as (c' & <- & Y). cbn in E. subst c'. destruct (Aok r s c L Y) as (Y1 & Y2 & _). split; [exact Y1|exists s; exact Y2].
      - intros (Y & o & O). exists (c, P c). split; [|reflexivity]. apply in_flat_map. exists o. split; [apply in_seq; destruct O; lia|]. apply (in_map (fun c => (c, P c))). unfold ask, ask_of. apply filter_In. split; [exact Y|apply owns_owned, O]. }
    assert (Hsel : sel c (stream r) = if has c (stream r) then P c else []).
    { case_eq (has c (stream r)); intros Hh.
      - apply Hst in Hh. destruct Hh as (Y & o & O). assert (Oth : forall i, i <> o -> sel c (map (fun c => (c, P c)) (ask r i)) = []).
        { intros i Ni. unfold sel. apply flat_map_single. intros e Q. apply in_map_iff in Q. destruct Q as (c' & <- & Q). cbn [fst snd]. destruct (Z.eqb_spec c' c) as [->|]; [|reflexivity]. exfalso. destruct (Aok r i c L Q) as (_ & O' & _). apply Ni. apply owner_of_owned in O. apply owner_of_owned in O'. congruence. }
        unfold stream. rewrite sel_flat. rewrite (flat_map_seq_one _ o size (proj1 O) Oth).
        assert (Ia : In c (ask r o)) by (unfold ask, ask_of; apply filter_In; split; [exact Y|apply owns_owned, O]). assert (Na : NoDup (ask r o)) by (apply NoDup_filter, Sn). revert Ia Na. unfold sel. generalize (ask r o). clear. induction l as [|x l IH]; intros Ia Na; [contradiction|]. inversion Na as [|? ? N1 N2]; subst. cbn [map flat_map fst snd]. destruct Ia as [->|Ia].
        + rewrite Z.eqb_refl. rewrite flat_map_single; [apply app_nil_r|]. intros e Q. apply in_map_iff in Q. destruct Q as (c' & <- & Q). cbn [fst snd]. destruct (Z.eqb_spec c' c) as [->|]; [contradiction|reflexivity].
        + destruct (Z.eqb_spec x c) as [->|Nx]; [contradiction|]. apply IH; auto.
      - unfold sel. apply flat_map_single. intros e Q. destruct (Z.eqb_spec (fst e) c) as [E|]; [|reflexivity]. exfalso. assert (has c (stream r) = true) by (apply has_in; exists e; auto). congruence. }
    assert (Bs : buffer_of (cell_buffers (start r)) c = buffer_of (cell_buffers (stf r)) c) by (apply same_buffer, touch_same).
    rewrite Hsel, Bs in A1. change (gathered (start r)) with (gathered (stf r)) in A2. change (no_owner (start r)) with (none_of (set_ r) ++ no_owner (stf r)) in A4.
    cbv beta. rewrite A2, A4. split; [|split; [|split]].
    - rewrite orb_true_iff, I1, Hst, Sin. split.
      + intros [(o & O & Y)|((Y & _) & o & O)]; exists o; (split; [exact O|]); [destruct Y as [Y|Y]; [left; apply requested_snoc; auto|auto]|left; apply requested_snoc; auto].
      + intros (o & O & [Y|Y]); [|left; exists o; auto]. apply requested_snoc in Y. destruct Y as [Y|Y]; [left; exists o; auto|]. destruct (mem c (gathered (stf r))) eqn:M; [left; apply I1; reflexivity|]. right. split; [auto|exists o; exact O].
    - rewrite mem_in, in_app_iff, <- (mem_in c (no_owner (stf r))), I2. rewrite requested_snoc. unfold none_of. rewrite filter_In, Sin. assert (Ho : (match owner_of c with None => true | Some _ => false end) = true <-> ~ exists o, owned size owners c o). { destruct (owner_of c) as [o|] eqn:Eo; split; [discriminate| |intros _ (o & O); apply owner_of_owned in O; congruence|reflexivity]. intros Nn. exfalso. apply Nn. exists o. apply owner_of_owned, Eo. }
      rewrite Ho. split; [intros [((Y & _) & N)|(Y & N)]; tauto|]. intros ([Y|Y] & N); [tauto|]. left. split; [|exact N]. split; [exact Y|]. destruct (mem c (gathered (stf r))) eqn:M; [|reflexivity]. exfalso. apply N. destruct (proj1 I1 eq_refl) as (o & O & _). eauto.
    - intros M. apply present.
      + apply A3. apply orb_true_iff in M. destruct M as [M|M]; [left|right; exact M]. destruct (touch_same (flat_map (fun r' => ask r' r) (G r)) (cell_buffers (stf r)) (as_int c)) as [Y|(Y & _)]; cbn [start cell_buffers]; [rewrite Y, (I3 M); discriminate|rewrite (I3 M) in Y; discriminate].
      + rewrite A1. destruct (mem c (gathered (stf r))) eqn:Mg.
        * unfold buffer_of. rewrite (I3 eq_refl). destruct (has c (stream r)) eqn:Hh; [|apply app_nil_r]. destruct (proj1 Hst eq_refl) as (Y & _). apply Sin in Y. destruct Y. congruence.
        * rewrite (I4 eq_refl). cbn [orb] in M. rewrite M. reflexivity.
    - intros M. apply orb_false_iff in M. destruct M as (M1 & M2). rewrite A1, M2, (I4 M1). reflexivity.
  Qed.

  Lemma get_ok reqs stf r c : inv reqs stf -> r < size -> cell_ok owners c ->
    (forall o, owned size owners c o -> requested reqs r c \/ o = r /\ held data c -> get S (stf r) c = Some (objects data c)) /\
    ((forall o, ~ owned size owners c o) -> requested reqs r c -> get S (stf r) c = Some []) /\
    (~ requested reqs r c -> ~ (owned size owners c r /\ held data c) -> get S (stf r) c = None).
  Proof.
    intros I L C. destruct (I r c L C) as (I1 & I2 & I3 & I4). unfold get. split; [|split].
    - intros o O H. assert (M : mem c (gathered (stf r)) = true) by (apply I1; eauto). rewrite M, (I3 M). cbn [obind]. apply (unpack_packed S ok HS); [apply objects_ok|]. apply bytes_small. pose proof (P_small c) as Q. unfold P in Q. rewrite (packed_length S ok HS) in Q by apply objects_ok. exact Q.
    - intros N Rq. destruct (mem c (gathered (stf r))) eqn:M; [destruct (proj1 I1 eq_refl) as (o & O & _); exfalso; apply (N o O)|]. rewrite (proj2 I2); [reflexivity|]. split; [exact Rq|]. intros (o & O). apply (N o O).
    - intros N1 N2. destruct (mem c (gathered (stf r))) eqn:M; [destruct (proj1 I1 eq_refl) as (o & O & [X|(-> & X)]); exfalso; auto|]. destruct (mem c (no_owner (stf r))) eqn:M'; [destruct (proj1 I2 eq_refl); tauto|reflexivity].
  Qed.
End Mhc.
