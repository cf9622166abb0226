(** Reading back a cell representation. *)
From Coq Require Import List Arith ZArith Bool Lia Sorting.Sorted.
Import ListNotations.
From Verif Require Import Base Kernel Serial_Model MHC_Spec Serial_Proofs CellRep_Model CellRep_Spec.
Local Open Scope nat_scope.

(** ** Maps *)
Lemma map_get_in {A} (m : zmap A) k v : map_get m k = Some v -> In (k, v) m.
Proof. induction m as [|(j, w) t IH]; cbn [map_get]; [discriminate|]. destruct (Z.eqb_spec k j) as [->|]; intros E; [injection E as ->; left; reflexivity|right; auto]. Qed.
Lemma map_get_none {A} (m : zmap A) k : map_get m k = None <-> ~ In k (map fst m).
Proof.
  induction m as [|(j, w) t IH]; cbn [map_get map fst In]; [split; auto|]. destruct (Z.eqb_spec k j) as [->|N]; split; intros H.
  - discriminate.
  - exfalso. apply H. left. reflexivity.
  - intros [E|I]; [congruence|]. apply IH in H. auto.
  - apply IH. auto.
Qed.
Lemma in_map_get {A} (m : zmap A) k v : NoDup (map fst m) -> In (k, v) m -> map_get m k = Some v.
Proof.
  induction m as [|(j, w) t IH]; intros N I; [destruct I|]. cbn [map fst] in N. inversion N as [|? ? N1 N2]; subst. cbn [map_get]. destruct I as [E|I].
  - injection E as -> ->. rewrite Z.eqb_refl. reflexivity.
  - destruct (Z.eqb_spec k j) as [->|]; [|auto]. exfalso. apply N1. apply (in_map fst) in I. exact I.
Qed.
Lemma sorted_nodup (l : list Z) : StronglySorted Z.lt l -> NoDup l.
Proof.
  induction 1 as [|x l S IH F]; constructor; auto. intros I. rewrite Forall_forall in F. specialize (F x I). lia.
Qed.
Lemma map_set_snoc {A} (m : zmap A) k v : Forall (fun j => (j < k)%Z) (map fst m) -> map_set m k v = m ++ [(k, v)].
Proof.
  induction m as [|(j, w) t IH]; intros F; [reflexivity|]. cbn [map fst] in F. inversion F as [|? ? L F']; subst. cbn [map_set app]. destruct (Z.ltb_spec k j); [lia|]. destruct (Z.eqb_spec k j); [lia|]. rewrite IH by exact F'. reflexivity.
Qed.
Lemma map_get_set {A} (m : zmap A) k v j : map_get (map_set m k v) j = if (j =? k)%Z then Some v else map_get m j.
Proof.
  induction m as [|(i, w) t IH]; cbn [map_set map_get]; [reflexivity|]. destruct (Z.ltb_spec k i); cbn [map_get].
  - destruct (Z.eqb_spec j k); reflexivity.
  - destruct (Z.eqb_spec k i) as [->|N]; cbn [map_get].
    + destruct (Z.eqb_spec j i); reflexivity.
    + rewrite IH. destruct (Z.eqb_spec j i) as [->|]; [|reflexivity]. destruct (Z.eqb_spec i k); [congruence|reflexivity].
Qed.
Lemma map_set_keys {A} (m : zmap A) k v j : In j (map fst (map_set m k v)) <-> j = k \/ In j (map fst m).
Proof.
  induction m as [|(i, w) t IH]; cbn [map_set map fst In]; [intuition|]. destruct (Z.ltb_spec k i); cbn [map fst In]; [intuition|]. destruct (Z.eqb_spec k i) as [->|N]; cbn [map fst In]; [intuition|]. rewrite IH. intuition.
Qed.
Lemma map_set_sorted {A} (m : zmap A) k v : is_map m -> is_map (map_set m k v).
Proof.
  unfold is_map. induction m as [|(i, w) t IH]; intros S; cbn [map_set map fst]; [repeat constructor|]. cbn [map fst] in S. inversion S as [|? ? S' F]; subst.
  destruct (Z.ltb_spec k i); cbn [map fst].
  - constructor; [exact S|]. constructor; [exact H|]. rewrite Forall_forall in *. intros x I. specialize (F x I). lia.
  - destruct (Z.eqb_spec k i) as [->|N]; cbn [map fst]; [constructor; auto|]. constructor; [auto|]. rewrite Forall_forall in *. intros x I. apply map_set_keys in I. destruct I as [->|I]; [lia|auto].
Qed.
Lemma sorted_app_inv (a b : list Z) : StronglySorted Z.lt (a ++ b) -> StronglySorted Z.lt a /\ StronglySorted Z.lt b /\ (forall x y, In x a -> In y b -> (x < y)%Z).
Proof.
  induction a as [|x a IH]; cbn [app]; intros S; [repeat split; [constructor|exact S|intros x y []]|]. inversion S as [|? ? S' F]; subst. destruct (IH S') as (A & B & C). rewrite Forall_app in F. destruct F as (F1 & F2).
  repeat split; [constructor; auto|exact B|]. intros u v [->|I] J; [|auto]. rewrite Forall_forall in F2. auto.
Qed.

(** ** Numbers *)
Lemma read_ints_enc n l : forall rest, read_ints n (length l) (enc_ints n l ++ rest) = Some (map (fun x => un_le (le n x)) l, rest).
Proof.
  unfold enc_ints. induction l as [|x l IH]; intros rest; [reflexivity|]. cbn [map concat length read_ints]. rewrite <- app_assoc. rewrite take_app by (rewrite le_length; reflexivity). cbn [obind fst snd]. rewrite IH. reflexivity.
Qed.
Lemma enc_ints_length n l : length (enc_ints n l) = length l * n.
Proof. unfold enc_ints. induction l as [|x l IH]; [reflexivity|]. cbn [map concat length]. rewrite app_length, IH, le_length. reflexivity. Qed.
Lemma next_n_app n a b : n = length a -> next_n n (a ++ b) = Some (a, b).
Proof. intros ->. unfold next_n. rewrite app_length. destruct (Nat.leb_spec (length a) (length a + length b)); [|lia]. rewrite firstn_app, Nat.sub_diag, firstn_all, skipn_app, skipn_all, Nat.sub_diag. cbn. rewrite app_nil_r. reflexivity. Qed.
Lemma as_size_nat n : as_size (Z.of_nat n) = Some n.
Proof. unfold as_size. destruct (Z.leb_spec 0 (Z.of_nat n)); [rewrite Nat2Z.id; reflexivity|lia]. Qed.

(** ** Points and vertices *)
Definition point := (Z * (list Z * list Z))%type.
Definition pcone (e : point) : Z * list Z := (fst e, fst (snd e)).
Definition pornt (e : point) : Z * list Z := (fst e, snd (snd e)).
Definition point_ints (e : point) : list Z := fst e :: Z.of_nat (length (fst (snd e))) :: fst (snd e) ++ snd (snd e).
Lemma zip_points (c o : zmap (list Z)) : map fst o = map fst c -> (forall p x y, In (p, x) c -> In (p, y) o -> length y = length x) -> NoDup (map fst c) ->
  exists pts : list point, map pcone pts = c /\ map pornt pts = o /\ Forall (fun e => length (snd (snd e)) = length (fst (snd e))) pts.
Proof.
  revert o. induction c as [|(p, x) c IH]; intros o K L N; destruct o as [|(q, y) o]; try discriminate; [exists []; repeat split; constructor|]. cbn [map fst] in *. injection K as -> K. inversion N as [|? ? N1 N2]; subst.
  destruct (IH o K) as (pts & A & B & F); [intros; eapply L; right; eassumption|exact N2|]. exists ((p, (x, y)) :: pts). cbn [map]. rewrite A, B. repeat split. constructor; [|exact F]. cbn [fst snd]. apply (L p); left; reflexivity.
Qed.
Lemma rep_ints_points pts v : NoDup (map fst pts) -> rep_ints (mk_rep (map pcone pts) (map pornt pts) v) =
  Some (Z.of_nat (length pts) :: concat (map point_ints pts) ++ Z.of_nat (length v) :: flat_map (fun e => [fst e; Z.of_nat (length (snd e))]) v).
Proof.
  intros N. unfold rep_ints. cbn [cones orientations vertices]. rewrite map_length.
  enough (E : mapM (fun e => o <- map_get (map pornt pts) (fst e);; Some (fst e :: Z.of_nat (length (snd e)) :: snd e ++ o)) (map pcone pts) = Some (map point_ints pts)) by (rewrite E; reflexivity).
  assert (K : forall e, In e pts -> map_get (map pornt pts) (fst e) = Some (snd (snd e))). { intros e I. apply in_map_get; [rewrite map_map; exact N|]. apply in_map_iff. exists e. split; [reflexivity|exact I]. }
  revert K. generalize (map pornt pts). intros m K. clear N. induction pts as [|e t IH]; [reflexivity|]. cbn [map mapM pcone fst snd]. rewrite K by (left; reflexivity). cbn [obind]. rewrite IH by (intros; apply K; right; assumption). reflexivity.
Qed.
Lemma read_points pts : Forall (fun e => length (snd (snd e)) = length (fst (snd e))) pts -> forall c o v rest,
  StronglySorted Z.lt (map fst c ++ map fst pts) -> StronglySorted Z.lt (map fst o ++ map fst pts) ->
  times (length pts) read_point (mk_rep c o v, concat (map point_ints pts) ++ rest) = Some (mk_rep (c ++ map pcone pts) (o ++ map pornt pts) v, rest).
Proof.
  induction 1 as [|(p, (x, y)) pts L F IH]; intros c o v rest Sc So; [cbn; rewrite !app_nil_r; reflexivity|]. cbn [length times map concat]. cbn [fst snd] in L. unfold point_ints at 1. cbn [fst snd]. rewrite <- !app_assoc. cbn [app]. unfold read_point at 1. cbn [fst snd next obind cones orientations vertices].
  rewrite as_size_nat. cbn [obind]. rewrite <- app_assoc. rewrite next_n_app by reflexivity. cbn [obind fst snd]. rewrite next_n_app by lia. cbn [obind fst snd]. cbn [map fst] in Sc, So.
  assert (Lc : Forall (fun j => (j < p)%Z) (map fst c)). { apply sorted_app_inv in Sc. destruct Sc as (_ & _ & Sc). apply Forall_forall. intros j I. apply Sc; [exact I|left; reflexivity]. }
  assert (Lo : Forall (fun j => (j < p)%Z) (map fst o)). { apply sorted_app_inv in So. destruct So as (_ & _ & So). apply Forall_forall. intros j I. apply So; [exact I|left; reflexivity]. }
  rewrite !map_set_snoc by assumption. rewrite IH; [rewrite <- !app_assoc; reflexivity|rewrite map_app, <- app_assoc; exact Sc|rewrite map_app, <- app_assoc; exact So].
Qed.
Lemma read_vertices vs : forall c o v rest srest, StronglySorted Z.lt (map fst v ++ map fst vs) ->
  times (length vs) read_vertex (mk_rep c o v, (flat_map (fun e => [fst e; Z.of_nat (length (snd e))]) vs ++ rest, flat_map snd vs ++ srest)) = Some (mk_rep c o (v ++ vs), (rest, srest)).
Proof.
  induction vs as [|(p, x) vs IH]; intros c o v rest srest S; [cbn; rewrite app_nil_r; reflexivity|]. cbn [length times flat_map fst snd app]. unfold read_vertex at 1. cbn [fst snd next obind cones orientations vertices]. rewrite as_size_nat. cbn [obind]. rewrite <- app_assoc. rewrite next_n_app by reflexivity. cbn [obind fst snd]. cbn [map fst] in S.
  assert (Lc : forall j, In j (map fst v) -> (j < p)%Z). { apply sorted_app_inv in S. destruct S as (_ & _ & S). intros j I. apply S; [exact I|left; reflexivity]. }
  assert (E : map_get v p = None). { apply map_get_none. intros I. specialize (Lc p I). lia. }
  rewrite E. cbn [app]. rewrite map_set_snoc by (apply Forall_forall; exact Lc). rewrite IH; [rewrite <- app_assoc; reflexivity|rewrite map_app, <- app_assoc; exact S].
Qed.

(** ** The round trip *)
Lemma concat_length_sum {A} (l : list (list A)) : length (concat l) = list_sum (map (@length A) l).
Proof. induction l as [|x l IH]; [reflexivity|]. cbn [concat map]. rewrite app_length, IH. unfold list_sum. cbn [fold_right]. reflexivity. Qed.
Lemma list_sum_cons x l : list_sum (x :: l) = x + list_sum l.
Proof. reflexivity. Qed.
Lemma flat2_length {A} (v : zmap (list A)) : length (flat_map (fun e => [fst e; Z.of_nat (length (snd e))]) v) = 2 * length v.
Proof. induction v as [|e v IH]; [reflexivity|]. cbn [flat_map app length]. rewrite IH. lia. Qed.
Lemma flat_snd_length {A} (v : zmap (list A)) : length (flat_map snd v) = list_sum (map (fun e => length (snd e)) v).
Proof. induction v as [|e v IH]; [reflexivity|]. cbn [flat_map map]. rewrite app_length, IH, list_sum_cons. reflexivity. Qed.
Lemma int_ok_nat ni n : width ni -> (Z.of_nat n < 2 ^ 31)%Z -> int_ok ni (Z.of_nat n).
Proof. intros W L. unfold int_ok. destruct W as [->| ->]. - change (256 ^ Z.of_nat 4 / 2)%Z with (2 ^ 31)%Z. lia. - change (256 ^ Z.of_nat 8 / 2)%Z with (2 ^ 63)%Z. assert (2 ^ 31 < 2 ^ 63)%Z by reflexivity. lia. Qed.

Lemma round_trip ni r : width ni -> rep_ok ni r -> exists b, rep_serialise ni r = Some b /\ rep_deserialise ni (mk_rep [] [] []) b = Some r.
Proof.
  intros W ((Mc & Mv & K & L) & (Vc & Vo & Vv) & Fit). destruct r as [c o v]. cbn [cones orientations vertices] in *. unfold is_map in *.
  assert (Nc : NoDup (map fst c)) by (apply sorted_nodup; exact Mc). assert (No : NoDup (map fst o)) by (rewrite K; exact Nc).
  destruct (zip_points c o K) as (pts & <- & <- & F); [intros p x y I J; apply (L p); apply in_map_get; assumption|exact Nc|]. rewrite map_map in Mc, Nc. cbn [pcone fst] in Mc, Nc. change (fun x : point => fst x) with (@fst Z (list Z * list Z)) in *.
  set (ints := Z.of_nat (length pts) :: concat (map point_ints pts) ++ Z.of_nat (length v) :: flat_map (fun e => [fst e; Z.of_nat (length (snd e))]) v).
  assert (Ei : rep_ints (mk_rep (map pcone pts) (map pornt pts) v) = Some ints) by (apply rep_ints_points; exact Nc).
  unfold rep_serialise. rewrite Ei. cbn [obind vertices]. eexists. split; [reflexivity|]. set (scalars := flat_map snd v).
  assert (Lp : length (concat (map point_ints pts)) = list_sum (map (fun e => 2 + 2 * length (snd e)) (map pcone pts))).
  { clear -F. induction F as [|e pts E F IH]; [reflexivity|]. cbn [map concat]. rewrite app_length, IH, list_sum_cons. unfold point_ints at 1. cbn [length pcone snd]. rewrite app_length. lia. }
  assert (Li : length ints = 2 + list_sum (map (fun e => 2 + 2 * length (snd e)) (map pcone pts)) + 2 * length v). { unfold ints. cbn [length]. rewrite app_length, Lp. cbn [length]. rewrite flat2_length. lia. }
  assert (Ls : length scalars = list_sum (map (fun e => length (snd e)) v)) by apply flat_snd_length.
  unfold rep_fits, rep_numbers in Fit. cbn [cones vertices] in Fit. assert (B : (Z.of_nat (length ints + length scalars) < 2 ^ 31)%Z) by (rewrite Li, Ls; exact Fit).
  assert (Lv : (Z.of_nat (length v) < 2 ^ 31)%Z) by lia.
  assert (Ok : Forall (int_ok ni) ints).
  { unfold ints. constructor. { apply int_ok_nat; [exact W|]. rewrite <- Lp in Fit. assert (length pts <= length (concat (map point_ints pts))). { clear. induction pts as [|e pts IH]; [cbn; lia|]. cbn [map concat length]. rewrite app_length. unfold point_ints at 1. cbn [length]. lia. } lia. }
    apply Forall_app. split.
    - apply Forall_forall. intros x I. apply in_concat in I. destruct I as (l & Il & Ix). apply in_map_iff in Il. destruct Il as (e & <- & Ie). pose proof (Vc (fst e) (fst (snd e)) (in_map pcone pts e Ie)) as (A1 & A2). pose proof (Vo (fst e) (snd (snd e)) (in_map pornt pts e Ie)) as A3. rewrite Forall_forall in A2, A3. unfold point_ints in Ix. destruct Ix as [<-|[<-|Ix]]; [exact A1| |apply in_app_or in Ix; destruct Ix; auto].
      apply int_ok_nat; [exact W|]. assert (length (fst (snd e)) <= length (concat (map point_ints pts))). { apply in_split in Ie. destruct Ie as (a & b & ->). rewrite map_app, concat_app, app_length. cbn [map concat]. rewrite app_length. unfold point_ints at 2. cbn [length]. rewrite app_length. lia. } lia.
    - constructor; [apply int_ok_nat; assumption|]. apply Forall_forall. intros x I. apply in_flat_map in I. destruct I as ((p, y) & Ie & Ix). cbn [fst snd In] in Ix. destruct (Vv p y Ie) as (A1 & _). destruct Ix as [<-|[<-|[]]]; [exact A1|]. apply int_ok_nat; [exact W|]. assert (length y <= length scalars). { unfold scalars. apply in_split in Ie. destruct Ie as (a & b & ->). rewrite flat_map_app, app_length. cbn [flat_map]. rewrite app_length. cbn [snd]. lia. } lia. }
  assert (Os : Forall bits_ok scalars). { apply Forall_forall. intros x I. apply in_flat_map in I. destruct I as ((p, y) & Ie & Ix). destruct (Vv p y Ie) as (_ & A). rewrite Forall_forall in A. auto. }
  assert (Wn : 1 <= ni <= 8) by (destruct W; lia).
  unfold rep_deserialise. rewrite take_app by (rewrite le_length; reflexivity). cbn [obind fst snd]. rewrite take_app by (rewrite le_length; reflexivity). cbn [obind fst snd].
  assert (P64 : (2 ^ 31 * 8 < 2 ^ 64)%Z) by reflexivity. rewrite !un_le8 by nia. rewrite app_length, !enc_ints_length. destruct (Z.leb_spec (Z.of_nat (length ints * ni) + Z.of_nat (length scalars * 8)) (Z.of_nat (length ints * ni + length scalars * 8))); [|lia]. cbn [assert obind].
  replace (Z.of_nat (length ints * ni) / Z.of_nat ni)%Z with (Z.of_nat (length ints)) by (rewrite Nat2Z.inj_mul, Z.div_mul by lia; reflexivity). rewrite Nat2Z.id, read_ints_enc. cbn [obind fst snd].
  replace (Z.of_nat (length scalars * 8) / 8)%Z with (Z.of_nat (length scalars)) by (rewrite Nat2Z.inj_mul; change (Z.of_nat 8) with 8%Z; rewrite Z.div_mul by lia; reflexivity). rewrite Nat2Z.id. rewrite <- (app_nil_r (enc_ints 8 scalars)), read_ints_enc. cbn [obind fst snd].
  replace (map (signed ni) (map (fun x => un_le (le ni x)) ints)) with ints.
  2:{ rewrite map_map. rewrite <- (map_id ints) at 1. apply map_ext_in. intros x I. symmetry. apply signed_le; [lia|]. rewrite Forall_forall in Ok. exact (Ok x I). }
  replace (map (fun x => un_le (le 8 x)) scalars) with scalars.
  2:{ rewrite <- (map_id scalars) at 1. apply map_ext_in. intros x I. symmetry. apply un_le8. rewrite Forall_forall in Os. exact (Os x I). }
  unfold ints. cbn [next obind fst snd]. rewrite Nat2Z.id. rewrite read_points; [|exact F|exact Mc|exact Mc]. cbn [obind fst snd app next]. rewrite Nat2Z.id. rewrite <- (app_nil_r (flat_map (fun e => [fst e; Z.of_nat (length (snd e))]) v)), <- (app_nil_r scalars). unfold scalars. rewrite read_vertices by exact Mv. cbn [obind fst snd assert app]. reflexivity.
Qed.

Lemma cell_serial_ok ni : width ni -> serial_ok (cell_serial ni) (cell_ok ni).
Proof.
  intros W [l g o t b] (Hl & Hg & Ho & Ht). cbn [local_id global_id owning_rank cell_type] in *. assert (Wn : 1 <= ni) by (destruct W; lia). eexists. split; [reflexivity|]. split; [cbn [cell_serial num_bytes representation local_id global_id owning_rank cell_type]; rewrite !app_length, !le_length; lia|].
  cbn [deser cell_serial local_id global_id owning_rank cell_type representation]. rewrite take_app by (rewrite le_length; reflexivity). cbn [obind fst snd]. rewrite take_app by (rewrite le_length; reflexivity). cbn [obind fst snd]. rewrite take_app by (rewrite le_length; reflexivity). cbn [obind fst snd]. rewrite take_app by (rewrite le_length; reflexivity). cbn [obind fst snd].
  rewrite !signed_le by (try lia; assumption). reflexivity.
Qed.
