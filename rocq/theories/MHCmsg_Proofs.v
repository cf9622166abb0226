(** Exchanges with named sources. *)
From Coq Require Import List Arith ZArith Bool Lia.
Import ListNotations.
From Verif Require Import Base Kernel Serial_Model MHC_Model MHC_Spec Edges_Spec Serial_Proofs.
Local Open Scope nat_scope.

Lemma mapM_seq {A B} (f : nat * A -> option B) (l : list A) (g : nat -> B) : (forall i a, nth_error l i = Some a -> f (i, a) = Some (g i)) ->
  mapM f (combine (seq 0 (length l)) l) = Some (map g (seq 0 (length l))).
Proof.
  intros H. assert (K : forall l k, (forall i a, nth_error l i = Some a -> f (k + i, a) = Some (g (k + i))) -> mapM f (combine (seq k (length l)) l) = Some (map g (seq k (length l)))).
  { clear. induction l as [|a l IH]; intros k H; [reflexivity|]. cbn [length seq combine mapM map]. pose proof (H 0 a eq_refl) as E. rewrite Nat.add_0_r in E. rewrite E. cbn [obind]. rewrite (IH (S k)); [reflexivity|]. intros i b Hi. replace (S k + i) with (k + S i) by lia. apply (H (S i)). exact Hi. }
  apply (K l 0 H).
Qed.
Lemma mapM_eq {A B} (f : A -> option B) (g : A -> B) l : (forall a, In a l -> f a = Some (g a)) -> mapM f l = Some (map g l).
Proof. induction l as [|a l IH]; intros H; [reflexivity|]. cbn. rewrite (H a) by (left; auto). cbn. rewrite IH by (intros; apply H; right; auto). reflexivity. Qed.
Lemma nth_map_seq {A} (g : nat -> A) n i : i < n -> nth_error (map g (seq 0 n)) i = Some (g i).
Proof. intros L. rewrite nth_error_map. rewrite (nth_error_nth' _ 0) by (rewrite seq_length; exact L). rewrite seq_nth by exact L. reflexivity. Qed.

(** ** Receiving *)
Lemma receive_fold {M} (m : nat -> M) : forall srcs qs out, NoDup srcs -> (forall s, In s srcs -> nth_error qs s = Some [m s]) ->
  exists qs', foldM receive (qs, out) srcs = Some (qs', out ++ map m srcs) /\ length qs' = length qs /\
    (forall s, In s srcs -> nth_error qs' s = Some []) /\ (forall s, ~ In s srcs -> nth_error qs' s = nth_error qs s).
Proof.
  induction srcs as [|s srcs IH]; intros qs out N H; [exists qs; cbn; rewrite app_nil_r; split; [reflexivity|]; split; [reflexivity|]; split; [intros ? []|reflexivity]|].
  inversion N as [|? ? N1 N2]; subst. cbn [foldM]. unfold receive at 1. cbn [fst snd]. unfold rd. rewrite (H s (or_introl eq_refl)). cbn [obind].
  assert (Ls : s < length qs) by (apply nth_error_Some; rewrite (H s (or_introl eq_refl)); discriminate). destruct (upd_some qs s [] Ls) as (qs1 & E1). rewrite E1. cbn [obind].
  destruct (IH qs1 (out ++ [m s]) N2) as (qs' & F & L' & A1 & A2).
  { intros s' I'. rewrite (upd_nth_neq _ _ _ _ _ E1) by (intros <-; contradiction). apply H. right. exact I'. }
  exists qs'. cbn [fst snd]. rewrite F. split; [cbn [map]; rewrite <- app_assoc; reflexivity|]. split; [rewrite L'; eapply upd_length; eauto|]. split.
  - intros s' [<-|I']; [rewrite (A2 s N1); eapply upd_nth_eq; eauto|apply A1, I'].
  - intros s' Ns. rewrite A2 by (intros X; apply Ns; right; exact X). apply (upd_nth_neq _ _ _ _ _ E1). intros <-. apply Ns. left. reflexivity.
Qed.
Lemma receive_all_ok {M} (sends : list (list (nat * M))) r srcs (m : nat -> M) : NoDup srcs -> (forall s, In s srcs -> s < length sends) ->
  (forall s l, nth_error sends s = Some l -> map snd (filter (fun e => fst e =? r) l) = if in_dec Nat.eq_dec s srcs then [m s] else []) ->
  receive_all sends r srcs = Some (map m srcs).
Proof.
  intros N L H. unfold receive_all. assert (Q : forall s, s < length sends -> nth_error (queues sends r) s = Some (if in_dec Nat.eq_dec s srcs then [m s] else [])).
  { intros s Ls. unfold queues. rewrite nth_error_map. destruct (nth_error sends s) as [l|] eqn:E; [cbn; rewrite (H s l E); reflexivity|]. apply nth_error_None in E. lia. }
  destruct (receive_fold m srcs (queues sends r) [] N) as (qs' & F & L' & A1 & A2). { intros s I. rewrite Q by (apply L, I). destruct (in_dec Nat.eq_dec s srcs); [reflexivity|contradiction]. }
  rewrite F. cbn [obind fst snd app]. replace (forallb _ qs') with true; [reflexivity|]. symmetry. apply forallb_forall. intros q Iq. apply In_nth_error in Iq. destruct Iq as (s & E). destruct (in_dec Nat.eq_dec s srcs) as [I|Ni]; [rewrite (A1 s I) in E; inversion E; reflexivity|].
  rewrite (A2 s Ni) in E. assert (Ls : s < length sends). { assert (s < length (queues sends r)) by (apply nth_error_Some; congruence). unfold queues in *. rewrite map_length in *. exact H0. } rewrite Q in E by exact Ls. destruct (in_dec Nat.eq_dec s srcs); [contradiction|]. inversion E. reflexivity.
Qed.

(** ** Tables: the non-empty entries by rank *)
Definition row {A} (size : nat) (f : nat -> list A) : list (nat * list A) := flat_map (fun r => match f r with [] => [] | l => [(r, l)] end) (seq 0 size).
Lemma flat_map_single {A B} (g : A -> list B) : forall l, (forall a, In a l -> g a = []) -> flat_map g l = [].
Proof. induction l as [|a l IH]; intros H; [reflexivity|]. cbn. rewrite (H a) by (left; auto). apply IH. intros; apply H; right; auto. Qed.
Lemma flat_map_seq_one {B} (g : nat -> list B) r size : r < size -> (forall i, i <> r -> g i = []) -> flat_map g (seq 0 size) = g r.
Proof.
  intros L H. assert (E : seq 0 size = seq 0 r ++ r :: seq (S r) (size - S r)). { replace size with (r + S (size - S r)) at 1 by lia. rewrite seq_app. reflexivity. }
  rewrite E, flat_map_app. cbn [flat_map]. rewrite (flat_map_single g (seq 0 r)) by (intros a I; apply in_seq in I; apply H; lia). rewrite (flat_map_single g (seq (S r) _)) by (intros a I; apply in_seq in I; apply H; lia). cbn. apply app_nil_r.
Qed.
Lemma filter_flat_map {A B} (p : B -> bool) (g : A -> list B) : forall l, filter p (flat_map g l) = flat_map (fun a => filter p (g a)) l.
Proof. induction l as [|a l IH]; [reflexivity|]. cbn. rewrite filter_app, IH. reflexivity. Qed.
Lemma row_filter {A} size (f : nat -> list A) r : r < size -> filter (fun e => fst e =? r) (row size f) = match f r with [] => [] | l => [(r, l)] end.
Proof.
  intros L. unfold row. rewrite filter_flat_map. rewrite (flat_map_seq_one _ r size L).
  - destruct (f r); [reflexivity|]. cbn [filter fst]. rewrite Nat.eqb_refl. reflexivity.
  - intros i N. destruct (f i); [reflexivity|]. cbn [filter fst]. destruct (Nat.eqb_spec i r); [contradiction|reflexivity].
Qed.
Lemma row_in {A} size (f : nat -> list A) r l : In (r, l) (row size f) <-> r < size /\ l = f r /\ l <> [].
Proof.
  unfold row. rewrite in_flat_map. split.
  - intros (i & I & J). apply in_seq in I. destruct (f i) eqn:E; [contradiction|]. destruct J as [J|[]]. inversion J; subst. split; [lia|]. split; [auto|discriminate].
  - intros (L & -> & N). exists r. split; [apply in_seq; lia|]. destruct (f r); [contradiction|left; reflexivity].
Qed.
Lemma row_map {A B} size (f : nat -> list A) (h : list A -> list B) : h [] = [] -> (forall l, l <> [] -> h l <> []) ->
  map (fun e => (fst e, h (snd e))) (row size f) = row size (fun r => h (f r)).
Proof.
  intros H0 H1. unfold row. induction (seq 0 size) as [|r l IH]; [reflexivity|]. cbn [flat_map]. rewrite map_app, IH. f_equal. destruct (f r) as [|a t] eqn:E; [rewrite H0; reflexivity|]. cbn [map fst snd]. specialize (H1 (a :: t) ltac:(discriminate)). destruct (h (a :: t)); [contradiction|reflexivity].
Qed.
Definition senders {A} (size : nat) (h : nat -> list A) : list nat := filter (fun s => match h s with [] => false | _ => true end) (seq 0 size).
Lemma row_senders {A} size (h : nat -> list A) : row size h = map (fun s => (s, h s)) (senders size h).
Proof. unfold row, senders. induction (seq 0 size) as [|s l IH]; [reflexivity|]. cbn [flat_map filter]. destruct (h s) as [|a t] eqn:E; [exact IH|]. cbn [map app]. rewrite E, IH. reflexivity. Qed.
Lemma senders_in {A} size (h : nat -> list A) s : In s (senders size h) <-> s < size /\ h s <> [].
Proof. unfold senders. rewrite filter_In, in_seq. destruct (h s); split; intros (X & Y); split; try lia; try discriminate; try congruence; auto. Qed.
Lemma senders_nodup {A} size (h : nat -> list A) : NoDup (senders size h).
Proof. apply NoDup_filter, seq_NoDup. Qed.

(** ** Maps keyed by rank *)
Lemma filter_enum {A} (h : nat -> A) s : forall g, NoDup g -> filter (fun e => fst e =? s) (map (fun s => (s, h s)) g) = if in_dec Nat.eq_dec s g then [(s, h s)] else [].
Proof.
  induction g as [|a g IH]; intros N; [reflexivity|]. inversion N as [|? ? N1 N2]; subst. cbn [map filter fst]. rewrite (IH N2). destruct (Nat.eqb_spec a s) as [->|X].
  - destruct (in_dec Nat.eq_dec s g); [contradiction|]. destruct (in_dec Nat.eq_dec s (s :: g)) as [|Y]; [reflexivity|]. exfalso. apply Y. left. reflexivity.
  - destruct (in_dec Nat.eq_dec s g) as [I|Ni]; destruct (in_dec Nat.eq_dec s (a :: g)) as [J|Nj]; try reflexivity; exfalso; [apply Nj; right; exact I|]. destruct J; contradiction.
Qed.
Lemma rank_map_enum {A} size (h : nat -> A) g : NoDup g -> (forall s, In s g -> s < size) ->
  rank_map size (map (fun s => (s, h s)) g) = Some (map (fun s => (s, h s)) (filter (fun s => if in_dec Nat.eq_dec s g then true else false) (seq 0 size))).
Proof.
  intros N L. unfold rank_map. replace (forallb _ (seq 0 size)) with true. 2:{ symmetry. apply forallb_forall. intros s _. rewrite filter_enum by exact N. destruct (in_dec Nat.eq_dec s g); reflexivity. }
  cbn [assert obind]. f_equal. induction (seq 0 size) as [|s l IH]; [reflexivity|]. cbn [flat_map filter]. rewrite filter_enum by exact N. destruct (in_dec Nat.eq_dec s g); [cbn [map app]; rewrite IH; reflexivity|exact IH].
Qed.
Lemma rank_map_senders {A} size (h : nat -> list A) g : NoDup g -> (forall s, In s g <-> s < size /\ h s <> []) -> rank_map size (map (fun s => (s, h s)) g) = Some (row size h).
Proof.
  intros N L. rewrite rank_map_enum; [|exact N|intros s I; apply L, I]. rewrite row_senders. unfold senders. f_equal. f_equal. apply filter_ext_in. intros s Is. apply in_seq in Is. destruct (in_dec Nat.eq_dec s g) as [I|Ni].
  - apply L in I. destruct (h s); [tauto|reflexivity].
  - destruct (h s) eqn:E; [reflexivity|]. exfalso. apply Ni, L. split; [lia|congruence].
Qed.
(** Pushing pieces one after the other. *)
Lemma filter_push {A} (l : list (nat * list A)) r b s : filter (fun e => fst e =? s) (push l r b) =
  if s =? r then match filter (fun e => fst e =? s) l with [] => [(r, b)] | (a, c) :: t => (a, c ++ b) :: t end else filter (fun e => fst e =? s) l.
Proof.
  induction l as [|(a, c) l IH]; [cbn [push filter fst]; destruct (Nat.eqb_spec r s); destruct (Nat.eqb_spec s r); subst; try reflexivity; contradiction|].
  cbn [push]. destruct (Nat.eqb_spec a r) as [->|N].
  - cbn [filter fst]. destruct (Nat.eqb_spec r s) as [->|X]; [rewrite Nat.eqb_refl; reflexivity|]. destruct (Nat.eqb_spec s r); [subst; contradiction|reflexivity].
  - cbn [filter fst]. rewrite IH. destruct (Nat.eqb_spec a s) as [->|X]; [|reflexivity]. destruct (Nat.eqb_spec s r); [contradiction|reflexivity].
Qed.
Definition pushes {A} (items : list (nat * list A)) : list (nat * list A) := fold_left (fun acc i => push acc (fst i) (snd i)) items [].
Definition pieces {A} (items : list (nat * list A)) (r : nat) : list A := flat_map (fun i => if fst i =? r then snd i else []) items.
Lemma pushes_filter {A} (items : list (nat * list A)) r : (forall i, In i items -> snd i <> []) ->
  filter (fun e => fst e =? r) (pushes items) = match pieces items r with [] => [] | l => [(r, l)] end.
Proof.
  induction items as [|i items IH] using rev_ind; intros H; [reflexivity|]. unfold pushes, pieces in *. rewrite fold_left_app, flat_map_app. cbn [fold_left flat_map]. rewrite app_nil_r, filter_push, IH by (intros j I; apply H, in_or_app; auto). clear IH.
  pose proof (H i ltac:(apply in_or_app; right; left; auto)) as Hi. destruct i as (a, b). cbn [fst snd] in *. rewrite (Nat.eqb_sym r a). destruct (Nat.eqb_spec a r) as [->|N]; [|rewrite app_nil_r; reflexivity].
  destruct (flat_map _ items) as [|x t]; [cbn [app]; destruct b; [contradiction|reflexivity]|]. cbn [app]. reflexivity.
Qed.
Lemma rank_map_pushes {A} size (items : list (nat * list A)) : (forall i, In i items -> snd i <> []) -> rank_map size (pushes items) = Some (row size (pieces items)).
Proof.
  intros H. unfold rank_map. replace (forallb _ (seq 0 size)) with true. 2:{ symmetry. apply forallb_forall. intros s _. rewrite pushes_filter by exact H. destruct (pieces items s); reflexivity. }
  cbn [assert obind]. f_equal. unfold row. apply flat_map_ext. intros s. apply pushes_filter, H.
Qed.

(** ** Exchange after discovery: [f s r] is what [s] sends to [r]. *)
Definition table {A} (size : nat) (f : nat -> nat -> list A) : list (list (nat * list A)) := map (fun s => row size (f s)) (seq 0 size).
Lemma fill_exact (b : list byte) : (Z.of_nat (length b) <= int_max)%Z -> fill (Z.of_nat (length b), b) = Some b.
Proof.
  intros L. unfold fill. cbn [fst snd]. destruct (Z.leb_spec 0 (Z.of_nat (length b))); [|lia]. destruct (Z.leb_spec (Z.of_nat (length b)) int_max); [|lia]. cbn [andb assert obind]. destruct (Z.leb_spec (Z.of_nat (length b)) (Z.of_nat (length b))); [|lia]. cbn [assert obind]. rewrite Nat2Z.id, Nat.sub_diag. cbn. rewrite app_nil_r. reflexivity.
Qed.
Lemma fill_all (h : nat -> list byte) : forall g, (forall s, In s g -> (Z.of_nat (length (h s)) <= int_max)%Z) -> mapM fill (combine (map (fun s => Z.of_nat (length (h s))) g) (map h g)) = Some (map h g).
Proof. induction g as [|s g IH]; intros H; [reflexivity|]. cbn [map combine mapM]. rewrite fill_exact by (apply H; left; auto). cbn [obind]. rewrite IH by (intros; apply H; right; auto). reflexivity. Qed.
Lemma combine_map {A B} (f : nat -> A) (h : nat -> B) : forall g, combine (map f g) (map h g) = map (fun s => (f s, h s)) g.
Proof. induction g as [|s g IH]; [reflexivity|]. cbn. rewrite IH. reflexivity. Qed.
(** The sources are known to both sides: [srcs r] are the ranks [s] that send [h s r] to [r]. *)
Lemma exchange_data_ok size (sends : list (list (nat * list byte))) (recvs : list (list (nat * Z))) (srcs : nat -> list nat) (h : nat -> nat -> list byte) :
  length sends = size -> length recvs = size ->
  (forall r, r < size -> nth_error recvs r = Some (map (fun s => (s, Z.of_nat (length (h s r)))) (srcs r))) ->
  (forall r, r < size -> NoDup (srcs r) /\ forall s, In s (srcs r) -> s < size /\ (Z.of_nat (length (h s r)) <= int_max)%Z) ->
  (forall r s l, r < size -> nth_error sends s = Some l -> map snd (filter (fun e => fst e =? r) l) = if in_dec Nat.eq_dec s (srcs r) then [h s r] else []) ->
  exchange_data sends recvs = Some (map (fun r => map (fun s => (s, h s r)) (srcs r)) (seq 0 size)).
Proof.
  intros L1 L2 R N Q. unfold exchange_data. rewrite <- L2. apply mapM_seq. intros r a E. assert (Lr : r < size) by (rewrite <- L2; apply nth_error_Some; congruence). rewrite (R r Lr) in E. inversion E; subst a. clear E. cbn [fst snd]. destruct (N r Lr) as (Nd & B).
  rewrite !map_map. cbn [fst snd]. rewrite map_id. rewrite (receive_all_ok sends r (srcs r) (fun s => h s r) Nd); [|intros s I; rewrite L1; apply B, I|intros s l E; apply (Q r s l Lr E)]. cbn [obind].
  rewrite (fill_all (fun s => h s r)) by (intros s I; apply B, I). cbn [obind]. rewrite <- (map_id (srcs r)) at 1. rewrite combine_map. reflexivity.
Qed.
Lemma exchange_counts_ok size (sends : list (list (nat * Z))) (sources : list (list nat)) (srcs : nat -> list nat) (m : nat -> nat -> Z) :
  length sends = size -> length sources = size -> (forall r, r < size -> nth_error sources r = Some (srcs r)) ->
  (forall r, r < size -> NoDup (srcs r) /\ forall s, In s (srcs r) -> s < size) ->
  (forall r s l, r < size -> nth_error sends s = Some l -> map snd (filter (fun e => fst e =? r) l) = if in_dec Nat.eq_dec s (srcs r) then [m s r] else []) ->
  exchange_counts sends sources = Some (map (fun r => map (fun s => m s r) (srcs r)) (seq 0 size)).
Proof.
  intros L1 L2 R N Q. unfold exchange_counts. rewrite <- L2. apply mapM_seq. intros r a E. assert (Lr : r < size) by (rewrite <- L2; apply nth_error_Some; congruence). rewrite (R r Lr) in E. inversion E; subst a. clear E. cbn [fst snd]. destruct (N r Lr) as (Nd & B).
  apply receive_all_ok; [exact Nd|intros s I; rewrite L1; apply B, I|intros s l E; apply (Q r s l Lr E)].
Qed.
(** What get_remote_ranks finds for a table. *)
Lemma values_in s x l : In x (values s l) <-> In (s, x) l.
Proof.
  unfold values. rewrite in_map_iff. split; [intros ((d, y) & <- & I)|intros I]; [apply filter_In in I; destruct I as (I & E); apply Nat.eqb_eq in E; cbn in *; subst; exact I|]. exists (s, x). split; [reflexivity|]. apply filter_In. split; [exact I|apply Nat.eqb_refl].
Qed.
Lemma values_enum (g : list (nat * Z)) (v : nat -> Z) : (forall s, values s g = [] \/ values s g = [v s]) -> NoDup (map fst g) /\ g = map (fun s => (s, v s)) (map fst g).
Proof.
  induction g as [|(a, x) g IH]; intros H; [split; [constructor|reflexivity]|].
  assert (Hg : forall s, values s g = [] \/ values s g = [v s]). { intros s. specialize (H s). unfold values in *. cbn [filter fst] in H. destruct (a =? s); [|exact H]. cbn [map] in H. destruct H as [H|H]; [discriminate|]. inversion H. left; auto. }
  destruct (IH Hg) as (N & E). pose proof (H a) as Ha. unfold values in Ha. cbn [filter fst] in Ha. rewrite Nat.eqb_refl in Ha. cbn [map snd] in Ha. destruct Ha as [Ha|Ha]; [discriminate|]. inversion Ha as [[Hx Hv]]. cbn [map fst]. split.
  - constructor; [|exact N]. intros I. apply in_map_iff in I. destruct I as ((b, y) & Eb & I). cbn in Eb. subst b. apply (values_in a y) in I. unfold values in I. rewrite Hv in I. exact I.
  - f_equal. exact E.
Qed.
Lemma found_row size (f : nat -> nat -> list byte) r g : r < size -> found size (fun s => nth s (map sizes (table size f)) []) r g ->
  NoDup (map fst g) /\ g = map (fun s => (s, Z.of_nat (length (f s r)))) (map fst g) /\ forall s, In s (map fst g) <-> s < size /\ f s r <> [].
Proof.
  intros Lr (F1 & F2). assert (V : forall s, s < size -> values s g = match f s r with [] => [] | l => [Z.of_nat (length l)] end).
  { intros s Ls. rewrite F2 by exact Ls. assert (E : nth s (map sizes (table size f)) [] = sizes (row size (f s))). { apply nth_error_nth. rewrite nth_error_map. unfold table. rewrite nth_map_seq by exact Ls. reflexivity. }
    rewrite E. unfold values, sizes. assert (FM : forall l : list (nat * list byte), filter (fun m => fst m =? r) (map (fun e => (fst e, Z.of_nat (length (snd e)))) l) = map (fun e => (fst e, Z.of_nat (length (snd e)))) (filter (fun m => fst m =? r) l)). { induction l as [|(a, b) l IH]; [reflexivity|]. cbn [map filter fst snd]. destruct (a =? r); [cbn [map fst snd]; rewrite IH; reflexivity|exact IH]. }
    rewrite FM, row_filter by exact Lr. destruct (f s r); reflexivity. }
  assert (W : forall s, size <= s -> values s g = []). { intros s Ls. destruct (values s g) as [|x t] eqn:E; [reflexivity|]. exfalso. assert (In (s, x) g) as I by (apply values_in; rewrite E; left; auto). specialize (F1 _ I). cbn in F1. lia. }
  destruct (values_enum g (fun s => Z.of_nat (length (f s r)))) as (N & E). { intros s. destruct (lt_dec s size) as [Ls|Ls]; [|left; apply W; lia]. rewrite V by exact Ls. destruct (f s r); auto. }
  split; [exact N|]. split; [exact E|]. intros s. split.
  - intros I. apply in_map_iff in I. destruct I as ((a, x) & Ea & I). cbn in Ea. subst a. assert (Ls : s < size) by (apply (F1 _ I)). split; [exact Ls|]. intros Z. apply (values_in s x) in I. rewrite V, Z in I by exact Ls. exact I.
  - intros (Ls & Ne). assert (In (Z.of_nat (length (f s r))) (values s g)) as I. { rewrite V by exact Ls. destruct (f s r); [contradiction|left; reflexivity]. } apply values_in in I. apply in_map_iff. exists (s, Z.of_nat (length (f s r))). auto.
Qed.
Lemma table_length {A} size (f : nat -> nat -> list A) : length (table size f) = size.
Proof. unfold table. rewrite map_length, seq_length. reflexivity. Qed.
Lemma exchange_found size (find : remote) (f : nat -> nat -> list byte) : finds size find -> (forall s r, s < size -> r < size -> (Z.of_nat (length (f s r)) <= int_max)%Z) ->
  exists G : nat -> list nat, (forall r, r < size -> NoDup (G r) /\ forall s, In s (G r) <-> s < size /\ f s r <> []) /\
    length (find (map sizes (table size f))) = size /\
    (forall r, r < size -> nth_error (find (map sizes (table size f))) r = Some (map (fun s => (s, Z.of_nat (length (f s r)))) (G r))) /\
    exchange_data (table size f) (find (map sizes (table size f))) = Some (map (fun r => map (fun s => (s, f s r)) (G r)) (seq 0 size)).
Proof.
  intros F B. destruct (F (map sizes (table size f))) as (L & H).
  { rewrite map_length. apply table_length. }
  { intros l e Il Ie. apply in_map_iff in Il. destruct Il as (l0 & <- & I0). unfold table in I0. apply in_map_iff in I0. destruct I0 as (s & <- & _). unfold sizes in Ie. apply in_map_iff in Ie. destruct Ie as ((r, b) & <- & I). apply row_in in I. cbn. tauto. }
  set (found' := find (map sizes (table size f))) in *. exists (fun r => map fst (nth r found' [])).
  assert (K : forall r, r < size -> exists g, nth_error found' r = Some g /\ nth r found' [] = g /\ NoDup (map fst g) /\ g = map (fun s => (s, Z.of_nat (length (f s r)))) (map fst g) /\ forall s, In s (map fst g) <-> s < size /\ f s r <> []).
  { intros r Lr. destruct (nth_error found' r) as [g|] eqn:E; [|apply nth_error_None in E; lia]. exists g. split; [reflexivity|]. split; [apply nth_error_nth, E|]. apply found_row; [exact Lr|]. apply H, E. }
  split; [|split; [exact L|split]].
  - intros r Lr. destruct (K r Lr) as (g & _ & -> & N & _ & I). split; [exact N|exact I].
  - intros r Lr. destruct (K r Lr) as (g & -> & -> & _ & E & _). rewrite <- E. reflexivity.
  - apply exchange_data_ok; [apply table_length|exact L| | |].
    + intros r Lr. destruct (K r Lr) as (g & -> & -> & _ & E & _). rewrite <- E. reflexivity.
    + intros r Lr. destruct (K r Lr) as (g & _ & -> & N & _ & I). split; [exact N|]. intros s Is. apply I in Is. split; [tauto|]. apply B; tauto.
    + intros r s l Lr El. assert (Ls : s < size). { rewrite <- (table_length size f). apply nth_error_Some. congruence. } unfold table in El. rewrite nth_map_seq in El by exact Ls. inversion El; subst l. rewrite row_filter by exact Lr.
      destruct (K r Lr) as (g & _ & -> & _ & _ & I). destruct (in_dec Nat.eq_dec s (map fst g)) as [J|J].
      * apply I in J. destruct (f s r); [tauto|reflexivity].
      * destruct (f s r) eqn:E; [reflexivity|]. exfalso. apply J, I. split; [exact Ls|congruence].
Qed.
