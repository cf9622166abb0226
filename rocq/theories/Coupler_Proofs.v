(** Lemmas about the coupling of two meshes. *)
From Coq Require Import List Arith ZArith QArith Bool Lia Permutation.
Import ListNotations.
From Verif Require Import Base Kernel Bmi_Model Bmi_Spec Bmi_Proofs DG0_Proofs Coupler_Model Coupler_Spec.
Local Open Scope nat_scope.

(** ** Lists *)
Lemma part_of_ok {T} (l : list nat) (b : nat -> list T) d : NoDup l -> In d l -> part_of l (map (fun x => length (b x)) l) (flat_map b l) d = Some (b d).
Proof.
  intros N I. destruct (in_split _ _ I) as (l1 & l2 & E). assert (N1 : ~ In d l1) by (rewrite E in N; apply NoDup_remove_2 in N; intros X; apply N, in_or_app; left; exact X).
  unfold part_of, rd. rewrite E, (find_index_split d l1 l2 N1), map_app. cbn [obind map]. rewrite nth_error_app2 by (rewrite map_length; lia). rewrite map_length, Nat.sub_diag. cbn [nth_error obind].
  rewrite displs_nth by (rewrite app_length, map_length; cbn; lia). cbn [obind]. rewrite firstn_app, map_length, Nat.sub_diag. cbn [firstn]. rewrite app_nil_r. rewrite firstn_all2 by (rewrite map_length; lia). rewrite <- flat_map_len. cbn [Nat.add]. rewrite flat_map_app. cbn [flat_map]. apply slice_mid.
Qed.
Lemma as_map {A} (l : list A) R g : length l = R -> (forall r, r < R -> nth_error l r = Some (g r)) -> l = map g (seq 0 R).
Proof.
  intros L H. apply nth_error_ext. intros r. rewrite nth_error_map, nth_error_seq. destruct (Nat.ltb_spec r R) as [X|X]; cbn [option_map]; [apply H; exact X|apply nth_error_None; lia].
Qed.
Lemma rd_map {A} (g : nat -> A) R r : r < R -> rd (map g (seq 0 R)) r = Some (g r).
Proof. intros H. unfold rd. rewrite nth_error_map, nth_error_seq. destruct (Nat.ltb_spec r R); [reflexivity|lia]. Qed.
Lemma flat_flat {A B C} (f : B -> list C) (g : A -> list B) l : flat_map f (flat_map g l) = flat_map (fun a => flat_map f (g a)) l.
Proof. induction l as [|a l IH]; cbn [flat_map]; [reflexivity|]. rewrite flat_map_app, IH. reflexivity. Qed.
Lemma map_flat {A B C} (f : B -> C) (g : A -> list B) l : map f (flat_map g l) = flat_map (fun a => map f (g a)) l.
Proof. induction l as [|a l IH]; cbn [flat_map]; [reflexivity|]. rewrite map_app, IH. reflexivity. Qed.
Lemma concat_map_flat {A B} (g : A -> list B) l : concat (map g l) = flat_map g l.
Proof. symmetry. apply flat_map_concat_map. Qed.
Lemma flat_map_in {A B} (f g : A -> list B) l : (forall a, In a l -> f a = g a) -> flat_map f l = flat_map g l.
Proof. induction l as [|a l IH]; intros H; cbn [flat_map]; [reflexivity|]. rewrite H by (left; reflexivity). rewrite IH by (intros; apply H; right; assumption). reflexivity. Qed.
Lemma const_len {I T} n (F : I -> list T) l : (forall i, In i l -> length (F i) = n) -> length (flat_map F l) = length l * n.
Proof. induction l as [|a l IH]; intros H; cbn [flat_map length]; [reflexivity|]. rewrite app_length, H, IH by (try (left; reflexivity); intros; apply H; right; assumption). lia. Qed.
Lemma const_nth {I T} n (F : I -> list T) l rest : (forall i, In i l -> length (F i) = n) -> forall ix a dx, nth_error l ix = Some a -> dx < n -> nth_error (flat_map F l ++ rest) (ix * n + dx) = nth_error (F a) dx.
Proof.
  induction l as [|x l IH]; intros H [|ix] a dx E L; cbn [nth_error] in E; try discriminate; cbn [flat_map].
  - injection E as ->. rewrite <- app_assoc, nth_error_app1; [reflexivity|]. rewrite H by (left; reflexivity). cbn. lia.
  - rewrite <- app_assoc, nth_error_app2; rewrite H by (left; reflexivity); [|cbn; lia]. replace (S ix * n + dx - n) with (ix * n + dx) by (cbn; lia). apply IH; [intros; apply H; right; assumption|exact E|exact L].
Qed.
Lemma list_sum_perm l l' : Permutation l l' -> list_sum l = list_sum l'.
Proof. induction 1; unfold list_sum in *; cbn [fold_right] in *; lia. Qed.

(** ** Writing and adding rows *)
Lemma upd_mid {T} (A : list T) y B v : upd (A ++ y :: B) (length A) v = Some (A ++ v :: B).
Proof. induction A as [|a A IH]; cbn; [reflexivity|]. rewrite IH. reflexivity. Qed.
Lemma write_one n (f : nat -> option Q) (row P rest : list Q) : length row = n -> n <= length rest -> (forall dx, dx < n -> f dx = nth_error row dx) ->
  foldM (fun s dx => v <- f dx ;; upd s (length P + dx) v) (P ++ rest) (seq 0 n) = Some (P ++ row ++ skipn n rest).
Proof.
  revert row. induction n as [|n IH]; intros row L Lr H.
  - destruct row; [|discriminate]. reflexivity.
  - destruct (exists_last (l := row)) as (row' & v & Er); [intros ->; discriminate|]. subst row. rewrite app_length in L. cbn in L. assert (L' : length row' = n) by lia. rewrite seq_S, foldM_app, (IH row' L') by (try lia; intros dx X; rewrite H by lia; apply nth_error_app1; lia). cbn [obind Nat.add foldM]. rewrite H by lia. rewrite nth_error_app2, L', Nat.sub_diag by lia. cbn [nth_error obind].
    destruct (skipn n rest) as [|y rest'] eqn:Es; [exfalso; pose proof (skipn_length n rest) as X; rewrite Es in X; cbn in X; lia|]. rewrite app_assoc. replace (length P + n) with (length (P ++ row')) by (rewrite app_length; lia). rewrite upd_mid. cbn [obind]. rewrite (skipn_S_cons _ _ _ _ Es). rewrite <- !app_assoc. reflexivity.
Qed.
Lemma write_ok {I} n (F : I -> list Q) (f : nat -> nat -> option Q) stage (L : list I) : (forall a, In a L -> length (F a) = n) -> length L * n <= length stage ->
  (forall ix a dx, nth_error L ix = Some a -> dx < n -> f ix dx = nth_error (F a) dx) ->
  exists rest, write_rows n (length L) f stage = Some (flat_map F L ++ rest).
Proof.
  unfold write_rows. intros HF Hs Hf. cut (exists rest, foldM (fun s ix => foldM (fun s dx => v <- f ix dx ;; upd s (ix * n + dx) v) s (seq 0 n)) stage (seq 0 (length L)) = Some (flat_map F L ++ rest) /\ length (flat_map F L ++ rest) = length stage); [intros (r & E & _); eauto|].
  induction L as [|a L IH] using rev_ind; [exists stage; auto|]. rewrite app_length in *. cbn [length] in *. destruct IH as (rest & E & Lr); [intros; apply HF, in_or_app; left; assumption|lia|intros ix x dx Ex; apply Hf; rewrite nth_error_app1; [exact Ex|apply nth_error_Some; congruence]|].
  rewrite Nat.add_1_r, seq_S, foldM_app, E. cbn [obind Nat.add foldM]. assert (Lf : length (flat_map F L) = length L * n) by (apply const_len; intros; apply HF, in_or_app; left; assumption). rewrite app_length, Lf in Lr. pose proof (HF a (in_elt a L [])) as La.
  exists (skipn n rest). rewrite <- Lf. rewrite (write_one n (f (length L)) (F a) (flat_map F L) rest La); [|lia|].
  - cbn [obind]. rewrite flat_map_app. cbn [flat_map]. rewrite app_nil_r, <- !app_assoc. split; [reflexivity|]. rewrite !app_length, skipn_length, La, Lf. lia.
  - intros dx X. apply Hf; [|exact X]. rewrite nth_error_app2, Nat.sub_diag by lia. reflexivity.
Qed.
Lemma add_one n (f : nat -> option Q) (row : list Q) c o m : m <= n -> length row = n -> c * n + n <= length o -> (forall dx, dx < n -> f dx = nth_error row dx) ->
  exists o', foldM (fun o dx => v <- f dx ;; old <- rd o (c * n + dx) ;; upd o (c * n + dx) (old + v)%Q) o (seq 0 m) = Some o' /\ length o' = length o /\
    forall k, nth k o' 0%Q = if (c * n <=? k) && (k <? c * n + m) then (nth k o 0 + nth (k - c * n) row 0)%Q else nth k o 0%Q.
Proof.
  intros Hm L Lo Hf. induction m as [|m IH].
  - exists o. split; [reflexivity|]. split; [reflexivity|]. intros k. destruct (Nat.leb_spec (c * n) k); destruct (Nat.ltb_spec k (c * n + 0)); cbn [andb]; try reflexivity. lia.
  - destruct IH as (o1 & E1 & L1 & V1); [lia|]. rewrite seq_S, foldM_app, E1. cbn [obind Nat.add foldM]. rewrite Hf by lia. rewrite (nth_error_nth' row 0%Q) by lia. cbn [obind]. rewrite (rdn o1 (c * n + m) 0%Q) by lia. cbn [obind]. destruct (updn o1 (c * n + m) (nth (c * n + m) o1 0 + nth m row 0)%Q) as (o2 & E2 & L2 & V2); [lia|]. rewrite E2. cbn [obind]. exists o2. split; [reflexivity|]. split; [lia|]. intros k. rewrite V2, !V1. destruct (Nat.eqb_spec k (c * n + m)) as [->|D].
    + destruct (Nat.leb_spec (c * n) (c * n + m)); [|lia]. destruct (Nat.ltb_spec (c * n + m) (c * n + m)); [lia|]. destruct (Nat.ltb_spec (c * n + m) (c * n + S m)); [|lia]. cbn [andb]. replace (c * n + m - c * n) with m by lia. reflexivity.
    + destruct (Nat.leb_spec (c * n) k); cbn [andb]; [|reflexivity]. destruct (Nat.ltb_spec k (c * n + m)); destruct (Nat.ltb_spec k (c * n + S m)); try lia; reflexivity.
Qed.
Lemma add_ok n M (f : nat -> nat -> option Q) cells len (L : list (nat * list Q)) : cells = map fst L -> (forall a, In a L -> length (snd a) = n /\ fst a < M) -> M * n <= len ->
  (forall ix a dx, nth_error L ix = Some a -> dx < n -> f ix dx = nth_error (snd a) dx) ->
  exists o, add_rows n cells f (repeat 0%Q len) = Some o /\ length o = len /\ forall c i, c < M -> i < n -> (nth (c * n + i) o 0 == part L c i)%Q.
Proof.
  intros Ec HL Hl Hf. unfold add_rows. assert (Lc : length cells = length L) by (rewrite Ec; apply map_length). rewrite Lc.
  assert (Hc : forall ix a, nth_error L ix = Some a -> nth_error cells ix = Some (fst a)) by (intros ix a E; rewrite Ec, nth_error_map, E; reflexivity). clear Ec Lc.
  induction L as [|a L IH] using rev_ind.
  - exists (repeat 0%Q len). split; [reflexivity|]. split; [apply repeat_length|]. intros c i H1 H2. rewrite (nth_error_nth _ _ _ (nth_error_repeat 0%Q (m := len) (n := c * n + i) ltac:(pose proof (off_lt c i n M H1 H2); lia))). reflexivity.
  - destruct IH as (o & E & Lo & V).
    { intros x I. apply HL, in_or_app; left; exact I. }
    { intros ix x dx Ex. apply Hf. rewrite nth_error_app1; [exact Ex|apply nth_error_Some; congruence]. }
    { intros ix x Ex. apply Hc. rewrite nth_error_app1; [exact Ex|apply nth_error_Some; congruence]. }
    destruct (HL a (in_elt a L [])) as (La & Ma). assert (Ea : nth_error (L ++ [a]) (length L) = Some a) by (rewrite nth_error_app2, Nat.sub_diag by lia; reflexivity).
    rewrite app_length. cbn [length]. rewrite Nat.add_1_r, seq_S, foldM_app, E. cbn [obind Nat.add foldM]. unfold rd at 1. rewrite (Hc _ _ Ea). cbn [obind].
    destruct (add_one n (f (length L)) (snd a) (fst a) o n) as (o' & E' & Lo' & V'); [lia|exact La|pose proof (off_le (fst a) n n M Ma (le_n n)); lia|intros dx X; apply (Hf _ _ _ Ea X)|]. rewrite E'. cbn [obind]. exists o'. split; [reflexivity|]. split; [lia|]. intros c i H1 H2. rewrite V', part_snoc. pose proof (V c i H1 H2) as Vc. destruct (Nat.eqb_spec (fst a) c) as [->|D].
    + destruct (Nat.leb_spec (c * n) (c * n + i)); [|lia]. destruct (Nat.ltb_spec (c * n + i) (c * n + n)); [|lia]. cbn [andb]. replace (c * n + i - c * n) with i by lia. rewrite Vc. reflexivity.
    + destruct (Nat.leb_spec (fst a * n) (c * n + i)); cbn [andb]; [destruct (Nat.ltb_spec (c * n + i) (fst a * n + n))|]; [exfalso; apply D; apply (off_same (fst a) c i n n); lia| |]; rewrite Vc; ring.
Qed.

(** ** Sums *)
Lemma part_app a b c i : (part (a ++ b) c i == part a c i + part b c i)%Q.
Proof. unfold part. rewrite filter_app, map_app, qsum_app. reflexivity. Qed.
Lemma part_flat {A} (g : A -> list (nat * list Q)) l c i : (part (flat_map g l) c i == sumq (map (fun a => part (g a) c i) l))%Q.
Proof. induction l as [|a l IH]; cbn [flat_map map sumq fold_right]; [reflexivity|]. rewrite part_app, IH. reflexivity. Qed.
Lemma sum_flat {A} (g : A -> list Q) l : (sumq (flat_map g l) == sumq (map (fun a => sumq (g a)) l))%Q.
Proof. induction l as [|a l IH]; cbn [flat_map map sumq fold_right]; [reflexivity|]. fold (sumq (g a)). fold (sumq (map (fun a => sumq (g a)) l)). rewrite <- IH. apply (qsum_app (g a) (flat_map g l)). Qed.
Lemma sum_ext {A} (f g : A -> Q) l : (forall a, In a l -> (f a == g a)%Q) -> (sumq (map f l) == sumq (map g l))%Q.
Proof. induction l as [|a l IH]; intros H; cbn [map sumq fold_right]; [reflexivity|]. fold (sumq (map f l)). fold (sumq (map g l)). rewrite H by (left; reflexivity). rewrite IH by (intros; apply H; right; assumption). reflexivity. Qed.
Lemma sum_add {A} (f g : A -> Q) l : (sumq (map (fun a => (f a + g a)%Q) l) == sumq (map f l) + sumq (map g l))%Q.
Proof. induction l as [|a l IH]; cbn [map sumq fold_right]; [ring|]. fold (sumq (map (fun a => (f a + g a)%Q) l)). fold (sumq (map f l)). fold (sumq (map g l)). rewrite IH. ring. Qed.
Lemma sum_zero {A} (f : A -> Q) l : (forall a, In a l -> (f a == 0)%Q) -> (sumq (map f l) == 0)%Q.
Proof. intros H. induction l as [|a l IH]; [reflexivity|]. cbn [map sumq fold_right]. fold (sumq (map f l)). rewrite H by (left; reflexivity). rewrite IH by (intros; apply H; right; assumption). ring. Qed.
Lemma sum_one (x : Q) k l : NoDup l -> In k l -> (sumq (map (fun d => if (k =? d)%nat then x else 0%Q) l) == x)%Q.
Proof.
  induction l as [|d l IH]; intros N I; [destruct I|]. inversion N as [|? ? N1 N2]; subst. cbn [map sumq fold_right]. fold (sumq (map (fun d => if (k =? d)%nat then x else 0%Q) l)). destruct (Nat.eqb_spec k d) as [->|D].
  - rewrite sum_zero; [ring|]. intros a Ia. destruct (Nat.eqb_spec d a); [subst; contradiction|reflexivity].
  - destruct I as [->|I]; [contradiction|]. rewrite (IH N2 I). ring.
Qed.
Lemma sum_sub (h : nat -> Q) l R : NoDup l -> (forall s, In s l -> s < R) -> (forall s, s < R -> ~ In s l -> (h s == 0)%Q) -> (sumq (map h l) == sumq (map h (seq 0 R)))%Q.
Proof.
  intros N Hl Hz.
  assert (P : Permutation (filter (fun s => existsb (Nat.eqb s) l) (seq 0 R)) l).
  { apply NoDup_Permutation; [apply NoDup_filter, seq_NoDup|exact N|]. intros s. rewrite filter_In, in_seq, existsb_exists. split; [intros (_ & x & Ix & Ex); apply Nat.eqb_eq in Ex; congruence|intros I; split; [specialize (Hl s I); lia|exists s; rewrite Nat.eqb_refl; auto]]. }
  rewrite <- (qsum_perm _ _ (Permutation_map h P)). assert (B : forall s, In s (seq 0 R) -> s < R) by (intros s I; apply in_seq in I; lia). revert B. generalize (seq 0 R) as q. induction q as [|s q IH]; intros B; [reflexivity|]. cbn [filter map sumq fold_right]. fold (sumq (map h q)). destruct (existsb (Nat.eqb s) l) eqn:E.
  - cbn [map]. unfold DG0_Spec.qsum. cbn [fold_right]. unfold DG0_Spec.qsum in IH. rewrite IH by (intros; apply B; right; assumption). reflexivity.
  - rewrite IH by (intros; apply B; right; assumption). rewrite (Hz s); [ring|apply B; left; reflexivity|]. intros I. assert (X : existsb (Nat.eqb s) l = true) by (apply existsb_exists; exists s; rewrite Nat.eqb_refl; auto). congruence.
Qed.
