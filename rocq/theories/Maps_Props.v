(** Property theorems C21 (BlockedBinaryTree), C22 (LookupTable) and C23
    (NDIndex, NDLocalArray). *)
From Coq Require Import List Arith ZArith Bool Lia Permutation.
Import ListNotations.
From Verif Require Import Base Maps_Model Maps_Spec Maps_Proofs.
Open Scope Z_scope.

(** ** C21 *)
(** Memory returned by the allocator: arbitrary content, arrays of WIDTH. *)
Definition allocation {V} (W : Z) (f : nat -> node V) : Prop :=
  forall i, length (ex (f i)) = Z.to_nat W /\ length (data (f i)) = Z.to_nat W.

(** After any sequence of adds, [host_get] returns the value last added for the
    key, and nothing if the key was never added.  No access is outside the
    allocations and no loop runs forever. *)
Theorem C21_tree_is_a_finite_map : forall V (W : Z) (f : nat -> node V) hist,
  0 < W -> allocation W f ->
  exists t, foldM (fun t kv => add W f t (fst kv) (snd kv)) new_tree hist = Some t /\
    forall k, tree_host_get W t k = Some (last_added hist k).
Proof.
  intros V W f hist HW Hf. destruct (history_correct W HW f Hf hist) as [t [E [_ H]]]. exists t; auto.
Qed.
Print Assumptions C21_tree_is_a_finite_map.

(** A kernel that holds the root pointer, however long ago it was taken, reads
    the same values on the device. *)
Theorem C21_device_get : forall V (W : Z) (f : nat -> node V) h1 h2 t1 t2 r,
  0 < W -> allocation W f ->
  foldM (fun t kv => add W f t (fst kv) (snd kv)) new_tree h1 = Some t1 -> root t1 = Some r ->
  foldM (fun t kv => add W f t (fst kv) (snd kv)) new_tree (h1 ++ h2) = Some t2 ->
  forall k, get W (heap t2) (Some r) k = Some (last_added (h1 ++ h2) k).
Proof.
  intros V W f h1 h2 t1 t2 r HW Hf E1 R1 E2 k.
  destruct (history_correct W HW f Hf h1) as [t [E [HI1 _]]]. assert (t = t1) by congruence; subst t.
  destruct (history_correct W HW f Hf (h1 ++ h2)) as [t [E' [HI2 H2]]]. assert (t = t2) by congruence; subst t.
  destruct (root_of W t1 HI1 r R1) as [-> _].
  assert (R2 : root t2 = Some 0%nat).
  { destruct HI2 as (_ & R & _). rewrite R. destruct (heap t2) eqn:Eh; [|reflexivity].
    destruct h1 as [|[k1 v1] h1]; [cbn in E1; injection E1 as <-; discriminate|].
    specialize (H2 k1). unfold tree_host_get in H2. rewrite R in H2.
    cbn [app last_added] in H2. exfalso. injection H2 as H2.
    destruct (last_added (h1 ++ h2) k1); [discriminate|]. rewrite Z.eqb_refl in H2. discriminate. }
  rewrite <- H2. apply (root_of W t2 HI2 _ R2).
Qed.
Print Assumptions C21_device_get.

(** Width 4, junk pointers and flags in the fresh memory, negative keys, a
    repeated key, several nodes on both sides of the root. *)
Definition ex_fresh (i : nat) : node nat := mk_node 77 (Some 5%nat) (Some 0%nat) [true; true; false; true] [9; 9; 9; 9]%nat.
Example C21_instance : allocation 4 ex_fresh /\ exists t,
  foldM (fun t kv => add 4 ex_fresh t (fst kv) (snd kv)) new_tree
    [(5, 1%nat); (-1, 2%nat); (-5, 3%nat); (20, 4%nat); (-1, 6%nat); (9, 7%nat)] = Some t /\
  length (heap t) = 5%nat /\
  map (tree_host_get 4 t) [5; -1; -5; 20; 9; 4; -4; 21; 100]
  = [Some (Some 1); Some (Some 6); Some (Some 3); Some (Some 4); Some (Some 7); Some None; Some None; Some None; Some None]%nat.
Proof. split; [intros i; split; reflexivity|]. eexists; split; [vm_compute; reflexivity|]. split; reflexivity. Qed.

(** ** C22 *)
Theorem C22_table_is_a_bounded_map : forall V (n : nat) (junk : nat -> V) hist,
  Forall (fun kv => 0 <= fst kv < Z.of_nat n) hist ->
  exists t, foldM (fun t kv => table_add t (fst kv) (snd kv)) (new_table n junk) hist = Some t /\
    forall k, table_get t k = Some (last_added hist k) /\ table_host_get t k = Some (last_added hist k).
Proof.
  intros V n junk hist HF. destruct (tinv_history n junk hist HF) as [t [E H]].
  exists t; split; auto. intros k. apply (tinv_get n t hist k); auto.
Qed.
Print Assumptions C22_table_is_a_bounded_map.

(** Adding a key outside the table is reported. *)
Theorem C22_invalid_key_is_reported : forall V (t : table V) k v, (k < 0 \/ size t <= k) -> table_add t k v = None.
Proof. exact @table_add_invalid. Qed.
Print Assumptions C22_invalid_key_is_reported.

Example C22_instance : Forall (fun kv => 0 <= fst kv < Z.of_nat 3) [(2, 5%nat); (0, 6%nat); (2, 7%nat)] /\ exists t,
  foldM (fun t kv => table_add t (fst kv) (snd kv)) (new_table 3 (fun _ => 99%nat)) [(2, 5%nat); (0, 6%nat); (2, 7%nat)] = Some t /\
  map (table_get t) [-1; 0; 1; 2; 3] = [Some None; Some (Some 6); Some None; Some (Some 7); Some None]%nat /\
  table_add t 3 1%nat = None.
Proof. split; [repeat constructor; cbn; lia|]. eexists; split; [vm_compute; reflexivity|]. split; reflexivity. Qed.

(** ** C23 *)
(** The linear index is the row-major position ... *)
Theorem C23_linear_index : forall shape ix, length ix = length shape ->
  get_linear_index shape ix = Some (row_major shape ix).
Proof. intros shape ix H. unfold get_linear_index. rewrite linearise_row_major by auto. f_equal. Qed.
Print Assumptions C23_linear_index.

(** ... which is a bijection between the tuples inside the shape and
    0 .. size() - 1. *)
Theorem C23_bijection : forall shape, shape <> [] -> Forall (fun s => 0 <= s) shape ->
  exists n, nd_size shape = Some n /\
  (forall ix, inside shape ix -> exists x, get_linear_index shape ix = Some x /\ 0 <= x < n) /\
  (forall ix iy x, inside shape ix -> inside shape iy ->
     get_linear_index shape ix = Some x -> get_linear_index shape iy = Some x -> ix = iy) /\
  (forall x, 0 <= x < n -> exists ix, inside shape ix /\ get_linear_index shape ix = Some x).
Proof.
  intros shp N F. exists (volume shp). split; [apply nd_size_volume; auto|].
  assert (E : forall ix, inside shp ix -> get_linear_index shp ix = Some (row_major shp ix))
    by (intros; apply C23_linear_index, inside_length; auto).
  split; [|split].
  - intros ix H. exists (row_major shp ix). split; auto. apply row_major_range; auto.
  - intros ix iy x Hx Hy. rewrite (E _ Hx), (E _ Hy). intros [= <-] [= Q]. apply (row_major_inj shp); auto.
  - intros x Hx. destruct (row_major_surj shp F x Hx) as [ix [Hi Ei]]. exists ix; split; auto. rewrite (E _ Hi), Ei; auto.
Qed.
Print Assumptions C23_bijection.

(** A new NDLocalArray is zero, a write changes one element and no other. *)
Theorem C23_array_elements_are_independent : forall T shape (z : T) junk,
  shape <> [] -> Forall (fun s => 0 <= s) shape ->
  exists a, new_nd shape z junk = Some a /\
  (forall ix, inside shape ix -> nd_at a ix = Some z) /\
  forall ws, Forall (fun w => inside shape (fst w)) ws ->
  exists a', foldM (fun a w => nd_write a (fst w) (snd w)) a ws = Some a' /\
  forall ix v, inside shape ix -> nd_write a' ix v <> None /\
  forall a'', nd_write a' ix v = Some a'' ->
    nd_at a'' ix = Some v /\ forall iy, inside shape iy -> iy <> ix -> nd_at a'' iy = nd_at a' iy.
Proof.
  intros T shp z junk N F. destruct (nd_new_correct shp z junk N F) as [a [E [S [O G]]]].
  exists a; split; auto. split; auto. intros ws HF.
  assert (H : exists a', foldM (fun a w => nd_write a (fst w) (snd w)) a ws = Some a' /\ shape a' = shp /\ nd_ok a').
  { clear E G. revert a S O. induction HF as [|[ix v] ws Hx HF IH]; intros a S O; cbn [foldM]; [eauto|].
    cbn [fst snd] in *. rewrite <- S in Hx. destruct (nd_write_correct a ix v O Hx) as [a1 [E1 [S1 [O1 _]]]].
    rewrite E1; cbn [obind]. apply IH; auto; congruence. }
  destruct H as [a' [E' [S' O']]]. exists a'; split; auto. intros ix v Hx. rewrite <- S' in Hx.
  destruct (nd_write_correct a' ix v O' Hx) as [a2 [E2 [S2 [O2 G2]]]]. split; [congruence|].
  intros a'' E3. assert (a'' = a2) by congruence; subst a''. split.
  - rewrite G2 by auto. destruct (list_eq_dec Z.eq_dec ix ix); congruence.
  - intros iy Hy Ne. rewrite G2 by congruence. destruct (list_eq_dec Z.eq_dec ix iy); congruence.
Qed.
Print Assumptions C23_array_elements_are_independent.

(** Add access: whatever the order in which the atomic additions of the kernel
    take effect, each element ends with its old value plus the contributions
    for its index. *)
Theorem C23_array_add : forall T (plus : T -> T -> T) (a : nd_array T) cs sched,
  (forall x y z, plus (plus x y) z = plus (plus x z) y) ->
  length (nd_data a) = Z.to_nat (volume (shape a)) ->
  Forall (fun c => inside (shape a) (fst c)) cs -> Permutation cs sched ->
  exists a', nd_add_all plus a sched = Some a' /\
    forall ix, inside (shape a) ix -> exists z, nd_at a ix = Some z /\ nd_at a' ix = Some (contributions plus z ix cs).
Proof.
  intros T plus a cs sched Hc O HF P.
  destruct (nd_add_all_correct plus sched a O) as [a' [E [S' [O' G]]]].
  { intros c Hin. rewrite Forall_forall in HF. apply HF. eapply Permutation_in; [apply Permutation_sym; eauto|auto]. }
  exists a'; split; auto. intros ix Hx. destruct (nd_at_some a ix O Hx) as [z Hz]. exists z; split; auto.
  rewrite (G ix z Hx Hz). f_equal. symmetry. apply contributions_perm; auto.
Qed.
Print Assumptions C23_array_add.

Example C23_instance :
  nd_size [2; 3; 2] = Some 12 /\ get_linear_index [2; 3; 2] [1; 0; 1] = Some 7 /\
  exists a, new_nd [2; 3] 0 (fun _ => 9) = Some a /\
  exists a', nd_add_all Z.add a [([1; 2], 5); ([0; 1], 3); ([1; 2], 4)] = Some a' /\ nd_get a' = [0; 3; 0; 0; 0; 9].
Proof. split; [reflexivity|]. split; [reflexivity|]. eexists; split; [reflexivity|]. eexists; split; reflexivity. Qed.
