(** C76: degrees of freedom in the order of an external library. *)
From Coq Require Import List Arith ZArith Bool Permutation Lia.
Import ListNotations.
From Verif Require Import Base Kernel Dof_Model Dof_Spec.
Local Open Scope nat_scope.

Lemma copy_ok {T} (dst src : list T) n : n <= length dst -> n <= length src -> copy dst src n = Some (firstn n src ++ skipn n dst).
Proof. intros A B. unfold copy. rewrite slice_some by lia. cbn [obind]. rewrite Nat.sub_0_r. cbn [skipn]. destruct (Nat.leb_spec n (length dst)); [reflexivity|lia]. Qed.
Lemma copied_nth {T} (dst src : list T) n k : n <= length dst -> n <= length src -> nth_error (firstn n src ++ skipn n dst) k = if k <? n then nth_error src k else nth_error dst k.
Proof.
  intros A B. assert (L : length (firstn n src) = n) by (rewrite firstn_length; lia). destruct (Nat.ltb_spec k n).
  - rewrite nth_error_app1 by lia. rewrite nth_error_firstn. destruct (Nat.ltb_spec k n); [reflexivity|lia].
  - rewrite nth_error_app2 by lia. rewrite L, nth_error_skipn. f_equal. lia.
Qed.

Section One.
  Context {T : Type}.
  (** The state after a history. *)
  Definition dstate (cells dofs : nat) (cs : list (dcall T)) (m : dofmap T) : Prop :=
    num_cells_local m = cells /\ num_dofs_per_cell m = dofs /\ length (map_to_index m) = cells * dofs /\
    (forall c i, c < cells -> i < dofs -> nth_error (map_to_index m) (c * dofs + i) = Some (external cs c i)) /\
    (forall b, d_dofs m = Some b -> length b = cells * dofs).
  Lemma items_in (m : dofmap T) c i : In (c, i) (items m) <-> c < num_cells_local m /\ i < num_dofs_per_cell m.
  Proof.
    unfold items. rewrite in_flat_map. split.
    - intros (c' & Ic & I). apply in_map_iff in I. destruct I as (i' & E & Ii). inversion E; subst. apply in_seq in Ic. apply in_seq in Ii. lia.
    - intros (Lc & Li). exists c. split; [apply in_seq; lia|]. apply in_map, in_seq. lia.
  Qed.
  Lemma flat_lt c i cells dofs : c < cells -> i < dofs -> c * dofs + i < cells * dofs. Proof. nia. Qed.
  Lemma flat_inj c i c' i' dofs : i < dofs -> i' < dofs -> c * dofs + i = c' * dofs + i' -> c = c' /\ i = i'. Proof. intros A B E. assert (c = c') by nia. subst. split; [reflexivity|nia]. Qed.
  Lemma index_ok (m : dofmap T) c i : c < num_cells_local m -> i < num_dofs_per_cell m -> index m (Z.of_nat c) (Z.of_nat i) = Some (c * num_dofs_per_cell m + i).
  Proof. intros Lc Li. unfold index. rewrite !Nat2Z.id. destruct (Z.leb_spec 0 (Z.of_nat c)); [|lia]. destruct (Z.ltb_spec (Z.of_nat c) (Z.of_nat (num_cells_local m))); [|lia]. destruct (Z.leb_spec 0 (Z.of_nat i)); [|lia]. destruct (Z.ltb_spec (Z.of_nat i) (Z.of_nat (num_dofs_per_cell m))); [|lia]. reflexivity. Qed.
  Lemma index_inv (m : dofmap T) c i k : index m c i = Some k -> exists c' i', c = Z.of_nat c' /\ i = Z.of_nat i' /\ c' < num_cells_local m /\ i' < num_dofs_per_cell m /\ k = c' * num_dofs_per_cell m + i'.
  Proof.
    unfold index. destruct (Z.leb_spec 0 c); [|discriminate]. destruct (Z.ltb_spec c (Z.of_nat (num_cells_local m))); [|discriminate]. destruct (Z.leb_spec 0 i); [|discriminate]. destruct (Z.ltb_spec i (Z.of_nat (num_dofs_per_cell m))); [|discriminate]. cbn. intros E. inversion E. exists (Z.to_nat c), (Z.to_nat i). repeat split; lia.
  Qed.
  Lemma foldM_length {I} (g : list T -> I -> option (list T)) : (forall b i b', g b i = Some b' -> length b' = length b) -> forall l b b', foldM g b l = Some b' -> length b' = length b.
  Proof. intros H. induction l as [|i l IH]; intros b b' E; cbn in E; [congruence|]. destruct (g b i) as [b1|] eqn:E1; [|discriminate]. cbn in E. rewrite (IH _ _ E). apply (H _ _ _ E1). Qed.
  Lemma buffer_length cells dofs cs m junk : dstate cells dofs cs m -> length (device_buffer m junk) = cells * dofs.
  Proof. intros (A & B & _ & _ & D). unfold device_buffer. destruct (d_dofs m) as [b|]; [apply D; reflexivity|]. rewrite map_length, seq_length, A, B. reflexivity. Qed.
  Lemma keep_state cells dofs cs c m b : dstate cells dofs cs m -> length b = cells * dofs -> (match c with DSet _ _ _ => False | _ => True end) -> dstate cells dofs (cs ++ [c]) (keep m b).
  Proof.
    intros (A & B & C & D & E) L Hc. unfold dstate, keep. cbn. split; [exact A|]. split; [exact B|]. split; [exact C|]. split; [|intros b' X; congruence]. intros x i Lx Li. rewrite (D x i Lx Li). unfold external. rewrite fold_left_app. cbn [fold_left]. destruct c; [destruct Hc| |]; reflexivity.
  Qed.
  Lemma item_to_length (m : dofmap T) src b c i b' : item_to_external m src b c i = Some b' -> length b' = length b.
  Proof. unfold item_to_external. destruct (device_get m c i); cbn; [|discriminate]. destruct (rd src _); cbn; [|discriminate]. apply upd_length. Qed.
  Lemma state_ok cells dofs : forall cs (m : dofmap T), history cells dofs cs = Some m -> dstate cells dofs cs m.
  Proof.
    intros cs. induction cs as [|c cs IH] using rev_ind; intros m E.
    - cbn in E. inversion E. unfold dstate, new_map. cbn. rewrite repeat_length. do 3 (split; [reflexivity|]). split; [|discriminate]. intros c i Lc Li. apply nth_error_repeat, flat_lt; assumption.
    - unfold history in *. rewrite foldM_app in E. destruct (foldM dstep (new_map cells dofs) cs) as [m1|]; [|discriminate]. cbn [obind] in E. specialize (IH m1 eq_refl). pose proof IH as (A & B & C & D & F). cbn [foldM] in E. destruct (dstep m1 c) as [m2|] eqn:Es; [|discriminate]. cbn [obind] in E. inversion E; subst m2. clear E. destruct c as [cell dof ix|d junk data h|d junk data h]; cbn [dstep] in Es.
      + unfold set_index in Es. destruct (index m1 cell dof) as [k|] eqn:Ek; [|discriminate]. cbn [obind] in Es. destruct (upd (map_to_index m1) k ix) as [l|] eqn:El; [|discriminate]. cbn [obind] in Es. inversion Es; subst m. clear Es. unfold dstate. cbn. split; [exact A|]. split; [exact B|]. split; [rewrite (upd_length _ _ _ _ El); exact C|]. split; [|exact F].
        intros c i Lc Li. rewrite (upd_nth _ _ _ _ _ El). destruct (index_inv _ _ _ _ Ek) as (c' & i' & -> & -> & Lc' & Li' & ->). rewrite B in *. unfold external. rewrite fold_left_app. cbn [fold_left]. destruct (Nat.eqb_spec (c * dofs + i) (c' * dofs + i')) as [Ex|Ex].
        * destruct (flat_inj c i c' i' dofs Li Li' Ex) as (-> & ->). rewrite !Z.eqb_refl. reflexivity.
        * destruct (Z.eqb_spec (Z.of_nat c') (Z.of_nat c)) as [X|X]; cbn [andb]; [|apply D; assumption]. destruct (Z.eqb_spec (Z.of_nat i') (Z.of_nat i)) as [Y|Y]; [|apply D; assumption]. exfalso. apply Ex. f_equal; [f_equal|]; lia.
      + destruct (to_external d junk m1 data h) as [(m2 & h')|] eqn:Et; [|discriminate]. cbn in Es. inversion Es; subst m2. clear Es. unfold to_external in Et. destruct (0 <? num_cells_local m1 * num_dofs_per_cell m1).
        * destruct (foldM _ _ _) as [b|] eqn:Ef; [|discriminate]. cbn [obind] in Et. destruct (copy h b _); [|discriminate]. cbn [obind] in Et. inversion Et; subst. apply keep_state; [exact IH| |exact I]. rewrite (foldM_length _ (fun b i b' => item_to_length m1 data b (fst i) (snd i) b') _ _ _ Ef). apply (buffer_length _ _ _ _ _ IH).
        * inversion Et; subst. apply keep_state; [exact IH|apply (buffer_length _ _ _ _ _ IH)|exact I].
      + destruct (from_external d junk m1 data h) as [((m2 & data') & h')|] eqn:Et; [|discriminate]. cbn in Es. inversion Es; subst m2. clear Es. unfold from_external in Et. destruct (0 <? num_cells_local m1 * num_dofs_per_cell m1).
        * destruct (copy h _ _); [|discriminate]. cbn [obind] in Et. destruct (foldM _ _ _) as [b|]; [|discriminate]. cbn [obind] in Et. inversion Et; subst. apply keep_state; [exact IH|apply (buffer_length _ _ _ _ _ IH)|exact I].
        * inversion Et; subst. apply keep_state; [exact IH|apply (buffer_length _ _ _ _ _ IH)|exact I].
  Qed.
  Lemma device_get_ok cells dofs cs m c i : dstate cells dofs cs m -> c < cells -> i < dofs -> (0 <= external cs c i)%Z -> device_get m c i = Some (Z.to_nat (external cs c i)).
  Proof. intros (A & B & C & D & E) Lc Li P. unfold device_get, rd. rewrite B, (D c i Lc Li). cbn [obind]. destruct (Z.leb_spec 0 (external cs c i)); [reflexivity|lia]. Qed.
  Lemma to_ok cells dofs cs m d junk (data h : list T) : dstate cells dofs cs m -> numbering cells dofs (external cs) -> device_ok d -> cells * dofs <= length data -> cells * dofs <= length h ->
    exists b h', to_external d junk m data h = Some (keep m b, h') /\ length b = cells * dofs /\ length h' = length h /\
      (forall c i, c < cells -> i < dofs -> nth_error b (Z.to_nat (external cs c i)) = nth_error data (c * dofs + i)) /\
      (forall k, nth_error h' k = if k <? cells * dofs then nth_error b k else nth_error h k).
  Proof.
    intros S (N1 & N2) Hd Ld Lh. pose proof S as (A & B & C & D & E). unfold to_external. rewrite A, B. pose proof (buffer_length _ _ _ _ junk S) as Lb. destruct (Nat.ltb_spec 0 (cells * dofs)) as [P|P].
    - assert (HI : forall x, In x (ord d 0 (items m)) -> fst x < cells /\ snd x < dofs). { intros (c & i) I. rewrite (in_ord d 0 _ _ Hd) in I. apply items_in in I. rewrite A, B in I. exact I. }
      destruct data as [|dflt data0] eqn:Edata; [cbn in Ld; lia|]. rewrite <- Edata in *.
      destruct (foldM_upd (fun b cd => item_to_external m data b (fst cd) (snd cd)) (fun cd => Z.to_nat (external cs (fst cd) (snd cd))) (fun cd => nth (fst cd * dofs + snd cd) data dflt) (ord d 0 (items m)) (device_buffer m junk)) as (b & Eb & L1 & W & _).
      { intros b (c & i) _ I. destruct (HI _ I) as (Lc & Li). cbn [fst snd] in *. unfold item_to_external. rewrite (device_get_ok _ _ _ _ c i S Lc Li) by (apply N1; assumption). cbn [obind]. unfold rd. rewrite B, (nth_error_nth' data dflt) by (pose proof (flat_lt c i cells dofs Lc Li); lia). reflexivity. }
      { intros (c & i) I. destruct (HI _ I) as (Lc & Li). cbn [fst snd] in *. rewrite Lb. pose proof (N1 c i Lc Li). lia. }
      { intros (c & i) (c' & i') I I' X. destruct (HI _ I) as (Lc & Li). destruct (HI _ I') as (Lc' & Li'). cbn [fst snd] in *. pose proof (N1 c i Lc Li). pose proof (N1 c' i' Lc' Li'). destruct (N2 c i c' i' Lc Li Lc' Li') as (-> & ->); [lia|reflexivity]. }
      rewrite Eb. cbn [obind]. rewrite copy_ok by lia. cbn [obind]. exists b. eexists. split; [reflexivity|]. split; [lia|]. split; [rewrite app_length, firstn_length, skipn_length; lia|]. split; [|intros k; apply copied_nth; lia].
      intros c i Lc Li. assert (I : In (c, i) (ord d 0 (items m))) by (apply (in_ord d 0 _ _ Hd), items_in; rewrite A, B; auto). pose proof (W _ I) as Q. cbn [fst snd] in Q. rewrite Q. symmetry. apply nth_error_nth'. pose proof (flat_lt c i cells dofs Lc Li). lia.
    - exists (device_buffer m junk), h. split; [reflexivity|]. split; [exact Lb|]. split; [reflexivity|]. split; [intros c i Lc Li; pose proof (flat_lt c i cells dofs Lc Li); lia|]. intros k. destruct (Nat.ltb_spec k (cells * dofs)); [lia|reflexivity].
  Qed.
  Lemma from_ok cells dofs cs m d junk (data h : list T) : dstate cells dofs cs m -> numbering cells dofs (external cs) -> device_ok d -> cells * dofs <= length data -> cells * dofs <= length h ->
    exists data' h', from_external d junk m data h = Some (keep m (device_buffer m junk), data', h') /\
      (forall c i, c < cells -> i < dofs -> nth_error data' (c * dofs + i) = nth_error (device_buffer m junk) (Z.to_nat (external cs c i))) /\
      (forall k, cells * dofs <= k -> nth_error data' k = nth_error data k) /\ length data' = length data /\
      (forall k, nth_error h' k = if k <? cells * dofs then nth_error (device_buffer m junk) k else nth_error h k).
  Proof.
    intros S (N1 & N2) Hd Ld Lh. pose proof S as (A & B & C & D & E). unfold from_external. rewrite A, B. pose proof (buffer_length _ _ _ _ junk S) as Lb. destruct (Nat.ltb_spec 0 (cells * dofs)) as [P|P].
    - assert (HI : forall x, In x (ord d 0 (items m)) -> fst x < cells /\ snd x < dofs). { intros (c & i) I. rewrite (in_ord d 0 _ _ Hd) in I. apply items_in in I. rewrite A, B in I. exact I. }
      rewrite copy_ok by lia. cbn [obind]. destruct data as [|dflt data0] eqn:Edata; [cbn in Ld; lia|]. rewrite <- Edata in *.
      destruct (foldM_upd (fun b cd => item_from_external m (device_buffer m junk) b (fst cd) (snd cd)) (fun cd => fst cd * dofs + snd cd) (fun cd => nth (Z.to_nat (external cs (fst cd) (snd cd))) (device_buffer m junk) dflt) (ord d 0 (items m)) data) as (b & Eb & L1 & W & K).
      { intros b (c & i) _ I. destruct (HI _ I) as (Lc & Li). cbn [fst snd] in *. pose proof (N1 c i Lc Li). unfold item_from_external. rewrite (device_get_ok _ _ _ _ c i S Lc Li) by lia. cbn [obind]. unfold rd. rewrite B, (nth_error_nth' (device_buffer m junk) dflt) by lia. reflexivity. }
      { intros (c & i) I. destruct (HI _ I) as (Lc & Li). cbn [fst snd] in *. pose proof (flat_lt c i cells dofs Lc Li). lia. }
      { intros (c & i) (c' & i') I I' X. destruct (HI _ I) as (Lc & Li). destruct (HI _ I') as (Lc' & Li'). cbn [fst snd] in *. destruct (flat_inj c i c' i' dofs Li Li' X) as (-> & ->). reflexivity. }
      rewrite Eb. cbn [obind]. exists b. eexists. split; [reflexivity|]. split; [|split; [|split; [exact L1|intros k; apply copied_nth; lia]]].
      + intros c i Lc Li. assert (I : In (c, i) (ord d 0 (items m))) by (apply (in_ord d 0 _ _ Hd), items_in; rewrite A, B; auto). pose proof (W _ I) as Q. cbn [fst snd] in Q. rewrite Q. symmetry. apply nth_error_nth'. pose proof (N1 c i Lc Li). lia.
      + intros k Lk. apply K. intros (c & i) I. destruct (HI _ I) as (Lc & Li). cbn [fst snd] in *. pose proof (flat_lt c i cells dofs Lc Li). lia.
    - exists data, h. split; [reflexivity|]. split; [intros c i Lc Li; pose proof (flat_lt c i cells dofs Lc Li); lia|]. split; [reflexivity|]. split; [reflexivity|]. intros k. destruct (Nat.ltb_spec k (cells * dofs)); [lia|reflexivity].
  Qed.
End One.

(** After any history get returns the index which was set last, -1 if there is none; cells and degrees of freedom out of range are refused. *)
Theorem C76_index : forall (T : Type) cells dofs (cs : list (dcall T)) m, history cells dofs cs = Some m ->
  (forall c i, c < cells -> i < dofs -> get_index m (Z.of_nat c) (Z.of_nat i) = Some (external cs c i)) /\
  (forall c i ix, c < cells -> i < dofs -> exists m', set_index m (Z.of_nat c) (Z.of_nat i) ix = Some m') /\
  (forall c i ix, ~ (0 <= c < Z.of_nat cells /\ 0 <= i < Z.of_nat dofs)%Z -> get_index m c i = None /\ set_index m c i ix = None).
Proof.
  intros T cells dofs cs m H. pose proof (state_ok cells dofs cs m H) as (A & B & C & D & _). split; [|split].
  - intros c i Lc Li. unfold get_index. rewrite index_ok by lia. cbn [obind]. unfold rd. rewrite B. apply D; assumption.
  - intros c i ix Lc Li. unfold set_index. rewrite index_ok by lia. cbn [obind]. rewrite B. destruct (upd_some (map_to_index m) (c * dofs + i) ix) as (l & E); [rewrite C; apply flat_lt; assumption|]. rewrite E. eexists. reflexivity.
  - intros c i ix N. assert (X : index m c i = None). { destruct (index m c i) as [k|] eqn:E; [|reflexivity]. destruct (index_inv _ _ _ _ E) as (c' & i' & -> & -> & Lc & Li & _). exfalso. apply N. lia. } unfold get_index, set_index. rewrite X. auto.
Qed.
Print Assumptions C76_index.

(** copy_to_external puts the value of every degree of freedom at its external index and touches nothing else. *)
Theorem C76_to_external : forall (T : Type) cells dofs (cs : list (dcall T)) m d junk (data h : list T), history cells dofs cs = Some m -> numbering cells dofs (external cs) -> device_ok d ->
  cells * dofs <= length data -> cells * dofs <= length h ->
  exists m' h', to_external d junk m data h = Some (m', h') /\ length h' = length h /\
    (forall c i, c < cells -> i < dofs -> nth_error h' (Z.to_nat (external cs c i)) = nth_error data (c * dofs + i)) /\
    (forall k, cells * dofs <= k -> nth_error h' k = nth_error h k).
Proof.
  intros T cells dofs cs m d junk data h H N Hd Ld Lh. pose proof (state_ok cells dofs cs m H) as S. destruct (to_ok cells dofs cs m d junk data h S N Hd Ld Lh) as (b & h' & E & Lb & L & W & K). exists (keep m b), h'. split; [exact E|]. split; [exact L|]. split.
  - intros c i Lc Li. pose proof (proj1 N c i Lc Li). rewrite K. destruct (Nat.ltb_spec (Z.to_nat (external cs c i)) (cells * dofs)); [apply W; assumption|lia].
  - intros k Lk. rewrite K. destruct (Nat.ltb_spec k (cells * dofs)); [lia|reflexivity].
Qed.
Print Assumptions C76_to_external.

(** copy_from_external does not read the buffer of the caller: the degrees of freedom it stores are the same for all contents of that buffer,
    and the buffer is overwritten. *)
Theorem C76_from_external_refuted : forall (T : Type) cells dofs (cs : list (dcall T)) m d junk (data h1 h2 : list T), history cells dofs cs = Some m -> numbering cells dofs (external cs) -> device_ok d ->
  cells * dofs <= length data -> cells * dofs <= length h1 -> cells * dofs <= length h2 ->
  exists m' data' h1' h2', from_external d junk m data h1 = Some (m', data', h1') /\ from_external d junk m data h2 = Some (m', data', h2') /\ firstn (cells * dofs) h1' = firstn (cells * dofs) h2'.
Proof.
  intros T cells dofs cs m d junk data h1 h2 H N Hd Ld L1 L2. pose proof (state_ok cells dofs cs m H) as St.
  destruct (from_ok cells dofs cs m d junk data h1 St N Hd Ld L1) as (x1 & y1 & E1 & A1 & B1 & C1 & D1). destruct (from_ok cells dofs cs m d junk data h2 St N Hd Ld L2) as (x2 & y2 & E2 & A2 & B2 & C2 & D2).
  assert (X : x2 = x1). { apply nth_error_ext. intros k. destruct (le_lt_dec (cells * dofs) k) as [Lk|Lk]; [rewrite B1, B2 by exact Lk; reflexivity|]. destruct dofs as [|dofs]; [lia|]. assert (Li : k mod S dofs < S dofs) by (apply Nat.mod_upper_bound; lia). assert (Lc : k / S dofs < cells) by (apply Nat.div_lt_upper_bound; lia). pose proof (Nat.div_mod k (S dofs)) as Q. replace k with (k / S dofs * S dofs + k mod S dofs) by lia. rewrite A1, A2 by assumption. reflexivity. }
  subst x2. exists (keep m (device_buffer m junk)), x1, y1, y2. split; [exact E1|]. split; [exact E2|]. apply nth_error_ext. intros k. rewrite !nth_error_firstn. destruct (Nat.ltb_spec k (cells * dofs)) as [L|L]; [|reflexivity]. rewrite D1, D2. destruct (Nat.ltb_spec k (cells * dofs)); [reflexivity|lia].
Qed.
Print Assumptions C76_from_external_refuted.

(** After copy_to_external of [x], copy_from_external stores [x] again whatever the caller passes. *)
Theorem C76_stale_refuted : forall (T : Type) cells dofs (cs : list (dcall T)) m d junk junk' (x h0 data h : list T), history cells dofs cs = Some m -> numbering cells dofs (external cs) -> device_ok d ->
  cells * dofs <= length x -> cells * dofs <= length h0 -> cells * dofs <= length data -> cells * dofs <= length h ->
  exists m1 h1 m2 data' h', to_external d junk m x h0 = Some (m1, h1) /\ from_external d junk' m1 data h = Some (m2, data', h') /\
    firstn (cells * dofs) data' = firstn (cells * dofs) x /\ firstn (cells * dofs) h' = firstn (cells * dofs) h1.
Proof.
  intros T cells dofs cs m d junk junk' x h0 data h H N Hd Lx L0 Ld Lh. pose proof (state_ok cells dofs cs m H) as St. destruct (to_ok cells dofs cs m d junk x h0 St N Hd Lx L0) as (b & h1 & E1 & Lb & L1 & W1 & K1).
  assert (S1 : dstate cells dofs (cs ++ [DTo d junk x h0]) (keep m b)) by (apply keep_state; [exact St|exact Lb|exact I]). assert (EX : forall c i, external (cs ++ [DTo d junk x h0]) c i = external cs c i) by (intros c i; unfold external; rewrite fold_left_app; reflexivity).
  assert (N1 : numbering cells dofs (external (cs ++ [DTo d junk x h0]))). { destruct N as (Na & Nb). split; [intros c i Lc Li; rewrite EX; apply Na; assumption|]. intros c i c' i' Lc Li Lc' Li' E. rewrite !EX in E. apply Nb; assumption. }
  destruct (from_ok cells dofs _ (keep m b) d junk' data h S1 N1 Hd Ld Lh) as (data' & h' & E2 & A2 & _ & C2 & D2). change (device_buffer (keep m b) junk') with b in *. exists (keep m b), h1. eexists. exists data', h'. split; [exact E1|]. split; [exact E2|]. split.
  - apply nth_error_ext. intros k. rewrite !nth_error_firstn. destruct (Nat.ltb_spec k (cells * dofs)) as [Lk|Lk]; [|reflexivity]. destruct dofs as [|dofs]; [lia|]. assert (Li : k mod S dofs < S dofs) by (apply Nat.mod_upper_bound; lia). assert (Lc : k / S dofs < cells) by (apply Nat.div_lt_upper_bound; lia). pose proof (Nat.div_mod k (S dofs)) as Q. replace k with (k / S dofs * S dofs + k mod S dofs) by lia. rewrite A2 by assumption. rewrite EX. apply W1; assumption.
  - apply nth_error_ext. intros k. rewrite !nth_error_firstn. destruct (Nat.ltb_spec k (cells * dofs)) as [L|L]; [|reflexivity]. rewrite D2, K1. destruct (Nat.ltb_spec k (cells * dofs)); [reflexivity|lia].
Qed.
Print Assumptions C76_stale_refuted.

(** ** An example: two cells with three degrees of freedom each, the external order reversed. *)
Definition dev76 : device := {| ord := fun A k l => rev l; junk := fun _ _ => 77%Z; local_size := 2; max_compute_units := 3 |}.
Definition calls76 : list (dcall nat) := [DSet 1 2 7; DSet 0 0 5; DSet 0 1 4; DSet 0 2 3; DSet 1 0 2; DSet 1 1 1; DSet 1 2 0]%Z ++ [DTo dev76 (fun i => i) [1; 2; 3; 4; 5; 6] [0; 0; 0; 0; 0; 0]].
Lemma dev76_ok : device_ok dev76.
Proof. split; [|cbn; lia]. intros A k l. symmetry. apply Permutation_rev. Qed.
Lemma numbering76 : numbering 2 3 (external calls76).
Proof.
  split.
  - intros [|[|c]] [|[|[|i]]] Lc Li; try lia; vm_compute; split; congruence.
  - intros [|[|c]] [|[|[|i]]] [|[|c']] [|[|[|i']]] Lc Li Lc' Li' E; try lia; try (split; reflexivity); vm_compute in E; discriminate.
Qed.
Example C76_example : numbering 2 3 (external calls76) /\ device_ok dev76 /\ exists m, history 2 3 calls76 = Some m /\ get_index m 1 2 = Some 0%Z /\ get_index m 2 0 = None /\
  (exists m', to_external dev76 (fun i => i) m [11; 12; 13; 14; 15; 16; 17] [0; 0; 0; 0; 0; 0; 9] = Some (m', [16; 15; 14; 13; 12; 11; 9])) /\
  (exists m', from_external dev76 (fun i => i) m [0; 0; 0; 0; 0; 0] [21; 22; 23; 24; 25; 26] = Some (m', [1; 2; 3; 4; 5; 6], [6; 5; 4; 3; 2; 1])).
Proof. split; [apply numbering76|]. split; [apply dev76_ok|]. eexists. split; [reflexivity|]. split; [reflexivity|]. split; [reflexivity|]. split; eexists; reflexivity. Qed.
