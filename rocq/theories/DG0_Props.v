(** Piecewise constant functions on the cells of a mesh.  Property C81. *)
From Coq Require Import List Arith ZArith QArith Bool Lia Lqa.
Import ListNotations.
From Verif Require Import Base Kernel DeviceFn_Model DG0_Model DG0_Spec DG0_Proofs.
Local Open Scope nat_scope.

(** The object can be made for every mesh with cells of positive volume, and then every history of
    projections, evaluations, reads and writes of the coefficients and writes of the point values gives the
    specified results, whatever the order of the particles and the contents of new memory. *)
Theorem C81_history : forall volumes points junk_ ops,
  setting_ok volumes points ->
  allowed_all volumes points no_fns ops ->
  exists s0 s outs,
    construct junk_ volumes points = Some s0 /\ run s0 ops = Some (s, outs) /\
    Forall2 same outs (outputs volumes points no_fns ops).
Proof.
  intros volumes points j ops Hs Ha. destruct (construct_ok volumes points Hs j) as (s0 & E0 & R0). destruct (run_ok volumes points Hs ops s0 no_fns [] R0 Ha) as (s & outs & E & S0). exists s0, s, outs. split; [exact E0|]. split; [exact E|exact S0].
Qed.
Print Assumptions C81_history.

(** The total over the cells of volume times coefficient. *)
Definition total (volumes : list Q) (n i : nat) (dofs : list Q) : Q :=
  qsum (map (fun c => (nth c volumes 0 * nth (c * n + i) dofs 0)%Q) (seq 0 (length volumes))).

Lemma qsum_ext {A} (f g : A -> Q) l : (forall a, In a l -> (f a == g a)%Q) -> (qsum (map f l) == qsum (map g l))%Q.
Proof. induction l as [|a l IH]; intros H; cbn [map qsum fold_right]; [reflexivity|]. fold (qsum (map f l)). fold (qsum (map g l)). rewrite H by (left; reflexivity). rewrite IH by (intros; apply H; right; assumption). reflexivity. Qed.
Lemma qsum_add {A} (f g : A -> Q) l : (qsum (map (fun a => (f a + g a)%Q) l) == qsum (map f l) + qsum (map g l))%Q.
Proof. induction l as [|a l IH]; cbn [map qsum fold_right]; [ring|]. fold (qsum (map (fun a => (f a + g a)%Q) l)). fold (qsum (map f l)). fold (qsum (map g l)). rewrite IH. ring. Qed.
Lemma qsum_one (x : Q) c N : c < N -> (qsum (map (fun k => if (c =? k)%nat then x else 0%Q) (seq 0 N)) == x)%Q.
Proof.
  intros H. induction N as [|N IH]; [lia|]. rewrite seq_S, map_app, qsum_app. cbn [map Nat.add]. destruct (Nat.eqb_spec c N) as [->|D].
  - assert (Z0 : (qsum (map (fun k => if (N =? k)%nat then x else 0%Q) (seq 0 N)) == qsum (map (fun _ => 0%Q) (seq 0 N)))%Q) by (apply qsum_ext; intros a I; apply in_seq in I; destruct (Nat.eqb_spec N a); [lia|reflexivity]). rewrite Z0. clear. assert (Zs : forall l : list nat, (qsum (map (fun _ => 0%Q) l) == 0)%Q) by (induction l as [|a l IH]; [reflexivity|cbn [map qsum fold_right]; fold (qsum (map (fun _ : nat => 0%Q) l)); rewrite IH; ring]). rewrite Zs. unfold qsum. cbn. ring.
  - rewrite IH by lia. unfold qsum. cbn. ring.
Qed.
Lemma all_parts N i ps : Forall (fun p : nat * list Q => fst p < N) ps -> (qsum (map (fun c => part ps c i) (seq 0 N)) == qsum (map (fun p => nth i (snd p) 0%Q) ps))%Q.
Proof.
  intros H. induction ps as [|p ps IH] using rev_ind.
  - cbn [map]. rewrite (qsum_ext _ (fun _ => 0%Q)) by (intros; reflexivity). induction (seq 0 N) as [|a l IH]; [reflexivity|]. cbn [map qsum fold_right]. fold (qsum (map (fun _ : nat => 0%Q) l)). rewrite IH. unfold qsum. cbn. ring.
  - apply Forall_app in H. destruct H as (H1 & H2). inversion H2 as [|? ? Hp _]; subst. rewrite (qsum_ext _ (fun c => (part ps c i + (if (fst p =? c)%nat then nth i (snd p) 0 else 0))%Q)) by (intros; apply part_snoc). rewrite qsum_add, IH by exact H1. rewrite qsum_one by exact Hp. rewrite map_app, qsum_app. cbn [map]. unfold qsum. cbn. ring.
Qed.
Lemma flat_nth {A} (g : nat -> nat -> A) n i d : i < n -> forall l c, c < length l -> nth (c * n + i) (flat_map (fun cell => map (g cell) (seq 0 n)) l) d = g (nth c l 0) i.
Proof.
  intros Hi l. induction l as [|a l IH]; intros [|c] Hc; cbn [length] in Hc; try lia; cbn [flat_map nth].
  - rewrite app_nth1 by (rewrite map_length, seq_length; lia). cbn [Nat.mul Nat.add]. rewrite nth_indep with (d' := g a 0) by (rewrite map_length, seq_length; lia). rewrite map_nth, seq_nth by lia. reflexivity.
  - rewrite app_nth2; rewrite map_length, seq_length; [|cbn; lia]. replace (S c * n + i - n) with (c * n + i) by (cbn; lia). apply IH. lia.
Qed.
Lemma same_nth (a b : list Q) i : Forall2 Qeq a b -> (nth i a 0 == nth i b 0)%Q.
Proof. intros H. revert i. induction H as [|x y a b Hx _ IH]; intros [|i]; cbn [nth]; try reflexivity; [exact Hx|apply IH]. Qed.

(** Projection conserves every component: after any history, a projection followed by a read of the
    coefficients gives coefficients whose total over the mesh is the sum of the particle values. *)
Theorem C81_conservation : forall volumes points junk_ ops d junk' n ps i,
  setting_ok volumes points ->
  allowed_all volumes points no_fns (ops ++ [Project d junk' n ps; GetDofs n]) -> i < n ->
  exists s0 s outs dofs,
    construct junk_ volumes points = Some s0 /\
    run s0 (ops ++ [Project d junk' n ps; GetDofs n]) = Some (s, outs ++ [[]; [dofs]]) /\
    (total volumes n i dofs == qsum (map (fun p => nth i (snd p) 0) ps))%Q.
Proof.
  intros volumes points j ops d j' n ps i Hs Ha Hi. destruct (construct_ok volumes points Hs j) as (s0 & E0 & R0). exists s0.
  assert (G : forall ops s f acc, rep volumes points s f -> allowed_all volumes points f (ops ++ [Project d j' n ps; GetDofs n]) -> exists s' outs dofs,
    foldM (fun r o => x <- step (fst r) o ;; Some (fst x, snd r ++ [snd x])) (s, acc) (ops ++ [Project d j' n ps; GetDofs n]) = Some (s', acc ++ outs ++ [[]; [dofs]]) /\ (total volumes n i dofs == qsum (map (fun p => nth i (snd p) 0) ps))%Q).
  { clear - Hs Hi. induction ops as [|o ops IH]; intros s f acc R A.
    - cbn [app allowed_all] in A. destruct A as (A1 & A2 & _). cbn [app foldM fst snd]. destruct (project_ok volumes points Hs d j' s f n ps R A1) as (s1 & E1 & R1). cbn [step]. rewrite E1. cbn [obind fst snd foldM step]. destruct (get_ok volumes points s1 _ n R1 A2) as (r & E2 & S2). rewrite E2. cbn [obind fst snd]. exists s1, [], r. split; [rewrite <- app_assoc; reflexivity|].
      cbn [output] in S2. inversion S2 as [|? ? ? ? Sr _]; subst. unfold total. destruct A1 as (_ & Hn & Hp).
      rewrite (qsum_ext _ (fun c => part ps c i)).
      + apply all_parts. apply (Forall_impl _ (fun p H => proj1 H) Hp).
      + intros c Ic. apply in_seq in Ic. rewrite (same_nth _ _ (c * n + i) Sr). rewrite flat_nth by (rewrite ?seq_length; lia). rewrite seq_nth by lia. cbn [Nat.add after_project after val]. destruct (Nat.ltb_spec i n); [|lia]. unfold density. fold (part ps c i). destruct Hs as (Hv & _). rewrite Forall_forall in Hv. assert (V : (0 < nth c volumes 0)%Q) by (apply Hv, nth_In; lia). field. intros X. rewrite X in V. apply (Qlt_irrefl 0 V).
    - cbn [app allowed_all] in A. destruct A as (A1 & A2). cbn [app foldM fst snd]. destruct (step_ok volumes points Hs s f o R A1) as (s1 & out & E & R1 & _). rewrite E. cbn [obind fst snd]. destruct (IH s1 _ (acc ++ [out]) R1 A2) as (s2 & outs & dofs & E2 & T). exists s2, (out :: outs), dofs. split; [rewrite E2, <- app_assoc; reflexivity|exact T]. }
  destruct (G ops s0 no_fns [] R0 Ha) as (s & outs & dofs & E & T). exists s, outs, dofs. auto.
Qed.
Print Assumptions C81_conservation.

(** dmplex_project_evaluate_dg.hpp says of the constructor without points that get_dofs and evaluate use the
    existing coefficients.  An evaluation with more components than before loses them: the coefficients read
    afterwards are whatever the new memory contains. *)
Theorem C81_grow_refuted : ~ forall volumes junk_ dofs d junk' cells s0 s outs,
  Forall (fun v => 0 < v)%Q volumes -> length dofs = length volumes -> device_ok d -> Forall (fun c => c < length volumes) cells ->
  construct junk_ volumes None = Some s0 ->
  run s0 [SetDofs junk' 1 dofs; Evaluate d junk' 2 cells; GetDofs 1] = Some (s, outs) ->
  same (nth 2 outs []) [dofs].
Proof.
  intros H. specialize (H [2%Q] (fun _ => 0%Q) [5%Q] {| ord := fun A _ l => l; junk := fun _ _ => 0%Z; local_size := 1; max_compute_units := 1 |} (fun _ => 0%Q) [0] (mk_dg [(1 / 2)%Q] 1 [0%Q] None []) (mk_dg [(1 / 2)%Q] 2 [0%Q; 0%Q] None []) [[]; [[0%Q; 0%Q]]; [[0%Q]]]).
  assert (X : same [[0%Q]] [[5%Q]]) by (apply H; [constructor; [reflexivity|constructor]|reflexivity|split; [intros; apply Permutation.Permutation_refl|cbn; lia]|constructor; [cbn; lia|constructor]|reflexivity|reflexivity]).
  inversion X as [|? ? ? ? Y _]; subst. inversion Y as [|? ? ? ? Z0 _]; subst. discriminate Z0.
Qed.
Print Assumptions C81_grow_refuted.

(** Two cells of volumes 2 and 4; a device that runs the particles backwards; new memory full of sevens. *)
Definition ex_dev : device := {| ord := fun A _ l => rev l; junk := fun _ _ => 7%Z; local_size := 1; max_compute_units := 1 |}.
Definition ex_ps : list (nat * list Q) := [(0, [1; 10]%Q); (1, [2; 20]%Q); (0, [3; 30]%Q)].
Definition ex_ops : list op :=
  [Project ex_dev (fun _ => 7%Q) 2 ex_ps; Evaluate ex_dev (fun _ => 7%Q) 2 [1; 0]; GetDofs 1;
   SetDofs (fun _ => 7%Q) 1 [5; 6]%Q; GetDofs 2].
Definition ex_pts : list (nat * Z) := [(1, 0%Z); (0, 1%Z); (0, 0%Z)].
Definition ex_ops_points : list op :=
  [Project ex_dev (fun _ => 7%Q) 2 ex_ps; SetPoints 1 [[8]; [9]; [10]]%Q; Evaluate ex_dev (fun _ => 7%Q) 1 [0; 1];
   GetDofs 2; Evaluate ex_dev (fun _ => 7%Q) 2 [0]].
Example C81_example :
  (s <- construct (fun _ => 7%Q) [2; 4]%Q None ;; r <- run s ex_ops ;; Some (map (map (map Qred)) (snd r)))
    = Some [[]; [[1 # 2; 5]; [2; 20]]; [[2; 1 # 2]]; []; [[5; 0; 6; 0]]]%Q /\
  (s <- construct (fun _ => 7%Q) [2; 4]%Q (Some ex_pts) ;; r <- run s ex_ops_points ;; Some (map (map (map Qred)) (snd r)))
    = Some [[]; []; [[10]; [8]]; [[10; 20; 8; 5]]; [[2; 20]]]%Q.
Proof. split; vm_compute; reflexivity. Qed.
Lemma ex_dev_ok : device_ok ex_dev.
Proof. split; [intros; apply Permutation.Permutation_sym, Permutation.Permutation_rev|cbn; lia]. Qed.
Example C81_example_hypotheses :
  setting_ok [2; 4]%Q None /\ allowed_all [2; 4]%Q None no_fns ex_ops /\
  setting_ok [2; 4]%Q (Some ex_pts) /\ allowed_all [2; 4]%Q (Some ex_pts) no_fns ex_ops_points /\
  allowed_all [2; 4]%Q (Some ex_pts) no_fns (ex_ops_points ++ [Project ex_dev (fun _ => 7%Q) 2 ex_ps; GetDofs 2]).
Proof.
  assert (V : Forall (fun v => 0 < v)%Q [2; 4]%Q) by (repeat constructor).
  assert (P : Forall (fun p : nat * list Q => fst p < 2 /\ length (snd p) = 2) ex_ps) by (unfold ex_ps; repeat (apply Forall_cons; [cbn; split; [lia|reflexivity]|]); constructor).
  pose proof ex_dev_ok as D.
  split; [split; [exact V|exact I]|]. split; [|split; [|split]].
  - cbn. repeat split; try exact (proj1 D); try lia; try exact P; repeat (apply Forall_cons; [lia|]); constructor.
  - split; [exact V|]. cbn. split; [repeat (apply Forall_cons; [cbn; lia|]); constructor|]. split; [repeat constructor; cbn; lia|]. intros [|[|c]]; cbn; lia.
  - cbn. repeat split; try exact (proj1 D); try lia; try exact P; try discriminate; repeat (apply Forall_cons; [try lia; reflexivity|]); constructor.
  - cbn. repeat split; try exact (proj1 D); try lia; try exact P; try discriminate; repeat (apply Forall_cons; [try lia; reflexivity|]); constructor.
Qed.
