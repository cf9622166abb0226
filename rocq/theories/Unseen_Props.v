(** C78: values of particles that were not seen before. *)
From Coq Require Import List Arith ZArith Bool Lia Permutation Sorted.
Import ListNotations.
From Verif Require Import Base Kernel Maps_Model Maps_Spec Maps_Proofs Maps_Props Union_Model Union_Spec UnionTree_Proofs Unseen_Model.
Local Open Scope nat_scope.

(** The buffer is large enough for the particles. *)
Definition xcall_ok (c : xcall) : Prop := device_ok (x_dev c) /\ length (x_values c) <= length (x_buffer c).

Lemma last_added_in hist k : last_added (map (fun x : Z => (x, x)) hist) k <> None <-> In k hist.
Proof.
  induction hist as [|x l IH]; cbn [map last_added In]; [split; [congruence|tauto]|]. destruct (last_added (map (fun x0 : Z => (x0, x0)) l) k).
  - split; [intros _; right; apply IH; discriminate|discriminate].
  - destruct (Z.eqb_spec x k); [split; [auto|discriminate]|]. split; [congruence|]. intros [H|H]; [congruence|]. apply IH in H. congruence.
Qed.
Lemma adds_map f (l : list Z) t : foldM (fun t ix => add node_width f t ix ix) t l = foldM (fun t kv => add node_width f t (fst kv) (snd kv)) t (map (fun x => (x, x)) l).
Proof. revert t. induction l as [|x l IH]; intros t; cbn [foldM map fst snd]; [reflexivity|]. destruct (add node_width f t x x); cbn [obind]; [apply IH|reflexivity]. Qed.

Section Step.
  Variables (f : nat -> node Z) (hist : list Z) (t : tree Z).
  Hypothesis Hf : allocation node_width f.
  Hypothesis Ht : foldM (fun t kv => add node_width f t (fst kv) (snd kv)) new_tree (map (fun x => (x, x)) hist) = Some t.
  Definition unseen (v : Z) : bool := if in_dec Z.eq_dec v hist then false else true.

  Lemma item_eq s v : extract_item t s v = if unseen v then buf <- upd (snd s) (fst s) v ;; Some (fst s + 1, buf) else Some s.
  Proof.
    assert (G : forall k, tree_host_get node_width t k = Some (last_added (map (fun x => (x, x)) hist) k)). { intros k. destruct (C21_tree_is_a_finite_map Z node_width f (map (fun x => (x, x)) hist)) as (t' & E & G); [reflexivity|exact Hf|]. rewrite Ht in E. inversion E; subst. apply G. }
    specialize (G v). unfold tree_host_get in G. unfold extract_item. pose proof (last_added_in hist v) as LA.
    assert (B : (match root t with None => Some false | Some r => x <- get node_width (heap t) (Some r) v ;; Some (match x with Some _ => true | None => false end) end) = Some (negb (unseen v))).
    { destruct (root t) as [r|]; [rewrite G; cbn [obind]|]; unfold unseen; destruct (in_dec Z.eq_dec v hist) as [I|I].
      - apply LA in I. destruct (last_added _ v); [reflexivity|congruence].
      - destruct (last_added _ v); [exfalso; apply I, LA; discriminate|reflexivity].
      - apply LA in I. inversion G as [G']. rewrite <- G' in I. congruence.
      - reflexivity. }
    rewrite B. cbn [obind]. destruct (unseen v); reflexivity.
  Qed.

  Lemma items_ok sched : forall n buf, n + length sched <= length buf ->
    exists buf', foldM (extract_item t) (n, buf) sched = Some (n + length (filter unseen sched), buf') /\ length buf' = length buf /\ firstn (n + length (filter unseen sched)) buf' = firstn n buf ++ filter unseen sched.
  Proof.
    induction sched as [|v l IH]; intros n buf L; cbn [foldM filter length] in *.
    - exists buf. rewrite Nat.add_0_r, app_nil_r. auto.
    - rewrite item_eq. cbn [fst snd]. destruct (unseen v) eqn:U.
      + destruct (upd_some buf n v) as (b & Eb); [lia|]. rewrite Eb. cbn [obind]. pose proof (upd_length _ _ _ _ Eb) as Lb. destruct (IH (n + 1) b) as (b' & E & L' & F); [lia|]. exists b'. cbn [length]. replace (n + S (length (filter unseen l))) with (n + 1 + length (filter unseen l)) by lia. split; [exact E|]. split; [lia|]. rewrite F. replace (n + 1) with (S n) by lia.
        assert (Q : firstn (S n) b = firstn n buf ++ [v]). { apply nth_error_ext. intros k. rewrite nth_error_firstn. destruct (Nat.ltb_spec k (S n)) as [Lk|Lk].
          - rewrite (upd_nth _ _ _ _ k Eb). destruct (Nat.eqb_spec k n) as [->|N]; [rewrite nth_error_app2 by (rewrite firstn_length; lia); rewrite firstn_length, Nat.min_l, Nat.sub_diag by lia; reflexivity|]. rewrite nth_error_app1 by (rewrite firstn_length; lia). rewrite nth_error_firstn. destruct (Nat.ltb_spec k n); [reflexivity|lia].
          - symmetry. apply nth_error_None. rewrite app_length, firstn_length. cbn [length]. lia. }
        rewrite Q, <- app_assoc. reflexivity.
      + cbn [obind]. destruct (IH n buf) as (b' & E & L' & F); [lia|]. exists b'. auto.
  Qed.

  Lemma extract_ok c : xcall_ok c -> exists t' out, extract f t c = Some (t', out) /\ foldM (fun t kv => add node_width f t (fst kv) (snd kv)) new_tree (map (fun x => (x, x)) (hist ++ out)) = Some t' /\
    is_set out /\ forall v, In v out <-> In v (x_values c) /\ ~ In v hist.
  Proof.
    intros (Hd & Lb). unfold extract. pose proof (proj1 Hd _ 0 (x_values c)) as P. destruct (items_ok (ord (x_dev c) 0 (x_values c)) 0 (x_buffer c)) as (b & E & L & F); [rewrite (Permutation_length P); cbn; lia|]. rewrite E. cbn [obind fst snd plus].
    cbn [plus firstn app] in F. set (us := filter unseen (ord (x_dev c) 0 (x_values c))) in *.
    assert (LE : length us <= length b). { rewrite L. unfold us. transitivity (length (ord (x_dev c) 0 (x_values c))); [|rewrite (Permutation_length P); exact Lb]. clear. induction (ord (x_dev c) 0 (x_values c)) as [|a l IH]; cbn [filter length]; [lia|]. destruct (unseen a); cbn [length]; lia. }
    assert (HB : (if 0 <? length us then slice b 0 (length us) else Some []) = Some us). { destruct (Nat.ltb_spec 0 (length us)) as [H|H]; [rewrite slice_some by lia; rewrite Nat.sub_0_r; cbn [skipn]; rewrite F; reflexivity|]. destruct us; [reflexivity|cbn in H; lia]. }
    rewrite HB. cbn [obind]. rewrite adds_map. set (out := insert_all us []).
    destruct (C21_tree_is_a_finite_map Z node_width f (map (fun x => (x, x)) (hist ++ out))) as (t' & Et & _); [reflexivity|exact Hf|]. pose proof Et as Et'. rewrite map_app, foldM_app, Ht in Et. cbn [obind] in Et. rewrite Et. cbn [obind]. exists t', out. split; [reflexivity|]. split; [exact Et'|]. split; [apply insert_all_set; constructor|].
    intros v. unfold out. rewrite insert_all_in. unfold us. rewrite filter_In. unfold unseen. split.
    - intros [(I & U)|[]]. split; [eapply Permutation_in; [|exact I]; exact P|]. destruct (in_dec Z.eq_dec v hist); [discriminate|assumption].
    - intros (I & N). left. split; [eapply Permutation_in; [apply Permutation_sym; exact P|exact I]|]. destruct (in_dec Z.eq_dec v hist); [contradiction|reflexivity].
  Qed.
End Step.

(** Each call returns, as a set, the values of its particles that no earlier call met. *)
Theorem C78_unseen_values : forall (f : nat -> node Z) cs, allocation node_width f -> Forall xcall_ok cs ->
  exists t outs, extract_calls f cs = Some (t, outs) /\ length outs = length cs /\
    forall i c, nth_error cs i = Some c -> exists out, nth_error outs i = Some out /\ StronglySorted Z.lt out /\
      forall v, In v out <-> In v (x_values c) /\ forall j c', j < i -> nth_error cs j = Some c' -> ~ In v (x_values c').
Proof.
  intros f cs Hf Hc. unfold extract_calls.
  assert (G : exists s, foldM (fun s c => r <- extract f (fst s) c ;; Some (fst r, snd s ++ [snd r])) (new_tree, []) cs = Some s /\
    (exists hist, foldM (fun t kv => add node_width f t (fst kv) (snd kv)) new_tree (map (fun x => (x, x)) hist) = Some (fst s) /\ forall v, In v hist <-> exists c, In c cs /\ In v (x_values c)) /\
    length (snd s) = length cs /\ forall i c, nth_error cs i = Some c -> exists out, nth_error (snd s) i = Some out /\ is_set out /\
      forall v, In v out <-> In v (x_values c) /\ forall j c', j < i -> nth_error cs j = Some c' -> ~ In v (x_values c')).
  { induction cs as [|c cs IH] using rev_ind.
    - exists (new_tree, []). split; [reflexivity|]. split; [exists []; split; [reflexivity|]; intros v; split; [intros []|intros (c & [] & _)]|]. split; [reflexivity|]. intros [|i] c E; discriminate.
    - apply Forall_app in Hc. destruct Hc as (Hc & Hc1). inversion Hc1 as [|? ? Hok _]; subst. destruct (IH Hc) as ((t & outs) & E & (hist & Eh & Hh) & L & G). cbn [fst snd] in *. destruct (extract_ok f hist t Hf Eh c Hok) as (t' & out & Ex & Eh' & Sx & Ix).
      rewrite foldM_app, E. cbn [obind foldM fst snd]. rewrite Ex. cbn [obind fst snd]. exists (t', outs ++ [out]). split; [reflexivity|]. cbn [fst snd]. split.
      + exists (hist ++ out). split; [exact Eh'|]. intros v. rewrite in_app_iff, Ix, Hh. split.
        * intros [(c' & I & V)|(V & _)]; [exists c'; rewrite in_app_iff; auto|exists c; rewrite in_app_iff; cbn; auto].
        * intros (c' & I & V). apply in_app_iff in I. destruct I as [I|[<-|[]]]; [left; eauto|]. destruct (in_dec Z.eq_dec v hist) as [H|H]; [left; apply Hh; exact H|]. right. split; [exact V|]. intros X. apply H, Hh, X.
      + split; [rewrite !app_length; cbn; lia|]. intros i ci Ei. destruct (Nat.lt_ge_cases i (length cs)) as [Li|Li].
        * rewrite nth_error_app1 in Ei by exact Li. destruct (G i ci Ei) as (o & Eo & So & Io). exists o. rewrite nth_error_app1 by lia. split; [exact Eo|]. split; [exact So|]. intros v. rewrite Io. split; intros (V & N); (split; [exact V|]); intros j c' Lj Ej; apply (N j c' Lj); [rewrite nth_error_app1 in Ej by lia; exact Ej|rewrite nth_error_app1 by lia; exact Ej].
        * rewrite nth_error_app2 in Ei by exact Li. assert (i = length cs) by (destruct (i - length cs) eqn:D; [lia|]; cbn in Ei; destruct n; discriminate). subst i. rewrite Nat.sub_diag in Ei. inversion Ei; subst ci. exists out. rewrite nth_error_app2 by lia. rewrite L, Nat.sub_diag. split; [reflexivity|]. split; [exact Sx|]. intros v. rewrite Ix. split; intros (V & N); (split; [exact V|]).
          -- intros j c' Lj Ej X. apply N, Hh. exists c'. rewrite nth_error_app1 in Ej by exact Lj. split; [exact (nth_error_In _ _ Ej)|exact X].
          -- intros X. apply Hh in X. destruct X as (c' & I & X). apply In_nth_error in I. destruct I as (j & Ej). assert (Lj : j < length cs) by (apply nth_error_Some; rewrite Ej; discriminate). apply (N j c' Lj); [rewrite nth_error_app1 by exact Lj; exact Ej|exact X]. }
  destruct G as ((t & outs) & E & _ & L & G). exists t, outs. split; [exact E|]. split; [exact L|exact G].
Qed.
Print Assumptions C78_unseen_values.

(** ** An example: three calls, values repeated in a call and between calls, a negative value. *)
Definition dev78 : device := {| ord := fun A k l => rev l; junk := fun _ _ => 7%Z; local_size := 2; max_compute_units := 3 |}.
Definition fresh78 (i : nat) : node Z := mk_node 5 (Some 3) None (repeat true 128) (repeat 9%Z 128).
Definition calls78 : list xcall := [mk_xcall dev78 [0; 0; 0; 0]%Z [5; 300; 5]%Z; mk_xcall dev78 [1; 1; 1; 1]%Z []; mk_xcall dev78 [1; 1; 1; 1]%Z [300; -4; 5; 7]%Z].
Example C78_example : allocation node_width fresh78 /\ Forall xcall_ok calls78 /\ option_map snd (extract_calls fresh78 calls78) = Some [[5; 300]; []; [-4; 7]]%Z.
Proof.
  split; [intros i; split; reflexivity|]. split; [|vm_compute; reflexivity]. assert (D : device_ok dev78) by (split; [intros A k l; symmetry; apply Permutation_rev|cbn; lia]).
  repeat constructor; try apply D; cbn; lia.
Qed.
