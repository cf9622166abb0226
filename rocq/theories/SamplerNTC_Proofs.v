(** Proofs about the sampler with replacement: the waves of a block. *)
From Coq Require Import List Arith Lia ZArith QArith Bool Permutation.
Import ListNotations.
From Verif Require Import Base Kernel Scan_Model Mesh_Model PairList_Spec PairHost_Proofs SamplerNTC_Model SamplerNTC_Spec.
Local Open Scope nat_scope.

(** ** Greedy waves *)
Definition pushes_of (ps : list (nat * nat)) : list push := map (pair 0) ps.
Definition gw (ps : list (nat * nat)) : list nat := wave_list (pushes_of ps).
Definition nxt (ps : list (nat * nat)) (p : nat) : nat := next (tags (pushes_of ps)) 0 p.

Lemma gw_snoc ps p : gw (ps ++ [p]) = gw ps ++ [Nat.max (nxt ps (fst p)) (nxt ps (snd p))].
Proof. unfold gw, wave_list, pushes_of. rewrite map_app. cbn [map]. rewrite tags_snoc. unfold tag. rewrite map_app. reflexivity. Qed.

Lemma nxt_snoc ps p l : nxt (ps ++ [p]) l =
  if (fst p =? l) || (snd p =? l) then S (Nat.max (nxt ps (fst p)) (nxt ps (snd p))) else nxt ps l.
Proof. unfold nxt, pushes_of. rewrite map_app. cbn [map]. rewrite tags_snoc, next_tag. unfold touches. cbn [fst snd]. rewrite Nat.eqb_refl. reflexivity. Qed.

Lemma gw_length ps : length (gw ps) = length ps.
Proof. unfold gw. rewrite wave_list_length. unfold pushes_of. apply map_length. Qed.

Lemma nwaves_gw ps : nwaves (tags (pushes_of ps)) 0 = list_max (map S (gw ps)).
Proof.
  unfold nwaves, gw, wave_list. rewrite map_map. f_equal.
  assert (F : forall t, In t (tags (pushes_of ps)) -> fst (fst t) = 0).
  { intros t Ht. apply (in_map fst) in Ht. rewrite tags_fst in Ht. unfold pushes_of in Ht. apply in_map_iff in Ht as [x [E _]]. rewrite <- E. auto. }
  revert F. generalize (tags (pushes_of ps)). intros T F. induction T as [|t T IH]; auto. cbn [filter].
  pose proof (F t (or_introl eq_refl)) as F0. unfold push in F0. rewrite F0.
  cbn [Nat.eqb map]. f_equal. apply IH. intros; apply F; right; auto.
Qed.

(** [ws] are the waves that the pairs get when they are processed in the order [o]. *)
Definition greedy_in (o : list nat) (PS : list (nat * nat)) (ws : list nat) : Prop :=
  Permutation o (seq 0 (length PS)) /\ length ws = length PS /\
  forall x l, nth_error o x = Some l -> nth_error ws l = nth_error (gw (map (fun l => nth l PS (0, 0)) o)) x.

Lemma greedy_perm o PS ws : greedy_in o PS ws -> Permutation ws (gw (map (fun l => nth l PS (0, 0)) o)).
Proof.
  intros [P [L H]].
  transitivity (map (fun l => nth l ws 0) o).
  - rewrite (Permutation_map _ P), <- L. replace (map _ _) with ws; auto. apply nth_error_ext. intros x.
    rewrite nth_error_map_seq. destruct (Nat.ltb_spec x (length ws)); cbn [Nat.add]; [apply nth_error_nth'; auto|apply nth_error_None; auto].
  - replace (map (fun l => nth l ws 0) o) with (gw (map (fun l => nth l PS (0, 0)) o)); auto.
    apply nth_error_ext. intros x. rewrite nth_error_map. destruct (nth_error o x) as [l|] eqn:E; cbn [option_map].
    + rewrite <- (H x l E). apply nth_error_nth'. rewrite L. apply nth_error_In in E. apply (Permutation_in _ P), in_seq in E. lia.
    + apply nth_error_None. rewrite gw_length, map_length. apply nth_error_None; auto.
Qed.

Lemma list_max_perm l l' : Permutation l l' -> list_max l = list_max l'.
Proof. induction 1; cbn; unfold list_max in *; lia. Qed.

Lemma greedy_apart o PS ws x y p q w w' : greedy_in o PS ws -> nth_error PS x = Some p -> nth_error PS y = Some q ->
  nth_error ws x = Some w -> nth_error ws y = Some w' -> share p q ->
  forall x' y', nth_error o x' = Some x -> nth_error o y' = Some y -> x' < y' -> w < w'.
Proof.
  intros [P [L H]] Hp Hq Hw Hw' Sh x' y' Ox Oy Lt. rewrite (H _ _ Ox) in Hw. rewrite (H _ _ Oy) in Hw'.
  apply (conflict_order (pushes_of (map (fun l => nth l PS (0, 0)) o)) x' y' (0, p) (0, q) w w'); auto.
  - unfold pushes_of. rewrite map_map, nth_error_map, Ox. cbn [option_map]. erewrite nth_error_nth; eauto.
  - unfold pushes_of. rewrite map_map, nth_error_map, Oy. cbn [option_map]. erewrite nth_error_nth; eauto.
  - unfold in_conflict, share in *. cbn [fst snd]. auto.
Qed.

Lemma nth_error_combine {A B} (l : list A) (l' : list B) i a b :
  nth_error (combine l l') i = Some (a, b) <-> nth_error l i = Some a /\ nth_error l' i = Some b.
Proof.
  revert l' i. induction l as [|x l IH]; intros [|y l'] [|i]; cbn; try (split; [discriminate|intros [? ?]; discriminate]).
  - split; [intros [= <- <-]; auto|intros [[= <-] [= <-]]; auto].
  - apply IH.
Qed.

Lemma share_sym p q : share p q -> share q p.
Proof. unfold share. intuition. Qed.

Lemma greedy_good o PS ws : greedy_in o PS ws -> good_block (combine PS ws) (list_max (map S ws)).
Proof.
  intros G. pose proof G as [P [L H]]. constructor.
  - intros x y p q w N Hx Hy Sh. apply nth_error_combine in Hx as [Px Wx], Hy as [Py Wy].
    assert (exists x', nth_error o x' = Some x) as [x' Ox].
    { apply In_nth_error. apply (Permutation_in _ (Permutation_sym P)), in_seq. apply nth_error_some_lt in Px. lia. }
    assert (exists y', nth_error o y' = Some y) as [y' Oy].
    { apply In_nth_error. apply (Permutation_in _ (Permutation_sym P)), in_seq. apply nth_error_some_lt in Py. lia. }
    destruct (lt_eq_lt_dec x' y') as [[Lt|E]|Lt].
    + pose proof (greedy_apart _ _ _ _ _ _ _ _ _ G Px Py Wx Wy Sh _ _ Ox Oy Lt). lia.
    + subst. rewrite Ox in Oy. congruence.
    + pose proof (greedy_apart _ _ _ _ _ _ _ _ _ G Py Px Wy Wx (share_sym _ _ Sh) _ _ Oy Ox Lt). lia.
  - intros w. pose proof (greedy_perm _ _ _ G) as GP. set (Q := map (fun l => nth l PS (0, 0)) o) in *.
    rewrite (list_max_perm _ _ (Permutation_map S GP)), <- nwaves_gw.
    assert (I : (exists p, In (p, w) (combine PS ws)) <-> In w ws).
    { split.
      - intros [p Hp]. apply in_combine_r in Hp. auto.
      - intros Hw. apply In_nth_error in Hw as [x Hx]. destruct (nth_error_lt_some PS x) as [p Hp]; [apply nth_error_some_lt in Hx; lia|].
        exists p. apply nth_error_In with x. apply nth_error_combine. auto. }
    rewrite I. split.
    + intros Lt. apply wave_nonempty in Lt. apply (Permutation_in _ (Permutation_sym GP)). unfold gw, wave_list.
      unfold sel in Lt. destruct (filter _ (tags (pushes_of Q))) as [|t T] eqn:E; [cbn in Lt; congruence|].
      assert (In t (t :: T)) as F by (left; auto). rewrite <- E in F. apply filter_In in F as [F1 F2]. apply in_map_iff. exists t. split; auto.
      apply andb_true_iff in F2 as [_ F2]. apply Nat.eqb_eq in F2. auto.
    + intros Hw. rewrite nwaves_gw. apply (Permutation_in _ GP) in Hw. apply (in_map S) in Hw. apply list_max_in in Hw. lia.
Qed.

Lemma good_block_bound PS ws n : length ws = length PS -> good_block (combine PS ws) n -> n <= length PS.
Proof.
  intros L [_ G]. rewrite <- L, <- (seq_length n 0). apply NoDup_incl_length; [apply seq_NoDup|].
  intros w Hw. apply in_seq in Hw. destruct (proj1 (G w)) as [p Hp]; [lia|]. apply in_combine_r in Hp. auto.
Qed.
