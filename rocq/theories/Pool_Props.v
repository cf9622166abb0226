(** C37: a pooled resource has one user at a time. *)
From Coq Require Import List Arith Bool Permutation Lia.
Import ListNotations.
From Verif Require Import Base Pool_Model Pool_Spec Pool_Proofs.

(** Whatever the calling code did before (with copies of the pointers, pointers
    dropped without restoring, objects restored under another key), [get] hands
    out an object that nobody holds: it was never handed out without being given
    back, no pointer of the calling code refers to it and it was not freed. *)
Theorem C37_get_is_exclusive cs s key : run cs = Some s ->
  exists s' o, step s (Get key) = Some s' /\ handles s' = handles s ++ [Some o] /\
    log s' = log s ++ [Got key o] /\
    ~ In o (held (log s)) /\ ~ In o (freed (log s)) /\ ~ In (Some o) (handles s).
Proof.
  intros R. apply inv_run in R. destruct (get_correct s key R) as [_ [o H]].
  exists (get_resource s key), o. split; [reflexivity|]. exact H.
Qed.
Print Assumptions C37_get_is_exclusive.

(** Every object constructed so far is exactly one of: available (once, in one
    stack), held, freed (once). *)
Theorem C37_objects_are_accounted_for cs s : run cs = Some s ->
  Permutation (seq 0 (next s))
    (flat_map (fun kp => stack (snd kp)) (pools s) ++ held (log s) ++ freed (log s)) /\
  (forall o, In (Some o) (handles s) -> In o (held (log s))).
Proof. intros R. apply inv_run in R. destruct R as (_ & P & H & _). split; auto. Qed.
Print Assumptions C37_objects_are_accounted_for.

(** Restoring a pointer takes it from the calling code and makes the object
    available.  It works exactly when the pointer is not null (in particular not
    restored before), the key is known and no other pointer refers to the
    object. *)
Theorem C37_restore cs s key h : run cs = Some s ->
  (exists s', step s (Restore key h) = Some s') <->
  (In key (map fst (pools s)) /\ exists o, nth_error (handles s) h = Some (Some o) /\
     forall h', nth_error (handles s) h' = Some (Some o) -> h' = h).
Proof.
  intros R. apply inv_run in R. cbn [step]. split.
  - intros [s' E]. destruct (restore_some s key h s' R E) as [_ (o & hs & A & B & _ & _ & D)]. split.
    + unfold restore_resource in E. destruct (find (pools s) key) eqn:F; [|discriminate].
      destruct (in_dec Nat.eq_dec key (map fst (pools s))) as [?|N]; auto. apply find_none in N. congruence.
    + exists o. split; auto. intros h' H'. destruct (Nat.eq_dec h' h) as [?|N]; auto. exfalso. apply D.
      apply (nth_error_In hs h'). rewrite (upd_nth_neq _ _ _ _ h' B N). auto.
  - intros [K [o [A B]]]. apply (restore_works s key h o); auto.
    intros F. apply find_none in F. contradiction.
Qed.
Print Assumptions C37_restore.

Theorem C37_restore_gives_back cs s key h s' : run cs = Some s -> step s (Restore key h) = Some s' ->
  exists o, nth_error (handles s) h = Some (Some o) /\ nth_error (handles s') h = Some None /\
    ~ In (Some o) (handles s') /\ log s' = log s ++ [Put key o] /\
    (forall h', h' <> h -> nth_error (handles s') h' = nth_error (handles s) h').
Proof.
  intros R E. apply inv_run in R. destruct (restore_some s key h s' R E) as [_ (o & hs & A & B & <- & D & F)].
  exists o. split; auto. split; [eapply upd_nth_eq; eauto|]. split; auto. split; auto.
  intros h' N. eapply upd_nth_neq; eauto.
Qed.
Print Assumptions C37_restore_gives_back.

(** [free] reports objects that were not given back, and succeeds when under
    each key as many objects were given back as handed out; then every object is
    freed. *)
Theorem C37_free cs s : run cs = Some s ->
  ((exists s', step s FreeAll = Some s') <-> forall k, gots k (log s) = puts k (log s)) /\
  (forall s', step s FreeAll = Some s' ->
     held (log s) = [] /\ pools s' = [] /\ Permutation (seq 0 (next s)) (freed (log s'))).
Proof.
  intros R0. pose proof (inv_run _ _ R0) as R. cbn [step]. split; [split|].
  - intros [s' E]. eapply free_all_some; eauto.
  - apply free_all_works; auto.
  - intros s' E. destruct (free_all_some s s' R E) as ((_ & P & _ & _) & _ & Ep & En & El & B).
    assert (H0 : held (log s) = []).
    { exact (balanced_held cs s R0 B). }
    split; auto. split; auto. rewrite Ep, En, El in P. cbn [flat_map stacks app] in P. rewrite held_freed, H0 in P. rewrite El. exact P.
Qed.
Print Assumptions C37_free.

Example C37_instance :
  exists s, run [Get 0; Get 0; Copy 0; Drop 2; Restore 0 0; Get 0; Get 1; Restore 0 1; Restore 0 3] = Some s /\
  handles s = [None; None; None; None; Some 2] /\ held (log s) = [2] /\ next s = 3 /\
  step s FreeAll = None /\ step s (Restore 0 0) = None /\
  exists s', run [Get 0; Get 0; Restore 0 0; Get 0; Restore 0 1; Restore 0 2; FreeAll] = Some s' /\ freed (log s') = [0; 1].
Proof. eexists. split; [vm_compute; reflexivity|]. repeat split; try (vm_compute; reflexivity). eexists. split; vm_compute; reflexivity. Qed.
