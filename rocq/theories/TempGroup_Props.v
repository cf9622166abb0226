(** C85: temporary groups. *)
From Coq Require Import List Arith Bool Lia.
Import ListNotations.
From Verif Require Import Base Kernel TempGroup_Model TempGroup_Spec TempGroup_Proofs.
Local Open Scope nat_scope.

(** After any history of requests, returns, and changes of properties and particles of the source group and of the temporary
    groups, a request succeeds, leaves the source group as it is, and hands out a group with the current properties of the
    source group and no particles.  The groups in use do not
    change, and the group that is handed out leaves the stack, so that it is not handed out again before it is returned. *)
Theorem C85_get g p pn c cn es st :
  props_ok g p pn c cn -> run g es = Some st ->
  exists st' t, step st Get = Some st' /\ source st' = source st /\ used st' = t :: used st /\ stack st' = tl (stack st) /\ empty_copy t (source st).
Proof.
  intros H E. destruct (get_ok p pn c cn (length (npart g)) st) as (st' & t & A & _ & B & C & D); [|eauto 7].
  eapply run_ok; [|exact E]. split; [apply props_inv; [exact H|reflexivity]|]. split; constructor.
Qed.
Print Assumptions C85_get.

(** A source group (positions 1, cells 2) loses property 4 and gets property 5, and has property 3 with another number of
    components, while a temporary group that has seen the old properties, got an own property 6 and 7 particles, was returned. *)
Definition g0 : pg := PG [(1, (2, true)); (3, (1, false)); (4, (3, false))] [(mpi_rank, (2, false)); (2, (1, true))] 1 2 [4; 5].
Definition es0 : list event := [Get; Get; Temp 1 (AddReal 6 1); Temp 1 (Particles 1 7); Restore 1; Source (RemoveReal 4); Source (AddReal 5 2); Source (RemoveReal 3); Source (AddReal 3 2)].
Example C85_example :
  option_map (fun st => length (stack st)) (run g0 es0) = Some 1 /\
  option_map (fun st => option_map (fun t => (real t, npart t)) (nth_error (used st) 0)) (run g0 (es0 ++ [Get])) = Some (Some ([(1, (2, true)); (5, (2, false)); (3, (2, false))], [0; 0])).
Proof. split; vm_compute; reflexivity. Qed.
Example C85_example_hypotheses : props_ok g0 1 2 2 1.
Proof.
  split; [repeat constructor; cbn; intuition discriminate|]. split; [repeat constructor; cbn; intuition discriminate|]. do 2 (split; [reflexivity|]).
  split; [intros s n; cbn; split; [intros [E|[E|[E|[]]]]; try discriminate; injection E as <- <-; auto|intros (-> & ->); auto]|].
  split; [intros s n; cbn; split; [intros [E|[E|[]]]; try discriminate; injection E as <- <-; auto|intros (-> & ->); auto]|]. left. reflexivity.
Qed.

(** Full property: this holds for every change of the properties.  It does not when the positions dat is replaced: the source
    group gets another positions dat and the old one is removed, which is allowed; a temporary group that was returned before
    keeps the old positions dat, and the next request fails.  Without that group the request would succeed. *)
Theorem C85_replaced_positions_refuted : exists g es st r r' c,
  props_ok g 1 2 2 1 /\ run g es = Some st /\
  add_dat (real (source st)) 8 2 true = Some r /\ flagged r = Some 8 /\
  remove_dat [8] r 1 = Some r' /\
  c = PG r' (int_ (source st)) 8 (cell (source st)) (npart (source st)) /\
  get (State c (stack st) (used st)) = None /\ get (State c [] (used st)) <> None.
Proof.
  pose (st := State g0 [PG (real g0) (int_ g0) 1 2 [0; 0]] []). pose (r := real g0 ++ [(8, (2, true))]). pose (r' := tl r).
  exists g0, [Get; Restore 0], st, r, r', (PG r' (int_ g0) 8 2 [4; 5]). split; [exact C85_example_hypotheses|]. do 6 (split; [vm_compute; reflexivity|]). vm_compute. discriminate.
Qed.
Print Assumptions C85_replaced_positions_refuted.
