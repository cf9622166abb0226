(** Properties of the moves of all ranks on a Cartesian mesh. *)
From Coq Require Import List Arith ZArith QArith Bool Lia Permutation.
Import ListNotations.
From Verif Require Import Base Kernel Group_Model Group_Spec Group_Proofs Add_Model Pack_Model Pack_Spec Exchange_Model Exchange_Spec Exchange_Props
  Mesh_Model Mesh_Spec CartMesh_Model CartMesh_Spec CartMesh_Props CartMap_Model CartMap_Spec CartMap_Props
  CartMove_Model CartMove_Spec CartMove_Proofs CartMove2_Proofs CartMove3_Proofs.
Local Open Scope nat_scope.

(** What the ranks have at hand: working devices, a packing buffer with a column per rank. *)
Definition envs_ok {byte} (m : cmesh) (env : nat -> rank_env Q byte) : Prop :=
  forall r, r < csize (comm m) -> device_ok (e_dev (env r)) /\ csize (comm m) <= length (e_buf0 (env r)).

(** For every mesh, number of ranks, distribution of the particles, schedule on
    each rank and arrival order of the messages: if all positions are in the
    domain then hybrid_move succeeds and brings every particle to the rank that
    owns the cell that contains it.  No particle is lost, duplicated or changed
    in anything but the two components of its rank, and the groups can be moved
    again. *)
Theorem C54_hybrid_move_brings_particles_to_their_rank :
  forall m owners, cmesh_ok m -> owner_map m owners -> int_grid m ->
  forall byte (E : encoding Q byte), encoding_ok E -> forall spR spZ genv lenv, envs_ok m genv -> envs_ok m lenv ->
  forall garr larr, (forall r l, Permutation (garr r l) l) -> (forall r l, Permutation (larr r l) l) ->
  forall uninit cid pid rid gs, groups_ok m spR spZ cid pid rid gs -> all_inside m pid gs ->
  exists gs', hybrid_move E spR spZ m owners genv lenv uninit cid pid rid garr larr gs = Some gs' /\
    on_its_rank m pid gs' /\ conserved [rid; rid + 1] gs gs' /\ groups_ok m spR spZ cid pid rid gs'.
Proof.
  intros m owners H OM IG byte E EOk spR spZ genv lenv Hg Hl garr larr Ga La uninit cid pid rid gs G IN.
  destruct (hybrid_ok m H owners OM IG cid pid rid E EOk spR spZ genv lenv uninit garr larr Hg Hl Ga La gs G IN) as (gs' & E1 & G1 & C1 & O1). exists gs'. auto.
Qed.
Print Assumptions C54_hybrid_move_brings_particles_to_their_rank.

(** Afterwards cell_move puts every particle in the cell that contains it. *)
Theorem C54_cell_move_puts_particles_in_their_cell :
  forall m, cmesh_ok m -> int_grid m -> (forall r, r < csize (comm m) -> int_cells m r) ->
  forall byte spR spZ (env : nat -> rank_env Q byte), (forall r, r < csize (comm m) -> device_ok (e_dev (env r))) ->
  forall pad, 1 <= pad -> forall cid pid rid gs, groups_ok m spR spZ cid pid rid gs -> on_its_rank m pid gs ->
  exists gs', cell_move_all m env pad pid cid gs = Some gs' /\
    in_its_cell m pid gs' /\ conserved [cid] gs gs' /\ groups_ok m spR spZ cid pid rid gs'.
Proof.
  intros m H IG IC byte spR spZ env Hd pad HP cid pid rid gs G O. destruct (cell_move_ok m H IG IC cid pid rid spR spZ env pad gs Hd HP G O) as (gs' & E1 & G1 & C1 & O1). exists gs'. auto.
Qed.
Print Assumptions C54_cell_move_puts_particles_in_their_cell.

(** Periodic boundary conditions, hybrid_move and cell_move together: wherever
    the particles were, each is afterwards wrapped into the domain and in the
    cell that contains it, on the rank that owns that cell. *)
Theorem C54_time_step :
  forall m owners, cmesh_ok m -> owner_map m owners -> int_grid m -> (forall r, r < csize (comm m) -> int_cells m r) ->
  forall byte (E : encoding Q byte), encoding_ok E -> forall spR spZ genv lenv cenv, envs_ok m genv -> envs_ok m lenv -> envs_ok m cenv ->
  forall garr larr, (forall r l, Permutation (garr r l) l) -> (forall r l, Permutation (larr r l) l) -> forall pad, 1 <= pad ->
  forall uninit cid pid rid gs, groups_ok m spR spZ cid pid rid gs ->
  (forall r g p, nth_error gs r = Some g -> In p (particles g) -> few_domains m (position pid p)) ->
  exists gs', time_step_move E spR spZ m owners genv lenv cenv uninit pad cid pid rid garr larr gs = Some gs' /\
    in_its_cell m pid gs' /\ groups_ok m spR spZ cid pid rid gs' /\
    exists ps, Permutation ps (flat_map particles gs) /\
      Forall2 (fun p p' => exists q, wrapped m pid None p q /\ same_except [rid; rid + 1; cid] q p') ps (flat_map particles gs').
Proof.
  intros m owners H OM IG IC byte E EOk spR spZ genv lenv cenv Hg Hl Hc garr larr Ga La pad HP uninit cid pid rid gs G FD.
  destruct (time_step_ok m H owners OM IG IC cid pid rid E EOk spR spZ genv lenv cenv uninit garr larr Hg Hl (fun r L => proj1 (Hc r L)) Ga La pad gs HP G FD) as (gs' & E1 & G1 & I1 & C1). exists gs'. auto.
Qed.
Print Assumptions C54_time_step.

(** ** Six by four cells of width a half on four ranks *)
Definition enc54 : encoding Q Q := mk_encoding Q Q 2 1 (fun x => [x; 7#1]%Q)
  (fun bs => match bs with [a; _] => Some a | _ => None end) (fun z => [inject_Z z]) (fun bs => match bs with [a] => Some (Qnum a) | _ => None end).
Definition env54 (r : nat) : rank_env Q Q := mk_env dev52 (Nat.even r) (repeat [5#1]%Q 4) (fun _ _ => 8#1)%Q (fun _ => 9#1)%Q (fun _ => 4#1)%Q (fun _ _ _ => 3#1)%Q (fun _ _ _ => 66%Z).
Definition spR54 : pspec := [(0, 2); (1, 1)].
Definition spZ54 : pspec := [(0, 1); (1, 2)].
(** Rank 0 has a particle in cell 0 and two in cell 1, rank 1 one in cell 4, rank 3
    one in cell 0; REAL:
    x, y, a weight; INT: cell, rank, local rank. *)
Definition gs54_at (x y z : Q) : list (group Q) :=
  [ mk_group (mk_store [ [[2#10]; [x; 17#10]; []; []; []; []]; [[3#10]; [7#10; y]; []; []; []; []]; [[1#1]; [2#1; 3#1]; []; []; []; []] ]%Q
               [ [[0]; [1; 1]; []; []; []; []]; [[0]; [5; -9]; []; []; []; []]; [[0]; [0; 2]; []; []; []; []] ]%Z) [1; 2; 0; 0; 0; 0];
    mk_group (mk_store [ [[]; []; []; []; [22#10]; []]; [[]; []; []; []; [z]; []]; [[]; []; []; []; [5#1]; []] ]%Q
               [ [[]; []; []; []; [4]; []]; [[]; []; []; []; [1]; []]; [[]; []; []; []; [1]; []] ]%Z) [0; 0; 0; 0; 1; 0];
    mk_group (mk_store [ repeat [] 6; repeat [] 6; repeat [] 6 ] [ repeat [] 6; repeat [] 6; repeat [] 6 ]) (repeat 0 6);
    mk_group (mk_store [ [[3#10]; []; []; []; []; []]; [[4#10]; []; []; []; []; []]; [[4#1]; []; []; []; []; []] ]%Q
               [ [[0]; []; []; []; []; []]; [[0]; []; []; []; []; []]; [[0]; []; []; []; []; []] ]%Z) [1; 0; 0; 0; 0; 0] ].
Definition show54 (gs : list (group Q)) := map (fun g => map (fun c => match cell_particles g c with Some ps => map (fun p => (map Qred (fst p), snd p)) ps | None => [] end) (seq 0 6)) gs.
Definition arr54 (r : nat) {A} (l : list A) := rev l.
(** Three positions outside the domain; the same wrapped. *)
Definition gs54 : list (group Q) := gs54_at (-1#10) (31#10) (52#10).
Definition gs54_in : list (group Q) := gs54_at (29#10) (11#10) (12#10).
Example C54_instance :
  option_map show54 (time_step_move enc54 spR54 spZ54 m2 owners2 env54 env54 env54 (fun _ => []) 2 0 0 1 (fun r => arr54 r) (fun r => arr54 r) gs54) =
  Some [ [ [([1#5; 3#10; 1#1]%Q, [0; -1; 0]%Z); ([3#10; 2#5; 4#1]%Q, [0; -1; 0]%Z)]; []; []; []; []; [] ];
         [ []; []; []; []; []; [] ];
         [ []; []; []; []; []; [([29#10; 7#10; 2#1]%Q, [5; -1; 2]%Z)] ];
         [ [([17#10; 11#10; 3#1]%Q, [0; -1; 3]%Z)]; [([11#5; 6#5; 5#1]%Q, [1; 3; 3]%Z)]; []; []; []; [] ] ].
Proof. vm_compute. reflexivity. Qed.
Example C54_instance_hypotheses :
  cmesh_ok m2 /\ owner_map m2 owners2 /\ int_grid m2 /\ (forall r, r < csize (comm m2) -> int_cells m2 r) /\ encoding_ok enc54 /\ envs_ok m2 env54 /\
  (forall r (l : list (nat * message (byte:=Q))), Permutation (arr54 r l) l) /\
  (forall x y z, groups_ok m2 spR54 spZ54 0 0 1 (gs54_at x y z)) /\ all_inside m2 0 gs54_in /\
  (forall r g p, nth_error gs54 r = Some g -> In p (particles g) -> few_domains m2 (position 0 p)).
Proof.
  destruct C52_instance_hypotheses as (A & B & D & _ & _ & IG & _). split; [exact A|]. split; [exact B|]. split; [exact IG|].
  split; [intros r L n En; cbn in L; do 4 (destruct r as [|r]; [vm_compute in En; injection En as <-; vm_compute; reflexivity|]); lia|].
  split; [repeat split|]. split; [intros r L; split; [exact D|cbn in *; lia]|]. split; [intros r l; symmetry; apply Permutation_rev|].
  assert (NE : forall (gs : list (group Q)) r g, nth_error gs r = Some g -> r < length gs) by (intros gs r g Eg; eapply nth_error_some_lt; eauto).
  split; [|split].
  - intros x y z. split; [reflexivity|]. split; [discriminate|]. split; [discriminate|]. intros r g Eg. pose proof (NE _ _ _ Eg) as L. cbn in L.
    do 4 (destruct r as [|r]; [cbn [nth_error gs54_at] in Eg; injection Eg as <-; split; [apply wf_groupb_sound; reflexivity|]; do 6 (split; [first [reflexivity|cbn; lia]|]);
      intros p I; cbn in I; repeat (destruct I as [<-|I]; [eexists; split; [reflexivity|lia]|]); destruct I|]). lia.
  - intros r g p Eg I i Li. pose proof (NE _ _ _ Eg) as L. cbn in L.
    do 4 (destruct r as [|r]; [cbn [nth_error gs54_in gs54_at] in Eg; injection Eg as <-; cbn in I;
      repeat (destruct I as [<-|I]; [destruct i as [|[|i]]; [vm_compute; split; discriminate..|cbn in Li; lia]|]); destruct I|]). lia.
  - intros r g p Eg I i Li. pose proof (NE _ _ _ Eg) as L. cbn in L.
    do 4 (destruct r as [|r]; [cbn [nth_error gs54 gs54_at] in Eg; injection Eg as <-; cbn in I;
      repeat (destruct I as [<-|I]; [destruct i as [|[|i]]; [vm_compute; split; reflexivity..|cbn in Li; lia]|]); destruct I|]). lia.
Qed.
(** So after hybrid_move the hypotheses of the second theorem hold, of groups
    with particles. *)
Example C54_instance_moved : exists gs, groups_ok m2 spR54 spZ54 0 0 1 gs /\ on_its_rank m2 0 gs /\ length (flat_map particles gs) = 5.
Proof.
  destruct C54_instance_hypotheses as (A & B & IG & _ & EO & EN & AR & G & IN & _).
  destruct (C54_hybrid_move_brings_particles_to_their_rank m2 owners2 A B IG Q enc54 EO spR54 spZ54 env54 env54 EN EN (fun r => arr54 r) (fun r => arr54 r) AR AR (fun _ => []) 0 0 1 gs54_in (G _ _ _) IN)
    as (gs' & _ & O & (ps & P & F) & G'). exists gs'. split; [exact G'|]. split; [exact O|]. apply Permutation_length in P.
  transitivity (length ps); [clear -F; induction F; cbn; congruence|rewrite P; reflexivity].
Qed.
