(** C83: every rank knows the owner of every cell of a distributed mesh. *)
From Coq Require Import List Arith ZArith Bool Lia Permutation.
Import ListNotations.
From Verif Require Import Base Halo_Model Numbering_Model Numbering_Spec Numbering_Proofs.
Local Open Scope nat_scope.

(** The cells of all ranks are numbered [base], [base + 1], ... : the map that all ranks get starts at [base] and holds for
    every cell the rank that owns it. *)
Theorem C83_owners : forall ps base, ps <> [] -> Forall plex_ok ps -> cells_ok ps base ->
  exists hs owners, mapM make ps = Some hs /\ get_map hs = Some (base, owners) /\
    length owners = length (flat_map owned_ids ps) /\
    forall r p g, nth_error ps r = Some p -> In g (owned_ids p) -> nth_error owners (Z.to_nat (g - base)) = Some (Z.of_nat r).
Proof.
  intros ps base NE H C. exists (map helper_of ps). destruct (owners_ok ps base NE H C) as (owners & A & B & D). exists owners. split; [apply helpers_ok; exact H|]. auto.
Qed.
Print Assumptions C83_owners.

(** A numbering of the cells with a gap is rejected: if a map is returned then the cells have consecutive numbers from its start. *)
Theorem C83_gaps : forall ps hs base owners, ps <> [] -> Forall plex_ok ps -> NoDup (flat_map owned_ids ps) ->
  (forall g, In g (flat_map owned_ids ps) -> (g <= int_max)%Z) ->
  mapM make ps = Some hs -> get_map hs = Some (base, owners) -> cells_ok ps base.
Proof.
  intros ps hs base owners NE H ND IM Eh E. rewrite (proj1 (helpers_ok ps H)) in Eh. injection Eh as <-. eapply contiguous_ok; eauto.
Qed.
Print Assumptions C83_gaps.

(** Two ranks with two cells and one cell, a cell of the other rank each, and one more point. *)
Definition ex_plex (nums : list Z) (cells : nat) : plex :=
  Plex (mk_dm 0 (Z.of_nat (length nums)) (fun _ => []) (fun _ => 0%Z) 0 (fun _ => [])) (fun p => nth (Z.to_nat p) nums 0%Z) 0 (Z.of_nat cells).
Definition ex_ps : list plex := [ex_plex [5; 3; -5; 6]%Z 3; ex_plex [-4; 4; 7]%Z 2].
Example C83_example : exists hs, mapM make ex_ps = Some hs /\ get_map hs = Some (3, [0; 1; 0])%Z.
Proof. eexists. split; reflexivity. Qed.
Lemma ex_ok nums cells : NoDup (map global_number nums) -> cells <= length nums -> owned_points (ex_plex nums cells) <> [] -> plex_ok (ex_plex nums cells).
Proof.
  intros ND L NE. split; [|split; [cbn; lia|exact NE]]. cbn [ex_plex p_dm p_num pstart pend]. intros x y Hx Hy E. rewrite NoDup_nth_error in ND.
  assert (X : Z.to_nat x = Z.to_nat y); [|lia]. apply ND; [rewrite map_length; lia|]. rewrite !nth_error_map, !(nth_error_nth' _ 0%Z) by lia. cbn [option_map]. congruence.
Qed.
Example C83_example_hypotheses : ex_ps <> [] /\ Forall plex_ok ex_ps /\ cells_ok ex_ps 3 /\ NoDup (flat_map owned_ids ex_ps) /\
  (forall g, In g (flat_map owned_ids ex_ps) -> (g <= int_max)%Z).
Proof.
  split; [discriminate|]. split; [|split; [|split]].
  - repeat apply Forall_cons; [| |apply Forall_nil]; (apply ex_ok; [repeat constructor; cbn; intuition lia|cbn; lia|discriminate]).
  - split; [lia|]. split; [vm_compute; discriminate|]. vm_compute. apply Permutation_trans with [3; 5; 4]%Z; [apply perm_swap|apply perm_skip, perm_swap].
  - change (NoDup [5; 3; 4]%Z). repeat (apply NoDup_cons; [cbn; intuition lia|]). apply NoDup_nil.
  - change (forall g, In g [5; 3; 4]%Z -> (g <= int_max)%Z). cbn. unfold int_max. intuition lia.
Qed.
Example C83_gap_example : forall hs, mapM make [ex_plex [5; 3]%Z 2; ex_plex [6]%Z 1] = Some hs -> get_map hs = None.
Proof. intros hs [= <-]. reflexivity. Qed.
