(** C69: objects collected on the cells of the mesh hierarchy. *)
From Coq Require Import List Arith ZArith Bool Lia.
Import ListNotations.
From Verif Require Import Base Kernel Serial_Model MHC_Model MHC_Spec Edges_Spec Serial_Proofs MHCmsg_Proofs MHC_Proofs.
Local Open Scope nat_scope.

(** ** C69, first part: objects are read back from the bytes of a container, also if containers are appended to each other. *)
Theorem C69_serial_container : forall T (S : serial T) ok xs ys, serial_ok S ok -> Forall ok (xs ++ ys) -> (Z.of_nat (bytes_of S (xs ++ ys)) < 2 ^ 31)%Z ->
  exists a b, pack S xs = Some a /\ pack S ys = Some b /\ unpack S a = Some xs /\ unpack S (a ++ b) = Some (xs ++ ys).
Proof.
  intros T S ok xs ys H F L. pose proof F as F'. apply Forall_app in F'. destruct F' as (Fx & Fy). exists (packed S xs), (packed S ys). pose proof (bytes_small S _ L) as Sm. pose proof Sm as Sm'. apply Forall_app in Sm'. split; [apply (pack_packed S ok H), Fx|]. split; [apply (pack_packed S ok H), Fy|]. split; [apply (unpack_packed S ok H); tauto|]. rewrite <- packed_app. apply (unpack_packed S ok H); auto.
Qed.
Print Assumptions C69_serial_container.

(** ** C69: for every number of ranks, every ownership map, all objects on all ranks and every history of calls of gather, construction and gather
    succeed, in whatever order get_remote_ranks finds the ranks; then get returns on every rank, for a cell it has asked for or owns,
    the objects all ranks passed for the cell, rank by rank, each once; nothing for a cell without owner; and it fails for other cells. *)
Theorem C69_container : forall T (S : serial T) ok size owners data find0 (calls : list (remote * list (list Z))),
  serial_ok S ok -> data_ok S ok size owners data -> finds size find0 ->
  (forall f req, In (f, req) calls -> finds size f /\ request_ok S data size owners req) ->
  exists st0 st, construct S size owners find0 data = Some st0 /\ foldM (fun st c => gather size owners (fst c) st (snd c)) st0 calls = Some st /\ length st = size /\
    forall r m c, nth_error st r = Some m -> cell_ok owners c ->
      (forall o, owned size owners c o -> requested (map snd calls) r c \/ o = r /\ held data c -> get S m c = Some (objects data c)) /\
      ((forall o, ~ owned size owners c o) -> requested (map snd calls) r c -> get S m c = Some []) /\
      (~ requested (map snd calls) r c -> ~ (owned size owners c r /\ held data c) -> get S m c = None).
Proof.
  intros T S ok size owners data find0 calls HS D F0 Hc. exists (map (built S size owners data) (seq 0 size)).
  assert (K : forall l reqs stf, (forall f req, In (f, req) l -> finds size f /\ request_ok S data size owners req) -> inv S size owners data reqs stf ->
    exists stf', foldM (fun st c => gather size owners (fst c) st (snd c)) (map stf (seq 0 size)) l = Some (map stf' (seq 0 size)) /\ inv S size owners data (reqs ++ map snd l) stf').
  { induction l as [|(f, req) l IH]; intros reqs stf H I; [exists stf; split; [reflexivity|]; rewrite app_nil_r; exact I|]. destruct (H f req (or_introl eq_refl)) as (Ff & Rq). destruct (gather_ok S ok size owners data HS D f reqs stf req Ff I Rq) as (stf1 & E & I1). cbn [foldM fst snd]. rewrite E. cbn [obind].
    destruct (IH (reqs ++ [req]) stf1) as (stf' & E' & I'); [intros; apply H; right; auto|exact I1|]. exists stf'. split; [exact E'|]. cbn [map snd]. rewrite <- app_assoc in I'. exact I'. }
  destruct (K calls [] _ Hc (built_inv S ok size owners data HS D)) as (stf' & E & I'). exists (map stf' (seq 0 size)). split; [apply (construct_ok S ok); auto|]. split; [exact E|]. split; [rewrite map_length, seq_length; reflexivity|].
  intros r m c Hm C. assert (L : r < size) by (rewrite <- (seq_length size 0), <- (map_length stf'); apply nth_error_Some; congruence). rewrite nth_map_seq in Hm by exact L. inversion Hm; subst m. exact (get_ok S ok size owners data HS D (map snd calls) stf' r c I' L C).
Qed.
Print Assumptions C69_container.

(** ** Cases *)
(** Objects that are 64-bit integers. *)
Definition int_serial : serial Z := mk_serial Z (fun _ => 8) (fun x => Some (le 8 x)) (fun b => hr <- take 8 b ;; Some (signed 8 (un_le (fst hr)))).
Lemma int_serial_ok : serial_ok int_serial (fun x => (- 2 ^ 63 <= x < 2 ^ 63)%Z).
Proof.
  intros x H. exists (le 8 x). split; [reflexivity|]. split; [apply le_length|]. cbn [deser int_serial]. pose proof (take_app 8 (le 8 x) [] ltac:(rewrite le_length; reflexivity)) as E. rewrite app_nil_r in E. rewrite E. cbn [obind fst]. rewrite signed8 by exact H. reflexivity.
Qed.
(** get_remote_ranks that finds the ranks in decreasing order. *)
Definition find_down : remote := fun args => map (fun r => flat_map (fun s => map (fun x => (s, x)) (values r (nth s args []))) (rev (seq 0 (length args)))) (seq 0 (length args)).
Lemma values_tag s s' (l : list Z) : values s (map (fun x => (s', x)) l) = if s' =? s then l else [].
Proof. unfold values. induction l as [|x l IH]; [destruct (s' =? s); reflexivity|]. cbn [map filter fst]. destruct (s' =? s); [cbn [map snd]; rewrite IH; reflexivity|exact IH]. Qed.
Lemma values_flat s (g : nat -> list Z) : forall l, NoDup l -> values s (flat_map (fun s' => map (fun x => (s', x)) (g s')) l) = if in_dec Nat.eq_dec s l then g s else [].
Proof.
  induction l as [|a l IH]; intros N; [reflexivity|]. inversion N as [|? ? N1 N2]; subst. cbn [flat_map]. assert (A : forall u v, values s (u ++ v) = values s u ++ values s v) by (intros u v; unfold values; rewrite filter_app, map_app; reflexivity). rewrite A, values_tag, (IH N2). destruct (Nat.eqb_spec a s) as [->|X].
  - destruct (in_dec Nat.eq_dec s l); [contradiction|]. rewrite app_nil_r. destruct (in_dec Nat.eq_dec s (s :: l)) as [|Y]; [reflexivity|]. exfalso. apply Y. left. reflexivity.
  - destruct (in_dec Nat.eq_dec s l) as [J|J]; destruct (in_dec Nat.eq_dec s (a :: l)) as [J'|J']; try reflexivity; exfalso; [apply J'; right; exact J|destruct J'; contradiction].
Qed.
Lemma find_down_finds size : finds size find_down.
Proof.
  intros args L B. unfold find_down. split; [rewrite map_length, seq_length; exact L|]. intros r g E. assert (Lr : r < length args) by (assert (r < length (map (fun r => flat_map (fun s => map (fun x => (s, x)) (values r (nth s args []))) (rev (seq 0 (length args)))) (seq 0 (length args)))) as X by (apply nth_error_Some; congruence); rewrite map_length, seq_length in X; exact X).
  rewrite nth_map_seq in E by exact Lr. inversion E; subst g. split.
  - intros m I. apply in_flat_map in I. destruct I as (s & Is & I). apply in_rev, in_seq in Is. apply in_map_iff in I. destruct I as (x & <- & _). cbn. lia.
  - intros s Ls. rewrite (values_flat s (fun s => values r (nth s args []))) by (apply NoDup_rev, seq_NoDup). destruct (in_dec Nat.eq_dec s (rev (seq 0 (length args)))) as [|N]; [reflexivity|]. exfalso. apply N. rewrite <- in_rev. apply in_seq. lia.
Qed.
(** Three ranks; cells 0 and 1 belong to rank 0, cell 2 to rank 2, cell 3 to nobody. *)
Definition cm_owners (c : Z) : option Z := match c with 0 => Some 0 | 1 => Some 0 | 2 => Some 2 | 3 => Some (-1) | _ => None end%Z.
Definition cm_data : list (list (Z * list Z)) := [[(0, [10; 11]); (2, [12])]; [(0, [20]); (3, [99])]; [(2, [])]]%Z.
Definition cm_calls : list (remote * list (list Z)) := [(find_down, [[2; 3; 2]; [0; 2]; []]); (find_down, [[2]; []; [1]])]%Z.
Definition cm_end : option (list mhc) := st <- construct int_serial 3 cm_owners find_down cm_data ;; foldM (fun st c => gather 3 cm_owners (fst c) st (snd c)) st cm_calls.
Definition cm_get (r : nat) (c : Z) : option (option (list Z)) := option_map (fun st => m <- nth_error st r ;; get int_serial m c) cm_end.
Example C69_case : (cm_get 1 0, cm_get 1 2, cm_get 0 0, cm_get 0 2, cm_get 0 3, cm_get 2 1, cm_get 1 1, cm_get 2 0) =
  (Some (Some [10; 11; 20]%Z), Some (Some [12%Z]), Some (Some [10; 11; 20]%Z), Some (Some [12%Z]), Some (Some []), Some (Some []), Some None, Some None).
Proof. vm_compute. reflexivity. Qed.
Example C69_case_hypotheses : data_ok int_serial (fun x => (- 2 ^ 63 <= x < 2 ^ 63)%Z) 3 cm_owners cm_data /\
  forall f req, In (f, req) cm_calls -> finds 3 f /\ request_ok int_serial cm_data 3 cm_owners req.
Proof.
  assert (C : forall c, In c [0; 1; 2; 3]%Z -> cell_ok cm_owners c) by (intros c I; repeat (destruct I as [<-|I]); try contradiction; (split; [lia|discriminate])).
  split.
  - split; [reflexivity|]. split; [|reflexivity]. intros d I. repeat (destruct I as [<-|I]); try contradiction; (split; [repeat constructor; cbn; intuition discriminate|]); intros e Ie; cbn in Ie; repeat (destruct Ie as [<-|Ie]); try contradiction; (split; [apply C; cbn; tauto|repeat constructor; lia]).
  - intros f req I. repeat (destruct I as [I|I]); try contradiction; inversion I; subst; (split; [apply find_down_finds|]); (split; [reflexivity|]); intros cells Ic; cbn in Ic; repeat (destruct Ic as [<-|Ic]); try contradiction; (split; [intros c Jc; cbn in Jc; apply C; cbn; intuition|reflexivity]).
Qed.

(** Finding: the map from cells to buffers is keyed by int although cells are 64-bit: the objects of cells that agree modulo 2^32 are
    mixed. *)
Theorem C69_wide_cells_refuted : exists owners data c, (exists st m, construct int_serial 1 owners find_down data = Some st /\ nth_error st 0 = Some m /\ get int_serial m c <> Some (objects data c)) /\
  owned 1 owners c 0 /\ held data c /\ (forall d, In d data -> NoDup (map fst d) /\ forall e, In e d -> owned 1 owners (fst e) 0).
Proof.
  exists (fun _ => Some 0%Z), [[(0, [1]); (2 ^ 32, [2])]]%Z, 0%Z. split; [|split; [split; [lia|reflexivity]|split]].
  - assert (H : option_map (fun st => option_map (fun m => get int_serial m 0%Z) (nth_error st 0)) (construct int_serial 1 (fun _ => Some 0%Z) find_down [[(0, [1]); (2 ^ 32, [2])]]%Z) = Some (Some (Some [1; 2]%Z))) by (vm_compute; reflexivity).
    destruct (construct int_serial 1 (fun _ => Some 0%Z) find_down [[(0, [1]); (2 ^ 32, [2])]]%Z) as [st|]; [|discriminate]. cbn [option_map] in H. destruct (nth_error st 0) as [m|] eqn:E; [|discriminate]. cbn [option_map] in H. exists st, m. split; [reflexivity|]. split; [exact E|]. inversion H as [G]. rewrite G. vm_compute. discriminate.
  - exists [(0, [1]); (2 ^ 32, [2])]%Z, (0, [1])%Z. cbn. auto.
  - intros d [<-|[]]. split; [repeat constructor; cbn; intuition discriminate|]. intros e I. cbn in I. destruct I as [<-|[<-|[]]]; split; try lia; reflexivity.
Qed.
Print Assumptions C69_wide_cells_refuted.
