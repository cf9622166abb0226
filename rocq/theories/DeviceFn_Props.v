(** C33 to C36 and C40: device functions. *)
From Coq Require Import List Arith ZArith QArith Qabs Bool Permutation Lia Lqa.
Import ListNotations.
From Verif Require Import Base DeviceFn_Model DeviceFn_Spec DeviceFn_Proofs Cas_Proofs Bitonic_Proofs.
Open Scope nat_scope.

(* ------------------------------------------------------------------ *)
(** * C33: compare-and-swap maximum and minimum *)

Lemma steps_of {T} (acts : list (action T)) : no_stores acts -> forallb is_step acts = true.
Proof.
  intros H. apply forallb_forall. intros [i|x] Ha; auto. destruct (H x Ha).
Qed.

(** Whatever the interleaving of the work items and of other stores, the
    completed calls behave as if each ran at once at one moment: in the order of
    the log each returned the content of the memory and left the maximum
    (minimum); every call appears at most once and with the value it returned. *)
Theorem C33_linearisable {T} (ltb : T -> T -> bool) lim_min lim_max ops m0 acts s :
  total_order ltb -> execute ltb lim_min lim_max ops m0 acts = Some s ->
  sequentially ltb ops m0 (log s) (mem s) /\
  NoDup (returns_of (log s)) /\
  (forall i r, nth_error (items s) i = Some (Returned r) <-> In (Return i r) (log s)).
Proof.
  intros O E. destruct (good_execute ltb O ops m0 _ _ _ _ E) as (_ & H1 & H2 & H3 & H4).
  repeat split; auto.
Qed.
Print Assumptions C33_linearisable.

(** A logged store is a store of the execution. *)
Theorem C33_stores_are_real {T} (ltb : T -> T -> bool) lim_min lim_max ops m0 acts s x :
  execute ltb lim_min lim_max ops m0 acts = Some s -> In (Stored x) (log s) -> In (Store x) acts.
Proof.
  unfold execute. assert (N : ~ In (Stored x) (log (start lim_min lim_max ops m0))) by (intros []).
  intros E Hl. enough (In (Stored x) (log (start lim_min lim_max ops m0)) \/ In (Store x) acts) by tauto.
  clear N. revert E. generalize (start lim_min lim_max ops m0) as s0. induction acts as [|a acts IH]; intros s0 E; cbn [foldM] in E.
  - injection E as <-. auto.
  - destruct (act ltb ops s0 a) as [s1|] eqn:E1; [|discriminate]. cbn [obind] in E.
    destruct (IH s1 E) as [H|H]; [|right; right; auto].
    destruct a as [i|y]; cbn [act] in E1.
    + left. destruct (rd ops i) as [[o v]|]; [|discriminate]. cbn [obind] in E1.
      destruct (rd (items s0) i) as [[e|r]|]; try discriminate. cbn [obind fst snd] in E1.
      destruct (iteration ltb o v (mem s0) e) as [m' it'].
      destruct (upd (items s0) i it'); [|discriminate]. injection E1 as <-. cbn [log] in H.
      apply in_app_iff in H. destruct H as [H|H]; [auto|]. destruct it'; cbn in H; intuition discriminate.
    + injection E1 as <-. cbn [log] in H. apply in_app_iff in H. destruct H as [H|[H|[]]]; auto.
      injection H as ->. right; left; auto.
Qed.
Print Assumptions C33_stores_are_real.

(** Without other stores the loops end: [n] calls take at most [n * (n + 2)]
    iterations in total, and until all have returned some call can go on. *)
Theorem C33_terminates {T} (ltb : T -> T -> bool) lim_min lim_max ops m0 acts s :
  total_order ltb -> no_stores acts -> execute ltb lim_min lim_max ops m0 acts = Some s ->
  length acts <= length ops * (length ops + 2) /\
  (finished (items s) \/ exists i s', execute ltb lim_min lim_max ops m0 (acts ++ [Step i]) = Some s').
Proof.
  intros O N E. split.
  - pose proof (steps_bound ltb O ops acts _ _ (steps_of _ N) E).
    pose proof (measure_bound ltb ops m0 lim_min lim_max). unfold execute in E. lia.
  - destruct (forallb (fun it => match it with Returned _ => true | Trying _ => false end) (items s)) eqn:F.
    + left. intros i it Hi. rewrite forallb_forall in F. specialize (F it (nth_error_In _ _ Hi)). destruct it; [discriminate|eauto].
    + right. destruct (can_step ltb ops m0 s) as [i [s' H]].
      * eapply good_execute; eauto.
      * clear - F. induction (items s) as [|[e|r] l IH]; cbn in F; try discriminate.
        -- exists 0, e; auto.
        -- destruct (IH F) as [i [e H]]. exists (S i), e; auto.
      * exists i, s'. unfold execute in *. rewrite foldM_app, E. cbn [obind foldM]. rewrite H; reflexivity.
Qed.
Print Assumptions C33_terminates.

(** When [n] calls of the maximum have returned, the memory holds the greatest
    of the initial content and of all values. *)
Theorem C33_maximum {T} (ltb : T -> T -> bool) lim_min lim_max values m0 acts s :
  total_order ltb -> no_stores acts ->
  execute ltb lim_min lim_max (map (fun v => (Max, v)) values) m0 acts = Some s -> finished (items s) ->
  In (mem s) (m0 :: values) /\ forall v, In v (m0 :: values) -> ltb (mem s) v = false.
Proof.
  intros O N E F. pose proof (good_execute ltb O _ m0 _ _ _ _ E) as (L & Hs & ND & R1 & R2).
  rewrite map_length in L.
  destruct (seq_max ltb O (map (fun v => (Max, v)) values) (log s) m0 (mem s)) as (A & B & C); auto.
  - intros i o v _ H. rewrite nth_error_map in H. destruct (nth_error values i); [|discriminate]. injection H; auto.
  - eapply log_no_store; eauto using steps_of.
  - split.
    + destruct B as [B|[i [_ H]]]; [left; auto|right]. rewrite nth_error_map in H.
      destruct (nth_error values i) eqn:Hv; [|discriminate]. injection H as <-. eapply nth_error_In; eauto.
    + intros v [<-|Hv]; auto. apply In_nth_error in Hv. destruct Hv as [i Hi]. apply (C i).
      * destruct (nth_error_lt_some (items s) i) as [it Ei]; [pose proof (nth_error_some_lt _ _ _ Hi); lia|].
        destruct (F _ _ Ei) as [r ->]. apply R2 in Ei. unfold returns_of. apply in_flat_map. exists (Return i r). split; auto. left; auto.
      * rewrite nth_error_map, Hi; auto.
Qed.
Print Assumptions C33_maximum.

Theorem C33_minimum {T} (ltb : T -> T -> bool) lim_min lim_max values m0 acts s :
  total_order ltb -> no_stores acts ->
  execute ltb lim_min lim_max (map (fun v => (Min, v)) values) m0 acts = Some s -> finished (items s) ->
  In (mem s) (m0 :: values) /\ forall v, In v (m0 :: values) -> ltb v (mem s) = false.
Proof.
  intros O N E F. pose proof (good_execute ltb O _ m0 _ _ _ _ E) as (L & Hs & ND & R1 & R2).
  rewrite map_length in L.
  destruct (seq_min ltb O (map (fun v => (Min, v)) values) (log s) m0 (mem s)) as (A & B & C); auto.
  - intros i o v _ H. rewrite nth_error_map in H. destruct (nth_error values i); [|discriminate]. injection H; auto.
  - eapply log_no_store; eauto using steps_of.
  - split.
    + destruct B as [B|[i [_ H]]]; [left; auto|right]. rewrite nth_error_map in H.
      destruct (nth_error values i) eqn:Hv; [|discriminate]. injection H as <-. eapply nth_error_In; eauto.
    + intros v [<-|Hv]; auto. apply In_nth_error in Hv. destruct Hv as [i Hi]. apply (C i).
      * destruct (nth_error_lt_some (items s) i) as [it Ei]; [pose proof (nth_error_some_lt _ _ _ Hi); lia|].
        destruct (F _ _ Ei) as [r ->]. apply R2 in Ei. unfold returns_of. apply in_flat_map. exists (Return i r). split; auto. left; auto.
      * rewrite nth_error_map, Hi; auto.
Qed.
Print Assumptions C33_minimum.

(** Natural numbers with [<] are a total order; three calls of the maximum whose
    first attempts all fail, and one of them interleaved with a store. *)
Example C33_order : total_order Nat.ltb.
Proof.
  split; [intros; apply Nat.ltb_irrefl|split].
  - intros a b c. rewrite !Nat.ltb_lt. lia.
  - intros a b. rewrite !Nat.ltb_ge. lia.
Qed.
Example C33_instance :
  let acts := [Step 0; Step 1; Step 2; Step 1; Step 0] in
  exists s, execute Nat.ltb 0 99 (map (fun v => (Max, v)) [7; 9; 4]) 5 acts = Some s /\
  finished (items s) /\ no_stores acts /\ mem s = 9 /\ log s = [Return 2 5; Return 1 5; Return 0 9].
Proof.
  cbn zeta. eexists. split; [vm_compute; reflexivity|]. split; [|split; [|split; reflexivity]].
  - intros [|[|[|[|i]]]] it H; try discriminate; injection H as <-; eauto.
  - intros x H. cbn in H. intuition discriminate.
Qed.
Example C33_instance_stores :
  exists s, execute Nat.ltb 0 99 [(Min, 3); (Max, 6)] 5 [Step 0; Store 2; Step 0; Step 1; Store 1; Step 1; Step 1] = Some s /\
  mem s = 6 /\ log s = [Stored 2; Return 0 2; Stored 1; Return 1 1].
Proof. eexists. split; [vm_compute; reflexivity|]. split; reflexivity. Qed.

(* ------------------------------------------------------------------ *)
(** * C34: the eight element sort *)

(** Every group of eight keys in shared memory ends up in ascending order and
    holds the keys it started with, whatever the order in which the work items
    write between two barriers. *)
Theorem C34_sorts {T} (ltb : T -> T -> bool) B scheds (m : list T) :
  total_order ltb -> length m = 8 * B -> length scheds = 6 ->
  Forall (fun s => Permutation (seq 0 (8 * B)) s) scheds ->
  exists m', bitonic8 ltb (8 * B) scheds m = Some m' /\ length m' = 8 * B /\
  forall k, k < B -> ascending ltb (eight m' k) /\ Permutation (eight m k) (eight m' k).
Proof. intros. apply bitonic_correct; auto. Qed.
Print Assumptions C34_sorts.

Example C34_instance :
  let scheds := [seq 0 16; rev (seq 0 16); seq 0 16; seq 0 16; rev (seq 0 16); seq 0 16] in
  length scheds = 6 /\ Forall (fun s => Permutation (seq 0 (8 * 2)) s) scheds /\
  bitonic8 Nat.ltb (8 * 2) scheds [8; 3; 3; 9; 1; 0; 5; 2;   7; 6; 5; 4; 3; 2; 1; 0]
  = Some [0; 1; 2; 3; 3; 5; 8; 9;   0; 1; 2; 3; 4; 5; 6; 7].
Proof.
  cbn zeta. split; [reflexivity|]. split; [|vm_compute; reflexivity].
  repeat constructor; auto using Permutation_rev.
Qed.

Open Scope Q_scope.
(* ------------------------------------------------------------------ *)
(** * C35: matrix inverses *)
Theorem C35_inverse_3 M : length M = 9%nat -> ~ det 3 (entry 3 M) == 0 ->
  exists L, naive_matrix_inverse_3 M = Some L /\ length L = 9%nat /\
  forall i j, (i < 3)%nat -> (j < 3)%nat ->
    product 3 M L i j == (if (i =? j)%nat then 1 else 0) /\
    product 3 L M i j == (if (i =? j)%nat then 1 else 0).
Proof. apply inverse3_correct. Qed.
Print Assumptions C35_inverse_3.

Theorem C35_inverse_4 M : length M = 16%nat -> ~ det 4 (entry 4 M) == 0 ->
  exists L, naive_matrix_inverse_4 M = Some L /\ length L = 16%nat /\
  forall i j, (i < 4)%nat -> (j < 4)%nat ->
    product 4 M L i j == (if (i =? j)%nat then 1 else 0) /\
    product 4 L M i j == (if (i =? j)%nat then 1 else 0).
Proof. apply inverse4_correct. Qed.
Print Assumptions C35_inverse_4.

(** A singular matrix leads to a division by zero and nothing else does. *)
Theorem C35_singular_3 M : length M = 9%nat -> det 3 (entry 3 M) == 0 -> naive_matrix_inverse_3 M = None.
Proof. apply inverse3_singular. Qed.
Theorem C35_singular_4 M : length M = 16%nat -> det 4 (entry 4 M) == 0 -> naive_matrix_inverse_4 M = None.
Proof. apply inverse4_singular. Qed.
Print Assumptions C35_singular_3.
Print Assumptions C35_singular_4.

Example C35_instance : let M := [2; 0; 1;  1; 3; 0;  0; 1; 1] in
  ~ det 3 (entry 3 M) == 0 /\ option_map (map Qred) (naive_matrix_inverse_3 M) =
  Some [3#7; 1#7; -3#7;  -1#7; 2#7; 1#7;  1#7; -2#7; 6#7].
Proof. cbn zeta. split; [intros H; vm_compute in H; discriminate|vm_compute; reflexivity]. Qed.
Example C35_instance_4 : let M := [2; 0; 0; 1;  0; 3; 1; 0;  1; 0; 1; 0;  0; 1; 0; 1] in
  ~ det 4 (entry 4 M) == 0 /\ exists L, naive_matrix_inverse_4 M = Some L.
Proof. cbn zeta. split; [intros H; vm_compute in H; discriminate|eexists; vm_compute; reflexivity]. Qed.

(* ------------------------------------------------------------------ *)
(** * C36: intersections *)

(** Two segments that are not parallel: no division by zero; the reported point
    lies on the line of the first segment at the reported parameter; "yes" means
    the point is on both segments; a common point makes the answer "yes" and is
    the reported point. *)
Theorem C36_segments xa ya xb yb x0 y0 x1 y1 : ~ parallel xa ya xb yb x0 y0 x1 y1 ->
  exists l0 xi yi b, line_segment_intersection_2d xa ya xb yb x0 y0 x1 y1 0 = Some (b, Some (xi, yi, l0)) /\
    xi == xa + l0 * (xb - xa) /\ yi == ya + l0 * (yb - ya) /\
    (b = true -> on_segment xi yi xa ya xb yb /\ on_segment xi yi x0 y0 x1 y1) /\
    (forall px py, on_segment px py xa ya xb yb -> on_segment px py x0 y0 x1 y1 -> b = true /\ xi == px /\ yi == py).
Proof. apply intersection_exact. Qed.
Print Assumptions C36_segments.

(** Any tolerance [tol >= 0]: a common point is still reported and a reported
    point is on both lines, within [tol] of the ends of the first segment (in
    its parameter) and within [tol] of the box of the second. *)
Theorem C36_segments_tolerance xa ya xb yb x0 y0 x1 y1 tol : ~ parallel xa ya xb yb x0 y0 x1 y1 -> 0 <= tol ->
  exists l0 l1 xi yi b, line_segment_intersection_2d xa ya xb yb x0 y0 x1 y1 tol = Some (b, Some (xi, yi, l0)) /\
    xi == xa + l0 * (xb - xa) /\ yi == ya + l0 * (yb - ya) /\
    xi == x0 + l1 * (x1 - x0) /\ yi == y0 + l1 * (y1 - y0) /\
    (b = true -> - tol <= l0 <= 1 + tol /\
       (x0 - tol <= xi <= x1 + tol \/ x1 - tol <= xi <= x0 + tol) /\
       (y0 - tol <= yi <= y1 + tol \/ y1 - tol <= yi <= y0 + tol)) /\
    (forall px py, on_segment px py xa ya xb yb -> on_segment px py x0 y0 x1 y1 -> b = true /\ xi == px /\ yi == py).
Proof. apply intersection_tol. Qed.
Print Assumptions C36_segments_tolerance.

(** Parallel segments are reported as not crossing, and the outputs are not
    written, even when they share points. *)
Theorem C36_parallel xa ya xb yb x0 y0 x1 y1 tol : parallel xa ya xb yb x0 y0 x1 y1 ->
  line_segment_intersection_2d xa ya xb yb x0 y0 x1 y1 tol = Some (false, None).
Proof. apply intersection_parallel. Qed.
Print Assumptions C36_parallel.

(** The version for a horizontal second segment from (x0, y0) to (x1, y0): the
    answer is "yes" exactly when the first segment, unless it lies on the same
    horizontal line, meets it, and then the point is on both. *)
Theorem C36_x_axis_aligned xa ya xb yb x0 y0 x1 : 
  exists b xi yi, line_segment_intersection_2d_x_axis_aligned xa ya xb yb x0 y0 x1 0 = Some (b, (xi, yi)) /\
    (b = true -> on_segment xi yi xa ya xb yb /\ on_segment xi yi x0 y0 x1 y0) /\
    (~ (ya == y0 /\ yb == y0) ->
     forall px py, on_segment px py xa ya xb yb -> on_segment px py x0 y0 x1 y0 -> b = true /\ xi == px /\ yi == py) /\
    (ya == y0 /\ yb == y0 -> b = false).
Proof. apply x_aligned_correct. Qed.
Print Assumptions C36_x_axis_aligned.

(** The same for a vertical second segment from (x0, y0) to (x0, y1). *)
Theorem C36_y_axis_aligned xa ya xb yb x0 y0 y1 :
  exists b xi yi, line_segment_intersection_2d_y_axis_aligned xa ya xb yb x0 y0 y1 0 = Some (b, (xi, yi)) /\
    (b = true -> on_segment xi yi xa ya xb yb /\ on_segment xi yi x0 y0 x0 y1) /\
    (~ (xa == x0 /\ xb == x0) ->
     forall px py, on_segment px py xa ya xb yb -> on_segment px py x0 y0 x0 y1 -> b = true /\ xi == px /\ yi == py) /\
    (xa == x0 /\ xb == x0 -> b = false).
Proof.
  unfold line_segment_intersection_2d_y_axis_aligned.
  destruct (x_aligned_correct ya xa yb xb y0 x0 y1) as (b & xi & yi & E & H1 & H2 & H3).
  rewrite E; cbn [obind fst snd]. exists b, yi, xi.
  assert (Sw : forall p q a1 a2 b1 b2, on_segment p q a1 a2 b1 b2 -> on_segment q p a2 a1 b2 b1).
  { intros p q a1 a2 b1 b2 [t [Ht [A B]]]. exists t; auto. }
  split; [reflexivity|]. split; [|split; auto].
  - intros Hb. destruct (H1 Hb); auto.
  - intros Hn px py A B. destruct (H2 Hn py px) as (? & ? & ?); auto.
Qed.
Print Assumptions C36_y_axis_aligned.

(** A segment in space against the rectangle [p0x, p1x] x [p0y, p2y] at height
    p0z. *)
Theorem C36_xy_plane_aligned ax ay az bx by_ bz p0x p0y p0z p1x p2y :
  exists b xi yi zi, plane_intersection_3d_xy_plane_aligned ax ay az bx by_ bz p0x p0y p0z p1x p2y 0 = Some (b, (xi, yi, zi)) /\
    (b = true -> on_segment3 xi yi zi ax ay az bx by_ bz /\ between p0x p1x xi /\ between p0y p2y yi /\ zi == p0z) /\
    (~ (az == p0z /\ bz == p0z) ->
     forall px py pz, on_segment3 px py pz ax ay az bx by_ bz -> between p0x p1x px -> between p0y p2y py -> pz == p0z ->
       b = true /\ xi == px /\ yi == py /\ zi == pz) /\
    (az == p0z /\ bz == p0z -> b = false).
Proof. apply plane_correct. Qed.
Print Assumptions C36_xy_plane_aligned.

Example C36_instance :
  ~ parallel 0 0 4 4 0 4 4 0 /\
  option_map (fun r => (fst r, option_map (fun o => let '(x, y, l) := o in (Qred x, Qred y, Qred l)) (snd r)))
    (line_segment_intersection_2d 0 0 4 4 0 4 4 0 0) = Some (true, Some (2, 2, 1#2)).
Proof. split; [intros H; vm_compute in H; discriminate|vm_compute; reflexivity]. Qed.
(** A vertical first segment, so that the other branch of the code runs. *)
Example C36_instance_vertical :
  ~ parallel 1 0 1 4 0 1 4 1 /\
  option_map fst (line_segment_intersection_2d 1 0 1 4 0 1 4 1 0) = Some true /\
  option_map fst (line_segment_intersection_2d 1 0 1 4 2 1 4 1 0) = Some false.
Proof. split; [intros H; vm_compute in H; discriminate|split; vm_compute; reflexivity]. Qed.
Example C36_instance_aligned :
  option_map fst (line_segment_intersection_2d_x_axis_aligned 0 0 4 4 1 2 3 0) = Some true /\
  option_map fst (line_segment_intersection_2d_y_axis_aligned 0 0 4 4 3 0 2 0) = Some false /\
  option_map fst (plane_intersection_3d_xy_plane_aligned 0 0 0 4 4 4 1 1 2 3 3 0) = Some true /\
  ~ (0 == 2 /\ 4 == 2).
Proof. repeat split; try (vm_compute; reflexivity). intros [H _]. discriminate. Qed.

(* ------------------------------------------------------------------ *)
(** * C40: orientation of a line *)

(** The result is one of the two orders of the end points, and exchanging the
    arguments gives the same line. *)
Theorem C40_orientation_is_canonical ax ay bx by_ :
  let r := consistent_line_orientation_2d ax ay bx by_ in
  let '(px, py, qx, qy) := r in
  let '(px', py', qx', qy') := consistent_line_orientation_2d bx by_ ax ay in
  (r = (ax, ay, bx, by_) \/ r = (bx, by_, ax, ay)) /\
  px == px' /\ py == py' /\ qx == qx' /\ qy == qy'.
Proof.
  cbn zeta. destruct (orientation_correct ax ay bx by_) as [H1 O1].
  destruct (orientation_correct bx by_ ax ay) as [H2 O2].
  destruct (consistent_line_orientation_2d ax ay bx by_) as [[[px py] qx] qy].
  destruct (consistent_line_orientation_2d bx by_ ax ay) as [[[px' py'] qx'] qy'].
  split; [auto|]. destruct H1 as [H1|H1], H2 as [H2|H2]; injection H1; injection H2; intros; subst; repeat split; try reflexivity; lra.
Qed.
Print Assumptions C40_orientation_is_canonical.

Example C40_instance : consistent_line_orientation_2d 3 5 3 2 = (3, 2, 3, 5) /\
  consistent_line_orientation_2d 3 2 3 5 = (3, 2, 3, 5) /\ consistent_line_orientation_2d 4 0 3 9 = (3, 9, 4, 0).
Proof. repeat split; vm_compute; reflexivity. Qed.
Close Scope Q_scope.
