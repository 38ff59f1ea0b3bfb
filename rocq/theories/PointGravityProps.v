(** C02, C03, C04, C06 (point sources), C07: point_gravity. *)
From Coq Require Import Permutation.
From Coquelicot Require Import Coquelicot.
From Verif Require Import Base BaseFacts NumPy NumPyFacts DistanceModel DistanceSpec
  PointGravityModel PointGravitySpec PointGravityProofs.
Local Open Scope string_scope.

(** C02.  For every array of observation points, list of masses and supported field, the result is
    the sum of the Newtonian fields of the masses, in the documented units and sign. *)
Theorem C02_point_gravity_is_newtonian sh ps ss field cs :
  prod_shape sh = length ps -> supported cs field ->
  point_gravity (coords_of sh ps) (points_of ss) (masses_of ss) field cs
  = Ok (Arr sh (map (fun p => sum_over ss (newton_field cs field p)) ps)).
Proof. exact (point_gravity_newton sh ps ss field cs). Qed.
Print Assumptions C02_point_gravity_is_newtonian.

Theorem C02_union_of_sources sh ps ss1 ss2 field cs :
  prod_shape sh = length ps -> supported cs field ->
  exists d1 d2 d,
    point_gravity (coords_of sh ps) (points_of ss1) (masses_of ss1) field cs = Ok (Arr sh d1) /\
    point_gravity (coords_of sh ps) (points_of ss2) (masses_of ss2) field cs = Ok (Arr sh d2) /\
    point_gravity (coords_of sh ps) (points_of (ss1 ++ ss2)) (masses_of (ss1 ++ ss2)) field cs = Ok (Arr sh d) /\
    length d = length ps /\ forall k, nth k d 0 = nth k d1 0 + nth k d2 0.
Proof. exact (point_gravity_union sh ps ss1 ss2 field cs). Qed.
Print Assumptions C02_union_of_sources.

Theorem C02_order_irrelevant sh ps ss1 ss2 field cs :
  prod_shape sh = length ps -> supported cs field -> Permutation ss1 ss2 ->
  point_gravity (coords_of sh ps) (points_of ss1) (masses_of ss1) field cs
  = point_gravity (coords_of sh ps) (points_of ss2) (masses_of ss2) field cs.
Proof. exact (point_gravity_order sh ps ss1 ss2 field cs). Qed.
Print Assumptions C02_order_irrelevant.

Theorem C02_linear_in_masses sh ps (qs : list point) (m1 m2 : list R) a b field cs :
  prod_shape sh = length ps -> supported cs field -> length m1 = length qs -> length m2 = length qs ->
  let m := map (fun xy => a * fst xy + b * snd xy) (combine m1 m2) in
  exists d1 d2 d,
    point_gravity (coords_of sh ps) (coords_of [length qs] qs) (arr1 m1) field cs = Ok (Arr sh d1) /\
    point_gravity (coords_of sh ps) (coords_of [length qs] qs) (arr1 m2) field cs = Ok (Arr sh d2) /\
    point_gravity (coords_of sh ps) (coords_of [length qs] qs) (arr1 m) field cs = Ok (Arr sh d) /\
    forall k, nth k d 0 = a * nth k d1 0 + b * nth k d2 0.
Proof. exact (point_gravity_linear sh ps qs m1 m2 a b field cs). Qed.
Print Assumptions C02_linear_in_masses.

(** A 2x1 grid over two masses meets the hypotheses. *)
Example C02_example :
  prod_shape [2%nat; 1%nat] = length [(0, 0, 1); (3, 0, 1)] /\ supported "cartesian" "g_z" /\ supported "spherical" "g_z" /\
  returned (point_gravity (coords_of [] [(0, 0, 0)]) (points_of [((0, 0, -1), 1)]) (masses_of [((0, 0, -1), 1)]) "potential" "cartesian") = newton_G /\
  0 < newton_G.
Proof.
  repeat split; try (left; cbn; tauto); try (right; cbn; tauto); [|exact newton_G_pos].
  rewrite returned_newton by exact sup_pot. unfold sum_over; cbn [map sumR]. rewrite pot_unit_below. ring.
Qed.

(** C03. *)
Theorem C03_acceleration_is_gradient a p ss : off_sources cart_position p ss ->
  is_derive (fun t => returned (point_gravity (coords_of [] [move a t p]) (points_of ss) (masses_of ss) "potential" "cartesian")) 0
    (returned (point_gravity (coords_of [] [p]) (points_of ss) (masses_of ss) (g1 a) "cartesian") / mGal).
Proof. exact (point_gravity_first a p ss). Qed.
Print Assumptions C03_acceleration_is_gradient.

Theorem C03_tensor_is_second_derivative a b p ss : off_sources cart_position p ss ->
  is_derive (fun t => returned (point_gravity (coords_of [] [move a t p]) (points_of ss) (masses_of ss) (g1 b) "cartesian") / mGal) 0
    (returned (point_gravity (coords_of [] [p]) (points_of ss) (masses_of ss) (g2 a b) "cartesian") / eotvos).
Proof. exact (point_gravity_second a b p ss). Qed.
Print Assumptions C03_tensor_is_second_derivative.

Theorem C03_tensor_symmetric a b sh ps ss : prod_shape sh = length ps ->
  point_gravity (coords_of sh ps) (points_of ss) (masses_of ss) (g2 a b) "cartesian"
  = point_gravity (coords_of sh ps) (points_of ss) (masses_of ss) (g2 b a) "cartesian".
Proof. exact (point_gravity_symmetric a b sh ps ss). Qed.
Print Assumptions C03_tensor_symmetric.

Theorem C03_laplace p ss : off_sources cart_position p ss ->
  returned (point_gravity (coords_of [] [p]) (points_of ss) (masses_of ss) "g_ee" "cartesian")
  + returned (point_gravity (coords_of [] [p]) (points_of ss) (masses_of ss) "g_nn" "cartesian")
  + returned (point_gravity (coords_of [] [p]) (points_of ss) (masses_of ss) "g_zz" "cartesian") = 0.
Proof. exact (point_gravity_laplace p ss). Qed.
Print Assumptions C03_laplace.

(** The calls the four theorems look at do return a number (so [returned] is not the default). *)
Theorem C03_calls_succeed field p ss : In field cartesian_fields ->
  exists x, point_gravity (coords_of [] [p]) (points_of ss) (masses_of ss) field "cartesian" = Ok (scalar x).
Proof. intros H. eexists. rewrite point_gravity_newton; [reflexivity|reflexivity|now left]. Qed.
Print Assumptions C03_calls_succeed.

Example C03_example :
  off_sources cart_position (0, 0, 0) [((0, 0, -1), 1); ((2, 1, -1), 5)] /\
  returned (point_gravity (coords_of [] [(0, 0, 0)]) (points_of [((0, 0, -1), 1)]) (masses_of [((0, 0, -1), 1)]) "g_zz" "cartesian")
  = 2 * eotvos * newton_G.
Proof.
  split.
  - intros s [<-|[<-|[]]]; cbn; injection; lra.
  - change "g_zz" with (g2 Down Down). rewrite returned_newton by apply sup_g2. unfold sum_over; cbn [map sumR].
    rewrite newton_g2. unfold newton_tensor, eucl, norm, dot; cbn.
    replace (sqrt _) with 1 by (symmetry; replace ((0 - 0) * (0 - 0) + (0 - 0) * (0 - 0) + (0 - -1) * (0 - -1)) with 1 by ring; apply sqrt_1).
    field.
Qed.

(** C04. *)
Theorem C04_radial_derivative lon lat r ss : off_sources sph_position (lon, lat, r) ss ->
  is_derive (fun t => returned (point_gravity (coords_of [] [(lon, lat, r + t)]) (points_of ss) (masses_of ss) "potential" "spherical")) 0
    (- (returned (point_gravity (coords_of [] [(lon, lat, r)]) (points_of ss) (masses_of ss) "g_z" "spherical") / mGal)).
Proof. exact (point_gravity_radial lon lat r ss). Qed.
Print Assumptions C04_radial_derivative.

Theorem C04_potential_value p ss :
  point_gravity (coords_of [] [p]) (points_of ss) (masses_of ss) "potential" "spherical"
  = Ok (scalar (sum_over ss (fun s => newton_G * snd s / eucl (sph_position p) (sph_position (fst s))))).
Proof. rewrite point_gravity_newton; [reflexivity|reflexivity|right; cbn; tauto]. Qed.
Print Assumptions C04_potential_value.

Theorem C04_horizontal_components_rejected c0 c1 c2 p0 p1 p2 m field S :
  In field ["g_e"; "g_n"] -> broadcast3 c0 c1 c2 = Ok S -> length (data m) = length (data p0) ->
  point_gravity (c0, c1, c2) (p0, p1, p2) m field "spherical" = Raise NotImplementedError.
Proof. exact (point_gravity_spherical_horizontal c0 c1 c2 p0 p1 p2 m field S). Qed.
Print Assumptions C04_horizontal_components_rejected.

Theorem C04_only_potential_and_gz_return c p m field r :
  field <> "potential" -> field <> "g_z" -> point_gravity c p m field "spherical" <> Ok r.
Proof. exact (point_gravity_spherical_unsupported c p m field r). Qed.
Print Assumptions C04_only_potential_and_gz_return.

Example C04_example :
  off_sources sph_position (0, 0, 2) [((0, 0, 1), 1)] /\ broadcast3 (scalar 0) (scalar 0) (scalar 2) = Ok [].
Proof.
  split; [|reflexivity]. intros s [<-|[]]; cbn. unfold radians. rewrite Rmult_0_l. unfold Rdiv. rewrite Rmult_0_l, cos_0, sin_0.
  injection; lra.
Qed.

(** C06.  What numpy's broadcasting of three coordinate arrays gives, and when it fails. *)
Lemma bcast_rev_rule a : forall b, match bcast_rev a b with
  | Some r => length r = Nat.max (length a) (length b) /\ forall i, (nth i a 1 = nth i r 1 \/ nth i a 1 = 1)%nat /\ (nth i b 1 = nth i r 1 \/ nth i b 1 = 1)%nat /\ (nth i r 1 = nth i a 1 \/ nth i r 1 = nth i b 1)%nat
  | None => exists i, (nth i a 1 <> nth i b 1 /\ nth i a 1 <> 1 /\ nth i b 1 <> 1)%nat
  end.
Proof.
  induction a as [|x a IH]; intros [|y b]; cbn [bcast_rev].
  - split; [reflexivity|]. intros i. auto.
  - split; [reflexivity|]. intros i. destruct i; cbn; auto.
  - split; [reflexivity|]. intros i. destruct i; cbn; auto.
  - specialize (IH b). destruct (bcast_rev a b) as [r|].
    + destruct IH as [L H]. destruct (Nat.eqb_spec x y) as [->|N1]; [|destruct (Nat.eqb_spec x 1) as [->|N2]; [|destruct (Nat.eqb_spec y 1) as [->|N3]]].
      1-3: split; [cbn; now rewrite L|]; intros [|i]; cbn [nth]; [auto|apply H].
      exists 0%nat. cbn. auto.
    + destruct IH as [i H]. exists (Datatypes.S i). exact H.
Qed.
Theorem C06_broadcast_rule c0 c1 c2 S : broadcast3 c0 c1 c2 = Ok S <-> spreads_to [shape c0; shape c1; shape c2] S.
Proof.
  unfold broadcast3. set (s0 := shape c0). set (s1 := shape c1). set (s2 := shape c2).
  pose proof (bcast_rev_rule (rev s0) (rev s1)) as H1. destruct (bcast_rev (rev s0) (rev s1)) as [ab|].
  2:{ split; [discriminate|]. intros (_ & _ & H). exfalso. destruct H1 as [i Q]. destruct (H i) as [_ K]. pose proof (K s0 ltac:(cbn; auto)). pose proof (K s1 ltac:(cbn; auto)). unfold dim in *. lia. }
  destruct H1 as [L1 H1]. pose proof (bcast_rev_rule ab (rev s2)) as H2. destruct (bcast_rev ab (rev s2)) as [r|].
  2:{ split; [discriminate|]. intros (_ & _ & H). exfalso. destruct H2 as [i Q]. specialize (H1 i). destruct (H i) as [_ K]. pose proof (K s0 ltac:(cbn; auto)). pose proof (K s1 ltac:(cbn; auto)). pose proof (K s2 ltac:(cbn; auto)). unfold dim in *. lia. }
  destruct H2 as [L2 H2]. rewrite (rev_length s0), (rev_length s1) in L1. rewrite (rev_length s2) in L2.
  assert (R : spreads_to [s0; s1; s2] (rev r)).
  { split; [|split].
    - rewrite rev_length. destruct (Nat.max_spec (length s0) (length s1)) as [[_ M1]|[_ M1]]; destruct (Nat.max_spec (length ab) (length s2)) as [[_ M2]|[_ M2]].
      + exists s2. cbn; split; [auto|lia].
      + exists s1. cbn; split; [auto|lia].
      + exists s2. cbn; split; [auto|lia].
      + exists s0. cbn; split; [auto|lia].
    - rewrite rev_length. cbn. intros s [<-|[<-|[<-|[]]]]; lia.
    - intros i. unfold dim. rewrite rev_involutive. specialize (H1 i). specialize (H2 i). split.
      + destruct H2 as (_ & _ & [E|E]); [|exists s2; cbn; split; [auto|exact E]]. destruct H1 as (_ & _ & [E1|E1]); [exists s0|exists s1]; cbn; (split; [auto|congruence]).
      + intros s [<-|[<-|[<-|[]]]]; lia. }
  split; [intros [= <-]; exact R|]. intros K. f_equal.
  destruct K as ((sk & Ik & Lk) & Ak & Dk). destruct R as ((sr & Ir & Lr) & Ar & Dr).
  assert (LL : length (rev r) = length S) by (pose proof (Ak sr Ir); pose proof (Ar sk Ik); lia).
  rewrite <- (rev_involutive S). f_equal. rewrite rev_length in LL. apply (nth_ext _ _ 1%nat 1%nat); [now rewrite rev_length|]. intros i _.
  destruct (Dk i) as [(u & Iu & Eu) Fk]. destruct (Dr i) as [(v & Iv & Ev) Fr]. pose proof (Fk v Iv). pose proof (Fr u Iu). unfold dim in *. rewrite rev_involutive in *. lia.
Qed.
Print Assumptions C06_broadcast_rule.
Example C06_broadcast_example : spreads_to [[2; 1]; []; [3]]%nat [2; 3]%nat /\ ~ exists S, spreads_to [[2]; []; [3]]%nat S.
Proof.
  split; [apply (C06_broadcast_rule (Arr [2; 1]%nat []) (Arr [] []) (Arr [3]%nat [])); reflexivity|].
  intros [S H]. apply (C06_broadcast_rule (Arr [2]%nat []) (Arr [] []) (Arr [3]%nat []) S) in H. discriminate H.
Qed.

(** C06.  Right for coordinate arrays of one common shape (any number of dimensions)... *)
Theorem C06_point_equal_shapes_partial c0 c1 c2 ss field cs :
  wf_arr c0 -> wf_arr c1 -> wf_arr c2 -> shape c0 = shape c1 -> shape c1 = shape c2 -> supported cs field ->
  broadcast3 c0 c1 c2 = Ok (shape c0) /\
  point_gravity (c0, c1, c2) (points_of ss) (masses_of ss) field cs
  = Ok (Arr (shape c0) (map (fun p => sum_over ss (newton_field cs field p)) (broadcast_points (shape c0) (c0, c1, c2)))).
Proof. exact (point_gravity_equal_shapes c0 c1 c2 ss field cs). Qed.
Print Assumptions C06_point_equal_shapes_partial.

(** ... but not for other broadcastable arrays: with a scalar easting and two northings the second
    entry of the result is left at zero, ... *)
Theorem C06_point_broadcast_refuted :
  exists c0 c1 c2 ss S r,
    wf_arr c0 /\ wf_arr c1 /\ wf_arr c2 /\ broadcast3 c0 c1 c2 = Ok S /\
    point_gravity (c0, c1, c2) (points_of ss) (masses_of ss) "potential" "cartesian" = Ok r /\
    shape r = S /\
    nth 1 (data r) 0 = 0 /\
    nth 1 (map (fun p => sum_over ss (newton_field "cartesian" "potential" p)) (broadcast_points S (c0, c1, c2))) 0 = newton_G.
Proof.
  exists (scalar 0), (arr1 [0; 0]), (scalar 0), [((0, 0, -1), 1)], [2%nat], (Arr [2%nat] [newton_G; 0]).
  destruct point_gravity_broadcast_zeros as (H1 & H2 & H3).
  do 7 (split; [auto; reflexivity|]). exact (f_equal (fun l => nth 1 l 0) H3).
Qed.
Print Assumptions C06_point_broadcast_refuted.

(** ... and with two eastings and scalar northing and upward the compiled loop reads outside them. *)
Theorem C06_point_broadcast_out_of_bounds_refuted :
  exists c0 c1 c2 ss, broadcast3 c0 c1 c2 = Ok [2%nat] /\ wf_arr c0 /\ wf_arr c1 /\ wf_arr c2 /\
    point_gravity (c0, c1, c2) (points_of ss) (masses_of ss) "potential" "cartesian" = Raise OutOfBounds.
Proof.
  exists (arr1 [0; 0]), (scalar 0), (scalar 0), [((0, 0, -1), 1)]. repeat split; exact point_gravity_broadcast_oob.
Qed.
Print Assumptions C06_point_broadcast_out_of_bounds_refuted.

(** C07. *)
Theorem C07_unknown_system_rejected c p m field cs :
  ~ In cs ["cartesian"; "spherical"] -> point_gravity c p m field cs = Raise ValueError.
Proof. exact (point_gravity_bad_cs c p m field cs). Qed.
Print Assumptions C07_unknown_system_rejected.

Theorem C07_unknown_field_rejected c p m field cs :
  ~ In field (if String.eqb cs "cartesian" then cartesian_fields else "g_e" :: "g_n" :: spherical_fields) ->
  point_gravity c p m field cs = Raise ValueError.
Proof. exact (point_gravity_bad_field c p m field cs). Qed.
Print Assumptions C07_unknown_field_rejected.

Theorem C07_wrong_number_of_masses_rejected c0 c1 c2 p0 p1 p2 m field cs :
  length (data m) <> length (data p0) -> point_gravity (c0, c1, c2) (p0, p1, p2) m field cs = Raise ValueError.
Proof. exact (point_gravity_bad_masses c0 c1 c2 p0 p1 p2 m field cs). Qed.
Print Assumptions C07_wrong_number_of_masses_rejected.

(** The check only looks at the first coordinate of the points: extra northings are ignored, missing
    ones are read out of bounds. *)
Theorem C07_point_arrays_not_checked_refuted :
  (exists p0 p1 p2 m r, length (data p0) <> length (data p1) /\
     point_gravity (coords_of [] [(0, 0, 0)]) (p0, p1, p2) m "potential" "cartesian" = Ok r) /\
  (exists p0 p1 p2 m, length (data m) = length (data p0) /\
     point_gravity (coords_of [] [(0, 0, 0)]) (p0, p1, p2) m "potential" "cartesian" = Raise OutOfBounds).
Proof.
  split.
  - exists (arr1 [0]), (arr1 [0; 7]), (arr1 [-1]), (arr1 [1]), (scalar newton_G). split; [cbn; lia|].
    exact point_gravity_ignores_extra.
  - exists (arr1 [0; 0]), (arr1 [0]), (arr1 [-1; -2]), (arr1 [1; 1]). split; [reflexivity|]. exact point_gravity_short_points.
Qed.
Print Assumptions C07_point_arrays_not_checked_refuted.

Example C07_example :
  ~ In "polar" ["cartesian"; "spherical"] /\ ~ In "g_x" cartesian_fields /\
  length (data (arr1 [1; 2])) <> length (data (arr1 [1])).
Proof. repeat split; cbn; intuition discriminate. Qed.
