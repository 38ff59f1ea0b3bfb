(** C08 - C15, C66, C67: tesseroids. *)
From Coq Require Import Permutation.
From Verif Require Import Base BaseFacts NumPy NumPyFacts DistanceModel DistanceSpec PointGravityModel PointGravitySpec
  TesseroidModel TesseroidSpec TesseroidCheckProofs TesseroidAdaptProofs TesseroidProofs TesseroidFieldProofs.
Local Open Scope string_scope. Local Open Scope list_scope. Local Open Scope R_scope.
Local Opaque MAX_DISCRETIZATIONS STACK_SIZE.

(** C08. *)
Theorem C08_checks_accept_exactly ts ts' :
  check_tesseroids_R ts = Ok ts' <-> Forall bounds_ok ts /\ Forall2 moved ts ts' /\ Forall width_ok ts'.
Proof. exact (check_tesseroids_ok ts ts'). Qed.
Print Assumptions C08_checks_accept_exactly.

Theorem C08_otherwise_value_error ts :
  ~ (Forall bounds_ok ts /\ exists ts', Forall2 moved ts ts' /\ Forall width_ok ts') ->
  check_tesseroids_R ts = Raise ValueError /\
  forall coordinates density field radial, tesseroid_gravity coordinates ts density field radial false = Raise ValueError.
Proof.
  intros H. split; [|intros; now apply tesseroid_gravity_rejects_invalid].
  apply check_tesseroids_rejects. intros ts' E. apply H. apply check_tesseroids_ok in E. destruct E as (A & B & C). eauto.
Qed.
Print Assumptions C08_otherwise_value_error.

Theorem C08_same_checks_with_nan_numbers ts :
  check_tesseroids_num (map fin_tess ts) = match check_tesseroids_R ts with Ok l => Ok (map fin_tess l) | Raise e => Raise e end.
Proof. exact (check_tesseroids_num_fin ts). Qed.
Print Assumptions C08_same_checks_with_nan_numbers.

(** Boundaries that are NaN satisfy none of the documented conditions, but are accepted. *)
Theorem C68_nan_rejected_refuted : exists ts, ts <> [] /\
  Forall (fun t => isnan (west t) = true /\ isnan (east t) = true /\ isnan (south t) = true /\ isnan (north t) = true /\ isnan (bottom t) = true /\ isnan (top t) = true) ts /\
  check_tesseroids_num ts = Ok ts.
Proof.
  exists [Tess NaN NaN NaN NaN NaN NaN]. split; [discriminate|]. split; [|exact check_tesseroids_nan].
  constructor; [cbn; auto 10|constructor].
Qed.
Print Assumptions C68_nan_rejected_refuted.

(** One tesseroid across the Greenwich meridian is accepted and moved; one with south > north is not. *)
Example C08_example :
  check_tesseroids_R [Tess 350 10 (-5) 5 1 2] = Ok [Tess (-10) 10 (-5) 5 1 2] /\
  check_tesseroids_R [Tess 0 10 5 (-5) 1 2] = Raise ValueError.
Proof.
  split.
  - apply check_tesseroids_ok. split; [constructor; [unfold bounds_ok; cbn; lra|constructor]|].
    split; [constructor; [|constructor]|constructor; [unfold width_ok; cbn; lra|constructor]].
    right. cbn. repeat split; try lra; [exists (-1)%Z|exists 0%Z]; lra.
  - apply C08_otherwise_value_error. intros [H _]. inversion H as [|? ? B _]; subst. unfold bounds_ok in B. cbn in B. lra.
Qed.

(** C09.  The normalised tesseroids: rows with west <= east are untouched; the others have both
    longitudes moved by whole turns, nothing else changes and the arc of longitudes is the one going
    eastward from the given west to the given east. *)
Theorem C09_whole_turns ts ts' : check_tesseroids_R ts = Ok ts' ->
  Forall2 (fun t t' => (exists k, west t' = west t + 360 * IZR k) /\ (exists k, east t' = east t + 360 * IZR k) /\
     south t' = south t /\ north t' = north t /\ bottom t' = bottom t /\ top t' = top t /\ (west t <= east t -> t' = t)) ts ts'.
Proof.
  intros H. apply check_tesseroids_ok in H. destruct H as (_ & M & _). induction M as [|t t' l l' M _ IH]; constructor; auto.
  destruct M as [[L ->]|(L & K1 & _ & K2 & _ & E1 & E2 & E3 & E4)].
  - repeat split; auto; exists 0%Z; ring.
  - repeat split; auto. intros; lra.
Qed.
Print Assumptions C09_whole_turns.

Theorem C09_same_region ts ts' : check_tesseroids_R ts = Ok ts' ->
  Forall2 (fun t t' => west t > east t -> forall lon,
     (exists k, west t' <= lon + 360 * IZR k <= east t') <-> on_eastward_arc (west t) (east t) lon) ts ts'.
Proof.
  intros H. apply check_tesseroids_ok in H. destruct H as (_ & M & W). revert W. induction M as [|t t' l l' M _ IH]; intros W; constructor.
  - intros L lon. inversion W; subst. apply moved_region; auto. apply H1.
  - inversion W; auto.
Qed.
Print Assumptions C09_same_region.

(** A region that crosses the antimeridian (from 170 eastward to -170) is however refused. *)
Theorem C69_antimeridian_accepted_refuted : exists t, bounds_ok t /\ on_eastward_arc (west t) (east t) 180 /\
  check_tesseroids_R [t] = Raise ValueError.
Proof.
  exists (Tess 170 (-170) 0 10 1 2). split; [unfold bounds_ok; cbn; lra|]. split.
  - exists 10, 20. cbn. repeat split; try lra; [exists (-1)%Z|exists 0%Z]; lra.
  - apply check_tesseroids_rejects. intros ts' E. apply check_tesseroids_ok in E. destruct E as (_ & M & W).
    inversion M as [|? t' ? ? M1 M2]; subst. inversion W as [|? ? W1 _]; subst.
    destruct M1 as [[L _]|(L & [k K1] & R1 & [j K2] & R2 & _)]; cbn in *; [lra|].
    assert (west t' = 170) by (apply (turn_small _ _ k); [exact K1|lra]).
    assert (east t' = -170) by (apply (turn_small _ _ j); [exact K2|lra]). unfold width_ok in W1. lra.
Qed.
Print Assumptions C69_antimeridian_accepted_refuted.

Example C09_example : check_tesseroids_R [Tess 350 10 (-5) 5 1 2] = Ok [Tess (-10) 10 (-5) 5 1 2] /\ on_eastward_arc 350 10 360 /\ ~ on_eastward_arc 350 10 180.
Proof.
  split; [exact (proj1 C08_example)|]. split.
  - exists 10, 20. repeat split; try lra; [exists (-1)%Z|exists 0%Z]; lra.
  - intros A. apply (proj2 (moved_region (Tess 350 10 (-5) 5 1 2) (Tess (-10) 10 (-5) 5 1 2) 180
      ltac:(right; cbn; repeat split; try lra; [exists (-1)%Z|exists 0%Z]; lra) ltac:(cbn; lra) ltac:(cbn; lra))) in A.
    destruct A as [k A]. cbn in A. assert (-1 < IZR k < 0) as [A1 A2] by lra. apply lt_IZR in A1, A2. lia.
Qed.

(** C10. *)
Theorem C10_point_inside_is_an_error ps ts : Forall (fun t => -180 <= west t /\ east t <= 360) ts ->
  (check_points_outside_tesseroids ps ts = Raise ValueError <-> exists p t, In p ps /\ In t ts /\ inside p t) /\
  (check_points_outside_tesseroids ps ts = Ok tt <-> forall p t, In p ps -> In t ts -> ~ inside p t).
Proof. exact (check_points_spec ps ts). Qed.
Print Assumptions C10_point_inside_is_an_error.

Theorem C10_tesseroid_gravity_rejects_points_inside sh ps ts ts' density field radial p t :
  check_tesseroids_R ts = Ok ts' -> In p ps -> In t ts' -> inside p t ->
  tesseroid_gravity (coords_of sh ps) ts density field radial false = Raise ValueError.
Proof. exact (tesseroid_gravity_rejects_inside sh ps ts ts' density field radial p t). Qed.
Print Assumptions C10_tesseroid_gravity_rejects_points_inside.

Example C10_example :
  Forall (fun t => -180 <= west t /\ east t <= 360) [Tess (-10) 10 (-5) 5 1 2] /\ inside (1085, 0, 1.5) (Tess (-10) 10 (-5) 5 1 2) /\
  ~ inside (180, 0, 1.5) (Tess (-10) 10 (-5) 5 1 2).
Proof.
  split; [constructor; [cbn; lra|constructor]|]. split.
  - unfold inside; cbn. split; [exists (-3)%Z; lra|lra].
  - unfold inside; cbn. intros [[k A] _]. assert (-1 < IZR k < 0) as [A1 A2] by lra. apply lt_IZR in A1, A2. lia.
Qed.

(** C11. *)
Theorem C11_small_tesseroids_tile coordinates t ratio stk sml radial st : box t ->
  adaptive_discretization coordinates t ratio stk sml radial = Ok st -> tiles (returned_tesseroids st) t.
Proof.
  intros B E. destruct stk as [|x stk]; [discriminate E|].
  pose proof (adaptive_refines coordinates t ratio (x :: stk) sml radial ltac:(cbn; lia)) as R. rewrite E in R.
  destruct (discretise _ _ _ _ _ _) as [out|] eqn:D; [|contradiction]. destruct R as (R1 & _).
  eapply eq_ind_r with (P := fun l => tiles l t); [|exact R1]. eapply discretise_tiles; eassumption.
Qed.
Print Assumptions C11_small_tesseroids_tile.

(** The result does not depend on what the scratch buffers contained before. *)
Theorem C11_independent_of_buffer_contents coordinates t ratio stk1 stk2 sml1 sml2 radial :
  length stk1 = length stk2 -> length sml1 = length sml2 ->
  match adaptive_discretization coordinates t ratio stk1 sml1 radial, adaptive_discretization coordinates t ratio stk2 sml2 radial with
  | Ok st1, Ok st2 => returned_tesseroids st1 = returned_tesseroids st2 /\ n_splits st1 = n_splits st2
  | Raise e1, Raise e2 => e1 = e2
  | _, _ => False
  end.
Proof.
  intros H1 H2. destruct stk1 as [|x1 stk1], stk2 as [|x2 stk2]; try discriminate; [reflexivity|].
  pose proof (adaptive_refines coordinates t ratio (x1 :: stk1) sml1 radial ltac:(cbn; lia)) as R1.
  pose proof (adaptive_refines coordinates t ratio (x2 :: stk2) sml2 radial ltac:(cbn; lia)) as R2.
  rewrite <- H1, <- H2 in R2.
  destruct (discretise coordinates t ratio (length (x1 :: stk1)) (length sml1) radial);
  destruct (adaptive_discretization coordinates t ratio (x1 :: stk1) sml1 radial); try contradiction;
  destruct (adaptive_discretization coordinates t ratio (x2 :: stk2) sml2 radial); try contradiction.
  - destruct R1 as (A & B & _), R2 as (C & D & _). split; congruence.
  - congruence.
Qed.
Print Assumptions C11_independent_of_buffer_contents.

(** C12. *)
Theorem C12_distance_size_criterion coordinates t ratio stk sml radial st : 0 <= bottom t <= top t ->
  adaptive_discretization coordinates t ratio stk sml radial = Ok st ->
  Forall (fun x => ratio * size_lon x <= distance_to coordinates x /\ ratio * size_lat x <= distance_to coordinates x /\
                   (radial = true -> ratio * size_rad x <= distance_to coordinates x)) (returned_tesseroids st).
Proof.
  intros B E. destruct stk as [|x stk]; [discriminate E|].
  pose proof (adaptive_refines coordinates t ratio (x :: stk) sml radial ltac:(cbn; lia)) as R. rewrite E in R.
  destruct (discretise _ _ _ _ _ _) as [out|] eqn:D; [|contradiction]. destruct R as (R1 & _). rewrite R1.
  apply (discretise_criterion coordinates t ratio _ _ radial out B D).
Qed.
Print Assumptions C12_distance_size_criterion.

Theorem C12_radial_discretization_off coordinates t ratio stk sml st :
  adaptive_discretization coordinates t ratio stk sml false = Ok st ->
  Forall (fun x => bottom x = bottom t /\ top x = top t) (returned_tesseroids st).
Proof.
  intros E. destruct stk as [|x stk]; [discriminate E|].
  pose proof (adaptive_refines coordinates t ratio (x :: stk) sml false ltac:(cbn; lia)) as R. rewrite E in R.
  destruct (discretise _ _ _ _ _ _) as [out|] eqn:D; [|contradiction]. destruct R as (R1 & _). rewrite R1.
  apply (discretise_radial_off coordinates t ratio _ _ out D).
Qed.
Print Assumptions C12_radial_discretization_off.

Example C11_C12_example : box wide /\ 0 <= bottom wide <= top wide /\
  exists st, adaptive_discretization wide_point wide 1 [empty_row] [empty_row] true = Ok st /\ returned_tesseroids st = [wide].
Proof. split; [unfold box, wide; cbn; lra|]. split; [unfold wide; cbn; lra|exact wide_unsplit]. Qed.

(** C66.  The size used by the criterion is a great-circle distance; the extent along the parallel is
    at most pi/2 times it for tesseroids up to half a turn wide, but not for wider ones. *)
Theorem C66_extent_along_parallel_partial coordinates t ratio stk sml radial st :
  bounds_ok t -> west t <= east t <= west t + 180 -> 0 <= ratio ->
  adaptive_discretization coordinates t ratio stk sml radial = Ok st ->
  Forall (fun x => ratio * (top x * cos (radians (mid_lat x)) * radians (east x - west x)) <= PI / 2 * distance_to coordinates x) (returned_tesseroids st).
Proof.
  intros B W Hr E. destruct B as (B1 & B2 & B3 & B4 & _).
  assert (Bt : box t) by (unfold box; lra).
  pose proof (C12_distance_size_criterion coordinates t ratio stk sml radial st ltac:(lra) E) as C.
  destruct stk as [|y stk]; [discriminate E|].
  pose proof (adaptive_refines coordinates t ratio (y :: stk) sml radial ltac:(cbn; lia)) as R. rewrite E in R.
  destruct (discretise _ _ _ _ _ _) as [out|] eqn:D; [|contradiction]. destruct R as (R1 & _). rewrite R1 in *.
  pose proof (discretise_tiles _ _ _ _ _ _ _ Bt D) as T. pose proof (discretise_box _ _ _ _ _ _ _ Bt D) as X.
  rewrite Forall_forall in *. intros x Hx. destruct (C x Hx) as (C1 & _). destruct (X x Hx) as (X1 & X2 & X3 & X4). unfold box in X1.
  pose proof (tiles_inside _ _ T x (west x, south x, bottom x) Hx) as I1. pose proof (tiles_inside _ _ T x (east x, north x, top x) Hx) as I2.
  cbn in I1, I2. specialize (I1 ltac:(lra)). specialize (I2 ltac:(lra)).
  pose proof (parallel_extent x ltac:(lra) ltac:(lra) ltac:(lra) ltac:(lra)) as P.
  apply Rmult_le_compat_l with (r := ratio) in P; [|assumption]. pose proof PI_RGT_0.
  apply Rmult_le_compat_l with (r := PI / 2) in C1; [|lra]. lra.
Qed.
Print Assumptions C66_extent_along_parallel_partial.

Theorem C66_wide_tesseroid_unsplit_refuted : exists t coordinates st,
  bounds_ok t /\ width_ok t /\ ~ inside coordinates t /\
  adaptive_discretization coordinates t 1 [empty_row] [empty_row] true = Ok st /\ returned_tesseroids st = [t] /\
  1 * (top t * cos (radians (mid_lat t)) * radians (east t - west t)) > PI / 2 * distance_to coordinates t.
Proof.
  exists wide, wide_point. destruct wide_unsplit as (st & E1 & E2). exists st.
  split; [unfold bounds_ok, wide; cbn; lra|]. split; [unfold width_ok, wide; cbn; lra|]. split; [unfold inside, wide, wide_point; cbn; lra|].
  split; [exact E1|]. split; [exact E2|].
  rewrite <- distance_point_to. unfold distance_tesseroid_point, distance_spherical, distance_spherical_core, wide_point, wide, mid_lat. cbn [west east south north bottom top].
  replace (radians ((0 + 270) / 2) - radians 135) with 0 by (unfold radians; field).
  replace (radians ((-10 + 10) / 2)) with 0 by (unfold radians; field). replace (radians 0) with 0 by (unfold radians; field).
  rewrite sin_0, cos_0. replace ((6 - (1 + 2) / 2) ^ 2 + 2 * 6 * ((1 + 2) / 2) * (1 - (0 * 0 + 1 * 1 * 1))) with (4.5 * 4.5) by lra.
  rewrite sqrt_square by lra. unfold radians. pose proof PI_RGT_0. lra.
Qed.
Print Assumptions C66_wide_tesseroid_unsplit_refuted.

Example C66_example : bounds_ok ex_t /\ west ex_t <= east ex_t <= west ex_t + 180.
Proof. unfold bounds_ok, ex_t; cbn; lra. Qed.

(** C13. *)
Theorem C13_terminates_within_buffers coordinates t ratio stk sml radial : (0 < length stk)%nat ->
  (exists st, adaptive_discretization coordinates t ratio stk sml radial = Ok st /\ (n_splits st <= length sml)%nat /\
              length (stack st) = length stk /\ length (small st) = length sml) \/
  adaptive_discretization coordinates t ratio stk sml radial = Raise OverflowError \/
  adaptive_discretization coordinates t ratio stk sml radial = Raise ZeroDivisionError.
Proof.
  intros H. pose proof (adaptive_refines coordinates t ratio stk sml radial H) as R.
  destruct (discretise_total coordinates t ratio (length stk) (length sml) radial H) as [[r D]|[D|D]]; rewrite D in R;
  destruct (adaptive_discretization coordinates t ratio stk sml radial) as [st|e]; try contradiction.
  - left. exists st. destruct R as (R1 & R2 & R3 & R4). repeat split; auto. rewrite R2.
    revert D. apply abs_loop_length. cbn; lia.
  - right; left; congruence.
  - right; right; congruence.
Qed.
Print Assumptions C13_terminates_within_buffers.

Theorem C13_only_overflow coordinates t ratio stk sml radial : (0 < length stk)%nat ->
  0 < east t - west t < 360 -> -90 <= south t < north t -> north t <= 90 -> 0 <= bottom t < top t ->
  (exists st, adaptive_discretization coordinates t ratio stk sml radial = Ok st) \/
  adaptive_discretization coordinates t ratio stk sml radial = Raise OverflowError.
Proof.
  intros H H1 H2 H3 H4. pose proof (adaptive_refines coordinates t ratio stk sml radial H) as R.
  destruct (discretise_regular coordinates t ratio (length stk) (length sml) radial H) as [[r D]|D]; [unfold regular; auto| |]; rewrite D in R;
  destruct (adaptive_discretization coordinates t ratio stk sml radial) as [st|e]; try contradiction; [eauto|right; congruence].
Qed.
Print Assumptions C13_only_overflow.

Example C13_example : (0 < length [empty_row])%nat /\ 0 < east ex_t - west ex_t < 360 /\ -90 <= south ex_t < north ex_t /\ north ex_t <= 90 /\ 0 <= bottom ex_t < top ex_t.
Proof. unfold ex_t; cbn; split; [lia|lra]. Qed.

(** C67.  Tesseroids that pass the checks and are narrower than a turn never cause a division by zero;
    tesseroids exactly one turn wide also pass the checks, but always do. *)
Theorem C67_full_turn_always_fails sh p ps s n b t w d ds ts field radial :
  prod_shape sh = length (p :: ps) -> In field ["potential"; "g_z"] -> length ds = length ts -> d <> 0 -> s < n -> b < t ->
  checks false (p :: ps) (Tess w (w + 360) s n b t :: ts) = Ok (Tess w (w + 360) s n b t :: ts) ->
  tesseroid_gravity (coords_of sh (p :: ps)) (Tess w (w + 360) s n b t :: ts) (arr1 (d :: ds)) field radial false = Raise ZeroDivisionError.
Proof. exact (full_turn_fails sh p ps s n b t w d ds ts field radial). Qed.
Print Assumptions C67_full_turn_always_fails.

Theorem C67_accepted_tesseroids_computed_refuted : exists t p,
  check_tesseroids_R [t] = Ok [t] /\ fat t /\ ~ inside p t /\
  tesseroid_gravity (coords_of [] [p]) [t] (arr1 [1]) "g_z" true false = Raise ZeroDivisionError.
Proof.
  exists shell, ex_p. split.
  { apply check_tesseroids_ok. pose proof (proj1 (checks_ok _ _ _ _) shell_checks) as (A & B & C & _). auto. }
  split; [unfold fat, shell; cbn; lra|]. split; [unfold inside, shell, ex_p; cbn; lra|].
  replace shell with (Tess 0 (0 + 360) (-10) 10 1 2) by (unfold shell; f_equal; ring).
  apply full_turn_fails; auto; try lra; try (cbn; auto; fail).
  replace (Tess 0 (0 + 360) (-10) 10 1 2) with shell by (unfold shell; f_equal; ring). exact shell_checks.
Qed.
Print Assumptions C67_accepted_tesseroids_computed_refuted.

(** C14.  At every observation point the result is the field, according to point_gravity, of point masses
    grouped by tesseroid; each lies strictly inside its tesseroid, and the masses of a group add up to
    between 95 % and 100 % of density times volume (exactly the 2-point rule in latitude, see below). *)
Theorem C14_field_of_point_masses_inside sh ps ts ds field radial a :
  prod_shape sh = length ps -> In field ["potential"; "g_z"] -> length ds = length ts ->
  tesseroid_gravity (coords_of sh ps) ts (arr1 ds) field radial false = Ok a ->
  exists ts', Forall2 moved ts ts' /\ forall k p, nth_error ps k = Some p -> exists srcs : list (list source),
    nth k (data a) 0 = returned (point_gravity (coords_of [] [p]) (points_of (concat srcs)) (masses_of (concat srcs)) field "spherical") /\
    Forall2 (fun td ss =>
        (forall s, In s ss -> in_open (fst td) (fst s)) /\
        (0 <= snd td -> 19 / 20 * (snd td * volume (fst td)) <= sum_over ss snd <= snd td * volume (fst td)))
      (combine ts' ds) srcs.
Proof. exact (point_masses sh ps ts ds field radial a). Qed.
Print Assumptions C14_field_of_point_masses_inside.

Theorem C14_quadrature_is_eight_point_masses lon lat rad t d kernel :
  gauss_legendre_quadrature (radians lon) (cos (radians lat)) (sin (radians lat)) rad t d glq_nodes2 glq_weights2 kernel
  = Ok (sum_over (glq_sources t d) (fun s => snd s *
      kernel (radians lon) (cos (radians lat)) (sin (radians lat)) rad
             (radians (fst3 (fst s))) (cos (radians (snd3 (fst s)))) (sin (radians (snd3 (fst s)))) (thd3 (fst s)))).
Proof. exact (glq_ok lon lat rad t d kernel). Qed.
Print Assumptions C14_quadrature_is_eight_point_masses.

Theorem C14_total_mass t d :
  sum_over (glq_sources t d) snd
  = d * radians (east t - west t) * ((top t ^ 3 - bottom t ^ 3) / 3)
    * (radians (north t - south t) / 2 *
       (cos (radians ((south t + north t) / 2 - (north t - south t) / 2 / sqrt 3)) +
        cos (radians ((south t + north t) / 2 + (north t - south t) / 2 / sqrt 3)))).
Proof. exact (glq_total_mass t d). Qed.
Print Assumptions C14_total_mass.

Theorem C14_masses_positive t d s : fat t -> -90 <= south t -> north t <= 90 -> 0 <= bottom t -> 0 < d -> In s (glq_sources t d) ->
  0 < snd s /\ in_open t (fst s).
Proof. intros F S N B D H. split; [exact (glq_mass_pos t d s F S N B D H)|exact (glq_inside t d s F H)]. Qed.
Print Assumptions C14_masses_positive.

Example C14_example : fat ex_t /\ -90 <= south ex_t /\ north ex_t <= 90 /\ 0 <= bottom ex_t /\ length (glq_sources ex_t 1) = 8%nat /\
  exists a, tesseroid_gravity (coords_of [] [ex_p]) [ex_t] (arr1 [2670]) "g_z" false false = Ok a.
Proof. split; [unfold fat, ex_t; cbn; lra|]. repeat split; try (unfold ex_t; cbn; lra). apply ex_gravity; cbn; auto. Qed.

(** C15. *)
Theorem C15_union_of_tesseroids sh ps ts1 ts2 ds1 ds2 field radial disable a1 a2 :
  prod_shape sh = length ps -> In field ["potential"; "g_z"] -> length ds1 = length ts1 -> length ds2 = length ts2 ->
  tesseroid_gravity (coords_of sh ps) ts1 (arr1 ds1) field radial disable = Ok a1 ->
  tesseroid_gravity (coords_of sh ps) ts2 (arr1 ds2) field radial disable = Ok a2 ->
  exists a, tesseroid_gravity (coords_of sh ps) (ts1 ++ ts2) (arr1 (ds1 ++ ds2)) field radial disable = Ok a /\
    shape a = sh /\ length (data a) = length ps /\ forall k, nth k (data a) 0 = nth k (data a1) 0 + nth k (data a2) 0.
Proof. exact (union_value sh ps ts1 ts2 ds1 ds2 field radial disable a1 a2). Qed.
Print Assumptions C15_union_of_tesseroids.

Theorem C15_union_returns_only_if_parts_do sh ps ts1 ts2 ds1 ds2 field radial disable a :
  prod_shape sh = length ps -> In field ["potential"; "g_z"] -> length ds1 = length ts1 -> length ds2 = length ts2 ->
  tesseroid_gravity (coords_of sh ps) (ts1 ++ ts2) (arr1 (ds1 ++ ds2)) field radial disable = Ok a ->
  (exists a1, tesseroid_gravity (coords_of sh ps) ts1 (arr1 ds1) field radial disable = Ok a1) /\
  (exists a2, tesseroid_gravity (coords_of sh ps) ts2 (arr1 ds2) field radial disable = Ok a2).
Proof. exact (union_inv sh ps ts1 ts2 ds1 ds2 field radial disable a). Qed.
Print Assumptions C15_union_returns_only_if_parts_do.

Theorem C15_linear_in_density sh ps ts ds1 ds2 a b field radial disable a1 a2 :
  prod_shape sh = length ps -> In field ["potential"; "g_z"] -> length ds1 = length ts -> length ds2 = length ts ->
  tesseroid_gravity (coords_of sh ps) ts (arr1 ds1) field radial disable = Ok a1 ->
  tesseroid_gravity (coords_of sh ps) ts (arr1 ds2) field radial disable = Ok a2 ->
  exists r, tesseroid_gravity (coords_of sh ps) ts (arr1 (map (fun xy => a * fst xy + b * snd xy) (combine ds1 ds2))) field radial disable = Ok r /\
    shape r = sh /\ length (data r) = length ps /\ forall k, nth k (data r) 0 = a * nth k (data a1) 0 + b * nth k (data a2) 0.
Proof. exact (linear_value sh ps ts ds1 ds2 a b field radial disable a1 a2). Qed.
Print Assumptions C15_linear_in_density.

Theorem C15_order_irrelevant sh ps tds tds2 field radial disable a :
  prod_shape sh = length ps -> In field ["potential"; "g_z"] -> Permutation tds tds2 ->
  tesseroid_gravity (coords_of sh ps) (map fst tds) (arr1 (map snd tds)) field radial disable = Ok a ->
  tesseroid_gravity (coords_of sh ps) (map fst tds2) (arr1 (map snd tds2)) field radial disable = Ok a.
Proof. exact (order_value sh ps tds tds2 field radial disable a). Qed.
Print Assumptions C15_order_irrelevant.

Theorem C15_null_tesseroids_removable sh ps ts1 ts2 ds1 ds2 t d t' field radial a :
  prod_shape sh = length ps -> In field ["potential"; "g_z"] -> length ds1 = length ts1 -> length ds2 = length ts2 ->
  moved t t' -> null t' d ->
  tesseroid_gravity (coords_of sh ps) (ts1 ++ t :: ts2) (arr1 (ds1 ++ d :: ds2)) field radial false = Ok a ->
  tesseroid_gravity (coords_of sh ps) (ts1 ++ ts2) (arr1 (ds1 ++ ds2)) field radial false = Ok a.
Proof. exact (null_removal sh ps ts1 ts2 ds1 ds2 t d t' field radial a). Qed.
Print Assumptions C15_null_tesseroids_removable.

Theorem C15_null_tesseroids_harmless sh ps ts1 ts2 ds1 ds2 t d t' field radial a :
  prod_shape sh = length ps -> In field ["potential"; "g_z"] -> length ds1 = length ts1 -> length ds2 = length ts2 ->
  bounds_ok t -> moved t t' -> width_ok t' -> (west t' = east t' \/ south t' = north t' \/ bottom t' = top t') ->
  tesseroid_gravity (coords_of sh ps) (ts1 ++ ts2) (arr1 (ds1 ++ ds2)) field radial false = Ok a ->
  tesseroid_gravity (coords_of sh ps) (ts1 ++ t :: ts2) (arr1 (ds1 ++ d :: ds2)) field radial false = Ok a.
Proof. exact (null_insertion sh ps ts1 ts2 ds1 ds2 t d t' field radial a). Qed.
Print Assumptions C15_null_tesseroids_harmless.

Example C15_example :
  (exists a, tesseroid_gravity (coords_of [] [ex_p]) [ex_t] (arr1 [2670]) "potential" true false = Ok a) /\
  (exists a, tesseroid_gravity (coords_of [] [ex_p]) [ex_t] (arr1 [-100]) "potential" true false = Ok a) /\
  moved (Tess 360 0 0 1 1 2) (Tess 0 0 0 1 1 2) /\ null (Tess 0 0 0 1 1 2) 5.
Proof.
  split; [apply ex_gravity; cbn; auto|]. split; [apply ex_gravity; cbn; auto|]. split; [|left; reflexivity].
  right. cbn. repeat split; try lra; [exists (-1)%Z|exists 0%Z]; lra.
Qed.
