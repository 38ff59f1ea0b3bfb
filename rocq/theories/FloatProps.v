(** Rounding errors of distances, predictions and Bouguer corrections. *)
From Coq Require Import Psatz FunctionalExtensionality.
From Verif Require Import Base BaseFacts NumPy NumPyFacts DistanceModel DistanceSpec DistanceProofs PointGravitySpec PointGravityProofs
  LegendreModel LegendreProofs EqsModel EqsSpec EqsProofs UtilsModel FloatModel FloatSpec FloatProofs.
Local Open Scope R_scope.

(** Rounding to the nearest number of 53 bits has relative error at most 2^-53. *)
Theorem C92_rounding_to_53_bits : standard (/ 2 ^ 53) binary53.
Proof. exact binary53_standard. Qed.
Print Assumptions C92_rounding_to_53_bits.

(** Without rounding the functions are those of the other files. *)
Theorem C92_without_rounding :
  (forall p q, f_distance_cartesian (fun x => x) p q = distance_cartesian p q) /\
  (forall p q, f_distance_spherical (fun x => x) p q = Fin (distance_spherical p q)) /\
  (forall cs ps coefs out, f_predict_kernel (fun x => x) (f_greens_func_cartesian (fun x => x)) cs ps coefs out = predict_kernel float64 greens_func_cartesian cs ps coefs out) /\
  (forall h dc dw, [Fin (f_bouguer (fun x => x) h dc dw)] = bouguer_correction [Fin h] dc dw).
Proof.
  assert (A : forall p q, f_distance_cartesian (fun x => x) p q = distance_cartesian p q).
  { intros [[e n] u] [[e' n'] u']. unfold f_distance_cartesian, distance_cartesian, f_square. f_equal. ring. }
  split; [exact A|]. split; [|split].
  - intros [[lon lat] r] [[lon' lat'] r']. unfold f_distance_spherical, distance_spherical, f_distance_spherical_core, distance_spherical_core, f_square.
    assert (E : forall d, f_radians (fun x => x) d = radians d) by (intros d; unfold f_radians, radians; field). rewrite !E.
    assert (B := cospsi_bound (radians lat') (radians lat) (radians lon' - radians lon)). set (c := sin (radians lat') * _ + _) in *. clearbody c.
    match goal with |- (if Rltb ?x 0 then _ else _) = _ => destruct (Rltb_spec x 0) as [L|L] end.
    + exfalso. destruct (Rle_dec 0 (r * r')) as [S|S]; [assert (Q := Rle_0_sqr (r - r')); unfold Rsqr in Q; nra|]. assert (Q := Rle_0_sqr (r + r')); unfold Rsqr in Q. nra.
    + do 2 f_equal. ring.
  - intros cs ps coefs out. unfold f_predict_kernel, predict_kernel. cbn [cast float64].
    replace (f_greens_func_cartesian (fun x : R => x)) with greens_func_cartesian; [reflexivity|].
    repeat (apply functional_extensionality; intro). unfold greens_func_cartesian, f_greens_func_cartesian. rewrite A. reflexivity.
  - intros h dc dw. unfold f_bouguer, bouguer_correction. cbn. unfold nltb. destruct (Rltb h 0); reflexivity.
Qed.
Print Assumptions C92_without_rounding.

(** The Cartesian distance: relative error at most sixteen roundings, zero for equal points only. *)
Theorem C92_cartesian_distance u fl p q : 0 <= u <= / 32 -> standard u fl ->
  Rabs (f_distance_cartesian fl p q - eucl (cart_position p) (cart_position q)) <= 16 * u * eucl (cart_position p) (cart_position q) /\
  (f_distance_cartesian fl p q = 0 <-> cart_position p = cart_position q).
Proof.
  intros U S. assert (U1 : 0 <= u < 1) by lra. assert (N := f_distance_near u fl U1 S p q). split.
  - assert (A := near_abs u U1 _ _ _ N). rewrite (Rabs_pos_eq (eucl _ _)) in A by apply eucl_nonneg. eapply Rle_trans; [exact A|]. apply Rmult_le_compat_r; [apply eucl_nonneg|].
    assert (X := rho_excess u U1 4). replace (INR 4) with 4 in X by (cbn; lra). specialize (X ltac:(lra)). lra.
  - rewrite (near_zero u U1 _ _ _ N). apply eucl_zero.
Qed.
Print Assumptions C92_cartesian_distance.

(** The predictions of Cartesian equivalent sources in floating point arithmetic: an error exactly
    when a point is at a source; otherwise each prediction is the sum of coefficients over distances up to
    a relative error of the sum of the absolute values that grows linearly with the number of sources. *)
Theorem C92_predictions u fl ps qs coefs : standard u fl -> 0 <= u -> INR (length qs + 6) * u <= / 8 -> length coefs = length qs ->
  let out := f_predict_kernel fl (f_greens_func_cartesian fl) (flat ps) (flat qs) coefs (repeat 0 (length ps)) in
  (apart cart_position ps qs -> exists values, out = Ok values /\ length values = length ps /\
     forall i p, nth_error ps i = Some p -> exists x, nth_error values i = Some x /\
       Rabs (x - inverse_distance cart_position p (combine qs coefs)) <= 4 * INR (length qs + 6) * u * inverse_distance cart_position p (combine qs (map Rabs coefs))) /\
  (~ apart cart_position ps qs -> out = Raise ZeroDivisionError).
Proof.
  intros S U0 Un Hl out. assert (U1 : 0 <= u < 1). { split; [exact U0|]. assert (6 <= INR (length qs + 6)) by (rewrite plus_INR; assert (P := pos_INR (length qs)); cbn; lra). nra. }
  split; [|intros Ha; exact (f_predict_raises u fl U1 S ps qs coefs Ha Hl)]. intros Ha. destruct (f_predict_ok u fl U1 S ps qs coefs Ha Hl) as (values & E & L & P).
  exists values. split; [exact E|]. split; [exact L|]. intros i p Hp. assert (Hi : (i < length ps)%nat) by (apply nth_error_Some; congruence). exists (nth i values 0).
  split; [apply nth_error_nth'; lia|]. specialize (P i Hi). rewrite (nth_error_nth _ _ _ Hp) in P. assert (A := perturbed_abs u U1 6 _ _ _ P).
  rewrite (term_sum coefs qs p Hl) in A. rewrite (sum_over_ext _ (fun j => Rabs (term coefs qs p j)) (term (map Rabs coefs) qs p)) in A.
  2: { intros j Hj. apply range_in in Hj. apply term_abs. intros Z. apply eucl_zero in Z. revert Z. apply Ha; [eapply nth_error_In; exact Hp | apply nth_In; lia]. }
  rewrite (term_sum (map Rabs coefs) qs p) in A by (now rewrite map_length). eapply Rle_trans; [exact A|]. apply Rmult_le_compat_r.
  - unfold inverse_distance. rewrite <- (Rmult_0_l (sum_over (combine qs (map Rabs coefs)) (fun _ => 0))). apply Rle_trans with 0; [lra|]. apply sum_over_nonneg. intros [q c] Hq. cbn [fst snd]. apply in_combine_r in Hq. apply in_map_iff in Hq. destruct Hq as (c0 & <- & _).
    unfold Rdiv. apply Rmult_le_pos; [apply Rabs_pos|]. destruct (Req_dec (eucl (cart_position p) (cart_position q)) 0) as [Z|Z]; [rewrite Z, Rinv_0; lra | left; apply Rinv_0_lt_compat; assert (Y := eucl_nonneg (cart_position p) (cart_position q)); lra].
  - rewrite (Nat.add_comm (length qs) 6) in *. apply (rho_excess u U1). exact Un.
Qed.
Print Assumptions C92_predictions.

(** The Bouguer correction: relative error at most 36 roundings of the gravity of the slab. *)
Theorem C92_bouguer u fl h density_crust density_water : 0 <= u <= / 72 -> standard u fl ->
  let slab := 10 ^ 5 * 2 * PI * GRAVITATIONAL_CONST * (if Rltb h 0 then density_crust - density_water else density_crust) * h in
  Rabs (f_bouguer fl h density_crust density_water - slab) <= 36 * u * Rabs slab.
Proof.
  intros U S slab. assert (U1 : 0 <= u < 1) by lra. assert (A := near_abs u U1 _ _ _ (f_bouguer_near u fl h density_crust density_water U1 S)). eapply Rle_trans; [exact A|]. apply Rmult_le_compat_r; [apply Rabs_pos|].
  assert (X := rho_excess u U1 9). replace (INR 9) with 9 in X by (cbn; lra). specialize (X ltac:(lra)). lra.
Qed.
Print Assumptions C92_bouguer.

(** The spherical distance: the square of the computed value is that of the distance up to 400 roundings
    of the squared radii; it is not a number only for points that are closer than that. *)
Theorem C92_spherical_distance_partial u fl p q : 0 <= u <= / 10 ^ 4 -> standard u fl -> geographic p -> geographic q ->
  let tolerance := 400 * u * (thd3 p ^ 2 + thd3 q ^ 2) in
  match f_distance_spherical fl p q with
  | NaN => eucl (sph_position p) (sph_position q) ^ 2 <= tolerance
  | Fin d => 0 <= d /\ Rabs (d ^ 2 - eucl (sph_position p) (sph_position q) ^ 2) <= tolerance
  end.
Proof. intros U S Hp Hq. exact (f_spherical_err u fl U S p q Hp Hq). Qed.
Print Assumptions C92_spherical_distance_partial.

(** For points further apart than a few ten-millionths of the radius this is a small relative error. *)
Theorem C92_spherical_distance_far u fl p q : 0 <= u <= / 10 ^ 4 -> standard u fl -> geographic p -> geographic q ->
  forall eps, 0 < eps < 1 -> 400 * u * (thd3 p ^ 2 + thd3 q ^ 2) <= eps * eucl (sph_position p) (sph_position q) ^ 2 ->
  sph_position p <> sph_position q ->
  exists d, f_distance_spherical fl p q = Fin d /\ Rabs (d - eucl (sph_position p) (sph_position q)) <= eps * eucl (sph_position p) (sph_position q).
Proof.
  intros U S Hp Hq eps He Ht Hn. assert (Hd : eucl (sph_position p) (sph_position q) <> 0) by (intros Z; apply Hn, eucl_zero, Z). assert (E := f_spherical_err u fl U S p q Hp Hq). assert (D0 := eucl_nonneg (sph_position p) (sph_position q)). set (D := eucl _ _) in *. clearbody D.
  set (t := 400 * u * (thd3 p ^ 2 + thd3 q ^ 2)) in *. clearbody t. destruct (f_distance_spherical fl p q) as [|d]; [exfalso; assert (0 < D ^ 2) by (apply pow_lt; lra); nra|].
  exists d. split; [reflexivity|]. destruct E as (d0 & E). apply abs_le_inv in E. assert (0 < D) by lra. apply Rabs_le. split.
  - destruct (Rle_lt_dec D d) as [L|L]; [nra|]. assert ((D - d) * (D + d) <= eps * D * D) by nra. assert (D <= D + d) by lra. nra.
  - destruct (Rle_lt_dec d D) as [L|L]; [nra|]. assert ((d - D) * (D + d) <= eps * D * D) by nra. nra.
Qed.
Print Assumptions C92_spherical_distance_far.

(** Points of the Earth's surface two centimetres apart are at computed distance zero. *)
Theorem C92_spherical_distance_refuted : exists p q, geographic p /\ geographic q /\ sph_position p <> sph_position q /\
  f_distance_spherical binary53 p q = Fin 0.
Proof.
  exists (0, 0, 6371000), (/ 2 ^ 22, 0, 6371000).
  assert (0 < / 2 ^ 22 <= 1) by (split; [apply Rinv_0_lt_compat, pow_lt; lra | rewrite <- Rinv_1; apply Rinv_le_contravar; [lra | apply pow_R1_Rle; lra]]).
  split; [|split; [|split]]; [unfold geographic; rewrite Rabs_R0; lra | unfold geographic; rewrite Rabs_R0, Rabs_pos_eq; lra | exact near_points_differ | exact near_points].
Qed.
Print Assumptions C92_spherical_distance_refuted.

(** A thousand sources and rounding to 53 bits meet the hypotheses; the prediction of two sources does. *)
Example C92_sample :
  0 <= / 2 ^ 53 <= / 10 ^ 4 /\ INR (1000 + 6) * / 2 ^ 53 <= / 8 /\
  exists x, f_predict_kernel binary53 (f_greens_func_cartesian binary53) (flat [(0, 0, 0)]) (flat [(3, 4, 0); (0, 0, 2)]) [10; -1] [0] = Ok [x] /\
    Rabs (x - 3 / 2) <= / 10 ^ 13.
Proof.
  assert (U : 0 <= / 2 ^ 53 <= / 10 ^ 4) by (split; [left; apply Rinv_0_lt_compat, pow_lt; lra | apply Rinv_le_contravar; lra]).
  assert (B : / 2 ^ 53 * 9007199254740992 = 1) by (replace 9007199254740992 with (2 ^ 53) by ring; apply Rinv_l, pow_nonzero; lra).
  split; [exact U|]. split.
  - rewrite INR_IZR_INZ. change (Z.of_nat (1000 + 6)) with 1006%Z. lra.
  - assert (E1 : eucl (cart_position (0, 0, 0)) (cart_position (3, 4, 0)) = 5) by (unfold eucl, norm, cart_position, dot, vsub; cbn [vx vy vz]; replace ((0 - 3) * (0 - 3) + (0 - 4) * (0 - 4) + (0 - 0) * (0 - 0)) with (5 * 5) by ring; apply sqrt_square; lra).
    assert (E2 : eucl (cart_position (0, 0, 0)) (cart_position (0, 0, 2)) = 2) by (unfold eucl, norm, cart_position, dot, vsub; cbn [vx vy vz]; replace ((0 - 0) * (0 - 0) + (0 - 0) * (0 - 0) + (0 - 2) * (0 - 2)) with (2 * 2) by ring; apply sqrt_square; lra).
    destruct (C92_predictions (/ 2 ^ 53) binary53 [(0, 0, 0)] [(3, 4, 0); (0, 0, 2)] [10; -1] binary53_standard) as [P _]; [lra | cbn [length INR plus]; lra | reflexivity |].
    destruct P as (values & E & L & P).
    { intros p q [<-|[]] [<-|[<-|[]]] H; apply eucl_zero in H; lra. }
    destruct (P 0%nat (0, 0, 0) eq_refl) as (x & Hx & Bx). destruct values as [|y [|z values]]; try discriminate. cbn in Hx. injection Hx as ->. exists x. split; [exact E|].
    cbn [length map combine plus] in Bx. unfold inverse_distance in Bx. rewrite !sum_over_cons in Bx. cbn [fst snd] in Bx. rewrite E1, E2 in Bx. rewrite (Rabs_pos_eq 10), (Rabs_left (-1)) in Bx by lra. cbv [sum_over sumR map fold_right] in Bx.
    replace (INR 8) with 8 in Bx by (cbn; lra). assert (T : / 10 ^ 13 * 10000000000000 = 1) by (replace 10000000000000 with (10 ^ 13) by ring; apply Rinv_l, pow_nonzero; lra).
    apply abs_le_inv in Bx. apply Rabs_le. lra.
Qed.

(** The pole and a point of the equator of the unit sphere are far apart in the sense of the theorem. *)
Example C92_sphere_sample : exists d, f_distance_spherical binary53 (0, 0, 1) (0, 90, 1) = Fin d /\ Rabs (d - sqrt 2) <= / 10 ^ 12 * sqrt 2.
Proof.
  destruct C92_sample as (U & _). assert (B : / 2 ^ 53 * 9007199254740992 = 1) by (replace 9007199254740992 with (2 ^ 53) by ring; apply Rinv_l, pow_nonzero; lra).
  assert (T : / 10 ^ 12 * 1000000000000 = 1) by (replace 1000000000000 with (10 ^ 12) by ring; apply Rinv_l, pow_nonzero; lra).
  assert (E : eucl (sph_position (0, 0, 1)) (sph_position (0, 90, 1)) = sqrt 2).
  { rewrite <- distance_spherical_eucl. unfold distance_spherical, distance_spherical_core. unfold radians. replace (90 * PI / 180) with (PI / 2) by field. replace (0 * PI / 180) with 0 by field. rewrite sin_0, cos_0, cos_PI2, sin_PI2. f_equal. ring. }
  assert (S2 := sqrt_def 2 ltac:(lra)). assert (P := sqrt_pos 2). rewrite <- E. apply (C92_spherical_distance_far (/ 2 ^ 53) binary53).
  - exact U.
  - exact C92_rounding_to_53_bits.
  - unfold geographic. rewrite Rabs_R0. lra.
  - unfold geographic. rewrite Rabs_R0, Rabs_pos_eq by lra. lra.
  - lra.
  - rewrite E. unfold thd3. cbn [fst snd]. replace (sqrt 2 ^ 2) with 2 by nra. lra.
  - intros H. apply eucl_zero in H. rewrite E in H. nra.
Qed.
