(** Lemmas for claim C105: how close the point masses of a tesseroid come to Newton's integral. *)
From Coq Require Import Psatz Permutation.
From Coquelicot Require Import Coquelicot.
From Verif Require Import Base BaseFacts NumPy NumPyFacts DistanceModel DistanceSpec DistanceProofs PointGravityModel PointGravitySpec PointGravityProofs
  TesseroidModel TesseroidSpec TesseroidCheckProofs TesseroidAdaptProofs TesseroidProofs TesseroidFieldProofs TesseroidFitSpec TesseroidFitProofs MassBoundsProofs
  TesseroidLimitSpec TesseroidLimitIntProofs.
Local Open Scope string_scope. Local Open Scope list_scope. Local Open Scope R_scope.
Local Opaque MAX_DISCRETIZATIONS STACK_SIZE.

(** ** Slope of the fields of a unit mass *)
Lemma eucl_dot x y : eucl x y ^ 2 = dot (vsub x y) (vsub x y).
Proof. unfold eucl. replace (norm (vsub x y) ^ 2) with (norm (vsub x y) * norm (vsub x y)) by ring. apply norm_sqr. Qed.
Lemma eucl_diff x y z : Rabs (eucl x y - eucl x z) <= eucl y z.
Proof. apply Rabs_le. pose proof (eucl_triangle x y z). pose proof (eucl_triangle x z y). rewrite (eucl_sym z y) in *. lra. Qed.
Lemma potential_slope x y z delta : 0 < delta -> delta <= eucl x y -> delta <= eucl x z ->
  Rabs (newton_potential 1 x y - newton_potential 1 x z) <= newton_G / delta ^ 2 * eucl y z.
Proof.
  intros Hd H1 H2. unfold newton_potential. pose proof newton_G_pos as G. set (a := eucl x y) in *. set (b := eucl x z) in *.
  replace (newton_G * 1 / a - newton_G * 1 / b) with (newton_G * ((b - a) / (a * b))) by (field; lra). rewrite Rabs_mult, (Rabs_pos_eq newton_G) by lra.
  unfold Rdiv at 2. rewrite Rmult_assoc. apply Rmult_le_compat_l; [lra|]. unfold Rdiv. rewrite Rabs_mult, Rmult_comm.
  assert (P : delta ^ 2 <= a * b) by nra. assert (P0 : 0 < delta ^ 2) by nra.
  apply Rmult_le_compat; try apply Rabs_pos; [|rewrite Rabs_minus_sym; apply eucl_diff].
  rewrite Rabs_pos_eq; [now apply Rinv_le_contravar|]. left. apply Rinv_0_lt_compat. lra.
Qed.
Lemma accel_slope x y z d delta : 0 < delta -> delta <= eucl x y -> delta <= eucl x z -> norm d = 1 ->
  Rabs (newton_accel 1 x y d - newton_accel 1 x z d) <= 2 * newton_G / delta ^ 3 * eucl y z.
Proof.
  intros Hd H1 H2 Hn. pose proof newton_G_pos as G. unfold newton_accel.
  set (v := vsub y x). set (w := vsub z x). set (a := eucl x y) in *. set (b := eucl x z) in *. set (c := dot v w).
  set (u := vsub (vscale (/ a ^ 3) v) (vscale (/ b ^ 3) w)).
  assert (E : dot (vscale (newton_G * 1 / a ^ 3) v) d - dot (vscale (newton_G * 1 / b ^ 3) w) d = newton_G * dot u d).
  { unfold u, dot, vsub, vscale. destruct v, w, d. cbn. unfold Rdiv. ring. }
  rewrite E, Rabs_mult, (Rabs_pos_eq newton_G) by lra.
  assert (Ev : dot v v = a ^ 2) by (unfold a, v; rewrite eucl_sym; symmetry; apply eucl_dot). assert (Ew : dot w w = b ^ 2) by (unfold b, w; rewrite eucl_sym; symmetry; apply eucl_dot).
  assert (Ee : eucl y z ^ 2 = a ^ 2 + b ^ 2 - 2 * c) by (rewrite eucl_dot, <- Ev, <- Ew; unfold c, v, w, dot, vsub; destruct x, y, z; cbn; ring).
  assert (Hc : c <= a * b).
  { pose proof (dot_le_norms v w) as K. fold c in K. assert (norm v = a) by (unfold a, v; rewrite eucl_sym; reflexivity). assert (norm w = b) by (unfold b, w; rewrite eucl_sym; reflexivity). congruence. }
  assert (Eu : dot u u = / a ^ 4 + / b ^ 4 - 2 * c / (a ^ 3 * b ^ 3)).
  { transitivity ((/ a ^ 3) ^ 2 * dot v v + (/ b ^ 3) ^ 2 * dot w w - 2 * (/ a ^ 3) * (/ b ^ 3) * c); [unfold u, c, dot, vsub, vscale; destruct v, w; cbn; ring|]. rewrite Ev, Ew. field. lra. }
  set (e := eucl y z) in *. assert (He : 0 <= e) by apply eucl_nonneg.
  assert (N : norm u <= e * ((a + b) / (a ^ 2 * b ^ 2))).
  { assert (Q : 0 <= (a + b) / (a ^ 2 * b ^ 2)) by (apply Rmult_le_pos; [lra|left; apply Rinv_0_lt_compat; apply Rmult_lt_0_compat; apply pow_lt; lra]).
    apply Rsqr_incr_0_var; [|now apply Rmult_le_pos]. unfold Rsqr. rewrite norm_sqr, Eu.
    replace (e * ((a + b) / (a ^ 2 * b ^ 2)) * (e * ((a + b) / (a ^ 2 * b ^ 2)))) with (e ^ 2 * ((a + b) ^ 2 / (a ^ 4 * b ^ 4))) by (field; lra). rewrite Ee.
    assert (D : (a ^ 2 + b ^ 2 - 2 * c) * ((a + b) ^ 2 / (a ^ 4 * b ^ 4)) - (/ a ^ 4 + / b ^ 4 - 2 * c / (a ^ 3 * b ^ 3)) = 2 * (a * b - c) * (a ^ 2 + a * b + b ^ 2) / (a ^ 4 * b ^ 4)) by (field; lra).
    assert (0 <= 2 * (a * b - c) * (a ^ 2 + a * b + b ^ 2) / (a ^ 4 * b ^ 4)); [|lra].
    apply Rmult_le_pos; [apply Rmult_le_pos; [lra|nra]|]. left. apply Rinv_0_lt_compat. apply Rmult_lt_0_compat; apply pow_lt; lra. }
  assert (B : (a + b) / (a ^ 2 * b ^ 2) <= 2 / delta ^ 3).
  { replace ((a + b) / (a ^ 2 * b ^ 2)) with (/ (a * b ^ 2) + / (a ^ 2 * b)) by (field; lra). replace (2 / delta ^ 3) with (/ delta ^ 3 + / delta ^ 3) by (field; lra).
    assert (P3 : 0 < delta ^ 3) by (apply pow_lt; lra). assert (D2 : 0 < delta * delta) by nra. assert (Ha2 : delta * delta <= a * a) by nra. assert (Hb2 : delta * delta <= b * b) by nra.
    apply Rplus_le_compat; apply Rinv_le_contravar; try assumption; simpl; rewrite !Rmult_1_r; [apply Rmult_le_compat; lra|]. replace (delta * (delta * delta)) with (delta * delta * delta) by ring. apply Rmult_le_compat; lra. }
  pose proof (cauchy_schwarz_norm u d) as K. rewrite Hn, Rmult_1_r in K.
  apply Rle_trans with (newton_G * (e * (2 / delta ^ 3))); [|right; field; lra]. apply Rmult_le_compat_l; [lra|]. eapply Rle_trans; [exact K|]. eapply Rle_trans; [exact N|]. now apply Rmult_le_compat_l.
Qed.

Section Field.
Variables (field : string) (p : point).
Hypothesis Hfield : field = "potential" \/ field = "g_z".
Definition fld (q : point) : R := newton_field "spherical" field p (q, 1).

Lemma fld_slope q q' delta : 0 < delta -> delta <= eucl (sph_position p) (sph_position q) -> delta <= eucl (sph_position p) (sph_position q') ->
  Rabs (fld q - fld q') <= steepness field delta * eucl (sph_position q) (sph_position q').
Proof.
  intros Hd H1 H2. unfold fld, steepness. destruct Hfield as [-> | ->]; cbn -[newton_G mGal pow].
  - change (Rabs (newton_potential 1 (sph_position p) (sph_position q) - newton_potential 1 (sph_position p) (sph_position q')) <= newton_G / delta ^ 2 * eucl (sph_position q) (sph_position q')). now apply potential_slope.
  - change (Rabs (mGal * newton_accel 1 (sph_position p) (sph_position q) (sph_down p) - mGal * newton_accel 1 (sph_position p) (sph_position q') (sph_down p)) <= mGal * (2 * newton_G / delta ^ 3) * eucl (sph_position q) (sph_position q')).
    rewrite <- Rmult_minus_distr_l, Rabs_mult, (Rabs_pos_eq mGal), Rmult_assoc by (unfold mGal; lra). apply Rmult_le_compat_l; [unfold mGal; lra|]. apply accel_slope; auto using norm_sph_down.
Qed.
Lemma fld_strength q delta : 0 < delta -> delta <= eucl (sph_position p) (sph_position q) -> Rabs (fld q) <= strength field delta.
Proof.
  intros Hd H. pose proof newton_G_pos as G. unfold fld, strength. destruct Hfield as [-> | ->].
  - change (Rabs (newton_G * 1 / eucl (sph_position p) (sph_position q)) <= newton_G / delta). rewrite Rabs_pos_eq; [|apply Rmult_le_pos; [lra|left; apply Rinv_0_lt_compat; lra]].
    rewrite Rmult_1_r. apply Rmult_le_compat_l; [lra|]. now apply Rinv_le_contravar.
  - change (Rabs (mGal * newton_accel 1 (sph_position p) (sph_position q) (sph_down p)) <= mGal * (newton_G / delta ^ 2)). rewrite Rabs_mult, (Rabs_pos_eq mGal) by (unfold mGal; lra). apply Rmult_le_compat_l; [unfold mGal; lra|].
    unfold newton_accel. set (v := vsub (sph_position q) (sph_position p)). set (l := eucl (sph_position p) (sph_position q)) in *.
    assert (E : dot (vscale (newton_G * 1 / l ^ 3) v) (sph_down p) = newton_G * / l ^ 3 * dot v (sph_down p)) by (unfold dot, vscale; destruct v, (sph_down p); cbn; unfold Rdiv; ring). rewrite E, Rabs_mult.
    assert (P3 : 0 < / l ^ 3) by (apply Rinv_0_lt_compat, pow_lt; lra). rewrite (Rabs_pos_eq (newton_G * / l ^ 3)) by nra.
    pose proof (cauchy_schwarz_norm v (sph_down p)) as K. rewrite norm_sph_down, Rmult_1_r in K. assert (Nv : norm v = l) by (unfold l, v; rewrite eucl_sym; reflexivity). rewrite Nv in K.
    apply Rle_trans with (newton_G * / l ^ 3 * l); [apply Rmult_le_compat_l; nra|]. replace (newton_G * / l ^ 3 * l) with (newton_G * / l ^ 2) by (field; lra). apply Rmult_le_compat_l; [lra|]. apply Rinv_le_contravar; [apply pow_lt; lra|]. apply pow_incr. lra.
Qed.
Lemma steepness_nonneg delta : 0 < delta -> 0 <= steepness field delta.
Proof.
  intros Hd. pose proof newton_G_pos as G. unfold steepness. destruct (String.eqb field "potential").
  - apply Rmult_le_pos; [lra|]. left. apply Rinv_0_lt_compat, pow_lt; lra.
  - apply Rmult_le_pos; [unfold mGal; lra|]. apply Rmult_le_pos; [lra|]. left. apply Rinv_0_lt_compat, pow_lt; lra.
Qed.
Lemma strength_nonneg delta : 0 < delta -> 0 <= strength field delta.
Proof.
  intros Hd. pose proof newton_G_pos as G. unfold strength. destruct (String.eqb field "potential").
  - apply Rmult_le_pos; [lra|]. left. apply Rinv_0_lt_compat; lra.
  - apply Rmult_le_pos; [unfold mGal; lra|]. apply Rmult_le_pos; [lra|]. left. apply Rinv_0_lt_compat, pow_lt; lra.
Qed.
End Field.

(** ** Coordinates and places *)
Definition latitudes (t : tess) : Prop := -90 <= south t /\ north t <= 90 /\ 0 <= bottom t.
Lemma cos_lat_nonneg lat : -90 <= lat <= 90 -> 0 <= cos (radians lat).
Proof. intros H. apply cos_ge_0; [replace (- (PI / 2)) with (radians (-90)) by (unfold radians; field)|rewrite <- radians_90]; apply radians_le; lra. Qed.
Lemma half_chord x : 2 * Rabs (sin (radians x / 2)) <= PI / 180 * Rabs x.
Proof.
  pose proof (abs_sin_le (radians x / 2)) as K. pose proof PI_RGT_0. replace (radians x / 2) with (PI / 180 / 2 * x) in * by (unfold radians; field). rewrite (Rabs_mult (PI / 180 / 2)), (Rabs_pos_eq (PI / 180 / 2)) in K by lra. lra.
Qed.
Lemma chord_le lon lat r lon' lat' r' M : -90 <= lat <= 90 -> 0 <= r <= M -> 
  eucl (sph_position (lon, lat, r)) (sph_position (lon', lat', r')) <= Rabs (r - r') + M * (PI / 180) * (Rabs (lon - lon') + Rabs (lat - lat')).
Proof.
  intros H1 H2. pose proof PI_RGT_0 as P. pose proof (cos_lat_nonneg lat H1) as C. pose proof (COS_bound (radians lat)) as [_ C1].
  pose proof (eucl_triangle (sph_position (lon, lat, r)) (sph_position (lon', lat, r)) (sph_position (lon', lat', r'))) as T1.
  pose proof (eucl_triangle (sph_position (lon', lat, r)) (sph_position (lon', lat', r)) (sph_position (lon', lat', r'))) as T2.
  rewrite (dist_parallel lon lon' lat r (proj1 H2) C) in T1. rewrite (dist_meridian lon' lat lat' r (proj1 H2)) in T2. rewrite dist_radial in T2.
  pose proof (half_chord (lon' - lon)) as Q1. pose proof (half_chord (lat' - lat)) as Q2. rewrite (Rabs_minus_sym lon' lon) in Q1. rewrite (Rabs_minus_sym lat' lat) in Q2.
  assert (K1 : 2 * r * cos (radians lat) * Rabs (sin (radians (lon' - lon) / 2)) <= M * (PI / 180) * Rabs (lon - lon')).
  { replace (2 * r * cos (radians lat) * Rabs (sin (radians (lon' - lon) / 2))) with (r * cos (radians lat) * (2 * Rabs (sin (radians (lon' - lon) / 2)))) by ring. rewrite (Rmult_assoc M).
    pose proof (Rabs_pos (sin (radians (lon' - lon) / 2))). assert (0 <= r * cos (radians lat) <= M) by (split; [apply Rmult_le_pos; lra|]; apply Rle_trans with (r * 1); [apply Rmult_le_compat_l; lra|lra]). apply Rmult_le_compat; lra. }
  assert (K2 : 2 * r * Rabs (sin (radians (lat' - lat) / 2)) <= M * (PI / 180) * Rabs (lat - lat')).
  { replace (2 * r * Rabs (sin (radians (lat' - lat) / 2))) with (r * (2 * Rabs (sin (radians (lat' - lat) / 2)))) by ring. rewrite (Rmult_assoc M). pose proof (Rabs_pos (sin (radians (lat' - lat) / 2))). apply Rmult_le_compat; lra. }
  lra.
Qed.

(** ** The integrand is Lipschitz *)
Definition weight (lat r : R) : R := r ^ 2 * cos (radians lat) * (PI / 180) ^ 2.
Definition integrand (f : point -> R) (lon lat r : R) : R := f (lon, lat, r) * (r ^ 2 * cos (radians lat)) * (PI / 180) ^ 2.
Lemma solid_box f t : solid_integral f t = box_integral (integrand f) t.
Proof. reflexivity. Qed.
Lemma integrand_weight f lon lat r : integrand f lon lat r = f (lon, lat, r) * weight lat r.
Proof. unfold integrand, weight. ring. Qed.

Lemma weight_bounds t lat r : latitudes t -> south t <= lat <= north t -> bottom t <= r <= top t -> 0 <= weight lat r <= top t ^ 2 * (PI / 180) ^ 2.
Proof.
  intros (L1 & L2 & L3) H1 H2. unfold weight. pose proof (cos_lat_nonneg lat ltac:(lra)) as C. pose proof (COS_bound (radians lat)) as [_ C1]. pose proof (pow2_ge_0 (PI / 180)) as P. pose proof (pow2_ge_0 r) as R2.
  assert (R3 : r ^ 2 <= top t ^ 2) by (apply pow_incr; lra). split; [apply Rmult_le_pos; [now apply Rmult_le_pos|assumption]|]. apply Rmult_le_compat_r; [assumption|]. apply Rle_trans with (r ^ 2 * 1); [now apply Rmult_le_compat_l|lra].
Qed.
Lemma cos_slope x y : Rabs (cos x - cos y) <= Rabs (x - y).
Proof.
  rewrite form2. rewrite !Rabs_mult. replace (Rabs (-2)) with 2 by (unfold Rabs; destruct (Rcase_abs _); lra). pose proof (abs_sin_le ((x - y) / 2)) as K. pose proof (Rabs_pos (sin ((x - y) / 2))). unfold Rdiv in *. rewrite (Rabs_mult (x - y)), (Rabs_pos_eq (/ 2)) in K by lra.
  assert (Rabs (sin ((x + y) * / 2)) <= 1) by (apply Rabs_le, SIN_bound). pose proof (Rabs_pos (sin ((x + y) * / 2))). nra.
Qed.
Lemma weight_slope t lat r lat' r' : latitudes t -> south t <= lat <= north t -> bottom t <= r <= top t -> south t <= lat' <= north t -> bottom t <= r' <= top t ->
  Rabs (weight lat r - weight lat' r') <= (PI / 180) ^ 2 * (2 * top t + top t ^ 2 * (PI / 180)) * (Rabs (lat - lat') + Rabs (r - r')).
Proof.
  intros (L1 & L2 & L3) H1 H2 H3 H4. unfold weight. set (k := PI / 180). assert (Hk : 0 < k) by (unfold k; pose proof PI_RGT_0; lra).
  replace (r ^ 2 * cos (radians lat) * k ^ 2 - r' ^ 2 * cos (radians lat') * k ^ 2) with (k ^ 2 * (r ^ 2 * cos (radians lat) - r' ^ 2 * cos (radians lat'))) by ring.
  rewrite Rabs_mult, (Rabs_pos_eq (k ^ 2)), Rmult_assoc by apply pow2_ge_0. apply Rmult_le_compat_l; [apply pow2_ge_0|].
  replace (r ^ 2 * cos (radians lat) - r' ^ 2 * cos (radians lat')) with ((r + r') * cos (radians lat) * (r - r') + r' ^ 2 * (cos (radians lat) - cos (radians lat'))) by ring.
  eapply Rle_trans; [apply Rabs_triang|]. rewrite !Rabs_mult.
  pose proof (cos_slope (radians lat) (radians lat')) as C. replace (radians lat - radians lat') with (k * (lat - lat')) in C by (unfold k, radians; field). rewrite Rabs_mult, (Rabs_pos_eq k) in C by lra.
  assert (C1 : Rabs (cos (radians lat)) <= 1) by (apply Rabs_le, COS_bound). rewrite (Rabs_pos_eq (r + r')) by lra. rewrite (Rabs_pos_eq (r' ^ 2)) by apply pow2_ge_0.
  pose proof (Rabs_pos (r - r')) as A1. pose proof (Rabs_pos (lat - lat')) as A2. pose proof (Rabs_pos (cos (radians lat))) as A3.
  assert (B1 : (r + r') * Rabs (cos (radians lat)) * Rabs (r - r') <= 2 * top t * Rabs (r - r')) by (apply Rmult_le_compat_r; [lra|]; nra).
  assert (R2 : 0 <= r' ^ 2 <= top t ^ 2) by (split; [apply pow2_ge_0|apply pow_incr; lra]).
  assert (B2 : r' ^ 2 * Rabs (cos (radians lat) - cos (radians lat')) <= top t ^ 2 * (k * Rabs (lat - lat'))) by (apply Rmult_le_compat; try apply R2; try exact C; apply Rabs_pos).
  assert (0 <= 2 * top t * Rabs (lat - lat')) by (apply Rmult_le_pos; lra). assert (0 <= top t ^ 2 * k * Rabs (r - r')) by (apply Rmult_le_pos; [apply Rmult_le_pos; [apply pow2_ge_0|lra]|lra]). lra.
Qed.

Lemma integrand_lip f t K S : box t -> latitudes t -> 0 <= K -> 0 <= S ->
  (forall q, in_closed t q -> Rabs (f q) <= K) -> (forall q q', in_closed t q -> in_closed t q' -> Rabs (f q - f q') <= S * eucl (sph_position q) (sph_position q')) ->
  exists L, 0 <= L /\ lip3 (integrand f) t L.
Proof.
  intros B Lt HK HS Hb Hl. pose proof B as (B1 & B2 & B3). pose proof Lt as (L1 & L2 & L3). set (k := PI / 180). assert (Hk : 0 < k) by (unfold k; pose proof PI_RGT_0; lra).
  set (W := k ^ 2 * (2 * top t + top t ^ 2 * k)). set (M := top t ^ 2 * k ^ 2). set (C := 1 + top t * k).
  assert (HW : 0 <= W) by (unfold W; apply Rmult_le_pos; [apply pow2_ge_0|]; pose proof (pow2_ge_0 (top t)); nra). assert (HM : 0 <= M) by (unfold M; apply Rmult_le_pos; apply pow2_ge_0). assert (HC : 0 <= C) by (unfold C; nra).
  exists (K * W + M * (S * C)). split; [exact (Rplus_le_le_0_compat _ _ (Rmult_le_pos _ _ HK HW) (Rmult_le_pos _ _ HM (Rmult_le_pos _ _ HS HC)))|].
  intros x y z x' y' z' H1 H2. rewrite !integrand_weight. pose proof H1 as (I1 & I2 & I3). pose proof H2 as (J1 & J2 & J3).
  replace (f (x, y, z) * weight y z - f (x', y', z') * weight y' z') with (f (x, y, z) * (weight y z - weight y' z') + weight y' z' * (f (x, y, z) - f (x', y', z'))) by ring.
  eapply Rle_trans; [apply Rabs_triang|]. rewrite !Rabs_mult.
  pose proof (Hb _ H1) as F1. pose proof (Hl _ _ H1 H2) as F2. pose proof (weight_slope t y z y' z' Lt I2 I3 J2 J3) as F3. fold k W in F3. pose proof (weight_bounds t y' z' Lt J2 J3) as F4. fold k M in F4.
  pose proof (chord_le x y z x' y' z' (top t) ltac:(lra) ltac:(lra)) as F5. fold k in F5.
  pose proof (Rabs_pos (x - x')) as A1. pose proof (Rabs_pos (y - y')) as A2. pose proof (Rabs_pos (z - z')) as A3. set (D := Rabs (x - x') + Rabs (y - y') + Rabs (z - z')).
  assert (F6 : eucl (sph_position (x, y, z)) (sph_position (x', y', z')) <= C * D) by (eapply Rle_trans; [exact F5|]; unfold C, D; assert (0 <= top t * k * Rabs (z - z')) by (apply Rmult_le_pos; [nra|lra]); lra).
  rewrite (Rabs_pos_eq (weight y' z')) by lra.
  assert (G1 : Rabs (f (x, y, z)) * Rabs (weight y z - weight y' z') <= K * (W * D)).
  { apply Rmult_le_compat; try apply Rabs_pos; [exact F1|]. eapply Rle_trans; [exact F3|]. apply Rmult_le_compat_l; [exact HW|]. unfold D; lra. }
  assert (G2 : weight y' z' * Rabs (f (x, y, z) - f (x', y', z')) <= M * (S * (C * D))).
  { apply Rmult_le_compat; try apply F4; try apply Rabs_pos. eapply Rle_trans; [exact F2|]. now apply Rmult_le_compat_l. }
  lra.
Qed.

(** ** Volume and bounds *)
Lemma RInt_cos_lat s n : RInt (fun lat => cos (radians lat) * (PI / 180)) s n = sin (radians n) - sin (radians s).
Proof.
  apply is_RInt_unique. apply (is_RInt_derive (fun lat => sin (radians lat)) (fun lat => cos (radians lat) * (PI / 180))).
  - intros x _. unfold radians. auto_derive; [exact I|]. unfold radians, Rdiv. ring.
  - intros x _. apply (ex_derive_continuous (fun lat => cos (radians lat) * (PI / 180))). unfold radians. auto_derive. exact I.
Qed.
Lemma box_constant c t : box_integral (fun _ lat r => c * weight lat r) t = c * volume t.
Proof.
  unfold box_integral.
  rewrite (RInt_ext _ (fun r => c * (PI / 180 * (east t - west t)) * (sin (radians (north t)) - sin (radians (south t))) * r ^ 2)).
  - assert (D : is_RInt (fun r => c * (PI / 180 * (east t - west t)) * (sin (radians (north t)) - sin (radians (south t))) * r ^ 2) (bottom t) (top t)
      (c * (PI / 180 * (east t - west t)) * (sin (radians (north t)) - sin (radians (south t))) * (top t ^ 3 / 3) - c * (PI / 180 * (east t - west t)) * (sin (radians (north t)) - sin (radians (south t))) * (bottom t ^ 3 / 3))).
    { apply (is_RInt_derive (fun r => c * (PI / 180 * (east t - west t)) * (sin (radians (north t)) - sin (radians (south t))) * (r ^ 3 / 3))).
      - intros x _. auto_derive; [exact I|]. simpl. field.
      - intros x _. apply (ex_derive_continuous (fun r => c * (PI / 180 * (east t - west t)) * (sin (radians (north t)) - sin (radians (south t))) * r ^ 2)). auto_derive. exact I. }
    rewrite (is_RInt_unique _ _ _ _ D). unfold volume, radians. field.
  - intros r _. unfold middle, inner.
    rewrite (RInt_ext _ (fun lat => scal (c * (PI / 180 * (east t - west t)) * r ^ 2) (cos (radians lat) * (PI / 180)))).
    + rewrite (RInt_scal (V := R_CompleteNormedModule)), RInt_cos_lat; [unfold scal; simpl; unfold mult; simpl; ring|].
      apply (ex_RInt_continuous (V := R_CompleteNormedModule)). intros x _. apply (ex_derive_continuous (fun lat => cos (radians lat) * (PI / 180))). unfold radians. auto_derive. exact I.
    + intros lat _. rewrite (RInt_const (V := R_CompleteNormedModule)). unfold scal; simpl; unfold mult; simpl. unfold weight. simpl. ring.
Qed.
Lemma solid_near f t c e K S : box t -> latitudes t -> 0 <= K -> 0 <= S ->
  (forall q, in_closed t q -> Rabs (f q) <= K) -> (forall q q', in_closed t q -> in_closed t q' -> Rabs (f q - f q') <= S * eucl (sph_position q) (sph_position q')) ->
  (forall q, in_closed t q -> Rabs (f q - c) <= e) -> Rabs (solid_integral f t - c * volume t) <= e * volume t.
Proof.
  intros B Lt HK HS Hb Hl He. destruct (integrand_lip f t K S B Lt HK HS Hb Hl) as (L & HL & HF).
  assert (HC : forall c, exists L, 0 <= L /\ lip3 (fun _ lat r => c * weight lat r) t L).
  { intros c'. destruct (integrand_lip (fun _ => c') t (Rabs c') 0 B Lt (Rabs_pos _) (Rle_refl 0)) as (L' & HL' & HF'); [intros; apply Rle_refl|intros; rewrite Rminus_eq_0, Rabs_R0; lra|].
    exists L'. split; [exact HL'|]. intros x y z x' y' z' I1 I2. specialize (HF' x y z x' y' z' I1 I2). now rewrite !integrand_weight in HF'. }
  rewrite solid_box. destruct (HC (c - e)) as (L1 & P1 & Q1). destruct (HC (c + e)) as (L2 & P2 & Q2).
  assert (W : forall x y z, in_closed t (x, y, z) -> 0 <= weight y z) by (intros x y z (I1 & I2 & I3); apply (weight_bounds t y z Lt I2 I3)).
  assert (Lo := box_le (fun _ lat r => (c - e) * weight lat r) (integrand f) t L1 L B P1 HL Q1 HF).
  assert (Hi := box_le (integrand f) (fun _ lat r => (c + e) * weight lat r) t L L2 B HL P2 HF Q2).
  rewrite box_constant in Lo, Hi.
  assert ((c - e) * volume t <= box_integral (integrand f) t) by (apply Lo; intros x y z I; rewrite integrand_weight; apply Rmult_le_compat_r; [now apply (W x)|]; specialize (He _ I); apply Rabs_le_between in He; lra).
  assert (box_integral (integrand f) t <= (c + e) * volume t) by (apply Hi; intros x y z I; rewrite integrand_weight; apply Rmult_le_compat_r; [now apply (W x)|]; specialize (He _ I); apply Rabs_le_between in He; lra).
  apply Rabs_le. lra.
Qed.

(** ** The pieces of the discretisation *)
Lemma discretise_solid f p t ratio cs cm radial out L : box t -> 0 <= L -> lip3 (integrand f) t L -> discretise p t ratio cs cm radial = Ok out ->
  sum_over out (solid_integral f) = solid_integral f t /\ Forall (fun x => part_of x t) out.
Proof.
  intros B HL HF H. set (P := fun x : tess => part_of x t).
  apply (abs_loop_inv p ratio radial cs cm (fun stk o => sum_over (o ++ stk) (solid_integral f) = solid_integral f t /\ Forall P o /\ Forall P stk)) in H.
  - rewrite app_nil_r in H. split; apply H.
  - intros x rest o stk' o' (HT & HO & HB) E. inversion HB as [|? ? Hx Hrest]; subst. destruct Hx as (Bx & Sx).
    apply abs_step_cases in E. destruct E as [(a & b & c & Ha & Hb & Hc & _ & _ & -> & -> & _)|(-> & -> & _ & E)].
    + split; [|split; [assumption|]].
      * rewrite <- HT. rewrite !sum_over_app, sum_over_cons. rewrite (sum_over_perm (rev (pieces x a b c)) (pieces x a b c)) by (symmetry; apply Permutation_rev).
        assert (E : sum_over (pieces x a b c) (solid_integral f) = solid_integral f x).
        { exact (box_pieces (integrand f) x L a b c Bx HL (lip3_part _ _ _ _ Sx HF) ltac:(lia) ltac:(lia) ltac:(lia)). }
        rewrite E. ring.
      * apply Forall_app; split; [|assumption]. apply Forall_rev. apply Forall_forall. intros y Hy. destruct (pieces_part x a b c y Bx Hy) as (By & Sy). split; auto.
    + split; [now rewrite <- app_assoc|]. split; [|assumption]. apply Forall_app; split; [assumption|]. apply Forall_cons; [split; assumption|apply Forall_nil].
  - split; [unfold sum_over; cbn; ring|]. split; [apply Forall_nil|]. apply Forall_cons; [split; auto|apply Forall_nil].
Qed.

(** ** Mass of the quadrature *)
Lemma lat_rule4_bounds h : 0 <= h <= PI / 2 -> (1 - h ^ 4 / 150) * sin h <= h * cos (h / sqrt 3).
Proof.
  intros H. pose proof PI2_lt. pose proof sqrt3_pos as S3. pose proof sqrt3_sqr as SS.
  set (y := h / sqrt 3).
  assert (Y2 : y ^ 2 = h ^ 2 / 3) by (transitivity (h ^ 2 / (sqrt 3 * sqrt 3)); [unfold y; field; lra|now rewrite SS]).
  assert (Y4 : y ^ 4 = h ^ 4 / 9) by (replace (y ^ 4) with (y ^ 2 * y ^ 2) by ring; rewrite Y2; field).
  assert (Y6 : y ^ 6 = h ^ 6 / 27) by (replace (y ^ 6) with (y ^ 2 * y ^ 2 * y ^ 2) by ring; rewrite Y2; field).
  assert (Yb : -2 <= y <= 2).
  { assert (0 <= y) by (unfold y; apply Rmult_le_pos; [lra|left; now apply Rinv_0_lt_compat]). split; [lra|].
    destruct (Rle_dec y 2); [assumption|]. exfalso. assert (4 < y ^ 2) by nra. nra. }
  pose proof (cos_lower y Yb) as CL. rewrite Y2, Y4, Y6 in CL.
  pose proof (sin_upper h ltac:(lra)) as SU. pose proof (sin_lower h ltac:(lra)) as SL.
  assert (Hx : 0 <= h ^ 2 <= 2.56) by (split; [apply pow2_ge_0|nra]).
  set (x := h ^ 2) in *.
  assert (E3 : h ^ 3 = h * x) by (unfold x; ring). assert (E5 : h ^ 5 = h * x ^ 2) by (unfold x; ring).
  assert (E7 : h ^ 7 = h * x ^ 3) by (unfold x; ring). assert (E4 : h ^ 4 = x ^ 2) by (unfold x; ring). assert (E6 : h ^ 6 = x ^ 3) by (unfold x; ring).
  rewrite E4, E6 in *. rewrite E3, E5, E7 in *.
  apply Rle_trans with (h * (1 - x / 3 / 2 + x ^ 2 / 9 / 24 - x ^ 3 / 27 / 720)); [|apply Rmult_le_compat_l; lra].
  assert (P2 : 0 <= x ^ 2 <= 2.56 * 2.56) by (split; [apply pow2_ge_0|nra]).
  assert (P3 : 0 <= x ^ 3 <= 2.56 * 2.56 * 2.56) by (simpl in *; rewrite Rmult_1_r in *; split; [apply Rmult_le_pos; lra|nra]).
  assert (K : x ^ 2 / 150 * (h - h * x / 6 + h * x ^ 2 / 120 - h * x ^ 3 / 5040) <= x ^ 2 / 150 * sin h) by (apply Rmult_le_compat_l; lra).
  assert (T : 0 <= h * x ^ 2 * ((1 - x / 6 + x ^ 2 / 120 - x ^ 3 / 5040) / 150 - 1 / 270 - x / 19440)); [|lra].
  apply Rmult_le_pos; [apply Rmult_le_pos; lra|]. 
  assert (Q : 0 <= x * ((2.56 - x) * (1 / 120) + (x ^ 2 - 2.56 * x) * 0)) by (apply Rmult_le_pos; lra). 
  assert (Q3 : x ^ 3 <= 2.56 * x ^ 2) by (replace (x ^ 3) with (x * x ^ 2) by ring; apply Rmult_le_compat_r; lra).
  assert (Q2 : (x - 2.56) ^ 2 >= 0) by (pose proof (pow2_ge_0 (x - 2.56)); lra).
  nra.
Qed.
Lemma lat_rule4 t : -90 <= south t <= north t -> north t <= 90 ->
  let exact := sin (radians (north t)) - sin (radians (south t)) in
  let rule := radians (north t - south t) / 2 *
       (cos (radians ((south t + north t) / 2 - (north t - south t) / 2 / sqrt 3)) +
        cos (radians ((south t + north t) / 2 + (north t - south t) / 2 / sqrt 3))) in
  (1 - half_lat t ^ 4 / 150) * exact <= rule.
Proof.
  intros H1 H2. cbv zeta. pose proof sqrt3_pos as S3.
  set (h := radians ((north t - south t) / 2)). set (m := radians ((south t + north t) / 2)).
  replace (half_lat t) with h by (unfold h, half_lat, radians; field).
  replace (radians (north t)) with (m + h) by (unfold m, h, radians; field).
  replace (radians (south t)) with (m - h) by (unfold m, h, radians; field).
  replace (radians (north t - south t) / 2) with h by (unfold h, radians; field).
  replace (radians ((south t + north t) / 2 - (north t - south t) / 2 / sqrt 3)) with (m - h / sqrt 3) by (unfold m, h, radians; field; lra).
  replace (radians ((south t + north t) / 2 + (north t - south t) / 2 / sqrt 3)) with (m + h / sqrt 3) by (unfold m, h, radians; field; lra).
  rewrite cos_minus, cos_plus, sin_plus, sin_minus.
  assert (Hh : 0 <= h <= PI / 2).
  { unfold h. rewrite <- radians_90. replace 0 with (radians 0) by (unfold radians; field). split; apply radians_le; lra. }
  assert (Hm : 0 <= cos m) by (unfold m; apply cos_lat_nonneg; lra).
  pose proof (lat_rule4_bounds h Hh) as B2. apply Rmult_le_compat_l with (r := 2 * cos m) in B2; lra.
Qed.
Lemma glq_mass4 t : box t -> latitudes t -> (1 - half_lat t ^ 4 / 150) * volume t <= sum_over (glq_sources t 1) snd <= volume t.
Proof.
  intros B (S & N & Bt). pose proof B as (B1 & B2 & B3). pose proof (glq_mass_bounds t 1 B S N Bt ltac:(lra)) as (_ & U). split; [|lra].
  rewrite glq_total_mass. pose proof (lat_rule4 t ltac:(lra) N) as L. cbv zeta in L.
  unfold volume. rewrite radians_minus. set (A := radians (east t) - radians (west t)).
  assert (0 <= A) by (unfold A; pose proof (radians_le _ _ B1); lra).
  assert (0 <= (top t ^ 3 - bottom t ^ 3) / 3) by (pose proof (pow_incr (bottom t) (top t) 3 ltac:(lra)); lra).
  set (V := (top t ^ 3 - bottom t ^ 3) / 3) in *.
  assert (K : 0 <= 1 * A * V) by (apply Rmult_le_pos; [apply Rmult_le_pos|]; lra).
  apply Rmult_le_compat_l with (r := 1 * A * V) in L; try assumption.
  rewrite radians_minus in *. fold A.
  set (X := sin (radians (north t)) - sin (radians (south t))) in *.
  replace (A * X * (top t ^ 3 - bottom t ^ 3) / 3) with (A * V * X) by (unfold V; field). lra.
Qed.
Lemma volume_nonneg t : box t -> latitudes t -> 0 <= volume t.
Proof.
  intros (B1 & B2 & B3) (S & N & Bt). unfold volume. pose proof (radians_le _ _ B1). assert (sin (radians (south t)) <= sin (radians (north t))).
  { apply sin_incr_1; try (rewrite <- radians_90; apply radians_le; lra); try (replace (- (PI / 2)) with (radians (-90)) by (unfold radians; field); apply radians_le; lra). }
  pose proof (pow_incr (bottom t) (top t) 3 ltac:(lra)). unfold Rdiv. apply Rmult_le_pos; [|lra]. apply Rmult_le_pos; [apply Rmult_le_pos; lra|lra].
Qed.
Lemma half_lat_part x t : part_of x t -> 0 <= half_lat x <= half_lat t.
Proof.
  intros ((B1 & B2 & B3) & P). unfold half_lat. pose proof (P (west x, south x, bottom x)) as P1. pose proof (P (east x, north x, top x)) as P2. cbn [in_closed] in P1, P2.
  specialize (P1 ltac:(lra)). specialize (P2 ltac:(lra)). pose proof (radians_le 0 (north x - south x) ltac:(lra)) as R1. pose proof (radians_le (north x - south x) (north t - south t) ltac:(lra)) as R2.
  replace (radians 0) with 0 in R1 by (unfold radians; field). lra.
Qed.
Lemma latitudes_part x t : latitudes t -> part_of x t -> latitudes x.
Proof.
  intros (L1 & L2 & L3) ((B1 & B2 & B3) & P). pose proof (P (west x, south x, bottom x)) as P1. pose proof (P (east x, north x, top x)) as P2. cbn [in_closed] in P1, P2.
  specialize (P1 ltac:(lra)). specialize (P2 ltac:(lra)). unfold latitudes. lra.
Qed.
Lemma centre_in x : box x -> in_closed x (centre x).
Proof. intros (B1 & B2 & B3). unfold centre, in_closed. lra. Qed.

Lemma glq_near g x c e K : fat x -> latitudes x -> 0 <= e -> Rabs c <= K -> (forall q, in_closed x q -> Rabs (g q - c) <= e) ->
  Rabs (sum_over (glq_sources x 1) (fun s => snd s * g (fst s)) - c * volume x) <= volume x * (e + half_lat x ^ 4 / 150 * K).
Proof.
  intros F L He Hc Hg. assert (B : box x) by (unfold fat, box in *; lra). pose proof L as (L1 & L2 & L3).
  pose proof (glq_mass4 x B L) as (M1 & M2). pose proof (volume_nonneg x B L) as V.
  destruct (weighted (glq_sources x 1) (fun s => snd s * g (fst s)) (c - e) (c + e)) as [W1 W2].
  { intros s Hs. apply (glq_nonneg x 1); auto. lra. }
  { intros s Hs. pose proof (glq_nonneg x 1 s B L1 L2 ltac:(lra) Hs) as N. pose proof (glq_inside x 1 s F Hs) as I.
    assert (I' : in_closed x (fst s)) by (destruct s as [[[u v] w] m]; cbn [fst] in *; unfold in_open, in_closed in *; lra).
    specialize (Hg _ I'). apply Rabs_le_between in Hg. split; apply Rmult_le_compat_l; lra. }
  unfold source in *. set (T := sum_over (glq_sources x 1) (fun s => snd s * g (fst s))) in *. set (M := sum_over (glq_sources x 1) snd) in *. set (h := half_lat x ^ 4 / 150) in *. set (v := volume x) in *.
  assert (A1 : Rabs (T - c * M) <= e * v).
  { assert (e * M <= e * v) by (apply Rmult_le_compat_l; lra). apply Rabs_le. lra. }
  assert (A2 : Rabs (c * M - c * v) <= K * (h * v)).
  { rewrite <- Rmult_minus_distr_l, Rabs_mult. apply Rmult_le_compat; try apply Rabs_pos; [assumption|]. apply Rabs_le. lra. }
  replace (T - c * v) with ((T - c * M) + (c * M - c * v)) by ring. eapply Rle_trans; [apply Rabs_triang|]. lra.
Qed.

Lemma sum_abs_le {A} (l : list A) (f g b : A -> R) : (forall x, In x l -> Rabs (f x - g x) <= b x) -> Rabs (sum_over l f - sum_over l g) <= sum_over l b.
Proof.
  induction l as [|x l IH]; intros H; [unfold sum_over; simpl; rewrite Rminus_eq_0, Rabs_R0; lra|]. rewrite !sum_over_cons.
  replace (f x + sum_over l f - (g x + sum_over l g)) with ((f x - g x) + (sum_over l f - sum_over l g)) by ring.
  eapply Rle_trans; [apply Rabs_triang|]. apply Rplus_le_compat; [apply H; now left|apply IH; intros; apply H; now right].
Qed.

(** ** One tesseroid *)
Section One.
Variables (field : string) (p : point) (t : tess) (delta : R).
Hypothesis Hfield : field = "potential" \/ field = "g_z".
Hypotheses (B : box t) (L : latitudes t) (Hd : 0 < delta) (C : clear_of delta t p).
Let S := steepness field delta.
Let K := strength field delta.
Lemma fld_bound q : in_closed t q -> Rabs (fld field p q) <= K.
Proof. intros H. apply fld_strength; auto. Qed.
Lemma fld_lip q q' : in_closed t q -> in_closed t q' -> Rabs (fld field p q - fld field p q') <= S * eucl (sph_position q) (sph_position q').
Proof. intros H H'. apply fld_slope; auto. Qed.
Lemma solid_null : volume t = 0 -> newton_solid field p t = 0.
Proof.
  intros V. pose proof (solid_near (fld field p) t 0 K K S B L (strength_nonneg field delta Hd) (steepness_nonneg field delta Hd) fld_bound fld_lip) as N.
  assert (Q : forall q, in_closed t q -> Rabs (fld field p q - 0) <= K) by (intros; rewrite Rminus_0_r; now apply fld_bound). specialize (N Q).
  rewrite V, !Rmult_0_r, Rminus_0_r in N. unfold newton_solid. change (solid_integral (fld field p) t = 0). pose proof (Rabs_pos (solid_integral (fld field p) t)). assert (E : Rabs (solid_integral (fld field p) t) = 0) by lra.
  destruct (Req_dec (solid_integral (fld field p) t) 0); [assumption|]. now apply Rabs_no_R0 in E.
Qed.
Lemma unit_near radial rho : discretisable field radial p (t, 1) -> resolved p (distance_size_ratio field) radial t rho ->
  Rabs (unit_field field radial p t - newton_solid field p t) <= volume t * (2 * S * rho + half_lat t ^ 4 / 150 * K).
Proof.
  intros D Hr. unfold unit_field, discretisable in *. cbn [fst snd] in D. destruct (is_null t 1) eqn:N.
  - assert (V : volume t = 0). { apply is_null_spec in N. unfold volume. destruct N as [->|[->|[->|E]]]; unfold Rdiv; try ring. lra. }
    rewrite solid_null, V by assumption. rewrite Rminus_0_r, Rabs_R0. lra.
  - destruct (D eq_refl) as [out O]. unfold tess_sources. cbn [fst snd]. rewrite O, sum_over_flat_map.
    assert (Ft : fat t). { unfold fat, box in *. assert (Q : ~ null t 1) by (intros Q; apply is_null_spec in Q; congruence). unfold null in Q. repeat split; apply Rnot_le_lt; intros Z; apply Q; [left|right; left|right; right; left]; lra. }
    destruct (integrand_lip (fld field p) t K S B L (strength_nonneg field delta Hd) (steepness_nonneg field delta Hd) fld_bound fld_lip) as (Lp & HLp & HF).
    destruct (discretise_solid (fld field p) p t _ _ _ _ out Lp B HLp HF O) as [HS HP].
    change (newton_solid field p t) with (solid_integral (fld field p) t). rewrite <- HS.
    rewrite <- (tiles_volume _ _ (discretise_tiles _ _ _ _ _ _ _ B O)).
    assert (EV : forall k, sum_over out volume * k = sum_over out (fun x => volume x * k)) by (intros k; rewrite (Rmult_comm _ k), <- sum_over_scal; apply sum_over_ext; intros; ring).
    rewrite EV.
    apply sum_abs_le. intros x Hx. rewrite Forall_forall in HP. specialize (HP x Hx). pose proof HP as (Bx & Px). pose proof (latitudes_part x t L HP) as Lx.
    pose proof (discretise_fat p t _ _ _ _ out Ft O) as FF. rewrite Forall_forall in FF. specialize (FF x Hx).
    pose proof (discretise_criterion p t _ _ _ _ out ltac:(unfold well, fat in *; destruct L; lra) O) as CC. rewrite Forall_forall in CC. specialize (CC x Hx).
    assert (HR : forall q, in_closed x q -> eucl (sph_position (centre x)) (sph_position q) <= rho) by (intros q Hq; apply (Hr x q HP); [exact CC|exact Hq]).
    assert (R0 : 0 <= rho) by (eapply Rle_trans; [apply eucl_nonneg|apply HR, centre_in, Bx]).
    pose proof (steepness_nonneg field delta Hd) as S0. fold S in S0. pose proof (strength_nonneg field delta Hd) as K0. fold K in K0.
    set (c := fld field p (centre x)). set (e := S * rho). assert (He : 0 <= e) by (apply Rmult_le_pos; assumption).
    assert (Hc : Rabs c <= K) by (apply fld_bound, Px, centre_in, Bx).
    assert (Hg : forall q, in_closed x q -> Rabs (fld field p q - c) <= e).
    { intros q Hq. eapply Rle_trans; [apply fld_lip; apply Px; [exact Hq|now apply centre_in]|]. apply Rmult_le_compat_l; [assumption|]. rewrite eucl_sym. now apply HR. }
    pose proof (glq_near (fld field p) x c e K FF Lx He Hc Hg) as G1.
    pose proof (solid_near (fld field p) x c e K S Bx Lx K0 S0 (fun q Hq => fld_bound q (Px q Hq)) (fun q q' Hq Hq' => fld_lip q q' (Px q Hq) (Px q' Hq')) Hg) as G2.
    assert (E : sum_over (glq_sources x 1) (newton_field "spherical" field p) = sum_over (glq_sources x 1) (fun s => snd s * fld field p (fst s))) by (apply sum_over_ext; intros s _; apply newton_spherical_mass).
    unfold source in *. rewrite E. set (T := sum_over (glq_sources x 1) (fun s => snd s * fld field p (fst s))) in *.
    pose proof (half_lat_part x t HP) as Hh. pose proof (pow_incr (half_lat x) (half_lat t) 4 Hh) as H4.
    pose proof (volume_nonneg x Bx Lx) as V0.
    apply Rle_trans with (volume x * (e + half_lat x ^ 4 / 150 * K) + e * volume x).
    + replace (T - solid_integral (fld field p) x) with ((T - c * volume x) + - (solid_integral (fld field p) x - c * volume x)) by ring.
      eapply Rle_trans; [apply Rabs_triang|]. rewrite Rabs_Ropp. apply Rplus_le_compat; assumption.
    + rewrite (Rmult_comm e), <- Rmult_plus_distr_l. apply Rmult_le_compat_l; [assumption|]. replace (2 * S * rho) with (2 * e) by (unfold e; ring).
      assert (half_lat x ^ 4 / 150 * K <= half_lat t ^ 4 / 150 * K) by (apply Rmult_le_compat_r; lra). lra.
Qed.
End One.

(** ** Cutting tesseroids *)
Lemma cells_pieces n t : cells n t = pieces t n n n.
Proof. reflexivity. Qed.
Lemma cells_part n t x : box t -> In x (cells n t) -> part_of x t.
Proof. intros B H. rewrite cells_pieces in H. exact (pieces_part t n n n x B H). Qed.
Lemma cells_sizes n t x : (0 < n)%nat -> In x (cells n t) ->
  east x - west x = (east t - west t) / INR n /\ north x - south x = (north t - south t) / INR n /\ top x - bottom x = (top t - bottom t) / INR n.
Proof.
  intros Hn H. assert (0 < INR n) by now apply lt_0_INR. unfold cells in H. apply in_flat_map in H. destruct H as (i & _ & H). apply in_flat_map in H. destruct H as (j & _ & H). apply in_map_iff in H. destruct H as (k & <- & _).
  cbn [east west north south top bottom cell]. rewrite !plus_INR. cbn [INR]. repeat split; field; lra.
Qed.
Lemma cells_length n t : length (cells n t) = (n * (n * n))%nat.
Proof.
  unfold cells. rewrite (length_flat_map_const _ (n * n)); [now rewrite length_range|]. intros i _. rewrite (length_flat_map_const _ n); [now rewrite length_range|]. intros j _. now rewrite map_length, length_range.
Qed.
Lemma cells_volume n t : (0 < n)%nat -> box t -> latitudes t -> sum_over (cells n t) volume = volume t.
Proof.
  intros Hn B L. destruct (integrand_lip (fun _ => 1) t 1 0 B L) as (Lp & H0 & HF); try lra; [intros; rewrite Rabs_R1; lra|intros; rewrite Rminus_eq_0, Rabs_R0; lra|].
  assert (E : forall x, box_integral (integrand (fun _ => 1)) x = volume x) by (intros x; rewrite <- (Rmult_1_l (volume x)), <- box_constant; f_equal; repeat (apply FunctionalExtensionality.functional_extensionality; intros ?); apply integrand_weight).
  rewrite <- E. rewrite <- (box_pieces _ t Lp n n n B H0 HF Hn Hn Hn), <- cells_pieces. apply sum_over_ext. intros x _. symmetry. apply E.
Qed.
Lemma cells_solid n field p t delta : field = "potential" \/ field = "g_z" -> (0 < n)%nat -> box t -> latitudes t -> 0 < delta -> clear_of delta t p ->
  sum_over (cells n t) (newton_solid field p) = newton_solid field p t.
Proof.
  intros Hf Hn B L Hd C.
  destruct (integrand_lip (fld field p) t _ _ B L (strength_nonneg field delta Hd) (steepness_nonneg field delta Hd) (fun q => fld_bound field p t delta Hf Hd C q) (fun q q' => fld_lip field p t delta Hf Hd C q q')) as (Lp & HLp & HF).
  exact (box_pieces (integrand (fld field p)) t Lp n n n B HLp HF Hn Hn Hn).
Qed.

(** Distances of the points of a tesseroid from its centre. *)
Lemma abs_half a b c : a <= c <= b -> Rabs ((a + b) / 2 - c) <= (b - a) / 2.
Proof. intros H. apply Rabs_le. lra. Qed.
Lemma centre_near t q : box t -> latitudes t -> in_closed t q -> eucl (sph_position (centre t)) (sph_position q) <= spread t.
Proof.
  intros (B1 & B2 & B3) (L1 & L2 & L3) Hq. destruct q as [[lon lat] r]. cbn in Hq. unfold centre.
  eapply Rle_trans; [apply (chord_le _ _ _ _ _ _ (top t)); lra|]. unfold spread, radians. pose proof PI_RGT_0 as P.
  pose proof (abs_half (west t) (east t) lon ltac:(lra)) as A1. pose proof (abs_half (south t) (north t) lat ltac:(lra)) as A2. pose proof (abs_half (bottom t) (top t) r ltac:(lra)) as A3.
  apply Rle_trans with ((top t - bottom t) / 2 + top t * (PI / 180) * ((east t - west t) / 2 + (north t - south t) / 2)); [|right; field].
  apply Rplus_le_compat; [exact A3|]. apply Rmult_le_compat_l; [apply Rmult_le_pos; lra|]. lra.
Qed.
Lemma spread_part x t : 0 <= bottom t -> part_of x t -> spread x <= spread t.
Proof.
  intros L ((B1 & B2 & B3) & P). pose proof (P (west x, south x, bottom x)) as P1. pose proof (P (east x, north x, top x)) as P2. cbn [in_closed] in P1, P2.
  specialize (P1 ltac:(lra)). specialize (P2 ltac:(lra)). unfold spread. pose proof (radians_le (east x - west x) (east t - west t) ltac:(lra)). pose proof (radians_le (north x - south x) (north t - south t) ltac:(lra)).
  pose proof (radians_le 0 (east x - west x) ltac:(lra)). pose proof (radians_le 0 (north x - south x) ltac:(lra)). replace (radians 0) with 0 in * by (unfold radians; field).
  assert (top x * (radians (east x - west x) + radians (north x - south x)) <= top t * (radians (east t - west t) + radians (north t - south t))) by (apply Rmult_le_compat; lra). lra.
Qed.
Lemma resolved_spread p ratio radial t : box t -> latitudes t -> resolved p ratio radial t (spread t).
Proof.
  intros B L x q Hx _ Hq. pose proof Hx as (Bx & _). eapply Rle_trans; [apply centre_near; [exact Bx|now apply (latitudes_part x t)|exact Hq]|]. apply spread_part; [apply L|exact Hx].
Qed.
Lemma cells_spread n t x : (0 < n)%nat -> box t -> latitudes t -> In x (cells n t) -> 0 <= spread x <= spread t / INR n.
Proof.
  intros Hn B L H. assert (0 < INR n) by now apply lt_0_INR. pose proof (cells_part n t x B H) as Hp. pose proof Hp as (Bx & Px). pose proof Bx as (B1 & B2 & B3).
  destruct (cells_sizes n t x Hn H) as (S1 & S2 & S3). pose proof (latitudes_part x t L Hp) as Lx. pose proof (Px (west x, south x, bottom x)) as P1. pose proof (Px (east x, north x, top x)) as P2. cbn [in_closed] in P1, P2.
  specialize (P1 ltac:(lra)). specialize (P2 ltac:(lra)). unfold latitudes in *.
  pose proof (radians_le 0 (east x - west x) ltac:(lra)) as Q1. pose proof (radians_le 0 (north x - south x) ltac:(lra)) as Q2. replace (radians 0) with 0 in * by (unfold radians; field).
  split; [unfold spread; assert (0 <= top x * (radians (east x - west x) + radians (north x - south x))) by (apply Rmult_le_pos; lra); lra|].
  assert (E : spread t / INR n = (top x - bottom x) / 2 + top t * (radians (east x - west x) + radians (north x - south x)) / 2).
  { rewrite S1, S2, S3. unfold spread, radians. field. lra. }
  rewrite E. unfold spread. assert (top x * (radians (east x - west x) + radians (north x - south x)) <= top t * (radians (east x - west x) + radians (north x - south x))) by (apply Rmult_le_compat_r; lra). lra.
Qed.
Lemma cells_half_lat n t x : (0 < n)%nat -> box t -> In x (cells n t) -> 0 <= half_lat x ^ 4 <= half_lat t ^ 4 / INR n.
Proof.
  intros Hn B H. assert (N : 1 <= INR n) by (change 1 with (INR 1); apply le_INR; lia). pose proof (cells_part n t x B H) as Hp. pose proof (half_lat_part x t Hp) as [H1 H2].
  destruct (cells_sizes n t x Hn H) as (_ & S2 & _). assert (E : half_lat x = half_lat t * / INR n) by (unfold half_lat; rewrite S2; unfold radians; field; lra).
  assert (I : 0 < / INR n <= 1) by (split; [apply Rinv_0_lt_compat; lra|rewrite <- Rinv_1; apply Rinv_le_contravar; lra]).
  split; [now apply pow_le|]. rewrite E, Rpow_mult_distr. unfold Rdiv. apply Rmult_le_compat_l; [apply pow_le; lra|].
  assert (0 <= (/ INR n) ^ 3 <= 1) by (split; [apply pow_le; lra|rewrite <- (pow1 3); apply pow_incr; lra]). replace ((/ INR n) ^ 4) with (/ INR n * (/ INR n) ^ 3) by ring. rewrite <- (Rmult_1_r (/ INR n)) at 3. apply Rmult_le_compat_l; lra.
Qed.
