From Verif Require Import Base BaseFacts DistanceModel DistanceSpec.

Lemma distance_cartesian_eucl p q : distance_cartesian p q = eucl (cart_position p) (cart_position q).
Proof.
  destruct p as [[e n] u], q as [[e' n'] u']. unfold distance_cartesian, eucl, norm, cart_position, dot, vsub; simpl.
  f_equal; ring.
Qed.

Lemma cos_diff_expand a b : cos (b - a) = cos b * cos a + sin b * sin a.
Proof. apply cos_minus. Qed.

Lemma sin2 x : sin x ^ 2 = 1 - cos x ^ 2.
Proof. pose proof (sin2_cos2 x) as H; unfold Rsqr in H; simpl; lra. Qed.

Lemma distance_spherical_eucl p q : distance_spherical p q = eucl (sph_position p) (sph_position q).
Proof.
  destruct p as [[lo la] r], q as [[lo' la'] r'].
  unfold distance_spherical, distance_spherical_core, eucl, norm, sph_position, dot, vsub; simpl vx; simpl vy; simpl vz.
  f_equal. rewrite cos_diff_expand.
  set (l := radians lo); set (l' := radians lo'); set (f := radians la); set (f' := radians la').
  assert (Hl := sin2 l). assert (Hl' := sin2 l'). assert (Hf := sin2 f). assert (Hf' := sin2 f').
  generalize dependent (sin l); generalize dependent (sin l'); generalize dependent (sin f); generalize dependent (sin f').
  generalize (cos l) (cos l') (cos f) (cos f'). intros cl cl' cf cf' sf' Hsf' sf Hsf sl' Hsl' sl Hsl.
  ring_simplify. rewrite Hsf, Hsf', Hsl, Hsl'. ring.
Qed.

Lemma distance_geodetic_eucl ell p q :
  distance_geodetic p q ell = eucl (geod_position ell p) (geod_position ell q).
Proof.
  destruct p as [[lo la] h], q as [[lo' la'] h'].
  unfold distance_geodetic, geodetic_distance_core, eucl, norm, geod_position, geod_surface_point, geod_normal,
    prime_vertical_radius, vadd, vscale, dot, vsub; cbn [vx vy vz].
  f_equal. rewrite cos_diff_expand.
  set (l := radians lo); set (l' := radians lo'); set (f := radians la); set (f' := radians la').
  set (e2 := eccentricity ell ^ 2).
  generalize (semimajor ell / sqrt (1 - e2 * sin f ^ 2)); intros N.
  generalize (semimajor ell / sqrt (1 - e2 * sin f' ^ 2)); intros N'.
  generalize e2; clear e2; intros e2.
  assert (Hl := sin2 l). assert (Hl' := sin2 l').
  generalize dependent (sin l); generalize dependent (sin l').
  generalize (cos l) (cos l') (cos f) (cos f') (sin f) (sin f'). intros cl cl' cf cf' sf sf' sl' Hsl' sl Hsl.
  ring_simplify. rewrite Hsl, Hsl'. ring.
Qed.

(** The spec is right: the surface point satisfies the ellipsoid's equation and the normal is the gradient direction. *)
Lemma geod_surface_on_ellipsoid ell lon lat :
  0 < semimajor ell -> 0 <= eccentricity ell < 1 ->
  let s := geod_surface_point ell lon lat in
  let b2 := semimajor ell ^ 2 * (1 - eccentricity ell ^ 2) in
  (vx s ^ 2 + vy s ^ 2) / semimajor ell ^ 2 + vz s ^ 2 / b2 = 1.
Proof.
  intros Ha He. unfold geod_surface_point; cbn [vx vy vz].
  set (a := semimajor ell) in *; set (e := eccentricity ell) in *.
  set (f := radians lat); set (l := radians lon).
  assert (Hs : 0 < 1 - e ^ 2 * sin f ^ 2).
  { pose proof (SIN_bound f). assert (sin f ^ 2 <= 1) by nra. assert (e ^ 2 < 1) by nra. nra. }
  assert (He2 : 0 < 1 - e ^ 2) by nra.
  set (w := sqrt (1 - e ^ 2 * sin f ^ 2)).
  assert (Hw : w * w = 1 - e ^ 2 * sin f ^ 2) by (apply sqrt_sqrt; lra).
  assert (Hw0 : 0 < w) by (apply sqrt_lt_R0; lra).
  assert (Hl := sin2 l). assert (Hf := sin2 f).
  apply (Rmult_eq_reg_r (w * w)); [|nra].
  replace (((a / w * cos f * cos l) ^ 2 + (a / w * cos f * sin l) ^ 2) / a ^ 2
     + (a / w * (1 - e ^ 2) * sin f) ^ 2 / (a ^ 2 * (1 - e ^ 2))) with
    ((cos f ^ 2 * (cos l ^ 2 + sin l ^ 2) + (1 - e ^ 2) * sin f ^ 2) / (w * w)) by (field; repeat split; lra).
  rewrite Hl. replace (cos l ^ 2 + (1 - cos l ^ 2)) with 1 by ring.
  unfold Rdiv. rewrite Rmult_assoc, Rinv_l by nra. rewrite Hw. nra.
Qed.

Lemma radians_turn x k : radians (x + 360 * IZR k) = radians x + 2 * IZR k * PI.
Proof. unfold radians; field. Qed.

Lemma cos_turnZ x k : cos (x + 2 * IZR k * PI) = cos x.
Proof.
  destruct (Z_le_gt_dec 0 k) as [H|H].
  - replace (IZR k) with (INR (Z.to_nat k)) by (rewrite INR_IZR_INZ, Z2Nat.id; auto). apply cos_period.
  - rewrite <- (cos_period (x + 2 * IZR k * PI) (Z.to_nat (- k))).
    rewrite INR_IZR_INZ, Z2Nat.id by lia. rewrite opp_IZR. f_equal; ring.
Qed.

Lemma sin_turnZ x k : sin (x + 2 * IZR k * PI) = sin x.
Proof.
  destruct (Z_le_gt_dec 0 k) as [H|H].
  - replace (IZR k) with (INR (Z.to_nat k)) by (rewrite INR_IZR_INZ, Z2Nat.id; auto). apply sin_period.
  - rewrite <- (sin_period (x + 2 * IZR k * PI) (Z.to_nat (- k))).
    rewrite INR_IZR_INZ, Z2Nat.id by lia. rewrite opp_IZR. f_equal; ring.
Qed.

Lemma sph_position_turn lon lat r k : sph_position (lon + 360 * IZR k, lat, r) = sph_position (lon, lat, r).
Proof. unfold sph_position. rewrite radians_turn, cos_turnZ, sin_turnZ. reflexivity. Qed.

Lemma geod_position_turn ell lon lat r k :
  geod_position ell (lon + 360 * IZR k, lat, r) = geod_position ell (lon, lat, r).
Proof. unfold geod_position, geod_surface_point, geod_normal. rewrite radians_turn, cos_turnZ, sin_turnZ. reflexivity. Qed.

Local Open Scope string_scope.
Lemma distance_spec p q cs ell :
  In cs ["cartesian"; "spherical"; "geodetic"] ->
  distance p q cs (Some ell) = Ok (eucl (position cs ell p) (position cs ell q)).
Proof.
  intros H. unfold distance, position.
  destruct H as [<-|[<-|[<-|[]]]]; simpl; f_equal.
  - apply distance_cartesian_eucl.
  - apply distance_spherical_eucl.
  - apply distance_geodetic_eucl.
Qed.

Lemma distance_rejects p q cs ell :
  ~ In cs ["cartesian"; "spherical"; "geodetic"] -> distance p q cs ell = Raise ValueError.
Proof.
  intros H. unfold distance, check_coordinate_system; simpl.
  destruct (String.eqb_spec cs "cartesian"); [subst; exfalso; apply H; now left|].
  destruct (String.eqb_spec cs "spherical"); [subst; exfalso; apply H; right; now left|].
  destruct (String.eqb_spec cs "geodetic"); [subst; exfalso; apply H; right; right; now left|].
  reflexivity.
Qed.

Lemma distance_metric p q r cs ell dpq dqp dqr dpr :
  In cs ["cartesian"; "spherical"; "geodetic"] ->
  distance p q cs (Some ell) = Ok dpq -> distance q p cs (Some ell) = Ok dqp ->
  distance q r cs (Some ell) = Ok dqr -> distance p r cs (Some ell) = Ok dpr ->
  0 <= dpq /\ dpq = dqp /\ dpr <= dpq + dqr /\ (dpq = 0 <-> position cs ell p = position cs ell q).
Proof.
  intros H. rewrite !distance_spec by assumption.
  intros E1 E2 E3 E4; injection E1 as <-; injection E2 as <-; injection E3 as <-; injection E4 as <-.
  split; [apply eucl_nonneg|]. split; [apply eucl_sym|]. split; [apply eucl_triangle|apply eucl_zero].
Qed.

Lemma distance_turns lon lat r q k cs ell :
  cs = "spherical" \/ cs = "geodetic" ->
  distance (lon + 360 * IZR k, lat, r) q cs (Some ell) = distance (lon, lat, r) q cs (Some ell).
Proof.
  intros H. assert (Hin : In cs ["cartesian"; "spherical"; "geodetic"]) by (destruct H as [->| ->]; simpl; auto).
  rewrite !distance_spec by assumption.
  destruct H as [->| ->]; unfold position; simpl String.eqb; cbv iota.
  - now rewrite sph_position_turn.
  - now rewrite geod_position_turn.
Qed.

Lemma distance_example :
  In "spherical" ["cartesian"; "spherical"; "geodetic"] /\
  distance (0, 90, 1) (0, 0, 1) "spherical" None = Ok (sqrt 2) /\
  distance (0, 0, 0) (3, 4, 0) "cartesian" None = Ok 5 /\
  (let ell := {| semimajor := 2; eccentricity := / 2 |} in 0 < semimajor ell /\ 0 <= eccentricity ell < 1).
Proof.
  split; [simpl; auto|]. split; [|split; [|simpl; lra]].
  - unfold distance, check_coordinate_system; simpl. f_equal. f_equal. unfold radians.
    replace (0 * PI / 180) with 0 by field. replace (90 * PI / 180) with (PI / 2) by field.
    rewrite Rminus_0_r, cos_0, sin_0, cos_PI2, sin_PI2. ring.
  - unfold distance, check_coordinate_system; simpl. f_equal.
    replace ((0 - 3) * ((0 - 3) * 1) + (0 - 4) * ((0 - 4) * 1) + (0 - 0) * ((0 - 0) * 1)) with (5 * 5) by ring.
    apply sqrt_square; lra.
Qed.
