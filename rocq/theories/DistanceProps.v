(** C01: harmonica's distances are Euclidean distances of positions. *)
From Verif Require Import Base BaseFacts DistanceModel DistanceSpec DistanceProofs.
Local Open Scope string_scope.

Theorem C01_distance_is_euclidean p q cs ell :
  In cs ["cartesian"; "spherical"; "geodetic"] ->
  distance p q cs (Some ell) = Ok (eucl (position cs ell p) (position cs ell q)).
Proof. exact (distance_spec p q cs ell). Qed.
Print Assumptions C01_distance_is_euclidean.

Theorem C01_unknown_system_rejected p q cs ell :
  ~ In cs ["cartesian"; "spherical"; "geodetic"] -> distance p q cs ell = Raise ValueError.
Proof. exact (distance_rejects p q cs ell). Qed.
Print Assumptions C01_unknown_system_rejected.

(** The metric laws, for all three systems at once ([d] is the value returned by [distance]). *)
Theorem C01_distance_is_a_metric p q r cs ell dpq dqp dqr dpr :
  In cs ["cartesian"; "spherical"; "geodetic"] ->
  distance p q cs (Some ell) = Ok dpq -> distance q p cs (Some ell) = Ok dqp ->
  distance q r cs (Some ell) = Ok dqr -> distance p r cs (Some ell) = Ok dpr ->
  0 <= dpq /\ dpq = dqp /\ dpr <= dpq + dqr /\ (dpq = 0 <-> position cs ell p = position cs ell q).
Proof. exact (distance_metric p q r cs ell dpq dqp dqr dpr). Qed.
Print Assumptions C01_distance_is_a_metric.

Theorem C01_distance_ignores_whole_turns lon lat r q k cs ell :
  cs = "spherical" \/ cs = "geodetic" ->
  distance (lon + 360 * IZR k, lat, r) q cs (Some ell) = distance (lon, lat, r) q cs (Some ell).
Proof. exact (distance_turns lon lat r q k cs ell). Qed.
Print Assumptions C01_distance_ignores_whole_turns.

(** The geodetic position of the specification is the documented one: its foot point is on the
    ellipsoid of revolution with semi-axes a, a, a sqrt(1-e^2). *)
Theorem C01_geodetic_foot_point_on_ellipsoid ell lon lat :
  0 < semimajor ell -> 0 <= eccentricity ell < 1 ->
  let s := geod_surface_point ell lon lat in
  let b2 := semimajor ell ^ 2 * (1 - eccentricity ell ^ 2) in
  (vx s ^ 2 + vy s ^ 2) / semimajor ell ^ 2 + vz s ^ 2 / b2 = 1.
Proof. exact (geod_surface_on_ellipsoid ell lon lat). Qed.
Print Assumptions C01_geodetic_foot_point_on_ellipsoid.

(** Hypotheses are met: a north-pole / equator pair on a unit sphere is sqrt 2 apart. *)
Example C01_example :
  In "spherical" ["cartesian"; "spherical"; "geodetic"] /\
  distance (0, 90, 1) (0, 0, 1) "spherical" None = Ok (sqrt 2) /\
  distance (0, 0, 0) (3, 4, 0) "cartesian" None = Ok 5 /\
  (let ell := {| semimajor := 2; eccentricity := / 2 |} in 0 < semimajor ell /\ 0 <= eccentricity ell < 1).
Proof. exact distance_example. Qed.
