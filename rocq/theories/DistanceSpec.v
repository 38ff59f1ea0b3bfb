(** Specification: where the points named by the coordinates are in space. *)
From Verif Require Import Base DistanceModel.

(** Cartesian coordinates are the position itself. *)
Definition cart_position (p : point) : vec3 := let '(e, n, u) := p in V3 e n u.

(** Geocentric spherical coordinates: longitude, latitude in degrees, radius. *)
Definition sph_position (p : point) : vec3 :=
  let '(lon, lat, r) := p in
  V3 (r * cos (radians lat) * cos (radians lon)) (r * cos (radians lat) * sin (radians lon)) (r * sin (radians lat)).

(** Geodetic coordinates: the point at height h along the outward normal from the surface point of
    the ellipsoid with semi-major axis a and eccentricity e at geodetic latitude phi. *)
Definition geod_surface_point (ell : ref_ellipsoid) (lon lat : R) : vec3 :=
  let a := semimajor ell in let e2 := eccentricity ell ^ 2 in
  let n := a / sqrt (1 - e2 * sin (radians lat) ^ 2) in
  V3 (n * cos (radians lat) * cos (radians lon)) (n * cos (radians lat) * sin (radians lon))
     (n * (1 - e2) * sin (radians lat)).
Definition geod_normal (lon lat : R) : vec3 :=
  V3 (cos (radians lat) * cos (radians lon)) (cos (radians lat) * sin (radians lon)) (sin (radians lat)).
Definition geod_position (ell : ref_ellipsoid) (p : point) : vec3 :=
  let '(lon, lat, h) := p in vadd (geod_surface_point ell lon lat) (vscale h (geod_normal lon lat)).

Definition position (cs : string) (ell : ref_ellipsoid) (p : point) : vec3 :=
  if String.eqb cs "cartesian" then cart_position p
  else if String.eqb cs "spherical" then sph_position p
  else geod_position ell p.
