(** Model of the distance functions of /repo/src/harmonica/_forward/utils.py. *)
From Verif Require Import Base.
Local Open Scope string_scope.

(** A point as the 3-tuple the user passes: (easting, northing, upward),
    (longitude, latitude, radius) or (longitude, latitude, height). Source: arguments of _forward/utils.py:18-68. *)
Definition point := (R * R * R)%type.

(** utils.py:90-118 [distance_cartesian]. *)
Definition distance_cartesian (p q : point) : R :=
  let '(easting, northing, upward) := p in
  let '(easting_p, northing_p, upward_p) := q in
  sqrt ((easting - easting_p) ^ 2 + (northing - northing_p) ^ 2 + (upward - upward_p) ^ 2).

(** utils.py:163-201 [distance_spherical_core]; returns (dist, cospsi, coslambda). *)
Definition distance_spherical_core
  (longitude cosphi sinphi radius longitude_p cosphi_p sinphi_p radius_p : R) : R * R * R :=
  let coslambda := cos (longitude_p - longitude) in
  let cospsi := sinphi_p * sinphi + cosphi_p * cosphi * coslambda in
  let dist := sqrt ((radius - radius_p) ^ 2 + 2 * radius * radius_p * (1 - cospsi)) in
  (dist, cospsi, coslambda).

(** utils.py:121-160 [distance_spherical]; angles in degrees. *)
Definition distance_spherical (p q : point) : R :=
  let '(longitude, latitude, radius) := p in
  let '(longitude_p, latitude_p, radius_p) := q in
  let longitude := radians longitude in
  let latitude := radians latitude in
  let longitude_p := radians longitude_p in
  let latitude_p := radians latitude_p in
  let '(dist, _, _) :=
    distance_spherical_core longitude (cos latitude) (sin latitude) radius
                            longitude_p (cos latitude_p) (sin latitude_p) radius_p in
  dist.

(** The reference ellipsoid of boule (external): semi-major axis and first eccentricity.
    [prime_vertical_radius(sinphi) = a / sqrt(1 - e^2 sinphi^2)] is boule's documented formula. Source: argument of _forward/utils.py:204-272. *)
Record ref_ellipsoid := { semimajor : R; eccentricity : R }.
(** Source: called in _forward/utils.py:204-272. *)
Definition prime_vertical_radius (ell : ref_ellipsoid) (sinphi : R) : R :=
  semimajor ell / sqrt (1 - eccentricity ell ^ 2 * sinphi ^ 2).

(** utils.py:275-330 [geodetic_distance_core]. *)
Definition geodetic_distance_core
  (cosphi sinphi height cosphi_p sinphi_p height_p coslambda pvr pvr_p ecc_sq : R) : R :=
  let upward_sum := pvr + height in
  let upward_sum_p := pvr_p + height_p in
  sqrt (upward_sum_p ^ 2 * cosphi_p ^ 2
        + upward_sum ^ 2 * cosphi ^ 2
        - 2 * upward_sum * upward_sum_p * cosphi * cosphi_p * coslambda
        + (upward_sum_p - ecc_sq * pvr_p) ^ 2 * sinphi_p ^ 2
        + (upward_sum - ecc_sq * pvr) ^ 2 * sinphi ^ 2
        - (2 * (upward_sum_p - ecc_sq * pvr_p) * (upward_sum - ecc_sq * pvr) * sinphi * sinphi_p)).

(** utils.py:204-272 [distance_geodetic]. *)
Definition distance_geodetic (p q : point) (ell : ref_ellipsoid) : R :=
  let '(longitude, latitude, height) := p in
  let '(longitude_p, latitude_p, height_p) := q in
  let longitude := radians longitude in
  let latitude := radians latitude in
  let longitude_p := radians longitude_p in
  let latitude_p := radians latitude_p in
  let cosphi := cos latitude in
  let sinphi := sin latitude in
  let cosphi_p := cos latitude_p in
  let sinphi_p := sin latitude_p in
  let coslambda := cos (longitude_p - longitude) in
  geodetic_distance_core cosphi sinphi height cosphi_p sinphi_p height_p coslambda
    (prime_vertical_radius ell sinphi) (prime_vertical_radius ell sinphi_p) (eccentricity ell ^ 2).

(** utils.py:71-87 [check_coordinate_system]. *)
Definition check_coordinate_system (cs : string) (valid : list string) : res unit :=
  if existsb (String.eqb cs) valid then Ok tt else Raise ValueError.

(** utils.py:18-68 [distance]; [ellipsoid=None] with geodetic coordinates fails on attribute access. *)
Definition distance (p q : point) (cs : string) (ell : option ref_ellipsoid) : res R :=
  do _ <- check_coordinate_system cs ["cartesian"; "spherical"; "geodetic"];
  if String.eqb cs "cartesian" then Ok (distance_cartesian p q)
  else if String.eqb cs "spherical" then Ok (distance_spherical p q)
  else match ell with
       | Some e => Ok (distance_geodetic p q e)
       | None => Raise AttributeError
       end.
