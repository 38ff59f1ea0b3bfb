(** The distance functions of /repo/src/harmonica/_forward/utils.py, the prediction kernel of
    _equivalent_sources/utils.py and bouguer_correction of _gravity_corrections.py with the rounding
    of floating point arithmetic.

    [fl] rounds a real number to a float; every arithmetic operation of the code, and every call of sqrt, cos
    and sin, is the exact one followed by [fl].  (Division, product, sum and square root are so by IEEE-754;
    for cos, sin and the constants it is an assumption on libm and on the compiler.)  Overflow, underflow and
    infinities are not modelled.  Powers [x ** 2] are products [x * x], as numba and numpy compile them.
    Constants that are not floats (pi, the gravitational constant) are rounded; 1, 2, 180 and 1e5 are floats. *)
From Verif Require Import Base DistanceModel EqsModel UtilsModel.
Local Open Scope R_scope.

Section Rounding.
Variable fl : R -> R.

(** [x ** 2]; source: _forward/utils.py:113-117 and 200. *)
Definition f_square (x : R) : R := fl (x * x).

(** _forward/utils.py:90-118 [distance_cartesian] *)
Definition f_distance_cartesian (p q : point) : R :=
  let '(easting, northing, upward) := p in
  let '(easting_p, northing_p, upward_p) := q in
  fl (sqrt (fl (fl (f_square (fl (easting - easting_p)) + f_square (fl (northing - northing_p))) + f_square (fl (upward - upward_p))))).

(** [np.radians]: the product with the float [pi / 180]. Source: _forward/utils.py:149-150. *)
Definition f_radians (d : R) : R := fl (d * fl (fl PI / 180)).

(** _forward/utils.py:163-201 [distance_spherical_core]: the distance; the square root of a negative number is not a number. *)
Definition f_distance_spherical_core (longitude cosphi sinphi radius longitude_p cosphi_p sinphi_p radius_p : R) : num :=
  let coslambda := fl (cos (fl (longitude_p - longitude))) in
  let cospsi := fl (fl (sinphi_p * sinphi) + fl (fl (cosphi_p * cosphi) * coslambda)) in
  let squared := fl (f_square (fl (radius - radius_p)) + fl (fl (fl (2 * radius) * radius_p) * fl (1 - cospsi))) in
  if Rltb squared 0 then NaN else Fin (fl (sqrt squared)).

(** _forward/utils.py:121-160 [distance_spherical] *)
Definition f_distance_spherical (p q : point) : num :=
  let '(longitude, latitude, radius) := p in
  let '(longitude_p, latitude_p, radius_p) := q in
  let longitude := f_radians longitude in
  let latitude := f_radians latitude in
  let longitude_p := f_radians longitude_p in
  let latitude_p := f_radians latitude_p in
  f_distance_spherical_core longitude (fl (cos latitude)) (fl (sin latitude)) radius
                            longitude_p (fl (cos latitude_p)) (fl (sin latitude_p)) radius_p.

(** _equivalent_sources/cartesian.py:634-644 *)
Definition f_greens_func_cartesian : greens_t := fun e n u ep np up =>
  let distance := f_distance_cartesian (e, n, u) (ep, np, up) in
  if Reqb distance 0 then Raise ZeroDivisionError else Ok (fl (1 / distance)).

(** _equivalent_sources/utils.py:77-97 [predict] for arrays of float64 *)
Definition f_predict_kernel (greens : greens_t) (coordinates points : coords) (coeffs result : list R) : res (list R) :=
  for_ (range 0 (size coordinates)) (fun i result =>
    for_ (range 0 (size points)) (fun j result =>
      do c <- aget coeffs j;
      do v <- greens_at greens coordinates points i j;
      do o <- aget result i;
      aset result i (fl (o + fl (c * v)))) result) result.

(** _gravity_corrections.py:68-77, the value for one height *)
Definition f_bouguer (topography density_crust density_water : R) : R :=
  let density := if Rltb topography 0 then -1 * fl (density_water - density_crust) else density_crust in
  fl (fl (fl (fl (fl (10 ^ 5 * 2) * fl PI) * fl GRAVITATIONAL_CONST) * density) * topography).
End Rounding.
