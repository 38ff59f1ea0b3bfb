(** Model of /repo/src/harmonica/_forward/point.py (point_gravity).
    Floats are reals; [parallel] only selects the schedule of the same loop (see ScheduleModel). *)
From Verif Require Import Base NumPy DistanceModel.
Local Open Scope string_scope.

(** constants.py:12 [GRAVITATIONAL_CONST] (also the constant used inside choclo, external). *)
Definition G : R := 66743 / 10 ^ 15.

(** Kernels of choclo.point (external library): documented closed forms, arguments
    easting, northing, upward of the observation point, then of the source, then mass.
    The value at a coinciding point (float division by zero) is not modelled: the theorems exclude it
    wherever it matters. Source: selected in point.py:281-316. *)
Definition kernel_t := R -> R -> R -> R -> R -> R -> R -> R.
(** Source: choclo.utils.distance_cartesian (external), the same formula as _forward/utils.py:90-118. *)
Definition choclo_dist (e n u ep np up : R) : R := distance_cartesian (e, n, u) (ep, np, up).
(** Source: choclo.point.gravity_pot, imported in point.py:13-24. *)
Definition gravity_pot : kernel_t := fun e n u ep np up m =>
  G * m / choclo_dist e n u ep np up.
(** Source: choclo.point.gravity_e, imported in point.py:13-24. *)
Definition gravity_e : kernel_t := fun e n u ep np up m =>
  - G * m * (e - ep) / choclo_dist e n u ep np up ^ 3.
(** Source: choclo.point.gravity_n, imported in point.py:13-24. *)
Definition gravity_n : kernel_t := fun e n u ep np up m =>
  - G * m * (n - np) / choclo_dist e n u ep np up ^ 3.
(** Source: choclo.point.gravity_u, imported in point.py:13-24. *)
Definition gravity_u : kernel_t := fun e n u ep np up m =>
  - G * m * (u - up) / choclo_dist e n u ep np up ^ 3.
(** Source: choclo.point.gravity_ee, imported in point.py:13-24. *)
Definition gravity_ee : kernel_t := fun e n u ep np up m =>
  let d := choclo_dist e n u ep np up in G * m * (3 * (e - ep) ^ 2 / d ^ 5 - 1 / d ^ 3).
(** Source: choclo.point.gravity_nn, imported in point.py:13-24. *)
Definition gravity_nn : kernel_t := fun e n u ep np up m =>
  let d := choclo_dist e n u ep np up in G * m * (3 * (n - np) ^ 2 / d ^ 5 - 1 / d ^ 3).
(** Source: choclo.point.gravity_uu, imported in point.py:13-24. *)
Definition gravity_uu : kernel_t := fun e n u ep np up m =>
  let d := choclo_dist e n u ep np up in G * m * (3 * (u - up) ^ 2 / d ^ 5 - 1 / d ^ 3).
(** Source: choclo.point.gravity_en, imported in point.py:13-24. *)
Definition gravity_en : kernel_t := fun e n u ep np up m =>
  let d := choclo_dist e n u ep np up in G * m * (3 * (e - ep) * (n - np) / d ^ 5).
(** Source: choclo.point.gravity_eu, imported in point.py:13-24. *)
Definition gravity_eu : kernel_t := fun e n u ep np up m =>
  let d := choclo_dist e n u ep np up in G * m * (3 * (e - ep) * (u - up) / d ^ 5).
(** Source: choclo.point.gravity_nu, imported in point.py:13-24. *)
Definition gravity_nu : kernel_t := fun e n u ep np up m =>
  let d := choclo_dist e n u ep np up in G * m * (3 * (n - np) * (u - up) / d ^ 5).

(** point.py:324-334 [potential_spherical] *)
Definition potential_spherical (longitude cosphi sinphi radius longitude_p cosphi_p sinphi_p radius_p : R) : R :=
  let '(distance, _, _) :=
    distance_spherical_core longitude cosphi sinphi radius longitude_p cosphi_p sinphi_p radius_p in
  1 / distance * G.

(** point.py:341-354 [gravity_u_spherical] *)
Definition gravity_u_spherical (longitude cosphi sinphi radius longitude_p cosphi_p sinphi_p radius_p : R) : R :=
  let '(distance, cospsi, _) :=
    distance_spherical_core longitude cosphi sinphi radius longitude_p cosphi_p sinphi_p radius_p in
  let delta_z := radius - radius_p * cospsi in
  - G * delta_z / distance ^ 3.

(** point.py:281-316 [get_kernel], the two dictionaries; a Python [None] is [None]. *)
Definition cartesian_kernels : list (string * kernel_t) :=
  [("potential", gravity_pot); ("g_e", gravity_e); ("g_n", gravity_n); ("g_z", gravity_u);
   ("g_ee", gravity_ee); ("g_nn", gravity_nn); ("g_zz", gravity_uu);
   ("g_en", gravity_en); ("g_ez", gravity_eu); ("g_nz", gravity_nu);
   ("g_ne", gravity_en); ("g_ze", gravity_eu); ("g_zn", gravity_nu)].
(** Source: type of the functions of point.py:325-354. *)
Definition sph_kernel_t := R -> R -> R -> R -> R -> R -> R -> R -> R.
(** Source: point.py:281-316, second dictionary. *)
Definition spherical_kernels : list (string * option sph_kernel_t) :=
  [("potential", Some potential_spherical); ("g_z", Some gravity_u_spherical);
   ("g_n", None); ("g_e", None)].

(** Source: language: [key in dictionary] and [dictionary[key]], point.py:281-316. *)
Fixpoint lookup {A} (k : string) (l : list (string * A)) : option A :=
  match l with
  | [] => None
  | (k', v) :: l' => if String.eqb k k' then Some v else lookup k l'
  end.

(** Source: point.py:281-316. *)
Definition get_kernel_cartesian (field : string) : res kernel_t :=
  match lookup field cartesian_kernels with
  | None => Raise ValueError
  | Some k => Ok k
  end.
(** Source: point.py:281-316. *)
Definition get_kernel_spherical (field : string) : res sph_kernel_t :=
  match lookup field spherical_kernels with
  | None => Raise ValueError
  | Some None => Raise NotImplementedError
  | Some (Some k) => Ok k
  end.

(** point.py:357-398 [point_mass_cartesian] *)
Definition point_mass_cartesian (easting northing upward easting_p northing_p upward_p masses out : list R)
  (forward_func : kernel_t) : res (list R) :=
  accumulate (length easting) (length easting_p) (fun i j =>
    do e <- aget easting i; do n <- aget northing i; do u <- aget upward i;
    do ep <- aget easting_p j; do np <- aget northing_p j; do up <- aget upward_p j;
    do m <- aget masses j;
    Ok (forward_func e n u ep np up m)) out.

(** point.py:401-447 [point_mass_spherical] *)
Definition point_mass_spherical (longitude latitude radius longitude_p latitude_p radius_p masses out : list R)
  (kernel : sph_kernel_t) : res (list R) :=
  let longitude := map radians longitude in
  let latitude := map radians latitude in
  let cosphi := map cos latitude in
  let sinphi := map sin latitude in
  let longitude_p := map radians longitude_p in
  let latitude_p := map radians latitude_p in
  let cosphi_p := map cos latitude_p in
  let sinphi_p := map sin latitude_p in
  accumulate (length longitude) (length longitude_p) (fun i j =>
    do m <- aget masses j;
    do lon <- aget longitude i; do cp <- aget cosphi i; do sp <- aget sinphi i; do r <- aget radius i;
    do lonp <- aget longitude_p j; do cpp <- aget cosphi_p j; do spp <- aget sinphi_p j;
    do rp <- aget radius_p j;
    Ok (m * kernel lon cp sp r lonp cpp spp rp)) out.

(** Source: language: [x in (...)], point.py:252-260. *)
Definition mem (s : string) (l : list string) : bool := existsb (String.eqb s) l.

(** point.py:252-260: sign and unit conversions applied in place to the result. *)
Definition convert_units (field : string) (result : list R) : list R :=
  let result := if mem field ["g_z"; "g_ez"; "g_ze"; "g_nz"; "g_zn"] then map (Rmult (-1)) result else result in
  let result := if mem field ["g_e"; "g_n"; "g_z"] then map (Rmult (10 ^ 5)) result else result in
  if mem field ["g_ee"; "g_nn"; "g_zz"; "g_en"; "g_ez"; "g_nz"; "g_ne"; "g_ze"; "g_zn"]
  then map (Rmult (10 ^ 9)) result else result.

(** point.py:30-261 [point_gravity].  [coordinates] and [points] are the first three entries of the
    user's tuples. *)
Definition point_gravity (coordinates points : arr * arr * arr) (masses : arr) (field cs : string) : res arr :=
  let '(c0, c1, c2) := coordinates in
  let '(p0, p1, p2) := points in
  do _ <- check_coordinate_system cs ["cartesian"; "spherical"];
  do cast_shape <- broadcast3 c0 c1 c2;
  let result := repeat 0 (prod_shape cast_shape) in
  let m := ravel masses in
  if negb (Nat.eqb (length m) (length (ravel p0))) then Raise ValueError else
  do result <-
    (if String.eqb cs "cartesian" then
       do kernel <- get_kernel_cartesian field;
       point_mass_cartesian (ravel c0) (ravel c1) (ravel c2) (ravel p0) (ravel p1) (ravel p2) m result kernel
     else
       do kernel <- get_kernel_spherical field;
       point_mass_spherical (ravel c0) (ravel c1) (ravel c2) (ravel p0) (ravel p1) (ravel p2) m result kernel);
  Ok (Arr cast_shape (convert_units field result)).
