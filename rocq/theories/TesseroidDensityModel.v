(** Model of /repo/src/harmonica/_forward/_tesseroid_variable_density.py and of the part of
    tesseroid_gravity.py that handles densities given as functions of the radius. *)
From Verif Require Import Base NumPy DistanceModel PointGravityModel TesseroidModel.
Local Open Scope string_scope. Local Open Scope list_scope. Local Open Scope R_scope.

(** _tesseroid_variable_density.py:15 *)
Definition DELTA_RATIO : R := 1 / 10.

(** numpy.isclose with its default tolerances (external). Source: _tesseroid_variable_density.py:179. *)
Definition np_isclose (a b : R) : bool := Rleb (Rabs (a - b)) (/ 10 ^ 8 + / 10 ^ 5 * Rabs b).

(** _tesseroid_variable_density.py:18-116 [gauss_legendre_quadrature_variable_density] *)
Definition gauss_legendre_quadrature_variable_density (longitude cosphi sinphi radius : R) (t : tess) (density : R -> R)
  (glq_nodes glq_weights : list R * list R * list R) (kernel : sph_kernel_t) : res R :=
  let '(lon_nodes, lat_nodes, rad_nodes) := glq_nodes in
  let '(lon_weights, lat_weights, rad_weights) := glq_weights in
  let w := west t in let e := east t in let s := south t in let n := north t in
  let a_factor := 1 / 8 * radians (e - w) * radians (n - s) * (top t - bottom t) in
  for_ (enumerate lat_nodes) (fun jn result =>
    let latitude_p := radians (0.5 * (n - s) * snd jn + 0.5 * (n + s)) in
    let cosphi_p := cos latitude_p in
    let sinphi_p := sin latitude_p in
    for_ (enumerate rad_nodes) (fun kn result =>
      let radius_p := 0.5 * (top t - bottom t) * snd kn + 0.5 * (top t + bottom t) in
      let density_p := density radius_p in
      let kappa := radius_p ^ 2 * cosphi_p in
      for_ (enumerate lon_nodes) (fun ln result =>
        let longitude_p := radians (0.5 * (e - w) * snd ln + 0.5 * (e + w)) in
        do wi <- aget lon_weights (fst ln);
        do wj <- aget lat_weights (fst jn);
        do wk <- aget rad_weights (fst kn);
        let mass := density_p * a_factor * kappa * wi * wj * wk in
        Ok (result + mass * kernel longitude cosphi sinphi radius longitude_p cosphi_p sinphi_p radius_p))
      result) result) 0.

(** _tesseroid_variable_density.py:252-259 [straight_line]; the division is only reached with
    bottom < top (tesseroids without thickness are returned before, pieces are split at interior radii). *)
Definition straight_line (radius : R) (normalized_density : R -> R) (b t : R) : R :=
  let norm_density_bottom := normalized_density b in
  let norm_density_top := normalized_density t in
  let slope := (norm_density_top - norm_density_bottom) / (t - b) in
  slope * (radius - b) + norm_density_bottom.

Section Discretization.
(** scipy.optimize.minimize_scalar with method="bounded" (external): function, lower and upper bound to
    the abscissa (.x) and the value (.fun) found. *)
Variable minimize_scalar : (R -> R) -> R -> R -> R * R.

(** _tesseroid_variable_density.py:199-220 [density_minmax]; scipy raises ValueError when the lower
    bound is above the upper one. *)
Definition density_minmax (density : R -> R) (b t : R) : res (R * R) :=
  if Rltb t b then Raise ValueError else
  let density_bounds_min := Rmin (density b) (density t) in
  let density_bounds_max := Rmax (density b) (density t) in
  let minimum := Rmin (snd (minimize_scalar density b t)) density_bounds_min in
  let maximum := Rmax (- snd (minimize_scalar (fun radius => - density radius) b t)) density_bounds_max in
  Ok (minimum, maximum).

(** _tesseroid_variable_density.py:223-249 [maximum_absolute_diff] *)
Definition maximum_absolute_diff (normalized_density : R -> R) (b t : R) : R * R :=
  let result := minimize_scalar (fun radius => - Rabs (normalized_density radius - straight_line radius normalized_density b t)) b t in
  (fst result, - snd result).

(** _tesseroid_variable_density.py:184-195: the while loop (first in, first out). *)
Fixpoint density_loop (fuel : nat) (w e s n : R) (normalized_density : R -> R) (size_original : R) (pending tesseroids : list tess)
  : res (list tess) :=
  match pending with
  | [] => Ok tesseroids
  | t :: pending =>
    match fuel with
    | O => Raise OutOfFuel
    | S fuel =>
      let b := bottom t in let tp := top t in
      let '(radius_split, max_diff) := maximum_absolute_diff normalized_density b tp in
      let size_ratio := (tp - b) / size_original in
      if Rltb DELTA_RATIO (max_diff * size_ratio)
      then density_loop fuel w e s n normalized_density size_original
             (pending ++ [Tess w e s n radius_split tp; Tess w e s n b radius_split]) tesseroids
      else density_loop fuel w e s n normalized_density size_original pending (tesseroids ++ [Tess w e s n b tp])
    end
  end.

(** _tesseroid_variable_density.py:148-196 [_density_based_discretization]; [fuel] bounds the number of
    iterations of the loop (see C16 for when it is finite). *)
Definition density_based_discretization_1 (fuel : nat) (t : tess) (density : R -> R) : res (list tess) :=
  do mm <- density_minmax density (bottom t) (top t);
  let '(density_min, density_max) := mm in
  if np_isclose density_min density_max then Ok [t] else
  density_loop fuel (west t) (east t) (south t) (north t)
    (fun radius => (density radius - density_min) / (density_max - density_min)) (top t - bottom t) [t] [].

(** _tesseroid_variable_density.py:121-145 [density_based_discretization] *)
Definition density_based_discretization (fuel : nat) (ts : list tess) (density : R -> R) : res (list tess) :=
  for_ ts (fun t acc => do l <- density_based_discretization_1 fuel t density; Ok (acc ++ l)) [].

(** tesseroid_gravity.py:408-438: body of the loop over tesseroids. *)
Definition one_tesseroid_variable (longitude latitude radius : list R) (density : R -> R) (ratio : R) (radial : bool)
  (kernel : sph_kernel_t) (i : nat) (t : tess) (st : list R * list tess * list tess) : res (list R * list tess * list tess) :=
  let '(result, stk, sml) := st in
  do lon <- aget longitude i; do lat <- aget latitude i; do rad <- aget radius i;
  do ad <- adaptive_discretization (lon, lat, rad) t ratio stk sml radial;
  do result <- for_ (range 0 (n_splits ad)) (fun tess_index result =>
      do small_t <- aget (small ad) tess_index;
      do g <- gauss_legendre_quadrature_variable_density (radians lon) (cos (radians lat)) (sin (radians lat)) rad small_t density
                glq_nodes2 glq_weights2 kernel;
      do o <- aget result i;
      aset result i (o + g)) result;
  Ok (result, stack ad, small ad).

(** tesseroid_gravity.py:339-439 [jit_tesseroid_gravity_variable_density] *)
Definition jit_tesseroid_gravity_variable_density (coordinates : list R * list R * list R) (tesseroids : list tess) (density : R -> R)
  (result : list R) (ratio : R) (radial : bool) (kernel : sph_kernel_t) : res (list R) :=
  let '(longitude, latitude, radius) := coordinates in
  for_ (range 0 (length longitude)) (fun i result =>
    do st <- for_ tesseroids (one_tesseroid_variable longitude latitude radius density ratio radial kernel i)
               (result, repeat empty_row STACK_SIZE, repeat empty_row MAX_DISCRETIZATIONS);
    Ok (fst (fst st))) result.

(** tesseroid_gravity.py:35-213 [tesseroid_gravity] with a callable density.  An empty array of
    tesseroids becomes a row without boundaries (np.atleast_2d([])), which cannot be assigned to the
    stack as soon as there is a point. *)
Definition tesseroid_gravity_variable (fuel : nat) (coordinates : arr * arr * arr) (tesseroids : list tess) (density : R -> R)
  (field : string) (radial disable_checks : bool) : res arr :=
  let '(c0, c1, c2) := coordinates in
  if negb (mem field ["potential"; "g_z"]) then Raise ValueError else
  let kernel := if String.eqb field "potential" then potential_spherical else gravity_u_spherical in
  do cast_shape <- broadcast3 c0 c1 c2;
  let result := repeat 0 (prod_shape cast_shape) in
  let lon := ravel c0 in let lat := ravel c1 in let rad := ravel c2 in
  do tesseroids <-
    (if disable_checks then Ok tesseroids
     else do ts <- check_tesseroids_R tesseroids;
          do _ <- check_points_outside_tesseroids (triples lon lat rad) ts;
          Ok ts);
  do tesseroids <- density_based_discretization fuel tesseroids density;
  do result <- (match tesseroids, lon with
                | [], _ :: _ => Raise ValueError
                | _, _ => jit_tesseroid_gravity_variable_density (lon, lat, rad) tesseroids density result (distance_size_ratio field) radial kernel
                end);
  let result := if String.eqb field "g_z" then map (Rmult (-1)) result else result in
  let result := if String.eqb field "g_z" then map (Rmult (10 ^ 5)) result else result in
  Ok (Arr cast_shape result).
End Discretization.
