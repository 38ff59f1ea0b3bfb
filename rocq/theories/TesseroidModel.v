(** Model of /repo/src/harmonica/_forward/_tesseroid_utils.py and tesseroid_gravity.py
    (constant density; see TesseroidDensityModel for densities given as functions). *)
From Verif Require Import Base NumPy DistanceModel PointGravityModel.
Local Open Scope string_scope.

(** A row of the [tesseroids] array: longitudes and latitudes in degrees, radii in metres. Source: tesseroid_gravity.py:35-213. *)
Record tess_of (A : Type) := Tess { west : A; east : A; south : A; north : A; bottom : A; top : A }.
Arguments Tess {A}. Arguments west {A}. Arguments east {A}. Arguments south {A}.
Arguments north {A}. Arguments bottom {A}. Arguments top {A}.
(** Source: rows of finite numbers. *)
Definition tess := tess_of R.

(** Python's [x % y] for positive [y]. Source: _tesseroid_utils.py:452-504. *)
Definition Rmod (x y : R) : R := x - y * IZR (Int_part (x / y)).

(** [((x + 180) % 360) - 180] *)
Definition to_180 (x : R) : R := Rmod (x + 180) 360 - 180.

(** ** Validation.  The functions are written once for any kind of numbers [A] so that they can be
    read with plain reals and with numbers that can be NaN. *)
Section Checks.
Context {A : Type}.
Variable ltb : A -> A -> bool.     (* x < y *)
Variable sub : A -> A -> A.
Variable wrap : A -> A.            (* ((x + 180) % 360) - 180 *)
Variable lit : R -> A.             (* literals *)
Let gtb x y := ltb y x.

(** _tesseroid_utils.py:475-504 [_longitude_continuity]: a copy in which the rows with west > east have
    both longitudes moved. *)
Definition longitude_continuity (ts : list (tess_of A)) : list (tess_of A) :=
  map (fun t => if gtb (west t) (east t)
                then Tess (wrap (west t)) (wrap (east t)) (south t) (north t) (bottom t) (top t)
                else t) ts.

(** _tesseroid_utils.py:293-404 [_check_tesseroids]; the text of the messages is not modelled. *)
Definition check_tesseroids (ts : list (tess_of A)) : res (list (tess_of A)) :=
  if existsb (fun t => (ltb (south t) (lit (-90)) || gtb (south t) (lit 90))
                       || (ltb (north t) (lit (-90)) || gtb (north t) (lit 90)))%bool ts then Raise ValueError
  else if existsb (fun t => gtb (south t) (north t)) ts then Raise ValueError
  else if existsb (fun t => ltb (bottom t) (lit 0) || ltb (top t) (lit 0))%bool ts then Raise ValueError
  else if existsb (fun t => gtb (bottom t) (top t)) ts then Raise ValueError
  else if existsb (fun t => (ltb (west t) (lit (-180)) || gtb (west t) (lit 360))
                            || (ltb (east t) (lit (-180)) || gtb (east t) (lit 360)))%bool ts then Raise ValueError
  else
    let ts := if existsb (fun t => gtb (west t) (east t)) ts then longitude_continuity ts else ts in
    if existsb (fun t => gtb (west t) (east t)) ts then Raise ValueError
    else if existsb (fun t => gtb (sub (east t) (west t)) (lit 360)) ts then Raise ValueError
    else Ok ts.
End Checks.

(** The checks on ordinary numbers, and on numbers that may be NaN. Source: _tesseroid_utils.py:293-404. *)
Definition check_tesseroids_R : list tess -> res (list tess) := check_tesseroids Rltb Rminus to_180 (fun r => r).
(** Source: _tesseroid_utils.py:293-404. *)
Definition check_tesseroids_num : list (tess_of num) -> res (list (tess_of num)) :=
  check_tesseroids nltb (nop Rminus) (fun x => match x with Fin r => Fin (to_180 r) | NaN => NaN end) Fin.

(** _tesseroid_utils.py:452-472 [_check_points_outside_tesseroids]: the list of (point, tesseroid)
    conflicts; points are given as a list of triples (the arrays have equal sizes here). *)
Definition inside_test (p : point) (t : tess) : bool :=
  let '(longitude, latitude, radius) := p in
  let longitude_360 := Rmod longitude 360 in
  let longitude_180 := to_180 longitude in
  ((Rltb (west t) longitude_180 && Rltb longitude_180 (east t))
   || (Rltb (west t) longitude_360 && Rltb longitude_360 (east t)))
  && (Rltb (south t) latitude && Rltb latitude (north t))
  && (Rltb (bottom t) radius && Rltb radius (top t)).
(** Source: _tesseroid_utils.py:407-472. *)
Definition conflicting (ps : list point) (ts : list tess) : list (nat * nat) :=
  flat_map (fun ip => flat_map (fun jt => if inside_test (snd ip) (snd jt) then [(fst ip, fst jt)] else [])
                               (combine (range 0 (length ts)) ts))
           (combine (range 0 (length ps)) ps).

(** _tesseroid_utils.py:407-448 [check_points_outside_tesseroids] *)
Definition check_points_outside_tesseroids (ps : list point) (ts : list tess) : res unit :=
  match conflicting ps ts with [] => Ok tt | _ => Raise ValueError end.

(** _tesseroid_utils.py:507-538 [_discard_null_tesseroids]; numpy raises IndexError when the boolean
    mask does not have the size of the array. *)
Definition is_null (t : tess) (d : R) : bool :=
  Reqb (west t) (east t) || Reqb (south t) (north t) || Reqb (bottom t) (top t) || Reqb d 0.
(** Source: _tesseroid_utils.py:507-538. *)
Definition discard_null_tesseroids (ts : list tess) (density : list R) : res (list tess * list R) :=
  if negb (Nat.eqb (length density) (length ts)) then Raise IndexError else
  let kept := filter (fun td => negb (is_null (fst td) (snd td))) (combine ts density) in
  Ok (map fst kept, map snd kept).

(** ** Adaptive discretisation *)

(** _tesseroid_utils.py:263-275 [_tesseroid_dimensions]; returns (l_lon, l_lat, l_rad). *)
Definition tesseroid_dimensions (t : tess) : R * R * R :=
  let w := radians (west t) in let e := radians (east t) in
  let s := radians (south t) in let n := radians (north t) in
  let latitude_center := (n + s) / 2 in
  let l_lat := top t * acos (sin n * sin s + cos n * cos s) in
  let l_lon := top t * acos (sin latitude_center ^ 2 + cos latitude_center ^ 2 * cos (e - w)) in
  let l_rad := top t - bottom t in
  (l_lon, l_lat, l_rad).

(** _tesseroid_utils.py:279-290 [_distance_tesseroid_point] *)
Definition distance_tesseroid_point (coordinates : point) (t : tess) : R :=
  distance_spherical coordinates ((west t + east t) / 2, (south t + north t) / 2, (bottom t + top t) / 2).

(** Division in a numba function compiled with the default (python) error model. Source: _tesseroid_utils.py:197-235. *)
Definition ndiv (x y : R) : res R := if Reqb y 0 then Raise ZeroDivisionError else Ok (x / y).

(** _tesseroid_utils.py:240-259 [_split_tesseroid]; [cnt] is stack_top + 1.  The six element
    assignments of a row are one row assignment. *)
Definition split_row (t : tess) (n_lon n_lat n_rad i j k : nat) : tess :=
  let d_lon := (east t - west t) / INR n_lon in
  let d_lat := (north t - south t) / INR n_lat in
  let d_rad := (top t - bottom t) / INR n_rad in
  Tess (west t + d_lon * INR i) (west t + d_lon * INR (i + 1))
       (south t + d_lat * INR j) (south t + d_lat * INR (j + 1))
       (bottom t + d_rad * INR k) (bottom t + d_rad * INR (k + 1)).
(** Source: _tesseroid_utils.py:240-259. *)
Definition split_tesseroid (t : tess) (n_lon n_lat n_rad : nat) (stack : list tess) (cnt : nat) : res (list tess * nat) :=
  for_ (range 0 n_lon) (fun i st =>
    for_ (range 0 n_lat) (fun j st =>
      for_ (range 0 n_rad) (fun k st =>
        let '(stack, cnt) := st in
        do stack <- aset stack cnt (split_row t n_lon n_lat n_rad i j k);
        Ok (stack, S cnt)) st) st) (stack, cnt).

(** State of the loop of [_adaptive_discretization]: the stack array, stack_top + 1, the output array
    and n_splits. Source: _tesseroid_utils.py:197-235. *)
Record ad_state := Ad { stack : list tess; cnt : nat; small : list tess; n_splits : nat }.

(** _tesseroid_utils.py:197-235: one iteration of the while loop (run when stack_top >= 0). *)
Definition ad_step (coordinates : point) (ratio : R) (radial : bool) (st : ad_state) : res ad_state :=
  do t <- aget (stack st) (cnt st - 1);
  let cnt := (cnt st - 1)%nat in
  let '(l_lon, l_lat, l_rad) := tesseroid_dimensions t in
  let distance := distance_tesseroid_point coordinates t in
  do q_lon <- ndiv distance l_lon;
  let n_lon := if Rltb q_lon ratio then 2%nat else 1%nat in
  do q_lat <- ndiv distance l_lat;
  let n_lat := if Rltb q_lat ratio then 2%nat else 1%nat in
  do q_rad <- ndiv distance l_rad;
  let n_rad := if (Rltb q_rad ratio && radial)%bool then 2%nat else 1%nat in
  if Nat.ltb 1 (n_lon * n_lat * n_rad) then
    if Nat.ltb (length (stack st)) (cnt + n_lon * n_lat * n_rad) then Raise OverflowError
    else
      do sc <- split_tesseroid t n_lon n_lat n_rad (stack st) cnt;
      Ok (Ad (fst sc) (snd sc) (small st) (n_splits st))
  else
    if Nat.ltb (length (small st)) (n_splits st + 1) then Raise OverflowError
    else
      do small' <- aset (small st) (n_splits st) t;
      Ok (Ad (stack st) cnt small' (n_splits st + 1)).

(** Source: _tesseroid_utils.py:197-235: the while loop. *)
Fixpoint ad_loop (fuel : nat) (coordinates : point) (ratio : R) (radial : bool) (st : ad_state) : res ad_state :=
  match cnt st with
  | O => Ok st
  | S _ => match fuel with
           | O => Raise OutOfFuel
           | S f => do st' <- ad_step coordinates ratio radial st; ad_loop f coordinates ratio radial st'
           end
  end.

(** _tesseroid_utils.py:150-236 [_adaptive_discretization] with enough fuel (C13 shows that it always
    is); returns the final buffers and the number of small tesseroids. *)
Definition adaptive_discretization (coordinates : point) (t : tess) (ratio : R) (stack small : list tess) (radial : bool)
  : res ad_state :=
  do stack <- aset stack 0 t;
  ad_loop (length stack + 2 * length small) coordinates ratio radial (Ad stack 1 small 0).

(** ** Quadrature *)

(** _tesseroid_utils.py:19-115 [gauss_legendre_quadrature] *)
Definition enumerate {A} (l : list A) : list (nat * A) := combine (range 0 (length l)) l.
(** Source: _tesseroid_utils.py:19-115. *)
Definition gauss_legendre_quadrature (longitude cosphi sinphi radius : R) (t : tess) (density : R)
  (glq_nodes glq_weights : list R * list R * list R) (kernel : sph_kernel_t) : res R :=
  let '(lon_nodes, lat_nodes, rad_nodes) := glq_nodes in
  let '(lon_weights, lat_weights, rad_weights) := glq_weights in
  let w := west t in let e := east t in let s := south t in let n := north t in
  let a_factor := 1 / 8 * radians (e - w) * radians (n - s) * (top t - bottom t) in
  for_ (enumerate lat_nodes) (fun jn result =>
    let latitude_p := radians (0.5 * (n - s) * snd jn + 0.5 * (n + s)) in
    let cosphi_p := cos latitude_p in
    let sinphi_p := sin latitude_p in
    for_ (enumerate rad_nodes) (fun kn result =>
      let radius_p := 0.5 * (top t - bottom t) * snd kn + 0.5 * (top t + bottom t) in
      let kappa := radius_p ^ 2 * cosphi_p in
      for_ (enumerate lon_nodes) (fun ln result =>
        let longitude_p := radians (0.5 * (e - w) * snd ln + 0.5 * (e + w)) in
        do wi <- aget lon_weights (fst ln);
        do wj <- aget lat_weights (fst jn);
        do wk <- aget rad_weights (fst kn);
        let mass := density * a_factor * kappa * wi * wj * wk in
        Ok (result + mass * kernel longitude cosphi sinphi radius longitude_p cosphi_p sinphi_p radius_p))
      result) result) 0.

(** tesseroid_gravity.py:31 [GLQ_DEGREES = (2, 2, 2)] through _tesseroid_utils.py:118-146
    [glq_nodes_weights]; numpy's [leggauss(2)] (external) is (-1/sqrt 3, 1/sqrt 3) with unit weights. *)
Definition leggauss2_nodes : list R := [- (1 / sqrt 3); 1 / sqrt 3].
(** Source: _tesseroid_utils.py:118-146. *)
Definition leggauss2_weights : list R := [1; 1].
(** Source: _tesseroid_utils.py:118-146. *)
Definition glq_nodes2 := (leggauss2_nodes, leggauss2_nodes, leggauss2_nodes).
(** Source: _tesseroid_utils.py:118-146. *)
Definition glq_weights2 := (leggauss2_weights, leggauss2_weights, leggauss2_weights).

(** tesseroid_gravity.py:29-32 *)
Definition STACK_SIZE : nat := 100.
(** Source: tesseroid_gravity.py:30. *)
Definition MAX_DISCRETIZATIONS : nat := N.to_nat 100000.
(** Source: tesseroid_gravity.py:32. *)
Definition distance_size_ratio (field : string) : R := if String.eqb field "potential" then 1 else 2.5.

(** Contents of [np.empty] buffers are arbitrary; the result does not depend on them (see C11). Source: tesseroid_gravity.py:236-336. *)
Definition empty_row : tess := Tess 0 0 0 0 0 0.

(** tesseroid_gravity.py:305-331: body of the loop over tesseroids for observation point [i]; the state
    is the result array and the two scratch buffers. *)
Definition one_tesseroid (longitude latitude radius : list R) (ratio : R) (radial : bool) (kernel : sph_kernel_t) (i : nat)
  (td : tess * R) (st : list R * list tess * list tess) : res (list R * list tess * list tess) :=
  let '(result, stk, sml) := st in
  let '(t, d) := td in
  do lon <- aget longitude i; do lat <- aget latitude i; do rad <- aget radius i;
  do ad <- adaptive_discretization (lon, lat, rad) t ratio stk sml radial;
  do result <- for_ (range 0 (n_splits ad)) (fun tess_index result =>
      do small_t <- aget (small ad) tess_index;
      do g <- gauss_legendre_quadrature (radians lon) (cos (radians lat)) (sin (radians lat)) rad small_t d
                glq_nodes2 glq_weights2 kernel;
      do o <- aget result i;
      aset result i (o + g)) result;
  Ok (result, stack ad, small ad).

(** tesseroid_gravity.py:236-336 [jit_tesseroid_gravity] *)
Definition jit_tesseroid_gravity (coordinates : list R * list R * list R) (tesseroids : list tess) (density result : list R)
  (ratio : R) (radial : bool) (kernel : sph_kernel_t) : res (list R) :=
  let '(longitude, latitude, radius) := coordinates in
  for_ (range 0 (length longitude)) (fun i result =>
    do st <- for_ (combine tesseroids density) (one_tesseroid longitude latitude radius ratio radial kernel i)
               (result, repeat empty_row STACK_SIZE, repeat empty_row MAX_DISCRETIZATIONS);
    Ok (fst (fst st))) result.

(** Source: the coordinate arrays as points, _tesseroid_utils.py:407-472. *)
Definition triples (a b c : list R) : list point := combine (combine a b) c.

(** tesseroid_gravity.py:35-213 [tesseroid_gravity] with an array of densities.  The point check zips the
    three coordinate arrays (it indexes the last two with the positions of the first). *)
Definition tesseroid_gravity (coordinates : arr * arr * arr) (tesseroids : list tess) (density : arr) (field : string)
  (radial disable_checks : bool) : res arr :=
  let '(c0, c1, c2) := coordinates in
  if negb (mem field ["potential"; "g_z"]) then Raise ValueError else
  let kernel := if String.eqb field "potential" then potential_spherical else gravity_u_spherical in
  do cast_shape <- broadcast3 c0 c1 c2;
  let result := repeat 0 (prod_shape cast_shape) in
  let lon := ravel c0 in let lat := ravel c1 in let rad := ravel c2 in
  do tesseroids <-
    (if disable_checks then Ok tesseroids
     else do ts <- check_tesseroids_R tesseroids;
          do _ <- check_points_outside_tesseroids (triples lon lat rad) ts;
          Ok ts);
  let density := ravel density in
  if (negb disable_checks && negb (Nat.eqb (length density) (length tesseroids)))%bool then Raise ValueError else
  do td <- discard_null_tesseroids tesseroids density;
  do result <- jit_tesseroid_gravity (lon, lat, rad) (fst td) (snd td) result (distance_size_ratio field) radial kernel;
  let result := if String.eqb field "g_z" then map (Rmult (-1)) result else result in
  let result := if String.eqb field "g_z" then map (Rmult (10 ^ 5)) result else result in
  Ok (Arr cast_shape result).
