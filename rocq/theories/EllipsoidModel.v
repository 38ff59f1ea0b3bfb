(** Model of /repo/src/harmonica/_forward/ellipsoids (utils.py, gravity.py, magnetic.py and
    Ellipsoid.get_surface) and of get_rotation_matrix of _forward/utils.py.

    External code by its documentation: scipy's Rotation (intrinsic Tait-Bryan angles), ellipkinc and
    ellipeinc (Legendre's incomplete integrals with the parameter m), numpy.linalg.solve.
    Element-wise numpy operations under a mask ([gx[internal] = ...], [gx[~internal] = ...]) are
    modelled as one function applied to every point.  The semi-axes, angles and coordinates are reals;
    NaN semi-axes are treated in EllipsoidObjectModel. *)
From Coquelicot Require Import Coquelicot.
From Verif Require Import Base NumPy PointGravityModel OasisModel LayerModel.
From Verif Require EqsModel.
Local Open Scope R_scope.

(** ** Matrices *)
(** Source: 3 x 3 arrays: the rotation matrices of gravity.py:106-112 and the tensors of magnetic.py:351-588. *)
Record mat3 := M3 { row1 : vec3; row2 : vec3; row3 : vec3 }.
(** [m @ v]; source: gravity.py:112 and 120. *)
Definition mv (m : mat3) (v : vec3) : vec3 := V3 (dot (row1 m) v) (dot (row2 m) v) (dot (row3 m) v).
(** [m.T]; source: gravity.py:106-112. *)
Definition mT (m : mat3) : mat3 :=
  M3 (V3 (vx (row1 m)) (vx (row2 m)) (vx (row3 m)))
     (V3 (vy (row1 m)) (vy (row2 m)) (vy (row3 m)))
     (V3 (vz (row1 m)) (vz (row2 m)) (vz (row3 m))).
(** [a @ b]; source: gravity.py:106-112. *)
Definition mm (a b : mat3) : mat3 := M3 (mv (mT b) (row1 a)) (mv (mT b) (row2 a)) (mv (mT b) (row3 a)).
(** Source: [np.diag], magnetic.py:392. *)
Definition diag (x y z : R) : mat3 := M3 (V3 x 0 0) (V3 0 y 0) (V3 0 0 z).
(** [np.identity(3)]; source: magnetic.py:287. *)
Definition eye : mat3 := diag 1 1 1.
(** Source: number times matrix, used for the susceptibility of magnetic.py:294-326. *)
Definition mscale (k : R) (m : mat3) : mat3 := M3 (vscale k (row1 m)) (vscale k (row2 m)) (vscale k (row3 m)).
(** Source: sum of matrices, magnetic.py:288. *)
Definition madd (a b : mat3) : mat3 := M3 (vadd (row1 a) (row1 b)) (vadd (row2 a) (row2 b)) (vadd (row3 a) (row3 b)).
(** Source: a function applied to every entry: [.astype(int)], utils.py:96. *)
Definition mmap (f : R -> R) (m : mat3) : mat3 :=
  let r v := V3 (f (vx v)) (f (vy v)) (f (vz v)) in M3 (r (row1 m)) (r (row2 m)) (r (row3 m)).
(** Source: determinant; decides whether [np.linalg.solve] of magnetic.py:290 raises. *)
Definition det (m : mat3) : R :=
  let '(M3 (V3 a b c) (V3 d e f) (V3 g h i)) := m in a * (e * i - f * h) - b * (d * i - f * g) + c * (d * h - e * g).

(** [np.linalg.solve(lhs, rhs)] (external): the solution of the system; LinAlgError when the matrix
    is singular.  Cramer's rule stands for the factorisation. Source: magnetic.py:290. *)
Definition solve (lhs : mat3) (rhs : vec3) : res vec3 :=
  let '(M3 (V3 a b c) (V3 d e f) (V3 g h i)) := lhs in
  let '(V3 p q r) := rhs in
  let dt := det lhs in
  if Reqb dt 0 then Raise LinAlgError
  else Ok (V3 (det (M3 (V3 p b c) (V3 q e f) (V3 r h i)) / dt)
              (det (M3 (V3 a p c) (V3 d q f) (V3 g r i)) / dt)
              (det (M3 (V3 a b p) (V3 d e q) (V3 g h r)) / dt)).

(** ** Rotations *)
(** Elementary rotations by an angle in degrees around z, y and x, right-hand rule. Source: factor of [Rotation.from_euler], _forward/utils.py:431. *)
Definition rot_z (d : R) : mat3 :=
  let t := radians d in M3 (V3 (cos t) (- sin t) 0) (V3 (sin t) (cos t) 0) (V3 0 0 1).
(** Source: factor of [Rotation.from_euler], _forward/utils.py:431. *)
Definition rot_y (d : R) : mat3 :=
  let t := radians d in M3 (V3 (cos t) 0 (sin t)) (V3 0 1 0) (V3 (- sin t) 0 (cos t)).
(** Source: factor of [Rotation.from_euler], _forward/utils.py:431. *)
Definition rot_x (d : R) : mat3 :=
  let t := radians d in M3 (V3 1 0 0) (V3 0 (cos t) (- sin t)) (V3 0 (sin t) (cos t)).

(** scipy [Rotation.from_euler("ZYX", [z, y, x], degrees=True).as_matrix()]: intrinsic rotations. Source: _forward/utils.py:431. *)
Definition from_euler_ZYX (z y x : R) : mat3 := mm (rot_z z) (mm (rot_y y) (rot_x x)).

(** _forward/utils.py 395-434 [get_rotation_matrix] *)
Definition get_rotation_matrix (yaw pitch roll : R) : mat3 := from_euler_ZYX yaw (- pitch) roll.

(** ** Ellipsoids (the attributes of an Ellipsoid object) *)
(** Source: the values of the susceptibility attribute, ellipsoids.py:151-168. *)
Inductive susceptibility_t := Isotropic (k : R) | Tensor (m : mat3).
(** Source: ellipsoids.py:71-97. *)
Record ellipsoid := Ell {
  ell_a : R; ell_b : R; ell_c : R;
  ell_yaw : R; ell_pitch : R; ell_roll : R;
  ell_center : vec3;
  ell_density : option R;
  ell_susceptibility : option susceptibility_t;
  ell_remanent : option vec3 }.

(** ellipsoids.py 194-217 [Ellipsoid.rotation_matrix] *)
Definition rotation_matrix (e : ellipsoid) : mat3 := get_rotation_matrix (ell_yaw e) (ell_pitch e) (ell_roll e).

(** ** ellipsoids/utils.py *)
(** 16 [SEMIAXES_RTOL] *)
Definition SEMIAXES_RTOL : R := / 10 ^ 5.

(** Chained comparison [a >= b >= c]. Source: utils.py:19-36. *)
Definition sorted_desc (a b c : R) : bool := (Rleb b a && Rleb c b)%bool.

(** 19-36 [check_semiaxes_sorted] *)
Definition check_semiaxes_sorted (a b c : R) : res unit := if negb (sorted_desc a b c) then Raise ValueError else Ok tt.

(** 39-97 [get_semiaxes_rotation_matrix]; [.astype(int)] drops the fraction of every entry. *)
Definition get_semiaxes_rotation_matrix (e : ellipsoid) : res mat3 :=
  let a := ell_a e in let b := ell_b e in let c := ell_c e in
  if sorted_desc a b c then Ok eye
  else
    do angles <-
      (if sorted_desc b a c then Ok (90, 0, 0)
       else if sorted_desc c b a then Ok (0, 90, 0)
       else if sorted_desc a c b then Ok (0, 0, 90)
       else if sorted_desc b c a then Ok (90, 0, 90)
       else if sorted_desc c a b then Ok (90, 90, 0)
       else Raise ValueError);
    let '(yaw, pitch, roll) := angles in
    Ok (mmap EqsModel.truncate (get_rotation_matrix yaw pitch roll)).

(** 100-115 [is_internal] *)
Definition is_internal (p : vec3) (a b c : R) : bool :=
  Rltb (vx p ^ 2 / a ^ 2 + vy p ^ 2 / b ^ 2 + vz p ^ 2 / c ^ 2) 1.

(** The test [np.abs(a - b) < SEMIAXES_RTOL * max(a, b)]. Source: utils.py:118-226. *)
Definition close (a b : R) : bool := Rltb (Rabs (a - b)) (SEMIAXES_RTOL * Rmax a b).

(** 118-160 [is_almost_a_sphere] *)
Definition is_almost_a_sphere (a b c : R) : res bool :=
  do _ <- check_semiaxes_sorted a b c;
  if (Reqb a b && Reqb b c)%bool then Ok true
  else if (Reqb b c && close a b)%bool then Ok true
  else if (Reqb a b && close b c)%bool then Ok true
  else if ((negb (Reqb a b) && negb (Reqb b c)) && close a b && close b c)%bool then Ok true
  else Ok false.

(** 163-193 [is_almost_prolate] *)
Definition is_almost_prolate (a b c : R) : res bool :=
  do _ <- check_semiaxes_sorted a b c;
  if (Rltb b a && Reqb b c)%bool then Ok true
  else if close b c then Ok true
  else Ok false.

(** 196-226 [is_almost_oblate] *)
Definition is_almost_oblate (a b c : R) : res bool :=
  do _ <- check_semiaxes_sorted a b c;
  if (Reqb a b && Rltb c b)%bool then Ok true
  else if close a b then Ok true
  else Ok false.

(** [np.clip]; source: utils.py:287-291. *)
Definition clip (x lo hi : R) : R := Rmin (Rmax x lo) hi.

(** 252-262 prolate and oblate branches of [calculate_lambda] *)
Definition lambda_prolate (a b : R) (p : vec3) : R :=
  let x := vx p in let y := vy p in let z := vz p in
  let p0 := a ^ 2 * b ^ 2 - b ^ 2 * x ^ 2 - a ^ 2 * (y ^ 2 + z ^ 2) in
  let p1 := a ^ 2 + b ^ 2 - x ^ 2 - y ^ 2 - z ^ 2 in
  1 / 2 * (sqrt (p1 ^ 2 - 4 * p0) - p1).
(** Source: utils.py:258-262: the oblate branch. *)
Definition lambda_oblate (a c : R) (p : vec3) : R :=
  let x := vx p in let y := vy p in let z := vz p in
  let p0 := a ^ 2 * c ^ 2 - c ^ 2 * (x ^ 2 + y ^ 2) - a ^ 2 * z ^ 2 in
  let p1 := a ^ 2 + c ^ 2 - x ^ 2 - y ^ 2 - z ^ 2 in
  1 / 2 * (sqrt (p1 ^ 2 - 4 * p0) - p1).

(** 264-294 triaxial branch *)
Definition lambda_triaxial (a b c : R) (p : vec3) : R :=
  let x := vx p in let y := vy p in let z := vz p in
  let p0 := a ^ 2 * b ^ 2 * c ^ 2 - b ^ 2 * c ^ 2 * x ^ 2 - c ^ 2 * a ^ 2 * y ^ 2 - a ^ 2 * b ^ 2 * z ^ 2 in
  let p1 := a ^ 2 * b ^ 2 + b ^ 2 * c ^ 2 + c ^ 2 * a ^ 2 - (b ^ 2 + c ^ 2) * x ^ 2 - (c ^ 2 + a ^ 2) * y ^ 2 - (a ^ 2 + b ^ 2) * z ^ 2 in
  let p2 := a ^ 2 + b ^ 2 + c ^ 2 - x ^ 2 - y ^ 2 - z ^ 2 in
  let p := p1 - p2 ^ 2 / 3 in
  let q := p0 - p1 * p2 / 3 + 2 * (p2 / 3) ^ 3 in
  let cos_theta := clip (- q / (2 * sqrt ((- p / 3) ^ 3))) (- 1) 1 in
  let theta := acos cos_theta in
  2 * sqrt (- p / 3) * cos (theta / 3) - p2 / 3.

(** 229-296 [calculate_lambda]: the branch depends on the semi-axes only, so the result is the
    function applied to every observation point. *)
Definition calculate_lambda (a b c : R) : res (vec3 -> R) :=
  do _ <- check_semiaxes_sorted a b c;
  if Reqb b c then Ok (lambda_prolate a b)
  else if Reqb a b then Ok (lambda_oblate a c)
  else Ok (lambda_triaxial a b c).

(** scipy.special (external): Legendre's incomplete elliptic integrals of the first and second kind. Source: called in utils.py:385-490. *)
Definition ellipkinc (phi m : R) : R := RInt (fun t => / sqrt (1 - m * sin t ^ 2)) 0 phi.
(** Source: called in utils.py:385-490. *)
Definition ellipeinc (phi m : R) : R := RInt (fun t => sqrt (1 - m * sin t ^ 2)) 0 phi.

(** 385-490 [_get_elliptical_integrals_triaxial]; the powers [** 0.5] and [** (3 / 2)] are real powers. *)
Definition elliptical_integrals_triaxial (a b c : R) : res (R -> R * R * R) :=
  if negb (Rltb b a && Rltb c b)%bool then Raise ValueError
  else Ok (fun lambda_ =>
    let int_arcsin := sqrt ((a ^ 2 - c ^ 2) / (a ^ 2 + lambda_)) in
    let phi := asin int_arcsin in
    let k := (a ^ 2 - b ^ 2) / (a ^ 2 - c ^ 2) in
    let ellipk := ellipkinc phi k in
    let ellipe := ellipeinc phi k in
    let g1 := 2 / ((a ^ 2 - b ^ 2) * Rpower (a ^ 2 - c ^ 2) (1 / 2)) * (ellipk - ellipe) in
    let g2_multiplier := 2 * sqrt (a ^ 2 - c ^ 2) / ((a ^ 2 - b ^ 2) * (b ^ 2 - c ^ 2)) in
    let g2_elliptics := ellipe - (b ^ 2 - c ^ 2) / (a ^ 2 - c ^ 2) * ellipk in
    let g2_last_term := (a ^ 2 - b ^ 2) / sqrt (a ^ 2 - c ^ 2) * sqrt ((c ^ 2 + lambda_) / ((a ^ 2 + lambda_) * (b ^ 2 + lambda_))) in
    let g2 := g2_multiplier * (g2_elliptics - g2_last_term) in
    let g3_term_1 := - (2 / ((b ^ 2 - c ^ 2) * sqrt (a ^ 2 - c ^ 2))) * ellipe in
    let g3_term_2 := 2 / (b ^ 2 - c ^ 2) * sqrt ((b ^ 2 + lambda_) / ((a ^ 2 + lambda_) * (c ^ 2 + lambda_))) in
    let g3 := g3_term_1 + g3_term_2 in
    (g1, g2, g3)).

(** 493-572 [_get_elliptical_integrals_prolate] *)
Definition elliptical_integrals_prolate (a b : R) : res (R -> R * R * R) :=
  if negb (Rltb b a) then Raise ValueError
  else Ok (fun lambda_ =>
    let e2 := a ^ 2 - b ^ 2 in
    let sqrt_e := sqrt e2 in
    let sqrt_l1 := sqrt (a ^ 2 + lambda_) in
    let sqrt_l2 := sqrt (b ^ 2 + lambda_) in
    let log := ln ((sqrt_e + sqrt_l1) / sqrt_l2) in
    let g1 := 2 / sqrt_e ^ 3 * (log - sqrt_e / sqrt_l1) in
    let g2 := 1 / sqrt_e ^ 3 * (sqrt_e * sqrt_l1 / (b ^ 2 + lambda_) - log) in
    (g1, g2, g2)).

(** 575-650 [_get_elliptical_integrals_oblate] *)
Definition elliptical_integrals_oblate (b c : R) : res (R -> R * R * R) :=
  if negb (Rltb c b) then Raise ValueError
  else Ok (fun lambda_ =>
    let arctan := atan (sqrt ((b ^ 2 - c ^ 2) / (c ^ 2 + lambda_))) in
    let g1 := 1 / Rpower (b ^ 2 - c ^ 2) (3 / 2) * (arctan - sqrt ((b ^ 2 - c ^ 2) * (c ^ 2 + lambda_)) / (b ^ 2 + lambda_)) in
    let g3 := 2 / Rpower (b ^ 2 - c ^ 2) (3 / 2) * (sqrt ((b ^ 2 - c ^ 2) / (c ^ 2 + lambda_)) - arctan) in
    (g1, g1, g3)).

(** 299-382 [get_elliptical_integrals], as a function of lambda *)
Definition get_elliptical_integrals (a b c : R) : res (R -> R * R * R) :=
  do _ <- check_semiaxes_sorted a b c;
  do sphere <- is_almost_a_sphere a b c;
  if sphere then Raise ValueError
  else
    do prolate <- is_almost_prolate a b c;
    if prolate then elliptical_integrals_prolate a b
    else
      do oblate <- is_almost_oblate a b c;
      if oblate then elliptical_integrals_oblate b c
      else if (Rltb b a && Rltb c b)%bool then elliptical_integrals_triaxial a b c
      else Raise ValueError.

(** 653-677 [get_derivatives_of_elliptical_integrals] *)
Definition get_derivatives_of_elliptical_integrals (a b c : R) : res (R -> R * R * R) :=
  do _ <- check_semiaxes_sorted a b c;
  Ok (fun lambda_ =>
    let r := sqrt ((a ^ 2 + lambda_) * (b ^ 2 + lambda_) * (c ^ 2 + lambda_)) in
    let h e := - 1 / (e ^ 2 + lambda_) / r in
    (h a, h b, h c)).

(** ** gravity.py *)
(** 135-199 [_compute_gravity_ellipsoid] *)
Definition compute_gravity_ellipsoid (points : list vec3) (a b c density : R) : res (list vec3) :=
  do _ <- check_semiaxes_sorted a b c;
  do sphere <- is_almost_a_sphere a b c;
  if sphere then
    let factor := - 4 / 3 * PI * a ^ 3 * G * density in
    Ok (map (fun p =>
      if is_internal p a b c
      then V3 (factor * vx p / a ^ 3) (factor * vy p / a ^ 3) (factor * vz p / a ^ 3)
      else let r := sqrt (vx p ^ 2 + vy p ^ 2 + vz p ^ 2) in
           V3 (factor * vx p / r ^ 3) (factor * vy p / r ^ 3) (factor * vz p / r ^ 3)) points)
  else
    do lambda_ <- calculate_lambda a b c;
    do integrals <- get_elliptical_integrals a b c;
    let factor := - 2 * PI * a * b * c * G * density in
    Ok (map (fun p =>
      let l := if is_internal p a b c then 0 else lambda_ p in
      let '(g1, g2, g3) := integrals l in
      V3 (factor * vx p * g1) (factor * vy p * g2) (factor * vz p * g3)) points).

(** [sorted((x, y, z), reverse=True)]; source: one insertion of the sort below (gravity.py:103). *)
Fixpoint insert_desc (x : R) (l : list R) : list R :=
  match l with [] => [x] | y :: l' => if Rleb y x then x :: l else y :: insert_desc x l' end.
(** Source: gravity.py:103. *)
Definition sorted_reverse (l : list R) : list R := fold_right insert_desc [] l.
(** Source: [a, b, c = sorted(...)], gravity.py:103. *)
Definition unpack_axes (l : list R) : res (R * R * R) := match l with [a; b; c] => Ok (a, b, c) | _ => Raise ValueError end.
(** Source: gravity.py:103. *)
Definition sorted_axes (e : ellipsoid) : res (R * R * R) := unpack_axes (sorted_reverse [ell_a e; ell_b e; ell_c e]).

(** [np.vstack((e, n, u))] of 1d arrays, as a list of columns: ValueError for different lengths. Source: gravity.py:112 and 120. *)
Definition vstack (e n u : list R) : res (list vec3) :=
  if (Nat.eqb (length e) (length n) && Nat.eqb (length n) (length u))%bool
  then Ok (map (fun t => let '(x, (y, z)) := t in V3 x y z) (combine e (combine n u)))
  else Raise ValueError.

(** [x += x_i] for the three components. Source: gravity.py:123-125. *)
Definition add_points (l m : list vec3) : list vec3 := map (fun t => vadd (fst t) (snd t)) (combine l m).

(** [c.reshape(shape)]: ValueError when the number of elements differs. Source: gravity.py:131, magnetic.py:113. *)
Definition reshape (l : list R) (shape : list nat) : res arr :=
  if Nat.eqb (length l) (prod_shape shape) then Ok (Arr shape l) else Raise ValueError.

(** [isinstance(ellipsoids, Iterable)]; source: gravity.py:85-86, magnetic.py:76-77. *)
Inductive ellipsoids_arg := Single (e : ellipsoid) | Several (l : list ellipsoid).
(** Source: gravity.py:85-86, magnetic.py:76-77. *)
Definition as_list (x : ellipsoids_arg) : list ellipsoid := match x with Single e => [e] | Several l => l end.

(** The observation points in the frame of the sorted semi-axes: gravity.py 99-112, magnetic.py 152-169.
    Result: points, rotation, semi-axes rotation, a, b, c. *)
Definition local_points (coordinates : list R * list R * list R) (e : ellipsoid)
  : res (list vec3 * mat3 * mat3 * R * R * R) :=
  let '(easting, northing, upward) := coordinates in
  let '(V3 origin_e origin_n origin_u) := ell_center e in
  do (a, b, c) <- sorted_axes e;
  do semiaxes_rotation <- get_semiaxes_rotation_matrix e;
  let rotation := mm (mT semiaxes_rotation) (mT (rotation_matrix e)) in
  do shifted <- vstack (map (fun x => x - origin_e) easting) (map (fun x => x - origin_n) northing) (map (fun x => x - origin_u) upward);
  Ok (map (mv rotation) shifted, rotation, semiaxes_rotation, a, b, c).

(** One iteration of the loop of [ellipsoid_gravity], for an ellipsoid with a density. Source: gravity.py:88-125. *)
Definition gravity_of_ellipsoid (coordinates : list R * list R * list R) (e : ellipsoid) (density : R) : res (list vec3) :=
  do (points, rotation, _, a, b, c) <- local_points coordinates e;
  do local <- compute_gravity_ellipsoid points a b c density;
  Ok (map (mv (mT rotation)) local).

(** 31-132 [ellipsoid_gravity]: the three components and the number of warnings. *)
Definition ellipsoid_gravity (coordinates : arr * arr * arr) (ellipsoids : ellipsoids_arg) : res (arr * arr * arr * nat) :=
  let '(c0, c1, c2) := coordinates in
  do cast_shape <- broadcast3 c0 c1 c2;
  let easting := ravel c0 in let northing := ravel c1 in let upward := ravel c2 in
  do (g, warnings) <-
    for_ (as_list ellipsoids) (fun e (state : list vec3 * nat) =>
      let '(g, warnings) := state in
      match ell_density e with
      | None => Ok (g, S warnings)
      | Some density =>
          do gi <- gravity_of_ellipsoid (easting, northing, upward) e density;
          Ok (add_points g gi, warnings)
      end) (map (fun _ => V3 0 0 0) easting, 0%nat);
  do ge <- reshape (map (fun v => vx v * 10 ^ 5) g) cast_shape;
  do gn <- reshape (map (fun v => vy v * 10 ^ 5) g) cast_shape;
  do gz <- reshape (map (fun v => - vz v * 10 ^ 5) g) cast_shape;
  Ok (ge, gn, gz, warnings).

(** ** magnetic.py *)
(** 396-431 [_demag_tensor_triaxial_internal] *)
Definition demag_triaxial_internal (a b c : R) : res (R * R * R) :=
  if negb (Rltb b a && Rltb c b)%bool then Raise ValueError
  else
    let phi := acos (c / a) in
    let k := (a ^ 2 - b ^ 2) / (a ^ 2 - c ^ 2) in
    let ellipk := ellipkinc phi k in
    let ellipe := ellipeinc phi k in
    let a_c_sqrt := sqrt (a ^ 2 - c ^ 2) in
    let nxx := a * b * c / (a_c_sqrt * (a ^ 2 - b ^ 2)) * (ellipk - ellipe) in
    let nyy := - 1 * nxx + a * b * c / (a_c_sqrt * (b ^ 2 - c ^ 2)) * ellipe - c ^ 2 / (b ^ 2 - c ^ 2) in
    let nzz := - 1 * (a * b * c / (a_c_sqrt * (b ^ 2 - c ^ 2))) * ellipe + b ^ 2 / (b ^ 2 - c ^ 2) in
    Ok (nxx, nyy, nzz).

(** 434-455 [_demag_tensor_prolate_internal] *)
Definition demag_prolate_internal (a b : R) : res (R * R * R) :=
  if negb (Rltb b a) then Raise ValueError
  else
    let m := a / b in
    let sqrt_ := sqrt (m ^ 2 - 1) in
    let nxx := 1 / (m ^ 2 - 1) * (m / sqrt_ * ln (m + sqrt_) - 1) in
    let nyy := 1 / 2 * (1 - nxx) in
    Ok (nxx, nyy, nyy).

(** 458-478 [_demag_tensor_oblate_internal] *)
Definition demag_oblate_internal (b c : R) : res (R * R * R) :=
  if negb (Rltb c b) then Raise ValueError
  else
    let m := c / b in
    let nzz := 1 / (1 - m ^ 2) * (1 - m / sqrt (1 - m ^ 2) * acos m) in
    let nxx := 1 / 2 * (1 - nzz) in
    Ok (nxx, nxx, nzz).

(** 351-393 [get_demagnetization_tensor_internal] *)
Definition get_demagnetization_tensor_internal (a b c : R) : res mat3 :=
  do _ <- check_semiaxes_sorted a b c;
  do sphere <- is_almost_a_sphere a b c;
  do n_diagonal <-
    (if sphere then Ok (1 / 3 * 1, 1 / 3 * 1, 1 / 3 * 1)
     else
       do prolate <- is_almost_prolate a b c;
       if prolate then demag_prolate_internal a b
       else
         do oblate <- is_almost_oblate a b c;
         if oblate then demag_oblate_internal b c
         else if (Rltb b a && Rltb c b)%bool then demag_triaxial_internal a b c
         else Raise ValueError);
  let '(nxx, nyy, nzz) := n_diagonal in
  Ok (diag nxx nyy nzz).

(** 591-628 [_spatial_deriv_lambda] *)
Definition spatial_deriv_lambda (p : vec3) (a b c lambda_ : R) : vec3 :=
  let denom := (vx p / (a ^ 2 + lambda_)) ^ 2 + (vy p / (b ^ 2 + lambda_)) ^ 2 + (vz p / (c ^ 2 + lambda_)) ^ 2 in
  V3 (2 * vx p / (a ^ 2 + lambda_) / denom) (2 * vy p / (b ^ 2 + lambda_) / denom) (2 * vz p / (c ^ 2 + lambda_) / denom).

(** The nested loop [for i, j in itertools.product(range(3), range(3))] that fills a tensor. Source: magnetic.py:481-588. *)
Definition fill_tensor (diagonal : (vec3 -> R) -> R) (off_diagonal : (vec3 -> R) -> (vec3 -> R) -> R) : mat3 :=
  M3 (V3 (diagonal vx) (off_diagonal vx vy) (off_diagonal vx vz))
     (V3 (off_diagonal vy vx) (diagonal vy) (off_diagonal vy vz))
     (V3 (off_diagonal vz vx) (off_diagonal vz vy) (diagonal vz)).

(** 481-588 [get_demagnetization_tensor_external], as a function of the point *)
Definition get_demagnetization_tensor_external (a b c : R) : res (vec3 -> mat3) :=
  do sphere <- is_almost_a_sphere a b c;
  if sphere then
    Ok (fun p =>
      let r := sqrt (vx p ^ 2 + vy p ^ 2 + vz p ^ 2) in
      let r5 := r ^ 5 in let r3 := r ^ 3 in
      let factor := - (a ^ 3 / 3) in
      fill_tensor (fun i => factor * (3 * i p ^ 2 / r5 - 1 / r3)) (fun i j => factor * (3 * i p * j p / r5)))
  else
    do lambda_ <- calculate_lambda a b c;
    do integrals <- get_elliptical_integrals a b c;
    do derivatives <- get_derivatives_of_elliptical_integrals a b c;
    Ok (fun p =>
      let l := lambda_ p in
      let '(A, B, C) := integrals l in
      let '(dA, dB, dC) := derivatives l in
      let ellip_integrals := V3 A B C in
      let deriv_ellip_integrals := V3 dA dB dC in
      let derivs_lambda := spatial_deriv_lambda p a b c l in
      fill_tensor
        (fun i => a * b * c / 2 * (i derivs_lambda * i deriv_ellip_integrals * i p + i ellip_integrals))
        (fun i j => a * b * c / 2 * (i derivs_lambda * j deriv_ellip_integrals * j p))).

(** 294-326 [cast_susceptibility] for the values an Ellipsoid can hold *)
Definition cast_susceptibility (s : option susceptibility_t) : mat3 :=
  match s with
  | None => diag 0 0 0
  | Some (Isotropic k) => mscale k eye
  | Some (Tensor m) => m
  end.

(** 329-348 [cast_remanent_magnetization] *)
Definition cast_remanent_magnetization (m : option vec3) : vec3 := match m with None => V3 0 0 0 | Some v => v end.

(** 219-291 [get_magnetisation] *)
Definition get_magnetisation (a b c : R) (susceptibility : mat3) (h0_field remnant_mag : vec3) (n_tensor : option mat3) : res vec3 :=
  do _ <- check_semiaxes_sorted a b c;
  do n_tensor <- match n_tensor with None => get_demagnetization_tensor_internal a b c | Some n => Ok n end;
  let lhs := madd eye (mm n_tensor susceptibility) in
  let rhs := vadd remnant_mag (mv susceptibility h0_field) in
  solve lhs rhs.

Section Magnetic.
(** scipy.constants.mu_0 *)
Variable mu_0 : R.

(** 117-216 [_single_ellipsoid_magnetic] *)
Definition single_ellipsoid_magnetic (coordinates : list R * list R * list R) (e : ellipsoid)
  (susceptibility : option susceptibility_t) (remanent_mag : option vec3) (h0_field : vec3) : res (list vec3) :=
  do (points, rotation, semiaxes_rotation, a, b, c) <- local_points coordinates e;
  do n_internal <- get_demagnetization_tensor_internal a b c;
  let susceptibility := cast_susceptibility susceptibility in
  let remanent_mag := cast_remanent_magnetization remanent_mag in
  let h0_rotated := mv rotation h0_field in
  let remanent_rotated := mv rotation remanent_mag in
  let susceptibility := mm (mm (mT semiaxes_rotation) susceptibility) semiaxes_rotation in
  do magnetization <- get_magnetisation a b c susceptibility h0_rotated remanent_rotated (Some n_internal);
  do n_external <- get_demagnetization_tensor_external a b c;
  let b_field p :=
    if is_internal p a b c
    then vscale mu_0 (vadd (mv (mscale (- 1) n_internal) magnetization) magnetization)
    else vscale mu_0 (mv (mscale (- 1) (n_external p)) magnetization) in
  Ok (map (fun p => mv (mT rotation) (b_field p)) points).

(** 37-114 [ellipsoid_magnetic] *)
Definition ellipsoid_magnetic (coordinates : arr * arr * arr) (ellipsoids : ellipsoids_arg) (inducing_field : vec3) : res (arr * arr * arr * nat) :=
  let '(c0, c1, c2) := coordinates in
  do cast_shape <- broadcast3 c0 c1 c2;
  let easting := ravel c0 in let northing := ravel c1 in let upward := ravel c2 in
  let b0_field := vscale (/ 10 ^ 9) inducing_field in
  let h0_field := V3 (vx b0_field / mu_0) (vy b0_field / mu_0) (vz b0_field / mu_0) in
  do (field, warnings) <-
    for_ (as_list ellipsoids) (fun e (state : list vec3 * nat) =>
      let '(field, warnings) := state in
      match ell_susceptibility e, ell_remanent e with
      | None, None => Ok (field, S warnings)
      | susceptibility, remanent =>
          do bi <- single_ellipsoid_magnetic (easting, northing, upward) e susceptibility remanent h0_field;
          Ok (add_points field bi, warnings)
      end) (map (fun _ => V3 0 0 0) easting, 0%nat);
  do be <- reshape (map (fun v => 10 ^ 9 * vx v) field) cast_shape;
  do bn <- reshape (map (fun v => 10 ^ 9 * vy v) field) cast_shape;
  do bu <- reshape (map (fun v => 10 ^ 9 * vz v) field) cast_shape;
  Ok (be, bn, bu, warnings).
End Magnetic.

(** ** ellipsoids.py 328-391 [Ellipsoid.get_surface]: the raveled points, in row-major order, and the shape *)
Definition get_surface (e : ellipsoid) (lon_size lat_size : nat) : list vec3 * (nat * nat) :=
  let lon_rad := linspace 0 (2 * PI) lon_size in
  let lat_rad := linspace (- PI / 2) (PI / 2) lat_size in
  let grid := meshgrid_ravel lon_rad lat_rad in
  let points := map (fun t => let '(lon, lat) := t in
    V3 (ell_a e * cos lon * cos lat) (ell_b e * sin lon * cos lat) (ell_c e * sin lat)) grid in
  (map (fun p => vadd (mv (rotation_matrix e) p) (ell_center e)) points, (lat_size, lon_size)).
