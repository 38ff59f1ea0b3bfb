(** Notions used to state the properties of ellipsoids. *)
From Coquelicot Require Import Coquelicot.
From Verif Require Import Base NumPy EllipsoidModel.
Local Open Scope R_scope.

(** Rigid rotations: length and orientation are preserved. *)
Definition orthogonal (m : mat3) : Prop := mm m (mT m) = eye /\ mm (mT m) m = eye.

(** The quadratic form x²/a² + y²/b² + z²/c² of an ellipsoid with axes along the coordinate axes. *)
Definition level (a b c : R) (p : vec3) : R := vx p ^ 2 / a ^ 2 + vy p ^ 2 / b ^ 2 + vz p ^ 2 / c ^ 2.

(** Coordinates of a point along the ellipsoid's own axes, measured from its centre. *)
Definition own_coordinates (e : ellipsoid) (p : vec3) : vec3 := mv (mT (rotation_matrix e)) (vsub p (ell_center e)).

(** The semi-axes of the ellipsoid are positive. *)
Definition positive_axes (e : ellipsoid) : Prop := 0 < ell_a e /\ 0 < ell_b e /\ 0 < ell_c e.

(** The point lies on the confocal ellipsoid with squared semi-axes a² + l, b² + l, c² + l. *)
Definition confocal (a b c l : R) (p : vec3) : Prop :=
  vx p ^ 2 / (a ^ 2 + l) + vy p ^ 2 / (b ^ 2 + l) + vz p ^ 2 / (c ^ 2 + l) = 1.

(** Sorted positive semi-axes. *)
Definition sorted_axes_prop (a b c : R) : Prop := 0 < c /\ c <= b /\ b <= a.

(** Semi-axes that are either equal or differ by at least the relative tolerance of the code. *)
Definition distinct_enough (a b : R) : Prop := a = b \/ / 10 ^ 5 * a <= a - b.
Definition well_shaped (a b c : R) : Prop := sorted_axes_prop a b c /\ distinct_enough a b /\ distinct_enough b c.

(** The integrand 1 / ((e² + u) R(u)) with R(u) = sqrt ((a² + u) (b² + u) (c² + u)) *)
Definition integrand (a b c e u : R) : R := / ((e ^ 2 + u) * sqrt ((a ^ 2 + u) * (b ^ 2 + u) * (c ^ 2 + u))).

(** [v] is the improper integral of the integrand from [l] to infinity. *)
Definition improper (a b c e l v : R) : Prop :=
  is_RInt_gen (integrand a b c e) (at_point l) (Rbar_locally p_infty) v.

Definition trace (m : mat3) : R := vx (row1 m) + vy (row2 m) + vz (row3 m).
Definition symmetric (m : mat3) : Prop := mT m = m.

(** Continuity of a vector field at a point. *)
Definition continuous_at (f : vec3 -> vec3) (p : vec3) : Prop :=
  forall eps, 0 < eps -> exists d, 0 < d /\ forall q, eucl p q < d -> eucl (f p) (f q) < eps.

(** The rate of change of [f] at [p] along any direction [u] is [g . u]. *)
Definition has_gradient (f : vec3 -> R) (p g : vec3) : Prop :=
  forall u, is_derive (fun t => f (vadd p (vscale t u))) 0 (dot g u).

(** The rows of [J] are the gradients of the components of [f]. *)
Definition has_jacobian (f : vec3 -> vec3) (p : vec3) (J : mat3) : Prop :=
  has_gradient (fun q => vx (f q)) p (row1 J) /\ has_gradient (fun q => vy (f q)) p (row2 J) /\ has_gradient (fun q => vz (f q)) p (row3 J).

(** Observation points as three arrays of the same shape. *)
Definition coordinates_of (sh : list nat) (ps : list vec3) : arr * arr * arr :=
  (Arr sh (map vx ps), Arr sh (map vy ps), Arr sh (map vz ps)).
(** Three arrays with the components of a gravity field [g] in SI units: easting, northing and downward, in mGal. *)
Definition gravity_arrays (sh : list nat) (g : vec3 -> vec3) (ps : list vec3) : arr * arr * arr :=
  (Arr sh (map (fun p => vx (g p) * 10 ^ 5) ps), Arr sh (map (fun p => vy (g p) * 10 ^ 5) ps), Arr sh (map (fun p => - vz (g p) * 10 ^ 5) ps)).
(** Three arrays with the components of a magnetic field [B] in tesla, in nT. *)
Definition magnetic_arrays (sh : list nat) (B : vec3 -> vec3) (ps : list vec3) : arr * arr * arr :=
  (Arr sh (map (fun p => 10 ^ 9 * vx (B p)) ps), Arr sh (map (fun p => 10 ^ 9 * vy (B p)) ps), Arr sh (map (fun p => 10 ^ 9 * vz (B p)) ps)).

(** Any two semi-axes are equal or differ by at least the relative tolerance of the code. *)
Definition well_proportioned (e : ellipsoid) : Prop :=
  positive_axes e /\
  forall x y, In x [ell_a e; ell_b e; ell_c e] -> In y [ell_a e; ell_b e; ell_c e] -> y <= x -> distinct_enough x y.

(** Position relative to the body, whatever the order of its semi-axes. *)
Definition body_level (e : ellipsoid) (p : vec3) : R := level (ell_a e) (ell_b e) (ell_c e) (own_coordinates e p).

(** Outward normal (not normalised) of the level surface of the body through [p]. *)
Definition body_normal (e : ellipsoid) (p : vec3) : vec3 :=
  mv (rotation_matrix e)
     (V3 (vx (own_coordinates e p) / ell_a e ^ 2) (vy (own_coordinates e p) / ell_b e ^ 2) (vz (own_coordinates e p) / ell_c e ^ 2)).

(** The inducing field H0 in A/m of a field [F] = mu_0 H0 given in nT. *)
Definition h0_of (mu_0 : R) (F : vec3) : vec3 := vscale (/ mu_0) (vscale (/ 10 ^ 9) F).

(** A motion of space: [A] turns (or mirrors, when its determinant is -1) and [t] shifts. *)
Definition motion (A : mat3) (t p : vec3) : vec3 := vadd (mv A p) t.
(** The motion carries the solid described by [e] onto the solid described by [e']. *)
Definition carries (A : mat3) (t : vec3) (e e' : ellipsoid) : Prop :=
  positive_axes e /\ positive_axes e' /\ forall p, body_level e' (motion A t p) <= 1 <-> body_level e p <= 1.
(** The susceptibility tensor of a body in the frame of the coordinates, and its remanent magnetisation. *)
Definition world_susceptibility (e : ellipsoid) : mat3 :=
  mm (mm (rotation_matrix e)
         (match ell_susceptibility e with None => diag 0 0 0 | Some (Isotropic k) => diag k k k | Some (Tensor m) => m end))
     (mT (rotation_matrix e)).
Definition world_remanent (e : ellipsoid) : vec3 := match ell_remanent e with None => V3 0 0 0 | Some v => v end.
(** The magnetic properties of [e'] are those of [e] after the motion, and are given by the user alike. *)
Definition magnetised_alike (A : mat3) (e e' : ellipsoid) : Prop :=
  (ell_susceptibility e' = None <-> ell_susceptibility e = None) /\ (ell_remanent e' = None <-> ell_remanent e = None) /\
  world_susceptibility e' = mm (mm A (world_susceptibility e)) (mT A) /\ world_remanent e' = mv A (world_remanent e).
