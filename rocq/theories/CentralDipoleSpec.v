(** Specification vocabulary for claim C109: the part of degree one of the main field is a dipole's field. *)
From Verif Require Import Base NumPy DistanceModel DistanceSpec LegendreModel LegendreSpec IgrfModel EllipsoidModel.
Local Open Scope list_scope. Local Open Scope R_scope.

(** Where a point given by geodetic coordinates lies, in Cartesian geocentric coordinates. *)
Definition place (convert : R -> R -> R * R) (pt : R * R * R) : vec3 :=
  let '(lon, lat, height) := pt in let (lat_sph, radius) := convert lat height in sph_position (lon, lat_sph, radius).
Definition as_point (v : vec3) : point := (vx v, vy v, vz v).
(** The vector whose components towards east, north and the zenith at a longitude and latitude are given. *)
Definition vector_there (lon lat : R) (b : R * R * R) : vec3 :=
  let '(e, n, u) := b in let l := radians lon in let p := radians lat in
  vadd (vscale e (V3 (- sin l) (cos l) 0))
    (vadd (vscale n (V3 (- sin p * cos l) (- sin p * sin l) (cos p))) (vscale u (V3 (cos p * cos l) (cos p * sin l) (sin p)))).
(** Gauss coefficients without terms of higher degrees. *)
Definition only_dipole (N : nat) (g h : table) : Prop := forall n m, (2 <= n <= N)%nat -> (m <= n)%nat -> ent g n m = 0 /\ ent h n m = 0.
(** The moment of the central dipole for coefficients in nanotesla and a reference radius of 6371.2 km. *)
Definition central_moment (mu0 : R) (g h : table) : vec3 :=
  vscale (4 * PI * 6371200 ^ 3 / (mu0 * 10 ^ 9)) (V3 (ent g 1 1) (ent h 1 1) (ent g 1 0)).
(** A ball around the centre of the Earth with a remanent magnetisation. *)
Definition magnet (r : R) (M : vec3) : ellipsoid := Ell r r r 0 0 0 (V3 0 0 0) None None (Some M).
