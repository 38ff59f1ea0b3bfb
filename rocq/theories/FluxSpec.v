(** Vocabulary for integrals of fields over horizontal planes. *)
From Coquelicot Require Import Coquelicot.
From Verif Require Import Base NumPy DistanceModel DistanceSpec PointGravitySpec PointGravityModel.
Local Open Scope string_scope. Local Open Scope R_scope.

(** The integral of a field over a square of a horizontal plane with sides parallel to the axes, 2 L metres long. *)
Definition square_integral (f : R -> R -> R) (L : R) : R := RInt (fun e => RInt (fun n => f e n) (- L) L) (- L) L.

(** Downward gravity in mGal that point_gravity computes for masses at one point. *)
Definition gravity_at (ss : list source) (p : point) : R := returned (point_gravity (coords_of [] [p]) (points_of ss) (masses_of ss) "g_z" "cartesian").

(** Attraction, at the origin, of a plate of given density whose top is at height zero: the sum of point masses of
    density times volume over a square of side 2 L and down to the depth [thickness]. *)
Definition plate (density thickness L : R) : R :=
  RInt (fun z => square_integral (fun e n => gravity_at [((e, n, - z), density)] (0, 0, 0)) L) 0 thickness.
