(** Specification vocabulary for claim C107: a whole spherical shell. *)
From Coquelicot Require Import Coquelicot.
From Verif Require Import Base DistanceModel DistanceSpec PointGravitySpec TesseroidModel TesseroidSpec.
Local Open Scope string_scope. Local Open Scope list_scope. Local Open Scope R_scope.

(** The shell between two radii, as two tesseroids (one per hemisphere of longitudes). *)
Definition shell (r1 r2 : R) : list tess := [Tess 0 180 (-90) 90 r1 r2; Tess 180 360 (-90) 90 r1 r2].
(** Its mass when the density depends on the radius. *)
Definition shell_mass (rho : R -> R) (r1 r2 : R) : R := RInt (fun r => 4 * PI * r ^ 2 * rho r) r1 r2.
(** The points of the cavity and those above, at least [delta] away from the shell. *)
Definition in_cavity (delta r1 : R) (p : point) : Prop := 0 < thd3 p /\ thd3 p + delta <= r1.
Definition above_shell (delta r2 : R) (p : point) : Prop := r2 + delta <= thd3 p.
