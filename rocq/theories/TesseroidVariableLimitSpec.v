(** Specification vocabulary for claim C106: Newton's integral over tesseroids whose density depends on the radius. *)
From Coquelicot Require Import Coquelicot.
From Verif Require Import Base DistanceModel DistanceSpec PointGravitySpec TesseroidModel TesseroidSpec TesseroidFitSpec TesseroidLimitSpec.
Local Open Scope string_scope. Local Open Scope list_scope. Local Open Scope R_scope.

(** The field at [p] of the solid whose density at radius r is [rho r]. *)
Definition newton_solid_of (field : string) (p : point) (rho : R -> R) (t : tess) : R :=
  solid_integral (fun q => rho (thd3 q) * newton_field "spherical" field p (q, 1)) t.

(** Between the bottom and the top of [t] the density is at most [m] in size and changes by at most [s] per unit of radius. *)
Definition tame (rho : R -> R) (t : tess) (m s : R) : Prop :=
  0 <= m /\ 0 <= s /\ (forall r, bottom t <= r <= top t -> Rabs (rho r) <= m) /\
  forall r r', bottom t <= r <= top t -> bottom t <= r' <= top t -> Rabs (rho r - rho r') <= s * Rabs (r - r').
