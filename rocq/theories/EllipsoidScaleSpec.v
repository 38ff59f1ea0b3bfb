(** Vocabulary for enlarging ellipsoids (claim C113). *)
From Verif Require Import Base EllipsoidModel.
Local Open Scope R_scope.

(** The same body with all lengths multiplied by [k] about the origin of coordinates. *)
Definition enlarge (k : R) (e : ellipsoid) : ellipsoid :=
  Ell (k * ell_a e) (k * ell_b e) (k * ell_c e) (ell_yaw e) (ell_pitch e) (ell_roll e) (vscale k (ell_center e))
      (ell_density e) (ell_susceptibility e) (ell_remanent e).
Definition enlarge_arg (k : R) (x : ellipsoids_arg) : ellipsoids_arg :=
  match x with Single e => Single (enlarge k e) | Several l => Several (map (enlarge k) l) end.
