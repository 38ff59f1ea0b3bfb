(** Specification vocabulary for claim C108: a body of concentric layers, as tesseroids and as ellipsoids. *)
From Verif Require Import Base NumPy DistanceModel DistanceSpec PointGravitySpec TesseroidModel TesseroidSpec EllipsoidModel EllipsoidSpec ShellSpec.
Local Open Scope list_scope. Local Open Scope R_scope.

(** A layer: its inner and outer radius and its density. *)
Record layer := Layer { inner_radius : R; outer_radius : R; layer_density : R }.
Definition layer_ok (l : layer) : Prop := 0 <= inner_radius l < outer_radius l.
(** Its tesseroids with their densities. *)
Definition layer_tesseroids (l : layer) : list tess := shell (inner_radius l) (outer_radius l).
Definition layer_densities (l : layer) : list R := [layer_density l; layer_density l].
(** Its ellipsoids: the ball of the outer radius, and the cavity as a ball of the opposite density. *)
Definition ball (r d : R) : ellipsoid := Ell r r r 0 0 0 (V3 0 0 0) (Some d) None None.
Definition layer_balls (l : layer) : list ellipsoid :=
  ball (outer_radius l) (layer_density l) :: (if Req_EM_T (inner_radius l) 0 then [] else [ball (inner_radius l) (- layer_density l)]).
(** The mass of the layer closer to the centre than [r]. *)
Definition mass_below (r : R) (l : layer) : R :=
  layer_density l * (4 / 3 * PI * (Rmin r (outer_radius l) ^ 3 - Rmin r (inner_radius l) ^ 3)).
(** The point lies at least [delta] outside of the layer. *)
Definition off_layer (delta : R) (p : point) (l : layer) : Prop := in_cavity delta (inner_radius l) p \/ above_shell delta (outer_radius l) p.
(** The k-th values of easting, northing and downward components: the vector they stand for. *)
Definition vector_at (g : arr * arr * arr) (k : nat) : vec3 :=
  let '(ge, gn, gz) := g in V3 (nth k (data ge) 0) (nth k (data gn) 0) (- nth k (data gz) 0).
