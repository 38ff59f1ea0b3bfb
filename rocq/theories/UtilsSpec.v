(** Specification vocabulary for magnetic directions, Bouguer slabs and isostatic columns. *)
From Coquelicot Require Import Coquelicot.
From Verif Require Import Base NumPy PointGravitySpec UtilsModel.
Local Open Scope R_scope.

(** Unit vector (easting, northing, upward) of an inclination (positive down) and declination (positive
    east), in degrees. *)
Definition direction (inclination declination : R) : vec3 :=
  V3 (cos (radians inclination) * sin (radians declination)) (cos (radians inclination) * cos (radians declination)) (- sin (radians inclination)).

(** Downward attraction at the centre of the top of a cylinder of radius [r], height [h] and density [rho]:
    sum over its depths and rings of G dm cos/d^2. *)
Definition cylinder_attraction (rho h r : R) : R :=
  RInt (fun z => RInt (fun x => newton_G * rho * (2 * PI * x) * z / sqrt (x ^ 2 + z ^ 2) ^ 3) 0 r) 0 h.

(** Elements of a value broadcast to [n] elements; a value that fits [n] elements. *)
Definition elt_of (v : value) (n i : nat) : R := match v with Sc x => x | IntArr l | FloatArr l => nth i l 0 end.
Definition fits (n : nat) (v : value) : Prop := match v with Sc _ => True | IntArr l | FloatArr l => length l = n end.
Definition no_integer_array (v : value) : Prop := match v with IntArr _ => False | _ => True end.
Definition layer_list (layers : option (list (value * value))) := match layers with None => [] | Some ls => ls end.
(** Mass per unit area of a column down to [depth]: layers on top, crust from the basement down to the Moho,
    mantle below. *)
Definition column_mass (layers : list (R * R)) (basement density_crust moho density_mantle depth : R) : R :=
  sum_over layers (fun td => fst td * snd td) + density_crust * (basement + moho) + density_mantle * (depth - moho).
