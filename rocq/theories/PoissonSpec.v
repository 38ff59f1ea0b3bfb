(** Statement vocabulary for claim C110 (dipoles, equivalent sources and point masses). *)
From Verif Require Import Base NumPy DistanceModel DistanceSpec PointGravitySpec PrismSpec.
Local Open Scope string_scope. Local Open Scope R_scope.

(** The field of point_gravity that holds the second derivatives of the potential along two axes (its vertical
    axis points down, src/harmonica/_forward/point.py:55-95). *)
Definition tensor_name (a b : enu) : string :=
  match a, b with
  | AE, AE => "g_ee" | AE, AN => "g_en" | AE, AU => "g_ez"
  | AN, AE => "g_ne" | AN, AN => "g_nn" | AN, AU => "g_nz"
  | AU, AE => "g_ze" | AU, AN => "g_zn" | AU, AU => "g_zz"
  end.
(** +1 for horizontal axes; -1 for the vertical axis, upward for dipoles and downward for masses. *)
Definition axis_sign (a : enu) : R := match a with AU => -1 | _ => 1 end.

(** Point masses where the dipoles are, each with one component of the moment for its mass. *)
Definition masses_for (a : enu) (dms : list (point * vec3)) : list source := map (fun dm => (fst dm, comp a (snd dm))) dms.
