(** Vocabulary for the field that equivalent sources stand for and for moving a survey. *)
From Verif Require Import Base NumPy DistanceModel DistanceSpec PointGravitySpec LegendreModel EqsModel EqsSpec.
Local Open Scope R_scope.

(** Point masses whose potential a source with the given coefficients stands for. *)
Definition masses (coefs : list R) : list R := map (fun c => c / newton_G) coefs.

(** The number predicted at one point ([0] if the call fails). *)
Definition value (self : eqs) (p : point) : R := returned (predict self (coords_of [] [p])).

(** Three arrays of coordinates with a number added to each array. *)
Definition plus_arr (x : R) (a : arr) : arr := Arr (shape a) (map (fun y => y + x) (data a)).
Definition move_arrs (v : vec3) (c : arr * arr * arr) : arr * arr * arr :=
  let '(a, b, d) := c in (plus_arr (vx v) a, plus_arr (vy v) b, plus_arr (vz v) d).
Definition move_lists (v : vec3) (c : coords) : coords :=
  let '(a, b, d) := c in (map (fun y => y + vx v) a, map (fun y => y + vy v) b, map (fun y => y + vz v) d).

(** An estimator whose sources, custom or fitted, are moved. *)
Definition move_eqs (v : vec3) (self : eqs) : eqs :=
  Eqs (damping self) (option_map (move_arrs v) (points self)) (depth self) (block_size self) (dt self)
      (option_map (move_lists v) (points_ self)) (coefs_ self) (depth_ self).
Definition turn_sph (a : R) (self : sph) : sph :=
  Sph (s_damping self) (option_map (move_arrs (V3 a 0 0)) (s_points self)) (relative_depth self)
      (option_map (move_lists (V3 a 0 0)) (s_points_ self)) (s_coefs_ self).

(** The result of the same call, with the object moved. *)
Definition mapped {A B} (f : A -> B) (r : res A) : res B := match r with Ok x => Ok (f x) | Raise e => Raise e end.

(** What is asked of the external functions: block averages move with the data, distances between
    neighbours and the division into windows do not depend on where the points are. *)
Definition average_moves (avg : R -> coords -> coords) : Prop := forall s v c, avg s (move_lists v c) = move_lists v (avg s c).
Definition neighbours_stay (nd : list R -> list R -> res (list R)) : Prop :=
  forall x y a b, nd (map (fun t => t + a) x) (map (fun t => t + b) y) = nd x y.
Definition windows_stay (rw : list R -> list R -> region -> R -> R -> res (list (list nat))) : Prop :=
  forall x y w e s n a b size overlap,
    rw (map (fun t => t + a) x) (map (fun t => t + b) y) (w + a, e + a, s + b, n + b) size overlap = rw x y (w, e, s, n) size overlap.
