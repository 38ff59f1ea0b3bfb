(** Specification vocabulary for claim C98: which tesseroids the buffers of the discretisation can resolve. *)
From Verif Require Import Base DistanceModel DistanceSpec TesseroidModel TesseroidSpec.
Local Open Scope string_scope. Local Open Scope R_scope.

(** The distance-size ratios of the two fields: 1 for the potential, 5/2 for the acceleration. *)
Definition ratio_of_field (field : string) (ratio : R) : Prop := (field = "potential" /\ ratio = 1) \/ (field = "g_z" /\ ratio = 5 / 2).

(** Point [p] is at least [delta] away from all points of a tesseroid. *)
Definition clear_of (delta : R) (t : tess) (p : point) : Prop := forall q, in_closed t q -> delta <= eucl (sph_position p) (sph_position q).

(** Halving a tesseroid [a], [b] and [c] times along its three axes makes its sides at its top, times the
    ratio, as small as [delta]. *)
Definition halvings (ratio delta : R) (radial : bool) (t : tess) (a b c : nat) : Prop :=
  ratio * (top t * radians (east t - west t)) <= 2 ^ a * delta /\
  ratio * (top t * radians (north t - south t)) <= 2 ^ b * delta /\
  (radial = true -> ratio * (top t - bottom t) <= 2 ^ c * delta).

(** Boundaries in the documented intervals, each lower one below the upper one, less than a turn wide. *)
Definition proper (t : tess) : Prop := 0 < east t - west t < 360 /\ -90 <= south t < north t /\ north t <= 90 /\ 0 <= bottom t < top t.

(** The largest size, times the ratio, is not larger than the distance to the centre. *)
Definition small_enough (p : point) (ratio : R) (radial : bool) (x : tess) : Prop :=
  ratio * size_lon x <= distance_to p x /\ ratio * size_lat x <= distance_to p x /\ (radial = true -> ratio * size_rad x <= distance_to p x).
