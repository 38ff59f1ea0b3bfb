(** Vocabulary for surveys that equivalent sources reproduce exactly. *)
From Verif Require Import Base DistanceModel DistanceSpec PointGravitySpec LegendreModel EqsModel EqsSpec.
Local Open Scope R_scope.

(** Distinct places at the same height, or the same radius. *)
Definition level (place : point -> vec3) (h : R) (ds : list point) : Prop :=
  (forall p, In p ds -> thd3 p = h) /\ NoDup (map place ds).

(** Every datum has a positive weight. *)
Definition weighted_data (n : nat) (w : option (list R)) : Prop := forall i, (i < n)%nat -> 0 < weight w i.

(** The solver returns coefficients with the smallest objective for the system it is given. *)
Definition solves (ls : table -> list R -> option (list R) -> option R -> list R) (J0 : table) (d : list R) (w : option (list R)) (damping : option R) : Prop :=
  forall J, same_entries J J0 -> minimises (objective J d w damping) (cols J0) (ls J d w damping).
