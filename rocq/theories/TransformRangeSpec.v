(** Vocabulary for claim C115: smoothing keeps to the range of the values of a grid. *)
From Verif Require Import Base NumPy TransformModel TransformSpec.
Local Open Scope R_scope.

(** All values of a grid lie between two numbers. *)
Definition between (lo hi : R) (g : grid) : Prop := forall i j, inside g i j -> lo <= val g i j <= hi.
(** The values change along one of the two directions only. *)
Definition changes_eastward (g : grid) : Prop := forall i i' j, inside g i j -> inside g i' j -> val g i j = val g i' j.
Definition changes_northward (g : grid) : Prop := forall i j j', inside g i j -> inside g i j' -> val g i j = val g i j'.
