(** Vocabulary for how fitted equivalent sources depend on the data, their order and the damping. *)
From Coq Require Import Permutation.
From Verif Require Import Base NumPy DistanceModel DistanceSpec PointGravitySpec LegendreModel EqsModel EqsSpec EqsExactSpec.
Local Open Scope R_scope.

(** [a] times one array plus [b] times another. *)
Definition combination (a : R) (x : list R) (b : R) (y : list R) : list R :=
  map (fun i => a * nth i x 0 + b * nth i y 0) (seq 0 (length x)).

(** No datum has a negative weight. *)
Definition no_negative_weight (n : nat) (w : option (list R)) : Prop := forall i, (i < n)%nat -> 0 <= weight w i.

(** The solver returns a minimiser for every data vector. *)
Definition solves_all (ls : table -> list R -> option (list R) -> option R -> list R) (J : table) (w : option (list R)) (damping : option R) : Prop :=
  forall d, length d = rows J -> solves ls J d w damping.

(** The same survey in another order. *)
Definition an_arrangement (p : list nat) (n : nat) : Prop := Permutation p (seq 0 n).
Definition rearranged_weights (w : option (list R)) (p : list nat) : option (list R) := option_map (fun l => chosen 0 l p) w.

(** The weighted sum of squares of an array, and the scaled size of coefficients that the damping acts on. *)
Definition energy (w : option (list R)) (d : list R) : R := sum_over (range 0 (length d)) (fun i => weight w i * nth i d 0 ^ 2).
Definition scaled_size (J : table) (c : list R) : R := sum_over (range 0 (cols J)) (fun j => (column_std J j * nth j c 0) ^ 2).
