(** Vocabulary for the windows of gradient-boosted equivalent sources. *)
From Verif Require Import Base DistanceModel DistanceSpec PointGravitySpec LegendreModel EqsModel EqsSpec.
Local Open Scope R_scope.

(** A horizontal position inside a region, boundaries included. *)
Definition inside (reg : region) (x y : R) : Prop := let '(w, e, s, n) := reg in w <= x <= e /\ s <= y <= n.

(** A horizontal position inside the square window around a centre. *)
Definition held (size : R) (centre : R * R) (x y : R) : Prop := Rabs (x - fst centre) <= size / 2 /\ Rabs (y - snd centre) <= size / 2.

(** What [rolling_window] has to do: the centres depend on the region, the size and the overlap only;
    the squares around them cover the region; the positions in each window are those of the points
    the square holds. *)
Definition cuts_squares (rw : list R -> list R -> region -> R -> R -> res (list (list nat))) : Prop :=
  exists centres : region -> R -> R -> list (R * R), forall xs ys reg size overlap ws, rw xs ys reg size overlap = Ok ws ->
    length ws = length (centres reg size overlap) /\
    (forall x y, inside reg x y -> exists c, In c (centres reg size overlap) /\ held size c x y) /\
    (forall k i, (k < length ws)%nat -> (In i (nth k ws []) <-> (i < length xs)%nat /\ held size (nth k (centres reg size overlap) (0, 0)) (nth i xs 0) (nth i ys 0))).

(** Two points on the same vertical line. *)
Definition same_vertical (p q : point) : Prop := fst3 p = fst3 q /\ snd3 p = snd3 q.

(** The side of the windows in metres; the default holds 5000 data if they are spread evenly. *)
Definition side (win : window_arg) (reg : region) (ndata : nat) (size : R) : Prop :=
  match win with
  | WindowNumber x => size = x
  | WindowString _ => let '(w, e, s, n) := reg in 0 <= size /\ INR ndata * (size * size) = 5000 * ((e - w) * (n - s))
  end.
