(** Vocabulary for enlarging tesseroids (claim C112). *)
From Verif Require Import Base NumPy DistanceModel PointGravitySpec TesseroidModel.
Local Open Scope string_scope. Local Open Scope R_scope.

(** All radii multiplied by [k]; the angles stay. *)
Definition enlarge_point (k : R) (p : point) : point := (fst3 p, snd3 p, k * thd3 p).
Definition enlarge_tess (k : R) (t : tess) : tess := Tess (west t) (east t) (south t) (north t) (k * bottom t) (k * top t).

(** How a field of a body of the same density grows with its size. *)
Definition growth (field : string) (k : R) : R := if String.eqb field "potential" then k ^ 2 else k.

(** The same outcome with all numbers multiplied by [c]. *)
Definition times_result (c : R) (r : res arr) : res arr :=
  match r with Ok a => Ok (Arr (shape a) (map (Rmult c) (data a))) | Raise e => Raise e end.
