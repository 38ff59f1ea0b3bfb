(** Vocabulary for turning sources and observation points about the polar axis. *)
From Verif Require Import Base DistanceModel PointGravitySpec TesseroidModel.

(** Longitude [y] is longitude [x] moved east by [a] degrees, up to whole turns. *)
Definition turned (a x y : R) : Prop := exists k, y = x + a + 360 * IZR k.

Definition turned_point (a : R) (p q : point) : Prop :=
  turned a (fst3 p) (fst3 q) /\ snd3 q = snd3 p /\ thd3 q = thd3 p.

(** The same cell of the sphere written down after the turn: each longitude may be given in its own
    convention.  Cells whose two meridians coincide (empty cells and whole shells) are told apart only by
    the difference of the two numbers, so there both numbers have to follow the same convention. *)
Definition turned_tess (a : R) (t u : tess) : Prop :=
  (exists j k, west u = west t + a + 360 * IZR j /\ east u = east t + a + 360 * IZR k /\
     (j = k \/ forall n, east t - west t <> 360 * IZR n)) /\
  south u = south t /\ north u = north t /\ bottom u = bottom t /\ top u = top t.

(** The same, with both longitudes in the same convention. *)
Definition shifted_tess (a : R) (t u : tess) : Prop :=
  (exists k, west u = west t + a + 360 * IZR k /\ east u = east t + a + 360 * IZR k) /\
  south u = south t /\ north u = north t /\ bottom u = bottom t /\ top u = top t.
