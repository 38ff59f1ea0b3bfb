(** Vocabulary for mirroring spherical sources and observation points (claim C111). *)
From Verif Require Import Base DistanceModel PointGravitySpec TesseroidModel TesseroidTurnSpec.
Local Open Scope R_scope.

(** Mirror images across the Greenwich meridian (if [ew]) and across the equator (if [ns]). *)
Definition mirror_point (ew ns : bool) (p : point) : point :=
  (if ew then - fst3 p else fst3 p, if ns then - snd3 p else snd3 p, thd3 p).
Definition mirror_tess (ew ns : bool) (t : tess) : tess :=
  Tess (if ew then - east t else west t) (if ew then - west t else east t)
       (if ns then - north t else south t) (if ns then - south t else north t) (bottom t) (top t).

(** The mirror image, then moved east by [a] degrees (a mirror across any other meridian), longitudes written in any
    convention, or both longitudes of a tesseroid in the same one. *)
Definition image_point ew ns (a : R) (p q : point) : Prop := turned_point a (mirror_point ew ns p) q.
Definition image_tess ew ns (a : R) (t u : tess) : Prop := turned_tess a (mirror_tess ew ns t) u.
Definition image_tess_together ew ns (a : R) (t u : tess) : Prop := shifted_tess a (mirror_tess ew ns t) u.

(** Two calls with the same outcome, unless a buffer of the discretisation overflows in one of them. *)
Definition same_or_overflow {A} (x y : res A) : Prop := x = y \/ x = Raise OverflowError \/ y = Raise OverflowError.
