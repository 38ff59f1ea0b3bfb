(** Rounding: what the claims about floating point results assume of it, and rounding to 53 bits. *)
From Verif Require Import Base DistanceModel.
Local Open Scope R_scope.

(** The relative error of one rounding is at most [u]. *)
Definition standard (u : R) (fl : R -> R) : Prop := forall x, Rabs (fl x - x) <= u * Rabs x.

(** Rounding to the nearest number with 53 binary digits, ties to even, as IEEE-754 binary64 without
    bounds on the exponent. *)
Definition exponent (x : R) : Z := Int_part (ln (Rabs x) / ln 2).
Definition ulp (x : R) : R := powerRZ 2 (exponent x - 52).
Definition nearest_even (y : R) : Z :=
  let n := Int_part y in
  if Rltb (y - IZR n) (/ 2) then n else if Rltb (/ 2) (y - IZR n) then (n + 1)%Z else if Z.even n then n else (n + 1)%Z.
Definition binary53 (x : R) : R := if Reqb x 0 then 0 else IZR (nearest_even (x / ulp x)) * ulp x.

(** Spherical coordinates as geographers write them. *)
Definition geographic (p : point) : Prop := let '(lon, lat, r) := p in Rabs lon <= 360 /\ Rabs lat <= 90 /\ 0 <= r.
