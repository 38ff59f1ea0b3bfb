(** Specification vocabulary for claim C105: Newton's integral over a tesseroid. *)
From Coquelicot Require Import Coquelicot.
From Verif Require Import Base DistanceModel DistanceSpec PointGravitySpec TesseroidModel TesseroidSpec TesseroidFitSpec.
Local Open Scope string_scope. Local Open Scope list_scope. Local Open Scope R_scope.

(** Integral of [f] over the solid: over longitudes, latitudes (in degrees) and radii with the volume element
    r^2 cos(latitude). *)
Definition solid_integral (f : point -> R) (t : tess) : R :=
  RInt (fun r => RInt (fun lat => RInt (fun lon => f (lon, lat, r) * (r ^ 2 * cos (radians lat)) * (PI / 180) ^ 2)
    (west t) (east t)) (south t) (north t)) (bottom t) (top t).

(** The field at [p] of the solid filled with unit density: the integral of the fields of its elements. *)
Definition newton_solid (field : string) (p : point) (t : tess) : R := solid_integral (fun q => newton_field "spherical" field p (q, 1)) t.

(** Largest value and largest slope of the field of a unit mass at distances not below [delta]. *)
Definition strength (field : string) (delta : R) : R := if String.eqb field "potential" then newton_G / delta else mGal * (newton_G / delta ^ 2).
Definition steepness (field : string) (delta : R) : R := if String.eqb field "potential" then newton_G / delta ^ 2 else mGal * (2 * newton_G / delta ^ 3).

(** Parts of [t] that are small enough for the ratio lie within [rho] of their centres. *)
Definition part_of (x t : tess) : Prop := box x /\ forall q, in_closed x q -> in_closed t q.
Definition resolved (p : point) (ratio : R) (radial : bool) (t : tess) (rho : R) : Prop :=
  forall x q, part_of x t -> small_enough p ratio radial x -> in_closed x q -> eucl (sph_position (centre x)) (sph_position q) <= rho.

(** Half of its height in latitude, and how far its points may be from its centre, from its sizes. *)
Definition half_lat (t : tess) : R := radians (north t - south t) / 2.
Definition spread (t : tess) : R := (top t - bottom t) / 2 + top t * (radians (east t - west t) + radians (north t - south t)) / 2.

(** A tesseroid cut into n parts along each axis. *)
Definition cell (n : nat) (t : tess) (i j k : nat) : tess :=
  let at_ a b m := a + (b - a) / INR n * INR m in
  Tess (at_ (west t) (east t) i) (at_ (west t) (east t) (i + 1)%nat) (at_ (south t) (north t) j) (at_ (south t) (north t) (j + 1)%nat) (at_ (bottom t) (top t) k) (at_ (bottom t) (top t) (k + 1)%nat).
Definition cells (n : nat) (t : tess) : list tess :=
  flat_map (fun i => flat_map (fun j => map (fun k => cell n t i j k) (range 0 n)) (range 0 n)) (range 0 n).
Definition cut_tesseroids (n : nat) (ts : list tess) : list tess := flat_map (cells n) ts.
Definition cut_densities (n : nat) (ds : list R) : list R := flat_map (fun d => repeat d (n * (n * n))) ds.
