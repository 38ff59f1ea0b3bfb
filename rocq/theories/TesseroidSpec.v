(** Specification vocabulary for tesseroids. *)
From Verif Require Import Base DistanceModel DistanceSpec TesseroidModel.

(** Boundaries are in their documented intervals (before looking at west and east together). *)
Definition bounds_ok (t : tess) : Prop :=
  -90 <= south t <= 90 /\ -90 <= north t <= 90 /\ south t <= north t /\
  0 <= bottom t <= top t /\ -180 <= west t <= 360 /\ -180 <= east t <= 360.

(** [t'] is [t], with both longitudes brought to [-180, 180) by whole turns if west > east. *)
Definition moved (t t' : tess) : Prop :=
  (west t <= east t /\ t' = t) \/
  (west t > east t /\
   (exists k, west t' = west t + 360 * IZR k) /\ -180 <= west t' < 180 /\
   (exists k, east t' = east t + 360 * IZR k) /\ -180 <= east t' < 180 /\
   south t' = south t /\ north t' = north t /\ bottom t' = bottom t /\ top t' = top t).

Definition width_ok (t : tess) : Prop := west t <= east t /\ east t - west t <= 360.

(** Longitude [lon] is met when going from meridian [w] eastward to meridian [e] (less than a turn). *)
Definition on_eastward_arc (w e lon : R) : Prop :=
  exists a b, 0 <= a <= b /\ b < 360 /\ (exists k, e = w + b + 360 * IZR k) /\ (exists k, lon = w + a + 360 * IZR k).

(** A point is strictly inside a tesseroid, its longitude taken modulo whole turns. *)
Definition inside (p : point) (t : tess) : Prop :=
  let '(lon, lat, r) := p in
  (exists k, west t < lon + 360 * IZR k < east t) /\ south t < lat < north t /\ bottom t < r < top t.

(** The coordinate box of a tesseroid, closed and open, and its volume
    (integral of r^2 cos(lat) over the box). *)
Definition in_closed (t : tess) (p : point) : Prop :=
  let '(lon, lat, r) := p in west t <= lon <= east t /\ south t <= lat <= north t /\ bottom t <= r <= top t.
Definition in_open (t : tess) (p : point) : Prop :=
  let '(lon, lat, r) := p in west t < lon < east t /\ south t < lat < north t /\ bottom t < r < top t.
Definition volume (t : tess) : R :=
  (radians (east t) - radians (west t)) * (sin (radians (north t)) - sin (radians (south t)))
  * (top t ^ 3 - bottom t ^ 3) / 3.

Definition box (t : tess) : Prop := west t <= east t /\ south t <= north t /\ bottom t <= top t.
Definition fat (t : tess) : Prop := west t < east t /\ south t < north t /\ bottom t < top t.

(** Tesseroids [l] tile tesseroid [t]. *)
Record tiles (l : list tess) (t : tess) : Prop := {
  tiles_cover : forall p, in_closed t p -> exists x, In x l /\ in_closed x p;
  tiles_inside : forall x p, In x l -> in_closed x p -> in_closed t p;
  tiles_disjoint : ForallOrdPairs (fun x y => forall p, ~ (in_open x p /\ in_open y p)) l;
  tiles_volume : sum_over l volume = volume t;
}.

(** Sizes of a tesseroid: great-circle distances at its top between the middles of its west and east
    sides, and between its south and north sides; and its thickness. *)
Definition great_circle (r : R) (p q : point) : R := r * acos (dot (sph_position p) (sph_position q)).
Definition mid_lat (t : tess) : R := (south t + north t) / 2.
Definition size_lon (t : tess) : R := great_circle (top t) (west t, mid_lat t, 1) (east t, mid_lat t, 1).
Definition size_lat (t : tess) : R := great_circle (top t) (west t, south t, 1) (west t, north t, 1).
Definition size_rad (t : tess) : R := top t - bottom t.
Definition centre (t : tess) : point := ((west t + east t) / 2, (south t + north t) / 2, (bottom t + top t) / 2).
Definition distance_to (p : point) (t : tess) : R := eucl (sph_position p) (sph_position (centre t)).

(** The small tesseroids returned by the discretisation. *)
Definition returned_tesseroids (st : ad_state) : list tess := firstn (n_splits st) (small st).

(** The eight Gauss-Legendre point masses of a tesseroid of density [d]: half-way-from-centre-to-face
    times 1/sqrt 3 along each axis, with mass d * r^2 cos(lat) * (eighth of the coordinate volume). *)
Definition glq_source (t : tess) (d a b c : R) : point * R :=
  let lon := (west t + east t) / 2 + a * ((east t - west t) / 2) / sqrt 3 in
  let lat := (south t + north t) / 2 + b * ((north t - south t) / 2) / sqrt 3 in
  let r := (bottom t + top t) / 2 + c * ((top t - bottom t) / 2) / sqrt 3 in
  ((lon, lat, r),
   d * (r ^ 2 * cos (radians lat)) * (radians (east t - west t) * radians (north t - south t) * (top t - bottom t)) / 8).
Definition glq_sources (t : tess) (d : R) : list (point * R) :=
  flat_map (fun b => flat_map (fun c => map (fun a => glq_source t d a b c) [-1; 1]) [-1; 1]) [-1; 1].

(** A tesseroid without volume or mass. *)
Definition null (t : tess) (d : R) : Prop := west t = east t \/ south t = north t \/ bottom t = top t \/ d = 0.
