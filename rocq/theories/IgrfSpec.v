(** Definitions used to state the claims about igrf.py. *)
From Coq Require Import Ascii.
From Coquelicot Require Import Coquelicot.
From Verif Require Import Base LegendreModel LegendreSpec IgrfModel.
Local Open Scope R_scope.

(** The potential of the main field for Gauss coefficients g and h, reference radius [a] and Schmidt
    semi-normalised functions: a sum (a/r)^(n+1) (g cos m l + h sin m l) P_n^m(cos t). *)
Definition igrf_potential (a : R) (g h : table) (min_degree max_degree : nat) (r t l : R) : R :=
  a * sum_over (range min_degree (max_degree + 1)) (fun n => (a / r) ^ (n + 1) *
        sum_over (range 0 (n + 1)) (fun m =>
          (ent g n m * cos (INR m * l) + ent h n m * sin (INR m * l)) * (schmidt_factor n m * rodrigues n m (cos t)))).

(** ** Time *)
(** Leap years of the Gregorian calendar. *)
Definition leap (y : Z) : Prop := (y mod 4 = 0 /\ (y mod 100 <> 0 \/ y mod 400 = 0))%Z.

(** A date falls within its year. *)
Definition valid_date (d : date) : Prop :=
  0 <= d_sec d < 86400 * (IZR (days_before_year (d_year d + 1)) - IZR (days_before_year (d_year d))).

(** Seconds since the beginning of year 1. *)
Definition instant (d : date) : R := 86400 * IZR (days_before_year (d_year d)) + d_sec d.

(** The coefficient file has an epoch every five years, within the range of datetime. *)
Definition regular (c : coefficients) (first : Z) (k : nat) : Prop :=
  c_years c = map (fun i => (first + 5 * Z.of_nat i)%Z) (seq 0 k) /\ (1 <= k)%nat /\
  (1 <= first)%Z /\ (first + 5 * Z.of_nat k <= 9999)%Z.

(** Arrays of the shapes that [load_igrf] makes. *)
Definition shaped (c : coefficients) (k w : nat) : Prop :=
  depth (c_g c) = k /\ width (c_g c) = w /\ depth (c_h c) = k /\ width (c_h c) = w /\
  rows (c_gsv c) = w /\ cols (c_gsv c) = w /\ rows (c_hsv c) = w /\ cols (c_hsv c) = w.

(** ** Geometry *)
(** Geodetic to spherical coordinates for an ellipsoid with semi-major axis [a] and squared
    eccentricity [e2]: spherical latitude in degrees and radius (documented formula of boule). *)
Definition ellipsoid_conversion (a e2 : R) (latitude height : R) : R * R :=
  let phi := radians latitude in
  let prime_vertical := a / sqrt (1 - e2 * sin phi ^ 2) in
  let xy := (prime_vertical + height) * cos phi in
  let z := ((1 - e2) * prime_vertical + height) * sin phi in
  let radius := sqrt (xy ^ 2 + z ^ 2) in
  (asin (z / radius) * 180 / PI, radius).

(** Unit vectors of the meridian plane (distance from the axis, height along the axis): towards
    increasing latitude and outwards, for a direction at a latitude in degrees. *)
Definition northward (latitude : R) : vec3 := V3 (- sin (radians latitude)) 0 (cos (radians latitude)).
Definition outward (latitude : R) : vec3 := V3 (cos (radians latitude)) 0 (sin (radians latitude)).
Definition eastward : vec3 := V3 0 1 0.

Definition magnitude (b : R * R * R) : R := let '(e, n, u) := b in sqrt (e ^ 2 + n ^ 2 + u ^ 2).

(** ** Coefficient file *)
(** What a line of the file says: which coefficient, its values at the epochs and its secular
    variation. *)
Record coef_line := CoefLine { l_is_g : bool; l_degree : nat; l_order : nat; l_values : list R; l_sv : R }.

(** The words of a line denote [e]. *)
Definition denotes (to_int : string -> res Z) (to_float : string -> res R) (words : list string) (e : coef_line) : Prop :=
  exists wn wm wvals wsv,
    words = (if l_is_g e then "g" else "h")%string :: wn :: wm :: wvals ++ [wsv] /\
    to_int wn = Ok (Z.of_nat (l_degree e)) /\ to_int wm = Ok (Z.of_nat (l_order e)) /\
    Forall2 (fun w v => to_float w = Ok v) wvals (l_values e) /\ to_float wsv = Ok (l_sv e).

(** The word is a whole part without a point, and then nothing or a point and more. *)
Definition whole_part (w s : string) : Prop :=
  ~ In "."%char (list_ascii_of_string s) /\ exists t, w = append s t /\ (t = EmptyString \/ exists t', t = String "."%char t').
(** The words of the header line that names the epochs. *)
Definition denotes_years (to_int : string -> res Z) (words : list string) (years : list Z) : Prop :=
  exists w1 w2 w3 wyears wlast,
    words = w1 :: w2 :: w3 :: wyears ++ [wlast] /\
    Forall2 (fun w y => exists s, whole_part w s /\ to_int s = Ok y) wyears years.
