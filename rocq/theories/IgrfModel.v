(** Model of /repo/src/harmonica/_spherical_harmonics/igrf.py.

    Floats are reals.  External code: [str.split], [int] and [float] of Python (arguments), the
    calendar arithmetic of datetime.datetime (naive dates, proleptic Gregorian calendar), pooch (the
    coefficient file is an argument), bordado.grid_coordinates and verde.make_xarray_grid (grids are
    given by their axes) and boule's geodetic_to_spherical (an argument that maps a geodetic latitude
    and height to a spherical latitude and radius; it returns the longitude unchanged). *)
From Coq Require Import Ascii.
From Verif Require Import Base LegendreModel.
Local Open Scope R_scope.

(** Source: a list comprehension that stops at the first exception, igrf.py:58. *)
Fixpoint each {A B} (f : A -> res B) (l : list A) : res (list B) :=
  match l with [] => Ok [] | x :: l' => do y <- f x; do ys <- each f l'; Ok (y :: ys) end.

(** ** Arrays of Gauss coefficients, indexed by epoch, degree and order *)
(** Source: the arrays "g" and "h" of igrf.py:61-63. *)
Record cube := Cube { depth : nat; width : nat; cell : nat -> nat -> nat -> R }.

(** [g[e, n, m]] in interpreted code; the last two axes have the same length. Source: igrf.py:139-142. *)
Definition cget (c : cube) (e n m : nat) : res R :=
  if (Nat.ltb e (depth c) && Nat.ltb n (width c) && Nat.ltb m (width c))%bool
  then Ok (cell c e n m) else Raise IndexError.

(** [g_sv[n, m]] in interpreted code. Source: igrf.py:136-137. *)
Definition svget (t : table) (n m : nat) : res R :=
  if in_shape t n m then Ok (ent t n m) else Raise IndexError.

(** Source: [np.zeros], igrf.py:62-63. *)
Definition zero_cube (ny width : nat) : cube := Cube ny width (fun _ _ _ => 0).
(** Source: [np.zeros], igrf.py:64-65 and 131-132. *)
Definition zeros (n m : nat) : table := Table n m (fun _ _ => 0).

(** Source: the tuple returned in igrf.py:77. *)
Record coefficients := Coeffs { c_years : list Z; c_g : cube; c_h : cube; c_gsv : table; c_hsv : table }.

(** ** load_igrf: igrf.py 26-77.  A line is the list of its blank separated words ([line.split()]).
    A word that is no number raises ValueError inside [to_int] and [to_float].  Degrees and orders are
    not negative (numpy would wrap negative ones). *)
Section Load.
Variables (to_int : string -> res Z) (to_float : string -> res R).

(** [words[3:-1]]; source: igrf.py:56 and 73. *)
Definition middle {A} (words : list A) : list A := firstn (length words - 4) (skipn 3 words).

(** [y.split(".")[0]]; source: igrf.py:58. *)
Fixpoint before_dot (s : string) : string :=
  match s with
  | EmptyString => EmptyString
  | String c s' => if Ascii.eqb c "."%char then EmptyString else String c (before_dot s')
  end.

(** [coeffs[key][:n_years, degree, order] = values]: one value per year, or a single value that
    numpy repeats, else a ValueError. Source: igrf.py:72-74. *)
Definition set_epochs (c : cube) (degree order : nat) (values : list R) : res cube :=
  if (Nat.ltb degree (width c) && Nat.ltb order (width c))%bool then
    do value <-
      match values with
      | [v] => Ok (fun _ => v)
      | _ => if Nat.eqb (length values) (depth c) then Ok (fun e => nth e values 0) else Raise ValueError
      end;
    Ok (Cube (depth c) (width c)
          (fun e n m => if (Nat.eqb n degree && Nat.eqb m order)%bool then value e else cell c e n m))
  else Raise IndexError.

(** Source: [coeffs[key + "_sv"][degree, order] = value], igrf.py:76, and igrf.py:141-142. *)
Definition sv_set (t : table) (degree order : nat) (v : R) : res table :=
  if in_shape t degree order
  then Ok (Table (rows t) (cols t)
             (fun a b => if (Nat.eqb a degree && Nat.eqb b order)%bool then v else ent t a b))
  else Raise IndexError.

(** igrf.py 68-76: one line of coefficients. *)
Definition load_line (st : coefficients) (parts : list string) : res coefficients :=
  match parts with
  | [] => Raise IndexError
  | key :: _ =>
    do indices <- each to_int (firstn 2 (skipn 1 parts));
    match indices with
    | [degree; order] =>
      let degree := Z.to_nat degree in let order := Z.to_nat order in
      if String.eqb key "g" then
        do values <- each to_float (middle parts);
        do g <- set_epochs (c_g st) degree order values;
        do last <- to_float (List.last parts ""%string);
        do sv <- sv_set (c_gsv st) degree order last;
        Ok (Coeffs (c_years st) g (c_h st) sv (c_hsv st))
      else if String.eqb key "h" then
        do values <- each to_float (middle parts);
        do h <- set_epochs (c_h st) degree order values;
        do last <- to_float (List.last parts ""%string);
        do sv <- sv_set (c_hsv st) degree order last;
        Ok (Coeffs (c_years st) (c_g st) h (c_gsv st) sv)
      else Raise KeyError
    | _ => Raise ValueError
    end
  end.

(** Source: igrf.py:26-77 [load_igrf]. *)
Definition load_igrf (lines : list (list string)) : res coefficients :=
  do years <- each (fun y => to_int (before_dot y)) (middle (nth 3 lines []));
  let ny := length years in
  let max_degree := 13%nat in
  let w := (max_degree + 1)%nat in
  for_ (skipn 4 lines) (fun line st => load_line st line)
    (Coeffs years (zero_cube ny w) (zero_cube ny w) (zeros w w) (zeros w w)).
End Load.

(** ** Dates.  A naive datetime.datetime: its year and the seconds since its first of January. *)
(** Source: the argument [date] of igrf.py:80. *)
Record date := Date { d_year : Z; d_sec : R }.

(** Days from 0001-01-01 to January 1 of a year: datetime's [_days_before_year]. *)
Definition days_before_year (y : Z) : Z :=
  let y := (y - 1)%Z in (y * 365 + y / 4 - y / 100 + y / 400)%Z.

(** [datetime.datetime(year=y, month=1, day=1)]; source: igrf.py:124 and 127-128. *)
Definition january_first (y : Z) : res date :=
  if (Z.leb 1 y && Z.leb y 9999)%bool then Ok (Date y 0) else Raise ValueError.

(** [(a - b).total_seconds()]; source: igrf.py:123-129. *)
Definition total_seconds (a b : date) : R :=
  86400 * (IZR (days_before_year (d_year a)) - IZR (days_before_year (d_year b))) + (d_sec a - d_sec b).

(** igrf.py 80-143 ([interpolate_coefficients]). *)
Definition interpolate_coefficients (when : date) (max_degree : nat) (c : coefficients) : res (table * table) :=
  let years := c_years c in
  match years with
  | [] => Raise IndexError
  | first :: _ =>
    let last := List.last years 0%Z in
    if (Z.ltb (d_year when) first || Z.leb (last + 5) (d_year when))%bool then Raise ValueError
    else
      let index := Z.to_nat ((d_year when - first) / 5) in
      do year <- match nth_error years index with Some y => Ok y | None => Raise IndexError end;
      do start <- january_first year;
      let seconds_since_epoch := total_seconds when start in
      do stop <- january_first (year + 5);
      let epoch := total_seconds stop start in
      let year_in_seconds := 365.25 * 24 * 60 * 60 in
      for_ (range 1 (max_degree + 1)) (fun n (acc : table * table) =>
        for_ (range 0 (n + 1)) (fun m (acc : table * table) =>
          let (g_date, h_date) := acc in
          do (variation_g, variation_h) <-
            (if Nat.leb (length years - 1) index then
               do a <- svget (c_gsv c) n m; do b <- svget (c_hsv c) n m;
               Ok (a / year_in_seconds, b / year_in_seconds)
             else
               do g1 <- cget (c_g c) (index + 1) n m; do g0 <- cget (c_g c) index n m;
               do h1 <- cget (c_h c) (index + 1) n m; do h0 <- cget (c_h c) index n m;
               Ok ((g1 - g0) / epoch, (h1 - h0) / epoch));
          do g0 <- cget (c_g c) index n m;
          do g_date <- sv_set g_date n m (g0 + seconds_since_epoch * variation_g);
          do h0 <- cget (c_h c) index n m;
          do h_date <- sv_set h_date n m (h0 + seconds_since_epoch * variation_h);
          Ok (g_date, h_date)) acc)
        (zeros (max_degree + 1) (max_degree + 1), zeros (max_degree + 1) (max_degree + 1))
  end.

(** igrf.py 146-165 ([calculate_ideal_spacing]). *)
Definition calculate_ideal_spacing (max_degree : nat) : R := 180 / (2 * INR max_degree + 2).

(** ** Synthesis.  [junk] is the content of arrays made by [np.empty]. *)
Section Synthesis.
Variable junk : nat -> nat -> R.

(** igrf.py 593-601 and 654-667: cos and sin of m times a longitude, in row [j]. *)
Definition chebyshev (j : nat) (longitude : R) (max_degree : nat) (cs : table * table) : res (table * table) :=
  let (c, s) := cs in
  do c <- tset c j 0 1;
  do s <- tset s j 0 0;
  do c <- tset c j 1 (cos longitude);
  do s <- tset s j 1 (sin longitude);
  for_ (range 2 (max_degree + 1)) (fun m (cs : table * table) =>
    let (c, s) := cs in
    do c1 <- tget c j 1; do cm1 <- tget c j (m - 1); do cm2 <- tget c j (m - 2);
    do c <- tset c j m (2 * c1 * cm1 - cm2);
    do c1 <- tget c j 1; do sm1 <- tget s j (m - 1); do sm2 <- tget s j (m - 2);
    do s <- tset s j m (2 * c1 * sm1 - sm2);
    Ok (c, s)) (c, s).

(** igrf.py 604-623 and 679-698: the sums over degree and order for one point, starting from the
    contents of the output arrays at that point. *)
Definition accumulate (j : nat) (normalized_radius : R) (g h : table) (min_degree max_degree : nat)
    (p p_deriv c s : table) (b : R * R * R) : res (R * R * R) :=
  do (b, _) <- for_ (range min_degree (max_degree + 1)) (fun n st =>
    let (b, r_frac) := st : (R * R * R) * R in
    let r_frac := r_frac * normalized_radius in
    do b <- for_ (range 0 (n + 1)) (fun m b =>
      let '(b_east, b_north_sph, b_radial) := b in
      do gnm <- tget g n m; do hnm <- tget h n m; do sm <- tget s j m; do cm <- tget c j m;
      do pnm <- tget p n m; do dnm <- tget p_deriv n m;
      Ok (b_east + r_frac * (- INR m * gnm * sm + INR m * hnm * cm) * pnm,
          b_north_sph + r_frac * (gnm * cm + hnm * sm) * dnm,
          b_radial + (INR n + 1) * r_frac * (gnm * cm + hnm * sm) * pnm)) b;
    Ok (b, r_frac)) (b, normalized_radius ^ (min_degree + 1));
  Ok b.

(** igrf.py 624-629 and 699-704. *)
Definition fix_east (sin_colat : R) (b : R * R * R) : R * R * R :=
  let '(b_east, b_north_sph, b_radial) := b in
  (if Rltb (Rabs sin_colat) (/ 10 ^ 10) then 0 else b_east * (- 1 / sin_colat), b_north_sph, b_radial).

(** The Legendre tables of one point, igrf.py 583-586 and 674-677: [np.empty_like(g)]. *)
Definition legendre_tables (colatitude : R) (max_degree : nat) (g : table) : res (table * table) :=
  let fresh := Table (rows g) (cols g) junk in
  do p <- associated_legendre_schmidt (cos colatitude) max_degree fresh;
  do p_deriv <- associated_legendre_schmidt_derivative max_degree p fresh;
  Ok (p, p_deriv).

(** igrf.py 561-629 ([spherical_harmonics_magnetic_field]), one iteration of the parallel loop; an
    iteration only writes its own element of the outputs. *)
Definition field_at (longitude colatitude normalized_radius : R) (g h : table)
    (min_degree max_degree : nat) (b : R * R * R) : res (R * R * R) :=
  do (p, p_deriv) <- legendre_tables colatitude max_degree g;
  let fresh := Table 1 (max_degree + 1) junk in
  do (c, s) <- chebyshev 0 longitude max_degree (fresh, fresh);
  do b <- accumulate 0 normalized_radius g h min_degree max_degree p p_deriv c s b;
  Ok (fix_east (sin colatitude) b).

(** The whole function on points (longitude, colatitude, normalised radius); the outputs start at
    zero as allocated by the callers. Source: igrf.py:561-629. *)
Definition spherical_harmonics_magnetic_field (points : list (R * R * R)) (g h : table)
    (min_degree max_degree : nat) : res (list (R * R * R)) :=
  each (fun pt => let '(lon, colat, nr) := pt in field_at lon colat nr g h min_degree max_degree (0, 0, 0)) points.

(** igrf.py 632-704 ([spherical_harmonics_magnetic_field_grid]): rows of the result follow the
    colatitudes. *)
Definition spherical_harmonics_magnetic_field_grid (longitude colatitude : list R)
    (normalized_radius : table) (g h : table) (min_degree max_degree : nat)
    : res (list (list (R * R * R))) :=
  let n_lon := length longitude in
  let fresh := Table n_lon (max_degree + 1) junk in
  do (c, s) <- for_ (range 0 n_lon) (fun j cs => chebyshev j (nth j longitude 0) max_degree cs) (fresh, fresh);
  each (fun i =>
    let colat := nth i colatitude 0 in
    do (p, p_deriv) <- legendre_tables colat max_degree g;
    each (fun j =>
      do nr <- tget normalized_radius i j;
      do b <- accumulate j nr g h min_degree max_degree p p_deriv c s (0, 0, 0);
      Ok (fix_east (sin colat) b)) (range 0 n_lon)) (range 0 (length colatitude)).

(** igrf.py 533-558 ([vector_spherical_to_geodetic]). *)
Definition vector_spherical_to_geodetic (latitude latitude_spherical : R) (vector : R * R * R) : R * R * R :=
  let rotation_angle := radians (latitude_spherical - latitude) in
  let '(east, north_sph, radial) := vector in
  (east, cos rotation_angle * north_sph + sin rotation_angle * radial,
   - sin rotation_angle * north_sph + cos rotation_angle * radial).

(** igrf.py 279: [reference_radius = 6371.2e3] *)
Definition reference_radius : R := 6371200.

(** igrf.py 325-385 ([IGRF14.predict]) for coordinate arrays of one shape: points (longitude,
    latitude, height) in degrees and metres. *)
Variable geodetic_to_spherical : R -> R -> R * R.

(** Source: igrf.py:352-382. *)
Definition predict (points : list (R * R * R)) (g h : table) (min_degree max_degree : nat)
    : res (list (R * R * R)) :=
  let spherical := map (fun pt => let '(lon, lat, height) := pt in
    let (lat_sph, radius) := geodetic_to_spherical lat height in
    (radians lon, radians (90 - lat_sph), reference_radius / radius)) points in
  do b <- spherical_harmonics_magnetic_field spherical g h min_degree max_degree;
  Ok (map (fun ptb => let '((lon, lat, height), v) := ptb in
    vector_spherical_to_geodetic lat (fst (geodetic_to_spherical lat height)) v) (combine points b)).

(** igrf.py 387-480 ([IGRF14.grid]) on the axes produced by bordado: [longitude_radians[0, :]] and
    [colatitude_radians[:, 0]] are taken from the first row and column of the 2-D arrays. *)
Definition grid (longitude latitude : list R) (height : nat -> nat -> R) (g h : table)
    (min_degree max_degree : nat) : res (list (list (R * R * R))) :=
  match longitude, latitude with
  | [], _ | _, [] => Raise IndexError
  | _, _ =>
    let conv i j := geodetic_to_spherical (nth i latitude 0) (height i j) in
    let longitude_radians := map radians longitude in
    let colatitude_radians := map (fun i => radians (90 - fst (conv i 0%nat))) (range 0 (length latitude)) in
    let normalized_radius := Table (length latitude) (length longitude) (fun i j => reference_radius / snd (conv i j)) in
    do b <- spherical_harmonics_magnetic_field_grid longitude_radians colatitude_radians normalized_radius g h min_degree max_degree;
    Ok (map (fun ir => let (i, row) := ir : nat * list (R * R * R) in
      map (fun jv => let (j, v) := jv : nat * (R * R * R) in
        vector_spherical_to_geodetic (nth i latitude 0) (fst (conv i j)) v)
        (combine (range 0 (length longitude)) row))
      (combine (range 0 (length latitude)) b))
  end.
End Synthesis.
