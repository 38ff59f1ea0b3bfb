(** Model of /repo/src/harmonica/_equivalent_sources (utils.py, cartesian.py, gradient_boosted.py,
    spherical.py).

    External code, as arguments of the model: verde.base.least_squares, verde.BlockReduce (median),
    bordado.neighbor_distance_statistics, bordado.rolling_window, sklearn.utils.shuffle and numpy's
    rounding to a dtype.  verde.base.check_fit_input is modelled by its documented checks (equal
    shapes), verde.base.n_1d_arrays by [ravel].  [parallel] only selects the schedule of the loops
    (ScheduleModel).  Attributes that a failing method has already set are not modelled,
    nor is the attribute [region_] (cartesian.py:268, gradient_boosted.py:222, spherical.py:205), which only
    fixes the default extent of grids; the ValueError it raises for empty data is left out. *)
From Verif Require Import Base NumPy DistanceModel LegendreModel.
Local Open Scope string_scope.
Local Open Scope R_scope.

(** ** Arrays with a dtype: size of an element in bytes and the value that is stored for a real *)
(** Source: the attribute [dtype], cartesian.py:189. *)
Record dtype := DType { itemsize : nat; cast : R -> R }.

(** float64 arrays hold exact reals in this model. Source: the default of cartesian.py:172 and spherical.py:250. *)
Definition float64 : dtype := DType 8 (fun x => x).

(** Conversion of a float to an integer drops the fraction. Source: [astype] to an integer type, utils.py:35-38, spherical.py:243-245. *)
Definition truncate (x : R) : R := if Rleb 0 x then IZR (Int_part x) else - IZR (Int_part (- x)).
(** Source: integer coordinates, spherical.py:243-245. *)
Definition int64 : dtype := DType 8 truncate.

(** Source: three raveled coordinate arrays, cartesian.py:269. *)
Definition coords := (list R * list R * list R)%type.
(** Source: [coordinates[0].size], cartesian.py:229 and 410. *)
Definition size (c : coords) : nat := length (fst (fst c)).
(** Source: [vdb.n_1d_arrays(coordinates, 3)], cartesian.py:226 and 269. *)
Definition ravel3 (c : arr * arr * arr) : coords := let '(a, b, d) := c in (ravel a, ravel b, ravel d).
(** Source: utils.py:35-38. *)
Definition astype (dt : dtype) (l : list R) : list R := map (cast dt) l.
(** Source: utils.py:35, cartesian.py:271-278. *)
Definition astype3 (dt : dtype) (c : coords) : coords := let '(a, b, d) := c in (astype dt a, astype dt b, astype dt d).

(** [a[indices]] in interpreted code. Source: gradient_boosted.py:264-268 and 274. *)
Fixpoint take {A} (l : list A) (indices : list nat) : res (list A) :=
  match indices with
  | [] => Ok []
  | k :: ks => do x <- match nth_error l k with Some x => Ok x | None => Raise IndexError end;
               do xs <- take l ks; Ok (x :: xs)
  end.
(** Source: gradient_boosted.py:264-265. *)
Definition take3 (c : coords) (indices : list nat) : res coords :=
  let '(a, b, d) := c in do a <- take a indices; do b <- take b indices; do d <- take d indices; Ok (a, b, d).

(** ** Green's functions.  Compiled code raises ZeroDivisionError when it divides by zero. *)
(** Source: type of the Green's functions, cartesian.py:634-644, spherical.py:412-424. *)
Definition greens_t := R -> R -> R -> R -> R -> R -> res R.

(** cartesian.py 634-644 *)
Definition greens_func_cartesian : greens_t := fun e n u ep np up =>
  let distance := distance_cartesian (e, n, u) (ep, np, up) in
  if Reqb distance 0 then Raise ZeroDivisionError else Ok (1 / distance).

(** spherical.py 412-424 *)
Definition greens_func_spherical : greens_t := fun lon lat r lonp latp rp =>
  let distance := distance_spherical (lon, lat, r) (lonp, latp, rp) in
  if Reqb distance 0 then Raise ZeroDivisionError else Ok (1 / distance).

(** ** Kernels *)
(** The value of the Green's function for data point [i] and source [j]. Source: utils.py:67-74 and 90-97. *)
Definition greens_at (greens : greens_t) (coordinates points : coords) (i j : nat) : res R :=
  let '(east, north, upward) := coordinates in
  let '(point_east, point_north, point_upward) := points in
  do e <- aget east i; do n <- aget north i; do u <- aget upward i;
  do ep <- aget point_east j; do np <- aget point_north j; do up <- aget point_upward j;
  greens e n u ep np up.

(** utils.py 54-74 ([jacobian]): [jac] has elements of type [dt]. *)
Definition jacobian_kernel (dt : dtype) (greens : greens_t) (coordinates points : coords) (jac : table) : res table :=
  for_ (range 0 (size coordinates)) (fun i jac =>
    for_ (range 0 (size points)) (fun j jac =>
      do v <- greens_at greens coordinates points i j;
      tset jac i j (cast dt v)) jac) jac.

(** utils.py 77-97 ([predict]): [result] has elements of type [dt]. *)
Definition predict_kernel (dt : dtype) (greens : greens_t) (coordinates points : coords) (coeffs result : list R) : res (list R) :=
  for_ (range 0 (size coordinates)) (fun i result =>
    for_ (range 0 (size points)) (fun j result =>
      do c <- aget coeffs j;
      do v <- greens_at greens coordinates points i j;
      do o <- aget result i;
      aset result i (cast dt (o + c * v))) result) result.

(** cartesian.py 385-415 and spherical.py 250-282 ([jacobian] methods) *)
Definition jacobian (dt : dtype) (greens : greens_t) (coordinates points : coords) : res table :=
  jacobian_kernel dt greens coordinates points (Table (size coordinates) (size points) (fun _ _ => 0)).

(** cartesian.py 353-383 and spherical.py 219-248 after [check_is_fitted]: [dt] is the type of the
    output, the coordinates are converted by the caller. *)
Definition predict_data (dt : dtype) (greens : greens_t) (coordinates : arr * arr * arr) (convert : coords -> coords)
    (points : coords) (coefs : list R) : res arr :=
  let '(c0, c1, c2) := coordinates in
  do shape <- broadcast3 c0 c1 c2;
  do data <- predict_kernel dt greens (convert (ravel3 coordinates)) points coefs (repeat 0 (prod_shape shape));
  Ok (Arr shape data).

(** ** Input checks of fit: verde.base.check_fit_input (external, documented behaviour) *)
(** Source: comparison of shapes inside check_fit_input, cartesian.py:263. *)
Definition shape_eqb (a b : arr) : bool := if list_eq_dec Nat.eq_dec (shape a) (shape b) then true else false.
(** Source: called in cartesian.py:263, gradient_boosted.py:217, spherical.py:203. *)
Definition check_fit_input (coordinates : arr * arr * arr) (data : arr) (weights : option arr) : res unit :=
  let '(c0, c1, c2) := coordinates in
  if negb (shape_eqb c0 c1 && shape_eqb c0 c2 && shape_eqb c0 data) then Raise ValueError
  else match weights with
       | Some w => if Nat.eqb (length (ravel w)) (length (ravel data)) then Ok tt else Raise ValueError
       | None => Ok tt
       end.

(** ** EquivalentSources *)
(** Source: the argument [depth], cartesian.py:169. *)
Inductive depth_arg := DepthString (s : string) | DepthNumber (d : R).

(** Parameters (set by [__init__]) and fitted attributes; a missing attribute is [None]. Source: cartesian.py:165-191, fitted attributes 268-280. *)
Record eqs := Eqs {
  damping : option R; points : option (arr * arr * arr); depth : depth_arg; block_size : option R; dt : dtype;
  points_ : option coords; coefs_ : option (list R); depth_ : option (option R) }.

(** cartesian.py 165-191 *)
Definition init (damping : option R) (points : option (arr * arr * arr)) (depth : depth_arg) (block_size : option R) (dt : dtype) : res eqs :=
  match depth with
  | DepthString s => if String.eqb s "default" then Ok (Eqs damping points depth block_size dt None None None) else Raise ValueError
  | DepthNumber d => if Reqb d 0 then Raise ValueError else Ok (Eqs damping points depth block_size dt None None None)
  end.

Section External.
Variable least_squares : table -> list R -> option (list R) -> option R -> list R.
Variable block_average : R -> coords -> coords.
Variable neighbor_distances : list R -> list R -> res (list R).

(** Source: [np.mean], cartesian.py:283-324. *)
Definition mean (l : list R) : R := sumR l / INR (length l).

(** cartesian.py 283-324 ([_build_points]); 326-351 is [block_average].  [depth] is "default" or a
    number once [init] has accepted it. *)
Definition build_points (self : eqs) (coordinates : coords) : res (coords * eqs) :=
  let coordinates := match block_size self with Some s => block_average s coordinates | None => coordinates end in
  let '(c0, c1, c2) := coordinates in
  do d <- match depth self with
          | DepthNumber d => Ok d
          | DepthString s => if String.eqb s "default" then do ds <- neighbor_distances c0 c1; Ok (4.5 * mean ds)
                             else Raise TypeError
          end;
  Ok ((c0, c1, map (fun u => u - d) c2),
      Eqs (damping self) (points self) (depth self) (block_size self) (dt self) (points_ self) (coefs_ self) (Some (Some d))).

(** cartesian.py 193-234 *)
Definition estimate_required_memory (self : eqs) (coordinates : arr * arr * arr) : res (nat * eqs) :=
  let coordinates := ravel3 coordinates in
  do (pts, self) <- build_points self coordinates;
  Ok (size coordinates * size pts * itemsize (dt self), self)%nat.

(** cartesian.py 263-277 and gradient_boosted.py 215-234: the sources used by [fit]. *)
Definition fit_points (self : eqs) (coordinates : coords) : res eqs :=
  match points self with
  | None => do (pts, self) <- build_points self coordinates;
            Ok (Eqs (damping self) (points self) (depth self) (block_size self) (dt self)
                  (Some (astype3 (dt self) pts)) (coefs_ self) (depth_ self))
  | Some p => Ok (Eqs (damping self) (points self) (depth self) (block_size self) (dt self)
                    (Some (astype3 (dt self) (ravel3 p))) (coefs_ self) (Some None))
  end.

(** Source: [self.points_], cartesian.py:279 and 382. *)
Definition get_points (self : eqs) : res coords := match points_ self with Some p => Ok p | None => Raise AttributeError end.
(** Source: [self.coefs_ = ...], cartesian.py:280. *)
Definition set_coefs (self : eqs) (c : list R) : eqs :=
  Eqs (damping self) (points self) (depth self) (block_size self) (dt self) (points_ self) (Some c) (depth_ self).

(** cartesian.py 236-281 *)
Definition fit (self : eqs) (coordinates : arr * arr * arr) (data : arr) (weights : option arr) : res eqs :=
  do _ <- check_fit_input coordinates data weights;
  let coordinates := astype3 (dt self) (ravel3 coordinates) in
  let data := astype (dt self) (ravel data) in
  let weights := option_map (fun w => astype (dt self) (ravel w)) weights in
  do self <- fit_points self coordinates;
  do pts <- get_points self;
  do jac <- jacobian (dt self) greens_func_cartesian coordinates pts;
  Ok (set_coefs self (least_squares jac data weights (damping self))).

(** cartesian.py 353-383.  NotFittedError is a ValueError. *)
Definition predict (self : eqs) (coordinates : arr * arr * arr) : res arr :=
  match coefs_ self with
  | None => Raise ValueError
  | Some coefs =>
    do pts <- get_points self;
    predict_data (dt self) greens_func_cartesian coordinates (astype3 (dt self)) pts coefs
  end.

(** ** EquivalentSourcesGB *)
(** Source: the argument [window_size], gradient_boosted.py:120. *)
Inductive window_arg := WindowString (s : string) | WindowNumber (w : R).

(** gradient_boosted.py 114-140; [random_state] is represented by [shuffle] below. *)
Definition init_gb (damping : option R) (points : option (arr * arr * arr)) (depth : depth_arg) (block_size : option R)
    (window_size : window_arg) (dt : dtype) : res (eqs * window_arg) :=
  do _ <- match window_size with
          | WindowString s => if String.eqb s "default" then Ok tt else Raise ValueError
          | WindowNumber _ => Ok tt
          end;
  do self <- init damping points depth block_size dt;
  Ok (self, window_size).

(** Source: a region (west, east, south, north), gradient_boosted.py:391-396. *)
Definition region := (R * R * R * R)%type.

(** [bd.rolling_window(coordinates, region, window_size, overlap)[1].ravel()] with the row [i[0]] of
    each window. *)
Variable rolling_window : list R -> list R -> region -> R -> R -> res (list (list nat)).
(** [utils.shuffle] applied to arrays of the given length: the order of the shuffled elements. *)
Variable shuffle_order : nat -> list nat.

(** [bd.get_region]: ValueError for an empty array. Source: gradient_boosted.py:389-390. *)
Definition get_region (x y : list R) : res region :=
  match x, y with
  | x0 :: x', y0 :: y' => Ok (fold_left Rmin x' x0, fold_left Rmax x' x0, fold_left Rmin y' y0, fold_left Rmax y' y0)
  | _, _ => Raise ValueError
  end.

(** gradient_boosted.py 376-397 *)
Definition get_region_data_sources (coordinates points : coords) : res region :=
  do (w, e, s, n) <- get_region (fst (fst coordinates)) (snd (fst coordinates));
  do (w', e', s', n') <- get_region (fst (fst points)) (snd (fst points));
  Ok (Rmin w w', Rmax e e', Rmin s s', Rmax n n').

(** Source: [utils.shuffle], gradient_boosted.py:362-365. *)
Definition reorder {A} (order : list nat) (l : list A) : res (list A) := take l order.

(** gradient_boosted.py 367-373: the loop over [zip(source_windows, data_windows, strict=True)]. *)
Definition nonempty_windows (sources data : list (list nat)) : res (list (list nat * list nat)) :=
  if Nat.eqb (length sources) (length data)
  then Ok (filter (fun sd => negb (Nat.eqb (length (fst sd)) 0) && negb (Nat.eqb (length (snd sd)) 0))%bool (combine sources data))
  else Raise ValueError.

(** gradient_boosted.py 295-373 ([_create_windows]): pairs (source window, data window). *)
Definition create_windows (window_size : window_arg) (pts coordinates : coords) (shuffle : bool) : res (list (list nat * list nat)) :=
  do (w, e, s, n) <- get_region_data_sources coordinates pts;
  let ndata := size coordinates in
  let cut window :=
    do source_windows <- rolling_window (fst (fst pts)) (snd (fst pts)) (w, e, s, n) window 0.5;
    do data_windows <- rolling_window (fst (fst coordinates)) (snd (fst coordinates)) (w, e, s, n) window 0.5;
    if shuffle then
      if negb (Nat.eqb (length source_windows) (length data_windows)) then Raise ValueError else
      do source_windows <- reorder (shuffle_order (length source_windows)) source_windows;
      do data_windows <- reorder (shuffle_order (length data_windows)) data_windows;
      nonempty_windows source_windows data_windows
    else nonempty_windows source_windows data_windows in
  match window_size with
  | WindowString _ =>
    let area := (e - w) * (n - s) in
    if Rleb (INR ndata) 5000 then Ok [(range 0 (size pts), range 0 ndata)]
    else let points_per_m2 := INR ndata / area in
         let window_area := 5000 / points_per_m2 in
         cut (sqrt window_area)
  | WindowNumber x => cut x
  end.

(** gradient_boosted.py 142-186 *)
Definition max_nat (l : list nat) : res nat :=
  match l with [] => Raise ValueError | x :: l' => Ok (fold_left Nat.max l' x) end.
(** Source: [self.points_ = points], gradient_boosted.py:177. *)
Definition set_points (self : eqs) (p : coords) : eqs :=
  Eqs (damping self) (points self) (depth self) (block_size self) (dt self) (Some p) (coefs_ self) (depth_ self).
(** Source: gradient_boosted.py:142-186. *)
Definition estimate_required_memory_gb (self : eqs) (window_size : window_arg) (coordinates : arr * arr * arr) : res (nat * eqs) :=
  let coordinates := ravel3 coordinates in
  do (pts, self) <- build_points self coordinates;
  let self := set_points self pts in
  do windows <- create_windows window_size pts coordinates true;
  do largest <- max_nat (map (fun sd => length (fst sd) * length (snd sd))%nat windows);
  Ok (largest * itemsize (dt self), self)%nat.

(** Source: [np.sqrt(np.mean(x**2))], gradient_boosted.py:253 and 290. *)
Definition rms (l : list R) : R := sqrt (mean (map (fun x => x ^ 2) l)).

(** Source: elementwise arithmetic of two arrays, gradient_boosted.py:288 and 292. *)
Definition map2 {A B C} (f : A -> B -> C) (l : list A) (m : list B) : list C := map (fun ab => f (fst ab) (snd ab)) (combine l m).

(** [coefs[indices] += chunk]: the old values are read first, then all new values are stored, so a
    repeated index keeps only the last one. Source: gradient_boosted.py:292. *)
Fixpoint put {A} (l : list A) (indices : list nat) (values : list A) : list A :=
  match indices, values with
  | k :: ks, v :: vs => put (upd l k v) ks vs
  | _, _ => l
  end.
(** Source: gradient_boosted.py:292: [coefs[indices] += chunk]. *)
Definition add_at (dt : dtype) (coefs : list R) (indices : list nat) (chunk : list R) : res (list R) :=
  do old <- take coefs indices;
  if negb (Nat.eqb (length chunk) (length indices)) then Raise ValueError
  else Ok (put coefs indices (map2 (fun c x => cast dt (c + x)) old chunk)).

(** State of the loop: residue, errors and coefficients. Source: gradient_boosted.py:253-258. *)
Definition boost_state := (list R * list R * list R)%type.

(** gradient_boosted.py 261-292: one window. *)
Definition boost_window (dt : dtype) (damping : option R) (pts coordinates : coords) (weights : option (list R))
    (w : list nat * list nat) (st : boost_state) : res boost_state :=
  let (point_window, data_window) := w in
  let '(residue, errors, coefs) := st in
  do points_chunk <- take3 pts point_window;
  do coords_chunk <- take3 coordinates data_window;
  do weights_chunk <- match weights with Some ws => do x <- take ws data_window; Ok (Some x) | None => Ok None end;
  do jac <- jacobian dt greens_func_cartesian coords_chunk points_chunk;
  do r <- take residue data_window;
  let coeffs_chunk := least_squares jac r weights_chunk damping in
  do predicted <- predict_kernel dt greens_func_cartesian coordinates points_chunk coeffs_chunk (repeat 0 (length residue));
  let residue := map2 (fun x p => cast dt (x - p)) residue predicted in
  do coefs <- add_at dt coefs point_window coeffs_chunk;
  Ok (residue, (errors ++ [rms residue])%list, coefs).

(** gradient_boosted.py 244-293 ([_gradient_boosting]) given the windows. *)
Definition gradient_boosting (dt : dtype) (damping : option R) (pts coordinates : coords) (data : list R)
    (weights : option (list R)) (windows : list (list nat * list nat)) (coefs : list R) : res boost_state :=
  for_ windows (boost_window dt damping pts coordinates weights) (data, [rms data], coefs).

(** gradient_boosted.py 188-242; returns the object and [rmse_per_iteration_]. *)
Definition fit_gb (self : eqs) (window_size : window_arg) (coordinates : arr * arr * arr) (data : arr) (weights : option arr)
    : res (eqs * list R) :=
  do _ <- check_fit_input coordinates data weights;
  let coordinates := astype3 (dt self) (ravel3 coordinates) in
  let data := astype (dt self) (ravel data) in
  let weights := option_map (fun w => astype (dt self) (ravel w)) weights in
  do self <- fit_points self coordinates;
  do pts <- get_points self;
  do windows <- create_windows window_size pts coordinates true;
  do (residue, errors, coefs) <- gradient_boosting (dt self) (damping self) pts coordinates data weights windows (repeat 0 (size pts));
  Ok (set_coefs self coefs, errors).

(** ** EquivalentSourcesSph *)
(** Source: spherical.py:112-124, fitted attributes 208-216. *)
Record sph := Sph { s_damping : option R; s_points : option (arr * arr * arr); relative_depth : R;
                    s_points_ : option coords; s_coefs_ : option (list R) }.

(** spherical.py 113-124 *)
Definition init_sph (damping : option R) (points : option (arr * arr * arr)) (relative_depth : R) : sph :=
  Sph damping points relative_depth None None.

(** spherical.py 153-163 and 207-214 *)
Definition sph_sources (self : sph) (coordinates : coords) : coords :=
  match s_points self with
  | None => let '(c0, c1, c2) := coordinates in (c0, c1, map (fun r => r - relative_depth self) c2)
  | Some p => ravel3 p
  end.

(** spherical.py 126-174; [dt0] is the type of the longitudes. *)
Definition estimate_required_memory_sph (self : sph) (coordinates : arr * arr * arr) (dt0 : dtype) : nat :=
  let coordinates := ravel3 coordinates in
  (size coordinates * size (sph_sources self coordinates) * itemsize dt0)%nat.

(** spherical.py 176-217 *)
Definition fit_sph (self : sph) (coordinates : arr * arr * arr) (data : arr) (weights : option arr) : res sph :=
  do _ <- check_fit_input coordinates data weights;
  let coordinates := ravel3 coordinates in
  let pts := sph_sources self coordinates in
  do jac <- jacobian float64 greens_func_spherical coordinates pts;
  Ok (Sph (s_damping self) (s_points self) (relative_depth self) (Some pts)
        (Some (least_squares jac (ravel data) (option_map ravel weights) (s_damping self)))).

(** spherical.py 219-248; [dt0] is the type of the longitudes. *)
Definition predict_sph (self : sph) (coordinates : arr * arr * arr) (dt0 : dtype) : res arr :=
  match s_coefs_ self with
  | None => Raise ValueError
  | Some coefs =>
    do pts <- match s_points_ self with Some p => Ok p | None => Raise AttributeError end;
    predict_data dt0 greens_func_spherical coordinates (fun c => c) pts coefs
  end.
End External.

(** ** Keyword arguments of grid and profile: cartesian.py 479-515, 616-631, spherical.py 337-376, utils.py 42-51 *)
Inductive eqs_warning := IgnoredArguments (names : list string) | IgnoredExtraCoords.

(** [grid(coordinates, dims, data_names, projection, **kwargs)]: the names in [kwargs]; returns the
    warnings before verde's grid is called with the named arguments only. Source: cartesian.py:479-515, spherical.py:337-371. *)
Definition grid_kwargs (kwargs : list string) : res (list eqs_warning) :=
  if existsb (fun k => existsb (String.eqb k) kwargs) ["upward"; "shape"; "region"; "spacing"] then Raise ValueError
  else Ok (match kwargs with [] => [] | _ => [IgnoredArguments kwargs] end).

(** [profile(..., upward, ..., **kwargs)]: the keyword arguments passed on to verde's profile. Source: cartesian.py:616-631, utils.py:42-51. *)
Definition profile_kwargs {A} (upward : A) (kwargs : list (string * A)) : list (string * A) * list eqs_warning :=
  let found := existsb (fun kv => String.eqb (fst kv) "extra_coords") kwargs in
  (("extra_coords", upward) :: filter (fun kv => negb (String.eqb (fst kv) "extra_coords")) kwargs,
   if found then [IgnoredExtraCoords] else []).
