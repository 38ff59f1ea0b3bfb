(** Model of layers of prisms and tesseroids: /repo/src/harmonica/_forward/prisms/layer.py and
    /repo/src/harmonica/_forward/tesseroid_layer.py.
    A layer (xarray Dataset) is a record with its two dimensional coordinates, the [top] and [bottom]
    coordinates and its data variables as rows of numbers that may be NaN.  The attributes of the
    Dataset and progress bars are not modelled.  Coordinates are finite. *)
From Verif Require Import Base NumPy DistanceModel PointGravityModel TesseroidModel PrismModel.
Local Open Scope string_scope. Local Open Scope list_scope. Local Open Scope R_scope.

(** A list comprehension whose elements can fail. Source: e.g. layer.py:485-519. *)
Fixpoint map_res {A B} (f : A -> res B) (l : list A) : res (list B) :=
  match l with [] => Ok [] | x :: l' => do y <- f x; do ys <- map_res f l'; Ok (y :: ys) end.

(** [Lx]: easting or longitude, [Ly]: northing or latitude. Source: layer.py:128-138, tesseroid_layer.py:20-150. *)
Record layer := Layer {
  Lx : list R; Ly : list R;
  Ltop : list (list num); Lbottom : list (list num);
  Lvars : list (string * list (list num)) }.

(** 2D arrays with a numeric type: assignments into an integer array truncate towards zero (what numpy
    stores for NaN is not specified; NaN is kept here, the code never does it). Source: layer.py:290. *)
Inductive dtype := Int | Float.
(** Source: an array with its type, layer.py:290. *)
Record array2 := Array2 { kind : dtype; rows : list (list num) }.
(** Source: layer.py:309-310, conversion of a float stored into an integer array. *)
Definition trunc (x : R) : R := if Rleb 0 x then IZR (Int_part x) else - IZR (Int_part (- x)).
(** Source: layer.py:309-310, assignment into an array of some type. *)
Definition cast (d : dtype) (x : num) : num :=
  match d, x with Int, Fin r => Fin (trunc r) | _, _ => x end.
(** Source: [surface.shape != self.shape], layer.py:291 and 298. *)
Definition has_shape {A} (g : list (list A)) (n m : nat) : bool :=
  (Nat.eqb (length g) n && forallb (fun row => Nat.eqb (length row) m) g)%bool.
(** The reference: a scalar or an array. Source: layer.py:290 and 297-305. *)
Inductive reference_arg := RefScalar (x : num) | RefArray (a : array2).

(** numpy.allclose(a, b) with its default tolerances, [a] a scalar. Source: layer.py:149 and 152. *)
Definition allclose1 (a : R) (b : list R) : bool :=
  forallb (fun y => Rleb (Rabs (a - y)) (1 / 10 ^ 8 + 1 / 10 ^ 5 * Rabs y)) b.
(** [x[1:] - x[:-1]]; source: layer.py:149 and 152. *)
Definition diffs (x : list R) : list R := map (fun ab => snd ab - fst ab) (combine x (tl x)).
(** [x[1] - x[0]] in numpy: IndexError when there are fewer than two elements. Source: layer.py:149 and 199. *)
Definition step (x : list R) : res R :=
  match x with x0 :: x1 :: _ => Ok (x1 - x0) | _ => Raise IndexError end.

(** layer.py:141-154, tesseroid_layer.py:153-167 [_check_regular_grid] *)
Definition check_regular_grid (x y : list R) : res unit :=
  do sx <- step x;
  if negb (allclose1 sx (diffs x)) then Raise ValueError else
  do sy <- step y;
  if negb (allclose1 sy (diffs y)) then Raise ValueError else Ok tt.

(** layer.py:185-200, tesseroid_layer.py:212-227 [spacing]: (south-north, west-east). *)
Definition spacing (x y : list R) : res (R * R) :=
  do _ <- check_regular_grid x y;
  do sy <- step y; do sx <- step x; Ok (sy, sx).

(** Source: [.min()], layer.py:203-218. *)
Definition list_min (l : list R) : R := fold_left Rmin (tl l) (hd 0 l).
(** Source: [.max()], layer.py:203-218. *)
Definition list_max (l : list R) : R := fold_left Rmax (tl l) (hd 0 l).
(** layer.py:203-218, tesseroid_layer.py:256-271 [boundaries] *)
Definition boundaries (l : layer) : res (R * R * R * R) :=
  do s <- spacing (Lx l) (Ly l);
  Ok (list_min (Lx l) - snd s / 2, list_max (Lx l) + snd s / 2, list_min (Ly l) - fst s / 2, list_max (Ly l) + fst s / 2).

(** layer.py:264-312, tesseroid_layer.py:273-320 [update_top_bottom] *)
Definition top_cell (d : dtype) (s r : num) : num := if nltb s r then cast d r else s.
(** Source: layer.py:307-310. *)
Definition bottom_cell (d : dtype) (s r : num) : num := if nltb s r then cast d s else r.
(** Source: elementwise operation on two arrays, layer.py:306-310. *)
Definition map2 {A B C} (f : A -> B -> C) (a : list A) (b : list B) : list C := map (fun ab => f (fst ab) (snd ab)) (combine a b).
(** Source: layer.py:264-312, tesseroid_layer.py:273-320. *)
Definition update_top_bottom (l : layer) (surface : array2) (reference : reference_arg) : res layer :=
  let n := length (Ly l) in let m := length (Lx l) in
  if negb (has_shape (rows surface) n m) then Raise ValueError else
  do reference <-
    match reference with
    | RefArray a => if negb (has_shape (rows a) n m) then Raise ValueError else Ok a
    | RefScalar x => Ok (Array2 Float (repeat (repeat x m) n))
    end;
  let top := map2 (map2 (top_cell (kind surface))) (rows surface) (rows reference) in
  let bottom := map2 (map2 (bottom_cell (kind reference))) (rows surface) (rows reference) in
  Ok (Layer (Lx l) (Ly l) top bottom (Lvars l)).

(** verde.make_xarray_grid (external) for 1D coordinates: the data must have the shape of the grid. Source: layer.py:125-131. *)
Definition make_grid (x y : list R) (properties : list (string * list (list num))) : res layer :=
  if forallb (fun nv => has_shape (snd nv) (length y) (length x)) properties
  then Ok (Layer x y [] [] properties) else Raise ValueError.

(** layer.py:23-138 [prism_layer] *)
Definition prism_layer (x y : list R) (surface : array2) (reference : reference_arg) (properties : list (string * list (list num))) : res layer :=
  do prisms <- make_grid x y properties;
  do _ <- check_regular_grid (Lx prisms) (Ly prisms);
  update_top_bottom prisms surface reference.

(** tesseroid_layer.py:170-180 [_check_overlap] *)
Definition check_overlap (longitude : list R) : res unit :=
  do spacing <- step longitude;
  if Rleb (360 - spacing) (list_max longitude - list_min longitude) then Raise ValueError else Ok tt.

(** tesseroid_layer.py:20-150 [tesseroid_layer] *)
Definition tesseroid_layer (x y : list R) (surface : array2) (reference : reference_arg) (properties : list (string * list (list num))) : res layer :=
  do tesseroids <- make_grid x y properties;
  do _ <- check_regular_grid (Lx tesseroids) (Ly tesseroids);
  do _ <- check_overlap (Lx tesseroids);
  update_top_bottom tesseroids surface reference.

(** layer.py:435-456 [_to_prisms] with 246-262: one row per cell, northing slowest.  The result is the
    pair of the finite horizontal boundaries and the vertical ones. *)
Definition meshgrid_ravel (x y : list R) : list (R * R) := flat_map (fun yc => map (fun xc => (xc, yc)) x) y.
(** Source: [.ravel()] of a 2D array, layer.py:451-454. *)
Definition ravel2 {A} (g : list (list A)) : list A := concat g.
(** Source: layer.py:246-262, tesseroid_layer.py:473-489. *)
Definition horizontal_boundaries (s : R * R) (x y : R) : R * R * R * R :=
  (x - snd s / 2, x + snd s / 2, y - fst s / 2, y + fst s / 2).
(** Source: one row of the array of layer.py:455. *)
Record cell := Cell { cell_w : R; cell_e : R; cell_s : R; cell_n : R; cell_b : num; cell_t : num }.
(** Source: layer.py:455. *)
Definition make_cell (h : R * R * R * R) (b t : num) : cell := let '(w, e, s, n) := h in Cell w e s n b t.
(** Source: layer.py:435-456, tesseroid_layer.py:443-471. *)
Definition to_cells (l : layer) : res (list cell) :=
  do s <- spacing (Lx l) (Ly l);
  let centers := meshgrid_ravel (Lx l) (Ly l) in
  let bottom := ravel2 (Lbottom l) in let top := ravel2 (Ltop l) in
  (* np.vstack requires equal lengths *)
  if (Nat.eqb (length bottom) (length centers) && Nat.eqb (length top) (length centers))%bool then
    Ok (map2 (fun c bt => make_cell (horizontal_boundaries s (fst c) (snd c)) (fst bt) (snd bt)) centers (combine bottom top))
  else Raise ValueError.

(** [g[k, j]] in compiled code and in numpy (non-negative indices). Source: layer.py:596 and 601. *)
Definition get2 {A} (g : list (list A)) (k j : nat) : res A := do row <- aget g k; aget row j.
(** Source: layer.py:458-483. *)
Definition np_get {A} (l : list A) (i : nat) : res A := match nth_error l i with Some x => Ok x | None => Raise IndexError end.

(** layer.py:458-483 [get_prism], tesseroid_layer.py:491-520 [get_tesseroid] *)
Definition get_cell (l : layer) (indices : nat * nat) : res cell :=
  do center_x <- np_get (Lx l) (snd indices);
  do center_y <- np_get (Ly l) (fst indices);
  do s <- spacing (Lx l) (Ly l);
  do row <- np_get (Lbottom l) (fst indices); do bottom <- np_get row (snd indices);
  do row <- np_get (Ltop l) (fst indices); do top <- np_get row (snd indices);
  Ok (make_cell (horizontal_boundaries s center_x center_y) bottom top).

(** layer.py:522-625 [_forward_gravity_prism_layer]; the serial schedule (ScheduleModel). *)
Definition is_zero_or_nan (d : num) : bool := (neqb d (Fin 0) || isnan d)%bool.
(** Source: layer.py:595-622: the body of the innermost loop. *)
Definition layer_body (forward_func : prism_kernel R) (e n u : res R) (west east nc half_north thickness_threshold : R) (density bottom top : num) (i : nat) (result : list R) : res (list R) :=
  if is_zero_or_nan density then Ok result
  else if nltb (nop Rminus top bottom) (Fin thickness_threshold) then Ok result
  else if (isnan top || isnan bottom)%bool then Ok result
  else match density, bottom, top with
       | Fin d, Fin b, Fin t =>
           do e <- e; do n <- n; do u <- u;
           do r <- aget result i;
           aset result i (r + forward_func e n u (Prism west east (nc - half_north) (nc + half_north) b t) d)
       | _, _, _ => Ok result (* not reached *)
       end.
(** Source: layer.py:522-625. *)
Definition forward_gravity_prism_layer (coordinates : list R * list R * list R) (prisms_easting prisms_northing : list R)
  (prisms_bottom prisms_top densities : list (list num)) (forward_func : prism_kernel R) (result : list R) (thickness_threshold : R) : res (list R) :=
  let '(easting, northing, upward) := coordinates in
  do e1 <- aget prisms_easting 1; do e0 <- aget prisms_easting 0;
  let half_spacing_east := (e1 - e0) / 2 in
  do n1 <- aget prisms_northing 1; do n0 <- aget prisms_northing 0;
  let half_spacing_north := (n1 - n0) / 2 in
  for_ (range 0 (length easting)) (fun i result =>
    for_ (combine (range 0 (length prisms_easting)) prisms_easting) (fun jc result =>
      let west := snd jc - half_spacing_east in
      let east := snd jc + half_spacing_east in
      for_ (combine (range 0 (length prisms_northing)) prisms_northing) (fun kc result =>
        do density <- get2 densities (fst kc) (fst jc);
        do bottom <- get2 prisms_bottom (fst kc) (fst jc);
        do top <- get2 prisms_top (fst kc) (fst jc);
        layer_body forward_func (aget easting i) (aget northing i) (aget upward i) west east (snd kc) half_spacing_north
          thickness_threshold density bottom top i result) result) result) result.

Section Kernels.
Variable choclo : string -> prism_kernel R.
(** layer.py:314-433 [gravity] of the prism_layer accessor; the boolean tells whether the warning about
    NaN densities was issued. *)
Definition prism_layer_gravity (l : layer) (coordinates : arr * arr * arr) (field density_name : string) (thickness_threshold : option R) : res (arr * bool) :=
  let '(c0, c1, c2) := coordinates in
  match lookup field FIELDS with
  | None => Raise ValueError
  | Some func =>
    do _ <- check_regular_grid (Lx l) (Ly l);
    do cast_shape <- broadcast3 c0 c1 c2;
    let thickness_threshold := match thickness_threshold with None => 0 | Some t => t end in
    match lookup density_name (Lvars l) with
    | None => Raise KeyError
    | Some density =>
      let warned := existsb (existsb isnan) density in
      let result := repeat 0 (prod_shape cast_shape) in
      do result <- forward_gravity_prism_layer (ravel c0, ravel c1, ravel c2) (Lx l) (Ly l) (Lbottom l) (Ltop l) density (choclo func) result thickness_threshold;
      Ok (Arr cast_shape (prism_units field result), warned)
    end
  end.
End Kernels.

(** layer.py:485-519 [to_pyvista]: the rows and properties handed to prism_to_pyvista. *)
Definition null_cell (c : cell) : bool := (neqb (cell_t c) (cell_b c) || isnan (cell_t c) || isnan (cell_b c))%bool.
(** Source: layer.py:485-519. *)
Definition to_pyvista (l : layer) (drop_null_prisms : bool) : res (list cell * list (string * list num)) :=
  do prisms <- to_cells l;
  let null_prisms := if drop_null_prisms then map null_cell prisms else map (fun _ => false) prisms in
  do kept <- keep_mask prisms (map negb null_prisms);
  do properties <- map_res (fun nv => do v <- keep_mask (ravel2 (snd nv)) (map negb null_prisms); Ok (fst nv, v)) (Lvars l);
  Ok (kept, properties).

(** tesseroid_layer.py:406-441 [_get_nonans_mask] of a property: the mask and whether it warned. *)
Definition nonans_mask (l : layer) (property : list (list num)) : res (list bool * bool) :=
  let nt := map (fun x => negb (isnan x)) (ravel2 (Ltop l)) in
  let nb := map (fun x => negb (isnan x)) (ravel2 (Lbottom l)) in
  do mask <- np_and nt nb;
  let mask_property := map (fun x => negb (isnan x)) (ravel2 property) in
  do selected <- keep_mask mask_property mask;
  let warned := negb (forallb (fun b => b) selected) in
  do mask <- np_and mask mask_property;
  Ok (mask, warned).

(** The values selected by the mask are not NaN. Source: tesseroid_layer.py:385-404. *)
Definition finite_cell (c : cell) : res tess :=
  match cell_b c, cell_t c with Fin b, Fin t => Ok (Tess (cell_w c) (cell_e c) (cell_s c) (cell_n c) b t) | _, _ => Raise ValueError end.
(** Source: tesseroid_layer.py:385-404. *)
Definition finite_num (x : num) : res R := match x with Fin r => Ok r | NaN => Raise ValueError end.

(** tesseroid_layer.py:523-560 [_discard_thin_tesseroids] *)
Definition discard_thin_tesseroids (tesseroids : list tess) (density : list R) (thickness_threshold : R) : res (list tess * list R) :=
  let null_tesseroids := map (fun t => Rltb (top t - bottom t) thickness_threshold) tesseroids in
  do tesseroids <- keep_mask tesseroids (map negb null_tesseroids);
  do density <- keep_mask density (map negb null_tesseroids);
  Ok (tesseroids, density).

(** tesseroid_layer.py:322-404 [gravity] of the tesseroid_layer accessor.  [radial] and
    [disable_checks] are among the keyword arguments passed on. *)
Definition tesseroid_layer_gravity (l : layer) (coordinates : arr * arr * arr) (field density_name : string) (thickness_threshold : option R)
  (radial disable_checks : bool) : res (arr * bool) :=
  do cells <- to_cells l;
  match lookup density_name (Lvars l) with
  | None => Raise KeyError
  | Some density =>
    do mw <- nonans_mask l density;
    do cells <- keep_mask cells (fst mw);
    do density <- keep_mask (ravel2 density) (fst mw);
    do boundaries <- map_res finite_cell cells;
    do density <- map_res finite_num density;
    do bd <- match thickness_threshold with
             | None => Ok (boundaries, density)
             | Some th => discard_thin_tesseroids boundaries density th
             end;
    do r <- tesseroid_gravity coordinates (fst bd) (arr1 (snd bd)) field radial disable_checks;
    Ok (r, snd mw)
  end.
