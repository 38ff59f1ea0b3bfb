(** Model of /repo/src/harmonica/filters/_fft.py, filters/_filters.py, filters/_utils.py and
    _transformations.py: filters of regular grids in the wavenumber domain.

    External code is modelled by its documented behaviour:
    - xrft.fft (true_phase, true_amplitude, shift): spacing and lag of each axis, axes with decreasing
      coordinates are reversed, DFT times the spacings, phase of the true coordinates, frequencies in
      increasing order from -floor(n/2)/(n d);
    - xrft.ifft: the inverse sum times the frequency steps, in increasing coordinates;
    - xrft.pad/xrft.unpad: extend the coordinates with the same spacing, keep the interior; the border is the
      nearest cell for mode "edge" and an argument [border] of the model for the other modes;
    - whether the coordinates count as evenly spaced (a tolerance of xrft) is an argument of the model;
    - xarray.DataArray.differentiate: numpy.gradient with edge order 1.
    Floating point rounding, dask, attributes and names of the arrays are not modelled. *)
From Coquelicot Require Import Coquelicot.
From Verif Require Import Base NumPy UtilsModel.
Local Open Scope string_scope. Local Open Scope list_scope. Local Open Scope R_scope.
Local Notation C := Complex.C.

(** ** Discrete Fourier transform *)
(** Source: exp(i t) of the transforms, filters/_fft.py:14-81. *)
Definition cis (t : R) : C := (cos t, sin t).
(** Source: sum of a discrete transform, filters/_fft.py:14-81. *)
Fixpoint csum (n : nat) (f : nat -> C) : C := match n with O => RtoC 0 | S m => Cplus (csum m f) (f m) end.
(** Source: two-dimensional sum, filters/_fft.py:14-81. *)
Definition csum2 (ny nx : nat) (f : nat -> nat -> C) : C := csum ny (fun i => csum nx (fun j => f i j)).
(** Source: power of a complex number, filters/_filters.py:70-175. *)
Fixpoint cpow (z : C) (n : nat) : C := match n with O => RtoC 1 | S m => Cmult z (cpow z m) end.

(** Size, spacing, lag and orientation of an axis, as xrft.fft computes them. Source: filters/_fft.py:14-44. *)
Record axis := Axis { a_n : nat; a_d : R; a_lag : R; a_rev : bool }.
(** Source: the checks and axis parameters of xrft.fft, filters/_fft.py:14-44. *)
Definition axis_of (even : list R -> bool) (l : list R) : res axis :=
  let n := length l in
  if Nat.ltb n 2 then Raise IndexError else
  let d := Rabs (nth 1 l 0 - nth 0 l 0) in
  if negb (even l) then Raise ValueError else
  if Reqb d 0 then Raise ValueError else
  let first := nth 0 l 0 in let last := nth (n - 1) l 0 in
  let lag := if Rltb first last then nth (n / 2) l 0 else nth (n - 1 - n / 2) l 0 in
  Ok (Axis n d lag (Rltb last first)).
(** Source: frequency number [k] of an axis, filters/_fft.py:14-44. *)
Definition freq (a : axis) (k : nat) : R := (INR k - INR (a_n a / 2)) / (INR (a_n a) * a_d a).
(** Source: coordinate number [i] of an axis in increasing order, filters/_fft.py:14-44. *)
Definition position (a : axis) (i : nat) : R := a_lag a + (INR i - INR (a_n a / 2)) * a_d a.
(** Source: position in the array of the [i]-th coordinate in increasing order, filters/_fft.py:14-44. *)
Definition flip_index (a : axis) (i : nat) : nat := if a_rev a then (a_n a - 1 - i)%nat else i.

(** filters/_fft.py:14-44 [fft] *)
Definition fft (ay ax : axis) (v : nat -> nat -> R) (k l : nat) : C :=
  Cmult (RtoC (a_d ay * a_d ax))
    (csum2 (a_n ay) (a_n ax) (fun i j =>
       Cmult (RtoC (v (flip_index ay i) (flip_index ax j))) (cis (- (2 * PI * (freq ay k * position ay i + freq ax l * position ax j)))))).
(** filters/_fft.py:47-81 [ifft]; the axes carry the spacing and the lag that xrft recovers. *)
Definition ifft (ay ax : axis) (F : nat -> nat -> C) (i j : nat) : C :=
  Cmult (RtoC (/ (INR (a_n ay) * a_d ay) * / (INR (a_n ax) * a_d ax)))
    (csum2 (a_n ay) (a_n ax) (fun k l =>
       Cmult (F k l) (cis (2 * PI * (freq ay k * position ay i + freq ax l * position ax j))))).

(** ** Filters: response for the northing and easting frequencies; [None] is not a number. *)
(** Source: values of the functions of filters/_filters.py:16-457. *)
Definition response := R -> R -> option C.
(** Source: angular wavenumber, filters/_filters.py:16-457. *)
Definition k_of (f : R) : R := 2 * PI * f.
(** filters/_filters.py:16-67 *)
Definition derivative_upward_kernel (order : nat) : response := fun fn fe =>
  let k_easting := k_of fe in let k_northing := k_of fn in
  Some (RtoC ((- sqrt (k_easting ^ 2 + k_northing ^ 2)) ^ order)).
(** filters/_filters.py:70-121 *)
Definition derivative_easting_kernel (order : nat) : response := fun fn fe =>
  let k_easting := k_of fe in Some (cpow (Cmult (RtoC k_easting) Ci) order).
(** filters/_filters.py:124-175 *)
Definition derivative_northing_kernel (order : nat) : response := fun fn fe =>
  let k_northing := k_of fn in Some (cpow (Cmult (RtoC k_northing) Ci) order).
(** filters/_filters.py:178-232 *)
Definition upward_continuation_kernel (height_displacement : R) : response := fun fn fe =>
  let k_easting := k_of fe in let k_northing := k_of fn in
  Some (RtoC (exp (- sqrt (k_easting ^ 2 + k_northing ^ 2) * height_displacement))).
(** filters/_filters.py:235-295; the division of two Python floats fails for a zero wavelength. *)
Definition gaussian_lowpass_kernel (wavelength : R) : res response :=
  if Reqb wavelength 0 then Raise ZeroDivisionError else Ok (fun fn fe =>
  let k_easting := k_of fe in let k_northing := k_of fn in
  Some (RtoC (exp (- (k_easting ^ 2 + k_northing ^ 2) / (2 * (2 * PI / wavelength) ^ 2))))).
(** filters/_filters.py:298-358 *)
Definition gaussian_highpass_kernel (wavelength : R) : res response :=
  if Reqb wavelength 0 then Raise ZeroDivisionError else Ok (fun fn fe =>
  let k_easting := k_of fe in let k_northing := k_of fn in
  Some (RtoC (1 - exp (- (k_easting ^ 2 + k_northing ^ 2) / (2 * (2 * PI / wavelength) ^ 2))))).
(** [z ** (-1)] for numpy complex numbers: not a number for zero. Source: filters/_filters.py:361-457. *)
Definition cinv (z : C) : option C := if Req_EM_T (Re z) 0 then if Req_EM_T (Im z) 0 then None else Some (Cinv z) else Some (Cinv z).
(** Source: product of values that may be NaN, filters/_filters.py:361-457. *)
Definition omul (a b : option C) : option C := match a, b with Some x, Some y => Some (Cmult x y) | _, _ => None end.
(** filters/_filters.py:361-457; [np.radians(None)] is a TypeError. *)
Definition reduction_to_pole_kernel (inclination declination : R) (magnetization_inclination magnetization_declination : option R) : res response :=
  match magnetization_inclination, magnetization_declination with
  | Some mi, Some md =>
    Ok (fun fn fe =>
      let k_easting := k_of fe in let k_northing := k_of fn in
      let '(m_e, m_n, m_u) := magnetic_angles_to_vec 1 mi md in
      let '(f_e, f_n, f_u) := magnetic_angles_to_vec 1 inclination declination in
      let m_z := - m_u in
      let f_z := - f_u in
      let k_squared := k_northing ^ 2 + k_easting ^ 2 in
      let k := sqrt k_squared in
      let da_filter := omul (omul (Some (RtoC k_squared)) (cinv (f_z * k, f_e * k_easting + f_n * k_northing)))
                            (cinv (m_z * k, m_e * k_easting + m_n * k_northing)) in
      if (Reqb fn 0 && Reqb fe 0)%bool then Some (RtoC 0) else da_filter)
  | _, _ => Raise TypeError
  end.

(** ** Grids *)
(** Source: a non-dimensional coordinate, filters/_utils.py:80. *)
Record extra := Extra { x_name : string; x_dims : list string; x_values : list num }.
(** Source: the xarray.DataArray of filters/_utils.py:17-117. *)
Record grid := Grid { g_dims : list string; g_y : list R; g_x : list R; g_val : nat -> nat -> num; g_extra : list extra }.
(** Source: size of the first dimension, filters/_utils.py:87. *)
Definition ny (g : grid) := length (g_y g).
(** Source: size of the second dimension, filters/_utils.py:87. *)
Definition nx (g : grid) := length (g_x g).
(** Source: the number behind a value; only used once NaN is excluded, filters/_utils.py:76. *)
Definition finite (x : num) : R := match x with Fin r => r | NaN => 0 end.

(** filters/_utils.py:120-149 [grid_sanity_checks] *)
Definition grid_sanity_checks (g : grid) : res unit :=
  if negb (Nat.eqb (length (g_dims g)) 2) then Raise ValueError else
  if existsb (fun i => existsb (fun j => isnan (g_val g i j)) (range 0 (nx g))) (range 0 (ny g)) then Raise ValueError else Ok tt.

Section External.
Variable even_fft even_pad : list R -> bool.
Variable border : string -> option R -> nat -> nat -> (nat -> nat -> R) -> nat -> nat -> R.

(** The [pad_kwargs] dictionary: entries that are present.  [kw_const] is the entry "constant_values". Source: filters/_utils.py:74-93. *)
Record pad_kw := PadKw { kw_width : option (nat * nat); kw_mode : option string; kw_const : option (option R) }.
(** Source: filters/_utils.py:75. *)
Definition empty_kw := PadKw None None None.

(** Source: coordinates made by xrft.pad, filters/_utils.py:94. *)
Definition pad_axis (w : nat) (l : list R) : res (list R) :=
  let n := length l in
  if Nat.ltb n 2 then Raise IndexError else
  if negb (even_pad l) then Raise ValueError else
  let d := nth 1 l 0 - nth 0 l 0 in
  Ok (map (fun i => nth 0 l 0 - INR (w - i) * d) (range 0 w) ++ l ++ map (fun i => nth (n - 1) l 0 + INR (i + 1) * d) (range 0 w)).
(** Source: nearest cell of the grid, filters/_utils.py:94. *)
Definition clamp (w n i : nat) : nat := Nat.min (i - w) (n - 1).
(** Source: values made by xrft.pad, filters/_utils.py:94. *)
Definition pad_values (mode : string) (const : option R) (ny nx wy wx : nat) (v : nat -> nat -> R) (i j : nat) : R :=
  if (Nat.leb wy i && Nat.ltb i (wy + ny) && Nat.leb wx j && Nat.ltb j (wx + nx))%bool then v (i - wy)%nat (j - wx)%nat
  else if String.eqb mode "edge" then v (clamp wy ny i) (clamp wx nx j)
  else border mode const wy wx v i j.

(** Source: the filter has no NaN on the frequencies of the grid, filters/_utils.py:96-101. *)
Definition all_finite (ay ax : axis) (H : response) : bool :=
  forallb (fun k => forallb (fun l => match H (freq ay k) (freq ax l) with Some _ => true | None => false end) (range 0 (a_n ax))) (range 0 (a_n ay)).
(** Source: the number behind a value; only used once NaN is excluded, filters/_utils.py:96-101. *)
Definition some_c (o : option C) : C := match o with Some z => z | None => RtoC 0 end.
(** filters/_utils.py:96-101: Fourier transform, product with the filter, real part of the inverse transform;
    one coefficient that is not a number spoils every value. *)
Definition filter_values (y x : list R) (v : nat -> nat -> R) (fft_filter : res response) : res (nat -> nat -> num) :=
  do ay <- axis_of even_fft y;
  do ax <- axis_of even_fft x;
  do H <- fft_filter;
  if all_finite ay ax H
  then Ok (fun i j => Fin (Re (ifft ay ax (fun k l => Cmult (fft ay ax v k l) (some_c (H (freq ay k) (freq ax l)))) i j)))
  else Ok (fun i j => NaN).

(** filters/_utils.py:17-117 [apply_filter]; returns also the caller's [pad_kwargs] after the call. *)
Definition apply_filter (g : grid) (fft_filter : res response) (pad : bool) (pad_kwargs : option pad_kw) (drop_coords : bool) : res (grid * option pad_kw) :=
  let kw := match pad_kwargs with None => empty_kw | Some kw => kw end in
  do _ <- grid_sanity_checks g;
  let v := fun i j => finite (g_val g i j) in
  let extras := if drop_coords then [] else g_extra g in
  if pad then
    let '(wy, wx) := match kw_width kw with Some w => w | None => ((ny g / 4)%nat, (nx g / 4)%nat) end in
    let mode := match kw_mode kw with Some m => m | None => "edge" end in
    let const := match kw_const kw with Some c => c | None => None end in
    do py <- pad_axis wy (g_y g);
    do px <- pad_axis wx (g_x g);
    do out <- filter_values py px (pad_values mode const (ny g) (nx g) wy wx v) fft_filter;
    Ok (Grid (g_dims g) (g_y g) (g_x g) (fun i j => out (wy + i)%nat (wx + j)%nat) extras,
        match pad_kwargs with None => None | Some _ => Some (PadKw (Some (wy, wx)) (Some mode) (Some const)) end)
  else
    do out <- filter_values (g_y g) (g_x g) v fft_filter;
    Ok (Grid (g_dims g) (g_y g) (g_x g) out extras, pad_kwargs).

(** ** Finite differences *)
(** numpy.gradient with the coordinates of the axis; equal or not, the spacings enter the same formula
    (numpy's shortcut for equal spacings is the same real number). Not a number when coordinates repeat. Source: inside DataArray.differentiate, _transformations.py:76-225. *)
Definition ndiv (x : num) (y : R) : num := match x with Fin a => if Req_EM_T y 0 then NaN else Fin (a / y) | NaN => NaN end.
(** Source: inside DataArray.differentiate, _transformations.py:76-225. *)
Definition nsub := nop Rminus.
(** Source: inside DataArray.differentiate, _transformations.py:76-225. *)
Definition nadd := nop Rplus.
(** Source: inside DataArray.differentiate, _transformations.py:76-225. *)
Definition nscale (k : R) (x : num) : num := nop Rmult (Fin k) x.
(** Source: numpy.gradient inside DataArray.differentiate, _transformations.py:76-225. *)
Definition gradient (l : list R) (f : nat -> num) (i : nat) : num :=
  let x := fun i => nth i l 0 in
  let n := length l in
  if Nat.eqb i 0 then ndiv (nsub (f 1%nat) (f 0%nat)) (x 1%nat - x 0%nat)
  else if Nat.eqb i (n - 1) then ndiv (nsub (f (n - 1)%nat) (f (n - 2)%nat)) (x (n - 1)%nat - x (n - 2)%nat)
  else
    let dx1 := x i - x (i - 1)%nat in
    let dx2 := x (i + 1)%nat - x i in
    if (Reqb dx1 0 || Reqb dx2 0 || Reqb (dx1 + dx2) 0)%bool then NaN else
    let a := - dx2 / (dx1 * (dx1 + dx2)) in
    let b := (dx2 - dx1) / (dx1 * dx2) in
    let c := dx1 / (dx2 * (dx1 + dx2)) in
    nadd (nadd (nscale a (f (i - 1)%nat)) (nscale b (f i))) (nscale c (f (i + 1)%nat)).
(** xarray.DataArray.differentiate along dimension 0 (northing) or 1 (easting). Source: called in _transformations.py:76-225. *)
Definition differentiate (dimension_index : nat) (g : grid) : res grid :=
  let l := if Nat.eqb dimension_index 0 then g_y g else g_x g in
  if Nat.ltb (length l) 2 then Raise ValueError else
  Ok (Grid (g_dims g) (g_y g) (g_x g)
        (if Nat.eqb dimension_index 0 then fun i j => gradient l (fun i => g_val g i j) i else fun i j => gradient l (fun j => g_val g i j) j) (g_extra g)).

(** _transformations.py:592-616 [_get_dataarray_coordinate]: the dimension coordinate always exists here and
    counts as one coordinate along the dimension. *)
Definition _get_dataarray_coordinate (g : grid) (dimension_index : nat) : res string :=
  match nth_error (g_dims g) dimension_index with
  | None => Raise IndexError
  | Some dim_name =>
    let coords := dim_name :: map x_name (filter (fun e => match x_dims e with [d] => String.eqb d dim_name | _ => false end) (g_extra g)) in
    if Nat.ltb 1 (length coords) then Raise ValueError else
    match coords with c :: _ => Ok c | [] => Raise IndexError end
  end.

(** ** Transformations *)
(** _transformations.py:25-73 *)
Definition derivative_upward (g : grid) (order : nat) (pad : bool) (pad_kwargs : option pad_kw) :=
  apply_filter g (Ok (derivative_upward_kernel order)) pad pad_kwargs false.
(** Source: _transformations.py:76-225, the branch method == "finite-diff". *)
Definition finite_diff (g : grid) (dimension_index order : nat) (pad_kwargs : option pad_kw) : res (grid * option pad_kw) :=
  do _ <- _get_dataarray_coordinate g dimension_index;
  do g' <- for_ (range 0 order) (fun _ g => differentiate dimension_index g) g;
  Ok (g', pad_kwargs).
(** _transformations.py:76-149 *)
Definition derivative_easting (g : grid) (order : nat) (method : string) (pad : bool) (pad_kwargs : option pad_kw) : res (grid * option pad_kw) :=
  if String.eqb method "finite-diff" then finite_diff g 1 order pad_kwargs
  else if String.eqb method "fft" then apply_filter g (Ok (derivative_easting_kernel order)) pad pad_kwargs false
  else Raise ValueError.
(** _transformations.py:152-225 *)
Definition derivative_northing (g : grid) (order : nat) (method : string) (pad : bool) (pad_kwargs : option pad_kw) : res (grid * option pad_kw) :=
  if String.eqb method "finite-diff" then finite_diff g 0 order pad_kwargs
  else if String.eqb method "fft" then apply_filter g (Ok (derivative_northing_kernel order)) pad pad_kwargs false
  else Raise ValueError.
(** _transformations.py:228-283 *)
Definition upward_continuation (g : grid) (height_displacement : R) (pad : bool) (pad_kwargs : option pad_kw) :=
  apply_filter g (Ok (upward_continuation_kernel height_displacement)) pad pad_kwargs true.
(** _transformations.py:286-334 *)
Definition gaussian_lowpass (g : grid) (wavelength : R) (pad : bool) (pad_kwargs : option pad_kw) :=
  apply_filter g (gaussian_lowpass_kernel wavelength) pad pad_kwargs false.
(** _transformations.py:337-385 *)
Definition gaussian_highpass (g : grid) (wavelength : R) (pad : bool) (pad_kwargs : option pad_kw) :=
  apply_filter g (gaussian_highpass_kernel wavelength) pad pad_kwargs false.
(** _transformations.py:388-461 *)
Definition reduction_to_pole (g : grid) (inclination declination : R) (magnetization_inclination magnetization_declination : option R) (pad : bool) (pad_kwargs : option pad_kw) :=
  apply_filter g (reduction_to_pole_kernel inclination declination magnetization_inclination magnetization_declination) pad pad_kwargs false.

(** xarray arithmetic aligns the operands by their coordinates.  The model covers equal coordinates only;
    anything else is reported as a ValueError (xarray would keep the common coordinates). Source: equality of coordinates, _transformations.py:464-589. *)
Definition list_eqb (a b : list R) : bool := (Nat.eqb (length a) (length b) && forallb (fun p => Reqb (fst p) (snd p)) (combine a b))%bool.
(** Source: alignment of two grids, _transformations.py:464-589. *)
Definition aligned (a b : grid) : bool := (list_eqb (g_y a) (g_y b) && list_eqb (g_x a) (g_x b))%bool.
(** Source: a grid with other values, _transformations.py:464-589. *)
Definition with_values (g : grid) (v : nat -> nat -> num) : grid := Grid (g_dims g) (g_y g) (g_x g) v (g_extra g).
(** Source: a function of values that may be NaN, _transformations.py:464-523. *)
Definition nmap (f : R -> R) (x : num) : num := match x with Fin a => Fin (f a) | NaN => NaN end.

(** _transformations.py:464-523 *)
Definition total_gradient_amplitude (g : grid) (pad : bool) (pad_kwargs : option pad_kw) : res (grid * option pad_kw) :=
  do _ <- grid_sanity_checks g;
  do (ge, kw1) <- derivative_easting g 1 "finite-diff" pad pad_kwargs;
  do (gn, kw2) <- derivative_northing g 1 "finite-diff" pad kw1;
  do (gu, kw3) <- derivative_upward g 1 pad kw2;
  if negb (aligned ge gn && aligned ge gu)%bool then Raise ValueError else
  let sq := fun x => nop Rmult x x in
  Ok (with_values ge (fun i j => nmap sqrt (nadd (nadd (sq (g_val ge i j)) (sq (g_val gn i j))) (sq (g_val gu i j)))), kw3).
(** _transformations.py:526-589 *)
Definition tilt_angle (g : grid) (pad : bool) (pad_kwargs : option pad_kw) : res (grid * option pad_kw) :=
  do _ <- grid_sanity_checks g;
  do (ge, kw1) <- derivative_easting g 1 "finite-diff" pad pad_kwargs;
  do (gn, kw2) <- derivative_northing g 1 "finite-diff" pad kw1;
  do (gu, kw3) <- derivative_upward g 1 pad kw2;
  if negb (aligned ge gn && aligned ge gu)%bool then Raise ValueError else
  let horiz_deriv := fun i j => nop (fun a b => sqrt (a ^ 2 + b ^ 2)) (g_val ge i j) (g_val gn i j) in
  Ok (with_values gu (fun i j => nop arctan2 (g_val gu i j) (horiz_deriv i j)), kw3).
End External.
