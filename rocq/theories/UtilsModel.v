(** Model of /repo/src/harmonica/_utils.py (magnetic angles and total field anomaly),
    _gravity_corrections.py and _isostasy.py.  numpy applies these formulas elementwise; except where an
    array is mentioned the model gives the value of one element. *)
From Verif Require Import Base NumPy DistanceModel PointGravityModel.
Local Open Scope string_scope. Local Open Scope list_scope. Local Open Scope R_scope.

(** numpy.arctan2 (external, documented); signed zeros are not distinguished. Source: harmonica/_utils.py:77-158, _transformations.py:526-589. *)
Definition arctan2 (y x : R) : R :=
  if Rlt_dec 0 x then atan (y / x)
  else if Rlt_dec x 0 then (if Rle_dec 0 y then atan (y / x) + PI else atan (y / x) - PI)
  else if Rlt_dec 0 y then PI / 2
  else if Rlt_dec y 0 then - PI / 2 else 0.
(** Source: [np.degrees], harmonica/_utils.py:77-158. *)
Definition degrees (x : R) : R := x * 180 / PI.

(** _utils.py:28-74 [magnetic_angles_to_vec]: (easting, northing, upward). *)
Definition magnetic_angles_to_vec (intensity inclination declination : R) : R * R * R :=
  let inc_rad := radians inclination in
  let dec_rad := radians declination in
  let magnetic_e := intensity * cos inc_rad * sin dec_rad in
  let magnetic_n := intensity * cos inc_rad * cos dec_rad in
  let magnetic_u := - intensity * sin inc_rad in
  (magnetic_e, magnetic_n, magnetic_u).

(** _utils.py:77-158 [magnetic_vec_to_angles] *)
Definition magnetic_vec_to_angles (magnetic_e magnetic_n magnetic_u : R) (to_degrees : bool) : R * R * R :=
  let intensity := sqrt (magnetic_e ^ 2 + magnetic_n ^ 2 + magnetic_u ^ 2) in
  let horizontal_component := sqrt (magnetic_e ^ 2 + magnetic_n ^ 2) in
  let inclination := arctan2 (- magnetic_u) horizontal_component in
  let declination := arctan2 magnetic_e magnetic_n in
  if to_degrees then (intensity, degrees inclination, degrees declination) else (intensity, inclination, declination).

(** _utils.py:161-211 [total_field_anomaly] *)
Definition total_field_anomaly (magnetic_field : R * R * R) (inclination declination : R) : R :=
  let '(b_e, b_n, b_u) := magnetic_field in
  let '(f_e, f_n, f_u) := magnetic_angles_to_vec 1 inclination declination in
  b_e * f_e + b_n * f_n + b_u * f_u.

(** constants.py:12 *)
Definition GRAVITATIONAL_CONST : R := 66743 / 10 ^ 15.
(** _gravity_corrections.py:16-78 [bouguer_correction] of an array of heights that may be NaN. *)
Definition bouguer_correction (topography : list num) (density_crust density_water : R) : list num :=
  let oceans := map (fun t => nltb t (Fin 0)) topography in
  let density := map (fun o : bool => if o then -1 * (density_water - density_crust) else density_crust) oceans in
  map (fun dt => nop Rmult (Fin (10 ^ 5 * 2 * PI * GRAVITATIONAL_CONST * fst dt)) (snd dt)) (combine density topography).

(** Values in _isostasy.py: a Python or numpy scalar or an array (of one common shape) of some type.
    Arithmetic between them gives an integer array only from integers; in place operators on an array
    keep its type and raise TypeError when the result is a float. *)
Inductive value := Sc (x : R) | IntArr (l : list R) | FloatArr (l : list R).
(** Source: the elements of a value of [n] elements, _isostasy.py:14-161. *)
Definition elts (v : value) (n : nat) : list R := match v with Sc x => repeat x n | IntArr l | FloatArr l => l end.
(** Source: number of elements of an array, _isostasy.py:14-161. *)
Definition value_size (v : value) : option nat := match v with Sc _ => None | IntArr l | FloatArr l => Some (length l) end.
(** Source: elementwise operation, _isostasy.py:14-161. *)
Definition zip_with (op : R -> R -> R) (a b : list R) : list R := map (fun xy => op (fst xy) (snd xy)) (combine a b).
(** Scalars are taken as floats when combined with a float array and as integers with an integer array
    (the densities and thicknesses given with integer arrays are integers in that case). Source: the operators of _isostasy.py:14-161. *)
Definition binary (op : R -> R -> R) (a b : value) : value :=
  match a, b with
  | Sc x, Sc y => Sc (op x y)
  | Sc x, IntArr l => IntArr (map (op x) l)
  | Sc x, FloatArr l => FloatArr (map (op x) l)
  | IntArr l, Sc y => IntArr (map (fun x => op x y) l)
  | FloatArr l, Sc y => FloatArr (map (fun x => op x y) l)
  | IntArr l, IntArr l' => IntArr (zip_with op l l')
  | FloatArr l, IntArr l' | FloatArr l, FloatArr l' | IntArr l, FloatArr l' => FloatArr (zip_with op l l')
  end.
(** [a += b]; source: _isostasy.py:14-161. *)
Definition iadd (a b : value) : res value :=
  match a, b with
  | IntArr _, FloatArr _ => Raise TypeError
  | _, _ => Ok (binary Rplus a b)
  end.
(** [a /= b]: true division always gives floats. Source: _isostasy.py:14-161. *)
Definition itruediv (a b : value) : res value :=
  match a with
  | IntArr _ => Raise TypeError
  | _ => Ok (match binary Rdiv a b with IntArr l => FloatArr l | v => v end)
  end.
(** Source: [a / b], _isostasy.py:14-161. *)
Definition truediv (a b : value) : value := match binary Rdiv a b with IntArr l => FloatArr l | v => v end.

(** _isostasy.py:14-161 [isostatic_moho_airy]; [layers] gives thickness and density of each layer.
    Attributes of the result are not modelled.  All arrays have the same shape. *)
Definition isostatic_moho_airy (basement : value) (layers : option (list (value * value))) (density_crust density_mantle reference_depth : value) : res value :=
  do layers_equivalent_topography <-
    match layers with
    | None => Ok (Sc 0)
    | Some ls =>
        do s <- for_ ls (fun td s => iadd s (binary Rmult (fst td) (snd td))) (Sc 0);
        itruediv s density_crust
    end;
  let rock_equivalent_topography := binary Rplus basement layers_equivalent_topography in
  let scale := truediv density_crust (binary Rminus density_mantle density_crust) in
  Ok (binary Rplus (binary Rmult rock_equivalent_topography scale) reference_depth).
