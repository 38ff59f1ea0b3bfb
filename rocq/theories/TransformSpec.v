(** Specification vocabulary for grid transformations: regular grids and band limited harmonic fields. *)
From Coquelicot Require Import Coquelicot.
From Verif Require Import Base NumPy UtilsModel UtilsSpec TransformModel.
Local Open Scope string_scope. Local Open Scope list_scope. Local Open Scope R_scope.
Local Notation C := Complex.C.

(** [n] coordinates from [x0] with step [d]. *)
Definition even_axis (x0 d : R) (n : nat) : list R := map (fun i => x0 + INR i * d) (range 0 n).
(** A 2-D grid with exactly evenly spaced increasing coordinates and no missing values. *)
Record regular (g : grid) (y0 dy x0 dx : R) : Prop := {
  r_dims : length (g_dims g) = 2%nat;
  r_y : g_y g = even_axis y0 dy (ny g); r_x : g_x g = even_axis x0 dx (nx g);
  r_dy : 0 < dy; r_dx : 0 < dx; r_ny : (2 <= ny g)%nat; r_nx : (2 <= nx g)%nat;
  r_val : forall i j, (i < ny g)%nat -> (j < nx g)%nat -> g_val g i j <> NaN }.
(** xrft accepts exactly evenly spaced coordinates. *)
Definition accepts_even (even : list R -> bool) : Prop := forall x0 d n, 0 < d -> (2 <= n)%nat -> even (even_axis x0 d n) = true.
(** The value of a grid at a node. *)
Definition val (g : grid) (i j : nat) : R := finite (g_val g i j).
Definition inside (g : grid) (i j : nat) : Prop := (i < ny g)%nat /\ (j < nx g)%nat.
Definition same_nodes (g h : grid) : Prop := g_dims h = g_dims g /\ g_y h = g_y g /\ g_x h = g_x g.
(** Sum of squares of the values of a grid. *)
Definition sum_squares (g : grid) : R := sum_over (range 0 (ny g)) (fun i => sum_over (range 0 (nx g)) (fun j => val g i j ^ 2)).

(** Harmonic fields above the plane u = 0 of waves that fit the grid a whole number of times (below the Nyquist
    wavenumber): number of periods along northing and easting, cosine and sine amplitudes. *)
Record plane_wave := Wave { w_p : Z; w_q : Z; w_cos : R; w_sin : R }.
Definition wavenumber (n : nat) (d : R) (p : Z) : R := 2 * PI * IZR p / (INR n * d).
Definition resolved (n m : nat) (w : plane_wave) : Prop := (2 * Z.abs (w_p w) < Z.of_nat n)%Z /\ (2 * Z.abs (w_q w) < Z.of_nat m)%Z.
Definition wave_value (n m : nat) (dy dx : R) (w : plane_wave) (north east up : R) : R :=
  let kn := wavenumber n dy (w_p w) in let ke := wavenumber m dx (w_q w) in
  (w_cos w * cos (kn * north + ke * east) + w_sin w * sin (kn * north + ke * east)) * exp (- sqrt (ke ^ 2 + kn ^ 2) * up).
Definition field_value (n m : nat) (dy dx : R) (ws : list plane_wave) (north east up : R) : R :=
  sum_over ws (fun w => wave_value n m dy dx w north east up).
(** The grid samples the field on the plane u = 0. *)
Definition samples (g : grid) (F : R -> R -> R -> R) : Prop :=
  forall i j, inside g i j -> val g i j = F (nth i (g_y g) 0) (nth j (g_x g) 0) 0.
(** Directional derivative along a vector (easting, northing, upward) of a function of (northing, easting, upward). *)
Definition along (d : vec3) (F : R -> R -> R -> R) (n e u : R) : R :=
  vx d * Derive (fun e => F n e u) e + vy d * Derive (fun n => F n e u) n + vz d * Derive (fun u => F n e u) u.
(** Increasing coordinates, evenly spaced or not. *)
Definition increasing (l : list R) : Prop := forall i, (S i < length l)%nat -> nth i l 0 < nth (S i) l 0.
(** Non-dimensional coordinates along one dimension. *)
Definition along_dim (dim : string) (e : extra) : Prop := x_dims e = [dim].
(** The mean of the values of a grid. *)
Definition mean (g : grid) : R := sum_over (range 0 (ny g)) (fun i => sum_over (range 0 (nx g)) (fun j => val g i j)) / (INR (ny g) * INR (nx g)).
Definition height_of (r : res (grid * option pad_kw)) (i j : nat) : R := match r with Ok (g, _) => val g i j | Raise _ => 0 end.
(** The transformations that filter in the wavenumber domain: whether they keep the non-dimensional coordinates,
    the arguments for which they are defined, and the function of the grid, [pad] and [pad_kwargs]. *)
Inductive transformation (ef ep : list R -> bool) (bd : string -> option R -> nat -> nat -> (nat -> nat -> R) -> nat -> nat -> R) :
  bool -> Prop -> (grid -> bool -> option pad_kw -> res (grid * option pad_kw)) -> Prop :=
| T_upward order : transformation ef ep bd true True (fun g pad kw => derivative_upward ef ep bd g order pad kw)
| T_easting order : transformation ef ep bd true True (fun g pad kw => derivative_easting ef ep bd g order "fft" pad kw)
| T_northing order : transformation ef ep bd true True (fun g pad kw => derivative_northing ef ep bd g order "fft" pad kw)
| T_continuation h : transformation ef ep bd false True (fun g pad kw => upward_continuation ef ep bd g h pad kw)
| T_lowpass l : transformation ef ep bd true (l <> 0) (fun g pad kw => gaussian_lowpass ef ep bd g l pad kw)
| T_highpass l : transformation ef ep bd true (l <> 0) (fun g pad kw => gaussian_highpass ef ep bd g l pad kw)
| T_pole i d mi md : transformation ef ep bd true (sin (radians i) <> 0 /\ sin (radians mi) <> 0) (fun g pad kw => reduction_to_pole ef ep bd g i d (Some mi) (Some md) pad kw).
(** Coordinates that xrft can transform: at least two, evenly spaced, the first two different. *)
Definition axis_ok (even : list R -> bool) (l : list R) : Prop := (2 <= length l)%nat /\ even l = true /\ nth 1 l 0 <> nth 0 l 0.
(** No other coordinate lies along one of the two dimensions. *)
Definition plain (g : grid) : Prop := forall e d, In e (g_extra g) -> In d (g_dims g) -> ~ along_dim d e.
