(** Model of the prism functions: /repo/src/harmonica/_forward/prisms/{utils,gravity,magnetic}.py and
    /repo/src/harmonica/visualization/_prism.py.
    Floats are reals ([num] where NaN matters); [parallel] only selects the schedule of the same loop
    (ScheduleModel) and [dtype] is float64.  The kernels of choclo.prism are external: they are
    arguments of the model (functions of the observation point, the prism and its property). *)
From Verif Require Import Base NumPy DistanceModel PointGravityModel.
Local Open Scope string_scope. Local Open Scope list_scope. Local Open Scope R_scope.

(** One row of a prisms array: west, east, south, north, bottom, top. Source: prisms/gravity.py:204. *)
Record prism_of (A : Type) := Prism { p_west : A; p_east : A; p_south : A; p_north : A; p_bottom : A; p_top : A }.
Arguments Prism {A}. Arguments p_west {A}. Arguments p_east {A}. Arguments p_south {A}. Arguments p_north {A}. Arguments p_bottom {A}. Arguments p_top {A}.
(** Source: rows of finite numbers, prisms/gravity.py:204. *)
Definition prism : Type := prism_of R.

(** prisms/utils.py:12-43 [check_prisms]: the three whole-array comparisons in their order ([gtb] is the
    elementwise [>]). *)
Definition check_prisms {A} (gtb : A -> A -> bool) (prisms : list (prism_of A)) : res unit :=
  let bad_we := map (fun p => gtb (p_west p) (p_east p)) prisms in
  let bad_sn := map (fun p => gtb (p_south p) (p_north p)) prisms in
  let bad_bt := map (fun p => gtb (p_bottom p) (p_top p)) prisms in
  if existsb (fun b => b) bad_we then Raise ValueError
  else if existsb (fun b => b) bad_sn then Raise ValueError
  else if existsb (fun b => b) bad_bt then Raise ValueError
  else Ok tt.
(** Source: prisms/utils.py:12-43 on finite boundaries. *)
Definition check_prisms_R : list prism -> res unit := check_prisms (fun x y => Rltb y x).
(** Source: prisms/utils.py:12-43 on boundaries that may be NaN. *)
Definition check_prisms_num : list (prism_of num) -> res unit := check_prisms (fun x y => nltb y x).

(** A kernel of choclo.prism: easting, northing, upward, prism, property. Source: imported in prisms/gravity.py:14-25. *)
Definition prism_kernel (P : Type) := R -> R -> R -> prism -> P -> R.

(** prisms/gravity.py:37-48 [FIELDS]: name of the choclo function used for each field. *)
Definition FIELDS : list (string * string) :=
  [("potential", "gravity_pot"); ("g_e", "gravity_e"); ("g_n", "gravity_n"); ("g_z", "gravity_u");
   ("g_ee", "gravity_ee"); ("g_nn", "gravity_nn"); ("g_zz", "gravity_uu");
   ("g_en", "gravity_en"); ("g_ez", "gravity_eu"); ("g_nz", "gravity_nu")].

(** choclo.prism._utils (external, documented): is the point on an edge parallel to the axis?; source: imported in prisms/gravity.py:26-30. *)
Definition on_bound (x lo hi : R) : bool := (Reqb x lo || Reqb x hi)%bool.
(** Source: helper of the three functions below, prisms/gravity.py:26-30. *)
Definition within (x lo hi : R) : bool := (Rleb lo x && Rleb x hi)%bool.
(** Source: imported in prisms/gravity.py:26-30. *)
Definition is_point_on_easting_edge (e n u : R) (p : prism) : bool :=
  (within e (p_west p) (p_east p) && on_bound n (p_south p) (p_north p) && on_bound u (p_bottom p) (p_top p))%bool.
(** Source: imported in prisms/gravity.py:26-30. *)
Definition is_point_on_northing_edge (e n u : R) (p : prism) : bool :=
  (within n (p_south p) (p_north p) && on_bound e (p_west p) (p_east p) && on_bound u (p_bottom p) (p_top p))%bool.
(** Source: imported in prisms/gravity.py:26-30. *)
Definition is_point_on_upward_edge (e n u : R) (p : prism) : bool :=
  (within u (p_bottom p) (p_top p) && on_bound e (p_west p) (p_east p) && on_bound n (p_south p) (p_north p))%bool.

(** prisms/gravity.py:272-449: the six [_any_singular_point_*] share one double loop with early return;
    [test] is the condition of the respective function. *)
Fixpoint any_point_prism (test : R -> R -> R -> prism -> bool) (n_prisms : list prism) (e n u : R) : bool :=
  match n_prisms with
  | [] => false
  | p :: rest => if test e n u p then true else any_point_prism test rest e n u
  end.
(** Source: prisms/gravity.py:272-449, the loop over the points. *)
Fixpoint any_loop (test : R -> R -> R -> prism -> bool) (is : list nat) (easting northing upward : list R) (prisms : list prism) : res bool :=
  match is with
  | [] => Ok false
  | i :: is' =>
      match prisms with
      | [] => any_loop test is' easting northing upward prisms
      | _ =>
        do e <- aget easting i; do n <- aget northing i; do u <- aget upward i;
        if any_point_prism test prisms e n u then Ok true else any_loop test is' easting northing upward prisms
      end
  end.
(** Source: prisms/gravity.py:272-449. *)
Definition any_singular_point (test : R -> R -> R -> prism -> bool) (coordinates : list R * list R * list R) (prisms : list prism) : res bool :=
  let '(easting, northing, upward) := coordinates in
  any_loop test (range 0 (length easting)) easting northing upward prisms.
(** Source: condition in prisms/gravity.py:273-304. *)
Definition test_g_ee e n u p := (is_point_on_northing_edge e n u p || is_point_on_upward_edge e n u p)%bool.
(** Source: condition in prisms/gravity.py:308-339. *)
Definition test_g_nn e n u p := (is_point_on_easting_edge e n u p || is_point_on_upward_edge e n u p)%bool.
(** Source: condition in prisms/gravity.py:343-374. *)
Definition test_g_zz e n u p := (is_point_on_easting_edge e n u p || is_point_on_northing_edge e n u p)%bool.
(** Source: condition in prisms/gravity.py:378-399. *)
Definition test_g_en e n u p := is_point_on_upward_edge e n u p.
(** Source: condition in prisms/gravity.py:403-424. *)
Definition test_g_ez e n u p := is_point_on_northing_edge e n u p.
(** Source: condition in prisms/gravity.py:428-449. *)
Definition test_g_nz e n u p := is_point_on_easting_edge e n u p.

(** prisms/gravity.py:239-269 [_check_singular_points]; [true] = a warning was issued. *)
Definition check_singular_points (coordinates : list R * list R * list R) (prisms : list prism) (field : string) : res bool :=
  match lookup field [("g_ee", test_g_ee); ("g_nn", test_g_nn); ("g_zz", test_g_zz);
                      ("g_en", test_g_en); ("g_ez", test_g_ez); ("g_nz", test_g_nz)] with
  | None => Ok false
  | Some test => any_singular_point test coordinates prisms
  end.

(** [a[mask]] for a boolean mask; numpy raises IndexError when the lengths differ. Source: prisms/gravity.py:484-485, prisms/magnetic.py:438-439. *)
Definition keep_mask {A} (l : list A) (mask : list bool) : res (list A) :=
  if Nat.eqb (length l) (length mask) then Ok (map fst (filter snd (combine l mask))) else Raise IndexError.
(** [a[mask] = True]; source: prisms/gravity.py:482, prisms/magnetic.py:436. *)
Definition mark (null mask : list bool) : res (list bool) :=
  if Nat.eqb (length null) (length mask) then Ok (map (fun ab => orb (fst ab) (snd ab)) (combine null mask)) else Raise IndexError.

(** Source: prisms/gravity.py:480, prisms/magnetic.py:432. *)
Definition no_volume (p : prism) : bool :=
  (Reqb (p_west p) (p_east p) || Reqb (p_south p) (p_north p) || Reqb (p_bottom p) (p_top p))%bool.

(** prisms/gravity.py:452-486 [_discard_null_prisms] *)
Definition discard_null_prisms (prisms : list prism) (density : list R) : res (list prism * list R) :=
  let null_prisms := map no_volume prisms in
  do null_prisms <- mark null_prisms (map (fun d => Reqb d 0) density);
  do prisms <- keep_mask prisms (map negb null_prisms);
  do density <- keep_mask density (map negb null_prisms);
  Ok (prisms, density).

(** prisms/gravity.py:489-540 [jit_prism_gravity] *)
Definition jit_prism_gravity (coordinates : list R * list R * list R) (prisms : list prism) (density : list R)
  (forward_func : prism_kernel R) (out : list R) : res (list R) :=
  let '(easting, northing, upward) := coordinates in
  accumulate (length easting) (length prisms) (fun i j =>
    do e <- aget easting i; do n <- aget northing i; do u <- aget upward i;
    do p <- aget prisms j; do d <- aget density j;
    Ok (forward_func e n u p d)) out.

(** prisms/gravity.py:227-235 (and layer.py:424-432): signs and units applied in place. *)
Definition prism_units (field : string) (result : list R) : list R :=
  let result := if mem field ["g_z"; "g_ez"; "g_nz"] then map (Rmult (-1)) result else result in
  let result := if mem field ["g_e"; "g_n"; "g_z"] then map (Rmult (10 ^ 5)) result else result in
  if mem field ["g_ee"; "g_nn"; "g_zz"; "g_en"; "g_ez"; "g_nz"] then map (Rmult (10 ^ 9)) result else result.

Section Kernels.
(** choclo.prism's gravity functions by name (external). *)
Variable choclo : string -> prism_kernel R.

(** prisms/gravity.py:51-236 [prism_gravity]; the boolean of the result tells whether the singular point
    warning was issued. *)
Definition prism_gravity (coordinates : arr * arr * arr) (prisms : list prism) (density : arr) (field : string) (disable_checks : bool)
  : res (arr * bool) :=
  let '(c0, c1, c2) := coordinates in
  match lookup field FIELDS with
  | None => Raise ValueError
  | Some func =>
    do cast_shape <- broadcast3 c0 c1 c2;
    let result := repeat 0 (prod_shape cast_shape) in
    let coordinates := (ravel c0, ravel c1, ravel c2) in
    let density := ravel density in
    do warned <-
      (if disable_checks then Ok false
       else if negb (Nat.eqb (length density) (length prisms)) then Raise ValueError
       else do _ <- check_prisms_R prisms; check_singular_points coordinates prisms field);
    do pd <- discard_null_prisms prisms density;
    do result <- jit_prism_gravity coordinates (fst pd) (snd pd) (choclo func) result;
    Ok (Arr cast_shape (prism_units field result), warned)
  end.
End Kernels.

(** ** Magnetic fields *)
(** Source: a magnetization or magnetic moment, prisms/magnetic.py:434. *)
Definition moment : Type := R * R * R.

(** choclo.prism's magnetic functions (external): [magnetic_e], [magnetic_n], [magnetic_u] and
    [magnetic_field], which returns the three components. Source: imported in prisms/magnetic.py:14 and dipole.py:14. *)
Record magnetic_kernels (S : Type) := MagKernels {
  magnetic_e : R -> R -> R -> S -> R -> R -> R -> R;
  magnetic_n : R -> R -> R -> S -> R -> R -> R -> R;
  magnetic_u : R -> R -> R -> S -> R -> R -> R -> R;
  magnetic_field : R -> R -> R -> S -> R -> R -> R -> R * R * R }.
Arguments magnetic_e {S}. Arguments magnetic_n {S}. Arguments magnetic_u {S}. Arguments magnetic_field {S}.

(** [result[i] += ...] on three arrays in one double loop. Source: prisms/magnetic.py:317-335, dipole.py:329-344. *)
Definition accumulate3 (n m : nat) (contrib : nat -> nat -> res (R * R * R)) (out : list R * list R * list R) : res (list R * list R * list R) :=
  for_ (range 0 n) (fun i out =>
    for_ (range 0 m) (fun j out =>
      do c <- contrib i j;
      let '(c_e, c_n, c_u) := c in
      let '(b_e, b_n, b_u) := out in
      do x <- aget b_e i; do b_e <- aset b_e i (x + c_e);
      do x <- aget b_n i; do b_n <- aset b_n i (x + c_n);
      do x <- aget b_u i; do b_u <- aset b_u i (x + c_u);
      Ok (b_e, b_n, b_u)) out) out.

(** magnetic.py:275-338 [_jit_prism_magnetic_field] and 341-400 [_jit_prism_magnetic_component]; the same
    two loops as dipole.py:292-401, so the sources are abstract ([source j] loads source j). *)
Definition jit_magnetic_field {S} (kernels : magnetic_kernels S) (coordinates : list R * list R * list R) (n_sources : nat) (source : nat -> res S)
  (moments : list R * list R * list R) (out : list R * list R * list R) : res (list R * list R * list R) :=
  let '(easting, northing, upward) := coordinates in
  let '(mag_e, mag_n, mag_u) := moments in
  accumulate3 (length easting) n_sources (fun i j =>
    do e <- aget easting i; do n <- aget northing i; do u <- aget upward i;
    do s <- source j;
    do me <- aget mag_e j; do mn <- aget mag_n j; do mu <- aget mag_u j;
    Ok (magnetic_field kernels e n u s me mn mu)) out.
(** Source: prisms/magnetic.py:341-400, dipole.py:350-401. *)
Definition jit_magnetic_component {S} (forward_func : R -> R -> R -> S -> R -> R -> R -> R) (coordinates : list R * list R * list R)
  (n_sources : nat) (source : nat -> res S) (moments : list R * list R * list R) (result : list R) : res (list R) :=
  let '(easting, northing, upward) := coordinates in
  let '(mag_e, mag_n, mag_u) := moments in
  accumulate (length easting) n_sources (fun i j =>
    do e <- aget easting i; do n <- aget northing i; do u <- aget upward i;
    do s <- source j;
    do me <- aget mag_e j; do mn <- aget mag_n j; do mu <- aget mag_u j;
    Ok (forward_func e n u s me mn mu)) result.

(** magnetic.py:21-25 [FORWARD_FUNCTIONS] (dipole.py:20-24) *)
Definition forward_function {S} (kernels : magnetic_kernels S) (field : string) : option (R -> R -> R -> S -> R -> R -> R -> R) :=
  lookup field [("b_e", magnetic_e kernels); ("b_n", magnetic_n kernels); ("b_u", magnetic_u kernels)].

(** The common tail of magnetic.py:120-136 (with 139-272) and dipole.py:113-137 (with 140-271): the
    vector or one component, converted to nT and given the shape of the coordinates. *)
Definition nT (l : list R) : list R := map (Rmult (10 ^ 9)) l.
(** Source: prisms/magnetic.py:120-136 with 139-272, dipole.py:115-137 with 140-271. *)
Definition run_magnetic {S} (kernels : magnetic_kernels S) (coordinates : list R * list R * list R) (n_sources : nat) (source : nat -> res S)
  (moments : list R * list R * list R) (shape : list nat) (field : string) : res (list arr) :=
  let zeros := repeat 0 (prod_shape shape) in
  if String.eqb field "b" then
    do b <- jit_magnetic_field kernels coordinates n_sources source moments (zeros, zeros, zeros);
    let '(b_e, b_n, b_u) := b in
    Ok [Arr shape (nT b_e); Arr shape (nT b_n); Arr shape (nT b_u)]
  else
    match forward_function kernels field with
    | None => Raise KeyError
    | Some func =>
        do result <- jit_magnetic_component func coordinates n_sources source moments zeros;
        Ok [Arr shape (nT result)]
    end.
(** Source: prisms/magnetic.py:20, dipole.py:19. *)
Definition VALID_FIELDS : list string := ["b"; "b_e"; "b_n"; "b_u"].

(** Elementwise [a & b] of two boolean arrays with numpy broadcasting (one dimension). Source: prisms/magnetic.py:435. *)
Definition np_and (a b : list bool) : res (list bool) :=
  if Nat.eqb (length a) (length b) then Ok (map (fun ab => andb (fst ab) (snd ab)) (combine a b))
  else match a, b with
       | [x], _ => Ok (map (andb x) b)
       | _, [y] => Ok (map (andb y) a)
       | _, _ => Raise ValueError
       end.
(** Source: prisms/magnetic.py:435. *)
Definition is_zero (l : list R) : list bool := map (fun x => Reqb x 0) l.

(** magnetic.py:403-440 [_discard_null_prisms] *)
Definition discard_null_prisms_magnetic (prisms : list prism) (mags : list R * list R * list R) : res (list prism * (list R * list R * list R)) :=
  let null_prisms := map no_volume prisms in
  let '(mag_e, mag_n, mag_u) := mags in
  do null_mag <- np_and (is_zero mag_e) (is_zero mag_n);
  do null_mag <- np_and null_mag (is_zero mag_u);
  do null_prisms <- mark null_prisms null_mag;
  do prisms <- keep_mask prisms (map negb null_prisms);
  do mag_e <- keep_mask mag_e (map negb null_prisms);
  do mag_n <- keep_mask mag_n (map negb null_prisms);
  do mag_u <- keep_mask mag_u (map negb null_prisms);
  Ok (prisms, (mag_e, mag_n, mag_u)).

(** Unpacking [mag_e, mag_n, mag_u = magnetization]. Source: prisms/magnetic.py:434, dipole.py:327. *)
Definition unpack3 (l : list (list R)) : res (list R * list R * list R) :=
  match l with [a; b; c] => Ok (a, b, c) | _ => Raise ValueError end.

(** magnetic.py:28-136 [prism_magnetic] with [_run_sanity_checks] (443-457) *)
Definition prism_magnetic (kernels : magnetic_kernels prism) (coordinates : arr * arr * arr) (prisms : list prism) (magnetization : list arr)
  (field : string) (disable_checks : bool) : res (list arr) :=
  let '(c0, c1, c2) := coordinates in
  if negb (mem field VALID_FIELDS) then Raise ValueError else
  do cast_shape <- broadcast3 c0 c1 c2;
  let magnetization := map ravel magnetization in
  do _ <-
    (if disable_checks then Ok tt
     else if negb (Nat.eqb (length magnetization) 3) then Raise ValueError
     else if negb (Nat.eqb (length (hd [] magnetization)) (length prisms)) then Raise ValueError
     else check_prisms_R prisms);
  do mags <- unpack3 magnetization;
  do pm <- discard_null_prisms_magnetic prisms mags;
  run_magnetic kernels (ravel c0, ravel c1, ravel c2) (length (fst pm)) (aget (fst pm)) (snd pm) cast_shape field.

(** ** Dipoles *)
(** choclo.dipole (external, documented closed forms; [mu0] is its vacuum permeability).  The value on
    the dipole itself (NaN) is not modelled. *)
Section Dipole.
Variable mu0 : R.
(** Source: choclo.dipole, imported in dipole.py:14. *)
Definition dipole_component (axis : R -> R -> R -> R) (e n u : R) (s : R * R * R) (me mn mu : R) : R :=
  let '(ep, np, up) := s in
  let d := choclo_dist e n u ep np up in
  let re := (e - ep) / d in let rn := (n - np) / d in let ru := (u - up) / d in
  let dotproduct := me * re + mn * rn + mu * ru in
  mu0 / 4 / PI / d ^ 3 * (3 * dotproduct * axis re rn ru - axis me mn mu).
(** Source: choclo.dipole, imported in dipole.py:14. *)
Definition dipole_kernels : magnetic_kernels (R * R * R) :=
  let be := dipole_component (fun x _ _ => x) in
  let bn := dipole_component (fun _ y _ => y) in
  let bu := dipole_component (fun _ _ z => z) in
  MagKernels _ be bn bu (fun e n u s me mn mu => (be e n u s me mn mu, bn e n u s me mn mu, bu e n u s me mn mu)).

(** dipole.py:27-137 [dipole_magnetic] with [_check_dipoles_and_magnetic_moments] (274-289) *)
Definition dipole_magnetic (coordinates dipoles : arr * arr * arr) (magnetic_moments : list arr) (field : string) (disable_checks : bool)
  : res (list arr) :=
  let '(c0, c1, c2) := coordinates in
  let '(d0, d1, d2) := dipoles in
  if negb (mem field VALID_FIELDS) then Raise ValueError else
  do cast_shape <- broadcast3 c0 c1 c2;
  let moments := map ravel magnetic_moments in
  do _ <-
    (if disable_checks then Ok tt
     else if negb (Nat.eqb (length moments) 3) then Raise ValueError
     else if negb (Nat.eqb (length (hd [] moments)) (length (ravel d0))) then Raise ValueError
     else Ok tt);
  do mags <- unpack3 moments;
  run_magnetic dipole_kernels (ravel c0, ravel c1, ravel c2) (length (ravel d0))
    (fun j => do e <- aget (ravel d0) j; do n <- aget (ravel d1) j; do u <- aget (ravel d2) j; Ok (e, n, u))
    mags cast_shape field.
End Dipole.

(** ** Vertices for VTK *)
(** visualization/_prism.py:102-215 [_prisms_boundaries_to_vertices].  [junk] is the content of the
    uninitialised array: one 8x3 block per prism. *)
Definition vertex_indices : list (list nat) :=
  [[0; 3; 4; 7]; [1; 2; 5; 6]; [0; 1; 4; 5]; [2; 3; 6; 7]; [0; 1; 2; 3]; [4; 5; 6; 7]]%nat.
(** Source: [prisms[:, i]], visualization/_prism.py:102-215. *)
Definition boundary {A} (p : prism_of A) (i : nat) : res A :=
  aget [p_west p; p_east p; p_south p; p_north p; p_bottom p; p_top p] i.
(** Source: [vertices[:, vertex, component] = ...] for one prism, visualization/_prism.py:102-215. *)
Definition set_vertex {A} (block : list (list A)) (vertex component : nat) (x : A) : res (list (list A)) :=
  do row <- aget block vertex; do row <- aset row component x; aset block vertex row.
(** Source: the same for every prism, visualization/_prism.py:102-215. *)
Fixpoint assign_all {A} (blocks : list (list (list A))) (prisms : list (prism_of A)) (i vertex component : nat) : res (list (list (list A))) :=
  match blocks, prisms with
  | b :: bs, p :: p_south' =>
      do x <- boundary p i; do b <- set_vertex b vertex component x; do bs <- assign_all bs p_south' i vertex component; Ok (b :: bs)
  | _, _ => Ok []
  end.
(** Source: visualization/_prism.py:102-215. *)
Definition prisms_boundaries_to_vertices {A} (prisms : list (prism_of A)) (junk : list (list (list A))) : res (list (list A)) :=
  do vertices <- for_ (combine (range 0 6) vertex_indices) (fun ib vertices =>
    let i := fst ib in
    let component := (i / 2)%nat in
    for_ (snd ib) (fun vertex vertices => assign_all vertices prisms i vertex component) vertices) junk;
  Ok (concat vertices).

(** visualization/_prism.py:76-78: the cells array. *)
Definition vtk_cells (n_prisms : nat) : list (list nat) := map (fun i => seq (8 * i) 8) (range 0 n_prisms).
