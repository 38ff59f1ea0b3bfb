(** Specification vocabulary for prisms, magnetic fields and VTK vertices. *)
From Verif Require Import Base NumPy DistanceModel DistanceSpec PointGravitySpec PrismModel.
Local Open Scope string_scope. Local Open Scope list_scope. Local Open Scope R_scope.

Definition valid_prism (p : prism) : Prop := p_west p <= p_east p /\ p_south p <= p_north p /\ p_bottom p <= p_top p.
Definition volume (p : prism) : R := (p_east p - p_west p) * (p_north p - p_south p) * (p_top p - p_bottom p).
Definition fin_prism (p : prism) : prism_of num :=
  Prism (Fin (p_west p)) (Fin (p_east p)) (Fin (p_south p)) (Fin (p_north p)) (Fin (p_bottom p)) (Fin (p_top p)).

(** What each field means: the component it is made of and the documented factor (mGal, Eotvos; "z" points
    down while the kernels use the upward direction). *)
Definition prism_fields : list (string * (string * R)) :=
  [("potential", ("gravity_pot", 1));
   ("g_e", ("gravity_e", mGal)); ("g_n", ("gravity_n", mGal)); ("g_z", ("gravity_u", - mGal));
   ("g_ee", ("gravity_ee", eotvos)); ("g_nn", ("gravity_nn", eotvos)); ("g_zz", ("gravity_uu", eotvos));
   ("g_en", ("gravity_en", eotvos)); ("g_ez", ("gravity_eu", - eotvos)); ("g_nz", ("gravity_nu", - eotvos))].

(** The field of one prism of density [snd pd] at a point. *)
Definition one_prism (choclo : string -> prism_kernel R) (component : string) (p : point) (pd : prism * R) : R :=
  choclo component (fst3 p) (snd3 p) (thd3 p) (fst pd) (snd pd).

(** Points of the closed prism, and coordinates that lie on one of the two faces normal to an axis. *)
Definition in_prism (p : point) (pr : prism) : Prop :=
  p_west pr <= fst3 p <= p_east pr /\ p_south pr <= snd3 p <= p_north pr /\ p_bottom pr <= thd3 p <= p_top pr.
Definition on_east_face (p : point) (pr : prism) : Prop := fst3 p = p_west pr \/ fst3 p = p_east pr.
Definition on_north_face (p : point) (pr : prism) : Prop := snd3 p = p_south pr \/ snd3 p = p_north pr.
Definition on_up_face (p : point) (pr : prism) : Prop := thd3 p = p_bottom pr \/ thd3 p = p_top pr.

(** Singular points of the tensor components: a diagonal component is singular on the edges (vertices
    included) of the faces normal to its direction, a non-diagonal one on the edges where the two faces
    normal to its directions meet. *)
Definition singular (field : string) (p : point) (pr : prism) : Prop :=
  in_prism p pr /\
  ( (field = "g_ee" /\ on_east_face p pr /\ (on_north_face p pr \/ on_up_face p pr))
 \/ (field = "g_nn" /\ on_north_face p pr /\ (on_east_face p pr \/ on_up_face p pr))
 \/ (field = "g_zz" /\ on_up_face p pr /\ (on_east_face p pr \/ on_north_face p pr))
 \/ (field = "g_en" /\ on_east_face p pr /\ on_north_face p pr)
 \/ (field = "g_ez" /\ on_east_face p pr /\ on_up_face p pr)
 \/ (field = "g_nz" /\ on_north_face p pr /\ on_up_face p pr)).

(** Kernels that are linear in the density; kernels that vanish on prisms without volume. *)
Definition linear_kernel (k : prism_kernel R) : Prop :=
  forall e n u pr a b d1 d2, k e n u pr (a * d1 + b * d2) = a * k e n u pr d1 + b * k e n u pr d2.
Definition zero_without_volume (k : prism_kernel R) : Prop :=
  forall e n u pr d, volume pr = 0 -> k e n u pr d = 0.

(** The form of choclo's potential and acceleration kernels: alternating sum over the eight vertices,
    relative to the observation point. *)
Definition vertex_kernel (f : R -> R -> R -> R) : prism_kernel R := fun e n u pr d =>
  let x1 := p_west pr - e in let x2 := p_east pr - e in
  let y1 := p_south pr - n in let y2 := p_north pr - n in
  let z1 := p_bottom pr - u in let z2 := p_top pr - u in
  newton_G * d * (f x2 y2 z2 - f x2 y2 z1 - f x2 y1 z2 + f x2 y1 z1 - f x1 y2 z2 + f x1 y2 z1 + f x1 y1 z2 - f x1 y1 z1).

(** ** Magnetic sources: [S] is a prism or a position, with its magnetisation or moment. *)
Inductive enu := AE | AN | AU.
Definition comp (a : enu) (v : vec3) : R := match a with AE => vx v | AN => vy v | AU => vz v end.
Definition unit_vector (a : enu) : vec3 := match a with AE => V3 1 0 0 | AN => V3 0 1 0 | AU => V3 0 0 1 end.
Definition b_name (a : enu) : string := match a with AE => "b_e" | AN => "b_n" | AU => "b_u" end.
Definition shift (a : enu) (t : R) (p : point) : point :=
  let '(e, n, u) := p in match a with AE => (e + t, n, u) | AN => (e, n + t, u) | AU => (e, n, u + t) end.
Definition axis_kernel {S} (k : magnetic_kernels S) (a : enu) : R -> R -> R -> S -> R -> R -> R -> R :=
  match a with AE => magnetic_e k | AN => magnetic_n k | AU => magnetic_u k end.
Definition one_magnetic {S} (k : R -> R -> R -> S -> R -> R -> R -> R) (p : point) (sm : S * vec3) : R :=
  k (fst3 p) (snd3 p) (thd3 p) (fst sm) (vx (snd sm)) (vy (snd sm)) (vz (snd sm)).
Definition agree {S} (k : magnetic_kernels S) : Prop := forall e n u s me mn mu,
  magnetic_field k e n u s me mn mu = (magnetic_e k e n u s me mn mu, magnetic_n k e n u s me mn mu, magnetic_u k e n u s me mn mu).
Definition linear_magnetic {S} (k : R -> R -> R -> S -> R -> R -> R -> R) : Prop :=
  forall p s a b m1 m2, one_magnetic k p (s, vadd (vscale a m1) (vscale b m2)) = a * one_magnetic k p (s, m1) + b * one_magnetic k p (s, m2).
Definition moments_of (ms : list vec3) : list arr := [arr1 (map vx ms); arr1 (map vy ms); arr1 (map vz ms)].
Definition returned1 (r : res (list arr)) : R := match r with Ok [a] => nth 0 (data a) 0 | _ => 0 end.
Definition nano : R := 10 ^ 9.

(** Field at [x] of a dipole of moment [m] at [y] (tesla), and its scalar potential. *)
Definition dipole_field (mu0 : R) (x y m : vec3) : vec3 :=
  let r := vsub x y in let d := norm r in
  vscale (mu0 / (4 * PI)) (vsub (vscale (3 * dot m r / d ^ 5) r) (vscale (/ d ^ 3) m)).
Definition dipole_potential (mu0 : R) (x y m : vec3) : R :=
  mu0 / (4 * PI) * (dot m (vsub x y) / eucl x y ^ 3).

(** ** VTK hexahedron: the eight corners, bottom face counterclockwise and then the top face. *)
Definition vtk_corners {A} (p : prism_of A) : list (list A) :=
  let w := p_west p in let e := p_east p in let s := p_south p in let n := p_north p in let b := p_bottom p in let t := p_top p in
  [[w; s; b]; [e; s; b]; [e; n; b]; [w; n; b]; [w; s; t]; [e; s; t]; [e; n; t]; [w; n; t]].

(** Cutting a prism in two by a plane normal to one of the axes. *)
Definition cut (a : enu) (x : R) (p : prism) : prism * prism :=
  let '(Prism w e s n b t) := p in
  match a with
  | AE => (Prism w x s n b t, Prism x e s n b t)
  | AN => (Prism w e s x b t, Prism w e x n b t)
  | AU => (Prism w e s n b x, Prism w e s n x t)
  end.
Definition inside_cut (a : enu) (x : R) (p : prism) : Prop :=
  match a with AE => p_west p <= x <= p_east p | AN => p_south p <= x <= p_north p | AU => p_bottom p <= x <= p_top p end.

(** Calls considered: checks switched off or all prisms valid; moments combined; points off the dipoles;
    the value for one observation point; shape of an uninitialised block of vertices. *)
Definition checks_pass (disable : bool) (prisms : list prism) : Prop := disable = true \/ Forall valid_prism prisms.
Definition vcomb (a b : R) (m1 m2 : list vec3) : list vec3 := map (fun xy => vadd (vscale a (fst xy)) (vscale b (snd xy))) (combine m1 m2).
Definition off_dipoles (p : point) (dms : list (point * vec3)) : Prop := forall dm, In dm dms -> cart_position p <> cart_position (fst dm).
Definition dipole_call mu0 (dms : list (point * vec3)) (field : string) (p : point) : R :=
  returned1 (dipole_magnetic mu0 (coords_of [] [p]) (coords_of [length dms] (map fst dms)) (moments_of (map snd dms)) field false).
Definition block_8x3 {A} (b : list (list A)) : Prop := length b = 8%nat /\ Forall (fun row => length row = 3%nat) b.
