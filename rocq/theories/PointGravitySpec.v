(** Specification of the field of point masses: Newton's law in terms of positions in space. *)
From Verif Require Import Base NumPy DistanceModel DistanceSpec.
Local Open Scope string_scope.

(** Newton's constant, m^3 kg^-1 s^-2 (CODATA 2018: 6.6743e-11). *)
Definition newton_G : R := 6.6743 / 10 ^ 11.

(** A point mass: the coordinates the user gives and its mass. *)
Definition source := (point * R)%type.

Definition cartesian_fields : list string :=
  ["potential"; "g_e"; "g_n"; "g_z"; "g_ee"; "g_nn"; "g_zz"; "g_en"; "g_ez"; "g_nz"; "g_ne"; "g_ze"; "g_zn"].
Definition spherical_fields : list string := ["potential"; "g_z"].
Definition supported (cs field : string) : Prop :=
  (cs = "cartesian" /\ In field cartesian_fields) \/ (cs = "spherical" /\ In field spherical_fields).

(** Unit vectors of the Cartesian axes; downward is minus upward. *)
Definition e_east := V3 1 0 0.
Definition e_north := V3 0 1 0.
Definition e_down := V3 0 0 (-1).
(** The downward (towards the centre) unit vector at a point in spherical coordinates. *)
Definition sph_down (p : point) : vec3 := let '(lon, lat, _) := p in vscale (-1) (sph_position (lon, lat, 1)).

(** Newton's law: acceleration caused at x by mass m located at y (SI units), its projection on a
    direction, and the gravity-gradient tensor contracted with two directions. *)
Definition newton_potential (m : R) (x y : vec3) : R := newton_G * m / eucl x y.
Definition newton_accel (m : R) (x y : vec3) (d : vec3) : R :=
  dot (vscale (newton_G * m / eucl x y ^ 3) (vsub y x)) d.
Definition newton_tensor (m : R) (x y : vec3) (d1 d2 : vec3) : R :=
  newton_G * m * (3 * dot (vsub x y) d1 * dot (vsub x y) d2 / eucl x y ^ 5 - dot d1 d2 / eucl x y ^ 3).

Definition mGal : R := 10 ^ 5.
Definition eotvos : R := 10 ^ 9.

Definition directions (field : string) : option (vec3 * vec3) :=
  if String.eqb field "g_ee" then Some (e_east, e_east)
  else if String.eqb field "g_nn" then Some (e_north, e_north)
  else if String.eqb field "g_zz" then Some (e_down, e_down)
  else if String.eqb field "g_en" then Some (e_east, e_north)
  else if String.eqb field "g_ne" then Some (e_north, e_east)
  else if String.eqb field "g_ez" then Some (e_east, e_down)
  else if String.eqb field "g_ze" then Some (e_down, e_east)
  else if String.eqb field "g_nz" then Some (e_north, e_down)
  else if String.eqb field "g_zn" then Some (e_down, e_north)
  else None.

Definition newton_field_cartesian (field : string) (p : point) (s : source) : R :=
  let x := cart_position p in let y := cart_position (fst s) in let m := snd s in
  if String.eqb field "potential" then newton_potential m x y
  else if String.eqb field "g_e" then mGal * newton_accel m x y e_east
  else if String.eqb field "g_n" then mGal * newton_accel m x y e_north
  else if String.eqb field "g_z" then mGal * newton_accel m x y e_down
  else match directions field with
       | Some (d1, d2) => eotvos * newton_tensor m x y d1 d2
       | None => 0
       end.

Definition newton_field_spherical (field : string) (p : point) (s : source) : R :=
  let x := sph_position p in let y := sph_position (fst s) in let m := snd s in
  if String.eqb field "potential" then newton_potential m x y
  else mGal * newton_accel m x y (sph_down p).

Definition newton_field (cs field : string) (p : point) (s : source) : R :=
  if String.eqb cs "cartesian" then newton_field_cartesian field p s else newton_field_spherical field p s.

(** Passing a list of point masses, and observation points arranged in an array of some shape. *)
Definition fst3 (p : point) : R := fst (fst p).
Definition snd3 (p : point) : R := snd (fst p).
Definition thd3 (p : point) : R := snd p.
Definition coords_of (sh : list nat) (ps : list point) : arr * arr * arr :=
  (Arr sh (map fst3 ps), Arr sh (map snd3 ps), Arr sh (map thd3 ps)).
Definition points_of (ss : list source) : arr * arr * arr := coords_of [length ss] (map fst ss).
Definition masses_of (ss : list source) : arr := arr1 (map snd ss).

(** The number returned for one observation point given as three scalars ([0] if the call fails, so
    theorems also state that it does not). *)
Definition returned (r : res arr) : R := match r with Ok a => nth 0 (data a) 0 | Raise _ => 0 end.

(** The three axes of the local frame, the field names that refer to them, and the observation point
    moved by [t] metres along an axis. *)
Inductive axis := East | North | Down.
Definition g1 (a : axis) : string := match a with East => "g_e" | North => "g_n" | Down => "g_z" end.
Definition g2 (a b : axis) : string :=
  match a, b with
  | East, East => "g_ee" | East, North => "g_en" | East, Down => "g_ez"
  | North, East => "g_ne" | North, North => "g_nn" | North, Down => "g_nz"
  | Down, East => "g_ze" | Down, North => "g_zn" | Down, Down => "g_zz"
  end.
Definition move (a : axis) (t : R) (p : point) : point :=
  let '(e, n, u) := p in
  match a with East => (e + t, n, u) | North => (e, n + t, u) | Down => (e, n, u - t) end.

(** The observation points meant by three broadcastable arrays, in row-major order of the broadcast
    shape [S]. *)
Definition broadcast_points (S : list nat) (c : arr * arr * arr) : list point :=
  let '(c0, c1, c2) := c in
  map (fun k => (bcast_get c0 S k, bcast_get c1 S k, bcast_get c2 S k)) (range 0 (prod_shape S)).

(** Size of an array of shape [s] along dimension [i] counted from the innermost; 1 beyond its dimensions. *)
Definition dim (s : list nat) (i : nat) : nat := nth i (rev s) 1%nat.
(** Arrays of shapes [ss] spread to shape [S]: as many dimensions as the one with most, and along each the
    size is that of one of the arrays, all others having this size or 1. *)
Definition spreads_to (ss : list (list nat)) (S : list nat) : Prop :=
  (exists s, In s ss /\ length S = length s) /\ (forall s, In s ss -> (length s <= length S)%nat) /\
  forall i, (exists s, In s ss /\ dim S i = dim s i) /\ forall s, In s ss -> dim s i = dim S i \/ dim s i = 1%nat.
