(** Specification vocabulary for Euler's methods in another frame and another unit of the field. *)
From Verif Require Import Base EllipsoidModel EllipsoidSpec EulerModel EulerSpec.
Local Open Scope list_scope. Local Open Scope R_scope.

(** A frame: orthogonal matrix [A], displacement [t]; the field is multiplied by [k] and raised by [c]. *)
Definition framed_position (A : mat3) (t : vec3) (p : position) : position :=
  let x := vadd (mv A (V3 (p_e p) (p_n p) (p_u p))) t in Pos (vx x) (vy x) (vz x).
Definition framed_values (A : mat3) (k c : R) (d : v4) : v4 :=
  let g := vscale k (mv A (V3 (c1 d) (c2 d) (c3 d))) in V4 (k * c0 d + c) (vx g) (vy g) (vz g).
Definition framed A t k c (d : position * v4) : position * v4 := (framed_position A t (fst d), framed_values A k c (snd d)).

(** Errors of the parameters: position turned, base level multiplied; covariance accordingly. *)
Definition framed_error (A : mat3) (k : R) (v : v4) : v4 := let x := mv A (V3 (c0 v) (c1 v) (c2 v)) in V4 (vx x) (vy x) (vz x) (k * c3 v).
(** The matrix [L m L^T] for the linear map [L = framed_error A k]. *)
Definition framed_covariance (A : mat3) (k : R) (m : m4) : m4 :=
  let col v := framed_error A k (mulv m (framed_error (mT A) k v)) in
  let a := col (V4 1 0 0 0) in let b := col (V4 0 1 0 0) in let c := col (V4 0 0 1 0) in let d := col (V4 0 0 0 1) in
  M4 (V4 (c0 a) (c0 b) (c0 c) (c0 d)) (V4 (c1 a) (c1 b) (c1 c) (c1 d)) (V4 (c2 a) (c2 b) (c2 c) (c2 d)) (V4 (c3 a) (c3 b) (c3 c) (c3 d)).
Definition framed_deconvolution A t k c (r : deconvolution) : deconvolution :=
  Deconvolution (framed_position A t (d_location r)) (k * d_base_level r + c) (option_map (framed_covariance A k) (d_covariance r)).
Definition framed_solution A t k (s : solution) : solution :=
  Solution (s_index s) (framed_position A t (s_location s)) (k * s_base_level s) (framed_covariance A k (s_covariance s)) (option_map (Rmult (Rabs k)) (s_misfit s)) (s_warned s).
(** A result carried over; errors stay. *)
Definition carried {X Y} (f : X -> Y) (r : res X) : res Y := match r with Ok x => Ok (f x) | Raise e => Raise e end.

(** Weights of the easting, northing and upward derivatives that treat the turned directions alike: multiplying
    by them and turning can be exchanged. *)
Definition fair (A : mat3) (weights : list R) : Prop :=
  forall v, let w := fun x => V3 (nth 1 weights 0 * vx x) (nth 2 weights 0 * vy x) (nth 3 weights 0 * vz x) in mv A (w v) = w (mv A v).
