(** Vocabulary for equivalent sources fitted to similar surveys (claim C114). *)
From Verif Require Import Base NumPy DistanceModel DistanceSpec PointGravitySpec LegendreModel EqsModel EqsSpec.
Local Open Scope R_scope.

(** A map of the coordinates that multiplies all distances by [k]. *)
Definition similarity (place : point -> vec3) (k : R) (T : point -> point) : Prop :=
  forall p q, eucl (place (T p)) (place (T q)) = k * eucl (place p) (place q).

(** A source that is not equally far from all data points. *)
Definition uneven (place : point -> vec3) (ds : list point) (q : point) : Prop :=
  exists d d', In d ds /\ In d' ds /\ eucl (place d) (place q) <> eucl (place d') (place q).

(** Another unit of length, a turn of the horizontal axes by the angle [a], another origin. *)
Definition new_frame (k a : R) (o : vec3) (p : point) : point :=
  (k * (cos a * fst3 p - sin a * snd3 p) + vx o, k * (sin a * fst3 p + cos a * snd3 p) + vy o, k * thd3 p + vz o).
(** On the sphere: another unit of length and another zero meridian. *)
Definition new_frame_sph (k a : R) (p : point) : point := (fst3 p + a, snd3 p, k * thd3 p).

(** The depth given in the new unit, or the default depth with neighbour distances in the new unit. *)
Definition same_depth (nd : list R -> list R -> res (list R)) (k : R) (ds es : list point) (x y : depth_arg) : Prop :=
  (exists D, x = DepthNumber D /\ y = DepthNumber (k * D)) \/
  (x = DepthString "default" /\ y = DepthString "default" /\
   exists distances, nd (map fst3 ds) (map snd3 ds) = Ok distances /\ nd (map fst3 es) (map snd3 es) = Ok (map (Rmult k) distances)).
