(** C88: spherical sources and observation points may be turned about the polar axis together. *)
From Verif Require Import Base BaseFacts NumPy NumPyFacts DistanceModel DistanceSpec PointGravityModel PointGravitySpec
  TesseroidModel TesseroidSpec TesseroidCheckProofs TesseroidDensityModel TesseroidTurnSpec TesseroidTurnProofs.
Local Open Scope string_scope. Local Open Scope list_scope. Local Open Scope R_scope.

(** The same field, the same errors: every point and every source moved east by [a] degrees, each longitude
    written in any convention. *)
Theorem C88_point_sources a sh ps qs ss ss' field : prod_shape sh = length ps ->
  Forall2 (turned_point a) ps qs -> Forall2 (fun s s' => turned_point a (fst s) (fst s') /\ snd s' = snd s) ss ss' ->
  point_gravity (coords_of sh qs) (points_of ss') (masses_of ss') field "spherical"
  = point_gravity (coords_of sh ps) (points_of ss) (masses_of ss) field "spherical".
Proof. exact (point_turned a sh ps qs ss ss' field). Qed.
Print Assumptions C88_point_sources.

(** Tesseroids, with the checks: both descriptions must have acceptable boundaries; whether a point inside
    a tesseroid is found, the adaptive discretisation, the overflow of its buffers and the values are the
    same. *)
Theorem C88_tesseroids a sh ps qs ts us ds field radial : prod_shape sh = length ps -> length ds = length ts ->
  Forall2 (turned_point a) ps qs -> Forall2 (turned_tess a) ts us ->
  is_ok (check_tesseroids_R ts) -> is_ok (check_tesseroids_R us) ->
  tesseroid_gravity (coords_of sh qs) us (arr1 ds) field radial false
  = tesseroid_gravity (coords_of sh ps) ts (arr1 ds) field radial false.
Proof. exact (gravity_checked a sh ps qs ts us ds field radial). Qed.
Print Assumptions C88_tesseroids.

Theorem C88_tesseroids_of_variable_density minimize a fuel sh ps qs ts us rho field radial : prod_shape sh = length ps ->
  Forall2 (turned_point a) ps qs -> Forall2 (turned_tess a) ts us ->
  is_ok (check_tesseroids_R ts) -> is_ok (check_tesseroids_R us) ->
  tesseroid_gravity_variable minimize fuel (coords_of sh qs) us rho field radial false
  = tesseroid_gravity_variable minimize fuel (coords_of sh ps) ts rho field radial false.
Proof. exact (variable_checked minimize a fuel sh ps qs ts us rho field radial). Qed.
Print Assumptions C88_tesseroids_of_variable_density.

(** Without the checks nothing is asked of the boundaries, but the two longitudes of a tesseroid have to be
    moved together. *)
Theorem C88_without_checks a sh ps qs ts us field radial : prod_shape sh = length ps ->
  Forall2 (turned_point a) ps qs -> Forall2 (shifted_tess a) ts us ->
  (forall ds, length ds = length ts ->
     tesseroid_gravity (coords_of sh qs) us (arr1 ds) field radial true = tesseroid_gravity (coords_of sh ps) ts (arr1 ds) field radial true) /\
  (forall minimize fuel rho,
     tesseroid_gravity_variable minimize fuel (coords_of sh qs) us rho field radial true = tesseroid_gravity_variable minimize fuel (coords_of sh ps) ts rho field radial true).
Proof.
  intros H P T. split; intros; [now apply (gravity_unchecked a)|now apply (variable_unchecked minimize a)].
Qed.
Print Assumptions C88_without_checks.

(** A cell across the Greenwich meridian written as 350 to 10 and, after a turn of 20 degrees, as 10 to 30;
    a point at 350 and then at -350. *)
Example C88_ex : turned_tess 20 (Tess 350 10 0 5 1 2) (Tess 10 30 0 5 1 2) /\ turned_point 20 (350, 50, 3) (-350, 50, 3) /\
  is_ok (check_tesseroids_R [Tess 350 10 0 5 1 2]) /\ is_ok (check_tesseroids_R [Tess 10 30 0 5 1 2]).
Proof.
  split; [|split; [|split]].
  - split; [|cbn; auto]. exists (-1)%Z, 0%Z. cbn. split; [lra|split; [lra|]]. right. intros n E.
    assert (E' : IZR 34 = IZR (-36 * n)) by (rewrite mult_IZR; lra). apply eq_IZR in E'. lia.
  - split; [|split; reflexivity]. exists (-2)%Z. unfold fst3; cbn. lra.
  - exists [Tess (-10) 10 0 5 1 2]. apply check_tesseroids_ok. split; [|split].
    + constructor; [|constructor]. unfold bounds_ok; cbn. lra.
    + constructor; [|constructor]. right. cbn. split; [lra|]. split; [exists (-1)%Z; lra|]. split; [lra|]. split; [exists 0%Z; lra|]. split; [lra|]. auto.
    + constructor; [|constructor]. unfold width_ok; cbn. lra.
  - exists [Tess 10 30 0 5 1 2]. apply check_tesseroids_ok. split; [|split].
    + constructor; [|constructor]. unfold bounds_ok; cbn. lra.
    + constructor; [|constructor]. left. cbn. split; [lra|reflexivity].
    + constructor; [|constructor]. unfold width_ok; cbn. lra.
Qed.
