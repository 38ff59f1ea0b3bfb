(** C111: spherical sources and observation points may be mirrored across the equator and across a meridian. *)
From Coq Require Import Permutation Psatz.
From Verif Require Import Base BaseFacts NumPy NumPyFacts DistanceModel DistanceSpec PointGravityModel PointGravitySpec
  TesseroidModel TesseroidSpec TesseroidCheckProofs TesseroidAdaptProofs TesseroidProofs TesseroidFieldProofs TesseroidDensityModel TesseroidTurnSpec TesseroidMirrorSpec TesseroidMirrorProofs.
Local Open Scope string_scope. Local Open Scope list_scope. Local Open Scope R_scope.

(** The same field and the same errors for the mirror images. *)
Theorem C111_point_sources ew ns a sh ps qs ss ss' field : prod_shape sh = length ps ->
  Forall2 (image_point ew ns a) ps qs -> Forall2 (fun s s' => image_point ew ns a (fst s) (fst s') /\ snd s' = snd s) ss ss' ->
  point_gravity (coords_of sh qs) (points_of ss') (masses_of ss') field "spherical"
  = point_gravity (coords_of sh ps) (points_of ss) (masses_of ss) field "spherical".
Proof. exact (point_image ew ns a sh ps qs ss ss' field). Qed.
Print Assumptions C111_point_sources.

(** Tesseroids: the pieces are the mirror images of each other, taken in another order.  The order changes how much of
    the stack is used, so one of the calls may overflow where the other does not; apart from that the outcomes are the
    same. *)
Theorem C111_tesseroids ew ns a sh ps qs ts us ds field radial : prod_shape sh = length ps -> length ds = length ts ->
  Forall2 (image_point ew ns a) ps qs -> Forall2 (image_tess ew ns a) ts us ->
  is_ok (check_tesseroids_R ts) -> is_ok (check_tesseroids_R us) ->
  same_or_overflow (tesseroid_gravity (coords_of sh ps) ts (arr1 ds) field radial false) (tesseroid_gravity (coords_of sh qs) us (arr1 ds) field radial false).
Proof. exact (gravity_image_checked ew ns a sh ps qs ts us ds field radial). Qed.
Print Assumptions C111_tesseroids.

Theorem C111_tesseroids_of_variable_density minimize ew ns a fuel sh ps qs ts us rho field radial : prod_shape sh = length ps ->
  Forall2 (image_point ew ns a) ps qs -> Forall2 (image_tess ew ns a) ts us ->
  is_ok (check_tesseroids_R ts) -> is_ok (check_tesseroids_R us) ->
  same_or_overflow (tesseroid_gravity_variable minimize fuel (coords_of sh ps) ts rho field radial false) (tesseroid_gravity_variable minimize fuel (coords_of sh qs) us rho field radial false).
Proof. exact (variable_image_checked ew ns minimize a fuel sh ps qs ts us rho field radial). Qed.
Print Assumptions C111_tesseroids_of_variable_density.

Theorem C111_without_checks ew ns a sh ps qs ts us field radial : prod_shape sh = length ps ->
  Forall2 (image_point ew ns a) ps qs -> Forall2 (image_tess_together ew ns a) ts us ->
  (forall ds, length ds = length ts ->
     same_or_overflow (tesseroid_gravity (coords_of sh ps) ts (arr1 ds) field radial true) (tesseroid_gravity (coords_of sh qs) us (arr1 ds) field radial true)) /\
  (forall minimize fuel rho,
     same_or_overflow (tesseroid_gravity_variable minimize fuel (coords_of sh ps) ts rho field radial true) (tesseroid_gravity_variable minimize fuel (coords_of sh qs) us rho field radial true)).
Proof.
  intros H P T. split; intros; [now apply (gravity_image_unchecked ew ns a)|now apply (variable_image_unchecked ew ns minimize a)].
Qed.
Print Assumptions C111_without_checks.

(** One call of the adaptive discretisation: the pieces of the mirror image are the mirror images of the pieces. *)
Theorem C111_pieces ew ns p t ratio stk stk' sml sml' radial st st' : (0 < length stk)%nat -> (0 < length stk')%nat ->
  adaptive_discretization p t ratio stk sml radial = Ok st ->
  adaptive_discretization (mirror_point ew ns p) (mirror_tess ew ns t) ratio stk' sml' radial = Ok st' ->
  Permutation (map (mirror_tess ew ns) (returned_tesseroids st)) (returned_tesseroids st').
Proof.
  intros H H' E E'. pose proof (adaptive_refines p t ratio stk sml radial H) as A.
  pose proof (adaptive_refines (mirror_point ew ns p) (mirror_tess ew ns t) ratio stk' sml' radial H') as A'. rewrite E in A. rewrite E' in A'.
  destruct (discretise p t _ _ _ _) as [o|] eqn:D; [|contradiction]. destruct (discretise (mirror_point ew ns p) _ _ _ _ _) as [o'|] eqn:D'; [|contradiction].
  destruct A as (-> & _), A' as (-> & _). unfold discretise in D, D'. apply loop_cuts in D, D'. destruct D as (o1 & D & ->), D' as (o2 & D' & ->). cbn [app].
  destruct (cuts_mirror ew ns _ _ _ _ _ D) as (o3 & F & G). cbn [map] in F. now rewrite (cuts_det _ _ _ _ _ F _ D').
Qed.
Print Assumptions C111_pieces.

(** A tesseroid and a point north of the equator, and their images south of it: both calls return. *)
Lemma meets_mirror ew ns p ratio radial t : meets p ratio radial t -> meets (mirror_point ew ns p) ratio radial (mirror_tess ew ns t).
Proof.
  pose proof (dims_mirror ew ns t) as D. rewrite !dimensions_sizes in D. pose proof (distance_mirror ew ns p t) as E. rewrite !distance_point_to in E.
  injection D as D1 D2. unfold meets. change (size_rad (mirror_tess ew ns t)) with (size_rad t). now rewrite D1, D2, E.
Qed.
Example C111_example : image_tess false true 0 (Tess 0 1 0 1 1 2) (Tess 0 1 (-1) 0 1 2) /\ image_point false true 0 (0.5, 0.5, 100) (0.5, -0.5, 100) /\
  image_tess true false 20 (Tess 350 10 0 5 1 2) (Tess 10 30 0 5 1 2) /\ image_point true false 20 (350, 50, 3) (30, 50, 3) /\
  exists a, tesseroid_gravity (coords_of [] [(0.5, 0.5, 100)]) [Tess 0 1 0 1 1 2] (arr1 [3]) "g_z" true false = Ok a /\
    tesseroid_gravity (coords_of [] [(0.5, -0.5, 100)]) [Tess 0 1 (-1) 0 1 2] (arr1 [3]) "g_z" true false = Ok a.
Proof.
  assert (I1 : image_tess false true 0 (Tess 0 1 0 1 1 2) (Tess 0 1 (-1) 0 1 2)).
  { split; [exists 0%Z, 0%Z; cbn; repeat split; try lra; now left|]. cbn. repeat split; lra. }
  assert (I2 : image_point false true 0 (0.5, 0.5, 100) (0.5, -0.5, 100)).
  { split; [exists 0%Z; cbn; unfold fst3; cbn; lra|]. unfold mirror_point, fst3, snd3, thd3; cbn. split; lra. }
  split; [exact I1|]. split; [exact I2|]. split; [|split].
  - split; [|cbn; auto]. exists 0%Z, 1%Z. cbn. split; [lra|split; [lra|]]. right. intros n E.
    assert (E' : IZR 34 = IZR (-36 * n)) by (rewrite mult_IZR; lra). apply eq_IZR in E'. lia.
  - split; [exists 1%Z; cbn; unfold fst3; cbn; lra|]. unfold mirror_point, fst3, snd3, thd3; cbn. auto.
  - destruct (ex_gravity 3 "g_z" true) as [x X]; [cbn; auto|].
    set (u := Tess 0 1 (-1) 0 1 2). set (q := (0.5, -0.5, 100)).
    assert (Eu : u = mirror_tess false true ex_t) by (unfold u, mirror_tess, ex_t; cbn; apply (f_equal2 (fun s n => Tess 0 1 s n 1 2)); lra).
    assert (Eq : q = mirror_point false true ex_p) by (unfold q, mirror_point, ex_p, fst3, snd3, thd3; cbn; apply (f_equal (fun y => (0.5, y, 100))); lra).
    assert (K : checks false [q] [u] = Ok [u]).
    { apply checks_ok. split; [constructor; [unfold bounds_ok, u; cbn; lra|constructor]|].
      split; [constructor; [left; split; [unfold u; cbn; lra|reflexivity]|constructor]|].
      split; [constructor; [unfold width_ok, u; cbn; lra|constructor]|].
      intros p t [<-|[]] [<-|[]]. unfold inside, q, u; cbn. lra. }
    assert (Y : exists y, tesseroid_gravity (coords_of [] [q]) [u] (arr1 [3]) "g_z" true false = Ok y).
    { eexists. apply tesseroid_gravity_value; [reflexivity|cbn; auto|reflexivity|]. exists [u]. split; [exact K|]. split; [|reflexivity].
      intros p [<-|[]]. constructor; [|constructor]. intros _. exists [u]. cbn [fst]. apply discretise_far; [apply STACK_SIZE_pos|apply MAX_pos|unfold regular, u; cbn; lra|].
      rewrite Eu, Eq. apply meets_mirror, ex_meets. cbn. lra. }
    destruct Y as [y Y]. assert (C1 : is_ok (check_tesseroids_R [ex_t])).
    { revert X. pose proof ex_checks as C. unfold checks in C. destruct (check_tesseroids_R [ex_t]) as [l|]; [intros _; now exists l|discriminate]. }
    assert (C2 : is_ok (check_tesseroids_R [u])) by (unfold checks in K; destruct (check_tesseroids_R [u]) as [l|]; [now exists l|discriminate]).
    exists x. split; [exact X|].
    assert (S := C111_tesseroids false true 0 [] [ex_p] [q] [ex_t] [u] [3] "g_z" true eq_refl eq_refl (Forall2_cons _ _ I2 (Forall2_nil _)) (Forall2_cons _ _ I1 (Forall2_nil _)) C1 C2).
    rewrite X, Y in S. rewrite Y. destruct S as [S | [S | S]]; [now symmetry|discriminate|discriminate].
Qed.
