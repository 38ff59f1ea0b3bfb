(** Claim C108: a body of concentric layers has the same field as tesseroids, as ellipsoids and as a point mass. *)
From Coq Require Import Psatz.
From Coquelicot Require Import Coquelicot.
From Verif Require Import Base BaseFacts NumPy DistanceModel DistanceSpec PointGravityModel PointGravitySpec PointGravityProps TesseroidModel TesseroidSpec TesseroidProofs TesseroidDensityModel TesseroidDensitySpec
  TesseroidFitSpec TesseroidFitProps TesseroidLimitSpec TesseroidLimitProps TesseroidVariableLimitSpec EllipsoidModel EllipsoidSpec EllipsoidShapeProofs EllipsoidLocalProofs EllipsoidTopProofs EllipsoidFieldProps
  ShellSpec ShellProofs ShellProps LayeredSpec.
Local Open Scope string_scope. Local Open Scope list_scope. Local Open Scope R_scope.

Lemma G_same : G = newton_G. Proof. unfold G, newton_G. lra. Qed.
Lemma norm_position p : 0 < thd3 p -> norm (sph_position p) = thd3 p.
Proof.
  destruct p as [[a b] r]. unfold thd3. cbn [snd]. intros H. unfold norm. transitivity (sqrt (Rsqr r)); [|apply sqrt_Rsqr; lra]. f_equal.
  transitivity (r ^ 2 * dot (sph_position (a, b, 1)) (sph_position (a, b, 1))); [|rewrite unit_unit; unfold Rsqr; ring]. unfold dot, sph_position. cbn -[cos sin radians]. ring.
Qed.
Lemma position_down p : sph_position p = vscale (- thd3 p) (sph_down p).
Proof. destruct p as [[a b] r]. unfold thd3, sph_down, sph_position, vscale. cbn -[cos sin radians]. apply EllipsoidRotProofs.V3_eq; ring. Qed.
Lemma down_unit p : dot (sph_down p) (sph_down p) = 1.
Proof. destruct p as [[a b] r]. rewrite <- (unit_unit a b). unfold dot, sph_down, vscale, sph_position. cbn -[cos sin radians]. ring. Qed.

Lemma ball_field r d p : 0 < r -> 0 < thd3 p -> body_g (ball r d) (sph_position p) = vscale (newton_G * (d * (4 / 3 * PI * Rmin (thd3 p) r ^ 3)) / thd3 p ^ 2) (sph_down p).
Proof.
  intros Hr Hp. assert (S : sorted_axes_prop r r r) by (unfold sorted_axes_prop; lra).
  assert (Sh : shape_of r r r = Sphere) by (unfold shape_of; rewrite close_refl by exact Hr; reflexivity).
  change (ball r d) with (aligned r r r d). rewrite (aligned_field r r r d (sphere_field r r r (- 4 / 3 * PI * r ^ 3 * G * d)) S); [|intros pts; apply gravity_sphere; assumption].
  rewrite sphere_field_max, norm_position by assumption. rewrite position_down, G_same. unfold vscale. cbn [vx vy vz].
  unfold Rmin, Rmax. destruct (Rle_dec (thd3 p) r) as [A|A], (Rle_dec r (thd3 p)) as [B|B]; try lra; apply EllipsoidRotProofs.V3_eq; try (field; lra).
  all: assert (thd3 p = r) as -> by lra; field; lra.
Qed.
Lemma vsum_app (l m : list ellipsoid) f : vsum (l ++ m) f = vadd (vsum l f) (vsum m f).
Proof. unfold vsum, vadd. cbn [vx vy vz]. now rewrite !sum_over_app. Qed.
Lemma balls_field ls p : Forall layer_ok ls -> 0 < thd3 p ->
  vsum (flat_map layer_balls ls) (fun e => body_g e (sph_position p)) = vscale (newton_G * sum_over ls (mass_below (thd3 p)) / thd3 p ^ 2) (sph_down p).
Proof.
  intros H Hp. induction H as [|l ls [H0 H1] Hl IH].
  - unfold vsum, sum_over, vscale. cbn. apply EllipsoidRotProofs.V3_eq; field; lra.
  - cbn [flat_map]. rewrite vsum_app, IH, sum_over_cons.
    assert (E : vsum (layer_balls l) (fun e => body_g e (sph_position p)) = vscale (newton_G * mass_below (thd3 p) l / thd3 p ^ 2) (sph_down p)).
    { unfold layer_balls, vsum, mass_below. destruct (Req_EM_T (inner_radius l) 0) as [Z|Z].
      - rewrite Z. unfold sum_over. cbn [map sumR fold_right]. rewrite ball_field by lra. rewrite (Rmin_right (thd3 p) 0) by lra. unfold vscale. cbn [vx vy vz]. apply EllipsoidRotProofs.V3_eq; field; lra.
      - unfold sum_over. cbn [map sumR fold_right]. rewrite !ball_field by lra. unfold vscale. cbn [vx vy vz]. apply EllipsoidRotProofs.V3_eq; field; lra. }
    rewrite E. unfold vadd, vscale. cbn [vx vy vz]. apply EllipsoidRotProofs.V3_eq; field; lra.
Qed.
Lemma balls_ok ls : Forall layer_ok ls -> Forall positive_axes (flat_map layer_balls ls).
Proof.
  intros H. apply Forall_forall. intros e He. apply in_flat_map in He. destruct He as (l & Hl & He). rewrite Forall_forall in H. specialize (H l Hl). unfold layer_ok in H.
  destruct He as [<-|He]; [unfold positive_axes; cbn; lra|]. destruct (Req_EM_T (inner_radius l) 0); [destruct He|]. destruct He as [<-|[]]. unfold positive_axes; cbn; lra.
Qed.
Lemma balls_dense ls : length (filter no_density (flat_map layer_balls ls)) = 0%nat.
Proof.
  induction ls as [|l ls IH]; [reflexivity|]. cbn [flat_map]. rewrite filter_app, app_length, IH, Nat.add_0_r. unfold layer_balls. destruct (Req_EM_T (inner_radius l) 0); reflexivity.
Qed.
Lemma nth_map_some {X} (f : X -> R) l k x : nth_error l k = Some x -> nth k (map f l) 0 = f x.
Proof. intros H. apply nth_error_nth. now apply map_nth_error. Qed.

(** What ellipsoid_gravity returns at points anywhere but the centre, inside of the layers as well: the mass
    below attracts the point towards the centre, the mass above does not. *)
Theorem C108_ellipsoids sh ps ls : prod_shape sh = length ps -> Forall layer_ok ls -> (forall p, In p ps -> 0 < thd3 p) ->
  exists g, ellipsoid_gravity (coordinates_of sh (map sph_position ps)) (Several (flat_map layer_balls ls)) = Ok (g, 0%nat) /\
    forall k p, nth_error ps k = Some p -> vector_at g k = vscale (mGal * (newton_G * sum_over ls (mass_below (thd3 p)) / thd3 p ^ 2)) (sph_down p).
Proof.
  intros Hs H Hp. eexists. split.
  - rewrite gravity_several by (try apply balls_ok; try rewrite map_length; assumption). rewrite balls_dense. reflexivity.
  - intros k p Hk. assert (P : 0 < thd3 p) by (apply Hp; eapply nth_error_In; exact Hk). unfold vector_at, gravity_arrays. cbn [data]. rewrite !map_map.
    rewrite !(nth_map_some _ ps k p Hk), (balls_field ls p H P). unfold vscale, mGal. cbn [vx vy vz]. apply EllipsoidRotProofs.V3_eq; field; lra.
Qed.
Print Assumptions C108_ellipsoids.

Lemma combine_layers ls (f : tess * R -> R) : sum_over (combine (flat_map layer_tesseroids ls) (flat_map layer_densities ls)) f =
  sum_over ls (fun l => sum_over (combine (layer_tesseroids l) (layer_densities l)) f).
Proof.
  induction ls as [|l ls IH]; [reflexivity|]. rewrite sum_over_cons, <- IH. cbn [flat_map].
  change (sum_over (combine (layer_tesseroids l) (layer_densities l) ++ combine (flat_map layer_tesseroids ls) (flat_map layer_densities ls)) f =
    sum_over (combine (layer_tesseroids l) (layer_densities l)) f + sum_over (combine (flat_map layer_tesseroids ls) (flat_map layer_densities ls)) f). apply sum_over_app.
Qed.
Lemma layer_solid delta p l : layer_ok l -> 0 < delta -> off_layer delta p l -> 0 < thd3 p ->
  sum_over (combine (layer_tesseroids l) (layer_densities l)) (fun td => snd td * newton_solid "g_z" p (fst td)) = mGal * (newton_G * mass_below (thd3 p) l / thd3 p ^ 2).
Proof.
  intros [H0 H1] Hd Ho Hp. unfold off_layer, in_cavity, above_shell in Ho. set (r1 := inner_radius l) in *. set (r2 := outer_radius l) in *. set (d := layer_density l).
  transitivity (d * sum_over (shell r1 r2) (newton_solid_of "g_z" p (fun _ => 1))).
  { unfold layer_tesseroids, layer_densities. fold r1 r2 d. unfold shell. cbn [combine]. rewrite !sum_over_cons. unfold sum_over. cbn [map sumR fold_right fst snd]. rewrite !solid_unit. ring. }
  unfold mass_below. fold r1 r2 d. destruct Ho as [[A B]|A].
  - destruct (C107_cavity p r1 r2 (fun _ => 1) 1 0) as [_ ->]; [lra|lra|intros; apply tame_unit|]. rewrite !Rmin_left by lra. field. lra.
  - rewrite (C107_above "g_z" p r1 r2 (fun _ => 1) 1 0 (or_intror eq_refl)) by (try lra; intros; apply tame_unit).
    destruct (C107_constant_density 1 r1 r2) as [-> _]. rewrite !Rmin_right by lra. destruct p as [[lp x] R0]. unfold thd3 in *. cbn [snd] in *. rewrite acc_centre by lra. field. lra.
Qed.

(** The tesseroids, cut finer and finer, and the ellipsoids agree at points outside of the layers. *)
Theorem C108_tesseroids_and_ellipsoids sh ps ls radial delta eps : prod_shape sh = length ps -> Forall layer_ok ls -> 0 < delta -> 0 < eps ->
  (forall p, In p ps -> 0 < thd3 p /\ Forall (off_layer delta p) ls) ->
  exists g N, ellipsoid_gravity (coordinates_of sh (map sph_position ps)) (Several (flat_map layer_balls ls)) = Ok (g, 0%nat) /\
    forall n, (N <= n)%nat ->
      exists a, tesseroid_gravity (coords_of sh ps) (cut_tesseroids n (flat_map layer_tesseroids ls)) (arr1 (cut_densities n (flat_map layer_densities ls))) "g_z" radial false = Ok a /\ shape a = sh /\
        forall k p, nth_error ps k = Some p -> Rabs (nth k (data a) 0 - dot (vector_at g k) (sph_down p)) <= eps.
Proof.
  intros Hs H Hd He Hp. destruct (C108_ellipsoids sh ps ls Hs H) as (g & Eg & Hg); [intros p I; now apply Hp|].
  rewrite Forall_forall in H. assert (Len : length (flat_map layer_densities ls) = length (flat_map layer_tesseroids ls)) by (clear; induction ls; cbn; auto).
  destruct (C105_converges sh ps (flat_map layer_tesseroids ls) (flat_map layer_densities ls) "g_z" (5 / 2) radial delta eps Hs) as [N HN]; auto.
  { right. auto. }
  { intros t Ht. apply in_flat_map in Ht. destruct Ht as (l & Hl & Ht). exact (shell_proper _ _ t (H l Hl) Ht). }
  { intros p t Ip It. apply in_flat_map in It. destruct It as (l & Hl & Ht). destruct (Hp p Ip) as [_ F]. rewrite Forall_forall in F. exact (shell_clear delta _ _ p t (H l Hl) Hd (F l Hl) Ht). }
  exists g, N. split; [exact Eg|]. intros n Hn. destruct (HN n Hn) as (a & E & Sa & B). exists a. split; [exact E|]. split; [exact Sa|]. intros k p Hk. specialize (B k p Hk).
  assert (Ip : In p ps) by (eapply nth_error_In; exact Hk). destruct (Hp p Ip) as [P F]. rewrite Forall_forall in F.
  rewrite (combine_layers ls) in B. rewrite (sum_over_ext ls _ (fun l => mGal * newton_G / thd3 p ^ 2 * mass_below (thd3 p) l)) in B.
  2:{ intros l Hl. rewrite (layer_solid delta p l (H l Hl) Hd (F l Hl) P). field. lra. }
  rewrite sum_over_scal in B. rewrite (Hg k p Hk). pose proof (down_unit p) as U. unfold dot in *. unfold vscale. cbn [vx vy vz].
  match goal with |- Rabs (_ - ?x) <= _ => replace x with (mGal * newton_G / thd3 p ^ 2 * sum_over ls (mass_below (thd3 p))) end; [exact B|].
  set (c := mGal * (newton_G * sum_over ls (mass_below (thd3 p)) / thd3 p ^ 2)).
  transitivity (c * (vx (sph_down p) * vx (sph_down p) + vy (sph_down p) * vy (sph_down p) + vz (sph_down p) * vz (sph_down p))); [|ring]. rewrite U. unfold c. field. lra.
Qed.
Print Assumptions C108_tesseroids_and_ellipsoids.

(** Above all layers point_gravity, with the whole mass at the centre, returns the same values as the ellipsoids. *)
Theorem C108_point_mass sh ps ls : prod_shape sh = length ps -> Forall layer_ok ls -> (forall p, In p ps -> 0 < thd3 p /\ Forall (fun l => outer_radius l <= thd3 p) ls) ->
  exists g a, ellipsoid_gravity (coordinates_of sh (map sph_position ps)) (Several (flat_map layer_balls ls)) = Ok (g, 0%nat) /\
    point_gravity (coords_of sh ps) (points_of [((0, 0, 0), sum_over ls (fun l => layer_density l * (4 / 3 * PI * (outer_radius l ^ 3 - inner_radius l ^ 3))))])
      (masses_of [((0, 0, 0), sum_over ls (fun l => layer_density l * (4 / 3 * PI * (outer_radius l ^ 3 - inner_radius l ^ 3))))]) "g_z" "spherical" = Ok a /\
    shape a = sh /\ forall k p, nth_error ps k = Some p -> vector_at g k = vscale (nth k (data a) 0) (sph_down p).
Proof.
  intros Hs H Hp. destruct (C108_ellipsoids sh ps ls Hs H) as (g & Eg & Hg); [intros p I; now apply Hp|]. rewrite Forall_forall in H. exists g. eexists. split; [exact Eg|].
  split; [apply C02_point_gravity_is_newtonian; [exact Hs|right; split; [reflexivity|cbn; auto]]|]. split; [reflexivity|]. intros k p Hk. cbn [data].
  assert (Ip : In p ps) by (eapply nth_error_In; exact Hk). destruct (Hp p Ip) as [P F]. rewrite Forall_forall in F.
  rewrite (Hg k p Hk), (nth_map_some _ ps k p Hk). f_equal. rewrite sum_over_cons. change (sum_over (@nil (point * R)) (newton_field "spherical" "g_z" p)) with 0. rewrite Rplus_0_r.
  destruct p as [[lp x] R0]. unfold thd3 in *. cbn [snd] in *. rewrite acc_centre by exact P. do 3 f_equal. apply sum_over_ext. intros l Hl. unfold mass_below. specialize (F l Hl). destruct (H l Hl). rewrite !Rmin_right by lra. reflexivity.
Qed.
Print Assumptions C108_point_mass.

(** A core, a gap and a crust, seen from above and from the gap. *)
Example C108_example : let ls := [Layer 0 3480000 11000; Layer 6000000 6371000 2670] in let ps := [(30, 40, 6600000); (-70, -20, 5000000)] in
  Forall layer_ok ls /\ (forall p, In p ps -> 0 < thd3 p /\ Forall (off_layer 1000 p) ls) /\ length (flat_map layer_balls ls) = 3%nat /\
  mass_below 5000000 (Layer 6000000 6371000 2670) = 0 /\ 0 < mass_below 6600000 (Layer 6000000 6371000 2670).
Proof.
  cbv zeta. split; [repeat constructor; cbn; lra|]. split; [|split; [|split]].
  - intros p [<-|[<-|[]]]; (split; [unfold thd3; cbn; lra|]); repeat constructor; unfold off_layer, in_cavity, above_shell, thd3; cbn; lra.
  - unfold layer_balls. cbn [flat_map inner_radius outer_radius layer_density]. destruct (Req_EM_T 0 0); [|lra]. destruct (Req_EM_T 6000000 0); [lra|]. reflexivity.
  - unfold mass_below. cbn [inner_radius outer_radius layer_density]. rewrite !Rmin_left by lra. ring.
  - unfold mass_below. cbn [inner_radius outer_radius layer_density]. rewrite !Rmin_right by lra. pose proof PI_RGT_0. apply Rmult_lt_0_compat; [lra|]. apply Rmult_lt_0_compat; lra.
Qed.
