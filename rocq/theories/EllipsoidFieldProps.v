(** Claims about the gravity and magnetic fields of ellipsoids. *)
From Coquelicot Require Import Coquelicot.
From Coq Require Import Psatz Permutation.
From Verif Require Import Base BaseFacts NumPy NumPyFacts PointGravityModel OasisModel LayerModel EllipsoidModel EllipsoidSpec EllipsoidRotProofs EllipsoidLambdaProofs
  EllipsoidIntProofs EllipsoidShapeProofs EllipsoidFieldProofs EllipsoidLocalProofs EllipsoidTopProofs EllipsoidMagProofs.
Local Open Scope R_scope.

(** ** C32: gravity *)
Theorem C32_gravity_field : forall e rho, well_proportioned e -> ell_density e = Some rho -> exists (g : vec3 -> vec3) (M : mat3),
  (forall sh ps, prod_shape sh = length ps -> ellipsoid_gravity (coordinates_of sh ps) (Single e) = Ok (gravity_arrays sh g ps, 0%nat)) /\
  (* linear inside, with the divergence of Poisson's equation *)
  (forall p, body_level e p < 1 -> g p = mv M (vsub p (ell_center e)) /\ has_jacobian g p M) /\
  symmetric M /\ trace M = - 4 * PI * G * rho /\
  (* continuous everywhere *)
  (forall p, continuous_at g p) /\
  (* free of divergence and rotation outside *)
  (forall p, 1 < body_level e p -> exists J, has_jacobian g p J /\ symmetric J /\ trace J = 0).
Proof.
  intros e rho W D. destruct (local_points_ok e) as (q & S & a & b & c & Q & Eq & H & LP).
  assert (WS := sorts_well_shaped e S a b c H W). destruct (local_summary a b c rho WS) as (g & ni & ext & GL & Ei & Ee & Sn & Tn & Cg & Ing & Sext & Jout & _).
  assert (BW := body_g_world e rho q S a b c g Eq LP GL D). destruct W as [P _].
  exists (body_g e), (mm (mm (mT q) (mscale (- 4 * PI * G * rho) ni)) q).
  split; [intros sh ps Hs; rewrite gravity_single by assumption; unfold no_density; rewrite D; reflexivity|].
  split; [|split; [|split; [|split]]].
  - intros p Hp. rewrite <- (sorts_level e S a b c p H), <- Eq in Hp. destruct (Ing _ Hp) as [I1 I2]. split.
    + rewrite BW. unfold world. rewrite I1, !mv_mm. reflexivity.
    + apply (has_jacobian_ext (world q (ell_center e) g)); [intros; symmetry; apply BW|]. apply world_jacobian, I2.
  - apply symmetric_rot, symmetric_mscale, Sn.
  - rewrite trace_rot by exact Q. rewrite trace_mscale, Tn. ring.
  - intros p. apply (continuous_at_ext (world q (ell_center e) g)); [intros; symmetry; apply BW|]. apply world_continuous; [exact Q | apply Cg].
  - intros p Hp. rewrite <- (sorts_level e S a b c p H), <- Eq in Hp. eexists. split.
    + apply (has_jacobian_ext (world q (ell_center e) g)); [intros; symmetry; apply BW|]. apply world_jacobian, Jout, Hp.
    + destruct (Sext _ (Rlt_le _ _ Hp)) as [S1 S2]. split; [apply symmetric_rot, symmetric_mscale, S1|]. rewrite trace_rot by exact Q. rewrite trace_mscale, S2. ring.
Qed.

(** A sphere attracts external points like a point mass at its centre. *)
Theorem C32_sphere_is_point_mass : forall e rho, positive_axes e -> ell_a e = ell_b e -> ell_b e = ell_c e -> ell_density e = Some rho ->
  exists g, (forall sh ps, prod_shape sh = length ps -> ellipsoid_gravity (coordinates_of sh ps) (Single e) = Ok (gravity_arrays sh g ps, 0%nat)) /\
  forall p, ell_a e <= eucl p (ell_center e) ->
    g p = vscale (- G * (4 / 3 * PI * ell_a e ^ 3 * rho) / eucl p (ell_center e) ^ 3) (vsub p (ell_center e)).
Proof.
  intros e rho P Eab Ebc D. destruct (local_points_ok e) as (q & S & a & b & c & Q & Eq & H & LP).
  assert (SA := sorts_positive e S a b c H P). assert (H' := H). destruct H' as (_ & _ & _ & (s & Pm & ->)).
  assert (A1 : forall x, In x [a; b; c] -> x = ell_a e).
  { intros x Hx. apply (Permutation_in _ Pm) in Hx. destruct Hx as [<-|[<-|[<-|[]]]]; congruence. }
  assert (Xa : a = ell_a e) by (apply A1; now left). assert (Xb : b = ell_a e) by (apply A1; right; now left). assert (Xc : c = ell_a e) by (apply A1; right; right; now left).
  assert (Pa : 0 < ell_a e) by apply P.
  assert (Sh : shape_of a b c = Sphere) by (unfold shape_of; rewrite Xa, Xb, Xc, close_refl by exact Pa; reflexivity).
  assert (GL : gravity_local a b c rho (sphere_field a b c (- 4 / 3 * PI * a ^ 3 * G * rho))) by (intros pts; apply gravity_sphere; assumption).
  assert (BW := body_g_world e rho q S a b c _ Eq LP GL D).
  exists (body_g e). split; [intros sh ps Hs; rewrite gravity_single by assumption; unfold no_density; rewrite D; reflexivity|].
  intros p Hp. rewrite BW. unfold world. set (x := vsub p (ell_center e)) in *.
  assert (Nx : norm (mv q x) = eucl p (ell_center e)) by (rewrite orthogonal_norm by exact Q; reflexivity).
  assert (Px : 0 < eucl p (ell_center e)) by lra.
  assert (F : sphere_field a b c (- 4 / 3 * PI * a ^ 3 * G * rho) (mv q x) = vscale (- G * (4 / 3 * PI * ell_a e ^ 3 * rho) / eucl p (ell_center e) ^ 3) (mv q x)).
  { rewrite Xa, Xb, Xc, sphere_field_max by exact Pa. rewrite Nx, Rmax_right by lra. unfold vscale. apply V3_eq; field; lra. }
  rewrite F, mv_vscale, orthogonal_forth by exact Q. reflexivity.
Qed.

(** Semi-axes closer than the tolerance: the field of the nearly spherical body jumps at its surface... *)
Lemma rotation_0 : get_rotation_matrix 0 0 0 = eye.
Proof.
  unfold get_rotation_matrix, from_euler_ZYX, rot_x, rot_y, rot_z. rewrite radians_opp, radians_0, Ropp_0, sin_0, cos_0. unfold eye, diag. mat. apply M3_eq; ring.
Qed.
Lemma mT_eye : mT eye = eye. Proof. reflexivity. Qed.

Definition aligned (a b c rho : R) : ellipsoid := Ell a b c 0 0 0 (V3 0 0 0) (Some rho) None None.

Lemma aligned_field a b c rho g : sorted_axes_prop a b c -> gravity_local a b c rho g -> forall p, body_g (aligned a b c rho) p = g p.
Proof.
  intros S GL p. set (e := aligned a b c rho).
  assert (LP : forall ps, local_points (map vx ps, map vy ps, map vz ps) e = Ok (map (fun p => mv eye (vsub p (ell_center e))) ps, eye, eye, a, b, c)).
  { intros ps. unfold local_points, e, aligned, rotation_matrix; cbn [ell_center ell_yaw ell_pitch ell_roll]. rewrite rotation_0.
    assert (SX : sorted_axes (aligned a b c rho) = Ok (a, b, c)).
    { destruct (semiaxes_rotation (aligned a b c rho)) as (S0 & a0 & b0 & c0 & HS & Hax & H). rewrite Hax. destruct H as ((H1 & H2) & _ & _ & (s & Pm & ->)).
      cbn [ell_a ell_b ell_c aligned] in Pm. destruct S as (_ & Sb & Sa).
      assert (X : forall x, In x [a0; b0; c0] -> x <= a) by (intros x Hx; apply (Permutation_in _ Pm) in Hx; destruct Hx as [<-|[<-|[<-|[]]]]; lra).
      destruct (sorted_unique a0 b0 c0 a b c) as (-> & -> & ->); [lra | lra | lra | lra | exact Pm | reflexivity]. }
    fold (aligned a b c rho). rewrite SX. cbn [bind]. unfold get_semiaxes_rotation_matrix; cbn [ell_a ell_b ell_c].
    destruct S as (_ & Sb & Sa). unfold sorted_desc. cbn [ell_a ell_b ell_c aligned]. rewrite (proj2 (Rleb_true b a) Sa), (proj2 (Rleb_true c b) Sb). cbn [andb bind].
    rewrite mT_eye, mm_eye_l. unfold vstack. rewrite !map_length, !Nat.eqb_refl. cbn [andb bind]. rewrite !map_map, combine3, !map_map. reflexivity. }
  assert (Eq : eye = mm (mT eye) (mT (rotation_matrix e))) by (unfold e, aligned, rotation_matrix; cbn [ell_yaw ell_pitch ell_roll]; rewrite rotation_0, mT_eye, mm_eye_l; reflexivity).
  rewrite (body_g_world e rho eye eye a b c g Eq LP GL eq_refl). unfold world. rewrite mT_eye, !mv_eye. f_equal. unfold e; cbn [ell_center aligned].
  destruct p as [x y z]. unfold vsub; cbn [vx vy vz]. apply V3_eq; ring.
Qed.

Lemma aligned_gravity a b c rho g : sorted_axes_prop a b c -> gravity_local a b c rho g ->
  forall sh ps, prod_shape sh = length ps -> ellipsoid_gravity (coordinates_of sh ps) (Single (aligned a b c rho)) = Ok (gravity_arrays sh g ps, 0%nat).
Proof.
  intros S GL sh ps Hs. assert (P : positive_axes (aligned a b c rho)) by (destruct S as (? & ? & ?); unfold positive_axes; cbn [aligned ell_a ell_b ell_c]; lra).
  rewrite gravity_single by assumption. unfold no_density; cbn [ell_density aligned].
  assert (E := aligned_field a b c rho g S GL). unfold gravity_arrays.
  assert (M : forall x : vec3 -> R, map (fun p => x (body_g (aligned a b c rho) p)) ps = map (fun p => x (g p)) ps) by (intros x; apply map_ext; intros p; rewrite E; reflexivity).
  rewrite (M (fun v => vx v * 10 ^ 5)), (M (fun v => vy v * 10 ^ 5)), (M (fun v => - vz v * 10 ^ 5)). reflexivity.
Qed.

Lemma aligned_level a b c rho p : body_level (aligned a b c rho) p = level a b c p.
Proof.
  unfold body_level, own_coordinates, rotation_matrix; cbn [aligned ell_a ell_b ell_c ell_yaw ell_pitch ell_roll ell_center]. rewrite rotation_0, mT_eye, mv_eye.
  destruct p as [x y z]. unfold level, vsub; cbn [vx vy vz]. rewrite !Rminus_0_r. reflexivity.
Qed.

Lemma tiny : 0 < / 10 ^ 6 /\ / 10 ^ 6 < / 10 ^ 5 /\ / 10 ^ 5 < / 2.
Proof. split; [apply Rinv_0_lt_compat, pow_lt; lra|]. split; apply Rinv_lt_contravar; lra. Qed.
Lemma G_positive : 0 < G. Proof. unfold G. apply Rdiv_lt_0_compat; [lra | apply pow_lt; lra]. Qed.

Theorem C32_almost_sphere_refuted : exists e rho g p, positive_axes e /\ ell_density e = Some rho /\
  (forall sh ps, prod_shape sh = length ps -> ellipsoid_gravity (coordinates_of sh ps) (Single e) = Ok (gravity_arrays sh g ps, 0%nat)) /\
  body_level e p = 1 /\ ~ continuous_at g p.
Proof.
  set (d := / 10 ^ 6). assert (Hd : 0 < d < / 10 ^ 5 /\ / 10 ^ 5 < / 2) by (destruct tiny as (? & ? & ?); unfold d; lra).
  set (c := 1 - d). assert (Hc : / 2 < c < 1) by (unfold c; lra).
  assert (S : sorted_axes_prop 1 1 c) by (unfold sorted_axes_prop; lra).
  assert (C2 : close 1 c = true) by (apply close_iff; unfold c; lra).
  assert (Sh : shape_of 1 1 c = Sphere) by (unfold shape_of; rewrite close_refl, C2 by lra; reflexivity).
  set (k := - 4 / 3 * PI * 1 ^ 3 * G * 1).
  assert (Kneg : k < 0) by (unfold k; assert (GP := G_positive); assert (PP := PI_RGT_0); assert (0 < PI * G) by (apply Rmult_lt_0_compat; assumption); nra).
  exists (aligned 1 1 c 1), 1, (sphere_field 1 1 c k), (V3 0 0 c).
  split; [unfold positive_axes; cbn; lra|]. split; [reflexivity|].
  split; [apply (aligned_gravity 1 1 c 1 _ S); intros pts; apply gravity_sphere; assumption|].
  assert (L1 : level 1 1 c (V3 0 0 c) = 1) by (unfold level; cbn [vx vy vz]; field; lra).
  split; [rewrite aligned_level; exact L1|]. intros Cont.
  assert (I1 : is_internal (V3 0 0 c) 1 1 c = false) by (destruct (is_internal (V3 0 0 c) 1 1 c) eqn:X; [apply is_internal_level in X; lra | reflexivity]).
  assert (Eps : 0 < - k * (/ c ^ 2 - c)).
  { apply Rmult_lt_0_compat; [lra|]. assert (1 < / c ^ 2) by (rewrite <- Rinv_1 at 1; apply Rinv_lt_contravar; nra). lra. }
  destruct (Cont _ Eps) as (r & Hr & Q). set (s := Rmax 0 (c - r / 2)).
  assert (Hs : 0 <= s < c /\ c - s <= r / 2) by (unfold s; unfold Rmax; destruct (Rle_dec 0 (c - r / 2)); lra).
  assert (Q1 := Q (V3 0 0 s)). assert (D : eucl (V3 0 0 c) (V3 0 0 s) < r).
  { eapply Rle_lt_trans; [apply eucl_le|]. cbn [vx vy vz]. rewrite Rminus_0_r, Rabs_R0, Rabs_right; lra. }
  specialize (Q1 D). destruct (eucl_coord (sphere_field 1 1 c k (V3 0 0 c)) (sphere_field 1 1 c k (V3 0 0 s))) as (_ & _ & E).
  assert (I2 : is_internal (V3 0 0 s) 1 1 c = true).
  { apply is_internal_level. unfold level; cbn [vx vy vz]. replace (0 ^ 2 / 1 ^ 2 + 0 ^ 2 / 1 ^ 2 + s ^ 2 / c ^ 2) with ((s / c) * (s / c)) by (field; lra).
    assert (0 <= s / c) by (apply Rmult_le_pos; [lra | left; apply Rinv_0_lt_compat; lra]).
    assert (s / c < 1) by (apply (Rmult_lt_reg_r c); [lra|]; unfold Rdiv; rewrite Rmult_assoc, Rinv_l; lra). nra. }
  unfold sphere_field in E, Q1. rewrite I1, I2 in E, Q1.
  assert (N : norm (V3 0 0 c) = c) by (rewrite <- norm_pow; cbn [vx vy vz]; replace (0 ^ 2 + 0 ^ 2 + c ^ 2) with (c * c) by ring; apply sqrt_square; lra).
  rewrite N in E, Q1. cbn [vx vy vz] in E. set (t := eucl _ _) in *.
  assert (A : - (k * c / c ^ 3 - k * s / 1 ^ 3) <= Rabs (k * c / c ^ 3 - k * s / 1 ^ 3)) by (rewrite <- Rabs_Ropp; apply Rle_abs).
  assert (F : - (k * c / c ^ 3 - k * s / 1 ^ 3) = - k * (/ c ^ 2 - s)) by (field; lra). rewrite F in A.
  assert (- k * (/ c ^ 2 - c) <= - k * (/ c ^ 2 - s)) by (apply Rmult_le_compat_l; lra). lra.
Qed.

(** ... and inside a nearly prolate body the divergence is that of another density. *)
Theorem C32_nearly_equal_axes_refuted : exists e rho g M, positive_axes e /\ ell_density e = Some rho /\
  (forall sh ps, prod_shape sh = length ps -> ellipsoid_gravity (coordinates_of sh ps) (Single e) = Ok (gravity_arrays sh g ps, 0%nat)) /\
  (forall p, body_level e p < 1 -> g p = mv M (vsub p (ell_center e)) /\ has_jacobian g p M) /\ trace M <> - 4 * PI * G * rho.
Proof.
  set (d := / 10 ^ 6). assert (Hd : 0 < d < / 10 ^ 5 /\ / 10 ^ 5 < / 2) by (destruct tiny as (? & ? & ?); unfold d; lra).
  assert (S : sorted_axes_prop 2 1 (1 - d)) by (unfold sorted_axes_prop; lra).
  assert (C1 : close 2 1 = false). { destruct (close 2 1) eqn:X; [|reflexivity]. apply close_iff in X; lra. }
  assert (C2 : close 1 (1 - d) = true) by (apply close_iff; lra).
  assert (Sh : shape_of 2 1 (1 - d) = Prolate) by (unfold shape_of; rewrite C1, C2; reflexivity).
  destruct (gravity_nonsphere 2 1 (1 - d) S) as (f & A & B & C & a' & b' & c' & Ef & Hf & _ & Eff & S2 & PA & PB & PC & Gr); [rewrite Sh; discriminate|].
  unfold effective in Eff. rewrite Sh in Eff. injection Eff as <- <- <-.
  set (k := - 2 * PI * 2 * 1 * (1 - d) * G * 1) in *.
  exists (aligned 2 1 (1 - d) 1), 1, (field_of_integrals k A B C (lam 2 1 (1 - d) f)), (diag (k * A 0) (k * B 0) (k * C 0)).
  split; [unfold positive_axes; cbn; lra|]. split; [reflexivity|].
  split; [apply (aligned_gravity 2 1 (1 - d) 1 _ S); intros pts; apply Gr|]. split.
  - intros p Hp. rewrite aligned_level in Hp. split.
    + rewrite integrals_field_inside by exact Hp. f_equal. destruct p as [x y z]. cbn [aligned ell_center]. unfold vsub; cbn [vx vy vz]. apply V3_eq; ring.
    + apply linear_jacobian. generalize (internal_open 2 1 (1 - d) ltac:(lra) ltac:(lra) ltac:(lra) p Hp). apply filter_imp. intros q Hq. apply integrals_field_inside, Hq.
  - assert (Su := sum_of_integrals 2 1 1 A B C ltac:(lra) ltac:(lra) ltac:(lra) PA PB PC 0 (Rle_refl 0)). rewrite root3_0 in Su by lra.
    unfold trace, diag; cbn [vx vy vz row1 row2 row3]. replace (k * A 0 + k * B 0 + k * C 0) with (k * (A 0 + B 0 + C 0)) by ring. rewrite Su. unfold k.
    assert (0 < PI * G * d) by (apply Rmult_lt_0_compat; [apply Rmult_lt_0_compat; [apply PI_RGT_0 | apply G_positive] | lra]). intros X. nra.
Qed.

(** What holds for such bodies, unless all three semi-axes nearly agree: the field is continuous and linear inside, and its divergence
    is that of the density up to the tolerance. *)
Theorem C32_nearly_equal_axes_partial : forall e rho, positive_axes e -> ell_density e = Some rho ->
  (exists x y, In x [ell_a e; ell_b e; ell_c e] /\ In y [ell_a e; ell_b e; ell_c e] /\ 2 / 10 ^ 5 * x <= x - y) ->
  exists (g : vec3 -> vec3) (M : mat3),
  (forall sh ps, prod_shape sh = length ps -> ellipsoid_gravity (coordinates_of sh ps) (Single e) = Ok (gravity_arrays sh g ps, 0%nat)) /\
  (forall p, continuous_at g p) /\
  (forall p, body_level e p < 1 -> g p = mv M (vsub p (ell_center e)) /\ has_jacobian g p M) /\
  symmetric M /\ Rabs (trace M - - 4 * PI * G * rho) <= 2 / 10 ^ 5 * Rabs (4 * PI * G * rho).
Proof.
  intros e rho P D (x & y & Ix & Iy & Dxy). destruct (local_points_ok e) as (q & S & a & b & c & Q & Eq & H & LP).
  assert (SA := sorts_positive e S a b c H P). assert (H' := H). destruct H' as (_ & _ & _ & (s & Pm & ->)).
  assert (T := tiny). destruct SA as (Hc & Hb & Ha). assert (SA : sorted_axes_prop a b c) by (repeat split; assumption).
  assert (Pa : 0 < a) by lra. assert (Pb : 0 < b) by lra.
  assert (T2 : 2 / 10 ^ 5 = 2 * / 10 ^ 5) by reflexivity.
  assert (W : 2 * / 10 ^ 5 * a <= a - c).
  { apply (Permutation_in _ (Permutation_sym Pm)) in Ix. apply (Permutation_in _ (Permutation_sym Pm)) in Iy. rewrite T2 in Dxy.
    assert (Xa : x <= a) by (destruct Ix as [<-|[<-|[<-|[]]]]; lra). assert (Xc : c <= y) by (destruct Iy as [<-|[<-|[<-|[]]]]; lra).
    assert ((1 - 2 * / 10 ^ 5) * x <= (1 - 2 * / 10 ^ 5) * a) by (apply Rmult_le_compat_l; lra).
    assert (y <= (1 - 2 * / 10 ^ 5) * x) by lra.
    assert (Q0 : c <= (1 - 2 * / 10 ^ 5) * a) by lra. lra. }
  assert (N : shape_of a b c <> Sphere).
  { unfold shape_of. destruct (close a b) eqn:C1; destruct (close b c) eqn:C2; try discriminate. intros _.
    apply close_iff in C1; [|lra|lra]. apply close_iff in C2; [|lra|lra]. assert (/ 10 ^ 5 * b <= / 10 ^ 5 * a) by (apply Rmult_le_compat_l; lra). lra. }
  destruct (gravity_nonsphere a b c SA N) as (f & A & B & C & a' & b' & c' & Ef & Hf & _ & Eff & S2 & PA & PB & PC & Gr).
  set (k := - 2 * PI * a * b * c * G * rho). set (g := field_of_integrals k A B C (lam a b c f)).
  assert (GL : gravity_local a b c rho g) by (intros pts; apply Gr).
  assert (BW := body_g_world e rho q S a b c g Eq LP GL D).
  exists (body_g e), (mm (mm (mT q) (diag (k * A 0) (k * B 0) (k * C 0))) q).
  split; [intros sh ps Hs; rewrite gravity_single by assumption; unfold no_density; rewrite D; reflexivity|].
  split; [|split; [|split]].
  - intros p. apply (continuous_at_ext (world q (ell_center e) g)); [intros; symmetry; apply BW|]. apply world_continuous; [exact Q|].
    apply (integrals_field_continuous a b c f k A B C a' b' c'); assumption.
  - intros p Hp. rewrite <- (sorts_level e S a b c p H), <- Eq in Hp. split.
    + rewrite BW. unfold world, g. rewrite integrals_field_inside by exact Hp. rewrite !mv_mm. reflexivity.
    + apply (has_jacobian_ext (world q (ell_center e) g)); [intros; symmetry; apply BW|]. apply world_jacobian, linear_jacobian.
      generalize (internal_open a b c Pa Pb Hc _ Hp). apply filter_imp. intros r Hr. apply integrals_field_inside, Hr.
  - apply symmetric_rot. reflexivity.
  - rewrite trace_rot by exact Q. destruct S2 as (Hc' & Hb' & Ha').
    assert (Su := sum_of_integrals a' b' c' A B C ltac:(lra) ltac:(lra) ltac:(lra) PA PB PC 0 (Rle_refl 0)). rewrite root3_0 in Su by lra.
    unfold trace, diag; cbn [vx vy vz row1 row2 row3]. replace (k * A 0 + k * B 0 + k * C 0) with (k * (A 0 + B 0 + C 0)) by ring. rewrite Su. unfold k.
    replace (- 2 * PI * a * b * c * G * rho * (2 / (a' * b' * c')) - - 4 * PI * G * rho) with ((1 - a * b * c / (a' * b' * c')) * (4 * PI * G * rho)) by (field; repeat split; lra).
    rewrite Rabs_mult. apply Rmult_le_compat_r; [apply Rabs_pos|]. rewrite T2. unfold effective in Eff. unfold shape_of in Eff, N.
    assert (Cl : forall u v, 0 < v -> v <= u -> close u v = true -> u - v < / 10 ^ 5 * u) by (intros u v Hv Hu X; apply close_iff in X; lra).
    destruct (close a b) eqn:C1; destruct (close b c) eqn:C2.
    + exfalso. apply N. reflexivity.
    + injection Eff as <- <- <-. apply Cl in C1; [|lra|lra]. replace (1 - a * b * c / (b * b * c)) with (- ((a - b) / b)) by (field; lra).
      rewrite Rabs_Ropp, Rabs_right; [|apply Rle_ge, Rmult_le_pos; [lra | left; apply Rinv_0_lt_compat; lra]].
      apply (Rmult_le_reg_r b); [lra|]. unfold Rdiv. rewrite Rmult_assoc, Rinv_l, Rmult_1_r by lra.
      assert (a <= 2 * b) by (assert (/ 10 ^ 5 * a <= / 2 * a) by (apply Rmult_le_compat_r; lra); lra).
      assert (/ 10 ^ 5 * a <= / 10 ^ 5 * (2 * b)) by (apply Rmult_le_compat_l; lra). lra.
    + injection Eff as <- <- <-. apply Cl in C2; [|lra|lra]. replace (1 - a * b * c / (a * b * b)) with ((b - c) / b) by (field; lra).
      rewrite Rabs_right; [|apply Rle_ge, Rmult_le_pos; [lra | left; apply Rinv_0_lt_compat; lra]].
      apply (Rmult_le_reg_r b); [lra|]. unfold Rdiv. rewrite Rmult_assoc, Rinv_l, Rmult_1_r by lra. assert (0 <= / 10 ^ 5 * b) by (apply Rmult_le_pos; lra). lra.
    + injection Eff as <- <- <-. replace (1 - a * b * c / (a * b * c)) with 0 by (field; lra). rewrite Rabs_R0. lra.
Qed.

(** ** C33: the external demagnetisation tensor *)
Theorem C33_external_tensor : forall a b c, well_shaped a b c -> exists ext, get_demagnetization_tensor_external a b c = Ok ext /\
  forall p, 1 <= level a b c p -> symmetric (ext p) /\ trace (ext p) = 0.
Proof. intros a b c W. destruct (local_summary a b c 1 W) as (g & ni & ext & _ & _ & E & _ & _ & _ & _ & Sx & _). exists ext. split; assumption. Qed.

Theorem C33_external_tensor_refuted : exists a b c ext, sorted_axes_prop a b c /\ get_demagnetization_tensor_external a b c = Ok ext /\
  forall p, 1 <= level a b c p -> trace (ext p) <> 0.
Proof.
  set (d := / 10 ^ 6). assert (Hd : 0 < d < / 10 ^ 5 /\ / 10 ^ 5 < / 2) by (destruct tiny as (? & ? & ?); unfold d; lra).
  assert (S : sorted_axes_prop 2 1 (1 - d)) by (unfold sorted_axes_prop; lra).
  assert (C1 : close 2 1 = false). { destruct (close 2 1) eqn:X; [|reflexivity]. apply close_iff in X; lra. }
  assert (C2 : close 1 (1 - d) = true) by (apply close_iff; lra).
  assert (Sh : shape_of 2 1 (1 - d) = Prolate) by (unfold shape_of; rewrite C1, C2; reflexivity).
  destruct (external_nonsphere 2 1 (1 - d) S) as (f & A & B & C & a' & b' & c' & ext & Ef & Hf & Eff & S2 & PA & PB & PC & _ & Eext & Hext); [rewrite Sh; discriminate|].
  unfold effective in Eff. rewrite Sh in Eff. injection Eff as <- <- <-.
  exists 2, 1, (1 - d), ext. split; [exact S|]. split; [exact Eext|]. intros p Hp. rewrite (Hext p Hp).
  destruct (lam_out 2 1 (1 - d) f Hf p Hp) as (_ & Hl & Pl). set (l := lam 2 1 (1 - d) f p) in *.
  assert (D := deriv_lambda_contraction 2 1 (1 - d) p l ltac:(lra) ltac:(lra) ltac:(lra) Hl ltac:(lra)). cbv zeta in D.
  assert (Su := sum_of_integrals 2 1 1 A B C ltac:(lra) ltac:(lra) ltac:(lra) PA PB PC l Hl).
  rewrite trace_mscale. unfold trace; cbn [vx vy vz row1 row2 row3]. set (dl := spatial_deriv_lambda p 2 1 (1 - d) l) in *. clearbody dl.
  assert (R1 := root3_pos 2 1 (1 - d) l ltac:(lra) ltac:(lra) ltac:(lra) Hl).
  assert (R2 : root3 2 1 (1 - d) l < root3 2 1 1 l).
  { unfold root3. apply sqrt_lt_1.
    - apply Rmult_le_pos; [apply Rmult_le_pos|]; nra.
    - apply Rmult_le_pos; [apply Rmult_le_pos|]; nra.
    - apply Rmult_lt_compat_l; [apply Rmult_lt_0_compat; nra | nra]. }
  assert (R3 : 2 / root3 2 1 1 l < 2 / root3 2 1 (1 - d) l) by (apply Rmult_lt_compat_l; [lra|]; apply Rinv_lt_contravar; [apply Rmult_lt_0_compat; lra | exact R2]).
  intros X. apply Rmult_integral in X. destruct X as [X|X]; [lra|]. lra.
Qed.

(** ** C34: magnetisation *)
Theorem C34_isotropic : forall a b c k h0 mr, sorted_axes_prop a b c -> -1 < k -> exists n m,
  get_demagnetization_tensor_internal a b c = Ok n /\
  get_magnetisation a b c (mscale k eye) h0 mr None = Ok m /\ get_magnetisation a b c (mscale k eye) h0 mr (Some n) = Ok m /\
  m = vadd (vscale k (vsub h0 (mv n m))) mr.
Proof.
  intros a b c k h0 mr S Hk. destruct (internal_ok a b c S) as (nx & ny & nz & Ei & Px & Py & Pz & Su). exists (diag nx ny nz).
  assert (D : det (madd eye (mm (diag nx ny nz) (mscale k eye))) <> 0).
  { rewrite isotropic_det. apply Rgt_not_eq. repeat apply Rmult_lt_0_compat; nra. }
  destruct (solve_ok _ (vadd mr (mv (mscale k eye) h0)) D) as (m & E & Hm). exists m. split; [exact Ei|].
  split; [rewrite (magnetisation_system_none a b c _ h0 mr (diag nx ny nz)) by assumption; exact E|].
  split; [rewrite magnetisation_system by exact S; exact E|].
  apply isotropic_equation in Hm. rewrite mv_mscale, mv_eye in Hm. etransitivity; [exact Hm|]. unfold vadd, vsub, vscale; cbn [vx vy vz]. apply V3_eq; ring.
Qed.

(** Susceptibilities diagonal in the frame of the sorted semi-axes. *)
Theorem C34_aligned_tensor : forall a b c kx ky kz h0 mr, sorted_axes_prop a b c -> -1 < kx -> -1 < ky -> -1 < kz -> exists n m,
  get_demagnetization_tensor_internal a b c = Ok n /\
  get_magnetisation a b c (diag kx ky kz) h0 mr None = Ok m /\
  m = vadd (mv (diag kx ky kz) (vsub h0 (mv n m))) mr.
Proof.
  intros a b c kx ky kz h0 mr S Hx Hy Hz. destruct (internal_ok a b c S) as (nx & ny & nz & Ei & Px & Py & Pz & Su). exists (diag nx ny nz).
  assert (D : det (madd eye (mm (diag nx ny nz) (diag kx ky kz))) <> 0).
  { unfold madd, eye, diag; cbn [vx vy vz row1 row2 row3]. rewrite mm_explicit. unfold vadd, det; cbn [vx vy vz row1 row2 row3].
    apply Rgt_not_eq. match goal with |- ?x > 0 => replace x with ((1 + kx * nx) * (1 + ky * ny) * (1 + kz * nz)) by ring end. repeat apply Rmult_lt_0_compat; nra. }
  destruct (solve_ok _ (vadd mr (mv (diag kx ky kz) h0)) D) as (m & E & Hm). exists m. split; [exact Ei|].
  split; [rewrite (magnetisation_system_none a b c _ h0 mr (diag nx ny nz)) by assumption; exact E|].
  destruct m as [x y z], h0 as [h1 h2 h3], mr as [r1 r2 r3].
  unfold madd, eye, diag in Hm; cbn [vx vy vz row1 row2 row3] in Hm. rewrite mm_explicit in Hm. unfold vadd in Hm; cbn [vx vy vz row1 row2 row3] in Hm. rewrite !mv_explicit in Hm. cbn [vx vy vz] in Hm.
  assert (E1 := f_equal vx Hm). assert (E2 := f_equal vy Hm). assert (E3 := f_equal vz Hm). cbn [vx vy vz] in E1, E2, E3.
  unfold diag. rewrite mv_explicit. unfold vsub; cbn [vx vy vz]. rewrite mv_explicit. unfold vadd; cbn [vx vy vz]. apply V3_eq; lra.
Qed.

(** Any susceptibility tensor: the system that the code solves has the product of the tensors in the other order. *)
Theorem C34_anisotropic_partial : forall a b c chi h0 mr, sorted_axes_prop a b c -> exists n, get_demagnetization_tensor_internal a b c = Ok n /\
  (det (madd eye (mm n chi)) = 0 -> get_magnetisation a b c chi h0 mr None = Raise LinAlgError) /\
  (det (madd eye (mm n chi)) <> 0 -> exists m, get_magnetisation a b c chi h0 mr None = Ok m /\
     vadd m (mv n (mv chi m)) = vadd mr (mv chi h0)).
Proof.
  intros a b c chi h0 mr S. destruct (internal_ok a b c S) as (nx & ny & nz & Ei & _). exists (diag nx ny nz). split; [exact Ei|].
  rewrite (magnetisation_system_none a b c _ h0 mr (diag nx ny nz)) by assumption. split.
  - apply solve_singular.
  - intros D. destruct (solve_ok _ (vadd mr (mv chi h0)) D) as (m & E & Hm). exists m. split; [exact E|]. rewrite <- Hm, mv_madd, mv_eye, mv_mm. reflexivity.
Qed.

Theorem C34_anisotropic_refuted : exists a b c chi h0 mr n m, sorted_axes_prop a b c /\ symmetric chi /\
  get_demagnetization_tensor_internal a b c = Ok n /\ get_magnetisation a b c chi h0 mr None = Ok m /\
  m <> vadd (mv chi (vsub h0 (mv n m))) mr.
Proof.
  assert (S : sorted_axes_prop 2 1 1) by (unfold sorted_axes_prop; lra).
  assert (C1 : close 2 1 = false). { destruct (close 2 1) eqn:X; [|reflexivity]. assert (T := tiny). apply close_iff in X; lra. }
  assert (Sh : shape_of 2 1 1 = Prolate) by (unfold shape_of; rewrite C1, close_refl by lra; reflexivity).
  destruct (internal_factors 2 1 1 S) as (f & A & B & C & a' & b' & c' & F & F0 & Eff & I); [rewrite Sh; discriminate|].
  destruct (effective_integrals 2 1 1 S) as (f2 & A2 & B2 & C2 & a2 & b2 & c2 & F2 & E2 & Eff2 & S2 & PA & PB & PC); [rewrite Sh; discriminate|].
  rewrite F in F2. injection F2 as <-. rewrite Eff in Eff2. injection Eff2 as <- <- <-. unfold effective in Eff. rewrite Sh in Eff. injection Eff as <- <- <-.
  rewrite E2 in F0. injection F0 as <- <- <-.
  assert (LT := primitive_lt 2 1 1 2 1 A2 B2 ltac:(lra) ltac:(lra) ltac:(lra) ltac:(lra) ltac:(lra) PA PB 0 (Rle_refl 0)).
  assert (PosA := primitive_pos 2 1 1 2 A2 ltac:(lra) ltac:(lra) ltac:(lra) ltac:(lra) PA 0 (Rle_refl 0)).
  set (nx := 2 * 1 * 1 / 2 * A2 0) in *. set (ny := 2 * 1 * 1 / 2 * B2 0) in *. set (nz := 2 * 1 * 1 / 2 * C2 0) in *.
  assert (Nxy : nx < ny) by (unfold nx, ny; lra). assert (Px : 0 < nx) by (unfold nx; lra).
  assert (Su : nx + ny + nz = 1) by (destruct (internal_ok 2 1 1 S) as (x & y & z & Ei & _ & _ & _ & X); rewrite I in Ei; injection Ei as -> -> ->; exact X).
  assert (Pz : 0 < nz) by (destruct (internal_ok 2 1 1 S) as (x & y & z & Ei & _ & _ & X & _); rewrite I in Ei; injection Ei as -> -> ->; exact X).
  clearbody nx ny nz.
  set (chi := M3 (V3 0 1 0) (V3 1 0 0) (V3 0 0 0)). set (mr := mv (madd eye (mm (diag nx ny nz) chi)) (V3 1 0 0)).
  assert (D : det (madd eye (mm (diag nx ny nz) chi)) <> 0).
  { unfold madd, eye, diag, chi; cbn [vx vy vz row1 row2 row3]. rewrite mm_explicit. unfold vadd, det; cbn [vx vy vz row1 row2 row3].
    match goal with |- ?x <> 0 => replace x with (1 - nx * ny) by ring end. nra. }
  destruct (solve_ok _ (vadd mr (mv chi (V3 0 0 0))) D) as (m & E & Hm).
  exists 2, 1, 1, chi, (V3 0 0 0), mr, (diag nx ny nz), m. split; [exact S|]. split; [reflexivity|]. split; [exact I|].
  split; [rewrite (magnetisation_system_none 2 1 1 _ _ mr (diag nx ny nz)) by assumption; exact E|].
  intros X. destruct m as [x y z]. unfold mr, chi, madd, eye, diag in Hm, X; cbn [vx vy vz row1 row2 row3] in Hm, X. rewrite mm_explicit in Hm, X.
  unfold vadd in Hm, X; cbn [vx vy vz row1 row2 row3] in Hm, X. rewrite !mv_explicit in Hm, X. unfold vsub in X; cbn [vx vy vz] in Hm, X. rewrite mv_explicit in X. cbn [vx vy vz] in X.
  assert (E1 := f_equal vx Hm). assert (E3 := f_equal vy Hm). assert (X1 := f_equal vx X). assert (X2 := f_equal vy X). cbn [vx vy vz] in E1, E3, X1, X2.
  rewrite mv_explicit in E1, E3. cbn [vx vy vz] in E1, E3.
  (* x + nx y = 1, ny x + y = ny, so x = 1, y = 0 *)
  assert (Y1 : x + nx * y = 1) by lra. assert (Y2 : ny * x + y = ny) by lra.
  assert (Z1 : y * (1 - nx * ny) = 0) by (assert (Hx : x = 1 - nx * y) by lra; rewrite Hx in Y2; lra).
  apply Rmult_integral in Z1. destruct Z1 as [Z1|Z1]; [|nra]. subst y. assert (x = 1) by lra. subst x. lra.
Qed.

Example C34_isotropic_case : exists n m, get_demagnetization_tensor_internal 3 2 1 = Ok n /\
  get_magnetisation 3 2 1 (mscale 5 eye) (V3 1 2 3) (V3 0 0 1) None = Ok m /\ m = vadd (vscale 5 (vsub (V3 1 2 3) (mv n m))) (V3 0 0 1).
Proof. destruct (C34_isotropic 3 2 1 5 (V3 1 2 3) (V3 0 0 1)) as (n & m & H1 & H2 & _ & H3); [unfold sorted_axes_prop; lra | lra | exists n, m; auto]. Qed.

(** ** Concrete cases *)
Definition triaxial_sample : ellipsoid := Ell 1 3 2 30 20 10 (V3 5 6 7) (Some 2670) None None.
Example C32_sample : exists g M, (forall p, body_level triaxial_sample p < 1 -> g p = mv M (vsub p (V3 5 6 7)) /\ has_jacobian g p M) /\ trace M = - 4 * PI * G * 2670.
Proof.
  destruct (C32_gravity_field triaxial_sample 2670) as (g & M & _ & H2 & _ & H4 & _); [|reflexivity | exists g, M; split; assumption].
  split; [unfold positive_axes; cbn; lra|]. cbn [triaxial_sample ell_a ell_b ell_c In]. assert (T := tiny). unfold distinct_enough.
  assert (T2 : / 10 ^ 5 < / 10) by (apply Rinv_lt_contravar; lra).
  intros x y Hx Hy Hxy. destruct Hx as [<-|[<-|[<-|[]]]]; destruct Hy as [<-|[<-|[<-|[]]]]; first [left; reflexivity | right; lra | exfalso; lra].
Qed.
Example C32_sphere_sample : positive_axes (Ell 2 2 2 0 0 0 (V3 0 0 0) (Some 1) None None) /\ 2 <= eucl (V3 0 0 3) (V3 0 0 0).
Proof.
  split; [unfold positive_axes; cbn; lra|]. destruct (eucl_coord (V3 0 0 3) (V3 0 0 0)) as (_ & _ & H). cbn [vz] in H. rewrite Rabs_right in H by lra. lra.
Qed.
Example C32_partial_sample : exists x y, In x [2; 1; 1 - / 10 ^ 6] /\ In y [2; 1; 1 - / 10 ^ 6] /\ 2 / 10 ^ 5 * x <= x - y.
Proof. assert (T := tiny). exists 2, 1. split; [now left|]. split; [right; now left|]. unfold Rdiv. assert (T2 : / 10 ^ 5 < / 10) by (apply Rinv_lt_contravar; lra). lra. Qed.
Example C33_sample : well_shaped 3 2 1 /\ 1 <= level 3 2 1 (V3 5 0 0).
Proof.
  assert (T2 : / 10 ^ 5 < / 10) by (apply Rinv_lt_contravar; lra). split; [|unfold level; cbn [vx vy vz]; lra].
  split; [unfold sorted_axes_prop; lra|]. unfold distinct_enough. split; right; lra.
Qed.

Print Assumptions C32_gravity_field.
Print Assumptions C32_sphere_is_point_mass.
Print Assumptions C32_almost_sphere_refuted.
Print Assumptions C32_nearly_equal_axes_refuted.
Print Assumptions C32_nearly_equal_axes_partial.
Print Assumptions C33_external_tensor.
Print Assumptions C33_external_tensor_refuted.
Print Assumptions C34_isotropic.
Print Assumptions C34_aligned_tensor.
Print Assumptions C34_anisotropic_partial.
Print Assumptions C34_anisotropic_refuted.
