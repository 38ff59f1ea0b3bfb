(** C91: far from the bodies the fields of ellipsoids are those of point masses and point dipoles. *)
From Coquelicot Require Import Coquelicot.
From Coq Require Import Psatz Permutation.
From Verif Require Import Base BaseFacts NumPy NumPyFacts PointGravityModel EllipsoidModel EllipsoidSpec EllipsoidRotProofs EllipsoidLambdaProofs EllipsoidShapeProofs
  EllipsoidFieldProofs EllipsoidLocalProofs EllipsoidTopProofs EllipsoidMagProofs EllipsoidMagProps EllipsoidFieldProps EllipsoidMoveProofs EllipsoidFarProofs.
Local Open Scope R_scope.

(** ** Notions of the statements *)
Definition axes_of (e : ellipsoid) : list R := [ell_a e; ell_b e; ell_c e].
Definition volume (e : ellipsoid) : R := 4 / 3 * PI * ell_a e * ell_b e * ell_c e.
(** A sphere, or a body with two semi-axes that differ by more than twice the relative tolerance of the code. *)
Definition decided_shape (e : ellipsoid) : Prop :=
  (ell_a e = ell_b e /\ ell_b e = ell_c e) \/ exists x y, In x (axes_of e) /\ In y (axes_of e) /\ 2 / 10 ^ 5 * x <= x - y.
(** No two squared semi-axes differ by more than [d]. *)
Definition spread_at_most (e : ellipsoid) (d : R) : Prop := forall x y, In x (axes_of e) -> In y (axes_of e) -> x ^ 2 - y ^ 2 <= d.
(** The attraction at [r] of a mass at the origin, and the field in tesla of a magnetic moment there. *)
Definition point_mass_field (mass : R) (r : vec3) : vec3 := vscale (- G * mass / norm r ^ 3) r.
Definition point_dipole_field (mu_0 : R) (m r : vec3) : vec3 :=
  vscale (mu_0 / (4 * PI)) (vsub (vscale (3 * dot m r / norm r ^ 5) r) (vscale (/ norm r ^ 3) m)).

Lemma axes_permuted e S a b c : sorts e S a b c -> forall x, In x (axes_of e) <-> In x [a; b; c].
Proof.
  intros (_ & _ & _ & (s & Pm & ->)) x. unfold axes_of. split; [apply (Permutation_in _ (Permutation_sym Pm)) | apply (Permutation_in _ Pm)].
Qed.

Lemma decided_local e S a b c : sorts e S a b c -> sorted_axes_prop a b c -> decided_shape e -> shape_of a b c <> Sphere \/ (a = b /\ b = c).
Proof.
  intros H (Hc & Hb & Ha) [[E1 E2] | (x & y & Ix & Iy & Dxy)].
  - right. assert (Q : forall x, In x [a; b; c] -> x = ell_a e) by (intros x Hx; apply (axes_permuted e S a b c H) in Hx; destruct Hx as [<-|[<-|[<-|[]]]]; congruence).
    rewrite (Q a), (Q b), (Q c) by (cbn; auto). split; reflexivity.
  - left. assert (T := tiny). assert (T2 : 2 / 10 ^ 5 = 2 * / 10 ^ 5) by reflexivity. rewrite T2 in Dxy.
    apply (axes_permuted e S a b c H) in Ix. apply (axes_permuted e S a b c H) in Iy.
    assert (Xa : x <= a) by (destruct Ix as [<-|[<-|[<-|[]]]]; lra). assert (Xc : c <= y) by (destruct Iy as [<-|[<-|[<-|[]]]]; lra).
    assert ((1 - 2 * / 10 ^ 5) * x <= (1 - 2 * / 10 ^ 5) * a) by (apply Rmult_le_compat_l; lra).
    assert (Q0 : c <= (1 - 2 * / 10 ^ 5) * a) by lra.
    unfold shape_of. destruct (close a b) eqn:C1; destruct (close b c) eqn:C2; try discriminate. intros _.
    apply close_iff in C1; [|lra|lra]. apply close_iff in C2; [|lra|lra]. assert (/ 10 ^ 5 * b <= / 10 ^ 5 * a) by (apply Rmult_le_compat_l; lra). lra.
Qed.

Lemma volume_local e S a b c : sorts e S a b c -> volume e = 4 / 3 * PI * a * b * c.
Proof.
  intros (_ & _ & _ & (s & Pm & ->)). unfold volume.
  assert (K : forall l m, Permutation l m -> fold_right Rmult 1 l = fold_right Rmult 1 m) by (induction 1; cbn [fold_right]; [reflexivity | rewrite IHPermutation; reflexivity | ring | congruence]).
  assert (E := K _ _ Pm). cbn [fold_right] in E. transitivity (4 / 3 * PI * (ell_a e * (ell_b e * (ell_c e * 1)))); [ring|]. rewrite <- E. ring.
Qed.

Lemma norm_back q v : orthogonal q -> norm (mv (mT q) v) = norm v.
Proof. intros Q. apply norm_keeps, orthogonal_mT, Q. Qed.

(** ** The gravity field *)
Theorem C91_point_mass e rho d : positive_axes e -> decided_shape e -> ell_density e = Some rho -> spread_at_most e d ->
  exists g, (forall sh ps, prod_shape sh = length ps -> ellipsoid_gravity (coordinates_of sh ps) (Single e) = Ok (gravity_arrays sh g ps, 0%nat)) /\
  forall p, let r := eucl p (ell_center e) in (forall x, In x (axes_of e) -> x <= r) -> 2 * d <= r ^ 2 ->
    eucl (g p) (point_mass_field (volume e * rho) (vsub p (ell_center e))) <= 18 * G * Rabs (volume e * rho) * d / r ^ 4.
Proof.
  intros P Ds D Sp. destruct (local_points_ok e) as (q & S & a & b & c & Q & Eq & H & LP). assert (SA := sorts_positive e S a b c H P).
  assert (AX := axes_permuted e S a b c H). assert (Hd : a ^ 2 - c ^ 2 <= d) by (apply Sp; apply AX; cbn; auto).
  destruct (gravity_far a b c rho d SA (decided_local e S a b c H SA Ds) Hd) as (g & GL & GF).
  assert (BW := body_g_world e rho q S a b c g Eq LP GL D). exists (body_g e).
  split; [intros sh ps Hs; rewrite gravity_single by assumption; unfold no_density; rewrite D; reflexivity|].
  intros p r Hr H2. set (u := mv q (vsub p (ell_center e))). assert (Nu : norm u = r) by (unfold u, r, eucl; apply norm_keeps, Q).
  assert (Ha : a <= norm u) by (rewrite Nu; apply Hr, AX; cbn; auto). destruct SA as (Pc & Hb & Hab). assert (D0 : 0 <= d) by nra. assert (R0 : 0 < r) by (rewrite <- Nu; lra).
  assert (Du : dot u u = r ^ 2) by (rewrite <- norm_sqr, Nu; ring).
  assert (Gu := GF u Ha ltac:(rewrite Du; nra)). rewrite BW. unfold world. fold u.
  unfold eucl, point_mass_field. replace (vsub p (ell_center e)) with (mv (mT q) u) by (unfold u; apply orthogonal_forth, Q).
  rewrite norm_back, <- mv_vscale, <- mv_vsub, norm_back by exact Q.
  replace (- G * (volume e * rho) / norm u ^ 3) with (- (4 / 3 * PI * a * b * c * G * rho) / norm u ^ 3) by (rewrite (volume_local e S a b c H); unfold Rdiv; ring).
  eapply Rle_trans; [exact Gu|]. assert (Gs := gap_simple (dot u u) d D0 ltac:(rewrite Du; nra) ltac:(rewrite Du; exact H2)). rewrite phi5_norm in Gs.
  assert (GP := G_positive). rewrite (volume_local e S a b c H). set (V := 4 / 3 * PI * a * b * c). replace (V * G * rho) with (G * (V * rho)) by ring. rewrite Rabs_mult, (Rabs_pos_eq G) by lra.
  set (W := Rabs (V * rho)). assert (W0 : 0 <= W) by apply Rabs_pos. set (x := phi3 (dot u u - d) - phi3 (dot u u + d)) in *. rewrite Nu in *.
  apply Rle_trans with (G * W * (18 * d * / r ^ 5) * r); [apply Rmult_le_compat_r; [lra|]; apply Rmult_le_compat_l; [apply Rmult_le_pos; lra | exact Gs]|].
  right. field. lra.
Qed.
Print Assumptions C91_point_mass.

(** The rule holds in the limit: the field times the squared distance tends to that of the point mass. *)
Theorem C91_far_limit e rho : positive_axes e -> decided_shape e -> ell_density e = Some rho ->
  exists g, (forall sh ps, prod_shape sh = length ps -> ellipsoid_gravity (coordinates_of sh ps) (Single e) = Ok (gravity_arrays sh g ps, 0%nat)) /\
  forall eps, 0 < eps -> exists far, forall p, let r := eucl p (ell_center e) in far < r ->
    r ^ 2 * eucl (g p) (point_mass_field (volume e * rho) (vsub p (ell_center e))) < eps.
Proof.
  intros P Ds D. set (a := ell_a e). set (b := ell_b e). set (c := ell_c e). set (d := a ^ 2 + b ^ 2 + c ^ 2).
  assert (A2 := sq_nonneg a). assert (B2 := sq_nonneg b). assert (C2 := sq_nonneg c). assert (P' := P). destruct P' as (Pa & Pb & Pc). fold a in Pa. fold b in Pb. fold c in Pc.
  assert (Sp : spread_at_most e d) by (intros x y Hx Hy; assert (Y := sq_nonneg y); unfold d; destruct Hx as [<-|[<-|[<-|[]]]]; fold a b c; lra).
  destruct (C91_point_mass e rho d P Ds D Sp) as (g & GA & GF). exists g. split; [exact GA|]. intros eps He.
  set (K := 18 * G * Rabs (volume e * rho) * d). assert (K0 : 0 <= K).
  { unfold K. assert (GP := G_positive). assert (W := Rabs_pos (volume e * rho)). apply Rmult_le_pos; [apply Rmult_le_pos; lra | unfold d; lra]. }
  exists (a + b + c + 2 * d + 1 + K / eps). intros p r Hr. assert (Q0 : 0 <= K / eps) by (apply Rmult_le_pos; [exact K0 | left; apply Rinv_0_lt_compat, He]).
  assert (D0 : 0 <= d) by (unfold d; lra). assert (R1 : 1 < r) by lra.
  assert (B : eucl (g p) (point_mass_field (volume e * rho) (vsub p (ell_center e))) <= K / r ^ 4).
  { apply GF; [intros x Hx; fold r; destruct Hx as [<-|[<-|[<-|[]]]]; fold a b c; lra | fold r; nra]. }
  assert (E : r ^ 2 * (K / r ^ 4) = K / r ^ 2) by (field; lra).
  assert (R2 : 0 < r ^ 2) by nra. assert (r ^ 2 * eucl (g p) (point_mass_field (volume e * rho) (vsub p (ell_center e))) <= r ^ 2 * (K / r ^ 4)) by (apply Rmult_le_compat_l; lra).
  assert (K / r ^ 2 < eps); [|lra]. apply (Rmult_lt_reg_r (r ^ 2)); [exact R2|]. replace (K / r ^ 2 * r ^ 2) with K by (field; lra).
  assert (K / eps * eps = K) by (field; lra). assert (K / eps < r) by lra. clear B E H GF GA Sp.
  assert (R12 : r < r ^ 2) by nra. assert (K / eps * eps < r * eps) by (apply Rmult_lt_compat_r; assumption).
  assert (r * eps < r ^ 2 * eps) by (apply Rmult_lt_compat_r; assumption). lra.
Qed.
Print Assumptions C91_far_limit.

(** ** The magnetic field: the moment is the volume times the magnetisation, which for an isotropic body
    is the induced one in the reduced field plus the remanent one. *)
Theorem C91_point_dipole mu_0 e F d sh0 ps0 r0 : positive_axes e -> decided_shape e -> spread_at_most e d -> (ell_susceptibility e <> None \/ ell_remanent e <> None) ->
  prod_shape sh0 = length ps0 -> ellipsoid_magnetic mu_0 (coordinates_of sh0 ps0) (Single e) F = Ok r0 ->
  exists B M N, (forall sh ps, prod_shape sh = length ps -> ellipsoid_magnetic mu_0 (coordinates_of sh ps) (Single e) F = Ok (magnetic_arrays sh B ps, 0%nat)) /\
  trace N = 1 /\ (forall p, body_level e p < 1 -> B p = vscale mu_0 (vsub M (mv N M))) /\
  (ell_susceptibility e = None -> M = world_remanent e) /\
  (forall k, ell_susceptibility e = Some (Isotropic k) -> M = vadd (vscale k (vsub (h0_of mu_0 F) (mv N M))) (world_remanent e)) /\
  forall p, let r := eucl p (ell_center e) in (forall x, In x (axes_of e) -> x <= r) -> 2 * d <= r ^ 2 ->
    eucl (B p) (point_dipole_field mu_0 (vscale (volume e) M) (vsub p (ell_center e))) <= 162 / PI * Rabs mu_0 * volume e * norm M * d / r ^ 5.
Proof.
  intros P Ds Sp HPr Hs0 H0. assert (So := computed_solvable mu_0 e F sh0 ps0 r0 P Hs0 H0).
  assert (HP : has_property e = true) by (unfold has_property; destruct (ell_susceptibility e), (ell_remanent e); try reflexivity; destruct HPr; congruence).
  destruct (local_points_ok e) as (q & S & a & b & c & Q & Eq & H & LP). assert (SA := sorts_positive e S a b c H P).
  assert (AX := axes_permuted e S a b c H). assert (Hd : a ^ 2 - c ^ 2 <= d) by (apply Sp; apply AX; cbn; auto).
  destruct (external_far a b c d SA (decided_local e S a b c H SA Ds) Hd) as (ext & Ee & EF). destruct (internal_ok a b c SA) as (nx & ny & nz & Ei & _ & _ & _ & Tn).
  set (ni := diag nx ny nz) in *. set (h0 := h0_of mu_0 F) in *.
  destruct (So HP) as (v & Hv). assert (B0 := single_magnetic mu_0 e (ell_susceptibility e) (ell_remanent e) h0 q S a b c ni ext SA Eq LP Ei Ee []).
  cbn [map] in B0. rewrite B0 in Hv. destruct (solve _ _) as [m|x] eqn:Sm in Hv; [|discriminate]. clear Hv B0 v.
  destruct (body_b_world mu_0 h0 e q S a b c ni ext m SA Eq LP Ei Ee Sm HP) as [_ BB].
  set (M := mv (mT q) m). assert (BM := body_magnetic mu_0 e M q S a b c ni ext m Q H Eq eq_refl).
  set (N := mm (mm (mT q) ni) q).
  assert (Iso : forall k, cast_susceptibility (ell_susceptibility e) = mscale k eye -> M = vadd (vscale k (vsub h0 (mv N M))) (world_remanent e)).
  { intros k Hk. apply solve_sound in Sm. rewrite Hk in Sm. destruct H as (_ & [OS _] & _). change (cast_remanent_magnetization (ell_remanent e)) with (world_remanent e) in Sm.
    rewrite (proj1 (q_isotropic q S k OS)) in Sm. apply isotropic_equation in Sm. rewrite mv_mscale, mv_eye in Sm.
    assert (E := f_equal (mv (mT q)) Sm). fold M in E. rewrite mv_vsub, mv_vadd, !mv_vscale, !(orthogonal_forth q) in E by exact Q.
    unfold N. rewrite !mv_mm. unfold M at 2. rewrite (orthogonal_back q m Q). etransitivity; [exact E|]. unfold vadd, vsub, vscale; cbn [vx vy vz]. apply V3_eq; ring. }
  exists (body_b mu_0 h0 e), M, N.
  split; [intros sh ps Hs; rewrite magnetic_single by assumption; rewrite HP; reflexivity|].
  split; [unfold N; rewrite trace_rot by exact Q; unfold ni, trace, diag; cbn [vx vy vz row1 row2 row3]; lra|].
  split; [intros p Hp; rewrite BB, BM, (proj2 (Rltb_true _ _) Hp); reflexivity|].
  split.
  { intros Z. rewrite (Iso 0); [|rewrite Z; unfold cast_susceptibility, mscale, eye, diag, vscale; cbn [vx vy vz row1 row2 row3]; apply M3_eq; ring].
    destruct (world_remanent e) as [x y z]. unfold vadd, vscale; cbn [vx vy vz]. apply V3_eq; ring. }
  split; [intros k Hk; apply Iso; rewrite Hk; reflexivity|].
  intros p r Hr H2. set (u := mv q (vsub p (ell_center e))). assert (Nu : norm u = r) by (unfold u, r, eucl; apply norm_keeps, Q).
  assert (Ha : a <= norm u) by (rewrite Nu; apply Hr, AX; cbn; auto). assert (SA' := SA). destruct SA' as (Pc & Hb & Hab). assert (D0 : 0 <= d) by nra. assert (R0 : 0 < r) by (rewrite <- Nu; lra).
  assert (Du : dot u u = r ^ 2) by (rewrite <- norm_sqr, Nu; ring).
  assert (Gu := EF u m Ha ltac:(rewrite Du; nra)).
  assert (Out : 1 <= level a b c u) by (apply far_outside; assumption).
  assert (EB : body_b mu_0 h0 e p = mv (mT q) (vscale (- mu_0) (mv (ext u) m))).
  { rewrite BB. unfold world, b_local. fold u. destruct (is_internal u a b c) eqn:I; [apply is_internal_level in I; lra|]. f_equal. rewrite mv_mscale. unfold vscale; cbn [vx vy vz]. apply V3_eq; ring. }
  rewrite EB. unfold eucl, point_dipole_field. replace (vsub p (ell_center e)) with (mv (mT q) u) by (unfold u; apply orthogonal_forth, Q).
  rewrite norm_back by exact Q. unfold M. rewrite <- !mv_vscale. rewrite orthogonal_dot by (apply orthogonal_mT, Q). rewrite <- mv_vsub, <- mv_vscale, <- mv_vsub, !norm_back by exact Q.
  assert (PP := PI_RGT_0). assert (NP : norm u <> 0) by lra. assert (V0 : 0 < a * b * c) by (assert (0 < a) by lra; assert (0 < b) by lra; repeat apply Rmult_lt_0_compat; assumption).
  replace (vsub _ _) with (vscale (- mu_0) (vsub (mv (ext u) m) (vscale (a * b * c / 3) (dipole_form u m)))).
  2: { rewrite (mv_vscale (ext u)), (volume_local e S a b c H). unfold dipole_form. generalize (mv (ext u) m). intros w. unfold vsub, vscale, dot; cbn [vx vy vz]. apply V3_eq; field; split; lra. }
  rewrite norm_vscale, Rabs_Ropp. assert (DE := dipole_error_simple (dot u u) d D0 ltac:(rewrite Du; nra) ltac:(rewrite Du; exact H2)). rewrite phi5_norm, Nu in DE.
  assert (Nm := norm_nonneg m). assert (Mu := Rabs_pos mu_0).
  apply Rle_trans with (Rabs mu_0 * (a * b * c * (216 * d * / r ^ 5) * norm m)).
  - apply Rmult_le_compat_l; [exact Mu|]. eapply Rle_trans; [exact Gu|]. apply Rmult_le_compat_r; [exact Nm|]. apply Rmult_le_compat_l; lra.
  - right. rewrite (volume_local e S a b c H). field. split; lra.
Qed.
Print Assumptions C91_point_dipole.

(** A body with semi-axes closer than the tolerance but not equal is given the mass of the sphere around it. *)
Theorem C91_almost_sphere_refuted : exists e rho g, positive_axes e /\ ell_density e = Some rho /\ 0 < rho /\
  (forall sh ps, prod_shape sh = length ps -> ellipsoid_gravity (coordinates_of sh ps) (Single e) = Ok (gravity_arrays sh g ps, 0%nat)) /\
  ~ (forall eps, 0 < eps -> exists far, forall p, let r := eucl p (ell_center e) in far < r ->
       r ^ 2 * eucl (g p) (point_mass_field (volume e * rho) (vsub p (ell_center e))) < eps).
Proof.
  set (d := / 10 ^ 6). assert (Hd : 0 < d < / 10 ^ 5 /\ / 10 ^ 5 < / 2) by (destruct tiny as (? & ? & ?); unfold d; lra).
  set (c := 1 - d). assert (Hc : / 2 < c < 1) by (unfold c; lra).
  assert (S : sorted_axes_prop 1 1 c) by (unfold sorted_axes_prop; lra).
  assert (C2 : close 1 c = true) by (apply close_iff; unfold c; lra).
  assert (Sh : shape_of 1 1 c = Sphere) by (unfold shape_of; rewrite close_refl, C2 by lra; reflexivity).
  set (k := - 4 / 3 * PI * 1 ^ 3 * G * 1). assert (GP := G_positive). assert (PP := PI_RGT_0). assert (GPI : 0 < PI * G) by (apply Rmult_lt_0_compat; assumption).
  exists (aligned 1 1 c 1), 1, (sphere_field 1 1 c k).
  split; [unfold positive_axes; cbn; lra|]. split; [reflexivity|]. split; [lra|].
  split; [apply (aligned_gravity 1 1 c 1 _ S); intros pts; apply gravity_sphere; assumption|].
  intros L. assert (E0 : 0 < 4 / 3 * (PI * G) * d) by (apply Rmult_lt_0_compat; lra). destruct (L _ E0) as (far & Hf).
  set (h := Rmax far 1 + 1). assert (M1 := Rmax_l far 1). assert (M2 := Rmax_r far 1). assert (H1 : 1 < h /\ far < h) by (unfold h; lra).
  specialize (Hf (V3 h 0 0)). cbv zeta in Hf. unfold aligned in Hf at 1 2 3 4; cbn [ell_center] in Hf.
  assert (Nh : norm (V3 h 0 0) = h) by (rewrite <- norm_pow; cbn [vx vy vz]; replace (h ^ 2 + 0 ^ 2 + 0 ^ 2) with (h * h) by ring; apply sqrt_square; lra).
  assert (Sb : vsub (V3 h 0 0) (V3 0 0 0) = V3 h 0 0) by (unfold vsub; cbn [vx vy vz]; apply V3_eq; ring).
  unfold eucl at 1 2 in Hf. rewrite Sb, Nh in Hf. specialize (Hf (proj2 H1)).
  assert (O : is_internal (V3 h 0 0) 1 1 c = false).
  { destruct (is_internal (V3 h 0 0) 1 1 c) eqn:I; [|reflexivity]. apply is_internal_level in I. unfold level in I; cbn [vx vy vz] in I.
    replace (h ^ 2 / 1 ^ 2 + 0 ^ 2 / 1 ^ 2 + 0 ^ 2 / c ^ 2) with (h ^ 2) in I by (field; lra). nra. }
  unfold sphere_field, eucl in Hf. rewrite O in Hf. unfold point_mass_field, volume in Hf. cbn [ell_a ell_b ell_c] in Hf. rewrite Nh in Hf.
  match type of Hf with _ * norm ?v < _ => replace v with (V3 (- (4 / 3 * (PI * G) * d) / h ^ 2) 0 0) in Hf by (unfold vsub, vscale, k, c; cbn [vx vy vz]; apply V3_eq; field; lra) end.
  rewrite <- norm_pow in Hf; cbn [vx vy vz] in Hf. replace ((- (4 / 3 * (PI * G) * d) / h ^ 2) ^ 2 + 0 ^ 2 + 0 ^ 2) with ((4 / 3 * (PI * G) * d / h ^ 2) * (4 / 3 * (PI * G) * d / h ^ 2)) in Hf by (field; lra).
  rewrite sqrt_square in Hf by (apply Rmult_le_pos; [lra | left; apply Rinv_0_lt_compat; nra]).
  replace (h ^ 2 * (4 / 3 * (PI * G) * d / h ^ 2)) with (4 / 3 * (PI * G) * d) in Hf by (field; lra). lra.
Qed.
Print Assumptions C91_almost_sphere_refuted.

(** ** Examples *)
Definition far_sample : ellipsoid := Ell 1 3 2 30 20 10 (V3 5 6 7) (Some 2670) (Some (Isotropic 2)) (Some (V3 1 0 4)).
Example C91_sample : positive_axes far_sample /\ decided_shape far_sample /\ spread_at_most far_sample 8 /\
  exists p, eucl p (ell_center far_sample) = 10 /\ (forall x, In x (axes_of far_sample) -> x <= 10) /\ 2 * 8 <= 10 ^ 2.
Proof.
  assert (T := tiny). split; [unfold positive_axes, far_sample; cbn; lra|]. split; [|split].
  - right. exists 3, 1. unfold axes_of, far_sample; cbn [ell_a ell_b ell_c In]. split; [auto|]. split; [auto|]. unfold Rdiv. lra.
  - intros x y Hx Hy. unfold axes_of, far_sample in Hx, Hy; cbn [ell_a ell_b ell_c In] in Hx, Hy.
    destruct Hx as [<-|[<-|[<-|[]]]]; destruct Hy as [<-|[<-|[<-|[]]]]; lra.
  - exists (V3 15 6 7). split; [|split; [intros x Hx; destruct Hx as [<-|[<-|[<-|[]]]]; cbn; lra | lra]].
    unfold eucl, norm, far_sample, vsub, dot; cbn [ell_center vx vy vz]. replace ((15 - 5) * (15 - 5) + (6 - 6) * (6 - 6) + (7 - 7) * (7 - 7)) with (10 * 10) by ring. apply sqrt_square. lra.
Qed.
Example C91_dipole_sample : exists r, ellipsoid_magnetic 1 (coordinates_of [1%nat] [V3 0 0 0]) (Single far_sample) (V3 1 2 3) = Ok r.
Proof. destruct C81_sample as (r & H & _). exists r. exact H. Qed.
