(** Lemmas for claim C107. *)
From Coq Require Import Psatz.
From Coquelicot Require Import Coquelicot.
From Verif Require Import Base BaseFacts DistanceModel DistanceSpec PointGravitySpec TesseroidModel TesseroidSpec TesseroidAdaptProofs TesseroidFitSpec TesseroidFitProps TesseroidLimitSpec TesseroidLimitIntProofs TesseroidLimitProofs
  TesseroidVariableLimitSpec TesseroidVariableLimitProofs TesseroidLimitProps TesseroidVariableLimitProps SphereIntProofs ShellSpec.
Local Open Scope string_scope. Local Open Scope list_scope. Local Open Scope R_scope.

(** ** Smooth functions on the sphere *)
Ltac rr := match goal with |- ?a = ?b => change (@eq R a b) end.
Lemma bounded_on f : (forall u, -1 <= u <= 1 -> continuity_pt f u) -> exists M, 0 <= M /\ forall u, -1 <= u <= 1 -> Rabs (f u) <= M.
Proof.
  intros H. destruct (continuity_ab_maj (fun u => Rabs (f u)) (-1) 1) as (m & Hm & _); [lra| |exists (Rabs (f m)); split; [apply Rabs_pos|exact Hm]].
  intros u Hu. apply (continuity_pt_comp f Rabs); [now apply H|apply Rcontinuity_abs].
Qed.
Section Smooth.
Variables (h dh ddh H : R -> R).
Hypothesis D0 : forall u, -1 <= u <= 1 -> is_derive H u (h u).
Hypothesis D1 : forall u, -1 <= u <= 1 -> is_derive h u (dh u).
Hypothesis D2 : forall u, -1 <= u <= 1 -> is_derive dh u (ddh u).
Hypothesis D3 : forall u, -1 <= u <= 1 -> ex_derive ddh u.
Lemma smooth_bounds : exists M, 0 <= M /\ (forall u, -1 <= u <= 1 -> Rabs (h u) <= M) /\ (forall u, -1 <= u <= 1 -> Rabs (dh u) <= M) /\ (forall u v, -1 <= u <= 1 -> -1 <= v <= 1 -> Rabs (dh u - dh v) <= M * Rabs (u - v)).
Proof.
  assert (C : forall f df u, is_derive f u df -> continuity_pt f u) by (intros f df u D; apply derivable_continuous_pt; exists df; now apply is_derive_Reals).
  destruct (bounded_on h) as (M1 & P1 & B1); [intros u Hu; exact (C _ _ _ (D1 u Hu))|]. destruct (bounded_on dh) as (M2 & P2 & B2); [intros u Hu; exact (C _ _ _ (D2 u Hu))|].
  destruct (bounded_on ddh) as (M3 & P3 & B3). { intros u Hu. destruct (D3 u Hu) as [l Hl]. exact (C _ _ _ Hl). }
  exists (M1 + M2 + M3). split; [lra|]. split; [intros u Hu; specialize (B1 u Hu); lra|]. split; [intros u Hu; specialize (B2 u Hu); lra|].
  intros u v Hu Hv. destruct (MVT_gen dh v u ddh) as (c & Hc & E).
  - intros t Ht. apply D2. unfold Rmin, Rmax in Ht. destruct (Rle_dec v u); lra.
  - intros t Ht. eapply C. apply D2. unfold Rmin, Rmax in Ht. destruct (Rle_dec v u); lra.
  - rewrite E, Rabs_mult. apply Rmult_le_compat_r; [apply Rabs_pos|]. assert (Rabs (ddh c) <= M3) by (apply B3; unfold Rmin, Rmax in Hc; destruct (Rle_dec v u); lra). lra.
Qed.
Lemma smooth_sphere lp x c : RInt (fun y => RInt (fun z => c * (h (cosine lp x y z) * cos (radians y))) 0 360) (-90) 90 = c * (360 * (180 / PI) * (H 1 - H (-1))).
Proof.
  destruct smooth_bounds as (M & M0 & B1 & B2 & B3). rewrite <- (sphere_integral lp h dh H M M0 B1 B2 B3 D1 D0 x).
  pose proof (nice_I lp h dh M M0 B1 B2 D1 x) as N.
  rewrite (RInt_ext _ (fun y => scal c (RInt (fun z => h (cosine lp x y z) * cos (radians y)) 0 360))).
  - rewrite (RInt_scal (V := R_CompleteNormedModule)); [reflexivity|]. apply mild_ex. exact (nice_int _ 0 360 ltac:(lra) N).
  - intros y _. rewrite <- (RInt_scal (V := R_CompleteNormedModule)); [reflexivity|]. exact (nice_ex _ y 0 360 N).
Qed.
End Smooth.

(** ** The two kernels as functions of the cosine *)
Section Kernels.
Variables (R0 r : R).
Hypotheses (HR : 0 < R0) (Hr : 0 < r) (Hn : R0 <> r).
Definition D (u : R) : R := R0 ^ 2 + r ^ 2 - 2 * R0 * r * u.
Lemma D_pos u : -1 <= u <= 1 -> 0 < D u.
Proof. intros H. unfold D. assert (0 < (R0 - r) ^ 2) by (apply pow2_gt_0; lra). assert (0 <= R0 * r) by nra. nra. Qed.
Let s (u : R) := sqrt (D u).
Lemma s_pos u : -1 <= u <= 1 -> 0 < s u.
Proof. intros H. apply sqrt_lt_R0, D_pos, H. Qed.
Lemma s_sq u : -1 <= u <= 1 -> s u * s u = D u.
Proof. intros H. apply sqrt_sqrt. left. now apply D_pos. Qed.
Lemma s_derive u : -1 <= u <= 1 -> is_derive s u (- (R0 * r) / s u).
Proof.
  intros H. pose proof (D_pos u H) as P. pose proof (s_pos u H) as Q. assert (E : is_derive D u (- (2 * R0 * r))) by (unfold D; auto_derive; auto; ring).
  pose proof (is_derive_sqrt D u _ E P) as F. replace (- (R0 * r) / s u) with (- (2 * R0 * r) / (2 * sqrt (D u))); [exact F|]. unfold s in *. field. lra.
Qed.
Lemma s_ends : s 1 = Rabs (R0 - r) /\ s (-1) = R0 + r.
Proof.
  split; unfold s, D.
  - replace (R0 ^ 2 + r ^ 2 - 2 * R0 * r * 1) with (Rsqr (R0 - r)) by (unfold Rsqr; ring). apply sqrt_Rsqr_abs.
  - replace (R0 ^ 2 + r ^ 2 - 2 * R0 * r * -1) with (Rsqr (R0 + r)) by (unfold Rsqr; ring). apply sqrt_Rsqr. lra.
Qed.
Ltac der u H := pose proof (s_derive u H) as E; pose proof (s_pos u H) as P; pose proof (s_sq u H) as Q; clearbody s; auto_derive;
  [pose proof (pow_lt _ 3 P); pose proof (pow_lt _ 5 P); assert (0 < R0 * (R0 * 1) * s u) by (repeat apply Rmult_lt_0_compat; lra); cbn [pow] in *; repeat split; try (eexists; exact E); try lra; try nra | replace (Derive (fun x : R => s x) u) with (- (R0 * r) / s u) by (symmetry; exact (is_derive_unique _ u _ E))].
(** Potential: h = 1 / s. *)
Lemma pot_D0 u : -1 <= u <= 1 -> is_derive (fun v => - s v / (R0 * r)) u (/ s u).
Proof. intros H. der u H. field. lra. Qed.
Lemma pot_D1 u : -1 <= u <= 1 -> is_derive (fun v => / s v) u (R0 * r / s u ^ 3).
Proof. intros H. der u H. field. lra. Qed.
Lemma pot_D2 u : -1 <= u <= 1 -> is_derive (fun v => R0 * r / s v ^ 3) u (3 * R0 ^ 2 * r ^ 2 / s u ^ 5).
Proof. intros H. der u H. field. lra. Qed.
Lemma pot_D3 u : -1 <= u <= 1 -> ex_derive (fun v => 3 * R0 ^ 2 * r ^ 2 / s v ^ 5) u.
Proof. intros H. pose proof (s_derive u H) as E; pose proof (s_pos u H) as P; clearbody s; auto_derive. split; [eexists; exact E|]. split; [|exact I]. assert (0 < s u ^ 5) by (apply pow_lt; lra). simpl in *. lra. Qed.
(** Acceleration: h = (R0 - r u) / s ^ 3. *)
Lemma acc_D0 u : -1 <= u <= 1 -> is_derive (fun v => (R0 * v - r) / (R0 ^ 2 * s v)) u ((R0 - r * u) / s u ^ 3).
Proof.
  intros H. der u H. transitivity ((s u * s u + (R0 * u - r) * r) / (R0 * s u ^ 3)); [field; lra|]. rewrite Q. unfold D. field. lra.
Qed.
Lemma acc_D1 u : -1 <= u <= 1 -> is_derive (fun v => (R0 - r * v) / s v ^ 3) u (- r / s u ^ 3 + 3 * R0 * r * (R0 - r * u) / s u ^ 5).
Proof. intros H. der u H. field. lra. Qed.
Lemma acc_D2 u : -1 <= u <= 1 -> is_derive (fun v => - r / s v ^ 3 + 3 * R0 * r * (R0 - r * v) / s v ^ 5) u (- 6 * R0 * r ^ 2 / s u ^ 5 + 15 * R0 ^ 2 * r ^ 2 * (R0 - r * u) / s u ^ 7).
Proof. intros H. der u H. field. lra. Qed.
Lemma acc_D3 u : -1 <= u <= 1 -> ex_derive (fun v => - 6 * R0 * r ^ 2 / s v ^ 5 + 15 * R0 ^ 2 * r ^ 2 * (R0 - r * v) / s v ^ 7) u.
Proof.
  intros H. pose proof (s_derive u H) as E; pose proof (s_pos u H) as P; clearbody s; auto_derive. assert (0 < s u ^ 5) by (apply pow_lt; lra). assert (0 < s u ^ 7) by (apply pow_lt; lra). simpl in *.
  repeat split; try (eexists; exact E); lra.
Qed.

(** ** Integrals over the sphere of radius r *)
Lemma pot_sphere lp x c : RInt (fun y => RInt (fun z => c * (/ sqrt (D (cosine lp x y z)) * cos (radians y))) 0 360) (-90) 90 = c * (360 * (180 / PI) * (2 / Rmax R0 r)).
Proof.
  etransitivity; [exact (smooth_sphere (fun u => / s u) (fun v => R0 * r / s v ^ 3) (fun u => 3 * R0 ^ 2 * r ^ 2 / s u ^ 5) (fun v => - s v / (R0 * r)) pot_D0 pot_D1 pot_D2 pot_D3 lp x c)|].
  cbv beta. f_equal. f_equal. destruct s_ends as [-> ->]. unfold Rmax. destruct (Rle_dec R0 r); [rewrite Rabs_left by lra|rewrite Rabs_right by lra]; field; lra.
Qed.
Lemma acc_sphere lp x c : RInt (fun y => RInt (fun z => c * ((R0 - r * cosine lp x y z) / sqrt (D (cosine lp x y z)) ^ 3 * cos (radians y))) 0 360) (-90) 90
  = c * (360 * (180 / PI) * (if Rlt_dec R0 r then 0 else 2 / R0 ^ 2)).
Proof.
  etransitivity; [exact (smooth_sphere (fun u => (R0 - r * u) / s u ^ 3) (fun u => - r / s u ^ 3 + 3 * R0 * r * (R0 - r * u) / s u ^ 5) (fun u => - 6 * R0 * r ^ 2 / s u ^ 5 + 15 * R0 ^ 2 * r ^ 2 * (R0 - r * u) / s u ^ 7)
    (fun v => (R0 * v - r) / (R0 ^ 2 * s v)) acc_D0 acc_D1 acc_D2 acc_D3 lp x c)|].
  cbv beta. f_equal. f_equal. destruct s_ends as [-> ->]. destruct (Rlt_dec R0 r); [rewrite Rabs_left by lra|rewrite Rabs_right by lra]; field; lra.
Qed.
End Kernels.

(** ** Newton's kernels in terms of the cosine *)
Lemma unit_dot lp x z y : dot (sph_position (lp, x, 1)) (sph_position (z, y, 1)) = cosine lp x y z.
Proof.
  unfold dot, sph_position, cosine. cbn -[cos sin radians]. replace (radians (z - lp)) with (radians z - radians lp) by (unfold radians; field). rewrite cos_minus. ring.
Qed.
Lemma dist_cosine lp x R0 z y r : eucl (sph_position (lp, x, R0)) (sph_position (z, y, r)) = sqrt (D R0 r (cosine lp x y z)).
Proof.
  unfold eucl, norm. f_equal. rewrite <- unit_dot. unfold D.
  pose proof (sin2_cos2 (radians x)) as A. pose proof (sin2_cos2 (radians lp)) as B. pose proof (sin2_cos2 (radians y)) as C. pose proof (sin2_cos2 (radians z)) as E. unfold Rsqr in *.
  unfold dot, sph_position, vsub. cbn -[cos sin radians].
  set (a := cos (radians x)) in *. set (b := sin (radians x)) in *. set (c := cos (radians lp)) in *. set (d := sin (radians lp)) in *.
  set (a' := cos (radians y)) in *. set (b' := sin (radians y)) in *. set (c' := cos (radians z)) in *. set (d' := sin (radians z)) in *.
  transitivity (R0 ^ 2 * (a * a * (d * d + c * c) + b * b) + r ^ 2 * (a' * a' * (d' * d' + c' * c') + b' * b') - 2 * R0 * r * (a * a' * (c * c' + d * d') + b * b')); [ring|].
  rewrite B, E. replace (a * a * 1 + b * b) with 1 by lra. replace (a' * a' * 1 + b' * b') with 1 by lra. ring.
Qed.
Lemma pot_kernel lp x R0 z y r m : newton_field "spherical" "potential" (lp, x, R0) ((z, y, r), m) = m * (newton_G * / sqrt (D R0 r (cosine lp x y z))).
Proof. unfold newton_field, newton_field_spherical. cbn [String.eqb Ascii.eqb Bool.eqb fst snd]. unfold newton_potential. rewrite dist_cosine. unfold Rdiv. ring. Qed.
Lemma unit_unit lp x : dot (sph_position (lp, x, 1)) (sph_position (lp, x, 1)) = 1.
Proof.
  rewrite unit_dot. unfold cosine. replace (lp - lp) with 0 by ring. replace (radians 0) with 0 by (unfold radians; field). rewrite cos_0. pose proof (sin2_cos2 (radians x)) as A. unfold Rsqr in A. lra.
Qed.
Lemma down_dot lp x R0 z y r : dot (vsub (sph_position (z, y, r)) (sph_position (lp, x, R0))) (sph_down (lp, x, R0)) = R0 - r * cosine lp x y z.
Proof.
  transitivity (R0 * dot (sph_position (lp, x, 1)) (sph_position (lp, x, 1)) - r * dot (sph_position (lp, x, 1)) (sph_position (z, y, 1))); [|rewrite unit_unit, unit_dot; ring].
  unfold dot, vsub, sph_down, vscale, sph_position. cbn -[cos sin radians]. ring.
Qed.
Lemma acc_kernel lp x R0 z y r m : newton_field "spherical" "g_z" (lp, x, R0) ((z, y, r), m) = m * (mGal * newton_G * ((R0 - r * cosine lp x y z) / sqrt (D R0 r (cosine lp x y z)) ^ 3)).
Proof.
  unfold newton_field, newton_field_spherical. cbn [String.eqb Ascii.eqb Bool.eqb fst snd]. unfold newton_accel. rewrite dist_cosine.
  transitivity (mGal * (newton_G * m / sqrt (D R0 r (cosine lp x y z)) ^ 3 * dot (vsub (sph_position (z, y, r)) (sph_position (lp, x, R0))) (sph_down (lp, x, R0)))).
  - f_equal. unfold dot, vscale. cbn -[sqrt D sph_position eucl cosine newton_G sph_down]. ring.
  - rewrite down_dot. unfold Rdiv. ring.
Qed.
(** At the centre. *)
Lemma D_zero R0 u : 0 < R0 -> sqrt (D R0 0 u) = R0.
Proof. intros H. unfold D. replace (R0 ^ 2 + 0 ^ 2 - 2 * R0 * 0 * u) with (Rsqr R0) by (unfold Rsqr; ring). apply sqrt_Rsqr. lra. Qed.
Lemma pot_centre lp x R0 m : 0 < R0 -> newton_field "spherical" "potential" (lp, x, R0) ((0, 0, 0), m) = newton_G * m / R0.
Proof. intros H. rewrite pot_kernel, D_zero by assumption. unfold Rdiv. ring. Qed.
Lemma acc_centre lp x R0 m : 0 < R0 -> newton_field "spherical" "g_z" (lp, x, R0) ((0, 0, 0), m) = mGal * (newton_G * m / R0 ^ 2).
Proof. intros H. rewrite acc_kernel, D_zero by assumption. field. lra. Qed.

(** ** The whole shell *)
Definition around (r1 r2 : R) : tess := Tess 0 360 (-90) 90 r1 r2.
Lemma halves r1 r2 : split_lon 2 (around r1 r2) = shell r1 r2.
Proof. unfold split_lon, around, shell. cbn. repeat f_equal; field. Qed.
Section Shell.
Variables (lp x R0 r1 r2 : R) (rho : R -> R) (delta m s : R).
Hypotheses (HR : 0 < R0) (H1 : 0 <= r1) (H12 : r1 <= r2) (Hd : 0 < delta) (Hc : R0 + delta <= r1 \/ r2 + delta <= R0) (T : tame rho (around r1 r2) m s).
Let p : point := (lp, x, R0).
Lemma around_clear : clear_of delta (around r1 r2) p.
Proof.
  intros [[a b] c] H. unfold p. cbn in H. eapply Rle_trans; [|apply eucl_radius; lra].
  destruct Hc; [rewrite Rabs_left by lra|rewrite Rabs_right by lra]; lra.
Qed.
Lemma around_box : box (around r1 r2).
Proof. unfold box, around. cbn. lra. Qed.
Lemma around_lat : latitudes (around r1 r2).
Proof. unfold latitudes, around. cbn. lra. Qed.
Let f (field : string) := fun q => rho (thd3 q) * newton_field "spherical" field p (q, 1).
Lemma around_lip field : field = "potential" \/ field = "g_z" -> exists L, 0 <= L /\ lip3 (integrand (f field)) (around r1 r2) L.
Proof.
  intros Hf. exact (integrand_lip (f field) (around r1 r2) _ _ around_box around_lat (dens_K0 field rho _ delta m s Hd T) (dens_S0 field rho _ delta m s Hd T) (dens_bound field p rho _ delta m s Hf Hd around_clear T) (dens_lip field p rho _ delta m s Hf around_lat Hd around_clear T)).
Qed.
Lemma shell_around field : field = "potential" \/ field = "g_z" -> sum_over (shell r1 r2) (newton_solid_of field p rho) = RInt (middle (integrand (f field)) (around r1 r2)) r1 r2 /\ ex_RInt (middle (integrand (f field)) (around r1 r2)) r1 r2.
Proof.
  intros Hf. destruct (around_lip field Hf) as (L & L0 & HL). split; [|exact (outer_ex _ _ L around_box L0 HL)].
  rewrite <- halves. exact (box_split_lon _ _ L 2 around_box L0 HL ltac:(lia)).
Qed.
Lemma pot_layer r : 0 < r -> r <> R0 -> middle (integrand (f "potential")) (around r1 r2) r = newton_G * (4 * PI * r ^ 2 * rho r) / Rmax R0 r.
Proof.
  intros Hr Hn. unfold middle, inner, around. cbn [west east south north].
  rewrite (RInt_ext _ (fun y => RInt (fun z => rho r * newton_G * r ^ 2 * (PI / 180) ^ 2 * (/ sqrt (D R0 r (cosine lp x y z)) * cos (radians y))) 0 360)).
  - rewrite pot_sphere by auto. assert (0 < Rmax R0 r) by (eapply Rlt_le_trans; [exact HR|apply Rmax_l]). pose proof PI_RGT_0. field. lra.
  - intros y _. apply RInt_ext. intros z _. unfold integrand, f, p. rewrite pot_kernel. unfold thd3. cbn [fst snd]. rr. ring.
Qed.
Lemma acc_layer r : 0 < r -> r <> R0 -> middle (integrand (f "g_z")) (around r1 r2) r = if Rlt_dec R0 r then 0 else mGal * newton_G * (4 * PI * r ^ 2 * rho r) / R0 ^ 2.
Proof.
  intros Hr Hn. unfold middle, inner, around. cbn [west east south north].
  rewrite (RInt_ext _ (fun y => RInt (fun z => rho r * (mGal * newton_G) * r ^ 2 * (PI / 180) ^ 2 * ((R0 - r * cosine lp x y z) / sqrt (D R0 r (cosine lp x y z)) ^ 3 * cos (radians y))) 0 360)).
  - rewrite acc_sphere by auto. pose proof PI_RGT_0. destruct (Rlt_dec R0 r); [ring|]. field. lra.
  - intros y _. apply RInt_ext. intros z _. unfold integrand, f, p. rewrite acc_kernel. unfold thd3. cbn [fst snd]. rr. ring.
Qed.
Lemma RInt_multiple F g c : ex_RInt F r1 r2 -> c <> 0 -> (forall r, r1 < r < r2 -> F r = c * g r) -> RInt F r1 r2 = c * RInt g r1 r2.
Proof.
  intros E Hc0 H. rewrite (RInt_ext g (fun r => scal (/ c) (F r))).
  - rewrite (RInt_scal (V := R_CompleteNormedModule)) by exact E. change (@eq R (RInt F r1 r2) (c * (/ c * RInt F r1 r2))). set (v := RInt F r1 r2 : R). change (@eq R v (c * (/ c * v))). field. exact Hc0.
  - intros r Hr. rewrite Rmin_left, Rmax_right in Hr by lra. change (@eq R (g r) (/ c * F r)). rewrite H by exact Hr. field. exact Hc0.
Qed.
Lemma G_pos : 0 < newton_G. Proof. unfold newton_G. lra. Qed.
Lemma shell_outside field : field = "potential" \/ field = "g_z" -> r2 < R0 -> sum_over (shell r1 r2) (newton_solid_of field p rho) = newton_field "spherical" field p ((0, 0, 0), shell_mass rho r1 r2).
Proof.
  intros Hf Ho. destruct (shell_around field Hf) as [-> E]. pose proof G_pos as G. unfold shell_mass, p. destruct Hf as [-> | ->].
  - rewrite pot_centre by exact HR. rewrite (RInt_multiple _ (fun r => 4 * PI * r ^ 2 * rho r) (newton_G / R0) E); [unfold Rdiv; rr; ring|apply Rgt_not_eq, Rdiv_lt_0_compat; lra|].
    intros r Hr. rewrite pot_layer by lra. rewrite Rmax_left by lra. unfold Rdiv. rr. ring.
  - rewrite acc_centre by exact HR. assert (0 < R0 ^ 2) by (apply pow_lt; lra). rewrite (RInt_multiple _ (fun r => 4 * PI * r ^ 2 * rho r) (mGal * newton_G / R0 ^ 2) E); [unfold Rdiv; rr; ring|apply Rgt_not_eq, Rdiv_lt_0_compat; [unfold mGal; lra|lra]|].
    intros r Hr. rewrite acc_layer by lra. destruct (Rlt_dec R0 r); [lra|]. unfold Rdiv. rr. ring.
Qed.
Lemma shell_inside_potential : R0 < r1 -> sum_over (shell r1 r2) (newton_solid_of "potential" p rho) = newton_G * RInt (fun r => 4 * PI * r * rho r) r1 r2.
Proof.
  intros Hi. destruct (shell_around "potential" (or_introl eq_refl)) as [-> E]. pose proof G_pos as G. apply (RInt_multiple _ _ _ E); [lra|].
  intros r Hr. rewrite pot_layer by lra. rewrite Rmax_right by lra. rr. field. lra.
Qed.
Lemma shell_inside_acceleration : R0 < r1 -> sum_over (shell r1 r2) (newton_solid_of "g_z" p rho) = 0.
Proof.
  intros Hi. destruct (shell_around "g_z" (or_intror eq_refl)) as [-> E]. transitivity (RInt (fun _ => 0) r1 r2).
  - apply RInt_ext. rewrite Rmin_left, Rmax_right by lra. intros r Hr. rewrite acc_layer by lra. destruct (Rlt_dec R0 r); [reflexivity|lra].
  - rewrite RInt_const. change ((r2 - r1) * 0 = 0). ring.
Qed.
End Shell.
