(** Claims about the geometry of ellipsoids and their elliptical integrals. *)
From Coquelicot Require Import Coquelicot.
From Coq Require Import Psatz Permutation.
From Verif Require Import Base BaseFacts NumPy EllipsoidModel EllipsoidSpec EllipsoidRotProofs EllipsoidLambdaProofs EllipsoidIntProofs EllipsoidShapeProofs.
Local Open Scope R_scope.

(** ** C29: rotations *)
Theorem C29_rotation_is_rigid : forall yaw pitch roll,
  orthogonal (get_rotation_matrix yaw pitch roll) /\ det (get_rotation_matrix yaw pitch roll) = 1.
Proof. apply rotation_orthogonal. Qed.

Theorem C29_positive_pitch_lifts_easting_axis : forall yaw pitch roll, 0 < pitch < 180 ->
  0 < vz (mv (get_rotation_matrix yaw pitch roll) (V3 1 0 0)).
Proof.
  intros yaw pitch roll H. rewrite rotation_axis_x. cbn [vz]. apply sin_gt_0; unfold radians; generalize PI_RGT_0; intros; nra.
Qed.

(** Yaw turns the easting axis towards the northing axis, roll the northing axis upwards. *)
Theorem C29_directions : forall yaw pitch roll,
  mv (get_rotation_matrix yaw pitch roll) (V3 1 0 0) =
    V3 (cos (radians yaw) * cos (radians pitch)) (sin (radians yaw) * cos (radians pitch)) (sin (radians pitch)) /\
  mv (get_rotation_matrix yaw pitch 0) (V3 0 1 0) = V3 (- sin (radians yaw)) (cos (radians yaw)) 0 /\
  mv (get_rotation_matrix 0 0 roll) (V3 0 1 0) = V3 0 (cos (radians roll)) (sin (radians roll)).
Proof. intros. split; [apply rotation_axis_x | split; [apply rotation_no_roll_axis_y | apply rotation_roll]]. Qed.

(** The sorted frame is a rigid rotation of the ellipsoid's own frame that permutes its axes, and a
    point is internal there exactly when it is inside the ellipsoid. *)
Theorem C29_sorted_frame : forall e, exists S a b c,
  get_semiaxes_rotation_matrix e = Ok S /\ sorted_axes e = Ok (a, b, c) /\
  c <= b <= a /\ Permutation [a; b; c] [ell_a e; ell_b e; ell_c e] /\ orthogonal S /\ det S = 1 /\
  (forall p, is_internal (mv (mm (mT S) (mT (rotation_matrix e))) (vsub p (ell_center e))) a b c = true <->
             level (ell_a e) (ell_b e) (ell_c e) (own_coordinates e p) < 1) /\
  (forall p, level a b c (mv (mm (mT S) (mT (rotation_matrix e))) (vsub p (ell_center e))) =
             level (ell_a e) (ell_b e) (ell_c e) (own_coordinates e p)).
Proof.
  intros e. destruct (semiaxes_rotation e) as (S & a & b & c & HS & Ha & H). exists S, a, b, c.
  assert (L : forall p, level a b c (mv (mm (mT S) (mT (rotation_matrix e))) (vsub p (ell_center e))) =
             level (ell_a e) (ell_b e) (ell_c e) (own_coordinates e p)).
  { intros p. rewrite mv_mm. unfold own_coordinates. apply sorted_level, H. }
  destruct H as (Hs & (Ho & Hd) & _ & (s & P & ->)). split; [exact HS|]. split; [exact Ha|]. split; [lra|]. split; [exact P|]. split; [exact Ho|]. split; [exact Hd|].
  split; [|exact L]. intros p. rewrite is_internal_level, L. reflexivity.
Qed.

Example C29_case : exists S, get_semiaxes_rotation_matrix (Ell 1 3 2 20 30 40 (V3 0 0 0) None None None) = Ok S /\
  sorted_axes (Ell 1 3 2 20 30 40 (V3 0 0 0) None None None) = Ok (3, 2, 1).
Proof.
  destruct (semiaxes_rotation (Ell 1 3 2 20 30 40 (V3 0 0 0) None None None)) as (S & a & b & c & HS & Ha & H). exists S. split; [exact HS|].
  unfold sorted_axes, sorted_reverse. cbn [fold_right insert_desc ell_a ell_b ell_c].
  rewrite (proj2 (Rleb_true 2 3)) by lra. cbn [insert_desc]. destruct (Rleb_spec 3 1); [lra|]. cbn [insert_desc]. destruct (Rleb_spec 2 1); [lra|]. reflexivity.
Qed.

(** ** C30: the confocal coordinate *)
Theorem C30_lambda_is_confocal : forall a b c, 0 < c -> c <= b -> b <= a -> exists f, calculate_lambda a b c = Ok f /\
  forall p, 1 <= level a b c p ->
    0 <= f p /\ confocal a b c (f p) p /\ (forall l, 0 <= l -> confocal a b c l p -> l = f p) /\ (f p = 0 <-> level a b c p = 1).
Proof.
  intros a b c Hc Hb Ha. destruct (calculate_lambda_ok a b c) as (f & E & F); [split; [|split]; assumption|]. exists f. split; [exact E|].
  intros p Hp. destruct (F p Hp) as [F1 F2]. split; [exact F1|]. split; [exact F2|].
  assert (U : forall l, 0 <= l -> confocal a b c l p -> l = f p) by (intros l L1 L2; apply (is_lambda_unique a b c p); try lra; split; assumption).
  split; [exact U|]. rewrite level_confocal0. split; intros H; [rewrite <- H; exact F2 | symmetry; apply U; [lra | exact H]].
Qed.

Theorem C30_unsorted_rejected : forall a b c, ~ (c <= b <= a) -> calculate_lambda a b c = Raise ValueError.
Proof. intros a b c H. unfold calculate_lambda. rewrite check_not_sorted by tauto. reflexivity. Qed.

Example C30_case : exists f, calculate_lambda 3 2 1 = Ok f /\ f (V3 0 0 2) = 3.
Proof.
  destruct (C30_lambda_is_confocal 3 2 1) as (f & E & F); try lra. exists f. split; [exact E|].
  destruct (F (V3 0 0 2)) as (_ & _ & U & _); [unfold level; cbn [vx vy vz]; lra|]. symmetry. apply U; [lra|]. unfold confocal; cbn [vx vy vz]. field.
Qed.

(** ** C31: the elliptical integrals *)
Theorem C31_integrals : forall a b c, well_shaped a b c -> ~ (a = b /\ b = c) ->
  exists f, get_elliptical_integrals a b c = Ok f /\
    forall l, 0 <= l -> exists A B C, f l = (A, B, C) /\ improper a b c a l A /\ improper a b c b l B /\ improper a b c c l C.
Proof.
  intros a b c W N. destruct (well_shaped_effective a b c W) as [Eff Sph]. destruct W as [S _].
  destruct (effective_integrals a b c S) as (f & A & B & C & a' & b' & c' & F & E & Eff2 & S2 & PA & PB & PC); [intros X; apply N, Sph, X|].
  rewrite Eff in Eff2. injection Eff2 as <- <- <-. exists f. split; [exact F|]. intros l Hl. exists (A l), (B l), (C l). split; [apply E|].
  destruct S as (Hc & Hb & Ha). split; [|split]; apply primitive_improper; try assumption; lra.
Qed.

(** The derivative function returns the derivatives of the integrals that [get_elliptical_integrals] returns. *)
Theorem C31_derivatives : forall a b c, well_shaped a b c -> ~ (a = b /\ b = c) ->
  exists f d, get_elliptical_integrals a b c = Ok f /\ get_derivatives_of_elliptical_integrals a b c = Ok d /\
    forall l, 0 <= l ->
      is_derive (fun u => fst (fst (f u))) l (fst (fst (d l))) /\ is_derive (fun u => snd (fst (f u))) l (snd (fst (d l))) /\
      is_derive (fun u => snd (f u)) l (snd (d l)).
Proof.
  intros a b c W N. destruct (well_shaped_effective a b c W) as [Eff Sph]. destruct W as [S _].
  destruct (effective_integrals a b c S) as (f & A & B & C & a' & b' & c' & F & E & Eff2 & S2 & PA & PB & PC); [intros X; apply N, Sph, X|].
  rewrite Eff in Eff2. injection Eff2 as <- <- <-. destruct (derivatives_ok a b c S) as (d & D & Hd).
  exists f, d. split; [exact F|]. split; [exact D|]. intros l Hl. rewrite Hd by exact Hl. cbn [fst snd].
  split; [apply (is_derive_ext A); [intros; now rewrite E | apply PA, Hl]|].
  split; [apply (is_derive_ext B); [intros; now rewrite E | apply PB, Hl] | apply (is_derive_ext C); [intros; now rewrite E | apply PC, Hl]].
Qed.

(** Semi-axes closer than the tolerance are treated as equal: the integrals are those of an ellipsoid whose
    semi-axes differ from the given ones by at most 1e-5 of them (missing: those of the ellipsoid itself). *)
Theorem C31_nearly_equal_axes_partial : forall a b c, 0 < c -> c <= b -> b <= a -> is_almost_a_sphere a b c = Ok false ->
  exists f a' b' c', get_elliptical_integrals a b c = Ok f /\
    0 < c' /\ c' <= b' /\ b' <= a' /\ Rabs (a' - a) <= / 10 ^ 5 * a /\ b' = b /\ Rabs (c' - c) <= / 10 ^ 5 * b /\
    forall l, 0 <= l -> exists A B C, f l = (A, B, C) /\ improper a' b' c' a' l A /\ improper a' b' c' b' l B /\ improper a' b' c' c' l C.
Proof.
  intros a b c Hc Hb Ha HS. assert (S : sorted_axes_prop a b c) by (repeat split; assumption). rewrite sphere_shape in HS by exact S.
  destruct (effective_integrals a b c S) as (f & A & B & C & a' & b' & c' & F & E & Eff & S2 & PA & PB & PC); [intros X; rewrite X in HS; discriminate|].
  exists f, a', b', c'. split; [exact F|]. destruct (effective_close a b c a' b' c' S Eff) as (K1 & K2 & K3). destruct S2 as (Hc' & Hb' & Ha').
  split; [exact Hc'|]. split; [exact Hb'|]. split; [exact Ha'|]. split; [exact K1|]. split; [exact K2|]. split; [exact K3|].
  intros l Hl. exists (A l), (B l), (C l). split; [apply E|]. split; [|split]; apply primitive_improper; try assumption; lra.
Qed.

(** ... and they do differ from the integrals of the ellipsoid itself. *)
Theorem C31_nearly_equal_axes_refuted : exists a b c f A B C, 0 < c /\ c < b /\ b < a /\
  get_elliptical_integrals a b c = Ok f /\ f 0 = (A, B, C) /\ ~ (improper a b c b 0 B /\ improper a b c c 0 C).
Proof.
  set (d := / 10 ^ 6). assert (Hd : 0 < d < / 10 ^ 5) by (unfold d; split; [apply Rinv_0_lt_compat, pow_lt; lra | apply Rinv_lt_contravar; lra]).
  assert (Hd2 : / 10 ^ 5 < 1) by (assert (Q := Rinv_lt_contravar 1 (10 ^ 5) ltac:(lra) ltac:(lra)); rewrite Rinv_1 in Q; exact Q).
  assert (S : sorted_axes_prop 2 1 (1 - d)) by (unfold sorted_axes_prop; lra).
  assert (C1 : close 2 1 = false). { destruct (close 2 1) eqn:X; [|reflexivity]. apply close_iff in X; lra. }
  assert (C2 : close 1 (1 - d) = true) by (apply close_iff; lra).
  assert (Sh : shape_of 2 1 (1 - d) = Prolate) by (unfold shape_of; rewrite C1, C2; reflexivity).
  destruct (effective_integrals 2 1 (1 - d) S) as (f & A & B & C & a' & b' & c' & F & E & Eff & S2 & PA & PB & PC); [rewrite Sh; discriminate|].
  unfold effective in Eff. rewrite Sh in Eff. injection Eff as <- <- <-.
  assert (EBC : B 0 = C 0).
  { apply (improper_unique 2 1 1 1 0); apply primitive_improper; try lra; assumption. }
  exists 2, 1, (1 - d), f, (A 0), (B 0), (C 0). split; [lra|]. split; [lra|]. split; [lra|]. split; [exact F|]. split; [apply E|].
  intros [I1 I2]. destruct (primitives_exist 2 1 (1 - d) S) as (A2 & B2 & C2' & QA & QB & QC).
  assert (K := primitive_lt 2 1 (1 - d) 1 (1 - d) B2 C2' ltac:(lra) ltac:(lra) ltac:(lra) ltac:(lra) ltac:(lra) QB QC 0 (Rle_refl 0)).
  assert (E1 : B 0 = B2 0) by (apply (improper_unique 2 1 (1 - d) 1 0); [exact I1 | apply primitive_improper; try lra; assumption]).
  assert (E2 : C 0 = C2' 0) by (apply (improper_unique 2 1 (1 - d) (1 - d) 0); [exact I2 | apply primitive_improper; try lra; assumption]).
  lra.
Qed.

Theorem C31_sphere_rejected : forall a b c, is_almost_a_sphere a b c = Ok true -> get_elliptical_integrals a b c = Raise ValueError.
Proof.
  intros a b c H. unfold get_elliptical_integrals. rewrite H. unfold is_almost_a_sphere in H.
  destruct (check_semiaxes_sorted a b c) as [|x] eqn:X; [reflexivity | discriminate H].
Qed.

Lemma well_shaped_321 : well_shaped 3 2 1.
Proof.
  assert (T : / 10 ^ 5 < / 10) by (apply Rinv_lt_contravar; lra). unfold well_shaped, sorted_axes_prop, distinct_enough. repeat split; try lra; right; lra.
Qed.

Example C31_case : exists f, get_elliptical_integrals 3 2 1 = Ok f.
Proof. destruct (C31_integrals 3 2 1) as (f & F & _); [apply well_shaped_321 | lra | now exists f]. Qed.

(** ** C33: internal demagnetisation factors *)
Theorem C33_internal_factors : forall a b c, 0 < c -> c <= b -> b <= a -> exists nx ny nz,
  get_demagnetization_tensor_internal a b c = Ok (diag nx ny nz) /\ 0 < nx /\ 0 < ny /\ 0 < nz /\ nx + ny + nz = 1.
Proof. intros a b c Hc Hb Ha. apply internal_ok. repeat split; assumption. Qed.

Theorem C33_internal_factors_are_integrals : forall a b c, well_shaped a b c -> exists A B C,
  get_demagnetization_tensor_internal a b c = Ok (diag (a * b * c / 2 * A) (a * b * c / 2 * B) (a * b * c / 2 * C)) /\
  improper a b c a 0 A /\ improper a b c b 0 B /\ improper a b c c 0 C.
Proof.
  intros a b c W. destruct (well_shaped_effective a b c W) as [Eff Sph]. destruct W as [S _]. assert (S' := S). destruct S as (Hc & Hb & Ha).
  assert (D : shape_of a b c = Sphere \/ shape_of a b c <> Sphere) by (destruct (shape_of a b c); (left; reflexivity) || (right; discriminate)).
  destruct D as [E|N].
  - destruct (Sph E) as [-> ->]. set (g := fun l => 1 / 3 * (2 / root3 c c c l)). assert (P := sphere_primitive c Hc). fold g in P.
    exists (g 0), (g 0), (g 0). split.
    + unfold get_demagnetization_tensor_internal. rewrite check_sorted, sphere_shape, E by exact S'. cbn [bind].
      assert (K : c * c * c / 2 * g 0 = 1 / 3 * 1) by (unfold g; rewrite root3_0 by exact Hc; field; lra). rewrite K. reflexivity.
    + assert (I : improper c c c c 0 (g 0)) by (apply primitive_improper; try lra; exact P). auto.
  - destruct (internal_factors a b c S' N) as (f & A & B & C & a' & b' & c' & F & F0 & Eff2 & I).
    destruct (effective_integrals a b c S' N) as (f2 & A' & B' & C' & a2 & b2 & c2 & F2 & E2 & Eff3 & S2 & PA & PB & PC).
    rewrite F in F2. injection F2 as <-. rewrite Eff in Eff2, Eff3. injection Eff2 as <- <- <-. injection Eff3 as <- <- <-. rewrite E2 in F0. injection F0 as <- <- <-.
    exists (A' 0), (B' 0), (C' 0). split; [exact I|]. split; [|split]; apply primitive_improper; try assumption; lra.
Qed.

Example C33_internal_case : exists nx ny nz, get_demagnetization_tensor_internal 3 2 1 = Ok (diag nx ny nz) /\ nx + ny + nz = 1.
Proof. destruct (C33_internal_factors 3 2 1) as (x & y & z & E & _ & _ & _ & H); try lra. now exists x, y, z. Qed.

Print Assumptions C29_rotation_is_rigid.
Print Assumptions C29_positive_pitch_lifts_easting_axis.
Print Assumptions C29_directions.
Print Assumptions C29_sorted_frame.
Print Assumptions C30_lambda_is_confocal.
Print Assumptions C30_unsorted_rejected.
Print Assumptions C31_integrals.
Print Assumptions C31_derivatives.
Print Assumptions C31_nearly_equal_axes_partial.
Print Assumptions C31_nearly_equal_axes_refuted.
Print Assumptions C31_sphere_rejected.
Print Assumptions C33_internal_factors.
Print Assumptions C33_internal_factors_are_integrals.
