(** C90: the fields of ellipsoids depend on the solids only and move with them. *)
From Coq Require Import Psatz Classical_Prop.
From Verif Require Import Base BaseFacts NumPy NumPyFacts PointGravityModel EllipsoidModel EllipsoidSpec EllipsoidRotProofs EllipsoidTopProofs EllipsoidMagProofs EllipsoidMoveProofs.
Local Open Scope R_scope.

Lemma carried_l (Q : ellipsoid -> ellipsoid -> Prop) l l' : Forall2 Q l l' -> (forall e e', Q e e' -> positive_axes e) -> Forall positive_axes l.
Proof. intros F H. induction F; constructor; [eapply H; eassumption | assumption]. Qed.
Lemma carried_r (Q : ellipsoid -> ellipsoid -> Prop) l l' : Forall2 Q l l' -> (forall e e', Q e e' -> positive_axes e') -> Forall positive_axes l'.
Proof. intros F H. induction F; constructor; [eapply H; eassumption | assumption]. Qed.

(** When a motion carries every body of a list onto the corresponding body of another list, of the same
    density, it carries the gravity field of the first onto the gravity field of the second. *)
Theorem C90_gravity_moves_with_the_bodies A t x x' : orthogonal A ->
  Forall2 (fun e e' => carries A t e e' /\ ell_density e' = ell_density e) (as_list x) (as_list x') ->
  exists g g' n,
    (forall sh ps, prod_shape sh = length ps -> ellipsoid_gravity (coordinates_of sh ps) x = Ok (gravity_arrays sh g ps, n)) /\
    (forall sh ps, prod_shape sh = length ps -> ellipsoid_gravity (coordinates_of sh ps) x' = Ok (gravity_arrays sh g' ps, n)) /\
    forall p, g' (motion A t p) = mv A (g p).
Proof.
  intros OA F. set (l := as_list x) in *. set (l' := as_list x') in *.
  assert (P : Forall positive_axes l) by (apply (carried_l _ _ _ F); intros e e' [H _]; apply H).
  assert (P' : Forall positive_axes l') by (apply (carried_r _ _ _ F); intros e e' [H _]; apply H).
  exists (fun p => vsum l (fun e => body_g e p)), (fun p => vsum l' (fun e => body_g e p)), (length (filter no_density l)).
  split; [intros sh ps Hs; rewrite several_gravity; apply gravity_several; assumption|]. split.
  - intros sh ps Hs. rewrite several_gravity. fold l'. rewrite (gravity_several l' sh ps P' Hs).
    rewrite (filter_forall2 _ no_density l l' F); [reflexivity|]. intros e e' [_ D]. unfold no_density. rewrite D. reflexivity.
  - intros p. rewrite mv_vsum. apply (vsum_forall2 _ _ _ _ _ F). intros e e' [H D]. apply (body_g_moves A t e e' OA H D).
Qed.
Print Assumptions C90_gravity_moves_with_the_bodies.

(** The same for the magnetic field, when the motion also turns the inducing field; either both calls
    give a field or both meet a singular system. *)
Theorem C90_magnetic_moves_with_the_bodies mu_0 A t x x' F : orthogonal A ->
  Forall2 (fun e e' => carries A t e e' /\ magnetised_alike A e e') (as_list x) (as_list x') ->
  (exists B B' n,
    (forall sh ps, prod_shape sh = length ps -> ellipsoid_magnetic mu_0 (coordinates_of sh ps) x F = Ok (magnetic_arrays sh B ps, n)) /\
    (forall sh ps, prod_shape sh = length ps -> ellipsoid_magnetic mu_0 (coordinates_of sh ps) x' (mv A F) = Ok (magnetic_arrays sh B' ps, n)) /\
    forall p, B' (motion A t p) = mv A (B p)) \/
  (forall sh ps, prod_shape sh = length ps ->
    ellipsoid_magnetic mu_0 (coordinates_of sh ps) x F = Raise LinAlgError /\ ellipsoid_magnetic mu_0 (coordinates_of sh ps) x' (mv A F) = Raise LinAlgError).
Proof.
  intros OA H. set (l := as_list x) in *. set (l' := as_list x') in *. set (h := h0_of mu_0 F).
  assert (P : Forall positive_axes l) by (apply (carried_l _ _ _ H); intros e e' [C _]; apply C).
  assert (P' : Forall positive_axes l') by (apply (carried_r _ _ _ H); intros e e' [C _]; apply C).
  assert (D : (Forall (solvable mu_0 h) l /\ Forall (solvable mu_0 (mv A h)) l') \/
              (Exists (fun e => ~ solvable mu_0 h e) l /\ Exists (fun e => ~ solvable mu_0 (mv A h) e) l')).
  { clear P P'. induction H as [|e e' k k' [C M] H IH]; [left; split; constructor|].
    destruct (body_b_moves mu_0 A t e e' h OA C M) as [_ [(S1 & S2 & _) | (S1 & S2)]]; [|right; split; apply Exists_cons_hd; assumption].
    destruct IH as [[I1 I2] | [I1 I2]]; [left; split; constructor; assumption | right; split; apply Exists_cons_tl; assumption]. }
  destruct D as [[D1 D2] | [D1 D2]].
  - left. exists (vsum_b mu_0 h l), (vsum_b mu_0 (mv A h) l'), (length (filter (fun e => negb (has_property e)) l)).
    split; [intros sh ps Hs; rewrite several_magnetic; apply magnetic_several; assumption|]. split.
    + intros sh ps Hs. rewrite several_magnetic. fold l'. assert (E := magnetic_several mu_0 l' sh ps (mv A F) P'). rewrite h0_turn in E. rewrite (E D2 Hs).
      rewrite (filter_forall2 _ (fun e => negb (has_property e)) l l' H); [reflexivity|]. intros e e' [C M].
      destruct (body_b_moves mu_0 A t e e' h OA C M) as [-> _]. reflexivity.
    + intros p. unfold vsum_b. rewrite mv_vsum. clear P P'. revert D1 D2. induction H as [|e e' k k' [C M] H IH]; intros D1 D2; [reflexivity|].
      specialize (IH (Forall_inv_tail D1) (Forall_inv_tail D2)).
      destruct (body_b_moves mu_0 A t e e' h OA C M) as [_ [(S1 & S2 & E) | (S1 & _)]]; [|exfalso; apply S1, (Forall_inv D1)].
      unfold vsum in *. rewrite !sum_over_cons, E.
      apply V3_eq; apply (f_equal (Rplus _)); [exact (f_equal vx IH) | exact (f_equal vy IH) | exact (f_equal vz IH)].
  - right. intros sh ps Hs. rewrite (several_magnetic mu_0 _ x), (several_magnetic mu_0 _ x'). split; apply magnetic_raises; rewrite ?h0_turn; assumption.
Qed.
Print Assumptions C90_magnetic_moves_with_the_bodies.

(** Two descriptions of the same solids give the same results. *)
Theorem C90_only_the_solid_matters mu_0 x x' F sh ps : prod_shape sh = length ps ->
  Forall2 (fun e e' => positive_axes e /\ positive_axes e' /\ (forall p, body_level e' p <= 1 <-> body_level e p <= 1) /\
    ell_density e' = ell_density e /\ magnetised_alike eye e e') (as_list x) (as_list x') ->
  ellipsoid_gravity (coordinates_of sh ps) x' = ellipsoid_gravity (coordinates_of sh ps) x /\
  ellipsoid_magnetic mu_0 (coordinates_of sh ps) x' F = ellipsoid_magnetic mu_0 (coordinates_of sh ps) x F.
Proof.
  intros Hs H. assert (OE : orthogonal eye) by (split; rewrite mm_eye_l || rewrite mm_eye_r; unfold mT, eye, diag; reflexivity).
  assert (Id : forall p, motion eye (V3 0 0 0) p = p) by (intros [a b c]; unfold motion; rewrite mv_eye; unfold vadd; cbn [vx vy vz]; apply V3_eq; ring).
  assert (K : forall e e', positive_axes e /\ positive_axes e' /\ (forall p, body_level e' p <= 1 <-> body_level e p <= 1) /\ ell_density e' = ell_density e /\ magnetised_alike eye e e' ->
     carries eye (V3 0 0 0) e e') by (intros e e' (P & P' & C & _); split; [exact P|]; split; [exact P'|]; intros p; rewrite Id; apply C).
  split.
  - destruct (C90_gravity_moves_with_the_bodies eye (V3 0 0 0) x x' OE) as (g & g' & n & E & E' & M).
    { revert H. generalize (as_list x) (as_list x'). induction 1 as [|e e' k k' C H IH]; constructor; [split; [apply K, C | apply C] | exact IH]. }
    rewrite (E sh ps Hs), (E' sh ps Hs). do 2 f_equal. unfold gravity_arrays.
    assert (X : forall p, g' p = g p) by (intros p; rewrite <- (Id p) at 1; rewrite M, mv_eye; reflexivity).
    f_equal; [f_equal|]; f_equal; apply map_ext; intros p; rewrite X; reflexivity.
  - destruct (C90_magnetic_moves_with_the_bodies mu_0 eye (V3 0 0 0) x x' F OE) as [(g & g' & n & E & E' & M) | E].
    { revert H. generalize (as_list x) (as_list x'). induction 1 as [|e e' k k' C H IH]; constructor; [split; [apply K, C | apply C] | exact IH]. }
    + rewrite mv_eye in E'. rewrite (E sh ps Hs), (E' sh ps Hs). do 2 f_equal. unfold magnetic_arrays.
      assert (X : forall p, g' p = g p) by (intros p; rewrite <- (Id p) at 1; rewrite M, mv_eye; reflexivity).
      f_equal; [f_equal|]; f_equal; apply map_ext; intros p; rewrite X; reflexivity.
    + rewrite mv_eye in E. destruct (E sh ps Hs) as [-> ->]. reflexivity.
Qed.
Print Assumptions C90_only_the_solid_matters.

(** ** Motions that a user can write down *)
Lemma rot_z_orthogonal d : orthogonal (rot_z d).
Proof.
  assert (T := sin2_cos2 (radians d)). unfold Rsqr in T.
  unfold rot_z, orthogonal, eye, diag. rewrite mT_explicit, !mm_explicit. split; apply M3_eq; lra.
Qed.
Lemma rot_z_add d e : mm (rot_z d) (rot_z e) = rot_z (d + e).
Proof.
  unfold rot_z. rewrite mm_explicit. replace (radians (d + e)) with (radians d + radians e) by (unfold radians, Rdiv; ring).
  rewrite cos_plus, sin_plus. apply M3_eq; ring.
Qed.
Lemma rot_x_add d e : mm (rot_x d) (rot_x e) = rot_x (d + e).
Proof.
  unfold rot_x. rewrite mm_explicit. replace (radians (d + e)) with (radians d + radians e) by (unfold radians, Rdiv; ring).
  rewrite cos_plus, sin_plus. apply M3_eq; ring.
Qed.
Lemma rot_x_90 : rot_x 90 = M3 (V3 1 0 0) (V3 0 0 (- 1)) (V3 0 1 0).
Proof.
  unfold rot_x. replace (radians 90) with (PI / 2) by (unfold radians; field). rewrite cos_PI2, sin_PI2. apply M3_eq; ring.
Qed.

(** A body turned about the vertical axis and shifted: [d] is added to the yaw angle. *)
Definition turned (d : R) (t : vec3) (e : ellipsoid) : ellipsoid :=
  Ell (ell_a e) (ell_b e) (ell_c e) (ell_yaw e + d) (ell_pitch e) (ell_roll e) (motion (rot_z d) t (ell_center e)) (ell_density e) (ell_susceptibility e)
    (option_map (mv (rot_z d)) (ell_remanent e)).
Lemma turned_matrix d t e : rotation_matrix (turned d t e) = mm (rot_z d) (rotation_matrix e).
Proof. unfold rotation_matrix, turned, get_rotation_matrix, from_euler_ZYX; cbn [ell_yaw ell_pitch ell_roll]. rewrite Rplus_comm, <- rot_z_add, !mm_assoc. reflexivity. Qed.

(** Turning the bodies, the remanent magnetisation and the inducing field about the vertical and shifting
    everything turns and shifts the field. *)
Theorem C90_turn_about_the_vertical d t e : positive_axes e -> carries (rot_z d) t e (turned d t e) /\ magnetised_alike (rot_z d) e (turned d t e).
Proof.
  intros P. assert (O := rot_z_orthogonal d). assert (RM := turned_matrix d t e). split.
  - split; [exact P|]. split; [exact P|]. intros p. unfold body_level, own_coordinates. rewrite RM. unfold turned at 1 2 3 4; cbn [ell_a ell_b ell_c ell_center].
    replace (vsub (motion (rot_z d) t p) (motion (rot_z d) t (ell_center e))) with (mv (rot_z d) (vsub p (ell_center e)))
      by (rewrite mv_vsub; unfold motion, vadd, vsub; cbn [vx vy vz]; apply V3_eq; ring).
    rewrite mT_mm, mv_mm, orthogonal_forth by exact O. reflexivity.
  - unfold magnetised_alike, world_susceptibility, world_remanent. rewrite RM. unfold turned; cbn [ell_susceptibility ell_remanent]. split; [reflexivity|].
    split; [destruct (ell_remanent e); cbn [option_map]; split; intros; discriminate || reflexivity|]. split.
    + rewrite mT_mm, !mm_assoc. reflexivity.
    + destruct (ell_remanent e); cbn [option_map]; [reflexivity | symmetry; apply mv_zero].
Qed.
Print Assumptions C90_turn_about_the_vertical.

(** The same solid with its second and third semi-axes exchanged: the roll angle grows by 90 degrees. *)
Definition exchanged (e : ellipsoid) : ellipsoid :=
  Ell (ell_a e) (ell_c e) (ell_b e) (ell_yaw e) (ell_pitch e) (ell_roll e + 90) (ell_center e) (ell_density e)
    (match ell_susceptibility e with Some (Tensor m) => Some (Tensor (mm (mm (mT (rot_x 90)) m) (rot_x 90))) | s => s end) (ell_remanent e).
Theorem C90_order_of_the_axes e : positive_axes e ->
  positive_axes (exchanged e) /\ (forall p, body_level (exchanged e) p = body_level e p) /\ magnetised_alike eye e (exchanged e).
Proof.
  intros (Pa & Pb & Pc). assert (RM : rotation_matrix (exchanged e) = mm (rotation_matrix e) (rot_x 90)).
  { unfold rotation_matrix, exchanged, get_rotation_matrix, from_euler_ZYX; cbn [ell_yaw ell_pitch ell_roll]. rewrite <- rot_x_add, !mm_assoc. reflexivity. }
  assert (O : mm (rot_x 90) (mT (rot_x 90)) = eye) by (rewrite rot_x_90, mT_explicit, mm_explicit; unfold eye, diag; apply M3_eq; ring).
  split; [repeat split; assumption|]. split.
  - intros p. unfold body_level, own_coordinates. rewrite RM, mT_mm, mv_mm. unfold exchanged; cbn [ell_a ell_b ell_c ell_center].
    generalize (mv (mT (rotation_matrix e)) (vsub p (ell_center e))). intros [x y z]. rewrite rot_x_90, mT_explicit, mv_explicit. unfold level, Rdiv; cbn [vx vy vz]. ring.
  - unfold magnetised_alike, world_susceptibility, world_remanent. rewrite RM. unfold exchanged; cbn [ell_susceptibility ell_remanent].
    split; [destruct (ell_susceptibility e) as [[k|m]|]; split; intros; discriminate || reflexivity|]. split; [reflexivity|]. split; [|symmetry; apply mv_eye].
    rewrite mm_eye_l. replace (mT eye) with eye by reflexivity. rewrite mm_eye_r, mT_mm, !mm_assoc. f_equal.
    assert (D : forall k, diag k k k = mscale k eye) by (intros k; unfold mscale, eye, diag, vscale; cbn [vx vy vz row1 row2 row3]; apply M3_eq; ring).
    destruct (ell_susceptibility e) as [[k|m]|].
    + rewrite D, mm_mscale_l, mm_mscale_r, mm_eye_l, <- mm_assoc, O, mm_eye_l. rewrite mm_mscale_l, mm_eye_l. reflexivity.
    + rewrite <- !mm_assoc, O, mm_eye_l, !mm_assoc. rewrite <- (mm_assoc (rot_x 90)), O, mm_eye_l. reflexivity.
    + rewrite D, mm_mscale_l, mm_mscale_r, mm_eye_l, <- mm_assoc, O, mm_eye_l. rewrite mm_mscale_l, mm_eye_l. reflexivity.
Qed.
Print Assumptions C90_order_of_the_axes.

(** ** Examples *)
Definition moving_sample : ellipsoid := Ell 1 3 2 30 20 10 (V3 5 6 7) (Some 2670) (Some (Tensor (M3 (V3 1 2 0) (V3 2 5 1) (V3 0 1 3)))) (Some (V3 1 0 4)).
Example C90_sample mu_0 F sh ps : prod_shape sh = length ps ->
  ellipsoid_gravity (coordinates_of sh ps) (Several [exchanged moving_sample]) = ellipsoid_gravity (coordinates_of sh ps) (Single moving_sample) /\
  ellipsoid_magnetic mu_0 (coordinates_of sh ps) (Several [exchanged moving_sample]) F = ellipsoid_magnetic mu_0 (coordinates_of sh ps) (Single moving_sample) F.
Proof.
  intros Hs. assert (P : positive_axes moving_sample) by (unfold positive_axes, moving_sample; cbn; lra).
  destruct (C90_order_of_the_axes moving_sample P) as (P' & L & M).
  apply C90_only_the_solid_matters; [exact Hs|]. constructor; [|constructor]. split; [exact P|]. split; [exact P'|]. split; [intros p; rewrite L; reflexivity|]. split; [reflexivity | exact M].
Qed.
Example C90_turned_sample : exists g g', (forall p, g' (motion (rot_z 45) (V3 1 2 3) p) = mv (rot_z 45) (g p)) /\
  ellipsoid_gravity (coordinates_of [1%nat] [V3 0 0 0]) (Single moving_sample) = Ok (gravity_arrays [1%nat] g [V3 0 0 0], 0%nat) /\
  ellipsoid_gravity (coordinates_of [1%nat] [V3 1 2 3]) (Single (turned 45 (V3 1 2 3) moving_sample)) = Ok (gravity_arrays [1%nat] g' [V3 1 2 3], 0%nat).
Proof.
  assert (P : positive_axes moving_sample) by (unfold positive_axes, moving_sample; cbn; lra).
  destruct (C90_turn_about_the_vertical 45 (V3 1 2 3) moving_sample P) as (C & _).
  destruct (C90_gravity_moves_with_the_bodies (rot_z 45) (V3 1 2 3) (Single moving_sample) (Single (turned 45 (V3 1 2 3) moving_sample))) as (g & g' & n & E & E' & M);
    [apply rot_z_orthogonal | constructor; [split; [exact C | reflexivity] | constructor] |].
  exists g, g'. split; [exact M|]. assert (N : n = 0%nat).
  { assert (X := E [1%nat] [V3 0 0 0] eq_refl). rewrite (gravity_single moving_sample [1%nat] [V3 0 0 0] P eq_refl) in X. injection X as _ _ _ X. symmetry. exact X. }
  rewrite (E [1%nat] [V3 0 0 0] eq_refl), (E' [1%nat] [V3 1 2 3] eq_refl), N. split; reflexivity.
Qed.
