(** Proofs about the rotations of ellipsoids (C29). *)
From Verif Require Import Base BaseFacts NumPy EllipsoidModel EllipsoidSpec.
From Verif Require EqsModel.
Local Open Scope R_scope.

Lemma mm_explicit a b c d e f g h i a' b' c' d' e' f' g' h' i' :
  mm (M3 (V3 a b c) (V3 d e f) (V3 g h i)) (M3 (V3 a' b' c') (V3 d' e' f') (V3 g' h' i')) =
  M3 (V3 (a' * a + d' * b + g' * c) (b' * a + e' * b + h' * c) (c' * a + f' * b + i' * c))
     (V3 (a' * d + d' * e + g' * f) (b' * d + e' * e + h' * f) (c' * d + f' * e + i' * f))
     (V3 (a' * g + d' * h + g' * i) (b' * g + e' * h + h' * i) (c' * g + f' * h + i' * i)).
Proof. reflexivity. Qed.
Lemma mv_explicit a b c d e f g h i x y z :
  mv (M3 (V3 a b c) (V3 d e f) (V3 g h i)) (V3 x y z) = V3 (a * x + b * y + c * z) (d * x + e * y + f * z) (g * x + h * y + i * z).
Proof. reflexivity. Qed.
Lemma mT_explicit a b c d e f g h i :
  mT (M3 (V3 a b c) (V3 d e f) (V3 g h i)) = M3 (V3 a d g) (V3 b e h) (V3 c f i).
Proof. reflexivity. Qed.
Ltac mat := repeat match goal with m : mat3 |- _ => destruct m as [[] [] []] | v : vec3 |- _ => destruct v end;
  unfold eye, diag, madd, mscale, vscale, vadd, vsub; cbn [row1 row2 row3 vx vy vz];
  rewrite ?mT_explicit, ?mm_explicit, ?mT_explicit, ?mm_explicit, ?mT_explicit, ?mv_explicit; unfold dot; cbn [row1 row2 row3 vx vy vz].

Lemma M3_eq a b c d e f g h i a' b' c' d' e' f' g' h' i' :
  a = a' -> b = b' -> c = c' -> d = d' -> e = e' -> f = f' -> g = g' -> h = h' -> i = i' ->
  M3 (V3 a b c) (V3 d e f) (V3 g h i) = M3 (V3 a' b' c') (V3 d' e' f') (V3 g' h' i').
Proof. intros; subst; reflexivity. Qed.
Lemma V3_eq a b c a' b' c' : a = a' -> b = b' -> c = c' -> V3 a b c = V3 a' b' c'.
Proof. intros; subst; reflexivity. Qed.

Lemma mm_assoc a b c : mm (mm a b) c = mm a (mm b c).
Proof. mat; apply M3_eq; ring. Qed.
Lemma mm_eye_l a : mm eye a = a. Proof. mat; apply M3_eq; ring. Qed.
Lemma mm_eye_r a : mm a eye = a. Proof. mat; apply M3_eq; ring. Qed.
Lemma mT_mm a b : mT (mm a b) = mm (mT b) (mT a).
Proof. mat; apply M3_eq; ring. Qed.
Lemma mT_mT a : mT (mT a) = a. Proof. mat; reflexivity. Qed.
Lemma mv_mm a b v : mv (mm a b) v = mv a (mv b v).
Proof. mat; apply V3_eq; ring. Qed.
Lemma mv_eye v : mv eye v = v. Proof. mat; apply V3_eq; ring. Qed.
Lemma dot_mv m u v : dot (mv m u) v = dot u (mv (mT m) v).
Proof. mat; ring. Qed.
Lemma det_mm a b : det (mm a b) = det a * det b.
Proof. mat; unfold det; ring. Qed.
Lemma det_mT a : det (mT a) = det a.
Proof. mat; unfold det; ring. Qed.

Lemma orthogonal_mm a b : orthogonal a -> orthogonal b -> orthogonal (mm a b).
Proof.
  intros [A1 A2] [B1 B2]. split; rewrite mT_mm.
  - rewrite mm_assoc, <- (mm_assoc b), B1, mm_eye_l. exact A1.
  - rewrite mm_assoc, <- (mm_assoc (mT a)), A2, mm_eye_l. exact B2.
Qed.
Lemma orthogonal_mT a : orthogonal a -> orthogonal (mT a).
Proof. intros [A1 A2]; split; rewrite mT_mT; assumption. Qed.
Lemma orthogonal_dot m u v : orthogonal m -> dot (mv m u) (mv m v) = dot u v.
Proof. intros [_ H]. rewrite dot_mv, <- mv_mm, H, mv_eye. reflexivity. Qed.
Lemma orthogonal_back m v : orthogonal m -> mv m (mv (mT m) v) = v.
Proof. intros [H _]. rewrite <- mv_mm, H, mv_eye. reflexivity. Qed.
Lemma orthogonal_forth m v : orthogonal m -> mv (mT m) (mv m v) = v.
Proof. intros [_ H]. rewrite <- mv_mm, H, mv_eye. reflexivity. Qed.
Lemma orthogonal_norm m v : orthogonal m -> norm (mv m v) = norm v.
Proof. intros H. unfold norm. rewrite orthogonal_dot by exact H. reflexivity. Qed.

Lemma sc2 t : sin t * sin t + cos t * cos t = 1.
Proof. generalize (sin2_cos2 t). unfold Rsqr. tauto. Qed.

Ltac trig := match goal with |- _ = _ => first [ring | (ring_simplify; nra)] end.
Lemma rot_z_orthogonal d : orthogonal (rot_z d) /\ det (rot_z d) = 1.
Proof.
  unfold rot_z. set (t := radians d). assert (H := sc2 t). set (s := sin t) in *; set (c := cos t) in *; clearbody s c.
  split; [split|]; mat; [apply M3_eq; nra | apply M3_eq; nra | unfold det; nra].
Qed.
Lemma rot_y_orthogonal d : orthogonal (rot_y d) /\ det (rot_y d) = 1.
Proof.
  unfold rot_y. set (t := radians d). assert (H := sc2 t). set (s := sin t) in *; set (c := cos t) in *; clearbody s c.
  split; [split|]; mat; [apply M3_eq; nra | apply M3_eq; nra | unfold det; nra].
Qed.
Lemma rot_x_orthogonal d : orthogonal (rot_x d) /\ det (rot_x d) = 1.
Proof.
  unfold rot_x. set (t := radians d). assert (H := sc2 t). set (s := sin t) in *; set (c := cos t) in *; clearbody s c.
  split; [split|]; mat; [apply M3_eq; nra | apply M3_eq; nra | unfold det; nra].
Qed.

Lemma rotation_orthogonal yaw pitch roll :
  orthogonal (get_rotation_matrix yaw pitch roll) /\ det (get_rotation_matrix yaw pitch roll) = 1.
Proof.
  unfold get_rotation_matrix, from_euler_ZYX.
  destruct (rot_z_orthogonal yaw) as [Z1 Z2], (rot_y_orthogonal (- pitch)) as [Y1 Y2], (rot_x_orthogonal roll) as [X1 X2].
  split; [repeat apply orthogonal_mm; assumption | rewrite !det_mm, Z2, Y2, X2; ring].
Qed.

Lemma radians_opp d : radians (- d) = - radians d. Proof. unfold radians; lra. Qed.
Lemma radians_0 : radians 0 = 0. Proof. unfold radians; lra. Qed.
Lemma radians_90 : radians 90 = PI / 2. Proof. unfold radians; lra. Qed.

(** Where the rotation takes the three axes. *)
Lemma rotation_axis_x yaw pitch roll :
  mv (get_rotation_matrix yaw pitch roll) (V3 1 0 0) =
  V3 (cos (radians yaw) * cos (radians pitch)) (sin (radians yaw) * cos (radians pitch)) (sin (radians pitch)).
Proof.
  unfold get_rotation_matrix, from_euler_ZYX, rot_x, rot_y, rot_z. rewrite radians_opp, sin_neg, cos_neg.
  mat. apply V3_eq; ring.
Qed.
Lemma rotation_no_roll_axis_y yaw pitch :
  mv (get_rotation_matrix yaw pitch 0) (V3 0 1 0) = V3 (- sin (radians yaw)) (cos (radians yaw)) 0.
Proof.
  unfold get_rotation_matrix, from_euler_ZYX, rot_x, rot_y, rot_z. rewrite radians_opp, sin_neg, cos_neg, radians_0, sin_0, cos_0.
  mat. apply V3_eq; ring.
Qed.
Lemma rotation_roll roll :
  mv (get_rotation_matrix 0 0 roll) (V3 0 1 0) = V3 0 (cos (radians roll)) (sin (radians roll)).
Proof.
  unfold get_rotation_matrix, from_euler_ZYX, rot_x, rot_y, rot_z. rewrite radians_opp, radians_0, Ropp_0, sin_0, cos_0.
  mat. apply V3_eq; ring.
Qed.

(** ** Semi-axes rotation *)
Lemma Int_part_IZR z : Int_part (IZR z) = z.
Proof. unfold Int_part. rewrite <- (tech_up (IZR z) (z + 1)); [lia | rewrite plus_IZR; lra | rewrite plus_IZR; lra]. Qed.
Lemma truncate_0 : EqsModel.truncate 0 = 0.
Proof. unfold EqsModel.truncate. destruct (Rleb_spec 0 0) as [H|H]; [|lra]. change 0 with (IZR 0) at 1. rewrite Int_part_IZR. reflexivity. Qed.
Lemma truncate_1 : EqsModel.truncate 1 = 1.
Proof. unfold EqsModel.truncate. destruct (Rleb_spec 0 1) as [H|H]; [|lra]. change 1 with (IZR 1) at 1. rewrite Int_part_IZR. reflexivity. Qed.
Lemma truncate_m1 : EqsModel.truncate (- (1)) = - (1).
Proof.
  unfold EqsModel.truncate. destruct (Rleb_spec 0 (- (1))) as [H|H]; [lra|]. rewrite Ropp_involutive.
  change 1 with (IZR 1) at 1. rewrite Int_part_IZR. reflexivity.
Qed.

Definition quarter (m : mat3) : mat3 := mmap EqsModel.truncate m.
Lemma quarter_90_0_0 : quarter (get_rotation_matrix 90 0 0) = M3 (V3 0 (- (1)) 0) (V3 1 0 0) (V3 0 0 1).
Proof.
  unfold get_rotation_matrix, from_euler_ZYX, rot_x, rot_y, rot_z. rewrite radians_opp, radians_0, radians_90, Ropp_0, sin_0, cos_0, cos_PI2, sin_PI2.
  unfold quarter, mmap. mat. apply M3_eq; match goal with |- EqsModel.truncate ?x = ?y => replace x with y by ring; first [exact truncate_0 | exact truncate_1 | exact truncate_m1] end.
Qed.
Lemma quarter_0_90_0 : quarter (get_rotation_matrix 0 90 0) = M3 (V3 0 0 (- (1))) (V3 0 1 0) (V3 1 0 0).
Proof.
  unfold get_rotation_matrix, from_euler_ZYX, rot_x, rot_y, rot_z. rewrite radians_opp, radians_0, radians_90, sin_neg, cos_neg, sin_0, cos_0, cos_PI2, sin_PI2.
  unfold quarter, mmap. mat. apply M3_eq; match goal with |- EqsModel.truncate ?x = ?y => replace x with y by ring; first [exact truncate_0 | exact truncate_1 | exact truncate_m1] end.
Qed.
Lemma quarter_0_0_90 : quarter (get_rotation_matrix 0 0 90) = M3 (V3 1 0 0) (V3 0 0 (- (1))) (V3 0 1 0).
Proof.
  unfold get_rotation_matrix, from_euler_ZYX, rot_x, rot_y, rot_z. rewrite radians_opp, radians_0, radians_90, Ropp_0, sin_0, cos_0, cos_PI2, sin_PI2.
  unfold quarter, mmap. mat. apply M3_eq; match goal with |- EqsModel.truncate ?x = ?y => replace x with y by ring; first [exact truncate_0 | exact truncate_1 | exact truncate_m1] end.
Qed.
Lemma quarter_90_0_90 : quarter (get_rotation_matrix 90 0 90) = M3 (V3 0 0 1) (V3 1 0 0) (V3 0 1 0).
Proof.
  unfold get_rotation_matrix, from_euler_ZYX, rot_x, rot_y, rot_z. rewrite radians_opp, radians_0, radians_90, Ropp_0, sin_0, cos_0, cos_PI2, sin_PI2.
  unfold quarter, mmap. mat. apply M3_eq; match goal with |- EqsModel.truncate ?x = ?y => replace x with y by ring; first [exact truncate_0 | exact truncate_1 | exact truncate_m1] end.
Qed.
Lemma quarter_90_90_0 : quarter (get_rotation_matrix 90 90 0) = M3 (V3 0 (- (1)) 0) (V3 0 0 (- (1))) (V3 1 0 0).
Proof.
  unfold get_rotation_matrix, from_euler_ZYX, rot_x, rot_y, rot_z. rewrite radians_opp, radians_0, radians_90, sin_neg, cos_neg, sin_0, cos_0, cos_PI2, sin_PI2.
  unfold quarter, mmap. mat. apply M3_eq; match goal with |- EqsModel.truncate ?x = ?y => replace x with y by ring; first [exact truncate_0 | exact truncate_1 | exact truncate_m1] end.
Qed.

(** All that later proofs need about the sorting of the axes. *)
Definition sorts (e : ellipsoid) (S : mat3) (a b c : R) : Prop :=
  (c <= b /\ b <= a) /\ (orthogonal S /\ det S = 1) /\
  (forall f : R -> R, mm (mm S (diag (f a) (f b) (f c))) (mT S) = diag (f (ell_a e)) (f (ell_b e)) (f (ell_c e))) /\
  (exists s : list R, Permutation.Permutation s [ell_a e; ell_b e; ell_c e] /\ s = [a; b; c]).

Lemma sorted_desc_true a b c : sorted_desc a b c = true <-> c <= b /\ b <= a.
Proof. unfold sorted_desc. rewrite andb_true_iff, !Rleb_true. tauto. Qed.

Lemma sorted_axes_perm e : exists a b c, sorted_axes e = Ok (a, b, c) /\ (c <= b /\ b <= a) /\
  Permutation.Permutation [a; b; c] [ell_a e; ell_b e; ell_c e].
Proof.
  destruct e as [x y z yw p r ce d s m]. unfold sorted_axes, sorted_reverse. cbn [ell_a ell_b ell_c fold_right insert_desc].
  destruct (Rleb_spec z y) as [H1|H1]; cbn [insert_desc].
  - destruct (Rleb_spec y x) as [H2|H2]; cbn [insert_desc].
    + exists x, y, z. repeat split; try lra; try reflexivity.
    + destruct (Rleb_spec z x) as [H3|H3]; cbn [insert_desc].
      * exists y, x, z. repeat split; try lra; try reflexivity. apply Permutation.perm_swap.
      * exists y, z, x. repeat split; try lra; try reflexivity.
        apply (Permutation.perm_trans (l' := [y; x; z])); [apply Permutation.perm_skip, Permutation.perm_swap | apply Permutation.perm_swap].
  - destruct (Rleb_spec z x) as [H2|H2]; cbn [insert_desc].
    + exists x, z, y. repeat split; try lra; try reflexivity. apply Permutation.perm_skip, Permutation.perm_swap.
    + destruct (Rleb_spec y x) as [H3|H3]; cbn [insert_desc].
      * exists z, x, y. repeat split; try lra; try reflexivity.
        apply (Permutation.perm_trans (l' := [x; z; y])); [apply Permutation.perm_swap | apply Permutation.perm_skip, Permutation.perm_swap].
      * exists z, y, x. repeat split; try lra; try reflexivity.
        apply (Permutation.perm_trans (l' := [z; x; y])); [apply Permutation.perm_skip, Permutation.perm_swap|].
        apply (Permutation.perm_trans (l' := [x; z; y])); [apply Permutation.perm_swap | apply Permutation.perm_skip, Permutation.perm_swap].
Qed.

Lemma sorted_unique (a b c a' b' c' : R) : c <= b -> b <= a -> c' <= b' -> b' <= a' ->
  Permutation.Permutation [a; b; c] [a'; b'; c'] -> a = a' /\ b = b' /\ c = c'.
Proof.
  intros H1 H2 H3 H4 P.
  assert (In a [a'; b'; c']) as [Ia|[Ia|[Ia|[]]]] by (apply (Permutation.Permutation_in _ P); cbn; auto);
  assert (In c [a'; b'; c']) as [Ic|[Ic|[Ic|[]]]] by (apply (Permutation.Permutation_in _ P); cbn; auto);
  assert (In a' [a; b; c]) as Ja by (apply (Permutation.Permutation_in _ (Permutation.Permutation_sym P)); cbn; auto);
  assert (In c' [a; b; c]) as Jc by (apply (Permutation.Permutation_in _ (Permutation.Permutation_sym P)); cbn; auto);
  cbn in Ja, Jc;
  assert (S : a + (b + (c + 0)) = a' + (b' + (c' + 0))) by (exact (sumR_perm _ _ P));
  destruct Ja as [Ja|[Ja|[Ja|[]]]]; destruct Jc as [Jc|[Jc|[Jc|[]]]]; repeat split; lra.
Qed.

Lemma semiaxes_case e S a b c :
  c <= b -> b <= a -> Permutation.Permutation [a; b; c] [ell_a e; ell_b e; ell_c e] ->
  orthogonal S /\ det S = 1 ->
  (forall f : R -> R, mm (mm S (diag (f a) (f b) (f c))) (mT S) = diag (f (ell_a e)) (f (ell_b e)) (f (ell_c e))) ->
  exists a b c, sorted_axes e = Ok (a, b, c) /\ sorts e S a b c.
Proof.
  intros H1 H2 P O F. destruct (sorted_axes_perm e) as (a' & b' & c' & E & [H3 H4] & P').
  destruct (sorted_unique a' b' c' a b c H3 H4 H1 H2 (Permutation.perm_trans P' (Permutation.Permutation_sym P))) as (-> & -> & ->).
  exists a, b, c. split; [exact E|]. repeat (split; [try assumption; split; assumption|]). exists [a; b; c]. split; [exact P|reflexivity].
Qed.

Lemma semiaxes_rotation e : exists S a b c,
  get_semiaxes_rotation_matrix e = Ok S /\ sorted_axes e = Ok (a, b, c) /\ sorts e S a b c.
Proof.
  unfold get_semiaxes_rotation_matrix.
  assert (K : forall S a b c, c <= b -> b <= a -> Permutation.Permutation [a; b; c] [ell_a e; ell_b e; ell_c e] ->
    orthogonal S /\ det S = 1 ->
    (forall f : R -> R, mm (mm S (diag (f a) (f b) (f c))) (mT S) = diag (f (ell_a e)) (f (ell_b e)) (f (ell_c e))) ->
    exists S' a b c, Ok S = Ok S' /\ sorted_axes e = Ok (a, b, c) /\ sorts e S' a b c).
  { intros S a b c H1 H2 P O F. destruct (semiaxes_case e S a b c H1 H2 P O F) as (a' & b' & c' & E & T).
    exists S, a', b', c'. auto. }
  destruct e as [x y z yw p r ce d s m]. cbn [ell_a ell_b ell_c] in *.
  destruct (sorted_desc x y z) eqn:D1.
  { apply sorted_desc_true in D1 as [L1 L2]. apply (K eye x y z); try assumption; [apply Permutation.Permutation_refl | | ].
    - split; [split|]; mat; [apply M3_eq; ring | apply M3_eq; ring | unfold det; ring].
    - intros f. mat. apply M3_eq; ring. }
  destruct (sorted_desc y x z) eqn:D2.
  { apply sorted_desc_true in D2 as [L1 L2]. cbn [bind]. fold (quarter (get_rotation_matrix 90 0 0)). rewrite quarter_90_0_0.
    apply (K _ y x z); try assumption; [apply Permutation.perm_swap | | ].
    - split; [split|]; mat; [apply M3_eq; ring | apply M3_eq; ring | unfold det; ring].
    - intros f. mat. apply M3_eq; ring. }
  destruct (sorted_desc z y x) eqn:D3.
  { apply sorted_desc_true in D3 as [L1 L2]. cbn [bind]. fold (quarter (get_rotation_matrix 0 90 0)). rewrite quarter_0_90_0.
    apply (K _ z y x); try assumption.
    - apply (Permutation.perm_trans (l' := [z; x; y])); [apply Permutation.perm_skip, Permutation.perm_swap|].
      apply (Permutation.perm_trans (l' := [x; z; y])); [apply Permutation.perm_swap | apply Permutation.perm_skip, Permutation.perm_swap].
    - split; [split|]; mat; [apply M3_eq; ring | apply M3_eq; ring | unfold det; ring].
    - intros f. mat. apply M3_eq; ring. }
  destruct (sorted_desc x z y) eqn:D4.
  { apply sorted_desc_true in D4 as [L1 L2]. cbn [bind]. fold (quarter (get_rotation_matrix 0 0 90)). rewrite quarter_0_0_90.
    apply (K _ x z y); try assumption; [apply Permutation.perm_skip, Permutation.perm_swap | | ].
    - split; [split|]; mat; [apply M3_eq; ring | apply M3_eq; ring | unfold det; ring].
    - intros f. mat. apply M3_eq; ring. }
  destruct (sorted_desc y z x) eqn:D5.
  { apply sorted_desc_true in D5 as [L1 L2]. cbn [bind]. fold (quarter (get_rotation_matrix 90 0 90)). rewrite quarter_90_0_90.
    apply (K _ y z x); try assumption.
    - apply (Permutation.perm_trans (l' := [y; x; z])); [apply Permutation.perm_skip, Permutation.perm_swap | apply Permutation.perm_swap].
    - split; [split|]; mat; [apply M3_eq; ring | apply M3_eq; ring | unfold det; ring].
    - intros f. mat. apply M3_eq; ring. }
  destruct (sorted_desc z x y) eqn:D6.
  { apply sorted_desc_true in D6 as [L1 L2]. cbn [bind]. fold (quarter (get_rotation_matrix 90 90 0)). rewrite quarter_90_90_0.
    apply (K _ z x y); try assumption.
    - apply (Permutation.perm_trans (l' := [x; z; y])); [apply Permutation.perm_swap | apply Permutation.perm_skip, Permutation.perm_swap].
    - split; [split|]; mat; [apply M3_eq; ring | apply M3_eq; ring | unfold det; ring].
    - intros f. mat. apply M3_eq; ring. }
  exfalso. unfold sorted_desc in *.
  destruct (Rleb_spec y x), (Rleb_spec x y), (Rleb_spec z x), (Rleb_spec x z), (Rleb_spec z y), (Rleb_spec y z); cbn in *; try discriminate; lra.
Qed.

(** Quadratic forms in the two frames. *)
Lemma diag_form m x y z v : dot v (mv (mm (mm m (diag x y z)) (mT m)) v) = dot (mv (mT m) v) (mv (diag x y z) (mv (mT m) v)).
Proof. rewrite dot_mv, mT_mT, !mv_mm. reflexivity. Qed.

Lemma level_dot a b c p : level a b c p = dot p (mv (diag (/ a ^ 2) (/ b ^ 2) (/ c ^ 2)) p).
Proof. unfold level, Rdiv. mat. ring. Qed.

Lemma sorted_level e S a b c v : sorts e S a b c -> level a b c (mv (mT S) v) = level (ell_a e) (ell_b e) (ell_c e) v.
Proof.
  intros (_ & _ & F & _). rewrite !level_dot. rewrite <- (F (fun t => / t ^ 2)). symmetry. apply diag_form.
Qed.

Lemma is_internal_level p a b c : is_internal p a b c = true <-> level a b c p < 1.
Proof. unfold is_internal, level. apply Rltb_true. Qed.
