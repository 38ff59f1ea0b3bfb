(** C103: fields of point masses and dipoles move and scale with them, and the forces between two sets balance. *)
From Coq Require Import Psatz.
From Verif Require Import Base BaseFacts NumPy NumPyFacts DistanceModel DistanceSpec PointGravityModel PointGravitySpec PointGravityProofs EllipsoidModel EllipsoidSpec EllipsoidRotProofs EllipsoidTopProofs EllipsoidMagProofs EllipsoidMoveProofs PrismModel PrismSpec PrismFieldProofs.
Local Open Scope string_scope.
Local Open Scope R_scope.

(** ** Statements *)
(** What [point_gravity] returns at one point: a number, the acceleration as a vector and the tensor of
    gradients, both along easting, northing and upward ([g_z] points downward). *)
Definition gravity_at (cs field : string) (ss : list source) (p : point) : R :=
  returned (point_gravity (coords_of [] [p]) (points_of ss) (masses_of ss) field cs).
Definition acceleration (ss : list source) (p : point) : vec3 :=
  let g f := gravity_at "cartesian" f ss p in V3 (g "g_e") (g "g_n") (- g "g_z").
Definition gradients (ss : list source) (p : point) : mat3 :=
  let g f := gravity_at "cartesian" f ss p in
  M3 (V3 (g "g_ee") (g "g_en") (- g "g_ez")) (V3 (g "g_ne") (g "g_nn") (- g "g_nz")) (V3 (- g "g_ze") (- g "g_zn") (g "g_zz")).
(** What [dipole_magnetic] returns at one point. *)
Definition magnetic_at (mu0 : R) (dms : list (point * vec3)) (p : point) : vec3 :=
  V3 (dipole_call mu0 dms "b_e" p) (dipole_call mu0 dms "b_n" p) (dipole_call mu0 dms "b_u" p).

Definition point_at (x : vec3) : point := (vx x, vy x, vz x).
(** A point after a rotation or reflection [A] followed by a displacement [t]; after a change of scale. *)
Definition moved (A : mat3) (t : vec3) (p : point) : point := point_at (motion A t (cart_position p)).
Definition scaled (k : R) (p : point) : point := point_at (vscale k (cart_position p)).
Definition moved_masses A t (ss : list source) : list source := map (fun s => (moved A t (fst s), snd s)) ss.
Definition moved_dipoles A t (dms : list (point * vec3)) := map (fun s => (moved A t (fst s), mv A (snd s))) dms.
(** Two points on the globe, the second being the first after the rotation or reflection [A] about the centre. *)
Definition turned (A : mat3) (p p' : point) : Prop :=
  thd3 p' = thd3 p /\ sph_position (fst3 p', snd3 p', 1) = mv A (sph_position (fst3 p, snd3 p, 1)).
Definition cross (a b : vec3) : vec3 := V3 (vy a * vz b - vz a * vy b) (vz a * vx b - vx a * vz b) (vx a * vy b - vy a * vx b).
Definition total {A} (l : list A) (f : A -> vec3) : vec3 := V3 (sum_over l (fun a => vx (f a))) (sum_over l (fun a => vy (f a))) (sum_over l (fun a => vz (f a))).
(** Force (per mGal) and moment of force about the origin that the masses [ss] exert on the masses [on]; their potential energy. *)
Definition force (ss on : list source) : vec3 := total on (fun s => vscale (snd s) (acceleration ss (fst s))).
Definition torque (ss on : list source) : vec3 := total on (fun s => cross (cart_position (fst s)) (vscale (snd s) (acceleration ss (fst s)))).
Definition energy (cs : string) (ss on : list source) : R := sum_over on (fun s => snd s * gravity_at cs "potential" ss (fst s)).
Definition interaction mu0 (dms on : list (point * vec3)) : R := sum_over on (fun s => dot (snd s) (magnetic_at mu0 dms (fst s))).

(** ** Lemmas *)
Lemma gravity_at_value cs field ss p : supported cs field -> gravity_at cs field ss p = sum_over ss (newton_field cs field p).
Proof. intros S. unfold gravity_at. rewrite (point_gravity_newton [] [p]) by (assumption || reflexivity). reflexivity. Qed.
Ltac sup := left; split; [reflexivity|cbn; tauto].

Definition newton_vector (m : R) (x y : vec3) : vec3 := vscale (mGal * (newton_G * m / eucl x y ^ 3)) (vsub y x).
Lemma acceleration_value ss p : acceleration ss p = total ss (fun s => newton_vector (snd s) (cart_position p) (cart_position (fst s))).
Proof.
  unfold acceleration. rewrite !gravity_at_value by sup. unfold total. apply V3_eq.
  - apply sum_over_ext. intros s _. unfold newton_field, newton_field_cartesian, newton_accel, newton_vector, dot, vscale. cbn. ring.
  - apply sum_over_ext. intros s _. unfold newton_field, newton_field_cartesian, newton_accel, newton_vector, dot, vscale. cbn. ring.
  - replace (- sum_over ss _) with (-1 * sum_over ss (newton_field "cartesian" "g_z" p)) by ring. rewrite <- sum_over_scal. apply sum_over_ext. intros s _. unfold newton_field, newton_field_cartesian, newton_accel, newton_vector, dot, vscale. cbn. ring.
Qed.

Definition newton_matrix (m : R) (x y : vec3) : mat3 :=
  let r := vsub x y in let d := eucl x y in let T i j := eotvos * (newton_G * m * (3 * i * j / d ^ 5)) in let D := eotvos * (newton_G * m / d ^ 3) in
  M3 (V3 (T (vx r) (vx r) - D) (T (vx r) (vy r)) (T (vx r) (vz r)))
     (V3 (T (vy r) (vx r)) (T (vy r) (vy r) - D) (T (vy r) (vz r)))
     (V3 (T (vz r) (vx r)) (T (vz r) (vy r)) (T (vz r) (vz r) - D)).
Definition msum {A} (l : list A) (f : A -> mat3) : mat3 := M3 (total l (fun a => row1 (f a))) (total l (fun a => row2 (f a))) (total l (fun a => row3 (f a))).
Lemma gradients_value ss p : gradients ss p = msum ss (fun s => newton_matrix (snd s) (cart_position p) (cart_position (fst s))).
Proof.
  unfold gradients. rewrite !gravity_at_value by sup. unfold msum, total.
  assert (N : forall f, - sum_over ss (newton_field "cartesian" f p) = sum_over ss (fun s => -1 * newton_field "cartesian" f p s)) by (intros; rewrite sum_over_scal; ring).
  rewrite !N. f_equal; apply V3_eq; apply sum_over_ext; intros s _; unfold newton_field, newton_field_cartesian, newton_tensor, newton_matrix, directions, dot; cbn; unfold Rdiv; ring.
Qed.

Lemma magnetic_at_value mu0 dms p : off_dipoles p dms -> magnetic_at mu0 dms p = vscale nano (total dms (fun dm => dipole_field mu0 (cart_position p) (cart_position (fst dm)) (snd dm))).
Proof.
  intros O. assert (V : forall c, dipole_call mu0 dms (b_name c) p = nano * sum_over dms (fun dm => comp c (dipole_field mu0 (cart_position p) (cart_position (fst dm)) (snd dm)))).
  { intros c. unfold dipole_call. rewrite (dipole_magnetic_physical mu0 c [] [p]) by (reflexivity || (intros q [<-|[]]; exact O)). cbn [returned1 data map nth]. apply sum_over_scal. }
  unfold magnetic_at, vscale, total. cbn [vx vy vz]. apply V3_eq; [exact (V AE)|exact (V AN)|exact (V AU)].
Qed.

Lemma total_map {A B} (h : A -> B) l f : total (map h l) f = total l (fun a => f (h a)).
Proof. unfold total. now rewrite !sum_over_map. Qed.
Lemma total_ext {A} (l : list A) f g : (forall a, In a l -> f a = g a) -> total l f = total l g.
Proof. intros H. unfold total. apply V3_eq; apply sum_over_ext; intros a Ha; now rewrite H. Qed.
Lemma total_scale {A} (l : list A) k f : total l (fun a => vscale k (f a)) = vscale k (total l f).
Proof. unfold total, vscale. cbn [vx vy vz]. apply V3_eq; apply sum_over_scal. Qed.
Lemma place_at x : cart_position (point_at x) = x.
Proof. now destruct x. Qed.
Lemma motion_sub A t x y : vsub (motion A t x) (motion A t y) = mv A (vsub x y).
Proof. unfold motion, vsub, vadd, mv, dot. cbn [vx vy vz]. apply V3_eq; ring. Qed.
Lemma motion_eucl A t x y : orthogonal A -> eucl (motion A t x) (motion A t y) = eucl x y.
Proof. intros O. unfold eucl. rewrite motion_sub. now apply norm_keeps. Qed.

Lemma total_mv {A} m (l : list A) f : mv m (total l f) = total l (fun a => mv m (f a)).
Proof.
  unfold total, mv, dot. cbn [vx vy vz].
  assert (D : forall a b c, a * sum_over l (fun e => vx (f e)) + b * sum_over l (fun e => vy (f e)) + c * sum_over l (fun e => vz (f e)) = sum_over l (fun e => a * vx (f e) + b * vy (f e) + c * vz (f e))).
  { intros. now rewrite !sum_over_plus, !sum_over_scal. }
  apply V3_eq; apply D.
Qed.
Lemma dot_total {A} u (l : list A) f : dot u (total l f) = sum_over l (fun a => dot u (f a)).
Proof. unfold total, dot. cbn [vx vy vz]. now rewrite !sum_over_plus, !sum_over_scal. Qed.
Lemma total_nil {A} (f : A -> vec3) : total [] f = V3 0 0 0.
Proof. reflexivity. Qed.
Lemma total_cons {A} (a : A) l f : total (a :: l) f = vadd (f a) (total l f).
Proof. unfold total, vadd. rewrite !sum_over_cons. reflexivity. Qed.

Lemma form_matrix m x y a b : dot a (mv (newton_matrix m x y) b) = eotvos * (newton_G * m * (3 * dot (vsub x y) a * dot (vsub x y) b / eucl x y ^ 5 - dot a b / eucl x y ^ 3)).
Proof. unfold newton_matrix, mv, dot. cbn [vx vy vz row1 row2 row3]. unfold Rdiv. ring. Qed.
Lemma form_msum {A} (l : list A) f a b : dot a (mv (msum l f) b) = sum_over l (fun s => dot a (mv (f s) b)).
Proof.
  unfold msum, mv, dot, total. cbn [vx vy vz row1 row2 row3]. induction l as [|s l IH]; [unfold sum_over; cbn; ring|]. rewrite !sum_over_cons, <- IH. ring.
Qed.
Lemma mat_ext M N : (forall a b, dot a (mv M b) = dot a (mv N b)) -> M = N.
Proof.
  intros H. assert (X : forall a b c d e f, dot (V3 a b c) (mv M (V3 d e f)) = dot (V3 a b c) (mv N (V3 d e f))) by (intros; apply H). clear H.
  destruct M as [[m1 m2 m3] [m4 m5 m6] [m7 m8 m9]], N as [[n1 n2 n3] [n4 n5 n6] [n7 n8 n9]]. unfold mv, dot in X. cbn [vx vy vz row1 row2 row3] in X.
  f_equal; apply V3_eq.
  - specialize (X 1 0 0 1 0 0); lra.
  - specialize (X 1 0 0 0 1 0); lra.
  - specialize (X 1 0 0 0 0 1); lra.
  - specialize (X 0 1 0 1 0 0); lra.
  - specialize (X 0 1 0 0 1 0); lra.
  - specialize (X 0 1 0 0 0 1); lra.
  - specialize (X 0 0 1 1 0 0); lra.
  - specialize (X 0 0 1 0 1 0); lra.
  - specialize (X 0 0 1 0 0 1); lra.
Qed.

(** ** Theorems *)
(** Moving the masses and the observation point together, by a rotation or reflection and a displacement, keeps
    the potential and rotates acceleration and gradients. *)
Theorem C103_masses_move A t ss p : orthogonal A ->
  gravity_at "cartesian" "potential" (moved_masses A t ss) (moved A t p) = gravity_at "cartesian" "potential" ss p /\
  acceleration (moved_masses A t ss) (moved A t p) = mv A (acceleration ss p) /\
  gradients (moved_masses A t ss) (moved A t p) = mm (mm A (gradients ss p)) (mT A).
Proof.
  intros O. unfold moved_masses. split; [|split].
  - rewrite !gravity_at_value by sup. rewrite sum_over_map. apply sum_over_ext. intros s _. unfold newton_field, newton_field_cartesian. cbn [String.eqb Ascii.eqb Bool.eqb fst snd].
    unfold newton_potential, moved. now rewrite !place_at, motion_eucl.
  - rewrite !acceleration_value, total_map, total_mv. apply total_ext. intros s _. cbn [fst snd]. unfold newton_vector, moved. now rewrite !place_at, motion_eucl, mv_vscale, motion_sub.
  - rewrite !gradients_value. apply mat_ext. intros a b. rewrite form_msum, sum_over_map, !mv_mm, (dot_sym a (mv A _)), dot_mv, dot_sym, form_msum.
    apply sum_over_ext. intros s _. cbn [fst snd]. rewrite !form_matrix. unfold moved. rewrite !place_at, motion_eucl, motion_sub by exact O. rewrite !(dot_mv A). now rewrite orthogonal_dot by now apply orthogonal_mT.
Qed.
(** The same for dipoles; their moments turn with them. *)
Theorem C103_dipoles_move mu0 A t dms p : orthogonal A -> off_dipoles p dms ->
  magnetic_at mu0 (moved_dipoles A t dms) (moved A t p) = mv A (magnetic_at mu0 dms p).
Proof.
  intros O Off. rewrite !magnetic_at_value; [|exact Off|].
  - rewrite mv_vscale, total_mv. f_equal. unfold moved_dipoles. rewrite total_map. apply total_ext. intros s _. cbn [fst snd]. unfold dipole_field, moved.
    rewrite !place_at, motion_sub. cbv zeta. rewrite norm_keeps, orthogonal_dot by exact O. now rewrite mv_vscale, (mv_vsub A (vscale _ _)), !mv_vscale.
  - intros dm Hd E. unfold moved_dipoles in Hd. apply in_map_iff in Hd. destruct Hd as (s & <- & Hs). cbn [fst] in E. unfold moved in E. rewrite !place_at in E.
    apply (Off s Hs). apply eucl_zero. rewrite <- (motion_eucl A t) by exact O. now apply eucl_zero.
Qed.

(** On the globe the potential and the downward component do not change when masses and observation point
    turn together about the centre in any way. *)
Theorem C103_globe_turns A ss ss' p p' field : orthogonal A -> In field spherical_fields -> turned A p p' ->
  Forall2 (fun s s' => turned A (fst s) (fst s') /\ snd s' = snd s) ss ss' ->
  gravity_at "spherical" field ss' p' = gravity_at "spherical" field ss p.
Proof.
  intros O F P S. assert (Su : supported "spherical" field) by (right; now split). rewrite !gravity_at_value by exact Su.
  assert (L : forall q q', turned A q q' -> sph_position q' = mv A (sph_position q)).
  { intros [[l b] r] [[l' b'] r'] [E1 E2]. unfold thd3, fst3, snd3 in *. cbn [fst snd] in *. subst r'.
    replace (sph_position (l', b', r)) with (vscale r (sph_position (l', b', 1))) by (unfold sph_position, vscale; cbn [vx vy vz]; apply V3_eq; ring).
    rewrite E2, <- mv_vscale. f_equal. unfold sph_position, vscale. cbn [vx vy vz]. apply V3_eq; ring. }
  induction S as [|s s' ss ss' [Hs Hm] _ IH]; [reflexivity|]. rewrite !sum_over_cons, IH. f_equal. unfold newton_field. cbn [String.eqb Ascii.eqb Bool.eqb]. unfold newton_field_spherical.
  rewrite Hm, (L _ _ P), (L _ _ Hs). unfold newton_potential, newton_accel. unfold eucl. rewrite <- !mv_vsub, !norm_keeps by exact O.
  assert (D : sph_down p' = mv A (sph_down p)).
  { destruct p as [[l b] r], p' as [[l' b'] r']. destruct P as [_ E]. unfold fst3, snd3, sph_down in *. cbn [fst snd] in *. now rewrite E, mv_vscale. }
  now rewrite D, <- mv_vscale, orthogonal_dot by exact O.
Qed.

(** Enlarging all lengths by [k] divides the potential by [k], the acceleration by its square and the gradients
    and the field of dipoles by its cube. *)
Theorem C103_scaling k ss p mu0 dms : 0 < k ->
  let ss' := map (fun s => (scaled k (fst s), snd s)) ss in
  gravity_at "cartesian" "potential" ss' (scaled k p) = gravity_at "cartesian" "potential" ss p / k /\
  acceleration ss' (scaled k p) = vscale (/ k ^ 2) (acceleration ss p) /\
  gradients ss' (scaled k p) = mscale (/ k ^ 3) (gradients ss p) /\
  (off_dipoles p dms -> magnetic_at mu0 (map (fun s => (scaled k (fst s), snd s)) dms) (scaled k p) = vscale (/ k ^ 3) (magnetic_at mu0 dms p)).
Proof.
  intros K ss'. unfold ss'.
  assert (V : forall x y, vsub (vscale k x) (vscale k y) = vscale k (vsub x y)) by (intros; unfold vsub, vscale; cbn [vx vy vz]; apply V3_eq; ring).
  assert (N : forall x, norm (vscale k x) = k * norm x).
  { intros x. unfold norm. transitivity (sqrt (k ^ 2 * dot x x)); [f_equal; unfold dot, vscale; cbn [vx vy vz]; ring|]. rewrite sqrt_mult by (try apply dot_nonneg; nra). now rewrite sqrt_pow2 by lra. }
  assert (E : forall x y, eucl (vscale k x) (vscale k y) = k * eucl x y) by (intros; unfold eucl; now rewrite V).
  assert (I : forall n d, / (k * d) ^ n = / k ^ n * / d ^ n). { intros. now rewrite Rpow_mult_distr, Rinv_mult. }
  split; [|split; [|split]].
  - rewrite !gravity_at_value by sup. rewrite sum_over_map. unfold Rdiv. rewrite Rmult_comm, <- sum_over_scal. apply sum_over_ext. intros s _. unfold newton_field, newton_field_cartesian.
    cbn [String.eqb Ascii.eqb Bool.eqb fst snd]. unfold newton_potential, scaled, Rdiv. rewrite !place_at, E, Rinv_mult. ring.
  - rewrite !acceleration_value, total_map, <- total_scale. apply total_ext. intros s _. cbn [fst snd]. unfold newton_vector, scaled, Rdiv. rewrite !place_at, E, I, V. unfold vscale. cbn [vx vy vz].
    assert (K3 : / k ^ 3 * k = / k ^ 2) by (field; lra). apply V3_eq; rewrite <- K3; ring.
  - rewrite !gradients_value. apply mat_ext. intros a b. rewrite mv_mscale.
    assert (W : forall v, dot a (vscale (/ k ^ 3) v) = / k ^ 3 * dot a v) by (intros; unfold dot, vscale; cbn [vx vy vz]; ring). rewrite W.
    rewrite !form_msum, sum_over_map, <- sum_over_scal. apply sum_over_ext. intros s _. cbn [fst snd]. rewrite !form_matrix. unfold scaled, Rdiv. rewrite !place_at, E, !I, V.
    assert (K5 : / k ^ 5 * k * k = / k ^ 3) by (field; lra). rewrite <- K5. unfold dot, vscale. cbn [vx vy vz].
    assert (K3 : / k ^ 3 = / k ^ 5 * k * k) by now symmetry. rewrite ?K3. ring.
  - intros O. rewrite !magnetic_at_value; [|exact O|].
    + rewrite total_map. unfold vscale at 1 2 3. cbn [vx vy vz]. rewrite (total_ext _ _ (fun dm => vscale (/ k ^ 3) (dipole_field mu0 (cart_position p) (cart_position (fst dm)) (snd dm)))).
      * rewrite total_scale. unfold vscale. cbn [vx vy vz]. apply V3_eq; ring.
      * intros s _. cbn [fst snd]. unfold dipole_field, scaled. rewrite !place_at, V. cbv zeta. rewrite N. unfold Rdiv. rewrite !I.
        assert (K3 : / k ^ 3 = / k ^ 5 * k * k) by (field; lra). rewrite K3. unfold vscale, vsub, dot. cbn [vx vy vz]. apply V3_eq; ring.
    + intros dm Hd F. apply in_map_iff in Hd. destruct Hd as (s & <- & Hs). cbn [fst] in F. unfold scaled in F. rewrite !place_at in F.
      apply (O s Hs). apply eucl_zero. apply eucl_zero in F. rewrite E in F. apply Rmult_integral in F. destruct F; [lra|assumption].
Qed.

(** Two sets of masses pull each other with opposite forces and opposite moments of force, and each has the same potential energy in
    the field of the other, in either coordinate system. *)
Theorem C103_action_and_reaction ss1 ss2 :
  force ss2 ss1 = vscale (-1) (force ss1 ss2) /\ torque ss2 ss1 = vscale (-1) (torque ss1 ss2) /\
  energy "cartesian" ss2 ss1 = energy "cartesian" ss1 ss2 /\ energy "spherical" ss2 ss1 = energy "spherical" ss1 ss2.
Proof.
  assert (S : forall (B : Type) (l1 l2 : list B) (f : B -> B -> R), sum_over l1 (fun a => sum_over l2 (fun b => f a b)) = sum_over l2 (fun b => sum_over l1 (fun a => f a b))).
  { intros B l1 l2 f. induction l1 as [|a l1 IH]; [unfold sum_over at 1; cbn; symmetry; now apply sum_over_zero|]. rewrite sum_over_cons, IH, <- sum_over_plus. apply sum_over_ext. intros b _. now rewrite sum_over_cons. }
  assert (T : forall (f : source -> source -> vec3), (forall a b, f a b = vscale (-1) (f b a)) -> total ss1 (fun a => total ss2 (fun b => f a b)) = vscale (-1) (total ss2 (fun a => total ss1 (fun b => f a b)))).
  { intros f A. rewrite <- total_scale. unfold total. cbn [vx vy vz vscale]. apply V3_eq; rewrite S; apply sum_over_ext; intros b _; (rewrite <- sum_over_scal; apply sum_over_ext; intros a _; rewrite (A a b); unfold vscale; cbn [vx vy vz]; reflexivity). }
  assert (L : forall m x y, newton_vector m x y = vscale (mGal * newton_G * / eucl x y ^ 3 * m) (vsub y x)) by (intros; unfold newton_vector, Rdiv; f_equal; ring).
  split; [|split; [|split]].
  - unfold force. rewrite (total_ext ss1 _ (fun a => total ss2 (fun b => vscale (snd a) (newton_vector (snd b) (cart_position (fst a)) (cart_position (fst b)))))) by (intros; now rewrite acceleration_value, total_scale).
    rewrite (total_ext ss2 _ (fun a => total ss1 (fun b => vscale (snd a) (newton_vector (snd b) (cart_position (fst a)) (cart_position (fst b)))))) by (intros; now rewrite acceleration_value, total_scale).
    apply T. intros a b. rewrite !L, (eucl_sym (cart_position (fst b))). unfold vscale, vsub. cbn [vx vy vz]. apply V3_eq; ring.
  - assert (C : forall ss a, cross (cart_position (fst a)) (vscale (snd a) (acceleration ss (fst a))) =
      total ss (fun b => cross (cart_position (fst a)) (vscale (snd a) (newton_vector (snd b) (cart_position (fst a)) (cart_position (fst b)))))).
    { intros ss a. rewrite acceleration_value, <- total_scale. set (x := cart_position (fst a)). clearbody x. unfold cross, total. cbn [vx vy vz]. unfold Rminus. rewrite !sum_over_plus, !sum_over_scal.
      assert (M : forall c f, sum_over ss (fun b : source => - (c * f b)) = - (c * sum_over ss f)) by (intros c f; rewrite <- (Ropp_involutive (sum_over ss _)); f_equal; rewrite <- sum_over_scal; induction ss as [|s ss IH]; [unfold sum_over; cbn; ring|rewrite !sum_over_cons, <- IH; ring]).
      rewrite !M. reflexivity. }
    unfold torque. rewrite (total_ext ss1 _ _ (fun a _ => C ss2 a)), (total_ext ss2 _ _ (fun a _ => C ss1 a)).
    apply T. intros a b. rewrite !L, (eucl_sym (cart_position (fst b))). unfold cross, vscale, vsub. cbn [vx vy vz]. apply V3_eq; ring.
  - unfold energy. rewrite (sum_over_ext ss1 _ (fun a => sum_over ss2 (fun b => snd a * newton_field "cartesian" "potential" (fst a) b))) by (intros; now rewrite gravity_at_value, sum_over_scal by sup).
    rewrite (sum_over_ext ss2 _ (fun a => sum_over ss1 (fun b => snd a * newton_field "cartesian" "potential" (fst a) b))) by (intros; now rewrite gravity_at_value, sum_over_scal by sup).
    rewrite S. apply sum_over_ext. intros b _. apply sum_over_ext. intros a _. unfold newton_field, newton_field_cartesian. cbn [String.eqb Ascii.eqb Bool.eqb]. unfold newton_potential, Rdiv. rewrite (eucl_sym (cart_position (fst a))). ring.
  - assert (P : supported "spherical" "potential") by (right; split; [reflexivity|now left]).
    unfold energy. rewrite (sum_over_ext ss1 _ (fun a => sum_over ss2 (fun b => snd a * newton_field "spherical" "potential" (fst a) b))) by (intros; now rewrite gravity_at_value, sum_over_scal by exact P).
    rewrite (sum_over_ext ss2 _ (fun a => sum_over ss1 (fun b => snd a * newton_field "spherical" "potential" (fst a) b))) by (intros; now rewrite gravity_at_value, sum_over_scal by exact P).
    rewrite S. apply sum_over_ext. intros b _. apply sum_over_ext. intros a _. unfold newton_field, newton_field_spherical. cbn [String.eqb Ascii.eqb Bool.eqb]. unfold newton_potential, Rdiv. rewrite (eucl_sym (sph_position (fst a))). ring.
Qed.

(** The field of one set of dipoles at the other, projected on the moments, is the same both ways. *)
Theorem C103_dipole_reciprocity mu0 d1 d2 :
  (forall a b, In a d1 -> In b d2 -> cart_position (fst a) <> cart_position (fst b)) -> interaction mu0 d2 d1 = interaction mu0 d1 d2.
Proof.
  intros O. unfold interaction.
  assert (S : forall (B : Type) (l1 l2 : list B) (f : B -> B -> R), sum_over l1 (fun a => sum_over l2 (fun b => f a b)) = sum_over l2 (fun b => sum_over l1 (fun a => f a b))).
  { intros B l1 l2 f. induction l1 as [|a l1 IH]; [unfold sum_over at 1; cbn; symmetry; now apply sum_over_zero|]. rewrite sum_over_cons, IH, <- sum_over_plus. apply sum_over_ext. intros b _. now rewrite sum_over_cons. }
  assert (D : forall l a, off_dipoles (fst a) l -> dot (snd a) (magnetic_at mu0 l (fst a)) = sum_over l (fun b => nano * dot (snd a) (dipole_field mu0 (cart_position (fst a)) (cart_position (fst b)) (snd b)))).
  { intros l a Ha. rewrite magnetic_at_value by exact Ha. rewrite sum_over_scal, <- dot_total. unfold dot, vscale. cbn [vx vy vz]. ring. }
  rewrite (sum_over_ext d1 _ _ (fun a Ha => D d2 a (fun b Hb => O a b Ha Hb))). rewrite (sum_over_ext d2 _ _ (fun b Hb => D d1 b (fun a Ha E => O a b Ha Hb (eq_sym E)))).
  rewrite S. apply sum_over_ext. intros b _. apply sum_over_ext. intros a _. f_equal. unfold dipole_field. cbv zeta.
  assert (N : norm (vsub (cart_position (fst b)) (cart_position (fst a))) = norm (vsub (cart_position (fst a)) (cart_position (fst b)))) by apply eucl_sym. rewrite N.
  unfold dot, vscale, vsub. cbn [vx vy vz]. unfold Rdiv. ring.
Qed.

(** A quarter turn about the vertical. *)
Definition quarter : mat3 := M3 (V3 0 (-1) 0) (V3 1 0 0) (V3 0 0 1).
Example C103_example : orthogonal quarter /\ moved quarter (V3 5 0 0) (1, 2, 3) = (3, 1, 3) /\ turned quarter (0, 0, 7) (90, 0, 7) /\
  moved_masses quarter (V3 5 0 0) [((1, 2, 3), 9)] = [((3, 1, 3), 9)] /\ off_dipoles (1, 2, 3) [((0, 0, 0), V3 1 0 0)] /\
  force [((0, 0, 0), 1)] [((2, 0, 0), 3)] <> V3 0 0 0.
Proof.
  assert (M : moved quarter (V3 5 0 0) (1, 2, 3) = (3, 1, 3)). { unfold moved, motion, point_at, mv, dot, vadd, quarter. cbn. f_equal; [f_equal|]; ring. }
  repeat split.
  - unfold mm, mv, mT, eye, diag, dot, quarter. cbn. f_equal; apply V3_eq; ring.
  - unfold mm, mv, mT, eye, diag, dot, quarter. cbn. f_equal; apply V3_eq; ring.
  - exact M.
  - unfold sph_position, mv, dot, quarter, radians. cbn.
    replace (90 * PI / 180) with (PI / 2) by field. replace (0 * PI / 180) with 0 by field. rewrite cos_PI2, sin_PI2, cos_0, sin_0. apply V3_eq; ring.
  - unfold moved_masses. cbn [map fst snd]. now rewrite M.
  - intros dm [<-|[]] E. cbn in E. injection E. intros. lra.
  - unfold force. rewrite total_cons, acceleration_value, total_cons, !total_nil. intros E. apply (f_equal vx) in E. unfold newton_vector, vadd, vscale, vsub in E. cbn in E.
    assert (F : eucl (V3 2 0 0) (V3 0 0 0) = 2).
    { unfold eucl, norm, dot, vsub. cbn. transitivity (sqrt (2 * 2)); [f_equal; ring|apply sqrt_square; lra]. }
    rewrite F in E. unfold mGal, newton_G in E. lra.
Qed.

Print Assumptions C103_masses_move.
Print Assumptions C103_dipoles_move.
Print Assumptions C103_globe_turns.
Print Assumptions C103_scaling.
Print Assumptions C103_action_and_reaction.
Print Assumptions C103_dipole_reciprocity.
