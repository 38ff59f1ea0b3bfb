(** The gravity field and the demagnetisation tensors in the frame of the sorted axes (C32, C33, C81). *)
From Coquelicot Require Import Coquelicot.
From Coq Require Import Psatz.
From Verif Require Import Base BaseFacts NumPy PointGravityModel EllipsoidModel EllipsoidSpec EllipsoidRotProofs EllipsoidLambdaProofs EllipsoidIntProofs
  EllipsoidShapeProofs EllipsoidFieldProofs.
Local Open Scope R_scope.

Lemma shape_dec a b c : shape_of a b c = Sphere \/ shape_of a b c <> Sphere.
Proof. destruct (shape_of a b c); (left; reflexivity) || (right; discriminate). Qed.

(** ** The local gravity field *)
Definition field_of_integrals (k : R) (A B C : R -> R) (lam : vec3 -> R) (p : vec3) : vec3 :=
  V3 (k * vx p * A (lam p)) (k * vy p * B (lam p)) (k * vz p * C (lam p)).
Definition sphere_field (a b c k : R) (p : vec3) : vec3 :=
  if is_internal p a b c then V3 (k * vx p / a ^ 3) (k * vy p / a ^ 3) (k * vz p / a ^ 3)
  else V3 (k * vx p / norm p ^ 3) (k * vy p / norm p ^ 3) (k * vz p / norm p ^ 3).

Lemma norm_pow p : sqrt (vx p ^ 2 + vy p ^ 2 + vz p ^ 2) = norm p.
Proof. unfold norm, dot. f_equal. ring. Qed.

Lemma gravity_nonsphere a b c : sorted_axes_prop a b c -> shape_of a b c <> Sphere ->
  exists f A B C a' b' c', calculate_lambda a b c = Ok f /\ (forall p, 1 <= level a b c p -> is_lambda a b c p (f p)) /\
    (exists ints, get_elliptical_integrals a b c = Ok ints /\ forall l, ints l = (A l, B l, C l)) /\
    effective a b c = (a', b', c') /\ sorted_axes_prop a' b' c' /\
    primitive a' b' c' a' A /\ primitive a' b' c' b' B /\ primitive a' b' c' c' C /\
    forall rho points, compute_gravity_ellipsoid points a b c rho =
      Ok (map (field_of_integrals (- 2 * PI * a * b * c * G * rho) A B C (lam a b c f)) points).
Proof.
  intros S N. destruct (effective_integrals a b c S N) as (g & A & B & C & a' & b' & c' & F & E & Eff & S2 & PA & PB & PC).
  destruct (calculate_lambda_ok a b c S) as (f & Ef & Hf).
  exists f, A, B, C, a', b', c'. split; [exact Ef|]. split; [exact Hf|]. split; [exists g; split; assumption|]. split; [exact Eff|]. split; [exact S2|]. split; [exact PA|]. split; [exact PB|]. split; [exact PC|].
  intros rho points. unfold compute_gravity_ellipsoid. rewrite check_sorted, sphere_shape by exact S. cbn [bind].
  destruct (shape_of a b c) eqn:X; [exfalso; apply N; reflexivity| | |]; rewrite Ef, F; cbn [bind]; f_equal; apply map_ext; intros p;
    fold (lam a b c f p); rewrite E; reflexivity.
Qed.

Lemma gravity_sphere a b c rho points : sorted_axes_prop a b c -> shape_of a b c = Sphere ->
  compute_gravity_ellipsoid points a b c rho = Ok (map (sphere_field a b c (- 4 / 3 * PI * a ^ 3 * G * rho)) points).
Proof.
  intros S E. unfold compute_gravity_ellipsoid. rewrite check_sorted, sphere_shape, E by exact S. cbn [bind]. f_equal. apply map_ext. intros p.
  unfold sphere_field. rewrite norm_pow. destruct (is_internal p a b c); reflexivity.
Qed.

(** ** Continuity *)
Lemma primitive_derive a b c e g l : primitive a b c e g -> 0 <= l -> is_derive g l (- integrand a b c e l).
Proof. intros [D _]. apply D. Qed.

Lemma integrals_field_continuous a b c f k A B C a' b' c' : sorted_axes_prop a b c -> (forall p, 1 <= level a b c p -> is_lambda a b c p (f p)) ->
  primitive a' b' c' a' A -> primitive a' b' c' b' B -> primitive a' b' c' c' C ->
  forall p, continuous_at (field_of_integrals k A B C (lam a b c f)) p.
Proof.
  intros (Hc & Hb & Ha) Hf PA PB PC p. assert (Pa : 0 < a) by lra. assert (Pb : 0 < b) by lra. assert (FF := near_filter p).
  assert (K : forall (x : vec3 -> R) X e, primitive a' b' c' e X -> filterlim x (near p) (locally (x p)) ->
     filterlim (fun q => k * x q * X (lam a b c f q)) (near p) (locally (k * x p * X (lam a b c f p)))).
  { intros x X e PX Hx. apply (filterlim_ext (fun q => k * (x q * X (lam a b c f q)))); [intros; ring|].
    rewrite Rmult_assoc. apply lim_mult; [apply near_filter | apply lim_const, near_filter |].
    apply (component_cont a b c f Pa Pb Hc Hf X (fun l => - integrand a' b' c' e l)); [intros l Hl; apply (primitive_derive a' b' c' e X l PX Hl) | exact Hx]. }
  apply continuous_at_near; unfold field_of_integrals; cbn [vx vy vz];
    [apply (K vx A a' PA), near_vx | apply (K vy B b' PB), near_vy | apply (K vz C c' PC), near_vz].
Qed.

Lemma norm_continuous p : filterlim norm (near p) (locally (norm p)).
Proof.
  apply lim_intro; [apply near_filter|]. intros eps He. exists eps. split; [exact He|]. intros q Hq.
  assert (T1 := eucl_triangle p q (V3 0 0 0)). assert (T2 := eucl_triangle q p (V3 0 0 0)). rewrite (eucl_sym q p) in T2.
  assert (Z : forall r, eucl r (V3 0 0 0) = norm r).
  { intros [x y z]. unfold eucl, vsub, norm, dot; cbn [vx vy vz]. f_equal. ring. }
  rewrite !Z in T1, T2. lra.
Qed.

Lemma level_sphere a p : 0 < a -> level a a a p = (norm p / a) ^ 2.
Proof.
  intros H. unfold level. replace ((norm p / a) ^ 2) with (norm p * norm p / a ^ 2) by (field; lra). rewrite norm_sqr. unfold dot. field. lra.
Qed.

Lemma sphere_internal a p : 0 < a -> (level a a a p < 1 <-> norm p < a).
Proof.
  intros H. rewrite level_sphere by exact H. assert (N := norm_nonneg p). assert (D : norm p / a * a = norm p) by (field; lra).
  assert (0 <= norm p / a) by (apply Rmult_le_pos; [exact N | left; apply Rinv_0_lt_compat, H]).
  split; intros K.
  - assert (norm p / a < 1) by nra. nra.
  - assert (norm p / a < 1). { apply (Rmult_lt_reg_r a); lra. } nra.
Qed.

Lemma sphere_field_max a k p : 0 < a -> sphere_field a a a k p =
  V3 (k * vx p / Rmax a (norm p) ^ 3) (k * vy p / Rmax a (norm p) ^ 3) (k * vz p / Rmax a (norm p) ^ 3).
Proof.
  intros H. unfold sphere_field. destruct (is_internal p a a a) eqn:I.
  - apply is_internal_level, sphere_internal in I; [|exact H]. rewrite Rmax_left by lra. reflexivity.
  - assert (J : a <= norm p). { apply Rnot_lt_le. intros X. apply sphere_internal, is_internal_level in X; [congruence | exact H]. }
    rewrite Rmax_right by lra. reflexivity.
Qed.

Lemma max_continuous a x : continuous (Rmax a) x.
Proof.
  apply (continuous_ext (fun x => (a + x + Rabs (a - x)) / 2)).
  - intros y. match goal with |- @eq _ ?u ?v => change (@eq R u v) end. unfold Rmax. destruct (Rle_dec a y); [rewrite Rabs_left1 by lra | rewrite Rabs_pos_eq by lra]; field.
  - apply (continuous_mult (fun x => a + x + Rabs (a - x)) (fun _ => / 2)); [|apply continuous_const].
    apply (continuous_plus (fun x => a + x) (fun x => Rabs (a - x))).
    + apply (continuous_plus (fun _ => a) (fun x => x)); [apply continuous_const | apply continuous_id].
    + apply (continuous_comp (fun x => a - x) Rabs); [|apply continuous_Rabs].
      apply (continuous_minus (fun _ => a) (fun x => x)); [apply continuous_const | apply continuous_id].
Qed.

Lemma sphere_field_continuous a k p : 0 < a -> continuous_at (sphere_field a a a k) p.
Proof.
  intros H. assert (FF := near_filter p). assert (M : 0 < Rmax a (norm p)) by (eapply Rlt_le_trans; [exact H | apply Rmax_l]).
  assert (K : forall x : vec3 -> R, filterlim x (near p) (locally (x p)) ->
     filterlim (fun q => k * x q / Rmax a (norm q) ^ 3) (near p) (locally (k * x p / Rmax a (norm p) ^ 3))).
  { intros x Hx. apply lim_div; [apply near_filter | apply pow_nonzero; lra | apply lim_mult; [apply near_filter | apply lim_const, near_filter | exact Hx] |].
    apply (lim_comp (near p) (fun q => Rmax a (norm q)) (fun y => y ^ 3)).
    - apply (lim_comp (near p) norm (Rmax a)); [apply norm_continuous | apply max_continuous].
    - apply (ex_derive_continuous (K := R_AbsRing) (V := R_NormedModule)). auto_derive. exact I. }
  apply continuous_at_near; rewrite sphere_field_max by exact H; cbn [vx vy vz].
  - apply (filterlim_ext (fun q => k * vx q / Rmax a (norm q) ^ 3)); [intros; rewrite sphere_field_max by exact H; reflexivity | apply K, near_vx].
  - apply (filterlim_ext (fun q => k * vy q / Rmax a (norm q) ^ 3)); [intros; rewrite sphere_field_max by exact H; reflexivity | apply K, near_vy].
  - apply (filterlim_ext (fun q => k * vz q / Rmax a (norm q) ^ 3)); [intros; rewrite sphere_field_max by exact H; reflexivity | apply K, near_vz].
Qed.

(** ** Inside *)
Lemma integrals_field_inside a b c f k A B C p : level a b c p < 1 ->
  field_of_integrals k A B C (lam a b c f) p = mv (diag (k * A 0) (k * B 0) (k * C 0)) p.
Proof. intros H. unfold field_of_integrals, mv, diag, dot; cbn [row1 row2 row3 vx vy vz]. rewrite lam_in by exact H. apply V3_eq; ring. Qed.

Lemma sphere_field_inside a b c k p : level a b c p < 1 -> 0 < a -> sphere_field a b c k p = mv (diag (k / a ^ 3) (k / a ^ 3) (k / a ^ 3)) p.
Proof.
  intros H Ha. unfold sphere_field. rewrite (proj2 (is_internal_level p a b c) H). unfold mv, diag, dot; cbn [row1 row2 row3 vx vy vz].
  apply V3_eq; field; lra.
Qed.

(** ** The tensors *)
Lemma fill_tensor_eq d o d' o' : (forall i, d i = d' i) -> (forall i j, o i j = o' i j) -> fill_tensor d o = fill_tensor d' o'.
Proof. intros H K. unfold fill_tensor. rewrite !H, !K. reflexivity. Qed.

(** dl_i times the integrand: symmetric, and its contraction with x is -2/R *)
Lemma external_nonsphere a b c : sorted_axes_prop a b c -> shape_of a b c <> Sphere ->
  exists f A B C a' b' c' ext, calculate_lambda a b c = Ok f /\ (forall p, 1 <= level a b c p -> is_lambda a b c p (f p)) /\
    effective a b c = (a', b', c') /\ sorted_axes_prop a' b' c' /\
    primitive a' b' c' a' A /\ primitive a' b' c' b' B /\ primitive a' b' c' c' C /\
    (forall rho points, compute_gravity_ellipsoid points a b c rho =
      Ok (map (field_of_integrals (- 2 * PI * a * b * c * G * rho) A B C (lam a b c f)) points)) /\
    get_demagnetization_tensor_external a b c = Ok ext /\
    forall p, 1 <= level a b c p ->
      let l := lam a b c f p in let dl := spatial_deriv_lambda p a b c l in
      ext p = mscale (a * b * c / 2)
        (M3 (V3 (- (vx dl * integrand a b c a l * vx p) + A l) (- (vx dl * integrand a b c b l * vy p)) (- (vx dl * integrand a b c c l * vz p)))
            (V3 (- (vy dl * integrand a b c a l * vx p)) (- (vy dl * integrand a b c b l * vy p) + B l) (- (vy dl * integrand a b c c l * vz p)))
            (V3 (- (vz dl * integrand a b c a l * vx p)) (- (vz dl * integrand a b c b l * vy p)) (- (vz dl * integrand a b c c l * vz p) + C l))).
Proof.
  intros S N. destruct (gravity_nonsphere a b c S N) as (f & A & B & C & a' & b' & c' & Ef & Hf & (ints & Ei & Hi) & Eff & S2 & PA & PB & PC & Gr).
  destruct (derivatives_ok a b c S) as (d & Ed & Hd).
  exists f, A, B, C, a', b', c'. eexists. split; [exact Ef|]. split; [exact Hf|]. split; [exact Eff|]. split; [exact S2|]. split; [exact PA|]. split; [exact PB|]. split; [exact PC|].
  split; [exact Gr|]. split.
  - unfold get_demagnetization_tensor_external. rewrite sphere_shape by exact S. cbn [bind].
    destruct (shape_of a b c) eqn:X; [exfalso; apply N; reflexivity| | |]; rewrite Ef, Ei, Ed; cbn [bind]; reflexivity.
  - intros p Hp l dl. destruct S as (Hc & Hb & Ha). destruct (lam_out a b c f Hf p Hp) as (El & Hl & _). fold l in El, Hl.
    cbv beta zeta. rewrite <- El, Hi, Hd by exact Hl. fold dl. unfold fill_tensor, mscale, vscale; cbn [vx vy vz row1 row2 row3].
    f_equal; apply V3_eq; ring.
Qed.

Lemma deriv_lambda_symmetric a b c p l : 0 < a -> 0 < b -> 0 < c -> 0 <= l ->
  let dl := spatial_deriv_lambda p a b c l in
  vx dl * integrand a b c b l * vy p = vy dl * integrand a b c a l * vx p /\
  vx dl * integrand a b c c l * vz p = vz dl * integrand a b c a l * vx p /\
  vy dl * integrand a b c c l * vz p = vz dl * integrand a b c b l * vy p.
Proof.
  intros Ha Hb Hc Hl. assert (A := sq_pos a Ha). assert (B := sq_pos b Hb). assert (C := sq_pos c Hc). assert (R3 := root3_pos a b c l Ha Hb Hc Hl).
  unfold spatial_deriv_lambda, integrand; cbn [vx vy vz]. fold (root3 a b c l).
  set (d := (vx p / (a ^ 2 + l)) ^ 2 + (vy p / (b ^ 2 + l)) ^ 2 + (vz p / (c ^ 2 + l)) ^ 2). set (i := / d).
  unfold Rdiv. fold i. clearbody i. clear d. rewrite !Rinv_mult. repeat split; ring.
Qed.

Lemma deriv_lambda_contraction a b c p l : 0 < a -> 0 < b -> 0 < c -> 0 <= l -> 0 < phi a b c l p ->
  let dl := spatial_deriv_lambda p a b c l in
  vx dl * integrand a b c a l * vx p + vy dl * integrand a b c b l * vy p + vz dl * integrand a b c c l * vz p = 2 / root3 a b c l.
Proof.
  intros Ha Hb Hc Hl H. assert (A := sq_pos a Ha). assert (B := sq_pos b Hb). assert (C := sq_pos c Hc). assert (R3 := root3_pos a b c l Ha Hb Hc Hl).
  assert (D := denom_pos a b c Ha Hb Hc p l Hl H).
  unfold spatial_deriv_lambda, integrand; cbn [vx vy vz]. fold (root3 a b c l).
  set (d := (vx p / (a ^ 2 + l)) ^ 2 + (vy p / (b ^ 2 + l)) ^ 2 + (vz p / (c ^ 2 + l)) ^ 2) in *.
  transitivity (2 * ((vx p / (a ^ 2 + l)) ^ 2 + (vy p / (b ^ 2 + l)) ^ 2 + (vz p / (c ^ 2 + l)) ^ 2) / d / root3 a b c l).
  - clearbody d. field. repeat split; lra.
  - fold d. field. split; lra.
Qed.

Lemma external_sphere a b c : sorted_axes_prop a b c -> shape_of a b c = Sphere -> exists ext, get_demagnetization_tensor_external a b c = Ok ext /\
  forall p, ext p = mscale (- (a ^ 3 / 3))
    (M3 (V3 (3 * vx p ^ 2 / norm p ^ 5 - 1 / norm p ^ 3) (3 * vx p * vy p / norm p ^ 5) (3 * vx p * vz p / norm p ^ 5))
        (V3 (3 * vy p * vx p / norm p ^ 5) (3 * vy p ^ 2 / norm p ^ 5 - 1 / norm p ^ 3) (3 * vy p * vz p / norm p ^ 5))
        (V3 (3 * vz p * vx p / norm p ^ 5) (3 * vz p * vy p / norm p ^ 5) (3 * vz p ^ 2 / norm p ^ 5 - 1 / norm p ^ 3))).
Proof.
  intros S E. eexists. split; [unfold get_demagnetization_tensor_external; rewrite sphere_shape, E by exact S; reflexivity|].
  intros p. cbv beta zeta. rewrite norm_pow. unfold fill_tensor, mscale, vscale; cbn [vx vy vz row1 row2 row3]. reflexivity.
Qed.

(** ** Jacobians *)
Lemma has_gradient_scal (x : vec3 -> R) k p g : has_gradient x p g -> has_gradient (fun q => k * x q) p (vscale k g).
Proof.
  intros H u. replace (dot (vscale k g) u) with (k * dot g u) by (unfold dot, vscale; cbn [vx vy vz]; ring).
  apply (is_derive_scal (fun t => x (vadd p (vscale t u)))). apply H.
Qed.

Lemma integrals_jacobian_out a b c f k A B C a' b' c' p : sorted_axes_prop a b c -> (forall p, 1 <= level a b c p -> is_lambda a b c p (f p)) ->
  primitive a' b' c' a' A -> primitive a' b' c' b' B -> primitive a' b' c' c' C -> 1 < level a b c p ->
  let l := lam a b c f p in let dl := spatial_deriv_lambda p a b c l in
  has_jacobian (field_of_integrals k A B C (lam a b c f)) p
    (mscale k
      (M3 (V3 (- (vx dl * integrand a' b' c' a' l * vx p) + A l) (- (vy dl * integrand a' b' c' a' l * vx p)) (- (vz dl * integrand a' b' c' a' l * vx p)))
          (V3 (- (vx dl * integrand a' b' c' b' l * vy p)) (- (vy dl * integrand a' b' c' b' l * vy p) + B l) (- (vz dl * integrand a' b' c' b' l * vy p)))
          (V3 (- (vx dl * integrand a' b' c' c' l * vz p)) (- (vy dl * integrand a' b' c' c' l * vz p)) (- (vz dl * integrand a' b' c' c' l * vz p) + C l)))).
Proof.
  intros (Hc & Hb & Ha) Hf PA PB PC Hp l dl. assert (Pa : 0 < a) by lra. assert (Pb : 0 < b) by lra.
  assert (K : forall (x : vec3 -> R) X e, (forall q r, x (vadd q r) = x q + x r) -> (forall m q, x (vscale m q) = m * x q) -> primitive a' b' c' e X ->
    forall u, is_derive (fun t => k * x (vadd p (vscale t u)) * X (lam a b c f (vadd p (vscale t u)))) 0
      (k * (x u * X l + x p * (- integrand a' b' c' e l * dot dl u)))).
  { intros x X e X1 X2 PX u. apply (is_derive_ext (fun t => k * (x (vadd p (vscale t u)) * X (lam a b c f (vadd p (vscale t u)))))); [intros; eqR; ring|].
    apply (is_derive_scal (fun t => x (vadd p (vscale t u)) * X (lam a b c f (vadd p (vscale t u))))).
    apply (component_out a b c f Pa Pb Hc Hf X (fun l => - integrand a' b' c' e l)); [intros m Hm; apply (primitive_derive a' b' c' e X m PX Hm) | exact X1 | exact X2 | exact Hp]. }
  split; [|split]; intros u; unfold field_of_integrals, mscale; cbn [vx vy vz row1 row2 row3].
  - match goal with |- is_derive _ _ ?v => replace v with (k * (vx u * A l + vx p * (- integrand a' b' c' a' l * dot dl u))) end.
    + apply (K vx A a'); [reflexivity | reflexivity | exact PA].
    + unfold dot, vscale; cbn [vx vy vz]. ring.
  - match goal with |- is_derive _ _ ?v => replace v with (k * (vy u * B l + vy p * (- integrand a' b' c' b' l * dot dl u))) end.
    + apply (K vy B b'); [reflexivity | reflexivity | exact PB].
    + unfold dot, vscale; cbn [vx vy vz]. ring.
  - match goal with |- is_derive _ _ ?v => replace v with (k * (vz u * C l + vz p * (- integrand a' b' c' c' l * dot dl u))) end.
    + apply (K vz C c'); [reflexivity | reflexivity | exact PC].
    + unfold dot, vscale; cbn [vx vy vz]. ring.
Qed.

Lemma linear_jacobian (g : vec3 -> vec3) M p : near p (fun q => g q = mv M q) -> has_jacobian g p M.
Proof.
  intros H. assert (K : forall (x : vec3 -> R) r, near p (fun q => x (g q) = dot r q) -> has_gradient (fun q => x (g q)) p r).
  { intros x r Hx u. apply (is_derive_ext_loc (fun t => dot r p + t * dot r u)).
    - assert (LN := line_near p u _ Hx). unfold filtermap in LN. revert LN. apply filter_imp. intros t Ht. rewrite Ht. eqR. unfold dot, vadd, vscale; cbn [vx vy vz]. ring.
    - auto_derive; [exact I | ring]. }
  split; [|split]; apply K; revert H; apply filter_imp; intros q ->; reflexivity.
Qed.

Lemma sphere_jacobian_out a b c k p : 0 < a -> 0 < b -> 0 < c -> 1 < level a b c p -> has_jacobian (sphere_field a b c k) p
  (mscale (- k)
    (M3 (V3 (3 * vx p ^ 2 / norm p ^ 5 - 1 / norm p ^ 3) (3 * vx p * vy p / norm p ^ 5) (3 * vx p * vz p / norm p ^ 5))
        (V3 (3 * vy p * vx p / norm p ^ 5) (3 * vy p ^ 2 / norm p ^ 5 - 1 / norm p ^ 3) (3 * vy p * vz p / norm p ^ 5))
        (V3 (3 * vz p * vx p / norm p ^ 5) (3 * vz p * vy p / norm p ^ 5) (3 * vz p ^ 2 / norm p ^ 5 - 1 / norm p ^ 3)))).
Proof.
  intros Ha Hb Hc Hp. assert (P0 : 0 < dot p p).
  { assert (Q := phi_0_pos a b c 0 p (Rle_refl 0)). unfold phi in Q. rewrite !Rplus_0_r in Q. unfold level in Hp. unfold dot. nra. }
  assert (N0 : 0 < norm p) by (apply sqrt_lt_R0, P0).
  assert (DN : forall u, is_derive (fun t => norm (vadd p (vscale t u))) 0 (dot p u / norm p)).
  { intros u. apply (is_derive_ext (fun t => sqrt (dot p p + 2 * t * dot p u + t ^ 2 * dot u u))).
    - intros t. unfold norm. f_equal. eqR. unfold dot, vadd, vscale; cbn [vx vy vz]. ring.
    - auto_derive; replace (dot p p + 2 * 0 * dot p u + 0 * (0 * 1) * dot u u) with (dot p p) by ring; [exact P0|].
      fold (norm p). field. lra. }
  assert (K : forall (x : vec3 -> R), (forall q r, x (vadd q r) = x q + x r) -> (forall m q, x (vscale m q) = m * x q) ->
    forall u, is_derive (fun t => k * x (vadd p (vscale t u)) / norm (vadd p (vscale t u)) ^ 3) 0 (k * (x u / norm p ^ 3 - 3 * x p * dot p u / norm p ^ 5))).
  { intros x X1 X2 u. set (n := fun t => norm (vadd p (vscale t u))) in *. assert (n0 : n 0 = norm p) by (unfold n; rewrite line_0; reflexivity).
    assert (D := DN u). fold n in D.
    apply (is_derive_ext (fun t => k * (x p + t * x u) / n t ^ 3)); [intros; rewrite X1, X2; reflexivity|].
    assert (E : Derive n 0 = dot p u / norm p) by (apply is_derive_unique, D).
    auto_derive.
    - change (n 0) with (n 0). rewrite n0. split; [exists (dot p u / norm p); exact D|]. split; [|exact I]. repeat apply Rmult_integral_contrapositive_currified; lra.
    - change (Derive (fun x0 : R => n x0) 0) with (Derive n 0). replace (Derive n 0) with (dot p u / norm p). rewrite n0. field. lra. }
  assert (EX : near p (fun q => sphere_field a b c k q = V3 (k * vx q / norm q ^ 3) (k * vy q / norm q ^ 3) (k * vz q / norm q ^ 3))).
  { generalize (external_open a b c Ha Hb Hc p Hp). apply filter_imp. intros q Hq. unfold sphere_field.
    destruct (is_internal q a b c) eqn:I; [apply is_internal_level in I; lra | reflexivity]. }
  assert (T : forall (x : vec3 -> R) r, (forall q r, x (vadd q r) = x q + x r) -> (forall m q, x (vscale m q) = m * x q) ->
      near p (fun q => x (sphere_field a b c k q) = k * x q / norm q ^ 3) ->
      (forall u, dot r u = k * (x u / norm p ^ 3 - 3 * x p * dot p u / norm p ^ 5)) -> has_gradient (fun q => x (sphere_field a b c k q)) p r).
  { intros x r X1 X2 Hx Hr u. rewrite Hr. apply (is_derive_ext_loc (fun t => k * x (vadd p (vscale t u)) / norm (vadd p (vscale t u)) ^ 3)); [|apply K; assumption].
    assert (LN := line_near p u _ Hx). unfold filtermap in LN. revert LN. apply filter_imp. intros t Ht. rewrite Ht. reflexivity. }
  split; [|split]; (apply T; [reflexivity | reflexivity | revert EX; apply filter_imp; intros q ->; reflexivity |]);
    intros u; unfold mscale, vscale, dot; cbn [vx vy vz row1 row2 row3]; field; lra.
Qed.
