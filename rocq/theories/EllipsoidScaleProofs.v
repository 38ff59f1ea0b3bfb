(** Proofs about enlarging ellipsoids. *)
From Coquelicot Require Import Coquelicot.
From Coq Require Import Psatz Permutation Classical_Prop.
From Verif Require Import Base BaseFacts NumPy NumPyFacts PointGravityModel EllipsoidModel EllipsoidSpec EllipsoidRotProofs EllipsoidLambdaProofs
  EllipsoidIntProofs EllipsoidShapeProofs EllipsoidFieldProofs EllipsoidLocalProofs EllipsoidTopProofs EllipsoidMagProofs EllipsoidMoveProofs EllipsoidScaleSpec.
Local Open Scope R_scope.

Section Enlarge.
Variable k : R.
Hypothesis Hk : 0 < k.

Lemma Rleb_times x y : Rleb (k * x) (k * y) = Rleb x y.
Proof. destruct (Rleb_spec (k * x) (k * y)), (Rleb_spec x y); auto; nra. Qed.

Lemma desc_times a b c : sorted_desc (k * a) (k * b) (k * c) = sorted_desc a b c.
Proof. unfold sorted_desc. now rewrite !Rleb_times. Qed.

Lemma insert_times x l : insert_desc (k * x) (map (Rmult k) l) = map (Rmult k) (insert_desc x l).
Proof. induction l as [|y l IH]; [reflexivity|]. cbn [map insert_desc]. rewrite Rleb_times. destruct (Rleb y x); [reflexivity|]. cbn [map]. now rewrite IH. Qed.

Lemma sorted_times e a b c : sorted_axes e = Ok (a, b, c) -> sorted_axes (enlarge k e) = Ok (k * a, k * b, k * c).
Proof.
  unfold sorted_axes, enlarge. cbn [ell_a ell_b ell_c].
  assert (E : forall l, sorted_reverse (map (Rmult k) l) = map (Rmult k) (sorted_reverse l)).
  { induction l as [|x l IH]; [reflexivity|]. cbn [map sorted_reverse fold_right] in *. unfold sorted_reverse in IH. rewrite IH. apply insert_times. }
  rewrite (E [ell_a e; ell_b e; ell_c e] : sorted_reverse [k * ell_a e; k * ell_b e; k * ell_c e] = _).
  destruct (sorted_reverse _) as [|x [|y [|z [|w l]]]]; cbn; try discriminate. intros [= -> -> ->]. reflexivity.
Qed.

Lemma rotation_times e : get_semiaxes_rotation_matrix (enlarge k e) = get_semiaxes_rotation_matrix e.
Proof. unfold get_semiaxes_rotation_matrix, enlarge. cbn [ell_a ell_b ell_c]. now rewrite !desc_times. Qed.

Lemma frames_times e : exists q S a b c, q = mm (mT S) (mT (rotation_matrix e)) /\ sorts e S a b c /\
  (forall ps, local_points (map vx ps, map vy ps, map vz ps) e = Ok (map (fun p => mv q (vsub p (ell_center e))) ps, q, S, a, b, c)) /\
  (forall ps, local_points (map vx ps, map vy ps, map vz ps) (enlarge k e) = Ok (map (fun p => mv q (vsub p (ell_center (enlarge k e)))) ps, q, S, k * a, k * b, k * c)).
Proof.
  destruct (semiaxes_rotation e) as (S & a & b & c & HS & Hax & H). exists (mm (mT S) (mT (rotation_matrix e))), S, a, b, c.
  split; [reflexivity|]. split; [exact H|].
  assert (L : forall e' a b c ps, sorted_axes e' = Ok (a, b, c) -> get_semiaxes_rotation_matrix e' = Ok S ->
    local_points (map vx ps, map vy ps, map vz ps) e' = Ok (map (fun p => mv (mm (mT S) (mT (rotation_matrix e'))) (vsub p (ell_center e'))) ps, mm (mT S) (mT (rotation_matrix e')), S, a, b, c)).
  { clear. intros e a b c ps Hax HS. unfold local_points. destruct (ell_center e) as [oe on ou]. rewrite Hax. cbn [bind]. rewrite HS. cbn [bind].
    unfold vstack. rewrite !map_length, !Nat.eqb_refl. cbn [andb bind]. rewrite !map_map, combine3, !map_map. reflexivity. }
  split; intros ps; [now apply L|]. apply (L (enlarge k e)); [now apply sorted_times|]. now rewrite rotation_times.
Qed.

Lemma sorted_prop_times a b c : sorted_axes_prop a b c -> sorted_axes_prop (k * a) (k * b) (k * c).
Proof. intros (H1 & H2 & H3). repeat split; nra. Qed.

Lemma close_times a b : close (k * a) (k * b) = close a b.
Proof.
  unfold close. replace (k * a - k * b) with (k * (a - b)) by ring. rewrite Rabs_mult, (Rabs_pos_eq k) by lra. rewrite RmaxRmult by lra.
  replace (SEMIAXES_RTOL * (k * Rmax a b)) with (k * (SEMIAXES_RTOL * Rmax a b)) by ring. set (x := Rabs (a - b)). set (y := SEMIAXES_RTOL * Rmax a b).
  destruct (Rltb_spec (k * x) (k * y)), (Rltb_spec x y); auto; nra.
Qed.

Lemma shape_times a b c : shape_of (k * a) (k * b) (k * c) = shape_of a b c.
Proof. unfold shape_of. now rewrite !close_times. Qed.

Lemma effective_times a b c a' b' c' : effective a b c = (a', b', c') -> effective (k * a) (k * b) (k * c) = (k * a', k * b', k * c').
Proof. unfold effective. rewrite shape_times. destruct (shape_of a b c); intros [= <- <- <-]; reflexivity. Qed.

Lemma level_times a b c p : level (k * a) (k * b) (k * c) (vscale k p) = level a b c p.
Proof.
  unfold level, vscale; cbn [vx vy vz]. rewrite !Rpow_mult_distr. unfold Rdiv. rewrite !Rinv_mult. set (i := / k ^ 2).
  assert (E : k ^ 2 * i = 1) by (unfold i; apply Rinv_r; nra). set (j := k ^ 2) in *. clearbody i j.
  replace (j * vx p ^ 2 * (i * / a ^ 2)) with ((j * i) * (vx p ^ 2 * / a ^ 2)) by ring.
  replace (j * vy p ^ 2 * (i * / b ^ 2)) with ((j * i) * (vy p ^ 2 * / b ^ 2)) by ring.
  replace (j * vz p ^ 2 * (i * / c ^ 2)) with ((j * i) * (vz p ^ 2 * / c ^ 2)) by ring. rewrite E. ring.
Qed.

Lemma internal_times a b c p : is_internal (vscale k p) (k * a) (k * b) (k * c) = is_internal p a b c.
Proof. assert (E := level_times a b c p). unfold level in E. unfold is_internal. now rewrite E. Qed.

Lemma norm_times p : norm (vscale k p) = k * norm p.
Proof.
  unfold norm, dot, vscale; cbn [vx vy vz]. replace (k * vx p * (k * vx p) + k * vy p * (k * vy p) + k * vz p * (k * vz p)) with (k ^ 2 * (vx p * vx p + vy p * vy p + vz p * vz p)) by ring.
  rewrite sqrt_mult_alt by nra. now rewrite sqrt_pow2 by lra.
Qed.

Lemma integrand_times a b c e l : integrand (k * a) (k * b) (k * c) (k * e) (k ^ 2 * l) = / k ^ 5 * integrand a b c e l.
Proof.
  unfold integrand. replace ((k * e) ^ 2 + k ^ 2 * l) with (k ^ 2 * (e ^ 2 + l)) by ring.
  replace (((k * a) ^ 2 + k ^ 2 * l) * ((k * b) ^ 2 + k ^ 2 * l) * ((k * c) ^ 2 + k ^ 2 * l)) with ((k ^ 3) ^ 2 * ((a ^ 2 + l) * (b ^ 2 + l) * (c ^ 2 + l))) by ring.
  assert (K3 : 0 < k ^ 3) by (apply pow_lt; exact Hk).
  rewrite sqrt_mult_alt by nra. rewrite sqrt_pow2 by lra. set (s := sqrt _). replace (k ^ 2 * (e ^ 2 + l) * (k ^ 3 * s)) with (k ^ 5 * ((e ^ 2 + l) * s)) by ring.
  apply Rinv_mult.
Qed.

Lemma primitive_times a b c e g : primitive (k * a) (k * b) (k * c) (k * e) g -> primitive a b c e (fun l => k ^ 3 * g (k ^ 2 * l)).
Proof.
  assert (K2 : 0 < k ^ 2) by (apply pow_lt; exact Hk). assert (K5 : 0 < k ^ 5) by (apply pow_lt; exact Hk).
  intros [D L]. split.
  - intros l Hl. assert (P : 0 <= k ^ 2 * l) by nra. specialize (D _ P). rewrite integrand_times in D.
    assert (Q : is_derive (fun l => k ^ 2 * l) l (k ^ 2)) by (auto_derive; [exact I|ring]).
    assert (C := is_derive_comp g (fun l => k ^ 2 * l) l _ _ D Q). assert (C' := is_derive_scal _ l (k ^ 3) _ C).
    replace (- integrand a b c e l) with (k ^ 3 * scal (k ^ 2) (- (/ k ^ 5 * integrand a b c e l))); [exact C'|].
    unfold scal; cbn; unfold mult; cbn. field. lra.
  - apply (lim0_scal (k ^ 3) (fun l => g (k ^ 2 * l))). apply (filterlim_comp _ _ _ (fun l => k ^ 2 * l) g _ (Rbar_locally p_infty)); [|exact L].
    intros P [M H]. exists (M / k ^ 2). intros x Hx. apply H. apply (Rmult_lt_reg_r (/ k ^ 2)); [now apply Rinv_0_lt_compat|]. replace (k ^ 2 * x * / k ^ 2) with x by (field; lra). exact Hx.
Qed.

Lemma confocal_times a b c l p : confocal a b c l p -> confocal (k * a) (k * b) (k * c) (k ^ 2 * l) (vscale k p).
Proof.
  intros H. unfold confocal in *. cbn [vscale vx vy vz]. rewrite <- H.
  assert (E : forall x y, (k * x) ^ 2 / ((k * y) ^ 2 + k ^ 2 * l) = x ^ 2 / (y ^ 2 + l)).
  { intros x y. replace ((k * y) ^ 2 + k ^ 2 * l) with (k ^ 2 * (y ^ 2 + l)) by ring. unfold Rdiv. rewrite Rinv_mult. rewrite Rpow_mult_distr.
    replace (k ^ 2 * x ^ 2 * (/ k ^ 2 * / (y ^ 2 + l))) with ((k ^ 2 * / k ^ 2) * (x ^ 2 * / (y ^ 2 + l))) by ring. rewrite Rinv_r by nra. ring. }
  now rewrite !E.
Qed.

Lemma lam_times a b c f f' p : sorted_axes_prop a b c -> (forall p, 1 <= level a b c p -> is_lambda a b c p (f p)) ->
  (forall p, 1 <= level (k * a) (k * b) (k * c) p -> is_lambda (k * a) (k * b) (k * c) p (f' p)) ->
  lam (k * a) (k * b) (k * c) f' (vscale k p) = k ^ 2 * lam a b c f p.
Proof.
  intros S Hf Hf'. unfold lam. rewrite internal_times. destruct (is_internal p a b c) eqn:X; [ring|].
  assert (L : 1 <= level a b c p) by (destruct (Rle_or_lt 1 (level a b c p)) as [L|L]; [exact L | apply is_internal_level in L; congruence]).
  destruct (Hf p L) as [P Q]. destruct (sorted_prop_times a b c S) as (Sc & Sb & Sa).
  apply (is_lambda_unique (k * a) (k * b) (k * c) (vscale k p)); try lra; [apply Hf'; rewrite level_times; exact L|]. split; [nra|]. now apply confocal_times.
Qed.

(** ** The fields in the frame of the sorted axes *)
Lemma integral_times a b c e f g l : primitive a b c e f -> primitive (k * a) (k * b) (k * c) (k * e) g -> 0 <= l -> g (k ^ 2 * l) = / k ^ 3 * f l.
Proof.
  intros F G Hl. assert (E := primitive_unique a b c e f _ l F (primitive_times a b c e g G) Hl). cbv beta in E. rewrite E. field. lra.
Qed.

Lemma gravity_times a b c rho : sorted_axes_prop a b c -> exists g g', gravity_local a b c rho g /\ gravity_local (k * a) (k * b) (k * c) rho g' /\
  forall u, g' (vscale k u) = vscale k (g u).
Proof.
  intros S. assert (S' := sorted_prop_times a b c S). assert (K3 : 0 < k ^ 3) by (apply pow_lt; exact Hk). destruct (shape_dec a b c) as [E|N].
  - exists (sphere_field a b c (- 4 / 3 * PI * a ^ 3 * G * rho)), (sphere_field (k * a) (k * b) (k * c) (- 4 / 3 * PI * (k * a) ^ 3 * G * rho)).
    split; [intros pts; apply gravity_sphere; assumption|]. split; [intros pts; apply gravity_sphere; [assumption|now rewrite shape_times]|].
    intros u. unfold sphere_field. rewrite internal_times, norm_times, !Rpow_mult_distr.
    destruct (is_internal u a b c); unfold vscale; cbn [vx vy vz]; unfold Rdiv; rewrite !Rinv_mult;
      [set (i := / a ^ 3) | set (i := / norm u ^ 3)]; clearbody i; apply V3_eq; field; lra.
  - assert (N' : shape_of (k * a) (k * b) (k * c) <> Sphere) by now rewrite shape_times.
    destruct (gravity_nonsphere a b c S N) as (f & A & B & C & a1 & b1 & c1 & _ & Hf & _ & Eff & _ & PA & PB & PC & Gr).
    destruct (gravity_nonsphere _ _ _ S' N') as (f' & A' & B' & C' & a2 & b2 & c2 & _ & Hf' & _ & Eff' & _ & PA' & PB' & PC' & Gr').
    rewrite (effective_times _ _ _ _ _ _ Eff) in Eff'. injection Eff' as <- <- <-.
    eexists. eexists. split; [intros pts; apply Gr|]. split; [intros pts; apply Gr'|]. intros u. cbv beta.
    unfold field_of_integrals. rewrite (lam_times a b c f f' u S Hf Hf'). assert (Hl := lam_nonneg a b c f u Hf). set (l := lam a b c f u) in *. clearbody l.
    rewrite (integral_times a1 b1 c1 a1 A A' l), (integral_times a1 b1 c1 b1 B B' l), (integral_times a1 b1 c1 c1 C C' l) by assumption.
    unfold vscale; cbn [vx vy vz]. apply V3_eq; field; lra.
Qed.

Lemma internal_tensor_times a b c : sorted_axes_prop a b c -> get_demagnetization_tensor_internal (k * a) (k * b) (k * c) = get_demagnetization_tensor_internal a b c.
Proof.
  intros S. assert (S' := sorted_prop_times a b c S). destruct (shape_dec a b c) as [E|N].
  - unfold get_demagnetization_tensor_internal. rewrite !check_sorted, !sphere_shape, shape_times, E by assumption. reflexivity.
  - assert (N' : shape_of (k * a) (k * b) (k * c) <> Sphere) by now rewrite shape_times.
    assert (Q : forall a b c, sorted_axes_prop a b c -> shape_of a b c <> Sphere -> exists A B C a' b' c', effective a b c = (a', b', c') /\
      primitive a' b' c' a' A /\ primitive a' b' c' b' B /\ primitive a' b' c' c' C /\
      get_demagnetization_tensor_internal a b c = Ok (diag (a' * b' * c' / 2 * A 0) (a' * b' * c' / 2 * B 0) (a' * b' * c' / 2 * C 0))).
    { clear. intros a b c S N. destruct (internal_factors a b c S N) as (f & A & B & C & a' & b' & c' & F & F0 & Eff & I).
      destruct (effective_integrals a b c S N) as (f2 & A' & B' & C' & a2 & b2 & c2 & F2 & E2 & Eff2 & S2 & PA & PB & PC).
      rewrite F in F2. injection F2 as <-. rewrite Eff in Eff2. injection Eff2 as <- <- <-. rewrite E2 in F0. injection F0 as <- <- <-.
      exists A', B', C', a', b', c'. auto. }
    destruct (Q a b c S N) as (A & B & C & a1 & b1 & c1 & Eff & PA & PB & PC & ->).
    destruct (Q _ _ _ S' N') as (A' & B' & C' & a2 & b2 & c2 & Eff' & PA' & PB' & PC' & ->).
    rewrite (effective_times _ _ _ _ _ _ Eff) in Eff'. injection Eff' as <- <- <-.
    assert (Z := integral_times a1 b1 c1 a1 A A' 0 PA PA' (Rle_refl 0)). assert (Z2 := integral_times a1 b1 c1 b1 B B' 0 PB PB' (Rle_refl 0)).
    assert (Z3 := integral_times a1 b1 c1 c1 C C' 0 PC PC' (Rle_refl 0)). rewrite Rmult_0_r in Z, Z2, Z3. rewrite Z, Z2, Z3.
    apply (f_equal Ok). unfold diag. apply M3_eq; try reflexivity; field; lra.
Qed.

Lemma deriv_lambda_times p a b c l : spatial_deriv_lambda (vscale k p) (k * a) (k * b) (k * c) (k ^ 2 * l) = vscale k (spatial_deriv_lambda p a b c l).
Proof.
  rewrite !deriv_lambda_form. cbv zeta.
  assert (E : forall x, / ((k * x) ^ 2 + k ^ 2 * l) = / k ^ 2 * / (x ^ 2 + l)) by (intros x; rewrite <- Rinv_mult; f_equal; ring).
  rewrite !E, !diag_mv. set (i := / (a ^ 2 + l)). set (j := / (b ^ 2 + l)). set (m := / (c ^ 2 + l)). clearbody i j m. unfold vscale, dot; cbn [vx vy vz].
  set (s := i * vx p * (i * vx p) + j * vy p * (j * vy p) + m * vz p * (m * vz p)).
  replace (/ k ^ 2 * i * (k * vx p) * (/ k ^ 2 * i * (k * vx p)) + / k ^ 2 * j * (k * vy p) * (/ k ^ 2 * j * (k * vy p)) + / k ^ 2 * m * (k * vz p) * (/ k ^ 2 * m * (k * vz p)))
    with (/ k ^ 2 * s) by (unfold s; field; lra).
  unfold Rdiv. rewrite Rinv_mult, Rinv_inv. set (t := / s). clearbody t. apply V3_eq; field; lra.
Qed.

Lemma external_tensor_times a b c : sorted_axes_prop a b c -> exists ext ext', get_demagnetization_tensor_external a b c = Ok ext /\
  get_demagnetization_tensor_external (k * a) (k * b) (k * c) = Ok ext' /\ forall p, 1 <= level a b c p -> ext' (vscale k p) = ext p.
Proof.
  intros S. assert (S' := sorted_prop_times a b c S). assert (K3 : 0 < k ^ 3) by (apply pow_lt; exact Hk). destruct (shape_dec a b c) as [E|N].
  - destruct (external_sphere a b c S E) as (ext & H & F). assert (E' : shape_of (k * a) (k * b) (k * c) = Sphere) by now rewrite shape_times.
    destruct (external_sphere _ _ _ S' E') as (ext' & H' & F'). exists ext, ext'. split; [exact H|]. split; [exact H'|]. intros p _. rewrite F, F', norm_times.
    rewrite !Rpow_mult_distr. unfold Rdiv. rewrite !Rinv_mult. set (i := / norm p ^ 5). set (j := / norm p ^ 3). clearbody i j.
    unfold mscale, vscale; cbn [vx vy vz row1 row2 row3]. apply M3_eq; field; lra.
  - assert (N' : shape_of (k * a) (k * b) (k * c) <> Sphere) by now rewrite shape_times.
    destruct (external_nonsphere a b c S N) as (f & A & B & C & a1 & b1 & c1 & ext & _ & Hf & Eff & S2 & PA & PB & PC & _ & H & F).
    destruct (external_nonsphere _ _ _ S' N') as (f' & A' & B' & C' & a2 & b2 & c2 & ext' & _ & Hf' & Eff' & S2' & PA' & PB' & PC' & _ & H' & F').
    rewrite (effective_times _ _ _ _ _ _ Eff) in Eff'. injection Eff' as <- <- <-.
    exists ext, ext'. split; [exact H|]. split; [exact H'|]. intros p Hp. rewrite (F p Hp). rewrite F' by (rewrite level_times; exact Hp). cbv zeta.
    rewrite (lam_times a b c f f' p S Hf Hf'). assert (Hl := lam_nonneg a b c f p Hf). set (l := lam a b c f p) in *. clearbody l.
    rewrite (integral_times a1 b1 c1 a1 A A' l), (integral_times a1 b1 c1 b1 B B' l), (integral_times a1 b1 c1 c1 C C' l) by assumption.
    rewrite deriv_lambda_times, !integrand_times. set (d := spatial_deriv_lambda p a b c l). clearbody d.
    set (i1 := integrand a b c a l). set (i2 := integrand a b c b l). set (i3 := integrand a b c c l). clearbody i1 i2 i3.
    unfold mscale, vscale; cbn [vx vy vz row1 row2 row3]. apply M3_eq; field; lra.
Qed.

(** ** One body *)
Lemma shift_times q p o : mv q (vsub (vscale k p) (vscale k o)) = vscale k (mv q (vsub p o)).
Proof. rewrite <- mv_vscale. apply f_equal. unfold vsub, vscale; cbn [vx vy vz]. apply V3_eq; ring. Qed.

Lemma body_g_times e p : positive_axes e -> body_g (enlarge k e) (vscale k p) = vscale k (body_g e p).
Proof.
  intros P. destruct (ell_density e) as [rho|] eqn:De.
  2: { unfold body_g. change (ell_density (enlarge k e)) with (ell_density e). rewrite De. unfold vscale; cbn [vx vy vz]. apply V3_eq; ring. }
  destruct (frames_times e) as (q & S & a & b & c & Eq & So & LP & LP'). assert (SA := sorts_positive e S a b c So P).
  destruct (gravity_times a b c rho SA) as (g & g' & GL & GL' & E).
  rewrite (body_g_world e rho q S a b c g Eq LP GL De), (body_g_world (enlarge k e) rho q S (k * a) (k * b) (k * c) g' Eq LP' GL' De).
  unfold world. cbn [enlarge ell_center]. rewrite shift_times, E. apply mv_vscale.
Qed.

Lemma body_b_times mu_0 h e : positive_axes e ->
  (solvable mu_0 h e /\ solvable mu_0 h (enlarge k e) /\ forall p, body_b mu_0 h (enlarge k e) (vscale k p) = body_b mu_0 h e p) \/
  (~ solvable mu_0 h e /\ ~ solvable mu_0 h (enlarge k e)).
Proof.
  intros P. assert (HP : has_property (enlarge k e) = has_property e) by reflexivity.
  destruct (has_property e) eqn:HPe.
  2: { left. split; [intros X; congruence|]. split; [intros X; congruence|]. intros p. unfold body_b. now rewrite HP, HPe. }
  destruct (frames_times e) as (q & S & a & b & c & Eq & So & LP & LP'). assert (SA := sorts_positive e S a b c So P).
  assert (SA' := sorted_prop_times a b c SA).
  destruct (internal_ok a b c SA) as (nx & ny & nz & Ei & _). assert (Ei' := internal_tensor_times a b c SA). rewrite Ei in Ei'.
  destruct (external_tensor_times a b c SA) as (ext & ext' & Ee & Ee' & Ce).
  assert (B := single_magnetic mu_0 e (ell_susceptibility e) (ell_remanent e) h q S a b c _ ext SA Eq LP Ei Ee).
  assert (B' := single_magnetic mu_0 (enlarge k e) (ell_susceptibility e) (ell_remanent e) h q S _ _ _ _ ext' SA' Eq LP' Ei' Ee').
  destruct (solve _ _) as [m|x].
  - left. split; [intros _; exists []; apply (B [])|]. split; [intros _; exists []; apply (B' [])|].
    intros p. unfold body_b. rewrite HP, HPe. assert (B1 := B [p]). assert (B1' := B' [vscale k p]). cbn [map] in B1, B1'. rewrite B1.
    change (ell_susceptibility (enlarge k e)) with (ell_susceptibility e). change (ell_remanent (enlarge k e)) with (ell_remanent e). rewrite B1'.
    unfold world. cbn [enlarge ell_center]. rewrite shift_times. set (u := mv q (vsub p (ell_center e))). f_equal. unfold b_local. rewrite internal_times.
    destruct (is_internal u a b c) eqn:I; [reflexivity|]. rewrite Ce; [reflexivity|]. destruct (Rle_or_lt 1 (level a b c u)) as [L|L]; [exact L | apply is_internal_level in L; congruence].
  - right. split; intros X0.
    + destruct (X0 HPe) as (v & Hv). assert (B0 := B []). cbn [map] in B0. congruence.
    + destruct (X0 HP) as (v & Hv). assert (B0 := B' []). cbn [map] in B0. change (ell_susceptibility (enlarge k e)) with (ell_susceptibility e) in Hv. change (ell_remanent (enlarge k e)) with (ell_remanent e) in Hv. congruence.
Qed.

Lemma positive_times l : Forall positive_axes l -> Forall positive_axes (map (enlarge k) l).
Proof. intros F. induction F as [|e l (H1 & H2 & H3) F IH]; constructor; [|exact IH]. unfold positive_axes, enlarge; cbn. repeat split; nra. Qed.

Lemma as_list_times x : as_list (enlarge_arg k x) = map (enlarge k) (as_list x).
Proof. destruct x; reflexivity. Qed.

Lemma vsum_times l p : Forall positive_axes l -> vsum (map (enlarge k) l) (fun e => body_g e (vscale k p)) = vscale k (vsum l (fun e => body_g e p)).
Proof.
  intros F. unfold vsum, vscale at 4. cbn [vx vy vz]. rewrite !sum_over_map, <- !sum_over_scal.
  apply V3_eq; apply sum_over_ext; intros e He; cbv beta; rewrite body_g_times by (rewrite Forall_forall in F; now apply F); reflexivity.
Qed.
End Enlarge.
