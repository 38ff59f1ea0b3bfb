(** Far from an ellipsoid its gravity field is that of a point mass (C91). *)
From Coquelicot Require Import Coquelicot.
From Coq Require Import Psatz Permutation.
From Verif Require Import Base BaseFacts NumPy NumPyFacts PointGravityModel EllipsoidModel EllipsoidSpec EllipsoidRotProofs EllipsoidLambdaProofs
  EllipsoidIntProofs EllipsoidShapeProofs EllipsoidFieldProofs EllipsoidLocalProofs EllipsoidTopProofs EllipsoidMoveProofs.
Local Open Scope R_scope.

(** x^(-3/2) and x^(-5/2) *)
Definition phi3 (x : R) : R := / (x * sqrt x).
Definition phi5 (x : R) : R := / (x ^ 2 * sqrt x).

Lemma phi3_pos x : 0 < x -> 0 < phi3 x.
Proof. intros H. apply Rinv_0_lt_compat, Rmult_lt_0_compat; [exact H | apply sqrt_lt_R0, H]. Qed.
Lemma phi3_le x y : 0 < x -> x <= y -> phi3 y <= phi3 x.
Proof.
  intros H L. assert (sqrt x <= sqrt y) by (apply sqrt_le_1_alt, L). assert (0 < sqrt x) by (apply sqrt_lt_R0, H).
  apply Rinv_le_contravar; [apply Rmult_lt_0_compat; assumption | apply Rmult_le_compat; lra].
Qed.
Lemma phi5_le x y : 0 < x -> x <= y -> phi5 y <= phi5 x.
Proof.
  intros H L. assert (sqrt x <= sqrt y) by (apply sqrt_le_1_alt, L). assert (0 < sqrt x) by (apply sqrt_lt_R0, H).
  apply Rinv_le_contravar; [apply Rmult_lt_0_compat; [apply sq_pos, H | assumption] | apply Rmult_le_compat; nra].
Qed.

Lemma phi3_derive a l : 0 < a + l -> is_derive (fun l => 2 / 3 * phi3 (a + l)) l (- phi5 (a + l)).
Proof.
  intros H. unfold phi3, phi5. assert (S := sqrt_lt_R0 _ H). assert (SS : sqrt (a + l) * sqrt (a + l) = a + l) by (apply sqrt_sqrt; lra).
  auto_derive.
  - split; [exact H|]. split; [apply Rgt_not_eq, Rmult_lt_0_compat; assumption | exact I].
  - set (s := sqrt (a + l)) in *. clearbody s. rewrite <- SS. assert (s <> 0) by lra. field. assumption.
Qed.
Lemma phi3_lim a : filterlim (fun l => 2 / 3 * phi3 (a + l)) (Rbar_locally p_infty) (locally 0).
Proof.
  apply lim0_scal. apply filterlim_locally. intros eps. exists (Rmax (1 - a) (/ eps + 1 - a)). intros x Hx.
  assert (E := cond_pos eps). assert (K1 := Rmax_l (1 - a) (/ eps + 1 - a)). assert (K2 := Rmax_r (1 - a) (/ eps + 1 - a)).
  assert (I : 0 < / eps) by (apply Rinv_0_lt_compat, E). assert (X1 : 1 < a + x) by lra.
  assert (S : 1 <= sqrt (a + x)) by (rewrite <- sqrt_1; apply sqrt_le_1_alt; lra).
  assert (P : 0 < phi3 (a + x)) by (apply phi3_pos; lra).
  unfold ball; cbn; unfold AbsRing_ball, abs, minus, plus, opp; cbn. rewrite Ropp_0, Rplus_0_r, Rabs_pos_eq by lra.
  unfold phi3. rewrite <- (Rinv_inv eps). apply Rinv_lt_contravar; [apply Rmult_lt_0_compat; [exact I | apply Rmult_lt_0_compat; lra] | nra].
Qed.

(** The integrand between its values for two spheres *)
Lemma integrand_between a b c e lo hi u : 0 < lo -> lo <= a <= hi -> lo <= b <= hi -> lo <= c <= hi -> lo <= e <= hi -> 0 <= u ->
  phi5 (hi ^ 2 + u) <= integrand a b c e u <= phi5 (lo ^ 2 + u).
Proof.
  intros Hl [A1 A2] [B1 B2] [C1 C2] [E1 E2] Hu.
  assert (M : forall x y, 0 < x -> x <= y -> 0 < x ^ 2 + u /\ x ^ 2 + u <= y ^ 2 + u) by (intros x y Hx Hxy; nra).
  assert (C : forall x, 0 < x ^ 2 + u -> (x ^ 2 + u) * sqrt (x ^ 2 + u) = sqrt ((x ^ 2 + u) * (x ^ 2 + u) * (x ^ 2 + u))).
  { intros x Hx. rewrite sqrt_mult by nra. rewrite sqrt_square by lra. reflexivity. }
  assert (Up : forall x1 x2 x3 x4 y1 y2 y3 y4, 0 < x1 -> 0 < x2 -> 0 < x3 -> 0 < x4 -> x1 <= y1 -> x2 <= y2 -> x3 <= y3 -> x4 <= y4 ->
     x4 * sqrt (x1 * x2 * x3) <= y4 * sqrt (y1 * y2 * y3) /\ 0 < x4 * sqrt (x1 * x2 * x3)).
  { intros x1 x2 x3 x4 y1 y2 y3 y4 H1 H2 H3 H4 L1 L2 L3 L4. assert (P3 : 0 < x1 * x2 * x3) by (repeat apply Rmult_lt_0_compat; assumption).
    split; [|apply Rmult_lt_0_compat; [assumption | apply sqrt_lt_R0, P3]].
    apply Rmult_le_compat; [lra | apply sqrt_pos | exact L4|]. apply sqrt_le_1_alt.
    assert (0 < x1 * x2) by (apply Rmult_lt_0_compat; assumption). apply Rmult_le_compat; [lra | lra | apply Rmult_le_compat; lra | exact L3]. }
  destruct (M lo a Hl A1) as [Pl La]. destruct (M lo b Hl B1) as [_ Lb]. destruct (M lo c Hl C1) as [_ Lc]. destruct (M lo e Hl E1) as [_ Le].
  assert (Pa : 0 < a) by lra. assert (Pb : 0 < b) by lra. assert (Pc : 0 < c) by lra. assert (Pe : 0 < e) by lra.
  destruct (M a hi Pa A2) as [Qa Ha]. destruct (M b hi Pb B2) as [Qb Hb]. destruct (M c hi Pc C2) as [Qc Hc]. destruct (M e hi Pe E2) as [Qe He].
  unfold integrand, phi5. split.
  - destruct (Up (a ^ 2 + u) (b ^ 2 + u) (c ^ 2 + u) (e ^ 2 + u) (hi ^ 2 + u) (hi ^ 2 + u) (hi ^ 2 + u) (hi ^ 2 + u)) as [L P]; try assumption.
    apply Rinv_le_contravar; [exact P|]. rewrite <- C in L by lra. replace ((hi ^ 2 + u) ^ 2 * sqrt (hi ^ 2 + u)) with ((hi ^ 2 + u) * ((hi ^ 2 + u) * sqrt (hi ^ 2 + u))) by ring. exact L.
  - destruct (Up (lo ^ 2 + u) (lo ^ 2 + u) (lo ^ 2 + u) (lo ^ 2 + u) (a ^ 2 + u) (b ^ 2 + u) (c ^ 2 + u) (e ^ 2 + u)) as [L P]; try assumption.
    rewrite <- C in L, P by lra. apply Rinv_le_contravar.
    + replace ((lo ^ 2 + u) ^ 2 * sqrt (lo ^ 2 + u)) with ((lo ^ 2 + u) * ((lo ^ 2 + u) * sqrt (lo ^ 2 + u))) by ring. exact P.
    + replace ((lo ^ 2 + u) ^ 2 * sqrt (lo ^ 2 + u)) with ((lo ^ 2 + u) * ((lo ^ 2 + u) * sqrt (lo ^ 2 + u))) by ring. exact L.
Qed.

(** A function that decreases to zero is not negative. *)
Lemma nonneg_of_decreasing (f df : R -> R) : (forall l, 0 <= l -> is_derive f l (df l)) -> (forall l, 0 <= l -> df l <= 0) ->
  filterlim f (Rbar_locally p_infty) (locally 0) -> forall l, 0 <= l -> 0 <= f l.
Proof.
  intros D N L l Hl. destruct (Rle_or_lt 0 (f l)) as [H|H]; [exact H|]. exfalso.
  assert (M : forall y, l < y -> f y <= f l).
  { intros y Hy. destruct (MVT_gen f l y df) as (x & Hx & E).
    - intros x Hx. rewrite Rmin_left in Hx by lra. apply D. lra.
    - intros x Hx. rewrite Rmin_left in Hx by lra. apply continuity_pt_filterlim. apply (ex_derive_continuous (K := R_AbsRing) (V := R_NormedModule)).
      exists (df x). apply D. lra.
    - rewrite Rmin_left in Hx by lra. assert (df x <= 0) by (apply N; lra). nra. }
  assert (He : 0 < - f l) by lra. destruct (proj1 (filterlim_locally f 0) L (mkposreal _ He)) as [K HK].
  specialize (HK (Rmax K l + 1)). assert (K1 := Rmax_l K l). assert (K2 := Rmax_r K l).
  assert (H1 : f (Rmax K l + 1) <= f l) by (apply M; lra).
  assert (H2 : ball 0 (- f l) (f (Rmax K l + 1))) by (apply HK; lra).
  unfold ball in H2; cbn in H2; unfold AbsRing_ball, abs, minus, plus, opp in H2; cbn in H2. rewrite Ropp_0, Rplus_0_r in H2.
  apply Rabs_lt_between in H2. lra.
Qed.

Lemma primitive_between a b c e g lo hi l : 0 < lo -> lo <= a <= hi -> lo <= b <= hi -> lo <= c <= hi -> lo <= e <= hi -> primitive a b c e g -> 0 <= l ->
  2 / 3 * phi3 (hi ^ 2 + l) <= g l <= 2 / 3 * phi3 (lo ^ 2 + l).
Proof.
  intros Hlo Ha Hb Hc He [D L] Hl. assert (Hh : 0 < hi) by lra. assert (P1 := sq_pos lo Hlo). assert (P2 := sq_pos hi Hh).
  assert (I := integrand_between a b c e lo hi). split.
  - assert (X : 0 <= g l + -1 * (2 / 3 * phi3 (hi ^ 2 + l))); [|lra].
    apply (nonneg_of_decreasing (fun l => g l + -1 * (2 / 3 * phi3 (hi ^ 2 + l))) (fun l => - integrand a b c e l + -1 * - phi5 (hi ^ 2 + l))).
    + intros m Hm. apply (is_derive_plus g (fun l => -1 * (2 / 3 * phi3 (hi ^ 2 + l)))); [apply D, Hm|]. apply (is_derive_scal (fun l => 2 / 3 * phi3 (hi ^ 2 + l))), phi3_derive. lra.
    + intros m Hm. destruct (I m Hlo Ha Hb Hc He Hm). lra.
    + apply lim0_plus; [exact L | apply lim0_scal, phi3_lim].
    + exact Hl.
  - assert (X : 0 <= 2 / 3 * phi3 (lo ^ 2 + l) + -1 * g l); [|lra].
    apply (nonneg_of_decreasing (fun l => 2 / 3 * phi3 (lo ^ 2 + l) + -1 * g l) (fun l => - phi5 (lo ^ 2 + l) + -1 * - integrand a b c e l)).
    + intros m Hm. apply (is_derive_plus (fun l => 2 / 3 * phi3 (lo ^ 2 + l)) (fun l => -1 * g l)); [apply phi3_derive; lra|]. apply (is_derive_scal g), D, Hm.
    + intros m Hm. destruct (I m Hlo Ha Hb Hc He Hm). lra.
    + apply lim0_plus; [apply phi3_lim | apply lim0_scal, L].
    + exact Hl.
Qed.

Lemma phi3_gap x y : 0 < x -> x <= y -> phi3 x - phi3 y <= 3 / 2 * (y - x) * phi5 x.
Proof.
  intros Hx L. assert (Hy : 0 < y) by lra. unfold phi3, phi5.
  assert (S1 := sqrt_lt_R0 _ Hx). assert (S2 := sqrt_lt_R0 _ Hy). assert (E1 := sqrt_sqrt x (Rlt_le _ _ Hx)). assert (E2 := sqrt_sqrt y (Rlt_le _ _ Hy)).
  assert (L2 := sqrt_le_1_alt x y L). set (s := sqrt x) in *. set (t := sqrt y) in *. clearbody s t. rewrite <- E1, <- E2. clear E1 E2 L Hx Hy.
  apply Rminus_le. assert (E : / (s * s * s) - / (t * t * t) - 3 / 2 * (t * t - s * s) * / ((s * s) ^ 2 * s) =
    - ((t - s) * (3 * t ^ 3 * (t + s) - 2 * s ^ 2 * (t ^ 2 + t * s + s ^ 2)) / (2 * s ^ 5 * t ^ 3))) by (field; split; lra).
  rewrite E. assert (0 < 2 * s ^ 5 * t ^ 3) by (assert (0 < s ^ 5) by (apply pow_lt, S1); assert (0 < t ^ 3) by (apply pow_lt, S2); nra).
  assert (K : 0 <= 3 * t ^ 3 * (t + s) - 2 * s ^ 2 * (t ^ 2 + t * s + s ^ 2)).
  { assert (Q1 : s ^ 2 <= t ^ 2) by nra. assert (Q2 : 0 < s * t) by nra. assert (Q3 : 0 < s ^ 2) by nra.
    assert (R1 : s ^ 2 * t ^ 2 <= t ^ 2 * t ^ 2) by (apply Rmult_le_compat_r; lra). assert (R2 : s ^ 2 * (s * t) <= t ^ 2 * (s * t)) by (apply Rmult_le_compat_r; lra).
    assert (R3 : s ^ 2 * s ^ 2 <= s ^ 2 * t ^ 2) by (apply Rmult_le_compat_l; lra). assert (R4 : s ^ 2 * s ^ 2 <= s ^ 2 * (s * t)) by (apply Rmult_le_compat_l; nra). lra. }
  assert (0 <= (t - s) * (3 * t ^ 3 * (t + s) - 2 * s ^ 2 * (t ^ 2 + t * s + s ^ 2))) by (apply Rmult_le_pos; lra).
  assert (0 <= (t - s) * (3 * t ^ 3 * (t + s) - 2 * s ^ 2 * (t ^ 2 + t * s + s ^ 2)) / (2 * s ^ 5 * t ^ 3)) by (apply Rmult_le_pos; [assumption | left; apply Rinv_0_lt_compat; assumption]).
  lra.
Qed.

(** The confocal ellipsoid through a point, from the distance to the centre *)
Lemma lambda_between a b c p l : sorted_axes_prop a b c -> is_lambda a b c p l -> dot p p - a ^ 2 <= l <= dot p p - c ^ 2.
Proof.
  intros (Hc & Hb & Ha) [Hl Hp]. unfold confocal in Hp. assert (C2 := sq_pos c Hc). assert (B2 : c ^ 2 <= b ^ 2) by nra. assert (A2 : b ^ 2 <= a ^ 2) by nra.
  assert (K : forall x lo mid hi, 0 < lo -> lo <= mid -> mid <= hi -> 0 <= x -> x * / hi <= x * / mid <= x * / lo).
  { intros x lo mid hi H1 H2 H3 H4. split; apply Rmult_le_compat_l; try assumption; apply Rinv_le_contravar; lra. }
  unfold Rdiv in Hp. assert (X := sq_nonneg (vx p)). assert (Y := sq_nonneg (vy p)). assert (Z := sq_nonneg (vz p)).
  destruct (K (vx p ^ 2) (c ^ 2 + l) (a ^ 2 + l) (a ^ 2 + l)) as [X1 X2]; try lra.
  destruct (K (vy p ^ 2) (c ^ 2 + l) (b ^ 2 + l) (a ^ 2 + l)) as [Y1 Y2]; try lra.
  destruct (K (vz p ^ 2) (c ^ 2 + l) (c ^ 2 + l) (a ^ 2 + l)) as [Z1 Z2]; try lra.
  assert (D : dot p p = vx p ^ 2 + vy p ^ 2 + vz p ^ 2) by (unfold dot; ring).
  assert (U : dot p p * / (a ^ 2 + l) <= 1) by (rewrite D; lra). assert (V : 1 <= dot p p * / (c ^ 2 + l)) by (rewrite D; lra).
  assert (U' : dot p p * / (a ^ 2 + l) * (a ^ 2 + l) = dot p p) by (field; lra). assert (V' : dot p p * / (c ^ 2 + l) * (c ^ 2 + l) = dot p p) by (field; lra).
  assert (dot p p * / (a ^ 2 + l) * (a ^ 2 + l) <= 1 * (a ^ 2 + l)) by (apply Rmult_le_compat_r; lra).
  assert (1 * (c ^ 2 + l) <= dot p p * / (c ^ 2 + l) * (c ^ 2 + l)) by (apply Rmult_le_compat_r; lra). lra.
Qed.

Lemma norm_diag x y z D p : Rabs x <= D -> Rabs y <= D -> Rabs z <= D -> norm (V3 (x * vx p) (y * vy p) (z * vz p)) <= D * norm p.
Proof.
  intros Hx Hy Hz. assert (HD : 0 <= D) by (assert (H := Rabs_pos x); lra). unfold norm.
  rewrite <- (sqrt_square D) by exact HD. rewrite <- sqrt_mult_alt by nra. apply sqrt_le_1_alt. unfold dot; cbn [vx vy vz].
  assert (K : forall w, Rabs w <= D -> w * w <= D * D) by (intros w Hw; rewrite <- (Rabs_pos_eq (w * w)) by nra; rewrite Rabs_mult; assert (H := Rabs_pos w); nra).
  assert (X := K x Hx). assert (Y := K y Hy). assert (Z := K z Hz). assert (SX := sq_nonneg (vx p)). assert (SY := sq_nonneg (vy p)). assert (SZ := sq_nonneg (vz p)). nra.
Qed.

(** ** The field in the frame of the sorted axes *)
Lemma norm_zero_iff p : 0 < norm p -> 0 < dot p p.
Proof. intros H. rewrite <- norm_sqr. nra. Qed.

Lemma phi3_norm p : phi3 (dot p p) = / norm p ^ 3.
Proof. unfold phi3. rewrite <- (norm_sqr p). rewrite sqrt_square by apply norm_nonneg. f_equal. ring. Qed.

Lemma far_outside a b c p : sorted_axes_prop a b c -> a <= norm p -> 1 <= level a b c p.
Proof.
  intros S H. destruct (level_lower a b c p S) as [L _]. destruct S as (Hc & Hb & Ha). assert (Pa : 0 < a) by lra. assert (A2 := sq_pos a Pa).
  rewrite <- norm_sqr in L. assert (E : / a ^ 2 * (a * a) = 1) by (field; lra). assert (a * a <= norm p * norm p) by nra.
  assert (/ a ^ 2 * (a * a) <= / a ^ 2 * (norm p * norm p)) by (apply Rmult_le_compat_l; [left; apply Rinv_0_lt_compat, A2 | assumption]). lra.
Qed.

Lemma effective_within a b c a' b' c' : sorted_axes_prop a b c -> effective a b c = (a', b', c') -> c <= a' <= a /\ c <= b' <= a /\ c <= c' <= a.
Proof. intros (Hc & Hb & Ha). unfold effective. destruct (shape_of a b c); intros [= <- <- <-]; lra. Qed.

(** The bounds on a^2 + l, b^2 + l and c^2 + l at a distant point *)
Lemma lam_between a b c f p d : sorted_axes_prop a b c -> (forall p, 1 <= level a b c p -> is_lambda a b c p (f p)) -> a ^ 2 - c ^ 2 <= d -> a <= norm p ->
  let l := lam a b c f p in 0 <= l /\ dot p p - d <= c ^ 2 + l /\ a ^ 2 + l <= dot p p + d.
Proof.
  intros S Hf Hd Hp l. assert (O := far_outside a b c p S Hp).
  destruct (lam_out a b c f Hf p O) as (El & Hl & _). fold l in El, Hl. destruct (lambda_between a b c p l S) as [L1 L2]; [rewrite El; apply Hf, O|]. lra.
Qed.

Lemma integral_far a b c f e g p d : sorted_axes_prop a b c -> shape_of a b c <> Sphere -> (forall p, 1 <= level a b c p -> is_lambda a b c p (f p)) ->
  a ^ 2 - c ^ 2 <= d -> a <= norm p -> d < dot p p -> forall a' b' c', effective a b c = (a', b', c') -> primitive a' b' c' e g -> c <= e <= a ->
  2 / 3 * phi3 (dot p p + d) <= g (lam a b c f p) <= 2 / 3 * phi3 (dot p p - d).
Proof.
  intros S N Hf Hd Hp HD a' b' c' Eff P He. destruct (lam_between a b c f p d S Hf Hd Hp) as (L0 & L1 & L2).
  destruct (effective_within a b c a' b' c' S Eff) as (Wa & Wb & Wc). assert (S' := S). destruct S' as (Hc & Hb & Ha).
  destruct (primitive_between a' b' c' e g c a (lam a b c f p) Hc Wa Wb Wc He P L0) as [B1 B2]. assert (A2 := sq_pos a ltac:(lra)). split.
  - assert (phi3 (dot p p + d) <= phi3 (a ^ 2 + lam a b c f p)) by (apply phi3_le; lra). lra.
  - assert (phi3 (c ^ 2 + lam a b c f p) <= phi3 (dot p p - d)) by (apply phi3_le; lra). lra.
Qed.

Lemma between_abs x y lo hi : lo <= x <= hi -> lo <= y <= hi -> Rabs (x - y) <= hi - lo.
Proof. intros. apply Rabs_le. lra. Qed.

Lemma gravity_far a b c rho d : sorted_axes_prop a b c -> (shape_of a b c <> Sphere \/ (a = b /\ b = c)) -> a ^ 2 - c ^ 2 <= d ->
  exists g, gravity_local a b c rho g /\ forall p, a <= norm p -> d < dot p p ->
    norm (vsub (g p) (vscale (- (4 / 3 * PI * a * b * c * G * rho) / norm p ^ 3) p)) <= Rabs (4 / 3 * PI * a * b * c * G * rho) * (phi3 (dot p p - d) - phi3 (dot p p + d)) * norm p.
Proof.
  intros S H Hd. assert (S' := S). destruct S' as (Hc & Hb & Ha). assert (D0 : 0 <= d) by nra. set (K := 4 / 3 * PI * a * b * c * G * rho).
  destruct (shape_dec a b c) as [E|N].
  - destruct H as [H | (<- & <-)]; [contradiction|]. exists (sphere_field a a a (- 4 / 3 * PI * a ^ 3 * G * rho)). split; [intros pts; apply gravity_sphere; assumption|].
    intros p Hp HD. unfold sphere_field. assert (O := far_outside a a a p S Hp).
    destruct (is_internal p a a a) eqn:I; [apply is_internal_level in I; lra|].
    replace (vsub _ _) with (V3 0 0 0) by (unfold vsub, vscale, K; cbn [vx vy vz]; apply V3_eq; field; lra).
    replace (norm (V3 0 0 0)) with 0 by (unfold norm, dot; cbn [vx vy vz]; rewrite Rmult_0_r, !Rplus_0_r, sqrt_0; reflexivity).
    apply Rmult_le_pos; [|apply norm_nonneg]. apply Rmult_le_pos; [apply Rabs_pos|]. assert (phi3 (dot p p + d) <= phi3 (dot p p - d)) by (apply phi3_le; lra). lra.
  - destruct (gravity_nonsphere a b c S N) as (f & A & B & C & a' & b' & c' & Ef & Hf & _ & Eff & S2 & PA & PB & PC & Gr).
    eexists. split; [intros pts; apply Gr|]. cbv beta. intros p Hp HD. destruct (effective_within a b c a' b' c' S Eff) as (Wa & Wb & Wc).
    set (lo := phi3 (dot p p + d)). set (hi := phi3 (dot p p - d)).
    assert (M : 2 / 3 * lo <= 2 / 3 * phi3 (dot p p) <= 2 / 3 * hi).
    { assert (lo <= phi3 (dot p p)) by (apply phi3_le; lra). assert (phi3 (dot p p) <= hi) by (apply phi3_le; lra). lra. }
    assert (Q : forall e g, primitive a' b' c' e g -> c <= e <= a -> Rabs (g (lam a b c f p) - 2 / 3 * phi3 (dot p p)) <= 2 / 3 * (hi - lo)).
    { intros e g P We. replace (2 / 3 * (hi - lo)) with (2 / 3 * hi - 2 / 3 * lo) by ring. apply between_abs; [|exact M].
      apply (integral_far a b c f e g p d S N Hf Hd Hp HD a' b' c' Eff P We). }
    unfold field_of_integrals. set (l := lam a b c f p) in *. replace (- 2 * PI * a * b * c * G * rho) with (- (3 / 2) * K) by (unfold K; field).
    assert (NP : norm p <> 0) by lra.
    replace (vsub _ _) with (V3 (- (3 / 2) * K * (A l - 2 / 3 * phi3 (dot p p)) * vx p) (- (3 / 2) * K * (B l - 2 / 3 * phi3 (dot p p)) * vy p) (- (3 / 2) * K * (C l - 2 / 3 * phi3 (dot p p)) * vz p)).
    + assert (X : forall x, Rabs x <= 2 / 3 * (hi - lo) -> Rabs (- (3 / 2) * K * x) <= Rabs K * (hi - lo)).
      { intros x Hx. rewrite !Rabs_mult, Rabs_Ropp, (Rabs_pos_eq (3 / 2)) by lra. assert (Kp := Rabs_pos K). nra. }
      apply norm_diag; apply X; [apply (Q a') | apply (Q b') | apply (Q c')]; assumption.
    + rewrite phi3_norm. unfold vsub, vscale; cbn [vx vy vz]. apply V3_eq; field; exact NP.
Qed.

Lemma norm_vadd u v : norm (vadd u v) <= norm u + norm v.
Proof.
  assert (T := eucl_triangle u (V3 0 0 0) (vscale (- 1) v)). unfold eucl in T.
  replace (vsub u (vscale (- 1) v)) with (vadd u v) in T by (unfold vsub, vadd, vscale; cbn [vx vy vz]; apply V3_eq; ring).
  assert (E1 : vsub u (V3 0 0 0) = u) by (destruct u as [x y z]; unfold vsub; cbn [vx vy vz]; apply V3_eq; ring).
  assert (E2 : vsub (V3 0 0 0) (vscale (- 1) v) = v) by (destruct v as [x y z]; unfold vsub, vscale; cbn [vx vy vz]; apply V3_eq; ring).
  rewrite E1, E2 in T. exact T.
Qed.
Lemma norm_vscale k u : norm (vscale k u) = Rabs k * norm u.
Proof.
  unfold norm. replace (dot (vscale k u) (vscale k u)) with (k * k * dot u u) by (unfold dot, vscale; cbn [vx vy vz]; ring).
  rewrite sqrt_mult_alt by nra. f_equal. apply sqrt_Rsqr_abs.
Qed.
Lemma abs_cauchy p m : Rabs (vx p) * Rabs (vx m) + Rabs (vy p) * Rabs (vy m) + Rabs (vz p) * Rabs (vz m) <= norm p * norm m.
Proof.
  set (p' := V3 (Rabs (vx p)) (Rabs (vy p)) (Rabs (vz p))). set (m' := V3 (Rabs (vx m)) (Rabs (vy m)) (Rabs (vz m))).
  assert (C := cauchy_schwarz_norm p' m'). assert (A := Rle_abs (dot p' m')).
  assert (Sq : forall x, Rabs x * Rabs x = x * x) by (intros x; rewrite <- Rabs_mult; apply Rabs_pos_eq; nra).
  assert (Ep : norm p' = norm p) by (unfold norm, dot, p'; cbn [vx vy vz]; rewrite !Sq; reflexivity).
  assert (Em : norm m' = norm m) by (unfold norm, dot, m'; cbn [vx vy vz]; rewrite !Sq; reflexivity).
  rewrite Ep, Em in C. unfold dot, p', m' in A, C; cbn [vx vy vz] in A, C. lra.
Qed.

(** The factor of x_i x_j in the external tensor *)
Lemma factor_between (x1 x2 x3 r2 lo hi i1 i2 i3 : R) : 0 < lo -> x1 ^ 2 + x2 ^ 2 + x3 ^ 2 = r2 -> 0 < r2 ->
  lo <= i1 <= hi -> lo <= i2 <= hi -> lo <= i3 <= hi ->
  forall j k, (j = i1 \/ j = i2 \/ j = i3) -> (k = i1 \/ k = i2 \/ k = i3) ->
  lo ^ 2 / (hi ^ 2 * r2) * phi3 hi <= / j * / k * (/ sqrt (i1 * i2 * i3)) * / ((x1 / i1) ^ 2 + (x2 / i2) ^ 2 + (x3 / i3) ^ 2) <= hi ^ 2 / (lo ^ 2 * r2) * phi3 lo.
Proof.
  intros Hlo Hr Hr0 [A1 A2] [B1 B2] [C1 C2] j k Hj Hk. assert (Hhi : 0 < hi) by lra.
  assert (J : lo <= j <= hi) by (destruct Hj as [-> | [-> | ->]]; lra). assert (K : lo <= k <= hi) by (destruct Hk as [-> | [-> | ->]]; lra).
  assert (IJ : / hi <= / j <= / lo) by (split; apply Rinv_le_contravar; lra). assert (IK : / hi <= / k <= / lo) by (split; apply Rinv_le_contravar; lra).
  assert (Ph : 0 < / hi) by (apply Rinv_0_lt_compat, Hhi). assert (Pl : 0 < / lo) by (apply Rinv_0_lt_compat, Hlo).
  assert (Cube : forall x, 0 < x -> x * sqrt x = sqrt (x * x * x)) by (intros x Hx; rewrite (sqrt_mult (x * x)) by nra; rewrite sqrt_square by lra; reflexivity).
  assert (L2 : 0 < lo * lo) by nra. assert (P1 : lo * lo <= i1 * i2) by nra. assert (P2 : i1 * i2 <= hi * hi) by nra.
  assert (Sl : lo * sqrt lo <= sqrt (i1 * i2 * i3)) by (rewrite Cube by exact Hlo; apply sqrt_le_1_alt, Rmult_le_compat; nra).
  assert (Sh : sqrt (i1 * i2 * i3) <= hi * sqrt hi) by (rewrite Cube by exact Hhi; apply sqrt_le_1_alt, Rmult_le_compat; nra).
  assert (Q0 : 0 < lo * sqrt lo) by (apply Rmult_lt_0_compat; [exact Hlo | apply sqrt_lt_R0, Hlo]).
  assert (IS : phi3 hi <= / sqrt (i1 * i2 * i3) <= phi3 lo) by (unfold phi3; split; apply Rinv_le_contravar; lra).
  assert (Ph3 := phi3_pos hi Hhi). assert (Pl3 := phi3_pos lo Hlo).
  assert (T : forall x i, lo <= i <= hi -> x ^ 2 * / hi ^ 2 <= (x / i) ^ 2 <= x ^ 2 * / lo ^ 2).
  { intros x i [I1 I2]. replace ((x / i) ^ 2) with (x ^ 2 * / i ^ 2) by (field; lra). assert (X := sq_nonneg x).
    split; apply Rmult_le_compat_l; try exact X; apply Rinv_le_contravar; nra. }
  destruct (T x1 i1 (conj A1 A2)) as [T1 T1']. destruct (T x2 i2 (conj B1 B2)) as [T2 T2']. destruct (T x3 i3 (conj C1 C2)) as [T3 T3'].
  set (v2 := (x1 / i1) ^ 2 + (x2 / i2) ^ 2 + (x3 / i3) ^ 2). assert (Ih : 0 < / hi ^ 2) by (apply Rinv_0_lt_compat; nra). assert (Il : 0 < / lo ^ 2) by (apply Rinv_0_lt_compat; nra).
  assert (V1 : r2 * / hi ^ 2 <= v2) by (unfold v2; rewrite <- Hr; lra). assert (V2 : v2 <= r2 * / lo ^ 2) by (unfold v2; rewrite <- Hr; lra).
  assert (V0 : 0 < r2 * / hi ^ 2) by (apply Rmult_lt_0_compat; assumption).
  assert (IV1 : / v2 <= / (r2 * / hi ^ 2)) by (apply Rinv_le_contravar; lra). assert (IV2 : / (r2 * / lo ^ 2) <= / v2) by (apply Rinv_le_contravar; lra).
  assert (E1 : / (r2 * / hi ^ 2) = hi ^ 2 / r2) by (field; split; lra). assert (E2 : / (r2 * / lo ^ 2) = lo ^ 2 / r2) by (field; split; lra). rewrite E1 in IV1. rewrite E2 in IV2.
  assert (W2 : 0 < lo ^ 2 / r2) by (apply Rdiv_lt_0_compat; nra).
  replace (lo ^ 2 / (hi ^ 2 * r2) * phi3 hi) with (/ hi * / hi * phi3 hi * (lo ^ 2 / r2)) by (field; split; lra).
  replace (hi ^ 2 / (lo ^ 2 * r2) * phi3 lo) with (/ lo * / lo * phi3 lo * (hi ^ 2 / r2)) by (field; split; lra).
  destruct IJ as [IJ1 IJ2], IK as [IK1 IK2], IS as [IS1 IS2].
  assert (M1 : / hi * / hi <= / j * / k) by (apply Rmult_le_compat; lra). assert (M2 : / j * / k <= / lo * / lo) by (apply Rmult_le_compat; lra).
  assert (Z1 : 0 < / hi * / hi) by (apply Rmult_lt_0_compat; assumption).
  assert (N1 : / hi * / hi * phi3 hi <= / j * / k * / sqrt (i1 * i2 * i3)) by (apply Rmult_le_compat; lra).
  assert (N2 : / j * / k * / sqrt (i1 * i2 * i3) <= / lo * / lo * phi3 lo) by (apply Rmult_le_compat; lra).
  assert (Z2 : 0 < / hi * / hi * phi3 hi) by (apply Rmult_lt_0_compat; assumption).
  split; apply Rmult_le_compat; lra.
Qed.

(** The field of a dipole with unit magnetic constant, in a form without 4 pi *)
Definition dipole_form (p m : vec3) : vec3 := vsub (vscale (/ norm p ^ 3) m) (vscale (3 * dot p m / norm p ^ 5) p).

Definition dipole_error (r2 d : R) : R := (phi3 (r2 - d) - phi3 (r2 + d)) / 3 + ((r2 + d) ^ 2 / (r2 - d) ^ 2 * phi3 (r2 - d) - (r2 - d) ^ 2 / (r2 + d) ^ 2 * phi3 (r2 + d)).

Lemma external_far a b c d : sorted_axes_prop a b c -> (shape_of a b c <> Sphere \/ (a = b /\ b = c)) -> a ^ 2 - c ^ 2 <= d ->
  exists ext, get_demagnetization_tensor_external a b c = Ok ext /\ forall p m, a <= norm p -> d < dot p p ->
    norm (vsub (mv (ext p) m) (vscale (a * b * c / 3) (dipole_form p m))) <= a * b * c * dipole_error (dot p p) d * norm m.
Proof.
  intros S H Hd. assert (S' := S). destruct S' as (Hc & Hb & Ha). assert (Pa : 0 < a) by lra. assert (Pb : 0 < b) by lra. assert (D0 : 0 <= d) by nra.
  assert (V0 : 0 < a * b * c) by (repeat apply Rmult_lt_0_compat; assumption).
  destruct (shape_dec a b c) as [E|N].
  - destruct H as [H | (<- & <-)]; [contradiction|]. destruct (external_sphere a a a S E) as (ext & Ee & F). exists ext. split; [exact Ee|].
    intros p m Hp HD. replace (vsub _ _) with (V3 0 0 0).
    + replace (norm (V3 0 0 0)) with 0 by (unfold norm, dot; cbn [vx vy vz]; rewrite Rmult_0_r, !Rplus_0_r, sqrt_0; reflexivity).
      apply Rmult_le_pos; [|apply norm_nonneg]. apply Rmult_le_pos; [lra|]. unfold dipole_error. set (r2 := dot p p) in *.
      assert (L : phi3 (r2 + d) <= phi3 (r2 - d)) by (apply phi3_le; lra). assert (P3 := phi3_pos (r2 + d) ltac:(lra)).
      assert (Q1 : 1 <= (r2 + d) ^ 2 / (r2 - d) ^ 2). { apply (Rmult_le_reg_r ((r2 - d) ^ 2)); [apply sq_pos; lra|]. unfold Rdiv. rewrite Rmult_assoc, Rinv_l by (assert (X := sq_pos (r2 - d) ltac:(lra)); lra). nra. }
      assert (Q2 : (r2 - d) ^ 2 / (r2 + d) ^ 2 <= 1). { apply (Rmult_le_reg_r ((r2 + d) ^ 2)); [apply sq_pos; lra|]. unfold Rdiv. rewrite Rmult_assoc, Rinv_l by (assert (X := sq_pos (r2 + d) ltac:(lra)); lra). nra. }
      nra.
    + rewrite F. assert (NP : norm p <> 0) by lra. unfold dipole_form. rewrite mv_mscale. set (h := norm p) in *. clearbody h.
      unfold vsub, vscale, mv, dot; cbn [vx vy vz row1 row2 row3]. apply V3_eq; field; exact NP.
  - destruct (external_nonsphere a b c S N) as (f & A & B & C & a' & b' & c' & ext & _ & Hf & Eff & S2 & PA & PB & PC & _ & Ee & F).
    exists ext. split; [exact Ee|]. intros p m Hp HD. destruct (effective_within a b c a' b' c' S Eff) as (Wa & Wb & Wc).
    assert (O := far_outside a b c p S Hp). assert (Fp := F p O). cbv zeta in Fp. destruct (lam_between a b c f p d S Hf Hd Hp) as (L0 & L1 & L2).
    assert (Q : forall e g, primitive a' b' c' e g -> c <= e <= a -> Rabs (g (lam a b c f p) - 2 / 3 * phi3 (dot p p)) <= 2 / 3 * (phi3 (dot p p - d) - phi3 (dot p p + d))).
    { intros e g P We. replace (2 / 3 * (phi3 (dot p p - d) - phi3 (dot p p + d))) with (2 / 3 * phi3 (dot p p - d) - 2 / 3 * phi3 (dot p p + d)) by ring. apply between_abs.
      - apply (integral_far a b c f e g p d S N Hf Hd Hp HD a' b' c' Eff P We).
      - assert (phi3 (dot p p + d) <= phi3 (dot p p)) by (apply phi3_le; lra). assert (phi3 (dot p p) <= phi3 (dot p p - d)) by (apply phi3_le; lra). lra. }
    assert (QA := Q a' A PA Wa). assert (QB := Q b' B PB Wb). assert (QC := Q c' C PC Wc). clear Q F.
    assert (Bc : c ^ 2 <= b ^ 2) by nra. assert (Ab : b ^ 2 <= a ^ 2) by nra.
    assert (NP : norm p <> 0) by lra. assert (N3 := phi3_norm p). set (l := lam a b c f p) in *. clearbody l.
    assert (R2 : 0 < dot p p) by lra. assert (EP : vx p ^ 2 + vy p ^ 2 + vz p ^ 2 = dot p p) by (unfold dot; ring).
    assert (R5 : / norm p ^ 5 = phi3 (dot p p) * / dot p p) by (rewrite N3, <- norm_sqr; field; exact NP).
    set (lo := dot p p - d) in *. set (hi := dot p p + d) in *.
    assert (FB := factor_between (vx p) (vy p) (vz p) (dot p p) lo hi (a ^ 2 + l) (b ^ 2 + l) (c ^ 2 + l) ltac:(unfold lo; lra) EP R2 ltac:(lra) ltac:(lra) ltac:(lra)).
    set (ra := sqrt ((a ^ 2 + l) * (b ^ 2 + l) * (c ^ 2 + l))) in *. set (v2 := (vx p / (a ^ 2 + l)) ^ 2 + (vy p / (b ^ 2 + l)) ^ 2 + (vz p / (c ^ 2 + l)) ^ 2) in *.
    set (el := lo ^ 2 / (hi ^ 2 * dot p p) * phi3 hi) in *. set (eh := hi ^ 2 / (lo ^ 2 * dot p p) * phi3 lo) in *.
    assert (MB : el <= / norm p ^ 5 <= eh).
    { rewrite R5. assert (X1 : phi3 hi <= phi3 (dot p p)) by (apply phi3_le; unfold hi; lra). assert (X2 : phi3 (dot p p) <= phi3 lo) by (apply phi3_le; unfold lo; lra).
      assert (Ir : 0 < / dot p p) by (apply Rinv_0_lt_compat, R2). assert (Lo : 0 < lo) by (unfold lo; lra). assert (Hi : lo <= hi) by (unfold lo, hi; lra).
      assert (Y1 : lo ^ 2 * / hi ^ 2 <= 1). { rewrite <- (Rinv_r (hi ^ 2)) by (assert (0 < hi ^ 2) by (apply sq_pos; lra); lra). apply Rmult_le_compat_r; [left; apply Rinv_0_lt_compat, sq_pos; lra | nra]. }
      assert (Y2 : 1 <= hi ^ 2 * / lo ^ 2). { rewrite <- (Rinv_r (lo ^ 2)) by (assert (0 < lo ^ 2) by (apply sq_pos; lra); lra). apply Rmult_le_compat_r; [left; apply Rinv_0_lt_compat, sq_pos; lra | nra]. }
      assert (Ph := phi3_pos hi ltac:(lra)). assert (Pm := phi3_pos (dot p p) R2).
      replace el with (lo ^ 2 * / hi ^ 2 * phi3 hi * / dot p p) by (unfold el; field; split; lra). replace eh with (hi ^ 2 * / lo ^ 2 * phi3 lo * / dot p p) by (unfold eh; field; split; lra).
      split; apply Rmult_le_compat_r; try lra; nra. }
    assert (GB : forall j k, (j = a ^ 2 + l \/ j = b ^ 2 + l \/ j = c ^ 2 + l) -> (k = a ^ 2 + l \/ k = b ^ 2 + l \/ k = c ^ 2 + l) ->
       Rabs (/ j * / k * / ra * / v2 - / norm p ^ 5) <= eh - el) by (intros j k Hj Hk; apply between_abs; [apply FB; assumption | exact MB]).
    set (w := fun j k => / j * / k * / ra * / v2 - / norm p ^ 5).
    set (s := fun j => -2 * (w j (a ^ 2 + l) * (vx p * vx m) + w j (b ^ 2 + l) * (vy p * vy m) + w j (c ^ 2 + l) * (vz p * vz m))).
    assert (Ev : vsub (mv (ext p) m) (vscale (a * b * c / 3) (dipole_form p m)) =
       vscale (a * b * c / 2) (vadd (V3 ((A l - 2 / 3 * phi3 (dot p p)) * vx m) ((B l - 2 / 3 * phi3 (dot p p)) * vy m) ((C l - 2 / 3 * phi3 (dot p p)) * vz m))
                                    (V3 (s (a ^ 2 + l) * vx p) (s (b ^ 2 + l) * vy p) (s (c ^ 2 + l) * vz p)))).
    { rewrite Fp. unfold dipole_form. rewrite mv_mscale, N3. unfold spatial_deriv_lambda, integrand. fold ra. fold v2. unfold s, w, Rdiv.
      unfold vsub, vadd, vscale, mv, dot; cbn [vx vy vz row1 row2 row3]. rewrite !Rinv_mult.
      set (r3 := / norm p ^ 3). set (r5 := / norm p ^ 5). set (ia := / (a ^ 2 + l)). set (ib := / (b ^ 2 + l)). set (ic := / (c ^ 2 + l)). set (ira := / ra). set (iv := / v2).
      clearbody r3 r5 ia ib ic ira iv. apply V3_eq; field. }
    rewrite Ev, norm_vscale, (Rabs_pos_eq (a * b * c / 2)) by lra.
    assert (G1 := norm_diag _ _ _ _ m QA QB QC).
    assert (SB : forall j, (j = a ^ 2 + l \/ j = b ^ 2 + l \/ j = c ^ 2 + l) -> Rabs (s j) <= 2 * (eh - el) * (norm p * norm m)).
    { intros j Hj. unfold s. rewrite Rabs_mult. replace (Rabs (-2)) with 2 by (rewrite Rabs_left; lra). rewrite Rmult_assoc. apply Rmult_le_compat_l; [lra|].
      assert (Wa' := GB j (a ^ 2 + l) Hj ltac:(auto)). assert (Wb' := GB j (b ^ 2 + l) Hj ltac:(auto)). assert (Wc' := GB j (c ^ 2 + l) Hj ltac:(auto)). fold (w j (a ^ 2 + l)) in Wa'. fold (w j (b ^ 2 + l)) in Wb'. fold (w j (c ^ 2 + l)) in Wc'.
      eapply Rle_trans; [apply Rabs_triang|]. eapply Rle_trans; [apply Rplus_le_compat_r, Rabs_triang|]. rewrite !Rabs_mult.
      assert (AC := abs_cauchy p m). assert (T0 : forall x y, 0 <= Rabs x * Rabs y) by (intros; apply Rmult_le_pos; apply Rabs_pos).
      assert (U1 := T0 (vx p) (vx m)). assert (U2 := T0 (vy p) (vy m)). assert (U3 := T0 (vz p) (vz m)). assert (EE : 0 <= eh - el) by lra.
      apply Rle_trans with ((eh - el) * (Rabs (vx p) * Rabs (vx m) + Rabs (vy p) * Rabs (vy m) + Rabs (vz p) * Rabs (vz m))); [|apply Rmult_le_compat_l; assumption].
      assert (X1 := Rmult_le_compat_r _ _ _ U1 Wa'). assert (X2 := Rmult_le_compat_r _ _ _ U2 Wb'). assert (X3 := Rmult_le_compat_r _ _ _ U3 Wc'). lra. }
    assert (G2 := norm_diag _ _ _ _ p (SB (a ^ 2 + l) ltac:(auto)) (SB (b ^ 2 + l) ltac:(auto)) (SB (c ^ 2 + l) ltac:(auto))).
    assert (G3 := norm_vadd (V3 ((A l - 2 / 3 * phi3 (dot p p)) * vx m) ((B l - 2 / 3 * phi3 (dot p p)) * vy m) ((C l - 2 / 3 * phi3 (dot p p)) * vz m)) (V3 (s (a ^ 2 + l) * vx p) (s (b ^ 2 + l) * vy p) (s (c ^ 2 + l) * vz p))).
    unfold dipole_error. fold lo hi.
    assert (E3 : 2 * (eh - el) * (norm p * norm m) * norm p = 2 * (hi ^ 2 / lo ^ 2 * phi3 lo - lo ^ 2 / hi ^ 2 * phi3 hi) * norm m).
    { replace (2 * (eh - el) * (norm p * norm m) * norm p) with (2 * ((eh - el) * (norm p * norm p)) * norm m) by ring. rewrite norm_sqr. unfold eh, el. assert (lo <> 0) by (unfold lo; lra). assert (hi <> 0) by (unfold hi; lra). field. repeat split; try assumption; lra. }
    rewrite E3 in G2. clear E3. set (X := norm (vadd _ _)) in *. assert (X <= (2 / 3 * (phi3 lo - phi3 hi) + 2 * (hi ^ 2 / lo ^ 2 * phi3 lo - lo ^ 2 / hi ^ 2 * phi3 hi)) * norm m).
    { clear -G1 G2 G3. set (u := hi ^ 2 / lo ^ 2 * phi3 lo - lo ^ 2 / hi ^ 2 * phi3 hi) in *. clearbody u. set (v := phi3 lo - phi3 hi) in *. clearbody v. lra. }
    apply Rle_trans with (a * b * c / 2 * ((2 / 3 * (phi3 lo - phi3 hi) + 2 * (hi ^ 2 / lo ^ 2 * phi3 lo - lo ^ 2 / hi ^ 2 * phi3 hi)) * norm m)); [apply Rmult_le_compat_l; lra|].
    right. field. split; unfold lo, hi; lra.
Qed.

(** ** Simple bounds, at a distance of at least sqrt (2 d) *)
Lemma phi5_half x : 0 < x -> phi5 (x / 2) <= 6 * phi5 x.
Proof.
  intros H. unfold phi5. assert (S2 : sqrt 2 <= 3 / 2) by (rewrite <- (sqrt_square (3 / 2)) by lra; apply sqrt_le_1_alt; lra). assert (S0 : 0 < sqrt 2) by (apply sqrt_lt_R0; lra).
  unfold Rdiv. rewrite sqrt_mult_alt by lra. rewrite sqrt_inv. assert (Sx := sqrt_lt_R0 _ H). replace (/ ((x * / 2) ^ 2 * (sqrt x * / sqrt 2))) with (4 * sqrt 2 * / (x ^ 2 * sqrt x)) by (field; repeat split; lra).
  apply Rmult_le_compat_r; [left; apply Rinv_0_lt_compat, Rmult_lt_0_compat; [apply sq_pos, H | exact Sx] | lra].
Qed.

Lemma phi5_norm p : phi5 (dot p p) = / norm p ^ 5.
Proof. unfold phi5. rewrite <- (norm_sqr p). rewrite sqrt_square by apply norm_nonneg. f_equal. ring. Qed.

Lemma gap_simple r2 d : 0 <= d -> 0 < r2 -> 2 * d <= r2 -> phi3 (r2 - d) - phi3 (r2 + d) <= 18 * d * phi5 r2.
Proof.
  intros D0 R0 H. assert (Gp := phi3_gap (r2 - d) (r2 + d) ltac:(lra) ltac:(lra)). assert (L := phi5_le (r2 / 2) (r2 - d) ltac:(lra) ltac:(lra)). assert (P := phi5_half r2 R0). nra.
Qed.

Lemma dipole_error_simple r2 d : 0 <= d -> 0 < r2 -> 2 * d <= r2 -> dipole_error r2 d <= 216 * d * phi5 r2.
Proof.
  intros D0 R0 H. assert (Gp := phi3_gap (r2 - d) (r2 + d) ltac:(lra) ltac:(lra)). assert (L := phi5_le (r2 / 2) (r2 - d) ltac:(lra) ltac:(lra)). assert (P := phi5_half r2 R0).
  unfold dipole_error. set (lo := r2 - d) in *. set (hi := r2 + d) in *. assert (Lo : 0 < lo) by (unfold lo; lra). assert (LH : lo <= hi) by (unfold lo, hi; lra). assert (H3 : hi <= 3 * lo) by (unfold lo, hi; lra).
  replace (hi - lo) with (2 * d) in Gp by (unfold hi, lo; ring).
  assert (Gp' : phi3 lo - phi3 hi <= 3 * d * phi5 lo) by lra. assert (P5 : 0 < phi5 lo) by (unfold phi5; apply Rinv_0_lt_compat, Rmult_lt_0_compat; [apply sq_pos, Lo | apply sqrt_lt_R0, Lo]).
  assert (G0 : 0 <= phi3 lo - phi3 hi) by (assert (X := phi3_le lo hi Lo LH); lra).
  assert (L2 := sq_pos lo Lo). assert (H2 := sq_pos hi ltac:(lra)).
  assert (Q9 : hi ^ 2 / lo ^ 2 <= 9) by (apply (Rmult_le_reg_r (lo ^ 2)); [exact L2|]; unfold Rdiv; rewrite Rmult_assoc, Rinv_l by lra; nra).
  assert (Q0 : 0 <= hi ^ 2 / lo ^ 2) by (apply Rmult_le_pos; [lra | left; apply Rinv_0_lt_compat, L2]).
  assert (F1 : hi ^ 2 / lo ^ 2 * (phi3 lo - phi3 hi) <= 27 * d * phi5 lo) by nra.
  assert (F2 : phi3 hi * (hi ^ 2 / lo ^ 2 - lo ^ 2 / hi ^ 2) <= 8 * d * phi5 lo).
  { assert (Sl := sqrt_lt_R0 _ Lo). assert (Sh := sqrt_lt_R0 hi ltac:(lra)). assert (SS := sqrt_le_1_alt lo hi LH).
    replace (phi3 hi * (hi ^ 2 / lo ^ 2 - lo ^ 2 / hi ^ 2)) with ((hi - lo) * ((hi + lo) * (hi ^ 2 + lo ^ 2)) * / (hi ^ 3 * lo ^ 2 * sqrt hi)) by (unfold phi3; field; repeat split; lra).
    replace (hi - lo) with (2 * d) by (unfold hi, lo; ring).
    assert (Z : (hi + lo) * (hi ^ 2 + lo ^ 2) <= 4 * hi ^ 3).
    { assert (lo ^ 2 <= hi ^ 2) by nra. assert ((hi + lo) * (hi ^ 2 + lo ^ 2) <= 2 * hi * (2 * hi ^ 2)) by (apply Rmult_le_compat; nra). lra. }
    assert (I0 : 0 < / (hi ^ 3 * lo ^ 2 * sqrt hi)) by (apply Rinv_0_lt_compat; repeat apply Rmult_lt_0_compat; try assumption; lra).
    apply Rle_trans with (2 * d * (4 * hi ^ 3) * / (hi ^ 3 * lo ^ 2 * sqrt hi)); [apply Rmult_le_compat_r; [lra | apply Rmult_le_compat_l; lra]|].
    replace (2 * d * (4 * hi ^ 3) * / (hi ^ 3 * lo ^ 2 * sqrt hi)) with (8 * d * / (lo ^ 2 * sqrt hi)) by (field; repeat split; lra).
    apply Rmult_le_compat_l; [lra|]. unfold phi5. apply Rinv_le_contravar; [apply Rmult_lt_0_compat; assumption | apply Rmult_le_compat_l; lra]. }
  assert (F3 : phi5 lo <= 6 * phi5 r2) by lra. assert (F4 : d * phi5 lo <= d * (6 * phi5 r2)) by (apply Rmult_le_compat_l; assumption).
  replace (hi ^ 2 / lo ^ 2 * phi3 lo - lo ^ 2 / hi ^ 2 * phi3 hi) with (hi ^ 2 / lo ^ 2 * (phi3 lo - phi3 hi) + phi3 hi * (hi ^ 2 / lo ^ 2 - lo ^ 2 / hi ^ 2)) by (field; split; lra). lra.
Qed.
