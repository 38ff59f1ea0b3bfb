(** Proofs about the confocal coordinate (C30). *)
From Coquelicot Require Import Coquelicot.
From Verif Require Import Base BaseFacts NumPy EllipsoidModel EllipsoidSpec.
Local Open Scope R_scope.

Lemma sq_pos x : 0 < x -> 0 < x ^ 2. Proof. intros; nra. Qed.
Lemma sq_nonneg x : 0 <= x ^ 2. Proof. nra. Qed.

(** The polynomial form of the confocal equation. *)
Definition conf_poly (A B C X Y Z l : R) : R :=
  (A + l) * (B + l) * (C + l) - X * ((B + l) * (C + l)) - Y * ((A + l) * (C + l)) - Z * ((A + l) * (B + l)).

Lemma conf_poly_iff A B C X Y Z l : 0 < A + l -> 0 < B + l -> 0 < C + l ->
  (X / (A + l) + Y / (B + l) + Z / (C + l) = 1 <-> conf_poly A B C X Y Z l = 0).
Proof.
  intros HA HB HC. unfold conf_poly. split; intros H.
  - assert (E : X * ((B + l) * (C + l)) + Y * ((A + l) * (C + l)) + Z * ((A + l) * (B + l)) =
      (X / (A + l) + Y / (B + l) + Z / (C + l)) * ((A + l) * (B + l) * (C + l))) by (field; lra).
    rewrite H in E. lra.
  - apply (Rmult_eq_reg_r ((A + l) * (B + l) * (C + l))); [|apply Rgt_not_eq; repeat apply Rmult_lt_0_compat; assumption].
    replace ((X / (A + l) + Y / (B + l) + Z / (C + l)) * ((A + l) * (B + l) * (C + l))) with
      (X * ((B + l) * (C + l)) + Y * ((A + l) * (C + l)) + Z * ((A + l) * (B + l))) by (field; lra). lra.
Qed.

(** Uniqueness: the confocal function decreases. *)
Lemma conf_diff A B C X Y Z l m : 0 < A + l -> 0 < B + l -> 0 < C + l -> 0 < A + m -> 0 < B + m -> 0 < C + m ->
  X / (A + l) + Y / (B + l) + Z / (C + l) - (X / (A + m) + Y / (B + m) + Z / (C + m)) =
  (m - l) * (X / ((A + l) * (A + m)) + Y / ((B + l) * (B + m)) + Z / ((C + l) * (C + m))).
Proof. intros. field. repeat split; lra. Qed.

Lemma conf_slope_pos A B C X Y Z l m : 0 < A + l -> 0 < B + l -> 0 < C + l -> 0 < A + m -> 0 < B + m -> 0 < C + m ->
  0 <= X -> 0 <= Y -> 0 <= Z -> 0 < X + Y + Z ->
  0 < X / ((A + l) * (A + m)) + Y / ((B + l) * (B + m)) + Z / ((C + l) * (C + m)).
Proof.
  intros HA HB HC HA' HB' HC' HX HY HZ HS.
  assert (PA : 0 < / ((A + l) * (A + m))) by (apply Rinv_0_lt_compat, Rmult_lt_0_compat; assumption).
  assert (PB : 0 < / ((B + l) * (B + m))) by (apply Rinv_0_lt_compat, Rmult_lt_0_compat; assumption).
  assert (PC : 0 < / ((C + l) * (C + m))) by (apply Rinv_0_lt_compat, Rmult_lt_0_compat; assumption).
  unfold Rdiv. assert (0 <= X * / ((A + l) * (A + m))) by (apply Rmult_le_pos; lra).
  assert (0 <= Y * / ((B + l) * (B + m))) by (apply Rmult_le_pos; lra).
  assert (0 <= Z * / ((C + l) * (C + m))) by (apply Rmult_le_pos; lra).
  destruct (Rle_lt_or_eq_dec 0 X HX) as [P|E]; [assert (0 < X * / ((A + l) * (A + m))) by (apply Rmult_lt_0_compat; lra); lra|].
  destruct (Rle_lt_or_eq_dec 0 Y HY) as [P|E']; [assert (0 < Y * / ((B + l) * (B + m))) by (apply Rmult_lt_0_compat; lra); lra|].
  assert (0 < Z * / ((C + l) * (C + m))) by (apply Rmult_lt_0_compat; lra). lra.
Qed.

Lemma conf_unique A B C X Y Z l m : 0 < A + l -> 0 < B + l -> 0 < C + l -> 0 < A + m -> 0 < B + m -> 0 < C + m ->
  0 <= X -> 0 <= Y -> 0 <= Z -> 0 < X + Y + Z ->
  X / (A + l) + Y / (B + l) + Z / (C + l) = 1 -> X / (A + m) + Y / (B + m) + Z / (C + m) = 1 -> l = m.
Proof.
  intros HA HB HC HA' HB' HC' HX HY HZ HS E1 E2.
  generalize (conf_diff A B C X Y Z l m HA HB HC HA' HB' HC'). rewrite E1, E2.
  generalize (conf_slope_pos A B C X Y Z l m HA HB HC HA' HB' HC' HX HY HZ HS). intros P D. replace (1 - 1) with 0 in D by ring.
  destruct (Rmult_integral _ _ (eq_sym D)); lra.
Qed.

(** ** Roots of the quadratic *)
Lemma larger_root p0 p1 : p0 <= 0 ->
  let l := 1 / 2 * (sqrt (p1 ^ 2 - 4 * p0) - p1) in 0 <= l /\ l * l + p1 * l + p0 = 0.
Proof.
  intros H l. assert (D : 0 <= p1 ^ 2 - 4 * p0) by nra.
  assert (S := sqrt_sqrt _ D). assert (N := sqrt_pos (p1 ^ 2 - 4 * p0)). unfold l. set (s := sqrt (p1 ^ 2 - 4 * p0)) in *. clearbody s.
  split; [|nra]. assert (p1 <= s); [|lra]. destruct (Rle_or_lt p1 0); [lra|]. apply Rsqr_incr_0; unfold Rsqr; nra.
Qed.

(** External points in polynomial form. *)
Lemma external_poly a b c p : 0 < a -> 0 < b -> 0 < c -> 1 <= level a b c p ->
  conf_poly (a ^ 2) (b ^ 2) (c ^ 2) (vx p ^ 2) (vy p ^ 2) (vz p ^ 2) 0 <= 0 /\ 0 < vx p ^ 2 + vy p ^ 2 + vz p ^ 2.
Proof.
  intros Ha Hb Hc H. unfold level in H. assert (A := sq_pos a Ha). assert (B := sq_pos b Hb). assert (C := sq_pos c Hc).
  set (X := vx p ^ 2) in *. set (Y := vy p ^ 2) in *. set (Z := vz p ^ 2) in *.
  assert (HX : 0 <= X) by apply sq_nonneg. assert (HY : 0 <= Y) by apply sq_nonneg. assert (HZ : 0 <= Z) by apply sq_nonneg.
  set (A' := a ^ 2) in *. set (B' := b ^ 2) in *. set (C' := c ^ 2) in *. clearbody X Y Z A' B' C'. split.
  - unfold conf_poly. rewrite !Rplus_0_r.
    assert (E : X * (B' * C') + Y * (A' * C') + Z * (A' * B') = (X / A' + Y / B' + Z / C') * (A' * B' * C')) by (field; lra).
    assert (P : 0 < A' * B' * C') by (repeat apply Rmult_lt_0_compat; assumption).
    assert (A' * B' * C' <= (X / A' + Y / B' + Z / C') * (A' * B' * C')) by nra. lra.
  - destruct (Rle_lt_or_eq_dec 0 (X + Y + Z)) as [P|P]; [lra | exact P | ].
    assert (X = 0) by lra. assert (Y = 0) by lra. assert (Z = 0) by lra. subst. unfold Rdiv in H. lra.
Qed.

Lemma level_confocal0 a b c p : level a b c p = 1 <-> confocal a b c 0 p.
Proof. unfold level, confocal. rewrite !Rplus_0_r. tauto. Qed.

Definition is_lambda (a b c : R) (p : vec3) (l : R) : Prop := 0 <= l /\ confocal a b c l p.

Lemma is_lambda_unique a b c p l m : 0 < a -> 0 < b -> 0 < c -> is_lambda a b c p l -> is_lambda a b c p m -> l = m.
Proof.
  intros Ha Hb Hc [L1 L2] [M1 M2]. assert (A := sq_pos a Ha). assert (B := sq_pos b Hb). assert (C := sq_pos c Hc).
  assert (P : 0 < vx p ^ 2 + vy p ^ 2 + vz p ^ 2).
  { unfold confocal in L2. assert (HX := sq_nonneg (vx p)). assert (HY := sq_nonneg (vy p)). assert (HZ := sq_nonneg (vz p)).
    destruct (Rle_lt_or_eq_dec 0 (vx p ^ 2 + vy p ^ 2 + vz p ^ 2)) as [Q|Q]; [lra | exact Q |].
    replace (vx p ^ 2) with 0 in L2 by lra. replace (vy p ^ 2) with 0 in L2 by lra. replace (vz p ^ 2) with 0 in L2 by lra.
    unfold Rdiv in L2. lra. }
  apply (conf_unique (a ^ 2) (b ^ 2) (c ^ 2) (vx p ^ 2) (vy p ^ 2) (vz p ^ 2)); try apply sq_nonneg; try assumption; lra.
Qed.

Lemma prolate_is_lambda a b p : 0 < a -> 0 < b -> 1 <= level a b b p -> is_lambda a b b p (lambda_prolate a b p).
Proof.
  intros Ha Hb H. destruct (external_poly a b b p Ha Hb Hb H) as [P0 PS]. assert (A := sq_pos a Ha). assert (B := sq_pos b Hb).
  unfold conf_poly in P0.
  assert (Q : a ^ 2 * b ^ 2 - b ^ 2 * vx p ^ 2 - a ^ 2 * (vy p ^ 2 + vz p ^ 2) <= 0).
  { apply (Rmult_le_reg_r (b ^ 2)); [exact B|]. set (X := vx p ^ 2) in *. set (Y := vy p ^ 2) in *. set (Z := vz p ^ 2) in *.
    set (A' := a ^ 2) in *. set (B' := b ^ 2) in *. clearbody X Y Z A' B'. lra. }
  destruct (larger_root _ (a ^ 2 + b ^ 2 - vx p ^ 2 - vy p ^ 2 - vz p ^ 2) Q) as [R1 R2].
  fold (lambda_prolate a b p) in R1, R2. split; [exact R1|]. unfold confocal. apply conf_poly_iff; try lra.
  unfold conf_poly. set (l := lambda_prolate a b p) in *. clearbody l.
  set (X := vx p ^ 2) in *. set (Y := vy p ^ 2) in *. set (Z := vz p ^ 2) in *. set (A' := a ^ 2) in *. set (B' := b ^ 2) in *. clearbody X Y Z A' B'.
  transitivity ((B' + l) * (l * l + (A' + B' - X - Y - Z) * l + (A' * B' - B' * X - A' * (Y + Z)))); [ring | rewrite R2; ring].
Qed.

Lemma oblate_is_lambda a c p : 0 < a -> 0 < c -> 1 <= level a a c p -> is_lambda a a c p (lambda_oblate a c p).
Proof.
  intros Ha Hc H. destruct (external_poly a a c p Ha Ha Hc H) as [P0 PS]. assert (A := sq_pos a Ha). assert (C := sq_pos c Hc).
  unfold conf_poly in P0.
  assert (Q : a ^ 2 * c ^ 2 - c ^ 2 * (vx p ^ 2 + vy p ^ 2) - a ^ 2 * vz p ^ 2 <= 0).
  { apply (Rmult_le_reg_r (a ^ 2)); [exact A|]. set (X := vx p ^ 2) in *. set (Y := vy p ^ 2) in *. set (Z := vz p ^ 2) in *.
    set (A' := a ^ 2) in *. set (C' := c ^ 2) in *. clearbody X Y Z A' C'. lra. }
  destruct (larger_root _ (a ^ 2 + c ^ 2 - vx p ^ 2 - vy p ^ 2 - vz p ^ 2) Q) as [R1 R2].
  fold (lambda_oblate a c p) in R1, R2. split; [exact R1|]. unfold confocal. apply conf_poly_iff; try lra.
  unfold conf_poly. set (l := lambda_oblate a c p) in *. clearbody l.
  set (X := vx p ^ 2) in *. set (Y := vy p ^ 2) in *. set (Z := vz p ^ 2) in *. set (A' := a ^ 2) in *. set (C' := c ^ 2) in *. clearbody X Y Z A' C'.
  transitivity ((A' + l) * (l * l + (A' + C' - X - Y - Z) * l + (A' * C' - C' * (X + Y) - A' * Z))); [ring | rewrite R2; ring].
Qed.

(** ** The largest root of a cubic with three real roots *)
Lemma cos_3 t : cos (3 * t) = 4 * cos t ^ 3 - 3 * cos t.
Proof.
  replace (3 * t) with (2 * t + t) by ring. rewrite cos_plus, cos_2a_cos, sin_2a. generalize (sin2_cos2 t). unfold Rsqr. intros H.
  set (s := sin t) in *. set (c := cos t) in *. clearbody s c. replace (2 * s * c * s) with (2 * c * (s * s)) by ring.
  replace (s * s) with (1 - c * c) by lra. ring.
Qed.

Lemma clip_id x lo hi : lo <= x <= hi -> clip x lo hi = x.
Proof. intros [H1 H2]. unfold clip. rewrite Rmax_left by lra. apply Rmin_left; lra. Qed.

Lemma trig_root (r s t : R) : t <= s -> s < r ->
  let p2 := - (r + s + t) in let p1 := r * s + s * t + r * t in let p0 := - (r * s * t) in
  let p := p1 - p2 ^ 2 / 3 in let q := p0 - p1 * p2 / 3 + 2 * (p2 / 3) ^ 3 in
  2 * sqrt (- p / 3) * cos (acos (clip (- q / (2 * sqrt ((- p / 3) ^ 3))) (- 1) 1) / 3) - p2 / 3 = r.
Proof.
  intros Hts Hsr p2 p1 p0 p q.
  set (r' := r + p2 / 3). set (s' := s + p2 / 3). set (t' := t + p2 / 3).
  assert (E0 : r' + s' + t' = 0) by (unfold r', s', t', p2; lra).
  assert (Ep : p = s' * t' - r' ^ 2) by (unfold p, p1, r', s', t', p2; field).
  assert (Eq : q = - (r' * s' * t')) by (unfold q, p0, p1, r', s', t', p2; field).
  assert (L1 : t' <= s') by (unfold t', s'; lra). assert (L2 : s' < r') by (unfold r', s'; lra).
  assert (Hr : r = r' - p2 / 3) by (unfold r'; lra).
  clearbody p q r' s' t'. rewrite Hr. clear Hr Hts Hsr. f_equal. subst p q.
  assert (Et : t' = - r' - s') by lra. subst t'. clear E0.
  set (n := - (s' * (- r' - s') - r' ^ 2) / 3). assert (En : 3 * n = r' ^ 2 + s' * (r' + s')) by (unfold n; field).
  replace (- - (r' * s' * (- r' - s'))) with (r' * s' * (- r' - s')) by ring. clearbody n.
  assert (Pr : 0 < r') by lra.
  assert (Pn : 0 < n).
  { assert (0 < 3 * n); [|lra]. rewrite En. assert (0 <= (2 * s' + r') ^ 2) by apply pow2_ge_0. nra. }
  set (m := sqrt n). assert (Pm : 0 < m) by (apply sqrt_lt_R0; exact Pn). assert (Em : m * m = n) by (apply sqrt_sqrt; lra).
  assert (Em3 : sqrt (n ^ 3) = m ^ 3).
  { apply sqrt_lem_1; [apply pow_le; lra | apply pow_le; lra |]. rewrite <- Em. ring. }
  rewrite Em3.
  assert (Up : r' <= 2 * m).
  { apply Rsqr_incr_0; [unfold Rsqr | lra | lra]. assert (0 <= (2 * s' + r') ^ 2) by apply pow2_ge_0. nra. }
  assert (Lo : m <= r').
  { apply Rsqr_incr_0; [unfold Rsqr | lra | lra]. assert (0 <= (r' - s') * (2 * r' + s')) by (apply Rmult_le_pos; lra). nra. }
  set (x := r' / (2 * m)).
  assert (Ex : r' = 2 * m * x) by (unfold x; field; lra).
  assert (Bx : 1 / 2 <= x <= 1).
  { split; [apply (Rmult_le_reg_r (2 * m)); lra | apply (Rmult_le_reg_r (2 * m)); lra]. }
  set (phi := acos x). assert (Cphi : cos phi = x) by (apply cos_acos; lra).
  assert (Bphi : 0 <= phi <= PI / 3).
  { split; [apply acos_bound|]. destruct (Rle_or_lt phi (PI / 3)) as [H|H]; [exact H|].
    assert (cos phi < cos (PI / 3)).
    { apply cos_decreasing_1; try lra; try (generalize PI_RGT_0; lra). apply acos_bound. }
    rewrite cos_PI3, Cphi in H0. lra. }
  assert (C3 : cos (3 * phi) = r' * s' * (- r' - s') / (2 * m ^ 3)).
  { rewrite cos_3, Cphi. apply (Rmult_eq_reg_r (2 * m ^ 3)); [|apply Rgt_not_eq; assert (0 < m ^ 3) by (apply pow_lt; exact Pm); lra].
    transitivity (r' * s' * (- r' - s')); [|field; lra].
    transitivity ((2 * m * x) ^ 3 - 3 * (m * m) * (2 * m * x)); [ring|]. rewrite <- Ex, Em, En. ring. }
  rewrite <- C3. rewrite clip_id by apply COS_bound. rewrite acos_cos by lra.
  replace (3 * phi / 3) with phi by lra. rewrite Cphi. symmetry. exact Ex.
Qed.

Lemma conf_poly_continuous A B C X Y Z : continuity (conf_poly A B C X Y Z).
Proof. unfold conf_poly. reg. Qed.

Lemma triaxial_is_lambda a b c p : 0 < c -> c < b -> b < a -> 1 <= level a b c p -> is_lambda a b c p (lambda_triaxial a b c p).
Proof.
  intros Hc Hb Ha H. assert (Pa : 0 < a) by lra. assert (Pb : 0 < b) by lra.
  destruct (external_poly a b c p Pa Pb Hc H) as [P0 PS].
  assert (C := sq_pos c Hc). assert (HX := sq_nonneg (vx p)). assert (HY := sq_nonneg (vy p)). assert (HZ := sq_nonneg (vz p)).
  assert (BC : c ^ 2 < b ^ 2) by nra. assert (AB : b ^ 2 < a ^ 2) by nra.
  unfold is_lambda, confocal, lambda_triaxial.
  set (X := vx p ^ 2) in *. set (Y := vy p ^ 2) in *. set (Z := vz p ^ 2) in *.
  set (A' := a ^ 2) in *. set (B' := b ^ 2) in *. set (C' := c ^ 2) in *. clearbody X Y Z A' B' C'. clear H Ha Hb Pa Pb Hc a b c.
  assert (Root : exists r, 0 <= r /\ conf_poly A' B' C' X Y Z r = 0).
  { destruct (IVT_cor (conf_poly A' B' C' X Y Z) 0 (X + Y + Z)) as (r & [R1 _] & R2); [apply conf_poly_continuous | lra | | exists r; auto].
    assert (0 <= conf_poly A' B' C' X Y Z (X + Y + Z)); [|nra].
    unfold conf_poly. set (l := X + Y + Z).
    assert (Hl : 0 < l) by exact PS.
    assert (K1 : X * ((B' + l) * (C' + l)) + Y * ((A' + l) * (C' + l)) + Z * ((A' + l) * (B' + l)) <= l * ((A' + l) * (B' + l))).
    { assert (M1 : (B' + l) * (C' + l) <= (A' + l) * (B' + l)) by nra.
      assert (M2 : (A' + l) * (C' + l) <= (A' + l) * (B' + l)) by nra.
      unfold l at 7. assert (X * ((B' + l) * (C' + l)) <= X * ((A' + l) * (B' + l))) by (apply Rmult_le_compat_l; assumption).
      assert (Y * ((A' + l) * (C' + l)) <= Y * ((A' + l) * (B' + l))) by (apply Rmult_le_compat_l; assumption). lra. }
    assert (0 < (A' + l) * (B' + l)) by (apply Rmult_lt_0_compat; lra). nra. }
  destruct Root as (r & Hr & Er).
  (* quadratic cofactor *)
  set (p2 := A' + B' + C' - X - Y - Z).
  set (p1 := A' * B' + B' * C' + C' * A' - (B' + C') * X - (C' + A') * Y - (A' + B') * Z).
  set (p0 := A' * B' * C' - B' * C' * X - C' * A' * Y - A' * B' * Z).
  assert (Cub : forall l, conf_poly A' B' C' X Y Z l = l ^ 3 + p2 * l ^ 2 + p1 * l + p0) by (intros l; unfold conf_poly, p2, p1, p0; ring).
  set (u := p2 + r). set (v := p1 + r * u).
  assert (Ev : p0 = - r * v) by (rewrite Cub in Er; unfold v, u; lra).
  assert (Fac : forall l, conf_poly A' B' C' X Y Z l = (l - r) * (l ^ 2 + u * l + v)).
  { intros l. rewrite Cub, Ev. unfold v, u. ring. }
  assert (Gb : (- B') ^ 2 + u * (- B') + v <= 0).
  { generalize (Fac (- B')). set (g := (- B') ^ 2 + u * - B' + v). unfold conf_poly. intros E.
    assert (0 <= Y * ((A' - B') * (B' - C'))) by (apply Rmult_le_pos; [assumption | apply Rmult_le_pos; lra]).
    assert (- (B' + r) * g = Y * ((A' - B') * (B' - C'))) by (transitivity ((- B' - r) * g); [ring | rewrite <- E; ring]).
    destruct (Rle_or_lt g 0); [assumption|]. assert (0 < (B' + r) * g) by (apply Rmult_lt_0_compat; lra). lra. }
  assert (Gc : 0 <= (- C') ^ 2 + u * (- C') + v).
  { generalize (Fac (- C')). set (g := (- C') ^ 2 + u * - C' + v). unfold conf_poly. intros E.
    assert (0 <= Z * ((A' - C') * (B' - C'))) by (apply Rmult_le_pos; [assumption | apply Rmult_le_pos; lra]).
    assert ((C' + r) * g = Z * ((A' - C') * (B' - C'))) by (transitivity (- ((- C' - r) * g)); [ring | rewrite <- E; ring]).
    destruct (Rle_or_lt 0 g); [assumption|]. assert (0 < (C' + r) * - g) by (apply Rmult_lt_0_compat; lra). lra. }
  assert (Disc : 0 <= u ^ 2 - 4 * v) by (assert (0 <= (2 * B' - u) ^ 2) by apply pow2_ge_0; nra).
  set (d := sqrt (u ^ 2 - 4 * v)). assert (Ed : d * d = u ^ 2 - 4 * v) by (apply sqrt_sqrt; exact Disc).
  assert (Hd : 0 <= d) by apply sqrt_pos.
  set (s := (- u + d) / 2). set (t := (- u - d) / 2).
  assert (St : t <= s) by (unfold s, t; lra).
  assert (Su : u = - (s + t)) by (unfold s, t; lra). assert (Sv : v = s * t) by (unfold s, t; nra).
  clearbody d s t.
  assert (Sr : s < r).
  { assert (s <= - C'); [|lra]. destruct (Rle_or_lt s (- C')) as [L|L]; [exact L|].
    assert (G1 : (- C' - s) * (- C' - t) >= 0) by (rewrite Su, Sv in Gc; nra).
    assert (G2 : (- B' - s) * (- B' - t) <= 0) by (rewrite Su, Sv in Gb; nra).
    assert (- C' <= t) by nra. nra. }
  assert (T := trig_root r s t St Sr). cbv zeta in T.
  replace (- (r + s + t)) with p2 in T by (unfold u in Su; lra).
  replace (r * s + s * t + r * t) with p1 in T by (unfold v in Sv; rewrite Su in Sv; lra).
  replace (- (r * s * t)) with p0 in T by (rewrite Ev, Sv; ring).
  fold p0 p1 p2. rewrite T. split; [exact Hr|]. apply conf_poly_iff; lra.
Qed.

Lemma calculate_lambda_ok a b c : sorted_axes_prop a b c -> exists f, calculate_lambda a b c = Ok f /\
  forall p, 1 <= level a b c p -> is_lambda a b c p (f p).
Proof.
  intros (Hc & Hb & Ha). unfold calculate_lambda, check_semiaxes_sorted, sorted_desc.
  rewrite (proj2 (Rleb_true b a) Ha), (proj2 (Rleb_true c b) Hb). cbn [andb negb bind].
  destruct (Reqb_spec b c) as [E|E].
  - subst. eexists; split; [reflexivity|]. intros p H. apply prolate_is_lambda; first [lra | exact H].
  - destruct (Reqb_spec a b) as [E'|E'].
    + subst. eexists; split; [reflexivity|]. intros p H. apply oblate_is_lambda; first [lra | exact H].
    + eexists; split; [reflexivity|]. intros p H. apply triaxial_is_lambda; first [lra | exact H].
Qed.
