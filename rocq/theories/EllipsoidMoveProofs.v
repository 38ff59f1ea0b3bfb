(** Rigid motions of ellipsoids: what a motion that carries one body onto another does to the descriptions
    of the two bodies and to the fields computed from them (C90). *)
From Coquelicot Require Import Coquelicot.
From Coq Require Import Psatz Permutation Classical_Prop.
From Verif Require Import Base BaseFacts NumPy NumPyFacts PointGravityModel EllipsoidModel EllipsoidSpec EllipsoidRotProofs EllipsoidLambdaProofs
  EllipsoidIntProofs EllipsoidShapeProofs EllipsoidFieldProofs EllipsoidLocalProofs EllipsoidTopProofs EllipsoidMagProofs.
Local Open Scope R_scope.

(** ** Quadratic forms *)
Lemma level_scale a b c k u : level a b c (vscale k u) = k ^ 2 * level a b c u.
Proof. unfold level, vscale; cbn [vx vy vz]. unfold Rdiv. ring. Qed.
Lemma level_nonneg a b c u : 0 < a -> 0 < b -> 0 < c -> 0 <= level a b c u.
Proof.
  intros Ha Hb Hc. unfold level. assert (A := sq_pos a Ha). assert (B := sq_pos b Hb). assert (C := sq_pos c Hc).
  assert (K : forall x y, 0 < y -> 0 <= x ^ 2 / y) by (intros x y Hy; apply Rmult_le_pos; [apply sq_nonneg | left; apply Rinv_0_lt_compat, Hy]).
  assert (K1 := K (vx u) _ A). assert (K2 := K (vy u) _ B). assert (K3 := K (vz u) _ C). lra.
Qed.
Lemma level_zero a b c u : 0 < a -> 0 < b -> 0 < c -> level a b c u = 0 -> u = V3 0 0 0.
Proof.
  intros Ha Hb Hc. unfold level. assert (A := sq_pos a Ha). assert (B := sq_pos b Hb). assert (C := sq_pos c Hc).
  assert (K : forall x y, 0 < y -> 0 <= x ^ 2 / y) by (intros x y Hy; apply Rmult_le_pos; [apply sq_nonneg | left; apply Rinv_0_lt_compat, Hy]).
  assert (K1 := K (vx u) _ A). assert (K2 := K (vy u) _ B). assert (K3 := K (vz u) _ C). intros H.
  assert (Z : forall x y, 0 < y -> x ^ 2 / y = 0 -> x = 0).
  { intros x y Hy E. apply Rmult_integral in E. destruct E as [E|E]; [nra|]. assert (0 < / y) by (apply Rinv_0_lt_compat, Hy). lra. }
  destruct u as [x y z]; cbn [vx vy vz] in *. apply V3_eq; [apply (Z _ _ A) | apply (Z _ _ B) | apply (Z _ _ C)]; lra.
Qed.
Lemma mv_zero m : mv m (V3 0 0 0) = V3 0 0 0.
Proof. unfold mv, dot; cbn [vx vy vz]. apply V3_eq; ring. Qed.

Definition inv2 (a b c : R) : mat3 := diag (/ a ^ 2) (/ b ^ 2) (/ c ^ 2).

Lemma level_tensor a b c a' b' c' W : (forall u, level a' b' c' (mv W u) = level a b c u) -> mm (mm (mT W) (inv2 a' b' c')) W = inv2 a b c.
Proof.
  intros H. destruct W as [[w11 w12 w13] [w21 w22 w23] [w31 w32 w33]]. unfold inv2.
  set (i1 := / a' ^ 2). set (i2 := / b' ^ 2). set (i3 := / c' ^ 2). set (j1 := / a ^ 2). set (j2 := / b ^ 2). set (j3 := / c ^ 2).
  assert (K : forall x y z, (w11 * x + w12 * y + w13 * z) ^ 2 * i1 + (w21 * x + w22 * y + w23 * z) ^ 2 * i2 + (w31 * x + w32 * y + w33 * z) ^ 2 * i3 = x ^ 2 * j1 + y ^ 2 * j2 + z ^ 2 * j3)
    by (intros x y z; exact (H (V3 x y z))).
  assert (H1 := K 1 0 0). assert (H2 := K 0 1 0). assert (H3 := K 0 0 1). assert (H12 := K 1 1 0). assert (H13 := K 1 0 1). assert (H23 := K 0 1 1).
  clearbody i1 i2 i3 j1 j2 j3. clear H K. unfold diag. rewrite mT_explicit, !mm_explicit. apply M3_eq; nra.
Qed.

Lemma level_commute a b c a' b' c' W : orthogonal W -> (forall u, level a' b' c' (mv W u) = level a b c u) ->
  mm (inv2 a' b' c') W = mm W (inv2 a b c).
Proof.
  intros [O _] H. rewrite <- (level_tensor a b c a' b' c' W H). rewrite <- !mm_assoc, O, mm_eye_l. reflexivity.
Qed.

(** The semi-axes of the two descriptions are the same. *)
Lemma inv_sq_lt x y : 0 < x -> 0 < y -> / x ^ 2 <= / y ^ 2 -> y <= x.
Proof.
  intros Hx Hy H. destruct (Rle_or_lt y x) as [L|L]; [exact L|]. exfalso. assert (x ^ 2 < y ^ 2) by nra.
  assert (/ y ^ 2 < / x ^ 2) by (apply Rinv_lt_contravar; [apply Rmult_lt_0_compat; apply sq_pos; assumption | assumption]). lra.
Qed.
Lemma inv_sq_le x y : 0 < y -> y <= x -> / x ^ 2 <= / y ^ 2.
Proof. intros Hy H. apply Rinv_le_contravar; [apply sq_pos, Hy | nra]. Qed.

Lemma level_lower a b c u : sorted_axes_prop a b c -> / a ^ 2 * dot u u <= level a b c u <= / c ^ 2 * dot u u.
Proof.
  intros (Hc & Hb & Ha). assert (A1 := inv_sq_le a b ltac:(lra) Ha). assert (A2 := inv_sq_le b c Hc Hb).
  unfold level, dot, Rdiv. assert (X := sq_nonneg (vx u)). assert (Y := sq_nonneg (vy u)). assert (Z := sq_nonneg (vz u)). nra.
Qed.

Lemma same_axes_le a b c a' b' c' W : sorted_axes_prop a b c -> sorted_axes_prop a' b' c' -> orthogonal W ->
  (forall u, level a' b' c' (mv W u) = level a b c u) -> / a' ^ 2 <= / a ^ 2 /\ / c ^ 2 <= / c' ^ 2.
Proof.
  intros S S' O H. split.
  - destruct (level_lower a' b' c' (mv W (V3 1 0 0)) S') as [L _]. rewrite H, orthogonal_dot in L by exact O. unfold level, dot in L; cbn [vx vy vz] in L. unfold Rdiv in L. lra.
  - destruct (level_lower a' b' c' (mv W (V3 0 0 1)) S') as [_ L]. rewrite H, orthogonal_dot in L by exact O. unfold level, dot in L; cbn [vx vy vz] in L. unfold Rdiv in L. lra.
Qed.

Lemma inverse_level a b c a' b' c' W : orthogonal W -> (forall u, level a' b' c' (mv W u) = level a b c u) -> forall u, level a b c (mv (mT W) u) = level a' b' c' u.
Proof. intros O H u. rewrite <- H, orthogonal_back by exact O. reflexivity. Qed.

Lemma same_axes a b c a' b' c' W : sorted_axes_prop a b c -> sorted_axes_prop a' b' c' -> orthogonal W ->
  (forall u, level a' b' c' (mv W u) = level a b c u) -> a' = a /\ b' = b /\ c' = c.
Proof.
  intros S S' O H. destruct (same_axes_le a b c a' b' c' W S S' O H) as [A1 C1].
  destruct (same_axes_le a' b' c' a b c (mT W) S' S (orthogonal_mT W O) (inverse_level a b c a' b' c' W O H)) as [A2 C2].
  assert (T := f_equal trace (level_tensor a b c a' b' c' W H)). rewrite trace_rot in T by exact O. unfold trace, inv2, diag in T; cbn [vx vy vz row1 row2 row3] in T.
  assert (B1 : / b' ^ 2 <= / b ^ 2) by lra. assert (B2 : / b ^ 2 <= / b' ^ 2) by lra.
  destruct S as (Hc & Hb & Ha), S' as (Hc' & Hb' & Ha').
  repeat split; apply Rle_antisym; apply inv_sq_lt; try lra; assumption.
Qed.

(** ** Motions that map a body in the frame of its axes onto itself *)
Definition keeps (a b c : R) (W : mat3) : Prop := orthogonal W /\ forall u, level a b c (mv W u) = level a b c u.

Ltac ent H := revert H; clear; cbn [pow]; repeat match goal with |- context [/ ?t] => generalize (/ t) end; intros; lra.
Lemma keeps_commute a b c W x y z : sorted_axes_prop a b c -> keeps a b c W -> (a = b -> x = y) -> (b = c -> y = z) ->
  mm (diag x y z) W = mm W (diag x y z).
Proof.
  intros S [O H] E1 E2. assert (C := level_commute a b c a b c W O H). destruct W as [[w11 w12 w13] [w21 w22 w23] [w31 w32 w33]].
  unfold inv2, diag in C. rewrite !mm_explicit in C. injection C as C11 C12 C13 C21 C22 C23 C31 C32 C33.
  destruct S as (Hc & Hb & Ha).
  assert (K : forall r s w, 0 < r -> 0 < s -> s <= r -> w * (/ r ^ 2 - / s ^ 2) = 0 -> w = 0 \/ r = s).
  { intros r s w Hr Hs Hrs E. apply Rmult_integral in E. destruct E as [E|E]; [left; exact E | right]. apply Rle_antisym; [apply inv_sq_lt; lra | exact Hrs]. }
  assert (Pa : 0 < a) by lra. assert (Pb : 0 < b) by lra. assert (Hac : c <= a) by lra.
  assert (K12 := K a b w12 Pa Pb Ha ltac:(ent C12)). assert (K21 := K a b w21 Pa Pb Ha ltac:(ent C21)).
  assert (K23 := K b c w23 Pb Hc Hb ltac:(ent C23)). assert (K32 := K b c w32 Pb Hc Hb ltac:(ent C32)).
  assert (K13 := K a c w13 Pa Hc Hac ltac:(ent C13)). assert (K31 := K a c w31 Pa Hc Hac ltac:(ent C31)).
  assert (E3 : a = c -> x = z) by (intros E; rewrite E1 by lra; apply E2; lra).
  assert (F12 : w12 * x = w12 * y) by (destruct K12 as [-> | E]; [ring | rewrite (E1 E); reflexivity]).
  assert (F21 : w21 * x = w21 * y) by (destruct K21 as [-> | E]; [ring | rewrite (E1 E); reflexivity]).
  assert (F23 : w23 * y = w23 * z) by (destruct K23 as [-> | E]; [ring | rewrite (E2 E); reflexivity]).
  assert (F32 : w32 * y = w32 * z) by (destruct K32 as [-> | E]; [ring | rewrite (E2 E); reflexivity]).
  assert (F13 : w13 * x = w13 * z) by (destruct K13 as [-> | E]; [ring | rewrite (E3 E); reflexivity]).
  assert (F31 : w31 * x = w31 * z) by (destruct K31 as [-> | E]; [ring | rewrite (E3 E); reflexivity]).
  unfold diag. rewrite !mm_explicit. apply M3_eq; lra.
Qed.

Lemma keeps_diag a b c W x y z u : sorted_axes_prop a b c -> keeps a b c W -> (a = b -> x = y) -> (b = c -> y = z) ->
  mv (diag x y z) (mv W u) = mv W (mv (diag x y z) u).
Proof. intros S K E1 E2. rewrite <- !mv_mm, (keeps_commute a b c W x y z S K E1 E2). reflexivity. Qed.

Lemma diag_mv x y z u : mv (diag x y z) u = V3 (x * vx u) (y * vy u) (z * vz u).
Proof. unfold mv, diag, dot; cbn [vx vy vz row1 row2 row3]. apply V3_eq; ring. Qed.

Lemma keeps_form a b c W x y z u : sorted_axes_prop a b c -> keeps a b c W -> (a = b -> x = y) -> (b = c -> y = z) ->
  dot (mv W u) (mv (diag x y z) (mv W u)) = dot u (mv (diag x y z) u).
Proof. intros S K E1 E2. rewrite (keeps_diag a b c W x y z u S K E1 E2). apply orthogonal_dot, K. Qed.

Lemma keeps_confocal a b c W l u : sorted_axes_prop a b c -> keeps a b c W -> 0 <= l -> confocal a b c l u -> confocal a b c l (mv W u).
Proof.
  intros S K Hl H.
  assert (Q : forall v, vx v ^ 2 / (a ^ 2 + l) + vy v ^ 2 / (b ^ 2 + l) + vz v ^ 2 / (c ^ 2 + l) = dot v (mv (diag (/ (a ^ 2 + l)) (/ (b ^ 2 + l)) (/ (c ^ 2 + l))) v))
    by (intros v; rewrite diag_mv; unfold dot, Rdiv; cbn [vx vy vz]; ring).
  unfold confocal in *. rewrite Q in *. rewrite <- H. apply (keeps_form a b c); [exact S | exact K | intros ->; reflexivity | intros ->; reflexivity].
Qed.

Lemma keeps_internal a b c W u : keeps a b c W -> is_internal (mv W u) a b c = is_internal u a b c.
Proof.
  intros [_ H]. assert (L := H u). destruct (is_internal u a b c) eqn:X.
  - apply is_internal_level. rewrite L. apply is_internal_level, X.
  - destruct (is_internal (mv W u) a b c) eqn:Y; [|reflexivity]. apply is_internal_level in Y. rewrite L in Y. apply is_internal_level in Y. congruence.
Qed.

Lemma keeps_lam a b c W f u : sorted_axes_prop a b c -> keeps a b c W -> (forall p, 1 <= level a b c p -> is_lambda a b c p (f p)) ->
  lam a b c f (mv W u) = lam a b c f u.
Proof.
  intros S K Hf. unfold lam. rewrite keeps_internal by exact K. destruct (is_internal u a b c) eqn:X; [reflexivity|].
  assert (L : 1 <= level a b c u) by (destruct (Rle_or_lt 1 (level a b c u)) as [L|L]; [exact L | apply is_internal_level in L; congruence]).
  destruct (Hf u L) as [P Q]. assert (S' := S). destruct S' as (Hc & Hb & Ha).
  apply (is_lambda_unique a b c (mv W u)); try lra; [apply Hf; rewrite (proj2 K); exact L|]. split; [exact P | apply keeps_confocal; assumption].
Qed.

(** ** The fields in the frame of the sorted axes *)
Lemma primitive_unique a b c e f g l : primitive a b c e f -> primitive a b c e g -> 0 <= l -> f l = g l.
Proof.
  intros [Df Lf] [Dg Lg] Hl. assert (Z : f l + - g l = 0); [|lra].
  apply (zero_of_constant (fun l => f l + - g l)); [| |exact Hl].
  - intros m Hm. replace 0 with (plus (- integrand a b c e m) (opp (- integrand a b c e m))) by (unfold plus, opp; cbn; ring).
    apply (is_derive_plus f (fun l => - g l)); [apply Df, Hm | apply (is_derive_opp g), Dg, Hm].
  - apply lim0_plus; [exact Lf|]. apply (filterlim_ext (fun l => -1 * g l)); [intros; ring | apply lim0_scal, Lg].
Qed.

Lemma effective_equal a b c a' b' c' : effective a b c = (a', b', c') -> (a = b -> a' = b') /\ (b = c -> b' = c').
Proof. unfold effective. destruct (shape_of a b c); intros [= <- <- <-]; split; intros; congruence. Qed.

Lemma equal_integrals a b c a' b' c' A B C l : effective a b c = (a', b', c') -> 0 <= l ->
  primitive a' b' c' a' A -> primitive a' b' c' b' B -> primitive a' b' c' c' C -> (a = b -> A l = B l) /\ (b = c -> B l = C l).
Proof.
  intros E Hl PA PB PC. destruct (effective_equal a b c a' b' c' E) as [E1 E2]. split; intros H.
  - apply (primitive_unique a' b' c' b'); [rewrite <- (E1 H) at 2; rewrite (E1 H) in PA |- * | exact PB | exact Hl]. exact PA.
  - apply (primitive_unique a' b' c' b'); [exact PB | | exact Hl]. rewrite (E2 H) in *. exact PC.
Qed.

Lemma norm_keeps W u : orthogonal W -> norm (mv W u) = norm u.
Proof. intros O. unfold norm. rewrite orthogonal_dot by exact O. reflexivity. Qed.

Lemma lam_nonneg a b c f u : (forall p, 1 <= level a b c p -> is_lambda a b c p (f p)) -> 0 <= lam a b c f u.
Proof.
  intros Hf. unfold lam. destruct (is_internal u a b c) eqn:X; [lra|]. apply Hf. destruct (Rle_or_lt 1 (level a b c u)) as [L|L]; [exact L | apply is_internal_level in L; congruence].
Qed.

Lemma gravity_keeps a b c rho W : sorted_axes_prop a b c -> keeps a b c W -> exists g, gravity_local a b c rho g /\ forall u, g (mv W u) = mv W (g u).
Proof.
  intros S K. destruct (shape_dec a b c) as [E|N].
  - exists (sphere_field a b c (- 4 / 3 * PI * a ^ 3 * G * rho)). split; [intros pts; apply gravity_sphere; assumption|].
    intros u. unfold sphere_field. rewrite keeps_internal, norm_keeps by (try exact K; apply K). set (k := - 4 / 3 * PI * a ^ 3 * G * rho). clearbody k.
    destruct (is_internal u a b c); [set (i := a ^ 3) | set (i := norm u ^ 3)]; clearbody i;
      unfold mv, dot, Rdiv; cbn [vx vy vz]; apply V3_eq; ring.
  - destruct (gravity_nonsphere a b c S N) as (f & A & B & C & a' & b' & c' & _ & Hf & _ & Eff & _ & PA & PB & PC & Gr).
    eexists. split; [intros pts; apply Gr|]. intros u. cbv beta. set (k := - 2 * PI * a * b * c * G * rho). clearbody k.
    unfold field_of_integrals. rewrite (keeps_lam a b c W f u S K Hf). assert (Hl := lam_nonneg a b c f u Hf). set (l := lam a b c f u) in *. clearbody l.
    destruct (equal_integrals a b c a' b' c' A B C l Eff Hl PA PB PC) as [E1 E2].
    assert (F : forall v, V3 (k * vx v * A l) (k * vy v * B l) (k * vz v * C l) = mv (diag (k * A l) (k * B l) (k * C l)) v) by (intros v; rewrite diag_mv; apply V3_eq; ring).
    rewrite !F. apply (keeps_diag a b c); [exact S | exact K | intros H; rewrite (E1 H); reflexivity | intros H; rewrite (E2 H); reflexivity].
Qed.

Lemma internal_keeps a b c W : sorted_axes_prop a b c -> keeps a b c W -> exists ni, get_demagnetization_tensor_internal a b c = Ok ni /\ mm ni W = mm W ni.
Proof.
  intros S K. destruct (shape_dec a b c) as [E|N].
  - unfold get_demagnetization_tensor_internal. rewrite check_sorted, sphere_shape, E by exact S. cbn [bind]. eexists. split; [reflexivity|].
    apply (keeps_commute a b c); [exact S | exact K | reflexivity | reflexivity].
  - destruct (internal_factors a b c S N) as (f & A & B & C & a' & b' & c' & F & F0 & Eff & I).
    destruct (effective_integrals a b c S N) as (f2 & A' & B' & C' & a2 & b2 & c2 & F2 & E2 & Eff2 & S2 & PA & PB & PC).
    rewrite F in F2. injection F2 as <-. rewrite Eff in Eff2. injection Eff2 as <- <- <-. rewrite E2 in F0. injection F0 as <- <- <-.
    destruct (equal_integrals a b c a' b' c' A' B' C' 0 Eff (Rle_refl 0) PA PB PC) as [E1 E3].
    eexists. split; [exact I|]. apply (keeps_commute a b c); [exact S | exact K | intros H; rewrite (E1 H); reflexivity | intros H; rewrite (E3 H); reflexivity].
Qed.

Lemma deriv_lambda_form p a b c l : spatial_deriv_lambda p a b c l =
  let v := mv (diag (/ (a ^ 2 + l)) (/ (b ^ 2 + l)) (/ (c ^ 2 + l))) p in vscale (2 / dot v v) v.
Proof.
  cbv zeta. rewrite diag_mv. unfold spatial_deriv_lambda, vscale, dot; cbn [vx vy vz].
  set (i := / (a ^ 2 + l)). set (j := / (b ^ 2 + l)). set (k := / (c ^ 2 + l)). unfold Rdiv. fold i j k.
  replace ((vx p * i) ^ 2 + (vy p * j) ^ 2 + (vz p * k) ^ 2) with (i * vx p * (i * vx p) + j * vy p * (j * vy p) + k * vz p * (k * vz p)) by ring.
  apply V3_eq; ring.
Qed.

Lemma keeps_deriv_lambda a b c W l p : sorted_axes_prop a b c -> keeps a b c W -> spatial_deriv_lambda (mv W p) a b c l = mv W (spatial_deriv_lambda p a b c l).
Proof.
  intros S K. rewrite !deriv_lambda_form. cbv zeta.
  rewrite (keeps_diag a b c W _ _ _ p S K) by (intros ->; reflexivity). rewrite orthogonal_dot by apply K. rewrite mv_vscale. reflexivity.
Qed.

Lemma external_keeps a b c W : sorted_axes_prop a b c -> keeps a b c W -> exists ext, get_demagnetization_tensor_external a b c = Ok ext /\
  forall p m, 1 <= level a b c p -> mv (ext (mv W p)) (mv W m) = mv W (mv (ext p) m).
Proof.
  intros S K. destruct (shape_dec a b c) as [E|N].
  - destruct (external_sphere a b c S E) as (ext & H & F). exists ext. split; [exact H|]. intros p m _.
    assert (Q : forall p m, mv (ext p) m = vscale (- (a ^ 3 / 3)) (vsub (vscale (3 * dot p m / norm p ^ 5) p) (vscale (1 / norm p ^ 3) m))).
    { intros r n. rewrite F. set (h := norm r). unfold Rdiv at 1 3 4 5 6 7 8 9 10 11 12 13 14. set (i5 := / h ^ 5). set (i3 := / h ^ 3). unfold Rdiv. fold i5 i3.
      rewrite mv_mscale. unfold mv, vsub, vscale, dot; cbn [vx vy vz row1 row2 row3]. apply V3_eq; ring. }
    rewrite !Q, norm_keeps, orthogonal_dot by apply K. rewrite mv_vscale, mv_vsub, !mv_vscale. reflexivity.
  - destruct (external_nonsphere a b c S N) as (f & A & B & C & a' & b' & c' & ext & _ & Hf & Eff & S2 & PA & PB & PC & _ & H & F).
    exists ext. split; [exact H|]. intros p m Hp. assert (Hl := lam_nonneg a b c f p Hf).
    assert (L := keeps_lam a b c W f p S K Hf).
    assert (Q : forall r, 1 <= level a b c r -> mv (ext r) m = mv (ext r) m) by reflexivity. clear Q.
    assert (Q : forall r n, 1 <= level a b c r -> let l := lam a b c f r in
       mv (ext r) n = vscale (a * b * c / 2) (vadd (vscale (- dot (mv (diag (integrand a b c a l) (integrand a b c b l) (integrand a b c c l)) r) n) (spatial_deriv_lambda r a b c l))
                                                   (mv (diag (A l) (B l) (C l)) n))).
    { intros r n Hr l. rewrite (F r Hr). cbv zeta. fold l. set (dl := spatial_deriv_lambda r a b c l). rewrite !diag_mv, mv_mscale. f_equal.
      unfold mv, vadd, vscale, dot; cbn [vx vy vz row1 row2 row3]. apply V3_eq; ring. }
    rewrite (Q (mv W p)) by (rewrite (proj2 K); exact Hp). rewrite (Q p m Hp). cbv zeta. rewrite L. set (l := lam a b c f p) in *. clearbody l.
    destruct (equal_integrals a b c a' b' c' A B C l Eff Hl PA PB PC) as [E1 E2].
    rewrite (keeps_deriv_lambda a b c W l p S K).
    rewrite (keeps_diag a b c W (integrand a b c a l) _ _ p S K) by (intros ->; reflexivity).
    rewrite (keeps_diag a b c W (A l) _ _ m S K E1 E2). rewrite orthogonal_dot by apply K.
    rewrite mv_vscale, mv_vadd, mv_vscale. reflexivity.
Qed.

(** ** The motion in the frames of the axes *)
Lemma below a b c a' b' c' W : (forall u, level a b c u <= 1 -> level a' b' c' (mv W u) <= 1) -> 0 < a -> 0 < b -> 0 < c -> 0 < a' -> 0 < b' -> 0 < c' ->
  forall u, level a' b' c' (mv W u) <= level a b c u.
Proof.
  intros H Ha Hb Hc Ha' Hb' Hc' u. destruct (Rle_or_lt (level a' b' c' (mv W u)) (level a b c u)) as [L|L]; [exact L|]. exfalso.
  assert (P := level_nonneg a b c u Ha Hb Hc). set (x := level a b c u) in *. set (y := level a' b' c' (mv W u)) in *.
  assert (Q : 0 < 2 / (x + y)) by (apply Rdiv_lt_0_compat; lra).
  assert (K := H (vscale (sqrt (2 / (x + y))) u)). rewrite mv_vscale, !level_scale in K. fold x y in K. rewrite pow2_sqrt in K by lra.
  assert (E : 2 / (x + y) * (x + y) = 2) by (field; lra). assert (2 / (x + y) * x <= 1) by nra. specialize (K H0). nra.
Qed.

Lemma central a b c a' b' c' W s : orthogonal W -> 0 < a -> 0 < b -> 0 < c ->
  (forall u, level a' b' c' (vadd (mv W u) s) <= 1 <-> level a b c u <= 1) -> s = V3 0 0 0.
Proof.
  intros O Ha Hb Hc H. set (d := mv (mT W) s).
  assert (Es : s = mv W d) by (unfold d; rewrite orthogonal_back by exact O; reflexivity).
  assert (N : forall a b c v, level a b c (vscale (- 1) v) = level a b c v) by (intros; rewrite level_scale; ring).
  assert (St : forall u, level a b c u <= 1 -> level a b c (vsub u (vscale 2 d)) <= 1).
  { intros u Hu. rewrite <- N in Hu. apply H in Hu. rewrite <- N in Hu. apply H.
    replace (vadd (mv W (vsub u (vscale 2 d))) s) with (vscale (- 1) (vadd (mv W (vscale (- 1) u)) s)); [exact Hu|].
    rewrite Es, mv_vsub, !mv_vscale. unfold vadd, vsub, vscale; cbn [vx vy vz]. apply V3_eq; ring. }
  assert (I : forall n, level a b c (vscale (- 2 * INR n) d) <= 1).
  { induction n as [|n IH].
    - rewrite level_scale. cbn [INR]. lra.
    - rewrite S_INR. replace (vscale (- 2 * (INR n + 1)) d) with (vsub (vscale (- 2 * INR n) d) (vscale 2 d)) by (unfold vsub, vscale; cbn [vx vy vz]; apply V3_eq; ring).
      apply St, IH. }
  assert (Z : d = V3 0 0 0).
  { apply (level_zero a b c d Ha Hb Hc). assert (P := level_nonneg a b c d Ha Hb Hc). destruct (Rle_lt_or_eq_dec _ _ P) as [L|L]; [exfalso | congruence].
    assert (Yp : 0 < / level a b c d) by (apply Rinv_0_lt_compat, L). destruct (nfloor_ex (/ level a b c d) (Rlt_le _ _ Yp)) as (n0 & _ & Hn). rewrite <- S_INR in Hn. set (n := S n0) in *. assert (J := I n). rewrite level_scale in J.
    assert (X : / level a b c d * level a b c d = 1) by (field; lra). assert (Y : 0 < / level a b c d) by (apply Rinv_0_lt_compat, L).
    set (x := level a b c d) in *. set (m := INR n) in *. assert (1 < m * x) by nra. assert (0 < m) by lra. assert (M : 1 <= m).
    { unfold m. destruct n; [cbn [INR] in *; unfold m in *; cbn [INR] in *; lra|]. rewrite S_INR. assert (0 <= INR n) by apply pos_INR. lra. }
    nra. }
  rewrite Es, Z. apply mv_zero.
Qed.

Lemma carries_frames A t e e' : orthogonal A -> carries A t e e' ->
  exists q S a b c q' S' W, orthogonal q /\ q = mm (mT S) (mT (rotation_matrix e)) /\ sorts e S a b c /\ orthogonal q' /\ q' = mm (mT S') (mT (rotation_matrix e')) /\ sorts e' S' a b c /\
    (forall ps, local_points (map vx ps, map vy ps, map vz ps) e = Ok (map (fun p => mv q (vsub p (ell_center e))) ps, q, S, a, b, c)) /\
    (forall ps, local_points (map vx ps, map vy ps, map vz ps) e' = Ok (map (fun p => mv q' (vsub p (ell_center e'))) ps, q', S', a, b, c)) /\
    sorted_axes_prop a b c /\ keeps a b c W /\ W = mm (mm q' A) (mT q) /\
    (forall p, mv q' (vsub (motion A t p) (ell_center e')) = mv W (mv q (vsub p (ell_center e)))).
Proof.
  intros OA (P & P' & H). destruct (local_points_ok e) as (q & S & a & b & c & Q & Eq & So & LP). destruct (local_points_ok e') as (q' & S' & a' & b' & c' & Q' & Eq' & So' & LP').
  assert (SA := sorts_positive e S a b c So P). assert (SA' := sorts_positive e' S' a' b' c' So' P').
  set (W := mm (mm q' A) (mT q)). assert (OW : orthogonal W) by (apply orthogonal_mm; [apply orthogonal_mm; assumption | apply orthogonal_mT, Q]).
  set (s := mv q' (vsub (motion A t (ell_center e)) (ell_center e'))).
  assert (M : forall p, mv q' (vsub (motion A t p) (ell_center e')) = vadd (mv W (mv q (vsub p (ell_center e)))) s).
  { intros p. unfold W, s. rewrite !mv_mm, orthogonal_forth by exact Q. rewrite <- mv_vadd. f_equal. rewrite mv_vsub. unfold motion, vadd, vsub; cbn [vx vy vz]. apply V3_eq; ring. }
  assert (HL : forall u, level a' b' c' (vadd (mv W u) s) <= 1 <-> level a b c u <= 1).
  { intros u. assert (Hp := H (vadd (ell_center e) (mv (mT q) u))). rewrite <- (sorts_level e S a b c _ So), <- (sorts_level e' S' a' b' c' _ So'), <- Eq, <- Eq', M in Hp.
    replace (vsub (vadd (ell_center e) (mv (mT q) u)) (ell_center e)) with (mv (mT q) u) in Hp by (clear; generalize (mv (mT q) u) (ell_center e); intros [x1 y1 z1] [x2 y2 z2]; unfold vsub, vadd; cbn [vx vy vz]; apply V3_eq; ring).
    rewrite orthogonal_back in Hp by exact Q. exact Hp. }
  assert (SAx := SA). assert (SAy := SA'). destruct SAx as (Hc & Hb & Ha), SAy as (Hc' & Hb' & Ha').
  assert (Z : s = V3 0 0 0) by (apply (central a b c a' b' c' W); try lra; assumption).
  assert (V : forall v, vadd v (V3 0 0 0) = v) by (intros [x y z]; unfold vadd; cbn [vx vy vz]; apply V3_eq; ring).
  assert (HL' : forall u, level a' b' c' (mv W u) <= 1 <-> level a b c u <= 1) by (intros u; rewrite <- HL, Z, V; reflexivity).
  assert (EL : forall u, level a' b' c' (mv W u) = level a b c u).
  { intros u. apply Rle_antisym.
    - apply below; try lra. intros v Hv. apply HL', Hv.
    - assert (B := below a' b' c' a b c (mT W)). assert (X := fun h => B h ltac:(lra) ltac:(lra) ltac:(lra) ltac:(lra) ltac:(lra) ltac:(lra) (mv W u)). rewrite orthogonal_forth in X by exact OW.
      apply X. intros v Hv. apply HL'. rewrite orthogonal_back by exact OW. exact Hv. }
  destruct (same_axes a b c a' b' c' W SA SA' OW EL) as (-> & -> & ->).
  exists q, S, a, b, c, q', S', W. repeat (split; [first [assumption | reflexivity | (split; assumption)]|]).
  intros p. rewrite M, Z, V. reflexivity.
Qed.

(** ** One body *)
Lemma back_world q q' A W v : orthogonal q' -> W = mm (mm q' A) (mT q) -> mv (mT q') (mv W v) = mv A (mv (mT q) v).
Proof. intros Q ->. rewrite !mv_mm, orthogonal_forth by exact Q. reflexivity. Qed.

Lemma body_g_moves A t e e' : orthogonal A -> carries A t e e' -> ell_density e' = ell_density e -> forall p, body_g e' (motion A t p) = mv A (body_g e p).
Proof.
  intros OA H D p. destruct (ell_density e) as [rho|] eqn:De; [|unfold body_g; rewrite D, De, mv_zero; reflexivity].
  destruct (carries_frames A t e e' OA H) as (q & S & a & b & c & q' & S' & W & Q & Eq & So & Q' & Eq' & So' & LP & LP' & SA & K & EW & M).
  destruct (gravity_keeps a b c rho W SA K) as (g & GL & E).
  rewrite (body_g_world e rho q S a b c g Eq LP GL De), (body_g_world e' rho q' S' a b c g Eq' LP' GL D).
  unfold world. rewrite M, E. apply back_world; assumption.
Qed.

Lemma mv_vsum m l f : mv m (vsum l f) = vsum l (fun e => mv m (f e)).
Proof.
  unfold vsum. induction l as [|e l IH]; [unfold sum_over; cbn; apply mv_zero|]. rewrite !sum_over_cons.
  assert (X := f_equal vx IH). assert (Y := f_equal vy IH). assert (Z := f_equal vz IH). unfold mv, dot in X, Y, Z |- *; cbn [vx vy vz] in X, Y, Z |- *.
  apply V3_eq; lra.
Qed.

Lemma vsum_forall2 (P : ellipsoid -> ellipsoid -> Prop) l l' f f' : Forall2 P l l' -> (forall e e', P e e' -> f' e' = f e) -> vsum l' f' = vsum l f.
Proof.
  intros F H. induction F as [|e e' l l' He F IH]; [reflexivity|]. unfold vsum in *. rewrite !sum_over_cons, (H e e' He).
  injection IH as X Y Z. apply V3_eq; congruence.
Qed.

Section Magnetic.
Variable mu_0 : R.

Lemma cast_diag s : cast_susceptibility s = match s with None => diag 0 0 0 | Some (Isotropic k) => diag k k k | Some (Tensor m) => m end.
Proof. destruct s as [[k|m]|]; [| reflexivity | reflexivity]. unfold cast_susceptibility, mscale, eye, diag, vscale; cbn [vx vy vz row1 row2 row3]. apply M3_eq; ring. Qed.

Lemma local_susceptibility e q S : q = mm (mT S) (mT (rotation_matrix e)) -> mm (mm (mT S) (cast_susceptibility (ell_susceptibility e))) S = mm (mm q (world_susceptibility e)) (mT q).
Proof.
  intros ->. unfold world_susceptibility. rewrite <- cast_diag. set (X := cast_susceptibility _). set (r := rotation_matrix e).
  assert (R1 : mm (mT r) r = eye) by apply rotation_orthogonal.
  rewrite mT_mm, !mT_mT, !mm_assoc. rewrite <- (mm_assoc (mT r) r), R1, mm_eye_l. rewrite <- (mm_assoc (mT r) r S), R1, mm_eye_l. reflexivity.
Qed.

(** Turning the frame turns the system for the magnetisation and its solution. *)
Lemma turned_system ni W Y r : orthogonal W -> mm ni W = mm W ni ->
  (det (madd eye (mm ni Y)) = 0 /\ det (madd eye (mm ni (mm (mm W Y) (mT W)))) = 0) \/
  exists m, solve (madd eye (mm ni Y)) r = Ok m /\ solve (madd eye (mm ni (mm (mm W Y) (mT W)))) (mv W r) = Ok (mv W m).
Proof.
  intros O C. set (L := madd eye (mm ni Y)). set (L' := madd eye (mm ni (mm (mm W Y) (mT W)))).
  assert (E : L' = mm (mm W L) (mT W)).
  { unfold L', L. rewrite <- !mm_assoc, C. rewrite (mm_assoc W ni Y).
    assert (D : forall x y z, mm x (madd y z) = madd (mm x y) (mm x z)).
    { intros [[a1 a2 a3] [a4 a5 a6] [a7 a8 a9]] [[b1 b2 b3] [b4 b5 b6] [b7 b8 b9]] [[c1 c2 c3] [c4 c5 c6] [c7 c8 c9]]. unfold madd, vadd; cbn [vx vy vz row1 row2 row3].
      rewrite !mm_explicit. cbn [vx vy vz row1 row2 row3]. apply M3_eq; ring. }
    assert (D2 : forall x y z, mm (madd y z) x = madd (mm y x) (mm z x)).
    { intros [[a1 a2 a3] [a4 a5 a6] [a7 a8 a9]] [[b1 b2 b3] [b4 b5 b6] [b7 b8 b9]] [[c1 c2 c3] [c4 c5 c6] [c7 c8 c9]]. unfold madd, vadd; cbn [vx vy vz row1 row2 row3].
      rewrite !mm_explicit. cbn [vx vy vz row1 row2 row3]. apply M3_eq; ring. }
    rewrite D, D2, mm_eye_r, (proj1 O). reflexivity. }
  assert (DE : det L' = det L).
  { rewrite E, !det_mm, det_mT. assert (X := f_equal det (proj1 O)). rewrite det_mm, det_mT in X. replace (det eye) with 1 in X by (unfold det, eye; cbn; ring). replace (det W * det L * det W) with (det W * det W * det L) by ring. rewrite X. ring. }
  destruct (Req_dec (det L) 0) as [Z|Z]; [left; split; [exact Z | rewrite DE; exact Z] | right].
  destruct (solve_ok L r Z) as (m & Em & Hm). exists m. split; [exact Em|].
  destruct (solve_ok L' (mv W r)) as (m' & Em' & Hm'); [rewrite DE; exact Z|]. rewrite Em'. f_equal.
  destruct (solve_ok L (mv (mT W) (mv W r)) Z) as (m2 & _ & _). 
  assert (U : mv L (mv (mT W) m') = r).
  { assert (X := f_equal (mv (mT W)) Hm'). rewrite E, !mv_mm, !orthogonal_forth in X by exact O. exact X. }
  assert (Inj : forall x y, mv L x = mv L y -> x = y).
  { intros x y Exy. assert (Sx : forall z, solve L (mv L z) = Ok z).
    { clear -Z. intros [x y z]. clearbody L. destruct L as [[a b c] [d e f] [g h i]]. unfold solve.
      destruct (Reqb_spec (det (M3 (V3 a b c) (V3 d e f) (V3 g h i))) 0) as [Z0|Z0]; [contradiction|]. rewrite mv_explicit. unfold det in *; cbn [vx vy vz row1 row2 row3] in *. f_equal. apply V3_eq; field; exact Z. }
    assert (X := Sx x). rewrite Exy, Sx in X. injection X as ->. reflexivity. }
  rewrite <- (Inj (mv (mT W) m') m) by (rewrite U, Hm; reflexivity). rewrite orthogonal_back by exact O. reflexivity.
Qed.

Lemma body_b_moves A t e e' h : orthogonal A -> carries A t e e' -> magnetised_alike A e e' ->
  has_property e' = has_property e /\
  ((solvable mu_0 h e /\ solvable mu_0 (mv A h) e' /\ forall p, body_b mu_0 (mv A h) e' (motion A t p) = mv A (body_b mu_0 h e p)) \/
   (~ solvable mu_0 h e /\ ~ solvable mu_0 (mv A h) e')).
Proof.
  intros OA H (A1 & A2 & A3 & A4).
  assert (HP : has_property e' = has_property e).
  { unfold has_property. destruct (ell_susceptibility e) as [s|], (ell_susceptibility e') as [s'|], (ell_remanent e) as [r|], (ell_remanent e') as [r'|]; try reflexivity;
      exfalso; first [discriminate (proj2 A1 eq_refl) | discriminate (proj1 A1 eq_refl) | discriminate (proj2 A2 eq_refl) | discriminate (proj1 A2 eq_refl)]. }
  split; [exact HP|].
  destruct (has_property e) eqn:HPe.
  2: { left. split; [intros X; congruence|]. split; [intros X; congruence|]. intros p. unfold body_b. rewrite HP, HPe, mv_zero. reflexivity. }
  destruct (carries_frames A t e e' OA H) as (q & S & a & b & c & q' & S' & W & Q & Eq & So & Q' & Eq' & So' & LP & LP' & SA & K & EW & M).
  destruct (internal_keeps a b c W SA K) as (ni & Ei & Ci). destruct (external_keeps a b c W SA K) as (ext & Ee & Ce).
  assert (B := single_magnetic mu_0 e (ell_susceptibility e) (ell_remanent e) h q S a b c ni ext SA Eq LP Ei Ee).
  assert (B' := single_magnetic mu_0 e' (ell_susceptibility e') (ell_remanent e') (mv A h) q' S' a b c ni ext SA Eq' LP' Ei Ee).
  rewrite (local_susceptibility e q S Eq) in B. rewrite (local_susceptibility e' q' S' Eq') in B'.
  set (X := world_susceptibility e) in *. set (Y := mm (mm q X) (mT q)) in *.
  assert (EY : mm (mm q' (world_susceptibility e')) (mT q') = mm (mm W Y) (mT W)).
  { rewrite A3, EW. unfold Y. rewrite !mT_mm, !mT_mT, !mm_assoc. destruct Q as [_ Q2]. do 2 f_equal.
    rewrite <- (mm_assoc (mT q) q), Q2, mm_eye_l. f_equal. rewrite <- (mm_assoc (mT q) q), Q2, mm_eye_l. reflexivity. }
  set (r := vadd (mv q (cast_remanent_magnetization (ell_remanent e))) (mv Y (mv q h))) in *.
  assert (Er : vadd (mv q' (cast_remanent_magnetization (ell_remanent e'))) (mv (mm (mm q' (world_susceptibility e')) (mT q')) (mv q' (mv A h))) = mv W r).
  { change (cast_remanent_magnetization (ell_remanent e')) with (world_remanent e'). rewrite A4, EY. unfold r. rewrite mv_vadd.
    assert (F : forall v, mv q' (mv A v) = mv W (mv q v)) by (intros v; rewrite EW, !mv_mm, orthogonal_forth by exact Q; reflexivity).
    rewrite !F. f_equal. rewrite !mv_mm, orthogonal_forth by apply K. reflexivity. }
  rewrite Er, EY in B'. clear Er EY. assert (T := turned_system ni W Y r (proj1 K) Ci). destruct T as [[T1 T2] | (m & T1 & T2)].
  - right. split; intros X0.
    + destruct (X0 HPe) as (v & Hv). assert (B0 := B []). cbn [map] in B0. rewrite B0, solve_singular in Hv by exact T1. discriminate.
    + destruct (X0 HP) as (v & Hv). assert (B0 := B' []). cbn [map] in B0. rewrite B0, solve_singular in Hv by exact T2. discriminate.
  - left. rewrite T1 in B. rewrite T2 in B'. split; [intros _; exists []; apply (B [])|]. split; [intros _; exists []; apply (B' [])|].
    intros p. unfold body_b. rewrite HP, HPe. assert (B1 := B [p]). assert (B1' := B' [motion A t p]). cbn [map] in B1, B1'. rewrite B1, B1'.
    unfold world. rewrite M. set (u := mv q (vsub p (ell_center e))).
    rewrite <- (back_world q q' A W) by assumption. f_equal. unfold b_local. rewrite keeps_internal by exact K. destruct (is_internal u a b c) eqn:I.
    + rewrite mv_vscale, mv_vadd, !mv_mscale, !mv_vscale. rewrite <- (mv_mm ni W), Ci, mv_mm. reflexivity.
    + rewrite !mv_mscale, !mv_vscale. do 2 f_equal. apply Ce. destruct (Rle_or_lt 1 (level a b c u)) as [L|L]; [exact L | apply is_internal_level in L; congruence].
Qed.

(** A body whose system is singular makes the whole call fail. *)
Lemma magnetic_raises l sh ps F : Forall positive_axes l -> Exists (fun e => ~ solvable mu_0 (h0_of mu_0 F) e) l -> prod_shape sh = length ps ->
  ellipsoid_magnetic mu_0 (coordinates_of sh ps) (Several l) F = Raise LinAlgError.
Proof.
  intros Fp Ex Hs. unfold ellipsoid_magnetic, coordinates_of. rewrite broadcast3_same by reflexivity. cbn [bind ravel data shape as_list].
  assert (EH : V3 (vx (vscale (/ 10 ^ 9) F) / mu_0) (vy (vscale (/ 10 ^ 9) F) / mu_0) (vz (vscale (/ 10 ^ 9) F) / mu_0) = h0_of mu_0 F).
  { unfold h0_of, Rdiv. unfold vscale at 4. apply V3_eq; apply Rmult_comm. }
  rewrite EH. clear EH. set (h0 := h0_of mu_0 F) in *. clearbody h0. clear F.
  match goal with |- bind (for_ l ?f ?s0) _ = _ => assert (KK : for_ l f s0 = Raise LinAlgError); [|rewrite KK; reflexivity]; generalize s0; set (step := f) end.
  revert Fp Ex. induction l as [|e l IH]; intros Fp Ex st; [inversion Ex|]. cbn [for_].
  assert (P := Forall_inv Fp). assert (Fp' := Forall_inv_tail Fp).
  assert (St : (exists st', step e st = Ok st' /\ (solvable mu_0 h0 e)) \/ step e st = Raise LinAlgError).
  { unfold step. destruct st as [field n]. destruct (classic (solvable mu_0 h0 e)) as [So|So].
    - left. destruct (has_property e) eqn:HP.
      + assert (BO := body_b_ok mu_0 h0 e P So HP ps). unfold has_property in HP. destruct (ell_susceptibility e), (ell_remanent e); try discriminate HP; rewrite BO; cbn [bind]; eexists; (split; [reflexivity | exact So]).
      + unfold has_property in HP. destruct (ell_susceptibility e), (ell_remanent e); try discriminate HP. eexists; (split; [reflexivity | exact So]).
    - right. assert (HP : has_property e = true) by (destruct (has_property e) eqn:X; [reflexivity | exfalso; apply So; intros Y; congruence]).
      assert (BR := body_b_raises mu_0 h0 e P So ps). unfold has_property in HP. destruct (ell_susceptibility e), (ell_remanent e); try discriminate HP; rewrite BR; reflexivity. }
  destruct St as [(st' & E & So)|E]; rewrite E; cbn [bind]; [|reflexivity].
  apply IH; [exact Fp'|]. inversion Ex as [? ? N|? ? N]; [contradiction | exact N].
Qed.
End Magnetic.

Lemma h0_turn mu_0 A F : h0_of mu_0 (mv A F) = mv A (h0_of mu_0 F).
Proof. unfold h0_of. rewrite !mv_vscale. reflexivity. Qed.

Lemma several_gravity c x : ellipsoid_gravity c x = ellipsoid_gravity c (Several (as_list x)).
Proof. destruct x; reflexivity. Qed.
Lemma several_magnetic mu_0 c x F : ellipsoid_magnetic mu_0 c x F = ellipsoid_magnetic mu_0 c (Several (as_list x)) F.
Proof. destruct x; reflexivity. Qed.

Lemma filter_forall2 (P : ellipsoid -> ellipsoid -> Prop) (f : ellipsoid -> bool) l l' : Forall2 P l l' -> (forall e e', P e e' -> f e' = f e) -> length (filter f l') = length (filter f l).
Proof. intros F H. induction F as [|e e' l l' He F IH]; [reflexivity|]. cbn [filter]. rewrite (H e e' He). destruct (f e); cbn [length]; rewrite IH; reflexivity. Qed.
