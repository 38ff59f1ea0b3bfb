From Coquelicot Require Import Coquelicot.
From Verif Require Import Base BaseFacts NumPy DistanceModel PointGravityModel UtilsModel.
Local Open Scope string_scope. Local Open Scope list_scope. Local Open Scope R_scope.

(** ** arctan2 *)
Lemma cos_atan_pos z : 0 < cos (atan z).
Proof. destruct (atan_bound z). apply cos_gt_0; lra. Qed.
Lemma cos_sin_atan z : cos (atan z) = / sqrt (1 + z ^ 2) /\ sin (atan z) = z / sqrt (1 + z ^ 2).
Proof.
  pose proof (cos_atan_pos z) as Hc. pose proof (tan_atan z) as Ht. unfold tan in Ht.
  assert (Hs : sin (atan z) = z * cos (atan z)) by (rewrite <- Ht at 2; field; lra).
  pose proof (sin2_cos2 (atan z)) as H. unfold Rsqr in H. rewrite Hs in H.
  assert (Hq : 1 + z ^ 2 = (/ cos (atan z)) ^ 2).
  { apply (Rmult_eq_reg_r (cos (atan z) ^ 2)); [|apply pow_nonzero; lra]. rewrite <- Rpow_mult_distr, Rinv_l, pow1 by lra. ring_simplify. ring_simplify in H. lra. }
  assert (Hi : 0 < / cos (atan z)) by now apply Rinv_0_lt_compat.
  rewrite Hq, sqrt_pow2 by lra. rewrite Rinv_inv. split; [reflexivity|]. unfold Rdiv. rewrite Rinv_inv. exact Hs.
Qed.
Lemma sqrt_scale x y : x <> 0 -> sqrt (1 + (y / x) ^ 2) = sqrt (x ^ 2 + y ^ 2) / Rabs x.
Proof.
  intros Hx. assert (Ha : 0 < Rabs x) by now apply Rabs_pos_lt.
  replace (1 + (y / x) ^ 2) with ((x ^ 2 + y ^ 2) / (Rabs x) ^ 2).
  - rewrite sqrt_div_alt by (apply pow_lt; assumption). rewrite sqrt_pow2 by lra. reflexivity.
  - rewrite pow2_abs. field. assumption.
Qed.
Lemma norm2_pos x y : x <> 0 \/ y <> 0 -> 0 < sqrt (x ^ 2 + y ^ 2).
Proof. intros H. apply sqrt_lt_R0. destruct H as [H|H]; [pose proof (pow2_gt_0 x H); pose proof (pow2_ge_0 y)|pose proof (pow2_gt_0 y H); pose proof (pow2_ge_0 x)]; lra. Qed.

Lemma arctan2_spec y x : x <> 0 \/ y <> 0 ->
  sqrt (x ^ 2 + y ^ 2) * cos (arctan2 y x) = x /\ sqrt (x ^ 2 + y ^ 2) * sin (arctan2 y x) = y /\ - PI < arctan2 y x <= PI.
Proof.
  intros H. pose proof (norm2_pos x y H) as Hn. set (r := sqrt (x ^ 2 + y ^ 2)) in *. pose proof PI_RGT_0 as HP. unfold arctan2.
  assert (K : x <> 0 -> cos (atan (y / x)) = Rabs x / r /\ sin (atan (y / x)) = y / x * (Rabs x / r)).
  { intros Hx. destruct (cos_sin_atan (y / x)) as [-> ->]. rewrite sqrt_scale by assumption. fold r. assert (Rabs x <> 0) by (apply Rabs_no_R0; assumption). split; field; repeat split; try assumption; lra. }
  pose proof (atan_bound (y / x)) as Hb.
  destruct (Rlt_dec 0 x) as [Hx|Hx]; [|destruct (Rlt_dec x 0) as [Hx'|Hx']].
  - destruct K as [-> ->]; [lra|]. rewrite Rabs_pos_eq by lra. split; [field; lra|]. split; [field; lra|lra].
  - destruct K as [Kc Ks]; [lra|]. rewrite Rabs_left in Kc, Ks by lra.
    assert (Hs : forall z, y / x * z = y * (z / x)) by (intros; field; lra).
    destruct (Rle_dec 0 y) as [Hy|Hy].
    + rewrite neg_cos, neg_sin, Kc, Ks. split; [field; lra|]. split; [field; lra|].
      assert (atan (y / x) <= 0); [|lra]. destruct (Req_dec y 0) as [->|Hy0]; [replace (0 / x) with 0 by (field; lra); rewrite atan_0; lra|].
      rewrite <- atan_0. left. apply atan_increasing. assert (0 < - (y / x)); [|lra]. replace (- (y / x)) with (y / (- x)) by (field; lra). apply Rdiv_lt_0_compat; lra.
    + replace (atan (y / x) - PI) with (- (PI - atan (y / x))) by ring. rewrite cos_neg, sin_neg, Rtrigo_facts.cos_pi_minus, Rtrigo_facts.sin_pi_minus, Kc, Ks.
      split; [field; lra|]. split; [field; lra|].
      assert (0 < atan (y / x)); [|lra]. rewrite <- atan_0. apply atan_increasing. replace (y / x) with ((- y) / (- x)) by (field; lra). apply Rdiv_lt_0_compat; lra.
  - assert (x = 0) by lra. subst x. assert (Hr : r = Rabs y) by (unfold r; rewrite pow_i, Rplus_0_l by lia; rewrite <- Rsqr_pow2; apply sqrt_Rsqr_abs).
    destruct (Rlt_dec 0 y) as [Hy|Hy]; [|destruct (Rlt_dec y 0) as [Hy'|Hy']].
    + rewrite cos_PI2, sin_PI2, Hr, Rabs_pos_eq by lra. split; [ring|]. split; [ring|lra].
    + replace (- PI / 2) with (- (PI / 2)) by field. rewrite cos_neg, sin_neg, cos_PI2, sin_PI2, Hr, Rabs_left by lra. split; [ring|]. split; [ring|lra].
    + destruct H; lra.
Qed.
Lemma angle_unique a b : - PI < a <= PI -> - PI < b <= PI -> cos a = cos b -> sin a = sin b -> a = b.
Proof.
  intros Ha Hb Hc Hs. assert (E : cos (a - b) = 1) by (rewrite cos_minus, Hc, Hs; pose proof (sin2_cos2 b) as H; unfold Rsqr in H; lra).
  destruct (Req_dec a b) as [->|N]; [reflexivity|]. exfalso.
  set (h := (a - b) / 2). assert (E2 : sin h = 0).
  { replace (a - b) with (2 * h) in E by (unfold h; field). rewrite cos_2a_sin in E. assert (sin h * sin h = 0) by lra. destruct (Rmult_integral _ _ H); assumption. }
  assert (Hh : - PI < h < PI) by (unfold h; lra). assert (h <> 0) by (unfold h; lra).
  destruct (Rlt_dec 0 h) as [P|P]; [pose proof (sin_gt_0 h P); lra|]. assert (0 < sin (- h)) by (apply sin_gt_0; lra). rewrite sin_neg in H0. lra.
Qed.
Lemma arctan2_polar r t : 0 < r -> - PI < t <= PI -> arctan2 (r * sin t) (r * cos t) = t.
Proof.
  intros Hr Ht. pose proof (sin2_cos2 t) as H. unfold Rsqr in H.
  assert (N : r * cos t <> 0 \/ r * sin t <> 0).
  { destruct (Req_dec (cos t) 0) as [E|E]; [right|left]; apply Rmult_integral_contrapositive_currified; try lra. intros E2. rewrite E, E2 in H. lra. }
  destruct (arctan2_spec (r * sin t) (r * cos t) N) as (E1 & E2 & B).
  assert (Q : sqrt ((r * cos t) ^ 2 + (r * sin t) ^ 2) = r).
  { replace ((r * cos t) ^ 2 + (r * sin t) ^ 2) with (r ^ 2 * (sin t * sin t + cos t * cos t)) by ring. rewrite H, Rmult_1_r. apply sqrt_pow2. lra. }
  rewrite Q in *. apply angle_unique; try assumption; apply (Rmult_eq_reg_l r); lra.
Qed.

(** ** Angles and vectors *)
Lemma degrees_radians x : degrees (radians x) = x.
Proof. unfold degrees, radians. field. apply PI_neq0. Qed.
Lemma radians_degrees x : radians (degrees x) = x.
Proof. unfold degrees, radians. field. apply PI_neq0. Qed.

Lemma horizontal_norm f c s d : 0 <= f * c -> f * c = sqrt ((f * c * sin d) ^ 2 + (f * c * cos d) ^ 2) /\ sqrt ((f * c * sin d) ^ 2 + (f * c * cos d) ^ 2 + (- f * s) ^ 2) = sqrt (f ^ 2 * (s * s + c * c)).
Proof.
  intros H. pose proof (sin2_cos2 d) as K. unfold Rsqr in K. assert (E : (f * c * sin d) ^ 2 + (f * c * cos d) ^ 2 = (f * c) ^ 2).
  { replace ((f * c * sin d) ^ 2 + (f * c * cos d) ^ 2) with ((f * c) ^ 2 * (sin d * sin d + cos d * cos d)) by ring. rewrite K. ring. }
  rewrite E. split; [symmetry; now apply sqrt_pow2|]. f_equal. ring.
Qed.

Lemma angles_round_trip f i d : 0 < f -> -90 < i < 90 -> -180 < d <= 180 ->
  let '(e, n, u) := magnetic_angles_to_vec f i d in magnetic_vec_to_angles e n u true = (f, i, d).
Proof.
  intros Hf Hi Hd. unfold magnetic_angles_to_vec, magnetic_vec_to_angles. pose proof PI_RGT_0 as HP.
  assert (Bi : - (PI / 2) < radians i < PI / 2) by (unfold radians; split; nra). assert (Bd : - PI < radians d <= PI) by (unfold radians; split; nra).
  assert (Hc : 0 < cos (radians i)) by (apply cos_gt_0; lra). assert (Hfc : 0 < f * cos (radians i)) by nra.
  destruct (horizontal_norm f (cos (radians i)) (sin (radians i)) (radians d)) as [E1 E2]; [lra|]. rewrite <- E1, E2.
  pose proof (sin2_cos2 (radians i)) as K. unfold Rsqr in K. rewrite K, Rmult_1_r, sqrt_pow2 by lra.
  replace (- (- f * sin (radians i))) with (f * sin (radians i)) by ring. rewrite !arctan2_polar by lra. rewrite !degrees_radians. reflexivity.
Qed.
Lemma vec_round_trip e n u : let '(f, i, d) := magnetic_vec_to_angles e n u true in magnetic_angles_to_vec f i d = (e, n, u).
Proof.
  unfold magnetic_angles_to_vec, magnetic_vec_to_angles. rewrite !radians_degrees. set (h := sqrt (e ^ 2 + n ^ 2)).
  assert (Hh2 : h ^ 2 = e ^ 2 + n ^ 2) by (unfold h; apply pow2_sqrt; pose proof (pow2_ge_0 e); pose proof (pow2_ge_0 n); lra).
  assert (Hh : 0 <= h) by apply sqrt_pos. set (f := sqrt (e ^ 2 + n ^ 2 + u ^ 2)).
  assert (A : f * cos (arctan2 (- u) h) = h /\ f * sin (arctan2 (- u) h) = - u).
  { destruct (Req_dec u 0) as [->|Hu]; [destruct (Req_dec h 0) as [Hz|Hz]|].
    - assert (f = 0) as ->. { unfold f. rewrite <- Hh2, Hz. replace (0 ^ 2 + 0 ^ 2) with 0 by ring. apply sqrt_0. } rewrite Hz. split; ring.
    - destruct (arctan2_spec (- 0) h) as (E1 & E2 & _); [now left|]. replace f with (sqrt (h ^ 2 + (- 0) ^ 2)); [split; assumption|]. unfold f. f_equal. rewrite Hh2. ring.
    - destruct (arctan2_spec (- u) h) as (E1 & E2 & _); [right; lra|]. replace f with (sqrt (h ^ 2 + (- u) ^ 2)); [split; assumption|]. unfold f. f_equal. rewrite Hh2. ring. }
  assert (B : h * cos (arctan2 e n) = n /\ h * sin (arctan2 e n) = e).
  { destruct (Req_dec h 0) as [Hz|Hz].
    - assert (e = 0 /\ n = 0) as [-> ->]; [|rewrite Hz; split; ring]. rewrite Hz in Hh2. split.
      + pose proof (pow2_ge_0 n). assert (e ^ 2 = 0) by (pose proof (pow2_ge_0 e); lra). destruct (Req_dec e 0); [assumption|]. pose proof (pow2_gt_0 e H1). lra.
      + pose proof (pow2_ge_0 e). assert (n ^ 2 = 0) by (pose proof (pow2_ge_0 n); lra). destruct (Req_dec n 0); [assumption|]. pose proof (pow2_gt_0 n H1). lra.
    - destruct (arctan2_spec e n) as (E1 & E2 & _).
      + destruct (Req_dec n 0) as [->|?]; [right|now left]. intros ->. apply Hz. unfold h. replace (0 ^ 2 + 0 ^ 2) with 0 by ring. apply sqrt_0.
      + replace h with (sqrt (n ^ 2 + e ^ 2)); [split; assumption|]. unfold h. f_equal. ring. }
  destruct A as [A1 A2], B as [B1 B2]. rewrite A1, B1, B2. repeat f_equal. rewrite Ropp_mult_distr_l_reverse, A2. ring.
Qed.
Lemma vec_intensity f i d : 0 <= f -> let '(e, n, u) := magnetic_angles_to_vec f i d in norm (V3 e n u) = f.
Proof.
  intros Hf. unfold magnetic_angles_to_vec, norm, dot. cbn [vx vy vz].
  pose proof (sin2_cos2 (radians i)) as K. pose proof (sin2_cos2 (radians d)) as K2. unfold Rsqr in *.
  match goal with |- sqrt ?x = _ => replace x with (f ^ 2 * (sin (radians i) * sin (radians i) + cos (radians i) * cos (radians i) * (sin (radians d) * sin (radians d) + cos (radians d) * cos (radians d)))) by ring end.
  rewrite K2, Rmult_1_r, K, Rmult_1_r. now apply sqrt_pow2.
Qed.

(** ** Bouguer *)
Definition bouguer1 (dc dw : R) (h : R) : R := 10 ^ 5 * 2 * PI * GRAVITATIONAL_CONST * (if Rlt_dec h 0 then dc - dw else dc) * h.
Lemma bouguer_nth topo dc dw i : (i < length topo)%nat ->
  nth i (bouguer_correction topo dc dw) NaN = match nth i topo NaN with NaN => NaN | Fin h => Fin (bouguer1 dc dw h) end.
Proof.
  unfold bouguer_correction. revert i. induction topo as [|t topo IH]; intros [|i] H; cbn [length] in H; try lia; cbn [map combine nth].
  - destruct t as [|h]; cbn; [reflexivity|]. f_equal. unfold bouguer1, Rltb. destruct (Rlt_dec h 0); ring.
  - apply IH. lia.
Qed.
Lemma bouguer_length topo dc dw : length (bouguer_correction topo dc dw) = length topo.
Proof. unfold bouguer_correction. rewrite map_length, combine_length, !map_length. lia. Qed.

(** ** Airy *)
Lemma elts_binary op a b n i : (i < n)%nat -> (forall s, value_size a = Some s -> s = n) -> (forall s, value_size b = Some s -> s = n) ->
  nth i (elts (binary op a b) n) 0 = op (nth i (elts a n) 0) (nth i (elts b n) 0)
  /\ (forall s, value_size (binary op a b) = Some s -> s = n).
Proof.
  intros Hi Ha Hb.
  assert (M : forall (f : R -> R) l, length l = n -> nth i (map f l) 0 = f (nth i l 0)) by (intros f l E; rewrite (nth_indep _ 0 (f 0)) by (rewrite map_length; lia); apply map_nth).
  assert (Z : forall l l', length l = n -> length l' = n -> nth i (zip_with op l l') 0 = op (nth i l 0) (nth i l' 0)).
  { intros l l' E E'. unfold zip_with. rewrite (nth_indep _ 0 ((fun xy => op (fst xy) (snd xy)) (0, 0))) by (rewrite map_length, combine_length; lia).
    rewrite (map_nth (fun xy => op (fst xy) (snd xy))), combine_nth by lia. reflexivity. }
  assert (ZL : forall l l', length l = n -> length l' = n -> length (zip_with op l l') = n) by (intros; unfold zip_with; rewrite map_length, combine_length; lia).
  assert (RP : forall x, nth i (repeat x n) 0 = x) by (intros x; rewrite (nth_indep _ 0 x) by (rewrite repeat_length; lia); apply nth_repeat).
  destruct a as [x|l|l]; destruct b as [y|l'|l']; cbn [value_size binary elts] in *;
    try specialize (Ha _ eq_refl); try specialize (Hb _ eq_refl); rewrite ?RP, ?M, ?Z by assumption; (split; [reflexivity|]); intros s [= <-]; rewrite ?map_length; auto.
Qed.
Definition sized (n : nat) (v : value) : Prop := forall s, value_size v = Some s -> s = n.
Definition at_ (v : value) (n i : nat) : R := nth i (elts v n) 0.
Lemma truediv_at a b n i : (i < n)%nat -> sized n a -> sized n b -> at_ (truediv a b) n i = at_ a n i / at_ b n i /\ sized n (truediv a b).
Proof.
  intros Hi Ha Hb. destruct (elts_binary Rdiv a b n i Hi Ha Hb) as [E S]. unfold truediv, at_, sized in *. destruct (binary Rdiv a b); cbn in *; auto.
Qed.
Lemma no_int_add s v s' : iadd s v = Ok s' -> s' = binary Rplus s v.
Proof. unfold iadd. destruct s, v; intros [= <-]; reflexivity. Qed.
Lemma layers_sum n i ls : (i < n)%nat -> Forall (fun td => sized n (fst td) /\ sized n (snd td)) ls -> forall s0 s, sized n s0 ->
  for_ ls (fun td s => iadd s (binary Rmult (fst td) (snd td))) s0 = Ok s -> at_ s n i = at_ s0 n i + sum_over ls (fun td => at_ (fst td) n i * at_ (snd td) n i) /\ sized n s.
Proof.
  intros Hi. induction ls as [|td ls IH]; intros F s0 s S0 H; cbn [for_] in H.
  - injection H as <-. unfold sum_over. cbn. split; [ring|assumption].
  - inversion F as [|? ? [F1 F2] F3]; subst. destruct (iadd s0 _) as [s1|] eqn:E; [|discriminate]. cbn [bind] in H. apply no_int_add in E. subst s1.
    destruct (elts_binary Rmult _ _ n i Hi F1 F2) as [E1 S1]. destruct (elts_binary Rplus _ _ n i Hi S0 S1) as [E2 S2].
    destruct (IH F3 _ _ S2 H) as [E3 S3]. split; [|assumption]. rewrite E3, sum_over_cons. unfold at_ in *. rewrite E2, E1. ring.
Qed.
Lemma moho_value basement layers dc dm h v n i : (i < n)%nat -> sized n basement -> sized n dc -> sized n dm -> sized n h ->
  Forall (fun td => sized n (fst td) /\ sized n (snd td)) (match layers with None => [] | Some ls => ls end) ->
  isostatic_moho_airy basement layers dc dm h = Ok v ->
  at_ v n i = (at_ basement n i + sum_over (match layers with None => [] | Some ls => ls end) (fun td => at_ (fst td) n i * at_ (snd td) n i) / at_ dc n i) * (at_ dc n i / (at_ dm n i - at_ dc n i)) + at_ h n i.
Proof.
  intros Hi Sb Sc_ Sm Sh F H. unfold isostatic_moho_airy in H.
  assert (K : exists t, (match layers with None => Ok (Sc 0) | Some ls => do s <- for_ ls (fun td s => iadd s (binary Rmult (fst td) (snd td))) (Sc 0); itruediv s dc end) = Ok t
     /\ sized n t /\ at_ t n i = sum_over (match layers with None => [] | Some ls => ls end) (fun td => at_ (fst td) n i * at_ (snd td) n i) / at_ dc n i).
  { assert (Z0 : at_ (Sc 0) n i = 0) by (unfold at_, elts; apply nth_repeat).
    destruct layers as [ls|].
    - destruct (for_ ls _ (Sc 0)) as [s|] eqn:E; [|discriminate]. cbn [bind] in H |- *. destruct (layers_sum n i ls Hi F (Sc 0) s) as [E1 S1]; [intros ? [=]|assumption|]. rewrite Z0 in E1.
      destruct (truediv_at s dc n i Hi S1 Sc_) as [E2 S2]. unfold itruediv in *. destruct s as [x|l|l]; [|discriminate|].
      + eexists. split; [reflexivity|]. split; [exact S2|]. change (at_ (truediv (Sc x) dc) n i = sum_over ls (fun td => at_ (fst td) n i * at_ (snd td) n i) / at_ dc n i). rewrite E2, E1, Rplus_0_l. reflexivity.
      + eexists. split; [reflexivity|]. split; [exact S2|]. change (at_ (truediv (FloatArr l) dc) n i = sum_over ls (fun td => at_ (fst td) n i * at_ (snd td) n i) / at_ dc n i). rewrite E2, E1, Rplus_0_l. reflexivity.
    - exists (Sc 0). split; [reflexivity|]. split; [intros ? [=]|]. rewrite Z0. unfold sum_over. cbn. unfold Rdiv. ring. }
  destruct K as (t & Et & St & At). rewrite Et in H. cbn [bind] in H. injection H as <-.
  destruct (elts_binary Rplus _ _ n i Hi Sb St) as [E1 S1]. destruct (elts_binary Rminus _ _ n i Hi Sm Sc_) as [E2 S2]. destruct (truediv_at dc _ n i Hi Sc_ S2) as [E3 S3].
  destruct (elts_binary Rmult _ _ n i Hi S1 S3) as [E4 S4]. destruct (elts_binary Rplus _ _ n i Hi S4 Sh) as [E5 _]. unfold at_ in *. rewrite E5, E4, E3, E2, E1, At. reflexivity.
Qed.
