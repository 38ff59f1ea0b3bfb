(** Lemmas for claim C99: fields of masses lie between the fields of the whole mass at the nearest and at the farthest place. *)
From Verif Require Import Base BaseFacts NumPy NumPyFacts DistanceModel DistanceSpec DistanceProofs PointGravityModel PointGravitySpec PointGravityProofs
  TesseroidModel TesseroidSpec TesseroidCheckProofs TesseroidAdaptProofs TesseroidProofs TesseroidFieldProofs.
Local Open Scope string_scope. Local Open Scope list_scope. Local Open Scope R_scope.
Local Opaque MAX_DISCRETIZATIONS STACK_SIZE.

Lemma weighted (ss : list source) (f : source -> R) lo hi :
  (forall s, In s ss -> 0 <= snd s) -> (forall s, In s ss -> snd s * lo <= f s <= snd s * hi) -> sum_over ss snd * lo <= sum_over ss f <= sum_over ss snd * hi.
Proof.
  induction ss as [|s ss IH]; intros H1 H2; [unfold sum_over; simpl; lra|]. rewrite !sum_over_cons.
  pose proof (H2 s ltac:(now left)). destruct IH as [I1 I2]; [intros; apply H1; now right|intros; apply H2; now right|]. rewrite !Rmult_plus_distr_r. unfold source in *. lra.
Qed.
Lemma newton_G_pos : 0 < newton_G.
Proof. unfold newton_G. lra. Qed.
Lemma inv_between l near far : 0 < near -> near <= l <= far -> / far <= / l <= / near.
Proof. intros H [H1 H2]. split; apply Rinv_le_contravar; lra. Qed.

Lemma potential_between m x y near far : 0 <= m -> 0 < near -> near <= eucl x y <= far ->
  m * (newton_G / far) <= newton_potential m x y <= m * (newton_G / near).
Proof.
  intros Hm Hn H. unfold newton_potential, Rdiv. pose proof (inv_between _ _ _ Hn H) as [I1 I2]. pose proof newton_G_pos.
  replace (newton_G * m * / eucl x y) with (m * (newton_G * / eucl x y)) by ring. split; apply Rmult_le_compat_l; try assumption; apply Rmult_le_compat_l; lra.
Qed.
Lemma dot_le_norms u v : dot u v <= norm u * norm v.
Proof. eapply Rle_trans; [apply Rle_abs|apply cauchy_schwarz_norm]. Qed.
Lemma accel_between m x y d h near far : 0 <= m -> 0 < near -> near <= eucl x y <= far -> norm d = 1 -> 0 <= h <= dot (vsub y x) d ->
  m * (newton_G * h / far ^ 3) <= newton_accel m x y d <= m * (newton_G / near ^ 2).
Proof.
  intros Hm Hn H Hd [Hh0 Hh]. unfold newton_accel. pose proof newton_G_pos as GP. set (l := eucl x y) in *.
  assert (L : dot (vscale (newton_G * m / l ^ 3) (vsub y x)) d = m * (newton_G * (dot (vsub y x) d / l ^ 3))).
  { unfold dot, vscale. destruct (vsub y x), d. cbn. unfold Rdiv. ring. }
  rewrite L. assert (U : dot (vsub y x) d <= l). { pose proof (dot_le_norms (vsub y x) d) as K. rewrite Hd, Rmult_1_r in K. unfold l. rewrite eucl_sym. exact K. }
  assert (P3 : 0 < l ^ 3) by (apply pow_lt; lra).
  split; (apply Rmult_le_compat_l; [assumption|]); unfold Rdiv; rewrite ?Rmult_assoc; (apply Rmult_le_compat_l; [lra|]).
  - apply Rmult_le_compat; try assumption; [left; apply Rinv_0_lt_compat, pow_lt; lra|]. apply Rinv_le_contravar; [assumption|]. apply pow_incr. lra.
  - apply Rle_trans with (l * / l ^ 3); [apply Rmult_le_compat_r; [left; now apply Rinv_0_lt_compat|assumption]|].
    replace (l * / l ^ 3) with (/ l ^ 2) by (field; lra). apply Rinv_le_contravar; [apply pow_lt; lra|]. apply pow_incr. lra.
Qed.

(** Directions *)
Lemma norm_down : norm e_down = 1.
Proof. unfold norm, dot, e_down. cbn. replace (0 * 0 + 0 * 0 + -1 * -1) with 1 by ring. apply sqrt_1. Qed.
Lemma norm_sph_down p : norm (sph_down p) = 1.
Proof.
  destruct p as [[lon lat] r]. unfold norm, dot, sph_down, vscale, sph_position. cbn. transitivity (sqrt 1); [f_equal|apply sqrt_1].
  pose proof (sin2_cos2 (radians lat)) as A. pose proof (sin2_cos2 (radians lon)) as B. unfold Rsqr in *. set (a := sin (radians lat)) in *. set (b := cos (radians lat)) in *. set (c := sin (radians lon)) in *. set (d := cos (radians lon)) in *.
  transitivity (b * b * (c * c + d * d) + a * a); [ring|rewrite B; lra].
Qed.
Lemma norm_sph p : 0 <= thd3 p -> norm (sph_position p) = thd3 p.
Proof.
  destruct p as [[lon lat] r]. unfold thd3, norm, dot, sph_position. cbn. intros Hr.
  pose proof (sin2_cos2 (radians lat)) as A. pose proof (sin2_cos2 (radians lon)) as B. unfold Rsqr in *. set (a := sin (radians lat)) in *. set (b := cos (radians lat)) in *. set (c := sin (radians lon)) in *. set (d := cos (radians lon)) in *.
  transitivity (sqrt (r * r)); [f_equal|now apply sqrt_square]. transitivity (r * r * (b * b * (c * c + d * d) + a * a)); [ring|]. rewrite B, Rmult_1_r. replace (b * b + a * a) with 1 by lra. ring.
Qed.
Lemma fall_sph p q : 0 <= thd3 q -> thd3 p - thd3 q <= dot (vsub (sph_position q) (sph_position p)) (sph_down p).
Proof.
  intros Hq. pose proof (dot_le_norms (sph_position q) (vscale (-1) (sph_down p))) as K.
  assert (N : norm (vscale (-1) (sph_down p)) = 1).
  { rewrite <- (norm_sph_down p). unfold norm, dot, vscale. destruct (sph_down p). cbn. f_equal. ring. }
  rewrite N, Rmult_1_r, norm_sph in K by assumption.
  assert (E : dot (vsub (sph_position q) (sph_position p)) (sph_down p) = thd3 p - dot (sph_position q) (vscale (-1) (sph_down p))); [|lra].
  destruct p as [[lon lat] r], q as [[lon' lat'] r']. unfold thd3, dot, vsub, vscale, sph_down, sph_position. cbn.
  pose proof (sin2_cos2 (radians lat)) as A. pose proof (sin2_cos2 (radians lon)) as B. unfold Rsqr in *.
  set (a := sin (radians lat)) in *. set (b := cos (radians lat)) in *. set (c := sin (radians lon)) in *. set (d := cos (radians lon)) in *.
  assert (r = r * (b * b * (c * c + d * d) + a * a)) as E1 by (rewrite B, Rmult_1_r; replace (b * b + a * a) with 1 by lra; ring). transitivity (r * (b * b * (c * c + d * d) + a * a) - (r' * cos (radians lat') * cos (radians lon') * (b * d) + r' * cos (radians lat') * sin (radians lon') * (b * c) + r' * sin (radians lat') * a)); [ring|rewrite <- E1; ring].
Qed.
Lemma fall_cart p q : dot (vsub (cart_position q) (cart_position p)) e_down = thd3 p - thd3 q.
Proof. destruct p as [[a b] c], q as [[d e] f]. unfold dot, vsub, cart_position, e_down, vscale, thd3. cbn. ring. Qed.

(** Point masses of a tesseroid *)
Lemma glq_nonneg x d s : box x -> -90 <= south x -> north x <= 90 -> 0 <= d -> In s (glq_sources x d) -> 0 <= snd s.
Proof.
  intros (B1 & B2 & B3) S N D H.
  assert (K : exists a b c, (b = -1 \/ b = 1) /\ s = glq_source x d a b c).
  { unfold glq_sources in H. apply in_flat_map in H. destruct H as (b & Hb & H). apply in_flat_map in H. destruct H as (c & Hc & H). apply in_map_iff in H. destruct H as (a & <- & Ha).
    exists a, b, c. split; [|reflexivity]. destruct Hb as [<-|[<-|[]]]; auto. }
  destruct K as (a & b & c & Hb & ->). unfold glq_source. cbn [snd]. pose proof sqrt3_pos as S3.
  assert (Q : 1 <= sqrt 3) by (rewrite <- sqrt_1; apply sqrt_le_1; lra).
  assert (Q2 : 0 < / sqrt 3 <= 1) by (split; [now apply Rinv_0_lt_compat|rewrite <- Rinv_1; apply Rinv_le_contravar; lra]).
  set (lat := (south x + north x) / 2 + b * ((north x - south x) / 2) / sqrt 3).
  assert (HL : -90 <= lat <= 90).
  { unfold lat. set (h := (north x - south x) / 2). assert (0 <= h) by (unfold h; lra). assert (0 <= h * / sqrt 3 <= h) by (split; [apply Rmult_le_pos; lra|nra]). unfold Rdiv. rewrite (Rmult_assoc b). unfold h in *. destruct Hb as [-> | ->]; lra. }
  assert (HC : 0 <= cos (radians lat)) by (apply cos_ge_0; [replace (- (PI / 2)) with (radians (-90)) by (unfold radians; field)|rewrite <- radians_90]; apply radians_le; lra).
  assert (R1 : forall u v, u <= v -> 0 <= radians (v - u)) by (intros u v L; rewrite radians_minus; pose proof (radians_le u v L); lra).
  unfold Rdiv. apply Rmult_le_pos; [|lra]. apply Rmult_le_pos.
  - apply Rmult_le_pos; [assumption|]. apply Rmult_le_pos; [apply pow2_ge_0|assumption].
  - apply Rmult_le_pos; [apply Rmult_le_pos; now apply R1|lra].
Qed.

Section Tess.
Variables (field : string) (radial : bool) (p : point) (f : source -> R).
(** The sum over the point masses of one tesseroid. *)
Lemma tess_between t d lo hi : box t -> -90 <= south t -> north t <= 90 -> 0 <= bottom t -> 0 <= d -> 0 <= lo <= hi ->
  (is_null t d = false -> (forall q m, in_closed t q -> 0 <= m -> m * lo <= f (q, m) <= m * hi)) -> discretisable field radial p (t, d) ->
  19 / 20 * (d * volume t * lo) <= (if is_null t d then 0 else sum_over (tess_sources field radial p (t, d)) f) <= d * volume t * hi.
Proof.
  intros B S N Bt D Hl H E. unfold discretisable in E. cbn [fst snd] in E. destruct (is_null t d) eqn:Nu.
  - apply is_null_spec in Nu. replace (d * volume t) with 0; [lra|]. unfold volume. destruct Nu as [->|[->|[->| ->]]]; unfold Rdiv; ring.
  - destruct (E eq_refl) as [out O]. specialize (H eq_refl).
    assert (Ft : fat t). { unfold fat, box in *. assert (K : ~ null t d) by (intros K; apply is_null_spec in K; congruence). unfold null in K. repeat split; apply Rnot_le_lt; intros Q; apply K; [left|right; left|right; right; left]; lra. }
    pose proof (tess_sources_mass field radial p t d out B S N Bt D O) as [M1 M2].
    assert (NN : forall s, In s (tess_sources field radial p (t, d)) -> 0 <= snd s).
    { intros s. unfold tess_sources. cbn [fst snd]. rewrite O. intros Hs. apply in_flat_map in Hs. destruct Hs as (x & Hx & Hs). pose proof (discretise_box _ _ _ _ _ _ _ B O) as FB. rewrite Forall_forall in FB. destruct (FB x Hx) as (B1 & B2 & B3 & B4). apply (glq_nonneg x d); auto; lra. }
    destruct (weighted (tess_sources field radial p (t, d)) f lo hi NN) as [W1 W2].
    { intros [q m] Hs. apply H; [|exact (NN _ Hs)]. pose proof (tess_sources_inside field radial p t d (q, m) Ft Hs) as I. cbn [fst] in I. destruct q as [[a b] c]. unfold in_open, in_closed in *. lra. }
    split; [eapply Rle_trans; [|exact W1]|eapply Rle_trans; [exact W2|]].
    + rewrite <- Rmult_assoc. apply Rmult_le_compat_r; [lra|]. exact M1.
    + apply Rmult_le_compat_r; [lra|]. exact M2.
Qed.
(** And of all. *)
Lemma all_between (lo hi : tess -> R) tds :
  Forall (fun td : tess * R => box (fst td) /\ -90 <= south (fst td) /\ north (fst td) <= 90 /\ 0 <= bottom (fst td) /\ 0 <= snd td) tds ->
  Forall (discretisable field radial p) tds ->
  (forall t d, In (t, d) tds -> 0 <= lo t <= hi t /\ (is_null t d = false -> forall q m, in_closed t q -> 0 <= m -> m * lo t <= f (q, m) <= m * hi t)) ->
  19 / 20 * sum_over tds (fun td => snd td * volume (fst td) * lo (fst td)) <= sum_over (all_sources field radial tds p) f <= sum_over tds (fun td => snd td * volume (fst td) * hi (fst td)).
Proof.
  unfold all_sources, kept. rewrite sum_over_flat_map. induction tds as [|[t d] tds IH]; intros V D H; [unfold sum_over; simpl; lra|].
  inversion V as [|? ? V1 V2]; inversion D as [|? ? D1 D2]; subst. cbn [fst snd] in V1. destruct V1 as (B & S & N & Bt & Dd). destruct (H t d ltac:(now left)) as [Hl Hq].
  pose proof (tess_between t d (lo t) (hi t) B S N Bt Dd Hl Hq D1) as [T1 T2]. destruct IH as [I1 I2]; [assumption|assumption|intros; apply H; now right|].
  rewrite !sum_over_cons. cbn [fst snd filter]. destruct (is_null t d); cbn [negb]; [lra|]. rewrite sum_over_cons. lra.
Qed.
End Tess.
