(** C96: fitted equivalent sources depend linearly on the data and not on their order, and damping
    trades misfit for smaller coefficients. *)
From Coq Require Import Psatz Permutation.
From Verif Require Import Base BaseFacts NumPy NumPyFacts DistanceModel DistanceSpec PointGravitySpec PointGravityProofs
  LegendreModel EqsModel EqsSpec EqsProofs EqsFitProofs EqsBoostProofs EqsWindowProofs EqsProps EqsFieldProofs EqsExactSpec EqsExactFitProofs EqsLinearSpec EqsLinearProofs.
Local Open Scope string_scope. Local Open Scope list_scope. Local Open Scope R_scope.

Local Notation cart := cart_position.
Local Notation sphe := sph_position.

(** ** Data *)
Lemma fit_fitted ls avg nd self sh ds d w self' qs : dt self = float64 -> length d = length ds ->
  solves_all ls (design cart ds qs) (option_map data w) (damping self) ->
  fit ls avg nd self (coords_of sh ds) (Arr sh d) w = Ok self' -> points_ self' = Some (flat qs) ->
  dt self' = float64 /\ exists coefs, coefs_ self' = Some coefs /\ minimises (objective (design cart ds qs) d (option_map data w) (damping self)) (length qs) coefs.
Proof.
  intros Hdt Hd Hls Hfit Hq. split.
  - destruct (fit_unfold _ _ _ _ _ _ _ _ Hdt Hfit) as (mid & pts & J & Hmid & Hpts & HJ & -> & Hck). exact (fit_points_dt _ _ _ _ _ Hdt Hmid).
  - apply (C61_fit_minimises_the_misfit ls avg nd self sh ds d w self' qs Hdt Hfit Hq). exact (Hls d Hd).
Qed.
Lemma check_other_data sh ds d d' w : length d' = length d -> check_fit_input (coords_of sh ds) (Arr sh d') w = check_fit_input (coords_of sh ds) (Arr sh d) w.
Proof. intros L. unfold check_fit_input, coords_of, ravel, shape_eqb. cbn [shape data]. now rewrite L. Qed.
Lemma fit_other_data ls avg nd self sh ds d d' w self' qs : dt self = float64 -> length d' = length d ->
  fit ls avg nd self (coords_of sh ds) (Arr sh d) w = Ok self' -> points_ self' = Some (flat qs) ->
  exists self'', fit ls avg nd self (coords_of sh ds) (Arr sh d') w = Ok self'' /\ points_ self'' = Some (flat qs).
Proof.
  intros Hdt L Hfit Hq. unfold fit in *. rewrite (check_other_data sh ds d d' w L).
  destruct (check_fit_input (coords_of sh ds) (Arr sh d) w); [|discriminate]. cbn [bind] in *. cbv zeta in *.
  apply bind_ok in Hfit. destruct Hfit as (mid & Hmid & H). rewrite Hmid. cbn [bind]. apply bind_ok in H. destruct H as (pts & Hpts & H). rewrite Hpts. cbn [bind].
  apply bind_ok in H. destruct H as (J & HJ & H). rewrite HJ. cbn [bind]. eexists. split; [reflexivity|]. injection H as <-. exact Hq.
Qed.

(** With damping: whether the fit succeeds does not depend on the data, and predictions anywhere of a
    combination of data are the combination of the predictions. *)
Theorem C96_predictions_are_linear : forall ls avg nd self sh ds d1 d2 w a b s s1 qs,
  dt self = float64 -> damping self = Some s -> 0 < s -> length d1 = length ds -> length d2 = length ds ->
  no_negative_weight (length ds) (option_map data w) -> solves_all ls (design cart ds qs) (option_map data w) (Some s) ->
  fit ls avg nd self (coords_of sh ds) (Arr sh d1) w = Ok s1 -> points_ s1 = Some (flat qs) ->
  exists s2 s3, fit ls avg nd self (coords_of sh ds) (Arr sh d2) w = Ok s2 /\
    fit ls avg nd self (coords_of sh ds) (Arr sh (combination a d1 b d2)) w = Ok s3 /\
    forall shape ps, prod_shape shape = length ps -> apart cart ps qs -> exists p1 p2,
      predict s1 (coords_of shape ps) = Ok (Arr shape p1) /\ predict s2 (coords_of shape ps) = Ok (Arr shape p2) /\
      predict s3 (coords_of shape ps) = Ok (Arr shape (combination a p1 b p2)).
Proof.
  intros ls avg nd self sh ds d1 d2 w a b s s1 qs Hdt Hda Hs L1 L2 Hw Hls F1 Q1.
  destruct (fit_other_data ls avg nd self sh ds d1 d2 w s1 qs Hdt ltac:(congruence) F1 Q1) as (s2 & F2 & Q2).
  destruct (fit_other_data ls avg nd self sh ds d1 (combination a d1 b d2) w s1 qs Hdt (length_combination a d1 b d2) F1 Q1) as (s3 & F3 & Q3).
  exists s2, s3. split; [exact F2|]. split; [exact F3|]. intros shape ps Hsh Ha.
  assert (Hls' : solves_all ls (design cart ds qs) (option_map data w) (damping self)) by (now rewrite Hda).
  destruct (fit_fitted ls avg nd self sh ds d1 w s1 qs Hdt L1 Hls' F1 Q1) as (T1 & c1 & C1 & M1).
  destruct (fit_fitted ls avg nd self sh ds d2 w s2 qs Hdt L2 Hls' F2 Q2) as (T2 & c2 & C2 & M2).
  destruct (fit_fitted ls avg nd self sh ds (combination a d1 b d2) w s3 qs Hdt (eq_trans (length_combination a d1 b d2) L1) Hls' F3 Q3) as (T3 & c3 & C3 & M3).
  rewrite Hda in M1, M2, M3.
  assert (E : c3 = combination a c1 b c2).
  { apply (damped_unique (design cart ds qs) _ _ _ _ _ Hs Hw M3). apply combination_minimum; auto; [cbn [strength]; lra|congruence]. }
  exists (predicted cart qs c1 ps), (predicted cart qs c2 ps).
  rewrite (proj1 (C61_prediction_is_sum_over_distance s1 c1 qs shape ps T1 C1 Q1 (proj1 M1) Hsh) Ha).
  rewrite (proj1 (C61_prediction_is_sum_over_distance s2 c2 qs shape ps T2 C2 Q2 (proj1 M2) Hsh) Ha).
  rewrite (proj1 (C61_prediction_is_sum_over_distance s3 c3 qs shape ps T3 C3 Q3 (proj1 M3) Hsh) Ha).
  split; [reflexivity|]. split; [reflexivity|]. rewrite E, predicted_combination by (apply M1 || apply M2). reflexivity.
Qed.

(** Without damping the same holds at the data points, for positive weights. *)
Theorem C96_fitted_values_are_linear : forall ls avg nd self sh ds d1 d2 w a b s1 s2 s3 qs,
  dt self = float64 -> damping self = None -> length d1 = length ds -> length d2 = length ds -> prod_shape sh = length ds ->
  weighted_data (length ds) (option_map data w) -> solves_all ls (design cart ds qs) (option_map data w) None -> apart cart ds qs ->
  fit ls avg nd self (coords_of sh ds) (Arr sh d1) w = Ok s1 -> fit ls avg nd self (coords_of sh ds) (Arr sh d2) w = Ok s2 ->
  fit ls avg nd self (coords_of sh ds) (Arr sh (combination a d1 b d2)) w = Ok s3 ->
  points_ s1 = Some (flat qs) -> points_ s2 = Some (flat qs) -> points_ s3 = Some (flat qs) -> exists p1 p2,
  predict s1 (coords_of sh ds) = Ok (Arr sh p1) /\ predict s2 (coords_of sh ds) = Ok (Arr sh p2) /\
  predict s3 (coords_of sh ds) = Ok (Arr sh (combination a p1 b p2)).
Proof.
  intros ls avg nd self sh ds d1 d2 w a b s1 s2 s3 qs Hdt Hda L1 L2 Hsh Hw Hls Ha F1 F2 F3 Q1 Q2 Q3.
  assert (Hls' : solves_all ls (design cart ds qs) (option_map data w) (damping self)) by (now rewrite Hda).
  destruct (fit_fitted ls avg nd self sh ds d1 w s1 qs Hdt L1 Hls' F1 Q1) as (T1 & c1 & C1 & M1).
  destruct (fit_fitted ls avg nd self sh ds d2 w s2 qs Hdt L2 Hls' F2 Q2) as (T2 & c2 & C2 & M2).
  destruct (fit_fitted ls avg nd self sh ds (combination a d1 b d2) w s3 qs Hdt (eq_trans (length_combination a d1 b d2) L1) Hls' F3 Q3) as (T3 & c3 & C3 & M3).
  rewrite Hda in M1, M2, M3. assert (K1 := proj1 M1). assert (K2 := proj1 M2). assert (K3 := proj1 M3).
  assert (Hw' : no_negative_weight (length ds) (option_map data w)) by (intros i Hi; apply Rlt_le; now apply Hw).
  assert (E : predicted cart qs c3 ds = predicted cart qs (combination a c1 b c2) ds).
  { apply (nth_ext _ _ 0 0); [now rewrite !length_predicted|]. intros i Hi. rewrite length_predicted in Hi.
    unfold predicted. rewrite !(nth_map _ _ _ (0, 0, 0)) by assumption. rewrite <- !design_times by (rewrite ?length_combination; assumption).
    apply (same_fit (design cart ds qs) (combination a d1 b d2) (option_map data w) None); auto; [cbn [strength]; lra|].
    apply combination_minimum; auto; [cbn [strength]; lra|congruence]. }
  exists (predicted cart qs c1 ds), (predicted cart qs c2 ds).
  rewrite (proj1 (C61_prediction_is_sum_over_distance s1 c1 qs sh ds T1 C1 Q1 K1 Hsh) Ha).
  rewrite (proj1 (C61_prediction_is_sum_over_distance s2 c2 qs sh ds T2 C2 Q2 K2 Hsh) Ha).
  rewrite (proj1 (C61_prediction_is_sum_over_distance s3 c3 qs sh ds T3 C3 Q3 K3 Hsh) Ha).
  split; [reflexivity|]. split; [reflexivity|]. rewrite E, predicted_combination by assumption. reflexivity.
Qed.

(** On the sphere. *)
Theorem C96_predictions_are_linear_sph : forall ls self sh ds d1 d2 w a b s s1 qs,
  s_damping self = Some s -> 0 < s -> length d1 = length ds -> length d2 = length ds ->
  no_negative_weight (length ds) (option_map data w) -> solves_all ls (design sphe ds qs) (option_map data w) (Some s) ->
  fit_sph ls self (coords_of sh ds) (Arr sh d1) w = Ok s1 -> s_points_ s1 = Some (flat qs) ->
  exists s2 s3, fit_sph ls self (coords_of sh ds) (Arr sh d2) w = Ok s2 /\
    fit_sph ls self (coords_of sh ds) (Arr sh (combination a d1 b d2)) w = Ok s3 /\
    forall shape ps, prod_shape shape = length ps -> apart sphe ps qs -> exists p1 p2,
      predict_sph s1 (coords_of shape ps) float64 = Ok (Arr shape p1) /\ predict_sph s2 (coords_of shape ps) float64 = Ok (Arr shape p2) /\
      predict_sph s3 (coords_of shape ps) float64 = Ok (Arr shape (combination a p1 b p2)).
Proof.
  intros ls self sh ds d1 d2 w a b s s1 qs Hda Hs L1 L2 Hw Hls F1 Q1.
  assert (Other : forall d', length d' = length d1 -> exists s', fit_sph ls self (coords_of sh ds) (Arr sh d') w = Ok s' /\ s_points_ s' = Some (flat qs)).
  { intros d' L. unfold fit_sph in *. rewrite (check_other_data sh ds d1 d' w L).
    destruct (check_fit_input (coords_of sh ds) (Arr sh d1) w); [|discriminate]. cbn [bind] in *. cbv zeta in *.
    apply bind_ok in F1. destruct F1 as (J & HJ & H). rewrite HJ. cbn [bind]. eexists. split; [reflexivity|]. injection H as <-. exact Q1. }
  destruct (Other d2 ltac:(congruence)) as (s2 & F2 & Q2). destruct (Other (combination a d1 b d2) (length_combination a d1 b d2)) as (s3 & F3 & Q3).
  exists s2, s3. split; [exact F2|]. split; [exact F3|]. intros shape ps Hsh Ha.
  destruct (C61_fit_minimises_the_misfit_sph ls self sh ds d1 w s1 qs F1 Q1 ltac:(rewrite Hda; exact (Hls d1 L1))) as (c1 & C1 & M1).
  destruct (C61_fit_minimises_the_misfit_sph ls self sh ds d2 w s2 qs F2 Q2 ltac:(rewrite Hda; exact (Hls d2 L2))) as (c2 & C2 & M2).
  destruct (C61_fit_minimises_the_misfit_sph ls self sh ds _ w s3 qs F3 Q3 ltac:(rewrite Hda; exact (Hls _ (eq_trans (length_combination a d1 b d2) L1)))) as (c3 & C3 & M3).
  rewrite Hda in M1, M2, M3.
  assert (E : c3 = combination a c1 b c2).
  { apply (damped_unique (design sphe ds qs) _ _ _ _ _ Hs Hw M3). apply combination_minimum; auto; [cbn [strength]; lra|congruence]. }
  exists (predicted sphe qs c1 ps), (predicted sphe qs c2 ps).
  rewrite (proj1 (C61_prediction_is_sum_over_distance_sph s1 c1 qs shape ps C1 Q1 (proj1 M1) Hsh) Ha).
  rewrite (proj1 (C61_prediction_is_sum_over_distance_sph s2 c2 qs shape ps C2 Q2 (proj1 M2) Hsh) Ha).
  rewrite (proj1 (C61_prediction_is_sum_over_distance_sph s3 c3 qs shape ps C3 Q3 (proj1 M3) Hsh) Ha).
  split; [reflexivity|]. split; [reflexivity|]. rewrite E, predicted_combination by (apply M1 || apply M2). reflexivity.
Qed.

(** Gradient boosting with the same shuffle, through all its windows. *)
Theorem C96_predictions_are_linear_gb : forall ls avg nd rw order self win sh ds d1 d2 w a b s s1 s2 s3 e1 e2 e3 qs,
  dt self = float64 -> damping self = Some s -> 0 < s -> length d1 = length ds -> length d2 = length ds ->
  no_negative_weight (length ds) (option_map data w) -> weights_cover (length ds) (option_map data w) -> an_order order ->
  (forall x y reg size o l, rw x y reg size o = Ok l -> forall v, In v l -> window_of (length x) v) ->
  (forall v u, window_of (length qs) v -> window_of (length ds) u ->
     solves_all ls (design cart (chosen zero_point ds u) (chosen zero_point qs v)) (option_map (fun l => chosen 0 l u) (option_map data w)) (Some s)) ->
  fit_gb ls avg nd rw order self win (coords_of sh ds) (Arr sh d1) w = Ok (s1, e1) ->
  fit_gb ls avg nd rw order self win (coords_of sh ds) (Arr sh d2) w = Ok (s2, e2) ->
  fit_gb ls avg nd rw order self win (coords_of sh ds) (Arr sh (combination a d1 b d2)) w = Ok (s3, e3) ->
  points_ s1 = Some (flat qs) ->
  forall shape ps, prod_shape shape = length ps -> apart cart ps qs -> exists p1 p2,
    predict s1 (coords_of shape ps) = Ok (Arr shape p1) /\ predict s2 (coords_of shape ps) = Ok (Arr shape p2) /\
    predict s3 (coords_of shape ps) = Ok (Arr shape (combination a p1 b p2)).
Proof.
  intros ls avg nd rw order self win sh ds d1 d2 w a b s s1 s2 s3 e1 e2 e3 qs Hdt Hda Hs L1 L2 Hw Hcov Ho Hrw Hls F1 F2 F3 Q1 shape ps Hsh Ha.
  destruct (fit_gb_unfold _ _ _ _ _ _ _ _ _ _ _ _ Hdt F1) as (mid & pts & ws & r1 & c1 & _ & Hmid & Hpts & Hws & B1 & E1 & Tm & _).
  destruct (fit_gb_unfold _ _ _ _ _ _ _ _ _ _ _ _ Hdt F2) as (mid2 & pts2 & ws2 & r2 & c2 & _ & Hmid2 & Hpts2 & Hws2 & B2 & E2 & _ & _).
  destruct (fit_gb_unfold _ _ _ _ _ _ _ _ _ _ _ _ Hdt F3) as (mid3 & pts3 & ws3 & r3 & c3 & _ & Hmid3 & Hpts3 & Hws3 & B3 & E3 & _ & _).
  change (ravel3 (coords_of sh ds)) with (flat ds) in *.
  rewrite Hmid in Hmid2, Hmid3. injection Hmid2 as <-. injection Hmid3 as <-. rewrite Hpts in Hpts2, Hpts3. injection Hpts2 as <-. injection Hpts3 as <-.
  rewrite Hws in Hws2, Hws3. injection Hws2 as <-. injection Hws3 as <-. rewrite Hda in B1, B2, B3. cbn [ravel data] in B1, B2, B3. subst s1 s2 s3.
  rewrite set_coefs_points, Hpts in Q1. injection Q1 as ->. rewrite size_flat in B1, B2, B3.
  change (option_map ravel w) with (option_map data w) in *.
  assert (Hv := create_windows_valid rw order win qs ds ws Ho Hrw Hws).
  destruct (boosting_linear ls s qs ds (option_map data w) Hs Hw Hcov a b d1 d2 L1 L2 ws r1 e1 c1 r2 e2 c2 r3 e3 c3 Hv ltac:(intros x Hx; apply Hls; apply (Hv x Hx)) B1 B2 B3) as (_ & E).
  assert (Lc : forall d r e c, length d = length ds -> gradient_boosting ls float64 (Some s) (flat qs) (flat ds) d (option_map data w) ws (repeat 0 (length qs)) = Ok (r, e, c) -> length c = length qs).
  { intros d r e c Ld H. destruct (boosting_invariant ls (Some s) qs ds d _ Ld Hcov ws _ Hv H) as (? & ? & ? & X & (Y & _) & _). injection X as -> -> ->. exact Y. }
  assert (N1 := Lc _ _ _ _ L1 B1). assert (N2 := Lc _ _ _ _ L2 B2). assert (N3 : length c3 = length qs) by (rewrite E; now rewrite length_combination).
  assert (P : forall c, points_ (set_coefs mid c) = Some (flat qs)) by (intros; now rewrite set_coefs_points).
  assert (T : forall c, dt (set_coefs mid c) = float64) by (intros; exact Tm).
  exists (predicted cart qs c1 ps), (predicted cart qs c2 ps).
  rewrite (proj1 (C61_prediction_is_sum_over_distance (set_coefs mid c1) c1 qs shape ps (T _) eq_refl (P _) N1 Hsh) Ha).
  rewrite (proj1 (C61_prediction_is_sum_over_distance (set_coefs mid c2) c2 qs shape ps (T _) eq_refl (P _) N2 Hsh) Ha).
  rewrite (proj1 (C61_prediction_is_sum_over_distance (set_coefs mid c3) c3 qs shape ps (T _) eq_refl (P _) N3 Hsh) Ha).
  split; [reflexivity|]. split; [reflexivity|]. rewrite E, predicted_combination by assumption. reflexivity.
Qed.

(** ** Order *)
(** The same survey in another order, with the sources in any order: the same predictions everywhere. *)
Theorem C96_order_does_not_matter : forall ls avg nd self1 self2 sh1 sh2 ds d w1 w2 p r s s1 s2 qs,
  dt self1 = float64 -> dt self2 = float64 -> damping self1 = Some s -> damping self2 = Some s -> 0 < s ->
  length d = length ds -> weights_cover (length ds) (option_map data w1) -> no_negative_weight (length ds) (option_map data w1) ->
  an_arrangement p (length ds) -> an_arrangement r (length qs) -> option_map data w2 = rearranged_weights (option_map data w1) p ->
  solves_all ls (design cart ds qs) (option_map data w1) (Some s) ->
  solves_all ls (design cart (chosen zero_point ds p) (chosen zero_point qs r)) (option_map data w2) (Some s) ->
  fit ls avg nd self1 (coords_of sh1 ds) (Arr sh1 d) w1 = Ok s1 ->
  fit ls avg nd self2 (coords_of sh2 (chosen zero_point ds p)) (Arr sh2 (chosen 0 d p)) w2 = Ok s2 ->
  points_ s1 = Some (flat qs) -> points_ s2 = Some (flat (chosen zero_point qs r)) ->
  forall shape ps, prod_shape shape = length ps -> apart cart ps qs -> predict s1 (coords_of shape ps) = predict s2 (coords_of shape ps).
Proof.
  intros ls avg nd self1 self2 sh1 sh2 ds d w1 w2 p r s s1 s2 qs Hdt1 Hdt2 D1 D2 Hs Ld Hcov Hw Pp Pr Ew S1 S2 F1 F2 Q1 Q2 shape ps Hsh Ha.
  rewrite <- D1 in S1. rewrite <- D2 in S2.
  destruct (fit_fitted ls avg nd self1 sh1 ds d w1 s1 qs Hdt1 Ld S1 F1 Q1) as (T1 & c1 & C1 & M1).
  destruct (fit_fitted ls avg nd self2 sh2 (chosen zero_point ds p) (chosen 0 d p) w2 s2 _ Hdt2 ltac:(now rewrite !length_chosen) S2 F2 Q2) as (T2 & c2 & C2 & M2).
  rewrite D1 in M1. rewrite D2, Ew in M2. assert (Lr := arrangement_length _ _ Pr).
  assert (K2 : length c2 = length (chosen zero_point qs r)) by apply M2. rewrite length_chosen, Lr in M2.
  destruct (chosen_onto r (length qs) c2 Pr (proj1 M2)) as (c0 & L0 & ->).
  assert (M0 := minimum_arranged cart ds qs p r Pp Pr d (option_map data w1) (Some s) c0 Ld Hcov L0 M2).
  assert (E : c0 = c1) by exact (damped_unique (design cart ds qs) _ _ _ _ _ Hs Hw M0 M1). subst c0.
  assert (Ha2 : apart cart ps (chosen zero_point qs r)).
  { intros x y Hx Hy. apply Ha; [exact Hx|]. apply chosen_in in Hy; [exact Hy|]. intros k Hk. apply (Permutation_in _ Pr), in_seq in Hk. lia. }
  rewrite (proj1 (C61_prediction_is_sum_over_distance s1 c1 qs shape ps T1 C1 Q1 L0 Hsh) Ha).
  rewrite (proj1 (C61_prediction_is_sum_over_distance s2 _ _ shape ps T2 C2 Q2 K2 Hsh) Ha2). do 2 f_equal.
  unfold predicted. apply map_ext. intros x. symmetry. now apply inverse_distance_arranged.
Qed.

(** In particular for sources at a given depth below the data. *)
Theorem C96_order_of_the_survey : forall ls avg nd dm D sh1 sh2 ds d w1 w2 p s s1 s2,
  dm = Some s -> 0 < s -> length d = length ds -> weights_cover (length ds) (option_map data w1) -> no_negative_weight (length ds) (option_map data w1) ->
  an_arrangement p (length ds) -> option_map data w2 = rearranged_weights (option_map data w1) p ->
  solves_all ls (design cart ds (lowered D ds)) (option_map data w1) (Some s) ->
  solves_all ls (design cart (chosen zero_point ds p) (lowered D (chosen zero_point ds p))) (option_map data w2) (Some s) ->
  fit ls avg nd (Eqs dm None (DepthNumber D) None float64 None None None) (coords_of sh1 ds) (Arr sh1 d) w1 = Ok s1 ->
  fit ls avg nd (Eqs dm None (DepthNumber D) None float64 None None None) (coords_of sh2 (chosen zero_point ds p)) (Arr sh2 (chosen 0 d p)) w2 = Ok s2 ->
  forall shape ps, prod_shape shape = length ps -> apart cart ps (lowered D ds) -> predict s1 (coords_of shape ps) = predict s2 (coords_of shape ps).
Proof.
  intros ls avg nd dm D sh1 sh2 ds d w1 w2 p s s1 s2 Hdm Hs Ld Hcov Hw Pp Ew S1 S2 F1 F2.
  destruct (C62_sources_below_the_data ls avg nd (Eqs dm None (DepthNumber D) None float64 None None None) sh1 ds ds (Arr sh1 d) w1 s1 eq_refl eq_refl eq_refl F1) as (D1 & _ & Q1 & X1 & _).
  destruct (C62_sources_below_the_data ls avg nd (Eqs dm None (DepthNumber D) None float64 None None None) sh2 _ (chosen zero_point ds p) (Arr sh2 (chosen 0 d p)) w2 s2 eq_refl eq_refl eq_refl F2) as (D2 & _ & Q2 & X2 & _).
  rewrite (X1 D eq_refl) in Q1. rewrite (X2 D eq_refl) in Q2.
  assert (L : length (lowered D ds) = length ds) by (unfold lowered; now rewrite map_length).
  assert (Lp := arrangement_length _ _ Pp).
  assert (E : lowered D (chosen zero_point ds p) = chosen zero_point (lowered D ds) p).
  { unfold lowered, chosen. rewrite map_map. apply map_ext_in. intros k Hk. apply (Permutation_in _ Pp), in_seq in Hk.
    now rewrite (nth_map _ _ _ zero_point) by lia. }
  rewrite E in Q2, S2.
  set (self := Eqs dm None (DepthNumber D) None float64 None None None) in *.
  exact (C96_order_does_not_matter ls avg nd self self sh1 sh2 ds d w1 w2 p p s s1 s2 (lowered D ds) eq_refl eq_refl Hdm Hdm Hs Ld Hcov Hw Pp
    (eq_ind_r (fun n => an_arrangement p n) Pp L) Ew S1 S2 F1 F2 Q1 Q2).
Qed.

(** ** Damping *)
Lemma misfit_energy (ds qs : list point) d w c : length d = length ds -> length c = length qs ->
  misfit (design cart ds qs) d w c = energy w (minus d (predicted cart qs c ds)).
Proof.
  intros Ld Lc. unfold misfit, energy. rewrite length_minus, Ld. apply sum_over_ext. intros i Hi. apply range_in in Hi. assert (Hi' : (i < length ds)%nat) by apply Hi.
  rewrite nth_minus by lia. rewrite design_times by assumption. unfold predicted. now rewrite (nth_map _ _ _ (0, 0, 0)) by exact Hi'.
Qed.

(** A fit leaves no more than the data themselves, and the damping bounds the coefficients. *)
Theorem C96_misfit_is_bounded : forall ls avg nd self sh ds d w s self' qs,
  dt self = float64 -> damping self = Some s -> 0 <= s -> length d = length ds -> prod_shape sh = length ds ->
  solves ls (design cart ds qs) d (option_map data w) (Some s) -> apart cart ds qs ->
  fit ls avg nd self (coords_of sh ds) (Arr sh d) w = Ok self' -> points_ self' = Some (flat qs) ->
  exists coefs p, coefs_ self' = Some coefs /\ predict self' (coords_of sh ds) = Ok (Arr sh p) /\
    energy (option_map data w) (minus d p) <= energy (option_map data w) d /\
    energy (option_map data w) (minus d p) + s * scaled_size (design cart ds qs) coefs <= energy (option_map data w) d.
Proof.
  intros ls avg nd self sh ds d w s self' qs Hdt Hda Hs Ld Hsh Hls Ha Hfit Hq.
  destruct (C61_fit_minimises_the_misfit ls avg nd self sh ds d w self' qs Hdt Hfit Hq ltac:(rewrite Hda; exact Hls)) as (coefs & Hc & Hm). rewrite Hda in Hm.
  assert (T : dt self' = float64).
  { destruct (fit_unfold _ _ _ _ _ _ _ _ Hdt Hfit) as (mid & pts & J & Hmid & Hpts & HJ & -> & Hck). exact (fit_points_dt _ _ _ _ _ Hdt Hmid). }
  exists coefs, (predicted cart qs coefs ds). split; [exact Hc|].
  split; [exact (proj1 (C61_prediction_is_sum_over_distance self' coefs qs sh ds T Hc Hq (proj1 Hm) Hsh) Ha)|].
  assert (B := damping_bounds (design cart ds qs) d (option_map data w) s coefs Ld Hm). rewrite misfit_energy in B by (assumption || apply Hm).
  split; [|exact B]. assert (0 <= s * scaled_size (design cart ds qs) coefs) by (apply Rmult_le_pos; [exact Hs|unfold scaled_size; apply sum_over_nonneg; intros; apply pow2_ge_0]). lra.
Qed.

(** More damping: smaller coefficients, larger misfit. *)
Theorem C96_damping_trades : forall ls avg nd self1 self2 sh ds d w a b s1 s2 qs,
  dt self1 = float64 -> dt self2 = float64 -> damping self1 = Some a -> damping self2 = Some b -> 0 <= a < b -> length d = length ds -> prod_shape sh = length ds ->
  solves ls (design cart ds qs) d (option_map data w) (Some a) -> solves ls (design cart ds qs) d (option_map data w) (Some b) -> apart cart ds qs ->
  fit ls avg nd self1 (coords_of sh ds) (Arr sh d) w = Ok s1 -> fit ls avg nd self2 (coords_of sh ds) (Arr sh d) w = Ok s2 ->
  points_ s1 = Some (flat qs) -> points_ s2 = Some (flat qs) ->
  exists c1 c2 p1 p2, coefs_ s1 = Some c1 /\ coefs_ s2 = Some c2 /\
    predict s1 (coords_of sh ds) = Ok (Arr sh p1) /\ predict s2 (coords_of sh ds) = Ok (Arr sh p2) /\
    scaled_size (design cart ds qs) c2 <= scaled_size (design cart ds qs) c1 /\
    energy (option_map data w) (minus d p1) <= energy (option_map data w) (minus d p2).
Proof.
  intros ls avg nd self1 self2 sh ds d w a b s1 s2 qs Hdt1 Hdt2 D1 D2 Hab Ld Hsh Sa Sb Ha F1 F2 Q1 Q2.
  destruct (C61_fit_minimises_the_misfit ls avg nd self1 sh ds d w s1 qs Hdt1 F1 Q1 ltac:(rewrite D1; exact Sa)) as (c1 & C1 & M1). rewrite D1 in M1.
  destruct (C61_fit_minimises_the_misfit ls avg nd self2 sh ds d w s2 qs Hdt2 F2 Q2 ltac:(rewrite D2; exact Sb)) as (c2 & C2 & M2). rewrite D2 in M2.
  assert (T : forall self s', dt self = float64 -> fit ls avg nd self (coords_of sh ds) (Arr sh d) w = Ok s' -> dt s' = float64).
  { intros self s' Hdt Hfit. destruct (fit_unfold _ _ _ _ _ _ _ _ Hdt Hfit) as (mid & pts & J & Hmid & Hpts & HJ & -> & Hck). exact (fit_points_dt _ _ _ _ _ Hdt Hmid). }
  exists c1, c2, (predicted cart qs c1 ds), (predicted cart qs c2 ds). split; [exact C1|]. split; [exact C2|].
  split; [exact (proj1 (C61_prediction_is_sum_over_distance s1 c1 qs sh ds (T _ _ Hdt1 F1) C1 Q1 (proj1 M1) Hsh) Ha)|].
  split; [exact (proj1 (C61_prediction_is_sum_over_distance s2 c2 qs sh ds (T _ _ Hdt2 F2) C2 Q2 (proj1 M2) Hsh) Ha)|].
  destruct (damping_monotone (design cart ds qs) d (option_map data w) a b c1 c2 ltac:(lra) M1 M2 ltac:(lra)) as (X & Y).
  rewrite !misfit_energy in X by (assumption || apply M1 || apply M2). split; assumption.
Qed.

(** ** One datum with damping *)
Definition ridge1 (J : table) (d : list R) (w : option (list R)) (damping : option R) : list R := [nth 0 d 0 / (1 + strength damping)].
Lemma ridge1_solves s : 0 < s -> solves_all ridge1 (design cart [(0, 0, 0)] (lowered 1 [(0, 0, 0)])) None (Some s).
Proof.
  intros Hs d Ld J (Hr & Hc & He). cbn [design rows cols ent lowered map length] in *. specialize (He 0%nat 0%nat ltac:(lia) ltac:(lia)). cbn [nth] in He.
  unfold fst3, snd3, thd3 in He; cbn [fst snd] in He. rewrite eucl1 in He. destruct d as [|x [|]]; try discriminate.
  split; [reflexivity|]. intros c' _.
  assert (S : column_std J 0 = 1).
  { unfold column_std, column_mean. rewrite Hr. change (range 0 1) with [0%nat]. unfold sum_over. cbn [map sumR]. change (INR 1) with 1. rewrite He.
    replace (((1 / 1 - (1 / 1 + 0) / 1) ^ 2 + 0) / 1) with 0 by field. rewrite sqrt_0. now destruct (Reqb_spec 0 0). }
  unfold objective, misfit, times. rewrite Hr, Hc. change (range 0 1) with [0%nat]. unfold sum_over. cbn [map sumR weight nth]. rewrite He, S. unfold ridge1. cbn [nth strength].
  set (y := nth 0 c' 0).
  assert (E : (1 * (x - (1 / 1 * y + 0)) ^ 2 + 0 + s * ((1 * y) ^ 2 + 0)) - (1 * (x - (1 / 1 * (x / (1 + s)) + 0)) ^ 2 + 0 + s * ((1 * (x / (1 + s))) ^ 2 + 0)) = (1 + s) * (y - x / (1 + s)) ^ 2) by (field; lra).
  assert (0 <= (1 + s) * (y - x / (1 + s)) ^ 2) by (apply Rmult_le_pos; [lra|apply pow2_ge_0]). lra.
Qed.
Example C96_example : forall x y a b, exists s1 s2 s3,
  let self := Eqs (Some 3) None (DepthNumber 1) None float64 None None None in
  let fitted v := fit ridge1 no_average no_neighbors self (coords_of [1%nat] [(0, 0, 0)]) (Arr [1%nat] [v]) None in
  fitted x = Ok s1 /\ fitted y = Ok s2 /\ fitted (a * x + b * y) = Ok s3 /\
  forall p, apart cart [p] (lowered 1 [(0, 0, 0)]) -> exists p1 p2,
    predict s1 (coords_of [1%nat] [p]) = Ok (Arr [1%nat] p1) /\ predict s2 (coords_of [1%nat] [p]) = Ok (Arr [1%nat] p2) /\
    predict s3 (coords_of [1%nat] [p]) = Ok (Arr [1%nat] (combination a p1 b p2)).
Proof.
  intros x y a b.
  destruct (fit_total ridge1 no_average no_neighbors (Some 3) [1%nat] [(0, 0, 0)] [x] None 1 None None None (check_fit_input_same _ _ _) apart1) as (J & Hs & E).
  match type of E with _ = Ok ?o => set (s1 := o) in E end.
  destruct (C96_predictions_are_linear ridge1 no_average no_neighbors (Eqs (Some 3) None (DepthNumber 1) None float64 None None None) [1%nat] [(0, 0, 0)] [x] [y] None a b 3 s1 (lowered 1 [(0, 0, 0)])
    eq_refl eq_refl ltac:(lra) eq_refl eq_refl ltac:(intros i _; cbn; lra) (ridge1_solves 3 ltac:(lra)) E eq_refl) as (s2 & s3 & F2 & F3 & H).
  exists s1, s2, s3. cbv zeta. split; [exact E|]. split; [exact F2|]. split; [exact F3|]. intros p Hp. apply H; [reflexivity|exact Hp].
Qed.
(** Two points and their exchange meet the hypotheses about orders. *)
Example C96_order_example : an_arrangement [1%nat; 0%nat] (length [(0, 0, 0); (3, 4, 0)]) /\
  chosen zero_point [(0, 0, 0); (3, 4, 0)] [1%nat; 0%nat] = [(3, 4, 0); (0, 0, 0)] /\
  rearranged_weights (Some [1; 2]) [1%nat; 0%nat] = Some [2; 1].
Proof. split; [apply perm_swap|]. split; reflexivity. Qed.

Print Assumptions C96_predictions_are_linear.
Print Assumptions C96_fitted_values_are_linear.
Print Assumptions C96_predictions_are_linear_sph.
Print Assumptions C96_predictions_are_linear_gb.
Print Assumptions C96_order_does_not_matter.
Print Assumptions C96_order_of_the_survey.
Print Assumptions C96_misfit_is_bounded.
Print Assumptions C96_damping_trades.
