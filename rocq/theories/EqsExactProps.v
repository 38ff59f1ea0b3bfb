(** C93: equivalent sources fitted without damping reproduce a survey at constant height (or constant
    radius) exactly, and the coefficients are determined by the data. *)
From Coq Require Import Psatz.
From Verif Require Import Base BaseFacts NumPy NumPyFacts DistanceModel DistanceSpec DistanceProofs PointGravitySpec PointGravityProofs
  LegendreModel EqsModel EqsSpec EqsProofs EqsFitProofs EqsBoostProofs EqsWindowProofs EqsProps EqsFieldProofs EqsExactSpec EqsExactProofs EqsExactFitProofs.
Local Open Scope string_scope. Local Open Scope list_scope. Local Open Scope R_scope.

Local Notation cart := cart_position.
Local Notation sphe := sph_position.

(** Sources at a constant depth below a level survey: whatever the data, the predictions at the data
    points are the data. *)
Theorem C93_level_survey_is_reproduced : forall ls avg nd self sh ds d w h self',
  dt self = float64 -> damping self = None -> points self = None -> block_size self = None ->
  level cart h ds -> ds <> [] -> prod_shape sh = length ds -> length d = length ds -> weighted_data (length ds) (option_map data w) ->
  (forall D, D <> 0 -> solves ls (design cart ds (lowered D ds)) d (option_map data w) None) ->
  fit ls avg nd self (coords_of sh ds) (Arr sh d) w = Ok self' ->
  predict self' (coords_of sh ds) = Ok (Arr sh d).
Proof.
  intros ls avg nd self sh ds d w h self' Hdt Hda Hp Hb Hlev Hne Hsh Hd Hw Hls Hfit.
  pose proof (C62_sources_below_the_data ls avg nd self sh ds ds (Arr sh d) w self' Hdt Hp ltac:(now rewrite Hb) Hfit) as (D & _ & Hq & _).
  destruct (fit_unfold _ _ _ _ _ _ _ _ Hdt Hfit) as (mid & pts & J & Hmid & Hpts & HJ & Es & Hck).
  assert (Hdt' : dt self' = float64) by (rewrite Es; exact (fit_points_dt _ _ _ _ _ Hdt Hmid)).
  assert (Hpq : pts = flat (lowered D ds)) by (rewrite Es in Hq; cbn [set_coefs points_] in Hq; congruence). subst pts. change (ravel3 (coords_of sh ds)) with (flat ds) in HJ.
  assert (Ha := jacobian_apart _ _ _ _ _ _ greens_cartesian_for HJ).
  destruct ds as [|p ds].
  { now destruct Hne. }
  assert (HD0 : D <> 0). { intros ->. apply (Ha p p); [now left| |reflexivity]. destruct p as [[a b] u]. left. unfold fst3, snd3, thd3. cbn. now rewrite Rminus_0_r. }
  destruct (C61_fit_minimises_the_misfit ls avg nd self sh (p :: ds) d w self' _ Hdt Hfit Hq ltac:(rewrite Hda; exact (Hls D HD0))) as (coefs & Hc & Hm).
  rewrite (proj1 (C61_prediction_is_sum_over_distance self' coefs _ sh (p :: ds) Hdt' Hc Hq (proj1 Hm) Hsh) Ha). do 2 f_equal.
  rewrite Hda in Hm.
  apply (level_reproduced cart (p :: ds) (lowered D (p :: ds)) (flat_X (p :: ds)) (D ^ 2)) with (w := option_map data w); try assumption.
  - unfold lowered. now rewrite map_length.
  - now apply square_pos.
  - now apply (flat_inj h).
  - apply (flat_distances h). apply Hlev.
Qed.

(** The same for gradient boosting as long as there is a single window. *)
Theorem C93_level_survey_is_reproduced_gb : forall ls avg nd rw order self sh ds d w h self' errors,
  dt self = float64 -> damping self = None -> points self = None -> block_size self = None ->
  level cart h ds -> ds <> [] -> prod_shape sh = length ds -> length d = length ds -> weighted_data (length ds) (option_map data w) ->
  weights_cover (length ds) (option_map data w) -> INR (length ds) <= 5000 ->
  (forall D, D <> 0 -> solves ls (design cart ds (lowered D ds)) d (option_map data w) None) ->
  fit_gb ls avg nd rw order self (WindowString "default") (coords_of sh ds) (Arr sh d) w = Ok (self', errors) ->
  predict self' (coords_of sh ds) = Ok (Arr sh d).
Proof.
  intros ls avg nd rw order self sh ds d w h self' errors Hdt Hda Hp Hb Hlev Hne Hsh Hd Hw Hcov Hn Hls Hfit.
  pose proof (C62_sources_below_the_data_gb ls avg nd rw order self _ sh ds ds (Arr sh d) w self' errors Hdt Hp ltac:(now rewrite Hb) Hfit) as (D & _ & Hq & _).
  apply (C93_level_survey_is_reproduced ls avg nd self sh ds d w h self' Hdt Hda Hp Hb Hlev Hne Hsh Hd Hw Hls).
  exact (C64_single_window_is_the_plain_fit ls avg nd rw order self sh ds d w self' errors _ Hdt Hd Hcov Hn Hq Hfit).
Qed.

(** The same on a sphere, for sources at a positive radius. *)
Theorem C93_level_survey_is_reproduced_sph : forall ls self sh ds d w h self',
  s_damping self = None -> s_points self = None -> level sphe h ds -> 0 < h -> relative_depth self < h -> relative_depth self <> 0 ->
  prod_shape sh = length ds -> length d = length ds -> weighted_data (length ds) (option_map data w) ->
  solves ls (design sphe ds (lowered (relative_depth self) ds)) d (option_map data w) None ->
  fit_sph ls self (coords_of sh ds) (Arr sh d) w = Ok self' ->
  predict_sph self' (coords_of sh ds) float64 = Ok (Arr sh d).
Proof.
  intros ls self sh ds d w h self' Hda Hp Hlev Hh HD HD0 Hsh Hd Hw Hls Hfit.
  pose proof (C62_sources_below_the_data_sph ls self sh ds (Arr sh d) w self' Hp Hfit) as Hq.
  destruct (C61_fit_minimises_the_misfit_sph ls self sh ds d w self' _ Hfit Hq ltac:(rewrite Hda; exact Hls)) as (coefs & Hc & Hm).
  assert (P : 0 < h * (h - relative_depth self)) by (apply Rmult_lt_0_compat; lra).
  assert (Ha := sphere_apart h (relative_depth self) ds P (proj1 Hlev) HD0).
  rewrite (proj1 (C61_prediction_is_sum_over_distance_sph self' coefs _ sh ds Hc Hq (proj1 Hm) Hsh) Ha). do 2 f_equal. rewrite Hda in Hm.
  apply (level_reproduced sphe ds (lowered (relative_depth self) ds) (sphere_X (sqrt (h * (h - relative_depth self))) ds) (relative_depth self ^ 2)) with (w := option_map data w); try assumption.
  - unfold lowered. now rewrite map_length.
  - now apply square_pos.
  - apply (sphere_inj _ h); [|assumption]. apply Rgt_not_eq, sqrt_lt_R0, P.
  - apply sphere_distances; [exact P|apply Hlev].
Qed.

(** Such fits never fail. *)
Theorem C93_level_survey_is_fitted : forall ls avg nd dm D sh ds d w h p c e,
  D <> 0 -> level cart h ds -> check_fit_input (coords_of sh ds) (Arr sh d) w = Ok tt ->
  exists self', fit ls avg nd (Eqs dm None (DepthNumber D) None float64 p c e) (coords_of sh ds) (Arr sh d) w = Ok self'.
Proof.
  intros ls avg nd dm D sh ds d w h p c e HD Hlev Hck. destruct (fit_total ls avg nd dm sh ds d w D p c e Hck (flat_apart h D ds (proj1 Hlev) HD)) as (J & _ & E).
  eexists. exact E.
Qed.
Theorem C93_level_survey_is_fitted_sph : forall ls self sh ds d w h,
  s_points self = None -> level sphe h ds -> 0 < h -> relative_depth self < h -> relative_depth self <> 0 ->
  check_fit_input (coords_of sh ds) (Arr sh d) w = Ok tt -> exists self', fit_sph ls self (coords_of sh ds) (Arr sh d) w = Ok self'.
Proof.
  intros ls self sh ds d w h Hp Hlev Hh HD HD0 Hck. unfold fit_sph. rewrite Hck. cbn [bind]. cbv zeta. change (ravel3 (coords_of sh ds)) with (flat ds).
  assert (E : sph_sources self (flat ds) = flat (lowered (relative_depth self) ds)) by (unfold sph_sources; now rewrite Hp, map_lowered). rewrite E.
  assert (P : 0 < h * (h - relative_depth self)) by (apply Rmult_lt_0_compat; lra).
  destruct (jacobian_design _ _ greens_spherical_for _ _ (sphere_apart h _ ds P (proj1 Hlev) HD0)) as (J & HJ & _). rewrite HJ. cbn [bind]. eexists. reflexivity.
Qed.

(** Only one set of coefficients predicts given values at a level survey. *)
Theorem C93_level_coefficients_are_unique : forall ds h D x y,
  level cart h ds -> D <> 0 -> length x = length ds -> length y = length ds ->
  predicted cart (lowered D ds) x ds = predicted cart (lowered D ds) y ds -> x = y.
Proof.
  intros ds h D x y Hlev HD Hx Hy. assert (L : length (lowered D ds) = length ds) by (unfold lowered; now rewrite map_length).
  apply (level_unique cart ds (lowered D ds) (flat_X ds) (D ^ 2)); try congruence.
  - now apply square_pos.
  - now apply (flat_inj h).
  - apply (flat_distances h). apply Hlev.
Qed.
Theorem C93_level_coefficients_are_unique_sph : forall ds h D x y,
  level sphe h ds -> 0 < h -> D < h -> D <> 0 -> length x = length ds -> length y = length ds ->
  predicted sphe (lowered D ds) x ds = predicted sphe (lowered D ds) y ds -> x = y.
Proof.
  intros ds h D x y Hlev Hh HDh HD Hx Hy. assert (L : length (lowered D ds) = length ds) by (unfold lowered; now rewrite map_length).
  assert (P : 0 < h * (h - D)) by (apply Rmult_lt_0_compat; lra).
  apply (level_unique sphe ds (lowered D ds) (sphere_X (sqrt (h * (h - D))) ds) (D ^ 2)); try congruence.
  - now apply square_pos.
  - apply (sphere_inj _ h); [|assumption]. apply Rgt_not_eq, sqrt_lt_R0, P.
  - apply sphere_distances; [exact P|apply Hlev].
Qed.

(** With damping the minimum is reached by one set of coefficients only, for every survey and every
    arrangement of the sources: predictions do not depend on the solver. *)
Theorem C93_damped_coefficients_are_unique : forall ds qs d w a x y,
  0 < a -> (forall i, (i < length ds)%nat -> 0 <= weight w i) ->
  minimises (objective (design cart ds qs) d w (Some a)) (length qs) x -> minimises (objective (design cart ds qs) d w (Some a)) (length qs) y -> x = y.
Proof. intros ds qs d w a x y Ha Hw Hx Hy. exact (damped_unique (design cart ds qs) d w a x y Ha Hw Hx Hy). Qed.

(** At different heights the sources can fail: two points, sources five metres below them, and data
    that no coefficients reproduce. *)
Theorem C93_rugged_survey_may_not_be_reproduced : exists ds d, NoDup (map cart ds) /\ apart cart ds (lowered 5 ds) /\ length d = length ds /\
  forall x, length x = length ds -> predicted cart (lowered 5 ds) x ds <> d.
Proof.
  exists [(0, 0, 0); (2, 0, 6)], [1; 1].
  assert (E00 : eucl (cart (0, 0, 0)) (cart (0, 0, 0 - 5)) = 5) by (unfold eucl, norm, dot, vsub, cart_position; cbn [vx vy vz]; apply sqrt_lem_1; lra).
  assert (E11 : eucl (cart (2, 0, 6)) (cart (2, 0, 6 - 5)) = 5) by (unfold eucl, norm, dot, vsub, cart_position; cbn [vx vy vz]; apply sqrt_lem_1; lra).
  assert (E01 : eucl (cart (0, 0, 0)) (cart (2, 0, 6 - 5)) = sqrt 5) by (unfold eucl, norm, dot, vsub, cart_position; cbn [vx vy vz]; f_equal; lra).
  assert (S5 : sqrt 5 * sqrt 5 = 5) by (apply sqrt_sqrt; lra). assert (P5 : 0 < sqrt 5) by (apply sqrt_lt_R0; lra).
  assert (E10 : eucl (cart (2, 0, 6)) (cart (0, 0, 0 - 5)) = 5 * sqrt 5).
  { unfold eucl, norm, dot, vsub, cart_position; cbn [vx vy vz]. apply sqrt_lem_1; [lra|lra|]. nra. }
  split; [|split; [|split; [reflexivity|]]].
  - cbn [map cart_position]. constructor; [|constructor; [intros []|constructor]]. intros [E|[]]. injection E as E1 E2. lra.
  - intros p q [<-|[<-|[]]] [<-|[<-|[]]] E; unfold fst3, snd3, thd3 in E; cbn in E; apply (f_equal vz) in E; cbn in E; lra.
  - intros x Hx E. destruct x as [|a [|b [|]]]; try discriminate. unfold predicted, lowered, inverse_distance in E. cbn [map combine fst3 snd3 thd3 fst snd] in E.
    unfold fst3, snd3, thd3 in E. cbn [fst snd] in E. rewrite !sum_over_cons in E. cbn [fst snd] in E. rewrite E00, E01, E10, E11 in E. unfold sum_over in E. cbn [map sumR] in E. injection E as A B.
    assert (A' : a * sqrt 5 + b * 5 = 5 * sqrt 5). { transitivity (5 * sqrt 5 * (a / 5 + (b / sqrt 5 + 0))); [field_simplify; [|lra]; nra|rewrite A; ring]. }
    assert (B' : a + b * sqrt 5 = 5 * sqrt 5). { transitivity (5 * sqrt 5 * (a / (5 * sqrt 5) + (b / 5 + 0))); [field; lra|rewrite B; ring]. }
    assert (a * sqrt 5 + b * 5 = 25) by (rewrite <- S5 at 2; nra). nra.
Qed.

(** Two points twelve metres above their sources and five metres apart, with Cramer's rule as solver. *)
Definition solve2 (J : table) (d : list R) (w : option (list R)) (a : option R) : list R :=
  let det := ent J 0 0 * ent J 1 1 - ent J 0 1 * ent J 1 0 in
  [(nth 0 d 0 * ent J 1 1 - ent J 0 1 * nth 1 d 0) / det; (ent J 0 0 * nth 1 d 0 - nth 0 d 0 * ent J 1 0) / det].
Definition ds2 : list point := [(0, 0, 100); (3, 4, 100)].
Lemma level2 : level cart 100 ds2.
Proof.
  split; [intros p [<-|[<-|[]]]; reflexivity|]. cbn. constructor; [|constructor; [intros []|constructor]]. intros [E|[]]. injection E as E1 E2. lra.
Qed.
Lemma det_pos (J : table) D : D <> 0 -> same_entries J (design cart ds2 (lowered D ds2)) -> 0 < ent J 0 0 * ent J 1 1 - ent J 0 1 * ent J 1 0.
Proof.
  intros HD (Hr & Hc & He). pose proof (square_pos D HD) as Q. cbn [design rows cols ent lowered map length ds2] in *.
  rewrite !He by lia. unfold ds2. cbn [nth map]. unfold fst3, snd3, thd3; cbn [fst snd]. unfold eucl, norm, dot, vsub, cart_position; cbn [vx vy vz].
  replace ((0 - 0) * (0 - 0) + (0 - 0) * (0 - 0) + (100 - (100 - D)) * (100 - (100 - D))) with (D ^ 2) by ring.
  replace ((3 - 3) * (3 - 3) + (4 - 4) * (4 - 4) + (100 - (100 - D)) * (100 - (100 - D))) with (D ^ 2) by ring.
  replace ((0 - 3) * (0 - 3) + (0 - 4) * (0 - 4) + (100 - (100 - D)) * (100 - (100 - D))) with (25 + D ^ 2) by ring.
  replace ((3 - 0) * (3 - 0) + (4 - 0) * (4 - 0) + (100 - (100 - D)) * (100 - (100 - D))) with (25 + D ^ 2) by ring.
  assert (A : 1 / sqrt (D ^ 2) * (1 / sqrt (D ^ 2)) = / D ^ 2).
  { unfold Rdiv. rewrite !Rmult_1_l, <- Rinv_mult. f_equal. apply sqrt_sqrt. lra. }
  assert (B : 1 / sqrt (25 + D ^ 2) * (1 / sqrt (25 + D ^ 2)) = / (25 + D ^ 2)).
  { unfold Rdiv. rewrite !Rmult_1_l, <- Rinv_mult. f_equal. apply sqrt_sqrt. lra. }
  rewrite A, B. assert (/ (25 + D ^ 2) < / D ^ 2); [|lra]. apply Rinv_lt_contravar; [nra|lra].
Qed.
Lemma solve2_solves d D : D <> 0 -> length d = 2%nat -> solves solve2 (design cart ds2 (lowered D ds2)) d None None.
Proof.
  intros HD Hd J Hs. pose proof (det_pos J D HD Hs) as P. destruct Hs as (Hr & Hc & He). cbn [design rows cols lowered map length ds2] in Hr, Hc. split; [reflexivity|].
  intros c' _. unfold objective, misfit. rewrite Hr. change (range 0 2) with [0; 1]%nat. rewrite !sum_over_cons. unfold times. rewrite Hc. change (range 0 2) with [0; 1]%nat.
  unfold sum_over. cbn [map sumR weight]. unfold solve2. cbn [nth].
  match goal with |- ?l <= ?r => assert (Z : l = 0); [|rewrite Z] end.
  - destruct d as [|d0 [|d1 [|]]]; try discriminate. cbn [nth].
    match goal with |- 1 * ?u ^ 2 + (1 * ?v ^ 2 + 0) + 0 = 0 => assert (Z0 : u = 0) by (field; lra); assert (Z1 : v = 0) by (field; lra); rewrite Z0, Z1; ring end.
  - match goal with |- 0 <= 1 * ?u ^ 2 + (1 * ?v ^ 2 + 0) + 0 => pose proof (pow2_ge_0 u); pose proof (pow2_ge_0 v) end. lra.
Qed.
Example C93_example : exists self', fit solve2 no_average no_neighbors (Eqs None None (DepthNumber 12) None float64 None None None) (coords_of [2%nat] ds2) (Arr [2%nat] [7; -3]) None = Ok self' /\
  predict self' (coords_of [2%nat] ds2) = Ok (Arr [2%nat] [7; -3]).
Proof.
  destruct (C93_level_survey_is_fitted solve2 no_average no_neighbors None 12 [2%nat] ds2 [7; -3] None 100 None None None ltac:(lra) level2 (check_fit_input_same _ _ _)) as (self' & E).
  exists self'. split; [exact E|]. refine (C93_level_survey_is_reproduced _ _ _ _ _ _ _ _ 100 _ _ _ _ _ level2 _ _ _ _ _ E); try reflexivity.
  - discriminate.
  - intros i _. cbn. lra.
  - intros D HD. now apply solve2_solves.
Qed.
(** The same two points on a sphere, a quarter turn apart. *)
Example C93_example_sph : level sph_position 100 [(0, 0, 100); (90, 0, 100)] /\ 0 < 100 /\ 12 < 100.
Proof.
  split; [|lra]. split; [intros p [<-|[<-|[]]]; reflexivity|]. cbn. constructor; [|constructor; [intros []|constructor]]. intros [E|[]]. apply (f_equal vy) in E. cbn in E. revert E.
  unfold radians. replace (90 * PI / 180) with (PI / 2) by field. replace (0 * PI / 180) with 0 by field. rewrite sin_PI2, cos_0, sin_0. lra.
Qed.

Print Assumptions C93_level_survey_is_reproduced.
Print Assumptions C93_level_survey_is_reproduced_gb.
Print Assumptions C93_level_survey_is_reproduced_sph.
Print Assumptions C93_level_survey_is_fitted.
Print Assumptions C93_level_survey_is_fitted_sph.
Print Assumptions C93_level_coefficients_are_unique.
Print Assumptions C93_level_coefficients_are_unique_sph.
Print Assumptions C93_damped_coefficients_are_unique.
Print Assumptions C93_rugged_survey_may_not_be_reproduced.
