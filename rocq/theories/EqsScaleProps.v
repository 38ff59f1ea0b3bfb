(** C114: equivalent sources and the frame and unit of the coordinates. *)
From Coq Require Import Psatz.
From Verif Require Import Base BaseFacts NumPy NumPyFacts DistanceModel DistanceSpec PointGravitySpec PointGravityProofs
  LegendreModel EqsModel EqsSpec EqsProofs EqsFitProofs EqsBoostProofs EqsWindowProofs EqsProps EqsExactSpec EqsExactFitProofs EqsLinearSpec EqsLinearProofs EqsLinearProps EqsScaleSpec EqsScaleProofs.
Local Open Scope string_scope. Local Open Scope list_scope. Local Open Scope R_scope.

Local Notation cart := cart_position.
Local Notation sphe := sph_position.

(** With damping: when all distances are multiplied by [k], the predictions stay, as long as [k] is one
    or no source is equally far from all data points. *)
Theorem C114_similar_surveys_partial : forall ls avg nd self self' sh ds d w k T s s1 s2 qs,
  0 < k -> similarity cart k T -> dt self = float64 -> dt self' = float64 -> damping self = Some s -> damping self' = Some s -> 0 < s -> length d = length ds ->
  no_negative_weight (length ds) (option_map data w) ->
  solves_all ls (design cart ds qs) (option_map data w) (Some s) -> solves_all ls (design cart (map T ds) (map T qs)) (option_map data w) (Some s) ->
  k = 1 \/ Forall (uneven cart ds) qs ->
  fit ls avg nd self (coords_of sh ds) (Arr sh d) w = Ok s1 -> points_ s1 = Some (flat qs) ->
  fit ls avg nd self' (coords_of sh (map T ds)) (Arr sh d) w = Ok s2 -> points_ s2 = Some (flat (map T qs)) ->
  forall shape ps, prod_shape shape = length ps -> predict s2 (coords_of shape (map T ps)) = predict s1 (coords_of shape ps).
Proof.
  intros ls avg nd self self' sh ds d w k T s s1 s2 qs Hk HT Hdt Hdt' Hda Hda' Hs L Hw Hls Hls' Hu F1 Q1 F2 Q2 shape ps Hsh.
  destruct (fit_fitted ls avg nd self sh ds d w s1 qs Hdt L ltac:(now rewrite Hda) F1 Q1) as (T1 & c1 & C1 & M1).
  destruct (fit_fitted ls avg nd self' sh (map T ds) d w s2 (map T qs) Hdt' ltac:(now rewrite map_length) ltac:(now rewrite Hda') F2 Q2) as (T2 & c2 & C2 & M2).
  rewrite Hda in M1. rewrite Hda' in M2.
  assert (E : c2 = map (Rmult k) c1).
  { apply (damped_unique (design cart (map T ds) (map T qs)) d (option_map data w) s); [exact Hs|cbn [design rows]; rewrite map_length; exact Hw|exact M2|].
    apply (fitted_scaled cart k T Hk HT); [now right|exact M1]. }
  assert (Hsh' : prod_shape shape = length (map T ps)) by now rewrite map_length.
  destruct (C61_prediction_is_sum_over_distance s1 c1 qs shape ps T1 C1 Q1 (proj1 M1) Hsh) as [A1 B1].
  destruct (C61_prediction_is_sum_over_distance s2 c2 (map T qs) shape (map T ps) T2 C2 Q2 (proj1 M2) Hsh') as [A2 B2].
  destruct (Classical_Prop.classic (apart cart ps qs)) as [A|A].
  - rewrite A1 by exact A. rewrite A2 by (now apply (apart_scaled cart k T Hk HT)). now rewrite E, (predicted_scaled cart k T Hk HT).
  - rewrite B1 by exact A. apply B2. now rewrite (apart_scaled cart k T Hk HT).
Qed.
Print Assumptions C114_similar_surveys_partial.

(** Without damping the values at the data points stay, for positive weights. *)
Theorem C114_similar_surveys_undamped : forall ls avg nd self self' sh ds d w k T s1 s2 qs,
  0 < k -> similarity cart k T -> dt self = float64 -> dt self' = float64 -> damping self = None -> damping self' = None -> length d = length ds -> prod_shape sh = length ds ->
  weighted_data (length ds) (option_map data w) ->
  solves_all ls (design cart ds qs) (option_map data w) None -> solves_all ls (design cart (map T ds) (map T qs)) (option_map data w) None ->
  fit ls avg nd self (coords_of sh ds) (Arr sh d) w = Ok s1 -> points_ s1 = Some (flat qs) ->
  fit ls avg nd self' (coords_of sh (map T ds)) (Arr sh d) w = Ok s2 -> points_ s2 = Some (flat (map T qs)) ->
  predict s2 (coords_of sh (map T ds)) = predict s1 (coords_of sh ds).
Proof.
  intros ls avg nd self self' sh ds d w k T s1 s2 qs Hk HT Hdt Hdt' Hda Hda' L Hsh Hw Hls Hls' F1 Q1 F2 Q2.
  destruct (fit_fitted ls avg nd self sh ds d w s1 qs Hdt L ltac:(now rewrite Hda) F1 Q1) as (T1 & c1 & C1 & M1).
  destruct (fit_fitted ls avg nd self' sh (map T ds) d w s2 (map T qs) Hdt' ltac:(now rewrite map_length) ltac:(now rewrite Hda') F2 Q2) as (T2 & c2 & C2 & M2).
  rewrite Hda in M1. rewrite Hda' in M2. assert (Hsh' : prod_shape sh = length (map T ds)) by now rewrite map_length.
  assert (M := fitted_scaled cart k T Hk HT ds qs d (option_map data w) None c1 (or_introl eq_refl) M1).
  destruct (C61_prediction_is_sum_over_distance s1 c1 qs sh ds T1 C1 Q1 (proj1 M1) Hsh) as [A1 B1].
  destruct (C61_prediction_is_sum_over_distance s2 c2 (map T qs) sh (map T ds) T2 C2 Q2 (proj1 M2) Hsh') as [A2 B2].
  destruct (Classical_Prop.classic (apart cart ds qs)) as [A|A].
  - rewrite A1 by exact A. rewrite A2 by (now apply (apart_scaled cart k T Hk HT)). apply (f_equal (fun l => Ok (Arr sh l))). rewrite <- (predicted_scaled cart k T Hk HT qs c1 ds).
    assert (Hw' : no_negative_weight (length ds) (option_map data w)) by (intros i Hi; apply Rlt_le; now apply Hw).
    apply (nth_ext _ _ 0 0); [now rewrite !length_predicted|]. intros i Hi. rewrite length_predicted in Hi. assert (Hi' := Hi). rewrite map_length in Hi'.
    clear A1 A2 B1 B2. assert (X : forall c, length c = length (map T qs) -> nth i (predicted cart (map T qs) c (map T ds)) 0 = times (design cart (map T ds) (map T qs)) c i).
    { intros c Lc. rewrite design_times by assumption. generalize (map T ds) Hi. intros es Hes. unfold predicted. now rewrite (nth_map _ _ _ (0, 0, 0)) by assumption. }
    rewrite !X by (apply M || apply M2).
    apply (same_fit (design cart (map T ds) (map T qs)) d (option_map data w) None); cbn [design rows strength]; auto; rewrite ?map_length; auto; lra.
  - rewrite B1 by exact A. apply B2. now rewrite (apart_scaled cart k T Hk HT).
Qed.
Print Assumptions C114_similar_surveys_undamped.

(** On the sphere. *)
Theorem C114_similar_surveys_sph_partial : forall ls self self' sh ds d w k T s s1 s2 qs,
  0 < k -> similarity sphe k T -> s_damping self = Some s -> s_damping self' = Some s -> 0 < s -> length d = length ds ->
  no_negative_weight (length ds) (option_map data w) ->
  solves_all ls (design sphe ds qs) (option_map data w) (Some s) -> solves_all ls (design sphe (map T ds) (map T qs)) (option_map data w) (Some s) ->
  k = 1 \/ Forall (uneven sphe ds) qs ->
  fit_sph ls self (coords_of sh ds) (Arr sh d) w = Ok s1 -> s_points_ s1 = Some (flat qs) ->
  fit_sph ls self' (coords_of sh (map T ds)) (Arr sh d) w = Ok s2 -> s_points_ s2 = Some (flat (map T qs)) ->
  forall shape ps, prod_shape shape = length ps -> predict_sph s2 (coords_of shape (map T ps)) float64 = predict_sph s1 (coords_of shape ps) float64.
Proof.
  intros ls self self' sh ds d w k T s s1 s2 qs Hk HT Hda Hda' Hs L Hw Hls Hls' Hu F1 Q1 F2 Q2 shape ps Hsh.
  destruct (C61_fit_minimises_the_misfit_sph ls self sh ds d w s1 qs F1 Q1 ltac:(rewrite Hda; exact (Hls d L))) as (c1 & C1 & M1).
  destruct (C61_fit_minimises_the_misfit_sph ls self' sh (map T ds) d w s2 (map T qs) F2 Q2 ltac:(rewrite Hda'; apply (Hls' d); cbn [design rows]; now rewrite map_length)) as (c2 & C2 & M2).
  rewrite Hda in M1. rewrite Hda' in M2.
  assert (E : c2 = map (Rmult k) c1).
  { apply (damped_unique (design sphe (map T ds) (map T qs)) d (option_map data w) s); [exact Hs|cbn [design rows]; rewrite map_length; exact Hw|exact M2|].
    apply (fitted_scaled sphe k T Hk HT); [now right|exact M1]. }
  assert (Hsh' : prod_shape shape = length (map T ps)) by now rewrite map_length.
  destruct (C61_prediction_is_sum_over_distance_sph s1 c1 qs shape ps C1 Q1 (proj1 M1) Hsh) as [A1 B1].
  destruct (C61_prediction_is_sum_over_distance_sph s2 c2 (map T qs) shape (map T ps) C2 Q2 (proj1 M2) Hsh') as [A2 B2].
  destruct (Classical_Prop.classic (apart sphe ps qs)) as [A|A].
  - rewrite A1 by exact A. rewrite A2 by (now apply (apart_scaled sphe k T Hk HT)). now rewrite E, (predicted_scaled sphe k T Hk HT).
  - rewrite B1 by exact A. apply B2. now rewrite (apart_scaled sphe k T Hk HT).
Qed.
Print Assumptions C114_similar_surveys_sph_partial.

(** ** Frames in use: another unit, another origin, horizontal axes turned *)
Theorem C114_frames k a o : 0 < k -> similarity cart k (new_frame k a o) /\ similarity sphe k (new_frame_sph k a).
Proof. intros Hk. split; [now apply new_frame_similar|now apply new_frame_sph_similar]. Qed.
Print Assumptions C114_frames.

(** Sources placed below the data follow the data into the new frame, and the fit there succeeds as well. *)
Theorem C114_sources_follow : forall ls avg nd self self' sh ds d w k a o s1,
  0 < k -> dt self = float64 -> dt self' = float64 -> points self = None -> points self' = None -> block_size self = None -> block_size self' = None ->
  same_depth nd k ds (map (new_frame k a o) ds) (depth self) (depth self') ->
  fit ls avg nd self (coords_of sh ds) (Arr sh d) w = Ok s1 ->
  exists qs s2, points_ s1 = Some (flat qs) /\
    fit ls avg nd self' (coords_of sh (map (new_frame k a o) ds)) (Arr sh d) w = Ok s2 /\ points_ s2 = Some (flat (map (new_frame k a o) qs)).
Proof.
  intros ls avg nd self self' sh ds d w k a o s1 Hk Hdt Hdt' Hp Hp' Hb Hb' HD F. set (T := new_frame k a o) in *.
  assert (B := C62_sources_below_the_data ls avg nd self sh ds ds (Arr sh d) w s1 Hdt Hp ltac:(now rewrite Hb) F). destruct B as (D & _ & Q & B1 & B2).
  exists (lowered D ds).
  destruct (fit_unfold _ _ _ _ _ _ _ _ Hdt F) as (mid & pts & J & Hmid & Hpts & HJ & E1 & Hck). assert (P : pts = flat (lowered D ds)) by (rewrite E1 in Q; cbn [set_coefs points_] in Q; congruence).
  change (ravel3 (coords_of sh ds)) with (flat ds) in HJ. rewrite P in HJ. assert (A := jacobian_apart _ _ _ _ _ _ greens_cartesian_for HJ).
  assert (A' : apart cart (map T ds) (map T (lowered D ds))) by (now apply (apart_scaled cart k T Hk (new_frame_similar k a o Hk))).
  destruct (jacobian_design _ _ greens_cartesian_for _ _ A') as (J' & HJ' & _).
  assert (EL : map T (lowered D ds) = lowered (k * D) (map T ds)) by apply lowered_new_frame.
  assert (ED : match depth self' with DepthNumber d => Ok d | DepthString s => if String.eqb s "default" then do ds <- nd (map fst3 (map T ds)) (map snd3 (map T ds)); Ok (4.5 * mean ds) else Raise TypeError end = Ok (k * D)).
  { destruct HD as [(x & X & ->) | (X & -> & dist & N1 & N2)]; [now rewrite (B1 x X)|]. destruct (B2 _ X) as (dist' & N1' & ->). rewrite N1 in N1'. injection N1' as <-.
    cbn [String.eqb]. change (String.eqb "default" "default") with true. cbv iota. rewrite N2. cbn [bind]. rewrite mean_scaled. unfold mean, average, sum_over. rewrite map_id. apply (f_equal Ok). replace 4.5 with (9 / 2) by lra. ring. }
  eexists. split; [exact Q|]. split; [|].
  - unfold fit. rewrite check_scaled, Hck. cbn [bind]. cbv zeta. rewrite Hdt', astype3_float64, astype_float64, weights_float64.
    change (ravel3 (coords_of sh (map T ds))) with (flat (map T ds)). unfold fit_points, build_points. rewrite Hp', Hb'. unfold flat at 1. rewrite ED. cbn [bind dt points_ get_points].
    rewrite Hdt'. rewrite <- map_lowered, astype3_float64. unfold get_points. cbn [points_ bind dt]. rewrite <- EL, HJ'. reflexivity.
  - reflexivity.
Qed.
Print Assumptions C114_sources_follow.

Theorem C114_sources_follow_sph : forall ls self self' sh ds d w k a s1,
  0 < k -> s_points self = None -> s_points self' = None -> relative_depth self' = k * relative_depth self ->
  fit_sph ls self (coords_of sh ds) (Arr sh d) w = Ok s1 ->
  exists qs s2, s_points_ s1 = Some (flat qs) /\
    fit_sph ls self' (coords_of sh (map (new_frame_sph k a) ds)) (Arr sh d) w = Ok s2 /\ s_points_ s2 = Some (flat (map (new_frame_sph k a) qs)).
Proof.
  intros ls self self' sh ds d w k a s1 Hk Hp Hp' HD F. set (T := new_frame_sph k a) in *. exists (lowered (relative_depth self) ds).
  assert (Q := C62_sources_below_the_data_sph ls self sh ds (Arr sh d) w s1 Hp F).
  unfold fit_sph in F. apply bind_ok in F. destruct F as ([] & Hck & F). cbv zeta in F. apply bind_ok in F. destruct F as (J & HJ & _).
  change (ravel3 (coords_of sh ds)) with (flat ds) in HJ. unfold sph_sources in HJ. rewrite Hp in HJ. unfold flat at 2 in HJ. rewrite <- map_lowered in HJ.
  assert (A := jacobian_apart _ _ _ _ _ _ greens_spherical_for HJ).
  assert (A' : apart sphe (map T ds) (map T (lowered (relative_depth self) ds))) by (now apply (apart_scaled sphe k T Hk (new_frame_sph_similar k a Hk))).
  destruct (jacobian_design _ _ greens_spherical_for _ _ A') as (J' & HJ' & _). assert (EL := lowered_new_frame_sph k a (relative_depth self) ds). fold T in EL.
  eexists. split; [exact Q|]. split; [unfold fit_sph; rewrite check_scaled, Hck; cbn [bind]; cbv zeta; change (ravel3 (coords_of sh (map T ds))) with (flat (map T ds));
    unfold sph_sources; rewrite Hp', HD; unfold flat at 2; rewrite <- map_lowered, <- EL, HJ'; cbn [bind]; reflexivity|].
  cbn [s_points_]. unfold flat at 1. rewrite <- map_lowered, <- EL. reflexivity.
Qed.
Print Assumptions C114_sources_follow_sph.

(** ** A single datum: the damping acts on a column without spread, which verde does not rescale, so that
    the same survey in another unit gives other predictions. *)
Definition ridge_one (J : table) (d : list R) (w : option (list R)) (damping : option R) : list R := [ent J 0 0 * nth 0 d 0 / (ent J 0 0 ^ 2 + strength damping)].
Lemma ridge_one_solves ds qs s : length ds = 1%nat -> length qs = 1%nat -> 0 < s -> solves_all ridge_one (design cart ds qs) None (Some s).
Proof.
  intros L1 L2 Hs d Ld J (Hr & Hc & _). cbn [design rows cols] in *. rewrite L1 in *. rewrite L2 in *. destruct d as [|x [|]]; try discriminate.
  split; [reflexivity|]. intros c' _. set (e := ent J 0 0).
  assert (S : column_std J 0 = 1).
  { unfold column_std, column_mean. rewrite Hr. change (range 0 1) with [0%nat]. unfold sum_over. cbn [map sumR]. change (INR 1) with 1. fold e.
    replace (((e - (e + 0) / 1) ^ 2 + 0) / 1) with 0 by field. rewrite sqrt_0. now destruct (Reqb_spec 0 0). }
  unfold objective, misfit, times. rewrite Hr, Hc. change (range 0 1) with [0%nat]. unfold sum_over. cbn [map sumR weight nth]. rewrite S. unfold ridge_one. fold e. cbn [nth strength].
  set (c := nth 0 c' 0). set (q := e * x / (e ^ 2 + s)).
  assert (P : 0 < e ^ 2 + s) by nra. assert (E : q * (e ^ 2 + s) = e * x) by (unfold q; field; lra).
  replace (1 * (x - (e * c + 0)) ^ 2 + 0 + s * ((1 * c) ^ 2 + 0)) with
    (1 * (x - (e * q + 0)) ^ 2 + 0 + s * ((1 * q) ^ 2 + 0) + (e ^ 2 + s) * (c - q) ^ 2 + 2 * (c - q) * (q * (e ^ 2 + s) - e * x)) by ring.
  rewrite E. assert (0 <= (e ^ 2 + s) * (c - q) ^ 2) by (apply Rmult_le_pos; [lra|apply pow2_ge_0]). lra.
Qed.

Lemma one_fit D s v : 0 < D -> exists s1,
  fit ridge_one no_average no_neighbors (Eqs (Some s) None (DepthNumber D) None float64 None None None) (coords_of [1%nat] [(0, 0, 0)]) (Arr [1%nat] [v]) None = Ok s1 /\
  points_ s1 = Some (flat (lowered D [(0, 0, 0)])) /\
  predict s1 (coords_of [1%nat] [(0, 0, 0)]) = Ok (Arr [1%nat] [/ D * v / ((/ D) ^ 2 + s) / D]).
Proof.
  intros HD. assert (N : eucl (cart (0, 0, 0)) (cart (0, 0, 0 - D)) = D).
  { unfold cart, fst3, snd3, thd3; cbn [fst snd]. unfold eucl, norm, dot, vsub; cbn [vx vy vz]. rewrite <- (sqrt_pow2 D) at 3 by lra. f_equal. ring. }
  assert (A : apart cart [(0, 0, 0)] (lowered D [(0, 0, 0)])).
  { intros p q [<-|[]] [<-|[]] E. apply eucl_zero in E. unfold fst3, snd3, thd3 in E; cbn [fst snd] in E. rewrite N in E. lra. }
  destruct (fit_total ridge_one no_average no_neighbors (Some s) [1%nat] [(0, 0, 0)] [v] None D None None None (check_fit_input_same _ _ _) A) as (J & Hs & E).
  eexists. split; [exact E|]. split; [reflexivity|].
  match goal with |- predict ?sf _ = _ => rewrite (proj1 (C61_prediction_is_sum_over_distance sf _ (lowered D [(0, 0, 0)]) [1%nat] [(0, 0, 0)] eq_refl eq_refl eq_refl eq_refl eq_refl) A) end.
  apply (f_equal (fun x => Ok (Arr [1%nat] [x]))). unfold inverse_distance, lowered. cbn [map combine ridge_one]. unfold sum_over. cbn [map sumR fst snd].
  destruct Hs as (Hr & Hc & He). cbn [design rows cols lowered map length] in Hr, Hc. specialize (He 0%nat 0%nat ltac:(lia) ltac:(lia)). cbn [design ent lowered map nth] in He.
  unfold fst3, snd3, thd3 in *; cbn [fst snd] in *. unfold ridge_one. cbn [combine map sumR fst snd nth strength]. rewrite N in *. rewrite He. unfold Rdiv. rewrite !Rmult_1_l, Rplus_0_r. reflexivity.
Qed.

Theorem C114_one_datum_refuted : exists ls avg nd self self' ds d k s s1 s2 qs a b,
  0 < k /\ similarity cart k (new_frame k 0 (V3 0 0 0)) /\ dt self = float64 /\ dt self' = float64 /\ damping self = Some s /\ damping self' = Some s /\ 0 < s /\
  solves_all ls (design cart ds qs) None (Some s) /\ solves_all ls (design cart (map (new_frame k 0 (V3 0 0 0)) ds) (map (new_frame k 0 (V3 0 0 0)) qs)) None (Some s) /\
  fit ls avg nd self (coords_of [1%nat] ds) (Arr [1%nat] d) None = Ok s1 /\ points_ s1 = Some (flat qs) /\
  fit ls avg nd self' (coords_of [1%nat] (map (new_frame k 0 (V3 0 0 0)) ds)) (Arr [1%nat] d) None = Ok s2 /\ points_ s2 = Some (flat (map (new_frame k 0 (V3 0 0 0)) qs)) /\
  predict s1 (coords_of [1%nat] ds) = Ok (Arr [1%nat] [a]) /\ predict s2 (coords_of [1%nat] (map (new_frame k 0 (V3 0 0 0)) ds)) = Ok (Arr [1%nat] [b]) /\ a = 7 / 4 /\ b = 7 / 13.
Proof.
  destruct (one_fit 1 3 7 ltac:(lra)) as (s1 & F1 & Q1 & P1). destruct (one_fit 2 3 7 ltac:(lra)) as (s2 & F2 & Q2 & P2).
  set (T := new_frame 2 0 (V3 0 0 0)).
  assert (E : map T [(0, 0, 0)] = [(0, 0, 0)]).
  { cbn [map]. apply (f_equal (fun x => [x])). unfold T, new_frame, fst3, snd3, thd3; cbn [fst snd vx vy vz]. repeat apply (f_equal2 pair); ring. }
  assert (E' : map T (lowered 1 [(0, 0, 0)]) = lowered 2 [(0, 0, 0)]) by (unfold T; rewrite lowered_new_frame; fold T; rewrite E; now rewrite Rmult_1_r).
  exists ridge_one, no_average, no_neighbors, (Eqs (Some 3) None (DepthNumber 1) None float64 None None None), (Eqs (Some 3) None (DepthNumber 2) None float64 None None None).
  exists [(0, 0, 0)], [7], 2, 3, s1, s2, (lowered 1 [(0, 0, 0)]), (/ 1 * 7 / ((/ 1) ^ 2 + 3) / 1), (/ 2 * 7 / ((/ 2) ^ 2 + 3) / 2). fold T. rewrite E, E'.
  split; [lra|]. split; [apply new_frame_similar; lra|]. do 4 (split; [reflexivity|]). split; [lra|].
  split; [apply ridge_one_solves; [reflexivity|reflexivity|lra]|]. split; [apply ridge_one_solves; [reflexivity|reflexivity|lra]|].
  split; [exact F1|]. split; [exact Q1|]. split; [exact F2|]. split; [exact Q2|]. split; [exact P1|]. split; [exact P2|]. split; field.
Qed.
Print Assumptions C114_one_datum_refuted.

(** Two data points at different distances from both sources below them, in kilometres and metres with axes turned. *)
Example C114_example : Forall (uneven cart [(0, 0, 0); (3, 0, 0)]) (lowered 4 [(0, 0, 0); (3, 0, 0)]) /\
  same_depth no_neighbors 1000 [(0, 0, 0); (3, 0, 0)] (map (new_frame 1000 1 (V3 5 6 7)) [(0, 0, 0); (3, 0, 0)]) (DepthNumber 4) (DepthNumber (1000 * 4)).
Proof.
  assert (N : forall x y, eucl (cart (x, 0, 0)) (cart (y, 0, 0 - 4)) = sqrt ((x - y) ^ 2 + 16)).
  { intros x y. unfold cart, eucl, norm, dot, vsub; cbn [vx vy vz]. f_equal. ring. }
  assert (D : sqrt 16 <> sqrt 25) by (intros E; apply sqrt_inj in E; lra).
  split; [|left; exists 4; split; reflexivity]. constructor; [|constructor; [|constructor]].
  - exists (0, 0, 0), (3, 0, 0). split; [now left|]. split; [right; now left|]. unfold fst3, snd3, thd3; cbn [fst snd]. rewrite !N.
    replace ((0 - 0) ^ 2 + 16) with 16 by ring. replace ((3 - 0) ^ 2 + 16) with 25 by ring. exact D.
  - exists (3, 0, 0), (0, 0, 0). split; [right; now left|]. split; [now left|]. unfold fst3, snd3, thd3; cbn [fst snd]. rewrite !N.
    replace ((3 - 3) ^ 2 + 16) with 16 by ring. replace ((0 - 3) ^ 2 + 16) with 25 by ring. exact D.
Qed.
