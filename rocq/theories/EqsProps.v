(** Claims about the equivalent sources. *)
From Coq Require Import Psatz Permutation.
From Verif Require Import Base BaseFacts NumPy NumPyFacts DistanceModel DistanceSpec DistanceProofs PointGravitySpec PointGravityProofs
  LegendreModel LegendreProofs EqsModel EqsSpec EqsProofs EqsFitProofs EqsBoostProofs EqsWindowProofs.
Local Open Scope string_scope.
Local Open Scope list_scope.
Local Open Scope R_scope.

Local Notation cart := cart_position.
Local Notation sphe := sph_position.

(** ** C61: prediction and fit *)
Theorem C61_prediction_is_sum_over_distance : forall self coefs qs sh ps,
  dt self = float64 -> coefs_ self = Some coefs -> points_ self = Some (flat qs) -> length coefs = length qs -> prod_shape sh = length ps ->
  (apart cart ps qs -> predict self (coords_of sh ps) = Ok (Arr sh (predicted cart qs coefs ps))) /\
  (~ apart cart ps qs -> predict self (coords_of sh ps) = Raise ZeroDivisionError).
Proof.
  intros self coefs qs sh ps Hdt Hc Hq Hl Hsh. unfold predict, get_points. rewrite Hc, Hq, Hdt. cbn [bind]. split; intros Ha.
  - rewrite (predict_data_ok _ _ greens_cartesian_for) by (assumption || apply astype3_float64). reflexivity.
  - now rewrite (predict_data_raises _ _ greens_cartesian_for) by (assumption || apply astype3_float64).
Qed.

Theorem C61_prediction_is_sum_over_distance_sph : forall self coefs qs sh ps,
  s_coefs_ self = Some coefs -> s_points_ self = Some (flat qs) -> length coefs = length qs -> prod_shape sh = length ps ->
  (apart sphe ps qs -> predict_sph self (coords_of sh ps) float64 = Ok (Arr sh (predicted sphe qs coefs ps))) /\
  (~ apart sphe ps qs -> predict_sph self (coords_of sh ps) float64 = Raise ZeroDivisionError).
Proof.
  intros self coefs qs sh ps Hc Hq Hl Hsh. unfold predict_sph. rewrite Hc, Hq. cbn [bind]. split; intros Ha.
  - rewrite (predict_data_ok _ _ greens_spherical_for) by (assumption || reflexivity). reflexivity.
  - now rewrite (predict_data_raises _ _ greens_spherical_for) by (assumption || reflexivity).
Qed.

Lemma map_seq_nth {A B} (f : A -> B) l d : map (fun i => f (nth i l d)) (seq 0 (length l)) = map f l.
Proof. rewrite <- (map_range_nth l d f). unfold range. now rewrite Nat.sub_0_r. Qed.

Theorem C61_prediction_is_jacobian_times_coefficients : forall self coefs qs sh ds J,
  dt self = float64 -> coefs_ self = Some coefs -> points_ self = Some (flat qs) -> length coefs = length qs -> prod_shape sh = length ds ->
  jacobian (dt self) greens_func_cartesian (flat ds) (flat qs) = Ok J ->
  predict self (coords_of sh ds) = Ok (Arr sh (map (times J coefs) (seq 0 (length ds)))).
Proof.
  intros self coefs qs sh ds J Hdt Hc Hq Hl Hsh HJ. rewrite Hdt in HJ. assert (Ha := jacobian_apart _ _ _ _ _ _ greens_cartesian_for HJ).
  rewrite (proj1 (C61_prediction_is_sum_over_distance self coefs qs sh ds Hdt Hc Hq Hl Hsh) Ha). f_equal. f_equal.
  destruct (jacobian_design _ _ greens_cartesian_for _ _ Ha) as (J' & HJ' & Hs). rewrite HJ in HJ'. injection HJ' as <-.
  unfold predicted. rewrite <- (map_seq_nth _ ds p0). apply map_ext_in. intros i Hi. apply in_seq in Hi.
  rewrite (times_same J _ coefs i Hs) by (rewrite (proj1 Hs); cbn; lia). now rewrite design_times by (assumption || lia).
Qed.

Theorem C61_prediction_is_jacobian_times_coefficients_sph : forall self coefs qs sh ds J,
  s_coefs_ self = Some coefs -> s_points_ self = Some (flat qs) -> length coefs = length qs -> prod_shape sh = length ds ->
  jacobian float64 greens_func_spherical (flat ds) (flat qs) = Ok J ->
  predict_sph self (coords_of sh ds) float64 = Ok (Arr sh (map (times J coefs) (seq 0 (length ds)))).
Proof.
  intros self coefs qs sh ds J Hc Hq Hl Hsh HJ. assert (Ha := jacobian_apart _ _ _ _ _ _ greens_spherical_for HJ).
  rewrite (proj1 (C61_prediction_is_sum_over_distance_sph self coefs qs sh ds Hc Hq Hl Hsh) Ha). f_equal. f_equal.
  destruct (jacobian_design _ _ greens_spherical_for _ _ Ha) as (J' & HJ' & Hs). rewrite HJ in HJ'. injection HJ' as <-.
  unfold predicted. rewrite <- (map_seq_nth _ ds p0). apply map_ext_in. intros i Hi. apply in_seq in Hi.
  rewrite (times_same J _ coefs i Hs) by (rewrite (proj1 Hs); cbn; lia). now rewrite design_times by (assumption || lia).
Qed.

(** Predictions before the fit are refused (NotFittedError, a ValueError), whatever was done before that
    did not fit: construction and the estimate of the memory. *)
Theorem C61_prediction_before_fit_refused : forall avg nd dm p depth b t self co m self1 co', init dm p depth b t = Ok self ->
  predict self co' = Raise ValueError /\
  (estimate_required_memory avg nd self co = Ok (m, self1) -> predict self1 co' = Raise ValueError) /\
  (forall dm p depth dt0, predict_sph (init_sph dm p depth) co' dt0 = Raise ValueError).
Proof.
  intros avg nd dm p depth b t self co m self1 co' H.
  assert (N : coefs_ self = None) by (unfold init in H; destruct depth as [s|x]; [destruct (String.eqb s "default")|destruct (Reqb x 0)]; now inversion H).
  split; [unfold predict; now rewrite N|]. split; [|reflexivity].
  intros E. unfold predict. replace (coefs_ self1) with (coefs_ self); [now rewrite N|].
  unfold estimate_required_memory in E. apply bind_ok in E. destruct E as ((pts & self2) & B & E). injection E as _ <-.
  unfold build_points in B. cbv zeta in B. destruct (match block_size self with Some _ => _ | None => _ end) as [[c0 c1] c2]. apply bind_ok in B. destruct B as (D & _ & B). now injection B as _ <-.
Qed.
Example C61_before_fit_example : init None None (DepthNumber 1) None float64 = Ok (Eqs None None (DepthNumber 1) None float64 None None None).
Proof. unfold init. destruct (Reqb_spec 1 0); [lra|reflexivity]. Qed.
Print Assumptions C61_prediction_before_fit_refused.

(** Data, coordinates and weights that do not belong together are refused by the three classes. *)
Theorem C61_mismatched_inputs_refused : forall ls avg nd rw sh self self_sph window a b c da w,
  shape b <> shape a \/ shape c <> shape a \/ shape da <> shape a \/ (exists v, w = Some v /\ length (data v) <> length (data da)) ->
  fit ls avg nd self (a, b, c) da w = Raise ValueError /\
  fit_gb ls avg nd rw sh self window (a, b, c) da w = Raise ValueError /\
  fit_sph ls self_sph (a, b, c) da w = Raise ValueError.
Proof.
  intros ls avg nd rw sh self self_sph window a b c da w H.
  assert (E : check_fit_input (a, b, c) da w = Raise ValueError).
  { unfold check_fit_input, shape_eqb. destruct (list_eq_dec Nat.eq_dec (shape a) (shape b)) as [E1|]; [|reflexivity].
    destruct (list_eq_dec Nat.eq_dec (shape a) (shape c)) as [E2|]; [|reflexivity]. destruct (list_eq_dec Nat.eq_dec (shape a) (shape da)) as [E3|]; [|reflexivity].
    cbn [andb negb]. destruct H as [H|[H|[H|(v & -> & H)]]]; [now rewrite E1 in H|now rewrite E2 in H|now rewrite E3 in H|].
    unfold ravel. destruct (Nat.eqb_spec (length (data v)) (length (data da))); [contradiction|reflexivity]. }
  unfold fit, fit_gb, fit_sph. now rewrite E.
Qed.
Example C61_mismatched_example : shape (arr1 [1]) <> shape (arr1 [1; 2]).
Proof. discriminate. Qed.

(** If verde's least_squares minimises its objective for the matrix it is given, the fitted
    coefficients minimise the damped weighted misfit of the field of the sources. *)
Theorem C61_fit_minimises_the_misfit : forall ls avg nd self sh ds d w self' qs,
  dt self = float64 -> fit ls avg nd self (coords_of sh ds) (Arr sh d) w = Ok self' -> points_ self' = Some (flat qs) ->
  (forall J, same_entries J (design cart ds qs) ->
     minimises (objective J d (option_map data w) (damping self)) (length qs) (ls J d (option_map data w) (damping self))) ->
  exists coefs, coefs_ self' = Some coefs /\ minimises (objective (design cart ds qs) d (option_map data w) (damping self)) (length qs) coefs.
Proof.
  intros ls avg nd self sh ds d w self' qs Hdt H Hq Hls.
  destruct (fit_unfold _ _ _ _ _ _ _ _ Hdt H) as (mid & pts & J & Hmid & Hpts & HJ & -> & Hck). cbn [set_coefs points_ coefs_] in *.
  rewrite Hpts in Hq. injection Hq as ->. change (ravel3 (coords_of sh ds)) with (flat ds) in HJ.
  assert (Ha := jacobian_apart _ _ _ _ _ _ greens_cartesian_for HJ).
  destruct (jacobian_design _ _ greens_cartesian_for _ _ Ha) as (J' & HJ' & Hs). rewrite HJ in HJ'. injection HJ' as <-.
  eexists. split; [reflexivity|]. destruct (Hls J Hs) as (Hl & Hm). split; [exact Hl|].
  intros c' Hc'. rewrite <- !(objective_same J _ _ _ _ _ Hs). exact (Hm c' Hc').
Qed.

Theorem C61_fit_minimises_the_misfit_sph : forall ls self sh ds d w self' qs,
  fit_sph ls self (coords_of sh ds) (Arr sh d) w = Ok self' -> s_points_ self' = Some (flat qs) ->
  (forall J, same_entries J (design sphe ds qs) ->
     minimises (objective J d (option_map data w) (s_damping self)) (length qs) (ls J d (option_map data w) (s_damping self))) ->
  exists coefs, s_coefs_ self' = Some coefs /\ minimises (objective (design sphe ds qs) d (option_map data w) (s_damping self)) (length qs) coefs.
Proof.
  intros ls self sh ds d w self' qs H Hq Hls. unfold fit_sph in H. apply bind_ok in H. destruct H as ([] & _ & H). cbv zeta in H.
  change (ravel3 (coords_of sh ds)) with (flat ds) in H. apply bind_ok in H. destruct H as (J & HJ & H). injection H as <-. cbn [s_points_ s_coefs_] in *. injection Hq as Hq. rewrite Hq in HJ.
  assert (Ha := jacobian_apart _ _ _ _ _ _ greens_spherical_for HJ).
  destruct (jacobian_design _ _ greens_spherical_for _ _ Ha) as (J' & HJ' & Hs). rewrite HJ in HJ'. injection HJ' as <-.
  eexists. split; [reflexivity|]. destruct (Hls J Hs) as (Hl & Hm). split; [exact Hl|].
  intros c' Hc'. rewrite <- !(objective_same J _ _ _ _ _ Hs). exact (Hm c' Hc').
Qed.

(** Without damping, data that some coefficients reproduce are reproduced by the fitted ones. *)
Theorem C61_exact_fit_is_found : forall ls avg nd self sh ds d w self' qs cs,
  dt self = float64 -> damping self = None -> fit ls avg nd self (coords_of sh ds) (Arr sh d) w = Ok self' -> points_ self' = Some (flat qs) ->
  prod_shape sh = length ds -> length d = length ds -> (forall i, (i < length ds)%nat -> 0 < weight (option_map data w) i) ->
  (forall J, same_entries J (design cart ds qs) ->
     minimises (objective J d (option_map data w) None) (length qs) (ls J d (option_map data w) None)) ->
  length cs = length qs -> predicted cart qs cs ds = d ->
  predict self' (coords_of sh ds) = Ok (Arr sh d).
Proof.
  intros ls avg nd self sh ds d w self' qs cs Hdt Hda H Hq Hsh Hd Hw Hls Hcs Hex.
  destruct (C61_fit_minimises_the_misfit ls avg nd self sh ds d w self' qs Hdt H Hq ltac:(rewrite Hda; exact Hls)) as (coefs & Hc & Hm).
  destruct (fit_unfold _ _ _ _ _ _ _ _ Hdt H) as (mid & pts & J & Hmid & Hpts & HJ & E & Hck).
  assert (Hdt' : dt self' = float64).
  { rewrite E. cbn [set_coefs dt]. unfold fit_points in Hmid. destruct (points self); [injection Hmid as <-; exact Hdt|]. apply bind_ok in Hmid. destruct Hmid as ([q s1] & Hb & Hmid).
    unfold build_points in Hb. cbv zeta in Hb. destruct (match block_size self with Some _ => _ | None => _ end) as [[c0 c1] c2]. apply bind_ok in Hb. destruct Hb as (D & _ & Hb).
    injection Hb as <- <-. injection Hmid as <-. exact Hdt. }
  assert (Hpq : pts = flat qs) by (rewrite E in Hq; cbn [set_coefs points_] in Hq; congruence). subst pts. change (ravel3 (coords_of sh ds)) with (flat ds) in HJ.
  assert (Ha := jacobian_apart _ _ _ _ _ _ greens_cartesian_for HJ).
  rewrite (proj1 (C61_prediction_is_sum_over_distance self' coefs qs sh ds Hdt' Hc Hq (proj1 Hm) Hsh) Ha). f_equal. f_equal.
  rewrite Hda in Hm. exact (exact_fit cart ds qs d _ coefs cs Hd Hw Hcs Hex Hm).
Qed.

(** One observation at the origin and a source one metre below, with the exact solver of a system
    with one unknown. *)
Definition solve1 (J : table) (d : list R) (w : option (list R)) (a : option R) : list R := [nth 0 d 0 / ent J 0 0].
Definition no_average (s : R) (c : coords) : coords := c.
Definition no_neighbors (x y : list R) : res (list R) := Raise ValueError.
Definition eqs1 : eqs := Eqs None None (DepthNumber 1) None float64 None None None.

Lemma apart1 : apart cart [(0, 0, 0)] (lowered 1 [(0, 0, 0)]).
Proof.
  intros p q [<-|[]] [<-|[]]. unfold cart_position, fst3, snd3, thd3; cbn [fst snd]. intros E. injection E as E. lra.
Qed.

Lemma eucl1 : eucl (cart (0, 0, 0)) (cart (0, 0, 0 - 1)) = 1.
Proof.
  unfold eucl, norm, dot, vsub, cart_position. cbn [fst snd vx vy vz]. transitivity (sqrt 1); [f_equal; ring|apply sqrt_1].
Qed.

Lemma minimises1 J x w : same_entries J (design cart [(0, 0, 0)] (lowered 1 [(0, 0, 0)])) -> 0 <= weight w 0 ->
  minimises (objective J [x] w None) 1 (solve1 J [x] w None).
Proof.
  intros (Hr & Hc & He) Hw. cbn [design rows cols ent lowered map length] in *. specialize (He 0%nat 0%nat ltac:(lia) ltac:(lia)). cbn [nth] in He.
  unfold fst3, snd3, thd3 in He; cbn [fst snd] in He. rewrite eucl1 in He.
  split; [reflexivity|]. intros c' _. unfold objective. rewrite !Rplus_0_r. unfold misfit. rewrite Hr. change (range 0 1) with [0%nat]. unfold sum_over. cbn [map sumR].
  unfold times. rewrite Hc. change (range 0 1) with [0%nat]. unfold sum_over. cbn [map sumR]. unfold solve1. cbn [nth]. rewrite He.
  match goal with |- _ * ?a ^ 2 + 0 <= _ => replace a with 0 by field end.
  assert (0 <= weight w 0 * (x - (1 / 1 * nth 0 c' 0 + 0)) ^ 2) by (apply Rmult_le_pos; [exact Hw|apply pow2_ge_0]). lra.
Qed.

Example C61_example : exists self', fit solve1 no_average no_neighbors eqs1 (coords_of [1%nat] [(0, 0, 0)]) (Arr [1%nat] [7]) None = Ok self' /\
  predict self' (coords_of [1%nat] [(0, 0, 0)]) = Ok (Arr [1%nat] [7]).
Proof.
  destruct (fit_total solve1 no_average no_neighbors None [1%nat] [(0, 0, 0)] [7] None 1 None None None (check_fit_input_same _ _ _) apart1) as (J & Hs & E).
  eexists. split; [exact E|].
  apply (C61_exact_fit_is_found solve1 no_average no_neighbors eqs1 [1%nat] [(0, 0, 0)] [7] None _ (lowered 1 [(0, 0, 0)]) [7]); try reflexivity; try exact E.
  - intros; cbn; lra.
  - intros J' Hs'. apply (minimises1 J' 7 None Hs'). cbn. lra.
  - unfold predicted, lowered, inverse_distance, sum_over. cbn [map combine sumR fst snd fst3 snd3 thd3]. unfold fst3, snd3, thd3; cbn [fst snd]. rewrite eucl1. f_equal. field.
Qed.

Print Assumptions C61_prediction_is_sum_over_distance.
Print Assumptions C61_prediction_is_sum_over_distance_sph.
Print Assumptions C61_prediction_is_jacobian_times_coefficients.
Print Assumptions C61_prediction_is_jacobian_times_coefficients_sph.
Print Assumptions C61_mismatched_inputs_refused.
Print Assumptions C61_fit_minimises_the_misfit.
Print Assumptions C61_fit_minimises_the_misfit_sph.
Print Assumptions C61_exact_fit_is_found.

(** ** C62: where the sources are *)
Theorem C62_sources_below_the_data : forall ls avg nd self sh ds bs da w self',
  dt self = float64 -> points self = None -> match block_size self with Some s => avg s (flat ds) = flat bs | None => bs = ds end ->
  fit ls avg nd self (coords_of sh ds) da w = Ok self' -> below nd self bs self'.
Proof.
  intros ls avg nd self sh ds bs da w self' Hdt Hp Hb H. destruct (fit_unfold _ _ _ _ _ _ _ _ Hdt H) as (mid & pts & J & Hmid & _ & _ & -> & _).
  exact (fit_points_built avg nd self ds bs mid Hdt Hp Hb Hmid).
Qed.

Theorem C62_sources_below_the_data_gb : forall ls avg nd rw order self win sh ds bs da w self' errors,
  dt self = float64 -> points self = None -> match block_size self with Some s => avg s (flat ds) = flat bs | None => bs = ds end ->
  fit_gb ls avg nd rw order self win (coords_of sh ds) da w = Ok (self', errors) -> below nd self bs self'.
Proof.
  intros ls avg nd rw order self win sh ds bs da w self' errors Hdt Hp Hb H.
  destruct (fit_gb_unfold _ _ _ _ _ _ _ _ _ _ _ _ Hdt H) as (mid & pts & ws & r & c & _ & Hmid & _ & _ & _ & -> & _).
  exact (fit_points_built avg nd self ds bs mid Hdt Hp Hb Hmid).
Qed.

Theorem C62_sources_below_the_data_sph : forall ls self sh ds da w self',
  s_points self = None -> fit_sph ls self (coords_of sh ds) da w = Ok self' -> s_points_ self' = Some (flat (lowered (relative_depth self) ds)).
Proof.
  intros ls self sh ds da w self' Hp H. unfold fit_sph in H. apply bind_ok in H. destruct H as ([] & _ & H). cbv zeta in H. apply bind_ok in H. destruct H as (J & _ & H). injection H as <-.
  cbn [s_points_]. unfold sph_sources. rewrite Hp, map_lowered. reflexivity.
Qed.

(** Custom points are used unchanged. *)
Theorem C62_custom_points_are_used : forall ls avg nd self co p da w self',
  dt self = float64 -> points self = Some p -> fit ls avg nd self co da w = Ok self' ->
  points_ self' = Some (data (fst (fst p)), data (snd (fst p)), data (snd p)) /\ depth_ self' = Some None.
Proof.
  intros ls avg nd self co p da w self' Hdt Hp H. destruct (fit_unfold _ _ _ _ _ _ _ _ Hdt H) as (mid & pts & J & Hmid & _ & _ & -> & _).
  destruct p as [[a b] c]. exact (fit_points_custom avg nd self _ _ mid Hdt Hp Hmid).
Qed.

Theorem C62_custom_points_are_used_gb : forall ls avg nd rw order self win co p da w self' errors,
  dt self = float64 -> points self = Some p -> fit_gb ls avg nd rw order self win co da w = Ok (self', errors) ->
  points_ self' = Some (data (fst (fst p)), data (snd (fst p)), data (snd p)) /\ depth_ self' = Some None.
Proof.
  intros ls avg nd rw order self win co p da w self' errors Hdt Hp H.
  destruct (fit_gb_unfold _ _ _ _ _ _ _ _ _ _ _ _ Hdt H) as (mid & pts & ws & r & c & _ & Hmid & _ & _ & _ & -> & _).
  destruct p as [[a b] d]. exact (fit_points_custom avg nd self _ _ mid Hdt Hp Hmid).
Qed.

Theorem C62_custom_points_are_used_sph : forall ls self co p da w self',
  s_points self = Some p -> fit_sph ls self co da w = Ok self' -> s_points_ self' = Some (data (fst (fst p)), data (snd (fst p)), data (snd p)).
Proof.
  intros ls self co p da w self' Hp H. unfold fit_sph in H. apply bind_ok in H. destruct H as ([] & _ & H). cbv zeta in H. apply bind_ok in H. destruct H as (J & _ & H). injection H as <-.
  cbn [s_points_]. unfold sph_sources. rewrite Hp. destruct p as [[a b] c]. reflexivity.
Qed.

(** A zero depth and a string other than "default" are rejected, everything else is accepted. *)
Theorem C62_rejected_depths : forall dm p depth b t,
  init dm p depth b t = Raise ValueError /\ (depth = DepthNumber 0 \/ exists s, depth = DepthString s /\ s <> "default") \/
  init dm p depth b t = Ok (Eqs dm p depth b t None None None) /\ (depth = DepthString "default" \/ exists x, depth = DepthNumber x /\ x <> 0).
Proof.
  intros dm p [s|x] b t; cbn [init].
  - destruct (String.eqb_spec s "default") as [->|H]; [right; split; [reflexivity|now left]|left; split; [reflexivity|right; now exists s]].
  - destruct (Reqb_spec x 0) as [->|H]; [left; split; [reflexivity|now left]|right; split; [reflexivity|right; now exists x]].
Qed.

Theorem C62_rejected_windows : forall dm p depth b win t,
  (exists s, win = WindowString s /\ s <> "default") -> init_gb dm p depth b win t = Raise ValueError.
Proof. intros dm p depth b win t (s & -> & Hs). unfold init_gb. destruct (String.eqb_spec s "default"); [contradiction|reflexivity]. Qed.

Example C62_example : exists self', fit solve1 no_average no_neighbors eqs1 (coords_of [1%nat] [(0, 0, 0)]) (Arr [1%nat] [7]) None = Ok self' /\
  points_ self' = Some (flat [(0, 0, 0 - 1)]) /\ depth_ self' = Some (Some 1).
Proof.
  destruct (fit_total solve1 no_average no_neighbors None [1%nat] [(0, 0, 0)] [7] None 1 None None None (check_fit_input_same _ _ _) apart1) as (J & Hs & E).
  eexists. split; [exact E|]. split; reflexivity.
Qed.

Print Assumptions C62_sources_below_the_data.
Print Assumptions C62_sources_below_the_data_gb.
Print Assumptions C62_sources_below_the_data_sph.
Print Assumptions C62_custom_points_are_used.
Print Assumptions C62_custom_points_are_used_gb.
Print Assumptions C62_custom_points_are_used_sph.
Print Assumptions C62_rejected_depths.
Print Assumptions C62_rejected_windows.

(** ** C63: memory estimates *)
(** Only without custom points and in double precision. *)
Theorem C63_estimate_is_the_jacobian_partial : forall ls avg nd self co da w m self1 self',
  dt self = float64 -> points self = None -> estimate_required_memory avg nd self co = Ok (m, self1) -> fit ls avg nd self co da w = Ok self' ->
  exists pts J, points_ self' = Some pts /\ jacobian (dt self) greens_func_cartesian (ravel3 co) pts = Ok J /\ m = bytes J (itemsize (dt self)).
Proof.
  intros ls avg nd self co da w m self1 self' Hdt Hp He H.
  destruct (fit_unfold _ _ _ _ _ _ _ _ Hdt H) as (mid & pts & J & Hmid & Hpts & HJ & -> & _). exists pts, J. rewrite Hdt. split; [exact Hpts|]. split; [exact HJ|].
  destruct (jacobian_shape _ _ _ _ _ HJ) as (Hr & Hc). unfold bytes. rewrite Hr, Hc.
  unfold estimate_required_memory in He. cbv zeta in He. unfold fit_points in Hmid. rewrite Hp in Hmid.
  apply bind_ok in He. destruct He as ([p s] & Hb & He). rewrite Hb in Hmid. cbn [bind] in Hmid. injection He as <- <-. injection Hmid as <-. cbn [points_] in Hpts. injection Hpts as <-.
  assert (Hds : dt s = float64).
  { unfold build_points in Hb. cbv zeta in Hb. destruct (match block_size self with Some _ => _ | None => _ end) as [[c0 c1] c2]. apply bind_ok in Hb. destruct Hb as (D & _ & Hb). injection Hb as <- <-. exact Hdt. }
  rewrite Hds, astype3_float64. reflexivity.
Qed.

(** The windows of two shuffles have the same largest Jacobian. *)
Theorem C63_estimate_is_the_largest_jacobian_gb_partial : forall ls avg nd rw order1 order2 self win co da w m self1 self' errors,
  dt self = float64 -> points self = None -> an_order order1 -> an_order order2 ->
  estimate_required_memory_gb avg nd rw order1 self win co = Ok (m, self1) -> fit_gb ls avg nd rw order2 self win co da w = Ok (self', errors) ->
  exists pts ws, points_ self' = Some pts /\ create_windows rw order2 win pts (ravel3 co) true = Ok ws /\
    (exists sources data, In (sources, data) ws /\ m = length data * length sources * 8)%nat /\
    (forall sources data, In (sources, data) ws -> length data * length sources * 8 <= m)%nat.
Proof.
  intros ls avg nd rw order1 order2 self win co da w m self1 self' errors Hdt Hp Ho1 Ho2 He H.
  destruct (fit_gb_unfold _ _ _ _ _ _ _ _ _ _ _ _ Hdt H) as (mid & pts & ws & r & c & _ & Hmid & Hpts & Hws & _ & -> & _).
  exists pts, ws. split; [exact Hpts|]. split; [exact Hws|].
  unfold estimate_required_memory_gb in He. cbv zeta in He. unfold fit_points in Hmid. rewrite Hp in Hmid.
  apply bind_ok in He. destruct He as ([p s] & Hb & He). rewrite Hb in Hmid. cbn [bind] in Hmid. injection Hmid as <-. cbn [points_] in Hpts. injection Hpts as <-.
  assert (Hds : dt s = float64).
  { unfold build_points in Hb. cbv zeta in Hb. destruct (match block_size self with Some _ => _ | None => _ end) as [[c0 c1] c2]. apply bind_ok in Hb. destruct Hb as (D & _ & Hb). injection Hb as <- <-. exact Hdt. }
  rewrite Hds, astype3_float64 in Hws. apply bind_ok in He. destruct He as (ws1 & Hws1 & He). apply bind_ok in He. destruct He as (largest & Hl & He). injection He as <- _.
  cbn [dt set_points]. rewrite Hds. cbn [itemsize float64]. apply max_nat_spec in Hl. destruct Hl as (Hin & Hmax).
  assert (P := create_windows_orders _ _ _ _ _ _ _ _ Ho1 Ho2 Hws1 Hws). split.
  - apply in_map_iff in Hin. destruct Hin as ([sw dw] & E & Hin). exists sw, dw. split; [exact (Permutation_in _ P Hin)|]. cbn [fst snd] in E. lia.
  - intros sw dw Hw. apply (Permutation_in _ (Permutation_sym P)) in Hw. specialize (Hmax (length sw * length dw)%nat). 
    assert (length sw * length dw <= largest)%nat; [|lia]. apply Hmax. apply in_map_iff. now exists (sw, dw).
Qed.

Theorem C63_estimate_is_the_jacobian_sph_partial : forall ls self co da w self',
  fit_sph ls self co da w = Ok self' ->
  exists pts J, s_points_ self' = Some pts /\ jacobian float64 greens_func_spherical (ravel3 co) pts = Ok J /\
    estimate_required_memory_sph self co float64 = bytes J (itemsize float64).
Proof.
  intros ls self co da w self' H. unfold fit_sph in H. apply bind_ok in H. destruct H as ([] & _ & H). cbv zeta in H. apply bind_ok in H. destruct H as (J & HJ & H). injection H as <-.
  exists (sph_sources self (ravel3 co)), J. split; [reflexivity|]. split; [exact HJ|]. destruct (jacobian_shape _ _ _ _ _ HJ) as (Hr & Hc). unfold bytes. rewrite Hr, Hc. reflexivity.
Qed.

(** With custom points the Cartesian estimate still counts the sources that would be built. *)
Lemma apart2 : apart cart [(0, 0, 0)] [(0, 0, -1); (1, 0, -1)].
Proof. intros p q [<-|[]] [<-|[<-|[]]]; unfold cart_position, fst3, snd3, thd3; cbn [fst snd]; intros E; injection E; intros; lra. Qed.

Theorem C63_custom_points_refuted : exists self co da self' m self1 J pts,
  dt self = float64 /\ estimate_required_memory no_average no_neighbors self co = Ok (m, self1) /\ fit solve1 no_average no_neighbors self co da None = Ok self' /\
  points_ self' = Some pts /\ jacobian (dt self) greens_func_cartesian (ravel3 co) pts = Ok J /\ m = 8%nat /\ bytes J (itemsize (dt self)) = 16%nat.
Proof.
  destruct (jacobian_design _ _ greens_cartesian_for _ _ apart2) as (J & HJ & (Hr & Hc & _)).
  exists (Eqs None (Some (coords_of [2%nat] [(0, 0, -1); (1, 0, -1)])) (DepthNumber 1) None float64 None None None), (coords_of [1%nat] [(0, 0, 0)]), (Arr [1%nat] [7]).
  do 3 eexists. exists J, (flat [(0, 0, -1); (1, 0, -1)]). split; [reflexivity|]. split; [reflexivity|]. split.
  - unfold fit. rewrite check_fit_input_same. cbn [bind dt]. cbv zeta. rewrite astype3_float64, astype_float64. unfold fit_points. cbn [points bind]. unfold get_points. cbn [points_ bind dt]. rewrite astype3_float64.
    change (ravel3 (coords_of [2%nat] [(0, 0, -1); (1, 0, -1)])) with (flat [(0, 0, -1); (1, 0, -1)]). change (ravel3 (coords_of [1%nat] [(0, 0, 0)])) with (flat [(0, 0, 0)]).
    rewrite HJ. reflexivity.
  - split; [reflexivity|]. split; [exact HJ|]. split; [reflexivity|]. unfold bytes. rewrite Hr, Hc. reflexivity.
Qed.

(** For longitudes in single precision the spherical estimate is half of the Jacobian. *)
Theorem C63_single_precision_estimate_is_half : forall ls self co da w self' cast32,
  fit_sph ls self co da w = Ok self' ->
  exists pts J, s_points_ self' = Some pts /\ jacobian float64 greens_func_spherical (ravel3 co) pts = Ok J /\
    (2 * estimate_required_memory_sph self co (DType 4 cast32) = bytes J (itemsize float64))%nat.
Proof.
  intros ls self co da w self' cast32 H. destruct (C63_estimate_is_the_jacobian_sph_partial ls self co da w self' H) as (pts & J & H1 & H2 & H3).
  exists pts, J. split; [exact H1|]. split; [exact H2|]. rewrite <- H3. unfold estimate_required_memory_sph. cbv zeta. cbn [itemsize float64]. lia.
Qed.

Example C63_example : exists self' self1, fit solve1 no_average no_neighbors eqs1 (coords_of [1%nat] [(0, 0, 0)]) (Arr [1%nat] [7]) None = Ok self' /\
  estimate_required_memory no_average no_neighbors eqs1 (coords_of [1%nat] [(0, 0, 0)]) = Ok (8%nat, self1).
Proof.
  destruct (fit_total solve1 no_average no_neighbors None [1%nat] [(0, 0, 0)] [7] None 1 None None None (check_fit_input_same _ _ _) apart1) as (J & Hs & E).
  do 2 eexists. split; [exact E|]. reflexivity.
Qed.

Print Assumptions C63_estimate_is_the_jacobian_partial.
Print Assumptions C63_estimate_is_the_largest_jacobian_gb_partial.
Print Assumptions C63_estimate_is_the_jacobian_sph_partial.
Print Assumptions C63_custom_points_refuted.
Print Assumptions C63_single_precision_estimate_is_half.

(** ** C64: gradient boosting *)
(** After every window the residue is the data minus the prediction of the coefficients, the error is
    the root mean square of that residue, and the window has done its part. *)
Theorem C64_residue_after_every_window : forall ls dm qs ds d weights ws residue errors coefs,
  length d = length ds -> weights_cover (length ds) weights -> windows_of (length qs) (length ds) ws ->
  gradient_boosting ls float64 dm (flat qs) (flat ds) d weights ws (repeat 0 (length qs)) = Ok (residue, errors, coefs) ->
  consistent qs ds d residue coefs /\ length errors = S (length ws) /\
  forall k, (k <= length ws)%nat -> exists residue_k errors_k coefs_k,
    gradient_boosting ls float64 dm (flat qs) (flat ds) d weights (firstn k ws) (repeat 0 (length qs)) = Ok (residue_k, errors_k, coefs_k) /\
    consistent qs ds d residue_k coefs_k /\ nth k errors 0 = root_mean_square residue_k /\
    (forall w, nth_error ws k = Some w -> exists residue' errors' coefs',
      gradient_boosting ls float64 dm (flat qs) (flat ds) d weights (firstn (S k) ws) (repeat 0 (length qs)) = Ok (residue', errors', coefs') /\
      window_result ls dm qs ds weights w residue_k coefs_k residue' coefs').
Proof.
  intros ls dm qs ds d weights ws residue errors coefs Hd Hw Hws H.
  destruct (boosting_invariant ls dm qs ds d weights Hd Hw ws _ Hws H) as (r & e & c & E & H1 & H2 & H3). injection E as <- <- <-. auto.
Qed.

Theorem C64_boosting_succeeds : forall ls dm qs ds d weights ws,
  length d = length ds -> weights_cover (length ds) weights -> (forall J d w a, length (ls J d w a) = cols J) -> apart cart ds qs ->
  windows_of (length qs) (length ds) ws -> exists st,
  gradient_boosting ls float64 dm (flat qs) (flat ds) d weights ws (repeat 0 (length qs)) = Ok st.
Proof. intros ls dm qs ds d weights ws Hd Hw Hls Ha Hws. now apply boosting_total. Qed.

(** The solution of a window does not make the fit inside the window worse. *)
Theorem C64_window_misfit_does_not_increase : forall ls dm qs ds weights w residue coefs residue' coefs',
  window_of (length qs) (fst w) -> window_of (length ds) (snd w) -> length residue = length ds -> match dm with Some a => 0 <= a | None => True end ->
  window_result ls dm qs ds weights w residue coefs residue' coefs' ->
  (forall J, same_entries J (design cart (chosen zero_point ds (snd w)) (chosen zero_point qs (fst w))) ->
     let d := chosen 0 residue (snd w) in let ws := option_map (fun l => chosen 0 l (snd w)) weights in
     minimises (objective J d ws dm) (length (fst w)) (ls J d ws dm)) ->
  let misfit_in r := sum_over (range 0 (length (snd w))) (fun i =>
    weight (option_map (fun l => chosen 0 l (snd w)) weights) i * (nth (nth i (snd w) 0%nat) r 0) ^ 2) in
  misfit_in residue' <= misfit_in residue.
Proof.
  intros ls dm qs ds weights w residue coefs residue' coefs' Hwp Hwd Hr Hdm (J & Hs & Hl & _ & _ & _ & Hr' & _) Hls misfit_in.
  specialize (Hls J Hs). cbv zeta in Hls, Hl, Hr'. set (d := chosen 0 residue (snd w)) in *. set (wts := option_map _ weights) in *. set (chunk := ls J d wts dm) in *.
  destruct Hls as (_ & Hm). specialize (Hm (repeat 0 (length (fst w))) (repeat_length _ _)).
  assert (Hrows : rows J = length (snd w)) by (rewrite (proj1 Hs); cbn; apply map_length).
  assert (Hcols : cols J = length (fst w)) by (rewrite (proj1 (proj2 Hs)); cbn; apply map_length).
  assert (E' : misfit J d wts chunk = misfit_in residue').
  { unfold misfit, misfit_in. rewrite Hrows. apply sum_over_ext. intros i Hi. apply range_in in Hi. f_equal. f_equal.
    rewrite Hr'. rewrite nth_minus by (rewrite Hr; apply Hwd; apply nth_In; lia). unfold d, chosen at 1. rewrite (nth_map _ _ _ 0%nat) by lia.
    f_equal. rewrite (times_same J _ chunk i Hs) by lia. rewrite design_times by (rewrite ?length_chosen; lia).
    unfold predicted. rewrite (nth_map _ _ _ p0) by (apply Hwd; apply nth_In; lia). unfold chosen. rewrite (nth_map _ _ _ 0%nat) by lia. reflexivity. }
  assert (E0 : misfit J d wts (repeat 0 (length (fst w))) = misfit_in residue).
  { unfold misfit, misfit_in. rewrite Hrows. apply sum_over_ext. intros i Hi. apply range_in in Hi. f_equal. f_equal.
    unfold d, chosen. rewrite (nth_map _ _ _ 0%nat) by lia. unfold times. rewrite sum_over_zero; [ring|]. intros j _. rewrite nth_repeat. ring. }
  unfold objective in Hm. rewrite E', E0 in Hm. destruct dm as [a|]; [|lra].
  assert (Z : sum_over (range 0 (cols J)) (fun j => (column_std J j * nth j (repeat 0 (length (fst w))) 0) ^ 2) = 0) by (apply sum_over_zero; intros j _; rewrite nth_repeat; ring).
  rewrite Z in Hm. assert (0 <= a * sum_over (range 0 (cols J)) (fun j => (column_std J j * nth j chunk 0) ^ 2)) by (apply Rmult_le_pos; [exact Hdm|apply sum_over_nonneg; intros; apply pow2_ge_0]). lra.
Qed.

(** The whole fit: the coefficients explain the data up to a residue whose root mean square is the last error. *)
Theorem C64_last_error_is_the_misfit : forall ls avg nd rw order self win sh ds d w self' errors qs,
  dt self = float64 -> length d = length ds -> weights_cover (length ds) (option_map data w) -> an_order order ->
  (forall x y reg s o l, rw x y reg s o = Ok l -> forall v, In v l -> window_of (length x) v) ->
  fit_gb ls avg nd rw order self win (coords_of sh ds) (Arr sh d) w = Ok (self', errors) -> points_ self' = Some (flat qs) ->
  exists coefs, coefs_ self' = Some coefs /\ length coefs = length qs /\ errors <> [] /\
    hd 0 errors = root_mean_square d /\ last errors 0 = root_mean_square (minus d (predicted cart qs coefs ds)).
Proof.
  intros ls avg nd rw order self win sh ds d w self' errors qs Hdt Hd Hw Ho Hrw H Hq.
  destruct (fit_gb_unfold _ _ _ _ _ _ _ _ _ _ _ _ Hdt H) as (mid & pts & ws & residue & coefs & _ & Hmid & Hpts & Hws & HB & -> & Hdm & Hda).
  rewrite set_coefs_points, Hpts in Hq. injection Hq as ->. change (ravel3 (coords_of sh ds)) with (flat ds) in *. rewrite size_flat in HB.
  assert (Hv := create_windows_valid rw order win qs ds ws Ho Hrw Hws).
  destruct (boosting_invariant ls _ qs ds d _ Hd Hw ws _ Hv HB) as (r & e & c & E & (Hl & Hr) & Hle & Hk). injection E as <- <- <-.
  exists coefs. split; [reflexivity|]. split; [exact Hl|]. split; [intros ->; discriminate|]. split.
  - destruct (Hk 0%nat ltac:(lia)) as (r0 & e0 & c0 & E0 & _ & N0 & _). unfold gradient_boosting in E0. cbn [firstn for_] in E0. injection E0 as <- _ _.
    rewrite <- N0. now destruct errors.
  - destruct (Hk (length ws) ltac:(lia)) as (r1 & e1 & c1 & E1 & _ & N1 & _). rewrite firstn_all in E1. assert (E2 := eq_trans (eq_sym HB) E1). injection E2 as <- _ _.
    rewrite <- Hr, <- N1. replace (length ws) with (length errors - 1)%nat by lia. clear. induction errors as [|x [|y l] IH]; [reflexivity|reflexivity|].
    change (last (x :: y :: l) 0) with (last (y :: l) 0). rewrite IH. cbn [length]. replace (S (S (length l)) - 1)%nat with (S (length l)) by lia. cbn [nth]. now replace (S (length l) - 1)%nat with (length l) by lia.
Qed.

(** Up to 5000 data the default window holds everything and boosting is the plain fit. *)
Theorem C64_single_window_is_the_plain_fit : forall ls avg nd rw order self sh ds d w self' errors qs,
  dt self = float64 -> length d = length ds -> weights_cover (length ds) (option_map data w) -> INR (length ds) <= 5000 -> points_ self' = Some (flat qs) ->
  fit_gb ls avg nd rw order self (WindowString "default") (coords_of sh ds) (Arr sh d) w = Ok (self', errors) ->
  fit ls avg nd self (coords_of sh ds) (Arr sh d) w = Ok self'.
Proof. intros ls avg nd rw order self sh ds d w self' errors qs. apply single_window_fit. Qed.

(** Shuffling only changes the order of the pairs of windows. *)
Theorem C64_shuffling_permutes_the_windows : forall rw order win pts co ws, an_order order ->
  create_windows rw order win pts co true = Ok ws ->
  exists ws', create_windows rw order win pts co false = Ok ws' /\ Permutation ws ws'.
Proof. intros rw order win pts co ws. apply create_windows_shuffled. Qed.

(** Two data points, two sources and two overlapping windows. *)
Definition ones (J : table) (d : list R) (w : option (list R)) (a : option R) : list R := repeat 1 (cols J).
Example C64_example : windows_of 2 2 [([0], [0; 1]); ([1; 0], [1])]%nat /\
  exists st, gradient_boosting ones float64 None (flat [(0, 0, -1); (1, 0, -1)]) (flat [(0, 0, 0); (0, 0, 5)]) [3; 4] None [([0], [0; 1]); ([1; 0], [1])]%nat (repeat 0 2) = Ok st.
Proof.
  assert (W : windows_of 2 2 [([0], [0; 1]); ([1; 0], [1])]%nat).
  { intros w [<-|[<-|[]]]; cbn [fst snd]; (split; (split; [repeat first [apply NoDup_nil | apply NoDup_cons]; cbn; intuition lia|intros k Hk; cbn in Hk; lia])). }
  split; [exact W|]. apply (C64_boosting_succeeds ones None [(0, 0, -1); (1, 0, -1)] [(0, 0, 0); (0, 0, 5)] [3; 4] None); auto.
  - exact I.
  - intros; apply repeat_length.
  - intros p q [<-|[<-|[]]] [<-|[<-|[]]]; unfold cart_position, fst3, snd3, thd3; cbn [fst snd]; intros E; injection E; intros; lra.
Qed.

Example C64_example_default_window : exists self' errors,
  fit_gb solve1 no_average no_neighbors (fun _ _ _ _ _ => Raise ValueError) (seq 0) eqs1 (WindowString "default") (coords_of [1%nat] [(0, 0, 0)]) (Arr [1%nat] [7]) None = Ok (self', errors).
Proof.
  destruct (boosting_total (fun J d w a => repeat (nth 0 d 0 / ent J 0 0) (cols J)) None (lowered 1 [(0, 0, 0)]) [(0, 0, 0)] [7] None eq_refl I ltac:(intros; apply repeat_length) apart1
    [(range 0 1, range 0 1)]) as (st & Hst).
  { intros w [<-|[]]. split; apply range_window. }
  unfold fit_gb. rewrite check_fit_input_same. cbn [bind dt eqs1]. cbv zeta. rewrite astype3_float64, astype_float64.
  unfold fit_points, build_points, eqs1. cbn [points block_size depth]. change (ravel3 (coords_of [1%nat] [(0, 0, 0)])) with (flat [(0, 0, 0)]). unfold flat at 1. cbn [bind dt points_ get_points].
  rewrite <- map_lowered. rewrite astype3_float64. unfold get_points. cbn [points_ bind dt damping option_map].
  assert (Hcw : create_windows (fun _ _ _ _ _ => Raise ValueError) (seq 0) (WindowString "default") (flat (lowered 1 [(0, 0, 0)])) (flat [(0, 0, 0)]) true = Ok [(range 0 1, range 0 1)]).
  { unfold create_windows, get_region_data_sources, flat, lowered. cbn [map fst snd get_region bind fold_left]. cbv zeta. cbn [size fst length map].
    destruct (Rleb_spec (INR 1) 5000) as [_|G]; [reflexivity|]. exfalso. cbn in G. lra. }
  rewrite Hcw. cbn [bind]. rewrite size_flat. change (ravel (Arr [1%nat] [7])) with [7].
  unfold gradient_boosting in *. cbn [for_] in *. rewrite boost_window_chunks in *; try (apply range_window); try reflexivity; try exact I. cbn [fst snd] in *.
  apply bind_ok in Hst. destruct Hst as (s1 & Hst & _). apply bind_ok in Hst. destruct Hst as (J & HJ & Hst). rewrite HJ. cbn [bind]. cbv zeta.
  assert (Hc : cols J = 1%nat) by (rewrite (proj2 (jacobian_shape _ _ _ _ _ HJ)); reflexivity). unfold solve1.
  cbv zeta in Hst. rewrite Hc in Hst. cbn [repeat] in Hst. apply bind_ok in Hst. destruct Hst as (pr & Hpr & _). rewrite Hpr. cbn [bind length]. rewrite length_range. do 2 eexists. reflexivity.
Qed.

Print Assumptions C64_residue_after_every_window.
Print Assumptions C64_boosting_succeeds.
Print Assumptions C64_window_misfit_does_not_increase.
Print Assumptions C64_last_error_is_the_misfit.
Print Assumptions C64_single_window_is_the_plain_fit.
Print Assumptions C64_shuffling_permutes_the_windows.

(** ** C65: integer longitudes *)
Lemma truncate_integer x : exists z, truncate x = IZR z.
Proof. unfold truncate. destruct (Rleb 0 x); [now exists (Int_part x)|]. exists (- Int_part (- x))%Z. now rewrite opp_IZR. Qed.

(** With integer longitudes every predicted value is an integer, whatever the sources. *)
Theorem C65_integer_longitudes_give_integers : forall self co a,
  predict_sph self co int64 = Ok a -> forall x, In x (data a) -> exists z, x = IZR z.
Proof.
  intros self co a H. unfold predict_sph in H. destruct (s_coefs_ self) as [coefs|]; [|discriminate]. apply bind_ok in H. destruct H as (pts & _ & H).
  unfold predict_data in H. destruct co as [[c0 c1] c2]. apply bind_ok in H. destruct H as (sh & _ & H). apply bind_ok in H. destruct H as (l & Hl & H). injection H as <-. cbn [data].
  revert Hl. unfold predict_kernel. set (P := fun l : list R => forall x, In x l -> exists z, x = IZR z).
  apply (for_preserve P).
  - intros i s s' Hs. apply (for_preserve P); [|exact Hs]. intros j t t' Ht E. apply bind_ok in E. destruct E as (c & _ & E). apply bind_ok in E. destruct E as (v & _ & E). apply bind_ok in E. destruct E as (o & _ & E).
    unfold aset in E. destruct (Nat.ltb i (length t)); [|discriminate]. injection E as <-. cbn [cast int64]. intros x Hx. apply (In_nth _ _ 0) in Hx. destruct Hx as (k & Hk & <-). rewrite length_upd in Hk.
    destruct (Nat.eq_dec k i) as [->|Hne]; [rewrite nth_upd_eq by assumption; apply truncate_integer|]. rewrite nth_upd_neq by auto. apply Ht. now apply nth_In.
  - intros x Hx. apply repeat_spec in Hx. subst. now exists 0%Z.
Qed.

Definition one_coefficient (J : table) (d : list R) (w : option (list R)) (a : option R) : list R := [1].

Lemma sph_eucl r s : 0 <= r - s -> eucl (sphe (0, 0, r)) (sphe (0, 0, s)) = r - s.
Proof.
  intros H. unfold eucl, norm, dot, vsub, sph_position. cbn [vx vy vz]. unfold radians. replace (0 * PI / 180) with 0 by field. rewrite ?cos_0, ?sin_0.
  transitivity (sqrt ((r - s) * (r - s))); [f_equal; ring|]. now apply sqrt_square.
Qed.

Lemma apart_sph : apart sphe [(0, 0, 3)] [(0, 0, 1)].
Proof.
  intros p q [<-|[]] [<-|[]] E. apply eucl_zero in E. rewrite sph_eucl in E; lra.
Qed.

Theorem C65_integer_coordinates_refuted : exists self co da self',
  fit_sph one_coefficient self co da None = Ok self' /\
  predict_sph self' co float64 = Ok (Arr [1%nat] [1 / 2]) /\ predict_sph self' co int64 = Ok (Arr [1%nat] [0]).
Proof.
  exists (init_sph None None 2), (coords_of [1%nat] [(0, 0, 3)]), (Arr [1%nat] [1 / 2]), (Sph None None 2 (Some (flat [(0, 0, 1)])) (Some [1])).
  assert (El : flat (lowered 2 [(0, 0, 3)]) = flat [(0, 0, 1)]).
  { unfold lowered, flat. cbn [map]. unfold fst3, snd3, thd3. cbn [fst snd]. replace (3 - 2) with 1 by ring. reflexivity. }
  split; [|split].
  - unfold fit_sph. rewrite check_fit_input_same. cbn [bind]. cbv zeta. change (ravel3 (coords_of [1%nat] [(0, 0, 3)])) with (flat [(0, 0, 3)]).
    assert (Es : sph_sources (init_sph None None 2) (flat [(0, 0, 3)]) = flat [(0, 0, 1)]) by (rewrite <- El, map_lowered; reflexivity). rewrite Es.
    destruct (jacobian_design _ _ greens_spherical_for _ _ apart_sph) as (J & HJ & _). rewrite HJ. reflexivity.
  - rewrite (proj1 (C61_prediction_is_sum_over_distance_sph (Sph None None 2 (Some (flat [(0, 0, 1)])) (Some [1])) [1] [(0, 0, 1)] [1%nat] [(0, 0, 3)] eq_refl eq_refl eq_refl eq_refl) apart_sph).
    unfold predicted, inverse_distance, sum_over. cbn [map combine sumR fst snd]. rewrite sph_eucl by lra. do 2 f_equal. f_equal. field.
  - unfold predict_sph. cbn [s_coefs_ s_points_ bind]. unfold predict_data, coords_of. rewrite broadcast3_same by reflexivity. cbn [bind shape].
    change (ravel3 _) with (flat [(0, 0, 3)]). change (prod_shape [1%nat]) with 1%nat. unfold predict_kernel. rewrite !size_flat. cbn [length]. change (range 0 1) with [0%nat]. cbn [for_ repeat].
    rewrite (aget_ok [1] 0 0) by (cbn; lia). cbn [bind nth]. rewrite (greens_at_ok _ _ greens_spherical_for) by (apply apart_sph || cbn; lia). cbn [nth bind].
    rewrite (aget_ok [0] 0 0) by (cbn; lia). cbn [bind nth cast int64]. rewrite aset_ok by (cbn; lia). cbn [bind upd].
    rewrite sph_eucl by lra. do 3 f_equal. unfold truncate. destruct (Rleb_spec 0 (0 + 1 * (1 / (3 - 1)))) as [_|G]; [|exfalso; lra].
    replace (Int_part (0 + 1 * (1 / (3 - 1)))) with 0%Z; [reflexivity|]. unfold Int_part. rewrite <- (tech_up (0 + 1 * (1 / (3 - 1))) 1); [reflexivity|lra|lra].
Qed.

Print Assumptions C65_integer_longitudes_give_integers.
Print Assumptions C65_integer_coordinates_refuted.

(** ** C79: estimating memory leaves a fitted estimator alone *)
Theorem C79_estimate_keeps_predictions : forall avg nd self co m self', estimate_required_memory avg nd self co = Ok (m, self') ->
  forall co', predict self' co' = predict self co'.
Proof.
  intros avg nd self co m self' H co'. unfold estimate_required_memory in H. cbv zeta in H. apply bind_ok in H. destruct H as ([p s] & Hb & H). injection H as <- <-.
  unfold build_points in Hb. cbv zeta in Hb. destruct (match block_size self with Some _ => _ | None => _ end) as [[c0 c1] c2]. apply bind_ok in Hb. destruct Hb as (D & _ & Hb). injection Hb as <- <-. reflexivity.
Qed.

(** The gradient-boosted class replaces the fitted sources, even custom ones, by new ones. *)
Theorem C79_gb_estimate_moves_the_sources_refuted : exists self co m self' co',
  estimate_required_memory_gb no_average no_neighbors (fun _ _ _ _ _ => Raise ValueError) (seq 0) self (WindowString "default") co = Ok (m, self') /\
  predict self co' = Ok (Arr [1%nat] [1]) /\ predict self' co' = Ok (Arr [1%nat] [1 / 2]).
Proof.
  exists (Eqs None None (DepthNumber 1) None float64 (Some (flat [(0, 0, 0)])) (Some [1]) (Some (Some 1))), (coords_of [1%nat] [(0, 0, 0)]), 8%nat,
    (Eqs None None (DepthNumber 1) None float64 (Some (flat [(0, 0, 0 - 1)])) (Some [1]) (Some (Some 1))), (coords_of [1%nat] [(0, 0, 1)]).
  assert (E : forall z, z < 1 -> eucl (cart (0, 0, 1)) (cart (0, 0, z)) = 1 - z).
  { intros z Hz. unfold eucl, norm, dot, vsub, cart_position. cbn [vx vy vz]. transitivity (sqrt ((1 - z) * (1 - z))); [f_equal; ring|]. apply sqrt_square. lra. }
  assert (A : forall z, z < 1 -> apart cart [(0, 0, 1)] [(0, 0, z)]).
  { intros z Hz p q [<-|[]] [<-|[]] F. apply eucl_zero in F. rewrite E in F; lra. }
  assert (P : forall z, z < 1 -> predict (Eqs None None (DepthNumber 1) None float64 (Some (flat [(0, 0, z)])) (Some [1]) (Some (Some 1))) (coords_of [1%nat] [(0, 0, 1)]) = Ok (Arr [1%nat] [1 / (1 - z)])).
  { intros z Hz. rewrite (proj1 (C61_prediction_is_sum_over_distance (Eqs None None (DepthNumber 1) None float64 (Some (flat [(0, 0, z)])) (Some [1]) (Some (Some 1))) [1] [(0, 0, z)] [1%nat] [(0, 0, 1)] eq_refl eq_refl eq_refl eq_refl eq_refl) (A z Hz)).
    unfold predicted, inverse_distance, sum_over. cbn [map combine sumR fst snd]. rewrite E by exact Hz. now rewrite Rplus_0_r. }
  split; [|split].
  - unfold estimate_required_memory_gb. change (ravel3 (coords_of [1%nat] [(0, 0, 0)])) with (flat [(0, 0, 0)]). cbv zeta. unfold build_points. cbn [block_size depth]. unfold flat at 1. cbn [bind map].
    assert (Hcw : create_windows (fun _ _ _ _ _ => Raise ValueError) (seq 0) (WindowString "default") ([fst3 (0, 0, 0)], [snd3 (0, 0, 0)], [thd3 (0, 0, 0) - 1]) (flat [(0, 0, 0)]) true = Ok [(range 0 1, range 0 1)]).
    { unfold create_windows, get_region_data_sources, flat. cbn [map fst snd get_region bind fold_left]. cbv zeta. cbn [size fst length map].
      destruct (Rleb_spec (INR 1) 5000) as [_|G]; [reflexivity|]. exfalso. cbn in G. lra. }
    rewrite Hcw. cbn [bind map fst snd]. rewrite length_range. reflexivity.
  - rewrite P by lra. do 3 f_equal. field.
  - rewrite P by lra. do 3 f_equal. field.
Qed.

Print Assumptions C79_estimate_keeps_predictions.
Print Assumptions C79_gb_estimate_moves_the_sources_refuted.
Example C79_example : let self := Eqs None None (DepthNumber 1) None float64 (Some (flat [(0, 0, 0)])) (Some [1]) (Some (Some 1)) in
  exists m self', estimate_required_memory no_average no_neighbors self (coords_of [1%nat] [(0, 0, 0)]) = Ok (m, self').
Proof. cbv zeta. unfold estimate_required_memory. cbv zeta. unfold build_points. cbn. eexists. eexists. reflexivity. Qed.

(** ** C80: keyword arguments of grid and profile *)
Theorem C80_grid_keywords : forall kwargs,
  grid_kwargs kwargs = Raise ValueError /\ (exists k, In k kwargs /\ In k ["upward"; "shape"; "region"; "spacing"]) \/
  grid_kwargs kwargs = Ok (match kwargs with [] => [] | _ => [IgnoredArguments kwargs] end) /\ (forall k, In k kwargs -> ~ In k ["upward"; "shape"; "region"; "spacing"]).
Proof.
  intros kwargs. unfold grid_kwargs. destruct (existsb (fun k => existsb (String.eqb k) kwargs) ["upward"; "shape"; "region"; "spacing"]) eqn:E.
  - left. split; [reflexivity|]. apply existsb_exists in E. destruct E as (k & Hk & E). apply existsb_exists in E. destruct E as (k' & Hk' & E). apply String.eqb_eq in E. subst k'. now exists k.
  - right. split; [reflexivity|]. intros k Hk Hin.
    assert (T : existsb (fun k => existsb (String.eqb k) kwargs) ["upward"; "shape"; "region"; "spacing"] = true); [|congruence].
    apply existsb_exists. exists k. split; [exact Hin|]. apply existsb_exists. exists k. split; [exact Hk|apply String.eqb_refl].
Qed.

Theorem C80_profile_keywords : forall (A : Type) (upward : A) kwargs,
  let (passed, warnings) := profile_kwargs upward kwargs in
  (forall v, In ("extra_coords", v) passed <-> v = upward) /\
  (forall k v, k <> "extra_coords" -> (In (k, v) passed <-> In (k, v) kwargs)) /\
  ((exists v, In ("extra_coords", v) kwargs) /\ warnings = [IgnoredExtraCoords] \/ (forall v, ~ In ("extra_coords", v) kwargs) /\ warnings = []).
Proof.
  intros A upward kwargs. unfold profile_kwargs. split; [|split].
  - intros v. split.
    + intros [E|H]; [now injection E|]. apply filter_In in H. cbn [fst] in H. rewrite String.eqb_refl in H. destruct H; discriminate.
    + intros ->. now left.
  - intros k v Hk. split.
    + intros [E|H]; [injection E; intros; subst; contradiction|]. now apply filter_In in H.
    + intros H. right. apply filter_In. split; [exact H|]. cbn [fst]. destruct (String.eqb_spec k "extra_coords"); [contradiction|reflexivity].
  - destruct (existsb (fun kv => String.eqb (fst kv) "extra_coords") kwargs) eqn:E.
    + left. split; [|reflexivity]. apply existsb_exists in E. destruct E as ([k v] & Hin & E). apply String.eqb_eq in E. cbn [fst] in E. subst. now exists v.
    + right. split; [|reflexivity]. intros v Hin. assert (T : existsb (fun kv : string * A => String.eqb (fst kv) "extra_coords") kwargs = true); [|congruence].
      apply existsb_exists. exists ("extra_coords", v). split; [exact Hin|apply String.eqb_refl].
Qed.

Example C80_example : grid_kwargs ["foo"] = Ok [IgnoredArguments ["foo"]] /\ grid_kwargs ["foo"; "shape"] = Raise ValueError /\
  profile_kwargs 1%nat [("extra_coords", 2%nat); ("foo", 3%nat)] = ([("extra_coords", 1%nat); ("foo", 3%nat)], [IgnoredExtraCoords]).
Proof. repeat split. Qed.

Print Assumptions C80_grid_keywords.
Print Assumptions C80_profile_keywords.
