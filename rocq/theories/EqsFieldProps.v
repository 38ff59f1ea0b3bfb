(** C89: the predictions of equivalent sources are a harmonic field, and moving a survey moves the
    sources and leaves the predictions. *)
From Coquelicot Require Import Coquelicot.
From Verif Require Import Base BaseFacts NumPy NumPyFacts DistanceModel DistanceSpec DistanceProofs PointGravityModel PointGravitySpec PointGravityProofs PointGravityProps
  LegendreModel EqsModel EqsSpec EqsProofs EqsProps EqsFieldSpec EqsFieldProofs.
Local Open Scope string_scope. Local Open Scope list_scope. Local Open Scope R_scope.

(** The predictions are what point_gravity returns as the potential of point masses at the sources. *)
Theorem C89_predictions_are_potentials : forall self coefs qs sh ps,
  dt self = float64 -> coefs_ self = Some coefs -> points_ self = Some (flat qs) -> length coefs = length qs -> prod_shape sh = length ps ->
  apart cart_position ps qs ->
  predict self (coords_of sh ps) = point_gravity (coords_of sh ps) (coords_of [length qs] qs) (arr1 (masses coefs)) "potential" "cartesian".
Proof.
  intros self coefs qs sh ps Hdt Hc Hq Hl Hsh Ha. rewrite (proj1 (C61_prediction_is_sum_over_distance self coefs qs sh ps Hdt Hc Hq Hl Hsh) Ha).
  apply prediction_is_potential; auto.
Qed.
Print Assumptions C89_predictions_are_potentials.

Theorem C89_predictions_are_potentials_sph : forall self coefs qs sh ps,
  s_coefs_ self = Some coefs -> s_points_ self = Some (flat qs) -> length coefs = length qs -> prod_shape sh = length ps ->
  apart sph_position ps qs ->
  predict_sph self (coords_of sh ps) float64 = point_gravity (coords_of sh ps) (coords_of [length qs] qs) (arr1 (masses coefs)) "potential" "spherical".
Proof.
  intros self coefs qs sh ps Hc Hq Hl Hsh Ha. rewrite (proj1 (C61_prediction_is_sum_over_distance_sph self coefs qs sh ps Hc Hq Hl Hsh) Ha).
  apply prediction_is_potential; auto.
Qed.
Print Assumptions C89_predictions_are_potentials_sph.

(** Away from the sources the predicted field satisfies Laplace's equation: its second derivatives
    along the three axes exist and their sum vanishes. *)
Theorem C89_predictions_are_harmonic : forall self coefs qs p,
  dt self = float64 -> coefs_ self = Some coefs -> points_ self = Some (flat qs) -> length coefs = length qs -> apart cart_position [p] qs ->
  (forall a, locally 0 (fun t => exists x, predict self (coords_of [] [move a t p]) = Ok (scalar x))) /\
  exists d2 : axis -> R, (forall a, is_derive_n (fun t => value self (move a t p)) 2 0 (d2 a)) /\ d2 East + d2 North + d2 Down = 0.
Proof.
  intros self coefs qs p Hdt Hc Hq Hl Ha. split.
  - intros a. generalize (apart_locally a p qs Ha). apply filter_imp. intros t Ht. eexists.
    rewrite (proj1 (C61_prediction_is_sum_over_distance self coefs qs [] [move a t p] Hdt Hc Hq Hl eq_refl) Ht). reflexivity.
  - eexists. split; [intros a; exact (value_second self coefs qs p a Hdt Hc Hq Hl Ha)|].
    cbv beta. rewrite <- !Rdiv_plus_distr. pose proof (C03_laplace p _ (off_apart p qs coefs Ha)) as L. cbn [g2]. rewrite L. unfold Rdiv. ring.
Qed.
Print Assumptions C89_predictions_are_harmonic.

(** Far above all the sources the predictions fall off with the height. *)
Theorem C89_predictions_vanish_upwards : forall self coefs qs p H,
  dt self = float64 -> coefs_ self = Some coefs -> points_ self = Some (flat qs) -> length coefs = length qs ->
  0 < H -> (forall q, In q qs -> thd3 q + H <= thd3 p) ->
  (exists x, predict self (coords_of [] [p]) = Ok (scalar x)) /\ Rabs (value self p) <= sum_over coefs Rabs / H.
Proof. exact value_bound. Qed.
Print Assumptions C89_predictions_vanish_upwards.

(** Fitting a moved survey gives the moved sources with the same coefficients (or the same error), and
    the moved estimator predicts at moved points what the estimator predicts at the points. *)
Theorem C89_fit_moves_with_the_survey : forall ls avg nd self v c d w,
  average_moves avg -> neighbours_stay nd -> dt self = float64 ->
  fit ls avg nd (move_eqs v self) (move_arrs v c) d w = mapped (move_eqs v) (fit ls avg nd self c d w).
Proof. intros. now apply fit_move. Qed.
Print Assumptions C89_fit_moves_with_the_survey.

Theorem C89_gb_fit_moves_with_the_survey : forall ls avg nd rw order self win v c d w,
  average_moves avg -> neighbours_stay nd -> windows_stay rw -> dt self = float64 ->
  fit_gb ls avg nd rw order (move_eqs v self) win (move_arrs v c) d w =
  mapped (fun r => (move_eqs v (fst r), snd r)) (fit_gb ls avg nd rw order self win c d w).
Proof. intros. now apply fit_gb_move. Qed.
Print Assumptions C89_gb_fit_moves_with_the_survey.

Theorem C89_predictions_move_with_the_sources : forall self v c,
  dt self = float64 -> predict (move_eqs v self) (move_arrs v c) = predict self c.
Proof. intros. now apply predict_move. Qed.
Print Assumptions C89_predictions_move_with_the_sources.

(** The origin of the longitudes does not matter. *)
Theorem C89_spherical_fit_turns : forall ls self a c d w,
  fit_sph ls (turn_sph a self) (move_arrs (V3 a 0 0) c) d w = mapped (turn_sph a) (fit_sph ls self c d w) /\
  forall dt0, predict_sph (turn_sph a self) (move_arrs (V3 a 0 0) c) dt0 = predict_sph self c dt0.
Proof. intros. split; [apply fit_sph_turn|intros; apply predict_sph_turn]. Qed.
Print Assumptions C89_spherical_fit_turns.

(** A fitted estimator with two sources, and external functions with the required behaviour. *)
Example C89_ex : let self := Eqs None None (DepthNumber 1) None float64 (Some (flat [(0, 0, -1); (3, 0, -2)])) (Some [2; 5]) (Some (Some 1)) in
  apart cart_position [(0, 0, 0)] [(0, 0, -1); (3, 0, -2)] /\ (forall q, In q [(0, 0, -1); (3, 0, -2)] -> thd3 q + 1 <= thd3 (0, 0, 0)) /\
  exists y, value self (0, 0, 0) = 2 + y /\ 0 < y.
Proof.
  cbv zeta. set (self := Eqs _ _ _ _ _ _ _ _).
  assert (A : apart cart_position [(0, 0, 0)] [(0, 0, -1); (3, 0, -2)]) by (intros x q [<-|[]] [<-|[<-|[]]]; cbn; injection; lra).
  split; [exact A|split; [intros q [<-|[<-|[]]]; cbn; lra|]].
  exists (5 / eucl (cart_position (0, 0, 0)) (cart_position (3, 0, -2))). split.
  - unfold value. etransitivity; [exact (f_equal returned (proj1 (C61_prediction_is_sum_over_distance self [2; 5] [(0, 0, -1); (3, 0, -2)] [] [(0, 0, 0)] eq_refl eq_refl eq_refl eq_refl eq_refl) A))|].
    cbn [returned data predicted map nth]. unfold inverse_distance. cbn [combine]. rewrite !sum_over_cons. cbn [fst snd].
    replace (eucl (cart_position (0, 0, 0)) (cart_position (0, 0, -1))) with 1; [unfold sum_over; cbn; field|].
    + apply Rgt_not_eq, eucl_pos. cbn. injection; lra.
    + unfold eucl, norm, dot; cbn. symmetry. replace ((0 - 0) * (0 - 0) + (0 - 0) * (0 - 0) + (0 - -1) * (0 - -1)) with 1 by ring. apply sqrt_1.
  - apply Rdiv_lt_0_compat; [lra|]. apply eucl_pos. cbn. injection; lra.
Qed.

Definition ex_average (s : R) (c : coords) : coords := let '(a, b, d) := c in (firstn 2 a, firstn 2 b, firstn 2 d).
Definition ex_neighbours (x y : list R) : res (list R) := match x with [] => Raise ValueError | x0 :: r => Ok (map (fun t => Rabs (t - x0)) r) end.
Definition ex_windows (x y : list R) (g : region) (size overlap : R) : res (list (list nat)) :=
  let '(w, e, s, n) := g in Ok (map (fun t => if Rltb (t - w) (e - t) then [0%nat] else [1%nat]) x).
Example C89_ex_external : average_moves ex_average /\ neighbours_stay ex_neighbours /\ windows_stay ex_windows.
Proof.
  split; [|split].
  - intros s v [[a b] d]. unfold ex_average, move_lists. now rewrite !firstn_map.
  - intros x y a b. destruct x as [|x0 r]; [reflexivity|]. cbn [map ex_neighbours]. rewrite map_map. f_equal. apply map_ext. intros t. f_equal. ring.
  - intros x y w e s n a b size overlap. unfold ex_windows. rewrite map_map. f_equal. apply map_ext. intros t.
    replace (t + a - (w + a)) with (t - w) by ring. replace (e + a - (t + a)) with (e - t) by ring. reflexivity.
Qed.
