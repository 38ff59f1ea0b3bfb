(** Claim C110: the field of dipole_magnetic is, up to a constant, the gravity gradient that point_gravity computes for
    point masses at the dipoles (Poisson's relation), and the equivalent sources predict the potential that
    point_gravity computes for point masses at the sources. *)
From Coq Require Import Psatz.
From Coquelicot Require Import Coquelicot.
From Verif Require Import Base BaseFacts NumPy NumPyFacts DistanceModel DistanceSpec PointGravityModel PointGravitySpec PointGravityProps PrismModel PrismSpec PrismProps
  EqsModel EqsSpec EqsProps PoissonSpec.
Local Open Scope string_scope. Local Open Scope list_scope. Local Open Scope R_scope.

Lemma supported_tensor a b : supported "cartesian" (tensor_name a b).
Proof. left. split; [reflexivity|]. destruct a, b; cbn; tauto. Qed.

Lemma dipole_tensor mu0 c p dm :
  nano * comp c (dipole_field mu0 (cart_position p) (cart_position (fst dm)) (snd dm)) =
  mu0 / (4 * PI * newton_G) * axis_sign c *
    (newton_field "cartesian" (tensor_name c AE) p (fst dm, vx (snd dm)) + newton_field "cartesian" (tensor_name c AN) p (fst dm, vy (snd dm))
     - newton_field "cartesian" (tensor_name c AU) p (fst dm, vz (snd dm))).
Proof.
  assert (HG : newton_G <> 0) by (unfold newton_G; lra). assert (HP := PI_RGT_0).
  destruct dm as [q m]. unfold newton_field, newton_field_cartesian, dipole_field. cbn [fst snd].
  set (x := cart_position p). set (y := cart_position q). fold (eucl x y). unfold nano.
  destruct c; cbn -[newton_G PI pow eucl newton_tensor x y]; unfold newton_tensor, eotvos, dot, vsub, vscale, Rdiv; cbn -[newton_G PI pow eucl];
    set (d := eucl x y); set (d3 := / d ^ 3); set (d5 := / d ^ 5); clearbody d d3 d5; rewrite !Rinv_mult; field; split; lra.
Qed.

Lemma sum_minus {A} (l : list A) f g : sum_over l (fun a => f a - g a) = sum_over l f - sum_over l g.
Proof. induction l as [|a l IH]; [unfold sum_over; cbn; ring|]. rewrite !sum_over_cons, IH. ring. Qed.

(** ** C110 *)
(** Poisson's relation: the component [c] of the magnetic field is the gravity gradient of the easting moments along
    [c] and easting, plus that of the northing moments, minus (downward against upward) that of the upward ones. *)
Theorem C110_poisson_relation : forall mu0 c sh ps dms disable,
  prod_shape sh = length ps -> (forall p, In p ps -> off_dipoles p dms) ->
  exists b ge gn gu,
    dipole_magnetic mu0 (coords_of sh ps) (coords_of [length dms] (map fst dms)) (moments_of (map snd dms)) (b_name c) disable = Ok [Arr sh b] /\
    point_gravity (coords_of sh ps) (points_of (masses_for AE dms)) (masses_of (masses_for AE dms)) (tensor_name c AE) "cartesian" = Ok (Arr sh ge) /\
    point_gravity (coords_of sh ps) (points_of (masses_for AN dms)) (masses_of (masses_for AN dms)) (tensor_name c AN) "cartesian" = Ok (Arr sh gn) /\
    point_gravity (coords_of sh ps) (points_of (masses_for AU dms)) (masses_of (masses_for AU dms)) (tensor_name c AU) "cartesian" = Ok (Arr sh gu) /\
    length b = length ps /\
    forall k, (k < length ps)%nat -> nth k b 0 = mu0 / (4 * PI * newton_G) * axis_sign c * (nth k ge 0 + nth k gn 0 - nth k gu 0).
Proof.
  intros mu0 c sh ps dms disable Hsh Hoff. do 4 eexists.
  split; [now apply C71_dipole_field_value|]. split; [apply C02_point_gravity_is_newtonian; auto using supported_tensor|].
  split; [apply C02_point_gravity_is_newtonian; auto using supported_tensor|]. split; [apply C02_point_gravity_is_newtonian; auto using supported_tensor|].
  split; [apply map_length|]. intros k Hk.
  assert (N : forall f : point -> R, nth k (map f ps) 0 = f (nth k ps (0, 0, 0))) by
    (intros f; rewrite (nth_indep _ 0 (f (0, 0, 0))) by (rewrite map_length; exact Hk); apply map_nth).
  rewrite !N. unfold masses_for. rewrite !sum_over_map. cbn [comp].
  rewrite <- sum_over_plus, <- sum_minus, <- sum_over_scal. apply sum_over_ext. intros dm _. apply dipole_tensor.
Qed.
Print Assumptions C110_poisson_relation.

Lemma predicted_potential cs place qs coefs ps :
  (cs = "cartesian" /\ place = cart_position) \/ (cs = "spherical" /\ place = sph_position) ->
  map (fun p => sum_over (combine qs coefs) (newton_field cs "potential" p)) ps = map (Rmult newton_G) (predicted place qs coefs ps).
Proof.
  intros H. unfold predicted. rewrite map_map. apply map_ext. intros p. unfold inverse_distance. rewrite <- sum_over_scal. apply sum_over_ext. intros s _.
  destruct H as [[-> ->] | [-> ->]]; cbn -[newton_G eucl]; unfold newton_potential, Rdiv; ring.
Qed.

(** What fitted equivalent sources predict, times the gravitational constant, is the potential that point_gravity
    computes for point masses at the sources with the coefficients for masses. *)
Theorem C110_equivalent_sources : forall self coefs qs sh ps,
  dt self = float64 -> coefs_ self = Some coefs -> points_ self = Some (flat qs) -> length coefs = length qs -> prod_shape sh = length ps ->
  apart cart_position ps qs ->
  exists v, predict self (coords_of sh ps) = Ok (Arr sh v) /\
    point_gravity (coords_of sh ps) (points_of (combine qs coefs)) (masses_of (combine qs coefs)) "potential" "cartesian" = Ok (Arr sh (map (Rmult newton_G) v)).
Proof.
  intros self coefs qs sh ps Hd Hc Hq Hl Hsh Ha. exists (predicted cart_position qs coefs ps).
  split; [now apply C61_prediction_is_sum_over_distance|].
  rewrite C02_point_gravity_is_newtonian by (auto; left; cbn; auto). now rewrite (predicted_potential _ cart_position) by auto.
Qed.
Print Assumptions C110_equivalent_sources.
Theorem C110_equivalent_sources_sph : forall self coefs qs sh ps,
  s_coefs_ self = Some coefs -> s_points_ self = Some (flat qs) -> length coefs = length qs -> prod_shape sh = length ps ->
  apart sph_position ps qs ->
  exists v, predict_sph self (coords_of sh ps) float64 = Ok (Arr sh v) /\
    point_gravity (coords_of sh ps) (points_of (combine qs coefs)) (masses_of (combine qs coefs)) "potential" "spherical" = Ok (Arr sh (map (Rmult newton_G) v)).
Proof.
  intros self coefs qs sh ps Hc Hq Hl Hsh Ha. exists (predicted sph_position qs coefs ps).
  split; [now apply C61_prediction_is_sum_over_distance_sph|].
  rewrite C02_point_gravity_is_newtonian by (auto; right; cbn; auto). now rewrite (predicted_potential _ sph_position) by auto.
Qed.
Print Assumptions C110_equivalent_sources_sph.

(** One upward dipole seen from 1 m above it: the hypotheses hold and the field is not zero. *)
Example C110_example :
  (forall p, In p [(0, 0, 1)] -> off_dipoles p [((0, 0, 0), V3 0 0 1)]) /\
  dipole_magnetic 1 (coords_of [] [(0, 0, 1)]) (coords_of [1%nat] [(0, 0, 0)]) (moments_of [V3 0 0 1]) "b_u" false = Ok [Arr [] [10 ^ 9 * 2 / (4 * PI)]] /\
  point_gravity (coords_of [] [(0, 0, 1)]) (points_of [((0, 0, 0), 1)]) (masses_of [((0, 0, 0), 1)]) "g_zz" "cartesian" = Ok (Arr [] [10 ^ 9 * 2 * newton_G]) /\
  apart cart_position [(0, 0, 1)] [(0, 0, 0); (0, 3, -1)] /\ apart sph_position [(0, 0, 2)] [(0, 0, 1)].
Proof.
  assert (Hoff : forall p, In p [(0, 0, 1)] -> off_dipoles p [((0, 0, 0), V3 0 0 1)]).
  { intros p [<- | []] dm [<- | []]. cbn. injection. lra. }
  assert (He : eucl (V3 0 0 1) (V3 0 0 0) = 1).
  { unfold eucl, norm, dot, vsub. cbn [vx vy vz]. replace (_ + _ + _) with 1 by ring. apply sqrt_1. }
  split; [exact Hoff|]. split; [|split; [|split]].
  - etransitivity; [apply (C71_dipole_field_value 1 AU [] [(0, 0, 1)] [((0, 0, 0), V3 0 0 1)] false eq_refl Hoff)|].
    apply (f_equal (fun v => Ok [Arr [] [v]])). unfold sum_over. cbn [map sumR fold_left fold_right fst snd]. unfold dipole_field. cbn [cart_position]. fold (eucl (V3 0 0 1) (V3 0 0 0)). rewrite He.
    unfold nano, dot, vsub, vscale. cbn [comp vx vy vz]. assert (HP := PI_RGT_0). field. lra.
  - etransitivity; [apply (C02_point_gravity_is_newtonian [] [(0, 0, 1)] [((0, 0, 0), 1)] "g_zz" "cartesian" eq_refl (supported_tensor AU AU))|].
    apply (f_equal (fun v => Ok (Arr [] [v]))). unfold sum_over. cbn -[newton_G newton_tensor pow]. unfold newton_tensor. rewrite He. unfold eotvos, dot, vsub, e_down. cbn [vx vy vz]. field.
  - intros p q [<- | []] [<- | [<- | []]]; cbn; injection; lra.
  - intros p q [<- | []] [<- | []] H. assert (D := f_equal vx H). cbn in D. unfold radians in D.
    replace (0 * PI / 180) with 0 in D by lra. rewrite cos_0 in D. lra.
Qed.
