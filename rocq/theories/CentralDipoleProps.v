(** Claim C109: with coefficients of degree one the main field of igrf.py is the field that dipole_magnetic and
    ellipsoid_magnetic compute for a dipole at the centre of the Earth and for a magnetised ball around it. *)
From Coq Require Import Psatz.
From Coquelicot Require Import Coquelicot.
From Verif Require Import Base BaseFacts NumPy DistanceModel DistanceSpec PointGravitySpec PrismModel PrismSpec PrismProps LegendreModel LegendreSpec LegendreFacts LegendreDerivProofs IgrfModel IgrfSpec IgrfProofs IgrfProps
  EllipsoidModel EllipsoidSpec EllipsoidRotProofs EllipsoidShapeProofs EllipsoidTopProofs EllipsoidMagProofs EllipsoidMagProps EllipsoidFarProps CentralDipoleSpec.
Local Open Scope string_scope. Local Open Scope list_scope. Local Open Scope R_scope.

(** ** The terms of degree one *)
Lemma G_1_0 t : G 1 0 t = cos t. Proof. unfold G. rewrite L_1_0. ring. Qed.
Lemma G_1_1 t : G 1 1 t = sin t. Proof. unfold G. rewrite L_1_1. ring. Qed.
Lemma H_1_0 t : H 1 1 0 t = - sin t.
Proof. rewrite <- Derive_n_G by lia. cbn [Derive_n]. rewrite (Derive_ext (G 1 0) cos) by apply G_1_0. apply is_derive_unique. auto_derive; auto; ring. Qed.
Lemma H_1_1 t : H 1 1 1 t = cos t.
Proof. rewrite <- Derive_n_G by lia. cbn [Derive_n]. rewrite (Derive_ext (G 1 1) sin) by apply G_1_1. apply is_derive_unique. auto_derive; auto; ring. Qed.
Lemma schmidt_1_0 : schmidt_factor 1 0 = 1.
Proof. unfold schmidt_factor. cbn. replace (1 * 1 / 1) with 1 by field. apply sqrt_1. Qed.
Lemma schmidt_1_1 : schmidt_factor 1 1 = 1.
Proof. unfold schmidt_factor. cbn. replace (2 * 1 / (1 + 1)) with 1 by field. apply sqrt_1. Qed.
Lemma degree_one f N : (1 <= N)%nat -> (forall n m, (2 <= n <= N)%nat -> (m <= n)%nat -> f n m = 0) -> all_sum 1 f (N + 1) = f 1%nat 0%nat + f 1%nat 1%nat.
Proof.
  intros HN Z. unfold all_sum. unfold range at 1. replace (N + 1 - 1)%nat with (S (N - 1)) by lia. cbn [seq]. rewrite sum_over_cons, sum_over_zero.
  - unfold row_sum, range, sum_over. cbn. ring.
  - intros n Hn. apply in_seq in Hn. unfold row_sum. apply sum_over_zero. intros m Hm. unfold range in Hm. apply in_seq in Hm. apply Z; lia.
Qed.
Lemma degree_one_field rho t l g h N : (1 <= N)%nat -> only_dipole N g h ->
  east_sum rho t l g h 1 N = rho ^ 3 * (ent h 1 1 * cos l - ent g 1 1 * sin l) * sin t /\
  north_sum rho t l g h 1 N = rho ^ 3 * ((ent g 1 1 * cos l + ent h 1 1 * sin l) * cos t - ent g 1 0 * sin t) /\
  radial_sum rho t l g h 1 N = 2 * rho ^ 3 * ((ent g 1 1 * cos l + ent h 1 1 * sin l) * sin t + ent g 1 0 * cos t).
Proof.
  intros HN Z. unfold east_sum, north_sum, radial_sum.
  rewrite !degree_one by (try assumption; intros n m H1 H2; destruct (Z n m H1 H2) as [A B]; unfold et, nt, rt; rewrite A, B; ring).
  unfold et, nt, rt, Pt, Dt. rewrite G_1_0, G_1_1, H_1_0, H_1_1, schmidt_1_0, schmidt_1_1. cbn [INR Nat.add]. rewrite !Rmult_0_l, !Rmult_1_l, cos_0, sin_0. repeat split; ring.
Qed.

Lemma colatitude lat : sin (radians (90 - lat)) = cos (radians lat) /\ cos (radians (90 - lat)) = sin (radians lat).
Proof. replace (radians (90 - lat)) with (PI / 2 - radians lat) by (unfold radians; field). split; [apply sin_shift|apply cos_shift]. Qed.
(** The rotation to the geodetic horizon does not change the vector. *)
Lemma geodetic_vector lon lat lat_sph b : vector_there lon lat (vector_spherical_to_geodetic lat lat_sph b) = vector_there lon lat_sph b.
Proof.
  destruct b as [[e n] u]. unfold vector_spherical_to_geodetic, vector_there. replace (radians (lat_sph - lat)) with (radians lat_sph - radians lat) by (unfold radians; field).
  rewrite cos_minus, sin_minus. set (p := radians lat). set (q := radians lat_sph). set (l := radians lon).
  pose proof (sin2_cos2 p) as A. unfold Rsqr in A. unfold vadd, vscale. cbn [vx vy vz]. apply V3_eq.
  - transitivity (e * - sin l + n * (- sin q * cos l * (sin p * sin p + cos p * cos p)) + u * (cos q * cos l * (sin p * sin p + cos p * cos p))); [ring|rewrite A; ring].
  - transitivity (e * cos l + n * (- sin q * sin l * (sin p * sin p + cos p * cos p)) + u * (cos q * sin l * (sin p * sin p + cos p * cos p))); [ring|rewrite A; ring].
  - transitivity (n * (cos q * (sin p * sin p + cos p * cos p)) + u * (sin q * (sin p * sin p + cos p * cos p))); [ring|rewrite A; ring].
Qed.
Lemma norm_place lon lat r : 0 < r -> norm (sph_position (lon, lat, r)) = r.
Proof.
  intros H. unfold norm. transitivity (sqrt (Rsqr r)); [|apply sqrt_Rsqr; lra]. f_equal. unfold dot, sph_position, Rsqr. cbn [vx vy vz].
  pose proof (sin2_cos2 (radians lat)) as A. pose proof (sin2_cos2 (radians lon)) as B. unfold Rsqr in *. set (a := cos (radians lat)) in *. set (b := sin (radians lat)) in *. set (c := cos (radians lon)) in *. set (d := sin (radians lon)) in *.
  transitivity (r * r * (a * a * (d * d + c * c) + b * b)); [ring|]. rewrite B. replace (a * a * 1 + b * b) with 1 by lra. ring.
Qed.
Lemma vsub_zero v : vsub v (V3 0 0 0) = v.
Proof. destruct v as [x y z]. unfold vsub. cbn [vx vy vz]. apply V3_eq; ring. Qed.
(** The dipole's field in nanotesla, in the directions of the horizon. *)
Lemma dipole_there mu0 g h lon lat r : 0 < mu0 -> 0 < r ->
  vscale nano (dipole_field mu0 (sph_position (lon, lat, r)) (V3 0 0 0) (central_moment mu0 g h)) =
  vector_there lon lat
    (let k := (6371200 / r) ^ 3 in let l := radians lon in let p := radians lat in
     (k * (ent g 1 1 * sin l - ent h 1 1 * cos l), k * ((ent g 1 1 * cos l + ent h 1 1 * sin l) * sin p - ent g 1 0 * cos p), 2 * k * ((ent g 1 1 * cos l + ent h 1 1 * sin l) * cos p + ent g 1 0 * sin p))).
Proof.
  intros Hm Hr. unfold dipole_field. rewrite vsub_zero, norm_place by exact Hr. unfold central_moment, vector_there, nano, sph_position. cbv zeta. set (l := radians lon). set (p := radians lat).
  pose proof (sin2_cos2 p) as A. pose proof (sin2_cos2 l) as B. unfold Rsqr in *. pose proof PI_RGT_0. set (x := ent g 1 1). set (y := ent h 1 1). set (z := ent g 1 0). set (K := (6371200 / r) ^ 3).
  transitivity (vscale K (vsub (vscale (3 * (x * cos p * cos l + y * cos p * sin l + z * sin p)) (V3 (cos p * cos l) (cos p * sin l) (sin p))) (V3 x y z))).
  - unfold K, vscale, vsub, dot. cbn [vx vy vz]. apply V3_eq; field; repeat split; lra.
  - clearbody K x y z. unfold vscale, vsub, vadd. cbn [vx vy vz].
    assert (E1 : sin l * sin l = 1 - cos l * cos l) by lra. assert (E2 : sin p * sin p = 1 - cos p * cos p) by lra.
    apply V3_eq.
    + transitivity (K * (3 * (x * cos p * cos l + y * cos p * sin l + z * sin p) * (cos p * cos l) - x)); [ring|].
      transitivity (K * (- x * (sin l * sin l) + y * sin l * cos l - (x * cos l + y * sin l) * cos l * (sin p * sin p) + z * sin p * cos p * cos l + 2 * (x * cos p * cos l + y * cos p * sin l + z * sin p) * cos p * cos l)); [|ring]. rewrite E1, E2. ring.
    + transitivity (K * (3 * (x * cos p * cos l + y * cos p * sin l + z * sin p) * (cos p * sin l) - y)); [ring|].
      transitivity (K * (x * sin l * cos l - y * (cos l * cos l) - (x * cos l + y * sin l) * sin l * (sin p * sin p) + z * sin p * cos p * sin l + 2 * (x * cos p * cos l + y * cos p * sin l + z * sin p) * cos p * sin l)); [|ring].
      rewrite E2. transitivity (K * (x * sin l * cos l - y * (cos l * cos l) - x * cos l * sin l * (1 - cos p * cos p) - y * (sin l * sin l) * (1 - cos p * cos p) + z * sin p * cos p * sin l + 2 * (x * cos p * cos l * (cos p * sin l) + y * (cos p * cos p) * (sin l * sin l) + z * sin p * cos p * sin l))); [|ring]. replace (3 * (x * cos p * cos l + y * cos p * sin l + z * sin p) * (cos p * sin l)) with (3 * (x * cos p * cos l * (cos p * sin l) + y * (cos p * cos p) * (sin l * sin l) + z * sin p * cos p * sin l)) by ring. rewrite E1. ring.
    + transitivity (K * (3 * (x * cos p * cos l + y * cos p * sin l + z * sin p) * sin p - z)); [ring|].
      transitivity (K * ((x * cos l + y * sin l) * sin p * cos p - z * (1 - sin p * sin p) + 2 * (x * cos p * cos l + y * cos p * sin l + z * sin p) * sin p)); [ring|]. rewrite E2. ring.
Qed.

Section Agreement.
Variables (junk : nat -> nat -> R) (convert : R -> R -> R * R) (mu0 : R) (g h : table) (N : nat) (pts : list (R * R * R)).
(** The points are off the axis by at least the angle from which on igrf.py computes an eastward component. *)
Hypotheses (HN : (1 <= N)%nat) (Hg : square N g) (Hh : square N h) (Hz : only_dipole N g h) (Hm : 0 < mu0)
  (Hp : forall lon lat height, In (lon, lat, height) pts -> let (lat_sph, r) := convert lat height in -90 <= lat_sph <= 90 /\ 0 < r /\ / 10 ^ 10 <= cos (radians lat_sph)).

Lemma predict_there : exists b, predict junk convert pts g h 1 N = Ok b /\ length b = length pts /\
  forall k lon lat height, nth_error pts k = Some (lon, lat, height) ->
    vector_there lon lat (nth k b (0, 0, 0)) = vscale nano (dipole_field mu0 (place convert (lon, lat, height)) (V3 0 0 0) (central_moment mu0 g h)).
Proof.
  set (F := fun pt : R * R * R => let '(l, t, rho) := pt in (east_sum rho t l g h 1 N * (-1 / sin t), north_sum rho t l g h 1 N, radial_sum rho t l g h 1 N)).
  set (sp := map (fun pt : R * R * R => let '(lon, lat, height) := pt in let (lat_sph, radius) := convert lat height in (radians lon, radians (90 - lat_sph), reference_radius / radius)) pts).
  assert (E : spherical_harmonics_magnetic_field junk sp g h 1 N = Ok (map F sp)).
  { unfold spherical_harmonics_magnetic_field. apply each_ok. intros [[l t] rho] Hi. unfold sp in Hi. apply in_map_iff in Hi. destruct Hi as ([[lon lat] height] & Eq & Hi).
    specialize (Hp lon lat height Hi). destruct (convert lat height) as [lat_sph r]. destruct Hp as (H1 & H2 & H3). injection Eq as <- <- <-.
    rewrite field_at_ok; try assumption; [|now apply colat_range]. cbn [fst snd]. rewrite !Rplus_0_l. unfold fix_east, F. destruct (colatitude lat_sph) as [S C]. rewrite S in *.
    assert (0 < / 10 ^ 10) by (apply Rinv_0_lt_compat, pow_lt; lra). rewrite (Rabs_right (cos (radians lat_sph))) by lra. destruct (Rltb_spec (cos (radians lat_sph)) (/ 10 ^ 10)); [lra|]. reflexivity. }
  eexists. split; [unfold predict; fold sp; rewrite E; cbn [bind]; reflexivity|]. split; [rewrite map_length, combine_length; unfold sp; rewrite !map_length; lia|].
  intros k lon lat height Hk. assert (Hi : In (lon, lat, height) pts) by (eapply nth_error_In; exact Hk). specialize (Hp lon lat height Hi). unfold place.
  destruct (convert lat height) as [lat_sph r] eqn:Ec. destruct Hp as (H1 & H2 & H3).
  assert (Hn : nth_error (combine pts (map F sp)) k = Some ((lon, lat, height), F (radians lon, radians (90 - lat_sph), reference_radius / r))).
  { assert (Hs : nth_error (map F sp) k = Some (F (radians lon, radians (90 - lat_sph), reference_radius / r))).
    { apply map_nth_error. unfold sp. erewrite map_nth_error by exact Hk. cbv beta iota. rewrite Ec. reflexivity. }
    clear - Hk Hs. revert k Hk Hs. generalize (map F sp) as m. induction pts as [|x l IH]; intros m [|k]; destruct m as [|y m]; cbn; try discriminate; [congruence|apply IH]. }
  rewrite (nth_error_nth _ k (0, 0, 0) (map_nth_error _ _ _ Hn)). rewrite Ec. cbn [fst]. rewrite geodetic_vector, dipole_there by assumption. unfold F, reference_radius.
  destruct (degree_one_field (6371200 / r) (radians (90 - lat_sph)) (radians lon) g h N HN Hz) as (-> & -> & ->). destruct (colatitude lat_sph) as [-> ->].
  assert (0 < / 10 ^ 10) by (apply Rinv_0_lt_compat, pow_lt; lra). f_equal. cbv zeta. apply (f_equal2 pair); [apply (f_equal2 pair)|]; try (field; lra); try ring.
Qed.

Lemma off_centre lon lat height M : In (lon, lat, height) pts -> off_dipoles (as_point (place convert (lon, lat, height))) [((0, 0, 0), M)].
Proof.
  intros Hi dm [<-|[]]. cbn [fst]. specialize (Hp lon lat height Hi). unfold place. destruct (convert lat height) as [lat_sph r]. destruct Hp as (_ & H2 & _). intros E.
  assert (E' : sph_position (lon, lat_sph, r) = V3 0 0 0) by (exact E). pose proof (norm_place lon lat_sph r H2) as Q. rewrite E' in Q. unfold norm, dot in Q. cbn [vx vy vz] in Q. rewrite !Rmult_0_l, !Rplus_0_l, sqrt_0 in Q. lra.
Qed.

Theorem C109_main_field_of_dipole disable : exists b be bn bu,
  predict junk convert pts g h 1 N = Ok b /\
  (forall c bc, In (c, bc) [("b_e", be); ("b_n", bn); ("b_u", bu)] ->
    dipole_magnetic mu0 (coords_of [length pts] (map (fun pt => as_point (place convert pt)) pts)) (coords_of [1%nat] [(0, 0, 0)]) (moments_of [central_moment mu0 g h]) c disable = Ok [arr1 bc] /\ length bc = length pts) /\
  forall k lon lat height, nth_error pts k = Some (lon, lat, height) ->
    vector_there lon lat (nth k b (0, 0, 0)) = V3 (nth k be 0) (nth k bn 0) (nth k bu 0).
Proof.
  destruct predict_there as (b & Eb & Lb & Hb). set (M := central_moment mu0 g h) in *. set (ps := map (fun pt => as_point (place convert pt)) pts).
  set (val := fun c => map (fun p => sum_over [((0, 0, 0) : point, M)] (fun dm => nano * comp c (dipole_field mu0 (cart_position p) (cart_position (fst dm)) (snd dm)))) ps).
  exists b, (val AE), (val AN), (val AU). split; [exact Eb|].
  assert (Lv : forall c, length (val c) = length pts) by (intros c; unfold val, ps; now rewrite !map_length).
  assert (V : forall c, dipole_magnetic mu0 (coords_of [length pts] ps) (coords_of [1%nat] [(0, 0, 0)]) (moments_of [M]) (b_name c) disable = Ok [arr1 (val c)]).
  { intros c. unfold arr1 at 1. rewrite Lv. apply (C71_dipole_field_value mu0 c [length pts] ps [((0, 0, 0), M)] disable).
    - unfold ps. rewrite map_length. unfold prod_shape. cbn. lia.
    - intros p Hi. unfold ps in Hi. apply in_map_iff in Hi. destruct Hi as ([[lon lat] height] & <- & Hi). now apply off_centre. }
  split.
  - intros c bc [Q|[Q|[Q|[]]]]; injection Q as <- <-; (split; [|apply Lv]); [exact (V AE)|exact (V AN)|exact (V AU)].
  - intros k lon lat height Hk. rewrite (Hb k lon lat height Hk). unfold val, ps.
    assert (W : forall c, nth k (map (fun p => sum_over [((0, 0, 0) : point, M)] (fun dm => nano * comp c (dipole_field mu0 (cart_position p) (cart_position (fst dm)) (snd dm)))) (map (fun pt => as_point (place convert pt)) pts)) 0
      = nano * comp c (dipole_field mu0 (place convert (lon, lat, height)) (V3 0 0 0) M)).
    { intros c. rewrite (nth_error_nth _ k 0 (map_nth_error _ _ _ (map_nth_error _ _ _ Hk))). unfold sum_over. cbn [map sumR fold_right fst snd]. rewrite Rplus_0_r. do 3 f_equal. }
    rewrite !W. reflexivity.
Qed.

Lemma magnet_solvable r v F : 0 < r -> solvable mu0 (h0_of mu0 F) (magnet r v).
Proof.
  intros Hr _. assert (P : positive_axes (magnet r v)) by (unfold positive_axes; cbn; lra).
  destruct (local_points_ok (magnet r v)) as (q & S & a & b & c & Q & Eq & H & LP). assert (SA := sorts_positive _ S a b c H P).
  destruct (internal_ok a b c SA) as (nx & ny & nz & Ei & _). destruct (external_exists a b c SA) as (ext & Ee).
  assert (B0 := single_magnetic mu0 (magnet r v) None (Some v) (h0_of mu0 F) q S a b c _ ext SA Eq LP Ei Ee []). cbn [map] in B0. cbn [magnet ell_susceptibility ell_remanent] in *. rewrite B0.
  match goal with |- exists v, match solve ?m ?r with _ => _ end = _ => destruct (solve_ok m r) as (x & -> & _) end; [|eexists; reflexivity].
  replace (madd _ _) with eye by (cbn [cast_susceptibility]; unfold eye, diag; mat; apply M3_eq; ring). assert (E : det eye = 1) by (unfold det, eye, diag; cbn [row1 row2 row3 vx vy vz]; ring). rewrite E. lra.
Qed.

(** A ball with the same moment: outside of it, and whatever the inducing field, since it has no susceptibility. *)
Theorem C109_main_field_of_magnet F rb v : 0 < rb -> vscale (4 / 3 * PI * rb ^ 3) v = central_moment mu0 g h ->
  (forall lon lat height, In (lon, lat, height) pts -> rb <= snd (convert lat height)) ->
  exists b be bn bu, predict junk convert pts g h 1 N = Ok b /\
    ellipsoid_magnetic mu0 (coordinates_of [length pts] (map (place convert) pts)) (Single (magnet rb v)) F = Ok (arr1 be, arr1 bn, arr1 bu, 0%nat) /\
    length be = length pts /\ length bn = length pts /\ length bu = length pts /\
    forall k lon lat height, nth_error pts k = Some (lon, lat, height) ->
      vector_there lon lat (nth k b (0, 0, 0)) = V3 (nth k be 0) (nth k bn 0) (nth k bu 0).
Proof.
  intros Hr Hv Ho. destruct predict_there as (b & Eb & Lb & Hb). set (e := magnet rb v).
  assert (P : positive_axes e) by (unfold positive_axes; cbn; lra). assert (Ds : decided_shape e) by (left; split; reflexivity).
  assert (Sp : spread_at_most e 0) by (intros x y [<-|[<-|[<-|[]]]] [<-|[<-|[<-|[]]]]; cbn; lra).
  assert (HP : ell_susceptibility e <> None \/ ell_remanent e <> None) by (right; discriminate).
  destruct (C91_point_dipole mu0 e F 0 [0%nat] [] (magnetic_arrays [0%nat] (body_b mu0 (h0_of mu0 F) e) [], 0%nat) P Ds Sp HP eq_refl) as (B & M & Nm & EB & _ & _ & HM & _ & Far).
  { rewrite magnetic_single; [reflexivity|exact P|apply magnet_solvable; exact Hr|reflexivity]. }
  specialize (HM eq_refl). unfold world_remanent, e, magnet in HM. cbn [ell_remanent] in HM. subst M.
  exists b, (map (fun p => 10 ^ 9 * vx (B p)) (map (place convert) pts)), (map (fun p => 10 ^ 9 * vy (B p)) (map (place convert) pts)), (map (fun p => 10 ^ 9 * vz (B p)) (map (place convert) pts)). split; [exact Eb|]. split; [|split; [|split; [|split]]].
  - rewrite EB by (rewrite map_length; unfold prod_shape; cbn; lia). unfold magnetic_arrays, arr1. now rewrite !map_length.
  - now rewrite !map_length.
  - now rewrite !map_length.
  - now rewrite !map_length.
  - intros k lon lat height Hk. assert (Hi : In (lon, lat, height) pts) by (eapply nth_error_In; exact Hk). rewrite (Hb k lon lat height Hk), !map_map, !(nth_error_nth _ k 0 (map_nth_error _ _ _ Hk)).
    specialize (Ho lon lat height Hi). specialize (Hp lon lat height Hi). specialize (Far (place convert (lon, lat, height))). cbv zeta in Far.
    assert (Er : eucl (place convert (lon, lat, height)) (ell_center e) = snd (convert lat height)).
    { unfold place, eucl, e, magnet. cbn [ell_center]. rewrite vsub_zero. destruct (convert lat height) as [lat_sph r]. cbn [snd]. apply norm_place. tauto. }
    rewrite Er in Far. assert (R0 : 0 < snd (convert lat height)) by lra.
    assert (D : eucl (B (place convert (lon, lat, height))) (point_dipole_field mu0 (vscale (volume e) v) (vsub (place convert (lon, lat, height)) (ell_center e))) <= 0).
    { eapply Rle_trans; [apply Far|]; [intros x [<-|[<-|[<-|[]]]]; cbn; lra|assert (0 < snd (convert lat height) ^ 2) by (apply pow_lt; lra); lra|]. apply Req_le. unfold Rdiv. ring. }
    assert (Z : B (place convert (lon, lat, height)) = point_dipole_field mu0 (vscale (volume e) v) (vsub (place convert (lon, lat, height)) (ell_center e))) by (apply eucl_zero; apply Rle_antisym; [exact D|apply eucl_nonneg]).
    rewrite Z. unfold volume, e, magnet. cbn [ell_a ell_b ell_c ell_center]. replace (4 / 3 * PI * rb * rb * rb) with (4 / 3 * PI * rb ^ 3) by ring. rewrite Hv. reflexivity.
Qed.
End Agreement.
Print Assumptions C109_main_field_of_dipole.
Print Assumptions C109_main_field_of_magnet.

(** The dipole of the main field in 2020 over three places at the surface of a sphere: the hypotheses hold, the
    field is not zero. *)
Example C109_example : let g := Table 2 2 (fun n m => if Nat.eqb n 1 then (if Nat.eqb m 0 then -29404.8 else -1450.9) else 0) in
  let h := Table 2 2 (fun n m => if Nat.eqb n 1 then (if Nat.eqb m 0 then 0 else 4652.5) else 0) in let convert := fun lat height => (lat, 6371200 + height) in
  square 1 g /\ square 1 h /\ only_dipole 1 g h /\
  (forall lon lat height, In (lon, lat, height) [(0, 0, 0); (30, -60, 400000); (200, 30, 1000)] -> let (lat_sph, r) := convert lat height in -90 <= lat_sph <= 90 /\ 0 < r /\ / 10 ^ 10 <= cos (radians lat_sph)) /\
  vz (central_moment (4 * PI / 10 ^ 7) g h) < 0.
Proof.
  cbv zeta. split; [split; reflexivity|]. split; [split; reflexivity|]. split; [intros n m H; lia|]. pose proof PI_RGT_0 as PIp.
  assert (T : / 10 ^ 10 <= 1 / 2) by (unfold Rdiv; rewrite Rmult_1_l; apply Rinv_le_contravar; lra). split.
  - intros lon lat height [E|[E|[E|[]]]]; injection E as <- <- <-; (split; [lra|]); (split; [lra|]).
    + replace (radians 0) with 0 by (unfold radians; field). rewrite cos_0. lra.
    + replace (radians (-60)) with (- (PI / 3)) by (unfold radians; field). rewrite cos_neg, cos_PI3. lra.
    + replace (radians 30) with (PI / 6) by (unfold radians; field). eapply Rle_trans; [exact T|]. rewrite <- cos_PI3. apply cos_decr_1; lra.
  - unfold central_moment, vscale. cbn [vz ent Nat.eqb]. replace (4 * PI * 6371200 ^ 3 / (4 * PI / 10 ^ 7 * 10 ^ 9)) with (6371200 ^ 3 / 100) by (field; lra). lra.
Qed.
