(** C99: fields of masses that are nowhere negative lie between those of the whole mass at the nearest and at the farthest place. *)
From Verif Require Import Base BaseFacts NumPy NumPyFacts DistanceModel DistanceSpec DistanceProofs PointGravityModel PointGravitySpec PointGravityProofs
  TesseroidModel TesseroidSpec TesseroidCheckProofs TesseroidAdaptProofs TesseroidProofs TesseroidFieldProofs TesseroidFitSpec TesseroidFitProps MassBoundsProofs.
Local Open Scope string_scope. Local Open Scope list_scope. Local Open Scope R_scope.
Local Opaque MAX_DISCRETIZATIONS STACK_SIZE.

(** Places in space for the two coordinate systems of [point_gravity]. *)
Definition place (cs : string) (p : point) : vec3 := if String.eqb cs "cartesian" then cart_position p else sph_position p.
(** All points of a tesseroid are at most [far] away. *)
Definition reaches (far : R) (t : tess) (p : point) : Prop := forall q, in_closed t q -> eucl (sph_position p) (sph_position q) <= far.
(** Accepted boundaries, after bringing longitudes together *)
Definition accepted (t : tess) : Prop := box t /\ -90 <= south t /\ north t <= 90 /\ 0 <= bottom t.

Lemma supported_both cs field : (cs = "cartesian" \/ cs = "spherical") -> (field = "potential" \/ field = "g_z") -> supported cs field.
Proof. intros [-> | ->] [-> | ->]; [left|left|right|right]; cbn; auto 8. Qed.

Theorem C99_point_potential cs sh ps ss : (cs = "cartesian" \/ cs = "spherical") -> prod_shape sh = length ps -> (forall s, In s ss -> 0 <= snd s) ->
  exists a, point_gravity (coords_of sh ps) (points_of ss) (masses_of ss) "potential" cs = Ok a /\
  forall k p near far, nth_error ps k = Some p -> 0 < near -> (forall s, In s ss -> near <= eucl (place cs p) (place cs (fst s)) <= far) ->
    sum_over ss snd * (newton_G / far) <= nth k (data a) 0 <= sum_over ss snd * (newton_G / near).
Proof.
  intros Hc Hsh Hm. eexists. split; [apply point_gravity_newton; [assumption|apply supported_both; auto]|].
  intros k p near far Hk Hn H. cbn [data]. rewrite (nth_map_R _ _ _ 0), Hk, Rmult_0_l, Rplus_0_r. apply weighted; [assumption|]. intros s Hs.
  destruct Hc as [-> | ->]; apply potential_between; auto; now apply H.
Qed.
Print Assumptions C99_point_potential.

(** The downward acceleration: every mass at least [drop] lower than the observation point. *)
Theorem C99_point_gravity cs sh ps ss : (cs = "cartesian" \/ cs = "spherical") -> prod_shape sh = length ps -> (forall s, In s ss -> 0 <= snd s) ->
  exists a, point_gravity (coords_of sh ps) (points_of ss) (masses_of ss) "g_z" cs = Ok a /\
  forall k p near far drop, nth_error ps k = Some p -> 0 < near -> 0 <= drop ->
    (forall s, In s ss -> near <= eucl (place cs p) (place cs (fst s)) <= far /\ thd3 (fst s) + drop <= thd3 p /\ (cs = "spherical" -> 0 <= thd3 (fst s))) ->
    sum_over ss snd * (mGal * (newton_G * drop / far ^ 3)) <= nth k (data a) 0 <= sum_over ss snd * (mGal * (newton_G / near ^ 2)).
Proof.
  intros Hc Hsh Hm. eexists. split; [apply point_gravity_newton; [assumption|apply supported_both; auto]|].
  intros k p near far drop Hk Hn Hd H. cbn [data]. rewrite (nth_map_R _ _ _ 0), Hk, Rmult_0_l, Rplus_0_r. apply weighted; [assumption|]. intros s Hs. destruct (H s Hs) as (H1 & H2 & H3).
  assert (M : 0 <= mGal) by (unfold mGal; lra).
  assert (K : snd s * (newton_G * drop / far ^ 3) <= newton_accel (snd s) (place cs p) (place cs (fst s)) (if String.eqb cs "cartesian" then e_down else sph_down p) <= snd s * (newton_G / near ^ 2)).
  { destruct Hc as [-> | ->]; apply accel_between; auto; cbn [String.eqb]; try apply norm_down; try apply norm_sph_down; (split; [assumption|]).
    - change (drop <= dot (vsub (cart_position (fst s)) (cart_position p)) e_down). rewrite fall_cart. lra.
    - change (drop <= dot (vsub (sph_position (fst s)) (sph_position p)) (sph_down p)). pose proof (fall_sph p (fst s) (H3 eq_refl)). lra. }
  destruct K as [K1 K2]. apply (Rmult_le_compat_l mGal _ _ M) in K1. apply (Rmult_le_compat_l mGal _ _ M) in K2.
  assert (E : newton_field cs "g_z" p s = mGal * newton_accel (snd s) (place cs p) (place cs (fst s)) (if String.eqb cs "cartesian" then e_down else sph_down p)) by (destruct Hc as [-> | ->]; reflexivity).
  rewrite E. split; lra.
Qed.
Print Assumptions C99_point_gravity.

Lemma accepted_checked ps ts ts' : checks false ps ts = Ok ts' -> Forall2 moved ts ts' /\ length ts' = length ts /\ forall t, In t ts' -> accepted t.
Proof.
  intros C. pose proof (proj1 (checks_ok _ _ _ _) C) as (B & M & W & _). split; [exact M|]. split; [now apply checks_length in C|]. clear -B M W. induction M as [|t t' l l' H M IH]; intros x [].
  - subst x. inversion B; inversion W; subst. unfold accepted, bounds_ok, width_ok, box in *. destruct H as [[_ ->]|(_ & _ & _ & _ & _ & -> & -> & -> & ->)]; lra.
  - inversion B; inversion W; subst. now apply IH.
Qed.
Lemma combine_facts (ts : list tess) ds : (forall t, In t ts -> accepted t) -> (forall d, In d ds -> 0 <= d) ->
  Forall (fun td : tess * R => box (fst td) /\ -90 <= south (fst td) /\ north (fst td) <= 90 /\ 0 <= bottom (fst td) /\ 0 <= snd td) (combine ts ds).
Proof. intros A D. apply Forall_forall. intros [t d] H. cbn [fst snd]. destruct (A t (in_combine_l _ _ _ _ H)) as (A1 & A2 & A3 & A4). pose proof (D d (in_combine_r _ _ _ _ H)). auto. Qed.
Lemma between_zero m x near : 0 <= m -> 0 <= x -> 0 < near -> m * 0 <= m * x. Proof. intros. apply Rmult_le_compat_l; assumption. Qed.

(** Tesseroids: up to 1/20 of the mass may be lost by the quadrature over latitude, never gained. *)
Theorem C99_tesseroid_potential sh ps ts ds radial a : prod_shape sh = length ps -> length ds = length ts -> (forall d, In d ds -> 0 <= d) ->
  tesseroid_gravity (coords_of sh ps) ts (arr1 ds) "potential" radial false = Ok a ->
  exists ts', Forall2 moved ts ts' /\ forall k p (near far : tess -> R), nth_error ps k = Some p ->
    (forall t, In t ts' -> 0 < near t <= far t /\ clear_of (near t) t p /\ reaches (far t) t p) ->
    19 / 20 * sum_over (combine ts' ds) (fun td => snd td * volume (fst td) * (newton_G / far (fst td))) <= nth k (data a) 0
    <= sum_over (combine ts' ds) (fun td => snd td * volume (fst td) * (newton_G / near (fst td))).
Proof.
  intros Hsh Hd Hp E. apply tesseroid_gravity_value in E; [|assumption|cbn; auto|assumption]. destruct E as (ts' & C & D & ->). destruct (accepted_checked _ _ _ C) as (M & L & A).
  exists ts'. split; [exact M|]. intros k p near far Hk H. assert (Ip : In p ps) by (eapply nth_error_In; exact Hk). cbn [data]. rewrite (nth_map_R _ _ _ 0), Hk, Rmult_0_l, Rplus_0_r.
  apply (all_between "potential" radial p _ (fun t => newton_G / far t) (fun t => newton_G / near t)); [now apply combine_facts|now apply D|].
  intros t d Htd. destruct (H t (in_combine_l _ _ _ _ Htd)) as (H1 & H2 & H3). pose proof newton_G_pos as GP. split.
  - unfold Rdiv. pose proof (inv_between (near t) (near t) (far t) ltac:(lra) ltac:(lra)) as [I1 I2]. assert (0 < / far t) by (apply Rinv_0_lt_compat; lra).
    split; [apply Rmult_le_pos; lra|apply Rmult_le_compat_l; lra].
  - intros _ q m Hq Hm. apply potential_between; [assumption|lra|]. split; [now apply H2|now apply H3].
Qed.
Print Assumptions C99_tesseroid_potential.

Theorem C99_tesseroid_gravity sh ps ts ds radial a : prod_shape sh = length ps -> length ds = length ts -> (forall d, In d ds -> 0 <= d) ->
  tesseroid_gravity (coords_of sh ps) ts (arr1 ds) "g_z" radial false = Ok a ->
  exists ts', Forall2 moved ts ts' /\ forall k p (near far : tess -> R), nth_error ps k = Some p ->
    (forall t, In t ts' -> 0 < near t <= far t /\ clear_of (near t) t p /\ reaches (far t) t p /\ top t <= thd3 p) ->
    19 / 20 * sum_over (combine ts' ds) (fun td => snd td * volume (fst td) * (mGal * (newton_G * (thd3 p - top (fst td)) / far (fst td) ^ 3))) <= nth k (data a) 0
    <= sum_over (combine ts' ds) (fun td => snd td * volume (fst td) * (mGal * (newton_G / near (fst td) ^ 2))).
Proof.
  intros Hsh Hd Hp E. apply tesseroid_gravity_value in E; [|assumption|cbn; auto|assumption]. destruct E as (ts' & C & D & ->). destruct (accepted_checked _ _ _ C) as (M & L & A).
  exists ts'. split; [exact M|]. intros k p near far Hk H. assert (Ip : In p ps) by (eapply nth_error_In; exact Hk). cbn [data]. rewrite (nth_map_R _ _ _ 0), Hk, Rmult_0_l, Rplus_0_r.
  apply (all_between "g_z" radial p _ (fun t => mGal * (newton_G * (thd3 p - top t) / far t ^ 3)) (fun t => mGal * (newton_G / near t ^ 2))); [now apply combine_facts|now apply D|].
  intros t d Htd. pose proof (in_combine_l _ _ _ _ Htd) as Ht. destruct (H t Ht) as (H1 & H2 & H3 & H4). destruct (A t Ht) as (B & _ & _ & Bt). pose proof newton_G_pos as GP. assert (MP : 0 < mGal) by (unfold mGal; lra).
  assert (Q : forall q m, in_closed t q -> 0 <= m -> m * (newton_G * (thd3 p - top t) / far t ^ 3) <= newton_accel m (sph_position p) (sph_position q) (sph_down p) <= m * (newton_G / near t ^ 2)).
  { intros q m Hq Hm. apply accel_between; [assumption|lra|split; [now apply H2|now apply H3]|apply norm_sph_down|]. split; [lra|].
    assert (R : bottom t <= thd3 q <= top t) by (destruct q as [[u v] w]; unfold in_closed in Hq; cbn; lra). pose proof (fall_sph p q ltac:(lra)). lra. }
  split.
  - split; [apply Rmult_le_pos; [lra|]; unfold Rdiv; apply Rmult_le_pos; [apply Rmult_le_pos; lra|left; apply Rinv_0_lt_compat, pow_lt; lra]|].
    destruct B as (B1 & B2 & B3). assert (I0 : in_closed t (west t, south t, bottom t)) by (unfold in_closed; lra). specialize (Q (west t, south t, bottom t) 1 I0 Rle_0_1). apply Rmult_le_compat_l; lra.
  - intros _ q m Hq Hm. specialize (Q q m Hq Hm). change (newton_field "spherical" "g_z" p (q, m)) with (mGal * newton_accel m (sph_position p) (sph_position q) (sph_down p)).
    destruct Q as [Q1 Q2]. apply (Rmult_le_compat_l mGal) in Q1, Q2; lra.
Qed.
Print Assumptions C99_tesseroid_gravity.

(** More density, more potential, and more downward acceleration above. *)
Theorem C99_more_density sh ps ts ds ds' field radial a a' : prod_shape sh = length ps -> (field = "potential" \/ field = "g_z") -> length ds = length ts -> length ds' = length ts ->
  Forall2 Rle ds ds' ->
  tesseroid_gravity (coords_of sh ps) ts (arr1 ds) field radial false = Ok a -> tesseroid_gravity (coords_of sh ps) ts (arr1 ds') field radial false = Ok a' ->
  forall k p, nth_error ps k = Some p -> 0 <= thd3 p -> (forall t, In t ts -> top t < thd3 p) -> nth k (data a) 0 <= nth k (data a') 0.
Proof.
  intros Hsh Hf L L' HD E E' k p Hk Hr Ht. assert (If : In field ["potential"; "g_z"]) by (destruct Hf as [-> | ->]; cbn; auto).
  destruct (linear_value sh ps ts ds' ds 1 (-1) field radial false a' a Hsh If L' L E' E) as (r & Er & _ & _ & V). unfold dens_lin in Er.
  assert (N : forall d, In d (map (fun xy => 1 * fst xy + -1 * snd xy) (combine ds' ds)) -> 0 <= d).
  { clear -HD. induction HD as [|x y l l' H F IH]; cbn; [intros d []|]. intros d [<-|K]; [lra|now apply IH]. }
  assert (LL : length (map (fun xy => 1 * fst xy + -1 * snd xy) (combine ds' ds)) = length ts) by (rewrite map_length, combine_length; lia).
  assert (Z : 0 <= nth k (data r) 0); [|rewrite V in Z; lra].
  set (dd := map (fun xy => 1 * fst xy + -1 * snd xy) (combine ds' ds)) in *. clearbody dd.
  assert (G0 : exists ts', Forall2 moved ts ts' /\ (forall t, In t ts' -> accepted t)).
  { apply tesseroid_gravity_value in Er; auto. destruct Er as (ts' & C & _). destruct (accepted_checked _ _ _ C) as (M & _ & A). exists ts'. split; assumption. }
  destruct G0 as (ts0 & M0 & A0).
  assert (T0 : forall t, In t ts0 -> top t < thd3 p).
  { clear -M0 Ht. induction M0 as [|x y l l' H F IH]; intros t []; [subst t|apply IH; auto; intros; apply Ht; now right].
    destruct H as [[_ ->]|(_ & _ & _ & _ & _ & _ & _ & _ & ->)]; apply Ht; now left. }
  assert (SC : forall t, In t ts0 -> clear_of (thd3 p - top t) t p /\ reaches (thd3 p + top t) t p).
  { intros t H. destruct p as [[lon lat] rp]. cbn [thd3 snd] in *. specialize (T0 t H). destruct (A0 t H) as ((_ & _ & B3) & _ & _ & B0). split.
    - apply C98_clear_above; unfold thd3 in *; cbn in *; lra.
    - intros [[a1 a2] a3] (_ & _ & I). pose proof (eucl_triangle (sph_position (lon, lat, rp)) (sph_position (lon, lat, 0)) (sph_position (a1, a2, a3))) as T.
      rewrite TesseroidFitProofs.dist_radial in T. replace (sph_position (lon, lat, 0)) with (sph_position (a1, a2, 0)) in T by (unfold sph_position; f_equal; ring).
      rewrite TesseroidFitProofs.dist_radial in T. unfold thd3 in *; cbn in *. rewrite Rabs_pos_eq in T by lra. rewrite Rabs_minus_sym, Rabs_pos_eq in T by lra. lra. }
  assert (P0 : forall l g, (forall td : tess * R, In td l -> 0 <= g td) -> 0 <= 19 / 20 * sum_over l g).
  { intros l g H. apply Rmult_le_pos; [lra|]. induction l as [|x l IH]; [unfold sum_over; simpl; lra|]. rewrite sum_over_cons. pose proof (H x ltac:(now left)). assert (0 <= sum_over l g) by (apply IH; intros; apply H; now right). lra. }
  assert (VP : forall td, In td (combine ts0 dd) -> 0 <= snd td * volume (fst td)).
  { intros [t d] H. cbn [fst snd]. destruct (A0 t (in_combine_l _ _ _ _ H)) as (B & B1 & B2 & B3). pose proof (glq_mass_bounds t d B B1 B2 B3 (N d (in_combine_r _ _ _ _ H))). lra. }
  pose proof newton_G_pos as GP. assert (MP : 0 < mGal) by (unfold mGal; lra).
  destruct Hf as [-> | ->].
  - destruct (C99_tesseroid_potential sh ps ts dd radial r Hsh LL N Er) as (ts' & M & H). assert (ts' = ts0) as -> by (eapply Forall2_moved_fun; eassumption).
    destruct (H k p (fun t => thd3 p - top t) (fun t => thd3 p + top t) Hk) as [Lo _].
    + intros t I. specialize (T0 t I). destruct (A0 t I) as ((_ & _ & B3) & _ & _ & B0). destruct (SC t I). repeat split; try assumption; lra.
    + eapply Rle_trans; [|exact Lo]. apply P0. intros td I. specialize (VP td I). destruct td as [t d]. cbn [fst snd] in *. pose proof (in_combine_l _ _ _ _ I) as It. specialize (T0 t It). destruct (A0 t It) as ((_ & _ & B3) & _ & _ & B0).
      apply Rmult_le_pos; [assumption|]. unfold Rdiv. apply Rmult_le_pos; [lra|]. left. apply Rinv_0_lt_compat. lra.
  - destruct (C99_tesseroid_gravity sh ps ts dd radial r Hsh LL N Er) as (ts' & M & H). assert (ts' = ts0) as -> by (eapply Forall2_moved_fun; eassumption).
    destruct (H k p (fun t => thd3 p - top t) (fun t => thd3 p + top t) Hk) as [Lo _].
    + intros t I. specialize (T0 t I). destruct (A0 t I) as ((_ & _ & B3) & _ & _ & B0). destruct (SC t I). repeat split; try assumption; lra.
    + eapply Rle_trans; [|exact Lo]. apply P0. intros td I. specialize (VP td I). destruct td as [t d]. cbn [fst snd] in *. pose proof (in_combine_l _ _ _ _ I) as It. specialize (T0 t It). destruct (A0 t It) as ((_ & _ & B3) & _ & _ & B0).
      apply Rmult_le_pos; [assumption|]. apply Rmult_le_pos; [lra|]. unfold Rdiv. apply Rmult_le_pos; [apply Rmult_le_pos; lra|]. left. apply Rinv_0_lt_compat, pow_lt. lra.
Qed.
Print Assumptions C99_more_density.

(** The Earth tesseroid of C98 at density 2670, and a point mass of one kilogram one metre below. *)
Example C99_example :
  (exists a, tesseroid_gravity (coords_of [] [(10, 20, 6381000)]) [Tess 0 1 0 1 6361000 6371000] (arr1 [2670]) "g_z" true false = Ok a) /\
  clear_of 10000 (Tess 0 1 0 1 6361000 6371000) (10, 20, 6381000) /\
  (forall s, In s [((0, 0, -1), 1)] -> 1 <= eucl (place "cartesian" (0, 0, 0)) (place "cartesian" (fst s)) <= 1 /\ thd3 (fst s) + 1 <= thd3 (0, 0, 0)).
Proof.
  destruct C98_example as (_ & _ & _ & _ & C & _ & E). split; [exact E|]. split; [exact C|]. intros s [<-|[]]. unfold place, eucl, norm, dot, vsub, cart_position, thd3. cbn.
  replace ((0 - 0) * (0 - 0) + (0 - 0) * (0 - 0) + (0 - -1) * (0 - -1)) with 1 by ring. rewrite sqrt_1. lra.
Qed.
