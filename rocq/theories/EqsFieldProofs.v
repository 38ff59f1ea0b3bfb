(** Proofs about the field that equivalent sources stand for and about moving a survey. *)
From Coq Require Import FunctionalExtensionality.
From Coquelicot Require Import Coquelicot.
From Verif Require Import Base BaseFacts NumPy NumPyFacts DistanceModel DistanceSpec DistanceProofs PointGravityModel PointGravitySpec PointGravityProofs
  LegendreModel LegendreProofs EqsModel EqsSpec EqsProofs EqsFitProofs EqsFieldSpec.
Local Open Scope string_scope. Local Open Scope list_scope. Local Open Scope R_scope.

(** ** Moving *)
Section Act.
Variables (f0 f1 f2 : R -> R) (greens : greens_t).
Hypothesis inv : forall e n u ep np up, greens (f0 e) (f1 n) (f2 u) (f0 ep) (f1 np) (f2 up) = greens e n u ep np up.
Definition act (c : coords) : coords := let '(a, b, d) := c in (map f0 a, map f1 b, map f2 d).

Lemma aget_map {A B} (f : A -> B) l i : aget (map f l) i = do x <- aget l i; Ok (f x).
Proof. unfold aget. rewrite nth_error_map. destruct (nth_error l i); reflexivity. Qed.

Lemma size_act c : size (act c) = size c.
Proof. destruct c as [[a b] d]. unfold size, act. cbn. apply map_length. Qed.

Lemma greens_at_act c p i j : greens_at greens (act c) (act p) i j = greens_at greens c p i j.
Proof.
  destruct c as [[a b] d], p as [[a' b'] d']. unfold greens_at, act. rewrite !aget_map.
  destruct (aget a i); cbn [bind]; [|reflexivity]. destruct (aget b i); cbn [bind]; [|reflexivity]. destruct (aget d i); cbn [bind]; [|reflexivity].
  destruct (aget a' j); cbn [bind]; [|reflexivity]. destruct (aget b' j); cbn [bind]; [|reflexivity]. destruct (aget d' j); cbn [bind]; [|reflexivity]. apply inv.
Qed.

Lemma jacobian_act dt c p : jacobian dt greens (act c) (act p) = jacobian dt greens c p.
Proof.
  unfold jacobian, jacobian_kernel. rewrite !size_act. apply for_ext. intros i s _. apply for_ext. intros j t _. now rewrite greens_at_act.
Qed.

Lemma predict_kernel_act dt c p k r : predict_kernel dt greens (act c) (act p) k r = predict_kernel dt greens c p k r.
Proof.
  unfold predict_kernel. rewrite !size_act. apply for_ext. intros i s _. apply for_ext. intros j t _. now rewrite greens_at_act.
Qed.

Lemma take_map {A B} (f : A -> B) l ks : take (map f l) ks = do x <- take l ks; Ok (map f x).
Proof.
  induction ks as [|k ks IH]; [reflexivity|]. cbn [take]. rewrite nth_error_map. destruct (nth_error l k); cbn [option_map bind]; [|reflexivity].
  rewrite IH. destruct (take l ks); reflexivity.
Qed.

Lemma take3_act c ks : take3 (act c) ks = do x <- take3 c ks; Ok (act x).
Proof.
  destruct c as [[a b] d]. unfold take3, act. rewrite !take_map. destruct (take a ks); cbn [bind]; [|reflexivity]. destruct (take b ks); cbn [bind]; [|reflexivity].
  destruct (take d ks); reflexivity.
Qed.
End Act.

Lemma greens_cart_move v e n u ep np up :
  greens_func_cartesian (e + vx v) (n + vy v) (u + vz v) (ep + vx v) (np + vy v) (up + vz v) = greens_func_cartesian e n u ep np up.
Proof.
  unfold greens_func_cartesian. assert (E : distance_cartesian (e + vx v, n + vy v, u + vz v) (ep + vx v, np + vy v, up + vz v) = distance_cartesian (e, n, u) (ep, np, up)).
  { unfold distance_cartesian. f_equal. ring. } now rewrite E.
Qed.

Lemma move_act v c : move_lists v c = act (fun y => y + vx v) (fun y => y + vy v) (fun y => y + vz v) c.
Proof. destruct c as [[a b] d]. reflexivity. Qed.

Lemma jacobian_move dt v c p : jacobian dt greens_func_cartesian (move_lists v c) (move_lists v p) = jacobian dt greens_func_cartesian c p.
Proof. rewrite !move_act. apply jacobian_act. intros. apply greens_cart_move. Qed.
Lemma predict_kernel_move dt v c p k r : predict_kernel dt greens_func_cartesian (move_lists v c) (move_lists v p) k r = predict_kernel dt greens_func_cartesian c p k r.
Proof. rewrite !move_act. apply predict_kernel_act. intros. apply greens_cart_move. Qed.
Lemma take3_move v c ks : take3 (move_lists v c) ks = do x <- take3 c ks; Ok (move_lists v x).
Proof. rewrite move_act, take3_act. destruct (take3 c ks); cbn [bind]; [|reflexivity]. now rewrite move_act. Qed.
Lemma size_move v c : size (move_lists v c) = size c.
Proof. rewrite move_act. apply size_act. Qed.

Lemma astype3_id c : astype3 float64 c = c.
Proof. destruct c as [[a b] d]. unfold astype3, astype, float64. cbn. now rewrite !map_id. Qed.
Lemma ravel3_move v c : ravel3 (move_arrs v c) = move_lists v (ravel3 c).
Proof. destruct c as [[a b] d]. reflexivity. Qed.
Lemma check_move v c d w : check_fit_input (move_arrs v c) d w = check_fit_input c d w.
Proof. destruct c as [[a b] c]. unfold check_fit_input, move_arrs, shape_eqb. reflexivity. Qed.
Lemma broadcast_move v c : (let '(a, b, d) := move_arrs v c in broadcast3 a b d) = (let '(a, b, d) := c in broadcast3 a b d).
Proof. destruct c as [[a b] c]. reflexivity. Qed.

Lemma predict_move v self c : dt self = float64 -> predict (move_eqs v self) (move_arrs v c) = predict self c.
Proof.
  intros Hdt. unfold predict, get_points, move_eqs. cbn [coefs_ points_ EqsModel.dt]. destruct (coefs_ self) as [k|]; [|reflexivity].
  destruct (points_ self) as [p|]; cbn [option_map bind]; [|reflexivity]. rewrite Hdt.
  pose proof (broadcast_move v c) as B. unfold predict_data. pose proof (ravel3_move v c) as Rv.
  destruct (move_arrs v c) as [[a' b'] d'], c as [[a b] d]. rewrite B. destruct (broadcast3 a b d) as [sh|]; cbn [bind]; [|reflexivity].
  rewrite !astype3_id, Rv, predict_kernel_move. reflexivity.
Qed.

Section Fitting.
Variable ls : table -> list R -> option (list R) -> option R -> list R.
Variable avg : R -> coords -> coords.
Variable nd : list R -> list R -> res (list R).
Variable rw : list R -> list R -> region -> R -> R -> res (list (list nat)).
Variable order : nat -> list nat.
Hypothesis avg_moves : average_moves avg.
Hypothesis nd_stays : neighbours_stay nd.
Hypothesis rw_stays : windows_stay rw.

Lemma build_points_move v self c : build_points avg nd (move_eqs v self) (move_lists v c) =
  mapped (fun ps => (move_lists v (fst ps), move_eqs v (snd ps))) (build_points avg nd self c).
Proof.
  unfold build_points. cbn [block_size depth move_eqs].
  assert (E : match block_size self with Some s => avg s (move_lists v c) | None => move_lists v c end = move_lists v (match block_size self with Some s => avg s c | None => c end)).
  { destruct (block_size self); [apply avg_moves|reflexivity]. }
  rewrite E. set (c' := match block_size self with Some s => avg s c | None => c end). destruct c' as [[c0 c1] c2]. cbn [move_lists].
  destruct (depth self) as [str|x] eqn:Ed; [destruct (String.eqb str "default"); [rewrite nd_stays; destruct (nd c0 c1) as [ds|]|]|]; cbn [bind mapped]; try reflexivity.
  all: unfold move_eqs; cbn [move_lists damping points depth block_size dt points_ coefs_ depth_ fst snd]; rewrite !map_map; apply f_equal, f_equal2; [apply f_equal2; [reflexivity|]|reflexivity].
  all: apply map_ext; intros; ring.
Qed.

Lemma fit_points_move v self c : dt self = float64 -> fit_points avg nd (move_eqs v self) (move_lists v c) = mapped (move_eqs v) (fit_points avg nd self c).
Proof.
  intros Hdt. unfold fit_points. destruct (points self) as [p|] eqn:E.
  - cbn [move_eqs EqsModel.points]. rewrite E. cbn [option_map mapped EqsModel.damping EqsModel.depth EqsModel.block_size EqsModel.dt coefs_]. replace (dt (move_eqs v self)) with (dt self) by reflexivity. rewrite ravel3_move, Hdt, !astype3_id. reflexivity.
  - replace (EqsModel.points (move_eqs v self)) with (@None (arr * arr * arr)) by (cbn [move_eqs EqsModel.points]; now rewrite E).
    rewrite build_points_move. assert (B : forall ps, build_points avg nd self c = Ok ps -> dt (snd ps) = float64).
    { intros ps. unfold build_points. destruct (match block_size self with Some s => avg s c | None => c end) as [[c0 c1] c2].
      destruct (match depth self with DepthString _ => _ | DepthNumber _ => _ end); cbn [bind]; [|discriminate]. intros [= <-]. exact Hdt. }
    destruct (build_points avg nd self c) as [[pts s1]|]; cbn [mapped bind]; [|reflexivity]. specialize (B _ eq_refl). cbn [fst snd] in *.
    unfold move_eqs at 2 3 4 5 6. cbn [EqsModel.damping EqsModel.depth EqsModel.block_size EqsModel.dt coefs_ depth_ EqsModel.points]. rewrite B, !astype3_id. reflexivity.
Qed.

Lemma fit_points_dt self c s : dt self = float64 -> fit_points avg nd self c = Ok s -> dt s = float64.
Proof.
  intros Hdt. unfold fit_points. destruct (points self); [intros [= <-]; exact Hdt|].
  unfold build_points. destruct (match block_size self with Some s => avg s c | None => c end) as [[c0 c1] c2].
  destruct (match depth self with DepthString _ => _ | DepthNumber _ => _ end); cbn [bind]; [|discriminate]. intros [= <-]. exact Hdt.
Qed.

Lemma fit_move v self c d w : dt self = float64 -> fit ls avg nd (move_eqs v self) (move_arrs v c) d w = mapped (move_eqs v) (fit ls avg nd self c d w).
Proof.
  intros Hdt. unfold fit. rewrite check_move. destruct (check_fit_input c d w); cbn [bind mapped]; [|reflexivity].
  replace (dt (move_eqs v self)) with (dt self) by reflexivity. rewrite Hdt, !astype3_id, ravel3_move.
  rewrite fit_points_move by assumption. pose proof (fit_points_dt self (ravel3 c)) as D. destruct (fit_points avg nd self (ravel3 c)) as [s|]; cbn [mapped bind]; [|reflexivity].
  specialize (D s Hdt eq_refl). unfold get_points. unfold move_eqs at 1. cbn [points_]. destruct (points_ s) as [p|] eqn:Ep; cbn [option_map bind mapped]; [|reflexivity].
  replace (dt (move_eqs v s)) with (dt s) by reflexivity. rewrite D, jacobian_move. destruct (jacobian float64 greens_func_cartesian (ravel3 c) p); cbn [bind mapped]; [|reflexivity].
  unfold set_coefs, move_eqs. cbn. reflexivity.
Qed.

(** ** Gradient boosting *)
Lemma fold_plus (f : R -> R -> R) a l x : (forall y z, f (y + a) (z + a) = f y z + a) -> fold_left f (map (fun t => t + a) l) (x + a) = fold_left f l x + a.
Proof. intros H. revert x. induction l as [|y l IH]; intros x; [reflexivity|]. cbn [map fold_left]. now rewrite H, IH. Qed.
Lemma Rmin_plus a y z : Rmin (y + a) (z + a) = Rmin y z + a.
Proof. unfold Rmin. destruct (Rle_dec (y + a) (z + a)), (Rle_dec y z); lra. Qed.
Lemma Rmax_plus a y z : Rmax (y + a) (z + a) = Rmax y z + a.
Proof. unfold Rmax. destruct (Rle_dec (y + a) (z + a)), (Rle_dec y z); lra. Qed.

Definition plus_region (a b : R) (r : region) : region := let '(w, e, s, n) := r in (w + a, e + a, s + b, n + b).
Lemma get_region_plus a b x y : get_region (map (fun t => t + a) x) (map (fun t => t + b) y) = mapped (plus_region a b) (get_region x y).
Proof.
  destruct x as [|x0 x], y as [|y0 y]; try reflexivity. cbn [map get_region mapped plus_region].
  rewrite !(fold_plus Rmin) by (intros; apply Rmin_plus). rewrite !(fold_plus Rmax) by (intros; apply Rmax_plus). reflexivity.
Qed.
Lemma get_region_data_sources_move v c p : get_region_data_sources (move_lists v c) (move_lists v p) = mapped (plus_region (vx v) (vy v)) (get_region_data_sources c p).
Proof.
  unfold get_region_data_sources. destruct c as [[a b] d], p as [[a' b'] d']. cbn [move_lists fst snd]. rewrite !get_region_plus.
  destruct (get_region a b) as [[[[w e] s] n]|]; cbn [mapped plus_region bind]; [|reflexivity].
  destruct (get_region a' b') as [[[[w' e'] s'] n']|]; cbn [mapped plus_region bind]; [|reflexivity]. now rewrite !Rmin_plus, !Rmax_plus.
Qed.

Lemma create_windows_move v win p c sh : create_windows rw order win (move_lists v p) (move_lists v c) sh = create_windows rw order win p c sh.
Proof.
  unfold create_windows. rewrite get_region_data_sources_move. destruct (get_region_data_sources c p) as [[[[w e] s] n]|]; cbn [mapped plus_region bind]; [|reflexivity].
  rewrite !size_move. replace (e + vx v - (w + vx v)) with (e - w) by ring. replace (n + vy v - (s + vy v)) with (n - s) by ring.
  destruct c as [[a b] d], p as [[a' b'] d']. cbn [move_lists fst snd].
  destruct win as [str|x]; [destruct (Rleb _ _); [reflexivity|]|]; cbv zeta; now rewrite !rw_stays.
Qed.

Lemma boost_window_move v dt dm p c ws w st : boost_window ls dt dm (move_lists v p) (move_lists v c) ws w st = boost_window ls dt dm p c ws w st.
Proof.
  unfold boost_window. destruct w as [pw dw], st as [[r er] k]. rewrite !take3_move. destruct (take3 p pw) as [pc|]; cbn [bind]; [|reflexivity].
  destruct (take3 c dw) as [cc|]; cbn [bind]; [|reflexivity]. rewrite jacobian_move.
  destruct (match ws with Some _ => _ | None => _ end); cbn [bind]; [|reflexivity]. destruct (jacobian dt greens_func_cartesian cc pc); cbn [bind]; [|reflexivity].
  destruct (take r dw); cbn [bind]; [|reflexivity]. now rewrite predict_kernel_move.
Qed.

Lemma fit_gb_move v self win c d w : dt self = float64 -> fit_gb ls avg nd rw order (move_eqs v self) win (move_arrs v c) d w =
  mapped (fun r => (move_eqs v (fst r), snd r)) (fit_gb ls avg nd rw order self win c d w).
Proof.
  intros Hdt. unfold fit_gb. rewrite check_move. destruct (check_fit_input c d w); cbn [bind mapped]; [|reflexivity].
  replace (dt (move_eqs v self)) with (dt self) by reflexivity. rewrite Hdt, !astype3_id, ravel3_move.
  rewrite fit_points_move by assumption. pose proof (fit_points_dt self (ravel3 c)) as D. destruct (fit_points avg nd self (ravel3 c)) as [s|]; cbn [mapped bind]; [|reflexivity].
  specialize (D s Hdt eq_refl). unfold get_points. unfold move_eqs at 1. cbn [points_]. destruct (points_ s) as [p|] eqn:Ep; cbn [option_map bind mapped]; [|reflexivity].
  replace (dt (move_eqs v s)) with (dt s) by reflexivity. replace (damping (move_eqs v s)) with (damping s) by reflexivity. rewrite create_windows_move, size_move.
  destruct (create_windows rw order win p (ravel3 c) true); cbn [bind mapped]; [|reflexivity].
  unfold gradient_boosting. rewrite (for_ext _ _ (boost_window ls (dt s) (damping s) p (ravel3 c) (option_map (fun w0 => astype float64 (ravel w0)) w))) by (intros; apply boost_window_move).
  destruct (for_ _ _ _) as [[[r er] k]|]; cbn [bind mapped]; reflexivity.
Qed.

(** ** Spherical sources *)
Lemma greens_sph_turn a lon lat r lonp latp rp : greens_func_spherical (lon + a) (lat + 0) (r + 0) (lonp + a) (latp + 0) (rp + 0) = greens_func_spherical lon lat r lonp latp rp.
Proof.
  rewrite !Rplus_0_r. unfold greens_func_spherical.
  assert (E : distance_spherical (lon + a, lat, r) (lonp + a, latp, rp) = distance_spherical (lon, lat, r) (lonp, latp, rp)); [|now rewrite E].
  unfold distance_spherical, distance_spherical_core. replace (radians (lonp + a) - radians (lon + a)) with (radians lonp - radians lon) by (unfold radians; field). reflexivity.
Qed.
Lemma jacobian_turn dt a c p : jacobian dt greens_func_spherical (move_lists (V3 a 0 0) c) (move_lists (V3 a 0 0) p) = jacobian dt greens_func_spherical c p.
Proof. rewrite !move_act. cbn [vx vy vz]. apply jacobian_act. intros. apply greens_sph_turn. Qed.
Lemma predict_kernel_turn dt a c p k r : predict_kernel dt greens_func_spherical (move_lists (V3 a 0 0) c) (move_lists (V3 a 0 0) p) k r = predict_kernel dt greens_func_spherical c p k r.
Proof. rewrite !move_act. cbn [vx vy vz]. apply predict_kernel_act. intros. apply greens_sph_turn. Qed.

Lemma fit_sph_turn a self c d w : fit_sph ls (turn_sph a self) (move_arrs (V3 a 0 0) c) d w = mapped (turn_sph a) (fit_sph ls self c d w).
Proof.
  unfold fit_sph. rewrite check_move. destruct (check_fit_input c d w); cbn [bind mapped]; [|reflexivity]. rewrite ravel3_move.
  assert (E : sph_sources (turn_sph a self) (move_lists (V3 a 0 0) (ravel3 c)) = move_lists (V3 a 0 0) (sph_sources self (ravel3 c))).
  { unfold sph_sources, turn_sph. cbn [s_points relative_depth]. destruct (s_points self) as [p|]; cbn [option_map]; [apply ravel3_move|].
    destruct (ravel3 c) as [[x y] z]. cbn [move_lists]. rewrite !map_map. f_equal. apply map_ext. intros; cbn; ring. }
  rewrite E, jacobian_turn. destruct (jacobian _ _ _ _); cbn [bind mapped]; [|reflexivity]. reflexivity.
Qed.

Lemma predict_sph_turn a self c dt0 : predict_sph (turn_sph a self) (move_arrs (V3 a 0 0) c) dt0 = predict_sph self c dt0.
Proof.
  unfold predict_sph, turn_sph. cbn [s_coefs_ s_points_]. destruct (s_coefs_ self) as [k|]; [|reflexivity].
  destruct (s_points_ self) as [p|]; cbn [option_map bind]; [|reflexivity].
  pose proof (broadcast_move (V3 a 0 0) c) as B. unfold predict_data. pose proof (ravel3_move (V3 a 0 0) c) as Rv.
  destruct (move_arrs (V3 a 0 0) c) as [[a' b'] d'], c as [[x y] z]. rewrite B. destruct (broadcast3 x y z) as [sh|]; cbn [bind]; [|reflexivity].
  rewrite Rv, predict_kernel_turn. reflexivity.
Qed.
End Fitting.

(** ** The field *)
Lemma newton_G_pos : 0 < newton_G. Proof. unfold newton_G. apply Rdiv_lt_0_compat; [lra|apply pow_lt; lra]. Qed.

Lemma combine_masses (qs : list point) coefs : length coefs = length qs ->
  map fst (combine qs (masses coefs)) = qs /\ map snd (combine qs (masses coefs)) = masses coefs.
Proof.
  revert coefs. induction qs as [|q qs IH]; intros [|c coefs] H; try discriminate; [split; reflexivity|].
  injection H as H. destruct (IH coefs H) as [A B]. unfold masses in *. cbn [map combine fst snd]. split; apply (f_equal2 cons); auto.
Qed.

Lemma inverse_distance_newton place p qs coefs :
  inverse_distance place p (combine qs coefs) = sum_over (combine qs (masses coefs)) (fun s => newton_potential (snd s) (place p) (place (fst s))).
Proof.
  revert coefs. induction qs as [|q qs IH]; intros [|c coefs]; try reflexivity. unfold inverse_distance, masses in *. cbn [combine map]. rewrite !sum_over_cons.
  f_equal; [|apply IH]. cbn [fst snd]. unfold newton_potential. pose proof newton_G_pos. unfold Rdiv. replace (newton_G * (c * / newton_G)) with c by (field; lra). reflexivity.
Qed.

Lemma prediction_is_potential place cs sh ps qs coefs : length coefs = length qs -> prod_shape sh = length ps ->
  (cs = "cartesian" /\ place = cart_position) \/ (cs = "spherical" /\ place = sph_position) ->
  Ok (Arr sh (predicted place qs coefs ps)) = point_gravity (coords_of sh ps) (coords_of [length qs] qs) (arr1 (masses coefs)) "potential" cs.
Proof.
  intros Hl Hsh Hc. destruct (combine_masses qs coefs Hl) as [A B].
  assert (P : points_of (combine qs (masses coefs)) = coords_of [length qs] qs).
  { assert (L : length (combine qs (masses coefs)) = length qs) by (rewrite combine_length; unfold masses; rewrite map_length, Hl; apply Nat.min_id).
    unfold points_of. etransitivity; [exact (f_equal (coords_of _) A)|exact (f_equal (fun n => coords_of [n] qs) L)]. }
  assert (Q : masses_of (combine qs (masses coefs)) = arr1 (masses coefs)) by (exact (f_equal arr1 B)).
  rewrite <- P, <- Q. rewrite point_gravity_newton; [|exact Hsh|destruct Hc as [[-> _]|[-> _]]; [left|right]; cbn; auto].
  f_equal. f_equal. unfold predicted. apply map_ext. intros p. rewrite inverse_distance_newton. apply sum_over_ext. intros s _.
  destruct Hc as [[-> ->]|[-> ->]]; reflexivity.
Qed.

Lemma predict_value self coefs qs p : dt self = float64 -> coefs_ self = Some coefs -> points_ self = Some (flat qs) -> length coefs = length qs ->
  apart cart_position [p] qs -> value self p = sum_over (combine qs (masses coefs)) (newton_field "cartesian" "potential" p).
Proof.
  intros Hdt Hc Hq Hl Ha. unfold value, predict, get_points. rewrite Hc, Hq, Hdt. cbn [bind].
  rewrite (predict_data_ok _ _ greens_cartesian_for) by (assumption || reflexivity || apply astype3_float64). cbn. apply inverse_distance_newton.
Qed.

Lemma off_apart p qs coefs : apart cart_position [p] qs -> off_sources cart_position p (combine qs (masses coefs)).
Proof. intros H s Hs. destruct s as [q m]. apply in_combine_l in Hs. apply H; [now left|assumption]. Qed.

Lemma eucl_cont a p q : cart_position p <> cart_position q -> locally 0 (fun t => cart_position (move a t p) <> cart_position q).
Proof.
  intros H. destruct p as [[e n] u], q as [[e' n'] u']. unfold cart_position in *. cbn in *.
  assert (K : e <> e' \/ n <> n' \/ u <> u').
  { destruct (Req_dec e e'); [|auto]. destruct (Req_dec n n'); [|auto]. destruct (Req_dec u u'); [|auto]. subst. contradiction. }
  assert (L : forall x y s, x <> y -> (s = 1 \/ s = -1) -> locally 0 (fun t => x + s * t <> y)).
  { intros x y s Hxy Hs. assert (D : 0 < Rabs (x - y)) by (apply Rabs_pos_lt; lra). exists (mkposreal _ D). intros t Ht. 
    assert (Ht' : Rabs t < Rabs (x - y)) by (change (Rabs (t - 0) < Rabs (x - y)) in Ht; now rewrite Rminus_0_r in Ht). intros E. assert (Rabs (x - y) = Rabs t); [|lra]. replace (x - y) with (- (s * t)) by lra. rewrite Rabs_Ropp, Rabs_mult. destruct Hs as [-> | ->]; [rewrite Rabs_R1|rewrite Rabs_left by lra]; ring. }
  destruct a.
  - destruct K as [K|K]; [|apply filter_forall; intros t E; injection E; intros; subst; destruct K as [K|K]; now apply K].
    apply (filter_imp (fun t => e + 1 * t <> e')); [|apply L; auto]. intros t Ht E. apply Ht. injection E as E _ _. lra.
  - destruct K as [K|[K|K]]; [apply filter_forall; intros t E; injection E; intros; subst; now apply K| |apply filter_forall; intros t E; injection E; intros; subst; now apply K].
    apply (filter_imp (fun t => n + 1 * t <> n')); [|apply L; auto]. intros t Ht E. apply Ht. injection E as _ E _. lra.
  - destruct K as [K|[K|K]]; [apply filter_forall; intros t E; injection E; intros; subst; now apply K|apply filter_forall; intros t E; injection E; intros; subst; now apply K|].
    apply (filter_imp (fun t => u + (-1) * t <> u')); [|apply L; auto]. intros t Ht E. apply Ht. injection E as _ _ E. lra.
Qed.

Lemma apart_locally a p qs : apart cart_position [p] qs -> locally 0 (fun t => apart cart_position [move a t p] qs).
Proof.
  intros H. assert (K : locally 0 (fun t => forall q, In q qs -> cart_position (move a t p) <> cart_position q)).
  { induction qs as [|q qs IH]; [apply filter_forall; intros t q []|].
    apply (filter_imp (fun t => cart_position (move a t p) <> cart_position q /\ forall q', In q' qs -> cart_position (move a t p) <> cart_position q')).
    - intros t [A B] q' [<-|Hq]; auto.
    - apply filter_and; [apply eucl_cont, H; now left|apply IH]. intros x y Hx Hy. apply H; [assumption|now right]. }
  revert K. apply filter_imp. intros t Ht x y [<-|[]] Hy. now apply Ht.
Qed.

Lemma move_move a t s p : move a (t + s) p = move a s (move a t p).
Proof. destruct p as [[e n] u]. unfold move. destruct a; apply (f_equal2 pair); try apply (f_equal2 pair); try reflexivity; ring. Qed.
Lemma move_0 a p : move a 0 p = p.
Proof. destruct p as [[e n] u]. unfold move. destruct a; apply (f_equal2 pair); try apply (f_equal2 pair); try reflexivity; ring. Qed.

Lemma value_second self coefs qs p a : dt self = float64 -> coefs_ self = Some coefs -> points_ self = Some (flat qs) -> length coefs = length qs ->
  apart cart_position [p] qs -> is_derive_n (fun t => value self (move a t p)) 2 0
    (returned (point_gravity (coords_of [] [p]) (points_of (combine qs (masses coefs))) (masses_of (combine qs (masses coefs))) (g2 a a) "cartesian") / eotvos).
Proof.
  intros Hdt Hc Hq Hl Ha. set (ss := combine qs (masses coefs)). cbn [is_derive_n].
  apply (is_derive_ext_loc (fun t => returned (point_gravity (coords_of [] [move a t p]) (points_of ss) (masses_of ss) (g1 a) "cartesian") / mGal));
    [|apply point_gravity_second, off_apart, Ha].
  assert (L : locally 0 (fun t => locally t (fun s => apart cart_position [move a s p] qs))) by (apply locally_locally, apart_locally, Ha).
  revert L. apply filter_imp. intros t Lt. symmetry. cbn [Derive_n]. rewrite (Derive_ext_loc _ (fun s => returned (point_gravity (coords_of [] [move a s p]) (points_of ss) (masses_of ss) "potential" "cartesian"))).
  - apply is_derive_unique. pose proof (point_gravity_first a (move a t p) ss (off_apart _ _ _ (locally_singleton _ _ Lt))) as D.
    set (F := fun s : R => returned (point_gravity (coords_of [] [move a s (move a t p)]) (points_of ss) (masses_of ss) "potential" "cartesian")) in D.
    set (l := returned _ / mGal) in *. assert (Z : 0 = (t : R) - (t : R)) by ring.
    assert (C : is_derive (fun s : R => F (s - (t : R))) t (scal 1 l)).
    { apply (is_derive_comp F (fun s : R => s - (t : R)) t l 1); [exact (eq_ind 0 (fun z => is_derive F z l) D _ Z)|].
      replace 1 with (1 - 0) by ring. exact (is_derive_minus (fun s : R => s) (fun _ : R => (t : R)) t 1 0 (is_derive_id (K := R_AbsRing) t) (is_derive_const (K := R_AbsRing) (V := R_NormedModule) (t : R) t)). }
    replace (scal 1 l) with l in C by (unfold scal; cbn; unfold mult; cbn; ring). eapply is_derive_ext; [|exact C]. intros s. unfold F. rewrite <- move_move.
    assert (W : forall x y : R, x + (y - x) = y) by (intros; ring).
    exact (f_equal (fun z => returned (point_gravity (coords_of [] [move a z p]) (points_of ss) (masses_of ss) "potential" "cartesian")) (W t s)).
  - revert Lt. apply filter_imp. intros s Hs. rewrite (predict_value self coefs qs _ Hdt Hc Hq Hl Hs). symmetry. apply returned_newton, sup_pot.
Qed.

(** Size far above the sources. *)
Lemma value_bound self coefs qs p H : dt self = float64 -> coefs_ self = Some coefs -> points_ self = Some (flat qs) -> length coefs = length qs ->
  0 < H -> (forall q, In q qs -> thd3 q + H <= thd3 p) ->
  (exists x, predict self (coords_of [] [p]) = Ok (scalar x)) /\ Rabs (value self p) <= sum_over coefs Rabs / H.
Proof.
  intros Hdt Hc Hq Hl HH Hup.
  assert (Ha : apart cart_position [p] qs).
  { intros x q [<-|[]] Hin E. specialize (Hup q Hin). destruct p as [[a b] c], q as [[a' b'] c']. unfold cart_position, thd3 in *. cbn in *. injection E as _ _ E. lra. }
  assert (P : predict self (coords_of [] [p]) = Ok (scalar (inverse_distance cart_position p (combine qs coefs)))).
  { unfold predict, get_points. rewrite Hc, Hq, Hdt. cbn [bind]. rewrite (predict_data_ok _ _ greens_cartesian_for) by (assumption || reflexivity || apply astype3_float64). reflexivity. }
  split; [eauto|]. unfold value. rewrite P. cbn [returned scalar data nth]. unfold inverse_distance.
  clear -Hl HH Hup. revert coefs Hl. induction qs as [|q qs IH]; intros [|c coefs] Hl; try discriminate.
  - cbn [combine]. unfold sum_over; cbn. rewrite Rabs_R0. unfold Rdiv. lra.
  - injection Hl as Hl. cbn [combine]. rewrite !sum_over_cons. eapply Rle_trans; [apply Rabs_triang|].
    rewrite Rdiv_plus_distr. apply Rplus_le_compat; [|apply IH; [intros; apply Hup; now right|exact Hl]].
    cbn [fst snd]. unfold Rdiv. rewrite Rabs_mult. apply Rmult_le_compat_l; [apply Rabs_pos|].
    assert (D : H <= eucl (cart_position p) (cart_position q)).
    { specialize (Hup q (or_introl eq_refl)). destruct p as [[a b] d], q as [[a' b'] d']. unfold thd3 in Hup; cbn in Hup. unfold eucl, norm, dot, vsub, cart_position. cbn.
      rewrite <- (sqrt_Rsqr H) by lra. apply sqrt_le_1_alt. unfold Rsqr. pose proof (Rle_0_sqr (a - a')). pose proof (Rle_0_sqr (b - b')). unfold Rsqr in *.
      assert (H * H <= (d - d') * (d - d')) by (apply Rmult_le_compat; lra). lra. }
    rewrite Rabs_inv, Rabs_right by lra. apply Rinv_le_contravar; lra.
Qed.
