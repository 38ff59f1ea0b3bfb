(** C37, C38, C46, C47: magnetic angles, total field anomaly, Bouguer correction and Airy isostasy. *)
From Coquelicot Require Import Coquelicot.
From Verif Require Import Base BaseFacts NumPy DistanceModel PointGravityModel PointGravitySpec PointGravityProofs UtilsModel UtilsSpec UtilsProofs.
Local Open Scope string_scope. Local Open Scope list_scope. Local Open Scope R_scope.

(** C37. *)
Theorem C37_angles_to_vector_and_back f i d : 0 < f -> -90 < i < 90 -> -180 < d <= 180 ->
  let '(e, n, u) := magnetic_angles_to_vec f i d in magnetic_vec_to_angles e n u true = (f, i, d).
Proof. exact (angles_round_trip f i d). Qed.
Print Assumptions C37_angles_to_vector_and_back.
Theorem C37_vector_to_angles_and_back e n u : let '(f, i, d) := magnetic_vec_to_angles e n u true in magnetic_angles_to_vec f i d = (e, n, u).
Proof. exact (vec_round_trip e n u). Qed.
Print Assumptions C37_vector_to_angles_and_back.
Theorem C37_intensity_is_the_norm f i d : 0 <= f -> let '(e, n, u) := magnetic_angles_to_vec f i d in V3 e n u = vscale f (direction i d) /\ norm (V3 e n u) = f.
Proof.
  intros Hf. pose proof (vec_intensity f i d Hf) as H. unfold magnetic_angles_to_vec in *. split; [|exact H]. unfold vscale, direction. cbn. f_equal; ring.
Qed.
Print Assumptions C37_intensity_is_the_norm.
Theorem C37_angles_in_range e n u b : let '(f, i, d) := magnetic_vec_to_angles e n u b in
  f = norm (V3 e n u) /\ (if b then -90 <= i <= 90 /\ -180 < d <= 180 else - PI / 2 <= i <= PI / 2 /\ - PI < d <= PI).
Proof.
  unfold magnetic_vec_to_angles. set (h := sqrt (e ^ 2 + n ^ 2)). assert (Hh : 0 <= h) by apply sqrt_pos. pose proof PI_RGT_0 as HP.
  assert (I : - (PI / 2) <= arctan2 (- u) h <= PI / 2).
  { unfold arctan2. destruct (Rlt_dec 0 h) as [H|H]; [destruct (atan_bound (- u / h)); lra|]. destruct (Rlt_dec h 0); [lra|]. destruct (Rlt_dec 0 (- u)); [lra|]. destruct (Rlt_dec (- u) 0); lra. }
  assert (D : - PI < arctan2 e n <= PI).
  { destruct (Req_dec n 0) as [En|En]; [destruct (Req_dec e 0) as [Ee|Ee]|].
    - subst. unfold arctan2. destruct (Rlt_dec 0 0); lra.
    - apply (arctan2_spec e n); auto.
    - apply (arctan2_spec e n); auto. }
  assert (F : sqrt (e ^ 2 + n ^ 2 + u ^ 2) = norm (V3 e n u)) by (unfold norm, dot; cbn [vx vy vz]; f_equal; ring).
  assert (Q : forall x a, (x <= a * PI / 180 <-> degrees x <= a) /\ (a * PI / 180 <= x <-> a <= degrees x) /\ (a * PI / 180 < x <-> a < degrees x)).
  { intros x a. unfold degrees. assert (Hk : x * 180 / PI = x * (180 / PI)) by (field; lra). assert (Hk2 : a = a * PI / 180 * (180 / PI)) by (field; lra).
    assert (0 < 180 / PI) by (apply Rdiv_lt_0_compat; lra). rewrite Hk. split; [|split]; split; intros Hq.
    - rewrite Hk2. apply Rmult_le_compat_r; lra.
    - rewrite Hk2 in Hq. apply Rmult_le_reg_r in Hq; lra.
    - rewrite Hk2. apply Rmult_le_compat_r; lra.
    - rewrite Hk2 in Hq at 1. apply Rmult_le_reg_r in Hq; lra.
    - rewrite Hk2. apply Rmult_lt_compat_r; lra.
    - rewrite Hk2 in Hq at 1. apply Rmult_lt_reg_r in Hq; lra. }
  destruct b; (split; [exact F|]).
  - split; split; apply Q; lra.
  - split; [lra|exact D].
Qed.
Print Assumptions C37_angles_in_range.
(** At the two vertical directions the declination is lost. *)
Theorem C37_vertical_loses_declination_refuted : exists f i d, 0 < f /\ -90 <= i <= 90 /\ -180 < d <= 180 /\
  let '(e, n, u) := magnetic_angles_to_vec f i d in magnetic_vec_to_angles e n u true <> (f, i, d).
Proof.
  exists 1, 90, 45. split; [lra|]. split; [lra|]. split; [lra|]. unfold magnetic_angles_to_vec, magnetic_vec_to_angles.
  replace (radians 90) with (PI / 2) by (unfold radians; field). rewrite cos_PI2. replace (1 * 0 * sin (radians 45)) with 0 by ring. replace (1 * 0 * cos (radians 45)) with 0 by ring.
  intros E. injection E as _ _ E. unfold arctan2, degrees in E. destruct (Rlt_dec 0 0); [lra|]. destruct (Rlt_dec 0 0); lra.
Qed.
Print Assumptions C37_vertical_loses_declination_refuted.
Example C37_example : (0 < 3 /\ -90 < 45 < 90 /\ -180 < 45 <= 180) /\ direction 0 90 = V3 1 0 0.
Proof.
  split; [lra|]. unfold direction. replace (radians 0) with 0 by (unfold radians; field). replace (radians 90) with (PI / 2) by (unfold radians; field).
  rewrite cos_0, sin_0, sin_PI2, cos_PI2. f_equal; ring.
Qed.

(** C38. *)
Theorem C38_projection b i d : total_field_anomaly b i d = dot (V3 (fst (fst b)) (snd (fst b)) (snd b)) (direction i d).
Proof. destruct b as [[b1 b2] b3]. unfold total_field_anomaly, magnetic_angles_to_vec, dot, direction. cbn. ring. Qed.
Print Assumptions C38_projection.
Lemma direction_unit i d : norm (direction i d) = 1.
Proof. pose proof (C37_intensity_is_the_norm 1 i d ltac:(lra)) as H. unfold magnetic_angles_to_vec in H. destruct H as [H1 H2]. rewrite H1 in H2. rewrite <- H2. f_equal. unfold vscale, direction. cbn. f_equal; ring. Qed.
Theorem C38_never_exceeds_the_magnitude b i d : Rabs (total_field_anomaly b i d) <= norm (V3 (fst (fst b)) (snd (fst b)) (snd b)).
Proof. rewrite C38_projection. eapply Rle_trans; [apply cauchy_schwarz_norm|]. rewrite direction_unit. lra. Qed.
Print Assumptions C38_never_exceeds_the_magnitude.
Theorem C38_linear k1 b k2 c i d :
  total_field_anomaly (k1 * fst (fst b) + k2 * fst (fst c), k1 * snd (fst b) + k2 * snd (fst c), k1 * snd b + k2 * snd c) i d
  = k1 * total_field_anomaly b i d + k2 * total_field_anomaly c i d.
Proof. rewrite !C38_projection. unfold dot. cbn. ring. Qed.
Print Assumptions C38_linear.
(** It is the first order change of the intensity of the regional field when the anomalous field is added. *)
Theorem C38_first_order_change_of_intensity F b i d : 0 < F ->
  is_derive (fun t => norm (vadd (vscale F (direction i d)) (vscale t (V3 (fst (fst b)) (snd (fst b)) (snd b))))) 0 (total_field_anomaly b i d).
Proof.
  intros HF. rewrite C38_projection. set (B := V3 _ _ _). set (f := direction i d). pose proof (direction_unit i d) as U. fold f in U.
  assert (U2 : dot f f = 1). { unfold norm in U. rewrite <- (sqrt_sqrt (dot f f)) by apply dot_nonneg. rewrite U. ring. }
  unfold norm. apply (is_derive_ext (fun t => sqrt (F ^ 2 + 2 * F * dot f B * t + dot B B * t ^ 2))).
  { intros t. f_equal. unfold dot, vadd, vscale in *. cbn [vx vy vz] in *.
    replace (F ^ 2) with (F ^ 2 * (vx f * vx f + vy f * vy f + vz f * vz f)) by (rewrite U2; ring). ring. }
  assert (Hs : sqrt (F ^ 2 + 2 * F * dot f B * 0 + dot B B * 0 ^ 2) = F) by (replace (F ^ 2 + 2 * F * dot f B * 0 + dot B B * 0 ^ 2) with (F ^ 2) by ring; apply sqrt_pow2; lra).
  generalize (dot f B) (dot B B) Hs (dot_sym B f). intros p q Hs' E. rewrite E. auto_derive.
  - replace (F * (F * 1) + 2 * F * p * 0 + q * (0 * (0 * 1))) with (F ^ 2) by ring. apply pow_lt. assumption.
  - replace (F * (F * 1) + 2 * F * p * 0 + q * (0 * (0 * 1))) with (F ^ 2 + 2 * F * p * 0 + q * 0 ^ 2) by ring. rewrite Hs'. field. lra.
Qed.
Print Assumptions C38_first_order_change_of_intensity.
Example C38_example : total_field_anomaly (0, 0, -50) 90 0 = 50.
Proof. unfold total_field_anomaly, magnetic_angles_to_vec. replace (radians 90) with (PI / 2) by (unfold radians; field). rewrite sin_PI2. ring. Qed.

(** C46. *)
Theorem C46_plate_formula topo dc dw i h : (i < length topo)%nat -> nth i topo NaN = Fin h ->
  (0 <= h -> nth i (bouguer_correction topo dc dw) NaN = Fin (mGal * (2 * PI * newton_G * dc * h))) /\
  (h < 0 -> nth i (bouguer_correction topo dc dw) NaN = Fin (mGal * (2 * PI * newton_G * (dw - dc) * Rabs h))).
Proof.
  intros Hi E. rewrite bouguer_nth, E by assumption. unfold bouguer1, mGal. assert (G0 : GRAVITATIONAL_CONST = newton_G) by (unfold GRAVITATIONAL_CONST, newton_G; lra). rewrite G0.
  split; intros Hh; f_equal.
  - destruct (Rlt_dec h 0); [lra|ring].
  - destruct (Rlt_dec h 0); [|lra]. rewrite Rabs_left by assumption. ring.
Qed.
Print Assumptions C46_plate_formula.
Theorem C46_nan_and_length topo dc dw : length (bouguer_correction topo dc dw) = length topo /\
  forall i, (i < length topo)%nat -> (nth i topo NaN = NaN <-> nth i (bouguer_correction topo dc dw) NaN = NaN).
Proof.
  split; [apply bouguer_length|]. intros i Hi. rewrite bouguer_nth by assumption. destruct (nth i topo NaN); split; congruence.
Qed.
Print Assumptions C46_nan_and_length.
Lemma ring_integral k z r : 0 < z -> is_RInt (fun x => k * (2 * PI * x) * z / sqrt (x ^ 2 + z ^ 2) ^ 3) 0 r (2 * PI * k * (1 - z / sqrt (z ^ 2 + r ^ 2))).
Proof.
  intros Hz. assert (Hp : forall x, 0 < x ^ 2 + z ^ 2) by (intros x; pose proof (pow2_ge_0 x); pose proof (pow_lt z 2 Hz); lra).
  assert (HD : forall x, is_derive (fun x => - (2 * PI * k * z) / sqrt (x ^ 2 + z ^ 2)) x (k * (2 * PI * x) * z / sqrt (x ^ 2 + z ^ 2) ^ 3)).
  { intros x. pose proof (Hp x) as H. assert (Hs : sqrt (x ^ 2 + z ^ 2) <> 0) by (apply Rgt_not_eq, sqrt_lt_R0; assumption).
    auto_derive; [replace (x * (x * 1) + z * (z * 1)) with (x ^ 2 + z ^ 2) by ring; repeat split; assumption|].
    replace (x * (x * 1) + z * (z * 1)) with (x ^ 2 + z ^ 2) by ring. field. assumption. }
  evar_last.
  - apply (is_RInt_derive (fun x => - (2 * PI * k * z) / sqrt (x ^ 2 + z ^ 2))).
    + intros x _. apply HD.
    + intros x _. apply (ex_derive_continuous (K := R_AbsRing) (V := R_NormedModule)). pose proof (Hp x) as H.
      assert (Hs : sqrt (x ^ 2 + z ^ 2) <> 0) by (apply Rgt_not_eq, sqrt_lt_R0; assumption).
      auto_derive. replace (x * (x * 1) + z * (z * 1)) with (x ^ 2 + z ^ 2) by ring. repeat split; try assumption. 
      replace (sqrt (x ^ 2 + z ^ 2) * (sqrt (x ^ 2 + z ^ 2) * (sqrt (x ^ 2 + z ^ 2) * 1))) with (sqrt (x ^ 2 + z ^ 2) ^ 3) by ring. now apply pow_nonzero.
  - unfold minus, plus, opp. cbn. replace (0 * (0 * 1) + z * (z * 1)) with (z ^ 2) by ring. rewrite sqrt_pow2 by lra.
    replace (r * (r * 1) + z * (z * 1)) with (z ^ 2 + r ^ 2) by ring. replace (z * (z * 1) + r * (r * 1)) with (z ^ 2 + r ^ 2) by ring. 
    assert (Hs : sqrt (z ^ 2 + r ^ 2) <> 0) by (apply Rgt_not_eq, sqrt_lt_R0; rewrite Rplus_comm; apply Hp). field. repeat split; first [assumption|lra].
Qed.
Lemma cylinder_value rho h r : 0 <= h -> 0 < r -> cylinder_attraction rho h r = 2 * PI * (newton_G * rho) * (h + r - sqrt (h ^ 2 + r ^ 2)).
Proof.
  intros Hh Hr. unfold cylinder_attraction. apply is_RInt_unique.
  apply (is_RInt_ext (fun z => 2 * PI * (newton_G * rho) * (1 - z / sqrt (z ^ 2 + r ^ 2)))).
  { rewrite Rmin_left, Rmax_right by assumption. intros z [Hz _]. symmetry. apply is_RInt_unique. apply ring_integral. assumption. }
  assert (Hp : forall z, 0 < z ^ 2 + r ^ 2) by (intros z; pose proof (pow2_ge_0 z); pose proof (pow_lt r 2 Hr); lra).
  set (c := 2 * PI * (newton_G * rho)). clearbody c.
  evar_last.
  - apply (is_RInt_derive (fun z => c * (z - sqrt (z ^ 2 + r ^ 2)))).
    + intros z _. pose proof (Hp z) as H. assert (Hs : sqrt (z ^ 2 + r ^ 2) <> 0) by (apply Rgt_not_eq, sqrt_lt_R0; assumption).
      auto_derive; [replace (z * (z * 1) + r * (r * 1)) with (z ^ 2 + r ^ 2) by ring; repeat split; assumption|].
      replace (z * (z * 1) + r * (r * 1)) with (z ^ 2 + r ^ 2) by ring. field. assumption.
    + intros z _. apply (ex_derive_continuous (K := R_AbsRing) (V := R_NormedModule)). pose proof (Hp z) as H.
      assert (Hs : sqrt (z ^ 2 + r ^ 2) <> 0) by (apply Rgt_not_eq, sqrt_lt_R0; assumption).
      auto_derive. replace (z * (z * 1) + r * (r * 1)) with (z ^ 2 + r ^ 2) by ring. repeat split; assumption.
  - unfold minus, plus, opp. cbn. replace (0 * (0 * 1) + r * (r * 1)) with (r ^ 2) by ring. rewrite sqrt_pow2 by lra. ring.
Qed.
Theorem C46_infinite_slab topo dc dw i h : (i < length topo)%nat -> nth i topo NaN = Fin h -> 0 <= h ->
  exists g, nth i (bouguer_correction topo dc dw) NaN = Fin (mGal * g) /\ is_lim (fun r => cylinder_attraction dc h r) p_infty g.
Proof.
  intros Hi E Hh. exists (2 * PI * newton_G * dc * h). split; [now apply C46_plate_formula|].
  apply (is_lim_ext_loc (fun r => 2 * PI * (newton_G * dc) * (h - h ^ 2 / (sqrt (h ^ 2 + r ^ 2) + r)))).
  { exists 0. intros r Hr. rewrite cylinder_value by assumption. f_equal.
    assert (Hs : 0 < sqrt (h ^ 2 + r ^ 2)) by (apply sqrt_lt_R0; pose proof (pow2_ge_0 h); pose proof (pow_lt r 2 Hr); lra).
    assert (Hq : sqrt (h ^ 2 + r ^ 2) * sqrt (h ^ 2 + r ^ 2) = h ^ 2 + r ^ 2) by (apply sqrt_sqrt; pose proof (pow2_ge_0 h); pose proof (pow2_ge_0 r); lra).
    set (s := sqrt (h ^ 2 + r ^ 2)) in *. clearbody s. replace (h ^ 2) with ((s - r) * (s + r)) by (transitivity (s * s - r ^ 2); [ring|rewrite Hq; ring]). field. lra. }
  replace (2 * PI * newton_G * dc * h) with (2 * PI * (newton_G * dc) * (h - 0)) by ring.
  apply (is_lim_scal_l _ (2 * PI * (newton_G * dc)) p_infty (Finite (h - 0))).
  apply (is_lim_minus (fun _ => h) _ p_infty (Finite h) (Finite 0)); [apply is_lim_const| |reflexivity].
  apply (is_lim_le_le_loc (fun _ => 0) (fun r => h ^ 2 * / r)).
  - exists 0. intros r Hr. assert (Hs : 0 <= sqrt (h ^ 2 + r ^ 2)) by apply sqrt_pos. pose proof (pow2_ge_0 h). split.
    + apply Rmult_le_pos; [assumption|]. left. apply Rinv_0_lt_compat. lra.
    + apply Rmult_le_compat_l; [assumption|]. apply Rinv_le_contravar; lra.
  - apply is_lim_const.
  - replace (Finite 0) with (Rbar_mult (Finite (h ^ 2)) (Finite 0)) by (cbn; f_equal; ring).
    apply is_lim_scal_l. replace (Finite 0) with (Rbar_inv p_infty) by reflexivity. apply is_lim_inv; [apply is_lim_id|discriminate].
Qed.
Print Assumptions C46_infinite_slab.
Theorem C46_continuous_in_height dc dw h0 : continuous (fun h => match nth 0 (bouguer_correction [Fin h] dc dw) NaN with Fin b => b | NaN => 0 end) h0.
Proof.
  set (k := mGal * (2 * PI * newton_G)).
  apply (continuous_ext (fun h => k * ((2 * dc - dw) / 2 * h + dw / 2 * Rabs h))).
  { intros h. destruct (C46_plate_formula [Fin h] dc dw 0 h ltac:(cbn; lia) eq_refl) as [H1 H2].
    destruct (Rle_lt_dec 0 h) as [Hh|Hh]; [rewrite (H1 Hh), Rabs_pos_eq by assumption|rewrite (H2 Hh), Rabs_left by assumption]; unfold k; eqR; field. }
  apply (continuous_mult (fun _ => k)); [apply continuous_const|]. apply (continuous_plus (fun h => (2 * dc - dw) / 2 * h)).
  - apply (continuous_mult (fun _ => (2 * dc - dw) / 2)); [apply continuous_const|apply continuous_id].
  - apply (continuous_mult (fun _ => dw / 2)); [apply continuous_const|]. apply (continuous_comp (fun h => h) Rabs); [apply continuous_id|apply continuous_Rabs].
Qed.
Print Assumptions C46_continuous_in_height.
Example C46_example : nth 1 (bouguer_correction [NaN; Fin (-2)] 5 3) NaN = Fin (mGal * (2 * PI * newton_G * (3 - 5) * Rabs (-2))).
Proof. apply (C46_plate_formula [NaN; Fin (-2)] 5 3 1 (-2)); [cbn; lia|reflexivity|lra]. Qed.

(** C47. *)
Lemma fits_sized n v : fits n v -> sized n v.
Proof. unfold sized. destruct v; cbn; intros H s [= <-]; assumption. Qed.
Lemma elt_of_at v n i : (i < n)%nat -> at_ v n i = elt_of v n i.
Proof. intros H. destruct v; unfold at_, elts, elt_of; try reflexivity. rewrite (nth_indep _ 0 x) by (rewrite repeat_length; lia). apply nth_repeat. Qed.
Theorem C47_columns_balance basement layers dc dm h v n i depth : (i < n)%nat -> fits n basement -> fits n dc -> fits n dm -> fits n h ->
  Forall (fun td => fits n (fst td) /\ fits n (snd td)) (layer_list layers) ->
  elt_of dc n i <> 0 -> elt_of dm n i <> elt_of dc n i ->
  isostatic_moho_airy basement layers dc dm h = Ok v ->
  column_mass (map (fun td => (elt_of (fst td) n i, elt_of (snd td) n i)) (layer_list layers)) (elt_of basement n i) (elt_of dc n i) (elt_of v n i) (elt_of dm n i) depth
  = column_mass [] 0 (elt_of dc n i) (elt_of h n i) (elt_of dm n i) depth.
Proof.
  intros Hi Fb Fc Fm Fh Fl Hc Hm H.
  assert (F' : Forall (fun td : value * value => sized n (fst td) /\ sized n (snd td)) (match layers with None => [] | Some ls => ls end)).
  { eapply Forall_impl; [|exact Fl]. cbn. intros td [? ?]. split; now apply fits_sized. }
  pose proof (moho_value _ _ _ _ _ _ _ _ Hi (fits_sized _ _ Fb) (fits_sized _ _ Fc) (fits_sized _ _ Fm) (fits_sized _ _ Fh) F' H) as E.
  assert (SE : sum_over (match layers with None => [] | Some ls => ls end) (fun td => at_ (fst td) n i * at_ (snd td) n i)
             = sum_over (map (fun td => (elt_of (fst td) n i, elt_of (snd td) n i)) (layer_list layers)) (fun td => fst td * snd td)).
  { rewrite sum_over_map. apply sum_over_ext. intros td _. cbn [fst snd]. now rewrite !elt_of_at by assumption. }
  rewrite SE in E. rewrite !elt_of_at in E by assumption. unfold column_mass. rewrite E. change (sum_over [] (fun td : R * R => fst td * snd td)) with 0. set (q := sum_over _ _). clearbody q. field. split; [|lra] || split; first [lra|assumption].
Qed.
Print Assumptions C47_columns_balance.
Theorem C47_only_this_depth_balances (ls : list (R * R)) b dc dm H m m' depth : dc <> dm ->
  column_mass ls b dc m dm depth = column_mass [] 0 dc H dm depth -> column_mass ls b dc m' dm depth = column_mass [] 0 dc H dm depth -> m = m'.
Proof. unfold column_mass. intros N E1 E2. apply (Rmult_eq_reg_l (dc - dm)); lra. Qed.
Print Assumptions C47_only_this_depth_balances.
Theorem C47_never_fails_without_integer_arrays basement layers dc dm h :
  Forall (fun td => no_integer_array (fst td) /\ no_integer_array (snd td)) (layer_list layers) -> no_integer_array dc ->
  exists v, isostatic_moho_airy basement layers dc dm h = Ok v.
Proof.
  intros F Fc. unfold isostatic_moho_airy.
  assert (K : exists t, (match layers with None => Ok (Sc 0) | Some ls => do s <- for_ ls (fun td s => iadd s (binary Rmult (fst td) (snd td))) (Sc 0); itruediv s dc end) = Ok t).
  { destruct layers as [ls|]; [|now exists (Sc 0)]. cbn [layer_list] in F.
    assert (P : forall s0, no_integer_array s0 -> exists s, for_ ls (fun td s => iadd s (binary Rmult (fst td) (snd td))) s0 = Ok s /\ no_integer_array s).
    { induction ls as [|td ls IH]; intros s0 N0; cbn [for_]; [now exists s0|]. inversion F as [|? ? [F1 F2] F3]; subst.
      assert (Q : exists s1, iadd s0 (binary Rmult (fst td) (snd td)) = Ok s1 /\ no_integer_array s1).
      { destruct s0, (fst td), (snd td); try contradiction; cbn; eexists; split; try reflexivity; exact I. }
      destruct Q as (s1 & -> & N1). cbn [bind]. apply IH; assumption. }
    destruct (P (Sc 0) I) as (s & -> & N). cbn [bind]. destruct s; try contradiction; eexists; reflexivity. }
  destruct K as (t & ->). cbn [bind]. eexists. reflexivity.
Qed.
Print Assumptions C47_never_fails_without_integer_arrays.
(** Integer arrays of thicknesses (and integer densities) are not accepted: the in place division fails. *)
Theorem C47_integer_arrays_refuted : exists basement thickness density dc dm h, isostatic_moho_airy basement (Some [(IntArr thickness, Sc density)]) (Sc dc) (Sc dm) (Sc h) = Raise TypeError /\ dc <> 0 /\ dm <> dc.
Proof. exists (Sc 0), [200], 2300, 2800, 3300, 30000. split; [reflexivity|]. split; apply Rgt_not_eq; lra. Qed.
Print Assumptions C47_integer_arrays_refuted.
(** The order of the layers matters: a layer of integers before one of floats fails, after it not. *)
Theorem C47_layer_order_refuted : forall b (t1 t2 : list R) r1 r2 dc dm h, length t1 = length t2 ->
  isostatic_moho_airy (Sc b) (Some [(IntArr t1, Sc r1); (FloatArr t2, Sc r2)]) (Sc dc) (Sc dm) (Sc h) = Raise TypeError /\
  exists depth, isostatic_moho_airy (Sc b) (Some [(FloatArr t2, Sc r2); (IntArr t1, Sc r1)]) (Sc dc) (Sc dm) (Sc h) = Ok (FloatArr depth) /\ length depth = length t1.
Proof.
  intros. split; [reflexivity|]. eexists. split; [reflexivity|]. rewrite ?map_length. unfold zip_with. rewrite ?map_length, ?combine_length, ?map_length. lia.
Qed.
Print Assumptions C47_layer_order_refuted.
Example C47_example : isostatic_moho_airy (Sc 1200) (Some [(Sc 200, Sc 2300)]) (Sc 2800) (Sc 3300) (Sc 30000) = Ok (Sc 37640).
Proof. cbn. do 2 f_equal. field. Qed.
