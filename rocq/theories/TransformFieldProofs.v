(** Filters applied to grids that sample band limited harmonic fields. *)
From Coquelicot Require Import Coquelicot.
From Verif Require Import Base BaseFacts NumPy NumPyFacts PointGravityProofs UtilsModel UtilsSpec UtilsProofs TransformModel TransformSpec FourierProofs TransformProofs.
Local Open Scope string_scope. Local Open Scope list_scope. Local Open Scope R_scope.
Local Notation C := Complex.C.

(** ** Indices of whole numbers of periods *)
Definition index (n : nat) (p : Z) : nat := Z.to_nat (p + Z.of_nat (n / 2)).
Lemma half_bounds n : (2 * (n / 2) <= n < 2 * (n / 2) + 2)%nat.
Proof. pose proof (Nat.div_mod n 2 ltac:(lia)). pose proof (Nat.mod_upper_bound n 2 ltac:(lia)). lia. Qed.
Lemma index_lt n p : (2 * Z.abs p < Z.of_nat n)%Z -> (index n p < n)%nat.
Proof. intros H. unfold index. pose proof (half_bounds n). lia. Qed.
Lemma index_freq a p : (2 * Z.abs p < Z.of_nat (a_n a))%Z -> freq a (index (a_n a) p) = IZR p / (INR (a_n a) * a_d a).
Proof.
  intros H. unfold freq, index. f_equal. pose proof (half_bounds (a_n a)). rewrite !INR_IZR_INZ, Z2Nat.id by lia. rewrite plus_IZR. ring.
Qed.
Lemma index_opposite a p : good a -> (2 * Z.abs p < Z.of_nat (a_n a))%Z -> freq a (opposite (a_n a) (index (a_n a) p)) = - freq a (index (a_n a) p).
Proof.
  intros G H. apply freq_opposite; [assumption|now apply index_lt|]. intros E Z0. apply Nat.even_spec in E. destruct E as [m E]. unfold index in Z0.
  assert (Q : (a_n a / 2 = m)%nat) by (rewrite E, Nat.mul_comm; apply Nat.div_mul; lia). rewrite Q in Z0. lia.
Qed.

(** ** Linearity *)
Lemma out_congr ay ax w w' H i j : (forall i j, (i < a_n ay)%nat -> (j < a_n ax)%nat -> w i j = w' i j) -> out ay ax w H i j = out ay ax w' H i j.
Proof. intros E. apply ifft_ext. intros k l _ _. f_equal. apply fft2_ext. intros i0 j0 Hi Hj. now rewrite E. Qed.
Lemma out_add ay ax v w H i j : out ay ax (fun i j => v i j + w i j) H i j = Cplus (out ay ax v H i j) (out ay ax w H i j).
Proof.
  unfold out. rewrite <- ifft_plus. apply ifft_ext. intros k l _ _. rewrite <- Cmult_plus_distr_r, <- fft2_plus. f_equal. apply fft2_ext. intros i0 j0 _ _. apply RtoC_plus.
Qed.
Lemma out_zero ay ax H i j : out ay ax (fun _ _ => 0) H i j = RtoC 0.
Proof.
  unfold out. rewrite (ifft_ext ay ax _ (fun _ _ => Cmult (RtoC 0) (RtoC 0))).
  - rewrite ifft_scal. ring.
  - intros k l _ _. unfold fft2, dft. rewrite csum_zero; [ring|]. intros i0 _. rewrite csum_zero; [ring|]. intros; ring.
Qed.
Lemma Re_plus a b : Re (Cplus a b) = Re a + Re b.
Proof. reflexivity. Qed.
Lemma out_sum {A} ay ax (ws : list A) (f : A -> nat -> nat -> R) H i j : Re (out ay ax (fun i j => sum_over ws (fun w => f w i j)) H i j) = sum_over ws (fun w => Re (out ay ax (f w) H i j)).
Proof.
  induction ws as [|w ws IH].
  - change (sum_over [] (fun w : A => Re (out ay ax (f w) H i j))) with 0. rewrite (out_congr _ _ _ (fun _ _ => 0)) by reflexivity. rewrite out_zero. reflexivity.
  - rewrite sum_over_cons, <- IH, <- Re_plus, <- out_add. f_equal.
Qed.

(** ** Waves *)
(** Complex amplitude c of Re (c cis theta) = w_cos cos theta + w_sin sin theta. *)
Definition amp (w : plane_wave) : C := (w_cos w, - w_sin w).
Lemma wave_value_re n m dy dx w y x u :
  let kn := wavenumber n dy (w_p w) in let ke := wavenumber m dx (w_q w) in
  wave_value n m dy dx w y x u = Re (Cmult (amp w) (cis (kn * y + ke * x))) * exp (- sqrt (ke ^ 2 + kn ^ 2) * u).
Proof. cbv zeta. unfold wave_value, amp, cis. cbn. f_equal. ring. Qed.
(** What a filter does to a sampled field. *)
Definition filtered_value (n m : nat) (dy dx : R) (H : response) (ws : list plane_wave) (y x : R) : R :=
  sum_over ws (fun w => let kn := wavenumber n dy (w_p w) in let ke := wavenumber m dx (w_q w) in
    Re (Cmult (Cmult (amp w) (some_c (H (kn / (2 * PI)) (ke / (2 * PI))))) (cis (kn * y + ke * x)))).
Lemma waves_out g y0 dy x0 dx ws H i j : regular g y0 dy x0 dx -> hermitian H -> Forall (resolved (ny g) (nx g)) ws ->
  samples g (field_value (ny g) (nx g) dy dx ws) -> inside g i j ->
  Re (out (reg_axis y0 dy (ny g)) (reg_axis x0 dx (nx g)) (val g) H i j) = filtered_value (ny g) (nx g) dy dx H ws (nth i (g_y g) 0) (nth j (g_x g) 0).
Proof.
  intros [Rd Ry Rx Dy Dx Ny Nx Rv] HH RW S [Hi Hj].
  set (ay := reg_axis y0 dy (ny g)). set (ax := reg_axis x0 dx (nx g)).
  assert (Gy : good ay) by (apply reg_good; assumption). assert (Gx : good ax) by (apply reg_good; assumption).
  rewrite (out_congr _ _ _ (fun i j => sum_over ws (fun w => Re (Cmult (amp w) (Cmult (wave ay (index (ny g) (w_p w)) i) (wave ax (index (nx g) (w_q w)) j)))))).
  - rewrite out_sum. unfold filtered_value. apply sum_over_ext. intros w Hw. rewrite Forall_forall in RW. destruct (RW w Hw) as [R1 R2].
    unfold out. rewrite (filtered_real_wave ay ax (amp w) (index (ny g) (w_p w)) (index (nx g) (w_q w)) (fun k l => some_c (H (freq ay k) (freq ax l)))); try assumption.
    + cbv zeta. f_equal. f_equal; [f_equal|].
      * f_equal. f_equal; (rewrite index_freq by assumption; unfold wavenumber; pose proof PI_RGT_0; assert (INR (ny g) <> 0) by (apply not_0_INR; lia); assert (INR (nx g) <> 0) by (apply not_0_INR; lia); cbn [a_n a_d reg_axis ay ax]; field; repeat split; lra || assumption).
      * unfold wave. rewrite <- cis_add. f_equal. rewrite !index_freq by assumption. rewrite Ry, Rx, !nth_even by assumption. unfold ay, ax. rewrite !reg_position. cbn [a_n a_d reg_axis]. unfold wavenumber.
        assert (INR (ny g) <> 0) by (apply not_0_INR; lia). assert (INR (nx g) <> 0) by (apply not_0_INR; lia). field. repeat split; lra || assumption.
    + now apply (index_lt (ny g)).
    + now apply (index_lt (nx g)).
    + now apply index_opposite.
    + now apply index_opposite.
    + change (ny g) with (a_n ay). change (nx g) with (a_n ax). rewrite !index_opposite by assumption. apply HH.
  - cbn [a_n reg_axis]. intros i' j' Hi' Hj'. rewrite S by (split; assumption). unfold field_value. apply sum_over_ext. intros w Hw.
    rewrite Forall_forall in RW. destruct (RW w Hw) as [R1 R2]. rewrite wave_value_re. rewrite Rmult_0_r, exp_0, Rmult_1_r. f_equal. f_equal. unfold wave. rewrite <- cis_add. f_equal.
    change (ny g) with (a_n ay). change (nx g) with (a_n ax). rewrite !index_freq by assumption. rewrite Ry, Rx, !nth_even by assumption. unfold ay, ax. rewrite !reg_position. cbn [a_n a_d reg_axis]. unfold wavenumber.
    assert (INR (ny g) <> 0) by (apply not_0_INR; lia). assert (INR (nx g) <> 0) by (apply not_0_INR; lia). field. repeat split; lra || assumption.
Qed.

(** ** Derivatives of the fields *)
Lemma Derive_n_family (F : nat -> R -> R) : (forall m x, is_derive (F m) x (F (S m) x)) -> forall m x, Derive_n (F 0%nat) m x = F m x.
Proof.
  intros H m. induction m as [|m IH]; intros x; [reflexivity|]. cbn [Derive_n]. rewrite (Derive_ext _ (F m)) by apply IH. apply is_derive_unique, H.
Qed.
Lemma k_of_div k : k_of (k / (2 * PI)) = k.
Proof. unfold k_of. field. pose proof PI_RGT_0. lra. Qed.
Lemma Re_scal z r : Re (Cmult z (RtoC r)) = Re z * r.
Proof. destruct z. cbn. ring. Qed.
Lemma upward_value n m dy dx ws order y x :
  filtered_value n m dy dx (derivative_upward_kernel order) ws y x = Derive_n (fun u => field_value n m dy dx ws y x u) order 0.
Proof.
  set (F := fun (o : nat) u => sum_over ws (fun w => let kn := wavenumber n dy (w_p w) in let ke := wavenumber m dx (w_q w) in
     Re (Cmult (amp w) (cis (kn * y + ke * x))) * ((- sqrt (ke ^ 2 + kn ^ 2)) ^ o * exp (- sqrt (ke ^ 2 + kn ^ 2) * u)))).
  rewrite (Derive_n_ext _ (F 0%nat)).
  - rewrite (Derive_n_family F).
    + unfold filtered_value, F. apply sum_over_ext. intros w _. cbv zeta. unfold derivative_upward_kernel. rewrite !k_of_div. cbn [some_c].
      rewrite Rmult_0_r, exp_0, Rmult_1_r. rewrite <- Re_scal. f_equal. ring.
    + intros o u. unfold F. apply (is_derive_sum ws (fun u w => _)). intros w _. cbv zeta. set (c := Re _). set (k := - sqrt _). clearbody c k. auto_derive; [exact I|]. cbn [pow]. ring.
  - intros u. unfold F, field_value. apply sum_over_ext. intros w _. cbv zeta. rewrite wave_value_re. cbn [pow]. ring.
Qed.
Lemma Re_cis_derive c k t x : is_derive (fun x => Re (Cmult c (cis (t + k * x)))) x (Re (Cmult (Cmult c (Cmult (RtoC k) Ci)) (cis (t + k * x)))).
Proof. destruct c as [a b]. unfold cis. cbn. auto_derive; [exact I|]. ring. Qed.
Lemma Re_cis_derive' c k t x : is_derive (fun x => Re (Cmult c (cis (k * x + t)))) x (Re (Cmult (Cmult c (Cmult (RtoC k) Ci)) (cis (k * x + t)))).
Proof. destruct c as [a b]. unfold cis. cbn. auto_derive; [exact I|]. ring. Qed.
Lemma easting_value n m dy dx ws order y x :
  filtered_value n m dy dx (derivative_easting_kernel order) ws y x = Derive_n (fun e => field_value n m dy dx ws y e 0) order x.
Proof.
  set (F := fun (o : nat) e => sum_over ws (fun w => let kn := wavenumber n dy (w_p w) in let ke := wavenumber m dx (w_q w) in
     Re (Cmult (Cmult (amp w) (cpow (Cmult (RtoC ke) Ci) o)) (cis (kn * y + ke * e))))).
  rewrite (Derive_n_ext _ (F 0%nat)).
  - rewrite (Derive_n_family F).
    + unfold filtered_value, F. apply sum_over_ext. intros w _. cbv zeta. unfold derivative_easting_kernel. rewrite !k_of_div. reflexivity.
    + intros o e. unfold F. apply (is_derive_sum ws (fun e w => _)). intros w _. cbv zeta. evar_last; [apply Re_cis_derive|]. cbn [cpow]. f_equal. ring.
  - intros e. unfold F, field_value. apply sum_over_ext. intros w _. cbv zeta. rewrite wave_value_re. rewrite Rmult_0_r, exp_0, Rmult_1_r. cbn [cpow]. f_equal. ring.
Qed.
Lemma northing_value n m dy dx ws order y x :
  filtered_value n m dy dx (derivative_northing_kernel order) ws y x = Derive_n (fun v => field_value n m dy dx ws v x 0) order y.
Proof.
  set (F := fun (o : nat) e => sum_over ws (fun w => let kn := wavenumber n dy (w_p w) in let ke := wavenumber m dx (w_q w) in
     Re (Cmult (Cmult (amp w) (cpow (Cmult (RtoC kn) Ci) o)) (cis (kn * e + ke * x))))).
  rewrite (Derive_n_ext _ (F 0%nat)).
  - rewrite (Derive_n_family F).
    + unfold filtered_value, F. apply sum_over_ext. intros w _. cbv zeta. unfold derivative_northing_kernel. rewrite !k_of_div. reflexivity.
    + intros o e. unfold F. apply (is_derive_sum ws (fun e w => _)). intros w _. cbv zeta. evar_last; [apply Re_cis_derive'|]. cbn [cpow]. f_equal. ring.
  - intros e. unfold F, field_value. apply sum_over_ext. intros w _. cbv zeta. rewrite wave_value_re. rewrite Rmult_0_r, exp_0, Rmult_1_r. cbn [cpow]. f_equal. ring.
Qed.
Lemma continuation_value n m dy dx ws h y x : filtered_value n m dy dx (upward_continuation_kernel h) ws y x = field_value n m dy dx ws y x h.
Proof.
  unfold filtered_value, field_value. apply sum_over_ext. intros w _. cbv zeta. rewrite wave_value_re. unfold upward_continuation_kernel. rewrite !k_of_div. cbn [some_c].
  rewrite <- Re_scal. f_equal. ring.
Qed.

(** ** Reduction to the pole *)
Definition wavec (kn ke : R) (c : C) (y x u : R) : R := Re (Cmult c (cis (kn * y + ke * x))) * exp (- sqrt (ke ^ 2 + kn ^ 2) * u).
Definition dirfac (kn ke : R) (d : vec3) : C := (- vz d * sqrt (ke ^ 2 + kn ^ 2), vx d * ke + vy d * kn).
Definition wavesum (n m : nat) (dy dx : R) (ws : list plane_wave) (f : R -> R -> C) (y x u : R) : R :=
  sum_over ws (fun w => wavec (wavenumber n dy (w_p w)) (wavenumber m dx (w_q w)) (Cmult (amp w) (f (wavenumber n dy (w_p w)) (wavenumber m dx (w_q w)))) y x u).
Lemma along_wavesum n m dy dx ws f d y x u : along d (wavesum n m dy dx ws f) y x u = wavesum n m dy dx ws (fun kn ke => Cmult (f kn ke) (dirfac kn ke d)) y x u.
Proof.
  unfold along.
  assert (De : is_derive (fun e : R => wavesum n m dy dx ws f y e u) x (sum_over ws (fun w => let kn := wavenumber n dy (w_p w) in let ke := wavenumber m dx (w_q w) in
     Re (Cmult (Cmult (Cmult (amp w) (f kn ke)) (Cmult (RtoC ke) Ci)) (cis (kn * y + ke * x))) * exp (- sqrt (ke ^ 2 + kn ^ 2) * u)))).
  { unfold wavesum. apply (is_derive_sum ws (fun e w => _)). intros w _. cbv zeta. unfold wavec. set (E := exp _). clearbody E.
    evar_last; [apply (is_derive_ext (fun e => E * Re (Cmult (Cmult (amp w) (f (wavenumber n dy (w_p w)) (wavenumber m dx (w_q w)))) (cis (wavenumber n dy (w_p w) * y + wavenumber m dx (w_q w) * e))))); [intros; eqR; ring|]; apply is_derive_scal; apply Re_cis_derive|]. apply Rmult_comm. }
  assert (Dn : is_derive (fun v : R => wavesum n m dy dx ws f v x u) y (sum_over ws (fun w => let kn := wavenumber n dy (w_p w) in let ke := wavenumber m dx (w_q w) in
     Re (Cmult (Cmult (Cmult (amp w) (f kn ke)) (Cmult (RtoC kn) Ci)) (cis (kn * y + ke * x))) * exp (- sqrt (ke ^ 2 + kn ^ 2) * u)))).
  { unfold wavesum. apply (is_derive_sum ws (fun e w => _)). intros w _. cbv zeta. unfold wavec. set (E := exp _). clearbody E.
    evar_last; [apply (is_derive_ext (fun v => E * Re (Cmult (Cmult (amp w) (f (wavenumber n dy (w_p w)) (wavenumber m dx (w_q w)))) (cis (wavenumber n dy (w_p w) * v + wavenumber m dx (w_q w) * x))))); [intros; eqR; ring|]; apply is_derive_scal; apply Re_cis_derive'|]. apply Rmult_comm. }
  assert (Du : is_derive (fun h : R => wavesum n m dy dx ws f y x h) u (sum_over ws (fun w => let kn := wavenumber n dy (w_p w) in let ke := wavenumber m dx (w_q w) in
     Re (Cmult (Cmult (amp w) (f kn ke)) (cis (kn * y + ke * x))) * (- sqrt (ke ^ 2 + kn ^ 2) * exp (- sqrt (ke ^ 2 + kn ^ 2) * u))))).
  { unfold wavesum. apply (is_derive_sum ws (fun h w => _)). intros w _. cbv zeta. unfold wavec. set (c := Re _). set (k := - sqrt _). clearbody c k. auto_derive; [exact I|]. ring. }
  rewrite (is_derive_unique _ _ _ De), (is_derive_unique _ _ _ Dn), (is_derive_unique _ _ _ Du).
  rewrite <- !sum_over_scal, <- !sum_over_plus. unfold wavesum. apply sum_over_ext. intros w _. cbv zeta. unfold wavec, dirfac.
  set (kn := wavenumber n dy (w_p w)). set (ke := wavenumber m dx (w_q w)). set (E := exp _). set (k := sqrt _). destruct (f kn ke) as [a b]. destruct (amp w) as [a' b']. unfold cis. cbn. ring.
Qed.
Lemma along_ext d F G y x u : (forall y x u, F y x u = G y x u) -> along d F y x u = along d G y x u.
Proof. intros E. unfold along. f_equal; [f_equal|]; f_equal; apply Derive_ext; intros; apply E. Qed.
Lemma field_wavesum n m dy dx ws y x u : field_value n m dy dx ws y x u = wavesum n m dy dx ws (fun _ _ => RtoC 1) y x u.
Proof. unfold field_value, wavesum. apply sum_over_ext. intros w _. rewrite wave_value_re. unfold wavec. f_equal. f_equal. ring. Qed.
Lemma along2_wavesum n m dy dx ws d1 d2 y x u :
  along d1 (along d2 (field_value n m dy dx ws)) y x u = wavesum n m dy dx ws (fun kn ke => Cmult (dirfac kn ke d2) (dirfac kn ke d1)) y x u.
Proof.
  rewrite (along_ext _ _ (wavesum n m dy dx ws (fun kn ke => Cmult (RtoC 1) (dirfac kn ke d2)))).
  - rewrite along_wavesum. unfold wavesum. apply sum_over_ext. intros w _. f_equal. ring.
  - intros y' x' u'. rewrite <- along_wavesum. apply along_ext. intros. apply field_wavesum.
Qed.
(** Waves with other amplitudes. *)
Definition reamp (n m : nat) (dy dx : R) (f : R -> R -> C) (w : plane_wave) : plane_wave :=
  let z := Cmult (amp w) (f (wavenumber n dy (w_p w)) (wavenumber m dx (w_q w))) in Wave (w_p w) (w_q w) (Re z) (- Im z).
Lemma wavesum_field n m dy dx ws f y x u : wavesum n m dy dx ws f y x u = field_value n m dy dx (map (reamp n m dy dx f) ws) y x u.
Proof.
  unfold wavesum, field_value. rewrite sum_over_map. apply sum_over_ext. intros w _. rewrite wave_value_re. unfold reamp. cbn [w_p w_q]. unfold wavec. f_equal. f_equal. f_equal.
  unfold amp at 2. cbn [w_cos w_sin]. rewrite Ropp_involutive. destruct (Cmult _ _); reflexivity.
Qed.
Lemma cinv_spec z : Re z <> 0 -> cinv z = Some (Cinv z).
Proof. intros H. unfold cinv. destruct (Req_EM_T (Re z) 0); [contradiction|reflexivity]. Qed.
Definition sin_inc (i : R) : R := sin (radians i).
Lemma rtp_total i d mi md H : sin_inc i <> 0 -> sin_inc mi <> 0 -> reduction_to_pole_kernel i d (Some mi) (Some md) = Ok H ->
  forall a b, H a b = Some (if (Reqb a 0 && Reqb b 0)%bool then RtoC 0 else
    Cmult (RtoC (k_of b ^ 2 + k_of a ^ 2)) (Cmult (Cinv (dirfac (k_of a) (k_of b) (direction i d))) (Cinv (dirfac (k_of a) (k_of b) (direction mi md))))).
Proof.
  intros Hi Hm E. unfold reduction_to_pole_kernel in E. apply ok_inj in E. subst H. intros a b. cbv beta zeta. unfold magnetic_angles_to_vec.
  destruct (Reqb_spec a 0) as [Ea|Ea]; destruct (Reqb_spec b 0) as [Eb|Eb]; cbn [andb]; try reflexivity.
  all: assert (K : 0 < sqrt (k_of a ^ 2 + k_of b ^ 2)) by (apply sqrt_lt_R0; unfold k_of; pose proof PI_RGT_0; pose proof (pow2_ge_0 (2 * PI * a)); pose proof (pow2_ge_0 (2 * PI * b));
     first [assert (0 < (2 * PI * a) ^ 2) by (apply pow2_gt_0; apply Rmult_integral_contrapositive; split; [lra|assumption]); lra
           |assert (0 < (2 * PI * b) ^ 2) by (apply pow2_gt_0; apply Rmult_integral_contrapositive; split; [lra|assumption]); lra]).
  all: rewrite !cinv_spec by (unfold Re, sin_inc in *; cbn [fst]; intros Z; apply Rmult_integral in Z; destruct Z as [Z|Z]; lra).
  all: cbn [omul]; f_equal; rewrite <- Cmult_assoc; f_equal; [f_equal; ring|].
  all: f_equal; f_equal; unfold dirfac, direction; cbn [vx vy vz]; rewrite (Rplus_comm (k_of b ^ 2)); f_equal; ring.
Qed.
Definition down : vec3 := V3 0 0 (-1).
Lemma dirfac_down kn ke : dirfac kn ke down = RtoC (sqrt (ke ^ 2 + kn ^ 2)).
Proof. unfold dirfac, down, RtoC. cbn. f_equal; ring. Qed.
Lemma dirfac_zero d : dirfac 0 0 d = RtoC 0.
Proof. unfold dirfac, RtoC. replace (0 ^ 2 + 0 ^ 2) with 0 by ring. rewrite sqrt_0. f_equal; ring. Qed.
Lemma rtp_value n m dy dx ws i d mi md H y x : sin_inc i <> 0 -> sin_inc mi <> 0 -> reduction_to_pole_kernel i d (Some mi) (Some md) = Ok H ->
  filtered_value n m dy dx H (map (reamp n m dy dx (fun kn ke => Cmult (dirfac kn ke (direction i d)) (dirfac kn ke (direction mi md)))) ws) y x
  = wavesum n m dy dx ws (fun kn ke => Cmult (dirfac kn ke down) (dirfac kn ke down)) y x 0.
Proof.
  intros Hi Hm E. pose proof (rtp_total i d mi md H Hi Hm E) as T. unfold filtered_value, wavesum. rewrite sum_over_map. apply sum_over_ext. intros w _. cbv zeta.
  change (w_p (reamp n m dy dx _ w)) with (w_p w). change (w_q (reamp n m dy dx _ w)) with (w_q w).
  set (kn := wavenumber n dy (w_p w)). set (ke := wavenumber m dx (w_q w)). unfold wavec. rewrite Rmult_0_r, exp_0, Rmult_1_r. f_equal. f_equal.
  assert (A : amp (reamp n m dy dx (fun kn ke => Cmult (dirfac kn ke (direction i d)) (dirfac kn ke (direction mi md))) w) = Cmult (amp w) (Cmult (dirfac kn ke (direction i d)) (dirfac kn ke (direction mi md)))).
  { unfold reamp, amp at 1. cbn [w_cos w_sin]. rewrite Ropp_involutive. fold kn ke. destruct (Cmult _ _); reflexivity. }
  rewrite A, T. cbn [some_c]. rewrite !k_of_div. clearbody kn ke. rewrite <- Cmult_assoc. f_equal. rewrite dirfac_down.
  pose proof PI_RGT_0 as HP.
  assert (P : kn = 0 /\ ke = 0 \/ 0 < ke ^ 2 + kn ^ 2).
  { destruct (Req_dec kn 0) as [->|N]; [destruct (Req_dec ke 0) as [->|N]; [left; auto|right]|right].
    - pose proof (pow2_gt_0 ke N). lra.
    - pose proof (pow2_gt_0 kn N). pose proof (pow2_ge_0 ke). lra. }
  destruct P as [[-> ->]|P].
  - rewrite !dirfac_zero. replace (0 ^ 2 + 0 ^ 2) with 0 by ring. rewrite sqrt_0. ring.
  - assert (K : 0 < sqrt (ke ^ 2 + kn ^ 2)) by now apply sqrt_lt_R0.
    assert (NZ : (Reqb (kn / (2 * PI)) 0 && Reqb (ke / (2 * PI)) 0)%bool = false).
    { destruct (Reqb_spec (kn / (2 * PI)) 0) as [Z1|]; [|reflexivity]. destruct (Reqb_spec (ke / (2 * PI)) 0) as [Z2|]; [|reflexivity]. exfalso.
      assert (kn = 0) by (replace kn with (kn / (2 * PI) * (2 * PI)) by (field; lra); rewrite Z1; ring). assert (ke = 0) by (replace ke with (ke / (2 * PI) * (2 * PI)) by (field; lra); rewrite Z2; ring). subst. replace (0 ^ 2 + 0 ^ 2) with 0 in P by ring. lra. }
    rewrite NZ.
    assert (D : forall j e, sin_inc j <> 0 -> dirfac kn ke (direction j e) <> RtoC 0).
    { intros j e Hj Z. apply (f_equal Re) in Z. cbn in Z. unfold sin_inc in Hj. rewrite Ropp_involutive in Z. apply Rmult_integral in Z. destruct Z as [Z|Z]; [contradiction|]. cbn in *. lra. }
    pose proof (D i d Hi) as D1. pose proof (D mi md Hm) as D2.
    replace (RtoC (ke ^ 2 + kn ^ 2)) with (Cmult (RtoC (sqrt (ke ^ 2 + kn ^ 2))) (RtoC (sqrt (ke ^ 2 + kn ^ 2)))) by (rewrite <- RtoC_mult, sqrt_sqrt by lra; reflexivity).
    set (z1 := dirfac kn ke (direction i d)) in *. set (z2 := dirfac kn ke (direction mi md)) in *. clearbody z1 z2. field. split; assumption.
Qed.
