(** Claim C115: upward continuation and low-pass filtering average the values of a grid. *)
From Coquelicot Require Import Coquelicot.
From Verif Require Import Base BaseFacts NumPy UtilsModel UtilsSpec TransformModel TransformSpec FourierProofs TransformProofs TransformFieldProofs TransformProps TransformGridProps TransformSymmetryProofs TransformSymmetryProps TransformLevelProofs TransformLevelProps TransformNoiseProofs TransformNoiseProps TransformRangeSpec TransformRangeProofs.
Local Open Scope string_scope. Local Open Scope list_scope. Local Open Scope R_scope.
Local Notation C := Complex.C.

Lemma continuation_line a h j j' : good a -> 0 < a_d a -> 0 < h -> (j < a_n a)%nat -> (j' < a_n a)%nat ->
  0 <= line_weights a (fun l => exp (- (Rabs (k_of (freq a l)) * h))) j j'.
Proof.
  intros G Hd Hh Hj Hj'. pose proof (INR_n_neq a G) as N0. pose proof PI_RGT_0 as HP. assert (N1 : 0 < INR (a_n a)) by (apply lt_0_INR; destruct G; assumption).
  unfold line_weights. apply Rmult_le_pos; [left; now apply Rinv_0_lt_compat|]. set (n := a_n a) in *.
  set (s := 2 * PI * h / (INR n * a_d a)). set (q := exp (- s)). set (theta := 2 * PI * (INR j - INR j') / INR n).
  assert (S0 : 0 < s) by (unfold s; apply Rdiv_lt_0_compat; [nra|now apply Rmult_lt_0_compat]).
  assert (Q : 0 < q < 1) by (split; [apply exp_pos|unfold q; rewrite <- exp_0; apply exp_increasing; lra]).
  assert (QP : forall m, exp (- (INR m * s)) = q ^ m).
  { induction m as [|m IH]; [cbn [INR pow]; rewrite Rmult_0_l, Ropp_0; apply exp_0|]. rewrite S_INR. replace (- ((INR m + 1) * s)) with (- s + - (INR m * s)) by ring. rewrite exp_plus, IH. reflexivity. }
  pose proof (profile_pos q theta Q n (Z.of_nat j - Z.of_nat j') ltac:(lia)) as P. rewrite minus_IZR, <- !INR_IZR_INZ in P. specialize (P ltac:(unfold theta; field; assumption)).
  erewrite sum_over_ext; [exact P|]. intros l Hl. apply in_range0 in Hl.
  assert (F : k_of (freq a l) = (INR l - INR (n / 2)) * (2 * PI / (INR n * a_d a))) by (unfold k_of, freq; fold n; field; split; lra).
  assert (A : 2 * PI * (freq a l * (position a j - position a j')) = (INR l - INR (n / 2)) * theta) by (unfold freq, position, theta; fold n; field; split; lra).
  assert (U : 0 < 2 * PI / (INR n * a_d a)) by (apply Rdiv_lt_0_compat; [lra|now apply Rmult_lt_0_compat]).
  rewrite F, A, Rabs_mult, (Rabs_pos_eq (2 * PI / _)) by lra. destruct (Nat.ltb_spec l (n / 2)) as [L|L].
  - rewrite <- QP. rewrite <- (cos_neg (_ * theta)). rewrite minus_INR by lia. f_equal; f_equal; [|ring]. apply lt_INR in L. rewrite Rabs_left by lra. unfold s. field. split; lra.
  - rewrite <- QP. rewrite minus_INR by lia. f_equal; f_equal. apply le_INR in L. rewrite Rabs_pos_eq by lra. unfold s. field. split; lra.
Qed.

Section Props.
Variable even_fft even_pad : list R -> bool.
Variable border : string -> option R -> nat -> nat -> (nat -> nat -> R) -> nat -> nat -> R.
Notation apply := (apply_filter even_fft even_pad border).
Notation upward := (upward_continuation even_fft even_pad border).
Notation lowpass := (gaussian_lowpass even_fft even_pad border).

(** The filtered values, with or without padding: every value that enters is a value of the grid. *)
Lemma smoothing_inv (K : response) (kappa : R -> R -> R) g pad kw drop o kw' : (forall a b, K a b = Some (RtoC (kappa a b))) -> edge_padding pad kw -> apply g (Ok K) pad kw drop = Ok (o, kw') ->
  exists ay ax v oy ox cy cx, good ay /\ good ax /\ 0 < a_d ay /\ 0 < a_d ax /\ ny o = ny g /\ nx o = nx g /\ (oy + ny g <= a_n ay)%nat /\ (ox + nx g <= a_n ax)%nat /\
    (pad = false -> a_n ay = ny g /\ a_n ax = nx g /\ a_d ay = step_y g /\ a_d ax = step_x g) /\
    (forall a b, (a < a_n ay)%nat -> (b < a_n ax)%nat -> inside g (cy a) (cx b) /\ v a b = val g (cy a) (cx b)) /\
    (forall i j, inside o i j -> val o i j = Re (ifft ay ax (fun k l => Cmult (fft ay ax v k l) (RtoC (kappa (freq ay k) (freq ax l)))) (oy + i) (ox + j))).
Proof.
  intros HK P E. assert (TK : total K) by (intros a b; rewrite HK; discriminate).
  assert (IE : forall ay ax v i j, ifft ay ax (fun k l => Cmult (fft ay ax v k l) (some_c (K (freq ay k) (freq ax l)))) i j = ifft ay ax (fun k l => Cmult (fft ay ax v k l) (RtoC (kappa (freq ay k) (freq ax l)))) i j)
    by (intros; apply ifft_ext; intros; now rewrite HK).
  unfold apply_filter in E. destruct (grid_sanity_checks g) as [[]|] eqn:S1; [|discriminate]. cbn [bind] in E. destruct pad.
  - assert (M : match kw_mode (match kw with None => empty_kw | Some k => k end) with Some m => m | None => "edge" end = "edge").
    { destruct P as [P | [-> | (k & -> & [-> | ->])]]; [discriminate| | |]; reflexivity. }
    rewrite M in E. clear M. destruct (match kw_width _ with Some w => w | None => _ end) as [wy wx].
    set (const := match kw_const _ with Some c => c | None => None end) in *.
    destruct (pad_axis even_pad wy (g_y g)) as [py|] eqn:Py; [|discriminate]. cbn [bind] in *.
    destruct (pad_axis even_pad wx (g_x g)) as [px|] eqn:Px; [|discriminate]. cbn [bind] in *.
    apply pad_axis_length in Py, Px. destruct Py as [Ly Py], Px as [Lx Px]. fold (ny g) in Ly, Py. fold (nx g) in Lx, Px.
    unfold filter_values in E. destruct (axis_of even_fft py) as [ay|] eqn:Ay; [|discriminate]. cbn [bind] in E.
    destruct (axis_of even_fft px) as [ax|] eqn:Ax; [|discriminate]. cbn [bind] in E.
    apply axis_of_step in Ay, Ax. destruct Ay as (Gy & Ny & Sy & Dy), Ax as (Gx & Nx & Sx & Dx). rewrite (total_finite ay ax K TK) in E. cbn [bind] in E. apply ok_inj in E.
    assert (Eo : o = fst (o, kw')) by reflexivity. rewrite <- E in Eo. cbn [fst] in Eo. subst o.
    exists ay, ax, (pad_values border "edge" const (ny g) (nx g) wy wx (fun i j => finite (g_val g i j))), wy, wx, (clamp wy (ny g)), (clamp wx (nx g)).
    do 4 (split; [assumption|]). do 2 (split; [reflexivity|]). split; [lia|]. split; [lia|]. split; [discriminate|]. split.
    + intros a b Ha Hb. split; [unfold inside, clamp; lia|]. unfold pad_values, val. destruct (Nat.leb_spec wy a), (Nat.ltb_spec a (wy + ny g)), (Nat.leb_spec wx b), (Nat.ltb_spec b (wx + nx g)); cbn [andb]; cbn [String.eqb];
        try reflexivity. unfold clamp. rewrite !Nat.min_l by lia. reflexivity.
    + intros i j _. unfold val at 1. cbn [g_val finite]. now rewrite IE.
  - unfold filter_values in E. destruct (axis_of even_fft (g_y g)) as [ay|] eqn:Ay; [|discriminate]. cbn [bind] in E.
    destruct (axis_of even_fft (g_x g)) as [ax|] eqn:Ax; [|discriminate]. cbn [bind] in E.
    apply axis_of_step in Ay, Ax. destruct Ay as (Gy & Ny & Sy & Dy), Ax as (Gx & Nx & Sx & Dx). rewrite (total_finite ay ax K TK) in E. cbn [bind] in E. apply ok_inj in E.
    assert (Eo : o = fst (o, kw')) by reflexivity. rewrite <- E in Eo. cbn [fst] in Eo. subst o.
    exists ay, ax, (fun i j => finite (g_val g i j)), 0%nat, 0%nat, (fun i => i), (fun i => i).
    do 4 (split; [assumption|]). do 2 (split; [reflexivity|]). unfold ny, nx in *. split; [lia|]. split; [lia|]. split; [intros _; repeat split; assumption|]. split.
    + intros a b Ha Hb. split; [unfold inside, ny, nx; lia|]. reflexivity.
    + intros i j _. unfold val at 1. cbn [g_val finite]. now rewrite IE.
Qed.

Definition attenuation (h fn fe : R) : R := exp (- sqrt (k_of fe ^ 2 + k_of fn ^ 2) * h).
Lemma attenuation_x h f : attenuation h 0 f = exp (- (Rabs (k_of f) * h)).
Proof. unfold attenuation. rewrite k_of_0. replace (k_of f ^ 2 + 0 ^ 2) with (Rsqr (k_of f)) by (unfold Rsqr; ring). rewrite sqrt_Rsqr_abs. f_equal. ring. Qed.
Lemma attenuation_y h f : attenuation h f 0 = exp (- (Rabs (k_of f) * h)).
Proof. unfold attenuation. rewrite k_of_0. replace (0 ^ 2 + k_of f ^ 2) with (Rsqr (k_of f)) by (unfold Rsqr; ring). rewrite sqrt_Rsqr_abs. f_equal. ring. Qed.
Lemma attenuation_0 h : attenuation h 0 0 = 1.
Proof. rewrite attenuation_x, k_of_0, Rabs_R0, Rmult_0_l, Ropp_0. apply exp_0. Qed.
Lemma line_weights_ext a f f' j j' : (forall l, f l = f' l) -> line_weights a f j j' = line_weights a f' j j'.
Proof. intros E. unfold line_weights. f_equal. apply sum_over_ext. intros l _. now rewrite E. Qed.

(** Fields that change along one direction only: the continuation to any height stays within the values of the grid, with or without padding. *)
Theorem C115_profiles_partial g h pad kw o kw' lo hi : 0 < h -> edge_padding pad kw -> changes_eastward g \/ changes_northward g -> between lo hi g ->
  upward g h pad kw = Ok (o, kw') -> between lo hi o.
Proof.
  intros Hh P L B E i j Hij. unfold upward_continuation in E.
  destruct (smoothing_inv _ (attenuation h) g pad kw _ o kw' ltac:(reflexivity) P E) as (ay & ax & v & oy & ox & cy & cx & Gy & Gx & Dy & Dx & No & Mo & Ly & Lx & _ & V & O).
  rewrite (O i j Hij). destruct Hij as [Hi Hj]. rewrite No in Hi. rewrite Mo in Hj.
  assert (Hy : (0 < a_n ay)%nat) by (destruct Gy; lia). assert (Hx : (0 < a_n ax)%nat) by (destruct Gx; lia). destruct L as [L|L].
  - apply (in_range_line ay ax v (fun b => val g (cy 0%nat) (cx b)) (fun k l => attenuation h (freq ay k) (freq ax l))); try assumption.
    + now rewrite !freq_mid, attenuation_0.
    + intros j' Hj'. rewrite (line_weights_ext ax _ (fun l => exp (- (Rabs (k_of (freq ax l)) * h)))) by (intros l; rewrite freq_mid; apply attenuation_x). apply continuation_line; try assumption. lia.
    + intros a b Ha Hb. destruct (V a b Ha Hb) as [I1 ->], (V 0%nat b Hy Hb) as [I2 _]. now apply L.
    + intros b Hb. apply B. now apply V.
  - apply (in_range_column ay ax v (fun a => val g (cy a) (cx 0%nat)) (fun k l => attenuation h (freq ay k) (freq ax l))); try assumption.
    + now rewrite !freq_mid, attenuation_0.
    + intros i' Hi'. rewrite (line_weights_ext ay _ (fun k => exp (- (Rabs (k_of (freq ay k)) * h)))) by (intros k; rewrite freq_mid; apply attenuation_y). apply continuation_line; try assumption. lia.
    + intros a b Ha Hb. destruct (V a b Ha Hb) as [I1 ->], (V a 0%nat Ha Hx) as [I2 _]. now apply L.
    + intros a Ha. apply B. now apply V.
Qed.

(** ** Any grid, once all waves together are weaker than the mean level *)
Lemma weak_waves ay ax h B i j i' j' : good ay -> good ax -> h (a_n ay / 2)%nat (a_n ax / 2)%nat = 1 ->
  (forall k l, (k < a_n ay)%nat -> (l < a_n ax)%nat -> (k, l) <> (a_n ay / 2, a_n ax / 2)%nat -> 0 <= h k l <= B) -> (INR (a_n ay) * INR (a_n ax) - 1) * B <= 1 ->
  0 <= weights ay ax h i j i' j'.
Proof.
  intros Gy Gx H1 HB HS. pose proof (mid_lt ay Gy) as My. pose proof (mid_lt ax Gx) as Mx. assert (P1 : 0 < INR (a_n ay)) by (apply lt_0_INR; lia). assert (P2 : 0 < INR (a_n ax)) by (apply lt_0_INR; lia).
  unfold weights. apply Rmult_le_pos; [left; apply Rinv_0_lt_compat; nra|].
  set (d := fun n k : nat => if Nat.eq_dec (n / 2) k then 1 else 0).
  assert (SD : forall a, good a -> sum_over (range 0 (a_n a)) (d (a_n a)) = 1).
  { intros a G. apply RtoC_inj. rewrite <- csum_RtoC. rewrite (csum_single (a_n a) _ (a_n a / 2)%nat (mid_lt a G)); unfold d.
    - destruct (Nat.eq_dec (a_n a / 2) (a_n a / 2)); [reflexivity|congruence].
    - intros k _ Nk. destruct (Nat.eq_dec (a_n a / 2) k); [congruence|reflexivity]. }
  assert (SC : forall n, sum_over (range 0 n) (fun _ => 1) = INR n).
  { intros n. unfold range. rewrite Nat.sub_0_r. induction n as [|n IH]; [reflexivity|]. rewrite seq_S, sum_over_app, IH, S_INR. unfold sum_over. cbn [map sumR]. ring. }
  apply Rle_trans with (sum_over (range 0 (a_n ay)) (fun k => sum_over (range 0 (a_n ax)) (fun l => (1 + B) * (d (a_n ay) k * d (a_n ax) l) + - B * (1 * 1)))).
  - rewrite (sum_over_ext _ _ (fun k => (1 + B) * d (a_n ay) k + - (B * INR (a_n ax)) * 1)).
    + rewrite sum_over_plus, !sum_over_scal, SC, SD by assumption. lra.
    + intros k _. rewrite sum_over_plus, !sum_over_scal, SC, SD by assumption. ring.
  - apply sum_over_le. intros k Hk. apply sum_over_le. intros l Hl. apply in_range0 in Hk. apply in_range0 in Hl. unfold d.
    match goal with |- _ <= _ * cos ?x => pose proof (COS_bound x) as [C1 C2]; set (c := cos x) in * end.
    destruct (Nat.eq_dec (a_n ay / 2) k) as [Ek|Nk].
    + destruct (Nat.eq_dec (a_n ax / 2) l) as [El|Nl].
      * subst k l. rewrite H1. unfold c. rewrite !freq_mid. replace (2 * PI * (0 * (position ay i - position ay i') + 0 * (position ax j - position ax j'))) with 0 by ring. rewrite cos_0. lra.
      * specialize (HB k l Hk Hl ltac:(congruence)). nra.
    + specialize (HB k l Hk Hl ltac:(congruence)). nra.
Qed.
Lemma wavenumber_least ay ax L k l : good ay -> good ax -> 0 < a_d ay -> 0 < a_d ax -> 0 < L -> INR (a_n ay) * a_d ay <= L -> INR (a_n ax) * a_d ax <= L ->
  (k, l) <> (a_n ay / 2, a_n ax / 2)%nat -> (2 * PI / L) ^ 2 <= k_of (freq ax l) ^ 2 + k_of (freq ay k) ^ 2.
Proof.
  intros Gy Gx Dy Dx HL Ly Lx N. pose proof PI_RGT_0 as HP.
  assert (A : forall a k, good a -> 0 < a_d a -> INR (a_n a) * a_d a <= L -> k <> (a_n a / 2)%nat -> (2 * PI / L) ^ 2 <= k_of (freq a k) ^ 2).
  { intros a m G D La Nm. rewrite <- (pow2_abs (k_of _)). apply pow_incr. split; [left; apply Rdiv_lt_0_compat; lra|]. unfold k_of. rewrite Rabs_mult, (Rabs_pos_eq (2 * PI)) by lra. unfold Rdiv. apply Rmult_le_compat_l; [lra|].
    eapply Rle_trans; [|apply (freq_least a m G D Nm)]. apply Rinv_le_contravar; [|assumption]. apply Rmult_lt_0_compat; [apply lt_0_INR; now destruct G|assumption]. }
  pose proof (pow2_ge_0 (k_of (freq ax l))). pose proof (pow2_ge_0 (k_of (freq ay k))).
  destruct (Nat.eq_dec k (a_n ay / 2)) as [->|Nk]; [|specialize (A ay k Gy Dy Ly Nk); lra].
  destruct (Nat.eq_dec l (a_n ax / 2)) as [->|Nl]; [congruence|]. specialize (A ax l Gx Dx Lx Nl). lra.
Qed.

Theorem C115_high_above_partial g h L kw o kw' lo hi : 0 < h -> 0 < L -> INR (ny g) * step_y g <= L -> INR (nx g) * step_x g <= L ->
  INR (ny g) * INR (nx g) - 1 <= exp (2 * PI * h / L) -> between lo hi g -> upward g h false kw = Ok (o, kw') -> between lo hi o.
Proof.
  intros Hh HL Ly Lx HS B E i j Hij. unfold upward_continuation in E.
  destruct (smoothing_inv _ (attenuation h) g false kw _ o kw' ltac:(reflexivity) (or_introl eq_refl) E) as (ay & ax & v & oy & ox & cy & cx & Gy & Gx & Dy & Dx & No & Mo & _ & _ & N & V & O).
  destruct (N eq_refl) as (Ny & Nx & Sy & Sx). rewrite <- Ny, <- Sy in Ly. rewrite <- Nx, <- Sx in Lx. rewrite <- Ny, <- Nx in HS. rewrite (O i j Hij).
  apply (in_range_all ay ax v (fun k l => attenuation h (freq ay k) (freq ax l))); try assumption.
  - now rewrite !freq_mid, attenuation_0.
  - intros i' j' Hi' Hj'. apply (weak_waves ay ax _ (exp (- (2 * PI * h / L)))); try assumption.
    + now rewrite !freq_mid, attenuation_0.
    + intros k l Hk Hl Nkl. split; [left; apply exp_pos|]. unfold attenuation. apply exp_le. pose proof (wavenumber_least ay ax L k l Gy Gx Dy Dx HL Ly Lx Nkl) as W. pose proof PI_RGT_0.
      apply sqrt_le_1_alt in W. rewrite sqrt_pow2 in W by (left; apply Rdiv_lt_0_compat; lra). replace (2 * PI * h / L) with (2 * PI / L * h) by (field; lra). nra.
    + rewrite exp_Ropp. apply (Rmult_le_reg_r (exp (2 * PI * h / L))); [apply exp_pos|]. rewrite Rmult_assoc, Rinv_l by (pose proof (exp_pos (2 * PI * h / L)); lra). lra.
  - intros a b Ha Hb. destruct (V a b Ha Hb) as [I1 ->]. now apply B.
Qed.

Theorem C115_long_wavelengths_partial g w L kw o kw' lo hi : 0 < w -> 0 < L -> INR (ny g) * step_y g <= L -> INR (nx g) * step_x g <= L ->
  INR (ny g) * INR (nx g) - 1 <= exp ((w / L) ^ 2 / 2) -> between lo hi g -> lowpass g w false kw = Ok (o, kw') -> between lo hi o.
Proof.
  intros Hw HL Ly Lx HS B E i j Hij. unfold gaussian_lowpass in E. rewrite low_ok in E by lra. pose proof PI_RGT_0 as HP.
  set (kappa := fun fn fe => exp (- (k_of fe ^ 2 + k_of fn ^ 2) / (2 * (2 * PI / w) ^ 2))).
  assert (K0 : kappa 0 0 = 1) by (unfold kappa; rewrite k_of_0; replace (- (0 ^ 2 + 0 ^ 2)) with 0 by ring; unfold Rdiv at 1; rewrite Rmult_0_l; apply exp_0).
  destruct (smoothing_inv _ kappa g false kw _ o kw' ltac:(reflexivity) (or_introl eq_refl) E) as (ay & ax & v & oy & ox & cy & cx & Gy & Gx & Dy & Dx & No & Mo & _ & _ & N & V & O).
  destruct (N eq_refl) as (Ny & Nx & Sy & Sx). rewrite <- Ny, <- Sy in Ly. rewrite <- Nx, <- Sx in Lx. rewrite <- Ny, <- Nx in HS. rewrite (O i j Hij).
  apply (in_range_all ay ax v (fun k l => kappa (freq ay k) (freq ax l))); try assumption.
  - now rewrite !freq_mid.
  - intros i' j' Hi' Hj'. apply (weak_waves ay ax _ (exp (- ((w / L) ^ 2 / 2)))); try assumption.
    + now rewrite !freq_mid.
    + intros k l Hk Hl Nkl. split; [left; apply exp_pos|]. unfold kappa. apply exp_le. pose proof (wavenumber_least ay ax L k l Gy Gx Dy Dx HL Ly Lx Nkl) as W.
      assert (U : 0 < 2 * (2 * PI / w) ^ 2) by (apply Rmult_lt_0_compat; [lra|apply pow_lt, Rdiv_lt_0_compat; lra]).
      replace (- ((w / L) ^ 2 / 2)) with (- (2 * PI / L) ^ 2 / (2 * (2 * PI / w) ^ 2)) by (field; lra). unfold Rdiv at 1 3. apply Rmult_le_compat_r; [left; now apply Rinv_0_lt_compat|lra].
    + rewrite exp_Ropp. apply (Rmult_le_reg_r (exp ((w / L) ^ 2 / 2))); [apply exp_pos|]. rewrite Rmult_assoc, Rinv_l by (pose proof (exp_pos ((w / L) ^ 2 / 2)); lra). lra.
  - intros a b Ha Hb. destruct (V a b Ha Hb) as [I1 ->]. now apply B.
Qed.
(** ** Short distances: values that no grid value reaches *)
Hypothesis Hev : accepts_even even_fft.
Lemma apply_plain (K : response) (kappa : R -> R -> R) g y0 dy x0 dx kw drop : regular g y0 dy x0 dx -> (forall a b, K a b = Some (RtoC (kappa a b))) ->
  exists o, apply g (Ok K) false kw drop = Ok (o, kw) /\ ny o = ny g /\ nx o = nx g /\ forall i j, val o i j =
    sum_over (range 0 (ny g)) (fun i' => sum_over (range 0 (nx g)) (fun j' => val g i' j' * weights (reg_axis y0 dy (ny g)) (reg_axis x0 dx (nx g))
      (fun k l => kappa (freq (reg_axis y0 dy (ny g)) k) (freq (reg_axis x0 dx (nx g)) l)) i j i' j')).
Proof.
  intros [Rd Ry Rx Dy Dx Ny Nx Rv] HK. assert (TK : total K) by (intros a b; rewrite HK; discriminate).
  assert (Ey : axis_of even_fft (g_y g) = Ok (reg_axis y0 dy (ny g))) by (rewrite Ry; now apply axis_even).
  assert (Ex : axis_of even_fft (g_x g) = Ok (reg_axis x0 dx (nx g))) by (rewrite Rx; now apply axis_even).
  unfold apply_filter. rewrite (proj2 (sanity_ok g)) by (split; [assumption|intros i j [Hi Hj]; now apply Rv]). cbn [bind]. unfold filter_values.
  rewrite Ey. cbn [bind]. rewrite Ex. cbn [bind]. rewrite (total_finite _ _ K TK). cbn [bind].
  eexists. split; [reflexivity|]. split; [reflexivity|]. split; [reflexivity|]. intros i j. unfold val. cbn [g_val finite]. fold (val g).
  set (ay := reg_axis y0 dy (ny g)). set (ax := reg_axis x0 dx (nx g)).
  rewrite (ifft_ext ay ax _ (fun k l => Cmult (fft ay ax (val g) k l) (RtoC (kappa (freq ay k) (freq ax l))))) by (intros; now rewrite HK).
  rewrite filtered_weights by (apply reg_good; assumption). reflexivity.
Qed.

(** One value 1 among zeros, on nodes a quarter of 2 pi apart; and the same along one row repeated. *)
Definition spike (n : nat) (one : nat -> nat -> bool) : grid :=
  Grid ["northing"; "easting"] (even_axis 0 (PI / 2) n) (even_axis 0 (PI / 2) 4) (fun i j => Fin (if one i j then 1 else 0)) [].
Lemma spike_regular n one : (2 <= n)%nat -> regular (spike n one) 0 (PI / 2) 0 (PI / 2).
Proof.
  intros Hn. pose proof PI_RGT_0. split; cbn [spike g_dims g_y g_x g_val]; try reflexivity; try lra; unfold ny, nx; cbn [spike g_y g_x]; rewrite ?length_even; try reflexivity; try lia. discriminate.
Qed.
Lemma spike_between n one : between 0 1 (spike n one).
Proof. intros i j _. unfold val, spike. cbn [g_val finite]. destruct (one i j); lra. Qed.
Lemma quarter_freq x0 n k : (2 <= n)%nat -> k_of (freq (reg_axis x0 (PI / 2) n) k) = (INR k - INR (n / 2)) * (4 / INR n).
Proof. intros Hn. unfold k_of, freq. cbn [a_n a_d reg_axis]. pose proof PI_RGT_0. assert (INR n <> 0) by (apply not_0_INR; lia). field. split; lra || assumption. Qed.
Lemma half_circle x0 l : cos (2 * PI * (freq (reg_axis x0 (PI / 2) 4) l * (position (reg_axis x0 (PI / 2) 4) 2 - position (reg_axis x0 (PI / 2) 4) 0))) = cos ((INR l - 2) * PI).
Proof. f_equal. unfold freq. cbn [a_n a_d reg_axis]. rewrite !reg_position. change (4 / 2)%nat with 2%nat. cbn [INR]. pose proof PI_RGT_0. field. lra. Qed.
Lemma cos_m2 : cos ((INR 0 - 2) * PI) = 1.
Proof. cbn [INR]. replace ((0 - 2) * PI) with (- (2 * PI)) by ring. rewrite cos_neg. apply cos_2PI. Qed.
Lemma cos_m1 : cos ((INR 1 - 2) * PI) = -1.
Proof. cbn [INR]. replace ((1 - 2) * PI) with (- PI) by ring. rewrite cos_neg. apply cos_PI. Qed.
Lemma cos_z0 : cos ((INR 2 - 2) * PI) = 1.
Proof. cbn [INR]. replace ((1 + 1 - 2) * PI) with 0 by ring. apply cos_0. Qed.
Lemma cos_p1 : cos ((INR 3 - 2) * PI) = -1.
Proof. cbn [INR]. replace ((1 + 1 + 1 - 2) * PI) with PI by ring. apply cos_PI. Qed.

Theorem C115_upward_continuation_refuted : exists g h o kw', 0 < h /\ between 0 1 g /\ upward g h false None = Ok (o, kw') /\ exists i j, inside o i j /\ val o i j < 0.
Proof.
  set (g := spike 4 (fun i j => (Nat.eqb i 0 && Nat.eqb j 0)%bool)). assert (RG : regular g 0 (PI / 2) 0 (PI / 2)) by (apply spike_regular; lia).
  destruct (apply_plain (upward_continuation_kernel (1 / 10)) (attenuation (1 / 10)) g 0 (PI / 2) 0 (PI / 2) None true RG ltac:(reflexivity)) as (o & E & No & Mo & V).
  exists g, (1 / 10), o, None. split; [lra|]. split; [apply spike_between|]. split; [exact E|]. exists 0%nat, 2%nat.
  assert (N4 : ny g = 4%nat) by (unfold ny, g; cbn [spike g_y]; apply length_even). assert (M4 : nx g = 4%nat) by (unfold nx, g; cbn [spike g_x]; apply length_even).
  split; [unfold inside; lia|]. rewrite V, N4, M4. set (a := reg_axis 0 (PI / 2) 4). unfold sum_over at 1 2. change (range 0 4) with [0; 1; 2; 3]%nat. cbn [map sumR]. 
  unfold val, g, spike. cbn [g_val finite Nat.eqb andb]. rewrite !Rmult_0_l, !Rplus_0_r, Rmult_1_l.
  unfold weights. apply Rmult_lt_reg_l with (INR (a_n a) * INR (a_n a)); [cbn [a a_n reg_axis INR]; lra|]. rewrite <- Rmult_assoc, Rinv_r, Rmult_1_l, Rmult_0_r by (cbn [a a_n reg_axis INR]; lra).
  rewrite (sum_over_ext _ _ (fun k => sum_over (range 0 4) (fun l => exp (- sqrt ((INR l - 2) ^ 2 + (INR k - 2) ^ 2) * (1 / 10)) * cos ((INR l - 2) * PI)))).
  2:{ intros k _. apply sum_over_ext. intros l _. unfold attenuation, a. rewrite !quarter_freq by lia. change (INR (4 / 2)) with 2. replace (4 / INR 4) with 1 by (cbn [INR]; field). rewrite !Rmult_1_r. f_equal.
      rewrite <- (half_circle 0 l). f_equal. ring. }
  change (range 0 (a_n a)) with [0; 1; 2; 3]%nat. change (range 0 4) with [0; 1; 2; 3]%nat. unfold sum_over. cbn [map sumR]. rewrite cos_m2, cos_m1, cos_z0, cos_p1. cbn [INR].
  repeat match goal with |- context [sqrt ?x] => lazymatch x with
    | (_ ^ 2 + _ ^ 2) => let v := eval cbv beta in x in
        first [ replace x with 0 by ring | replace x with 1 by ring | replace x with (1 + 1) by ring | replace x with 4 by ring | replace x with 5 by ring | replace x with 8 by ring ] end end.
  rewrite sqrt_0, sqrt_1. replace (sqrt 4) with 2 by (symmetry; replace 4 with (2 ^ 2) by ring; apply sqrt_pow2; lra).
  replace (sqrt 8) with (2 * sqrt 2) by (symmetry; replace 8 with (2 ^ 2 * 2) by ring; rewrite sqrt_mult_alt by lra; rewrite sqrt_pow2 by lra; reflexivity).
  replace (1 + 1) with 2 by ring.
  replace (exp (- (2 * sqrt 2) * (1 / 10))) with (exp (- sqrt 2 * (1 / 10)) ^ 2) by (cbn [pow]; rewrite Rmult_1_r, <- exp_plus; f_equal; field).
  replace (- 0 * (1 / 10)) with 0 by ring. rewrite exp_0.
  assert (U : 1 - 1415 / 10000 <= exp (- sqrt 2 * (1 / 10))).
  { assert (S2 : sqrt 2 <= 1415 / 1000) by (rewrite <- (sqrt_pow2 (1415 / 1000)) by lra; apply sqrt_le_1_alt; lra). pose proof (exp_ineq1_le (- sqrt 2 * (1 / 10))). lra. }
  assert (U1 : exp (- sqrt 2 * (1 / 10)) <= 1) by (apply Rle_trans with (exp 0); [left; apply exp_increasing; pose proof (sqrt_lt_R0 2 ltac:(lra)); lra|rewrite exp_0; lra]).
  assert (Q : exp (- (2) * (1 / 10)) <= 10 / 12).
  { replace (- (2) * (1 / 10)) with (- (2 / 10)) by field. rewrite exp_Ropp. replace (10 / 12) with (/ (12 / 10)) by field. apply Rinv_le_contravar; [lra|]. pose proof (exp_ineq1_le (2 / 10)). lra. }
  set (u := exp (- sqrt 2 * (1 / 10))) in *. set (q := exp (- (2) * (1 / 10))) in *. nra.
Qed.

Theorem C115_lowpass_profile_refuted : exists g w o kw', 0 < w /\ changes_eastward g /\ between 0 1 g /\ lowpass g w false None = Ok (o, kw') /\ exists i j, inside o i j /\ val o i j < 0.
Proof.
  set (g := spike 2 (fun i j => Nat.eqb j 0)). assert (RG : regular g 0 (PI / 2) 0 (PI / 2)) by (apply spike_regular; lia). pose proof PI_RGT_0 as HP.
  assert (S5 : 0 < sqrt 5) by (apply sqrt_lt_R0; lra). set (w := 2 * PI / sqrt 5). assert (Hw : 0 < w) by (apply Rdiv_lt_0_compat; lra).
  assert (W5 : (2 * PI / w) ^ 2 = 5) by (unfold w; replace (2 * PI / (2 * PI / sqrt 5)) with (sqrt 5) by (field; lra); rewrite <- Rsqr_pow2; apply Rsqr_sqrt; lra).
  set (kappa := fun fn fe => exp (- (k_of fe ^ 2 + k_of fn ^ 2) / (2 * (2 * PI / w) ^ 2))).
  destruct (apply_plain (lowH w) kappa g 0 (PI / 2) 0 (PI / 2) None false RG ltac:(reflexivity)) as (o & E & No & Mo & V).
  exists g, w, o, None. split; [exact Hw|]. split; [intros i i' j _ _; reflexivity|]. split; [apply spike_between|]. split; [unfold gaussian_lowpass; rewrite low_ok by lra; exact E|]. exists 0%nat, 2%nat.
  assert (N4 : ny g = 2%nat) by (unfold ny, g; cbn [spike g_y]; apply length_even). assert (M4 : nx g = 4%nat) by (unfold nx, g; cbn [spike g_x]; apply length_even).
  split; [unfold inside; lia|]. rewrite V, N4, M4. set (ay := reg_axis 0 (PI / 2) 2). set (ax := reg_axis 0 (PI / 2) 4). rewrite sum_swap.
  rewrite (sum_over_ext _ _ (fun j' => (if Nat.eqb j' 0 then 1 else 0) * line_weights ax (fun l => kappa (freq ay (a_n ay / 2)) (freq ax l)) 2 j')).
  2:{ intros j' _. rewrite <- (weights_row_sum ay ax (fun k l => kappa (freq ay k) (freq ax l)) 0 2 j') by (apply reg_good; lra || lia). rewrite <- sum_over_scal. reflexivity. }
  change (range 0 4) with [0; 1; 2; 3]%nat. unfold sum_over. cbn [map sumR Nat.eqb]. rewrite !Rmult_0_l, !Rplus_0_r, Rmult_1_l. unfold line_weights. change (a_n ax) with 4%nat.
  apply Rmult_lt_reg_l with (INR 4); [cbn [INR]; lra|]. rewrite <- Rmult_assoc, Rinv_r, Rmult_1_l, Rmult_0_r by (cbn [INR]; lra).
  change (range 0 4) with [0; 1; 2; 3]%nat. unfold sum_over. cbn [map sumR]. unfold ax. rewrite !half_circle, cos_m2, cos_m1, cos_z0, cos_p1. unfold kappa, ay. change (a_n (reg_axis 0 (PI / 2) 2) / 2)%nat with 1%nat. rewrite !quarter_freq by lia. rewrite W5.
  change (2 / 2)%nat with 1%nat. change (4 / 2)%nat with 2%nat. cbn [INR].
  repeat match goal with |- context [exp ?x] => progress (first [ replace x with 0 by field | replace x with (- (1 / 10)) by field | replace x with (- (4 / 10)) by field ]) end.
  rewrite exp_0.
  assert (U : 9 / 10 <= exp (- (1 / 10))) by (pose proof (exp_ineq1_le (- (1 / 10))); lra).
  assert (Q : exp (- (4 / 10)) <= 10 / 14) by (rewrite exp_Ropp; replace (10 / 14) with (/ (14 / 10)) by field; apply Rinv_le_contravar; [lra|]; pose proof (exp_ineq1_le (4 / 10)); lra).
  lra.
Qed.

(** A row of four values, repeated four times, continued by 3; and a height that meets the bound of the theorem for all grids of four by four. *)
Example C115_example : changes_eastward (spike 4 (fun i j => Nat.eqb j 0)) /\ between 0 1 (spike 4 (fun i j => Nat.eqb j 0)) /\
  (exists o kw', upward (spike 4 (fun i j => Nat.eqb j 0)) 3 false None = Ok (o, kw')) /\
  INR (ny (spike 4 (fun i j => Nat.eqb j 0))) * step_y (spike 4 (fun i j => Nat.eqb j 0)) <= 2 * PI /\ 4 * 4 - 1 <= exp (2 * PI * 14 / (2 * PI)).
Proof.
  pose proof PI_RGT_0 as HP. split; [intros i i' j _ _; reflexivity|]. split; [apply spike_between|]. split.
  - destruct (apply_plain (upward_continuation_kernel 3) (attenuation 3) _ 0 (PI / 2) 0 (PI / 2) None true (spike_regular 4 (fun i j => Nat.eqb j 0) ltac:(lia)) ltac:(reflexivity)) as (o & E & _). eauto.
  - split.
    + unfold step_y, ny. cbn [spike g_y]. rewrite length_even, !nth_even by lia. cbn [INR]. rewrite Rabs_pos_eq; lra.
    + replace (2 * PI * 14 / (2 * PI)) with 14 by (field; lra). pose proof (exp_ineq1_le 14). lra.
Qed.
End Props.
Print Assumptions C115_profiles_partial.
Print Assumptions C115_high_above_partial.
Print Assumptions C115_long_wavelengths_partial.
Print Assumptions C115_upward_continuation_refuted.
Print Assumptions C115_lowpass_profile_refuted.
