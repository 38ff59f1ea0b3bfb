(** Claim C100: how much the transformations can amplify the values of a grid, and with them its noise. *)
From Coquelicot Require Import Coquelicot.
From Verif Require Import Base BaseFacts NumPy UtilsModel UtilsSpec TransformModel TransformSpec FourierProofs TransformProofs TransformFieldProofs TransformProps TransformGridProps
  TransformSymmetryProofs TransformSymmetryProps TransformLevelProofs TransformLevelProps TransformNoiseProofs.
Local Open Scope string_scope. Local Open Scope list_scope. Local Open Scope R_scope.
Local Notation C := Complex.C.

(** Distance between the nodes of a grid, whichever way its coordinates run. *)
Definition step_y (g : grid) : R := Rabs (nth 1 (g_y g) 0 - nth 0 (g_y g) 0).
Definition step_x (g : grid) : R := Rabs (nth 1 (g_x g) 0 - nth 0 (g_x g) 0).
(** The largest wavenumber of a grid with steps [dy] and [dx], radians per length. *)
Definition largest_wavenumber (dy dx : R) : R := PI * sqrt (1 / dx ^ 2 + 1 / dy ^ 2).
(** The factor by which each transformation can amplify values on a grid with steps [dy] and [dx]. *)
Inductive amplification (ef ep : list R -> bool) (bd : string -> option R -> nat -> nat -> (nat -> nat -> R) -> nat -> nat -> R) (dy dx : R) :
  R -> Prop -> (grid -> bool -> option pad_kw -> res (grid * option pad_kw)) -> Prop :=
| A_upward n : amplification ef ep bd dy dx (largest_wavenumber dy dx ^ n) True (fun g pad kw => derivative_upward ef ep bd g n pad kw)
| A_easting n : amplification ef ep bd dy dx ((PI / dx) ^ n) True (fun g pad kw => derivative_easting ef ep bd g n "fft" pad kw)
| A_northing n : amplification ef ep bd dy dx ((PI / dy) ^ n) True (fun g pad kw => derivative_northing ef ep bd g n "fft" pad kw)
| A_upwards h : amplification ef ep bd dy dx 1 (0 <= h) (fun g pad kw => upward_continuation ef ep bd g h pad kw)
| A_downwards h : amplification ef ep bd dy dx (exp (largest_wavenumber dy dx * h)) (0 <= h) (fun g pad kw => upward_continuation ef ep bd g (- h) pad kw)
| A_lowpass l : amplification ef ep bd dy dx 1 (l <> 0) (fun g pad kw => gaussian_lowpass ef ep bd g l pad kw)
| A_highpass l : amplification ef ep bd dy dx 1 (l <> 0) (fun g pad kw => gaussian_highpass ef ep bd g l pad kw)
| A_pole i d mi md : amplification ef ep bd dy dx (/ (Rabs (sin (radians i)) * Rabs (sin (radians mi)))) (sin (radians i) <> 0 /\ sin (radians mi) <> 0)
    (fun g pad kw => reduction_to_pole ef ep bd g i d (Some mi) (Some md) pad kw).
(** The sum of the squared differences of two grids. *)
Definition sum_squared_differences (g g' : grid) : R := sum_over (range 0 (ny g)) (fun i => sum_over (range 0 (nx g)) (fun j => (val g i j - val g' i j) ^ 2)).

Section Props.
Variable even_fft even_pad : list R -> bool.
Variable border : string -> option R -> nat -> nat -> (nat -> nat -> R) -> nat -> nat -> R.
Notation amplify := (amplification even_fft even_pad border).
Notation transform := (transformation even_fft even_pad border).

Lemma amplify_transform dy dx q valid f : amplify dy dx q valid f -> exists keep valid', transform keep valid' f /\ (valid -> valid').
Proof.
  intros [n | n | n | h | h | l | l | i d mi md].
  - do 2 eexists. split; [exact (T_upward _ _ _ n)|auto].
  - do 2 eexists. split; [exact (T_easting _ _ _ n)|auto].
  - do 2 eexists. split; [exact (T_northing _ _ _ n)|auto].
  - do 2 eexists. split; [exact (T_continuation _ _ _ h)|auto].
  - do 2 eexists. split; [exact (T_continuation _ _ _ (- h))|auto].
  - do 2 eexists. split; [exact (T_lowpass _ _ _ l)|auto].
  - do 2 eexists. split; [exact (T_highpass _ _ _ l)|auto].
  - do 2 eexists. split; [exact (T_pole _ _ _ i d mi md)|auto].
Qed.
Lemma amplify_apply dy dx q valid f : 0 < dy -> 0 < dx -> amplify dy dx q valid f -> valid ->
  0 < q /\ exists K drop, (forall g pad kw, f g pad kw = apply_filter even_fft even_pad border g (Ok K) pad kw drop) /\ total K /\
    forall a b z, k_of a ^ 2 <= (PI / dy) ^ 2 -> k_of b ^ 2 <= (PI / dx) ^ 2 -> sqrt (k_of b ^ 2 + k_of a ^ 2) <= nyquist dy dx -> K a b = Some z -> modsq z <= q ^ 2.
Proof.
  intros Dy Dx. pose proof (nyquist_pos dy dx Dy Dx) as NP. pose proof PI_RGT_0 as HP. change (largest_wavenumber dy dx) with (nyquist dy dx) in *.
  assert (PD : forall d, 0 < d -> 0 < PI / d) by (intros; now apply Rdiv_lt_0_compat).
  intros [n | n | n | h | h | l | l | i d mi md] HV; change (largest_wavenumber dy dx) with (nyquist dy dx).
  - split; [now apply pow_lt|]. do 2 eexists. split; [reflexivity|]. split; [intros ? ?; discriminate|]. intros a b z _ _ Hk E. unfold derivative_upward_kernel in E.
    assert (E' : RtoC ((- sqrt (k_of b ^ 2 + k_of a ^ 2)) ^ n) = z) by congruence. subst z. rewrite modsq_RtoC, <- !pow_mult, Nat.mul_comm, !pow_mult. apply pow_incr. split; [apply pow2_ge_0|].
    rewrite sq_opp. apply pow_incr. split; [apply sqrt_pos|exact Hk].
  - split; [now apply pow_lt, PD|]. do 2 eexists. split; [reflexivity|]. split; [intros ? ?; discriminate|]. intros a b z _ Hb _ E. unfold derivative_easting_kernel in E.
    assert (E' : cpow (Cmult (RtoC (k_of b)) Ci) n = z) by congruence. subst z. rewrite modsq_cpow, modsq_mult, modsq_RtoC, modsq_Ci, Rmult_1_r, <- pow_mult, Nat.mul_comm, !pow_mult. rewrite <- pow_mult, Nat.mul_comm, pow_mult. rewrite <- (pow_mult _ n 2), (Nat.mul_comm n 2), pow_mult. apply pow_incr. split; [apply pow2_ge_0|exact Hb].
  - split; [now apply pow_lt, PD|]. do 2 eexists. split; [reflexivity|]. split; [intros ? ?; discriminate|]. intros a b z Ha _ _ E. unfold derivative_northing_kernel in E.
    assert (E' : cpow (Cmult (RtoC (k_of a)) Ci) n = z) by congruence. subst z. rewrite modsq_cpow, modsq_mult, modsq_RtoC, modsq_Ci, Rmult_1_r. rewrite <- (pow_mult (PI / dy)), (Nat.mul_comm n 2), (pow_mult (PI / dy)). apply pow_incr. split; [apply pow2_ge_0|exact Ha].
  - split; [lra|]. do 2 eexists. split; [reflexivity|]. split; [intros ? ?; discriminate|]. intros a b z _ _ Hk E. unfold upward_continuation_kernel in E.
    assert (E' : RtoC (exp (- sqrt (k_of b ^ 2 + k_of a ^ 2) * h)) = z) by congruence. subst z. rewrite modsq_RtoC. apply pow_incr. split; [left; apply exp_pos|]. rewrite <- exp_0. apply exp_le. pose proof (sqrt_pos (k_of b ^ 2 + k_of a ^ 2)). nra.
  - split; [apply exp_pos|]. do 2 eexists. split; [reflexivity|]. split; [intros ? ?; discriminate|]. intros a b z _ _ Hk E. unfold upward_continuation_kernel in E.
    assert (E' : RtoC (exp (- sqrt (k_of b ^ 2 + k_of a ^ 2) * - h)) = z) by congruence. subst z. rewrite modsq_RtoC. apply pow_incr. split; [left; apply exp_pos|]. apply exp_le. rewrite Rmult_opp_opp. now apply Rmult_le_compat_r.
  - split; [lra|]. exists (lowH l), false. split; [intros; unfold gaussian_lowpass; now rewrite low_ok|]. split; [intros ? ?; discriminate|]. intros a b z _ _ _ E. unfold lowH in E.
    assert (E' : RtoC (exp (- (k_of b ^ 2 + k_of a ^ 2) / (2 * (2 * PI / l) ^ 2))) = z) by congruence. subst z. rewrite modsq_RtoC. pose proof (gauss_bounds l a b HV). apply pow_incr. lra.
  - split; [lra|]. exists (highH l), false. split; [intros; unfold gaussian_highpass; now rewrite high_ok|]. split; [intros ? ?; discriminate|]. intros a b z _ _ _ E. unfold highH in E.
    assert (E' : RtoC (1 - exp (- (k_of b ^ 2 + k_of a ^ 2) / (2 * (2 * PI / l) ^ 2))) = z) by congruence. subst z. rewrite modsq_RtoC. pose proof (gauss_bounds l a b HV). apply pow_incr. lra.
  - destruct HV as [Hi Hm]. split; [apply Rinv_0_lt_compat, Rmult_lt_0_compat; now apply Rabs_pos_lt|].
    destruct (reduction_to_pole_kernel i d (Some mi) (Some md)) as [K|] eqn:E; [|discriminate]. exists K, false. split; [intros; unfold reduction_to_pole; now rewrite E|].
    split; [intros a b; rewrite (rtp_total i d mi md K Hi Hm E); discriminate|]. intros a b z _ _ _ Ez. exact (rtp_bound i d mi md K a b z Hi Hm E Ez).
Qed.
Lemma axis_of_step l a : axis_of even_fft l = Ok a -> good a /\ a_n a = length l /\ a_d a = Rabs (nth 1 l 0 - nth 0 l 0) /\ 0 < a_d a.
Proof.
  intros E. apply axis_of_ok in E. destruct E as [(L & _ & D) ->]. cbn [a_n a_d]. assert (0 < Rabs (nth 1 l 0 - nth 0 l 0)) by (apply Rabs_pos_lt; lra). repeat split; cbn [a_n a_d]; try lia; lra.
Qed.
Lemma filter_inv K g kw drop o kw' : total K -> apply_filter even_fft even_pad border g (Ok K) false kw drop = Ok (o, kw') ->
  exists ay ax, good ay /\ good ax /\ a_n ay = ny g /\ a_n ax = nx g /\ a_d ay = step_y g /\ a_d ax = step_x g /\ 0 < a_d ay /\ 0 < a_d ax /\ ny o = ny g /\ nx o = nx g /\
    forall i j, val o i j = Re (ifft ay ax (fun k l => Cmult (fft ay ax (val g) k l) (some_c (K (freq ay k) (freq ax l)))) i j).
Proof.
  intros TK E. unfold apply_filter in E. destruct (grid_sanity_checks g) as [[]|]; [|discriminate]. cbn [bind] in E.
  unfold filter_values in E. destruct (axis_of even_fft (g_y g)) as [ay|] eqn:Ay; [|discriminate]. cbn [bind] in E.
  destruct (axis_of even_fft (g_x g)) as [ax|] eqn:Ax; [|discriminate]. cbn [bind] in E. rewrite (total_finite ay ax K TK) in E. cbn [bind] in E. apply ok_inj in E.
  assert (Eo : o = fst (o, kw')) by reflexivity. rewrite <- E in Eo. cbn [fst] in Eo. subst o.
  apply axis_of_step in Ay, Ax. destruct Ay as (Gy & Ny & Sy & Py), Ax as (Gx & Nx & Sx & Px). exists ay, ax. split; [assumption|]. split; [assumption|]. repeat (split; [first [assumption|reflexivity]|]). reflexivity.
Qed.

(** ** The sum of squares *)
Theorem C100_sum_of_squares q valid f g kw o kw' : amplify (step_y g) (step_x g) q valid f -> valid -> f g false kw = Ok (o, kw') ->
  sum_squares o <= q ^ 2 * sum_squares g.
Proof.
  intros T HV E.
  assert (P : 0 < step_y g /\ 0 < step_x g).
  { destruct (amplify_transform _ _ _ _ _ T) as (keep & valid' & T' & V'). destruct (transform_apply even_fft even_pad border keep valid' f T') as (H & A & VV). destruct (VV (V' HV)) as (K & -> & TK).
    rewrite A in E. destruct (filter_inv K g kw _ o kw' TK E) as (ay & ax & _ & _ & _ & _ & Sy & Sx & Py & Px & _). rewrite <- Sy, <- Sx. auto. }
  destruct P as [Py Px]. destruct (amplify_apply _ _ q valid f Py Px T HV) as (Q & K & drop & A & TK & B). rewrite A in E.
  destruct (filter_inv K g kw _ o kw' TK E) as (ay & ax & Gy & Gx & Ny & Nx & Sy & Sx & _ & _ & No & Mo & V). rewrite <- Sy in *. rewrite <- Sx in *.
  pose proof (amplified ay ax (val g) (fun k l => some_c (K (freq ay k) (freq ax l))) q Gy Gx Q) as Z. rewrite Ny, Nx in Z. unfold energy in Z. unfold sum_squares. rewrite No, Mo.
  rewrite (sum_over_ext _ _ (fun i => sum_over (range 0 (nx g)) (fun j => Re (ifft ay ax (fun k l => Cmult (fft ay ax (val g) k l) (some_c (K (freq ay k) (freq ax l)))) i j) ^ 2))) by (intros i _; apply sum_over_ext; intros j _; now rewrite V).
  apply Z. intros k l Hk Hl _. rewrite <- Ny in Hk. rewrite <- Nx in Hl. destruct (K (freq ay k) (freq ax l)) as [z|] eqn:Ez; [|exfalso; now apply (TK (freq ay k) (freq ax l))]. cbn [some_c].
  apply (B (freq ay k) (freq ax l) z); [now apply k_bound|now apply k_bound|now apply diagonal_bound|exact Ez].
Qed.

(** No value is larger than the amplified root of the sum of squares. *)
Lemma one_of_squares g i j : inside g i j -> val g i j ^ 2 <= sum_squares g.
Proof.
  intros [Hi Hj]. unfold sum_squares.
  assert (S : forall n (h : nat -> R) k, (k < n)%nat -> (forall i, 0 <= h i) -> h k <= sum_over (range 0 n) h).
  { intros n h k Hk Hh. unfold range. rewrite Nat.sub_0_r. assert (P : forall l, 0 <= sum_over l h) by (induction l as [|x l IH]; [unfold sum_over; cbn; lra|rewrite sum_over_cons; specialize (Hh x); lra]).
    assert (I : In k (seq 0 n)) by (apply in_seq; lia). induction (seq 0 n) as [|x l IH]; [destruct I|]. rewrite sum_over_cons. destruct I as [->|I]; [specialize (P l); lra|]. specialize (IH I). specialize (Hh x). lra. }
  eapply Rle_trans; [|apply (S (ny g) (fun i => sum_over (range 0 (nx g)) (fun j => val g i j ^ 2)) i Hi)].
  - apply (S (nx g) (fun j => val g i j ^ 2) j Hj). intros; apply pow2_ge_0.
  - intros i'. apply Rle_trans with (sum_over (range 0 (nx g)) (fun _ => 0)); [right; induction (range 0 (nx g)) as [|x l IH]; [reflexivity|rewrite sum_over_cons, <- IH; ring]|]. apply FourierProofs.sum_over_le. intros; apply pow2_ge_0.
Qed.
Theorem C100_values q valid f g kw o kw' : amplify (step_y g) (step_x g) q valid f -> valid -> f g false kw = Ok (o, kw') ->
  forall i j, inside o i j -> Rabs (val o i j) <= Rabs q * sqrt (sum_squares g).
Proof.
  intros T HV E i j Hij. pose proof (C100_sum_of_squares q valid f g kw o kw' T HV E) as S. pose proof (one_of_squares o i j Hij) as O.
  rewrite <- (sqrt_Rsqr_abs (val o i j)), <- (sqrt_Rsqr_abs q), <- sqrt_mult_alt by apply Rle_0_sqr. apply sqrt_le_1_alt. rewrite !Rsqr_pow2. lra.
Qed.

(** ** Noise: two grids on the same nodes *)
Theorem C100_noise q valid f g g' kw o kw' : amplify (step_y g) (step_x g) q valid f -> valid -> same_nodes g g' ->
  (forall i j, inside g i j -> g_val g' i j <> NaN) -> f g false kw = Ok (o, kw') ->
  exists o', f g' false kw = Ok (o', kw') /\ sum_squared_differences o o' <= q ^ 2 * sum_squared_differences g g'.
Proof.
  intros T HV SN NN E. destruct (amplify_transform _ _ _ _ _ T) as (keep & valid' & T' & V').
  set (g3 := Grid (g_dims g) (g_y g) (g_x g) (fun i j => Fin (1 * val g i j + -1 * val g' i j)) (g_extra g)).
  assert (FV : forall h i j, g_val h i j <> NaN -> g_val h i j = Fin (val h i j)) by (intros h i j H; unfold val; destruct (g_val h i j); [contradiction|reflexivity]).
  assert (FG : forall i j, inside g i j -> g_val g i j <> NaN).
  { destruct (transform_apply even_fft even_pad border keep valid' f T') as (H & A & VV). rewrite A in E. unfold apply_filter in E. destruct (grid_sanity_checks g) as [[]|] eqn:S; [|discriminate]. now apply sanity_ok in S. }
  assert (CB : combination 1 (-1) g g' g3).
  { split; [exact SN|]. split; [now repeat split|]. intros i j Hij. exists (val g i j), (val g' i j). split; [now apply FV, FG|]. split; [now apply FV, NN|reflexivity]. }
  destruct (C87_linear even_fft even_pad border keep valid' f 1 (-1) g g' g3 false kw o kw' T' (V' HV) CB (or_introl eq_refl) E) as (o2 & o3 & E2 & E3 & (S2 & S3 & CO)).
  exists o2. split; [exact E2|]. pose proof (C100_sum_of_squares q valid f g3 kw o3 kw' T HV E3) as Z.
  assert (Z1 : sum_squares g3 = sum_squared_differences g g').
  { unfold sum_squares, sum_squared_differences. apply sum_over_ext. intros i _. apply sum_over_ext. intros j _. unfold val at 1. cbn. ring. }
  assert (Z2 : sum_squares o3 = sum_squared_differences o o2).
  { unfold sum_squares, sum_squared_differences. destruct S3 as (_ & Sy & Sx). unfold ny, nx. rewrite Sy, Sx. apply sum_over_ext. intros i Hi. apply sum_over_ext. intros j Hj. apply range_in in Hi, Hj.
    destruct (CO i j ltac:(split; [apply Hi|apply Hj])) as (u & v & U & V & W). unfold val. rewrite U, V, W. cbn. ring. }
  now rewrite <- Z1, <- Z2.
Qed.

(** ** Upward continuation of grids with zero mean *)
Theorem C100_continuation_decays g h L kw o kw' : 0 <= h -> 0 < L -> INR (ny g) * step_y g <= L -> INR (nx g) * step_x g <= L -> sum_values g = 0 ->
  upward_continuation even_fft even_pad border g h false kw = Ok (o, kw') -> sum_squares o <= (exp (- (2 * PI * h / L))) ^ 2 * sum_squares g.
Proof.
  intros Hh HL Ly Lx Z0 E. unfold upward_continuation in E.
  assert (TK : total (upward_continuation_kernel h)) by (intros ? ?; discriminate).
  destruct (filter_inv _ g kw _ o kw' TK E) as (ay & ax & Gy & Gx & Ny & Nx & Sy & Sx & Py & Px & No & Mo & V). rewrite <- Sy, <- Ny in Ly. rewrite <- Sx, <- Nx in Lx.
  pose proof (amplified ay ax (val g) (fun k l => some_c (upward_continuation_kernel h (freq ay k) (freq ax l))) (exp (- (2 * PI * h / L))) Gy Gx (exp_pos _)) as Z. rewrite Ny, Nx in Z. unfold energy in Z. unfold sum_squares. rewrite No, Mo.
  rewrite (sum_over_ext _ _ (fun i => sum_over (range 0 (nx g)) (fun j => Re (ifft ay ax (fun k l => Cmult (fft ay ax (val g) k l) (some_c (upward_continuation_kernel h (freq ay k) (freq ax l)))) i j) ^ 2))) by (intros i _; apply sum_over_ext; intros j _; now rewrite V).
  apply Z. intros k l Hk Hl N. unfold upward_continuation_kernel. cbn [some_c]. rewrite modsq_RtoC. apply pow_incr. split; [left; apply exp_pos|]. apply exp_le. pose proof PI_RGT_0 as HP.
  assert (K : 2 * PI / L <= sqrt (k_of (freq ax l) ^ 2 + k_of (freq ay k) ^ 2)).
  { assert (F : / L <= Rabs (freq ax l) \/ / L <= Rabs (freq ay k)).
    { destruct (Nat.eq_dec k (a_n ay / 2)) as [Ek|Nk].
      - destruct (Nat.eq_dec l (a_n ax / 2)) as [El|Nl].
        + exfalso. apply N. rewrite Ek, El, fft_mid, csum2_RtoC, Ny, Nx. unfold sum_values in Z0. rewrite Z0. ring.
        + left. eapply Rle_trans; [|apply freq_least; eassumption]. apply Rinv_le_contravar; [|exact Lx]. apply Rmult_lt_0_compat; [apply lt_0_INR; destruct Gx; lia|assumption].
      - right. eapply Rle_trans; [|apply freq_least; eassumption]. apply Rinv_le_contravar; [|exact Ly]. apply Rmult_lt_0_compat; [apply lt_0_INR; destruct Gy; lia|assumption]. }
    assert (W : forall x, / L <= Rabs x -> (2 * PI / L) ^ 2 <= k_of x ^ 2).
    { intros x Hx. rewrite <- (pow2_abs (k_of x)). apply pow_incr. split; [left; apply Rdiv_lt_0_compat; lra|]. unfold k_of. rewrite !Rabs_mult, (Rabs_pos_eq 2), (Rabs_pos_eq PI) by lra. unfold Rdiv. apply Rmult_le_compat_l; lra. }
    rewrite <- (sqrt_pow2 (2 * PI / L)) by (left; apply Rdiv_lt_0_compat; lra). apply sqrt_le_1_alt. pose proof (pow2_ge_0 (k_of (freq ax l))). pose proof (pow2_ge_0 (k_of (freq ay k))). destruct F as [F|F]; apply W in F; lra. }
  replace (2 * PI * h / L) with (2 * PI / L * h) by (field; lra). apply (Rmult_le_compat_r h) in K; [|assumption]. lra.
Qed.
End Props.
Print Assumptions C100_sum_of_squares.
Print Assumptions C100_values.
Print Assumptions C100_noise.
Print Assumptions C100_continuation_decays.

(** The small grid of the examples of C39-C45: two values one apart, then with noise; its mean is zero. *)
Example C100_example : let g := grid22 1 (-1) 2 (-2) in step_y g = 1 /\ step_x g = 1 /\ sum_values g = 0 /\
  (exists o, derivative_easting (fun _ => true) (fun _ => true) (fun _ _ _ _ v => v) g 2 "fft" false None = Ok (o, None)) /\
  (exists o, upward_continuation (fun _ => true) (fun _ => true) (fun _ _ _ _ v => v) g (-3) false None = Ok (o, None)) /\
  INR (ny g) * step_y g <= 2 /\ INR (nx g) * step_x g <= 2 /\ same_nodes g (grid22 1.5 (-1) 2 (-2.5)).
Proof.
  cbv zeta. set (g := grid22 1 (-1) 2 (-2)). assert (Sy : step_y g = 1) by (unfold step_y; cbn; rewrite Rabs_pos_eq; lra). assert (Sx : step_x g = 1) by (unfold step_x; cbn; rewrite Rabs_pos_eq; lra).
  assert (R : regular g 0 1 0 1) by apply grid22_regular.
  split; [exact Sy|]. split; [exact Sx|]. split; [unfold sum_values, sum_over, val, ny, nx, g; cbn; ring|].
  destruct (C44_regular_accepted (fun _ => true) (fun _ => true) (fun _ _ _ _ v => v) all_even all_even true True _ g 0 1 0 1 false None (T_easting _ _ _ 2) I R) as (o1 & k1 & E1 & _).
  destruct (C44_regular_accepted (fun _ => true) (fun _ => true) (fun _ _ _ _ v => v) all_even all_even false True _ g 0 1 0 1 false None (T_continuation _ _ _ (-3)) I R) as (o2 & k2 & E2 & _).
  split; [exists o1; rewrite E1; f_equal; f_equal; exact (proj2 (proj2 (C44_keeps_nodes _ _ _ true True _ g false None o1 k1 (T_easting _ _ _ 2) E1)) (or_introl eq_refl))|].
  split; [exists o2; rewrite E2; f_equal; f_equal; exact (proj2 (proj2 (C44_keeps_nodes _ _ _ false True _ g false None o2 k2 (T_continuation _ _ _ (-3)) E2)) (or_introl eq_refl))|].
  rewrite Sy, Sx. split; [unfold ny, g; cbn; lra|]. split; [unfold nx, g; cbn; lra|]. now repeat split.
Qed.
