(** C39-C45 and C76: filters and transformations of grids. *)
From Coquelicot Require Import Coquelicot.
From Verif Require Import Base BaseFacts NumPy NumPyFacts PointGravityProofs UtilsModel UtilsSpec UtilsProofs TransformModel TransformSpec FourierProofs TransformProofs TransformFieldProofs.
Local Open Scope string_scope. Local Open Scope list_scope. Local Open Scope R_scope.
Local Notation C := Complex.C.

(** A small grid for the examples. *)
Definition grid22 (a b c d : R) : grid := Grid ["northing"; "easting"] (even_axis 0 1 2) (even_axis 0 1 2) (fun i j => Fin (if Nat.eqb i 0 then if Nat.eqb j 0 then a else b else if Nat.eqb j 0 then c else d)) [].
Lemma grid22_regular a b c d : regular (grid22 a b c d) 0 1 0 1.
Proof. constructor; unfold ny, nx; cbn; try lra; try lia; try reflexivity. intros i j _ _. discriminate. Qed.
Lemma all_even : accepts_even (fun _ => true).
Proof. intros x0 d n _ _. reflexivity. Qed.

Section Props.
Variable even_fft even_pad : list R -> bool.
Variable border : string -> option R -> nat -> nat -> (nat -> nat -> R) -> nat -> nat -> R.
Hypothesis Efft : accepts_even even_fft.
Hypothesis Epad : accepts_even even_pad.
Let lowpass := gaussian_lowpass even_fft even_pad border.
Let highpass := gaussian_highpass even_fft even_pad border.
Let upcont := upward_continuation even_fft even_pad border.
Let dup := derivative_upward even_fft even_pad border.
Let deast := derivative_easting even_fft even_pad border.
Let dnorth := derivative_northing even_fft even_pad border.
Let rtp := reduction_to_pole even_fft even_pad border.

Definition lowH (l : R) : response := fun fn fe => Some (RtoC (exp (- (k_of fe ^ 2 + k_of fn ^ 2) / (2 * (2 * PI / l) ^ 2)))).
Definition highH (l : R) : response := fun fn fe => Some (RtoC (1 - exp (- (k_of fe ^ 2 + k_of fn ^ 2) / (2 * (2 * PI / l) ^ 2)))).
Lemma low_ok l : l <> 0 -> gaussian_lowpass_kernel l = Ok (lowH l).
Proof. intros H. unfold gaussian_lowpass_kernel. destruct (Reqb_spec l 0); [contradiction|reflexivity]. Qed.
Lemma high_ok l : l <> 0 -> gaussian_highpass_kernel l = Ok (highH l).
Proof. intros H. unfold gaussian_highpass_kernel. destruct (Reqb_spec l 0); [contradiction|reflexivity]. Qed.
Ltac tot := apply total_finite; intros ? ?; discriminate.

Lemma gauss_bounds l a b : l <> 0 -> 0 < exp (- (k_of b ^ 2 + k_of a ^ 2) / (2 * (2 * PI / l) ^ 2)) <= 1.
Proof.
  intros H. split; [apply exp_pos|]. rewrite <- exp_0. assert (P : 0 < (2 * PI / l) ^ 2) by (apply pow2_gt_0; unfold Rdiv; apply Rmult_integral_contrapositive; split; [pose proof PI_RGT_0; lra|now apply Rinv_neq_0_compat]).
  pose proof (pow2_ge_0 (k_of b)). pose proof (pow2_ge_0 (k_of a)).
  assert (0 <= (k_of b ^ 2 + k_of a ^ 2) / (2 * (2 * PI / l) ^ 2)) by (apply Rdiv_le_0_compat; lra).
  replace (- (k_of b ^ 2 + k_of a ^ 2) / (2 * (2 * PI / l) ^ 2)) with (- ((k_of b ^ 2 + k_of a ^ 2) / (2 * (2 * PI / l) ^ 2))) by (unfold Rdiv; ring).
  destruct (Req_dec ((k_of b ^ 2 + k_of a ^ 2) / (2 * (2 * PI / l) ^ 2)) 0) as [->|]; [rewrite Ropp_0; lra|]. left. apply exp_increasing. lra.
Qed.

(** C39: the two responses. *)
Theorem C39_responses l : l <> 0 -> exists L H, gaussian_lowpass_kernel l = Ok L /\ gaussian_highpass_kernel l = Ok H /\
  forall fn fe, exists r, L fn fe = Some (RtoC r) /\ H fn fe = Some (RtoC (1 - r)) /\ 0 < r <= 1 /\ r = exp (- (l ^ 2 * (fn ^ 2 + fe ^ 2)) / 2).
Proof.
  intros Hl. eexists. eexists. split; [now apply low_ok|]. split; [now apply high_ok|]. intros fn fe. unfold lowH, highH. cbv beta. eexists. split; [reflexivity|]. split; [reflexivity|].
  split; [now apply gauss_bounds|]. f_equal. unfold k_of. field. split; [assumption|pose proof PI_RGT_0; lra].
Qed.
Theorem C39_complementary g y0 dy x0 dx l pad kw : regular g y0 dy x0 dx -> l <> 0 ->
  exists gl gh kw', lowpass g l pad kw = Ok (gl, kw') /\ highpass g l pad kw = Ok (gh, kw') /\ same_nodes g gl /\ same_nodes g gh /\
    forall i j, inside g i j -> exists a b, g_val gl i j = Fin a /\ g_val gh i j = Fin b /\ a + b = val g i j.
Proof.
  intros Rg Hl. destruct (apply_regular even_fft even_pad border Efft Epad g y0 dy x0 dx pad kw false Rg) as (ay & ax & oy & ox & w & kw' & Gy & Gx & Ly & Lx & W & _ & _ & A & _ & _).
  unfold lowpass, highpass, gaussian_lowpass, gaussian_highpass. rewrite (low_ok l Hl), (high_ok l Hl).
  rewrite (A (lowH l) ltac:(tot)).
  rewrite (A (highH l) ltac:(tot)).
  eexists. eexists. exists kw'. split; [reflexivity|]. split; [reflexivity|]. split; [now repeat split|]. split; [now repeat split|].
  intros i j In. cbn [g_val]. eexists. eexists. split; [reflexivity|]. split; [reflexivity|].
  rewrite <- Re_plus, <- (out_plus ay ax w _ _ (fun _ _ => Some (RtoC 1))).
  - rewrite out_one; try assumption; [|destruct In; lia|destruct In; lia|reflexivity]. now apply W.
  - intros a b. unfold lowH, highH. cbn [some_c]. rewrite <- RtoC_plus. f_equal. ring.
Qed.

(** No filter with a response of modulus at most one increases the sum of squares. *)
Lemma no_amplification g y0 dy x0 dx kw drop (H : response) : regular g y0 dy x0 dx ->
  (forall a b, exists z, H a b = Some z /\ Re z ^ 2 + Im z ^ 2 <= 1) ->
  exists g', apply_filter even_fft even_pad border g (Ok H) false kw drop = Ok (g', kw) /\ sum_squares g' <= sum_squares g.
Proof.
  intros Rg HH. destruct (apply_regular even_fft even_pad border Efft Epad g y0 dy x0 dx false kw drop Rg) as (ay & ax & oy & ox & w & kw' & Gy & Gx & Ly & Lx & W & _ & P & A & _ & _).
  destruct (P eq_refl) as (-> & -> & -> & -> & Wv & ->).
  assert (T : all_finite (reg_axis y0 dy (ny g)) (reg_axis x0 dx (nx g)) H = true) by (apply total_finite; intros a b; destruct (HH a b) as (z & -> & _); discriminate).
  rewrite (A H T). eexists. split; [reflexivity|]. unfold sum_squares, ny, nx, val. cbn [g_y g_x g_val finite Nat.add].
  pose proof (filtered_energy (reg_axis y0 dy (ny g)) (reg_axis x0 dx (nx g)) (fun i j => RtoC (w i j)) (fun k l => some_c (H (freq (reg_axis y0 dy (ny g)) k) (freq (reg_axis x0 dx (nx g)) l))) Gy Gx) as E.
  unfold energy in E. cbn [a_n reg_axis] in E. eapply Rle_trans; [apply E|].
  - intros k l _ _. destruct (HH (freq (reg_axis y0 dy (ny g)) k) (freq (reg_axis x0 dx (nx g)) l)) as (z & -> & Hz). exact Hz.
  - right. apply sum_over_ext. intros i _. apply sum_over_ext. intros j _. cbn [Re Im RtoC fst snd]. rewrite Wv. unfold val. cbn. ring.
Qed.
Theorem C39_no_amplification g y0 dy x0 dx l kw : regular g y0 dy x0 dx -> l <> 0 ->
  exists gl gh, lowpass g l false kw = Ok (gl, kw) /\ highpass g l false kw = Ok (gh, kw) /\ sum_squares gl <= sum_squares g /\ sum_squares gh <= sum_squares g.
Proof.
  intros Rg Hl. unfold lowpass, highpass, gaussian_lowpass, gaussian_highpass. rewrite (low_ok l Hl), (high_ok l Hl).
  edestruct (no_amplification g y0 dy x0 dx kw false) as (gl & -> & E1); [exact Rg| |].
  { intros a b. unfold lowH, highH. eexists. split; [reflexivity|]. cbn [Re Im RtoC fst snd]. pose proof (gauss_bounds l a b Hl). nra. }
  edestruct (no_amplification g y0 dy x0 dx kw false) as (gh & -> & E2); [exact Rg| |].
  { intros a b. unfold lowH, highH. eexists. split; [reflexivity|]. cbn [Re Im RtoC fst snd]. pose proof (gauss_bounds l a b Hl). nra. }
  exists gl, gh. auto.
Qed.
Theorem C39_zero_wavelength g y0 dy x0 dx pad kw : regular g y0 dy x0 dx -> lowpass g 0 pad kw = Raise ZeroDivisionError /\ highpass g 0 pad kw = Raise ZeroDivisionError.
Proof.
  intros Rg. unfold lowpass, highpass, gaussian_lowpass, gaussian_highpass, gaussian_lowpass_kernel, gaussian_highpass_kernel.
  destruct (Reqb_spec 0 0); [|contradiction]. destruct (apply_regular even_fft even_pad border Efft Epad g y0 dy x0 dx pad kw false Rg) as (ay & ax & oy & ox & w & kw' & Gy & Gx & Ly & Lx & W & _ & P & A & _ & Er). split; apply Er.
Qed.

(** Two filters in a row without padding. *)
Lemma regular_out g y0 dy x0 dx g' : regular g y0 dy x0 dx -> same_nodes g g' -> (forall i j, inside g i j -> g_val g' i j <> NaN) -> regular g' y0 dy x0 dx.
Proof.
  intros [Rd Ry Rx Dy Dx Ny Nx Rv] (E1 & E2 & E3) V. assert (Qy : ny g' = ny g) by (unfold ny; now rewrite E2). assert (Qx : nx g' = nx g) by (unfold nx; now rewrite E3).
  constructor; rewrite ?Qy, ?Qx, ?E1, ?E2, ?E3; try assumption. intros i j Hi Hj. apply V. split; assumption.
Qed.
Lemma two_filters g y0 dy x0 dx kw1 kw2 d1 d2 H1 H2 H3 : regular g y0 dy x0 dx -> total H1 -> total H2 -> total H3 -> 
  (forall i j, (i < ny g)%nat -> (j < nx g)%nat -> Im (out (reg_axis y0 dy (ny g)) (reg_axis x0 dx (nx g)) (val g) H1 i j) = 0) ->
  (forall a b, some_c (H3 a b) = Cmult (some_c (H1 a b)) (some_c (H2 a b))) ->
  exists g1 g2 g3, apply_filter even_fft even_pad border g (Ok H1) false kw1 d1 = Ok (g1, kw1) /\ apply_filter even_fft even_pad border g1 (Ok H2) false kw2 d2 = Ok (g2, kw2) /\
    apply_filter even_fft even_pad border g (Ok H3) false kw1 d1 = Ok (g3, kw1) /\ same_nodes g g2 /\ same_nodes g g3 /\ forall i j, inside g i j -> exists v, g_val g2 i j = Fin v /\ g_val g3 i j = Fin v.
Proof.
  intros Rg T1 T2 T3 Re1 E.
  destruct (apply_regular even_fft even_pad border Efft Epad g y0 dy x0 dx false kw1 d1 Rg) as (ay & ax & oy & ox & w & kw' & Gy & Gx & Ly & Lx & W & _ & P & A & _ & _).
  destruct (P eq_refl) as (-> & -> & -> & -> & Wv & ->).
  set (g1 := Grid (g_dims g) (g_y g) (g_x g) (fun i j => Fin (Re (out (reg_axis y0 dy (ny g)) (reg_axis x0 dx (nx g)) w H1 (0 + i) (0 + j)))) (if d1 then [] else g_extra g)).
  assert (Rg1 : regular g1 y0 dy x0 dx) by (apply (regular_out g); [assumption|now repeat split|intros; discriminate]).
  destruct (apply_regular even_fft even_pad border Efft Epad g1 y0 dy x0 dx false kw2 d2 Rg1) as (ay' & ax' & oy' & ox' & w' & kw'' & _ & _ & _ & _ & W' & _ & P' & A' & _ & _).
  destruct (P' eq_refl) as (-> & -> & -> & -> & Wv' & ->). change (ny g1) with (ny g) in *. change (nx g1) with (nx g) in *.
  exists g1. eexists. eexists. split; [apply A, total_finite; assumption|]. split; [apply A', total_finite; assumption|]. split; [apply A, total_finite; assumption|].
  split; [now repeat split|]. split; [now repeat split|]. intros i j In. cbn [g_val g_dims g_y g_x Nat.add]. eexists. split; [reflexivity|]. f_equal.
  rewrite (out_congr _ _ w' (fun i j => Re (out (reg_axis y0 dy (ny g)) (reg_axis x0 dx (nx g)) w H1 i j))) by (intros; rewrite Wv'; reflexivity).
  rewrite out_compose; try assumption.
  - unfold out. f_equal. apply ifft_ext. intros k l _ _. now rewrite E.
  - intros i' j' Hi Hj. rewrite (out_congr _ _ w (val g)) by (intros; apply Wv). now apply Re1.
Qed.
Ltac totk := intros ? ?; discriminate.

(** C40 *)
Theorem C40_continuations_add g y0 dy x0 dx h1 h2 kw1 kw2 : regular g y0 dy x0 dx ->
  exists g1 g2 g3, upcont g h1 false kw1 = Ok (g1, kw1) /\ upcont g1 h2 false kw2 = Ok (g2, kw2) /\ upcont g (h1 + h2) false kw1 = Ok (g3, kw1) /\ same_nodes g g2 /\ same_nodes g g3 /\
    forall i j, inside g i j -> exists v, g_val g2 i j = Fin v /\ g_val g3 i j = Fin v.
Proof.
  intros Rg. apply (two_filters g y0 dy x0 dx); try totk; try assumption.
  - intros i j Hi Hj. apply even_real_out; [apply reg_good; apply Rg|apply reg_good; apply Rg|apply continuation_even].
  - intros a b. unfold upward_continuation_kernel. cbn [some_c]. rewrite <- RtoC_mult, <- exp_plus. do 2 f_equal. ring.
Qed.
Theorem C40_zero_displacement g y0 dy x0 dx pad kw : regular g y0 dy x0 dx ->
  exists g' kw', upcont g 0 pad kw = Ok (g', kw') /\ same_nodes g g' /\ forall i j, inside g i j -> g_val g' i j = g_val g i j.
Proof.
  intros Rg. destruct (apply_regular even_fft even_pad border Efft Epad g y0 dy x0 dx pad kw true Rg) as (ay & ax & oy & ox & w & kw' & Gy & Gx & Ly & Lx & W & _ & _ & A & _ & _).
  eexists. exists kw'. split; [apply A; tot|]. split; [now repeat split|]. intros i j In. cbn [g_val]. rewrite out_one; try assumption.
  - cbn [Re RtoC fst]. rewrite W by assumption. pose proof (r_val _ _ _ _ _ Rg i j (proj1 In) (proj2 In)) as r_val0. unfold val. destruct (g_val g i j); [contradiction|reflexivity].
  - destruct In; lia.
  - destruct In; lia.
  - intros a b. unfold upward_continuation_kernel. rewrite Rmult_0_r, exp_0. reflexivity.
Qed.
Theorem C40_no_amplification g y0 dy x0 dx h kw : regular g y0 dy x0 dx -> 0 <= h -> exists g', upcont g h false kw = Ok (g', kw) /\ sum_squares g' <= sum_squares g.
Proof.
  intros Rg Hh. apply (no_amplification g y0 dy x0 dx); [exact Rg|]. intros a b. eexists. split; [reflexivity|]. cbn [Re Im RtoC fst snd].
  set (k := sqrt _). assert (Hk : 0 <= k) by apply sqrt_pos.
  assert (E : 0 < exp (- k * h) <= 1).
  { split; [apply exp_pos|]. rewrite <- exp_0. destruct (Req_dec (k * h) 0) as [Z|Z]; [replace (- k * h) with 0 by lra; lra|]. left. apply exp_increasing. pose proof (Rmult_le_pos k h Hk Hh). lra. }
  nra.
Qed.
(** Fields that the grid resolves are continued exactly. *)
Theorem C40_sampled_field g y0 dy x0 dx ws h kw : regular g y0 dy x0 dx -> Forall (resolved (ny g) (nx g)) ws -> samples g (field_value (ny g) (nx g) dy dx ws) ->
  exists g', upcont g h false kw = Ok (g', kw) /\ forall i j, inside g i j -> g_val g' i j = Fin (field_value (ny g) (nx g) dy dx ws (nth i (g_y g) 0) (nth j (g_x g) 0) h).
Proof.
  intros Rg RW S. destruct (apply_regular even_fft even_pad border Efft Epad g y0 dy x0 dx false kw true Rg) as (ay & ax & oy & ox & w & kw' & Gy & Gx & Ly & Lx & W & _ & P & A & _ & _).
  destruct (P eq_refl) as (-> & -> & -> & -> & Wv & ->). eexists. split; [apply A; tot|]. intros i j In. cbn [g_val Nat.add]. f_equal. rewrite <- continuation_value.
  rewrite (out_congr _ _ w (val g)) by (intros; apply Wv). apply waves_out; try assumption. apply even_real_hermitian, continuation_even.
Qed.

(** C41 *)
Theorem C41_upward_orders_add g y0 dy x0 dx m n kw1 kw2 : regular g y0 dy x0 dx ->
  exists g1 g2 g3, dup g m false kw1 = Ok (g1, kw1) /\ dup g1 n false kw2 = Ok (g2, kw2) /\ dup g (m + n) false kw1 = Ok (g3, kw1) /\ same_nodes g g2 /\ same_nodes g g3 /\
    forall i j, inside g i j -> exists v, g_val g2 i j = Fin v /\ g_val g3 i j = Fin v.
Proof.
  intros Rg. apply (two_filters g y0 dy x0 dx); try totk; try assumption.
  - intros i j Hi Hj. apply even_real_out; [apply reg_good; apply Rg|apply reg_good; apply Rg|apply upward_derivative_even].
  - intros a b. unfold derivative_upward_kernel. cbn [some_c]. rewrite <- RtoC_mult, <- pow_add. reflexivity.
Qed.
(** Horizontal derivatives: for an even first order, or on grids with odd sizes. *)
Theorem C41_easting_orders_add_partial g y0 dy x0 dx m n kw1 kw2 : regular g y0 dy x0 dx -> Nat.even m = true \/ Nat.even (ny g) = false /\ Nat.even (nx g) = false ->
  exists g1 g2 g3, deast g m "fft" false kw1 = Ok (g1, kw1) /\ deast g1 n "fft" false kw2 = Ok (g2, kw2) /\ deast g (m + n) "fft" false kw1 = Ok (g3, kw1) /\ same_nodes g g2 /\ same_nodes g g3 /\
    forall i j, inside g i j -> exists v, g_val g2 i j = Fin v /\ g_val g3 i j = Fin v.
Proof.
  intros Rg Hm. apply (two_filters g y0 dy x0 dx); try totk; try assumption.
  - intros i j Hi Hj. destruct Hm as [Hm|[Hy Hx]].
    + apply even_real_out; [apply reg_good; apply Rg|apply reg_good; apply Rg|now apply easting_even].
    + apply odd_out; [apply reg_good; apply Rg|apply reg_good; apply Rg|apply easting_hermitian|exact Hy|exact Hx].
  - intros a b. unfold derivative_easting_kernel. cbn [some_c]. apply cpow_add.
Qed.
Theorem C41_northing_orders_add_partial g y0 dy x0 dx m n kw1 kw2 : regular g y0 dy x0 dx -> Nat.even m = true \/ Nat.even (ny g) = false /\ Nat.even (nx g) = false ->
  exists g1 g2 g3, dnorth g m "fft" false kw1 = Ok (g1, kw1) /\ dnorth g1 n "fft" false kw2 = Ok (g2, kw2) /\ dnorth g (m + n) "fft" false kw1 = Ok (g3, kw1) /\ same_nodes g g2 /\ same_nodes g g3 /\
    forall i j, inside g i j -> exists v, g_val g2 i j = Fin v /\ g_val g3 i j = Fin v.
Proof.
  intros Rg Hm. apply (two_filters g y0 dy x0 dx); try totk; try assumption.
  - intros i j Hi Hj. destruct Hm as [Hm|[Hy Hx]].
    + apply even_real_out; [apply reg_good; apply Rg|apply reg_good; apply Rg|now apply northing_even].
    + apply odd_out; [apply reg_good; apply Rg|apply reg_good; apply Rg|apply northing_hermitian|exact Hy|exact Hx].
  - intros a b. unfold derivative_northing_kernel. cbn [some_c]. apply cpow_add.
Qed.
Theorem C41_laplace g y0 dy x0 dx pad kw : regular g y0 dy x0 dx ->
  exists ge gn gu kw', deast g 2 "fft" pad kw = Ok (ge, kw') /\ dnorth g 2 "fft" pad kw = Ok (gn, kw') /\ dup g 2 pad kw = Ok (gu, kw') /\
    forall i j, inside g i j -> exists a b c, g_val ge i j = Fin a /\ g_val gn i j = Fin b /\ g_val gu i j = Fin c /\ a + b + c = 0.
Proof.
  intros Rg. destruct (apply_regular even_fft even_pad border Efft Epad g y0 dy x0 dx pad kw false Rg) as (ay & ax & oy & ox & w & kw' & Gy & Gx & Ly & Lx & W & _ & _ & A & _ & _).
  eexists. eexists. eexists. exists kw'. split; [apply A; tot|]. split; [apply A; tot|]. split; [apply A; tot|].
  intros i j In. cbn [g_val]. eexists. eexists. eexists. split; [reflexivity|]. split; [reflexivity|]. split; [reflexivity|].
  rewrite <- Re_plus, <- (out_plus ay ax w _ _ (fun a b => Some (RtoC (- k_of b ^ 2 - k_of a ^ 2)))).
  2:{ intros a b. unfold derivative_easting_kernel, derivative_northing_kernel. cbn [some_c]. pose proof (cpow_even (k_of a) 1) as E1. pose proof (cpow_even (k_of b) 1) as E2. cbn [Nat.mul Nat.add] in E1, E2. rewrite E1, E2, <- RtoC_plus. f_equal. ring. }
  rewrite <- Re_plus, <- (out_plus ay ax w _ _ (fun a b => Some (RtoC 0))).
  2:{ intros a b. unfold derivative_upward_kernel. cbn [some_c]. rewrite <- RtoC_plus. f_equal. rewrite sq_opp, pow2_sqrt by (pose proof (pow2_ge_0 (k_of a)); pose proof (pow2_ge_0 (k_of b)); lra). ring. }
  unfold out. rewrite (ifft_ext ay ax _ (fun k l => Cmult (RtoC 0) (RtoC 0))) by (intros; cbn [some_c]; ring). rewrite ifft_scal. cbn. ring.
Qed.

(** Rate of change of sums of waves. *)
Definition cderive (f : R -> C) (h : R) (d : C) : Prop := is_derive (fun t : R => Re (f t)) h (Re d) /\ is_derive (fun t : R => Im (f t)) h (Im d).
Lemma cderive_csum n (f : R -> nat -> C) h d : (forall k, cderive (fun t => f t k) h (d k)) -> cderive (fun t => csum n (f t)) h (csum n d).
Proof.
  intros H. induction n as [|n IH].
  - split; cbn; exact (is_derive_const (K := R_AbsRing) (V := R_NormedModule) 0 h).
  - destruct IH as [I1 I2]. destruct (H n) as [H1 H2]. split; cbn [csum]; [apply (is_derive_plus (V := R_NormedModule) (fun t => Re (csum n (f t))))|apply (is_derive_plus (V := R_NormedModule) (fun t => Im (csum n (f t))))]; assumption.
Qed.
Lemma cderive_mult_l c f h d : cderive f h d -> cderive (fun t => Cmult c (f t)) h (Cmult c d).
Proof.
  intros [H1 H2]. destruct c as [a b]. split.
  - apply (is_derive_minus (V := R_NormedModule) (fun t => a * Re (f t)) (fun t => b * Im (f t)) h (a * Re d) (b * Im d)); now apply is_derive_scal.
  - apply (is_derive_plus (V := R_NormedModule) (fun t => a * Im (f t)) (fun t => b * Re (f t)) h (a * Im d) (b * Re d)); now apply is_derive_scal.
Qed.
Lemma cderive_ext f g h d : (forall t, f t = g t) -> cderive f h d -> cderive g h d.
Proof. intros E [H1 H2]. split; [apply (is_derive_ext (fun t => Re (f t)))|apply (is_derive_ext (fun t => Im (f t)))]; try assumption; intros t; now rewrite E. Qed.
Lemma out_derive ay ax w (H : R -> response) (D : response) h i j :
  (forall a b, cderive (fun t => some_c (H t a b)) h (some_c (D a b))) -> cderive (fun t => out ay ax w (H t) i j) h (out ay ax w D i j).
Proof.
  intros HD. unfold out, ifft. apply cderive_mult_l. unfold csum2. apply (cderive_csum _ (fun t k => _)). intros k. apply (cderive_csum _ (fun t l => _)). intros l.
  eapply cderive_ext; [|replace (Cmult (Cmult (fft2 ay ax (fun i0 j0 => RtoC (w i0 j0)) k l) (some_c (D (freq ay k) (freq ax l)))) (cis (2 * PI * (freq ay k * position ay i + freq ax l * position ax j))))
     with (Cmult (Cmult (fft2 ay ax (fun i0 j0 => RtoC (w i0 j0)) k l) (cis (2 * PI * (freq ay k * position ay i + freq ax l * position ax j)))) (some_c (D (freq ay k) (freq ax l)))) by ring; apply cderive_mult_l; apply HD].
  intros t. cbv beta. ring.
Qed.
Lemma continuation_cderive h a b : cderive (fun t => some_c (upward_continuation_kernel t a b)) h (Cmult (some_c (upward_continuation_kernel h a b)) (some_c (derivative_upward_kernel 1 a b))).
Proof.
  unfold upward_continuation_kernel, derivative_upward_kernel. cbn [some_c]. set (k := sqrt _). split; cbn.
  - auto_derive; [exact I|]. ring.
  - evar_last; [apply (is_derive_const (V := R_NormedModule))|]. cbn. ring.
Qed.
(** The upward derivative is the rate of change of the upward continuation: from the original level with any
    padding, and from every level without padding. *)
Theorem C41_rate_of_continuation g y0 dy x0 dx pad kw i j : regular g y0 dy x0 dx -> inside g i j ->
  exists gu kw' d, dup g 1 pad kw = Ok (gu, kw') /\ g_val gu i j = Fin d /\ is_derive (fun h => height_of (upcont g h pad kw) i j) 0 d.
Proof.
  intros Rg In. destruct (apply_regular even_fft even_pad border Efft Epad g y0 dy x0 dx pad kw false Rg) as (ay & ax & oy & ox & w & kw' & Gy & Gx & Ly & Lx & W & _ & _ & A & _ & _).
  assert (B : forall h, height_of (upcont g h pad kw) i j = Re (out ay ax w (upward_continuation_kernel h) (oy + i) (ox + j))).
  { intros h. pose proof (A (upward_continuation_kernel h) ltac:(tot)) as E. unfold upcont, upward_continuation, apply_filter in *.
    destruct (grid_sanity_checks g) as [[]|]; [|discriminate]. cbn [bind] in *. destruct pad.
    - destruct (match kw_width _ with Some p => p | None => _ end) as [wy wx]. destruct (pad_axis even_pad wy (g_y g)) as [py|]; [|discriminate]. cbn [bind] in *. destruct (pad_axis even_pad wx (g_x g)) as [px|]; [|discriminate]. cbn [bind] in *.
      destruct (filter_values _ _ _ _ _) as [o|]; [|discriminate]. cbn [bind] in *. cbn [height_of]. injection E as E _. unfold val. cbn [g_val]. apply (f_equal (fun f => f i j)) in E. rewrite E. reflexivity.
    - destruct (filter_values _ _ _ _ _) as [o|]; [|discriminate]. cbn [bind] in *. cbn [height_of]. injection E as E _. unfold val. cbn [g_val]. apply (f_equal (fun f => f i j)) in E. rewrite E. reflexivity. }
  eexists. exists kw'. eexists. split; [apply A; tot|]. split; [reflexivity|].
  apply (is_derive_ext (fun h => Re (out ay ax w (upward_continuation_kernel h) (oy + i) (ox + j)))); [intros; symmetry; apply B|].
  refine (proj1 (out_derive ay ax w upward_continuation_kernel (derivative_upward_kernel 1) 0 (oy + i) (ox + j) _)).
  intros a b. pose proof (continuation_cderive 0 a b) as Q. replace (some_c (upward_continuation_kernel 0 a b)) with (RtoC 1) in Q by (unfold upward_continuation_kernel; cbn [some_c]; now rewrite Rmult_0_r, exp_0). rewrite Cmult_1_l in Q. exact Q.
Qed.
Theorem C41_rate_of_continuation_at_every_level g y0 dy x0 dx kw kw2 i j h : regular g y0 dy x0 dx -> inside g i j ->
  exists gh gu d, upcont g h false kw = Ok (gh, kw) /\ dup gh 1 false kw2 = Ok (gu, kw2) /\ g_val gu i j = Fin d /\ is_derive (fun h => height_of (upcont g h false kw) i j) h d.
Proof.
  intros Rg In. set (H3 := (fun a b => Some (Cmult (some_c (upward_continuation_kernel h a b)) (some_c (derivative_upward_kernel 1 a b)))) : response).
  destruct (two_filters g y0 dy x0 dx kw kw2 true false (upward_continuation_kernel h) (derivative_upward_kernel 1) H3) as (g1 & g2 & g3 & E1 & E2 & E3 & _ & _ & V); try totk; try assumption.
  { intros i' j' _ _. apply even_real_out; [apply reg_good; apply Rg|apply reg_good; apply Rg|apply continuation_even]. }
  { reflexivity. }
  destruct (V i j In) as (d & V2 & V3). exists g1, g2, d. split; [exact E1|]. split; [exact E2|]. split; [exact V2|].
  destruct (apply_regular even_fft even_pad border Efft Epad g y0 dy x0 dx false kw true Rg) as (ay & ax & oy & ox & w & kw' & Gy & Gx & Ly & Lx & W & _ & P & A & _ & _).
  destruct (P eq_refl) as (-> & -> & -> & -> & Wv & ->).
  apply (is_derive_ext (fun h => Re (out (reg_axis y0 dy (ny g)) (reg_axis x0 dx (nx g)) w (upward_continuation_kernel h) (0 + i) (0 + j)))).
  { intros t. unfold upcont, upward_continuation. rewrite A by tot. reflexivity. }
  rewrite A in E3 by tot. injection E3 as E3. subst g3. cbn [g_val] in V3. injection V3 as V3. rewrite <- V3.
  refine (proj1 (out_derive _ _ w upward_continuation_kernel H3 h _ _ _)). intros a b. apply continuation_cderive.
Qed.
(** On fields the grid resolves, the derivative grids are the derivatives of the field. *)
Theorem C41_sampled_field g y0 dy x0 dx ws order kw : regular g y0 dy x0 dx -> Forall (resolved (ny g) (nx g)) ws -> samples g (field_value (ny g) (nx g) dy dx ws) ->
  let F := field_value (ny g) (nx g) dy dx ws in
  exists ge gn gu, deast g order "fft" false kw = Ok (ge, kw) /\ dnorth g order "fft" false kw = Ok (gn, kw) /\ dup g order false kw = Ok (gu, kw) /\
    forall i j, inside g i j -> let y := nth i (g_y g) 0 in let x := nth j (g_x g) 0 in
      g_val ge i j = Fin (Derive_n (fun e => F y e 0) order x) /\ g_val gn i j = Fin (Derive_n (fun n => F n x 0) order y) /\ g_val gu i j = Fin (Derive_n (fun u => F y x u) order 0).
Proof.
  intros Rg RW S F. destruct (apply_regular even_fft even_pad border Efft Epad g y0 dy x0 dx false kw false Rg) as (ay & ax & oy & ox & w & kw' & Gy & Gx & Ly & Lx & W & _ & P & A & _ & _).
  destruct (P eq_refl) as (-> & -> & -> & -> & Wv & ->). eexists. eexists. eexists. split; [apply A; tot|]. split; [apply A; tot|]. split; [apply A; tot|].
  intros i j In y x. cbn [g_val Nat.add]. unfold F, y, x. rewrite <- easting_value, <- northing_value, <- upward_value. rewrite !(out_congr _ _ w (val g)) by (intros; apply Wv).
  repeat split; f_equal; apply waves_out; try assumption; [apply easting_hermitian|apply northing_hermitian|apply even_real_hermitian, upward_derivative_even].
Qed.

(** C42 *)
Theorem C42_real_filters y0 dy x0 dx n m v H i j : 0 < dy -> 0 < dx -> (2 <= n)%nat -> (2 <= m)%nat ->
  (exists o, H = derivative_upward_kernel o) \/ (exists h, H = upward_continuation_kernel h) \/ (exists l, gaussian_lowpass_kernel l = Ok H) \/ (exists l, gaussian_highpass_kernel l = Ok H) \/
  (exists o, Nat.even o = true /\ (H = derivative_easting_kernel o \/ H = derivative_northing_kernel o)) ->
  exists ay ax, axis_of even_fft (even_axis y0 dy n) = Ok ay /\ axis_of even_fft (even_axis x0 dx m) = Ok ax /\
    Im (ifft ay ax (fun k l => Cmult (fft ay ax v k l) (some_c (H (freq ay k) (freq ax l)))) i j) = 0.
Proof.
  intros Dy Dx Hn Hm HH. exists (reg_axis y0 dy n), (reg_axis x0 dx m). split; [now apply axis_even|]. split; [now apply axis_even|]. rewrite out_fft by reflexivity.
  apply even_real_out; [now apply reg_good|now apply reg_good|].
  destruct HH as [(o & ->)|[(h & ->)|[(l & E)|[(l & E)|(o & Eo & [-> | ->])]]]].
  - apply upward_derivative_even.
  - apply continuation_even.
  - now apply (lowpass_even l).
  - now apply (highpass_even l).
  - now apply easting_even.
  - now apply northing_even.
Qed.
Theorem C42_odd_sizes y0 dy x0 dx n m v H i j : 0 < dy -> 0 < dx -> (2 <= n)%nat -> (2 <= m)%nat -> Nat.even n = false -> Nat.even m = false ->
  (exists o, H = derivative_easting_kernel o \/ H = derivative_northing_kernel o) \/ (exists inc dec mi md, reduction_to_pole_kernel inc dec (Some mi) (Some md) = Ok H) ->
  exists ay ax, axis_of even_fft (even_axis y0 dy n) = Ok ay /\ axis_of even_fft (even_axis x0 dx m) = Ok ax /\
    Im (ifft ay ax (fun k l => Cmult (fft ay ax v k l) (some_c (H (freq ay k) (freq ax l)))) i j) = 0.
Proof.
  intros Dy Dx Hn Hm On Om HH. exists (reg_axis y0 dy n), (reg_axis x0 dx m). split; [now apply axis_even|]. split; [now apply axis_even|]. rewrite out_fft by reflexivity.
  apply odd_out; [now apply reg_good|now apply reg_good| |assumption|assumption].
  destruct HH as [(o & [-> | ->])|(inc & dec & mi & md & E)].
  - apply easting_hermitian.
  - apply northing_hermitian.
  - now apply (rtp_hermitian inc dec mi md).
Qed.

(** C43 *)
Lemma out_mean ay ax w i j : good ay -> good ax ->
  out ay ax w (fun a b => Some (if (Reqb a 0 && Reqb b 0)%bool then RtoC 1 else RtoC 0)) i j = RtoC (energy (a_n ay) (a_n ax) w / (INR (a_n ay) * INR (a_n ax))).
Proof.
  intros Gy Gx.
  assert (Z : forall a k, good a -> (k < a_n a)%nat -> (freq a k = 0 <-> k = (a_n a / 2)%nat)).
  { intros a k [Hn Hd] Hk. unfold freq. assert (N : INR (a_n a) * a_d a <> 0) by (apply Rmult_integral_contrapositive; split; [apply not_0_INR; lia|assumption]). split.
    - intros E. apply INR_eq. apply Rmult_integral in E. destruct E as [E|E]; [lra|]. now apply Rinv_neq_0_compat in E.
    - intros ->. unfold Rdiv. rewrite Rminus_diag_eq by reflexivity. ring. }
  assert (L : forall a, good a -> (a_n a / 2 < a_n a)%nat) by (intros a [Hn _]; apply Nat.div_lt; lia).
  assert (W1 : forall a i, good a -> wave a (a_n a / 2) i = RtoC 1) by (intros a i0 G; unfold wave; rewrite (proj2 (Z a (a_n a / 2)%nat G (L a G)) eq_refl); rewrite Rmult_0_l, Rmult_0_r; apply cis_0).
  assert (W2 : forall a i, good a -> waven a (a_n a / 2) i = RtoC 1) by (intros a i0 G; unfold waven; rewrite (proj2 (Z a (a_n a / 2)%nat G (L a G)) eq_refl); rewrite Rmult_0_l, Rmult_0_r, Ropp_0; apply cis_0).
  unfold out. rewrite ifft_idft. unfold idft at 1. rewrite (csum_single _ _ (a_n ay / 2)%nat (L ay Gy)).
  2:{ intros k Hk N. unfold idft. rewrite csum_zero; [ring|]. intros l Hl. cbn [some_c]. destruct (Reqb_spec (freq ay k) 0) as [E|]; [apply (Z ay k Gy Hk) in E; contradiction|]. cbn [andb]. ring. }
  rewrite W1 by assumption. unfold idft. rewrite (csum_single _ _ (a_n ax / 2)%nat (L ax Gx)).
  2:{ intros l Hl N. cbn [some_c]. destruct (Reqb_spec (freq ax l) 0) as [E|]; [apply (Z ax l Gx Hl) in E; contradiction|]. rewrite andb_false_r. ring. }
  rewrite W1 by assumption. cbn [some_c]. rewrite (proj2 (Z ay _ Gy (L ay Gy)) eq_refl), (proj2 (Z ax _ Gx (L ax Gx)) eq_refl). destruct (Reqb_spec 0 0); [|contradiction]. cbn [andb].
  unfold fft2, dft. rewrite (csum_ext (a_n ay) _ (fun i0 => RtoC (sum_over (range 0 (a_n ax)) (fun j0 => w i0 j0)))).
  2:{ intros i0 _. rewrite W2 by assumption. rewrite Cmult_1_r. rewrite <- csum_RtoC. apply csum_ext. intros j0 _. rewrite W2 by assumption. ring. }
  rewrite csum_RtoC. fold (energy (a_n ay) (a_n ax) w). rewrite !Cmult_1_r, <- !RtoC_mult. f_equal.
  destruct Gy as [Ny Dy]. destruct Gx as [Nx Dx]. assert (INR (a_n ay) <> 0) by (apply not_0_INR; lia). assert (INR (a_n ax) <> 0) by (apply not_0_INR; lia). field. repeat split; assumption.
Qed.
Lemma sin_inc_90 : sin_inc 90 = 1.
Proof. unfold sin_inc. replace (radians 90) with (PI / 2) by (unfold radians; field). apply sin_PI2. Qed.
Lemma direction_90 d : direction 90 d = down.
Proof. unfold direction, down. replace (radians 90) with (PI / 2) by (unfold radians; field). rewrite cos_PI2, sin_PI2. f_equal; ring. Qed.
Lemma rtp_ok i d mi md : exists H, reduction_to_pole_kernel i d (Some mi) (Some md) = Ok H.
Proof. eexists. reflexivity. Qed.
Lemma rtp_finite i d mi md H ay ax : sin_inc i <> 0 -> sin_inc mi <> 0 -> reduction_to_pole_kernel i d (Some mi) (Some md) = Ok H -> all_finite ay ax H = true.
Proof. intros Hi Hm E. apply total_finite. intros a b. rewrite (rtp_total i d mi md H Hi Hm E). discriminate. Qed.
Theorem C43_at_the_pole g y0 dy x0 dx d md pad kw : regular g y0 dy x0 dx ->
  exists g' kw' c, rtp g 90 d (Some 90) (Some md) pad kw = Ok (g', kw') /\ (forall i j, inside g i j -> g_val g' i j = Fin (val g i j - c)) /\ (pad = false -> c = mean g).
Proof.
  intros Rg. destruct (rtp_ok 90 d 90 md) as [H EH]. destruct (apply_regular even_fft even_pad border Efft Epad g y0 dy x0 dx pad kw false Rg) as (ay & ax & oy & ox & w & kw' & Gy & Gx & Ly & Lx & W & _ & P & A & _ & _).
  assert (S1 : sin_inc 90 <> 0) by (rewrite sin_inc_90; lra). unfold rtp, reduction_to_pole. rewrite EH, A by (now apply (rtp_finite 90 d 90 md)).
  eexists. exists kw', (energy (a_n ay) (a_n ax) w / (INR (a_n ay) * INR (a_n ax))). split; [reflexivity|]. split.
  - intros i j In. cbn [g_val]. f_equal.
    assert (Q : out ay ax w (fun _ _ => Some (RtoC 1)) (oy + i) (ox + j) = Cplus (out ay ax w H (oy + i) (ox + j)) (out ay ax w (fun a b => Some (if (Reqb a 0 && Reqb b 0)%bool then RtoC 1 else RtoC 0)) (oy + i) (ox + j))).
    { apply out_plus. intros a b. rewrite (rtp_total 90 d 90 md H S1 S1 EH). cbn [some_c]. rewrite !direction_90, !dirfac_down.
      destruct (Reqb_spec a 0) as [Ea|Ea]; destruct (Reqb_spec b 0) as [Eb|Eb]; cbn [andb]; try ring.
      all: assert (P0 : 0 < k_of b ^ 2 + k_of a ^ 2) by (unfold k_of; pose proof PI_RGT_0; pose proof (pow2_ge_0 (2 * PI * a)); pose proof (pow2_ge_0 (2 * PI * b));
           first [assert (0 < (2 * PI * a) ^ 2) by (apply pow2_gt_0; apply Rmult_integral_contrapositive; split; [lra|assumption]); lra
                 |assert (0 < (2 * PI * b) ^ 2) by (apply pow2_gt_0; apply Rmult_integral_contrapositive; split; [lra|assumption]); lra]).
      all: rewrite <- (sqrt_sqrt (k_of b ^ 2 + k_of a ^ 2)) at 1 by lra; assert (K : sqrt (k_of b ^ 2 + k_of a ^ 2) <> 0) by (apply Rgt_not_eq, sqrt_lt_R0; assumption); rewrite <- RtoC_inv by assumption; rewrite <- !RtoC_mult, <- RtoC_plus; f_equal; field; assumption. }
    rewrite out_one in Q; try assumption; [|destruct In; lia|destruct In; lia|reflexivity]. rewrite out_mean in Q by assumption. apply (f_equal Re) in Q. rewrite Re_plus in Q. cbn [Re RtoC fst] in Q.
    rewrite W in Q by assumption. unfold Re. unfold Re in Q. lra.
  - intros Ep. destruct (P Ep) as (_ & _ & -> & -> & Wv & _). unfold mean. cbn [a_n reg_axis]. f_equal. apply sum_over_ext. intros i _. apply sum_over_ext. intros j _. apply Wv.
Qed.
(** The total field anomaly of a source with uniform direction of magnetisation is the second derivative of a
    harmonic potential along the field and the magnetisation; reduction to the pole turns both to vertical. *)
Theorem C43_sampled_field g y0 dy x0 dx ws inc dec mi md kw : regular g y0 dy x0 dx -> Forall (resolved (ny g) (nx g)) ws -> sin (radians inc) <> 0 -> sin (radians mi) <> 0 ->
  let phi := field_value (ny g) (nx g) dy dx ws in
  samples g (along (direction mi md) (along (direction inc dec) phi)) ->
  exists g', rtp g inc dec (Some mi) (Some md) false kw = Ok (g', kw) /\
    forall i j, inside g i j -> g_val g' i j = Fin (along (V3 0 0 (-1)) (along (V3 0 0 (-1)) phi) (nth i (g_y g) 0) (nth j (g_x g) 0) 0).
Proof.
  intros Rg RW Hi Hm phi S. destruct (rtp_ok inc dec mi md) as [H EH]. destruct (apply_regular even_fft even_pad border Efft Epad g y0 dy x0 dx false kw false Rg) as (ay & ax & oy & ox & w & kw' & Gy & Gx & Ly & Lx & W & _ & P & A & _ & _).
  destruct (P eq_refl) as (-> & -> & -> & -> & Wv & ->). unfold rtp, reduction_to_pole. rewrite EH, A by (now apply (rtp_finite inc dec mi md)). eexists. split; [reflexivity|].
  intros i j In. cbn [g_val Nat.add]. f_equal. rewrite (out_congr _ _ w (val g)) by (intros; apply Wv). unfold phi. rewrite along2_wavesum. change (V3 0 0 (-1)) with down. 
  rewrite <- (rtp_value (ny g) (nx g) dy dx ws inc dec mi md H) by assumption.
  apply waves_out; try assumption.
  - now apply (rtp_hermitian inc dec mi md).
  - rewrite Forall_map. eapply Forall_impl; [|exact RW]. intros w0 [? ?]. split; assumption.
  - intros i' j' In'. rewrite S by assumption. unfold phi. rewrite along2_wavesum. apply wavesum_field.
Qed.
(** The documented default of the magnetisation angles fails. *)
Theorem C43_default_angles_refuted : exists inc dec, forall g y0 dy x0 dx pad kw, regular g y0 dy x0 dx -> rtp g inc dec None None pad kw = Raise TypeError.
Proof.
  exists 45, 10. intros g y0 dy x0 dx pad kw Rg. destruct (apply_regular even_fft even_pad border Efft Epad g y0 dy x0 dx pad kw false Rg) as (ay & ax & oy & ox & w & kw' & Gy & Gx & Ly & Lx & W & _ & P & A & _ & Er). apply Er.
Qed.
(** At the magnetic equator every value of the result is missing. *)
Theorem C43_equator_refuted : exists inc dec mi md, forall g y0 dy x0 dx pad kw, regular g y0 dy x0 dx ->
  exists g' kw', rtp g inc dec (Some mi) (Some md) pad kw = Ok (g', kw') /\ forall i j, g_val g' i j = NaN.
Proof.
  exists 0, 0, 0, 0. intros g y0 dy x0 dx pad kw Rg. destruct (rtp_ok 0 0 0 0) as [H EH]. destruct (apply_regular even_fft even_pad border Efft Epad g y0 dy x0 dx pad kw false Rg) as (ay & ax & oy & ox & w & kw' & Gy & Gx & Ly & Lx & W & _ & P & _ & B & _).
  unfold rtp, reduction_to_pole. rewrite EH. eexists. eexists. split; [apply B|reflexivity]. destruct (all_finite ay ax H) eqn:F; [|reflexivity]. exfalso. rewrite all_finite_spec in F.
  pose proof (r_nx _ _ _ _ _ Rg) as Nx. assert (Hh : (a_n ay / 2 < a_n ay)%nat) by (apply Nat.div_lt; destruct Gy; lia). specialize (F (a_n ay / 2)%nat 0%nat Hh ltac:(destruct Gx; lia)). apply F.
  unfold reduction_to_pole_kernel in EH. apply ok_inj in EH. subst H. cbv beta zeta. unfold magnetic_angles_to_vec.
  assert (F0 : freq ay (a_n ay / 2) = 0) by (unfold freq, Rdiv; rewrite Rminus_diag_eq by reflexivity; ring). rewrite F0.
  assert (F1 : freq ax 0 <> 0).
  { unfold freq. destruct Gx as [Px Dx]. apply Rmult_integral_contrapositive. split; [|apply Rinv_neq_0_compat, Rmult_integral_contrapositive; split; [apply not_0_INR; lia|assumption]].
    cbn [INR]. assert (0 < INR (a_n ax / 2)) by (apply lt_0_INR; apply Nat.div_str_pos; lia). lra. }
  destruct (Reqb_spec (freq ax 0) 0); [contradiction|]. rewrite andb_false_r.
  assert (R0 : radians 0 = 0) by (unfold radians; field). rewrite R0, sin_0, cos_0. 
  unfold cinv. cbn [Re Im fst snd]. unfold k_of at 2 5. rewrite Rmult_0_r. 
  match goal with |- omul (omul _ (if Req_EM_T ?a 0 then _ else _)) _ = None => assert (Za : a = 0) by ring; destruct (Req_EM_T a 0) as [_|N0]; [|contradiction] end.
  match goal with |- omul (omul _ (if Req_EM_T ?a 0 then _ else _)) _ = None => assert (Zb : a = 0) by (unfold k_of; ring); destruct (Req_EM_T a 0) as [_|N0]; [|contradiction] end.
  reflexivity.
Qed.
End Props.

(** On grids with an even number of columns the wave at the Nyquist wavenumber has a purely imaginary first
    derivative, which is dropped: the derivative of the derivative is not the second derivative. *)
Definition stripes : grid := grid22 1 (-1) 1 (-1).
Definition ax22 : axis := reg_axis 0 1 2.
Lemma stripes_regular : regular stripes 0 1 0 1.
Proof. apply grid22_regular. Qed.
Lemma ax22_good : good ax22.
Proof. apply reg_good; [lra|lia]. Qed.
Lemma freq22_0 : freq ax22 0 = - / 2.
Proof. unfold freq, ax22, reg_axis. cbn. lra. Qed.
Lemma freq22_1 : freq ax22 1 = 0.
Proof. unfold freq, ax22, reg_axis. cbn. lra. Qed.
Lemma wave22_1 i : wave ax22 1 i = RtoC 1.
Proof. unfold wave. rewrite freq22_1, Rmult_0_l, Rmult_0_r. apply cis_0. Qed.
Lemma wave22_0 i : (i < 2)%nat -> wave ax22 0 i = RtoC (if Nat.eqb i 0 then 1 else -1).
Proof.
  intros Hi. unfold wave. rewrite freq22_0. unfold ax22. rewrite reg_position. destruct i as [|[|i]]; [| |lia]; cbn [INR Nat.eqb].
  - replace (2 * PI * (- / 2 * (0 + 0 * 1))) with 0 by ring. apply cis_0.
  - replace (2 * PI * (- / 2 * (0 + 1 * 1))) with (- PI) by field. unfold cis. now rewrite cos_neg, sin_neg, cos_PI, sin_PI, Ropp_0.
Qed.
Lemma stripes_out v H i j : (i < 2)%nat -> (j < 2)%nat -> (forall i j, (i < 2)%nat -> (j < 2)%nat -> v i j = if Nat.eqb j 0 then 1 else -1) ->
  out ax22 ax22 v H i j = Cmult (some_c (H 0 (- / 2))) (RtoC (if Nat.eqb j 0 then 1 else -1)).
Proof.
  intros Hi Hj Hv. unfold out. rewrite (ifft_ext ax22 ax22 _ (fun k l => Cmult (fft2 ax22 ax22 (fun i j => Cmult (RtoC 1) (Cmult (wave ax22 1 i) (wave ax22 0 j))) k l) (some_c (H (freq ax22 k) (freq ax22 l))))).
  - rewrite (filtered_wave ax22 ax22 (RtoC 1) 1 0 (fun k l => some_c (H (freq ax22 k) (freq ax22 l)))) by (try apply ax22_good; cbn; lia).
    rewrite wave22_1, wave22_0, freq22_0, freq22_1 by assumption. ring.
  - intros k l _ _. f_equal. apply fft2_ext. intros i' j' Hi' Hj'. cbn in Hi', Hj'. rewrite wave22_1, wave22_0, Hv by assumption. ring.
Qed.
Lemma stripes_first v i j : (i < 2)%nat -> (j < 2)%nat -> (forall i j, (i < 2)%nat -> (j < 2)%nat -> v i j = if Nat.eqb j 0 then 1 else -1) ->
  out ax22 ax22 v (derivative_easting_kernel 1) i j = (0, - PI * (if Nat.eqb j 0 then 1 else -1)).
Proof.
  intros Hi Hj Hv. rewrite stripes_out by assumption. unfold derivative_easting_kernel, k_of. cbn [some_c cpow]. ceq; cbn; field.
Qed.
Theorem C41_easting_orders_add_refuted : forall even_fft even_pad border, accepts_even even_fft -> accepts_even even_pad -> exists g y0 dy x0 dx g1 g2 g3, regular g y0 dy x0 dx /\
  derivative_easting even_fft even_pad border g 1 "fft" false None = Ok (g1, None) /\ derivative_easting even_fft even_pad border g1 1 "fft" false None = Ok (g2, None) /\
  derivative_easting even_fft even_pad border g 2 "fft" false None = Ok (g3, None) /\ g_val g2 0 0 = Fin 0 /\ g_val g3 0 0 = Fin (- PI ^ 2).
Proof.
  intros ef ep bd He Hp. pose proof stripes_regular as Rg. exists stripes, 0, 1, 0, 1.
  destruct (apply_regular ef ep bd He Hp stripes 0 1 0 1 false None false Rg) as (ay & ax & oy & ox & w & kw' & Gy & Gx & Ly & Lx & W & _ & P & A & _ & _).
  destruct (P eq_refl) as (-> & -> & -> & -> & Wv & ->). change (reg_axis 0 1 (ny stripes)) with ax22 in A. change (reg_axis 0 1 (nx stripes)) with ax22 in A.
  assert (V : forall i j, (i < 2)%nat -> (j < 2)%nat -> w i j = if Nat.eqb j 0 then 1 else -1) by (intros i j _ _; rewrite Wv; cbn; destruct (Nat.eqb i 0); reflexivity).
  set (g1 := Grid (g_dims stripes) (g_y stripes) (g_x stripes) (fun i j => Fin (Re (out ax22 ax22 w (derivative_easting_kernel 1) (0 + i) (0 + j)))) (g_extra stripes)).
  assert (Rg1 : regular g1 0 1 0 1) by (apply (regular_out stripes); [assumption|now repeat split|intros; discriminate]).
  destruct (apply_regular ef ep bd He Hp g1 0 1 0 1 false None false Rg1) as (ay' & ax' & oy' & ox' & w' & kw'' & _ & _ & _ & _ & W' & _ & P' & A' & _ & _).
  destruct (P' eq_refl) as (-> & -> & -> & -> & Wv' & ->). change (reg_axis 0 1 (ny g1)) with ax22 in A'. change (reg_axis 0 1 (nx g1)) with ax22 in A'.
  exists g1. eexists. eexists. split; [exact Rg|]. split; [apply A, total_finite; intros ? ?; discriminate|]. split; [apply A', total_finite; intros ? ?; discriminate|]. split; [apply A, total_finite; intros ? ?; discriminate|].
  cbn [g_val Nat.add]. split; f_equal.
  - rewrite (out_congr _ _ w' (fun _ _ => 0)); [now rewrite out_zero|]. intros i j Hi Hj. rewrite Wv'. unfold val, g1. cbn [g_val finite Nat.add]. rewrite stripes_first by assumption. reflexivity.
  - rewrite stripes_out by (assumption || lia). unfold derivative_easting_kernel, k_of. cbn [some_c cpow Nat.eqb]. cbn. field.
Qed.
(** The part of the result that is discarded is not zero there. *)
Theorem C42_even_size_refuted : forall even_fft, accepts_even even_fft -> exists y0 dy x0 dx n m v i j ay ax, 0 < dy /\ 0 < dx /\ (2 <= n)%nat /\ (2 <= m)%nat /\
  axis_of even_fft (even_axis y0 dy n) = Ok ay /\ axis_of even_fft (even_axis x0 dx m) = Ok ax /\
  Im (ifft ay ax (fun k l => Cmult (fft ay ax v k l) (some_c (derivative_easting_kernel 1 (freq ay k) (freq ax l)))) i j) = - PI.
Proof.
  intros ef He. exists 0, 1, 0, 1, 2%nat, 2%nat, (fun i j => if Nat.eqb j 0 then 1 else -1), 0%nat, 0%nat, ax22, ax22. repeat split; try lra; try lia; try (apply axis_even; [assumption|lra|lia]).
  rewrite out_fft by reflexivity. rewrite stripes_first by (try lia; reflexivity). cbn. lra.
Qed.

(** ** The hypotheses are met *)
Example C39_example border : exists gl gh kw', gaussian_lowpass (fun _ => true) (fun _ => true) border (grid22 1 2 3 5) 10 true None = Ok (gl, kw') /\
  gaussian_highpass (fun _ => true) (fun _ => true) border (grid22 1 2 3 5) 10 true None = Ok (gh, kw') /\ exists a b, g_val gl 1 1 = Fin a /\ g_val gh 1 1 = Fin b /\ a + b = 5.
Proof.
  destruct (C39_complementary _ _ border all_even all_even _ _ _ _ _ 10 true None (grid22_regular 1 2 3 5) ltac:(lra)) as (gl & gh & kw' & E1 & E2 & _ & _ & V). exists gl, gh, kw'. split; [exact E1|]. split; [exact E2|].
  destruct (V 1%nat 1%nat) as (a & b & Va & Vb & Vs); [split; cbn; lia|]. exists a, b. auto.
Qed.
Example C40_example border : exists g', upward_continuation (fun _ => true) (fun _ => true) border (grid22 1 2 3 5) 7 false None = Ok (g', None) /\ sum_squares g' <= 39.
Proof.
  destruct (C40_no_amplification _ _ border all_even all_even _ _ _ _ _ 7 None (grid22_regular 1 2 3 5) ltac:(lra)) as (g' & E & V). exists g'. split; [exact E|]. eapply Rle_trans; [exact V|]. unfold sum_squares, val. cbn. lra.
Qed.
(** A resolved wave: one period along easting on a 3 by 3 grid. *)
Definition grid33 : grid :=
  Grid ["northing"; "easting"] (even_axis 0 1 3) (even_axis 0 1 3) (fun i j => Fin (field_value 3 3 1 1 [Wave 0 1 2 1; Wave 1 (-1) 0 5] (nth i (even_axis 0 1 3) 0) (nth j (even_axis 0 1 3) 0) 0)) [].
Lemma grid33_regular : regular grid33 0 1 0 1.
Proof. constructor; try reflexivity; try lra; cbn; try lia. intros i j _ _. discriminate. Qed.
Example C41_example border : exists ge gn gu, derivative_easting (fun _ => true) (fun _ => true) border grid33 2 "fft" false None = Ok (ge, None) /\
  derivative_northing (fun _ => true) (fun _ => true) border grid33 2 "fft" false None = Ok (gn, None) /\ derivative_upward (fun _ => true) (fun _ => true) border grid33 2 false None = Ok (gu, None) /\
  g_val gu 1 2 = Fin (Derive_n (fun u => field_value 3 3 1 1 [Wave 0 1 2 1; Wave 1 (-1) 0 5] 1 2 u) 2 0).
Proof.
  destruct (C41_sampled_field _ _ border all_even all_even grid33 0 1 0 1 [Wave 0 1 2 1; Wave 1 (-1) 0 5] 2 None grid33_regular) as (ge & gn & gu & E1 & E2 & E3 & V).
  - repeat constructor; cbn; lia.
  - intros i j _. reflexivity.
  - exists ge, gn, gu. split; [exact E1|]. split; [exact E2|]. split; [exact E3|]. destruct (V 1%nat 2%nat) as (_ & _ & Vu); [split; cbn; lia|]. rewrite Vu.
    replace (nth 1 (g_y grid33) 0) with 1 by (cbn; ring). replace (nth 2 (g_x grid33) 0) with 2 by (cbn; ring). reflexivity.
Qed.
Example C42_example : (exists o, derivative_easting_kernel 2 = derivative_easting_kernel o /\ Nat.even o = true) /\ (exists H, gaussian_lowpass_kernel 10 = Ok H) /\
  (exists H, reduction_to_pole_kernel 30 10 (Some 60) (Some (-20)) = Ok H) /\
  exists ay ax, axis_of (fun _ => true) (even_axis 0 1 3) = Ok ay /\ axis_of (fun _ => true) (even_axis 0 2 5) = Ok ax /\
    forall v, Im (ifft ay ax (fun k l => Cmult (fft ay ax v k l) (some_c (derivative_easting_kernel 1 (freq ay k) (freq ax l)))) 1 2) = 0.
Proof.
  split; [exists 2%nat; auto|]. split; [|split].
  - unfold gaussian_lowpass_kernel. destruct (Reqb_spec 10 0) as [K|_]; [lra|]. eexists. reflexivity.
  - eexists. reflexivity.
  - destruct (C42_odd_sizes (fun _ => true) all_even 0 1 0 2 3 5 (fun _ _ => 0) (derivative_easting_kernel 1) 1 2) as (ay & ax & E1 & E2 & _); try lra; try lia; try reflexivity; [left; exists 1%nat; auto|].
    exists ay, ax. split; [exact E1|]. split; [exact E2|]. intros v.
    destruct (C42_odd_sizes (fun _ => true) all_even 0 1 0 2 3 5 v (derivative_easting_kernel 1) 1 2) as (ay' & ax' & E1' & E2' & Z); try lra; try lia; try reflexivity; [left; exists 1%nat; auto|].
    rewrite E1 in E1'. rewrite E2 in E2'. injection E1' as <-. injection E2' as <-. exact Z.
Qed.
Example C43_example border : exists g', reduction_to_pole (fun _ => true) (fun _ => true) border (grid22 1 2 3 5) 90 0 (Some 90) (Some 0) false None = Ok (g', None) /\ g_val g' 1 1 = Fin (5 - 11 / 4).
Proof.
  destruct (C43_at_the_pole _ _ border all_even all_even _ _ _ _ _ 0 0 false None (grid22_regular 1 2 3 5)) as (g' & kw' & c & E & V & M). specialize (M eq_refl). subst c.
  assert (kw' = None).
  { unfold reduction_to_pole, apply_filter in E. destruct (grid_sanity_checks _) as [[]|]; [|discriminate]. cbn [bind] in E. destruct (filter_values _ _ _ _ _); [|discriminate]. cbn [bind] in E. now injection E. }
  subst kw'. exists g'. split; [exact E|]. rewrite V by (split; cbn; lia). f_equal. unfold mean, val. cbn. lra.
Qed.

Print Assumptions C39_complementary.
Print Assumptions C40_continuations_add.
Print Assumptions C40_sampled_field.
Print Assumptions C41_sampled_field.
Print Assumptions C41_rate_of_continuation_at_every_level.
Print Assumptions C42_odd_sizes.
Print Assumptions C43_sampled_field.
Print Assumptions C41_easting_orders_add_refuted.
