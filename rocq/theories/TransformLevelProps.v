(** Claim C97: what the transformations do to the mean level and to the scale of a grid. *)
From Coquelicot Require Import Coquelicot.
From Verif Require Import Base BaseFacts NumPy UtilsModel UtilsSpec TransformModel TransformSpec FourierProofs TransformProofs TransformFieldProofs TransformProps TransformGridProps TransformSymmetryProofs TransformSymmetryProps TransformLevelProofs.
Local Open Scope string_scope. Local Open Scope list_scope. Local Open Scope R_scope.
Local Notation C := Complex.C.

(** What is left of a constant: 1 for the continuation and the low-pass filter, 0 for derivatives, the high-pass filter and the reduction to the pole. *)
Inductive level_gain (ef ep : list R -> bool) (bd : string -> option R -> nat -> nat -> (nat -> nat -> R) -> nat -> nat -> R) :
  R -> Prop -> (grid -> bool -> option pad_kw -> res (grid * option pad_kw)) -> Prop :=
| L_upward n : level_gain ef ep bd 0 True (fun g pad kw => derivative_upward ef ep bd g (S n) pad kw)
| L_easting n : level_gain ef ep bd 0 True (fun g pad kw => derivative_easting ef ep bd g (S n) "fft" pad kw)
| L_northing n : level_gain ef ep bd 0 True (fun g pad kw => derivative_northing ef ep bd g (S n) "fft" pad kw)
| L_continuation h : level_gain ef ep bd 1 True (fun g pad kw => upward_continuation ef ep bd g h pad kw)
| L_lowpass l : level_gain ef ep bd 1 (l <> 0) (fun g pad kw => gaussian_lowpass ef ep bd g l pad kw)
| L_highpass l : level_gain ef ep bd 0 (l <> 0) (fun g pad kw => gaussian_highpass ef ep bd g l pad kw)
| L_pole i d mi md : level_gain ef ep bd 0 (sin (radians i) <> 0 /\ sin (radians mi) <> 0) (fun g pad kw => reduction_to_pole ef ep bd g i d (Some mi) (Some md) pad kw).
(** The same nodes, with every value [u] replaced by [p * u + c]; no missing values. *)
Definition rescaled (p c : R) (g g' : grid) : Prop :=
  same_nodes g g' /\ forall i j, inside g i j -> exists u, g_val g i j = Fin u /\ g_val g' i j = Fin (p * u + c).
(** Sum of the values of a grid. *)
Definition sum_values (g : grid) : R := sum_over (range 0 (ny g)) (fun i => sum_over (range 0 (nx g)) (fun j => val g i j)).

Section Props.
Variable even_fft even_pad : list R -> bool.
Variable border : string -> option R -> nat -> nat -> (nat -> nat -> R) -> nat -> nat -> R.
Notation gain := (level_gain even_fft even_pad border).
Notation transform := (transformation even_fft even_pad border).
Notation tga := (total_gradient_amplitude even_fft even_pad border).
Notation tilt := (tilt_angle even_fft even_pad border).

Lemma gain_transform q valid f : gain q valid f -> exists keep, transform keep valid f.
Proof.
  intros [n | n | n | h | l | l | i d mi md].
  - eexists. exact (T_upward _ _ _ (S n)).
  - eexists. exact (T_easting _ _ _ (S n)).
  - eexists. exact (T_northing _ _ _ (S n)).
  - eexists. exact (T_continuation _ _ _ h).
  - eexists. exact (T_lowpass _ _ _ l).
  - eexists. exact (T_highpass _ _ _ l).
  - eexists. exact (T_pole _ _ _ i d mi md).
Qed.
Lemma k_of_0 : k_of 0 = 0.
Proof. unfold k_of. ring. Qed.
Lemma gain_apply q valid f : gain q valid f -> valid -> exists K drop, (forall g pad kw, f g pad kw = apply_filter even_fft even_pad border g (Ok K) pad kw drop) /\ total K /\ K 0 0 = Some (RtoC q).
Proof.
  intros [n | n | n | h | l | l | i d mi md] HV.
  - do 2 eexists. split; [reflexivity|]. split; [intros ? ?; discriminate|]. unfold derivative_upward_kernel. rewrite k_of_0. replace (0 ^ 2 + 0 ^ 2) with 0 by ring. rewrite sqrt_0. rewrite Ropp_0. cbn [pow]. now rewrite Rmult_0_l.
  - do 2 eexists. split; [reflexivity|]. split; [intros ? ?; discriminate|]. unfold derivative_easting_kernel. rewrite k_of_0. cbn [cpow]. f_equal. rewrite Cmult_0_l. apply Cmult_0_l.
  - do 2 eexists. split; [reflexivity|]. split; [intros ? ?; discriminate|]. unfold derivative_northing_kernel. rewrite k_of_0. cbn [cpow]. f_equal. rewrite Cmult_0_l. apply Cmult_0_l.
  - do 2 eexists. split; [reflexivity|]. split; [intros ? ?; discriminate|]. unfold upward_continuation_kernel. rewrite k_of_0. replace (0 ^ 2 + 0 ^ 2) with 0 by ring. rewrite sqrt_0, Ropp_0, Rmult_0_l, exp_0. reflexivity.
  - exists (lowH l), false. split; [intros; unfold gaussian_lowpass; now rewrite low_ok|]. split; [intros ? ?; discriminate|]. unfold lowH. rewrite k_of_0. replace (- (0 ^ 2 + 0 ^ 2)) with 0 by ring. unfold Rdiv at 1. rewrite Rmult_0_l, exp_0. reflexivity.
  - exists (highH l), false. split; [intros; unfold gaussian_highpass; now rewrite high_ok|]. split; [intros ? ?; discriminate|]. unfold highH. rewrite k_of_0. replace (- (0 ^ 2 + 0 ^ 2)) with 0 by ring. unfold Rdiv at 1. rewrite Rmult_0_l, exp_0. do 2 f_equal. ring.
  - destruct HV as [H1 H2]. do 2 eexists. split; [intros; reflexivity|]. split.
    + intros a b. rewrite (rtp_total i d mi md _ H1 H2 eq_refl). discriminate.
    + rewrite (rtp_total i d mi md _ H1 H2 eq_refl). destruct (Reqb_spec 0 0); [reflexivity|contradiction].
Qed.
Lemma axis_of_good l a : axis_of even_fft l = Ok a -> good a /\ a_n a = length l.
Proof.
  intros E. apply axis_of_ok in E. destruct E as [(L & _ & D) ->]. split; [|reflexivity]. split; cbn [a_n a_d]; [lia|]. apply Rabs_no_R0. lra.
Qed.

(** ** Constant grids *)
Theorem C97_constant q valid f g c pad kw o kw' : gain q valid f -> valid -> edge_padding pad kw -> (forall i j, inside g i j -> g_val g i j = Fin c) ->
  f g pad kw = Ok (o, kw') -> same_nodes g o /\ forall i j, inside o i j -> g_val o i j = Fin (q * c).
Proof.
  intros T HV P V E. destruct (gain_apply q valid f T HV) as (K & drop & A & TK & K0). rewrite A in E. clear A.
  unfold apply_filter in E. destruct (grid_sanity_checks g) as [[]|] eqn:S1; [|discriminate]. cbn [bind] in E.
  assert (VV : forall i j, (i < ny g)%nat -> (j < nx g)%nat -> finite (g_val g i j) = c) by (intros i j Hi Hj; now rewrite V).
  destruct pad.
  - assert (M : match kw_mode (match kw with None => empty_kw | Some k => k end) with Some m => m | None => "edge" end = "edge").
    { destruct P as [P | [-> | (k & -> & [-> | ->])]]; [discriminate| | |]; reflexivity. }
    rewrite M in E. clear M. destruct (match kw_width _ with Some w => w | None => _ end) as [wy wx].
    set (const := match kw_const _ with Some c => c | None => None end) in *.
    destruct (pad_axis even_pad wy (g_y g)) as [py|] eqn:Py; [|discriminate]. cbn [bind] in *.
    destruct (pad_axis even_pad wx (g_x g)) as [px|] eqn:Px; [|discriminate]. cbn [bind] in *.
    apply pad_axis_length in Py, Px. destruct Py as [Ly Py], Px as [Lx Px]. fold (ny g) in Ly, Py. fold (nx g) in Lx, Px.
    unfold filter_values in E. destruct (axis_of even_fft py) as [ay|] eqn:Ay; [|discriminate]. cbn [bind] in E.
    destruct (axis_of even_fft px) as [ax|] eqn:Ax; [|discriminate]. cbn [bind] in E.
    apply axis_of_good in Ay, Ax. destruct Ay as [Gy Ay], Ax as [Gx Ax]. rewrite (total_finite ay ax K TK) in E. cbn [bind] in E. apply ok_inj in E.
    assert (Eo : o = fst (o, kw')) by reflexivity. rewrite <- E in Eo. cbn [fst] in Eo. subst o. split; [now repeat split|]. intros i j In. cbn [g_val]. f_equal.
    apply (filtered_const ay ax _ (fun k l => some_c (K (freq ay k) (freq ax l)))); try assumption.
    + now rewrite !freq_mid, K0.
    + intros a b Ha Hb. unfold pad_values. destruct (Nat.leb_spec wy a), (Nat.ltb_spec a (wy + ny g)), (Nat.leb_spec wx b), (Nat.ltb_spec b (wx + nx g)); cbn [andb]; cbn [String.eqb];
        apply VV; unfold clamp; lia.
  - unfold filter_values in E. destruct (axis_of even_fft (g_y g)) as [ay|] eqn:Ay; [|discriminate]. cbn [bind] in E.
    destruct (axis_of even_fft (g_x g)) as [ax|] eqn:Ax; [|discriminate]. cbn [bind] in E.
    apply axis_of_good in Ay, Ax. destruct Ay as [Gy Ay], Ax as [Gx Ax]. rewrite (total_finite ay ax K TK) in E. cbn [bind] in E. apply ok_inj in E.
    assert (Eo : o = fst (o, kw')) by reflexivity. rewrite <- E in Eo. cbn [fst] in Eo. subst o. split; [now repeat split|]. intros i j In. cbn [g_val]. f_equal.
    apply (filtered_const ay ax _ (fun k l => some_c (K (freq ay k) (freq ax l)))); try assumption.
    + now rewrite !freq_mid, K0.
    + intros a b Ha Hb. rewrite Ay in Ha. rewrite Ax in Hb. now apply VV.
Qed.

(** ** Another level and another scale: any coordinates, with or without padding. *)
Definition ones (g : grid) : grid := Grid (g_dims g) (g_y g) (g_x g) (fun _ _ => Fin 1) (g_extra g).
Theorem C97_level q valid f p c g g' pad kw o kw' : gain q valid f -> valid -> edge_padding pad kw -> rescaled p c g g' ->
  f g pad kw = Ok (o, kw') -> exists o', f g' pad kw = Ok (o', kw') /\ rescaled p (q * c) o o'.
Proof.
  intros T HV P [(D & Y & X) V] E. destruct (gain_transform q valid f T) as [keep TT].
  assert (Cb : combination p c g (ones g) g').
  { split; [now repeat split|]. split; [now repeat split|]. intros i j In. destruct (V i j In) as (u & E1 & E2). exists u, 1. split; [exact E1|]. split; [reflexivity|]. rewrite E2. f_equal. ring. }
  destruct (C87_linear even_fft even_pad border keep valid f p c g (ones g) g' pad kw o kw' TT HV Cb P E) as (o2 & o3 & E2 & E3 & (S12 & S13 & Vo)).
  exists o3. split; [exact E3|]. split; [exact S13|]. intros i j In. destruct (Vo i j In) as (u & v & U1 & U2 & U3). exists u. split; [exact U1|]. rewrite U3. f_equal. f_equal.
  destruct (C97_constant q valid f (ones g) 1 pad kw o2 kw' T HV P ltac:(intros; reflexivity) E2) as [_ W].
  rewrite W in U2. { injection U2 as <-. ring. }
  destruct S12 as (_ & Sy & Sx). unfold inside, ny, nx in *. now rewrite Sy, Sx.
Qed.

(** ** The mean value, without padding *)
Theorem C97_mean q valid f g kw o kw' : gain q valid f -> valid -> f g false kw = Ok (o, kw') -> sum_values o = q * sum_values g.
Proof.
  intros T HV E. destruct (gain_apply q valid f T HV) as (K & drop & A & TK & K0). rewrite A in E. clear A.
  unfold apply_filter in E. destruct (grid_sanity_checks g) as [[]|] eqn:S1; [|discriminate]. cbn [bind] in E.
  unfold filter_values in E. destruct (axis_of even_fft (g_y g)) as [ay|] eqn:Ay; [|discriminate]. cbn [bind] in E.
  destruct (axis_of even_fft (g_x g)) as [ax|] eqn:Ax; [|discriminate]. cbn [bind] in E.
  apply axis_of_good in Ay, Ax. destruct Ay as [Gy Ay], Ax as [Gx Ax]. rewrite (total_finite ay ax K TK) in E. cbn [bind] in E. apply ok_inj in E.
  assert (Eo : o = fst (o, kw')) by reflexivity. rewrite <- E in Eo. cbn [fst] in Eo. subst o.
  unfold sum_values, val, ny, nx. cbn [g_val g_y g_x]. rewrite <- Ay, <- Ax.
  apply (filtered_sum ay ax (fun i j => finite (g_val g i j)) (fun k l => some_c (K (freq ay k) (freq ax l)))); try assumption. now rewrite !freq_mid, K0.
Qed.

(** ** Amplitude of the total gradient and tilt angle *)
Lemma list_eqb_refl l : list_eqb l l = true.
Proof. unfold list_eqb. rewrite Nat.eqb_refl. cbn [andb]. induction l as [|a l IH]; [reflexivity|]. cbn. destruct (Reqb_spec a a); [exact IH|contradiction]. Qed.
Lemma sanity_fin g : grid_sanity_checks g = Ok tt -> forall i j, inside g i j -> exists u, g_val g i j = Fin u.
Proof. intros H i j In. apply sanity_ok in H. destruct H as [_ H]. specialize (H i j In). destruct (g_val g i j) as [|u]; [now contradiction H|]. now exists u. Qed.
Lemma derivatives_rescaled p c g g' pad kw ge kw1 gn kw2 gu kw3 : edge_padding pad kw -> rescaled p c g g' -> g_extra g' = g_extra g ->
  derivative_easting even_fft even_pad border g 1 "finite-diff" pad kw = Ok (ge, kw1) -> derivative_northing even_fft even_pad border g 1 "finite-diff" pad kw1 = Ok (gn, kw2) ->
  derivative_upward even_fft even_pad border g 1 pad kw2 = Ok (gu, kw3) ->
  exists ge' gn' gu', derivative_easting even_fft even_pad border g' 1 "finite-diff" pad kw = Ok (ge', kw1) /\ derivative_northing even_fft even_pad border g' 1 "finite-diff" pad kw1 = Ok (gn', kw2) /\
    derivative_upward even_fft even_pad border g' 1 pad kw2 = Ok (gu', kw3) /\ aligned ge' gn' = true /\ aligned ge' gu' = true /\
    same_nodes g ge /\ same_nodes g gu /\ same_nodes g ge' /\ same_nodes g gu' /\
    forall i j, inside g i j -> g_val ge' i j = nmap (Rmult p) (g_val ge i j) /\ g_val gn' i j = nmap (Rmult p) (g_val gn i j) /\ g_val gu' i j = nmap (Rmult p) (g_val gu i j).
Proof.
  intros P RS EX E1 E2 E3. pose proof RS as [(D & Y & X) V].
  assert (Gc : forall k, _get_dataarray_coordinate g' k = _get_dataarray_coordinate g k) by (intros k; unfold _get_dataarray_coordinate; now rewrite D, EX).
  unfold derivative_easting in *. cbn [String.eqb Ascii.eqb Bool.eqb] in *. unfold derivative_northing in *. cbn [String.eqb Ascii.eqb Bool.eqb] in *. unfold finite_diff in *. rewrite !Gc.
  destruct (_get_dataarray_coordinate g 1) as [ce|]; [|discriminate]. destruct (_get_dataarray_coordinate g 0) as [cn|]; [|discriminate]. cbn [bind range seq Nat.sub for_] in *.
  unfold differentiate in *. cbn [Nat.eqb] in *. rewrite X, Y.
  destruct (Nat.ltb_spec (length (g_x g)) 2) as [Lx|Lx]; [discriminate|]. cbn [bind] in E1. apply ok_inj in E1. assert (kw1 = kw) by congruence. subst kw1. assert (Ge : ge = fst (ge, kw)) by reflexivity. rewrite <- E1 in Ge. cbn [fst] in Ge. subst ge. clear E1.
  destruct (Nat.ltb_spec (length (g_y g)) 2) as [Ly|Ly]; [discriminate|]. cbn [bind] in E2. apply ok_inj in E2. assert (kw2 = kw) by congruence. subst kw2. assert (Gn : gn = fst (gn, kw)) by reflexivity. rewrite <- E2 in Gn. cbn [fst] in Gn. subst gn. clear E2.
  assert (S3 : same_nodes g gu).
  { destruct (C44_keeps_nodes even_fft even_pad border true True _ g pad kw gu kw3 (T_upward _ _ _ 1) E3) as (Q & _). exact Q. }
  destruct (C97_level 0 True (fun g pad kw => derivative_upward even_fft even_pad border g 1 pad kw) p c g g' pad kw gu kw3 (L_upward _ _ _ 0) I P RS E3) as (gu' & E3' & [SU VU]).
  cbn [bind]. do 3 eexists. split; [reflexivity|]. split; [reflexivity|]. split; [exact E3'|].
  assert (SU' : same_nodes g gu') by (destruct SU as (? & ? & ?), S3 as (? & ? & ?); repeat split; congruence).
  split; [unfold aligned; cbn [g_y g_x]; rewrite ?X, ?Y; now rewrite !list_eqb_refl|].
  split; [unfold aligned; cbn [g_y g_x]; destruct SU' as (_ & Qy & Qx); rewrite ?X, ?Y, Qy, Qx; now rewrite !list_eqb_refl|].
  split; [now repeat split|]. split; [exact S3|]. split; [now repeat split|]. split; [exact SU'|].
  intros i j [Hi Hj]. cbn [g_val].
  split; [apply (gradient_affine _ _ _ p c); [exact Lx|exact Hj|]; intros j' Hj'; exact (V i j' (conj Hi Hj'))|].
  split; [apply (gradient_affine _ _ _ p c); [exact Ly|exact Hi|]; intros i' Hi'; exact (V i' j (conj Hi' Hj))|].
  destruct (VU i j) as (u & -> & ->); [destruct S3 as (_ & Qy & Qx); unfold inside, ny, nx in *; rewrite Qy, Qx; now split|]. cbn [nmap]. f_equal. ring.
Qed.
Lemma sanity_rescaled p c g g' : rescaled p c g g' -> grid_sanity_checks g = Ok tt -> grid_sanity_checks g' = Ok tt.
Proof.
  intros [(D & Y & X) V] H. apply sanity_ok in H. destruct H as [H _]. apply sanity_ok. split; [now rewrite D|]. intros i j In.
  destruct (V i j) as (u & _ & ->); [|discriminate]. unfold inside, ny, nx in *. now rewrite <- Y, <- X.
Qed.
Theorem C97_total_gradient_amplitude p c g g' pad kw o kw' : edge_padding pad kw -> rescaled p c g g' -> g_extra g' = g_extra g -> tga g pad kw = Ok (o, kw') ->
  exists o', tga g' pad kw = Ok (o', kw') /\ same_nodes o o' /\ forall i j, inside o i j -> g_val o' i j = nmap (Rmult (Rabs p)) (g_val o i j).
Proof.
  intros P RS EX E. unfold total_gradient_amplitude in *. destruct (grid_sanity_checks g) as [[]|] eqn:S; [|discriminate]. rewrite (sanity_rescaled p c g g' RS S). cbn [bind] in *.
  destruct (derivative_easting even_fft even_pad border g 1 "finite-diff" pad kw) as [[ge kw1]|] eqn:E1; [|discriminate]. cbn [bind] in E.
  destruct (derivative_northing even_fft even_pad border g 1 "finite-diff" pad kw1) as [[gn kw2]|] eqn:E2; [|discriminate]. cbn [bind] in E.
  destruct (derivative_upward even_fft even_pad border g 1 pad kw2) as [[gu kw3]|] eqn:E3; [|discriminate]. cbn [bind] in E.
  destruct (derivatives_rescaled p c g g' pad kw ge kw1 gn kw2 gu kw3 P RS EX E1 E2 E3) as (ge' & gn' & gu' & E1' & E2' & E3' & A1 & A2 & SE & SU & SE' & SU' & V).
  rewrite E1'. cbn [bind]. rewrite E2'. cbn [bind]. rewrite E3'. cbn [bind]. rewrite A1, A2. cbn [andb negb].
  destruct (negb _); [discriminate|]. apply ok_inj in E. assert (kw3 = kw') by congruence. subst kw3. assert (Eo : o = fst (o, kw')) by reflexivity. rewrite <- E in Eo. cbn [fst] in Eo. subst o. clear E.
  eexists. split; [reflexivity|]. destruct SE as (De & Ye & Xe), SE' as (De' & Ye' & Xe'). split; [unfold with_values; repeat split; cbn [g_dims g_y g_x]; congruence|].
  intros i j In. unfold with_values in *. cbn [g_val]. destruct (V i j) as (-> & -> & ->). { unfold inside, ny, nx in *. cbn [g_y g_x] in In. now rewrite <- Ye, <- Xe. }
  destruct (g_val ge i j) as [|a], (g_val gn i j) as [|b], (g_val gu i j) as [|d]; try reflexivity. unfold nadd, nop. cbn [nmap]. f_equal.
  replace (p * a * (p * a) + p * b * (p * b) + p * d * (p * d)) with (p * p * (a * a + b * b + d * d)) by ring. rewrite sqrt_mult_alt by nra. f_equal. apply sqrt_Rsqr_abs.
Qed.
Theorem C97_tilt_angle p c g g' pad kw o kw' : p <> 0 -> edge_padding pad kw -> rescaled p c g g' -> g_extra g' = g_extra g -> tilt g pad kw = Ok (o, kw') ->
  exists o', tilt g' pad kw = Ok (o', kw') /\ same_nodes o o' /\ forall i j, inside o i j -> g_val o' i j = nmap (fun t => if Rlt_dec 0 p then t else - t) (g_val o i j).
Proof.
  intros NZ P RS EX E. unfold tilt_angle in *. destruct (grid_sanity_checks g) as [[]|] eqn:S; [|discriminate]. rewrite (sanity_rescaled p c g g' RS S). cbn [bind] in *.
  destruct (derivative_easting even_fft even_pad border g 1 "finite-diff" pad kw) as [[ge kw1]|] eqn:E1; [|discriminate]. cbn [bind] in E.
  destruct (derivative_northing even_fft even_pad border g 1 "finite-diff" pad kw1) as [[gn kw2]|] eqn:E2; [|discriminate]. cbn [bind] in E.
  destruct (derivative_upward even_fft even_pad border g 1 pad kw2) as [[gu kw3]|] eqn:E3; [|discriminate]. cbn [bind] in E.
  destruct (derivatives_rescaled p c g g' pad kw ge kw1 gn kw2 gu kw3 P RS EX E1 E2 E3) as (ge' & gn' & gu' & E1' & E2' & E3' & A1 & A2 & SE & SU & SE' & SU' & V).
  rewrite E1'. cbn [bind]. rewrite E2'. cbn [bind]. rewrite E3'. cbn [bind]. rewrite A1, A2. cbn [andb negb].
  destruct (negb _); [discriminate|]. apply ok_inj in E. assert (kw3 = kw') by congruence. subst kw3. assert (Eo : o = fst (o, kw')) by reflexivity. rewrite <- E in Eo. cbn [fst] in Eo. subst o. clear E.
  eexists. split; [reflexivity|]. destruct SU as (De & Ye & Xe), SU' as (De' & Ye' & Xe'). split; [unfold with_values; repeat split; cbn [g_dims g_y g_x]; congruence|].
  intros i j In. unfold with_values in *. cbn [g_val]. destruct (V i j) as (-> & -> & ->). { unfold inside, ny, nx in *. cbn [g_y g_x] in In. now rewrite <- Ye, <- Xe. }
  destruct (g_val ge i j) as [|a], (g_val gn i j) as [|b], (g_val gu i j) as [|d]; try reflexivity. unfold nop. cbn [nmap]. f_equal.
  replace ((p * a) ^ 2 + (p * b) ^ 2) with (p * p * (a ^ 2 + b ^ 2)) by ring. rewrite sqrt_mult_alt by nra. fold (Rsqr p). rewrite sqrt_Rsqr_abs.
  destruct (Rlt_dec 0 p) as [Hp|Hp].
  - rewrite Rabs_pos_eq by lra. now apply arctan2_scale.
  - rewrite Rabs_left by lra. replace (p * d) with (- p * - d) by ring. rewrite arctan2_scale by lra. apply arctan2_opp. apply sqrt_pos.
Qed.
End Props.
Print Assumptions C97_constant.
Print Assumptions C97_level.
Print Assumptions C97_mean.
Print Assumptions C97_total_gradient_amplitude.
Print Assumptions C97_tilt_angle.

(** The hypotheses hold: a grid, the grid times minus two plus seven, accepted by the tilt angle and the low-pass filter. *)
Example C97_example : rescaled (-2) 7 (grid22 1 2 3 5) (grid22 5 3 1 (-3)) /\ g_extra (grid22 5 3 1 (-3)) = g_extra (grid22 1 2 3 5) /\ edge_padding true None /\
  level_gain (fun _ => true) (fun _ => true) (fun _ _ _ _ _ _ _ => 0) 1 (10 <> 0) (fun g pad kw => gaussian_lowpass (fun _ => true) (fun _ => true) (fun _ _ _ _ _ _ _ => 0) g 10 pad kw) /\
  (exists o kw, gaussian_lowpass (fun _ => true) (fun _ => true) (fun _ _ _ _ _ _ _ => 0) (grid22 1 2 3 5) 10 true None = Ok (o, kw)) /\
  exists o kw, tilt_angle (fun _ => true) (fun _ => true) (fun _ _ _ _ _ _ _ => 0) (grid22 1 2 3 5) true None = Ok (o, kw).
Proof.
  split; [|split; [reflexivity|split; [right; now left|split; [exact (L_lowpass _ _ _ 10)|split]]]].
  - split; [now repeat split|]. intros i j _. eexists. split; [reflexivity|]. cbn [g_val grid22]. f_equal. destruct (Nat.eqb i 0), (Nat.eqb j 0); lra.
  - destruct (C44_regular_accepted (fun _ => true) (fun _ => true) (fun _ _ _ _ _ _ _ => 0) all_even all_even _ _ _ (grid22 1 2 3 5) 0 1 0 1 true None (T_lowpass _ _ _ 10) ltac:(lra) (grid22_regular 1 2 3 5)) as (o & k & E & _).
    exists o, k. exact E.
  - assert (Pl : plain (grid22 1 2 3 5)) by (intros e d []).
    destruct (C45_tilt_angle (fun _ => true) (fun _ => true) (fun _ _ _ _ _ _ _ => 0) all_even all_even (grid22 1 2 3 5) 0 1 0 1 true None (grid22_regular 1 2 3 5) Pl) as (ge & gn & gu & gt & k & _ & _ & _ & E & _).
    exists gt, k. exact E.
Qed.
