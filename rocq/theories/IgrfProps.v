(** Claims C58, C59, C60 and C78 about igrf.py. *)
From Coquelicot Require Import Coquelicot.
From Coq Require Import Psatz.
From Verif Require Import Base BaseFacts LegendreModel LegendreSpec LegendreFacts LegendreProofs LegendreDerivProofs LegendreProps
  IgrfModel IgrfSpec IgrfProofs IgrfTimeProofs.
Local Open Scope R_scope.

(** ** C58: interpolation in time *)
(** The calendar of the model: years have 365 days, 366 in leap years. *)
Theorem C58_calendar : forall y,
  (leap y -> days_before_year (y + 1) - days_before_year y = 366)%Z /\
  (~ leap y -> days_before_year (y + 1) - days_before_year y = 365)%Z /\ days_before_year 1 = 0%Z.
Proof.
  intros y. rewrite days_step. unfold leap.
  pose proof (mod_weaken y 4 25 ltac:(lia) ltac:(lia)) as M1. change (4 * 25)%Z with 100%Z in M1.
  pose proof (mod_weaken y 100 4 ltac:(lia) ltac:(lia)) as M2. change (100 * 4)%Z with 400%Z in M2.
  split; [|split; [|reflexivity]]; intros Hl;
    destruct (Z.eqb_spec (y mod 4) 0), (Z.eqb_spec (y mod 100) 0), (Z.eqb_spec (y mod 400) 0); lia.
Qed.
Print Assumptions C58_calendar.

Example C58_calendar_ex : leap 2000 /\ ~ leap 1900 /\ (days_before_year 2005 - days_before_year 2000 = 1827)%Z.
Proof. unfold leap. split; [split; [reflexivity|right; reflexivity]|]. split; [|reflexivity]. intros [_ [H|H]]; [now apply H|discriminate]. Qed.

Theorem C58_epoch_dates : forall c first k w N i, regular c first k -> shaped c k w -> (N < w)%nat -> (i < k)%nat ->
  exists gd hd, interpolate_coefficients (Date (first + 5 * Z.of_nat i) 0) N c = Ok (gd, hd) /\ square N gd /\ square N hd /\
    forall n m, (1 <= n <= N)%nat -> (m <= n)%nat -> ent gd n m = cell (c_g c) i n m /\ ent hd n m = cell (c_h c) i n m.
Proof.
  intros c first k w N i Hr Hs HN Hi.
  destruct (interpolate_ok c first k w N (Date (first + 5 * Z.of_nat i) 0) i Hr Hs HN Hi) as (gd & hd & E & Q1 & Q2 & Q3).
  { cbn [d_year]. lia. }
  exists gd, hd. split; [exact E|]. split; [exact Q1|]. split; [exact Q2|]. intros n m Hn Hm.
  destruct (Q3 n m ltac:(lia) ltac:(lia)) as [E1 E2]. rewrite E1, E2.
  destruct (Nat.leb_spec 1 n), (Nat.leb_spec m n); try lia. cbn [andb]. unfold value, Ti. split; ring.
Qed.
Print Assumptions C58_epoch_dates.

(** Linear interpolation between epochs, with the weight in [0, 1). *)
Theorem C58_linear_between_epochs : forall c first k w N i d, regular c first k -> shaped c k w -> (N < w)%nat ->
  (i + 1 < k)%nat -> valid_date d -> (first + 5 * Z.of_nat i <= d_year d < first + 5 * Z.of_nat (i + 1))%Z ->
  let T0 := instant (Date (first + 5 * Z.of_nat i) 0) in
  let T1 := instant (Date (first + 5 * Z.of_nat (i + 1)) 0) in
  let s := (instant d - T0) / (T1 - T0) in
  0 <= s < 1 /\
  exists gd hd, interpolate_coefficients d N c = Ok (gd, hd) /\
    forall n m, (1 <= n <= N)%nat -> (m <= n)%nat ->
      ent gd n m = (1 - s) * cell (c_g c) i n m + s * cell (c_g c) (i + 1) n m /\
      ent hd n m = (1 - s) * cell (c_h c) i n m + s * cell (c_h c) (i + 1) n m.
Proof.
  intros c first k w N i d Hr Hs HN Hi Hv Hd T0 T1 s.
  pose proof (instant_in first i d Hv Hd) as B. pose proof (Ti_step first i) as St. unfold Ti in B, St. fold T0 T1 in B, St.
  assert (Hp : 0 < T1 - T0) by lra. split.
  { unfold s. split; [apply Rmult_le_pos; [lra|apply Rlt_le, Rinv_0_lt_compat; lra]|].
    apply (Rmult_lt_reg_r (T1 - T0)); [lra|]. unfold Rdiv. rewrite Rmult_assoc, Rinv_l by lra. lra. }
  destruct (interpolate_ok c first k w N d i Hr Hs HN ltac:(lia) Hd) as (gd & hd & E & Q1 & Q2 & Q3).
  exists gd, hd. split; [exact E|]. intros n m Hn Hm. destruct (Q3 n m ltac:(lia) ltac:(lia)) as [E1 E2]. rewrite E1, E2.
  destruct (Nat.leb_spec 1 n), (Nat.leb_spec m n); try lia. cbn [andb]. unfold value, slope.
  destruct (Nat.leb_spec (k - 1) i); [lia|]. unfold Ti. fold T0 T1. unfold s. split; field; lra.
Qed.
Print Assumptions C58_linear_between_epochs.

(** After the last epoch: secular variation per year of 365.25 days. *)
Theorem C58_after_the_last_epoch : forall c first k w N d, regular c first k -> shaped c k w -> (N < w)%nat ->
  (first + 5 * Z.of_nat (k - 1) <= d_year d < first + 5 * Z.of_nat k)%Z ->
  let years := (instant d - instant (Date (first + 5 * Z.of_nat (k - 1)) 0)) / (86400 * 365.25) in
  exists gd hd, interpolate_coefficients d N c = Ok (gd, hd) /\
    forall n m, (1 <= n <= N)%nat -> (m <= n)%nat ->
      ent gd n m = cell (c_g c) (k - 1) n m + years * ent (c_gsv c) n m /\
      ent hd n m = cell (c_h c) (k - 1) n m + years * ent (c_hsv c) n m.
Proof.
  intros c first k w N d Hr Hs HN Hd years. pose proof Hr as (_ & Hk & _).
  destruct (interpolate_ok c first k w N d (k - 1) Hr Hs HN ltac:(lia)) as (gd & hd & E & Q1 & Q2 & Q3).
  { replace (k - 1 + 1)%nat with k by lia. exact Hd. }
  exists gd, hd. split; [exact E|]. intros n m Hn Hm. destruct (Q3 n m ltac:(lia) ltac:(lia)) as [E1 E2]. rewrite E1, E2.
  destruct (Nat.leb_spec 1 n), (Nat.leb_spec m n); try lia. cbn [andb]. unfold value, slope.
  rewrite Nat.leb_refl. unfold years, Ti, year_secs. split; field; lra.
Qed.
Print Assumptions C58_after_the_last_epoch.

(** Every coefficient is a Lipschitz function of time over the whole valid range, hence continuous,
    also across the epoch boundaries. *)
Theorem C58_continuous_in_time : forall c first k w N n m, regular c first k -> shaped c k w -> (N < w)%nat ->
  (1 <= n <= N)%nat -> (m <= n)%nat ->
  exists K, forall d1 d2 g1 h1 g2 h2, valid_date d1 -> valid_date d2 ->
    interpolate_coefficients d1 N c = Ok (g1, h1) -> interpolate_coefficients d2 N c = Ok (g2, h2) ->
    Rabs (ent g2 n m - ent g1 n m) <= K * Rabs (instant d2 - instant d1) /\
    Rabs (ent h2 n m - ent h1 n m) <= K * Rabs (instant d2 - instant d1).
Proof.
  intros c first k w N n m Hr Hs HN Hn Hm.
  exists (Rmax (K k (c_g c) (c_gsv c) first n m) (K k (c_h c) (c_hsv c) first n m)).
  intros d1 d2 g1 h1 g2 h2 V1 V2 E1 E2.
  assert (Hin : forall d r, interpolate_coefficients d N c = Ok r -> exists i, (i < k)%nat /\ (first + 5 * Z.of_nat i <= d_year d < first + 5 * Z.of_nat (i + 1))%Z).
  { intros d r E. apply epoch_of. destruct (Z_lt_le_dec (d_year d) first).
    - rewrite (interpolate_rejects c first k d N Hr) in E by (now left). discriminate.
    - destruct (Z_lt_le_dec (d_year d) (first + 5 * Z.of_nat k)); [lia|].
      rewrite (interpolate_rejects c first k d N Hr) in E by (now right). discriminate. }
  destruct (Hin d1 _ E1) as (i & Hi & Yi). destruct (Hin d2 _ E2) as (j & Hj & Yj). clear Hin.
  destruct (interpolate_ok c first k w N d1 i Hr Hs HN Hi Yi) as (a1 & b1 & F1 & _ & _ & Q1).
  destruct (interpolate_ok c first k w N d2 j Hr Hs HN Hj Yj) as (a2 & b2 & F2 & _ & _ & Q2).
  rewrite E1 in F1. injection F1 as <- <-. rewrite E2 in F2. injection F2 as <- <-.
  destruct (Q1 n m ltac:(lia) ltac:(lia)) as [-> ->]. destruct (Q2 n m ltac:(lia) ltac:(lia)) as [-> ->].
  destruct (Nat.leb_spec 1 n), (Nat.leb_spec m n); try lia. cbn [andb].
  pose proof (instant_in first i d1 V1 Yi) as B1. pose proof (instant_in first j d2 V2 Yj) as B2.
  pose proof (Rabs_pos (instant d2 - instant d1)).
  split.
  - eapply Rle_trans; [apply (v_lipschitz k (c_g c) (c_gsv c) first n m i j); assumption|]. apply Rmult_le_compat_r; [assumption|apply Rmax_l].
  - eapply Rle_trans; [apply (v_lipschitz k (c_h c) (c_hsv c) first n m i j); assumption|]. apply Rmult_le_compat_r; [assumption|apply Rmax_r].
Qed.
Print Assumptions C58_continuous_in_time.

(** The valid range is exactly from the first epoch to five years after the last one. *)
Theorem C58_rejected_dates : forall c first k w N d, regular c first k -> shaped c k w -> (N < w)%nat ->
  (interpolate_coefficients d N c = Raise ValueError <-> d_year d < first \/ first + 5 * Z.of_nat k <= d_year d)%Z /\
  ((first <= d_year d < first + 5 * Z.of_nat k)%Z -> exists r, interpolate_coefficients d N c = Ok r).
Proof.
  intros c first k w N d Hr Hs HN.
  assert (Hok : (first <= d_year d < first + 5 * Z.of_nat k)%Z -> exists r, interpolate_coefficients d N c = Ok r).
  { intros Hd. destruct (epoch_of first k d Hd) as (i & Hi & Yi).
    destruct (interpolate_ok c first k w N d i Hr Hs HN Hi Yi) as (a1 & b1 & F1 & _). eexists; exact F1. }
  split; [|exact Hok]. split.
  - intros E. destruct (Z_lt_le_dec (d_year d) first); [now left|]. destruct (Z_lt_le_dec (d_year d) (first + 5 * Z.of_nat k)); [|now right].
    destruct Hok as [r Er]; [lia|]. rewrite E in Er. discriminate.
  - now apply interpolate_rejects.
Qed.
Print Assumptions C58_rejected_dates.

(** The entries that the synthesis does not use stay zero. *)
Theorem C58_unused_entries_are_zero : forall c first k w N d gd hd, regular c first k -> shaped c k w -> (N < w)%nat ->
  interpolate_coefficients d N c = Ok (gd, hd) ->
  forall n m, (n <= N)%nat -> (m <= N)%nat -> n = 0%nat \/ (n < m)%nat -> ent gd n m = 0 /\ ent hd n m = 0.
Proof.
  intros c first k w N d gd hd Hr Hs HN E n m Hn Hm Hnm.
  assert (Hd : (first <= d_year d < first + 5 * Z.of_nat k)%Z).
  { destruct (Z_lt_le_dec (d_year d) first).
    - rewrite (interpolate_rejects c first k d N Hr) in E by (now left). discriminate.
    - destruct (Z_lt_le_dec (d_year d) (first + 5 * Z.of_nat k)); [lia|].
      rewrite (interpolate_rejects c first k d N Hr) in E by (now right). discriminate. }
  destruct (epoch_of first k d Hd) as (i & Hi & Yi).
  destruct (interpolate_ok c first k w N d i Hr Hs HN Hi Yi) as (a1 & b1 & F1 & _ & _ & Q).
  rewrite E in F1. injection F1 as <- <-. destruct (Q n m Hn Hm) as [-> ->].
  destruct (Nat.leb_spec 1 n), (Nat.leb_spec m n); cbn [andb]; try lia; split; reflexivity.
Qed.
Print Assumptions C58_unused_entries_are_zero.

(** The hypotheses hold for the layout of the published file: epochs 1900, 1905, ..., 2025. *)
Definition ex_coeffs : coefficients :=
  Coeffs (map (fun i => (1900 + 5 * Z.of_nat i)%Z) (seq 0 26))
    (Cube 26 14 (fun e n m => INR (e + n + m))) (Cube 26 14 (fun e n m => INR (e * m)))
    (Table 14 14 (fun n m => INR n)) (Table 14 14 (fun n m => - INR m)).
Example C58_ex : regular ex_coeffs 1900 26 /\ shaped ex_coeffs 26 14 /\ valid_date (Date 2024 (86400 * 365)) /\
  (1900 + 5 * Z.of_nat 24 <= 2024 < 1900 + 5 * Z.of_nat (24 + 1))%Z.
Proof.
  split; [unfold regular; cbn [c_years ex_coeffs]; split; [reflexivity|lia]|]. split; [unfold shaped; cbn; repeat split|].
  split; [|lia]. unfold valid_date. cbn [d_year d_sec]. rewrite <- minus_IZR.
  replace (days_before_year (2024 + 1) - days_before_year 2024)%Z with 366%Z by reflexivity. lra.
Qed.

(** ** C78: reading the coefficient file *)
Theorem C78_every_line_is_stored : forall to_int to_float l0 l1 l2 ywords years lines es,
  denotes_years to_int ywords years -> (2 <= length years)%nat ->
  Forall2 (denotes to_int to_float) lines es ->
  Forall (fun e => length (l_values e) = length years /\ (l_degree e <= 13)%nat /\ (l_order e <= 13)%nat) es ->
  ForallOrdPairs (fun a b => ~ (l_is_g a = l_is_g b /\ l_degree a = l_degree b /\ l_order a = l_order b)) es ->
  exists c, load_igrf to_int to_float (l0 :: l1 :: l2 :: ywords :: lines) = Ok c /\
    c_years c = years /\ shaped c (length years) 14 /\
    (forall e, In e es ->
      (forall i, (i < length years)%nat -> cell (if l_is_g e then c_g c else c_h c) i (l_degree e) (l_order e) = nth i (l_values e) 0) /\
      ent (if l_is_g e then c_gsv c else c_hsv c) (l_degree e) (l_order e) = l_sv e) /\
    (forall (is_g : bool) n m, (forall e, In e es -> ~ (l_is_g e = is_g /\ l_degree e = n /\ l_order e = m)) ->
      (forall i, cell (if is_g then c_g c else c_h c) i n m = 0) /\ ent (if is_g then c_gsv c else c_hsv c) n m = 0).
Proof.
  intros to_int to_float l0 l1 l2 ywords years lines es Hy Hk H2 Hf Hp.
  destruct (load_ok to_int to_float l0 l1 l2 ywords years lines es Hy Hk H2 Hf) as [E Sh].
  eexists. split; [exact E|]. split.
  { assert (Y : forall es st, c_years (fold_left put es st) = c_years st).
    { induction es0 as [|e es0 IH]; intros st; [reflexivity|]. cbn [fold_left]. rewrite IH. unfold put. destruct (l_is_g e); reflexivity. }
    rewrite Y. reflexivity. }
  split; [exact Sh|]. split.
  - intros e He. destruct (fold_holds es (Coeffs years (zero_cube (length years) 14) (zero_cube (length years) 14) (zeros 14 14) (zeros 14 14)) Hp e He) as [A B]. split; [intros i _; apply A|exact B].
  - intros is_g n m Hn. 
    destruct (fold_untouched es (Coeffs years (zero_cube (length years) 14) (zero_cube (length years) 14) (zeros 14 14) (zeros 14 14)) is_g n m Hn) as [A B].
    split; [intros i; rewrite A|rewrite B]; destruct is_g; reflexivity.
Qed.
Print Assumptions C78_every_line_is_stored.

(** A small file with two epochs and two coefficients meets the hypotheses. *)
Definition ex_int (s : string) : res Z :=
  if String.eqb s "1900" then Ok 1900%Z else if String.eqb s "1905" then Ok 1905%Z else
  if String.eqb s "1" then Ok 1%Z else if String.eqb s "0" then Ok 0%Z else Raise ValueError.
Definition ex_float (s : string) : res R :=
  if String.eqb s "-31543" then Ok (-31543) else if String.eqb s "-31464" then Ok (-31464) else
  if String.eqb s "5922" then Ok 5922 else if String.eqb s "5909" then Ok 5909 else
  if String.eqb s "12.6" then Ok 12.6 else Raise ValueError.
Example C78_ex :
  denotes_years ex_int ["g/h"; "n"; "m"; "1900.0"; "1905.0"; "2025-30"]%string [1900; 1905]%Z /\
  Forall2 (denotes ex_int ex_float)
    [["g"; "1"; "0"; "-31543"; "-31464"; "12.6"]; ["h"; "1"; "1"; "5922"; "5909"; "12.6"]]%string
    [CoefLine true 1 0 [-31543; -31464] 12.6; CoefLine false 1 1 [5922; 5909] 12.6].
Proof.
  split.
  - exists "g/h"%string, "n"%string, "m"%string, ["1900.0"; "1905.0"]%string, "2025-30"%string. split; [reflexivity|].
    apply Forall2_cons; [|apply Forall2_cons; [|apply Forall2_nil]]; [exists "1900"%string|exists "1905"%string]; (split; [|reflexivity]);
      (split; [cbn; intros H; decompose [or] H; try discriminate; assumption|]); exists ".0"%string; (split; [reflexivity|]); right; now exists "0"%string.
  - apply Forall2_cons; [|apply Forall2_cons; [|apply Forall2_nil]].
    + exists "1"%string, "0"%string, ["-31543"; "-31464"]%string, "12.6"%string. repeat split; repeat constructor.
    + exists "1"%string, "1"%string, ["5922"; "5909"]%string, "12.6"%string. repeat split; repeat constructor.
Qed.

(** ** C59: the synthesis is minus the gradient of the potential *)
Theorem C59_minus_gradient : forall junk a g h lo N r t l, (1 <= N)%nat -> square N g -> square N h ->
  0 < a -> 0 < r -> 0 < t < PI -> / 10 ^ 10 <= sin t ->
  exists be bn br, field_at junk l t (a / r) g h lo N (0, 0, 0) = Ok (be, bn, br) /\
    is_derive (fun l => igrf_potential a g h lo N r t l) l (- (r * sin t * be)) /\
    is_derive (fun t => igrf_potential a g h lo N r t l) t (r * bn) /\
    is_derive (fun r => igrf_potential a g h lo N r t l) r (- br).
Proof.
  intros junk a g h lo N r t l HN Hg Hh Ha Hr Ht Hs.
  assert (Hp : 0 < sin t) by (apply sin_gt_0; lra).
  rewrite field_at_ok by (auto; lra). cbn [fst snd]. unfold fix_east. rewrite !Rplus_0_l.
  rewrite (Rabs_right (sin t)) by lra. destruct (Rltb_spec (sin t) (/ 10 ^ 10)); [lra|].
  do 3 eexists; split; [reflexivity|]. split; [|split].
  - replace (- (r * sin t * (east_sum (a / r) t l g h lo N * (-1 / sin t)))) with (r * east_sum (a / r) t l g h lo N) by (field; lra).
    apply potential_east; lra.
  - apply potential_north; lra.
  - apply potential_radial; lra.
Qed.
Print Assumptions C59_minus_gradient.

Example C59_minus_gradient_ex : exists t : R, 0 < t < PI /\ / 10 ^ 10 <= sin t /\ square 13 (zeros 14 14).
Proof.
  exists (PI / 2). pose proof PI_RGT_0. split; [lra|]. split; [|split; reflexivity]. rewrite sin_PI2.
  rewrite <- Rinv_1. apply Rinv_le_contravar; [lra|]. apply pow_R1_Rle. lra.
Qed.

(** The grid routine computes, point by point, the same as the routine for scattered points. *)
Theorem C59_grid_equals_points : forall junk lons colats nr g h lo N, (1 <= N)%nat -> square N g -> square N h ->
  Forall (fun t => 0 <= t <= PI) colats -> rows nr = length colats -> cols nr = length lons ->
  exists out, spherical_harmonics_magnetic_field_grid junk lons colats nr g h lo N = Ok out /\
    spherical_harmonics_magnetic_field junk
      (concat (map (fun i => map (fun j => (nth j lons 0, nth i colats 0, ent nr i j)) (range 0 (length lons))) (range 0 (length colats))))
      g h lo N = Ok (concat out) /\
    length out = length colats /\ Forall (fun row => length row = length lons) out.
Proof.
  intros junk lons colats nr g h lo N HN Hg Hh Hc R1 C1. eexists; split; [apply grid_ok; assumption|].
  split; [|split].
  - unfold spherical_harmonics_magnetic_field.
    rewrite (each_ok _ (fun pt => let '(l, t, rho) := pt in fix_east (sin t) (east_sum rho t l g h lo N, north_sum rho t l g h lo N, radial_sum rho t l g h lo N))).
    + f_equal. rewrite concat_map. f_equal. rewrite map_map. apply map_ext. intros i. rewrite map_map. reflexivity.
    + intros [[l t] rho] Hin. apply in_concat in Hin. destruct Hin as (row & Hrow & Hin).
      apply in_map_iff in Hrow. destruct Hrow as (i & <- & Hi). apply in_map_iff in Hin. destruct Hin as (j & E & Hj).
      injection E as <- <- <-. apply range_in in Hi.
      rewrite field_at_ok; [|assumption| |assumption|assumption].
      * cbn [fst snd]. now rewrite !Rplus_0_l.
      * rewrite Forall_forall in Hc. apply Hc. apply nth_In. lia.
  - rewrite map_length. unfold range. rewrite seq_length. lia.
  - apply Forall_forall. intros row Hrow. apply in_map_iff in Hrow. destruct Hrow as (i & <- & _). rewrite map_length. unfold range. rewrite seq_length. lia.
Qed.
Print Assumptions C59_grid_equals_points.

Example C59_grid_ex : Forall (fun t => 0 <= t <= PI) [0; PI / 2; PI] /\ rows (zeros 3 2) = 3%nat /\ cols (zeros 3 2) = 2%nat.
Proof. pose proof PI_RGT_0. split; [repeat apply Forall_cons; try apply Forall_nil; lra|split; reflexivity]. Qed.

(** The rotation to geodetic components expresses the same vector in the rotated frame. *)
Theorem C59_rotation : forall lat lat_sph e n r e' n' u',
  vector_spherical_to_geodetic lat lat_sph (e, n, r) = (e', n', u') ->
  vadd (vscale e' eastward) (vadd (vscale n' (northward lat)) (vscale u' (outward lat))) =
  vadd (vscale e eastward) (vadd (vscale n (northward lat_sph)) (vscale r (outward lat_sph))) /\
  magnitude (e', n', u') = magnitude (e, n, r).
Proof.
  intros lat lat_sph e n r e' n' u' E. unfold vector_spherical_to_geodetic in E. injection E as <- <- <-.
  replace (radians (lat_sph - lat)) with (radians lat_sph - radians lat) by (unfold radians; lra).
  set (p := radians lat_sph). set (q := radians lat).
  assert (A : forall c, cos (p - q) * cos q - sin (p - q) * sin q = c -> cos p = c).
  { intros c <-. rewrite <- cos_plus. f_equal. ring. }
  assert (B : forall c, sin (p - q) * cos q + cos (p - q) * sin q = c -> sin p = c).
  { intros c <-. rewrite <- sin_plus. f_equal. ring. }
  specialize (A _ eq_refl). specialize (B _ eq_refl).
  split.
  - unfold eastward, northward, outward, vadd, vscale. fold p q. cbn. rewrite A, B. f_equal; ring.
  - unfold magnitude. f_equal. pose proof (sin2_cos2 (p - q)) as T. unfold Rsqr in T.
    replace ((cos (p - q) * n + sin (p - q) * r) ^ 2) with (cos (p - q) * cos (p - q) * n ^ 2 + 2 * cos (p - q) * sin (p - q) * n * r + sin (p - q) * sin (p - q) * r ^ 2) by ring.
    replace ((- sin (p - q) * n + cos (p - q) * r) ^ 2) with (sin (p - q) * sin (p - q) * n ^ 2 - 2 * cos (p - q) * sin (p - q) * n * r + cos (p - q) * cos (p - q) * r ^ 2) by ring.
    replace (sin (p - q) * sin (p - q)) with (1 - cos (p - q) * cos (p - q)) by lra. ring.
Qed.
Print Assumptions C59_rotation.

Example C59_rotation_ex : vector_spherical_to_geodetic 90 0 (1, 2, 3) = (1, -3, 2).
Proof.
  unfold vector_spherical_to_geodetic. replace (radians (0 - 90)) with (- (PI / 2)) by (unfold radians; lra).
  rewrite cos_neg, sin_neg, cos_PI2, sin_PI2. f_equal; [f_equal|]; ring.
Qed.

(** The conversion of an ellipsoid gives latitudes between the poles. *)
Lemma conversion_range a e2 lat height : -90 <= fst (ellipsoid_conversion a e2 lat height) <= 90.
Proof.
  unfold ellipsoid_conversion. cbn [fst]. match goal with |- context [asin ?x] => pose proof (asin_bound x) as B end.
  pose proof PI_RGT_0. split; apply (Rmult_le_reg_r PI); try lra; unfold Rdiv; rewrite (Rmult_assoc _ (/ PI)), Rinv_l by lra; lra.
Qed.

Lemma colat_range lat : -90 <= lat <= 90 -> 0 <= radians (90 - lat) <= PI.
Proof. intros H. unfold radians. pose proof PI_RGT_0. split; [|]; nra. Qed.

Lemma grid_unfold junk convert lons lats height g h lo N : lons <> [] -> lats <> [] ->
  grid junk convert lons lats height g h lo N =
  do b <- spherical_harmonics_magnetic_field_grid junk (map radians lons)
    (map (fun i => radians (90 - fst (convert (nth i lats 0) (height i 0%nat)))) (range 0 (length lats)))
    (Table (length lats) (length lons) (fun i j => reference_radius / snd (convert (nth i lats 0) (height i j)))) g h lo N;
  Ok (map (fun ir => let (i, row) := ir : nat * list (R * R * R) in
      map (fun jv => let (j, v) := jv : nat * (R * R * R) in
        vector_spherical_to_geodetic (nth i lats 0) (fst (convert (nth i lats 0) (height i j))) v)
        (combine (range 0 (length lons)) row))
      (combine (range 0 (length lats)) b)).
Proof. intros H1 H2. unfold grid. destruct lons; [contradiction|]. destruct lats; [contradiction|]. reflexivity. Qed.

Theorem C59_predict_equals_grid : forall junk convert lons lats height g h lo N,
  (forall lat z, -90 <= fst (convert lat z) <= 90) ->
  (1 <= N)%nat -> square N g -> square N h -> lons <> [] -> lats <> [] -> (forall i j, height i j = height i 0%nat) ->
  exists out, grid junk convert lons lats height g h lo N = Ok out /\
    predict junk convert
      (concat (map (fun i => map (fun j => (nth j lons 0, nth i lats 0, height i j)) (range 0 (length lons))) (range 0 (length lats))))
      g h lo N = Ok (concat out).
Proof.
  intros junk convert lons lats height g h lo N Hc HN Hg Hh Hlon Hlat Hh0.
  pose proof (grid_unfold junk convert lons lats height g h lo N Hlon Hlat) as UG.
  set (colats := map (fun i => radians (90 - fst (convert (nth i lats 0) (height i 0%nat)))) (range 0 (length lats))).
  set (nr := Table (length lats) (length lons) (fun i j => reference_radius / snd (convert (nth i lats 0) (height i j)))).
  fold colats nr in UG.
  assert (Lc : length colats = length lats) by (unfold colats; rewrite map_length; unfold range; rewrite seq_length; lia).
  assert (Fc : Forall (fun t => 0 <= t <= PI) colats).
  { apply Forall_forall. intros t Ht. apply in_map_iff in Ht. destruct Ht as (i & <- & _). apply colat_range, Hc. }
  assert (Nc : forall i, (i < length lats)%nat -> nth i colats 0 = radians (90 - fst (convert (nth i lats 0) (height i 0%nat)))).
  { intros i Hi. unfold colats. rewrite (nth_indep _ 0 (radians (90 - fst (convert (nth 0 lats 0) (height 0%nat 0%nat))))) by (rewrite map_length; unfold range; rewrite seq_length; lia).
    rewrite (map_nth (fun i => radians (90 - fst (convert (nth i lats 0) (height i 0%nat))))). unfold range. rewrite seq_nth by lia. f_equal. }
  assert (Nl : forall j, (j < length lons)%nat -> nth j (map radians lons) 0 = radians (nth j lons 0)).
  { intros j Hj. rewrite (nth_indep _ 0 (radians 0)) by (rewrite map_length; lia). apply map_nth. }
  assert (EG : forall f, (forall i j, (i < length lats)%nat -> (j < length lons)%nat -> f i j = vector_spherical_to_geodetic (nth i lats 0) (fst (convert (nth i lats 0) (height i j)))
      (fix_east (sin (nth i colats 0)) (east_sum (ent nr i j) (nth i colats 0) (nth j (map radians lons) 0) g h lo N,
         north_sum (ent nr i j) (nth i colats 0) (nth j (map radians lons) 0) g h lo N,
         radial_sum (ent nr i j) (nth i colats 0) (nth j (map radians lons) 0) g h lo N))) ->
    grid junk convert lons lats height g h lo N = Ok (map (fun i => map (f i) (range 0 (length lons))) (range 0 (length lats)))).
  { intros f Hf. rewrite UG. rewrite grid_ok; [|assumption|assumption|assumption|assumption|rewrite Lc; reflexivity|rewrite map_length; reflexivity].
    cbn [bind]. f_equal. rewrite Lc, map_length.
    assert (CM : forall A (F : nat -> A) (xs : list nat), combine xs (map F xs) = map (fun x => (x, F x)) xs).
    { intros A F xs. induction xs as [|x xs IH]; [reflexivity|]. simpl. now rewrite IH. }
    rewrite CM, map_map. apply map_ext_in. intros i Hi. apply range_in in Hi. rewrite CM, map_map. apply map_ext_in. intros j Hj. apply range_in in Hj.
    rewrite Hf by lia. reflexivity. }
  eexists; split; [apply EG; intros; reflexivity|].
  unfold predict, spherical_harmonics_magnetic_field. cbv zeta.
  set (pts := concat (map (fun i => map (fun j => (nth j lons 0, nth i lats 0, height i j)) (range 0 (length lons))) (range 0 (length lats)))).
  set (sph := fun pt : R * R * R => let '(lon, lat, z) := pt in let (lat_sph, radius) := convert lat z in (radians lon, radians (90 - lat_sph), reference_radius / radius)).
  set (ev := fun pt : R * R * R => let '(l, t, rho) := pt in fix_east (sin t) (east_sum rho t l g h lo N, north_sum rho t l g h lo N, radial_sum rho t l g h lo N)).
  rewrite (each_ok _ ev).
  - cbn [bind]. f_equal. rewrite map_map.
    assert (CM : forall A B (F : A -> B) (xs : list A), combine xs (map F xs) = map (fun x => (x, F x)) xs).
    { intros A B F xs. induction xs as [|x xs IH]; [reflexivity|]. simpl. now rewrite IH. }
    rewrite CM, map_map. unfold pts. rewrite concat_map. f_equal. rewrite map_map. apply map_ext_in. intros i Hi. rewrite map_map.
    apply map_ext_in. intros j Hj. apply range_in in Hi, Hj. cbn [sph]. unfold sph, ev.
    rewrite Nc, Nl by lia. rewrite (Hh0 i j). destruct (convert (nth i lats 0) (height i 0%nat)) as [ls rad] eqn:Ecv. cbn [fst].
    unfold nr. cbn [ent]. rewrite (Hh0 i j), Ecv. cbn [snd]. reflexivity.
  - intros pt Hin. apply in_map_iff in Hin. destruct Hin as ([[lon lat] z] & <- & _). unfold sph, ev.
    pose proof (Hc lat z) as B. destruct (convert lat z) as [ls rad]. cbn [fst] in B.
    rewrite field_at_ok; [|assumption|apply colat_range; exact B|assumption|assumption]. cbn [fst snd]. now rewrite !Rplus_0_l.
Qed.
Print Assumptions C59_predict_equals_grid.

Example C59_predict_equals_grid_ex : (forall lat z, -90 <= fst (ellipsoid_conversion 6378137 0.00669438 lat z) <= 90) /\
  (forall i j : nat, (fun _ _ : nat => 450000) i j = (fun _ _ => 450000) i 0%nat).
Proof. split; [intros; apply conversion_range|reflexivity]. Qed.

(** With a height that changes along a parallel (a documented input of grid) the two disagree: the
    grid takes the colatitude of the first column for the whole row.  On every ellipsoid, at every
    northern latitude and for every pair of different heights there is a field for which it does. *)
Lemma sum1 f : all_sum 1 f (1 + 1) = f 1%nat 0%nat + f 1%nat 1%nat.
Proof. unfold all_sum, row_sum, range, sum_over. simpl. ring. Qed.

Definition axial : table := Table 2 2 (fun n m => if (Nat.eqb n 1 && Nat.eqb m 0)%bool then 1 else 0).

Lemma axial_north rho t l : north_sum rho t l axial (zeros 2 2) 1 1 = - rho ^ 3 * sin t.
Proof.
  unfold north_sum. rewrite sum1. unfold nt, Dt, axial, zeros. cbn [ent Nat.eqb andb].
  assert (E : H 1 1 0 t = - sin t). { change (H 1 1 0 t) with (- G 1 1 t). unfold G. rewrite L_1_1. simpl. ring. }
  change (schmidt_factor 1 0) with (sch 1 0). rewrite sch_0, E. change (INR 0) with 0. rewrite Rmult_0_l, cos_0, sin_0. simpl. ring.
Qed.

Lemma conversion_injective a e2 lat z0 z1 : 0 < a -> 0 < e2 < 1 -> 0 < lat < 90 -> 0 <= z0 -> 0 <= z1 ->
  fst (ellipsoid_conversion a e2 lat z0) = fst (ellipsoid_conversion a e2 lat z1) -> z0 = z1.
Proof.
  intros Ha He Hl H0 H1. unfold ellipsoid_conversion. cbn [fst].
  assert (Hphi : 0 < radians lat < PI / 2) by (unfold radians; pose proof PI_RGT_0; split; nra).
  set (phi := radians lat) in *. assert (Hs : 0 < sin phi) by (apply sin_gt_0; lra). assert (Hcc : 0 < cos phi) by (apply cos_gt_0; lra).
  assert (Hs1 : sin phi ^ 2 < 1) by (pose proof (sin2_cos2 phi); unfold Rsqr in *; simpl; nra).
  set (P := a / sqrt (1 - e2 * sin phi ^ 2)).
  assert (HP : 0 < P). { apply Rdiv_lt_0_compat; [exact Ha|]. apply sqrt_lt_R0. assert (0 < sin phi ^ 2) by (apply pow_lt; exact Hs). nra. }
  clearbody P.
  set (x0 := (P + z0) * cos phi). set (y0 := ((1 - e2) * P + z0) * sin phi).
  set (x1 := (P + z1) * cos phi). set (y1 := ((1 - e2) * P + z1) * sin phi).
  assert (0 < x0) by (apply Rmult_lt_0_compat; lra). assert (0 < x1) by (apply Rmult_lt_0_compat; lra).
  assert (0 < y0) by (apply Rmult_lt_0_compat; [nra|lra]). assert (0 < y1) by (apply Rmult_lt_0_compat; [nra|lra]).
  assert (R0 : 0 < x0 ^ 2 + y0 ^ 2) by (pose proof (pow_lt x0 2); pose proof (pow_lt y0 2); lra).
  assert (R1 : 0 < x1 ^ 2 + y1 ^ 2) by (pose proof (pow_lt x1 2); pose proof (pow_lt y1 2); lra).
  pose proof (sqrt_lt_R0 _ R0) as Q0. pose proof (sqrt_lt_R0 _ R1) as Q1.
  pose proof (pow2_sqrt (x0 ^ 2 + y0 ^ 2) ltac:(lra)) as S0. pose proof (pow2_sqrt (x1 ^ 2 + y1 ^ 2) ltac:(lra)) as S1.
  set (r0 := sqrt (x0 ^ 2 + y0 ^ 2)) in *. set (r1 := sqrt (x1 ^ 2 + y1 ^ 2)) in *.
  assert (B : forall y r x, 0 < y -> 0 < x -> 0 < r -> r ^ 2 = x ^ 2 + y ^ 2 -> -1 <= y / r <= 1).
  { intros y r x Hy Hx Hr E. assert (y < r) by (apply Rnot_le_lt; intro; simpl in E; nra).
    assert (y / r < 1) by (apply (Rmult_lt_reg_r r); [lra|]; unfold Rdiv; rewrite Rmult_assoc, Rinv_l by lra; lra).
    assert (0 < y / r) by (apply Rdiv_lt_0_compat; lra). lra. }
  intros E. assert (E' : asin (y0 / r0) = asin (y1 / r1)).
  { pose proof PI_RGT_0. apply (Rmult_eq_reg_r (180 / PI)); [unfold Rdiv in *; lra|]. apply Rgt_not_eq. apply Rdiv_lt_0_compat; lra. }
  assert (E2 : y0 / r0 = y1 / r1).
  { rewrite <- (sin_asin (y0 / r0)) by (apply (B _ _ x0); assumption). rewrite <- (sin_asin (y1 / r1)) by (apply (B _ _ x1); assumption). now rewrite E'. }
  assert (E3 : y0 * r1 = y1 * r0).
  { apply (Rmult_eq_reg_r (/ r0 * / r1)); [|apply Rmult_integral_contrapositive_currified; apply Rinv_neq_0_compat; lra].
    transitivity (y0 / r0); [field; lra|]. rewrite E2. field. lra. }
  assert (E4 : (y0 * x1) ^ 2 = (y1 * x0) ^ 2).
  { assert (X : (y0 * r1) ^ 2 = (y1 * r0) ^ 2) by now rewrite E3. rewrite !Rpow_mult_distr, S0, S1 in X. rewrite !Rpow_mult_distr. lra. }
  assert (E5 : y0 * x1 = y1 * x0).
  { assert (0 < y0 * x1) by (now apply Rmult_lt_0_compat). assert (0 < y1 * x0) by (now apply Rmult_lt_0_compat).
    simpl in E4. nra. }
  unfold y0, x1, y1, x0 in E5.
  assert (E6 : ((1 - e2) * P + z0) * (P + z1) = ((1 - e2) * P + z1) * (P + z0)).
  { apply (Rmult_eq_reg_r (sin phi * cos phi)); [lra|]. apply Rgt_not_eq. now apply Rmult_lt_0_compat. }
  assert (E7 : e2 * P * (z0 - z1) = 0) by lra.
  apply Rmult_integral in E7. destruct E7 as [E7|E7]; [|lra]. assert (0 < e2 * P) by (apply Rmult_lt_0_compat; lra). lra.
Qed.

Lemma third_ne (x y : R * R * R) : snd x <> snd y -> x <> y.
Proof. intros H E. apply H. now rewrite E. Qed.

Theorem C59_varying_height_refuted : forall junk a e2 lat lon0 lon1 z0 z1,
  0 < a -> 0 < e2 < 1 -> 0 < lat < 90 -> 0 <= z0 -> 0 <= z1 -> z0 <> z1 ->
  exists g h b0 b1 c0 c1, square 1 g /\ square 1 h /\
    grid junk (ellipsoid_conversion a e2) [lon0; lon1] [lat] (fun _ j => if Nat.eqb j 0 then z0 else z1) g h 1 1 = Ok [[b0; b1]] /\
    predict junk (ellipsoid_conversion a e2) [(lon0, lat, z0); (lon1, lat, z1)] g h 1 1 = Ok [c0; c1] /\ b1 <> c1.
Proof.
  intros junk a e2 lat lon0 lon1 z0 z1 Ha He Hl H0 H1 Hne.
  exists axial, (zeros 2 2).
  assert (Hg : square 1 axial) by (split; reflexivity). assert (Hh : square 1 (zeros 2 2)) by (split; reflexivity).
  pose proof (conversion_range a e2 lat z0) as B0. pose proof (conversion_range a e2 lat z1) as B1.
  assert (Hinj : fst (ellipsoid_conversion a e2 lat z0) <> fst (ellipsoid_conversion a e2 lat z1)).
  { intros E. apply Hne. exact (conversion_injective a e2 lat z0 z1 Ha He Hl H0 H1 E). }
  assert (Hrad : 0 < snd (ellipsoid_conversion a e2 lat z1)).
  { unfold ellipsoid_conversion. cbn [snd]. apply sqrt_lt_R0.
    assert (Hphi : 0 < radians lat < PI / 2) by (unfold radians; pose proof PI_RGT_0; split; nra).
    set (phi := radians lat) in *. assert (Hs : 0 < sin phi) by (apply sin_gt_0; lra). assert (Hcc : 0 < cos phi) by (apply cos_gt_0; lra).
    assert (Hs1 : sin phi ^ 2 < 1) by (pose proof (sin2_cos2 phi); unfold Rsqr in *; simpl; nra).
    assert (HP : 0 < a / sqrt (1 - e2 * sin phi ^ 2)). { apply Rdiv_lt_0_compat; [exact Ha|]. apply sqrt_lt_R0. assert (0 < sin phi ^ 2) by (apply pow_lt; exact Hs). nra. }
    match goal with |- 0 < ?u ^ 2 + ?v ^ 2 => assert (0 < u) by (apply Rmult_lt_0_compat; lra); assert (0 <= v ^ 2) by (apply pow2_ge_0); pose proof (pow_lt u 2) end. lra. }
  unfold grid, predict, spherical_harmonics_magnetic_field. cbn [map range seq length Nat.sub nth Nat.eqb].
  destruct (ellipsoid_conversion a e2 lat z0) as [ls0 r0] eqn:E0. destruct (ellipsoid_conversion a e2 lat z1) as [ls1 r1] eqn:E1. cbn [fst snd] in *.
  rewrite grid_ok; [|lia|assumption|assumption|apply Forall_cons; [apply colat_range; lra|apply Forall_nil]|reflexivity|reflexivity].
  cbn [each]. rewrite !field_at_ok; [|lia|apply colat_range; lra|assumption|assumption|lia|apply colat_range; lra|assumption|assumption].
  cbn [bind map range seq length Nat.sub nth Nat.eqb combine ent fst snd]. rewrite E0, E1. cbn [fst snd].
  do 4 eexists. split; [exact Hg|]. split; [exact Hh|]. split; [reflexivity|]. split; [reflexivity|].
  (* the northward and radial components before the rotation *)
  set (t0 := radians (90 - ls0)). set (t1 := radians (90 - ls1)). set (rho := reference_radius / r1).
  assert (Ht0 : 0 <= t0 <= PI) by (apply colat_range; lra). assert (Ht1 : 0 <= t1 <= PI) by (apply colat_range; lra).
  assert (Hrho : 0 < rho) by (apply Rdiv_lt_0_compat; [unfold reference_radius; lra|exact Hrad]).
  assert (AR : forall t l, radial_sum rho t l axial (zeros 2 2) 1 1 = 2 * rho ^ 3 * cos t).
  { intros t l. unfold radial_sum. rewrite sum1. unfold rt, Pt, axial, zeros. cbn [ent Nat.eqb andb].
    change (schmidt_factor 1 0) with (sch 1 0). rewrite sch_0. unfold G. rewrite L_1_0. change (INR 0) with 0. rewrite Rmult_0_l, cos_0, sin_0. simpl. ring. }
  rewrite !Rplus_0_l, !axial_north, !AR.
  assert (Ht : cos t0 <> cos t1).
  { intros E. apply cos_inj in E; [|lra|lra]. apply Hinj. unfold t0, t1, radians in E. pose proof PI_RGT_0.
    apply (Rmult_eq_reg_r (PI / 180)); [|lra]. lra. }
  intros E. unfold fix_east, vector_spherical_to_geodetic in E.
  pose proof (f_equal (fun v => snd (fst v)) E) as En. pose proof (f_equal snd E) as Eu. cbn [fst snd] in En, Eu. clear E.
  set (w := radians (ls1 - lat)) in *. pose proof (sin2_cos2 w) as T. unfold Rsqr in T.
  assert (X : 2 * rho ^ 3 * cos t0 = 2 * rho ^ 3 * cos t1).
  { transitivity (sin w * (cos w * (- rho ^ 3 * sin t0) + sin w * (2 * rho ^ 3 * cos t0)) + cos w * (- sin w * (- rho ^ 3 * sin t0) + cos w * (2 * rho ^ 3 * cos t0))).
    - replace (2 * rho ^ 3 * cos t0) with ((sin w * sin w + cos w * cos w) * (2 * rho ^ 3 * cos t0)) at 1 by (rewrite T; ring). ring.
    - rewrite En, Eu. transitivity ((sin w * sin w + cos w * cos w) * (2 * rho ^ 3 * cos t1)); [ring|rewrite T; ring]. }
  apply Ht. apply (Rmult_eq_reg_l (2 * rho ^ 3)); [exact X|]. pose proof (pow_lt rho 3 Hrho). lra.
Qed.
Print Assumptions C59_varying_height_refuted.

(** ** C60: the poles *)
(** The northward and radial components returned at a pole are the limits along the meridian of the
    gradient of the potential.  The eastward one is not: see the refutation below. *)
Lemma continuous_sum {A} (ls : list A) (f : A -> R -> R) x : (forall a, In a ls -> continuous (f a) x) ->
  continuous (fun t => sum_over ls (fun a => f a t)) x.
Proof.
  induction ls as [|a ls IH]; intros Hc.
  - apply continuous_ext with (fun _ => 0); [intros; reflexivity|apply continuous_const].
  - apply continuous_ext with (fun t => plus (f a t) (sum_over ls (fun a => f a t))); [intros; reflexivity|].
    apply (continuous_plus (f a) (fun t => sum_over ls (fun a => f a t))); [apply Hc; now left|]. apply IH. intros b Hb. apply Hc. now right.
Qed.

Lemma H_continuous k n m t : (m <= n)%nat -> continuous (H k n m) t.
Proof. intros Hm. apply @ex_derive_continuous. eexists. now apply H_derive. Qed.

Lemma north_continuous rho l g h lo N t : continuous (fun t => north_sum rho t l g h lo N) t.
Proof.
  unfold north_sum, all_sum, row_sum. apply continuous_sum. intros n _. apply continuous_sum. intros m Hm. apply range_in in Hm.
  unfold nt, Dt. apply (continuous_scal_r (rho ^ (n + 2) * (ent g n m * cos (INR m * l) + ent h n m * sin (INR m * l))) (fun t => schmidt_factor n m * H 1 n m t)).
  apply (continuous_scal_r (schmidt_factor n m) (H 1 n m)). apply H_continuous. lia.
Qed.

Lemma radial_continuous rho l g h lo N t : continuous (fun t => radial_sum rho t l g h lo N) t.
Proof.
  unfold radial_sum, all_sum, row_sum. apply continuous_sum. intros n _. apply continuous_sum. intros m Hm. apply range_in in Hm.
  unfold rt, Pt. apply (continuous_scal_r ((INR n + 1) * rho ^ (n + 2) * (ent g n m * cos (INR m * l) + ent h n m * sin (INR m * l))) (fun t => schmidt_factor n m * G n m t)).
  apply (continuous_scal_r (schmidt_factor n m) (G n m)). apply (H_continuous 0). lia.
Qed.

Theorem C60_north_and_up_partial : forall junk a g h lo N r l pole, (1 <= N)%nat -> square N g -> square N h ->
  0 < a -> 0 < r -> pole = 0 \/ pole = PI ->
  exists bn br : R, field_at junk l pole (a / r) g h lo N (0, 0, 0) = Ok (0, bn, br) /\
    filterlim (fun t => Derive (fun t => igrf_potential a g h lo N r t l) t / r)
      (within (fun t => 0 < t < PI) (locally pole)) (locally bn) /\
    filterlim (fun t => - Derive (fun r => igrf_potential a g h lo N r t l) r)
      (within (fun t => 0 < t < PI) (locally pole)) (locally br).
Proof.
  intros junk a g h lo N r l pole HN Hg Hh Ha Hr Hpole.
  assert (Hb : 0 <= pole <= PI) by (pose proof PI_RGT_0; destruct Hpole; subst; lra).
  assert (Hs : sin pole = 0) by (destruct Hpole; subst; [apply sin_0|apply sin_PI]).
  rewrite field_at_ok by assumption. cbn [fst snd]. rewrite !Rplus_0_l. unfold fix_east. rewrite Hs, Rabs_R0.
  destruct (Rltb_spec 0 (/ 10 ^ 10)) as [_|Hn]; [|exfalso; apply Hn; apply Rinv_0_lt_compat; apply pow_lt; lra].
  do 2 eexists; split; [reflexivity|]. split.
  - apply (filterlim_ext_loc (fun t => north_sum (a / r) t l g h lo N)).
    + unfold within. apply filter_forall. intros t Ht. replace (Derive (fun t => igrf_potential a g h lo N r t l) t) with (r * north_sum (a / r) t l g h lo N) by (symmetry; apply is_derive_unique; now apply potential_north). field. lra.
    + apply (filterlim_filter_le_1 (F := locally pole) (G := within (fun t => 0 < t < PI) (locally pole))).
      * intros P HP. unfold within. apply filter_imp with (2 := HP). auto.
      * apply north_continuous.
  - apply (filterlim_ext_loc (fun t => radial_sum (a / r) t l g h lo N)).
    + unfold within. apply filter_forall. intros t Ht. replace (Derive (fun r => igrf_potential a g h lo N r t l) r) with (- radial_sum (a / r) t l g h lo N) by (symmetry; apply is_derive_unique; apply potential_radial; lra). ring.
    + apply (filterlim_filter_le_1 (F := locally pole) (G := within (fun t => 0 < t < PI) (locally pole))).
      * intros P HP. unfold within. apply filter_imp with (2 := HP). auto.
      * apply radial_continuous.
Qed.
Print Assumptions C60_north_and_up_partial.

(** Points of the meridian do approach the pole. *)
Example C60_ex : ProperFilter (within (fun t => 0 < t < PI) (locally 0)).
Proof.
  constructor; [|apply within_filter, locally_filter]. intros P [eps HP]. pose proof (cond_pos eps). pose proof PI_RGT_0.
  assert (M : 0 < Rmin (eps / 2) (PI / 2)) by (apply Rmin_glb_lt; lra).
  pose proof (Rmin_l (eps / 2) (PI / 2)). pose proof (Rmin_r (eps / 2) (PI / 2)).
  exists (Rmin (eps / 2) (PI / 2)). apply HP; [|lra].
  change (Rabs (Rmin (eps / 2) (PI / 2) - 0) < eps). rewrite Rminus_0_r, Rabs_right by lra. lra.
Qed.

(** A dipole in the equatorial plane.  Its field at the pole is horizontal and the same for every
    meridian, but the code returns zero for its eastward component: the limit along the meridian 0 is
    -1 and the vector returned at the pole has the magnitude 0 for longitude 0 and 1 for longitude
    90 degrees. *)
Definition equatorial : table := Table 2 2 (fun n m => if (Nat.eqb n 1 && Nat.eqb m 1)%bool then 1 else 0).

Lemma equatorial_sums rho t l :
  east_sum rho t l (zeros 2 2) equatorial 1 1 = rho ^ 3 * cos l * sin t /\
  north_sum rho t l (zeros 2 2) equatorial 1 1 = rho ^ 3 * sin l * cos t /\
  radial_sum rho t l (zeros 2 2) equatorial 1 1 = 2 * rho ^ 3 * sin l * sin t.
Proof.
  assert (E : H 1 1 1 t = cos t). { change (H 1 1 1 t) with (1 * G 1 0 t). unfold G. rewrite L_1_0. simpl. ring. }
  unfold east_sum, north_sum, radial_sum. rewrite !sum1. unfold et, nt, rt, Pt, Dt, equatorial, zeros. cbn [ent Nat.eqb andb].
  change (schmidt_factor 1 1) with (sch 1 1). rewrite sch_1_1, E. unfold G. rewrite L_1_1. change (INR 1) with 1. rewrite !(Rmult_1_l l).
  change (INR 0) with 0. change (1 + 2)%nat with 3%nat. rewrite !Rmult_1_l, !Rmult_0_l. split; [|split]; ring.
Qed.

Theorem C60_east_at_the_pole_refuted : forall junk r, 0 < r -> exists g h, square 1 g /\ square 1 h /\
  field_at junk 0 0 (r / r) g h 1 1 (0, 0, 0) = Ok (0, 0, 0) /\
  field_at junk (PI / 2) 0 (r / r) g h 1 1 (0, 0, 0) = Ok (0, 1, 0) /\
  forall t, 0 < t < PI -> - Derive (fun l => igrf_potential r g h 1 1 r t l) 0 / (r * sin t) = -1.
Proof.
  intros junk r Hr. exists (zeros 2 2), equatorial.
  assert (Hg : square 1 equatorial) by (split; reflexivity). assert (Hh : square 1 (zeros 2 2)) by (split; reflexivity).
  split; [exact Hh|]. split; [exact Hg|].
  assert (P : forall l, field_at junk l 0 (r / r) (zeros 2 2) equatorial 1 1 (0, 0, 0) = Ok (0, sin l, 0)).
  { intros l. pose proof PI_RGT_0. rewrite field_at_ok; [|lia|lra|assumption|assumption]. cbn [fst snd]. rewrite !Rplus_0_l.
    destruct (equatorial_sums (r / r) 0 l) as (-> & -> & ->). unfold fix_east. rewrite sin_0, cos_0, Rabs_R0.
    destruct (Rltb_spec 0 (/ 10 ^ 10)) as [_|Hn]; [|exfalso; apply Hn; apply Rinv_0_lt_compat; apply pow_lt; lra].
    replace (r / r) with 1 by (field; lra). f_equal. f_equal; [f_equal|]; ring. }
  split; [rewrite P, sin_0; reflexivity|]. split; [rewrite P, sin_PI2; reflexivity|].
  intros t Ht. assert (0 < sin t) by (apply sin_gt_0; lra).
  replace (Derive (fun l => igrf_potential r (zeros 2 2) equatorial 1 1 r t l) 0) with (r * east_sum (r / r) t 0 (zeros 2 2) equatorial 1 1) by (symmetry; apply is_derive_unique; apply potential_east; lra).
  destruct (equatorial_sums (r / r) t 0) as (-> & _ & _). rewrite cos_0. field. lra.
Qed.
Print Assumptions C60_east_at_the_pole_refuted.

(** As a consequence the magnitude returned at the pole depends on the longitude of the request. *)
Theorem C60_pole_depends_on_longitude_refuted : forall junk, exists g h l1 l2 v1 v2, square 1 g /\ square 1 h /\
  field_at junk l1 0 1 g h 1 1 (0, 0, 0) = Ok v1 /\ field_at junk l2 0 1 g h 1 1 (0, 0, 0) = Ok v2 /\
  magnitude v1 <> magnitude v2.
Proof.
  intros junk. destruct (C60_east_at_the_pole_refuted junk 1 ltac:(lra)) as (g & h & Hg & Hh & E1 & E2 & _).
  replace (1 / 1) with 1 in * by lra. exists g, h, 0, (PI / 2), (0, 0, 0), (0, 1, 0).
  split; [exact Hg|]. split; [exact Hh|]. split; [exact E1|]. split; [exact E2|]. unfold magnitude.
  replace (0 ^ 2 + 0 ^ 2 + 0 ^ 2) with 0 by ring. replace (0 ^ 2 + 1 ^ 2 + 0 ^ 2) with 1 by ring. rewrite sqrt_0, sqrt_1. lra.
Qed.
Print Assumptions C60_pole_depends_on_longitude_refuted.
