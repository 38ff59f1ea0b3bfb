(** Claim C101: the default spacing of [IGRF14.grid] is fine enough for the degree of the model. *)
From Coquelicot Require Import Coquelicot.
From Coq Require Import Psatz.
From Verif Require Import Base BaseFacts LegendreModel LegendreSpec LegendreFacts LegendreProofs LegendreDerivProofs LegendreProps
  IgrfModel IgrfSpec IgrfProofs IgrfTimeProofs IgrfProps IgrfMaxwellProofs PolynomialProofs IgrfSamplingProofs.
Local Open Scope R_scope.

(** The axes of a grid around the whole Earth with the default spacing: grid-line registered, both ends included. *)
Definition around_the_earth (west : R) (N : nat) : list R := map (fun j => west + INR j * calculate_ideal_spacing N) (range 0 (4 * N + 5)).
Definition pole_to_pole (N : nat) : list R := map (fun i => -90 + INR i * calculate_ideal_spacing N) (range 0 (2 * N + 3)).

Lemma spacing_pos N : 0 < 2 * INR N + 2.
Proof. assert (P := pos_INR N). lra. Qed.
Lemma INR_lats N : INR (2 * N + 2) = 2 * INR N + 2.
Proof. rewrite plus_INR, mult_INR. simpl. ring. Qed.
Lemma nth_axis (f : nat -> R) n i : (i < n)%nat -> nth i (map f (range 0 n)) 0 = f i.
Proof. intros H. rewrite (nth_indep _ 0 (f 0%nat)) by (rewrite map_length; unfold range; rewrite seq_length; lia). rewrite map_nth. unfold range. rewrite seq_nth by lia. reflexivity. Qed.
Lemma axis_length {A} (f : nat -> A) n : length (map f (range 0 n)) = n.
Proof. rewrite map_length. unfold range. rewrite seq_length. lia. Qed.

(** The spacing divides the circle and the meridian. *)
Theorem C101_spacing_divides_the_globe : forall west N,
  hd 0 (around_the_earth west N) = west /\ last (around_the_earth west N) 0 = west + 360 /\
  hd 0 (pole_to_pole N) = -90 /\ last (pole_to_pole N) 0 = 90.
Proof.
  intros west N. assert (P := spacing_pos N).
  assert (La : forall (f : nat -> R) n, last (map f (range 0 (n + 1))) 0 = f n).
  { intros f n. unfold range. replace (n + 1 - 0)%nat with (S n) by lia. rewrite seq_S, map_app. cbn [map]. rewrite last_last. f_equal. }
  assert (Hd : forall (f : nat -> R) n, hd 0 (map f (range 0 (n + 1))) = f 0%nat).
  { intros f n. unfold range. replace (n + 1 - 0)%nat with (S n) by lia. reflexivity. }
  unfold around_the_earth, pole_to_pole. replace (4 * N + 5)%nat with (4 * N + 4 + 1)%nat by lia. replace (2 * N + 3)%nat with (2 * N + 2 + 1)%nat by lia.
  rewrite !La, !Hd. unfold calculate_ideal_spacing. replace (4 * N + 4)%nat with (2 * (2 * N + 2))%nat by lia. rewrite mult_INR, INR_lats. simpl (INR 0). simpl (INR 2).
  repeat split; field; lra.
Qed.
Print Assumptions C101_spacing_divides_the_globe.

(** ** Values of the grid *)
Lemma grid_value junk convert lons lats height g h lo N out : (forall lat z, -90 <= fst (convert lat z) <= 90) ->
  (1 <= N)%nat -> square N g -> square N h -> lons <> [] -> lats <> [] ->
  grid junk convert lons lats height g h lo N = Ok out -> forall i j, (i < length lats)%nat -> (j < length lons)%nat ->
  let t := radians (90 - fst (convert (nth i lats 0) (height i 0%nat))) in
  let rho := reference_radius / snd (convert (nth i lats 0) (height i j)) in
  let l := radians (nth j lons 0) in
  nth j (nth i out []) (0, 0, 0) = vector_spherical_to_geodetic (nth i lats 0) (fst (convert (nth i lats 0) (height i j)))
    (fix_east (sin t) (east_sum rho t l g h lo N, north_sum rho t l g h lo N, radial_sum rho t l g h lo N)).
Proof.
  intros Hc HN Hg Hh Hlon Hlat E i j Hi Hj. cbv zeta. rewrite grid_unfold in E by assumption.
  rewrite grid_ok in E; try assumption.
  - cbn [bind] in E. injection E as <-. rewrite axis_length, map_length.
    assert (CM : forall A (F : nat -> A) (xs : list nat), combine xs (map F xs) = map (fun x => (x, F x)) xs).
    { intros A F xs. induction xs as [|x xs IH]; [reflexivity|]. simpl. now rewrite IH. }
    rewrite CM, map_map.
    assert (NM : forall A (F : nat -> A) n k d, (k < n)%nat -> nth k (map F (range 0 n)) d = F k).
    { intros A F n k d H. rewrite (nth_indep _ d (F 0%nat)) by (rewrite axis_length; lia). rewrite map_nth. unfold range. rewrite seq_nth by lia. reflexivity. }
    rewrite NM by exact Hi. rewrite CM, map_map, NM by exact Hj. rewrite nth_axis by exact Hi. cbn [ent].
    rewrite (nth_indep (map radians lons) 0 (radians 0)) by (rewrite map_length; lia). rewrite map_nth. reflexivity.
  - apply Forall_forall. intros t Ht. apply in_map_iff in Ht. destruct Ht as (k & <- & _). apply colat_range, Hc.
  - cbn [rows]. now rewrite axis_length.
  - cbn [cols]. now rewrite map_length.
Qed.

Lemma same_radial lat lat_sph st v v' : vector_spherical_to_geodetic lat lat_sph (fix_east st v) = vector_spherical_to_geodetic lat lat_sph (fix_east st v') -> snd v = snd v'.
Proof.
  destruct v as [[e n] r], v' as [[e' n'] r']. unfold fix_east, vector_spherical_to_geodetic. cbn [snd]. set (w := radians (lat_sph - lat)).
  intros E. injection E as _ E1 E2. assert (S := sin2_cos2 w). unfold Rsqr in S.
  transitivity (sin w * (cos w * n + sin w * r) + cos w * (- sin w * n + cos w * r)); [replace r with (r * (sin w * sin w + cos w * cos w)) at 1 by (rewrite S; ring); ring|].
  rewrite E1, E2. replace r' with (r' * (sin w * sin w + cos w * cos w)) at 3 by (rewrite S; ring). ring.
Qed.

(** Two sets of coefficients that give the same grid are the same, on the surface of every ellipsoid
    of revolution.  The coefficients h of order zero multiply the sine of zero and are not part of the model. *)
Theorem C101_grid_determines_coefficients : forall junk a e2 west g h g' h' lo N out, 0 < a -> e2 < 1 ->
  (1 <= N)%nat -> square N g -> square N h -> square N g' -> square N h' ->
  grid junk (ellipsoid_conversion a e2) (around_the_earth west N) (pole_to_pole N) (fun _ _ => 0) g h lo N = Ok out ->
  grid junk (ellipsoid_conversion a e2) (around_the_earth west N) (pole_to_pole N) (fun _ _ => 0) g' h' lo N = Ok out ->
  forall n m, (lo <= n <= N)%nat -> (m <= n)%nat -> ent g n m = ent g' n m /\ ((1 <= m)%nat -> ent h n m = ent h' n m).
Proof.
  intros junk a e2 west g h g' h' lo N out Ha He HN Hg Hh Hg' Hh' E E' n m Hn Hm.
  set (lat := fun i => -90 + INR i * calculate_ideal_spacing N). set (conv := fun i => ellipsoid_conversion a e2 (lat i) 0).
  set (t := fun i => radians (90 - fst (conv i))). set (rho := fun i => reference_radius / snd (conv i)).
  set (wr := radians west). set (M := (4 * N + 4)%nat).
  assert (Sp := spacing_pos N). assert (P := PI_RGT_0).
  assert (Hlat : forall i, (1 <= i <= 2 * N + 1)%nat -> -90 < lat i < 90).
  { intros i Hi. assert (Si : 0 < calculate_ideal_spacing N) by (apply Rdiv_lt_0_compat; lra).
    assert (K : calculate_ideal_spacing N * (2 * INR N + 2) = 180) by (unfold calculate_ideal_spacing; field; lra).
    assert (I1 : 1 <= INR i) by (apply (le_INR 1); lia). assert (I2 : INR i <= 2 * INR N + 1).
    { replace (2 * INR N + 1) with (INR (2 * N + 1)) by (rewrite plus_INR, mult_INR; simpl; ring). apply le_INR. lia. }
    unfold lat. split; nra. }
  assert (Rad : forall i j, (1 <= i <= 2 * N + 1)%nat -> (j < M)%nat ->
    radial_sum (rho i) (t i) (around M wr j) g h lo N = radial_sum (rho i) (t i) (around M wr j) g' h' lo N).
  { intros i j Hi Hj. unfold M in Hj.
    assert (L1 : length (pole_to_pole N) = (2 * N + 3)%nat) by apply axis_length.
    assert (L2 : length (around_the_earth west N) = (4 * N + 5)%nat) by apply axis_length.
    assert (N1 : pole_to_pole N <> []) by (intros Z; rewrite Z in L1; cbn [length] in L1; lia).
    assert (N2 : around_the_earth west N <> []) by (intros Z; rewrite Z in L2; cbn [length] in L2; lia).
    assert (V := grid_value junk _ _ _ _ g h lo N out (conversion_range a e2) HN Hg Hh N2 N1 E i j ltac:(lia) ltac:(lia)).
    assert (V' := grid_value junk _ _ _ _ g' h' lo N out (conversion_range a e2) HN Hg' Hh' N2 N1 E' i j ltac:(lia) ltac:(lia)).
    cbv zeta in V, V'. rewrite V in V'. apply same_radial in V'. cbn [snd] in V'.
    unfold pole_to_pole, around_the_earth in V'. rewrite !nth_axis in V' by lia. fold (lat i) in V'. fold (conv i) in V'. fold (t i) in V'. fold (rho i) in V'.
    replace (radians (west + INR j * calculate_ideal_spacing N)) with (around M wr j) in V'; [exact V'|].
    unfold around, wr, M, radians, calculate_ideal_spacing. replace (4 * N + 4)%nat with (2 * (2 * N + 2))%nat by lia. rewrite mult_INR, INR_lats. simpl (INR 2). field. lra. }
  assert (Ord : forall i k, (1 <= i <= 2 * N + 1)%nat -> (k <= N)%nat ->
    order_part (rho i) (t i) (fun n m => ent g n m - ent g' n m) lo N k = 0 /\
    ((1 <= k)%nat -> order_part (rho i) (t i) (fun n m => ent h n m - ent h' n m) lo N k = 0)).
  { intros i k Hi Hk. revert k Hk. apply (parallel_determined M wr ltac:(unfold M; lia) N); [unfold M; lia|].
    intros j Hj. assert (R := Rad i j Hi Hj). rewrite !radial_orders in R.
    assert (Sub : forall f f' k, order_part (rho i) (t i) (fun n m => f n m - f' n m) lo N k = order_part (rho i) (t i) f lo N k - order_part (rho i) (t i) f' lo N k).
    { intros f f' k. unfold order_part. unfold Rminus. replace (- sum_over (range lo (N + 1)) (fun n0 => (INR n0 + 1) * rho i ^ (n0 + 2) * Pt (t i) n0 k * f' n0 k)) with
        (-1 * sum_over (range lo (N + 1)) (fun n0 => (INR n0 + 1) * rho i ^ (n0 + 2) * Pt (t i) n0 k * f' n0 k)) by ring.
      rewrite <- sum_over_scal, <- sum_over_plus. apply sum_over_ext. intros x _. ring. }
    match type of R with ?A = ?B => transitivity (A + -1 * B); [|rewrite R; ring] end.
    rewrite <- sum_over_scal, <- sum_over_plus. apply sum_over_ext. intros x _. rewrite !Sub. ring. }
  destruct (inverse_square_lead a e2 Ha He) as (s & gam & S2 & Gn & Q).
  set (pts := map (fun i => height_of e2 (lat i)) (range 1 (2 * N + 2))).
  assert (Rp : forall i, (1 <= i <= 2 * N + 1)%nat -> 0 < rho i /\ rho i ^ 2 = inverse_square a e2 (height_of e2 (lat i)) /\ cos (t i) = height_of e2 (lat i) /\ 0 < sin (t i)).
  { intros i Hi. assert (K := point a e2 Ha He (lat i) (Hlat i Hi)). unfold rho, t, conv. destruct (ellipsoid_conversion a e2 (lat i) 0) as [ls r]. cbn [fst snd].
    destruct K as (K1 & K2 & K3 & K4). split; [apply Rdiv_lt_0_compat; [unfold reference_radius; lra|exact K1]|]. now split. }
  assert (Key : forall f : nat -> nat -> R, (forall i, (1 <= i <= 2 * N + 1)%nat -> order_part (rho i) (t i) f lo N m = 0) -> f n m = 0).
  { intros f Hf. assert (Z : (INR n + 1) * schmidt_factor n m * f n m = 0).
    2:{ assert (Sc := sch_pos n m). unfold sch in Sc. assert (In0 := pos_INR n). apply Rmult_integral in Z. destruct Z as [Z|Z]; [|exact Z]. exfalso. nra. }
    apply (order_determined m lo N (fun n => (INR n + 1) * schmidt_factor n m * f n m) (inverse_square a e2) s gam (fun x => sqrt (inverse_square a e2 x)) pts Q Gn S2); [| | |exact Hn|exact Hm].
    - unfold pts. assert (ND : forall k b, (1 <= b)%nat -> (b + k <= 2 * N + 2)%nat -> NoDup (map (fun i => height_of e2 (lat i)) (seq b k))).
      { induction k as [|k IH]; intros b Hb Hk; [constructor|]. cbn [seq map]. constructor; [|apply IH; lia].
        intros C. apply in_map_iff in C. destruct C as (i & C & Ci). apply in_seq in Ci.
        apply (height_injective e2 He) in C; [|apply Hlat; lia|apply Hlat; lia].
        assert (Ib : INR b < INR i) by (apply lt_INR; lia). assert (Si : 0 < calculate_ideal_spacing N) by (apply Rdiv_lt_0_compat; lra). unfold lat in C. nra. }
      apply ND; lia.
    - unfold pts. rewrite map_length. unfold range. rewrite seq_length. lia.
    - intros x Hx. unfold pts in Hx. apply in_map_iff in Hx. destruct Hx as (i & <- & Hi). apply range_in in Hi.
      assert (Each : forall k, (1 <= k <= 2 * N + 1)%nat -> sqrt (inverse_square a e2 (height_of e2 (lat k))) = rho k /\
        sum_over (range lo (N + 1)) (fun n => (INR n + 1) * schmidt_factor n m * f n m * sqrt (inverse_square a e2 (height_of e2 (lat k))) ^ (n + 2) * L n m (height_of e2 (lat k))) = 0).
      { intros k Hk. destruct (Rp k Hk) as (K1 & K2 & K3 & K4). assert (K5 : sqrt (inverse_square a e2 (height_of e2 (lat k))) = rho k) by (rewrite <- K2; apply sqrt_pow2; lra).
        split; [exact K5|]. rewrite K5. assert (O := Hf k Hk). unfold order_part in O.
        rewrite (sum_over_ext _ _ (fun n => sin (t k) ^ m * ((INR n + 1) * schmidt_factor n m * f n m * rho k ^ (n + 2) * L n m (height_of e2 (lat k))))) in O.
        - rewrite sum_over_scal in O. apply Rmult_integral in O. destruct O as [O|O]; [|exact O]. exfalso. assert (0 < sin (t k) ^ m) by (apply pow_lt; exact K4). lra.
        - intros y _. unfold Pt, G. rewrite K3. ring. }
      destruct (Rp i ltac:(lia)) as (R1 & R2 & _ & _). destruct (Each i ltac:(lia)) as [Q1 Q2].
      assert (Op : lat (2 * N + 2 - i)%nat = - lat i).
      { unfold lat. rewrite minus_INR by lia. rewrite INR_lats. unfold calculate_ideal_spacing. field. lra. }
      destruct (Each (2 * N + 2 - i)%nat ltac:(lia)) as [_ Q3]. rewrite Op in Q3. rewrite height_odd in Q3.
      assert (Ev : inverse_square a e2 (- height_of e2 (lat i)) = inverse_square a e2 (height_of e2 (lat i))) by (unfold inverse_square; ring).
      split; [rewrite Q1; lra|]. split; [rewrite Q1; exact R2|]. split; [now rewrite Ev|]. split; [exact Q2|exact Q3]. }
  split.
  - apply Rminus_diag_uniq. apply (Key (fun n m => ent g n m - ent g' n m)). intros i Hi. apply Ord; [exact Hi|lia].
  - intros Hm1. apply Rminus_diag_uniq. apply (Key (fun n m => ent h n m - ent h' n m)). intros i Hi. apply Ord; [exact Hi|lia|exact Hm1].
Qed.
Print Assumptions C101_grid_determines_coefficients.

(** So the grid fixes the field at every other point as well, on, above and below that surface. *)
Theorem C101_grid_determines_the_field : forall junk a e2 west g h g' h' lo N out, 0 < a -> e2 < 1 ->
  (1 <= N)%nat -> square N g -> square N h -> square N g' -> square N h' ->
  grid junk (ellipsoid_conversion a e2) (around_the_earth west N) (pole_to_pole N) (fun _ _ => 0) g h lo N = Ok out ->
  grid junk (ellipsoid_conversion a e2) (around_the_earth west N) (pole_to_pole N) (fun _ _ => 0) g' h' lo N = Ok out ->
  forall junk' convert points, (forall lat z, -90 <= fst (convert lat z) <= 90) ->
  predict junk' convert points g h lo N = predict junk' convert points g' h' lo N.
Proof.
  intros junk a e2 west g h g' h' lo N out Ha He HN Hg Hh Hg' Hh' E E' junk' convert points Hc.
  assert (Q := C101_grid_determines_coefficients junk a e2 west g h g' h' lo N out Ha He HN Hg Hh Hg' Hh' E E').
  assert (Ext : forall f f' : nat -> nat -> R, (forall n m, (lo <= n <= N)%nat -> (m <= n)%nat -> f n m = f' n m) -> all_sum lo f (N + 1) = all_sum lo f' (N + 1)).
  { intros f f' H. unfold all_sum, row_sum. apply sum_over_ext. intros n Hn. apply range_in in Hn. apply sum_over_ext. intros m Hm. apply range_in in Hm. apply H; lia. }
  assert (Hs : forall n m l, (lo <= n <= N)%nat -> (m <= n)%nat -> ent h n m * sin (INR m * l) = ent h' n m * sin (INR m * l)).
  { intros n m l Hn Hm. destruct m as [|m]; [simpl (INR 0); rewrite Rmult_0_l, sin_0; ring|]. destruct (Q n (S m) Hn Hm) as [_ K]. rewrite K by lia. reflexivity. }
  assert (Hi : forall n m, (lo <= n <= N)%nat -> (m <= n)%nat -> INR m * ent h n m = INR m * ent h' n m).
  { intros n m Hn Hm. destruct m as [|m]; [simpl (INR 0); ring|]. destruct (Q n (S m) Hn Hm) as [_ K]. rewrite K by lia. reflexivity. }
  unfold predict. cbv zeta.
  match goal with |- (do b <- spherical_harmonics_magnetic_field _ ?p _ _ _ _; _) = _ => set (pts := p) end.
  replace (spherical_harmonics_magnetic_field junk' pts g' h' lo N) with (spherical_harmonics_magnetic_field junk' pts g h lo N); [reflexivity|].
  unfold spherical_harmonics_magnetic_field.
  set (ev := fun pt : R * R * R => let '(l, t, rho) := pt in fix_east (sin t) (east_sum rho t l g h lo N, north_sum rho t l g h lo N, radial_sum rho t l g h lo N)).
  rewrite !(each_ok _ ev); [reflexivity| |]; intros pt Hin; apply in_map_iff in Hin; destruct Hin as ([[lon lat] z] & <- & _); unfold ev;
    pose proof (Hc lat z) as B; destruct (convert lat z) as [ls rad]; cbn [fst] in B;
    (rewrite field_at_ok; [|assumption|apply colat_range; exact B|assumption|assumption]); cbn [fst snd]; rewrite !Rplus_0_l; [|reflexivity].
  do 2 f_equal. unfold east_sum, north_sum, radial_sum. f_equal; [f_equal|]; symmetry; apply Ext; intros n m Hn Hm; destruct (Q n m Hn Hm) as [K _]; specialize (Hs n m (radians lon) Hn Hm); specialize (Hi n m Hn Hm).
  - unfold et. rewrite Hi, K. reflexivity.
  - unfold nt. rewrite Hs, K. reflexivity.
  - unfold rt. rewrite Hs, K. reflexivity.
Qed.
Print Assumptions C101_grid_determines_the_field.

(** WGS84 with a degree 1 model: 9 longitudes and 5 latitudes, 45 degrees apart. *)
Example C101_example : exists out,
  grid (fun _ _ => 0) (ellipsoid_conversion 6378137 0.00669438) (around_the_earth (-180) 1) (pole_to_pole 1) (fun _ _ => 0) axial (zeros 2 2) 1 1 = Ok out /\
  length (around_the_earth (-180) 1) = 9%nat /\ length (pole_to_pole 1) = 5%nat /\ nth 3 (pole_to_pole 1) 0 = 45 /\
  0 < 6378137 /\ 0.00669438 < 1 /\ square 1 axial /\ square 1 (zeros 2 2).
Proof.
  assert (S1 : square 1 axial) by (split; reflexivity). assert (S2 : square 1 (zeros 2 2)) by (split; reflexivity).
  assert (L1 : length (pole_to_pole 1) = 5%nat) by apply axis_length. assert (L2 : length (around_the_earth (-180) 1) = 9%nat) by apply axis_length.
  destruct (C59_predict_equals_grid (fun _ _ => 0) (ellipsoid_conversion 6378137 0.00669438) (around_the_earth (-180) 1) (pole_to_pole 1) (fun _ _ => 0) axial (zeros 2 2) 1 1
    (conversion_range _ _) ltac:(lia) S1 S2) as (out & E & _).
  - intros Z. rewrite Z in L2. discriminate.
  - intros Z. rewrite Z in L1. discriminate.
  - reflexivity.
  - exists out. split; [exact E|]. split; [exact L2|]. split; [exact L1|]. split; [|split; [lra|split; [lra|split; assumption]]].
    unfold pole_to_pole. rewrite nth_axis by lia. unfold calculate_ideal_spacing. simpl. lra.
Qed.
