(** How many points determine the coefficients of a synthesis. *)
From Coquelicot Require Import Coquelicot.
From Coq Require Import Psatz.
From Verif Require Import Base BaseFacts LegendreModel LegendreSpec LegendreFacts LegendreProofs LegendreDerivProofs
  PolynomialProofs TransformModel TransformSpec FourierProofs IgrfModel IgrfSpec IgrfProofs.
Local Open Scope R_scope.

(** ** One order: points along a meridian *)
Lemma minus_one_pow k : (-1) ^ k = if Nat.even k then 1 else -1.
Proof.
  induction k as [|k IH]; [reflexivity|]. cbn [pow]. rewrite IH, Nat.even_succ, <- Nat.negb_even. destruct (Nat.even k); cbn; ring.
Qed.
Lemma div2_le n : (2 * Nat.div2 n <= n)%nat.
Proof. rewrite (Nat.div2_odd n) at 2. lia. Qed.
Section Order.
Variables (m lo : nat) (e : nat -> R) (q : R -> R) (s : nat) (gam : R) (b : bool).
Hypothesis (Q : lead s gam q) (Gn : gam <> 0) (S2 : (s <= 2)%nat).
Definition part (n : nat) (x : R) : R := if Bool.eqb (Nat.odd n) b then e n * (q x ^ Nat.div2 n * L n m x) else 0.
Lemma part_lead n : (m <= n)%nat -> Nat.odd n = b -> exists c, 0 < c /\ lead (Nat.div2 n * s + (n - m)) (e n * (gam ^ Nat.div2 n * c)) (part n).
Proof.
  intros Hm Hb. destruct (L_lead n m Hm) as (c & C & H). exists c. split; [exact C|].
  apply (lead_ext _ _ (fun x => e n * (q x ^ Nat.div2 n * L n m x))); [|intros x; unfold part; rewrite Hb, Bool.eqb_reflx; reflexivity].
  apply lead_scal. apply lead_mult; [|exact H]. now apply lead_pow.
Qed.
Lemma part_zero n : (n < m)%nat \/ Nat.odd n <> b -> forall x, part n x = 0.
Proof.
  intros [H|H] x; unfold part; destruct (Bool.eqb (Nat.odd n) b) eqn:E; try reflexivity.
  - rewrite L_high by exact H. ring.
  - apply Bool.eqb_prop in E. contradiction.
Qed.
Lemma part_cases n : ((n < m)%nat \/ Nat.odd n <> b) \/ ((m <= n)%nat /\ Nat.odd n = b).
Proof. destruct (le_lt_dec m n); [|now left; left]. destruct (Bool.bool_dec (Nat.odd n) b); [now right|now left; right]. Qed.
Lemma part_low n D : (Nat.div2 n * s + (n - m) < D)%nat -> lead D 0 (part n).
Proof.
  intros H. destruct (part_cases n) as [Z|[H1 H2]]; [apply lead_zero, part_zero, Z|].
  destruct (part_lead n H1 H2) as (c & _ & K). now apply (lead_raise _ D _ _ K).
Qed.
Lemma parts_vanish K : (forall x, sum_over (range lo K) (fun n => part n x) = 0) ->
  forall n, (lo <= n < K)%nat -> (m <= n)%nat -> Nat.odd n = b -> e n = 0.
Proof.
  induction K as [|K IH]; intros H n Hn Hm Hb; [lia|].
  assert (R : forall x, sum_over (range lo (S K)) (fun n => part n x) = sum_over (range lo K) (fun n => part n x) + part K x).
  { intros x. replace (S K) with (K + 1)%nat by lia. apply sum_range_S. lia. }
  destruct (part_cases K) as [Z|[K1 K2]].
  - apply IH; try assumption.
    + intros x. specialize (H x). rewrite R, (part_zero K Z) in H. lra.
    + assert (n <> K) by (intros ->; destruct Z; [lia|contradiction]). lia.
  - destruct (part_lead K K1 K2) as (c & C & P).
    assert (E : e K = 0).
    { assert (T : lead (Nat.div2 K * s + (K - m)) (0 + e K * (gam ^ Nat.div2 K * c)) (fun x => sum_over (range lo K) (fun n => part n x) + part K x)).
      { apply lead_plus; [|exact P]. replace 0 with (sum_over (range lo K) (fun _ => 0)) by (apply sum_over_zero; reflexivity).
        apply (lead_sum _ _ part (fun _ => 0)). intros k Hk. apply range_in in Hk.
        destruct (part_cases k) as [Z|[Hk1 Hk2]]; [apply lead_zero, part_zero, Z|]. apply part_low.
        assert (D1 := Nat.div2_odd K). assert (D2 := Nat.div2_odd k). rewrite K2 in D1. rewrite Hk2 in D2.
        assert (Nat.div2 k <= Nat.div2 K)%nat by lia. assert (Nat.div2 k * s <= Nat.div2 K * s)%nat by (apply Nat.mul_le_mono_r; assumption). lia. }
      apply lead_unique in T; [|intros x; rewrite <- R; apply H].
      assert (gam ^ Nat.div2 K <> 0) by (apply pow_nonzero; exact Gn).
      assert (gam ^ Nat.div2 K * c <> 0) by (apply Rmult_integral_contrapositive; split; lra).
      rewrite Rplus_0_l in T. apply Rmult_integral in T. destruct T; [assumption|contradiction]. }
    destruct (Nat.eq_dec n K) as [->|Hne]; [exact E|].
    apply IH; try assumption; [|lia]. intros x. specialize (H x). rewrite R in H. unfold part in H at 2. rewrite E in H.
    destruct (Bool.eqb (Nat.odd K) b); lra.
Qed.
End Order.

Lemma order_determined m lo N e q s gam rho l : lead s gam q -> gam <> 0 -> (s <= 2)%nat ->
  NoDup l -> length l = (2 * N + 1)%nat ->
  (forall x, In x l -> rho x <> 0 /\ rho x ^ 2 = q x /\ rho (- x) = rho x /\
     sum_over (range lo (N + 1)) (fun n => e n * rho x ^ (n + 2) * L n m x) = 0 /\
     sum_over (range lo (N + 1)) (fun n => e n * rho (- x) ^ (n + 2) * L n m (- x)) = 0) ->
  forall n, (lo <= n <= N)%nat -> (m <= n)%nat -> e n = 0.
Proof.
  intros Q Gn S2 Nd Hl H n Hn Hm.
  apply (parts_vanish m lo e q s gam (Nat.odd n) Q Gn S2 (N + 1)); [|lia|exact Hm|reflexivity].
  set (b := Nat.odd n). apply (roots (2 * N + 1) _ l); [|exact Nd|exact Hl|].
  - replace 0 with (sum_over (range lo (N + 1)) (fun _ => 0)) by (apply sum_over_zero; reflexivity).
    apply (lead_sum _ _ (part m e q b) (fun _ => 0)). intros k Hk. apply range_in in Hk. first [apply (part_low m e q s gam b Q)|apply (part_low m e q s gam b Q S2)].
    assert (D := div2_le k). assert (Nat.div2 k * s <= Nat.div2 k * 2)%nat by (apply Nat.mul_le_mono_l; exact S2). lia.
  - intros x Hx. destruct (H x Hx) as (R0 & R2 & Ro & E1 & E2). rewrite Ro in E2.
    set (sg := (-1) ^ (m + Nat.b2n b)).
    assert (T : sum_over (range lo (N + 1)) (fun k => 2 * rho x ^ (2 + Nat.b2n b) * part m e q b k x) = 0).
    { rewrite (sum_over_ext _ _ (fun k => e k * rho x ^ (k + 2) * L k m x + sg * (e k * rho x ^ (k + 2) * L k m (- x)))).
      - rewrite sum_over_plus, sum_over_scal, E1, E2. ring.
      - intros k _. rewrite L_parity. unfold part, sg.
        replace (e k * rho x ^ (k + 2) * L k m x + (-1) ^ (m + Nat.b2n b) * (e k * rho x ^ (k + 2) * ((-1) ^ (k + m) * L k m x)))
          with ((1 + (-1) ^ (m + Nat.b2n b + (k + m))) * (e k * rho x ^ (k + 2) * L k m x)) by (rewrite (pow_add _ (m + Nat.b2n b)); ring).
        rewrite minus_one_pow. replace (m + Nat.b2n b + (k + m))%nat with (Nat.b2n b + k + 2 * m)%nat by lia.
        rewrite Nat.even_add_mul_2, Nat.even_add. rewrite <- R2. assert (D := Nat.div2_odd k).
        replace (Nat.even k) with (negb (Nat.odd k)) by (rewrite <- Nat.negb_even; apply Bool.negb_involutive).
        destruct (Bool.eqb (Nat.odd k) b) eqn:Eb.
        + apply Bool.eqb_prop in Eb. rewrite Eb in *. rewrite <- pow_mult.
          replace (rho x ^ (k + 2)) with (rho x ^ (2 + Nat.b2n b) * rho x ^ (2 * Nat.div2 k)) by (rewrite <- pow_add; f_equal; lia).
          destruct b; cbn [Nat.b2n Nat.even negb Bool.eqb]; ring.
        + apply Bool.eqb_false_iff in Eb. destruct (Nat.odd k), b; cbn [Nat.b2n Nat.even negb Bool.eqb]; try contradiction; try congruence; ring. }
    rewrite sum_over_scal in T. apply Rmult_integral in T. destruct T as [T|T]; [|exact T].
    exfalso. assert (rho x ^ (2 + Nat.b2n b) <> 0) by (apply pow_nonzero; exact R0). lra.
Qed.

(** ** One parallel: points around the Earth *)
Lemma sum_swap {A B} (l1 : list A) (l2 : list B) f :
  sum_over l1 (fun a => sum_over l2 (fun b => f a b)) = sum_over l2 (fun b => sum_over l1 (fun a => f a b)).
Proof.
  induction l1 as [|a l1 IH]; [symmetry; now apply sum_over_zero|].
  rewrite sum_over_cons, IH, <- sum_over_plus. apply sum_over_ext. intros b _. now rewrite sum_over_cons.
Qed.
Lemma sum_one N k f : (k <= N)%nat -> (forall m, (m <= N)%nat -> m <> k -> f m = 0) -> sum_over (range 0 (N + 1)) f = f k.
Proof.
  intros Hk H. induction N as [|N IH].
  - replace k with 0%nat by lia. unfold sum_over. cbn. ring.
  - replace (S N + 1)%nat with (S N + 1)%nat by lia. rewrite sum_range_S by lia. replace (S N) with (N + 1)%nat by lia.
    destruct (Nat.eq_dec k (S N)) as [->|Hne].
    + rewrite sum_over_zero; [replace (N + 1)%nat with (S N) by lia; ring|]. intros m Hm. apply range_in in Hm. apply H; lia.
    + rewrite IH; [|lia|intros m Hm; apply H; lia]. rewrite (H (N + 1)%nat) by lia. ring.
Qed.

Section Parallel.
Variables (M : nat) (w : R).
Hypothesis (M0 : (0 < M)%nat).
Definition around (j : nat) : R := w + INR j * (2 * PI / INR M).
Lemma waves_around p : (0 < p < M)%nat -> csum M (fun j => cis (INR p * around j)) = RtoC 0.
Proof.
  intros Hp. assert (I : 0 < INR M) by (apply lt_0_INR; lia). assert (P := PI_RGT_0).
  assert (Ip : 0 < INR p < INR M) by (split; [apply lt_0_INR; lia|apply lt_INR; lia]).
  set (t := INR p * (2 * PI / INR M)).
  rewrite (csum_ext _ _ (fun j => Cmult (cis (INR p * w)) (cis (INR j * t)))).
  2:{ intros j _. rewrite <- cis_add. f_equal. unfold around, t. ring. }
  rewrite csum_mult_l. replace (csum M (fun j => cis (INR j * t))) with (RtoC 0); [ring|].
  assert (G := geometric M t). replace (INR M * t) with (2 * PI * INR p) in G by (unfold t; field; lra). rewrite cis_2PI_nat in G.
  assert (T : cis t <> RtoC 1).
  { apply cis_not_one. assert (X : 0 < INR p / INR M < 1).
    { split; [apply Rdiv_lt_0_compat; lra|]. apply (Rmult_lt_reg_r (INR M)); [lra|]. unfold Rdiv. rewrite Rmult_assoc, Rinv_l by lra. lra. }
    replace t with (INR p / INR M * (2 * PI)) by (unfold t; field; lra). rewrite Rabs_pos_eq by nra. nra. }
  assert (T' : Cminus (cis t) (RtoC 1) <> RtoC 0).
  { intros E. apply T. replace (cis t) with (Cplus (Cminus (cis t) (RtoC 1)) (RtoC 1)) by ring. rewrite E. ring. }
  symmetry. rewrite <- (Cmult_1_l (csum _ _)), <- (Cinv_l _ T'), <- Cmult_assoc, G. ring.
Qed.
Lemma csum_re n f : Re (csum n f) = sum_over (range 0 n) (fun j => Re (f j)).
Proof. unfold range. rewrite Nat.sub_0_r. induction n as [|n IH]; [reflexivity|]. cbn [csum]. rewrite seq_S, sum_over_app. unfold sum_over at 2. cbn. rewrite <- IH. unfold Re. ring. Qed.
Lemma csum_im n f : Im (csum n f) = sum_over (range 0 n) (fun j => Im (f j)).
Proof. unfold range. rewrite Nat.sub_0_r. induction n as [|n IH]; [reflexivity|]. cbn [csum]. rewrite seq_S, sum_over_app. unfold sum_over at 2. cbn. rewrite <- IH. unfold Im. ring. Qed.
Lemma sum_const n c : sum_over (range 0 n) (fun _ => c) = INR n * c.
Proof. unfold range. rewrite Nat.sub_0_r. induction n as [|n IH]; [cbn; unfold sum_over; cbn; ring|]. rewrite seq_S, sum_over_app, IH, S_INR. unfold sum_over. cbn. ring. Qed.
Lemma cos_around p : (p < M)%nat -> sum_over (range 0 M) (fun j => cos (INR p * around j)) = if Nat.eqb p 0 then INR M else 0.
Proof.
  intros Hp. destruct (Nat.eqb_spec p 0) as [->|H0].
  - rewrite (sum_over_ext _ _ (fun _ => 1)); [rewrite sum_const; ring|]. intros j _. simpl (INR 0). rewrite Rmult_0_l. apply cos_0.
  - assert (E := f_equal Re (waves_around p ltac:(lia))). rewrite csum_re in E. exact E.
Qed.
Lemma sin_around p : (p < M)%nat -> sum_over (range 0 M) (fun j => sin (INR p * around j)) = 0.
Proof.
  intros Hp. destruct (Nat.eq_dec p 0) as [->|H0].
  - apply sum_over_zero. intros j _. simpl (INR 0). rewrite Rmult_0_l. apply sin_0.
  - assert (E := f_equal Im (waves_around p ltac:(lia))). rewrite csum_im in E. exact E.
Qed.

Lemma INR_diff m k : (k <= m)%nat -> INR (m - k) = INR m - INR k.
Proof. apply minus_INR. Qed.
Lemma cos_cos m k l : cos (INR m * l) * cos (INR k * l) = / 2 * cos (INR (m + k) * l) + / 2 * cos (INR (m - k + (k - m)) * l).
Proof.
  assert (E : cos (INR (m - k + (k - m)) * l) = cos (INR m * l - INR k * l)).
  { destruct (le_lt_dec k m) as [H|H].
    - replace (m - k + (k - m))%nat with (m - k)%nat by lia. rewrite INR_diff by lia. f_equal. ring.
    - replace (m - k + (k - m))%nat with (k - m)%nat by lia. rewrite INR_diff by lia. rewrite <- cos_neg. f_equal. ring. }
  rewrite E, (plus_INR m k), Rmult_plus_distr_r, cos_plus, cos_minus. field.
Qed.
Lemma sin_sin m k l : sin (INR m * l) * sin (INR k * l) = / 2 * cos (INR (m - k + (k - m)) * l) + - / 2 * cos (INR (m + k) * l).
Proof.
  assert (E := cos_cos m k l). rewrite (plus_INR m k), Rmult_plus_distr_r, cos_plus in *. lra.
Qed.
Lemma sin_cos m k l : sin (INR m * l) * cos (INR k * l) = / 2 * sin (INR (m + k) * l) + (if Nat.leb k m then / 2 else - / 2) * sin (INR (m - k + (k - m)) * l).
Proof.
  assert (E : (if Nat.leb k m then / 2 else - / 2) * sin (INR (m - k + (k - m)) * l) = / 2 * sin (INR m * l - INR k * l)).
  { destruct (Nat.leb_spec k m) as [H|H].
    - replace (m - k + (k - m))%nat with (m - k)%nat by lia. rewrite INR_diff by lia. do 2 f_equal. ring.
    - replace (m - k + (k - m))%nat with (k - m)%nat by lia. rewrite INR_diff by lia. replace ((INR k - INR m) * l) with (- (INR m * l - INR k * l)) by ring. rewrite sin_neg. ring. }
  rewrite E, (plus_INR m k), Rmult_plus_distr_r, sin_plus, sin_minus. field.
Qed.

Lemma parallel_determined N a b : (2 * N < M)%nat ->
  (forall j, (j < M)%nat -> sum_over (range 0 (N + 1)) (fun m => a m * cos (INR m * around j) + b m * sin (INR m * around j)) = 0) ->
  forall k, (k <= N)%nat -> a k = 0 /\ ((1 <= k)%nat -> b k = 0).
Proof.
  intros HM H k Hk. assert (I : 0 < INR M) by (apply lt_0_INR; lia). split.
  - assert (E : sum_over (range 0 M) (fun j => sum_over (range 0 (N + 1)) (fun m =>
       (a m * (cos (INR m * around j) * cos (INR k * around j)) + b m * (sin (INR m * around j) * cos (INR k * around j))))) = 0).
    { apply sum_over_zero. intros j Hj. apply range_in in Hj. etransitivity; [|apply (Rmult_0_r (cos (INR k * around j)))].
      rewrite <- (H j) by lia. rewrite <- sum_over_scal. apply sum_over_ext. intros m _. ring. }
    rewrite sum_swap in E.
    rewrite (sum_over_ext _ _ (fun m => a m * (/ 2 * (if Nat.eqb (m + k) 0 then INR M else 0) + / 2 * (if Nat.eqb (m - k + (k - m)) 0 then INR M else 0)))) in E.
    2:{ intros m Hm. apply range_in in Hm. rewrite sum_over_plus, !sum_over_scal.
        rewrite (sum_over_ext _ (fun j => cos (INR m * around j) * cos (INR k * around j)) _ (fun j _ => cos_cos m k (around j))).
        rewrite (sum_over_ext _ (fun j => sin (INR m * around j) * cos (INR k * around j)) _ (fun j _ => sin_cos m k (around j))).
        rewrite !sum_over_plus, !sum_over_scal, !cos_around, !sin_around by lia. ring. }
    rewrite (sum_one N k) in E; [|exact Hk|].
    + replace (k - k + (k - k))%nat with 0%nat in E by lia. rewrite Nat.eqb_refl in E.
      apply Rmult_integral in E. destruct E as [E|E]; [exact E|]. destruct (Nat.eqb (k + k) 0); lra.
    + intros m Hm Hne. destruct (Nat.eqb_spec (m + k) 0); [lia|]. destruct (Nat.eqb_spec (m - k + (k - m)) 0); [lia|]. ring.
  - intros Hk1.
    assert (E : sum_over (range 0 M) (fun j => sum_over (range 0 (N + 1)) (fun m =>
       (a m * (sin (INR k * around j) * cos (INR m * around j)) + b m * (sin (INR m * around j) * sin (INR k * around j))))) = 0).
    { apply sum_over_zero. intros j Hj. apply range_in in Hj. etransitivity; [|apply (Rmult_0_r (sin (INR k * around j)))].
      rewrite <- (H j) by lia. rewrite <- sum_over_scal. apply sum_over_ext. intros m _. ring. }
    rewrite sum_swap in E.
    rewrite (sum_over_ext _ _ (fun m => b m * (/ 2 * (if Nat.eqb (m - k + (k - m)) 0 then INR M else 0) + - / 2 * (if Nat.eqb (m + k) 0 then INR M else 0)))) in E.
    2:{ intros m Hm. apply range_in in Hm. rewrite sum_over_plus, !sum_over_scal.
        rewrite (sum_over_ext _ (fun j => sin (INR m * around j) * sin (INR k * around j)) _ (fun j _ => sin_sin m k (around j))).
        rewrite (sum_over_ext _ (fun j => sin (INR k * around j) * cos (INR m * around j)) _ (fun j _ => sin_cos k m (around j))).
        rewrite !sum_over_plus, !sum_over_scal, !cos_around, !sin_around by lia. ring. }
    rewrite (sum_one N k) in E; [|exact Hk|].
    + replace (k - k + (k - k))%nat with 0%nat in E by lia. rewrite Nat.eqb_refl in E.
      destruct (Nat.eqb_spec (k + k) 0); [lia|]. apply Rmult_integral in E. destruct E as [E|E]; [exact E|lra].
    + intros m Hm Hne. destruct (Nat.eqb_spec (m + k) 0); [lia|]. destruct (Nat.eqb_spec (m - k + (k - m)) 0); [lia|]. ring.
Qed.
End Parallel.

(** ** Sums by order *)
Lemma G_high n m t : (n < m)%nat -> G n m t = 0.
Proof. intros H. unfold G. rewrite L_high by exact H. ring. Qed.
Lemma range_split a b c : (a <= b <= c)%nat -> range a c = range a b ++ range b c.
Proof. intros H. unfold range. replace (c - a)%nat with ((b - a) + (c - b))%nat by lia. rewrite seq_app. do 2 f_equal. lia. Qed.
Definition order_part (rho t : R) (f : nat -> nat -> R) lo N m := sum_over (range lo (N + 1)) (fun n => (INR n + 1) * rho ^ (n + 2) * Pt t n m * f n m).
Lemma radial_orders rho t l g h lo N : radial_sum rho t l g h lo N =
  sum_over (range 0 (N + 1)) (fun m => order_part rho t (ent g) lo N m * cos (INR m * l) + order_part rho t (ent h) lo N m * sin (INR m * l)).
Proof.
  unfold radial_sum, all_sum, row_sum, order_part.
  rewrite (sum_over_ext (range lo (N + 1)) _ (fun n => sum_over (range 0 (N + 1)) (rt rho l (ent g) (ent h) (Pt t) n))).
  2:{ intros n Hn. apply range_in in Hn. rewrite (range_split 0 (n + 1) (N + 1)) by lia. rewrite sum_over_app.
      rewrite (sum_over_zero (range (n + 1) (N + 1))); [ring|]. intros m Hm. apply range_in in Hm. unfold rt, Pt. rewrite G_high by lia. ring. }
  rewrite sum_swap. apply sum_over_ext. intros m _. rewrite (Rmult_comm _ (cos _)), (Rmult_comm _ (sin _)), <- !sum_over_scal, <- sum_over_plus.
  apply sum_over_ext. intros n _. unfold rt. ring.
Qed.

(** ** Points of an ellipsoid *)
Section Points.
Variables (a e2 : R).
Hypothesis (Ha : 0 < a) (He : e2 < 1).
Definition stretch (lat : R) : R := cos (radians lat) ^ 2 + ((1 - e2) * sin (radians lat)) ^ 2.
(** Sine of the spherical latitude of a point of the surface. *)
Definition height_of (lat : R) : R := (1 - e2) * sin (radians lat) / sqrt (stretch lat).
Definition inverse_square (x : R) : R := (reference_radius / a) ^ 2 * (1 + e2 / (1 - e2) * x ^ 2).
Lemma cos_lat lat : -90 < lat < 90 -> 0 < cos (radians lat).
Proof. intros H. assert (P := PI_RGT_0). apply cos_gt_0; unfold radians; nra. Qed.
Lemma stretch_pos lat : -90 < lat < 90 -> 0 < stretch lat.
Proof. intros H. assert (C := cos_lat lat H). unfold stretch. assert (S := pow2_ge_0 ((1 - e2) * sin (radians lat))). assert (0 < cos (radians lat) ^ 2) by (apply pow_lt; exact C). lra. Qed.
Lemma height_sq lat : -90 < lat < 90 -> height_of lat ^ 2 = ((1 - e2) * sin (radians lat)) ^ 2 / stretch lat.
Proof.
  intros H. assert (D := stretch_pos lat H). unfold height_of. replace (stretch lat) with (sqrt (stretch lat) ^ 2) at 2 by (apply pow2_sqrt; lra).
  field. assert (0 < sqrt (stretch lat)) by (apply sqrt_lt_R0; exact D). lra.
Qed.
Lemma height_compl lat : -90 < lat < 90 -> 1 - height_of lat ^ 2 = cos (radians lat) ^ 2 / stretch lat.
Proof. intros H. assert (D := stretch_pos lat H). rewrite height_sq by exact H. unfold stretch in *. field. lra. Qed.
Lemma height_bounds lat : -90 < lat < 90 -> -1 < height_of lat < 1.
Proof.
  intros H. assert (D := stretch_pos lat H). assert (C := cos_lat lat H). assert (E := height_compl lat H).
  assert (0 < cos (radians lat) ^ 2 / stretch lat) by (apply Rdiv_lt_0_compat; [apply pow_lt; exact C|exact D]). nra.
Qed.
Lemma normal_pos lat : 0 < 1 - e2 * sin (radians lat) ^ 2.
Proof. assert (S := sin2_cos2 (radians lat)). unfold Rsqr in S. assert (C := pow2_ge_0 (cos (radians lat))). assert (C' := pow2_ge_0 (sin (radians lat))).
  destruct (Rle_dec e2 0); [assert (0 <= - e2 * sin (radians lat) ^ 2) by (apply Rmult_le_pos; lra); lra|].
  assert (e2 * sin (radians lat) ^ 2 <= e2 * 1) by (apply Rmult_le_compat_l; lra). lra.
Qed.
Lemma point lat : -90 < lat < 90 -> let (lat_sph, r) := ellipsoid_conversion a e2 lat 0 in
  0 < r /\ cos (radians (90 - lat_sph)) = height_of lat /\ 0 < sin (radians (90 - lat_sph)) /\
  (reference_radius / r) ^ 2 = inverse_square (height_of lat).
Proof.
  intros H. unfold ellipsoid_conversion. set (phi := radians lat). set (pv := a / sqrt (1 - e2 * sin phi ^ 2)).
  assert (Np := normal_pos lat). fold phi in Np. assert (Sp : 0 < sqrt (1 - e2 * sin phi ^ 2)) by (apply sqrt_lt_R0; exact Np).
  assert (Pv : 0 < pv) by (apply Rdiv_lt_0_compat; assumption).
  assert (D := stretch_pos lat H). assert (Ds : 0 < sqrt (stretch lat)) by (apply sqrt_lt_R0; exact D).
  assert (R : sqrt (((pv + 0) * cos phi) ^ 2 + (((1 - e2) * pv + 0) * sin phi) ^ 2) = pv * sqrt (stretch lat)).
  { replace (((pv + 0) * cos phi) ^ 2 + (((1 - e2) * pv + 0) * sin phi) ^ 2) with (pv ^ 2 * stretch lat) by (unfold stretch; fold phi; ring).
    rewrite sqrt_mult by (try apply pow2_ge_0; lra). rewrite sqrt_pow2 by lra. reflexivity. }
  rewrite R. replace (((1 - e2) * pv + 0) * sin phi / (pv * sqrt (stretch lat))) with (height_of lat) by (unfold height_of; fold phi; field; lra).
  assert (B := height_bounds lat H). assert (T : radians (90 - asin (height_of lat) * 180 / PI) = PI / 2 - asin (height_of lat)).
  { unfold radians. assert (P := PI_RGT_0). field. lra. }
  split; [apply Rmult_lt_0_compat; assumption|]. rewrite T. split; [|split].
  - rewrite cos_shift. apply sin_asin. lra.
  - rewrite sin_shift. rewrite cos_asin by lra. apply sqrt_lt_R0. unfold Rsqr. nra.
  - unfold inverse_square. rewrite height_sq by exact H. fold phi.
    replace ((reference_radius / (pv * sqrt (stretch lat))) ^ 2) with (reference_radius ^ 2 * (sqrt (1 - e2 * sin phi ^ 2)) ^ 2 / (a ^ 2 * sqrt (stretch lat) ^ 2)) by (unfold pv; field; lra).
    rewrite !pow2_sqrt by lra. assert (E : cos phi ^ 2 = 1 - sin phi ^ 2) by (assert (S := sin2_cos2 phi); unfold Rsqr in S; lra).
    unfold stretch in *. fold phi in D |- *. rewrite E in *. field. lra.
Qed.
Lemma height_odd lat : height_of (- lat) = - height_of lat.
Proof.
  unfold height_of, stretch. replace (radians (- lat)) with (- radians lat) by (unfold radians; field). rewrite sin_neg, cos_neg.
  replace ((1 - e2) * - sin (radians lat)) with (- ((1 - e2) * sin (radians lat))) by ring.
  replace ((- ((1 - e2) * sin (radians lat))) ^ 2) with (((1 - e2) * sin (radians lat)) ^ 2) by ring. unfold Rdiv. ring.
Qed.
Lemma height_injective lat lat' : -90 < lat < 90 -> -90 < lat' < 90 -> height_of lat = height_of lat' -> lat = lat'.
Proof.
  intros H H' E. assert (D := stretch_pos lat H). assert (D' := stretch_pos lat' H'). assert (C := cos_lat lat H). assert (C' := cos_lat lat' H').
  assert (E1 := height_compl lat H). assert (E2 := height_compl lat' H'). rewrite <- E, E1 in E2.
  assert (Ds : 0 < sqrt (stretch lat)) by (apply sqrt_lt_R0; exact D). assert (Ds' : 0 < sqrt (stretch lat')) by (apply sqrt_lt_R0; exact D').
  assert (X : cos (radians lat) / sqrt (stretch lat) = cos (radians lat') / sqrt (stretch lat')).
  { assert (Y : (cos (radians lat) / sqrt (stretch lat)) ^ 2 = (cos (radians lat') / sqrt (stretch lat')) ^ 2).
    { unfold Rdiv. rewrite !Rpow_mult_distr, !pow_inv, !pow2_sqrt by lra. exact E2. }
    assert (0 < cos (radians lat) / sqrt (stretch lat)) by (apply Rdiv_lt_0_compat; assumption).
    assert (0 < cos (radians lat') / sqrt (stretch lat')) by (apply Rdiv_lt_0_compat; assumption). nra. }
  unfold height_of in E.
  assert (Z : sin (radians lat - radians lat') = 0).
  { rewrite sin_minus. set (k := sqrt (stretch lat)) in *. set (k' := sqrt (stretch lat')) in *.
    assert (X' : cos (radians lat) * k' = cos (radians lat') * k).
    { transitivity (cos (radians lat) / k * (k * k')); [field; lra|]. rewrite X. field. lra. }
    assert (E' : sin (radians lat) * k' = sin (radians lat') * k).
    { transitivity ((1 - e2) * sin (radians lat) / k * (k * k' / (1 - e2))); [field; lra|]. rewrite E. field. lra. }
    apply (Rmult_eq_reg_l (k * k')); [|apply Rmult_integral_contrapositive; lra].
    transitivity ((sin (radians lat) * k') * (cos (radians lat') * k) - (cos (radians lat) * k') * (sin (radians lat') * k)); [ring|].
    rewrite E', X'. ring. }
  assert (P := PI_RGT_0). assert (Q : Rabs (radians lat - radians lat') < PI) by (unfold radians; apply Rabs_def1; nra).
  destruct (Req_dec lat lat') as [Ee|Ne]; [exact Ee|exfalso].
  assert (W : radians lat - radians lat' <> 0) by (unfold radians; intros W; apply Ne; nra).
  apply Rabs_def2 in Q. destruct (Rlt_dec 0 (radians lat - radians lat')).
  - assert (0 < sin (radians lat - radians lat')) by (apply sin_gt_0; lra). lra.
  - assert (0 < sin (- (radians lat - radians lat'))) by (apply sin_gt_0; lra). rewrite sin_neg in *. lra.
Qed.
Lemma inverse_square_lead : exists s gam, (s <= 2)%nat /\ gam <> 0 /\ lead s gam inverse_square.
Proof.
  assert (R0 : 0 < reference_radius / a) by (apply Rdiv_lt_0_compat; [unfold reference_radius; lra|exact Ha]).
  assert (A : 0 < (reference_radius / a) ^ 2) by (apply pow_lt; exact R0).
  destruct (Req_dec e2 0) as [E|E].
  - exists 0%nat, ((reference_radius / a) ^ 2). split; [lia|]. split; [lra|]. intros x. unfold inverse_square. rewrite E. field. lra.
  - exists 2%nat, ((reference_radius / a) ^ 2 * (e2 / (1 - e2))). split; [lia|]. split.
    + apply Rmult_integral_contrapositive. split; [lra|]. unfold Rdiv. apply Rmult_integral_contrapositive. split; [exact E|]. apply Rinv_neq_0_compat. lra.
    + exists ((reference_radius / a) ^ 2), (fun x => (reference_radius / a) ^ 2 * (e2 / (1 - e2)) * x). split; [|intros x; unfold inverse_square; ring].
      exists 0, (fun _ => (reference_radius / a) ^ 2 * (e2 / (1 - e2))). split; [intros x; reflexivity|intros x; ring].
Qed.
End Points.
