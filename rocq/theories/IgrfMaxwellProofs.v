(** Lemmas for claim C86: derivatives of the components of the field. *)
From Coquelicot Require Import Coquelicot.
From Coq Require Import Psatz.
From Verif Require Import Base BaseFacts LegendreModel LegendreSpec LegendreFacts LegendreProofs LegendreDerivProofs IgrfModel IgrfSpec IgrfProofs.
Local Open Scope R_scope.

Lemma deriv_value (f : R -> R) (x v w : R) : is_derive f x v -> v = w -> is_derive f x w.
Proof. now intros H <-. Qed.

Lemma deriv_both (f g : R -> R) (x v w : R) : is_derive f x v -> (forall y : R, f y = g y) -> v = w -> is_derive g x w.
Proof. intros Hd E <-. exact (is_derive_ext f g x v E Hd). Qed.

(** The equation of Legendre in the colatitude. *)
Lemma sturm n m t : 0 < sin t -> (m <= n)%nat ->
  is_derive (fun t => sin t * H 1 n m t) t ((INR m ^ 2 / sin t - INR n * (INR n + 1) * sin t) * G n m t).
Proof.
  intros Hs Hm.
  assert (E : forall u, 0 < sin u -> sin u * H 1 n m u = INR m * cos u * G n m u - sin u ^ (m + 2) * L n (m + 1) (cos u)).
  { intros u Hu. replace (H 1 n m u) with (INR m * cos u * sin u ^ (m - 1) * L n m (cos u) - sin u ^ (m + 1) * L n (m + 1) (cos u)).
    - unfold G. replace (m + 2)%nat with (S (m + 1)) by lia. destruct m as [|m]; [simpl; ring|].
      replace (S m - 1)%nat with m by lia. simpl pow. ring.
    - pose proof (is_derive_unique _ _ _ (G_derive_raw n m u)) as U1. pose proof (is_derive_unique _ _ _ (H_derive 0 n m u Hm)) as U2.
      change (H 0 n m) with (G n m) in U2. congruence. }
  apply (is_derive_ext_loc (fun u => INR m * cos u * G n m u - sin u ^ (m + 2) * L n (m + 1) (cos u))).
  { assert (O : locally t (fun u => 0 < sin u)).
    { apply (continuous_sin t (fun y => 0 < y)). apply (open_gt 0). exact Hs. }
    apply filter_imp with (2 := O). intros u Hu. symmetry. now apply E. }
  pose proof (G_derive_raw n m t) as D1. pose proof (G_derive_raw n (m + 1) t) as D2.
  assert (C : is_derive (fun u => INR m * cos u) t (- INR m * sin t)) by (auto_derive; [trivial|ring]).
  pose proof (is_derive_mult _ _ _ _ _ C D1 Rmult_comm) as P1.
  pose proof (is_derive_mult _ _ _ _ _ (is_derive_sin t) D2 Rmult_comm) as P2.
  pose proof (is_derive_minus _ _ _ _ _ P1 P2) as P. clear P1 P2.
  apply (is_derive_ext (fun u => minus (mult (INR m * cos u) (G n m u)) (mult (sin u) (G n (m + 1) u)))).
  { intros u. unfold minus, plus, opp, mult; simpl. unfold G. replace (m + 2)%nat with (S (m + 1)) by lia. simpl pow. eqR. ring. }
  apply (deriv_value _ _ _ _ P). clear P. unfold minus, plus, opp, mult; simpl. unfold G.
  pose proof (L_ode n (m + 1) (cos t) ltac:(lia)) as O. replace (m + 1 + 1)%nat with (m + 2)%nat in * by lia. replace (m + 1 - 1)%nat with m in * by lia.
  rewrite plus_INR in *. change (INR 1) with 1 in *.
  assert (S2 : cos t ^ 2 = 1 - sin t ^ 2) by (pose proof (sin2_cos2 t) as Q; unfold Rsqr in Q; lra).
  replace (1 - cos t ^ 2) with (sin t ^ 2) in O by lra.
  replace (m + 2)%nat with (S (S m)) in * by lia. replace (m + 1)%nat with (S m) in * by lia. simpl (sin t ^ S (S m)). simpl (sin t ^ S m).
  destruct m as [|m].
  - change (INR 0) with 0 in *. simpl pow in *. field_simplify_eq; [|lra]. simpl in O. 
    set (s := sin t) in *. set (c := cos t) in *.
    replace (s * (s * 1) * L n 2 c) with (s * s * L n 2 c) in O by ring.
    nra.
  - replace (S m - 1)%nat with m by lia. simpl (sin t ^ S m).
    set (s := sin t) in *. set (c := cos t) in *. set (q := s ^ m). set (M := INR (S m)) in *. set (NN := INR n) in *.
    set (L0 := L n (S m) c) in *. set (L1 := L n (S (S m)) c) in *. set (L2 := L n (S (S (S m))) c) in *.
    transitivity (- M * s ^ 2 * q * L0 + M ^ 2 * q * L0 * c ^ 2 - 2 * (M + 1) * c * s ^ 2 * q * L1 + s ^ 2 * q * (s ^ 2 * L2)); [ring|].
    rewrite S2, O. field. lra.
Qed.

(** ** Sums over degrees and orders *)
Lemma all_sum_derive lo k (f : R -> nat -> nat -> R) df x :
  (forall n m, (m <= n)%nat -> is_derive (fun y => f y n m) x (df n m)) ->
  is_derive (fun y => all_sum lo (f y) k) x (all_sum lo df k).
Proof.
  intros Hf. unfold all_sum, row_sum.
  apply (is_derive_sum_over (range lo k) (fun n y => sum_over (range 0 (n + 1)) (f y n))). intros n _.
  apply (is_derive_sum_over (range 0 (n + 1)) (fun m y => f y n m)). intros m Hm. apply range_in in Hm. apply Hf. lia.
Qed.
Lemma all_sum_ext lo k f g : (forall n m, (m <= n)%nat -> f n m = g n m) -> all_sum lo f k = all_sum lo g k.
Proof.
  intros E. unfold all_sum, row_sum. apply sum_over_ext. intros n _. apply sum_over_ext. intros m Hm. apply range_in in Hm. apply E. lia.
Qed.
Lemma all_sum_scal lo k c f : all_sum lo (fun n m => c * f n m) k = c * all_sum lo f k.
Proof. unfold all_sum, row_sum. rewrite <- sum_over_scal. apply sum_over_ext. intros n _. apply sum_over_scal. Qed.
Lemma all_sum_plus lo k f g : all_sum lo (fun n m => f n m + g n m) k = all_sum lo f k + all_sum lo g k.
Proof. unfold all_sum, row_sum. rewrite <- sum_over_plus. apply sum_over_ext. intros n _. apply sum_over_plus. Qed.
Lemma all_sum_zero lo k f : (forall n m, (m <= n)%nat -> f n m = 0) -> all_sum lo f k = 0.
Proof.
  intros E. rewrite (all_sum_ext lo k f (fun n m => 0 * 0)); [rewrite all_sum_scal; ring|]. intros. rewrite E by assumption. ring.
Qed.

Section Terms.
Variable (a : R) (g h : table) (lo N : nat).
Hypothesis Ha : 0 < a.
Definition T l n m := ent g n m * cos (INR m * l) + ent h n m * sin (INR m * l).
Definition T' l n m := - INR m * ent g n m * sin (INR m * l) + INR m * ent h n m * cos (INR m * l).
Lemma T_derive l n m : is_derive (fun l => T l n m) l (T' l n m).
Proof. unfold T, T'. auto_derive; [trivial|ring]. Qed.
Lemma T'_derive l n m : is_derive (fun l => T' l n m) l (- INR m ^ 2 * T l n m).
Proof. unfold T, T'. auto_derive; [trivial|ring]. Qed.
Lemma rho_derive r n : 0 < r -> is_derive (fun r => (a / r) ^ (n + 2)) r (- (INR n + 2) * (a / r) ^ (n + 2) / r).
Proof.
  intros Hr. pose proof (ratio_derive a r (n + 1) Hr) as E. replace (n + 1 + 1)%nat with (n + 2)%nat in E by lia.
  apply (deriv_value _ _ _ _ E). rewrite plus_INR. change (INR 1) with 1. field. lra.
Qed.

(** The three components, their nine derivatives. *)
Definition east r t l := east_sum (a / r) t l g h lo N.
Definition north r t l := north_sum (a / r) t l g h lo N.
Definition radial r t l := radial_sum (a / r) t l g h lo N.
Definition sums f := all_sum lo f (N + 1).

Lemma east_l r t l : is_derive (fun l => east r t l) l (sums (fun n m => (a / r) ^ (n + 2) * (- INR m ^ 2 * T l n m) * Pt t n m)).
Proof.
  unfold east, east_sum, sums. apply (all_sum_derive lo (N + 1) (fun l => et (a / r) l (ent g) (ent h) (Pt t))). intros n m Hm. unfold et.
  pose proof (is_derive_scal _ _ (Pt t n m * (a / r) ^ (n + 2)) _ (T'_derive l n m)) as E.
  apply (deriv_both _ _ _ _ _ E); [intros y; cbv beta; unfold T'; ring|unfold T'; ring].
Qed.
Lemma east_t r t l : is_derive (fun t => east r t l) t (sums (fun n m => (a / r) ^ (n + 2) * T' l n m * Dt t n m)).
Proof.
  unfold east, east_sum, sums. apply (all_sum_derive lo (N + 1) (fun t => et (a / r) l (ent g) (ent h) (Pt t))). intros n m Hm. unfold et.
  exact (is_derive_scal _ _ _ _ (Pt_derive t n m Hm)).
Qed.
Lemma east_r r t l : 0 < r -> is_derive (fun r => east r t l) r (sums (fun n m => - (INR n + 2) * (a / r) ^ (n + 2) / r * T' l n m * Pt t n m)).
Proof.
  intros Hr. unfold east, east_sum, sums. apply (all_sum_derive lo (N + 1) (fun r => et (a / r) l (ent g) (ent h) (Pt t))). intros n m Hm. unfold et.
  pose proof (is_derive_scal _ _ (T' l n m * Pt t n m) _ (rho_derive r n Hr)) as E.
  apply (deriv_both _ _ _ _ _ E); [intros y; cbv beta; unfold T'; ring|unfold T'; unfold Rdiv; ring].
Qed.
Lemma north_l r t l : is_derive (fun l => north r t l) l (sums (fun n m => (a / r) ^ (n + 2) * T' l n m * Dt t n m)).
Proof.
  unfold north, north_sum, sums. apply (all_sum_derive lo (N + 1) (fun l => nt (a / r) l (ent g) (ent h) (Dt t))). intros n m Hm. unfold nt.
  pose proof (is_derive_scal _ _ (Dt t n m * (a / r) ^ (n + 2)) _ (T_derive l n m)) as E.
  apply (deriv_both _ _ _ _ _ E); [intros y; cbv beta; unfold T; ring|unfold T; ring].
Qed.
Lemma north_r r t l : 0 < r -> is_derive (fun r => north r t l) r (sums (fun n m => - (INR n + 2) * (a / r) ^ (n + 2) / r * T l n m * Dt t n m)).
Proof.
  intros Hr. unfold north, north_sum, sums. apply (all_sum_derive lo (N + 1) (fun r => nt (a / r) l (ent g) (ent h) (Dt t))). intros n m Hm. unfold nt.
  pose proof (is_derive_scal _ _ (T l n m * Dt t n m) _ (rho_derive r n Hr)) as E.
  apply (deriv_both _ _ _ _ _ E); [intros y; cbv beta; unfold T; ring|unfold T; unfold Rdiv; ring].
Qed.
Lemma north_t r t l : 0 < sin t -> is_derive (fun t => sin t * north r t l) t
  (sums (fun n m => (a / r) ^ (n + 2) * T l n m * ((INR m ^ 2 / sin t - INR n * (INR n + 1) * sin t) * Pt t n m))).
Proof.
  intros Hs. unfold north, north_sum, sums.
  apply (is_derive_ext (fun t => all_sum lo (fun n m => (a / r) ^ (n + 2) * T l n m * schmidt_factor n m * (sin t * H 1 n m t)) (N + 1))).
  { intros u. eqR. rewrite <- all_sum_scal. apply all_sum_ext. intros. unfold nt, T, Dt. ring. }
  apply (all_sum_derive lo (N + 1) (fun t n m => (a / r) ^ (n + 2) * T l n m * schmidt_factor n m * (sin t * H 1 n m t))). intros n m Hm.
  pose proof (is_derive_scal _ _ ((a / r) ^ (n + 2) * T l n m * schmidt_factor n m) _ (sturm n m t Hs Hm)) as E.
  apply (deriv_value _ _ _ _ E). unfold Pt. ring.
Qed.
Lemma radial_l r t l : is_derive (fun l => radial r t l) l (sums (fun n m => (INR n + 1) * (a / r) ^ (n + 2) * T' l n m * Pt t n m)).
Proof.
  unfold radial, radial_sum, sums. apply (all_sum_derive lo (N + 1) (fun l => rt (a / r) l (ent g) (ent h) (Pt t))). intros n m Hm. unfold rt.
  pose proof (is_derive_scal _ _ (Pt t n m * (INR n + 1) * (a / r) ^ (n + 2)) _ (T_derive l n m)) as E.
  apply (deriv_both _ _ _ _ _ E); [intros y; cbv beta; unfold T; ring|unfold T; ring].
Qed.
Lemma radial_t r t l : is_derive (fun t => radial r t l) t (sums (fun n m => (INR n + 1) * (a / r) ^ (n + 2) * T l n m * Dt t n m)).
Proof.
  unfold radial, radial_sum, sums. apply (all_sum_derive lo (N + 1) (fun t => rt (a / r) l (ent g) (ent h) (Pt t))). intros n m Hm. unfold rt.
  exact (is_derive_scal _ _ _ _ (Pt_derive t n m Hm)).
Qed.
Lemma radial_r r t l : 0 < r -> is_derive (fun r => radial r t l) r (sums (fun n m => (INR n + 1) * (- (INR n + 2) * (a / r) ^ (n + 2) / r) * T l n m * Pt t n m)).
Proof.
  intros Hr. unfold radial, radial_sum, sums. apply (all_sum_derive lo (N + 1) (fun r => rt (a / r) l (ent g) (ent h) (Pt t))). intros n m Hm. unfold rt.
  pose proof (is_derive_scal _ _ ((INR n + 1) * T l n m * Pt t n m) _ (rho_derive r n Hr)) as E.
  apply (deriv_both _ _ _ _ _ E); [intros y; cbv beta; unfold T; ring|unfold T; unfold Rdiv; ring].
Qed.
End Terms.
