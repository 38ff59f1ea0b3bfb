(** Claim C86: the field computed from a set of coefficients has no sources outside the reference sphere. *)
From Coquelicot Require Import Coquelicot.
From Coq Require Import Psatz.
From Verif Require Import Base BaseFacts LegendreModel LegendreSpec LegendreFacts LegendreProofs LegendreDerivProofs IgrfModel IgrfSpec IgrfProofs LegendreOrthoProofs IgrfMaxwellProofs.
Local Open Scope R_scope.

(** A vector field in spherical coordinates (radius, colatitude, longitude) by its eastward, northward and radial
    components has no divergence at a point: the components along the colatitude point to the south. *)
Definition no_divergence (be bn br : R -> R -> R -> R) (r t l : R) : Prop :=
  exists d1 d2 d3, is_derive (fun r => r ^ 2 * br r t l) r d1 /\
    is_derive (fun t => sin t * - bn r t l) t d2 /\ is_derive (fun l => be r t l) l d3 /\
    d1 / r ^ 2 + d2 / (r * sin t) + d3 / (r * sin t) = 0.
(** Nor has it any curl. *)
Definition no_curl (be bn br : R -> R -> R -> R) (r t l : R) : Prop :=
  (exists d, is_derive (fun t => sin t * be r t l) t d /\ is_derive (fun l => - bn r t l) l d) /\
  (exists d e, is_derive (fun l => br r t l) l d /\ is_derive (fun r => r * be r t l) r e /\ d / sin t = e) /\
  (exists d, is_derive (fun r => r * - bn r t l) r d /\ is_derive (fun t => br r t l) t d).

Lemma safe_open t : / 10 ^ 10 < sin t -> locally t (fun u => / 10 ^ 10 < sin u).
Proof. intros Hs. apply (continuous_sin t (fun y => / 10 ^ 10 < y)). apply (open_gt (/ 10 ^ 10)). exact Hs. Qed.

(** The components are those computed wherever the code divides by the sine of the colatitude. *)
Theorem C86_no_sources : forall junk a g h lo N, 0 < a -> (1 <= N)%nat -> square N g -> square N h ->
  exists be bn br,
    (forall r t l, 0 < r -> 0 <= t <= PI -> / 10 ^ 10 <= sin t ->
      spherical_harmonics_magnetic_field junk [(l, t, a / r)] g h lo N = Ok [(be r t l, bn r t l, br r t l)]) /\
    forall r t l, 0 < r -> 0 < t < PI -> / 10 ^ 10 < sin t ->
      no_divergence be bn br r t l /\ no_curl be bn br r t l.
Proof.
  intros junk a g h lo N Ha HN Hg Hh.
  exists (fun r t l => east a g h lo N r t l * (-1 / sin t)), (north a g h lo N), (radial a g h lo N).
  split.
  { intros r t l Hr Ht Hs. unfold spherical_harmonics_magnetic_field, each. rewrite field_at_ok by assumption. cbn [bind fst snd fix_east].
    unfold fix_east. assert (0 < / 10 ^ 10) by (apply Rinv_0_lt_compat; apply pow_lt; lra).
    rewrite (Rabs_pos_eq (sin t)) by lra. destruct (Rltb_spec (sin t) (/ 10 ^ 10)); [lra|]. rewrite !Rplus_0_l. reflexivity. }
  intros r t l Hr Ht Hs.
  assert (Hp : 0 < / 10 ^ 10) by (apply Rinv_0_lt_compat; apply pow_lt; lra).
  assert (Hs0 : 0 < sin t) by lra.
  set (E := east a g h lo N). set (B := north a g h lo N). set (A := radial a g h lo N).
  assert (C : forall (f : R -> R) x v k, is_derive f x v -> is_derive (fun y => f y * k) x (v * k)).
  { intros f x v k D. apply (deriv_both _ _ _ _ _ (is_derive_scal _ _ k _ D)); [intros y; cbv beta; ring|ring]. }
  split.
  - unfold no_divergence. do 3 eexists. split; [|split; [|split]].
    + apply (deriv_mult (fun r => r ^ 2) (fun r => A r t l)); [|apply radial_r; assumption]. auto_derive; [trivial|reflexivity].
    + eapply (deriv_both (fun t => sin t * B r t l * -1)); [apply C, north_t; assumption|intros y; cbv beta; ring|reflexivity].
    + apply C. apply east_l.
    + cbv beta.
      assert (Z : sums lo N (fun n m => 2 / r * rt (a / r) l (ent g) (ent h) (Pt t) n m + (1 * ((INR n + 1) * (- (INR n + 2) * (a / r) ^ (n + 2) / r) * T g h l n m * Pt t n m) +
        (- (1 / (r * sin t)) * ((a / r) ^ (n + 2) * T g h l n m * ((INR m ^ 2 / sin t - INR n * (INR n + 1) * sin t) * Pt t n m)) +
         - (1 / (r * sin t ^ 2)) * ((a / r) ^ (n + 2) * (- INR m ^ 2 * T g h l n m) * Pt t n m)))) = 0).
      { apply all_sum_zero. intros n m Hm. unfold rt. fold (T g h l n m). field. lra. }
      unfold sums in Z. rewrite !all_sum_plus, !all_sum_scal in Z. unfold A, radial, radial_sum, sums.
      etransitivity; [|exact Z]. unfold one; simpl. field. lra.
  - unfold no_curl. split; [|split].
    + eexists. split.
      * apply (is_derive_ext_loc (fun t => E r t l * -1)).
        { apply filter_imp with (2 := safe_open t Hs). intros u Hu. unfold E. eqR. field. lra. }
        apply C. apply east_t.
      * eapply (deriv_both (fun l => B r t l * -1)); [apply C, north_l|intros y; cbv beta; ring|reflexivity].
    + do 2 eexists. split; [apply radial_l|]. split.
      * apply (deriv_mult (fun r => r) (fun r => E r t l * (-1 / sin t))); [apply is_derive_id|]. apply C. apply east_r; assumption.
      * cbv beta.
        assert (Z : sums lo N (fun n m => r * (- (INR n + 2) * (a / r) ^ (n + 2) / r * T' g h l n m * Pt t n m) +
          (1 * et (a / r) l (ent g) (ent h) (Pt t) n m + 1 * ((INR n + 1) * (a / r) ^ (n + 2) * T' g h l n m * Pt t n m))) = 0).
        { apply all_sum_zero. intros n m Hm. unfold et. fold (T' g h l n m). field. lra. }
        unfold sums in Z. rewrite !all_sum_plus, !all_sum_scal in Z. unfold E, east, east_sum, sums.
        apply (Rmult_eq_reg_r (sin t)); [|lra]. apply Rminus_diag_uniq. etransitivity; [|exact Z]. unfold one; simpl. field. lra.
    + eexists. split; [|apply radial_t].
      apply (is_derive_ext (fun r => r * (B r t l * -1))); [intros u; eqR; ring|].
      eapply deriv_value; [apply (deriv_mult (fun r => r) (fun r => B r t l * -1)); [apply is_derive_id|]; apply C; apply north_r; assumption|].
      cbv beta.
      assert (Z : sums lo N (fun n m => r * (- (INR n + 2) * (a / r) ^ (n + 2) / r * T g h l n m * Dt t n m) +
        (1 * nt (a / r) l (ent g) (ent h) (Dt t) n m + 1 * ((INR n + 1) * (a / r) ^ (n + 2) * T g h l n m * Dt t n m))) = 0).
      { apply all_sum_zero. intros n m Hm. unfold nt. fold (T g h l n m). field. lra. }
      unfold sums in Z. rewrite !all_sum_plus, !all_sum_scal in Z. unfold B, north, north_sum, sums.
      apply Rminus_diag_uniq. match type of Z with ?z = 0 => transitivity (- z); [|rewrite Z; ring] end. unfold one; simpl. field.
Qed.
Print Assumptions C86_no_sources.

Example C86_ex : square 2 (Table 3 3 (fun _ _ => 1)) /\ / 10 ^ 10 < sin (PI / 2).
Proof.
  split; [split; reflexivity|]. rewrite sin_PI2. rewrite <- Rinv_1. apply Rinv_lt_contravar; [|apply Rlt_pow_R1; [lra|lia]].
  rewrite Rmult_1_l. apply pow_lt; lra.
Qed.
