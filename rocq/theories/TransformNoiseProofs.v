(** Lemmas for claim C100: how much a filter can amplify the values of a grid. *)
From Coquelicot Require Import Coquelicot.
From Verif Require Import Base BaseFacts NumPy UtilsModel UtilsSpec TransformModel TransformSpec FourierProofs TransformProofs TransformFieldProofs TransformLevelProofs.
Local Open Scope list_scope. Local Open Scope R_scope.
Local Notation C := Complex.C.

Definition modsq (z : C) : R := Re z ^ 2 + Im z ^ 2.
Lemma modsq_mult a b : modsq (Cmult a b) = modsq a * modsq b.
Proof. destruct a as [p q], b as [r s]. unfold modsq, Cmult, Re, Im. cbn. ring. Qed.
Lemma modsq_RtoC r : modsq (RtoC r) = r ^ 2.
Proof. unfold modsq, RtoC, Re, Im. cbn. ring. Qed.
Lemma modsq_Ci : modsq Ci = 1.
Proof. unfold modsq, Ci, Re, Im. cbn. ring. Qed.
Lemma modsq_cpow z n : modsq (cpow z n) = modsq z ^ n.
Proof. induction n as [|n IH]; [unfold modsq, Re, Im; cbn; ring|]. cbn [cpow pow]. now rewrite modsq_mult, IH. Qed.
Lemma modsq_nonneg z : 0 <= modsq z.
Proof. unfold modsq. pose proof (pow2_ge_0 (Re z)). pose proof (pow2_ge_0 (Im z)). lra. Qed.
Lemma modsq_Cinv z : z <> RtoC 0 -> modsq (Cinv z) = / modsq z.
Proof.
  intros H. assert (P : modsq z <> 0).
  { intros E. apply H. destruct z as [p q]. unfold modsq, Re, Im in E. cbn in E. pose proof (pow2_ge_0 p) as P1. pose proof (pow2_ge_0 q) as P2. cbn in P1, P2. assert (p = 0) by nra. assert (q = 0) by nra. now subst. }
  apply (Rmult_eq_reg_l (modsq z)); [|assumption]. rewrite <- modsq_mult, Cinv_r by assumption. rewrite modsq_RtoC, Rinv_r by assumption. ring.
Qed.

Lemma sum_flip a (f : nat -> R) : sum_over (range 0 (a_n a)) (fun i => f (flip_index a i)) = sum_over (range 0 (a_n a)) f.
Proof. apply RtoC_inj. rewrite <- !csum_RtoC. exact (csum_flip a (fun i => RtoC (f i))). Qed.
Lemma energy_flip ay ax f : energy (a_n ay) (a_n ax) (fun i j => f (flip_index ay i) (flip_index ax j)) = energy (a_n ay) (a_n ax) f.
Proof.
  unfold energy. rewrite (sum_over_ext _ _ (fun i => sum_over (range 0 (a_n ax)) (fun j => f (flip_index ay i) j))) by (intros i _; exact (sum_flip ax (f (flip_index ay i)))).
  exact (sum_flip ay (fun i => sum_over (range 0 (a_n ax)) (fun j => f i j))).
Qed.

(** Only the frequencies that occur in the values matter. *)
Lemma amplified ay ax v H B : good ay -> good ax -> 0 < B ->
  (forall k l, (k < a_n ay)%nat -> (l < a_n ax)%nat -> fft ay ax v k l <> RtoC 0 -> modsq (H k l) <= B ^ 2) ->
  energy (a_n ay) (a_n ax) (fun i j => Re (ifft ay ax (fun k l => Cmult (fft ay ax v k l) (H k l)) i j) ^ 2) <= B ^ 2 * energy (a_n ay) (a_n ax) (fun i j => v i j ^ 2).
Proof.
  intros Gy Gx HB HH. set (H' := fun k l => if Ceq_dec (fft ay ax v k l) (RtoC 0) then RtoC 0 else Cmult (RtoC (/ B)) (H k l)).
  assert (E : forall i j, ifft ay ax (fun k l => Cmult (fft ay ax v k l) (H k l)) i j = Cmult (RtoC B) (ifft ay ax (fun k l => Cmult (fft2 ay ax (flipped ay ax v) k l) (H' k l)) i j)).
  { intros i j. rewrite <- ifft_scal. apply ifft_ext. intros k l _ _. rewrite <- fft_fft2. unfold H'. destruct (Ceq_dec (fft ay ax v k l) (RtoC 0)) as [->|N]; [ring|].
    transitivity (Cmult (Cmult (RtoC B) (RtoC (/ B))) (Cmult (fft ay ax v k l) (H k l))); [|ring]. rewrite <- RtoC_mult, Rinv_r by lra. ring. }
  rewrite (energy_ext _ _ _ (fun i j => B ^ 2 * Re (ifft ay ax (fun k l => Cmult (fft2 ay ax (flipped ay ax v) k l) (H' k l)) i j) ^ 2)).
  2:{ intros i j _ _. rewrite E. destruct (ifft ay ax _ i j) as [p q]. unfold Re, Cmult, RtoC. cbn. ring. }
  rewrite energy_scal. apply Rmult_le_compat_l; [apply pow2_ge_0|]. eapply Rle_trans; [apply filtered_energy; try assumption|].
  - intros k l Hk Hl. fold (modsq (H' k l)). unfold H'. destruct (Ceq_dec (fft ay ax v k l) (RtoC 0)) as [Z|N]; [rewrite modsq_RtoC; lra|].
    rewrite modsq_mult, modsq_RtoC. specialize (HH k l Hk Hl N). apply (Rmult_le_compat_l ((/ B) ^ 2)) in HH; [|apply pow2_ge_0]. replace ((/ B) ^ 2 * B ^ 2) with 1 in HH by (field; lra). exact HH.
  - right. rewrite <- (energy_flip ay ax (fun i j => v i j ^ 2)). apply energy_ext. intros i j _ _. unfold flipped. cbn. ring.
Qed.

(** Frequencies of a grid are at most that of Nyquist, and those other than zero are at least that of the whole length. *)
Lemma freq_bound a k : good a -> 0 < a_d a -> (k < a_n a)%nat -> Rabs (freq a k) <= / (2 * a_d a).
Proof.
  intros [Hn _] Hd Hk. unfold freq. assert (P : 0 < INR (a_n a)) by (apply lt_0_INR; lia). unfold Rdiv. rewrite Rabs_mult, (Rabs_pos_eq (/ _)) by (left; apply Rinv_0_lt_compat, Rmult_lt_0_compat; assumption).
  assert (A : Rabs (INR k - INR (a_n a / 2)) <= INR (a_n a) / 2).
  { assert (H1 : (a_n a <= 2 * (a_n a / 2) + 1)%nat) by (pose proof (Nat.div_mod (a_n a) 2 ltac:(lia)); pose proof (Nat.mod_upper_bound (a_n a) 2 ltac:(lia)); lia).
    assert (H2 : (2 * (a_n a / 2) <= a_n a)%nat) by (apply Nat.mul_div_le; lia).
    assert (H3 : (k + 1 <= a_n a)%nat) by lia. apply le_INR in H1, H2, H3. rewrite plus_INR, mult_INR in H1. rewrite mult_INR in H2. rewrite plus_INR in H3. cbn [INR] in *. pose proof (pos_INR k). apply Rabs_le. lra. }
  apply (Rmult_le_reg_r (INR (a_n a) * a_d a)); [now apply Rmult_lt_0_compat|]. rewrite Rmult_assoc, Rinv_l, Rmult_1_r by (apply Rgt_not_eq; now apply Rmult_lt_0_compat).
  replace (/ (2 * a_d a) * (INR (a_n a) * a_d a)) with (INR (a_n a) / 2) by (field; lra). exact A.
Qed.
Lemma freq_least a k : good a -> 0 < a_d a -> k <> (a_n a / 2)%nat -> / (INR (a_n a) * a_d a) <= Rabs (freq a k).
Proof.
  intros [Hn _] Hd Hk. unfold freq. assert (P : 0 < INR (a_n a)) by (apply lt_0_INR; lia). unfold Rdiv. rewrite Rabs_mult, (Rabs_pos_eq (/ _)) by (left; apply Rinv_0_lt_compat, Rmult_lt_0_compat; assumption).
  rewrite <- (Rmult_1_l (/ (INR (a_n a) * a_d a))) at 1. apply Rmult_le_compat_r; [left; apply Rinv_0_lt_compat, Rmult_lt_0_compat; assumption|].
  destruct (Nat.lt_ge_cases k (a_n a / 2)) as [L|L].
  - assert (H : (k + 1 <= a_n a / 2)%nat) by lia. apply le_INR in H. rewrite plus_INR in H. cbn [INR] in H. rewrite Rabs_minus_sym, Rabs_pos_eq; lra.
  - assert (H : (a_n a / 2 + 1 <= k)%nat) by lia. apply le_INR in H. rewrite plus_INR in H. cbn [INR] in H. rewrite Rabs_pos_eq; lra.
Qed.
Lemma sq_le_abs x y : Rabs x <= y -> x ^ 2 <= y ^ 2.
Proof. intros H. rewrite <- (pow2_abs x). apply pow_incr. split; [apply Rabs_pos|assumption]. Qed.
Lemma k_bound a k : good a -> 0 < a_d a -> (k < a_n a)%nat -> k_of (freq a k) ^ 2 <= (PI / a_d a) ^ 2.
Proof.
  intros G D Hk. apply sq_le_abs. pose proof (freq_bound a k G D Hk) as F. pose proof PI_RGT_0. unfold k_of. rewrite !Rabs_mult, (Rabs_pos_eq 2), (Rabs_pos_eq PI) by lra.
  replace (PI / a_d a) with (2 * PI * / (2 * a_d a)) by (field; lra). apply Rmult_le_compat_l; [lra|exact F].
Qed.
(** The square of the wavenumber of the grid diagonal. *)
Definition nyquist (dy dx : R) : R := PI * sqrt (1 / dx ^ 2 + 1 / dy ^ 2).
Lemma nyquist_pos dy dx : 0 < dy -> 0 < dx -> 0 < nyquist dy dx.
Proof. intros. unfold nyquist. apply Rmult_lt_0_compat; [apply PI_RGT_0|]. apply sqrt_lt_R0. assert (0 < 1 / dx ^ 2) by (apply Rdiv_lt_0_compat; [lra|apply pow_lt; assumption]). assert (0 < 1 / dy ^ 2) by (apply Rdiv_lt_0_compat; [lra|apply pow_lt; assumption]). lra. Qed.
Lemma diagonal_bound ay ax k l : good ay -> good ax -> 0 < a_d ay -> 0 < a_d ax -> (k < a_n ay)%nat -> (l < a_n ax)%nat ->
  0 <= sqrt (k_of (freq ax l) ^ 2 + k_of (freq ay k) ^ 2) <= nyquist (a_d ay) (a_d ax).
Proof.
  intros Gy Gx Dy Dx Hk Hl. split; [apply sqrt_pos|]. pose proof (k_bound ay k Gy Dy Hk). pose proof (k_bound ax l Gx Dx Hl). pose proof PI_RGT_0.
  unfold nyquist. rewrite <- (sqrt_pow2 PI) at 1 by lra. rewrite <- sqrt_mult_alt by apply pow2_ge_0. apply sqrt_le_1_alt.
  replace (PI ^ 2 * (1 / a_d ax ^ 2 + 1 / a_d ay ^ 2)) with ((PI / a_d ax) ^ 2 + (PI / a_d ay) ^ 2) by (field; lra). lra.
Qed.
Lemma exp_le x y : x <= y -> exp x <= exp y.
Proof. intros [H| ->]; [left; now apply exp_increasing|right; reflexivity]. Qed.

(** Reduction to the pole *)
Lemma dirfac_modsq kn ke j e : sin_inc j ^ 2 * (ke ^ 2 + kn ^ 2) <= modsq (dirfac kn ke (direction j e)).
Proof.
  unfold modsq, dirfac, direction, sin_inc, Re, Im. cbn [fst snd vx vy vz]. 
  match goal with |- _ <= (- ?z * sqrt ?s) ^ 2 + ?w ^ 2 => replace ((- z * sqrt s) ^ 2) with (z ^ 2 * (sqrt s) ^ 2) by ring; pose proof (pow2_ge_0 w) end.
  rewrite <- Rsqr_pow2, Rsqr_pow2, pow2_sqrt by (pose proof (pow2_ge_0 ke); pose proof (pow2_ge_0 kn); lra). nra.
Qed.
Lemma rtp_bound i d mi md H a b z : sin_inc i <> 0 -> sin_inc mi <> 0 -> reduction_to_pole_kernel i d (Some mi) (Some md) = Ok H -> H a b = Some z ->
  modsq z <= (/ (Rabs (sin_inc i) * Rabs (sin_inc mi))) ^ 2.
Proof.
  intros Hi Hm E Ez. rewrite (rtp_total i d mi md H Hi Hm E) in Ez. assert (Z : (if (Reqb a 0 && Reqb b 0)%bool then RtoC 0 else
    Cmult (RtoC (k_of b ^ 2 + k_of a ^ 2)) (Cmult (Cinv (dirfac (k_of a) (k_of b) (direction i d))) (Cinv (dirfac (k_of a) (k_of b) (direction mi md))))) = z) by congruence. subst z. clear Ez.
  destruct (Reqb a 0 && Reqb b 0)%bool eqn:NZ; [rewrite modsq_RtoC; replace (0 ^ 2) with 0 by ring; apply pow2_ge_0|].
  set (K := k_of b ^ 2 + k_of a ^ 2).
  assert (P : 0 < K).
  { unfold K, k_of. pose proof PI_RGT_0. destruct (Reqb_spec a 0) as [->|Na]; cbn [andb] in NZ.
    - destruct (Reqb_spec b 0) as [->|Nb]; [discriminate|]. assert (0 < (2 * PI * b) ^ 2) by (apply pow2_gt_0; apply Rmult_integral_contrapositive; split; lra). pose proof (pow2_ge_0 (2 * PI * 0)). lra.
    - assert (0 < (2 * PI * a) ^ 2) by (apply pow2_gt_0; apply Rmult_integral_contrapositive; split; lra). pose proof (pow2_ge_0 (2 * PI * b)). lra. }
  assert (S : forall j, sin_inc j <> 0 -> 0 < sin_inc j ^ 2) by (intros; now apply pow2_gt_0).
  pose proof (dirfac_modsq (k_of a) (k_of b) i d) as D1. pose proof (dirfac_modsq (k_of a) (k_of b) mi md) as D2. fold K in D1, D2.
  assert (Q1 : 0 < sin_inc i ^ 2 * K) by (apply Rmult_lt_0_compat; auto). assert (Q2 : 0 < sin_inc mi ^ 2 * K) by (apply Rmult_lt_0_compat; auto).
  assert (NZ0 : forall z, 0 < modsq z -> z <> RtoC 0) by (intros z Hz ->; rewrite modsq_RtoC in Hz; lra).
  rewrite !modsq_mult, modsq_RtoC, !modsq_Cinv by (apply NZ0; lra).
  assert (I1 : / modsq (dirfac (k_of a) (k_of b) (direction i d)) <= / (sin_inc i ^ 2 * K)) by (apply Rinv_le_contravar; assumption).
  assert (I2 : / modsq (dirfac (k_of a) (k_of b) (direction mi md)) <= / (sin_inc mi ^ 2 * K)) by (apply Rinv_le_contravar; assumption).
  eapply Rle_trans; [apply Rmult_le_compat_l; [apply pow2_ge_0|]; apply Rmult_le_compat; [left; apply Rinv_0_lt_compat; lra|left; apply Rinv_0_lt_compat; lra|exact I1|exact I2]|].
  right. rewrite <- Rabs_mult. rewrite <- (pow2_abs (sin_inc i)), <- (pow2_abs (sin_inc mi)), Rabs_mult. assert (Rabs (sin_inc i) <> 0) by now apply Rabs_no_R0. assert (Rabs (sin_inc mi) <> 0) by now apply Rabs_no_R0. field. repeat split; try assumption. lra.
Qed.
