(** Lemmas for claim C115: the weights with which a smoothing filter averages the values of a grid. *)
From Coquelicot Require Import Coquelicot.
From Verif Require Import Base BaseFacts NumPy UtilsModel UtilsSpec TransformModel TransformSpec FourierProofs TransformProofs TransformFieldProofs TransformLevelProofs.
Local Open Scope list_scope. Local Open Scope R_scope.
Local Notation C := Complex.C.

(** ** Averages *)
Lemma average_range {A} (l : list A) (f K : A -> R) lo hi : (forall x, In x l -> 0 <= K x) -> sum_over l K = 1 -> (forall x, In x l -> lo <= f x <= hi) ->
  lo <= sum_over l (fun x => f x * K x) <= hi.
Proof.
  intros HK S Hf. rewrite <- (Rmult_1_r lo), <- (Rmult_1_r hi), <- S, <- !sum_over_scal.
  split; apply sum_over_le; intros x Hx; apply Rmult_le_compat_r; (apply HK || apply Hf); assumption.
Qed.
Lemma sum_swap n m (f : nat -> nat -> R) : sum_over (range 0 n) (fun i => sum_over (range 0 m) (f i)) = sum_over (range 0 m) (fun j => sum_over (range 0 n) (fun i => f i j)).
Proof.
  apply RtoC_inj. rewrite <- !csum_RtoC.
  rewrite (csum_ext n _ (fun i => csum m (fun j => RtoC (f i j)))) by (intros; symmetry; apply csum_RtoC).
  rewrite (csum_ext m _ (fun j => csum n (fun i => RtoC (f i j)))) by (intros j _; symmetry; exact (csum_RtoC n (fun i => f i j))). apply csum_swap.
Qed.
Lemma in_range0 n i : In i (range 0 n) <-> (i < n)%nat.
Proof. unfold range. rewrite in_seq. lia. Qed.
Lemma flip_lt a i : (i < a_n a)%nat -> (flip_index a i < a_n a)%nat.
Proof. unfold flip_index. destruct (a_rev a); lia. Qed.

(** ** The weights of a filter with a real response *)
Definition weights (ay ax : axis) (h : nat -> nat -> R) (i j i' j' : nat) : R :=
  / (INR (a_n ay) * INR (a_n ax)) * sum_over (range 0 (a_n ay)) (fun k => sum_over (range 0 (a_n ax)) (fun l =>
    h k l * cos (2 * PI * (freq ay k * (position ay i - position ay i') + freq ax l * (position ax j - position ax j'))))).
Lemma filtered_weights ay ax v h i j : good ay -> good ax ->
  Re (ifft ay ax (fun k l => Cmult (fft ay ax v k l) (RtoC (h k l))) i j) =
  sum_over (range 0 (a_n ay)) (fun i' => sum_over (range 0 (a_n ax)) (fun j' => v (flip_index ay i') (flip_index ax j') * weights ay ax h i j i' j')).
Proof.
  intros Gy Gx. pose proof (INR_n_neq ay Gy) as Ny. pose proof (INR_n_neq ax Gx) as Nx. destruct Gy as [_ Dy], Gx as [_ Dx].
  rewrite (ifft_ext ay ax _ (fun k l => Cmult (fft2 ay ax (flipped ay ax v) k l) (RtoC (h k l)))) by (intros; now rewrite fft_fft2).
  rewrite filtered_kernel. rewrite <- (Cmult_comm (csum2 _ _ _)), Re_scal. unfold csum2. rewrite Re_csum, Rmult_comm, <- sum_over_scal. apply sum_over_ext. intros i' _.
  rewrite Re_csum, <- sum_over_scal. apply sum_over_ext. intros j' _. unfold flipped. unfold weights.
  rewrite (Cmult_comm (RtoC (v _ _))), Re_scal. rewrite Re_csum.
  rewrite (sum_over_ext _ _ (fun k => sum_over (range 0 (a_n ax)) (fun l => h k l * cos (2 * PI * (freq ay k * (position ay i - position ay i') + freq ax l * (position ax j - position ax j')))))).
  - field. repeat split; assumption.
  - intros k _. rewrite Re_csum. apply sum_over_ext. intros l _. unfold wave, waven. rewrite <- !cis_add. rewrite (Cmult_comm (RtoC _)), Re_scal. rewrite Rmult_comm. f_equal. cbn [cis Re fst]. f_equal. ring.
Qed.
Lemma weights_sum ay ax h i j : good ay -> good ax -> h (a_n ay / 2)%nat (a_n ax / 2)%nat = 1 ->
  sum_over (range 0 (a_n ay)) (fun i' => sum_over (range 0 (a_n ax)) (fun j' => weights ay ax h i j i' j')) = 1.
Proof.
  intros Gy Gx E. transitivity (1 * 1); [|ring]. rewrite <- (filtered_const ay ax (fun _ _ => 1) (fun k l => RtoC (h k l)) 1 1 i j Gy Gx (f_equal RtoC E) (fun _ _ _ _ => eq_refl)).
  rewrite filtered_weights by assumption. apply sum_over_ext. intros i' _. apply sum_over_ext. intros; ring.
Qed.
Lemma weights_turned ay ax h i j i' j' : weights ay ax h i j i' j' = weights ax ay (fun l k => h k l) j i j' i'.
Proof.
  unfold weights. rewrite (Rmult_comm (INR (a_n ay))). f_equal. rewrite (sum_swap (a_n ay) (a_n ax)). apply sum_over_ext. intros l _. apply sum_over_ext. intros k _. f_equal. f_equal. f_equal. ring.
Qed.

(** Summed along one direction only the waves along the other one are left. *)
Lemma wave_row_sum a k i b : good a -> (k < a_n a)%nat ->
  sum_over (range 0 (a_n a)) (fun i' => cos (2 * PI * (freq a k * (position a i - position a i')) + b)) = if Nat.eq_dec (a_n a / 2) k then INR (a_n a) * cos b else 0.
Proof.
  intros G Hk. transitivity (Re (Cmult (csum (a_n a) (fun i' => Cmult (wave a (a_n a / 2) i') (waven a k i'))) (Cmult (wave a k i) (cis b)))).
  - rewrite <- csum_mult_r, Re_csum. apply sum_over_ext. intros i' _. rewrite wave_mid, Cmult_1_l. unfold wave, waven. rewrite <- !cis_add. cbn [cis Re fst]. f_equal. ring.
  - rewrite sum_over_pos by (try apply mid_lt; assumption). destruct (Nat.eq_dec (a_n a / 2) k) as [<-|N].
    + rewrite wave_mid, Cmult_1_l. rewrite Cmult_comm, Re_scal. cbn [cis Re fst]. ring.
    + rewrite Cmult_0_l. reflexivity.
Qed.
Definition line_weights (a : axis) (h : nat -> R) (j j' : nat) : R :=
  / INR (a_n a) * sum_over (range 0 (a_n a)) (fun l => h l * cos (2 * PI * (freq a l * (position a j - position a j')))).
Lemma weights_row_sum ay ax h i j j' : good ay -> good ax ->
  sum_over (range 0 (a_n ay)) (fun i' => weights ay ax h i j i' j') = line_weights ax (h (a_n ay / 2)%nat) j j'.
Proof.
  intros Gy Gx. pose proof (INR_n_neq ay Gy) as Ny. pose proof (INR_n_neq ax Gx) as Nx. unfold weights. rewrite sum_over_scal.
  rewrite (sum_swap (a_n ay) (a_n ay)).
  rewrite (sum_over_ext _ _ (fun k => if Nat.eq_dec (a_n ay / 2) k then INR (a_n ay) * sum_over (range 0 (a_n ax)) (fun l => h k l * cos (2 * PI * (freq ax l * (position ax j - position ax j')))) else 0)).
  - set (S := sum_over (range 0 (a_n ay)) _). assert (E : S = INR (a_n ay) * sum_over (range 0 (a_n ax)) (fun l => h (a_n ay / 2)%nat l * cos (2 * PI * (freq ax l * (position ax j - position ax j'))))).
    { apply RtoC_inj. unfold S. rewrite <- csum_RtoC. rewrite (csum_single (a_n ay) _ (a_n ay / 2)%nat (mid_lt ay Gy)).
      - destruct (Nat.eq_dec (a_n ay / 2) (a_n ay / 2)); [reflexivity|congruence].
      - intros k _ Nk. destruct (Nat.eq_dec (a_n ay / 2) k); [congruence|reflexivity]. }
    rewrite E. unfold line_weights. field. split; assumption.
  - intros k Hk. apply in_range0 in Hk. rewrite (sum_swap (a_n ay) (a_n ax)). 
    rewrite (sum_over_ext _ _ (fun l => h k l * (if Nat.eq_dec (a_n ay / 2) k then INR (a_n ay) * cos (2 * PI * (freq ax l * (position ax j - position ax j'))) else 0))).
    + destruct (Nat.eq_dec (a_n ay / 2) k); [rewrite <- sum_over_scal; apply sum_over_ext; intros; ring|apply sum_over_zero; intros; ring].
    + intros l _. rewrite sum_over_scal. f_equal. rewrite <- (wave_row_sum ay k i _ Gy Hk). apply sum_over_ext. intros i' _. f_equal. ring.
Qed.

(** ** Ranges *)
Lemma in_range_all ay ax v h i j lo hi : good ay -> good ax -> h (a_n ay / 2)%nat (a_n ax / 2)%nat = 1 ->
  (forall i' j', (i' < a_n ay)%nat -> (j' < a_n ax)%nat -> 0 <= weights ay ax h i j i' j') -> (forall a b, (a < a_n ay)%nat -> (b < a_n ax)%nat -> lo <= v a b <= hi) ->
  lo <= Re (ifft ay ax (fun k l => Cmult (fft ay ax v k l) (RtoC (h k l))) i j) <= hi.
Proof.
  intros Gy Gx H1 HK HV. rewrite filtered_weights by assumption. pose proof (weights_sum ay ax h i j Gy Gx H1) as S.
  rewrite <- (Rmult_1_r lo), <- (Rmult_1_r hi), <- S, <- !sum_over_scal.
  split; apply sum_over_le; intros i' Hi; rewrite <- sum_over_scal; apply sum_over_le; intros j' Hj; apply in_range0 in Hi; apply in_range0 in Hj;
    (apply Rmult_le_compat_r; [now apply HK|]); apply HV; now apply flip_lt.
Qed.
Lemma in_range_line ay ax v w h i j lo hi : good ay -> good ax -> h (a_n ay / 2)%nat (a_n ax / 2)%nat = 1 ->
  (forall j', (j' < a_n ax)%nat -> 0 <= line_weights ax (h (a_n ay / 2)%nat) j j') -> (forall a b, (a < a_n ay)%nat -> (b < a_n ax)%nat -> v a b = w b) ->
  (forall b, (b < a_n ax)%nat -> lo <= w b <= hi) ->
  lo <= Re (ifft ay ax (fun k l => Cmult (fft ay ax v k l) (RtoC (h k l))) i j) <= hi.
Proof.
  intros Gy Gx H1 HK HV HW. rewrite filtered_weights by assumption. pose proof (weights_sum ay ax h i j Gy Gx H1) as S.
  rewrite sum_swap in S. rewrite sum_swap.
  rewrite (sum_over_ext _ _ (fun j' => w (flip_index ax j') * line_weights ax (h (a_n ay / 2)%nat) j j')).
  - apply average_range.
    + intros j' Hj. apply in_range0 in Hj. now apply HK.
    + rewrite <- S. apply sum_over_ext. intros j' _. symmetry. now apply weights_row_sum.
    + intros j' Hj. apply in_range0 in Hj. apply HW. now apply flip_lt.
  - intros j' Hj. apply in_range0 in Hj. rewrite <- (weights_row_sum ay ax h i j j' Gy Gx), <- sum_over_scal. apply sum_over_ext. intros i' Hi. apply in_range0 in Hi. f_equal. apply HV; now apply flip_lt.
Qed.
Lemma in_range_column ay ax v w h i j lo hi : good ay -> good ax -> h (a_n ay / 2)%nat (a_n ax / 2)%nat = 1 ->
  (forall i', (i' < a_n ay)%nat -> 0 <= line_weights ay (fun k => h k (a_n ax / 2)%nat) i i') -> (forall a b, (a < a_n ay)%nat -> (b < a_n ax)%nat -> v a b = w a) ->
  (forall a, (a < a_n ay)%nat -> lo <= w a <= hi) ->
  lo <= Re (ifft ay ax (fun k l => Cmult (fft ay ax v k l) (RtoC (h k l))) i j) <= hi.
Proof.
  intros Gy Gx H1 HK HV HW. rewrite filtered_weights by assumption. pose proof (weights_sum ay ax h i j Gy Gx H1) as S.
  rewrite (sum_over_ext _ _ (fun i' => w (flip_index ay i') * line_weights ay (fun k => h k (a_n ax / 2)%nat) i i')).
  - apply average_range.
    + intros i' Hi. apply in_range0 in Hi. now apply HK.
    + rewrite <- S. apply sum_over_ext. intros i' _. rewrite <- (weights_row_sum ax ay (fun l k => h k l) j i i' Gx Gy). apply sum_over_ext. intros j' _. symmetry. apply weights_turned.
    + intros i' Hi. apply in_range0 in Hi. apply HW. now apply flip_lt.
  - intros i' Hi. apply in_range0 in Hi. rewrite <- (weights_row_sum ax ay (fun l k => h k l) j i i' Gx Gy), <- sum_over_scal. apply sum_over_ext. intros j' Hj. apply in_range0 in Hj.
    rewrite weights_turned. f_equal. apply HV; now apply flip_lt.
Qed.

(** ** The weights of the continuation of a profile are those of a truncated Poisson kernel, which is positive at the nodes. *)
Lemma cos_period_Z (z : Z) x : cos (x + 2 * IZR z * PI) = cos x.
Proof.
  destruct (Z.le_gt_cases 0 z) as [H|H].
  - rewrite <- (Z2Nat.id z H), <- INR_IZR_INZ. apply cos_period.
  - rewrite <- (cos_period (x + 2 * IZR z * PI) (Z.to_nat (- z))). f_equal. rewrite INR_IZR_INZ, Z2Nat.id by lia. rewrite opp_IZR. ring.
Qed.
Section Poisson.
Variables (q theta : R).
Hypothesis Hq : 0 < q < 1.
Let t (m : nat) : R := q ^ m * cos (INR m * theta).
Let T (n : nat) : R := sum_over (range 0 n) t.
Let D : R := 1 - 2 * q * cos theta + q ^ 2.
Lemma range_last n : range 0 (S n) = range 0 n ++ [n].
Proof. unfold range. rewrite !Nat.sub_0_r. apply seq_S. Qed.
Lemma T_S n : T (S n) = T n + t n.
Proof. unfold T. rewrite range_last, sum_over_app. unfold sum_over at 2. cbn [map sumR]. ring. Qed.
Lemma cos_next m : cos (INR (S (S m)) * theta) = 2 * cos theta * cos (INR (S m) * theta) - cos (INR m * theta).
Proof.
  rewrite !S_INR. replace ((INR m + 1 + 1) * theta) with ((INR m + 1) * theta + theta) by ring. replace (INR m * theta) with ((INR m + 1) * theta - theta) by ring.
  rewrite cos_plus, cos_minus. ring.
Qed.
Lemma T_closed M : D * (2 * T (S M) - 1) = 1 - q ^ 2 - 2 * q ^ (S M) * cos (INR (S M) * theta) + 2 * q ^ (S (S M)) * cos (INR M * theta).
Proof.
  induction M as [|M IH].
  - unfold T, D. change (range 0 1) with [0%nat]. unfold sum_over, t. cbn [map sumR INR pow]. rewrite Rmult_0_l, cos_0, (Rmult_1_l theta). ring.
  - rewrite T_S. replace (D * (2 * (T (S M) + t (S M)) - 1)) with (D * (2 * T (S M) - 1) + 2 * D * t (S M)) by ring. rewrite IH, cos_next. unfold D, t. cbn [pow]. ring.
Qed.
Lemma D_pos : 0 < D.
Proof. unfold D. pose proof (COS_bound theta) as [_ B]. assert (0 < (1 - q) ^ 2) by (apply pow_lt; lra). nra. Qed.
Lemma q_pow M : 0 <= q ^ M <= 1.
Proof. split; [apply pow_le; lra|]. rewrite <- (pow1 M). apply pow_incr. lra. Qed.

Lemma profile_odd M z : INR (2 * M + 1) * theta = 2 * PI * IZR z -> 0 <= 2 * T (S M) - 1.
Proof.
  intros E. apply (Rmult_le_reg_l D); [apply D_pos|]. rewrite Rmult_0_r, T_closed.
  assert (C1 : cos (INR (S M) * theta) = cos (INR M * theta)).
  { rewrite S_INR. rewrite plus_INR, mult_INR in E. cbn [INR] in E. replace ((INR M + 1) * theta) with (- (INR M * theta) + 2 * PI * IZR z) by lra.
    replace (2 * PI * IZR z) with (2 * IZR z * PI) by ring. rewrite <- (cos_neg (INR M * theta)). apply (cos_period_Z z). }
  rewrite C1. pose proof (COS_bound (INR M * theta)) as [_ B]. pose proof (q_pow M) as [Q1 Q2]. set (c := cos (INR M * theta)) in *. cbn [pow]. set (p := q ^ M) in *.
  replace (1 - q * (q * 1) - 2 * (q * p) * c + 2 * (q * (q * p)) * c) with ((1 - q) * ((1 + q) - 2 * q * (p * c))) by ring.
  apply Rmult_le_pos; [lra|]. assert (p * c <= 1) by nra. nra.
Qed.
Lemma profile_even M z : (1 <= M)%nat -> INR (2 * M) * theta = 2 * PI * IZR z -> 0 <= T (S M) + T M - 1.
Proof.
  intros HM E. destruct M as [|M]; [lia|]. apply (Rmult_le_reg_l D); [apply D_pos|]. rewrite Rmult_0_r. rewrite T_S.
  replace (D * (T (S M) + t (S M) + T (S M) - 1)) with (D * (2 * T (S M) - 1) + D * t (S M)) by ring. rewrite T_closed.
  assert (A : INR (S M) * theta = PI * IZR z) by (rewrite mult_INR in E; cbn [INR] in E |- *; lra).
  assert (S0 : sin (INR (S M) * theta) = 0) by (rewrite A, Rmult_comm; apply sin_eq_0_1; now exists z).
  assert (C1 : cos (INR M * theta) = cos (INR (S M) * theta) * cos theta).
  { replace (INR M * theta) with (INR (S M) * theta - theta) by (rewrite S_INR; ring). rewrite cos_minus, S0. ring. }
  rewrite C1. unfold D, t. pose proof (COS_bound (INR (S M) * theta)) as [_ B]. pose proof (q_pow (S M)) as [Q1 Q2]. set (c := cos (INR (S M) * theta)) in *. cbn [pow] in *. set (p := q * q ^ M) in *.
  replace (1 - q * (q * 1) - 2 * p * c + 2 * (q * p) * (c * cos theta) + (1 - 2 * q * cos theta + q * (q * 1)) * (p * c)) with ((1 - q) * (1 + q) * (1 - p * c)) by ring.
  apply Rmult_le_pos; [nra|]. nra.
Qed.

Lemma left_half M : sum_over (range 0 M) (fun l => t (M - l)) = T (S M) - 1.
Proof.
  induction M as [|M IH].
  - unfold T. change (range 0 1) with [0%nat]. change (range 0 0) with (@nil nat). unfold sum_over, t. cbn [map sumR INR pow]. rewrite Rmult_0_l, cos_0. ring.
  - rewrite T_S. unfold range. rewrite Nat.sub_0_r. cbn [seq]. rewrite <- seq_shift. rewrite sum_over_cons, sum_over_map. change (S M - 0)%nat with (S M).
    rewrite (sum_over_ext _ _ (fun l => t (M - l))) by (intros l _; reflexivity). unfold range in IH. rewrite Nat.sub_0_r in IH. rewrite IH. ring.
Qed.
Lemma right_half M n : (M <= n)%nat -> sum_over (range M n) (fun l => t (l - M)) = T (n - M).
Proof.
  intros H. unfold T, range. rewrite Nat.sub_0_r. remember (n - M)%nat as k eqn:E. clear E H. induction k as [|k IH]; [reflexivity|]. rewrite !seq_S, !sum_over_app, IH. unfold sum_over. cbn [map sumR]. do 3 f_equal; lia.
Qed.
Lemma profile_pos n z : (1 <= n)%nat -> INR n * theta = 2 * PI * IZR z ->
  0 <= sum_over (range 0 n) (fun l => if Nat.ltb l (n / 2) then t (n / 2 - l) else t (l - n / 2)).
Proof.
  intros Hn E. pose proof (half_bounds n) as HB. set (M := (n / 2)%nat) in *.
  assert (R : range 0 n = range 0 M ++ range M n) by (unfold range; replace (n - 0)%nat with ((M - 0) + (n - M))%nat by lia; rewrite seq_app; repeat f_equal; lia).
  rewrite R, sum_over_app.
  rewrite (sum_over_ext (range 0 M) _ (fun l => t (M - l))) by (intros l Hl; apply in_range0 in Hl; destruct (Nat.ltb_spec l M); [reflexivity|lia]).
  rewrite (sum_over_ext (range M n) _ (fun l => t (l - M))) by (intros l Hl; unfold range in Hl; apply in_seq in Hl; destruct (Nat.ltb_spec l M); [lia|reflexivity]).
  rewrite left_half, right_half by lia. destruct (Nat.eq_dec n (2 * M)) as [En|En].
  - replace (n - M)%nat with M by lia. pose proof (profile_even M z ltac:(lia) ltac:(now rewrite <- En)). lra.
  - replace (n - M)%nat with (S M) by lia. pose proof (profile_odd M z ltac:(replace (2 * M + 1)%nat with n by lia; exact E)). lra.
Qed.
End Poisson.
