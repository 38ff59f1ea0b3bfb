(** Proofs about rounding errors. *)
From Coq Require Import Psatz.
From Verif Require Import Base BaseFacts NumPy NumPyFacts DistanceModel DistanceSpec DistanceProofs PointGravitySpec PointGravityProofs
  LegendreModel LegendreProofs EqsModel EqsSpec EqsProofs UtilsModel FloatModel FloatSpec.
Local Open Scope R_scope.

(** ** Rounding to 53 bits *)
Lemma abs_le_inv x y : Rabs x <= y -> - y <= x <= y.
Proof. unfold Rabs. destruct (Rcase_abs x); lra. Qed.

Lemma floor_bounds y : IZR (Int_part y) <= y < IZR (Int_part y) + 1.
Proof. destruct (base_Int_part y). lra. Qed.

Lemma floor_unique y n : IZR n <= y < IZR n + 1 -> Int_part y = n.
Proof.
  intros H. assert (F := floor_bounds y). assert (IZR (Int_part y) < IZR (n + 1)) by (rewrite plus_IZR; lra). assert (IZR n < IZR (Int_part y + 1)) by (rewrite plus_IZR; lra).
  apply lt_IZR in H0, H1. lia.
Qed.

Lemma nearest_even_half y : Rabs (IZR (nearest_even y) - y) <= / 2.
Proof.
  assert (F := floor_bounds y). unfold nearest_even. destruct (Rltb_spec (y - IZR (Int_part y)) (/ 2)).
  - apply Rabs_le. lra.
  - destruct (Rltb_spec (/ 2) (y - IZR (Int_part y))); [rewrite plus_IZR; apply Rabs_le; lra|].
    destruct (Z.even (Int_part y)); [|rewrite plus_IZR]; apply Rabs_le; lra.
Qed.

Lemma power2_pos z : 0 < powerRZ 2 z.
Proof. apply powerRZ_lt. lra. Qed.

Lemma ln2_pos : 0 < ln 2.
Proof. rewrite <- ln_1. apply ln_increasing; lra. Qed.

Lemma exponent_low x : x <> 0 -> powerRZ 2 (exponent x) <= Rabs x.
Proof.
  intros H. assert (P := Rabs_pos_lt x H). rewrite powerRZ_Rpower by lra. unfold Rpower. apply Rle_trans with (exp (ln (Rabs x))); [|rewrite exp_ln by exact P; lra].
  assert (L := ln2_pos). destruct (floor_bounds (ln (Rabs x) / ln 2)) as [F _]. fold (exponent x) in F.
  assert (E : IZR (exponent x) * ln 2 <= ln (Rabs x)) by (apply (Rmult_le_compat_r (ln 2)) in F; [|lra]; replace (ln (Rabs x) / ln 2 * ln 2) with (ln (Rabs x)) in F by (field; lra); exact F).
  destruct E as [E|E]; [left; apply exp_increasing, E | right; f_equal; exact E].
Qed.

Lemma powerRZ_2_add a b : powerRZ 2 (a + b) = powerRZ 2 a * powerRZ 2 b.
Proof. apply powerRZ_add. lra. Qed.

Lemma binary53_standard : standard (/ 2 ^ 53) binary53.
Proof.
  intros x. unfold binary53. destruct (Reqb_spec x 0) as [->|N]; [rewrite Rminus_0_r, Rabs_R0; lra|].
  assert (U := power2_pos (exponent x - 52)). fold (ulp x) in U. assert (H := nearest_even_half (x / ulp x)).
  replace (IZR (nearest_even (x / ulp x)) * ulp x - x) with ((IZR (nearest_even (x / ulp x)) - x / ulp x) * ulp x) by (field; lra).
  rewrite Rabs_mult, (Rabs_pos_eq (ulp x)) by lra.
  apply Rle_trans with (/ 2 * ulp x); [apply Rmult_le_compat_r; lra|].
  assert (E := exponent_low x N). unfold ulp. replace (exponent x - 52)%Z with (exponent x + -52)%Z by ring. rewrite powerRZ_2_add.
  change (powerRZ 2 (-52)) with (/ 2 ^ 52). apply Rle_trans with (/ 2 ^ 53 * powerRZ 2 (exponent x)); [right; field; lra|].
  apply Rmult_le_compat_l; [|exact E]. left. apply Rinv_0_lt_compat. lra.
Qed.

Lemma binary53_0 : binary53 0 = 0.
Proof. unfold binary53. destruct (Reqb_spec 0 0); [reflexivity | contradiction]. Qed.

(** ** Relative errors: quotients of the computed and the exact number *)
Section Relative.
Variables (u : R) (fl : R -> R).
Hypothesis small : 0 <= u < 1.
Hypothesis std : standard u fl.

Definition rho : R := (1 + u) / (1 - u).
Definition within (r t : R) : Prop := / r <= t <= r.
Definition near (r x y : R) : Prop := exists t, within r t /\ y = x * t.

Lemma rho_1 : 1 <= rho.
Proof. unfold rho. apply (Rmult_le_reg_r (1 - u)); [lra|]. replace ((1 + u) / (1 - u) * (1 - u)) with (1 + u) by (field; lra). lra. Qed.

Lemma rho_pow k : 1 <= rho ^ k.
Proof. apply pow_R1_Rle, rho_1. Qed.

Lemma pow_le_more a b : (a <= b)%nat -> rho ^ a <= rho ^ b.
Proof. intros H. apply Rle_pow; [apply rho_1 | exact H]. Qed.

Lemma within_pos r t : 1 <= r -> within r t -> 0 < t.
Proof. intros H [A _]. assert (0 < / r) by (apply Rinv_0_lt_compat; lra). lra. Qed.

Lemma within_1 r : 1 <= r -> within r 1.
Proof. intros H. split; [|exact H]. apply Rle_trans with (/ 1); [apply Rinv_le_contravar; lra | rewrite Rinv_1; lra]. Qed.

Lemma within_more r s t : 1 <= r -> r <= s -> within r t -> within s t.
Proof. intros H L [A B]. split; [|lra]. apply Rle_trans with (/ r); [apply Rinv_le_contravar; lra | exact A]. Qed.

Lemma within_mul r s t v : 1 <= r -> 1 <= s -> within r t -> within s v -> within (r * s) (t * v).
Proof.
  intros Hr Hs W V. assert (T := within_pos r t Hr W). assert (Vp := within_pos s v Hs V). destruct W as [A B], V as [C D].
  assert (0 < / r) by (apply Rinv_0_lt_compat; lra). assert (0 < / s) by (apply Rinv_0_lt_compat; lra).
  split; [rewrite Rinv_mult; apply Rmult_le_compat; lra | apply Rmult_le_compat; lra].
Qed.

Lemma within_inv r t : 1 <= r -> within r t -> within r (/ t).
Proof.
  intros Hr W. assert (T := within_pos r t Hr W). destruct W as [A B]. split; [apply Rinv_le_contravar; lra|].
  rewrite <- (Rinv_inv r). apply Rinv_le_contravar; [apply Rinv_0_lt_compat; lra | exact A].
Qed.

Lemma within_sqrt r t : 1 <= r -> within (r * r) t -> within r (sqrt t).
Proof.
  intros Hr [A B]. assert (0 < / r) by (apply Rinv_0_lt_compat; lra). split.
  - rewrite <- (sqrt_square (/ r)) by lra. apply sqrt_le_1_alt. rewrite <- Rinv_mult. exact A.
  - rewrite <- (sqrt_square r) by lra. apply sqrt_le_1_alt. exact B.
Qed.

Lemma fl_near x : near rho x (fl x).
Proof.
  assert (S := std x). assert (R1 := rho_1). destruct (Req_dec x 0) as [->|N].
  - exists 1. split; [apply within_1, R1|]. rewrite Rabs_R0, Rmult_0_r, Rminus_0_r in S. assert (P := Rabs_pos (fl 0)). rewrite Rmult_0_l.
    destruct (Req_dec (fl 0) 0) as [E|E]; [exact E|]. apply Rabs_pos_lt in E. lra.
  - exists (fl x / x). split; [|field; exact N].
    assert (B : Rabs (fl x / x - 1) <= u).
    { replace (fl x / x - 1) with ((fl x - x) / x) by (field; exact N). unfold Rdiv. rewrite Rabs_mult, Rabs_inv. assert (P := Rabs_pos_lt x N).
      apply (Rmult_le_reg_r (Rabs x)); [exact P|]. replace (Rabs (fl x - x) * / Rabs x * Rabs x) with (Rabs (fl x - x)) by (field; lra). exact S. }
    apply abs_le_inv in B. unfold within. split.
    + apply Rle_trans with (1 - u); [|lra]. unfold rho. rewrite Rinv_div. apply (Rmult_le_reg_r (1 + u)); [lra|].
      replace ((1 - u) / (1 + u) * (1 + u)) with (1 - u) by (field; lra). nra.
    + apply Rle_trans with (1 + u); [lra|]. unfold rho. apply (Rmult_le_reg_r (1 - u)); [lra|]. replace ((1 + u) / (1 - u) * (1 - u)) with (1 + u) by (field; lra). nra.
Qed.

Lemma near_more k l x y : (k <= l)%nat -> near (rho ^ k) x y -> near (rho ^ l) x y.
Proof. intros H (t & W & E). exists t. split; [|exact E]. apply (within_more (rho ^ k)); [apply rho_pow | apply pow_le_more, H | exact W]. Qed.

Lemma near_mul k l x y x' y' : near (rho ^ k) x x' -> near (rho ^ l) y y' -> near (rho ^ (k + l)) (x * y) (x' * y').
Proof. intros (t & W & ->) (v & V & ->). exists (t * v). split; [rewrite pow_add; apply within_mul; try apply rho_pow; assumption | ring]. Qed.

Lemma near_fl k x y : near (rho ^ k) x y -> near (rho ^ (k + 1)) x (fl y).
Proof.
  intros (t & W & ->). destruct (fl_near (x * t)) as (v & V & ->). exists (t * v). split; [|ring]. rewrite pow_add, pow_1. apply within_mul; [apply rho_pow | apply rho_1 | exact W | exact V].
Qed.

Lemma near_fl1 x : near (rho ^ 1) x (fl x).
Proof. rewrite pow_1. apply fl_near. Qed.

Lemma near_refl k x : near (rho ^ k) x x.
Proof. exists 1. split; [apply within_1, rho_pow | ring]. Qed.

Lemma near_sqrt k x y : 0 <= x -> near (rho ^ (k + k)) x y -> near (rho ^ k) (sqrt x) (sqrt y).
Proof.
  intros H (t & W & ->). exists (sqrt t). split; [apply within_sqrt; [apply rho_pow | rewrite <- pow_add; exact W]|].
  apply sqrt_mult_alt. exact H.
Qed.

Lemma near_add k x y x' y' : 0 <= x -> 0 <= y -> near (rho ^ k) x x' -> near (rho ^ k) y y' -> near (rho ^ k) (x + y) (x' + y').
Proof.
  intros Hx Hy (t & [T1 T2] & ->) (v & [V1 V2] & ->). destruct (Req_dec (x + y) 0) as [Z|Z].
  - exists 1. split; [apply within_1, rho_pow|]. assert (x = 0) by lra. assert (y = 0) by lra. subst. ring.
  - exists ((x * t + y * v) / (x + y)). split; [|field; exact Z]. assert (P : 0 < x + y) by lra. set (r := rho ^ k) in *.
    split; apply (Rmult_le_reg_r (x + y)); try exact P; replace ((x * t + y * v) / (x + y) * (x + y)) with (x * t + y * v) by (field; exact Z).
    + assert (x * / r <= x * t) by (apply Rmult_le_compat_l; lra). assert (y * / r <= y * v) by (apply Rmult_le_compat_l; lra). lra.
    + assert (x * t <= x * r) by (apply Rmult_le_compat_l; lra). assert (y * v <= y * r) by (apply Rmult_le_compat_l; lra). lra.
Qed.

Lemma near_inv k x y : near (rho ^ k) x y -> near (rho ^ k) (/ x) (/ y).
Proof. intros (t & W & ->). exists (/ t). split; [apply within_inv; [apply rho_pow | exact W] | apply Rinv_mult]. Qed.

Lemma near_zero k x y : near (rho ^ k) x y -> (y = 0 <-> x = 0).
Proof.
  intros (t & W & ->). assert (T := within_pos _ _ (rho_pow k) W). split; [|intros ->; ring]. intros E. apply Rmult_integral in E. destruct E; [assumption | lra].
Qed.

Lemma within_abs r t : 1 <= r -> within r t -> Rabs (t - 1) <= r - 1.
Proof.
  intros H [A B]. assert (I : 0 < / r) by (apply Rinv_0_lt_compat; lra). apply Rabs_le. split; [|lra].
  assert (r * / r = 1) by (field; lra). nra.
Qed.

Lemma near_abs k x y : near (rho ^ k) x y -> Rabs (y - x) <= (rho ^ k - 1) * Rabs x.
Proof.
  intros (t & W & ->). replace (x * t - x) with ((t - 1) * x) by ring. rewrite Rabs_mult. apply Rmult_le_compat_r; [apply Rabs_pos|]. apply within_abs; [apply rho_pow | exact W].
Qed.

(** [rho ^ k - 1] is about [2 k u]. *)
Lemma rho_excess k : INR k * u <= / 8 -> rho ^ k - 1 <= 4 * INR k * u.
Proof.
  intros H. destruct k as [|k]; [cbn [pow INR]; lra|]. assert (K1 : 1 <= INR (S k)) by (apply (le_INR 1); lia).
  assert (U8 : u <= / 8) by nra. set (x := 8 / 3 * u). assert (X0 : 0 <= x) by (unfold x; lra).
  assert (R : rho <= 1 + x).
  { unfold rho. apply (Rmult_le_reg_r (1 - u)); [lra|]. replace ((1 + u) / (1 - u) * (1 - u)) with (1 + u) by (field; lra). unfold x. nra. }
  assert (B : forall n, INR n * x <= 1 -> (1 + x) ^ n * (1 - INR n * x) <= 1).
  { induction n as [|n IH]; [intros _; cbn; lra|]. intros Hn. rewrite S_INR in *. cbn [pow]. assert (N0 := pos_INR n). assert (P : 0 < (1 + x) ^ n) by (apply pow_lt; lra).
    assert (I := IH ltac:(nra)). apply Rle_trans with ((1 + x) ^ n * (1 - INR n * x)); [|exact I].
    replace ((1 + x) * (1 + x) ^ n * (1 - (INR n + 1) * x)) with ((1 + x) ^ n * ((1 + x) * (1 - (INR n + 1) * x))) by ring. apply Rmult_le_compat_l; [lra|].
    assert (0 <= INR n * x) by (apply Rmult_le_pos; lra). nra. }
  set (y := INR (S k) * x). assert (Y : 0 <= y <= / 3) by (unfold y, x; nra).
  assert (Bk := B (S k) ltac:(fold y; lra)). fold y in Bk.
  assert (Q : (1 + x) ^ S k <= 1 + 3 / 2 * y). { apply (Rmult_le_reg_r (1 - y)); [lra|]. eapply Rle_trans; [exact Bk|]. nra. }
  assert (L : rho ^ S k <= (1 + x) ^ S k) by (apply pow_incr; assert (R1 := rho_1); lra).
  assert (Ey : 3 / 2 * y = 4 * INR (S k) * u) by (unfold y, x; field). rewrite <- Ey. lra.
Qed.

(** ** Distance and Green's function in Cartesian coordinates *)
Lemma f_square_near x : near (rho ^ 3) (x * x) (f_square fl (fl x)).
Proof. unfold f_square. apply (near_fl 2). apply (near_mul 1 1); apply near_fl1. Qed.

Lemma f_distance_near p q : near (rho ^ 4) (eucl (cart_position p) (cart_position q)) (f_distance_cartesian fl p q).
Proof.
  rewrite <- distance_cartesian_eucl. destruct p as [[e n] v], q as [[e' n'] v']. unfold distance_cartesian, f_distance_cartesian.
  assert (S1 : forall x, 0 <= x * x) by (intros; nra).
  replace ((e - e') ^ 2 + (n - n') ^ 2 + (v - v') ^ 2) with ((e - e') * (e - e') + (n - n') * (n - n') + (v - v') * (v - v')) by ring.
  apply (near_fl 3), (near_sqrt 3); [assert (A := S1 (e - e')); assert (B := S1 (n - n')); assert (C := S1 (v - v')); lra|].
  apply (near_more 5 6); [lia|]. apply (near_fl 4), near_add; [assert (A := S1 (e - e')); assert (B := S1 (n - n')); lra | apply S1 | | apply (near_more 3 4); [lia | apply f_square_near]].
  apply (near_fl 3), near_add; [apply S1 | apply S1 | apply f_square_near | apply f_square_near].
Qed.

Lemma f_greens_near p q : cart_position p <> cart_position q ->
  exists v, f_greens_func_cartesian fl (fst3 p) (snd3 p) (thd3 p) (fst3 q) (snd3 q) (thd3 q) = Ok v /\ near (rho ^ 5) (/ eucl (cart_position p) (cart_position q)) v.
Proof.
  intros H. assert (D := f_distance_near p q). assert (N : eucl (cart_position p) (cart_position q) <> 0) by (intros E; apply H, eucl_zero, E).
  unfold f_greens_func_cartesian. replace (fst3 p, snd3 p, thd3 p) with p by (destruct p as [[? ?] ?]; reflexivity). replace (fst3 q, snd3 q, thd3 q) with q by (destruct q as [[? ?] ?]; reflexivity).
  destruct (Reqb_spec (f_distance_cartesian fl p q) 0) as [E|E]; [apply (near_zero 4 _ _ D) in E; contradiction|].
  eexists. split; [reflexivity|]. apply (near_fl 4). replace (1 / f_distance_cartesian fl p q) with (/ f_distance_cartesian fl p q) by (unfold Rdiv; ring). apply near_inv, D.
Qed.

Lemma f_greens_same p q : cart_position p = cart_position q -> f_greens_func_cartesian fl (fst3 p) (snd3 p) (thd3 p) (fst3 q) (snd3 q) (thd3 q) = Raise ZeroDivisionError.
Proof.
  intros H. assert (D := f_distance_near p q). assert (N : eucl (cart_position p) (cart_position q) = 0) by (apply eucl_zero, H).
  unfold f_greens_func_cartesian. replace (fst3 p, snd3 p, thd3 p) with p by (destruct p as [[? ?] ?]; reflexivity). replace (fst3 q, snd3 q, thd3 q) with q by (destruct q as [[? ?] ?]; reflexivity).
  destruct (Reqb_spec (f_distance_cartesian fl p q) 0) as [E|E]; [reflexivity|]. exfalso. apply E, (near_zero 4 _ _ D), N.
Qed.

(** ** Sums *)
Definition perturbed (k : nat) (f : nat -> R) (n : nat) (x : R) : Prop :=
  exists t, (forall j, (j < n)%nat -> within (rho ^ (k + n)) (t j)) /\ x = sum_over (range 0 n) (fun j => f j * t j).

Lemma sum_range_S n f : sum_over (range 0 (S n)) f = sum_over (range 0 n) f + f n.
Proof. unfold range. rewrite !Nat.sub_0_r, seq_S. unfold sum_over. rewrite map_app. cbn [map Nat.add]. rewrite sumR_app. cbn. ring. Qed.

Lemma perturbed_step k f n x y : perturbed k f n x -> near (rho ^ k) (f n) y -> perturbed k f (S n) (fl (x + y)).
Proof.
  intros (t & W & ->) (v & V & ->). destruct (fl_near (sum_over (range 0 n) (fun j => f j * t j) + f n * v)) as (s & Ws & ->).
  exists (fun j => (if Nat.eqb j n then v else t j) * s). split.
  - intros j Hj. replace (k + S n)%nat with (k + n + 1)%nat by lia. rewrite pow_add, pow_1. apply within_mul; [apply rho_pow | apply rho_1 | | exact Ws].
    destruct (Nat.eqb_spec j n); [apply (within_more (rho ^ k)); [apply rho_pow | apply pow_le_more; lia | exact V] | apply W; lia].
  - rewrite sum_range_S, Nat.eqb_refl, Rmult_plus_distr_r. f_equal; [|ring]. rewrite Rmult_comm, <- sum_over_scal. apply sum_over_ext. intros j Hj.
    apply range_in in Hj. destruct (Nat.eqb_spec j n); [lia|ring].
Qed.

Lemma perturbed_abs k f n x : perturbed k f n x -> Rabs (x - sum_over (range 0 n) f) <= (rho ^ (k + n) - 1) * sum_over (range 0 n) (fun j => Rabs (f j)).
Proof.
  intros (t & W & ->). set (r := rho ^ (k + n)) in *. assert (R1 : 1 <= r) by apply rho_pow.
  assert (Hl : forall j, In j (range 0 n) -> (j < n)%nat) by (intros j Hj; apply range_in in Hj; lia). revert Hl. generalize (range 0 n). intros l Hl.
  induction l as [|j l IH]; [unfold sum_over; cbn; rewrite Rminus_0_r, Rabs_R0; lra|].
  rewrite !sum_over_cons. replace (f j * t j + sum_over l (fun j => f j * t j) - (f j + sum_over l f)) with (f j * (t j - 1) + (sum_over l (fun j => f j * t j) - sum_over l f)) by ring.
  eapply Rle_trans; [apply Rabs_triang|]. rewrite Rmult_plus_distr_l. apply Rplus_le_compat; [|apply IH; intros; apply Hl; now right].
  rewrite Rabs_mult, Rmult_comm. apply Rmult_le_compat_r; [apply Rabs_pos|]. apply within_abs; [exact R1 | apply W, Hl; now left].
Qed.
End Relative.

(** ** The prediction kernel *)
Section Kernel.
Variables (u : R) (fl : R -> R).
Hypothesis small : 0 <= u < 1.
Hypothesis std : standard u fl.
Local Notation greens := (f_greens_func_cartesian fl).
Local Notation place := cart_position.

Lemma f_greens_at ps qs i j : (i < length ps)%nat -> (j < length qs)%nat ->
  (place (nth i ps p0) <> place (nth j qs p0) -> exists v, greens_at greens (flat ps) (flat qs) i j = Ok v /\ near (rho u ^ 5) (/ eucl (place (nth i ps p0)) (place (nth j qs p0))) v) /\
  (place (nth i ps p0) = place (nth j qs p0) -> greens_at greens (flat ps) (flat qs) i j = Raise ZeroDivisionError).
Proof.
  intros Hi Hj. assert (E : greens_at greens (flat ps) (flat qs) i j = greens (fst3 (nth i ps p0)) (snd3 (nth i ps p0)) (thd3 (nth i ps p0)) (fst3 (nth j qs p0)) (snd3 (nth j qs p0)) (thd3 (nth j qs p0))).
  { unfold greens_at, flat. getall. nthall. reflexivity. }
  rewrite E. split; intros H; [exact (f_greens_near u fl small std _ _ H) | exact (f_greens_same u fl small std _ _ H)].
Qed.

Definition term (coefs : list R) (qs : list point) (p : point) (j : nat) : R := nth j coefs 0 * / eucl (place p) (place (nth j qs p0)).

Lemma f_predict_ok ps qs coefs : apart place ps qs -> length coefs = length qs ->
  exists out, f_predict_kernel fl greens (flat ps) (flat qs) coefs (repeat 0 (length ps)) = Ok out /\ length out = length ps /\
    forall i, (i < length ps)%nat -> perturbed u 6 (term coefs qs (nth i ps p0)) (length qs) (nth i out 0).
Proof.
  intros Ha Hl. unfold f_predict_kernel. rewrite !size_flat.
  set (I := fun i0 j0 (out : list R) => length out = length ps /\
    (forall i, (i < i0)%nat -> perturbed u 6 (term coefs qs (nth i ps p0)) (length qs) (nth i out 0)) /\
    ((i0 < length ps)%nat -> perturbed u 6 (term coefs qs (nth i0 ps p0)) j0 (nth i0 out 0)) /\
    (forall i, (i0 < i)%nat -> nth i out 0 = 0)).
  assert (Z : forall f, perturbed u 6 f 0 0) by (intros f; exists (fun _ => 1); split; [intros; lia | reflexivity]).
  match goal with |- exists out, for_ (range 0 (length ps)) ?body ?s = _ /\ _ =>
    destruct (for_range_inv 0 (length ps) body (fun i out => I i 0%nat out) s) as (out & E & HI) end.
  - lia.
  - split; [apply repeat_length|]. split; [intros; lia|]. split; [intros _; rewrite nth_repeat; apply Z | intros; apply nth_repeat].
  - intros i0 out Hi0 HI.
    match goal with |- exists s', for_ (range 0 (length qs)) ?body out = _ /\ _ =>
      destruct (for_range_inv 0 (length qs) body (fun j out => I i0 j out) out ltac:(lia) HI) as (out' & E & HI') end.
    + intros j0 o Hj0 (L' & A' & B' & C').
      destruct (proj1 (f_greens_at ps qs i0 j0 ltac:(lia) ltac:(lia))) as (v & Ev & Nv); [apply Ha; apply nth_In; lia|].
      rewrite (aget_ok coefs j0 0) by lia. cbn [bind]. rewrite Ev. cbn [bind]. rewrite (aget_ok _ i0 0) by lia. cbn [bind]. rewrite aset_ok by lia.
      eexists; split; [reflexivity|]. split; [now rewrite length_upd|]. split; [intros; rewrite nth_upd_neq by lia; auto|]. split; [|intros; rewrite nth_upd_neq by lia; auto].
      intros _. rewrite nth_upd_eq by lia. rewrite Nat.add_1_r. apply perturbed_step; try assumption; [apply B'; lia|].
      unfold term. apply (near_fl u fl small std 5). apply (near_mul u small 0 5); [apply (near_refl u small 0) | exact Nv].
    + exists out'. split; [exact E|]. destruct HI' as (L & A & B & C). split; [exact L|]. split; [|split].
      * intros i Hi. destruct (Nat.eq_dec i i0) as [->|N]; [apply B; lia | apply A; lia].
      * intros _. rewrite C by lia. apply Z.
      * intros i Hi. apply C. lia.
  - exists out. destruct HI as (L & A & _ & _). split; [exact E|]. split; [exact L | exact A].
Qed.

Lemma f_predict_raises ps qs coefs : ~ apart place ps qs -> length coefs = length qs ->
  f_predict_kernel fl greens (flat ps) (flat qs) coefs (repeat 0 (length ps)) = Raise ZeroDivisionError.
Proof.
  intros Ha Hl.
  assert (Hc : exists i j, (i < length ps)%nat /\ (j < length qs)%nat /\ place (nth i ps p0) = place (nth j qs p0)).
  { destruct (existsb (fun p => existsb (fun q => Reqb (eucl (place p) (place q)) 0) qs) ps) eqn:Eb.
    - apply existsb_exists in Eb. destruct Eb as (p & Hp & Eb). apply existsb_exists in Eb. destruct Eb as (q & Hq & Eb).
      apply Reqb_true in Eb. apply eucl_zero in Eb. apply (In_nth _ _ p0) in Hp, Hq. destruct Hp as (i & Hi & <-), Hq as (j & Hj & <-). now exists i, j.
    - exfalso. apply Ha. intros p q Hp Hq Epq.
      assert (T : existsb (fun p => existsb (fun q => Reqb (eucl (place p) (place q)) 0) qs) ps = true).
      { apply existsb_exists. exists p. split; [exact Hp|]. apply existsb_exists. exists q. split; [exact Hq|]. apply Reqb_true. now apply eucl_zero. }
      congruence. }
  destruct Hc as (i & j & Hi & Hj & E0).
  unfold f_predict_kernel. rewrite !size_flat.
  assert (Hin : forall i s j, (i < length ps)%nat -> length s = length ps -> (j < length qs)%nat ->
    (do c <- aget coefs j; do v <- greens_at greens (flat ps) (flat qs) i j; do o <- aget s i; aset s i (fl (o + fl (c * v)))) = Raise ZeroDivisionError
    \/ exists s', (do c <- aget coefs j; do v <- greens_at greens (flat ps) (flat qs) i j; do o <- aget s i; aset s i (fl (o + fl (c * v)))) = Ok s' /\ length s' = length ps).
  { intros i1 s j1 Hi1 Hs Hj1. rewrite (aget_ok coefs j1 0) by lia. cbn [bind]. destruct (f_greens_at ps qs i1 j1 Hi1 Hj1) as [Y N].
    destruct (Req_dec (eucl (place (nth i1 ps p0)) (place (nth j1 qs p0))) 0) as [D|D]; [apply eucl_zero in D; rewrite (N D); now left|].
    destruct Y as (v & Ev & _); [intros D'; apply D; now apply eucl_zero|]. right. rewrite Ev. cbn [bind]. rewrite (aget_ok s i1 0) by lia. cbn [bind]. rewrite aset_ok by lia.
    eexists; split; [reflexivity|]. now rewrite length_upd. }
  assert (Hrow : forall i1 l s, (i1 < length ps)%nat -> (forall j, In j l -> (j < length qs)%nat) -> length s = length ps ->
    for_ l (fun j result => do c <- aget coefs j; do v <- greens_at greens (flat ps) (flat qs) i1 j; do o <- aget result i1; aset result i1 (fl (o + fl (c * v)))) s = Raise ZeroDivisionError \/
    exists s', for_ l (fun j result => do c <- aget coefs j; do v <- greens_at greens (flat ps) (flat qs) i1 j; do o <- aget result i1; aset result i1 (fl (o + fl (c * v)))) s = Ok s' /\ length s' = length ps).
  { intros i1 l. induction l as [|j1 l IH]; intros s Hi1 Hls Hs; [right; exists s; split; [reflexivity | exact Hs]|]. cbn [for_].
    destruct (Hin i1 s j1 Hi1 Hs (Hls _ (or_introl eq_refl))) as [F|(t & F & Ht)]; rewrite F; [now left|]. cbn [bind]. apply IH; [exact Hi1 | intros; apply Hls; now right | exact Ht]. }
  apply (for_first_error _ _ (fun s => length s = length ps)).
  - intros i1 s Hi1 Hs. apply range_in in Hi1. apply Hrow; [lia | intros j1 Hj1; apply range_in in Hj1; lia | exact Hs].
  - apply repeat_length.
  - exists i. split; [apply range_in; lia|]. intros s Hs.
    apply (for_first_error _ _ (fun s => length s = length ps)); [|exact Hs|].
    + intros j1 s1 Hj1 Hs1. apply range_in in Hj1. apply Hin; lia || assumption.
    + exists j. split; [apply range_in; lia|]. intros s1 Hs1. rewrite (aget_ok coefs j 0) by lia. cbn [bind]. rewrite (proj2 (f_greens_at ps qs i j Hi Hj) E0). reflexivity.
Qed.

Lemma term_sum coefs qs p : length coefs = length qs -> sum_over (range 0 (length qs)) (term coefs qs p) = inverse_distance place p (combine qs coefs).
Proof.
  intros Hl. unfold inverse_distance. transitivity (sum_over (range 0 (@length source (combine qs coefs))) (fun j => (fun s : point * R => snd s / eucl (place p) (place (fst s))) (@nth source j (combine qs coefs) s0))).
  - rewrite length_sources by assumption. apply sum_over_ext. intros j Hj. rewrite nth_sources by assumption. reflexivity.
  - apply (sum_over_range_nth (combine qs coefs) s0 (fun s : point * R => snd s / eucl (place p) (place (fst s)))).
Qed.

Lemma term_abs coefs qs p j : eucl (place p) (place (nth j qs p0)) <> 0 -> Rabs (term coefs qs p j) = term (map Rabs coefs) qs p j.
Proof.
  intros N. unfold term. rewrite Rabs_mult, Rabs_inv. f_equal; [|f_equal; apply Rabs_pos_eq, eucl_nonneg].
  rewrite <- Rabs_R0 at 2. symmetry. apply map_nth.
Qed.
End Kernel.

(** ** Bouguer correction *)
Lemma f_bouguer_near u fl h dc dw : 0 <= u < 1 -> standard u fl ->
  near (rho u ^ 9) (10 ^ 5 * 2 * PI * GRAVITATIONAL_CONST * (if Rltb h 0 then dc - dw else dc) * h) (f_bouguer fl h dc dw).
Proof.
  intros S St. unfold f_bouguer. apply (near_fl u fl S St 8).
  assert (D : near (rho u ^ 1) (if Rltb h 0 then dc - dw else dc) (if Rltb h 0 then -1 * fl (dw - dc) else dc)).
  { destruct (Rltb h 0); [|apply near_refl, S]. destruct (near_fl1 u fl S St (dw - dc)) as (t & W & ->). exists t. split; [exact W | ring]. }
  apply (near_mul u S 8 0); [|apply near_refl, S]. apply (near_fl u fl S St 7). apply (near_mul u S 6 1); [|exact D]. 
  apply (near_fl u fl S St 5), (near_mul u S 4 1); [|apply near_fl1; assumption]. apply (near_more u S 3); [lia|]. apply (near_fl u fl S St 2), (near_mul u S 1 1); apply near_fl1; assumption.
Qed.

(** ** The distance in spherical coordinates *)
Lemma sin_abs_le x : Rabs (sin x) <= Rabs x.
Proof.
  assert (K : forall y, 0 <= y -> Rabs (sin y) <= y).
  { intros y Hy. destruct (Rle_lt_dec y 1) as [L|L]; [|apply Rle_trans with 1; [|lra]; apply Rabs_le; assert (B := SIN_bound y); lra].
    destruct (Req_dec y 0) as [->|N]; [rewrite sin_0, Rabs_R0; lra|]. assert (P := PI2_1).
    rewrite Rabs_pos_eq; [left; apply sin_lt_x; lra|]. left. apply sin_gt_0; assert (Q := PI_RGT_0); lra. }
  unfold Rabs at 2. destruct (Rcase_abs x); [|apply K; lra]. rewrite <- Rabs_Ropp, <- sin_neg. apply K. lra.
Qed.

Lemma cos_lipschitz a b : Rabs (cos a - cos b) <= Rabs (a - b).
Proof.
  rewrite form2. rewrite !Rabs_mult. replace (Rabs (-2)) with 2 by (rewrite Rabs_left; lra). assert (S1 := sin_abs_le ((a - b) / 2)). assert (S2 := SIN_bound ((a + b) / 2)). assert (S3 : Rabs (sin ((a + b) / 2)) <= 1) by (apply Rabs_le; lra).
  assert (P := Rabs_pos (sin ((a - b) / 2))). assert (H : Rabs ((a - b) / 2) = Rabs (a - b) / 2) by (unfold Rdiv; rewrite Rabs_mult, (Rabs_pos_eq (/ 2)) by lra; reflexivity).
  assert (Q := Rabs_pos (a - b)). rewrite H in S1. assert (P3 := Rabs_pos (sin ((a + b) / 2))). nra.
Qed.

Lemma sin_lipschitz a b : Rabs (sin a - sin b) <= Rabs (a - b).
Proof.
  rewrite <- !cos_shift. eapply Rle_trans; [apply cos_lipschitz|]. right. rewrite <- Rabs_Ropp. f_equal. ring.
Qed.

Lemma cospsi_bound a b c : -1 <= sin a * sin b + cos a * cos b * cos c <= 1.
Proof.
  assert (A := sin2_cos2 a). assert (B := sin2_cos2 b). assert (C := COS_bound c). unfold Rsqr in *. revert A B C. generalize (sin a) (sin b) (cos a) (cos b) (cos c). intros s t x y k A B C.
  assert (N1 : -1 <= s * t + x * y <= 1) by (assert (Q1 := Rle_0_sqr (s - t)); assert (Q2 := Rle_0_sqr (s + t)); assert (Q3 := Rle_0_sqr (x - y)); assert (Q4 := Rle_0_sqr (x + y)); unfold Rsqr in *; lra).
  assert (N2 : -1 <= s * t - x * y <= 1) by (assert (Q1 := Rle_0_sqr (s - t)); assert (Q2 := Rle_0_sqr (s + t)); assert (Q3 := Rle_0_sqr (x - y)); assert (Q4 := Rle_0_sqr (x + y)); unfold Rsqr in *; lra).
  replace (s * t + x * y * k) with (((1 + k) * (s * t + x * y) + (1 - k) * (s * t - x * y)) / 2) by field. split; nra.
Qed.

Section Spherical.
Variables (u : R) (fl : R -> R).
Hypothesis small : 0 <= u <= / 10 ^ 4.
Hypothesis std : standard u fl.

Lemma tiny_u : 0 <= u < 1 /\ u <= / 10000 /\ u * u <= / 10000 * u.
Proof. assert (/ 10 ^ 4 = / 10000) by (f_equal; ring). split; [|split]; nra. Qed.

Lemma ae_fl a b X x x' : Rabs (x' - x) <= a * u -> Rabs x <= X -> a <= 10000 -> a + X + a / 10000 <= b -> Rabs (fl x' - x) <= b * u.
Proof.
  intros H HX Ha Hb. destruct tiny_u as (U & U1 & U2). assert (S := std x'). replace (fl x' - x) with ((fl x' - x') + (x' - x)) by ring.
  eapply Rle_trans; [apply Rabs_triang|]. assert (Rabs x' <= X + a * u). { replace x' with (x + (x' - x)) by ring. eapply Rle_trans; [apply Rabs_triang|]. lra. }
  assert (0 <= a * u) by (eapply Rle_trans; [apply Rabs_pos | exact H]). assert (P := Rabs_pos x').
  assert (u * Rabs x' <= u * (X + a * u)) by (apply Rmult_le_compat_l; lra).
  assert (a * u * u <= a * u * / 10000) by (apply Rmult_le_compat_l; lra).
  assert ((a + X + a / 10000) * u <= b * u) by (apply Rmult_le_compat_r; lra). unfold Rdiv in *. nra.
Qed.

Lemma ae_mul a b c X Y x x' y y' : Rabs (x' - x) <= a * u -> Rabs (y' - y) <= b * u -> Rabs x <= X -> Rabs y <= Y -> a * Y + X * b + a * b / 10000 <= c ->
  Rabs (x' * y' - x * y) <= c * u.
Proof.
  intros Hx Hy BX BY Hc. destruct tiny_u as (U & U1 & U2). replace (x' * y' - x * y) with ((x' - x) * y + x * (y' - y) + (x' - x) * (y' - y)) by ring.
  assert (A0 := Rabs_pos (x' - x)). assert (B0 := Rabs_pos (y' - y)). assert (X0 := Rabs_pos x). assert (Y0 := Rabs_pos y).
  eapply Rle_trans; [apply Rabs_triang|]. eapply Rle_trans; [apply Rplus_le_compat_r, Rabs_triang|]. rewrite !Rabs_mult.
  assert (Rabs (x' - x) * Rabs y <= a * u * Y) by (apply Rmult_le_compat; lra). assert (Rabs x * Rabs (y' - y) <= X * (b * u)) by (apply Rmult_le_compat; lra).
  assert (Rabs (x' - x) * Rabs (y' - y) <= a * u * (b * u)) by (apply Rmult_le_compat; lra).
  assert (a * u * (b * u) <= a * b * / 10000 * u).
  { destruct (Req_dec u 0) as [->|Z]; [lra|]. assert (0 <= a) by nra. assert (0 <= b) by nra. assert (0 <= a * b) by nra. replace (a * u * (b * u)) with (a * b * (u * u)) by ring. replace (a * b * / 10000 * u) with (a * b * (/ 10000 * u)) by ring. apply Rmult_le_compat_l; lra. }
  assert ((a * Y + X * b + a * b / 10000) * u <= c * u) by (apply Rmult_le_compat_r; lra). unfold Rdiv in *. lra.
Qed.

Lemma ae_add a b c x x' y y' : Rabs (x' - x) <= a * u -> Rabs (y' - y) <= b * u -> a + b <= c -> Rabs (x' + y' - (x + y)) <= c * u.
Proof.
  intros Hx Hy Hc. destruct tiny_u as (U & _ & _). replace (x' + y' - (x + y)) with ((x' - x) + (y' - y)) by ring. eapply Rle_trans; [apply Rabs_triang|].
  assert ((a + b) * u <= c * u) by (apply Rmult_le_compat_r; lra). lra.
Qed.

Lemma excess k : (k <= 9)%nat -> rho u ^ k - 1 <= 4 * INR k * u.
Proof.
  intros H. destruct tiny_u as (U & U1 & _). apply rho_excess; [exact U|]. apply le_INR in H. replace (INR 9) with 9 in H by (cbn; lra). assert (P := pos_INR k). nra.
Qed.

Lemma f_radians_err d X : Rabs (radians d) <= X -> Rabs (f_radians fl d - radians d) <= 12 * X * u.
Proof.
  intros HX. destruct tiny_u as (U & _ & _). assert (N : near (rho u ^ 3) (radians d) (f_radians fl d)).
  { unfold f_radians, radians. apply (near_fl u fl U std 2). replace (d * PI / 180) with (d * (PI / 180)) by (field). apply (near_mul u U 0 2); [apply near_refl, U|].
    apply (near_fl u fl U std 1). unfold Rdiv. apply (near_mul u U 1 0); [apply near_fl1; assumption | apply near_refl, U]. }
  apply (near_abs u U) in N. eapply Rle_trans; [exact N|]. assert (E := excess 3 ltac:(lia)). replace (INR 3) with 3 in E by (cbn; lra). assert (P := Rabs_pos (radians d)). assert (0 <= rho u ^ 3 - 1) by (assert (Q := rho_pow u U 3); lra).
  apply Rle_trans with ((4 * 3 * u) * X); [apply Rmult_le_compat; lra | lra].
Qed.

Lemma radians_bound d m : Rabs d <= m -> Rabs (radians d) <= m / 45.
Proof.
  intros H. unfold radians, Rdiv. assert (P := PI_RGT_0). assert (Q := PI_4). rewrite !Rabs_mult, (Rabs_pos_eq PI), (Rabs_pos_eq (/ 180)) by lra. assert (A := Rabs_pos d). nra.
Qed.

(** The squared distance before the square root, exact and computed. *)
Lemma f_cospsi_err lon lat lon' lat' : Rabs lon <= 360 -> Rabs lat <= 90 -> Rabs lon' <= 360 -> Rabs lat' <= 90 ->
  Rabs (fl (fl (fl (sin (f_radians fl lat')) * fl (sin (f_radians fl lat))) + fl (fl (fl (cos (f_radians fl lat')) * fl (cos (f_radians fl lat))) * fl (cos (fl (f_radians fl lon' - f_radians fl lon)))))
        - (sin (radians lat') * sin (radians lat) + cos (radians lat') * cos (radians lat) * cos (radians lon' - radians lon))) <= 327 * u.
Proof.
  intros H1 H2 H3 H4. apply radians_bound in H1, H2, H3, H4. assert (R1 := f_radians_err lon 8 ltac:(lra)). assert (R2 := f_radians_err lat 2 ltac:(lra)). assert (R3 := f_radians_err lon' 8 ltac:(lra)). assert (R4 := f_radians_err lat' 2 ltac:(lra)).
  assert (C1 : forall x, Rabs (cos x) <= 1) by (intros x; apply Rabs_le; assert (B := COS_bound x); lra). assert (S1 : forall x, Rabs (sin x) <= 1) by (intros x; apply Rabs_le; assert (B := SIN_bound x); lra).
  assert (T : forall f x y, (forall x, Rabs (f x) <= 1) -> (forall a b, Rabs (f a - f b) <= Rabs (a - b)) -> Rabs (x - y) <= 24 * u -> Rabs (fl (f x) - f y) <= 26 * u).
  { intros f x y Bf Lf Hxy. apply (ae_fl 24 26 1); [eapply Rle_trans; [apply Lf | exact Hxy] | apply Bf | lra | lra]. }
  assert (Sp : Rabs (fl (fl (sin (f_radians fl lat')) * fl (sin (f_radians fl lat))) - sin (radians lat') * sin (radians lat)) <= 55 * u).
  { apply (ae_fl 53 55 1); [|rewrite Rabs_mult; assert (A := S1 (radians lat')); assert (B := S1 (radians lat)); assert (A0 := Rabs_pos (sin (radians lat'))); assert (B0 := Rabs_pos (sin (radians lat))); nra | lra | lra].
    apply (ae_mul 26 26 53 1 1); [apply T; [exact S1 | exact sin_lipschitz | lra] | apply T; [exact S1 | exact sin_lipschitz | lra] | apply S1 | apply S1 | lra]. }
  assert (Cc : Rabs (cos (radians lat') * cos (radians lat)) <= 1) by (rewrite Rabs_mult; assert (A := C1 (radians lat')); assert (B := C1 (radians lat)); assert (A0 := Rabs_pos (cos (radians lat'))); assert (B0 := Rabs_pos (cos (radians lat))); nra).
  assert (Cp : Rabs (fl (fl (cos (f_radians fl lat')) * fl (cos (f_radians fl lat))) - cos (radians lat') * cos (radians lat)) <= 55 * u).
  { apply (ae_fl 53 55 1); [|exact Cc | lra | lra].
    apply (ae_mul 26 26 53 1 1); [apply T; [exact C1 | exact cos_lipschitz | lra] | apply T; [exact C1 | exact cos_lipschitz | lra] | apply C1 | apply C1 | lra]. }
  assert (Dl : Rabs (fl (f_radians fl lon' - f_radians fl lon) - (radians lon' - radians lon)) <= 209 * u).
  { apply (ae_fl 192 209 16); [|eapply Rle_trans; [apply Rabs_triang|]; rewrite Rabs_Ropp; lra | lra | lra].
    replace (f_radians fl lon' - f_radians fl lon - (radians lon' - radians lon)) with ((f_radians fl lon' - radians lon') + - (f_radians fl lon - radians lon)) by ring.
    eapply Rle_trans; [apply Rabs_triang|]. rewrite Rabs_Ropp. lra. }
  assert (Cl : Rabs (fl (cos (fl (f_radians fl lon' - f_radians fl lon))) - cos (radians lon' - radians lon)) <= 211 * u).
  { apply (ae_fl 209 211 1); [eapply Rle_trans; [apply cos_lipschitz | exact Dl] | apply C1 | lra | lra]. }
  assert (Cq : Rabs (fl (fl (fl (cos (f_radians fl lat')) * fl (cos (f_radians fl lat))) * fl (cos (fl (f_radians fl lon' - f_radians fl lon)))) - cos (radians lat') * cos (radians lat) * cos (radians lon' - radians lon)) <= 270 * u).
  { apply (ae_fl 268 270 1); [|rewrite Rabs_mult; assert (B := C1 (radians lon' - radians lon)); assert (A0 := Rabs_pos (cos (radians lat') * cos (radians lat))); assert (B0 := Rabs_pos (cos (radians lon' - radians lon))); nra | lra | lra].
    apply (ae_mul 55 211 268 1 1); [exact Cp | exact Cl | exact Cc | apply C1 | lra]. }
  apply (ae_fl 325 327 1); [apply (ae_add 55 270 325); [exact Sp | exact Cq | lra] | | lra | lra].
  apply Rabs_le, cospsi_bound.
Qed.

Definition f_squared (p q : point) : R :=
  let '(lon, lat, r) := p in
  let '(lon', lat', r') := q in
  fl (f_square fl (fl (r - r')) + fl (fl (fl (2 * r) * r') * fl (1 -
    fl (fl (fl (sin (f_radians fl lat')) * fl (sin (f_radians fl lat))) + fl (fl (fl (cos (f_radians fl lat')) * fl (cos (f_radians fl lat))) * fl (cos (fl (f_radians fl lon' - f_radians fl lon)))))))).

Lemma f_spherical_squared p q : f_distance_spherical fl p q = if Rltb (f_squared p q) 0 then NaN else Fin (fl (sqrt (f_squared p q))).
Proof. destruct p as [[lon lat] r], q as [[lon' lat'] r']. reflexivity. Qed.

Lemma f_squared_err p q : geographic p -> geographic q ->
  Rabs (f_squared p q - eucl (sph_position p) (sph_position q) ^ 2) <= 360 * u * (thd3 p ^ 2 + thd3 q ^ 2).
Proof.
  destruct p as [[lon lat] r], q as [[lon' lat'] r']. intros (H1 & H2 & H3) (H4 & H5 & H6). destruct tiny_u as (U & U1 & U2).
  rewrite <- distance_spherical_eucl. unfold distance_spherical, distance_spherical_core. assert (P := f_cospsi_err lon lat lon' lat' H1 H2 H4 H5). assert (B := cospsi_bound (radians lat') (radians lat) (radians lon' - radians lon)).
  unfold f_squared, thd3, fst3, snd3. cbn [fst snd]. revert P B.
  set (c' := fl (fl (fl (sin (f_radians fl lat')) * _) + _)). set (c := sin (radians lat') * sin (radians lat) + cos (radians lat') * cos (radians lat) * cos (radians lon' - radians lon)). clearbody c c'. intros P B.
  assert (Rr : 0 <= 2 * r * r') by nra. assert (Rs : 0 <= (r - r') ^ 2) by apply pow2_ge_0.
  rewrite pow2_sqrt by nra.
  assert (W : Rabs (fl (1 - c') - (1 - c)) <= 330 * u).
  { apply (ae_fl 327 330 2); [|apply Rabs_le; lra | lra | lra]. replace (1 - c' - (1 - c)) with (- (c' - c)) by ring. rewrite Rabs_Ropp. exact P. }
  assert (G : Rabs (fl (fl (2 * r) * r') - 2 * r * r') <= 8 * u * (2 * r * r')).
  { assert (N : near (rho u ^ 2) (2 * r * r') (fl (fl (2 * r) * r'))). { apply (near_fl u fl U std 1). apply (near_mul u U 1 0); [apply near_fl1; assumption | apply near_refl, U]. }
    apply (near_abs u U) in N. eapply Rle_trans; [exact N|]. rewrite (Rabs_pos_eq (2 * r * r')) by lra. apply Rmult_le_compat_r; [lra|]. assert (E := excess 2 ltac:(lia)). replace (INR 2) with 2 in E by (cbn; lra). lra. }
  assert (Q : Rabs (f_square fl (fl (r - r')) - (r - r') ^ 2) <= 12 * u * (r - r') ^ 2).
  { assert (N := f_square_near u fl U std (r - r')). apply (near_abs u U) in N. replace ((r - r') * (r - r')) with ((r - r') ^ 2) in N by ring. eapply Rle_trans; [exact N|]. rewrite (Rabs_pos_eq ((r - r') ^ 2)) by lra. apply Rmult_le_compat_r; [lra|]. assert (E := excess 3 ltac:(lia)). replace (INR 3) with 3 in E by (cbn; lra). lra. }
  set (g := 2 * r * r') in *. set (g' := fl (fl (2 * r) * r')) in *. set (w := fl (1 - c')) in *. set (s' := f_square fl (fl (r - r'))) in *. set (s := (r - r') ^ 2) in *.
  assert (SG : s + g = r ^ 2 + r' ^ 2) by (unfold s, g; ring). rewrite <- SG. clearbody g g' w s' s. clear SG H1 H2 H3 H4 H5 H6 P c'.
  assert (V0 : Rabs (1 - c) <= 2) by (apply Rabs_le; lra).
  assert (GW : Rabs (g' * w - g * (1 - c)) <= 347 * u * g).
  { replace (g' * w - g * (1 - c)) with ((g' - g) * (1 - c) + g * (w - (1 - c)) + (g' - g) * (w - (1 - c))) by ring.
    eapply Rle_trans; [apply Rabs_triang|]. eapply Rle_trans; [apply Rplus_le_compat_r, Rabs_triang|]. rewrite !Rabs_mult, (Rabs_pos_eq g) by lra.
    assert (A0 := Rabs_pos (g' - g)). assert (A1 := Rabs_pos (w - (1 - c))). assert (A2 := Rabs_pos (1 - c)).
    assert (Rabs (g' - g) * Rabs (1 - c) <= 8 * u * g * 2) by (apply Rmult_le_compat; lra). assert (g * Rabs (w - (1 - c)) <= g * (330 * u)) by (apply Rmult_le_compat_l; lra).
    assert (Rabs (g' - g) * Rabs (w - (1 - c)) <= 8 * u * g * (330 * u)) by (apply Rmult_le_compat; lra). assert (0 <= u * g) by nra.
    assert (u * g * u <= u * g * / 10000) by (apply Rmult_le_compat_l; lra). nra. }
  assert (ug : 0 <= u * g) by nra. assert (us : 0 <= u * s) by nra. assert (ugu : u * g * u <= u * g * / 10000) by (apply Rmult_le_compat_l; lra). assert (usu : u * s * u <= u * s * / 10000) by (apply Rmult_le_compat_l; lra).
  assert (X0 : Rabs (g * (1 - c)) <= 2 * g) by (rewrite Rabs_mult, (Rabs_pos_eq g) by lra; nra).
  assert (X1 : Rabs (g' * w) <= 2 * g + 347 * u * g). { replace (g' * w) with (g * (1 - c) + (g' * w - g * (1 - c))) by ring. eapply Rle_trans; [apply Rabs_triang|]. lra. }
  assert (F1 := std (g' * w)). assert (X2 : u * Rabs (g' * w) <= u * (2 * g + 347 * u * g)) by (apply Rmult_le_compat_l; lra).
  assert (Y : Rabs (s' + fl (g' * w) - (s + g * (1 - c))) <= 12 * (u * s) + 350 * (u * g)).
  { replace (s' + fl (g' * w) - (s + g * (1 - c))) with ((s' - s) + ((fl (g' * w) - g' * w) + (g' * w - g * (1 - c)))) by ring.
    eapply Rle_trans; [apply Rabs_triang|]. eapply Rle_trans; [apply Rplus_le_compat_l, Rabs_triang|]. nra. }
  assert (F2 := std (s' + fl (g' * w))).
  assert (Y1 : Rabs (s' + fl (g' * w)) <= s + 2 * g + 12 * (u * s) + 350 * (u * g)).
  { replace (s' + fl (g' * w)) with (s + g * (1 - c) + (s' + fl (g' * w) - (s + g * (1 - c)))) by ring. eapply Rle_trans; [apply Rabs_triang|]. assert (T := Rabs_triang s (g * (1 - c))). rewrite (Rabs_pos_eq s) in T by lra. lra. }
  assert (Y2 : u * Rabs (s' + fl (g' * w)) <= u * (s + 2 * g + 12 * (u * s) + 350 * (u * g))) by (apply Rmult_le_compat_l; lra).
  replace (fl (s' + fl (g' * w)) - (s + g * (1 - c))) with ((fl (s' + fl (g' * w)) - (s' + fl (g' * w))) + (s' + fl (g' * w) - (s + g * (1 - c)))) by ring.
  eapply Rle_trans; [apply Rabs_triang|]. nra.
Qed.

Lemma f_spherical_err p q : geographic p -> geographic q ->
  match f_distance_spherical fl p q with
  | NaN => eucl (sph_position p) (sph_position q) ^ 2 <= 400 * u * (thd3 p ^ 2 + thd3 q ^ 2)
  | Fin d => 0 <= d /\ Rabs (d ^ 2 - eucl (sph_position p) (sph_position q) ^ 2) <= 400 * u * (thd3 p ^ 2 + thd3 q ^ 2)
  end.
Proof.
  intros Hp Hq. assert (E := f_squared_err p q Hp Hq). destruct tiny_u as (U & U1 & U2). rewrite f_spherical_squared.
  assert (B : eucl (sph_position p) (sph_position q) ^ 2 <= 2 * (thd3 p ^ 2 + thd3 q ^ 2)).
  { rewrite <- distance_spherical_eucl. destruct p as [[lon lat] r], q as [[lon' lat'] r']. destruct Hp as (_ & _ & H1), Hq as (_ & _ & H2). unfold distance_spherical, distance_spherical_core, thd3. cbn [fst snd].
    assert (C := cospsi_bound (radians lat') (radians lat) (radians lon' - radians lon)). set (c := sin (radians lat') * _ + _) in *. clearbody c.
    assert (0 <= 2 * r * r') by nra. assert (0 <= (r - r') ^ 2) by apply pow2_ge_0. rewrite pow2_sqrt by nra. nra. }
  set (D := eucl _ _ ^ 2) in *. set (T := thd3 p ^ 2 + thd3 q ^ 2) in *. assert (T0 : 0 <= T) by (unfold T; assert (A := pow2_ge_0 (thd3 p)); assert (A' := pow2_ge_0 (thd3 q)); lra).
  assert (D0 : 0 <= D) by (unfold D; apply pow2_ge_0). clearbody D T. set (s := f_squared p q) in *. clearbody s. assert (uT : 0 <= u * T) by nra. assert (uuT : u * T * u <= u * T * / 10000) by (apply Rmult_le_compat_l; lra). apply abs_le_inv in E.
  destruct (Rltb_spec s 0) as [L|L]; [lra|].
  assert (N : near (rho u ^ 1) (sqrt s) (fl (sqrt s))) by (apply near_fl1; assumption).
  assert (N2 := near_mul u U 1 1 _ _ _ _ N N). rewrite sqrt_sqrt in N2 by lra. apply (near_abs u U) in N2. rewrite (Rabs_pos_eq s) in N2 by lra.
  assert (X := excess 2 ltac:(lia)). replace (INR 2) with 2 in X by (cbn; lra). replace (1 + 1)%nat with 2%nat in N2 by reflexivity.
  assert (N3 : Rabs (fl (sqrt s) * fl (sqrt s) - s) <= 8 * u * s) by (eapply Rle_trans; [exact N2|]; apply Rmult_le_compat_r; lra).
  split.
  - assert (S := std (sqrt s)). assert (P := sqrt_pos s). rewrite (Rabs_pos_eq (sqrt s)) in S by lra. apply abs_le_inv in S. nra.
  - assert (s <= 2.1 * T) by nra. assert (8 * u * s <= 8 * u * (2.1 * T)) by (apply Rmult_le_compat_l; lra). apply abs_le_inv in N3. apply Rabs_le. split; nra.
Qed.
End Spherical.

(** ** Two points of the sphere at distance zero *)
Lemma exponent_unique x e : powerRZ 2 e <= Rabs x < powerRZ 2 (e + 1) -> exponent x = e.
Proof.
  intros (L & H). unfold exponent. apply floor_unique. assert (P := power2_pos e). assert (Q := power2_pos (e + 1)). assert (K := ln2_pos).
  assert (LN : forall z, ln (powerRZ 2 z) = IZR z * ln 2).
  { intros z. rewrite powerRZ_Rpower by lra. unfold Rpower. apply ln_exp. }
  assert (A : IZR e * ln 2 <= ln (Rabs x)). { rewrite <- LN. destruct (Rle_lt_or_eq_dec _ _ L) as [L1|L1]; [left; apply ln_increasing; lra | right; congruence]. }
  assert (B : ln (Rabs x) < IZR (e + 1) * ln 2). { rewrite <- LN. apply ln_increasing; lra. }
  rewrite plus_IZR in B. split.
  - apply Rmult_le_reg_r with (ln 2); [exact K|]. unfold Rdiv. rewrite Rmult_assoc, Rinv_l by lra. lra.
  - apply Rmult_lt_reg_r with (ln 2); [exact K|]. unfold Rdiv. rewrite Rmult_assoc, Rinv_l by lra. lra.
Qed.

Lemma power2_IZR k : (0 <= k)%Z -> powerRZ 2 k = IZR (2 ^ k).
Proof. intros H. rewrite <- (Z2Nat.id k H), <- pow_powerRZ, pow_IZR. reflexivity. Qed.

Lemma binary53_float n e : (2 ^ 52 <= n < 2 ^ 53)%Z -> binary53 (IZR n * powerRZ 2 e) = IZR n * powerRZ 2 e.
Proof.
  intros H. assert (P := power2_pos e). assert (N0 : 0 < IZR n) by (apply (IZR_lt 0); lia).
  unfold binary53. destruct (Reqb_spec (IZR n * powerRZ 2 e) 0) as [Z|Z]; [nra|].
  assert (E : exponent (IZR n * powerRZ 2 e) = (52 + e)%Z).
  { apply exponent_unique. rewrite Rabs_pos_eq by nra. replace (52 + e + 1)%Z with (53 + e)%Z by lia. rewrite !powerRZ_2_add.
    assert (IZR (2 ^ 52) <= IZR n) by (apply IZR_le; lia). assert (IZR n < IZR (2 ^ 53)) by (apply IZR_lt; lia).
    replace (powerRZ 2 52) with (IZR (2 ^ 52)) by (symmetry; apply power2_IZR; lia).
    replace (powerRZ 2 53) with (IZR (2 ^ 53)) by (symmetry; apply power2_IZR; lia). split; nra. }
  unfold ulp. rewrite E. replace (52 + e - 52)%Z with e by lia. replace (IZR n * powerRZ 2 e / powerRZ 2 e) with (IZR n) by (field; lra).
  unfold nearest_even. rewrite (floor_unique (IZR n) n) by lra. rewrite Rminus_diag_eq by reflexivity. destruct (Rltb_spec 0 (/ 2)); [reflexivity | lra].
Qed.

Lemma binary53_1 : binary53 1 = 1.
Proof.
  assert (E : 1 = IZR (2 ^ 52) * powerRZ 2 (-52)).
  { rewrite <- power2_IZR by lia. rewrite <- powerRZ_2_add. reflexivity. }
  rewrite E at 1. rewrite binary53_float by lia. symmetry. exact E.
Qed.

Lemma binary53_below_1 y : 1 - / 2 ^ 54 < y <= 1 -> binary53 y = 1.
Proof.
  intros (L & H). destruct (Rle_lt_or_eq_dec _ _ H) as [H1| ->]; [|apply binary53_1].
  assert (T : 0 < / 2 ^ 54 < / 4) by (split; [apply Rinv_0_lt_compat, pow_lt; lra | apply Rinv_lt_contravar; [apply Rmult_lt_0_compat; [lra | apply pow_lt; lra] |]; replace (2 ^ 54) with (4 * 2 ^ 52) by ring; assert (1 < 2 ^ 52) by (apply Rlt_pow_R1; [lra | lia]); lra]).
  unfold binary53. destruct (Reqb_spec y 0) as [Z|Z]; [lra|].
  assert (E : exponent y = (-1)%Z). { apply exponent_unique. rewrite Rabs_pos_eq by lra. replace (-1 + 1)%Z with 0%Z by reflexivity. change (powerRZ 2 (-1)) with (/ (2 * 1)). change (powerRZ 2 0) with 1. clear - T L H1. lra. }
  unfold ulp. rewrite E. replace (-1 - 52)%Z with (-53)%Z by reflexivity. assert (U1 : IZR (2 ^ 53) * powerRZ 2 (-53) = 1) by (rewrite <- power2_IZR by lia; rewrite <- powerRZ_2_add; reflexivity).
  assert (P := power2_pos (-53)). assert (U2 : / 2 ^ 54 = powerRZ 2 (-53) / 2).
  { apply Rmult_eq_reg_l with (2 ^ 54); [|apply pow_nonzero; lra]. rewrite Rinv_r by (apply pow_nonzero; lra). rewrite <- U1. assert (W : 2 ^ 54 = 2 * IZR (2 ^ 53)) by (replace (IZR (2 ^ 53)) with (2 ^ 53) by (rewrite pow_IZR; reflexivity); ring). rewrite W. field. }
  set (q := powerRZ 2 (-53)) in *. assert (Y : y / q = IZR (2 ^ 53) - (1 - y) / q) by (rewrite <- U1; field; lra).
  assert (Y1 : 0 < (1 - y) / q < / 2). { split; [apply Rdiv_lt_0_compat; lra|]. apply Rmult_lt_reg_r with q; [exact P|]. unfold Rdiv. rewrite Rmult_assoc, Rinv_l by lra. lra. }
  rewrite Y. set (d := (1 - y) / q) in *. clearbody d. unfold nearest_even. rewrite (floor_unique (IZR (2 ^ 53) - d) (2 ^ 53 - 1)) by (rewrite minus_IZR; lra). rewrite minus_IZR.
  destruct (Rltb_spec (IZR (2 ^ 53) - d - (IZR (2 ^ 53) - 1)) (/ 2)) as [X|X]; [lra|]. destruct (Rltb_spec (/ 2) (IZR (2 ^ 53) - d - (IZR (2 ^ 53) - 1))) as [V|V]; [|lra].
  rewrite Z.sub_add. exact U1.
Qed.

Lemma cos_above x : 1 - x ^ 2 / 2 <= cos x.
Proof.
  replace x with (2 * (x / 2)) at 2 by field. rewrite cos_2a_sin. assert (S := sin_abs_le (x / 2)). assert (sin (x / 2) * sin (x / 2) <= (x / 2) * (x / 2)); [|nra].
  assert (Q := Rabs_pos (sin (x / 2))). assert (Rabs (sin (x / 2)) * Rabs (sin (x / 2)) <= Rabs (x / 2) * Rabs (x / 2)) by (apply Rmult_le_compat; lra).
  rewrite <- !Rabs_mult in H. rewrite !Rabs_pos_eq in H by apply Rle_0_sqr. exact H.
Qed.

Lemma near_points : f_distance_spherical binary53 (0, 0, 6371000) (/ 2 ^ 22, 0, 6371000) = Fin 0.
Proof.
  assert (u0 : 0 <= / 2 ^ 53 <= / 10 ^ 4) by (split; [left; apply Rinv_0_lt_compat, pow_lt; lra | apply Rinv_le_contravar; lra]).
  assert (B0 := binary53_0). assert (B1 := binary53_1). assert (R0 : f_radians binary53 0 = 0) by (unfold f_radians; rewrite Rmult_0_l; exact B0).
  unfold f_distance_spherical. rewrite !R0, cos_0, sin_0, B0, B1. unfold f_distance_spherical_core. rewrite Rminus_0_r.
  assert (Z : binary53 (cos (binary53 (f_radians binary53 (/ 2 ^ 22)))) = 1).
  { apply binary53_below_1. set (e := / 2 ^ 22). assert (e0 : 0 < e) by (apply Rinv_0_lt_compat, pow_lt; lra). split; [|assert (C := COS_bound (binary53 (f_radians binary53 e))); lra].
    assert (Rd := f_radians_err (/ 2 ^ 53) binary53 u0 binary53_standard e (e / 45)). assert (Rb := radians_bound e e). rewrite (Rabs_pos_eq e) in Rb by lra. specialize (Rb (Rle_refl e)). specialize (Rd Rb).
    set (t := f_radians binary53 e) in *. clearbody t. assert (S := binary53_standard t). set (v := binary53 t) in *. clearbody v. set (w := / 2 ^ 53) in *.
    assert (w1 : w <= / 10000) by (assert (/ 10 ^ 4 = / 10000) by (f_equal; ring); lra).
    assert (T1 : Rabs t <= 1.01 * (e / 45)). { replace t with (radians e + (t - radians e)) by ring. eapply Rle_trans; [apply Rabs_triang|]. assert (12 * (e / 45) * w <= 12 * (e / 45) * / 10000) by (apply Rmult_le_compat_l; lra). lra. }
    assert (V1 : Rabs v <= 1.02 * (e / 45)). { replace v with (t + (v - t)) by ring. eapply Rle_trans; [apply Rabs_triang|]. assert (T0 := Rabs_pos t). assert (w * Rabs t <= / 10000 * (1.01 * (e / 45))) by (apply Rmult_le_compat; lra). lra. }
    assert (V2 : v ^ 2 <= (1.02 * (e / 45)) ^ 2). { rewrite <- (pow2_abs v). apply pow_incr. split; [apply Rabs_pos | exact V1]. }
    assert (C := cos_above v). assert (E2 : / 2 ^ 54 = e ^ 2 / 2 ^ 10) by (unfold e; field; repeat split; apply pow_nonzero; lra).
    rewrite E2. replace (2 ^ 10) with 1024 by ring. assert (0 < e ^ 2) by (apply pow_lt; exact e0). nra. }
  rewrite Z. rewrite !Rmult_0_l, B0, !Rmult_1_r, !B1. rewrite Rplus_0_l, B1. rewrite !Rminus_diag_eq by reflexivity. unfold f_square. rewrite !B0, !Rmult_0_l, !Rmult_0_r, !B0. rewrite Rplus_0_l, B0. destruct (Rltb_spec 0 0); [lra|]. rewrite sqrt_0, B0. reflexivity.
Qed.

Lemma near_points_differ : sph_position (0, 0, 6371000) <> sph_position (/ 2 ^ 22, 0, 6371000).
Proof.
  intros E. apply (f_equal vy) in E. unfold sph_position in E. cbn [vy] in E. unfold radians in E. rewrite !Rmult_0_l in E. unfold Rdiv in E. rewrite !Rmult_0_l, sin_0, cos_0 in E.
  assert (e0 : 0 < / 2 ^ 22 <= 1) by (split; [apply Rinv_0_lt_compat, pow_lt; lra | rewrite <- Rinv_1; apply Rinv_le_contravar; [lra | apply pow_R1_Rle; lra]]). assert (P := PI_RGT_0).
  assert (0 < sin (/ 2 ^ 22 * PI * / 180)) by (apply sin_gt_0; nra). nra.
Qed.
