(** Integrals over the whole sphere of functions of the angle to a fixed direction, for claim C107. *)
From Coq Require Import Psatz.
From Coquelicot Require Import Coquelicot.
From Verif Require Import Base BaseFacts TesseroidLimitIntProofs.
Local Open Scope R_scope.

(** ** Bounded Lipschitz functions of two numbers *)
Definition nice (f : R -> R -> R) : Prop := exists K, 0 <= K /\ (forall y z, Rabs (f y z) <= K) /\
  forall y z y' z', Rabs (f y z - f y' z') <= K * (Rabs (y - y') + Rabs (z - z')).
Definition mild (g : R -> R) : Prop := exists K, 0 <= K /\ (forall y, Rabs (g y) <= K) /\ forall y y', Rabs (g y - g y') <= K * Rabs (y - y').

Lemma nice_y g : mild g -> nice (fun y _ => g y).
Proof. intros (K & K0 & B & L). exists K. split; [exact K0|]. split; [auto|]. intros. eapply Rle_trans; [apply L|]. apply Rmult_le_compat_l; [exact K0|]. pose proof (Rabs_pos (z - z')). lra. Qed.
Lemma nice_z g : mild g -> nice (fun _ z => g z).
Proof. intros (K & K0 & B & L). exists K. split; [exact K0|]. split; [auto|]. intros. eapply Rle_trans; [apply L|]. apply Rmult_le_compat_l; [exact K0|]. pose proof (Rabs_pos (y - y')). lra. Qed.
Lemma nice_const c : nice (fun _ _ => c).
Proof.
  exists (Rabs c). split; [apply Rabs_pos|]. split; [intros; lra|]. intros. rewrite Rminus_eq_0, Rabs_R0. apply Rmult_le_pos; [apply Rabs_pos|]. pose proof (Rabs_pos (y - y')). pose proof (Rabs_pos (z - z')). lra.
Qed.
Lemma nice_plus f g : nice f -> nice g -> nice (fun y z => f y z + g y z).
Proof.
  intros (K & K0 & B & L) (K' & K0' & B' & L'). exists (K + K'). split; [lra|]. split.
  - intros y z. eapply Rle_trans; [apply Rabs_triang|]. apply Rplus_le_compat; auto.
  - intros y z y' z'. replace (f y z + g y z - (f y' z' + g y' z')) with ((f y z - f y' z') + (g y z - g y' z')) by ring. eapply Rle_trans; [apply Rabs_triang|]. rewrite Rmult_plus_distr_r. apply Rplus_le_compat; auto.
Qed.
Lemma nice_mult f g : nice f -> nice g -> nice (fun y z => f y z * g y z).
Proof.
  intros (K & K0 & B & L) (K' & K0' & B' & L'). assert (P : 0 <= K * K') by now apply Rmult_le_pos. exists (2 * (K * K')). split; [lra|]. split.
  - intros y z. rewrite Rabs_mult. apply Rle_trans with (K * K'); [|lra]. apply Rmult_le_compat; auto using Rabs_pos.
  - intros y z y' z'. replace (f y z * g y z - f y' z' * g y' z') with (f y z * (g y z - g y' z') + (f y z - f y' z') * g y' z') by ring. eapply Rle_trans; [apply Rabs_triang|]. rewrite !Rabs_mult.
    replace (2 * (K * K') * (Rabs (y - y') + Rabs (z - z'))) with (K * (K' * (Rabs (y - y') + Rabs (z - z'))) + K * (Rabs (y - y') + Rabs (z - z')) * K') by ring.
    apply Rplus_le_compat; apply Rmult_le_compat; auto using Rabs_pos.
Qed.
Lemma nice_opp f : nice f -> nice (fun y z => - f y z).
Proof.
  intros H. destruct (nice_mult _ _ (nice_const (-1)) H) as (K & K0 & B & L). exists K. split; [exact K0|].
  split; intros; [replace (- f y z) with (-1 * f y z) by ring; apply B|replace (- f y z - - f y' z') with (-1 * f y z - -1 * f y' z') by ring; apply L].
Qed.
Lemma nice_ext f g : (forall y z, f y z = g y z) -> nice f -> nice g.
Proof. intros E (K & K0 & B & L). exists K. split; [exact K0|]. split; intros; rewrite <- !E; auto. Qed.
Lemma nice_comp h f (M : R) : nice f -> 0 <= M -> (forall y z, -1 <= f y z <= 1) -> (forall u, -1 <= u <= 1 -> Rabs (h u) <= M) -> (forall u v, -1 <= u <= 1 -> -1 <= v <= 1 -> Rabs (h u - h v) <= M * Rabs (u - v)) ->
  nice (fun y z => h (f y z)).
Proof.
  intros (K & K0 & B & L) HM R1 R2 R3. exists (M + M * K). assert (P : 0 <= M * K) by now apply Rmult_le_pos. split; [lra|]. split.
  - intros y z. eapply Rle_trans; [apply R2, R1|]. lra.
  - intros y z y' z'. eapply Rle_trans; [apply R3; apply R1|]. apply Rle_trans with (M * (K * (Rabs (y - y') + Rabs (z - z')))); [apply Rmult_le_compat_l; auto|].
    pose proof (Rabs_pos (y - y')). pose proof (Rabs_pos (z - z')). assert (0 <= M * (Rabs (y - y') + Rabs (z - z'))) by (apply Rmult_le_pos; lra). lra.
Qed.

Lemma radians_lip x y : Rabs (radians x - radians y) = PI / 180 * Rabs (x - y).
Proof. unfold radians. replace (x * PI / 180 - y * PI / 180) with (PI / 180 * (x - y)) by field. rewrite Rabs_mult, Rabs_pos_eq; [reflexivity|]. pose proof PI_RGT_0. lra. Qed.
Lemma lip_of_derive f df x y : (forall t, is_derive f t (df t)) -> (forall t, Rabs (df t) <= 1) -> Rabs (f x - f y) <= Rabs (x - y).
Proof.
  intros D B. destruct (MVT_gen f y x df) as (c & _ & E); [intros; apply D|intros t _; apply derivable_continuous_pt; exists (df t); apply is_derive_Reals, D|].
  rewrite E, Rabs_mult. pose proof (Rabs_pos (x - y)). pose proof (B c). nra.
Qed.
Lemma cos_lip x y : Rabs (cos x - cos y) <= Rabs (x - y).
Proof. apply (lip_of_derive cos (fun t => - sin t)); intros t; [auto_derive; auto; ring|]. rewrite Rabs_Ropp. pose proof (SIN_bound t). apply Rabs_le. lra. Qed.
Lemma sin_lip x y : Rabs (sin x - sin y) <= Rabs (x - y).
Proof. apply (lip_of_derive sin cos); intros t; [auto_derive; auto; ring|]. pose proof (COS_bound t). apply Rabs_le. lra. Qed.
Lemma mild_cos c : mild (fun y => cos (radians (y - c))).
Proof.
  pose proof PI_RGT_0. exists (1 + PI / 180). split; [lra|]. split; [intros y; pose proof (COS_bound (radians (y - c))); apply Rabs_le; lra|]. intros y y'. eapply Rle_trans; [apply cos_lip|]. rewrite radians_lip.
  replace (y - c - (y' - c)) with (y - y') by ring. apply Rmult_le_compat_r; [apply Rabs_pos|lra].
Qed.
Lemma mild_sin c : mild (fun y => sin (radians (y - c))).
Proof.
  pose proof PI_RGT_0. exists (1 + PI / 180). split; [lra|]. split; [intros y; pose proof (SIN_bound (radians (y - c))); apply Rabs_le; lra|]. intros y y'. eapply Rle_trans; [apply sin_lip|]. rewrite radians_lip.
  replace (y - c - (y' - c)) with (y - y') by ring. apply Rmult_le_compat_r; [apply Rabs_pos|lra].
Qed.
Lemma mild_ext f g : (forall y, f y = g y) -> mild f -> mild g.
Proof. intros E (K & K0 & B & L). exists K. split; [exact K0|]. split; intros; rewrite <- !E; auto. Qed.
Lemma mild_cos0 : mild (fun y => cos (radians y)).
Proof. apply (mild_ext (fun y => cos (radians (y - 0)))); [intros; now rewrite Rminus_0_r|apply mild_cos]. Qed.
Lemma mild_sin0 : mild (fun y => sin (radians y)).
Proof. apply (mild_ext (fun y => sin (radians (y - 0)))); [intros; now rewrite Rminus_0_r|apply mild_sin]. Qed.

Lemma mild_continuous g : mild g -> forall y, continuous g y.
Proof. intros (K & K0 & _ & L). now apply (lip_continuous g K). Qed.
Lemma mild_ex g a b : mild g -> ex_RInt g a b.
Proof. intros H. apply (ex_RInt_continuous (V := R_CompleteNormedModule)). intros; now apply mild_continuous. Qed.
Lemma nice_mild f y : nice f -> mild (fun z => f y z).
Proof. intros (K & K0 & B & L). exists K. split; [exact K0|]. split; [auto|]. intros z z'. eapply Rle_trans; [apply L|]. rewrite Rminus_eq_0, Rabs_R0, Rplus_0_l. lra. Qed.
Lemma nice_mild_y f z : nice f -> mild (fun y => f y z).
Proof. intros (K & K0 & B & L). exists K. split; [exact K0|]. split; [auto|]. intros y y'. eapply Rle_trans; [apply L|]. rewrite Rminus_eq_0, Rabs_R0, Rplus_0_r. lra. Qed.
Lemma nice_ex f y a b : nice f -> ex_RInt (fun z => f y z) a b.
Proof. intros H. now apply mild_ex, nice_mild. Qed.
Lemma nice_int f a b : a <= b -> nice f -> mild (fun y => RInt (fun z => f y z) a b).
Proof.
  intros Hab N. pose proof N as (K & K0 & B & L). exists ((b - a) * K). split; [apply Rmult_le_pos; lra|]. split.
  - intros y. apply abs_RInt_le_const; auto. now apply nice_ex.
  - intros y y'. rewrite Rmult_assoc. apply RInt_close; auto using nice_ex. intros z _. eapply Rle_trans; [apply L|]. rewrite Rminus_eq_0, Rabs_R0, Rplus_0_r. lra.
Qed.
Lemma nice_2d f y z : nice f -> continuity_2d_pt f y z.
Proof.
  intros (K & K0 & _ & L) e. assert (P : 0 < e / (2 * (K + 1))) by (apply Rdiv_lt_0_compat; [apply cond_pos|lra]). exists (mkposreal _ P). intros u v Hu Hv. cbn in Hu, Hv.
  eapply Rle_lt_trans; [apply L|]. apply Rle_lt_trans with (K * (e / (2 * (K + 1)) + e / (2 * (K + 1)))); [apply Rmult_le_compat_l; lra|].
  apply Rlt_le_trans with ((K + 1) * (e / (2 * (K + 1)) + e / (2 * (K + 1)))); [apply Rmult_lt_compat_r; lra|]. right. field. lra.
Qed.

(** ** The integral over the sphere *)
Section Sphere.
Variables (lp : R) (h dh H : R -> R) (M : R).
Hypothesis M0 : 0 <= M.
Hypothesis h_bound : forall u, -1 <= u <= 1 -> Rabs (h u) <= M.
Hypothesis dh_bound : forall u, -1 <= u <= 1 -> Rabs (dh u) <= M.
Hypothesis dh_lip : forall u v, -1 <= u <= 1 -> -1 <= v <= 1 -> Rabs (dh u - dh v) <= M * Rabs (u - v).
Hypothesis h_derive : forall u, -1 <= u <= 1 -> is_derive h u (dh u).
Hypothesis H_derive : forall u, -1 <= u <= 1 -> is_derive H u (h u).
Let k := PI / 180.
Let C (y : R) := cos (radians y).
Let S (y : R) := sin (radians y).

(** Cosine of the angle between directions at latitudes x and y whose longitudes differ by z - lp. *)
Definition cosine (x y z : R) : R := sin (radians x) * sin (radians y) + cos (radians x) * cos (radians y) * cos (radians (z - lp)).
Lemma cosine_bound x y z : -1 <= cosine x y z <= 1.
Proof.
  unfold cosine. pose proof (COS_bound (radians (z - lp))) as B. pose proof (COS_bound (radians x - radians y)) as B1. pose proof (COS_bound (radians x + radians y)) as B2. rewrite cos_minus in B1. rewrite cos_plus in B2.
  set (cx := cos (radians x)) in *. set (sx := sin (radians x)) in *. set (cy := cos (radians y)) in *. set (sy := sin (radians y)) in *. set (c := cos (radians (z - lp))) in *. clearbody cx sx cy sy c.
  destruct (Rle_dec 0 (cx * cy)).
  - assert (cx * cy * c <= cx * cy) by nra. assert (- (cx * cy) <= cx * cy * c) by nra. lra.
  - assert (cx * cy * c <= - (cx * cy)) by nra. assert (cx * cy <= cx * cy * c) by nra. lra.
Qed.
Lemma h_lip u v : -1 <= u <= 1 -> -1 <= v <= 1 -> Rabs (h u - h v) <= M * Rabs (u - v).
Proof.
  intros Hu Hv. destruct (MVT_gen h v u dh) as (c & Hc & E).
  - intros t Ht. apply h_derive. unfold Rmin, Rmax in Ht. destruct (Rle_dec v u); lra.
  - intros t Ht. apply derivable_continuous_pt. exists (dh t). apply is_derive_Reals, h_derive. unfold Rmin, Rmax in Ht. destruct (Rle_dec v u); lra.
  - rewrite E, Rabs_mult. apply Rmult_le_compat_r; [apply Rabs_pos|]. apply dh_bound. unfold Rmin, Rmax in Hc. destruct (Rle_dec v u); lra.
Qed.
Lemma nice_cosine x : nice (cosine x).
Proof.
  unfold cosine. apply nice_plus; [apply nice_mult; [apply nice_const|apply nice_y, mild_sin0]|]. apply nice_mult; [apply nice_mult; [apply nice_const|apply nice_y, mild_cos0]|apply nice_z, mild_cos].
Qed.
Lemma nice_h x : nice (fun y z => h (cosine x y z)).
Proof. apply (nice_comp h (cosine x) M); auto using nice_cosine, cosine_bound, h_lip. Qed.
Lemma nice_dh x : nice (fun y z => dh (cosine x y z)).
Proof. apply (nice_comp dh (cosine x) M); auto using nice_cosine, cosine_bound. Qed.
Lemma nice_C : nice (fun y _ => C y). Proof. apply nice_y, mild_cos0. Qed.
Lemma nice_S : nice (fun y _ => S y). Proof. apply nice_y, mild_sin0. Qed.
Lemma nice_cz : nice (fun _ z => cos (radians (z - lp))). Proof. apply nice_z, mild_cos. Qed.
Lemma nice_sz : nice (fun _ z => sin (radians (z - lp))). Proof. apply nice_z, mild_sin. Qed.

(** The derivatives of the cosine. *)
Definition cx (x y z : R) : R := k * (cos (radians x) * sin (radians y) - sin (radians x) * cos (radians y) * cos (radians (z - lp))).
Definition cy (x y z : R) : R := k * (sin (radians x) * cos (radians y) - cos (radians x) * sin (radians y) * cos (radians (z - lp))).
Definition cz (x y z : R) : R := - k * (cos (radians x) * cos (radians y) * sin (radians (z - lp))).
Lemma d_x x y z : is_derive (fun x => cosine x y z) x (cx x y z).
Proof. unfold cosine, cx, radians, k. auto_derive; auto. unfold Rdiv, Rminus. ring. Qed.
Lemma d_y x y z : is_derive (fun y => cosine x y z) y (cy x y z).
Proof. unfold cosine, cy, radians, k. auto_derive; auto. unfold Rdiv, Rminus. ring. Qed.
Lemma d_z x y z : is_derive (fun z => cosine x y z) z (cz x y z).
Proof. unfold cosine, cz, radians, k. auto_derive; auto. unfold Rdiv, Rminus. ring. Qed.
Lemma nice_cy x : nice (cy x).
Proof.
  unfold cy. apply nice_mult; [apply nice_const|]. unfold Rminus. apply nice_plus; [apply nice_mult; [apply nice_const|exact nice_C]|]. apply nice_opp. apply nice_mult; [apply nice_mult; [apply nice_const|exact nice_S]|exact nice_cz].
Qed.
Lemma nice_cz' x : nice (cz x).
Proof. unfold cz. apply nice_mult; [apply nice_const|]. apply nice_mult; [apply nice_mult; [apply nice_const|exact nice_C]|exact nice_sz]. Qed.
Lemma nice_cx x : nice (cx x).
Proof.
  unfold cx. apply nice_mult; [apply nice_const|]. unfold Rminus. apply nice_plus; [apply nice_mult; [apply nice_const|exact nice_S]|]. apply nice_opp. apply nice_mult; [apply nice_mult; [apply nice_const|exact nice_C]|exact nice_cz].
Qed.

(** The integrand, its derivative along the meridian of the direction, and the two fields whose divergence that is. *)
Definition I0 (x y z : R) : R := h (cosine x y z) * cos (radians y).
Definition J0 (x y z : R) : R := dh (cosine x y z) * cx x y z * cos (radians y).
Definition A0 (x y z : R) : R := cos (radians y) * cos (radians (z - lp)) * h (cosine x y z).
Definition B0 (x y z : R) : R := sin (radians y) * sin (radians (z - lp)) * h (cosine x y z).
Definition dA (x y z : R) : R := (- k * sin (radians y)) * cos (radians (z - lp)) * h (cosine x y z) + cos (radians y) * cos (radians (z - lp)) * (dh (cosine x y z) * cy x y z).
Definition dB (x y z : R) : R := sin (radians y) * (k * cos (radians (z - lp))) * h (cosine x y z) + sin (radians y) * sin (radians (z - lp)) * (dh (cosine x y z) * cz x y z).
Lemma J_divergence x y z : J0 x y z = - (dA x y z + dB x y z).
Proof.
  unfold J0, dA, dB, cx, cy, cz. set (Q := dh (cosine x y z)). set (P := h (cosine x y z)). clearbody P Q. set (a := cos (radians x)). set (b := sin (radians x)). set (c := cos (radians y)). set (d := sin (radians y)).
  assert (E : cos (radians (z - lp)) * cos (radians (z - lp)) = 1 - sin (radians (z - lp)) * sin (radians (z - lp))) by (pose proof (sin2_cos2 (radians (z - lp))) as E; unfold Rsqr in E; lra). set (e := cos (radians (z - lp))) in *. set (f := sin (radians (z - lp))) in *. clearbody a b c d e f.
  transitivity (Q * (k * (a * d * (e * e + f * f) - b * c * e)) * c); [rewrite E; ring|]. ring.
Qed.
Lemma is_A x y z : is_derive (fun y => A0 x y z) y (dA x y z).
Proof.
  unfold A0, dA. assert (D1 : is_derive (fun y => cos (radians y) * cos (radians (z - lp))) y (- k * sin (radians y) * cos (radians (z - lp)))) by (unfold radians, k; auto_derive; auto; unfold Rdiv, Rminus; ring).
  assert (D2 : is_derive (fun y => h (cosine x y z)) y (dh (cosine x y z) * cy x y z)).
  { rewrite Rmult_comm. exact (is_derive_comp h (fun y => cosine x y z) y _ _ (h_derive _ (cosine_bound x y z)) (d_y x y z)). }
  exact (is_derive_mult _ _ y _ _ D1 D2 Rmult_comm).
Qed.
Lemma is_B x y z : is_derive (fun z => B0 x y z) z (dB x y z).
Proof.
  unfold B0, dB. assert (D1 : is_derive (fun z => sin (radians y) * sin (radians (z - lp))) z (sin (radians y) * (k * cos (radians (z - lp))))) by (unfold radians, k; auto_derive; auto; unfold Rdiv, Rminus; ring).
  assert (D2 : is_derive (fun z => h (cosine x y z)) z (dh (cosine x y z) * cz x y z)).
  { rewrite Rmult_comm. exact (is_derive_comp h (fun z => cosine x y z) z _ _ (h_derive _ (cosine_bound x y z)) (d_z x y z)). }
  exact (is_derive_mult _ _ z _ _ D1 D2 Rmult_comm).
Qed.
Lemma nice_A x : nice (A0 x).
Proof. unfold A0. apply nice_mult; [apply nice_mult; [exact nice_C|exact nice_cz]|apply nice_h]. Qed.
Lemma nice_dA x : nice (dA x).
Proof.
  unfold dA. apply nice_plus; [apply nice_mult; [apply nice_mult; [apply nice_mult; [apply nice_const|exact nice_S]|exact nice_cz]|apply nice_h]|].
  apply nice_mult; [apply nice_mult; [exact nice_C|exact nice_cz]|apply nice_mult; [apply nice_dh|apply nice_cy]].
Qed.
Lemma nice_dB x : nice (dB x).
Proof.
  unfold dB. apply nice_plus; [apply nice_mult; [apply nice_mult; [exact nice_S|apply nice_mult; [apply nice_const|exact nice_cz]]|apply nice_h]|].
  apply nice_mult; [apply nice_mult; [exact nice_S|exact nice_sz]|apply nice_mult; [apply nice_dh|apply nice_cz']].
Qed.
Lemma nice_I x : nice (I0 x).
Proof. unfold I0. apply nice_mult; [apply nice_h|exact nice_C]. Qed.
Lemma nice_J x : nice (J0 x).
Proof. unfold J0. apply nice_mult; [apply nice_mult; [apply nice_dh|apply nice_cx]|exact nice_C]. Qed.

Lemma turn z : radians (z + 360 - lp) = radians (z - lp) + 2 * PI.
Proof. unfold radians. field. Qed.
Lemma B_round x y : RInt (fun z => dB x y z) 0 360 = 0.
Proof.
  assert (E : is_RInt (fun z => dB x y z) 0 360 (minus (B0 x y 360) (B0 x y 0))).
  { apply (is_RInt_derive (fun z => B0 x y z)); intros z _; [apply is_B|apply mild_continuous, nice_mild, nice_dB]. }
  rewrite (is_RInt_unique _ _ _ _ E). unfold B0, cosine. replace 360 with (0 + 360) by ring. rewrite turn, sin_plus, cos_plus, cos_2PI, sin_2PI. unfold minus, plus, opp. cbn. rewrite !Rmult_1_r, !Rmult_0_r, Rplus_0_r, Rminus_0_r. ring.
Qed.
Definition AI (x y : R) : R := RInt (fun z => A0 x y z) 0 360.
Lemma AI_derive x y : is_derive (AI x) y (RInt (fun z => dA x y z) 0 360).
Proof.
  assert (E : RInt (fun z => dA x y z) 0 360 = RInt (fun z => Derive (fun u => A0 x u z) y) 0 360) by (apply RInt_ext; intros z _; symmetry; apply is_derive_unique, is_A).
  rewrite E. apply (is_derive_RInt_param (A0 x)).
  - exists (mkposreal 1 Rlt_0_1). intros u _ z _. eexists. apply is_A.
  - intros z _. apply (continuity_2d_pt_ext (dA x)); [intros u v; symmetry; apply is_derive_unique, is_A|]. apply nice_2d, nice_dA.
  - exists (mkposreal 1 Rlt_0_1). intros u _. apply nice_ex, nice_A.
Qed.
Lemma J_zero x : RInt (fun y => RInt (fun z => J0 x y z) 0 360) (-90) 90 = 0.
Proof.
  assert (E : forall y, RInt (fun z => J0 x y z) 0 360 = - RInt (fun z => dA x y z) 0 360).
  { intros y. rewrite (RInt_ext _ (fun z => opp (plus (dA x y z) (dB x y z)))) by (intros; apply J_divergence). rewrite (RInt_opp (V := R_CompleteNormedModule)).
    - rewrite (RInt_plus (V := R_CompleteNormedModule)) by (apply nice_ex; first [apply nice_dA|apply nice_dB]). rewrite B_round. change (- (RInt (fun z => dA x y z) 0 360 + 0) = - RInt (fun z => dA x y z) 0 360). rewrite Rplus_0_r. reflexivity.
    - apply (ex_RInt_plus (V := R_NormedModule)); apply nice_ex; [apply nice_dA|apply nice_dB]. }
  rewrite (RInt_ext _ (fun y => opp (RInt (fun z => dA x y z) 0 360))) by (intros; apply E).
  assert (Q : is_RInt (fun y => RInt (fun z => dA x y z) 0 360) (-90) 90 (minus (AI x 90) (AI x (-90)))).
  { apply (is_RInt_derive (AI x)); intros y _; [apply AI_derive|]. apply mild_continuous. apply nice_int; [lra|apply nice_dA]. }
  rewrite (RInt_opp (V := R_CompleteNormedModule)) by (eexists; exact Q). rewrite (is_RInt_unique _ _ _ _ Q).
  assert (Z : forall y, cos (radians y) = 0 -> AI x y = 0).
  { intros y Hy. unfold AI. rewrite (RInt_ext _ (fun _ => 0)) by (intros; unfold A0; rewrite Hy, !Rmult_0_l; reflexivity). rewrite (RInt_const (V := R_CompleteNormedModule)). apply Rmult_0_r. }
  rewrite !Z; [change (- (0 + - 0) = 0); ring| |].
  - replace (radians (-90)) with (- (PI / 2)) by (unfold radians; field). rewrite cos_neg. apply cos_PI2.
  - replace (radians 90) with (PI / 2) by (unfold radians; field). apply cos_PI2.
Qed.

(** ** The direction does not matter *)
Definition whole (x : R) : R := RInt (fun y => RInt (fun z => I0 x y z) 0 360) (-90) 90.
Lemma k_pos : 0 < k. Proof. unfold k. pose proof PI_RGT_0. lra. Qed.
Lemma cx_abs x y z : Rabs (cx x y z) <= 2 * k.
Proof.
  unfold cx. rewrite Rabs_mult, (Rabs_pos_eq k) by (pose proof k_pos; lra). rewrite (Rmult_comm 2). apply Rmult_le_compat_l; [pose proof k_pos; lra|].
  assert (P : forall u v, -1 <= u <= 1 -> -1 <= v <= 1 -> -1 <= u * v <= 1) by (intros; nra).
  pose proof (P _ _ (COS_bound (radians x)) (SIN_bound (radians y))). pose proof (P _ _ (P _ _ (SIN_bound (radians x)) (COS_bound (radians y))) (COS_bound (radians (z - lp)))). apply Rabs_le. lra.
Qed.
Lemma cx_lip x x' y z : Rabs (cx x y z - cx x' y z) <= 2 * k * k * Rabs (x - x').
Proof.
  pose proof k_pos as K0. unfold cx. replace (k * _ - k * _) with (k * ((cos (radians x) - cos (radians x')) * sin (radians y) + - ((sin (radians x) - sin (radians x')) * (cos (radians y) * cos (radians (z - lp)))))) by ring.
  rewrite Rabs_mult, (Rabs_pos_eq k) by lra. replace (2 * k * k * Rabs (x - x')) with (k * (k * Rabs (x - x') * 1 + k * Rabs (x - x') * 1)) by ring. apply Rmult_le_compat_l; [lra|].
  assert (P : forall u v, -1 <= u <= 1 -> -1 <= v <= 1 -> -1 <= u * v <= 1) by (intros; nra).
  eapply Rle_trans; [apply Rabs_triang|]. rewrite Rabs_Ropp, !(Rabs_mult (_ - _)). pose proof (radians_lip x x') as E. fold k in E.
  apply Rplus_le_compat; apply Rmult_le_compat; try apply Rabs_pos; try (rewrite <- E; first [apply cos_lip|apply sin_lip]).
  - apply Rabs_le. apply SIN_bound.
  - apply Rabs_le. pose proof (P _ _ (COS_bound (radians y)) (COS_bound (radians (z - lp)))). lra.
Qed.
Lemma cosine_lip x x' y z : Rabs (cosine x y z - cosine x' y z) <= 2 * k * Rabs (x - x').
Proof.
  destruct (MVT_gen (fun x => cosine x y z) x' x (fun x => cx x y z)) as (c & _ & E); [intros; apply d_x|intros t _; apply derivable_continuous_pt; eexists; apply is_derive_Reals, d_x|].
  rewrite E, Rabs_mult. apply Rmult_le_compat_r; [apply Rabs_pos|]. apply cx_abs.
Qed.
Lemma taylor x x' y z : Rabs (I0 x y z - I0 x' y z - (x - x') * J0 x' y z) <= 6 * k * k * M * (x - x') ^ 2.
Proof.
  pose proof k_pos as K0. unfold I0, J0. set (g := fun x => dh (cosine x y z) * cx x y z).
  assert (D : forall t, is_derive (fun x => h (cosine x y z)) t (g t)).
  { intros t. unfold g. rewrite Rmult_comm. exact (is_derive_comp h (fun x => cosine x y z) t _ _ (h_derive _ (cosine_bound t y z)) (d_x t y z)). }
  assert (L : forall u v, Rabs (g u - g v) <= 6 * k * k * M * Rabs (u - v)).
  { intros u v. unfold g. replace (dh (cosine u y z) * cx u y z - dh (cosine v y z) * cx v y z) with ((dh (cosine u y z) - dh (cosine v y z)) * cx u y z + dh (cosine v y z) * (cx u y z - cx v y z)) by ring.
    eapply Rle_trans; [apply Rabs_triang|]. rewrite !Rabs_mult. replace (6 * k * k * M * Rabs (u - v)) with (M * (2 * k * Rabs (u - v)) * (2 * k) + M * (2 * k * k * Rabs (u - v))) by ring.
    apply Rplus_le_compat; apply Rmult_le_compat; try apply Rabs_pos.
    - eapply Rle_trans; [apply dh_lip; apply cosine_bound|]. apply Rmult_le_compat_l; [exact M0|apply cosine_lip].
    - apply cx_abs.
    - apply dh_bound, cosine_bound.
    - apply cx_lip. }
  destruct (MVT_gen (fun x => h (cosine x y z)) x' x g) as (c & Hc & E); [intros; apply D|intros t _; apply derivable_continuous_pt; eexists; apply is_derive_Reals, D|].
  replace (h (cosine x y z) * cos (radians y) - h (cosine x' y z) * cos (radians y) - (x - x') * (dh (cosine x' y z) * cx x' y z * cos (radians y))) with (((h (cosine x y z) - h (cosine x' y z)) - (x - x') * g x') * cos (radians y)) by (unfold g; ring).
  rewrite E. replace (g c * (x - x') - (x - x') * g x') with ((g c - g x') * (x - x')) by ring. rewrite !Rabs_mult.
  assert (Hd : Rabs (c - x') <= Rabs (x - x')) by (unfold Rmin, Rmax in Hc; destruct (Rle_dec x' x); unfold Rabs; repeat destruct (Rcase_abs _); lra).
  assert (C1 : Rabs (cos (radians y)) <= 1) by (apply Rabs_le, COS_bound).
  rewrite <- (pow2_abs (x - x')).
  pose proof (Rabs_pos (x - x')) as P1. pose proof (L c x') as L1. pose proof (Rabs_pos (g c - g x')) as P2.
  assert (Q : 0 <= 6 * k * k * M) by (apply Rmult_le_pos; [apply Rmult_le_pos; lra|exact M0]).
  assert (L2 : Rabs (g c - g x') <= 6 * k * k * M * Rabs (x - x')) by (eapply Rle_trans; [exact L1|apply Rmult_le_compat_l; assumption]).
  apply Rle_trans with (6 * k * k * M * Rabs (x - x') * Rabs (x - x') * 1); [|right; ring].
  apply Rmult_le_compat; [apply Rmult_le_pos; assumption|apply Rabs_pos|apply Rmult_le_compat_r; assumption|exact C1].
Qed.
Lemma whole_close x x' : Rabs (whole x - whole x') <= 180 * (360 * (6 * k * k * M * (x - x') ^ 2)).
Proof.
  set (e := 6 * k * k * M * (x - x') ^ 2).
  assert (E0 : whole x' = RInt (fun y => RInt (fun z => I0 x' y z + (x - x') * J0 x' y z) 0 360) (-90) 90).
  { assert (N : nice (fun y z => (x - x') * J0 x' y z)) by (apply nice_mult; [apply nice_const|apply nice_J]).
    rewrite (RInt_ext _ (fun y => plus (RInt (fun z => I0 x' y z) 0 360) (scal (x - x') (RInt (fun z => J0 x' y z) 0 360)))).
    - rewrite (RInt_plus (V := R_CompleteNormedModule)); [|apply mild_ex, nice_int; [lra|apply nice_I]|apply (ex_RInt_scal (V := R_NormedModule)); apply mild_ex, nice_int; [lra|apply nice_J]].
      rewrite (RInt_scal (V := R_CompleteNormedModule)) by (apply mild_ex, nice_int; [lra|apply nice_J]). rewrite J_zero. change (whole x' = whole x' + (x - x') * 0). ring.
    - intros y _. rewrite <- (RInt_scal (V := R_CompleteNormedModule)) by (apply nice_ex, nice_J). rewrite <- (RInt_plus (V := R_CompleteNormedModule)); [reflexivity|apply nice_ex, nice_I|apply (ex_RInt_scal (V := R_NormedModule)); apply nice_ex, nice_J]. }
  assert (N : nice (fun y z => I0 x' y z + (x - x') * J0 x' y z)) by (apply nice_plus; [apply nice_I|apply nice_mult; [apply nice_const|apply nice_J]]).
  rewrite E0. unfold whole. replace 180 with (90 - -90) by ring.
  apply RInt_close; [lra|apply mild_ex, nice_int; [lra|apply nice_I]|apply mild_ex, (nice_int _ 0 360 ltac:(lra) N)|]. intros y _. replace (360 * e) with ((360 - 0) * e) by ring.
  apply RInt_close; [lra|apply nice_ex, nice_I|apply (nice_ex _ y 0 360 N)|]. intros z _. replace (I0 x y z - (I0 x' y z + (x - x') * J0 x' y z)) with (I0 x y z - I0 x' y z - (x - x') * J0 x' y z) by ring. apply taylor.
Qed.
Lemma flat_constant (f : R -> R) c : 0 <= c -> (forall x y, Rabs (f x - f y) <= c * (x - y) ^ 2) -> forall x y, f x = f y.
Proof.
  intros Hc Hf. assert (D : forall t, is_derive f t 0).
  { intros t. apply is_derive_Reals. intros e He. assert (P : 0 < e / (c + 1)) by (apply Rdiv_lt_0_compat; lra). exists (mkposreal _ P). intros u Hu Hl. cbn in Hl. rewrite Rminus_0_r. unfold Rdiv. rewrite Rabs_mult, Rabs_inv.
    assert (Pu : 0 < Rabs u) by now apply Rabs_pos_lt. apply Rmult_lt_reg_r with (Rabs u); [exact Pu|]. rewrite Rmult_assoc, Rinv_l, Rmult_1_r by lra.
    eapply Rle_lt_trans; [apply Hf|]. replace (t + u - t) with u by ring. rewrite <- (pow2_abs u). replace (c * Rabs u ^ 2) with (c * Rabs u * Rabs u) by ring. apply Rmult_lt_compat_r; [exact Pu|].
    apply Rle_lt_trans with (c * (e / (c + 1))); [apply Rmult_le_compat_l; lra|]. apply Rlt_le_trans with ((c + 1) * (e / (c + 1))); [apply Rmult_lt_compat_r; lra|right; field; lra]. }
  intros x y. destruct (Rtotal_order x y) as [L|[->|G]]; [|reflexivity|symmetry]; (apply (eq_is_derive f); [intros; apply D|assumption]).
Qed.
Lemma whole_at_pole : whole 90 = 360 * (180 / PI) * (H 1 - H (-1)).
Proof.
  pose proof PI_RGT_0 as Pp. assert (C90 : cos (radians 90) = 0) by (replace (radians 90) with (PI / 2) by (unfold radians; field); apply cos_PI2).
  assert (S90 : sin (radians 90) = 1) by (replace (radians 90) with (PI / 2) by (unfold radians; field); apply sin_PI2).
  assert (Sm : sin (radians (-90)) = -1) by (replace (radians (-90)) with (- (PI / 2)) by (unfold radians; field); rewrite sin_neg, sin_PI2; reflexivity).
  unfold whole. assert (E : forall y, RInt (fun z => I0 90 y z) 0 360 = 360 * (h (sin (radians y)) * cos (radians y))).
  { intros y. rewrite (RInt_ext _ (fun _ => h (sin (radians y)) * cos (radians y))); [rewrite (RInt_const (V := R_CompleteNormedModule)); change ((360 - 0) * (h (sin (radians y)) * cos (radians y)) = 360 * (h (sin (radians y)) * cos (radians y))); ring|].
    intros z _. unfold I0, cosine. rewrite C90, S90. rewrite Rmult_1_l, !Rmult_0_l, Rplus_0_r. reflexivity. }
  assert (Q : is_RInt (fun y => RInt (fun z => I0 90 y z) 0 360) (-90) 90 (minus (360 * (180 / PI) * H (sin (radians 90))) (360 * (180 / PI) * H (sin (radians (-90)))))).
  { apply (is_RInt_derive (fun y => 360 * (180 / PI) * H (sin (radians y)))).
    - intros y _. rewrite E. assert (D1 : is_derive (fun y => sin (radians y)) y (PI / 180 * cos (radians y))) by (unfold radians; auto_derive; auto; unfold Rdiv, Rminus; ring).
      pose proof (is_derive_comp H (fun y => sin (radians y)) y _ _ (H_derive _ (SIN_bound (radians y))) D1) as D2. pose proof (is_derive_scal _ y (360 * (180 / PI)) _ D2) as D3.
      replace (360 * (h (sin (radians y)) * cos (radians y))) with (360 * (180 / PI) * scal (PI / 180 * cos (radians y)) (h (sin (radians y)))); [exact D3|]. unfold scal. cbn. unfold mult. cbn. field. lra.
    - intros y _. apply mild_continuous, nice_int; [lra|apply nice_I]. }
  rewrite (is_RInt_unique _ _ _ _ Q), S90, Sm. unfold minus, plus, opp. cbn. ring.
Qed.
Lemma sphere_integral x : RInt (fun y => RInt (fun z => h (cosine x y z) * cos (radians y)) 0 360) (-90) 90 = 360 * (180 / PI) * (H 1 - H (-1)).
Proof.
  rewrite <- whole_at_pole. change (whole x = whole 90). apply (flat_constant whole (180 * (360 * (6 * k * k * M)))).
  - pose proof k_pos. assert (0 <= 6 * k * k * M) by (apply Rmult_le_pos; [apply Rmult_le_pos; lra|exact M0]). lra.
  - intros u v. eapply Rle_trans; [apply whole_close|]. right. ring.
Qed.
End Sphere.
