(** Proofs about Euler deconvolution and inversion. *)
From Coquelicot Require Import Coquelicot.
From Verif Require Import Base BaseFacts NumPy EulerModel.
Local Open Scope list_scope. Local Open Scope R_scope.

Ltac dv v := let a := fresh "x" in let b := fresh "x" in let c := fresh "x" in let d := fresh "x" in destruct v as [a b c d].
Ltac d4 := repeat match goal with v : v4 |- _ => dv v | m : m4 |- _ => dv m end.
Definition zero4 : v4 := V4 0 0 0 0.

(** ** Inverse *)
Lemma adj_left m v : mulv (adj4 m) (mulv m v) = scale4 (det4 m) v.
Proof. d4. unfold mulv, adj4, det4, scale4, dot4, det3. cbn [c0 c1 c2 c3 r0 r1 r2 r3]. f_equal; ring. Qed.
Lemma adj_right m v : mulv m (mulv (adj4 m) v) = scale4 (det4 m) v.
Proof. d4. unfold mulv, adj4, det4, scale4, dot4, det3. cbn [c0 c1 c2 c3 r0 r1 r2 r3]. f_equal; ring. Qed.
Lemma mulv_scale k m v : mulv (mscale k m) v = scale4 k (mulv m v).
Proof. d4. unfold mulv, mscale, scale4, dot4. cbn. f_equal; ring. Qed.
Lemma mulv_scale_r k m v : mulv m (scale4 k v) = scale4 k (mulv m v).
Proof. d4. unfold mulv, scale4, dot4. cbn. f_equal; ring. Qed.
Lemma scale_scale a b v : scale4 a (scale4 b v) = scale4 (a * b) v.
Proof. unfold scale4. cbn. f_equal; ring. Qed.
Lemma scale_1 v : scale4 1 v = v.
Proof. dv v. unfold scale4. cbn. f_equal; ring. Qed.
Lemma scale_0 v : scale4 0 v = zero4.
Proof. unfold scale4, zero4. f_equal; ring. Qed.
Lemma scale_zero k : scale4 k zero4 = zero4.
Proof. unfold scale4, zero4. cbn. f_equal; ring. Qed.
Lemma mulv_zero m : mulv m zero4 = zero4.
Proof. unfold mulv, zero4, dot4. cbn. f_equal; ring. Qed.
Lemma add_zero v : add4 v zero4 = v.
Proof. dv v. unfold add4, zero4. cbn. f_equal; ring. Qed.
Lemma inv_ok m n : inv4 m = Ok n -> (forall v, mulv n (mulv m v) = v) /\ (forall v, mulv m (mulv n v) = v) /\ det4 m <> 0.
Proof.
  unfold inv4. destruct (Reqb_spec (det4 m) 0) as [E|N]; [discriminate|]. intros H. assert (n = mscale (/ det4 m) (adj4 m)) as -> by congruence. repeat split; try assumption.
  - intros v. rewrite mulv_scale, adj_left, scale_scale, Rinv_l by assumption. apply scale_1.
  - intros v. rewrite mulv_scale, mulv_scale_r, adj_right, scale_scale, Rinv_l by assumption. apply scale_1.
Qed.
Lemma inv_det m : det4 m <> 0 -> exists n, inv4 m = Ok n.
Proof. intros H. unfold inv4. destruct (Reqb_spec (det4 m) 0); [contradiction|eauto]. Qed.

(** A matrix with determinant zero has a kernel. *)
Lemma ker2 a b c d : a * d - b * c = 0 -> exists x y, (x <> 0 \/ y <> 0) /\ a * x + b * y = 0 /\ c * x + d * y = 0.
Proof.
  intros H. destruct (Req_dec a 0) as [->|Na].
  - destruct (Req_dec c 0) as [->|Nc].
    + exists 1, 0. repeat split; try lra.
    + exists (- d / c), 1. split; [right; lra|]. assert (B : b = 0) by (apply (Rmult_eq_reg_r c); [lra|assumption]). subst b. split; [lra|]. field. assumption.
  - exists (- b / a), 1. split; [right; lra|]. split; [field; assumption|]. replace (c * (- b / a) + d * 1) with ((a * d - b * c) / a) by (field; assumption). rewrite H. unfold Rdiv. ring.
Qed.
Lemma ker3_pivot a b c d e f g h i : a <> 0 -> det3 a b c d e f g h i = 0 ->
  exists x y z, (x <> 0 \/ y <> 0 \/ z <> 0) /\ a * x + b * y + c * z = 0 /\ d * x + e * y + f * z = 0 /\ g * x + h * y + i * z = 0.
Proof.
  intros Na H. destruct (ker2 (a * e - b * d) (a * f - c * d) (a * h - b * g) (a * i - c * g)) as (y & z & N & E1 & E2).
  { replace _ with (a * det3 a b c d e f g h i) by (unfold det3; ring). rewrite H. ring. }
  exists (- (b * y + c * z) / a), y, z. split; [destruct N; auto|]. split; [field; assumption|]. split.
  - replace (d * (- (b * y + c * z) / a) + e * y + f * z) with (((a * e - b * d) * y + (a * f - c * d) * z) / a) by (field; assumption). rewrite E1. unfold Rdiv. ring.
  - replace (g * (- (b * y + c * z) / a) + h * y + i * z) with (((a * h - b * g) * y + (a * i - c * g) * z) / a) by (field; assumption). rewrite E2. unfold Rdiv. ring.
Qed.
Lemma ker3 a b c d e f g h i : det3 a b c d e f g h i = 0 ->
  exists x y z, (x <> 0 \/ y <> 0 \/ z <> 0) /\ a * x + b * y + c * z = 0 /\ d * x + e * y + f * z = 0 /\ g * x + h * y + i * z = 0.
Proof.
  intros H. destruct (Req_dec a 0) as [Ea|Na]; [|now apply ker3_pivot].
  destruct (Req_dec d 0) as [Ed|Nd].
  2:{ destruct (ker3_pivot d e f a b c g h i Nd) as (x & y & z & N & E1 & E2 & E3); [unfold det3 in *; lra|]. exists x, y, z. auto. }
  destruct (Req_dec g 0) as [Eg|Ng].
  2:{ destruct (ker3_pivot g h i d e f a b c Ng) as (x & y & z & N & E1 & E2 & E3); [unfold det3 in *; lra|]. exists x, y, z. auto. }
  exists 1, 0, 0. subst. repeat split; try lra.
Qed.
Lemma ker4_pivot a b c d e f g h i j k l p q r s : a <> 0 -> det4 (M4 (V4 a b c d) (V4 e f g h) (V4 i j k l) (V4 p q r s)) = 0 ->
  exists v, v <> zero4 /\ mulv (M4 (V4 a b c d) (V4 e f g h) (V4 i j k l) (V4 p q r s)) v = zero4.
Proof.
  intros Na H.
  destruct (ker3 (a * f - b * e) (a * g - c * e) (a * h - d * e) (a * j - b * i) (a * k - c * i) (a * l - d * i) (a * q - b * p) (a * r - c * p) (a * s - d * p)) as (y & z & t & N & E1 & E2 & E3).
  { replace _ with (a ^ 2 * det4 (M4 (V4 a b c d) (V4 e f g h) (V4 i j k l) (V4 p q r s))) by (unfold det4, det3; ring). rewrite H. ring. }
  exists (V4 (- (b * y + c * z + d * t) / a) y z t). split; [unfold zero4; intros E; injection E; intros; destruct N as [N|[N|N]]; now apply N|].
  unfold mulv, zero4, dot4. cbn [c0 c1 c2 c3 r0 r1 r2 r3]. f_equal.
  - field. assumption.
  - replace _ with (((a * f - b * e) * y + (a * g - c * e) * z + (a * h - d * e) * t) / a) by (field; assumption). rewrite E1. unfold Rdiv. ring.
  - replace _ with (((a * j - b * i) * y + (a * k - c * i) * z + (a * l - d * i) * t) / a) by (field; assumption). rewrite E2. unfold Rdiv. ring.
  - replace _ with (((a * q - b * p) * y + (a * r - c * p) * z + (a * s - d * p) * t) / a) by (field; assumption). rewrite E3. unfold Rdiv. ring.
Qed.
Lemma ker4 m : det4 m = 0 -> exists v, v <> zero4 /\ mulv m v = zero4.
Proof.
  destruct m as [[a b c d] [e f g h] [i j k l] [p q r s]]. intros H.
  destruct (Req_dec a 0) as [Ea|Na]; [|now apply ker4_pivot].
  destruct (Req_dec e 0) as [Ee|Ne].
  2:{ destruct (ker4_pivot e f g h a b c d i j k l p q r s Ne) as (v & N & E); [unfold det4, det3 in *; lra|]. exists v. split; [assumption|]. unfold mulv, zero4, dot4 in *. cbn [c0 c1 c2 c3 r0 r1 r2 r3] in *. congruence. }
  destruct (Req_dec i 0) as [Ei|Ni].
  2:{ destruct (ker4_pivot i j k l e f g h a b c d p q r s Ni) as (v & N & E); [unfold det4, det3 in *; lra|]. exists v. split; [assumption|]. unfold mulv, zero4, dot4 in *. cbn [c0 c1 c2 c3 r0 r1 r2 r3] in *. congruence. }
  destruct (Req_dec p 0) as [Ep|Np].
  2:{ destruct (ker4_pivot p q r s e f g h i j k l a b c d Np) as (v & N & E); [unfold det4, det3 in *; lra|]. exists v. split; [assumption|]. unfold mulv, zero4, dot4 in *. cbn [c0 c1 c2 c3 r0 r1 r2 r3] in *. congruence. }
  exists (V4 1 0 0 0). split; [unfold zero4; intros E; injection E; lra|]. subst. unfold mulv, zero4, dot4. cbn. f_equal; ring.
Qed.

(** ** Normal equations *)
Lemma dot_vsum {A} (l : list A) f v : dot4 (vsum l f) v = sum_over l (fun x => dot4 (f x) v).
Proof.
  induction l as [|x l IH]; [unfold dot4, vsum, sum_over; cbn; ring|]. rewrite sum_over_cons, <- IH. unfold dot4, vsum. cbn [c0 c1 c2 c3]. rewrite !sum_over_cons. ring.
Qed.
Lemma vsum_ext {A} (l : list A) f g : (forall x, In x l -> f x = g x) -> vsum l f = vsum l g.
Proof. intros H. unfold vsum. f_equal; apply sum_over_ext; intros x Hx; now rewrite H. Qed.
Lemma vsum_zero {A} (l : list A) f : (forall x, In x l -> f x = zero4) -> vsum l f = zero4.
Proof. intros H. unfold vsum, zero4. f_equal; apply sum_over_zero; intros x Hx; now rewrite H. Qed.
Lemma dot_sym a b : dot4 a b = dot4 b a.
Proof. unfold dot4. ring. Qed.
Lemma dot_scale k a b : dot4 (scale4 k a) b = k * dot4 a b.
Proof. unfold dot4, scale4. cbn. ring. Qed.
Lemma dot_sub a b v : dot4 (sub4 a b) v = dot4 a v - dot4 b v.
Proof. unfold dot4, sub4. cbn. ring. Qed.
Lemma dot_add a b v : dot4 (add4 a b) v = dot4 a v + dot4 b v.
Proof. unfold dot4, add4. cbn. ring. Qed.
Lemma gram_mul {A} (l : list A) k a v : mulv (gram l k a) v = vsum l (fun x => scale4 (k x * dot4 (a x) v) (a x)).
Proof.
  unfold mulv, gram. cbn [r0 r1 r2 r3]. rewrite !dot_vsum. unfold vsum. cbn [c0 c1 c2 c3]. f_equal; apply sum_over_ext; intros x _; rewrite dot_scale; unfold scale4; cbn [c0 c1 c2 c3]; ring.
Qed.
Lemma gram_form {A} (l : list A) k a v : dot4 (mulv (gram l k a) v) v = sum_over l (fun x => k x * dot4 (a x) v ^ 2).
Proof. rewrite gram_mul, dot_vsum. apply sum_over_ext. intros x _. rewrite dot_scale. ring. Qed.
Lemma sum_zero_all {A} (l : list A) f : (forall x, In x l -> 0 <= f x) -> sum_over l f = 0 -> forall x, In x l -> f x = 0.
Proof.
  induction l as [|y l IH]; intros H E x Hx; [destruct Hx|]. rewrite sum_over_cons in E. pose proof (sum_over_nonneg l f (fun z Hz => H z (or_intror Hz))). pose proof (H y (or_introl eq_refl)).
  destruct Hx as [->|Hx]; [lra|]. apply IH; [intros; apply H; now right|lra|assumption].
Qed.
(** Positive weights: the matrix is invertible when the rows separate the vectors. *)
Lemma gram_det {A} (l : list A) k a : (forall x, In x l -> 0 < k x) -> (forall v, (forall x, In x l -> dot4 (a x) v = 0) -> v = zero4) -> det4 (gram l k a) <> 0.
Proof.
  intros Hk Hv E. destruct (ker4 _ E) as (v & N & K). apply N, Hv. intros x Hx. pose proof (gram_form l k a v) as F. rewrite K in F. replace (dot4 zero4 v) with 0 in F by (unfold dot4, zero4; cbn; ring).
  assert (Z : k x * dot4 (a x) v ^ 2 = 0) by (apply (sum_zero_all l (fun x => k x * dot4 (a x) v ^ 2)); [intros y Hy; specialize (Hk y Hy); pose proof (pow2_ge_0 (dot4 (a y) v)); nra|now rewrite <- F|assumption]).
  specialize (Hk x Hx). apply Rmult_integral in Z. destruct Z as [Z|Z]; [lra|]. destruct (Req_dec (dot4 (a x) v) 0) as [|Q]; [assumption|]. apply (pow_nonzero _ 2) in Q. contradiction.
Qed.
Lemma gram_separates {A} (l : list A) k a v : det4 (gram l k a) <> 0 -> (forall x, In x l -> dot4 (a x) v = 0) -> v = zero4.
Proof.
  intros D H. destruct (inv_det _ D) as [n E]. destruct (inv_ok _ _ E) as (L & _ & _). rewrite <- (L v), gram_mul, vsum_zero; [apply mulv_zero|]. intros x Hx. rewrite H by assumption. rewrite Rmult_0_r. apply scale_0.
Qed.
(** The solution of the normal equations minimises the weighted squares. *)
Lemma normal_minimum {A} (l : list A) k a s n e : (forall x, In x l -> 0 <= k x) -> inv4 (gram l k a) = Ok n -> e = mulv n (vsum l (fun x => scale4 (k x * s x) (a x))) ->
  forall p, sum_over l (fun x => k x * (s x - dot4 (a x) p) ^ 2) = sum_over l (fun x => k x * (s x - dot4 (a x) e) ^ 2) + sum_over l (fun x => k x * dot4 (a x) (sub4 p e) ^ 2).
Proof.
  intros Hk Hn He p. destruct (inv_ok _ _ Hn) as (_ & R & _).
  assert (N : mulv (gram l k a) e = vsum l (fun x => scale4 (k x * s x) (a x))) by (rewrite He; apply R).
  assert (C : sum_over l (fun x => k x * (s x - dot4 (a x) e) * dot4 (a x) (sub4 p e)) = 0).
  { transitivity (dot4 (vsum l (fun x => scale4 (k x * s x) (a x))) (sub4 p e) - dot4 (mulv (gram l k a) e) (sub4 p e)).
    - rewrite gram_mul, !dot_vsum. rewrite <- (Rplus_0_r (_ - _)). unfold Rminus. rewrite <- (Rmult_1_l (sum_over l (fun x => dot4 (scale4 (k x * dot4 (a x) e) (a x)) (sub4 p e)))), Ropp_mult_distr_l, <- sum_over_scal, <- sum_over_plus, Rplus_0_r. apply sum_over_ext. intros x _. rewrite !dot_scale. ring.
    - rewrite N. ring. }
  rewrite <- (Rplus_0_r (_ + _)). rewrite <- (Rmult_0_r (-2)), <- C, <- sum_over_scal, <- !sum_over_plus. apply sum_over_ext. intros x _.
  replace (dot4 (a x) p) with (dot4 (a x) e + dot4 (a x) (sub4 p e)) by (unfold dot4, sub4; cbn; ring). ring.
Qed.

(** ** Deconvolution *)
From Verif Require Import EulerSpec PointGravityModel DistanceModel PrismModel.
Definition params (s : position) (b : R) : v4 := V4 (p_e s) (p_n s) (p_u s) b.
Lemma homogeneity_dot si s b d : homogeneity si s b d = pseudo_data si d - dot4 (deconv_jacobian si d) (params s b).
Proof. unfold homogeneity, pseudo_data, dot4, deconv_jacobian, params. cbn. ring. Qed.
Lemma squared_misfit_dot si s b l : squared_misfit si s b l = sum_over l (fun d => 1 * (pseudo_data si d - dot4 (deconv_jacobian si d) (params s b)) ^ 2).
Proof. apply sum_over_ext. intros d _. rewrite homogeneity_dot. ring. Qed.
Lemma params_ext v : params (Pos (c0 v) (c1 v) (c2 v)) (c3 v) = v.
Proof. now dv v. Qed.
Lemma deconv_inv si l r : deconv_fit si l = Ok r -> exists n, inv4 (gram l (fun _ => 1) (deconv_jacobian si)) = Ok n /\
  params (d_location r) (d_base_level r) = mulv n (vsum l (fun d => scale4 (1 * pseudo_data si d) (deconv_jacobian si d))).
Proof.
  unfold deconv_fit. destruct (inv4 _) as [n|] eqn:E; [|discriminate]. cbn [bind]. cbv zeta. intros H. exists n. split; [reflexivity|]. injection H as <-. cbn [d_location d_base_level]. replace (vsum l (fun d => scale4 (1 * pseudo_data si d) (deconv_jacobian si d))) with (vsum l (fun d => scale4 (pseudo_data si d) (deconv_jacobian si d))) by (apply vsum_ext; intros x _; now rewrite Rmult_1_l). reflexivity.
Qed.
Lemma deconv_minimum si l r : deconv_fit si l = Ok r -> forall s b, squared_misfit si (d_location r) (d_base_level r) l <= squared_misfit si s b l /\
  (squared_misfit si s b l <= squared_misfit si (d_location r) (d_base_level r) l -> s = d_location r /\ b = d_base_level r).
Proof.
  intros H s b. destruct (deconv_inv si l r H) as (n & En & Ee). rewrite !squared_misfit_dot.
  pose proof (normal_minimum l (fun _ => 1) (deconv_jacobian si) (pseudo_data si) n _ (fun _ _ => Rle_0_1) En Ee (params s b)) as M. rewrite M.
  set (e := params (d_location r) (d_base_level r)) in *. set (T := sum_over l (fun x => 1 * dot4 (deconv_jacobian si x) (sub4 (params s b) e) ^ 2)) in *.
  assert (P : forall x, In x l -> 0 <= 1 * dot4 (deconv_jacobian si x) (sub4 (params s b) e) ^ 2) by (intros x _; rewrite Rmult_1_l; apply pow2_ge_0).
  assert (P0 : 0 <= T) by (apply sum_over_nonneg; exact P). split; [lra|]. intros L. assert (Z : T = 0) by lra.
  assert (V : sub4 (params s b) e = zero4).
  { destruct (inv_ok _ _ En) as (_ & _ & D). apply (gram_separates l (fun _ => 1) (deconv_jacobian si)); [exact D|]. intros x Hx. pose proof (sum_zero_all l _ P Z x Hx) as Q. cbv beta in Q. rewrite Rmult_1_l in Q. destruct (Req_dec (dot4 (deconv_jacobian si x) (sub4 (params s b) e)) 0) as [|N]; [assumption|]. apply (pow_nonzero _ 2) in N. contradiction. }
  unfold sub4, zero4, e, params in V. cbn in V. injection V as V0 V1 V2 V3. destruct s as [s0 s1 s2], (d_location r) as [t0 t1 t2]. cbn in *. split; [f_equal; lra|lra].
Qed.
Lemma independent_det si l : si <> 0 -> independent l <-> det4 (gram l (fun _ => 1) (deconv_jacobian si)) <> 0.
Proof.
  intros Hs. split.
  - intros I. apply gram_det; [intros; lra|]. intros v Hv. destruct (I (c0 v) (c1 v) (c2 v) (si * c3 v)) as (A & B & C & D).
    + apply Forall_forall. intros x Hx. specialize (Hv x Hx). unfold dot4, deconv_jacobian in Hv. cbn in Hv. lra.
    + dv v. unfold zero4. cbn in *. f_equal; try assumption. apply Rmult_integral in D. destruct D; [contradiction|assumption].
  - intros D a b c d F. rewrite Forall_forall in F. assert (Z : V4 a b c (d / si) = zero4).
    + apply (gram_separates l (fun _ => 1) (deconv_jacobian si)); [exact D|]. intros x Hx. specialize (F x Hx). unfold dot4, deconv_jacobian. cbn. replace (si * (d / si)) with d by (field; assumption). lra.
    + unfold zero4 in Z. injection Z as -> -> -> E. repeat split. replace d with (d / si * si) by (field; assumption). rewrite E. ring.
Qed.
Lemma deconv_succeeds si l : si <> 0 -> (independent l -> exists r, deconv_fit si l = Ok r) /\ (~ independent l -> deconv_fit si l = Raise LinAlgError).
Proof.
  intros Hs. rewrite (independent_det si l Hs). unfold deconv_fit, inv4. destruct (Reqb_spec (det4 (gram l (fun _ => 1) (deconv_jacobian si))) 0) as [E|N]; split; intros H.
  - contradiction.
  - reflexivity.
  - cbn [bind]. cbv zeta. eauto.
  - exfalso. now apply H.
Qed.
Lemma deconv_exact si l s b r : Forall (fun d => homogeneity si s b d = 0) l -> deconv_fit si l = Ok r -> d_location r = s /\ d_base_level r = b.
Proof.
  intros F H. destruct (deconv_minimum si l r H s b) as [_ U]. destruct U as [-> ->]; [|now split].
  replace (squared_misfit si s b l) with 0; [apply sum_over_nonneg; intros; apply pow2_ge_0|]. symmetry. apply sum_over_zero. intros d Hd. rewrite Forall_forall in F. rewrite (F d Hd). ring.
Qed.

(** ** Newton step *)
Lemma weighted_pos w r : 0 < c0 w -> 0 < c1 w -> 0 < c2 w -> 0 < c3 w -> 0 <= weighted w r.
Proof. intros. unfold weighted. pose proof (pow2_ge_0 (c0 r)). pose proof (pow2_ge_0 (c1 r)). pose proof (pow2_ge_0 (c2 r)). pose proof (pow2_ge_0 (c3 r)). nra. Qed.
Definition winv (w : v4) : v4 := V4 (1 / c0 w) (1 / c1 w) (1 / c2 w) (1 / c3 w).
Definition positive4 (w : v4) : Prop := 0 < c0 w /\ 0 < c1 w /\ 0 < c2 w /\ 0 < c3 w.
Lemma q_pos si w p r : si <> 0 -> positive4 w -> 0 < q_of si (winv w) p r.
Proof.
  intros Hs (W0 & W1 & W2 & W3). unfold q_of, data_jacobian, dot4, mul4, winv. cbn [c0 c1 c2 c3].
  assert (A : forall x y, 0 < y -> 0 <= x * x * (1 / y)) by (intros x y Hy; apply Rmult_le_pos; [nra|apply Rlt_le, Rdiv_lt_0_compat; lra]).
  pose proof (A (p_e (w_pos r) - c0 p) _ W1). pose proof (A (p_n (w_pos r) - c1 p) _ W2). pose proof (A (p_u (w_pos r) - c2 p) _ W3).
  assert (0 < si * si * (1 / c0 w)) by (apply Rmult_lt_0_compat; [nra|apply Rdiv_lt_0_compat; lra]). lra.
Qed.
(** Cauchy-Schwarz: among residuals with a given [b . r] the weighted sum of squares is at least ... *)
Lemma cauchy w b r : positive4 w -> dot4 b r ^ 2 <= dot4 (mul4 b b) (winv w) * weighted w r.
Proof.
  intros (W0 & W1 & W2 & W3). dv w. dv b. dv r. unfold dot4, mul4, winv, weighted. cbn [c0 c1 c2 c3] in *.
  assert (S : forall a, 0 < a -> exists t, 0 < t /\ t ^ 2 = a) by (intros a Ha; exists (sqrt a); split; [now apply sqrt_lt_R0|apply pow2_sqrt; lra]).
  destruct (S x W0) as (t0 & T0 & <-). destruct (S x0 W1) as (t1 & T1 & <-). destruct (S x1 W2) as (t2 & T2 & <-). destruct (S x2 W3) as (t3 & T3 & <-).
  replace x3 with (t0 * (x3 / t0)) by (field; lra). replace x4 with (t1 * (x4 / t1)) by (field; lra). replace x5 with (t2 * (x5 / t2)) by (field; lra). replace x6 with (t3 * (x6 / t3)) by (field; lra).
  set (a0 := x3 / t0). set (a1 := x4 / t1). set (a2 := x5 / t2). set (a3 := x6 / t3). clearbody a0 a1 a2 a3.
  replace (t0 * a0 * (t0 * a0) * (1 / t0 ^ 2) + t1 * a1 * (t1 * a1) * (1 / t1 ^ 2) + t2 * a2 * (t2 * a2) * (1 / t2 ^ 2) + t3 * a3 * (t3 * a3) * (1 / t3 ^ 2)) with (a0 ^ 2 + a1 ^ 2 + a2 ^ 2 + a3 ^ 2) by (field; repeat split; lra).
  replace (t0 * a0 * x7 + t1 * a1 * x8 + t2 * a2 * x9 + t3 * a3 * x10) with (a0 * (t0 * x7) + a1 * (t1 * x8) + a2 * (t2 * x9) + a3 * (t3 * x10)) by ring.
  replace (t0 ^ 2 * x7 ^ 2 + t1 ^ 2 * x8 ^ 2 + t2 ^ 2 * x9 ^ 2 + t3 ^ 2 * x10 ^ 2) with ((t0 * x7) ^ 2 + (t1 * x8) ^ 2 + (t2 * x9) ^ 2 + (t3 * x10) ^ 2) by ring.
  set (b0 := t0 * x7). set (b1 := t1 * x8). set (b2 := t2 * x9). set (b3 := t3 * x10). clearbody b0 b1 b2 b3.
  pose proof (pow2_ge_0 (a0 * b1 - a1 * b0)). pose proof (pow2_ge_0 (a0 * b2 - a2 * b0)). pose proof (pow2_ge_0 (a0 * b3 - a3 * b0)). pose proof (pow2_ge_0 (a1 * b2 - a2 * b1)). pose proof (pow2_ge_0 (a1 * b3 - a3 * b1)). pose proof (pow2_ge_0 (a2 * b3 - a3 * b2)). nra.
Qed.
Section Step.
Variable si : R.
Variable w par : v4.
Hypothesis Hs : si <> 0.
Hypothesis Hw : positive4 w.
Let a (r : row) := parameter_jacobian si (w_pred r).
Let b (r : row) := data_jacobian si (w_pos r) par.
Let q := q_of si (winv w) par.
Let euler (r : row) := eulers_equation si (w_pos r) (w_pred r) par.
Let br (r : row) := dot4 (b r) (residual r).
Definition new_row (step : v4) (r : row) : row :=
  Row (w_pos r) (w_obs r) (add4 (w_pred r) (sub4 (residual r) (scale4 (/ q_of si (winv w) par r * (dot4 (data_jacobian si (w_pos r) par) (residual r) + eulers_equation si (w_pos r) (w_pred r) par + dot4 (parameter_jacobian si (w_pred r)) step)) (mul4 (winv w) (data_jacobian si (w_pos r) par))))).
Lemma step_inv l step l' cof : newton_step si (winv w) par l = Ok (step, l', cof) ->
  inv4 (gram l (fun r => / q r) a) = Ok cof /\ step = mulv cof (vsum l (fun r => scale4 (/ q r * (- (euler r + br r))) (a r))) /\ l' = map (new_row step) l.
Proof.
  unfold newton_step. destruct (existsb _ l); [discriminate|]. fold q. fold a. change (fun r => / q_of si (winv w) par r) with (fun r => / q r) in *.
  destruct (inv4 (gram l (fun r => / q r) a)) as [n|] eqn:E; [|discriminate]. cbn [bind]. cbv zeta. intros H. injection H as H1 H2 H3. subst cof. split; [reflexivity|].
  assert (S : step = mulv n (vsum l (fun r => scale4 (/ q r * (- (euler r + br r))) (a r)))).
  { rewrite <- H1, <- mulv_scale_r. f_equal. unfold vsum, scale4. cbn [c0 c1 c2 c3]. f_equal; rewrite <- sum_over_scal; apply sum_over_ext; intros x _; unfold q, euler, br, b, a; ring. }
  split; [exact S|]. rewrite <- H2. apply map_ext. intros r. unfold new_row. rewrite H1. reflexivity.
Qed.
Lemma step_exists l : (forall v, (forall r, In r l -> dot4 (a r) v = 0) -> v = zero4) -> exists step cof, newton_step si (winv w) par l = Ok (step, map (new_row step) l, cof).
Proof.
  intros Hv. assert (D : det4 (gram l (fun r => / q r) a) <> 0) by (apply gram_det; [intros r _; apply Rinv_0_lt_compat, q_pos; assumption|exact Hv]).
  destruct (inv_det _ D) as [n E]. destruct (newton_step si (winv w) par l) as [[[step l'] cof]|] eqn:F.
  - destruct (step_inv l step l' cof F) as (_ & _ & ->). eauto.
  - exfalso. unfold newton_step in F. destruct (existsb _ l) eqn:X.
    + apply existsb_exists in X. destruct X as (r & _ & X). pose proof (q_pos si w par r Hs Hw). apply Reqb_true in X. lra.
    + change (inv4 (gram l (fun r => / q_of si (winv w) par r) (fun r => parameter_jacobian si (w_pred r)))) with (inv4 (gram l (fun r => / q r) a)) in F. rewrite E in F. discriminate.
Qed.
(** The step satisfies the linearised equations ... *)
Lemma step_feasible step r : euler r + dot4 (a r) step + dot4 (b r) (sub4 (w_pred (new_row step r)) (w_pred r)) = 0.
Proof.
  pose proof (q_pos si w par r Hs Hw) as Q. unfold new_row. cbn [w_pred]. fold (euler r). fold (a r). fold (b r). fold (br r). fold (q r) in Q |- *.
  assert (E : dot4 (b r) (mul4 (winv w) (b r)) = q r) by (unfold q, q_of; fold (b r); unfold dot4, mul4; cbn; ring).
  set (lam := br r + euler r + dot4 (a r) step).
  replace (dot4 (b r) (sub4 (add4 (w_pred r) (sub4 (residual r) (scale4 (/ q r * lam) (mul4 (winv w) (b r))))) (w_pred r))) with (dot4 (b r) (residual r) - / q r * lam * dot4 (b r) (mul4 (winv w) (b r))) by (unfold dot4, sub4, add4, scale4; cbn; ring).
  rewrite E. fold (br r). unfold lam. field. lra.
Qed.
Lemma step_weight step r : weighted w (sub4 (w_obs r) (w_pred (new_row step r))) = / q r * (br r + euler r + dot4 (a r) step) ^ 2.
Proof.
  pose proof (q_pos si w par r Hs Hw) as Q. unfold new_row. cbn [w_pred]. fold (euler r). fold (a r). fold (b r). fold (br r). fold (q r) in Q |- *. set (lam := br r + euler r + dot4 (a r) step).
  transitivity ((/ q r * lam) ^ 2 * q r).
  - destruct Hw as (W0 & W1 & W2 & W3). unfold q at 3, q_of. fold (b r). unfold weighted, residual, sub4, add4, scale4, mul4, winv, dot4. cbn [c0 c1 c2 c3]. field. repeat split; lra.
  - field. lra.
Qed.
(** ... and no other step that does has smaller weighted residuals. *)
Lemma step_optimal l step l' cof : newton_step si (winv w) par l = Ok (step, l', cof) ->
  forall (dp : v4) (dd : row -> v4), (forall r, In r l -> euler r + dot4 (a r) dp + dot4 (b r) (dd r) = 0) ->
    sum_over l' (fun r => weighted w (residual r)) <= sum_over l (fun r => weighted w (sub4 (residual r) (dd r))).
Proof.
  intros H dp dd F. destruct (step_inv l step l' cof H) as (E & S & ->). rewrite sum_over_map.
  rewrite (sum_over_ext l (fun r => weighted w (residual (new_row step r))) (fun r => / q r * (- (euler r + br r) - dot4 (a r) step) ^ 2)).
  2:{ intros r _. transitivity (weighted w (sub4 (w_obs r) (w_pred (new_row step r)))); [reflexivity|]. rewrite step_weight. ring. }
  apply Rle_trans with (sum_over l (fun r => / q r * (- (euler r + br r) - dot4 (a r) dp) ^ 2)).
  - rewrite (normal_minimum l (fun r => / q r) a (fun r => - (euler r + br r)) cof step (fun r _ => Rlt_le _ _ (Rinv_0_lt_compat _ (q_pos si w par r Hs Hw))) E S dp).
    assert (0 <= sum_over l (fun r => / q r * dot4 (a r) (sub4 dp step) ^ 2)); [|lra]. apply sum_over_nonneg. intros r _. apply Rmult_le_pos; [apply Rlt_le, Rinv_0_lt_compat, q_pos; assumption|apply pow2_ge_0].
  - clear - F Hs Hw. induction l as [|r l IH]; [unfold sum_over; cbn; lra|]. rewrite !sum_over_cons. apply Rplus_le_compat; [|apply IH; intros; apply F; now right].
    specialize (F r (or_introl eq_refl)). pose proof (q_pos si w par r Hs Hw) as Q. fold (q r) in Q.
    replace ((- (euler r + br r) - dot4 (a r) dp) ^ 2) with (dot4 (b r) (sub4 (residual r) (dd r)) ^ 2) by (replace (dot4 (b r) (sub4 (residual r) (dd r))) with (br r - dot4 (b r) (dd r)) by (unfold br, dot4, sub4; cbn; ring); replace (dot4 (b r) (dd r)) with (- euler r - dot4 (a r) dp) by lra; ring).
    pose proof (cauchy w (b r) (sub4 (residual r) (dd r)) Hw) as C. change (dot4 (mul4 (b r) (b r)) (winv w)) with (q r) in C.
    apply Rmult_le_reg_l with (q r); [exact Q|]. rewrite <- Rmult_assoc, Rinv_r, Rmult_1_l by lra. exact C.
Qed.
End Step.

(** ** Exact data *)
Definition data_row (k : R) (x : position * v4) : row := Row (fst x) (snd x) (scale4 k (snd x)).
Lemma data_row_1 l : map (data_row 1) l = map (fun x => Row (fst x) (snd x) (snd x)) l.
Proof. apply map_ext. intros [p v]. dv v. unfold data_row, scale4. cbn. f_equal. f_equal; ring. Qed.
Lemma independent_scaled si k l : si <> 0 -> k <> 0 -> independent l -> forall v, (forall r, In r (map (data_row k) l) -> dot4 (parameter_jacobian si (w_pred r)) v = 0) -> v = zero4.
Proof.
  intros Hs Hk I v H. destruct (I (k * c0 v) (k * c1 v) (k * c2 v) (si * c3 v)) as (A & B & C & D).
  - apply Forall_forall. intros x Hx. specialize (H _ (in_map (data_row k) l x Hx)). unfold dot4, parameter_jacobian, data_row, scale4 in H. cbn in H. lra.
  - dv v. unfold zero4. cbn in *. f_equal; match goal with E : ?a * ?x = 0 |- ?x = 0 => apply Rmult_integral in E; destruct E; [contradiction|assumption] end.
Qed.
Lemma exact_step si w s b k l : si <> 0 -> positive4 w -> k <> 0 -> independent l -> Forall (fun d => homogeneity si s b d = 0) l ->
  exists cof, newton_step si (winv w) (params s b) (map (data_row k) l) = Ok (zero4, map (data_row 1) l, cof).
Proof.
  intros Hs Hw Hk I F. rewrite Forall_forall in F. destruct (step_exists si w (params s b) Hs Hw (map (data_row k) l) (independent_scaled si k l Hs Hk I)) as (step & cof & E).
  assert (Z : forall x, In x l -> eulers_equation si (fst x) (scale4 k (snd x)) (params s b) + dot4 (data_jacobian si (fst x) (params s b)) (residual (data_row k x)) = 0).
  { intros x Hx. rewrite <- (F x Hx). unfold homogeneity, eulers_equation, dot4, data_jacobian, residual, data_row, sub4, scale4, params. cbn. ring. }
  destruct (step_inv si w (params s b) _ _ _ _ E) as (_ & S & _). assert (S0 : step = zero4).
  { rewrite S, vsum_zero; [apply mulv_zero|]. intros r Hr. apply in_map_iff in Hr. destruct Hr as (x & <- & Hx). cbn [w_pos w_pred data_row]. rewrite (Z x Hx). rewrite Ropp_0, Rmult_0_r. apply scale_0. }
  rewrite S0 in E. exists cof. rewrite E. do 3 f_equal. rewrite map_map. apply map_ext_in. intros x Hx. unfold new_row. cbn [w_pos w_pred w_obs data_row]. specialize (Z x Hx).
  replace (dot4 (data_jacobian si (fst x) (params s b)) (residual (data_row k x)) + eulers_equation si (fst x) (scale4 k (snd x)) (params s b) + dot4 (parameter_jacobian si (scale4 k (snd x))) zero4) with 0.
  2:{ replace (dot4 (parameter_jacobian si (scale4 k (snd x))) zero4) with 0 by (unfold dot4, zero4; cbn; ring). lra. }
  rewrite Rmult_0_r. unfold data_row. f_equal. unfold add4, sub4, scale4, residual, mul4. cbn [w_obs w_pred c0 c1 c2 c3]. destruct (snd x) as [y0 y1 y2 y3]. cbn [sub4 scale4 c0 c1 c2 c3]. f_equal; cbn; ring.
Qed.
Lemma add_zero_r v : add4 v zero4 = v.
Proof. dv v. unfold add4, zero4. cbn. f_equal; ring. Qed.
Lemma exact_merit si balance w s b l : Forall (fun d => homogeneity si s b d = 0) l -> data_misfit w (map (data_row 1) l) = 0 /\ merit si balance w (params s b) (map (data_row 1) l) = 0.
Proof.
  intros F. rewrite Forall_forall in F. assert (A : data_misfit w (map (data_row 1) l) = 0).
  { unfold data_misfit. rewrite sum_over_map, sum_over_zero; [apply sqrt_0|]. intros x _. unfold dot4, mul4, residual, data_row, sub4, scale4. cbn. ring. }
  split; [exact A|]. unfold merit. rewrite A. unfold euler_misfit. rewrite sum_over_map, sum_over_zero; [rewrite sqrt_0; ring|]. intros x Hx. specialize (F x Hx).
  replace (eulers_equation si (w_pos (data_row 1 x)) (w_pred (data_row 1 x)) (params s b)) with 0; [ring|]. rewrite <- F. unfold homogeneity, eulers_equation, data_row, scale4, params. cbn. ring.
Qed.
Lemma exact_iterate si tol balance w s b l : si <> 0 -> positive4 w -> independent l -> Forall (fun d => homogeneity si s b d = 0) l ->
  forall n k m c, k <> 0 -> (k = 1 \/ n <> O) -> exists c' wn, iterate si tol balance w (winv w) n (params s b) (map (data_row k) l) c m = Ok (params s b, map (data_row 1) l, c', wn) /\ (n <> O -> c' <> None) /\ (n = O -> c' = c) /\ (k = 1 -> m = 0 -> wn = true) /\ (tol <= 1 -> wn = true).
Proof.
  intros Hs Hw I F. destruct (exact_merit si balance w s b l F) as [_ M]. induction n as [|n IH]; intros k m c Hk Hn.
  - destruct Hn as [->|N]; [|now elim N]. exists c, true. cbn [iterate]. repeat split; easy.
  - cbn [iterate]. destruct (exact_step si w s b k l Hs Hw Hk I F) as [cof ->]. cbn [bind]. cbv zeta. rewrite add_zero_r, M.
    destruct (negb (Reqb m 0) && Rltb (Rabs ((m - 0) / m)) tol)%bool eqn:T.
    + exists (Some cof), false. apply andb_prop in T. destruct T as [T0 T1]. destruct (Reqb_spec m 0) as [|N]; [discriminate|]. apply Rltb_true in T1. replace ((m - 0) / m) with 1 in T1 by (field; assumption). rewrite Rabs_R1 in T1. repeat split; try easy. intros L. exfalso. lra.
    + destruct (IH 1 0 (Some cof)) as (c' & wn & E & A & B & C & D); [lra|now left|]. exists c', wn. rewrite E. split; [reflexivity|]. split.
      * intros _. destruct n as [|n]; [rewrite B by reflexivity; discriminate|apply A; discriminate].
      * split; [easy|]. split; intros; apply C; reflexivity.
Qed.

(** ** Inversion *)
Lemma mscale_0 m : mscale 0 m = M4 zero4 zero4 zero4 zero4.
Proof. unfold mscale. now rewrite !scale_0. Qed.
Lemma exact_inversion i si l a b c d s bl : si <> 0 -> 0 < a -> 0 < b -> 0 < c -> 0 < d -> independent l -> Forall (fun x => homogeneity si s bl x = 0) l -> i_max_iterations i <> O ->
  exists wn, inversion_fit i si l [a; b; c; d] = Ok (Solution si s bl (M4 zero4 zero4 zero4 zero4) (Some 0) wn) /\ (i_tol i <= 1 -> wn = true).
Proof.
  intros Hs Pa Pb Pc Pd I F N. unfold inversion_fit, EulerDeconvolution. destruct (Reqb_spec si 0) as [|_]; [contradiction|]. cbn [bind].
  destruct (proj1 (deconv_succeeds si l Hs) I) as [r Er]. rewrite Er. cbn [bind]. cbv zeta. destruct (deconv_exact si l s bl r F Er) as [El Eb]. rewrite El, Eb.
  replace (existsb (fun w => Reqb w 0) [a; b; c; d]) with false.
  2:{ symmetry. cbn [existsb]. repeat (match goal with |- context[Reqb ?x 0] => destruct (Reqb_spec x 0); [lra|] end). reflexivity. }
  cbn [length Nat.eqb negb andb].
  destruct (exact_iterate si (i_tol i) (i_balance i) (V4 a b c d) s bl l Hs (conj Pa (conj Pb (conj Pc Pd))) I F (i_max_iterations i) (9 / 10) (merit si (i_balance i) (V4 a b c d) (params s bl) (map (data_row (9 / 10)) l)) None) as (c' & wn & E & A & _ & _ & D); [lra|now right|].
  unfold params, winv, data_row in E. cbn [c0 c1 c2 c3] in E. change (fun x : position * v4 => Row (fst x) (snd x) (scale4 (9 / 10) (snd x))) with (data_row (9/10)) in *. rewrite E. cbn [bind]. specialize (A N). destruct c' as [cof|]; [|now elim A].
  exists wn. split; [|exact D]. fold (data_row 1). destruct (exact_merit si 0 (V4 a b c d) s bl l F) as [M _].
  change (map (fun x : position * v4 => {| w_pos := fst x; w_obs := snd x; w_pred := scale4 1 (snd x) |}) l) with (map (data_row 1) l). rewrite M.
  replace (sum_over (map (data_row 1) l) (fun r0 => dot4 (residual r0) (residual r0))) with 0.
  2:{ symmetry. rewrite sum_over_map. apply sum_over_zero. intros x _. unfold dot4, residual, data_row, sub4, scale4. cbn. ring. }
  unfold Rdiv. rewrite Rmult_0_l, mscale_0. cbn [c0 c1 c2 c3]. destruct s. reflexivity.
Qed.

Lemma fit_misfit i si l w s : inversion_fit i si l w = Ok s -> s_index s = si /\ exists m, s_misfit s = Some m.
Proof.
  unfold inversion_fit, EulerDeconvolution. destruct (Reqb si 0); [discriminate|]. cbn [bind]. destruct (deconv_fit si l) as [dr|]; [|discriminate]. cbn [bind]. cbv zeta.
  destruct w as [|a [|b [|c [|d o]]]]; try discriminate. destruct (existsb _ _); [discriminate|]. destruct (_ && _)%bool; [discriminate|]. destruct (iterate _ _ _ _ _ _ _ _ _ _) as [[[[p l'] cof] wn]|]; [|discriminate]. cbn [bind].
  destruct cof; [|discriminate]. intros H. injection H as <-. cbn. eauto.
Qed.
Definition single_of (i : inversion) (si : R) : inversion := Inversion (Single si) (i_max_iterations i) (i_tol i) (i_balance i).
Lemma fit_single_of i si l w : inversion_fit (single_of i si) si l w = inversion_fit i si l w.
Proof. reflexivity. Qed.
Lemma candidates_spec i l w : forall sis acc cs, for_ sis (fun si acc => do one <- EulerInversion (Single si) (i_max_iterations i) (i_tol i) (i_balance i); do s <- inversion_fit one si l w; Ok (acc ++ [s])) acc = Ok cs <->
  exists ss, cs = acc ++ ss /\ Forall2 (fun si s => si <> 0 /\ inversion_fit (single_of i si) si l w = Ok s) sis ss.
Proof.
  induction sis as [|si sis IH]; intros acc cs; cbn [for_].
  - split.
    + intros H. injection H as <-. exists []. rewrite app_nil_r. split; [reflexivity|constructor].
    + intros (ss & -> & F). inversion F. now rewrite app_nil_r.
  - unfold EulerInversion at 1. destruct (Reqb_spec si 0) as [Z|Z].
    + cbn [bind]. split; [discriminate|]. intros (ss & _ & F). inversion F as [|? ? ? ? [N _]]. contradiction.
    + cbn [bind]. fold (single_of i si). destruct (inversion_fit (single_of i si) si l w) as [s|] eqn:E; cbn [bind].
      * rewrite IH. split.
        -- intros (ss & -> & F). exists (s :: ss). rewrite <- app_assoc. split; [reflexivity|]. now constructor.
        -- intros (ss & -> & F). inversion F as [|? ? ? ? [_ E'] F']. subst. rewrite E in E'. injection E' as ->. eexists. rewrite <- app_assoc. split; [reflexivity|assumption].
      * split; [discriminate|]. intros (ss & _ & F). inversion F as [|? ? ? ? [_ E']]. subst. rewrite E in E'. discriminate.
Qed.
Definition misfit_of (s : solution) : R := match s_misfit s with Some m => m | None => 0 end.
Definition has_misfit (s : solution) : Prop := exists m, s_misfit s = Some m.
Lemma argmin_first : forall l best, has_misfit best -> Forall has_misfit l -> exists k, nth_error (best :: l) k = Some (argmin best l) /\
  (forall j s, nth_error (best :: l) j = Some s -> misfit_of (argmin best l) <= misfit_of s) /\ (forall j s, (j < k)%nat -> nth_error (best :: l) j = Some s -> misfit_of (argmin best l) < misfit_of s).
Proof.
  induction l as [|x l IH]; intros best [mb Hb] F; cbn [argmin].
  - exists O. split; [reflexivity|]. split; [|intros; lia]. intros [|[|j]] s E; cbn in E; try discriminate. injection E as ->. lra.
  - inversion F as [|? ? [mx Hx] F']. subst. rewrite Hx, Hb. destruct (Rltb_spec mx mb) as [L|L].
    + destruct (IH x (ex_intro _ mx Hx) F') as (k & E & A & B). exists (S k). split; [exact E|]. assert (Q : misfit_of (argmin x l) < misfit_of best) by (pose proof (A O x eq_refl) as P; assert (misfit_of x = mx) by (unfold misfit_of; now rewrite Hx); assert (misfit_of best = mb) by (unfold misfit_of; now rewrite Hb); lra).
      split; intros [|j] s; cbn [nth_error].
      * intros E'. injection E' as <-. lra.
      * apply A.
      * intros _ E'. now injection E' as <-.
      * intros Lj. apply B. lia.
    + destruct (IH best (ex_intro _ mb Hb) F') as (k & E & A & B). assert (Q : misfit_of best <= misfit_of x) by (unfold misfit_of; rewrite Hx, Hb; lra).
      destruct k as [|k].
      * exists O. split; [exact E|]. split; [|intros; lia]. intros [|[|j]] s; cbn [nth_error].
        -- apply (A O).
        -- intros E'. injection E' as <-. pose proof (A O best eq_refl). lra.
        -- apply (A (S j)).
      * exists (S (S k)). split; [exact E|]. pose proof (B O best (Nat.lt_0_succ _) eq_refl) as Q0. split; intros [|[|j]] s; cbn [nth_error].
        -- apply (A O).
        -- intros E'. injection E' as <-. lra.
        -- apply (A (S j)).
        -- intros _ E'. now injection E' as <-.
        -- intros _ E'. injection E' as <-. lra.
        -- intros Lj. apply (B (S j)). lia.
Qed.
(** ** Arrays *)
Lemma rows_arrays l : rows (map (fun d => p_e (fst d)) l) (map (fun d => p_n (fst d)) l) (map (fun d => p_u (fst d)) l) (map (fun d => c0 (snd d)) l) (map (fun d => c1 (snd d)) l) (map (fun d => c2 (snd d)) l) (map (fun d => c3 (snd d)) l) = l.
Proof. induction l as [|[[a b c] v] l IH]; [reflexivity|]. dv v. cbn [map rows fst snd p_e p_n p_u c0 c1 c2 c3]. now rewrite IH. Qed.
Lemma check_arrays l : check_input (coordinate_arrays l) (data_arrays l) = Ok l.
Proof.
  unfold check_input, coordinate_arrays, data_arrays. cbn [app forallb]. rewrite !map_length, !Nat.eqb_refl. cbn [negb andb]. now rewrite rows_arrays.
Qed.
Lemma check_sizes coordinates data l : check_input coordinates data = Ok l -> exists n, same_size n (coordinates ++ data) /\ length l = n.
Proof.
  unfold check_input. destruct coordinates as [|c cs]; [discriminate|]. destruct (forallb _ _) eqn:F; [|discriminate]. cbn [negb]. rewrite forallb_forall in F. intros H. exists (length c).
  assert (S : same_size (length c) ((c :: cs) ++ data)) by (apply Forall_forall; intros a Ha; apply Nat.eqb_eq, F, Ha). split; [exact S|]. clear F.
  destruct cs as [|n [|u cs]]; try discriminate. destruct data as [|f [|de [|dn [|du ds]]]]; try discriminate. injection H as <-.
  assert (K : forall e n u f de dn du : list R, length n = length e -> length u = length e -> length f = length e -> length de = length e -> length dn = length e -> length du = length e -> length (rows e n u f de dn du) = length e).
  { clear. induction e as [|x e IH]; intros [|? n] [|? u] [|? f] [|? de] [|? dn] [|? du]; cbn; intros; try discriminate; [reflexivity|]. f_equal. apply IH; congruence. }
  unfold same_size in S. rewrite Forall_forall in S. apply K; apply S; repeat (try (left; reflexivity); right); apply in_or_app; right; cbn; tauto.
Qed.
Lemma check_fails coordinates data : ~ (exists n, same_size n (coordinates ++ data)) \/ (length coordinates < 3)%nat \/ (length data < 4)%nat -> check_input coordinates data = Raise ValueError.
Proof.
  intros H. destruct (check_input coordinates data) as [l|e] eqn:E.
  - exfalso. destruct (check_sizes _ _ _ E) as (m & S & _). destruct H as [H|H]; [eauto|]. unfold check_input in E. destruct coordinates as [|c [|c' [|c'' cs]]]; try discriminate; (destruct (negb _); [discriminate|]); try discriminate. destruct data as [|f [|de [|dn [|du ds]]]]; try discriminate. cbn [length] in H. lia.
  - unfold check_input in E. destruct coordinates as [|c cs]; [now injection E as <-|]. destruct (negb _); [now injection E as <-|]. destruct cs as [|c' [|c'' cs]]; try (now injection E as <-). destruct data as [|f [|de [|dn [|du ds]]]]; try (now injection E as <-). discriminate.
Qed.
Lemma deconv_fit_arrays si l : si <> 0 -> EulerDeconvolution_fit si (coordinate_arrays l) (data_arrays l) = deconv_fit si l.
Proof. intros H. unfold EulerDeconvolution_fit, EulerDeconvolution. destruct (Reqb_spec si 0); [contradiction|]. cbn [bind]. now rewrite check_arrays. Qed.
Lemma deconv_index si coordinates data r : EulerDeconvolution_fit si coordinates data = Ok r -> si <> 0.
Proof. unfold EulerDeconvolution_fit, EulerDeconvolution. destruct (Reqb_spec si 0); [discriminate|auto]. Qed.
Lemma deconv_covariance si l r : deconv_fit si l = Ok r -> (length l = 4%nat -> d_covariance r = None) /\
  (length l <> 4%nat -> exists m, d_covariance r = Some m /\
    forall v, mulv m (vsum l (fun d => scale4 (dot4 (deconv_jacobian si d) v) (deconv_jacobian si d))) = scale4 (squared_misfit si (d_location r) (d_base_level r) l / (INR (length l) - 4)) v).
Proof.
  intros H. destruct (deconv_inv si l r H) as (n & En & Ee). destruct (inv_ok _ _ En) as (L & _ & _). rewrite squared_misfit_dot, Ee. clear Ee. unfold deconv_fit in H. rewrite En in H. cbn [bind] in H. cbv zeta in H. injection H as <-. cbn [d_covariance].
  destruct (Nat.eqb_spec (length l) 4) as [E|N]; split; intros; try contradiction; try reflexivity. eexists. split; [reflexivity|]. intros v.
  assert (S : forall k m x, mulv (mscale k m) x = scale4 k (mulv m x)) by (intros; unfold mulv, mscale, scale4, dot4; cbn; f_equal; ring).
  rewrite S. replace (vsum l (fun d => scale4 (dot4 (deconv_jacobian si d) v) (deconv_jacobian si d))) with (mulv (gram l (fun _ => 1) (deconv_jacobian si)) v) by (rewrite gram_mul; apply vsum_ext; intros; now rewrite Rmult_1_l). rewrite L. replace (vsum l (fun d => scale4 (1 * pseudo_data si d) (deconv_jacobian si d))) with (vsum l (fun d => scale4 (pseudo_data si d) (deconv_jacobian si d))) by (apply vsum_ext; intros x _; now rewrite Rmult_1_l). f_equal. f_equal. apply sum_over_ext. intros x _. now rewrite Rmult_1_l.
Qed.
