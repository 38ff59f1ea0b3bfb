(** Euler's methods in another frame: proofs. *)
From Coq Require Import Psatz Permutation.
From Verif Require Import Base BaseFacts EllipsoidModel EllipsoidSpec EllipsoidRotProofs EulerModel EulerSpec EulerProofs EulerFrameSpec.
Local Open Scope list_scope. Local Open Scope R_scope.

Lemma v4_eq a b c d a' b' c' d' : a = a' -> b = b' -> c = c' -> d = d' -> V4 a b c d = V4 a' b' c' d'.
Proof. intros; subst; reflexivity. Qed.
Definition head3 (v : v4) : vec3 := V3 (c0 v) (c1 v) (c2 v).
Definition join (x : vec3) (s : R) : v4 := V4 (vx x) (vy x) (vz x) s.
Definition P (A : mat3) (k : R) (v : v4) : v4 := join (vscale k (mv A (head3 v))) (c3 v).
Definition E (A : mat3) (k : R) (v : v4) : v4 := join (mv A (head3 v)) (k * c3 v).
Lemma framed_error_E A k v : framed_error A k v = E A k v. Proof. reflexivity. Qed.

Ltac lin := unfold P, E, join, head3, mv, mT, vscale, dot, dot4, scale4, add4, sub4; cbn [vx vy vz c0 c1 c2 c3 row1 row2 row3].

Lemma P_scale A k s v : P A k (scale4 s v) = scale4 s (P A k v). Proof. lin. apply v4_eq; ring. Qed.
Lemma E_scale A k s v : E A k (scale4 s v) = scale4 s (E A k v). Proof. lin. apply v4_eq; ring. Qed.
Lemma E_add A k u v : E A k (add4 u v) = add4 (E A k u) (E A k v). Proof. lin. apply v4_eq; ring. Qed.
Lemma P_dot A k u v : dot4 (P A k u) v = dot4 u (P (mT A) k v). Proof. lin. ring. Qed.
Lemma E_dot A k u v : dot4 (E A k u) v = dot4 u (E (mT A) k v). Proof. lin. ring. Qed.
Lemma P_zero A k : P A k zero4 = zero4. Proof. unfold zero4. lin. apply v4_eq; ring. Qed.
Lemma E_zero A k : E A k zero4 = zero4. Proof. unfold zero4. lin. apply v4_eq; ring. Qed.

Lemma join_scale k x s : scale4 k (join x s) = join (vscale k x) (k * s). Proof. lin. apply v4_eq; reflexivity. Qed.
Lemma join_head v : join (head3 v) (c3 v) = v. Proof. now destruct v. Qed.
Lemma back A v : orthogonal A -> mv (mT A) (mv A v) = v.
Proof. intros [_ H]. rewrite <- mv_mm, H. apply mv_eye. Qed.
Lemma forth A v : orthogonal A -> mv A (mv (mT A) v) = v.
Proof. intros [H _]. rewrite <- mv_mm, H. apply mv_eye. Qed.
Lemma mv_s A k v : mv A (vscale k v) = vscale k (mv A v).
Proof. unfold mv, vscale, dot. cbn [vx vy vz]. apply V3_eq; ring. Qed.
Lemma PtE A k v : orthogonal A -> P (mT A) k (E A k v) = scale4 k v.
Proof. intros O. unfold P, E. replace (head3 (join (mv A (head3 v)) (k * c3 v))) with (mv A (head3 v)) by (now destruct (mv A (head3 v))). rewrite back by exact O. cbn [c3 join]. now destruct v. Qed.
Lemma EPt A k v : orthogonal A -> E A k (P (mT A) k v) = scale4 k v.
Proof.
  intros O. unfold P, E. replace (head3 (join (vscale k (mv (mT A) (head3 v))) (c3 v))) with (vscale k (mv (mT A) (head3 v))) by reflexivity. rewrite mv_s, forth by exact O. cbn [c3 join]. now destruct v.
Qed.
Lemma mT2 A : mT (mT A) = A. Proof. now destruct A as [[] [] []]. Qed.
Lemma orthT A : orthogonal A -> orthogonal (mT A). Proof. apply orthogonal_mT. Qed.
Lemma PEt A k v : orthogonal A -> P A k (E (mT A) k v) = scale4 k v.
Proof. intros O. pose proof (PtE (mT A) k v (orthT A O)) as H. now rewrite mT2 in H. Qed.
Lemma EtP A k v : orthogonal A -> E (mT A) k (P A k v) = scale4 k v.
Proof. intros O. pose proof (EPt (mT A) k v (orthT A O)) as H. now rewrite mT2 in H. Qed.

Lemma mulv_sub m u v : mulv m (add4 u v) = add4 (mulv m u) (mulv m v).
Proof. unfold mulv, add4, dot4. cbn [c0 c1 c2 c3]. apply v4_eq; ring. Qed.
Lemma basis v : v = add4 (add4 (scale4 (c0 v) (V4 1 0 0 0)) (scale4 (c1 v) (V4 0 1 0 0))) (add4 (scale4 (c2 v) (V4 0 0 1 0)) (scale4 (c3 v) (V4 0 0 0 1))).
Proof. destruct v. unfold add4, scale4. cbn. apply v4_eq; ring. Qed.
Lemma columns (f : v4 -> v4) v : (forall a b, f (add4 a b) = add4 (f a) (f b)) -> (forall s a, f (scale4 s a) = scale4 s (f a)) ->
  let a := f (V4 1 0 0 0) in let b := f (V4 0 1 0 0) in let c := f (V4 0 0 1 0) in let d := f (V4 0 0 0 1) in
  mulv (M4 (V4 (c0 a) (c0 b) (c0 c) (c0 d)) (V4 (c1 a) (c1 b) (c1 c) (c1 d)) (V4 (c2 a) (c2 b) (c2 c) (c2 d)) (V4 (c3 a) (c3 b) (c3 c) (c3 d))) v = f v.
Proof.
  intros A S a b c d. rewrite (basis v) at 2. rewrite !A, !S. fold a b c d. clearbody a b c d. unfold mulv, add4, scale4, dot4. cbn [c0 c1 c2 c3 r0 r1 r2 r3]. apply v4_eq; ring.
Qed.
Lemma framed_covariance_mul A k m v : mulv (framed_covariance A k m) v = E A k (mulv m (E (mT A) k v)).
Proof.
  apply (columns (fun v => E A k (mulv m (E (mT A) k v)))).
  - intros. now rewrite E_add, mulv_sub, E_add.
  - intros. now rewrite E_scale, mulv_scale_r, E_scale.
Qed.
Lemma m4_ext m n : (forall v, mulv m v = mulv n v) -> m = n.
Proof.
  intros H. destruct m as [[m0 m1 m2 m3] [m4 m5 m6 m7] [m8 m9 ma mb] [mc md me mf]], n as [[n0 n1 n2 n3] [n4 n5 n6 n7] [n8 n9 na nb] [nc nd ne nf]].
  pose proof (H (V4 1 0 0 0)) as H0. pose proof (H (V4 0 1 0 0)) as H1. pose proof (H (V4 0 0 1 0)) as H2. pose proof (H (V4 0 0 0 1)) as H3.
  unfold mulv, dot4 in H0, H1, H2, H3. cbn in H0, H1, H2, H3. injection H0; injection H1; injection H2; injection H3; intros.
  f_equal; apply v4_eq; lra.
Qed.
Lemma scale4_zero_inv k v : k <> 0 -> scale4 k v = zero4 -> v = zero4.
Proof. intros K H. rewrite <- (scale_1 v), <- (Rinv_l k K), <- scale_scale, H. apply scale_zero. Qed.

(** Inverse of the matrix of the framed problem. *)
Lemma inv_framed A k m m' : orthogonal A -> k <> 0 -> (forall v, mulv m' v = P A k (mulv m (P (mT A) k v))) ->
  inv4 m' = carried (fun n => mscale (/ k ^ 2) (framed_covariance A k n)) (inv4 m).
Proof.
  intros O K H.
  assert (Z : forall v, P (mT A) k v = zero4 -> v = zero4).
  { intros v Hv. apply (scale4_zero_inv k v K). rewrite <- (EPt A k v O), Hv. apply E_zero. }
  assert (Z' : forall v, P A k v = zero4 -> v = zero4).
  { intros v Hv. apply (scale4_zero_inv k v K). rewrite <- (EtP A k v O), Hv. apply E_zero. }
  destruct (inv4 m) as [n|e] eqn:I; cbn [carried].
  - destruct (inv_ok _ _ I) as (L & R & D). assert (D' : det4 m' <> 0).
    { intros F. destruct (ker4 _ F) as (v & N & Kv). apply N, Z. rewrite <- (L (P (mT A) k v)). rewrite H in Kv. rewrite (Z' _ Kv). apply mulv_zero. }
    destruct (inv_det _ D') as [n' I']. rewrite I'. f_equal. destruct (inv_ok _ _ I') as (L' & R' & _).
    apply m4_ext. intros v.
    assert (Q : mulv m' (mulv (mscale (/ k ^ 2) (framed_covariance A k n)) v) = v).
    { rewrite mulv_scale, mulv_scale_r, framed_covariance_mul, H, (PtE A k _ O), mulv_scale_r, R, P_scale, (PEt A k _ O), !scale_scale.
      replace (/ k ^ 2 * k * k) with 1 by (field; exact K). apply scale_1. }
    rewrite <- Q at 1. apply L'.
  - unfold inv4 in *. destruct (Reqb_spec (det4 m) 0) as [D|D]; [|discriminate]. injection I as <-.
    destruct (Reqb_spec (det4 m') 0) as [D'|D']; [reflexivity|]. exfalso. destruct (inv_det _ D') as [n' I']. destruct (inv_ok _ _ I') as (L' & _ & _).
    destruct (ker4 _ D) as (v & N & Kv). apply N. assert (F : E A k v = zero4).
    { rewrite <- (L' (E A k v)), H, (PtE A k v O), mulv_scale_r, Kv, scale_zero, P_zero. apply mulv_zero. }
    apply (scale4_zero_inv k v K). rewrite <- (PtE A k v O), F. apply P_zero.
Qed.

Lemma vsum_P {X} A k (l : list X) f : vsum l (fun x => P A k (f x)) = P A k (vsum l f).
Proof.
  induction l as [|x l IH]; [unfold vsum, sum_over; cbn; symmetry; apply P_zero|].
  assert (C : forall g : X -> v4, vsum (x :: l) g = add4 (g x) (vsum l g)) by (intros; unfold vsum, add4; rewrite !sum_over_cons; reflexivity).
  rewrite !C, IH. lin. apply v4_eq; ring.
Qed.
Lemma vsum_map {X Y} (h : X -> Y) l f : vsum (map h l) f = vsum l (fun x => f (h x)).
Proof. unfold vsum. now rewrite !sum_over_map. Qed.
Lemma vsum_add {X} (l : list X) f g : vsum l (fun x => add4 (f x) (g x)) = add4 (vsum l f) (vsum l g).
Proof. unfold vsum, add4. cbn [c0 c1 c2 c3]. now rewrite !sum_over_plus. Qed.
Lemma vsum_scale {X} (l : list X) k f : vsum l (fun x => scale4 k (f x)) = scale4 k (vsum l f).
Proof. unfold vsum, scale4. cbn [c0 c1 c2 c3]. now rewrite !sum_over_scal. Qed.
Lemma gram_framed {X Y} A k (h : X -> Y) (l : list X) q q' a a' v : (forall x, In x l -> a' (h x) = P A k (a x) /\ q' (h x) = q x) ->
  mulv (gram (map h l) q' a') v = P A k (mulv (gram l q a) (P (mT A) k v)).
Proof.
  intros H. rewrite !gram_mul, vsum_map, <- vsum_P. apply vsum_ext. intros x Hx. destruct (H x Hx) as [-> ->]. now rewrite P_dot, P_scale.
Qed.

(** ** Deconvolution *)
Lemma jac_framed A t k c si d : deconv_jacobian si (framed A t k c d) = P A k (deconv_jacobian si d).
Proof. reflexivity. Qed.
Lemma pseudo_framed A t k c si d : orthogonal A -> pseudo_data si (framed A t k c d) = k * pseudo_data si d + dot4 (P A k (deconv_jacobian si d)) (join t c).
Proof.
  intros O. unfold pseudo_data, framed, framed_position, framed_values. cbn [fst snd p_e p_n p_u c0 c1 c2 c3].
  set (x := V3 (p_e (fst d)) (p_n (fst d)) (p_u (fst d))). set (g := V3 (c1 (snd d)) (c2 (snd d)) (c3 (snd d))).
  assert (D : dot (mv A x) (mv A g) = dot x g) by (apply orthogonal_dot, O).
  replace (p_e (fst d) * c1 (snd d) + p_n (fst d) * c2 (snd d) + p_u (fst d) * c3 (snd d)) with (dot x g) by reflexivity. rewrite <- D.
  unfold P, deconv_jacobian, head3. cbn [c0 c1 c2 c3]. fold g. unfold dot4, join, vadd, vscale, dot. cbn [vx vy vz c0 c1 c2 c3]. ring.
Qed.
Lemma mscale_mscale a b m : mscale a (mscale b m) = mscale (a * b) m.
Proof. unfold mscale. cbn [r0 r1 r2 r3]. now rewrite !scale_scale. Qed.
Lemma framed_covariance_scale A k s m : framed_covariance A k (mscale s m) = mscale s (framed_covariance A k m).
Proof. apply m4_ext. intros v. rewrite mulv_scale, !framed_covariance_mul, mulv_scale, E_scale. reflexivity. Qed.

Lemma deconv_framed A t k c si l : orthogonal A -> k <> 0 ->
  deconv_fit si (map (framed A t k c) l) = carried (framed_deconvolution A t k c) (deconv_fit si l).
Proof.
  intros O K. unfold deconv_fit. cbv zeta.
  rewrite (inv_framed A k (gram l (fun _ => 1) (deconv_jacobian si))); [|exact O|exact K|intros v; apply gram_framed; intros x _; split; reflexivity].
  destruct (inv4 (gram l _ _)) as [n|e] eqn:I; cbn [carried bind]; [|reflexivity].
  destruct (inv_ok _ _ I) as (L & R & D). set (N := mscale (/ k ^ 2) (framed_covariance A k n)).
  set (est := mulv n (vsum l (fun d => scale4 (pseudo_data si d) (deconv_jacobian si d)))).
  assert (Est : mulv N (vsum (map (framed A t k c) l) (fun d => scale4 (pseudo_data si d) (deconv_jacobian si d))) = add4 (E A k est) (join t c)).
  { rewrite vsum_map.
    transitivity (mulv N (add4 (scale4 k (P A k (vsum l (fun d => scale4 (pseudo_data si d) (deconv_jacobian si d))))) (P A k (mulv (gram l (fun _ => 1) (deconv_jacobian si)) (P (mT A) k (join t c)))))).
    - f_equal. rewrite gram_mul, <- !vsum_P, <- vsum_scale, <- vsum_add. apply vsum_ext. intros d _. rewrite jac_framed, pseudo_framed by exact O. rewrite !P_scale, P_dot, scale_scale.
      unfold scale4, add4. cbn [c0 c1 c2 c3]. apply v4_eq; ring.
    - rewrite mulv_sub. unfold N. rewrite !mulv_scale, !framed_covariance_mul, E_scale, !(EtP A k _ O), !mulv_scale_r, L, !E_scale, (EPt A k _ O), !scale_scale. fold est.
      replace (/ k ^ 2 * k * k) with 1 by (field; exact K). now rewrite !scale_1. }
  rewrite Est. f_equal. unfold framed_deconvolution. cbn [d_location d_base_level d_covariance]. f_equal.
  rewrite map_length. destruct (Nat.eqb (length l) 4); [reflexivity|]. cbn [option_map]. f_equal. rewrite sum_over_map, framed_covariance_scale. unfold N. rewrite mscale_mscale. f_equal.
  rewrite (sum_over_ext l _ (fun d => k ^ 2 * (pseudo_data si d - dot4 (deconv_jacobian si d) est) ^ 2)).
  - rewrite sum_over_scal. unfold Rdiv. set (S := sum_over l _). set (M := / (INR (length l) - 4)). field. exact K.
  - intros d _. rewrite jac_framed, pseudo_framed by exact O. rewrite (EulerProofs.dot_sym (P A k (deconv_jacobian si d)) (add4 _ _)), dot_add, E_dot, (EtP A k _ O), (EulerProofs.dot_sym est), dot_scale, (EulerProofs.dot_sym (join t c)). ring.
Qed.

(** ** Inversion *)
Definition Dm (A : mat3) (v : v4) : v4 := let g := mv A (V3 (c1 v) (c2 v) (c3 v)) in V4 (c0 v) (vx g) (vy g) (vz g).
Definition framed_row A t k (r : row) : row := Row (framed_position A t (w_pos r)) (framed_values A k 0 (w_obs r)) (framed_values A k 0 (w_pred r)).
Definition framed_par A t k (p : v4) : v4 := add4 (E A k p) (join t 0).
Definition commutes (A : mat3) (w : v4) : Prop := forall v, Dm A (mul4 w v) = mul4 w (Dm A v).
Ltac dat := unfold Dm, framed_values, mv, vscale, dot, dot4, scale4, add4, sub4; cbn [vx vy vz c0 c1 c2 c3].
Lemma values_Dm A k v : framed_values A k 0 v = scale4 k (Dm A v). Proof. dat. apply v4_eq; ring. Qed.
Lemma Dm_scale A s v : Dm A (scale4 s v) = scale4 s (Dm A v). Proof. dat. apply v4_eq; ring. Qed.
Lemma Dm_sub A u v : Dm A (sub4 u v) = sub4 (Dm A u) (Dm A v). Proof. dat. apply v4_eq; ring. Qed.
Lemma Dm_add A u v : Dm A (add4 u v) = add4 (Dm A u) (Dm A v). Proof. dat. apply v4_eq; ring. Qed.
Lemma Dm_dot A u v : orthogonal A -> dot4 (Dm A u) (Dm A v) = dot4 u v.
Proof.
  intros O. pose proof (orthogonal_dot A (V3 (c1 u) (c2 u) (c3 u)) (V3 (c1 v) (c2 v) (c3 v)) O) as H. unfold dot in H. cbn [vx vy vz] in H. unfold Dm, dot4. cbv zeta. cbn [c0 c1 c2 c3]. lra.
Qed.
Lemma residual_framed A t k r : residual (framed_row A t k r) = scale4 k (Dm A (residual r)).
Proof. unfold residual, framed_row. cbn [w_obs w_pred]. rewrite !values_Dm, Dm_sub. unfold scale4, sub4. cbn [c0 c1 c2 c3]. apply v4_eq; ring. Qed.
Lemma a_framed A t k si r : parameter_jacobian si (w_pred (framed_row A t k r)) = P A k (parameter_jacobian si (w_pred r)).
Proof. unfold parameter_jacobian, framed_row, framed_values. cbn [w_pred]. lin. apply v4_eq; ring. Qed.
Lemma b_framed A t k si p par : data_jacobian si (framed_position A t p) (framed_par A t k par) = Dm A (data_jacobian si p par).
Proof. unfold data_jacobian, framed_position, framed_par, Dm, vadd. lin. cbn [p_e p_n p_u]. apply v4_eq; ring. Qed.
Lemma euler_b si p d par : eulers_equation si p d par = dot4 (data_jacobian si p par) d - si * c3 par.
Proof. unfold eulers_equation, data_jacobian, dot4. cbn [c0 c1 c2 c3]. ring. Qed.
Lemma dot_scale_r k a b : dot4 a (scale4 k b) = k * dot4 a b. Proof. unfold dot4, scale4. cbn [c0 c1 c2 c3]. ring. Qed.
Lemma euler_framed A t k si p d par : orthogonal A ->
  eulers_equation si (framed_position A t p) (framed_values A k 0 d) (framed_par A t k par) = k * eulers_equation si p d par.
Proof. intros O. rewrite !euler_b, b_framed, values_Dm, dot_scale_r, Dm_dot by exact O. unfold framed_par, add4, E, join. cbn [c3]. ring. Qed.
Lemma q_form si w par r : q_of si w par r = dot4 (data_jacobian si (w_pos r) par) (mul4 w (data_jacobian si (w_pos r) par)).
Proof. unfold q_of, dot4, mul4. cbn [c0 c1 c2 c3]. ring. Qed.
Lemma q_framed A t k si w par r : orthogonal A -> commutes A w -> q_of si w (framed_par A t k par) (framed_row A t k r) = q_of si w par r.
Proof. intros O C. rewrite !q_form. unfold framed_row. cbn [w_pos]. rewrite b_framed, <- C. now apply Dm_dot. Qed.

Definition framed_step A t k (x : v4 * list row * m4) : v4 * list row * m4 :=
  let '(s, l, c) := x in (E A k s, map (framed_row A t k) l, mscale (/ k ^ 2) (framed_covariance A k c)).
Lemma existsb_map {X Y} (h : X -> Y) f l : existsb f (map h l) = existsb (fun x => f (h x)) l.
Proof. induction l as [|x l IH]; [reflexivity|]. cbn. now rewrite IH. Qed.
Lemma existsb_same {X} (f g : X -> bool) l : (forall x, f x = g x) -> existsb f l = existsb g l.
Proof. intros H. induction l as [|x l IH]; [reflexivity|]. cbn. now rewrite H, IH. Qed.
Lemma mul4_scale w s v : mul4 w (scale4 s v) = scale4 s (mul4 w v). Proof. unfold mul4, scale4. cbn [c0 c1 c2 c3]. apply v4_eq; ring. Qed.

Lemma newton_framed A t k si w par l : orthogonal A -> k <> 0 -> commutes A w ->
  newton_step si w (framed_par A t k par) (map (framed_row A t k) l) = carried (framed_step A t k) (newton_step si w par l).
Proof.
  intros O K C. unfold newton_step. cbv zeta. rewrite existsb_map.
  rewrite (existsb_same _ (fun r => Reqb (q_of si w par r) 0)) by (intros; now rewrite q_framed). destruct (existsb _ l); [reflexivity|].
  rewrite (inv_framed A k (gram l (fun r => / q_of si w par r) (fun r => parameter_jacobian si (w_pred r)))); [|exact O|exact K|].
  2:{ intros v. apply gram_framed. intros r _. split; [apply a_framed|now rewrite q_framed]. }
  destruct (inv4 (gram l _ _)) as [cof|e]; cbn [carried bind]; [|reflexivity]. f_equal. unfold framed_step.
  set (step := scale4 (-1) (mulv cof (vsum l (fun r => scale4 (/ q_of si w par r * (eulers_equation si (w_pos r) (w_pred r) par + dot4 (data_jacobian si (w_pos r) par) (residual r))) (parameter_jacobian si (w_pred r)))))).
  assert (B : forall r, dot4 (data_jacobian si (w_pos (framed_row A t k r)) (framed_par A t k par)) (residual (framed_row A t k r)) = k * dot4 (data_jacobian si (w_pos r) par) (residual r)).
  { intros r. rewrite residual_framed. unfold framed_row. cbn [w_pos]. rewrite b_framed, dot_scale_r, Dm_dot by exact O. reflexivity. }
  assert (U : forall r, eulers_equation si (w_pos (framed_row A t k r)) (w_pred (framed_row A t k r)) (framed_par A t k par) = k * eulers_equation si (w_pos r) (w_pred r) par) by (intros; now apply euler_framed).
  assert (S : scale4 (-1) (mulv (mscale (/ k ^ 2) (framed_covariance A k cof)) (vsum (map (framed_row A t k) l) (fun r => scale4 (/ q_of si w (framed_par A t k par) r *
      (eulers_equation si (w_pos r) (w_pred r) (framed_par A t k par) + dot4 (data_jacobian si (w_pos r) (framed_par A t k par)) (residual r))) (parameter_jacobian si (w_pred r))))) = E A k step).
  { unfold step. rewrite E_scale. f_equal. rewrite vsum_map.
    rewrite (vsum_ext l _ (fun r => scale4 k (P A k (scale4 (/ q_of si w par r * (eulers_equation si (w_pos r) (w_pred r) par + dot4 (data_jacobian si (w_pos r) par) (residual r))) (parameter_jacobian si (w_pred r)))))).
    - rewrite vsum_scale, vsum_P, mulv_scale, framed_covariance_mul, E_scale, (EtP A k _ O), !mulv_scale_r, !E_scale, !scale_scale.
      replace (/ k ^ 2 * k * k) with 1 by (field; exact K). apply scale_1.
    - intros r _. rewrite q_framed, U, B, a_framed by assumption. rewrite P_scale, scale_scale. f_equal. ring. }
  rewrite S. f_equal. f_equal. rewrite !map_map. apply map_ext. intros r.
  rewrite q_framed, B, U, a_framed, residual_framed by assumption. rewrite P_dot, (PtE A k _ O), dot_scale_r.
  transitivity (Row (framed_position A t (w_pos r)) (framed_values A k 0 (w_obs r)) (add4 (framed_values A k 0 (w_pred r))
    (sub4 (scale4 k (Dm A (residual r))) (scale4 (/ q_of si w par r * (k * dot4 (data_jacobian si (w_pos r) par) (residual r) + k * eulers_equation si (w_pos r) (w_pred r) par + k * dot4 (parameter_jacobian si (w_pred r)) step))
       (mul4 w (data_jacobian si (framed_position A t (w_pos r)) (framed_par A t k par))))))); [reflexivity|].
  unfold framed_row. cbn [w_pos w_obs w_pred]. f_equal. rewrite b_framed, <- C, !values_Dm, Dm_add, Dm_sub, Dm_scale.   unfold scale4, add4, sub4. cbn [c0 c1 c2 c3]. apply v4_eq; ring.
Qed.

Lemma sqrt_scaled k x : 0 <= x -> sqrt (k ^ 2 * x) = Rabs k * sqrt x.
Proof. intros X. rewrite sqrt_mult by (assumption || apply pow2_ge_0). f_equal. replace (k ^ 2) with (Rsqr k) by (unfold Rsqr; ring). apply sqrt_Rsqr_abs. Qed.
Lemma euler_misfit_framed A t k si par l : orthogonal A -> euler_misfit si (framed_par A t k par) (map (framed_row A t k) l) = Rabs k * euler_misfit si par l.
Proof.
  intros O. unfold euler_misfit. rewrite sum_over_map, <- sqrt_scaled by (apply sum_over_nonneg; intros; apply pow2_ge_0). rewrite <- sum_over_scal. f_equal. apply sum_over_ext. intros r _.
  unfold framed_row. cbn [w_pos w_pred]. rewrite euler_framed by exact O. ring.
Qed.
Lemma dot4_nonneg v : 0 <= dot4 v v. Proof. unfold dot4. nra. Qed.
Lemma data_misfit_framed A t k w l : orthogonal A -> commutes A w -> data_misfit w (map (framed_row A t k) l) = Rabs k * data_misfit w l.
Proof.
  intros O C. unfold data_misfit. rewrite sum_over_map, <- sqrt_scaled by (apply sum_over_nonneg; intros; apply dot4_nonneg). rewrite <- sum_over_scal. f_equal. apply sum_over_ext. intros r _. cbv zeta.
  assert (M : forall u, mul4 u w = mul4 w u) by (intros; unfold mul4; apply v4_eq; ring). rewrite !M, residual_framed, mul4_scale, <- C, dot_scale, dot_scale_r, Dm_dot by exact O. ring.
Qed.
Lemma merit_framed A t k si balance w par l : orthogonal A -> commutes A w -> merit si balance w (framed_par A t k par) (map (framed_row A t k) l) = Rabs k * merit si balance w par l.
Proof. intros O C. unfold merit. rewrite data_misfit_framed, euler_misfit_framed by assumption. ring. Qed.
Lemma par_step A t k par step : add4 (framed_par A t k par) (E A k step) = framed_par A t k (add4 par step).
Proof. unfold framed_par. rewrite E_add. unfold add4. cbn [c0 c1 c2 c3]. apply v4_eq; ring. Qed.

Definition framed_state A t k (x : v4 * list row * option m4 * bool) : v4 * list row * option m4 * bool :=
  let '(p, l, c, b) := x in (framed_par A t k p, map (framed_row A t k) l, option_map (fun c => mscale (/ k ^ 2) (framed_covariance A k c)) c, b).
Lemma iterate_framed A t k si tol balance w winv n : orthogonal A -> k <> 0 -> commutes A w -> commutes A winv -> forall par l cof m,
  iterate si tol balance w winv n (framed_par A t k par) (map (framed_row A t k) l) (option_map (fun c => mscale (/ k ^ 2) (framed_covariance A k c)) cof) (Rabs k * m)
  = carried (framed_state A t k) (iterate si tol balance w winv n par l cof m).
Proof.
  intros O K C C'. assert (K' : Rabs k <> 0) by now apply Rabs_no_R0. induction n as [|n IH]; intros par l cof m; [reflexivity|]. cbn [iterate]. rewrite newton_framed by assumption.
  destruct (newton_step si winv par l) as [[[step l'] c]|e]; cbn [carried bind framed_step]; [|reflexivity]. cbv zeta. rewrite par_step, merit_framed by assumption.
  set (m' := merit si balance w (add4 par step) l').
  assert (T : (negb (Reqb (Rabs k * m) 0) && Rltb (Rabs ((Rabs k * m - Rabs k * m') / (Rabs k * m))) tol)%bool = (negb (Reqb m 0) && Rltb (Rabs ((m - m') / m)) tol)%bool).
  { destruct (Reqb_spec m 0) as [->|M].
    - rewrite Rmult_0_r. destruct (Reqb_spec 0 0) as [_|N]; [reflexivity|now contradiction N].
    - destruct (Reqb_spec (Rabs k * m) 0) as [Z|_]; [apply Rmult_integral in Z; tauto|]. cbn [negb andb]. do 2 f_equal. field. now split. }
  rewrite T. clear T. destruct (_ && _)%bool; [reflexivity|]. apply (IH _ _ (Some c)).
Qed.

Lemma fair_commutes A a b c d o : fair A (a :: b :: c :: d :: o) -> commutes A (V4 a b c d).
Proof. intros F v. specialize (F (V3 (c1 v) (c2 v) (c3 v))). cbn [nth vx vy vz] in F. cbv zeta in F. unfold Dm, mul4. cbn [c0 c1 c2 c3]. rewrite F. reflexivity. Qed.
Lemma fair_inverse A a b c d o : a <> 0 -> b <> 0 -> c <> 0 -> d <> 0 -> fair A (a :: b :: c :: d :: o) -> commutes A (V4 (1 / a) (1 / b) (1 / c) (1 / d)).
Proof.
  intros Na Nb Nc Nd F v. pose proof (fair_commutes A a b c d o F (mul4 (V4 (1 / a) (1 / b) (1 / c) (1 / d)) v)) as H.
  assert (I : forall u, mul4 (V4 a b c d) (mul4 (V4 (1 / a) (1 / b) (1 / c) (1 / d)) u) = u) by (intros [? ? ? ?]; unfold mul4; cbn; apply v4_eq; field; assumption).
  assert (I' : forall u, mul4 (V4 (1 / a) (1 / b) (1 / c) (1 / d)) (mul4 (V4 a b c d) u) = u) by (intros [? ? ? ?]; unfold mul4; cbn; apply v4_eq; field; assumption).
  rewrite I in H. rewrite H, I'. reflexivity.
Qed.
Lemma start_framed A t k l : map (fun x => Row (fst x) (snd x) (scale4 (9 / 10) (snd x))) (map (framed A t k 0) l) = map (framed_row A t k) (map (fun x => Row (fst x) (snd x) (scale4 (9 / 10) (snd x))) l).
Proof.
  rewrite !map_map. apply map_ext. intros x. unfold framed_row, framed. cbn [fst snd w_pos w_obs w_pred]. f_equal. rewrite !values_Dm, Dm_scale, !scale_scale. f_equal. ring.
Qed.
Lemma inversion_framed A t k i si l weights : orthogonal A -> k <> 0 -> fair A weights ->
  inversion_fit i si (map (framed A t k 0) l) weights = carried (framed_solution A t k) (inversion_fit i si l weights).
Proof.
  intros O K F. unfold inversion_fit. destruct (EulerDeconvolution si) as [si'|e]; cbn [bind carried]; [|reflexivity]. rewrite deconv_framed by assumption.
  destruct (deconv_fit si' l) as [r|e]; cbn [bind carried]; [|reflexivity].
  destruct weights as [|a [|b [|c [|d o]]]]; try reflexivity. cbv zeta.
  destruct (existsb (fun w => Reqb w 0) (a :: b :: c :: d :: o)) eqn:Z; [reflexivity|].
  assert (NZ : a <> 0 /\ b <> 0 /\ c <> 0 /\ d <> 0).
  { cbn [existsb] in Z. apply Bool.orb_false_iff in Z. destruct Z as [Za Z]. apply Bool.orb_false_iff in Z. destruct Z as [Zb Z]. apply Bool.orb_false_iff in Z. destruct Z as [Zc Z]. apply Bool.orb_false_iff in Z. destruct Z as [Zd _].
    repeat split; [destruct (Reqb_spec a 0)|destruct (Reqb_spec b 0)|destruct (Reqb_spec c 0)|destruct (Reqb_spec d 0)]; congruence. }
  destruct NZ as (Na & Nb & Nc & Nd). pose proof (fair_commutes A a b c d o F) as C. pose proof (fair_inverse A a b c d o Na Nb Nc Nd F) as C'.
  destruct (_ && _)%bool; [reflexivity|]. rewrite start_framed.
  set (start := map _ l). set (par := V4 (p_e (d_location r)) (p_n (d_location r)) (p_u (d_location r)) (d_base_level r)).
  assert (Pa : V4 (p_e (d_location (framed_deconvolution A t k 0 r))) (p_n (d_location (framed_deconvolution A t k 0 r))) (p_u (d_location (framed_deconvolution A t k 0 r))) (d_base_level (framed_deconvolution A t k 0 r)) = framed_par A t k par) by reflexivity.
  rewrite Pa, merit_framed by assumption.
  change None with (option_map (fun c => mscale (/ k ^ 2) (framed_covariance A k c)) None) at 1. rewrite iterate_framed by assumption.
  destruct (iterate si' (i_tol i) (i_balance i) (V4 a b c d) _ _ par start None _) as [[[[p l'] cof] wn]|e]; cbn [carried bind framed_state]; [|reflexivity].
  destruct cof as [cof|]; cbn [option_map]; [|reflexivity]. cbn [carried]. f_equal. unfold framed_solution. cbn [s_index s_location s_base_level s_covariance s_misfit s_warned option_map].
  assert (B : c3 (framed_par A t k p) = k * c3 p) by (unfold framed_par, add4, E, join; cbn [c3]; ring). rewrite B.
  f_equal; [|f_equal; now apply data_misfit_framed]. rewrite framed_covariance_scale, mscale_mscale, map_length. f_equal.
  rewrite sum_over_map. rewrite (sum_over_ext l' _ (fun r => k ^ 2 * dot4 (residual r) (residual r))) by (intros x _; rewrite residual_framed, dot_scale, dot_scale_r, Dm_dot by exact O; ring).
  rewrite sum_over_scal. unfold Rdiv. set (S := sum_over l' _). set (M := / (4 * INR (length l) - 4)). field. exact K.
Qed.

Lemma Rltb_scaled k a b : 0 < k -> Rltb (k * a) (k * b) = Rltb a b.
Proof. intros K. destruct (Rltb_spec a b), (Rltb_spec (k * a) (k * b)); try reflexivity; nra. Qed.
Lemma argmin_framed A t k : k <> 0 -> forall l best, argmin (framed_solution A t k best) (map (framed_solution A t k) l) = framed_solution A t k (argmin best l).
Proof.
  intros K. assert (K' : 0 < Rabs k) by now apply Rabs_pos_lt. induction l as [|s l IH]; intros best; [reflexivity|]. cbn [map argmin]. rewrite <- IH. f_equal. 
  assert (M : forall x, s_misfit (framed_solution A t k x) = option_map (Rmult (Rabs k)) (s_misfit x)) by reflexivity. rewrite !M.
  destruct (s_misfit s) as [x|]; cbn [option_map]; [|reflexivity]. destruct (s_misfit best) as [y|]; cbn [option_map]; [|reflexivity]. rewrite Rltb_scaled by exact K'. now destruct (Rltb x y).
Qed.
Lemma candidates_framed A t k i l weights : orthogonal A -> k <> 0 -> fair A weights -> forall sis acc,
  for_ sis (fun si acc => do one <- EulerInversion (Single si) (i_max_iterations i) (i_tol i) (i_balance i); do s <- inversion_fit one si (map (framed A t k 0) l) weights; Ok (acc ++ [s])) (map (framed_solution A t k) acc)
  = carried (map (framed_solution A t k)) (for_ sis (fun si acc => do one <- EulerInversion (Single si) (i_max_iterations i) (i_tol i) (i_balance i); do s <- inversion_fit one si l weights; Ok (acc ++ [s])) acc).
Proof.
  intros O K F. induction sis as [|si sis IH]; intros acc; [reflexivity|]. cbn [for_]. destruct (EulerInversion _ _ _ _) as [one|e]; cbn [bind carried]; [|reflexivity].
  rewrite inversion_framed by assumption. destruct (inversion_fit one si l weights) as [s|e]; cbn [bind carried]; [|reflexivity].
  rewrite <- IH. now rewrite map_app.
Qed.
Lemma inversion_fit_framed A t k i l weights : orthogonal A -> k <> 0 -> fair A weights ->
  EulerInversion_fit i (coordinate_arrays (map (framed A t k 0) l)) (data_arrays (map (framed A t k 0) l)) weights
  = carried (framed_solution A t k) (EulerInversion_fit i (coordinate_arrays l) (data_arrays l) weights).
Proof.
  intros O K F. unfold EulerInversion_fit. rewrite !check_arrays. cbn [bind]. destruct (i_index i) as [si|sis]; [now apply inversion_framed|].
  pose proof (candidates_framed A t k i l weights O K F sis []) as C. change (map (framed_solution A t k) []) with (@nil solution) in C. rewrite C. clear C.
  destruct (for_ sis _ []) as [cs|e]; cbn [carried bind]; [|reflexivity]. destruct cs as [|c cs]; [reflexivity|]. cbn [map carried]. cbv zeta. rewrite argmin_framed by exact K. reflexivity.
Qed.

(** ** Order of the data *)
Lemma vsum_perm {X} (l l' : list X) f : Permutation l l' -> vsum l f = vsum l' f.
Proof. intros H. unfold vsum. now rewrite !(sum_over_perm _ _ _ H). Qed.
Lemma gram_perm {X} (l l' : list X) k a : Permutation l l' -> gram l k a = gram l' k a.
Proof. intros H. unfold gram. now rewrite !(vsum_perm _ _ _ H). Qed.
Lemma deconv_perm si l l' : Permutation l l' -> deconv_fit si l = deconv_fit si l'.
Proof. intros H. unfold deconv_fit. rewrite (gram_perm _ _ _ _ H), (vsum_perm _ _ _ H), (Permutation_length H). destruct (inv4 _); [|reflexivity]. cbn [bind]. cbv zeta. now rewrite (sum_over_perm _ _ _ H). Qed.
Lemma existsb_perm {X} (f : X -> bool) l l' : Permutation l l' -> existsb f l = existsb f l'.
Proof. intros H. induction H; cbn; [reflexivity|now rewrite IHPermutation| |congruence]. rewrite !Bool.orb_assoc. f_equal. apply Bool.orb_comm. Qed.
Definition same_step (x y : res (v4 * list row * m4)) : Prop :=
  match x, y with Ok (s, l, c), Ok (s', l', c') => s = s' /\ c = c' /\ Permutation l l' | Raise e, Raise e' => e = e' | _, _ => False end.
Lemma newton_perm si w par l l' : Permutation l l' -> same_step (newton_step si w par l) (newton_step si w par l').
Proof.
  intros H. unfold newton_step. rewrite (existsb_perm _ _ _ H). destruct (existsb _ l'); [reflexivity|]. cbv zeta. rewrite (gram_perm _ _ _ _ H). destruct (inv4 _) as [c|e]; cbn [bind same_step]; [|reflexivity].
  rewrite (vsum_perm _ _ _ H). repeat split. now apply Permutation_map.
Qed.
Definition same_state (x y : res (v4 * list row * option m4 * bool)) : Prop :=
  match x, y with Ok (s, l, c, b), Ok (s', l', c', b') => s = s' /\ c = c' /\ b = b' /\ Permutation l l' | Raise e, Raise e' => e = e' | _, _ => False end.
Lemma merit_perm si balance w par l l' : Permutation l l' -> merit si balance w par l = merit si balance w par l'.
Proof. intros H. unfold merit, data_misfit, euler_misfit. now rewrite !(sum_over_perm _ _ _ H). Qed.
Lemma iterate_perm si tol balance w winv n : forall par l l' cof m, Permutation l l' -> same_state (iterate si tol balance w winv n par l cof m) (iterate si tol balance w winv n par l' cof m).
Proof.
  induction n as [|n IH]; intros par l l' cof m H; [now repeat split|]. cbn [iterate]. pose proof (newton_perm si winv par l l' H) as N.
  destruct (newton_step si winv par l) as [[[s k] c]|e], (newton_step si winv par l') as [[[s' k'] c']|e']; cbn [same_step] in N; try contradiction; cbn [bind]; [|exact N].
  destruct N as (-> & -> & N). cbv zeta. rewrite (merit_perm si balance w (add4 par s') k k' N). destruct (_ && _)%bool; [now repeat split|]. now apply IH.
Qed.
Lemma inversion_perm i si l l' weights : Permutation l l' -> inversion_fit i si l weights = inversion_fit i si l' weights.
Proof.
  intros H. unfold inversion_fit. destruct (EulerDeconvolution si) as [si'|e]; cbn [bind]; [|reflexivity]. rewrite (deconv_perm _ _ _ H). destruct (deconv_fit si' l') as [r|e]; cbn [bind]; [|reflexivity].
  destruct weights as [|a [|b [|c [|d o]]]]; try reflexivity. destruct (existsb _ _); [reflexivity|]. cbv zeta. destruct (_ && _)%bool; [reflexivity|].
  set (f := fun x : position * v4 => Row (fst x) (snd x) (scale4 (9 / 10) (snd x))). assert (H' : Permutation (map f l) (map f l')) by now apply Permutation_map.
  rewrite (merit_perm si' _ _ _ _ _ H'). set (par := V4 (p_e (d_location r)) _ _ _). set (m0 := merit _ _ _ _ _).
  pose proof (iterate_perm si' (i_tol i) (i_balance i) (V4 a b c d) (V4 (1 / a) (1 / b) (1 / c) (1 / d)) (i_max_iterations i) par _ _ None m0 H') as N.
  destruct (iterate si' _ _ _ _ _ _ (map f l) None m0) as [[[[p k] co] wn]|e], (iterate si' _ _ _ _ _ _ (map f l') None m0) as [[[[p' k'] co'] wn']|e']; cbn [same_state] in N; try contradiction; cbn [bind]; [|now rewrite N].
  destruct N as (-> & -> & -> & N). destruct co' as [co|]; [|reflexivity]. unfold data_misfit. now rewrite !(sum_over_perm _ _ _ N), (Permutation_length H).
Qed.
