(** Fields of point masses and dipoles are homogeneous functions. *)
From Coquelicot Require Import Coquelicot.
From Verif Require Import Base BaseFacts NumPy NumPyFacts DistanceModel DistanceSpec PointGravityModel PointGravitySpec PointGravityProofs PrismModel PrismSpec PrismProofs PrismFieldProofs EulerModel EulerSpec EulerProofs.
Local Open Scope string_scope. Local Open Scope list_scope. Local Open Scope R_scope.

Section Homogeneous.
Variable s p : position.
Definition hom (deg : R) (F : R -> R -> R -> R) : Prop := exists fe fn fu : R,
  is_derive (fun e => F e (p_n p) (p_u p)) (p_e p) fe /\ is_derive (fun n => F (p_e p) n (p_u p)) (p_n p) fn /\ is_derive (fun u => F (p_e p) (p_n p) u) (p_u p) fu /\
  (p_e p - p_e s) * fe + (p_n p - p_n s) * fn + (p_u p - p_u s) * fu = - deg * F (p_e p) (p_n p) (p_u p).
Lemma hom_ext d F G : (forall e n u, F e n u = G e n u) -> hom d F -> hom d G.
Proof.
  intros E (a & b & c & A & B & C & H). exists a, b, c. refine (conj _ (conj _ (conj _ _))); [eapply is_derive_ext; [|exact A]|eapply is_derive_ext; [|exact B]|eapply is_derive_ext; [|exact C]|now rewrite <- E]; intros; apply E.
Qed.
Lemma hom_deg d d' F : d = d' -> hom d F -> hom d' F.
Proof. now intros ->. Qed.
Lemma hom_const k : hom 0 (fun _ _ _ => k).
Proof.
  exists 0, 0, 0. refine (conj _ (conj _ (conj _ _))); try exact (is_derive_const (K := R_AbsRing) (V := R_NormedModule) k _). ring.
Qed.
Lemma hom_e : hom (-1) (fun e _ _ => e - p_e s).
Proof. exists 1, 0, 0. refine (conj _ (conj _ (conj _ _))); try (auto_derive; [trivial|ring]). ring. Qed.
Lemma hom_n : hom (-1) (fun _ n _ => n - p_n s).
Proof. exists 0, 1, 0. refine (conj _ (conj _ (conj _ _))); try (auto_derive; [trivial|ring]). ring. Qed.
Lemma hom_u : hom (-1) (fun _ _ u => u - p_u s).
Proof. exists 0, 0, 1. refine (conj _ (conj _ (conj _ _))); try (auto_derive; [trivial|ring]). ring. Qed.
Lemma hom_plus d F G : hom d F -> hom d G -> hom d (fun e n u => F e n u + G e n u).
Proof.
  intros (a & b & c & A & B & C & H) (a' & b' & c' & A' & B' & C' & H'). exists (a + a'), (b + b'), (c + c').
  split; [exact (is_derive_plus _ _ _ _ _ A A')|]. split; [exact (is_derive_plus _ _ _ _ _ B B')|]. split; [exact (is_derive_plus _ _ _ _ _ C C')|].
  replace (- d * (F (p_e p) (p_n p) (p_u p) + G (p_e p) (p_n p) (p_u p))) with (- d * F (p_e p) (p_n p) (p_u p) + - d * G (p_e p) (p_n p) (p_u p)) by ring. rewrite <- H, <- H'. ring.
Qed.
Lemma hom_mult d d' F G : hom d F -> hom d' G -> hom (d + d') (fun e n u => F e n u * G e n u).
Proof.
  intros (a & b & c & A & B & C & H) (a' & b' & c' & A' & B' & C' & H'). set (f := F (p_e p) (p_n p) (p_u p)) in *. set (g := G (p_e p) (p_n p) (p_u p)) in *.
  exists (a * g + f * a'), (b * g + f * b'), (c * g + f * c').
  split; [exact (is_derive_mult _ _ _ _ _ A A' Rmult_comm)|]. split; [exact (is_derive_mult _ _ _ _ _ B B' Rmult_comm)|]. split; [exact (is_derive_mult _ _ _ _ _ C C' Rmult_comm)|].
  fold f g. replace (- (d + d') * (f * g)) with (g * (- d * f) + f * (- d' * g)) by ring. rewrite <- H, <- H'. ring.
Qed.
Lemma hom_scal k d F : hom d F -> hom d (fun e n u => k * F e n u).
Proof. intros H. apply (hom_deg (0 + d)); [ring|]. apply hom_mult; [apply hom_const|exact H]. Qed.
Definition dist3 (e n u : R) : R := sqrt ((e - p_e s) ^ 2 + (n - p_n s) ^ 2 + (u - p_u s) ^ 2).
Hypothesis Hp : p <> s.
Lemma off_sum : 0 < (p_e p - p_e s) ^ 2 + (p_n p - p_n s) ^ 2 + (p_u p - p_u s) ^ 2.
Proof.
  clear - Hp. destruct p as [x y z], s as [a b c]. cbn [p_e p_n p_u]. pose proof (pow2_ge_0 (x - a)). pose proof (pow2_ge_0 (y - b)). pose proof (pow2_ge_0 (z - c)).
  destruct (Rle_lt_dec ((x - a) ^ 2 + (y - b) ^ 2 + (z - c) ^ 2) 0) as [L|]; [|assumption]. exfalso. apply Hp. f_equal; nra.
Qed.
Lemma hom_inv_dist_at : let d := dist3 (p_e p) (p_n p) (p_u p) in
  is_derive (fun e : R => / dist3 e (p_n p) (p_u p)) (p_e p) (- (p_e p - p_e s) / d ^ 3) /\ is_derive (fun n : R => / dist3 (p_e p) n (p_u p)) (p_n p) (- (p_n p - p_n s) / d ^ 3) /\
  is_derive (fun u : R => / dist3 (p_e p) (p_n p) u) (p_u p) (- (p_u p - p_u s) / d ^ 3) /\
  (p_e p - p_e s) * (- (p_e p - p_e s) / d ^ 3) + (p_n p - p_n s) * (- (p_n p - p_n s) / d ^ 3) + (p_u p - p_u s) * (- (p_u p - p_u s) / d ^ 3) = - 1 * / d.
Proof.
  pose proof off_sum as P. pose proof (sqrt_lt_R0 _ P) as Q. pose proof (pow2_sqrt _ (Rlt_le _ _ P)) as W.
  unfold dist3. set (d := sqrt ((p_e p - p_e s) ^ 2 + (p_n p - p_n s) ^ 2 + (p_u p - p_u s) ^ 2)) in *.
  assert (D : forall x y z : R, 0 < x ^ 2 + y + z -> forall a, is_derive (fun t => / sqrt ((t - a) ^ 2 + y + z)) (x + a) (- x / sqrt (x ^ 2 + y + z) ^ 3)).
  { intros x y z L a. pose proof (sqrt_lt_R0 _ L). auto_derive; replace (x + a + - a) with x by ring; replace (x * (x * 1)) with (x ^ 2) by ring.
    - split; [exact L|]. split; [lra|trivial].
    - field. lra. }
  refine (conj _ (conj _ (conj _ _))).
  - replace (p_e p) with (p_e p - p_e s + p_e s) at 1 by ring. apply (D (p_e p - p_e s) ((p_n p - p_n s) ^ 2) ((p_u p - p_u s) ^ 2) P).
  - unfold d. replace ((p_e p - p_e s) ^ 2 + (p_n p - p_n s) ^ 2 + (p_u p - p_u s) ^ 2) with ((p_n p - p_n s) ^ 2 + (p_e p - p_e s) ^ 2 + (p_u p - p_u s) ^ 2) by ring.
    replace (p_n p) with (p_n p - p_n s + p_n s) at 1 by ring. eapply is_derive_ext; [|apply (D (p_n p - p_n s) ((p_e p - p_e s) ^ 2) ((p_u p - p_u s) ^ 2)); lra]. intros t. cbv beta. do 2 f_equal. ring.
  - unfold d. replace ((p_e p - p_e s) ^ 2 + (p_n p - p_n s) ^ 2 + (p_u p - p_u s) ^ 2) with ((p_u p - p_u s) ^ 2 + (p_e p - p_e s) ^ 2 + (p_n p - p_n s) ^ 2) by ring.
    replace (p_u p) with (p_u p - p_u s + p_u s) at 1 by ring. eapply is_derive_ext; [|apply (D (p_u p - p_u s) ((p_e p - p_e s) ^ 2) ((p_n p - p_n s) ^ 2)); lra]. intros t. cbv beta. do 2 f_equal. ring.
  - transitivity (- ((p_e p - p_e s) ^ 2 + (p_n p - p_n s) ^ 2 + (p_u p - p_u s) ^ 2) / d ^ 3); [field; lra|]. rewrite <- W. field. lra.
Qed.
Lemma hom_inv_dist : hom 1 (fun e n u => / dist3 e n u).
Proof. do 3 eexists. exact hom_inv_dist_at. Qed.
Lemma hom_inv_dist_pow k : hom (INR k) (fun e n u => / dist3 e n u ^ k).
Proof.
  induction k as [|k IH].
  - eapply hom_ext; [|exact (hom_const 1)]. intros. cbn. symmetry. apply Rinv_1.
  - apply (hom_deg (1 + INR k)); [rewrite S_INR; ring|]. eapply hom_ext; [|exact (hom_mult _ _ _ _ hom_inv_dist IH)]. intros e n u. cbv beta. cbn [pow]. symmetry. apply Rinv_mult.
Qed.
End Homogeneous.

(** Euler's equation for a sampled homogeneous field with a base level. *)
Lemma hom_sampled s p si b F : hom s p si F -> homogeneity si s b (sampled (fun e n u => F e n u + b) p) = 0.
Proof.
  intros (fe & fn & fu & A & B & C & H). unfold homogeneity, sampled. cbn [fst snd c0 c1 c2 c3].
  assert (Z : forall (f : R -> R) x l, is_derive f x l -> Derive (fun t => f t + b) x = l).
  { intros f x l D. apply is_derive_unique. replace l with (l + 0) by ring. exact (is_derive_plus f (fun _ => b) x l 0 D (is_derive_const (K := R_AbsRing) (V := R_NormedModule) b x)). }
  rewrite (Z (fun e => F e (p_n p) (p_u p)) (p_e p) fe A), (Z (fun n => F (p_e p) n (p_u p)) (p_n p) fn B), (Z (fun u => F (p_e p) (p_n p) u) (p_u p) fu C). rewrite H. ring.
Qed.

Definition point_of (p : position) : point := (p_e p, p_n p, p_u p).
Lemma eucl_dist3 s e n u : eucl (cart_position (e, n, u)) (cart_position (point_of s)) = dist3 s e n u.
Proof. unfold eucl, norm, dot, vsub, dist3, point_of. cbn. f_equal. ring. Qed.
Definition offset (s : position) (e n u : R) (d : vec3) : R := (e - p_e s) * vx d + (n - p_n s) * vy d + (u - p_u s) * vz d.
Lemma hom_offset s p d : hom s p (-1) (fun e n u => offset s e n u d).
Proof.
  unfold offset. apply (hom_ext s p (-1) (fun e n u => vx d * (e - p_e s) + vy d * (n - p_n s) + vz d * (u - p_u s))); [intros; ring|].
  apply hom_plus; [apply hom_plus|]; apply hom_scal; [apply hom_e|apply hom_n|apply hom_u].
Qed.
Lemma hom_tensor s p d1 d2 : p <> s -> hom s p 3 (fun e n u => 3 * offset s e n u d1 * offset s e n u d2 * / dist3 s e n u ^ 5 - dot d1 d2 * / dist3 s e n u ^ 3).
Proof.
  intros Hp. apply (hom_ext s p 3 (fun e n u => 3 * (offset s e n u d1 * offset s e n u d2 * / dist3 s e n u ^ 5) + - dot d1 d2 * / dist3 s e n u ^ 3)); [intros; ring|].
  apply hom_plus; apply hom_scal.
  - apply (hom_deg s p (-1 + -1 + INR 5)); [cbn; ring|]. apply hom_mult; [apply hom_mult; apply hom_offset|now apply hom_inv_dist_pow].
  - apply (hom_deg s p (INR 3)); [cbn; ring|]. now apply hom_inv_dist_pow.
Qed.

(** ** Point masses *)
Lemma hom_potential s p m : p <> s -> hom s p 1 (fun e n u => newton_potential m (cart_position (e, n, u)) (cart_position (point_of s))).
Proof.
  intros Hp. apply (hom_ext s p 1 (fun e n u => newton_G * m * / dist3 s e n u)); [intros e n u; unfold newton_potential; rewrite eucl_dist3; reflexivity|]. apply hom_scal, hom_inv_dist, Hp.
Qed.
Lemma hom_accel s p m d : p <> s -> hom s p 2 (fun e n u => newton_accel m (cart_position (e, n, u)) (cart_position (point_of s)) d).
Proof.
  intros Hp. apply (hom_ext s p 2 (fun e n u => - (newton_G * m) * (offset s e n u d * / dist3 s e n u ^ 3))).
  - intros e n u. unfold newton_accel. rewrite eucl_dist3. unfold offset, dot, vscale, vsub, point_of. cbn. unfold Rdiv. ring.
  - apply hom_scal. apply (hom_deg s p (-1 + INR 3)); [cbn; ring|]. apply hom_mult; [apply hom_offset|now apply hom_inv_dist_pow].
Qed.
Lemma hom_newton_tensor s p m d1 d2 : p <> s -> hom s p 3 (fun e n u => newton_tensor m (cart_position (e, n, u)) (cart_position (point_of s)) d1 d2).
Proof.
  intros Hp. eapply hom_ext; [|apply hom_scal, (hom_tensor s p d1 d2 Hp)]. intros e n u. cbv beta. unfold newton_tensor. rewrite eucl_dist3. unfold offset, dot, vsub, point_of. cbn. unfold Rdiv. reflexivity.
Qed.

(** The sampled potential. *)
Lemma sampled_potential s p m b : p <> s -> let d := dist3 s (p_e p) (p_n p) (p_u p) in
  sampled (fun e n u => returned (point_gravity (coords_of [] [(e, n, u)]) (points_of [(point_of s, m)]) (masses_of [(point_of s, m)]) "potential" "cartesian") + b) p
  = (p, V4 (newton_G * m / d + b) (newton_G * m * (- (p_e p - p_e s) / d ^ 3)) (newton_G * m * (- (p_n p - p_n s) / d ^ 3)) (newton_G * m * (- (p_u p - p_u s) / d ^ 3))).
Proof.
  intros Hp d.
  assert (E : forall e n u, returned (point_gravity (coords_of [] [(e, n, u)]) (points_of [(point_of s, m)]) (masses_of [(point_of s, m)]) "potential" "cartesian") = newton_G * m * / dist3 s e n u).
  { intros e n u. rewrite returned_newton by exact sup_pot. unfold sum_over. cbn [map sumR]. rewrite Rplus_0_r. unfold newton_field, newton_field_cartesian, newton_potential. cbn [fst snd String.eqb Ascii.eqb Bool.eqb]. rewrite eucl_dist3. reflexivity. }
  destruct (hom_inv_dist_at s p Hp) as (A & B & C & _). fold d in A, B, C. unfold sampled. f_equal. rewrite E. f_equal.
  all: apply is_derive_unique; match goal with |- is_derive _ _ (?k * ?l) => replace (k * l) with (k * l + 0) by ring end.
  - apply (is_derive_ext (fun e : R => newton_G * m * / dist3 s e (p_n p) (p_u p) + b)); [intros; now rewrite E|]. exact (is_derive_plus _ (fun _ => b) _ _ _ (is_derive_scal _ _ _ _ A) (is_derive_const (K := R_AbsRing) (V := R_NormedModule) b _)).
  - apply (is_derive_ext (fun n : R => newton_G * m * / dist3 s (p_e p) n (p_u p) + b)); [intros; now rewrite E|]. exact (is_derive_plus _ (fun _ => b) _ _ _ (is_derive_scal _ _ _ _ B) (is_derive_const (K := R_AbsRing) (V := R_NormedModule) b _)).
  - apply (is_derive_ext (fun u : R => newton_G * m * / dist3 s (p_e p) (p_n p) u + b)); [intros; now rewrite E|]. exact (is_derive_plus _ (fun _ => b) _ _ _ (is_derive_scal _ _ _ _ C) (is_derive_const (K := R_AbsRing) (V := R_NormedModule) b _)).
Qed.
Definition around : list position := [Pos 1 0 0; Pos (-1) 0 0; Pos 0 1 0; Pos 0 0 1; Pos 0 0 (-1)].
Lemma around_independent m b : m <> 0 ->
  independent (map (sampled (fun e n u => returned (point_gravity (coords_of [] [(e, n, u)]) (points_of [((0, 0, 0), m)]) (masses_of [((0, 0, 0), m)]) "potential" "cartesian") + b)) around).
Proof.
  intros Hm x y z t F. pose proof newton_G_pos as G0. set (k := newton_G * m). assert (Hk : k <> 0) by (apply Rmult_integral_contrapositive_currified; [lra|assumption]).
  assert (S : forall p, In p around -> sampled (fun e n u => returned (point_gravity (coords_of [] [(e, n, u)]) (points_of [((0, 0, 0), m)]) (masses_of [((0, 0, 0), m)]) "potential" "cartesian") + b) p = (p, V4 (k + b) (- k * p_e p) (- k * p_n p) (- k * p_u p))).
  { intros p Hp. assert (D : dist3 (Pos 0 0 0) (p_e p) (p_n p) (p_u p) = 1).
    { unfold dist3. rewrite <- sqrt_1. f_equal. cbn in Hp. repeat (destruct Hp as [<-|Hp]; [cbn; ring|]). destruct Hp. }
    assert (N : p <> Pos 0 0 0) by (intros ->; unfold dist3 in D; cbn [p_e p_n p_u] in D; replace ((0 - 0) ^ 2 + (0 - 0) ^ 2 + (0 - 0) ^ 2) with 0 in D by ring; rewrite sqrt_0 in D; lra).
    etransitivity; [exact (sampled_potential (Pos 0 0 0) p m b N)|]. rewrite D. cbn [p_e p_n p_u]. fold k. f_equal. f_equal; field. }
  rewrite Forall_forall in F.
  assert (Q : forall p, In p around -> x * (- k * p_e p) + y * (- k * p_n p) + z * (- k * p_u p) + t = 0).
  { intros p Hp. pose proof (F _ (in_map _ _ _ Hp)) as H. cbv beta in H. rewrite (S p Hp) in H. exact H. }
  pose proof (Q (Pos 1 0 0) ltac:(cbn; tauto)) as Q0. pose proof (Q (Pos (-1) 0 0) ltac:(cbn; tauto)) as Q1. pose proof (Q (Pos 0 1 0) ltac:(cbn; tauto)) as Q2. pose proof (Q (Pos 0 0 1) ltac:(cbn; tauto)) as Q3. cbn [p_e p_n p_u] in *.
  assert (T : t = 0) by lra. subst t. repeat split; try reflexivity; apply (Rmult_eq_reg_r (- k)); try lra.
Qed.
(** The structural index of each field of a point mass. *)
Lemma hom_point_gravity s p m field si : p <> s -> In (field, si) mass_indices ->
  hom s p si (fun e n u => returned (point_gravity (coords_of [] [(e, n, u)]) (points_of [(point_of s, m)]) (masses_of [(point_of s, m)]) field "cartesian")).
Proof.
  intros Hp H. assert (S : supported "cartesian" field) by (left; split; [reflexivity|]; change cartesian_fields with (map fst mass_indices); exact (in_map fst _ _ H)).
  apply (hom_ext s p si (fun e n u => newton_field_cartesian field (e, n, u) (point_of s, m))).
  - intros e n u. rewrite returned_newton by exact S. unfold sum_over. cbn [map sumR]. rewrite Rplus_0_r. reflexivity.
  - unfold newton_field_cartesian. cbn [fst snd]. unfold mass_indices in H.
    apply in_inv in H; destruct H as [H|H]; [injection H as <- <-; cbn [String.eqb Ascii.eqb Bool.eqb directions]; apply hom_potential, Hp|].
    do 3 (apply in_inv in H; destruct H as [H|H]; [injection H as <- <-; cbn [String.eqb Ascii.eqb Bool.eqb directions]; apply hom_scal, hom_accel, Hp|]).
    do 9 (apply in_inv in H; destruct H as [H|H]; [injection H as <- <-; cbn [String.eqb Ascii.eqb Bool.eqb directions]; apply hom_scal, hom_newton_tensor, Hp|]). destruct H.
Qed.
(** ** Dipoles *)
Lemma hom_dipole mu0 s p mom c : p <> s -> hom s p 3 (fun e n u => dipole_call mu0 [(point_of s, mom)] (b_name c) (e, n, u)).
Proof.
  intros Hp. set (d := match c with AE => V3 1 0 0 | AN => V3 0 1 0 | AU => V3 0 0 1 end).
  eapply hom_ext; [|exact (hom_scal s p (nano * (mu0 / 4 / PI)) _ _ (hom_tensor s p mom d Hp))]. intros e n u. cbv beta. rewrite dipole_call_value. unfold sum_over. cbn [map sumR]. rewrite Rplus_0_r, Rmult_assoc. f_equal.
  unfold one_magnetic, axis_kernel, dipole_kernels, dipole_component, point_of. cbn [fst snd fst3 snd3 thd3]. 
  change (choclo_dist e n u (p_e s) (p_n s) (p_u s)) with (dist3 s e n u). rewrite <- !pow_inv. unfold offset, dot, d, Rdiv.
  destruct c; cbn [magnetic_e magnetic_n magnetic_u vx vy vz]; change (choclo_dist e n u (p_e s) (p_n s) (p_u s)) with (dist3 s e n u); rewrite <- !pow_inv; ring.
Qed.
