(** Which closed form is used, and what follows for the sum of the integrals and the internal
    demagnetisation factors (C31, C33). *)
From Coquelicot Require Import Coquelicot.
From Verif Require Import Base BaseFacts NumPy EllipsoidModel EllipsoidSpec EllipsoidLambdaProofs EllipsoidIntProofs.
Local Open Scope R_scope.

(** A primitive of minus the integrand that vanishes at infinity. *)
Definition primitive (a b c e : R) (g : R -> R) : Prop :=
  (forall l, 0 <= l -> is_derive g l (- integrand a b c e l)) /\ filterlim g (Rbar_locally p_infty) (locally 0).

Lemma primitive_improper a b c e g l : 0 < a -> 0 < b -> 0 < c -> 0 < e -> 0 <= l -> primitive a b c e g -> improper a b c e l (g l).
Proof. intros Ha Hb Hc He Hl [D L]. apply improper_intro; assumption. Qed.

Lemma primitive_ext a b c e f g : (forall l, f l = g l) -> primitive a b c e g -> primitive a b c e f.
Proof.
  intros E [D L]. split; [intros l Hl; apply (is_derive_ext g); [intros; symmetry; apply E | apply D, Hl]|].
  apply (filterlim_ext g); [intros; symmetry; apply E | exact L].
Qed.

(** ** Functions on [0, oo) with a limit *)
Lemma zero_of_constant (f : R -> R) : (forall l, 0 <= l -> is_derive f l 0) -> filterlim f (Rbar_locally p_infty) (locally 0) ->
  forall l, 0 <= l -> f l = 0.
Proof.
  intros D L l Hl. assert (C : forall u, l < u -> f l = f u).
  { intros u Hu. apply (eq_is_derive f l u); [|exact Hu]. intros t [Ht _]. apply D. lra. }
  assert (L' : filterlim f (Rbar_locally p_infty) (locally (f l))).
  { apply (filterlim_ext_loc (fun _ => f l)); [exists l; intros u Hu; apply C, Hu | apply filterlim_const]. }
  apply (filterlim_locally_unique f (f l) 0 L' L).
Qed.

Lemma positive_of_decreasing (f df : R -> R) : (forall l, 0 <= l -> is_derive f l (df l)) -> (forall l, 0 <= l -> df l < 0) ->
  filterlim f (Rbar_locally p_infty) (locally 0) -> forall l, 0 <= l -> 0 < f l.
Proof.
  intros D N L l Hl.
  assert (M : forall u v, 0 <= u -> u < v -> f v < f u).
  { intros u v Hu Huv. destruct (MVT_gen f u v df) as (x & Hx & E).
    - intros x Hx. rewrite Rmin_left in Hx by lra. apply D. lra.
    - intros x Hx. rewrite Rmin_left in Hx by lra. apply continuity_pt_filterlim. apply (ex_derive_continuous (K := R_AbsRing) (V := R_NormedModule)).
      exists (df x). apply D. lra.
    - rewrite Rmin_left in Hx by lra. assert (df x < 0) by (apply N; lra). nra. }
  assert (B : 0 <= f (l + 1)).
  { destruct (Rle_or_lt 0 (f (l + 1))) as [H|H]; [exact H|].
    assert (He : 0 < - f (l + 1)) by lra.
    destruct (proj1 (filterlim_locally f 0) L (mkposreal _ He)) as [K HK].
    specialize (HK (Rmax K (l + 1) + 1)). assert (K1 := Rmax_l K (l + 1)). assert (K2 := Rmax_r K (l + 1)).
    assert (H1 : f (Rmax K (l + 1) + 1) < f (l + 1)) by (apply M; lra).
    assert (H2 : ball 0 (- f (l + 1)) (f (Rmax K (l + 1) + 1))) by (apply HK; lra).
    unfold ball in H2; cbn in H2; unfold AbsRing_ball, abs, minus, plus, opp in H2; cbn in H2. rewrite Ropp_0, Rplus_0_r in H2.
    apply Rabs_lt_between in H2. lra. }
  assert (f (l + 1) < f l) by (apply M; lra). lra.
Qed.

Lemma integrand_pos a b c e l : 0 < a -> 0 < b -> 0 < c -> 0 < e -> 0 <= l -> 0 < integrand a b c e l.
Proof.
  intros Ha Hb Hc He Hl. assert (A := sq_pos a Ha). assert (B := sq_pos b Hb). assert (C := sq_pos c Hc). assert (E := sq_pos e He).
  unfold integrand. apply Rinv_0_lt_compat. apply Rmult_lt_0_compat; [lra|]. apply sqrt_lt_R0. repeat apply Rmult_lt_0_compat; lra.
Qed.

Lemma primitive_pos a b c e g : 0 < a -> 0 < b -> 0 < c -> 0 < e -> primitive a b c e g -> forall l, 0 <= l -> 0 < g l.
Proof.
  intros Ha Hb Hc He [D L]. apply (positive_of_decreasing g (fun l => - integrand a b c e l)); [exact D | | exact L].
  intros l Hl. assert (H := integrand_pos a b c e l Ha Hb Hc He Hl). lra.
Qed.

(** The longer the axis, the smaller the integral. *)
Lemma primitive_lt a b c e e' g g' : 0 < a -> 0 < b -> 0 < c -> 0 < e' -> e' < e ->
  primitive a b c e g -> primitive a b c e' g' -> forall l, 0 <= l -> g l < g' l.
Proof.
  intros Ha Hb Hc He' Hee [D L] [D' L'] l Hl. assert (P : 0 < g' l - g l); [|lra].
  revert l Hl. apply (positive_of_decreasing (fun l => g' l - g l) (fun l => - integrand a b c e' l - - integrand a b c e l)).
  - intros l Hl. apply (is_derive_minus g' g); auto.
  - intros l Hl. assert (A := sq_pos a Ha). assert (B := sq_pos b Hb). assert (C := sq_pos c Hc). assert (E := sq_pos e' He').
    assert (integrand a b c e l < integrand a b c e' l); [|lra]. unfold integrand.
    assert (S : 0 < sqrt ((a ^ 2 + l) * (b ^ 2 + l) * (c ^ 2 + l))) by (apply sqrt_lt_R0; repeat apply Rmult_lt_0_compat; lra).
    assert (e' ^ 2 < e ^ 2) by nra. apply Rinv_lt_contravar; [repeat apply Rmult_lt_0_compat; lra | apply Rmult_lt_compat_r; lra].
  - apply (filterlim_ext (fun l => g' l + -1 * g l)); [intros; ring|]. apply lim0_plus; [exact L' | apply lim0_scal, L].
Qed.

(** ** The sum of the three integrals *)
Definition root3 (a b c l : R) : R := sqrt ((a ^ 2 + l) * (b ^ 2 + l) * (c ^ 2 + l)).

Lemma root3_pos a b c l : 0 < a -> 0 < b -> 0 < c -> 0 <= l -> 0 < root3 a b c l.
Proof.
  intros Ha Hb Hc Hl. assert (A := sq_pos a Ha). assert (B := sq_pos b Hb). assert (C := sq_pos c Hc).
  apply sqrt_lt_R0. repeat apply Rmult_lt_0_compat; lra.
Qed.
Lemma root3_0 a b c : 0 < a -> 0 < b -> 0 < c -> root3 a b c 0 = a * b * c.
Proof.
  intros Ha Hb Hc. unfold root3. rewrite !Rplus_0_r. replace (a ^ 2 * b ^ 2 * c ^ 2) with ((a * b * c) ^ 2) by ring.
  apply sqrt_pow2. assert (0 < a * b * c) by (repeat apply Rmult_lt_0_compat; assumption). lra.
Qed.

Lemma inv_root3_derive a b c l : 0 < a -> 0 < b -> 0 < c -> 0 <= l ->
  is_derive (fun u => 2 / root3 a b c u) l (- integrand a b c a l + - integrand a b c b l + - integrand a b c c l).
Proof.
  intros Ha Hb Hc Hl. assert (A := sq_pos a Ha). assert (B := sq_pos b Hb). assert (C := sq_pos c Hc).
  assert (R3 := root3_pos a b c l Ha Hb Hc Hl). unfold integrand. fold (root3 a b c l).
  assert (P : 0 < (a ^ 2 + l) * (b ^ 2 + l) * (c ^ 2 + l)) by (repeat apply Rmult_lt_0_compat; lra).
  assert (Q : root3 a b c l * root3 a b c l = (a ^ 2 + l) * (b ^ 2 + l) * (c ^ 2 + l)) by (apply sqrt_sqrt; lra).
  assert (D : is_derive (root3 a b c) l (((b ^ 2 + l) * (c ^ 2 + l) + (a ^ 2 + l) * (c ^ 2 + l) + (a ^ 2 + l) * (b ^ 2 + l)) / (2 * root3 a b c l))).
  { unfold root3 at 1. auto_derive.
    - replace ((a * (a * 1) + l) * (b * (b * 1) + l) * (c * (c * 1) + l)) with ((a ^ 2 + l) * (b ^ 2 + l) * (c ^ 2 + l)) by ring. exact P.
    - replace ((a * (a * 1) + l) * (b * (b * 1) + l) * (c * (c * 1) + l)) with ((a ^ 2 + l) * (b ^ 2 + l) * (c ^ 2 + l)) by ring.
      fold (root3 a b c l). field. lra. }
  match goal with |- is_derive _ _ ?v => replace v with
    (((b ^ 2 + l) * (c ^ 2 + l) + (a ^ 2 + l) * (c ^ 2 + l) + (a ^ 2 + l) * (b ^ 2 + l)) / (2 * root3 a b c l) * - (2 / root3 a b c l ^ 2)) end.
  - apply (is_derive_comp (fun y => 2 / y) (root3 a b c) l); [|exact D]. auto_derive; [lra | field; lra].
  - replace (root3 a b c l ^ 2) with ((a ^ 2 + l) * (b ^ 2 + l) * (c ^ 2 + l)) by (rewrite <- Q; ring). field. repeat split; lra.
Qed.

Lemma inv_root3_lim a b c : 0 < a -> 0 < b -> 0 < c -> filterlim (fun u => 2 / root3 a b c u) (Rbar_locally p_infty) (locally 0).
Proof.
  intros Ha Hb Hc. assert (A := sq_pos a Ha). assert (B := sq_pos b Hb). assert (C := sq_pos c Hc).
  apply (lim_by_w (a ^ 2) _ (fun w => 2 * w ^ 3 / (sqrt (1 - (a ^ 2 - b ^ 2) * w ^ 2) * sqrt (1 - (a ^ 2 - c ^ 2) * w ^ 2)))).
  - intros l Hl. unfold root3. rewrite sqrt_prod3 by lra. set (w := / sqrt (a ^ 2 + l)).
    assert (PA : 0 < a ^ 2 + l) by lra. assert (SA := sqrt_lt_R0 _ PA). assert (QA := sqrt_sqrt (a ^ 2 + l) (Rlt_le _ _ PA)).
    assert (Pw : 0 < w) by (apply Rinv_0_lt_compat; exact SA).
    assert (W2 : w ^ 2 = / (a ^ 2 + l)) by (unfold w; rewrite <- QA at 2; field; lra).
    assert (Pw2 : 0 < w ^ 2) by (apply pow_lt; exact Pw).
    assert (K : forall e, 0 < e ^ 2 -> 0 < 1 - (a ^ 2 - e ^ 2) * w ^ 2 /\ sqrt (e ^ 2 + l) = sqrt (1 - (a ^ 2 - e ^ 2) * w ^ 2) / w).
    { intros e He. assert (E1 : e ^ 2 + l = (1 - (a ^ 2 - e ^ 2) * w ^ 2) / w ^ 2) by (rewrite W2; field; lra).
      assert (N : 0 < 1 - (a ^ 2 - e ^ 2) * w ^ 2).
      { assert (0 < (e ^ 2 + l) * w ^ 2) by (apply Rmult_lt_0_compat; lra). rewrite E1 in H. unfold Rdiv in H. rewrite Rmult_assoc, Rinv_l, Rmult_1_r in H by lra. exact H. }
      split; [exact N|]. rewrite E1, sqrt_div_pos, sqrt_pow2 by lra. reflexivity. }
    destruct (K b B) as [N1 E1], (K c C) as [N2 E2]. rewrite E1, E2. replace (sqrt (a ^ 2 + l)) with (/ w) by (unfold w; field; lra).
    assert (S1 := sqrt_lt_R0 _ N1). assert (S2 := sqrt_lt_R0 _ N2). field. repeat split; lra.
  - apply (ex_derive_continuous (K := R_AbsRing) (V := R_NormedModule)). auto_derive. rewrite !Rmult_0_l, !Rmult_0_r, Ropp_0, Rplus_0_r, sqrt_1. repeat split; lra.
  - unfold Rdiv. ring.
Qed.

Lemma sum_of_integrals a b c A B C : 0 < a -> 0 < b -> 0 < c ->
  primitive a b c a A -> primitive a b c b B -> primitive a b c c C -> forall l, 0 <= l -> A l + B l + C l = 2 / root3 a b c l.
Proof.
  intros Ha Hb Hc [DA LA] [DB LB] [DC LC] l Hl.
  assert (Z : A l + B l + C l - 2 / root3 a b c l = 0); [|lra]. revert l Hl.
  apply (zero_of_constant (fun l => A l + B l + C l - 2 / root3 a b c l)).
  - intros l Hl. replace 0 with (minus (plus (plus (- integrand a b c a l) (- integrand a b c b l)) (- integrand a b c c l))
        (- integrand a b c a l + - integrand a b c b l + - integrand a b c c l)) by (unfold minus, plus, opp; cbn; ring).
    apply (is_derive_minus (fun l => A l + B l + C l) (fun l => 2 / root3 a b c l)); [|apply inv_root3_derive; assumption].
    apply (is_derive_plus (fun l => A l + B l) C); [|apply DC, Hl]. apply (is_derive_plus A B); auto.
  - apply (filterlim_ext (fun l => A l + B l + C l + -1 * (2 / root3 a b c l))); [intros; ring|].
    apply lim0_plus; [apply lim0_plus; [apply lim0_plus; assumption | exact LC]|]. apply lim0_scal, inv_root3_lim; assumption.
Qed.

(** ** Which case applies *)
Lemma check_sorted a b c : sorted_axes_prop a b c -> check_semiaxes_sorted a b c = Ok tt.
Proof.
  intros (Hc & Hb & Ha). unfold check_semiaxes_sorted, sorted_desc.
  rewrite (proj2 (Rleb_true b a) Ha), (proj2 (Rleb_true c b) Hb). reflexivity.
Qed.
Lemma check_not_sorted a b c : ~ (c <= b /\ b <= a) -> check_semiaxes_sorted a b c = Raise ValueError.
Proof.
  intros H. unfold check_semiaxes_sorted, sorted_desc. destruct (Rleb_spec b a), (Rleb_spec c b); cbn; try reflexivity. tauto.
Qed.

Lemma close_refl a : 0 < a -> close a a = true.
Proof.
  intros H. unfold close. apply Rltb_true. unfold Rminus. rewrite Rplus_opp_r, Rabs_R0, Rmax_left by lra. unfold SEMIAXES_RTOL.
  apply Rmult_lt_0_compat; [apply Rinv_0_lt_compat, pow_lt; lra | exact H].
Qed.
Lemma close_iff a b : 0 < b -> b <= a -> (close a b = true <-> ~ (/ 10 ^ 5 * a <= a - b)).
Proof. intros H1 H2. unfold close. rewrite Rltb_true, Rabs_pos_eq, Rmax_left by lra. unfold SEMIAXES_RTOL. lra. Qed.

(** The semi-axes of the ellipsoid whose integrals the code evaluates. *)
Inductive body_shape : Type := Sphere | Prolate | Oblate | Triaxial.
Definition shape_of (a b c : R) : body_shape :=
  if close a b then (if close b c then Sphere else Oblate) else (if close b c then Prolate else Triaxial).
Definition effective (a b c : R) : R * R * R :=
  match shape_of a b c with Prolate => (a, b, b) | Oblate => (b, b, c) | _ => (a, b, c) end.

Lemma close_lt a b : 0 < a -> b <= a -> close a b = false -> b < a.
Proof. intros Ha H C. destruct (Rle_lt_or_eq_dec b a H) as [L|E]; [exact L|]. subst. rewrite close_refl in C by lra. discriminate. Qed.

Lemma sphere_shape a b c : sorted_axes_prop a b c -> is_almost_a_sphere a b c = Ok (match shape_of a b c with Sphere => true | _ => false end).
Proof.
  intros S. assert (S' := S). destruct S as (Hc & Hb & Ha). unfold is_almost_a_sphere, shape_of. rewrite check_sorted by exact S'. cbn [bind].
  destruct (Reqb_spec a b) as [E1|E1], (Reqb_spec b c) as [E2|E2]; cbn [andb negb].
  - subst. rewrite close_refl by lra. reflexivity.
  - subst. rewrite close_refl by lra. destruct (close b c); reflexivity.
  - subst. rewrite (close_refl c) by lra. destruct (close a c); reflexivity.
  - destruct (close a b), (close b c); reflexivity.
Qed.
Lemma prolate_shape a b c : sorted_axes_prop a b c -> is_almost_prolate a b c = Ok (close b c).
Proof.
  intros S. assert (S' := S). destruct S as (Hc & Hb & Ha). unfold is_almost_prolate. rewrite check_sorted by exact S'. cbn [bind].
  destruct (Reqb_spec b c) as [E|E]; [subst; rewrite close_refl by lra; rewrite andb_true_r; destruct (Rltb c a); reflexivity|].
  rewrite andb_false_r. destruct (close b c); reflexivity.
Qed.
Lemma oblate_shape a b c : sorted_axes_prop a b c -> is_almost_oblate a b c = Ok (close a b).
Proof.
  intros S. assert (S' := S). destruct S as (Hc & Hb & Ha). unfold is_almost_oblate. rewrite check_sorted by exact S'. cbn [bind].
  destruct (Reqb_spec a b) as [E|E]; [subst; rewrite close_refl by lra; destruct (Rltb c b); reflexivity|].
  destruct (close a b); reflexivity.
Qed.

Lemma well_shaped_effective a b c : well_shaped a b c -> effective a b c = (a, b, c) /\ (shape_of a b c = Sphere -> a = b /\ b = c).
Proof.
  intros ((Hc & Hb & Ha) & D1 & D2). unfold effective, shape_of.
  assert (C1 : close a b = true -> a = b).
  { intros C. destruct D1 as [E|L]; [exact E|]. apply close_iff in C; lra. }
  assert (C2 : close b c = true -> b = c).
  { intros C. destruct D2 as [E|L]; [exact E|]. apply close_iff in C; lra. }
  destruct (close a b), (close b c); split; try discriminate; try reflexivity.
  - intros _. auto.
  - rewrite C1 by reflexivity. reflexivity.
  - rewrite <- C2 by reflexivity. reflexivity.
Qed.

(** ** Dispatch of the integrals *)
Lemma effective_integrals a b c : sorted_axes_prop a b c -> shape_of a b c <> Sphere ->
  exists f A B C a' b' c', get_elliptical_integrals a b c = Ok f /\ (forall l, f l = (A l, B l, C l)) /\
    effective a b c = (a', b', c') /\ sorted_axes_prop a' b' c' /\
    primitive a' b' c' a' A /\ primitive a' b' c' b' B /\ primitive a' b' c' c' C.
Proof.
  intros S N. assert (S' := S). destruct S as (Hc & Hb & Ha). unfold get_elliptical_integrals.
  rewrite check_sorted, sphere_shape, prolate_shape, oblate_shape by exact S'. cbn [bind].
  unfold effective. unfold shape_of in *. destruct (close a b) eqn:C1, (close b c) eqn:C2; try (exfalso; apply N; reflexivity); cbn [bind].
  - (* oblate *) assert (L : c < b) by (apply close_lt; try assumption; lra).
    unfold elliptical_integrals_oblate. rewrite (proj2 (Rltb_true c b) L). cbn [negb].
    eexists. exists (obl_1 b c), (obl_1 b c), (obl_3 b c), b, b, c.
    split; [reflexivity|]. assert (P : 0 < b ^ 2 - c ^ 2) by nra.
    split; [intros l; unfold obl_1, obl_3; rewrite Rpower_3half by exact P; reflexivity|].
    split; [reflexivity|]. split; [repeat split; lra|].
    assert (H1 : primitive b b c b (obl_1 b c)) by (split; [intros l Hl; apply obl_1_derive; assumption | apply obl_1_lim; assumption]).
    split; [exact H1|]. split; [exact H1|]. split; [intros l Hl; apply obl_3_derive; assumption | apply obl_3_lim; assumption].
  - (* prolate *) assert (L : b < a) by (apply close_lt; try assumption; lra).
    unfold elliptical_integrals_prolate. rewrite (proj2 (Rltb_true b a) L). cbn [negb].
    eexists. exists (pro_1 a b), (pro_2 a b), (pro_2 a b), a, b, b.
    split; [reflexivity|]. split; [intros l; reflexivity|]. split; [reflexivity|]. split; [repeat split; lra|].
    assert (Pb : 0 < b) by lra.
    assert (H1 : primitive a b b b (pro_2 a b)) by (split; [intros l Hl; apply pro_2_derive; assumption | apply pro_2_lim; assumption]).
    split; [split; [intros l Hl; apply pro_1_derive; assumption | apply pro_1_lim; assumption]|]. split; exact H1.
  - (* triaxial *) assert (L : c < b) by (apply close_lt; try assumption; lra). assert (L2 : b < a) by (apply close_lt; try assumption; lra).
    rewrite (proj2 (Rltb_true b a) L2), (proj2 (Rltb_true c b) L). cbn [andb].
    unfold elliptical_integrals_triaxial. rewrite (proj2 (Rltb_true b a) L2), (proj2 (Rltb_true c b) L). cbn [andb negb].
    eexists. exists (tri_1 a b c), (tri_2 a b c), (tri_3 a b c), a, b, c. split; [reflexivity|].
    assert (P : 0 < a ^ 2 - c ^ 2) by nra.
    split; [intros l; unfold tri_1, tri_2, tri_3, tri_F, tri_E, tri_phi; rewrite Rpower_half by exact P; reflexivity|].
    split; [reflexivity|]. split; [exact S'|].
    split; [split; [intros l Hl; apply tri_1_derive; assumption | apply tri_1_lim; assumption]|].
    split; [split; [intros l Hl; apply tri_2_derive; assumption | apply tri_2_lim; assumption]|].
    split; [intros l Hl; apply tri_3_derive; assumption | apply tri_3_lim; assumption].
Qed.

Lemma derivatives_ok a b c : sorted_axes_prop a b c -> exists f, get_derivatives_of_elliptical_integrals a b c = Ok f /\
  forall l, 0 <= l -> f l = (- integrand a b c a l, - integrand a b c b l, - integrand a b c c l).
Proof.
  intros S. assert (S' := S). destruct S as (Hc & Hb & Ha). unfold get_derivatives_of_elliptical_integrals. rewrite check_sorted by exact S'. cbn [bind].
  eexists; split; [reflexivity|]. intros l Hl. cbv beta zeta. unfold integrand. fold (root3 a b c l).
  assert (Pa : 0 < a) by lra. assert (Pb : 0 < b) by lra.
  assert (A := sq_pos a Pa). assert (B := sq_pos b Pb). assert (C := sq_pos c Hc).
  assert (R3 := root3_pos a b c l Pa Pb Hc Hl). f_equal; [f_equal|]; field; split; lra.
Qed.

(** ** Internal demagnetisation factors *)
Lemma acos_as_asin x : 0 <= x <= 1 -> asin (sqrt (1 - x ^ 2)) = acos x.
Proof.
  intros H. rewrite <- (asin_sin (acos x)).
  - f_equal. rewrite sin_acos by lra. unfold Rsqr. do 2 f_equal. ring.
  - assert (B := acos_bound x). split; [generalize PI_RGT_0; lra|]. destruct (Rle_or_lt (acos x) (PI / 2)) as [L|L]; [exact L|].
    assert (K : cos (acos x) < cos (PI / 2)) by (apply cos_decreasing_1; generalize PI_RGT_0; lra).
    rewrite cos_acos, cos_PI2 in K by lra. lra.
Qed.

Lemma internal_factors a b c : sorted_axes_prop a b c -> shape_of a b c <> Sphere ->
  exists f A B C a' b' c', get_elliptical_integrals a b c = Ok f /\ f 0 = (A, B, C) /\ effective a b c = (a', b', c') /\
    get_demagnetization_tensor_internal a b c = Ok (diag (a' * b' * c' / 2 * A) (a' * b' * c' / 2 * B) (a' * b' * c' / 2 * C)).
Proof.
  intros S N. destruct (effective_integrals a b c S N) as (f & A & B & C & a' & b' & c' & F & E & Eff & S2 & PA & PB & PC).
  exists f, (A 0), (B 0), (C 0), a', b', c'. split; [exact F|]. split; [apply E|]. split; [exact Eff|].
  assert (Sum := sum_of_integrals a' b' c' A B C ltac:(unfold sorted_axes_prop in S2; lra) ltac:(unfold sorted_axes_prop in S2; lra) ltac:(unfold sorted_axes_prop in S2; lra) PA PB PC 0 (Rle_refl 0)).
  rewrite root3_0 in Sum by (unfold sorted_axes_prop in S2; lra).
  assert (S' := S). destruct S as (Hc & Hb & Ha). unfold get_demagnetization_tensor_internal. unfold get_elliptical_integrals in F.
  rewrite check_sorted, sphere_shape, prolate_shape, oblate_shape in F |- * by exact S'. cbn [bind] in F |- *.
  unfold effective in Eff. unfold shape_of in *. destruct (close a b) eqn:C1, (close b c) eqn:C2; try (exfalso; apply N; reflexivity); cbn [bind] in F |- *.
  - (* oblate *) assert (L : c < b) by (apply close_lt; try assumption; lra). injection Eff as <- <- <-.
    unfold elliptical_integrals_oblate in F. unfold demag_oblate_internal. rewrite (proj2 (Rltb_true c b) L) in F |- *. cbn [negb bind] in F |- *.
    assert (E0 := f_equal (fun r => match r with Ok g => g 0 | Raise _ => f 0 end) F). cbv beta iota zeta in E0. rewrite E in E0. assert (P : 0 < b ^ 2 - c ^ 2) by nra. rewrite Rpower_3half in E0 by exact P.
    assert (Pb : 0 < b) by lra.
    assert (EA : A 0 = B 0) by (assert (X1 := f_equal (fun t => fst (fst t)) E0); assert (X2 := f_equal (fun t => snd (fst t)) E0); assert (X3 := f_equal snd E0); cbn [fst snd] in X1, X2, X3; congruence).
    assert (EC : 1 / (1 - (c / b) ^ 2) * (1 - c / b / sqrt (1 - (c / b) ^ 2) * acos (c / b)) = b * b * c / 2 * C 0).
    { assert (E3 := f_equal snd E0). cbn [snd] in E3. rewrite <- E3. rewrite !Rplus_0_r. rewrite sqrt_div_pos, sqrt_pow2 by (try lra; apply pow_lt; lra).
      assert (Pm : 0 < c / b) by (apply Rdiv_lt_0_compat; lra).
      assert (Lm : c / b < 1) by (apply (Rmult_lt_reg_r b); [lra|]; unfold Rdiv; rewrite Rmult_assoc, Rinv_l; lra).
      rewrite acos_atan by exact Pm.
      assert (Sm : sqrt (1 - (c / b) ^ 2) = sqrt (b ^ 2 - c ^ 2) / b).
      { replace (1 - (c / b) ^ 2) with ((b ^ 2 - c ^ 2) / b ^ 2) by (field; lra). rewrite sqrt_div_pos, sqrt_pow2 by (try lra; apply pow_lt; lra). reflexivity. }
      replace (1 - (c / b)²) with (1 - (c / b) ^ 2) by (unfold Rsqr; ring). rewrite Sm.
      assert (SP := sqrt_lt_R0 _ P). assert (SQ := sqrt_sqrt _ (Rlt_le _ _ P)).
      replace (sqrt (b ^ 2 - c ^ 2) / b / (c / b)) with (sqrt (b ^ 2 - c ^ 2) / c) by (field; lra).
      set (w := sqrt (b ^ 2 - c ^ 2)) in *. set (t := atan (w / c)). clearbody t w.
      replace (1 - (c / b) ^ 2) with (w * w / b ^ 2) by (rewrite SQ; field; lra). field. split; lra. }
    rewrite EC. f_equal. unfold diag. assert (K : b * b * c / 2 * A 0 = 1 / 2 * (1 - b * b * c / 2 * C 0)).
    { assert (b * b * c * (A 0 + B 0 + C 0) = 2) by (rewrite Sum; field; lra). rewrite <- EA in H. lra. }
    rewrite <- EA, K. reflexivity.
  - (* prolate *) assert (L : b < a) by (apply close_lt; try assumption; lra). injection Eff as <- <- <-.
    unfold elliptical_integrals_prolate in F. unfold demag_prolate_internal. rewrite (proj2 (Rltb_true b a) L) in F |- *. cbn [negb bind] in F |- *.
    assert (E0 := f_equal (fun r => match r with Ok g => g 0 | Raise _ => f 0 end) F). cbv beta iota zeta in E0. rewrite E in E0. assert (P : 0 < a ^ 2 - b ^ 2) by nra. assert (Pb : 0 < b) by lra.
    assert (EB : B 0 = C 0) by (assert (X1 := f_equal (fun t => fst (fst t)) E0); assert (X2 := f_equal (fun t => snd (fst t)) E0); assert (X3 := f_equal snd E0); cbn [fst snd] in X1, X2, X3; congruence).
    assert (EA : 1 / ((a / b) ^ 2 - 1) * (a / b / sqrt ((a / b) ^ 2 - 1) * ln (a / b + sqrt ((a / b) ^ 2 - 1)) - 1) = a * b * b / 2 * A 0).
    { assert (E1 := f_equal (fun t => fst (fst t)) E0). cbn [fst] in E1. rewrite <- E1. rewrite !Rplus_0_r. rewrite !sqrt_pow2 by lra.
      assert (Sm : sqrt ((a / b) ^ 2 - 1) = sqrt (a ^ 2 - b ^ 2) / b).
      { replace ((a / b) ^ 2 - 1) with ((a ^ 2 - b ^ 2) / b ^ 2) by (field; lra). rewrite sqrt_div_pos, sqrt_pow2 by (try lra; apply pow_lt; lra). reflexivity. }
      rewrite Sm. assert (SP := sqrt_lt_R0 _ P). assert (SQ := sqrt_sqrt _ (Rlt_le _ _ P)).
      replace (a / b + sqrt (a ^ 2 - b ^ 2) / b) with ((sqrt (a ^ 2 - b ^ 2) + a) / b) by (field; lra).
      set (w := sqrt (a ^ 2 - b ^ 2)) in *. set (t := ln ((w + a) / b)). clearbody t w.
      replace ((a / b) ^ 2 - 1) with (w * w / b ^ 2) by (rewrite SQ; field; lra). field. repeat split; lra. }
    rewrite EA. f_equal. unfold diag. assert (K : a * b * b / 2 * B 0 = 1 / 2 * (1 - a * b * b / 2 * A 0)).
    { assert (a * b * b * (A 0 + B 0 + C 0) = 2) by (rewrite Sum; field; lra). rewrite <- EB in H. lra. }
    rewrite <- EB, K. reflexivity.
  - (* triaxial *) assert (L : c < b) by (apply close_lt; try assumption; lra). assert (L2 : b < a) by (apply close_lt; try assumption; lra). injection Eff as <- <- <-.
    rewrite (proj2 (Rltb_true b a) L2), (proj2 (Rltb_true c b) L) in F |- *. cbn [andb] in F |- *.
    unfold elliptical_integrals_triaxial in F. unfold demag_triaxial_internal. rewrite (proj2 (Rltb_true b a) L2), (proj2 (Rltb_true c b) L) in F |- *. cbn [andb negb bind] in F |- *.
    assert (E0 := f_equal (fun r => match r with Ok g => g 0 | Raise _ => f 0 end) F). cbv beta iota zeta in E0. rewrite E in E0. assert (P : 0 < a ^ 2 - c ^ 2) by nra. assert (Pb : 0 < b) by lra. assert (Pa : 0 < a) by lra.
    assert (P2 : 0 < a ^ 2 - b ^ 2) by nra. assert (P3 : 0 < b ^ 2 - c ^ 2) by nra.
    rewrite Rpower_half in E0 by exact P. rewrite !Rplus_0_r in E0.
    assert (Phi : asin (sqrt ((a ^ 2 - c ^ 2) / a ^ 2)) = acos (c / a)).
    { rewrite <- acos_as_asin.
      - do 2 f_equal. field. lra.
      - split; [left; apply Rdiv_lt_0_compat; lra | apply (Rmult_le_reg_r a); [lra|]; unfold Rdiv; rewrite Rmult_assoc, Rinv_l; lra]. }
    rewrite Phi in E0. set (k := (a ^ 2 - b ^ 2) / (a ^ 2 - c ^ 2)) in *.
    set (Fk := ellipkinc (acos (c / a)) k) in *. set (Ek := ellipeinc (acos (c / a)) k) in *.
    replace (sqrt (c ^ 2 / (a ^ 2 * b ^ 2))) with (c / (a * b)) in E0.
    2: { symmetry. replace (c ^ 2 / (a ^ 2 * b ^ 2)) with ((c / (a * b)) ^ 2) by (field; lra). apply sqrt_pow2. left. apply Rdiv_lt_0_compat; [lra | apply Rmult_lt_0_compat; lra]. }
    replace (sqrt (b ^ 2 / (a ^ 2 * c ^ 2))) with (b / (a * c)) in E0.
    2: { symmetry. replace (b ^ 2 / (a ^ 2 * c ^ 2)) with ((b / (a * c)) ^ 2) by (field; lra). apply sqrt_pow2. left. apply Rdiv_lt_0_compat; [lra | apply Rmult_lt_0_compat; lra]. }
    assert (SP := sqrt_lt_R0 _ P). assert (SQ := sqrt_sqrt _ (Rlt_le _ _ P)).
    set (w := sqrt (a ^ 2 - c ^ 2)) in *. clearbody Fk Ek w.
    assert (E1 := f_equal (fun t => fst (fst t)) E0). assert (E2 := f_equal (fun t => snd (fst t)) E0). assert (E3 := f_equal snd E0). cbn [fst snd] in E1, E2, E3.
    rewrite <- E1, <- E2, <- E3. f_equal. f_equal.
    + field. repeat split; lra.
    + replace (a ^ 2 - c ^ 2) with (w * w) by exact SQ.
      transitivity (a * b * c * (w * w) / ((a ^ 2 - b ^ 2) * (b ^ 2 - c ^ 2) * w) * Ek - a * b * c / (w * (a ^ 2 - b ^ 2)) * Fk - c ^ 2 / (b ^ 2 - c ^ 2)).
      * rewrite SQ. field. repeat split; lra.
      * field. repeat split; lra.
    + field. repeat split; lra.
Qed.

(** ** The integrals exist for all positive semi-axes *)
Lemma sphere_primitive a : 0 < a -> primitive a a a a (fun l => 1 / 3 * (2 / root3 a a a l)).
Proof.
  intros H. split.
  - intros l Hl. replace (- integrand a a a a l) with (1 / 3 * (- integrand a a a a l + - integrand a a a a l + - integrand a a a a l)) by field.
    apply (is_derive_scal (fun u => 2 / root3 a a a u)). apply inv_root3_derive; assumption.
  - apply lim0_scal, inv_root3_lim; assumption.
Qed.

Lemma primitives_exist a b c : sorted_axes_prop a b c -> exists A B C, primitive a b c a A /\ primitive a b c b B /\ primitive a b c c C.
Proof.
  intros (Hc & Hb & Ha). destruct (Rle_lt_or_eq_dec b a Ha) as [La|Ea], (Rle_lt_or_eq_dec c b Hb) as [Lb|Eb].
  - exists (tri_1 a b c), (tri_2 a b c), (tri_3 a b c).
    split; [split; [intros l Hl; apply tri_1_derive; assumption | apply tri_1_lim; assumption]|].
    split; [split; [intros l Hl; apply tri_2_derive; assumption | apply tri_2_lim; assumption]|].
    split; [intros l Hl; apply tri_3_derive; assumption | apply tri_3_lim; assumption].
  - subst c. exists (pro_1 a b), (pro_2 a b), (pro_2 a b).
    assert (H1 : primitive a b b b (pro_2 a b)) by (split; [intros l Hl; apply pro_2_derive; assumption | apply pro_2_lim; assumption]).
    split; [split; [intros l Hl; apply pro_1_derive; assumption | apply pro_1_lim; assumption]|]. split; exact H1.
  - subst b. exists (obl_1 a c), (obl_1 a c), (obl_3 a c).
    assert (H1 : primitive a a c a (obl_1 a c)) by (split; [intros l Hl; apply obl_1_derive; assumption | apply obl_1_lim; assumption]).
    split; [exact H1|]. split; [exact H1|]. split; [intros l Hl; apply obl_3_derive; assumption | apply obl_3_lim; assumption].
  - subst. assert (H := sphere_primitive a Hc). exists (fun l => 1 / 3 * (2 / root3 a a a l)), (fun l => 1 / 3 * (2 / root3 a a a l)), (fun l => 1 / 3 * (2 / root3 a a a l)). auto.
Qed.

Lemma improper_unique a b c e l v w : improper a b c e l v -> improper a b c e l w -> v = w.
Proof.
  intros V W. unfold improper in *. rewrite <- (is_RInt_gen_unique _ _ V). apply (is_RInt_gen_unique _ _ W).
Qed.

(** ** Internal factors of every ellipsoid *)
Lemma internal_ok a b c : sorted_axes_prop a b c -> exists nx ny nz, get_demagnetization_tensor_internal a b c = Ok (diag nx ny nz) /\
  0 < nx /\ 0 < ny /\ 0 < nz /\ nx + ny + nz = 1.
Proof.
  intros S. assert (D : shape_of a b c = Sphere \/ shape_of a b c <> Sphere) by (destruct (shape_of a b c); (left; reflexivity) || (right; discriminate)).
  destruct D as [E|N].
  - unfold get_demagnetization_tensor_internal. rewrite check_sorted, sphere_shape, E by exact S. cbn [bind].
    eexists _, _, _. split; [reflexivity|]. repeat split; lra.
  - destruct (internal_factors a b c S N) as (f & A & B & C & a' & b' & c' & F & F0 & Eff & I).
    destruct (effective_integrals a b c S N) as (f2 & A' & B' & C' & a2 & b2 & c2 & F2 & E2 & Eff2 & S2 & PA & PB & PC).
    rewrite F in F2. injection F2 as <-. rewrite Eff in Eff2. injection Eff2 as <- <- <-. rewrite E2 in F0. injection F0 as <- <- <-.
    destruct S2 as (Hc & Hb & Ha). assert (Pa : 0 < a') by lra. assert (Pb : 0 < b') by lra.
    assert (P : 0 < a' * b' * c' / 2) by (assert (0 < a' * b' * c') by (repeat apply Rmult_lt_0_compat; assumption); lra).
    exists (a' * b' * c' / 2 * A' 0), (a' * b' * c' / 2 * B' 0), (a' * b' * c' / 2 * C' 0). split; [exact I|].
    assert (XA := primitive_pos a' b' c' a' A' Pa Pb Hc Pa PA 0 (Rle_refl 0)). assert (XB := primitive_pos a' b' c' b' B' Pa Pb Hc Pb PB 0 (Rle_refl 0)).
    assert (XC := primitive_pos a' b' c' c' C' Pa Pb Hc Hc PC 0 (Rle_refl 0)).
    split; [apply Rmult_lt_0_compat; assumption|]. split; [apply Rmult_lt_0_compat; assumption|]. split; [apply Rmult_lt_0_compat; assumption|].
    assert (Sum := sum_of_integrals a' b' c' A' B' C' Pa Pb Hc PA PB PC 0 (Rle_refl 0)). rewrite root3_0 in Sum by assumption.
    replace (a' * b' * c' / 2 * A' 0 + a' * b' * c' / 2 * B' 0 + a' * b' * c' / 2 * C' 0) with (a' * b' * c' / 2 * (A' 0 + B' 0 + C' 0)) by ring.
    rewrite Sum. field. repeat split; lra.
Qed.

Lemma effective_close a b c a' b' c' : sorted_axes_prop a b c -> effective a b c = (a', b', c') ->
  Rabs (a' - a) <= / 10 ^ 5 * a /\ b' = b /\ Rabs (c' - c) <= / 10 ^ 5 * b.
Proof.
  intros (Hc & Hb & Ha) E. assert (T : 0 < / 10 ^ 5) by (apply Rinv_0_lt_compat, pow_lt; lra).
  assert (Ta : 0 < / 10 ^ 5 * a) by (apply Rmult_lt_0_compat; lra). assert (Tb : 0 < / 10 ^ 5 * b) by (apply Rmult_lt_0_compat; lra).
  assert (Z : forall x, Rabs (x - x) = 0) by (intros x; unfold Rminus; rewrite Rplus_opp_r; apply Rabs_R0).
  unfold effective, shape_of in E. destruct (close a b) eqn:C1, (close b c) eqn:C2; injection E as <- <- <-; rewrite ?Z; (split; [|split]); try lra; try reflexivity.
  - unfold close in C1. apply Rltb_true in C1. rewrite Rabs_minus_sym, Rmax_left in C1 by lra. fold SEMIAXES_RTOL. lra.
  - unfold close in C2. apply Rltb_true in C2. rewrite Rmax_left in C2 by lra. fold SEMIAXES_RTOL. lra.
Qed.
