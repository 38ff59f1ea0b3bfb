(** Integrals of products of Legendre functions and of sines and cosines. *)
From Coquelicot Require Import Coquelicot.
From Coq Require Import Psatz.
From Verif Require Import Base BaseFacts LegendreModel LegendreSpec LegendreFacts LegendreProofs LegendreDerivProofs.
Local Open Scope R_scope.

Lemma deriv_mult (f g : R -> R) x df dg : is_derive f x df -> is_derive g x dg ->
  is_derive (fun t => f t * g t) x (df * g x + f x * dg).
Proof. intros Hf Hg. exact (is_derive_mult f g x df dg Hf Hg Rmult_comm). Qed.

Lemma L_continuous n m x : continuous (L n m) x.
Proof. apply (ex_derive_continuous (L n m)). eexists. apply L_derive. Qed.
Lemma weight_continuous m x : continuous (fun x : R => (1 - x ^ 2) ^ m) x.
Proof. apply (ex_derive_continuous (fun x : R => (1 - x ^ 2) ^ m)). auto_derive. trivial. Qed.

Lemma LL_continuous n k m j x : continuous (fun x : R => (1 - x ^ 2) ^ j * (L n m x * L k m x)) x.
Proof.
  apply (continuous_mult (fun x : R => (1 - x ^ 2) ^ j) (fun x => L n m x * L k m x)); [apply weight_continuous|].
  apply (continuous_mult (L n m) (L k m)); apply L_continuous.
Qed.

(** The integral of (1-x^2)^m L_n^m L_k^m. *)
Definition J (n k m : nat) : R := RInt (fun x => (1 - x ^ 2) ^ m * (L n m x * L k m x)) (-1) 1.

Lemma J_ex n k m j a b : ex_RInt (fun x => (1 - x ^ 2) ^ j * (L n m x * L k m x)) a b.
Proof. apply (ex_RInt_continuous (fun x => (1 - x ^ 2) ^ j * (L n m x * L k m x))). intros. apply LL_continuous. Qed.

Lemma J_sym n k m : J n k m = J k n m.
Proof. unfold J. apply RInt_ext. intros. apply f_equal, Rmult_comm. Qed.

(** d/dx [(1-x^2)^(m+1) L_n^(m+1)] = -(n-m)(n+m+1) (1-x^2)^m L_n^m *)
Lemma weighted_derive n m x : is_derive (fun x : R => (1 - x ^ 2) ^ S m * L n (S m) x) x
  (- ((INR n - INR m) * (INR n + INR m + 1)) * ((1 - x ^ 2) ^ m * L n m x)).
Proof.
  assert (E1 : is_derive (fun x : R => (1 - x ^ 2) ^ S m) x (INR (S m) * (- 2 * x) * (1 - x ^ 2) ^ m)).
  { assert (P : is_derive (fun t : R => 1 - t ^ 2) x (- 2 * x)) by (auto_derive; [trivial|ring]).
    exact (is_derive_pow _ (S m) _ _ P). }
  pose proof (deriv_mult _ _ _ _ _ E1 (L_derive n (S m) x)) as E. cbv beta in E.
  match type of E with is_derive _ _ ?v => match goal with |- is_derive _ _ ?w => replace w with v; [exact E|eqR] end end.
  pose proof (L_ode n (S m) x ltac:(lia)) as O. replace (S m - 1)%nat with m in O by lia. replace (S m + 1)%nat with (S (S m)) in O by lia.
  rewrite S_INR in *. simpl pow in *.
  transitivity ((1 - x * (x * 1)) ^ m * ((1 - x * (x * 1)) * L n (S (S m)) x - 2 * (INR m + 1) * (x * L n (S m) x))); [eqR; ring|].
  rewrite O. eqR. ring.
Qed.

(** Integration by parts. *)
Lemma J_step n k m : J n k (S m) = (INR n - INR m) * (INR n + INR m + 1) * J n k m.
Proof.
  set (c := (INR n - INR m) * (INR n + INR m + 1)).
  assert (D : forall x, is_derive (fun x : R => ((1 - x ^ 2) ^ S m * L n (S m) x) * L k m x) x
    ((1 - x ^ 2) ^ S m * (L n (S m) x * L k (S m) x) - c * ((1 - x ^ 2) ^ m * (L n m x * L k m x)))).
  { intros x. pose proof (deriv_mult _ _ _ _ _ (weighted_derive n m x) (L_derive k m x)) as E. cbv beta in E.
    match type of E with is_derive _ _ ?v => match goal with |- is_derive _ _ ?w => replace w with v; [exact E|eqR] end end.
    fold c. ring. }
  assert (I1 : is_RInt (fun x => (1 - x ^ 2) ^ S m * (L n (S m) x * L k (S m) x) - c * ((1 - x ^ 2) ^ m * (L n m x * L k m x))) (-1) 1
    (minus (((1 - 1 ^ 2) ^ S m * L n (S m) 1) * L k m 1) (((1 - (-1) ^ 2) ^ S m * L n (S m) (-1)) * L k m (-1)))).
  { apply (is_RInt_derive (fun x : R => ((1 - x ^ 2) ^ S m * L n (S m) x) * L k m x)).
    - intros x _. apply D.
    - intros x _. apply (continuous_minus (fun x : R => (1 - x ^ 2) ^ S m * (L n (S m) x * L k (S m) x)) (fun x : R => c * ((1 - x ^ 2) ^ m * (L n m x * L k m x)))).
      + apply LL_continuous.
      + apply (continuous_scal_r c (fun x : R => (1 - x ^ 2) ^ m * (L n m x * L k m x))). apply LL_continuous. }
  assert (I2 : is_RInt (fun x => (1 - x ^ 2) ^ S m * (L n (S m) x * L k (S m) x) - c * ((1 - x ^ 2) ^ m * (L n m x * L k m x))) (-1) 1
    (J n k (S m) - c * J n k m)).
  { apply (is_RInt_minus (fun x => (1 - x ^ 2) ^ S m * (L n (S m) x * L k (S m) x)) (fun x => c * ((1 - x ^ 2) ^ m * (L n m x * L k m x)))).
    - apply (RInt_correct (fun x => (1 - x ^ 2) ^ S m * (L n (S m) x * L k (S m) x))), J_ex.
    - apply (is_RInt_scal (fun x => (1 - x ^ 2) ^ m * (L n m x * L k m x)) (-1) 1 c).
      apply (RInt_correct (fun x => (1 - x ^ 2) ^ m * (L n m x * L k m x))), J_ex. }
  pose proof (is_RInt_unique _ _ _ _ I1) as U1. pose proof (is_RInt_unique _ _ _ _ I2) as U2. rewrite U1 in U2.
  unfold minus, plus, opp in U2; simpl in U2.
  replace (1 - 1 * (1 * 1)) with 0 in U2 by ring. replace (1 - -1 * (-1 * 1)) with 0 in U2 by ring. rewrite !Rmult_0_l in U2. lra.
Qed.

Lemma J_orthogonal n k m : n <> k -> J n k m = 0.
Proof.
  intros H. pose proof (J_step n k m) as E1. pose proof (J_step k n m) as E2. rewrite (J_sym k n (S m)), (J_sym k n m) in E2.
  rewrite E1 in E2. assert (E : (INR n - INR k) * (INR n + INR k + 1) * J n k m = 0) by lra.
  apply Rmult_integral in E. destruct E as [E|E]; [|exact E]. exfalso.
  pose proof (pos_INR n). pose proof (pos_INR k). apply Rmult_integral in E. destruct E as [E|E]; [|lra].
  apply H. apply INR_eq. lra.
Qed.

(** Norm of the Legendre polynomials. *)
Lemma xLL_ex n k : ex_RInt (fun x => x * (L n 0 x * L k 0 x)) (-1) 1.
Proof.
  apply (ex_RInt_continuous (fun x => x * (L n 0 x * L k 0 x))). intros x _.
  apply (continuous_mult (fun x : R => x) (fun x => L n 0 x * L k 0 x)); [apply continuous_id|].
  apply (continuous_mult (L n 0) (L k 0)); apply L_continuous.
Qed.
Lemma J0 n k : J n k 0 = RInt (fun x => L n 0 x * L k 0 x) (-1) 1.
Proof. unfold J. apply RInt_ext. intros. simpl. apply Rmult_1_l. Qed.
Lemma J0_ex n k : ex_RInt (fun x => L n 0 x * L k 0 x) (-1) 1.
Proof. apply (ex_RInt_ext (fun x => (1 - x ^ 2) ^ 0 * (L n 0 x * L k 0 x))); [intros; simpl; apply Rmult_1_l|]. apply J_ex. Qed.

Lemma RInt_sub (f g : R -> R) a b : ex_RInt f a b -> ex_RInt g a b -> RInt (fun x => f x - g x) a b = RInt f a b - RInt g a b.
Proof. intros Hf Hg. exact (RInt_minus f g a b Hf Hg). Qed.

Lemma rec_integral n k : (2 <= n)%nat ->
  INR n * J n k 0 = (2 * INR n - 1) * RInt (fun x => x * (L (n - 1) 0 x * L k 0 x)) (-1) 1 - (INR n - 1) * J (n - 2) k 0.
Proof.
  intros Hn. rewrite !J0.
  transitivity (RInt (fun x => INR n * (L n 0 x * L k 0 x)) (-1) 1).
  { symmetry. apply (RInt_scal (fun x => L n 0 x * L k 0 x) (-1) 1 (INR n)). apply J0_ex. }
  transitivity (RInt (fun x => (2 * INR n - 1) * (x * (L (n - 1) 0 x * L k 0 x)) - (INR n - 1) * (L (n - 2) 0 x * L k 0 x)) (-1) 1).
  { apply RInt_ext. intros x _. pose proof (L_rec n 0 x Hn) as E. simpl (INR 0) in E. eqR.
    replace (INR n * (L n 0 x * L k 0 x)) with (((INR n - 0) * L n 0 x) * L k 0 x) by ring. rewrite E. ring. }
  rewrite RInt_sub.
  - f_equal; [apply (RInt_scal (fun x => x * (L (n - 1) 0 x * L k 0 x)) (-1) 1 (2 * INR n - 1)), xLL_ex|].
    apply (RInt_scal (fun x => L (n - 2) 0 x * L k 0 x) (-1) 1 (INR n - 1)), J0_ex.
  - apply (ex_RInt_scal (fun x => x * (L (n - 1) 0 x * L k 0 x)) (-1) 1 (2 * INR n - 1)), xLL_ex.
  - apply (ex_RInt_scal (fun x => L (n - 2) 0 x * L k 0 x) (-1) 1 (INR n - 1)), J0_ex.
Qed.

Lemma J_norm0 n : J n n 0 = 2 / (2 * INR n + 1).
Proof.
  induction n as [|n IH].
  - rewrite J0. rewrite (RInt_ext _ (fun _ => 1)) by (intros; rewrite L_0_0; eqR; ring). rewrite RInt_const.
    unfold scal; simpl; unfold mult; simpl. field.
  - destruct n as [|n].
    + assert (I1 : is_RInt (fun x : R => x ^ 2) (-1) 1 (minus (1 ^ 3 / 3) ((-1) ^ 3 / 3))).
      { apply (is_RInt_derive (fun x : R => x ^ 3 / 3)); [intros; auto_derive; [trivial|field]|].
        intros x _. apply (ex_derive_continuous (fun x : R => x ^ 2)). auto_derive. trivial. }
      rewrite J0. rewrite (RInt_ext _ (fun x => x ^ 2)) by (intros; rewrite L_1_0; eqR; ring).
      rewrite (is_RInt_unique _ _ _ _ I1). unfold minus, plus, opp; simpl. field.
    + pose proof (rec_integral (S (S n)) (S (S n)) ltac:(lia)) as E1. replace (S (S n) - 1)%nat with (S n) in E1 by lia. replace (S (S n) - 2)%nat with n in E1 by lia.
      rewrite (J_orthogonal n (S (S n))) in E1 by lia.
      pose proof (rec_integral (S (S (S n))) (S n) ltac:(lia)) as E2. replace (S (S (S n)) - 1)%nat with (S (S n)) in E2 by lia. replace (S (S (S n)) - 2)%nat with (S n) in E2 by lia.
      rewrite (J_orthogonal (S (S (S n))) (S n)) in E2 by lia. rewrite IH in E2.
      assert (X : RInt (fun x => x * (L (S (S n)) 0 x * L (S n) 0 x)) (-1) 1 = RInt (fun x => x * (L (S n) 0 x * L (S (S n)) 0 x)) (-1) 1) by (apply RInt_ext; intros; eqR; ring).
      rewrite X in E2. set (I := RInt _ _ _) in *. rewrite !S_INR in *. pose proof (pos_INR n).
      assert (Y : I = (INR n + 2) * (2 / (2 * (INR n + 1) + 1)) / (2 * (INR n + 3) - 1)).
      { apply (Rmult_eq_reg_l (2 * (INR n + 3) - 1)); [|lra]. transitivity ((INR n + 2) * (2 / (2 * (INR n + 1) + 1))); [|field; lra].
        replace (INR n + 1 + 1 + 1) with (INR n + 3) in E2 by ring. replace (INR n + 3 - 1) with (INR n + 2) in E2 by ring. lra. }
      rewrite Y in E1. apply (Rmult_eq_reg_l (INR n + 1 + 1)); [|lra]. rewrite E1. field. lra.
Qed.

Lemma J_norm n m : (m <= n)%nat -> J n n m = 2 / (2 * INR n + 1) * (INR (fact (n + m)) / INR (fact (n - m))).
Proof.
  induction m as [|m IH]; intros Hm.
  - rewrite J_norm0, Nat.add_0_r, Nat.sub_0_r. pose proof (fact_ne n). pose proof (pos_INR n). field. split; lra.
  - rewrite J_step, IH by lia. replace (n + S m)%nat with (S (n + m)) by lia. replace (n - m)%nat with (S (n - S m)) by lia.
    rewrite !fact_simpl, !mult_INR. replace (INR (S (n - S m))) with (INR n - INR m) by (rewrite <- minus_INR by lia; f_equal; lia).
    rewrite (S_INR (n + m)), plus_INR. pose proof (fact_ne (n + m)). pose proof (fact_ne (n - S m)). pose proof (pos_INR n).
    assert (INR m < INR n) by (apply lt_INR; lia). field. repeat split; lra.
Qed.

(** ** Sines and cosines *)
Definition wave (sine : bool) (m : nat) (l : R) : R := if sine then sin (INR m * l) else cos (INR m * l).

Lemma sin_turns k : sin (INR k * (2 * PI)) = 0.
Proof. replace (INR k * (2 * PI)) with (0 + 2 * INR k * PI) by ring. rewrite sin_period. apply sin_0. Qed.
Lemma cos_turns k : cos (INR k * (2 * PI)) = 1.
Proof. replace (INR k * (2 * PI)) with (0 + 2 * INR k * PI) by ring. rewrite cos_period. apply cos_0. Qed.

Lemma int_cos k : is_RInt (fun l => cos (INR k * l)) 0 (2 * PI) (if Nat.eqb k 0 then 2 * PI else 0).
Proof.
  destruct (Nat.eqb_spec k 0) as [->|Hk].
  - apply (is_RInt_ext (fun _ => 1)); [intros; simpl; now rewrite Rmult_0_l, cos_0|].
    pose proof (is_RInt_const 0 (2 * PI) 1) as E. unfold scal in E; simpl in E; unfold mult in E; simpl in E.
    replace ((2 * PI - 0) * 1) with (2 * PI) in E by ring. exact E.
  - assert (Hn : INR k <> 0) by (apply not_0_INR; exact Hk).
    assert (E : is_RInt (fun l => cos (INR k * l)) 0 (2 * PI) (minus (sin (INR k * (2 * PI)) / INR k) (sin (INR k * 0) / INR k))).
    { apply (is_RInt_derive (fun l : R => sin (INR k * l) / INR k)); [intros; auto_derive; [trivial|field; exact Hn]|].
      intros x _. apply (ex_derive_continuous (fun l : R => cos (INR k * l))). auto_derive. trivial. }
    rewrite sin_turns, Rmult_0_r, sin_0 in E. unfold minus, plus, opp in E; simpl in E.
    replace (0 / INR k + - (0 / INR k)) with 0 in E by ring. exact E.
Qed.

Lemma int_sin k : is_RInt (fun l => sin (INR k * l)) 0 (2 * PI) 0.
Proof.
  destruct (Nat.eq_dec k 0) as [->|Hk].
  - apply (is_RInt_ext (fun _ => 0)); [intros; simpl; now rewrite Rmult_0_l, sin_0|].
    pose proof (is_RInt_const 0 (2 * PI) 0) as E. unfold scal in E; simpl in E; unfold mult in E; simpl in E. rewrite Rmult_0_r in E. exact E.
  - assert (Hn : INR k <> 0) by (apply not_0_INR; exact Hk).
    assert (E : is_RInt (fun l => sin (INR k * l)) 0 (2 * PI) (minus (- cos (INR k * (2 * PI)) / INR k) (- cos (INR k * 0) / INR k))).
    { apply (is_RInt_derive (fun l : R => - cos (INR k * l) / INR k)); [intros; auto_derive; [trivial|field; exact Hn]|].
      intros x _. apply (ex_derive_continuous (fun l : R => sin (INR k * l))). auto_derive. trivial. }
    rewrite cos_turns, Rmult_0_r, cos_0 in E. unfold minus, plus, opp in E; simpl in E.
    replace (- (1) / INR k + - (- (1) / INR k)) with 0 in E by ring. exact E.
Qed.

Lemma int_half f g a b I1 I2 (s1 s2 : R) : is_RInt f a b I1 -> is_RInt g a b I2 ->
  is_RInt (fun l => / 2 * (s1 * f l + s2 * g l)) a b (/ 2 * (s1 * I1 + s2 * I2)).
Proof.
  intros H1 H2. apply (is_RInt_scal (fun l => s1 * f l + s2 * g l) a b (/ 2)).
  apply (is_RInt_plus (fun l => s1 * f l) (fun l => s2 * g l)); [apply (is_RInt_scal f a b s1)|apply (is_RInt_scal g a b s2)]; assumption.
Qed.

(** Products of waves, for m <= j. *)
Lemma int_waves_le s m s' j : (m <= j)%nat -> (s = true -> 1 <= m)%nat -> (s' = true -> 1 <= j)%nat ->
  is_RInt (fun l => wave s m l * wave s' j l) 0 (2 * PI)
    (if (Bool.eqb s s' && Nat.eqb m j)%bool then (if Nat.eqb m 0 then 2 * PI else PI) else 0).
Proof.
  intros Hmj H1 H2.
  assert (Ep : forall l, INR (m + j) * l = INR m * l + INR j * l) by (intros; rewrite plus_INR; ring).
  assert (Em : forall l, INR (j - m) * l = INR j * l - INR m * l) by (intros; rewrite minus_INR by lia; ring).
  assert (Hj : Nat.eqb (j - m) 0 = Nat.eqb m j) by (destruct (Nat.eqb_spec m j), (Nat.eqb_spec (j - m) 0); lia || reflexivity).
  assert (Hp : Nat.eqb (m + j) 0 = (Nat.eqb m 0 && Nat.eqb m j)%bool).
  { destruct (Nat.eqb_spec m 0), (Nat.eqb_spec m j), (Nat.eqb_spec (m + j) 0); simpl; lia || reflexivity. }
  destruct s, s'; cbn [Bool.eqb andb wave].
  - pose proof (int_half _ _ _ _ _ _ 1 (- 1) (int_cos (j - m)) (int_cos (m + j))) as E. rewrite Hj, Hp in E.
    assert (Hm0 : Nat.eqb m 0 = false) by (apply Nat.eqb_neq; specialize (H1 eq_refl); lia). rewrite Hm0 in *. cbn [andb] in E.
    match type of E with is_RInt _ _ _ ?v => match goal with |- is_RInt _ _ _ ?w => replace w with v by (destruct (Nat.eqb m j); lra) end end.
    refine (is_RInt_ext _ _ _ _ _ _ E). intros l _. eqR. rewrite Ep, Em, cos_plus, cos_minus. lra.
  - pose proof (int_half _ _ _ _ _ _ 1 (- 1) (int_sin (m + j)) (int_sin (j - m))) as E.
    replace (/ 2 * (1 * 0 + - 1 * 0)) with 0 in E by lra.
    refine (is_RInt_ext _ _ _ _ _ _ E). intros l _. eqR. rewrite Ep, Em, sin_plus, sin_minus. lra.
  - pose proof (int_half _ _ _ _ _ _ 1 1 (int_sin (m + j)) (int_sin (j - m))) as E.
    replace (/ 2 * (1 * 0 + 1 * 0)) with 0 in E by lra.
    refine (is_RInt_ext _ _ _ _ _ _ E). intros l _. eqR. rewrite Ep, Em, sin_plus, sin_minus. lra.
  - pose proof (int_half _ _ _ _ _ _ 1 1 (int_cos (j - m)) (int_cos (m + j))) as E. rewrite Hj, Hp in E.
    match type of E with is_RInt _ _ _ ?v => match goal with |- is_RInt _ _ _ ?w => replace w with v by (destruct (Nat.eqb m j), (Nat.eqb m 0); cbn [andb]; lra) end end.
    refine (is_RInt_ext _ _ _ _ _ _ E). intros l _. eqR. rewrite Ep, Em, cos_plus, cos_minus. lra.
Qed.

Lemma int_waves s m s' j : (s = true -> 1 <= m)%nat -> (s' = true -> 1 <= j)%nat ->
  is_RInt (fun l => wave s m l * wave s' j l) 0 (2 * PI)
    (if (Bool.eqb s s' && Nat.eqb m j)%bool then (if Nat.eqb m 0 then 2 * PI else PI) else 0).
Proof.
  intros H1 H2. destruct (le_lt_dec m j) as [H|H]; [now apply int_waves_le|].
  pose proof (int_waves_le s' j s m ltac:(lia) H2 H1) as E.
  replace (Nat.eqb m j) with false by (symmetry; apply Nat.eqb_neq; lia).
  replace (Nat.eqb j m) with false in E by (symmetry; apply Nat.eqb_neq; lia). rewrite andb_false_r in *.
  refine (is_RInt_ext _ _ _ _ _ _ E). intros l _. apply Rmult_comm.
Qed.

(** ** Surface harmonics with any normalisation [c] *)
Section Surface.
Variables (N : nat) (c : nat -> nat -> R) (p : R -> table).
Hypothesis Hp : forall x, -1 <= x <= 1 -> filled N (p x) (fun n m => sin_of x ^ m * (c n m * L n m x)).

Lemma surface_inner n m n' m' l s s' : (m <= n <= N)%nat -> (m' <= n' <= N)%nat ->
  RInt (fun x => (ent (p x) n m * wave s m l) * (ent (p x) n' m' * wave s' m' l)) (-1) 1 =
  (c n m * c n' m' * RInt (fun x => sin_of x ^ (m + m') * (L n m x * L n' m' x)) (-1) 1) * (wave s m l * wave s' m' l).
Proof.
  intros H H'.
  transitivity (RInt (fun x => (c n m * c n' m' * (wave s m l * wave s' m' l)) * (sin_of x ^ (m + m') * (L n m x * L n' m' x))) (-1) 1).
  { apply RInt_ext. intros x Hx. rewrite Rmin_left, Rmax_right in Hx by lra. destruct (Hp x ltac:(lra)) as [_ Hf].
    rewrite !Hf by lia. rewrite pow_add. eqR. ring. }
  rewrite (RInt_scal (fun x => sin_of x ^ (m + m') * (L n m x * L n' m' x))).
  - unfold scal; simpl; unfold mult; simpl. ring.
  - apply (ex_RInt_continuous (fun x => sin_of x ^ (m + m') * (L n m x * L n' m' x))). intros x _.
    apply (continuous_mult (fun x => sin_of x ^ (m + m')) (fun x => L n m x * L n' m' x)).
    + generalize (m + m')%nat. intros k. induction k as [|k IHk]; [apply continuous_const|]. cbn [pow].
      apply (continuous_mult sin_of (fun x => sin_of x ^ k)); [|exact IHk]. unfold sin_of.
      apply (continuous_comp (fun x : R => (1 - x) * (1 + x)) sqrt); [|apply continuous_sqrt].
      apply (ex_derive_continuous (fun x : R => (1 - x) * (1 + x))). auto_derive. trivial.
    + apply (continuous_mult (L n m) (L n' m')); apply L_continuous.
Qed.

Lemma surface_product n m s n' m' s' : (m <= n <= N)%nat -> (m' <= n' <= N)%nat ->
  (s = true -> 1 <= m)%nat -> (s' = true -> 1 <= m')%nat ->
  is_RInt (fun l => RInt (fun x => (ent (p x) n m * wave s m l) * (ent (p x) n' m' * wave s' m' l)) (-1) 1) 0 (2 * PI)
    (if (Bool.eqb s s' && Nat.eqb m m' && Nat.eqb n n')%bool
     then c n m ^ 2 * (2 / (2 * INR n + 1) * (INR (fact (n + m)) / INR (fact (n - m)))) * (if Nat.eqb m 0 then 2 * PI else PI) else 0).
Proof.
  intros H H' Hs Hs'.
  apply (is_RInt_ext (fun l => (c n m * c n' m' * RInt (fun x => sin_of x ^ (m + m') * (L n m x * L n' m' x)) (-1) 1) * (wave s m l * wave s' m' l))).
  { intros l _. symmetry. now apply surface_inner. }
  pose proof (is_RInt_scal (fun l => wave s m l * wave s' m' l) _ _ (c n m * c n' m' * RInt (fun x => sin_of x ^ (m + m') * (L n m x * L n' m' x)) (-1) 1) _ (int_waves s m s' m' Hs Hs')) as E.
  unfold scal in E; simpl in E; unfold mult in E; simpl in E.
  match type of E with is_RInt _ _ _ ?v => match goal with |- is_RInt _ _ _ ?w => replace w with v; [exact E|eqR] end end.
  destruct (Bool.eqb s s'); cbn [andb]; [|ring]. destruct (Nat.eqb_spec m m') as [<-|]; cbn [andb]; [|ring].
  assert (EJ : RInt (fun x => sin_of x ^ (m + m) * (L n m x * L n' m x)) (-1) 1 = J n n' m).
  { unfold J. apply RInt_ext. intros x Hx. rewrite Rmin_left, Rmax_right in Hx by lra. f_equal.
    rewrite pow_add, <- Rpow_mult_distr. f_equal. unfold sin_of. rewrite sqrt_sqrt; [ring|nra]. }
  rewrite EJ. destruct (Nat.eqb_spec n n') as [<-|Hn]; [rewrite J_norm by lia; ring|rewrite J_orthogonal by exact Hn; ring].
Qed.
End Surface.
