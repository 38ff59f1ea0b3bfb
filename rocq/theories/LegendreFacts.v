(** Legendre polynomials and their derivatives, from Rodrigues' formula. *)
From Coquelicot Require Import Coquelicot.
From Coq Require Import Psatz.
From Verif Require Import Base BaseFacts LegendreModel LegendreSpec.
Local Open Scope R_scope.

(** [F n k] is the k-th derivative of (x^2-1)^n / (2^n n!). *)
Fixpoint F (n k : nat) (x : R) : R :=
  match n with
  | O => match k with O => 1 | S _ => 0 end
  | S n' => match k with
            | O => (x ^ 2 - 1) ^ n / (2 ^ n * INR (fact n))
            | S k' => x * F n' k' x + INR k' * F n' (k' - 1) x
            end
  end.


Lemma pow2_ne n : 2 ^ n <> 0.
Proof. apply pow_nonzero; lra. Qed.
Lemma fact_ne n : INR (fact n) <> 0.
Proof. apply not_0_INR, fact_neq_0. Qed.
Lemma fact_pos n : 0 < INR (fact n).
Proof. apply lt_0_INR, lt_O_fact. Qed.

Lemma F_0 n x : F n 0 x = (x ^ 2 - 1) ^ n / (2 ^ n * INR (fact n)).
Proof. destruct n; simpl; [field|reflexivity]. Qed.

Lemma F_0_step n x : 2 * INR (S n) * F (S n) 0 x = (x ^ 2 - 1) * F n 0 x.
Proof.
  rewrite !F_0. rewrite fact_simpl, mult_INR. rewrite <- !tech_pow_Rmult.
  pose proof (pow2_ne n); pose proof (fact_ne n). assert (INR (S n) <> 0) by (apply not_0_INR; lia).
  field. auto.
Qed.

Lemma F_derive n : forall k x, is_derive (F n k) x (F n (S k) x).
Proof.
  induction n as [|n IH]; intros k x.
  - destruct k; simpl; apply is_derive_Reals; apply derivable_pt_lim_const.
  - destruct k as [|k].
    + apply (is_derive_ext (fun t => (t ^ 2 - 1) ^ S n / (2 ^ S n * INR (fact (S n))))).
      { intros t. now rewrite F_0. }
      assert (E : is_derive (fun t : R => (t ^ 2 - 1) ^ S n / (2 ^ S n * INR (fact (S n)))) x
        (INR (S n) * (2 * x) * (x ^ 2 - 1) ^ n / (2 ^ S n * INR (fact (S n))))).
      { assert (P : is_derive (fun t : R => t ^ 2 - 1) x (2 * x)) by (auto_derive; [trivial|ring]).
        pose proof (is_derive_pow _ (S n) _ _ P) as Q.
        apply (is_derive_scal _ _ (/ (2 ^ S n * INR (fact (S n))))) in Q.
        apply (is_derive_ext (fun t : R => / (2 ^ S n * INR (fact (S n))) * (t ^ 2 - 1) ^ S n)); [intros; unfold Rdiv; apply Rmult_comm|].
        change (Init.Nat.pred (S n)) with n in Q.
        replace (INR (S n) * (2 * x) * (x ^ 2 - 1) ^ n / (2 ^ S n * INR (fact (S n)))) with
          (/ (2 ^ S n * INR (fact (S n))) * (INR (S n) * (2 * x) * (x ^ 2 - 1) ^ n)) by (unfold Rdiv; apply Rmult_comm).
        exact Q. }
      replace (F (S n) 1 x) with (INR (S n) * (2 * x) * (x ^ 2 - 1) ^ n / (2 ^ S n * INR (fact (S n)))); [exact E|].
      change (F (S n) 1 x) with (x * F n 0 x + INR 0 * F n 0 x). rewrite F_0.
      rewrite fact_simpl, mult_INR. rewrite <- !tech_pow_Rmult.
      pose proof (pow2_ne n); pose proof (fact_ne n). assert (INR (S n) <> 0) by (apply not_0_INR; lia).
      simpl (INR 0). field. auto.
    + change (F (S n) (S k)) with (fun x => x * F n k x + INR k * F n (k - 1) x).
      change (F (S n) (S (S k)) x) with (x * F n (S k) x + INR (S k) * F n (S k - 1) x).
      replace (S k - 1)%nat with k by lia.
      assert (E1 : is_derive (fun t : R => t * F n k t) x (1 * F n k x + x * F n (S k) x)).
      { apply (is_derive_mult (fun t : R => t) (F n k) x 1 (F n (S k) x)); [apply is_derive_Reals, derivable_pt_lim_id|apply IH|intros; apply Rmult_comm]. }
      assert (E2 : is_derive (fun t : R => INR k * F n (k - 1) t) x (INR k * F n k x)).
      { destruct k as [|k'].
        - simpl (INR 0). apply (is_derive_ext (fun _ : R => 0)); [intros; eqR; ring|]. replace (0 * F n 0 x) with 0 by ring.
          apply is_derive_Reals, derivable_pt_lim_const.
        - replace (S k' - 1)%nat with k' by lia. apply (is_derive_scal (F n k') x (INR (S k'))). apply IH. }
      pose proof (is_derive_plus _ _ _ _ _ E1 E2) as E. unfold plus in E; simpl in E.
      replace (x * F n (S k) x + INR (S k) * F n k x) with (1 * F n k x + x * F n (S k) x + INR k * F n k x); [exact E|].
      rewrite S_INR. ring.
Qed.

Lemma Derive_n_F n k x : Derive_n (F n 0) k x = F n k x.
Proof.
  revert x; induction k as [|k IH]; intros x; [reflexivity|].
  simpl Derive_n. rewrite (Derive_ext _ _ _ IH). apply is_derive_unique, F_derive.
Qed.

(** Rodrigues' formula in terms of [F]. *)
Lemma Derive_n_base n k x : Derive_n (fun t => (t ^ 2 - 1) ^ n) k x = 2 ^ n * INR (fact n) * F n k x.
Proof.
  rewrite <- Derive_n_F, <- Derive_n_scal_l. apply Derive_n_ext. intros t. rewrite F_0.
  pose proof (pow2_ne n); pose proof (fact_ne n). field. auto.
Qed.

Definition L (n m : nat) (x : R) : R := F n (n + m) x.

Lemma rodrigues_L n m x : rodrigues n m x = sqrt (1 - x ^ 2) ^ m * L n m x.
Proof.
  unfold rodrigues, L. rewrite Derive_n_base. pose proof (pow2_ne n); pose proof (fact_ne n). field. auto.
Qed.

Lemma F_high n : forall k x, (2 * n < k)%nat -> F n k x = 0.
Proof.
  induction n as [|n IH]; intros k x H.
  - destruct k; [lia|reflexivity].
  - destruct k as [|k]; [lia|].
    change (F (S n) (S k) x) with (x * F n k x + INR k * F n (k - 1) x). rewrite !IH by lia. ring.
Qed.

Lemma derive_zero_ext (f : R -> R) (df : R) x : (forall t, f t = 0) -> is_derive f x df -> df = 0.
Proof.
  intros Hz H. apply is_derive_unique in H. rewrite <- H.
  rewrite (Derive_ext f (fun _ => 0)) by auto. apply Derive_const.
Qed.

(** x F_N^(k+1) = (2N-k) F_N^(k) + F_(N-1)^(k) *)
Lemma F_down N k : forall x, x * F (S N) (S k) x - (2 * INR (S N) - INR k) * F (S N) k x - F N k x = 0.
Proof.
  induction k as [|k IH]; intros x.
  - change (F (S N) 1 x) with (x * F N 0 x + INR 0 * F N 0 x). simpl (INR 0).
    rewrite Rminus_0_r, F_0_step. ring.
  - set (E := fun t : R => t * F (S N) (S k) t - (2 * INR (S N) - INR k) * F (S N) k t - F N k t) in *.
    apply (derive_zero_ext E _ x IH). unfold E.
    pose proof (F_derive (S N) (S k) x) as D1. pose proof (F_derive (S N) k x) as D2. pose proof (F_derive N k x) as D3.
    assert (X1 : is_derive (fun t : R => t * F (S N) (S k) t) x (1 * F (S N) (S k) x + x * F (S N) (S (S k)) x)).
    { apply (is_derive_mult (fun t : R => t) (F (S N) (S k)) x 1 (F (S N) (S (S k)) x)); [apply is_derive_Reals, derivable_pt_lim_id|exact D1|intros; apply Rmult_comm]. }
    pose proof (is_derive_scal (F (S N) k) x (2 * INR (S N) - INR k) _ D2) as X2.
    pose proof (is_derive_minus _ _ _ _ _ (is_derive_minus _ _ _ _ _ X1 X2) D3) as X.
    unfold minus, plus, opp in X; simpl plus in X; simpl opp in X.
    replace (x * F (S N) (S (S k)) x - (2 * INR (S N) - INR (S k)) * F (S N) (S k) x - F N (S k) x)
      with (1 * F (S N) (S k) x + x * F (S N) (S (S k)) x + - ((2 * INR (S N) - INR k) * F (S N) (S k) x) + - F N (S k) x)
      by (rewrite (S_INR k); ring).
    exact X.
Qed.

(** Legendre's equation: (x^2-1) F_n^(k+1) = 2 (n-k) x F_n^(k) + k (2n-k+1) F_n^(k-1). *)
Lemma F_ode n k : forall x,
  (x ^ 2 - 1) * F n (S k) x - 2 * (INR n - INR k) * (x * F n k x) - INR k * (2 * INR n - INR k + 1) * F n (k - 1) x = 0.
Proof.
  induction k as [|k IH]; intros x.
  - simpl (INR 0). destruct n as [|n]; [simpl; ring|].
    change (F (S n) 1 x) with (x * F n 0 x + INR 0 * F n 0 x). simpl (INR 0).
    replace ((x ^ 2 - 1) * (x * F n 0 x + 0 * F n 0 x)) with (x * ((x ^ 2 - 1) * F n 0 x)) by ring.
    rewrite <- F_0_step. ring.
  - set (E := fun t : R => (t ^ 2 - 1) * F n (S k) t - 2 * (INR n - INR k) * (t * F n k t) - INR k * (2 * INR n - INR k + 1) * F n (k - 1) t) in *.
    apply (derive_zero_ext E _ x IH). unfold E.
    assert (X1 : is_derive (fun t : R => (t ^ 2 - 1) * F n (S k) t) x (2 * x * F n (S k) x + (x ^ 2 - 1) * F n (S (S k)) x)).
    { apply (is_derive_mult (fun t : R => t ^ 2 - 1) (F n (S k)) x (2 * x) (F n (S (S k)) x)); [|apply F_derive|intros; apply Rmult_comm].
      auto_derive; [trivial|ring]. }
    assert (X2 : is_derive (fun t : R => 2 * (INR n - INR k) * (t * F n k t)) x (2 * (INR n - INR k) * (1 * F n k x + x * F n (S k) x))).
    { apply (is_derive_scal (fun t : R => t * F n k t) x (2 * (INR n - INR k))).
      apply (is_derive_mult (fun t : R => t) (F n k) x 1 (F n (S k) x)); [apply is_derive_Reals, derivable_pt_lim_id|apply F_derive|intros; apply Rmult_comm]. }
    assert (X3 : is_derive (fun t : R => INR k * (2 * INR n - INR k + 1) * F n (k - 1) t) x (INR k * (2 * INR n - INR k + 1) * F n k x)).
    { destruct k as [|k'].
      - simpl (INR 0). apply (is_derive_ext (fun _ : R => 0)); [intros; eqR; ring|].
        replace (0 * (2 * INR n - 0 + 1) * F n 0 x) with 0 by ring. apply is_derive_Reals, derivable_pt_lim_const.
      - replace (S k' - 1)%nat with k' by lia. apply (is_derive_scal (F n k') x (INR (S k') * (2 * INR n - INR (S k') + 1))). apply F_derive. }
    pose proof (is_derive_minus _ _ _ _ _ (is_derive_minus _ _ _ _ _ X1 X2) X3) as X.
    unfold minus, plus, opp in X; simpl plus in X; simpl opp in X.
    replace ((x ^ 2 - 1) * F n (S (S k)) x - 2 * (INR n - INR (S k)) * (x * F n (S k) x) - INR (S k) * (2 * INR n - INR (S k) + 1) * F n (S k - 1) x)
      with (2 * x * F n (S k) x + (x ^ 2 - 1) * F n (S (S k)) x + - (2 * (INR n - INR k) * (1 * F n k x + x * F n (S k) x)) + - (INR k * (2 * INR n - INR k + 1) * F n k x)).
    + exact X.
    + replace (S k - 1)%nat with k by lia. rewrite (S_INR k). ring.
Qed.

(** Three-term recursion in the degree. *)
Lemma L_rec n m x : (n >= 2)%nat ->
  (INR n - INR m) * L n m x = (2 * INR n - 1) * x * L (n - 1) m x - (INR n + INR m - 1) * L (n - 2) m x.
Proof.
  intros Hn. destruct n as [|[|n]]; try lia. replace (S (S n) - 1)%nat with (S n) by lia. replace (S (S n) - 2)%nat with n by lia.
  unfold L. replace (S (S n) + m)%nat with (S (S n + m)) by lia.
  change (F (S (S n)) (S (S n + m)) x) with (x * F (S n) (S n + m) x + INR (S n + m) * F (S n) (S n + m - 1) x).
  replace (S n + m - 1)%nat with (n + m)%nat by lia.
  pose proof (F_down n (n + m) x) as D. replace (S (n + m)) with (S n + m)%nat in D by lia.
  assert (D' : F n (n + m) x = x * F (S n) (S n + m) x - (2 * INR (S n) - INR (n + m)) * F (S n) (n + m) x) by lra.
  rewrite D'. rewrite ?S_INR, ?plus_INR, ?S_INR. ring.
Qed.

Lemma L_diag n x : L (S n) (S n) x = (2 * INR (S n) - 1) * L n n x.
Proof.
  unfold L. replace (S n + S n)%nat with (S (S (n + n))) by lia.
  change (F (S n) (S (S (n + n))) x) with (x * F n (S (n + n)) x + INR (S (n + n)) * F n (S (n + n) - 1) x).
  rewrite F_high by lia. replace (S (n + n) - 1)%nat with (n + n)%nat by lia.
  rewrite !S_INR, plus_INR. ring.
Qed.

Lemma L_subdiag n x : L (S n) n x = (2 * INR (S n) - 1) * x * L n n x.
Proof.
  destruct n as [|n].
  - unfold L; simpl. lra.
  - pose proof (L_rec (S (S n)) (S n) x ltac:(lia)) as H.
    replace (S (S n) - 1)%nat with (S n) in H by lia. replace (S (S n) - 2)%nat with n in H by lia.
    assert (Z : L n (S n) x = 0) by (unfold L; apply F_high; lia). rewrite Z in H.
    rewrite (S_INR (S n)) in *. lra.
Qed.

Lemma L_0_0 x : L 0 0 x = 1. Proof. reflexivity. Qed.
Lemma L_1_0 x : L 1 0 x = x. Proof. unfold L; simpl; lra. Qed.
Lemma L_1_1 x : L 1 1 x = 1. Proof. unfold L; simpl; lra. Qed.

Lemma L_high n m x : (n < m)%nat -> L n m x = 0.
Proof. intros H. apply F_high. lia. Qed.

(** Value at the north pole. *)
Lemma L_at_1 n : L n 0 1 = 1.
Proof.
  assert (H : L n 0 1 = 1 /\ L (S n) 0 1 = 1); [|tauto].
  induction n as [|n [H1 H2]]; [rewrite L_0_0, L_1_0; lra|].
  split; [exact H2|].
  pose proof (L_rec (S (S n)) 0 1 ltac:(lia)) as H.
  replace (S (S n) - 1)%nat with (S n) in H by lia. replace (S (S n) - 2)%nat with n in H by lia.
  rewrite H1, H2 in H. simpl (INR 0) in H.
  assert (0 < INR (S (S n))) by (apply lt_0_INR; lia).
  apply Rmult_eq_reg_l with (INR (S (S n))); [lra|lra].
Qed.
