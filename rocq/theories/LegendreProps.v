(** Claims about legendre.py: C55, C56 and C57. *)
From Coquelicot Require Import Coquelicot.
From Coq Require Import Psatz.
From Verif Require Import Base BaseFacts LegendreModel LegendreSpec LegendreFacts LegendreProofs LegendreDerivProofs.
Local Open Scope R_scope.

Lemma sin_of_sqrt x : sin_of x = sqrt (1 - x ^ 2).
Proof. unfold sin_of. f_equal. ring. Qed.

Lemma colat_G n m t : colat n m t = G n m t.
Proof.
  unfold colat, G, L. rewrite Derive_n_base. pose proof (pow2_ne n); pose proof (fact_ne n). field. auto.
Qed.

Lemma sin_of_cos t : 0 <= t <= PI -> sin_of (cos t) = sin t.
Proof.
  intros H. rewrite sin_of_sqrt. replace (1 - cos t ^ 2) with (sin t ^ 2) by (pose proof (sin2_cos2 t); unfold Rsqr in *; simpl; lra).
  apply sqrt_pow2. apply sin_ge_0; lra.
Qed.

Lemma rodrigues_G n m t : 0 <= t <= PI -> rodrigues n m (cos t) = G n m t.
Proof. intros H. rewrite rodrigues_L, <- sin_of_sqrt, sin_of_cos by exact H. reflexivity. Qed.

Lemma filled_ext N p f g : (forall n m, (m <= n)%nat -> f n m = g n m) -> filled N p f -> filled N p g.
Proof. intros E [H1 H2]. split; [exact H1|]. intros n m Hm Hn. rewrite H2 by auto. auto. Qed.

Lemma locally_open a b t : a < t < b -> locally t (fun s => a <= s <= b).
Proof.
  intros [H1 H2]. assert (P : 0 < Rmin (t - a) (b - t)) by (apply Rmin_pos; lra).
  exists (mkposreal _ P). intros s Hs. unfold ball in Hs; simpl in Hs. unfold AbsRing_ball, abs, minus, plus, opp in Hs; simpl in Hs.
  pose proof (Rmin_l (t - a) (b - t)); pose proof (Rmin_r (t - a) (b - t)).
  apply Rabs_def2 in Hs. lra.
Qed.

Lemma derive_colat k c n m t : (m <= n)%nat -> is_derive_n (fun s => c * colat n m s) k t (c * H k n m t).
Proof.
  intros Hm. apply is_derive_n_scal_l. apply (is_derive_n_ext (G n m)); [intros; symmetry; apply colat_G|].
  now apply is_derive_n_G.
Qed.

Lemma derive_rodrigues k c n m t : (m <= n)%nat -> 0 < t < PI ->
  is_derive_n (fun s => c * rodrigues n m (cos s)) k t (c * H k n m t).
Proof.
  intros Hm Ht. apply (is_derive_n_ext_loc (fun s => c * colat n m s)); [|now apply derive_colat].
  apply filter_imp with (2 := locally_open 0 PI t Ht). intros s Hs. now rewrite colat_G, rodrigues_G.
Qed.

(** C55: the table of the unnormalised functions, whatever the array contained before. *)
Theorem C55_unnormalised_table : forall N x p, -1 <= x <= 1 -> square N p ->
  exists p', associated_legendre x N p = Ok p' /\ filled N p' (fun n m => rodrigues n m x).
Proof.
  intros N x p _ Hs. destruct (plain_table x N p Hs) as (p' & E & Hf). exists p'; split; [exact E|].
  apply (filled_ext _ _ _ _ (fun n m _ => eq_sym (eq_trans (rodrigues_L n m x) (f_equal (fun s => s ^ m * L n m x) (eq_sym (sin_of_sqrt x)))))). exact Hf.
Qed.
Print Assumptions C55_unnormalised_table.

Theorem C55_schmidt_table : forall N x p, (1 <= N)%nat -> -1 <= x <= 1 -> square N p ->
  exists p', associated_legendre_schmidt x N p = Ok p' /\
    filled N p' (fun n m => schmidt_factor n m * rodrigues n m x).
Proof.
  intros N x p HN _ Hs. destruct (schmidt_table x N p HN Hs) as (p' & E & Hf). exists p'; split; [exact E|].
  apply (filled_ext _ _ (schmidt x)); [|exact Hf]. intros n m _. rewrite rodrigues_L, <- sin_of_sqrt. unfold schmidt, sch. ring.
Qed.
Print Assumptions C55_schmidt_table.

Theorem C55_full_table : forall N x p, (1 <= N)%nat -> -1 <= x <= 1 -> square N p ->
  exists p', associated_legendre_full x N p = Ok p' /\
    filled N p' (fun n m => full_factor n m * rodrigues n m x).
Proof.
  intros N x p HN _ Hs. destruct (full_table x N p HN Hs) as (p' & E & Hf). exists p'; split; [exact E|].
  apply (filled_ext _ _ (full x)); [|exact Hf]. intros n m _. rewrite rodrigues_L, <- sin_of_sqrt. unfold full, ff. ring.
Qed.
Print Assumptions C55_full_table.

(** The normalised tables are not computed for a maximum degree of zero: the code writes row 1 of an
    array with one row. *)
Theorem C55_degree_zero_refuted : exists p, square 0 p /\
  (forall x, associated_legendre_schmidt x 0 p = Raise OutOfBounds) /\
  (forall x, associated_legendre_full x 0 p = Raise OutOfBounds) /\
  associated_legendre_schmidt_derivative 0 p p = Raise OutOfBounds /\
  associated_legendre_full_derivative 0 p p = Raise OutOfBounds.
Proof. exists (Table 1 1 (fun _ _ => 0)). repeat split. Qed.
Print Assumptions C55_degree_zero_refuted.

(** The specification at small degrees: P_2^1 = 3 x sqrt(1-x^2), P_3^0 = (5x^3-3x)/2. *)
Example rodrigues_2_1 x : rodrigues 2 1 x = 3 * x * sqrt (1 - x ^ 2).
Proof. rewrite rodrigues_L. unfold L. simpl. ring. Qed.
Example rodrigues_3_0 x : rodrigues 3 0 x = (5 * x ^ 3 - 3 * x) / 2.
Proof. rewrite rodrigues_L. unfold L. simpl. field. Qed.
Example C55_nontrivial : square 3 (Table 4 4 (fun _ _ => 7)) /\ (1 <= 3)%nat /\ -1 <= / 2 <= 1.
Proof. repeat split; try lia; lra. Qed.

(** C56: applying the derivative routine k times to the table for cos t gives the k-th derivatives
    in the colatitude, poles included. *)
Theorem C56_unnormalised_derivatives : forall k N t p fresh, 0 <= t <= PI -> square N p -> square N fresh ->
  exists p' q, associated_legendre (cos t) N p = Ok p' /\
    apply_times k (associated_legendre_derivative N) fresh p' = Ok q /\ square N q /\
    forall n m, (m <= n)%nat -> (n <= N)%nat ->
      is_derive_n (colat n m) k t (ent q n m) /\
      (0 < t < PI -> is_derive_n (fun s => rodrigues n m (cos s)) k t (ent q n m)).
Proof.
  intros k N t p fresh Ht Hp Hf.
  destruct (plain_table (cos t) N p Hp) as (p' & E & F').
  assert (F2 : filled N p' (fun n m => G n m t)).
  { apply (filled_ext _ _ (plain (cos t))); [|exact F']. intros. unfold plain. now rewrite sin_of_cos. }
  destruct (plain_times N p' fresh t k Hf F2) as (q & E2 & [Hq1 Hq2]).
  exists p', q. refine (conj E (conj E2 (conj Hq1 _))). intros n m Hm Hn. rewrite Hq2 by auto. split.
  - pose proof (derive_colat k 1 n m t Hm) as D. rewrite Rmult_1_l in D.
    apply (is_derive_n_ext (fun s => 1 * colat n m s)); [intros; ring|exact D].
  - intros Hi. pose proof (derive_rodrigues k 1 n m t Hm Hi) as D. rewrite Rmult_1_l in D.
    apply (is_derive_n_ext (fun s => 1 * rodrigues n m (cos s))); [intros; ring|exact D].
Qed.
Print Assumptions C56_unnormalised_derivatives.

Theorem C56_schmidt_derivatives : forall k N t p fresh, (1 <= N)%nat -> 0 <= t <= PI -> square N p -> square N fresh ->
  exists p' q, associated_legendre_schmidt (cos t) N p = Ok p' /\
    apply_times k (associated_legendre_schmidt_derivative N) fresh p' = Ok q /\ square N q /\
    forall n m, (m <= n)%nat -> (n <= N)%nat ->
      is_derive_n (fun s => schmidt_factor n m * colat n m s) k t (ent q n m) /\
      (0 < t < PI -> is_derive_n (fun s => schmidt_factor n m * rodrigues n m (cos s)) k t (ent q n m)).
Proof.
  intros k N t p fresh HN Ht Hp Hf.
  destruct (schmidt_table (cos t) N p HN Hp) as (p' & E & F').
  assert (F2 : filled N p' (fun n m => (fun _ => 1) n * sch n m * G n m t)).
  { apply (filled_ext _ _ (schmidt (cos t))); [|exact F']. intros. unfold schmidt, G. rewrite sin_of_cos by exact Ht. ring. }
  destruct (normalised_times _ (fun _ => 1) N p' fresh t k (or_introl eq_refl) HN Hf F2) as (q & E2 & [Hq1 Hq2]).
  exists p', q. refine (conj E (conj E2 (conj Hq1 _))). intros n m Hm Hn. rewrite Hq2 by auto. rewrite Rmult_1_l. split.
  - exact (derive_colat k (schmidt_factor n m) n m t Hm).
  - intros Hi. exact (derive_rodrigues k (schmidt_factor n m) n m t Hm Hi).
Qed.
Print Assumptions C56_schmidt_derivatives.

Theorem C56_full_derivatives : forall k N t p fresh, (1 <= N)%nat -> 0 <= t <= PI -> square N p -> square N fresh ->
  exists p' q, associated_legendre_full (cos t) N p = Ok p' /\
    apply_times k (associated_legendre_full_derivative N) fresh p' = Ok q /\ square N q /\
    forall n m, (m <= n)%nat -> (n <= N)%nat ->
      is_derive_n (fun s => full_factor n m * colat n m s) k t (ent q n m) /\
      (0 < t < PI -> is_derive_n (fun s => full_factor n m * rodrigues n m (cos s)) k t (ent q n m)).
Proof.
  intros k N t p fresh HN Ht Hp Hf.
  destruct (full_table (cos t) N p HN Hp) as (p' & E & F').
  assert (F2 : filled N p' (fun n m => (fun n => sqrt (2 * INR n + 1)) n * sch n m * G n m t)).
  { apply (filled_ext _ _ (full (cos t))); [|exact F']. intros. unfold full, ff, G. rewrite sin_of_cos, full_factor_sch by exact Ht. ring. }
  destruct (normalised_times _ _ N p' fresh t k (or_intror eq_refl) HN Hf F2) as (q & E2 & [Hq1 Hq2]).
  exists p', q. refine (conj E (conj E2 (conj Hq1 _))). intros n m Hm Hn. rewrite Hq2 by auto.
  change (sqrt (2 * INR n + 1) * sch n m) with ((fun n => sqrt (2 * INR n + 1)) n * sch n m). cbv beta. rewrite <- full_factor_sch. split.
  - exact (derive_colat k (full_factor n m) n m t Hm).
  - intros Hi. exact (derive_rodrigues k (full_factor n m) n m t Hm Hi).
Qed.
Print Assumptions C56_full_derivatives.

(** [colat] is the function of the tables on the whole range of colatitudes. *)
Theorem C56_colat_is_legendre : forall n m t, 0 <= t <= PI -> rodrigues n m (cos t) = colat n m t.
Proof. intros. now rewrite colat_G, rodrigues_G. Qed.
Print Assumptions C56_colat_is_legendre.

(** The hypotheses are met. *)
Example C56_nontrivial : 0 <= PI / 3 <= PI /\ (1 <= 2)%nat /\ square 2 (Table 3 3 (fun _ _ => 0)).
Proof. pose proof PI_RGT_0. repeat split; try lia; lra. Qed.

(** C57: the squares of the computed Schmidt functions of one degree add to one. *)
Theorem C57_schmidt_squares_add_to_one : forall N x p, (1 <= N)%nat -> -1 <= x <= 1 -> square N p ->
  exists p', associated_legendre_schmidt x N p = Ok p' /\
    forall n, (n <= N)%nat ->
      sum_over (range 0 (n + 1)) (fun m => ent p' n m ^ 2) = 1 /\
      forall m, (m <= n)%nat -> Rabs (ent p' n m) <= 1.
Proof.
  intros N x p HN Hx Hs. destruct (schmidt_table x N p HN Hs) as (p' & E & [_ Hf]). exists p'; split; [exact E|].
  intros n Hn. set (t := acos x).
  assert (Ht : 0 <= t <= PI) by apply acos_bound. assert (Hc : cos t = x) by (apply cos_acos; lra).
  assert (V : forall m, (m <= n)%nat -> ent p' n m = sch n m * G n m t).
  { intros m Hm. rewrite Hf by auto. unfold schmidt, G. rewrite <- Hc, sin_of_cos by exact Ht. ring. }
  assert (S1 : sum_over (range 0 (n + 1)) (fun m => ent p' n m ^ 2) = 1).
  { rewrite <- (sq_sum_1 n t), sq_sum_over. replace (n + 1)%nat with (S n) by lia. apply sum_over_ext.
    intros m Hm. apply range_in in Hm. rewrite V by lia. reflexivity. }
  split; [exact S1|]. intros m Hm.
  assert (B : ent p' n m ^ 2 <= 1).
  { rewrite <- S1. unfold range. rewrite Nat.sub_0_r.
    assert (I : In m (seq 0 (n + 1))) by (apply in_seq; lia).
    destruct (in_split _ _ I) as (l1 & l2 & ->). rewrite sum_over_app, sum_over_cons.
    assert (0 <= sum_over l1 (fun m => ent p' n m ^ 2)) by (apply sum_over_nonneg; intros; apply pow2_ge_0).
    assert (0 <= sum_over l2 (fun m => ent p' n m ^ 2)) by (apply sum_over_nonneg; intros; apply pow2_ge_0). lra. }
  apply Rabs_le. split; nra.
Qed.
Print Assumptions C57_schmidt_squares_add_to_one.
Example C57_example : exists p', associated_legendre_schmidt (/ 2) 3 (Table 4 4 (fun _ _ => 7)) = Ok p' /\
  ent p' 3 0 ^ 2 + ent p' 3 1 ^ 2 + ent p' 3 2 ^ 2 + ent p' 3 3 ^ 2 = 1.
Proof.
  destruct (C57_schmidt_squares_add_to_one 3 (/ 2) (Table 4 4 (fun _ _ => 7))) as (p' & E & H); [lia|lra|split; reflexivity|]. exists p'. split; [exact E|].
  destruct (H 3%nat) as [S _]; [lia|]. cbn [Nat.add range seq Nat.sub] in S. unfold sum_over in S. cbn [map sumR fold_right] in S. rewrite <- S. ring.
Qed.
