(** Proofs about how fitted equivalent sources depend on the data, their order and the damping. *)
From Coq Require Import Psatz Permutation.
From Verif Require Import Base BaseFacts NumPy NumPyFacts DistanceModel DistanceSpec PointGravitySpec PointGravityProofs
  LegendreModel EqsModel EqsSpec EqsProofs EqsFitProofs EqsBoostProofs EqsWindowProofs EqsExactSpec EqsExactFitProofs EqsLinearSpec.
Local Open Scope R_scope.

(** ** Combinations of arrays *)
Lemma length_combination a x b y : length (combination a x b y) = length x.
Proof. unfold combination. now rewrite map_length, seq_length. Qed.
Lemma nth_combination a x b y i : length x = length y -> nth i (combination a x b y) 0 = a * nth i x 0 + b * nth i y 0.
Proof.
  intros L. destruct (Nat.lt_ge_cases i (length x)) as [H|H].
  - unfold combination. rewrite (nth_map _ _ _ 0%nat) by (now rewrite seq_length). now rewrite seq_nth.
  - rewrite !nth_overflow by (rewrite ?length_combination; lia). ring.
Qed.
Lemma times_combination J a x b y i : length x = length y -> times J (combination a x b y) i = a * times J x i + b * times J y i.
Proof.
  intros L. unfold times. rewrite <- !sum_over_scal, <- sum_over_plus. apply sum_over_ext. intros j _. rewrite nth_combination by assumption. ring.
Qed.

(** ** The minimisers are the points where the slope vanishes *)
Definition strength (damping : option R) : R := match damping with Some a => a | None => 0 end.
Definition slope J d w damping x v : R :=
  sum_over (range 0 (rows J)) (fun i => weight w i * ((nth i d 0 - times J x i) * times J v i)) -
  strength damping * sum_over (range 0 (cols J)) (fun j => column_std J j ^ 2 * (nth j x 0 * nth j v 0)).
Definition bend J w damping v : R :=
  sum_over (range 0 (rows J)) (fun i => weight w i * times J v i ^ 2) + strength damping * scaled_size J v.

Lemma objective_strength J d w damping c : objective J d w damping c = misfit J d w c + strength damping * scaled_size J c.
Proof. unfold objective, scaled_size. destruct damping; cbn [strength]; ring. Qed.

Lemma objective_along J d w damping x v t : length x = length v ->
  objective J d w damping (combination 1 x t v) = objective J d w damping x - 2 * t * slope J d w damping x v + t ^ 2 * bend J w damping v.
Proof.
  intros L. rewrite !objective_strength. unfold slope, bend.
  assert (M : misfit J d w (combination 1 x t v) = misfit J d w x +
    (-2 * t) * sum_over (range 0 (rows J)) (fun i => weight w i * ((nth i d 0 - times J x i) * times J v i)) +
    t ^ 2 * sum_over (range 0 (rows J)) (fun i => weight w i * times J v i ^ 2)).
  { unfold misfit. rewrite <- !sum_over_scal, <- !sum_over_plus. apply sum_over_ext. intros i _. rewrite times_combination by assumption. ring. }
  assert (S : scaled_size J (combination 1 x t v) = scaled_size J x +
    (2 * t) * sum_over (range 0 (cols J)) (fun j => column_std J j ^ 2 * (nth j x 0 * nth j v 0)) + t ^ 2 * scaled_size J v).
  { unfold scaled_size. rewrite <- !sum_over_scal, <- !sum_over_plus. apply sum_over_ext. intros i _. rewrite nth_combination by assumption. ring. }
  rewrite M, S. ring.
Qed.

Lemma minimum_slope J d w damping x : minimises (objective J d w damping) (cols J) x -> forall v, length v = cols J -> slope J d w damping x v = 0.
Proof.
  intros (Lx & M) v Lv. apply (parabola _ (bend J w damping v)). intros t.
  pose proof (M (combination 1 x t v) ltac:(now rewrite length_combination)) as H. rewrite objective_along in H by congruence. lra.
Qed.

Lemma bend_nonneg J w damping v : no_negative_weight (rows J) w -> 0 <= strength damping -> 0 <= bend J w damping v.
Proof.
  intros Hw Ha. unfold bend, scaled_size. apply Rplus_le_le_0_compat.
  - apply sum_over_nonneg. intros i Hi. apply range_in in Hi. apply Rmult_le_pos; [apply Hw; lia|apply pow2_ge_0].
  - apply Rmult_le_pos; [assumption|]. apply sum_over_nonneg. intros. apply pow2_ge_0.
Qed.

Lemma slope_minimum J d w damping x : no_negative_weight (rows J) w -> 0 <= strength damping -> length x = cols J ->
  (forall v, length v = cols J -> slope J d w damping x v = 0) -> minimises (objective J d w damping) (cols J) x.
Proof.
  intros Hw Ha Lx H. split; [assumption|]. intros y Ly.
  set (v := combination 1 y (-1) x). assert (Lv : length v = cols J) by (unfold v; now rewrite length_combination).
  assert (E : y = combination 1 x 1 v).
  { apply (nth_ext _ _ 0 0); [rewrite length_combination; congruence|]. intros i _. rewrite nth_combination by congruence. unfold v. rewrite nth_combination by congruence. ring. }
  rewrite E, objective_along by congruence. rewrite H by assumption. pose proof (bend_nonneg J w damping v Hw Ha). lra.
Qed.

Lemma slope_combination J d1 d2 w damping a x b y v : length d1 = length d2 -> length x = length y ->
  slope J (combination a d1 b d2) w damping (combination a x b y) v = a * slope J d1 w damping x v + b * slope J d2 w damping y v.
Proof.
  intros Ld Lx. unfold slope.
  replace (sum_over (range 0 (rows J)) (fun i => weight w i * ((nth i (combination a d1 b d2) 0 - times J (combination a x b y) i) * times J v i))) with
    (a * sum_over (range 0 (rows J)) (fun i => weight w i * ((nth i d1 0 - times J x i) * times J v i)) +
     b * sum_over (range 0 (rows J)) (fun i => weight w i * ((nth i d2 0 - times J y i) * times J v i))).
  2:{ rewrite <- !sum_over_scal, <- sum_over_plus. apply sum_over_ext. intros i _. rewrite nth_combination, times_combination by assumption. ring. }
  replace (sum_over (range 0 (cols J)) (fun j => column_std J j ^ 2 * (nth j (combination a x b y) 0 * nth j v 0))) with
    (a * sum_over (range 0 (cols J)) (fun j => column_std J j ^ 2 * (nth j x 0 * nth j v 0)) +
     b * sum_over (range 0 (cols J)) (fun j => column_std J j ^ 2 * (nth j y 0 * nth j v 0))).
  2:{ rewrite <- !sum_over_scal, <- sum_over_plus. apply sum_over_ext. intros i _. rewrite nth_combination by assumption. ring. }
  ring.
Qed.

Lemma combination_minimum J d1 d2 w damping a x b y : no_negative_weight (rows J) w -> 0 <= strength damping -> length d1 = length d2 ->
  minimises (objective J d1 w damping) (cols J) x -> minimises (objective J d2 w damping) (cols J) y ->
  minimises (objective J (combination a d1 b d2) w damping) (cols J) (combination a x b y).
Proof.
  intros Hw Ha Ld Mx My. assert (Lx := proj1 Mx). assert (Ly := proj1 My). apply slope_minimum; auto.
  - now rewrite length_combination.
  - intros v Lv. rewrite slope_combination by congruence. rewrite (minimum_slope _ _ _ _ _ Mx), (minimum_slope _ _ _ _ _ My) by assumption. ring.
Qed.

(** Two minimisers predict the same at every datum with a positive weight. *)
Lemma same_fit J d w damping x y : no_negative_weight (rows J) w -> 0 <= strength damping ->
  minimises (objective J d w damping) (cols J) x -> minimises (objective J d w damping) (cols J) y ->
  forall i, (i < rows J)%nat -> 0 < weight w i -> times J x i = times J y i.
Proof.
  intros Hw Ha Mx My i Hi Hwi. assert (Lx := proj1 Mx). assert (Ly := proj1 My).
  set (v := combination 1 x (-1) y). assert (Lv : length v = cols J) by (unfold v; now rewrite length_combination).
  assert (E : slope J d w damping y v - slope J d w damping x v = bend J w damping v).
  { unfold slope, bend, scaled_size.
    replace (sum_over (range 0 (rows J)) (fun i => weight w i * times J v i ^ 2)) with
      (sum_over (range 0 (rows J)) (fun i => weight w i * ((nth i d 0 - times J y i) * times J v i)) + (-1) * sum_over (range 0 (rows J)) (fun i => weight w i * ((nth i d 0 - times J x i) * times J v i))).
    2:{ rewrite <- !sum_over_scal, <- sum_over_plus. apply sum_over_ext. intros k _. unfold v. rewrite times_combination by congruence. ring. }
    replace (sum_over (range 0 (cols J)) (fun j => (column_std J j * nth j v 0) ^ 2)) with
      (sum_over (range 0 (cols J)) (fun j => column_std J j ^ 2 * (nth j x 0 * nth j v 0)) + (-1) * sum_over (range 0 (cols J)) (fun j => column_std J j ^ 2 * (nth j y 0 * nth j v 0))).
    2:{ rewrite <- !sum_over_scal, <- sum_over_plus. apply sum_over_ext. intros k _. unfold v. rewrite nth_combination by congruence. ring. }
    ring. }
  rewrite (minimum_slope _ _ _ _ _ Mx), (minimum_slope _ _ _ _ _ My) in E by assumption. unfold bend in E.
  assert (P : 0 <= strength damping * scaled_size J v) by (apply Rmult_le_pos; [assumption|unfold scaled_size; apply sum_over_nonneg; intros; apply pow2_ge_0]).
  assert (Z := sum_over_zero_all (range 0 (rows J)) (fun i => weight w i * times J v i ^ 2)
    ltac:(intros k Hk; apply range_in in Hk; apply Rmult_le_pos; [apply Hw; lia|apply pow2_ge_0]) ltac:(lra) i ltac:(apply range_in; lia)).
  cbv beta in Z. apply Rmult_integral in Z. destruct Z as [Z|Z]; [lra|]. unfold v in Z. rewrite times_combination in Z by congruence.
  assert (S : 1 * times J x i + -1 * times J y i = 0) by (apply Rsqr_0_uniq; unfold Rsqr; cbn in Z; lra). lra.
Qed.

(** ** Predictions *)
Lemma inverse_distance_combination place p (qs : list point) a x b y : length x = length qs -> length y = length qs ->
  inverse_distance place p (combine qs (combination a x b y)) = a * inverse_distance place p (combine qs x) + b * inverse_distance place p (combine qs y).
Proof.
  intros Lx Ly. unfold inverse_distance.
  assert (S : forall c, length c = length qs -> sum_over (combine qs c) (fun s => snd s / eucl (place p) (place (fst s))) =
    sum_over (range 0 (length qs)) (fun j => nth j c 0 / eucl (place p) (place (nth j qs (0, 0, 0))))).
  { intros c Lc. rewrite <- (sum_over_range_nth (combine qs c) ((0, 0, 0), 0)). rewrite combine_length, Lc, Nat.min_id. apply sum_over_ext.
    intros j _. now rewrite combine_nth by (symmetry; exact Lc). }
  rewrite !S by (rewrite ?length_combination; assumption). rewrite <- !sum_over_scal, <- sum_over_plus. apply sum_over_ext. intros j _.
  rewrite nth_combination by congruence. unfold Rdiv. ring.
Qed.
Lemma predicted_combination place (qs : list point) a x b y ps : length x = length qs -> length y = length qs ->
  predicted place qs (combination a x b y) ps = combination a (predicted place qs x ps) b (predicted place qs y ps).
Proof.
  intros Lx Ly. apply (nth_ext _ _ 0 0); [now rewrite length_combination, !length_predicted|]. intros i Hi. rewrite length_predicted in Hi.
  rewrite nth_combination by (now rewrite !length_predicted). unfold predicted. rewrite !(nth_map _ _ _ (0, 0, 0)) by assumption.
  now apply inverse_distance_combination.
Qed.

(** ** Another order of the data and of the sources *)
Lemma sum_over_arrangement p n (f : nat -> R) : an_arrangement p n -> sum_over (range 0 n) (fun i => f (nth i p 0%nat)) = sum_over (range 0 n) f.
Proof.
  intros P. assert (L : length p = n) by (rewrite (Permutation_length P); apply seq_length).
  rewrite <- L at 1. rewrite (sum_over_range_nth p 0%nat f). rewrite (sum_over_perm _ _ f P). unfold range. now rewrite Nat.sub_0_r.
Qed.
Lemma arrangement_lt p n i : an_arrangement p n -> (i < n)%nat -> (nth i p 0 < n)%nat.
Proof.
  intros P H. assert (L : length p = n) by (rewrite (Permutation_length P); apply seq_length).
  assert (I : In (nth i p 0%nat) (seq 0 n)) by (apply (Permutation_in _ P), nth_In; lia). apply in_seq in I. lia.
Qed.
Lemma arrangement_length p n : an_arrangement p n -> length p = n.
Proof. intros P. rewrite (Permutation_length P). apply seq_length. Qed.
Lemma nth_chosen {A} (d : A) l p i : (i < length p)%nat -> nth i (chosen d l p) d = nth (nth i p 0%nat) l d.
Proof. intros H. unfold chosen. now rewrite (nth_map _ _ _ 0%nat). Qed.
Lemma chosen_onto p n (c : list R) : an_arrangement p n -> length c = n -> exists c0, length c0 = n /\ c = chosen 0 c0 p.
Proof.
  intros P L. assert (Lp := arrangement_length p n P).
  assert (ND : NoDup p) by (apply (Permutation_NoDup (Permutation_sym P)), seq_NoDup).
  exists (put (repeat 0 n) p c). split; [now rewrite length_put, repeat_length|].
  apply (nth_ext _ _ 0 0); [rewrite length_chosen; congruence|]. intros i Hi. rewrite nth_chosen by lia.
  rewrite (nth_put 0); [reflexivity|exact ND| |lia|lia].
  intros k Hk. rewrite repeat_length. apply (Permutation_in _ P), in_seq in Hk. lia.
Qed.

Section Order.
Variables (place : point -> vec3) (ds qs : list point) (p r : list nat).
Hypothesis Pd : an_arrangement p (length ds).
Hypothesis Pq : an_arrangement r (length qs).
Let J := design place ds qs.
Let J' := design place (chosen zero_point ds p) (chosen zero_point qs r).

Lemma rows_arranged : rows J' = length ds.
Proof. cbn. rewrite length_chosen. now apply arrangement_length. Qed.
Lemma cols_arranged : cols J' = length qs.
Proof. cbn. rewrite length_chosen. now apply arrangement_length. Qed.
Lemma ent_arranged i j : (i < length ds)%nat -> (j < length qs)%nat -> ent J' i j = ent J (nth i p 0%nat) (nth j r 0%nat).
Proof.
  intros Hi Hj. unfold J', J, design. cbn [ent]. change ((0, 0, 0) : point) with zero_point.
  pose proof (arrangement_length _ _ Pd). pose proof (arrangement_length _ _ Pq).
  rewrite (nth_chosen zero_point ds p i) by lia. rewrite (nth_chosen zero_point qs r j) by lia. reflexivity.
Qed.
Lemma times_arranged c i : length c = length qs -> (i < length ds)%nat -> times J' (chosen 0 c r) i = times J c (nth i p 0%nat).
Proof.
  intros Lc Hi. unfold times. rewrite cols_arranged. change (cols J) with (length qs).
  rewrite <- (sum_over_arrangement r (length qs) (fun j => ent J (nth i p 0%nat) j * nth j c 0) Pq). apply sum_over_ext. intros j Hj. apply range_in in Hj.
  rewrite ent_arranged by lia. now rewrite nth_chosen by (rewrite (arrangement_length _ (length qs)); [lia|assumption]).
Qed.
Lemma column_std_arranged j : (j < length qs)%nat -> column_std J' j = column_std J (nth j r 0%nat).
Proof.
  intros Hj. unfold column_std.
  assert (M : column_mean J' j = column_mean J (nth j r 0%nat)).
  { unfold column_mean. rewrite rows_arranged. change (rows J) with (length ds). f_equal.
    rewrite <- (sum_over_arrangement p (length ds) (fun i => ent J i (nth j r 0%nat)) Pd). apply sum_over_ext. intros i Hi. apply range_in in Hi. apply ent_arranged; lia. }
  rewrite M, rows_arranged. change (rows J) with (length ds).
  rewrite <- (sum_over_arrangement p (length ds) (fun i => (ent J i (nth j r 0%nat) - column_mean J (nth j r 0%nat)) ^ 2) Pd).
  erewrite (sum_over_ext (range 0 (length ds)) (fun i => (ent J' i j - column_mean J (nth j r 0%nat)) ^ 2)); [reflexivity|].
  intros i Hi. apply range_in in Hi. cbv beta. rewrite ent_arranged by lia. reflexivity.
Qed.
Lemma objective_arranged d w damping c : length d = length ds -> weights_cover (length ds) w -> length c = length qs ->
  objective J' (chosen 0 d p) (rearranged_weights w p) damping (chosen 0 c r) = objective J d w damping c.
Proof.
  intros Ld Lw Lc. rewrite !objective_strength. f_equal.
  - unfold misfit. rewrite rows_arranged. change (rows J) with (length ds).
    rewrite <- (sum_over_arrangement p (length ds) (fun i => weight w i * (nth i d 0 - times J c i) ^ 2) Pd). apply sum_over_ext. intros i Hi. apply range_in in Hi.
    rewrite times_arranged by (assumption || lia). assert (Lp := arrangement_length _ _ Pd). rewrite nth_chosen by lia. f_equal.
    unfold rearranged_weights. destruct w as [l|]; cbn [option_map weight]; [|reflexivity]. now rewrite nth_chosen by lia.
  - f_equal. unfold scaled_size. rewrite cols_arranged. change (cols J) with (length qs).
    rewrite <- (sum_over_arrangement r (length qs) (fun j => (column_std J j * nth j c 0) ^ 2) Pq). apply sum_over_ext. intros j Hj. apply range_in in Hj.
    rewrite column_std_arranged by lia. assert (Lr := arrangement_length _ _ Pq). now rewrite nth_chosen by lia.
Qed.
Lemma minimum_arranged d w damping c : length d = length ds -> weights_cover (length ds) w -> length c = length qs ->
  minimises (objective J' (chosen 0 d p) (rearranged_weights w p) damping) (length qs) (chosen 0 c r) -> minimises (objective J d w damping) (length qs) c.
Proof.
  intros Ld Lw Lc (_ & M). split; [assumption|]. intros y Ly. rewrite <- !objective_arranged by assumption. apply M.
  rewrite length_chosen. now apply arrangement_length.
Qed.
Lemma inverse_distance_arranged x c : length c = length qs ->
  inverse_distance place x (combine (chosen zero_point qs r) (chosen 0 c r)) = inverse_distance place x (combine qs c).
Proof.
  intros Lc. unfold inverse_distance. apply sum_over_perm. rewrite (combine_chosen zero_point 0) by (symmetry; exact Lc). apply chosen_permutation.
  rewrite combine_length, Lc, Nat.min_id. exact Pq.
Qed.
End Order.

(** ** Damping *)
Lemma zero_objective J d w damping : length d = rows J -> objective J d w damping (repeat 0 (cols J)) = energy w d.
Proof.
  intros L. rewrite objective_strength. unfold scaled_size. rewrite (sum_over_zero (range 0 (cols J))).
  2:{ intros j _. rewrite nth_repeat. ring. }
  rewrite Rmult_0_r, Rplus_0_r. unfold misfit, energy. rewrite L. apply sum_over_ext. intros i _.
  unfold times. rewrite sum_over_zero; [ring|]. intros j _. rewrite nth_repeat. ring.
Qed.
Lemma damping_bounds J d w a x : length d = rows J -> minimises (objective J d w (Some a)) (cols J) x -> misfit J d w x + a * scaled_size J x <= energy w d.
Proof.
  intros L (_ & M). rewrite <- (zero_objective J d w (Some a) L). change a with (strength (Some a)) at 1. rewrite <- objective_strength. apply M. apply repeat_length.
Qed.
Lemma damping_monotone J d w a b x y : a < b ->
  minimises (objective J d w (Some a)) (cols J) x -> minimises (objective J d w (Some b)) (cols J) y ->
  0 <= a -> misfit J d w x <= misfit J d w y /\ scaled_size J y <= scaled_size J x.
Proof.
  intros Hab (Lx & Mx) (Ly & My) Ha. specialize (Mx y Ly). specialize (My x Lx). rewrite !objective_strength in Mx, My. cbn [strength] in *.
  assert (S : scaled_size J y <= scaled_size J x) by nra. split; [nra|assumption].
Qed.

(** ** Gradient boosting *)
Lemma minus_combination a r1 b r2 x1 x2 : length r1 = length r2 -> length x1 = length r1 -> length x2 = length r1 ->
  minus (combination a r1 b r2) (combination a x1 b x2) = combination a (minus r1 x1) b (minus r2 x2).
Proof.
  intros L1 L2 L3. apply (nth_ext _ _ 0 0); [now rewrite length_minus, !length_combination, length_minus|].
  intros i Hi. rewrite length_minus, length_combination in Hi.
  rewrite nth_minus by (now rewrite length_combination). rewrite !nth_combination by (rewrite ?length_minus; congruence). rewrite !nth_minus by lia. ring.
Qed.
Lemma chosen_combination a x b y p : length x = length y -> chosen 0 (combination a x b y) p = combination a (chosen 0 x p) b (chosen 0 y p).
Proof.
  intros L. apply (nth_ext _ _ 0 0); [now rewrite length_combination, !length_chosen|]. intros i Hi. rewrite length_chosen in Hi.
  rewrite nth_combination by (now rewrite !length_chosen). rewrite !nth_chosen by assumption. now apply nth_combination.
Qed.

Section Boosting.
Variables (ls : table -> list R -> option (list R) -> option R -> list R) (s : R) (qs ds : list point) (weights : option (list R)).
Hypothesis s_pos : 0 < s.
Hypothesis weights_nonneg : no_negative_weight (length ds) weights.
Hypothesis weights_length : weights_cover (length ds) weights.
Local Notation chunk_weights w := (option_map (fun l => chosen 0 l (snd w)) weights).
Local Notation chunk_design w := (design cart_position (chosen zero_point ds (snd w)) (chosen zero_point qs (fst w))).

Lemma window_weights (w : list nat * list nat) : window_of (length ds) (snd w) -> no_negative_weight (length (snd w)) (chunk_weights w).
Proof.
  intros Hw i Hi. unfold no_negative_weight in weights_nonneg. destruct weights as [l|]; cbn [option_map weight] in *; [|lra].
  rewrite nth_chosen by assumption. apply weights_nonneg. apply Hw. now apply nth_In.
Qed.

Lemma window_linear a b w r1 c1 r1' c1' r2 c2 r2' c2' r3' c3' :
  window_of (length qs) (fst w) -> window_of (length ds) (snd w) ->
  solves_all ls (chunk_design w) (chunk_weights w) (Some s) ->
  length r1 = length ds -> length r2 = length ds -> length c1 = length qs -> length c2 = length qs ->
  window_result ls (Some s) qs ds weights w r1 c1 r1' c1' -> window_result ls (Some s) qs ds weights w r2 c2 r2' c2' ->
  window_result ls (Some s) qs ds weights w (combination a r1 b r2) (combination a c1 b c2) r3' c3' ->
  r3' = combination a r1' b r2' /\ c3' = combination a c1' b c2'.
Proof.
  intros Hq Hd Hls L1 L2 M1 M2 (J1 & S1 & U1 & V1 & In1 & Out1 & R1 & _) (J2 & S2 & U2 & V2 & In2 & Out2 & R2 & _) (J3 & S3 & U3 & V3 & In3 & Out3 & R3 & _).
  cbv zeta in *. set (k1 := ls J1 _ _ _) in *. set (k2 := ls J2 _ _ _) in *. set (k3 := ls J3 _ _ _) in *.
  assert (K : k3 = combination a k1 b k2).
  { assert (X1 := Hls (chosen 0 r1 (snd w)) ltac:(cbn; now rewrite !length_chosen) J1 S1). assert (X2 := Hls (chosen 0 r2 (snd w)) ltac:(cbn; now rewrite !length_chosen) J2 S2).
    assert (X3 := Hls (chosen 0 (combination a r1 b r2) (snd w)) ltac:(cbn; now rewrite !length_chosen) J3 S3). fold k1 in X1. fold k2 in X2. fold k3 in X3.
    assert (T : forall J d c, same_entries J (chunk_design w) -> minimises (objective J d (chunk_weights w) (Some s)) (cols (chunk_design w)) c ->
      minimises (objective (chunk_design w) d (chunk_weights w) (Some s)) (cols (chunk_design w)) c).
    { intros J d c HS (Hl & HM). split; [assumption|]. intros c' Hc'. rewrite <- !(objective_same J _ _ _ _ _ HS). now apply HM. }
    apply T in X1; [|assumption]. apply T in X2; [|assumption]. apply T in X3; [|assumption]. rewrite chosen_combination in X3 by congruence.
    assert (Hw : no_negative_weight (rows (chunk_design w)) (chunk_weights w)) by (cbn; rewrite length_chosen; now apply window_weights).
    apply (damped_unique _ _ _ _ _ _ s_pos Hw X3). apply combination_minimum; auto; [cbn [strength]; lra|now rewrite !length_chosen]. }
  split.
  - rewrite R1, R2, R3, K. rewrite predicted_combination by (rewrite length_chosen; assumption).
    rewrite minus_combination; [reflexivity|congruence|now rewrite length_predicted|now rewrite length_predicted].
  - apply (nth_ext _ _ 0 0); [rewrite V3, !length_combination; congruence|]. intros i Hi. rewrite nth_combination by congruence.
    destruct (in_dec Nat.eq_dec i (fst w)) as [Hin|Hout].
    + destruct (In_nth _ _ 0%nat Hin) as (j & Hj & <-). rewrite In1, In2, In3 by assumption. rewrite nth_combination by congruence.
      rewrite K, nth_combination by congruence. ring.
    + rewrite Out1, Out2, Out3 by assumption. now apply nth_combination; congruence.
Qed.

Lemma boosting_linear a b d1 d2 : length d1 = length ds -> length d2 = length ds ->
  forall ws r1 e1 c1 r2 e2 c2 r3 e3 c3, windows_of (length qs) (length ds) ws ->
  (forall w, In w ws -> solves_all ls (chunk_design w) (chunk_weights w) (Some s)) ->
  gradient_boosting ls float64 (Some s) (flat qs) (flat ds) d1 weights ws (repeat 0 (length qs)) = Ok (r1, e1, c1) ->
  gradient_boosting ls float64 (Some s) (flat qs) (flat ds) d2 weights ws (repeat 0 (length qs)) = Ok (r2, e2, c2) ->
  gradient_boosting ls float64 (Some s) (flat qs) (flat ds) (combination a d1 b d2) weights ws (repeat 0 (length qs)) = Ok (r3, e3, c3) ->
  r3 = combination a r1 b r2 /\ c3 = combination a c1 b c2.
Proof.
  intros L1 L2. assert (L3 : length (combination a d1 b d2) = length ds) by (now rewrite length_combination).
  induction ws as [|w ws IH] using rev_ind; intros r1 e1 c1 r2 e2 c2 r3 e3 c3 Hws Hls H1 H2 H3.
  - unfold gradient_boosting in H1, H2, H3. cbn [for_] in H1, H2, H3. injection H1 as <- _ <-. injection H2 as <- _ <-. injection H3 as <- _ <-. split; [reflexivity|].
    apply (nth_ext _ _ 0 0); [now rewrite length_combination|]. intros i _. rewrite nth_combination by reflexivity. rewrite nth_repeat. ring.
  - assert (Hws' : windows_of (length qs) (length ds) ws) by (intros x Hx; apply Hws; apply in_or_app; now left).
    destruct (Hws w ltac:(apply in_or_app; right; now left)) as (Hwq & Hwd).
    assert (Step : forall d r e c, length d = length ds ->
      gradient_boosting ls float64 (Some s) (flat qs) (flat ds) d weights (ws ++ [w])%list (repeat 0 (length qs)) = Ok (r, e, c) ->
      exists r' e' c', gradient_boosting ls float64 (Some s) (flat qs) (flat ds) d weights ws (repeat 0 (length qs)) = Ok (r', e', c') /\
        length r' = length ds /\ length c' = length qs /\ window_result ls (Some s) qs ds weights w r' c' r c).
    { intros d r e c Ld H. unfold gradient_boosting in H. rewrite for_app in H. apply bind_ok in H. destruct H as (mid & Hmid & H).
      destruct (boosting_invariant ls (Some s) qs ds d weights Ld weights_length ws mid Hws' Hmid) as (r' & e' & c' & -> & Hcons & _).
      cbn [for_] in H. apply bind_ok in H. destruct H as (st1 & H & E). injection E as ->.
      assert (Lr : length r' = length ds) by (destruct Hcons as (_ & ->); now rewrite length_minus).
      destruct (boost_window_ok ls (Some s) qs ds weights w r' e' c' _ Hwq Hwd Lr (proj1 Hcons) weights_length H) as (r'' & c'' & E & Hres). injection E as -> _ ->.
      exists r', e', c'. split; [exact Hmid|]. split; [exact Lr|]. split; [exact (proj1 Hcons)|exact Hres]. }
    destruct (Step d1 r1 e1 c1 L1 H1) as (r1' & e1' & c1' & G1 & A1 & B1 & W1). destruct (Step d2 r2 e2 c2 L2 H2) as (r2' & e2' & c2' & G2 & A2 & B2 & W2).
    destruct (Step _ r3 e3 c3 L3 H3) as (r3' & e3' & c3' & G3 & A3 & B3 & W3).
    destruct (IH _ _ _ _ _ _ _ _ _ Hws' ltac:(intros x Hx; apply Hls; apply in_or_app; now left) G1 G2 G3) as (-> & ->).
    apply (window_linear a b w r1' c1' r1 c1 r2' c2' r2 c2 r3 c3); auto. apply Hls. apply in_or_app. right. now left.
Qed.
End Boosting.
