(** Proofs about equivalent sources fitted to similar surveys. *)
From Coq Require Import Psatz.
From Verif Require Import Base BaseFacts NumPy NumPyFacts DistanceModel DistanceSpec DistanceProofs PointGravitySpec PointGravityProofs
  LegendreModel EqsModel EqsSpec EqsProofs EqsFitProofs EqsExactSpec EqsExactFitProofs EqsLinearSpec EqsLinearProofs EqsScaleSpec.
Local Open Scope string_scope. Local Open Scope list_scope. Local Open Scope R_scope.

(** ** The objective of a matrix divided by [k] *)
Section Objective.
Variables (J K : table) (k : R).
Hypothesis Hk : 0 < k.
Hypothesis Hr : rows K = rows J.
Hypothesis Hc : cols K = cols J.
Hypothesis He : forall i j, (i < rows J)%nat -> (j < cols J)%nat -> ent K i j = / k * ent J i j.

Lemma nth_scaled c j : nth j (map (Rmult k) c) 0 = k * nth j c 0.
Proof. replace 0 with (k * 0) at 1 by ring. apply map_nth. Qed.

Lemma times_scaled c i : (i < rows J)%nat -> times K (map (Rmult k) c) i = times J c i.
Proof.
  intros Hi. unfold times. rewrite Hc. apply sum_over_ext. intros j Hj. apply range_in in Hj. rewrite He, nth_scaled by lia. field. lra.
Qed.

Definition spread (T : table) (j : nat) : R := sqrt (sum_over (range 0 (rows T)) (fun i => (ent T i j - column_mean T j) ^ 2) / INR (rows T)).
Lemma spread_scaled j : (j < cols J)%nat -> spread K j = / k * spread J j.
Proof.
  intros Hj. assert (M : column_mean K j = / k * column_mean J j).
  { unfold column_mean. rewrite Hr. unfold Rdiv. rewrite <- Rmult_assoc, <- sum_over_scal. f_equal. apply sum_over_ext. intros i Hi. apply range_in in Hi. apply He; lia. }
  unfold spread. rewrite Hr, M.
  replace (sum_over (range 0 (rows J)) (fun i => (ent K i j - / k * column_mean J j) ^ 2)) with ((/ k) ^ 2 * sum_over (range 0 (rows J)) (fun i => (ent J i j - column_mean J j) ^ 2)).
  2:{ rewrite <- sum_over_scal. apply sum_over_ext. intros i Hi. apply range_in in Hi. rewrite He by lia. ring. }
  unfold Rdiv. rewrite Rmult_assoc. assert (0 < / k) by (apply Rinv_0_lt_compat; lra). rewrite sqrt_mult_alt by nra. now rewrite sqrt_pow2 by lra.
Qed.

Lemma std_scaled j : (j < cols J)%nat -> k = 1 \/ spread J j <> 0 -> column_std K j = / k * column_std J j.
Proof.
  intros Hj H. assert (S := spread_scaled j Hj). unfold spread in S, H. unfold column_std. cbv zeta. rewrite S. destruct H as [-> |H].
  - rewrite Rinv_1, !Rmult_1_l. reflexivity.
  - assert (0 < / k) by (apply Rinv_0_lt_compat; lra). destruct (Reqb_spec (sqrt (sum_over (range 0 (rows J)) (fun i => (ent J i j - column_mean J j) ^ 2) / INR (rows J))) 0) as [Z|Z]; [contradiction|].
    match goal with |- (if Reqb ?x 0 then _ else _) = _ => destruct (Reqb_spec x 0) as [Y|Y]; [|reflexivity] end. apply Rmult_integral in Y. destruct Y; [lra|contradiction].
Qed.

Lemma objective_scaled d w damping c : (damping = None \/ k = 1 \/ forall j, (j < cols J)%nat -> spread J j <> 0) ->
  objective K d w damping (map (Rmult k) c) = objective J d w damping c.
Proof.
  intros H. unfold objective, misfit. rewrite Hr, Hc. f_equal.
  - apply sum_over_ext. intros i Hi. apply range_in in Hi. rewrite times_scaled by lia. reflexivity.
  - destruct damping as [a|]; [|reflexivity]. f_equal. apply sum_over_ext. intros j Hj. apply range_in in Hj. rewrite nth_scaled, std_scaled; [f_equal; field; lra|lia|].
    destruct H as [H|[H|H]]; [discriminate|now left|right; apply H; lia].
Qed.

Lemma minimum_scaled d w damping c : (damping = None \/ k = 1 \/ forall j, (j < cols J)%nat -> spread J j <> 0) ->
  minimises (objective J d w damping) (cols J) c -> minimises (objective K d w damping) (cols K) (map (Rmult k) c).
Proof.
  intros H [L M]. split; [now rewrite map_length, Hc|]. intros c' L'. rewrite objective_scaled by exact H.
  assert (E : c' = map (Rmult k) (map (Rmult (/ k)) c')).
  { rewrite map_map. rewrite <- (map_id c') at 1. apply map_ext. intros x. field. lra. }
  rewrite E, objective_scaled by exact H. apply M. now rewrite map_length, L', Hc.
Qed.
End Objective.

(** ** Similar surveys *)
Section Similar.
Variables (place : point -> vec3) (k : R) (T : point -> point).
Hypothesis Hk : 0 < k.
Hypothesis HT : similarity place k T.

Lemma nth_T (l : list point) i : (i < length l)%nat -> nth i (map T l) (0, 0, 0) = T (nth i l (0, 0, 0)).
Proof. intros H. rewrite (nth_indep _ (0, 0, 0) (T (0, 0, 0))) by (now rewrite map_length). apply map_nth. Qed.

Lemma design_scaled ds qs i j : (i < length ds)%nat -> (j < length qs)%nat -> ent (design place (map T ds) (map T qs)) i j = / k * ent (design place ds qs) i j.
Proof. intros Hi Hj. cbn [design ent]. rewrite !nth_T by assumption. rewrite HT. unfold Rdiv. rewrite Rinv_mult. ring. Qed.

Lemma uneven_spread ds qs j : (j < length qs)%nat -> uneven place ds (nth j qs (0, 0, 0)) -> spread (design place ds qs) j <> 0.
Proof.
  intros Hj (d & d' & Hd & Hd' & N) Z. unfold spread in Z. cbn [design rows] in Z.
  set (q := nth j qs (0, 0, 0)) in *. set (m := column_mean (design place ds qs) j) in *.
  assert (L : (0 < length ds)%nat) by (destruct ds; [contradiction|cbn; lia]). assert (L' : 0 < INR (length ds)) by (apply lt_0_INR; exact L).
  set (s := sum_over (range 0 (length ds)) (fun i => (ent (design place ds qs) i j - m) ^ 2)) in *.
  assert (P : 0 <= s) by (apply sum_over_nonneg; intros; apply pow2_ge_0).
  assert (S0 : s = 0).
  { apply sqrt_eq_0 in Z; [|apply Rmult_le_pos; [exact P|apply Rlt_le, Rinv_0_lt_compat; exact L']]. apply Rmult_integral in Z. destruct Z as [Z|Z]; [exact Z|]. apply Rinv_neq_0_compat in Z; [contradiction|lra]. }
  assert (A : forall i, (i < length ds)%nat -> 1 / eucl (place (nth i ds (0, 0, 0))) (place q) = m).
  { intros i Hi. assert (Y := sum_over_zero_all (range 0 (length ds)) (fun i => (ent (design place ds qs) i j - m) ^ 2) ltac:(intros; apply pow2_ge_0) ltac:(fold s; lra) i ltac:(apply range_in; lia)). cbv beta in Y. cbn [design ent] in Y. fold q in Y.
    assert (Y' : 1 / eucl (place (nth i ds (0, 0, 0))) (place q) - m = 0) by (unfold pow in Y; rewrite Rmult_1_r in Y; destruct (Rmult_integral _ _ Y); assumption). lra. }
  assert (B : forall d, In d ds -> / eucl (place d) (place q) = m).
  { intros x Hx. destruct (In_nth ds x (0, 0, 0) Hx) as (i & Hi & <-). rewrite <- (A i Hi). unfold Rdiv. ring. }
  apply N. rewrite <- (Rinv_inv (eucl (place d) (place q))), <- (Rinv_inv (eucl (place d') (place q))). now rewrite !B.
Qed.

Lemma fitted_scaled ds qs d w damping c : (damping = None \/ k = 1 \/ Forall (uneven place ds) qs) ->
  minimises (objective (design place ds qs) d w damping) (length qs) c ->
  minimises (objective (design place (map T ds) (map T qs)) d w damping) (length (map T qs)) (map (Rmult k) c).
Proof.
  intros H M. apply (minimum_scaled (design place ds qs) (design place (map T ds) (map T qs)) k Hk); cbn [design rows cols]; try apply map_length; [| |exact M].
  - intros i j Hi Hj. now apply design_scaled.
  - destruct H as [H|[H|H]]; [now left|right; now left|]. right. right. intros j Hj. apply uneven_spread; [exact Hj|]. rewrite Forall_forall in H. apply H. now apply nth_In.
Qed.

Lemma predicted_scaled qs c ps : predicted place (map T qs) (map (Rmult k) c) (map T ps) = predicted place qs c ps.
Proof.
  unfold predicted. rewrite map_map. apply map_ext. intros p. unfold inverse_distance.
  assert (E : combine (map T qs) (map (Rmult k) c) = map (fun s => (T (fst s), k * snd s)) (combine qs c)).
  { revert c. induction qs as [|q l IH]; intros [|x c]; cbn; auto. now rewrite IH. }
  rewrite E, sum_over_map. apply sum_over_ext. intros s _. cbn [fst snd]. rewrite HT. unfold Rdiv. rewrite Rinv_mult.
  replace (k * snd s * (/ k * / eucl (place p) (place (fst s)))) with ((k * / k) * (snd s * / eucl (place p) (place (fst s)))) by ring. rewrite Rinv_r by lra. ring.
Qed.

Lemma apart_scaled ps qs : apart place (map T ps) (map T qs) <-> apart place ps qs.
Proof.
  assert (Z : forall p q, place p = place q <-> place (T p) = place (T q)).
  { intros p q. rewrite <- !eucl_zero, HT. split; intros E; [rewrite E; ring|]. apply Rmult_integral in E. destruct E; [lra|assumption]. }
  split; intros H p q Hp Hq.
  - rewrite Z. apply H; now apply in_map.
  - apply in_map_iff in Hp, Hq. destruct Hp as (p' & <- & Hp), Hq as (q' & <- & Hq). rewrite <- Z. now apply H.
Qed.
End Similar.

(** ** The frames *)
Lemma new_frame_similar k a o : 0 < k -> similarity cart_position k (new_frame k a o).
Proof.
  intros Hk [[e n] u] [[e' n'] u']. unfold cart_position, new_frame, fst3, snd3, thd3; cbn [fst snd]. unfold eucl, norm, dot, vsub; cbn [vx vy vz].
  assert (S := sin2_cos2 a). unfold Rsqr in S. match goal with |- sqrt ?x = k * sqrt ?y => replace x with (k ^ 2 * y); [rewrite sqrt_mult_alt by nra; now rewrite sqrt_pow2 by lra|symmetry] end.
  set (c := cos a) in *. set (s := sin a) in *. clearbody c s.
  transitivity (k ^ 2 * ((s * s + c * c) * ((e - e') ^ 2 + (n - n') ^ 2) + (u - u') ^ 2)); [ring|]. rewrite S. ring.
Qed.

Lemma new_frame_sph_similar k a : 0 < k -> similarity sph_position k (new_frame_sph k a).
Proof.
  intros Hk [[x y] r] [[x' y'] r']. unfold sph_position, new_frame_sph, fst3, snd3, thd3; cbn [fst snd]. unfold eucl, norm, dot, vsub; cbn [vx vy vz].
  match goal with |- sqrt ?x = k * sqrt ?y => replace x with (k ^ 2 * y); [rewrite sqrt_mult_alt by nra; now rewrite sqrt_pow2 by lra|symmetry] end.
  assert (R1 : forall z, radians (z + a) = radians z + radians a) by (intros; unfold radians; field). rewrite !R1, !cos_plus, !sin_plus.
  assert (S := sin2_cos2 (radians a)). unfold Rsqr in S.
  set (ca := cos (radians a)) in *. set (sa := sin (radians a)) in *. set (cx := cos (radians x)). set (sx := sin (radians x)). set (cx' := cos (radians x')). set (sx' := sin (radians x')).
  set (cy := cos (radians y)). set (sy := sin (radians y)). set (cy' := cos (radians y')). set (sy' := sin (radians y')). clearbody ca sa cx sx cx' sx' cy sy cy' sy'.
  transitivity (k ^ 2 * ((sa * sa + ca * ca) * ((r * cy * cx - r' * cy' * cx') ^ 2 + (r * cy * sx - r' * cy' * sx') ^ 2) + (r * sy - r' * sy') ^ 2)); [ring|]. rewrite S. ring.
Qed.

Lemma lowered_new_frame k a o D ds : map (new_frame k a o) (lowered D ds) = lowered (k * D) (map (new_frame k a o) ds).
Proof. unfold lowered. rewrite !map_map. apply map_ext. intros [[e n] u]. unfold new_frame, fst3, snd3, thd3; cbn [fst snd]. repeat apply (f_equal2 pair); ring. Qed.

Lemma lowered_new_frame_sph k a D ds : map (new_frame_sph k a) (lowered D ds) = lowered (k * D) (map (new_frame_sph k a) ds).
Proof. unfold lowered. rewrite !map_map. apply map_ext. intros [[e n] u]. unfold new_frame_sph, fst3, snd3, thd3; cbn [fst snd]. repeat apply (f_equal2 pair); ring. Qed.

Lemma mean_scaled k l : mean (map (Rmult k) l) = k * mean l.
Proof. unfold mean. rewrite map_length. assert (E : sumR (map (Rmult k) l) = k * sumR l) by (induction l as [|x l IH]; cbn; [ring|rewrite IH; ring]). rewrite E. unfold Rdiv. ring. Qed.

Lemma check_scaled (T : point -> point) sh ds d w : check_fit_input (coords_of sh (map T ds)) (Arr sh d) w = check_fit_input (coords_of sh ds) (Arr sh d) w.
Proof. reflexivity. Qed.
