(** Proofs that undamped equivalent sources reproduce a level survey. *)
From Coq Require Import Psatz.
From Verif Require Import Base BaseFacts NumPy NumPyFacts DistanceModel DistanceSpec DistanceProofs PointGravitySpec PointGravityProofs
  LegendreModel EqsModel EqsSpec EqsProofs EqsFitProofs EqsExactSpec EqsExactProofs.
Local Open Scope list_scope. Local Open Scope R_scope.

Lemma NoDup_map_seq {A} (X : nat -> A) n : (forall i j, (i < n)%nat -> (j < n)%nat -> X i = X j -> i = j) -> NoDup (map X (range 0 n)).
Proof.
  intros H. assert (G : forall l, NoDup l -> (forall i, In i l -> (i < n)%nat) -> NoDup (map X l)).
  { induction l as [|i l IH]; intros N B; [constructor|]. inversion N; subst. cbn. constructor.
    - rewrite in_map_iff. intros (j & E & Hj). assert (i = j); [|congruence]. apply H; [apply B; now left|apply B; now right|congruence].
    - apply IH; [assumption|]. intros j Hj. apply B. now right. }
  apply G; [unfold range; apply seq_NoDup|]. intros i Hi. apply range_in in Hi. lia.
Qed.

(** ** A positive definite system *)
Section System.
Variables (n : nat) (X : nat -> vec3) (c : R) (J : table).
Hypothesis c_pos : 0 < c.
Hypothesis X_inj : forall i j, (i < n)%nat -> (j < n)%nat -> X i = X j -> i = j.
Hypothesis J_ent : forall i j, (i < n)%nat -> (j < n)%nat -> ent J i j = inverse_root c (X i) (X j).

Lemma J_sym i j : (i < n)%nat -> (j < n)%nat -> ent J i j = ent J j i.
Proof. intros Hi Hj. rewrite !J_ent by assumption. unfold inverse_root, sq, dot, vsub. cbn [vx vy vz]. do 2 f_equal. ring. Qed.
Lemma system_zero (v : nat -> R) : (forall i, (i < n)%nat -> sum_over (range 0 n) (fun j => ent J i j * v j) = 0) -> forall i, (i < n)%nat -> v i = 0.
Proof.
  intros H i Hi. set (S := map (fun i => (X i, v i)) (range 0 n)).
  assert (N : NoDup (map fst S)) by (unfold S; rewrite map_map; cbn [fst]; apply NoDup_map_seq; exact X_inj).
  assert (Z : double S (inverse_root c) = 0).
  { unfold double, S. rewrite sum_over_map. apply sum_over_zero. intros k Hk. apply range_in in Hk. rewrite sum_over_map. cbn [fst snd].
    transitivity (v k * sum_over (range 0 n) (fun j => ent J k j * v j)); [|rewrite H by lia; ring].
    rewrite <- sum_over_scal. apply sum_over_ext. intros j Hj. apply range_in in Hj. rewrite J_ent by lia. ring. }
  destruct (Req_dec (v i) 0) as [|Hn]; [assumption|]. exfalso.
  assert (0 < double S (inverse_root c)); [|lra]. apply inverse_root_pos; [assumption|assumption|].
  exists (X i, v i). split; [|exact Hn]. unfold S. apply in_map_iff. exists i. split; [reflexivity|]. apply range_in. lia.
Qed.
End System.

(** ** Normal equations *)
Lemma square_pos x : x <> 0 -> 0 < x ^ 2.
Proof. intros H. pose proof (Rsqr_pos_lt x H) as P. unfold Rsqr in P. cbn. lra. Qed.
Lemma times_upd J x j t i : (j < length x)%nat -> (j < cols J)%nat -> times J (upd x j (nth j x 0 + t)) i = times J x i + t * ent J i j.
Proof.
  intros Hj Hc. unfold times. replace (t * ent J i j) with (sum_over (range 0 (cols J)) (fun k => if Nat.eqb k j then t * ent J i j else 0)).
  - rewrite <- sum_over_plus. apply sum_over_ext. intros k Hk. destruct (Nat.eqb_spec k j) as [->|Hn].
    + rewrite nth_upd_eq by assumption. ring.
    + rewrite nth_upd_neq by auto. ring.
  - assert (E : range 0 (cols J) = range 0 j ++ j :: range (S j) (cols J)).
    { unfold range. rewrite !Nat.sub_0_r. replace (cols J) with (j + S (cols J - S j))%nat at 1 by lia. rewrite seq_app. reflexivity. }
    rewrite E, sum_over_app, sum_over_cons, Nat.eqb_refl. rewrite !sum_over_zero; [ring| |]; intros k Hk; apply range_in in Hk; (destruct (Nat.eqb_spec k j); [lia|reflexivity]).
Qed.
Lemma parabola A B : (forall t, 0 <= -2 * t * A + t ^ 2 * B) -> A = 0.
Proof.
  intros H. destruct (Req_dec A 0) as [|Hn]; [assumption|]. exfalso. set (D := 1 + Rabs B). assert (HD : 0 < D) by (unfold D; pose proof (Rabs_pos B); lra).
  pose proof (H (A / D)) as E. assert (P : 0 < A ^ 2) by (now apply square_pos).
  replace (-2 * (A / D) * A + (A / D) ^ 2 * B) with (A ^ 2 * / D * (B * / D - 2)) in E by (field; lra).
  assert (B * / D <= 1). { apply (Rmult_le_reg_r D); [assumption|]. rewrite Rmult_assoc, Rinv_l by lra. unfold D. pose proof (Rle_abs B). lra. }
  assert (Q : 0 < A ^ 2 * / D) by (apply Rmult_lt_0_compat; [assumption|now apply Rinv_0_lt_compat]). nra.
Qed.
Lemma normal_equations J d w x : minimises (objective J d w None) (cols J) x -> forall j, (j < cols J)%nat ->
  sum_over (range 0 (rows J)) (fun i => ent J i j * (weight w i * (nth i d 0 - times J x i))) = 0.
Proof.
  intros (Hl & Hm) j Hj. apply (parabola _ (sum_over (range 0 (rows J)) (fun i => weight w i * ent J i j ^ 2))). intros t.
  pose proof (Hm (upd x j (nth j x 0 + t)) ltac:(now rewrite length_upd)) as E. unfold objective, misfit in E. rewrite !Rplus_0_r in E.
  assert (F : sum_over (range 0 (rows J)) (fun i => weight w i * (nth i d 0 - times J (upd x j (nth j x 0 + t)) i) ^ 2) =
    sum_over (range 0 (rows J)) (fun i => weight w i * (nth i d 0 - times J x i) ^ 2) +
    (-2 * t * sum_over (range 0 (rows J)) (fun i => ent J i j * (weight w i * (nth i d 0 - times J x i))) + t ^ 2 * sum_over (range 0 (rows J)) (fun i => weight w i * ent J i j ^ 2))).
  { rewrite <- !sum_over_scal, <- !sum_over_plus. apply sum_over_ext. intros i _. rewrite times_upd by lia. ring. }
  lra.
Qed.

(** ** Exact reproduction *)
Section Level.
Variables (place : point -> vec3) (ds qs : list point) (X : nat -> vec3) (c : R).
Hypothesis same_number : length qs = length ds.
Hypothesis c_pos : 0 < c.
Hypothesis X_inj : forall i j, (i < length ds)%nat -> (j < length ds)%nat -> X i = X j -> i = j.
Hypothesis distances : forall i j, (i < length ds)%nat -> (j < length ds)%nat -> eucl (place (nth i ds (0, 0, 0))) (place (nth j qs (0, 0, 0))) = sqrt (sq (X i) (X j) + c).

Lemma design_ent i j : (i < length ds)%nat -> (j < length ds)%nat -> ent (design place ds qs) i j = inverse_root c (X i) (X j).
Proof. intros Hi Hj. unfold design, inverse_root. cbn [ent]. now rewrite distances. Qed.

Lemma level_reproduced d w x : length d = length ds -> weighted_data (length ds) w ->
  minimises (objective (design place ds qs) d w None) (length qs) x -> predicted place qs x ds = d.
Proof.
  intros Hd Hw Hm. pose proof (normal_equations (design place ds qs) d w x Hm) as E. cbn [design rows cols] in E.
  assert (Z : forall i, (i < length ds)%nat -> weight w i * (nth i d 0 - times (design place ds qs) x i) = 0).
  { apply (system_zero (length ds) X c (design place ds qs) c_pos X_inj design_ent (fun i => weight w i * (nth i d 0 - times (design place ds qs) x i))).
    intros j Hj. etransitivity; [|exact (E j ltac:(lia))]. apply sum_over_ext. intros i Hi. apply range_in in Hi. rewrite (J_sym (length ds) X c _ design_ent) by lia. reflexivity. }
  unfold predicted. apply (nth_ext _ _ 0 0); [now rewrite map_length|]. intros i Hi. rewrite map_length in Hi.
  rewrite (nth_map _ _ _ (0, 0, 0)) by assumption. specialize (Z i Hi). specialize (Hw i Hi). rewrite design_times in Z by (assumption || apply Hm).
  apply Rmult_integral in Z. destruct Z as [Z|Z]; [lra|]. symmetry. exact (Rminus_diag_uniq _ _ Z).
Qed.
Lemma level_unique x y : length x = length qs -> length y = length qs -> predicted place qs x ds = predicted place qs y ds -> x = y.
Proof.
  intros Hx Hy E. apply (nth_ext _ _ 0 0); [congruence|]. intros i Hi. apply Rminus_diag_uniq. revert i Hi.
  assert (G : forall i, (i < length ds)%nat -> nth i x 0 - nth i y 0 = 0); [|intros i Hi; apply G; congruence].
  apply (system_zero (length ds) X c (design place ds qs) c_pos X_inj design_ent). intros i Hi.
  transitivity (times (design place ds qs) x i - times (design place ds qs) y i).
  - unfold times. cbn [design cols]. rewrite same_number. replace (sum_over (range 0 (length ds)) (fun j => ent (design place ds qs) i j * nth j x 0) - sum_over (range 0 (length ds)) (fun j => ent (design place ds qs) i j * nth j y 0))
      with (sum_over (range 0 (length ds)) (fun j => ent (design place ds qs) i j * nth j x 0) + (-1) * sum_over (range 0 (length ds)) (fun j => ent (design place ds qs) i j * nth j y 0)) by ring.
    rewrite <- sum_over_scal, <- sum_over_plus. apply sum_over_ext. intros j _. ring.
  - rewrite !design_times by assumption. unfold predicted in E. apply (f_equal (fun l => nth i l 0)) in E. rewrite !(nth_map _ _ _ (0, 0, 0)) in E by assumption. apply Rminus_diag_eq. exact E.
Qed.
End Level.

Lemma nth_inj {A} (l : list A) d i j : NoDup l -> (i < length l)%nat -> (j < length l)%nat -> nth i l d = nth j l d -> i = j.
Proof. intros N Hi Hj E. now apply (proj1 (NoDup_nth l d)). Qed.
Lemma nth_lowered D ds j : (j < length ds)%nat -> nth j (lowered D ds) (0, 0, 0) = (fst3 (nth j ds (0, 0, 0)), snd3 (nth j ds (0, 0, 0)), thd3 (nth j ds (0, 0, 0)) - D).
Proof. intros Hj. unfold lowered. now rewrite (nth_map _ _ _ (0, 0, 0)). Qed.

(** Cartesian coordinates. *)
Definition flat_X (ds : list point) (i : nat) : vec3 := V3 (fst3 (nth i ds (0, 0, 0))) (snd3 (nth i ds (0, 0, 0))) 0.
Lemma flat_inj h ds : level cart_position h ds -> forall i j, (i < length ds)%nat -> (j < length ds)%nat -> flat_X ds i = flat_X ds j -> i = j.
Proof.
  intros (Hh & N) i j Hi Hj E. apply (nth_inj (map cart_position ds) (cart_position (0, 0, 0))); [assumption|now rewrite map_length|now rewrite map_length|].
  rewrite !map_nth. pose proof (Hh _ (nth_In ds (0, 0, 0) Hi)) as Ei. pose proof (Hh _ (nth_In ds (0, 0, 0) Hj)) as Ej. unfold flat_X in E.
  destruct (nth i ds (0, 0, 0)) as [[a b] u], (nth j ds (0, 0, 0)) as [[a' b'] u']. unfold fst3, snd3, thd3 in *. cbn in *. injection E as -> ->. now subst.
Qed.
Lemma flat_distances h D ds : (forall p, In p ds -> thd3 p = h) -> forall i j, (i < length ds)%nat -> (j < length ds)%nat ->
  eucl (cart_position (nth i ds (0, 0, 0))) (cart_position (nth j (lowered D ds) (0, 0, 0))) = sqrt (sq (flat_X ds i) (flat_X ds j) + D ^ 2).
Proof.
  intros Hh i j Hi Hj. rewrite nth_lowered by assumption. pose proof (Hh _ (nth_In ds (0, 0, 0) Hi)) as Ei. pose proof (Hh _ (nth_In ds (0, 0, 0) Hj)) as Ej. unfold flat_X.
  destruct (nth i ds (0, 0, 0)) as [[a b] u], (nth j ds (0, 0, 0)) as [[a' b'] u']. unfold fst3, snd3, thd3 in *. cbn [fst snd] in *. subst u u'.
  unfold eucl, norm, sq, dot, vsub, cart_position. cbn [vx vy vz]. f_equal. ring.
Qed.
Lemma flat_apart h D ds : (forall p, In p ds -> thd3 p = h) -> D <> 0 -> apart cart_position ds (lowered D ds).
Proof.
  intros Hh HD p q Hp Hq E. unfold lowered in Hq. apply in_map_iff in Hq. destruct Hq as (q' & <- & Hq'). pose proof (Hh _ Hp) as Ep. pose proof (Hh _ Hq') as Eq.
  destruct p as [[a b] u], q' as [[a' b'] u']. unfold fst3, snd3, thd3 in *. cbn in *. injection E as _ _ E. lra.
Qed.

(** Spherical coordinates. *)
Definition unit_at (p : point) : vec3 := sph_position (fst3 p, snd3 p, 1).
Definition sphere_X (k : R) (ds : list point) (i : nat) : vec3 := vscale k (unit_at (nth i ds (0, 0, 0))).
Lemma unit_norm p : dot (unit_at p) (unit_at p) = 1.
Proof.
  destruct p as [[lon lat] r]. unfold unit_at, sph_position, dot, fst3, snd3. cbn [vx vy vz fst snd].
  pose proof (sin2_cos2 (radians lon)) as A. pose proof (sin2_cos2 (radians lat)) as B. unfold Rsqr in *.
  replace (1 * cos (radians lat) * cos (radians lon) * (1 * cos (radians lat) * cos (radians lon)) + 1 * cos (radians lat) * sin (radians lon) * (1 * cos (radians lat) * sin (radians lon)) + 1 * sin (radians lat) * (1 * sin (radians lat)))
    with (cos (radians lat) * cos (radians lat) * (sin (radians lon) * sin (radians lon) + cos (radians lon) * cos (radians lon)) + sin (radians lat) * sin (radians lat)) by ring.
  rewrite A. lra.
Qed.
Lemma sph_unit p : sph_position p = vscale (thd3 p) (unit_at p).
Proof. destruct p as [[lon lat] r]. unfold unit_at, sph_position, vscale, fst3, snd3, thd3. cbn [vx vy vz fst snd]. f_equal; ring. Qed.
Lemma vscale_inj k a b : k <> 0 -> vscale k a = vscale k b -> a = b.
Proof. intros Hk E. destruct a, b. unfold vscale in E. cbn in E. injection E as E1 E2 E3. f_equal; eapply Rmult_eq_reg_l; eauto. Qed.
Lemma sphere_inj k h ds : k <> 0 -> level sph_position h ds -> forall i j, (i < length ds)%nat -> (j < length ds)%nat -> sphere_X k ds i = sphere_X k ds j -> i = j.
Proof.
  intros Hk (Hh & N) i j Hi Hj E. apply (nth_inj (map sph_position ds) (sph_position (0, 0, 0))); [assumption|now rewrite map_length|now rewrite map_length|].
  rewrite !map_nth, !sph_unit. rewrite !Hh by now apply nth_In. apply vscale_inj in E; [|assumption]. now rewrite E.
Qed.
Lemma sphere_distances h D ds : 0 < h * (h - D) -> (forall p, In p ds -> thd3 p = h) -> forall i j, (i < length ds)%nat -> (j < length ds)%nat ->
  eucl (sph_position (nth i ds (0, 0, 0))) (sph_position (nth j (lowered D ds) (0, 0, 0))) = sqrt (sq (sphere_X (sqrt (h * (h - D))) ds i) (sphere_X (sqrt (h * (h - D))) ds j) + D ^ 2).
Proof.
  intros Hp Hh i j Hi Hj. rewrite nth_lowered by assumption. rewrite !sph_unit. unfold sphere_X. pose proof (Hh _ (nth_In ds (0, 0, 0) Hi)) as Ei. pose proof (Hh _ (nth_In ds (0, 0, 0) Hj)) as Ej.
  replace (unit_at (fst3 (nth j ds (0, 0, 0)), snd3 (nth j ds (0, 0, 0)), thd3 (nth j ds (0, 0, 0)) - D)) with (unit_at (nth j ds (0, 0, 0))) by reflexivity.
  replace (thd3 (fst3 (nth j ds (0, 0, 0)), snd3 (nth j ds (0, 0, 0)), thd3 (nth j ds (0, 0, 0)) - D)) with (h - D) by (unfold thd3 at 1; cbn [snd]; now rewrite Ej). rewrite Ei.
  pose proof (unit_norm (nth i ds (0, 0, 0))) as U. pose proof (unit_norm (nth j ds (0, 0, 0))) as V.
  set (u := unit_at (nth i ds (0, 0, 0))) in *. set (v := unit_at (nth j ds (0, 0, 0))) in *. set (k := sqrt (h * (h - D))). assert (K : k * k = h * (h - D)) by (apply sqrt_sqrt; lra).
  unfold eucl, norm. f_equal. unfold sq.
  transitivity (h * h * dot u u + (h - D) * (h - D) * dot v v - 2 * (h * (h - D)) * dot u v).
  - unfold dot, vsub, vscale. cbn [vx vy vz]. ring.
  - transitivity (k * k * (dot u u + dot v v - 2 * dot u v) + D ^ 2); [rewrite K, U, V; ring|]. unfold dot, vsub, vscale. cbn [vx vy vz]. ring.
Qed.
Lemma sphere_apart h D ds : 0 < h * (h - D) -> (forall p, In p ds -> thd3 p = h) -> D <> 0 -> apart sph_position ds (lowered D ds).
Proof.
  intros Hp Hh HD p q Ip Iq E. destruct (In_nth _ _ (0, 0, 0) Ip) as (i & Hi & <-). destruct (In_nth _ _ (0, 0, 0) Iq) as (j & Hj & <-).
  unfold lowered in Hj. rewrite map_length in Hj. pose proof (sphere_distances h D ds Hp Hh i j Hi Hj) as F.
  assert (Z : forall a b, a = b -> eucl a b = 0).
  { intros a b ->. unfold eucl, norm, dot, vsub. cbn [vx vy vz]. rewrite <- sqrt_0. f_equal. ring. }
  assert (G := eq_trans (eq_sym F) (Z _ _ E)). apply sqrt_eq_0 in G.
  - pose proof (sq_nonneg (sphere_X (sqrt (h * (h - D))) ds i) (sphere_X (sqrt (h * (h - D))) ds j)). pose proof (square_pos D HD). lra.
  - pose proof (sq_nonneg (sphere_X (sqrt (h * (h - D))) ds i) (sphere_X (sqrt (h * (h - D))) ds j)). pose proof (pow2_ge_0 D). lra.
Qed.

(** ** With damping the coefficients are unique whatever the survey *)
Definition middle_of (x y : list R) : list R := map (fun i => (nth i x 0 + nth i y 0) / 2) (seq 0 (length x)).
Lemma nth_middle_of x y i : length x = length y -> nth i (middle_of x y) 0 = (nth i x 0 + nth i y 0) / 2.
Proof.
  intros H. unfold middle_of. destruct (lt_dec i (length x)) as [Hi|Hi].
  - rewrite (nth_map _ _ _ 0%nat) by now rewrite seq_length. now rewrite seq_nth.
  - rewrite !nth_overflow; [lra|lia|lia|rewrite map_length, seq_length; lia].
Qed.
Lemma column_std_pos J j : 0 < column_std J j.
Proof.
  unfold column_std. destruct (Reqb_spec (sqrt (sum_over (range 0 (rows J)) (fun i => (ent J i j - column_mean J j) ^ 2) / INR (rows J))) 0) as [|H]; [lra|].
  pose proof (sqrt_pos (sum_over (range 0 (rows J)) (fun i => (ent J i j - column_mean J j) ^ 2) / INR (rows J))). lra.
Qed.
Lemma damped_unique J d w a x y : 0 < a -> (forall i, (i < rows J)%nat -> 0 <= weight w i) ->
  minimises (objective J d w (Some a)) (cols J) x -> minimises (objective J d w (Some a)) (cols J) y -> x = y.
Proof.
  intros Ha Hw (Lx & Mx) (Ly & My). assert (L : length x = length y) by congruence.
  pose proof (Mx (middle_of x y) ltac:(unfold middle_of; now rewrite map_length, seq_length)) as A.
  pose proof (My (middle_of x y) ltac:(unfold middle_of; now rewrite map_length, seq_length)) as B.
  assert (E : objective J d w (Some a) x + objective J d w (Some a) y - 2 * objective J d w (Some a) (middle_of x y) =
    sum_over (range 0 (rows J)) (fun i => weight w i * (/ 2 * (times J x i - times J y i) ^ 2)) + a * sum_over (range 0 (cols J)) (fun j => / 2 * (column_std J j * (nth j x 0 - nth j y 0)) ^ 2)).
  { assert (T : forall i, times J (middle_of x y) i = (times J x i + times J y i) / 2).
    { intros i. unfold times. replace ((sum_over (range 0 (cols J)) (fun j => ent J i j * nth j x 0) + sum_over (range 0 (cols J)) (fun j => ent J i j * nth j y 0)) / 2)
        with (/ 2 * (sum_over (range 0 (cols J)) (fun j => ent J i j * nth j x 0) + sum_over (range 0 (cols J)) (fun j => ent J i j * nth j y 0))) by field.
      rewrite <- sum_over_plus, <- sum_over_scal. apply sum_over_ext. intros j _. rewrite nth_middle_of by assumption. field. }
    unfold objective, misfit.
    replace (sum_over (range 0 (rows J)) (fun i => weight w i * (/ 2 * (times J x i - times J y i) ^ 2))) with
      (sum_over (range 0 (rows J)) (fun i => weight w i * (nth i d 0 - times J x i) ^ 2) + sum_over (range 0 (rows J)) (fun i => weight w i * (nth i d 0 - times J y i) ^ 2)
       + (-2) * sum_over (range 0 (rows J)) (fun i => weight w i * (nth i d 0 - times J (middle_of x y) i) ^ 2)).
    2:{ rewrite <- sum_over_scal, <- !sum_over_plus. apply sum_over_ext. intros i _. rewrite T. field. }
    replace (sum_over (range 0 (cols J)) (fun j => / 2 * (column_std J j * (nth j x 0 - nth j y 0)) ^ 2)) with
      (sum_over (range 0 (cols J)) (fun j => (column_std J j * nth j x 0) ^ 2) + sum_over (range 0 (cols J)) (fun j => (column_std J j * nth j y 0) ^ 2)
       + (-2) * sum_over (range 0 (cols J)) (fun j => (column_std J j * nth j (middle_of x y) 0) ^ 2)).
    2:{ rewrite <- sum_over_scal, <- !sum_over_plus. apply sum_over_ext. intros j _. rewrite nth_middle_of by assumption. field. }
    ring. }
  assert (P : 0 <= sum_over (range 0 (rows J)) (fun i => weight w i * (/ 2 * (times J x i - times J y i) ^ 2))).
  { apply sum_over_nonneg. intros i Hi. apply range_in in Hi. apply Rmult_le_pos; [apply Hw; lia|]. pose proof (pow2_ge_0 (times J x i - times J y i)). lra. }
  assert (Q : sum_over (range 0 (cols J)) (fun j => / 2 * (column_std J j * (nth j x 0 - nth j y 0)) ^ 2) <= 0).
  { destruct (Rle_or_lt (sum_over (range 0 (cols J)) (fun j => / 2 * (column_std J j * (nth j x 0 - nth j y 0)) ^ 2)) 0) as [|Q]; [assumption|]. pose proof (Rmult_lt_0_compat _ _ Ha Q). lra. }
  apply (nth_ext _ _ 0 0); [assumption|]. intros j Hj.
  assert (Z := sum_over_zero_all (range 0 (cols J)) (fun j => / 2 * (column_std J j * (nth j x 0 - nth j y 0)) ^ 2)
    (fun k _ => Rmult_le_pos _ _ (Rlt_le _ _ (Rinv_0_lt_compat 2 ltac:(lra))) (pow2_ge_0 _)) Q j ltac:(apply range_in; lia)).
  cbv beta in Z. pose proof (column_std_pos J j). apply Rmult_integral in Z. destruct Z as [Z|Z]; [lra|].
  assert (S : column_std J j * (nth j x 0 - nth j y 0) = 0) by (apply Rsqr_0_uniq; unfold Rsqr; cbn in Z; lra). apply Rmult_integral in S. destruct S; lra.
Qed.
