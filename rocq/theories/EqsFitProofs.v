(** Proofs about fitting and predicting with equivalent sources. *)
From Coq Require Import Psatz Permutation.
From Verif Require Import Base BaseFacts NumPy NumPyFacts DistanceModel DistanceSpec DistanceProofs PointGravitySpec PointGravityProofs
  LegendreModel LegendreProofs EqsModel EqsSpec EqsProofs.
Local Open Scope R_scope.

Lemma ravel3_coords_of sh ps : ravel3 (coords_of sh ps) = flat ps.
Proof. reflexivity. Qed.

Lemma astype_float64 l : astype float64 l = l.
Proof. unfold astype. cbn. apply map_id. Qed.

Lemma astype3_float64 c : astype3 float64 c = c.
Proof. destruct c as [[a b] c]. unfold astype3. now rewrite !astype_float64. Qed.

Lemma weights_float64 (w : option arr) : option_map (fun w => astype float64 (ravel w)) w = option_map ravel w.
Proof. destruct w; [cbn; now rewrite astype_float64|reflexivity]. Qed.

Section Data.
Variables (greens : greens_t) (place : point -> vec3).
Hypothesis greens_place : greens_for greens place.

Lemma predict_data_ok sh ps convert qs coefs : (forall c, convert c = c) -> apart place ps qs -> length coefs = length qs -> prod_shape sh = length ps ->
  predict_data float64 greens (coords_of sh ps) convert (flat qs) coefs = Ok (Arr sh (map (fun p => inverse_distance place p (combine qs coefs)) ps)).
Proof.
  intros Hcv Ha Hl Hsh. unfold predict_data, coords_of. rewrite broadcast3_same by reflexivity. cbn [bind shape].
  change (ravel3 _) with (flat ps). rewrite Hcv, Hsh, (predict_kernel_ok greens place greens_place) by assumption. reflexivity.
Qed.

Lemma predict_data_raises sh ps convert qs coefs : (forall c, convert c = c) -> ~ apart place ps qs -> length coefs = length qs -> prod_shape sh = length ps ->
  predict_data float64 greens (coords_of sh ps) convert (flat qs) coefs = Raise ZeroDivisionError.
Proof.
  intros Hcv Ha Hl Hsh. unfold predict_data, coords_of. rewrite broadcast3_same by reflexivity. cbn [bind shape].
  change (ravel3 _) with (flat ps). rewrite Hcv, Hsh, (predict_kernel_raises greens place greens_place) by assumption. reflexivity.
Qed.

(** ** A matrix with the entries of the design matrix has the same objective *)
Lemma times_same J K c i : same_entries J K -> (i < rows J)%nat -> times J c i = times K c i.
Proof.
  intros (Hr & Hc & He) Hi. unfold times. rewrite Hc. apply sum_over_ext. intros j Hj. apply range_in in Hj. rewrite He by lia. reflexivity.
Qed.

Lemma misfit_same J K d w c : same_entries J K -> misfit J d w c = misfit K d w c.
Proof.
  intros H. pose proof H as (Hr & Hc & He). unfold misfit. rewrite <- Hr. apply sum_over_ext. intros i Hi. apply range_in in Hi.
  rewrite (times_same J K) by (assumption || lia). reflexivity.
Qed.

Lemma column_mean_same J K j : same_entries J K -> (j < cols J)%nat -> column_mean J j = column_mean K j.
Proof.
  intros (Hr & Hc & He) Hj. unfold column_mean. rewrite Hr. f_equal. apply sum_over_ext. intros i Hi. apply range_in in Hi. apply He; lia.
Qed.

Lemma column_std_same J K j : same_entries J K -> (j < cols J)%nat -> column_std J j = column_std K j.
Proof.
  intros H Hj. pose proof H as (Hr & Hc & He). unfold column_std. cbv zeta. rewrite (column_mean_same J K) by assumption. rewrite <- Hr.
  replace (sum_over (range 0 (rows J)) (fun i => (ent K i j - column_mean K j) ^ 2)) with (sum_over (range 0 (rows J)) (fun i => (ent J i j - column_mean K j) ^ 2)); [reflexivity|].
  apply sum_over_ext. intros i Hi. apply range_in in Hi. rewrite He by lia. reflexivity.
Qed.

Lemma objective_same J K d w a c : same_entries J K -> objective J d w a c = objective K d w a c.
Proof.
  intros H. unfold objective. rewrite (misfit_same J K) by assumption. f_equal. destruct a as [a|]; [|reflexivity]. f_equal.
  rewrite (proj1 (proj2 H)). apply sum_over_ext. intros j Hj. apply range_in in Hj. rewrite (column_std_same J K); [reflexivity|assumption|].
  rewrite (proj1 (proj2 H)). lia.
Qed.

Lemma jacobian_design ds qs : apart place ds qs -> exists J, jacobian float64 greens (flat ds) (flat qs) = Ok J /\ same_entries J (design place ds qs).
Proof.
  intros Ha. destruct (jacobian_ok greens place greens_place ds qs Ha) as (J & E & Hr & Hc & He). exists J. split; [exact E|].
  unfold same_entries, design. cbn [rows cols ent]. split; [exact Hr|]. split; [exact Hc|]. intros i j Hi Hj. apply He; lia.
Qed.

Lemma design_times ds qs c i : length c = length qs -> (i < length ds)%nat ->
  times (design place ds qs) c i = inverse_distance place (nth i ds (0, 0, 0)) (combine qs c).
Proof. intros Hl Hi. apply (times_inverse_distance place ds qs c (design place ds qs) i); auto. Qed.

(** ** An optimal fit reproduces data that can be reproduced *)
Lemma sum_over_zero_all {A} (l : list A) f : (forall x, In x l -> 0 <= f x) -> sum_over l f <= 0 -> forall x, In x l -> f x = 0.
Proof.
  induction l as [|y l IH]; intros Hp Hs x Hx; [contradiction|]. rewrite sum_over_cons in Hs.
  assert (H0 : 0 <= sum_over l f) by (apply sum_over_nonneg; intros; apply Hp; now right).
  assert (Hy := Hp y (or_introl eq_refl)). destruct Hx as [<-|Hx]; [lra|]. apply IH; auto; [|lra]. intros; apply Hp; now right.
Qed.

Lemma exact_fit ds qs d w c cs : length d = length ds -> (forall i, (i < length ds)%nat -> 0 < weight w i) ->
  length cs = length qs -> map (fun p => inverse_distance place p (combine qs cs)) ds = d ->
  minimises (objective (design place ds qs) d w None) (length qs) c ->
  map (fun p => inverse_distance place p (combine qs c)) ds = d.
Proof.
  intros Hd Hw Hcs Hex (Hl & Hm). specialize (Hm cs Hcs).
  assert (Z : objective (design place ds qs) d w None cs = 0).
  { unfold objective, misfit. rewrite Rplus_0_r. change (rows (design place ds qs)) with (length ds). apply sum_over_zero.
    intros i Hi. apply range_in in Hi. rewrite design_times by (assumption || lia). rewrite <- Hex.
    rewrite (nth_map _ _ _ (0, 0, 0)) by apply Hi. rewrite Rminus_diag_eq by reflexivity. ring. }
  rewrite Z in Hm. unfold objective, misfit in Hm. rewrite Rplus_0_r in Hm. change (rows (design place ds qs)) with (length ds) in Hm.
  assert (Hall := sum_over_zero_all _ _ (fun i Hi => Rmult_le_pos _ _ (Rlt_le _ _ (Hw i (proj2 (proj1 (range_in _ _ _) Hi)))) (pow2_ge_0 _)) Hm).
  apply (nth_ext _ _ 0 0); [now rewrite map_length|]. intros i Hi. rewrite map_length in Hi.
  rewrite (nth_map _ _ _ (0, 0, 0)) by exact Hi. specialize (Hall i ltac:(apply range_in; lia)). cbv beta in Hall.
  rewrite design_times in Hall by (assumption || lia). specialize (Hw i Hi).
  apply Rmult_integral in Hall. destruct Hall as [Hall|Hall]; [lra|].
  symmetry. apply Rminus_diag_uniq. apply Rsqr_0_uniq. etransitivity; [|exact Hall]. unfold Rsqr. cbn [pow]. now rewrite Rmult_1_r.
Qed.
End Data.

(** ** What fit does to the object *)
Lemma bind_ok {A B} (e : res A) (f : A -> res B) b : bind e f = Ok b -> exists a, e = Ok a /\ f a = Ok b.
Proof. destruct e as [a|x]; cbn; intros H; [now exists a|discriminate]. Qed.

Lemma fit_unfold ls avg nd self co da w self' : dt self = float64 -> fit ls avg nd self co da w = Ok self' ->
  exists mid pts J, fit_points avg nd self (ravel3 co) = Ok mid /\ points_ mid = Some pts /\
    jacobian float64 greens_func_cartesian (ravel3 co) pts = Ok J /\
    self' = set_coefs mid (ls J (ravel da) (option_map ravel w) (damping self)) /\ check_fit_input co da w = Ok tt.
Proof.
  intros Hdt H. unfold fit in H. rewrite Hdt in H. apply bind_ok in H. destruct H as ([] & Hck & H). cbv zeta in H.
  rewrite astype3_float64, astype_float64, weights_float64 in H.
  apply bind_ok in H. destruct H as (mid & Hmid & H). apply bind_ok in H. destruct H as (pts & Hpts & H).
  assert (Hd : dt mid = float64 /\ damping mid = damping self).
  { unfold fit_points in Hmid. destruct (points self); [injection Hmid as <-; cbn; auto|].
    apply bind_ok in Hmid. destruct Hmid as ([p s] & Hb & Hmid). unfold build_points in Hb. cbv zeta in Hb. 
    destruct (match block_size self with Some s => avg s (ravel3 co) | None => ravel3 co end) as [[c0 c1] c2].
    apply bind_ok in Hb. destruct Hb as (D & _ & Hb). injection Hb as <- <-. injection Hmid as <-. cbn. auto. }
  destruct Hd as (Hd & Hda). rewrite Hd in H. apply bind_ok in H. destruct H as (J & HJ & H). injection H as <-.
  exists mid, pts, J. repeat split; auto; [|now rewrite Hda]. unfold get_points in Hpts. destruct (points_ mid); [injection Hpts as <-; reflexivity|discriminate].
Qed.

Lemma map_lowered D (ps : list point) :
  flat (lowered D ps) = (map fst3 ps, map snd3 ps, map (fun u => u - D) (map thd3 ps)).
Proof. unfold flat, lowered. rewrite !map_map. reflexivity. Qed.

(** Where the sources are. *)
Lemma fit_points_built avg nd self ds bs mid : dt self = float64 -> points self = None ->
  match block_size self with Some s => avg s (flat ds) = flat bs | None => bs = ds end ->
  fit_points avg nd self (flat ds) = Ok mid ->
  exists D, depth_ mid = Some (Some D) /\ points_ mid = Some (flat (lowered D bs)) /\
    (forall d, depth self = DepthNumber d -> D = d) /\
    (forall s, depth self = DepthString s -> exists ns, nd (map fst3 bs) (map snd3 bs) = Ok ns /\ D = 9 / 2 * average ns).
Proof.
  intros Hdt Hp Hb H. unfold fit_points in H. rewrite Hp in H. apply bind_ok in H. destruct H as ([p s] & Hbp & H).
  unfold build_points in Hbp. cbv zeta in Hbp.
  replace (match block_size self with Some s => avg s (flat ds) | None => flat ds end) with (flat bs) in Hbp by (destruct (block_size self); congruence).
  unfold flat at 1 in Hbp. apply bind_ok in Hbp. destruct Hbp as (D & HD & Hbp). injection Hbp as <- <-. injection H as <-.
  cbn [depth_ points_ dt]. rewrite Hdt, !astype_float64. exists D. split; [reflexivity|]. split; [now rewrite map_lowered|].
  destruct (depth self) as [str|x].
  - split; [intros; discriminate|]. intros s Hs. injection Hs as ->. destruct (String.eqb s "default"); [|discriminate].
    apply bind_ok in HD. destruct HD as (ns & Hns & HD). injection HD as <-. exists ns. split; [exact Hns|].
    unfold mean, average, sum_over. rewrite map_id. lra.
  - injection HD as ->. split; [intros d Hd; congruence|intros; discriminate].
Qed.

Lemma fit_points_custom avg nd self co p mid : dt self = float64 -> points self = Some p -> fit_points avg nd self co = Ok mid ->
  points_ mid = Some (ravel3 p) /\ depth_ mid = Some None.
Proof.
  intros Hdt Hp H. unfold fit_points in H. rewrite Hp in H. injection H as <-. cbn. rewrite Hdt, astype3_float64. auto.
Qed.

(** Fitting succeeds when no data point coincides with a source. *)
Lemma fit_total ls avg nd dm sh ds d w D p c e : check_fit_input (coords_of sh ds) (Arr sh d) w = Ok tt -> apart cart_position ds (lowered D ds) ->
  exists J, same_entries J (design cart_position ds (lowered D ds)) /\
    fit ls avg nd (Eqs dm None (DepthNumber D) None float64 p c e) (coords_of sh ds) (Arr sh d) w =
    Ok (Eqs dm None (DepthNumber D) None float64 (Some (flat (lowered D ds))) (Some (ls J d (option_map ravel w) dm)) (Some (Some D))).
Proof.
  intros Hck Ha. destruct (jacobian_design _ _ greens_cartesian_for _ _ Ha) as (J & HJ & Hs). exists J. split; [exact Hs|].
  unfold fit. rewrite Hck. cbn [bind dt]. cbv zeta. rewrite astype3_float64, astype_float64, weights_float64.
  change (ravel3 (coords_of sh ds)) with (flat ds). unfold fit_points, build_points. cbn [points block_size depth]. unfold flat at 1. cbn [bind dt points_ get_points].
  rewrite <- map_lowered. rewrite astype3_float64. unfold get_points. cbn [points_ bind dt]. rewrite HJ. reflexivity.
Qed.

Lemma check_fit_input_same sh ds d : check_fit_input (coords_of sh ds) (Arr sh d) None = Ok tt.
Proof. unfold check_fit_input, coords_of, shape_eqb. cbn [shape]. destruct (list_eq_dec Nat.eq_dec sh sh); [reflexivity|contradiction]. Qed.
