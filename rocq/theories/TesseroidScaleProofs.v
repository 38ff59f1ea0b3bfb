(** Proofs about enlarging tesseroids. *)
From Coq Require Import Psatz.
From Verif Require Import Base BaseFacts NumPy NumPyFacts DistanceModel DistanceSpec PointGravityModel PointGravitySpec PointGravityProofs
  TesseroidModel TesseroidSpec TesseroidCheckProofs TesseroidAdaptProofs TesseroidProofs TesseroidFieldProofs TesseroidTurnProofs TesseroidScaleSpec.
Local Open Scope string_scope. Local Open Scope list_scope. Local Open Scope R_scope.
Local Opaque MAX_DISCRETIZATIONS STACK_SIZE.

Section Enlarge.
Variable k : R.
Hypothesis Hk : 0 < k.
Local Notation ep := (enlarge_point k).
Local Notation et := (enlarge_tess k).

Lemma core_enlarge lon cp sp r lon' cp' sp' r' :
  distance_spherical_core lon cp sp (k * r) lon' cp' sp' (k * r') =
  let '(d, c, l) := distance_spherical_core lon cp sp r lon' cp' sp' r' in (k * d, c, l).
Proof.
  unfold distance_spherical_core. set (c := sp' * sp + cp' * cp * cos (lon' - lon)). apply (f_equal2 pair); [|reflexivity]. apply (f_equal2 pair); [|reflexivity].
  replace ((k * r - k * r') ^ 2 + 2 * (k * r) * (k * r') * (1 - c)) with (k ^ 2 * ((r - r') ^ 2 + 2 * r * r' * (1 - c))) by ring.
  rewrite sqrt_mult_alt by nra. now rewrite sqrt_pow2 by lra.
Qed.

Lemma Rltb_scale x y : Rltb (k * x) (k * y) = Rltb x y.
Proof. destruct (Rltb_spec (k * x) (k * y)), (Rltb_spec x y); auto; nra. Qed.
Lemma Reqb_scale x y : Reqb (k * x) (k * y) = Reqb x y.
Proof. destruct (Reqb_spec (k * x) (k * y)) as [E|E], (Reqb_spec x y) as [F|F]; auto; [exfalso; apply F; apply (Rmult_eq_reg_l k); lra|subst; lra]. Qed.
Lemma Rltb_scale_0 x : Rltb (k * x) 0 = Rltb x 0.
Proof. rewrite <- (Rltb_scale x 0). now rewrite Rmult_0_r. Qed.

Lemma ndiv_scale x y : ndiv (k * x) (k * y) = ndiv x y.
Proof.
  unfold ndiv. replace (Reqb (k * y) 0) with (Reqb y 0) by (rewrite <- (Reqb_scale y 0); now rewrite Rmult_0_r).
  destruct (Reqb_spec y 0); [reflexivity|]. f_equal. field. lra.
Qed.

Lemma distance_enlarge p t : distance_tesseroid_point (ep p) (et t) = k * distance_tesseroid_point p t.
Proof.
  unfold distance_tesseroid_point, enlarge_tess, enlarge_point. cbn [west east south north bottom top].
  destruct p as [[x y] z]. unfold fst3, snd3, thd3. cbn [fst snd]. unfold distance_spherical.
  replace ((k * bottom t + k * top t) / 2) with (k * ((bottom t + top t) / 2)) by field. rewrite core_enlarge.
  destruct (distance_spherical_core _ _ _ _ _ _ _ _) as [[d c] l]. reflexivity.
Qed.

Lemma dims_enlarge t : tesseroid_dimensions (et t) = let '(a, b, c) := tesseroid_dimensions t in (k * a, k * b, k * c).
Proof.
  unfold tesseroid_dimensions, enlarge_tess. cbn [west east south north bottom top]. repeat (apply (f_equal2 pair)); ring.
Qed.

Lemma row_enlarge t n m q i j l : split_row (et t) n m q i j l = et (split_row t n m q i j l).
Proof. unfold split_row, enlarge_tess. cbn [west east south north bottom top]. apply (f_equal2 (fun b t => Tess _ _ _ _ b t)); unfold Rdiv; ring. Qed.

Lemma pieces_enlarge t n m q : pieces (et t) n m q = map et (pieces t n m q).
Proof.
  assert (F : forall {I A B} (h : A -> B) (f : I -> list A) (g : I -> list B) l, (forall i, g i = map h (f i)) -> flat_map g l = map h (flat_map f l)).
  { intros I A B h f g l H. induction l as [|x l IH]; [reflexivity|]. cbn [flat_map]. now rewrite map_app, IH, H. }
  unfold pieces. apply F. intros i. apply F. intros j. rewrite map_map. apply map_ext. intros l. apply row_enlarge.
Qed.

Lemma loop_enlarge p ratio radial cs cm : forall fuel stk out,
  abs_loop fuel (ep p) ratio radial cs cm (map et stk) (map et out) = do o <- abs_loop fuel p ratio radial cs cm stk out; Ok (map et o).
Proof.
  induction fuel as [|fuel IH]; intros [|t stk] out; cbn [abs_loop map bind]; try reflexivity.
  unfold abs_step. rewrite dims_enlarge, distance_enlarge. destruct (tesseroid_dimensions t) as [[l1 l2] l3]. rewrite !ndiv_scale.
  destruct (ndiv _ l1) as [q1|]; cbn [bind]; [|reflexivity]. destruct (ndiv _ l2) as [q2|]; cbn [bind]; [|reflexivity]. destruct (ndiv _ l3) as [q3|]; cbn [bind]; [|reflexivity].
  rewrite pieces_enlarge, <- map_rev, <- !map_app, !map_length. cbv zeta.
  match goal with |- context[Nat.ltb 1 ?x] => destruct (Nat.ltb 1 x) end.
  - match goal with |- context[Nat.ltb cs ?x] => destruct (Nat.ltb cs x) end; [reflexivity|]. cbn [bind fst snd]. apply IH.
  - match goal with |- context[Nat.ltb cm ?x] => destruct (Nat.ltb cm x) end; [reflexivity|]. cbn [bind fst snd]. rewrite <- IH. now rewrite map_app.
Qed.

Lemma discretise_enlarge p t ratio cs cm radial : discretise (ep p) (et t) ratio cs cm radial = do o <- discretise p t ratio cs cm radial; Ok (map et o).
Proof. exact (loop_enlarge p ratio radial cs cm (cs + 2 * cm) [t] []). Qed.

(** ** Quadrature *)
Definition enlarge_source (s : source) : source := (ep (fst s), k ^ 3 * snd s).
Lemma glq_enlarge t d : glq_sources (et t) d = map enlarge_source (glq_sources t d).
Proof.
  assert (S3 : 0 < sqrt 3) by (apply sqrt_lt_R0; lra).
  unfold glq_sources. cbn [flat_map map app].
  assert (E : forall x y z, glq_source (et t) d x y z = enlarge_source (glq_source t d x y z)).
  { intros x y z. unfold enlarge_source, glq_source, enlarge_point, enlarge_tess, fst3, snd3, thd3. cbn [fst snd west east south north bottom top].
    replace ((k * bottom t + k * top t) / 2 + z * ((k * top t - k * bottom t) / 2) / sqrt 3) with (k * ((bottom t + top t) / 2 + z * ((top t - bottom t) / 2) / sqrt 3)) by (field; lra).
    apply (f_equal2 pair); [reflexivity|]. field. lra. }
  now rewrite !E.
Qed.

Definition factor (field : string) : R := if String.eqb field "potential" then k ^ 2 else k.
Lemma kernel_enlarge field p s : sph_kernel_of (kernel_of field) (ep p) (enlarge_source s) = factor field * sph_kernel_of (kernel_of field) p s.
Proof.
  unfold sph_kernel_of, enlarge_source, enlarge_point, kernel_of, factor. destruct p as [[x y] z], s as [[[u v] w] m]. unfold fst3, snd3, thd3. cbn [fst snd].
  destruct (String.eqb field "potential"); unfold potential_spherical, gravity_u_spherical; rewrite core_enlarge; destruct (distance_spherical_core _ _ _ _ _ _ _ _) as [[d c] l].
  - destruct (Req_dec d 0) as [-> | D]; [rewrite Rmult_0_r; unfold Rdiv; rewrite Rinv_0; ring|field; lra].
  - destruct (Req_dec d 0) as [-> | D]; [rewrite Rmult_0_r; replace (0 ^ 3) with 0 by ring; unfold Rdiv; rewrite Rinv_0; ring|field; lra].
Qed.

Lemma contribution_enlarge field p ratio radial t d :
  contribution (ep p) ratio radial (kernel_of field) (et t, d) = do v <- contribution p ratio radial (kernel_of field) (t, d); Ok (factor field * v).
Proof.
  unfold contribution. cbn [fst snd]. rewrite discretise_enlarge. destruct (discretise p t _ _ _ _) as [o|]; cbn [bind]; [|reflexivity]. f_equal.
  rewrite sum_over_map, <- sum_over_scal. apply sum_over_ext. intros x _. rewrite glq_enlarge, sum_over_map, <- sum_over_scal. apply sum_over_ext. intros s _. apply kernel_enlarge.
Qed.

Definition enlarge_td (td : tess * R) : tess * R := (et (fst td), snd td).
Lemma kept_enlarge ts ds : kept (combine (map et ts) ds) = map enlarge_td (kept (combine ts ds)).
Proof.
  unfold kept. revert ds. induction ts as [|t ts IH]; intros [|d ds]; try reflexivity. cbn [map combine filter fst snd]. rewrite IH.
  assert (E : is_null (et t) d = is_null t d) by (unfold is_null, enlarge_tess; cbn [west east south north bottom top]; now rewrite Reqb_scale).
  rewrite E. destruct (is_null t d); reflexivity.
Qed.

Lemma mapM_times {A} (h : A -> A) (f g : A -> res R) c l : (forall x, g (h x) = do v <- f x; Ok (c * v)) -> mapM g (map h l) = do vs <- mapM f l; Ok (map (Rmult c) vs).
Proof.
  intros H. induction l as [|x l IH]; cbn [mapM map bind]; [reflexivity|]. rewrite H. destruct (f x) as [v|]; cbn [bind]; [|reflexivity]. rewrite IH.
  destruct (mapM f l); reflexivity.
Qed.

Lemma sumR_times c l : sumR (map (Rmult c) l) = c * sumR l.
Proof. induction l as [|x l IH]; cbn; [ring|]. rewrite IH. ring. Qed.

Lemma total_enlarge field radial ratio tds p :
  point_total ratio radial (kernel_of field) (map enlarge_td tds) (ep p) = do v <- point_total ratio radial (kernel_of field) tds p; Ok (factor field * v).
Proof.
  unfold point_total. rewrite !point_total_acc. rewrite (mapM_times enlarge_td (contribution p ratio radial (kernel_of field)) _ (factor field)) by (intros [t d]; apply contribution_enlarge).
  destruct (mapM (contribution p _ _ _) tds) as [vs|]; cbn [bind]; [|reflexivity]. f_equal. rewrite sumR_times. ring.
Qed.

(** ** Checks *)
Lemma existsb_map {A B} (h : A -> B) f l : existsb f (map h l) = existsb (fun x => f (h x)) l.
Proof. induction l as [|x l IH]; [reflexivity|]. cbn [map existsb]. now rewrite IH. Qed.
Lemma existsb_eq {A} (f g : A -> bool) l : (forall x, f x = g x) -> existsb f l = existsb g l.
Proof. intros H. induction l as [|x l IH]; [reflexivity|]. cbn [existsb]. now rewrite IH, H. Qed.

Lemma check_enlarge ts : check_tesseroids_R (map et ts) = do l <- check_tesseroids_R ts; Ok (map et l).
Proof.
  assert (E : longitude_continuity Rltb to_180 (map et ts) = map et (longitude_continuity Rltb to_180 ts)).
  { unfold longitude_continuity. rewrite !map_map. apply map_ext. intros t. unfold enlarge_tess. cbn [west east south north bottom top]. destruct (Rltb (east t) (west t)); reflexivity. }
  unfold check_tesseroids_R, check_tesseroids. cbv zeta. rewrite E, !existsb_map.
  rewrite (existsb_eq (fun x => Rltb (bottom (et x)) 0 || Rltb (top (et x)) 0)%bool (fun t => Rltb (bottom t) 0 || Rltb (top t) 0)%bool) by (intros t; cbn [bottom top enlarge_tess]; now rewrite !Rltb_scale_0).
  rewrite (existsb_eq (fun x => Rltb (top (et x)) (bottom (et x))) (fun t => Rltb (top t) (bottom t))) by (intros t; apply Rltb_scale).
  cbn [enlarge_tess west east south north]. unfold tess in *.
  repeat match goal with |- context[if existsb ?f ts then Raise ValueError else _] => destruct (existsb f ts); [reflexivity|] end.
  destruct (existsb (fun t => Rltb (east t) (west t)) ts); rewrite ?existsb_map; cbn [enlarge_tess west east];
    repeat match goal with |- context[if existsb ?f ?l then Raise ValueError else _] => destruct (existsb f l); [reflexivity|] end; reflexivity.
Qed.

Lemma inside_enlarge p t : inside_test (ep p) (et t) = inside_test p t.
Proof. destruct p as [[x y] z]. unfold inside_test, enlarge_point, enlarge_tess, fst3, snd3, thd3. cbn [fst snd west east south north bottom top]. now rewrite !Rltb_scale. Qed.

Lemma combine_map_r {A B C} (f : B -> C) (l : list A) m : combine l (map f m) = map (fun x => (fst x, f (snd x))) (combine l m).
Proof. revert m. induction l as [|x l IH]; intros [|y m]; cbn; auto. now rewrite IH. Qed.

Lemma flat_map_map {A B C} (f : B -> list C) (g : A -> B) l : flat_map f (map g l) = flat_map (fun x => f (g x)) l.
Proof. induction l as [|x l IH]; [reflexivity|]. cbn. now rewrite IH. Qed.
Lemma flat_map_eq {A B} (f g : A -> list B) l : (forall x, f x = g x) -> flat_map f l = flat_map g l.
Proof. intros H. induction l as [|x l IH]; [reflexivity|]. cbn. now rewrite IH, H. Qed.

Lemma check_points_enlarge ps ts : check_points_outside_tesseroids (map ep ps) (map et ts) = check_points_outside_tesseroids ps ts.
Proof.
  unfold check_points_outside_tesseroids. replace (conflicting (map ep ps) (map et ts)) with (conflicting ps ts); [reflexivity|].
  unfold conflicting. rewrite !map_length, !combine_map_r, !flat_map_map. apply flat_map_eq. intros [i p]. rewrite flat_map_map. apply flat_map_eq. intros [j t].
  cbn [fst snd]. now rewrite inside_enlarge.
Qed.

Lemma checks_enlarge disable ps ts : checks disable (map ep ps) (map et ts) = do l <- checks disable ps ts; Ok (map et l).
Proof.
  unfold checks. destruct disable; [reflexivity|]. rewrite check_enlarge. destruct (check_tesseroids_R ts) as [l|]; cbn [bind]; [|reflexivity].
  rewrite check_points_enlarge. destruct (check_points_outside_tesseroids ps l); reflexivity.
Qed.

Lemma conv_times field c l : map (conv field) (map (Rmult c) l) = map (Rmult c) (map (conv field) l).
Proof. rewrite !map_map. apply map_ext. intros x. apply conv_scal. Qed.

Lemma gravity_enlarge sh ps ts ds field radial disable : prod_shape sh = length ps -> length ds = length ts ->
  tesseroid_gravity (coords_of sh (map ep ps)) (map et ts) (arr1 ds) field radial disable
  = times_result (growth field k) (tesseroid_gravity (coords_of sh ps) ts (arr1 ds) field radial disable).
Proof.
  intros Hsh Hd. destruct (field_dec field) as [Hf|Hf]; [|rewrite !gravity_bad_field by assumption; reflexivity].
  rewrite !tesseroid_gravity_eq by (auto; now rewrite map_length). rewrite checks_enlarge.
  destruct (checks disable ps ts) as [l|]; cbn [bind]; [|reflexivity]. rewrite kept_enlarge.
  rewrite (mapM_times ep (point_total (distance_size_ratio field) radial (kernel_of field) (kept (combine l ds))) _ (factor field)) by (intros p; apply total_enlarge).
  destruct (mapM _ ps) as [vs|]; cbn [bind]; [|reflexivity]. unfold times_result. cbn [shape data]. now rewrite conv_times.
Qed.
End Enlarge.
