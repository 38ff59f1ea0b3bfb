From Coq Require Import Permutation.
From Verif Require Import Base BaseFacts NumPy NumPyFacts DistanceModel DistanceSpec DistanceProofs PointGravityModel PointGravitySpec PointGravityProofs
  TesseroidModel TesseroidSpec TesseroidCheckProofs TesseroidAdaptProofs.
Local Open Scope string_scope. Local Open Scope list_scope. Local Open Scope R_scope.

Lemma STACK_SIZE_pos : (0 < STACK_SIZE)%nat. Proof. unfold STACK_SIZE; lia. Qed.
Local Opaque MAX_DISCRETIZATIONS STACK_SIZE.

(** ** Quadrature *)
Lemma half_0_5 : 0.5 = / 2. Proof. lra. Qed.

Lemma sqrt3_pos : 0 < sqrt 3. Proof. apply sqrt_lt_R0; lra. Qed.
Lemma sqrt3_sqr : sqrt 3 * sqrt 3 = 3. Proof. apply sqrt_sqrt; lra. Qed.

Lemma glq_ok lon lat rad t d kernel :
  gauss_legendre_quadrature (radians lon) (cos (radians lat)) (sin (radians lat)) rad t d glq_nodes2 glq_weights2 kernel
  = Ok (sum_over (glq_sources t d) (sph_kernel_of kernel (lon, lat, rad))).
Proof.
  unfold gauss_legendre_quadrature, glq_nodes2, glq_weights2, leggauss2_nodes, leggauss2_weights, enumerate.
  cbn [length range Nat.sub seq combine for_ bind aget nth_error fst snd].
  f_equal. unfold glq_sources. cbn [flat_map map app]. unfold sum_over. cbn [map sumR].
  unfold sph_kernel_of, glq_source. cbn [fst snd fst3 snd3 thd3]. unfold fst3, snd3, thd3. cbn [fst snd].
  pose proof sqrt3_pos as H3.
  assert (E1 : forall a b, 0.5 * (b - a) * - (1 / sqrt 3) + 0.5 * (b + a) = (a + b) / 2 + -1 * ((b - a) / 2) / sqrt 3) by (intros; rewrite half_0_5; field; lra).
  assert (E2 : forall a b, 0.5 * (b - a) * (1 / sqrt 3) + 0.5 * (b + a) = (a + b) / 2 + 1 * ((b - a) / 2) / sqrt 3) by (intros; rewrite half_0_5; field; lra).
  rewrite !E1, !E2. unfold Rdiv. ring.
Qed.

(** Positions strictly inside. *)
Lemma glq_inside t d s : fat t -> In s (glq_sources t d) -> in_open t (fst s).
Proof.
  intros F H. unfold glq_sources in H. cbn [flat_map map app] in H.
  assert (H3 : 1 < sqrt 3) by (rewrite <- sqrt_1 at 1; apply sqrt_lt_1; lra).
  assert (E : forall x y, x < y -> x < (x + y) / 2 + -1 * ((y - x) / 2) / sqrt 3 < y /\ x < (x + y) / 2 + 1 * ((y - x) / 2) / sqrt 3 < y).
  { intros x y L. assert (0 < / sqrt 3 < 1). { split; [apply Rinv_0_lt_compat; lra|]. rewrite <- Rinv_1. apply Rinv_lt_contravar; lra. }
    unfold Rdiv. set (k := / sqrt 3) in *. nra. }
  destruct F as (F1 & F2 & F3).
  destruct (E _ _ F1), (E _ _ F2), (E _ _ F3).
  repeat destruct H as [<-|H]; try (now destruct H); unfold glq_source, in_open; cbn [fst]; auto.
Qed.

Lemma glq_total_mass t d :
  sum_over (glq_sources t d) snd
  = d * radians (east t - west t) * ((top t ^ 3 - bottom t ^ 3) / 3)
    * (radians (north t - south t) / 2 *
       (cos (radians ((south t + north t) / 2 - (north t - south t) / 2 / sqrt 3)) +
        cos (radians ((south t + north t) / 2 + (north t - south t) / 2 / sqrt 3)))).
Proof.
  pose proof sqrt3_pos as H3. pose proof sqrt3_sqr as S3.
  unfold glq_sources, sum_over, glq_source. cbn [flat_map map app sumR fst snd].
  replace ((south t + north t) / 2 + -1 * ((north t - south t) / 2) / sqrt 3) with ((south t + north t) / 2 - (north t - south t) / 2 / sqrt 3) by (field; lra).
  replace ((south t + north t) / 2 + 1 * ((north t - south t) / 2) / sqrt 3) with ((south t + north t) / 2 + (north t - south t) / 2 / sqrt 3) by (field; lra).
  set (c1 := cos _). set (c2 := cos (radians ((south t + north t) / 2 + (north t - south t) / 2 / sqrt 3))).
  set (h := (top t - bottom t) / 2). set (m := (bottom t + top t) / 2).
  assert (K : (m + -1 * h / sqrt 3) ^ 2 + (m + 1 * h / sqrt 3) ^ 2 = 2 * m ^ 2 + 2 * h ^ 2 / 3).
  { transitivity (2 * m ^ 2 + 2 * h ^ 2 / (sqrt 3 * sqrt 3)); [field; lra|now rewrite S3]. }
  assert (K2 : top t - bottom t = 2 * h) by (unfold h; field).
  assert (K3 : (top t ^ 3 - bottom t ^ 3) / 3 = h * (2 * m ^ 2 + 2 * h ^ 2 / 3)) by (unfold h, m; field).
  rewrite K3, <- K, K2. field; lra.
Qed.

Lemma glq_mass_linear t a b x y :
  forall (f : point -> R), sum_over (glq_sources t (a * x + b * y)) (fun s => snd s * f (fst s))
  = a * sum_over (glq_sources t x) (fun s => snd s * f (fst s)) + b * sum_over (glq_sources t y) (fun s => snd s * f (fst s)).
Proof. intros f. unfold glq_sources, sum_over, glq_source. cbn [flat_map map app sumR fst snd]. unfold Rdiv. ring. Qed.

Lemma glq_mass_pos t d s : fat t -> -90 <= south t -> north t <= 90 -> 0 <= bottom t -> 0 < d -> In s (glq_sources t d) -> 0 < snd s.
Proof.
  intros F S N B D H. pose proof (glq_inside t d s F H) as I.
  assert (E : exists a b c, s = glq_source t d a b c).
  { unfold glq_sources in H. cbn [flat_map map app] in H. repeat destruct H as [<-|H]; try (now destruct H); eauto. }
  destruct E as (a & b & c & ->). unfold glq_source in *. cbn [fst snd] in *. unfold in_open in I.
  set (lat := (south t + north t) / 2 + b * ((north t - south t) / 2) / sqrt 3) in *.
  set (r := (bottom t + top t) / 2 + c * ((top t - bottom t) / 2) / sqrt 3) in *.
  destruct F as (F1 & F2 & F3).
  assert (0 < cos (radians lat)) by (apply cos_lat_pos; lra).
  assert (0 < r ^ 2) by (apply pow_lt; lra).
  assert (0 < radians (east t - west t)) by (apply radians_pos; lra).
  assert (0 < radians (north t - south t)) by (apply radians_pos; lra).
  unfold Rdiv. repeat (first [assumption | lra | apply Rmult_lt_0_compat]).
Qed.

Lemma glq_null t d s : null t d -> In s (glq_sources t d) -> snd s = 0.
Proof.
  intros N H.
  assert (E : exists a b c, s = glq_source t d a b c).
  { unfold glq_sources in H. cbn [flat_map map app] in H. repeat destruct H as [<-|H]; try (now destruct H); eauto. }
  destruct E as (a & b & c & ->). unfold glq_source. cbn [snd].
  destruct N as [->|[->|[->| ->]]]; unfold radians; unfold Rminus; rewrite ?Rplus_opp_r; unfold Rdiv; ring.
Qed.

(** ** One observation point *)
Definition contribution (p : point) (ratio : R) (radial : bool) (kernel : sph_kernel_t) (td : tess * R) : res R :=
  do out <- discretise p (fst td) ratio STACK_SIZE MAX_DISCRETIZATIONS radial;
  Ok (sum_over out (fun x => sum_over (glq_sources x (snd td)) (sph_kernel_of kernel p))).

Lemma upd_upd {A} (l : list A) i x y : upd (upd l i x) i y = upd l i y.
Proof. revert i; induction l as [|z l IH]; intros [|i]; simpl; congruence. Qed.
Lemma upd_same (l : list R) i : upd l i (nth i l 0) = l.
Proof. revert i; induction l as [|z l IH]; intros [|i]; simpl; congruence. Qed.

Lemma add_small_ok out i lon lat rad d kernel : forall sml n result, (i < length result)%nat -> firstn n sml = out -> n = length out ->
  for_ (range 0 n) (fun tess_index result =>
      do small_t <- aget sml tess_index;
      do g <- gauss_legendre_quadrature (radians lon) (cos (radians lat)) (sin (radians lat)) rad small_t d glq_nodes2 glq_weights2 kernel;
      do o <- aget result i;
      aset result i (o + g)) result
  = Ok (upd result i (nth i result 0 + sum_over out (fun x => sum_over (glq_sources x d) (sph_kernel_of kernel (lon, lat, rad))))).
Proof.
  intros sml n result Hi <- Hn.
  assert (Ln : (n <= length sml)%nat) by (rewrite firstn_length in Hn; lia). clear Hn.
  induction n as [|n IH].
  - simpl. unfold sum_over at 1; simpl. rewrite Rplus_0_r. now rewrite upd_same.
  - replace (range 0 (S n)) with (range 0 n ++ [n]) by (unfold range; rewrite !Nat.sub_0_r, seq_S; reflexivity).
    rewrite for_app, IH by lia. cbn [bind for_].
    rewrite (aget_ok sml n empty_row) by lia. cbn [bind]. rewrite glq_ok. cbn [bind].
    rewrite (aget_ok _ _ 0) by (rewrite length_upd; assumption). cbn [bind]. rewrite aset_ok by (rewrite length_upd; assumption). cbn [bind].
    rewrite nth_upd_eq by assumption. rewrite upd_upd. f_equal. f_equal.
    assert (F : firstn (S n) sml = firstn n sml ++ [nth n sml empty_row]).
    { clear -Ln. revert n Ln; induction sml as [|y l IH]; intros [|c] L; simpl in *; try lia; auto. rewrite <- IH by lia. reflexivity. }
    rewrite F, sum_over_app. rewrite (sum_over_cons _ []). match goal with |- context[sum_over (@nil ?T) ?f] => change (sum_over (@nil T) f) with 0 end. ring.
Qed.

Lemma one_tesseroid_ok lons lats rads ratio radial kernel i td result stk sml lon lat rad :
  nth_error lons i = Some lon -> nth_error lats i = Some lat -> nth_error rads i = Some rad ->
  (i < length result)%nat -> length stk = STACK_SIZE -> length sml = MAX_DISCRETIZATIONS ->
  match contribution (lon, lat, rad) ratio radial kernel td with
  | Ok v => exists stk' sml', length stk' = STACK_SIZE /\ length sml' = MAX_DISCRETIZATIONS /\
      one_tesseroid lons lats rads ratio radial kernel i td (result, stk, sml) = Ok (upd result i (nth i result 0 + v), stk', sml')
  | Raise e => one_tesseroid lons lats rads ratio radial kernel i td (result, stk, sml) = Raise e
  end.
Proof.
  intros E1 E2 E3 Hi Hs Hm. destruct td as [t d]. unfold one_tesseroid, contribution. cbn [fst snd].
  assert (A1 : aget lons i = Ok lon) by (unfold aget; now rewrite E1).
  assert (A2 : aget lats i = Ok lat) by (unfold aget; now rewrite E2).
  assert (A3 : aget rads i = Ok rad) by (unfold aget; now rewrite E3).
  rewrite A1, A2, A3. cbn [bind].
  pose proof (adaptive_refines (lon, lat, rad) t ratio stk sml radial) as R. rewrite Hs, Hm in R.
  specialize (R STACK_SIZE_pos).
  destruct (adaptive_discretization (lon, lat, rad) t ratio stk sml radial) as [st|e],
    (discretise (lon, lat, rad) t ratio STACK_SIZE MAX_DISCRETIZATIONS radial) as [out|e']; cbn [bind]; try contradiction.
  - destruct R as (R1 & R2 & R3 & R4). exists (stack st), (small st). repeat split; auto.
    unfold returned_tesseroids in R1. rewrite (add_small_ok out) by auto. reflexivity.
  - now subst.
Qed.

Fixpoint mapM {A B} (f : A -> res B) (l : list A) : res (list B) :=
  match l with [] => Ok [] | x :: l' => do y <- f x; do r <- mapM f l'; Ok (y :: r) end.

Definition point_total (ratio : R) (radial : bool) (kernel : sph_kernel_t) (tds : list (tess * R)) (p : point) : res R :=
  for_ tds (fun td acc => do v <- contribution p ratio radial kernel td; Ok (acc + v)) 0.

Lemma point_total_acc ratio radial kernel p tds : forall acc,
  for_ tds (fun td acc => do v <- contribution p ratio radial kernel td; Ok (acc + v)) acc
  = do vs <- mapM (contribution p ratio radial kernel) tds; Ok (acc + sumR vs).
Proof.
  induction tds as [|td tds IH]; intros acc; simpl; [now rewrite Rplus_0_r|].
  destruct (contribution p ratio radial kernel td) as [v|e]; cbn [bind]; [|reflexivity].
  rewrite IH. destruct (mapM _ tds); cbn [bind]; [|reflexivity]. simpl. f_equal. ring.
Qed.

Lemma point_loop_ok lons lats rads ratio radial kernel i lon lat rad :
  nth_error lons i = Some lon -> nth_error lats i = Some lat -> nth_error rads i = Some rad ->
  forall tds result stk sml, (i < length result)%nat -> length stk = STACK_SIZE -> length sml = MAX_DISCRETIZATIONS ->
  (do st <- for_ tds (one_tesseroid lons lats rads ratio radial kernel i) (result, stk, sml); Ok (fst (fst st)))
  = do v <- for_ tds (fun td acc => do v <- contribution (lon, lat, rad) ratio radial kernel td; Ok (acc + v)) (nth i result 0); Ok (upd result i v).
Proof.
  intros E1 E2 E3. induction tds as [|td tds IH]; intros result stk sml Hi Hs Hm; cbn [for_].
  - cbn [bind fst]. now rewrite upd_same.
  - pose proof (one_tesseroid_ok lons lats rads ratio radial kernel i td result stk sml lon lat rad E1 E2 E3 Hi Hs Hm) as O.
    destruct (contribution (lon, lat, rad) ratio radial kernel td) as [v|e]; cbn [bind].
    + destruct O as (stk' & sml' & Hs' & Hm' & ->). cbn [bind].
      rewrite IH by (rewrite ?length_upd; auto). rewrite nth_upd_eq by assumption.
      destruct (for_ tds _ _); cbn [bind]; [|reflexivity]. now rewrite upd_upd.
    + rewrite O. reflexivity.
Qed.

Lemma upd_middle {A} (l1 l2 : list A) x y : upd (l1 ++ x :: l2) (length l1) y = l1 ++ y :: l2.
Proof. induction l1; simpl; congruence. Qed.
Lemma nth_middle_R (l1 l2 : list R) x d : nth (length l1) (l1 ++ x :: l2) d = x.
Proof. induction l1; simpl; auto. Qed.

Lemma jit_ok ps tds ratio radial kernel :
  jit_tesseroid_gravity (map fst3 ps, map snd3 ps, map thd3 ps) (map fst tds) (map snd tds) (repeat 0 (length ps)) ratio radial kernel
  = mapM (point_total ratio radial kernel tds) ps.
Proof.
  unfold jit_tesseroid_gravity. rewrite map_length.
  replace (combine (map fst tds) (map snd tds)) with tds by (induction tds as [|[a b] l IH]; simpl; congruence).
  unfold range. rewrite Nat.sub_0_r.
  enough (K : forall todo done pre, ps = pre ++ todo -> length done = length pre ->
    for_ (seq (length pre) (length todo)) (fun i result =>
      do st <- for_ tds (one_tesseroid (map fst3 ps) (map snd3 ps) (map thd3 ps) ratio radial kernel i)
               (result, repeat empty_row STACK_SIZE, repeat empty_row MAX_DISCRETIZATIONS);
      Ok (fst (fst st))) (done ++ repeat 0 (length todo))
    = do r <- mapM (point_total ratio radial kernel tds) todo; Ok (done ++ r)).
  { specialize (K ps [] [] eq_refl eq_refl). cbn [length app] in K. rewrite K. destruct (mapM _ ps); reflexivity. }
  induction todo as [|[[lon lat] rad] todo IH]; intros done pre Hps Hd.
  - simpl. reflexivity.
  - cbn [length seq for_ repeat mapM].
    assert (N : forall f : point -> R, nth_error (map f ps) (length pre) = Some (f (lon, lat, rad))).
    { intros f. rewrite nth_error_map, Hps, nth_error_app2 by lia. rewrite Nat.sub_diag. reflexivity. }
    rewrite (point_loop_ok _ _ _ _ _ _ _ lon lat rad (N fst3) (N snd3) (N thd3)); rewrite ?repeat_length; auto.
    2: { rewrite app_length; simpl; lia. }
    rewrite <- Hd at 1. rewrite nth_middle_R. fold (point_total ratio radial kernel tds (lon, lat, rad)).
    destruct (point_total ratio radial kernel tds (lon, lat, rad)) as [v|e]; cbn [bind]; [|reflexivity].
    rewrite <- Hd at 2. rewrite upd_middle.
    replace (S (length pre)) with (length (pre ++ [(lon, lat, rad)])) by (rewrite app_length; simpl; lia).
    replace (done ++ v :: repeat 0 (length todo)) with ((done ++ [v]) ++ repeat 0 (length todo)) by (now rewrite <- app_assoc).
    rewrite IH.
    + destruct (mapM _ todo); cbn [bind]; [|reflexivity]. now rewrite <- app_assoc.
    + now rewrite <- app_assoc.
    + rewrite !app_length; simpl; lia.
Qed.

(** ** The whole function *)
Definition kernel_of (field : string) : sph_kernel_t := if String.eqb field "potential" then potential_spherical else gravity_u_spherical.
Definition kept (tds : list (tess * R)) : list (tess * R) := filter (fun td => negb (is_null (fst td) (snd td))) tds.

Definition checks (disable : bool) (ps : list point) (ts : list tess) : res (list tess) :=
  if disable then Ok ts else do ts <- check_tesseroids_R ts; do _ <- check_points_outside_tesseroids ps ts; Ok ts.

Lemma Forall2_length {A B} (R : A -> B -> Prop) l1 l2 : Forall2 R l1 l2 -> length l1 = length l2.
Proof. induction 1; simpl; congruence. Qed.

Lemma checks_length disable ps ts ts' : checks disable ps ts = Ok ts' -> length ts' = length ts.
Proof.
  unfold checks. destruct disable; [intros [= <-]; reflexivity|].
  destruct (check_tesseroids_R ts) as [l|] eqn:E; cbn [bind]; [|discriminate].
  destruct (check_points_outside_tesseroids ps l); cbn [bind]; [|discriminate]. intros [= <-].
  apply check_tesseroids_ok in E. destruct E as (_ & M & _). symmetry. eapply Forall2_length; exact M.
Qed.

Lemma tesseroid_gravity_eq sh ps ts ds field radial disable :
  prod_shape sh = length ps -> In field ["potential"; "g_z"] -> length ds = length ts ->
  tesseroid_gravity (coords_of sh ps) ts (arr1 ds) field radial disable
  = do ts' <- checks disable ps ts;
    do r <- mapM (point_total (distance_size_ratio field) radial (kernel_of field) (kept (combine ts' ds))) ps;
    Ok (Arr sh (map (conv field) r)).
Proof.
  intros Hsh Hf Hd. unfold tesseroid_gravity, coords_of.
  assert (M : mem field ["potential"; "g_z"] = true) by (destruct Hf as [<-|[<-|[]]]; reflexivity).
  rewrite M. cbn [negb]. rewrite broadcast3_same by reflexivity. cbn [bind ravel data shape]. unfold ravel; cbn [data arr1].
  rewrite triples_coords. fold (checks disable ps ts).
  destruct (checks disable ps ts) as [ts'|e] eqn:E; cbn [bind]; [|reflexivity].
  apply checks_length in E. rewrite (proj2 (Nat.eqb_eq (length ds) (length ts'))) by congruence.
  rewrite andb_false_r. unfold discard_null_tesseroids.
  rewrite (proj2 (Nat.eqb_eq (length ds) (length ts'))) by congruence. cbn [negb bind fst snd].
  rewrite Hsh, jit_ok. fold (kept (combine ts' ds)). fold (kernel_of field).
  destruct (mapM _ ps); cbn [bind]; [|reflexivity]. f_equal. f_equal.
  destruct Hf as [<-|[<-|[]]]; cbn [String.eqb Ascii.eqb Bool.eqb].
  - unfold conv; cbn. now rewrite map_id.
  - rewrite map_map. apply map_ext. intros x. unfold conv. cbn. reflexivity.
Qed.

(** Values of [mapM]. *)
Lemma mapM_ok {A B} (f : A -> res B) l r : mapM f l = Ok r <-> Forall2 (fun x y => f x = Ok y) l r.
Proof.
  revert r; induction l as [|x l IH]; intros r; simpl.
  - split; [intros [= <-]; constructor|inversion 1; reflexivity].
  - split.
    + destruct (f x) eqn:E; cbn [bind]; [|discriminate]. destruct (mapM f l) eqn:E2; cbn [bind]; [|discriminate].
      intros [= <-]. constructor; auto. now apply IH.
    + inversion 1; subst. rewrite H2. cbn [bind]. apply IH in H4. rewrite H4. reflexivity.
Qed.

Lemma Forall2_map_eq {A B} (f : A -> B) l r : Forall2 (fun x y => y = f x) l r <-> r = map f l.
Proof.
  split; [induction 1; simpl; congruence|]. intros ->. induction l; simpl; constructor; auto.
Qed.

Lemma field_kernel field p s : In field ["potential"; "g_z"] -> conv field (sph_kernel_of (kernel_of field) p s) = newton_field "spherical" field p s.
Proof.
  intros [<-|[<-|[]]]; unfold newton_field; cbn [String.eqb Ascii.eqb Bool.eqb];
  apply spherical_kernel_spec; reflexivity.
Qed.

(** The value at one point: a sum over point masses. *)
Definition tess_sources (field : string) (radial : bool) (p : point) (td : tess * R) : list source :=
  match discretise p (fst td) (distance_size_ratio field) STACK_SIZE MAX_DISCRETIZATIONS radial with
  | Ok out => flat_map (fun x => glq_sources x (snd td)) out
  | Raise _ => []
  end.

Lemma sum_over_flat_map {A B} (g : A -> list B) l f : sum_over (flat_map g l) f = sum_over l (fun x => sum_over (g x) f).
Proof. induction l as [|x l IH]; simpl; [reflexivity|]. now rewrite sum_over_app, sum_over_cons, IH. Qed.

Lemma contribution_value field radial p td v : contribution p (distance_size_ratio field) radial (kernel_of field) td = Ok v ->
  In field ["potential"; "g_z"] -> conv field v = sum_over (tess_sources field radial p td) (newton_field "spherical" field p).
Proof.
  unfold contribution, tess_sources. destruct (discretise _ _ _ _ _ _) as [out|]; cbn [bind]; [|discriminate].
  intros [= <-] Hf. rewrite conv_sum. rewrite sum_over_flat_map. apply sum_over_ext. intros x _.
  rewrite conv_sum. apply sum_over_ext. intros s _. now apply field_kernel.
Qed.

Lemma conv_add field x y : conv field (x + y) = conv field x + conv field y.
Proof. destruct (conv_linear field) as [k Hk]. rewrite !Hk. ring. Qed.
Lemma conv_scal field k x : conv field (k * x) = k * conv field x.
Proof. destruct (conv_linear field) as [c Hc]. rewrite !Hc. ring. Qed.
Lemma conv_zero field : conv field 0 = 0.
Proof. destruct (conv_linear field) as [c Hc]. rewrite !Hc. ring. Qed.

Lemma conv_sumR field l : conv field (sumR l) = sumR (map (conv field) l).
Proof. induction l as [|x l IH]; simpl; [apply conv_zero|]. now rewrite conv_add, IH. Qed.

Definition all_sources (field : string) (radial : bool) (tds : list (tess * R)) (p : point) : list source :=
  flat_map (tess_sources field radial p) (kept tds).

Definition discretisable (field : string) (radial : bool) (p : point) (td : tess * R) : Prop :=
  is_null (fst td) (snd td) = false ->
  exists out, discretise p (fst td) (distance_size_ratio field) STACK_SIZE MAX_DISCRETIZATIONS radial = Ok out.

Lemma point_total_value field radial tds p : In field ["potential"; "g_z"] ->
  (forall v, point_total (distance_size_ratio field) radial (kernel_of field) (kept tds) p = Ok v ->
    conv field v = sum_over (all_sources field radial tds p) (newton_field "spherical" field p)) /\
  ((exists v, point_total (distance_size_ratio field) radial (kernel_of field) (kept tds) p = Ok v) <-> Forall (discretisable field radial p) tds).
Proof.
  intros Hf. unfold point_total. rewrite point_total_acc. split.
  - intros v. destruct (mapM _ (kept tds)) as [vs|] eqn:E; cbn [bind]; [|discriminate]. intros [= <-].
    rewrite Rplus_0_l, conv_sumR. unfold all_sources. rewrite sum_over_flat_map. apply mapM_ok in E.
    unfold sum_over at 1. f_equal. induction E; simpl; [reflexivity|]. rewrite IHE. f_equal. now apply contribution_value.
  - assert (Q : (exists v, (do vs <- mapM (contribution p (distance_size_ratio field) radial (kernel_of field)) (kept tds); Ok (0 + sumR vs)) = Ok v)
      <-> exists vs, mapM (contribution p (distance_size_ratio field) radial (kernel_of field)) (kept tds) = Ok vs).
    { split; intros [v H]; destruct (mapM _ (kept tds)); cbn [bind] in *; try discriminate; eauto. }
    rewrite Q. clear Q. induction tds as [|td tds IH]; simpl.
    + split; [constructor|exists []; reflexivity].
    + unfold discretisable at 1. destruct (is_null (fst td) (snd td)) eqn:N; simpl.
      * rewrite IH. split; [constructor; auto; unfold discretisable; congruence|inversion 1; auto].
      * split.
        -- intros [vs H]. unfold contribution at 1 in H. destruct (discretise _ _ _ _ _ _) as [out|] eqn:D; cbn [bind] in H; [|discriminate].
           destruct (mapM _ (kept tds)) as [r|] eqn:M; cbn [bind] in H; [|discriminate].
           constructor; [intros _; eauto|]. apply IH. eauto.
        -- inversion 1 as [|? ? H1 H2]; subst. destruct (H1 N) as [out D]. apply IH in H2. destruct H2 as [vs M].
           unfold contribution at 1. rewrite D. cbn [bind]. rewrite M. cbn [bind]. eauto.
Qed.

(** Characterisation: the call returns iff the checks pass and every non-null tesseroid can be
    discretised; then the result is the field of the point masses. *)
Lemma tesseroid_gravity_value sh ps ts ds field radial disable a :
  prod_shape sh = length ps -> In field ["potential"; "g_z"] -> length ds = length ts ->
  tesseroid_gravity (coords_of sh ps) ts (arr1 ds) field radial disable = Ok a <->
  exists ts', checks disable ps ts = Ok ts' /\
    (forall p, In p ps -> Forall (discretisable field radial p) (combine ts' ds)) /\
    a = Arr sh (map (fun p => sum_over (all_sources field radial (combine ts' ds) p) (newton_field "spherical" field p)) ps).
Proof.
  intros Hsh Hf Hd. rewrite tesseroid_gravity_eq by assumption. split.
  - destruct (checks disable ps ts) as [ts'|] eqn:E; cbn [bind]; [|discriminate].
    destruct (mapM _ ps) as [r|] eqn:M; cbn [bind]; [|discriminate]. intros [= <-].
    exists ts'. split; [reflexivity|]. apply mapM_ok in M. split.
    + intros p Hp. apply (point_total_value field radial (combine ts' ds) p Hf).
      clear -M Hp. induction M; [destruct Hp|]. destruct Hp as [<-|Hp]; eauto.
    + f_equal. clear -M Hf. induction M; simpl; [reflexivity|]. rewrite IHM. f_equal. now apply point_total_value.
  - intros (ts' & E & HD & ->). rewrite E. cbn [bind].
    assert (M : exists r, mapM (point_total (distance_size_ratio field) radial (kernel_of field) (kept (combine ts' ds))) ps = Ok r).
    { clear -HD Hf. induction ps as [|p ps IH]; simpl; [eauto|].
      destruct (proj2 (point_total_value field radial (combine ts' ds) p Hf)) as [_ K].
      destruct K as [v K]; [apply HD; now left|]. rewrite K. cbn [bind].
      destruct IH as [r IH]; [intros; apply HD; now right|]. rewrite IH. cbn [bind]. eauto. }
    destruct M as [r M]. rewrite M. cbn [bind]. f_equal. f_equal. apply mapM_ok in M.
    clear -M Hf. induction M; simpl; [reflexivity|]. rewrite IHM. f_equal. now apply point_total_value.
Qed.

(** Mass of the point masses and their location. *)
Lemma kept_in tds td : In td (kept tds) <-> In td tds /\ is_null (fst td) (snd td) = false.
Proof. unfold kept. rewrite filter_In, negb_true_iff. reflexivity. Qed.

Lemma is_null_spec t d : is_null t d = true <-> null t d.
Proof. unfold is_null, null. rewrite !orb_true_iff, !Reqb_true. tauto. Qed.

Lemma pieces_fat t a b c : (a = 1%nat \/ a = 2%nat) -> (b = 1%nat \/ b = 2%nat) -> (c = 1%nat \/ c = 2%nat) -> fat t -> Forall fat (pieces t a b c).
Proof.
  intros. apply pieces_Forall; auto; intros x; rewrite ?split_lon_2, ?split_lat_2, ?split_rad_2; intros Bx _;
  repeat apply Forall_cons; try apply Forall_nil; unfold fat, mid in *; cbn; lra.
Qed.

Lemma discretise_fat p t ratio cs cm radial out : fat t -> discretise p t ratio cs cm radial = Ok out -> Forall fat out.
Proof.
  intros Wt. unfold discretise. intros H. apply (abs_loop_inv p ratio radial cs cm (fun stk o => Forall fat o /\ Forall fat stk)) in H.
  - apply H.
  - intros x rest o stk' o' [HT HB] E. inversion HB; subst.
    apply abs_step_cases in E. destruct E as [(a & b & c & Ha & Hb & Hc & _ & _ & -> & -> & _)|(-> & -> & _ & E)].
    + split; [assumption|]. apply Forall_app; split; [|assumption]. apply Forall_rev. now apply pieces_fat.
    + split; [|assumption]. apply Forall_app; split; [assumption|]. apply Forall_cons; [assumption|apply Forall_nil].
  - split; [apply Forall_nil|apply Forall_cons; [assumption|apply Forall_nil]].
Qed.

Lemma tess_sources_inside field radial p t d s : fat t -> In s (tess_sources field radial p (t, d)) -> in_open t (fst s).
Proof.
  intros Ft. unfold tess_sources. cbn [fst snd]. destruct (discretise _ _ _ _ _ _) as [out|] eqn:E; [|intros []].
  intros H. apply in_flat_map in H. destruct H as (x & Hx & Hs).
  pose proof (discretise_fat _ _ _ _ _ _ _ Ft E) as HF. rewrite Forall_forall in HF.
  pose proof (glq_inside x d s (HF x Hx) Hs) as I.
  assert (B : box t) by (unfold fat, box in *; lra).
  pose proof (discretise_tiles _ _ _ _ _ _ _ B E) as T.
  revert I. apply open_inside. intros q. apply (tiles_inside _ _ T). exact Hx.
Qed.
