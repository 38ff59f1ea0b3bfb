From Coq Require Import Permutation.
From Verif Require Import Base BaseFacts NumPy NumPyFacts DistanceModel DistanceSpec DistanceProofs PointGravityModel PointGravitySpec PointGravityProofs
  TesseroidModel TesseroidSpec TesseroidCheckProofs TesseroidAdaptProofs TesseroidProofs TesseroidFieldProofs
  TesseroidDensityModel TesseroidDensitySpec TesseroidDensityProofs.
Local Open Scope string_scope. Local Open Scope list_scope. Local Open Scope R_scope.
Local Opaque MAX_DISCRETIZATIONS STACK_SIZE.

Section WithSearch.
Variable minimize : (R -> R) -> R -> R -> R * R.
Hypothesis HB : bounded_search minimize.

Lemma Rmin_either x y (P : R -> Prop) : P x -> P y -> P (Rmin x y).
Proof. intros; unfold Rmin; destruct (Rle_dec x y); auto. Qed.
Lemma Rmax_either x y (P : R -> Prop) : P x -> P y -> P (Rmax x y).
Proof. intros; unfold Rmax; destruct (Rle_dec x y); auto. Qed.

Lemma minimize_in f b t : b <= t -> b <= fst (minimize f b t) <= t.
Proof. intros [H| <-]; [destruct (proj1 (HB f b t) H); lra|]. rewrite (proj1 (proj2 (HB f b b)) eq_refl). lra. Qed.

Lemma minmax_ok rho b t : b <= t -> exists lo hi, density_minmax minimize rho b t = Ok (rho lo, rho hi) /\ b <= lo <= t /\ b <= hi <= t.
Proof.
  intros H. unfold density_minmax. destruct (Rltb_spec t b); [lra|].
  pose proof (minimize_in rho b t H) as M1. pose proof (minimize_in (fun r => - rho r) b t H) as M2.
  rewrite (proj2 (proj2 (HB rho b t)) H), (proj2 (proj2 (HB (fun r => - rho r) b t)) H). rewrite Ropp_involutive.
  set (x1 := fst (minimize rho b t)) in *. set (x2 := fst (minimize (fun r => - rho r) b t)) in *.
  assert (A1 : exists lo, Rmin (rho x1) (Rmin (rho b) (rho t)) = rho lo /\ b <= lo <= t).
  { apply (Rmin_either _ _ (fun v => exists lo, v = rho lo /\ b <= lo <= t)); [exists x1; auto|].
    apply (Rmin_either _ _ (fun v => exists lo, v = rho lo /\ b <= lo <= t)); [exists b|exists t]; split; auto; lra. }
  assert (A2 : exists hi, Rmax (rho x2) (Rmax (rho b) (rho t)) = rho hi /\ b <= hi <= t).
  { apply (Rmax_either _ _ (fun v => exists lo, v = rho lo /\ b <= lo <= t)); [exists x2; auto|].
    apply (Rmax_either _ _ (fun v => exists lo, v = rho lo /\ b <= lo <= t)); [exists b|exists t]; split; auto; lra. }
  destruct A1 as (lo & -> & L), A2 as (hi & -> & H2). exists lo, hi. auto.
Qed.

Lemma isclose_refl x : np_isclose x x = true.
Proof. unfold np_isclose. apply Rleb_true. unfold Rminus. rewrite Rplus_opp_r, Rabs_R0. pose proof (Rabs_pos x). assert (0 < / 10 ^ 8) by (apply Rinv_0_lt_compat; lra). assert (0 < / 10 ^ 5) by (apply Rinv_0_lt_compat; lra). nra. Qed.

Lemma isclose_false a b : np_isclose a b = false -> a <> b.
Proof. intros H ->. rewrite isclose_refl in H. discriminate. Qed.

(** The outcome of the discretisation of one tesseroid. *)
Lemma disc_1 fuel t rho out : bottom t < top t -> density_based_discretization_1 minimize fuel t rho = Ok out ->
  (exists l, pile (bottom t) (top t) l /\ Permutation out (map (layer_of t) l)) /\
  exists lo hi, bottom t <= lo <= top t /\ bottom t <= hi <= top t /\
    (out = [t] /\ Rabs (rho lo - rho hi) <= / 10 ^ 8 + / 10 ^ 5 * Rabs (rho hi) \/
     rho lo <> rho hi /\ Forall (crit minimize t (fun radius => (rho radius - rho lo) / (rho hi - rho lo))) out).
Proof.
  intros H E. unfold density_based_discretization_1 in E. destruct (minmax_ok rho (bottom t) (top t)) as (lo & hi & M & L1 & L2); [lra|].
  rewrite M in E. cbn [bind] in E. destruct (np_isclose (rho lo) (rho hi)) eqn:C.
  - injection E as <-. split.
    + exists [(bottom t, top t)]. split; [now apply pile_one|]. destruct t; reflexivity.
    + exists lo, hi. repeat split; try lra. left. split; [reflexivity|]. unfold np_isclose in C. now apply Rleb_true in C.
  - apply (loop_pile minimize HB t) in E; [|exists [(bottom t, top t)]; split; [now apply pile_one|destruct t; reflexivity]|constructor].
    destruct E as [E1 E2]. split; [exact E1|]. exists lo, hi. repeat split; try lra. right. split; [now apply isclose_false|exact E2].
Qed.

Lemma disc_1_fuel fuel fuel' t rho out : (fuel <= fuel')%nat -> density_based_discretization_1 minimize fuel t rho = Ok out ->
  density_based_discretization_1 minimize fuel' t rho = Ok out.
Proof.
  intros Hf. unfold density_based_discretization_1. destruct (density_minmax minimize rho (bottom t) (top t)) as [[m M]|]; cbn [bind]; [|discriminate].
  destruct (np_isclose m M); [auto|]. now apply loop_fuel.
Qed.

Lemma cont_norm rho m M x : continuity_pt rho x -> continuity_pt (fun r => (rho r - m) / (M - m)) x.
Proof.
  intros H. unfold Rdiv. apply continuity_pt_mult; [|apply continuity_pt_const; intros a b; reflexivity].
  apply continuity_pt_minus; [exact H|apply continuity_pt_const; intros a b; reflexivity].
Qed.

Lemma disc_1_terminates t rho : bottom t < top t -> (forall x, bottom t <= x <= top t -> continuity_pt rho x) ->
  exists fuel out, density_based_discretization_1 minimize fuel t rho = Ok out.
Proof.
  intros H HC. unfold density_based_discretization_1. destruct (minmax_ok rho (bottom t) (top t)) as (lo & hi & -> & _); [lra|]. cbn [bind].
  destruct (np_isclose (rho lo) (rho hi)); [exists 0%nat; eauto|].
  set (nd := fun radius => (rho radius - rho lo) / (rho hi - rho lo)).
  destruct (split_thick minimize HB t nd H) as (d & Hd & HT); [intros x Hx; apply cont_norm, HC, Hx|].
  exists (total d [t]). apply (loop_terminates minimize HB t nd d Hd HT); [apply Nat.le_refl|].
  exists [(bottom t, top t)]. split; [now apply pile_one|]. exists []. destruct t; reflexivity.
Qed.

(** With an ideal search the criterion holds at every radius of every piece. *)
Lemma cont_off_line nd b t x : b < t -> continuity_pt nd x -> continuity_pt (diff_fun nd b t) x.
Proof.
  intros Hbt H. unfold diff_fun. apply (continuity_pt_opp (fun radius => Rabs (nd radius - straight_line radius nd b t))).
  apply (continuity_pt_comp (fun radius => nd radius - straight_line radius nd b t) Rabs); [|apply Rcontinuity_abs].
  apply continuity_pt_minus; [exact H|]. unfold straight_line.
  apply continuity_pt_plus; [|apply continuity_pt_const; intros p q; reflexivity].
  apply continuity_pt_mult; [apply continuity_pt_const; intros p q; reflexivity|].
  apply continuity_pt_minus; [apply derivable_continuous_pt, derivable_pt_id|apply continuity_pt_const; intros p q; reflexivity].
Qed.

Lemma crit_everywhere t rho lo hi x q : finds_minima minimize -> bottom t < top t -> bottom t <= bottom x -> bottom x < top x -> top x <= top t ->
  (forall r, bottom t <= r <= top t -> continuity_pt rho r) -> rho lo <> rho hi ->
  crit minimize t (fun radius => (rho radius - rho lo) / (rho hi - rho lo)) x -> bottom x <= q <= top x ->
  Rabs (off_line rho (bottom x) (top x) q) * ((top x - bottom x) / (top t - bottom t)) <= DELTA_RATIO * Rabs (rho hi - rho lo).
Proof.
  intros HF Ht H1 H2 H3 HC Hne Hcrit Hq. unfold crit in Hcrit. set (nd := fun radius => (rho radius - rho lo) / (rho hi - rho lo)) in *.
  assert (K : diff_fun nd (bottom x) (top x) (split_at minimize nd (bottom x) (top x)) <= diff_fun nd (bottom x) (top x) q).
  { apply HF; auto.
    - intros y Hy. split; [apply cont_off_line; [assumption|]; apply cont_norm, HC; lra|]. unfold diff_fun. pose proof (Rabs_pos (nd y - straight_line y nd (bottom x) (top x))). lra.
    - unfold diff_fun. rewrite off_line_straight by assumption. replace (off_line nd (bottom x) (top x) (bottom x)) with 0; [rewrite Rabs_R0; ring|]. unfold off_line. field. lra.
    - unfold diff_fun. rewrite off_line_straight by assumption. replace (off_line nd (bottom x) (top x) (top x)) with 0; [rewrite Rabs_R0; ring|]. unfold off_line. field. lra. }
  unfold diff_fun in K. rewrite !off_line_straight in K by assumption.
  assert (E : forall r, Rabs (off_line nd (bottom x) (top x) r) = Rabs (off_line rho (bottom x) (top x) r) / Rabs (rho hi - rho lo)).
  { intros r. unfold nd. rewrite off_line_norm by assumption. unfold Rdiv. now rewrite Rabs_mult, Rabs_inv. }
  rewrite (E q) in K. set (D := Rabs (off_line nd (bottom x) (top x) (split_at minimize nd (bottom x) (top x)))) in *.
  assert (P : 0 < Rabs (rho hi - rho lo)) by (apply Rabs_pos_lt; lra).
  assert (W : 0 <= (top x - bottom x) / (top t - bottom t)) by (apply Rmult_le_pos; [lra|left; apply Rinv_0_lt_compat; lra]).
  set (A := Rabs (off_line rho (bottom x) (top x) q)) in *. set (V := Rabs (rho hi - rho lo)) in *. set (z := (top x - bottom x) / (top t - bottom t)) in *.
  assert (A / V <= D) by lra. assert (A / V * z <= DELTA_RATIO) by (eapply Rle_trans; [apply Rmult_le_compat_r; eassumption|exact Hcrit]).
  replace (A * z) with (A / V * z * V) by (field; lra). apply Rmult_le_compat_r; [lra|assumption].
Qed.

(** ** Constant density functions *)
Lemma disc_1_const fuel t c : bottom t <= top t -> density_based_discretization_1 minimize fuel t (fun _ => c) = Ok [t].
Proof.
  intros H. unfold density_based_discretization_1. destruct (minmax_ok (fun _ => c) (bottom t) (top t) H) as (lo & hi & -> & _). cbn [bind].
  now rewrite isclose_refl.
Qed.

Lemma disc_const fuel c ts : Forall (fun t => bottom t <= top t) ts -> density_based_discretization minimize fuel ts (fun _ => c) = Ok ts.
Proof.
  intros H. unfold density_based_discretization. enough (K : forall acc, for_ ts (fun t acc => do l <- density_based_discretization_1 minimize fuel t (fun _ => c); Ok (acc ++ l)) acc = Ok (acc ++ ts)) by (now rewrite K).
  induction H as [|t ts Ht H IH]; intros acc; cbn [for_]; [now rewrite app_nil_r|].
  rewrite disc_1_const by assumption. cbn [bind]. rewrite IH. now rewrite <- app_assoc.
Qed.

Lemma jit_const coordinates ts c result ratio radial kernel :
  jit_tesseroid_gravity_variable_density coordinates ts (fun _ => c) result ratio radial kernel
  = jit_tesseroid_gravity coordinates ts (repeat c (length ts)) result ratio radial kernel.
Proof.
  destruct coordinates as [[lon lat] rad]. unfold jit_tesseroid_gravity_variable_density, jit_tesseroid_gravity.
  replace (combine ts (repeat c (length ts))) with (map (fun t => (t, c)) ts) by (induction ts; simpl; congruence).
  apply for_ext. intros i r _. rewrite for_map. reflexivity.
Qed.

Lemma const_function fuel sh ps ts c field radial :
  prod_shape sh = length ps -> ts <> [] -> c <> 0 -> (forall t t', In t ts -> moved t t' -> width_ok t' -> fat t') ->
  tesseroid_gravity_variable minimize fuel (coords_of sh ps) ts (fun _ => c) field radial false
  = tesseroid_gravity (coords_of sh ps) ts (arr1 (repeat c (length ts))) field radial false.
Proof.
  intros Hsh Hne Hc HF. unfold tesseroid_gravity_variable, tesseroid_gravity, coords_of.
  destruct (mem field ["potential"; "g_z"]); cbn [negb]; [|reflexivity].
  rewrite broadcast3_same by reflexivity. cbn [bind]. unfold ravel; cbn [data arr1]. rewrite triples_coords.
  destruct (check_tesseroids_R ts) as [ts'|] eqn:E; cbn [bind]; [|reflexivity].
  destruct (check_points_outside_tesseroids ps ts') as [u|]; cbn [bind]; [|reflexivity].
  apply check_tesseroids_ok in E. destruct E as (B & M & W).
  assert (L : length ts' = length ts) by (symmetry; eapply Forall2_length; exact M).
  assert (F : Forall fat ts').
  { clear -M W HF. induction M as [|t t' l l' M1 M IH]; constructor.
    - inversion W; subst. apply (HF t t'); auto. now left.
    - inversion W; subst. apply IH; auto. intros; apply (HF t0); auto. now right. }
  rewrite disc_const by (eapply Forall_impl; [|exact F]; unfold fat; intros; lra). cbn [bind].
  rewrite repeat_length, L, Nat.eqb_refl. cbn [negb andb]. unfold discard_null_tesseroids.
  rewrite repeat_length, L, Nat.eqb_refl. cbn [negb bind].
  assert (K : filter (fun td : tess * R => negb (is_null (fst td) (snd td))) (combine ts' (repeat c (length ts))) = map (fun t => (t, c)) ts').
  { rewrite <- L. clear -F Hc. induction F as [|t l Ft F IH]; [reflexivity|]. cbn [length repeat combine filter map fst snd].
    replace (is_null t c) with false; [cbn [negb]; f_equal; exact IH|]. symmetry. apply not_true_iff_false. intros N. apply is_null_spec in N. unfold null, fat in *. lra. }
  rewrite K. cbn [fst snd]. rewrite !map_map. cbn [fst snd]. rewrite map_id.
  replace (map (fun _ => c) ts') with (repeat c (length ts')) by (clear; induction ts'; simpl; congruence).
  destruct ts' as [|t1 ts']; [destruct ts; [now contradiction Hne|discriminate L]|]. rewrite jit_const. reflexivity.
Qed.

(** ** The field as a sum over point masses *)
Lemma glq_var_ok lon lat rad t rho kernel :
  gauss_legendre_quadrature_variable_density (radians lon) (cos (radians lat)) (sin (radians lat)) rad t rho glq_nodes2 glq_weights2 kernel
  = Ok (sum_over (glq_sources_of t rho) (sph_kernel_of kernel (lon, lat, rad))).
Proof.
  unfold gauss_legendre_quadrature_variable_density, glq_nodes2, glq_weights2, leggauss2_nodes, leggauss2_weights, enumerate.
  cbn [length range Nat.sub seq combine for_ bind aget nth_error fst snd].
  f_equal. unfold glq_sources_of, glq_sources. cbn [flat_map map app]. unfold sum_over. cbn [map sumR].
  unfold sph_kernel_of, glq_source. cbn [fst snd fst3 snd3 thd3]. unfold fst3, snd3, thd3. cbn [fst snd].
  pose proof sqrt3_pos as H3.
  assert (E1 : forall a b, 0.5 * (b - a) * - (1 / sqrt 3) + 0.5 * (b + a) = (a + b) / 2 + -1 * ((b - a) / 2) / sqrt 3) by (intros; rewrite half_0_5; field; lra).
  assert (E2 : forall a b, 0.5 * (b - a) * (1 / sqrt 3) + 0.5 * (b + a) = (a + b) / 2 + 1 * ((b - a) / 2) / sqrt 3) by (intros; rewrite half_0_5; field; lra).
  rewrite !E1, !E2.
  unfold Rdiv; ring.
Qed.

Definition contribution_var (p : point) (ratio : R) (radial : bool) (rho : R -> R) (kernel : sph_kernel_t) (t : tess) : res R :=
  do out <- discretise p t ratio STACK_SIZE MAX_DISCRETIZATIONS radial;
  Ok (sum_over out (fun x => sum_over (glq_sources_of x rho) (sph_kernel_of kernel p))).

Lemma add_small_var_ok out i lon lat rad rho kernel : forall sml n result, (i < length result)%nat -> firstn n sml = out -> n = length out ->
  for_ (range 0 n) (fun tess_index result =>
      do small_t <- aget sml tess_index;
      do g <- gauss_legendre_quadrature_variable_density (radians lon) (cos (radians lat)) (sin (radians lat)) rad small_t rho glq_nodes2 glq_weights2 kernel;
      do o <- aget result i;
      aset result i (o + g)) result
  = Ok (upd result i (nth i result 0 + sum_over out (fun x => sum_over (glq_sources_of x rho) (sph_kernel_of kernel (lon, lat, rad))))).
Proof.
  intros sml n result Hi <- Hn.
  assert (Ln : (n <= length sml)%nat) by (rewrite firstn_length in Hn; lia). clear Hn.
  induction n as [|n IH].
  - simpl. unfold sum_over at 1; simpl. rewrite Rplus_0_r. now rewrite upd_same.
  - replace (range 0 (S n)) with (range 0 n ++ [n]) by (unfold range; rewrite !Nat.sub_0_r, seq_S; reflexivity).
    rewrite for_app, IH by lia. cbn [bind for_].
    rewrite (aget_ok sml n empty_row) by lia. cbn [bind]. rewrite glq_var_ok. cbn [bind].
    rewrite (aget_ok _ _ 0) by (rewrite length_upd; assumption). cbn [bind]. rewrite aset_ok by (rewrite length_upd; assumption). cbn [bind].
    rewrite nth_upd_eq by assumption. rewrite upd_upd. f_equal. f_equal.
    assert (F : firstn (S n) sml = firstn n sml ++ [nth n sml empty_row]).
    { clear -Ln. revert n Ln; induction sml as [|y l IH]; intros [|c] L; simpl in *; try lia; auto. rewrite <- IH by lia. reflexivity. }
    rewrite F, sum_over_app. rewrite (sum_over_cons _ []). match goal with |- context[sum_over (@nil ?T) ?f] => change (sum_over (@nil T) f) with 0 end. ring.
Qed.

Lemma one_tesseroid_var_ok lons lats rads rho ratio radial kernel i t result stk sml lon lat rad :
  nth_error lons i = Some lon -> nth_error lats i = Some lat -> nth_error rads i = Some rad ->
  (i < length result)%nat -> length stk = STACK_SIZE -> length sml = MAX_DISCRETIZATIONS ->
  match contribution_var (lon, lat, rad) ratio radial rho kernel t with
  | Ok v => exists stk' sml', length stk' = STACK_SIZE /\ length sml' = MAX_DISCRETIZATIONS /\
      one_tesseroid_variable lons lats rads rho ratio radial kernel i t (result, stk, sml) = Ok (upd result i (nth i result 0 + v), stk', sml')
  | Raise e => one_tesseroid_variable lons lats rads rho ratio radial kernel i t (result, stk, sml) = Raise e
  end.
Proof.
  intros E1 E2 E3 Hi Hs Hm. unfold one_tesseroid_variable, contribution_var.
  assert (A1 : aget lons i = Ok lon) by (unfold aget; now rewrite E1).
  assert (A2 : aget lats i = Ok lat) by (unfold aget; now rewrite E2).
  assert (A3 : aget rads i = Ok rad) by (unfold aget; now rewrite E3).
  rewrite A1, A2, A3. cbn [bind].
  pose proof (adaptive_refines (lon, lat, rad) t ratio stk sml radial) as R. rewrite Hs, Hm in R.
  specialize (R STACK_SIZE_pos).
  destruct (adaptive_discretization (lon, lat, rad) t ratio stk sml radial) as [st|e],
    (discretise (lon, lat, rad) t ratio STACK_SIZE MAX_DISCRETIZATIONS radial) as [out|e']; cbn [bind]; try contradiction.
  - destruct R as (R1 & R2 & R3 & R4). exists (stack st), (small st). repeat split; auto.
    unfold returned_tesseroids in R1. rewrite (add_small_var_ok out) by auto. reflexivity.
  - now subst.
Qed.

Lemma point_loop_var_ok lons lats rads rho ratio radial kernel i lon lat rad :
  nth_error lons i = Some lon -> nth_error lats i = Some lat -> nth_error rads i = Some rad ->
  forall ts result stk sml, (i < length result)%nat -> length stk = STACK_SIZE -> length sml = MAX_DISCRETIZATIONS ->
  (do st <- for_ ts (one_tesseroid_variable lons lats rads rho ratio radial kernel i) (result, stk, sml); Ok (fst (fst st)))
  = do vs <- mapM (contribution_var (lon, lat, rad) ratio radial rho kernel) ts; Ok (upd result i (nth i result 0 + sumR vs)).
Proof.
  intros E1 E2 E3. induction ts as [|t ts IH]; intros result stk sml Hi Hs Hm; cbn [for_ mapM].
  - cbn [bind fst sumR]. rewrite Rplus_0_r. now rewrite upd_same.
  - pose proof (one_tesseroid_var_ok lons lats rads rho ratio radial kernel i t result stk sml lon lat rad E1 E2 E3 Hi Hs Hm) as O.
    destruct (contribution_var (lon, lat, rad) ratio radial rho kernel t) as [v|e]; cbn [bind].
    + destruct O as (stk' & sml' & Hs' & Hm' & ->). cbn [bind].
      rewrite IH by (rewrite ?length_upd; auto). rewrite nth_upd_eq by assumption.
      destruct (mapM _ ts); cbn [bind]; [|reflexivity]. rewrite upd_upd. cbn [sumR]. now rewrite Rplus_assoc.
    + rewrite O. reflexivity.
Qed.

Definition point_total_var (ratio : R) (radial : bool) (rho : R -> R) (kernel : sph_kernel_t) (ts : list tess) (p : point) : res R :=
  do vs <- mapM (contribution_var p ratio radial rho kernel) ts; Ok (sumR vs).

Lemma jit_var_ok ps ts rho ratio radial kernel :
  jit_tesseroid_gravity_variable_density (map fst3 ps, map snd3 ps, map thd3 ps) ts rho (repeat 0 (length ps)) ratio radial kernel
  = mapM (point_total_var ratio radial rho kernel ts) ps.
Proof.
  unfold jit_tesseroid_gravity_variable_density. rewrite map_length.
  unfold range. rewrite Nat.sub_0_r.
  enough (K : forall todo done pre, ps = pre ++ todo -> length done = length pre ->
    for_ (seq (length pre) (length todo)) (fun i result =>
      do st <- for_ ts (one_tesseroid_variable (map fst3 ps) (map snd3 ps) (map thd3 ps) rho ratio radial kernel i)
               (result, repeat empty_row STACK_SIZE, repeat empty_row MAX_DISCRETIZATIONS);
      Ok (fst (fst st))) (done ++ repeat 0 (length todo))
    = do r <- mapM (point_total_var ratio radial rho kernel ts) todo; Ok (done ++ r)).
  { specialize (K ps [] [] eq_refl eq_refl). cbn [length app] in K. rewrite K. destruct (mapM _ ps); reflexivity. }
  induction todo as [|[[lon lat] rad] todo IH]; intros done pre Hps Hd.
  - simpl. reflexivity.
  - cbn [length seq for_ repeat mapM].
    assert (N : forall f : point -> R, nth_error (map f ps) (length pre) = Some (f (lon, lat, rad))).
    { intros f. rewrite nth_error_map, Hps, nth_error_app2 by lia. rewrite Nat.sub_diag. reflexivity. }
    rewrite (point_loop_var_ok _ _ _ _ _ _ _ _ lon lat rad (N fst3) (N snd3) (N thd3)); rewrite ?repeat_length; auto.
    2: { rewrite app_length; simpl; lia. }
    unfold point_total_var at 1.
    destruct (mapM (contribution_var (lon, lat, rad) ratio radial rho kernel) ts) as [vs|e]; cbn [bind]; [|reflexivity].
    rewrite <- Hd. rewrite nth_middle_R.
    rewrite Rplus_0_l. set (v := sumR vs). rewrite upd_middle.
    replace (S (length done)) with (length (pre ++ [(lon, lat, rad)])) by (rewrite app_length; simpl; lia).
    replace (done ++ v :: repeat 0 (length todo)) with ((done ++ [v]) ++ repeat 0 (length todo)) by (now rewrite <- app_assoc).
    rewrite IH.
    + destruct (mapM _ todo); cbn [bind]; [|reflexivity]. now rewrite <- app_assoc.
    + now rewrite <- app_assoc.
    + rewrite !app_length; simpl; lia.
Qed.

Lemma contribution_var_value field radial p rho t v : contribution_var p (distance_size_ratio field) radial rho (kernel_of field) t = Ok v ->
  In field ["potential"; "g_z"] -> box t -> exists sm, tiles sm t /\
    conv field v = sum_over (flat_map (fun x => glq_sources_of x rho) sm) (newton_field "spherical" field p).
Proof.
  unfold contribution_var. destruct (discretise _ _ _ _ _ _) as [out|] eqn:E; cbn [bind]; [|discriminate].
  intros [= <-] Hf B. exists out. split; [eapply discretise_tiles; eassumption|].
  rewrite conv_sum. rewrite sum_over_flat_map. apply sum_over_ext. intros x _.
  rewrite conv_sum. apply sum_over_ext. intros s _. now apply field_kernel.
Qed.

Lemma disc_1_tiles fuel t rho out : box t -> density_based_discretization_1 minimize fuel t rho = Ok out -> tiles out t /\ Forall box out.
Proof.
  intros B E. destruct (Rlt_dec (bottom t) (top t)) as [L|L].
  - destruct (disc_1 fuel t rho out L E) as [(l & P & Q) _]. split.
    + eapply tiles_perm; [apply Permutation_sym; exact Q|]. replace t with (layer_of t (bottom t, top t)) at 2 by (destruct t; reflexivity). now apply pile_tiles.
    + eapply Permutation_Forall; [apply Permutation_sym; exact Q|]. destruct (pile_bounds _ _ _ P) as [_ PB].
      apply Forall_forall. intros x Hx. apply in_map_iff in Hx. destruct Hx as (xy & <- & I). rewrite Forall_forall in PB. specialize (PB xy I).
      unfold box, layer_of in *. cbn. lra.
  - assert (H : bottom t = top t) by (unfold box in B; lra). unfold density_based_discretization_1 in E.
    destruct (minmax_ok rho (bottom t) (top t)) as (lo & hi & M & L1 & L2); [lra|]. rewrite M in E. cbn [bind] in E.
    replace lo with (bottom t) in E by lra. replace hi with (bottom t) in E by lra. rewrite isclose_refl in E. injection E as <-.
    split; [apply tiles_refl|]. apply Forall_cons; [exact B|apply Forall_nil].
Qed.

Lemma disc_mapM fuel rho ts : density_based_discretization minimize fuel ts rho
  = do ls <- mapM (fun t => density_based_discretization_1 minimize fuel t rho) ts; Ok (concat ls).
Proof.
  unfold density_based_discretization.
  enough (K : forall acc, for_ ts (fun t acc => do l <- density_based_discretization_1 minimize fuel t rho; Ok (acc ++ l)) acc
     = do ls <- mapM (fun t => density_based_discretization_1 minimize fuel t rho) ts; Ok (acc ++ concat ls)).
  { rewrite K. destruct (mapM _ ts); reflexivity. }
  induction ts as [|t ts IH]; intros acc; cbn [for_ mapM bind concat]; [now rewrite app_nil_r|].
  destruct (density_based_discretization_1 minimize fuel t rho) as [l|]; cbn [bind]; [|reflexivity]. rewrite IH.
  destruct (mapM _ ts); cbn [bind concat]; [|reflexivity]. now rewrite app_assoc.
Qed.

(** Collecting the tilings of the radial pieces. *)
Lemma merge_tilings field p rho radial : In field ["potential"; "g_z"] -> forall out vs,
  Forall2 (fun t v => contribution_var p (distance_size_ratio field) radial rho (kernel_of field) t = Ok v) out vs -> Forall box out ->
  exists sms, Forall2 (fun t sm => tiles sm t) out sms /\
    conv field (sumR vs) = sum_over (flat_map (fun x => glq_sources_of x rho) (concat sms)) (newton_field "spherical" field p).
Proof.
  intros Hf out vs H. induction H as [|t v out vs H1 H IH]; intros HBx.
  - exists []. split; [constructor|]. simpl. apply conv_zero.
  - inversion HBx; subst. destruct (contribution_var_value _ _ _ _ _ _ H1 Hf H3) as (sm & T & V). destruct IH as (sms & T2 & V2); [assumption|].
    exists (sm :: sms). split; [constructor; assumption|]. cbn [sumR concat]. rewrite conv_add, flat_map_app, sum_over_app, V, V2. reflexivity.
Qed.

Lemma tiles_concat t : forall out sms rest, Forall2 (fun x sm => tiles sm x) out sms -> tiles (out ++ rest) t -> tiles (concat sms ++ rest) t.
Proof.
  intros out sms rest H. revert rest. induction H as [|x sm out sms H1 H IH]; intros rest T; cbn [concat app] in *; [assumption|].
  rewrite <- app_assoc. apply tiles_perm with (concat sms ++ (sm ++ rest)).
  { rewrite !app_assoc. apply Permutation_app_tail, Permutation_app_comm. }
  apply IH. apply tiles_perm with (sm ++ (out ++ rest)).
  { rewrite !app_assoc. apply Permutation_app_tail, Permutation_app_comm. }
  eapply tiles_subst; eassumption.
Qed.

Lemma Forall2_app_inv {A B} (R : A -> B -> Prop) l1 l2 m : Forall2 R (l1 ++ l2) m -> exists m1 m2, m = m1 ++ m2 /\ Forall2 R l1 m1 /\ Forall2 R l2 m2.
Proof. intros H. apply Forall2_app_inv_l in H. destruct H as (m1 & m2 & H1 & H2 & ->). eauto. Qed.

Lemma variable_value fuel sh ps ts rho field radial a :
  prod_shape sh = length ps -> In field ["potential"; "g_z"] ->
  tesseroid_gravity_variable minimize fuel (coords_of sh ps) ts rho field radial false = Ok a ->
  exists ts', Forall2 moved ts ts' /\ forall k p, nth_error ps k = Some p -> exists smalls : list (list tess),
    Forall2 (fun t sm => tiles sm t) ts' smalls /\
    let srcs := flat_map (fun x => glq_sources_of x rho) (concat smalls) in
    nth k (data a) 0 = returned (point_gravity (coords_of [] [p]) (points_of srcs) (masses_of srcs) field "spherical").
Proof.
  intros Hsh Hf E. unfold tesseroid_gravity_variable, coords_of in E.
  assert (Mm : mem field ["potential"; "g_z"] = true) by (destruct Hf as [<-|[<-|[]]]; reflexivity).
  rewrite Mm in E. cbn [negb] in E. rewrite broadcast3_same in E by reflexivity. cbn [bind] in E. unfold ravel in E; cbn [data] in E. rewrite triples_coords in E.
  destruct (check_tesseroids_R ts) as [ts'|] eqn:C; cbn [bind] in E; [|discriminate].
  destruct (check_points_outside_tesseroids ps ts') as [u|]; cbn [bind] in E; [|discriminate].
  apply check_tesseroids_ok in C. destruct C as (Bd & M & W). exists ts'. split; [assumption|].
  assert (F : Forall box ts').
  { clear -M W Bd. induction M as [|t t' l l' M1 M IH]; [apply Forall_nil|]. inversion W; inversion Bd; subst. apply Forall_cons; [|auto].
    unfold width_ok, bounds_ok, box in *. destruct M1 as [[_ ->]|(_ & _ & _ & _ & _ & -> & -> & -> & ->)]; lra. }
  rewrite disc_mapM in E. destruct (mapM _ ts') as [ls|] eqn:D; cbn [bind] in E; [|discriminate]. apply mapM_ok in D.
  assert (DT : Forall2 (fun t l => tiles l t /\ Forall box l) ts' ls).
  { clear -D F HB. induction D; [constructor|]. inversion F; subst. constructor; [|auto]. eapply disc_1_tiles; eassumption. }
  assert (J : exists r, mapM (point_total_var (distance_size_ratio field) radial rho (kernel_of field) (concat ls)) ps = Ok r /\ a = Arr sh (map (conv field) r)).
  { cbn [shape] in E. rewrite Hsh in E. fold (kernel_of field) in E.
    assert (X : (do result <- mapM (point_total_var (distance_size_ratio field) radial rho (kernel_of field) (concat ls)) ps;
                Ok (Arr sh (if String.eqb field "g_z" then map (Rmult (10 ^ 5)) (if String.eqb field "g_z" then map (Rmult (-1)) result else result) else (if String.eqb field "g_z" then map (Rmult (-1)) result else result)))) = Ok a).
    { destruct (concat ls) as [|y ys] eqn:Q.
      - destruct ps as [|p0 ps]; [|discriminate]. cbn [map length repeat] in E. rewrite <- E. reflexivity.
      - rewrite <- E. rewrite <- jit_var_ok. reflexivity. }
    destruct (mapM _ ps) as [r|]; cbn [bind] in X; [|discriminate]. exists r. split; [reflexivity|]. injection X as <-. f_equal.
    destruct Hf as [<-|[<-|[]]]; cbn [String.eqb Ascii.eqb Bool.eqb].
    - unfold conv; cbn. now rewrite map_id.
    - rewrite map_map. apply map_ext. intros x. unfold conv. cbn. reflexivity. }
  destruct J as (r & J & ->). apply mapM_ok in J. intros k p Hk. cbn [data].
  assert (V : exists v, point_total_var (distance_size_ratio field) radial rho (kernel_of field) (concat ls) p = Ok v /\ nth k (map (conv field) r) 0 = conv field v).
  { clear -J Hk. revert k Hk. induction J; intros [|k] Hk; try discriminate; cbn in *.
    - injection Hk as <-. eauto.
    - eauto. }
  destruct V as (v & V & ->). unfold point_total_var in V. destruct (mapM _ (concat ls)) as [vs|] eqn:MV; cbn [bind] in V; [|discriminate]. injection V as <-.
  apply mapM_ok in MV.
  assert (BL : Forall box (concat ls)). { clear -DT. induction DT as [|? ? ? ? [_ H]]; [apply Forall_nil|]. cbn [concat]. apply Forall_app. auto. }
  destruct (merge_tilings field p rho radial Hf _ _ MV BL) as (sms & TS & VS).
  assert (G : exists groups, concat groups = concat sms /\ Forall2 (fun t sm => tiles sm t) ts' groups).
  { clear -DT TS. revert sms TS. induction DT as [|t l ts' ls [T _] DT IH]; intros sms TS.
    - inversion TS; subst. exists []. split; [reflexivity|constructor].
    - cbn [concat] in TS. apply Forall2_app_inv in TS. destruct TS as (m1 & m2 & -> & T1 & T2). destruct (IH m2 T2) as (g & G1 & G2).
      exists (concat m1 :: g). cbn [concat]. rewrite G1, concat_app. split; [reflexivity|]. constructor; [|assumption].
      pose proof (tiles_concat t l m1 [] T1) as K. rewrite !app_nil_r in K. auto. }
  destruct G as (groups & G1 & G2). exists groups. split; [assumption|]. cbv zeta. rewrite G1, VS.
  rewrite point_gravity_newton; [|reflexivity|right; split; [reflexivity|]; exact Hf].
  unfold returned. cbn [data map nth]. reflexivity.
Qed.
End WithSearch.

(** ** Searches that meet the assumptions *)
Definition midpoint_search (f : R -> R) (b t : R) : R * R := ((b + t) / 2, f ((b + t) / 2)).
Lemma midpoint_ok : bounded_search midpoint_search.
Proof. intros f b t. cbn. repeat split; intros; lra. Qed.

Definition cand (f : R -> R) (b t x : R) : Prop := x = b \/ (b < x < t /\ forall q, b <= q <= t -> f x <= f q).
Lemma cand_bound f b t : bound (cand f b t).
Proof. exists (Rmax b t). intros x [-> |[H _]]; [apply Rmax_l|]. eapply Rle_trans; [|apply Rmax_r]. lra. Qed.
Lemma cand_ex f b t : exists x, cand f b t x.
Proof. exists b. now left. Qed.
Definition best (f : R -> R) (b t : R) : R := proj1_sig (completeness (cand f b t) (cand_bound f b t) (cand_ex f b t)).
Definition ideal_x (f : R -> R) (b t : R) : R := if Rlt_dec b (best f b t) then if Rlt_dec (best f b t) t then best f b t else (b + t) / 2 else (b + t) / 2.
Definition ideal_search (f : R -> R) (b t : R) : R * R := (ideal_x f b t, f (ideal_x f b t)).

Lemma ideal_ok : bounded_search ideal_search.
Proof.
  intros f b t. unfold ideal_search, ideal_x. cbn [fst snd].
  destruct (Rlt_dec b (best f b t)); [destruct (Rlt_dec (best f b t) t)|]; repeat split; intros; lra.
Qed.

Lemma ideal_finds : finds_minima ideal_search.
Proof.
  intros f b t Hbt HC Hfb Hft r Hr. unfold ideal_search. cbn [fst].
  destruct (continuity_ab_min f b t) as (mx & Hmin & Hmx); [lra|intros; now apply HC|].
  assert (HI : b <= ideal_x f b t <= t). { destruct (ideal_ok f b t) as [K _]. specialize (K Hbt). cbn in K. lra. }
  destruct (Req_dec (f mx) 0) as [Z|NZ].
  { pose proof (Hmin r Hr). destruct (HC _ HI). lra. }
  assert (Hneg : f mx < 0) by (destruct (HC mx Hmx); lra).
  assert (Hin : b < mx < t). { destruct (Req_dec mx b) as [-> |]; [lra|]. destruct (Req_dec mx t) as [-> |]; [lra|]. lra. }
  pose proof (proj2_sig (completeness (cand f b t) (cand_bound f b t) (cand_ex f b t))) as [U L]. fold (best f b t) in U, L.
  set (s := best f b t) in *.
  assert (S1 : mx <= s) by (apply U; right; auto).
  assert (S2 : s <= t). { apply L. intros x [-> |[H _]]; lra. }
  assert (S3 : f s <= f mx).
  { apply Rnot_lt_le. intros Hlt. destruct (HC s) as [Cs _]; [lra|].
    destruct (Cs (f s - f mx)) as (al & Hal & Hcl); [lra|].
    set (e := Rmin al (s - b)). assert (He : 0 < e) by (unfold e; apply Rmin_pos; lra).
    assert (X : exists x, cand f b t x /\ s - e < x).
    { apply Classical_Prop.NNPP. intros N. assert (K : s <= s - e); [|lra]. apply L. intros x Hx. apply Rnot_lt_le. intros Q. apply N. eauto. }
    destruct X as (x & Hx & Hxs). assert (x <= s) by (apply U; exact Hx).
    assert (e <= al) by apply Rmin_l. assert (e <= s - b) by apply Rmin_r.
    destruct Hx as [-> |[Hx Hxm]]; [lra|]. specialize (Hxm mx ltac:(lra)).
    destruct (Req_dec x s) as [-> |Ns]; [lra|].
    specialize (Hcl x). unfold D_x, no_cond, R_dist in Hcl. cbn in Hcl. unfold R_dist in Hcl.
    assert (K : Rabs (f x - f s) < f s - f mx). { apply Hcl. split; [split; auto|]. rewrite Rabs_left by lra. lra. }
    rewrite Rabs_left in K by lra. lra. }
  assert (S4 : s < t). { destruct (Req_dec s t) as [E|]; [|lra]. rewrite E in S3. lra. }
  unfold ideal_x. fold s. destruct (Rlt_dec b s); [|lra]. destruct (Rlt_dec s t); [|lra]. pose proof (Hmin r Hr). lra.
Qed.

(** ** A tesseroid without thickness *)
Definition flat_t : tess := Tess 0 1 0 1 2 2.
Lemma discretise_flat p t ratio cs cm radial : (0 < cs)%nat -> top t = bottom t -> discretise p t ratio cs cm radial = Raise ZeroDivisionError.
Proof.
  intros Hc H. unfold discretise. destruct (cs + 2 * cm)%nat eqn:E; [lia|]. cbn [abs_loop]. unfold abs_step, tesseroid_dimensions, ndiv.
  replace (top t - bottom t) with 0 by (rewrite H; ring). cbv beta iota zeta.
  match goal with |- context[Reqb ?a 0] => destruct (Reqb a 0) end; [reflexivity|]. cbn [bind].
  match goal with |- context[Reqb ?a 0] => destruct (Reqb a 0) end; [reflexivity|]. cbn [bind].
  destruct (Reqb_spec 0 0) as [_|N]; [reflexivity|]. now contradiction N.
Qed.

Lemma flat_checks : checks false [ex_p] [flat_t] = Ok [flat_t].
Proof.
  apply checks_ok. split; [constructor; [unfold bounds_ok, flat_t; cbn; lra|constructor]|].
  split; [constructor; [left; split; [unfold flat_t; cbn; lra|reflexivity]|constructor]|].
  split; [constructor; [unfold width_ok, flat_t; cbn; lra|constructor]|].
  intros p t [<-|[]] [<-|[]]. unfold inside, ex_p, flat_t; cbn. lra.
Qed.

Lemma flat_function minimize fuel c radial : bounded_search minimize ->
  tesseroid_gravity_variable minimize fuel (coords_of [] [ex_p]) [flat_t] (fun _ => c) "g_z" radial false = Raise ZeroDivisionError.
Proof.
  intros HB. pose proof flat_checks as C. unfold checks in C. unfold tesseroid_gravity_variable, coords_of. cbn [mem existsb].
  rewrite String.eqb_refl, orb_true_r. cbn [negb]. rewrite broadcast3_same by reflexivity. cbn [bind].
  unfold ravel; cbn [data]. rewrite triples_coords. rewrite C. cbn [bind].
  rewrite disc_const; [|assumption|constructor; [cbn; lra|constructor]]. cbn [bind map].
  change (jit_tesseroid_gravity_variable_density ([fst3 ex_p], [snd3 ex_p], [thd3 ex_p])) with (jit_tesseroid_gravity_variable_density (map fst3 [ex_p], map snd3 [ex_p], map thd3 [ex_p])).
  change (repeat 0 (prod_shape (shape {| shape := []; data := [thd3 ex_p] |}))) with (repeat 0 (length [ex_p])).
  rewrite jit_var_ok. cbn [mapM]. unfold point_total_var, contribution_var. cbn [mapM]. rewrite discretise_flat; [reflexivity|apply STACK_SIZE_pos|reflexivity].
Qed.

Lemma flat_constant c radial : exists a, tesseroid_gravity (coords_of [] [ex_p]) [flat_t] (arr1 [c]) "g_z" radial false = Ok a.
Proof.
  eexists. apply tesseroid_gravity_value; [reflexivity|cbn; auto|reflexivity|]. exists [flat_t]. split; [apply flat_checks|]. split; [|reflexivity].
  intros p [<-|[]]. constructor; [|constructor]. intros N. exfalso. assert (K : is_null flat_t c = true) by (apply is_null_spec; right; right; left; reflexivity). cbn [fst snd] in N. congruence.
Qed.
