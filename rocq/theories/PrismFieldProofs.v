From Coq Require Import Permutation.
From Coquelicot Require Import Coquelicot.
From Verif Require Import Base BaseFacts NumPy NumPyFacts DistanceModel DistanceSpec PointGravityModel PointGravitySpec PointGravityProofs PrismModel PrismSpec PrismProofs MagneticProofs.
Local Open Scope string_scope. Local Open Scope list_scope. Local Open Scope R_scope.

Lemma gravity_rejects choclo c prisms density field : ~ Forall valid_prism prisms -> forall r, prism_gravity choclo c prisms density field false <> Ok r.
Proof.
  intros V r. destruct c as [[c0 c1] c2]. unfold prism_gravity. destruct (lookup field FIELDS); [|discriminate].
  destruct (broadcast3 c0 c1 c2); cbn [bind]; [|discriminate]. destruct (negb _); cbn [bind]; [discriminate|]. rewrite check_prisms_reject by assumption. discriminate.
Qed.
Lemma gravity_rejects_valueerror choclo sh ps pds field component factor : prod_shape sh = length ps -> In (field, (component, factor)) prism_fields -> ~ Forall valid_prism (map fst pds) ->
  prism_gravity choclo (coords_of sh ps) (map fst pds) (arr1 (map snd pds)) field false = Raise ValueError.
Proof. intros H F V. rewrite (prism_gravity_eq _ _ _ _ _ component factor) by assumption. rewrite check_prisms_reject by assumption. reflexivity. Qed.
Lemma magnetic_rejects k c prisms mags field : ~ Forall valid_prism prisms -> forall r, prism_magnetic k c prisms mags field false <> Ok r.
Proof.
  intros V r. destruct c as [[c0 c1] c2]. unfold prism_magnetic. destruct (negb (mem _ _)); [discriminate|].
  destruct (broadcast3 c0 c1 c2); cbn [bind]; [|discriminate].
  repeat (destruct (negb _); cbn [bind]; [discriminate|]). rewrite check_prisms_reject by assumption. discriminate.
Qed.
Lemma gravity_length_checked choclo c prisms density field r disable : length (data density) <> length prisms -> prism_gravity choclo c prisms density field disable <> Ok r.
Proof.
  intros L. destruct c as [[c0 c1] c2]. unfold prism_gravity. destruct (lookup field FIELDS); [|discriminate].
  destruct (broadcast3 c0 c1 c2); cbn [bind]; [|discriminate]. unfold ravel. destruct disable; cbn [bind].
  - rewrite discard_mismatch by exact L. discriminate.
  - destruct (Nat.eqb_spec (length (data density)) (length prisms)); [contradiction|]. cbn [negb bind]. discriminate.
Qed.


Lemma gravity_runs choclo sh ps pds field component factor disable :
  prod_shape sh = length ps -> In (field, (component, factor)) prism_fields -> checks_pass disable (map fst pds) ->
  exists w, prism_gravity choclo (coords_of sh ps) (map fst pds) (arr1 (map snd pds)) field disable
    = Ok (Arr sh (map (fun p => sum_over (kept pds) (fun pd => factor * one_prism choclo component p pd)) ps), w)
  /\ (w = true <-> disable = false /\ exists p pr, In p ps /\ In pr (map fst pds) /\ singular field p pr).
Proof.
  intros H F V. rewrite (prism_gravity_eq _ _ _ _ _ component factor) by assumption. destruct disable.
  - exists false. split; [reflexivity|]. intuition discriminate.
  - destruct V as [V|V]; [discriminate|]. destruct (warns_spec ps (map fst pds) field V) as (w & E & W). exists w.
    replace (check_prisms_R (map fst pds)) with (@Ok unit tt) by (symmetry; now apply check_prisms_ok). cbn [bind]. rewrite E. split; [reflexivity|]. rewrite W. tauto.
Qed.

Lemma kept_filter g pds : (forall pd : prism * R, g pd = true <-> volume (fst pd) <> 0 /\ snd pd <> 0) -> kept pds = filter g pds.
Proof.
  intros H. unfold kept. apply filter_ext. intros pd. apply eq_true_iff_eq. rewrite H, negb_true_iff.
  rewrite <- not_true_iff_false, is_null_spec. tauto.
Qed.

Lemma gravity_over_all choclo sh ps pds field component factor disable :
  prod_shape sh = length ps -> In (field, (component, factor)) prism_fields -> checks_pass disable (map fst pds) ->
  linear_kernel (choclo component) -> zero_without_volume (choclo component) ->
  exists w, prism_gravity choclo (coords_of sh ps) (map fst pds) (arr1 (map snd pds)) field disable
    = Ok (Arr sh (map (fun p => sum_over pds (fun pd => factor * one_prism choclo component p pd)) ps), w).
Proof.
  intros H F V L Z. destruct (gravity_runs choclo sh ps pds field component factor disable H F V) as (w & E & _). exists w. rewrite E. f_equal. f_equal. f_equal.
  apply map_ext. intros p. rewrite !sum_over_scal. f_equal. apply (sum_kept_all _ (fst3 p) (snd3 p) (thd3 p)); assumption.
Qed.

Lemma nth_map0 {A} (f : A -> R) l k d : (k < length l)%nat -> nth k (map f l) 0 = f (nth k l d).
Proof. intros H. rewrite (nth_indep _ 0 (f d)) by (now rewrite map_length). apply map_nth. Qed.

Lemma gravity_union choclo sh ps pds1 pds2 field component factor disable :
  prod_shape sh = length ps -> In (field, (component, factor)) prism_fields -> checks_pass disable (map fst (pds1 ++ pds2)) ->
  exists d1 d2 d w1 w2 w,
    prism_gravity choclo (coords_of sh ps) (map fst pds1) (arr1 (map snd pds1)) field disable = Ok (Arr sh d1, w1) /\
    prism_gravity choclo (coords_of sh ps) (map fst pds2) (arr1 (map snd pds2)) field disable = Ok (Arr sh d2, w2) /\
    prism_gravity choclo (coords_of sh ps) (map fst (pds1 ++ pds2)) (arr1 (map snd (pds1 ++ pds2))) field disable = Ok (Arr sh d, w) /\
    length d = length ps /\ w = (w1 || w2)%bool /\ forall k, nth k d 0 = nth k d1 0 + nth k d2 0.
Proof.
  intros H F V.
  assert (V1 : checks_pass disable (map fst pds1) /\ checks_pass disable (map fst pds2)).
  { unfold checks_pass in *. rewrite map_app, Forall_app in V. tauto. }
  destruct V1 as [V1 V2].
  destruct (gravity_runs choclo sh ps pds1 field component factor disable H F V1) as (w1 & E1 & W1).
  destruct (gravity_runs choclo sh ps pds2 field component factor disable H F V2) as (w2 & E2 & W2).
  destruct (gravity_runs choclo sh ps (pds1 ++ pds2) field component factor disable H F V) as (w & E & W).
  do 6 eexists. split; [exact E1|]. split; [exact E2|]. split; [exact E|]. split; [apply map_length|]. split.
  - apply eq_true_iff_eq. rewrite orb_true_iff, W1, W2, W, map_app. split.
    + intros (D & p & pr & Hp & Hpr & S). apply in_app_or in Hpr. destruct Hpr; [left|right]; (split; [assumption|exists p, pr; auto]).
    + intros [(D & p & pr & Hp & Hpr & S)|(D & p & pr & Hp & Hpr & S)]; (split; [assumption|]); exists p, pr; rewrite in_app_iff; auto.
  - intros k. destruct (Nat.lt_ge_cases k (length ps)) as [L|L].
    + rewrite !(nth_map0 _ ps k p0) by assumption. rewrite kept_app. apply sum_over_app.
    + rewrite !nth_overflow by (rewrite map_length; assumption). lra.
Qed.

Lemma gravity_order choclo sh ps pds1 pds2 field component factor disable :
  prod_shape sh = length ps -> In (field, (component, factor)) prism_fields -> checks_pass disable (map fst pds1) -> Permutation pds1 pds2 ->
  exists r, prism_gravity choclo (coords_of sh ps) (map fst pds1) (arr1 (map snd pds1)) field disable = Ok r /\
            prism_gravity choclo (coords_of sh ps) (map fst pds2) (arr1 (map snd pds2)) field disable = Ok r.
Proof.
  intros H F V P. pose proof (Permutation_map fst P) as PF.
  assert (V2 : checks_pass disable (map fst pds2)) by (destruct V as [V|V]; [now left|right; eapply Permutation_Forall; eassumption]).
  destruct (gravity_runs choclo sh ps pds1 field component factor disable H F V) as (w1 & E1 & W1).
  destruct (gravity_runs choclo sh ps pds2 field component factor disable H F V2) as (w2 & E2 & W2).
  rewrite E1, E2. eexists. split; [reflexivity|]. f_equal. f_equal.
  - f_equal. apply map_ext. intros p. symmetry. apply sum_over_perm, kept_perm, P.
  - symmetry. apply eq_true_iff_eq. rewrite W1, W2. split; intros (D & p & pr & Hp & Hpr & S); (split; [assumption|]); exists p, pr; (split; [assumption|]); (split; [|assumption]);
    first [exact (Permutation_in _ PF Hpr) | exact (Permutation_in _ (Permutation_sym PF) Hpr)].
Qed.

Lemma map_fst_combine {A B} (l : list A) : forall (l' : list B), length l' = length l -> map fst (combine l l') = l.
Proof. induction l as [|x l IH]; intros [|y l'] H; try discriminate; [reflexivity|]. simpl. f_equal. apply IH. now injection H. Qed.
Lemma map_snd_combine {A B} (l : list A) : forall (l' : list B), length l' = length l -> map snd (combine l l') = l'.
Proof. induction l as [|x l IH]; intros [|y l'] H; try discriminate; [reflexivity|]. simpl. f_equal. apply IH. now injection H. Qed.

Lemma gravity_linear choclo sh ps (prs : list prism) d1 d2 a b field component factor disable :
  prod_shape sh = length ps -> In (field, (component, factor)) prism_fields -> checks_pass disable prs -> linear_kernel (choclo component) ->
  length d1 = length prs -> length d2 = length prs ->
  exists r1 r2 r w,
    prism_gravity choclo (coords_of sh ps) prs (arr1 d1) field disable = Ok (Arr sh r1, w) /\
    prism_gravity choclo (coords_of sh ps) prs (arr1 d2) field disable = Ok (Arr sh r2, w) /\
    prism_gravity choclo (coords_of sh ps) prs (arr1 (map (fun xy => a * fst xy + b * snd xy) (combine d1 d2))) field disable = Ok (Arr sh r, w) /\
    forall k, nth k r 0 = a * nth k r1 0 + b * nth k r2 0.
Proof.
  intros H F V L L1 L2. set (d := map _ (combine d1 d2)).
  assert (Ld : length d = length prs) by (unfold d; rewrite map_length, combine_length; lia).
  assert (X : forall d, length d = length prs -> exists w, prism_gravity choclo (coords_of sh ps) prs (arr1 d) field disable
     = Ok (Arr sh (map (fun p => sum_over (kept (combine prs d)) (fun pd => factor * one_prism choclo component p pd)) ps), w)
    /\ (w = true <-> disable = false /\ exists p pr, In p ps /\ In pr prs /\ singular field p pr)).
  { intros d' Ld'. pose proof (gravity_runs choclo sh ps (combine prs d') field component factor disable H F) as G.
    rewrite map_fst_combine, map_snd_combine in G by assumption. apply G, V. }
  destruct (X d1 L1) as (w1 & E1 & W1), (X d2 L2) as (w2 & E2 & W2), (X d Ld) as (w & E & W).
  assert (w1 = w) as -> by (apply eq_true_iff_eq; rewrite W1, W; tauto). assert (w2 = w) as -> by (apply eq_true_iff_eq; rewrite W2, W; tauto).
  do 4 eexists. split; [exact E1|]. split; [exact E2|]. split; [exact E|]. intros k. destruct (Nat.lt_ge_cases k (length ps)) as [K|K].
  - rewrite !(nth_map0 _ ps k p0) by assumption. rewrite !sum_over_scal. unfold one_prism, d. rewrite linear_sums by assumption. ring.
  - rewrite !nth_overflow by (rewrite map_length; assumption). lra.
Qed.

Lemma vertex_cut f a x e n u pr d : vertex_kernel f e n u (fst (cut a x pr)) d + vertex_kernel f e n u (snd (cut a x pr)) d = vertex_kernel f e n u pr d.
Proof. destruct pr, a; unfold vertex_kernel; cbn; ring. Qed.

Lemma gravity_cut choclo sh ps pre post pr d a x field component factor f :
  prod_shape sh = length ps -> In (field, (component, factor)) prism_fields -> choclo component = vertex_kernel f ->
  Forall valid_prism (map fst pre ++ pr :: map fst post) -> inside_cut a x pr ->
  exists r w w', prism_gravity choclo (coords_of sh ps) (map fst pre ++ pr :: map fst post) (arr1 (map snd pre ++ d :: map snd post)) field false = Ok (r, w) /\
    prism_gravity choclo (coords_of sh ps) (map fst pre ++ fst (cut a x pr) :: snd (cut a x pr) :: map fst post) (arr1 (map snd pre ++ d :: d :: map snd post)) field false = Ok (r, w').
Proof.
  intros H F K V I.
  pose proof (gravity_over_all choclo sh ps (pre ++ (pr, d) :: post) field component factor false H F) as G1.
  pose proof (gravity_over_all choclo sh ps (pre ++ (fst (cut a x pr), d) :: (snd (cut a x pr), d) :: post) field component factor false H F) as G2.
  rewrite !map_app in G1, G2. cbn [map fst snd] in G1, G2. rewrite !K in G1, G2.
  assert (V2 : Forall valid_prism (map fst pre ++ fst (cut a x pr) :: snd (cut a x pr) :: map fst post)).
  { rewrite Forall_app in *. destruct V as [V1 V2]. split; [assumption|]. inversion V2 as [|? ? V3 V4]; subst. destruct pr as [w e s n b t], a; unfold valid_prism in *; cbn in *;
    (constructor; [cbn; lra|constructor; [cbn; lra|assumption]]). }
  destruct (G1 (or_intror V) (vertex_linear f) (vertex_no_volume f)) as [w1 E1]. destruct (G2 (or_intror V2) (vertex_linear f) (vertex_no_volume f)) as [w2 E2].
  exists (Arr sh (map (fun p => sum_over (pre ++ (pr, d) :: post) (fun pd => factor * one_prism choclo component p pd)) ps)), w1, w2.
  split; [exact E1|]. etransitivity; [exact E2|]. f_equal. f_equal. f_equal. apply map_ext. intros p. rewrite !sum_over_app, !sum_over_cons. unfold one_prism. cbn [fst snd]. rewrite K.
  rewrite <- (vertex_cut f a x _ _ _ pr d). ring.
Qed.

(** ** Magnetic *)
Lemma magnetic_zero {S} (k : R -> R -> R -> S -> R -> R -> R -> R) p s : linear_magnetic k -> one_magnetic k p (s, v0) = 0.
Proof.
  intros H. pose proof (H p s 0 0 v0 v0) as E. replace (vadd (vscale 0 v0) (vscale 0 v0)) with v0 in E by (unfold v0, vadd, vscale; cbn; f_equal; ring). rewrite E. ring.
Qed.
Definition mag_volume (pm : prism * vec3) : bool := negb (no_volume (fst pm)).
Lemma mag_kept_sum k p pms : linear_magnetic k -> sum_over (mag_kept pms) (one_magnetic k p) = sum_over (filter mag_volume pms) (one_magnetic k p).
Proof.
  intros H. induction pms as [|[pr m] l IH]; [reflexivity|]. cbn [mag_kept filter]. fold (mag_kept l). change (mag_volume (pr, m)) with (negb (no_volume pr)).
  unfold mag_null. cbn [fst snd]. destruct (no_volume pr); cbn [orb negb]; [exact IH|].
  match goal with |- context[negb ?b] => destruct b eqn:E end; cbn [negb]; rewrite !sum_over_cons, IH; [|reflexivity].
  rewrite !andb_true_iff, !Reqb_true in E. destruct m as [x y z]; cbn in E. destruct E as [[-> ->] ->]. fold v0. rewrite magnetic_zero by assumption. lra.
Qed.

Lemma magnetic_linear_sums k p a b (prs : list prism) : linear_magnetic k -> forall m1 m2, length m1 = length prs -> length m2 = length prs ->
  sum_over (mag_kept (combine prs (vcomb a b m1 m2))) (one_magnetic k p)
  = a * sum_over (mag_kept (combine prs m1)) (one_magnetic k p) + b * sum_over (mag_kept (combine prs m2)) (one_magnetic k p).
Proof.
  intros H m1 m2 L1 L2. rewrite !mag_kept_sum by assumption. revert m1 m2 L1 L2. induction prs as [|pr prs IH]; intros [|x m1] [|y m2] L1 L2; try discriminate.
  - unfold sum_over; simpl; ring.
  - unfold vcomb. cbn [combine map filter fst snd]. fold (vcomb a b m1 m2). 
    change (mag_volume (pr, vadd (vscale a x) (vscale b y))) with (negb (no_volume pr)). change (mag_volume (pr, x)) with (negb (no_volume pr)). change (mag_volume (pr, y)) with (negb (no_volume pr)).
    injection L1 as L1. injection L2 as L2. specialize (IH m1 m2 L1 L2).
    destruct (no_volume pr); cbn [negb]; [exact IH|]. rewrite !sum_over_cons. rewrite H.
    rewrite IH. ring.
Qed.

Lemma magnetic_linear k c sh ps (prs : list prism) m1 m2 a b disable :
  prod_shape sh = length ps -> checks_pass disable prs -> linear_magnetic (axis_kernel k c) -> length m1 = length prs -> length m2 = length prs ->
  exists r1 r2 r,
    prism_magnetic k (coords_of sh ps) prs (moments_of m1) (b_name c) disable = Ok [Arr sh r1] /\
    prism_magnetic k (coords_of sh ps) prs (moments_of m2) (b_name c) disable = Ok [Arr sh r2] /\
    prism_magnetic k (coords_of sh ps) prs (moments_of (vcomb a b m1 m2)) (b_name c) disable = Ok [Arr sh r] /\
    forall i, nth i r 0 = a * nth i r1 0 + b * nth i r2 0.
Proof.
  intros H V L L1 L2. assert (Ld : length (vcomb a b m1 m2) = length prs) by (unfold vcomb; rewrite map_length, combine_length; lia).
  assert (X : forall m, length m = length prs -> prism_magnetic k (coords_of sh ps) prs (moments_of m) (b_name c) disable
    = Ok [Arr sh (map (fun p => sum_over (mag_kept (combine prs m)) (fun pm => nano * one_magnetic (axis_kernel k c) p pm)) ps)]).
  { intros m Lm. pose proof (prism_magnetic_value k c sh ps (combine prs m) disable H) as G. rewrite map_fst_combine, map_snd_combine in G by assumption. rewrite G.
    destruct V as [-> |V]; [reflexivity|]. destruct disable; [reflexivity|]. apply check_prisms_ok in V. rewrite V. reflexivity. }
  do 3 eexists. split; [apply X, L1|]. split; [apply X, L2|]. split; [apply X, Ld|]. intros i. destruct (Nat.lt_ge_cases i (length ps)) as [K|K].
  - rewrite !(nth_map0 _ ps i p0) by assumption. rewrite !sum_over_scal. rewrite magnetic_linear_sums by assumption. ring.
  - rewrite !nth_overflow by (rewrite map_length; assumption). lra.
Qed.

Lemma dipole_linear mu0 c : linear_magnetic (axis_kernel (dipole_kernels mu0) c).
Proof.
  intros p s a b m1 m2. destruct s as [[ep np] up], c; unfold one_magnetic, axis_kernel, dipole_kernels, magnetic_e, magnetic_n, magnetic_u, dipole_component; cbn [fst snd]; unfold vadd, vscale; cbn [vx vy vz];
  set (D := choclo_dist _ _ _ _ _ _); unfold Rdiv; eqR; ring.
Qed.
Lemma combine_sum {S} (k : R -> R -> R -> S -> R -> R -> R -> R) p a b (ss : list S) : linear_magnetic k -> forall m1 m2, length m1 = length ss -> length m2 = length ss ->
  sum_over (combine ss (vcomb a b m1 m2)) (one_magnetic k p) = a * sum_over (combine ss m1) (one_magnetic k p) + b * sum_over (combine ss m2) (one_magnetic k p).
Proof.
  intros H. induction ss as [|s ss IH]; intros [|x m1] [|y m2] L1 L2; try discriminate.
  - unfold sum_over; simpl; ring.
  - unfold vcomb. cbn [combine map fst snd]. fold (vcomb a b m1 m2). injection L1 as L1. injection L2 as L2. rewrite !sum_over_cons, H, (IH m1 m2 L1 L2). ring.
Qed.
Lemma dipole_magnetic_linear mu0 c sh ps (qs : list point) m1 m2 a b disable :
  prod_shape sh = length ps -> length m1 = length qs -> length m2 = length qs ->
  exists r1 r2 r,
    dipole_magnetic mu0 (coords_of sh ps) (coords_of [length qs] qs) (moments_of m1) (b_name c) disable = Ok [Arr sh r1] /\
    dipole_magnetic mu0 (coords_of sh ps) (coords_of [length qs] qs) (moments_of m2) (b_name c) disable = Ok [Arr sh r2] /\
    dipole_magnetic mu0 (coords_of sh ps) (coords_of [length qs] qs) (moments_of (vcomb a b m1 m2)) (b_name c) disable = Ok [Arr sh r] /\
    forall i, nth i r 0 = a * nth i r1 0 + b * nth i r2 0.
Proof.
  intros H L1 L2. assert (Ld : length (vcomb a b m1 m2) = length qs) by (unfold vcomb; rewrite map_length, combine_length; lia).
  assert (X : forall m, length m = length qs -> dipole_magnetic mu0 (coords_of sh ps) (coords_of [length qs] qs) (moments_of m) (b_name c) disable
    = Ok [Arr sh (map (fun p => sum_over (combine qs m) (fun pm => nano * one_magnetic (axis_kernel (dipole_kernels mu0) c) p pm)) ps)]).
  { intros m Lm. pose proof (dipole_magnetic_value mu0 c sh ps (combine qs m) disable H) as G. rewrite map_fst_combine, map_snd_combine in G by assumption.
    rewrite combine_length, Lm, Nat.min_id in G. exact G. }
  do 3 eexists. split; [apply X, L1|]. split; [apply X, L2|]. split; [apply X, Ld|]. intros i. destruct (Nat.lt_ge_cases i (length ps)) as [K|K].
  - rewrite !(nth_map0 _ ps i p0) by assumption. rewrite !sum_over_scal. pose proof (combine_sum _ (nth i ps p0) a b qs (dipole_linear mu0 c) m1 m2 L1 L2) as Q. etransitivity; [apply (f_equal (Rmult nano)); exact Q|]. unfold point. ring.
  - rewrite !nth_overflow by (rewrite map_length; assumption). lra.
Qed.


Lemma dipole_magnetic_physical mu0 c sh ps (dms : list (point * vec3)) disable :
  prod_shape sh = length ps -> (forall p, In p ps -> off_dipoles p dms) ->
  dipole_magnetic mu0 (coords_of sh ps) (coords_of [length dms] (map fst dms)) (moments_of (map snd dms)) (b_name c) disable
  = Ok [Arr sh (map (fun p => sum_over dms (fun dm => nano * comp c (dipole_field mu0 (cart_position p) (cart_position (fst dm)) (snd dm)))) ps)].
Proof.
  intros H O. rewrite dipole_magnetic_value by assumption. f_equal. f_equal. f_equal. apply map_ext_in. intros p Hp. apply sum_over_ext. intros dm Hd.
  rewrite dipole_component_field; [reflexivity|]. now apply O.
Qed.

Lemma dipole_call_value mu0 dms c p : dipole_call mu0 dms (b_name c) p = nano * sum_over dms (one_magnetic (axis_kernel (dipole_kernels mu0) c) p).
Proof. unfold dipole_call. rewrite dipole_magnetic_value by reflexivity. cbn [returned1 data map nth]. apply sum_over_scal. Qed.

(** moving an observation point a little keeps it off the dipoles *)
Lemma shift_continuous_off mu0 dms a c p : off_dipoles p dms ->
  locally 0 (fun t => sum_over dms (one_magnetic (axis_kernel (dipole_kernels mu0) c) (shift a t p))
                      = sum_over dms (fun dm => dot (dipole_field mu0 (vadd (cart_position p) (vscale t (unit_vector a))) (cart_position (fst dm)) (snd dm)) (unit_vector c))).
Proof.
  intros O.
  assert (L : locally 0 (fun t => forall dm, In dm dms -> cart_position (shift a t p) <> cart_position (fst dm))).
  { induction dms as [|dm dms IH]; [exists (mkposreal 1 Rlt_0_1); intros ? _ ? []|].
    assert (L1 : locally 0 (fun t => forall dm, In dm dms -> cart_position (shift a t p) <> cart_position (fst dm))) by (apply IH; intros q Hq; apply O; now right).
    assert (L2 : locally 0 (fun t => cart_position (shift a t p) <> cart_position (fst dm))).
    { pose proof (is_derive_eucl (cart_position p) (cart_position (fst dm)) (unit_vector a) (O dm (or_introl eq_refl))) as D.
      assert (C : continuous (fun t => eucl (vadd (cart_position p) (vscale t (unit_vector a))) (cart_position (fst dm))) 0) by (apply (ex_derive_continuous (K := R_AbsRing) (V := R_NormedModule)); eexists; exact D).
      pose proof (eucl_pos _ _ (O dm (or_introl eq_refl))) as Hp.
      assert (P : locally (eucl (vadd (cart_position p) (vscale 0 (unit_vector a))) (cart_position (fst dm))) (fun y => 0 < y)).
      { rewrite eucl_shift_0. apply (open_gt 0). exact Hp. }
      specialize (C _ P). unfold filtermap in C. eapply filter_imp; [|exact C]. cbn beta. intros t Ht E. rewrite shift_dir in E. rewrite E in Ht.
      assert (Z : eucl (cart_position (fst dm)) (cart_position (fst dm)) = 0) by (unfold eucl, norm, dot, vsub; cbn [vx vy vz]; rewrite <- sqrt_0; f_equal; ring).
      lra. }
    eapply filter_imp; [|apply (filter_and _ _ L1 L2)]. cbn beta. intros t [H1 H2] q [<-|Hq]; auto. }
  eapply filter_imp; [|exact L]. cbn beta. intros t Ht. apply sum_over_ext. intros dm Hd. rewrite dipole_component_field by (now apply Ht). now rewrite shift_dir, dot_unit.
Qed.

Lemma dipole_gradient_call mu0 dms c p : off_dipoles p dms ->
  is_derive (fun t => sum_over dms (fun dm => dipole_potential mu0 (cart_position (shift c t p)) (cart_position (fst dm)) (snd dm))) 0
    (- (dipole_call mu0 dms (b_name c) p / nano)).
Proof.
  intros O. rewrite dipole_call_value.
  replace (- (nano * sum_over dms (one_magnetic (axis_kernel (dipole_kernels mu0) c) p) / nano)) with (sum_over dms (fun dm => - one_magnetic (axis_kernel (dipole_kernels mu0) c) p dm)).
  - apply is_derive_sum. intros dm Hd. rewrite dipole_component_field by (now apply O). rewrite <- dot_unit.
    eapply is_derive_ext; [intros t; rewrite shift_dir; reflexivity|]. apply dipole_potential_derive. now apply O.
  - transitivity (-1 * sum_over dms (one_magnetic (axis_kernel (dipole_kernels mu0) c) p)).
    + rewrite <- sum_over_scal. apply sum_over_ext. intros; ring.
    + field. unfold nano. lra.
Qed.

Lemma dipole_field_derivative mu0 dms a c p : off_dipoles p dms ->
  is_derive (fun t => dipole_call mu0 dms (b_name c) (shift a t p) / nano) 0
    (sum_over dms (fun dm => dipole_gradient mu0 (cart_position p) (cart_position (fst dm)) (snd dm) (unit_vector a) (unit_vector c))).
Proof.
  intros O. apply (is_derive_ext_loc (fun t => sum_over dms (fun dm => dot (dipole_field mu0 (vadd (cart_position p) (vscale t (unit_vector a))) (cart_position (fst dm)) (snd dm)) (unit_vector c)))).
  - eapply filter_imp; [|apply (shift_continuous_off mu0 dms a c p O)]. cbn beta. intros t Ht. symmetry.
    rewrite dipole_call_value, Ht. unfold nano. eqR. field.
  - apply is_derive_sum. intros dm Hd. apply dipole_field_derive. now apply O.
Qed.

Lemma dipole_divergence_free mu0 dms p : off_dipoles p dms ->
  exists de dn du,
    is_derive (fun t => dipole_call mu0 dms "b_e" (shift AE t p)) 0 de /\ is_derive (fun t => dipole_call mu0 dms "b_n" (shift AN t p)) 0 dn /\
    is_derive (fun t => dipole_call mu0 dms "b_u" (shift AU t p)) 0 du /\ de + dn + du = 0.
Proof.
  intros O.
  assert (X : forall a, is_derive (fun t => dipole_call mu0 dms (b_name a) (shift a t p)) 0
     (nano * sum_over dms (fun dm => dipole_gradient mu0 (cart_position p) (cart_position (fst dm)) (snd dm) (unit_vector a) (unit_vector a)))).
  { intros a. eapply is_derive_ext; [|apply is_derive_scal, (dipole_field_derivative mu0 dms a a p O)]. intros t. cbn beta. unfold nano. eqR. field. }
  do 3 eexists. split; [apply (X AE)|]. split; [apply (X AN)|]. split; [apply (X AU)|].
  rewrite <- !Rmult_plus_distr_l, <- !sum_over_plus. replace (sum_over dms _) with 0; [ring|].
  symmetry. apply sum_over_zero. intros dm Hd. apply dipole_divergence. now apply O.
Qed.
