(** C23-C28, C71-C73: prisms, dipoles, VTK vertices. *)
From Coq Require Import Permutation.
From Coquelicot Require Import Coquelicot.
From Verif Require Import Base BaseFacts NumPy NumPyFacts DistanceModel DistanceSpec PointGravityModel PointGravitySpec PointGravityProofs
  PrismModel PrismSpec PrismProofs MagneticProofs PrismFieldProofs VtkProofs.
Local Open Scope string_scope. Local Open Scope list_scope. Local Open Scope R_scope.

(** C23. *)
Theorem C23_accepts_exactly_valid_prisms prisms : check_prisms_R prisms = Ok tt <-> Forall valid_prism prisms.
Proof. exact (check_prisms_ok prisms). Qed.
Print Assumptions C23_accepts_exactly_valid_prisms.
Theorem C23_rejects_with_valueerror prisms : ~ Forall valid_prism prisms -> check_prisms_R prisms = Raise ValueError.
Proof. exact (check_prisms_reject prisms). Qed.
Print Assumptions C23_rejects_with_valueerror.
Theorem C23_gravity_rejects choclo c prisms density field : ~ Forall valid_prism prisms -> forall r, prism_gravity choclo c prisms density field false <> Ok r.
Proof. exact (gravity_rejects choclo c prisms density field). Qed.
Print Assumptions C23_gravity_rejects.
Theorem C23_gravity_error choclo sh ps pds field component factor :
  prod_shape sh = length ps -> In (field, (component, factor)) prism_fields -> ~ Forall valid_prism (map fst pds) ->
  prism_gravity choclo (coords_of sh ps) (map fst pds) (arr1 (map snd pds)) field false = Raise ValueError.
Proof. exact (gravity_rejects_valueerror choclo sh ps pds field component factor). Qed.
Print Assumptions C23_gravity_error.
Theorem C23_magnetic_rejects k c prisms mags field : ~ Forall valid_prism prisms -> forall r, prism_magnetic k c prisms mags field false <> Ok r.
Proof. exact (magnetic_rejects k c prisms mags field). Qed.
Print Assumptions C23_magnetic_rejects.
(** A NaN boundary makes every comparison false, so the prism is accepted. *)
Theorem C74_nan_boundary_refuted : exists p : prism_of num, p_west p = NaN /\ check_prisms_num [p] = Ok tt.
Proof. exists (Prism NaN (Fin 1) (Fin 0) (Fin 1) (Fin 0) (Fin 1)). split; [reflexivity|]. unfold check_prisms_num, check_prisms. cbn. rewrite (proj2 (Rltb_false 1 0)) by lra. reflexivity. Qed.
Print Assumptions C74_nan_boundary_refuted.
Theorem C23_finite_boundaries prisms : check_prisms_num (map fin_prism prisms) = check_prisms_R prisms.
Proof. exact (check_prisms_fin prisms). Qed.
Print Assumptions C23_finite_boundaries.
Example C23_example : Forall valid_prism [Prism 0 1 0 1 (-1) 0; Prism 0 0 0 1 0 0] /\ ~ Forall valid_prism [Prism 0 1 0 1 (-1) 0; Prism 0 1 1 0 0 1].
Proof.
  unfold valid_prism. split.
  - apply Forall_cons; [cbn; lra|]. apply Forall_cons; [cbn; lra|apply Forall_nil].
  - intros H. inversion H as [|? ? _ H2]; subst. inversion H2 as [|? ? H3 _]; subst. cbn in H3. lra.
Qed.

(** C24.  The warning is issued exactly when the field is a tensor component and an observation point is
    one of its singular points ([singular] is false for the other fields). *)
Theorem C24_warns_exactly_at_singular_points choclo sh ps pds field component factor :
  prod_shape sh = length ps -> In (field, (component, factor)) prism_fields -> Forall valid_prism (map fst pds) ->
  exists r w, prism_gravity choclo (coords_of sh ps) (map fst pds) (arr1 (map snd pds)) field false = Ok (r, w) /\
    (w = true <-> exists p pr, In p ps /\ In pr (map fst pds) /\ singular field p pr).
Proof.
  intros H F V. destruct (gravity_runs choclo sh ps pds field component factor false H F (or_intror V)) as (w & E & W).
  do 2 eexists. split; [exact E|]. rewrite W. tauto.
Qed.
Print Assumptions C24_warns_exactly_at_singular_points.
Theorem C24_disabled_checks_do_not_warn choclo sh ps pds field component factor :
  prod_shape sh = length ps -> In (field, (component, factor)) prism_fields ->
  exists r, prism_gravity choclo (coords_of sh ps) (map fst pds) (arr1 (map snd pds)) field true = Ok (r, false).
Proof.
  intros H F. rewrite (prism_gravity_eq choclo sh ps pds field component factor true H F). eexists. reflexivity.
Qed.
Print Assumptions C24_disabled_checks_do_not_warn.
(** A vertex is singular for all six components, the middle of a face for none, the middle of an edge
    parallel to northing for g_ee, g_zz and g_ez only. *)
Example C24_example :
  let pr := Prism 0 2 0 2 0 2 in
  (forall f, In f ["g_ee"; "g_nn"; "g_zz"; "g_en"; "g_ez"; "g_nz"] -> singular f (0, 0, 0) pr) /\
  (forall f, ~ singular f (1, 1, 2) pr) /\
  singular "g_ee" (0, 1, 2) pr /\ singular "g_ez" (0, 1, 2) pr /\ ~ singular "g_nn" (0, 1, 2) pr /\ ~ singular "g_en" (0, 1, 2) pr.
Proof.
  cbv zeta. unfold singular, in_prism, on_east_face, on_north_face, on_up_face, fst3, snd3, thd3; cbn [fst snd p_west p_east p_south p_north p_bottom p_top].
  split; [|split; [|split; [|split; [|split]]]].
  - intros f H. split; [lra|]. repeat destruct H as [<-|H]; [left|right; left|right; right; left|do 3 right; left|do 4 right; left|do 5 right|destruct H]; (split; [reflexivity|]); lra.
  - intros f [_ H]. repeat destruct H as [H|H]; destruct H as [_ H]; lra.
  - split; [lra|]. left. split; [reflexivity|lra].
  - split; [lra|]. do 4 right. left. split; [reflexivity|lra].
  - intros [_ H]. repeat destruct H as [H|H]; destruct H as [E H]; try discriminate; lra.
  - intros [_ H]. repeat destruct H as [H|H]; destruct H as [E H]; try discriminate; lra.
Qed.

(** C25. *)
Theorem C25_keeps_exactly_the_others g (pds : list (prism * R)) :
  (forall pd : prism * R, g pd = true <-> volume (fst pd) <> 0 /\ snd pd <> 0) ->
  discard_null_prisms (map fst pds) (map snd pds) = Ok (map fst (filter g pds), map snd (filter g pds)).
Proof. intros H. rewrite discard_ok. now rewrite (kept_filter g pds H). Qed.
Print Assumptions C25_keeps_exactly_the_others.
Theorem C25_null_prisms_do_not_change_the_field choclo g sh ps pds field component factor disable :
  (forall pd : prism * R, g pd = true <-> volume (fst pd) <> 0 /\ snd pd <> 0) ->
  prod_shape sh = length ps -> In (field, (component, factor)) prism_fields -> checks_pass disable (map fst pds) ->
  exists r w w',
    prism_gravity choclo (coords_of sh ps) (map fst pds) (arr1 (map snd pds)) field disable = Ok (r, w) /\
    prism_gravity choclo (coords_of sh ps) (map fst (filter g pds)) (arr1 (map snd (filter g pds))) field disable = Ok (r, w') /\
    r = Arr sh (map (fun p => sum_over (filter g pds) (fun pd => factor * one_prism choclo component p pd)) ps).
Proof.
  intros G H F V. destruct (gravity_runs choclo sh ps pds field component factor disable H F V) as (w & E & _).
  assert (V2 : checks_pass disable (map fst (filter g pds))).
  { destruct V as [V|V]; [now left|right]. rewrite Forall_forall in *. intros x Hx. apply in_map_iff in Hx. destruct Hx as (y & <- & Hy). apply filter_In in Hy. apply V, in_map, Hy. }
  destruct (gravity_runs choclo sh ps (filter g pds) field component factor disable H F V2) as (w' & E' & _).
  exists (Arr sh (map (fun p => sum_over (filter g pds) (fun pd => factor * one_prism choclo component p pd)) ps)), w, w'.
  split; [|split; [|reflexivity]].
  - rewrite E, (kept_filter g pds G). reflexivity.
  - rewrite E', (kept_filter g _ G). replace (filter g (filter g pds)) with (filter g pds); [reflexivity|].
    clear. induction pds as [|x l IH]; [reflexivity|]. cbn [filter]. destruct (g x) eqn:Eg; [|exact IH]. cbn [filter]. rewrite Eg. now f_equal.
Qed.
Print Assumptions C25_null_prisms_do_not_change_the_field.
Theorem C25_magnetic_keeps_exactly_the_others g (pms : list (prism * vec3)) :
  (forall pm : prism * vec3, g pm = true <-> volume (fst pm) <> 0 /\ snd pm <> V3 0 0 0) ->
  discard_null_prisms_magnetic (map fst pms) (map (fun pm => vx (snd pm)) pms, map (fun pm => vy (snd pm)) pms, map (fun pm => vz (snd pm)) pms)
  = Ok (map fst (filter g pms), (map (fun pm => vx (snd pm)) (filter g pms), map (fun pm => vy (snd pm)) (filter g pms), map (fun pm => vz (snd pm)) (filter g pms))).
Proof.
  intros H. rewrite discard_magnetic_ok. assert (E : mag_kept pms = filter g pms); [|now rewrite E].
  apply filter_ext. intros pm. apply eq_true_iff_eq. rewrite H, negb_true_iff, <- not_true_iff_false, mag_null_spec. unfold v0. tauto.
Qed.
Print Assumptions C25_magnetic_keeps_exactly_the_others.
Example C25_example : volume (Prism 0 1 0 1 0 1) = 1 /\ volume (Prism 0 1 2 2 0 1) = 0 /\ exists g : prism * R -> bool, forall pd, g pd = true <-> volume (fst pd) <> 0 /\ snd pd <> 0.
Proof.
  split; [unfold volume; cbn; ring|]. split; [unfold volume; cbn; ring|].
  exists (fun pd => negb (is_null pd)). intros pd. rewrite negb_true_iff, <- not_true_iff_false, is_null_spec. tauto.
Qed.

(** C26. *)
Theorem C26_sum_over_prisms choclo sh ps pds field component factor disable :
  prod_shape sh = length ps -> In (field, (component, factor)) prism_fields -> checks_pass disable (map fst pds) ->
  linear_kernel (choclo component) -> zero_without_volume (choclo component) ->
  exists w, prism_gravity choclo (coords_of sh ps) (map fst pds) (arr1 (map snd pds)) field disable
    = Ok (Arr sh (map (fun p => sum_over pds (fun pd => factor * one_prism choclo component p pd)) ps), w).
Proof. exact (gravity_over_all choclo sh ps pds field component factor disable). Qed.
Print Assumptions C26_sum_over_prisms.
Theorem C26_union_of_prisms choclo sh ps pds1 pds2 field component factor disable :
  prod_shape sh = length ps -> In (field, (component, factor)) prism_fields -> checks_pass disable (map fst (pds1 ++ pds2)) ->
  exists d1 d2 d w1 w2 w,
    prism_gravity choclo (coords_of sh ps) (map fst pds1) (arr1 (map snd pds1)) field disable = Ok (Arr sh d1, w1) /\
    prism_gravity choclo (coords_of sh ps) (map fst pds2) (arr1 (map snd pds2)) field disable = Ok (Arr sh d2, w2) /\
    prism_gravity choclo (coords_of sh ps) (map fst (pds1 ++ pds2)) (arr1 (map snd (pds1 ++ pds2))) field disable = Ok (Arr sh d, w) /\
    length d = length ps /\ w = (w1 || w2)%bool /\ forall k, nth k d 0 = nth k d1 0 + nth k d2 0.
Proof. exact (gravity_union choclo sh ps pds1 pds2 field component factor disable). Qed.
Print Assumptions C26_union_of_prisms.
Theorem C26_order_irrelevant choclo sh ps pds1 pds2 field component factor disable :
  prod_shape sh = length ps -> In (field, (component, factor)) prism_fields -> checks_pass disable (map fst pds1) -> Permutation pds1 pds2 ->
  exists r, prism_gravity choclo (coords_of sh ps) (map fst pds1) (arr1 (map snd pds1)) field disable = Ok r /\
            prism_gravity choclo (coords_of sh ps) (map fst pds2) (arr1 (map snd pds2)) field disable = Ok r.
Proof. exact (gravity_order choclo sh ps pds1 pds2 field component factor disable). Qed.
Print Assumptions C26_order_irrelevant.
Theorem C26_linear_in_density choclo sh ps (prs : list prism) d1 d2 a b field component factor disable :
  prod_shape sh = length ps -> In (field, (component, factor)) prism_fields -> checks_pass disable prs -> linear_kernel (choclo component) ->
  length d1 = length prs -> length d2 = length prs ->
  exists r1 r2 r w,
    prism_gravity choclo (coords_of sh ps) prs (arr1 d1) field disable = Ok (Arr sh r1, w) /\
    prism_gravity choclo (coords_of sh ps) prs (arr1 d2) field disable = Ok (Arr sh r2, w) /\
    prism_gravity choclo (coords_of sh ps) prs (arr1 (map (fun xy => a * fst xy + b * snd xy) (combine d1 d2))) field disable = Ok (Arr sh r, w) /\
    forall k, nth k r 0 = a * nth k r1 0 + b * nth k r2 0.
Proof. exact (gravity_linear choclo sh ps prs d1 d2 a b field component factor disable). Qed.
Print Assumptions C26_linear_in_density.
(** Kernels of the form choclo uses meet the kernel hypotheses and are not all zero. *)
Example C26_example :
  (forall f, linear_kernel (vertex_kernel f) /\ zero_without_volume (vertex_kernel f)) /\
  vertex_kernel (fun x y z => x * y * z) 0 0 0 (Prism 0 1 0 1 0 1) 1 = newton_G /\
  In ("g_z", ("gravity_u", - mGal)) prism_fields /\ prod_shape [2%nat; 1%nat] = length [(0, 0, 1); (3, 0, 1)] /\
  checks_pass false [Prism 0 1 0 1 0 1].
Proof.
  split; [intros f; split; [apply vertex_linear|apply vertex_no_volume]|]. split; [unfold vertex_kernel; cbn; ring|]. split; [cbn; tauto|]. split; [reflexivity|].
  right. apply Forall_cons; [unfold valid_prism; cbn; lra|apply Forall_nil].
Qed.

(** C27. *)
Theorem C27_prism_vector_is_components k coordinates prisms mags disable : agree k ->
  prism_magnetic k coordinates prisms mags "b" disable
  = do b_e <- prism_magnetic k coordinates prisms mags "b_e" disable;
    do b_n <- prism_magnetic k coordinates prisms mags "b_n" disable;
    do b_u <- prism_magnetic k coordinates prisms mags "b_u" disable;
    Ok (b_e ++ b_n ++ b_u).
Proof. exact (prism_magnetic_split k coordinates prisms mags disable). Qed.
Print Assumptions C27_prism_vector_is_components.
Theorem C27_dipole_vector_is_components mu0 coordinates dipoles moments disable :
  dipole_magnetic mu0 coordinates dipoles moments "b" disable
  = do b_e <- dipole_magnetic mu0 coordinates dipoles moments "b_e" disable;
    do b_n <- dipole_magnetic mu0 coordinates dipoles moments "b_n" disable;
    do b_u <- dipole_magnetic mu0 coordinates dipoles moments "b_u" disable;
    Ok (b_e ++ b_n ++ b_u).
Proof. exact (dipole_magnetic_split mu0 coordinates dipoles moments disable). Qed.
Print Assumptions C27_dipole_vector_is_components.
Theorem C27_prism_component_value k a g sh ps (pms : list (prism * vec3)) disable :
  (forall pm : prism * vec3, g pm = true <-> volume (fst pm) <> 0 /\ snd pm <> V3 0 0 0) ->
  prod_shape sh = length ps -> checks_pass disable (map fst pms) ->
  prism_magnetic k (coords_of sh ps) (map fst pms) (moments_of (map snd pms)) (b_name a) disable
  = Ok [Arr sh (map (fun p => sum_over (filter g pms) (fun pm => nano * one_magnetic (axis_kernel k a) p pm)) ps)].
Proof.
  intros G H V. rewrite prism_magnetic_value by assumption.
  assert (E : mag_kept pms = filter g pms).
  { apply filter_ext. intros pm. apply eq_true_iff_eq. rewrite G, negb_true_iff, <- not_true_iff_false, mag_null_spec. unfold v0. tauto. }
  rewrite E. destruct V as [-> |V]; [reflexivity|]. destruct disable; [reflexivity|]. apply check_prisms_ok in V. rewrite V. reflexivity.
Qed.
Print Assumptions C27_prism_component_value.
Theorem C27_prism_linear_in_magnetization k c sh ps (prs : list prism) m1 m2 a b disable :
  prod_shape sh = length ps -> checks_pass disable prs -> linear_magnetic (axis_kernel k c) -> length m1 = length prs -> length m2 = length prs ->
  exists r1 r2 r,
    prism_magnetic k (coords_of sh ps) prs (moments_of m1) (b_name c) disable = Ok [Arr sh r1] /\
    prism_magnetic k (coords_of sh ps) prs (moments_of m2) (b_name c) disable = Ok [Arr sh r2] /\
    prism_magnetic k (coords_of sh ps) prs (moments_of (vcomb a b m1 m2)) (b_name c) disable = Ok [Arr sh r] /\
    forall i, nth i r 0 = a * nth i r1 0 + b * nth i r2 0.
Proof. exact (magnetic_linear k c sh ps prs m1 m2 a b disable). Qed.
Print Assumptions C27_prism_linear_in_magnetization.
Theorem C27_dipole_linear_in_moments mu0 c sh ps (qs : list point) m1 m2 a b disable :
  prod_shape sh = length ps -> length m1 = length qs -> length m2 = length qs ->
  exists r1 r2 r,
    dipole_magnetic mu0 (coords_of sh ps) (coords_of [length qs] qs) (moments_of m1) (b_name c) disable = Ok [Arr sh r1] /\
    dipole_magnetic mu0 (coords_of sh ps) (coords_of [length qs] qs) (moments_of m2) (b_name c) disable = Ok [Arr sh r2] /\
    dipole_magnetic mu0 (coords_of sh ps) (coords_of [length qs] qs) (moments_of (vcomb a b m1 m2)) (b_name c) disable = Ok [Arr sh r] /\
    forall i, nth i r 0 = a * nth i r1 0 + b * nth i r2 0.
Proof. exact (dipole_magnetic_linear mu0 c sh ps qs m1 m2 a b disable). Qed.
Print Assumptions C27_dipole_linear_in_moments.
(** The dipole kernels agree with each other and are linear; a dipole with moment east seen from the east. *)
Example C27_example mu0 : agree (dipole_kernels mu0) /\ (forall c, linear_magnetic (axis_kernel (dipole_kernels mu0) c)) /\
  dipole_call mu0 [((0, 0, 0), V3 1 0 0)] "b_e" (1, 0, 0) = nano * (mu0 / (4 * PI) * 2).
Proof.
  split; [exact (dipole_agree mu0)|]. split; [exact (dipole_linear mu0)|]. change "b_e" with (b_name AE). rewrite dipole_call_value.
  unfold sum_over; cbn [map sumR]. rewrite dipole_component_field by (cbn; injection; lra). unfold dipole_field, norm, dot, vsub, vscale; cbn.
  replace (sqrt _) with 1 by (symmetry; replace ((1 - 0) * (1 - 0) + (0 - 0) * (0 - 0) + (0 - 0) * (0 - 0)) with 1 by ring; apply sqrt_1).
  field. apply PI_neq0.
Qed.

(** C28. *)
Theorem C28_vertices_are_the_corners (A : Type) (prisms : list (prism_of A)) junk : length junk = length prisms -> Forall block_8x3 junk ->
  prisms_boundaries_to_vertices prisms junk = Ok (concat (map vtk_corners prisms)).
Proof. exact (vertices_ok prisms junk). Qed.
Print Assumptions C28_vertices_are_the_corners.
Theorem C28_cells_point_to_their_prism (A : Type) (prisms : list (prism_of A)) i p cell :
  nth_error prisms i = Some p -> nth_error (vtk_cells (length prisms)) i = Some cell ->
  map (nth_error (concat (map vtk_corners prisms))) cell = map Some (vtk_corners p).
Proof. exact (cell_corners prisms i p cell). Qed.
Print Assumptions C28_cells_point_to_their_prism.
Theorem C28_one_cell_per_prism n : length (vtk_cells n) = n.
Proof. unfold vtk_cells, range. now rewrite map_length, seq_length, Nat.sub_0_r. Qed.
Print Assumptions C28_one_cell_per_prism.
Example C28_example : block_8x3 (repeat [0; 0; 0] 8) /\ prisms_boundaries_to_vertices [Prism 0 1 2 3 4 5] [repeat [9; 9; 9] 8]
  = Ok [[0; 2; 4]; [1; 2; 4]; [1; 3; 4]; [0; 3; 4]; [0; 2; 5]; [1; 2; 5]; [1; 3; 5]; [0; 3; 5]].
Proof. split; [split; [reflexivity|repeat constructor]|reflexivity]. Qed.

(** C71.  The field of dipoles is minus the gradient of the scalar potential and has no divergence. *)
Theorem C71_dipole_field_value mu0 c sh ps (dms : list (point * vec3)) disable :
  prod_shape sh = length ps -> (forall p, In p ps -> off_dipoles p dms) ->
  dipole_magnetic mu0 (coords_of sh ps) (coords_of [length dms] (map fst dms)) (moments_of (map snd dms)) (b_name c) disable
  = Ok [Arr sh (map (fun p => sum_over dms (fun dm => nano * comp c (dipole_field mu0 (cart_position p) (cart_position (fst dm)) (snd dm)))) ps)].
Proof. exact (dipole_magnetic_physical mu0 c sh ps dms disable). Qed.
Print Assumptions C71_dipole_field_value.
Theorem C71_minus_gradient_of_potential mu0 dms c p : off_dipoles p dms ->
  is_derive (fun t => sum_over dms (fun dm => dipole_potential mu0 (cart_position (shift c t p)) (cart_position (fst dm)) (snd dm))) 0
    (- (dipole_call mu0 dms (b_name c) p / nano)).
Proof. exact (dipole_gradient_call mu0 dms c p). Qed.
Print Assumptions C71_minus_gradient_of_potential.
Theorem C71_no_divergence mu0 dms p : off_dipoles p dms ->
  exists de dn du,
    is_derive (fun t => dipole_call mu0 dms "b_e" (shift AE t p)) 0 de /\ is_derive (fun t => dipole_call mu0 dms "b_n" (shift AN t p)) 0 dn /\
    is_derive (fun t => dipole_call mu0 dms "b_u" (shift AU t p)) 0 du /\ de + dn + du = 0.
Proof. exact (dipole_divergence_free mu0 dms p). Qed.
Print Assumptions C71_no_divergence.
Example C71_example : off_dipoles (0, 0, 0) [((0, 0, -1), V3 1 2 3); ((4, 0, 0), V3 0 1 0)].
Proof. intros dm [<-|[<-|[]]]; cbn; injection; lra. Qed.

(** C72.  Cutting a prism in two leaves the field unchanged, for kernels that are vertex sums (choclo's
    potential and acceleration). *)
Theorem C72_cutting_a_prism choclo sh ps pre post pr d a x field component factor f :
  prod_shape sh = length ps -> In (field, (component, factor)) prism_fields -> choclo component = vertex_kernel f ->
  Forall valid_prism (map fst pre ++ pr :: map fst post) -> inside_cut a x pr ->
  exists r w w', prism_gravity choclo (coords_of sh ps) (map fst pre ++ pr :: map fst post) (arr1 (map snd pre ++ d :: map snd post)) field false = Ok (r, w) /\
    prism_gravity choclo (coords_of sh ps) (map fst pre ++ fst (cut a x pr) :: snd (cut a x pr) :: map fst post) (arr1 (map snd pre ++ d :: d :: map snd post)) field false = Ok (r, w').
Proof. exact (gravity_cut choclo sh ps pre post pr d a x field component factor f). Qed.
Print Assumptions C72_cutting_a_prism.
Example C72_example : cut AN 1 (Prism 0 1 0 3 0 1) = (Prism 0 1 0 1 0 1, Prism 0 1 1 3 0 1) /\ inside_cut AN 1 (Prism 0 1 0 3 0 1) /\
  volume (fst (cut AN 1 (Prism 0 1 0 3 0 1))) + volume (snd (cut AN 1 (Prism 0 1 0 3 0 1))) = volume (Prism 0 1 0 3 0 1).
Proof. split; [reflexivity|]. split; [cbn; lra|]. unfold volume; cbn; ring. Qed.

(** C73.  Lengths of the source arrays: densities are checked, with and without the sanity checks, ... *)
Theorem C73_density_length_checked choclo c prisms density field r disable : length (data density) <> length prisms -> prism_gravity choclo c prisms density field disable <> Ok r.
Proof. exact (gravity_length_checked choclo c prisms density field r disable). Qed.
Print Assumptions C73_density_length_checked.
Example C73_example : length (data (arr1 [2670])) <> length [Prism 0 1 0 1 (-1) 0; Prism 1 2 0 1 (-1) 0].
Proof. discriminate. Qed.
(** ... but for dipoles only the eastings and the first moment component are: a missing northing is read
    out of bounds in compiled code. *)
Theorem C73_dipole_arrays_not_checked_refuted mu0 : exists coordinates dipoles moments,
  dipole_magnetic mu0 coordinates dipoles moments "b_e" false = Raise OutOfBounds.
Proof.
  exists (scalar 0, scalar 0, scalar 0), (arr1 [1; 2], arr1 [1], arr1 [1; 2]), (moments_of [V3 1 0 0; V3 1 0 0]). reflexivity.
Qed.
Print Assumptions C73_dipole_arrays_not_checked_refuted.
(** The coordinates of prism_gravity have the broadcasting defect of C06. *)
Theorem C06_prism_broadcast_refuted : exists (choclo : string -> prism_kernel R) c0 c1 c2 pr S r w,
    wf_arr c0 /\ wf_arr c1 /\ wf_arr c2 /\ broadcast3 c0 c1 c2 = Ok S /\ valid_prism pr /\
    prism_gravity choclo (c0, c1, c2) [pr] (arr1 [1]) "potential" false = Ok (r, w) /\ shape r = S /\
    nth 1 (data r) 0 = 0 /\ sum_over [(pr, 1)] (one_prism choclo "gravity_pot" (nth 1 (broadcast_points S (c0, c1, c2)) (0, 0, 0))) = newton_G.
Proof.
  exists (fun _ => vertex_kernel (fun x y z => x * y * z)), (scalar 0), (arr1 [0; 0]), (scalar 0), (Prism 0 1 0 1 0 1), [2%nat].
  assert (V : valid_prism (Prism 0 1 0 1 0 1)) by (unfold valid_prism; cbn; lra).
  assert (E : check_prisms_R [Prism 0 1 0 1 0 1] = Ok tt) by (apply check_prisms_ok; constructor; [exact V|constructor]).
  assert (D : discard_null_prisms [Prism 0 1 0 1 0 1] [1] = Ok ([Prism 0 1 0 1 0 1], [1])).
  { pose proof (discard_ok [(Prism 0 1 0 1 0 1, 1)]) as D. etransitivity; [exact D|]. unfold kept, is_null, no_volume; cbn.
    destruct (Reqb_spec 0 1); [lra|]. destruct (Reqb_spec 1 0); [lra|]. reflexivity. }
  do 2 eexists. split; [reflexivity|]. split; [reflexivity|]. split; [reflexivity|]. split; [reflexivity|]. split; [exact V|].
  unfold prism_gravity. cbn [lookup FIELDS String.eqb Ascii.eqb Bool.eqb].
  replace (broadcast3 (scalar 0) (arr1 [0; 0]) (scalar 0)) with (@Ok (list nat) [2%nat]) by reflexivity. cbn [bind].
  change (ravel (arr1 [1])) with [1]. cbn [length Nat.eqb negb].
  match goal with |- context[check_prisms_R ?a] => replace (check_prisms_R a) with (@Ok unit tt) by (symmetry; exact E) end. cbn [bind check_singular_points lookup String.eqb Ascii.eqb Bool.eqb].
  match goal with |- context[discard_null_prisms ?a ?b] => replace (discard_null_prisms a b) with (@Ok (list prism * list R) ([Prism 0 1 0 1 0 1], [1])) by (symmetry; exact D) end. cbn.
  split; [reflexivity|]. split; [reflexivity|]. split; [reflexivity|]. unfold sum_over, one_prism, vertex_kernel, bcast_get; cbn. ring.
Qed.
Print Assumptions C06_prism_broadcast_refuted.
