(** Claims about the magnetic field of ellipsoids, superposition and surfaces. *)
From Coquelicot Require Import Coquelicot.
From Coq Require Import Psatz Permutation.
From Verif Require Import Base BaseFacts NumPy NumPyFacts PointGravityModel OasisModel LayerModel EllipsoidModel EllipsoidSpec EllipsoidRotProofs EllipsoidLambdaProofs
  EllipsoidIntProofs EllipsoidShapeProofs EllipsoidFieldProofs EllipsoidLocalProofs EllipsoidTopProofs EllipsoidMagProofs.
Local Open Scope R_scope.

(** ** The field of one body, from the magnetisation found by the code *)
Lemma computed_solvable mu_0 e F sh0 ps0 r : positive_axes e -> prod_shape sh0 = length ps0 ->
  ellipsoid_magnetic mu_0 (coordinates_of sh0 ps0) (Single e) F = Ok r -> solvable mu_0 (h0_of mu_0 F) e.
Proof.
  intros P Hs H. destruct (Classical_Prop.classic (solvable mu_0 (h0_of mu_0 F) e)) as [S|N]; [exact S|]. exfalso.
  assert (HP : has_property e = true) by (destruct (has_property e) eqn:X; [reflexivity | exfalso; apply N; intros Y; congruence]).
  unfold ellipsoid_magnetic, coordinates_of in H. rewrite broadcast3_same in H by reflexivity. cbn [bind ravel data as_list for_] in H.
  assert (EH : V3 (vx (vscale (/ 10 ^ 9) F) / mu_0) (vy (vscale (/ 10 ^ 9) F) / mu_0) (vz (vscale (/ 10 ^ 9) F) / mu_0) = h0_of mu_0 F).
  { unfold h0_of, Rdiv. unfold vscale at 4. apply V3_eq; apply Rmult_comm. }
  rewrite EH in H. assert (B := body_b_raises mu_0 (h0_of mu_0 F) e P N ps0). unfold has_property in HP.
  destruct (ell_susceptibility e), (ell_remanent e); try discriminate HP; rewrite B in H; discriminate H.
Qed.

(** Everything about one magnetised body. *)
Lemma body_summary mu_0 e F rho : well_proportioned e -> has_property e = true -> solvable mu_0 (h0_of mu_0 F) e -> ell_density e = Some rho ->
  exists (M : vec3) (N : mat3) (X : vec3 -> mat3),
  symmetric N /\ trace N = 1 /\
  (forall p, body_level e p < 1 -> body_b mu_0 (h0_of mu_0 F) e p = vscale mu_0 (vsub M (mv N M)) /\ has_jacobian (body_g e) p (mscale (- 4 * PI * G * rho) N)) /\
  (forall p, 1 <= body_level e p -> body_b mu_0 (h0_of mu_0 F) e p = vscale (- mu_0) (mv (X p) M)) /\
  (forall p, 1 < body_level e p -> has_jacobian (body_g e) p (mscale (- 4 * PI * G * rho) (X p))) /\
  (forall p, body_level e p = 1 -> 0 < dot (body_normal e p) (body_normal e p) /\
     vsub (mv N M) (mv (X p) M) = vscale (dot (body_normal e p) M / dot (body_normal e p) (body_normal e p)) (body_normal e p)) /\
  (forall k mr, cast_susceptibility (ell_susceptibility e) = mscale k eye -> cast_remanent_magnetization (ell_remanent e) = mr ->
     M = vadd (vscale k (vsub (h0_of mu_0 F) (mv N M))) mr).
Proof.
  intros W HP So D. destruct (local_points_ok e) as (q & S & a & b & c & Q & Eq & H & LP).
  assert (WS := sorts_well_shaped e S a b c H W). destruct (local_summary a b c rho WS) as (g & ni & ext & GL & Ei & Ee & Sn & Tn & Cg & Ing & Sext & Jout & Jump).
  assert (BW := body_g_world e rho q S a b c g Eq LP GL D). assert (SA := proj1 WS). set (h0 := h0_of mu_0 F) in *.
  destruct (So HP) as (v & Hv). assert (B0 := single_magnetic mu_0 e (ell_susceptibility e) (ell_remanent e) h0 q S a b c ni ext SA Eq LP Ei Ee []).
  cbn [map] in B0. rewrite B0 in Hv. destruct (solve _ _) as [m|x] eqn:Sm in Hv; [|discriminate]. clear Hv B0 v.
  destruct (body_b_world mu_0 h0 e q S a b c ni ext m SA Eq LP Ei Ee Sm HP) as [_ BB].
  set (M := mv (mT q) m). assert (BM := body_magnetic mu_0 e M q S a b c ni ext m Q H Eq eq_refl).
  exists M, (mm (mm (mT q) ni) q), (fun p => mm (mm (mT q) (ext (mv q (vsub p (ell_center e))))) q).
  assert (LV : forall p, level a b c (mv q (vsub p (ell_center e))) = body_level e p) by (intros p; rewrite <- (sorts_level e S a b c p H), <- Eq; reflexivity).
  assert (SC : forall k m, mm (mm (mT q) (mscale k m)) q = mscale k (mm (mm (mT q) m) q)) by (intros; rewrite mm_mscale_r, mm_mscale_l; reflexivity).
  split; [apply symmetric_rot, Sn|]. split; [rewrite trace_rot by exact Q; exact Tn|]. split; [|split; [|split; [|split]]].
  - intros p Hp. split.
    + rewrite BB, BM. rewrite (proj2 (Rltb_true _ _) Hp). reflexivity.
    + rewrite <- SC. apply (has_jacobian_ext (world q (ell_center e) g)); [intros; symmetry; apply BW|]. apply world_jacobian. apply Ing. rewrite LV. exact Hp.
  - intros p Hp. rewrite BB, BM. destruct (Rltb_spec (body_level e p) 1); [lra | reflexivity].
  - intros p Hp. rewrite <- SC. apply (has_jacobian_ext (world q (ell_center e) g)); [intros; symmetry; apply BW|]. apply world_jacobian, Jout. rewrite LV. exact Hp.
  - intros p Hp. assert (J := Jump (mv q (vsub p (ell_center e))) m). rewrite LV in J. specialize (J Hp). cbv zeta in J.
    assert (BN := body_normal_ok e q S a b c p H Eq). cbv zeta in BN. set (n := V3 _ _ _) in *. destruct J as [J1 J2].
    rewrite <- BN. rewrite !(orthogonal_dot (mT q)) by (apply orthogonal_mT, Q). split; [exact J1|].
    unfold M. rewrite !mv_mm, !(orthogonal_back q m Q), <- mv_vsub, J2, mv_vscale. rewrite (orthogonal_dot (mT q)) by (apply orthogonal_mT, Q). reflexivity.
  - intros k mr Hk Hr. apply solve_sound in Sm. rewrite Hk, Hr in Sm. destruct H as (_ & [OS _] & _).
    rewrite (proj1 (q_isotropic q S k OS)) in Sm. apply isotropic_equation in Sm. rewrite mv_mscale, mv_eye in Sm.
    assert (E := f_equal (mv (mT q)) Sm). fold M in E. rewrite mv_vsub, mv_vadd, !mv_vscale, !(orthogonal_forth q) in E by exact Q.
    rewrite !mv_mm. unfold M at 2. rewrite (orthogonal_back q m Q). etransitivity; [exact E|]. unfold vadd, vsub, vscale; cbn [vx vy vz]. apply V3_eq; ring.
Qed.

(** ** C81: Poisson's relation between the magnetic field and the gradient of the gravity of the same body *)
Theorem C81_poisson_relation : forall mu_0 e F rho sh0 ps0 r, mu_0 <> 0 -> well_proportioned e -> ell_density e = Some rho -> rho <> 0 ->
  (ell_susceptibility e <> None \/ ell_remanent e <> None) -> prod_shape sh0 = length ps0 ->
  ellipsoid_magnetic mu_0 (coordinates_of sh0 ps0) (Single e) F = Ok r ->
  exists (g B : vec3 -> vec3) (M : vec3),
  (forall sh ps, prod_shape sh = length ps -> ellipsoid_gravity (coordinates_of sh ps) (Single e) = Ok (gravity_arrays sh g ps, 0%nat)) /\
  (forall sh ps, prod_shape sh = length ps -> ellipsoid_magnetic mu_0 (coordinates_of sh ps) (Single e) F = Ok (magnetic_arrays sh B ps, 0%nat)) /\
  (forall p, 1 < body_level e p -> exists J, has_jacobian g p J /\ B p = vscale (mu_0 / (4 * PI * G * rho)) (mv J M)) /\
  (forall p, body_level e p < 1 -> exists J, has_jacobian g p J /\ B p = vadd (vscale mu_0 M) (vscale (mu_0 / (4 * PI * G * rho)) (mv J M))).
Proof.
  intros mu_0 e F rho sh0 ps0 r Hm W D Hr HPr Hs0 H0. assert (P := proj1 W). assert (So := computed_solvable mu_0 e F sh0 ps0 r P Hs0 H0).
  assert (HP : has_property e = true) by (unfold has_property; destruct (ell_susceptibility e), (ell_remanent e); try reflexivity; destruct HPr; congruence).
  destruct (body_summary mu_0 e F rho W HP So D) as (M & N & X & _ & _ & Bin & Bout & Jout & _).
  assert (Kn : PI * G * rho <> 0) by (assert (PP := PI_RGT_0); assert (0 < G) by (unfold G; apply Rdiv_lt_0_compat; [lra | apply pow_lt; lra]); apply Rmult_integral_contrapositive_currified; [apply Rgt_not_eq, Rmult_lt_0_compat; assumption | exact Hr]).
  assert (K4 : 4 * PI * G * rho <> 0) by (intros Y; apply Kn; lra).
  exists (body_g e), (body_b mu_0 (h0_of mu_0 F) e), M.
  split; [intros sh ps Hs; rewrite gravity_single by assumption; unfold no_density; rewrite D; reflexivity|].
  split; [intros sh ps Hs; rewrite magnetic_single by assumption; rewrite HP; reflexivity|]. split.
  - intros p Hp. eexists. split; [apply Jout, Hp|]. rewrite Bout by lra. rewrite mv_mscale. unfold vscale; cbn [vx vy vz].
    set (w := 4 * PI * G * rho) in *. replace (- 4 * PI * G * rho) with (- w) by (unfold w; ring). apply V3_eq; field; exact K4.
  - intros p Hp. destruct (Bin p Hp) as [B1 J1]. eexists. split; [exact J1|]. rewrite B1, mv_mscale. unfold vscale, vadd, vsub; cbn [vx vy vz].
    set (w := 4 * PI * G * rho) in *. replace (- 4 * PI * G * rho) with (- w) by (unfold w; ring). apply V3_eq; field; exact K4.
Qed.

(** ** C82: conditions at the surface.  [Bin] is the uniform field inside; [B p] at a surface point is the external field there. *)
Theorem C82_boundary_conditions : forall mu_0 e F sh0 ps0 r, mu_0 <> 0 -> well_proportioned e ->
  (ell_susceptibility e <> None \/ ell_remanent e <> None) -> prod_shape sh0 = length ps0 ->
  ellipsoid_magnetic mu_0 (coordinates_of sh0 ps0) (Single e) F = Ok r ->
  exists (B : vec3 -> vec3) (M Bin : vec3),
  (forall sh ps, prod_shape sh = length ps -> ellipsoid_magnetic mu_0 (coordinates_of sh ps) (Single e) F = Ok (magnetic_arrays sh B ps, 0%nat)) /\
  (forall p, body_level e p < 1 -> B p = Bin) /\
  (forall p, body_level e p = 1 ->
     dot (body_normal e p) (B p) = dot (body_normal e p) Bin /\
     forall t, dot (body_normal e p) t = 0 -> dot t (vscale (/ mu_0) (B p)) = dot t (vsub (vscale (/ mu_0) Bin) M)) /\
  (forall k, (ell_susceptibility e = Some (Isotropic k) \/ (ell_susceptibility e = None /\ k = 0)) ->
     M = vadd (vscale k (vadd (h0_of mu_0 F) (vsub (vscale (/ mu_0) Bin) M))) (match ell_remanent e with Some v => v | None => V3 0 0 0 end)).
Proof.
  intros mu_0 e F sh0 ps0 r Hm W HPr Hs0 H0. assert (P := proj1 W). assert (So := computed_solvable mu_0 e F sh0 ps0 r P Hs0 H0).
  assert (HP : has_property e = true) by (unfold has_property; destruct (ell_susceptibility e), (ell_remanent e); try reflexivity; destruct HPr; congruence).
  (* the density plays no role: use the same body with a density *)
  set (e1 := Ell (ell_a e) (ell_b e) (ell_c e) (ell_yaw e) (ell_pitch e) (ell_roll e) (ell_center e) (Some 1) (ell_susceptibility e) (ell_remanent e)).
  assert (EB : forall p, body_b mu_0 (h0_of mu_0 F) e1 p = body_b mu_0 (h0_of mu_0 F) e p) by reflexivity.
  destruct (body_summary mu_0 e1 F 1 W HP So eq_refl) as (M & N & X & _ & _ & BI & BO & _ & BJ & BM).
  change (body_level e1) with (body_level e) in *. change (body_normal e1) with (body_normal e) in *.
  exists (body_b mu_0 (h0_of mu_0 F) e), M, (vscale mu_0 (vsub M (mv N M))).
  split; [intros sh ps Hs; rewrite magnetic_single by assumption; rewrite HP; reflexivity|].
  split; [intros p Hp; apply BI, Hp|]. split.
  - intros p Hp. rewrite <- EB. rewrite BO by lra. destruct (BJ p Hp) as [N1 N2]. set (n := body_normal e p) in *. set (u := mv N M) in *. set (w := mv (X p) M) in *.
    assert (E1 := f_equal vx N2). assert (E2 := f_equal vy N2). assert (E3 := f_equal vz N2). unfold vsub, vscale in E1, E2, E3; cbn [vx vy vz] in E1, E2, E3.
    assert (V : w = vsub u (vscale (dot n M / dot n n) n)) by (unfold vsub, vscale; destruct w as [w1 w2 w3]; cbn [vx vy vz] in *; apply V3_eq; lra).
    rewrite V. set (s := dot n M / dot n n). assert (Hs : s * dot n n = dot n M) by (unfold s; field; lra). clearbody s. split.
    + unfold dot, vscale, vsub in *; cbn [vx vy vz] in *. 
      transitivity (mu_0 * (s * (vx n * vx n + vy n * vy n + vz n * vz n) - (vx n * vx u + vy n * vy u + vz n * vz u))); [ring|]. rewrite Hs. ring.
    + intros t Ht. unfold dot, vscale, vsub in *; cbn [vx vy vz] in *. 
      transitivity (s * (vx n * vx t + vy n * vy t + vz n * vz t) - (vx t * vx u + vy t * vy u + vz t * vz u)); [field; exact Hm|]. rewrite Ht. field. exact Hm.
  - intros k Hk. assert (E := BM k (match ell_remanent e with Some v => v | None => V3 0 0 0 end)).
    etransitivity; [apply E|].
    + unfold e1; cbn [ell_susceptibility]. destruct Hk as [-> | [-> ->]]; [reflexivity|]. unfold cast_susceptibility, mscale, eye, diag, vscale; cbn [vx vy vz row1 row2 row3]. apply M3_eq; ring.
    + unfold e1; cbn [ell_remanent]. destruct (ell_remanent e); reflexivity.
    + unfold vadd, vsub, vscale; cbn [vx vy vz]. apply V3_eq; field; exact Hm.
Qed.

(** With an isotropic susceptibility above -1 the field can always be computed. *)
Theorem C34_isotropic_field_computed : forall mu_0 e F k sh ps, positive_axes e -> -1 < k -> ell_susceptibility e = Some (Isotropic k) -> prod_shape sh = length ps ->
  exists B, ellipsoid_magnetic mu_0 (coordinates_of sh ps) (Single e) F = Ok (magnetic_arrays sh B ps, 0%nat).
Proof.
  intros mu_0 e F k sh ps P Hk Es Hs. assert (HP : has_property e = true) by (unfold has_property; rewrite Es; destruct (ell_remanent e); reflexivity).
  exists (body_b mu_0 (h0_of mu_0 F) e). rewrite magnetic_single; [rewrite HP; reflexivity | exact P | | exact Hs].
  intros _. destruct (local_points_ok e) as (q & S & a & b & c & Q & Eq & H & LP). assert (SA := sorts_positive e S a b c H P).
  destruct (internal_ok a b c SA) as (nx & ny & nz & Ei & Px & Py & Pz & Su). destruct (external_exists a b c SA) as (ext & Ee).
  assert (B0 := single_magnetic mu_0 e (ell_susceptibility e) (ell_remanent e) (h0_of mu_0 F) q S a b c _ ext SA Eq LP Ei Ee []). cbn [map] in B0. rewrite B0.
  rewrite Es. cbn [cast_susceptibility]. destruct H as (_ & [OS _] & _). rewrite (proj1 (q_isotropic q S k OS)).
  match goal with |- exists v, match solve ?m ?r with _ => _ end = _ => destruct (solve_ok m r) as (x & -> & _) end.
  - rewrite isotropic_det. apply Rgt_not_eq. repeat apply Rmult_lt_0_compat; nra.
  - eexists; reflexivity.
Qed.

(** ** C36: superposition *)
Theorem C36_gravity_superposition : forall l, Forall positive_axes l -> exists g : ellipsoid -> vec3 -> vec3,
  (forall e sh ps, In e l -> prod_shape sh = length ps ->
     ellipsoid_gravity (coordinates_of sh ps) (Single e) = Ok (gravity_arrays sh (g e) ps, match ell_density e with None => 1%nat | Some _ => 0%nat end)) /\
  (forall e p, ell_density e = None -> g e p = V3 0 0 0) /\
  forall sh ps, prod_shape sh = length ps ->
    ellipsoid_gravity (coordinates_of sh ps) (Several l) =
    Ok (gravity_arrays sh (fun p => V3 (sum_over l (fun e => vx (g e p))) (sum_over l (fun e => vy (g e p))) (sum_over l (fun e => vz (g e p)))) ps,
        length (filter (fun e => match ell_density e with None => true | Some _ => false end) l)).
Proof.
  intros l Fp. exists body_g. split; [|split].
  - intros e sh ps He Hs. rewrite gravity_single; [|rewrite Forall_forall in Fp; apply Fp, He | exact Hs]. unfold no_density. destruct (ell_density e); reflexivity.
  - intros e p D. unfold body_g. rewrite D. reflexivity.
  - intros sh ps Hs. rewrite gravity_several by assumption. reflexivity.
Qed.

Lemma filter_perm {A} (f : A -> bool) l l' : Permutation l l' -> Permutation (filter f l) (filter f l').
Proof.
  induction 1 as [|x l l' _ IH|x y l|l m n _ IH1 _ IH2]; [apply perm_nil | | | eapply perm_trans; eassumption].
  - cbn. destruct (f x); [apply perm_skip|]; exact IH.
  - cbn. destruct (f y), (f x); try reflexivity. apply perm_swap.
Qed.
Lemma vsum_perm l l' f : Permutation l l' -> vsum l f = vsum l' f.
Proof. intros H. unfold vsum. apply V3_eq; apply sum_over_perm, H. Qed.

Theorem C36_gravity_order : forall l l' sh ps, Forall positive_axes l -> Permutation l l' -> prod_shape sh = length ps ->
  ellipsoid_gravity (coordinates_of sh ps) (Several l) = ellipsoid_gravity (coordinates_of sh ps) (Several l').
Proof.
  intros l l' sh ps Fp H Hs. rewrite !gravity_several; [| eapply Permutation_Forall; eassumption | exact Hs | exact Fp | exact Hs].
  rewrite (Permutation_length (filter_perm no_density l l' H)). unfold gravity_arrays.
  assert (M : forall x : vec3 -> R, map (fun p => x (vsum l (fun e => body_g e p))) ps = map (fun p => x (vsum l' (fun e => body_g e p))) ps) by (intros x; apply map_ext; intros p; rewrite (vsum_perm l l' _ H); reflexivity).
  rewrite (M (fun v => vx v * 10 ^ 5)), (M (fun v => vy v * 10 ^ 5)), (M (fun v => - vz v * 10 ^ 5)). reflexivity.
Qed.

Theorem C36_magnetic_superposition : forall mu_0 F l sh0 ps0, Forall positive_axes l -> prod_shape sh0 = length ps0 ->
  (forall e, In e l -> exists r, ellipsoid_magnetic mu_0 (coordinates_of sh0 ps0) (Single e) F = Ok r) -> exists B : ellipsoid -> vec3 -> vec3,
  (forall e sh ps, In e l -> prod_shape sh = length ps ->
     ellipsoid_magnetic mu_0 (coordinates_of sh ps) (Single e) F =
     Ok (magnetic_arrays sh (B e) ps, match ell_susceptibility e, ell_remanent e with None, None => 1%nat | _, _ => 0%nat end)) /\
  (forall e p, ell_susceptibility e = None -> ell_remanent e = None -> B e p = V3 0 0 0) /\
  forall sh ps, prod_shape sh = length ps ->
    ellipsoid_magnetic mu_0 (coordinates_of sh ps) (Several l) F =
    Ok (magnetic_arrays sh (fun p => V3 (sum_over l (fun e => vx (B e p))) (sum_over l (fun e => vy (B e p))) (sum_over l (fun e => vz (B e p)))) ps,
        length (filter (fun e => match ell_susceptibility e, ell_remanent e with None, None => true | _, _ => false end) l)).
Proof.
  intros mu_0 F l sh0 ps0 Fp Hs0 Hc. rewrite Forall_forall in Fp.
  assert (Sv : forall e, In e l -> solvable mu_0 (h0_of mu_0 F) e) by (intros e He; destruct (Hc e He) as (r & Hr); apply (computed_solvable mu_0 e F sh0 ps0 r); auto).
  exists (body_b mu_0 (h0_of mu_0 F)). split; [|split].
  - intros e sh ps He Hs. rewrite magnetic_single by auto. unfold has_property. destruct (ell_susceptibility e), (ell_remanent e); reflexivity.
  - intros e p E1 E2. unfold body_b, has_property. rewrite E1, E2. reflexivity.
  - intros sh ps Hs. rewrite magnetic_several; [|apply Forall_forall; exact Fp | apply Forall_forall; exact Sv | exact Hs].
    rewrite (filter_ext (fun e => negb (has_property e)) (fun e => match ell_susceptibility e, ell_remanent e with None, None => true | _, _ => false end)); [reflexivity|].
    intros e. unfold has_property. destruct (ell_susceptibility e), (ell_remanent e); reflexivity.
Qed.

Theorem C36_magnetic_order : forall mu_0 F l l' sh ps, Forall positive_axes l -> Permutation l l' -> prod_shape sh = length ps ->
  (forall e, In e l -> exists r, ellipsoid_magnetic mu_0 (coordinates_of sh ps) (Single e) F = Ok r) ->
  ellipsoid_magnetic mu_0 (coordinates_of sh ps) (Several l) F = ellipsoid_magnetic mu_0 (coordinates_of sh ps) (Several l') F.
Proof.
  intros mu_0 F l l' sh ps Fp H Hs Hc.
  assert (Sv : Forall (solvable mu_0 (h0_of mu_0 F)) l).
  { apply Forall_forall. intros e He. destruct (Hc e He) as (r & Hr). apply (computed_solvable mu_0 e F sh ps r); auto. rewrite Forall_forall in Fp. auto. }
  rewrite !magnetic_several; [| eapply Permutation_Forall; eassumption | eapply Permutation_Forall; eassumption | exact Hs | exact Fp | exact Sv | exact Hs].
  rewrite (Permutation_length (filter_perm _ l l' H)). unfold magnetic_arrays.
  assert (M : forall x : vec3 -> R, map (fun p => x (vsum_b mu_0 (h0_of mu_0 F) l p)) ps = map (fun p => x (vsum_b mu_0 (h0_of mu_0 F) l' p)) ps) by (intros x; apply map_ext; intros p; unfold vsum_b; rewrite (vsum_perm l l' _ H); reflexivity).
  rewrite (M (fun v => 10 ^ 9 * vx v)), (M (fun v => 10 ^ 9 * vy v)), (M (fun v => 10 ^ 9 * vz v)). reflexivity.
Qed.

(** *** Surfaces *)
Theorem C36_surface_points : forall e lon_size lat_size p, positive_axes e -> In p (fst (get_surface e lon_size lat_size)) -> body_level e p = 1.
Proof.
  intros e n m p (Pa & Pb & Pc) H. unfold get_surface in H. cbn [fst] in H. rewrite map_map in H. apply in_map_iff in H. destruct H as ([lon lat] & <- & _).
  destruct (rotation_orthogonal (ell_yaw e) (ell_pitch e) (ell_roll e)) as [O _]. unfold body_level, own_coordinates.
  set (v := V3 _ _ _).
  replace (vsub (vadd (mv (rotation_matrix e) v) (ell_center e)) (ell_center e)) with (mv (rotation_matrix e) v)
    by (generalize (mv (rotation_matrix e) v); intros [x y z]; unfold vsub, vadd; cbn [vx vy vz]; apply V3_eq; ring).
  rewrite orthogonal_forth by exact O. unfold v, level; cbn [vx vy vz].
  transitivity ((sin lon * sin lon + cos lon * cos lon) * (cos lat * cos lat) + sin lat * sin lat); [field; repeat split; lra|]. rewrite sc2, Rmult_1_l, Rplus_comm. apply sc2.
Qed.

Theorem C36_surface_size : forall e lon_size lat_size,
  length (fst (get_surface e lon_size lat_size)) = (lat_size * lon_size)%nat /\ snd (get_surface e lon_size lat_size) = (lat_size, lon_size).
Proof.
  intros e n m. split; [|reflexivity]. unfold get_surface. cbn [fst]. rewrite !map_length. unfold meshgrid_ravel.
  assert (L : forall k a b, length (linspace a b k) = k) by (intros k x y; unfold linspace, range; rewrite map_length, seq_length; apply Nat.sub_0_r).
  rewrite <- (L m (- PI / 2) (PI / 2)) at 2. generalize (linspace (- PI / 2) (PI / 2) m). intros l. induction l as [|y l IH]; [reflexivity|].
  cbn [flat_map]. rewrite app_length, map_length, IH, L. reflexivity.
Qed.

(** ** Concrete cases *)
Definition sample : ellipsoid := Ell 1 3 2 30 20 10 (V3 5 6 7) (Some 2670) (Some (Isotropic 2)) (Some (V3 1 0 4)).
Lemma sample_proportioned : well_proportioned sample.
Proof.
  split; [unfold positive_axes; cbn; lra|]. cbn [sample ell_a ell_b ell_c In]. assert (T : / 10 ^ 5 < / 10) by (apply Rinv_lt_contravar; lra). unfold distinct_enough.
  intros x y Hx Hy Hxy. destruct Hx as [<-|[<-|[<-|[]]]]; destruct Hy as [<-|[<-|[<-|[]]]]; first [left; reflexivity | right; lra | exfalso; lra].
Qed.
Example C81_sample : exists r, ellipsoid_magnetic 1 (coordinates_of [1%nat] [V3 0 0 0]) (Single sample) (V3 1 2 3) = Ok r /\ ell_density sample = Some 2670 /\ well_proportioned sample.
Proof.
  destruct (C34_isotropic_field_computed 1 sample (V3 1 2 3) 2 [1%nat] [V3 0 0 0]) as (B & H); [apply sample_proportioned | lra | reflexivity | reflexivity|].
  eexists. split; [exact H|]. split; [reflexivity | apply sample_proportioned].
Qed.
Example C82_sample : exists B M Bin, (forall p, body_level sample p < 1 -> B p = Bin) /\
  M = vadd (vscale 2 (vadd (h0_of 1 (V3 1 2 3)) (vsub (vscale (/ 1) Bin) M))) (V3 1 0 4) /\
  ellipsoid_magnetic 1 (coordinates_of [1%nat] [V3 0 0 0]) (Single sample) (V3 1 2 3) = Ok (magnetic_arrays [1%nat] B [V3 0 0 0], 0%nat).
Proof.
  destruct C81_sample as (r & H & _ & W).
  destruct (C82_boundary_conditions 1 sample (V3 1 2 3) [1%nat] [V3 0 0 0] r) as (B & M & Bin & H1 & H2 & _ & H4); [lra | exact W | left; discriminate | reflexivity | exact H |].
  exists B, M, Bin. split; [exact H2|]. split; [apply (H4 2); left; reflexivity | apply H1; reflexivity].
Qed.
(** The inside, the surface and the outside of a body are all inhabited. *)
Example C36_surface_sample : exists p, In p (fst (get_surface sample 5 3)) /\ body_level sample p = 1.
Proof.
  destruct (fst (get_surface sample 5 3)) as [|p l] eqn:E; [assert (L := proj1 (C36_surface_size sample 5 3)); rewrite E in L; discriminate|].
  exists p. split; [left; reflexivity|]. apply (C36_surface_points sample 5 3); [apply sample_proportioned | rewrite E; left; reflexivity].
Qed.
Example level_sample : body_level sample (V3 5 6 7) < 1.
Proof.
  unfold body_level, own_coordinates. cbn [sample ell_center ell_a ell_b ell_c]. replace (vsub (V3 5 6 7) (V3 5 6 7)) with (V3 0 0 0) by (unfold vsub; cbn; apply V3_eq; ring).
  replace (mv (mT (rotation_matrix sample)) (V3 0 0 0)) with (V3 0 0 0) by (unfold mv, dot; cbn [vx vy vz]; apply V3_eq; ring). unfold level; cbn [vx vy vz]. lra.
Qed.

Print Assumptions C81_poisson_relation.
Print Assumptions C82_boundary_conditions.
Print Assumptions C34_isotropic_field_computed.
Print Assumptions C36_gravity_superposition.
Print Assumptions C36_gravity_order.
Print Assumptions C36_magnetic_superposition.
Print Assumptions C36_magnetic_order.
Print Assumptions C36_surface_points.
Print Assumptions C36_surface_size.
