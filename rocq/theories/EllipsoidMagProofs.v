(** The magnetic field of ellipsoids (C33, C34, C36, C81, C82). *)
From Coquelicot Require Import Coquelicot.
From Coq Require Import Psatz Permutation.
From Verif Require Import Base BaseFacts NumPy NumPyFacts PointGravityModel OasisModel LayerModel EllipsoidModel EllipsoidSpec EllipsoidRotProofs EllipsoidLambdaProofs
  EllipsoidIntProofs EllipsoidShapeProofs EllipsoidFieldProofs EllipsoidLocalProofs EllipsoidTopProofs.
Local Open Scope R_scope.

(** ** Linear systems *)
Lemma solve_ok m r : det m <> 0 -> exists x, solve m r = Ok x /\ mv m x = r.
Proof.
  destruct m as [[a b c] [d e f] [g h i]], r as [p q r]. intros H. unfold solve.
  destruct (Reqb_spec (det (M3 (V3 a b c) (V3 d e f) (V3 g h i))) 0) as [E|E]; [contradiction|]. eexists. split; [reflexivity|].
  rewrite mv_explicit. unfold det in *. apply V3_eq; field; exact H.
Qed.
Lemma solve_sound m r x : solve m r = Ok x -> mv m x = r.
Proof.
  intros H. destruct (Req_dec (det m) 0) as [E|E].
  - destruct m as [[a b c] [d e f] [g h i]], r as [p q s]. unfold solve in H. destruct (Reqb_spec (det (M3 (V3 a b c) (V3 d e f) (V3 g h i))) 0); [discriminate | contradiction].
  - destruct (solve_ok m r E) as (y & Ey & Hy). rewrite H in Ey. injection Ey as <-. exact Hy.
Qed.
Lemma solve_singular m r : det m = 0 -> solve m r = Raise LinAlgError.
Proof.
  destruct m as [[a b c] [d e f] [g h i]], r as [p q s]. intros H. unfold solve.
  destruct (Reqb_spec (det (M3 (V3 a b c) (V3 d e f) (V3 g h i))) 0); [reflexivity | contradiction].
Qed.

(** ** Magnetisation *)
Lemma mv_madd a b v : mv (madd a b) v = vadd (mv a v) (mv b v).
Proof. unfold mv, madd, vadd, dot; cbn [vx vy vz row1 row2 row3]. apply V3_eq; ring. Qed.

Lemma magnetisation_system a b c chi h0 mr n : sorted_axes_prop a b c ->
  get_magnetisation a b c chi h0 mr (Some n) = solve (madd eye (mm n chi)) (vadd mr (mv chi h0)).
Proof. intros S. unfold get_magnetisation. rewrite check_sorted by exact S. reflexivity. Qed.
Lemma magnetisation_system_none a b c chi h0 mr n : sorted_axes_prop a b c -> get_demagnetization_tensor_internal a b c = Ok n ->
  get_magnetisation a b c chi h0 mr None = solve (madd eye (mm n chi)) (vadd mr (mv chi h0)).
Proof. intros S E. unfold get_magnetisation. rewrite check_sorted by exact S. cbn [bind]. rewrite E. reflexivity. Qed.

Lemma isotropic_det nx ny nz k : det (madd eye (mm (diag nx ny nz) (mscale k eye))) = (1 + k * nx) * (1 + k * ny) * (1 + k * nz).
Proof.
  unfold madd, eye, diag, mscale, vscale; cbn [vx vy vz row1 row2 row3]. rewrite mm_explicit. unfold vadd, det; cbn [vx vy vz row1 row2 row3]. ring.
Qed.

Lemma isotropic_equation n k m r : mv (madd eye (mm n (mscale k eye))) m = r -> m = vsub r (vscale k (mv n m)).
Proof.
  intros H. rewrite mv_madd, mv_eye, mm_mscale_r, mm_eye_r, mv_mscale in H. rewrite <- H. destruct m as [x y z].
  unfold vsub, vadd; cbn [vx vy vz]. apply V3_eq; ring.
Qed.

(** ** One body *)
Definition has_property (e : ellipsoid) : bool := match ell_susceptibility e, ell_remanent e with None, None => false | _, _ => true end.

Section Magnetic.
Variable mu_0 : R.

(** In the frame of the sorted axes *)
Definition b_local (a b c : R) (ni : mat3) (ext : vec3 -> mat3) (m : vec3) (p : vec3) : vec3 :=
  if is_internal p a b c then vscale mu_0 (vadd (mv (mscale (- 1) ni) m) m) else vscale mu_0 (mv (mscale (- 1) (ext p)) m).

Lemma single_magnetic e s r h0 q S a b c ni ext : sorted_axes_prop a b c -> q = mm (mT S) (mT (rotation_matrix e)) ->
  (forall ps, local_points (map vx ps, map vy ps, map vz ps) e = Ok (map (fun p => mv q (vsub p (ell_center e))) ps, q, S, a, b, c)) ->
  get_demagnetization_tensor_internal a b c = Ok ni -> get_demagnetization_tensor_external a b c = Ok ext ->
  forall ps, single_ellipsoid_magnetic mu_0 (map vx ps, map vy ps, map vz ps) e s r h0 =
    match solve (madd eye (mm ni (mm (mm (mT S) (cast_susceptibility s)) S)))
                (vadd (mv q (cast_remanent_magnetization r)) (mv (mm (mm (mT S) (cast_susceptibility s)) S) (mv q h0))) with
    | Raise x => Raise x
    | Ok m => Ok (map (world q (ell_center e) (b_local a b c ni ext m)) ps)
    end.
Proof.
  intros So Eq LP Ei Ee ps. unfold single_ellipsoid_magnetic. rewrite LP. cbn [bind]. rewrite Ei. cbn [bind]. rewrite magnetisation_system by exact So.
  destruct (solve _ _) as [m|x]; cbn [bind]; [|reflexivity]. rewrite Ee. cbn [bind]. rewrite map_map. reflexivity.
Qed.

Lemma external_exists a b c : sorted_axes_prop a b c -> exists ext, get_demagnetization_tensor_external a b c = Ok ext.
Proof.
  intros S. destruct (shape_dec a b c) as [E|N].
  - destruct (external_sphere a b c S E) as (ext & H & _). now exists ext.
  - destruct (external_nonsphere a b c S N) as (f & A & B & C & a' & b' & c' & ext & _ & _ & _ & _ & _ & _ & _ & _ & H & _). now exists ext.
Qed.

(** The field of one body at one point *)
Definition body_b (h0 : vec3) (e : ellipsoid) (p : vec3) : vec3 :=
  if has_property e then
    match single_ellipsoid_magnetic mu_0 ([vx p], [vy p], [vz p]) e (ell_susceptibility e) (ell_remanent e) h0 with Ok [v] => v | _ => V3 0 0 0 end
  else V3 0 0 0.
(** The system for the magnetisation can be solved *)
Definition solvable (h0 : vec3) (e : ellipsoid) : Prop :=
  has_property e = true -> exists v, single_ellipsoid_magnetic mu_0 ([], [], []) e (ell_susceptibility e) (ell_remanent e) h0 = Ok v.

Lemma body_b_ok h0 e : positive_axes e -> solvable h0 e -> has_property e = true ->
  forall ps, single_ellipsoid_magnetic mu_0 (map vx ps, map vy ps, map vz ps) e (ell_susceptibility e) (ell_remanent e) h0 = Ok (map (body_b h0 e) ps).
Proof.
  intros P So HP ps. destruct (local_points_ok e) as (q & S & a & b & c & Q & Eq & H & LP). assert (SA := sorts_positive e S a b c H P).
  destruct (internal_ok a b c SA) as (nx & ny & nz & Ei & _). destruct (external_exists a b c SA) as (ext & Ee).
  assert (B := single_magnetic e (ell_susceptibility e) (ell_remanent e) h0 q S a b c _ ext SA Eq LP Ei Ee).
  destruct (So HP) as (v & Hv). assert (B0 := B []). cbn [map] in B0. rewrite B0 in Hv.
  destruct (solve _ _) as [m|x]; [|discriminate]. rewrite B. f_equal. apply map_ext. intros p.
  unfold body_b. rewrite HP. assert (B1 := B [p]). cbn [map] in B1. rewrite B1. reflexivity.
Qed.

Lemma body_b_raises h0 e : positive_axes e -> ~ solvable h0 e ->
  forall ps, single_ellipsoid_magnetic mu_0 (map vx ps, map vy ps, map vz ps) e (ell_susceptibility e) (ell_remanent e) h0 = Raise LinAlgError.
Proof.
  intros P So ps. destruct (local_points_ok e) as (q & S & a & b & c & Q & Eq & H & LP). assert (SA := sorts_positive e S a b c H P).
  destruct (internal_ok a b c SA) as (nx & ny & nz & Ei & _). destruct (external_exists a b c SA) as (ext & Ee).
  assert (B := single_magnetic e (ell_susceptibility e) (ell_remanent e) h0 q S a b c _ ext SA Eq LP Ei Ee). rewrite B.
  match goal with |- match solve ?m ?r with _ => _ end = _ => destruct (Req_dec (det m) 0) as [D|D] end; [rewrite solve_singular by exact D; reflexivity|].
  exfalso. apply So. intros _. exists []. assert (B0 := B []). cbn [map] in B0. rewrite B0.
  match goal with |- match solve ?m ?r with _ => _ end = _ => destruct (solve_ok m r D) as (x & -> & _) end. reflexivity.
Qed.

Definition vsum_b (h0 : vec3) (l : list ellipsoid) (p : vec3) : vec3 := vsum l (fun e => body_b h0 e p).

Lemma magnetic_several l sh ps F : Forall positive_axes l -> Forall (solvable (h0_of mu_0 F)) l -> prod_shape sh = length ps ->
  ellipsoid_magnetic mu_0 (coordinates_of sh ps) (Several l) F =
  Ok (magnetic_arrays sh (vsum_b (h0_of mu_0 F) l) ps, length (filter (fun e => negb (has_property e)) l)).
Proof.
  intros Fp Fs Hs. unfold ellipsoid_magnetic, coordinates_of. rewrite broadcast3_same by reflexivity. cbn [bind ravel data shape as_list].
  assert (EH : V3 (vx (vscale (/ 10 ^ 9) F) / mu_0) (vy (vscale (/ 10 ^ 9) F) / mu_0) (vz (vscale (/ 10 ^ 9) F) / mu_0) = h0_of mu_0 F).
  { unfold h0_of, Rdiv. unfold vscale at 4. apply V3_eq; apply Rmult_comm. }
  rewrite EH. clear EH. set (h0 := h0_of mu_0 F) in *. clearbody h0. clear F.
  assert (K : forall l, Forall positive_axes l -> Forall (solvable h0) l -> forall (g0 : vec3 -> vec3) n,
    for_ l (fun e (state : list vec3 * nat) => let '(field, warnings) := state in
      match ell_susceptibility e, ell_remanent e with
      | None, None => Ok (field, S warnings)
      | susceptibility, remanent =>
          do bi <- single_ellipsoid_magnetic mu_0 (map vx ps, map vy ps, map vz ps) e susceptibility remanent h0;
          Ok (add_points field bi, warnings)
      end) (map g0 ps, n) = Ok (map (fun p => vadd (g0 p) (vsum_b h0 l p)) ps, (n + length (filter (fun e => negb (has_property e)) l))%nat)).
  { clear l Fp Fs. intros l Fp. induction Fp as [|e l P Fp IH]; intros Fs g0 n.
    - cbn [for_ filter length]. rewrite Nat.add_0_r. do 2 f_equal. apply map_ext. intros p. destruct (g0 p) as [x y z]. unfold vadd, vsum_b, vsum, sum_over; cbn. apply V3_eq; ring.
    - assert (Fs' := Forall_inv_tail Fs). assert (So := Forall_inv Fs). cbn [for_]. destruct (has_property e) eqn:HP.
      + assert (BO := body_b_ok h0 e P So HP ps). cbn [filter]. rewrite HP. cbn [negb].
        assert (E : match ell_susceptibility e, ell_remanent e with
             | None, None => Ok (map g0 ps, S n)
             | susceptibility, remanent => do bi <- single_ellipsoid_magnetic mu_0 (map vx ps, map vy ps, map vz ps) e susceptibility remanent h0; Ok (add_points (map g0 ps) bi, n)
             end = Ok (map (fun p => vadd (g0 p) (body_b h0 e p)) ps, n)).
        { unfold has_property in HP. destruct (ell_susceptibility e), (ell_remanent e); try discriminate HP; rewrite BO; cbn [bind]; rewrite add_points_map; reflexivity. }
        rewrite E. cbn [bind]. rewrite IH by exact Fs'. f_equal. f_equal. apply map_ext. intros p.
        unfold vadd, vsum_b, vsum; cbn [vx vy vz]. rewrite !sum_over_cons. apply V3_eq; ring.
      + assert (Z : forall p, body_b h0 e p = V3 0 0 0) by (intros p; unfold body_b; rewrite HP; reflexivity).
        assert (E : match ell_susceptibility e, ell_remanent e with
             | None, None => Ok (map g0 ps, S n)
             | susceptibility, remanent => do bi <- single_ellipsoid_magnetic mu_0 (map vx ps, map vy ps, map vz ps) e susceptibility remanent h0; Ok (add_points (map g0 ps) bi, n)
             end = Ok (map g0 ps, S n)).
        { clear Z. unfold has_property in HP. destruct (ell_susceptibility e), (ell_remanent e); try discriminate HP; reflexivity. }
        rewrite E. cbn [bind]. rewrite IH by exact Fs'. cbn [filter]. rewrite HP. cbn [negb length]. rewrite Nat.add_succ_r. f_equal. f_equal. apply map_ext. intros p.
        unfold vadd, vsum_b, vsum; cbn [vx vy vz]. rewrite !sum_over_cons. rewrite Z. cbn [vx vy vz]. apply V3_eq; ring. }
  rewrite map_map. rewrite (K l Fp Fs (fun _ => V3 0 0 0) 0%nat). cbn [bind]. rewrite !map_map.
  rewrite !reshape_ok by (exact Hs). cbn [bind]. unfold magnetic_arrays. rewrite Nat.add_0_l.
  assert (Z : forall p, vadd (V3 0 0 0) (vsum_b h0 l p) = vsum_b h0 l p) by (intros p; unfold vadd, vsum_b, vsum; cbn [vx vy vz]; apply V3_eq; ring).
  assert (M : forall (x : vec3 -> R), map (fun p => x (vadd (V3 0 0 0) (vsum_b h0 l p))) ps = map (fun p => x (vsum_b h0 l p)) ps)
    by (intros x; apply map_ext; intros p; rewrite Z; reflexivity).
  rewrite (M (fun v => 10 ^ 9 * vx v)), (M (fun v => 10 ^ 9 * vy v)), (M (fun v => 10 ^ 9 * vz v)). reflexivity.
Qed.

Lemma magnetic_single e sh ps F : positive_axes e -> solvable (h0_of mu_0 F) e -> prod_shape sh = length ps ->
  ellipsoid_magnetic mu_0 (coordinates_of sh ps) (Single e) F =
  Ok (magnetic_arrays sh (body_b (h0_of mu_0 F) e) ps, if has_property e then 0%nat else 1%nat).
Proof.
  intros P So Hs. assert (E := magnetic_several [e] sh ps F (Forall_cons _ P (Forall_nil _)) (Forall_cons _ So (Forall_nil _)) Hs).
  unfold ellipsoid_magnetic in E |- *. cbn [as_list] in E |- *. rewrite E.
  assert (M : forall (x : vec3 -> R), map (fun p => x (vsum_b (h0_of mu_0 F) [e] p)) ps = map (fun p => x (body_b (h0_of mu_0 F) e p)) ps).
  { intros x. apply map_ext. intros p. f_equal. unfold vsum_b, vsum, sum_over; cbn [map sumR fold_right]. destruct (body_b (h0_of mu_0 F) e p) as [x' y' z']; cbn [vx vy vz]. apply V3_eq; ring. }
  unfold magnetic_arrays. rewrite (M (fun v => 10 ^ 9 * vx v)), (M (fun v => 10 ^ 9 * vy v)), (M (fun v => 10 ^ 9 * vz v)).
  cbn [filter]. destruct (has_property e); reflexivity.
Qed.

(** ** The field of one body in the frame of the coordinates *)
Lemma q_isotropic q S k : orthogonal S -> mm (mm (mT S) (mscale k eye)) S = mscale k eye /\ mm (mm (mT q) (mscale k eye)) q = mscale k (mm (mT q) q).
Proof.
  intros [_ H]. rewrite !mm_mscale_r, !mm_mscale_l, !mm_eye_r, H. split; reflexivity.
Qed.

Lemma rotate_tensor q n v : orthogonal q -> mv (mT q) (mv n (mv q v)) = mv (mm (mm (mT q) n) q) v.
Proof. intros H. rewrite !mv_mm. reflexivity. Qed.

Lemma body_normal_ok e q S a b c p : sorts e S a b c -> q = mm (mT S) (mT (rotation_matrix e)) ->
  let x := mv q (vsub p (ell_center e)) in mv (mT q) (V3 (vx x / a ^ 2) (vy x / b ^ 2) (vz x / c ^ 2)) = body_normal e p.
Proof.
  intros (_ & _ & F & _) Eq x. assert (D := F (fun t => / t ^ 2)). unfold body_normal.
  assert (E1 : V3 (vx x / a ^ 2) (vy x / b ^ 2) (vz x / c ^ 2) = mv (diag (/ a ^ 2) (/ b ^ 2) (/ c ^ 2)) x) by (unfold mv, diag, dot; cbn [vx vy vz row1 row2 row3]; unfold Rdiv; apply V3_eq; ring).
  set (y := own_coordinates e p).
  assert (E2 : V3 (vx y / ell_a e ^ 2) (vy y / ell_b e ^ 2) (vz y / ell_c e ^ 2) = mv (diag (/ ell_a e ^ 2) (/ ell_b e ^ 2) (/ ell_c e ^ 2)) y) by (unfold mv, diag, dot; cbn [vx vy vz row1 row2 row3]; unfold Rdiv; apply V3_eq; ring).
  rewrite E1, E2. cbv beta in D. rewrite <- D. unfold x, y, own_coordinates. rewrite Eq, mT_mm, !mT_mT, !mv_mm. reflexivity.
Qed.

Lemma body_b_world h0 e q S a b c ni ext m : sorted_axes_prop a b c -> q = mm (mT S) (mT (rotation_matrix e)) ->
  (forall ps, local_points (map vx ps, map vy ps, map vz ps) e = Ok (map (fun p => mv q (vsub p (ell_center e))) ps, q, S, a, b, c)) ->
  get_demagnetization_tensor_internal a b c = Ok ni -> get_demagnetization_tensor_external a b c = Ok ext ->
  solve (madd eye (mm ni (mm (mm (mT S) (cast_susceptibility (ell_susceptibility e))) S)))
        (vadd (mv q (cast_remanent_magnetization (ell_remanent e))) (mv (mm (mm (mT S) (cast_susceptibility (ell_susceptibility e))) S) (mv q h0))) = Ok m ->
  has_property e = true -> solvable h0 e /\ forall p, body_b h0 e p = world q (ell_center e) (b_local a b c ni ext m) p.
Proof.
  intros SA Eq LP Ei Ee Sm HP. assert (B := single_magnetic e (ell_susceptibility e) (ell_remanent e) h0 q S a b c ni ext SA Eq LP Ei Ee). rewrite Sm in B. split.
  - intros _. exists []. apply (B []).
  - intros p. unfold body_b. rewrite HP. assert (B1 := B [p]). cbn [map] in B1. rewrite B1. reflexivity.
Qed.

(** The internal and external demagnetisation tensors of a body in the frame of the coordinates. *)
Lemma body_magnetic e m_world q S a b c ni ext m : orthogonal q -> sorts e S a b c -> q = mm (mT S) (mT (rotation_matrix e)) ->
  m_world = mv (mT q) m -> forall p,
  world q (ell_center e) (b_local a b c ni ext m) p =
    if Rltb (body_level e p) 1
    then vscale mu_0 (vsub m_world (mv (mm (mm (mT q) ni) q) m_world))
    else vscale (- mu_0) (mv (mm (mm (mT q) (ext (mv q (vsub p (ell_center e))))) q) m_world).
Proof.
  intros Q H Eq -> p. unfold world, b_local. rewrite <- (sorts_level e S a b c p H). rewrite <- Eq. change (is_internal (mv q (vsub p (ell_center e))) a b c) with (Rltb (level a b c (mv q (vsub p (ell_center e)))) 1).
  rewrite !mv_mm. rewrite (orthogonal_back q m Q). destruct (Rltb _ 1).
  - rewrite mv_vscale. f_equal. rewrite mv_mscale, mv_vadd, mv_vscale. unfold vadd, vsub, vscale; cbn [vx vy vz]. apply V3_eq; ring.
  - rewrite mv_vscale, mv_mscale, mv_vscale. unfold vscale; cbn [vx vy vz]. apply V3_eq; ring.
Qed.
End Magnetic.
