(** From the frame of the sorted axes to the frame of the coordinates (C32-C36, C81, C82). *)
From Coquelicot Require Import Coquelicot.
From Coq Require Import Psatz Permutation.
From Verif Require Import Base BaseFacts NumPy NumPyFacts PointGravityModel OasisModel LayerModel EllipsoidModel EllipsoidSpec EllipsoidRotProofs EllipsoidLambdaProofs
  EllipsoidIntProofs EllipsoidShapeProofs EllipsoidFieldProofs EllipsoidLocalProofs.
Local Open Scope R_scope.

(** ** Algebra *)
Lemma trace_mm a b : trace (mm a b) = trace (mm b a).
Proof. unfold trace. mat. ring. Qed.
Lemma trace_rot q m : orthogonal q -> trace (mm (mm (mT q) m) q) = trace m.
Proof. intros [H _]. rewrite trace_mm, <- mm_assoc, H, mm_eye_l. reflexivity. Qed.
Lemma symmetric_rot q m : symmetric m -> symmetric (mm (mm (mT q) m) q).
Proof. unfold symmetric. intros H. rewrite !mT_mm, mT_mT, H, mm_assoc. reflexivity. Qed.
Lemma mv_vadd m u v : mv m (vadd u v) = vadd (mv m u) (mv m v).
Proof. unfold mv, vadd, dot; cbn [vx vy vz]. apply V3_eq; ring. Qed.
Lemma mv_vsub m u v : mv m (vsub u v) = vsub (mv m u) (mv m v).
Proof. unfold mv, vsub, dot; cbn [vx vy vz]. apply V3_eq; ring. Qed.
Lemma mv_vscale m k v : mv m (vscale k v) = vscale k (mv m v).
Proof. unfold mv, vscale, dot; cbn [vx vy vz]. apply V3_eq; ring. Qed.
Lemma mv_mscale k m v : mv (mscale k m) v = vscale k (mv m v).
Proof. unfold mv, vscale, mscale, dot; cbn [vx vy vz row1 row2 row3]. unfold vscale; cbn [vx vy vz]. apply V3_eq; ring. Qed.
Lemma mm_mscale_l k a b : mm (mscale k a) b = mscale k (mm a b).
Proof.
  destruct a as [[a1 a2 a3] [a4 a5 a6] [a7 a8 a9]], b as [[b1 b2 b3] [b4 b5 b6] [b7 b8 b9]].
  unfold mscale, vscale; cbn [vx vy vz row1 row2 row3]. rewrite !mm_explicit. cbn [vx vy vz row1 row2 row3]. apply M3_eq; ring.
Qed.
Lemma mm_mscale_r k a b : mm a (mscale k b) = mscale k (mm a b).
Proof.
  destruct a as [[a1 a2 a3] [a4 a5 a6] [a7 a8 a9]], b as [[b1 b2 b3] [b4 b5 b6] [b7 b8 b9]].
  unfold mscale, vscale; cbn [vx vy vz row1 row2 row3]. rewrite !mm_explicit. cbn [vx vy vz row1 row2 row3]. apply M3_eq; ring.
Qed.
Lemma trace_mscale k m : trace (mscale k m) = k * trace m.
Proof. unfold trace, mscale, vscale; cbn [vx vy vz row1 row2 row3]. ring. Qed.
Lemma symmetric_mscale k m : symmetric m -> symmetric (mscale k m).
Proof.
  unfold symmetric. intros H. rewrite <- H at 2. destruct m as [[a1 a2 a3] [a4 a5 a6] [a7 a8 a9]]. unfold mT, mscale, vscale; cbn [vx vy vz row1 row2 row3]. reflexivity.
Qed.

(** A vector field given in rotated and shifted coordinates *)
Definition world (q : mat3) (o : vec3) (g : vec3 -> vec3) (p : vec3) : vec3 := mv (mT q) (g (mv q (vsub p o))).

Lemma world_line q o p u t : mv q (vsub (vadd p (vscale t u)) o) = vadd (mv q (vsub p o)) (vscale t (mv q u)).
Proof. rewrite <- mv_vscale, <- mv_vadd. f_equal. unfold vsub, vadd, vscale; cbn [vx vy vz]. apply V3_eq; ring. Qed.

Lemma world_jacobian q o g J p : has_jacobian g (mv q (vsub p o)) J -> has_jacobian (world q o g) p (mm (mm (mT q) J) q).
Proof.
  intros (H1 & H2 & H3). set (p' := mv q (vsub p o)) in *.
  assert (K : forall r : vec3, has_gradient (fun x => dot r (g (mv q (vsub x o)))) p (mv (mT q) (mv (mT J) r))).
  { intros r u. apply (is_derive_ext (fun t => vx r * vx (g (vadd p' (vscale t (mv q u)))) + vy r * vy (g (vadd p' (vscale t (mv q u)))) + vz r * vz (g (vadd p' (vscale t (mv q u)))))).
    - intros t. unfold dot. rewrite world_line. reflexivity.
    - replace (dot (mv (mT q) (mv (mT J) r)) u) with (vx r * dot (row1 J) (mv q u) + vy r * dot (row2 J) (mv q u) + vz r * dot (row3 J) (mv q u)).
      2: { rewrite dot_mv, dot_mv, !mT_mT. unfold dot at 4. unfold mv at 4 5 6. cbn [vx vy vz]. reflexivity. }
      apply (is_derive_plus (fun t => vx r * vx (g (vadd p' (vscale t (mv q u)))) + vy r * vy (g (vadd p' (vscale t (mv q u))))) (fun t => vz r * vz (g (vadd p' (vscale t (mv q u)))))).
      + apply (is_derive_plus (fun t => vx r * vx (g (vadd p' (vscale t (mv q u))))) (fun t => vy r * vy (g (vadd p' (vscale t (mv q u)))))).
        * apply (is_derive_scal (fun t => vx (g (vadd p' (vscale t (mv q u)))))). apply H1.
        * apply (is_derive_scal (fun t => vy (g (vadd p' (vscale t (mv q u)))))). apply H2.
      + apply (is_derive_scal (fun t => vz (g (vadd p' (vscale t (mv q u)))))). apply H3. }
  assert (R : forall i : mat3 -> vec3, (forall a b, i (mm a b) = mv (mT b) (i a)) -> i (mm (mm (mT q) J) q) = mv (mT q) (mv (mT J) (i (mT q)))).
  { intros i Hi. rewrite !Hi. reflexivity. }
  split; [|split].
  - rewrite (R row1) by reflexivity. apply (K (row1 (mT q))).
  - rewrite (R row2) by reflexivity. apply (K (row2 (mT q))).
  - rewrite (R row3) by reflexivity. apply (K (row3 (mT q))).
Qed.

Lemma orthogonal_eucl q u v : orthogonal q -> eucl (mv q u) (mv q v) = eucl u v.
Proof. intros H. unfold eucl. rewrite <- mv_vsub. apply orthogonal_norm, H. Qed.

Lemma eucl_shift o u v : eucl (vsub u o) (vsub v o) = eucl u v.
Proof. unfold eucl. f_equal. unfold vsub; cbn [vx vy vz]. apply V3_eq; ring. Qed.

Lemma world_continuous q o g p : orthogonal q -> continuous_at g (mv q (vsub p o)) -> continuous_at (world q o g) p.
Proof.
  intros Q H eps He. destruct (H eps He) as (d & Hd & K). exists d. split; [exact Hd|]. intros r Hr. unfold world.
  rewrite orthogonal_eucl by (apply orthogonal_mT, Q). apply K. rewrite orthogonal_eucl by exact Q. rewrite eucl_shift. exact Hr.
Qed.

(** ** Points *)
Lemma combine3 {A B C D} (f : A -> B) (g : A -> C) (h : A -> D) l :
  combine (map f l) (combine (map g l) (map h l)) = map (fun x => (f x, (g x, h x))) l.
Proof. induction l as [|x l IH]; [reflexivity|]. cbn [map combine]. rewrite IH. reflexivity. Qed.

Lemma local_points_ok e : exists q S a b c, orthogonal q /\ q = mm (mT S) (mT (rotation_matrix e)) /\ sorts e S a b c /\
  (forall ps, local_points (map vx ps, map vy ps, map vz ps) e = Ok (map (fun p => mv q (vsub p (ell_center e))) ps, q, S, a, b, c)).
Proof.
  destruct (semiaxes_rotation e) as (S & a & b & c & HS & Hax & H). exists (mm (mT S) (mT (rotation_matrix e))), S, a, b, c.
  assert (HSo := H). destruct HSo as (_ & (So & _) & _).
  split; [apply orthogonal_mm; apply orthogonal_mT; [exact So | apply rotation_orthogonal]|]. split; [reflexivity|]. split; [exact H|].
  intros ps. unfold local_points. destruct (ell_center e) as [oe on ou]. rewrite Hax. cbn [bind]. rewrite HS. cbn [bind].
  unfold vstack. rewrite !map_length, !Nat.eqb_refl. cbn [andb bind]. rewrite !map_map, combine3, !map_map. reflexivity.
Qed.

Lemma sorts_level e S a b c p : sorts e S a b c ->
  level a b c (mv (mm (mT S) (mT (rotation_matrix e))) (vsub p (ell_center e))) = body_level e p.
Proof. intros H. rewrite mv_mm. unfold body_level, own_coordinates. apply (sorted_level e S a b c _ H). Qed.

Lemma sorts_positive e S a b c : sorts e S a b c -> positive_axes e -> sorted_axes_prop a b c.
Proof.
  intros ((H1 & H2) & _ & _ & (s & P & ->)) (Pa & Pb & Pc). split; [|split; assumption].
  assert (I : In c [ell_a e; ell_b e; ell_c e]) by (apply (Permutation_in _ P); right; right; left; reflexivity).
  destruct I as [<-|[<-|[<-|[]]]]; assumption.
Qed.

Lemma sorts_well_shaped e S a b c : sorts e S a b c -> well_proportioned e -> well_shaped a b c.
Proof.
  intros H (P & W). assert (S0 := sorts_positive e S a b c H P). split; [exact S0|]. destruct S0 as (_ & Hb & Ha).
  destruct H as (_ & _ & _ & (s & Pm & ->)).
  assert (I : forall x, In x [a; b; c] -> In x [ell_a e; ell_b e; ell_c e]) by (intros x; apply Permutation_in, Pm).
  split; apply W; try assumption; apply I; [left | right; left | right; left | right; right; left]; reflexivity.
Qed.

(** ** Gravity of one body *)
Definition gravity_local (a b c rho : R) (g : vec3 -> vec3) : Prop := forall points, compute_gravity_ellipsoid points a b c rho = Ok (map g points).

Lemma gravity_body e rho q S a b c g : q = mm (mT S) (mT (rotation_matrix e)) ->
  (forall ps, local_points (map vx ps, map vy ps, map vz ps) e = Ok (map (fun p => mv q (vsub p (ell_center e))) ps, q, S, a, b, c)) ->
  gravity_local a b c rho g ->
  forall ps, gravity_of_ellipsoid (map vx ps, map vy ps, map vz ps) e rho = Ok (map (world q (ell_center e) g) ps).
Proof. intros Eq LP GL ps. unfold gravity_of_ellipsoid. rewrite LP. cbn [bind]. rewrite GL. cbn [bind]. rewrite !map_map. reflexivity. Qed.

Lemma add_points_map {A} (f g : A -> vec3) l : add_points (map f l) (map g l) = map (fun x => vadd (f x) (g x)) l.
Proof. induction l as [|x l IH]; [reflexivity|]. unfold add_points in *. cbn [map combine fst snd]. rewrite IH. reflexivity. Qed.

(** The field of one body at one point, and of a list *)
Definition body_g (e : ellipsoid) (p : vec3) : vec3 :=
  match ell_density e with
  | None => V3 0 0 0
  | Some rho => match gravity_of_ellipsoid ([vx p], [vy p], [vz p]) e rho with Ok [v] => v | _ => V3 0 0 0 end
  end.
Definition no_density (e : ellipsoid) : bool := match ell_density e with None => true | Some _ => false end.
Definition vsum (l : list ellipsoid) (f : ellipsoid -> vec3) : vec3 :=
  V3 (sum_over l (fun e => vx (f e))) (sum_over l (fun e => vy (f e))) (sum_over l (fun e => vz (f e))).

Lemma gravity_local_exists a b c rho : sorted_axes_prop a b c -> exists g, gravity_local a b c rho g.
Proof.
  intros S. destruct (shape_dec a b c) as [E|N].
  - exists (sphere_field a b c (- 4 / 3 * PI * a ^ 3 * G * rho)). intros pts. apply gravity_sphere; assumption.
  - destruct (gravity_nonsphere a b c S N) as (f & A & B & C & a' & b' & c' & _ & _ & _ & _ & _ & _ & _ & _ & Gr).
    eexists. intros pts. apply Gr.
Qed.

Lemma body_g_ok e rho : positive_axes e -> ell_density e = Some rho ->
  forall ps, gravity_of_ellipsoid (map vx ps, map vy ps, map vz ps) e rho = Ok (map (body_g e) ps).
Proof.
  intros P D ps. destruct (local_points_ok e) as (q & S & a & b & c & Q & Eq & H & LP).
  destruct (gravity_local_exists a b c rho (sorts_positive e S a b c H P)) as (g & GL).
  assert (B := gravity_body e rho q S a b c g Eq LP GL). rewrite B. f_equal. apply map_ext. intros p. unfold body_g. rewrite D.
  assert (B1 := B [p]). cbn [map] in B1. rewrite B1. reflexivity.
Qed.

Lemma reshape_ok {A} sh (f : A -> R) l : prod_shape sh = length l -> reshape (map f l) sh = Ok (Arr sh (map f l)).
Proof. intros H. unfold reshape. rewrite map_length, H, Nat.eqb_refl. reflexivity. Qed.

Lemma gravity_several l sh ps : Forall positive_axes l -> prod_shape sh = length ps ->
  ellipsoid_gravity (coordinates_of sh ps) (Several l) =
  Ok (gravity_arrays sh (fun p => vsum l (fun e => body_g e p)) ps, length (filter no_density l)).
Proof.
  intros F Hs. unfold ellipsoid_gravity, coordinates_of. rewrite broadcast3_same by reflexivity. cbn [bind ravel data shape as_list].
  assert (K : forall l, Forall positive_axes l -> forall (g0 : vec3 -> vec3) n,
    for_ l (fun e (state : list vec3 * nat) => let '(g, warnings) := state in
      match ell_density e with
      | None => Ok (g, S warnings)
      | Some density => do gi <- gravity_of_ellipsoid (map vx ps, map vy ps, map vz ps) e density; Ok (add_points g gi, warnings)
      end) (map g0 ps, n) = Ok (map (fun p => vadd (g0 p) (vsum l (fun e => body_g e p))) ps, (n + length (filter no_density l))%nat)).
  { clear l F. intros l F. induction F as [|e l P F IH]; intros g0 n.
    - cbn [for_ filter length]. rewrite Nat.add_0_r. do 2 f_equal. apply map_ext. intros p. destruct (g0 p) as [x y z]. unfold vadd, vsum, sum_over; cbn. apply V3_eq; ring.
    - cbn [for_]. destruct (ell_density e) as [rho|] eqn:D.
      + rewrite (body_g_ok e rho P D). cbn [bind]. rewrite add_points_map, IH. cbn [filter]. unfold no_density at 2. rewrite D. f_equal. f_equal. apply map_ext. intros p.
        unfold vadd, vsum; cbn [vx vy vz]. rewrite !sum_over_cons. apply V3_eq; ring.
      + cbn [bind]. rewrite IH. cbn [filter]. unfold no_density at 2. rewrite D. cbn [length]. rewrite Nat.add_succ_r. f_equal. f_equal. apply map_ext. intros p.
        unfold vadd, vsum; cbn [vx vy vz]. rewrite !sum_over_cons. assert (Z : body_g e p = V3 0 0 0) by (unfold body_g; rewrite D; reflexivity). rewrite Z. cbn [vx vy vz]. apply V3_eq; ring. }
  rewrite map_map. rewrite (K l F (fun _ => V3 0 0 0) 0%nat). cbn [bind]. rewrite !map_map.
  rewrite !reshape_ok by (exact Hs). cbn [bind]. unfold gravity_arrays. rewrite Nat.add_0_l.
  assert (Z : forall p, vadd (V3 0 0 0) (vsum l (fun e => body_g e p)) = vsum l (fun e => body_g e p)) by (intros p; unfold vadd, vsum; cbn [vx vy vz]; apply V3_eq; ring).
  assert (M : forall (x : vec3 -> R), map (fun p => x (vadd (V3 0 0 0) (vsum l (fun e => body_g e p)))) ps = map (fun p => x (vsum l (fun e => body_g e p))) ps)
    by (intros x; apply map_ext; intros p; rewrite Z; reflexivity).
  rewrite (M (fun v => vx v * 10 ^ 5)), (M (fun v => vy v * 10 ^ 5)), (M (fun v => - vz v * 10 ^ 5)). reflexivity.
Qed.

Lemma vsum_single e p : vsum [e] (fun e => body_g e p) = body_g e p.
Proof. unfold vsum, sum_over; cbn [map sumR fold_right]. destruct (body_g e p) as [x y z]; cbn [vx vy vz]. apply V3_eq; ring. Qed.

Lemma gravity_single e sh ps : positive_axes e -> prod_shape sh = length ps ->
  ellipsoid_gravity (coordinates_of sh ps) (Single e) = Ok (gravity_arrays sh (body_g e) ps, if no_density e then 1%nat else 0%nat).
Proof.
  intros P Hs. change (Single e) with (Single e). assert (E := gravity_several [e] sh ps (Forall_cons _ P (Forall_nil _)) Hs).
  unfold ellipsoid_gravity in E |- *. cbn [as_list] in E |- *. rewrite E.
  assert (M : forall (x : vec3 -> R), map (fun p => x (vsum [e] (fun e => body_g e p))) ps = map (fun p => x (body_g e p)) ps)
    by (intros x; apply map_ext; intros p; rewrite vsum_single; reflexivity).
  unfold gravity_arrays. rewrite (M (fun v => vx v * 10 ^ 5)), (M (fun v => vy v * 10 ^ 5)), (M (fun v => - vz v * 10 ^ 5)).
  cbn [filter]. destruct (no_density e); reflexivity.
Qed.

(** ** The field of one body in detail *)
Lemma body_g_world e rho q S a b c g : q = mm (mT S) (mT (rotation_matrix e)) ->
  (forall ps, local_points (map vx ps, map vy ps, map vz ps) e = Ok (map (fun p => mv q (vsub p (ell_center e))) ps, q, S, a, b, c)) ->
  gravity_local a b c rho g -> ell_density e = Some rho -> forall p, body_g e p = world q (ell_center e) g p.
Proof. intros Eq LP GL D p. unfold body_g. rewrite D. assert (B := gravity_body e rho q S a b c g Eq LP GL [p]). cbn [map] in B. rewrite B. reflexivity. Qed.

Lemma has_jacobian_ext f g p J : (forall q, f q = g q) -> has_jacobian f p J -> has_jacobian g p J.
Proof.
  intros E (H1 & H2 & H3). split; [|split]; intros u.
  - apply (is_derive_ext (fun t => vx (f (vadd p (vscale t u))))); [intros; now rewrite E | apply H1].
  - apply (is_derive_ext (fun t => vy (f (vadd p (vscale t u))))); [intros; now rewrite E | apply H2].
  - apply (is_derive_ext (fun t => vz (f (vadd p (vscale t u))))); [intros; now rewrite E | apply H3].
Qed.
Lemma continuous_at_ext f g p : (forall q, f q = g q) -> continuous_at f p -> continuous_at g p.
Proof. intros E H eps He. destruct (H eps He) as (d & Hd & K). exists d. split; [exact Hd|]. intros r Hr. rewrite <- !E. apply K, Hr. Qed.

(** The local field of an ellipsoid with well separated or equal semi-axes *)
Lemma local_summary a b c rho : well_shaped a b c -> exists g ni ext,
  gravity_local a b c rho g /\ get_demagnetization_tensor_internal a b c = Ok ni /\ get_demagnetization_tensor_external a b c = Ok ext /\
  symmetric ni /\ trace ni = 1 /\
  (forall p, continuous_at g p) /\
  (forall p, level a b c p < 1 -> g p = mv (mscale (- 4 * PI * G * rho) ni) p /\ has_jacobian g p (mscale (- 4 * PI * G * rho) ni)) /\
  (forall p, 1 <= level a b c p -> symmetric (ext p) /\ trace (ext p) = 0) /\
  (forall p, 1 < level a b c p -> has_jacobian g p (mscale (- 4 * PI * G * rho) (ext p))) /\
  (forall p v, level a b c p = 1 -> let n := V3 (vx p / a ^ 2) (vy p / b ^ 2) (vz p / c ^ 2) in
     0 < dot n n /\ vsub (mv ni v) (mv (ext p) v) = vscale (dot n v / dot n n) n).
Proof.
  intros W. assert (W' := W). destruct (well_shaped_effective a b c W) as [Eff Sph]. destruct W as [S _]. assert (S' := S). destruct S as (Hc & Hb & Ha).
  assert (Pa : 0 < a) by lra. assert (Pb : 0 < b) by lra. assert (SA := sq_pos a Pa). assert (SB := sq_pos b Pb). assert (SC := sq_pos c Hc).
  assert (NP : forall p, level a b c p = 1 -> 0 < (vx p / a ^ 2) ^ 2 + (vy p / b ^ 2) ^ 2 + (vz p / c ^ 2) ^ 2).
  { intros p Hp. assert (D := denom_pos a b c Pa Pb Hc p 0 (Rle_refl 0)). rewrite !Rplus_0_r in D. apply D. rewrite <- level_phi. lra. }
  destruct (shape_dec a b c) as [E|N].
  - destruct (Sph E) as [-> ->]. destruct (external_sphere c c c S' E) as (ext & Eext & Hext).
    exists (sphere_field c c c (- 4 / 3 * PI * c ^ 3 * G * rho)), (diag (1 / 3 * 1) (1 / 3 * 1) (1 / 3 * 1)), ext.
    split; [intros pts; apply gravity_sphere; assumption|].
    split; [unfold get_demagnetization_tensor_internal; rewrite check_sorted, sphere_shape, E by exact S'; reflexivity|].
    split; [exact Eext|]. split; [reflexivity|]. split; [unfold trace, diag; cbn [vx vy vz row1 row2 row3]; field|].
    split; [intros p; apply sphere_field_continuous, Hc|].
    assert (NN : forall p, 1 <= level c c c p -> 0 < norm p).
    { intros p Hp. assert (~ norm p < c) by (intros X; apply sphere_internal in X; lra). lra. }
    assert (SQ : forall p, vx p ^ 2 + vy p ^ 2 + vz p ^ 2 = norm p ^ 2) by (intros p; replace (norm p ^ 2) with (norm p * norm p) by ring; rewrite norm_sqr; unfold dot; ring).
    split; [|split; [|split]].
    + intros p Hp. assert (LF : forall x, level c c c x < 1 -> sphere_field c c c (- 4 / 3 * PI * c ^ 3 * G * rho) x = mv (mscale (- 4 * PI * G * rho) (diag (1 / 3 * 1) (1 / 3 * 1) (1 / 3 * 1))) x).
      { intros x Hx. rewrite sphere_field_inside by assumption. f_equal. unfold mscale, diag, vscale; cbn [vx vy vz row1 row2 row3]. apply M3_eq; field; lra. }
      split; [apply LF, Hp|]. apply linear_jacobian. generalize (internal_open c c c Hc Hc Hc p Hp). apply filter_imp. exact LF.
    + intros p Hp. assert (N := NN p Hp). rewrite Hext. split.
      * unfold symmetric, mT, mscale, vscale; cbn [vx vy vz row1 row2 row3]. apply M3_eq; field; lra.
      * rewrite trace_mscale. unfold trace; cbn [vx vy vz row1 row2 row3].
        replace (3 * vx p ^ 2 / norm p ^ 5 - 1 / norm p ^ 3 + (3 * vy p ^ 2 / norm p ^ 5 - 1 / norm p ^ 3) + (3 * vz p ^ 2 / norm p ^ 5 - 1 / norm p ^ 3))
          with (3 * (vx p ^ 2 + vy p ^ 2 + vz p ^ 2) / norm p ^ 5 - 3 / norm p ^ 3) by (field; lra).
        rewrite SQ. field. lra.
    + intros p Hp. rewrite Hext. assert (J := sphere_jacobian_out c c c (- 4 / 3 * PI * c ^ 3 * G * rho) p Hc Hc Hc Hp).
      match type of J with has_jacobian _ _ (mscale ?k ?m) => replace (mscale (- 4 * PI * G * rho) (mscale (- (c ^ 3 / 3)) m)) with (mscale k m); [exact J|] end.
      unfold mscale, vscale; cbn [vx vy vz row1 row2 row3]. apply M3_eq; field; assert (N := NN p (Rlt_le _ _ Hp)); lra.
    + intros p v Hp n. assert (DP := NP p Hp). assert (Nc : norm p = c).
      { rewrite level_sphere in Hp by exact Hc. assert (N := norm_nonneg p). assert (0 <= norm p / c) by (apply Rmult_le_pos; [exact N | left; apply Rinv_0_lt_compat, Hc]).
        assert (norm p / c = 1) by nra. rewrite <- (Rmult_1_l c), <- H0. field. lra. }
      assert (DN : dot n n = / c ^ 2).
      { unfold n, dot; cbn [vx vy vz]. transitivity ((vx p ^ 2 + vy p ^ 2 + vz p ^ 2) / c ^ 4); [field; lra|]. rewrite SQ, Nc. field. lra. }
      rewrite DN. split; [apply Rinv_0_lt_compat; exact SC|]. rewrite Hext, mv_mscale. rewrite Nc.
      unfold n, mv, diag, vsub, vscale, dot; cbn [vx vy vz row1 row2 row3]. apply V3_eq; field; lra.
  - destruct (external_nonsphere a b c S' N) as (f & A & B & C & a' & b' & c' & ext & Ef & Hf & Eff2 & S2 & PA & PB & PC & Gr & Eext & Hext).
    rewrite Eff in Eff2. injection Eff2 as <- <- <-.
    destruct (internal_factors a b c S' N) as (f2 & A2 & B2 & C2 & a2 & b2 & c2 & F & F0 & Eff3 & I). rewrite Eff in Eff3. injection Eff3 as <- <- <-.
    destruct (gravity_nonsphere a b c S' N) as (f3 & A3 & B3 & C3 & a3 & b3 & c3 & _ & _ & (ints & Ei & Hi) & Eff4 & _ & PA3 & PB3 & PC3 & _).
    rewrite Eff in Eff4. injection Eff4 as <- <- <-. rewrite F in Ei. injection Ei as <-. rewrite Hi in F0. injection F0 as EA2 EB2 EC2.
    assert (U : forall e g h, 0 < e -> primitive a b c e g -> primitive a b c e h -> g 0 = h 0).
    { intros e g h He Pg Ph. apply (improper_unique a b c e 0); apply primitive_improper; try assumption; lra. }
    assert (UA : A2 = A 0) by (rewrite <- EA2; apply (U a); assumption). assert (UB : B2 = B 0) by (rewrite <- EB2; apply (U b); assumption).
    assert (UC : C2 = C 0) by (rewrite <- EC2; apply (U c); assumption).
    rewrite UA, UB, UC in I. clear UA UB UC EA2 EB2 EC2 PA3 PB3 PC3 Hi F.
    set (k := - 2 * PI * a * b * c * G * rho).
    exists (field_of_integrals k A B C (lam a b c f)), (diag (a * b * c / 2 * A 0) (a * b * c / 2 * B 0) (a * b * c / 2 * C 0)), ext.
    split; [intros pts; apply Gr|]. split; [exact I|]. split; [exact Eext|]. split; [reflexivity|].
    assert (Sum := fun l Hl => sum_of_integrals a b c A B C Pa Pb Hc PA PB PC l Hl).
    split.
    { unfold trace, diag; cbn [vx vy vz row1 row2 row3]. assert (S0 := Sum 0 (Rle_refl 0)). rewrite root3_0 in S0 by assumption.
      transitivity (a * b * c / 2 * (A 0 + B 0 + C 0)); [ring|]. rewrite S0. field. repeat split; lra. }
    split; [intros p; apply (integrals_field_continuous a b c f k A B C a b c); assumption|].
    split; [|split; [|split]].
    + intros p Hp. assert (LF : forall x, level a b c x < 1 -> field_of_integrals k A B C (lam a b c f) x =
        mv (mscale (- 4 * PI * G * rho) (diag (a * b * c / 2 * A 0) (a * b * c / 2 * B 0) (a * b * c / 2 * C 0))) x).
      { intros x Hx. rewrite integrals_field_inside by exact Hx. f_equal. unfold k, mscale, diag, vscale; cbn [vx vy vz row1 row2 row3]. apply M3_eq; field. }
      split; [apply LF, Hp|]. apply linear_jacobian. generalize (internal_open a b c Pa Pb Hc p Hp). apply filter_imp. exact LF.
    + intros p Hp. destruct (lam_out a b c f Hf p Hp) as (_ & Hl & Pl). rewrite (Hext p Hp). set (l := lam a b c f p) in *.
      destruct (deriv_lambda_symmetric a b c p l Pa Pb Hc Hl) as (D1 & D2 & D3). split.
      * apply symmetric_mscale. unfold symmetric, mT; cbn [vx vy vz row1 row2 row3]. rewrite D1, D2, D3. reflexivity.
      * rewrite trace_mscale. unfold trace; cbn [vx vy vz row1 row2 row3].
        assert (D := deriv_lambda_contraction a b c p l Pa Pb Hc Hl ltac:(lra)). assert (S0 := Sum l Hl). cbv zeta in D.
        match goal with |- ?x * ?y = 0 => replace y with 0; [ring|] end.
        set (dl := spatial_deriv_lambda p a b c l) in *. clearbody dl.
        rewrite <- S0 in D. lra.
    + intros p Hp. destruct (lam_out a b c f Hf p (Rlt_le _ _ Hp)) as (_ & Hl & Pl). rewrite (Hext p (Rlt_le _ _ Hp)). set (l := lam a b c f p) in *.
      destruct (deriv_lambda_symmetric a b c p l Pa Pb Hc Hl) as (D1 & D2 & D3).
      assert (J := integrals_jacobian_out a b c f k A B C a b c p S' Hf PA PB PC Hp). cbv zeta in J. fold l in J.
      match type of J with has_jacobian _ _ ?m => match goal with |- has_jacobian _ _ ?m' => replace m' with m; [exact J|] end end.
      rewrite <- D1, <- D2, <- D3. unfold k, mscale, vscale; cbn [vx vy vz row1 row2 row3]. apply M3_eq; field.
    + intros p v Hp n. assert (DP := NP p Hp).
      assert (DN : dot n n = (vx p / a ^ 2) ^ 2 + (vy p / b ^ 2) ^ 2 + (vz p / c ^ 2) ^ 2) by (unfold n, dot; cbn [vx vy vz]; ring).
      rewrite DN. split; [exact DP|].
      assert (L0 : lam a b c f p = 0).
      { destruct (lam_out a b c f Hf p ltac:(lra)) as (_ & Hl & Pl). destruct (Rle_lt_or_eq_dec 0 _ Hl) as [X|X]; [|symmetry; exact X].
        assert (Y := phi_strict a b c Pa Pb Hc 0 (lam a b c f p) p (Rle_refl 0) X). rewrite <- level_phi in Y. lra. }
      rewrite (Hext p ltac:(lra)), L0, mv_mscale. unfold spatial_deriv_lambda, integrand. fold (root3 a b c 0). rewrite !root3_0 by assumption. rewrite !Rplus_0_r.
      set (d := (vx p / a ^ 2) ^ 2 + (vy p / b ^ 2) ^ 2 + (vz p / c ^ 2) ^ 2) in *. clearbody d.
      unfold n, mv, diag, vsub, vscale, dot; cbn [vx vy vz row1 row2 row3]. apply V3_eq; field; repeat split; lra.
Qed.
