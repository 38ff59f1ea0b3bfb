From Coq Require Import Permutation.
From Verif Require Import Base BaseFacts NumPy NumPyFacts DistanceModel DistanceSpec DistanceProofs PointGravityModel PointGravitySpec PointGravityProofs
  TesseroidModel TesseroidSpec TesseroidCheckProofs TesseroidAdaptProofs TesseroidProofs.
Local Open Scope string_scope. Local Open Scope list_scope. Local Open Scope R_scope.
Local Opaque MAX_DISCRETIZATIONS STACK_SIZE.

(** ** Superposition *)
Lemma checks_ok disable ps ts ts' : checks disable ps ts = Ok ts' <->
  if disable then ts' = ts else
  Forall bounds_ok ts /\ Forall2 moved ts ts' /\ Forall width_ok ts' /\ (forall p t, In p ps -> In t ts' -> ~ inside p t).
Proof.
  unfold checks. destruct disable; [split; congruence|]. split.
  - destruct (check_tesseroids_R ts) as [l|] eqn:E; cbn [bind]; [|discriminate].
    pose proof (proj1 (check_tesseroids_ok ts l) E) as (A & B & C).
    destruct (check_points_outside_tesseroids ps l) as [[]|] eqn:F; cbn [bind]; [|discriminate]. intros [= <-].
    repeat split; auto. apply (check_points_spec ps l (Forall2_moved_bounds _ _ A B)). exact F.
  - intros (A & B & C & D). rewrite (proj2 (check_tesseroids_ok ts ts')) by auto. cbn [bind].
    rewrite (proj2 (proj2 (check_points_spec ps ts' (Forall2_moved_bounds _ _ A B))) D). reflexivity.
Qed.

Lemma checks_app disable ps ts1 ts2 a b : checks disable ps ts1 = Ok a -> checks disable ps ts2 = Ok b -> checks disable ps (ts1 ++ ts2) = Ok (a ++ b).
Proof.
  rewrite !checks_ok. destruct disable; [congruence|].
  intros (A1 & A2 & A3 & A4) (B1 & B2 & B3 & B4). repeat split.
  - now apply Forall_app.
  - now apply Forall2_app.
  - now apply Forall_app.
  - intros p t Hp Ht. apply in_app_iff in Ht. destruct Ht; auto.
Qed.

Lemma checks_app_inv disable ps ts1 ts2 l : checks disable ps (ts1 ++ ts2) = Ok l ->
  exists a b, l = a ++ b /\ checks disable ps ts1 = Ok a /\ checks disable ps ts2 = Ok b.
Proof.
  setoid_rewrite checks_ok. destruct disable; [intros ->; eauto|].
  intros (A1 & A2 & A3 & A4). apply Forall_app in A1. destruct A1 as [A1 B1].
  apply Forall2_app_inv_l in A2. destruct A2 as (a & b & A2 & B2 & ->). apply Forall_app in A3. destruct A3 as [A3 B3].
  exists a, b. split; [reflexivity|]. repeat split; auto; intros p t Hp Ht; apply A4; auto; apply in_app_iff; auto.
Qed.

Lemma combine_app {A B} (a1 a2 : list A) (b1 b2 : list B) : length a1 = length b1 -> combine (a1 ++ a2) (b1 ++ b2) = combine a1 b1 ++ combine a2 b2.
Proof. revert b1; induction a1 as [|x a IH]; intros [|y b] H; simpl in *; try discriminate; auto. f_equal. apply IH. lia. Qed.

Lemma nth_map_R {A} (f : A -> R) l k d : nth k (map f l) 0 = match nth_error l k with Some x => f x | None => 0 end + 0 * d.
Proof. rewrite Rmult_0_l, Rplus_0_r. revert k; induction l as [|x l IH]; intros [|k]; simpl; auto. Qed.

Lemma union_value sh ps ts1 ts2 ds1 ds2 field radial disable a1 a2 :
  prod_shape sh = length ps -> In field ["potential"; "g_z"] -> length ds1 = length ts1 -> length ds2 = length ts2 ->
  tesseroid_gravity (coords_of sh ps) ts1 (arr1 ds1) field radial disable = Ok a1 ->
  tesseroid_gravity (coords_of sh ps) ts2 (arr1 ds2) field radial disable = Ok a2 ->
  exists a, tesseroid_gravity (coords_of sh ps) (ts1 ++ ts2) (arr1 (ds1 ++ ds2)) field radial disable = Ok a /\
    shape a = sh /\ length (data a) = length ps /\ forall k, nth k (data a) 0 = nth k (data a1) 0 + nth k (data a2) 0.
Proof.
  intros Hsh Hf H1 H2 E1 E2.
  apply tesseroid_gravity_value in E1; auto. apply tesseroid_gravity_value in E2; auto.
  destruct E1 as (t1 & C1 & D1 & ->), E2 as (t2 & C2 & D2 & ->).
  pose proof (checks_length _ _ _ _ C1) as L1. pose proof (checks_length _ _ _ _ C2) as L2.
  eexists. split; [apply tesseroid_gravity_value; auto; [rewrite !app_length; congruence|]|].
  - exists (t1 ++ t2). split; [now apply checks_app|]. split; [|reflexivity].
    intros p Hp. rewrite combine_app by congruence. apply Forall_app; auto.
  - cbn [shape data]. split; [reflexivity|]. split; [apply map_length|]. intros k.
    rewrite combine_app by congruence. rewrite !(nth_map_R _ _ _ 0). destruct (nth_error ps k); [|ring].
    unfold all_sources, kept. rewrite filter_app, flat_map_app, sum_over_app. ring.
Qed.

Lemma union_inv sh ps ts1 ts2 ds1 ds2 field radial disable a :
  prod_shape sh = length ps -> In field ["potential"; "g_z"] -> length ds1 = length ts1 -> length ds2 = length ts2 ->
  tesseroid_gravity (coords_of sh ps) (ts1 ++ ts2) (arr1 (ds1 ++ ds2)) field radial disable = Ok a ->
  (exists a1, tesseroid_gravity (coords_of sh ps) ts1 (arr1 ds1) field radial disable = Ok a1) /\
  (exists a2, tesseroid_gravity (coords_of sh ps) ts2 (arr1 ds2) field radial disable = Ok a2).
Proof.
  intros Hsh Hf H1 H2 E. apply tesseroid_gravity_value in E; auto; [|rewrite !app_length; congruence].
  destruct E as (t & C & D & ->). apply checks_app_inv in C. destruct C as (t1 & t2 & -> & C1 & C2).
  pose proof (checks_length _ _ _ _ C1) as L1. pose proof (checks_length _ _ _ _ C2) as L2.
  rewrite combine_app in D by congruence.
  split; eexists; apply tesseroid_gravity_value; auto; [exists t1|exists t2]; (split; [assumption|split; [|reflexivity]]);
    intros p Hp; specialize (D p Hp); apply Forall_app in D; tauto.
Qed.

(** Linearity in the densities. *)
Lemma newton_spherical_mass field p s : newton_field "spherical" field p s = snd s * newton_field "spherical" field p (fst s, 1).
Proof. destruct s as [q m]. apply (newton_field_mass "spherical" field p q m). Qed.

Definition dens_lin (a b : R) (ds1 ds2 : list R) : list R := map (fun xy => a * fst xy + b * snd xy) (combine ds1 ds2).

Lemma tess_sources_field field radial p t d :
  sum_over (tess_sources field radial p (t, d)) (newton_field "spherical" field p)
  = d * sum_over (tess_sources field radial p (t, 1)) (newton_field "spherical" field p).
Proof.
  unfold tess_sources. cbn [fst snd]. destruct (discretise _ _ _ _ _ _) as [out|].
  - rewrite !sum_over_flat_map, <- sum_over_scal. apply sum_over_ext. intros x _.
    pose proof (glq_mass_linear x d 0 1 1 (fun q => newton_field "spherical" field p (q, 1))) as L.
    rewrite Rmult_0_l, Rplus_0_r, Rmult_1_r in L.
    assert (Q : forall d, sum_over (glq_sources x d) (newton_field "spherical" field p)
      = sum_over (glq_sources x d) (fun s => snd s * newton_field "spherical" field p (fst s, 1))) by (intros; apply sum_over_ext; intros; apply newton_spherical_mass).
    etransitivity; [apply Q|]. etransitivity; [exact L|]. rewrite Rmult_0_l, Rplus_0_r. f_equal. symmetry. apply Q.
  - unfold sum_over; simpl; ring.
Qed.

Definition unit_field field radial p (t : tess) : R :=
  if is_null t 1 then 0 else sum_over (tess_sources field radial p (t, 1)) (newton_field "spherical" field p).

Lemma is_null_split t d : is_null t d = (is_null t 1 || Reqb d 0)%bool.
Proof. unfold is_null. destruct (Reqb_spec 1 0); [lra|]. now rewrite orb_false_r. Qed.

Lemma all_sources_field field radial tds p :
  sum_over (all_sources field radial tds p) (newton_field "spherical" field p) = sum_over tds (fun td => snd td * unit_field field radial p (fst td)).
Proof.
  unfold all_sources. rewrite sum_over_flat_map. induction tds as [|[t d] tds IH]; [reflexivity|].
  rewrite sum_over_cons. unfold kept in *. cbn [filter fst snd]. rewrite is_null_split.
  unfold unit_field at 1. destruct (is_null t 1); cbn [negb orb].
  - rewrite IH. ring.
  - destruct (Reqb_spec d 0) as [->|N]; cbn [negb].
    + rewrite IH. ring.
    + rewrite sum_over_cons, IH. rewrite tess_sources_field. reflexivity.
Qed.

Lemma combine_lin_forall (P : tess * R -> Prop) a b ts : forall ds1 ds2, length ds1 = length ts -> length ds2 = length ts ->
  (forall t x y, P (t, x) -> P (t, y) -> P (t, a * x + b * y)) ->
  Forall P (combine ts ds1) -> Forall P (combine ts ds2) -> Forall P (combine ts (dens_lin a b ds1 ds2)).
Proof.
  induction ts as [|t ts IH]; intros [|x xs] [|y ys] L1 L2 HP F1 F2; simpl in *; try discriminate; constructor.
  - inversion F1; inversion F2; subst. cbn. auto.
  - inversion F1; inversion F2; subst. apply IH; auto.
Qed.

Lemma linear_value sh ps ts ds1 ds2 a b field radial disable a1 a2 :
  prod_shape sh = length ps -> In field ["potential"; "g_z"] -> length ds1 = length ts -> length ds2 = length ts ->
  tesseroid_gravity (coords_of sh ps) ts (arr1 ds1) field radial disable = Ok a1 ->
  tesseroid_gravity (coords_of sh ps) ts (arr1 ds2) field radial disable = Ok a2 ->
  exists r, tesseroid_gravity (coords_of sh ps) ts (arr1 (dens_lin a b ds1 ds2)) field radial disable = Ok r /\
    shape r = sh /\ length (data r) = length ps /\ forall k, nth k (data r) 0 = a * nth k (data a1) 0 + b * nth k (data a2) 0.
Proof.
  intros Hsh Hf H1 H2 E1 E2.
  apply tesseroid_gravity_value in E1; auto. apply tesseroid_gravity_value in E2; auto.
  destruct E1 as (t1 & C1 & D1 & ->), E2 as (t2 & C2 & D2 & ->).
  rewrite C1 in C2. injection C2 as <-. pose proof (checks_length _ _ _ _ C1) as L1.
  assert (LD : length (dens_lin a b ds1 ds2) = length ts) by (unfold dens_lin; rewrite map_length, combine_length; lia).
  eexists. split; [apply tesseroid_gravity_value; auto|].
  - exists t1. split; [exact C1|]. split; [|reflexivity].
    intros p Hp. apply combine_lin_forall; try congruence; auto.
    intros t x y P Q. unfold discretisable in *. cbn [fst snd] in *. intros N.
    rewrite is_null_split in *. apply orb_false_iff in N. destruct N as [N1 N2]. rewrite N1 in *. cbn [orb] in *.
    destruct (Reqb_spec x 0) as [->|]; [|auto]. destruct (Reqb_spec y 0) as [->|]; [|auto].
    destruct (Reqb_spec (a * 0 + b * 0) 0) as [_|K]; [discriminate|]. exfalso; apply K; ring.
  - cbn [shape data]. split; [reflexivity|]. split; [apply map_length|]. intros k.
    rewrite !(nth_map_R _ _ _ 0). destruct (nth_error ps k) as [p|]; [|ring].
    rewrite !all_sources_field, !Rmult_0_l, !Rplus_0_r. clear -H1 H2 L1. rewrite <- L1 in H1, H2. clear L1.
    revert ds1 ds2 H1 H2. induction t1 as [|t l IH]; intros [|x xs] [|y ys] H1 H2; simpl in *; try discriminate.
    + unfold sum_over; simpl; ring.
    + unfold dens_lin in *. cbn [combine map]. rewrite !sum_over_cons. rewrite IH by lia. cbn [fst snd]. ring.
Qed.

(** Null tesseroids. *)
Lemma null_removal sh ps ts1 ts2 ds1 ds2 t d t' field radial a :
  prod_shape sh = length ps -> In field ["potential"; "g_z"] -> length ds1 = length ts1 -> length ds2 = length ts2 ->
  moved t t' -> null t' d ->
  tesseroid_gravity (coords_of sh ps) (ts1 ++ t :: ts2) (arr1 (ds1 ++ d :: ds2)) field radial false = Ok a ->
  tesseroid_gravity (coords_of sh ps) (ts1 ++ ts2) (arr1 (ds1 ++ ds2)) field radial false = Ok a.
Proof.
  intros Hsh Hf H1 H2 HM HN E.
  apply tesseroid_gravity_value in E; auto; [|rewrite !app_length; simpl; congruence].
  destruct E as (l & C & D & ->). apply checks_app_inv in C. destruct C as (t1 & t2 & -> & C1 & C2).
  change (t :: ts2) with ([t] ++ ts2) in C2. apply checks_app_inv in C2. destruct C2 as (t0 & t3 & -> & C0 & C3).
  assert (E0 : t0 = [t']).
  { apply checks_ok in C0. cbn in C0. destruct C0 as (_ & M & _). eapply Forall2_moved_fun; [exact M|]. constructor; [assumption|constructor]. }
  subst t0. pose proof (checks_length _ _ _ _ C1) as L1. pose proof (checks_length _ _ _ _ C3) as L3.
  apply tesseroid_gravity_value; auto; [rewrite !app_length; congruence|].
  exists (t1 ++ t3). split; [now apply checks_app|].
  repeat rewrite combine_app by congruence. rewrite combine_app in D by congruence. cbn [app combine] in *. split.
  - intros p Hp. specialize (D p Hp). rewrite !Forall_app in *. destruct D as [D1 D2]. inversion D2; auto.
  - f_equal. apply map_ext. intros p. rewrite !all_sources_field, !sum_over_app, sum_over_cons. cbn [fst snd].
    apply is_null_spec in HN. rewrite is_null_split in HN.
    apply orb_true_iff in HN. destruct HN as [K|K].
    + assert (unit_field field radial p t' = 0) as -> by (unfold unit_field; now rewrite K). ring.
    + apply Reqb_true in K. subst d. ring.
Qed.

Lemma null_insertion sh ps ts1 ts2 ds1 ds2 t d t' field radial a :
  prod_shape sh = length ps -> In field ["potential"; "g_z"] -> length ds1 = length ts1 -> length ds2 = length ts2 ->
  bounds_ok t -> moved t t' -> width_ok t' -> (west t' = east t' \/ south t' = north t' \/ bottom t' = top t') ->
  tesseroid_gravity (coords_of sh ps) (ts1 ++ ts2) (arr1 (ds1 ++ ds2)) field radial false = Ok a ->
  tesseroid_gravity (coords_of sh ps) (ts1 ++ t :: ts2) (arr1 (ds1 ++ d :: ds2)) field radial false = Ok a.
Proof.
  intros Hsh Hf H1 H2 HB HM HW HN E.
  assert (N1 : null t' 0) by (unfold null; tauto).
  apply tesseroid_gravity_value in E; auto; [|rewrite !app_length; simpl; congruence].
  destruct E as (l & C & D & ->). apply checks_app_inv in C. destruct C as (t1 & t3 & -> & C1 & C3).
  pose proof (checks_length _ _ _ _ C1) as L1. pose proof (checks_length _ _ _ _ C3) as L3.
  apply tesseroid_gravity_value; auto; [rewrite !app_length; simpl; congruence|].
  assert (C0 : checks false ps [t] = Ok [t']).
  { apply checks_ok. split; [constructor; [assumption|constructor]|]. split; [constructor; [assumption|constructor]|].
    split; [constructor; [assumption|constructor]|].
    intros [[x y] z] u _ [<-|[]] I. unfold inside in I. destruct I as ([k I] & I2 & I3). lra. }
  exists (t1 ++ t' :: t3). split.
  { change (t :: ts2) with ([t] ++ ts2). change (t' :: t3) with ([t'] ++ t3). apply checks_app; [assumption|]. now apply checks_app. }
  assert (N2 : is_null t' d = true) by (apply is_null_spec; unfold null; tauto).
  assert (N3 : is_null t' 1 = true) by (apply is_null_spec; unfold null; tauto).
  repeat rewrite combine_app by congruence. rewrite combine_app in D by congruence. cbn [app combine] in *. split.
  - intros p Hp. specialize (D p Hp). rewrite !Forall_app in *. destruct D as [D1 D2]. split; [assumption|]. constructor; [|assumption].
    unfold discretisable. cbn [fst snd]. rewrite N2. discriminate.
  - f_equal. apply map_ext. intros p. rewrite !all_sources_field, !sum_over_app, sum_over_cons. cbn [fst snd].
    assert (unit_field field radial p t' = 0) as -> by (unfold unit_field; now rewrite N3). ring.
Qed.

(** Order of the tesseroids. *)
Lemma checks_perm disable ps tds tds2 ts' : Permutation tds tds2 -> checks disable ps (map fst tds) = Ok ts' ->
  exists ts2', checks disable ps (map fst tds2) = Ok ts2' /\ Permutation (combine ts' (map (@snd tess R) tds)) (combine ts2' (map snd tds2)).
Proof.
  intros HP. revert ts'. induction HP; intros ts' C.
  - exists ts'. split; [exact C|]. apply Permutation_refl.
  - cbn [map] in C. change (fst x :: map fst l) with ([fst x] ++ map fst l) in C. apply checks_app_inv in C. destruct C as (a & b & -> & C1 & C2).
    destruct (IHHP b C2) as (b' & C3 & P). exists (a ++ b'). split.
    + cbn [map]. change (fst x :: map fst l') with ([fst x] ++ map fst l'). now apply checks_app.
    + pose proof (checks_length _ _ _ _ C1) as L. simpl in L. destruct a as [|a [|? ?]]; try discriminate L.
      simpl. now constructor.
  - cbn [map] in C. change (fst y :: fst x :: map fst l) with ([fst y] ++ [fst x] ++ map fst l) in C.
    apply checks_app_inv in C. destruct C as (a & b & -> & C1 & C2). apply checks_app_inv in C2. destruct C2 as (b1 & b2 & -> & C2 & C3).
    exists (b1 ++ a ++ b2). split.
    + cbn [map]. change (fst x :: fst y :: map fst l) with ([fst x] ++ [fst y] ++ map fst l). apply checks_app; [assumption|]. now apply checks_app.
    + pose proof (checks_length _ _ _ _ C1) as L. simpl in L. destruct a as [|a [|? ?]]; try discriminate L.
      pose proof (checks_length _ _ _ _ C2) as L'. simpl in L'. destruct b1 as [|b1 [|? ?]]; try discriminate L'.
      simpl. constructor.
  - destruct (IHHP1 ts' C) as (t2 & C2 & P2). destruct (IHHP2 t2 C2) as (t3 & C3 & P3). exists t3. split; [assumption|].
    etransitivity; eassumption.
Qed.

Lemma order_value sh ps tds tds2 field radial disable a :
  prod_shape sh = length ps -> In field ["potential"; "g_z"] -> Permutation tds tds2 ->
  tesseroid_gravity (coords_of sh ps) (map fst tds) (arr1 (map snd tds)) field radial disable = Ok a ->
  tesseroid_gravity (coords_of sh ps) (map fst tds2) (arr1 (map snd tds2)) field radial disable = Ok a.
Proof.
  intros Hsh Hf HP E. apply tesseroid_gravity_value in E; auto; [|now rewrite !map_length].
  destruct E as (ts' & C & D & ->). destruct (checks_perm _ _ _ _ _ HP C) as (t2 & C2 & P).
  apply tesseroid_gravity_value; auto; [now rewrite !map_length|]. exists t2. split; [exact C2|]. split.
  - intros p Hp. eapply Permutation_Forall; [exact P|auto].
  - f_equal. apply map_ext. intros p. rewrite !all_sources_field. now apply sum_over_perm.
Qed.

(** ** Mass of the quadrature *)
Lemma cos_upper y : -2 <= y <= 2 -> cos y <= 1 - y ^ 2 / 2 + y ^ 4 / 24.
Proof. intros H. destruct (pre_cos_bound y 0 (proj1 H) (proj2 H)) as [_ K]. unfold cos_approx, cos_term in K. simpl in K. lra. Qed.
Lemma cos_lower y : -2 <= y <= 2 -> 1 - y ^ 2 / 2 + y ^ 4 / 24 - y ^ 6 / 720 <= cos y.
Proof. intros H. destruct (pre_cos_bound y 1 (proj1 H) (proj2 H)) as [K _]. unfold cos_approx, cos_term in K. simpl in K. lra. Qed.
Lemma sin_upper y : 0 <= y <= 4 -> sin y <= y - y ^ 3 / 6 + y ^ 5 / 120.
Proof. intros H. destruct (pre_sin_bound y 0 (proj1 H) (proj2 H)) as [_ K]. unfold sin_approx, sin_term in K. simpl in K. lra. Qed.
Lemma sin_lower y : 0 <= y <= 4 -> y - y ^ 3 / 6 + y ^ 5 / 120 - y ^ 7 / 5040 <= sin y.
Proof. intros H. destruct (pre_sin_bound y 1 (proj1 H) (proj2 H)) as [K _]. unfold sin_approx, sin_term in K. simpl in K. lra. Qed.

Lemma PI2_lt : PI / 2 < 1.6.
Proof.
  destruct (Rlt_dec (PI / 2) 1.6) as [H|H]; [exact H|]. exfalso.
  assert (0 <= cos 1.6) by (apply cos_ge_0; lra). pose proof (cos_upper 1.6). lra.
Qed.

Lemma lat_rule_bounds h : 0 <= h <= PI / 2 -> h * cos (h / sqrt 3) <= sin h /\ 19 / 20 * sin h <= h * cos (h / sqrt 3).
Proof.
  intros H. pose proof PI2_lt. pose proof sqrt3_pos as S3. pose proof sqrt3_sqr as SS.
  set (y := h / sqrt 3).
  assert (Y2 : y ^ 2 = h ^ 2 / 3) by (transitivity (h ^ 2 / (sqrt 3 * sqrt 3)); [unfold y; field; lra|now rewrite SS]).
  assert (Y4 : y ^ 4 = h ^ 4 / 9) by (replace (y ^ 4) with (y ^ 2 * y ^ 2) by ring; rewrite Y2; field).
  assert (Y6 : y ^ 6 = h ^ 6 / 27) by (replace (y ^ 6) with (y ^ 2 * y ^ 2 * y ^ 2) by ring; rewrite Y2; field).
  assert (Yb : -2 <= y <= 2).
  { assert (0 <= y) by (unfold y; apply Rmult_le_pos; [lra|left; now apply Rinv_0_lt_compat]). split; [lra|].
    destruct (Rle_dec y 2); [assumption|]. exfalso. assert (4 < y ^ 2) by nra. nra. }
  pose proof (cos_upper y Yb) as CU. pose proof (cos_lower y Yb) as CL. rewrite Y2, Y4 in *. rewrite Y6 in CL.
  pose proof (sin_upper h ltac:(lra)) as SU. pose proof (sin_lower h ltac:(lra)) as SL.
  assert (Hx : 0 <= h ^ 2 <= 2.56) by (split; [apply pow2_ge_0|nra]).
  set (x := h ^ 2) in *.
  assert (E3 : h ^ 3 = h * x) by (unfold x; ring). assert (E5 : h ^ 5 = h * x ^ 2) by (unfold x; ring).
  assert (E7 : h ^ 7 = h * x ^ 3) by (unfold x; ring). assert (E4 : h ^ 4 = x ^ 2) by (unfold x; ring). assert (E6 : h ^ 6 = x ^ 3) by (unfold x; ring).
  rewrite E4 in *. rewrite E6 in CL. rewrite E3, E5 in *. rewrite E7 in SL.
  split.
  - apply Rle_trans with (h * (1 - x / 3 / 2 + x ^ 2 / 9 / 24)); [apply Rmult_le_compat_l; lra|].
    apply Rle_trans with (h - h * x / 6 + h * x ^ 2 / 120 - h * x ^ 3 / 5040); [|exact SL].
    assert (0 <= h * x ^ 2 * (1 / 270 - x / 5040)); [|lra]. apply Rmult_le_pos; [apply Rmult_le_pos; [lra|apply pow2_ge_0]|lra].
  - apply Rle_trans with (h * (1 - x / 3 / 2 + x ^ 2 / 9 / 24 - x ^ 3 / 27 / 720)); [|apply Rmult_le_compat_l; lra].
    apply Rle_trans with (19 / 20 * (h - h * x / 6 + h * x ^ 2 / 120)); [lra|].
    assert (P2 : 0 <= x ^ 2 <= 2.56 * 2.56) by (split; [apply pow2_ge_0|nra]).
    assert (P3 : x ^ 3 <= 2.56 * 2.56 * 2.56) by nra.
    assert (0 <= h * (1 / 20 - x / 120 + x ^ 2 * (1 / 216 - 19 / 2400) - x ^ 3 / 19440)); [|lra].
    apply Rmult_le_pos; lra.
Qed.

Lemma lat_rule t : -90 <= south t <= north t -> north t <= 90 ->
  let exact := sin (radians (north t)) - sin (radians (south t)) in
  let rule := radians (north t - south t) / 2 *
       (cos (radians ((south t + north t) / 2 - (north t - south t) / 2 / sqrt 3)) +
        cos (radians ((south t + north t) / 2 + (north t - south t) / 2 / sqrt 3))) in
  19 / 20 * exact <= rule <= exact.
Proof.
  intros H1 H2. cbv zeta. pose proof sqrt3_pos as S3.
  set (h := radians ((north t - south t) / 2)). set (m := radians ((south t + north t) / 2)).
  replace (radians (north t)) with (m + h) by (unfold m, h, radians; field).
  replace (radians (south t)) with (m - h) by (unfold m, h, radians; field).
  replace (radians (north t - south t) / 2) with h by (unfold h, radians; field).
  replace (radians ((south t + north t) / 2 - (north t - south t) / 2 / sqrt 3)) with (m - h / sqrt 3) by (unfold m, h, radians; field; lra).
  replace (radians ((south t + north t) / 2 + (north t - south t) / 2 / sqrt 3)) with (m + h / sqrt 3) by (unfold m, h, radians; field; lra).
  rewrite cos_minus, cos_plus, sin_plus, sin_minus.
  assert (Hh : 0 <= h <= PI / 2).
  { unfold h. rewrite <- radians_90. replace 0 with (radians 0) by (unfold radians; field). split; apply radians_le; lra. }
  assert (Hm : 0 <= cos m).
  { apply cos_ge_0; unfold m; [replace (- (PI / 2)) with (radians (-90)) by (unfold radians; field)|rewrite <- radians_90]; apply radians_le; lra. }
  destruct (lat_rule_bounds h Hh) as [B1 B2].
  apply Rmult_le_compat_l with (r := 2 * cos m) in B1, B2; [split; lra|lra|lra].
Qed.

Lemma glq_mass_bounds t d : box t -> -90 <= south t -> north t <= 90 -> 0 <= bottom t -> 0 <= d ->
  19 / 20 * (d * volume t) <= sum_over (glq_sources t d) snd <= d * volume t.
Proof.
  intros (B1 & B2 & B3) S N Bt D. rewrite glq_total_mass. pose proof (lat_rule t ltac:(lra) N) as L. cbv zeta in L.
  unfold volume. rewrite radians_minus. set (A := radians (east t) - radians (west t)).
  assert (0 <= A) by (unfold A; pose proof (radians_le _ _ B1); lra).
  assert (0 <= (top t ^ 3 - bottom t ^ 3) / 3) by (pose proof (pow_incr (bottom t) (top t) 3 ltac:(lra)); lra).
  set (V := (top t ^ 3 - bottom t ^ 3) / 3) in *.
  assert (K : 0 <= d * A * V) by (apply Rmult_le_pos; [apply Rmult_le_pos|]; assumption).
  destruct L as [L1 L2]. apply Rmult_le_compat_l with (r := d * A * V) in L1, L2; try assumption.
  rewrite radians_minus in *. fold A.
  set (X := sin (radians (north t)) - sin (radians (south t))) in *.
  replace (d * (A * X * (top t ^ 3 - bottom t ^ 3) / 3)) with (d * A * V * X) by (unfold V; field). split; lra.
Qed.

(** Latitudes and radii of the small tesseroids are in those of the tesseroid. *)
Lemma discretise_box p t ratio cs cm radial out : box t -> discretise p t ratio cs cm radial = Ok out ->
  Forall (fun x => box x /\ south t <= south x /\ north x <= north t /\ bottom t <= bottom x) out.
Proof.
  intros Bt. unfold discretise. intros H. set (P := fun x : tess => box x /\ south t <= south x /\ north x <= north t /\ bottom t <= bottom x).
  apply (abs_loop_inv p ratio radial cs cm (fun stk o => Forall P o /\ Forall P stk)) in H.
  - apply H.
  - intros x rest o stk' o' [HT HB] E. inversion HB; subst.
    apply abs_step_cases in E. destruct E as [(a & b & c & Ha & Hb & Hc & _ & _ & -> & -> & _)|(-> & -> & _ & E)].
    + split; [assumption|]. apply Forall_app; split; [|assumption]. apply Forall_rev.
      apply pieces_Forall; auto; intros y; rewrite ?split_lon_2, ?split_lat_2, ?split_rad_2; intros By _;
      repeat apply Forall_cons; try apply Forall_nil; unfold P, box, mid in *; cbn; lra.
    + split; [|assumption]. apply Forall_app; split; [assumption|]. apply Forall_cons; [assumption|apply Forall_nil].
  - split; [apply Forall_nil|apply Forall_cons; [|apply Forall_nil]]. unfold P. split; [assumption|lra].
Qed.

Lemma tess_sources_mass field radial p t d out : box t -> -90 <= south t -> north t <= 90 -> 0 <= bottom t -> 0 <= d ->
  discretise p t (distance_size_ratio field) STACK_SIZE MAX_DISCRETIZATIONS radial = Ok out ->
  19 / 20 * (d * volume t) <= sum_over (tess_sources field radial p (t, d)) snd <= d * volume t.
Proof.
  intros B S N Bt D E. unfold tess_sources. cbn [fst snd]. rewrite E. rewrite sum_over_flat_map.
  pose proof (discretise_tiles _ _ _ _ _ _ _ B E) as T. rewrite <- (tiles_volume _ _ T).
  pose proof (discretise_box _ _ _ _ _ _ _ B E) as F. clear E T.
  induction F as [|x out (Bx & Sx & Nx & bx) F IH]; [unfold sum_over; simpl; lra|].
  rewrite !sum_over_cons. rewrite !(Rmult_plus_distr_l d). pose proof (glq_mass_bounds x d Bx ltac:(lra) ltac:(lra) ltac:(lra) D). unfold source in *. lra.
Qed.

Lemma point_masses sh ps ts ds field radial a :
  prod_shape sh = length ps -> In field ["potential"; "g_z"] -> length ds = length ts ->
  tesseroid_gravity (coords_of sh ps) ts (arr1 ds) field radial false = Ok a ->
  exists ts', Forall2 moved ts ts' /\ forall k p, nth_error ps k = Some p -> exists srcs : list (list source),
    nth k (data a) 0 = returned (point_gravity (coords_of [] [p]) (points_of (concat srcs)) (masses_of (concat srcs)) field "spherical") /\
    Forall2 (fun td ss =>
        (forall s, In s ss -> in_open (fst td) (fst s)) /\
        (0 <= snd td -> 19 / 20 * (snd td * volume (fst td)) <= sum_over ss snd <= snd td * volume (fst td)))
      (combine ts' ds) srcs.
Proof.
  intros Hsh Hf Hd E. apply tesseroid_gravity_value in E; auto. destruct E as (ts' & C & D & ->).
  pose proof (proj1 (checks_ok _ _ _ _) C) as (CB & CM & CW & _). exists ts'. split; [assumption|].
  intros k p Hk. exists (map (fun td => if is_null (fst td) (snd td) then [] else tess_sources field radial p td) (combine ts' ds)).
  split.
  - cbn [data]. rewrite (nth_map_R _ _ _ 0), Hk, Rmult_0_l, Rplus_0_r.
    rewrite point_gravity_newton; [|reflexivity|right; split; [reflexivity|]; exact Hf].
    unfold returned. cbn [data map nth].
    replace (concat (map (fun td => if is_null (fst td) (snd td) then [] else tess_sources field radial p td) (combine ts' ds)))
      with (all_sources field radial (combine ts' ds) p); [reflexivity|].
    clear D. unfold all_sources, kept. induction (combine ts' ds) as [|td l IH]; [reflexivity|]. cbn [filter map concat].
    destruct (is_null (fst td) (snd td)); cbn [negb flat_map app]; [exact IH|]. f_equal. exact IH.
  - assert (Hp : In p ps) by (eapply nth_error_In; exact Hk). specialize (D p Hp).
    assert (V : Forall (fun td : tess * R => box (fst td) /\ -90 <= south (fst td) /\ north (fst td) <= 90 /\ 0 <= bottom (fst td)) (combine ts' ds)).
    { clear -CB CM CW. revert ds. induction CM; intros [|d ds]; simpl; constructor.
      - inversion CB; inversion CW; subst. cbn. unfold bounds_ok, width_ok, box in *.
        destruct H as [[_ ->]|(_ & _ & _ & _ & _ & -> & -> & -> & ->)]; lra.
      - inversion CB; inversion CW; subst. auto. }
    induction (combine ts' ds) as [|[t d] l IH]; [constructor|]. inversion D; inversion V; subst. simpl. constructor; [|auto].
    cbn [fst snd] in *. destruct (is_null t d) eqn:N.
    + split; [intros s []|]. intros _. apply is_null_spec in N. unfold sum_over; simpl.
      replace (d * volume t) with 0; [lra|]. unfold volume. destruct N as [->|[->|[->| ->]]]; unfold Rdiv; ring.
    + destruct (H1 N) as [out O]. destruct H5 as (B & S0 & N0 & B0). split.
      * intros s. apply tess_sources_inside. unfold fat, box in *.
        assert (K : ~ null t d) by (intros K; apply is_null_spec in K; congruence). unfold null in K.
        repeat split; apply Rnot_le_lt; intros Q; apply K; [left|right; left|right; right; left]; lra.
      * intros Hd0. eapply tess_sources_mass; eauto.
Qed.

(** ** Extent along the parallel *)
Lemma jordan x : 0 <= x <= PI / 2 -> 2 * x / PI <= sin x.
Proof.
  intros [H0 H1]. pose proof PI_RGT_0 as HP.
  destruct H0 as [H0|<-]; [|rewrite sin_0; unfold Rdiv; lra].
  destruct H1 as [H1| ->]; [|rewrite sin_PI2; right; field; lra].
  destruct (Rle_dec (2 * x / PI) (sin x)) as [L|L]; [exact L|]. exfalso. apply Rnot_le_lt in L.
  destruct (MVT_cor2 sin cos 0 x H0) as (c1 & E1 & C1); [intros; apply derivable_pt_lim_sin|].
  destruct (MVT_cor2 sin cos x (PI / 2) H1) as (c2 & E2 & C2); [intros; apply derivable_pt_lim_sin|].
  rewrite sin_0 in E1. rewrite sin_PI2 in E2.
  assert (K1 : cos c1 < 2 / PI).
  { apply Rmult_lt_reg_r with x; [lra|]. replace (2 / PI * x) with (2 * x / PI) by (field; lra). lra. }
  assert (K2 : 2 / PI < cos c2).
  { apply Rmult_lt_reg_r with (PI / 2 - x); [lra|]. replace (2 / PI * (PI / 2 - x)) with (1 - 2 * x / PI) by (field; lra). lra. }
  assert (cos c2 < cos c1) by (apply cos_decreasing_1; lra). lra.
Qed.

Lemma parallel_extent t : -90 <= south t <= north t -> north t <= 90 -> 0 <= east t - west t <= 180 -> 0 <= top t ->
  top t * cos (radians (mid_lat t)) * radians (east t - west t) <= PI / 2 * size_lon t.
Proof.
  intros HS HN HL HT. unfold size_lon, great_circle. rewrite unit_dot.
  set (c := cos (radians (mid_lat t))). set (s := sin (radians (mid_lat t))). rewrite <- radians_minus. set (D := radians (east t - west t)).
  assert (HD : 0 <= D <= PI).
  { unfold D. rewrite <- radians_180. replace 0 with (radians 0) by (unfold radians; field). split; apply radians_le; lra. }
  assert (Hc : 0 <= c).
  { unfold c. apply cos_ge_0; unfold mid_lat; [replace (- (PI / 2)) with (radians (-90)) by (unfold radians; field)|rewrite <- radians_90]; apply radians_le; lra. }
  assert (SC : s * s + c * c = 1) by (pose proof (sin2_cos2 (radians (mid_lat t))) as K; unfold Rsqr in K; exact K).
  pose proof (COS_bound D) as CB.
  set (X := s * s + c * c * cos D).
  assert (C2 : 0 <= c * c) by (apply Rmult_le_pos; lra).
  assert (HX : -1 <= X <= 1).
  { unfold X. assert (0 <= c * c * (1 - cos D)) by (apply Rmult_le_pos; lra). assert (0 <= c * c * (1 + cos D)) by (apply Rmult_le_pos; lra).
    assert (0 <= s * s) by apply Rle_0_sqr. lra. }
  set (g := acos X). pose proof (acos_bound X) as GB. fold g in GB. assert (CG : cos g = X) by (apply cos_acos; lra).
  assert (E : sin (g / 2) * sin (g / 2) = (c * sin (D / 2)) * (c * sin (D / 2))).
  { assert (A1 : cos g = 1 - 2 * sin (g / 2) * sin (g / 2)) by (rewrite <- cos_2a_sin; f_equal; field).
    assert (A2 : cos D = 1 - 2 * sin (D / 2) * sin (D / 2)) by (rewrite <- cos_2a_sin; f_equal; field).
    unfold X in CG. rewrite A1, A2 in CG. lra. }
  assert (P1 : 0 <= sin (g / 2)) by (apply sin_ge_0; lra).
  assert (P2 : 0 <= sin (D / 2)) by (apply sin_ge_0; lra).
  assert (F : sin (g / 2) = c * sin (D / 2)).
  { apply Rsqr_inj; [assumption|apply Rmult_le_pos; assumption|exact E]. }
  assert (J : 2 * (D / 2) / PI <= sin (D / 2)) by (apply jordan; lra).
  assert (Sg : sin (g / 2) <= g / 2).
  { destruct (proj1 GB) as [G0|<-]; [left; apply sin_lt_x; lra|]. replace (0 / 2) with 0 by field. rewrite sin_0. lra. }
  assert (K : c * D <= PI / 2 * g).
  { pose proof PI_RGT_0. assert (c * (2 * (D / 2) / PI) <= g / 2) by (rewrite F in Sg; apply Rle_trans with (c * sin (D / 2)); [apply Rmult_le_compat_l; lra|lra]).
    apply Rmult_le_compat_r with (r := PI) in H0; [|lra].
    replace (c * (2 * (D / 2) / PI) * PI) with (c * D) in H0 by (field; lra). lra. }
  rewrite Rmult_assoc. replace (PI / 2 * (top t * g)) with (top t * (PI / 2 * g)) by ring. apply Rmult_le_compat_l; assumption.
Qed.

Definition wide : tess := Tess 0 270 (-10) 10 1 2.
Definition wide_point : point := (135, 0, 6).

Lemma wide_unsplit : exists st, adaptive_discretization wide_point wide 1 [empty_row] [empty_row] true = Ok st /\ returned_tesseroids st = [wide].
Proof.
  assert (E : tesseroid_dimensions wide = (size_lon wide, size_lat wide, size_rad wide)) by apply dimensions_sizes.
  assert (Dst : distance_tesseroid_point wide_point wide = 4.5).
  { unfold distance_tesseroid_point, distance_spherical, distance_spherical_core, wide_point, wide. cbn [west east south north bottom top].
    replace (radians ((0 + 270) / 2) - radians 135) with 0 by (unfold radians; field).
    replace (radians ((-10 + 10) / 2)) with 0 by (unfold radians; field). replace (radians 0) with 0 by (unfold radians; field).
    rewrite sin_0, cos_0. replace ((6 - (1 + 2) / 2) ^ 2 + 2 * 6 * ((1 + 2) / 2) * (1 - (0 * 0 + 1 * 1 * 1))) with (4.5 * 4.5) by lra. apply sqrt_square; lra. }
  assert (L1 : size_lon wide = PI).
  { unfold size_lon, great_circle. rewrite unit_dot, <- radians_minus. unfold mid_lat, wide. cbn [west east south north bottom top].
    replace (radians ((-10 + 10) / 2)) with 0 by (unfold radians; field). rewrite sin_0, cos_0.
    replace (radians (270 - 0)) with (3 * (PI / 2)) by (unfold radians; field). rewrite cos_3PI2. replace (0 * 0 + 1 * 1 * 0) with 0 by ring. rewrite acos_0. field. }
  assert (L2 : size_lat wide = PI * 2 / 9) by (rewrite size_lat_eq; unfold wide; cbn [west east south north bottom top]; unfold radians; [field|lra|lra]).
  assert (L3 : size_rad wide = 1) by (unfold size_rad, wide; cbn; ring).
  pose proof PI2_lt as HP. pose proof PI_RGT_0 as HP0.
  unfold adaptive_discretization. cbn [aset length Nat.ltb Nat.leb bind upd Nat.add Nat.mul ad_loop cnt].
  unfold aset. cbn [length Nat.ltb Nat.leb bind upd Nat.add Nat.mul ad_loop cnt].
  unfold ad_step. cbn [stack cnt small n_splits Nat.sub aget nth_error bind]. unfold aget. cbn [nth_error bind].
  rewrite E, L1, L2, L3, Dst. unfold ndiv.
  assert (Q1 : 1 <= 4.5 / PI). { apply Rmult_le_reg_r with PI; [lra|]. unfold Rdiv. rewrite Rmult_assoc, Rinv_l by lra. lra. }
  assert (Q2 : 1 <= 4.5 / (PI * 2 / 9)). { apply Rmult_le_reg_r with (PI * 2 / 9); [lra|]. replace (4.5 / (PI * 2 / 9) * (PI * 2 / 9)) with 4.5 by (field; lra). lra. }
  destruct (Reqb_spec PI 0); [lra|]. cbn [bind]. destruct (Rltb_spec (4.5 / PI) 1); [lra|].
  destruct (Reqb_spec (PI * 2 / 9) 0); [lra|]. cbn [bind]. destruct (Rltb_spec (4.5 / (PI * 2 / 9)) 1); [lra|].
  destruct (Reqb_spec 1 0); [lra|]. cbn [bind]. destruct (Rltb_spec (4.5 / 1) 1); [lra|].
  cbn [andb Nat.mul Nat.ltb Nat.leb length Nat.add bind]. unfold aset. cbn [length Nat.ltb Nat.leb bind upd ad_loop cnt].
  eexists. split; [reflexivity|]. reflexivity.
Qed.

(** ** Far points: nothing is split. *)
Lemma MAX_pos : (0 < MAX_DISCRETIZATIONS)%nat.
Proof. Local Transparent MAX_DISCRETIZATIONS. unfold MAX_DISCRETIZATIONS. lia. Qed.
Local Opaque MAX_DISCRETIZATIONS.

Lemma div_criterion d l ratio : 0 < l -> ratio * l <= d -> ~ d / l < ratio.
Proof. intros H1 H2 H3. apply Rmult_lt_compat_r with (r := l) in H3; [|assumption]. unfold Rdiv in H3. rewrite Rmult_assoc, Rinv_l in H3 by lra. lra. Qed.

Lemma discretise_far p t ratio cs cm radial : (0 < cs)%nat -> (0 < cm)%nat -> regular t -> meets p ratio true t -> discretise p t ratio cs cm radial = Ok [t].
Proof.
  intros Hs Hm Rt (M1 & M2 & M3). specialize (M3 eq_refl). unfold discretise.
  destruct cs as [|cs]; [lia|]. cbn [Nat.add abs_loop]. unfold abs_step. rewrite dimensions_sizes, distance_point_to. unfold ndiv.
  pose proof (size_lon_pos t Rt). pose proof (size_lat_pos t Rt). pose proof Rt as (R1 & R2 & R3 & R4).
  assert (0 < size_lon t). { assert (0 <= size_lon t) by (unfold size_lon, great_circle; apply Rmult_le_pos; [lra|apply acos_nonneg]). lra. }
  assert (0 < size_lat t). { assert (0 <= size_lat t) by (unfold size_lat, great_circle; apply Rmult_le_pos; [lra|apply acos_nonneg]). lra. }
  assert (0 < size_rad t) by (unfold size_rad; lra).
  destruct (Reqb_spec (size_lon t) 0); [lra|]. cbn [bind]. destruct (Reqb_spec (size_lat t) 0); [lra|]. cbn [bind].
  destruct (Reqb_spec (size_rad t) 0); [lra|]. cbn [bind].
  destruct (Rltb_spec (distance_to p t / size_lon t) ratio) as [K|_]; [exfalso; revert K; now apply div_criterion|].
  destruct (Rltb_spec (distance_to p t / size_lat t) ratio) as [K|_]; [exfalso; revert K; now apply div_criterion|].
  destruct (Rltb_spec (distance_to p t / size_rad t) ratio) as [K|_]; [exfalso; revert K; now apply div_criterion|].
  cbn [andb Nat.mul Nat.add Nat.ltb Nat.leb length]. destruct cm as [|cm]; [lia|]. cbn [Nat.leb bind fst snd app].
  destruct (cs + (S cm + (S cm + 0)))%nat; reflexivity.
Qed.

Definition ex_t : tess := Tess 0 1 0 1 1 2.
Definition ex_p : point := (0.5, 0.5, 100).

Lemma ex_distance : distance_to ex_p ex_t = 98.5.
Proof.
  rewrite <- distance_point_to. unfold distance_tesseroid_point, distance_spherical, distance_spherical_core, ex_p, ex_t. cbn [west east south north bottom top].
  replace ((0 + 1) / 2) with 0.5 by lra. replace (radians 0.5 - radians 0.5) with 0 by ring. rewrite cos_0.
  pose proof (sin2_cos2 (radians 0.5)) as K. unfold Rsqr in K.
  replace (sin (radians 0.5) * sin (radians 0.5) + cos (radians 0.5) * cos (radians 0.5) * 1) with 1 by lra.
  replace ((100 - (1 + 2) / 2) ^ 2 + 2 * 100 * ((1 + 2) / 2) * (1 - 1)) with (98.5 * 98.5) by lra. apply sqrt_square; lra.
Qed.

Lemma size_le t : 0 <= top t -> size_lon t <= top t * PI /\ size_lat t <= top t * PI.
Proof. intros H. unfold size_lon, size_lat, great_circle. split; apply Rmult_le_compat_l; try assumption; apply acos_bound. Qed.

Lemma ex_regular : regular ex_t.
Proof. unfold regular, ex_t; cbn; lra. Qed.

Lemma ex_meets ratio : 0 <= ratio <= 2.5 -> meets ex_p ratio true ex_t.
Proof.
  intros H. unfold meets. rewrite ex_distance. destruct (size_le ex_t) as [A B]; [unfold ex_t; cbn; lra|].
  pose proof PI_4. change (top ex_t) with 2 in A, B.
  assert (size_lon ex_t <= 8) by lra. assert (size_lat ex_t <= 8) by lra.
  assert (0 <= size_lon ex_t) by (unfold size_lon, great_circle; apply Rmult_le_pos; [unfold ex_t; cbn; lra|apply acos_nonneg]).
  assert (0 <= size_lat ex_t) by (unfold size_lat, great_circle; apply Rmult_le_pos; [unfold ex_t; cbn; lra|apply acos_nonneg]).
  repeat split; try nra. intros _. unfold size_rad, ex_t; cbn. lra.
Qed.

Lemma ex_checks : checks false [ex_p] [ex_t] = Ok [ex_t].
Proof.
  apply checks_ok. split; [constructor; [unfold bounds_ok, ex_t; cbn; lra|constructor]|].
  split; [constructor; [left; split; [unfold ex_t; cbn; lra|reflexivity]|constructor]|].
  split; [constructor; [unfold width_ok, ex_t; cbn; lra|constructor]|].
  intros p t [<-|[]] [<-|[]]. unfold inside, ex_p, ex_t; cbn. lra.
Qed.

Lemma ex_gravity d field radial : In field ["potential"; "g_z"] -> exists a, tesseroid_gravity (coords_of [] [ex_p]) [ex_t] (arr1 [d]) field radial false = Ok a.
Proof.
  intros Hf. eexists. apply tesseroid_gravity_value; auto. exists [ex_t]. split; [apply ex_checks|]. split; [|reflexivity].
  intros p [<-|[]]. constructor; [|constructor]. intros _. exists [ex_t]. cbn [fst]. apply discretise_far.
  - apply STACK_SIZE_pos.
  - apply MAX_pos.
  - apply ex_regular.
  - apply ex_meets. unfold distance_size_ratio. destruct (String.eqb field "potential"); lra.
Qed.

(** A full-turn tesseroid passes the checks and then fails. *)
Lemma full_turn_fails sh p ps s n b t w d ds ts field radial : prod_shape sh = length (p :: ps) -> In field ["potential"; "g_z"] ->
  length ds = length ts -> d <> 0 -> s < n -> b < t ->
  checks false (p :: ps) (Tess w (w + 360) s n b t :: ts) = Ok (Tess w (w + 360) s n b t :: ts) ->
  tesseroid_gravity (coords_of sh (p :: ps)) (Tess w (w + 360) s n b t :: ts) (arr1 (d :: ds)) field radial false = Raise ZeroDivisionError.
Proof.
  intros Hsh Hf Hl Hd Hsn Hbt C. rewrite tesseroid_gravity_eq; auto; [|cbn; now rewrite Hl].
  rewrite C. cbn [bind combine mapM kept filter fst snd].
  replace (is_null (Tess w (w + 360) s n b t) d) with false.
  2: { symmetry. apply not_true_iff_false. intros K. apply is_null_spec in K. unfold null in K. cbn in K. lra. }
  cbn [negb]. unfold point_total at 1. cbn [for_]. unfold contribution at 1. cbn [fst].
  rewrite discretise_full_turn; [reflexivity|apply STACK_SIZE_pos|cbn; ring].
Qed.

Definition shell : tess := Tess 0 360 (-10) 10 1 2.
Lemma shell_checks : checks false [ex_p] [shell] = Ok [shell].
Proof.
  apply checks_ok. split; [constructor; [unfold bounds_ok, shell; cbn; lra|constructor]|].
  split; [constructor; [left; split; [unfold shell; cbn; lra|reflexivity]|constructor]|].
  split; [constructor; [unfold width_ok, shell; cbn; lra|constructor]|].
  intros p t [<-|[]] [<-|[]]. unfold inside, ex_p, shell; cbn. lra.
Qed.
