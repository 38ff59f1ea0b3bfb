From Coq Require Import Permutation.
From Coquelicot Require Import Coquelicot.
From Verif Require Import Base BaseFacts NumPy NumPyFacts DistanceModel DistanceSpec DistanceProofs
  PointGravityModel PointGravitySpec.
Local Open Scope string_scope.

Lemma G_newton : G = newton_G.
Proof. unfold G, newton_G. lra. Qed.

Lemma map_comp {A B C} (f : B -> C) (g : A -> B) l : map f (map g l) = map (fun x => f (g x)) l.
Proof. apply map_map. Qed.

Lemma nth_map {A B} (f : A -> B) l i d d' : (i < length l)%nat -> nth i (map f l) d' = f (nth i l d).
Proof.
  intros H. rewrite (nth_indep _ d' (f d)) by (rewrite map_length; exact H). apply map_nth.
Qed.

Lemma map_range_nth {A B} (l : list A) (d : A) (f : A -> B) :
  map (fun i => f (nth i l d)) (range 0 (length l)) = map f l.
Proof.
  apply list_eq_nth_error; intros k. destruct (Nat.lt_ge_cases k (length l)) as [H|H].
  - rewrite nth_error_map_range by assumption. rewrite nth_error_map.
    now rewrite (nth_error_nth' l d).
  - transitivity (@None B); [|symmetry]; apply nth_error_None; rewrite ?length_map_range, ?map_length; lia.
Qed.

Definition p0 : point := (0, 0, 0).
Definition s0 : source := (p0, 0).

Lemma accumulate_points (ps : list point) (ss : list source) contrib (f : point -> source -> R) n m :
  n = length ps -> m = length ss ->
  (forall i j, (i < length ps)%nat -> (j < length ss)%nat -> contrib i j = Ok (f (nth i ps p0) (nth j ss s0))) ->
  accumulate n m contrib (repeat 0 n) = Ok (map (fun p => sum_over ss (f p)) ps).
Proof.
  intros -> -> H.
  rewrite (accumulate_ok _ _ _ (fun i j => f (nth i ps p0) (nth j ss s0))); [|apply repeat_length|assumption].
  f_equal.
  rewrite <- (map_range_nth ps p0 (fun p => sum_over ss (f p))).
  apply map_ext_in. intros i Hi. apply range_in in Hi.
  rewrite nth_repeat, Rplus_0_l. apply (sum_over_range_nth ss s0 (f (nth i ps p0))).
Qed.

Definition cart_kernel_of (k : kernel_t) (p : point) (s : source) : R :=
  k (fst3 p) (snd3 p) (thd3 p) (fst3 (fst s)) (snd3 (fst s)) (thd3 (fst s)) (snd s).
Definition sph_kernel_of (k : sph_kernel_t) (p : point) (s : source) : R :=
  snd s * k (radians (fst3 p)) (cos (radians (snd3 p))) (sin (radians (snd3 p))) (thd3 p)
    (radians (fst3 (fst s))) (cos (radians (snd3 (fst s)))) (sin (radians (snd3 (fst s)))) (thd3 (fst s)).

Ltac getall := repeat (rewrite (aget_ok _ _ 0) by (rewrite ?map_length; assumption); simpl bind).
Ltac nthall := repeat first
  [ rewrite (nth_map _ _ _ 0) by (rewrite ?map_length; assumption)
  | rewrite (nth_map _ _ _ p0) by (rewrite ?map_length; assumption)
  | rewrite (nth_map _ _ _ s0) by (rewrite ?map_length; assumption) ].

Lemma point_mass_cartesian_ok ps ss k :
  point_mass_cartesian (map fst3 ps) (map snd3 ps) (map thd3 ps)
    (map fst3 (map fst ss)) (map snd3 (map fst ss)) (map thd3 (map fst ss)) (map snd ss) (repeat 0 (length ps)) k
  = Ok (map (fun p => sum_over ss (cart_kernel_of k p)) ps).
Proof.
  unfold point_mass_cartesian. rewrite !map_length. apply accumulate_points; [reflexivity|reflexivity|].
  intros i j Hi Hj.
  rewrite (aget_ok (map fst3 ps) i 0) by (rewrite ?map_length; assumption); simpl bind.
  rewrite (aget_ok (map snd3 ps) i 0) by (rewrite ?map_length; assumption); simpl bind.
  rewrite (aget_ok (map thd3 ps) i 0) by (rewrite ?map_length; assumption); simpl bind.
  rewrite (aget_ok (map fst3 (map fst ss)) j 0) by (rewrite ?map_length; assumption); simpl bind.
  rewrite (aget_ok (map snd3 (map fst ss)) j 0) by (rewrite ?map_length; assumption); simpl bind.
  rewrite (aget_ok (map thd3 (map fst ss)) j 0) by (rewrite ?map_length; assumption); simpl bind.
  rewrite (aget_ok (map snd ss) j 0) by (rewrite ?map_length; assumption); simpl bind.
  f_equal. unfold cart_kernel_of.
  rewrite !map_map, !(nth_map _ ps i p0), !(nth_map _ ss j s0) by assumption. reflexivity.
Qed.

Lemma point_mass_spherical_ok ps ss k :
  point_mass_spherical (map fst3 ps) (map snd3 ps) (map thd3 ps)
    (map fst3 (map fst ss)) (map snd3 (map fst ss)) (map thd3 (map fst ss)) (map snd ss) (repeat 0 (length ps)) k
  = Ok (map (fun p => sum_over ss (sph_kernel_of k p)) ps).
Proof.
  unfold point_mass_spherical. rewrite !map_length, !map_map. apply accumulate_points; [reflexivity|reflexivity|].
  intros i j Hi Hj.
  do 9 (rewrite (aget_ok _ _ 0) by (rewrite ?map_length; assumption); simpl bind).
  f_equal. unfold sph_kernel_of.
  rewrite !(nth_map _ ps i p0), !(nth_map _ ss j s0) by assumption. reflexivity.
Qed.

Lemma choclo_dist_eucl (p : point) (s : source) :
  choclo_dist (fst3 p) (snd3 p) (thd3 p) (fst3 (fst s)) (snd3 (fst s)) (thd3 (fst s))
  = eucl (cart_position p) (cart_position (fst s)).
Proof.
  destruct p as [[e n] u], s as [[[ep np] up] m]; cbn.
  unfold choclo_dist, distance_cartesian, eucl, norm, dot; cbn. f_equal; ring.
Qed.

Definition conv (field : string) (x : R) : R := hd 0 (convert_units field [x]).

Lemma convert_units_map field l : convert_units field l = map (conv field) l.
Proof.
  unfold conv, convert_units.
  destruct (mem field ["g_z"; "g_ez"; "g_ze"; "g_nz"; "g_zn"]), (mem field ["g_e"; "g_n"; "g_z"]),
    (mem field ["g_ee"; "g_nn"; "g_zz"; "g_en"; "g_ez"; "g_nz"; "g_ne"; "g_ze"; "g_zn"]);
  rewrite ?map_map; simpl; try reflexivity; symmetry; apply map_id.
Qed.

Lemma conv_linear field : exists k, forall x, conv field x = k * x.
Proof.
  unfold conv, convert_units.
  destruct (mem field ["g_z"; "g_ez"; "g_ze"; "g_nz"; "g_zn"]), (mem field ["g_e"; "g_n"; "g_z"]),
    (mem field ["g_ee"; "g_nn"; "g_zz"; "g_en"; "g_ez"; "g_nz"; "g_ne"; "g_ze"; "g_zn"]); cbn [map hd].
  all: try (eexists; intros x; rewrite <- ?Rmult_assoc; reflexivity).
  exists 1; intros; ring.
Qed.

Lemma conv_sum field {A} (l : list A) f : conv field (sum_over l f) = sum_over l (fun a => conv field (f a)).
Proof.
  destruct (conv_linear field) as [k Hk]. rewrite Hk, <- sum_over_scal.
  apply sum_over_ext; intros; now rewrite Hk.
Qed.

Lemma cartesian_kernel_spec field k p s :
  lookup field cartesian_kernels = Some k ->
  conv field (cart_kernel_of k p s) = newton_field_cartesian field p s.
Proof.
  unfold cartesian_kernels. cbn [lookup].
  assert (HD := choclo_dist_eucl p s).
  destruct p as [[e n] u], s as [[[ep np] up] m]; unfold fst3, snd3, thd3, cart_position in *; cbn [fst snd] in *.
  repeat (match goal with |- (if String.eqb ?f ?n then _ else _) = _ -> _ => destruct (String.eqb_spec f n) as [->|] end;
   [ intros [= <-]; unfold conv, convert_units, newton_field_cartesian, directions; cbn -[pow Rmult Rplus Rminus Rdiv Rinv eucl newton_potential newton_accel newton_tensor];
     unfold cart_kernel_of, newton_potential, newton_accel, newton_tensor, gravity_pot, gravity_e, gravity_n, gravity_u, gravity_ee,
       gravity_nn, gravity_uu, gravity_en, gravity_eu, gravity_nu, mGal, eotvos, fst3, snd3, thd3; cbn [fst snd];
     rewrite HD, <- G_newton; generalize (eucl (V3 e n u) (V3 ep np up)); intros d;
     unfold dot, vsub, vscale, e_east, e_north, e_down; cbn [vx vy vz]; unfold Rdiv; ring | ]).
  discriminate.
Qed.

Lemma sph_dist_eucl (p : point) (s : source) :
  let '(d, c, _) := distance_spherical_core (radians (fst3 p)) (cos (radians (snd3 p))) (sin (radians (snd3 p))) (thd3 p)
    (radians (fst3 (fst s))) (cos (radians (snd3 (fst s)))) (sin (radians (snd3 (fst s)))) (thd3 (fst s)) in
  d = eucl (sph_position p) (sph_position (fst s)) /\
  thd3 p - thd3 (fst s) * c = dot (vsub (sph_position (fst s)) (sph_position p)) (sph_down p).
Proof.
  pose proof (distance_spec p (fst s) "spherical" {| semimajor := 1; eccentricity := 0 |}) as H.
  destruct p as [[lon lat] r], s as [[[lonp latp] rp] m]; unfold fst3, snd3, thd3 in *; cbn [fst snd] in *.
  unfold distance_spherical_core. split.
  - assert (E : distance (lon, lat, r) (lonp, latp, rp) "spherical" (Some {| semimajor := 1; eccentricity := 0 |})
      = Ok (eucl (sph_position (lon, lat, r)) (sph_position (lonp, latp, rp)))) by (apply H; simpl; tauto).
    cbn -[sph_position eucl] in E. injection E as E. exact E.
  - unfold sph_down, sph_position, dot, vsub, vscale; cbn [vx vy vz].
    rewrite cos_diff_expand.
    set (a := radians lon); set (b := radians lat); set (a' := radians lonp); set (b' := radians latp).
    transitivity (r * (cos b ^ 2 * (cos a ^ 2 + sin a ^ 2) + sin b ^ 2)
      - rp * (sin b' * sin b + cos b' * cos b * (cos a' * cos a + sin a' * sin a))); [|ring].
    rewrite !sin2; ring.
Qed.

Lemma spherical_kernel_spec field k p s :
  lookup field spherical_kernels = Some (Some k) ->
  conv field (sph_kernel_of k p s) = newton_field_spherical field p s.
Proof.
  unfold spherical_kernels. cbn [lookup].
  pose proof (sph_dist_eucl p s) as HD.
  unfold sph_kernel_of, newton_field_spherical, conv, convert_units.
  destruct (String.eqb_spec field "potential") as [->|_].
  { intros [= <-]. cbn -[pow Rmult Rplus Rminus Rdiv Rinv eucl newton_potential newton_accel distance_spherical_core].
    unfold potential_spherical, newton_potential.
    destruct (distance_spherical_core _ _ _ _ _ _ _ _) as [[d c] l]. destruct HD as [-> _].
    rewrite G_newton. unfold Rdiv; ring. }
  destruct (String.eqb_spec field "g_z") as [->|_].
  { intros [= <-]. cbn -[pow Rmult Rplus Rminus Rdiv Rinv eucl newton_potential newton_accel distance_spherical_core].
    unfold gravity_u_spherical, newton_accel.
    destruct (distance_spherical_core _ _ _ _ _ _ _ _) as [[d c] l]. destruct HD as [-> ->].
    rewrite G_newton. generalize (eucl (sph_position p) (sph_position (fst s))); intros d.
    unfold dot, vscale; cbn [vx vy vz]. unfold mGal, Rdiv; ring. }
  repeat (match goal with |- (if String.eqb ?f ?n then _ else _) = _ -> _ => destruct (String.eqb_spec f n) end; try discriminate).
Qed.

Lemma lookup_in {A} (l : list (string * A)) k : In k (map fst l) -> exists v, lookup k l = Some v.
Proof.
  induction l as [|[k' v] l IH]; simpl; [tauto|].
  destruct (String.eqb_spec k k'); [eauto|]. intros [E|H]; [congruence|auto].
Qed.
Lemma lookup_not_in {A} (l : list (string * A)) k : ~ In k (map fst l) -> lookup k l = None.
Proof.
  induction l as [|[k' v] l IH]; simpl; [auto|].
  destruct (String.eqb_spec k k'); [intuition congruence|]. intuition.
Qed.

Lemma points_length ss : length (ravel (masses_of ss)) = length (ravel (fst (fst (points_of ss)))).
Proof. unfold masses_of, points_of; simpl. now rewrite !map_length. Qed.

(** The value of point_gravity on arrays of equal shape. *)
Lemma point_gravity_newton sh ps ss field cs :
  prod_shape sh = length ps -> supported cs field ->
  point_gravity (coords_of sh ps) (points_of ss) (masses_of ss) field cs
  = Ok (Arr sh (map (fun p => sum_over ss (newton_field cs field p)) ps)).
Proof.
  intros Hsh Hsup. unfold point_gravity, coords_of, points_of, coords_of, masses_of, arr1, ravel.
  rewrite broadcast3_same by reflexivity. cbn [shape data].
  rewrite !map_length, Nat.eqb_refl. cbn [negb].
  destruct Hsup as [[-> Hf]|[-> Hf]].
  - change (check_coordinate_system "cartesian" ["cartesian"; "spherical"]) with (@Ok unit tt). cbn [bind]. rewrite Hsh.
    change (String.eqb "cartesian" "cartesian") with true. cbv iota.
    unfold get_kernel_cartesian. destruct (lookup_in cartesian_kernels field Hf) as [k Hk].
    rewrite Hk. cbn [bind]. rewrite point_mass_cartesian_ok. cbn [bind].
    do 2 f_equal. rewrite convert_units_map, map_map. apply map_ext. intros p. rewrite conv_sum.
    apply sum_over_ext; intros s _. apply cartesian_kernel_spec; exact Hk.
  - change (check_coordinate_system "spherical" ["cartesian"; "spherical"]) with (@Ok unit tt). cbn [bind]. rewrite Hsh.
    change (String.eqb "spherical" "cartesian") with false. cbv iota.
    unfold get_kernel_spherical.
    assert (exists k, lookup field spherical_kernels = Some (Some k)) as [k Hk]
      by (destruct Hf as [<-|[<-|[]]]; cbn; eauto).
    rewrite Hk. cbn [bind]. rewrite point_mass_spherical_ok. cbn [bind].
    do 2 f_equal. rewrite convert_units_map, map_map. apply map_ext. intros p. rewrite conv_sum.
    apply sum_over_ext; intros s _. apply spherical_kernel_spec; exact Hk.
Qed.

(** Superposition, order, linearity *)
Lemma point_gravity_union sh ps ss1 ss2 field cs :
  prod_shape sh = length ps -> supported cs field ->
  exists d1 d2 d,
    point_gravity (coords_of sh ps) (points_of ss1) (masses_of ss1) field cs = Ok (Arr sh d1) /\
    point_gravity (coords_of sh ps) (points_of ss2) (masses_of ss2) field cs = Ok (Arr sh d2) /\
    point_gravity (coords_of sh ps) (points_of (ss1 ++ ss2)) (masses_of (ss1 ++ ss2)) field cs = Ok (Arr sh d) /\
    length d = length ps /\ forall k, nth k d 0 = nth k d1 0 + nth k d2 0.
Proof.
  intros H1 H2. do 3 eexists. rewrite !point_gravity_newton by assumption.
  repeat split. now rewrite map_length.
  intros k. destruct (Nat.lt_ge_cases k (length ps)) as [H|H].
  - rewrite !(nth_map _ ps k p0) by assumption. apply sum_over_app.
  - rewrite !nth_overflow by (rewrite map_length; assumption). ring.
Qed.

Lemma point_gravity_order sh ps ss1 ss2 field cs :
  prod_shape sh = length ps -> supported cs field -> Permutation ss1 ss2 ->
  point_gravity (coords_of sh ps) (points_of ss1) (masses_of ss1) field cs
  = point_gravity (coords_of sh ps) (points_of ss2) (masses_of ss2) field cs.
Proof.
  intros H1 H2 HP. rewrite !point_gravity_newton by assumption. do 2 f_equal.
  apply map_ext; intros p. now apply sum_over_perm.
Qed.

Lemma newton_field_mass cs field p q m :
  newton_field cs field p (q, m) = m * newton_field cs field p (q, 1).
Proof.
  unfold newton_field, newton_field_cartesian, newton_field_spherical, newton_potential, newton_accel, newton_tensor, dot, vscale; cbn.
  repeat match goal with |- context[if ?b then _ else _] => destruct b end;
    try (destruct (directions field) as [[]|]); unfold Rdiv; cbn; ring.
Qed.

Lemma point_gravity_linear sh ps (qs : list point) (m1 m2 : list R) a b field cs :
  prod_shape sh = length ps -> supported cs field -> length m1 = length qs -> length m2 = length qs ->
  let m := map (fun xy => a * fst xy + b * snd xy) (combine m1 m2) in
  exists d1 d2 d,
    point_gravity (coords_of sh ps) (coords_of [length qs] qs) (arr1 m1) field cs = Ok (Arr sh d1) /\
    point_gravity (coords_of sh ps) (coords_of [length qs] qs) (arr1 m2) field cs = Ok (Arr sh d2) /\
    point_gravity (coords_of sh ps) (coords_of [length qs] qs) (arr1 m) field cs = Ok (Arr sh d) /\
    forall k, nth k d 0 = a * nth k d1 0 + b * nth k d2 0.
Proof.
  intros H1 H2 L1 L2 m.
  assert (Lm : length m = length qs) by (unfold m; rewrite map_length, combine_length; lia).
  assert (E : forall l, length l = length qs ->
     coords_of [length qs] qs = points_of (combine qs l) /\ arr1 l = masses_of (combine qs l)).
  { intros l Hl. unfold points_of, masses_of. split.
    - unfold source. rewrite combine_length, Hl, Nat.min_id. f_equal.
      clear -Hl. revert l Hl; induction qs as [|q qs IH]; intros [|x l] Hl; simpl in *; try discriminate; auto.
      f_equal. apply IH. lia.
    - f_equal. clear -Hl. revert l Hl; induction qs as [|q qs IH]; intros [|x l] Hl; simpl in *; try discriminate; auto.
      f_equal. apply IH. lia. }
  do 3 eexists. destruct (E m1 L1) as [_ ->]; destruct (E m2 L2) as [_ ->]; destruct (E m Lm) as [_ ->].
  split; [rewrite (proj1 (E m1 L1)); rewrite point_gravity_newton by assumption; reflexivity|].
  split; [rewrite (proj1 (E m2 L2)); rewrite point_gravity_newton by assumption; reflexivity|].
  split; [rewrite (proj1 (E m Lm)); rewrite point_gravity_newton by assumption; reflexivity|].
  intros k. destruct (Nat.lt_ge_cases k (length ps)) as [H|H];
    [|rewrite !nth_overflow by (rewrite map_length; assumption); ring].
  rewrite !(nth_map _ ps k p0) by assumption. unfold m. generalize (nth k ps p0) as p. clear -L1 L2.
  revert m1 m2 L1 L2. induction qs as [|q qs IH]; intros [|x m1] [|y m2] L1 L2 p; simpl in *; try discriminate.
  - unfold sum_over; simpl; ring.
  - rewrite !sum_over_cons. rewrite IH by lia.
    rewrite (newton_field_mass _ _ _ _ (a * x + b * y)), (newton_field_mass _ _ _ _ x), (newton_field_mass _ _ _ _ y). ring.
Qed.

(** Derivatives *)
Lemma eucl_pos x y : x <> y -> 0 < eucl x y.
Proof.
  intros H. destruct (eucl_nonneg x y) as [|E]; [assumption|]. exfalso; apply H. now apply eucl_zero.
Qed.

Lemma eucl_shift_0 x y d : eucl (vadd x (vscale 0 d)) y = eucl x y.
Proof.
  unfold eucl, norm, dot, vsub, vadd, vscale; cbn. f_equal; ring.
Qed.

Lemma is_derive_eucl x y d : x <> y ->
  is_derive (fun t => eucl (vadd x (vscale t d)) y) 0 (dot (vsub x y) d / eucl x y).
Proof.
  intros H. pose proof (eucl_pos x y H) as Hp.
  assert (Hq : 0 < dot (vsub x y) (vsub x y)).
  { unfold eucl, norm in Hp. destruct (Rle_lt_dec (dot (vsub x y) (vsub x y)) 0); auto.
    rewrite sqrt_neg_0 in Hp; lra. }
  unfold eucl, norm, dot, vsub, vadd, vscale in *; cbn [vx vy vz] in *.
  auto_derive.
  - match goal with |- 0 < ?a => replace a with ((vx x - vx y) * (vx x - vx y) + (vy x - vy y) * (vy x - vy y) + (vz x - vz y) * (vz x - vz y)) by ring end.
    tauto.
  - match goal with |- context[sqrt ?a] => match a with context[vx d] => replace a with ((vx x - vx y) * (vx x - vx y) + (vy x - vy y) * (vy x - vy y) + (vz x - vz y) * (vz x - vz y)) by ring end end.
    field. lra.
Qed.

Lemma newton_potential_derive m x y d : x <> y ->
  is_derive (fun t => newton_potential m (vadd x (vscale t d)) y) 0 (newton_accel m x y d).
Proof.
  intros H. pose proof (eucl_pos x y H) as Hp. pose proof (is_derive_eucl x y d H) as HD.
  unfold newton_potential, newton_accel.
  assert (HE : is_derive (fun r => newton_G * m / r) (eucl (vadd x (vscale 0 d)) y) (- (newton_G * m) / eucl x y ^ 2)).
  { rewrite eucl_shift_0. auto_derive; [lra|]. field. lra. }
  pose proof (is_derive_comp (fun r => newton_G * m / r) (fun t => eucl (vadd x (vscale t d)) y) 0 _ _ HE HD) as HC. cbv beta in HC.
  replace (dot (vscale (newton_G * m / eucl x y ^ 3) (vsub y x)) d)
    with (scal (dot (vsub x y) d / eucl x y) (- (newton_G * m) / eucl x y ^ 2)); [exact HC|].
  unfold scal; cbn; unfold mult; cbn. unfold dot, vscale, vsub; cbn [vx vy vz]. field. lra.
Qed.

Lemma newton_accel_derive m x y a b : x <> y ->
  is_derive (fun t => newton_accel m (vadd x (vscale t a)) y b) 0 (newton_tensor m x y a b).
Proof.
  intros H. pose proof (eucl_pos x y H) as Hp. pose proof (is_derive_eucl x y a H) as HD.
  unfold newton_accel, newton_tensor.
  assert (HE : is_derive (fun r => newton_G * m / r ^ 3) (eucl (vadd x (vscale 0 a)) y) (- 3 * (newton_G * m) / eucl x y ^ 4)).
  { rewrite eucl_shift_0. auto_derive; [apply Rgt_not_eq; apply Rmult_lt_0_compat; [lra|]; apply Rmult_lt_0_compat; lra|]. field. lra. }
  pose proof (is_derive_comp (fun r => newton_G * m / r ^ 3) (fun t => eucl (vadd x (vscale t a)) y) 0 _ _ HE HD) as HC. cbv beta in HC.
  assert (HL : is_derive (fun t => dot (vsub y (vadd x (vscale t a))) b) 0 (- dot a b)).
  { unfold dot, vsub, vadd, vscale; cbn [vx vy vz]. auto_derive; [trivial|ring]. }
  pose proof (is_derive_mult _ _ _ _ _ HC HL Rmult_comm) as HM.
  match type of HM with is_derive ?f ?z ?l =>
    match goal with |- is_derive _ _ ?r => replace r with l; [apply (is_derive_ext f); [|exact HM]|] end end.
  - intros t. unfold mult; cbn. unfold dot, vscale; cbn [vx vy vz]. ring.
  - rewrite eucl_shift_0. unfold scal, plus, mult; cbn -[eucl]. unfold mult; cbn -[eucl].
    unfold dot, vscale, vsub, vadd; cbn [vx vy vz]. field. lra.
Qed.

Definition dir (a : axis) : vec3 := match a with East => e_east | North => e_north | Down => e_down end.

Lemma move_dir a t p : cart_position (move a t p) = vadd (cart_position p) (vscale t (dir a)).
Proof.
  destruct p as [[e n] u], a; unfold vadd, vscale; cbn; f_equal; ring.
Qed.

Lemma is_derive_sum {A} (l : list A) (f : R -> A -> R) df x :
  (forall s, In s l -> is_derive (fun t => f t s) x (df s)) ->
  is_derive (fun t => sum_over l (f t)) x (sum_over l df).
Proof.
  induction l as [|s l IH]; intros H.
  - unfold sum_over; simpl. apply (is_derive_const (V := R_NormedModule)).
  - eapply is_derive_ext; [intros; symmetry; apply sum_over_cons|]. rewrite sum_over_cons.
    apply (is_derive_plus (V := R_NormedModule)); [apply H; now left|apply IH; intros; apply H; now right].
Qed.

Lemma returned_newton p ss field cs : supported cs field ->
  returned (point_gravity (coords_of [] [p]) (points_of ss) (masses_of ss) field cs)
  = sum_over ss (newton_field cs field p).
Proof. intros H. now rewrite point_gravity_newton. Qed.

Definition off_sources (pos : point -> vec3) (p : point) (ss : list source) : Prop :=
  forall s, In s ss -> pos p <> pos (fst s).

Lemma sup_pot : supported "cartesian" "potential". Proof. left; cbn; tauto. Qed.
Lemma sup_g1 a : supported "cartesian" (g1 a). Proof. left; destruct a; cbn; tauto. Qed.
Lemma sup_g2 a b : supported "cartesian" (g2 a b). Proof. left; destruct a, b; cbn; tauto. Qed.

Lemma newton_g1 a p s : newton_field "cartesian" (g1 a) p s = mGal * newton_accel (snd s) (cart_position p) (cart_position (fst s)) (dir a).
Proof. destruct a; reflexivity. Qed.
Lemma newton_g2 a b p s : newton_field "cartesian" (g2 a b) p s = eotvos * newton_tensor (snd s) (cart_position p) (cart_position (fst s)) (dir a) (dir b).
Proof. destruct a, b; reflexivity. Qed.

Lemma point_gravity_first a p ss : off_sources cart_position p ss ->
  is_derive (fun t => returned (point_gravity (coords_of [] [move a t p]) (points_of ss) (masses_of ss) "potential" "cartesian")) 0
    (returned (point_gravity (coords_of [] [p]) (points_of ss) (masses_of ss) (g1 a) "cartesian") / mGal).
Proof.
  intros H. rewrite returned_newton by apply sup_g1.
  eapply is_derive_ext; [intros t; symmetry; apply returned_newton, sup_pot|].
  unfold Rdiv. rewrite Rmult_comm, <- sum_over_scal.
  apply is_derive_sum. intros s Hs. rewrite newton_g1.
  replace (/ mGal * (mGal * newton_accel (snd s) (cart_position p) (cart_position (fst s)) (dir a)))
    with (newton_accel (snd s) (cart_position p) (cart_position (fst s)) (dir a)) by (unfold mGal; field).
  eapply is_derive_ext; [|apply newton_potential_derive; apply H; exact Hs].
  intros t. cbv beta. rewrite <- move_dir. reflexivity.
Qed.

Lemma point_gravity_second a b p ss : off_sources cart_position p ss ->
  is_derive (fun t => returned (point_gravity (coords_of [] [move a t p]) (points_of ss) (masses_of ss) (g1 b) "cartesian") / mGal) 0
    (returned (point_gravity (coords_of [] [p]) (points_of ss) (masses_of ss) (g2 a b) "cartesian") / eotvos).
Proof.
  intros H. rewrite returned_newton by apply sup_g2.
  eapply is_derive_ext; [intros t; symmetry; rewrite returned_newton by apply sup_g1; unfold Rdiv; rewrite Rmult_comm; symmetry; apply sum_over_scal|].
  unfold Rdiv. rewrite Rmult_comm, <- sum_over_scal.
  apply is_derive_sum. intros s Hs. rewrite newton_g2.
  replace (/ eotvos * (eotvos * newton_tensor (snd s) (cart_position p) (cart_position (fst s)) (dir a) (dir b)))
    with (newton_tensor (snd s) (cart_position p) (cart_position (fst s)) (dir a) (dir b)) by (unfold eotvos; field).
  eapply is_derive_ext; [|apply newton_accel_derive; apply H; exact Hs].
  intros t. cbv beta. rewrite newton_g1, <- move_dir. unfold mGal; eqR; field.
Qed.

Lemma point_gravity_symmetric a b sh ps ss : prod_shape sh = length ps ->
  point_gravity (coords_of sh ps) (points_of ss) (masses_of ss) (g2 a b) "cartesian"
  = point_gravity (coords_of sh ps) (points_of ss) (masses_of ss) (g2 b a) "cartesian".
Proof.
  intros H. rewrite !point_gravity_newton by (assumption || apply sup_g2). do 2 f_equal.
  apply map_ext; intros p. apply sum_over_ext; intros s _. rewrite !newton_g2.
  unfold newton_tensor. rewrite (dot_sym (dir a) (dir b)). f_equal. unfold Rdiv; ring.
Qed.

Lemma point_gravity_laplace p ss : off_sources cart_position p ss ->
  returned (point_gravity (coords_of [] [p]) (points_of ss) (masses_of ss) "g_ee" "cartesian")
  + returned (point_gravity (coords_of [] [p]) (points_of ss) (masses_of ss) "g_nn" "cartesian")
  + returned (point_gravity (coords_of [] [p]) (points_of ss) (masses_of ss) "g_zz" "cartesian") = 0.
Proof.
  intros H.
  change "g_ee" with (g2 East East). change "g_nn" with (g2 North North). change "g_zz" with (g2 Down Down).
  rewrite !returned_newton by apply sup_g2.
  rewrite <- !sum_over_plus. apply sum_over_zero. intros s Hs. rewrite !newton_g2.
  pose proof (eucl_pos _ _ (H s Hs)) as Hp.
  assert (E : eucl (cart_position p) (cart_position (fst s)) ^ 2 = dot (vsub (cart_position p) (cart_position (fst s))) (vsub (cart_position p) (cart_position (fst s))))
    by (unfold eucl; simpl; rewrite Rmult_1_r; apply norm_sqr).
  unfold newton_tensor. set (d := eucl _ _) in *. set (v := vsub _ _) in *.
  unfold dot in E |- *; cbn [vx vy vz dir e_east e_north e_down].
  transitivity (eotvos * (newton_G * snd s) * (3 * (vx v * vx v + vy v * vy v + vz v * vz v) - 3 * d ^ 2) / d ^ 5); [field; lra|].
  rewrite <- E. field. lra.
Qed.

(** Spherical *)
Lemma sph_shift lon lat r t :
  sph_position (lon, lat, r + t) = vadd (sph_position (lon, lat, r)) (vscale t (vscale (-1) (sph_down (lon, lat, r)))).
Proof. unfold vadd, vscale; cbn. f_equal; ring. Qed.

Lemma point_gravity_radial lon lat r ss : off_sources sph_position (lon, lat, r) ss ->
  is_derive (fun t => returned (point_gravity (coords_of [] [(lon, lat, r + t)]) (points_of ss) (masses_of ss) "potential" "spherical")) 0
    (- (returned (point_gravity (coords_of [] [(lon, lat, r)]) (points_of ss) (masses_of ss) "g_z" "spherical") / mGal)).
Proof.
  intros H. rewrite returned_newton by (right; cbn; tauto).
  eapply is_derive_ext; [intros t; symmetry; apply returned_newton; right; cbn; tauto|].
  replace (- (sum_over ss (newton_field "spherical" "g_z" (lon, lat, r)) / mGal)) with (- / mGal * sum_over ss (newton_field "spherical" "g_z" (lon, lat, r))) by (unfold Rdiv; ring).
  rewrite <- sum_over_scal. apply is_derive_sum. intros s Hs.
  replace (- / mGal * newton_field "spherical" "g_z" (lon, lat, r) s) with
    (newton_accel (snd s) (sph_position (lon, lat, r)) (sph_position (fst s)) (vscale (-1) (sph_down (lon, lat, r)))).
  2:{ unfold newton_field, newton_field_spherical; cbn -[sph_position sph_down newton_accel mGal pow].
      unfold newton_accel. generalize (newton_G * snd s / eucl (sph_position (lon, lat, r)) (sph_position (fst s)) ^ 3) as K; intros K. unfold dot, vscale; cbn [vx vy vz]. unfold mGal; field. }
  eapply is_derive_ext; [|apply newton_potential_derive; apply H; exact Hs].
  intros t. cbv beta. rewrite <- sph_shift. reflexivity.
Qed.

(** Broadcasting *)
Lemma coords_of_equal_shapes c0 c1 c2 :
  wf_arr c0 -> wf_arr c1 -> wf_arr c2 -> shape c0 = shape c1 -> shape c1 = shape c2 ->
  (c0, c1, c2) = coords_of (shape c0) (broadcast_points (shape c0) (c0, c1, c2))
  /\ length (broadcast_points (shape c0) (c0, c1, c2)) = prod_shape (shape c0).
Proof.
  intros W0 W1 W2 E1 E2. split.
  - unfold coords_of, broadcast_points. rewrite !map_map. unfold fst3, snd3, thd3; cbn [fst snd].
    assert (K : forall c, wf_arr c -> shape c = shape c0 ->
       c = Arr (shape c0) (map (fun k => bcast_get c (shape c0) k) (range 0 (prod_shape (shape c0))))).
    { intros [s d] W E; cbn [shape] in *; subst s. f_equal. unfold wf_arr in W; cbn [data shape] in W. rewrite <- W.
      rewrite <- (map_id d) at 1. rewrite <- (map_range_nth d 0 (fun x => x)).
      apply map_ext_in; intros k Hk. apply range_in in Hk. symmetry.
      apply (bcast_get_same {| shape := shape c0; data := d |}); cbn; [exact W|lia]. }
    f_equal; [f_equal|]; apply K; congruence.
  - unfold broadcast_points. apply length_map_range.
Qed.

Lemma point_gravity_equal_shapes c0 c1 c2 ss field cs :
  wf_arr c0 -> wf_arr c1 -> wf_arr c2 -> shape c0 = shape c1 -> shape c1 = shape c2 -> supported cs field ->
  broadcast3 c0 c1 c2 = Ok (shape c0) /\
  point_gravity (c0, c1, c2) (points_of ss) (masses_of ss) field cs
  = Ok (Arr (shape c0) (map (fun p => sum_over ss (newton_field cs field p)) (broadcast_points (shape c0) (c0, c1, c2)))).
Proof.
  intros W0 W1 W2 E1 E2 S. destruct (coords_of_equal_shapes c0 c1 c2 W0 W1 W2 E1 E2) as [E L].
  split; [rewrite E1, E2; apply broadcast3_same; assumption|].
  rewrite E at 1. apply point_gravity_newton; [symmetry; exact L|exact S].
Qed.

Lemma pot_unit_below : newton_field "cartesian" "potential" (0, 0, 0) ((0, 0, -1), 1) = newton_G.
Proof.
  unfold newton_field, newton_field_cartesian; cbn -[newton_potential cart_position].
  unfold newton_potential, eucl, norm, dot; cbn.
  replace ((0 - 0) * (0 - 0) + (0 - 0) * (0 - 0) + (0 - -1) * (0 - -1)) with 1 by ring.
  rewrite sqrt_1. unfold newton_G; field.
Qed.

Lemma newton_G_pos : 0 < newton_G.
Proof. unfold newton_G. lra. Qed.

Lemma point_gravity_broadcast_zeros :
  let c := (scalar 0, arr1 [0; 0], scalar 0) in
  let ss := [((0, 0, -1), 1)] in
  broadcast3 (scalar 0) (arr1 [0; 0]) (scalar 0) = Ok [2%nat] /\
  point_gravity c (points_of ss) (masses_of ss) "potential" "cartesian" = Ok (Arr [2%nat] [newton_G; 0]) /\
  map (fun p => sum_over ss (newton_field "cartesian" "potential" p)) (broadcast_points [2%nat] c) = [newton_G; newton_G].
Proof.
  cbv zeta. split; [reflexivity|]. split.
  - pose proof pot_unit_below as H.
    unfold newton_field, newton_field_cartesian in H; cbn -[newton_potential cart_position newton_G] in H.
    unfold newton_potential in H.
    unfold point_gravity; cbn -[gravity_pot newton_G]. unfold convert_units; cbn -[gravity_pot newton_G].
    do 4 f_equal. rewrite Rplus_0_l. unfold gravity_pot. rewrite G_newton.
    pose proof (choclo_dist_eucl (0, 0, 0) ((0, 0, -1), 1)) as HD.
    unfold fst3, snd3, thd3 in HD; cbn [fst snd] in HD. rewrite HD. exact H.
  - unfold broadcast_points, bcast_get, range; cbn -[newton_field newton_G]. unfold sum_over; cbn [map sumR].
    rewrite !pot_unit_below, Rplus_0_r. reflexivity.
Qed.

Lemma point_gravity_broadcast_oob :
  point_gravity (arr1 [0; 0], scalar 0, scalar 0) (points_of [((0, 0, -1), 1)]) (masses_of [((0, 0, -1), 1)]) "potential" "cartesian"
  = Raise OutOfBounds.
Proof. unfold point_gravity; cbn. reflexivity. Qed.

(** Checks *)
Lemma mem_In s l : existsb (String.eqb s) l = true <-> In s l.
Proof.
  rewrite existsb_exists. split.
  - intros (x & H & E). apply String.eqb_eq in E. now subst.
  - intros H. exists s. split; [exact H|apply String.eqb_refl].
Qed.

Lemma point_gravity_bad_cs c p m field cs :
  ~ In cs ["cartesian"; "spherical"] -> point_gravity c p m field cs = Raise ValueError.
Proof.
  intros H. destruct c as [[c0 c1] c2], p as [[q0 q1] q2]. unfold point_gravity, check_coordinate_system.
  destruct (existsb (String.eqb cs) ["cartesian"; "spherical"]) eqn:E; [|reflexivity].
  exfalso; apply H. now apply mem_In.
Qed.

Lemma point_gravity_bad_masses c0 c1 c2 p0 p1 p2 m field cs :
  length (data m) <> length (data p0) -> point_gravity (c0, c1, c2) (p0, p1, p2) m field cs = Raise ValueError.
Proof.
  intros H. unfold point_gravity.
  unfold check_coordinate_system. destruct (existsb _ _); cbn [bind]; [|reflexivity].
  unfold broadcast3. destruct (bcast_rev _ _); [|reflexivity]. destruct (bcast_rev _ _); [|reflexivity]. cbn [bind].
  unfold ravel. destruct (Nat.eqb_spec (length (data m)) (length (data p0))); [contradiction|reflexivity].
Qed.

Lemma point_gravity_bad_field c p m field cs :
  ~ In field (if String.eqb cs "cartesian" then cartesian_fields else "g_e" :: "g_n" :: spherical_fields) ->
  point_gravity c p m field cs = Raise ValueError.
Proof.
  intros H. destruct c as [[c0 c1] c2], p as [[q0 q1] q2]. unfold point_gravity.
  unfold check_coordinate_system. destruct (existsb _ _); cbn [bind]; [|reflexivity].
  unfold broadcast3. destruct (bcast_rev _ _); [|reflexivity]. destruct (bcast_rev _ _); [|reflexivity]. cbn [bind].
  destruct (negb _); [reflexivity|].
  destruct (String.eqb cs "cartesian").
  - unfold get_kernel_cartesian. rewrite (lookup_not_in cartesian_kernels field); [reflexivity|exact H].
  - unfold get_kernel_spherical. rewrite (lookup_not_in spherical_kernels field); [reflexivity|].
    intros K; apply H. cbn in K |- *. tauto.
Qed.

Lemma point_gravity_spherical_horizontal c0 c1 c2 p0 p1 p2 m field S :
  In field ["g_e"; "g_n"] -> broadcast3 c0 c1 c2 = Ok S -> length (data m) = length (data p0) ->
  point_gravity (c0, c1, c2) (p0, p1, p2) m field "spherical" = Raise NotImplementedError.
Proof.
  intros Hf HB HL. unfold point_gravity. change (check_coordinate_system "spherical" ["cartesian"; "spherical"]) with (@Ok unit tt).
  rewrite HB. cbn [bind]. unfold ravel. rewrite HL, Nat.eqb_refl. cbn [negb].
  destruct Hf as [<-|[<-|[]]]; reflexivity.
Qed.

Lemma point_gravity_spherical_unsupported c p m field r :
  field <> "potential" -> field <> "g_z" -> point_gravity c p m field "spherical" <> Ok r.
Proof.
  intros H1 H2. destruct c as [[c0 c1] c2], p as [[q0 q1] q2]. unfold point_gravity.
  unfold check_coordinate_system. destruct (existsb _ _); cbn [bind]; [|discriminate].
  unfold broadcast3. destruct (bcast_rev _ _); [|discriminate]. destruct (bcast_rev _ _); [|discriminate]. cbn [bind].
  destruct (negb _); [discriminate|].
  change (String.eqb "spherical" "cartesian") with false. cbv iota.
  unfold get_kernel_spherical, spherical_kernels; cbn [lookup].
  apply String.eqb_neq in H1, H2. rewrite H1, H2.
  destruct (String.eqb field "g_n"); [discriminate|]. destruct (String.eqb field "g_e"); discriminate.
Qed.

Lemma point_gravity_ignores_extra :
  let p := (arr1 [0], arr1 [0; 7], arr1 [-1]) in
  point_gravity (coords_of [] [(0, 0, 0)]) p (arr1 [1]) "potential" "cartesian" = Ok (scalar newton_G).
Proof.
  pose proof (point_gravity_newton [] [(0, 0, 0)] [((0, 0, -1), 1)] "potential" "cartesian" eq_refl sup_pot) as H.
  cbn [map] in H. unfold sum_over in H; cbn [map sumR] in H. rewrite pot_unit_below, Rplus_0_r in H.
  cbv zeta. unfold scalar. rewrite <- H. reflexivity.
Qed.

Lemma point_gravity_short_points :
  point_gravity (coords_of [] [(0, 0, 0)]) (arr1 [0; 0], arr1 [0], arr1 [-1; -2]) (arr1 [1; 1]) "potential" "cartesian" = Raise OutOfBounds.
Proof. reflexivity. Qed.
