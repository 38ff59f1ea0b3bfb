From Coq Require Import Permutation.
From Coquelicot Require Import Coquelicot.
From Verif Require Import Base BaseFacts NumPy NumPyFacts DistanceModel DistanceSpec DistanceProofs PointGravityModel PointGravitySpec PointGravityProofs PrismModel PrismSpec PrismProofs.
Local Open Scope string_scope. Local Open Scope list_scope. Local Open Scope R_scope.

(** ** Three loops run as one *)
Lemma for_sync {I A} (inv : A * A * A -> Prop) (l : list I) (f1 f2 f3 : I -> A -> res A) (F : I -> A * A * A -> res (A * A * A)) :
  (forall i a b c, In i l -> inv (a, b, c) ->
     (exists a' b' c', f1 i a = Ok a' /\ f2 i b = Ok b' /\ f3 i c = Ok c' /\ F i (a, b, c) = Ok (a', b', c') /\ inv (a', b', c')) \/
     (exists e, f1 i a = Raise e /\ f2 i b = Raise e /\ f3 i c = Raise e /\ F i (a, b, c) = Raise e)) ->
  forall a b c, inv (a, b, c) ->
     (exists a' b' c', for_ l f1 a = Ok a' /\ for_ l f2 b = Ok b' /\ for_ l f3 c = Ok c' /\ for_ l F (a, b, c) = Ok (a', b', c') /\ inv (a', b', c')) \/
     (exists e, for_ l f1 a = Raise e /\ for_ l f2 b = Raise e /\ for_ l f3 c = Raise e /\ for_ l F (a, b, c) = Raise e).
Proof.
  induction l as [|i l IH]; intros H a b c Hi; cbn [for_].
  - left. exists a, b, c. auto.
  - destruct (H i a b c (or_introl eq_refl) Hi) as [(a' & b' & c' & E1 & E2 & E3 & E & Hi')|(e & E1 & E2 & E3 & E)]; rewrite E1, E2, E3, E; cbn [bind].
    + apply IH; [|exact Hi']. intros; apply H; [now right|assumption].
    + right. exists e. auto.
Qed.

Definition p1 (c : R * R * R) : R := fst (fst c).
Definition p2 (c : R * R * R) : R := snd (fst c).
Definition p3 (c : R * R * R) : R := snd c.
Definition part (f : R * R * R -> R) (contrib : nat -> nat -> res (R * R * R)) (i j : nat) : res R := do c <- contrib i j; Ok (f c).

Lemma nth_error_Some_lt {A} (l : list A) i x : nth_error l i = Some x -> (i < length l)%nat.
Proof. intros H. apply nth_error_Some. congruence. Qed.

Definition same_length (s : list R * list R * list R) : Prop :=
  length (snd (fst s)) = length (fst (fst s)) /\ length (snd s) = length (fst (fst s)).

Lemma accumulate3_sync n m contrib a b c : same_length (a, b, c) ->
  (exists a' b' c', accumulate n m (part p1 contrib) a = Ok a' /\ accumulate n m (part p2 contrib) b = Ok b' /\ accumulate n m (part p3 contrib) c = Ok c'
      /\ accumulate3 n m contrib (a, b, c) = Ok (a', b', c') /\ same_length (a', b', c')) \/
  (exists e, accumulate n m (part p1 contrib) a = Raise e /\ accumulate n m (part p2 contrib) b = Raise e /\ accumulate n m (part p3 contrib) c = Raise e
      /\ accumulate3 n m contrib (a, b, c) = Raise e).
Proof.
  intros H. unfold accumulate, accumulate3. apply for_sync; [|exact H]. clear. intros i a b c _ H.
  apply for_sync; [|exact H]. clear. intros j a b c _ [H1 H2]. cbn [fst snd] in H1, H2. unfold part.
  destruct (contrib i j) as [[[x y] z]|e]; cbn [bind]; [|right; exists e; auto].
  unfold aget, aset. cbn [bind fst snd p1 p2 p3].
  destruct (Nat.ltb_spec i (length a)) as [L|L].
  - destruct (nth_error a i) as [va|] eqn:Ea; [|apply nth_error_None in Ea; lia].
    destruct (nth_error b i) as [vb|] eqn:Eb; [|apply nth_error_None in Eb; lia].
    destruct (nth_error c i) as [vc|] eqn:Ec; [|apply nth_error_None in Ec; lia]. cbn [bind].
    destruct (Nat.ltb_spec i (length b)); [|lia]. destruct (Nat.ltb_spec i (length c)); [|lia]. cbn [bind].
    left. do 3 eexists. split; [reflexivity|]. split; [reflexivity|]. split; [reflexivity|]. split; [reflexivity|].
    unfold same_length; cbn [fst snd]. rewrite !length_upd. lia.
  - destruct (nth_error a i) as [va|] eqn:Ea; [apply nth_error_Some_lt in Ea; lia|].
    destruct (nth_error b i) as [vb|] eqn:Eb; [apply nth_error_Some_lt in Eb; lia|].
    destruct (nth_error c i) as [vc|] eqn:Ec; [apply nth_error_Some_lt in Ec; lia|].
    right. eexists. repeat split; reflexivity.
Qed.

Lemma for_ext {I S} (l : list I) (f g : I -> S -> res S) : (forall i s, f i s = g i s) -> forall s, for_ l f s = for_ l g s.
Proof. intros H. induction l as [|i l IH]; intros s; cbn [for_]; [reflexivity|]. rewrite H. destruct (g i s); cbn [bind]; auto. Qed.
Lemma accumulate_ext n m c1 c2 out : (forall i j, c1 i j = c2 i j) -> accumulate n m c1 out = accumulate n m c2 out.
Proof. intros H. unfold accumulate. apply for_ext. intros i s. apply for_ext. intros j s'. now rewrite H. Qed.

Lemma run_magnetic_split {S} (k : magnetic_kernels S) coordinates n source moments shape : agree k ->
  run_magnetic k coordinates n source moments shape "b"
  = do b_e <- run_magnetic k coordinates n source moments shape "b_e";
    do b_n <- run_magnetic k coordinates n source moments shape "b_n";
    do b_u <- run_magnetic k coordinates n source moments shape "b_u";
    Ok (b_e ++ b_n ++ b_u).
Proof.
  intros Hk. destruct coordinates as [[easting northing] upward], moments as [[mag_e mag_n] mag_u].
  unfold run_magnetic, forward_function. cbn [String.eqb Ascii.eqb Bool.eqb lookup]. unfold jit_magnetic_field, jit_magnetic_component.
  set (contrib := fun i j : nat => do e <- aget easting i; do n0 <- aget northing i; do u <- aget upward i; do s <- source j;
     do me <- aget mag_e j; do mn <- aget mag_n j; do mu <- aget mag_u j; Ok (magnetic_field k e n0 u s me mn mu)).
  set (zeros := repeat 0 (prod_shape shape)).
  assert (X : forall (f : R * R * R -> R) g, (forall e n u s me mn mu, f (magnetic_field k e n u s me mn mu) = g e n u s me mn mu) ->
     accumulate (length easting) n (fun i j => do e <- aget easting i; do n0 <- aget northing i; do u <- aget upward i; do s <- source j;
        do me <- aget mag_e j; do mn <- aget mag_n j; do mu <- aget mag_u j; Ok (g e n0 u s me mn mu)) zeros
     = accumulate (length easting) n (part f contrib) zeros).
  { intros f g H. apply accumulate_ext. intros i j. unfold part, contrib.
    repeat match goal with |- context[bind ?x _] => destruct x; cbn [bind]; [|reflexivity] end. now rewrite H. }
  rewrite (X p1 (magnetic_e k)), (X p2 (magnetic_n k)), (X p3 (magnetic_u k)) by (intros; rewrite Hk; reflexivity).
  destruct (accumulate3_sync (length easting) n contrib zeros zeros zeros) as [(a & b & c & E1 & E2 & E3 & E & _)|(e & E1 & E2 & E3 & E)];
  [split; reflexivity| |]; rewrite E1, E2, E3, E; reflexivity.
Qed.

Lemma bind_assoc {A B C} (x : res A) (f : A -> res B) (g : B -> res C) : bind (bind x f) g = bind x (fun a => bind (f a) g).
Proof. destruct x; reflexivity. Qed.

Lemma prism_magnetic_split k coordinates prisms mags disable : agree k ->
  prism_magnetic k coordinates prisms mags "b" disable
  = do b_e <- prism_magnetic k coordinates prisms mags "b_e" disable;
    do b_n <- prism_magnetic k coordinates prisms mags "b_n" disable;
    do b_u <- prism_magnetic k coordinates prisms mags "b_u" disable;
    Ok (b_e ++ b_n ++ b_u).
Proof.
  intros Hk. destruct coordinates as [[c0 c1] c2]. unfold prism_magnetic. cbn [mem existsb String.eqb Ascii.eqb Bool.eqb orb negb VALID_FIELDS].
  destruct (broadcast3 c0 c1 c2); cbn [bind]; [|reflexivity].
  match goal with |- context[if disable then Ok tt else ?r] => destruct (if disable then Ok tt else r); cbn [bind]; [|reflexivity] end.
  destruct (unpack3 (map ravel mags)); cbn [bind]; [|reflexivity].
  destruct (discard_null_prisms_magnetic prisms _); cbn [bind]; [|reflexivity]. now apply run_magnetic_split.
Qed.

Lemma dipole_agree mu0 : agree (dipole_kernels mu0).
Proof. intros e n u s me mn mu. reflexivity. Qed.

Lemma dipole_magnetic_split mu0 coordinates dipoles moments disable :
  dipole_magnetic mu0 coordinates dipoles moments "b" disable
  = do b_e <- dipole_magnetic mu0 coordinates dipoles moments "b_e" disable;
    do b_n <- dipole_magnetic mu0 coordinates dipoles moments "b_n" disable;
    do b_u <- dipole_magnetic mu0 coordinates dipoles moments "b_u" disable;
    Ok (b_e ++ b_n ++ b_u).
Proof.
  destruct coordinates as [[c0 c1] c2], dipoles as [[d0 d1] d2]. unfold dipole_magnetic. cbn [mem existsb String.eqb Ascii.eqb Bool.eqb orb negb VALID_FIELDS].
  destruct (broadcast3 c0 c1 c2); cbn [bind]; [|reflexivity].
  match goal with |- context[if disable then Ok tt else ?r] => destruct (if disable then Ok tt else r); cbn [bind]; [|reflexivity] end.
  destruct (unpack3 (map ravel moments)); cbn [bind]; [|reflexivity]. apply run_magnetic_split, dipole_agree.
Qed.

(** ** Values *)
Definition v0 : vec3 := V3 0 0 0.
Lemma component_ok {S} (s0 : S) (k : R -> R -> R -> S -> R -> R -> R -> R) ps (sms : list (S * vec3)) source :
  (forall j, (j < length sms)%nat -> source j = Ok (fst (nth j sms (s0, v0)))) ->
  jit_magnetic_component k (map fst3 ps, map snd3 ps, map thd3 ps) (length sms) source
    (map (fun sm => vx (snd sm)) sms, map (fun sm => vy (snd sm)) sms, map (fun sm => vz (snd sm)) sms) (repeat 0 (length ps))
  = Ok (map (fun p => sum_over sms (one_magnetic k p)) ps).
Proof.
  intros H. unfold jit_magnetic_component. rewrite map_length. apply (accumulate_gen ps sms (s0, v0)). intros i j Hi Hj.
  destruct (get_point ps i Hi) as (-> & -> & ->). cbn [bind]. rewrite (H j Hj). cbn [bind]. now rewrite !(get_map _ sms j (s0, v0) Hj).
Qed.

Lemma run_component {S} (s0 : S) (k : magnetic_kernels S) a sh ps (sms : list (S * vec3)) source :
  prod_shape sh = length ps ->
  (forall j, (j < length sms)%nat -> source j = Ok (fst (nth j sms (s0, v0)))) ->
  run_magnetic k (map fst3 ps, map snd3 ps, map thd3 ps) (length sms) source
    (map (fun sm => vx (snd sm)) sms, map (fun sm => vy (snd sm)) sms, map (fun sm => vz (snd sm)) sms) sh (b_name a)
  = Ok [Arr sh (map (fun p => sum_over sms (fun sm => nano * one_magnetic (axis_kernel k a) p sm)) ps)].
Proof.
  intros Hsh H. unfold run_magnetic. rewrite Hsh.
  assert (L : forward_function k (b_name a) = Some (axis_kernel k a)) by (destruct a; reflexivity).
  assert (B : String.eqb (b_name a) "b" = false) by (destruct a; reflexivity). rewrite B, L.
  rewrite (component_ok s0) by assumption. cbn [bind]. unfold nT. rewrite map_map. f_equal. f_equal. f_equal. apply map_ext. intros p. now rewrite sum_over_scal.
Qed.

Definition mag_null (pm : prism * vec3) : bool := (no_volume (fst pm) || (Reqb (vx (snd pm)) 0 && Reqb (vy (snd pm)) 0 && Reqb (vz (snd pm)) 0))%bool.
Definition mag_kept (pms : list (prism * vec3)) : list (prism * vec3) := filter (fun pm => negb (mag_null pm)) pms.
Lemma mag_null_spec pm : mag_null pm = true <-> volume (fst pm) = 0 \/ snd pm = v0.
Proof.
  unfold mag_null. rewrite orb_true_iff, no_volume_spec, !andb_true_iff, !Reqb_true. destruct pm as [p [x y z]]; cbn. unfold v0. split; intros [H|H]; auto; right.
  - destruct H as [[-> ->] ->]. reflexivity.
  - injection H as -> -> ->. auto.
Qed.

Lemma np_and_map {A} (f g : A -> bool) l : np_and (map f l) (map g l) = Ok (map (fun x => andb (f x) (g x)) l).
Proof. unfold np_and. rewrite !map_length, Nat.eqb_refl. f_equal. induction l as [|x l IH]; simpl; [reflexivity|]. now rewrite IH. Qed.

Lemma discard_magnetic_ok (pms : list (prism * vec3)) :
  discard_null_prisms_magnetic (map fst pms) (map (fun pm => vx (snd pm)) pms, map (fun pm => vy (snd pm)) pms, map (fun pm => vz (snd pm)) pms)
  = Ok (map fst (mag_kept pms), (map (fun pm => vx (snd pm)) (mag_kept pms), map (fun pm => vy (snd pm)) (mag_kept pms), map (fun pm => vz (snd pm)) (mag_kept pms))).
Proof.
  unfold discard_null_prisms_magnetic, is_zero. rewrite !map_map.
  rewrite (np_and_map (fun x => Reqb (vx (snd x)) 0) (fun x => Reqb (vy (snd x)) 0)). cbn [bind].
  rewrite (np_and_map (fun x => Reqb (vx (snd x)) 0 && Reqb (vy (snd x)) 0)%bool (fun x => Reqb (vz (snd x)) 0)). cbn [bind].
  rewrite (mark_map (fun x => no_volume (fst x)) (fun x => Reqb (vx (snd x)) 0 && Reqb (vy (snd x)) 0 && Reqb (vz (snd x)) 0)%bool). cbn [bind]. rewrite !map_map.
  change (map (fun x : prism * vec3 => negb (no_volume (fst x) || Reqb (vx (snd x)) 0 && Reqb (vy (snd x)) 0 && Reqb (vz (snd x)) 0)) pms)
    with (map (fun x : prism * vec3 => negb (mag_null x)) pms).
  now rewrite (keep_mask_map fst), (keep_mask_map (fun x => vx (snd x))), (keep_mask_map (fun x => vy (snd x))), (keep_mask_map (fun x => vz (snd x))).
Qed.

Lemma prism_magnetic_value k a sh ps (pms : list (prism * vec3)) disable :
  prod_shape sh = length ps ->
  prism_magnetic k (coords_of sh ps) (map fst pms) (moments_of (map snd pms)) (b_name a) disable
  = do _ <- (if disable then Ok tt else check_prisms_R (map fst pms));
    Ok [Arr sh (map (fun p => sum_over (mag_kept pms) (fun pm => nano * one_magnetic (axis_kernel k a) p pm)) ps)].
Proof.
  intros Hsh. unfold prism_magnetic, coords_of, moments_of.
  assert (M : mem (b_name a) VALID_FIELDS = true) by (destruct a; reflexivity). rewrite M. cbn [negb].
  rewrite broadcast3_same by reflexivity. cbn [bind shape]. cbn [map]. unfold ravel; cbn [data arr1]. cbn [length hd]. rewrite !map_length, !Nat.eqb_refl. cbn [Nat.eqb negb].
  destruct (if disable then Ok tt else check_prisms_R (map fst pms)); cbn [bind]; [|reflexivity]. cbn [unpack3 bind]. rewrite !map_map.
  rewrite discard_magnetic_ok. cbn [bind fst snd]. rewrite map_length. apply (run_component prism0); [assumption|].
  intros j Hj. apply get_map, Hj.
Qed.

Lemma dipole_magnetic_value mu0 a sh ps (dms : list (point * vec3)) disable :
  prod_shape sh = length ps ->
  dipole_magnetic mu0 (coords_of sh ps) (coords_of [length dms] (map fst dms)) (moments_of (map snd dms)) (b_name a) disable
  = Ok [Arr sh (map (fun p => sum_over dms (fun dm => nano * one_magnetic (axis_kernel (dipole_kernels mu0) a) p dm)) ps)].
Proof.
  intros Hsh. unfold dipole_magnetic, coords_of, moments_of.
  assert (M : mem (b_name a) VALID_FIELDS = true) by (destruct a; reflexivity). rewrite M. cbn [negb].
  rewrite broadcast3_same by reflexivity. cbn [bind shape]. cbn [map]. unfold ravel; cbn [data arr1]. cbn [length hd]. rewrite !map_length, !Nat.eqb_refl. cbn [Nat.eqb negb].
  replace (if disable then Ok tt else Ok tt) with (@Ok unit tt) by (destruct disable; reflexivity). cbn [unpack3 bind]. rewrite !map_map.
  apply (run_component p0); [assumption|].
  intros j Hj. rewrite !(get_map _ dms j (p0, v0) Hj). cbn [bind]. destruct (fst (nth j dms (p0, v0))) as [[x y] z]. reflexivity.
Qed.

(** ** Dipole kernels *)
Lemma dipole_component_field mu0 a p dm : cart_position p <> cart_position (fst dm) ->
  one_magnetic (axis_kernel (dipole_kernels mu0) a) p dm = comp a (dipole_field mu0 (cart_position p) (cart_position (fst dm)) (snd dm)).
Proof.
  intros H. pose proof (eucl_pos _ _ H) as Hp. destruct p as [[e n] u], dm as [[[ep np] up] [mx my mz]].
  unfold one_magnetic, dipole_field. cbn [fst snd fst3 snd3 thd3] in *. cbv zeta. change (norm (vsub (cart_position (e, n, u)) (cart_position (ep, np, up)))) with (eucl (cart_position (e, n, u)) (cart_position (ep, np, up))).
  assert (D : choclo_dist e n u ep np up = eucl (cart_position (e, n, u)) (cart_position (ep, np, up))) by apply distance_cartesian_eucl.
  destruct a; cbn [axis_kernel dipole_kernels magnetic_e magnetic_n magnetic_u dipole_component]; rewrite D;
  set (d := eucl _ _) in *; cbn; unfold dot, vsub; cbn [vx vy vz]; field; (split; [lra|apply PI_neq0]).
Qed.

Lemma shift_dir a t p : cart_position (shift a t p) = vadd (cart_position p) (vscale t (unit_vector a)).
Proof. destruct p as [[e n] u], a; unfold vadd, vscale; cbn; f_equal; ring. Qed.
Lemma dot_unit a v : dot v (unit_vector a) = comp a v.
Proof. destruct a; unfold dot; cbn; ring. Qed.

Lemma dipole_potential_derive mu0 x y m d : x <> y ->
  is_derive (fun t => dipole_potential mu0 (vadd x (vscale t d)) y m) 0 (- dot (dipole_field mu0 x y m) d).
Proof.
  intros H. pose proof (eucl_pos x y H) as Hp. pose proof (is_derive_eucl x y d H) as HD.
  unfold dipole_potential, dipole_field. cbv zeta. change (norm (vsub x y)) with (eucl x y). pose proof (eucl_shift_0 x y d) as H0.
  set (h := fun t => eucl (vadd x (vscale t d)) y) in *.
  apply (is_derive_ext (fun t => mu0 / (4 * PI) * (dot m (vsub (vadd x (vscale t d)) y) / h t ^ 3))); [reflexivity|].
  change (h 0 = eucl x y) in H0. change (is_derive h 0 (dot (vsub x y) d / eucl x y)) in HD. pose proof (is_derive_unique _ _ _ HD) as HU. clearbody h.
  unfold dot, vsub, vadd, vscale in *; cbn [vx vy vz] in *. auto_derive.
  - split; [eexists; exact HD|]. rewrite H0. split; [|trivial]. apply Rgt_not_eq. apply Rmult_lt_0_compat; [lra|]; apply Rmult_lt_0_compat; lra.
  - change (Derive (fun t => h t) 0) with (Derive h 0). rewrite HU, H0. field. split; [|apply PI_neq0]. lra.
Qed.

Definition dipole_gradient (mu0 : R) (x y m d1 d2 : vec3) : R :=
  let r := vsub x y in let d := eucl x y in
  mu0 / (4 * PI) * (3 * dot m d1 * dot r d2 / d ^ 5 + 3 * dot m r * dot d1 d2 / d ^ 5
                    - 15 * dot m r * dot r d2 * dot r d1 / d ^ 7 + 3 * dot m d2 * dot r d1 / d ^ 5).
Lemma dipole_field_derive mu0 x y m d1 d2 : x <> y ->
  is_derive (fun t => dot (dipole_field mu0 (vadd x (vscale t d1)) y m) d2) 0 (dipole_gradient mu0 x y m d1 d2).
Proof.
  intros H. pose proof (eucl_pos x y H) as Hp. pose proof (is_derive_eucl x y d1 H) as HD. pose proof (eucl_shift_0 x y d1) as H0.
  unfold dipole_field, dipole_gradient.
  set (h := fun t => eucl (vadd x (vscale t d1)) y) in *.
  apply (is_derive_ext (fun t => mu0 / (4 * PI) * (3 * dot m (vsub (vadd x (vscale t d1)) y) / h t ^ 5 * dot (vsub (vadd x (vscale t d1)) y) d2 - / h t ^ 3 * dot m d2))).
  { intros t. cbv zeta. change (norm (vsub (vadd x (vscale t d1)) y)) with (h t). clearbody h. generalize (h t). intros q. unfold dot, vsub, vscale; cbn [vx vy vz]. eqR. ring. }
  change (h 0 = eucl x y) in H0. change (is_derive h 0 (dot (vsub x y) d1 / eucl x y)) in HD. pose proof (is_derive_unique _ _ _ HD) as HU. clearbody h.
  assert (Q : 0 < eucl x y * (eucl x y * (eucl x y * 1))) by (apply Rmult_lt_0_compat; [lra|]; apply Rmult_lt_0_compat; lra).
  unfold dot, vsub, vadd, vscale in *; cbn [vx vy vz] in *. auto_derive.
  - split; [eexists; exact HD|]. rewrite H0. split; [|split; [eexists; exact HD|split; [|trivial]]]; apply Rgt_not_eq; [|exact Q]. apply Rmult_lt_0_compat; [lra|]. apply Rmult_lt_0_compat; lra.
  - change (Derive (fun t => h t) 0) with (Derive h 0). rewrite HU, H0. field. split; [|apply PI_neq0]. lra.
Qed.

Lemma eucl_sq x y : eucl x y ^ 2 = dot (vsub x y) (vsub x y).
Proof. unfold eucl, norm. apply pow2_sqrt. unfold dot. nra. Qed.

Lemma dipole_divergence mu0 x y m : x <> y ->
  dipole_gradient mu0 x y m (unit_vector AE) (unit_vector AE) + dipole_gradient mu0 x y m (unit_vector AN) (unit_vector AN) + dipole_gradient mu0 x y m (unit_vector AU) (unit_vector AU) = 0.
Proof.
  intros H. pose proof (eucl_pos x y H) as Hp. pose proof (eucl_sq x y) as HE. unfold dipole_gradient.
  set (d := eucl x y) in *. set (r := vsub x y) in *. rewrite !dot_unit.
  assert (X : 3 * dot m r / d ^ 5 * 4 - 15 * dot m r * dot r r / d ^ 7 + 3 * dot m r / d ^ 5 = 0).
  { rewrite <- HE. field. lra. }
  transitivity (mu0 / (4 * PI) * (3 * dot m r / d ^ 5 * 4 - 15 * dot m r * dot r r / d ^ 7 + 3 * dot m r / d ^ 5)); [|rewrite X; ring].
  unfold dot; cbn. field. split; [lra|apply PI_neq0].
Qed.
