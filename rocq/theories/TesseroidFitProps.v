(** C98: for which points and tesseroids the buffers of the adaptive discretisation suffice. *)
From Verif Require Import Base BaseFacts NumPy NumPyFacts DistanceModel DistanceSpec DistanceProofs PointGravityModel PointGravitySpec PointGravityProofs
  TesseroidModel TesseroidSpec TesseroidCheckProofs TesseroidAdaptProofs TesseroidProofs TesseroidFieldProofs TesseroidFitSpec TesseroidFitProofs.
Local Open Scope string_scope. Local Open Scope list_scope. Local Open Scope R_scope.
Local Opaque MAX_DISCRETIZATIONS STACK_SIZE.

(** A stack of 1 + 7/3 n rows and 2^n rows for the pieces suffice, if n = a + b + c halvings suffice. *)
Theorem C98_buffers_suffice p t ratio delta stk sml radial a b c :
  0 <= ratio -> 0 < delta -> proper t -> clear_of delta t p -> halvings ratio delta radial t a b c ->
  (3 + 7 * (a + b + c) <= 3 * length stk)%nat -> (2 ^ (a + b + c) <= length sml)%nat ->
  exists st, adaptive_discretization p t ratio stk sml radial = Ok st /\ (n_splits st <= 2 ^ (a + b + c))%nat.
Proof.
  intros Hr Hd P C (H1 & H2 & H3) S M.
  destruct (discretise_fits p ratio radial delta Hr (length stk) (length sml) t a b c) as (r & E & L); [|exact S|exact M|].
  { repeat split; try assumption; apply P. }
  pose proof (adaptive_refines p t ratio stk sml radial ltac:(lia)) as A. rewrite E in A.
  destruct (adaptive_discretization p t ratio stk sml radial) as [st|]; [|destruct A]. exists st. split; [reflexivity|]. destruct A as (_ & -> & _). exact L.
Qed.
Print Assumptions C98_buffers_suffice.

Lemma rows_16 n : (n <= 16)%nat -> (2 ^ n <= MAX_DISCRETIZATIONS)%nat /\ (3 + 7 * n <= 3 * STACK_SIZE)%nat.
Proof.
  intros H. Local Transparent MAX_DISCRETIZATIONS STACK_SIZE. split; [|unfold STACK_SIZE; lia]. apply Nat.le_trans with (2 ^ 16)%nat; [apply Nat.pow_le_mono_r; lia|].
  replace (2 ^ 16)%nat with (N.to_nat (2 ^ 16)) by (rewrite Nnat.N2Nat.inj_pow; reflexivity). unfold MAX_DISCRETIZATIONS.
  assert (Q : (2 ^ 16 <= 100000)%N) by (apply N.leb_le; vm_compute; reflexivity). revert Q. generalize (2 ^ 16)%N 100000%N. intros x y Q. lia.
Qed.
Local Opaque MAX_DISCRETIZATIONS STACK_SIZE.
Lemma ratio_value field ratio : ratio_of_field field ratio -> distance_size_ratio field = ratio /\ In field ["potential"; "g_z"].
Proof. intros [[-> ->]|[-> ->]]; unfold distance_size_ratio; cbn; split; auto; lra. Qed.
Lemma clear_not_inside delta t p : 0 < delta -> clear_of delta t p -> ~ inside p t.
Proof.
  intros Hd C. destruct p as [[lon lat] r]. intros ([k K] & I2 & I3). specialize (C (lon + 360 * IZR k, lat, r)). rewrite sph_position_turn in C.
  assert (E : eucl (sph_position (lon, lat, r)) (sph_position (lon, lat, r)) = 0) by now apply eucl_zero. rewrite E in C. cbn [in_closed] in C. lra.
Qed.

(** With the sizes of the buffers of the code, sixteen halvings may be needed: then all fields are
    returned, whatever the number of tesseroids and points. *)
Theorem C98_gravity_returns sh ps ts ts' ds field ratio radial :
  prod_shape sh = length ps -> ratio_of_field field ratio -> length ds = length ts ->
  Forall bounds_ok ts -> Forall2 moved ts ts' -> Forall width_ok ts' ->
  (forall p t d, In p ps -> In (t, d) (combine ts' ds) ->
     (null t d /\ ~ inside p t) \/
     (proper t /\ exists delta a b c, 0 < delta /\ clear_of delta t p /\ halvings ratio delta radial t a b c /\ (a + b + c <= 16)%nat)) ->
  exists a, tesseroid_gravity (coords_of sh ps) ts (arr1 ds) field radial false = Ok a /\ shape a = sh /\ length (data a) = length ps.
Proof.
  intros Hsh Hf Hd B M W H. destruct (ratio_value field ratio Hf) as [E If].
  eexists. split; [|split].
  - apply tesseroid_gravity_value; auto. exists ts'. split; [|split; [|reflexivity]].
    + apply checks_ok. repeat split; try assumption. intros p t Hp Ht.
      assert (LM : length ts' = length ds). { rewrite Hd. clear -M. induction M; cbn; congruence. }
      assert (Q : exists d, In (t, d) (combine ts' ds)).
      { clear -Ht LM. revert ds LM. induction ts' as [|x l IH]; intros [|d ds] L; cbn in L; try lia; [destruct Ht|]. destruct Ht as [->|Ht]; [exists d; now left|]. destruct (IH Ht ds) as [d' D]; [lia|]. exists d'. now right. }
      destruct Q as [d Q]. destruct (H p t d Hp Q) as [[_ N]|(_ & delta & a & b & c & P & C & _)]; [exact N|]. eapply clear_not_inside; eauto.
    + intros p Hp. apply Forall_forall. intros [t d] Htd N. cbn [fst snd] in *.
      destruct (H p t d Hp Htd) as [[K _]|(P & delta & a & b & c & Pd & C & Hh & S)]; [apply is_null_spec in K; congruence|]. rewrite E.
      destruct Hh as (H1 & H2 & H3). destruct (rows_16 (a + b + c) S) as [R1 R2].
      destruct (discretise_fits p ratio radial delta ltac:(destruct Hf as [[_ ->]|[_ ->]]; lra) STACK_SIZE MAX_DISCRETIZATIONS t a b c) as (r & O & _); auto; [|now exists r].
      repeat split; try assumption; apply P.
  - reflexivity.
  - cbn [data]. apply map_length.
Qed.
Print Assumptions C98_gravity_returns.

(** Points above the top are at least the difference of the radii away. *)
Lemma eucl_radius lon lat r lon' lat' r' : 0 <= r -> 0 <= r' -> Rabs (r - r') <= eucl (sph_position (lon, lat, r)) (sph_position (lon', lat', r')).
Proof.
  intros H1 H2. assert (N : forall lo la x, 0 <= x -> eucl (sph_position (lo, la, x)) (sph_position (lo, la, 0)) = x) by (intros; rewrite dist_radial, Rminus_0_r; now apply Rabs_pos_eq).
  assert (Z : sph_position (lon, lat, 0) = sph_position (lon', lat', 0)) by (unfold sph_position; f_equal; ring).
  pose proof (N lon lat r H1) as E1. pose proof (N lon' lat' r' H2) as E2. rewrite Z in E1. set (o := sph_position (lon', lat', 0)) in *.
  pose proof (eucl_triangle (sph_position (lon, lat, r)) (sph_position (lon', lat', r')) o) as T1.
  pose proof (eucl_triangle (sph_position (lon', lat', r')) (sph_position (lon, lat, r)) o) as T2. rewrite (eucl_sym (sph_position (lon', lat', r')) (sph_position (lon, lat, r))) in T2.
  apply Rabs_le. lra.
Qed.
Theorem C98_clear_above delta lon lat r t : 0 <= bottom t -> 0 <= delta -> 0 <= r -> top t + delta <= r \/ r + delta <= bottom t -> clear_of delta t (lon, lat, r).
Proof.
  intros Hb Hd Hr H [[lon' lat'] r'] (_ & _ & I). eapply Rle_trans; [|apply eucl_radius; lra].
  destruct H as [H|H]; [rewrite Rabs_pos_eq by lra; lra|]. rewrite Rabs_minus_sym, Rabs_pos_eq by lra. lra.
Qed.
Print Assumptions C98_clear_above.

(** What is returned: at each point, the field of the eight point masses of each of the pieces; the pieces
    tile the tesseroid and are small enough for the ratio of the field. *)
Theorem C98_pieces_meet_the_ratio sh ps ts ds field ratio radial disable a :
  prod_shape sh = length ps -> ratio_of_field field ratio -> length ds = length ts ->
  (disable = true -> Forall bounds_ok ts /\ Forall width_ok ts) ->
  tesseroid_gravity (coords_of sh ps) ts (arr1 ds) field radial disable = Ok a ->
  exists ts', (if disable then ts' = ts else Forall2 moved ts ts') /\
  forall k p, nth_error ps k = Some p -> exists out : list (list tess),
    Forall2 (fun td xs => (null (fst td) (snd td) /\ xs = []) \/ (~ null (fst td) (snd td) /\ tiles xs (fst td) /\ Forall (small_enough p ratio radial) xs)) (combine ts' ds) out /\
    let sources := concat (map (fun dxs => flat_map (fun x => glq_sources x (fst dxs)) (snd dxs)) (combine ds out)) in
    point_gravity (coords_of [] [p]) (points_of sources) (masses_of sources) field "spherical" = Ok (Arr [] [nth k (data a) 0]).
Proof.
  intros Hsh Hf Hd Hdis E. destruct (ratio_value field ratio Hf) as [Er If]. apply tesseroid_gravity_value in E; auto. destruct E as (ts' & C & D & ->).
  assert (V : (if disable then ts' = ts else Forall2 moved ts ts') /\ length ts' = length ts /\ Forall (fun t => box t /\ well t) ts').
  { pose proof (proj1 (checks_ok _ _ _ _) C) as K. destruct disable.
    - subst ts'. split; [reflexivity|]. split; [reflexivity|]. destruct (Hdis eq_refl) as [B W]. rewrite Forall_forall in *. intros t Ht. specialize (B t Ht). specialize (W t Ht). unfold bounds_ok, width_ok, box, well in *. lra.
    - destruct K as (B & M & W & _). split; [exact M|]. split; [now apply checks_length in C|]. clear -B M W. induction M as [|t t' l l' H M IH]; constructor; inversion B; inversion W; subst; auto.
      unfold bounds_ok, width_ok, box, well in *. destruct H as [[_ ->]|(_ & _ & _ & _ & _ & -> & -> & -> & ->)]; lra. }
  destruct V as (V1 & VL & V2). exists ts'. split; [exact V1|]. intros k p Hk. assert (Hp : In p ps) by (eapply nth_error_In; exact Hk). specialize (D p Hp).
  set (pcs := fun td : tess * R => if is_null (fst td) (snd td) then [] else match discretise p (fst td) ratio STACK_SIZE MAX_DISCRETIZATIONS radial with Ok o => o | Raise _ => [] end).
  exists (map pcs (combine ts' ds)). split.
  - clear -D V2 Er. revert ds D. induction V2 as [|t l [B W] V2 IH]; intros [|d ds] D; cbn [combine map]; try constructor.
    + cbn [combine] in D. apply Forall_inv in D. unfold discretisable in D. cbn [fst snd] in *. unfold pcs. cbn [fst snd]. destruct (is_null t d) eqn:N; [left; split; [now apply is_null_spec|reflexivity]|].
      right. destruct (D eq_refl) as [o O]. rewrite Er in O. rewrite O. split; [intros K; apply is_null_spec in K; congruence|]. split; [eapply discretise_tiles; eauto|]. exact (discretise_criterion p t ratio _ _ radial o W O).
    + apply IH. cbn [combine] in D. now apply Forall_inv_tail in D.
  - cbn [data]. rewrite (nth_map_R _ _ _ 0), Hk, Rmult_0_l, Rplus_0_r. rewrite point_gravity_newton; [|reflexivity|right; split; [reflexivity|]; exact If]. cbn [map].
    do 2 f_equal. f_equal. f_equal.
    assert (L : length ts' = length ds) by congruence. clear -D L Er. unfold all_sources, kept, tess_sources. revert ds D L. induction ts' as [|t l IH]; intros [|d ds] D L; cbn in L; try lia; [reflexivity|].
    cbn [combine map concat filter fst snd]. unfold pcs at 1. cbn [fst snd]. destruct (is_null t d) eqn:N; cbn [negb flat_map app fst snd].
    + apply IH; [now apply Forall_inv_tail in D|lia].
    + rewrite Er in *. destruct (discretise p t ratio STACK_SIZE MAX_DISCRETIZATIONS radial); cbn [flat_map app]; f_equal; (apply IH; [now apply Forall_inv_tail in D|lia]).
Qed.
Print Assumptions C98_pieces_meet_the_ratio.

(** Points of the tesseroid itself (its surface passes the checks): with radial discretisation no buffers
    are large enough for the acceleration. *)
Theorem C98_never_at_its_points p t ratio stk sml : 9 / 5 <= ratio -> (0 < length stk)%nat -> proper t -> east t - west t <= 180 -> in_closed t p ->
  adaptive_discretization p t ratio stk sml true = Raise OverflowError.
Proof.
  intros Hr Hs P W I. pose proof (discretise_on_surface p t ratio (length stk) (length sml) Hs ltac:(lra) P W I) as E.
  pose proof (adaptive_refines p t ratio stk sml true Hs) as A. rewrite E in A. destruct (adaptive_discretization p t ratio stk sml true) as [st|e]; [destruct A|now subst].
Qed.
Print Assumptions C98_never_at_its_points.

Theorem C98_no_acceleration_on_the_surface sh ps ts ts' ds (disable : bool) p t d : prod_shape sh = length ps -> length ds = length ts ->
  (if disable then ts' = ts else Forall2 moved ts ts') -> In p ps -> In (t, d) (combine ts' ds) -> d <> 0 -> proper t -> east t - west t <= 180 -> in_closed t p ->
  exists e, tesseroid_gravity (coords_of sh ps) ts (arr1 ds) "g_z" true disable = Raise e.
Proof.
  intros Hsh Hd M Hp Ht D0 P W I. destruct (tesseroid_gravity (coords_of sh ps) ts (arr1 ds) "g_z" true disable) as [a|e] eqn:E; [exfalso|now exists e].
  apply tesseroid_gravity_value in E; [|assumption|cbn; auto|assumption]. destruct E as (ts2 & C & D & _).
  assert (ts2 = ts') as ->.
  { pose proof (proj1 (checks_ok _ _ _ _) C) as K. destruct disable; [congruence|]. destruct K as (_ & M2 & _). clear -M M2. revert ts2 M2. induction M as [|x y l l' H M IH]; intros ts2 M2; inversion M2 as [|? y2 ? l2 H2 M3]; subst; [reflexivity|]. f_equal; [|auto]. now apply (moved_fun x). }
  specialize (D p Hp). rewrite Forall_forall in D. destruct (D (t, d) Ht) as [o O].
  - cbn [fst snd]. destruct (is_null t d) eqn:N; [|reflexivity]. apply is_null_spec in N. unfold proper in P. destruct N as [N|[N|[N|N]]]; lra.
  - cbn [fst] in O. pose proof (rows_16 0 ltac:(lia)) as [_ R]. rewrite (discretise_on_surface p t (distance_size_ratio "g_z") STACK_SIZE MAX_DISCRETIZATIONS) in O; auto; [discriminate|lia|unfold distance_size_ratio; cbn; lra].
Qed.
Print Assumptions C98_no_acceleration_on_the_surface.

(** A tesseroid of one degree by one degree and 10 km at the surface of the Earth, seen from 10 km above:
    6 + 6 + 2 halvings. *)
Example C98_example :
  let t := Tess 0 1 0 1 6361000 6371000 in
  bounds_ok t /\ moved t t /\ width_ok t /\ proper t /\ clear_of 10000 t (10, 20, 6381000) /\ halvings (5 / 2) 10000 true t 6 6 2 /\
  exists a, tesseroid_gravity (coords_of [] [(10, 20, 6381000)]) [t] (arr1 [2670]) "g_z" true false = Ok a.
Proof.
  cbv zeta. set (t := Tess 0 1 0 1 6361000 6371000).
  assert (B : bounds_ok t) by (unfold bounds_ok, t; cbn; lra). assert (M : moved t t) by (left; unfold t; cbn; split; [lra|reflexivity]). assert (W : width_ok t) by (unfold width_ok, t; cbn; lra).
  assert (P : proper t) by (unfold proper, t; cbn; lra). assert (C : clear_of 10000 t (10, 20, 6381000)) by (apply C98_clear_above; unfold t; cbn; lra).
  pose proof PI_4 as P4. assert (H : halvings (5 / 2) 10000 true t 6 6 2) by (unfold halvings, radians, t; cbn [top east west north south bottom]; lra).
  repeat (split; [assumption|]). destruct (C98_gravity_returns [] [(10, 20, 6381000)] [t] [t] [2670] "g_z" (5 / 2) true) as (a & E & _); auto; [right; auto| |].
  - intros p t' d [<-|[]] [[= <- <-]|[]]. right. split; [exact P|]. exists 10000, 6%nat, 6%nat, 2%nat. repeat split; try assumption; try apply H; try lra; auto.
  - now exists a.
Qed.
Example C98_example_surface :
  let t := Tess 0 1 0 1 6361000 6371000 in
  proper t /\ in_closed t (1 / 2, 1 / 2, 6371000) /\ ~ inside (1 / 2, 1 / 2, 6371000) t /\
  exists e, tesseroid_gravity (coords_of [] [(1 / 2, 1 / 2, 6371000)]) [t] (arr1 [2670]) "g_z" true false = Raise e.
Proof.
  cbv zeta. set (t := Tess 0 1 0 1 6361000 6371000). assert (P : proper t) by (unfold proper, t; cbn; lra).
  assert (I : in_closed t (1 / 2, 1 / 2, 6371000)) by (unfold t; cbn; lra). split; [exact P|]. split; [exact I|]. split; [unfold t; cbn; intros (_ & _ & K); lra|].
  apply (C98_no_acceleration_on_the_surface [] _ [t] [t] [2670] false (1 / 2, 1 / 2, 6371000) t 2670); auto; try (cbn; auto; lra).
  - constructor; [left; unfold t; cbn; split; [lra|reflexivity]|constructor].
Qed.
