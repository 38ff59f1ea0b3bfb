(** Proofs about turning spherical sources and observation points about the axis. *)
From Coq Require Import Permutation.
From Verif Require Import Base BaseFacts NumPy NumPyFacts DistanceModel DistanceSpec PointGravityModel PointGravitySpec PointGravityProofs
  TesseroidModel TesseroidSpec TesseroidCheckProofs TesseroidAdaptProofs TesseroidProofs TesseroidFieldProofs
  TesseroidDensityModel TesseroidDensitySpec TesseroidDensityProofs TesseroidDensityFieldProofs TesseroidTurnSpec.
Local Open Scope string_scope. Local Open Scope list_scope. Local Open Scope R_scope.
Local Opaque MAX_DISCRETIZATIONS STACK_SIZE.

Lemma cos_turns x k : cos (x + 2 * PI * IZR k) = cos x.
Proof.
  destruct (Z_le_dec 0 k) as [H|H].
  - replace (2 * PI * IZR k) with (2 * INR (Z.to_nat k) * PI); [apply cos_period|].
    rewrite INR_IZR_INZ, Z2Nat.id by assumption. ring.
  - rewrite <- (cos_period (x + 2 * PI * IZR k) (Z.to_nat (- k))). f_equal.
    rewrite INR_IZR_INZ, Z2Nat.id by lia. rewrite opp_IZR. ring.
Qed.

Lemma cos_turned a x x' y y' : turned a x x' -> turned a y y' -> cos (radians y' - radians x') = cos (radians y - radians x).
Proof.
  intros [j ->] [k ->]. rewrite <- (cos_turns (radians y - radians x) (k - j)). f_equal. unfold radians. rewrite minus_IZR. field.
Qed.

Lemma core_turned a x x' y y' cp sp r cq sq s : turned a x x' -> turned a y y' ->
  distance_spherical_core (radians x') cp sp r (radians y') cq sq s = distance_spherical_core (radians x) cp sp r (radians y) cq sq s.
Proof. intros H1 H2. unfold distance_spherical_core. now rewrite (cos_turned a x x' y y' H1 H2). Qed.

Lemma sph_kernel_turned a kernel p p' s s' : kernel = potential_spherical \/ kernel = gravity_u_spherical ->
  turned_point a p p' -> turned_point a (fst s) (fst s') -> snd s' = snd s -> sph_kernel_of kernel p' s' = sph_kernel_of kernel p s.
Proof.
  intros Hk (P1 & P2 & P3) (S1 & S2 & S3) M. unfold sph_kernel_of. rewrite P2, P3, S2, S3, M. f_equal.
  destruct Hk as [-> | ->]; unfold potential_spherical, gravity_u_spherical; now rewrite (core_turned a _ _ _ _ _ _ _ _ _ _ P1 S1).
Qed.

Lemma sum_over_Forall2 {A B} (Rel : A -> B -> Prop) f g l l' : Forall2 Rel l l' -> (forall x y, Rel x y -> g y = f x) -> sum_over l' g = sum_over l f.
Proof. intros H K. induction H as [|x y l l' H _ IH]; [reflexivity|]. rewrite !sum_over_cons, IH. now rewrite (K x y H). Qed.

(** ** Discretisation *)
Lemma shifted_same a t u : shifted_tess a t u -> east u - west u = east t - west t /\ turned a ((west t + east t) / 2) ((west u + east u) / 2).
Proof. intros ((k & E1 & E2) & _). rewrite E1, E2. split; [ring|]. exists k. field. Qed.

Lemma dims_shifted a t u : shifted_tess a t u -> tesseroid_dimensions u = tesseroid_dimensions t.
Proof.
  intros H. destruct (shifted_same a t u H) as [E _]. destruct H as (_ & H1 & H2 & H3 & H4). unfold tesseroid_dimensions.
  rewrite H1, H2, H3, H4. assert (X : radians (east u) - radians (west u) = radians (east t) - radians (west t)); [|now rewrite X].
  unfold radians. transitivity ((east u - west u) * PI / 180); [field|]. rewrite E. field.
Qed.

Lemma dist_shifted a p p' t u : turned_point a p p' -> shifted_tess a t u -> distance_tesseroid_point p' u = distance_tesseroid_point p t.
Proof.
  intros (P1 & P2 & P3) H. destruct (shifted_same a t u H) as [_ M]. destruct H as (_ & H1 & H2 & H3 & H4).
  unfold distance_tesseroid_point. rewrite H1, H2, H3, H4. destruct p as [[x y] z], p' as [[x' y'] z']. cbn [fst3 snd3 thd3] in *. unfold fst3, snd3, thd3 in *. cbn [fst snd] in *. subst.
  unfold distance_spherical. now rewrite (core_turned a _ _ _ _ _ _ _ _ _ _ P1 M).
Qed.

Lemma split_row_shifted a t u n m q i j k : shifted_tess a t u -> shifted_tess a (split_row t n m q i j k) (split_row u n m q i j k).
Proof.
  intros H. destruct (shifted_same a t u H) as [E _]. destruct H as ((z & W & _) & H1 & H2 & H3 & H4). unfold split_row. rewrite E, H1, H2, H3, H4.
  split; [exists z; cbn; rewrite W; split; ring|]. cbn. auto.
Qed.

Lemma Forall2_flat_map {I A B} (Rel : A -> B -> Prop) (f : I -> list A) (g : I -> list B) l : (forall i, Forall2 Rel (f i) (g i)) -> Forall2 Rel (flat_map f l) (flat_map g l).
Proof. intros H. induction l; simpl; [constructor|]. apply Forall2_app; auto. Qed.
Lemma Forall2_map2 {I A B} (Rel : A -> B -> Prop) (f : I -> A) (g : I -> B) l : (forall i, Rel (f i) (g i)) -> Forall2 Rel (map f l) (map g l).
Proof. intros H. induction l; simpl; constructor; auto. Qed.
Lemma Forall2_rev {A B} (Rel : A -> B -> Prop) l l' : Forall2 Rel l l' -> Forall2 Rel (rev l) (rev l').
Proof. induction 1; simpl; [constructor|]. apply Forall2_app; auto. Qed.

Lemma pieces_shifted a t u n m q : shifted_tess a t u -> Forall2 (shifted_tess a) (pieces t n m q) (pieces u n m q).
Proof.
  intros H. unfold pieces. apply Forall2_flat_map. intros i. apply Forall2_flat_map. intros j. apply Forall2_map2. intros k. now apply split_row_shifted.
Qed.

Definition same_up_to {A} (Rel : A -> A -> Prop) (x y : res A) : Prop :=
  match x, y with Ok a, Ok b => Rel a b | Raise e, Raise f => e = f | _, _ => False end.

Lemma abs_loop_shifted a p p' ratio radial cs cm : turned_point a p p' -> forall fuel stk stk' out out',
  Forall2 (shifted_tess a) stk stk' -> Forall2 (shifted_tess a) out out' ->
  same_up_to (Forall2 (shifted_tess a)) (abs_loop fuel p ratio radial cs cm stk out) (abs_loop fuel p' ratio radial cs cm stk' out').
Proof.
  intros HP. induction fuel as [|fuel IH]; intros stk stk' out out' HS HO; destruct HS as [|t u stk stk' H HS]; cbn [abs_loop]; try exact HO; try reflexivity.
  unfold abs_step. rewrite (dims_shifted a t u H). destruct (tesseroid_dimensions t) as [[l_lon l_lat] l_rad].
  rewrite (dist_shifted a p p' t u HP H). set (d := distance_tesseroid_point p t).
  destruct (ndiv d l_lon) as [q1|]; cbn [bind]; [|reflexivity]. destruct (ndiv d l_lat) as [q2|]; cbn [bind]; [|reflexivity].
  destruct (ndiv d l_rad) as [q3|]; cbn [bind]; [|reflexivity].
  set (n1 := if Rltb q1 ratio then 2%nat else 1%nat). set (n2 := if Rltb q2 ratio then 2%nat else 1%nat). set (n3 := if (Rltb q3 ratio && radial)%bool then 2%nat else 1%nat).
  rewrite <- (Forall2_length _ _ _ HS), <- (Forall2_length _ _ _ HO).
  destruct (Nat.ltb 1 (n1 * n2 * n3)).
  - destruct (Nat.ltb cs _); cbn [bind]; [reflexivity|]. apply IH; [|exact HO]. cbn [fst]. apply Forall2_app; [|exact HS]. apply Forall2_rev. now apply pieces_shifted.
  - destruct (Nat.ltb cm _); cbn [bind]; [reflexivity|]. apply IH; [exact HS|]. cbn [snd]. apply Forall2_app; auto.
Qed.

Lemma discretise_shifted a p p' t u ratio cs cm radial : turned_point a p p' -> shifted_tess a t u ->
  same_up_to (Forall2 (shifted_tess a)) (discretise p t ratio cs cm radial) (discretise p' u ratio cs cm radial).
Proof. intros. apply abs_loop_shifted; auto. Qed.

(** ** Quadrature *)
Definition turned_source (a : R) (s s' : source) : Prop := turned_point a (fst s) (fst s') /\ snd s' = snd s.

Lemma glq_shifted a t u d : shifted_tess a t u -> Forall2 (turned_source a) (glq_sources t d) (glq_sources u d).
Proof.
  intros H. destruct (shifted_same a t u H) as [E M]. destruct H as (_ & H1 & H2 & H3 & H4). unfold glq_sources.
  apply Forall2_flat_map. intros b. apply Forall2_flat_map. intros c. apply Forall2_map2. intros x. unfold glq_source. rewrite E, H1, H2, H3, H4.
  split; [|reflexivity]. cbn [fst]. split; [|split; reflexivity]. destruct M as [k M]. exists k. unfold fst3; cbn [fst]. rewrite M. ring.
Qed.

Lemma glq_of_shifted a t u rho : shifted_tess a t u -> Forall2 (turned_source a) (glq_sources_of t rho) (glq_sources_of u rho).
Proof.
  intros H. unfold glq_sources_of. pose proof (glq_shifted a t u 1 H) as F. induction F as [|s s' l l' (P & M) _ IH]; simpl; constructor; auto.
  split; [exact P|]. destruct P as (_ & _ & P). destruct s as [[[? ?] ?] ?], s' as [[[? ?] ?] ?]. unfold thd3 in P. cbn [fst snd] in *. now subst.
Qed.

Lemma kernel_of_cases field : kernel_of field = potential_spherical \/ kernel_of field = gravity_u_spherical.
Proof. unfold kernel_of. destruct (String.eqb field "potential"); auto. Qed.

Lemma sources_sum_turned a kernel p p' ss ss' : kernel = potential_spherical \/ kernel = gravity_u_spherical -> turned_point a p p' ->
  Forall2 (turned_source a) ss ss' -> sum_over ss' (sph_kernel_of kernel p') = sum_over ss (sph_kernel_of kernel p).
Proof. intros Hk HP F. apply (sum_over_Forall2 _ _ _ _ _ F). intros s s' (P & M). now apply (sph_kernel_turned a). Qed.

Lemma contribution_shifted a field p p' ratio radial t u d : turned_point a p p' -> shifted_tess a t u ->
  contribution p' ratio radial (kernel_of field) (u, d) = contribution p ratio radial (kernel_of field) (t, d).
Proof.
  intros HP H. unfold contribution. cbn [fst snd]. pose proof (discretise_shifted a p p' t u ratio STACK_SIZE MAX_DISCRETIZATIONS radial HP H) as D.
  destruct (discretise p t _ _ _ _) as [out|e], (discretise p' u _ _ _ _) as [out'|e']; cbn in D; try contradiction; cbn [bind]; [|now subst].
  f_equal. apply (sum_over_Forall2 _ _ _ _ _ D). intros x y Hxy. apply (sources_sum_turned a); [apply kernel_of_cases|exact HP|now apply glq_shifted].
Qed.

Lemma contribution_var_shifted a field p p' ratio radial rho t u : turned_point a p p' -> shifted_tess a t u ->
  contribution_var p' ratio radial rho (kernel_of field) u = contribution_var p ratio radial rho (kernel_of field) t.
Proof.
  intros HP H. unfold contribution_var. pose proof (discretise_shifted a p p' t u ratio STACK_SIZE MAX_DISCRETIZATIONS radial HP H) as D.
  destruct (discretise p t _ _ _ _) as [out|e], (discretise p' u _ _ _ _) as [out'|e']; cbn in D; try contradiction; cbn [bind]; [|now subst].
  f_equal. apply (sum_over_Forall2 _ _ _ _ _ D). intros x y Hxy. apply (sources_sum_turned a); [apply kernel_of_cases|exact HP|now apply glq_of_shifted].
Qed.

Definition shifted_td (a : R) (x y : tess * R) : Prop := shifted_tess a (fst x) (fst y) /\ snd y = snd x.

Lemma is_null_shifted a t u d : shifted_tess a t u -> is_null u d = is_null t d.
Proof.
  intros H. destruct (shifted_same a t u H) as [E _]. destruct H as (_ & H1 & H2 & H3 & H4). unfold is_null. rewrite H1, H2, H3, H4.
  replace (Reqb (west u) (east u)) with (Reqb (west t) (east t)); [reflexivity|].
  destruct (Reqb_spec (west t) (east t)), (Reqb_spec (west u) (east u)); auto; lra.
Qed.

Lemma kept_shifted a tds tds' : Forall2 (shifted_td a) tds tds' -> Forall2 (shifted_td a) (kept tds) (kept tds').
Proof.
  intros F. unfold kept. induction F as [|[t d] [u d'] l l' [H E] _ IH]; [constructor|]. cbn [filter fst snd] in *. subst d'. rewrite (is_null_shifted a t u d H).
  destruct (is_null t d); cbn [negb]; auto. constructor; auto. split; auto.
Qed.

Lemma combine_shifted a ts ts' (ds : list R) : Forall2 (shifted_tess a) ts ts' -> Forall2 (shifted_td a) (combine ts ds) (combine ts' ds).
Proof. intros F. revert ds. induction F; intros [|d ds]; simpl; constructor; auto. now split. Qed.

Lemma point_total_shifted a field p p' ratio radial tds tds' : turned_point a p p' -> Forall2 (shifted_td a) tds tds' ->
  point_total ratio radial (kernel_of field) tds' p' = point_total ratio radial (kernel_of field) tds p.
Proof.
  intros HP F. unfold point_total. generalize 0. induction F as [|[t d] [u d'] l l' [H E] _ IH]; intros acc; [reflexivity|]. cbn [for_ fst snd] in *. subst d'.
  rewrite (contribution_shifted a field p p' ratio radial t u d HP H). destruct (contribution p _ _ _ _); cbn [bind]; [|reflexivity]. apply IH.
Qed.

Lemma mapM_Forall2 {A B} (Rel : A -> A -> Prop) (f g : A -> res B) l l' : Forall2 Rel l l' -> (forall x y, Rel x y -> g y = f x) -> mapM g l' = mapM f l.
Proof. intros H K. induction H as [|x y l l' H _ IH]; [reflexivity|]. cbn [mapM]. now rewrite IH, (K x y H). Qed.

(** ** The checks *)
Lemma moved_turned a t u t' u' : turned_tess a t u -> moved t t' -> moved u u' -> width_ok t' -> width_ok u' -> shifted_tess a t' u'.
Proof.
  intros ((j & k & E1 & E2 & D) & H1 & H2 & H3 & H4) M N W V. unfold shifted_tess.
  assert (X : (exists m, west t' = west t + 360 * IZR m) /\ (exists m, east t' = east t + 360 * IZR m) /\ south t' = south t /\ north t' = north t /\ bottom t' = bottom t /\ top t' = top t /\ (west t' < east t' + 360)).
  { destruct M as [[L ->]|(L & K1 & R1 & K2 & R2 & S1 & S2 & S3 & S4)]; [|repeat split; auto; lra]. repeat split; auto; try (exists 0%Z; ring). lra. }
  assert (Y : (exists m, west u' = west u + 360 * IZR m) /\ (exists m, east u' = east u + 360 * IZR m) /\ south u' = south u /\ north u' = north u /\ bottom u' = bottom u /\ top u' = top u /\ (west u' < east u' + 360)).
  { destruct N as [[L ->]|(L & K1 & R1 & K2 & R2 & S1 & S2 & S3 & S4)]; [|repeat split; auto; lra]. repeat split; auto; try (exists 0%Z; ring). lra. }
  destruct X as ([m1 X1] & [m2 X2] & X3 & X4 & X5 & X6 & _). destruct Y as ([n1 Y1] & [n2 Y2] & Y3 & Y4 & Y5 & Y6 & _).
  split; [|rewrite Y3, Y4, Y5, Y6, X3, X4, X5, X6; auto].
  exists (j + n1 - m1)%Z. assert (Q : west u' = west t' + a + 360 * IZR (j + n1 - m1)) by (rewrite minus_IZR, plus_IZR; lra). split; [exact Q|].
  assert (Wd : east u' - west u' = east t' - west t'); [|lra].
  assert (Z : east u' - west u' = east t' - west t' + 360 * IZR (k + n2 - m2 - (j + n1 - m1))) by (rewrite !minus_IZR, !plus_IZR; lra).
  unfold width_ok in *. destruct D as [-> | D].
  - (* both in one convention: both are moved or neither is *)
    destruct M as [[L ->]|(L & _ & R1 & _ & R2 & _)], N as [[L' ->]|(L' & _ & R1' & _ & R2' & _)]; try lra.
    apply (turn_small _ _ _ Z). lra.
  - apply (turn_small _ _ _ Z).
    assert (A1 : east t' - west t' <> 0) by (intros E; apply (D (m1 - m2)%Z); rewrite minus_IZR; lra).
    assert (A2 : east t' - west t' <> 360) by (intros E; apply (D (1 + m1 - m2)%Z); rewrite minus_IZR, plus_IZR; lra).
    lra.
Qed.

Lemma inside_shifted a p q t u : turned_point a p q -> shifted_tess a t u -> inside p t <-> inside q u.
Proof.
  destruct p as [[x y] z], q as [[x' y'] z']. unfold turned_point, fst3, snd3, thd3. cbn [fst snd]. intros ([j ->] & -> & ->) ((k & E1 & E2) & H1 & H2 & H3 & H4).
  unfold inside. rewrite E1, E2, H1, H2, H3, H4.
  split; intros ([n Hn] & H); (split; [|exact H]).
  - exists (n + k - j)%Z. rewrite minus_IZR, plus_IZR. lra.
  - exists (n + j - k)%Z. rewrite minus_IZR, plus_IZR. lra.
Qed.

Lemma Forall2_In_l {A B} (Rel : A -> B -> Prop) l l' x : Forall2 Rel l l' -> In x l -> exists y, In y l' /\ Rel x y.
Proof. induction 1 as [|u v l l' H _ IH]; intros []; subst; [exists v; split; [now left|assumption]|]. destruct (IH H0) as (y & ? & ?). exists y; split; [now right|assumption]. Qed.
Lemma Forall2_In_r {A B} (Rel : A -> B -> Prop) l l' y : Forall2 Rel l l' -> In y l' -> exists x, In x l /\ Rel x y.
Proof. induction 1 as [|u v l l' H _ IH]; intros []; subst; [exists u; split; [now left|assumption]|]. destruct (IH H0) as (x & ? & ?). exists x; split; [now right|assumption]. Qed.

Lemma check_points_shifted a ps qs ts us : Forall (fun t => -180 <= west t /\ east t <= 360) ts -> Forall (fun t => -180 <= west t /\ east t <= 360) us ->
  Forall2 (turned_point a) ps qs -> Forall2 (shifted_tess a) ts us ->
  check_points_outside_tesseroids qs us = check_points_outside_tesseroids ps ts.
Proof.
  intros B1 B2 P T. destruct (check_points_spec ps ts B1) as [S1 S2], (check_points_spec qs us B2) as [R1 R2].
  unfold check_points_outside_tesseroids in *. destruct (conflicting ps ts) as [|c0 cs] eqn:E.
  - apply R2. intros q u Hq Hu I. destruct (Forall2_In_r _ _ _ _ P Hq) as (p & Hp & Rp). destruct (Forall2_In_r _ _ _ _ T Hu) as (t & Ht & Rt).
    apply (proj1 S2 eq_refl p t Hp Ht). now apply (inside_shifted a p q t u).
  - apply R1. destruct (proj1 S1 eq_refl) as (p & t & Hp & Ht & I). destruct (Forall2_In_l _ _ _ _ P Hp) as (q & Hq & Rq). destruct (Forall2_In_l _ _ _ _ T Ht) as (u & Hu & Ru).
    exists q, u. repeat split; auto. now apply (inside_shifted a p q t u).
Qed.

(** Both lists are accepted by the checks on the boundaries. *)
Lemma checks_turned a ps qs ts us ts' us' : Forall2 (turned_point a) ps qs -> Forall2 (turned_tess a) ts us ->
  check_tesseroids_R ts = Ok ts' -> check_tesseroids_R us = Ok us' ->
  Forall2 (shifted_tess a) ts' us' /\ check_points_outside_tesseroids qs us' = check_points_outside_tesseroids ps ts'.
Proof.
  intros P T C D. apply check_tesseroids_ok in C, D. destruct C as (C1 & C2 & C3), D as (D1 & D2 & D3).
  assert (S : Forall2 (shifted_tess a) ts' us').
  { clear -T C2 C3 D2 D3. revert ts' us' C2 C3 D2 D3. induction T as [|t u ts us H T IH]; intros ts' us' C2 C3 D2 D3; inversion C2; inversion D2; subst; [constructor|].
    inversion C3; inversion D3; subst. constructor; [eapply moved_turned; eassumption|]. now apply IH. }
  split; [exact S|]. apply (check_points_shifted a); [exact (Forall2_moved_bounds ts ts' C1 C2)|exact (Forall2_moved_bounds us us' D1 D2)|exact P|exact S].
Qed.

Lemma gravity_of_shifted a sh ps qs ts us ds field radial : prod_shape sh = length ps -> length ds = length ts -> In field ["potential"; "g_z"] ->
  Forall2 (turned_point a) ps qs -> Forall2 (shifted_tess a) ts us ->
  mapM (point_total (distance_size_ratio field) radial (kernel_of field) (kept (combine us ds))) qs
  = mapM (point_total (distance_size_ratio field) radial (kernel_of field) (kept (combine ts ds))) ps.
Proof.
  intros Hsh Hd Hf P T. apply (mapM_Forall2 _ _ _ _ _ P). intros p q H. apply (point_total_shifted a); [exact H|]. now apply kept_shifted, combine_shifted.
Qed.

Lemma gravity_bad_field c ts ds field radial disable : ~ In field ["potential"; "g_z"] -> tesseroid_gravity c ts ds field radial disable = Raise ValueError.
Proof.
  intros H. destruct c as [[c0 c1] c2]. unfold tesseroid_gravity. replace (mem field ["potential"; "g_z"]) with false; [reflexivity|].
  symmetry. unfold mem. apply not_true_iff_false. intros E. apply existsb_exists in E. destruct E as (x & Hx & E). apply String.eqb_eq in E. subst. auto.
Qed.

Lemma field_dec field : {In field ["potential"; "g_z"]} + {~ In field ["potential"; "g_z"]}.
Proof. apply In_dec, string_dec. Qed.

Lemma gravity_unchecked a sh ps qs ts us ds field radial : prod_shape sh = length ps -> length ds = length ts ->
  Forall2 (turned_point a) ps qs -> Forall2 (shifted_tess a) ts us ->
  tesseroid_gravity (coords_of sh qs) us (arr1 ds) field radial true = tesseroid_gravity (coords_of sh ps) ts (arr1 ds) field radial true.
Proof.
  intros Hsh Hd P T. destruct (field_dec field) as [Hf|Hf]; [|rewrite !gravity_bad_field by assumption; reflexivity].
  rewrite !tesseroid_gravity_eq; auto; try (rewrite <- (Forall2_length _ _ _ P); assumption); try (rewrite <- (Forall2_length _ _ _ T); assumption).
  cbn [checks bind]. now rewrite (gravity_of_shifted a sh ps qs ts us ds field radial Hsh Hd Hf P T).
Qed.

Lemma gravity_checked a sh ps qs ts us ds field radial : prod_shape sh = length ps -> length ds = length ts ->
  Forall2 (turned_point a) ps qs -> Forall2 (turned_tess a) ts us -> is_ok (check_tesseroids_R ts) -> is_ok (check_tesseroids_R us) ->
  tesseroid_gravity (coords_of sh qs) us (arr1 ds) field radial false = tesseroid_gravity (coords_of sh ps) ts (arr1 ds) field radial false.
Proof.
  intros Hsh Hd P T [ts' C] [us' D]. destruct (field_dec field) as [Hf|Hf]; [|rewrite !gravity_bad_field by assumption; reflexivity].
  rewrite !tesseroid_gravity_eq; auto; try (rewrite <- (Forall2_length _ _ _ P); assumption); try (rewrite <- (Forall2_length _ _ _ T); assumption).
  cbn [checks]. rewrite C, D. cbn [bind]. destruct (checks_turned a ps qs ts us ts' us' P T C D) as [S ->].
  destruct (check_points_outside_tesseroids ps ts'); cbn [bind]; [|reflexivity].
  assert (L : length ds = length ts'). { apply check_tesseroids_ok in C. destruct C as (_ & M & _). rewrite <- (Forall2_length _ _ _ M). exact Hd. }
  now rewrite (gravity_of_shifted a sh ps qs ts' us' ds field radial Hsh L Hf P S).
Qed.

(** ** Densities given as functions *)
Section Variable_density.
Variable minimize : (R -> R) -> R -> R -> R * R.

Definition with_lon (w e : R) (t : tess) : tess := Tess w e (south t) (north t) (bottom t) (top t).

Lemma loop_lon w e w' e' s n nd size : forall fuel pending pending' out out',
  Forall2 (fun t u => south u = south t /\ north u = north t /\ bottom u = bottom t /\ top u = top t) pending pending' ->
  Forall2 (fun t u => t = with_lon w e t /\ u = with_lon w' e' t) out out' ->
  same_up_to (Forall2 (fun t u => t = with_lon w e t /\ u = with_lon w' e' t))
    (density_loop minimize fuel w e s n nd size pending out) (density_loop minimize fuel w' e' s n nd size pending' out').
Proof.
  induction fuel as [|fuel IH]; intros pending pending' out out' HP HO; destruct HP as [|t u pending pending' (H1 & H2 & H3 & H4) HP]; cbn [density_loop]; try exact HO; try reflexivity.
  rewrite H3, H4. destruct (maximum_absolute_diff minimize nd (bottom t) (top t)) as [rs md].
  destruct (Rltb DELTA_RATIO _).
  - apply IH; [|exact HO]. apply Forall2_app; [exact HP|]. repeat constructor.
  - apply IH; [exact HP|]. apply Forall2_app; [exact HO|]. repeat constructor.
Qed.

Lemma disc_1_shifted a fuel t u rho : shifted_tess a t u ->
  same_up_to (Forall2 (shifted_tess a)) (density_based_discretization_1 minimize fuel t rho) (density_based_discretization_1 minimize fuel u rho).
Proof.
  intros H. pose proof H as (K & H1 & H2 & H3 & H4). unfold density_based_discretization_1. rewrite H1, H2, H3, H4.
  destruct (density_minmax minimize rho (bottom t) (top t)) as [[lo hi]|]; cbn [bind]; [|reflexivity].
  destruct (np_isclose lo hi); [repeat constructor; try assumption|].
  pose proof (loop_lon (west t) (east t) (west u) (east u) (south t) (north t) (fun radius => (rho radius - lo) / (hi - lo)) (top t - bottom t) fuel [t] [u] [] []) as L.
  destruct (density_loop minimize fuel (west t) _ _ _ _ _ _ _) as [l|e], (density_loop minimize fuel (west u) _ _ _ _ _ _ _) as [l'|e']; cbn in *;
    specialize (L ltac:(constructor; [auto|constructor]) ltac:(constructor)); try contradiction; auto.
  clear -L K. induction L as [|x y l l' [E1 E2] _ IH]; constructor; auto. rewrite E2. rewrite E1 at 1. split; [|cbn; auto]. destruct K as (k & K1 & K2). exists k. cbn. auto.
Qed.

Lemma disc_shifted a fuel ts us rho : Forall2 (shifted_tess a) ts us ->
  same_up_to (Forall2 (shifted_tess a)) (density_based_discretization minimize fuel ts rho) (density_based_discretization minimize fuel us rho).
Proof.
  intros F. unfold density_based_discretization.
  enough (K : forall acc acc', Forall2 (shifted_tess a) acc acc' -> same_up_to (Forall2 (shifted_tess a))
    (for_ ts (fun t acc => do l <- density_based_discretization_1 minimize fuel t rho; Ok (acc ++ l)) acc)
    (for_ us (fun t acc => do l <- density_based_discretization_1 minimize fuel t rho; Ok (acc ++ l)) acc')) by (apply K; constructor).
  induction F as [|t u ts us H F IH]; intros acc acc' HA; cbn [for_]; [exact HA|].
  pose proof (disc_1_shifted a fuel t u rho H) as D.
  destruct (density_based_discretization_1 minimize fuel t rho) as [l|e], (density_based_discretization_1 minimize fuel u rho) as [l'|e']; cbn in D; try contradiction; cbn [bind]; [|now subst].
  apply IH. now apply Forall2_app.
Qed.

Lemma variable_tail a fuel ps qs ts us rho field radial : Forall2 (turned_point a) ps qs -> Forall2 (shifted_tess a) ts us ->
  (do tesseroids <- density_based_discretization minimize fuel us rho;
   match tesseroids, map fst3 qs with
   | [], _ :: _ => Raise ValueError
   | _, _ => jit_tesseroid_gravity_variable_density (map fst3 qs, map snd3 qs, map thd3 qs) tesseroids rho (repeat 0 (length qs)) (distance_size_ratio field) radial (kernel_of field)
   end)
  = (do tesseroids <- density_based_discretization minimize fuel ts rho;
   match tesseroids, map fst3 ps with
   | [], _ :: _ => Raise ValueError
   | _, _ => jit_tesseroid_gravity_variable_density (map fst3 ps, map snd3 ps, map thd3 ps) tesseroids rho (repeat 0 (length ps)) (distance_size_ratio field) radial (kernel_of field)
   end).
Proof.
  intros P T. pose proof (disc_shifted a fuel ts us rho T) as D.
  destruct (density_based_discretization minimize fuel ts rho) as [l|e], (density_based_discretization minimize fuel us rho) as [l'|e']; cbn in D; try contradiction; cbn [bind]; [|now subst].
  assert (J : mapM (point_total_var (distance_size_ratio field) radial rho (kernel_of field) l') qs = mapM (point_total_var (distance_size_ratio field) radial rho (kernel_of field) l) ps).
  { apply (mapM_Forall2 _ _ _ _ _ P). intros p q H. unfold point_total_var.
    rewrite (mapM_Forall2 (shifted_tess a) (contribution_var p (distance_size_ratio field) radial rho (kernel_of field)) (contribution_var q (distance_size_ratio field) radial rho (kernel_of field)) l l' D); [reflexivity|].
    intros x y Hxy. now apply (contribution_var_shifted a). }
  rewrite <- !jit_var_ok in J. destruct D; [|exact J]. destruct P; [exact J|reflexivity].
Qed.

Lemma variable_bad_field fuel c ts rho field radial disable : ~ In field ["potential"; "g_z"] -> tesseroid_gravity_variable minimize fuel c ts rho field radial disable = Raise ValueError.
Proof.
  intros H. destruct c as [[c0 c1] c2]. unfold tesseroid_gravity_variable. replace (mem field ["potential"; "g_z"]) with false; [reflexivity|].
  symmetry. unfold mem. apply not_true_iff_false. intros E. apply existsb_exists in E. destruct E as (x & Hx & E). apply String.eqb_eq in E. subst. auto.
Qed.

Lemma variable_eq fuel sh ps ts rho field radial disable : prod_shape sh = length ps -> In field ["potential"; "g_z"] ->
  tesseroid_gravity_variable minimize fuel (coords_of sh ps) ts rho field radial disable
  = do ts' <- checks disable ps ts;
    do result <- (do tesseroids <- density_based_discretization minimize fuel ts' rho;
       match tesseroids, map fst3 ps with
       | [], _ :: _ => Raise ValueError
       | _, _ => jit_tesseroid_gravity_variable_density (map fst3 ps, map snd3 ps, map thd3 ps) tesseroids rho (repeat 0 (length ps)) (distance_size_ratio field) radial (kernel_of field)
       end);
    let result := if String.eqb field "g_z" then map (Rmult (-1)) result else result in
    let result := if String.eqb field "g_z" then map (Rmult (10 ^ 5)) result else result in
    Ok (Arr sh result).
Proof.
  intros Hsh Hf. unfold tesseroid_gravity_variable, coords_of.
  assert (M : mem field ["potential"; "g_z"] = true) by (destruct Hf as [<-|[<-|[]]]; reflexivity).
  rewrite M. cbn [negb]. rewrite broadcast3_same by reflexivity. cbn [bind ravel data shape]. unfold ravel; cbn [data]. rewrite triples_coords. fold (checks disable ps ts).
  destruct (checks disable ps ts) as [ts'|]; cbn [bind]; [|reflexivity].
  destruct (density_based_discretization minimize fuel ts' rho) as [l|]; cbn [bind]; [|reflexivity]. rewrite Hsh. reflexivity.
Qed.

Lemma variable_unchecked a fuel sh ps qs ts us rho field radial : prod_shape sh = length ps ->
  Forall2 (turned_point a) ps qs -> Forall2 (shifted_tess a) ts us ->
  tesseroid_gravity_variable minimize fuel (coords_of sh qs) us rho field radial true = tesseroid_gravity_variable minimize fuel (coords_of sh ps) ts rho field radial true.
Proof.
  intros Hsh P T. destruct (field_dec field) as [Hf|Hf]; [|rewrite !variable_bad_field by assumption; reflexivity].
  rewrite !variable_eq; auto; try (rewrite <- (Forall2_length _ _ _ P); assumption). cbn [checks bind]. now rewrite (variable_tail a fuel ps qs ts us rho field radial P T).
Qed.

Lemma variable_checked a fuel sh ps qs ts us rho field radial : prod_shape sh = length ps ->
  Forall2 (turned_point a) ps qs -> Forall2 (turned_tess a) ts us -> is_ok (check_tesseroids_R ts) -> is_ok (check_tesseroids_R us) ->
  tesseroid_gravity_variable minimize fuel (coords_of sh qs) us rho field radial false = tesseroid_gravity_variable minimize fuel (coords_of sh ps) ts rho field radial false.
Proof.
  intros Hsh P T [ts' C] [us' D]. destruct (field_dec field) as [Hf|Hf]; [|rewrite !variable_bad_field by assumption; reflexivity].
  rewrite !variable_eq; auto; try (rewrite <- (Forall2_length _ _ _ P); assumption).
  cbn [checks]. rewrite C, D. cbn [bind]. destruct (checks_turned a ps qs ts us ts' us' P T C D) as [S ->].
  destruct (check_points_outside_tesseroids ps ts'); cbn [bind]; [|reflexivity].
  now rewrite (variable_tail a fuel ps qs ts' us' rho field radial P S).
Qed.
End Variable_density.

(** ** Point sources *)
Lemma point_turned a sh ps qs ss ss' field : prod_shape sh = length ps ->
  Forall2 (turned_point a) ps qs -> Forall2 (turned_source a) ss ss' ->
  point_gravity (coords_of sh qs) (points_of ss') (masses_of ss') field "spherical" = point_gravity (coords_of sh ps) (points_of ss) (masses_of ss) field "spherical".
Proof.
  intros Hsh P T. unfold point_gravity, coords_of, points_of, coords_of, masses_of, arr1, ravel. rewrite !broadcast3_same by reflexivity. cbn [shape data].
  rewrite !map_length, !Nat.eqb_refl. cbn [negb].
  change (check_coordinate_system "spherical" ["cartesian"; "spherical"]) with (@Ok unit tt). cbn [bind].
  change (String.eqb "spherical" "cartesian") with false. cbv iota. rewrite Hsh.
  destruct (get_kernel_spherical field) as [k|] eqn:E; cbn [bind]; [|reflexivity].
  replace (length ps) with (length qs) at 1 by (symmetry; apply (Forall2_length _ _ _ P)).
  rewrite !point_mass_spherical_ok. cbn [bind].
  assert (Hk : k = potential_spherical \/ k = gravity_u_spherical).
  { revert E. unfold get_kernel_spherical, spherical_kernels. cbn [lookup].
    repeat (destruct (String.eqb _ _); [intros E; try discriminate; injection E as <-; auto|]). discriminate. }
  assert (X : map (fun p => sum_over ss' (sph_kernel_of k p)) qs = map (fun p => sum_over ss (sph_kernel_of k p)) ps); [|exact (f_equal (fun r => Ok (Arr sh (convert_units field r))) X)].
  clear Hsh. induction P as [|p q ps qs H P IH]; [reflexivity|]. cbn [map]. rewrite IH. f_equal. now apply (sources_sum_turned a).
Qed.
