From Coq Require Import Permutation.
From Coquelicot Require Import Coquelicot.
From Verif Require Import Base BaseFacts NumPy NumPyFacts DistanceModel DistanceSpec PointGravityModel PointGravitySpec PointGravityProofs PrismModel PrismSpec.
Local Open Scope string_scope. Local Open Scope list_scope. Local Open Scope R_scope.

(** ** Validation *)
Lemma existsb_false_Forall {A} (f : A -> bool) l : existsb f l = false <-> Forall (fun x => f x = false) l.
Proof.
  induction l as [|x l IH]; simpl; [split; constructor|]. rewrite orb_false_iff, IH. split; [intros []; constructor; auto|inversion 1; auto].
Qed.

Lemma existsb_map_id {A} (f : A -> bool) l : existsb (fun b : bool => b) (map f l) = existsb f l.
Proof. induction l; simpl; congruence. Qed.

Lemma Rltb_false x y : Rltb x y = false <-> y <= x.
Proof. destruct (Rltb_spec x y); split; intros; try congruence; lra. Qed.

Lemma check_prisms_ok prisms : check_prisms_R prisms = Ok tt <-> Forall valid_prism prisms.
Proof.
  unfold check_prisms_R, check_prisms. rewrite !existsb_map_id. split.
  - destruct (existsb (fun p : prism_of R => Rltb (p_east p) (p_west p)) prisms) eqn:E1; [discriminate|]. destruct (existsb (fun p : prism_of R => Rltb (p_north p) (p_south p)) prisms) eqn:E2; [discriminate|].
    destruct (existsb (fun p : prism_of R => Rltb (p_top p) (p_bottom p)) prisms) eqn:E3; [discriminate|]. intros _.
    apply existsb_false_Forall in E1. apply existsb_false_Forall in E2. apply existsb_false_Forall in E3.
    rewrite Forall_forall in *. intros p H. specialize (E1 p H). specialize (E2 p H). specialize (E3 p H).
    apply Rltb_false in E1, E2, E3. unfold valid_prism. auto.
  - intros H.
    assert (E : forall f : prism_of R -> bool, (forall p, valid_prism p -> f p = false) -> existsb f prisms = false).
    { intros f Hf. apply existsb_false_Forall. eapply Forall_impl; [|exact H]. exact Hf. }
    rewrite (E (fun p : prism_of R => Rltb (p_east p) (p_west p))), (E (fun p : prism_of R => Rltb (p_north p) (p_south p))), (E (fun p : prism_of R => Rltb (p_top p) (p_bottom p))); [reflexivity|..];
    intros p (V1 & V2 & V3); now apply Rltb_false.
Qed.

Lemma check_prisms_error {A} gtb (prisms : list (prism_of A)) : check_prisms gtb prisms = Ok tt \/ check_prisms gtb prisms = Raise ValueError.
Proof. unfold check_prisms. repeat match goal with |- context[if ?b then _ else _] => destruct b end; auto. Qed.

Lemma check_prisms_reject prisms : ~ Forall valid_prism prisms -> check_prisms_R prisms = Raise ValueError.
Proof. intros H. destruct (check_prisms_error (fun x y => Rltb y x) prisms) as [E|E]; [|exact E]. exfalso. apply H, check_prisms_ok, E. Qed.

Lemma check_prisms_fin prisms : check_prisms_num (map fin_prism prisms) = check_prisms_R prisms.
Proof. unfold check_prisms_num, check_prisms_R, check_prisms. rewrite !map_map. reflexivity. Qed.

(** ** Discarding *)
Lemma no_volume_spec p : no_volume p = true <-> volume p = 0.
Proof.
  unfold no_volume, volume. rewrite !orb_true_iff, !Reqb_true. split.
  - intros [[-> | ->]| ->]; ring.
  - intros H. apply Rmult_integral in H. destruct H as [H|H]; [apply Rmult_integral in H; destruct H|]; [left; left|left; right|right]; lra.
Qed.

Lemma keep_mask_map {A B} (f : A -> B) (g : A -> bool) l : keep_mask (map f l) (map g l) = Ok (map f (filter g l)).
Proof.
  unfold keep_mask. rewrite !map_length, Nat.eqb_refl. f_equal. induction l as [|x l IH]; simpl; [reflexivity|].
  destruct (g x); simpl; [f_equal|]; exact IH.
Qed.
Lemma mark_map {A} (f g : A -> bool) l : mark (map f l) (map g l) = Ok (map (fun x => orb (f x) (g x)) l).
Proof. unfold mark. rewrite !map_length, Nat.eqb_refl. f_equal. induction l as [|x l IH]; simpl; [reflexivity|]. now rewrite IH. Qed.

Definition is_null (pd : prism * R) : bool := (no_volume (fst pd) || Reqb (snd pd) 0)%bool.
Lemma is_null_spec pd : is_null pd = true <-> volume (fst pd) = 0 \/ snd pd = 0.
Proof. unfold is_null. now rewrite orb_true_iff, no_volume_spec, Reqb_true. Qed.
Definition kept (pds : list (prism * R)) : list (prism * R) := filter (fun pd => negb (is_null pd)) pds.

Lemma discard_ok (pds : list (prism * R)) : discard_null_prisms (map fst pds) (map snd pds) = Ok (map fst (kept pds), map snd (kept pds)).
Proof.
  unfold discard_null_prisms. rewrite !map_map.
  rewrite (mark_map (fun x => no_volume (fst x)) (fun x => Reqb (snd x) 0)). cbn [bind]. rewrite !map_map.
  rewrite (keep_mask_map fst (fun x => negb (no_volume (fst x) || Reqb (snd x) 0))). cbn [bind].
  rewrite (keep_mask_map snd (fun x => negb (no_volume (fst x) || Reqb (snd x) 0))). reflexivity.
Qed.

Lemma discard_mismatch prisms density : length density <> length prisms -> discard_null_prisms prisms density = Raise IndexError.
Proof.
  intros H. unfold discard_null_prisms, mark. rewrite !map_length. destruct (Nat.eqb_spec (length prisms) (length density)); [congruence|reflexivity].
Qed.

(** ** The double loops over arbitrary sources *)
Lemma accumulate_gen {B} (ps : list point) (ss : list B) (db : B) contrib (f : point -> B -> R) :
  (forall i j, (i < length ps)%nat -> (j < length ss)%nat -> contrib i j = Ok (f (nth i ps p0) (nth j ss db))) ->
  accumulate (length ps) (length ss) contrib (repeat 0 (length ps)) = Ok (map (fun p => sum_over ss (f p)) ps).
Proof.
  intros H. rewrite (accumulate_ok _ _ _ (fun i j => f (nth i ps p0) (nth j ss db))); [|apply repeat_length|assumption].
  f_equal. rewrite <- (map_range_nth ps p0 (fun p => sum_over ss (f p))).
  apply map_ext_in. intros i Hi. apply range_in in Hi.
  rewrite nth_repeat, Rplus_0_l. apply (sum_over_range_nth ss db (f (nth i ps p0))).
Qed.

Lemma get_point ps i : (i < length ps)%nat -> aget (map fst3 ps) i = Ok (fst3 (nth i ps p0)) /\ aget (map snd3 ps) i = Ok (snd3 (nth i ps p0)) /\ aget (map thd3 ps) i = Ok (thd3 (nth i ps p0)).
Proof.
  intros H. rewrite !(aget_ok _ _ 0) by (rewrite map_length; assumption). rewrite !(nth_map _ _ _ p0) by assumption. auto.
Qed.
Lemma get_map {A B} (f : A -> B) l i d : (i < length l)%nat -> aget (map f l) i = Ok (f (nth i l d)).
Proof. intros H. unfold aget. rewrite nth_error_map. rewrite (nth_error_nth' l d H). reflexivity. Qed.

Definition prism0 : prism := Prism 0 0 0 0 0 0.
Lemma jit_prism_ok ps (pds : list (prism * R)) k :
  jit_prism_gravity (map fst3 ps, map snd3 ps, map thd3 ps) (map fst pds) (map snd pds) k (repeat 0 (length ps))
  = Ok (map (fun p => sum_over pds (fun pd => k (fst3 p) (snd3 p) (thd3 p) (fst pd) (snd pd))) ps).
Proof.
  unfold jit_prism_gravity. rewrite !map_length. apply (accumulate_gen ps pds (prism0, 0)). intros i j Hi Hj.
  destruct (get_point ps i Hi) as (-> & -> & ->). cbn [bind]. now rewrite !(get_map _ pds j (prism0, 0) Hj).
Qed.

(** ** Units *)
Definition unit_factor (field : string) : R := hd 0 (prism_units field [1]).
Lemma prism_units_map field l : prism_units field l = map (Rmult (unit_factor field)) l.
Proof.
  unfold unit_factor, prism_units.
  destruct (mem field ["g_z"; "g_ez"; "g_nz"]), (mem field ["g_e"; "g_n"; "g_z"]), (mem field ["g_ee"; "g_nn"; "g_zz"; "g_en"; "g_ez"; "g_nz"]);
  rewrite ?map_map; cbn [map hd]; try (apply map_ext; intros; ring).
  rewrite <- (map_id l) at 1. apply map_ext; intros; ring.
Qed.

Lemma field_meaning field component factor : In (field, (component, factor)) prism_fields ->
  lookup field FIELDS = Some component /\ unit_factor field = factor.
Proof.
  unfold prism_fields. intros H. repeat destruct H as [H|H]; try (injection H as <- <- <-; split; [reflexivity|]; unfold unit_factor, prism_units, mGal, eotvos; cbn; ring).
  destruct H.
Qed.

(** ** prism_gravity *)
Definition warns (ps : list point) (prisms : list prism) (field : string) : res bool :=
  check_singular_points (map fst3 ps, map snd3 ps, map thd3 ps) prisms field.

Lemma prism_gravity_eq choclo sh ps pds field component factor disable :
  prod_shape sh = length ps -> In (field, (component, factor)) prism_fields ->
  prism_gravity choclo (coords_of sh ps) (map fst pds) (arr1 (map snd pds)) field disable
  = do w <- (if disable then Ok false else do _ <- check_prisms_R (map fst pds); warns ps (map fst pds) field);
    Ok (Arr sh (map (fun p => sum_over (kept pds) (fun pd => factor * one_prism choclo component p pd)) ps), w).
Proof.
  intros Hsh Hf. destruct (field_meaning _ _ _ Hf) as [L U]. unfold prism_gravity, coords_of. rewrite L.
  rewrite broadcast3_same by reflexivity. cbn [bind shape]. unfold ravel; cbn [data arr1].
  rewrite !map_length, Nat.eqb_refl. cbn [negb]. unfold warns.
  destruct (if disable then Ok false else do _ <- check_prisms_R (map fst pds); check_singular_points _ _ _) as [w|]; cbn [bind]; [|reflexivity].
  rewrite discard_ok. cbn [bind fst snd]. rewrite Hsh, jit_prism_ok. cbn [bind]. rewrite prism_units_map, map_map, U.
  f_equal. f_equal. f_equal. apply map_ext. intros p. unfold one_prism. now rewrite sum_over_scal.
Qed.

(** ** Singular points *)
Lemma on_bound_spec x lo hi : on_bound x lo hi = true <-> x = lo \/ x = hi.
Proof. unfold on_bound. now rewrite orb_true_iff, !Reqb_true. Qed.
Lemma within_spec x lo hi : within x lo hi = true <-> lo <= x <= hi.
Proof. unfold within. now rewrite andb_true_iff, !Rleb_true. Qed.

Definition test_of (field : string) : option (R -> R -> R -> prism -> bool) :=
  lookup field [("g_ee", test_g_ee); ("g_nn", test_g_nn); ("g_zz", test_g_zz); ("g_en", test_g_en); ("g_ez", test_g_ez); ("g_nz", test_g_nz)].

Lemma test_singular field test p pr : valid_prism pr -> test_of field = Some test ->
  test (fst3 p) (snd3 p) (thd3 p) pr = true <-> singular field p pr.
Proof.
  intros (V1 & V2 & V3). unfold test_of. cbn [lookup].
  assert (NE : forall a b : string, String.eqb a b = false -> a <> b) by (intros a b H ->; rewrite String.eqb_refl in H; discriminate).
  repeat match goal with |- context[String.eqb field ?s] => destruct (String.eqb_spec field s); [subst|] end; intros [= <-];
  unfold test_g_ee, test_g_nn, test_g_zz, test_g_en, test_g_ez, test_g_nz, is_point_on_easting_edge, is_point_on_northing_edge, is_point_on_upward_edge,
    singular, in_prism, on_east_face, on_north_face, on_up_face;
  rewrite ?orb_true_iff, ?andb_true_iff, ?on_bound_spec, ?within_spec;
  (split; [intros H; split; [intuition lra|intuition auto 10]|intros [H K]; repeat destruct K as [K|K]; destruct K as (K0 & K); try discriminate; intuition lra]).
Qed.

Lemma any_point_prism_spec test prisms e n u : any_point_prism test prisms e n u = existsb (test e n u) prisms.
Proof. induction prisms as [|p l IH]; simpl; [reflexivity|]. destruct (test e n u p); auto. Qed.

Lemma any_singular_ok test ps prisms : any_singular_point test (map fst3 ps, map snd3 ps, map thd3 ps) prisms
  = Ok (existsb (fun p => existsb (test (fst3 p) (snd3 p) (thd3 p)) prisms) ps).
Proof.
  unfold any_singular_point. rewrite map_length. unfold range. rewrite Nat.sub_0_r.
  enough (K : forall todo pre, ps = pre ++ todo -> any_loop test (seq (length pre) (length todo)) (map fst3 ps) (map snd3 ps) (map thd3 ps) prisms
     = Ok (existsb (fun p => existsb (test (fst3 p) (snd3 p) (thd3 p)) prisms) todo)) by (apply (K ps []); reflexivity).
  induction todo as [|p todo IH]; intros pre E; cbn [length seq any_loop existsb]; [reflexivity|].
  assert (IH' : any_loop test (seq (S (length pre)) (length todo)) (map fst3 ps) (map snd3 ps) (map thd3 ps) prisms = Ok (existsb (fun p => existsb (test (fst3 p) (snd3 p) (thd3 p)) prisms) todo)).
  { replace (S (length pre)) with (length (pre ++ [p])) by (rewrite app_length; simpl; lia). apply IH. now rewrite <- app_assoc. }
  destruct prisms as [|pr prisms']; [rewrite IH'; reflexivity|].
  assert (N : nth_error ps (length pre) = Some p) by (rewrite E, nth_error_app2, Nat.sub_diag by lia; reflexivity).
  assert (G : forall f : point -> R, aget (map f ps) (length pre) = Ok (f p)) by (intros f; unfold aget; rewrite nth_error_map, N; reflexivity).
  rewrite !G. cbn [bind]. rewrite any_point_prism_spec. destruct (existsb (test (fst3 p) (snd3 p) (thd3 p)) (pr :: prisms')) eqn:X; [reflexivity|]. rewrite IH'. reflexivity.
Qed.

Lemma warns_spec ps prisms field : Forall valid_prism prisms ->
  exists w, warns ps prisms field = Ok w /\ (w = true <-> exists p pr, In p ps /\ In pr prisms /\ singular field p pr).
Proof.
  intros V. unfold warns, check_singular_points. fold (test_of field). destruct (test_of field) as [test|] eqn:E.
  - rewrite any_singular_ok. eexists. split; [reflexivity|]. rewrite existsb_exists. rewrite Forall_forall in V. split.
    + intros (p & Hp & X). apply existsb_exists in X. destruct X as (pr & Hpr & T). exists p, pr. split; [assumption|]. split; [assumption|].
      apply (test_singular field test); auto.
    + intros (p & pr & Hp & Hpr & S). exists p. split; [assumption|]. apply existsb_exists. exists pr. split; [assumption|]. apply (test_singular field test); auto.
  - exists false. split; [reflexivity|]. split; [discriminate|]. intros (p & pr & _ & _ & S). exfalso. unfold test_of in E. cbn [lookup] in E.
    destruct S as [_ S]. repeat destruct S as [S|S]; destruct S as [-> _]; discriminate.
Qed.

(** ** Algebra of the sums *)
Lemma kept_app a b : kept (a ++ b) = kept a ++ kept b.
Proof. apply filter_app. Qed.
Lemma kept_perm a b : Permutation a b -> Permutation (kept a) (kept b).
Proof.
  unfold kept. induction 1; simpl.
  - constructor.
  - destruct (negb (is_null x)); auto.
  - destruct (negb (is_null x)), (negb (is_null y)); auto. constructor.
  - eapply perm_trans; eassumption.
Qed.

Lemma sum_filter {A} (g : A -> bool) l f : (forall x, In x l -> g x = false -> f x = 0) -> sum_over (filter g l) f = sum_over l f.
Proof.
  induction l as [|x l IH]; intros H; [reflexivity|]. simpl. rewrite sum_over_cons. destruct (g x) eqn:E.
  - rewrite sum_over_cons, IH; auto. intros; apply H; [now right|assumption].
  - rewrite (H x) by (simpl; auto). rewrite IH; [lra|]. intros; apply H; [now right|assumption].
Qed.

Lemma linear_zero k e n u pr : linear_kernel k -> k e n u pr 0 = 0.
Proof. intros H. pose proof (H e n u pr 0 0 0 0) as K. replace (0 * 0 + 0 * 0) with 0 in K by ring. rewrite K. ring. Qed.

Definition has_volume (pd : prism * R) : bool := negb (no_volume (fst pd)).
Lemma kept_sum k e n u pds : linear_kernel k ->
  sum_over (kept pds) (fun pd => k e n u (fst pd) (snd pd)) = sum_over (filter has_volume pds) (fun pd => k e n u (fst pd) (snd pd)).
Proof.
  intros H. induction pds as [|[pr d] l IH]; [reflexivity|]. cbn [kept filter]. unfold has_volume, is_null at 1. cbn [fst snd]. fold (kept l).
  destruct (no_volume pr); cbn [orb negb]; [exact IH|]. destruct (Reqb_spec d 0) as [-> |Hd]; cbn [negb]; rewrite ?sum_over_cons; cbn [fst snd]; rewrite IH; [|reflexivity].
  change (fun pd : prism * R => negb (no_volume (fst pd))) with has_volume. rewrite linear_zero by assumption. lra.
Qed.

Lemma sum_kept_all k e n u pds : linear_kernel k -> zero_without_volume k ->
  sum_over (kept pds) (fun pd => k e n u (fst pd) (snd pd)) = sum_over pds (fun pd => k e n u (fst pd) (snd pd)).
Proof.
  intros H Z. apply sum_filter. intros [pr d] _ N. apply negb_false_iff, is_null_spec in N. cbn [fst snd] in *.
  destruct N as [N| ->]; [now apply Z|now apply linear_zero].
Qed.

Lemma linear_sums k e n u (prs : list prism) a b : linear_kernel k -> forall d1 d2, length d1 = length prs -> length d2 = length prs ->
  sum_over (kept (combine prs (map (fun xy => a * fst xy + b * snd xy) (combine d1 d2)))) (fun pd => k e n u (fst pd) (snd pd))
  = a * sum_over (kept (combine prs d1)) (fun pd => k e n u (fst pd) (snd pd)) + b * sum_over (kept (combine prs d2)) (fun pd => k e n u (fst pd) (snd pd)).
Proof.
  intros H d1 d2 L1 L2. rewrite !kept_sum by assumption. revert d1 d2 L1 L2. induction prs as [|pr prs IH]; intros [|x d1] [|y d2] L1 L2; try discriminate.
  - unfold sum_over; simpl; ring.
  - cbn [combine map filter fst snd]. change (has_volume (pr, a * x + b * y)) with (negb (no_volume pr)). change (has_volume (pr, x)) with (negb (no_volume pr)). change (has_volume (pr, y)) with (negb (no_volume pr)). injection L1 as L1. injection L2 as L2. specialize (IH d1 d2 L1 L2). cbn [fst snd] in IH.
    destruct (no_volume pr); cbn [negb]; [exact IH|]. rewrite !sum_over_cons. cbn [fst snd]. rewrite H. rewrite IH. ring.
Qed.

(** ** Vertex sums *)
Lemma vertex_linear f : linear_kernel (vertex_kernel f).
Proof. intros e n u pr a b d1 d2. unfold vertex_kernel. cbv zeta. ring. Qed.
Lemma vertex_no_volume f : zero_without_volume (vertex_kernel f).
Proof.
  intros e n u pr d V. unfold vertex_kernel. cbv zeta. unfold volume in V.
  apply Rmult_integral in V. destruct V as [V|V]; [apply Rmult_integral in V; destruct V as [V|V]|].
  - replace (p_east pr) with (p_west pr) by lra. ring.
  - replace (p_north pr) with (p_south pr) by lra. ring.
  - replace (p_top pr) with (p_bottom pr) by lra. ring.
Qed.
