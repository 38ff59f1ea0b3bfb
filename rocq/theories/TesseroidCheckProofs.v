From Verif Require Import Base BaseFacts NumPy NumPyFacts DistanceModel DistanceSpec PointGravityModel PointGravitySpec TesseroidModel TesseroidSpec.

Lemma Rmod_spec x y : 0 < y -> 0 <= Rmod x y < y /\ exists k, Rmod x y = x + y * IZR k.
Proof.
  intros Hy. unfold Rmod. destruct (base_Int_part (x / y)) as [H1 H2].
  set (k := IZR (Int_part (x / y))) in *.
  assert (E : x = y * (x / y)) by (field; lra).
  split.
  - split.
    + apply Rmult_le_compat_l with (r := y) in H1; [lra|lra].
    + assert (y * (x / y - k) < y * 1) by (apply Rmult_lt_compat_l; lra). lra.
  - exists (- Int_part (x / y))%Z. rewrite opp_IZR. fold k. ring.
Qed.

Lemma to_180_spec x : -180 <= to_180 x < 180 /\ exists k, to_180 x = x + 360 * IZR k.
Proof.
  unfold to_180. destruct (Rmod_spec (x + 180) 360) as [H [k E]]; [lra|].
  split; [lra|]. exists k. rewrite E; ring.
Qed.

Lemma turn_unique (x y : R) j k : x = y + 360 * IZR j -> x = y + 360 * IZR k -> j = k.
Proof. intros H1 H2. assert (IZR j = IZR k) by lra. now apply eq_IZR. Qed.

(** Two numbers a whole number of turns apart and in one half-open turn are equal. *)
Lemma turn_small a b k : a = b + 360 * IZR k -> -360 < a - b < 360 -> a = b.
Proof.
  intros E H. assert (-1 < IZR k < 1) as [H1 H2] by lra.
  apply lt_IZR in H1, H2. assert (k = 0)%Z by lia. subst k. lra.
Qed.

Lemma wrap_moved t :
  moved t (if Rltb (east t) (west t)
           then Tess (to_180 (west t)) (to_180 (east t)) (south t) (north t) (bottom t) (top t) else t).
Proof.
  destruct (Rltb_spec (east t) (west t)) as [H|H].
  - right. pose proof (to_180_spec (west t)) as [A [k B]]. pose proof (to_180_spec (east t)) as [C [l D]].
    cbn. repeat split; auto; try lra; eauto.
  - left. split; [lra|reflexivity].
Qed.

Lemma moved_fun t t1 t2 : moved t t1 -> moved t t2 -> t1 = t2.
Proof.
  intros [[H1 ->]|(H1 & [k1 A1] & B1 & [l1 C1] & D1 & E1 & F1 & G1 & I1)]
         [[H2 ->]|(H2 & [k2 A2] & B2 & [l2 C2] & D2 & E2 & F2 & G2 & I2)]; auto; try lra.
  assert (W : west t1 = west t2).
  { apply (turn_small _ _ (k1 - k2)); [|lra]. rewrite minus_IZR. lra. }
  assert (E : east t1 = east t2).
  { apply (turn_small _ _ (l1 - l2)); [|lra]. rewrite minus_IZR. lra. }
  destruct t1, t2; cbn in *. congruence.
Qed.

Lemma longitude_continuity_moved ts :
  Forall2 moved ts (longitude_continuity Rltb to_180 ts).
Proof.
  induction ts as [|t ts IH]; simpl; constructor; auto. apply wrap_moved.
Qed.

Lemma Forall2_moved_fun ts : forall a b, Forall2 moved ts a -> Forall2 moved ts b -> a = b.
Proof.
  induction ts as [|t ts IH]; intros a b Ha Hb; inversion Ha; inversion Hb; subst; auto.
  f_equal; [eapply moved_fun; eassumption|eauto].
Qed.

Lemma no_continuity ts : existsb (fun t => Rltb (east t) (west t)) ts = false ->
  Forall2 moved ts ts.
Proof.
  induction ts as [|t ts IH]; simpl; constructor.
  - left; split; auto. apply orb_false_iff in H. destruct H as [H _]. destruct (Rltb_spec (east t) (west t)); [discriminate|lra].
  - apply IH. apply orb_false_iff in H. tauto.
Qed.

Lemma existsb_false_Forall {A} (f : A -> bool) (P : A -> Prop) l :
  (forall x, f x = false <-> P x) -> existsb f l = false <-> Forall P l.
Proof.
  intros H. induction l as [|x l IH]; simpl.
  - split; auto.
  - rewrite orb_false_iff, IH, H. split; [intros []; constructor; auto|inversion 1; auto].
Qed.

Lemma Rltb_false x y : Rltb x y = false <-> y <= x.
Proof. destruct (Rltb_spec x y); split; intros; try discriminate; try lra; auto. Qed.

Ltac boolR := rewrite ?orb_false_iff, ?andb_true_iff, ?orb_true_iff, ?Rltb_false, ?Rltb_true.

Tactic Notation "case_if" ident(E) := match goal with |- (if ?b then _ else _) = _ -> _ => destruct b eqn:E; [intros K; discriminate K|] end.

Lemma check_tesseroids_ok ts ts' :
  check_tesseroids_R ts = Ok ts' <-> Forall bounds_ok ts /\ Forall2 moved ts ts' /\ Forall width_ok ts'.
Proof.
  unfold check_tesseroids_R, check_tesseroids.
  pose proof (existsb_false_Forall (fun t : tess => (Rltb (south t) (-90) || Rltb 90 (south t)) || (Rltb (north t) (-90) || Rltb 90 (north t)))%bool
     (fun t => -90 <= south t <= 90 /\ -90 <= north t <= 90) ts) as H1.
  pose proof (existsb_false_Forall (fun t : tess => Rltb (north t) (south t)) (fun t => south t <= north t) ts) as H2.
  pose proof (existsb_false_Forall (fun t : tess => Rltb (bottom t) 0 || Rltb (top t) 0)%bool (fun t => 0 <= bottom t /\ 0 <= top t) ts) as H3.
  pose proof (existsb_false_Forall (fun t : tess => Rltb (top t) (bottom t)) (fun t => bottom t <= top t) ts) as H4.
  pose proof (existsb_false_Forall (fun t : tess => (Rltb (west t) (-180) || Rltb 360 (west t)) || (Rltb (east t) (-180) || Rltb 360 (east t)))%bool
     (fun t => -180 <= west t <= 360 /\ -180 <= east t <= 360) ts) as H5.
  assert (H6 : forall l, existsb (fun t : tess => Rltb (east t) (west t)) l = false <-> Forall (fun t => west t <= east t) l)
    by (intros l; apply existsb_false_Forall; intros; boolR; lra).
  assert (H7 : forall l, existsb (fun t : tess => Rltb 360 (east t - west t)) l = false <-> Forall (fun t => east t - west t <= 360) l)
    by (intros l; apply existsb_false_Forall; intros; boolR; lra).
  specialize (H1 ltac:(intros; boolR; lra)). specialize (H2 ltac:(intros; boolR; lra)). specialize (H3 ltac:(intros; boolR; lra)).
  specialize (H4 ltac:(intros; boolR; lra)). specialize (H5 ltac:(intros; boolR; lra)).
  cbv beta zeta in *. unfold tess in *.
  set (ts2 := if existsb (fun t : tess_of R => Rltb (east t) (west t)) ts then longitude_continuity Rltb to_180 ts else ts).
  assert (M : Forall2 moved ts ts2).
  { unfold ts2. destruct (existsb (fun t : tess_of R => Rltb (east t) (west t)) ts) eqn:E.
    apply longitude_continuity_moved. now apply no_continuity. }
  split.
  - case_if E1. clear E1. pose proof (proj1 H1 eq_refl) as E1.
    case_if E2. clear E2. pose proof (proj1 H2 eq_refl) as E2.
    case_if E3. clear E3. pose proof (proj1 H3 eq_refl) as E3.
    case_if E4. clear E4. pose proof (proj1 H4 eq_refl) as E4.
    case_if E5. clear E5. pose proof (proj1 H5 eq_refl) as E5.
    case_if E6. apply H6 in E6.
    case_if E7. apply H7 in E7.
    intros [= <-]. split; [|split].
    + rewrite Forall_forall in *. intros t Ht. specialize (E1 t Ht); specialize (E2 t Ht); specialize (E3 t Ht); specialize (E4 t Ht); specialize (E5 t Ht).
      unfold bounds_ok. tauto.
    + exact M.
    + rewrite Forall_forall in *. intros t Ht. split; [apply E6|apply E7]; exact Ht.
  - intros (HB & HM & HW).
    assert (ts' = ts2) by (eapply Forall2_moved_fun; eassumption). subst ts'.
    unfold bounds_ok in HB. rewrite Forall_forall in HB.
    rewrite (proj2 H1) by (apply Forall_forall; intros t Ht; apply HB in Ht; tauto).
    rewrite (proj2 H2) by (apply Forall_forall; intros t Ht; apply HB in Ht; tauto).
    rewrite (proj2 H3) by (apply Forall_forall; intros t Ht; apply HB in Ht; lra).
    rewrite (proj2 H4) by (apply Forall_forall; intros t Ht; apply HB in Ht; tauto).
    rewrite (proj2 H5) by (apply Forall_forall; intros t Ht; apply HB in Ht; tauto).
    unfold width_ok in HW. rewrite Forall_forall in HW.
    rewrite (proj2 (H6 ts2)) by (apply Forall_forall; intros t Ht; apply HW in Ht; tauto).
    rewrite (proj2 (H7 ts2)) by (apply Forall_forall; intros t Ht; apply HW in Ht; tauto).
    reflexivity.
Qed.

Lemma check_tesseroids_rejects {A} ltb sub wrap lit (ts : list (tess_of A)) :
  (forall ts', check_tesseroids ltb sub wrap lit ts <> Ok ts') -> check_tesseroids ltb sub wrap lit ts = Raise ValueError.
Proof.
  unfold check_tesseroids. intros H.
  repeat match goal with |- (if ?b then _ else _) = _ => destruct b; [reflexivity|] end. cbv zeta in *.
  repeat match goal with |- (if ?b then _ else _) = _ => destruct b; [reflexivity|] end.
  exfalso. eapply H. reflexivity.
Qed.

(** Longitude normalisation. *)
Lemma moved_region t t' lon : moved t t' -> west t > east t -> west t' <= east t' ->
  (exists k, west t' <= lon + 360 * IZR k <= east t') <-> on_eastward_arc (west t) (east t) lon.
Proof.
  intros [[H _]|(_ & [k A] & B & [l C] & D & _)] Hw Hle; [lra|].
  split.
  - intros [j [Hj1 Hj2]]. exists (lon + 360 * IZR j - west t'), (east t' - west t').
    repeat split; try lra.
    + exists (k - l)%Z. rewrite minus_IZR. lra.
    + exists (k - j)%Z. rewrite minus_IZR. lra.
  - intros (a & b & Hab & Hb & [i E] & [j F]).
    assert (Hb' : b = east t' - west t').
    { apply (turn_small _ _ (k - l - i)); [|lra]. rewrite !minus_IZR. lra. }
    exists (k - j)%Z. rewrite minus_IZR. lra.
Qed.

(** Points inside. *)
Lemma inside_test_spec p t : -180 <= west t -> east t <= 360 -> inside_test p t = true <-> inside p t.
Proof.
  intros Hw He. destruct p as [[lon lat] r]. unfold inside_test, inside.
  rewrite !andb_true_iff, orb_true_iff, !andb_true_iff, !Rltb_true.
  destruct (to_180_spec lon) as [A [k B]]. destruct (Rmod_spec lon 360) as [C [l D]]; [lra|].
  split.
  - intros [[[H|H] H1] H2]; (split; [|tauto]).
    + exists k. lra.
    + exists l. lra.
  - intros [[j Hj] H]. split; [split; [|tauto]|tauto].
    destruct (Rlt_dec (lon + 360 * IZR j) 180) as [Hlt|Hge].
    + left. assert (to_180 lon = lon + 360 * IZR j); [|lra].
      apply (turn_small _ _ (k - j)); [rewrite minus_IZR; lra|lra].
    + right. assert (Rmod lon 360 = lon + 360 * IZR j); [|lra].
      apply (turn_small _ _ (l - j)); [rewrite minus_IZR; lra|lra].
Qed.

Lemma in_enumerate {A} (l : list A) i x : In (i, x) (combine (range 0 (length l)) l) -> In x l.
Proof. apply in_combine_r. Qed.
Lemma enumerate_in {A} (l : list A) x : In x l -> exists i, In (i, x) (combine (range 0 (length l)) l).
Proof.
  unfold range. rewrite Nat.sub_0_r. generalize 0%nat as a. induction l as [|y l IH]; intros a []; simpl.
  - subst. exists a. now left.
  - destruct (IH (S a) H) as [i Hi]. exists i. now right.
Qed.

Lemma conflicting_nil ps ts :
  Forall (fun t => -180 <= west t /\ east t <= 360) ts ->
  conflicting ps ts = [] <-> (forall p t, In p ps -> In t ts -> ~ inside p t).
Proof.
  intros HF. rewrite Forall_forall in HF. split.
  - intros H p t Hp Ht HI.
    destruct (enumerate_in ps p Hp) as [i Hi]. destruct (enumerate_in ts t Ht) as [j Hj].
    assert (K : In (i, j) (conflicting ps ts)).
    { unfold conflicting. apply in_flat_map. exists (i, p). split; [exact Hi|].
      apply in_flat_map. exists (j, t). split; [exact Hj|]. simpl.
      destruct (HF t Ht) as [A B]. rewrite (proj2 (inside_test_spec p t A B) HI). now left. }
    rewrite H in K. destruct K.
  - intros H. destruct (conflicting ps ts) as [|[i j] l] eqn:E; [reflexivity|]. exfalso.
    assert (K : In (i, j) (conflicting ps ts)) by (rewrite E; now left).
    unfold conflicting in K. apply in_flat_map in K. destruct K as ([i' p] & Hp & K).
    apply in_flat_map in K. destruct K as ([j' t] & Ht & K). simpl in K.
    apply in_enumerate in Hp, Ht. destruct (HF t Ht) as [A B].
    destruct (inside_test p t) eqn:I; [|destruct K].
    apply (H p t Hp Ht). now apply inside_test_spec.
Qed.

Lemma check_points_spec ps ts :
  Forall (fun t => -180 <= west t /\ east t <= 360) ts ->
  (check_points_outside_tesseroids ps ts = Raise ValueError <-> exists p t, In p ps /\ In t ts /\ inside p t) /\
  (check_points_outside_tesseroids ps ts = Ok tt <-> forall p t, In p ps -> In t ts -> ~ inside p t).
Proof.
  intros HF. pose proof (conflicting_nil ps ts HF) as H.
  unfold check_points_outside_tesseroids. destruct (conflicting ps ts) as [|c l] eqn:E.
  - split; split; intros; auto; try discriminate.
    + destruct H0 as (p & t & Hp & Ht & HI). exfalso. now apply (proj1 H eq_refl p t).
    + now apply (proj1 H eq_refl p t).
  - split; split; intros; auto; try discriminate.
    + assert (K : In c (conflicting ps ts)) by (rewrite E; now left).
      unfold conflicting in K. apply in_flat_map in K. destruct K as ([i' p] & Hp & K).
      apply in_flat_map in K. destruct K as ([j' t] & Ht & K). simpl in K.
      apply in_enumerate in Hp, Ht. rewrite Forall_forall in HF. destruct (HF t Ht) as [A B].
      destruct (inside_test p t) eqn:I; [|destruct K].
      exists p, t. repeat split; auto. now apply inside_test_spec.
    + apply H in H0. discriminate.
Qed.

Lemma moved_bounds t t' : bounds_ok t -> moved t t' -> -180 <= west t' /\ east t' <= 360.
Proof.
  intros (_ & _ & _ & _ & A & B) [[_ ->]|(_ & _ & C & _ & D & _)]; lra.
Qed.

Lemma Forall2_moved_bounds ts ts' : Forall bounds_ok ts -> Forall2 moved ts ts' ->
  Forall (fun t => -180 <= west t /\ east t <= 360) ts'.
Proof.
  intros HB HM. induction HM; constructor; inversion HB; subst; auto. eapply moved_bounds; eassumption.
Qed.

Lemma triples_coords ps : triples (map fst3 ps) (map snd3 ps) (map thd3 ps) = ps.
Proof.
  unfold triples. induction ps as [|[[a b] c] ps IH]; simpl; [reflexivity|]. now rewrite IH.
Qed.

Lemma tesseroid_gravity_rejects_inside sh ps ts ts' density field radial p t :
  check_tesseroids_R ts = Ok ts' -> In p ps -> In t ts' -> inside p t ->
  tesseroid_gravity (coords_of sh ps) ts density field radial false = Raise ValueError.
Proof.
  intros HC Hp Ht HI. unfold tesseroid_gravity, coords_of.
  destruct (negb _); [reflexivity|]. rewrite broadcast3_same by reflexivity. cbn [bind ravel data].
  unfold ravel; cbn [data]. rewrite HC. cbn [bind]. rewrite triples_coords.
  apply check_tesseroids_ok in HC. destruct HC as (HB & HM & _).
  destruct (check_points_spec ps ts' (Forall2_moved_bounds ts ts' HB HM)) as [[_ K] _].
  rewrite K by (exists p, t; auto). reflexivity.
Qed.

Lemma tesseroid_gravity_rejects_invalid c ts density field radial :
  ~ (Forall bounds_ok ts /\ exists ts', Forall2 moved ts ts' /\ Forall width_ok ts') ->
  tesseroid_gravity c ts density field radial false = Raise ValueError.
Proof.
  intros H. destruct c as [[c0 c1] c2]. unfold tesseroid_gravity.
  destruct (negb _); [reflexivity|].
  unfold broadcast3. destruct (bcast_rev _ _); [|reflexivity]. destruct (bcast_rev _ _); [|reflexivity]. cbn [bind].
  assert (K : check_tesseroids_R ts = Raise ValueError).
  { apply check_tesseroids_rejects. intros ts' E. apply H. apply check_tesseroids_ok in E. destruct E as (A & B & C).
    split; [exact A|]. exists ts'. auto. }
  rewrite K. reflexivity.
Qed.

(** The NaN-aware checks agree with the plain ones on ordinary numbers. *)
Definition fin_tess (t : tess) : tess_of num :=
  Tess (Fin (west t)) (Fin (east t)) (Fin (south t)) (Fin (north t)) (Fin (bottom t)) (Fin (top t)).

Lemma existsb_map {A B} (f : A -> B) g l : existsb g (map f l) = existsb (fun x => g (f x)) l.
Proof. induction l; simpl; congruence. Qed.

Lemma check_tesseroids_num_fin ts :
  check_tesseroids_num (map fin_tess ts) = match check_tesseroids_R ts with Ok l => Ok (map fin_tess l) | Raise e => Raise e end.
Proof.
  unfold check_tesseroids_num, check_tesseroids_R, check_tesseroids. cbv zeta.
  assert (E : (if existsb (fun x : tess_of num => nltb (east x) (west x)) (map fin_tess ts) then longitude_continuity nltb (fun x => match x with Fin r => Fin (to_180 r) | NaN => NaN end) (map fin_tess ts) else map fin_tess ts)
    = map fin_tess (if existsb (fun x : tess_of R => Rltb (east x) (west x)) ts then longitude_continuity Rltb to_180 ts else ts)).
  { rewrite existsb_map. cbn [fin_tess west east nltb]. unfold tess. destruct (existsb (fun x : tess_of R => Rltb (east x) (west x)) ts); [|reflexivity].
    unfold longitude_continuity. rewrite !map_map. apply map_ext; intros t. cbn. destruct (Rltb (east t) (west t)); reflexivity. }
  rewrite E. rewrite !existsb_map. cbn [fin_tess west east south north bottom top nltb nop]. unfold tess.
  repeat match goal with |- (if ?b then _ else _) = _ => destruct b; [reflexivity|] end. reflexivity.
Qed.

Lemma check_tesseroids_nan : check_tesseroids_num [Tess NaN NaN NaN NaN NaN NaN] = Ok [Tess NaN NaN NaN NaN NaN NaN].
Proof. reflexivity. Qed.
