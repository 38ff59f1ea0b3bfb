From Coq Require Import Permutation.
From Verif Require Import Base BaseFacts NumPy NumPyFacts DistanceModel DistanceSpec DistanceProofs PointGravityModel PointGravitySpec PointGravityProofs
  TesseroidModel TesseroidSpec TesseroidCheckProofs TesseroidAdaptProofs TesseroidProofs TesseroidFieldProofs
  TesseroidDensityModel TesseroidDensitySpec.
Local Open Scope string_scope. Local Open Scope list_scope. Local Open Scope R_scope.
Local Opaque MAX_DISCRETIZATIONS STACK_SIZE.

Lemma Rabs_sub_le a b : Rabs (a - b) <= Rabs a + Rabs b.
Proof. unfold Rminus. eapply Rle_trans; [apply Rabs_triang|]. rewrite Rabs_Ropp. lra. Qed.

(** ** Piles *)
Lemma pile_bounds b t l : pile b t l -> b < t /\ Forall (fun xy => b <= fst xy < snd xy /\ snd xy <= t) l.
Proof.
  induction 1 as [b t H|b m t l H P [IH1 IH2]].
  - split; [assumption|]. apply Forall_cons; [cbn; lra|apply Forall_nil].
  - split; [lra|]. apply Forall_cons; [cbn; lra|]. eapply Forall_impl; [|exact IH2]. cbn. intros; lra.
Qed.

Lemma pile_split b t l1 x y l2 m : pile b t (l1 ++ (x, y) :: l2) -> x < m < y -> pile b t (l1 ++ (x, m) :: (m, y) :: l2).
Proof.
  revert b. induction l1 as [|z l1 IH]; intros b H Hm; simpl in *.
  - inversion H; subst.
    + apply pile_cons; [lra|]. apply pile_one. lra.
    + apply pile_cons; [lra|]. apply pile_cons; [lra|assumption].
  - inversion H; subst.
    + destruct l1; discriminate.
    + apply pile_cons; [assumption|]. apply IH; assumption.
Qed.

Lemma pile_tiles t0 : forall l b t, pile b t l -> tiles (map (layer_of t0) l) (layer_of t0 (b, t)).
Proof.
  intros l b t H. induction H as [b t H|b m t l H P IH].
  - apply tiles_refl.
  - cbn [map]. assert (Hm : m < t) by (apply (pile_bounds m t l P)).
    assert (S2 : tiles [layer_of t0 (m, t); layer_of t0 (b, m)] (layer_of t0 (b, t))).
    { constructor.
      - intros [[a c] r] I. unfold in_closed, layer_of in I; cbn in I.
        destruct (Rle_dec m r); [exists (layer_of t0 (m, t))|exists (layer_of t0 (b, m))]; (split; [cbn; auto|unfold in_closed, layer_of; cbn; lra]).
      - intros x [[a c] r] [<-|[<-|[]]]; unfold in_closed, layer_of; cbn; lra.
      - constructor; [constructor; [|constructor]|constructor; [constructor|constructor]].
        intros [[a c] r]; unfold in_open, layer_of; cbn; lra.
      - unfold sum_over, volume, layer_of; cbn [map sumR west east south north bottom top fst snd]. field. }
    apply tiles_perm with (map (layer_of t0) l ++ [layer_of t0 (b, m)]); [apply Permutation_sym, Permutation_cons_append|].
    eapply tiles_subst; eassumption.
Qed.

Section Loop.
Variable minimize : (R -> R) -> R -> R -> R * R.
Hypothesis HB : bounded_search minimize.

Lemma off_line_straight f b t r : b < t -> f r - straight_line r f b t = off_line f b t r.
Proof. intros H. unfold off_line, straight_line. field. lra. Qed.

Lemma off_line_norm f m M b t r : b < t -> off_line (fun x => (f x - m) / (M - m)) b t r = off_line f b t r / (M - m).
Proof. intros H. unfold off_line. unfold Rdiv. set (k := / (M - m)). set (j := / (t - b)). replace ((f r - m) * k - ((f b - m) * k * (t - r) + (f t - m) * k * (r - b)) * j) with ((f r - (f b * (t - r) + f t * (r - b)) * j) * k - m * k * (1 - (t - b) * j)) by ring. replace ((t - b) * j) with 1 by (unfold j; field; lra). ring. Qed.

Definition diff_fun (nd : R -> R) (b t : R) : R -> R := fun radius => - Rabs (nd radius - straight_line radius nd b t).
Definition split_at (nd : R -> R) (b t : R) : R := fst (minimize (diff_fun nd b t) b t).

Lemma mad_eq nd b t : b < t -> maximum_absolute_diff minimize nd b t = (split_at nd b t, Rabs (off_line nd b t (split_at nd b t))).
Proof.
  intros H. unfold maximum_absolute_diff. fold (diff_fun nd b t). destruct (HB (diff_fun nd b t) b t) as (H1 & _ & H3).
  rewrite H3 by lra. fold (split_at nd b t). f_equal. unfold diff_fun. rewrite off_line_straight by assumption. ring.
Qed.

Lemma split_interior nd b t : b < t -> b < split_at nd b t < t.
Proof. intros H. now apply HB. Qed.

Section OneLoop.
Variable t0 : tess.
Variable nd : R -> R.
Let w := west t0. Let e := east t0. Let s := south t0. Let n := north t0.
Let B := bottom t0. Let T := top t0.

Definition crit (x : tess) : Prop :=
  Rabs (off_line nd (bottom x) (top x) (split_at nd (bottom x) (top x))) * ((top x - bottom x) / (T - B)) <= DELTA_RATIO.

Lemma loop_pile : forall fuel pending out r,
  density_loop minimize fuel w e s n nd (T - B) pending out = Ok r ->
  (exists l, pile B T l /\ Permutation (out ++ pending) (map (layer_of t0) l)) -> Forall crit out ->
  (exists l, pile B T l /\ Permutation r (map (layer_of t0) l)) /\ Forall crit r.
Proof.
  induction fuel as [|fuel IH]; intros [|t pending] out r; cbn [density_loop]; try discriminate.
  - intros [= <-] (l & P & Q) C. rewrite app_nil_r in Q. split; [eauto|assumption].
  - intros [= <-] (l & P & Q) C. rewrite app_nil_r in Q. split; [eauto|assumption].
  - intros E (l & P & Q) C.
    assert (I : In t (map (layer_of t0) l)).
    { eapply Permutation_in; [exact Q|]. apply in_or_app. right. now left. }
    apply in_map_iff in I. destruct I as ([x y] & <- & I). apply in_split in I. destruct I as (l1 & l2 & ->).
    destruct (pile_bounds _ _ _ P) as [_ PB]. rewrite Forall_forall in PB.
    assert (Hxy : x < y) by (specialize (PB (x, y) ltac:(apply in_or_app; right; now left)); cbn in PB; lra).
    assert (Q' : Permutation (out ++ pending) (map (layer_of t0) (l1 ++ l2))).
    { rewrite map_app in *. cbn [map] in Q. eapply Permutation_app_inv; exact Q. }
    change (bottom (layer_of t0 (x, y))) with x in E. change (top (layer_of t0 (x, y))) with y in E.
    rewrite mad_eq in E by assumption. revert E.
    match goal with |- (if ?b then _ else _) = _ -> _ => destruct b eqn:Eb end; intros E.
    + apply IH in E; auto. exists (l1 ++ (x, split_at nd x y) :: (split_at nd x y, y) :: l2).
      split; [apply pile_split with (m := split_at nd x y) in P; [exact P|now apply split_interior]|].
      rewrite app_assoc. rewrite Q'. rewrite !map_app. cbn [map].
      change (Tess w e s n (split_at nd x y) y) with (layer_of t0 (split_at nd x y, y)).
      change (Tess w e s n x (split_at nd x y)) with (layer_of t0 (x, split_at nd x y)).
      rewrite <- app_assoc. apply Permutation_app_head.
      rewrite Permutation_app_comm. cbn [app]. apply perm_swap.
    + apply IH in E; auto.
      * exists (l1 ++ (x, y) :: l2). split; [assumption|]. rewrite <- Q. rewrite <- app_assoc. reflexivity.
      * apply Forall_app; split; [assumption|]. apply Forall_cons; [|apply Forall_nil].
        unfold crit. cbn [bottom top]. destruct (Rltb_spec DELTA_RATIO (Rabs (off_line nd x y (split_at nd x y)) * ((y - x) / (T - B)))) as [L|L]; [discriminate|lra].
Qed.

(** *** Termination for continuous densities *)
Hypothesis HBT : B < T.
Hypothesis HC : forall x, B <= x <= T -> continuity_pt nd x.

Lemma nd_bounded : exists M, 0 < M /\ forall x, B <= x <= T -> Rabs (nd x) <= M.
Proof.
  destruct (continuity_ab_maj nd B T) as (a & Ha & _); [lra|exact HC|].
  destruct (continuity_ab_min nd B T) as (c & Hc & _); [lra|exact HC|].
  exists (Rabs (nd a) + Rabs (nd c) + 1). pose proof (Rabs_pos (nd a)). pose proof (Rabs_pos (nd c)). split; [lra|].
  intros x Hx. specialize (Ha x Hx). specialize (Hc x Hx). unfold Rabs in *; repeat destruct (Rcase_abs _); lra.
Qed.

Lemma off_line_bound M b t r : b < t -> b <= r <= t -> Rabs (nd b) <= M -> Rabs (nd t) <= M -> Rabs (nd r) <= M -> Rabs (off_line nd b t r) <= 2 * M.
Proof.
  intros H1 H2 Hb Ht Hr. unfold off_line.
  assert (K : Rabs ((nd b * (t - r) + nd t * (r - b)) / (t - b)) <= M).
  { unfold Rdiv. rewrite Rabs_mult, (Rabs_right (/ (t - b))) by (left; apply Rinv_0_lt_compat; lra).
    apply Rmult_le_reg_r with (t - b); [lra|]. rewrite Rmult_assoc, Rinv_l, Rmult_1_r by lra.
    apply Rle_trans with (Rabs (nd b) * (t - r) + Rabs (nd t) * (r - b)).
    - eapply Rle_trans; [apply Rabs_triang|]. rewrite !Rabs_mult, (Rabs_right (t - r)), (Rabs_right (r - b)) by lra. lra.
    - assert (Rabs (nd b) * (t - r) <= M * (t - r)) by (apply Rmult_le_compat_r; lra).
      assert (Rabs (nd t) * (r - b) <= M * (r - b)) by (apply Rmult_le_compat_r; lra). lra. }
  eapply Rle_trans; [apply Rabs_sub_le|]. lra.
Qed.

(** Splits leave pieces of at least a fixed thickness. *)
Lemma split_thick : exists d, 0 < d /\ forall b t, B <= b -> b < t -> t <= T ->
  DELTA_RATIO < Rabs (off_line nd b t (split_at nd b t)) * ((t - b) / (T - B)) ->
  d <= split_at nd b t - b /\ d <= t - split_at nd b t.
Proof.
  destruct nd_bounded as (M & HM & HM').
  destruct (Heine_cor2 HC (mkposreal (1 / 20) ltac:(lra))) as [[d0 Hd0] HU]. cbn [pos] in HU.
  set (s0 := DELTA_RATIO * (T - B) / (2 * M)).
  assert (Hs0 : 0 < s0). { unfold s0, DELTA_RATIO. apply Rmult_lt_0_compat; [|apply Rinv_0_lt_compat; lra]. nra. }
  exists (Rmin (d0 / 2) (s0 / (40 * M))). split.
  { apply Rmin_pos; [lra|]. apply Rmult_lt_0_compat; [assumption|]. apply Rinv_0_lt_compat. lra. }
  intros b t Hb Hbt Ht HD. set (x := split_at nd b t) in *.
  assert (Hx : b < x < t) by (apply split_interior; assumption).
  set (D := Rabs (off_line nd b t x)) in *.
  assert (D2 : D <= 2 * M). { apply off_line_bound; try lra; apply HM'; lra. }
  assert (Hq : (t - b) / (T - B) <= 1). { apply Rmult_le_reg_r with (T - B); [lra|]. unfold Rdiv. rewrite Rmult_assoc, Rinv_l by lra. lra. }
  assert (Hq0 : 0 < (t - b) / (T - B)) by (apply Rmult_lt_0_compat; [lra|apply Rinv_0_lt_compat; lra]).
  assert (D0 : 0 <= D) by apply Rabs_pos.
  assert (D1 : DELTA_RATIO < D). { eapply Rlt_le_trans; [exact HD|]. rewrite <- (Rmult_1_r D) at 2. apply Rmult_le_compat_l; assumption. }
  assert (S0 : s0 < t - b).
  { unfold s0. apply Rmult_lt_reg_r with (2 * M); [lra|]. unfold Rdiv. rewrite Rmult_assoc, Rinv_l, Rmult_1_r by lra.
    assert (DELTA_RATIO < 2 * M * ((t - b) / (T - B))). { eapply Rlt_le_trans; [exact HD|]. apply Rmult_le_compat_r; lra. }
    apply Rmult_lt_compat_r with (r := T - B) in H; [|lra]. replace (2 * M * ((t - b) / (T - B)) * (T - B)) with (2 * M * (t - b)) in H by (field; lra). lra. }
  assert (Key : forall c o : R, (c = b /\ o = t) \/ (c = t /\ o = b) -> Rabs (x - c) < Rmin (d0 / 2) (s0 / (40 * M)) -> False).
  { intros c o Hco Hlt.
    assert (L1 : Rabs (x - c) < d0). { eapply Rlt_trans; [exact Hlt|]. eapply Rle_lt_trans; [apply Rmin_l|]. lra. }
    assert (L2 : Rabs (x - c) * (40 * M) < s0).
    { apply Rlt_le_trans with (s0 / (40 * M) * (40 * M)); [|right; field; lra].
      apply Rmult_lt_compat_r; [lra|]. eapply Rlt_le_trans; [exact Hlt|apply Rmin_r]. }
    assert (U : Rabs (nd x - nd c) < 1 / 20) by (apply HU; [lra|destruct Hco as [[-> ->]|[-> ->]]; lra|exact L1]).
    assert (OE : off_line nd b t x = (nd x - nd c) - (nd o - nd c) * ((x - c) / (o - c))).
    { unfold off_line. destruct Hco as [[-> ->]|[-> ->]]; field; lra. }
    assert (K2 : Rabs ((nd o - nd c) * ((x - c) / (o - c))) <= 1 / 20).
    { rewrite Rabs_mult. unfold Rdiv at 1. rewrite Rabs_mult.
      assert (Lo : Rabs (nd o - nd c) <= 2 * M).
      { eapply Rle_trans; [apply Rabs_sub_le|].
        assert (Rabs (nd o) <= M) by (apply HM'; destruct Hco as [[-> ->]|[-> ->]]; lra).
        assert (Rabs (nd c) <= M) by (apply HM'; destruct Hco as [[-> ->]|[-> ->]]; lra). lra. }
      assert (Lc : Rabs (/ (o - c)) = / (t - b)).
      { rewrite Rabs_inv. f_equal.
        destruct Hco as [[-> ->]|[-> ->]]; [rewrite Rabs_right; lra|rewrite Rabs_left; lra]. }
      rewrite Lc. apply Rmult_le_reg_r with (t - b); [lra|].
      replace (Rabs (nd o - nd c) * (Rabs (x - c) * / (t - b)) * (t - b)) with (Rabs (nd o - nd c) * Rabs (x - c)) by (field; lra).
      apply Rle_trans with (2 * M * Rabs (x - c)); [apply Rmult_le_compat_r; [apply Rabs_pos|assumption]|]. lra. }
    assert (D <= 1 / 20 + 1 / 20).
    { unfold D. rewrite OE. eapply Rle_trans; [apply Rabs_sub_le|]. lra. }
    unfold DELTA_RATIO in D1. lra. }
  split; apply Rnot_lt_le; intros L.
  - apply (Key b t); [auto|]. rewrite Rabs_right by lra. lra.
  - apply (Key t b); [auto|]. rewrite Rabs_left by lra. lra.
Qed.

Variable d : R.
Hypothesis Hd : 0 < d.
Hypothesis Hthick : forall b t, B <= b -> b < t -> t <= T ->
  DELTA_RATIO < Rabs (off_line nd b t (split_at nd b t)) * ((t - b) / (T - B)) ->
  d <= split_at nd b t - b /\ d <= t - split_at nd b t.

(** Upper bound for the number of iterations spent on a piece. *)
Definition units (x : tess) : nat := Z.to_nat (Int_part ((top x - bottom x) / d)).
Definition work (x : tess) : nat := (2 * Nat.max 1 (units x) - 1)%nat.
Definition total (l : list tess) : nat := fold_right (fun x a => work x + a)%nat 0%nat l.

Lemma total_app l1 l2 : total (l1 ++ l2) = (total l1 + total l2)%nat.
Proof. induction l1; simpl; lia. Qed.

Lemma work_split x y m : d <= m - x -> d <= y - m ->
  (work (layer_of t0 (m, y)) + work (layer_of t0 (x, m)) + 1 <= work (layer_of t0 (x, y)))%nat.
Proof.
  intros H1 H2. unfold work, units. cbn [bottom top layer_of fst snd].
  set (a := (y - m) / d). set (b := (m - x) / d).
  assert (Ha : 1 <= a). { unfold a. apply Rmult_le_reg_r with d; [assumption|]. unfold Rdiv. rewrite Rmult_assoc, Rinv_l by lra. lra. }
  assert (Hb : 1 <= b). { unfold b. apply Rmult_le_reg_r with d; [assumption|]. unfold Rdiv. rewrite Rmult_assoc, Rinv_l by lra. lra. }
  replace ((y - x) / d) with (a + b) by (unfold a, b; field; lra).
  assert (I : forall r, IZR (Int_part r) <= r < IZR (Int_part r) + 1).
  { intros r. destruct (base_Int_part r). lra. }
  pose proof (I a) as Ia. pose proof (I b) as Ib. pose proof (I (a + b)) as Iab.
  assert (0 < Int_part a)%Z. { apply lt_IZR. lra. } assert (0 < Int_part b)%Z. { apply lt_IZR. lra. }
  assert (Int_part a + Int_part b < Int_part (a + b) + 1)%Z. { apply lt_IZR. rewrite !plus_IZR. lra. }
  lia.
Qed.

Lemma loop_terminates : forall fuel pending out, (total pending <= fuel)%nat ->
  (exists l, pile B T l /\ exists o, Permutation (o ++ pending) (map (layer_of t0) l)) ->
  exists r, density_loop minimize fuel w e s n nd (T - B) pending out = Ok r.
Proof.
  induction fuel as [|fuel IH]; intros [|t pending] out Hf (l & P & o & Q); cbn [density_loop]; try (eexists; reflexivity).
  - exfalso. simpl in Hf. unfold work in Hf. lia.
  - assert (I : In t (map (layer_of t0) l)).
    { eapply Permutation_in; [exact Q|]. apply in_or_app. right. now left. }
    apply in_map_iff in I. destruct I as ([x y] & <- & I). apply in_split in I. destruct I as (l1 & l2 & ->).
    destruct (pile_bounds _ _ _ P) as [_ PB]. rewrite Forall_forall in PB.
    assert (Hxy : B <= x /\ x < y /\ y <= T) by (specialize (PB (x, y) ltac:(apply in_or_app; right; now left)); cbn in PB; lra).
    assert (Q' : Permutation (o ++ pending) (map (layer_of t0) (l1 ++ l2))).
    { rewrite map_app in *. cbn [map] in Q. eapply Permutation_app_inv; exact Q. }
    change (bottom (layer_of t0 (x, y))) with x. change (top (layer_of t0 (x, y))) with y.
    rewrite mad_eq by tauto.
    destruct (Rltb_spec DELTA_RATIO (Rabs (off_line nd x y (split_at nd x y)) * ((y - x) / (T - B)))) as [L|L].
    + apply IH.
      * rewrite total_app. cbn [total fold_right] in Hf |- *. fold (total pending) in Hf.
        destruct (Hthick x y) as [K1 K2]; try tauto. pose proof (work_split x y _ K1 K2) as W.
        change (Tess w e s n (split_at nd x y) y) with (layer_of t0 (split_at nd x y, y)).
        change (Tess w e s n x (split_at nd x y)) with (layer_of t0 (x, split_at nd x y)). lia.
      * exists (l1 ++ (x, split_at nd x y) :: (split_at nd x y, y) :: l2). split; [apply pile_split with (m := split_at nd x y) in P; [exact P|now apply split_interior]|].
        exists o. rewrite app_assoc. rewrite Q'. rewrite !map_app. cbn [map].
        change (Tess w e s n (split_at nd x y) y) with (layer_of t0 (split_at nd x y, y)).
        change (Tess w e s n x (split_at nd x y)) with (layer_of t0 (x, split_at nd x y)).
        rewrite <- app_assoc. apply Permutation_app_head.
        rewrite Permutation_app_comm. cbn [app]. apply perm_swap.
    + apply IH.
      * cbn [total fold_right] in Hf. fold (total pending) in Hf. unfold work in Hf at 1. lia.
      * exists (l1 ++ (x, y) :: l2). split; [assumption|]. exists (o ++ [layer_of t0 (x, y)]). rewrite <- Q, <- app_assoc. reflexivity.
Qed.
End OneLoop.

(** More fuel does not change the result. *)
Lemma loop_fuel w e s n nd size : forall fuel fuel' pending out r, (fuel <= fuel')%nat ->
  density_loop minimize fuel w e s n nd size pending out = Ok r -> density_loop minimize fuel' w e s n nd size pending out = Ok r.
Proof.
  induction fuel as [|fuel IH]; intros [|fuel'] [|t pending] out r Hf; cbn [density_loop]; try discriminate; try lia; auto.
  destruct (maximum_absolute_diff minimize nd (bottom t) (top t)) as [rs md].
  destruct (Rltb _ _); apply IH; lia.
Qed.
End Loop.
