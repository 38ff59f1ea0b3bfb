(** Continuity and derivatives of the fields of an ellipsoid in the frame of its sorted axes (C32, C33, C81). *)
From Coquelicot Require Import Coquelicot.
From Coq Require Import Psatz.
From Verif Require Import Base BaseFacts NumPy PointGravityModel EllipsoidModel EllipsoidSpec EllipsoidRotProofs EllipsoidLambdaProofs EllipsoidIntProofs EllipsoidShapeProofs.
Local Open Scope R_scope.

(** ** Limits *)
Lemma lim_plus {T} (F : (T -> Prop) -> Prop) {FF : Filter F} (f g : T -> R) (a b : R) :
  filterlim f F (locally a) -> filterlim g F (locally b) -> filterlim (fun x => f x + g x) F (locally (a + b)).
Proof. intros H1 H2. eapply filterlim_comp_2; [exact H1 | exact H2 |]. apply (filterlim_plus a b). Qed.
Lemma lim_mult {T} (F : (T -> Prop) -> Prop) {FF : Filter F} (f g : T -> R) (a b : R) :
  filterlim f F (locally a) -> filterlim g F (locally b) -> filterlim (fun x => f x * g x) F (locally (a * b)).
Proof. intros H1 H2. eapply filterlim_comp_2; [exact H1 | exact H2 |]. apply (filterlim_mult a b). Qed.
Lemma lim_comp {T} (F : (T -> Prop) -> Prop) (f : T -> R) (g : R -> R) (a : R) :
  filterlim f F (locally a) -> continuous g a -> filterlim (fun x => g (f x)) F (locally (g a)).
Proof. intros H1 H2. apply (filterlim_comp _ _ _ f g F (locally a) (locally (g a)) H1 H2). Qed.
Lemma lim_inv {T} (F : (T -> Prop) -> Prop) (f : T -> R) (a : R) :
  a <> 0 -> filterlim f F (locally a) -> filterlim (fun x => / f x) F (locally (/ a)).
Proof.
  intros Ha H. apply (lim_comp F f Rinv a H). apply (ex_derive_continuous (K := R_AbsRing) (V := R_NormedModule)). auto_derive. exact Ha.
Qed.
Lemma lim_const {T} (F : (T -> Prop) -> Prop) {FF : Filter F} (a : R) : filterlim (fun _ : T => a) F (locally a).
Proof. apply filterlim_const. Qed.
Lemma lim_div {T} (F : (T -> Prop) -> Prop) {FF : Filter F} (f g : T -> R) (a b : R) : b <> 0 ->
  filterlim f F (locally a) -> filterlim g F (locally b) -> filterlim (fun x => f x / g x) F (locally (a / b)).
Proof. intros Hb H1 H2. apply lim_mult; [assumption | exact H1 | apply lim_inv; assumption]. Qed.
Lemma lim_minus {T} (F : (T -> Prop) -> Prop) {FF : Filter F} (f g : T -> R) (a b : R) :
  filterlim f F (locally a) -> filterlim g F (locally b) -> filterlim (fun x => f x - g x) F (locally (a - b)).
Proof.
  intros H1 H2. apply lim_plus; [assumption | exact H1|]. apply (lim_comp F g Ropp b H2).
  apply (ex_derive_continuous (K := R_AbsRing) (V := R_NormedModule)). auto_derive. exact I.
Qed.
Lemma lim_eventually_lt {T} (F : (T -> Prop) -> Prop) {FF : Filter F} (f : T -> R) (a b : R) :
  filterlim f F (locally a) -> a < b -> F (fun x => f x < b).
Proof.
  intros H L. apply (H (fun y => y < b)). assert (P : 0 < b - a) by lra. exists (mkposreal _ P). intros y Hy.
  unfold ball in Hy; cbn in Hy; unfold AbsRing_ball, abs, minus, plus, opp in Hy; cbn in Hy. apply Rabs_lt_between in Hy. lra.
Qed.
Lemma lim_eventually_gt {T} (F : (T -> Prop) -> Prop) {FF : Filter F} (f : T -> R) (a b : R) :
  filterlim f F (locally a) -> b < a -> F (fun x => b < f x).
Proof.
  intros H L. apply (H (fun y => b < y)). assert (P : 0 < a - b) by lra. exists (mkposreal _ P). intros y Hy.
  unfold ball in Hy; cbn in Hy; unfold AbsRing_ball, abs, minus, plus, opp in Hy; cbn in Hy. apply Rabs_lt_between in Hy. lra.
Qed.
Lemma lim_intro {T} (F : (T -> Prop) -> Prop) {FF : Filter F} (f : T -> R) (a : R) :
  (forall eps, 0 < eps -> F (fun x => a - eps < f x < a + eps)) -> filterlim f F (locally a).
Proof.
  intros H. apply filterlim_locally. intros eps. generalize (H eps (cond_pos eps)). apply filter_imp. intros x Hx.
  unfold ball; cbn; unfold AbsRing_ball, abs, minus, plus, opp; cbn. apply Rabs_lt_between. lra.
Qed.

(** ** The neighbourhoods of a point *)
Definition near (p : vec3) (P : vec3 -> Prop) : Prop := exists d, 0 < d /\ forall q, eucl p q < d -> P q.
Global Instance near_filter p : ProperFilter (near p).
Proof.
  constructor.
  - intros P (d & Hd & H). exists p. apply H. rewrite (proj2 (eucl_zero p p) eq_refl). exact Hd.
  - constructor.
    + exists 1. split; [lra | auto].
    + intros P Q (d & Hd & H) (d' & Hd' & H'). exists (Rmin d d'). split; [apply Rmin_pos; assumption|].
      intros q Hq. split; [apply H | apply H']; eapply Rlt_le_trans; try exact Hq; [apply Rmin_l | apply Rmin_r].
    + intros P Q Himp (d & Hd & H). exists d. split; [exact Hd | auto].
Qed.

Lemma eucl_coord p q : Rabs (vx p - vx q) <= eucl p q /\ Rabs (vy p - vy q) <= eucl p q /\ Rabs (vz p - vz q) <= eucl p q.
Proof.
  unfold eucl, norm, dot, vsub; cbn [vx vy vz]. set (x := vx p - vx q). set (y := vy p - vy q). set (z := vz p - vz q).
  assert (Hx := Rle_0_sqr x). assert (Hy := Rle_0_sqr y). assert (Hz := Rle_0_sqr z). unfold Rsqr in *.
  rewrite <- !sqrt_Rsqr_abs. unfold Rsqr. repeat split; apply sqrt_le_1_alt; lra.
Qed.
Lemma eucl_le p q : eucl p q <= Rabs (vx p - vx q) + Rabs (vy p - vy q) + Rabs (vz p - vz q).
Proof.
  unfold eucl, norm, dot, vsub; cbn [vx vy vz]. set (x := vx p - vx q). set (y := vy p - vy q). set (z := vz p - vz q).
  assert (Hx := Rabs_pos x). assert (Hy := Rabs_pos y). assert (Hz := Rabs_pos z).
  rewrite <- (sqrt_pow2 (Rabs x + Rabs y + Rabs z)) by lra. apply sqrt_le_1_alt.
  replace (x * x) with (Rabs x * Rabs x) by (rewrite <- Rabs_mult; apply Rabs_pos_eq, Rle_0_sqr).
  replace (y * y) with (Rabs y * Rabs y) by (rewrite <- Rabs_mult; apply Rabs_pos_eq, Rle_0_sqr).
  replace (z * z) with (Rabs z * Rabs z) by (rewrite <- Rabs_mult; apply Rabs_pos_eq, Rle_0_sqr). nra.
Qed.

Lemma near_vx p : filterlim vx (near p) (locally (vx p)).
Proof.
  apply lim_intro; [apply near_filter|]. intros eps He. exists eps. split; [exact He|]. intros q Hq. destruct (eucl_coord p q) as (H & _ & _).
  assert (K : Rabs (vx p - vx q) < eps) by lra. apply Rabs_lt_between in K. lra.
Qed.
Lemma near_vy p : filterlim vy (near p) (locally (vy p)).
Proof.
  apply lim_intro; [apply near_filter|]. intros eps He. exists eps. split; [exact He|]. intros q Hq. destruct (eucl_coord p q) as (_ & H & _).
  assert (K : Rabs (vy p - vy q) < eps) by lra. apply Rabs_lt_between in K. lra.
Qed.
Lemma near_vz p : filterlim vz (near p) (locally (vz p)).
Proof.
  apply lim_intro; [apply near_filter|]. intros eps He. exists eps. split; [exact He|]. intros q Hq. destruct (eucl_coord p q) as (_ & _ & H).
  assert (K : Rabs (vz p - vz q) < eps) by lra. apply Rabs_lt_between in K. lra.
Qed.

Lemma continuous_at_near (f : vec3 -> vec3) p : filterlim (fun q => vx (f q)) (near p) (locally (vx (f p))) ->
  filterlim (fun q => vy (f q)) (near p) (locally (vy (f p))) -> filterlim (fun q => vz (f q)) (near p) (locally (vz (f p))) -> continuous_at f p.
Proof.
  intros HX HY HZ eps He.
  assert (K : forall g : vec3 -> R, filterlim g (near p) (locally (g p)) -> near p (fun q => Rabs (g p - g q) < eps / 3)).
  { intros g Hg. assert (P1 := lim_eventually_lt (near p) g (g p) (g p + eps / 3) Hg ltac:(lra)).
    assert (P2 := lim_eventually_gt (near p) g (g p) (g p - eps / 3) Hg ltac:(lra)).
    generalize (filter_and _ _ P1 P2). apply filter_imp. intros q [A B]. apply Rabs_def1; lra. }
  assert (X := filter_and _ _ (K _ HX) (filter_and _ _ (K _ HY) (K _ HZ))). destruct X as (d & Hd & H). exists d. split; [exact Hd|].
  intros q Hq. destruct (H q Hq) as (A & B & C). eapply Rle_lt_trans; [apply eucl_le|]. lra.
Qed.

Lemma continuous_at_comp (f : vec3 -> vec3) (g : vec3 -> R) p : continuous_at f p ->
  filterlim g (near (f p)) (locally (g (f p))) -> filterlim (fun q => g (f q)) (near p) (locally (g (f p))).
Proof.
  intros Hf Hg. apply (filterlim_comp _ _ _ f g (near p) (near (f p)) (locally (g (f p)))); [|exact Hg].
  intros P (d & Hd & H). destruct (Hf d Hd) as (d' & Hd' & H'). exists d'. split; [exact Hd'|]. intros q Hq. apply H, H', Hq.
Qed.

(** A straight line through a point. *)
Lemma line_near p u : filterlim (fun t => vadd p (vscale t u)) (locally 0) (near p).
Proof.
  intros P (d & Hd & H). set (m := Rabs (vx u) + Rabs (vy u) + Rabs (vz u) + 1).
  assert (Hm : 0 < m) by (unfold m; generalize (Rabs_pos (vx u)) (Rabs_pos (vy u)) (Rabs_pos (vz u)); lra).
  assert (Hd' : 0 < d / m) by (apply Rdiv_lt_0_compat; assumption). exists (mkposreal _ Hd'). intros t Ht.
  unfold ball in Ht; cbn in Ht; unfold AbsRing_ball, abs, minus, plus, opp in Ht; cbn in Ht. rewrite Ropp_0, Rplus_0_r in Ht.
  apply H. eapply Rle_lt_trans; [apply eucl_le|]. unfold vadd, vscale; cbn [vx vy vz].
  replace (vx p - (vx p + t * vx u)) with (- (t * vx u)) by ring. replace (vy p - (vy p + t * vy u)) with (- (t * vy u)) by ring.
  replace (vz p - (vz p + t * vz u)) with (- (t * vz u)) by ring. rewrite !Rabs_Ropp, !Rabs_mult.
  assert (Rabs t * m < d). { apply (Rmult_lt_compat_r m) in Ht; [|exact Hm]. unfold Rdiv in Ht. rewrite Rmult_assoc, Rinv_l in Ht by lra. lra. }
  unfold m in *. generalize (Rabs_pos t). intros. nra.
Qed.
Lemma line_0 p u : vadd p (vscale 0 u) = p.
Proof. unfold vadd, vscale. destruct p as [x y z]; cbn [vx vy vz]. f_equal; ring. Qed.

(** A difference quotient with a limit. *)
Lemma slope_derive (h Q : R -> R) (L : R) : locally 0 (fun t => h t - h 0 = t * Q t) -> filterlim Q (locally 0) (locally L) -> is_derive h 0 L.
Proof.
  intros E H. apply is_derive_Reals. intros eps He.
  assert (P1 := lim_eventually_lt (locally 0) Q L (L + eps) H ltac:(lra)). assert (P2 := lim_eventually_gt (locally 0) Q L (L - eps) H ltac:(lra)).
  assert (P := filter_and (F := locally 0) _ _ E (filter_and (F := locally 0) _ _ P1 P2)).
  destruct P as [d Hd]. exists d. intros k Hk Hkd. destruct (Hd k) as (E1 & E2 & E3).
  - unfold ball; cbn; unfold AbsRing_ball, abs, minus, plus, opp; cbn. rewrite Ropp_0, Rplus_0_r. exact Hkd.
  - rewrite Rplus_0_l, E1. replace (k * Q k / k) with (Q k) by (field; exact Hk). apply Rabs_def1; lra.
Qed.

(** ** The confocal coordinate as a function of the point *)
Section Confocal.
Variables (a b c : R) (f : vec3 -> R).
Hypotheses (Pa : 0 < a) (Pb : 0 < b) (Pc : 0 < c).
Hypothesis Hf : forall p, 1 <= level a b c p -> is_lambda a b c p (f p).

(** x²/(a²+l) + y²/(b²+l) + z²/(c²+l) *)
Definition phi (l : R) (p : vec3) : R := vx p ^ 2 / (a ^ 2 + l) + vy p ^ 2 / (b ^ 2 + l) + vz p ^ 2 / (c ^ 2 + l).

(** lambda of external points, zero inside *)
Definition lam (p : vec3) : R := if is_internal p a b c then 0 else f p.

Lemma lam_in p : level a b c p < 1 -> lam p = 0.
Proof. intros H. unfold lam. rewrite (proj2 (is_internal_level p a b c) H). reflexivity. Qed.
Lemma lam_out p : 1 <= level a b c p -> lam p = f p /\ 0 <= lam p /\ phi (lam p) p = 1.
Proof.
  intros H. assert (E : lam p = f p).
  { unfold lam. destruct (is_internal p a b c) eqn:X; [|reflexivity]. apply is_internal_level in X. lra. }
  split; [exact E|]. rewrite E. apply (Hf p H).
Qed.
Lemma lam_nonneg p : 0 <= lam p.
Proof. destruct (Rle_or_lt 1 (level a b c p)) as [H|H]; [apply lam_out, H | rewrite lam_in by exact H; lra]. Qed.

Lemma level_phi p : level a b c p = phi 0 p.
Proof. unfold level, phi. rewrite !Rplus_0_r. reflexivity. Qed.

Lemma phi_cont l p : 0 <= l -> filterlim (phi l) (near p) (locally (phi l p)).
Proof.
  intros Hl. assert (A := sq_pos a Pa). assert (B := sq_pos b Pb). assert (C := sq_pos c Pc). assert (FF := near_filter p).
  assert (K : forall (g : vec3 -> R) e, filterlim g (near p) (locally (g p)) -> 0 < e -> filterlim (fun q => g q ^ 2 / e) (near p) (locally (g p ^ 2 / e))).
  { intros g e Hg He. apply (lim_comp (near p) g (fun x => x ^ 2 / e)); [exact Hg|].
    apply (ex_derive_continuous (K := R_AbsRing) (V := R_NormedModule)). auto_derive. exact I. }
  unfold phi. apply lim_plus; [apply near_filter | apply lim_plus; [apply near_filter | |] |];
    apply K; try (apply near_vx || apply near_vy || apply near_vz); lra.
Qed.

Lemma phi_antitone l m p : 0 <= l -> l <= m -> phi m p <= phi l p.
Proof.
  intros Hl Hm. assert (A := sq_pos a Pa). assert (B := sq_pos b Pb). assert (C := sq_pos c Pc).
  assert (K : forall x e, 0 < e -> x ^ 2 / (e + m) <= x ^ 2 / (e + l)).
  { intros x e He. unfold Rdiv. apply Rmult_le_compat_l; [apply pow2_ge_0|]. apply Rinv_le_contravar; lra. }
  unfold phi. generalize (K (vx p) _ A) (K (vy p) _ B) (K (vz p) _ C). lra.
Qed.

Lemma phi_0_pos l p : 0 <= l -> 0 < phi l p -> 0 < vx p ^ 2 + vy p ^ 2 + vz p ^ 2.
Proof.
  intros Hl H. assert (HX := sq_nonneg (vx p)). assert (HY := sq_nonneg (vy p)). assert (HZ := sq_nonneg (vz p)).
  destruct (Rle_lt_or_eq_dec 0 (vx p ^ 2 + vy p ^ 2 + vz p ^ 2) ltac:(lra)) as [K|K]; [exact K|].
  assert (E1 : vx p ^ 2 = 0) by lra. assert (E2 : vy p ^ 2 = 0) by lra. assert (E3 : vz p ^ 2 = 0) by lra.
  unfold phi in H. rewrite E1, E2, E3 in H. unfold Rdiv in H. rewrite !Rmult_0_l in H. lra.
Qed.

Lemma phi_strict l m p : 0 <= l -> l < m -> 0 < phi l p -> phi m p < phi l p.
Proof.
  intros Hl Hm H. assert (A := sq_pos a Pa). assert (B := sq_pos b Pb). assert (C := sq_pos c Pc).
  assert (P := phi_0_pos l p Hl H).
  assert (D := conf_diff (a ^ 2) (b ^ 2) (c ^ 2) (vx p ^ 2) (vy p ^ 2) (vz p ^ 2) l m ltac:(lra) ltac:(lra) ltac:(lra) ltac:(lra) ltac:(lra) ltac:(lra)).
  assert (S := conf_slope_pos (a ^ 2) (b ^ 2) (c ^ 2) (vx p ^ 2) (vy p ^ 2) (vz p ^ 2) l m ltac:(lra) ltac:(lra) ltac:(lra) ltac:(lra) ltac:(lra) ltac:(lra)
    (sq_nonneg _) (sq_nonneg _) (sq_nonneg _) P).
  unfold phi. match type of S with 0 < ?s => set (S0 := s) in * end. clearbody S0. assert (0 < (m - l) * S0) by (apply Rmult_lt_0_compat; lra). lra.
Qed.

Lemma lam_le p m : 0 <= m -> phi m p < 1 -> lam p <= m.
Proof.
  intros Hm H. destruct (Rle_or_lt 1 (level a b c p)) as [L|L]; [|rewrite lam_in by exact L; exact Hm].
  destruct (lam_out p L) as (_ & L1 & L2). destruct (Rle_or_lt (lam p) m) as [K|K]; [exact K|].
  assert (X := phi_antitone m (lam p) p Hm (Rlt_le _ _ K)). lra.
Qed.
Lemma lam_ge p m : 0 <= m -> 1 < phi m p -> m <= lam p.
Proof.
  intros Hm H. assert (L : 1 <= level a b c p) by (rewrite level_phi; generalize (phi_antitone 0 m p (Rle_refl 0) Hm); lra).
  destruct (lam_out p L) as (_ & L1 & L2). destruct (Rle_or_lt m (lam p)) as [K|K]; [exact K|].
  assert (X := phi_antitone (lam p) m p L1 (Rlt_le _ _ K)). lra.
Qed.

Lemma lam_cont p : filterlim lam (near p) (locally (lam p)).
Proof.
  assert (FF := near_filter p). apply lim_intro; [apply near_filter|]. intros eps He. assert (N := lam_nonneg p).
  assert (U : phi (lam p + eps / 2) p < 1).
  { destruct (Rle_or_lt 1 (level a b c p)) as [L|L].
    - destruct (lam_out p L) as (_ & L1 & L2). rewrite <- L2. apply phi_strict; lra.
    - rewrite lam_in by exact L. rewrite level_phi in L. generalize (phi_antitone 0 (0 + eps / 2) p). lra. }
  assert (HU := lim_eventually_lt (near p) _ _ _ (phi_cont (lam p + eps / 2) p ltac:(lra)) U).
  assert (HL : near p (fun q => lam p - eps < lam q)).
  { destruct (Rlt_or_le (lam p - eps) 0) as [S|S].
    - exists 1. split; [lra|]. intros q _. generalize (lam_nonneg q). lra.
    - assert (L : 1 <= level a b c p). { destruct (Rle_or_lt 1 (level a b c p)) as [L|L]; [exact L|]. rewrite lam_in in S by exact L. lra. }
      destruct (lam_out p L) as (_ & L1 & L2).
      assert (Lo : 1 < phi (lam p - eps / 2) p).
      { rewrite <- L2. apply phi_strict; try lra. apply (Rlt_le_trans _ 1); [lra|]. rewrite <- L2. apply phi_antitone; lra. }
      generalize (lim_eventually_gt (near p) _ _ _ (phi_cont (lam p - eps / 2) p ltac:(lra)) Lo). apply filter_imp. intros q Hq.
      apply lam_ge in Hq; lra. }
  generalize (filter_and _ _ HU HL). apply filter_imp. intros q [Q1 Q2]. apply lam_le in Q1; lra.
Qed.

Lemma external_open p : 1 < level a b c p -> near p (fun q => 1 < level a b c q).
Proof.
  intros H. rewrite level_phi in H. generalize (lim_eventually_gt (near p) _ _ _ (phi_cont 0 p (Rle_refl 0)) H). apply filter_imp.
  intros q Hq. rewrite level_phi. exact Hq.
Qed.
Lemma internal_open p : level a b c p < 1 -> near p (fun q => level a b c q < 1).
Proof.
  intros H. rewrite level_phi in H. generalize (lim_eventually_lt (near p) _ _ _ (phi_cont 0 p (Rle_refl 0)) H). apply filter_imp.
  intros q Hq. rewrite level_phi. exact Hq.
Qed.

(** The gradient of lambda at external points. *)
Lemma lam_gradient p : 1 < level a b c p -> has_gradient lam p (spatial_deriv_lambda p a b c (lam p)).
Proof.
  intros L u. set (l := lam p). set (h := fun t => lam (vadd p (vscale t u))).
  assert (A := sq_pos a Pa). assert (B := sq_pos b Pb). assert (C := sq_pos c Pc).
  destruct (lam_out p (Rlt_le _ _ L)) as (_ & Hl & Pl). fold l in Hl, Pl.
  assert (PS := phi_0_pos l p Hl ltac:(lra)).
  set (D := fun m => vx p ^ 2 / ((a ^ 2 + m) * (a ^ 2 + l)) + vy p ^ 2 / ((b ^ 2 + m) * (b ^ 2 + l)) + vz p ^ 2 / ((c ^ 2 + m) * (c ^ 2 + l))).
  set (N := fun t m => (2 * vx p * vx u + t * vx u ^ 2) / (a ^ 2 + m) + (2 * vy p * vy u + t * vy u ^ 2) / (b ^ 2 + m) + (2 * vz p * vz u + t * vz u ^ 2) / (c ^ 2 + m)).
  assert (DP : forall m, 0 <= m -> 0 < D m) by (intros m Hm; unfold D; apply conf_slope_pos; try lra; apply sq_nonneg).
  assert (h0 : h 0 = l) by (unfold h; rewrite line_0; reflexivity).
  assert (Hh : filterlim h (locally 0) (locally l)).
  { apply (filterlim_comp _ _ _ _ lam (locally 0) (near p) (locally l)); [apply line_near | apply lam_cont]. }
  apply (slope_derive h (fun t => N t (h t) / D (h t))).
  - assert (LN := line_near p u _ (external_open p L)). unfold filtermap in LN. revert LN. apply filter_imp. intros t Ht. cbv beta in Ht.
    destruct (lam_out _ (Rlt_le _ _ Ht)) as (_ & Hm & Pm). fold (h t) in Hm, Pm. rewrite h0.
    assert (E := conf_diff (a ^ 2) (b ^ 2) (c ^ 2) (vx p ^ 2) (vy p ^ 2) (vz p ^ 2) l (h t) ltac:(lra) ltac:(lra) ltac:(lra) ltac:(lra) ltac:(lra) ltac:(lra)).
    unfold phi in Pl, Pm. unfold vadd, vscale in Pm; cbn [vx vy vz] in Pm.
    assert (Dm := DP (h t) Hm). set (m := h t) in *. clearbody m.
    assert (E2 : (m - l) * D m = t * N t m).
    { transitivity (1 - (vx p ^ 2 / (a ^ 2 + m) + vy p ^ 2 / (b ^ 2 + m) + vz p ^ 2 / (c ^ 2 + m))).
      - rewrite <- Pl. rewrite E. unfold D. f_equal. f_equal; [f_equal|]; f_equal; ring.
      - rewrite <- Pm. unfold N. field. repeat split; lra. }
    replace (m - l) with ((m - l) * D m / D m) by (field; lra). rewrite E2. field. lra.
  - replace (dot (spatial_deriv_lambda p a b c l) u) with (N 0 l / D l).
    + assert (Dl := DP l Hl). assert (FF : Filter (locally (0 : R))) by apply locally_filter.
      assert (T0 : filterlim (fun t : R => t) (locally (0:R)) (locally 0)) by apply filterlim_id.
      apply lim_div; [assumption | lra | |].
      * assert (K : forall x v e, 0 < e -> filterlim (fun t : R => (2 * x * v + t * v ^ 2) / (e + h t)) (locally 0) (locally ((2 * x * v + 0 * v ^ 2) / (e + l)))).
        { intros x v e He. apply lim_div; [assumption | lra | |].
          - apply lim_plus; [assumption | apply lim_const, _ | apply lim_mult; [assumption | exact T0 | apply lim_const, _]].
          - apply lim_plus; [assumption | apply lim_const, _ | exact Hh]. }
        unfold N. apply lim_plus; [assumption | apply lim_plus; [assumption | |] |]; apply K; assumption.
      * assert (K : forall x e, 0 < e -> filterlim (fun t : R => x ^ 2 / ((e + h t) * (e + l))) (locally 0) (locally (x ^ 2 / ((e + l) * (e + l))))).
        { intros x e He. apply lim_div; [assumption | apply Rmult_integral_contrapositive_currified; lra | apply lim_const, _ |].
          apply lim_mult; [assumption | apply lim_plus; [assumption | apply lim_const, _ | exact Hh] | apply lim_const, _]. }
        unfold D. apply lim_plus; [assumption | apply lim_plus; [assumption | |] |]; apply K; assumption.
    + unfold spatial_deriv_lambda, dot; cbn [vx vy vz].
      replace ((vx p / (a ^ 2 + l)) ^ 2 + (vy p / (b ^ 2 + l)) ^ 2 + (vz p / (c ^ 2 + l)) ^ 2) with (D l) by (unfold D; field; repeat split; lra).
      unfold N. assert (Dl := DP l Hl). set (d := D l) in *. clearbody d. field. repeat split; lra.
Qed.

(** The sum of squares of x/(a²+l), ... in the gradient of lambda is positive. *)
Lemma denom_pos p l : 0 <= l -> 0 < phi l p ->
  0 < (vx p / (a ^ 2 + l)) ^ 2 + (vy p / (b ^ 2 + l)) ^ 2 + (vz p / (c ^ 2 + l)) ^ 2.
Proof.
  intros Hl H. assert (A := sq_pos a Pa). assert (B := sq_pos b Pb). assert (C := sq_pos c Pc). assert (P := phi_0_pos l p Hl H).
  assert (S := conf_slope_pos (a ^ 2) (b ^ 2) (c ^ 2) (vx p ^ 2) (vy p ^ 2) (vz p ^ 2) l l ltac:(lra) ltac:(lra) ltac:(lra) ltac:(lra) ltac:(lra) ltac:(lra)
    (sq_nonneg _) (sq_nonneg _) (sq_nonneg _) P).
  eapply Rlt_le_trans; [exact S|]. right. field. repeat split; lra.
Qed.

(** ** A component x A(lambda) *)
Section Component.
Variables (A dA : R -> R).
Hypothesis HA : forall l, 0 <= l -> is_derive A l (dA l).

Lemma component_cont (x : vec3 -> R) p : filterlim x (near p) (locally (x p)) -> filterlim (fun q => x q * A (lam q)) (near p) (locally (x p * A (lam p))).
Proof.
  intros Hx. assert (FF := near_filter p). apply lim_mult; [apply near_filter | exact Hx|]. apply (lim_comp (near p) lam A); [apply lam_cont|].
  apply (ex_derive_continuous (K := R_AbsRing) (V := R_NormedModule)). exists (dA (lam p)). apply HA, lam_nonneg.
Qed.

Lemma component_out (x : vec3 -> R) p : (forall q r, x (vadd q r) = x q + x r) -> (forall k q, x (vscale k q) = k * x q) -> 1 < level a b c p ->
  forall u, is_derive (fun t => x (vadd p (vscale t u)) * A (lam (vadd p (vscale t u)))) 0
    (x u * A (lam p) + x p * (dA (lam p) * dot (spatial_deriv_lambda p a b c (lam p)) u)).
Proof.
  intros X1 X2 L u. assert (G := lam_gradient p L u).
  assert (DX : is_derive (fun t => x (vadd p (vscale t u))) 0 (x u)).
  { apply (is_derive_ext (fun t => x p + t * x u)); [intros t; rewrite X1, X2; reflexivity|]. auto_derive; [exact I | ring]. }
  assert (DA : is_derive (fun t => A (lam (vadd p (vscale t u)))) 0 (dA (lam p) * dot (spatial_deriv_lambda p a b c (lam p)) u)).
  { rewrite Rmult_comm. apply (is_derive_comp A (fun t => lam (vadd p (vscale t u))) 0); [|exact G]. cbv beta. rewrite line_0. apply HA, lam_nonneg. }
  assert (M := is_derive_mult _ _ 0 _ _ DX DA Rmult_comm). cbv beta in M. rewrite !line_0 in M.
  match goal with |- is_derive _ _ ?v => match type of M with _ ?w => replace v with w; [exact M|] end end.
  unfold plus, mult; cbn. ring.
Qed.

Lemma component_in (x : vec3 -> R) p : (forall q r, x (vadd q r) = x q + x r) -> (forall k q, x (vscale k q) = k * x q) -> level a b c p < 1 ->
  forall u, is_derive (fun t => x (vadd p (vscale t u)) * A (lam (vadd p (vscale t u)))) 0 (x u * A 0).
Proof.
  intros X1 X2 L u. apply (is_derive_ext_loc (fun t => (x p + t * x u) * A 0)).
  - assert (LN := line_near p u _ (internal_open p L)). unfold filtermap in LN. revert LN. apply filter_imp. intros t Ht. cbv beta in Ht. rewrite lam_in by exact Ht. rewrite X1, X2. reflexivity.
  - auto_derive; [exact I | ring].
Qed.
End Component.
End Confocal.
