(** Claim C106: the gravity of tesseroids whose density depends on the radius differs from Newton's integral
    over the solids by no more than a stated bound, and converges to it when the tesseroids are cut finer. *)
From Coq Require Import Permutation Psatz.
From Coquelicot Require Import Coquelicot.
From Verif Require Import Base BaseFacts NumPy NumPyFacts DistanceModel DistanceSpec DistanceProofs PointGravityModel PointGravitySpec PointGravityProofs
  TesseroidModel TesseroidSpec TesseroidCheckProofs TesseroidAdaptProofs TesseroidProofs TesseroidFieldProofs
  TesseroidDensityModel TesseroidDensitySpec TesseroidDensityProofs TesseroidDensityFieldProofs TesseroidDensityProps TesseroidFitSpec TesseroidFitProofs TesseroidFitProps
  MassBoundsProofs MassBoundsProps TesseroidLimitSpec TesseroidLimitIntProofs TesseroidLimitProofs TesseroidLimitProps TesseroidVariableLimitSpec TesseroidVariableLimitProofs.
Local Open Scope string_scope. Local Open Scope list_scope. Local Open Scope R_scope.
Local Opaque MAX_DISCRETIZATIONS STACK_SIZE.

(** What one tesseroid may contribute to the error. *)
Definition variable_error (field : string) (delta reach m s : R) (t : tess) : R :=
  volume t * (2 * (m * steepness field delta + s * strength field delta) * reach + half_lat t ^ 4 / 150 * (m * strength field delta)).

Section One.
Variables (field : string) (p : point) (rho : R -> R) (t : tess) (delta m s : R).
Hypothesis Hfield : field = "potential" \/ field = "g_z".
Hypotheses (B : box t) (L : latitudes t) (Hd : 0 < delta) (C : clear_of delta t p) (T : tame rho t m s).
Let f := fun q => rho (thd3 q) * newton_field "spherical" field p (q, 1).
Let K := m * strength field delta.
Let S := m * steepness field delta + s * strength field delta.
Lemma dens_K0 : 0 <= K. Proof. destruct T as (M0 & _). pose proof (strength_nonneg field delta Hd). now apply Rmult_le_pos. Qed.
Lemma dens_S0 : 0 <= S. Proof. destruct T as (M0 & S0 & _). pose proof (strength_nonneg field delta Hd). pose proof (steepness_nonneg field delta Hd). apply Rplus_le_le_0_compat; now apply Rmult_le_pos. Qed.
Lemma rad_in q : in_closed t q -> bottom t <= thd3 q <= top t.
Proof. destruct q as [[a b] c]. cbn. lra. Qed.
Lemma dens_bound q : in_closed t q -> Rabs (f q) <= K.
Proof. intros H. unfold f, K. rewrite Rabs_mult. destruct T as (_ & _ & T1 & _). apply Rmult_le_compat; try apply Rabs_pos; [apply T1, rad_in, H|]. now apply (fld_bound field p t delta). Qed.
Lemma dens_lip q q' : in_closed t q -> in_closed t q' -> Rabs (f q - f q') <= S * eucl (sph_position q) (sph_position q').
Proof.
  intros H H'. destruct T as (M0 & S0 & T1 & T2). unfold f. fold (fld field p q). fold (fld field p q').
  replace (rho (thd3 q) * fld field p q - rho (thd3 q') * fld field p q') with (rho (thd3 q) * (fld field p q - fld field p q') + (rho (thd3 q) - rho (thd3 q')) * fld field p q') by ring.
  eapply Rle_trans; [apply Rabs_triang|]. rewrite !Rabs_mult.
  pose proof (fld_bound field p t delta Hfield Hd C q' H') as F1. pose proof (fld_lip field p t delta Hfield Hd C q q' H H') as F2.
  pose proof (T1 _ (rad_in q H)) as A1. pose proof (T2 _ _ (rad_in q H) (rad_in q' H')) as A2.
  assert (E : Rabs (thd3 q - thd3 q') <= eucl (sph_position q) (sph_position q')).
  { destruct q as [[a b] c], q' as [[a' b'] c']. unfold latitudes in L. cbn in H, H' |- *. apply eucl_radius; lra. }
  assert (A3 : Rabs (rho (thd3 q) - rho (thd3 q')) <= s * eucl (sph_position q) (sph_position q')) by (eapply Rle_trans; [exact A2|apply Rmult_le_compat_l; assumption]).
  apply Rle_trans with (m * (steepness field delta * eucl (sph_position q) (sph_position q')) + s * eucl (sph_position q) (sph_position q') * strength field delta).
  - apply Rplus_le_compat; apply Rmult_le_compat; try apply Rabs_pos; assumption.
  - unfold S. right. ring.
Qed.

Variables (minimize : (R -> R) -> R -> R -> R * R) (fuel : nat) (radial : bool) (reach : R) (out : list tess).
Hypothesis HB : bounded_search minimize.
Hypothesis O : density_based_discretization_1 minimize fuel t rho = Ok out.
Lemma one_near : Forall (cuttable field radial p) out -> resolved p (distance_size_ratio field) radial t reach ->
  Rabs (var_value field radial p rho out - newton_solid_of field p rho t) <= variable_error field delta reach m s t.
Proof.
  intros Cu Hr. destruct (layers_facts minimize HB fuel t rho out B O) as [Pt Sum].
  destruct (integrand_lip f t K S B L dens_K0 dens_S0 dens_bound dens_lip) as (Lp & HLp & HF).
  pose proof (Sum _ _ HLp HF) as E. change (sum_over out (solid_integral f) = solid_integral f t) in E. unfold newton_solid_of. fold f. rewrite <- E.
  destruct (disc_1_tiles minimize HB fuel t rho out B O) as [Ti _]. unfold variable_error. rewrite <- (tiles_volume _ _ Ti).
  fold K S. rewrite (Rmult_comm (sum_over out volume)), <- sum_over_scal. apply sum_abs_le. intros x Hx. rewrite Forall_forall in Pt, Cu. specialize (Pt x Hx). specialize (Cu x Hx). pose proof Pt as (Bx & Px).
  assert (Hrx : resolved p (distance_size_ratio field) radial x reach).
  { intros y q (By & Py) Sy Hq. apply (Hr y q); [split; [assumption|intros; apply Px, Py; assumption]|assumption|assumption]. }
  pose proof (quad_near field radial p f x K S reach Bx (latitudes_part x t L Pt) dens_K0 dens_S0 (fun q Hq => dens_bound q (Px q Hq)) (fun q q' Hq Hq' => dens_lip q q' (Px q Hq) (Px q' Hq')) Cu Hrx) as N.
  eapply Rle_trans; [exact N|]. rewrite (Rmult_comm (volume x)). apply Rmult_le_compat_r; [apply volume_nonneg; [assumption|now apply (latitudes_part x t)]|].
  pose proof (pow_incr (half_lat x) (half_lat t) 4 (half_lat_part x t Pt)). apply Rplus_le_compat_l. apply Rmult_le_compat_r; [apply dens_K0|]. lra.
Qed.
End One.

Theorem C106_error_bound minimize fuel sh ps ts rho field ratio radial a : bounded_search minimize -> prod_shape sh = length ps -> ratio_of_field field ratio ->
  tesseroid_gravity_variable minimize fuel (coords_of sh ps) ts rho field radial false = Ok a ->
  exists ts', Forall2 moved ts ts' /\ forall k p (delta reach m s : tess -> R), nth_error ps k = Some p ->
    (forall t, In t ts' -> 0 < delta t /\ clear_of (delta t) t p /\ resolved p ratio radial t (reach t) /\ tame rho t (m t) (s t)) ->
    Rabs (nth k (data a) 0 - sum_over ts' (newton_solid_of field p rho))
    <= sum_over ts' (fun t => volume t * (2 * (m t * steepness field (delta t) + s t * strength field (delta t)) * reach t + half_lat t ^ 4 / 150 * (m t * strength field (delta t)))).
Proof.
  intros HB Hsh Hf E. destruct (ratio_value field ratio Hf) as [ER If]. assert (Hf' : field = "potential" \/ field = "g_z") by (destruct Hf as [[-> _]|[-> _]]; auto).
  apply variable_gravity_value in E; auto. destruct E as (ts' & ls & C & D & _ & Cu & ->). destruct (accepted_checked _ _ _ C) as (M & Ln & A).
  exists ts'. split; [exact M|]. intros k p delta reach m s Hk H. assert (Ip : In p ps) by (eapply nth_error_In; exact Hk). cbn [data]. rewrite (nth_map_R _ _ _ 0), Hk, Rmult_0_l, Rplus_0_r.
  specialize (Cu p Ip). clear -ER HB Hf' D Cu A H. induction D as [|t l ts' ls D1 D IH]; [unfold var_value, sum_over; cbn; rewrite Rminus_0_r, Rabs_R0; lra|].
  cbn [concat] in Cu |- *. apply Forall_app in Cu. destruct Cu as [Cu1 Cu2]. rewrite !sum_over_cons. unfold var_value. rewrite sum_over_app. fold (var_value field radial p rho l). fold (var_value field radial p rho (concat ls)).
  match goal with |- Rabs (?a + ?b - (?c + ?d)) <= _ => replace (a + b - (c + d)) with ((a - c) + (b - d)) by ring end. eapply Rle_trans; [apply Rabs_triang|]. apply Rplus_le_compat.
  - destruct (H t (or_introl eq_refl)) as (H1 & H2 & H3 & H4). destruct (A t (or_introl eq_refl)) as (A1 & A2 & A3 & A4).
    eapply one_near; eauto; [unfold latitudes; auto|now rewrite ER].
  - apply IH; [assumption|intros; apply A; now right|intros; apply H; now right].
Qed.
Print Assumptions C106_error_bound.

(** Newton's integral over a tesseroid is the sum of those over its cells. *)
Lemma cells_solid_of n field p rho t delta m s : field = "potential" \/ field = "g_z" -> (0 < n)%nat -> box t -> latitudes t -> 0 < delta -> clear_of delta t p -> tame rho t m s ->
  sum_over (cells n t) (newton_solid_of field p rho) = newton_solid_of field p rho t.
Proof.
  intros Hf Hn B L Hd C T.
  destruct (integrand_lip (fun q => rho (thd3 q) * newton_field "spherical" field p (q, 1)) t _ _ B L (dens_K0 field rho t delta m s Hd T) (dens_S0 field rho t delta m s Hd T) (dens_bound field p rho t delta m s Hf Hd C T) (dens_lip field p rho t delta m s Hf L Hd C T)) as (Lp & HLp & HF).
  rewrite cells_pieces. exact (box_pieces _ t Lp n n n B HLp HF Hn Hn Hn).
Qed.
Lemma small_cuttable field ratio radial delta p x : ratio_of_field field ratio -> 0 < delta -> proper x -> clear_of delta x p -> ratio * (2 * spread x) <= delta -> cuttable field radial p x.
Proof.
  intros Hf Hd Px C Z. destruct (ratio_value field ratio Hf) as [E If]. assert (HR : 0 < ratio) by (destruct Hf as [[_ ->]|[_ ->]]; lra). unfold cuttable. rewrite E.
  assert (Hh : halvings ratio delta radial x 0 0 0).
  { pose proof Px as Px'. unfold proper in Px'. unfold spread in Z. pose proof (radians_le 0 (east x - west x) ltac:(lra)) as Q1. pose proof (radians_le 0 (north x - south x) ltac:(lra)) as Q2. replace (radians 0) with 0 in * by (unfold radians; field).
    assert (0 <= top x * radians (east x - west x)) by (apply Rmult_le_pos; lra). assert (0 <= top x * radians (north x - south x)) by (apply Rmult_le_pos; lra).
    unfold halvings. cbn [pow]. rewrite Rmult_1_l. repeat split; [| |intros _]; (eapply Rle_trans; [apply Rmult_le_compat_l; [lra|]|exact Z]); lra. }
  destruct Hh as (H1 & H2 & H3). destruct (rows_16 (0 + 0 + 0)) as [R1 R2]; [lia|].
  destruct (discretise_fits p ratio radial delta (Rlt_le _ _ HR) STACK_SIZE MAX_DISCRETIZATIONS x 0 0 0) as (r & O & _); auto; [|now exists r].
  repeat split; try assumption; apply Px.
Qed.
Lemma layers_proper minimize fuel t rho out : bounded_search minimize -> proper t -> density_based_discretization_1 minimize fuel t rho = Ok out -> Forall proper out.
Proof.
  intros HB P E. destruct (disc_1 minimize HB fuel t rho out ltac:(unfold proper in P; lra) E) as [(l & Pl & Q) _].
  eapply Permutation_Forall; [apply Permutation_sym; exact Q|]. destruct (pile_bounds _ _ _ Pl) as [_ PB]. apply Forall_forall. intros x Hx. apply in_map_iff in Hx. destruct Hx as ((b & h) & <- & I). rewrite Forall_forall in PB. specialize (PB _ I). cbn [fst snd] in PB.
  unfold proper, layer_of in *. cbn. lra.
Qed.
Lemma enough_fuel minimize rho ts : bounded_search minimize -> (forall t, In t ts -> bottom t < top t /\ forall r, bottom t <= r <= top t -> continuity_pt rho r) ->
  exists F ls, forall fuel, (F <= fuel)%nat -> Forall2 (fun t l => density_based_discretization_1 minimize fuel t rho = Ok l) ts ls.
Proof.
  intros HB. induction ts as [|t ts IH]; intros H; [exists O, []; intros; constructor|].
  destruct IH as (F & ls & G); [intros; apply H; now right|]. destruct (H t (or_introl eq_refl)) as [Hb Hc]. destruct (C16_discretisation_ends minimize t rho HB Hb Hc) as (f1 & out & E).
  exists (Nat.max f1 F), (out :: ls). intros fuel Hf. constructor; [apply E; lia|apply G; lia].
Qed.

Theorem C106_converges minimize sh ps ts rho field ratio radial delta m s eps : bounded_search minimize ->
  prod_shape sh = length ps -> ratio_of_field field ratio -> ts <> [] ->
  (forall t, In t ts -> proper t /\ bounds_ok t /\ tame rho t m s /\ forall r, bottom t <= r <= top t -> continuity_pt rho r) ->
  0 < delta -> (forall p t, In p ps -> In t ts -> clear_of delta t p) -> 0 < eps ->
  exists N, forall n, (N <= n)%nat -> exists F, forall fuel, (F <= fuel)%nat ->
    exists a, tesseroid_gravity_variable minimize fuel (coords_of sh ps) (cut_tesseroids n ts) rho field radial false = Ok a /\ shape a = sh /\
      forall k p, nth_error ps k = Some p -> Rabs (nth k (data a) 0 - sum_over ts (newton_solid_of field p rho)) <= eps.
Proof.
  intros HB Hsh Hf Hne HP Hd HC He. assert (Hf' : field = "potential" \/ field = "g_z") by (destruct Hf as [[-> _]|[-> _]]; auto).
  destruct (ratio_value field ratio Hf) as [RV If].
  assert (HR : 0 < ratio) by (destruct Hf as [[_ ->]|[_ ->]]; lra).
  set (S := m * steepness field delta + s * strength field delta). set (K := m * strength field delta).
  assert (MS : 0 <= m /\ 0 <= s). { destruct ts as [|t0 l]; [congruence|]. destruct (HP t0 (or_introl eq_refl)) as (_ & _ & (M0 & S0 & _) & _). auto. } destruct MS as [M0 S0'].
  pose proof (steepness_nonneg field delta Hd) as St0. pose proof (strength_nonneg field delta Hd) as Sg0.
  assert (S0 : 0 <= S) by (apply Rplus_le_le_0_compat; now apply Rmult_le_pos). assert (K0 : 0 <= K) by now apply Rmult_le_pos.
  set (size := fun t : tess => ratio * (2 * spread t) / delta).
  set (err := fun t : tess => volume t * (2 * S * spread t + half_lat t ^ 4 / 150 * K)).
  assert (PF : forall t, In t ts -> box t /\ latitudes t /\ 0 <= spread t /\ 0 <= volume t /\ 0 <= half_lat t).
  { intros t Ht. destruct (HP t Ht) as [P _]. destruct (proper_facts t P) as [B L]. split; [assumption|]. split; [assumption|]. split; [|split; [now apply volume_nonneg|apply (half_lat_part t t); split; auto]].
    eapply Rle_trans; [apply eucl_nonneg|apply (centre_near t (centre t) B L), centre_in, B]. }
  assert (SZ : forall t, In t ts -> 0 <= size t).
  { intros t Ht. destruct (PF t Ht) as (_ & _ & Q & _). unfold size, Rdiv. apply Rmult_le_pos; [apply Rmult_le_pos; lra|]. left. now apply Rinv_0_lt_compat. }
  assert (ER : forall t, In t ts -> 0 <= err t).
  { intros t H. destruct (PF t H) as (_ & _ & Q & V & Hh). unfold err. apply Rmult_le_pos; [assumption|].
    assert (0 <= 2 * S * spread t) by (apply Rmult_le_pos; lra). pose proof (pow_le _ 4 Hh). assert (0 <= half_lat t ^ 4 / 150 * K) by (apply Rmult_le_pos; lra). lra. }
  pose proof (sum_over_nonneg ts size SZ) as TS. pose proof (sum_over_nonneg ts err ER) as TE.
  destruct (large_nat (1 + sum_over ts size + sum_over ts err / eps)) as [N HN]. exists N. intros n Hn.
  assert (TEe : 0 <= sum_over ts err / eps) by (apply Rmult_le_pos; [assumption|left; now apply Rinv_0_lt_compat]).
  assert (Nn : 1 + sum_over ts size + sum_over ts err / eps <= INR n) by (apply le_INR in Hn; lra).
  assert (n0 : (0 < n)%nat) by (apply INR_lt; cbn; lra). assert (I : 0 < INR n) by now apply lt_0_INR.
  set (ts2 := cut_tesseroids n ts).
  assert (Cell : forall x, In x ts2 -> exists t, In t ts /\ In x (cells n t)) by (intros x Hx; apply in_flat_map in Hx; exact Hx).
  assert (CP : forall x, In x ts2 -> proper x /\ bounds_ok x /\ width_ok x) by (intros x Hx; destruct (Cell x Hx) as (t & Ht & Hc); destruct (HP t Ht) as (P & Bo & _); apply (cell_proper n t x n0 P Bo Hc)).
  assert (Mv : Forall2 moved ts2 ts2).
  { assert (Q : forall x, In x ts2 -> moved x x). { intros x Hx. destruct (CP x Hx) as (Px & _). left. unfold proper in Px. split; [lra|reflexivity]. }
    clear -Q. induction ts2 as [|x l IH]; constructor; [apply Q; now left|apply IH; intros; apply Q; now right]. }
  assert (Cl : forall p x, In p ps -> In x ts2 -> clear_of delta x p).
  { intros p x Hp Hx q Hq. destruct (Cell x Hx) as (t & Ht & Hc). apply (HC p t Hp Ht). destruct (PF t Ht) as (B & _). apply (cells_part n t x B Hc). exact Hq. }
  assert (InR : forall x r, In x ts2 -> bottom x <= r <= top x -> exists t, In t ts /\ In x (cells n t) /\ bottom t <= r <= top t).
  { intros x r Hx Hr. destruct (Cell x Hx) as (t & Ht & Hc). exists t. split; [assumption|]. split; [assumption|]. destruct (PF t Ht) as (B & _). destruct (cells_part n t x B Hc) as ((B1 & B2 & B3) & Px). specialize (Px (west x, south x, r)). cbn [in_closed] in Px. specialize (Px ltac:(lra)). lra. }
  assert (Tm : forall x, In x ts2 -> tame rho x m s).
  { intros x Hx. destruct (Cell x Hx) as (t & Ht & Hc). destruct (HP t Ht) as (_ & _ & (_ & _ & T1 & T2) & _). destruct (PF t Ht) as (B & _). destruct (cells_part n t x B Hc) as ((B1 & B2 & B3) & Px).
    assert (Q : forall r, bottom x <= r <= top x -> bottom t <= r <= top t) by (intros r Hr; specialize (Px (west x, south x, r)); cbn [in_closed] in Px; specialize (Px ltac:(lra)); lra).
    split; [assumption|]. split; [assumption|]. split; intros; [apply T1; auto|apply T2; auto]. }
  destruct (enough_fuel minimize rho ts2 HB) as (F & ls & G).
  { intros x Hx. destruct (CP x Hx) as (Px & _). split; [unfold proper in Px; lra|]. intros r Hr. destruct (InR x r Hx Hr) as (t & Ht & _ & Q). destruct (HP t Ht) as (_ & _ & _ & T). now apply T. }
  exists F. intros fuel HF. specialize (G fuel HF).
  assert (Lay : forall y, In y (concat ls) -> exists x, In x ts2 /\ part_of y x /\ proper y).
  { intros y Hy. clear -G Hy CP HB. induction G as [|x l xs ls G1 G IH]; [destruct Hy|]. cbn [concat] in Hy. apply in_app_iff in Hy. destruct Hy as [Hy|Hy].
    - exists x. split; [now left|]. destruct (CP x (or_introl eq_refl)) as (Px & _). destruct (layers_facts minimize HB fuel x rho l (proj1 (proper_facts x Px)) G1) as [Pt _]. pose proof (layers_proper minimize fuel x rho l HB Px G1) as PP. rewrite Forall_forall in Pt, PP. auto.
    - destruct IH as (x' & H1 & H2); [intros; apply CP; now right|assumption|]. exists x'. split; [now right|assumption]. }
  assert (Cut : forall p, In p ps -> Forall (cuttable field radial p) (concat ls)).
  { intros p Hp. apply Forall_forall. intros y Hy. destruct (Lay y Hy) as (x & Hx & Py & Pr). destruct (Cell x Hx) as (t & Ht & Hc). destruct (PF t Ht) as (B & L & Q & _). destruct (cells_spread n t x n0 B L Hc) as [_ W]. destruct (CP x Hx) as (Px & _).
    apply (small_cuttable field ratio radial delta); auto; [intros q Hq; apply (Cl p x Hp Hx); apply Py; exact Hq|].
    pose proof (spread_part y x ltac:(unfold proper in Px; lra) Py) as W2.
    pose proof (sum_upper ts size t SZ Ht) as U. assert (U2 : size t <= INR n) by lra. unfold size in U2.
    apply Rmult_le_compat_r with (r := delta) in U2; [|lra]. unfold Rdiv in U2. rewrite Rmult_assoc, Rinv_l, Rmult_1_r in U2 by lra.
    apply Rle_trans with (ratio * (2 * (spread t / INR n))); [apply Rmult_le_compat_l; lra|]. apply Rmult_le_reg_r with (INR n); [assumption|].
    replace (ratio * (2 * (spread t / INR n)) * INR n) with (ratio * (2 * spread t)) by (field; lra). lra. }
  assert (Ck : checks false ps ts2 = Ok ts2).
  { apply checks_ok. split; [apply Forall_forall; intros; now apply CP|]. split; [exact Mv|]. split; [apply Forall_forall; intros; now apply CP|]. intros p x Hp Hx. eapply clear_not_inside; [exact Hd|now apply Cl]. }
  assert (Ne : concat ls = [] -> ps = []).
  { intros Z. exfalso. destruct ts as [|t0 tl]; [congruence|]. assert (H0 : In (cell n t0 0 0 0) ts2).
    { unfold ts2, cut_tesseroids. cbn [flat_map]. apply in_app_iff. left. unfold cells. assert (Z0 : In O (range 0 n)) by (apply range_in; lia). apply in_flat_map. exists O. split; [assumption|]. apply in_flat_map. exists O. split; [assumption|]. apply in_map_iff. exists O. auto. }
    destruct ts2 as [|x xs]; [destruct H0|]. inversion G as [|? l ? ls' G1 G2]; subst. cbn [concat] in Z. apply app_eq_nil in Z. destruct Z as [-> _]. destruct (CP x (or_introl eq_refl)) as (Px & _).
    destruct (disc_1 minimize HB fuel x rho [] ltac:(unfold proper in Px; lra) G1) as [(lp & Pl & Q) _]. apply Permutation_nil in Q. destruct Pl; discriminate. }
  set (a := Arr sh (map (fun p => var_value field radial p rho (concat ls)) ps)).
  assert (E : tesseroid_gravity_variable minimize fuel (coords_of sh ps) ts2 rho field radial false = Ok a) by (apply variable_gravity_value; auto; exists ts2, ls; auto).
  exists a. split; [exact E|]. split; [reflexivity|]. intros k p Hk. assert (Ip : In p ps) by (eapply nth_error_In; exact Hk).
  destruct (C106_error_bound minimize fuel sh ps ts2 rho field ratio radial a HB Hsh Hf E) as (ts3 & M3 & Bd).
  assert (E3 : ts3 = ts2) by exact (moved_lists _ _ _ M3 Mv).
  subst ts3. specialize (Bd k p (fun _ => delta) spread (fun _ => m) (fun _ => s) Hk). cbv beta in Bd. fold S K in Bd.
  assert (Bd' : forall t, In t ts2 -> 0 < delta /\ clear_of delta t p /\ resolved p ratio radial t (spread t) /\ tame rho t m s).
  { intros x Hx. split; [assumption|]. split; [now apply Cl|]. split; [|now apply Tm]. destruct (CP x Hx) as (Px & _). destruct (proper_facts x Px). now apply resolved_spread. }
  specialize (Bd Bd'). unfold ts2, cut_tesseroids in Bd. rewrite !sum_over_flat_map in Bd.
  assert (E1 : sum_over ts (fun t => sum_over (cells n t) (newton_solid_of field p rho)) = sum_over ts (newton_solid_of field p rho)).
  { apply sum_ext_in. intros t Ht. destruct (PF t Ht) as (B & L & _). destruct (HP t Ht) as (_ & _ & T & _). apply (cells_solid_of n field p rho t delta m s); auto. }
  rewrite E1 in Bd. eapply Rle_trans; [exact Bd|].
  apply Rle_trans with (sum_over ts (fun t => err t / INR n)).
  - apply sum_over_le. intros t Ht. destruct (PF t Ht) as (B & L & Q & V & Hh). unfold err, Rdiv. rewrite (Rmult_comm (volume t)), Rmult_assoc, (Rmult_comm (volume t)), <- Rmult_assoc.
    rewrite <- (cells_volume n t n0 B L) at 1. rewrite <- sum_over_scal.
    apply sum_over_le. intros x Hx. destruct (cells_spread n t x n0 B L Hx) as [_ W]. destruct (cells_half_lat n t x n0 B Hx) as [_ W4].
    pose proof (cells_part n t x B Hx) as Hp. pose proof (volume_nonneg x (proj1 Hp) (latitudes_part x t L Hp)) as Vx.
    rewrite (Rmult_comm (volume x)). apply Rmult_le_compat_r; [assumption|].
    assert (2 * S * spread x <= 2 * S * (spread t / INR n)) by (apply Rmult_le_compat_l; lra).
    assert (half_lat x ^ 4 * / 150 * K <= half_lat t ^ 4 / INR n * / 150 * K) by (apply Rmult_le_compat_r; [lra|apply Rmult_le_compat_r; lra]). unfold Rdiv in *. lra.
  - unfold Rdiv. rewrite (sum_over_ext _ _ (fun t => / INR n * err t)) by (intros; ring). rewrite sum_over_scal.
    apply Rmult_le_reg_l with (INR n); [assumption|]. rewrite <- Rmult_assoc, Rinv_r, Rmult_1_l by lra.
    assert (U : sum_over ts err / eps <= INR n) by lra. apply Rmult_le_compat_r with (r := eps) in U; [|lra]. unfold Rdiv in U. rewrite Rmult_assoc, Rinv_l, Rmult_1_r in U by lra. exact U.
Qed.
Print Assumptions C106_converges.

(** A block whose density decreases with the radius, under one point: the hypotheses hold. *)
Example C106_example : let t := Tess (-5) 5 (-5) 5 6000000 6300000 in let rho := fun r => 3300 - (r - 6000000) / 1000 in
  tame rho t 3300 (1 / 1000) /\
  forall field ratio, ratio_of_field field ratio -> exists N, forall n, (N <= n)%nat -> exists F, forall fuel, (F <= fuel)%nat ->
    exists a, tesseroid_gravity_variable ideal_search fuel (coords_of [] [(0, 0, 6400000)]) (cut_tesseroids n [t]) rho field true false = Ok a /\
      Rabs (nth 0 (data a) 0 - newton_solid_of field (0, 0, 6400000) rho t) <= 1 / 1000.
Proof.
  cbv zeta. destruct C105_example as (P & Bo & C & _). set (t := Tess (-5) 5 (-5) 5 6000000 6300000) in *. set (rho := fun r => 3300 - (r - 6000000) / 1000).
  assert (T : tame rho t 3300 (1 / 1000)).
  { unfold tame, rho, t. cbn. repeat split; try lra; intros.
    - apply Rabs_le. lra.
    - replace (3300 - (r - 6000000) / 1000 - (3300 - (r' - 6000000) / 1000)) with (- (1 / 1000) * (r - r')) by field. rewrite Rabs_mult, Rabs_Ropp, (Rabs_pos_eq (1 / 1000)) by lra. lra. }
  split; [exact T|]. intros field ratio Hf.
  destruct (C106_converges ideal_search [] [(0, 0, 6400000)] [t] rho field ratio true 100000 3300 (1 / 1000) (1 / 1000)) as [N HN]; auto; try lra.
  - exact ideal_ok.
  - discriminate.
  - intros x [<-|[]]. repeat split; try apply P; try apply Bo; try apply T. intros r _. unfold rho. reg.
  - intros p x [<-|[]] [<-|[]]. exact C.
  - exists N. intros n Hn. destruct (HN n Hn) as (F & HF). exists F. intros fuel Hfu. destruct (HF fuel Hfu) as (a & E & _ & Bd). exists a. split; [exact E|]. specialize (Bd O (0, 0, 6400000) eq_refl). rewrite sum_over_cons in Bd. unfold sum_over in Bd. cbn [map sumR fold_right] in Bd. rewrite Rplus_0_r in Bd. exact Bd.
Qed.
