(** Claim C105: the gravity of tesseroids differs from Newton's integral over the solids by no more than a
    stated bound, and converges to it when the tesseroids are cut finer and finer. *)
From Coquelicot Require Import Coquelicot.
From Verif Require Import Base BaseFacts NumPy NumPyFacts DistanceModel DistanceSpec DistanceProofs PointGravityModel PointGravitySpec PointGravityProofs
  TesseroidModel TesseroidSpec TesseroidCheckProofs TesseroidAdaptProofs TesseroidProofs TesseroidFieldProofs TesseroidFitSpec TesseroidFitProofs TesseroidFitProps
  MassBoundsProofs MassBoundsProps TesseroidLimitSpec TesseroidLimitIntProofs TesseroidLimitProofs.
Local Open Scope string_scope. Local Open Scope list_scope. Local Open Scope R_scope.
Local Opaque MAX_DISCRETIZATIONS STACK_SIZE.

(** The error of each tesseroid: twice the change of the field of its elements over the distance from the
    centres of the small tesseroids to their points, plus the mass lost by the quadrature over latitude. *)
Theorem C105_error_bound sh ps ts ds field ratio radial a : prod_shape sh = length ps -> ratio_of_field field ratio -> length ds = length ts ->
  tesseroid_gravity (coords_of sh ps) ts (arr1 ds) field radial false = Ok a ->
  exists ts', Forall2 moved ts ts' /\ forall k p (delta rho : tess -> R), nth_error ps k = Some p ->
    (forall t, In t ts' -> 0 < delta t /\ clear_of (delta t) t p /\ resolved p ratio radial t (rho t)) ->
    Rabs (nth k (data a) 0 - sum_over (combine ts' ds) (fun td => snd td * newton_solid field p (fst td)))
    <= sum_over (combine ts' ds) (fun td => Rabs (snd td) * (volume (fst td) * (2 * steepness field (delta (fst td)) * rho (fst td) + half_lat (fst td) ^ 4 / 150 * strength field (delta (fst td))))).
Proof.
  intros Hsh Hf Hd E. destruct (ratio_value field ratio Hf) as [ER If]. assert (Hf' : field = "potential" \/ field = "g_z") by (destruct Hf as [[-> _]|[-> _]]; auto).
  apply tesseroid_gravity_value in E; [|assumption|assumption|assumption]. destruct E as (ts' & C & D & ->). destruct (accepted_checked _ _ _ C) as (M & Ln & A).
  exists ts'. split; [exact M|]. intros k p delta rho Hk H. assert (Ip : In p ps) by (eapply nth_error_In; exact Hk). cbn [data]. rewrite (nth_map_R _ _ _ 0), Hk, Rmult_0_l, Rplus_0_r.
  rewrite all_sources_field. apply sum_abs_le. intros [t d] Htd. cbn [fst snd]. pose proof (in_combine_l _ _ _ _ Htd) as Ht. destruct (H t Ht) as (H1 & H2 & H3). destruct (A t Ht) as (A1 & A2 & A3 & A4).
  rewrite <- Rmult_minus_distr_l, Rabs_mult. destruct (Req_dec d 0) as [->|Nd]; [rewrite Rabs_R0; lra|]. apply Rmult_le_compat_l; [apply Rabs_pos|].
  apply unit_near; auto; [unfold latitudes; auto| |now rewrite ER].
  specialize (D p Ip). rewrite Forall_forall in D. specialize (D _ Htd). intros Nu. cbn [fst snd] in *. apply D. cbn [fst snd]. rewrite is_null_split, Nu. destruct (Reqb_spec d 0); [contradiction|reflexivity].
Qed.
Print Assumptions C105_error_bound.

(** The distances [rho] may be taken from the sizes of the tesseroids. *)
Theorem C105_resolved_by_size p ratio radial t : box t -> -90 <= south t -> north t <= 90 -> 0 <= bottom t -> resolved p ratio radial t (spread t).
Proof. intros. apply resolved_spread; [assumption|unfold latitudes; auto]. Qed.
Print Assumptions C105_resolved_by_size.

(** Newton's integral over a tesseroid is the sum of those over its cells. *)
Theorem C105_cells_add n field ratio p t delta : ratio_of_field field ratio -> (0 < n)%nat -> box t -> -90 <= south t -> north t <= 90 -> 0 <= bottom t -> 0 < delta -> clear_of delta t p ->
  sum_over (cells n t) (newton_solid field p) = newton_solid field p t.
Proof. intros Hf. intros. apply (cells_solid n field p t delta); auto; [destruct Hf as [[-> _]|[-> _]]; auto|unfold latitudes; auto]. Qed.
Print Assumptions C105_cells_add.

Lemma cut_combine n ts : forall ds, length ds = length ts ->
  combine (cut_tesseroids n ts) (cut_densities n ds) = flat_map (fun td => map (fun x => (x, snd td)) (cells n (fst td))) (combine ts ds).
Proof.
  assert (Q : forall (l : list tess) (d : R) l2 ds2, combine (l ++ l2) (repeat d (length l) ++ ds2) = map (fun x => (x, d)) l ++ combine l2 ds2) by (induction l; intros; cbn; [reflexivity|now rewrite IHl]).
  induction ts as [|t ts IH]; intros [|d ds] L; cbn in L; try lia; [reflexivity|]. cbn [cut_tesseroids cut_densities flat_map combine fst snd]. rewrite <- (cells_length n t), Q. f_equal. rewrite cells_length. apply IH. lia.
Qed.
Lemma cut_length n ts : forall ds, length ds = length ts -> length (cut_densities n ds) = length (cut_tesseroids n ts).
Proof. induction ts as [|t ts IH]; intros [|d ds] L; cbn in L; try lia; [reflexivity|]. cbn [cut_tesseroids cut_densities flat_map]. rewrite !app_length, repeat_length, cells_length. f_equal. apply IH. lia. Qed.
Lemma sum_upper {A} (l : list A) (f : A -> R) x : (forall y, In y l -> 0 <= f y) -> In x l -> f x <= sum_over l f.
Proof.
  induction l as [|y l IH]; intros H []; rewrite sum_over_cons.
  - subst y. pose proof (sum_over_nonneg l f (fun z Hz => H z (or_intror Hz))). lra.
  - pose proof (H y (or_introl eq_refl)). pose proof (IH (fun z Hz => H z (or_intror Hz)) H0). lra.
Qed.
Lemma large_nat X : exists n, X < INR n.
Proof. exists (Z.to_nat (Z.max 0 (up X))). rewrite INR_IZR_INZ, Z2Nat.id by lia. destruct (archimed X) as [H _]. assert (IZR (up X) <= IZR (Z.max 0 (up X))) by (apply IZR_le; lia). lra. Qed.
Lemma moved_lists l l1 l2 : Forall2 moved l l1 -> Forall2 moved l l2 -> l1 = l2.
Proof. intros M. revert l2. induction M as [|x y l l' H M IH]; intros l2 M2; inversion M2 as [|? y2 ? l3 H2 M3]; subst; [reflexivity|]. f_equal; [|auto]. now apply (moved_fun x). Qed.
Lemma sum_over_le {A} (l : list A) (f g : A -> R) : (forall x, In x l -> f x <= g x) -> sum_over l f <= sum_over l g.
Proof. induction l as [|x l IH]; intros H; [apply Rle_refl|]. rewrite !sum_over_cons. apply Rplus_le_compat; [apply H; now left|apply IH; intros; apply H; now right]. Qed.
Lemma proper_facts t : proper t -> box t /\ latitudes t.
Proof. unfold proper, box, latitudes. lra. Qed.
Lemma cell_proper n t x : (0 < n)%nat -> proper t -> bounds_ok t -> In x (cells n t) -> proper x /\ bounds_ok x /\ width_ok x.
Proof.
  intros Hn P Bo H. destruct (proper_facts t P) as [B L]. pose proof (cells_part n t x B H) as ((B1 & B2 & B3) & Px). destruct (cells_sizes n t x Hn H) as (S1 & S2 & S3).
  pose proof (Px (west x, south x, bottom x)) as P1. pose proof (Px (east x, north x, top x)) as P2. cbn [in_closed] in P1, P2. specialize (P1 ltac:(lra)). specialize (P2 ltac:(lra)).
  assert (I : 0 < / INR n) by (apply Rinv_0_lt_compat, lt_0_INR; lia). unfold proper in P. 
  assert (0 < (east t - west t) / INR n) by (apply Rmult_lt_0_compat; lra). assert (0 < (north t - south t) / INR n) by (apply Rmult_lt_0_compat; lra). assert (0 < (top t - bottom t) / INR n) by (apply Rmult_lt_0_compat; lra).
  unfold proper, bounds_ok, width_ok in *. lra.
Qed.

Theorem C105_converges sh ps ts ds field ratio radial delta eps :
  prod_shape sh = length ps -> ratio_of_field field ratio -> length ds = length ts ->
  (forall t, In t ts -> proper t /\ bounds_ok t) -> 0 < delta -> (forall p t, In p ps -> In t ts -> clear_of delta t p) -> 0 < eps ->
  exists N, forall n, (N <= n)%nat ->
    exists a, tesseroid_gravity (coords_of sh ps) (cut_tesseroids n ts) (arr1 (cut_densities n ds)) field radial false = Ok a /\ shape a = sh /\
      forall k p, nth_error ps k = Some p -> Rabs (nth k (data a) 0 - sum_over (combine ts ds) (fun td => snd td * newton_solid field p (fst td))) <= eps.
Proof.
  intros Hsh Hf Hl HP Hd HC He. assert (Hf' : field = "potential" \/ field = "g_z") by (destruct Hf as [[-> _]|[-> _]]; auto).
  assert (HR : 0 < ratio) by (destruct Hf as [[_ ->]|[_ ->]]; lra).
  set (S := steepness field delta). set (K := strength field delta). pose proof (steepness_nonneg field delta Hd) as S0. fold S in S0. pose proof (strength_nonneg field delta Hd) as K0. fold K in K0.
  set (size := fun t : tess => ratio * (2 * spread t) / delta).
  set (err := fun td : tess * R => Rabs (snd td) * (volume (fst td) * (2 * S * spread (fst td) + half_lat (fst td) ^ 4 / 150 * K))).
  assert (PF : forall t, In t ts -> box t /\ latitudes t /\ 0 <= spread t /\ 0 <= volume t /\ 0 <= half_lat t).
  { intros t Ht. destruct (HP t Ht) as [P _]. destruct (proper_facts t P) as [B L]. split; [assumption|]. split; [assumption|]. split; [|split; [now apply volume_nonneg|apply (half_lat_part t t); split; auto]].
    eapply Rle_trans; [apply eucl_nonneg|apply (centre_near t (centre t) B L), centre_in, B]. }
  assert (SZ : forall t, In t ts -> 0 <= size t).
  { intros t Ht. destruct (PF t Ht) as (_ & _ & Q & _). unfold size, Rdiv. apply Rmult_le_pos; [apply Rmult_le_pos; lra|]. left. now apply Rinv_0_lt_compat. }
  assert (ER : forall td, In td (combine ts ds) -> 0 <= err td).
  { intros [t d] H. destruct (PF t (in_combine_l _ _ _ _ H)) as (_ & _ & Q & V & Hh). unfold err. cbn [fst snd]. apply Rmult_le_pos; [apply Rabs_pos|]. apply Rmult_le_pos; [assumption|].
    assert (0 <= 2 * S * spread t) by (apply Rmult_le_pos; lra). pose proof (pow_le _ 4 Hh). assert (0 <= half_lat t ^ 4 / 150 * K) by (apply Rmult_le_pos; lra). lra. }
  pose proof (sum_over_nonneg ts size SZ) as TS. pose proof (sum_over_nonneg (combine ts ds) err ER) as TE.
  destruct (large_nat (1 + sum_over ts size + sum_over (combine ts ds) err / eps)) as [N HN]. exists N. intros n Hn.
  assert (TEe : 0 <= sum_over (combine ts ds) err / eps) by (apply Rmult_le_pos; [assumption|left; now apply Rinv_0_lt_compat]).
  assert (Nn : 1 + sum_over ts size + sum_over (combine ts ds) err / eps <= INR n) by (apply le_INR in Hn; lra).
  assert (n0 : (0 < n)%nat) by (apply INR_lt; cbn; lra). assert (I : 0 < INR n) by now apply lt_0_INR.
  set (ts2 := cut_tesseroids n ts). set (ds2 := cut_densities n ds).
  assert (Cell : forall x, In x ts2 -> exists t, In t ts /\ In x (cells n t)) by (intros x Hx; apply in_flat_map in Hx; exact Hx).
  assert (Mv : Forall2 moved ts2 ts2).
  { assert (Q : forall x, In x ts2 -> moved x x). { intros x Hx. destruct (Cell x Hx) as (t & Ht & Hc). destruct (HP t Ht) as [P Bo]. destruct (cell_proper n t x n0 P Bo Hc) as (Px & _). left. unfold proper in Px. split; [lra|reflexivity]. }
    clear -Q. induction ts2 as [|x l IH]; constructor; [apply Q; now left|apply IH; intros; apply Q; now right]. }
  assert (Cl : forall p x, In p ps -> In x ts2 -> clear_of delta x p).
  { intros p x Hp Hx q Hq. destruct (Cell x Hx) as (t & Ht & Hc). apply (HC p t Hp Ht). destruct (PF t Ht) as (B & _). apply (cells_part n t x B Hc). exact Hq. }
  destruct (C98_gravity_returns sh ps ts2 ts2 ds2 field ratio radial Hsh Hf (cut_length n ts ds Hl)) as (a & E & Sa & _).
  { apply Forall_forall. intros x Hx. destruct (Cell x Hx) as (t & Ht & Hc). destruct (HP t Ht) as [P Bo]. apply (cell_proper n t x n0 P Bo Hc). }
  { exact Mv. }
  { apply Forall_forall. intros x Hx. destruct (Cell x Hx) as (t & Ht & Hc). destruct (HP t Ht) as [P Bo]. apply (cell_proper n t x n0 P Bo Hc). }
  { intros p x d Hp Hx. right. apply in_combine_l in Hx. destruct (Cell x Hx) as (t & Ht & Hc). destruct (HP t Ht) as [P Bo]. destruct (cell_proper n t x n0 P Bo Hc) as (Px & _). split; [exact Px|].
    exists delta, O, O, O. split; [assumption|]. split; [now apply Cl|]. split; [|lia]. destruct (PF t Ht) as (B & L & Q & _). destruct (cells_spread n t x n0 B L Hc) as [_ W].
    assert (Z : ratio * (2 * spread x) <= delta).
    { pose proof (sum_upper ts size t SZ Ht) as U. assert (U2 : size t <= INR n) by lra. unfold size in U2.
      apply Rmult_le_compat_r with (r := delta) in U2; [|lra]. unfold Rdiv in U2. rewrite Rmult_assoc, Rinv_l, Rmult_1_r in U2 by lra.
      apply Rle_trans with (ratio * (2 * (spread t / INR n))); [apply Rmult_le_compat_l; lra|]. apply Rmult_le_reg_r with (INR n); [assumption|].
      replace (ratio * (2 * (spread t / INR n)) * INR n) with (ratio * (2 * spread t)) by (field; lra). lra. }
    unfold proper in Px. unfold spread in Z. pose proof (radians_le 0 (east x - west x) ltac:(lra)) as Q1. pose proof (radians_le 0 (north x - south x) ltac:(lra)) as Q2. replace (radians 0) with 0 in * by (unfold radians; field).
    assert (0 <= top x * radians (east x - west x)) by (apply Rmult_le_pos; lra). assert (0 <= top x * radians (north x - south x)) by (apply Rmult_le_pos; lra).
    unfold halvings. cbn [pow]. rewrite Rmult_1_l. repeat split; [| |intros _]; (eapply Rle_trans; [apply Rmult_le_compat_l; [lra|]|exact Z]); lra. }
  exists a. split; [exact E|]. split; [exact Sa|]. intros k p Hk. assert (Ip : In p ps) by (eapply nth_error_In; exact Hk).
  destruct (C105_error_bound sh ps ts2 ds2 field ratio radial a Hsh Hf (cut_length n ts ds Hl) E) as (ts3 & M3 & Bd).
  assert (E3 : ts3 = ts2).
  { exact (moved_lists _ _ _ M3 Mv). }
  subst ts3. specialize (Bd k p (fun _ => delta) spread Hk).
  assert (Bd' : forall t, In t ts2 -> 0 < delta /\ clear_of delta t p /\ resolved p ratio radial t (spread t)).
  { intros x Hx. split; [assumption|]. split; [now apply Cl|]. destruct (Cell x Hx) as (t & Ht & Hc). destruct (HP t Ht) as [P Bo]. destruct (cell_proper n t x n0 P Bo Hc) as (Px & _). destruct (proper_facts x Px). now apply resolved_spread. }
  specialize (Bd Bd'). unfold ts2, ds2 in Bd. rewrite cut_combine in Bd by assumption. rewrite !sum_over_flat_map in Bd.
  assert (E1 : sum_over (combine ts ds) (fun td => sum_over (map (fun x => (x, snd td)) (cells n (fst td))) (fun td0 => snd td0 * newton_solid field p (fst td0))) = sum_over (combine ts ds) (fun td => snd td * newton_solid field p (fst td))).
  { apply sum_ext_in. intros [t d] H. cbn [fst snd]. pose proof (in_combine_l _ _ _ _ H) as Ht. destruct (PF t Ht) as (B & L & _). rewrite sum_over_map. cbn [fst snd]. rewrite sum_over_scal. f_equal. apply (cells_solid n field p t delta); auto. }
  rewrite E1 in Bd. eapply Rle_trans; [exact Bd|].
  apply Rle_trans with (sum_over (combine ts ds) (fun td => err td / INR n)).
  - apply sum_over_le. intros [t d] H. cbn [fst snd]. pose proof (in_combine_l _ _ _ _ H) as Ht. destruct (PF t Ht) as (B & L & Q & V & Hh). rewrite sum_over_map. cbn [fst snd]. fold S K.
    rewrite sum_over_scal. unfold err. cbn [fst snd]. unfold Rdiv. rewrite Rmult_assoc. apply Rmult_le_compat_l; [apply Rabs_pos|].
    rewrite <- (cells_volume n t n0 B L) at 1. rewrite (Rmult_comm (sum_over _ _)), Rmult_assoc, (Rmult_comm (sum_over _ _)). rewrite <- Rmult_assoc, <- sum_over_scal.
    apply sum_over_le. intros x Hx. destruct (cells_spread n t x n0 B L Hx) as [_ W]. destruct (cells_half_lat n t x n0 B Hx) as [_ W4].
    pose proof (cells_part n t x B Hx) as Hp. pose proof (volume_nonneg x (proj1 Hp) (latitudes_part x t L Hp)) as Vx.
    rewrite (Rmult_comm _ (volume x)). apply Rmult_le_compat_l; [assumption|].
    assert (2 * S * spread x <= 2 * S * (spread t / INR n)) by (apply Rmult_le_compat_l; lra).
    assert (half_lat x ^ 4 * / 150 * K <= half_lat t ^ 4 / INR n * / 150 * K) by (apply Rmult_le_compat_r; [lra|apply Rmult_le_compat_r; lra]). unfold Rdiv in *. lra.
  - unfold Rdiv. rewrite (sum_over_ext _ _ (fun td => / INR n * err td)) by (intros; ring). rewrite sum_over_scal.
    apply Rmult_le_reg_l with (INR n); [assumption|]. rewrite <- Rmult_assoc, Rinv_r, Rmult_1_l by lra.
    assert (U : sum_over (combine ts ds) err / eps <= INR n) by lra. apply Rmult_le_compat_r with (r := eps) in U; [|lra]. unfold Rdiv in U. rewrite Rmult_assoc, Rinv_l, Rmult_1_r in U by lra. exact U.
Qed.
Print Assumptions C105_converges.

(** One block under one point, both fields: the hypotheses hold. *)
Example C105_example : let t := Tess (-5) 5 (-5) 5 6000000 6300000 in
  proper t /\ bounds_ok t /\ clear_of 100000 t (0, 0, 6400000) /\ volume t > 0 /\
  forall field ratio, ratio_of_field field ratio -> exists N, forall n, (N <= n)%nat ->
    exists a, tesseroid_gravity (coords_of [] [(0, 0, 6400000)]) (cut_tesseroids n [t]) (arr1 (cut_densities n [2670])) field true false = Ok a /\
      Rabs (nth 0 (data a) 0 - 2670 * newton_solid field (0, 0, 6400000) t) <= 1 / 1000.
Proof.
  cbv zeta. set (t := Tess (-5) 5 (-5) 5 6000000 6300000).
  assert (P : proper t) by (unfold proper, t; cbn; lra). assert (Bo : bounds_ok t) by (unfold bounds_ok, t; cbn; lra).
  assert (C : clear_of 100000 t (0, 0, 6400000)).
  { intros [[lon lat] r] H. cbn in H. eapply Rle_trans; [|apply eucl_radius; lra]. rewrite Rabs_pos_eq; lra. }
  split; [exact P|]. split; [exact Bo|]. split; [exact C|]. split.
  - unfold volume, t. cbn [west east south north bottom top]. assert (sin (radians (-5)) < sin (radians 5)). { apply sin_increasing_1; unfold radians; pose proof PI_RGT_0; lra. }
    assert (radians (-5) < radians 5) by (unfold radians; pose proof PI_RGT_0; lra). apply Rlt_gt. apply Rmult_lt_0_compat; [|lra]. apply Rmult_lt_0_compat; [apply Rmult_lt_0_compat; lra|lra].
  - intros field ratio Hf. destruct (C105_converges [] [(0, 0, 6400000)] [t] [2670] field ratio true 100000 (1 / 1000)) as [N HN]; auto; try lra.
    + intros x [<-|[]]. auto.
    + intros p x [<-|[]] [<-|[]]. exact C.
    + exists N. intros n Hn. destruct (HN n Hn) as (a & E & _ & B). exists a. split; [exact E|]. specialize (B O (0, 0, 6400000) eq_refl). unfold combine in B. rewrite sum_over_cons in B. unfold sum_over in B at 1. cbn [map sumR fold_right fst snd] in B. rewrite Rplus_0_r in B. exact B.
Qed.
