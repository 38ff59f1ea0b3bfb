(** Lemmas for claim C98: when the buffers of the adaptive discretisation suffice. *)
From Verif Require Import Base BaseFacts NumPy NumPyFacts DistanceModel DistanceSpec DistanceProofs PointGravityModel PointGravitySpec PointGravityProofs
  TesseroidModel TesseroidSpec TesseroidCheckProofs TesseroidAdaptProofs TesseroidProofs TesseroidFieldProofs.
Local Open Scope list_scope. Local Open Scope R_scope.
Local Opaque MAX_DISCRETIZATIONS STACK_SIZE.

(** ** Sizes *)
Lemma size_lon_half t : regular t -> exists g, size_lon t = top t * g /\ 0 <= g <= PI /\ sin (g / 2) = cos (radians (mid_lat t)) * sin (radians (east t - west t) / 2).
Proof.
  intros (HL & HS & HN & HT). unfold size_lon, great_circle. rewrite unit_dot.
  set (c := cos (radians (mid_lat t))). set (s := sin (radians (mid_lat t))). rewrite <- radians_minus. set (D := radians (east t - west t)).
  assert (HD : 0 <= D <= 2 * PI).
  { unfold D. replace (2 * PI) with (radians 360) by (unfold radians; field). replace 0 with (radians 0) by (unfold radians; field). split; apply radians_le; lra. }
  assert (Hc : 0 <= c).
  { unfold c. apply cos_ge_0; unfold mid_lat; [replace (- (PI / 2)) with (radians (-90)) by (unfold radians; field)|rewrite <- radians_90]; apply radians_le; lra. }
  assert (SC : s * s + c * c = 1) by (pose proof (sin2_cos2 (radians (mid_lat t))) as K; unfold Rsqr in K; exact K).
  pose proof (COS_bound D) as CB. set (X := s * s + c * c * cos D).
  assert (C2 : 0 <= c * c) by (apply Rmult_le_pos; lra).
  assert (HX : -1 <= X <= 1).
  { unfold X. assert (0 <= c * c * (1 - cos D)) by (apply Rmult_le_pos; lra). assert (0 <= c * c * (1 + cos D)) by (apply Rmult_le_pos; lra).
    assert (0 <= s * s) by apply Rle_0_sqr. lra. }
  exists (acos X). split; [reflexivity|]. pose proof (acos_bound X) as GB. split; [exact GB|]. set (g := acos X) in *. assert (CG : cos g = X) by (apply cos_acos; lra).
  assert (E : sin (g / 2) * sin (g / 2) = (c * sin (D / 2)) * (c * sin (D / 2))).
  { assert (A1 : cos g = 1 - 2 * sin (g / 2) * sin (g / 2)) by (rewrite <- cos_2a_sin; f_equal; field).
    assert (A2 : cos D = 1 - 2 * sin (D / 2) * sin (D / 2)) by (rewrite <- cos_2a_sin; f_equal; field).
    unfold X in CG. rewrite A1, A2 in CG. lra. }
  apply Rsqr_inj; [apply sin_ge_0; lra|apply Rmult_le_pos; [exact Hc|apply sin_ge_0; lra]|exact E].
Qed.
Lemma size_lon_le t : regular t -> size_lon t <= top t * radians (east t - west t).
Proof.
  intros Rt. destruct (size_lon_half t Rt) as (g & -> & G & S). destruct Rt as (HL & HS & HN & HT). apply Rmult_le_compat_l; [lra|].
  set (D := radians (east t - west t)) in *.
  assert (HD : 0 < D < 2 * PI).
  { unfold D. replace (2 * PI) with (radians 360) by (unfold radians; field). split; [apply radians_pos|apply radians_lt]; lra. }
  destruct (Rle_dec PI D) as [L|L]; [lra|].
  assert (Hc : 0 <= cos (radians (mid_lat t)) <= 1).
  { split; [|apply COS_bound]. apply cos_ge_0; unfold mid_lat; [replace (- (PI / 2)) with (radians (-90)) by (unfold radians; field)|rewrite <- radians_90]; apply radians_le; lra. }
  assert (P : 0 <= sin (D / 2)) by (apply sin_ge_0; lra).
  assert (Q : sin (g / 2) <= sin (D / 2)) by (rewrite S; nra).
  assert (g / 2 <= D / 2); [|lra]. apply sin_incr_0; lra.
Qed.
Lemma size_lon_nonneg t : 0 <= top t -> 0 <= size_lon t.
Proof. intros. unfold size_lon, great_circle. apply Rmult_le_pos; [assumption|apply acos_nonneg]. Qed.
Lemma size_lat_nonneg t : 0 <= top t -> 0 <= size_lat t.
Proof. intros. unfold size_lat, great_circle. apply Rmult_le_pos; [assumption|apply acos_nonneg]. Qed.

(** ** Pieces *)
Definition one_or_two (n : nat) : Prop := n = 1%nat \/ n = 2%nat.
Lemma cut_facts a b n i : one_or_two n -> (i < n)%nat -> a < b ->
  a <= a + (b - a) / INR n * INR i /\ a + (b - a) / INR n * INR (i + 1) <= b /\ a + (b - a) / INR n * INR (i + 1) - (a + (b - a) / INR n * INR i) = (b - a) / INR n.
Proof.
  intros [-> | ->] Hi L; [destruct i as [|]; [|lia]|destruct i as [|[|]]; [| |lia]]; cbn [INR Nat.add]; lra.
Qed.
Lemma in_pieces t a b c y : In y (pieces t a b c) -> exists i j k, (i < a)%nat /\ (j < b)%nat /\ (k < c)%nat /\ y = split_row t a b c i j k.
Proof.
  unfold pieces. rewrite in_flat_map. intros (i & Hi & H). rewrite in_flat_map in H. destruct H as (j & Hj & H). rewrite in_map_iff in H. destruct H as (k & <- & Hk).
  rewrite range_in in *. exists i, j, k. repeat split; lia.
Qed.
Lemma div_pos a n : one_or_two n -> 0 < a -> 0 < a / INR n <= a.
Proof. intros [-> | ->] H; cbn [INR]; lra. Qed.

Section Fit.
Variable p : point.
Variable ratio : R.
Variable radial : bool.
Variable delta : R.
Hypothesis Hratio : 0 <= ratio.
Hypothesis Hdelta : 0 < delta.

(** A tesseroid that needs at most [a], [b] and [c] halvings along the three axes. *)
Definition fits (x : tess) (a b c : nat) : Prop :=
  regular x /\ (forall q, in_closed x q -> delta <= eucl (sph_position p) (sph_position q)) /\
  ratio * (top x * radians (east x - west x)) <= 2 ^ a * delta /\
  ratio * (top x * radians (north x - south x)) <= 2 ^ b * delta /\
  (radial = true -> ratio * (top x - bottom x) <= 2 ^ c * delta).

Lemma halved k n L : one_or_two n -> (n = 2%nat -> (1 <= k)%nat) -> L <= 2 ^ k * delta -> L / INR n <= 2 ^ (k + 1 - n) * delta.
Proof.
  intros [-> | ->] H K; cbn [INR].
  - replace (k + 1 - 1)%nat with k by lia. lra.
  - destruct k as [|k]; [specialize (H eq_refl); lia|]. replace (S k + 1 - 2)%nat with k by lia. cbn [pow] in K. lra.
Qed.
Lemma pieces_fits x a b c na nb nc y : fits x a b c -> one_or_two na -> one_or_two nb -> one_or_two nc ->
  (na = 2%nat -> (1 <= a)%nat) -> (nb = 2%nat -> (1 <= b)%nat) -> (nc = 2%nat -> radial = true /\ (1 <= c)%nat) ->
  In y (pieces x na nb nc) -> fits y (a + 1 - na) (b + 1 - nb) (c + 1 - nc).
Proof.
  intros (Rx & F & A & B & C) Na Nb Nc Ka Kb Kc Hy. apply in_pieces in Hy. destruct Hy as (i & j & k & Hi & Hj & Hk & ->).
  destruct Rx as (Rl & Rp & Rn & Rr).
  destruct (cut_facts (west x) (east x) na i Na Hi ltac:(lra)) as (W1 & W2 & W3).
  destruct (cut_facts (south x) (north x) nb j Nb Hj ltac:(lra)) as (S1 & S2 & S3).
  destruct (cut_facts (bottom x) (top x) nc k Nc Hk ltac:(lra)) as (B1 & B2 & B3).
  pose proof (div_pos (east x - west x) na Na ltac:(lra)) as D1. pose proof (div_pos (north x - south x) nb Nb ltac:(lra)) as D2. pose proof (div_pos (top x - bottom x) nc Nc ltac:(lra)) as D3.
  unfold split_row. set (w := west x + _ * INR i) in *. set (e := west x + _ * INR (i + 1)) in *. set (s := south x + _ * INR j) in *. set (n := south x + _ * INR (j + 1)) in *.
  set (bo := bottom x + _ * INR k) in *. set (to := bottom x + _ * INR (k + 1)) in *.
  split; [|split; [|split; [|split]]]; cbn [west east south north bottom top].
  - unfold regular. cbn [west east south north bottom top]. lra.
  - intros [[q1 q2] q3] Hq. apply F. unfold in_closed in *. cbn [west east south north bottom top] in Hq. lra.
  - rewrite W3. apply Rle_trans with (ratio * (top x * radians (east x - west x)) / INR na); [|now apply halved].
    unfold radians. pose proof PI_RGT_0.
    replace (ratio * (top x * ((east x - west x) * PI / 180)) / INR na) with (ratio * (top x * ((east x - west x) / INR na * PI / 180))) by (destruct Na as [-> | ->]; cbn [INR]; field).
    apply Rmult_le_compat_l; [assumption|]. apply Rmult_le_compat_r; [|lra]. left. apply (radians_pos ((east x - west x) / INR na)). lra.
  - rewrite S3. apply Rle_trans with (ratio * (top x * radians (north x - south x)) / INR nb); [|now apply halved].
    unfold radians. pose proof PI_RGT_0.
    replace (ratio * (top x * ((north x - south x) * PI / 180)) / INR nb) with (ratio * (top x * ((north x - south x) / INR nb * PI / 180))) by (destruct Nb as [-> | ->]; cbn [INR]; field).
    apply Rmult_le_compat_l; [assumption|]. apply Rmult_le_compat_r; [|lra]. left. apply (radians_pos ((north x - south x) / INR nb)). lra.
  - intros Er. rewrite B3. replace (ratio * ((top x - bottom x) / INR nc)) with (ratio * (top x - bottom x) / INR nc) by (unfold Rdiv; ring).
    apply halved; [assumption| |now apply C]. intros E. now apply Kc.
Qed.

Fixpoint room (cs : nat) (bs : list nat) : Prop :=
  match bs with [] => True | b :: bs' => (3 * length bs' + 3 + 7 * b <= 3 * cs)%nat /\ room cs bs' end.
Definition total_pieces (bs : list nat) : nat := fold_right (fun b s => 2 ^ b + s)%nat 0%nat bs.
Definition fits_sum (x : tess) (n : nat) : Prop := exists a b c, n = (a + b + c)%nat /\ fits x a b c.
Lemma room_repeat cs b m bs : (3 * (length bs + m - 1) + 3 + 7 * b <= 3 * cs)%nat -> room cs bs -> room cs (repeat b m ++ bs).
Proof.
  induction m as [|m IH]; intros H K; [exact K|]. cbn [repeat app room]. rewrite app_length, repeat_length. split; [lia|]. apply IH; [lia|exact K].
Qed.
Lemma total_repeat b m bs : total_pieces (repeat b m ++ bs) = (m * 2 ^ b + total_pieces bs)%nat.
Proof. induction m as [|m IH]; [reflexivity|]. cbn [repeat app total_pieces fold_right]. fold (total_pieces (repeat b m ++ bs)). rewrite IH. lia. Qed.

Lemma pow2_pos n : (1 <= 2 ^ n)%nat.
Proof. induction n; cbn [Nat.pow]; lia. Qed.
Lemma centre_closed x : regular x -> in_closed x (centre x).
Proof. intros (H1 & H2 & H3 & H4). unfold in_closed, centre. lra. Qed.
Lemma not_split l L k d : 0 < l -> l <= L -> ratio * L <= 2 ^ k * delta -> delta <= d -> d / l < ratio -> (1 <= k)%nat.
Proof.
  intros Hl HL HK Hd Q. destruct k as [|k]; [|lia]. exfalso. cbn [pow] in HK.
  assert (d < ratio * l). { apply Rmult_lt_compat_r with (r := l) in Q; [|assumption]. unfold Rdiv in Q. rewrite Rmult_assoc, Rinv_l in Q by lra. lra. }
  assert (ratio * l <= ratio * L) by (apply Rmult_le_compat_l; assumption). lra.
Qed.
Lemma step_fits cs cm x n rest bs out : fits_sum x n -> Forall2 fits_sum rest bs -> room cs (n :: bs) -> (length out + total_pieces (n :: bs) <= cm)%nat ->
  exists stk' out' bs', abs_step p ratio radial cs cm x rest out = Ok (stk', out') /\ Forall2 fits_sum stk' bs' /\ room cs bs' /\ (length out' + total_pieces bs' <= length out + total_pieces (n :: bs))%nat.
Proof.
  intros (a & b & c & -> & Fx) FR [R1 R2] T. assert (LR : length rest = length bs) by (clear -FR; induction FR; cbn; congruence). pose proof Fx as (Rx & F & A & B & C). unfold abs_step. rewrite dimensions_sizes, distance_point_to.
  assert (Hd : delta <= distance_to p x) by (apply F, centre_closed, Rx). set (d := distance_to p x) in *.
  pose proof Rx as (Rl & Rp & Rn & Rr).
  assert (S1 : 0 < size_lon x) by (pose proof (size_lon_nonneg x ltac:(lra)); pose proof (size_lon_pos x Rx); lra).
  assert (S2 : 0 < size_lat x) by (pose proof (size_lat_nonneg x ltac:(lra)); pose proof (size_lat_pos x Rx); lra).
  assert (S3 : 0 < size_rad x) by (unfold size_rad; lra).
  unfold ndiv. destruct (Reqb_spec (size_lon x) 0); [lra|]. destruct (Reqb_spec (size_lat x) 0); [lra|]. destruct (Reqb_spec (size_rad x) 0); [lra|]. cbn [bind].
  set (na := if Rltb (d / size_lon x) ratio then 2%nat else 1%nat). set (nb := if Rltb (d / size_lat x) ratio then 2%nat else 1%nat).
  set (nc := if (Rltb (d / size_rad x) ratio && radial)%bool then 2%nat else 1%nat).
  assert (Na : one_or_two na /\ (na = 2%nat -> (1 <= a)%nat)).
  { unfold na. destruct (Rltb_spec (d / size_lon x) ratio) as [Q|Q]; [|split; [now left|discriminate]]. split; [now right|]. intros _.
    apply (not_split (size_lon x) (top x * radians (east x - west x)) a d); auto. now apply size_lon_le. }
  assert (Nb : one_or_two nb /\ (nb = 2%nat -> (1 <= b)%nat)).
  { unfold nb. destruct (Rltb_spec (d / size_lat x) ratio) as [Q|Q]; [|split; [now left|discriminate]]. split; [now right|]. intros _.
    apply (not_split (size_lat x) (top x * radians (north x - south x)) b d); auto. rewrite size_lat_eq by lra. rewrite radians_minus. lra. }
  assert (Nc : one_or_two nc /\ (nc = 2%nat -> radial = true /\ (1 <= c)%nat)).
  { unfold nc. destruct (Rltb_spec (d / size_rad x) ratio) as [Q|Q]; [|split; [now left|discriminate]]. destruct radial eqn:Er; [|split; [now left|discriminate]]. split; [now right|]. intros _. split; [reflexivity|].
    apply (not_split (size_rad x) (top x - bottom x) c d); auto. unfold size_rad. lra. }
  destruct Na as [Na Ka], Nb as [Nb Kb], Nc as [Nc Kc]. clearbody na nb nc.
  assert (Kc' : nc = 2%nat -> (1 <= c)%nat) by (intros E; now apply Kc).
  destruct (Nat.ltb_spec 1 (na * nb * nc)) as [L|L].
  - assert (Q : (3 * (na * nb * nc - 1) + 7 * (a + 1 - na + (b + 1 - nb) + (c + 1 - nc)) <= 7 * (a + b + c))%nat).
    { destruct Na as [-> | ->], Nb as [-> | ->], Nc as [-> | ->]; cbn [Nat.mul Nat.add] in *; try lia. }
    assert (P2 : (na * nb * nc * 2 ^ (a + 1 - na + (b + 1 - nb) + (c + 1 - nc)) = 2 ^ (a + b + c))%nat).
    { rewrite !Nat.pow_add_r. assert (E : forall n k, one_or_two n -> (n = 2%nat -> (1 <= k)%nat) -> (n * 2 ^ (k + 1 - n) = 2 ^ k)%nat).
      { intros n' k [-> | ->] H; [replace (k + 1 - 1)%nat with k by lia; lia|]. destruct k as [|k]; [specialize (H eq_refl); lia|]. replace (S k + 1 - 2)%nat with k by lia. cbn [Nat.pow]. lia. }
      rewrite <- (E na a), <- (E nb b), <- (E nc c) by assumption. ring. }
    destruct (Nat.ltb_spec cs (length rest + na * nb * nc)) as [O|O]; [exfalso; lia|].
    eexists. eexists. exists (repeat (a + 1 - na + (b + 1 - nb) + (c + 1 - nc))%nat (na * nb * nc) ++ bs). split; [reflexivity|]. split; [|split].
    + apply Forall2_app; [|exact FR]. assert (LP : length (rev (pieces x na nb nc)) = (na * nb * nc)%nat) by (rewrite rev_length; apply length_pieces). rewrite <- LP.
      assert (AP : forall y, In y (rev (pieces x na nb nc)) -> fits_sum y (a + 1 - na + (b + 1 - nb) + (c + 1 - nc))).
      { intros y Hy. apply in_rev in Hy. exists (a + 1 - na)%nat, (b + 1 - nb)%nat, (c + 1 - nc)%nat. split; [reflexivity|]. now apply (pieces_fits x a b c na nb nc). }
      clear LP. induction (rev (pieces x na nb nc)) as [|y l IH]; cbn [length repeat]; constructor; [apply AP; now left|]. apply IH. intros z Hz. apply AP. now right.
    + apply room_repeat; [|exact R2]. lia.
    + rewrite total_repeat, P2. cbn [total_pieces fold_right]. fold (total_pieces bs). lia.
  - pose proof (pow2_pos (a + b + c)). cbn [total_pieces fold_right] in T. fold (total_pieces bs) in T.
    destruct (Nat.ltb_spec cm (length out + 1)) as [O|O]; [exfalso; lia|].
    eexists. eexists. exists bs. split; [reflexivity|]. split; [exact FR|]. split; [exact R2|]. rewrite app_length. cbn [length total_pieces fold_right]. fold (total_pieces bs). lia.
Qed.
Lemma loop_fits cs cm : forall fuel stk out bs, Forall2 fits_sum stk bs -> room cs bs -> (length out + total_pieces bs <= cm)%nat ->
  abs_loop fuel p ratio radial cs cm stk out = Raise OutOfFuel \/ exists r, abs_loop fuel p ratio radial cs cm stk out = Ok r /\ (length r <= length out + total_pieces bs)%nat.
Proof.
  induction fuel as [|f IH]; intros [|x rest] out bs FR R T; cbn [abs_loop]; try (right; exists out; split; [reflexivity|lia]); [now left|].
  inversion FR as [|? n ? bs' Fx FR']; subst.
  destruct (step_fits cs cm x n rest bs' out Fx FR' R T) as (stk' & out' & bs2 & E & F2 & R2 & T2). rewrite E. cbn [bind fst snd].
  destruct (IH stk' out' bs2 F2 R2 ltac:(lia)) as [O | (r & O & Lr)]; [now left|right]. exists r. split; [exact O|lia].
Qed.
Lemma discretise_fits cs cm t a b c : fits t a b c -> (3 + 7 * (a + b + c) <= 3 * cs)%nat -> (2 ^ (a + b + c) <= cm)%nat ->
  exists r, discretise p t ratio cs cm radial = Ok r /\ (length r <= 2 ^ (a + b + c))%nat.
Proof.
  intros F S M. unfold discretise.
  destruct (loop_fits cs cm (cs + 2 * cm) [t] [] [(a + b + c)%nat]) as [O | (r & O & L)].
  - constructor; [|constructor]. exists a, b, c. now split.
  - cbn [room length]. split; [lia|exact I].
  - cbn [length total_pieces fold_right]. lia.
  - exfalso. destruct (discretise_total p t ratio cs cm radial ltac:(lia)) as [[r E]|[E|E]]; unfold discretise in E; rewrite O in E; discriminate.
  - exists r. split; [exact O|]. cbn [length total_pieces fold_right] in L. lia.
Qed.
End Fit.

(** ** Points of the tesseroid itself *)
Lemma dist_radial lon lat r s : eucl (sph_position (lon, lat, r)) (sph_position (lon, lat, s)) = Rabs (r - s).
Proof.
  rewrite <- distance_spherical_eucl. unfold distance_spherical, distance_spherical_core. rewrite Rminus_eq_0, cos_0.
  pose proof (sin2_cos2 (radians lat)) as K. unfold Rsqr in K.
  replace ((r - s) ^ 2 + 2 * r * s * (1 - (sin (radians lat) * sin (radians lat) + cos (radians lat) * cos (radians lat) * 1))) with (Rsqr (r - s)) by (unfold Rsqr; rewrite Rmult_1_r, K; ring).
  apply sqrt_Rsqr_abs.
Qed.
Lemma one_minus_cos x : 1 - cos x = 2 * (sin (x / 2) * sin (x / 2)).
Proof. replace x with (2 * (x / 2)) at 1 by field. rewrite cos_2a_sin. ring. Qed.
Lemma dist_parallel l1 l2 lat r : 0 <= r -> 0 <= cos (radians lat) ->
  eucl (sph_position (l1, lat, r)) (sph_position (l2, lat, r)) = 2 * r * cos (radians lat) * Rabs (sin (radians (l2 - l1) / 2)).
Proof.
  intros Hr Hc. rewrite <- distance_spherical_eucl. unfold distance_spherical, distance_spherical_core. rewrite <- radians_minus.
  pose proof (sin2_cos2 (radians lat)) as K. unfold Rsqr in K. set (s := sin (radians lat)) in *. set (c := cos (radians lat)) in *. pose proof (one_minus_cos (radians (l2 - l1))) as Q.
  set (h := sin (radians (l2 - l1) / 2)) in *.
  replace ((r - r) ^ 2 + 2 * r * r * (1 - (s * s + c * c * cos (radians (l2 - l1))))) with (Rsqr (2 * r * c * h)).
  - rewrite sqrt_Rsqr_abs, !Rabs_mult. rewrite (Rabs_pos_eq 2), (Rabs_pos_eq r), (Rabs_pos_eq c) by lra. reflexivity.
  - unfold Rsqr. replace (1 - (s * s + c * c * cos (radians (l2 - l1)))) with (c * c * (1 - cos (radians (l2 - l1)))) by lra. rewrite Q. ring.
Qed.
Lemma dist_meridian lon f1 f2 r : 0 <= r -> eucl (sph_position (lon, f1, r)) (sph_position (lon, f2, r)) = 2 * r * Rabs (sin (radians (f2 - f1) / 2)).
Proof.
  intros Hr. rewrite <- distance_spherical_eucl. unfold distance_spherical, distance_spherical_core. rewrite (Rminus_eq_0 (radians lon)), cos_0.
  pose proof (one_minus_cos (radians (f2 - f1))) as Q. set (h := sin (radians (f2 - f1) / 2)) in *.
  replace (sin (radians f2) * sin (radians f1) + cos (radians f2) * cos (radians f1) * 1) with (cos (radians (f2 - f1))) by (rewrite radians_minus, cos_minus; ring).
  rewrite Q. replace ((r - r) ^ 2 + 2 * r * r * (2 * (h * h))) with (Rsqr (2 * r * h)) by (unfold Rsqr; ring).
  rewrite sqrt_Rsqr_abs, !Rabs_mult. rewrite (Rabs_pos_eq 2), (Rabs_pos_eq r) by lra. reflexivity.
Qed.
Lemma abs_sin_le x : Rabs (sin x) <= Rabs x.
Proof.
  destruct (Rle_dec 0 x) as [H|H].
  - rewrite (Rabs_pos_eq x) by assumption. apply Rabs_le. destruct H as [H|<-]; [|rewrite sin_0; lra]. pose proof (sin_lt_x x H).
    split; [|lra]. destruct (Rle_dec x PI) as [L|L]; [pose proof (sin_ge_0 x ltac:(lra) L); lra|]. pose proof (SIN_bound x). pose proof PI_RGT_0. pose proof PI2_3_2. lra.
  - rewrite <- (Rabs_Ropp (sin x)), <- sin_neg, <- (Rabs_Ropp x). assert (H' : 0 < - x) by lra. rewrite (Rabs_pos_eq (- x)) by lra. apply Rabs_le.
    pose proof (sin_lt_x (- x) H'). split; [|lra]. destruct (Rle_dec (- x) PI) as [L|L]; [pose proof (sin_ge_0 (- x) ltac:(lra) L); lra|]. pose proof (SIN_bound (- x)). pose proof PI2_3_2. lra.
Qed.
Lemma abs_half a b x : a <= x <= b -> Rabs ((a + b) / 2 - x) <= (b - a) / 2.
Proof. intros. apply Rabs_le. lra. Qed.

(** The centre of a tesseroid is not far from its points. *)
Lemma distance_inside p x : regular x -> east x - west x <= 180 -> in_closed x p ->
  distance_to p x <= size_lon x / 1.4 + size_lat x / 2 + size_rad x / 2.
Proof.
  intros Rx HW. pose proof Rx as (HL & HS & HN & HR). destruct p as [[lon lat] r]. intros (P1 & P2 & P3). unfold distance_to, centre.
  set (lonc := (west x + east x) / 2). set (latc := (south x + north x) / 2). set (rc := (bottom x + top x) / 2).
  assert (Hc : 0 <= cos (radians latc)).
  { apply cos_ge_0; unfold latc; [replace (- (PI / 2)) with (radians (-90)) by (unfold radians; field)|rewrite <- radians_90]; apply radians_le; lra. }
  pose proof (eucl_triangle (sph_position (lon, lat, r)) (sph_position (lon, latc, r)) (sph_position (lonc, latc, rc))) as T1.
  pose proof (eucl_triangle (sph_position (lon, latc, r)) (sph_position (lonc, latc, r)) (sph_position (lonc, latc, rc))) as T2.
  rewrite dist_meridian in T1 by lra. rewrite dist_radial, dist_parallel in T2 by (assumption || lra).
  assert (B3 : Rabs (r - rc) <= size_rad x / 2). { rewrite Rabs_minus_sym. unfold rc, size_rad. apply (abs_half (bottom x) (top x) r). lra. }
  assert (B2 : 2 * r * Rabs (sin (radians (latc - lat) / 2)) <= size_lat x / 2).
  { rewrite size_lat_eq, <- radians_minus by lra. pose proof (abs_sin_le (radians (latc - lat) / 2)) as Q.
    assert (Q2 : Rabs (radians (latc - lat) / 2) <= radians (north x - south x) / 4).
    { unfold radians, Rdiv. pose proof (abs_half (south x) (north x) lat ltac:(lra)) as A. fold latc in A. rewrite !Rabs_mult. pose proof PI_RGT_0. rewrite (Rabs_pos_eq PI), (Rabs_pos_eq (/ 180)), (Rabs_pos_eq (/ 2)) by lra.
      apply Rle_trans with ((north x - south x) / 2 * PI * / 180 * / 2); [|right; field]. repeat apply Rmult_le_compat_r; try lra. }
    pose proof (radians_pos (north x - south x) ltac:(lra)).
    assert (r * Rabs (sin (radians (latc - lat) / 2)) <= top x * (radians (north x - south x) / 4)); [|lra].
    apply Rmult_le_compat; try lra. apply Rabs_pos. }
  assert (B1 : 2 * r * cos (radians latc) * Rabs (sin (radians (lonc - lon) / 2)) <= size_lon x / 1.4).
  { destruct (size_lon_half x Rx) as (g & -> & G & S). fold latc in S. change (mid_lat x) with latc in S. set (c := cos (radians latc)) in *. set (D := radians (east x - west x)) in *.
    assert (HD : 0 < D <= PI). { unfold D. rewrite <- radians_180. split; [apply radians_pos|apply radians_le]; lra. }
    assert (Hs : 0 <= sin (D / 4)) by (apply sin_ge_0; lra).
    assert (Q : Rabs (sin (radians (lonc - lon) / 2)) <= sin (D / 4)).
    { assert (A : Rabs (radians (lonc - lon) / 2) <= D / 4).
      { unfold D, radians, Rdiv. pose proof (abs_half (west x) (east x) lon ltac:(lra)) as A. fold lonc in A. rewrite !Rabs_mult. pose proof PI_RGT_0. rewrite (Rabs_pos_eq PI), (Rabs_pos_eq (/ 180)), (Rabs_pos_eq (/ 2)) by lra.
        apply Rle_trans with ((east x - west x) / 2 * PI * / 180 * / 2); [|right; field]. repeat apply Rmult_le_compat_r; try lra. }
      pose proof (Rle_abs (radians (lonc - lon) / 2)) as A1. pose proof (Rle_abs (- (radians (lonc - lon) / 2))) as A2. rewrite Rabs_Ropp in A2. apply Rabs_le. split; [rewrite <- sin_neg|]; apply sin_incr_1; lra. }
    assert (E : sin (g / 2) = c * (2 * sin (D / 4) * cos (D / 4))). { rewrite S. f_equal. replace (D / 2) with (2 * (D / 4)) by field. apply sin_2a. }
    assert (C4 : 0.7 <= cos (D / 4)).
    { apply Rle_trans with (cos (PI / 4)); [|apply cos_decr_1; lra]. rewrite cos_PI4. assert (1.4 <= sqrt 2) by (rewrite <- (sqrt_square 1.4) by lra; apply sqrt_le_1; lra).
      assert (0 < sqrt 2) by lra. replace (1 / sqrt 2) with (sqrt 2 / 2); [lra|]. field_simplify_eq; [|lra]. rewrite <- Rsqr_pow2, Rsqr_sqrt; lra. }
    assert (SG : 2 * sin (g / 2) <= g). { destruct (Rle_lt_or_eq_dec 0 g (proj1 G)) as [Gp|<-]; [pose proof (sin_lt_x (g / 2) ltac:(lra)); lra|]. replace (0 / 2) with 0 by field. rewrite sin_0. lra. }
    assert (M1 : 2.8 * (c * sin (D / 4)) <= g).
    { assert (0 <= c * sin (D / 4)) by (apply Rmult_le_pos; assumption). rewrite E in SG. nra. }
    assert (M2 : r * (c * Rabs (sin (radians (lonc - lon) / 2))) <= top x * (c * sin (D / 4))).
    { apply Rmult_le_compat; try lra; [apply Rmult_le_pos; [assumption|apply Rabs_pos]|]. now apply Rmult_le_compat_l. }
    assert (M3 : top x * (2.8 * (c * sin (D / 4))) <= top x * g) by (apply Rmult_le_compat_l; lra). lra. }
  lra.
Qed.
Lemma inside_never_meets p x ratio : 1.8 <= ratio -> regular x -> east x - west x <= 180 -> in_closed x p -> ~ meets p ratio true x.
Proof.
  intros Hr Rx HW Ip (M1 & M2 & M3). specialize (M3 eq_refl). pose proof (distance_inside p x Rx HW Ip) as D. pose proof Rx as (HL & HS & HN & HR).
  assert (S1 : 0 < size_lon x) by (pose proof (size_lon_nonneg x ltac:(lra)); pose proof (size_lon_pos x Rx); lra).
  assert (S2 : 0 < size_lat x) by (pose proof (size_lat_nonneg x ltac:(lra)); pose proof (size_lat_pos x Rx); lra).
  assert (S3 : 0 < size_rad x) by (unfold size_rad; lra).
  assert (1.8 * size_lon x <= distance_to p x) by nra. assert (1.8 * size_lat x <= distance_to p x) by nra. assert (1.8 * size_rad x <= distance_to p x) by nra. lra.
Qed.
Lemma discretise_within p t ratio cs cm radial out x : regular t -> discretise p t ratio cs cm radial = Ok out -> In x out -> regular x /\ east x - west x <= east t - west t.
Proof.
  intros Rt E Hx. pose proof Rt as (HL & HS & HN & HR). assert (F : fat t) by (unfold fat; lra). assert (B : box t) by (unfold box; lra).
  pose proof (discretise_fat p t ratio cs cm radial out F E) as FF. rewrite Forall_forall in FF. specialize (FF x Hx). unfold fat in FF.
  pose proof (discretise_tiles p t ratio cs cm radial out B E) as T.
  pose proof (tiles_inside _ _ T x (west x, south x, bottom x) Hx) as I1. pose proof (tiles_inside _ _ T x (east x, north x, top x) Hx) as I2.
  cbn in I1, I2. specialize (I1 ltac:(lra)). specialize (I2 ltac:(lra)). unfold regular. lra.
Qed.
Lemma discretise_on_surface p t ratio cs cm : (0 < cs)%nat -> 1.8 <= ratio -> regular t -> east t - west t <= 180 -> in_closed t p -> discretise p t ratio cs cm true = Raise OverflowError.
Proof.
  intros Hc Hr Rt HW Ip. destruct (discretise_regular p t ratio cs cm true Hc Rt) as [[out E]|E]; [exfalso|exact E].
  pose proof Rt as (HL & HS & HN & HR). assert (B : box t) by (unfold box; lra).
  destruct (tiles_cover _ _ (discretise_tiles p t ratio cs cm true out B E) p Ip) as (x & Hx & Ix).
  destruct (discretise_within p t ratio cs cm true out x Rt E Hx) as [Rx Wx].
  pose proof (discretise_criterion p t ratio cs cm true out ltac:(unfold well; lra) E) as M. rewrite Forall_forall in M.
  specialize (M x Hx). revert M. apply inside_never_meets; auto. lra.
Qed.
