(** Iterated integrals over boxes of Lipschitz functions, for claim C105. *)
From Coq Require Import Psatz.
From Coquelicot Require Import Coquelicot.
From Verif Require Import Base BaseFacts DistanceModel TesseroidModel TesseroidSpec TesseroidAdaptProofs TesseroidLimitSpec.
Local Open Scope list_scope. Local Open Scope R_scope.

Definition clamp (a b x : R) : R := Rmax a (Rmin b x).
Lemma clamp_in a b x : a <= b -> a <= clamp a b x <= b.
Proof. intros H. unfold clamp. split; [apply Rmax_l|]. apply Rmax_lub; [exact H|apply Rmin_l]. Qed.
Lemma clamp_id a b x : a <= x <= b -> clamp a b x = x.
Proof. intros H. unfold clamp. rewrite Rmin_right by lra. apply Rmax_right; lra. Qed.
Lemma clamp_lip a b x y : Rabs (clamp a b x - clamp a b y) <= Rabs (x - y).
Proof. unfold clamp, Rmax, Rmin. repeat destruct (Rle_dec _ _); unfold Rabs; repeat destruct (Rcase_abs _); lra. Qed.

Definition lip1 (g : R -> R) (a b L : R) : Prop := forall x y, a <= x <= b -> a <= y <= b -> Rabs (g x - g y) <= L * Rabs (x - y).

Lemma lip_continuous g L : 0 <= L -> (forall x y, Rabs (g x - g y) <= L * Rabs (x - y)) -> forall x, continuous g x.
Proof.
  intros HL H x. apply continuity_pt_filterlim. intros e He. exists (e / (L + 1)). split; [apply Rdiv_lt_0_compat; lra|].
  intros y (_ & Hy). simpl in *. unfold R_dist in *. eapply Rle_lt_trans; [apply H|].
  apply Rle_lt_trans with (L * (e / (L + 1))); [apply Rmult_le_compat_l; lra|]. apply Rlt_le_trans with ((L + 1) * (e / (L + 1))); [|right; field; lra].
  apply Rmult_lt_compat_r; [apply Rdiv_lt_0_compat; lra|lra].
Qed.
Lemma lip_ex g a b L : a <= b -> 0 <= L -> lip1 g a b L -> ex_RInt g a b.
Proof.
  intros Hab HL H. apply (ex_RInt_ext (fun x => g (clamp a b x))).
  - intros x. rewrite Rmin_left, Rmax_right by exact Hab. intros Hx. rewrite clamp_id; [reflexivity|lra].
  - apply (ex_RInt_continuous (V := R_CompleteNormedModule)). intros z _. apply (lip_continuous _ L HL). intros x y.
    eapply Rle_trans; [apply H; now apply clamp_in|]. apply Rmult_le_compat_l; [exact HL|apply clamp_lip].
Qed.
Lemma RInt_close g h a b M : a <= b -> ex_RInt g a b -> ex_RInt h a b -> (forall x, a <= x <= b -> Rabs (g x - h x) <= M) -> Rabs (RInt g a b - RInt h a b) <= (b - a) * M.
Proof.
  intros Hab Hg Hh H. rewrite <- (RInt_minus (V := R_CompleteNormedModule)) by assumption. apply abs_RInt_le_const; auto. now apply (ex_RInt_minus (V := R_NormedModule)).
Qed.

(** A function of three numbers, Lipschitz on a box. *)
Definition lip3 (F : R -> R -> R -> R) (t : tess) (L : R) : Prop := forall x y z x' y' z',
  in_closed t (x, y, z) -> in_closed t (x', y', z') -> Rabs (F x y z - F x' y' z') <= L * (Rabs (x - x') + Rabs (y - y') + Rabs (z - z')).

Section Box.
Variables (F : R -> R -> R -> R) (t : tess) (L : R).
Hypotheses (HB : box t) (HL : 0 <= L) (HF : lip3 F t L).

Definition inner (lat r : R) : R := RInt (fun lon => F lon lat r) (west t) (east t).
Definition middle (r : R) : R := RInt (fun lat => inner lat r) (south t) (north t).

Lemma inner_ex lat r : south t <= lat <= north t -> bottom t <= r <= top t -> ex_RInt (fun lon => F lon lat r) (west t) (east t).
Proof.
  intros H1 H2. destruct HB as (B1 & B2 & B3). apply (lip_ex _ _ _ L); auto. intros x y Hx Hy. eapply Rle_trans; [apply HF; cbn; lra|].
  rewrite (Rminus_diag_eq lat lat), (Rminus_diag_eq r r), Rabs_R0 by reflexivity. apply Rmult_le_compat_l; lra.
Qed.
Lemma inner_lip lat r lat' r' : south t <= lat <= north t -> bottom t <= r <= top t -> south t <= lat' <= north t -> bottom t <= r' <= top t ->
  Rabs (inner lat r - inner lat' r') <= (east t - west t) * (L * (Rabs (lat - lat') + Rabs (r - r'))).
Proof.
  intros H1 H2 H3 H4. destruct HB as (B1 & B2 & B3). apply RInt_close; auto using inner_ex. intros x Hx. eapply Rle_trans; [apply HF; cbn; lra|].
  rewrite (Rminus_diag_eq x x), Rabs_R0 by reflexivity. apply Rmult_le_compat_l; lra.
Qed.
Lemma middle_ex r : bottom t <= r <= top t -> ex_RInt (fun lat => inner lat r) (south t) (north t).
Proof.
  intros H. destruct HB as (B1 & B2 & B3). apply (lip_ex _ _ _ ((east t - west t) * L)); auto; [apply Rmult_le_pos; lra|]. intros x y Hx Hy. eapply Rle_trans; [apply inner_lip; assumption|].
  rewrite (Rminus_diag_eq r r), Rabs_R0 by reflexivity. right. ring.
Qed.
Lemma middle_lip r r' : bottom t <= r <= top t -> bottom t <= r' <= top t -> Rabs (middle r - middle r') <= (north t - south t) * ((east t - west t) * (L * Rabs (r - r'))).
Proof.
  intros H1 H2. destruct HB as (B1 & B2 & B3). apply RInt_close; auto using middle_ex. intros x Hx. eapply Rle_trans; [apply inner_lip; assumption|].
  rewrite (Rminus_diag_eq x x), Rabs_R0 by reflexivity. right. ring.
Qed.
Lemma outer_ex : ex_RInt middle (bottom t) (top t).
Proof.
  destruct HB as (B1 & B2 & B3). apply (lip_ex _ _ _ ((north t - south t) * ((east t - west t) * L))); auto; [repeat apply Rmult_le_pos; lra|]. intros x y Hx Hy. eapply Rle_trans; [apply middle_lip; assumption|]. right. ring.
Qed.
End Box.

Definition box_integral (F : R -> R -> R -> R) (t : tess) : R := RInt (middle F t) (bottom t) (top t).

(** Bounds by comparison. *)
Lemma box_le F H t L L' : box t -> 0 <= L -> 0 <= L' -> lip3 F t L -> lip3 H t L' -> (forall x y z, in_closed t (x, y, z) -> F x y z <= H x y z) -> box_integral F t <= box_integral H t.
Proof.
  intros B HL HL' HF HH Hle. pose proof B as (B1 & B2 & B3). unfold box_integral.
  apply RInt_le; [exact B3|exact (outer_ex F t L B HL HF)|exact (outer_ex H t L' B HL' HH)|]. intros r Hr.
  assert (Hr' : bottom t <= r <= top t) by lra. unfold middle.
  apply RInt_le; [exact B2|exact (middle_ex F t L B HL HF r Hr')|exact (middle_ex H t L' B HL' HH r Hr')|]. intros lat Hlat.
  assert (Hl' : south t <= lat <= north t) by lra. unfold inner.
  apply RInt_le; [exact B1|exact (inner_ex F t L B HL HF lat r Hl' Hr')|exact (inner_ex H t L' B HL' HH lat r Hl' Hr')|]. intros lon Hlon. apply Hle. cbn. lra.
Qed.

(** Cutting an interval into n equal parts. *)
Lemma RInt_parts (g : R -> R) a d n : 0 <= d -> ex_RInt g a (a + d * INR n) ->
  sum_over (range 0 n) (fun i => RInt g (a + d * INR i) (a + d * INR (i + 1))) = RInt g a (a + d * INR n).
Proof.
  intros Hd. induction n as [|n IH]; intros E.
  - replace (a + d * INR 0) with a by (simpl; ring). rewrite RInt_point. reflexivity.
  - unfold range in *. rewrite Nat.sub_0_r in *. rewrite seq_S, sum_over_app. assert (S1 : INR (S n) = INR n + 1) by apply S_INR. pose proof (pos_INR n) as P.
    assert (E1 : ex_RInt g a (a + d * INR n)) by (apply (ex_RInt_Chasles_1 (V := R_CompleteNormedModule)) with (a + d * INR (S n)); [split; [nra|rewrite S1; nra]|exact E]).
    assert (E2 : ex_RInt g (a + d * INR n) (a + d * INR (S n))) by (apply (ex_RInt_Chasles_2 (V := R_CompleteNormedModule)) with a; [split; [nra|rewrite S1; nra]|exact E]).
    rewrite IH by exact E1. rewrite <- (RInt_Chasles (V := R_CompleteNormedModule) g a (a + d * INR n) (a + d * INR (S n))) by assumption.
    unfold sum_over. cbn [map sumR]. rewrite Nat.add_1_r. change (0 + n)%nat with n. rewrite Rplus_0_r. reflexivity.
Qed.

Lemma sum_RInt {A} (l : list A) (f : A -> R -> R) a b : (forall x, In x l -> ex_RInt (f x) a b) ->
  ex_RInt (fun y => sum_over l (fun x => f x y)) a b /\ RInt (fun y => sum_over l (fun x => f x y)) a b = sum_over l (fun x => RInt (f x) a b).
Proof.
  induction l as [|x l IH]; intros H.
  - change (ex_RInt (fun _ : R => 0) a b /\ RInt (fun _ : R => 0) a b = 0). split; [apply (ex_RInt_const (V := R_NormedModule))|]. rewrite (RInt_const (V := R_CompleteNormedModule)). apply Rmult_0_r.
  - destruct IH as [I1 I2]; [intros y Hy; apply H; now right|]. assert (Hx : ex_RInt (f x) a b) by (apply H; now left). split.
    + apply (ex_RInt_ext (fun y => plus (f x y) (sum_over l (fun x => f x y)))); [reflexivity|]. now apply (ex_RInt_plus (V := R_NormedModule)).
    + rewrite (RInt_ext _ (fun y => plus (f x y) (sum_over l (fun x => f x y)))) by reflexivity. rewrite (RInt_plus (V := R_CompleteNormedModule)) by assumption. rewrite I2. reflexivity.
Qed.

Lemma part_at a b n i : a <= b -> (i < n)%nat -> a <= a + (b - a) / INR n * INR i <= a + (b - a) / INR n * INR (i + 1) /\ a + (b - a) / INR n * INR (i + 1) <= b.
Proof.
  intros H Hi. assert (Hn : 0 < INR n) by (apply lt_0_INR; lia). rewrite plus_INR. change (INR 1) with 1. pose proof (pos_INR i) as P.
  assert (Q : INR i + 1 <= INR n) by (rewrite <- S_INR; apply le_INR; lia). assert (D : 0 <= (b - a) / INR n) by (apply Rmult_le_pos; [lra|left; now apply Rinv_0_lt_compat]).
  assert (E : (b - a) / INR n * INR n = b - a) by (field; lra). set (d := (b - a) / INR n) in *. nra.
Qed.
Lemma RInt_equal_parts (g : R -> R) a b n : a <= b -> (0 < n)%nat -> ex_RInt g a b ->
  sum_over (range 0 n) (fun i => RInt g (a + (b - a) / INR n * INR i) (a + (b - a) / INR n * INR (i + 1))) = RInt g a b.
Proof.
  intros H Hn E. assert (Hr : 0 < INR n) by (apply lt_0_INR; lia). assert (Eb : b = a + (b - a) / INR n * INR n) by (field; lra).
  rewrite RInt_parts; [now rewrite <- Eb| |now rewrite <- Eb]. apply Rmult_le_pos; [lra|left; now apply Rinv_0_lt_compat].
Qed.

Lemma lip3_part F t x L : (forall q, in_closed x q -> in_closed t q) -> lip3 F t L -> lip3 F x L.
Proof. intros S H a b c a' b' c' H1 H2. apply H; now apply S. Qed.

Lemma sum_ext_in {A} (l : list A) f g : (forall x, In x l -> f x = g x) -> sum_over l f = sum_over l g.
Proof. intros H. unfold sum_over. f_equal. now apply map_ext_in. Qed.
Lemma split_lon_part n t x : box t -> In x (split_lon n t) -> box x /\ (forall q, in_closed x q -> in_closed t q).
Proof.
  intros (B1 & B2 & B3) H. unfold split_lon in H. apply in_map_iff in H. destruct H as (i & <- & Hi). apply range_in in Hi. destruct (part_at (west t) (east t) n i B1 ltac:(lia)) as (P1 & P2).
  split; [unfold box; cbn; lra|]. intros [[a b] c]. cbn. lra.
Qed.

Lemma split_lat_part n t x : box t -> In x (split_lat n t) -> box x /\ (forall q, in_closed x q -> in_closed t q).
Proof.
  intros (B1 & B2 & B3) H. unfold split_lat in H. apply in_map_iff in H. destruct H as (i & <- & Hi). apply range_in in Hi. destruct (part_at (south t) (north t) n i B2 ltac:(lia)) as (P1 & P2).
  split; [unfold box; cbn; lra|]. intros [[a b] c]. cbn. lra.
Qed.
Lemma split_rad_part n t x : box t -> In x (split_rad n t) -> box x /\ (forall q, in_closed x q -> in_closed t q).
Proof.
  intros (B1 & B2 & B3) H. unfold split_rad in H. apply in_map_iff in H. destruct H as (i & <- & Hi). apply range_in in Hi. destruct (part_at (bottom t) (top t) n i B3 ltac:(lia)) as (P1 & P2).
  split; [unfold box; cbn; lra|]. intros [[a b] c]. cbn. lra.
Qed.

Lemma sum_over_flat_map' {A B} (g : A -> list B) l f : sum_over (flat_map g l) f = sum_over l (fun x => sum_over (g x) f).
Proof. induction l as [|x l IH]; [reflexivity|]. cbn [flat_map]. rewrite sum_over_app, IH. reflexivity. Qed.
Section Splits.
Variables (F : R -> R -> R -> R) (t : tess) (L : R) (n : nat).
Hypotheses (HB : box t) (HL : 0 <= L) (HF : lip3 F t L) (Hn : (0 < n)%nat).

Lemma box_split_rad : sum_over (split_rad n t) (box_integral F) = box_integral F t.
Proof.
  unfold split_rad. rewrite sum_over_map. unfold box_integral. cbn [bottom top].
  exact (RInt_equal_parts (middle F t) (bottom t) (top t) n (proj2 (proj2 HB)) Hn (outer_ex F t L HB HL HF)).
Qed.
Lemma box_split_lat : sum_over (split_lat n t) (box_integral F) = box_integral F t.
Proof.
  pose proof HB as (B1 & B2 & B3). unfold split_lat. rewrite sum_over_map. unfold box_integral at 1. cbn [bottom top].
  set (x := fun j => Tess (west t) (east t) (south t + (north t - south t) / INR n * INR j) (south t + (north t - south t) / INR n * INR (j + 1)) (bottom t) (top t)).
  change (sum_over (range 0 n) (fun j => RInt (middle F (x j)) (bottom t) (top t)) = box_integral F t).
  assert (P : forall j, In j (range 0 n) -> box (x j) /\ (forall q, in_closed (x j) q -> in_closed t q)).
  { intros j Hj. apply (split_lat_part n t); [exact HB|]. unfold split_lat. apply in_map_iff. exists j. split; [reflexivity|exact Hj]. }
  destruct (sum_RInt (range 0 n) (fun j => middle F (x j)) (bottom t) (top t)) as [_ E].
  { intros j Hj. destruct (P j Hj) as (Q1 & Q2). exact (outer_ex F (x j) L Q1 HL (lip3_part _ _ _ _ Q2 HF)). }
  rewrite <- E. unfold box_integral. apply RInt_ext. rewrite Rmin_left, Rmax_right by exact B3. intros r Hr.
  exact (RInt_equal_parts (fun lat => inner F t lat r) (south t) (north t) n B2 Hn (middle_ex F t L HB HL HF r ltac:(lra))).
Qed.
Lemma box_split_lon : sum_over (split_lon n t) (box_integral F) = box_integral F t.
Proof.
  pose proof HB as (B1 & B2 & B3). unfold split_lon. rewrite sum_over_map. unfold box_integral at 1. cbn [bottom top].
  set (x := fun i => Tess (west t + (east t - west t) / INR n * INR i) (west t + (east t - west t) / INR n * INR (i + 1)) (south t) (north t) (bottom t) (top t)).
  change (sum_over (range 0 n) (fun j => RInt (middle F (x j)) (bottom t) (top t)) = box_integral F t).
  assert (P : forall j, In j (range 0 n) -> box (x j) /\ (forall q, in_closed (x j) q -> in_closed t q)).
  { intros j Hj. apply (split_lon_part n t); [exact HB|]. unfold split_lon. apply in_map_iff. exists j. split; [reflexivity|exact Hj]. }
  destruct (sum_RInt (range 0 n) (fun j => middle F (x j)) (bottom t) (top t)) as [_ E].
  { intros j Hj. destruct (P j Hj) as (Q1 & Q2). exact (outer_ex F (x j) L Q1 HL (lip3_part _ _ _ _ Q2 HF)). }
  rewrite <- E. unfold box_integral. apply RInt_ext. rewrite Rmin_left, Rmax_right by exact B3. intros r Hr. assert (Hr' : bottom t <= r <= top t) by lra.
  destruct (sum_RInt (range 0 n) (fun j lat => inner F (x j) lat r) (south t) (north t)) as [_ E2].
  { intros j Hj. destruct (P j Hj) as (Q1 & Q2). exact (middle_ex F (x j) L Q1 HL (lip3_part _ _ _ _ Q2 HF) r Hr'). }
  transitivity (sum_over (range 0 n) (fun j => RInt (fun lat => inner F (x j) lat r) (south t) (north t))); [reflexivity|]. rewrite <- E2. unfold middle. apply RInt_ext.
  rewrite Rmin_left, Rmax_right by exact B2. intros lat Hlat. exact (RInt_equal_parts (fun lon => F lon lat r) (west t) (east t) n B1 Hn (inner_ex F t L HB HL HF lat r ltac:(lra) Hr')).
Qed.
End Splits.

Lemma box_pieces F t L a b c : box t -> 0 <= L -> lip3 F t L -> (0 < a)%nat -> (0 < b)%nat -> (0 < c)%nat ->
  sum_over (pieces t a b c) (box_integral F) = box_integral F t.
Proof.
  intros B HL HF Ha Hb Hc. rewrite pieces_splits. rewrite sum_over_flat_map'. rewrite sum_over_flat_map'. rewrite <- (box_split_lon F t L a) by assumption.
  apply sum_ext_in. intros x Hx. destruct (split_lon_part _ _ _ B Hx) as (B1 & S1). rewrite <- (box_split_lat F x L b) by eauto using lip3_part.
  apply sum_ext_in. intros y Hy. destruct (split_lat_part _ _ _ B1 Hy) as (B2 & S2). eapply box_split_rad; eauto using lip3_part.
Qed.
Lemma pieces_part t a b c y : box t -> In y (pieces t a b c) -> box y /\ (forall q, in_closed y q -> in_closed t q).
Proof.
  intros B H. rewrite pieces_splits in H. apply in_flat_map in H. destruct H as (z & Hz & Hy). apply in_flat_map in Hz. destruct Hz as (x & Hx & Hz).
  destruct (split_lon_part _ _ _ B Hx) as (B1 & S1), (split_lat_part _ _ _ B1 Hz) as (B2 & S2), (split_rad_part _ _ _ B2 Hy) as (B3 & S3). split; auto.
Qed.
