(** Facts about the discrete Fourier transform of TransformModel: inversion, Parseval, reality and plane waves. *)
From Coquelicot Require Import Coquelicot.
From Verif Require Import Base BaseFacts NumPy UtilsModel TransformModel.
Local Open Scope R_scope.
Local Notation C := Complex.C.

Ltac ceq := apply injective_projections; cbn; try ring.

Lemma cis_add a b : cis (a + b) = Cmult (cis a) (cis b).
Proof. unfold cis, Cmult. cbn. rewrite cos_plus, sin_plus. f_equal; ring. Qed.
Lemma cis_0 : cis 0 = RtoC 1.
Proof. unfold cis, RtoC. now rewrite cos_0, sin_0. Qed.
Lemma cis_opp a : cis (- a) = Cconj (cis a).
Proof. unfold cis, Cconj. cbn. now rewrite cos_neg, sin_neg. Qed.
Lemma cis_neg_r a : Cmult (cis a) (cis (- a)) = RtoC 1.
Proof. rewrite <- cis_add, Rplus_opp_r. apply cis_0. Qed.
Lemma cis_neg_l a : Cmult (cis (- a)) (cis a) = RtoC 1.
Proof. rewrite <- cis_add, Rplus_opp_l. apply cis_0. Qed.

(** ** Sums *)
Lemma csum_ext n f g : (forall i, (i < n)%nat -> f i = g i) -> csum n f = csum n g.
Proof. induction n as [|n IH]; intros H; cbn; [reflexivity|]. rewrite IH by (intros; apply H; lia). now rewrite H by lia. Qed.
Lemma csum_plus n f g : csum n (fun i => Cplus (f i) (g i)) = Cplus (csum n f) (csum n g).
Proof. induction n as [|n IH]; cbn; [ring|]. rewrite IH. ring. Qed.
Lemma csum_mult_l n c f : csum n (fun i => Cmult c (f i)) = Cmult c (csum n f).
Proof. induction n as [|n IH]; cbn; [ring|]. rewrite IH. ring. Qed.
Lemma csum_mult_r n c f : csum n (fun i => Cmult (f i) c) = Cmult (csum n f) c.
Proof. induction n as [|n IH]; cbn; [ring|]. rewrite IH. ring. Qed.
Lemma csum_zero n f : (forall i, (i < n)%nat -> f i = RtoC 0) -> csum n f = RtoC 0.
Proof. intros H. induction n as [|n IH]; cbn; [reflexivity|]. rewrite IH by (intros; apply H; lia). rewrite H by lia. ring. Qed.
Lemma csum_swap n m f : csum n (fun i => csum m (fun j => f i j)) = csum m (fun j => csum n (fun i => f i j)).
Proof.
  induction n as [|n IH]; cbn.
  - symmetry. now apply csum_zero.
  - rewrite IH. symmetry. apply csum_plus.
Qed.
Lemma csum_conj n f : Cconj (csum n f) = csum n (fun i => Cconj (f i)).
Proof. induction n as [|n IH]; cbn; [ceq|]. rewrite <- IH. ceq. Qed.
Lemma csum_single n f i : (i < n)%nat -> (forall j, (j < n)%nat -> j <> i -> f j = RtoC 0) -> csum n f = f i.
Proof.
  induction n as [|n IH]; intros Hi H; [lia|]. cbn. destruct (Nat.eq_dec i n) as [->|N].
  - rewrite csum_zero by (intros j Hj; apply H; lia). ring.
  - rewrite IH by (try lia; intros; apply H; lia). rewrite (H n) by lia. ring.
Qed.
Lemma csum_Sl n f : csum (S n) f = Cplus (f 0%nat) (csum n (fun i => f (S i))).
Proof. induction n as [|n IH]; [cbn; ring|]. change (csum (S (S n)) f) with (Cplus (csum (S n) f) (f (S n))). rewrite IH. cbn. ring. Qed.
Lemma csum_rev n f : csum n f = csum n (fun i => f (n - 1 - i)%nat).
Proof.
  induction n as [|n IH]; [reflexivity|]. rewrite (csum_Sl n (fun i => f (S n - 1 - i)%nat)). cbn [csum]. rewrite IH, Cplus_comm. f_equal.
  - f_equal. lia.
  - apply csum_ext. intros i Hi. f_equal. lia.
Qed.
Lemma csum_RtoC n (f : nat -> R) : csum n (fun i => RtoC (f i)) = RtoC (sum_over (range 0 n) f).
Proof.
  unfold range. rewrite Nat.sub_0_r. induction n as [|n IH]; [reflexivity|]. cbn [csum]. rewrite IH. rewrite seq_S, sum_over_app. unfold sum_over at 3. cbn. ceq.
Qed.

(** ** Roots of unity *)
Lemma geometric n t : Cmult (Cminus (cis t) (RtoC 1)) (csum n (fun k => cis (INR k * t))) = Cminus (cis (INR n * t)) (RtoC 1).
Proof.
  induction n as [|n IH]; cbn [csum].
  - cbn [INR]. rewrite Rmult_0_l, cis_0. ring.
  - rewrite Cmult_plus_distr_l, IH. rewrite S_INR. replace ((INR n + 1) * t) with (INR n * t + t) by ring. rewrite cis_add. ring.
Qed.
Lemma cis_not_one t : 0 < Rabs t < 2 * PI -> cis t <> RtoC 1.
Proof.
  intros [H1 H2] E. assert (Ec : cos t = 1) by now inversion E.
  assert (S : sin (t / 2) = 0).
  { replace t with (2 * (t / 2)) in Ec by field. rewrite cos_2a in Ec. pose proof (sin2_cos2 (t / 2)) as P. unfold Rsqr in P. nra. }
  destruct (Rlt_dec 0 t) as [Ht|Ht].
  - rewrite Rabs_pos_eq in * by lra. assert (0 < sin (t / 2)) by (apply sin_gt_0; lra). lra.
  - rewrite Rabs_left1 in * by lra. assert (0 < sin (- (t / 2))) by (apply sin_gt_0; lra). rewrite sin_neg in *. lra.
Qed.
Lemma cis_2PI_nat k : cis (2 * PI * INR k) = RtoC 1.
Proof.
  induction k as [|k IH]; [cbn [INR]; rewrite Rmult_0_r; apply cis_0|].
  rewrite S_INR. replace (2 * PI * (INR k + 1)) with (2 * PI * INR k + 2 * PI) by ring. rewrite cis_add, IH. unfold cis. rewrite cos_2PI, sin_2PI. ceq.
Qed.
(** Sum over the frequencies (or positions) of the waves with the difference of two indices. *)
Lemma orthogonal n c a b : (a < n)%nat -> (b < n)%nat ->
  csum n (fun k => cis (2 * PI * ((INR k - c) * (INR a - INR b) / INR n))) = if Nat.eq_dec a b then RtoC (INR n) else RtoC 0.
Proof.
  intros Ha Hb. assert (Hn : 0 < INR n) by (apply lt_0_INR; lia).
  destruct (Nat.eq_dec a b) as [->|N].
  - rewrite (csum_ext n _ (fun _ => RtoC 1)).
    2:{ intros k _. replace (2 * PI * ((INR k - c) * (INR b - INR b) / INR n)) with 0 by (field; lra). apply cis_0. }
    rewrite csum_RtoC. f_equal. unfold range. rewrite Nat.sub_0_r. clear. induction n as [|n IH]; [reflexivity|]. rewrite seq_S, sum_over_app, IH, S_INR. unfold sum_over. cbn. ring.
  - set (t := 2 * PI * ((INR a - INR b) / INR n)).
    rewrite (csum_ext n _ (fun k => Cmult (cis (- (c * t))) (cis (INR k * t)))).
    2:{ intros k _. rewrite <- cis_add. f_equal. unfold t. field. lra. }
    rewrite csum_mult_l.
    assert (G := geometric n t).
    assert (E1 : cis (INR n * t) = RtoC 1).
    { unfold t. replace (INR n * (2 * PI * ((INR a - INR b) / INR n))) with (2 * PI * (INR a - INR b)) by (field; lra).
      destruct (le_dec b a) as [L|L].
      - rewrite <- minus_INR by assumption. apply cis_2PI_nat.
      - replace (2 * PI * (INR a - INR b)) with (- (2 * PI * INR (b - a))) by (rewrite minus_INR by lia; ring). rewrite cis_opp, cis_2PI_nat. ceq. }
    assert (E2 : cis t <> RtoC 1).
    { apply cis_not_one. unfold t. pose proof PI_RGT_0. rewrite Rabs_mult, (Rabs_pos_eq (2 * PI)) by lra.
      assert (Q : 0 < Rabs ((INR a - INR b) / INR n) < 1).
      { unfold Rdiv. rewrite Rabs_mult, (Rabs_pos_eq (/ INR n)) by (left; now apply Rinv_0_lt_compat).
        assert (L : 1 <= Rabs (INR a - INR b)).
        { destruct (le_lt_dec b a) as [L|L].
          - rewrite <- minus_INR by assumption. rewrite Rabs_pos_eq by apply pos_INR. change 1 with (INR 1). apply le_INR. lia.
          - rewrite Rabs_minus_sym, <- minus_INR by lia. rewrite Rabs_pos_eq by apply pos_INR. change 1 with (INR 1). apply le_INR. lia. }
        assert (U : Rabs (INR a - INR b) < INR n).
        { destruct (le_lt_dec b a) as [L'|L'].
          - rewrite <- minus_INR by assumption. rewrite Rabs_pos_eq by apply pos_INR. apply lt_INR. lia.
          - rewrite Rabs_minus_sym, <- minus_INR by lia. rewrite Rabs_pos_eq by apply pos_INR. apply lt_INR. lia. }
        split.
        - apply Rmult_lt_0_compat; [lra|now apply Rinv_0_lt_compat].
        - apply (Rmult_lt_reg_r (INR n)); [assumption|]. rewrite Rmult_assoc, Rinv_l, Rmult_1_r, Rmult_1_l by lra. assumption. }
      split; [apply Rmult_lt_0_compat; lra|]. rewrite <- (Rmult_1_r (2 * PI)) at 2. apply Rmult_lt_compat_l; lra. }
    rewrite E1 in G. assert (Z : csum n (fun k => cis (INR k * t)) = RtoC 0).
    { set (s := csum n _) in *. clearbody s.
      assert (D : Cminus (cis t) (RtoC 1) <> RtoC 0) by (intros Q; apply E2; replace (cis t) with (Cplus (Cminus (cis t) (RtoC 1)) (RtoC 1)) by ring; rewrite Q; ring).
      replace s with (Cmult (Cinv (Cminus (cis t) (RtoC 1))) (Cmult (Cminus (cis t) (RtoC 1)) s)) by (field; exact D).
      rewrite G. ring. }
    rewrite Z. ring.
Qed.

(** ** One dimensional transforms *)
Definition wave (a : axis) (k i : nat) : C := cis (2 * PI * (freq a k * position a i)).
Definition waven (a : axis) (k i : nat) : C := cis (- (2 * PI * (freq a k * position a i))).
Definition dft (a : axis) (v : nat -> C) (k : nat) : C := csum (a_n a) (fun i => Cmult (v i) (waven a k i)).
Definition idft (a : axis) (G : nat -> C) (i : nat) : C := csum (a_n a) (fun k => Cmult (G k) (wave a k i)).
Definition good (a : axis) : Prop := (0 < a_n a)%nat /\ a_d a <> 0.

Lemma sum_over_freq a i i' : good a -> (i < a_n a)%nat -> (i' < a_n a)%nat ->
  csum (a_n a) (fun k => Cmult (wave a k i) (waven a k i')) = if Nat.eq_dec i i' then RtoC (INR (a_n a)) else RtoC 0.
Proof.
  intros [Hn Hd] Hi Hi'. assert (INR (a_n a) <> 0) by (apply not_0_INR; lia).
  rewrite <- (orthogonal (a_n a) (INR (a_n a / 2)) i i') by assumption. apply csum_ext. intros k _. unfold wave, waven. rewrite <- cis_add. f_equal.
  unfold freq, position. field. split; assumption.
Qed.
Lemma sum_over_pos a k k' : good a -> (k < a_n a)%nat -> (k' < a_n a)%nat ->
  csum (a_n a) (fun i => Cmult (wave a k i) (waven a k' i)) = if Nat.eq_dec k k' then RtoC (INR (a_n a)) else RtoC 0.
Proof.
  intros [Hn Hd] Hk Hk'. assert (INR (a_n a) <> 0) by (apply not_0_INR; lia).
  rewrite (csum_ext _ _ (fun i => Cmult (cis (2 * PI * ((INR k - INR k') / (INR (a_n a) * a_d a) * a_lag a))) (cis (2 * PI * ((INR i - INR (a_n a / 2)) * (INR k - INR k') / INR (a_n a)))))).
  2:{ intros i _. unfold wave, waven. rewrite <- !cis_add. f_equal. unfold freq, position. field. split; assumption. }
  rewrite csum_mult_l, orthogonal by assumption. destruct (Nat.eq_dec k k') as [->|N]; [|ring].
  replace (2 * PI * ((INR k' - INR k') / (INR (a_n a) * a_d a) * a_lag a)) with 0 by (field; split; assumption). rewrite cis_0. ring.
Qed.
Lemma idft_dft a v i : good a -> (i < a_n a)%nat -> idft a (dft a v) i = Cmult (RtoC (INR (a_n a))) (v i).
Proof.
  intros G Hi. unfold idft, dft.
  rewrite (csum_ext _ _ (fun k => csum (a_n a) (fun i' => Cmult (v i') (Cmult (wave a k i) (waven a k i'))))).
  2:{ intros k _. rewrite <- csum_mult_r. apply csum_ext. intros i' _. ring. }
  rewrite csum_swap. rewrite (csum_single _ _ i Hi).
  - rewrite csum_mult_l, sum_over_freq by assumption. destruct (Nat.eq_dec i i); [ring|congruence].
  - intros j Hj N. rewrite csum_mult_l, sum_over_freq by assumption. destruct (Nat.eq_dec i j); [congruence|ring].
Qed.
Lemma dft_idft a G k : good a -> (k < a_n a)%nat -> dft a (idft a G) k = Cmult (RtoC (INR (a_n a))) (G k).
Proof.
  intros Go Hk. unfold idft, dft.
  rewrite (csum_ext _ _ (fun i => csum (a_n a) (fun k' => Cmult (G k') (Cmult (wave a k' i) (waven a k i))))).
  2:{ intros i _. rewrite <- csum_mult_r. apply csum_ext. intros k' _. ring. }
  rewrite csum_swap. rewrite (csum_single _ _ k Hk).
  - rewrite csum_mult_l, sum_over_pos by assumption. destruct (Nat.eq_dec k k); [ring|congruence].
  - intros j Hj N. rewrite csum_mult_l, sum_over_pos by assumption. destruct (Nat.eq_dec j k); [congruence|ring].
Qed.
Lemma wave_conj a k i : Cconj (wave a k i) = waven a k i.
Proof. unfold wave, waven. now rewrite cis_opp. Qed.
Definition csq (z : C) : C := Cmult z (Cconj z).
Lemma csq_mult a b : csq (Cmult a b) = Cmult (csq a) (csq b).
Proof. unfold csq. destruct a, b. ceq. Qed.
Lemma csq_RtoC r : csq (RtoC r) = RtoC (r * r).
Proof. unfold csq. ceq. Qed.
(** Parseval's identity. *)
Lemma parseval a G : good a -> csum (a_n a) (fun i => csq (idft a G i)) = Cmult (RtoC (INR (a_n a))) (csum (a_n a) (fun k => csq (G k))).
Proof.
  intros Go.
  rewrite (csum_ext _ _ (fun i => csum (a_n a) (fun k => Cmult (Cconj (G k)) (Cmult (idft a G i) (waven a k i))))).
  2:{ intros i _. unfold csq. unfold idft at 2. rewrite csum_conj, <- csum_mult_l. apply csum_ext. intros k _. rewrite <- wave_conj. generalize (idft a G i) (wave a k i) (G k). intros [] [] []. ceq. }
  rewrite csum_swap, <- csum_mult_l. apply csum_ext. intros k Hk. rewrite csum_mult_l.
  change (csum (a_n a) (fun i => Cmult (idft a G i) (waven a k i))) with (dft a (idft a G) k). rewrite dft_idft by assumption. unfold csq. ring.
Qed.

(** ** Two dimensional transforms *)
Definition fft2 (ay ax : axis) (v : nat -> nat -> C) (k l : nat) : C := Cmult (RtoC (a_d ay * a_d ax)) (dft ay (fun i => dft ax (v i) l) k).
Lemma ifft_idft ay ax F i j : ifft ay ax F i j = Cmult (RtoC (/ (INR (a_n ay) * a_d ay) * / (INR (a_n ax) * a_d ax))) (idft ay (fun k => idft ax (F k) j) i).
Proof.
  unfold ifft. f_equal. unfold csum2, idft. apply csum_ext. intros k _. rewrite <- csum_mult_r. apply csum_ext. intros l _.
  unfold wave. rewrite <- Cmult_assoc, <- cis_add. do 2 f_equal. ring.
Qed.
Definition flipped (ay ax : axis) (v : nat -> nat -> R) (i j : nat) : C := RtoC (v (flip_index ay i) (flip_index ax j)).
Lemma fft_fft2 ay ax v k l : fft ay ax v k l = fft2 ay ax (flipped ay ax v) k l.
Proof.
  unfold fft, fft2. f_equal. unfold csum2, dft. apply csum_ext. intros i _. rewrite <- csum_mult_r. apply csum_ext. intros j _.
  unfold waven, flipped. rewrite <- Cmult_assoc, <- cis_add. do 2 f_equal. ring.
Qed.
Lemma csum2_ext n m f g : (forall i j, (i < n)%nat -> (j < m)%nat -> f i j = g i j) -> csum2 n m f = csum2 n m g.
Proof. intros H. apply csum_ext. intros i Hi. apply csum_ext. auto. Qed.
Lemma dft_ext a f g k : (forall i, (i < a_n a)%nat -> f i = g i) -> dft a f k = dft a g k.
Proof. intros H. apply csum_ext. intros i Hi. now rewrite H. Qed.
Lemma idft_ext a f g k : (forall i, (i < a_n a)%nat -> f i = g i) -> idft a f k = idft a g k.
Proof. intros H. apply csum_ext. intros i Hi. now rewrite H. Qed.
Lemma dft_scal a c v k : dft a (fun i => Cmult c (v i)) k = Cmult c (dft a v k).
Proof. unfold dft. rewrite <- csum_mult_l. apply csum_ext. intros; ring. Qed.
Lemma idft_scal a c v k : idft a (fun i => Cmult c (v i)) k = Cmult c (idft a v k).
Proof. unfold idft. rewrite <- csum_mult_l. apply csum_ext. intros; ring. Qed.
Lemma dft_plus a v w k : dft a (fun i => Cplus (v i) (w i)) k = Cplus (dft a v k) (dft a w k).
Proof. unfold dft. rewrite <- csum_plus. apply csum_ext. intros; ring. Qed.
Lemma idft_plus a v w k : idft a (fun i => Cplus (v i) (w i)) k = Cplus (idft a v k) (idft a w k).
Proof. unfold idft. rewrite <- csum_plus. apply csum_ext. intros; ring. Qed.
Lemma ifft_ext ay ax F G i j : (forall k l, (k < a_n ay)%nat -> (l < a_n ax)%nat -> F k l = G k l) -> ifft ay ax F i j = ifft ay ax G i j.
Proof. intros H. rewrite !ifft_idft. f_equal. apply idft_ext. intros k Hk. apply idft_ext. auto. Qed.
Lemma fft2_ext ay ax v w k l : (forall i j, (i < a_n ay)%nat -> (j < a_n ax)%nat -> v i j = w i j) -> fft2 ay ax v k l = fft2 ay ax w k l.
Proof. intros H. unfold fft2. f_equal. apply dft_ext. intros i Hi. apply dft_ext. auto. Qed.
Lemma ifft_plus ay ax F G i j : ifft ay ax (fun k l => Cplus (F k l) (G k l)) i j = Cplus (ifft ay ax F i j) (ifft ay ax G i j).
Proof.
  rewrite !ifft_idft, <- Cmult_plus_distr_l. f_equal. rewrite <- idft_plus. apply idft_ext. intros k _. now rewrite <- idft_plus.
Qed.
Lemma ifft_scal ay ax c F i j : ifft ay ax (fun k l => Cmult c (F k l)) i j = Cmult c (ifft ay ax F i j).
Proof.
  rewrite !ifft_idft. rewrite (idft_ext _ _ (fun k => Cmult c (idft ax (F k) j))); [rewrite idft_scal; ring|]. intros k _. now rewrite <- idft_scal.
Qed.
Lemma norm_factor a : good a -> Cmult (RtoC (/ (INR (a_n a) * a_d a))) (Cmult (RtoC (a_d a)) (RtoC (INR (a_n a)))) = RtoC 1.
Proof. intros [H1 H2]. assert (INR (a_n a) <> 0) by (apply not_0_INR; lia). rewrite <- !RtoC_mult. f_equal. field. split; assumption. Qed.
Theorem ifft_fft2 ay ax v i j : good ay -> good ax -> (i < a_n ay)%nat -> (j < a_n ax)%nat -> ifft ay ax (fft2 ay ax v) i j = v i j.
Proof.
  intros Gy Gx Hi Hj. rewrite ifft_idft. unfold fft2.
  rewrite (idft_ext ay _ (fun k => Cmult (RtoC (a_d ay * a_d ax) * RtoC (INR (a_n ax)))%C (dft ay (fun i => v i j) k))).
  2:{ intros k _. rewrite idft_scal. rewrite <- Cmult_assoc. f_equal.
      transitivity (dft ay (fun i0 => idft ax (dft ax (v i0)) j) k).
      - unfold idft, dft. rewrite (csum_ext (a_n ax) _ (fun k0 => csum (a_n ay) (fun i0 => Cmult (Cmult (csum (a_n ax) (fun i1 => Cmult (v i0 i1) (waven ax k0 i1))) (wave ax k0 j)) (waven ay k i0)))).
        + rewrite csum_swap. apply csum_ext. intros i0 _. rewrite csum_mult_r. reflexivity.
        + intros l _. rewrite <- csum_mult_r. apply csum_ext. intros i0 _. ring.
      - rewrite <- dft_scal. apply dft_ext. intros i0 _. now apply idft_dft. }
  rewrite idft_scal, idft_dft by assumption. pose proof (norm_factor ay Gy) as Ny. pose proof (norm_factor ax Gx) as Nx.
  rewrite !RtoC_mult. transitivity (Cmult (Cmult (Cmult (RtoC (/ (INR (a_n ay) * a_d ay))) (Cmult (RtoC (a_d ay)) (RtoC (INR (a_n ay))))) (Cmult (RtoC (/ (INR (a_n ax) * a_d ax))) (Cmult (RtoC (a_d ax)) (RtoC (INR (a_n ax)))))) (v i j)); [ring|].
  rewrite Ny, Nx. ring.
Qed.
Theorem fft2_ifft ay ax F k l : good ay -> good ax -> (k < a_n ay)%nat -> (l < a_n ax)%nat -> fft2 ay ax (ifft ay ax F) k l = F k l.
Proof.
  intros Gy Gx Hk Hl. unfold fft2.
  set (c := RtoC (/ (INR (a_n ay) * a_d ay) * / (INR (a_n ax) * a_d ax))).
  rewrite (dft_ext ay _ (fun i => Cmult (Cmult c (RtoC (INR (a_n ax)))) (idft ay (fun k => F k l) i))).
  2:{ intros i _. rewrite (dft_ext ax _ (fun j => Cmult c (idft ay (fun k0 => idft ax (F k0) j) i))) by (intros; apply ifft_idft).
      rewrite dft_scal, <- Cmult_assoc. f_equal.
      transitivity (idft ay (fun k0 => dft ax (idft ax (F k0)) l) i).
      - unfold idft at 1 3, dft. rewrite (csum_ext (a_n ax) _ (fun j => csum (a_n ay) (fun k0 => Cmult (Cmult (idft ax (F k0) j) (waven ax l j)) (wave ay k0 i)))).
        + rewrite csum_swap. apply csum_ext. intros k0 _. rewrite csum_mult_r. reflexivity.
        + intros j _. rewrite <- csum_mult_r. apply csum_ext. intros k0 _. ring.
      - rewrite <- idft_scal. apply idft_ext. intros k0 _. now apply dft_idft. }
  rewrite dft_scal, dft_idft by assumption. pose proof (norm_factor ay Gy) as Ny. pose proof (norm_factor ax Gx) as Nx. unfold c.
  rewrite !RtoC_mult. transitivity (Cmult (Cmult (Cmult (RtoC (/ (INR (a_n ay) * a_d ay))) (Cmult (RtoC (a_d ay)) (RtoC (INR (a_n ay))))) (Cmult (RtoC (/ (INR (a_n ax) * a_d ax))) (Cmult (RtoC (a_d ax)) (RtoC (INR (a_n ax)))))) (F k l)); [ring|].
  rewrite Ny, Nx. ring.
Qed.
Theorem parseval2 ay ax F : good ay -> good ax ->
  csum2 (a_n ay) (a_n ax) (fun i j => csq (ifft ay ax F i j))
  = Cmult (RtoC (INR (a_n ay) * INR (a_n ax) * (/ (INR (a_n ay) * a_d ay) * / (INR (a_n ax) * a_d ax)) ^ 2)) (csum2 (a_n ay) (a_n ax) (fun k l => csq (F k l))).
Proof.
  intros Gy Gx. set (c := / (INR (a_n ay) * a_d ay) * / (INR (a_n ax) * a_d ax)).
  rewrite (csum2_ext _ _ _ (fun i j => Cmult (RtoC (c * c)) (csq (idft ay (fun k => idft ax (F k) j) i)))).
  2:{ intros i j _ _. rewrite ifft_idft, csq_mult, csq_RtoC. reflexivity. }
  unfold csum2. rewrite csum_swap.
  rewrite (csum_ext (a_n ax) _ (fun j => Cmult (Cmult (RtoC (c * c)) (RtoC (INR (a_n ay)))) (csum (a_n ay) (fun k => csq (idft ax (F k) j))))).
  2:{ intros j _. rewrite csum_mult_l, parseval by assumption. ring. }
  rewrite csum_mult_l, csum_swap.
  rewrite (csum_ext (a_n ay) _ (fun k => Cmult (RtoC (INR (a_n ax))) (csum (a_n ax) (fun l => csq (F k l))))).
  2:{ intros k _. now apply parseval. }
  rewrite csum_mult_l, Cmult_assoc. f_equal. rewrite <- !RtoC_mult. f_equal. ring.
Qed.

(** ** The index of the opposite frequency (the Nyquist frequency is its own opposite) *)
Definition opposite (n k : nat) : nat := if Nat.even n then (if Nat.eqb k 0 then 0 else n - k)%nat else (n - 1 - k)%nat.
Lemma opposite_lt n k : (k < n)%nat -> (opposite n k < n)%nat.
Proof. unfold opposite. destruct (Nat.even n); [destruct (Nat.eqb_spec k 0)|]; lia. Qed.
Lemma csum_opposite n f : csum n f = csum n (fun k => f (opposite n k)).
Proof.
  unfold opposite. destruct (Nat.even n) eqn:E.
  - destruct n as [|n]; [reflexivity|]. rewrite csum_Sl. rewrite (csum_Sl n (fun k => f (if Nat.eqb k 0 then 0%nat else (S n - k)%nat))). cbn [Nat.eqb]. f_equal.
    rewrite csum_rev. apply csum_ext. intros i Hi. f_equal. lia.
  - apply csum_rev.
Qed.
Lemma freq_opposite a k : good a -> (k < a_n a)%nat -> (Nat.even (a_n a) = true -> k <> 0%nat) -> freq a (opposite (a_n a) k) = - freq a k.
Proof.
  intros [Hn Hd] Hk H. assert (INR (a_n a) <> 0) by (apply not_0_INR; lia). unfold freq. apply (Rmult_eq_reg_r (INR (a_n a) * a_d a)); [|now apply Rmult_integral_contrapositive].
  field_simplify; [|split; assumption|split; assumption].
  unfold opposite. destruct (Nat.even (a_n a)) eqn:E.
  - apply Nat.even_spec in E. destruct E as [m E]. assert (Q : (a_n a / 2 = m)%nat) by (rewrite E, Nat.mul_comm; apply Nat.div_mul; lia).
    specialize (H eq_refl). destruct (Nat.eqb_spec k 0) as [|_]; [contradiction|]. rewrite minus_INR by lia. rewrite Q, E, mult_INR. cbn [INR]. ring.
  - assert (O : Nat.odd (a_n a) = true) by (rewrite <- Nat.negb_even, E; reflexivity). apply Nat.odd_spec in O. destruct O as [m O].
    assert (Q : (a_n a / 2 = m)%nat) by (rewrite O; symmetry; apply (Nat.div_unique _ 2 m 1); lia).
    rewrite !minus_INR by lia. rewrite Q, O, plus_INR, mult_INR. cbn [INR]. ring.
Qed.
Lemma freq_opposite_sq a k : good a -> (k < a_n a)%nat -> freq a (opposite (a_n a) k) = - freq a k \/ freq a (opposite (a_n a) k) = freq a k.
Proof.
  intros G Hk. destruct (Nat.even (a_n a)) eqn:E.
  - destruct (Nat.eq_dec k 0) as [->|N].
    + right. unfold opposite. now rewrite E.
    + left. apply freq_opposite; auto.
  - left. apply freq_opposite; auto. congruence.
Qed.
Lemma cis_PI_nat k : Im (cis (PI * INR k)) = 0.
Proof. cbn. induction k as [|k IH]; [cbn [INR]; rewrite Rmult_0_r; apply sin_0|]. rewrite S_INR. replace (PI * (INR k + 1)) with (PI * INR k + PI) by ring. rewrite neg_sin. lra. Qed.
(** A wave of the opposite frequency between two positions of the grid is the conjugate wave. *)
Lemma wave_opposite a k i i' : good a -> (k < a_n a)%nat ->
  Cmult (wave a (opposite (a_n a) k) i) (waven a (opposite (a_n a) k) i') = Cconj (Cmult (wave a k i) (waven a k i')).
Proof.
  intros G Hk. destruct (Nat.even (a_n a)) eqn:E.
  2:{ unfold wave, waven. rewrite freq_opposite by (auto; congruence). rewrite <- !cis_add, <- cis_opp. f_equal. ring. }
  destruct (Nat.eq_dec k 0) as [->|N].
  2:{ unfold wave, waven. rewrite freq_opposite by auto. rewrite <- !cis_add, <- cis_opp. f_equal. ring. }
  unfold opposite. rewrite E. cbn [Nat.eqb].
  assert (I : Im (Cmult (wave a 0 i) (waven a 0 i')) = 0).
  { unfold wave, waven. rewrite <- cis_add. destruct G as [Hn Hd]. assert (INR (a_n a) <> 0) by (apply not_0_INR; lia).
    apply Nat.even_spec in E. destruct E as [m E]. assert (Q : (a_n a / 2 = m)%nat) by (rewrite E, Nat.mul_comm; apply Nat.div_mul; lia).
    assert (INR m <> 0) by (apply not_0_INR; lia).
    replace (2 * PI * (freq a 0 * position a i) + - (2 * PI * (freq a 0 * position a i'))) with (PI * (INR i' - INR i)).
    2:{ unfold freq, position. rewrite Q, E, mult_INR. cbn [INR]. field. split; assumption. }
    destruct (le_dec i i') as [L|L].
    - rewrite <- minus_INR by assumption. apply cis_PI_nat.
    - replace (PI * (INR i' - INR i)) with (- (PI * INR (i - i'))) by (rewrite minus_INR by lia; ring). rewrite cis_opp. cbn. pose proof (cis_PI_nat (i - i')) as P. cbn in P. lra. }
  set (z := Cmult _ _) in *. clearbody z. destruct z as [p q]. cbn in I. subst q. ceq.
Qed.

(** ** Filters with conjugate symmetric responses keep grids real *)
Lemma filtered_kernel ay ax w H i j :
  ifft ay ax (fun k l => Cmult (fft2 ay ax w k l) (H k l)) i j
  = Cmult (RtoC (/ (INR (a_n ay) * a_d ay) * / (INR (a_n ax) * a_d ax) * (a_d ay * a_d ax)))
      (csum2 (a_n ay) (a_n ax) (fun i' j' => Cmult (w i' j') (csum2 (a_n ay) (a_n ax) (fun k l => Cmult (H k l) (Cmult (Cmult (wave ay k i) (waven ay k i')) (Cmult (wave ax l j) (waven ax l j'))))))).
Proof.
  rewrite ifft_idft. rewrite (RtoC_mult (_ * _) (a_d ay * a_d ax)). rewrite <- Cmult_assoc. f_equal.
  unfold fft2. unfold idft at 1.
  rewrite (csum_ext (a_n ay) _ (fun k => Cmult (RtoC (a_d ay * a_d ax)) (csum (a_n ay) (fun i' => csum (a_n ax) (fun j' => csum (a_n ax) (fun l => Cmult (w i' j') (Cmult (H k l) (Cmult (Cmult (wave ay k i) (waven ay k i')) (Cmult (wave ax l j) (waven ax l j')))))))))).
  2:{ intros k _. unfold idft, dft.
      rewrite (csum_ext (a_n ax) _ (fun l => Cmult (RtoC (a_d ay * a_d ax)) (csum (a_n ay) (fun i' => csum (a_n ax) (fun j' => Cmult (w i' j') (Cmult (Cmult (waven ax l j') (waven ay k i')) (Cmult (H k l) (wave ax l j)))))))).
      2:{ intros l _. rewrite <- !Cmult_assoc. f_equal. rewrite <- csum_mult_r. apply csum_ext. intros i' _. rewrite <- !csum_mult_r. apply csum_ext. intros j' _. ring. }
      rewrite csum_mult_l, <- Cmult_assoc. f_equal.
      transitivity (Cmult (csum (a_n ay) (fun i' => csum (a_n ax) (fun j' => csum (a_n ax) (fun l => Cmult (w i' j') (Cmult (Cmult (waven ax l j') (waven ay k i')) (Cmult (H k l) (wave ax l j))))))) (wave ay k i)).
      - f_equal. rewrite csum_swap. apply csum_ext. intros i' _. apply csum_swap.
      - rewrite <- csum_mult_r. apply csum_ext. intros i' _. rewrite <- csum_mult_r. apply csum_ext. intros j' _. rewrite <- csum_mult_r. apply csum_ext. intros l _. ring. }
  rewrite csum_mult_l. f_equal. unfold csum2. rewrite csum_swap. apply csum_ext. intros i' _. rewrite csum_swap. apply csum_ext. intros j' _.
  rewrite <- csum_mult_l. apply csum_ext. intros k _. now rewrite <- csum_mult_l.
Qed.
Lemma Cconj_mult' a b : Cconj (Cmult a b) = Cmult (Cconj a) (Cconj b).
Proof. destruct a, b. ceq. Qed.
Lemma real_iff z : Cconj z = z <-> Im z = 0.
Proof.
  destruct z as [p q]. unfold Cconj. cbn. split; intros H.
  - injection H as H. lra.
  - subst. f_equal. ring.
Qed.
Theorem filtered_real ay ax w H i j : good ay -> good ax -> (forall i j, Im (w i j) = 0) ->
  (forall k l, (k < a_n ay)%nat -> (l < a_n ax)%nat -> H (opposite (a_n ay) k) (opposite (a_n ax) l) = Cconj (H k l)) ->
  Im (ifft ay ax (fun k l => Cmult (fft2 ay ax w k l) (H k l)) i j) = 0.
Proof.
  intros Gy Gx Rw HH. apply real_iff. rewrite filtered_kernel. rewrite Cconj_mult'. f_equal; [ceq|].
  unfold csum2 at 1 3. rewrite csum_conj. apply csum_ext. intros i' _. rewrite csum_conj. apply csum_ext. intros j' _.
  rewrite Cconj_mult'. f_equal; [now apply real_iff|].
  unfold csum2. rewrite csum_conj. rewrite (csum_opposite (a_n ay) (fun k => csum (a_n ax) _)). apply csum_ext. intros k Hk.
  rewrite csum_conj. rewrite (csum_opposite (a_n ax) (fun l => Cmult (H (opposite (a_n ay) k) l) _)). apply csum_ext. intros l Hl.
  rewrite HH, !wave_opposite, !Cconj_mult' by assumption. reflexivity.
Qed.

(** ** Energy *)
Lemma csq_re z : csq z = RtoC (Re z ^ 2 + Im z ^ 2).
Proof. destruct z as [p q]. unfold csq. ceq. Qed.
Lemma csum2_RtoC n m (f : nat -> nat -> R) : csum2 n m (fun i j => RtoC (f i j)) = RtoC (sum_over (range 0 n) (fun i => sum_over (range 0 m) (fun j => f i j))).
Proof. unfold csum2. rewrite (csum_ext n _ (fun i => RtoC (sum_over (range 0 m) (fun j => f i j)))) by (intros; apply csum_RtoC). apply csum_RtoC. Qed.
Lemma sum_over_le {A} (l : list A) f g : (forall x, In x l -> f x <= g x) -> sum_over l f <= sum_over l g.
Proof. induction l as [|x l IH]; intros H; [unfold sum_over; cbn; lra|]. rewrite !sum_over_cons. pose proof (H x (or_introl eq_refl)). specialize (IH (fun y Hy => H y (or_intror Hy))). lra. Qed.
Definition energy (n m : nat) (f : nat -> nat -> R) : R := sum_over (range 0 n) (fun i => sum_over (range 0 m) (fun j => f i j)).
Lemma energy_le n m f g : (forall i j, (i < n)%nat -> (j < m)%nat -> f i j <= g i j) -> energy n m f <= energy n m g.
Proof. intros H. apply sum_over_le. intros i Hi. apply sum_over_le. intros j Hj. unfold range in *. apply in_seq in Hi. apply in_seq in Hj. apply H; lia. Qed.
Lemma energy_ext n m f g : (forall i j, (i < n)%nat -> (j < m)%nat -> f i j = g i j) -> energy n m f = energy n m g.
Proof. intros H. apply Rle_antisym; apply energy_le; intros i j Hi Hj; rewrite (H i j Hi Hj); lra. Qed.
Lemma energy_scal n m c f : energy n m (fun i j => c * f i j) = c * energy n m f.
Proof. unfold energy. rewrite <- sum_over_scal. apply sum_over_ext. intros i _. apply sum_over_scal. Qed.
Theorem filtered_energy ay ax w H : good ay -> good ax ->
  (forall k l, (k < a_n ay)%nat -> (l < a_n ax)%nat -> Re (H k l) ^ 2 + Im (H k l) ^ 2 <= 1) ->
  energy (a_n ay) (a_n ax) (fun i j => Re (ifft ay ax (fun k l => Cmult (fft2 ay ax w k l) (H k l)) i j) ^ 2)
  <= energy (a_n ay) (a_n ax) (fun i j => Re (w i j) ^ 2 + Im (w i j) ^ 2).
Proof.
  intros Gy Gx HH.
  assert (P : forall F, energy (a_n ay) (a_n ax) (fun i j => Re (ifft ay ax F i j) ^ 2 + Im (ifft ay ax F i j) ^ 2)
                        = INR (a_n ay) * INR (a_n ax) * (/ (INR (a_n ay) * a_d ay) * / (INR (a_n ax) * a_d ax)) ^ 2 * energy (a_n ay) (a_n ax) (fun k l => Re (F k l) ^ 2 + Im (F k l) ^ 2)).
  { intros F. apply RtoC_inj. rewrite RtoC_mult. unfold energy. rewrite <- !csum2_RtoC. 
    rewrite <- (csum2_ext (a_n ay) (a_n ax) (fun k l => csq (F k l)) (fun k l => RtoC (Re (F k l) ^ 2 + Im (F k l) ^ 2))) by (intros; apply csq_re). rewrite <- parseval2 by assumption. apply csum2_ext. intros i j _ _. symmetry. apply csq_re. }
  eapply Rle_trans; [apply (energy_le _ _ _ (fun i j => Re (ifft ay ax (fun k l => Cmult (fft2 ay ax w k l) (H k l)) i j) ^ 2 + Im (ifft ay ax (fun k l => Cmult (fft2 ay ax w k l) (H k l)) i j) ^ 2))|].
  { intros i j _ _. pose proof (pow2_ge_0 (Im (ifft ay ax (fun k l => Cmult (fft2 ay ax w k l) (H k l)) i j))). lra. }
  rewrite P.
  rewrite <- (energy_ext (a_n ay) (a_n ax) (fun i j => Re (ifft ay ax (fft2 ay ax w) i j) ^ 2 + Im (ifft ay ax (fft2 ay ax w) i j) ^ 2) (fun i j => Re (w i j) ^ 2 + Im (w i j) ^ 2)) by (intros; now rewrite ifft_fft2).
  rewrite P. apply Rmult_le_compat_l.
  { apply Rmult_le_pos; [apply Rmult_le_pos; apply pos_INR|apply pow2_ge_0]. }
  apply energy_le. intros k l Hk Hl. specialize (HH k l Hk Hl). destruct (fft2 ay ax w k l) as [p q]. destruct (H k l) as [r s]. cbn in *.
  replace ((p * r - q * s) * ((p * r - q * s) * 1) + (p * s + q * r) * ((p * s + q * r) * 1)) with ((p ^ 2 + q ^ 2) * (r ^ 2 + s ^ 2)) by ring.
  replace (p * (p * 1) + q * (q * 1)) with ((p ^ 2 + q ^ 2) * 1) by ring.
  apply Rmult_le_compat_l; [pose proof (pow2_ge_0 p); pose proof (pow2_ge_0 q); lra|]. lra.
Qed.

(** ** Plane waves *)
Lemma dft_wave a p k : good a -> (p < a_n a)%nat -> (k < a_n a)%nat -> dft a (wave a p) k = if Nat.eq_dec p k then RtoC (INR (a_n a)) else RtoC 0.
Proof. intros. unfold dft. now apply sum_over_pos. Qed.
Theorem filtered_wave ay ax c p q H i j : good ay -> good ax -> (p < a_n ay)%nat -> (q < a_n ax)%nat ->
  ifft ay ax (fun k l => Cmult (fft2 ay ax (fun i j => Cmult c (Cmult (wave ay p i) (wave ax q j))) k l) (H k l)) i j
  = Cmult (Cmult c (H p q)) (Cmult (wave ay p i) (wave ax q j)).
Proof.
  intros Gy Gx Hp Hq.
  assert (F : forall k l, (k < a_n ay)%nat -> (l < a_n ax)%nat -> fft2 ay ax (fun i j => Cmult c (Cmult (wave ay p i) (wave ax q j))) k l
    = Cmult (Cmult (RtoC (a_d ay * a_d ax)) c) (Cmult (if Nat.eq_dec p k then RtoC (INR (a_n ay)) else RtoC 0) (if Nat.eq_dec q l then RtoC (INR (a_n ax)) else RtoC 0))).
  { intros k l Hk Hl. unfold fft2. rewrite <- Cmult_assoc. f_equal. rewrite <- (dft_wave ay p k Gy Hp Hk), <- (dft_wave ax q l Gx Hq Hl).
    rewrite (dft_ext ay _ (fun i => Cmult (Cmult c (dft ax (wave ax q) l)) (wave ay p i))).
    - rewrite dft_scal. ring.
    - intros i0 _. rewrite (dft_ext ax _ (fun j => Cmult (Cmult c (wave ay p i0)) (wave ax q j))) by (intros; ring). rewrite dft_scal. ring. }
  rewrite (ifft_ext ay ax _ (fun k l => Cmult (Cmult (Cmult (RtoC (a_d ay * a_d ax)) c) (Cmult (if Nat.eq_dec p k then RtoC (INR (a_n ay)) else RtoC 0) (if Nat.eq_dec q l then RtoC (INR (a_n ax)) else RtoC 0))) (H k l))) by (intros; now rewrite F).
  rewrite ifft_idft. unfold idft at 1. rewrite (csum_single _ _ p Hp).
  2:{ intros k Hk N. unfold idft. rewrite csum_zero; [ring|]. intros l _. destruct (Nat.eq_dec p k); [congruence|ring]. }
  unfold idft. rewrite (csum_single _ _ q Hq).
  2:{ intros l Hl N. destruct (Nat.eq_dec q l); [congruence|ring]. }
  destruct (Nat.eq_dec p p) as [_|]; [|congruence]. destruct (Nat.eq_dec q q) as [_|]; [|congruence].
  pose proof (norm_factor ay Gy) as Ny. pose proof (norm_factor ax Gx) as Nx. rewrite !RtoC_mult.
  transitivity (Cmult (Cmult (Cmult (RtoC (/ (INR (a_n ay) * a_d ay))) (Cmult (RtoC (a_d ay)) (RtoC (INR (a_n ay))))) (Cmult (RtoC (/ (INR (a_n ax) * a_d ax))) (Cmult (RtoC (a_d ax)) (RtoC (INR (a_n ax)))))) (Cmult (Cmult c (H p q)) (Cmult (wave ay p i) (wave ax q j)))); [ring|].
  rewrite Ny, Nx. ring.
Qed.
Lemma fft2_plus ay ax v w k l : fft2 ay ax (fun i j => Cplus (v i j) (w i j)) k l = Cplus (fft2 ay ax v k l) (fft2 ay ax w k l).
Proof. unfold fft2. rewrite <- Cmult_plus_distr_l. f_equal. rewrite <- dft_plus. apply dft_ext. intros i _. apply dft_plus. Qed.
(** The real wave Re(c cis(theta)) with a conjugate symmetric response. *)
Theorem filtered_real_wave ay ax c p q H i j : good ay -> good ax -> (p < a_n ay)%nat -> (q < a_n ax)%nat ->
  freq ay (opposite (a_n ay) p) = - freq ay p -> freq ax (opposite (a_n ax) q) = - freq ax q ->
  H (opposite (a_n ay) p) (opposite (a_n ax) q) = Cconj (H p q) ->
  Re (ifft ay ax (fun k l => Cmult (fft2 ay ax (fun i j => RtoC (Re (Cmult c (Cmult (wave ay p i) (wave ax q j))))) k l) (H k l)) i j)
  = Re (Cmult (Cmult c (H p q)) (Cmult (wave ay p i) (wave ax q j))).
Proof.
  intros Gy Gx Hp Hq Fp Fq HH.
  assert (Wy : forall i, wave ay (opposite (a_n ay) p) i = Cconj (wave ay p i)) by (intros; unfold wave; rewrite Fp, <- cis_opp; f_equal; ring).
  assert (Wx : forall j, wave ax (opposite (a_n ax) q) j = Cconj (wave ax q j)) by (intros; unfold wave; rewrite Fq, <- cis_opp; f_equal; ring).
  rewrite (ifft_ext ay ax _ (fun k l => Cplus
     (Cmult (fft2 ay ax (fun i j => Cmult (Cmult (RtoC (/ 2)) c) (Cmult (wave ay p i) (wave ax q j))) k l) (H k l))
     (Cmult (fft2 ay ax (fun i j => Cmult (Cmult (RtoC (/ 2)) (Cconj c)) (Cmult (wave ay (opposite (a_n ay) p) i) (wave ax (opposite (a_n ax) q) j))) k l) (H k l)))).
  2:{ intros k l _ _. rewrite <- Cmult_plus_distr_r, <- fft2_plus. f_equal. apply fft2_ext. intros i0 j0 _ _. rewrite Wy, Wx.
      generalize (wave ay p i0) (wave ax q j0). intros [] []. destruct c. apply injective_projections; cbn; field. }
  rewrite ifft_plus, !filtered_wave by (try assumption; now apply opposite_lt). rewrite HH, Wy, Wx.
  generalize (wave ay p i) (wave ax q j) (H p q). intros [] [] []. destruct c. cbn. field.
Qed.
