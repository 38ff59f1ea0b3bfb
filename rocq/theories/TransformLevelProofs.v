(** Lemmas for claim C97: what a filter does to the mean level of a grid. *)
From Coquelicot Require Import Coquelicot.
From Verif Require Import Base BaseFacts NumPy UtilsModel TransformModel TransformSpec FourierProofs TransformProofs TransformFieldProofs.
Local Open Scope list_scope. Local Open Scope R_scope.
Local Notation C := Complex.C.

Lemma freq_mid a : freq a (a_n a / 2) = 0.
Proof. unfold freq, Rdiv. rewrite Rminus_diag_eq by reflexivity. ring. Qed.
Lemma mid_lt a : good a -> (a_n a / 2 < a_n a)%nat.
Proof. intros [H _]. apply Nat.div_lt; lia. Qed.
Lemma wave_mid a i : wave a (a_n a / 2) i = RtoC 1.
Proof. unfold wave. rewrite freq_mid. replace (2 * PI * (0 * position a i)) with 0 by ring. apply cis_0. Qed.
Lemma waven_mid a i : waven a (a_n a / 2) i = RtoC 1.
Proof. unfold waven. rewrite freq_mid. replace (- (2 * PI * (0 * position a i))) with 0 by ring. apply cis_0. Qed.
Lemma INR_n_neq a : good a -> INR (a_n a) <> 0.
Proof. intros [H _]. apply not_0_INR. lia. Qed.

(** Sum over the positions. *)
Lemma sum_idft a F : good a -> csum (a_n a) (idft a F) = Cmult (RtoC (INR (a_n a))) (F (a_n a / 2)%nat).
Proof.
  intros G. rewrite <- (dft_idft a F (a_n a / 2)) by (try apply mid_lt; assumption). unfold dft. apply csum_ext. intros i _. rewrite waven_mid. ring.
Qed.
Lemma sum_ifft ay ax F : good ay -> good ax ->
  csum2 (a_n ay) (a_n ax) (ifft ay ax F) = Cmult (RtoC (/ (a_d ay * a_d ax))) (F (a_n ay / 2)%nat (a_n ax / 2)%nat).
Proof.
  intros Gy Gx. unfold csum2.
  rewrite (csum_ext (a_n ay) _ (fun i => Cmult (RtoC (/ (INR (a_n ay) * a_d ay) * / (INR (a_n ax) * a_d ax))) (idft ay (fun k => Cmult (RtoC (INR (a_n ax))) (F k (a_n ax / 2)%nat)) i))).
  - rewrite csum_mult_l, (sum_idft ay) by assumption. pose proof (INR_n_neq ay Gy). pose proof (INR_n_neq ax Gx). destruct Gy as [_ Dy], Gx as [_ Dx].
    rewrite !Cmult_assoc, <- !RtoC_mult. f_equal. f_equal. field. repeat split; assumption.
  - intros i Hi. rewrite (csum_ext (a_n ax) _ (fun j => Cmult (RtoC (/ (INR (a_n ay) * a_d ay) * / (INR (a_n ax) * a_d ax))) (idft ay (fun k => idft ax (F k) j) i))) by (intros; apply ifft_idft).
    rewrite csum_mult_l. f_equal. unfold idft at 1. rewrite csum_swap. unfold idft at 2. apply csum_ext. intros k Hk. rewrite csum_mult_r. f_equal.
    exact (sum_idft ax (F k) Gx).
Qed.
Lemma csum_flip a (f : nat -> C) : csum (a_n a) (fun i => f (flip_index a i)) = csum (a_n a) f.
Proof. unfold flip_index. destruct (a_rev a); [|reflexivity]. symmetry. apply csum_rev. Qed.
Lemma fft_mid ay ax v : fft ay ax v (a_n ay / 2) (a_n ax / 2) = Cmult (RtoC (a_d ay * a_d ax)) (csum2 (a_n ay) (a_n ax) (fun i j => RtoC (v i j))).
Proof.
  rewrite fft_fft2. unfold fft2. f_equal. unfold dft.
  rewrite (csum_ext (a_n ay) _ (fun i => csum (a_n ax) (fun j => RtoC (v (flip_index ay i) j)))).
  - exact (csum_flip ay (fun i => csum (a_n ax) (fun j => RtoC (v i j)))).
  - intros i _. rewrite waven_mid, Cmult_1_r. unfold flipped. rewrite <- (csum_flip ax (fun j => RtoC (v (flip_index ay i) j))). apply csum_ext. intros j _. rewrite waven_mid. ring.
Qed.
Lemma csum2_RtoC n m (v : nat -> nat -> R) : csum2 n m (fun i j => RtoC (v i j)) = RtoC (sum_over (range 0 n) (fun i => sum_over (range 0 m) (fun j => v i j))).
Proof. unfold csum2. rewrite <- csum_RtoC. apply csum_ext. intros i _. apply csum_RtoC. Qed.
Lemma Re_csum n f : Re (csum n f) = sum_over (range 0 n) (fun i => Re (f i)).
Proof. unfold range. rewrite Nat.sub_0_r. induction n as [|n IH]; [reflexivity|]. cbn [csum]. rewrite seq_S, sum_over_app. rewrite Re_plus, IH. f_equal. unfold sum_over. cbn. ring. Qed.
Lemma filtered_sum ay ax v H c : good ay -> good ax -> H (a_n ay / 2)%nat (a_n ax / 2)%nat = RtoC c ->
  sum_over (range 0 (a_n ay)) (fun i => sum_over (range 0 (a_n ax)) (fun j => Re (ifft ay ax (fun k l => Cmult (fft ay ax v k l) (H k l)) i j))) =
  c * sum_over (range 0 (a_n ay)) (fun i => sum_over (range 0 (a_n ax)) (fun j => v i j)).
Proof.
  intros Gy Gx E. rewrite (sum_over_ext _ _ (fun i => Re (csum (a_n ax) (ifft ay ax (fun k l => Cmult (fft ay ax v k l) (H k l)) i)))) by (intros; symmetry; apply Re_csum).
  rewrite <- Re_csum. change (Re (csum2 (a_n ay) (a_n ax) (ifft ay ax (fun k l => Cmult (fft ay ax v k l) (H k l)))) = c * sum_over (range 0 (a_n ay)) (fun i => sum_over (range 0 (a_n ax)) (fun j => v i j))).
  rewrite sum_ifft, fft_mid, csum2_RtoC, E by assumption. rewrite <- !RtoC_mult. cbn [Re RtoC fst]. destruct Gy as [_ Dy], Gx as [_ Dx]. field. split; assumption.
Qed.

(** A constant grid. *)
Lemma dft_one a k : good a -> (k < a_n a)%nat -> dft a (fun _ => RtoC 1) k = if Nat.eq_dec (a_n a / 2) k then RtoC (INR (a_n a)) else RtoC 0.
Proof.
  intros G Hk. rewrite <- (sum_over_pos a (a_n a / 2) k) by (try apply mid_lt; assumption). unfold dft. apply csum_ext. intros i _. now rewrite wave_mid.
Qed.
Lemma filtered_const ay ax v H u c i j : good ay -> good ax -> H (a_n ay / 2)%nat (a_n ax / 2)%nat = RtoC c ->
  (forall i j, (i < a_n ay)%nat -> (j < a_n ax)%nat -> v i j = u) ->
  Re (ifft ay ax (fun k l => Cmult (fft ay ax v k l) (H k l)) i j) = c * u.
Proof.
  intros Gy Gx E V.
  assert (F : forall k l, (k < a_n ay)%nat -> (l < a_n ax)%nat -> fft ay ax v k l =
    Cmult (RtoC (a_d ay * a_d ax * u)) (Cmult (if Nat.eq_dec (a_n ay / 2) k then RtoC (INR (a_n ay)) else RtoC 0) (if Nat.eq_dec (a_n ax / 2) l then RtoC (INR (a_n ax)) else RtoC 0))).
  { intros k l Hk Hl. rewrite <- (dft_one ay), <- (dft_one ax) by assumption. rewrite fft_fft2. unfold fft2.
    rewrite (dft_ext ay _ (fun _ => Cmult (Cmult (RtoC u) (dft ax (fun _ => RtoC 1) l)) (RtoC 1))).
    - rewrite dft_scal. rewrite (RtoC_mult (a_d ay * a_d ax) u). ring.
    - intros i' Hi'. rewrite (dft_ext ax _ (fun _ => Cmult (RtoC u) (RtoC 1))).
      + rewrite dft_scal. ring.
      + intros j' Hj'. unfold flipped. rewrite V; [ring| |]; unfold flip_index; [destruct (a_rev ay)|destruct (a_rev ax)]; lia. }
  unfold ifft. unfold csum2. rewrite (csum_single (a_n ay) _ (a_n ay / 2)%nat (mid_lt ay Gy)).
  - rewrite (csum_single (a_n ax) _ (a_n ax / 2)%nat (mid_lt ax Gx)).
    + rewrite F by (apply mid_lt; assumption). destruct (Nat.eq_dec (a_n ay / 2) (a_n ay / 2)); [|congruence]. destruct (Nat.eq_dec (a_n ax / 2) (a_n ax / 2)); [|congruence].
      rewrite E, !freq_mid. replace (2 * PI * (0 * position ay i + 0 * position ax j)) with 0 by ring. rewrite cis_0. rewrite <- !RtoC_mult. cbn [Re RtoC fst].
      pose proof (INR_n_neq ay Gy). pose proof (INR_n_neq ax Gx). destruct Gy as [_ Dy], Gx as [_ Dx]. field. repeat split; assumption.
    + intros l Hl Nl. rewrite F by (try apply mid_lt; assumption). destruct (Nat.eq_dec (a_n ax / 2) l); [congruence|]. ring.
  - intros k Hk Nk. apply csum_zero. intros l Hl. rewrite F by assumption. destruct (Nat.eq_dec (a_n ay / 2) k); [congruence|]. ring.
Qed.

(** ** Finite differences and the angle *)
Lemma gradient_affine l f f' p c i : (2 <= length l)%nat -> (i < length l)%nat ->
  (forall j, (j < length l)%nat -> exists u, f j = Fin u /\ f' j = Fin (p * u + c)) -> gradient l f' i = nmap (Rmult p) (gradient l f i).
Proof.
  intros L Hi V. unfold gradient. destruct (Nat.eqb_spec i 0) as [E0|E0].
  - destruct (V 0%nat ltac:(lia)) as (u0 & -> & ->), (V 1%nat ltac:(lia)) as (u1 & -> & ->). unfold nsub, nop, ndiv. destruct (Req_EM_T _ 0); [reflexivity|]. cbn [nmap]. f_equal. field. assumption.
  - destruct (Nat.eqb_spec i (length l - 1)) as [E1|E1].
    + destruct (V (length l - 1)%nat ltac:(lia)) as (u0 & -> & ->), (V (length l - 2)%nat ltac:(lia)) as (u1 & -> & ->). unfold nsub, nop, ndiv. destruct (Req_EM_T _ 0); [reflexivity|]. cbn [nmap]. f_equal. field. assumption.
    + destruct (V (i - 1)%nat ltac:(lia)) as (u0 & -> & ->), (V i Hi) as (u1 & -> & ->), (V (i + 1)%nat ltac:(lia)) as (u2 & -> & ->).
      set (d1 := nth i l 0 - nth (i - 1) l 0). set (d2 := nth (i + 1) l 0 - nth i l 0).
      destruct (Reqb_spec d1 0); [reflexivity|]. destruct (Reqb_spec d2 0); [reflexivity|]. destruct (Reqb_spec (d1 + d2) 0); [reflexivity|]. cbn [orb].
      unfold nadd, nscale, nop. cbn [nmap]. f_equal. field. repeat split; assumption.
Qed.
Lemma arctan2_scale p y x : 0 < p -> arctan2 (p * y) (p * x) = arctan2 y x.
Proof.
  intros P. unfold arctan2.
  assert (Q : x <> 0 -> p * y / (p * x) = y / x) by (intros; field; split; lra).
  destruct (Rlt_dec 0 (p * x)), (Rlt_dec 0 x); try nra.
  - rewrite Q by lra. reflexivity.
  - destruct (Rlt_dec (p * x) 0), (Rlt_dec x 0); try nra.
    + rewrite Q by lra. destruct (Rle_dec 0 (p * y)), (Rle_dec 0 y); try nra; reflexivity.
    + destruct (Rlt_dec 0 (p * y)), (Rlt_dec 0 y); try nra; try reflexivity. destruct (Rlt_dec (p * y) 0), (Rlt_dec y 0); try nra; reflexivity.
Qed.
Lemma arctan2_opp y x : 0 <= x -> arctan2 (- y) x = - arctan2 y x.
Proof.
  intros X. unfold arctan2. destruct (Rlt_dec 0 x).
  - replace (- y / x) with (- (y / x)) by (field; lra). apply atan_opp.
  - destruct (Rlt_dec x 0); [lra|]. destruct (Rlt_dec 0 (- y)), (Rlt_dec 0 y); try lra; destruct (Rlt_dec (- y) 0), (Rlt_dec y 0); lra.
Qed.
