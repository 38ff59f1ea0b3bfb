(** Lemmas for claim C87: filters are linear and do not depend on where the grid lies. *)
From Coquelicot Require Import Coquelicot.
From Verif Require Import Base BaseFacts NumPy UtilsModel TransformModel TransformSpec FourierProofs TransformProofs.
Local Open Scope string_scope. Local Open Scope list_scope. Local Open Scope R_scope.
Local Notation C := Complex.C.

(** ** Linear combinations *)
Lemma flip_lt a i : (i < a_n a)%nat -> (flip_index a i < a_n a)%nat.
Proof. unfold flip_index. destruct (a_rev a); lia. Qed.
Lemma fft_lin ay ax p q v1 v2 v3 k l :
  (forall i j, (i < a_n ay)%nat -> (j < a_n ax)%nat -> v3 i j = p * v1 i j + q * v2 i j) ->
  fft ay ax v3 k l = Cplus (Cmult (RtoC p) (fft ay ax v1 k l)) (Cmult (RtoC q) (fft ay ax v2 k l)).
Proof.
  intros E. unfold fft, csum2.
  set (W := fun i j => cis (- (2 * PI * (freq ay k * position ay i + freq ax l * position ax j)))).
  transitivity (Cmult (RtoC (a_d ay * a_d ax)) (csum (a_n ay) (fun i => Cplus
     (Cmult (RtoC p) (csum (a_n ax) (fun j => Cmult (RtoC (v1 (flip_index ay i) (flip_index ax j))) (W i j))))
     (Cmult (RtoC q) (csum (a_n ax) (fun j => Cmult (RtoC (v2 (flip_index ay i) (flip_index ax j))) (W i j))))))).
  - f_equal. apply csum_ext. intros i Hi. rewrite <- !csum_mult_l, <- csum_plus. apply csum_ext. intros j Hj.
    rewrite (E (flip_index ay i) (flip_index ax j)) by (now apply flip_lt). fold (W i j). rewrite RtoC_plus, !RtoC_mult. ring.
  - rewrite csum_plus, !csum_mult_l. fold W. unfold W. ring.
Qed.
Lemma filter_lin ay ax p q v1 v2 v3 H i j :
  (forall i j, (i < a_n ay)%nat -> (j < a_n ax)%nat -> v3 i j = p * v1 i j + q * v2 i j) ->
  Re (ifft ay ax (fun k l => Cmult (fft ay ax v3 k l) (H k l)) i j) =
  p * Re (ifft ay ax (fun k l => Cmult (fft ay ax v1 k l) (H k l)) i j) + q * Re (ifft ay ax (fun k l => Cmult (fft ay ax v2 k l) (H k l)) i j).
Proof.
  intros E.
  rewrite (ifft_ext ay ax _ (fun k l => Cplus (Cmult (RtoC p) (Cmult (fft ay ax v1 k l) (H k l))) (Cmult (RtoC q) (Cmult (fft ay ax v2 k l) (H k l))))).
  2:{ intros k l _ _. rewrite (fft_lin ay ax p q v1 v2 v3 k l E). ring. }
  rewrite ifft_plus, !ifft_scal. cbn. ring.
Qed.

(** ** Convolution *)
Lemma two_waves a k i i' : good a ->
  Cmult (wave a k i) (waven a k i') = cis (2 * PI * ((INR k - INR (a_n a / 2)) * (INR i - INR i') / INR (a_n a))).
Proof.
  intros [Hn Hd]. assert (INR (a_n a) <> 0) by (apply not_0_INR; lia).
  unfold wave, waven. rewrite <- cis_add. f_equal. unfold freq, position. field. split; assumption.
Qed.
Lemma cis_period t k : cis (t + 2 * PI * INR k) = cis t.
Proof. rewrite cis_add, cis_2PI_nat. ring. Qed.
Lemma cis_period' t k : cis (t - 2 * PI * INR k) = cis t.
Proof. rewrite <- (cis_period (t - 2 * PI * INR k) k). f_equal. ring. Qed.
(** Whole turns may be counted from any of the two positions. *)
Lemma cis_turns n k c x y : (0 < n)%nat -> (exists z : Z, x - y = IZR z * INR n) -> (exists z : Z, c = IZR z) ->
  cis (2 * PI * ((INR k - c) * x / INR n)) = cis (2 * PI * ((INR k - c) * y / INR n)).
Proof.
  intros Hn (z & Ez) (w & ->). assert (N : INR n <> 0) by (apply not_0_INR; lia).
  replace x with (y + IZR z * INR n) by lra.
  replace (2 * PI * ((INR k - IZR w) * (y + IZR z * INR n) / INR n)) with (2 * PI * ((INR k - IZR w) * y / INR n) + 2 * PI * IZR ((Z.of_nat k - w) * z)).
  2:{ rewrite mult_IZR, minus_IZR, <- INR_IZR_INZ. field. exact N. }
  set (u := ((Z.of_nat k - w) * z)%Z). destruct (Z_le_dec 0 u) as [P|P].
  - rewrite <- (Z2Nat.id u) by lia. rewrite <- INR_IZR_INZ. apply cis_period.
  - replace u with (- (Z.of_nat (Z.to_nat (- u))))%Z by lia. rewrite opp_IZR, <- INR_IZR_INZ.
    match goal with |- cis (?a + 2 * PI * - ?b) = _ => replace (a + 2 * PI * - b) with (a - 2 * PI * b) by ring end. apply cis_period'.
Qed.

(** The circular convolution that a filter computes. *)
Definition kern (n m : nat) (H : nat -> nat -> C) (di dj : R) : C :=
  csum2 n m (fun k l => Cmult (H k l) (Cmult (cis (2 * PI * ((INR k - INR (n / 2)) * di / INR n))) (cis (2 * PI * ((INR l - INR (m / 2)) * dj / INR m))))).
Lemma out_kern ay ax w H i j : good ay -> good ax ->
  out ay ax w H i j = Cmult (RtoC (/ INR (a_n ay) * / INR (a_n ax)))
    (csum2 (a_n ay) (a_n ax) (fun i' j' => Cmult (RtoC (w i' j')) (kern (a_n ay) (a_n ax) (fun k l => some_c (H (freq ay k) (freq ax l))) (INR i - INR i') (INR j - INR j')))).
Proof.
  intros Gy Gx. unfold out. rewrite (filtered_kernel ay ax (fun i j => RtoC (w i j)) (fun k l => some_c (H (freq ay k) (freq ax l)))).
  f_equal.
  - f_equal. destruct Gy as [Ny Dy], Gx as [Nx Dx].
    assert (INR (a_n ay) <> 0) by (apply not_0_INR; lia). assert (INR (a_n ax) <> 0) by (apply not_0_INR; lia). field. repeat split; assumption.
  - apply csum2_ext. intros i' j' _ _. f_equal. unfold kern. apply csum2_ext. intros k l _ _. now rewrite !two_waves.
Qed.
Lemma reg_freq x0 x1 d n k : freq (reg_axis x0 d n) k = freq (reg_axis x1 d n) k.
Proof. reflexivity. Qed.
(** The origin of the coordinates does not matter. *)
Lemma out_translate y0 y1 dy n x0 x1 dx m w H i j : 0 < dy -> 0 < dx -> (2 <= n)%nat -> (2 <= m)%nat ->
  out (reg_axis y0 dy n) (reg_axis x0 dx m) w H i j = out (reg_axis y1 dy n) (reg_axis x1 dx m) w H i j.
Proof. intros. rewrite !out_kern by (now apply reg_good). reflexivity. Qed.

(** ** Cyclic shifts *)
Lemma csum_rotate_one n f : csum n (fun i => f ((i + 1) mod n)%nat) = csum n f.
Proof.
  destruct n as [|n]; [reflexivity|]. rewrite (csum_Sl n f). cbn [csum]. rewrite Cplus_comm. f_equal.
  - rewrite Nat.add_1_r. now rewrite Nat.mod_same by lia.
  - apply csum_ext. intros i Hi. rewrite Nat.add_1_r. now rewrite Nat.mod_small by lia.
Qed.
Lemma csum_rotate n p f : csum n (fun i => f ((i + p) mod n)%nat) = csum n f.
Proof.
  destruct (Nat.eq_dec n 0) as [->|N]; [reflexivity|]. revert f. induction p as [|p IH]; intros f.
  - apply csum_ext. intros i Hi. now rewrite Nat.add_0_r, Nat.mod_small.
  - rewrite <- (IH f), <- (csum_rotate_one n (fun i => f ((i + p) mod n)%nat)). apply csum_ext. intros i Hi. f_equal.
    rewrite Nat.add_mod_idemp_l by assumption. f_equal. lia.
Qed.
Lemma mod_turns n i p : (0 < n)%nat -> exists z : Z, INR ((i + p) mod n) = INR i + INR p + IZR z * INR n.
Proof.
  intros Hn. exists (- Z.of_nat ((i + p) / n))%Z. rewrite opp_IZR, <- INR_IZR_INZ. rewrite <- plus_INR.
  rewrite (Nat.div_mod (i + p) n) at 2 by lia. rewrite plus_INR, mult_INR. ring.
Qed.
Lemma kern_turns n m H di dj ei ej : (0 < n)%nat -> (0 < m)%nat -> (exists z : Z, di - ei = IZR z * INR n) -> (exists z : Z, dj - ej = IZR z * INR m) ->
  kern n m H di dj = kern n m H ei ej.
Proof.
  intros Hn Hm A B. unfold kern. apply csum2_ext. intros k l _ _. do 2 f_equal; apply cis_turns; try assumption; eexists; apply INR_IZR_INZ.
Qed.
Lemma out_shift y0 dy n x0 dx m w w' H p q i j : 0 < dy -> 0 < dx -> (2 <= n)%nat -> (2 <= m)%nat -> 
  (forall i j, (i < n)%nat -> (j < m)%nat -> w' i j = w ((i + p) mod n)%nat ((j + q) mod m)%nat) ->
  out (reg_axis y0 dy n) (reg_axis x0 dx m) w' H i j = out (reg_axis y0 dy n) (reg_axis x0 dx m) w H ((i + p) mod n) ((j + q) mod m).
Proof.
  intros Hdy Hdx Hn Hm E. rewrite !out_kern by (now apply reg_good). cbn [a_n reg_axis]. f_equal. unfold csum2. symmetry.
  rewrite <- (csum_rotate n p). apply csum_ext. intros i' Hi'. rewrite <- (csum_rotate m q). apply csum_ext. intros j' Hj'.
  rewrite E by assumption. f_equal.
  destruct (mod_turns n i p ltac:(lia)) as (z1 & ->). destruct (mod_turns n i' p ltac:(lia)) as (z2 & ->).
  destruct (mod_turns m j q ltac:(lia)) as (z3 & ->). destruct (mod_turns m j' q ltac:(lia)) as (z4 & ->).
  apply kern_turns; [lia|lia| |]; [exists (z1 - z2)%Z|exists (z3 - z4)%Z]; rewrite minus_IZR; ring.
Qed.

(** ** Exchanging the axes *)
Lemma out_transpose ay ax w H i j : out ay ax w H i j = out ax ay (fun i j => w j i) (fun a b => H b a) j i.
Proof.
  unfold out, ifft. rewrite (Rmult_comm (/ (INR (a_n ax) * a_d ax))). f_equal. unfold csum2. rewrite csum_swap. apply csum_ext. intros l _. apply csum_ext. intros k _.
  f_equal; [|f_equal; ring]. f_equal. unfold fft2. rewrite (Rmult_comm (a_d ax)). f_equal. unfold dft.
  rewrite (csum_ext (a_n ay) _ (fun i => csum (a_n ax) (fun j => Cmult (Cmult (RtoC (w i j)) (waven ax l j)) (waven ay k i)))) by (intros; now rewrite csum_mult_r).
  rewrite csum_swap. apply csum_ext. intros j' _. rewrite <- csum_mult_r. apply csum_ext. intros i' _. ring.
Qed.
