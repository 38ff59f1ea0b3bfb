(** Integrals over rectangles of the fields of point masses and dipoles. *)
From Coq Require Import Psatz.
From Coquelicot Require Import Coquelicot.
From Verif Require Import Base BaseFacts.
Local Open Scope R_scope.

(** ** Iterated integrals from antiderivatives *)
Lemma shift_derive (f : R -> R) a x l : is_derive f (x - a) l -> is_derive (fun t => f (t - a)) x l.
Proof.
  intros H. replace l with (scal 1 l) by (unfold scal; cbn; unfold mult; cbn; ring). apply (is_derive_comp (V := R_NormedModule) f (fun t => t - a) x l 1 H). auto_derive; [exact I|ring].
Qed.
Lemma shift_continuous (f : R -> R) a x : continuous f (x - a) -> continuous (fun t => f (t - a)) x.
Proof. intros H. apply (continuous_comp (fun t => t - a) f); [|exact H]. apply (ex_derive_continuous (V := R_NormedModule)). auto_derive. exact I. Qed.

Definition corners (P : R -> R -> R) (x1 x2 y1 y2 : R) : R := P x2 y2 - P x1 y2 - P x2 y1 + P x1 y1.

Section Box.
  Variables (f Q P : R -> R -> R).
  Hypothesis HQ : forall x y, is_derive (Q x) y (f x y).
  Hypothesis Hf : forall x y, continuous (f x) y.
  Hypothesis HP : forall x y, is_derive (fun x => P x y) x (Q x y).
  Hypothesis Hc : forall x y, continuous (fun x => Q x y) x.
  Lemma inner_integral a b e n1 n2 : is_RInt (fun n => f (e - a) (n - b)) n1 n2 (Q (e - a) (n2 - b) - Q (e - a) (n1 - b)).
  Proof.
    apply (is_RInt_derive (V := R_CompleteNormedModule) (fun n => Q (e - a) (n - b)) (fun n => f (e - a) (n - b))).
    - intros n _. apply shift_derive. apply HQ.
    - intros n _. apply (shift_continuous (f (e - a))). apply Hf.
  Qed.
  Lemma box_integral a b e1 e2 n1 n2 :
    is_RInt (fun e => RInt (fun n => f (e - a) (n - b)) n1 n2) e1 e2 (corners P (e1 - a) (e2 - a) (n1 - b) (n2 - b)).
  Proof.
    apply (is_RInt_ext (V := R_NormedModule) (fun e => Q (e - a) (n2 - b) - Q (e - a) (n1 - b))).
    - intros e _. symmetry. apply is_RInt_unique. apply inner_integral.
    - replace (corners P (e1 - a) (e2 - a) (n1 - b) (n2 - b)) with (minus (P (e2 - a) (n2 - b) - P (e2 - a) (n1 - b)) (P (e1 - a) (n2 - b) - P (e1 - a) (n1 - b))) by (unfold corners, minus, plus, opp; cbn; ring).
      apply (is_RInt_derive (V := R_CompleteNormedModule) (fun e => P (e - a) (n2 - b) - P (e - a) (n1 - b)) (fun e => Q (e - a) (n2 - b) - Q (e - a) (n1 - b))).
      + intros e _. apply (is_derive_minus (V := R_NormedModule)).
        * apply (shift_derive (fun x => P x (n2 - b))). apply HP.
        * apply (shift_derive (fun x => P x (n1 - b))). apply HP.
      + intros e _. apply (continuous_minus (V := R_NormedModule)).
        * apply (shift_continuous (fun x => Q x (n2 - b))). apply Hc.
        * apply (shift_continuous (fun x => Q x (n1 - b))). apply Hc.
  Qed.
End Box.

(** ** The kernels at a height z *)
Section Height.
  Variable z : R.
  Hypothesis Hz : z <> 0.
  Let z2 : 0 < z * z. Proof. nra. Qed.
  Definition sq3 (x y : R) : R := x * x + y * y + z * z.
  Definition r3 (x y : R) : R := sqrt (sq3 x y).
  Lemma sq3_pos x y : 0 < sq3 x y. Proof. unfold sq3. nra. Qed.
  Lemma r3_pos x y : 0 < r3 x y. Proof. apply sqrt_lt_R0, sq3_pos. Qed.
  Lemma r3_sq x y : r3 x y * r3 x y = sq3 x y. Proof. apply sqrt_sqrt. left. apply sq3_pos. Qed.
  Lemma r3_sym x y : r3 x y = r3 y x. Proof. unfold r3, sq3. f_equal. ring. Qed.
  Lemma r3_derive x y : is_derive (r3 x) y (y / r3 x y).
  Proof.
    unfold r3, sq3. auto_derive; [apply sq3_pos|]. fold (sq3 x y). fold (r3 x y). pose proof (r3_pos x y). field. lra.
  Qed.
  Lemma r3_derive' x y : is_derive (fun x => r3 x y) x (x / r3 x y).
  Proof. apply (is_derive_ext (r3 y)); [intros t; apply r3_sym|]. rewrite r3_sym. apply r3_derive. Qed.

  (** *** Gravity *)
  Definition gz (x y : R) : R := z / r3 x y ^ 3.
  Definition gz_in (x y : R) : R := z * y / ((x * x + z * z) * r3 x y).
  Definition gz_out (x y : R) : R := atan (x * y / (z * r3 x y)).

  Ltac start x y := pose proof (r3_pos x y) as Pr; pose proof (r3_sq x y) as Er; pose proof (sq3_pos x y) as Ps;
    assert (0 < x * x + z * z) as Px by nra; assert (0 < y * y + z * z) as Py by nra.
  Lemma r3_sq2 x y : r3 x y ^ 2 = x ^ 2 + y ^ 2 + z ^ 2.
  Proof. replace (r3 x y ^ 2) with (r3 x y * r3 x y) by ring. rewrite r3_sq. unfold sq3. ring. Qed.
  Ltac finish x y := let E := fresh in pose proof (r3_sq2 x y) as E; change (sqrt (x * x + y * y + z * z)) with (r3 x y); unfold sq3 in *;
    let s := fresh "s" in set (s := r3 x y) in *; clearbody s; field_simplify_eq; [ring [E]|repeat split; nra].
  Lemma gz_in_derive (x y : R) : is_derive (gz_in x) y (gz x y).
  Proof.
    start x y. unfold gz_in, gz. unfold r3 at 1, sq3. auto_derive; [split; [exact Ps|split; [|exact I]]; apply Rgt_not_eq; apply Rmult_lt_0_compat; [exact Px|exact Pr]|]. finish x y.
  Qed.
  Lemma one_plus_square (x y : R) : 1 + x * y * / (z * r3 x y) * (x * y * / (z * r3 x y) * 1) = (x * x + z * z) * (y * y + z * z) / (z * z * (r3 x y * r3 x y)).
  Proof. start x y. finish x y. Qed.
  Lemma gz_out_derive (x y : R) : is_derive (fun x => gz_out x y) x (gz_in x y).
  Proof.
    start x y. unfold gz_in, gz_out. unfold r3 at 1, sq3. auto_derive; [split; [exact Ps|split; [|exact I]]; apply Rmult_integral_contrapositive; split; [exact Hz|apply Rgt_not_eq, Pr]|].
    change (sqrt (x * x + y * y + z * z)) with (r3 x y). rewrite (one_plus_square x y). finish x y.
  Qed.

  (** *** Dipoles: moments along x, y and z *)
  Definition bx (x y : R) : R := 3 * x * z / r3 x y ^ 5.
  Definition bx_in (x y : R) : R := x * z * y * (3 * (x * x + z * z) + 2 * (y * y)) / ((x * x + z * z) ^ 2 * r3 x y ^ 3).
  Definition bx_out (x y : R) : R := - (z * y / ((x * x + z * z) * r3 x y)).
  Definition by_ (x y : R) : R := 3 * y * z / r3 x y ^ 5.
  Definition by_in (x y : R) : R := - (z / r3 x y ^ 3).
  Definition by_out (x y : R) : R := - (z * x / ((y * y + z * z) * r3 x y)).
  Definition bz (x y : R) : R := (2 * (z * z) - x * x - y * y) / r3 x y ^ 5.
  Definition bz_in (x y : R) : R := - (y * ((x * x - z * z) * r3 x y ^ 2 - z * z * (x * x + z * z)) / ((x * x + z * z) ^ 2 * r3 x y ^ 3)).
  Definition bz_out (x y : R) : R := x * y * (r3 x y ^ 2 + z * z) / (r3 x y * (x * x + z * z) * (y * y + z * z)).
  Ltac nonzero := repeat match goal with |- _ /\ _ => split | |- _ <> 0 => apply Rgt_not_eq | |- True => exact I end; try assumption;
    repeat (apply Rmult_lt_0_compat || apply pow_lt); try assumption; try lra.
  Lemma bx_in_derive (x y : R) : is_derive (bx_in x) y (bx x y).
  Proof. start x y. unfold bx_in, bx. unfold r3 at 1, sq3. auto_derive; [nonzero|]. finish x y. Qed.
  Lemma bx_out_derive (x y : R) : is_derive (fun x => bx_out x y) x (bx_in x y).
  Proof. start x y. unfold bx_in, bx_out. unfold r3 at 1, sq3. auto_derive; [nonzero|]. finish x y. Qed.
  Lemma by_in_derive (x y : R) : is_derive (by_in x) y (by_ x y).
  Proof. start x y. unfold by_in, by_. unfold r3 at 1, sq3. auto_derive; [nonzero|]. finish x y. Qed.
  Lemma by_out_derive (x y : R) : is_derive (fun x => by_out x y) x (by_in x y).
  Proof. start x y. unfold by_in, by_out. unfold r3 at 1, sq3. auto_derive; [nonzero|]. finish x y. Qed.
  Lemma bz_in_derive (x y : R) : is_derive (bz_in x) y (bz x y).
  Proof. start x y. unfold bz_in, bz. unfold r3 at 1 2, sq3. auto_derive; [nonzero|]. finish x y. Qed.
  Lemma bz_out_derive (x y : R) : is_derive (fun x => bz_out x y) x (bz_in x y).
  Proof. start x y. unfold bz_in, bz_out. unfold r3 at 1 2, sq3. auto_derive; [nonzero|]. finish x y. Qed.

  Ltac cont x y := start x y; apply (ex_derive_continuous (V := R_NormedModule)); unfold r3, sq3; auto_derive; nonzero.
  Lemma gz_continuous (x y : R) : continuous (gz x) y. Proof. unfold gz. cont x y. Qed.
  Lemma gz_in_continuous (x y : R) : continuous (fun x => gz_in x y) x. Proof. unfold gz_in. cont x y. Qed.
  Lemma bx_continuous (x y : R) : continuous (bx x) y. Proof. unfold bx. cont x y. Qed.
  Lemma bx_in_continuous (x y : R) : continuous (fun x => bx_in x y) x. Proof. unfold bx_in. cont x y. Qed.
  Lemma by_continuous (x y : R) : continuous (by_ x) y. Proof. unfold by_. cont x y. Qed.
  Lemma by_in_continuous (x y : R) : continuous (fun x => by_in x y) x. Proof. unfold by_in. cont x y. Qed.
  Lemma bz_continuous (x y : R) : continuous (bz x) y. Proof. unfold bz. cont x y. Qed.
  Lemma bz_in_continuous (x y : R) : continuous (fun x => bz_in x y) x. Proof. unfold bz_in. cont x y. Qed.
End Height.

(** ** Large squares *)
Definition settles (P : R -> R -> R) (l : R) : Prop := exists C, 0 <= C /\
  forall x y, 1 <= x -> 1 <= y -> Rabs (P x y - l) <= C * (/ x + / y) /\ Rabs (P (- x) y + l) <= C * (/ x + / y) /\
    Rabs (P x (- y) + l) <= C * (/ x + / y) /\ Rabs (P (- x) (- y) - l) <= C * (/ x + / y).

Lemma near_inverse L a : 2 * (Rabs a + 1) <= L -> 1 <= L - a /\ 1 <= L + a /\ / (L - a) <= 2 / L /\ / (L + a) <= 2 / L.
Proof.
  intros H. assert (A := Rle_abs a). assert (B := Rle_abs (- a)). rewrite Rabs_Ropp in B. pose proof (Rabs_pos a).
  assert (I : forall x, L / 2 <= x -> / x <= 2 / L). { intros x Hx. replace (2 / L) with (/ (L / 2)) by (field; lra). apply Rinv_le_contravar; lra. }
  split; [lra|]. split; [lra|]. split; apply I; lra.
Qed.

Lemma corners_lim P l a b : settles P l -> is_lim (fun L => corners P (- L - a) (L - a) (- L - b) (L - b)) p_infty (4 * l).
Proof.
  intros (C & HC & H). apply is_lim_spec. intros eps. pose proof (cond_pos eps) as Pe.
  exists (Rmax (2 * (Rabs a + 1)) (Rmax (2 * (Rabs b + 1)) (16 * C / eps))). intros L HL.
  assert (La := Rmax_l (2 * (Rabs a + 1)) (Rmax (2 * (Rabs b + 1)) (16 * C / eps))). assert (Lb := Rmax_r (2 * (Rabs a + 1)) (Rmax (2 * (Rabs b + 1)) (16 * C / eps))).
  assert (Lc := Rmax_l (2 * (Rabs b + 1)) (16 * C / eps)). assert (Ld := Rmax_r (2 * (Rabs b + 1)) (16 * C / eps)).
  destruct (near_inverse L a ltac:(lra)) as (A1 & A2 & A3 & A4), (near_inverse L b ltac:(lra)) as (B1 & B2 & B3 & B4). pose proof (Rabs_pos a).
  assert (L0 : 0 < L) by lra.
  replace (- L - a) with (- (L + a)) by ring. replace (- L - b) with (- (L + b)) by ring. unfold corners.
  destruct (H (L - a) (L - b) A1 B1) as (H1 & _). destruct (H (L + a) (L - b) A2 B1) as (_ & H2 & _). destruct (H (L - a) (L + b) A1 B2) as (_ & _ & H3 & _). destruct (H (L + a) (L + b) A2 B2) as (_ & _ & _ & H4).
  assert (K : forall u v, u <= 2 / L -> v <= 2 / L -> C * (u + v) <= 4 * C / L). { intros u v Hu Hv. replace (4 * C / L) with (C * (2 / L + 2 / L)) by (field; lra). apply Rmult_le_compat_l; lra. }
  assert (K1 := K _ _ A3 B3). assert (K2 := K _ _ A4 B3). assert (K3 := K _ _ A3 B4). assert (K4 := K _ _ A4 B4).
  assert (F : 16 * C / L < eps). { apply Rmult_lt_reg_r with L; [exact L0|]. replace (16 * C / L * L) with (16 * C) by (field; lra). apply Rmult_lt_reg_r with (/ eps); [now apply Rinv_0_lt_compat|].
    replace (eps * L * / eps) with L by (field; lra). unfold Rdiv in *. lra. }
  apply Rabs_le_between in H1, H2, H3, H4. replace (16 * C / L) with (4 * (4 * C / L)) in F by (field; lra). apply Rabs_lt_between. lra.
Qed.

Lemma r3_bounds z x y : 0 <= x -> 0 <= y -> x <= r3 z x y /\ y <= r3 z x y /\ r3 z x y <= x + y + Rabs z.
Proof.
  intros Hx Hy. unfold r3, sq3. pose proof (Rabs_pos z). assert (Rabs z * Rabs z = z * z) by (rewrite <- Rabs_mult; apply Rabs_pos_eq; nra). split; [|split].
  - rewrite <- (sqrt_square x) at 1 by exact Hx. apply sqrt_le_1_alt. nra.
  - rewrite <- (sqrt_square y) at 1 by exact Hy. apply sqrt_le_1_alt. nra.
  - rewrite <- (sqrt_square (x + y + Rabs z)) by lra. apply sqrt_le_1_alt. nra.
Qed.
Lemma r3_signs z x y : r3 z (- x) y = r3 z x y /\ r3 z x (- y) = r3 z x y /\ r3 z (- x) (- y) = r3 z x y.
Proof. unfold r3, sq3. split; [|split]; f_equal; ring. Qed.

(** An odd function in both arguments. *)
Lemma settles_odd (P : R -> R -> R) (l C : R) : (forall x y, P (- x) y = - P x y) -> (forall x y, P x (- y) = - P x y) -> 0 <= C ->
  (forall x y, 1 <= x -> 1 <= y -> Rabs (P x y - l) <= C * (/ x + / y)) -> settles P l.
Proof.
  intros Ox Oy HC H. exists C. split; [exact HC|]. intros x y Hx Hy. specialize (H x y Hx Hy). split; [exact H|]. rewrite !Ox, !Oy. split; [|split].
  - rewrite <- Rabs_Ropp. now replace (- (- P x y + l)) with (P x y - l) by ring.
  - rewrite <- Rabs_Ropp. now replace (- (- P x y + l)) with (P x y - l) by ring.
  - now replace (- - P x y - l) with (P x y - l) by ring.
Qed.
(** A function that vanishes and whose size depends on the size of the arguments. *)
Lemma settles_zero (P : R -> R -> R) (C : R) : (forall x y, Rabs (P (- x) y) = Rabs (P x y)) -> (forall x y, Rabs (P x (- y)) = Rabs (P x y)) -> 0 <= C ->
  (forall x y, 1 <= x -> 1 <= y -> Rabs (P x y) <= C * (/ x + / y)) -> settles P 0.
Proof.
  intros Ox Oy HC H. exists C. split; [exact HC|]. intros x y Hx Hy. specialize (H x y Hx Hy). rewrite !Rminus_0_r, !Rplus_0_r, !Oy, !Ox. tauto.
Qed.

Lemma atan_near t : 0 < t -> Rabs (atan t - PI / 2) <= / t.
Proof.
  intros Ht. assert (E : atan t = PI / 2 - atan (/ t)).
  { pose proof (atan_inv t Ht). lra. }
  assert (P : 0 < / t) by now apply Rinv_0_lt_compat.
  assert (0 <= atan (/ t) <= / t).
  { split.
    - rewrite <- atan_0. left. apply atan_increasing. exact P.
    - destruct (MVT_gen atan 0 (/ t) (fun x => / (1 + x ^ 2))) as (c & Hc & E').
      + intros x _. auto_derive; [exact I|]. unfold Rsqr, pow. field. nra.
      + intros x _. apply derivable_continuous_pt, derivable_pt_atan.
      + rewrite atan_0 in E'. replace (atan (/ t)) with (/ (1 + c ^ 2) * (/ t - 0)) by lra. assert (/ (1 + c ^ 2) <= 1). { rewrite <- Rinv_1 at 2. apply Rinv_le_contravar; [lra|]. pose proof (pow2_ge_0 c). lra. }
        nra. }
  rewrite E. apply Rabs_le. lra.
Qed.

Lemma inverse_product x y : 1 <= x -> 1 <= y -> 0 < / x /\ 0 < / y /\ / x * / y <= / x /\ / x * / y <= / y.
Proof.
  intros Hx Hy. assert (A : 0 < / x) by (apply Rinv_0_lt_compat; lra). assert (B : 0 < / y) by (apply Rinv_0_lt_compat; lra).
  assert (/ x <= 1) by (rewrite <- Rinv_1; apply Rinv_le_contravar; lra). assert (/ y <= 1) by (rewrite <- Rinv_1; apply Rinv_le_contravar; lra). repeat split; nra.
Qed.
Lemma gz_settles_pos z : 0 < z -> settles (gz_out z) (PI / 2).
Proof.
  intros Hz. apply (settles_odd _ _ (z * (1 + z))); [| |nra|].
  - intros x y. unfold gz_out. rewrite (proj1 (r3_signs z x y)), <- atan_opp. f_equal. unfold Rdiv. ring.
  - intros x y. unfold gz_out. rewrite (proj1 (proj2 (r3_signs z x y))), <- atan_opp. f_equal. unfold Rdiv. ring.
  - intros x y Hx Hy. destruct (inverse_product x y Hx Hy) as (Ix & Iy & Ixy & _). pose proof (r3_pos z ltac:(lra) x y) as Pr. destruct (r3_bounds z x y ltac:(lra) ltac:(lra)) as (_ & _ & Hr). rewrite Rabs_pos_eq in Hr by lra.
    eapply Rle_trans; [apply atan_near; apply Rmult_lt_0_compat; [nra|apply Rinv_0_lt_compat; nra]|].
    replace (/ (x * y / (z * r3 z x y))) with (z * r3 z x y * (/ x * / y)) by (field; repeat split; lra).
    apply Rle_trans with (z * (x + y + z) * (/ x * / y)).
    + apply Rmult_le_compat_r; [nra|]. apply Rmult_le_compat_l; lra.
    + replace (z * (x + y + z) * (/ x * / y)) with (z * (/ y + / x + z * (/ x * / y))) by (field; lra). rewrite Rmult_assoc. apply Rmult_le_compat_l; [lra|]. nra.
Qed.
Lemma r3_opp z x y : r3 (- z) x y = r3 z x y.
Proof. unfold r3, sq3. f_equal. ring. Qed.
Lemma gz_settles z : z <> 0 -> settles (gz_out z) (sign z * (PI / 2)).
Proof.
  intros Hz. destruct (Rtotal_order z 0) as [H|[H|H]]; [|contradiction|].
  - rewrite sign_eq_m1 by exact H. destruct (gz_settles_pos (- z) ltac:(lra)) as (C & HC & HP). exists C. split; [exact HC|]. intros x y Hx Hy. specialize (HP x y Hx Hy).
    assert (E : forall x y, gz_out z x y = - gz_out (- z) x y). { intros u v. unfold gz_out. rewrite r3_opp, <- atan_opp. f_equal. pose proof (r3_pos z Hz u v). field. lra. }
    rewrite !E. destruct HP as (H1 & H2 & H3 & H4). repeat split; rewrite <- Rabs_Ropp.
    + replace (- (- gz_out (- z) x y - -1 * (PI / 2))) with (gz_out (- z) x y - PI / 2) by ring. exact H1.
    + replace (- (- gz_out (- z) (- x) y + -1 * (PI / 2))) with (gz_out (- z) (- x) y + PI / 2) by ring. exact H2.
    + replace (- (- gz_out (- z) x (- y) + -1 * (PI / 2))) with (gz_out (- z) x (- y) + PI / 2) by ring. exact H3.
    + replace (- (- gz_out (- z) (- x) (- y) - -1 * (PI / 2))) with (gz_out (- z) (- x) (- y) - PI / 2) by ring. exact H4.
  - rewrite sign_eq_1 by exact H. rewrite Rmult_1_l. now apply gz_settles_pos.
Qed.

Lemma ratio_bound z x y : z <> 0 -> 1 <= x -> 1 <= y -> 0 <= y / ((x * x + z * z) * r3 z x y) <= / x.
Proof.
  intros Hz Hx Hy. pose proof (r3_pos z Hz x y) as Pr. destruct (r3_bounds z x y ltac:(lra) ltac:(lra)) as (Hrx & Hry & _). assert (0 <= z * z) by nra.
  assert (P : 0 < (x * x + z * z) * r3 z x y) by (apply Rmult_lt_0_compat; nra). split.
  - apply Rmult_le_pos; [lra|left; now apply Rinv_0_lt_compat].
  - apply Rmult_le_reg_r with ((x * x + z * z) * r3 z x y); [exact P|]. replace (y / ((x * x + z * z) * r3 z x y) * ((x * x + z * z) * r3 z x y)) with y by (field; split; nra).
    apply Rmult_le_reg_l with x; [lra|]. rewrite <- !Rmult_assoc. rewrite Rinv_r, Rmult_1_l by lra. nra.
Qed.
Lemma bx_settles z : z <> 0 -> settles (bx_out z) 0.
Proof.
  intros Hz. apply (settles_zero _ (Rabs z)); [| |apply Rabs_pos|].
  - intros x y. unfold bx_out. rewrite (proj1 (r3_signs z x y)). do 2 f_equal. f_equal. f_equal. ring.
  - intros x y. unfold bx_out. rewrite (proj1 (proj2 (r3_signs z x y))). rewrite <- Rabs_Ropp. f_equal. unfold Rdiv. ring.
  - intros x y Hx Hy. unfold bx_out. rewrite Rabs_Ropp. unfold Rdiv. rewrite Rmult_assoc, Rabs_mult. destruct (ratio_bound z x y Hz Hx Hy) as (B1 & B2). unfold Rdiv in *. rewrite (Rabs_pos_eq (y * _)) by exact B1.
    destruct (inverse_product x y Hx Hy) as (Ix & Iy & _). apply Rmult_le_compat_l; [apply Rabs_pos|]. lra.
Qed.
Lemma by_settles z : z <> 0 -> settles (by_out z) 0.
Proof.
  intros Hz. destruct (bx_settles z Hz) as (C & HC & H). exists C. split; [exact HC|]. intros x y Hx Hy. destruct (H y x Hy Hx) as (H1 & H2 & H3 & H4).
  assert (E : forall x y, by_out z x y = bx_out z y x) by (intros u v; unfold by_out, bx_out; now rewrite r3_sym). rewrite !E, (Rplus_comm (/ x)). tauto.
Qed.
Lemma bz_settles z : z <> 0 -> settles (bz_out z) 0.
Proof.
  intros Hz. assert (Z2 : 0 < z * z) by nra. apply (settles_zero _ 1); [| |lra|].
  - intros x y. unfold bz_out. rewrite (proj1 (r3_signs z x y)). rewrite <- Rabs_Ropp. f_equal. replace (- x * - x) with (x * x) by ring. unfold Rdiv. ring.
  - intros x y. unfold bz_out. rewrite (proj1 (proj2 (r3_signs z x y))). rewrite <- Rabs_Ropp. f_equal. replace (- y * - y) with (y * y) by ring. unfold Rdiv. ring.
  - intros x y Hx Hy. pose proof (r3_pos z Hz x y) as Pr. destruct (r3_bounds z x y ltac:(lra) ltac:(lra)) as (Hrx & Hry & _).
    assert (E : bz_out z x y = x * (y / ((y * y + z * z) * r3 z x y)) + y * (x / ((x * x + z * z) * r3 z x y))).
    { unfold bz_out. rewrite r3_sq2 by exact Hz. field. repeat split; nra. }
    assert (B : forall a b, 1 <= a -> 1 <= b -> b <= r3 z x y -> 0 <= b * (a / ((a * a + z * z) * r3 z x y)) <= / a).
    { intros a b Ha Hb Hr. assert (P : 0 < (a * a + z * z) * r3 z x y) by (apply Rmult_lt_0_compat; nra). split.
      - apply Rmult_le_pos; [lra|]. apply Rmult_le_pos; [lra|left; now apply Rinv_0_lt_compat].
      - apply Rmult_le_reg_r with ((a * a + z * z) * r3 z x y); [exact P|]. replace (b * (a / ((a * a + z * z) * r3 z x y)) * ((a * a + z * z) * r3 z x y)) with (b * a) by (field; split; nra).
        apply Rmult_le_reg_l with a; [lra|]. rewrite <- !Rmult_assoc. rewrite Rinv_r, Rmult_1_l by lra. nra. }
    destruct (B y x Hy Hx Hrx) as (B1 & B2), (B x y Hx Hy Hry) as (B3 & B4). rewrite E, Rabs_pos_eq by lra. lra.
Qed.
