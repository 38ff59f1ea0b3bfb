(** Lemmas about the vocabulary of Base.v. *)
From Coq Require Import Permutation Psatz.
From Verif Require Import Base.

Lemma sumR_app l1 l2 : sumR (l1 ++ l2) = sumR l1 + sumR l2.
Proof. induction l1 as [|x l IH]; simpl; [lra|]. rewrite IH; lra. Qed.

Lemma sumR_perm l1 l2 : Permutation l1 l2 -> sumR l1 = sumR l2.
Proof. induction 1; simpl; lra. Qed.

Lemma sum_over_app {A} (l1 l2 : list A) f : sum_over (l1 ++ l2) f = sum_over l1 f + sum_over l2 f.
Proof. unfold sum_over; rewrite map_app; apply sumR_app. Qed.

Lemma sum_over_perm {A} (l1 l2 : list A) f : Permutation l1 l2 -> sum_over l1 f = sum_over l2 f.
Proof. intros H; apply sumR_perm, Permutation_map, H. Qed.

Lemma sum_over_cons {A} (x : A) l f : sum_over (x :: l) f = f x + sum_over l f.
Proof. reflexivity. Qed.

Lemma sum_over_ext {A} (l : list A) f g : (forall x, In x l -> f x = g x) -> sum_over l f = sum_over l g.
Proof.
  induction l as [|x l IH]; intros H; [reflexivity|].
  rewrite !sum_over_cons, IH, (H x); [reflexivity|now left|]. intros y Hy; apply H; now right.
Qed.

Lemma sum_over_scal {A} (l : list A) k f : sum_over l (fun x => k * f x) = k * sum_over l f.
Proof. induction l as [|x l IH]; [unfold sum_over; simpl; lra|]. rewrite !sum_over_cons, IH; lra. Qed.

Lemma sum_over_plus {A} (l : list A) f g : sum_over l (fun x => f x + g x) = sum_over l f + sum_over l g.
Proof. induction l as [|x l IH]; [unfold sum_over; simpl; lra|]. rewrite !sum_over_cons, IH; lra. Qed.

Lemma sum_over_zero {A} (l : list A) f : (forall x, In x l -> f x = 0) -> sum_over l f = 0.
Proof.
  induction l as [|x l IH]; intros H; [reflexivity|].
  rewrite sum_over_cons, (H x), IH; [lra| |now left]. intros y Hy; apply H; now right.
Qed.

Lemma sum_over_map {A B} (g : A -> B) l f : sum_over (map g l) f = sum_over l (fun x => f (g x)).
Proof. unfold sum_over; now rewrite map_map. Qed.

Lemma sum_over_nonneg {A} (l : list A) f : (forall x, In x l -> 0 <= f x) -> 0 <= sum_over l f.
Proof.
  induction l as [|x l IH]; intros H; [unfold sum_over; simpl; lra|].
  rewrite sum_over_cons. assert (0 <= f x) by (apply H; now left).
  assert (0 <= sum_over l f) by (apply IH; intros; apply H; now right). lra.
Qed.

Lemma length_upd {A} (l : list A) i x : length (upd l i x) = length l.
Proof. revert i; induction l as [|y l IH]; intros [|i]; simpl; auto. Qed.

Lemma nth_error_upd_eq {A} (l : list A) i x : (i < length l)%nat -> nth_error (upd l i x) i = Some x.
Proof. revert i; induction l as [|y l IH]; intros [|i] H; simpl in *; try lia; auto. apply IH; lia. Qed.

Lemma nth_error_upd_neq {A} (l : list A) i j x : i <> j -> nth_error (upd l i x) j = nth_error l j.
Proof. revert i j; induction l as [|y l IH]; intros [|i] [|j] H; simpl; auto; try lia. Qed.

Lemma upd_app_right {A} (l1 l2 : list A) i x :
  (length l1 <= i)%nat -> upd (l1 ++ l2) i x = l1 ++ upd l2 (i - length l1) x.
Proof.
  revert i; induction l1 as [|y l IH]; intros i H; simpl in *.
  - now rewrite Nat.sub_0_r.
  - destruct i as [|i]; [lia|]. simpl. now rewrite IH by lia.
Qed.

Lemma aget_ok {A} (l : list A) i d : (i < length l)%nat -> aget l i = Ok (nth i l d).
Proof. intros H; unfold aget. rewrite (nth_error_nth' l d H). reflexivity. Qed.

Lemma aget_oob {A} (l : list A) i : (length l <= i)%nat -> aget l i = Raise OutOfBounds.
Proof. intros H; unfold aget. now rewrite (proj2 (nth_error_None l i) H). Qed.

Lemma aset_ok {A} (l : list A) i x : (i < length l)%nat -> aset l i x = Ok (upd l i x).
Proof. intros H; unfold aset. now apply Nat.ltb_lt in H; rewrite H. Qed.

Lemma aset_oob {A} (l : list A) i x : (length l <= i)%nat -> aset l i x = Raise OutOfBounds.
Proof. intros H; unfold aset. destruct (Nat.ltb_spec i (length l)); [lia|reflexivity]. Qed.

Lemma for_app {I S} (l1 l2 : list I) body (s : S) :
  for_ (l1 ++ l2) body s = bind (for_ l1 body s) (for_ l2 body).
Proof.
  revert s; induction l1 as [|i l IH]; intros s; simpl; [reflexivity|].
  destruct (body i s) as [s'|e]; simpl; auto.
Qed.

Lemma for_ok_fold {I S} (l : list I) (body : I -> S -> res S) (f : S -> I -> S) s :
  (forall i s, In i l -> body i s = Ok (f s i)) -> for_ l body s = Ok (fold_left f l s).
Proof.
  revert s; induction l as [|i l IH]; intros s H; simpl; [reflexivity|].
  rewrite H by (now left). simpl. apply IH. intros j s' Hj; apply H; now right.
Qed.

Lemma range_in a b i : In i (range a b) <-> (a <= i < b)%nat.
Proof. unfold range; rewrite in_seq; lia. Qed.

Lemma dot_nonneg a : 0 <= dot a a.
Proof. destruct a as [x y z]; unfold dot; simpl; nra. Qed.

Lemma dot_sym a b : dot a b = dot b a.
Proof. unfold dot; lra. Qed.

Lemma norm_nonneg a : 0 <= norm a.
Proof. apply sqrt_pos. Qed.

Lemma norm_sqr a : norm a * norm a = dot a a.
Proof. unfold norm. apply sqrt_sqrt, dot_nonneg. Qed.

Lemma cauchy_schwarz a b : dot a b * dot a b <= dot a a * dot b b.
Proof.
  destruct a as [a1 a2 a3], b as [b1 b2 b3]; unfold dot; simpl.
  pose proof (pow2_ge_0 (a1*b2-a2*b1)); pose proof (pow2_ge_0 (a1*b3-a3*b1)); pose proof (pow2_ge_0 (a2*b3-a3*b2)). nra.
Qed.

Lemma cauchy_schwarz_norm a b : Rabs (dot a b) <= norm a * norm b.
Proof.
  rewrite <- (Rabs_pos_eq (norm a * norm b)) by (apply Rmult_le_pos; apply norm_nonneg).
  apply Rsqr_le_abs_0. unfold Rsqr.
  replace (norm a * norm b * (norm a * norm b)) with ((norm a * norm a) * (norm b * norm b)) by ring.
  rewrite !norm_sqr. apply cauchy_schwarz.
Qed.

Lemma eucl_sym a b : eucl a b = eucl b a.
Proof. unfold eucl, norm. f_equal. unfold dot, vsub; simpl; ring. Qed.

Lemma eucl_nonneg a b : 0 <= eucl a b.
Proof. apply norm_nonneg. Qed.

Lemma eucl_zero a b : eucl a b = 0 <-> a = b.
Proof.
  unfold eucl, norm; split.
  - intros H. apply sqrt_eq_0 in H; [|apply dot_nonneg].
    destruct a as [a1 a2 a3], b as [b1 b2 b3]; unfold dot, vsub in H; simpl in H.
    pose proof (Rle_0_sqr (a1-b1)) as K1; pose proof (Rle_0_sqr (a2-b2)) as K2; pose proof (Rle_0_sqr (a3-b3)) as K3.
    assert (E1 : Rsqr (a1-b1) = 0) by (unfold Rsqr in *; lra).
    assert (E2 : Rsqr (a2-b2) = 0) by (unfold Rsqr in *; lra).
    assert (E3 : Rsqr (a3-b3) = 0) by (unfold Rsqr in *; lra).
    apply Rsqr_0_uniq in E1; apply Rsqr_0_uniq in E2; apply Rsqr_0_uniq in E3.
    f_equal; lra.
  - intros ->. replace (dot (vsub b b) (vsub b b)) with 0; [apply sqrt_0|].
    unfold dot, vsub; simpl; ring.
Qed.

Lemma eucl_triangle a b c : eucl a c <= eucl a b + eucl b c.
Proof.
  assert (H : norm (vadd (vsub a b) (vsub b c)) <= norm (vsub a b) + norm (vsub b c)).
  { set (u := vsub a b); set (v := vsub b c).
    apply Rsqr_incr_0_var; [|pose proof (norm_nonneg u); pose proof (norm_nonneg v); lra].
    unfold Rsqr.
    replace ((norm u + norm v) * (norm u + norm v)) with (norm u * norm u + 2 * (norm u * norm v) + norm v * norm v) by ring.
    rewrite !norm_sqr.
    pose proof (cauchy_schwarz_norm u v) as Hc. pose proof (Rle_abs (dot u v)).
    replace (dot (vadd u v) (vadd u v)) with (dot u u + 2 * dot u v + dot v v)
      by (unfold dot, vadd; simpl; ring). lra. }
  unfold eucl. replace (vsub a c) with (vadd (vsub a b) (vsub b c)); [exact H|].
  unfold vadd, vsub; simpl; f_equal; ring.
Qed.

(** Turns an equation over one of Coquelicot's canonical structures on R into one over R. *)
Ltac eqR := match goal with |- @eq _ ?a ?b => change (@eq R a b) end.
