(** The closed forms are the improper integrals (C31). *)
From Coquelicot Require Import Coquelicot.
From Verif Require Import Base BaseFacts NumPy EllipsoidModel EllipsoidSpec EllipsoidLambdaProofs.
Local Open Scope R_scope.

(** ** From primitives to improper integrals *)
Lemma improper_of_primitive (f g : R -> R) (l : R) :
  (forall u, l <= u -> is_derive g u (- f u)) -> (forall u, l <= u -> continuous f u) ->
  filterlim g (Rbar_locally p_infty) (locally 0) -> is_RInt_gen f (at_point l) (Rbar_locally p_infty) (g l).
Proof.
  intros D C L P HP. unfold filtermapi.
  assert (L' : filterlim (fun u => g l - g u) (Rbar_locally p_infty) (locally (g l))).
  { assert (K : continuous (fun x => g l - x) 0) by (apply (ex_derive_continuous (K := R_AbsRing) (V := R_NormedModule)); auto_derive; exact I).
    unfold continuous in K. rewrite Rminus_0_r in K. apply (filterlim_comp _ _ _ g (fun x => g l - x) _ (locally 0)); [exact L | exact K]. }
  specialize (L' P HP). unfold filtermap in L'.
  apply (Filter_prod _ _ _ (fun x => x = l) (fun u => l <= u /\ P (g l - g u))).
  - reflexivity.
  - apply filter_and; [|exact L']. exists l. intros x Hx. lra.
  - intros x y -> [Hy HPy]. exists (g l - g y). split; [|exact HPy]. cbn [fst snd].
    replace (g l - g y) with (minus (- g y) (- g l)) by (unfold minus, plus, opp; cbn; ring).
    apply (is_RInt_derive (fun u => - g u) f).
    + intros x Hx. rewrite Rmin_left in Hx by exact Hy.
      apply (is_derive_ext (fun u => opp (g u))); [reflexivity|]. replace (f x) with (opp (- f x)) by (unfold opp; cbn; ring).
      apply (is_derive_opp g). apply D, Hx.
    + intros x Hx. rewrite Rmin_left in Hx by exact Hy. apply C, Hx.
Qed.

(** ** Square roots *)
Lemma sqrt_prod3 x y z : 0 <= x -> 0 <= y -> 0 <= z -> sqrt (x * y * z) = sqrt x * sqrt y * sqrt z.
Proof. intros. rewrite !sqrt_mult; try assumption; try reflexivity. apply Rmult_le_pos; assumption. Qed.
Lemma is_derive_sqrt_shift A l : 0 < A + l -> is_derive (fun u => sqrt (A + u)) l (/ (2 * sqrt (A + l))).
Proof. intros H. auto_derive; [exact H|]. field. apply Rgt_not_eq, sqrt_lt_R0, H. Qed.
Lemma sqrt_div_pos x y : 0 < x -> 0 < y -> sqrt (x / y) = sqrt x / sqrt y.
Proof. intros. apply sqrt_div; lra. Qed.
Lemma Rpower_half x : 0 < x -> Rpower x (1 / 2) = sqrt x.
Proof. intros. replace (1 / 2) with (/ 2) by lra. apply Rpower_sqrt; assumption. Qed.
Lemma Rpower_3half x : 0 < x -> Rpower x (3 / 2) = sqrt x ^ 3.
Proof.
  intros. replace (3 / 2) with (1 + / 2) by lra. rewrite Rpower_plus, Rpower_1, Rpower_sqrt by assumption.
  replace x with (sqrt x * sqrt x) at 1 by (apply sqrt_sqrt; lra). ring.
Qed.

(** The variable w = 1 / sqrt (A + l) tends to zero. *)
Lemma w_lim A : filterlim (fun l => / sqrt (A + l)) (Rbar_locally p_infty) (locally 0).
Proof.
  apply filterlim_locally. intros eps. exists (Rmax (- A) 0 + 1 + / eps ^ 2 - A + Rabs A). intros l Hl.
  assert (Pe := cond_pos eps). assert (He : 0 < eps ^ 2) by (apply pow_lt; exact Pe).
  assert (HA := Rle_abs (- A)). rewrite Rabs_Ropp in HA. assert (M := Rmax_r (- A) 0). assert (NA := Rabs_pos A).
  assert (Hi : 0 < / eps ^ 2) by (apply Rinv_0_lt_compat; exact He).
  assert (Q : / eps ^ 2 < A + l) by lra.
  assert (S : / eps < sqrt (A + l)).
  { apply Rsqr_incrst_0; [|left; apply Rinv_0_lt_compat, Pe | apply sqrt_pos].
    unfold Rsqr at 2. rewrite sqrt_sqrt by lra. apply Rle_lt_trans with (2 := Q). right. unfold Rsqr. field. apply Rgt_not_eq. exact Pe. }
  assert (Pi : 0 < / eps) by (apply Rinv_0_lt_compat, Pe).
  unfold ball; cbn; unfold AbsRing_ball, abs, minus, plus, opp; cbn. rewrite Ropp_0, Rplus_0_r.
  rewrite Rabs_pos_eq by (left; apply Rinv_0_lt_compat; lra).
  rewrite <- (Rinv_inv eps) by (apply Rgt_not_eq; exact Pe). apply Rinv_lt_contravar; [apply Rmult_lt_0_compat; lra | exact S].
Qed.

Lemma lim_by_w A (g H : R -> R) : (forall l, 0 <= l -> g l = H (/ sqrt (A + l))) -> continuous H 0 -> H 0 = 0 ->
  filterlim g (Rbar_locally p_infty) (locally 0).
Proof.
  intros E C Z. apply (filterlim_ext_loc (fun l => H (/ sqrt (A + l)))).
  - exists 0. intros l Hl. symmetry. apply E. lra.
  - apply (filterlim_comp _ _ _ (fun l => / sqrt (A + l)) H _ (locally 0)); [apply w_lim|].
    unfold continuous in C. rewrite Z in C. exact C.
Qed.

Lemma integrand_continuous a b c e l : 0 < a ^ 2 + l -> 0 < b ^ 2 + l -> 0 < c ^ 2 + l -> 0 < e ^ 2 + l -> continuous (integrand a b c e) l.
Proof.
  intros HA HB HC HE. unfold integrand. apply (ex_derive_continuous (K := R_AbsRing) (V := R_NormedModule)).
  assert (0 < (a ^ 2 + l) * (b ^ 2 + l) * (c ^ 2 + l)) by (repeat apply Rmult_lt_0_compat; assumption).
  auto_derive. split; [|split; [|exact I]].
  - replace ((a * (a * 1) + l) * (b * (b * 1) + l) * (c * (c * 1) + l)) with ((a ^ 2 + l) * (b ^ 2 + l) * (c ^ 2 + l)) by ring. exact H.
  - apply Rgt_not_eq. apply Rmult_lt_0_compat; [lra|]. apply sqrt_lt_R0.
    replace ((a * (a * 1) + l) * (b * (b * 1) + l) * (c * (c * 1) + l)) with ((a ^ 2 + l) * (b ^ 2 + l) * (c ^ 2 + l)) by ring. exact H.
Qed.

Lemma improper_intro a b c e (g : R -> R) l : 0 < a -> 0 < b -> 0 < c -> 0 < e -> 0 <= l ->
  (forall u, 0 <= u -> is_derive g u (- integrand a b c e u)) ->
  filterlim g (Rbar_locally p_infty) (locally 0) -> improper a b c e l (g l).
Proof.
  intros Ha Hb Hc He Hl D L. apply improper_of_primitive; [intros u Hu; apply D; lra | | exact L].
  intros u Hu. assert (A := sq_pos a Ha). assert (B := sq_pos b Hb). assert (C := sq_pos c Hc). assert (E := sq_pos e He).
  apply integrand_continuous; lra.
Qed.

(** ** Prolate *)
Section Prolate.
Variables a b : R.
Hypothesis Hb : 0 < b.
Hypothesis Hab : b < a.
Let eps := sqrt (a ^ 2 - b ^ 2).
Definition pro_log (l : R) : R := ln ((sqrt (a ^ 2 - b ^ 2) + sqrt (a ^ 2 + l)) / sqrt (b ^ 2 + l)).
Definition pro_1 (l : R) : R := 2 / sqrt (a ^ 2 - b ^ 2) ^ 3 * (pro_log l - sqrt (a ^ 2 - b ^ 2) / sqrt (a ^ 2 + l)).
Definition pro_2 (l : R) : R := 1 / sqrt (a ^ 2 - b ^ 2) ^ 3 * (sqrt (a ^ 2 - b ^ 2) * sqrt (a ^ 2 + l) / (b ^ 2 + l) - pro_log l).

Lemma pro_pos : 0 < b ^ 2 /\ 0 < a ^ 2 - b ^ 2.
Proof. split; nra. Qed.
Lemma eps_pos : 0 < eps. Proof. apply sqrt_lt_R0. apply pro_pos. Qed.
Lemma eps_sq : eps * eps = a ^ 2 - b ^ 2. Proof. apply sqrt_sqrt. generalize pro_pos; lra. Qed.

Lemma pro_log_derive l : 0 <= l -> is_derive pro_log l (- eps / (2 * sqrt (a ^ 2 + l) * (b ^ 2 + l))).
Proof.
  intros Hl. destruct pro_pos as [P1 P2]. assert (Pe := eps_pos). assert (Ee := eps_sq). unfold pro_log. fold eps.
  assert (PA : 0 < a ^ 2 + l) by lra. assert (PB : 0 < b ^ 2 + l) by lra.
  assert (SA := sqrt_lt_R0 _ PA). assert (SB := sqrt_lt_R0 _ PB).
  assert (QA := sqrt_sqrt (a ^ 2 + l) (Rlt_le _ _ PA)). assert (QB := sqrt_sqrt (b ^ 2 + l) (Rlt_le _ _ PB)).
  assert (H1 := is_derive_sqrt_shift (a ^ 2) l PA). assert (H2 := is_derive_sqrt_shift (b ^ 2) l PB).
  apply (is_derive_ext_loc (fun u => ln (eps + sqrt (a ^ 2 + u)) - ln (sqrt (b ^ 2 + u)))).
  { exists (mkposreal _ P1). intros u Hu. unfold ball in Hu; cbn in Hu; unfold AbsRing_ball, abs, minus, plus, opp in Hu; cbn in Hu.
    apply Rabs_lt_between in Hu. assert (0 < sqrt (b ^ 2 + u)) by (apply sqrt_lt_R0; cbn; lra).
    assert (0 <= sqrt (a ^ 2 + u)) by apply sqrt_pos. symmetry. apply ln_div; lra. }
  replace (- eps / (2 * sqrt (a ^ 2 + l) * (b ^ 2 + l))) with
    (minus (/ (2 * sqrt (a ^ 2 + l)) * / (eps + sqrt (a ^ 2 + l))) (/ (2 * sqrt (b ^ 2 + l)) * / sqrt (b ^ 2 + l))).
  - apply (is_derive_minus (fun u => ln (eps + sqrt (a ^ 2 + u))) (fun u => ln (sqrt (b ^ 2 + u)))).
    + apply (is_derive_comp (fun y => ln (eps + y)) (fun u => sqrt (a ^ 2 + u)) l); [|exact H1]. auto_derive; [lra | field; lra].
    + apply (is_derive_comp ln (fun u => sqrt (b ^ 2 + u)) l); [|exact H2]. auto_derive; [lra | field; lra].
  - unfold minus, plus, opp; cbn -[pow]. replace (b ^ 2 + l) with ((sqrt (a ^ 2 + l) - eps) * (sqrt (a ^ 2 + l) + eps)) at 3 by (transitivity (sqrt (a ^ 2 + l) * sqrt (a ^ 2 + l) - eps * eps); [ring | rewrite QA, Ee; ring]).
    replace (/ (2 * sqrt (b ^ 2 + l)) * / sqrt (b ^ 2 + l)) with (/ (2 * ((sqrt (a ^ 2 + l) - eps) * (sqrt (a ^ 2 + l) + eps)))).
    + assert (eps < sqrt (a ^ 2 + l)) by (apply sqrt_lt_1; lra). field. repeat split; lra.
    + replace ((sqrt (a ^ 2 + l) - eps) * (sqrt (a ^ 2 + l) + eps)) with (sqrt (b ^ 2 + l) * sqrt (b ^ 2 + l)) by (transitivity (sqrt (a ^ 2 + l) * sqrt (a ^ 2 + l) - eps * eps); [rewrite QA, QB, Ee; ring | ring]). field. lra.
Qed.

Lemma pro_integrand_1 l : 0 <= l -> integrand a b b a l = / (sqrt (a ^ 2 + l) ^ 3 * (b ^ 2 + l)).
Proof.
  intros Hl. destruct pro_pos as [P1 P2]. unfold integrand. rewrite sqrt_prod3 by lra.
  rewrite (Rmult_assoc (sqrt (a ^ 2 + l))), sqrt_sqrt by lra. f_equal.
  replace (a ^ 2 + l) with (sqrt (a ^ 2 + l) * sqrt (a ^ 2 + l)) at 1 by (apply sqrt_sqrt; lra). ring.
Qed.
Lemma pro_integrand_2 l : 0 <= l -> integrand a b b b l = / (sqrt (a ^ 2 + l) * (b ^ 2 + l) ^ 2).
Proof.
  intros Hl. destruct pro_pos as [P1 P2]. unfold integrand. rewrite sqrt_prod3 by lra.
  rewrite (Rmult_assoc (sqrt (a ^ 2 + l))), sqrt_sqrt by lra. f_equal. ring.
Qed.

Lemma pro_1_derive l : 0 <= l -> is_derive pro_1 l (- integrand a b b a l).
Proof.
  intros Hl. rewrite pro_integrand_1 by exact Hl. assert (L := pro_log_derive l Hl). destruct pro_pos as [P1 P2]. assert (Pe := eps_pos). assert (Ee := eps_sq).
  assert (PA : 0 < a ^ 2 + l) by lra. assert (PB : 0 < b ^ 2 + l) by lra. assert (SA := sqrt_lt_R0 _ PA).
  assert (QA := sqrt_sqrt (a ^ 2 + l) (Rlt_le _ _ PA)).
  assert (H1 := is_derive_sqrt_shift (a ^ 2) l PA). unfold pro_1. fold eps.
  replace (- / (sqrt (a ^ 2 + l) ^ 3 * (b ^ 2 + l))) with
    (2 / eps ^ 3 * (- eps / (2 * sqrt (a ^ 2 + l) * (b ^ 2 + l)) - (/ (2 * sqrt (a ^ 2 + l)) * - (eps / sqrt (a ^ 2 + l) ^ 2)))).
  - apply (is_derive_scal (fun u => pro_log u - eps / sqrt (a ^ 2 + u))).
    apply (is_derive_minus pro_log (fun u => eps / sqrt (a ^ 2 + u))); [exact L|].
    apply (is_derive_comp (fun y => eps / y) (fun u => sqrt (a ^ 2 + u)) l); [|exact H1]. auto_derive; [lra | field; lra].
  - replace (b ^ 2 + l) with (sqrt (a ^ 2 + l) * sqrt (a ^ 2 + l) - eps * eps) in * by (rewrite QA, Ee; ring). field. repeat split; lra.
Qed.

Lemma pro_2_derive l : 0 <= l -> is_derive pro_2 l (- integrand a b b b l).
Proof.
  intros Hl. rewrite pro_integrand_2 by exact Hl. assert (L := pro_log_derive l Hl). destruct pro_pos as [P1 P2]. assert (Pe := eps_pos). assert (Ee := eps_sq).
  assert (PA : 0 < a ^ 2 + l) by lra. assert (PB : 0 < b ^ 2 + l) by lra. assert (SA := sqrt_lt_R0 _ PA).
  assert (QA := sqrt_sqrt (a ^ 2 + l) (Rlt_le _ _ PA)). unfold pro_2. fold eps.
  replace (- / (sqrt (a ^ 2 + l) * (b ^ 2 + l) ^ 2)) with
    (1 / eps ^ 3 * ((eps / (2 * sqrt (a ^ 2 + l)) * (b ^ 2 + l) - eps * sqrt (a ^ 2 + l)) / (b ^ 2 + l) ^ 2 - (- eps / (2 * sqrt (a ^ 2 + l) * (b ^ 2 + l))))).
  - apply (is_derive_scal (fun u => eps * sqrt (a ^ 2 + u) / (b ^ 2 + u) - pro_log u)).
    apply (is_derive_minus (fun u => eps * sqrt (a ^ 2 + u) / (b ^ 2 + u)) pro_log); [|exact L].
    clear L. auto_derive; [lra | ]. replace (a * (a * 1)) with (a ^ 2) by ring. replace (b * (b * 1)) with (b ^ 2) by ring. field. split; lra.
  - replace (b ^ 2 + l) with (sqrt (a ^ 2 + l) * sqrt (a ^ 2 + l) - eps * eps) in * by (rewrite QA, Ee; ring). field. repeat split; lra.
Qed.

Lemma pro_w l : 0 <= l -> let w := / sqrt (a ^ 2 + l) in 0 < w /\ sqrt (a ^ 2 + l) = / w /\ b ^ 2 + l = (1 - (eps * w) ^ 2) / w ^ 2 /\ 0 < 1 - (eps * w) ^ 2.
Proof.
  intros Hl w. destruct pro_pos as [P1 P2]. assert (Ee := eps_sq). assert (PA : 0 < a ^ 2 + l) by lra. assert (SA := sqrt_lt_R0 _ PA).
  assert (QA := sqrt_sqrt (a ^ 2 + l) (Rlt_le _ _ PA)). assert (Pw : 0 < w) by (apply Rinv_0_lt_compat; exact SA).
  assert (E : b ^ 2 + l = (1 - (eps * w) ^ 2) / w ^ 2).
  { transitivity (/ w ^ 2 - eps * eps); [|field; lra]. unfold w. rewrite Ee.
    replace (/ (/ sqrt (a ^ 2 + l)) ^ 2) with (sqrt (a ^ 2 + l) * sqrt (a ^ 2 + l)) by (field; lra). rewrite QA. ring. }
  split; [exact Pw|]. split; [unfold w; field; lra|]. split; [exact E|].
  assert (0 < (b ^ 2 + l) * w ^ 2) by (apply Rmult_lt_0_compat; [lra | apply pow_lt; exact Pw]).
  rewrite E in H. unfold Rdiv in H. rewrite Rmult_assoc, Rinv_l, Rmult_1_r in H by (apply Rgt_not_eq, pow_lt, Pw). exact H.
Qed.
Lemma pro_log_w l : 0 <= l -> let w := / sqrt (a ^ 2 + l) in pro_log l = ln ((eps * w + 1) / sqrt (1 - (eps * w) ^ 2)).
Proof.
  intros Hl w. destruct (pro_w l Hl) as (W1 & W2 & W3 & W4). fold w in W1, W2, W3, W4. unfold pro_log. fold eps. rewrite W2, W3.
  assert (S4 := sqrt_lt_R0 _ W4).
  f_equal. rewrite sqrt_div_pos, sqrt_pow2 by (try lra; apply pow_lt; lra). field. split; lra.
Qed.

Lemma pro_1_lim : filterlim pro_1 (Rbar_locally p_infty) (locally 0).
Proof.
  apply (lim_by_w (a ^ 2) _ (fun w => 2 / eps ^ 3 * (ln ((eps * w + 1) / sqrt (1 - (eps * w) ^ 2)) - eps * w))).
  - intros l Hl. unfold pro_1. rewrite (pro_log_w l Hl). reflexivity.
  - apply (ex_derive_continuous (K := R_AbsRing) (V := R_NormedModule)). auto_derive. rewrite Rmult_0_r, Rmult_0_l.
    replace (1 + - 0) with 1 by ring. rewrite sqrt_1. repeat split; lra.
  - rewrite Rmult_0_r. replace ((0 + 1) / sqrt (1 - 0 ^ 2)) with 1; [rewrite ln_1; ring|]. replace (1 - 0 ^ 2) with 1 by ring. rewrite sqrt_1. field.
Qed.
Lemma pro_2_lim : filterlim pro_2 (Rbar_locally p_infty) (locally 0).
Proof.
  apply (lim_by_w (a ^ 2) _ (fun w => 1 / eps ^ 3 * (eps * w / (1 - (eps * w) ^ 2) - ln ((eps * w + 1) / sqrt (1 - (eps * w) ^ 2))))).
  - intros l Hl. unfold pro_2. rewrite (pro_log_w l Hl). destruct (pro_w l Hl) as (W1 & W2 & W3 & W4). rewrite W3, W2 at 1. fold eps.
    f_equal. f_equal. set (w := / sqrt (a ^ 2 + l)) in *. clearbody w. field. split; lra.
  - apply (ex_derive_continuous (K := R_AbsRing) (V := R_NormedModule)). auto_derive. rewrite Rmult_0_r, Rmult_0_l.
    replace (1 + - 0) with 1 by ring. rewrite sqrt_1. repeat split; lra.
  - assert (Pe := eps_pos). rewrite Rmult_0_r. replace ((0 + 1) / sqrt (1 - 0 ^ 2)) with 1; [rewrite ln_1; field; lra|]. replace (1 - 0 ^ 2) with 1 by ring. rewrite sqrt_1. field.
Qed.
End Prolate.

(** ** Oblate *)
Section Oblate.
Variables b c : R.
Hypothesis Hc : 0 < c.
Hypothesis Hbc : c < b.
Let eps := sqrt (b ^ 2 - c ^ 2).
Definition obl_1 (l : R) : R := 1 / sqrt (b ^ 2 - c ^ 2) ^ 3 *
  (atan (sqrt ((b ^ 2 - c ^ 2) / (c ^ 2 + l))) - sqrt ((b ^ 2 - c ^ 2) * (c ^ 2 + l)) / (b ^ 2 + l)).
Definition obl_3 (l : R) : R := 2 / sqrt (b ^ 2 - c ^ 2) ^ 3 *
  (sqrt ((b ^ 2 - c ^ 2) / (c ^ 2 + l)) - atan (sqrt ((b ^ 2 - c ^ 2) / (c ^ 2 + l)))).

Lemma obl_pos : 0 < c ^ 2 /\ 0 < b ^ 2 - c ^ 2.
Proof. split; nra. Qed.
Lemma obl_eps_pos : 0 < eps. Proof. apply sqrt_lt_R0. apply obl_pos. Qed.
Lemma obl_eps_sq : eps * eps = b ^ 2 - c ^ 2. Proof. apply sqrt_sqrt. generalize obl_pos; lra. Qed.

Lemma obl_integrand_1 l : 0 <= l -> integrand b b c b l = / (sqrt (c ^ 2 + l) * (b ^ 2 + l) ^ 2).
Proof.
  intros Hl. destruct obl_pos as [P1 P2]. unfold integrand. rewrite sqrt_prod3 by lra.
  rewrite sqrt_sqrt by lra. f_equal. ring.
Qed.
Lemma obl_integrand_3 l : 0 <= l -> integrand b b c c l = / (sqrt (c ^ 2 + l) ^ 3 * (b ^ 2 + l)).
Proof.
  intros Hl. destruct obl_pos as [P1 P2]. unfold integrand. rewrite sqrt_prod3 by lra. rewrite sqrt_sqrt by lra. f_equal.
  replace (c ^ 2 + l) with (sqrt (c ^ 2 + l) * sqrt (c ^ 2 + l)) at 1 by (apply sqrt_sqrt; lra). ring.
Qed.

(** The two functions in terms of eps and sqrt (c² + l). *)
Definition obl_1' (l : R) : R := 1 / eps ^ 3 * (atan (eps / sqrt (c ^ 2 + l)) - eps * sqrt (c ^ 2 + l) / (b ^ 2 + l)).
Definition obl_3' (l : R) : R := 2 / eps ^ 3 * (eps / sqrt (c ^ 2 + l) - atan (eps / sqrt (c ^ 2 + l))).
Lemma obl_1_eq l : 0 < c ^ 2 + l -> obl_1 l = obl_1' l.
Proof.
  intros H. destruct obl_pos as [P1 P2]. unfold obl_1, obl_1'. rewrite sqrt_div_pos, sqrt_mult by lra. reflexivity.
Qed.
Lemma obl_3_eq l : 0 < c ^ 2 + l -> obl_3 l = obl_3' l.
Proof. intros H. destruct obl_pos as [P1 P2]. unfold obl_3, obl_3'. rewrite sqrt_div_pos by lra. reflexivity. Qed.
Lemma near_pos (f g : R -> R) l : 0 <= l -> (forall u, 0 < c ^ 2 + u -> f u = g u) -> locally l (fun u => f u = g u).
Proof.
  intros Hl E. destruct obl_pos as [P1 _]. exists (mkposreal _ P1). intros u Hu. unfold ball in Hu; cbn -[pow] in Hu; unfold AbsRing_ball, abs, minus, plus, opp in Hu; cbn -[pow] in Hu.
  apply Rabs_lt_between in Hu. apply E. lra.
Qed.

Lemma obl_atan_derive l : 0 <= l -> is_derive (fun u => atan (eps / sqrt (c ^ 2 + u))) l (- eps / (2 * sqrt (c ^ 2 + l) * (b ^ 2 + l))).
Proof.
  intros Hl. destruct obl_pos as [P1 P2]. assert (Ee := obl_eps_sq). assert (Pe := obl_eps_pos).
  assert (PC : 0 < c ^ 2 + l) by lra. assert (SC := sqrt_lt_R0 _ PC). assert (QC := sqrt_sqrt (c ^ 2 + l) (Rlt_le _ _ PC)).
  assert (H1 := is_derive_sqrt_shift (c ^ 2) l PC).
  replace (- eps / (2 * sqrt (c ^ 2 + l) * (b ^ 2 + l))) with (/ (2 * sqrt (c ^ 2 + l)) * (- (eps / sqrt (c ^ 2 + l) ^ 2) / (1 + (eps / sqrt (c ^ 2 + l)) ^ 2))).
  - apply (is_derive_comp (fun y => atan (eps / y)) (fun u => sqrt (c ^ 2 + u)) l); [|exact H1].
    set (s := sqrt (c ^ 2 + l)) in *. clearbody s. auto_derive; [lra|]. assert (0 < eps ^ 2) by (apply pow_lt; exact Pe). unfold Rsqr. field. split; nra.
  - replace (b ^ 2 + l) with (sqrt (c ^ 2 + l) * sqrt (c ^ 2 + l) + eps * eps) by (rewrite QC, Ee; ring).
    set (s := sqrt (c ^ 2 + l)) in *. clearbody s. field. repeat split; nra.
Qed.

Lemma obl_1_derive l : 0 <= l -> is_derive obl_1 l (- integrand b b c b l).
Proof.
  intros Hl. rewrite obl_integrand_1 by exact Hl. assert (L := obl_atan_derive l Hl). destruct obl_pos as [P1 P2]. assert (Ee := obl_eps_sq). assert (Pe := obl_eps_pos).
  assert (PC : 0 < c ^ 2 + l) by lra. assert (SC := sqrt_lt_R0 _ PC). assert (QC := sqrt_sqrt (c ^ 2 + l) (Rlt_le _ _ PC)).
  apply (is_derive_ext_loc obl_1'); [apply near_pos; [exact Hl | intros u Hu; symmetry; apply obl_1_eq, Hu]|].
  unfold obl_1'.
  replace (- / (sqrt (c ^ 2 + l) * (b ^ 2 + l) ^ 2)) with
    (1 / eps ^ 3 * (- eps / (2 * sqrt (c ^ 2 + l) * (b ^ 2 + l)) - (eps / (2 * sqrt (c ^ 2 + l)) * (b ^ 2 + l) - eps * sqrt (c ^ 2 + l)) / (b ^ 2 + l) ^ 2)).
  - apply (is_derive_scal (fun u => atan (eps / sqrt (c ^ 2 + u)) - eps * sqrt (c ^ 2 + u) / (b ^ 2 + u))).
    apply (is_derive_minus (fun u => atan (eps / sqrt (c ^ 2 + u))) (fun u => eps * sqrt (c ^ 2 + u) / (b ^ 2 + u))); [exact L|].
    clear L. auto_derive; [lra | ]. replace (c * (c * 1)) with (c ^ 2) by ring. replace (b * (b * 1)) with (b ^ 2) by ring. field. split; lra.
  - replace (b ^ 2 + l) with (sqrt (c ^ 2 + l) * sqrt (c ^ 2 + l) + eps * eps) by (rewrite QC, Ee; ring).
    set (s := sqrt (c ^ 2 + l)) in *. clearbody s. field. repeat split; nra.
Qed.
Lemma obl_3_derive l : 0 <= l -> is_derive obl_3 l (- integrand b b c c l).
Proof.
  intros Hl. rewrite obl_integrand_3 by exact Hl. assert (L := obl_atan_derive l Hl). destruct obl_pos as [P1 P2]. assert (Ee := obl_eps_sq). assert (Pe := obl_eps_pos).
  assert (PC : 0 < c ^ 2 + l) by lra. assert (SC := sqrt_lt_R0 _ PC). assert (QC := sqrt_sqrt (c ^ 2 + l) (Rlt_le _ _ PC)).
  assert (H1 := is_derive_sqrt_shift (c ^ 2) l PC).
  apply (is_derive_ext_loc obl_3'); [apply near_pos; [exact Hl | intros u Hu; symmetry; apply obl_3_eq, Hu]|].
  unfold obl_3'.
  replace (- / (sqrt (c ^ 2 + l) ^ 3 * (b ^ 2 + l))) with
    (2 / eps ^ 3 * (/ (2 * sqrt (c ^ 2 + l)) * - (eps / sqrt (c ^ 2 + l) ^ 2) - (- eps / (2 * sqrt (c ^ 2 + l) * (b ^ 2 + l))))).
  - apply (is_derive_scal (fun u => eps / sqrt (c ^ 2 + u) - atan (eps / sqrt (c ^ 2 + u)))).
    apply (is_derive_minus (fun u => eps / sqrt (c ^ 2 + u)) (fun u => atan (eps / sqrt (c ^ 2 + u)))); [|exact L].
    apply (is_derive_comp (fun y => eps / y) (fun u => sqrt (c ^ 2 + u)) l); [|exact H1]. auto_derive; [lra | field; lra].
  - replace (b ^ 2 + l) with (sqrt (c ^ 2 + l) * sqrt (c ^ 2 + l) + eps * eps) by (rewrite QC, Ee; ring).
    set (s := sqrt (c ^ 2 + l)) in *. clearbody s. field. repeat split; nra.
Qed.

Lemma obl_1_lim : filterlim obl_1 (Rbar_locally p_infty) (locally 0).
Proof.
  destruct obl_pos as [P1 P2]. assert (Ee := obl_eps_sq). assert (Pe := obl_eps_pos).
  apply (lim_by_w (c ^ 2) _ (fun w => 1 / eps ^ 3 * (atan (eps * w) - eps * w / (1 + (eps * w) ^ 2)))).
  - intros l Hl. rewrite obl_1_eq by lra. unfold obl_1'. assert (PC : 0 < c ^ 2 + l) by lra. assert (SC := sqrt_lt_R0 _ PC). assert (QC := sqrt_sqrt (c ^ 2 + l) (Rlt_le _ _ PC)).
    f_equal. f_equal. replace (b ^ 2 + l) with (sqrt (c ^ 2 + l) * sqrt (c ^ 2 + l) + eps * eps) by (rewrite QC, Ee; ring).
    set (s := sqrt (c ^ 2 + l)) in *. clearbody s. field. repeat split; nra.
  - apply (ex_derive_continuous (K := R_AbsRing) (V := R_NormedModule)). auto_derive. rewrite Rmult_0_r. lra.
  - rewrite Rmult_0_r, atan_0. field. lra.
Qed.
Lemma obl_3_lim : filterlim obl_3 (Rbar_locally p_infty) (locally 0).
Proof.
  destruct obl_pos as [P1 P2]. assert (Pe := obl_eps_pos).
  apply (lim_by_w (c ^ 2) _ (fun w => 2 / eps ^ 3 * (eps * w - atan (eps * w)))).
  - intros l Hl. rewrite obl_3_eq by lra. reflexivity.
  - apply (ex_derive_continuous (K := R_AbsRing) (V := R_NormedModule)). auto_derive. exact I.
  - rewrite Rmult_0_r, atan_0. field. lra.
Qed.
End Oblate.

(** ** Legendre's integrals *)
Lemma is_derive_asin x : -1 < x < 1 -> is_derive asin x (/ sqrt (1 - x ^ 2)).
Proof.
  intros H. apply is_derive_Reals. assert (D := derive_pt_asin x H). apply derive_pt_eq in D.
  replace (/ sqrt (1 - x ^ 2)) with (1 / sqrt (1 - x²)) by (unfold Rsqr, Rdiv; rewrite Rmult_1_l; do 3 f_equal; ring). exact D.
Qed.

Lemma modulus_pos m t : 0 <= m < 1 -> 0 < 1 - m * sin t ^ 2.
Proof. intros H. assert (S := sin2_cos2 t). unfold Rsqr in S. assert (0 <= cos t * cos t) by nra. assert (sin t ^ 2 <= 1) by nra. assert (0 <= sin t ^ 2) by nra. nra. Qed.
Lemma kernel_f_continuous m t : 0 <= m < 1 -> continuous (fun t => / sqrt (1 - m * sin t ^ 2)) t.
Proof.
  intros H. apply (ex_derive_continuous (K := R_AbsRing) (V := R_NormedModule)). assert (P := modulus_pos m t H). auto_derive.
  replace (1 + - (m * (sin t * (sin t * 1)))) with (1 - m * sin t ^ 2) by ring. split; [exact P | split; [|exact I]].
  apply Rgt_not_eq, sqrt_lt_R0, P.
Qed.
Lemma kernel_e_continuous m t : 0 <= m < 1 -> continuous (fun t => sqrt (1 - m * sin t ^ 2)) t.
Proof.
  intros H. apply (ex_derive_continuous (K := R_AbsRing) (V := R_NormedModule)). assert (P := modulus_pos m t H). auto_derive.
  replace (1 + - (m * (sin t * (sin t * 1)))) with (1 - m * sin t ^ 2) by ring. exact P.
Qed.
Lemma ellipkinc_derive m phi : 0 <= m < 1 -> is_derive (fun x => ellipkinc x m) phi (/ sqrt (1 - m * sin phi ^ 2)).
Proof.
  intros H. unfold ellipkinc. apply (is_derive_RInt (fun t => / sqrt (1 - m * sin t ^ 2)) (fun x => RInt (fun t => / sqrt (1 - m * sin t ^ 2)) 0 x) 0 phi).
  - apply filter_forall. intros x. apply (RInt_correct (V := R_CompleteNormedModule)). apply (ex_RInt_continuous (V := R_CompleteNormedModule)).
    intros t _. apply kernel_f_continuous, H.
  - apply kernel_f_continuous, H.
Qed.
Lemma ellipeinc_derive m phi : 0 <= m < 1 -> is_derive (fun x => ellipeinc x m) phi (sqrt (1 - m * sin phi ^ 2)).
Proof.
  intros H. unfold ellipeinc. apply (is_derive_RInt (fun t => sqrt (1 - m * sin t ^ 2)) (fun x => RInt (fun t => sqrt (1 - m * sin t ^ 2)) 0 x) 0 phi).
  - apply filter_forall. intros x. apply (RInt_correct (V := R_CompleteNormedModule)). apply (ex_RInt_continuous (V := R_CompleteNormedModule)).
    intros t _. apply kernel_e_continuous, H.
  - apply kernel_e_continuous, H.
Qed.
Lemma ellipkinc_0 m : ellipkinc 0 m = 0. Proof. unfold ellipkinc. apply (RInt_point (V := R_CompleteNormedModule)). Qed.
Lemma ellipeinc_0 m : ellipeinc 0 m = 0. Proof. unfold ellipeinc. apply (RInt_point (V := R_CompleteNormedModule)). Qed.

(** ** Triaxial *)
Section Triaxial.
Variables a b c : R.
Hypothesis Hc : 0 < c.
Hypothesis Hbc : c < b.
Hypothesis Hab : b < a.
Let D := a ^ 2 - c ^ 2.
Let k := (a ^ 2 - b ^ 2) / (a ^ 2 - c ^ 2).
Definition tri_phi (l : R) : R := asin (sqrt ((a ^ 2 - c ^ 2) / (a ^ 2 + l))).
Definition tri_F (l : R) : R := ellipkinc (tri_phi l) ((a ^ 2 - b ^ 2) / (a ^ 2 - c ^ 2)).
Definition tri_E (l : R) : R := ellipeinc (tri_phi l) ((a ^ 2 - b ^ 2) / (a ^ 2 - c ^ 2)).
Definition tri_1 (l : R) : R := 2 / ((a ^ 2 - b ^ 2) * sqrt (a ^ 2 - c ^ 2)) * (tri_F l - tri_E l).
Definition tri_2 (l : R) : R := 2 * sqrt (a ^ 2 - c ^ 2) / ((a ^ 2 - b ^ 2) * (b ^ 2 - c ^ 2)) *
  (tri_E l - (b ^ 2 - c ^ 2) / (a ^ 2 - c ^ 2) * tri_F l -
   (a ^ 2 - b ^ 2) / sqrt (a ^ 2 - c ^ 2) * sqrt ((c ^ 2 + l) / ((a ^ 2 + l) * (b ^ 2 + l)))).
Definition tri_3 (l : R) : R := - (2 / ((b ^ 2 - c ^ 2) * sqrt (a ^ 2 - c ^ 2))) * tri_E l +
  2 / (b ^ 2 - c ^ 2) * sqrt ((b ^ 2 + l) / ((a ^ 2 + l) * (c ^ 2 + l))).

Lemma tri_pos : 0 < c ^ 2 /\ 0 < b ^ 2 - c ^ 2 /\ 0 < a ^ 2 - b ^ 2 /\ 0 < D.
Proof. unfold D. assert (0 < c ^ 2) by nra. assert (0 < b ^ 2 - c ^ 2) by nra. assert (0 < a ^ 2 - b ^ 2) by nra. repeat split; lra. Qed.
Lemma k_range : 0 <= k < 1.
Proof.
  destruct tri_pos as (P1 & P2 & P3 & P4). unfold k. fold D. split.
  - apply Rmult_le_pos; [lra | left; apply Rinv_0_lt_compat; exact P4].
  - apply (Rmult_lt_reg_r D); [exact P4|]. unfold Rdiv. rewrite Rmult_assoc, Rinv_l by lra. unfold D. lra.
Qed.

Lemma tri_s l : 0 <= l -> let s := sqrt (D / (a ^ 2 + l)) in
  s = sqrt D / sqrt (a ^ 2 + l) /\ 0 <= s < 1 /\ sqrt (1 - s ^ 2) = sqrt (c ^ 2 + l) / sqrt (a ^ 2 + l) /\
  sqrt (1 - k * s ^ 2) = sqrt (b ^ 2 + l) / sqrt (a ^ 2 + l) /\ s ^ 2 = D / (a ^ 2 + l).
Proof.
  intros Hl s. destruct tri_pos as (P1 & P2 & P3 & P4). assert (PA : 0 < a ^ 2 + l) by lra.
  assert (Q : 0 < D / (a ^ 2 + l)) by (apply Rdiv_lt_0_compat; lra).
  assert (E2 : s ^ 2 = D / (a ^ 2 + l)) by (unfold s; rewrite pow2_sqrt by lra; reflexivity).
  split; [apply sqrt_div_pos; lra|]. split.
  { split; [apply sqrt_pos|]. unfold s. rewrite <- sqrt_1. apply sqrt_lt_1; [lra | lra |].
    apply (Rmult_lt_reg_r (a ^ 2 + l)); [exact PA|]. unfold Rdiv. rewrite Rmult_assoc, Rinv_l by lra. unfold D. lra. }
  split; [|split; [|exact E2]]; rewrite E2, <- sqrt_div_pos by lra; f_equal; unfold k; fold D.
  - unfold D. field. lra.
  - unfold D in *. field. split; lra.
Qed.

Lemma tri_phi_derive l : 0 <= l -> is_derive tri_phi l (- sqrt D / (2 * (a ^ 2 + l) * sqrt (c ^ 2 + l))).
Proof.
  intros Hl. destruct (tri_s l Hl) as (S1 & S2 & S3 & S4 & S5). destruct tri_pos as (P1 & P2 & P3 & P4).
  assert (PA : 0 < a ^ 2 + l) by lra. assert (SA := sqrt_lt_R0 _ PA). assert (QA := sqrt_sqrt (a ^ 2 + l) (Rlt_le _ _ PA)).
  assert (PC : 0 < c ^ 2 + l) by lra. assert (SC := sqrt_lt_R0 _ PC). assert (SD := sqrt_lt_R0 _ P4).
  unfold tri_phi. fold D.
  replace (- sqrt D / (2 * (a ^ 2 + l) * sqrt (c ^ 2 + l))) with
    ((/ (2 * sqrt (a ^ 2 + l)) * - (sqrt D / sqrt (a ^ 2 + l) ^ 2)) * / sqrt (1 - sqrt (D / (a ^ 2 + l)) ^ 2)).
  - apply (is_derive_comp asin (fun u => sqrt (D / (a ^ 2 + u))) l); [apply is_derive_asin; lra|].
    apply (is_derive_ext_loc (fun u => sqrt D / sqrt (a ^ 2 + u))).
    + exists (mkposreal _ P1). intros u Hu. unfold ball in Hu; cbn -[pow] in Hu; unfold AbsRing_ball, abs, minus, plus, opp in Hu; cbn -[pow] in Hu.
      apply Rabs_lt_between in Hu. symmetry. apply sqrt_div_pos; lra.
    + apply (is_derive_comp (fun y => sqrt D / y) (fun u => sqrt (a ^ 2 + u)) l); [auto_derive; [lra | field; lra] | apply is_derive_sqrt_shift, PA].
  - rewrite S3. replace (a ^ 2 + l) with (sqrt (a ^ 2 + l) * sqrt (a ^ 2 + l)) at 4 by exact QA. field. split; lra.
Qed.

Lemma sin_tri_phi l : 0 <= l -> sin (tri_phi l) = sqrt (D / (a ^ 2 + l)).
Proof. intros Hl. destruct (tri_s l Hl) as (S1 & S2 & _). unfold tri_phi. fold D. apply sin_asin. lra. Qed.

Lemma tri_F_derive l : 0 <= l -> is_derive tri_F l (- sqrt D / (2 * sqrt (a ^ 2 + l) * sqrt (b ^ 2 + l) * sqrt (c ^ 2 + l))).
Proof.
  intros Hl. destruct (tri_s l Hl) as (S1 & S2 & S3 & S4 & S5). destruct tri_pos as (P1 & P2 & P3 & P4).
  assert (PA : 0 < a ^ 2 + l) by lra. assert (SA := sqrt_lt_R0 _ PA). assert (QA := sqrt_sqrt (a ^ 2 + l) (Rlt_le _ _ PA)).
  assert (PB : 0 < b ^ 2 + l) by lra. assert (SB := sqrt_lt_R0 _ PB).
  assert (PC : 0 < c ^ 2 + l) by lra. assert (SC := sqrt_lt_R0 _ PC).
  unfold tri_F. fold k.
  replace (- sqrt D / (2 * sqrt (a ^ 2 + l) * sqrt (b ^ 2 + l) * sqrt (c ^ 2 + l))) with
    (- sqrt D / (2 * (a ^ 2 + l) * sqrt (c ^ 2 + l)) * / sqrt (1 - k * sin (tri_phi l) ^ 2)).
  - apply (is_derive_comp (fun x => ellipkinc x k) tri_phi l); [apply ellipkinc_derive, k_range | apply tri_phi_derive, Hl].
  - rewrite sin_tri_phi, S4 by exact Hl. replace (a ^ 2 + l) with (sqrt (a ^ 2 + l) * sqrt (a ^ 2 + l)) at 1 by exact QA. field. repeat split; lra.
Qed.
Lemma tri_E_derive l : 0 <= l -> is_derive tri_E l (- sqrt D * sqrt (b ^ 2 + l) / (2 * sqrt (a ^ 2 + l) ^ 3 * sqrt (c ^ 2 + l))).
Proof.
  intros Hl. destruct (tri_s l Hl) as (S1 & S2 & S3 & S4 & S5). destruct tri_pos as (P1 & P2 & P3 & P4).
  assert (PA : 0 < a ^ 2 + l) by lra. assert (SA := sqrt_lt_R0 _ PA). assert (QA := sqrt_sqrt (a ^ 2 + l) (Rlt_le _ _ PA)).
  assert (PB : 0 < b ^ 2 + l) by lra. assert (SB := sqrt_lt_R0 _ PB).
  assert (PC : 0 < c ^ 2 + l) by lra. assert (SC := sqrt_lt_R0 _ PC).
  unfold tri_E. fold k.
  replace (- sqrt D * sqrt (b ^ 2 + l) / (2 * sqrt (a ^ 2 + l) ^ 3 * sqrt (c ^ 2 + l))) with
    (- sqrt D / (2 * (a ^ 2 + l) * sqrt (c ^ 2 + l)) * sqrt (1 - k * sin (tri_phi l) ^ 2)).
  - apply (is_derive_comp (fun x => ellipeinc x k) tri_phi l); [apply ellipeinc_derive, k_range | apply tri_phi_derive, Hl].
  - rewrite sin_tri_phi, S4 by exact Hl. replace (a ^ 2 + l) with (sqrt (a ^ 2 + l) * sqrt (a ^ 2 + l)) at 1 by exact QA. field. repeat split; lra.
Qed.

Lemma tri_integrand e l : 0 <= l -> 0 < e ^ 2 + l -> integrand a b c e l = / ((e ^ 2 + l) * (sqrt (a ^ 2 + l) * sqrt (b ^ 2 + l) * sqrt (c ^ 2 + l))).
Proof. intros Hl He. destruct tri_pos as (P1 & P2 & P3 & P4). unfold integrand. rewrite sqrt_prod3 by lra. reflexivity. Qed.

(** The algebraic relations between the three square roots. *)
Lemma tri_roots l : 0 <= l -> exists x y z w, x = sqrt (a ^ 2 + l) /\ y = sqrt (b ^ 2 + l) /\ z = sqrt (c ^ 2 + l) /\ w = sqrt D /\
  0 < x /\ 0 < y /\ 0 < z /\ 0 < w /\ a ^ 2 + l = x * x /\ b ^ 2 + l = y * y /\ c ^ 2 + l = z * z /\
  a ^ 2 - b ^ 2 = x * x - y * y /\ b ^ 2 - c ^ 2 = y * y - z * z /\ a ^ 2 - c ^ 2 = x * x - z * z /\ w * w = x * x - z * z /\
  z < y /\ y < x.
Proof.
  intros Hl. destruct tri_pos as (P1 & P2 & P3 & P4).
  assert (PA : 0 < a ^ 2 + l) by lra. assert (PB : 0 < b ^ 2 + l) by lra. assert (PC : 0 < c ^ 2 + l) by lra.
  assert (QA := sqrt_sqrt (a ^ 2 + l) (Rlt_le _ _ PA)). assert (QB := sqrt_sqrt (b ^ 2 + l) (Rlt_le _ _ PB)). assert (QC := sqrt_sqrt (c ^ 2 + l) (Rlt_le _ _ PC)).
  assert (QD := sqrt_sqrt D (Rlt_le _ _ P4)).
  exists (sqrt (a ^ 2 + l)), (sqrt (b ^ 2 + l)), (sqrt (c ^ 2 + l)), (sqrt D).
  assert (T1 : sqrt (c ^ 2 + l) < sqrt (b ^ 2 + l)) by (apply sqrt_lt_1; lra).
  assert (T2 : sqrt (b ^ 2 + l) < sqrt (a ^ 2 + l)) by (apply sqrt_lt_1; lra).
  assert (SA := sqrt_lt_R0 _ PA). assert (SB := sqrt_lt_R0 _ PB). assert (SC := sqrt_lt_R0 _ PC). assert (SD := sqrt_lt_R0 _ P4).
  rewrite QA, QB, QC, QD. unfold D. repeat (split; [first [reflexivity | assumption | lra]|]). assumption.
Qed.

Lemma tri_1_derive l : 0 <= l -> is_derive tri_1 l (- integrand a b c a l).
Proof.
  intros Hl. assert (DF := tri_F_derive l Hl). assert (DE := tri_E_derive l Hl). destruct tri_pos as (P1 & P2 & P3 & P4).
  rewrite tri_integrand by lra. unfold tri_1. fold D.
  match goal with |- is_derive _ _ ?v => replace v with (2 / ((a ^ 2 - b ^ 2) * sqrt D) * (- sqrt D / (2 * sqrt (a ^ 2 + l) * sqrt (b ^ 2 + l) * sqrt (c ^ 2 + l)) - (- sqrt D * sqrt (b ^ 2 + l) / (2 * sqrt (a ^ 2 + l) ^ 3 * sqrt (c ^ 2 + l))))) end.
  - apply (is_derive_scal (fun u => tri_F u - tri_E u)). apply (is_derive_minus tri_F tri_E); assumption.
  - clear DF DE. destruct (tri_roots l Hl) as (x & y & z & w & X & Y & Z & W & Px & Py & Pz & Pw & E1 & E2 & E3 & E4 & E5 & E6 & E7 & L1 & L2).
    rewrite <- X, <- Y, <- Z, <- W, E1, E4. field. repeat split; nra.
Qed.

Lemma sqrt_ratio_1 l : 0 <= l -> sqrt ((c ^ 2 + l) / ((a ^ 2 + l) * (b ^ 2 + l))) = sqrt (c ^ 2 + l) / (sqrt (a ^ 2 + l) * sqrt (b ^ 2 + l)).
Proof.
  intros Hl. destruct tri_pos as (P1 & P2 & P3 & P4). rewrite sqrt_div_pos by (try lra; apply Rmult_lt_0_compat; lra). rewrite sqrt_mult by lra. reflexivity.
Qed.
Lemma sqrt_ratio_2 l : 0 <= l -> sqrt ((b ^ 2 + l) / ((a ^ 2 + l) * (c ^ 2 + l))) = sqrt (b ^ 2 + l) / (sqrt (a ^ 2 + l) * sqrt (c ^ 2 + l)).
Proof.
  intros Hl. destruct tri_pos as (P1 & P2 & P3 & P4). rewrite sqrt_div_pos by (try lra; apply Rmult_lt_0_compat; lra). rewrite sqrt_mult by lra. reflexivity.
Qed.

Lemma ratio_derive X Y Z l : 0 < X + l -> 0 < Y + l -> 0 < Z + l ->
  is_derive (fun u => sqrt ((X + u) / ((Y + u) * (Z + u)))) l
    (((Y + l) * (Z + l) - (X + l) * (Y + Z + 2 * l)) / ((Y + l) * (Z + l)) ^ 2 / (2 * sqrt ((X + l) / ((Y + l) * (Z + l))))).
Proof.
  intros HX HY HZ. assert (P : 0 < (Y + l) * (Z + l)) by (apply Rmult_lt_0_compat; assumption).
  assert (Q : 0 < (X + l) / ((Y + l) * (Z + l))) by (apply Rdiv_lt_0_compat; assumption).
  assert (S := sqrt_lt_R0 _ Q).
  auto_derive; [unfold Rdiv in Q; split; [lra | split; [exact Q | exact I]]|].
  change (/ ((Y + l) * (Z + l))) with (/ ((Y + l) * (Z + l))). fold (Rdiv (X + l) ((Y + l) * (Z + l))).
  set (s := sqrt ((X + l) / ((Y + l) * (Z + l)))) in *. clearbody s. field. repeat split; lra.
Qed.

Lemma tri_2_derive l : 0 <= l -> is_derive tri_2 l (- integrand a b c b l).
Proof.
  intros Hl. assert (DF := tri_F_derive l Hl). assert (DE := tri_E_derive l Hl). destruct tri_pos as (P1 & P2 & P3 & P4).
  assert (DR := ratio_derive (c ^ 2) (a ^ 2) (b ^ 2) l ltac:(lra) ltac:(lra) ltac:(lra)).
  rewrite sqrt_ratio_1 in DR by exact Hl.
  rewrite tri_integrand by lra. unfold tri_2. fold D.
  match type of DF with is_derive _ _ ?v => set (vF := v) in * end.
  match type of DE with is_derive _ _ ?v => set (vE := v) in * end.
  match type of DR with is_derive _ _ ?v => set (vR := v) in * end.
  match goal with |- is_derive _ _ ?v => replace v with (2 * sqrt D / ((a ^ 2 - b ^ 2) * (b ^ 2 - c ^ 2)) *
     (vE - (b ^ 2 - c ^ 2) / D * vF - (a ^ 2 - b ^ 2) / sqrt D * vR)) end.
  - match goal with |- is_derive (fun u => ?k * (tri_E u - ?m * tri_F u - ?n * ?r)) _ _ =>
      apply (is_derive_scal (fun u => tri_E u - m * tri_F u - n * sqrt ((c ^ 2 + u) / ((a ^ 2 + u) * (b ^ 2 + u))))) ;
      apply (is_derive_minus (fun u => tri_E u - m * tri_F u) (fun u => n * sqrt ((c ^ 2 + u) / ((a ^ 2 + u) * (b ^ 2 + u)))));
      [apply (is_derive_minus tri_E (fun u => m * tri_F u)); [exact DE | apply (is_derive_scal tri_F); exact DF]
      | apply (is_derive_scal (fun u => sqrt ((c ^ 2 + u) / ((a ^ 2 + u) * (b ^ 2 + u))))); exact DR] end.
  - clear DF DE DR. unfold vF, vE, vR. clear vF vE vR. destruct (tri_roots l Hl) as (x & y & z & w & X & Y & Z & W & Px & Py & Pz & Pw & E1 & E2 & E3 & E4 & E5 & E6 & E7 & L1 & L2).
    replace (a ^ 2 + b ^ 2 + 2 * l) with (x * x + y * y) by lra.
    rewrite <- X, <- Y, <- Z, <- W, E1, E2, E3, E4, E5. replace D with (w * w) by (unfold D; lra).
    assert (0 < y * y - z * z) by nra. assert (0 < x * x - y * y) by nra.
    transitivity (- / (y * y * (x * y * z))); [|reflexivity].
    replace (2 * w / ((x * x - y * y) * (y * y - z * z)) * (- w * y / (2 * x ^ 3 * z) - (y * y - z * z) / (w * w) * (- w / (2 * x * y * z)) -
       (x * x - y * y) / w * ((x * x * (y * y) - z * z * (x * x + y * y)) / (x * x * (y * y)) ^ 2 / (2 * (z / (x * y))))))
      with (2 / ((x * x - y * y) * (y * y - z * z)) * (- (w * w) * y / (2 * x ^ 3 * z) + (y * y - z * z) / (2 * x * y * z) -
       (x * x - y * y) * ((x * x * (y * y) - z * z * (x * x + y * y)) / (x * x * (y * y)) ^ 2 / (2 * (z / (x * y)))))).
    + rewrite E7. field. repeat split; lra.
    + field. repeat split; lra.
Qed.

Lemma tri_3_derive l : 0 <= l -> is_derive tri_3 l (- integrand a b c c l).
Proof.
  intros Hl. assert (DE := tri_E_derive l Hl). destruct tri_pos as (P1 & P2 & P3 & P4).
  assert (DR := ratio_derive (b ^ 2) (a ^ 2) (c ^ 2) l ltac:(lra) ltac:(lra) ltac:(lra)).
  rewrite sqrt_ratio_2 in DR by exact Hl.
  rewrite tri_integrand by lra. unfold tri_3. fold D.
  match type of DE with is_derive _ _ ?v => set (vE := v) in * end.
  match type of DR with is_derive _ _ ?v => set (vR := v) in * end.
  match goal with |- is_derive _ _ ?v => replace v with (- (2 / ((b ^ 2 - c ^ 2) * sqrt D)) * vE + 2 / (b ^ 2 - c ^ 2) * vR) end.
  - match goal with |- is_derive (fun u => ?m * tri_E u + ?n * ?r) _ _ =>
      apply (is_derive_plus (fun u => m * tri_E u) (fun u => n * sqrt ((b ^ 2 + u) / ((a ^ 2 + u) * (c ^ 2 + u)))));
      [apply (is_derive_scal tri_E); exact DE
      | apply (is_derive_scal (fun u => sqrt ((b ^ 2 + u) / ((a ^ 2 + u) * (c ^ 2 + u))))); exact DR] end.
  - clear DE DR. unfold vE, vR. clear vE vR. destruct (tri_roots l Hl) as (x & y & z & w & X & Y & Z & W & Px & Py & Pz & Pw & E1 & E2 & E3 & E4 & E5 & E6 & E7 & L1 & L2).
    replace (a ^ 2 + c ^ 2 + 2 * l) with (x * x + z * z) by lra.
    rewrite <- X, <- Y, <- Z, <- W, E1, E2, E3, E5.
    assert (0 < y * y - z * z) by nra. field. repeat split; lra.
Qed.

Lemma tri_w l : 0 <= l -> let w := / sqrt (a ^ 2 + l) in
  0 < w /\ sqrt (D / (a ^ 2 + l)) = sqrt D * w /\
  sqrt (c ^ 2 + l) = sqrt (1 - D * w ^ 2) / w /\ sqrt (b ^ 2 + l) = sqrt (1 - (a ^ 2 - b ^ 2) * w ^ 2) / w /\ sqrt (a ^ 2 + l) = / w /\
  0 < 1 - D * w ^ 2 /\ 0 < 1 - (a ^ 2 - b ^ 2) * w ^ 2.
Proof.
  intros Hl w. destruct tri_pos as (P1 & P2 & P3 & P4). assert (PA : 0 < a ^ 2 + l) by lra. assert (SA := sqrt_lt_R0 _ PA).
  assert (QA := sqrt_sqrt (a ^ 2 + l) (Rlt_le _ _ PA)). assert (Pw : 0 < w) by (apply Rinv_0_lt_compat; exact SA).
  assert (W2 : w ^ 2 = / (a ^ 2 + l)) by (unfold w; rewrite <- QA at 2; field; lra).
  assert (Pw2 : 0 < w ^ 2) by (apply pow_lt; exact Pw).
  assert (C1 : c ^ 2 + l = (1 - D * w ^ 2) / w ^ 2) by (rewrite W2; unfold D; field; lra).
  assert (B1 : b ^ 2 + l = (1 - (a ^ 2 - b ^ 2) * w ^ 2) / w ^ 2) by (rewrite W2; field; lra).
  assert (N1 : 0 < 1 - D * w ^ 2).
  { assert (0 < (c ^ 2 + l) * w ^ 2) by (apply Rmult_lt_0_compat; lra). rewrite C1 in H. unfold Rdiv in H. rewrite Rmult_assoc, Rinv_l, Rmult_1_r in H by lra. exact H. }
  assert (N2 : 0 < 1 - (a ^ 2 - b ^ 2) * w ^ 2).
  { assert (0 < (b ^ 2 + l) * w ^ 2) by (apply Rmult_lt_0_compat; lra). rewrite B1 in H. unfold Rdiv in H. rewrite Rmult_assoc, Rinv_l, Rmult_1_r in H by lra. exact H. }
  split; [exact Pw|]. split; [rewrite sqrt_div_pos by lra; reflexivity|].
  split; [rewrite C1, sqrt_div_pos, sqrt_pow2 by lra; reflexivity|].
  split; [rewrite B1, sqrt_div_pos, sqrt_pow2 by lra; reflexivity|].
  split; [unfold w; field; lra|]. split; assumption.
Qed.

Lemma wF_derive (h : R -> R) : ex_derive h 0 -> ex_derive (fun w => h (asin (sqrt D * w))) 0.
Proof.
  intros H. apply (ex_derive_comp h (fun w => asin (sqrt D * w)) 0); [rewrite Rmult_0_r, asin_0; exact H|].
  exists (sqrt D * / sqrt (1 - (sqrt D * 0) ^ 2)). apply (is_derive_comp asin (fun w => sqrt D * w) 0).
  - apply is_derive_asin. rewrite Rmult_0_r. lra.
  - auto_derive; [exact I | ring].
Qed.

Lemma tri_FE_lim (h : R -> R) : ex_derive h 0 -> h 0 = 0 -> filterlim (fun l => h (tri_phi l)) (Rbar_locally p_infty) (locally 0).
Proof.
  intros H Z. apply (lim_by_w (a ^ 2) _ (fun w => h (asin (sqrt D * w)))).
  - intros l Hl. destruct (tri_w l Hl) as (W1 & W2 & _). unfold tri_phi. fold D. rewrite W2. reflexivity.
  - apply (ex_derive_continuous (K := R_AbsRing) (V := R_NormedModule)). apply wF_derive, H.
  - rewrite Rmult_0_r, asin_0. exact Z.
Qed.
Lemma tri_F_lim : filterlim tri_F (Rbar_locally p_infty) (locally 0).
Proof. apply (tri_FE_lim (fun x => ellipkinc x k)); [eexists; apply ellipkinc_derive, k_range | apply ellipkinc_0]. Qed.
Lemma tri_E_lim : filterlim tri_E (Rbar_locally p_infty) (locally 0).
Proof. apply (tri_FE_lim (fun x => ellipeinc x k)); [eexists; apply ellipeinc_derive, k_range | apply ellipeinc_0]. Qed.
Lemma ratio_1_lim : filterlim (fun l => sqrt ((c ^ 2 + l) / ((a ^ 2 + l) * (b ^ 2 + l)))) (Rbar_locally p_infty) (locally 0).
Proof.
  apply (lim_by_w (a ^ 2) _ (fun w => w * sqrt (1 - D * w ^ 2) / sqrt (1 - (a ^ 2 - b ^ 2) * w ^ 2))).
  - intros l Hl. rewrite sqrt_ratio_1 by exact Hl. destruct (tri_w l Hl) as (W1 & W2 & W3 & W4 & W5 & W6 & W7). 
    set (w := / sqrt (a ^ 2 + l)) in *. clearbody w. rewrite W3, W4, W5. assert (S := sqrt_lt_R0 _ W7). field. split; lra.
  - apply (ex_derive_continuous (K := R_AbsRing) (V := R_NormedModule)). auto_derive. rewrite !Rmult_0_l, !Rmult_0_r, Ropp_0, Rplus_0_r, sqrt_1. repeat split; lra.
  - rewrite Rmult_0_l. unfold Rdiv. ring.
Qed.
Lemma ratio_2_lim : filterlim (fun l => sqrt ((b ^ 2 + l) / ((a ^ 2 + l) * (c ^ 2 + l)))) (Rbar_locally p_infty) (locally 0).
Proof.
  apply (lim_by_w (a ^ 2) _ (fun w => w * sqrt (1 - (a ^ 2 - b ^ 2) * w ^ 2) / sqrt (1 - D * w ^ 2))).
  - intros l Hl. rewrite sqrt_ratio_2 by exact Hl. destruct (tri_w l Hl) as (W1 & W2 & W3 & W4 & W5 & W6 & W7). 
    set (w := / sqrt (a ^ 2 + l)) in *. clearbody w. rewrite W3, W4, W5. assert (S := sqrt_lt_R0 _ W6). field. split; lra.
  - apply (ex_derive_continuous (K := R_AbsRing) (V := R_NormedModule)). auto_derive. rewrite !Rmult_0_l, !Rmult_0_r, Ropp_0, Rplus_0_r, sqrt_1. repeat split; lra.
  - rewrite Rmult_0_l. unfold Rdiv. ring.
Qed.
End Triaxial.

(** Linear combinations of functions that tend to zero. *)
Lemma lim0_scal k (f : R -> R) : filterlim f (Rbar_locally p_infty) (locally 0) -> filterlim (fun l => k * f l) (Rbar_locally p_infty) (locally 0).
Proof.
  intros H. assert (C : continuous (fun x => k * x) 0) by (apply (ex_derive_continuous (K := R_AbsRing) (V := R_NormedModule)); auto_derive; exact I).
  unfold continuous in C. rewrite Rmult_0_r in C. apply (filterlim_comp _ _ _ f (fun x => k * x) _ (locally 0)); [exact H | exact C].
Qed.
Lemma lim0_plus (f g : R -> R) : filterlim f (Rbar_locally p_infty) (locally 0) -> filterlim g (Rbar_locally p_infty) (locally 0) ->
  filterlim (fun l => f l + g l) (Rbar_locally p_infty) (locally 0).
Proof.
  intros Hf Hg. eapply filterlim_comp_2; [exact Hf | exact Hg |].
  generalize (filterlim_plus (V := R_NormedModule) 0 0). unfold plus; cbn. rewrite Rplus_0_r. exact (fun H => H).
Qed.

Lemma tri_1_lim a b c : 0 < c -> c < b -> b < a -> filterlim (tri_1 a b c) (Rbar_locally p_infty) (locally 0).
Proof.
  intros H1 H2 H3. unfold tri_1. apply (lim0_scal _ (fun l => tri_F a b c l - tri_E a b c l)).
  apply (filterlim_ext (fun l => tri_F a b c l + -1 * tri_E a b c l)); [intros; ring|].
  apply lim0_plus; [apply tri_F_lim; assumption | apply lim0_scal, tri_E_lim; assumption].
Qed.
Lemma tri_2_lim a b c : 0 < c -> c < b -> b < a -> filterlim (tri_2 a b c) (Rbar_locally p_infty) (locally 0).
Proof.
  intros H1 H2 H3. unfold tri_2. match goal with |- filterlim (fun l => ?k * (_ - ?m * _ - ?n * _)) _ _ =>
    apply (filterlim_ext (fun l => k * ((tri_E a b c l + (- m) * tri_F a b c l) + (- n) * sqrt ((c ^ 2 + l) / ((a ^ 2 + l) * (b ^ 2 + l)))))); [intros; ring|] end.
  apply lim0_scal. apply lim0_plus; [apply lim0_plus; [apply tri_E_lim; assumption | apply lim0_scal, tri_F_lim; assumption]|].
  apply lim0_scal, ratio_1_lim; assumption.
Qed.
Lemma tri_3_lim a b c : 0 < c -> c < b -> b < a -> filterlim (tri_3 a b c) (Rbar_locally p_infty) (locally 0).
Proof.
  intros H1 H2 H3. unfold tri_3. apply lim0_plus; [apply lim0_scal, tri_E_lim; assumption | apply lim0_scal, ratio_2_lim; assumption].
Qed.
