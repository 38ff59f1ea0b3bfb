(** The derivative routines of legendre.py, and the sum of squares of Schmidt functions. *)
From Coquelicot Require Import Coquelicot.
From Coq Require Import Psatz.
From Verif Require Import Base BaseFacts LegendreModel LegendreSpec LegendreFacts LegendreProofs.
Local Open Scope R_scope.

Lemma half : 0.5 = / 2. Proof. lra. Qed.
Lemma mhalf : - 0.5 = - / 2. Proof. lra. Qed.

(** ** Derivatives in colatitude *)
Definition G (n m : nat) (t : R) : R := sin t ^ m * L n m (cos t).

Lemma L_derive n m x : is_derive (L n m) x (L n (S m) x).
Proof. unfold L. replace (n + S m)%nat with (S (n + m)) by lia. apply F_derive. Qed.

Lemma L_ode n m x : (1 <= m)%nat ->
  (1 - x ^ 2) * L n (m + 1) x = 2 * INR m * (x * L n m x) - (INR n + INR m) * (INR n - INR m + 1) * L n (m - 1) x.
Proof.
  intros H. pose proof (F_ode n (n + m) x) as E. unfold L.
  replace (n + (m + 1))%nat with (S (n + m)) by lia. replace (n + (m - 1))%nat with (n + m - 1)%nat by lia.
  rewrite plus_INR in E. lra.
Qed.

Lemma L_cos_derive n m t : is_derive (fun t : R => L n m (cos t)) t (- sin t * L n (m + 1) (cos t)).
Proof.
  replace (m + 1)%nat with (S m) by lia.
  pose proof (is_derive_comp (L n m) cos t _ _ (L_derive n m (cos t)) (is_derive_cos t)) as E.
  exact E.
Qed.

Lemma G_derive_raw n m t : is_derive (G n m) t
  (INR m * cos t * sin t ^ (m - 1) * L n m (cos t) - sin t ^ (m + 1) * L n (m + 1) (cos t)).
Proof.
  unfold G.
  pose proof (is_derive_pow sin m t (cos t) (is_derive_sin t)) as E1.
  pose proof (is_derive_mult (fun t : R => sin t ^ m) (fun t : R => L n m (cos t)) t _ _ E1 (L_cos_derive n m t) Rmult_comm) as E.
  unfold plus, mult in E; simpl plus in E; simpl mult in E.
  replace (INR m * cos t * sin t ^ (m - 1) * L n m (cos t) - sin t ^ (m + 1) * L n (m + 1) (cos t)) with
    (INR m * cos t * sin t ^ Init.Nat.pred m * L n m (cos t) + sin t ^ m * (- sin t * L n (m + 1) (cos t))); [exact E|].
  replace (m - 1)%nat with (Init.Nat.pred m) by lia. replace (m + 1)%nat with (S m) by lia. simpl pow. ring.
Qed.

Lemma G_derive_0 n t : is_derive (G n 0) t (- G n 1 t).
Proof.
  pose proof (G_derive_raw n 0 t) as E.
  replace (- G n 1 t) with (INR 0 * cos t * sin t ^ (0 - 1) * L n 0 (cos t) - sin t ^ (0 + 1) * L n (0 + 1) (cos t)); [exact E|].
  unfold G. simpl. ring.
Qed.

Lemma G_derive n m t : (1 <= m)%nat -> is_derive (G n m) t
  (0.5 * (INR n + INR m) * (INR n - INR m + 1) * G n (m - 1) t + - 0.5 * G n (m + 1) t).
Proof.
  intros H. pose proof (G_derive_raw n m t) as E.
  match type of E with is_derive _ _ ?v => match goal with |- is_derive _ _ ?w => replace w with v; [exact E|] end end.
  unfold G. destruct m as [|m]; [lia|]. replace (S m - 1)%nat with m by lia. replace (S m + 1)%nat with (S (S m)) by lia.
  pose proof (L_ode n (S m) (cos t) ltac:(lia)) as O. replace (S m - 1)%nat with m in O by lia. replace (S m + 1)%nat with (S (S m)) in O by lia.
  assert (C : 1 - cos t ^ 2 = sin t ^ 2) by (pose proof (sin2_cos2 t); unfold Rsqr in *; simpl; lra).
  rewrite C in O.
  replace (sin t ^ S (S m)) with (sin t ^ m * sin t ^ 2) by (simpl; ring).
  replace (sin t ^ m * sin t ^ 2 * L n (S (S m)) (cos t)) with (sin t ^ m * (sin t ^ 2 * L n (S (S m)) (cos t))) by ring.
  replace (- 0.5 * (sin t ^ m * (sin t ^ 2 * L n (S (S m)) (cos t)))) with (- 0.5 * (sin t ^ m * (sin t ^ 2 * L n (S (S m)) (cos t)))) by ring.
  rewrite O, half, mhalf. field.
Qed.

Lemma G_high n m t : (n < m)%nat -> G n m t = 0.
Proof. intros. unfold G. rewrite L_high by auto. ring. Qed.

(** The linear map that the routines apply, in unnormalised form. *)
Definition lin (h : nat -> nat -> R) (n m : nat) : R :=
  if Nat.eqb m 0 then (if Nat.eqb n 0 then 0 else - h n 1%nat)
  else if Nat.eqb m n then INR n * h n (n - 1)%nat
  else 0.5 * (INR n + INR m) * (INR n - INR m + 1) * h n (m - 1)%nat + - 0.5 * h n (m + 1)%nat.

Fixpoint H (k : nat) (n m : nat) (t : R) : R :=
  match k with O => G n m t | S k' => lin (fun a b => H k' a b t) n m end.

Lemma H_derive k : forall n m t, (m <= n)%nat -> is_derive (H k n m) t (H (S k) n m t).
Proof.
  induction k as [|k IH]; intros n m t Hm.
  - change (H 0 n m) with (G n m). change (H 1 n m t) with (lin (fun a b => G a b t) n m). unfold lin.
    destruct (Nat.eqb_spec m 0) as [->|Hm0].
    + destruct (Nat.eqb_spec n 0) as [->|]; [|apply G_derive_0].
      pose proof (G_derive_0 0 t) as E. rewrite G_high in E by lia. now rewrite Ropp_0 in E.
    + pose proof (G_derive n m t ltac:(lia)) as E. destruct (Nat.eqb_spec m n) as [->|]; [|exact E].
      rewrite (G_high n (n + 1)) in E by lia.
      replace (INR n * G n (n - 1) t) with (0.5 * (INR n + INR n) * (INR n - INR n + 1) * G n (n - 1) t + -0.5 * 0) by lra. exact E.
  - change (H (S k) n m) with (fun t => lin (fun a b => H k a b t) n m).
    change (H (S (S k)) n m t) with (lin (fun a b => H (S k) a b t) n m). unfold lin.
    destruct (Nat.eqb_spec m 0) as [->|Hm0].
    + destruct (Nat.eqb_spec n 0) as [->|]; [apply is_derive_Reals, derivable_pt_lim_const|].
      apply (is_derive_opp (H k n 1)). apply IH. lia.
    + destruct (Nat.eqb_spec m n) as [->|].
      * apply (is_derive_scal (H k n (n - 1)) t (INR n)). apply IH. lia.
      * apply (is_derive_plus (fun t : R => 0.5 * (INR n + INR m) * (INR n - INR m + 1) * H k n (m - 1) t) (fun t : R => - 0.5 * H k n (m + 1) t)).
        -- apply (is_derive_scal (H k n (m - 1)) t (0.5 * (INR n + INR m) * (INR n - INR m + 1))). apply IH. lia.
        -- apply (is_derive_scal (H k n (m + 1)) t (- 0.5)). apply IH. lia.
Qed.

Lemma Derive_n_G k n m t : (m <= n)%nat -> Derive_n (G n m) k t = H k n m t.
Proof.
  intros Hm. revert t; induction k as [|k IH]; intros t; [reflexivity|].
  simpl Derive_n. rewrite (Derive_ext _ _ _ IH). apply is_derive_unique, (H_derive k n m t Hm).
Qed.

Lemma is_derive_n_G k n m t : (m <= n)%nat -> is_derive_n (G n m) k t (H k n m t).
Proof.
  intros Hm. destruct k as [|k]; [reflexivity|]. simpl is_derive_n.
  apply (is_derive_ext (H k n m)); [intros; symmetry; now apply Derive_n_G|]. now apply H_derive.
Qed.

(** ** The routines compute [lin] *)
Lemma plain_derivative_table N p dp h : square N dp -> filled N p h ->
  exists q, associated_legendre_derivative N p dp = Ok q /\ filled N q (lin h).
Proof.
  intros Hs Hp. apply filled_agree in Hp. unfold associated_legendre_derivative.
  assert (A0 : agree N dp (fun _ _ => False) (lin h)) by (split; [exact Hs|tauto]).
  tset_ A0 d0 A1; [reflexivity|].
  assert (Z : exists q, for_ (range 1 (N + 1)) (fun n dp =>
    do v <- tget p n 1; do dp <- tset dp n 0 (-1 * v);
    do dp <- for_ (range 1 n) (fun m dp =>
      let b_nm := 0.5 * (INR n + INR m) * (INR n - INR m + 1) in
      let c_nm := - 0.5 in
      do v1 <- tget p n (m - 1); do v2 <- tget p n (m + 1);
      tset dp n m (b_nm * v1 + c_nm * v2)) dp;
    do v <- tget p n (n - 1); tset dp n n (INR n * v)) d0 = Ok q /\
    agree N q (fun a b => (b <= a /\ a < N + 1)%nat) (lin h)).
  { apply (for_range_inv 1 (N + 1) _ (fun n q => agree N q (fun a b => (b <= a /\ a < n)%nat) (lin h))); [lia| |].
    - apply (agree_weaken _ _ _ _ _ A1). intros; lia.
    - intros n q Hn Hq. tget_ Hp.
      tset_ Hq q0 B0. { unfold lin. simpl Nat.eqb. destruct (Nat.eqb_spec n 0); [lia|]. ring. }
      assert (Y : exists q', for_ (range 1 n) (fun m dp =>
        let b_nm := 0.5 * (INR n + INR m) * (INR n - INR m + 1) in
        let c_nm := - 0.5 in
        do v1 <- tget p n (m - 1); do v2 <- tget p n (m + 1);
        tset dp n m (b_nm * v1 + c_nm * v2)) q0 = Ok q' /\
        agree N q' (fun a b => (b <= a /\ a < n)%nat \/ (a = n /\ b < n)%nat) (lin h)).
      { apply (for_range_inv 1 n _ (fun m q => agree N q (fun a b => (b <= a /\ a < n)%nat \/ (a = n /\ b < m)%nat) (lin h))); [lia| |].
        - apply (agree_weaken _ _ _ _ _ B0). intros; lia.
        - intros m t Hm Ht. cbv zeta. tget_ Hp. tget_ Hp.
          assert (V : 0.5 * (INR n + INR m) * (INR n - INR m + 1) * h n (m - 1)%nat + - 0.5 * h n (m + 1)%nat = lin h n m).
          { unfold lin. destruct (Nat.eqb_spec m 0); [lia|]. destruct (Nat.eqb_spec m n); [lia|]. reflexivity. }
          destruct (agree_set _ _ _ _ n m _ Ht ltac:(lia) ltac:(lia) V) as (t' & E & Ht').
          exists t'; split; [exact E|]. apply (agree_weaken _ _ _ _ _ Ht'). intros; lia. }
      destruct Y as (q' & E & Hq'). cbv zeta in E. rewrite E; clear E; cbn [bind]. tget_ Hp.
      assert (V : INR n * h n (n - 1)%nat = lin h n n).
      { unfold lin. destruct (Nat.eqb_spec n 0); [lia|]. now rewrite Nat.eqb_refl. }
      destruct (agree_set _ _ _ _ n n _ Hq' ltac:(lia) ltac:(lia) V) as (t' & E & Ht').
      exists t'; split; [exact E|]. apply (agree_weaken _ _ _ _ _ Ht'). intros; lia. }
  destruct Z as (q & E & A2). exists q; split; [exact E|]. apply agree_filled.
  apply (agree_weaken _ _ _ _ _ A2). intros; lia.
Qed.

Lemma sch_up n m : (1 <= m)%nat -> (m < n)%nat -> sch n (m + 1) * (sqrt (INR (n + m + 1)) * sqrt (INR (n - m))) = sch n m.
Proof.
  intros H1 H2. unfold sch, schmidt_factor.
  assert (P : forall k, (0 <= (if Nat.eqb k 0 then 1 else 2) * INR (fact (n - k)) / INR (fact (n + k)))).
  { intros k. apply Rmult_le_pos; [apply Rmult_le_pos; [left; apply eps_pos|left; apply fact_pos]|left; apply Rinv_0_lt_compat, fact_pos]. }
  rewrite <- !sqrt_mult_alt; [|apply P|apply pos_INR]. f_equal.
  destruct (Nat.eqb_spec m 0); [lia|]. destruct (Nat.eqb_spec (m + 1) 0); [lia|].
  replace (n - m)%nat with (S (n - (m + 1))) by lia. replace (n + (m + 1))%nat with (S (n + m)) by lia. replace (n + m + 1)%nat with (S (n + m)) by lia.
  rewrite !fact_simpl, !mult_INR. pose proof (fact_ne (n + m)). assert (INR (S (n + m)) <> 0) by (apply not_0_INR; lia). field. auto.
Qed.

Lemma sch_up0 n : (1 <= n)%nat -> sch n 1 * (sqrt (INR n) * sqrt (INR (n + 1))) = sqrt 2.
Proof.
  intros H1. unfold sch, schmidt_factor.
  rewrite <- !sqrt_mult_alt.
  - f_equal. simpl Nat.eqb; cbv iota. destruct n as [|n]; [lia|]. replace (S n - 1)%nat with n by lia. replace (S n + 1)%nat with (S (S n)) by lia.
    rewrite !fact_simpl, !mult_INR. pose proof (fact_ne n). assert (INR (S n) <> 0) by (apply not_0_INR; lia). assert (INR (S (S n)) <> 0) by (apply not_0_INR; lia).
    field. auto.
  - apply Rmult_le_pos; [apply Rmult_le_pos; [left; apply eps_pos|left; apply fact_pos]|left; apply Rinv_0_lt_compat, fact_pos].
  - apply pos_INR.
Qed.

Lemma sqrt2_sqr : sqrt 2 * sqrt 2 = 2.
Proof. apply sqrt_sqrt; lra. Qed.

Section Normalised.
Variables (d : nat -> R) (h : nat -> nat -> R).
Definition nrm n m := d n * sch n m * h n m.
Definition nlin n m := d n * sch n m * lin h n m.

Lemma norm_0 n : (2 <= n)%nat -> - sqrt (INR n) * sqrt (INR (n + 1)) / sqrt (INR 2) * nrm n 1 = nlin n 0.
Proof.
  intros Hn. unfold nrm, nlin, lin. simpl Nat.eqb; cbv iota. destruct (Nat.eqb_spec n 0); [lia|].
  rewrite sch_0. pose proof (sch_up0 n ltac:(lia)) as E. change (INR 2) with 2.
  assert (0 < sqrt 2) by (apply sqrt_lt_R0; lra).
  replace (- sqrt (INR n) * sqrt (INR (n + 1)) / sqrt 2 * (d n * sch n 1 * h n 1%nat)) with
    (- (sch n 1 * (sqrt (INR n) * sqrt (INR (n + 1)))) / sqrt 2 * (d n * h n 1%nat)) by (field; lra).
  rewrite E. field. lra.
Qed.

Lemma norm_1 n : (2 <= n)%nat ->
  0.5 * sqrt (INR n) * sqrt (INR (n + 1)) * sqrt (INR 2) * nrm n 0 + - 0.5 * sqrt (INR (n + 2)) * sqrt (INR (n - 1)) * nrm n 2 = nlin n 1.
Proof.
  intros Hn. unfold nrm, nlin, lin. change (Nat.eqb 1 0) with false; cbv iota. destruct (Nat.eqb_spec 1 n); [lia|].
  replace (1 - 1)%nat with 0%nat by lia. replace (1 + 1)%nat with 2%nat by lia.
  rewrite sch_0. pose proof (sch_up0 n ltac:(lia)) as E. change (INR 2) with 2.
  pose proof (sch_up n 1 ltac:(lia) ltac:(lia)) as E2. replace (n + 1 + 1)%nat with (n + 2)%nat in E2 by lia. simpl (1 + 1)%nat in E2.
  replace (- 0.5 * sqrt (INR (n + 2)) * sqrt (INR (n - 1)) * (d n * sch n 2 * h n 2%nat)) with
    (- 0.5 * (sch n 2 * (sqrt (INR (n + 2)) * sqrt (INR (n - 1)))) * (d n * h n 2%nat)) by ring. rewrite E2.
  rewrite <- E. pose proof (sqrt_INR_sqr n) as Q1.
  assert (Q2 : sqrt (INR (n + 1)) * sqrt (INR (n + 1)) = INR n + 1) by (rewrite sqrt_INR_sqr; apply plus_INR). change (INR 1) with 1 in *.
  replace (0.5 * sqrt (INR n) * sqrt (INR (n + 1)) * (sch n 1 * (sqrt (INR n) * sqrt (INR (n + 1)))) * (d n * 1 * h n 0%nat)) with
    (0.5 * (sqrt (INR n) * sqrt (INR n)) * (sqrt (INR (n + 1)) * sqrt (INR (n + 1))) * sch n 1 * (d n * h n 0%nat)) by ring.
  rewrite Q1, Q2. ring.
Qed.

Lemma norm_m n m : (2 <= m)%nat -> (m < n)%nat ->
  0.5 * sqrt (INR (n + m)) * sqrt (INR (n - m + 1)) * nrm n (m - 1) + - 0.5 * sqrt (INR (n + m + 1)) * sqrt (INR (n - m)) * nrm n (m + 1) = nlin n m.
Proof.
  intros H2 Hn. unfold nrm, nlin, lin. destruct (Nat.eqb_spec m 0); [lia|]. destruct (Nat.eqb_spec m n); [lia|].
  pose proof (sch_up n m ltac:(lia) ltac:(lia)) as E2. pose proof (sch_up n (m - 1) ltac:(lia) ltac:(lia)) as E1.
  replace (m - 1 + 1)%nat with m in E1 by lia. replace (n + (m - 1) + 1)%nat with (n + m)%nat in E1 by lia. replace (n - (m - 1))%nat with (n - m + 1)%nat in E1 by lia.
  replace (- 0.5 * sqrt (INR (n + m + 1)) * sqrt (INR (n - m)) * (d n * sch n (m + 1) * h n (m + 1)%nat)) with
    (- 0.5 * (sch n (m + 1) * (sqrt (INR (n + m + 1)) * sqrt (INR (n - m)))) * (d n * h n (m + 1)%nat)) by ring. rewrite E2, <- E1.
  assert (Q1 : sqrt (INR (n + m)) * sqrt (INR (n + m)) = INR n + INR m) by (rewrite sqrt_INR_sqr; apply plus_INR).
  assert (Q2 : sqrt (INR (n - m + 1)) * sqrt (INR (n - m + 1)) = INR n - INR m + 1) by (rewrite sqrt_INR_sqr, plus_INR, minus_INR by lia; reflexivity).
  replace (0.5 * sqrt (INR (n + m)) * sqrt (INR (n - m + 1)) * (d n * (sch n m * (sqrt (INR (n + m)) * sqrt (INR (n - m + 1)))) * h n (m - 1)%nat)) with
    (0.5 * (sqrt (INR (n + m)) * sqrt (INR (n + m))) * (sqrt (INR (n - m + 1)) * sqrt (INR (n - m + 1))) * sch n m * (d n * h n (m - 1)%nat)) by ring.
  rewrite Q1, Q2. ring.
Qed.

Lemma norm_n n : (2 <= n)%nat -> 0.5 * sqrt (INR 2) * sqrt (INR n) * nrm n (n - 1) = nlin n n.
Proof.
  intros Hn. unfold nrm, nlin, lin. destruct (Nat.eqb_spec n 0); [lia|]. rewrite Nat.eqb_refl.
  pose proof (sch_up n (n - 1) ltac:(lia) ltac:(lia)) as E1.
  replace (n - 1 + 1)%nat with n in E1 by lia. replace (n + (n - 1) + 1)%nat with (2 * n)%nat in E1 by lia. replace (n - (n - 1))%nat with 1%nat in E1 by lia.
  change (INR 1) with 1 in E1. rewrite sqrt_1, Rmult_1_r in E1. rewrite <- E1.
  assert (Q : sqrt (INR (2 * n)) = sqrt 2 * sqrt (INR n)).
  { rewrite <- sqrt_mult_alt by lra. f_equal. rewrite mult_INR. reflexivity. }
  rewrite Q. change (INR 2) with 2. pose proof (sqrt_INR_sqr n) as Q1. pose proof sqrt2_sqr as Q2.
  replace (0.5 * sqrt 2 * sqrt (INR n) * (d n * (sch n n * (sqrt 2 * sqrt (INR n))) * h n (n - 1)%nat)) with
    (0.5 * (sqrt 2 * sqrt 2) * (sqrt (INR n) * sqrt (INR n)) * sch n n * (d n * h n (n - 1)%nat)) by ring.
  rewrite Q1, Q2, half. field.
Qed.

Lemma normalised_derivative_table (routine : nat -> table -> table -> res table) N p dp :
  routine = associated_legendre_schmidt_derivative \/ routine = associated_legendre_full_derivative ->
  (1 <= N)%nat -> square N dp -> filled N p nrm ->
  exists q, routine N p dp = Ok q /\ filled N q nlin.
Proof.
  intros HR HN Hs Hp. apply filled_agree in Hp.
  assert (I11 : - nrm 1 1 = nlin 1 0) by (unfold nrm, nlin, lin; simpl; rewrite sch_0, sch_1_1; ring).
  assert (I10 : nrm 1 0 = nlin 1 1) by (unfold nrm, nlin, lin; simpl; rewrite sch_0, sch_1_1; ring).
  assert (I00 : 0 = nlin 0 0) by (unfold nlin, lin; simpl; ring).
  assert (A0 : agree N dp (fun _ _ => False) nlin) by (split; [exact Hs|tauto]).
  destruct HR as [-> | ->].
  - unfold associated_legendre_schmidt_derivative.
    tset_ A0 d0 A1; [exact I00|]. tget_ Hp. tset_ A1 d1 A2; [exact I11|]. tget_ Hp. tset_ A2 d2 A3; [exact I10|].
    match goal with |- context [for_ (range 2 (N + 1)) ?body d2] =>
      destruct (for_range_inv 2 (N + 1) body (fun n q => agree N q (fun a b => (b <= a /\ a < n)%nat) nlin) d2) as (q & E & A4) end;
      [lia| | |exists q; split; [exact E|]; apply agree_filled; apply (agree_weaken _ _ _ _ _ A4); intros; lia].
    + apply (agree_weaken _ _ _ _ _ A3). intros a b ?. destruct (Nat.eq_dec a 0), (Nat.eq_dec a 1); lia.
    + intros n q Hn Hq. rewrite !sqrt_at_ok by lia. cbn [bind]. cbv zeta. tget_ Hp.
      tset_ Hq q0 B0; [apply norm_0; lia|]. rewrite ?sqrt_at_ok by lia. cbn [bind]. tget_ Hp. tget_ Hp.
      tset_ B0 q1 B1; [apply norm_1; lia|].
      match goal with |- context [for_ (range 2 n) ?body q1] =>
        destruct (for_range_inv 2 n body (fun m q => agree N q (fun a b => (b <= a /\ a < n)%nat \/ (a = n /\ b < m)%nat) nlin) q1) as (q' & E & Hq') end;
        [lia| | |rewrite E; clear E; cbn [bind]].
      * apply (agree_weaken _ _ _ _ _ B1). intros; lia.
      * intros m t Hm Ht. rewrite !sqrt_at_ok by lia. cbn [bind]. tget_ Hp. tget_ Hp.
        destruct (agree_set _ _ _ _ n m _ Ht ltac:(lia) ltac:(lia) (norm_m n m ltac:(lia) ltac:(lia))) as (t' & E & Ht').
        exists t'; split; [exact E|]. apply (agree_weaken _ _ _ _ _ Ht'). intros; lia.
      * tget_ Hp. destruct (agree_set _ _ _ _ n n _ Hq' ltac:(lia) ltac:(lia) (norm_n n ltac:(lia))) as (t' & E & Ht').
        exists t'; split; [exact E|]. apply (agree_weaken _ _ _ _ _ Ht'). intros; lia.
  - unfold associated_legendre_full_derivative.
    tset_ A0 d0 A1; [exact I00|]. tget_ Hp. tset_ A1 d1 A2; [exact I11|]. tget_ Hp. tset_ A2 d2 A3; [exact I10|].
    match goal with |- context [for_ (range 2 (N + 1)) ?body d2] =>
      destruct (for_range_inv 2 (N + 1) body (fun n q => agree N q (fun a b => (b <= a /\ a < n)%nat) nlin) d2) as (q & E & A4) end;
      [lia| | |exists q; split; [exact E|]; apply agree_filled; apply (agree_weaken _ _ _ _ _ A4); intros; lia].
    + apply (agree_weaken _ _ _ _ _ A3). intros a b ?. destruct (Nat.eq_dec a 0), (Nat.eq_dec a 1); lia.
    + intros n q Hn Hq. rewrite !sqrt_at_ok by lia. cbn [bind]. cbv zeta. tget_ Hp.
      tset_ Hq q0 B0; [apply norm_0; lia|]. rewrite ?sqrt_at_ok by lia. cbn [bind]. tget_ Hp. tget_ Hp.
      tset_ B0 q1 B1. { rewrite <- norm_1 by lia. ring. }
      match goal with |- context [for_ (range 2 n) ?body q1] =>
        destruct (for_range_inv 2 n body (fun m q => agree N q (fun a b => (b <= a /\ a < n)%nat \/ (a = n /\ b < m)%nat) nlin) q1) as (q' & E & Hq') end;
        [lia| | |rewrite E; clear E; cbn [bind]].
      * apply (agree_weaken _ _ _ _ _ B1). intros; lia.
      * intros m t Hm Ht. rewrite !sqrt_at_ok by lia. cbn [bind]. tget_ Hp. tget_ Hp.
        destruct (agree_set _ _ _ _ n m _ Ht ltac:(lia) ltac:(lia) (norm_m n m ltac:(lia) ltac:(lia))) as (t' & E & Ht').
        exists t'; split; [exact E|]. apply (agree_weaken _ _ _ _ _ Ht'). intros; lia.
      * tget_ Hp. destruct (agree_set _ _ _ _ n n _ Hq' ltac:(lia) ltac:(lia) (norm_n n ltac:(lia))) as (t' & E & Ht').
        exists t'; split; [exact E|]. apply (agree_weaken _ _ _ _ _ Ht'). intros; lia.
Qed.
End Normalised.

(** ** Repeated application *)
Lemma plain_times N p fresh t k : square N fresh -> filled N p (fun n m => G n m t) ->
  exists q, apply_times k (associated_legendre_derivative N) fresh p = Ok q /\ filled N q (fun n m => H k n m t).
Proof.
  intros Hf Hp. induction k as [|k (q & E & Hq)]; [exists p; split; [reflexivity|exact Hp]|].
  simpl apply_times. rewrite E; cbn [bind].
  exact (plain_derivative_table N q fresh (fun n m => H k n m t) Hf Hq).
Qed.

Lemma normalised_times routine d N p fresh t k :
  routine = associated_legendre_schmidt_derivative \/ routine = associated_legendre_full_derivative ->
  (1 <= N)%nat -> square N fresh -> filled N p (fun n m => d n * sch n m * G n m t) ->
  exists q, apply_times k (routine N) fresh p = Ok q /\ filled N q (fun n m => d n * sch n m * H k n m t).
Proof.
  intros HR HN Hf Hp. induction k as [|k (q & E & Hq)]; [exists p; split; [reflexivity|exact Hp]|].
  simpl apply_times. rewrite E; cbn [bind].
  exact (normalised_derivative_table d (fun n m => H k n m t) routine N q fresh HR HN Hf Hq).
Qed.

(** ** Sum of squares *)
Fixpoint sq_sum (n j : nat) (t : R) : R :=
  match j with O => 0 | S j' => sq_sum n j' t + (sch n j' * G n j' t) ^ 2 end.

Definition flux (n m : nat) (t : R) : R :=
  (if Nat.eqb m 0 then 2 else 1) * sch n m ^ 2 * G n m t * G n (m + 1) t.

Lemma sch_sqr_up n m : (1 <= m)%nat -> (m < n)%nat ->
  sch n (m + 1) ^ 2 * ((INR n + INR m + 1) * (INR n - INR m)) = sch n m ^ 2.
Proof.
  intros H1 H2. rewrite <- (sch_up n m H1 H2).
  assert (Q1 : sqrt (INR (n + m + 1)) * sqrt (INR (n + m + 1)) = INR n + INR m + 1) by (rewrite sqrt_INR_sqr, !plus_INR; reflexivity).
  assert (Q2 : sqrt (INR (n - m)) * sqrt (INR (n - m)) = INR n - INR m) by (rewrite sqrt_INR_sqr, minus_INR by lia; reflexivity).
  rewrite <- Q1, <- Q2. ring.
Qed.

Lemma sch_sqr_1 n : (1 <= n)%nat -> sch n 1 ^ 2 * (INR n * (INR n + 1)) = 2.
Proof.
  intros H1. pose proof (sch_up0 n H1) as E. rewrite <- sqrt2_sqr, <- E.
  assert (Q1 : sqrt (INR n) * sqrt (INR n) = INR n) by apply sqrt_INR_sqr.
  assert (Q2 : sqrt (INR (n + 1)) * sqrt (INR (n + 1)) = INR n + 1) by (rewrite sqrt_INR_sqr, plus_INR; reflexivity).
  transitivity (sch n 1 ^ 2 * ((sqrt (INR n) * sqrt (INR n)) * (sqrt (INR (n + 1)) * sqrt (INR (n + 1))))); [now rewrite Q1, Q2|ring].
Qed.

Lemma sq_sum_derive n j t : (j <= n)%nat -> is_derive (sq_sum n (S j)) t (- flux n j t).
Proof.
  induction j as [|j IH]; intros Hj.
  - assert (E : is_derive (fun t : R => 0 + (sch n 0 * G n 0 t) ^ 2) t (- flux n 0 t)); [|exact E].
    pose proof (is_derive_scal (G n 0) t (sch n 0) _ (G_derive_0 n t)) as E1.
    pose proof (is_derive_pow _ 2 _ _ E1) as E2.
    apply (is_derive_ext (fun t : R => (sch n 0 * G n 0 t) ^ 2)); [intros; eqR; ring|].
    replace (- flux n 0 t) with (INR 2 * (sch n 0 * - G n 1 t) * (sch n 0 * G n 0 t) ^ Init.Nat.pred 2); [exact E2|].
    unfold flux. simpl. ring.
  - specialize (IH ltac:(lia)).
    pose proof (is_derive_scal (G n (S j)) t (sch n (S j)) _ (G_derive n (S j) t ltac:(lia))) as E1.
    pose proof (is_derive_pow _ 2 _ _ E1) as E2.
    pose proof (is_derive_plus _ _ _ _ _ IH E2) as E.
    assert (E' : is_derive (fun t : R => sq_sum n (S j) t + (sch n (S j) * G n (S j) t) ^ 2) t (- flux n (S j) t)); [|exact E'].
    match type of E with is_derive _ _ ?v => replace (- flux n (S j) t) with v; [exact E|] end.
    match goal with |- @eq _ (plus ?a ?b) ?c => change (@eq R (a + b) c) end.
    unfold flux. simpl Nat.eqb; cbv iota. replace (S j - 1)%nat with j by lia. replace (S j + 1)%nat with (S (S j)) by lia. replace (j + 1)%nat with (S j) by lia.
    simpl (INR 2). change (Init.Nat.pred 2) with 1%nat.
    destruct (Nat.eqb_spec j 0) as [->|Hj0].
    + pose proof (sch_sqr_1 n ltac:(lia)) as Q. rewrite sch_0. change (INR 1) with 1 in *.
      replace ((1 + 1) * (sch n 1 * (0.5 * (INR n + 1) * (INR n - 1 + 1) * G n 0 t + -0.5 * G n 2 t)) * (sch n 1 * G n 1 t) ^ 1)
        with ((sch n 1 ^ 2 * (INR n * (INR n + 1))) * (G n 0 t * G n 1 t) - sch n 1 ^ 2 * G n 1 t * G n 2 t) by (rewrite half, mhalf; field).
      rewrite Q. ring.
    + pose proof (sch_sqr_up n j ltac:(lia) ltac:(lia)) as Q. replace (j + 1)%nat with (S j) in Q by lia. rewrite <- Q. rewrite (S_INR j), half, mhalf. field.
Qed.

Lemma sq_sum_0 n j : sq_sum n (S j) 0 = 1.
Proof.
  induction j as [|j IH].
  - simpl. unfold G. rewrite sch_0, cos_0, L_at_1. simpl. ring.
  - change (sq_sum n (S j) 0 + (sch n (S j) * G n (S j) 0) ^ 2 = 1). rewrite IH. unfold G. rewrite sin_0. simpl. ring.
Qed.

Lemma sq_sum_1 n t : sq_sum n (S n) t = 1.
Proof.
  assert (D : forall s, is_derive (sq_sum n (S n)) s 0).
  { intros s. pose proof (sq_sum_derive n n s (le_n n)) as E. unfold flux in E. rewrite (G_high n (n + 1)) in E by lia.
    replace (- ((if (n =? 0)%nat then 2 else 1) * sch n n ^ 2 * G n n s * 0)) with 0 in E by ring. exact E. }
  rewrite <- (sq_sum_0 n n). destruct (Rtotal_order 0 t) as [Ht|[<-|Ht]]; [|reflexivity|].
  - symmetry. apply (eq_is_derive (sq_sum n (S n)) 0 t); auto.
  - apply (eq_is_derive (sq_sum n (S n)) t 0); auto.
Qed.

Lemma sq_sum_over n j t : sq_sum n j t = sum_over (range 0 j) (fun m => (sch n m * G n m t) ^ 2).
Proof.
  unfold range. rewrite Nat.sub_0_r. induction j as [|j IH]; [reflexivity|].
  rewrite seq_S, sum_over_app, <- IH. simpl. unfold sum_over; simpl. ring.
Qed.
