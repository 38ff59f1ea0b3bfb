(** The loops of legendre.py fill the tables with the Legendre functions. *)
From Coquelicot Require Import Coquelicot.
From Coq Require Import Psatz.
From Verif Require Import Base BaseFacts LegendreModel LegendreSpec LegendreFacts.
Local Open Scope R_scope.

Lemma for_range_inv {S} (a b : nat) (body : nat -> S -> res S) (I : nat -> S -> Prop) s :
  (a <= b)%nat -> I a s ->
  (forall i s, (a <= i < b)%nat -> I i s -> exists s', body i s = Ok s' /\ I (i + 1)%nat s') ->
  exists s', for_ (range a b) body s = Ok s' /\ I b s'.
Proof.
  intros Hab H0 Hs. unfold range. remember (b - a)%nat as k eqn:Ek.
  revert a s Hab H0 Hs Ek; induction k as [|k IH]; intros a s Hab H0 Hs Ek.
  - exists s; split; [reflexivity|]. now replace b with a by lia.
  - simpl. destruct (Hs a s ltac:(lia) H0) as (s1 & -> & H1). simpl.
    destruct (IH (a + 1)%nat s1) as (s' & E & H'); try lia; auto.
    { intros i t Hi Ht. apply Hs; [lia|exact Ht]. }
    exists s'; split; [|exact H']. replace (Datatypes.S a) with (a + 1)%nat by lia. exact E.
Qed.

(** ** Tables *)
Definition agree (N : nat) (p : table) (K : nat -> nat -> Prop) (f : nat -> nat -> R) : Prop :=
  square N p /\ forall i j, K i j -> ent p i j = f i j.

Lemma in_shape_square N p i j : square N p -> (i <= N)%nat -> (j <= N)%nat -> in_shape p i j = true.
Proof.
  intros [Hr Hc] Hi Hj. unfold in_shape. rewrite Hr, Hc. apply andb_true_intro; split; apply Nat.ltb_lt; lia.
Qed.

Lemma tset_spec N p i j v : square N p -> (i <= N)%nat -> (j <= N)%nat ->
  exists p', tset p i j v = Ok p' /\ square N p' /\ ent p' i j = v /\
    (forall a b, a <> i \/ b <> j -> ent p' a b = ent p a b).
Proof.
  intros Hs Hi Hj. unfold tset. rewrite (in_shape_square N) by auto. eexists; split; [reflexivity|].
  split; [exact Hs|]. cbn [ent]. split.
  - now rewrite !Nat.eqb_refl.
  - intros a b H. destruct (Nat.eqb_spec a i), (Nat.eqb_spec b j); simpl; auto. lia.
Qed.

Lemma tget_spec N p i j : square N p -> (i <= N)%nat -> (j <= N)%nat -> tget p i j = Ok (ent p i j).
Proof. intros. unfold tget. now rewrite (in_shape_square N) by auto. Qed.

Lemma agree_set N p K f i j v : agree N p K f -> (i <= N)%nat -> (j <= N)%nat -> v = f i j ->
  exists p', tset p i j v = Ok p' /\ agree N p' (fun a b => K a b \/ (a = i /\ b = j)) f.
Proof.
  intros [Hs HK] Hi Hj ->. destruct (tset_spec N p i j (f i j) Hs Hi Hj) as (p' & E & Hs' & E1 & E2).
  exists p'; split; [exact E|]. split; [exact Hs'|]. intros a b Hab.
  destruct (Nat.eq_dec a i) as [->|]; [destruct (Nat.eq_dec b j) as [->|]|]; [exact E1| |];
    (rewrite E2 by tauto; apply HK; destruct Hab as [Hab|[? ?]]; [exact Hab|congruence]).
Qed.

Lemma agree_get N p K f i j : agree N p K f -> K i j -> (i <= N)%nat -> (j <= N)%nat -> tget p i j = Ok (f i j).
Proof. intros [Hs HK] H Hi Hj. rewrite (tget_spec N) by auto. f_equal; auto. Qed.

Lemma agree_weaken N p (K K' : nat -> nat -> Prop) f :
  agree N p K f -> (forall a b, K' a b -> K a b) -> agree N p K' f.
Proof. intros [Hs HK] H; split; auto. Qed.

Lemma agree_filled N p f : agree N p (fun a b => (b <= a)%nat /\ (a <= N)%nat) f -> filled N p f.
Proof. intros [Hs HK]. split; auto. Qed.

Lemma filled_agree N p f : filled N p f -> agree N p (fun a b => (b <= a)%nat /\ (a <= N)%nat) f.
Proof. intros [Hs HK]. split; [exact Hs|]. intros i j [? ?]; auto. Qed.

Lemma sqrt_at_ok N k : (k < 2 * (N + 1))%nat -> sqrt_at N k = Ok (sqrt (INR k)).
Proof. intros H. unfold sqrt_at. apply Nat.ltb_lt in H. now rewrite H. Qed.

(** Reads a known entry or a square root in the goal; sets the next entry. *)
Ltac tget_ H := rewrite (agree_get _ _ _ _ _ _ H) by (first [lia | (simpl; lia)]); cbn [bind].
Tactic Notation "tset_" hyp(H) ident(p') ident(H') :=
  let E := fresh "E" in
  match type of H with agree ?N ?p ?K ?f =>
  match goal with |- context [tset p ?i ?j ?v] =>
    let G := fresh "G" in
    assert (G : exists p', tset p i j v = Ok p' /\ agree N p' (fun a b => K a b \/ (a = i /\ b = j)) f);
    [apply (agree_set _ p _ _ i j v H); [lia|lia|]
    |destruct G as (p' & E & H'); rewrite E; clear E; cbn [bind]]
  end end.

(** ** Unnormalised functions *)
Section Plain.
Variables (x : R).
Let u := sin_of x.
Definition plain n m := sin_of x ^ m * L n m x.

Lemma plain_rec n m : (m + 2 <= n)%nat ->
  (2 * INR n - 1) / (INR n - INR m) * x * plain (n - 1) m + - (INR n + INR m - 1) / (INR n - INR m) * plain (n - 2) m = plain n m.
Proof.
  intros H. unfold plain. pose proof (L_rec n m x ltac:(lia)) as E.
  assert (D : INR n - INR m <> 0) by (assert (INR m < INR n) by (apply lt_INR; lia); lra).
  apply Rmult_eq_reg_l with (INR n - INR m); [|exact D].
  replace ((INR n - INR m) * (sin_of x ^ m * L n m x)) with (sin_of x ^ m * ((INR n - INR m) * L n m x)) by ring.
  rewrite E. field. exact D.
Qed.

Lemma plain_table N p : square N p ->
  exists p', associated_legendre x N p = Ok p' /\ filled N p' plain.
Proof.
  intros Hs. unfold associated_legendre.
  assert (A0 : agree N p (fun _ _ => False) plain) by (split; [exact Hs|tauto]).
  tset_ A0 p0 A1; [unfold plain; rewrite L_0_0; simpl; ring|].
  destruct (for_range_inv 1 (N + 1) (fun n p =>
    do p <- for_ (range 0 (n - 1)) (fun m p =>
      let a_nm := (2 * INR n - 1) / (INR n - INR m) in
      let b_nm := - (INR n + INR m - 1) / (INR n - INR m) in
      do p1 <- tget p (n - 1) m; do p2 <- tget p (n - 2) m;
      tset p n m (a_nm * x * p1 + b_nm * p2)) p;
    let c_nm := 2 * INR n - 1 in
    do q <- tget p (n - 1) (n - 1); do p <- tset p n (n - 1) (c_nm * x * q);
    do q <- tget p (n - 1) (n - 1); tset p n n (c_nm * u * q))
    (fun n p => agree N p (fun a b => (b <= a)%nat /\ (a < n)%nat) plain) p0) as (p' & E & H'); try lia.
  - apply (agree_weaken _ _ _ _ _ A1). intros; lia.
  - intros n q Hn Hq.
    destruct (for_range_inv 0 (n - 1) (fun m p =>
      let a_nm := (2 * INR n - 1) / (INR n - INR m) in
      let b_nm := - (INR n + INR m - 1) / (INR n - INR m) in
      do p1 <- tget p (n - 1) m; do p2 <- tget p (n - 2) m;
      tset p n m (a_nm * x * p1 + b_nm * p2))
      (fun m p => agree N p (fun a b => (b <= a /\ a < n)%nat \/ (a = n /\ b < m)%nat) plain) q) as (q' & E & Hq'); try lia.
    + apply (agree_weaken _ _ _ _ _ Hq). intros; lia.
    + intros m t Hm Ht. cbv zeta. tget_ Ht. tget_ Ht.
      destruct (agree_set _ _ _ _ n m _ Ht ltac:(lia) ltac:(lia) (plain_rec n m ltac:(lia))) as (t' & -> & Ht').
      exists t'; split; [reflexivity|]. apply (agree_weaken _ _ _ _ _ Ht'). intros; lia.
    + rewrite E; cbn [bind]; cbv zeta. tget_ Hq'.
      tset_ Hq' q1 H1.
      { unfold plain. destruct n as [|n]; [lia|]. replace (S n - 1)%nat with n by lia. rewrite L_subdiag. ring. }
      tget_ H1.
      assert (G : (2 * INR n - 1) * u * plain (n - 1) (n - 1) = plain n n).
      { unfold plain, u. destruct n as [|n]; [lia|]. replace (S n - 1)%nat with n by lia. rewrite L_diag. simpl pow. ring. }
      destruct (agree_set _ _ _ _ n n _ H1 ltac:(lia) ltac:(lia) G) as (t' & -> & Ht').
      exists t'; split; [reflexivity|]. apply (agree_weaken _ _ _ _ _ Ht'). intros; lia.
  - exists p'. split; [exact E|]. apply agree_filled. apply (agree_weaken _ _ _ _ _ H'). intros; lia.
Qed.
End Plain.

(** ** Normalisation factors *)
Definition sch := schmidt_factor.

Lemma sqrt_INR_pos k : (0 < k)%nat -> 0 < sqrt (INR k).
Proof. intros. apply sqrt_lt_R0, lt_0_INR; lia. Qed.
Lemma sqrt_INR_sqr k : sqrt (INR k) * sqrt (INR k) = INR k.
Proof. apply sqrt_sqrt, pos_INR. Qed.

Lemma eps_pos (m : nat) : 0 < (if Nat.eqb m 0 then 1 else 2).
Proof. destruct (Nat.eqb m 0); lra. Qed.

Lemma sch_pos n m : 0 < sch n m.
Proof.
  unfold sch, schmidt_factor. apply sqrt_lt_R0. apply Rmult_lt_0_compat; [|apply Rinv_0_lt_compat, fact_pos].
  apply Rmult_lt_0_compat; [apply eps_pos|apply fact_pos].
Qed.

(** c(n,m) sqrt(n+m) = c(n-1,m) sqrt(n-m) *)
Lemma sch_step n m : (m < n)%nat -> sch n m * sqrt (INR (n + m)) = sch (n - 1) m * sqrt (INR (n - m)).
Proof.
  intros H. unfold sch, schmidt_factor. rewrite <- !sqrt_mult_alt.
  - f_equal. destruct n as [|n]; [lia|]. replace (S n - 1)%nat with n by lia. replace (S n - m)%nat with (S (n - m)) by lia.
    replace (S n + m)%nat with (S (n + m)) by lia. rewrite !fact_simpl, !mult_INR.
    pose proof (fact_ne (n + m)). assert (INR (S (n + m)) <> 0) by (apply not_0_INR; lia). field. auto.
  - apply Rmult_le_pos; [apply Rmult_le_pos; [left; apply eps_pos|left; apply fact_pos]|left; apply Rinv_0_lt_compat, fact_pos].
  - apply Rmult_le_pos; [apply Rmult_le_pos; [left; apply eps_pos|left; apply fact_pos]|left; apply Rinv_0_lt_compat, fact_pos].
Qed.

Lemma sch_0 n : sch n 0 = 1.
Proof.
  unfold sch, schmidt_factor. rewrite Nat.sub_0_r, Nat.add_0_r. simpl Nat.eqb; cbv iota.
  replace (1 * INR (fact n) / INR (fact n)) with 1 by (field; apply fact_ne). apply sqrt_1.
Qed.

Lemma sch_1_1 : sch 1 1 = 1.
Proof.
  unfold sch, schmidt_factor. simpl Nat.eqb; cbv iota. simpl.
  replace (2 * 1 / (1 + 1)) with 1 by lra. apply sqrt_1.
Qed.

Lemma sch_diag n : (2 <= n)%nat -> sch n n * sqrt (INR (2 * n)) * sqrt (INR (2 * n - 1)) = sch (n - 1) (n - 1).
Proof.
  intros H. unfold sch, schmidt_factor.
  assert (P : forall k, (0 <= (if Nat.eqb k 0 then 1 else 2) * INR (fact (k - k)) / INR (fact (k + k)))).
  { intros k. apply Rmult_le_pos; [apply Rmult_le_pos; [left; apply eps_pos|left; apply fact_pos]|left; apply Rinv_0_lt_compat, fact_pos]. }
  rewrite <- !sqrt_mult_alt.
  - f_equal. destruct n as [|[|n]]; try lia. replace (S (S n) - 1)%nat with (S n) by lia.
    rewrite !Nat.sub_diag. cbn [Nat.eqb]. replace (S (S n) + S (S n))%nat with (S (S (S n + S n))) by lia.
    replace (2 * S (S n))%nat with (S (S (S n + S n))) by lia. replace (S (S (S n + S n)) - 1)%nat with (S (S n + S n)) by lia.
    rewrite (fact_simpl (S (S n + S n))), (fact_simpl (S n + S n)), !mult_INR.
    pose proof (fact_ne (S n + S n)).
    assert (INR (S (S (S n + S n))) <> 0) by (apply not_0_INR; lia). assert (INR (S (S n + S n)) <> 0) by (apply not_0_INR; lia).
    field. auto.
  - apply Rmult_le_pos; [apply P|apply pos_INR].
  - apply P.
Qed.

Lemma full_factor_sch n m : full_factor n m = sqrt (2 * INR n + 1) * sch n m.
Proof.
  unfold full_factor, sch, schmidt_factor. rewrite <- sqrt_mult_alt.
  - f_equal. unfold Rdiv. ring.
  - pose proof (pos_INR n). lra.
Qed.

(** ** Rescaling *)
Lemma big_pos : 0 < big.
Proof. unfold big. apply pow_lt. lra. Qed.
Lemma small_big : small * big = 1.
Proof. unfold small. field. pose proof big_pos. lra. Qed.

Lemma rescale_table u N p f : filled N p (fun n m => f n m * small) ->
  exists p', _rescale u N p = Ok p' /\ filled N p' (fun n m => u ^ m * f n m).
Proof.
  intros [Hs Hf]. unfold _rescale.
  destruct (for_range_inv 0 (N + 1) (fun m '(p, rescale) =>
    let rescale := if Nat.ltb 0 m then rescale * u else rescale in
    do p <- for_ (range m (N + 1)) (fun n p =>
      do v <- tget p n m; tset p n m (v * rescale)) p;
    Ok (p, rescale))
    (fun m st => square N (fst st) /\ snd st = (if Nat.ltb 0 m then big * u ^ (m - 1) else big) /\
       forall a b, (b <= a)%nat -> (a <= N)%nat ->
         ent (fst st) a b = if Nat.ltb b m then u ^ b * f a b else f a b * small) (p, big)) as ([p' r'] & E & H'); try lia.
  - cbn [fst snd]. split; [exact Hs|]. split; [reflexivity|]. intros a b H1 H2. apply Hf; auto.
  - intros m [q r] Hm (Hq & Hr & He). cbn [fst snd] in *. cbv zeta.
    set (r1 := if Nat.ltb 0 m then r * u else r).
    assert (Er : r1 = big * u ^ m).
    { unfold r1. rewrite Hr. destruct m as [|m]; simpl Nat.ltb; cbv iota; [simpl; ring|].
      replace (S m - 1)%nat with m by lia. simpl. ring. }
    destruct (for_range_inv m (N + 1) (fun n p => do v <- tget p n m; tset p n m (v * r1))
      (fun n p => square N p /\ forall a b, (b <= a)%nat -> (a <= N)%nat ->
         ent p a b = if (Nat.ltb b m || (Nat.eqb b m && Nat.ltb a n))%bool then u ^ b * f a b else f a b * small) q) as (q' & E & Hq'); try lia.
    + split; [exact Hq|]. intros a b H1 H2. rewrite (He a b H1 H2).
      destruct (Nat.ltb_spec b m), (Nat.eqb_spec b m), (Nat.ltb_spec a m); simpl; auto; lia.
    + intros n t Hn (Ht & Het). rewrite (tget_spec N) by (auto; lia). cbn [bind].
      destruct (tset_spec N t n m (ent t n m * r1) Ht ltac:(lia) ltac:(lia)) as (t' & -> & Ht' & E1 & E2).
      exists t'; split; [reflexivity|]. split; [exact Ht'|]. intros a b H1 H2.
      destruct (Nat.eq_dec a n) as [->|Ha]; [destruct (Nat.eq_dec b m) as [->|Hb]|].
      * rewrite E1, Het by lia. rewrite Nat.eqb_refl, Nat.ltb_irrefl. simpl.
        destruct (Nat.ltb_spec n n); [lia|]. destruct (Nat.ltb_spec n (n + 1)); [|lia]. rewrite Er.
        replace (f n m * small * (big * u ^ m)) with (u ^ m * f n m * (small * big)) by ring. rewrite small_big. ring.
      * rewrite E2, Het by lia. destruct (Nat.ltb_spec b m), (Nat.eqb_spec b m); simpl; auto; lia.
      * rewrite E2, Het by lia. destruct (Nat.ltb_spec b m), (Nat.eqb_spec b m), (Nat.ltb_spec a n), (Nat.ltb_spec a (n + 1)); simpl; auto; lia.
    + rewrite E; cbn [bind]. eexists; split; [reflexivity|]. cbn [fst snd]. destruct Hq' as [G1 G2].
      split; [exact G1|]. split.
      * rewrite Er. destruct (Nat.ltb_spec 0 (m + 1)); [|lia]. now replace (m + 1 - 1)%nat with m by lia.
      * intros a b H1 H2. rewrite G2 by auto.
        destruct (Nat.ltb_spec b m), (Nat.eqb_spec b m), (Nat.ltb_spec a (N + 1)), (Nat.ltb_spec b (m + 1)); simpl; auto; lia.
  - cbv zeta in E; rewrite E; cbn [bind]. exists p'; split; [reflexivity|]. destruct H' as (G1 & _ & G2). cbn [fst] in *.
    split; [exact G1|]. intros n m H1 H2. rewrite G2 by auto. destruct (Nat.ltb_spec m (N + 1)); [reflexivity|lia].
Qed.

(** ** Schmidt functions *)
Section Schmidt.
Variables (x : R).

Lemma INR_2n1 n : (1 <= n)%nat -> INR (2 * n - 1) = 2 * INR n - 1.
Proof. intros. rewrite minus_INR, mult_INR by lia. simpl. ring. Qed.

Lemma sch_rec n m k : (m + 2 <= n)%nat ->
  (2 * INR n - 1) / (sqrt (INR (n + m)) * sqrt (INR (n - m))) * x * (sch (n - 1) m * L (n - 1) m x * k)
  + - sqrt (INR (n + m - 1)) * sqrt (INR (n - m - 1)) / (sqrt (INR (n + m)) * sqrt (INR (n - m))) * (sch (n - 2) m * L (n - 2) m x * k)
  = sch n m * L n m x * k.
Proof.
  intros H. pose proof (sch_step n m ltac:(lia)) as E1. pose proof (sch_step (n - 1) m ltac:(lia)) as E2.
  replace (n - 1 - 1)%nat with (n - 2)%nat in E2 by lia. replace (n - 1 + m)%nat with (n + m - 1)%nat in E2 by lia.
  replace (n - 1 - m)%nat with (n - m - 1)%nat in E2 by lia.
  pose proof (sqrt_INR_pos (n + m) ltac:(lia)) as P1. pose proof (sqrt_INR_pos (n - m) ltac:(lia)) as P2.
  pose proof (sqrt_INR_pos (n + m - 1) ltac:(lia)) as P3. pose proof (sqrt_INR_pos (n - m - 1) ltac:(lia)) as P4.
  assert (Q2 : sqrt (INR (n - m)) * sqrt (INR (n - m)) = INR n - INR m) by (rewrite sqrt_INR_sqr; apply minus_INR; lia).
  assert (Q3 : sqrt (INR (n + m - 1)) * sqrt (INR (n + m - 1)) = INR n + INR m - 1) by (rewrite sqrt_INR_sqr, minus_INR, plus_INR by lia; reflexivity).
  set (s1 := sqrt (INR (n + m))) in *. set (s2 := sqrt (INR (n - m))) in *. set (s3 := sqrt (INR (n + m - 1))) in *. set (s4 := sqrt (INR (n - m - 1))) in *.
  assert (F1 : sch (n - 1) m = sch n m * s1 / s2) by (rewrite E1; field; lra).
  assert (F2 : sch (n - 2) m = sch n m * s1 / s2 * s3 / s4) by (rewrite <- F1, E2; field; lra).
  rewrite F1, F2. pose proof (L_rec n m x ltac:(lia)) as E. rewrite <- Q2, <- Q3 in E.
  apply Rmult_eq_reg_l with (s2 * s2); [|nra].
  replace (s2 * s2 * (sch n m * L n m x * k)) with (sch n m * k * (s2 * s2 * L n m x)) by ring. rewrite E. field. lra.
Qed.

Lemma sch_rec0 n k : (2 <= n)%nat ->
  (2 * INR n - 1) / (sqrt (INR n) ^ 2) * x * (sch (n - 1) 0 * L (n - 1) 0 x * k)
  + - ((sqrt (INR (n - 1)) / sqrt (INR n)) ^ 2) * (sch (n - 2) 0 * L (n - 2) 0 x * k) = sch n 0 * L n 0 x * k.
Proof.
  intros H. rewrite !sch_0. pose proof (sqrt_INR_pos n ltac:(lia)) as P1. pose proof (sqrt_INR_sqr n) as Q1.
  assert (Q2 : sqrt (INR (n - 1)) * sqrt (INR (n - 1)) = INR n - 1) by (rewrite sqrt_INR_sqr, minus_INR by lia; reflexivity).
  set (s1 := sqrt (INR n)) in *. set (s2 := sqrt (INR (n - 1))) in *.
  pose proof (L_rec n 0 x ltac:(lia)) as E. change (INR 0) with 0 in E. rewrite Rminus_0_r, Rplus_0_r, <- Q2 in E.
  apply Rmult_eq_reg_l with (INR n); [|assert (0 < INR n) by (apply lt_0_INR; lia); lra].
  replace (INR n * (1 * L n 0 x * k)) with (k * (INR n * L n 0 x)) by ring. rewrite E, <- Q1. field. lra.
Qed.

Lemma sch_sub n k : (2 <= n)%nat ->
  sqrt (INR (2 * n - 1)) * x * (sch (n - 1) (n - 1) * L (n - 1) (n - 1) x * k) = sch n (n - 1) * L n (n - 1) x * k.
Proof.
  intros H. pose proof (sch_step n (n - 1) ltac:(lia)) as E. replace (n - (n - 1))%nat with 1%nat in E by lia.
  replace (n + (n - 1))%nat with (2 * n - 1)%nat in E by lia. change (INR 1) with 1 in E. rewrite sqrt_1, Rmult_1_r in E. rewrite <- E.
  assert (Q : sqrt (INR (2 * n - 1)) * sqrt (INR (2 * n - 1)) = 2 * INR n - 1) by (rewrite sqrt_INR_sqr; apply INR_2n1; lia).
  destruct n as [|n]; [lia|]. replace (S n - 1)%nat with n in * by lia. rewrite L_subdiag, <- Q. ring.
Qed.

Lemma sch_dia n k : (2 <= n)%nat ->
  sqrt (INR (2 * n - 1)) / sqrt (INR (2 * n)) * (sch (n - 1) (n - 1) * L (n - 1) (n - 1) x * k) = sch n n * L n n x * k.
Proof.
  intros H. pose proof (sch_diag n H) as E. rewrite <- E.
  assert (Q : sqrt (INR (2 * n - 1)) * sqrt (INR (2 * n - 1)) = 2 * INR n - 1) by (rewrite sqrt_INR_sqr; apply INR_2n1; lia).
  pose proof (sqrt_INR_pos (2 * n) ltac:(lia)) as P.
  destruct n as [|n]; [lia|]. replace (S n - 1)%nat with n in * by lia. rewrite L_diag, <- Q. field. lra.
Qed.

Definition schmidt n m := sin_of x ^ m * (sch n m * L n m x).

Lemma schmidt_table N p : (1 <= N)%nat -> square N p ->
  exists p', associated_legendre_schmidt x N p = Ok p' /\ filled N p' schmidt.
Proof.
  intros HN Hs. unfold associated_legendre_schmidt. cbv zeta.
  set (f := fun n m => sch n m * L n m x * small).
  assert (A0 : agree N p (fun _ _ => False) f) by (split; [exact Hs|tauto]).
  tset_ A0 p0 A1; [unfold f; rewrite L_0_0, sch_0; ring|].
  tset_ A1 p1 A2; [unfold f; rewrite L_1_0, sch_0; ring|].
  tget_ A2.
  tset_ A2 p2 A3; [unfold f; rewrite L_0_0, L_1_1, sch_0, sch_1_1; ring|].
  assert (Z : exists p', for_ (range 2 (N + 1)) (fun n p =>
    do sn <- sqrt_at N n; do sn1 <- sqrt_at N (n - 1)%nat;
    let a_n0 := (2 * INR n - 1) / (sn ^ 2) in
    let b_n0 := - ((sn1 / sn) ^ 2) in
    do p1 <- tget p (n - 1) 0; do p2 <- tget p (n - 2) 0;
    tset p n 0 (a_n0 * x * p1 + b_n0 * p2)) p2 = Ok p' /\
    agree N p' (fun a b => (b = 0 /\ a < N + 1)%nat \/ (a = 1 /\ b = 1)%nat) f).
  { apply (for_range_inv 2 (N + 1) _ (fun n p => agree N p (fun a b => (b = 0 /\ a < n)%nat \/ (a = 1 /\ b = 1)%nat) f)); [lia| |].
    - apply (agree_weaken _ _ _ _ _ A3). intros a b H. destruct (Nat.eq_dec a 0), (Nat.eq_dec a 1); lia.
    - intros n q Hn Hq. rewrite !sqrt_at_ok by lia. cbn [bind]. cbv zeta. tget_ Hq. tget_ Hq.
      destruct (agree_set _ _ _ _ n 0 _ Hq ltac:(lia) ltac:(lia) (sch_rec0 n small ltac:(lia))) as (t' & E & Ht').
      exists t'; split; [exact E|]. apply (agree_weaken _ _ _ _ _ Ht'). intros; lia. }
  destruct Z as (p3 & E3 & A4). cbv zeta in E3. rewrite E3; clear E3; cbn [bind].
  assert (Z : exists p', for_ (range 2 (N + 1)) (fun n p =>
    do p <- for_ (range 1 (n - 1)) (fun m p =>
      do s1 <- sqrt_at N (n + m)%nat; do s2 <- sqrt_at N (n - m)%nat;
      do s3 <- sqrt_at N (n + m - 1)%nat; do s4 <- sqrt_at N (n - m - 1)%nat;
      let a_nm := (2 * INR n - 1) / (s1 * s2) in
      let b_nm := - s3 * s4 / (s1 * s2) in
      do p1 <- tget p (n - 1) m; do p2 <- tget p (n - 2) m;
      tset p n m (a_nm * x * p1 + b_nm * p2)) p;
    do c_nm <- sqrt_at N (2 * n - 1)%nat;
    do q <- tget p (n - 1) (n - 1); do p <- tset p n (n - 1) (c_nm * x * q);
    do s5 <- sqrt_at N (2 * n)%nat;
    let d_nm := c_nm / s5 in
    do q <- tget p (n - 1) (n - 1); tset p n n (d_nm * q)) p3 = Ok p' /\
    agree N p' (fun a b => (b = 0 /\ a < N + 1)%nat \/ (b <= a /\ a < N + 1)%nat) f).
  { apply (for_range_inv 2 (N + 1) _ (fun n p => agree N p (fun a b => (b = 0 /\ a < N + 1)%nat \/ (b <= a /\ a < n)%nat) f)); [lia| |].
    - apply (agree_weaken _ _ _ _ _ A4). intros a b H. lia.
    - intros n q Hn Hq.
      assert (Y : exists q', for_ (range 1 (n - 1)) (fun m p =>
        do s1 <- sqrt_at N (n + m)%nat; do s2 <- sqrt_at N (n - m)%nat;
        do s3 <- sqrt_at N (n + m - 1)%nat; do s4 <- sqrt_at N (n - m - 1)%nat;
        let a_nm := (2 * INR n - 1) / (s1 * s2) in
        let b_nm := - s3 * s4 / (s1 * s2) in
        do p1 <- tget p (n - 1) m; do p2 <- tget p (n - 2) m;
        tset p n m (a_nm * x * p1 + b_nm * p2)) q = Ok q' /\
        agree N q' (fun a b => (b = 0 /\ a < N + 1)%nat \/ (b <= a /\ a < n)%nat \/ (a = n /\ b < n - 1)%nat) f).
      { apply (for_range_inv 1 (n - 1) _ (fun m p => agree N p (fun a b => (b = 0 /\ a < N + 1)%nat \/ (b <= a /\ a < n)%nat \/ (a = n /\ b < m)%nat) f)); [lia| |].
        - apply (agree_weaken _ _ _ _ _ Hq). intros; lia.
        - intros m t Hm Ht. rewrite !sqrt_at_ok by lia. cbn [bind]. cbv zeta. tget_ Ht. tget_ Ht.
          destruct (agree_set _ _ _ _ n m _ Ht ltac:(lia) ltac:(lia) (sch_rec n m small ltac:(lia))) as (t' & E & Ht').
          exists t'; split; [exact E|]. apply (agree_weaken _ _ _ _ _ Ht'). intros; lia. }
      destruct Y as (q' & E & Hq'). rewrite E; clear E; cbn [bind]. rewrite !sqrt_at_ok by lia. cbn [bind]. tget_ Hq'.
      tset_ Hq' q1 H1; [apply (sch_sub n small ltac:(lia))|].
      rewrite ?sqrt_at_ok by lia. cbn [bind]. cbv zeta. tget_ H1.
      destruct (agree_set _ _ _ _ n n _ H1 ltac:(lia) ltac:(lia) (sch_dia n small ltac:(lia))) as (t' & E & Ht').
      exists t'; split; [exact E|]. apply (agree_weaken _ _ _ _ _ Ht'). intros; lia. }
  destruct Z as (p4 & E4 & A5). cbv zeta in E4. rewrite E4; clear E4; cbn [bind].
  apply (rescale_table (sin_of x) N p4 (fun n m => sch n m * L n m x)). apply agree_filled.
  apply (agree_weaken _ _ _ _ _ A5). intros; lia.
Qed.

(** *** Full normalisation *)
Lemma INR_2n3 n : (2 <= n)%nat -> INR (2 * n - 3) = 2 * INR (n - 2) + 1.
Proof. intros. rewrite !minus_INR, mult_INR by lia. simpl. ring. Qed.
Lemma INR_2np1 n : INR (2 * n + 1) = 2 * INR n + 1.
Proof. rewrite plus_INR, mult_INR. simpl. ring. Qed.
Lemma INR_2n1' n : (1 <= n)%nat -> INR (2 * n - 1) = 2 * INR (n - 1) + 1.
Proof. intros. rewrite !minus_INR, mult_INR by lia. simpl. ring. Qed.

Definition ff := full_factor.

Lemma deg_pos n : 0 < sqrt (2 * INR n + 1).
Proof. apply sqrt_lt_R0. pose proof (pos_INR n); lra. Qed.

Lemma ff_rec n m k : (m + 2 <= n)%nat ->
  sqrt (INR (2 * n + 1)) * sqrt (INR (2 * n - 1)) / (sqrt (INR (n + m)) * sqrt (INR (n - m))) * x * (ff (n - 1) m * L (n - 1) m x * k)
  + - (sqrt (INR (n + m - 1)) * sqrt (INR (n - m - 1)) * sqrt (INR (2 * n + 1))) / (sqrt (INR (n + m)) * sqrt (INR (n - m)) * sqrt (INR (2 * n - 3))) * (ff (n - 2) m * L (n - 2) m x * k)
  = ff n m * L n m x * k.
Proof.
  intros H. unfold ff. rewrite !full_factor_sch. rewrite INR_2n3, INR_2np1 by lia.
  pose proof (sch_rec n m (sqrt (2 * INR n + 1) * k) H) as E.
  transitivity (sch n m * L n m x * (sqrt (2 * INR n + 1) * k)); [|ring]. rewrite <- E. clear E.
  assert (Q : sqrt (INR (2 * n - 1)) * sqrt (INR (2 * n - 1)) = 2 * INR n - 1) by (rewrite sqrt_INR_sqr; apply INR_2n1; lia).
  replace (sqrt (2 * INR (n - 1) + 1)) with (sqrt (INR (2 * n - 1))) by (f_equal; apply INR_2n1'; lia).
  pose proof (sqrt_INR_pos (n + m) ltac:(lia)) as P1. pose proof (sqrt_INR_pos (n - m) ltac:(lia)) as P2. pose proof (deg_pos (n - 2)) as P3.
  rewrite <- Q. set (r := sqrt (INR (2 * n - 1))) in *. field. lra.
Qed.

Lemma ff_rec0 n k : (2 <= n)%nat ->
  sqrt (INR (2 * n - 1)) * sqrt (INR (2 * n + 1)) / INR n * x * (ff (n - 1) 0 * L (n - 1) 0 x * k)
  + - (INR n - 1) * sqrt (INR (2 * n + 1)) / (INR n * sqrt (INR (2 * n - 3))) * (ff (n - 2) 0 * L (n - 2) 0 x * k) = ff n 0 * L n 0 x * k.
Proof.
  intros H. unfold ff. rewrite !full_factor_sch, !sch_0. rewrite INR_2n3, INR_2np1 by lia.
  assert (Q : sqrt (INR (2 * n - 1)) * sqrt (INR (2 * n - 1)) = 2 * INR n - 1) by (rewrite sqrt_INR_sqr; apply INR_2n1; lia).
  replace (sqrt (2 * INR (n - 1) + 1)) with (sqrt (INR (2 * n - 1))) by (f_equal; apply INR_2n1'; lia).
  set (r := sqrt (INR (2 * n - 1))) in *.
  pose proof (deg_pos (n - 2)) as P3. assert (P : 0 < INR n) by (apply lt_0_INR; lia).
  pose proof (L_rec n 0 x ltac:(lia)) as E. change (INR 0) with 0 in E. rewrite Rminus_0_r, Rplus_0_r, <- Q in E.
  apply Rmult_eq_reg_l with (INR n); [|lra].
  replace (INR n * (sqrt (2 * INR n + 1) * 1 * L n 0 x * k)) with (sqrt (2 * INR n + 1) * k * (INR n * L n 0 x)) by ring. rewrite E. field. lra.
Qed.

Lemma ff_sub n k : (2 <= n)%nat ->
  sqrt (INR (2 * n + 1)) * x * (ff (n - 1) (n - 1) * L (n - 1) (n - 1) x * k) = ff n (n - 1) * L n (n - 1) x * k.
Proof.
  intros H. unfold ff. rewrite !full_factor_sch, INR_2np1.
  replace (sqrt (2 * INR (n - 1) + 1)) with (sqrt (INR (2 * n - 1))) by (f_equal; apply INR_2n1'; lia).
  pose proof (sch_sub n (sqrt (2 * INR n + 1) * k) H) as E.
  transitivity (sch n (n - 1) * L n (n - 1) x * (sqrt (2 * INR n + 1) * k)); [rewrite <- E; ring|ring].
Qed.

Lemma ff_dia n k : (2 <= n)%nat ->
  sqrt (INR (2 * n + 1)) / sqrt (INR (2 * n)) * (ff (n - 1) (n - 1) * L (n - 1) (n - 1) x * k) = ff n n * L n n x * k.
Proof.
  intros H. unfold ff. rewrite !full_factor_sch, INR_2np1.
  replace (sqrt (2 * INR (n - 1) + 1)) with (sqrt (INR (2 * n - 1))) by (f_equal; apply INR_2n1'; lia).
  pose proof (sch_dia n (sqrt (2 * INR n + 1) * k) H) as E.
  transitivity (sch n n * L n n x * (sqrt (2 * INR n + 1) * k)); [rewrite <- E; unfold Rdiv; ring|ring].
Qed.

Definition full n m := sin_of x ^ m * (ff n m * L n m x).

Lemma full_table N p : (1 <= N)%nat -> square N p ->
  exists p', associated_legendre_full x N p = Ok p' /\ filled N p' full.
Proof.
  intros HN Hs. unfold associated_legendre_full. cbv zeta.
  set (f := fun n m => ff n m * L n m x * small).
  assert (I3 : sqrt (2 * INR 1 + 1) = sqrt (INR 3)) by (f_equal; simpl; ring).
  assert (I1 : sqrt (2 * INR 0 + 1) = 1) by (replace (2 * INR 0 + 1) with 1 by (simpl; ring); apply sqrt_1).
  assert (A0 : agree N p (fun _ _ => False) f) by (split; [exact Hs|tauto]).
  tset_ A0 p0 A1; [unfold f, ff; rewrite L_0_0, full_factor_sch, sch_0, I1; ring|].
  rewrite sqrt_at_ok by lia. cbn [bind].
  tset_ A1 p1 A2; [unfold f, ff; rewrite L_1_0, full_factor_sch, sch_0, I3; ring|].
  tget_ A2.
  tset_ A2 p2 A3; [unfold f, ff; rewrite L_0_0, L_1_1, !full_factor_sch, sch_0, sch_1_1, I1, I3; ring|].
  assert (Z : exists p', for_ (range 2 (N + 1)) (fun n p =>
    do s1 <- sqrt_at N (2 * n - 1)%nat; do s2 <- sqrt_at N (2 * n + 1)%nat; do s3 <- sqrt_at N (2 * n - 3)%nat;
    let a_n0 := s1 * s2 / INR n in
    let b_n0 := - (INR n - 1) * s2 / (INR n * s3) in
    do p1 <- tget p (n - 1) 0; do p2 <- tget p (n - 2) 0;
    tset p n 0 (a_n0 * x * p1 + b_n0 * p2)) p2 = Ok p' /\
    agree N p' (fun a b => (b = 0 /\ a < N + 1)%nat \/ (a = 1 /\ b = 1)%nat) f).
  { apply (for_range_inv 2 (N + 1) _ (fun n p => agree N p (fun a b => (b = 0 /\ a < n)%nat \/ (a = 1 /\ b = 1)%nat) f)); [lia| |].
    - apply (agree_weaken _ _ _ _ _ A3). intros a b H. destruct (Nat.eq_dec a 0), (Nat.eq_dec a 1); lia.
    - intros n q Hn Hq. rewrite !sqrt_at_ok by lia. cbn [bind]. cbv zeta. tget_ Hq. tget_ Hq.
      destruct (agree_set _ _ _ _ n 0 _ Hq ltac:(lia) ltac:(lia) (ff_rec0 n small ltac:(lia))) as (t' & E & Ht').
      exists t'; split; [exact E|]. apply (agree_weaken _ _ _ _ _ Ht'). intros; lia. }
  destruct Z as (p3 & E3 & A4). cbv zeta in E3. rewrite E3; clear E3; cbn [bind].
  assert (Z : exists p', for_ (range 2 (N + 1)) (fun n p =>
    do p <- for_ (range 1 (n - 1)) (fun m p =>
      do r1 <- sqrt_at N (2 * n + 1)%nat; do r2 <- sqrt_at N (2 * n - 1)%nat; do r3 <- sqrt_at N (2 * n - 3)%nat;
      do s1 <- sqrt_at N (n + m)%nat; do s2 <- sqrt_at N (n - m)%nat;
      do s3 <- sqrt_at N (n + m - 1)%nat; do s4 <- sqrt_at N (n - m - 1)%nat;
      let a_nm := r1 * r2 / (s1 * s2) in
      let b_nm := - (s3 * s4 * r1) / (s1 * s2 * r3) in
      do p1 <- tget p (n - 1) m; do p2 <- tget p (n - 2) m;
      tset p n m (a_nm * x * p1 + b_nm * p2)) p;
    do c_nm <- sqrt_at N (2 * n + 1)%nat;
    do q <- tget p (n - 1) (n - 1); do p <- tset p n (n - 1) (c_nm * x * q);
    do s5 <- sqrt_at N (2 * n)%nat;
    let d_nm := c_nm / s5 in
    do q <- tget p (n - 1) (n - 1); tset p n n (d_nm * q)) p3 = Ok p' /\
    agree N p' (fun a b => (b = 0 /\ a < N + 1)%nat \/ (b <= a /\ a < N + 1)%nat) f).
  { apply (for_range_inv 2 (N + 1) _ (fun n p => agree N p (fun a b => (b = 0 /\ a < N + 1)%nat \/ (b <= a /\ a < n)%nat) f)); [lia| |].
    - apply (agree_weaken _ _ _ _ _ A4). intros a b H. lia.
    - intros n q Hn Hq.
      assert (Y : exists q', for_ (range 1 (n - 1)) (fun m p =>
        do r1 <- sqrt_at N (2 * n + 1)%nat; do r2 <- sqrt_at N (2 * n - 1)%nat; do r3 <- sqrt_at N (2 * n - 3)%nat;
        do s1 <- sqrt_at N (n + m)%nat; do s2 <- sqrt_at N (n - m)%nat;
        do s3 <- sqrt_at N (n + m - 1)%nat; do s4 <- sqrt_at N (n - m - 1)%nat;
        let a_nm := r1 * r2 / (s1 * s2) in
        let b_nm := - (s3 * s4 * r1) / (s1 * s2 * r3) in
        do p1 <- tget p (n - 1) m; do p2 <- tget p (n - 2) m;
        tset p n m (a_nm * x * p1 + b_nm * p2)) q = Ok q' /\
        agree N q' (fun a b => (b = 0 /\ a < N + 1)%nat \/ (b <= a /\ a < n)%nat \/ (a = n /\ b < n - 1)%nat) f).
      { apply (for_range_inv 1 (n - 1) _ (fun m p => agree N p (fun a b => (b = 0 /\ a < N + 1)%nat \/ (b <= a /\ a < n)%nat \/ (a = n /\ b < m)%nat) f)); [lia| |].
        - apply (agree_weaken _ _ _ _ _ Hq). intros; lia.
        - intros m t Hm Ht. rewrite !sqrt_at_ok by lia. cbn [bind]. cbv zeta. tget_ Ht. tget_ Ht.
          destruct (agree_set _ _ _ _ n m _ Ht ltac:(lia) ltac:(lia) (ff_rec n m small ltac:(lia))) as (t' & E & Ht').
          exists t'; split; [exact E|]. apply (agree_weaken _ _ _ _ _ Ht'). intros; lia. }
      destruct Y as (q' & E & Hq'). rewrite E; clear E; cbn [bind]. rewrite !sqrt_at_ok by lia. cbn [bind]. tget_ Hq'.
      tset_ Hq' q1 H1; [apply (ff_sub n small ltac:(lia))|].
      rewrite ?sqrt_at_ok by lia. cbn [bind]. cbv zeta. tget_ H1.
      destruct (agree_set _ _ _ _ n n _ H1 ltac:(lia) ltac:(lia) (ff_dia n small ltac:(lia))) as (t' & E & Ht').
      exists t'; split; [exact E|]. apply (agree_weaken _ _ _ _ _ Ht'). intros; lia. }
  destruct Z as (p4 & E4 & A5). cbv zeta in E4. rewrite E4; clear E4; cbn [bind].
  apply (rescale_table (sin_of x) N p4 (fun n m => ff n m * L n m x)). apply agree_filled.
  apply (agree_weaken _ _ _ _ _ A5). intros; lia.
Qed.
End Schmidt.
