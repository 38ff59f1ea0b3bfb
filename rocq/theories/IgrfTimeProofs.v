(** Proofs about [load_igrf] and [interpolate_coefficients]. *)
From Coq Require Import Psatz Ascii.
From Verif Require Import Base BaseFacts LegendreModel LegendreSpec LegendreProofs IgrfModel IgrfSpec IgrfProofs.
Local Open Scope R_scope.

(** ** Calendar *)
Lemma div_step y d : (0 < d)%Z -> (y / d - (y - 1) / d = if Z.eqb (y mod d) 0 then 1 else 0)%Z.
Proof.
  intros Hd. pose proof (Z.div_mod y d ltac:(lia)) as E. pose proof (Z.mod_pos_bound y d Hd) as B.
  destruct (Z.eqb_spec (y mod d) 0) as [H0|H0].
  - assert ((y - 1) / d = y / d - 1)%Z; [|lia]. symmetry. apply Z.div_unique with (r := (d - 1)%Z); lia.
  - assert ((y - 1) / d = y / d)%Z; [|lia]. symmetry. apply Z.div_unique with (r := (y mod d - 1)%Z); lia.
Qed.

Lemma days_step y : (days_before_year (y + 1) - days_before_year y =
  365 + (if Z.eqb (y mod 4) 0 then 1 else 0) - (if Z.eqb (y mod 100) 0 then 1 else 0) + (if Z.eqb (y mod 400) 0 then 1 else 0))%Z.
Proof.
  unfold days_before_year. replace (y + 1 - 1)%Z with y by lia.
  pose proof (div_step y 4 ltac:(lia)). pose proof (div_step y 100 ltac:(lia)). pose proof (div_step y 400 ltac:(lia)). lia.
Qed.

Lemma mod_weaken y a b : (0 < a)%Z -> (0 < b)%Z -> (y mod (a * b) = 0)%Z -> (y mod a = 0)%Z.
Proof. intros Ha Hb E. apply Z.mod_divide in E; [|nia]. apply Z.mod_divide; [lia|]. destruct E as [q ->]. exists (q * b)%Z. ring. Qed.

Lemma days_ge y : (365 <= days_before_year (y + 1) - days_before_year y)%Z.
Proof.
  rewrite days_step. pose proof (mod_weaken y 4 25 ltac:(lia) ltac:(lia)) as M1. change (4 * 25)%Z with 100%Z in M1.
  pose proof (mod_weaken y 100 4 ltac:(lia) ltac:(lia)) as M2. change (100 * 4)%Z with 400%Z in M2.
  destruct (Z.eqb_spec (y mod 4) 0), (Z.eqb_spec (y mod 100) 0), (Z.eqb_spec (y mod 400) 0); lia.
Qed.

Lemma days_mono y n : (days_before_year y + 365 * Z.of_nat n <= days_before_year (y + Z.of_nat n))%Z.
Proof.
  induction n as [|n IH]; [change (Z.of_nat 0) with 0%Z; replace (y + 0)%Z with y by lia; lia|].
  pose proof (days_ge (y + Z.of_nat n)) as D. replace (y + Z.of_nat n + 1)%Z with (y + Z.of_nat (S n))%Z in D by lia. lia.
Qed.

Lemma days_le y z : (y <= z)%Z -> (days_before_year y <= days_before_year z)%Z.
Proof.
  intros Hyz. pose proof (days_mono y (Z.to_nat (z - y))) as D. rewrite Z2Nat.id in D by lia.
  replace (y + (z - y))%Z with z in D by lia. lia.
Qed.

(** Start of the epoch [i]. *)
Definition Ti (first : Z) (i : nat) : R := instant (Date (first + 5 * Z.of_nat i) 0).

Lemma Ti_step first i : Ti first i + 86400 * 1825 <= Ti first (i + 1).
Proof.
  unfold Ti, instant. cbn [d_year d_sec].
  pose proof (days_mono (first + 5 * Z.of_nat i) 5) as D.
  replace (first + 5 * Z.of_nat i + Z.of_nat 5)%Z with (first + 5 * Z.of_nat (i + 1))%Z in D by lia.
  apply IZR_le in D. rewrite plus_IZR in D. change (365 * Z.of_nat 5)%Z with 1825%Z in D. lra.
Qed.

Lemma instant_in first i d : valid_date d -> (first + 5 * Z.of_nat i <= d_year d < first + 5 * Z.of_nat (i + 1))%Z ->
  Ti first i <= instant d < Ti first (i + 1).
Proof.
  intros [H1 H2] Hy. unfold Ti, instant. cbn [d_year d_sec].
  assert (D1 : (days_before_year (first + 5 * Z.of_nat i) <= days_before_year (d_year d))%Z) by (apply days_le; lia).
  assert (D2 : (days_before_year (d_year d + 1) <= days_before_year (first + 5 * Z.of_nat (i + 1)))%Z) by (apply days_le; lia).
  apply IZR_le in D1. apply IZR_le in D2. lra.
Qed.

(** ** Interpolation *)
Definition year_secs : R := 365.25 * 24 * 60 * 60.

Definition slope (k : nat) (c : cube) (sv : table) (first : Z) (i n m : nat) : R :=
  if Nat.leb (k - 1) i then ent sv n m / year_secs
  else (cell c (i + 1) n m - cell c i n m) / (Ti first (i + 1) - Ti first i).

Definition value (k : nat) (c : cube) (sv : table) (first : Z) (i : nat) (T : R) (n m : nat) : R :=
  cell c i n m + (T - Ti first i) * slope k c sv first i n m.

Lemma sv_set_ok N p i j v : square N p -> (i <= N)%nat -> (j <= N)%nat ->
  exists p', sv_set p i j v = Ok p' /\ square N p' /\ ent p' i j = v /\
    (forall a b, a <> i \/ b <> j -> ent p' a b = ent p a b).
Proof.
  intros Hs Hi Hj. destruct (tset_spec N p i j v Hs Hi Hj) as (p' & E & Rest). exists p'. split; [|exact Rest].
  unfold tset in E. unfold sv_set. rewrite (in_shape_square N) in * by auto. exact E.
Qed.

Lemma cget_ok c e n m : (e < depth c)%nat -> (n < width c)%nat -> (m < width c)%nat -> cget c e n m = Ok (cell c e n m).
Proof.
  intros H1 H2 H3. unfold cget. apply Nat.ltb_lt in H1, H2, H3. now rewrite H1, H2, H3.
Qed.

Lemma svget_ok t n m : (n < rows t)%nat -> (m < cols t)%nat -> svget t n m = Ok (ent t n m).
Proof. intros. unfold svget. now rewrite in_shape_true. Qed.

Lemma index_div first y i : (first + 5 * Z.of_nat i <= y < first + 5 * Z.of_nat (i + 1))%Z -> ((y - first) / 5 = Z.of_nat i)%Z.
Proof. intros Hy. symmetry. apply Z.div_unique with (r := (y - first - 5 * Z.of_nat i)%Z); lia. Qed.

Lemma last_map_seq (f : nat -> Z) k d : (1 <= k)%nat -> List.last (map f (seq 0 k)) d = f (k - 1)%nat.
Proof.
  intros Hk. destruct k as [|k]; [lia|]. rewrite seq_S, map_app. simpl map. rewrite last_last. f_equal. lia.
Qed.

Lemma for_range_inv2 {S} (I : nat -> S -> Prop) a b body s : (a <= b)%nat -> I a s ->
  (forall i s, (a <= i < b)%nat -> I i s -> exists s', body i s = Ok s' /\ I (i + 1)%nat s') ->
  exists s', for_ (range a b) body s = Ok s' /\ I b s'.
Proof. intros. now apply (for_range_inv a b body I). Qed.

Lemma interpolate_ok c first k w N d i : regular c first k -> shaped c k w -> (N < w)%nat -> (i < k)%nat ->
  (first + 5 * Z.of_nat i <= d_year d < first + 5 * Z.of_nat (i + 1))%Z ->
  exists gd hd, interpolate_coefficients d N c = Ok (gd, hd) /\ square N gd /\ square N hd /\
    forall n m, (n <= N)%nat -> (m <= N)%nat ->
      ent gd n m = (if (Nat.leb 1 n && Nat.leb m n)%bool then value k (c_g c) (c_gsv c) first i (instant d) n m else 0) /\
      ent hd n m = (if (Nat.leb 1 n && Nat.leb m n)%bool then value k (c_h c) (c_hsv c) first i (instant d) n m else 0).
Proof.
  intros (Hy & Hk & Hf & Hl) (S1 & S2 & S3 & S4 & S5 & S6 & S7 & S8) HN Hi Hd.
  assert (Hlast : List.last (c_years c) 0%Z = (first + 5 * Z.of_nat (k - 1))%Z) by (rewrite Hy; apply last_map_seq; exact Hk).
  assert (Hlen : length (c_years c) = k) by (rewrite Hy, map_length, seq_length; reflexivity).
  assert (Hnth : nth_error (c_years c) i = Some (first + 5 * Z.of_nat i)%Z).
  { rewrite Hy. rewrite nth_error_map. rewrite (nth_error_nth' (seq 0 k) 0%nat) by (rewrite seq_length; lia). rewrite seq_nth by lia. reflexivity. }
  unfold interpolate_coefficients. destruct (c_years c) as [|y0 ys] eqn:Ey; [simpl in Hlen; lia|].
  assert (y0 = first) as ->. { destruct k as [|k']; [lia|]. simpl in Hy. injection Hy as Hy0 _. lia. }
  rewrite Hlast. destruct (Z.ltb_spec (d_year d) first); [lia|]. destruct (Z.leb_spec (first + 5 * Z.of_nat (k - 1) + 5) (d_year d)); [lia|].
  cbn [orb]. rewrite (index_div first (d_year d) i Hd), Nat2Z.id, Hnth. cbn [bind].
  unfold january_first at 1. destruct (Z.leb_spec 1 (first + 5 * Z.of_nat i)); [|lia]. destruct (Z.leb_spec (first + 5 * Z.of_nat i) 9999); [|lia]. cbn [andb bind].
  unfold january_first at 1. destruct (Z.leb_spec 1 (first + 5 * Z.of_nat i + 5)); [|lia]. destruct (Z.leb_spec (first + 5 * Z.of_nat i + 5) 9999); [|lia]. cbn [andb bind].
  assert (Esec : total_seconds d (Date (first + 5 * Z.of_nat i) 0) = instant d - Ti first i).
  { unfold total_seconds, Ti, instant. cbn [d_year d_sec]. ring. }
  assert (Eep : total_seconds (Date (first + 5 * Z.of_nat i + 5) 0) (Date (first + 5 * Z.of_nat i) 0) = Ti first (i + 1) - Ti first i).
  { unfold total_seconds, Ti, instant. cbn [d_year d_sec]. replace (first + 5 * Z.of_nat (i + 1))%Z with (first + 5 * Z.of_nat i + 5)%Z by lia. ring. }
  rewrite Esec, Eep, Hlen. cbv zeta. fold year_secs.
  set (done := fun (n0 m0 n m : nat) => (Nat.leb 1 n && Nat.leb m n && (Nat.ltb n n0 || (Nat.eqb n n0 && Nat.ltb m m0)))%bool).
  set (GV := value k (c_g c) (c_gsv c) first i (instant d)). set (HV := value k (c_h c) (c_hsv c) first i (instant d)).
  set (Inv := fun n0 m0 (st : table * table) => square N (fst st) /\ square N (snd st) /\
    forall n m, (n <= N)%nat -> (m <= N)%nat ->
      ent (fst st) n m = (if done n0 m0 n m then GV n m else 0) /\ ent (snd st) n m = (if done n0 m0 n m then HV n m else 0)).
  match goal with |- exists gd hd, for_ (range 1 (N + 1)) ?body ?s0 = _ /\ _ =>
    destruct (for_range_inv 1 (N + 1) body (fun n st => Inv n 0%nat st) s0) as ([gd hd] & E & HI) end.
  - lia.
  - split; [split; reflexivity|]. split; [split; reflexivity|]. intros n m Hn Hm. cbn [fst snd zeros ent]. unfold done.
    destruct (Nat.leb_spec 1 n), (Nat.leb_spec m n), (Nat.ltb_spec n 1), (Nat.eqb_spec n 1), (Nat.ltb_spec m 0); simpl; try lia; split; reflexivity.
  - intros n0 st Hn0 HI.
    match goal with |- exists s', for_ (range 0 (n0 + 1)) ?body st = _ /\ _ =>
      destruct (for_range_inv 0 (n0 + 1) body (fun m st => Inv n0 m st) st ltac:(lia) HI) as (st' & E & HI') end.
    + intros m0 [g0 h0] Hm0 (Q1 & Q2 & Q3). cbn [fst snd] in *.
      assert (EV : forall A (f : R * R -> res A),
        (do p <- (if Nat.leb (k - 1) i then
               do a <- svget (c_gsv c) n0 m0; do b <- svget (c_hsv c) n0 m0;
               Ok (a / year_secs, b / year_secs)
             else
               do g1 <- cget (c_g c) (i + 1) n0 m0; do g0 <- cget (c_g c) i n0 m0;
               do h1 <- cget (c_h c) (i + 1) n0 m0; do h0 <- cget (c_h c) i n0 m0;
               Ok ((g1 - g0) / (Ti first (i + 1) - Ti first i), (h1 - h0) / (Ti first (i + 1) - Ti first i))); f p)
        = f (slope k (c_g c) (c_gsv c) first i n0 m0, slope k (c_h c) (c_hsv c) first i n0 m0)).
      { intros A f. unfold slope. destruct (Nat.leb_spec (k - 1) i).
        - rewrite !svget_ok by lia. reflexivity.
        - rewrite !cget_ok by lia. reflexivity. }
      rewrite EV; clear EV. rewrite !cget_ok by lia. cbn [bind].
      destruct (sv_set_ok N g0 n0 m0 (GV n0 m0) Q1 ltac:(lia) ltac:(lia)) as (g' & E1 & G1 & G2 & G3).
      unfold GV, value in E1. rewrite E1; clear E1. cbn [bind].
      destruct (sv_set_ok N h0 n0 m0 (HV n0 m0) Q2 ltac:(lia) ltac:(lia)) as (h' & E1 & H1' & H2' & H3').
      unfold HV, value in E1. rewrite E1; clear E1. cbn [bind].
      eexists; split; [reflexivity|]. split; [exact G1|]. split; [exact H1'|]. cbn [fst snd]. intros n m Hn Hm.
      destruct (Nat.eq_dec n n0) as [->|Hne]; [destruct (Nat.eq_dec m m0) as [->|Hne]|].
      * rewrite G2, H2'. unfold done.
        destruct (Nat.leb_spec 1 n0), (Nat.leb_spec m0 n0), (Nat.ltb_spec n0 n0), (Nat.eqb_spec n0 n0), (Nat.ltb_spec m0 (m0 + 1)); simpl; try lia; split; reflexivity.
      * rewrite G3, H3' by lia. destruct (Q3 n0 m ltac:(lia) Hm) as [-> ->]. unfold done.
        destruct (Nat.leb_spec 1 n0), (Nat.leb_spec m n0), (Nat.ltb_spec n0 n0), (Nat.eqb_spec n0 n0), (Nat.ltb_spec m (m0 + 1)), (Nat.ltb_spec m m0); simpl; try lia; split; reflexivity.
      * rewrite G3, H3' by lia. destruct (Q3 n m Hn Hm) as [-> ->]. unfold done.
        destruct (Nat.eqb_spec n n0); [lia|]. split; reflexivity.
    + exists st'. split; [exact E|]. destruct HI' as (Q1 & Q2 & Q3). split; [exact Q1|]. split; [exact Q2|]. intros n m Hn Hm.
      destruct (Q3 n m Hn Hm) as [-> ->]. unfold done.
      destruct (Nat.leb_spec 1 n), (Nat.leb_spec m n), (Nat.ltb_spec n n0), (Nat.eqb_spec n n0), (Nat.ltb_spec n (n0 + 1)), (Nat.eqb_spec n (n0 + 1)), (Nat.ltb_spec m 0), (Nat.ltb_spec m (n0 + 1)); simpl; try lia; split; reflexivity.
  - exists gd, hd. destruct HI as (Q1 & Q2 & Q3). split; [exact E|]. split; [exact Q1|]. split; [exact Q2|]. intros n m Hn Hm.
    destruct (Q3 n m Hn Hm) as [E1 E2]. cbn [fst snd] in *. rewrite E1, E2. unfold done.
    destruct (Nat.leb_spec 1 n), (Nat.leb_spec m n), (Nat.ltb_spec n (N + 1)); simpl; try lia; split; reflexivity.
Qed.

Lemma interpolate_rejects c first k d N : regular c first k ->
  (d_year d < first \/ first + 5 * Z.of_nat k <= d_year d)%Z -> interpolate_coefficients d N c = Raise ValueError.
Proof.
  intros (Hy & Hk & Hf & Hl) Hd.
  assert (Hlast : List.last (c_years c) 0%Z = (first + 5 * Z.of_nat (k - 1))%Z) by (rewrite Hy; apply last_map_seq; exact Hk).
  unfold interpolate_coefficients. destruct (c_years c) as [|y0 ys] eqn:Ey.
  { destruct k; [lia|discriminate]. }
  assert (y0 = first) as ->. { destruct k as [|k']; [lia|]. simpl in Hy. injection Hy as Hy0 _. lia. }
  rewrite Hlast. destruct (Z.ltb_spec (d_year d) first); [reflexivity|].
  destruct (Z.leb_spec (first + 5 * Z.of_nat (k - 1) + 5) (d_year d)); [reflexivity|lia].
Qed.

Lemma epoch_of first k d : (first <= d_year d < first + 5 * Z.of_nat k)%Z ->
  exists i, (i < k)%nat /\ (first + 5 * Z.of_nat i <= d_year d < first + 5 * Z.of_nat (i + 1))%Z.
Proof.
  intros Hd. exists (Z.to_nat ((d_year d - first) / 5)).
  pose proof (Z.div_mod (d_year d - first) 5 ltac:(lia)). pose proof (Z.mod_pos_bound (d_year d - first) 5 ltac:(lia)).
  assert (0 <= (d_year d - first) / 5)%Z by (apply Z.div_pos; lia).
  split; [|rewrite Nat2Z.inj_add, Z2Nat.id by lia; lia]. apply Nat2Z.inj_lt. rewrite Z2Nat.id by lia. lia.
Qed.

(** ** Continuity in time *)
Section Lipschitz.
Variables (k : nat) (c : cube) (sv : table) (first : Z) (n m : nat).
Let v i T := value k c sv first i T n m.
Let sl i := slope k c sv first i n m.
Definition K := sum_over (range 0 k) (fun i => Rabs (sl i)).

Lemma slope_le i : (i < k)%nat -> Rabs (sl i) <= K.
Proof.
  intros Hi. unfold K. assert (I : In i (range 0 k)) by (apply range_in; lia).
  destruct (in_split _ _ I) as (l1 & l2 & ->). rewrite sum_over_app, sum_over_cons.
  assert (0 <= sum_over l1 (fun i => Rabs (sl i))) by (apply sum_over_nonneg; intros; apply Rabs_pos).
  assert (0 <= sum_over l2 (fun i => Rabs (sl i))) by (apply sum_over_nonneg; intros; apply Rabs_pos). lra.
Qed.

Lemma K_nonneg : 0 <= K.
Proof. apply sum_over_nonneg. intros; apply Rabs_pos. Qed.

Lemma v_start i : v i (Ti first i) = cell c i n m.
Proof. unfold v, value. ring. Qed.

Lemma v_end i : (i + 1 < k)%nat -> v i (Ti first (i + 1)) = cell c (i + 1) n m.
Proof.
  intros Hi. unfold v, value, slope. destruct (Nat.leb_spec (k - 1) i); [lia|].
  pose proof (Ti_step first i). field. lra.
Qed.

Lemma v_same i T1 T2 : (i < k)%nat -> Rabs (v i T2 - v i T1) <= K * Rabs (T2 - T1).
Proof.
  intros Hi. unfold v, value. replace (cell c i n m + (T2 - Ti first i) * slope k c sv first i n m - (cell c i n m + (T1 - Ti first i) * slope k c sv first i n m))
    with (sl i * (T2 - T1)) by (unfold sl; ring).
  rewrite Rabs_mult. apply Rmult_le_compat_r; [apply Rabs_pos|]. now apply slope_le.
Qed.

Lemma Ti_mono i j : (i <= j)%nat -> Ti first i <= Ti first j.
Proof.
  induction 1 as [|j Hj IH]; [lra|]. pose proof (Ti_step first j). replace (j + 1)%nat with (S j) in * by lia. lra.
Qed.

Lemma v_from_start i j T : (i <= j)%nat -> (j < k)%nat -> Ti first j <= T ->
  Rabs (v j T - cell c i n m) <= K * (T - Ti first i).
Proof.
  intros Hij. revert T. induction Hij as [|j Hij IH]; intros T Hj HT.
  - rewrite <- v_start. pose proof (v_same i (Ti first i) T Hj) as B. rewrite (Rabs_right (T - Ti first i)) in B by lra. exact B.
  - pose proof (IH (Ti first (S j)) ltac:(lia) ltac:(apply Ti_mono; lia)) as B1.
    replace (S j) with (j + 1)%nat in * by lia. rewrite v_end in B1 by lia.
    pose proof (v_same (j + 1) (Ti first (j + 1)) T Hj) as B2. rewrite (Rabs_right (T - _)) in B2 by lra. rewrite v_start in B2.
    replace (v (j + 1) T - cell c i n m) with ((v (j + 1) T - cell c (j + 1) n m) + (cell c (j + 1) n m - cell c i n m)) by ring.
    eapply Rle_trans; [apply Rabs_triang|]. replace (K * (T - Ti first i)) with (K * (T - Ti first (j + 1)) + K * (Ti first (j + 1) - Ti first i)) by ring. lra.
Qed.

Lemma v_lipschitz_le i j T1 T2 : (i <= j)%nat -> (j < k)%nat ->
  Ti first i <= T1 < Ti first (i + 1) -> Ti first j <= T2 < Ti first (j + 1) ->
  Rabs (v j T2 - v i T1) <= K * Rabs (T2 - T1).
Proof.
  intros Hij Hj H1 H2. destruct (Nat.eq_dec i j) as [->|Hne]; [now apply v_same|].
  assert (M : Ti first (i + 1) <= Ti first j) by (apply Ti_mono; lia).
  pose proof (v_from_start (i + 1) j T2 ltac:(lia) Hj ltac:(lra)) as B1.
  pose proof (v_same i T1 (Ti first (i + 1)) ltac:(lia)) as B2. rewrite v_end in B2 by lia.
  rewrite (Rabs_right (Ti first (i + 1) - T1)) in B2 by lra. rewrite (Rabs_right (T2 - T1)) by lra.
  replace (v j T2 - v i T1) with ((v j T2 - cell c (i + 1) n m) + (cell c (i + 1) n m - v i T1)) by ring.
  eapply Rle_trans; [apply Rabs_triang|]. replace (K * (T2 - T1)) with (K * (T2 - Ti first (i + 1)) + K * (Ti first (i + 1) - T1)) by ring. lra.
Qed.

Lemma v_lipschitz i j T1 T2 : (i < k)%nat -> (j < k)%nat ->
  Ti first i <= T1 < Ti first (i + 1) -> Ti first j <= T2 < Ti first (j + 1) ->
  Rabs (v j T2 - v i T1) <= K * Rabs (T2 - T1).
Proof.
  intros Hi Hj H1 H2. destruct (le_lt_dec i j); [now apply v_lipschitz_le|].
  rewrite Rabs_minus_sym, (Rabs_minus_sym T2 T1). apply v_lipschitz_le; auto; lia.
Qed.
End Lipschitz.

(** ** Reading the coefficient file *)
Section Load.
Variables (to_int : string -> res Z) (to_float : string -> res R).

Lemma each_forall2 {A B} (f : A -> res B) xs ys : Forall2 (fun x y => f x = Ok y) xs ys -> each f xs = Ok ys.
Proof. induction 1 as [|x y xs ys Hxy _ IH]; [reflexivity|]. simpl. rewrite Hxy. cbn [bind]. now rewrite IH. Qed.

Lemma middle_words {A} (a b c : A) mid z : middle (a :: b :: c :: mid ++ [z]) = mid.
Proof.
  unfold middle. cbn [skipn length]. rewrite app_length. simpl length.
  replace (S (S (S (length mid + 1))) - 4)%nat with (length mid) by lia. rewrite firstn_app, Nat.sub_diag, firstn_all. apply app_nil_r.
Qed.

Lemma last_words {A} (a b c : A) mid z d : List.last (a :: b :: c :: mid ++ [z]) d = z.
Proof. change (a :: b :: c :: mid ++ [z]) with ((a :: b :: c :: mid) ++ [z]). apply last_last. Qed.

Definition put_cube (c : cube) (e : coef_line) : cube :=
  Cube (depth c) (width c) (fun k n m => if (Nat.eqb n (l_degree e) && Nat.eqb m (l_order e))%bool then nth k (l_values e) 0 else cell c k n m).
Definition put_sv (t : table) (e : coef_line) : table :=
  Table (rows t) (cols t) (fun a b => if (Nat.eqb a (l_degree e) && Nat.eqb b (l_order e))%bool then l_sv e else ent t a b).
Definition put (st : coefficients) (e : coef_line) : coefficients :=
  if l_is_g e then Coeffs (c_years st) (put_cube (c_g st) e) (c_h st) (put_sv (c_gsv st) e) (c_hsv st)
  else Coeffs (c_years st) (c_g st) (put_cube (c_h st) e) (c_gsv st) (put_sv (c_hsv st) e).

Lemma load_line_ok st words e k : shaped st k 14 -> (2 <= k)%nat -> denotes to_int to_float words e ->
  length (l_values e) = k -> (l_degree e <= 13)%nat -> (l_order e <= 13)%nat ->
  load_line to_int to_float st words = Ok (put st e) /\ shaped (put st e) k 14.
Proof.
  intros Sh Hk (wn & wm & wv & ws & -> & E1 & E2 & E3 & E4) HL Hd Ho.
  destruct Sh as (S1 & S2 & S3 & S4 & S5 & S6 & S7 & S8).
  assert (Hset : forall c, depth c = k -> width c = 14%nat -> set_epochs c (l_degree e) (l_order e) (l_values e) = Ok (put_cube c e)).
  { intros c D W. unfold set_epochs. rewrite W. destruct (Nat.ltb_spec (l_degree e) 14); [|lia]. destruct (Nat.ltb_spec (l_order e) 14); [|lia]. cbn [andb].
    unfold put_cube. destruct (l_values e) as [|v1 [|v2 vs]] eqn:Ev; [simpl in HL; lia|simpl in HL; lia|].
    rewrite HL, D, Nat.eqb_refl. cbn [bind]. now rewrite W. }
  assert (Hsv : forall t, rows t = 14%nat -> cols t = 14%nat -> sv_set t (l_degree e) (l_order e) (l_sv e) = Ok (put_sv t e)).
  { intros t R1 C1. unfold sv_set. rewrite in_shape_true by lia. reflexivity. }
  unfold load_line, put. change (firstn 2 (skipn 1 ((if l_is_g e then "g" else "h")%string :: wn :: wm :: wv ++ [ws]))) with [wn; wm].
  cbn [each]. rewrite E1, E2. cbn [bind]. rewrite !Nat2Z.id, middle_words, last_words, (each_forall2 to_float wv _ E3), E4. cbn [bind].
  destruct (l_is_g e); cbn [String.eqb Ascii.eqb Bool.eqb].
  - rewrite Hset by assumption. cbn [bind]. rewrite Hsv by assumption. cbn [bind]. split; [reflexivity|].
    unfold shaped. cbn. repeat split; assumption.
  - rewrite Hset by assumption. cbn [bind]. rewrite Hsv by assumption. cbn [bind]. split; [reflexivity|].
    unfold shaped. cbn. repeat split; assumption.
Qed.

Lemma load_lines_ok k : forall lines es st, shaped st k 14 -> (2 <= k)%nat -> Forall2 (denotes to_int to_float) lines es ->
  Forall (fun e => length (l_values e) = k /\ (l_degree e <= 13)%nat /\ (l_order e <= 13)%nat) es ->
  for_ lines (fun line st => load_line to_int to_float st line) st = Ok (fold_left put es st) /\ shaped (fold_left put es st) k 14.
Proof.
  induction lines as [|w lines IH]; intros es st Sh Hk H2 Hf; inversion H2; subst.
  - split; [reflexivity|exact Sh].
  - inversion Hf as [|? ? (L1 & L2 & L3) Hf']; subst. destruct (load_line_ok st w y _ Sh Hk ltac:(eassumption) eq_refl L2 L3) as [E Sh'].
    cbn [for_ fold_left]. rewrite E. cbn [bind]. apply IH; assumption.
Qed.

Lemma before_dot_whole w s : whole_part w s -> before_dot w = s.
Proof.
  intros (N & t & -> & T). induction s as [|c s IH].
  - cbn [append]. destruct T as [-> | (t' & ->)]; reflexivity.
  - cbn [append before_dot]. destruct (Ascii.eqb_spec c "."%char) as [->|_]; [contradiction N; now left|]. f_equal. apply IH. intros H. apply N. now right.
Qed.

Lemma load_ok l0 l1 l2 ywords years lines es : denotes_years to_int ywords years -> (2 <= length years)%nat ->
  Forall2 (denotes to_int to_float) lines es ->
  Forall (fun e => length (l_values e) = length years /\ (l_degree e <= 13)%nat /\ (l_order e <= 13)%nat) es ->
  let st0 := Coeffs years (zero_cube (length years) 14) (zero_cube (length years) 14) (zeros 14 14) (zeros 14 14) in
  load_igrf to_int to_float (l0 :: l1 :: l2 :: ywords :: lines) = Ok (fold_left put es st0) /\ shaped (fold_left put es st0) (length years) 14.
Proof.
  intros (w1 & w2 & w3 & wy & wl & -> & Hy) Hk H2 Hf st0. unfold load_igrf.
  change (nth 3 (l0 :: l1 :: l2 :: (w1 :: w2 :: w3 :: wy ++ [wl]) :: lines) []) with (w1 :: w2 :: w3 :: wy ++ [wl]).
  assert (Hy' : Forall2 (fun w y => to_int (before_dot w) = Ok y) wy years).
  { clear -Hy. induction Hy as [|w y l l' (s & H1 & H2) F IH]; constructor; [now rewrite (before_dot_whole w s H1)|exact IH]. }
  rewrite middle_words, (each_forall2 (fun y => to_int (before_dot y)) wy years Hy'). cbn [bind skipn]. cbv zeta.
  apply load_lines_ok; [|exact Hk|exact H2|exact Hf]. unfold shaped, st0. cbn. repeat split.
Qed.

(** The last line about a coefficient decides; with distinct lines every line does. *)
Definition same_slot (a b : coef_line) : Prop := l_is_g a = l_is_g b /\ l_degree a = l_degree b /\ l_order a = l_order b.

Definition holds (st : coefficients) (e : coef_line) : Prop :=
  (forall k, cell (if l_is_g e then c_g st else c_h st) k (l_degree e) (l_order e) = nth k (l_values e) 0) /\
  ent (if l_is_g e then c_gsv st else c_hsv st) (l_degree e) (l_order e) = l_sv e.

Lemma put_holds st e : holds (put st e) e.
Proof. unfold holds, put. destruct (l_is_g e); cbn [c_g c_h c_gsv c_hsv put_cube put_sv cell ent]; rewrite !Nat.eqb_refl; split; reflexivity. Qed.

Lemma put_other st e f : ~ same_slot e f -> holds st f -> holds (put st e) f.
Proof.
  unfold same_slot, holds, put. intros Hn [A B]. destruct (l_is_g e), (l_is_g f); cbn [c_g c_h c_gsv c_hsv put_cube put_sv cell ent]; auto.
  - destruct (Nat.eqb_spec (l_degree f) (l_degree e)), (Nat.eqb_spec (l_order f) (l_order e)); cbn [andb]; auto. exfalso. apply Hn. auto.
  - destruct (Nat.eqb_spec (l_degree f) (l_degree e)), (Nat.eqb_spec (l_order f) (l_order e)); cbn [andb]; auto. exfalso. apply Hn. auto.
Qed.

Lemma fold_other es : forall st f, (forall e, In e es -> ~ same_slot e f) -> holds st f -> holds (fold_left put es st) f.
Proof.
  induction es as [|e es IH]; intros st f Hn Hh; [exact Hh|]. cbn [fold_left]. apply IH; [intros x Hx; apply Hn; now right|].
  apply put_other; [apply Hn; now left|exact Hh].
Qed.

Lemma fold_holds es : forall st, ForallOrdPairs (fun a b => ~ same_slot a b) es -> forall f, In f es -> holds (fold_left put es st) f.
Proof.
  induction es as [|e es IH]; intros st Hp f Hin; [contradiction|]. inversion Hp as [|? ? P1 P2]; subst.
  cbn [fold_left]. destruct Hin as [->|Hin]; [|now apply IH].
  apply fold_other; [|apply put_holds]. rewrite Forall_forall in P1. intros x Hx (S1 & S2 & S3). apply (P1 x Hx). repeat split; congruence.
Qed.

Lemma fold_untouched es : forall st (is_g : bool) n m,
  (forall e, In e es -> ~ (l_is_g e = is_g /\ l_degree e = n /\ l_order e = m)) ->
  (forall k, cell (if is_g then c_g (fold_left put es st) else c_h (fold_left put es st)) k n m = cell (if is_g then c_g st else c_h st) k n m) /\
  ent (if is_g then c_gsv (fold_left put es st) else c_hsv (fold_left put es st)) n m = ent (if is_g then c_gsv st else c_hsv st) n m.
Proof.
  induction es as [|e es IH]; intros st is_g n m Hn; [split; reflexivity|]. cbn [fold_left].
  destruct (IH (put st e) is_g n m) as [A B]; [intros x Hx; apply Hn; now right|].
  specialize (Hn e (or_introl eq_refl)). unfold put in *.
  split; [intros k; rewrite A|rewrite B]; destruct is_g, (l_is_g e); cbn [c_g c_h c_gsv c_hsv put_cube put_sv cell ent]; auto;
    (destruct (Nat.eqb_spec n (l_degree e)), (Nat.eqb_spec m (l_order e)); cbn [andb]; auto; exfalso; apply Hn; auto).
Qed.
End Load.
