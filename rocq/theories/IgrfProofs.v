(** Proofs about the spherical harmonic synthesis of igrf.py. *)
From Coquelicot Require Import Coquelicot.
From Coq Require Import Psatz.
From Verif Require Import Base BaseFacts LegendreModel LegendreSpec LegendreFacts LegendreProofs LegendreDerivProofs LegendreProps IgrfModel IgrfSpec.
Local Open Scope R_scope.

Lemma each_ok {A B} (f : A -> res B) g l : (forall x, In x l -> f x = Ok (g x)) -> each f l = Ok (map g l).
Proof.
  induction l as [|x l IH]; intros Hf; [reflexivity|]. simpl. rewrite Hf by (now left). cbn [bind].
  rewrite IH; [reflexivity|]. intros y Hy. apply Hf. now right.
Qed.

(** ** Multiples of the longitude *)
Lemma tset_in p i j v : in_shape p i j = true ->
  exists p', tset p i j v = Ok p' /\ rows p' = rows p /\ cols p' = cols p /\ ent p' i j = v /\
    (forall a b, a <> i \/ b <> j -> ent p' a b = ent p a b).
Proof.
  intros Hs. unfold tset. rewrite Hs. eexists; split; [reflexivity|]. cbn [rows cols ent]. repeat split.
  - now rewrite !Nat.eqb_refl.
  - intros a b Hab. destruct (Nat.eqb_spec a i), (Nat.eqb_spec b j); simpl; auto. lia.
Qed.

Lemma in_shape_true p i j : (i < rows p)%nat -> (j < cols p)%nat -> in_shape p i j = true.
Proof. intros. unfold in_shape. apply andb_true_intro; split; apply Nat.ltb_lt; assumption. Qed.

Lemma tget_in p i j : (i < rows p)%nat -> (j < cols p)%nat -> tget p i j = Ok (ent p i j).
Proof. intros. unfold tget. now rewrite in_shape_true. Qed.

Lemma cos_step l m : (2 <= m)%nat -> 2 * cos l * cos (INR (m - 1) * l) - cos (INR (m - 2) * l) = cos (INR m * l).
Proof.
  intros Hm. rewrite !minus_INR by lia. change (INR 1) with 1. change (INR 2) with 2.
  replace (INR m * l) with ((INR m - 1) * l + l) by ring. replace ((INR m - 2) * l) with ((INR m - 1) * l - l) by ring.
  rewrite cos_plus, cos_minus. ring.
Qed.

Lemma sin_step l m : (2 <= m)%nat -> 2 * cos l * sin (INR (m - 1) * l) - sin (INR (m - 2) * l) = sin (INR m * l).
Proof.
  intros Hm. rewrite !minus_INR by lia. change (INR 1) with 1. change (INR 2) with 2.
  replace (INR m * l) with ((INR m - 1) * l + l) by ring. replace ((INR m - 2) * l) with ((INR m - 1) * l - l) by ring.
  rewrite sin_plus, sin_minus. ring.
Qed.

Definition angle_row (c s : table) (j : nat) (l : R) (N : nat) : Prop :=
  forall m, (m <= N)%nat -> ent c j m = cos (INR m * l) /\ ent s j m = sin (INR m * l).

Lemma chebyshev_ok j l N c s : (1 <= N)%nat -> (j < rows c)%nat -> (j < rows s)%nat ->
  cols c = (N + 1)%nat -> cols s = (N + 1)%nat ->
  exists c' s', chebyshev j l N (c, s) = Ok (c', s') /\
    rows c' = rows c /\ rows s' = rows s /\ cols c' = (N + 1)%nat /\ cols s' = (N + 1)%nat /\
    angle_row c' s' j l N /\
    (forall i m, i <> j -> ent c' i m = ent c i m /\ ent s' i m = ent s i m).
Proof.
  intros HN Hjc Hjs Hc Hs. unfold chebyshev.
  destruct (tset_in c j 0 1 (in_shape_true c j 0 Hjc ltac:(lia))) as (c1 & E & R1 & C1 & V1 & O1). rewrite E; clear E; cbn [bind].
  destruct (tset_in s j 0 0 (in_shape_true s j 0 Hjs ltac:(lia))) as (s1 & E & R2 & C2 & V2 & O2). rewrite E; clear E; cbn [bind].
  destruct (tset_in c1 j 1 (cos l) (in_shape_true c1 j 1 ltac:(lia) ltac:(lia))) as (c2 & E & R3 & C3 & V3 & O3). rewrite E; clear E; cbn [bind].
  destruct (tset_in s1 j 1 (sin l) (in_shape_true s1 j 1 ltac:(lia) ltac:(lia))) as (s2 & E & R4 & C4 & V4 & O4). rewrite E; clear E; cbn [bind].
  match goal with |- context [for_ (range 2 (N + 1)) ?body (c2, s2)] =>
    destruct (for_range_inv 2 (N + 1) body (fun M cs =>
      rows (fst cs) = rows c /\ rows (snd cs) = rows s /\ cols (fst cs) = (N + 1)%nat /\ cols (snd cs) = (N + 1)%nat /\
      (forall m, (m < M)%nat -> ent (fst cs) j m = cos (INR m * l) /\ ent (snd cs) j m = sin (INR m * l)) /\
      (forall i m, i <> j -> ent (fst cs) i m = ent c i m /\ ent (snd cs) i m = ent s i m)) (c2, s2)) as ([c' s'] & E & HI) end.
  - lia.
  - cbn [fst snd]. repeat split; try congruence.
    + destruct m as [|[|m]]; [| |lia].
      * rewrite O3 by lia. rewrite V1. simpl. rewrite Rmult_0_l. now rewrite cos_0.
      * rewrite V3. simpl. now rewrite Rmult_1_l.
    + destruct m as [|[|m]]; [| |lia].
      * rewrite O4 by lia. rewrite V2. simpl. rewrite Rmult_0_l. now rewrite sin_0.
      * rewrite V4. simpl. now rewrite Rmult_1_l.
    + rewrite O3, O1 by lia. reflexivity.
    + rewrite O4, O2 by lia. reflexivity.
  - intros M [ci si] HM (A1 & A2 & A3 & A4 & A5 & A6). cbn [fst snd] in *.
    rewrite !tget_in by lia. cbn [bind].
    destruct (A5 1%nat ltac:(lia)) as [K1 _]. destruct (A5 (M - 1)%nat ltac:(lia)) as [K2 K2']. destruct (A5 (M - 2)%nat ltac:(lia)) as [K3 K3'].
    simpl (INR 1) in K1. rewrite Rmult_1_l in K1. rewrite K1, K2, K3, cos_step by lia.
    destruct (tset_in ci j M (cos (INR M * l)) (in_shape_true ci j M ltac:(lia) ltac:(lia))) as (cn & E & B1 & B2 & B3 & B4). rewrite E; clear E; cbn [bind].
    rewrite !tget_in by lia. cbn [bind]. rewrite B4 by lia. rewrite K1, K2', K3', sin_step by lia.
    destruct (tset_in si j M (sin (INR M * l)) (in_shape_true si j M ltac:(lia) ltac:(lia))) as (sn & E & D1 & D2 & D3 & D4). rewrite E; clear E; cbn [bind].
    eexists; split; [reflexivity|]. cbn [fst snd]. split; [congruence|]. split; [congruence|]. split; [congruence|]. split; [congruence|]. split.
    + intros m Hm. destruct (Nat.eq_dec m M) as [->|Hne]; [split; assumption|]. rewrite B4, D4 by lia. apply A5. lia.
    + intros i m Hi. rewrite B4, D4 by lia. now apply A6.
  - destruct HI as (A1 & A2 & A3 & A4 & A5 & A6). cbn [fst snd] in *. exists c', s'. split; [exact E|].
    repeat (split; [assumption|]). split; [|exact A6]. intros m Hm. apply A5. lia.
Qed.

(** ** Sums over degree and order *)
Section Sums.
Variables (rho l : R) (gf hf P D : nat -> nat -> R) (N lo : nat).
Definition et n m := rho ^ (n + 2) * (- INR m * gf n m * sin (INR m * l) + INR m * hf n m * cos (INR m * l)) * P n m.
Definition nt n m := rho ^ (n + 2) * (gf n m * cos (INR m * l) + hf n m * sin (INR m * l)) * D n m.
Definition rt n m := (INR n + 1) * rho ^ (n + 2) * (gf n m * cos (INR m * l) + hf n m * sin (INR m * l)) * P n m.
Definition row_sum (f : nat -> nat -> R) n := sum_over (range 0 (n + 1)) (f n).
Definition all_sum (f : nat -> nat -> R) k := sum_over (range lo k) (row_sum f).

Lemma sum_range_S a b f : (a <= b)%nat -> sum_over (range a (b + 1)) f = sum_over (range a b) f + f b.
Proof.
  intros Hab. unfold range. replace (b + 1 - a)%nat with (S (b - a)) by lia. rewrite seq_S, sum_over_app.
  replace (a + (b - a))%nat with b by lia. unfold sum_over; simpl. ring.
Qed.

Lemma sum_range_empty a b f : (b <= a)%nat -> sum_over (range a b) f = 0.
Proof. intros. unfold range. replace (b - a)%nat with 0%nat by lia. reflexivity. Qed.

Lemma accumulate_ok j g h p pd c s b : 
  (forall n m, (m <= n)%nat -> (n <= N)%nat -> tget g n m = Ok (gf n m)) ->
  (forall n m, (m <= n)%nat -> (n <= N)%nat -> tget h n m = Ok (hf n m)) ->
  (forall n m, (m <= n)%nat -> (n <= N)%nat -> tget p n m = Ok (P n m)) ->
  (forall n m, (m <= n)%nat -> (n <= N)%nat -> tget pd n m = Ok (D n m)) ->
  (forall m, (m <= N)%nat -> tget c j m = Ok (cos (INR m * l))) ->
  (forall m, (m <= N)%nat -> tget s j m = Ok (sin (INR m * l))) ->
  accumulate j rho g h lo N p pd c s b =
  Ok (fst (fst b) + all_sum et (N + 1), snd (fst b) + all_sum nt (N + 1), snd b + all_sum rt (N + 1)).
Proof.
  intros Hg Hh Hp Hd Hc Hs. unfold accumulate. destruct b as [[be bn] br]. cbn [fst snd].
  destruct (le_lt_dec lo (N + 1)) as [Hlo|Hlo].
  2:{ unfold all_sum. rewrite !sum_range_empty by lia. unfold range. replace (N + 1 - lo)%nat with 0%nat by lia. cbn. now rewrite !Rplus_0_r. }
  match goal with |- context [for_ (range lo (N + 1)) ?body ?s0] =>
    destruct (for_range_inv lo (N + 1) body (fun n st =>
      st = ((be + all_sum et n, bn + all_sum nt n, br + all_sum rt n), rho ^ (n + 1))) s0 Hlo) as (st & E & ->) end.
  - unfold all_sum. rewrite !sum_range_empty by lia. now rewrite !Rplus_0_r.
  - intros n st Hn ->.
    match goal with |- context [for_ (range 0 (n + 1)) ?body ?s0] =>
      destruct (for_range_inv 0 (n + 1) body (fun m b =>
        b = (be + all_sum et n + sum_over (range 0 m) (et n), bn + all_sum nt n + sum_over (range 0 m) (nt n),
             br + all_sum rt n + sum_over (range 0 m) (rt n))) s0 ltac:(lia)) as (b & E & ->) end.
    + rewrite !sum_range_empty by lia. now rewrite !Rplus_0_r.
    + intros m b Hm ->. rewrite Hg, Hh, Hs, Hc, Hp, Hd by lia. cbn [bind]. eexists; split; [reflexivity|].
      rewrite !sum_range_S by lia. unfold et, nt, rt. replace (rho ^ (n + 2)) with (rho ^ (n + 1) * rho) by (replace (n + 2)%nat with (S (n + 1)) by lia; simpl; ring).
      f_equal; [f_equal|]; ring.
    + rewrite E; cbn [bind]. eexists; split; [reflexivity|].
      unfold all_sum. rewrite !(sum_range_S lo n) by lia. unfold row_sum.
      f_equal; [f_equal; [f_equal|]; ring|]. replace (n + 1 + 1)%nat with (S (n + 1)) by lia. simpl. ring.
  - rewrite E. cbn [bind]. reflexivity.
Qed.
End Sums.

(** ** One point *)
Definition Pt (t : R) n m := schmidt_factor n m * G n m t.
Definition Dt (t : R) n m := schmidt_factor n m * H 1 n m t.

Lemma legendre_tables_ok junk t N g : (1 <= N)%nat -> 0 <= t <= PI -> square N g ->
  exists p pd, legendre_tables junk t N g = Ok (p, pd) /\ filled N p (Pt t) /\ filled N pd (Dt t).
Proof.
  intros HN Ht [Hr Hc]. unfold legendre_tables.
  assert (Sq : square N (Table (rows g) (cols g) junk)) by (split; assumption).
  destruct (schmidt_table (cos t) N _ HN Sq) as (p & E & F'). rewrite E; clear E; cbn [bind].
  assert (F2 : filled N p (fun n m => (fun _ => 1) n * sch n m * G n m t)).
  { apply (filled_ext _ _ (schmidt (cos t))); [|exact F']. intros. unfold schmidt, G. rewrite sin_of_cos by exact Ht. ring. }
  destruct (normalised_times _ (fun _ => 1) N p _ t 1 (or_introl eq_refl) HN Sq F2) as (q & E2 & Fq).
  simpl apply_times in E2. rewrite E2; cbn [bind]. exists p, q. split; [reflexivity|]. split.
  - apply (filled_ext _ _ _ _ (fun n m _ => f_equal (fun z => z * G n m t) (Rmult_1_l (sch n m)))). exact F2.
  - apply (filled_ext _ _ _ _ (fun n m _ => f_equal (fun z => z * H 1 n m t) (Rmult_1_l (sch n m)))). exact Fq.
Qed.

Definition east_sum rho t l g h lo N := all_sum lo (et rho l (ent g) (ent h) (Pt t)) (N + 1).
Definition north_sum rho t l g h lo N := all_sum lo (nt rho l (ent g) (ent h) (Dt t)) (N + 1).
Definition radial_sum rho t l g h lo N := all_sum lo (rt rho l (ent g) (ent h) (Pt t)) (N + 1).

Lemma field_at_ok junk l t rho g h lo N b : (1 <= N)%nat -> 0 <= t <= PI -> square N g -> square N h ->
  field_at junk l t rho g h lo N b =
  Ok (fix_east (sin t) (fst (fst b) + east_sum rho t l g h lo N, snd (fst b) + north_sum rho t l g h lo N,
                        snd b + radial_sum rho t l g h lo N)).
Proof.
  intros HN Ht Hg Hh. unfold field_at.
  destruct (legendre_tables_ok junk t N g HN Ht Hg) as (p & pd & E & [Sp Fp] & [Sd Fd]). rewrite E; clear E; cbn [bind].
  destruct (chebyshev_ok 0 l N (Table 1 (N + 1) junk) (Table 1 (N + 1) junk) HN) as (c & s & E & R1 & R2 & C1 & C2 & A & _); try (cbn; lia); try reflexivity.
  rewrite E; clear E; cbn [bind]. cbn [rows] in R1, R2.
  rewrite (accumulate_ok rho l (ent g) (ent h) (Pt t) (Dt t) N lo); [reflexivity| | | | | |].
  - intros n m Hm Hn. apply (tget_spec N); [exact Hg|lia|lia].
  - intros n m Hm Hn. apply (tget_spec N); [exact Hh|lia|lia].
  - intros n m Hm Hn. rewrite (tget_spec N) by (auto; lia). f_equal. auto.
  - intros n m Hm Hn. rewrite (tget_spec N) by (auto; lia). f_equal. auto.
  - intros m Hm. rewrite tget_in by lia. f_equal. now apply A.
  - intros m Hm. rewrite tget_in by lia. f_equal. now apply A.
Qed.

(** ** Grid *)
Lemma all_chebyshev junk lons N : (1 <= N)%nat ->
  exists c s, for_ (range 0 (length lons)) (fun j cs => chebyshev j (nth j lons 0) N cs)
      (Table (length lons) (N + 1) junk, Table (length lons) (N + 1) junk) = Ok (c, s) /\
    rows c = length lons /\ rows s = length lons /\ cols c = (N + 1)%nat /\ cols s = (N + 1)%nat /\
    forall j, (j < length lons)%nat -> angle_row c s j (nth j lons 0) N.
Proof.
  intros HN.
  destruct (for_range_inv 0 (length lons) (fun j cs => chebyshev j (nth j lons 0) N cs) (fun k cs =>
    rows (fst cs) = length lons /\ rows (snd cs) = length lons /\ cols (fst cs) = (N + 1)%nat /\ cols (snd cs) = (N + 1)%nat /\
    forall j, (j < k)%nat -> angle_row (fst cs) (snd cs) j (nth j lons 0) N)
    (Table (length lons) (N + 1) junk, Table (length lons) (N + 1) junk)) as ([c s] & E & HI).
  - lia.
  - cbn. repeat split; lia.
  - intros j [c s] Hj (A1 & A2 & A3 & A4 & A5). cbn [fst snd] in *.
    destruct (chebyshev_ok j (nth j lons 0) N c s HN ltac:(lia) ltac:(lia) A3 A4) as (c' & s' & E & B1 & B2 & B3 & B4 & B5 & B6).
    exists (c', s'). split; [exact E|]. cbn [fst snd]. split; [congruence|]. split; [congruence|]. split; [congruence|]. split; [congruence|].
    intros i Hi. destruct (Nat.eq_dec i j) as [->|Hne]; [exact B5|].
    intros m Hm. destruct (B6 i m Hne) as [-> ->]. apply A5; [lia|exact Hm].
  - exists c, s. split; [exact E|]. exact HI.
Qed.

Lemma grid_ok junk lons colats nr g h lo N : (1 <= N)%nat -> square N g -> square N h ->
  Forall (fun t => 0 <= t <= PI) colats ->
  rows nr = length colats -> cols nr = length lons ->
  spherical_harmonics_magnetic_field_grid junk lons colats nr g h lo N =
  Ok (map (fun i => map (fun j => fix_east (sin (nth i colats 0))
        (east_sum (ent nr i j) (nth i colats 0) (nth j lons 0) g h lo N,
         north_sum (ent nr i j) (nth i colats 0) (nth j lons 0) g h lo N,
         radial_sum (ent nr i j) (nth i colats 0) (nth j lons 0) g h lo N)) (range 0 (length lons))) (range 0 (length colats))).
Proof.
  intros HN Hg Hh Hc Hr1 Hr2. unfold spherical_harmonics_magnetic_field_grid.
  destruct (all_chebyshev junk lons N HN) as (c & s & E & A1 & A2 & A3 & A4 & A5). rewrite E; clear E; cbn [bind].
  apply each_ok. intros i Hi. apply range_in in Hi. cbv zeta.
  assert (Ht : 0 <= nth i colats 0 <= PI) by (rewrite Forall_nth in Hc; apply Hc; lia).
  destruct (legendre_tables_ok junk _ N g HN Ht Hg) as (p & pd & E & [Sp Fp] & [Sd Fd]). rewrite E; clear E; cbn [bind].
  apply each_ok. intros j Hj. apply range_in in Hj. rewrite tget_in by lia. cbn [bind].
  rewrite (accumulate_ok (ent nr i j) (nth j lons 0) (ent g) (ent h) (Pt (nth i colats 0)) (Dt (nth i colats 0)) N lo).
  - cbn [bind fst snd]. now rewrite !Rplus_0_l.
  - intros n m Hm Hn. apply (tget_spec N); [exact Hg|lia|lia].
  - intros n m Hm Hn. apply (tget_spec N); [exact Hh|lia|lia].
  - intros n m Hm Hn. rewrite (tget_spec N) by (auto; lia). f_equal. auto.
  - intros n m Hm Hn. rewrite (tget_spec N) by (auto; lia). f_equal. auto.
  - intros m Hm. rewrite tget_in by lia. f_equal. now apply A5.
  - intros m Hm. rewrite tget_in by lia. f_equal. now apply A5.
Qed.

(** ** Gradient *)
Lemma is_derive_sum_over {A} (ls : list A) (f : A -> R -> R) df x :
  (forall a, In a ls -> is_derive (f a) x (df a)) ->
  is_derive (fun t => sum_over ls (fun a => f a t)) x (sum_over ls df).
Proof.
  induction ls as [|a ls IH]; intros Hd.
  - unfold sum_over; simpl. apply is_derive_Reals, derivable_pt_lim_const.
  - apply (is_derive_ext (fun t => f a t + sum_over ls (fun a => f a t))); [intros; reflexivity|].
    rewrite sum_over_cons. apply (is_derive_plus (f a) (fun t => sum_over ls (fun a => f a t))).
    + apply Hd. now left.
    + apply IH. intros b Hb. apply Hd. now right.
Qed.

Lemma potential_G a g h lo N r t l : 0 <= t <= PI -> igrf_potential a g h lo N r t l =
  a * sum_over (range lo (N + 1)) (fun n => (a / r) ^ (n + 1) *
    sum_over (range 0 (n + 1)) (fun m => (ent g n m * cos (INR m * l) + ent h n m * sin (INR m * l)) * Pt t n m)).
Proof.
  intros Ht. unfold igrf_potential. f_equal. apply sum_over_ext. intros n _. f_equal. apply sum_over_ext. intros m _.
  unfold Pt. now rewrite rodrigues_G.
Qed.

Lemma potential_east a g h lo N r t l : 0 < a -> 0 < r -> 0 <= t <= PI ->
  is_derive (fun l => igrf_potential a g h lo N r t l) l (r * east_sum (a / r) t l g h lo N).
Proof.
  intros Ha Hr Ht.
  apply (is_derive_ext (fun l => a * sum_over (range lo (N + 1)) (fun n => (a / r) ^ (n + 1) *
    sum_over (range 0 (n + 1)) (fun m => (ent g n m * cos (INR m * l) + ent h n m * sin (INR m * l)) * Pt t n m)))).
  { intros. symmetry. now apply potential_G. }
  replace (r * east_sum (a / r) t l g h lo N) with (a * sum_over (range lo (N + 1)) (fun n => (a / r) ^ (n + 1) *
    sum_over (range 0 (n + 1)) (fun m => (- INR m * ent g n m * sin (INR m * l) + INR m * ent h n m * cos (INR m * l)) * Pt t n m))).
  - apply (is_derive_scal (fun l => sum_over (range lo (N + 1)) (fun n => (a / r) ^ (n + 1) *
      sum_over (range 0 (n + 1)) (fun m => (ent g n m * cos (INR m * l) + ent h n m * sin (INR m * l)) * Pt t n m))) l a).
    apply (is_derive_sum_over (range lo (N + 1)) (fun n l => (a / r) ^ (n + 1) *
      sum_over (range 0 (n + 1)) (fun m => (ent g n m * cos (INR m * l) + ent h n m * sin (INR m * l)) * Pt t n m))).
    intros n _.
    apply (is_derive_scal (fun l => sum_over (range 0 (n + 1)) (fun m => (ent g n m * cos (INR m * l) + ent h n m * sin (INR m * l)) * Pt t n m)) l ((a / r) ^ (n + 1))).
    apply (is_derive_sum_over (range 0 (n + 1)) (fun m l => (ent g n m * cos (INR m * l) + ent h n m * sin (INR m * l)) * Pt t n m)).
    intros m _. auto_derive; [trivial|ring].
  - unfold east_sum, all_sum, row_sum, et. rewrite <- !sum_over_scal. apply sum_over_ext. intros n _.
    rewrite <- !sum_over_scal. apply sum_over_ext. intros m _.
    replace ((a / r) ^ (n + 2)) with ((a / r) ^ (n + 1) * (a / r)) by (replace (n + 2)%nat with (S (n + 1)) by lia; simpl; ring).
    field. lra.
Qed.

Lemma Pt_derive t n m : (m <= n)%nat -> is_derive (fun t => Pt t n m) t (Dt t n m).
Proof.
  intros Hm. unfold Pt, Dt. apply (is_derive_scal (G n m) t (schmidt_factor n m)). exact (H_derive 0 n m t Hm).
Qed.

Lemma potential_north a g h lo N r t l : 0 < a -> 0 < r -> 0 < t < PI ->
  is_derive (fun t => igrf_potential a g h lo N r t l) t (r * north_sum (a / r) t l g h lo N).
Proof.
  intros Ha Hr Ht.
  apply (is_derive_ext_loc (fun t => a * sum_over (range lo (N + 1)) (fun n => (a / r) ^ (n + 1) *
    sum_over (range 0 (n + 1)) (fun m => (ent g n m * cos (INR m * l) + ent h n m * sin (INR m * l)) * Pt t n m)))).
  { apply filter_imp with (2 := locally_open 0 PI t Ht). intros s Hs. symmetry. now apply potential_G. }
  replace (r * north_sum (a / r) t l g h lo N) with (a * sum_over (range lo (N + 1)) (fun n => (a / r) ^ (n + 1) *
    sum_over (range 0 (n + 1)) (fun m => (ent g n m * cos (INR m * l) + ent h n m * sin (INR m * l)) * Dt t n m))).
  - apply (is_derive_scal (fun t => sum_over (range lo (N + 1)) (fun n => (a / r) ^ (n + 1) *
      sum_over (range 0 (n + 1)) (fun m => (ent g n m * cos (INR m * l) + ent h n m * sin (INR m * l)) * Pt t n m))) t a).
    apply (is_derive_sum_over (range lo (N + 1)) (fun n t => (a / r) ^ (n + 1) *
      sum_over (range 0 (n + 1)) (fun m => (ent g n m * cos (INR m * l) + ent h n m * sin (INR m * l)) * Pt t n m))).
    intros n _.
    apply (is_derive_scal (fun t => sum_over (range 0 (n + 1)) (fun m => (ent g n m * cos (INR m * l) + ent h n m * sin (INR m * l)) * Pt t n m)) t ((a / r) ^ (n + 1))).
    apply (is_derive_sum_over (range 0 (n + 1)) (fun m t => (ent g n m * cos (INR m * l) + ent h n m * sin (INR m * l)) * Pt t n m)).
    intros m Hm. apply range_in in Hm.
    apply (is_derive_scal (fun t => Pt t n m) t (ent g n m * cos (INR m * l) + ent h n m * sin (INR m * l))). apply Pt_derive. lia.
  - unfold north_sum, all_sum, row_sum, nt. rewrite <- !sum_over_scal. apply sum_over_ext. intros n _.
    rewrite <- !sum_over_scal. apply sum_over_ext. intros m _.
    replace ((a / r) ^ (n + 2)) with ((a / r) ^ (n + 1) * (a / r)) by (replace (n + 2)%nat with (S (n + 1)) by lia; simpl; ring).
    field. lra.
Qed.

Lemma ratio_derive a r n : 0 < r -> is_derive (fun r => (a / r) ^ (n + 1)) r (- (INR n + 1) * (a / r) ^ (n + 1) / r).
Proof.
  intros Hr.
  assert (E : is_derive (fun r : R => a / r) r (- a / r ^ 2)) by (auto_derive; [lra|field; lra]).
  pose proof (is_derive_pow _ (n + 1) _ _ E) as E2.
  match type of E2 with is_derive _ _ ?v => match goal with |- is_derive _ _ ?w => replace w with v; [exact E2|] end end.
  rewrite plus_INR. change (INR 1) with 1. replace (Init.Nat.pred (n + 1)) with n by lia. replace (n + 1)%nat with (S n) by lia. simpl pow. field. lra.
Qed.

Lemma potential_radial a g h lo N r t l : 0 < a -> 0 < r -> 0 <= t <= PI ->
  is_derive (fun r => igrf_potential a g h lo N r t l) r (- radial_sum (a / r) t l g h lo N).
Proof.
  intros Ha Hr Ht.
  apply (is_derive_ext (fun r => a * sum_over (range lo (N + 1)) (fun n => 
    sum_over (range 0 (n + 1)) (fun m => (ent g n m * cos (INR m * l) + ent h n m * sin (INR m * l)) * Pt t n m) * (a / r) ^ (n + 1)))).
  { intros. rewrite potential_G by exact Ht. f_equal. apply sum_over_ext. intros. apply Rmult_comm. }
  replace (- radial_sum (a / r) t l g h lo N) with (a * sum_over (range lo (N + 1)) (fun n => 
    sum_over (range 0 (n + 1)) (fun m => (ent g n m * cos (INR m * l) + ent h n m * sin (INR m * l)) * Pt t n m) * (- (INR n + 1) * (a / r) ^ (n + 1) / r))).
  - apply (is_derive_scal (fun r => sum_over (range lo (N + 1)) (fun n => 
      sum_over (range 0 (n + 1)) (fun m => (ent g n m * cos (INR m * l) + ent h n m * sin (INR m * l)) * Pt t n m) * (a / r) ^ (n + 1))) r a).
    apply (is_derive_sum_over (range lo (N + 1)) (fun n r => 
      sum_over (range 0 (n + 1)) (fun m => (ent g n m * cos (INR m * l) + ent h n m * sin (INR m * l)) * Pt t n m) * (a / r) ^ (n + 1))).
    intros n _. apply (is_derive_scal (fun r => (a / r) ^ (n + 1)) r (sum_over (range 0 (n + 1)) (fun m => (ent g n m * cos (INR m * l) + ent h n m * sin (INR m * l)) * Pt t n m))).
    now apply ratio_derive.
  - unfold radial_sum, all_sum, row_sum, rt. rewrite <- (Rmult_1_l (sum_over _ (fun n => sum_over _ _))), Ropp_mult_distr_l.
    rewrite <- !sum_over_scal. apply sum_over_ext. intros n _.
    rewrite Rmult_comm, Rmult_assoc, Rmult_comm. rewrite <- !sum_over_scal. apply sum_over_ext. intros m _.
    replace ((a / r) ^ (n + 2)) with ((a / r) ^ (n + 1) * (a / r)) by (replace (n + 2)%nat with (S (n + 1)) by lia; simpl; ring).
    field. lra.
Qed.
