(** Proofs that inverse distances between a flat survey and sources below it form a positive definite matrix. *)
From Coq Require Import Psatz Permutation Classical.
From Coquelicot Require Import Coquelicot.
From Verif Require Import Base BaseFacts.
Local Open Scope list_scope. Local Open Scope R_scope.

(** ** Quadratic forms of kernels *)
Definition double (S : list (vec3 * R)) (K : vec3 -> vec3 -> R) : R :=
  sum_over S (fun a => sum_over S (fun b => snd a * snd b * K (fst a) (fst b))).
Definition mulS (g : vec3 -> R) (S : list (vec3 * R)) : list (vec3 * R) := map (fun a => (fst a, snd a * g (fst a))) S.
Definition pw (k : nat) (x y : vec3) : R := dot x y ^ k.

Lemma double_ext S K L : (forall a b, In a S -> In b S -> K (fst a) (fst b) = L (fst a) (fst b)) -> double S K = double S L.
Proof. intros H. apply sum_over_ext. intros a Ha. apply sum_over_ext. intros b Hb. now rewrite H. Qed.
Lemma double_mulS g S K : double (mulS g S) K = double S (fun x y => g x * g y * K x y).
Proof.
  unfold double, mulS. rewrite sum_over_map. apply sum_over_ext. intros a _. rewrite sum_over_map. apply sum_over_ext. intros b _. cbn [fst snd]. ring.
Qed.
Lemma double_plus S K L : double S (fun x y => K x y + L x y) = double S K + double S L.
Proof.
  unfold double. rewrite <- sum_over_plus. apply sum_over_ext. intros a _. rewrite <- sum_over_plus. apply sum_over_ext. intros b _. ring.
Qed.
Lemma double_scal S k K : double S (fun x y => k * K x y) = k * double S K.
Proof.
  unfold double. rewrite <- sum_over_scal. apply sum_over_ext. intros a _. rewrite <- sum_over_scal. apply sum_over_ext. intros b _. ring.
Qed.
Lemma double_square S : double S (fun _ _ => 1) = sum_over S snd ^ 2.
Proof.
  unfold double. transitivity (sum_over S (fun a => sum_over S snd * snd a)).
  - apply sum_over_ext. intros a _. rewrite Rmult_comm, <- sum_over_scal. apply sum_over_ext. intros b _. ring.
  - rewrite sum_over_scal. unfold sum_over at 2. cbn. unfold sum_over. replace (map (fun a => snd a) S) with (map snd S) by reflexivity. ring.
Qed.
Lemma pw_step k S : double S (pw (Datatypes.S k)) = double (mulS vx S) (pw k) + double (mulS vy S) (pw k) + double (mulS vz S) (pw k).
Proof.
  rewrite !double_mulS, <- !double_plus. apply double_ext. intros a b _ _. unfold pw. cbn [pow]. unfold dot at 1. ring.
Qed.
Lemma pw_nonneg k : forall S, 0 <= double S (pw k).
Proof.
  induction k as [|k IH]; intros S.
  - replace (double S (pw 0)) with (sum_over S snd ^ 2); [apply pow2_ge_0|]. rewrite <- double_square. reflexivity.
  - rewrite pw_step. pose proof (IH (mulS vx S)). pose proof (IH (mulS vy S)). pose proof (IH (mulS vz S)). lra.
Qed.

(** ** The null space *)
Definition null (S : list (vec3 * R)) : Prop := forall k, double S (pw k) = 0.
Lemma null_axes S : null S -> null (mulS vx S) /\ null (mulS vy S) /\ null (mulS vz S).
Proof.
  intros H. assert (A : forall k, double (mulS vx S) (pw k) = 0 /\ double (mulS vy S) (pw k) = 0 /\ double (mulS vz S) (pw k) = 0).
  { intros k. pose proof (H (Datatypes.S k)) as E. rewrite pw_step in E.
    pose proof (pw_nonneg k (mulS vx S)). pose proof (pw_nonneg k (mulS vy S)). pose proof (pw_nonneg k (mulS vz S)). lra. }
  repeat split; intros k; apply (A k).
Qed.
Lemma null_ext S g h : (forall x, g x = h x) -> null (mulS g S) -> null (mulS h S).
Proof. intros E H k. rewrite <- (H k), !double_mulS. apply double_ext. intros a b _ _. now rewrite !E. Qed.
Lemma null_sum S g h : null (mulS g S) -> null (mulS h S) -> null (mulS (fun x => g x + h x) S).
Proof.
  intros Hg Hh k.
  assert (P : double (mulS (fun x => g x + h x) S) (pw k) + double (mulS (fun x => g x - h x) S) (pw k)
              = 2 * double (mulS g S) (pw k) + 2 * double (mulS h S) (pw k)).
  { rewrite !double_mulS, <- !double_scal, <- !double_plus. apply double_ext. intros a b _ _. ring. }
  rewrite Hg, Hh in P. pose proof (pw_nonneg k (mulS (fun x => g x + h x) S)). pose proof (pw_nonneg k (mulS (fun x => g x - h x) S)). lra.
Qed.
Lemma null_scal S c g : null (mulS g S) -> null (mulS (fun x => c * g x) S).
Proof.
  intros H k. rewrite double_mulS. transitivity ((c * c) * double (mulS g S) (pw k)); [|rewrite H; ring].
  rewrite double_mulS, <- double_scal. apply double_ext. intros a b _ _. ring.
Qed.
Lemma mulS_mulS f g S : mulS f (mulS g S) = mulS (fun x => g x * f x) S.
Proof. unfold mulS. rewrite map_map. apply map_ext. intros a. cbn [fst snd]. f_equal. ring. Qed.
Lemma null_times S g : null (mulS g S) -> null (mulS (fun x => g x * vx x) S) /\ null (mulS (fun x => g x * vy x) S) /\ null (mulS (fun x => g x * vz x) S).
Proof. intros H. destruct (null_axes _ H) as (A & B & C). rewrite mulS_mulS in A, B, C. auto. Qed.
Definition sq (x y : vec3) : R := dot (vsub x y) (vsub x y).
Lemma null_sq S g q : null (mulS g S) -> null (mulS (fun x => g x * sq x q) S).
Proof.
  intros H. destruct (null_times _ _ H) as (A & B & C).
  pose proof (null_scal _ (-2 * vx q) _ A) as A1. pose proof (null_scal _ (-2 * vy q) _ B) as B1. pose proof (null_scal _ (-2 * vz q) _ C) as C1.
  destruct (null_times _ _ A) as (A2 & _ & _). destruct (null_times _ _ B) as (_ & B2 & _). destruct (null_times _ _ C) as (_ & _ & C2).
  pose proof (null_scal _ (dot q q) _ H) as D.
  pose proof (null_sum _ _ _ (null_sum _ _ _ (null_sum _ _ _ A1 B1) (null_sum _ _ _ C1 D)) (null_sum _ _ _ A2 (null_sum _ _ _ B2 C2))) as E.
  revert E. apply null_ext. intros x. unfold sq, dot, vsub. cbn [vx vy vz]. ring.
Qed.
Definition vanishing (L : list vec3) (x : vec3) : R := fold_right (fun q acc => acc * sq x q) 1 L.
Lemma null_vanishing S L : null S -> null (mulS (vanishing L) S).
Proof.
  intros H. induction L as [|q L IH].
  - intros k. rewrite double_mulS. rewrite <- (H k). apply double_ext. intros a b _ _. cbn. ring.
  - exact (null_sq _ _ _ IH).
Qed.
Lemma sq_pos x y : x <> y -> 0 < sq x y.
Proof.
  intros H. unfold sq, dot, vsub. cbn [vx vy vz]. destruct x as [a b c], y as [d e f]. cbn [vx vy vz].
  pose proof (Rle_0_sqr (a - d)) as A. pose proof (Rle_0_sqr (b - e)) as B. pose proof (Rle_0_sqr (c - f)) as C. unfold Rsqr in A, B, C.
  destruct (Req_dec a d) as [->|Ha]; [|pose proof (Rsqr_pos_lt (a - d) ltac:(lra)) as P; unfold Rsqr in P; lra].
  destruct (Req_dec b e) as [->|Hb]; [|pose proof (Rsqr_pos_lt (b - e) ltac:(lra)) as P; unfold Rsqr in P; lra].
  destruct (Req_dec c f) as [->|Hc]; [|pose proof (Rsqr_pos_lt (c - f) ltac:(lra)) as P; unfold Rsqr in P; lra].
  now elim H.
Qed.
Lemma sq_refl x : sq x x = 0. Proof. unfold sq, dot, vsub. cbn [vx vy vz]. ring. Qed.
Lemma vanishing_in L x : In x L -> vanishing L x = 0.
Proof. induction L as [|q L IH]; [intros []|]. intros [->|H]; cbn; [rewrite sq_refl; ring|]. fold (vanishing L x). rewrite IH by assumption. ring. Qed.
Lemma vanishing_out L x : ~ In x L -> vanishing L x <> 0.
Proof.
  induction L as [|q L IH]; cbn; intros H; [lra|]. fold (vanishing L x). apply Rmult_integral_contrapositive_currified.
  - apply IH. tauto.
  - apply Rgt_not_eq, sq_pos. intros ->. tauto.
Qed.
Lemma null_zero S : NoDup (map fst S) -> null S -> forall a, In a S -> snd a = 0.
Proof.
  intros N H a Ha. apply in_split in Ha. destruct Ha as (l1 & l2 & ->). set (L := map fst (l1 ++ l2)).
  assert (O : ~ In (fst a) L). { rewrite map_app in N. cbn in N. apply NoDup_remove_2 in N. unfold L. now rewrite map_app. }
  pose proof (null_vanishing _ L H 0%nat) as E. change (pw 0) with (fun _ _ : vec3 => 1) in E. rewrite double_square in E.
  assert (E' : sum_over (mulS (vanishing L) (l1 ++ a :: l2)) snd = 0) by (apply Rsqr_0_uniq; unfold Rsqr; cbn in E; lra).
  unfold mulS in E'. rewrite sum_over_map, sum_over_app, sum_over_cons in E'. cbn [snd] in E'.
  rewrite (sum_over_zero l1), (sum_over_zero l2) in E'.
  - assert (P : snd a * vanishing L (fst a) = 0) by lra. apply Rmult_integral in P. destruct P; [assumption|]. now elim (vanishing_out L (fst a) O).
  - intros x Hx. rewrite vanishing_in; [ring|]. unfold L. rewrite map_app. apply in_or_app. right. now apply in_map.
  - intros x Hx. rewrite vanishing_in; [ring|]. unfold L. rewrite map_app. apply in_or_app. left. now apply in_map.
Qed.

(** ** Gaussians *)
Definition part (t : R) (n : nat) (x y : vec3) : R := sum_f_R0 (fun k => / INR (fact k) * (2 * t * dot x y) ^ k) n.
Lemma double_part t S n : double S (part t n) = sum_f_R0 (fun k => / INR (fact k) * (2 * t) ^ k * double S (pw k)) n.
Proof.
  induction n as [|n IH].
  - cbn [part sum_f_R0]. rewrite <- double_scal. apply double_ext. intros a b _ _. unfold part, pw. cbn. ring.
  - cbn [sum_f_R0]. rewrite <- IH, <- double_scal, <- double_plus. apply double_ext. intros a b _ _. unfold part at 1. cbn [sum_f_R0].
    unfold part. f_equal. unfold pw. rewrite !Rpow_mult_distr. ring.
Qed.
Lemma lim_sum {A} (l : list A) (f : A -> nat -> R) (g : A -> R) : (forall a, In a l -> is_lim_seq (f a) (g a)) ->
  is_lim_seq (fun n => sum_over l (fun a => f a n)) (sum_over l g).
Proof.
  induction l as [|a l IH]; intros H.
  - apply is_lim_seq_const.
  - apply (is_lim_seq_ext (fun n => f a n + sum_over l (fun a => f a n))); [intros n; now rewrite sum_over_cons|]. rewrite sum_over_cons.
    apply is_lim_seq_plus'; [apply H; now left|]. apply IH. intros b Hb. apply H. now right.
Qed.
Lemma lim_double S (K : nat -> vec3 -> vec3 -> R) (L : vec3 -> vec3 -> R) : (forall x y, is_lim_seq (fun n => K n x y) (L x y)) -> is_lim_seq (fun n => double S (K n)) (double S L).
Proof.
  intros H. unfold double. apply (lim_sum S (fun a n => sum_over S (fun b => snd a * snd b * K n (fst a) (fst b)))). intros a _.
  apply (lim_sum S (fun b n => snd a * snd b * K n (fst a) (fst b))). intros b _.
  apply (is_lim_seq_scal_l (fun n => K n (fst a) (fst b)) (snd a * snd b) (L (fst a) (fst b))). apply H.
Qed.
Lemma exp_lim x : is_lim_seq (sum_f_R0 (fun k => / INR (fact k) * x ^ k)) (exp x).
Proof.
  apply is_lim_seq_Reals. unfold exp. destruct (exist_exp x) as (l & Hl). exact Hl.
Qed.
Lemma sum_f_R0_ge f n k : (forall i, 0 <= f i) -> (k <= n)%nat -> f k <= sum_f_R0 f n.
Proof.
  intros H. induction n as [|n IH]; intros Hk.
  - replace k with 0%nat by lia. apply Rle_refl.
  - cbn [sum_f_R0]. destruct (Nat.eq_dec k (S n)) as [->|].
    + pose proof (cond_pos_sum f n H). lra.
    + pose proof (IH ltac:(lia)). pose proof (H (S n)). lra.
Qed.
Lemma double_exp_ge t S k : 0 <= t -> / INR (fact k) * (2 * t) ^ k * double S (pw k) <= double S (fun x y => exp (2 * t * dot x y)).
Proof.
  intros Ht. set (c := / INR (fact k) * (2 * t) ^ k * double S (pw k)).
  pose proof (lim_double S (part t) (fun x y => exp (2 * t * dot x y)) (fun x y => exp_lim _)) as L.
  assert (N : forall i, 0 <= / INR (fact i) * (2 * t) ^ i * double S (pw i)).
  { intros i. apply Rmult_le_pos; [|apply pw_nonneg]. apply Rmult_le_pos; [left; apply Rinv_0_lt_compat, INR_fact_lt_0|apply pow_le; lra]. }
  refine (is_lim_seq_le_loc (fun _ => c) _ c _ _ (is_lim_seq_const c) L). exists k. intros n Hn. rewrite double_part.
  apply (sum_f_R0_ge (fun i => / INR (fact i) * (2 * t) ^ i * double S (pw i))); assumption.
Qed.
Definition gauss (t : R) (x y : vec3) : R := exp (- t * sq x y).
Lemma gauss_double t S : double S (gauss t) = double (mulS (fun x => exp (- t * dot x x)) S) (fun x y => exp (2 * t * dot x y)).
Proof.
  rewrite double_mulS. apply double_ext. intros a b _ _. unfold gauss. rewrite <- !exp_plus. f_equal. unfold sq, dot, vsub. cbn [vx vy vz]. ring.
Qed.
Lemma gauss_nonneg t S : 0 <= t -> 0 <= double S (gauss t).
Proof.
  intros Ht. rewrite gauss_double. eapply Rle_trans; [|apply (double_exp_ge t _ 0%nat Ht)]. cbn. pose proof (pw_nonneg 0 (mulS (fun x => exp (- t * dot x x)) S)). lra.
Qed.
Lemma gauss_pos t S : 0 < t -> NoDup (map fst S) -> (exists a, In a S /\ snd a <> 0) -> 0 < double S (gauss t).
Proof.
  intros Ht N (a & Ha & Hn). rewrite gauss_double. set (S' := mulS _ S).
  assert (N' : NoDup (map fst S')) by (unfold S', mulS; now rewrite map_map).
  assert (X : exists k, double S' (pw k) <> 0).
  { apply not_all_ex_not. intros Z. set (a' := (fst a, snd a * exp (- t * dot (fst a) (fst a)))).
    assert (In a' S') by (unfold S', mulS; apply in_map_iff; now exists a).
    pose proof (null_zero S' N' Z a' H) as E. cbn in E. apply Rmult_integral in E. destruct E as [E|E]; [easy|]. pose proof (exp_pos (- t * dot (fst a) (fst a))). lra. }
  destruct X as (k & Hk). eapply Rlt_le_trans; [|apply (double_exp_ge t S' k ltac:(lra))].
  pose proof (pw_nonneg k S'). apply Rmult_lt_0_compat; [|lra]. apply Rmult_lt_0_compat; [apply Rinv_0_lt_compat, INR_fact_lt_0|apply pow_lt; lra].
Qed.

(** ** From Gaussians to inverse distances *)
Definition bell (s u : R) : R := exp (- (s * u ^ 2)).
Lemma bell_cont s u : continuous (bell s) u.
Proof. apply (ex_derive_continuous (bell s)). unfold bell. auto_derive. trivial. Qed.
Lemma bell_int s a b : ex_RInt (bell s) a b.
Proof. apply (ex_RInt_continuous (V := R_CompleteNormedModule)). intros. apply bell_cont. Qed.
Lemma chasles (f : R -> R) a b c : (forall x, continuous f x) -> RInt f a c = RInt f a b + RInt f b c.
Proof.
  intros H. symmetry. apply (RInt_Chasles f a b c); apply (ex_RInt_continuous (V := R_CompleteNormedModule)); intros; apply H.
Qed.
Definition area (z : R) : R := RInt (bell 1) 0 z.
Lemma area_incr y z : y <= z -> area y <= area z.
Proof.
  intros H. unfold area. rewrite (chasles (bell 1) 0 y z) by apply bell_cont.
  assert (0 <= RInt (bell 1) y z). { apply RInt_ge_0; [assumption|apply bell_int|]. intros. left. apply exp_pos. }
  lra.
Qed.
Lemma area_bound z : 0 <= z -> area z <= PI / 2.
Proof.
  intros Hz. apply Rle_trans with (atan z); [|left; apply atan_bound].
  assert (D : is_RInt (fun x => / (1 + x ^ 2)) 0 z (minus (atan z) (atan 0))).
  { apply (is_RInt_derive atan).
    - intros x _. apply is_derive_Reals, derivable_pt_lim_atan.
    - intros x _. apply (ex_derive_continuous (fun x => / (1 + x ^ 2))). auto_derive. nra. }
  rewrite atan_0 in D. replace (atan z) with (minus (atan z) 0) by (unfold minus, plus, opp; cbn; ring).
  rewrite <- (is_RInt_unique _ _ _ _ D). apply RInt_le; [assumption|apply bell_int|eexists; exact D|].
  intros x _. unfold bell. rewrite exp_Ropp. apply Rinv_le_contravar; [nra|]. rewrite Rmult_1_l. apply exp_ineq1_le.
Qed.
Lemma area_limit : exists C, forall eps, 0 < eps -> exists N, forall z, N <= z -> Rabs (area z - C) < eps.
Proof.
  destruct (ex_finite_lim_seq_incr (fun n => area (INR n)) (PI / 2)) as (C & HC).
  - intros n. apply area_incr, le_INR. lia.
  - intros n. apply area_bound, pos_INR.
  - exists C. intros eps He. apply is_lim_seq_spec in HC. destruct (HC (mkposreal eps He)) as (N & HN). exists (INR N). intros z Hz.
    cbn [pos] in HN. pose proof (HN N (le_n N)) as H1. destruct (archimed z) as (Hz1 & _).
    set (M := Z.to_nat (up z)). assert (HM : z <= INR M).
    { unfold M. rewrite INR_IZR_INZ, Z2Nat.id; [lra|]. apply le_IZR. pose proof (pos_INR N). lra. }
    assert (HN' : (N <= M)%nat) by (apply INR_le; lra). pose proof (HN M HN') as H2.
    pose proof (area_incr _ _ Hz). pose proof (area_incr _ _ HM). apply Rabs_def2 in H1. apply Rabs_def2 in H2. apply Rabs_def1; lra.
Qed.
Lemma bell_area s T : 0 < s -> RInt (bell s) 0 T = area (T * sqrt s) / sqrt s.
Proof.
  intros Hs. assert (Q : 0 < sqrt s) by now apply sqrt_lt_R0.
  pose proof (RInt_comp_lin (bell 1) (sqrt s) 0 0 T) as E. rewrite !Rplus_0_r, Rmult_0_r in E. specialize (E (bell_int _ _ _)).
  unfold area. rewrite (Rmult_comm T). rewrite <- E.
  set (g := fun y : R => scal (sqrt s) (bell 1 (sqrt s * y + 0))).
  assert (I : ex_RInt g 0 T).
  { apply (ex_RInt_continuous (V := R_CompleteNormedModule)). intros x _. apply (ex_derive_continuous g). unfold g, scal, bell; cbn; unfold mult; cbn. auto_derive. trivial. }
  assert (K : RInt (fun y => / sqrt s * g y) 0 T = / sqrt s * RInt g 0 T) by apply (RInt_scal g 0 T (/ sqrt s) I).
  transitivity (/ sqrt s * RInt g 0 T); [|unfold Rdiv; apply Rmult_comm]. rewrite <- K.
  apply RInt_ext. intros x _. unfold g, scal; cbn. unfold mult; cbn. rewrite <- Rmult_assoc, Rinv_l, Rmult_1_l by lra. unfold bell. f_equal. f_equal.
  rewrite Rplus_0_r, Rmult_1_l, Rpow_mult_distr, pow2_sqrt by lra. reflexivity.
Qed.
Lemma RInt_sum {A} (l : list A) (f : A -> R -> R) a b : (forall x, In x l -> ex_RInt (f x) a b) ->
  ex_RInt (fun u => sum_over l (fun x => f x u)) a b /\ RInt (fun u => sum_over l (fun x => f x u)) a b = sum_over l (fun x => RInt (f x) a b).
Proof.
  induction l as [|x l IH]; intros H.
  - split; [apply (ex_RInt_const a b 0)|]. transitivity (RInt (fun _ : R => 0) a b); [reflexivity|]. rewrite RInt_const. unfold scal; cbn; unfold mult; cbn. unfold sum_over; cbn. ring.
  - destruct IH as (E & I); [intros y Hy; apply H; now right|]. assert (Hx : ex_RInt (f x) a b) by (apply H; now left). split.
    + apply (ex_RInt_ext (fun u => plus (f x u) (sum_over l (fun x => f x u)))); [intros; now rewrite sum_over_cons|]. now apply (ex_RInt_plus (V := R_NormedModule)).
    + rewrite sum_over_cons, <- I. transitivity (RInt (fun u => plus (f x u) (sum_over l (fun x => f x u))) a b).
      * apply RInt_ext. intros u _. now rewrite sum_over_cons.
      * now apply (RInt_plus (V := R_CompleteNormedModule)).
Qed.
Lemma RInt_double S (K : R -> vec3 -> vec3 -> R) a b : (forall x y, ex_RInt (fun u => K u x y) a b) ->
  ex_RInt (fun u => double S (K u)) a b /\ RInt (fun u => double S (K u)) a b = double S (fun x y => RInt (fun u => K u x y) a b).
Proof.
  intros H. assert (B : forall p, ex_RInt (fun u => sum_over S (fun q => snd p * snd q * K u (fst p) (fst q))) a b /\
    RInt (fun u => sum_over S (fun q => snd p * snd q * K u (fst p) (fst q))) a b = sum_over S (fun q => snd p * snd q * RInt (fun u => K u (fst p) (fst q)) a b)).
  { intros p. destruct (RInt_sum S (fun q u => snd p * snd q * K u (fst p) (fst q)) a b) as (E & I).
    - intros q _. apply (ex_RInt_scal (fun u => K u (fst p) (fst q)) a b (snd p * snd q)), H.
    - split; [exact E|]. rewrite I. apply sum_over_ext. intros q _. apply (RInt_scal (fun u => K u (fst p) (fst q)) a b (snd p * snd q)), H. }
  destruct (RInt_sum S (fun p u => sum_over S (fun q => snd p * snd q * K u (fst p) (fst q))) a b) as (E & I); [intros p _; apply B|].
  split; [exact E|]. unfold double. rewrite I. apply sum_over_ext. intros p _. apply B.
Qed.

Definition bells (c : R) (u : R) (x y : vec3) : R := bell (sq x y + c) u.
Lemma bells_gauss c u S : double S (bells c u) = exp (- (c * u ^ 2)) * double S (gauss (u ^ 2)).
Proof.
  rewrite <- double_scal. apply double_ext. intros a b _ _. unfold bells, bell, gauss. rewrite <- exp_plus. f_equal. ring.
Qed.
Lemma bells_cont c S u : continuous (fun u => double S (bells c u)) u.
Proof.
  unfold double. induction S as [|a S' IH] using rev_ind; [apply continuous_const|]. clear IH. generalize (S' ++ [a]) at 2. intros T. induction (S' ++ [a]) as [|p l IH].
  - apply continuous_const.
  - apply (continuous_ext (fun u => plus (sum_over T (fun b => snd p * snd b * bells c u (fst p) (fst b))) (sum_over l (fun a => sum_over T (fun b => snd a * snd b * bells c u (fst a) (fst b)))))).
    + intros x. now rewrite sum_over_cons.
    + apply (continuous_plus (fun u => sum_over T (fun b => snd p * snd b * bells c u (fst p) (fst b)))); [|exact IH]. clear IH. induction T as [|q T IHT]; [apply continuous_const|].
      apply (continuous_ext (fun u => plus (snd p * snd q * bells c u (fst p) (fst q)) (sum_over T (fun b => snd p * snd b * bells c u (fst p) (fst b))))).
      * intros x. now rewrite sum_over_cons.
      * apply (continuous_plus (fun u => snd p * snd q * bells c u (fst p) (fst q))); [|exact IHT].
        apply (continuous_scal_r (snd p * snd q) (fun u => bells c u (fst p) (fst q))). apply bell_cont.
Qed.

Definition inverse_root (c : R) (x y : vec3) : R := 1 / sqrt (sq x y + c).
Lemma sq_nonneg x y : 0 <= sq x y.
Proof. unfold sq, dot. pose proof (Rle_0_sqr (vx (vsub x y))). pose proof (Rle_0_sqr (vy (vsub x y))). pose proof (Rle_0_sqr (vz (vsub x y))). unfold Rsqr in *. lra. Qed.
Lemma inverse_root_pos c S : 0 < c -> NoDup (map fst S) -> (exists a, In a S /\ snd a <> 0) -> 0 < double S (inverse_root c).
Proof.
  intros Hc N X. destruct area_limit as (C & HC). set (F := fun u => double S (bells c u)).
  assert (Fpos : forall u, 0 < u -> 0 < F u).
  { intros u Hu. unfold F. rewrite bells_gauss. apply Rmult_lt_0_compat; [apply exp_pos|]. apply gauss_pos; [apply pow_lt; lra|assumption|assumption]. }
  assert (I : forall a b, ex_RInt F a b) by (intros; apply (ex_RInt_continuous (V := R_CompleteNormedModule)); intros; apply bells_cont).
  assert (q : 0 < RInt F 0 1).
  { apply RInt_gt_0; [lra|intros; now apply Fpos|]. intros x _. apply bells_cont. }
  assert (L : is_lim_seq (fun n => RInt F 0 (INR n)) (C * double S (inverse_root c))).
  { apply (is_lim_seq_ext (fun n => double S (fun x y => area (INR n * sqrt (sq x y + c)) / sqrt (sq x y + c)))).
    - intros n. symmetry. unfold F. destruct (RInt_double S (bells c) 0 (INR n)) as (_ & E); [intros; apply bell_int|]. rewrite E. apply double_ext. intros a b _ _.
      apply bell_area. pose proof (sq_nonneg (fst a) (fst b)). lra.
    - rewrite <- double_scal. apply (lim_double S (fun n x y => area (INR n * sqrt (sq x y + c)) / sqrt (sq x y + c)) (fun x y => C * inverse_root c x y)). intros x y.
      unfold inverse_root. replace (C * (1 / sqrt (sq x y + c))) with (C * / sqrt (sq x y + c)) by (unfold Rdiv; ring).
      set (r := sqrt (sq x y + c)). assert (Hr : 0 < r) by (apply sqrt_lt_R0; pose proof (sq_nonneg x y); lra).
      apply (is_lim_seq_scal_r (fun n => area (INR n * r)) (/ r) C). apply is_lim_seq_spec. intros eps. destruct (HC eps (cond_pos eps)) as (M & HM).
      destruct (archimed (M / r)) as (Hu & _). exists (Z.to_nat (Z.max 0 (up (M / r)))). intros n Hn. apply HM.
      apply Rle_trans with (M / r * r); [right; field; lra|]. apply Rmult_le_compat_r; [lra|].
      apply Rle_trans with (INR (Z.to_nat (Z.max 0 (up (M / r))))); [|now apply le_INR]. rewrite INR_IZR_INZ, Z2Nat.id by lia.
      apply Rle_trans with (IZR (up (M / r))); [lra|]. apply IZR_le. lia. }
  assert (P : RInt F 0 1 <= C * double S (inverse_root c)).
  { refine (is_lim_seq_le_loc (fun _ => RInt F 0 1) _ (RInt F 0 1) _ _ (is_lim_seq_const _) L). exists 1%nat. intros n Hn.
    rewrite (chasles F 0 1 (INR n)) by apply bells_cont.
    assert (0 <= RInt F 1 (INR n)); [|lra]. apply RInt_ge_0; [now apply (le_INR 1)|apply I|]. intros u Hu. left. apply Fpos. lra. }
  assert (C0 : 0 <= C).
  { destruct (Rle_or_lt 0 C) as [|Hneg]; [assumption|]. exfalso. destruct (HC (- C) ltac:(lra)) as (M & HM). pose proof (HM (Rmax M 0) (Rmax_l _ _)) as Z. apply Rabs_def2 in Z.
    pose proof (area_incr 0 (Rmax M 0) (Rmax_r _ _)) as Y. unfold area at 1 in Y. rewrite RInt_point in Y. change zero with 0 in Y. lra. }
  destruct (Rle_or_lt (double S (inverse_root c)) 0) as [Hn|]; [|assumption]. exfalso. assert (C * double S (inverse_root c) <= 0); [|lra].
  rewrite <- (Rmult_0_r C). now apply Rmult_le_compat_l.
Qed.
