(** Fluxes of the modelled fields through horizontal planes. *)
From Coq Require Import Psatz.
From Coquelicot Require Import Coquelicot.
From Verif Require Import Base BaseFacts NumPy DistanceModel DistanceSpec PointGravityModel PointGravitySpec PointGravityProofs UtilsModel UtilsProofs
  PrismModel PrismSpec PrismFieldProofs FluxSpec FluxProofs.
Local Open Scope string_scope. Local Open Scope list_scope. Local Open Scope R_scope.

(** ** Sums of fields *)
Lemma is_RInt_sum {A} (l : list A) (f : A -> R -> R) (v : A -> R) a b : (forall s, In s l -> is_RInt (f s) a b (v s)) ->
  is_RInt (fun x => sum_over l (fun s => f s x)) a b (sum_over l v).
Proof.
  induction l as [|s l IH]; intros H.
  - apply (is_RInt_ext (V := R_NormedModule) (fun _ => 0)); [reflexivity|]. replace (sum_over [] v) with (scal (b - a) (0 : R)) by (unfold scal, sum_over; cbn; unfold mult; cbn; ring). apply (is_RInt_const (V := R_NormedModule)).
  - apply (is_RInt_ext (V := R_NormedModule) (fun x => f s x + sum_over l (fun s => f s x))); [intros x _; now rewrite sum_over_cons|]. rewrite sum_over_cons.
    apply (is_RInt_plus (V := R_NormedModule)); [apply H; now left|apply IH; intros t Ht; apply H; now right].
Qed.
Lemma is_lim_sum {A} (l : list A) (f : A -> R -> R) (v : A -> R) : (forall s, In s l -> is_lim (f s) p_infty (v s)) -> is_lim (fun x => sum_over l (fun s => f s x)) p_infty (sum_over l v).
Proof.
  induction l as [|s l IH]; intros H.
  - apply (is_lim_ext (fun _ => 0)); [reflexivity|]. apply is_lim_const.
  - apply (is_lim_ext (fun x => f s x + sum_over l (fun s => f s x))); [intros x; now rewrite sum_over_cons|]. rewrite sum_over_cons.
    apply (is_lim_plus' (f s) _ p_infty (v s) (sum_over l v)); [apply H; now left|apply IH; intros t Ht; apply H; now right].
Qed.

(** A field made of a kernel per source, each with a first and a second antiderivative. *)
Section Sum.
  Context {A : Type}.
  Variables (l : list A) (k : A -> R) (a b : A -> R) (f Q P : A -> R -> R -> R) (v : A -> R).
  Hypothesis HQ : forall s, In s l -> forall x y, is_derive (Q s x) y (f s x y).
  Hypothesis Hf : forall s, In s l -> forall x y, continuous (f s x) y.
  Hypothesis HP : forall s, In s l -> forall x y, is_derive (fun x => P s x y) x (Q s x y).
  Hypothesis Hc : forall s, In s l -> forall x y, continuous (fun x => Q s x y) x.
  Hypothesis Hv : forall s, In s l -> settles (P s) (v s).
  Lemma sum_integral (F : R -> R -> R) e1 e2 n1 n2 : (forall e n, F e n = sum_over l (fun s => k s * f s (e - a s) (n - b s))) ->
    is_RInt (fun e => RInt (F e) n1 n2) e1 e2 (sum_over l (fun s => k s * corners (P s) (e1 - a s) (e2 - a s) (n1 - b s) (n2 - b s))).
  Proof.
    intros HF. apply (is_RInt_ext (V := R_NormedModule) (fun e => sum_over l (fun s => k s * RInt (fun n => f s (e - a s) (n - b s)) n1 n2))).
    - intros e _. symmetry. apply is_RInt_unique. apply (is_RInt_ext (V := R_NormedModule) (fun n => sum_over l (fun s => k s * f s (e - a s) (n - b s)))); [intros n _; symmetry; apply HF|].
      apply (is_RInt_sum l (fun s n => k s * f s (e - a s) (n - b s))). intros s Hs. apply (is_RInt_scal (V := R_NormedModule)). apply (RInt_correct (V := R_CompleteNormedModule)).
      eexists. apply (inner_integral (f s) (Q s) (HQ s Hs) (Hf s Hs)).
    - apply (is_RInt_sum l (fun s e => k s * RInt (fun n => f s (e - a s) (n - b s)) n1 n2)). intros s Hs. apply (is_RInt_scal (V := R_NormedModule)).
      apply (box_integral (f s) (Q s) (P s) (HQ s Hs) (Hf s Hs) (HP s Hs) (Hc s Hs)).
  Qed.
  Lemma sum_flux (F : R -> R -> R) : (forall e n, F e n = sum_over l (fun s => k s * f s (e - a s) (n - b s))) ->
    is_lim (square_integral F) p_infty (sum_over l (fun s => k s * (4 * v s))).
  Proof.
    intros HF. apply (is_lim_ext (fun L => sum_over l (fun s => k s * corners (P s) (- L - a s) (L - a s) (- L - b s) (L - b s)))).
    - intros L. symmetry. apply is_RInt_unique. now apply sum_integral.
    - apply (is_lim_sum l (fun s L => k s * corners (P s) (- L - a s) (L - a s) (- L - b s) (L - b s)) (fun s => k s * (4 * v s))). intros s Hs.
      apply (is_lim_scal_l _ (k s) p_infty (4 * v s)). now apply corners_lim, Hv.
  Qed.
End Sum.

(** ** Gravity *)
Lemma eucl_r3 e n u a b c : eucl (cart_position (e, n, u)) (cart_position (a, b, c)) = r3 (u - c) (e - a) (n - b).
Proof. reflexivity. Qed.
Lemma gravity_at_value ss e n h : gravity_at ss (e, n, h) = sum_over ss (fun s => mGal * newton_G * snd s * gz (h - thd3 (fst s)) (e - fst3 (fst s)) (n - snd3 (fst s))).
Proof.
  unfold gravity_at. rewrite point_gravity_newton; [|reflexivity|left; split; [reflexivity|unfold cartesian_fields; cbn; tauto]]. cbn [returned data map nth]. apply sum_over_ext. intros [[[a b] c] m] _.
  unfold newton_field, newton_field_cartesian. cbn -[Rmult Rplus Rminus Rdiv Rinv newton_accel mGal cart_position]. unfold newton_accel. rewrite eucl_r3. unfold gz, thd3, fst3, snd3. cbn [fst snd].
  unfold dot, vscale, vsub, e_down, cart_position. cbn [vx vy vz]. unfold Rdiv. ring.
Qed.

Lemma gravity_flux ss h : (forall s, In s ss -> thd3 (fst s) <> h) ->
  is_lim (square_integral (fun e n => gravity_at ss (e, n, h))) p_infty (2 * PI * newton_G * mGal * sum_over ss (fun s => snd s * sign (h - thd3 (fst s)))).
Proof.
  intros H. assert (Hz : forall s, In s ss -> h - thd3 (fst s) <> 0) by (intros s Hs E; apply (H s Hs); lra).
  assert (E : 2 * PI * newton_G * mGal * sum_over ss (fun s => snd s * sign (h - thd3 (fst s))) = sum_over ss (fun s => mGal * newton_G * snd s * (4 * (sign (h - thd3 (fst s)) * (PI / 2))))).
  { rewrite <- sum_over_scal. apply sum_over_ext. intros s _. field. }
  rewrite E.
  apply (sum_flux ss (fun s => mGal * newton_G * snd s) (fun s => fst3 (fst s)) (fun s => snd3 (fst s)) (fun s => gz (h - thd3 (fst s))) (fun s => gz_in (h - thd3 (fst s))) (fun s => gz_out (h - thd3 (fst s)))
    (fun s => sign (h - thd3 (fst s)) * (PI / 2))); intros s; intros; try (specialize (Hz s ltac:(assumption))).
  - now apply gz_in_derive.
  - now apply gz_continuous.
  - now apply gz_out_derive.
  - now apply gz_in_continuous.
  - now apply gz_settles.
  - apply gravity_at_value.
Qed.

(** ** Dipoles *)
(** One list entry per component of the moment. *)
Inductive part := PX | PY | PZ.
Definition parts {A} (l : list A) : list (A * part) := flat_map (fun d => [(d, PX); (d, PY); (d, PZ)]) l.
Definition p_kernel (p : part) (z : R) := match p with PX => bx z | PY => by_ z | PZ => bz z end.
Definition p_in (p : part) (z : R) := match p with PX => bx_in z | PY => by_in z | PZ => bz_in z end.
Definition p_out (p : part) (z : R) := match p with PX => bx_out z | PY => by_out z | PZ => bz_out z end.
Definition p_moment (p : part) (m : vec3) := match p with PX => vx m | PY => vy m | PZ => vz m end.
Lemma in_parts {A} (l : list A) d p : In (d, p) (parts l) -> In d l.
Proof. unfold parts. rewrite in_flat_map. intros (d' & Hd & [E|[E|[E|[]]]]); injection E as <- _; exact Hd. Qed.
Lemma sum_parts {A} (l : list A) (f : A * part -> R) : sum_over (parts l) f = sum_over l (fun d => f (d, PX) + f (d, PY) + f (d, PZ)).
Proof. induction l as [|d l IH]; [reflexivity|]. unfold parts in *. cbn [flat_map]. rewrite sum_over_app, IH, !sum_over_cons. unfold sum_over at 1. cbn [map sumR]. ring. Qed.

Lemma dipole_up_value mu0 dms e n h : (forall dm, In dm dms -> thd3 (fst dm) <> h) ->
  dipole_call mu0 dms "b_u" (e, n, h) =
  sum_over (parts dms) (fun dp => nano * (mu0 / (4 * PI)) * p_moment (snd dp) (snd (fst dp)) * p_kernel (snd dp) (h - thd3 (fst (fst dp))) (e - fst3 (fst (fst dp))) (n - snd3 (fst (fst dp)))).
Proof.
  intros H. assert (V : forall p, In p [(e, n, h)] -> off_dipoles p dms).
  { intros p [<-|[]] dm Hd E. apply (H dm Hd). apply (f_equal vz) in E. destruct (fst dm) as [[a b] c]. cbn in E. symmetry. exact E. }
  unfold dipole_call. etransitivity; [exact (f_equal returned1 (dipole_magnetic_physical mu0 AU [] [(e, n, h)] dms false eq_refl V))|].
  cbn [returned1 data map nth]. rewrite sum_parts. apply sum_over_ext. intros [[[a b] c] m] Hd. specialize (H _ Hd). cbn [fst snd p_moment p_kernel comp]. unfold thd3, fst3, snd3 in *. cbn [fst snd] in *.
  unfold dipole_field. change (norm (vsub (cart_position (e, n, h)) (cart_position (a, b, c)))) with (r3 (h - c) (e - a) (n - b)).
  unfold vscale, vsub, dot, cart_position. cbn [vx vy vz]. unfold bx, by_, bz. assert (Hz : h - c <> 0) by (intros E; apply H; lra).
  pose proof (r3_pos (h - c) Hz (e - a) (n - b)) as Pr. pose proof (r3_sq2 (h - c) Hz (e - a) (n - b)) as E2.
  transitivity (nano * (mu0 / (4 * PI)) * ((3 * (vx m * (e - a) + vy m * (n - b) + vz m * (h - c)) * (h - c) - vz m * r3 (h - c) (e - a) (n - b) ^ 2) / r3 (h - c) (e - a) (n - b) ^ 5)).
  - pose proof PI_RGT_0. field. split; lra.
  - rewrite E2. pose proof PI_RGT_0. field. split; lra.
Qed.

Lemma dipole_flux mu0 dms h : (forall dm, In dm dms -> thd3 (fst dm) <> h) ->
  is_lim (square_integral (fun e n => dipole_call mu0 dms "b_u" (e, n, h))) p_infty 0.
Proof.
  intros H. assert (Hz : forall d, In d (parts dms) -> h - thd3 (fst (fst d)) <> 0) by (intros [d p] Hd E; apply in_parts in Hd; apply (H d Hd); cbn [fst] in E; lra).
  assert (E : (0 : R) = sum_over (parts dms) (fun dp => nano * (mu0 / (4 * PI)) * p_moment (snd dp) (snd (fst dp)) * (4 * 0))) by (symmetry; apply sum_over_zero; intros; ring). rewrite E.
  apply (sum_flux (parts dms) (fun dp => nano * (mu0 / (4 * PI)) * p_moment (snd dp) (snd (fst dp))) (fun dp => fst3 (fst (fst dp))) (fun dp => snd3 (fst (fst dp)))
    (fun dp => p_kernel (snd dp) (h - thd3 (fst (fst dp)))) (fun dp => p_in (snd dp) (h - thd3 (fst (fst dp)))) (fun dp => p_out (snd dp) (h - thd3 (fst (fst dp)))) (fun _ => 0)).
  - intros [d []] Hd x y; apply Hz in Hd; [now apply bx_in_derive|now apply by_in_derive|now apply bz_in_derive].
  - intros [d []] Hd x y; apply Hz in Hd; [now apply bx_continuous|now apply by_continuous|now apply bz_continuous].
  - intros [d []] Hd x y; apply Hz in Hd; [now apply bx_out_derive|now apply by_out_derive|now apply bz_out_derive].
  - intros [d []] Hd x y; apply Hz in Hd; [now apply bx_in_continuous|now apply by_in_continuous|now apply bz_in_continuous].
  - intros [d []] Hd; apply Hz in Hd; [now apply bx_settles|now apply by_settles|now apply bz_settles].
  - intros e n. now apply dipole_up_value.
Qed.

(** ** Plates *)
Lemma plate_slice density z L : 0 < z -> 0 < L ->
  square_integral (fun e n => gravity_at [((e, n, - z), density)] (0, 0, 0)) L = mGal * newton_G * density * (4 * (PI / 2 - atan (z * r3 z L L / (L * L)))).
Proof.
  intros Hz HL. assert (Z : z <> 0) by lra. unfold square_integral. apply is_RInt_unique.
  assert (HF : forall e n, gravity_at [((e, n, - z), density)] (0, 0, 0) = sum_over [tt] (fun _ => mGal * newton_G * density * gz z (e - 0) (n - 0))).
  { intros e n. rewrite gravity_at_value, !sum_over_cons. unfold sum_over. cbn [map sumR fst snd]. unfold thd3, fst3, snd3. cbn [fst snd]. replace (0 - - z) with z by ring. f_equal. f_equal. unfold gz, r3, sq3. do 3 f_equal. ring. }
  assert (G := sum_integral [tt] (fun _ => mGal * newton_G * density) (fun _ => 0) (fun _ => 0) (fun _ => gz z) (fun _ => gz_in z) (fun _ => gz_out z)
    ltac:(intros; now apply gz_in_derive) ltac:(intros; now apply gz_continuous) ltac:(intros; now apply gz_out_derive) ltac:(intros; now apply gz_in_continuous) _ (- L) L (- L) L HF).
  replace (mGal * newton_G * density * (4 * (PI / 2 - atan (z * r3 z L L / (L * L))))) with (sum_over [tt] (fun _ => mGal * newton_G * density * corners (gz_out z) (- L - 0) (L - 0) (- L - 0) (L - 0))); [exact G|].
  unfold sum_over. cbn [map sumR]. rewrite Rplus_0_r. f_equal. rewrite !Rminus_0_r. unfold corners, gz_out. rewrite (proj1 (r3_signs z L L)), (proj1 (proj2 (r3_signs z L L))), (proj2 (proj2 (r3_signs z L L))).
  pose proof (r3_pos z Z L L) as Pr. set (r := r3 z L L) in *. clearbody r.
  replace (- L * L / (z * r)) with (- (L * L / (z * r))) by (unfold Rdiv; ring). replace (L * - L / (z * r)) with (- (L * L / (z * r))) by (unfold Rdiv; ring). replace (- L * - L / (z * r)) with (L * L / (z * r)) by (unfold Rdiv; ring).
  rewrite atan_opp. assert (P : 0 < L * L / (z * r)) by (apply Rmult_lt_0_compat; [nra|apply Rinv_0_lt_compat; nra]). pose proof (atan_inv _ P) as A.
  replace (/ (L * L / (z * r))) with (z * r / (L * L)) in A by (field; repeat split; lra). lra.
Qed.

Lemma plate_value density T L : 0 <= T -> 0 < L -> plate density T L = mGal * newton_G * density * (2 * PI * T - 4 * RInt (fun z => atan (z * r3 z L L / (L * L))) 0 T).
Proof.
  intros HT HL. unfold plate. apply is_RInt_unique.
  apply (is_RInt_ext (V := R_NormedModule) (fun z => mGal * newton_G * density * (4 * (PI / 2 - atan (z * r3 z L L / (L * L)))))).
  - intros z Hz. rewrite Rmin_left, Rmax_right in Hz by exact HT. symmetry. apply plate_slice; lra.
  - replace (2 * PI * T - 4 * RInt (fun z => atan (z * r3 z L L / (L * L))) 0 T) with (4 * (scal (T - 0) (PI / 2) - RInt (fun z => atan (z * r3 z L L / (L * L))) 0 T)) by (unfold scal; cbn; unfold mult; cbn; field).
    apply (is_RInt_scal (V := R_NormedModule)). apply (is_RInt_scal (V := R_NormedModule)). apply (is_RInt_minus (V := R_NormedModule)).
    + apply (is_RInt_const (V := R_NormedModule)).
    + apply (RInt_correct (V := R_CompleteNormedModule)). apply (ex_RInt_continuous (V := R_CompleteNormedModule)). intros z _. apply (ex_derive_continuous (V := R_NormedModule)). unfold r3, sq3. auto_derive. nra.
Qed.
Lemma plate_lim density T : 0 <= T -> is_lim (plate density T) p_infty (mGal * newton_G * density * (2 * PI * T)).
Proof.
  intros HT. assert (K : is_lim (fun L => RInt (fun z => atan (z * r3 z L L / (L * L))) 0 T) p_infty 0).
  { apply is_lim_spec. intros eps. pose proof (cond_pos eps) as Pe. exists (Rmax 1 (T * (T * (2 + T)) / eps)). intros L HL.
    pose proof (Rmax_l 1 (T * (T * (2 + T)) / eps)). pose proof (Rmax_r 1 (T * (T * (2 + T)) / eps)). assert (L1 : 1 < L) by lra.
    assert (B : forall z, 0 <= z <= T -> 0 <= atan (z * r3 z L L / (L * L)) <= T * (2 + T) / L).
    { intros z Hz. destruct (r3_bounds z L L ltac:(lra) ltac:(lra)) as (B1 & _ & B3). rewrite Rabs_pos_eq in B3 by lra.
      assert (P : 0 <= z * r3 z L L / (L * L)) by (apply Rmult_le_pos; [nra|left; apply Rinv_0_lt_compat; nra]).
      assert (U : z * r3 z L L / (L * L) <= T * (2 + T) / L).
      { apply Rmult_le_reg_r with (L * L); [nra|]. replace (z * r3 z L L / (L * L) * (L * L)) with (z * r3 z L L) by (field; lra). replace (T * (2 + T) / L * (L * L)) with (T * ((2 + T) * L)) by (field; lra). apply Rmult_le_compat; nra. }
      destruct (Req_dec (z * r3 z L L / (L * L)) 0) as [E|E]; [rewrite E, atan_0; lra|]. assert (P' : 0 < z * r3 z L L / (L * L)) by lra. set (t := z * r3 z L L / (L * L)) in *. clearbody t.
      assert (A := atan_near (/ t) ltac:(now apply Rinv_0_lt_compat)). rewrite Rinv_inv in A. pose proof (atan_inv t P') as I. rewrite I in A. replace (PI / 2 - atan t - PI / 2) with (- atan t) in A by ring. rewrite Rabs_Ropp in A.
      assert (0 < atan t) by (rewrite <- atan_0; now apply atan_increasing). rewrite Rabs_pos_eq in A by lra. lra. }
    assert (X : ex_RInt (fun z => atan (z * r3 z L L / (L * L))) 0 T).
    { apply (ex_RInt_continuous (V := R_CompleteNormedModule)). intros z _. apply (ex_derive_continuous (V := R_NormedModule)). unfold r3, sq3. auto_derive. nra. }
    assert (I0 : 0 <= RInt (fun z => atan (z * r3 z L L / (L * L))) 0 T) by (apply RInt_ge_0; [exact HT|exact X|intros z Hz; apply B; lra]).
    assert (I1 : RInt (fun z => atan (z * r3 z L L / (L * L))) 0 T <= T * (T * (2 + T) / L)).
    { replace (T * (T * (2 + T) / L)) with (RInt (fun _ => T * (2 + T) / L) 0 T) by (rewrite RInt_const; unfold scal; cbn; unfold mult; cbn; ring). apply RInt_le; [exact HT|exact X|apply ex_RInt_const|intros z Hz; apply B; lra]. }
    rewrite Rminus_0_r, Rabs_pos_eq by exact I0. eapply Rle_lt_trans; [exact I1|].
    apply Rmult_lt_reg_r with (L * / eps); [apply Rmult_lt_0_compat; [lra|now apply Rinv_0_lt_compat]|]. replace (T * (T * (2 + T) / L) * (L * / eps)) with (T * (T * (2 + T)) / eps) by (field; lra). replace (eps * (L * / eps)) with L by (field; lra). lra. }
  apply (is_lim_ext_loc (fun L => mGal * newton_G * density * (2 * PI * T - 4 * RInt (fun z => atan (z * r3 z L L / (L * L))) 0 T))).
  - exists 0. intros L HL. symmetry. now apply plate_value.
  - apply (is_lim_scal_l _ (mGal * newton_G * density) p_infty (2 * PI * T)).
    assert (M := is_lim_minus' (fun _ => 2 * PI * T) (fun L => 4 * RInt (fun z => atan (z * r3 z L L / (L * L))) 0 T) p_infty (2 * PI * T) (4 * 0) (is_lim_const _ _) (is_lim_scal_l _ 4 p_infty 0 K)).
    assert (E : 2 * PI * T - 4 * 0 = 2 * PI * T) by ring. rewrite E in M. exact M.
Qed.
