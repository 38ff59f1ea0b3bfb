(** C48, C49, C77: Euler deconvolution and Euler inversion. *)
From Coquelicot Require Import Coquelicot.
From Verif Require Import Base BaseFacts NumPy NumPyFacts DistanceModel DistanceSpec PointGravityModel PointGravitySpec PointGravityProofs PrismModel PrismSpec PrismProofs EulerModel EulerSpec EulerProofs EulerFieldProofs.
Local Open Scope string_scope. Local Open Scope list_scope. Local Open Scope R_scope.

(** C48.  The estimate is the only minimiser of the squared residuals of Euler's equation. *)
Theorem C48_minimises_misfit si l r : EulerDeconvolution_fit si (coordinate_arrays l) (data_arrays l) = Ok r ->
  forall s b, squared_misfit si (d_location r) (d_base_level r) l <= squared_misfit si s b l /\
    (squared_misfit si s b l <= squared_misfit si (d_location r) (d_base_level r) l -> s = d_location r /\ b = d_base_level r).
Proof. intros H. pose proof (deconv_index _ _ _ _ H). rewrite deconv_fit_arrays in H by assumption. exact (deconv_minimum si l r H). Qed.
Print Assumptions C48_minimises_misfit.

(** It exists exactly for data whose derivatives and base level can be told apart. *)
Theorem C48_succeeds si l : si <> 0 ->
  (independent l -> exists r, EulerDeconvolution_fit si (coordinate_arrays l) (data_arrays l) = Ok r) /\
  (~ independent l -> EulerDeconvolution_fit si (coordinate_arrays l) (data_arrays l) = Raise LinAlgError).
Proof. intros H. rewrite deconv_fit_arrays by assumption. exact (deconv_succeeds si l H). Qed.
Print Assumptions C48_succeeds.

Theorem C48_recovers_exact_source si l s b : si <> 0 -> independent l -> Forall (fun d => homogeneity si s b d = 0) l ->
  exists cov, EulerDeconvolution_fit si (coordinate_arrays l) (data_arrays l) = Ok (Deconvolution s b cov).
Proof.
  intros H I F. destruct (proj1 (deconv_succeeds si l H) I) as [r E]. rewrite deconv_fit_arrays, E by assumption. destruct (deconv_exact si l s b r F E) as [<- <-]. exists (d_covariance r). now destruct r.
Qed.
Print Assumptions C48_recovers_exact_source.

(** End to end: any field point_gravity computes for one mass, plus any base level, sampled with its
    derivatives at any points off the mass, leads the deconvolution to the mass. *)
Theorem C48_finds_point_mass field si s m b ps : In (field, si) mass_indices -> ~ In s ps ->
  let F := fun e n u => returned (point_gravity (coords_of [] [(e, n, u)]) (points_of [((p_e s, p_n s, p_u s), m)]) (masses_of [((p_e s, p_n s, p_u s), m)]) field "cartesian") + b in
  let l := map (sampled F) ps in
  independent l -> exists cov, EulerDeconvolution_fit si (coordinate_arrays l) (data_arrays l) = Ok (Deconvolution s b cov).
Proof.
  intros Hf Hs F l I. apply C48_recovers_exact_source; [|exact I|].
  - unfold mass_indices in Hf. cbn [In] in Hf. intros ->. repeat (destruct Hf as [Hf|Hf]; [injection Hf; lra|]). exact Hf.
  - apply Forall_forall. intros d Hd. apply in_map_iff in Hd. destruct Hd as (p & <- & Hp). apply hom_sampled. apply (hom_point_gravity s p m field si); [intros ->; contradiction|exact Hf].
Qed.
Print Assumptions C48_finds_point_mass.

Theorem C48_finds_dipole mu0 c s moment b ps : ~ In s ps ->
  let F := fun e n u => dipole_call mu0 [((p_e s, p_n s, p_u s), moment)] (b_name c) (e, n, u) + b in
  let l := map (sampled F) ps in
  independent l -> exists cov, EulerDeconvolution_fit 3 (coordinate_arrays l) (data_arrays l) = Ok (Deconvolution s b cov).
Proof.
  intros Hs F l I. apply C48_recovers_exact_source; [lra|exact I|]. apply Forall_forall. intros d Hd. apply in_map_iff in Hd. destruct Hd as (p & <- & Hp).
  apply hom_sampled. apply (hom_dipole mu0 s p moment c). intros ->. contradiction.
Qed.
Print Assumptions C48_finds_dipole.

(** The covariance is the mean residual times the inverse of the normal matrix; there is none for four points. *)
Theorem C48_covariance si l r : EulerDeconvolution_fit si (coordinate_arrays l) (data_arrays l) = Ok r ->
  (length l = 4%nat -> d_covariance r = None) /\
  (length l <> 4%nat -> exists m, d_covariance r = Some m /\
    forall v, mulv m (vsum l (fun d => let a := V4 (c1 (snd d)) (c2 (snd d)) (c3 (snd d)) si in scale4 (dot4 a v) a))
      = scale4 (squared_misfit si (d_location r) (d_base_level r) l / (INR (length l) - 4)) v).
Proof. intros H. pose proof (deconv_index _ _ _ _ H). rewrite deconv_fit_arrays in H by assumption. exact (deconv_covariance si l r H). Qed.
Print Assumptions C48_covariance.

Theorem C48_errors coordinates data si :
  EulerDeconvolution_fit 0 coordinates data = Raise ValueError /\
  (~ (exists n, same_size n (coordinates ++ data)) \/ (length coordinates < 3)%nat \/ (length data < 4)%nat -> EulerDeconvolution_fit si coordinates data = Raise ValueError).
Proof.
  split; [unfold EulerDeconvolution_fit, EulerDeconvolution; destruct (Reqb_spec 0 0); [reflexivity|now elim n]|].
  intros H. unfold EulerDeconvolution_fit, EulerDeconvolution. destruct (Reqb si 0); [reflexivity|]. cbn [bind]. rewrite (check_fails coordinates data H). reflexivity.
Qed.
Print Assumptions C48_errors.

(** A data set that meets the hypotheses: the linear field [x + 2 y + 3 z] has index -1 about any point of the
    plane where it equals the base level, but does not tell the derivatives apart; the quadratic field
    [x^2 + y^2 + z^2] has index -2. *)
Definition quadratic (x y z : R) : position * v4 := (Pos x y z, V4 (x ^ 2 + y ^ 2 + z ^ 2) (2 * x) (2 * y) (2 * z)).
Definition five : list (position * v4) := [quadratic 0 0 0; quadratic 1 0 0; quadratic 0 1 0; quadratic 0 0 1; quadratic 1 1 1].
Lemma five_independent : independent five.
Proof.
  intros a b c d F. unfold independent, five, quadratic in F. rewrite Forall_forall in F.
  pose proof (F (quadratic 0 0 0) ltac:(cbn; tauto)) as F0. pose proof (F (quadratic 1 0 0) ltac:(cbn; tauto)) as F1. pose proof (F (quadratic 0 1 0) ltac:(cbn; tauto)) as F2. pose proof (F (quadratic 0 0 1) ltac:(cbn; tauto)) as F3.
  unfold quadratic in *. cbn [snd c1 c2 c3] in *. lra.
Qed.
Lemma five_exact : Forall (fun d => homogeneity (-2) (Pos 0 0 0) 0 d = 0) five.
Proof. unfold five, quadratic, homogeneity. repeat constructor; cbn; ring. Qed.
Example C48_example : independent five /\ Forall (fun d => homogeneity (-2) (Pos 0 0 0) 0 d = 0) five /\
  ~ independent [quadratic 0 0 0; quadratic 1 0 0] /\ In ("g_z", 2) mass_indices /\
  (~ In (Pos 0 0 0) around /\ In ("potential", 1) mass_indices /\
   independent (map (sampled (fun e n u => returned (point_gravity (coords_of [] [(e, n, u)]) (points_of [((0, 0, 0), 5)]) (masses_of [((0, 0, 0), 5)]) "potential" "cartesian") + 7)) around)).
Proof.
  split; [exact five_independent|]. split; [exact five_exact|]. split; [|split; [cbn; tauto|split; [|split; [cbn; tauto|apply around_independent; lra]]]].
  2:{ unfold around. cbn [In]. intros H. repeat (destruct H as [H|H]; [injection H; lra|]). exact H. }
  intros I. destruct (I 0 1 0 0) as (_ & X & _); [|lra].
  unfold quadratic. repeat constructor; cbn; ring.
Qed.

(** C49.  Several structural indices: one fit for each, and all attributes come from the first of those with the
    smallest misfit. *)
Theorem C49_several_indices_keep_the_best sis n tol balance l weights s :
  EulerInversion_fit (Inversion (Several sis) n tol balance) (coordinate_arrays l) (data_arrays l) weights = Ok s ->
  exists ss ms k best,
    Forall2 (fun si t => EulerInversion_fit (Inversion (Single si) n tol balance) (coordinate_arrays l) (data_arrays l) weights = Ok t /\ s_index t = si) sis ss /\
    Forall2 misfit_is ss ms /\ nth_error ss k = Some best /\ same_attributes s best /\
    (forall j, (j < length ms)%nat -> nth k ms 0 <= nth j ms 0) /\ (forall j, (j < k)%nat -> nth k ms 0 < nth j ms 0).
Proof.
  intros H. unfold EulerInversion_fit in H. rewrite check_arrays in H. cbn [bind i_index] in H. set (i := Inversion (Several sis) n tol balance) in *.
  match type of H with bind ?F _ = _ => destruct F as [cs|] eqn:E end; [|discriminate]. cbn [bind] in H. apply candidates_spec in E. destruct E as (ss & E & F). cbn [app] in E. subst cs.
  destruct ss as [|c cs]; [discriminate|]. injection H as <-.
  assert (F1 : Forall2 (fun si t => EulerInversion_fit (Inversion (Single si) n tol balance) (coordinate_arrays l) (data_arrays l) weights = Ok t /\ s_index t = si) sis (c :: cs)).
  { assert (In1 : i_max_iterations i = n) by reflexivity. assert (In2 : i_tol i = tol) by reflexivity. assert (In3 : i_balance i = balance) by reflexivity. clearbody i. revert F. generalize (c :: cs). intros ts F. induction F as [|si t sis' ts' [_ E] _ IH]; constructor; [|exact IH]. unfold EulerInversion_fit. rewrite check_arrays. cbn [bind i_index]. unfold single_of in E. rewrite In1, In2, In3 in E. split; [exact E|]. exact (proj1 (fit_misfit _ _ _ _ _ E)). }
  assert (M : Forall has_misfit (c :: cs)).
  { clear - F. induction F as [|si t sis' ss [_ E] _ IH]; constructor; [exact (proj2 (fit_misfit _ _ _ _ _ E))|exact IH]. }
  inversion M as [|? ? Mc Mcs]. subst. destruct (argmin_first cs c Mc Mcs) as (k & K & A & B).
  exists (c :: cs), (map misfit_of (c :: cs)), k, (argmin c cs). split; [exact F1|]. split; [|split; [exact K|split; [repeat split|]]].
  - clear - M. induction M as [|t ss [m E] _ IH]; constructor; [|exact IH]. unfold misfit_is, misfit_of. now rewrite E.
  - assert (N : forall j s, nth_error (c :: cs) j = Some s -> nth j (map misfit_of (c :: cs)) 0 = misfit_of s) by (intros j t Ht; apply nth_error_nth; exact (map_nth_error misfit_of j _ Ht)).
    rewrite (N _ _ K). split.
    + intros j Lj. rewrite map_length in Lj. destruct (nth_error (c :: cs) j) as [t|] eqn:Ej; [|apply nth_error_None in Ej; lia]. rewrite (N _ _ Ej). exact (A _ _ Ej).
    + intros j Lj. destruct (nth_error (c :: cs) j) as [t|] eqn:Ej; [|apply nth_error_None in Ej; assert (nth_error (c :: cs) k <> None) as X by (rewrite K; discriminate); apply nth_error_Some in X; lia]. rewrite (N _ _ Ej). exact (B _ _ Lj Ej).
Qed.
Print Assumptions C49_several_indices_keep_the_best.

Theorem C49_several_indices_succeed sis n tol balance l weights : sis <> [] ->
  Forall (fun si => si <> 0 /\ exists t, EulerInversion_fit (Inversion (Single si) n tol balance) (coordinate_arrays l) (data_arrays l) weights = Ok t) sis ->
  exists s, EulerInversion_fit (Inversion (Several sis) n tol balance) (coordinate_arrays l) (data_arrays l) weights = Ok s.
Proof.
  intros N F. unfold EulerInversion_fit. rewrite check_arrays. cbn [bind i_index]. set (i := Inversion (Several sis) n tol balance).
  assert (X : exists ss, Forall2 (fun si s => si <> 0 /\ inversion_fit (single_of i si) si l weights = Ok s) sis ss).
  { clear N. assert (In1 : i_max_iterations i = n) by reflexivity. assert (In2 : i_tol i = tol) by reflexivity. assert (In3 : i_balance i = balance) by reflexivity. clearbody i.
    induction F as [|si sis' [Z [t E]] _ [ss IH]]; [exists []; constructor|]. exists (t :: ss). constructor; [|exact IH]. split; [exact Z|]. unfold EulerInversion_fit in E. rewrite check_arrays in E. unfold single_of. rewrite In1, In2, In3. exact E. }
  destruct X as [ss X]. assert (Y := proj2 (candidates_spec i l weights sis [] ss) (ex_intro _ ss (conj eq_refl X))). cbv beta in Y. match goal with |- exists s, bind ?F _ = _ => replace F with (Ok ss) end. cbn [bind].
  inversion X; [congruence|]. eauto.
Qed.
Print Assumptions C49_several_indices_succeed.

(** Data that obey Euler's equation lead to the source, with zero misfit and covariance. *)
Theorem C49_recovers_exact_source si n tol balance l a b c d s bl : si <> 0 -> 0 < a -> 0 < b -> 0 < c -> 0 < d -> n <> O ->
  independent l -> Forall (fun x => homogeneity si s bl x = 0) l ->
  exists warned, EulerInversion_fit (Inversion (Single si) n tol balance) (coordinate_arrays l) (data_arrays l) [a; b; c; d]
    = Ok (Solution si s bl (M4 (V4 0 0 0 0) (V4 0 0 0 0) (V4 0 0 0 0) (V4 0 0 0 0)) (Some 0) warned).
Proof.
  intros Hs Pa Pb Pc Pd N I F. unfold EulerInversion_fit. rewrite check_arrays. cbn [bind i_index]. destruct (exact_inversion (Inversion (Single si) n tol balance) si l a b c d s bl Hs Pa Pb Pc Pd I F N) as (wn & E & _). exists wn. exact E.
Qed.
Print Assumptions C49_recovers_exact_source.

Theorem C49_finds_point_mass field si s m b ps n tol balance wa wb wc wd : In (field, si) mass_indices -> ~ In s ps ->
  0 < wa -> 0 < wb -> 0 < wc -> 0 < wd -> n <> O ->
  let F := fun e n u => returned (point_gravity (coords_of [] [(e, n, u)]) (points_of [((p_e s, p_n s, p_u s), m)]) (masses_of [((p_e s, p_n s, p_u s), m)]) field "cartesian") + b in
  let l := map (sampled F) ps in
  independent l -> exists r, EulerInversion_fit (Inversion (Single si) n tol balance) (coordinate_arrays l) (data_arrays l) [wa; wb; wc; wd] = Ok r /\ s_location r = s /\ s_base_level r = b /\ s_misfit r = Some 0.
Proof.
  intros Hf Hs Pa Pb Pc Pd N F l I. edestruct (C49_recovers_exact_source si n tol balance l wa wb wc wd s b) as [wn E]; try assumption.
  - unfold mass_indices in Hf. cbn [In] in Hf. intros ->. repeat (destruct Hf as [Hf|Hf]; [injection Hf; lra|]). exact Hf.
  - apply Forall_forall. intros d Hd. apply in_map_iff in Hd. destruct Hd as (p & <- & Hp). apply hom_sampled. apply (hom_point_gravity s p m field si); [intros ->; contradiction|exact Hf].
  - eexists. split; [exact E|]. repeat split.
Qed.
Print Assumptions C49_finds_point_mass.

(** The constructor refuses the index zero and nothing else; what it is given is what it keeps. *)
Theorem C49_constructor si n tol balance i : (EulerInversion si n tol balance = Ok i <-> si <> Single 0 /\ i = Inversion si n tol balance) /\
  (si = Single 0 -> EulerInversion si n tol balance = Raise ValueError).
Proof.
  unfold EulerInversion. destruct si as [r|l]; [destruct (Reqb_spec r 0) as [->|N]|]; split.
  - split; [discriminate|]. intros [H _]. now elim H.
  - reflexivity.
  - split; [intros [= <-]|intros [_ ->]; reflexivity]. split; [intros [= E]; contradiction|reflexivity].
  - intros [= E]. contradiction.
  - split; [intros [= <-]|intros [_ ->]; reflexivity]. split; [discriminate|reflexivity].
  - discriminate.
Qed.
Print Assumptions C49_constructor.

(** Rejected input. *)
Theorem C49_errors n tol balance l weights :
  EulerInversion (Single 0) n tol balance = Raise ValueError /\
  (forall si, si <> 0 -> ~ independent l -> EulerInversion_fit (Inversion (Single si) n tol balance) (coordinate_arrays l) (data_arrays l) weights = Raise LinAlgError) /\
  (forall si, si <> 0 -> independent l -> (length weights < 4)%nat -> EulerInversion_fit (Inversion (Single si) n tol balance) (coordinate_arrays l) (data_arrays l) weights = Raise IndexError) /\
  (forall si, si <> 0 -> independent l -> (4 <= length weights)%nat -> In 0 weights -> EulerInversion_fit (Inversion (Single si) n tol balance) (coordinate_arrays l) (data_arrays l) weights = Raise ZeroDivisionError) /\
  EulerInversion_fit (Inversion (Several []) n tol balance) (coordinate_arrays l) (data_arrays l) weights = Raise ValueError /\
  (forall sis, EulerInversion_fit (Inversion (Several (0 :: sis)) n tol balance) (coordinate_arrays l) (data_arrays l) weights = Raise ValueError) /\
  (forall i coordinates data, ~ (exists n, same_size n (coordinates ++ data)) \/ (length coordinates < 3)%nat \/ (length data < 4)%nat -> EulerInversion_fit i coordinates data weights = Raise ValueError).
Proof.
  unfold EulerInversion_fit. rewrite check_arrays. cbn [bind i_index].
  split; [unfold EulerInversion; destruct (Reqb_spec 0 0) as [|X]; [reflexivity|now elim X]|].
  assert (Z : forall si, si <> 0 -> EulerDeconvolution si = Ok si) by (intros si Hs; unfold EulerDeconvolution; destruct (Reqb_spec si 0); [contradiction|reflexivity]).
  split; [intros si Hs I; unfold inversion_fit; rewrite (Z si Hs); cbn [bind]; rewrite (proj2 (deconv_succeeds si l Hs) I); reflexivity|].
  split.
  { intros si Hs I W. unfold inversion_fit. rewrite (Z si Hs). cbn [bind]. destruct (proj1 (deconv_succeeds si l Hs) I) as [r ->]. cbn [bind]. destruct weights as [|a [|b [|c [|d o]]]]; try reflexivity. cbn [length] in W. lia. }
  split.
  { intros si Hs I W H0. unfold inversion_fit. rewrite (Z si Hs). cbn [bind]. destruct (proj1 (deconv_succeeds si l Hs) I) as [r ->]. cbn [bind]. cbv zeta. destruct weights as [|a [|b [|c [|d o]]]]; cbn [length] in W; try lia.
    replace (existsb (fun w => Reqb w 0) (a :: b :: c :: d :: o)) with true; [reflexivity|]. symmetry. apply existsb_exists. exists 0. split; [exact H0|]. now apply Reqb_true. }
  split; [reflexivity|]. split; [intros sis; cbn [for_]; unfold EulerInversion; destruct (Reqb_spec 0 0) as [|X]; [reflexivity|now elim X]|].
  intros i coordinates data H. now rewrite (check_fails coordinates data H).
Qed.
Print Assumptions C49_errors.

(** With no iterations allowed the fit does not warn and keep the starting solution: it fails on a variable that
    was never assigned. *)
Theorem C49_no_iterations_refuted : exists si tol balance l weights, si <> 0 /\ independent l /\ Forall (fun w => 0 < w) weights /\ length weights = 4%nat /\
  EulerInversion_fit (Inversion (Single si) 0 tol balance) (coordinate_arrays l) (data_arrays l) weights = Raise UnboundLocalError.
Proof.
  exists (-2), (1 / 10), (1 / 10), five, [1; 1; 1; 1]. split; [lra|]. split; [exact five_independent|]. split; [repeat constructor; lra|]. split; [reflexivity|].
  unfold EulerInversion_fit. rewrite check_arrays. cbn [bind i_index]. unfold inversion_fit, EulerDeconvolution. destruct (Reqb_spec (-2) 0) as [|_]; [lra|]. cbn [bind].
  assert (Hs : (-2 : R) <> 0) by lra. destruct (proj1 (deconv_succeeds (-2) five Hs) five_independent) as [r ->]. cbn [bind]. cbv zeta. cbn [existsb]. destruct (Reqb_spec 1 0) as [|_]; [lra|]. reflexivity.
Qed.
Print Assumptions C49_no_iterations_refuted.

(** The misfit that decided between several indices is not among the attributes that are left. *)
Theorem C49_misfit_missing_for_several_indices_refuted : exists si n tol balance l weights m,
  (exists s, EulerInversion_fit (Inversion (Single si) n tol balance) (coordinate_arrays l) (data_arrays l) weights = Ok s /\ s_misfit s = Some m) /\
  exists s, EulerInversion_fit (Inversion (Several [si]) n tol balance) (coordinate_arrays l) (data_arrays l) weights = Ok s /\ s_misfit s = None.
Proof.
  assert (Hs : (-2 : R) <> 0) by lra. assert (P : 0 < 1) by lra. destruct (C49_recovers_exact_source (-2) 1 (1 / 10) (1 / 10) five 1 1 1 1 (Pos 0 0 0) 0 Hs P P P P ltac:(discriminate) five_independent five_exact) as [wn E].
  exists (-2), 1%nat, (1 / 10), (1 / 10), five, [1; 1; 1; 1], 0. split; [eexists; split; [exact E|reflexivity]|].
  destruct (C49_several_indices_succeed [-2] 1 (1 / 10) (1 / 10) five [1; 1; 1; 1]) as [s S]; [discriminate|constructor; [split; [exact Hs|eauto]|constructor]|].
  exists s. split; [exact S|]. unfold EulerInversion_fit in S. rewrite check_arrays in S. cbn [bind i_index] in S. match type of S with bind ?F _ = _ => destruct F as [[|c cs]|] end; try discriminate. cbn [bind] in S. now injection S as <-.
Qed.
Print Assumptions C49_misfit_missing_for_several_indices_refuted.

Example C49_example : exists s, EulerInversion_fit (Inversion (Several [-2; -2]) 20 (1 / 10) (1 / 10)) (coordinate_arrays five) (data_arrays five) [1; 1 / 10; 1 / 10; 5 / 100] = Ok s.
Proof.
  assert (Hs : (-2 : R) <> 0) by lra. apply C49_several_indices_succeed; [discriminate|].
  assert (X : exists t, EulerInversion_fit (Inversion (Single (-2)) 20 (1 / 10) (1 / 10)) (coordinate_arrays five) (data_arrays five) [1; 1 / 10; 1 / 10; 5 / 100] = Ok t).
  { edestruct (C49_recovers_exact_source (-2) 20 (1 / 10) (1 / 10) five 1 (1 / 10) (1 / 10) (5 / 100) (Pos 0 0 0) 0) as [wn E]; try lra; try exact five_independent; try exact five_exact; [discriminate|eauto]. }
  repeat constructor; auto.
Qed.

(** C77.  One iteration of the inversion: the step satisfies the linearised Euler equations exactly ... *)
Theorem C77_step_satisfies_linearised_equations si w parameters l step l' cofactor : si <> 0 -> positive w ->
  newton_step si (V4 (1 / c0 w) (1 / c1 w) (1 / c2 w) (1 / c3 w)) parameters l = Ok (step, l', cofactor) ->
  Forall2 (fun r r' => w_pos r' = w_pos r /\ w_obs r' = w_obs r /\ linearised si parameters r step (sub4 (w_pred r') (w_pred r)) = 0) l l'.
Proof.
  intros Hs Hw H. destruct (step_inv si w parameters l step l' cofactor H) as (_ & _ & ->). clear H. induction l as [|r l IH]; cbn [map]; constructor; [|exact IH].
  split; [reflexivity|]. split; [reflexivity|]. pose proof (step_feasible si w parameters Hs Hw step r) as F. rewrite <- F. unfold linearised, eulers_equation, parameter_jacobian, data_jacobian, dot4. cbn [c0 c1 c2 c3]. ring.
Qed.
Print Assumptions C77_step_satisfies_linearised_equations.

(** ... and has the least weighted squares of residuals of all such steps. *)
Theorem C77_step_is_optimal si w parameters l step l' cofactor : si <> 0 -> positive w ->
  newton_step si (V4 (1 / c0 w) (1 / c1 w) (1 / c2 w) (1 / c3 w)) parameters l = Ok (step, l', cofactor) ->
  forall (dp : v4) (dd : row -> v4), Forall (fun r => linearised si parameters r dp (dd r) = 0) l ->
    sum_over l' (fun r => weighted w (sub4 (w_obs r) (w_pred r))) <= sum_over l (fun r => weighted w (sub4 (sub4 (w_obs r) (w_pred r)) (dd r))).
Proof.
  intros Hs Hw H dp dd F. apply (step_optimal si w parameters Hs Hw l step l' cofactor H dp dd). intros r Hr. rewrite Forall_forall in F. rewrite <- (F r Hr). unfold linearised, eulers_equation, parameter_jacobian, data_jacobian, dot4. cbn [c0 c1 c2 c3]. ring.
Qed.
Print Assumptions C77_step_is_optimal.

(** Such a step exists whenever the predicted derivatives can be told apart. *)
Theorem C77_step_exists si w parameters l : si <> 0 -> positive w -> independent (map (fun r => (w_pos r, w_pred r)) l) ->
  exists step l' cofactor, newton_step si (V4 (1 / c0 w) (1 / c1 w) (1 / c2 w) (1 / c3 w)) parameters l = Ok (step, l', cofactor).
Proof.
  intros Hs Hw I. destruct (step_exists si w parameters Hs Hw l) as (step & cof & E); [|do 3 eexists; exact E]. intros v Hv. destruct (I (c0 v) (c1 v) (c2 v) (si * c3 v)) as (A & B & C & D).
  - apply Forall_forall. intros x Hx. apply in_map_iff in Hx. destruct Hx as (r & <- & Hr). specialize (Hv r Hr). unfold dot4, parameter_jacobian in Hv. cbn [snd c0 c1 c2 c3] in *. lra.
  - dv v. unfold zero4. cbn [c0 c1 c2 c3] in *. f_equal; try assumption. apply Rmult_integral in D. destruct D; [contradiction|assumption].
Qed.
Print Assumptions C77_step_exists.

(** With positive weights it fails only for derivatives that cannot be told apart; with weights of both signs the
    weighted squares of a row may cancel, which scipy's inverse refuses. *)
Theorem C77_step_errors si w parameters l : si <> 0 ->
  (positive w -> ~ independent (map (fun r => (w_pos r, w_pred r)) l) -> newton_step si (V4 (1 / c0 w) (1 / c1 w) (1 / c2 w) (1 / c3 w)) parameters l = Raise LinAlgError) /\
  ((exists r, In r l /\ si ^ 2 / c0 w + (p_e (w_pos r) - c0 parameters) ^ 2 / c1 w + (p_n (w_pos r) - c1 parameters) ^ 2 / c2 w + (p_u (w_pos r) - c2 parameters) ^ 2 / c3 w = 0) ->
   newton_step si (V4 (1 / c0 w) (1 / c1 w) (1 / c2 w) (1 / c3 w)) parameters l = Raise ValueError).
Proof.
  intros Hs. split.
  - intros Hw D. unfold newton_step. destruct (existsb _ l) eqn:X.
    + exfalso. apply existsb_exists in X. destruct X as (r & _ & X). pose proof (q_pos si w parameters r Hs Hw) as Q. unfold winv in Q. apply Reqb_true in X. lra.
    + unfold inv4. destruct (Reqb_spec (det4 (gram l (fun r => / q_of si (V4 (1 / c0 w) (1 / c1 w) (1 / c2 w) (1 / c3 w)) parameters r) (fun r => parameter_jacobian si (w_pred r)))) 0) as [E|N]; [reflexivity|].
      exfalso. apply D. intros x y z t F. rewrite Forall_forall in F. assert (Z : V4 x y z (t / si) = zero4).
      * eapply gram_separates; [exact N|]. intros r Hr. specialize (F (w_pos r, w_pred r)). cbn [snd] in F. specialize (F ltac:(apply in_map_iff; exists r; auto)). unfold dot4, parameter_jacobian. cbn [c0 c1 c2 c3].
        replace (- si * (t / si)) with (- t) by (field; assumption). lra.
      * unfold zero4 in Z. injection Z as -> -> -> E. repeat split. replace t with (t / si * si) by (field; assumption). rewrite E. ring.
  - intros (r & Hr & Q). unfold newton_step. replace (existsb _ l) with true; [reflexivity|]. symmetry. apply existsb_exists. exists r. split; [exact Hr|]. apply Reqb_true. rewrite <- Q. unfold q_of, data_jacobian, dot4, mul4. cbn [c0 c1 c2 c3]. unfold Rdiv. ring.
Qed.
Print Assumptions C77_step_errors.
Example C77_step_errors_example : exists w parameters r, c0 w <> 0 /\ c1 w <> 0 /\ c2 w <> 0 /\ c3 w <> 0 /\ newton_step 2 (V4 (1 / c0 w) (1 / c1 w) (1 / c2 w) (1 / c3 w)) parameters [r] = Raise ValueError.
Proof.
  exists (V4 1 (-1) 1 1), (V4 0 0 0 0), (Row (Pos 2 0 0) (V4 1 1 1 1) (V4 1 1 1 1)). cbn [c0 c1 c2 c3]. repeat split; try lra.
  apply (C77_step_errors 2 (V4 1 (-1) 1 1) (V4 0 0 0 0) [Row (Pos 2 0 0) (V4 1 1 1 1) (V4 1 1 1 1)]); [lra|]. exists (Row (Pos 2 0 0) (V4 1 1 1 1) (V4 1 1 1 1)). split; [now left|]. cbn. lra.
Qed.

Lemma merit_state si balance w p l : merit si balance w p l = state_merit si balance w (p, l).
Proof.
  unfold merit, data_misfit, euler_misfit, state_merit. cbn [fst snd]. f_equal; [|f_equal]; apply f_equal, sum_over_ext; intros r _.
  - unfold residual, weighted, dot4, mul4, sub4. cbn [c0 c1 c2 c3]. ring.
  - unfold homogeneity, eulers_equation. cbn [fst snd p_e p_n p_u]. ring.
Qed.
Lemma stop_settled m m' tol : (negb (Reqb m 0) && Rltb (Rabs ((m - m') / m)) tol)%bool = true <-> settled tol m m'.
Proof.
  unfold settled. destruct (Reqb_spec m 0) as [->|N]; cbn [negb andb]; [split; [discriminate|intros [H _]; now elim H]|].
  assert (P := Rabs_pos_lt m N). unfold Rdiv. rewrite Rabs_mult, Rabs_inv. destruct (Rltb_spec (Rabs (m - m') * / Rabs m) tol) as [L|L].
  - split; [intros _; split; [assumption|]|reflexivity]. apply Rmult_lt_compat_r with (r := Rabs m) in L; [|assumption]. rewrite Rmult_assoc, Rinv_l, Rmult_1_r in L by lra. exact L.
  - split; [discriminate|intros [_ H]]. exfalso. apply L. apply Rmult_lt_reg_r with (Rabs m); [assumption|]. rewrite Rmult_assoc, Rinv_l, Rmult_1_r by lra. exact H.
Qed.
Lemma add_sub4 p s : sub4 (add4 p s) p = s.
Proof. dv p. dv s. unfold sub4, add4. cbn [c0 c1 c2 c3]. f_equal; ring. Qed.
Lemma newton_best si w p l step l' cof : si <> 0 -> positive w -> newton_step si (V4 (1 / c0 w) (1 / c1 w) (1 / c2 w) (1 / c3 w)) p l = Ok (step, l', cof) ->
  best_move si w (p, l) (add4 p step, l').
Proof.
  intros Hs Hw E. split; cbn [fst snd]; [rewrite add_sub4; eapply C77_step_satisfies_linearised_equations; eassumption|].
  intros dp dd F. eapply C77_step_is_optimal; eassumption.
Qed.
Lemma newton_cofactor si w p l step l' cof : si <> 0 -> positive w -> newton_step si (V4 (1 / c0 w) (1 / c1 w) (1 / c2 w) (1 / c3 w)) p l = Ok (step, l', cof) ->
  forall v, mulv cof (normal_matrix si w (p, l) v) = v.
Proof.
  intros Hs Hw E v. destruct (step_inv si w p l step l' cof E) as (I & _ & _). destruct (inv_ok _ _ I) as (I1 & _ & _). rewrite <- (I1 v) at 2. f_equal.
  rewrite gram_mul. unfold normal_matrix. cbn [fst snd]. apply vsum_ext. intros r _.
  pose proof (q_pos si w p r Hs Hw) as Q. destruct Hw as (W0 & W1 & W2 & W3).
  replace (si ^ 2 / c0 w + (p_e (w_pos r) - c0 p) ^ 2 / c1 w + (p_n (w_pos r) - c1 p) ^ 2 / c2 w + (p_u (w_pos r) - c2 p) ^ 2 / c3 w) with (q_of si (winv w) p r)
    by (unfold q_of, data_jacobian, dot4, mul4, winv; cbn [c0 c1 c2 c3]; field; repeat split; lra).
  unfold parameter_jacobian, scale4, dot4. cbn [c0 c1 c2 c3]. f_equal; field; lra.
Qed.
Lemma iterate_run si tol balance w : si <> 0 -> positive w -> forall n p l m cof before p' l' cof' b, m = merit si balance w p l ->
  (forall c, cof = Some c -> forall v, mulv c (normal_matrix si w before v) = v) ->
  iterate si tol balance w (V4 (1 / c0 w) (1 / c1 w) (1 / c2 w) (1 / c3 w)) n p l cof m = Ok (p', l', cof', b) ->
  exists last, run si tol balance w n before (p, l) last (p', l') b /\ (forall c, cof' = Some c -> forall v, mulv c (normal_matrix si w last v) = v).
Proof.
  intros Hs Hw. induction n as [|n IH]; intros p l m cof before p' l' cof' b Em Hc E; cbn [iterate] in E.
  - injection E as <- <- <- <-. exists before. split; [constructor|exact Hc].
  - destruct (newton_step _ _ p l) as [[[step l1] c1']|] eqn:N; [|discriminate]. cbn [bind] in E. cbv zeta in E.
    pose proof (newton_best si w p l step l1 c1' Hs Hw N) as B. pose proof (newton_cofactor si w p l step l1 c1' Hs Hw N) as K.
    assert (K' : forall c, Some c1' = Some c -> forall v, mulv c (normal_matrix si w (p, l) v) = v) by (intros c Ec; assert (c = c1') as -> by congruence; exact K).
    rewrite Em, !merit_state in E. match type of E with (if ?c then _ else _) = _ => destruct c eqn:T end.
    + injection E as <- <- <- <-. exists (p, l). split; [apply run_stop; [exact B|now apply stop_settled]|exact K'].
    + rewrite <- merit_state in E. destruct (IH _ _ _ _ (p, l) _ _ _ _ eq_refl K' E) as (last & R1 & R2). exists last. split; [|exact R2].
      eapply run_on; [exact B| |exact R1]. intros S. apply stop_settled in S. congruence.
Qed.

(** The inversion starts from the deconvolution and nine tenths of the data, and moves from each state to the next by
    such steps until the merit settles; the iterations run out exactly when the warning is issued.  The location, the
    base level, the misfit and the covariance are those of the end of the run. *)
Theorem C77_fit_is_a_run si n tol balance l a b c d s : 0 < a -> 0 < b -> 0 < c -> 0 < d ->
  EulerInversion_fit (Inversion (Single si) n tol balance) (coordinate_arrays l) (data_arrays l) [a; b; c; d] = Ok s ->
  exists r before p l',
    let w := V4 a b c d in
    let start := (V4 (p_e (d_location r)) (p_n (d_location r)) (p_u (d_location r)) (d_base_level r), map (fun x => Row (fst x) (snd x) (scale4 (9 / 10) (snd x))) l) in
    EulerDeconvolution_fit si (coordinate_arrays l) (data_arrays l) = Ok r /\
    run si tol balance w n start start before (p, l') (s_warned s) /\ n <> O /\
    s_index s = si /\ s_location s = Pos (c0 p) (c1 p) (c2 p) /\ s_base_level s = c3 p /\
    s_misfit s = Some (sqrt (sum_over l' (fun r => weighted (mul4 w w) (sub4 (w_obs r) (w_pred r))))) /\
    (forall v, mulv (s_covariance s) (normal_matrix si w before v) =
       scale4 (sum_over l' (fun r => weighted (V4 1 1 1 1) (sub4 (w_obs r) (w_pred r))) / (4 * INR (length l) - 4)) v).
Proof.
  intros Pa Pb Pc Pd E. unfold EulerInversion_fit in E. rewrite check_arrays in E. cbn [bind i_index] in E. unfold inversion_fit, EulerDeconvolution in E.
  destruct (Reqb_spec si 0) as [|Hs]; [discriminate|]. cbn [bind] in E. rewrite deconv_fit_arrays by assumption. destruct (deconv_fit si l) as [r|] eqn:Er; [|discriminate]. cbn [bind] in E. cbv zeta in E.
  match type of E with (if ?c then _ else _) = _ => destruct c; [discriminate|] end. cbn [length Nat.eqb negb andb i_tol i_balance i_max_iterations] in E.
  match type of E with bind ?F _ = _ => destruct F as [[[[p l'] cof] wn]|] eqn:It; [|discriminate] end. cbn [bind] in E.
  assert (Hw : positive (V4 a b c d)) by (repeat split; assumption).
  set (start := (V4 (p_e (d_location r)) (p_n (d_location r)) (p_u (d_location r)) (d_base_level r), map (fun x : position * v4 => Row (fst x) (snd x) (scale4 (9 / 10) (snd x))) l)) in *.
  destruct (iterate_run si tol balance (V4 a b c d) Hs Hw n _ _ _ None start _ _ _ _ eq_refl ltac:(discriminate) It) as (before & R1 & R2).
  destruct cof as [cof|]; [|discriminate]. exists r, before, p, l'. cbv zeta. fold start. split; [reflexivity|]. injection E as <-. cbn [s_index s_location s_base_level s_misfit s_covariance s_warned].
  split; [exact R1|]. split; [intros ->; cbn in It; discriminate|]. repeat (split; [reflexivity|]). split.
  - apply f_equal. unfold data_misfit. apply f_equal, sum_over_ext. intros x _. unfold residual, weighted, dot4, mul4, sub4. cbn [c0 c1 c2 c3]. ring.
  - intros v. rewrite mulv_scale, (R2 cof eq_refl). f_equal. unfold Rdiv. f_equal. apply sum_over_ext. intros x _. unfold residual, weighted, dot4, sub4. cbn [c0 c1 c2 c3]. ring.
Qed.
Print Assumptions C77_fit_is_a_run.

(** The merit function that decides convergence, and the misfit that decides between structural indices, are not
    the documented [sqrt (r^T W r)]: the weights are squared. *)
Theorem C77_merit_as_documented_refuted : exists w l, positive w /\
  data_misfit w l <> sqrt (sum_over l (fun r => weighted w (sub4 (w_obs r) (w_pred r)))) /\
  exists l1 l2, data_misfit w l1 < data_misfit w l2 /\
    sqrt (sum_over l2 (fun r => weighted w (sub4 (w_obs r) (w_pred r)))) < sqrt (sum_over l1 (fun r => weighted w (sub4 (w_obs r) (w_pred r)))).
Proof.
  set (row1 := fun x y => Row (Pos 0 0 0) (V4 x y 0 0) (V4 0 0 0 0)). exists (V4 1 (1 / 10) (1 / 10) (5 / 100)), [row1 0 10]. split; [repeat split; cbn; lra|].
  assert (A : forall x y, data_misfit (V4 1 (1 / 10) (1 / 10) (5 / 100)) [row1 x y] = sqrt (x ^ 2 + (y / 10) ^ 2)) by (intros; unfold data_misfit, sum_over, residual, dot4, mul4, sub4, row1; cbn [map sumR w_obs w_pred c0 c1 c2 c3]; apply f_equal; field).
  assert (B : forall x y, sqrt (sum_over [row1 x y] (fun r => weighted (V4 1 (1 / 10) (1 / 10) (5 / 100)) (sub4 (w_obs r) (w_pred r)))) = sqrt (x ^ 2 + y ^ 2 / 10)) by (intros; unfold weighted, sum_over, sub4, row1; cbn [map sumR w_obs w_pred c0 c1 c2 c3]; apply f_equal; field).
  split.
  - rewrite A, B. intros E. apply sqrt_inj in E; lra.
  - exists [row1 0 10], [row1 2 0]. rewrite !A, !B. split; apply sqrt_lt_1; lra.
Qed.
Print Assumptions C77_merit_as_documented_refuted.

Example C77_example : positive (V4 1 (1 / 10) (1 / 10) (5 / 100)) /\ independent (map (fun r => (w_pos r, w_pred r)) (map (fun x => Row (fst x) (snd x) (snd x)) five)).
Proof. split; [repeat split; cbn; lra|]. rewrite map_map. cbn [w_pos w_pred]. replace (map _ five) with five; [exact five_independent|]. reflexivity. Qed.
