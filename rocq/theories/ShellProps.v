(** Claim C107: tesseroids that make up a whole spherical shell have the field of the shell: that of a point
    mass at the centre above it, and none below it. *)
From Coq Require Import Psatz FunctionalExtensionality.
From Coquelicot Require Import Coquelicot.
From Verif Require Import Base BaseFacts NumPy DistanceModel DistanceSpec PointGravityModel PointGravitySpec TesseroidModel TesseroidSpec TesseroidDensityModel TesseroidDensitySpec TesseroidDensityProps
  TesseroidAdaptProofs TesseroidFitSpec TesseroidFitProps MassBoundsProofs TesseroidLimitSpec TesseroidLimitIntProofs TesseroidLimitProofs TesseroidLimitProps
  TesseroidVariableLimitSpec TesseroidVariableLimitProps SphereIntProofs ShellSpec ShellProofs.
Local Open Scope string_scope. Local Open Scope list_scope. Local Open Scope R_scope.

Lemma tame_around rho r1 r2 m s : (forall t, In t (shell r1 r2) -> tame rho t m s) -> tame rho (around r1 r2) m s.
Proof. intros H. exact (H _ (or_introl eq_refl)). Qed.

(** Newton's integral over the shell. *)
Theorem C107_above field p r1 r2 rho m s : field = "potential" \/ field = "g_z" -> 0 <= r1 <= r2 -> r2 < thd3 p ->
  (forall t, In t (shell r1 r2) -> tame rho t m s) ->
  sum_over (shell r1 r2) (newton_solid_of field p rho) = newton_field "spherical" field p ((0, 0, 0), shell_mass rho r1 r2).
Proof.
  destruct p as [[lp x] R0]. unfold thd3. cbn [snd]. intros Hf H1 H2 T. apply (shell_outside lp x R0 r1 r2 rho (R0 - r2) m s); try lra; auto. now apply tame_around.
Qed.
Print Assumptions C107_above.
Theorem C107_cavity p r1 r2 rho m s : 0 < thd3 p < r1 -> r1 <= r2 -> (forall t, In t (shell r1 r2) -> tame rho t m s) ->
  sum_over (shell r1 r2) (newton_solid_of "potential" p rho) = newton_G * RInt (fun r => 4 * PI * r * rho r) r1 r2 /\
  sum_over (shell r1 r2) (newton_solid_of "g_z" p rho) = 0.
Proof.
  destruct p as [[lp x] R0]. unfold thd3. cbn [snd]. intros H1 H2 T. apply tame_around in T.
  split; [apply (shell_inside_potential lp x R0 r1 r2 rho (r1 - R0) m s)|apply (shell_inside_acceleration lp x R0 r1 r2 rho (r1 - R0) m s)]; try lra; auto.
Qed.
Print Assumptions C107_cavity.

(** With a constant density the integrals over the radius are those of solid geometry. *)
Lemma RInt_power_2 k a b : RInt (fun r => k * r ^ 2) a b = k * (b ^ 3 - a ^ 3) / 3.
Proof.
  apply is_RInt_unique. replace (k * (b ^ 3 - a ^ 3) / 3) with (minus (k * b ^ 3 / 3) (k * a ^ 3 / 3)) by (change (k * b ^ 3 / 3 - k * a ^ 3 / 3 = k * (b ^ 3 - a ^ 3) / 3); field).
  apply (is_RInt_derive (fun r => k * r ^ 3 / 3) (fun r => k * r ^ 2)); intros x _; [auto_derive; auto; field|].
  apply (ex_derive_continuous (fun r => k * r ^ 2)). auto_derive. exact I.
Qed.
Lemma RInt_power_1 k a b : RInt (fun r => k * r) a b = k * (b ^ 2 - a ^ 2) / 2.
Proof.
  apply is_RInt_unique. replace (k * (b ^ 2 - a ^ 2) / 2) with (minus (k * b ^ 2 / 2) (k * a ^ 2 / 2)) by (change (k * b ^ 2 / 2 - k * a ^ 2 / 2 = k * (b ^ 2 - a ^ 2) / 2); field).
  apply (is_RInt_derive (fun r => k * r ^ 2 / 2) (fun r => k * r)); intros x _; [auto_derive; auto; field|].
  apply (ex_derive_continuous (fun r => k * r)). auto_derive. exact I.
Qed.
Theorem C107_constant_density d r1 r2 : shell_mass (fun _ => d) r1 r2 = d * (4 / 3 * PI * (r2 ^ 3 - r1 ^ 3)) /\
  RInt (fun r => 4 * PI * r * d) r1 r2 = d * (2 * PI * (r2 ^ 2 - r1 ^ 2)).
Proof.
  split.
  - unfold shell_mass. rewrite (RInt_ext _ (fun r => 4 * PI * d * r ^ 2)) by (intros r _; rr; ring). rewrite RInt_power_2. rr. field.
  - rewrite (RInt_ext _ (fun r => 4 * PI * d * r)) by (intros r _; rr; ring). rewrite RInt_power_1. rr. field.
Qed.
Print Assumptions C107_constant_density.

Lemma shell_proper r1 r2 t : 0 <= r1 < r2 -> In t (shell r1 r2) -> proper t /\ bounds_ok t.
Proof. intros H [<-|[<-|[]]]; unfold proper, bounds_ok; cbn; lra. Qed.
Lemma shell_clear delta r1 r2 p t : 0 <= r1 < r2 -> 0 < delta -> in_cavity delta r1 p \/ above_shell delta r2 p -> In t (shell r1 r2) -> clear_of delta t p.
Proof.
  intros H Hd Hp Ht [[a b] c] Hq. destruct p as [[lp x] R0]. unfold in_cavity, above_shell, thd3 in Hp. cbn [snd] in Hp.
  assert (Hc : r1 <= c <= r2) by (destruct Ht as [<-|[<-|[]]]; cbn in Hq; lra). eapply Rle_trans; [|apply eucl_radius; lra].
  destruct Hp; [rewrite Rabs_left by lra|rewrite Rabs_right by lra]; lra.
Qed.
Lemma solid_unit field p t : newton_solid field p t = newton_solid_of field p (fun _ => 1) t.
Proof. unfold newton_solid, newton_solid_of. f_equal. extensionality q. now rewrite Rmult_1_l. Qed.
Lemma solid_scaled field p d t : d * newton_solid field p t = d * newton_solid_of field p (fun _ => 1) t.
Proof. now rewrite solid_unit. Qed.
Lemma tame_unit t : tame (fun _ => 1) t 1 0.
Proof. unfold tame. repeat split; try lra; intros; [rewrite Rabs_R1; lra|]. rewrite Rminus_diag_eq by reflexivity. rewrite Rabs_R0. lra. Qed.

(** What tesseroid_gravity computes for a shell of constant density, the tesseroids being cut finer and finer. *)
Theorem C107_gravity sh ps r1 r2 d field ratio radial delta eps :
  prod_shape sh = length ps -> ratio_of_field field ratio -> 0 <= r1 < r2 -> 0 < delta -> 0 < eps ->
  (forall p, In p ps -> in_cavity delta r1 p \/ above_shell delta r2 p) ->
  exists N, forall n, (N <= n)%nat ->
    exists a, tesseroid_gravity (coords_of sh ps) (cut_tesseroids n (shell r1 r2)) (arr1 (cut_densities n [d; d])) field radial false = Ok a /\ shape a = sh /\
      forall k p, nth_error ps k = Some p ->
        (above_shell delta r2 p -> Rabs (nth k (data a) 0 - newton_field "spherical" field p ((0, 0, 0), d * (4 / 3 * PI * (r2 ^ 3 - r1 ^ 3)))) <= eps) /\
        (in_cavity delta r1 p -> field = "potential" -> Rabs (nth k (data a) 0 - newton_G * (d * (2 * PI * (r2 ^ 2 - r1 ^ 2)))) <= eps) /\
        (in_cavity delta r1 p -> field = "g_z" -> Rabs (nth k (data a) 0) <= eps).
Proof.
  intros Hsh Hf Hr Hd He Hp. assert (Hf' : field = "potential" \/ field = "g_z") by (destruct Hf as [[-> _]|[-> _]]; auto).
  destruct (C105_converges sh ps (shell r1 r2) [d; d] field ratio radial delta eps Hsh Hf eq_refl) as [N HN]; auto.
  { intros t Ht. now apply (shell_proper r1 r2). }
  { intros p t Ip It. apply (shell_clear delta r1 r2); auto. }
  exists N. intros n Hn. destruct (HN n Hn) as (a & E & Sa & B). exists a. split; [exact E|]. split; [exact Sa|]. intros k p Hk. specialize (B k p Hk).
  assert (S : sum_over (combine (shell r1 r2) [d; d]) (fun td => snd td * newton_solid field p (fst td)) = d * sum_over (shell r1 r2) (newton_solid_of field p (fun _ => 1))).
  { unfold shell. cbn [combine]. rewrite !sum_over_cons. unfold sum_over. cbn [map sumR fold_right fst snd]. rewrite !solid_unit. ring. }
  rewrite S in B. destruct (C107_constant_density 1 r1 r2) as [M1 M2].
  split; [|split].
  - intros Ha. rewrite (C107_above field p r1 r2 (fun _ => 1) 1 0 Hf') in B; [|lra|unfold above_shell in Ha; lra|intros; apply tame_unit].
    rewrite M1 in B. replace (newton_field "spherical" field p (0, 0, 0, d * (4 / 3 * PI * (r2 ^ 3 - r1 ^ 3)))) with (d * newton_field "spherical" field p (0, 0, 0, 1 * (4 / 3 * PI * (r2 ^ 3 - r1 ^ 3)))); [exact B|].
    destruct p as [[lp x] R0]. destruct Hf' as [-> | ->]; [rewrite !pot_kernel|rewrite !acc_kernel]; ring.
  - intros Hc ->. destruct Hc as [Hc1 Hc2]. destruct (C107_cavity p r1 r2 (fun _ => 1) 1 0) as [Q _]; [lra|lra|intros; apply tame_unit|]. rewrite Q, M2 in B.
    replace (newton_G * (d * (2 * PI * (r2 ^ 2 - r1 ^ 2)))) with (d * (newton_G * (1 * (2 * PI * (r2 ^ 2 - r1 ^ 2))))) by ring. exact B.
  - intros Hc ->. destruct Hc as [Hc1 Hc2]. destruct (C107_cavity p r1 r2 (fun _ => 1) 1 0) as [_ Q]; [lra|lra|intros; apply tame_unit|]. rewrite Q, Rmult_0_r, Rminus_0_r in B. exact B.
Qed.
Print Assumptions C107_gravity.

(** The same for a density that depends on the radius. *)
Theorem C107_gravity_variable minimize sh ps r1 r2 rho field ratio radial delta m s eps : bounded_search minimize ->
  prod_shape sh = length ps -> ratio_of_field field ratio -> 0 <= r1 < r2 -> 0 < delta -> 0 < eps ->
  (forall t, In t (shell r1 r2) -> tame rho t m s) -> (forall r, r1 <= r <= r2 -> continuity_pt rho r) ->
  (forall p, In p ps -> in_cavity delta r1 p \/ above_shell delta r2 p) ->
  exists N, forall n, (N <= n)%nat -> exists F, forall fuel, (F <= fuel)%nat ->
    exists a, tesseroid_gravity_variable minimize fuel (coords_of sh ps) (cut_tesseroids n (shell r1 r2)) rho field radial false = Ok a /\ shape a = sh /\
      forall k p, nth_error ps k = Some p ->
        (above_shell delta r2 p -> Rabs (nth k (data a) 0 - newton_field "spherical" field p ((0, 0, 0), shell_mass rho r1 r2)) <= eps) /\
        (in_cavity delta r1 p -> field = "potential" -> Rabs (nth k (data a) 0 - newton_G * RInt (fun r => 4 * PI * r * rho r) r1 r2) <= eps) /\
        (in_cavity delta r1 p -> field = "g_z" -> Rabs (nth k (data a) 0) <= eps).
Proof.
  intros HB Hsh Hf Hr Hd He T Hc Hp. assert (Hf' : field = "potential" \/ field = "g_z") by (destruct Hf as [[-> _]|[-> _]]; auto).
  destruct (C106_converges minimize sh ps (shell r1 r2) rho field ratio radial delta m s eps HB Hsh Hf) as [N HN]; auto; [discriminate| | |].
  { intros t Ht. destruct (shell_proper r1 r2 t Hr Ht) as [P Bo]. split; [exact P|]. split; [exact Bo|]. split; [now apply T|]. intros r H. apply Hc. destruct Ht as [<-|[<-|[]]]; cbn in H; lra. }
  { intros p t Ip It. apply (shell_clear delta r1 r2); auto. }
  exists N. intros n Hn. destruct (HN n Hn) as (F & HF). exists F. intros fuel Hfu. destruct (HF fuel Hfu) as (a & E & Sa & B). exists a. split; [exact E|]. split; [exact Sa|]. intros k p Hk. specialize (B k p Hk).
  split; [|split].
  - intros Ha. rewrite (C107_above field p r1 r2 rho m s Hf') in B; [exact B|lra|unfold above_shell in Ha; lra|exact T].
  - intros [H1 H2] ->. destruct (C107_cavity p r1 r2 rho m s) as [Q _]; [lra|lra|exact T|]. now rewrite Q in B.
  - intros [H1 H2] ->. destruct (C107_cavity p r1 r2 rho m s) as [_ Q]; [lra|lra|exact T|]. now rewrite Q, Rminus_0_r in B.
Qed.
Print Assumptions C107_gravity_variable.

(** A crust between two radii seen from a satellite and from the cavity: the hypotheses hold for both points,
    and the mass is not zero. *)
Example C107_example : let r1 := 6300000 in let r2 := 6371000 in let ps := [(30, 40, 6600000); (-70, -20, 6000000)] in
  above_shell 1000 r2 (30, 40, 6600000) /\ in_cavity 1000 r1 (-70, -20, 6000000) /\ 0 < shell_mass (fun _ => 2670) r1 r2 /\
  exists N, forall n, (N <= n)%nat -> exists a,
    tesseroid_gravity (coords_of [2%nat] ps) (cut_tesseroids n (shell r1 r2)) (arr1 (cut_densities n [2670; 2670])) "g_z" true false = Ok a /\
    Rabs (nth 1 (data a) 0) <= 1 / 1000.
Proof.
  cbv zeta. assert (A : above_shell 1000 6371000 (30, 40, 6600000)) by (unfold above_shell, thd3; cbn; lra). assert (C : in_cavity 1000 6300000 (-70, -20, 6000000)) by (unfold in_cavity, thd3; cbn; lra).
  split; [exact A|]. split; [exact C|]. split.
  - destruct (C107_constant_density 2670 6300000 6371000) as [-> _]. pose proof PI_RGT_0. apply Rmult_lt_0_compat; [lra|]. apply Rmult_lt_0_compat; lra.
  - destruct (C107_gravity [2%nat] [(30, 40, 6600000); (-70, -20, 6000000)] 6300000 6371000 2670 "g_z" (5 / 2) true 1000 (1 / 1000)) as [N HN]; try lra; [reflexivity|right; auto|intros p [<-|[<-|[]]]; auto|].
    exists N. intros n Hn. destruct (HN n Hn) as (a & E & _ & B). exists a. split; [exact E|]. exact (proj2 (proj2 (B 1%nat _ eq_refl)) C eq_refl).
Qed.
