(** C95: gravity integrated over a plane measures the mass, magnetic fields have no flux, and the Bouguer correction is
    the attraction of an endless plate. *)
From Coq Require Import Psatz.
From Coquelicot Require Import Coquelicot.
From Verif Require Import Base BaseFacts NumPy DistanceModel DistanceSpec PointGravityModel PointGravitySpec PointGravityProofs UtilsModel UtilsProofs
  PrismModel PrismSpec PrismFieldProofs FluxSpec FluxProofs FluxFieldProofs.
Local Open Scope string_scope. Local Open Scope list_scope. Local Open Scope R_scope.

(** Gauss's law: the mass below a plane minus the mass above it, times 2 pi G. *)
Theorem C95_gravity_measures_the_mass : forall ss h, (forall s, In s ss -> thd3 (fst s) <> h) ->
  is_lim (square_integral (fun e n => gravity_at ss (e, n, h))) p_infty (2 * PI * newton_G * mGal * sum_over ss (fun s => snd s * sign (h - thd3 (fst s)))).
Proof. exact gravity_flux. Qed.
Theorem C95_gravity_measures_the_mass_below : forall ss h, (forall s, In s ss -> thd3 (fst s) < h) ->
  is_lim (square_integral (fun e n => gravity_at ss (e, n, h))) p_infty (2 * PI * newton_G * mGal * sum_over ss snd).
Proof.
  intros ss h H. replace (sum_over ss snd) with (sum_over ss (fun s => snd s * sign (h - thd3 (fst s)))).
  - apply gravity_flux. intros s Hs. specialize (H s Hs). lra.
  - apply sum_over_ext. intros s Hs. specialize (H s Hs). rewrite sign_eq_1 by lra. ring.
Qed.

(** The integrals are not defaults: the field is integrable over every square. *)
Theorem C95_gravity_is_integrable : forall ss h e1 e2 n1 n2, (forall s, In s ss -> thd3 (fst s) <> h) ->
  (forall e, ex_RInt (fun n => gravity_at ss (e, n, h)) n1 n2) /\ ex_RInt (fun e => RInt (fun n => gravity_at ss (e, n, h)) n1 n2) e1 e2.
Proof.
  intros ss h e1 e2 n1 n2 H. assert (Hz : forall s, In s ss -> h - thd3 (fst s) <> 0) by (intros s Hs E; apply (H s Hs); lra). split.
  - intros e. eexists. apply (is_RInt_ext (V := R_NormedModule) (fun n => sum_over ss (fun s => mGal * newton_G * snd s * gz (h - thd3 (fst s)) (e - fst3 (fst s)) (n - snd3 (fst s))))); [intros n _; symmetry; apply gravity_at_value|].
    apply (is_RInt_sum ss (fun s n => mGal * newton_G * snd s * gz (h - thd3 (fst s)) (e - fst3 (fst s)) (n - snd3 (fst s)))). intros s Hs. specialize (Hz s Hs). apply (is_RInt_scal (V := R_NormedModule)).
    apply (inner_integral (gz (h - thd3 (fst s))) (gz_in (h - thd3 (fst s)))); intros; [now apply gz_in_derive|now apply gz_continuous].
  - eexists. apply (sum_integral ss (fun s => mGal * newton_G * snd s) (fun s => fst3 (fst s)) (fun s => snd3 (fst s)) (fun s => gz (h - thd3 (fst s))) (fun s => gz_in (h - thd3 (fst s))) (fun s => gz_out (h - thd3 (fst s))));
      [intros s Hs x y; apply gz_in_derive; auto|intros s Hs x y; apply gz_continuous; auto|intros s Hs x y; apply gz_out_derive; auto|intros s Hs x y; apply gz_in_continuous; auto|intros e n; apply gravity_at_value].
Qed.

(** There are no magnetic charges: the upward field of dipoles has no flux through a plane. *)
Theorem C95_dipoles_have_no_flux : forall mu0 dms h, (forall dm, In dm dms -> thd3 (fst dm) <> h) ->
  is_lim (square_integral (fun e n => dipole_call mu0 dms "b_u" (e, n, h))) p_infty 0.
Proof. exact dipole_flux. Qed.

(** Topography above the ellipsoid is a plate of crust, water is a plate of the missing density. *)
Theorem C95_bouguer_correction_is_an_endless_plate : forall h density_crust density_water,
  exists g, bouguer_correction [Fin h] density_crust density_water = [Fin g] /\
    is_lim (plate (if Rlt_dec h 0 then density_water - density_crust else density_crust) (Rabs h)) p_infty g.
Proof.
  intros h dc dw. eexists. split.
  - assert (N := bouguer_nth [Fin h] dc dw 0 ltac:(cbn; lia)). assert (L := bouguer_length [Fin h] dc dw). destruct (bouguer_correction [Fin h] dc dw) as [|g [|]]; try discriminate. cbn in N. rewrite N. reflexivity.
  - unfold bouguer1. match goal with |- is_lim _ _ (Finite ?g) => replace g with (mGal * newton_G * (if Rlt_dec h 0 then dw - dc else dc) * (2 * PI * Rabs h)) end.
    + apply plate_lim. apply Rabs_pos.
    + assert (G0 : GRAVITATIONAL_CONST = newton_G) by (unfold GRAVITATIONAL_CONST, newton_G; lra). rewrite G0. unfold mGal. destruct (Rlt_dec h 0) as [H|H]; [rewrite Rabs_left by exact H|rewrite Rabs_pos_eq by lra]; ring.
Qed.

(** Two masses below and one above a plane. *)
Example C95_example : forall s, In s [((0, 0, -10), 5); ((7, 3, -20), -2); ((1, 1, 30), 4)] -> thd3 (fst s) <> 0.
Proof. intros s [<-|[<-|[<-|[]]]]; unfold thd3; cbn; lra. Qed.

Print Assumptions C95_gravity_measures_the_mass.
Print Assumptions C95_gravity_measures_the_mass_below.
Print Assumptions C95_gravity_is_integrable.
Print Assumptions C95_dipoles_have_no_flux.
Print Assumptions C95_bouguer_correction_is_an_endless_plate.
