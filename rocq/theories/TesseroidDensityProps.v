(** C16, C17, C70: tesseroids whose density is a function of the radius. *)
From Coq Require Import Permutation.
From Verif Require Import Base BaseFacts NumPy NumPyFacts DistanceModel DistanceSpec PointGravityModel PointGravitySpec
  TesseroidModel TesseroidSpec TesseroidCheckProofs TesseroidAdaptProofs TesseroidProofs TesseroidFieldProofs
  TesseroidDensityModel TesseroidDensitySpec TesseroidDensityProofs TesseroidDensityFieldProofs.
Local Open Scope string_scope. Local Open Scope list_scope. Local Open Scope R_scope.
Local Opaque MAX_DISCRETIZATIONS STACK_SIZE.

(** C16.  The pieces are layers of the tesseroid, piled from its bottom to its top; they tile it. *)

Theorem C16_pieces_are_a_pile_of_layers minimize fuel t rho out : bounded_search minimize ->
  west t <= east t -> south t <= north t -> bottom t < top t ->
  density_based_discretization_1 minimize fuel t rho = Ok out ->
  (exists l, pile (bottom t) (top t) l /\ Permutation out (map (layer_of t) l)) /\ tiles out t.
Proof.
  intros HB H1 H2 H3 E. split; [eapply disc_1; eassumption|]. eapply (disc_1_tiles minimize HB fuel t rho out); [|exact E]. unfold box; lra.
Qed.
Print Assumptions C16_pieces_are_a_pile_of_layers.

(** Several tesseroids: every one of them is discretised and its pieces follow those of the tesseroids before it. *)
Theorem C16_every_tesseroid_is_discretised minimize fuel ts rho out : bounded_search minimize ->
  Forall (fun t => west t <= east t /\ south t <= north t /\ bottom t < top t) ts ->
  density_based_discretization minimize fuel ts rho = Ok out ->
  exists pieces, out = concat pieces /\ Forall2 (fun t l => density_based_discretization_1 minimize fuel t rho = Ok l /\
    (exists p, pile (bottom t) (top t) p /\ Permutation l (map (layer_of t) p)) /\ tiles l t) ts pieces.
Proof.
  intros HB. unfold density_based_discretization. assert (X : forall ts acc, Forall (fun t => west t <= east t /\ south t <= north t /\ bottom t < top t) ts ->
    for_ ts (fun t acc => do l <- density_based_discretization_1 minimize fuel t rho; Ok (acc ++ l)) acc = Ok out ->
    exists pieces, out = acc ++ concat pieces /\ Forall2 (fun t l => density_based_discretization_1 minimize fuel t rho = Ok l /\
      (exists p, pile (bottom t) (top t) p /\ Permutation l (map (layer_of t) p)) /\ tiles l t) ts pieces).
  2:{ intros F E. exact (X ts [] F E). }
  clear ts. induction ts as [|t ts IH]; intros acc F E; cbn [for_] in E.
  - injection E as <-. exists []. cbn [concat]. rewrite app_nil_r. split; [reflexivity|constructor].
  - inversion_clear F as [|? ? (H1 & H2 & H3) F']. destruct (density_based_discretization_1 minimize fuel t rho) as [lt|] eqn:D; [|discriminate]. cbn [bind] in E.
    destruct (IH _ F' E) as (pieces & -> & P). exists (lt :: pieces). cbn [concat]. rewrite app_assoc. split; [reflexivity|]. constructor; [|exact P].
    split; [exact D|]. eapply C16_pieces_are_a_pile_of_layers; eassumption.
Qed.
Print Assumptions C16_every_tesseroid_is_discretised.

(** A search that finds the minima: every piece meets the criterion at every radius, unless the density is
    constant up to numpy.isclose. *)
Theorem C16_every_piece_meets_the_criterion minimize fuel t rho out : bounded_search minimize -> finds_minima minimize -> bottom t < top t ->
  (forall r, bottom t <= r <= top t -> continuity_pt rho r) ->
  density_based_discretization_1 minimize fuel t rho = Ok out ->
  exists lo hi, bottom t <= lo <= top t /\ bottom t <= hi <= top t /\
   (out = [t] /\ Rabs (rho lo - rho hi) <= / 10 ^ 8 + / 10 ^ 5 * Rabs (rho hi) \/
    rho lo <> rho hi /\ forall x q, In x out -> bottom x <= q <= top x ->
      Rabs (off_line rho (bottom x) (top x) q) * ((top x - bottom x) / (top t - bottom t)) <= 1 / 10 * Rabs (rho hi - rho lo)).
Proof.
  intros HB HF H HC E. destruct (disc_1 minimize HB fuel t rho out H E) as [(l & P & Q) (lo & hi & L1 & L2 & D)].
  exists lo, hi. split; [assumption|]. split; [assumption|]. destruct D as [D|[Hne D]]; [left; assumption|right; split; [assumption|]].
  intros x q Hx Hq. rewrite Forall_forall in D. specialize (D x Hx).
  apply (Permutation_in _ Q) in Hx. apply in_map_iff in Hx. destruct Hx as (bt & <- & Hx). destruct (pile_bounds _ _ _ P) as [_ PB].
  rewrite Forall_forall in PB. specialize (PB bt Hx). eapply (crit_everywhere minimize t rho lo hi); try eassumption; cbn; lra.
Qed.
Print Assumptions C16_every_piece_meets_the_criterion.

(** The loop ends for every continuous density and more iterations do not change the outcome. *)
Theorem C16_discretisation_ends minimize t rho : bounded_search minimize -> bottom t < top t ->
  (forall x, bottom t <= x <= top t -> continuity_pt rho x) ->
  exists fuel out, forall fuel', (fuel <= fuel')%nat -> density_based_discretization_1 minimize fuel' t rho = Ok out.
Proof.
  intros HB H HC. destruct (disc_1_terminates minimize HB t rho H HC) as (fuel & out & E). exists fuel, out. intros f' L. eapply disc_1_fuel; eassumption.
Qed.
Print Assumptions C16_discretisation_ends.

(** The hypotheses hold together: an ideal search exists, and so does a continuous density that varies. *)
Example C16_example : bounded_search ideal_search /\ finds_minima ideal_search /\ bounded_search midpoint_search /\ bottom ex_t < top ex_t /\
  (forall x, bottom ex_t <= x <= top ex_t -> continuity_pt (fun r => r * r) x) /\
  exists fuel out, density_based_discretization_1 ideal_search fuel ex_t (fun r => r * r) = Ok out.
Proof.
  assert (HC : forall x, bottom ex_t <= x <= top ex_t -> continuity_pt (fun r => r * r) x).
  { intros x _. apply (continuity_pt_mult (fun r => r) (fun r => r)); apply derivable_continuous_pt, derivable_pt_id. }
  split; [exact ideal_ok|]. split; [exact ideal_finds|]. split; [exact midpoint_ok|]. split; [cbn; lra|]. split; [exact HC|].
  apply disc_1_terminates; [exact ideal_ok|cbn; lra|exact HC].
Qed.

(** C17. *)
Theorem C17_constant_function minimize fuel sh ps ts c field radial : bounded_search minimize ->
  prod_shape sh = length ps -> ts <> [] -> c <> 0 -> (forall t t', In t ts -> moved t t' -> width_ok t' -> fat t') ->
  tesseroid_gravity_variable minimize fuel (coords_of sh ps) ts (fun _ => c) field radial false
  = tesseroid_gravity (coords_of sh ps) ts (arr1 (repeat c (length ts))) field radial false.
Proof. intros HB. now apply const_function. Qed.
Print Assumptions C17_constant_function.

Example C17_example : [ex_t] <> [] /\ (forall t', moved ex_t t' -> width_ok t' -> fat t') /\
  exists a, tesseroid_gravity_variable ideal_search 0 (coords_of [] [ex_p]) [ex_t] (fun _ => 2670) "g_z" true false = Ok a.
Proof.
  assert (F : forall t', moved ex_t t' -> width_ok t' -> fat t').
  { intros t' [[_ ->]|(K & _)] _; [|cbn in K; lra]. unfold fat, ex_t; cbn; lra. }
  split; [discriminate|]. split; [exact F|].
  destruct (ex_gravity 2670 "g_z" true) as [a Ha]; [cbn; auto|]. exists a. rewrite <- Ha. apply (C17_constant_function _ _ [] [ex_p] [ex_t]); [exact ideal_ok|reflexivity|discriminate|intros K; lra|].
  intros t t' [<-|[]]. apply F.
Qed.

(** A tesseroid without thickness (accepted by the checks) contributes nothing when the density is a
    number, and makes the call fail when the density is the function constantly equal to that number. *)
Theorem C17_null_tesseroid_refuted : exists t, check_tesseroids_R [t] = Ok [t] /\ forall minimize fuel c radial, bounded_search minimize ->
  (exists a, tesseroid_gravity (coords_of [] [ex_p]) [t] (arr1 [c]) "g_z" radial false = Ok a) /\
  tesseroid_gravity_variable minimize fuel (coords_of [] [ex_p]) [t] (fun _ => c) "g_z" radial false = Raise ZeroDivisionError.
Proof.
  exists flat_t. split.
  - pose proof flat_checks as C. unfold checks in C. destruct (check_tesseroids_R [flat_t]) as [l|]; cbn [bind] in C; [|discriminate].
    destruct (check_points_outside_tesseroids [ex_p] l); cbn [bind] in C; [exact C|discriminate].
  - intros minimize fuel c radial HB. split; [apply flat_constant|now apply flat_function].
Qed.
Print Assumptions C17_null_tesseroid_refuted.

(** C70.  The field is the one of point masses inside small tesseroids that tile the given ones, each mass
    being the density at its radius times its quadrature volume. *)
Theorem C70_field_of_point_masses minimize fuel sh ps ts rho field radial a : bounded_search minimize ->
  prod_shape sh = length ps -> In field ["potential"; "g_z"] ->
  tesseroid_gravity_variable minimize fuel (coords_of sh ps) ts rho field radial false = Ok a ->
  exists ts', Forall2 moved ts ts' /\ forall k p, nth_error ps k = Some p -> exists smalls : list (list tess),
    Forall2 (fun t sm => tiles sm t) ts' smalls /\
    let srcs := flat_map (fun x => glq_sources_of x rho) (concat smalls) in
    nth k (data a) 0 = returned (point_gravity (coords_of [] [p]) (points_of srcs) (masses_of srcs) field "spherical").
Proof. intros HB. now apply variable_value. Qed.
Print Assumptions C70_field_of_point_masses.
Example C70_example : bounded_search ideal_search /\ In "g_z" ["potential"; "g_z"] /\
  exists a, tesseroid_gravity_variable ideal_search 0 (coords_of [] [ex_p]) [ex_t] (fun _ => 2670) "g_z" true false = Ok a.
Proof. split; [exact ideal_ok|]. split; [cbn; auto|]. exact (proj2 (proj2 C17_example)). Qed.
