(** C113: enlarging ellipsoids and observation points by one factor. *)
From Coq Require Import Psatz Classical_Prop.
From Verif Require Import Base BaseFacts NumPy NumPyFacts PointGravityModel EllipsoidModel EllipsoidSpec EllipsoidRotProofs EllipsoidTopProofs EllipsoidMagProofs
  EllipsoidMoveProofs EllipsoidScaleSpec EllipsoidScaleProofs.
Local Open Scope R_scope.

(** Gravity grows like the size. *)
Theorem C113_gravity k x : 0 < k -> Forall positive_axes (as_list x) ->
  exists g n, forall sh ps, prod_shape sh = length ps ->
    ellipsoid_gravity (coordinates_of sh ps) x = Ok (gravity_arrays sh g ps, n) /\
    ellipsoid_gravity (coordinates_of sh (map (vscale k) ps)) (enlarge_arg k x) = Ok (gravity_arrays sh (fun p => vscale k (g p)) ps, n).
Proof.
  intros Hk P. exists (fun p => vsum (as_list x) (fun e => body_g e p)), (length (filter no_density (as_list x))). intros sh ps Hs.
  rewrite (several_gravity _ x), (several_gravity _ (enlarge_arg k x)), as_list_times. set (l := as_list x) in *. split; [now apply gravity_several|].
  rewrite gravity_several; [|now apply positive_times|now rewrite map_length].
  assert (L : length (filter no_density (map (enlarge k) l)) = length (filter no_density l)).
  { clear P. clearbody l. induction l as [|e l IH]; [reflexivity|]. cbn [map filter]. change (no_density (enlarge k e)) with (no_density e). destruct (no_density e); cbn [length]; now rewrite IH. }
  rewrite L. apply (f_equal (fun a => Ok (a, length (filter no_density l)))). unfold gravity_arrays. rewrite !map_map.
  assert (E : forall p, vsum (map (enlarge k) l) (fun e => body_g e (vscale k p)) = vscale k (vsum l (fun e => body_g e p))) by (intros p; now apply vsum_times).
  apply (f_equal2 pair); [apply (f_equal2 pair)|]; apply (f_equal (Arr sh)); apply map_ext; intros p; rewrite E; reflexivity.
Qed.
Print Assumptions C113_gravity.

(** The magnetic field stays, and so does a failure to solve for the magnetisation. *)
Theorem C113_magnetic mu_0 k x F sh ps : 0 < k -> Forall positive_axes (as_list x) -> prod_shape sh = length ps ->
  ellipsoid_magnetic mu_0 (coordinates_of sh (map (vscale k) ps)) (enlarge_arg k x) F = ellipsoid_magnetic mu_0 (coordinates_of sh ps) x F.
Proof.
  intros Hk P Hs. rewrite (several_magnetic _ _ x), (several_magnetic _ _ (enlarge_arg k x)), as_list_times. set (l := as_list x) in *. clearbody l. set (h := h0_of mu_0 F).
  assert (P' := positive_times k Hk l P). assert (Hs' : prod_shape sh = length (map (vscale k) ps)) by now rewrite map_length.
  assert (D : (Forall (solvable mu_0 h) l /\ Forall (solvable mu_0 h) (map (enlarge k) l)) \/
              (Exists (fun e => ~ solvable mu_0 h e) l /\ Exists (fun e => ~ solvable mu_0 h e) (map (enlarge k) l))).
  { clear P'. induction P as [|e l Pe P IH]; [left; split; constructor|]. cbn [map].
    destruct (body_b_times k Hk mu_0 h e Pe) as [(S1 & S2 & _) | (S1 & S2)]; [|right; split; apply Exists_cons_hd; assumption].
    destruct IH as [[I1 I2] | [I1 I2]]; [left; split; constructor; assumption | right; split; apply Exists_cons_tl; assumption]. }
  destruct D as [[D1 D2] | [D1 D2]]; [|rewrite !magnetic_raises by assumption; reflexivity].
  rewrite !magnetic_several by assumption.
  assert (L : length (filter (fun e => negb (has_property e)) (map (enlarge k) l)) = length (filter (fun e => negb (has_property e)) l)).
  { clear. induction l as [|e l IH]; [reflexivity|]. cbn [map filter]. change (has_property (enlarge k e)) with (has_property e). destruct (negb (has_property e)); cbn [length]; now rewrite IH. }
  rewrite L. apply (f_equal (fun a => Ok (a, length (filter (fun e => negb (has_property e)) l)))).
  assert (E : forall p, vsum_b mu_0 h (map (enlarge k) l) (vscale k p) = vsum_b mu_0 h l p).
  { intros p. clear P' D2 L. unfold vsum_b. revert D1. induction P as [|e l Pe P IH]; intros D1; [reflexivity|]. specialize (IH (Forall_inv_tail D1)).
    destruct (body_b_times k Hk mu_0 h e Pe) as [(_ & _ & E) | (S1 & _)]; [|exfalso; apply S1, (Forall_inv D1)].
    cbn [map]. unfold vsum in *. rewrite !sum_over_cons, E.
    apply V3_eq; apply (f_equal (Rplus _)); [exact (f_equal vx IH) | exact (f_equal vy IH) | exact (f_equal vz IH)]. }
  unfold magnetic_arrays. fold h. rewrite !map_map.
  apply (f_equal2 pair); [apply (f_equal2 pair)|]; apply (f_equal (Arr sh)); apply map_ext; intros p; rewrite E; reflexivity.
Qed.
Print Assumptions C113_magnetic.

(** Three bodies of different shapes, one with each kind of property. *)
Example C113_example : Forall positive_axes (as_list (Several
    [Ell 3 2 1 10 20 30 (V3 1 2 (-3)) (Some 2670) None None; Ell 1 1 1 0 0 0 (V3 0 0 0) None (Some (Isotropic 0.1)) None; Ell 1 1 2 0 0 0 (V3 0 9 0) None None (Some (V3 0 0 5))])) /\
  enlarge_arg 1000 (Single (Ell 3 2 1 10 20 30 (V3 1 2 (-3)) (Some 2670) None None)) =
    Single (Ell (1000 * 3) (1000 * 2) (1000 * 1) 10 20 30 (V3 (1000 * 1) (1000 * 2) (1000 * -3)) (Some 2670) None None).
Proof. split; [|reflexivity]. repeat constructor; cbn; lra. Qed.
