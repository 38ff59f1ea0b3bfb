(** C112: enlarging tesseroids and observation radii by one factor. *)
From Coq Require Import Psatz.
From Verif Require Import Base BaseFacts NumPy NumPyFacts DistanceModel DistanceSpec PointGravityModel PointGravitySpec PointGravityProofs
  TesseroidModel TesseroidSpec TesseroidCheckProofs TesseroidAdaptProofs TesseroidProofs TesseroidFieldProofs TesseroidScaleSpec TesseroidScaleProofs.
Local Open Scope string_scope. Local Open Scope list_scope. Local Open Scope R_scope.

(** The whole call: the same exceptions, and the same numbers up to the factor [k ^ 2] or [k]. *)
Theorem C112_enlarged_tesseroids k sh ps ts ds field radial disable : 0 < k -> prod_shape sh = length ps -> length ds = length ts ->
  tesseroid_gravity (coords_of sh (map (enlarge_point k) ps)) (map (enlarge_tess k) ts) (arr1 ds) field radial disable
  = times_result (growth field k) (tesseroid_gravity (coords_of sh ps) ts (arr1 ds) field radial disable).
Proof. intros Hk. now apply gravity_enlarge. Qed.
Print Assumptions C112_enlarged_tesseroids.

(** One call of the adaptive discretisation with buffers of the same sizes: it fails exactly when the original fails, and the pieces are the enlarged pieces, in the same order. *)
Theorem C112_pieces k p t ratio stk stk' sml sml' radial : 0 < k -> (0 < length stk)%nat -> length stk' = length stk -> length sml' = length sml ->
  match adaptive_discretization p t ratio stk sml radial with
  | Ok st => exists st', adaptive_discretization (enlarge_point k p) (enlarge_tess k t) ratio stk' sml' radial = Ok st' /\
               returned_tesseroids st' = map (enlarge_tess k) (returned_tesseroids st)
  | Raise e => adaptive_discretization (enlarge_point k p) (enlarge_tess k t) ratio stk' sml' radial = Raise e
  end.
Proof.
  intros Hk H L L'. pose proof (adaptive_refines p t ratio stk sml radial H) as A.
  assert (H' : (0 < length stk')%nat) by now rewrite L.
  pose proof (adaptive_refines (enlarge_point k p) (enlarge_tess k t) ratio stk' sml' radial H') as A'.
  rewrite L, L', discretise_enlarge in A' by exact Hk.
  destruct (adaptive_discretization p t ratio stk sml radial) as [st|e]; destruct (discretise p t _ _ _ _) as [o|e']; try contradiction; cbn [bind] in A';
    destruct (adaptive_discretization (enlarge_point k p) _ _ _ _ _) as [st'|e'']; try contradiction.
  - exists st'. split; [reflexivity|]. destruct A as (-> & _), A' as (-> & _). reflexivity.
  - congruence.
Qed.
Print Assumptions C112_pieces.

(** A tesseroid of radii 1 to 2 seen from radius 100, and the same in thousands: both calls return, with the numbers in the ratio of a thousand. *)
Example C112_example : exists a, tesseroid_gravity (coords_of [] [(0.5, 0.5, 100)]) [Tess 0 1 0 1 1 2] (arr1 [3]) "g_z" true false = Ok a /\
  tesseroid_gravity (coords_of [] [(0.5, 0.5, 1000 * 100)]) [Tess 0 1 0 1 (1000 * 1) (1000 * 2)] (arr1 [3]) "g_z" true false = Ok (Arr (shape a) (map (Rmult 1000) (data a))).
Proof.
  destruct (ex_gravity 3 "g_z" true) as [a X]; [cbn; auto|]. exists a. split; [exact X|].
  assert (S := C112_enlarged_tesseroids 1000 [] [ex_p] [ex_t] [3] "g_z" true false ltac:(lra) eq_refl eq_refl). rewrite X in S. exact S.
Qed.
