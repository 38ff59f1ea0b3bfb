(** C104: Euler's methods do not depend on the frame, on the unit of the field or on the order of the data. *)
From Coq Require Import Psatz Permutation.
From Verif Require Import Base BaseFacts EllipsoidModel EllipsoidSpec EllipsoidRotProofs EulerModel EulerSpec EulerProofs EulerFrameSpec EulerFrameProofs.
Local Open Scope list_scope. Local Open Scope R_scope.

(** Deconvolution: other origin and axes, another unit and another level of the field. *)
Theorem C104_deconvolution A t k c si l : orthogonal A -> k <> 0 ->
  EulerDeconvolution_fit si (coordinate_arrays (map (framed A t k c) l)) (data_arrays (map (framed A t k c) l))
  = carried (framed_deconvolution A t k c) (EulerDeconvolution_fit si (coordinate_arrays l) (data_arrays l)).
Proof.
  intros O K. unfold EulerDeconvolution_fit. destruct (EulerDeconvolution si) as [si'|e]; cbn [bind carried]; [|reflexivity]. rewrite !check_arrays. cbn [bind]. now apply deconv_framed.
Qed.

(** Inversion with one or several structural indices: the same, for weights that treat the turned directions
    alike, such as equal weights of easting and northing and a rotation about the vertical. *)
Theorem C104_inversion A t k i l weights : orthogonal A -> k <> 0 -> fair A weights ->
  EulerInversion_fit i (coordinate_arrays (map (framed A t k 0) l)) (data_arrays (map (framed A t k 0) l)) weights
  = carried (framed_solution A t k) (EulerInversion_fit i (coordinate_arrays l) (data_arrays l) weights).
Proof. exact (inversion_fit_framed A t k i l weights). Qed.

(** A change of origin and unit is covered whatever the weights; turning about the vertical and mirroring are for equal
    weights of the horizontal derivatives. *)
Theorem C104_fair_weights (weights : list R) : fair eye weights /\
  (nth 1 weights 0 = nth 2 weights 0 -> forall a b c d s, fair (M3 (V3 a b 0) (V3 c d 0) (V3 0 0 s)) weights) /\
  (nth 1 weights 0 <> nth 2 weights 0 -> ~ fair (M3 (V3 0 (-1) 0) (V3 1 0 0) (V3 0 0 1)) weights).
Proof.
  unfold fair, mv, eye, diag, dot. cbn [vx vy vz row1 row2 row3]. split; [intros v; cbv zeta; apply V3_eq; ring|]. split.
  - intros E a b c d s v. cbv zeta. rewrite E. apply V3_eq; ring.
  - intros N F. specialize (F (V3 1 0 0)). cbn [vx vy vz] in F. injection F. intros. apply N. lra.
Qed.

Theorem C104_order si i l l' weights : Permutation l l' ->
  EulerDeconvolution_fit si (coordinate_arrays l) (data_arrays l) = EulerDeconvolution_fit si (coordinate_arrays l') (data_arrays l') /\
  EulerInversion_fit i (coordinate_arrays l) (data_arrays l) weights = EulerInversion_fit i (coordinate_arrays l') (data_arrays l') weights.
Proof.
  intros H. unfold EulerDeconvolution_fit, EulerInversion_fit. rewrite !check_arrays. cbn [bind]. split.
  - destruct (EulerDeconvolution si); cbn [bind]; [|reflexivity]. now apply deconv_perm.
  - destruct (i_index i) as [si'|sis]; [now apply inversion_perm|].
    assert (C : forall acc, for_ sis (fun si acc => do one <- EulerInversion (Single si) (i_max_iterations i) (i_tol i) (i_balance i); do s <- inversion_fit one si l weights; Ok (acc ++ [s])) acc
      = for_ sis (fun si acc => do one <- EulerInversion (Single si) (i_max_iterations i) (i_tol i) (i_balance i); do s <- inversion_fit one si l' weights; Ok (acc ++ [s])) acc).
    { induction sis as [|s sis IH]; intros acc; [reflexivity|]. cbn [for_]. destruct (EulerInversion _ _ _ _); cbn [bind]; [|reflexivity]. rewrite (inversion_perm _ _ _ _ _ H). destruct (inversion_fit _ _ l' _); cbn [bind]; [|reflexivity]. apply IH. }
    now rewrite C.
Qed.

(** A quarter turn with the default weights (1, 0.1, 0.1, 0.025). *)
Definition turn : mat3 := M3 (V3 0 (-1) 0) (V3 1 0 0) (V3 0 0 1).
Example C104_example : orthogonal turn /\ fair turn [1; 1 / 10; 1 / 10; 25 / 1000] /\
  framed turn (V3 100 0 0) 2 0 (Pos 1 2 3, V4 4 5 6 7) = (Pos 98 1 3, V4 8 (-12) 10 14).
Proof.
  split; [|split].
  - split; unfold mm, mv, mT, eye, diag, dot, turn; cbn; f_equal; apply V3_eq; ring.
  - apply C104_fair_weights. reflexivity.
  - unfold framed, framed_position, framed_values, turn, mv, vadd, vscale, dot. cbn. f_equal; [f_equal|apply v4_eq]; ring.
Qed.

Print Assumptions C104_deconvolution.
Print Assumptions C104_inversion.
Print Assumptions C104_fair_weights.
Print Assumptions C104_order.
