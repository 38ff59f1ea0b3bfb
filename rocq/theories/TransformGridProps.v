(** C44, C45 and C76: what the transformations accept and keep, combinations of derivatives and finite differences. *)
From Coquelicot Require Import Coquelicot.
From Verif Require Import Base BaseFacts NumPy NumPyFacts PointGravityProofs UtilsModel UtilsSpec UtilsProofs TransformModel TransformSpec FourierProofs TransformProofs TransformFieldProofs TransformProps.
Local Open Scope string_scope. Local Open Scope list_scope. Local Open Scope R_scope.
Local Notation C := Complex.C.

Section Props.
Variable even_fft even_pad : list R -> bool.
Variable border : string -> option R -> nat -> nat -> (nat -> nat -> R) -> nat -> nat -> R.
Notation transform := (transformation even_fft even_pad border).

(** Every transformation is a call of [apply_filter]. *)
Lemma transform_inv keep valid f : transform keep valid f -> exists H, (forall g pad kw, f g pad kw = apply_filter even_fft even_pad border g H pad kw (negb keep)) /\
  (valid -> exists K, H = Ok K /\ total K) /\ (exists e, H = Raise e) \/ (forall g pad kw, f g pad kw = apply_filter even_fft even_pad border g H pad kw (negb keep)) /\ (exists K, H = Ok K /\ (valid -> total K)).
Proof.
  intros T. destruct T.
  - eexists. right. split; [reflexivity|]. eexists. split; [reflexivity|]. intros _ ? ?. discriminate.
  - eexists. right. split; [reflexivity|]. eexists. split; [reflexivity|]. intros _ ? ?. discriminate.
  - eexists. right. split; [reflexivity|]. eexists. split; [reflexivity|]. intros _ ? ?. discriminate.
  - eexists. right. split; [reflexivity|]. eexists. split; [reflexivity|]. intros _ ? ?. discriminate.
  - destruct (Req_dec l 0) as [->|N].
    + eexists. left. split; [reflexivity|]. split; [contradiction|]. exists ZeroDivisionError. unfold gaussian_lowpass_kernel. destruct (Reqb_spec 0 0); [reflexivity|contradiction].
    + eexists. right. split; [intros; unfold gaussian_lowpass; rewrite (low_ok l N); reflexivity|]. eexists. split; [reflexivity|]. intros _ ? ?. discriminate.
  - destruct (Req_dec l 0) as [->|N].
    + eexists. left. split; [reflexivity|]. split; [contradiction|]. exists ZeroDivisionError. unfold gaussian_highpass_kernel. destruct (Reqb_spec 0 0); [reflexivity|contradiction].
    + eexists. right. split; [intros; unfold gaussian_highpass; rewrite (high_ok l N); reflexivity|]. eexists. split; [reflexivity|]. intros _ ? ?. discriminate.
  - eexists. right. split; [reflexivity|]. destruct (rtp_ok i d mi md) as [K E]. exists K. split; [exact E|]. intros [Hi Hm] a b. rewrite (rtp_total i d mi md K Hi Hm E). discriminate.
Qed.
Lemma transform_apply keep valid f : transform keep valid f -> exists H, (forall g pad kw, f g pad kw = apply_filter even_fft even_pad border g H pad kw (negb keep)) /\ (valid -> exists K, H = Ok K /\ total K).
Proof.
  intros T. destruct (transform_inv keep valid f T) as (H & [(A & V & _)|(A & K & -> & V)]); eexists; (split; [exact A|]).
  - exact V.
  - intros HV. exists K. split; [reflexivity|now apply V].
Qed.

Lemma axis_of_ok l a : axis_of even_fft l = Ok a <-> axis_ok even_fft l /\ a = Axis (length l) (Rabs (nth 1 l 0 - nth 0 l 0)) (if Rltb (nth 0 l 0) (nth (length l - 1) l 0) then nth (length l / 2) l 0 else nth (length l - 1 - length l / 2) l 0) (Rltb (nth (length l - 1) l 0) (nth 0 l 0)).
Proof.
  unfold axis_of, axis_ok. destruct (Nat.ltb_spec (length l) 2) as [L|L]; [split; [discriminate|intros [[? _] _]; lia]|].
  destruct (even_fft l); cbn [negb]; [|split; [discriminate|intros [(_ & ? & _) _]; discriminate]].
  destruct (Reqb_spec (Rabs (nth 1 l 0 - nth 0 l 0)) 0) as [E|N].
  - split; [discriminate|]. intros [(_ & _ & K) _]. exfalso. apply K. destruct (Req_dec (nth 1 l 0 - nth 0 l 0) 0) as [Z|Z]; [lra|]. now apply Rabs_no_R0 in Z.
  - split; [intros E%ok_inj; subst a; split; [|reflexivity]; split; [assumption|]; split; [reflexivity|]; intros Z; apply N; rewrite Z, Rminus_diag_eq by reflexivity; apply Rabs_R0|]. intros [_ ->]. reflexivity.
Qed.

(** Two dimensional grids without missing values whose coordinates can be transformed are accepted, and nothing
    else is. *)
Theorem C44_accepts_exactly keep valid f g kw : transform keep valid f -> valid ->
  ((exists r, f g false kw = Ok r) <-> length (g_dims g) = 2%nat /\ (forall i j, inside g i j -> g_val g i j <> NaN) /\ axis_ok even_fft (g_y g) /\ axis_ok even_fft (g_x g)).
Proof.
  intros T HV. destruct (transform_apply keep valid f T) as (H & A & V). destruct (V HV) as (K & -> & _). rewrite A. unfold apply_filter. split.
  - intros (r & E). destruct (grid_sanity_checks g) as [[]|] eqn:S; [|discriminate]. apply sanity_ok in S. destruct S as [S1 S2]. cbn [bind] in E.
    unfold filter_values in E. destruct (axis_of even_fft (g_y g)) as [ay|] eqn:Ey; [|discriminate]. cbn [bind] in E. destruct (axis_of even_fft (g_x g)) as [ax|] eqn:Ex; [|discriminate].
    apply axis_of_ok in Ey. apply axis_of_ok in Ex. destruct Ey as [Ey _]. destruct Ex as [Ex _]. auto.
  - intros (S1 & S2 & Ey & Ex). rewrite (proj2 (sanity_ok g)) by (split; assumption). cbn [bind]. unfold filter_values.
    rewrite (proj2 (axis_of_ok (g_y g) _) (conj Ey eq_refl)), (proj2 (axis_of_ok (g_x g) _) (conj Ex eq_refl)). cbn [bind]. destruct (all_finite _ _ K); eexists; reflexivity.
Qed.
Theorem C44_rejects keep valid f g pad kw : transform keep valid f -> length (g_dims g) <> 2%nat \/ (exists i j, inside g i j /\ g_val g i j = NaN) -> f g pad kw = Raise ValueError.
Proof.
  intros T Hbad. destruct (transform_apply keep valid f T) as (H & A & _). rewrite A. unfold apply_filter. destruct (sanity_error g) as [S|S]; rewrite S; [|reflexivity].
  apply sanity_ok in S. destruct S as [S1 S2]. destruct Hbad as [B|(i & j & In & B)]; [contradiction|]. now apply S2 in In.
Qed.
(** Whatever is returned lies on the nodes of the input, keeps the other coordinates except for upward
    continuation, and takes the arguments of the caller without padding as they are. *)
Theorem C44_keeps_nodes keep valid f g pad kw g' kw' : transform keep valid f -> f g pad kw = Ok (g', kw') ->
  same_nodes g g' /\ g_extra g' = (if keep then g_extra g else []) /\ (pad = false \/ kw = None -> kw' = kw).
Proof.
  intros T E. destruct (transform_apply keep valid f T) as (H & A & _). rewrite A in E. unfold apply_filter in E. destruct (grid_sanity_checks g) as [[]|]; [|discriminate]. cbn [bind] in E. destruct pad.
  - destruct (match kw_width _ with Some p => p | None => _ end) as [wy wx]. destruct (pad_axis even_pad wy (g_y g)) as [py|]; [|discriminate]. cbn [bind] in E. destruct (pad_axis even_pad wx (g_x g)) as [px|]; [|discriminate]. cbn [bind] in E.
    destruct (filter_values _ _ _ _ _) as [o|]; [|discriminate]. cbn [bind] in E. injection E as <- <-. cbn [g_extra]. split; [now repeat split|]. split; [now destruct keep|]. intros [?| ->]; [discriminate|reflexivity].
  - destruct (filter_values _ _ _ _ _) as [o|]; [|discriminate]. cbn [bind] in E. injection E as <- <-. cbn [g_extra]. split; [now repeat split|]. split; [now destruct keep|]. reflexivity.
Qed.
Hypothesis Efft : accepts_even even_fft.
Hypothesis Epad : accepts_even even_pad.
Theorem C44_regular_accepted keep valid f g y0 dy x0 dx pad kw : transform keep valid f -> valid -> regular g y0 dy x0 dx ->
  exists g' kw', f g pad kw = Ok (g', kw') /\ forall i j, g_val g' i j <> NaN.
Proof.
  intros T HV Rg. destruct (transform_apply keep valid f T) as (H & A & V). destruct (V HV) as (K & -> & TK).
  destruct (apply_regular even_fft even_pad border Efft Epad g y0 dy x0 dx pad kw (negb keep) Rg) as (ay & ax & oy & ox & w & kw' & _ & _ & _ & _ & _ & _ & _ & B & _ & _).
  rewrite A, B by (now apply total_finite). eexists. eexists. split; [reflexivity|]. intros i j. discriminate.
Qed.
(** The dictionary of the caller keeps the padding of the first grid, which then applies to the next grid. *)
Lemma pad_kwargs_after g y0 dy x0 dx w : regular g y0 dy x0 dx ->
  exists g', derivative_upward even_fft even_pad border g 1 true (Some (PadKw w None None)) = Ok (g', Some (PadKw (Some (match w with Some p => p | None => ((ny g / 4)%nat, (nx g / 4)%nat) end)) (Some "edge") (Some None))).
Proof.
  intros Rg. destruct (apply_regular even_fft even_pad border Efft Epad g y0 dy x0 dx true (Some (PadKw w None None)) false Rg) as (ay & ax & oy & ox & v & kw' & _ & _ & _ & _ & _ & _ & _ & B & _ & _).
  specialize (B (derivative_upward_kernel 1) ltac:(apply total_finite; intros ? ?; discriminate)).
  unfold derivative_upward. unfold apply_filter in *. destruct (grid_sanity_checks g) as [[]|]; [|discriminate]. cbn [bind kw_width kw_mode kw_const] in *.
  destruct w as [[wy wx]|]; (destruct (pad_axis _ _ (g_y g)) as [py|]; [|discriminate]; cbn [bind] in *; destruct (pad_axis _ _ (g_x g)) as [px|]; [|discriminate]; cbn [bind] in *; destruct (filter_values _ _ _ _ _) as [o|]; [|discriminate]; cbn [bind] in *; eexists; reflexivity).
Qed.
Definition flat (n : nat) : grid := Grid ["northing"; "easting"] (even_axis 0 1 n) (even_axis 0 1 n) (fun i j => Fin 0) [].
Lemma flat_regular n : (2 <= n)%nat -> regular (flat n) 0 1 0 1.
Proof. intros Hn. constructor; unfold ny, nx, flat; cbn [g_y g_x g_dims]; rewrite ?length_even; try lra; try lia; try reflexivity. intros; discriminate. Qed.
Theorem C44_pad_kwargs_refuted : exists g g2 r r2 r3 kw kw1 kw2, 
  derivative_upward even_fft even_pad border g 1 true (Some kw) = Ok (r, Some kw1) /\ kw1 <> kw /\
  derivative_upward even_fft even_pad border g2 1 true (Some kw) = Ok (r2, Some kw2) /\ kw_width kw2 = Some (2, 2)%nat /\
  exists kw3, derivative_upward even_fft even_pad border g2 1 true (Some (PadKw (kw_width kw1) None None)) = Ok (r3, Some kw3) /\ kw_width kw3 = Some (1, 1)%nat.
Proof.
  destruct (pad_kwargs_after (flat 4) 0 1 0 1 None (flat_regular 4 ltac:(lia))) as (r & E1).
  destruct (pad_kwargs_after (flat 8) 0 1 0 1 None (flat_regular 8 ltac:(lia))) as (r2 & E2).
  destruct (pad_kwargs_after (flat 8) 0 1 0 1 (Some (1, 1)%nat) (flat_regular 8 ltac:(lia))) as (r3 & E3).
  exists (flat 4), (flat 8), r, r2, r3. eexists. eexists. eexists. split; [exact E1|]. split; [discriminate|]. split; [exact E2|]. split; [reflexivity|]. eexists. split; [exact E3|reflexivity].
Qed.
(** Grids with decreasing coordinates come back upside down (the transform reverses such axes, the inverse does
    not know, and the original coordinates are put back). *)
Definition upside_down (a b c d : R) : grid := Grid ["northing"; "easting"] [1; 0] (even_axis 0 1 2) (g_val (grid22 a b c d)) [].
Theorem C44_decreasing_coordinates_refuted : even_fft [1; 0] = true -> exists g g', upward_continuation even_fft even_pad border g 0 false None = Ok (g', None) /\ same_nodes g g' /\
  g_val g 0 0 = Fin 1 /\ g_val g 1 0 = Fin 3 /\ g_val g' 0 0 = Fin 3.
Proof.
  intros E10. exists (upside_down 1 2 3 4). unfold upward_continuation, apply_filter. rewrite (proj2 (sanity_ok (upside_down 1 2 3 4))) by (split; [reflexivity|intros; discriminate]). cbn [bind].
  unfold filter_values. unfold upside_down at 1 2. cbn [g_y g_x]. rewrite (axis_even even_fft 0 1 2 Efft) by (lra || lia).
  assert (K10 : axis_ok even_fft [1; 0]) by (split; [cbn; lia|]; split; [exact E10|]; cbn; apply Rlt_not_eq; lra).
  rewrite (proj2 (axis_of_ok [1; 0] _) (conj K10 eq_refl)). cbn [bind].
  cbn [length nth Nat.sub]. change (2 / 2)%nat with 1%nat.
  set (a := Axis 2 (Rabs (0 - 1)) _ _).
  assert (Ra : a_rev a = true) by (unfold a; cbn [a_rev]; destruct (Rltb_spec 0 1); [reflexivity|lra]).
  assert (Ga : good a) by (unfold a; split; cbn [a_n a_d]; [lia|]; apply Rabs_no_R0; lra).
  eexists. split; [|split; [|split; [|split]]].
  - rewrite (total_finite a (reg_axis 0 1 2)) by (intros ? ?; discriminate). reflexivity.
  - now repeat split.
  - reflexivity.
  - reflexivity.
  - cbn [g_val]. f_equal.
    rewrite (ifft_ext a (reg_axis 0 1 2) _ (fft2 a (reg_axis 0 1 2) (flipped a (reg_axis 0 1 2) (fun i j => finite (g_val (upside_down 1 2 3 4) i j))))).
    + rewrite ifft_fft2 by (try exact Ga; try (apply reg_good; [lra|lia]); cbn; lia). unfold flipped, flip_index. rewrite Ra. reflexivity.
    + intros k l _ _. rewrite <- fft_fft2. unfold upward_continuation_kernel. rewrite Rmult_0_r, exp_0. cbn [some_c]. ring.
Qed.

(** ** Finite differences *)
Lemma seq_nth_lt l i j : increasing l -> (i < j)%nat -> (j < length l)%nat -> nth i l 0 < nth j l 0.
Proof. intros Hl. induction 1; intros Hj; [now apply Hl|]. eapply Rlt_trans; [apply IHle; lia|]. now apply Hl. Qed.
Lemma ndiv_fin a y : y <> 0 -> ndiv (Fin a) y = Fin (a / y).
Proof. intros H. unfold ndiv. destruct (Req_EM_T y 0); [contradiction|reflexivity]. Qed.
Lemma gradient_fin l f i : increasing l -> (2 <= length l)%nat -> (i < length l)%nat -> (forall j, (j < length l)%nat -> f j <> NaN) -> exists r, gradient l f i = Fin r.
Proof.
  intros Hl Hn Hi Hf. assert (G : forall j, (j < length l)%nat -> exists r, f j = Fin r) by (intros j Hj; specialize (Hf j Hj); destruct (f j); [contradiction|eauto]).
  unfold gradient. destruct (Nat.eqb_spec i 0) as [->|Ni].
  - destruct (G 0%nat) as [a ->]; [lia|]. destruct (G 1%nat) as [b ->]; [lia|]. pose proof (seq_nth_lt l 0 1 Hl ltac:(lia) ltac:(lia)). cbn [nsub nop]. rewrite ndiv_fin by lra. eauto.
  - destruct (Nat.eqb_spec i (length l - 1)) as [->|Nl].
    + destruct (G (length l - 1)%nat) as [a ->]; [lia|]. destruct (G (length l - 2)%nat) as [b ->]; [lia|]. pose proof (seq_nth_lt l (length l - 2) (length l - 1) Hl ltac:(lia) ltac:(lia)). cbn [nsub nop]. rewrite ndiv_fin by lra. eauto.
    + destruct (G (i - 1)%nat) as [a Ea]; [lia|]. destruct (G i) as [b Eb]; [lia|]. destruct (G (i + 1)%nat) as [c Ec]; [lia|]. rewrite Ea, Eb, Ec.
      pose proof (seq_nth_lt l (i - 1) i Hl ltac:(lia) ltac:(lia)). pose proof (seq_nth_lt l i (i + 1) Hl ltac:(lia) ltac:(lia)). cbv zeta.
      destruct (Reqb_spec (nth i l 0 - nth (i - 1) l 0) 0); [lra|]. destruct (Reqb_spec (nth (i + 1) l 0 - nth i l 0) 0); [lra|]. destruct (Reqb_spec (nth i l 0 - nth (i - 1) l 0 + (nth (i + 1) l 0 - nth i l 0)) 0); [lra|]. cbn. eauto.
Qed.
Lemma gradient_quadratic l f a b c i : increasing l -> (2 <= length l)%nat -> (i < length l)%nat -> (forall j, (j < length l)%nat -> f j = Fin (a + b * nth j l 0 + c * nth j l 0 ^ 2)) ->
  gradient l f i = Fin (b + c * (if Nat.eqb i 0 then nth 0 l 0 + nth 1 l 0 else if Nat.eqb i (length l - 1) then nth (length l - 2) l 0 + nth (length l - 1) l 0 else 2 * nth i l 0)).
Proof.
  intros Hl Hn Hi Hf. unfold gradient. destruct (Nat.eqb_spec i 0) as [->|Ni].
  - rewrite !Hf by lia. pose proof (seq_nth_lt l 0 1 Hl ltac:(lia) ltac:(lia)). cbn [nsub nop]. rewrite ndiv_fin by lra. f_equal. field. lra.
  - destruct (Nat.eqb_spec i (length l - 1)) as [->|Nl].
    + rewrite !Hf by lia. pose proof (seq_nth_lt l (length l - 2) (length l - 1) Hl ltac:(lia) ltac:(lia)). cbn [nsub nop]. rewrite ndiv_fin by lra. f_equal. field. lra.
    + rewrite !Hf by lia. pose proof (seq_nth_lt l (i - 1) i Hl ltac:(lia) ltac:(lia)). pose proof (seq_nth_lt l i (i + 1) Hl ltac:(lia) ltac:(lia)). cbv zeta.
      destruct (Reqb_spec (nth i l 0 - nth (i - 1) l 0) 0); [lra|]. destruct (Reqb_spec (nth (i + 1) l 0 - nth i l 0) 0); [lra|]. destruct (Reqb_spec (nth i l 0 - nth (i - 1) l 0 + (nth (i + 1) l 0 - nth i l 0)) 0); [lra|]. cbn [orb nadd nscale nop]. f_equal. field. repeat split; lra.
Qed.
Lemma coordinate_plain g d k : nth_error (g_dims g) k = Some d -> (_get_dataarray_coordinate g k = Ok d <-> forall e, In e (g_extra g) -> ~ along_dim d e) /\ ((exists e, In e (g_extra g) /\ along_dim d e) -> _get_dataarray_coordinate g k = Raise ValueError).
Proof.
  intros Hd. unfold _get_dataarray_coordinate. rewrite Hd. cbn [length].
  set (F := filter _ _). assert (FI : forall e, In e F <-> In e (g_extra g) /\ along_dim d e).
  { intros e. unfold F. rewrite filter_In. unfold along_dim. destruct (x_dims e) as [|d' [|? ?]]; [split; intros [? ?]; congruence| |split; intros [? ?]; congruence].
    destruct (String.eqb_spec d' d) as [->|N]; split; intros [? ?]; try congruence; now split. }
  rewrite map_length. destruct (Nat.ltb_spec 1 (S (length F))) as [L|L].
  - assert (X : exists e, In e F) by (destruct F as [|e ?]; [cbn in L; lia|exists e; now left]). destruct X as [e He]. apply FI in He. split; [split; [discriminate|]; intros Hn; destruct He as [H1 H2]; now apply Hn in H1|reflexivity].
  - assert (X : F = []) by (destruct F; [reflexivity|cbn in L; lia]). split; [split; [|reflexivity]; intros _ e H1 H2; assert (In e F) by (now apply FI); rewrite X in H; contradiction|]. intros (e & H1 & H2). assert (In e F) by (apply FI; auto). rewrite X in H. contradiction.
Qed.
Lemma dims2 g k : length (g_dims g) = 2%nat -> (k < 2)%nat -> exists d, nth_error (g_dims g) k = Some d /\ In d (g_dims g).
Proof. intros H Hk. destruct (nth_error (g_dims g) k) as [d|] eqn:E; [|apply nth_error_None in E; lia]. exists d. split; [reflexivity|]. now apply nth_error_In in E. Qed.
Lemma easting_first g pad kw : length (g_dims g) = 2%nat -> plain g -> (2 <= nx g)%nat ->
  derivative_easting even_fft even_pad border g 1 "finite-diff" pad kw = Ok (Grid (g_dims g) (g_y g) (g_x g) (fun i j => gradient (g_x g) (fun j => g_val g i j) j) (g_extra g), kw).
Proof.
  intros Hd Hp Hn. unfold derivative_easting. cbn [String.eqb Ascii.eqb Bool.eqb]. unfold finite_diff. destruct (dims2 g 1 Hd ltac:(lia)) as (d & E & I).
  rewrite (proj2 (proj1 (coordinate_plain g d 1 E))) by (intros e He; now apply Hp). cbn [bind]. change (range 0 1) with [0%nat]. cbn [for_ bind]. unfold differentiate. cbn [Nat.eqb]. unfold nx in Hn. destruct (Nat.ltb_spec (length (g_x g)) 2); [lia|]. reflexivity.
Qed.
Lemma northing_first g pad kw : length (g_dims g) = 2%nat -> plain g -> (2 <= ny g)%nat ->
  derivative_northing even_fft even_pad border g 1 "finite-diff" pad kw = Ok (Grid (g_dims g) (g_y g) (g_x g) (fun i j => gradient (g_y g) (fun i => g_val g i j) i) (g_extra g), kw).
Proof.
  intros Hd Hp Hn. unfold derivative_northing. cbn [String.eqb Ascii.eqb Bool.eqb]. unfold finite_diff. destruct (dims2 g 0 Hd ltac:(lia)) as (d & E & I).
  rewrite (proj2 (proj1 (coordinate_plain g d 0 E))) by (intros e He; now apply Hp). cbn [bind]. change (range 0 1) with [0%nat]. cbn [for_ bind]. unfold differentiate. cbn [Nat.eqb]. unfold ny in Hn. destruct (Nat.ltb_spec (length (g_y g)) 2); [lia|]. reflexivity.
Qed.

(** Surfaces that are quadratic along each row are differentiated exactly inside, and planes everywhere; the
    coordinates need not be evenly spaced. *)
Theorem C76_easting_exact g a b c pad kw : length (g_dims g) = 2%nat -> plain g -> (2 <= nx g)%nat -> increasing (g_x g) ->
  (forall i j, inside g i j -> g_val g i j = Fin (a i + b i * nth j (g_x g) 0 + c i * nth j (g_x g) 0 ^ 2)) ->
  exists g', derivative_easting even_fft even_pad border g 1 "finite-diff" pad kw = Ok (g', kw) /\ same_nodes g g' /\ g_extra g' = g_extra g /\
    forall i j, inside g i j -> c i = 0 \/ (0 < j < nx g - 1)%nat -> g_val g' i j = Fin (b i + 2 * c i * nth j (g_x g) 0).
Proof.
  intros Hd Hp Hn Hl Hv. rewrite easting_first by assumption. eexists. split; [reflexivity|]. split; [now repeat split|]. split; [reflexivity|]. intros i j [Hi Hj] Hc. cbn [g_val].
  rewrite (gradient_quadratic (g_x g) _ (a i) (b i) (c i)) by (try assumption; intros; apply Hv; now split). f_equal. unfold nx in *.
  destruct Hc as [->|Hc]; [ring|]. destruct (Nat.eqb_spec j 0); [lia|]. destruct (Nat.eqb_spec j (length (g_x g) - 1)); [lia|]. ring.
Qed.
Theorem C76_northing_exact g a b c pad kw : length (g_dims g) = 2%nat -> plain g -> (2 <= ny g)%nat -> increasing (g_y g) ->
  (forall i j, inside g i j -> g_val g i j = Fin (a j + b j * nth i (g_y g) 0 + c j * nth i (g_y g) 0 ^ 2)) ->
  exists g', derivative_northing even_fft even_pad border g 1 "finite-diff" pad kw = Ok (g', kw) /\ same_nodes g g' /\ g_extra g' = g_extra g /\
    forall i j, inside g i j -> c j = 0 \/ (0 < i < ny g - 1)%nat -> g_val g' i j = Fin (b j + 2 * c j * nth i (g_y g) 0).
Proof.
  intros Hd Hp Hn Hl Hv. rewrite northing_first by assumption. eexists. split; [reflexivity|]. split; [now repeat split|]. split; [reflexivity|]. intros i j [Hi Hj] Hc. cbn [g_val].
  rewrite (gradient_quadratic (g_y g) _ (a j) (b j) (c j)) by (try assumption; intros; apply Hv; now split). f_equal. unfold ny in *.
  destruct Hc as [->|Hc]; [ring|]. destruct (Nat.eqb_spec i 0); [lia|]. destruct (Nat.eqb_spec i (length (g_y g) - 1)); [lia|]. ring.
Qed.
(** On the border the slope is the one of the line through the two outermost nodes. *)
Theorem C76_easting_border g pad kw i u v x y : length (g_dims g) = 2%nat -> plain g -> (2 <= nx g)%nat -> increasing (g_x g) ->
  g_val g i 0 = Fin u -> g_val g i 1 = Fin v -> g_val g i (nx g - 2) = Fin x -> g_val g i (nx g - 1) = Fin y ->
  exists g', derivative_easting even_fft even_pad border g 1 "finite-diff" pad kw = Ok (g', kw) /\
    g_val g' i 0 = Fin ((v - u) / (nth 1 (g_x g) 0 - nth 0 (g_x g) 0)) /\ g_val g' i (nx g - 1) = Fin ((y - x) / (nth (nx g - 1) (g_x g) 0 - nth (nx g - 2) (g_x g) 0)).
Proof.
  intros Hd Hp Hn Hl U V X Y. rewrite easting_first by assumption. eexists. split; [reflexivity|]. cbn [g_val]. unfold nx in *. split.
  - unfold gradient. cbn [Nat.eqb]. rewrite U, V. pose proof (seq_nth_lt (g_x g) 0 1 Hl ltac:(lia) ltac:(lia)). cbn [nsub nop]. apply ndiv_fin. lra.
  - unfold gradient. destruct (Nat.eqb_spec (length (g_x g) - 1) 0); [lia|]. rewrite Nat.eqb_refl, X, Y. pose proof (seq_nth_lt (g_x g) (length (g_x g) - 2) (length (g_x g) - 1) Hl ltac:(lia) ltac:(lia)). cbn [nsub nop]. apply ndiv_fin. lra.
Qed.
(** Only the two neighbours along the row matter, so a missing value does not spread further. *)
Theorem C76_easting_local g h pad kw i j : length (g_dims g) = 2%nat -> plain g -> (2 <= nx g)%nat -> same_nodes g h -> g_extra h = g_extra g -> (j < nx g)%nat ->
  (forall k, (k < nx g)%nat -> (j <= k + 1)%nat -> (k <= j + 1)%nat -> g_val h i k = g_val g i k) ->
  exists g' h', derivative_easting even_fft even_pad border g 1 "finite-diff" pad kw = Ok (g', kw) /\ derivative_easting even_fft even_pad border h 1 "finite-diff" pad kw = Ok (h', kw) /\ g_val h' i j = g_val g' i j.
Proof.
  intros Hd Hp Hn (S1 & S2 & S3) SE Hj E. rewrite (easting_first g), (easting_first h).
  2:{ now rewrite S1. }
  2:{ intros e d. rewrite S1, SE. apply Hp. }
  2:{ unfold nx. now rewrite S3. }
  2-4: assumption.
  eexists. eexists. split; [reflexivity|]. split; [reflexivity|]. cbn [g_val]. rewrite S3. unfold nx in *. unfold gradient. destruct (Nat.eqb_spec j 0) as [->|N0]; [now rewrite !E by lia|].
  destruct (Nat.eqb_spec j (length (g_x g) - 1)) as [->|N1]; [now rewrite !E by lia|]. rewrite !E by lia. reflexivity.
Qed.
(** Two neighbouring nodes with one easting have no slope. *)
Theorem C76_repeated_easting g pad kw i k : length (g_dims g) = 2%nat -> plain g -> (S k < nx g)%nat -> nth (S k) (g_x g) 0 = nth k (g_x g) 0 ->
  exists g', derivative_easting even_fft even_pad border g 1 "finite-diff" pad kw = Ok (g', kw) /\ g_val g' i k = NaN /\ g_val g' i (S k) = NaN.
Proof.
  intros Hd Hp Hk E. rewrite easting_first by (assumption || lia). eexists. split; [reflexivity|]. cbn [g_val]. unfold nx in Hk.
  assert (N : forall x y, x = 0 -> ndiv y x = NaN). { intros x [|y] ->; unfold ndiv; [reflexivity|]. now destruct (Req_EM_T 0 0). }
  assert (Q : forall x, x = 0 -> Reqb x 0 = true). { intros x ->. destruct (Reqb_spec 0 0); [reflexivity|]. now contradiction n. }
  unfold gradient. split.
  - destruct (Nat.eqb_spec k 0) as [->|K]; [apply N; rewrite E; ring|]. destruct (Nat.eqb_spec k (length (g_x g) - 1)); [lia|].
    rewrite (Q (nth (k + 1) (g_x g) 0 - _)); [now rewrite Bool.orb_true_r|]. replace (k + 1)%nat with (S k) by lia. rewrite E. ring.
  - destruct (Nat.eqb_spec (S k) 0); [lia|]. destruct (Nat.eqb_spec (S k) (length (g_x g) - 1)) as [K|K].
    + apply N. replace (length (g_x g) - 2)%nat with k by lia. rewrite <- K, E. ring.
    + rewrite (Q (nth (S k) (g_x g) 0 - _)); [reflexivity|]. replace (S k - 1)%nat with k by lia. rewrite E. ring.
Qed.
Theorem C76_errors g order pad kw method : 
  (method <> "fft" -> method <> "finite-diff" -> derivative_easting even_fft even_pad border g order method pad kw = Raise ValueError /\ derivative_northing even_fft even_pad border g order method pad kw = Raise ValueError) /\
  (length (g_dims g) = 2%nat -> plain g -> (nx g < 2)%nat -> (1 <= order)%nat -> derivative_easting even_fft even_pad border g order "finite-diff" pad kw = Raise ValueError) /\
  (forall d e, nth_error (g_dims g) 1 = Some d -> In e (g_extra g) -> along_dim d e -> derivative_easting even_fft even_pad border g order "finite-diff" pad kw = Raise ValueError) /\
  (forall d e, nth_error (g_dims g) 0 = Some d -> In e (g_extra g) -> along_dim d e -> derivative_northing even_fft even_pad border g order "finite-diff" pad kw = Raise ValueError).
Proof.
  split; [|split; [|split]].
  - intros N1 N2. unfold derivative_easting, derivative_northing. destruct (String.eqb_spec method "finite-diff"); [contradiction|]. destruct (String.eqb_spec method "fft"); [contradiction|]. now split.
  - intros Hd Hp Hn Ho. unfold derivative_easting. cbn [String.eqb Ascii.eqb Bool.eqb]. unfold finite_diff. destruct (dims2 g 1 Hd ltac:(lia)) as (d & E & I).
    rewrite (proj2 (proj1 (coordinate_plain g d 1 E))) by (intros e He; now apply Hp). cbn [bind]. destruct order as [|order]; [lia|]. change (range 0 (S order)) with (0%nat :: seq 1 order). cbn [for_]. unfold differentiate at 1. cbn [Nat.eqb]. unfold nx in Hn. destruct (Nat.ltb_spec (length (g_x g)) 2); [|lia]. reflexivity.
  - intros d e E He Ha. unfold derivative_easting. cbn [String.eqb Ascii.eqb Bool.eqb]. unfold finite_diff. rewrite (proj2 (coordinate_plain g d 1 E)) by eauto. reflexivity.
  - intros d e E He Ha. unfold derivative_northing. cbn [String.eqb Ascii.eqb Bool.eqb]. unfold finite_diff. rewrite (proj2 (coordinate_plain g d 0 E)) by eauto. reflexivity.
Qed.

(** ** Combinations of derivatives *)
Lemma list_eqb_refl l : list_eqb l l = true.
Proof. unfold list_eqb. rewrite Nat.eqb_refl. cbn [andb]. induction l as [|x l IH]; [reflexivity|]. cbn. destruct (Reqb_spec x x); [exact IH|contradiction]. Qed.
Lemma even_increasing x0 d n : 0 < d -> increasing (even_axis x0 d n).
Proof. intros Hd i Hi. rewrite length_even in Hi. rewrite !nth_even by lia. rewrite S_INR. nra. Qed.
Lemma three_derivatives g y0 dy x0 dx pad kw : regular g y0 dy x0 dx -> plain g ->
  exists ge gn gu kw', derivative_easting even_fft even_pad border g 1 "finite-diff" pad kw = Ok (ge, kw) /\ derivative_northing even_fft even_pad border g 1 "finite-diff" pad kw = Ok (gn, kw) /\
    derivative_upward even_fft even_pad border g 1 pad kw = Ok (gu, kw') /\ same_nodes g ge /\ same_nodes g gn /\ same_nodes g gu /\
    forall i j, inside g i j -> exists e n u, g_val ge i j = Fin e /\ g_val gn i j = Fin n /\ g_val gu i j = Fin u.
Proof.
  intros Rg Hp. destruct (apply_regular even_fft even_pad border Efft Epad g y0 dy x0 dx pad kw false Rg) as (ay & ax & oy & ox & w & kw' & _ & _ & _ & _ & _ & _ & _ & B & _ & _).
  pose proof (r_dims _ _ _ _ _ Rg) as Hd. pose proof (r_ny _ _ _ _ _ Rg) as Ny. pose proof (r_nx _ _ _ _ _ Rg) as Nx.
  eexists. eexists. eexists. exists kw'. split; [now apply easting_first|]. split; [now apply northing_first|]. split; [apply B, total_finite; intros ? ?; discriminate|]. split; [now repeat split|]. split; [now repeat split|]. split; [now repeat split|].
  intros i j [Hi Hj]. cbn [g_val].
  destruct (gradient_fin (g_x g) (fun j => g_val g i j) j) as [e ->]; [rewrite (r_x _ _ _ _ _ Rg); apply even_increasing, Rg|assumption|assumption|intros; now apply (r_val _ _ _ _ _ Rg)|].
  destruct (gradient_fin (g_y g) (fun i => g_val g i j) i) as [n ->]; [rewrite (r_y _ _ _ _ _ Rg); apply even_increasing, Rg|assumption|assumption|intros; now apply (r_val _ _ _ _ _ Rg)|].
  eauto 10.
Qed.
Lemma sanity_regular g y0 dy x0 dx : regular g y0 dy x0 dx -> grid_sanity_checks g = Ok tt.
Proof. intros Rg. apply sanity_ok. split; [apply Rg|]. intros i j [Hi Hj]. now apply (r_val _ _ _ _ _ Rg). Qed.
Theorem C45_total_gradient_amplitude g y0 dy x0 dx pad kw : regular g y0 dy x0 dx -> plain g ->
  exists ge gn gu gt kw', derivative_easting even_fft even_pad border g 1 "finite-diff" pad kw = Ok (ge, kw) /\ derivative_northing even_fft even_pad border g 1 "finite-diff" pad kw = Ok (gn, kw) /\
    derivative_upward even_fft even_pad border g 1 pad kw = Ok (gu, kw') /\ total_gradient_amplitude even_fft even_pad border g pad kw = Ok (gt, kw') /\ same_nodes g gt /\
    forall i j, inside g i j -> exists e n u t, g_val ge i j = Fin e /\ g_val gn i j = Fin n /\ g_val gu i j = Fin u /\ g_val gt i j = Fin t /\ 0 <= t /\ t ^ 2 = e ^ 2 + n ^ 2 + u ^ 2.
Proof.
  intros Rg Hp. destruct (three_derivatives g y0 dy x0 dx pad kw Rg Hp) as (ge & gn & gu & kw' & E1 & E2 & E3 & (D1 & Y1 & X1) & (D2 & Y2 & X2) & (D3 & Y3 & X3) & V).
  exists ge, gn, gu. eexists. exists kw'. split; [exact E1|]. split; [exact E2|]. split; [exact E3|]. unfold total_gradient_amplitude. rewrite (sanity_regular _ _ _ _ _ Rg). cbn [bind]. rewrite E1. cbn [bind]. rewrite E2. cbn [bind]. rewrite E3. cbn [bind].
  unfold aligned. rewrite Y1, Y2, Y3, X1, X2, X3, !list_eqb_refl. cbn [andb negb]. split; [reflexivity|]. split; [now repeat split|]. intros i j In. destruct (V i j In) as (e & n & u & Ve & Vn & Vu). exists e, n, u. eexists. unfold with_values. cbn [g_val]. rewrite Ve, Vn, Vu.
  split; [reflexivity|]. split; [reflexivity|]. split; [reflexivity|]. split; [reflexivity|]. cbn [nadd nop]. split; [apply sqrt_pos|]. rewrite pow2_sqrt by nra. ring.
Qed.
Lemma arctan2_half y x : 0 <= x -> - (PI / 2) <= arctan2 y x <= PI / 2 /\ (0 < x -> tan (arctan2 y x) = y / x) /\ (x = 0 -> 0 < y -> arctan2 y x = PI / 2) /\ (x = 0 -> y < 0 -> arctan2 y x = - (PI / 2)) /\ (x = 0 -> y = 0 -> arctan2 y x = 0).
Proof.
  intros Hx. pose proof PI_RGT_0 as HP.
  assert (B : - (PI / 2) <= arctan2 y x <= PI / 2).
  { unfold arctan2. destruct (Rlt_dec 0 x) as [P|P]; [pose proof (atan_bound (y / x)); lra|]. destruct (Rlt_dec x 0); [lra|]. destruct (Rlt_dec 0 y); [lra|]. destruct (Rlt_dec y 0); lra. }
  split; [exact B|]. unfold arctan2. split; [|split; [|split]].
  - intros P. destruct (Rlt_dec 0 x); [|lra]. apply tan_atan.
  - intros -> P. destruct (Rlt_dec 0 0); [lra|]. destruct (Rlt_dec 0 y); lra.
  - intros -> P. destruct (Rlt_dec 0 0); [lra|]. destruct (Rlt_dec 0 y); [lra|]. destruct (Rlt_dec y 0); lra.
  - intros -> ->. destruct (Rlt_dec 0 0); [lra|]. reflexivity.
Qed.
Theorem C45_tilt_angle g y0 dy x0 dx pad kw : regular g y0 dy x0 dx -> plain g ->
  exists ge gn gu gt kw', derivative_easting even_fft even_pad border g 1 "finite-diff" pad kw = Ok (ge, kw) /\ derivative_northing even_fft even_pad border g 1 "finite-diff" pad kw = Ok (gn, kw) /\
    derivative_upward even_fft even_pad border g 1 pad kw = Ok (gu, kw') /\ tilt_angle even_fft even_pad border g pad kw = Ok (gt, kw') /\ same_nodes g gt /\
    forall i j, inside g i j -> exists e n u t, g_val ge i j = Fin e /\ g_val gn i j = Fin n /\ g_val gu i j = Fin u /\ g_val gt i j = Fin t /\ - (PI / 2) <= t <= PI / 2 /\
      (0 < e ^ 2 + n ^ 2 -> tan t = u / sqrt (e ^ 2 + n ^ 2)) /\ (e = 0 -> n = 0 -> 0 < u -> t = PI / 2) /\ (e = 0 -> n = 0 -> u < 0 -> t = - (PI / 2)).
Proof.
  intros Rg Hp. destruct (three_derivatives g y0 dy x0 dx pad kw Rg Hp) as (ge & gn & gu & kw' & E1 & E2 & E3 & (D1 & Y1 & X1) & (D2 & Y2 & X2) & (D3 & Y3 & X3) & V).
  exists ge, gn, gu. eexists. exists kw'. split; [exact E1|]. split; [exact E2|]. split; [exact E3|]. unfold tilt_angle. rewrite (sanity_regular _ _ _ _ _ Rg). cbn [bind]. rewrite E1. cbn [bind]. rewrite E2. cbn [bind]. rewrite E3. cbn [bind].
  unfold aligned. rewrite Y1, Y2, Y3, X1, X2, X3, !list_eqb_refl. cbn [andb negb]. split; [reflexivity|]. split; [now repeat split|]. intros i j In. destruct (V i j In) as (e & n & u & Ve & Vn & Vu). exists e, n, u. eexists. unfold with_values. cbn [g_val].
  rewrite Ve, Vn, Vu. split; [reflexivity|]. split; [reflexivity|]. split; [reflexivity|]. split; [reflexivity|]. destruct (arctan2_half u (sqrt (e ^ 2 + n ^ 2)) (sqrt_pos _)) as (B & B1 & B2 & B3 & _). split; [exact B|]. split; [|split].
  - intros P. apply B1. now apply sqrt_lt_R0.
  - intros -> ->. apply B2. replace (0 ^ 2 + 0 ^ 2) with 0 by ring. apply sqrt_0.
  - intros -> ->. apply B3. replace (0 ^ 2 + 0 ^ 2) with 0 by ring. apply sqrt_0.
Qed.
(** Missing values are refused before anything is computed. *)
Theorem C45_rejects g pad kw : length (g_dims g) <> 2%nat \/ (exists i j, inside g i j /\ g_val g i j = NaN) ->
  total_gradient_amplitude even_fft even_pad border g pad kw = Raise ValueError /\ tilt_angle even_fft even_pad border g pad kw = Raise ValueError.
Proof.
  intros Hbad. assert (S : grid_sanity_checks g = Raise ValueError).
  { destruct (sanity_error g) as [S|S]; [|exact S]. apply sanity_ok in S. destruct S as [S1 S2]. destruct Hbad as [B|(i & j & In & B)]; [contradiction|]. now apply S2 in In. }
  unfold total_gradient_amplitude, tilt_angle. rewrite S. now split.
Qed.
End Props.

(** ** The hypotheses are met *)
Example C44_example border : exists g' kw', gaussian_lowpass (fun _ => true) (fun _ => true) border (grid22 1 2 3 5) 4 true (Some empty_kw) = Ok (g', kw') /\ forall i j, g_val g' i j <> NaN.
Proof. exact (C44_regular_accepted _ _ border all_even all_even _ _ _ _ _ _ _ _ true (Some empty_kw) (T_lowpass _ _ border 4) ltac:(lra) (grid22_regular 1 2 3 5)). Qed.
Example C44_missing border pad kw : gaussian_lowpass (fun _ => true) (fun _ => true) border (Grid ["y"; "x"] [0; 1] [0; 1] (fun i j => if Nat.eqb i j then NaN else Fin 1) []) 4 pad kw = Raise ValueError.
Proof. apply (C44_rejects _ _ border _ _ _ _ pad kw (T_lowpass _ _ border 4)). right. exists 1%nat, 1%nat. split; [split; cbn; lia|reflexivity]. Qed.
Lemma grid22_plain a b c d : plain (grid22 a b c d).
Proof. intros e x []. Qed.
Example C45_example border : exists gt kw', total_gradient_amplitude (fun _ => true) (fun _ => true) border (grid22 1 2 3 5) false None = Ok (gt, kw').
Proof. destruct (C45_total_gradient_amplitude _ _ border all_even all_even _ _ _ _ _ false None (grid22_regular 1 2 3 5) (grid22_plain 1 2 3 5)) as (_ & _ & _ & gt & kw' & _ & _ & _ & E & _). eauto. Qed.
Definition uneven : grid := Grid ["northing"; "easting"] [0] [0; 1; 3; 7] (fun i j => Fin (2 + 3 * nth j [0; 1; 3; 7] 0 + 5 * nth j [0; 1; 3; 7] 0 ^ 2)) [].
Definition repeated : grid := Grid ["northing"; "easting"] [0] [0; 1; 1] (fun _ _ => Fin 4) [].
Example C76_repeated_example : plain repeated /\ (2 < nx repeated)%nat /\ nth 2 (g_x repeated) 0 = nth 1 (g_x repeated) 0.
Proof. split; [intros e d []|]. split; [cbn; lia|reflexivity]. Qed.
Example C76_example border : exists g', derivative_easting (fun _ => true) (fun _ => true) border uneven 1 "finite-diff" true None = Ok (g', None) /\ g_val g' 0 2 = Fin 33.
Proof.
  destruct (C76_easting_exact (fun _ => true) (fun _ => true) border uneven (fun _ => 2) (fun _ => 3) (fun _ => 5) true None) as (g' & E & _ & _ & V).
  - reflexivity.
  - intros e d [].
  - cbn. lia.
  - intros i Hi. cbn in Hi. destruct i as [|[|[|i]]]; cbn; try lra. lia.
  - reflexivity.
  - exists g'. split; [exact E|]. rewrite V; [f_equal; cbn; lra|split; cbn; lia|right; cbn; lia].
Qed.
Print Assumptions C44_accepts_exactly.
Print Assumptions C44_keeps_nodes.
Print Assumptions C44_pad_kwargs_refuted.
Print Assumptions C44_decreasing_coordinates_refuted.
Print Assumptions C45_total_gradient_amplitude.
Print Assumptions C45_tilt_angle.
Print Assumptions C76_repeated_easting.
Print Assumptions C76_easting_exact.
