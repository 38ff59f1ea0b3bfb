(** Claim C87: the transformations are linear, and do not depend on where the grid lies or which axis comes first. *)
From Coquelicot Require Import Coquelicot.
From Verif Require Import Base BaseFacts NumPy UtilsModel UtilsSpec TransformModel TransformSpec FourierProofs TransformProofs TransformFieldProofs TransformProps TransformGridProps TransformSymmetryProofs.
Local Open Scope string_scope. Local Open Scope list_scope. Local Open Scope R_scope.
Local Notation C := Complex.C.

(** The third grid is a linear combination of the other two, on the same nodes and without missing values. *)
Definition combination (p q : R) (g1 g2 g3 : grid) : Prop :=
  same_nodes g1 g2 /\ same_nodes g1 g3 /\
  forall i j, inside g1 i j -> exists u v, g_val g1 i j = Fin u /\ g_val g2 i j = Fin v /\ g_val g3 i j = Fin (p * u + q * v).
(** No padding, or padding with the value of the nearest node, which is the default. *)
Definition edge_padding (pad : bool) (kw : option pad_kw) : Prop :=
  pad = false \/ kw = None \/ exists k, kw = Some k /\ (kw_mode k = None \/ kw_mode k = Some "edge").
(** The grid moved by a whole number of nodes along each axis, as if it were periodic. *)
Definition rolled (a b : nat) (g g' : grid) : Prop :=
  same_nodes g g' /\ forall i j, inside g i j -> g_val g' i j = g_val g ((i + a) mod ny g) ((j + b) mod nx g).
(** The grid with its axes exchanged. *)
Definition transposed (g g' : grid) : Prop :=
  g_dims g' = rev (g_dims g) /\ g_y g' = g_x g /\ g_x g' = g_y g /\ forall i j, inside g i j -> g_val g' j i = g_val g i j.
(** The padding for the grid with its axes exchanged. *)
Definition kw_transposed (kw : option pad_kw) : option pad_kw :=
  match kw with None => None | Some k => Some (PadKw (match kw_width k with Some (a, b) => Some (b, a) | None => None end) (kw_mode k) (kw_const k)) end.
(** Transformations that correspond when the axes are exchanged: declinations are then counted from the other axis. *)
Inductive exchanged (ef ep : list R -> bool) (bd : string -> option R -> nat -> nat -> (nat -> nat -> R) -> nat -> nat -> R) :
  Prop -> (grid -> bool -> option pad_kw -> res (grid * option pad_kw)) -> (grid -> bool -> option pad_kw -> res (grid * option pad_kw)) -> Prop :=
| X_upward n : exchanged ef ep bd True (fun g pad kw => derivative_upward ef ep bd g n pad kw) (fun g pad kw => derivative_upward ef ep bd g n pad kw)
| X_easting n : exchanged ef ep bd True (fun g pad kw => derivative_easting ef ep bd g n "fft" pad kw) (fun g pad kw => derivative_northing ef ep bd g n "fft" pad kw)
| X_northing n : exchanged ef ep bd True (fun g pad kw => derivative_northing ef ep bd g n "fft" pad kw) (fun g pad kw => derivative_easting ef ep bd g n "fft" pad kw)
| X_continuation h : exchanged ef ep bd True (fun g pad kw => upward_continuation ef ep bd g h pad kw) (fun g pad kw => upward_continuation ef ep bd g h pad kw)
| X_lowpass l : exchanged ef ep bd (l <> 0) (fun g pad kw => gaussian_lowpass ef ep bd g l pad kw) (fun g pad kw => gaussian_lowpass ef ep bd g l pad kw)
| X_highpass l : exchanged ef ep bd (l <> 0) (fun g pad kw => gaussian_highpass ef ep bd g l pad kw) (fun g pad kw => gaussian_highpass ef ep bd g l pad kw)
| X_pole i d mi md : exchanged ef ep bd (sin (radians i) <> 0 /\ sin (radians mi) <> 0)
    (fun g pad kw => reduction_to_pole ef ep bd g i d (Some mi) (Some md) pad kw) (fun g pad kw => reduction_to_pole ef ep bd g i (90 - d) (Some mi) (Some (90 - md)) pad kw).

Section Props.
Variable even_fft even_pad : list R -> bool.
Variable border : string -> option R -> nat -> nat -> (nat -> nat -> R) -> nat -> nat -> R.
Notation transform := (transformation even_fft even_pad border).

Lemma pad_axis_length w l l' : pad_axis even_pad w l = Ok l' -> (2 <= length l)%nat /\ length l' = (w + length l + w)%nat.
Proof.
  unfold pad_axis. destruct (Nat.ltb_spec (length l) 2); [discriminate|]. destruct (negb _); [discriminate|]. intros E%ok_inj. subst l'.
  split; [assumption|]. rewrite !app_length, !map_length. unfold range. rewrite !seq_length. lia.
Qed.
Lemma axis_of_n l a : axis_of even_fft l = Ok a -> a_n a = length l.
Proof. intros E. apply axis_of_ok in E. destruct E as [_ ->]. reflexivity. Qed.
(** ** Linear combinations.  Any coordinates, increasing or decreasing. *)
Theorem C87_linear keep valid f p q g1 g2 g3 pad kw o1 kw' : transform keep valid f -> valid -> combination p q g1 g2 g3 -> edge_padding pad kw ->
  f g1 pad kw = Ok (o1, kw') ->
  exists o2 o3, f g2 pad kw = Ok (o2, kw') /\ f g3 pad kw = Ok (o3, kw') /\ combination p q o1 o2 o3.
Proof.
  intros T HV ((D2 & Y2 & X2) & (D3 & Y3 & X3) & V) P E1.
  destruct (transform_apply even_fft even_pad border keep valid f T) as (H & A & VV). destruct (VV HV) as (K & -> & TK). rewrite !A in *.
  unfold apply_filter in *. destruct (grid_sanity_checks g1) as [[]|] eqn:S1; [|discriminate]. apply sanity_ok in S1. destruct S1 as [S1 _].
  assert (N2 : ny g2 = ny g1 /\ nx g2 = nx g1) by (unfold ny, nx; now rewrite Y2, X2).
  assert (N3 : ny g3 = ny g1 /\ nx g3 = nx g1) by (unfold ny, nx; now rewrite Y3, X3).
  destruct N2 as [N2y N2x], N3 as [N3y N3x].
  rewrite (proj2 (sanity_ok g2)), (proj2 (sanity_ok g3)).
  2:{ split; [now rewrite D3|]. intros i j [Hi Hj]. destruct (V i j ltac:(split; congruence)) as (u & v & _ & _ & ->). discriminate. }
  2:{ split; [now rewrite D2|]. intros i j [Hi Hj]. destruct (V i j ltac:(split; congruence)) as (u & v & _ & -> & _). discriminate. }
  cbn [bind] in *. rewrite D2, D3, Y2, Y3, X2, X3, N2y, N2x, N3y, N3x.
  assert (VV' : forall i j, (i < ny g1)%nat -> (j < nx g1)%nat -> finite (g_val g3 i j) = p * finite (g_val g1 i j) + q * finite (g_val g2 i j)).
  { intros i j Hi Hj. destruct (V i j (conj Hi Hj)) as (u & v & -> & -> & ->). reflexivity. }
  destruct pad.
  - assert (M : match kw_mode (match kw with None => empty_kw | Some k => k end) with Some m => m | None => "edge" end = "edge").
    { destruct P as [P | [-> | (k & -> & [-> | ->])]]; [discriminate| | |]; reflexivity. }
    rewrite M in *. clear M.
    destruct (match kw_width _ with Some w => w | None => _ end) as [wy wx].
    set (const := match kw_const _ with Some c => c | None => None end) in *.
    destruct (pad_axis even_pad wy (g_y g1)) as [py|] eqn:Py; [|discriminate]. cbn [bind] in *.
    destruct (pad_axis even_pad wx (g_x g1)) as [px|] eqn:Px; [|discriminate]. cbn [bind] in *.
    apply pad_axis_length in Py, Px. destruct Py as [Ly Py], Px as [Lx Px]. fold (ny g1) in Ly, Py. fold (nx g1) in Lx, Px.
    unfold filter_values in *. destruct (axis_of even_fft py) as [ay|] eqn:Ay; [|discriminate]. cbn [bind] in *.
    destruct (axis_of even_fft px) as [ax|] eqn:Ax; [|discriminate]. cbn [bind] in *.
    apply axis_of_n in Ay, Ax. rewrite (total_finite ay ax K TK) in *. cbn [bind] in *. apply ok_inj in E1. 
    assert (Eo : o1 = fst (o1, kw')) by reflexivity. assert (Ek : kw' = snd (o1, kw')) by reflexivity. rewrite <- E1 in Eo, Ek. cbn [fst snd] in Eo, Ek. subst o1 kw'. clear E1.
    do 2 eexists. split; [reflexivity|]. split; [reflexivity|]. split; [now repeat split|]. split; [now repeat split|].
    intros i j In. cbn [g_val]. do 2 eexists. split; [reflexivity|]. split; [reflexivity|]. f_equal.
    apply (filter_lin ay ax p q _ _ _ (fun k l => some_c (K (freq ay k) (freq ax l)))). intros a b Ha Hb.
    unfold pad_values. destruct (Nat.leb_spec wy a), (Nat.ltb_spec a (wy + ny g1)), (Nat.leb_spec wx b), (Nat.ltb_spec b (wx + nx g1)); cbn [andb]; cbn [String.eqb];
      apply VV'; unfold clamp; lia.
  - unfold filter_values in *. destruct (axis_of even_fft (g_y g1)) as [ay|] eqn:Ay; [|discriminate]. cbn [bind] in *.
    destruct (axis_of even_fft (g_x g1)) as [ax|] eqn:Ax; [|discriminate]. cbn [bind] in *.
    apply axis_of_n in Ay, Ax. rewrite (total_finite ay ax K TK) in *. cbn [bind] in *. apply ok_inj in E1. 
    assert (Eo : o1 = fst (o1, kw')) by reflexivity. assert (Ek : kw' = snd (o1, kw')) by reflexivity. rewrite <- E1 in Eo, Ek. cbn [fst snd] in Eo, Ek. subst o1 kw'. clear E1.
    do 2 eexists. split; [reflexivity|]. split; [reflexivity|]. split; [now repeat split|]. split; [now repeat split|].
    intros i j In. cbn [g_val]. do 2 eexists. split; [reflexivity|]. split; [reflexivity|]. f_equal.
    apply (filter_lin ay ax p q _ _ _ (fun k l => some_c (K (freq ay k) (freq ax l)))). intros a b Ha Hb. rewrite Ay in Ha. rewrite Ax in Hb. now apply VV'.
Qed.

(** ** Regular grids *)
Hypothesis Efft : accepts_even even_fft.
Hypothesis Epad : accepts_even even_pad.
Definition the_kw (kw : option pad_kw) : pad_kw := match kw with None => empty_kw | Some k => k end.
Definition widths (pad : bool) (kw : option pad_kw) (n m : nat) : nat * nat :=
  if pad then match kw_width (the_kw kw) with Some w => w | None => ((n / 4)%nat, (m / 4)%nat) end else (0%nat, 0%nat).
Definition kw_after (pad : bool) (kw : option pad_kw) (n m : nat) : option pad_kw :=
  if pad then match kw with None => None | Some k => Some (PadKw (Some (widths true kw n m)) (Some "edge") (Some (match kw_const k with Some c => c | None => None end))) end else kw.
Lemma apply_edge g y0 dy x0 dx pad kw drop K : regular g y0 dy x0 dx -> edge_padding pad kw -> total K ->
  let '(wy, wx) := widths pad kw (ny g) (nx g) in
  apply_filter even_fft even_pad border g (Ok K) pad kw drop =
  Ok (Grid (g_dims g) (g_y g) (g_x g) (fun i j => Fin (Re (out (reg_axis (y0 - INR wy * dy) dy (wy + ny g + wy)) (reg_axis (x0 - INR wx * dx) dx (wx + nx g + wx))
        (fun a b => val g (clamp wy (ny g) a) (clamp wx (nx g) b)) K (wy + i) (wx + j)))) (if drop then [] else g_extra g), kw_after pad kw (ny g) (nx g)).
Proof.
  intros [Rd Ry Rx Dy Dx Ny Nx Rv] P TK.
  assert (S : grid_sanity_checks g = Ok tt) by (apply sanity_ok; split; [assumption|intros i j [? ?]; auto]).
  unfold widths, kw_after. unfold apply_filter. rewrite S. cbn [bind]. fold (the_kw kw). destruct pad.
  - assert (M : match kw_mode (the_kw kw) with Some m => m | None => "edge" end = "edge").
    { destruct P as [P | [-> | (k & -> & [E | E])]]; [discriminate| | |]; cbn [the_kw]; rewrite ?E; reflexivity. }
    rewrite M. destruct (match kw_width (the_kw kw) with Some w => w | None => _ end) as [wy wx] eqn:W.
    replace (pad_axis even_pad wy (g_y g)) with (pad_axis even_pad wy (even_axis y0 dy (ny g))) by (now rewrite <- Ry).
    replace (pad_axis even_pad wx (g_x g)) with (pad_axis even_pad wx (even_axis x0 dx (nx g))) by (now rewrite <- Rx).
    rewrite !pad_even by assumption. cbn [bind]. unfold filter_values. rewrite !axis_even by (try assumption; lia). cbn [bind].
    rewrite (total_finite _ _ K TK). cbn [bind].
    match goal with |- Ok (?a, ?b) = Ok (?c, ?d) => replace b with d; [replace a with c; [reflexivity|]|] end.
    + f_equal. apply FunctionalExtensionality.functional_extensionality. intros i. apply FunctionalExtensionality.functional_extensionality. intros j. do 2 f_equal.
      rewrite out_fft by reflexivity. apply out_congr. cbn [a_n reg_axis]. intros a b Ha Hb. fold (val g). unfold pad_values, clamp.
      destruct (Nat.leb_spec wy a), (Nat.ltb_spec a (wy + ny g)), (Nat.leb_spec wx b), (Nat.ltb_spec b (wx + nx g)); cbn [andb String.eqb]; try reflexivity.
      f_equal; lia.
    + destruct kw as [k|]; [|reflexivity]. cbn [the_kw] in W. unfold widths. cbn [the_kw]. now rewrite W.
  - unfold filter_values.
    replace (axis_of even_fft (g_y g)) with (axis_of even_fft (even_axis y0 dy (ny g))) by (now rewrite <- Ry).
    replace (axis_of even_fft (g_x g)) with (axis_of even_fft (even_axis x0 dx (nx g))) by (now rewrite <- Rx).
    rewrite !axis_even by assumption. cbn [bind].
    rewrite (total_finite _ _ K TK). cbn [bind].
    match goal with |- Ok (?a, ?b) = Ok (?c, ?d) => replace a with c; [reflexivity|] end.
    f_equal. apply FunctionalExtensionality.functional_extensionality. intros i. apply FunctionalExtensionality.functional_extensionality. intros j. do 2 f_equal.
    rewrite out_fft by reflexivity. cbn [Nat.add INR]. rewrite !Nat.add_0_r, !Rmult_0_l, !Rminus_0_r. apply out_congr. cbn [a_n reg_axis]. intros a b Ha Hb. unfold clamp, val. do 2 f_equal; lia.
Qed.
Lemma out_range n w i : (1 <= n)%nat -> (clamp w n i < n)%nat.
Proof. intros. unfold clamp. lia. Qed.

(** Moving the coordinates leaves the values; the first grid may lie anywhere. *)
Theorem C87_translation keep valid f g g' y0 dy x0 dx y1 x1 pad kw : transform keep valid f -> valid -> edge_padding pad kw ->
  regular g y0 dy x0 dx -> regular g' y1 dy x1 dx -> ny g' = ny g -> nx g' = nx g -> (forall i j, inside g i j -> g_val g' i j = g_val g i j) ->
  exists o o' kw', f g pad kw = Ok (o, kw') /\ f g' pad kw = Ok (o', kw') /\ forall i j, inside g i j -> exists v, g_val o i j = Fin v /\ g_val o' i j = Fin v.
Proof.
  intros T HV P Rg Rg' En Em V. destruct (transform_apply even_fft even_pad border keep valid f T) as (H & A & VV). destruct (VV HV) as (K & -> & TK). rewrite !A.
  pose proof (apply_edge g y0 dy x0 dx pad kw (negb keep) K Rg P TK) as E. pose proof (apply_edge g' y1 dy x1 dx pad kw (negb keep) K Rg' P TK) as E'.
  rewrite En, Em in E'. destruct (widths pad kw (ny g) (nx g)) as [wy wx]. rewrite E, E'.
  do 3 eexists. split; [reflexivity|]. split; [reflexivity|]. intros i j In. cbn [g_val]. eexists. split; [reflexivity|]. do 2 f_equal.
  destruct Rg as [_ _ _ Dy Dx Ny Nx _].
  rewrite (out_translate _ (y0 - INR wy * dy) dy _ _ (x0 - INR wx * dx) dx) by (assumption || lia).
  apply out_congr. intros a b _ _. unfold val. rewrite V; [reflexivity|]. split; apply out_range; lia.
Qed.

(** Without padding a rolled grid gives the rolled result. *)
Theorem C87_roll keep valid f g g' y0 dy x0 dx p q kw : transform keep valid f -> valid ->
  regular g y0 dy x0 dx -> rolled p q g g' ->
  exists o o', f g false kw = Ok (o, kw) /\ f g' false kw = Ok (o', kw) /\ rolled p q o o'.
Proof.
  intros T HV Rg ((D & Y & X) & V). destruct (transform_apply even_fft even_pad border keep valid f T) as (H & A & VV). destruct (VV HV) as (K & -> & TK). rewrite !A.
  assert (Qy : ny g' = ny g) by (unfold ny; now rewrite Y). assert (Qx : nx g' = nx g) by (unfold nx; now rewrite X).
  assert (Rg' : regular g' y0 dy x0 dx).
  { destruct Rg as [Rd Ry Rx Dy Dx Ny Nx Rv]. constructor; rewrite ?Qy, ?Qx, ?D, ?Y, ?X; try assumption. intros i j Hi Hj. rewrite V by (split; assumption).
    apply Rv; apply Nat.mod_upper_bound; lia. }
  pose proof (apply_edge g y0 dy x0 dx false kw (negb keep) K Rg (or_introl eq_refl) TK) as E. pose proof (apply_edge g' y0 dy x0 dx false kw (negb keep) K Rg' (or_introl eq_refl) TK) as E'.
  rewrite Qy, Qx in E'. cbn [widths] in E, E'. rewrite E, E'. do 2 eexists. split; [reflexivity|]. split; [reflexivity|]. split; [now repeat split|].
  intros i j In. unfold inside, ny, nx in In |- *. cbn [g_val g_y g_x] in *. fold (ny g) (nx g) in *. do 2 f_equal. cbn [Nat.add]. rewrite !Nat.add_0_r.
  destruct Rg as [_ _ _ Dy Dx Ny Nx _]. apply out_shift; try assumption. intros a b Ha Hb. unfold clamp. rewrite !Nat.sub_0_r.
  pose proof (Nat.mod_upper_bound (a + p) (ny g) ltac:(lia)). pose proof (Nat.mod_upper_bound (b + q) (nx g) ltac:(lia)).
  rewrite !Nat.min_l by lia. unfold val. rewrite V by (split; assumption). reflexivity.
Qed.

(** ** Exchanging the axes *)
Lemma exchanged_apply valid f f' : exchanged even_fft even_pad border valid f f' -> valid ->
  exists K K' drop, (forall g pad kw, f g pad kw = apply_filter even_fft even_pad border g (Ok K) pad kw drop) /\
    (forall g pad kw, f' g pad kw = apply_filter even_fft even_pad border g (Ok K') pad kw drop) /\ total K /\ forall a b, K' a b = K b a.
Proof.
  intros X HV. destruct X.
  - exists (derivative_upward_kernel n), (derivative_upward_kernel n), false. split; [reflexivity|]. split; [reflexivity|]. split; [intros ? ?; discriminate|].
    intros a b. unfold derivative_upward_kernel. now rewrite Rplus_comm.
  - exists (derivative_easting_kernel n), (derivative_northing_kernel n), false. split; [reflexivity|]. split; [reflexivity|]. split; [intros ? ?; discriminate|]. reflexivity.
  - exists (derivative_northing_kernel n), (derivative_easting_kernel n), false. split; [reflexivity|]. split; [reflexivity|]. split; [intros ? ?; discriminate|]. reflexivity.
  - exists (upward_continuation_kernel h), (upward_continuation_kernel h), true. split; [reflexivity|]. split; [reflexivity|]. split; [intros ? ?; discriminate|].
    intros a b. unfold upward_continuation_kernel. now rewrite Rplus_comm.
  - exists (lowH l), (lowH l), false. split; [intros; unfold gaussian_lowpass; now rewrite low_ok|]. split; [intros; unfold gaussian_lowpass; now rewrite low_ok|]. split; [intros ? ?; discriminate|].
    intros a b. unfold lowH. now rewrite Rplus_comm.
  - exists (highH l), (highH l), false. split; [intros; unfold gaussian_highpass; now rewrite high_ok|]. split; [intros; unfold gaussian_highpass; now rewrite high_ok|]. split; [intros ? ?; discriminate|].
    intros a b. unfold highH. now rewrite Rplus_comm.
  - destruct HV as [H1 H2]. do 2 eexists. exists false. split; [intros; reflexivity|]. split; [intros; reflexivity|]. split.
    + intros a b. rewrite (rtp_total i d mi md _ H1 H2 eq_refl). discriminate.
    + intros a b. rewrite (rtp_total i d mi md _ H1 H2 eq_refl). rewrite (rtp_total i (90 - d) mi (90 - md) _ H1 H2 eq_refl).
      f_equal. rewrite Bool.andb_comm. destruct (Reqb b 0 && Reqb a 0)%bool; [reflexivity|]. rewrite (Rplus_comm (k_of b ^ 2)).
      assert (Q : forall i d, dirfac (k_of a) (k_of b) (direction i (90 - d)) = dirfac (k_of b) (k_of a) (direction i d)).
      { intros i' d'. unfold dirfac, direction. cbn [vx vy vz]. unfold radians.
        replace ((90 - d') * PI / 180) with (PI / 2 - d' * PI / 180) by field. 
        rewrite (sin_shift (d' * PI / 180)), (cos_shift (d' * PI / 180)). rewrite (Rplus_comm (k_of b ^ 2)). f_equal. ring. }
      now rewrite !Q.
Qed.
Theorem C87_exchange valid f f' g g' y0 dy x0 dx pad kw : exchanged even_fft even_pad border valid f f' -> valid -> edge_padding pad kw ->
  regular g y0 dy x0 dx -> transposed g g' ->
  exists o o' kw1 kw2, f g pad kw = Ok (o, kw1) /\ f' g' pad (kw_transposed kw) = Ok (o', kw2) /\ transposed o o'.
Proof.
  intros X HV P Rg (D & Y & Xx & V). destruct (exchanged_apply valid f f' X HV) as (K & K' & drop & A & A' & TK & EK). rewrite A, A'.
  assert (Qy : ny g' = nx g) by (unfold ny; now rewrite Y). assert (Qx : nx g' = ny g) by (unfold nx; now rewrite Xx).
  assert (Rg' : regular g' x0 dx y0 dy).
  { destruct Rg as [Rd Ry Rx Dy Dx Ny Nx Rv]. constructor; rewrite ?Qy, ?Qx, ?D, ?Y, ?Xx; try assumption; [now rewrite rev_length|].
    intros i j Hi Hj. rewrite V by (split; assumption). now apply Rv. }
  assert (P' : edge_padding pad (kw_transposed kw)).
  { destruct P as [P | [-> | (k & -> & E)]]; [now left|now right; left|right; right]. eexists. split; [reflexivity|exact E]. }
  assert (TK' : total K') by (intros a b; rewrite EK; apply TK).
  pose proof (apply_edge g y0 dy x0 dx pad kw drop K Rg P TK) as E. pose proof (apply_edge g' x0 dx y0 dy pad (kw_transposed kw) drop K' Rg' P' TK') as E'.
  assert (W : widths pad (kw_transposed kw) (ny g') (nx g') = let '(wy, wx) := widths pad kw (ny g) (nx g) in (wx, wy)).
  { unfold widths. rewrite Qy, Qx. destruct pad; [|reflexivity]. destruct kw as [[[[wy wx]|] m c]|]; reflexivity. }
  rewrite W in E'. destruct (widths pad kw (ny g) (nx g)) as [wy wx]. rewrite E, E'. do 4 eexists. split; [reflexivity|]. split; [reflexivity|].
  split; [exact D|]. split; [exact Y|]. split; [exact Xx|]. intros i j In. cbn [g_val]. do 2 f_equal. rewrite Qy, Qx.
  rewrite (out_transpose (reg_axis (y0 - INR wy * dy) dy (wy + ny g + wy))).
  rewrite (out_ext _ _ _ K' (fun a b => K b a)) by (intros; now rewrite EK). apply out_congr. intros a b _ _. unfold val. rewrite V; [reflexivity|].
  destruct Rg as [_ _ _ _ _ Ny Nx _]. split; apply out_range; lia.
Qed.
End Props.
Print Assumptions C87_linear.
Print Assumptions C87_translation.
Print Assumptions C87_roll.
Print Assumptions C87_exchange.

Example C87_linear_ex : combination 2 3 (grid22 1 2 3 4) (grid22 0 1 0 1) (grid22 2 7 6 11) /\ edge_padding true None /\
  edge_padding true (Some (PadKw (Some (5%nat, 6%nat)) None None)) /\
  exists o kw, derivative_easting (fun _ => true) (fun _ => true) (fun _ _ _ _ _ _ _ => 0) (grid22 1 2 3 4) 1 "fft" true None = Ok (o, kw).
Proof.
  split; [|split; [|split]].
  - split; [now repeat split|]. split; [now repeat split|]. intros i j _. do 2 eexists. split; [reflexivity|]. split; [reflexivity|]. cbn [g_val grid22]. f_equal.
    destruct (Nat.eqb i 0), (Nat.eqb j 0); lra.
  - right. now left.
  - right. right. eexists. split; [reflexivity|]. now left.
  - destruct (C44_regular_accepted (fun _ => true) (fun _ => true) (fun _ _ _ _ _ _ _ => 0) all_even all_even _ _ _ (grid22 1 2 3 4) 0 1 0 1 true None (T_easting _ _ _ 1) I (grid22_regular 1 2 3 4)) as (o & k & E & _).
    exists o, k. exact E.
Qed.
Example C87_roll_ex : regular (grid22 1 2 3 4) 0 1 0 1 /\ rolled 1 0 (grid22 1 2 3 4) (grid22 3 4 1 2) /\ transposed (grid22 1 2 3 4) (Grid ["easting"; "northing"] (even_axis 0 1 2) (even_axis 0 1 2) (g_val (grid22 1 3 2 4)) []).
Proof.
  split; [apply grid22_regular|]. split; [split; [now repeat split|]|repeat split]; intros i j [Hi Hj]; unfold ny, nx in *; cbn [g_y g_x grid22] in *; rewrite length_even in *;
    (destruct i as [|[|]]; [| |lia]); (destruct j as [|[|]]; [| |lia]); reflexivity.
Qed.
