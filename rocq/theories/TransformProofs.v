(** Facts about the filters of TransformModel. *)
From Coquelicot Require Import Coquelicot.
From Verif Require Import Base BaseFacts NumPy NumPyFacts LayerProofs UtilsModel UtilsSpec UtilsProofs TransformModel TransformSpec FourierProofs.
Local Open Scope string_scope. Local Open Scope list_scope. Local Open Scope R_scope.
Local Notation C := Complex.C.

Lemma length_even x0 d n : length (even_axis x0 d n) = n.
Proof. unfold even_axis. rewrite map_length. unfold range. rewrite seq_length. lia. Qed.
Lemma nth_even x0 d n i : (i < n)%nat -> nth i (even_axis x0 d n) 0 = x0 + INR i * d.
Proof.
  intros H. unfold even_axis, range. rewrite (nth_indep _ 0 (x0 + INR 0 * d)) by (rewrite map_length, seq_length; lia).
  rewrite (map_nth (fun i => x0 + INR i * d)). rewrite seq_nth by lia. f_equal.
Qed.
Definition reg_axis (x0 d : R) (n : nat) : axis := Axis n d (x0 + INR (n / 2) * d) false.
Lemma reg_good x0 d n : 0 < d -> (2 <= n)%nat -> good (reg_axis x0 d n).
Proof. intros Hd Hn. split; cbn; [lia|lra]. Qed.
Lemma reg_position x0 d n i : position (reg_axis x0 d n) i = x0 + INR i * d.
Proof. unfold position. cbn. ring. Qed.
Lemma axis_even even x0 d n : accepts_even even -> 0 < d -> (2 <= n)%nat -> axis_of even (even_axis x0 d n) = Ok (reg_axis x0 d n).
Proof.
  intros He Hd Hn. unfold axis_of. rewrite length_even. destruct (Nat.ltb_spec n 2); [lia|].
  rewrite !nth_even by lia. rewrite He by assumption. cbn [negb].
  replace (x0 + INR 1 * d - (x0 + INR 0 * d)) with d by (cbn; ring). rewrite Rabs_pos_eq by lra.
  destruct (Reqb_spec d 0); [lra|].
  assert (L : x0 + INR 0 * d < x0 + INR (n - 1) * d).
  { apply Rplus_lt_compat_l. apply Rmult_lt_compat_r; [assumption|]. apply lt_INR. lia. }
  destruct (Rltb_spec (x0 + INR 0 * d) (x0 + INR (n - 1) * d)); [|lra].
  destruct (Rltb_spec (x0 + INR (n - 1) * d) (x0 + INR 0 * d)); [lra|].
  rewrite nth_even by (apply Nat.div_lt; lia). reflexivity.
Qed.
Lemma pad_even even x0 d n w : accepts_even even -> 0 < d -> (2 <= n)%nat -> pad_axis even w (even_axis x0 d n) = Ok (even_axis (x0 - INR w * d) d (w + n + w)).
Proof.
  intros He Hd Hn. unfold pad_axis. rewrite length_even. destruct (Nat.ltb_spec n 2); [lia|]. rewrite He by assumption. cbn [negb]. rewrite !nth_even by lia.
  replace (x0 + INR 1 * d - (x0 + INR 0 * d)) with d by (cbn; ring). f_equal.
  apply (nth_ext _ _ 0 0).
  - rewrite !app_length, !map_length, length_even. unfold range. rewrite !seq_length, length_even. lia.
  - intros i Hi. rewrite !app_length, !map_length, length_even in Hi. unfold range in Hi. rewrite !seq_length in Hi.
    rewrite (nth_even _ d) by lia. unfold range. rewrite Nat.sub_0_r.
    destruct (Nat.lt_ge_cases i w) as [L|L].
    + rewrite app_nth1 by (rewrite map_length, seq_length; lia). rewrite (nth_indep _ 0 (x0 + INR 0 * d - INR (w - 0) * d)) by (rewrite map_length, seq_length; lia).
      rewrite (map_nth (fun i => x0 + INR 0 * d - INR (w - i) * d)). rewrite seq_nth by lia. rewrite minus_INR by lia. cbn [INR Nat.add]. ring.
    + rewrite app_nth2 by (rewrite map_length, seq_length; lia). rewrite map_length, seq_length.
      destruct (Nat.lt_ge_cases (i - w) n) as [M|M].
      * rewrite app_nth1 by (rewrite length_even; lia). rewrite nth_even by lia. rewrite minus_INR by lia. ring.
      * rewrite app_nth2 by (rewrite length_even; lia). rewrite length_even.
        rewrite (nth_indep _ 0 (x0 + INR (n - 1) * d + INR (0 + 1) * d)) by (rewrite map_length, seq_length; lia).
        rewrite (map_nth (fun i => x0 + INR (n - 1) * d + INR (i + 1) * d)). rewrite seq_nth by lia.
        rewrite !plus_INR, !minus_INR by lia. cbn [INR]. ring.
Qed.
Lemma sanity_ok g : grid_sanity_checks g = Ok tt <-> length (g_dims g) = 2%nat /\ forall i j, inside g i j -> g_val g i j <> NaN.
Proof.
  unfold grid_sanity_checks. destruct (Nat.eqb_spec (length (g_dims g)) 2) as [E|E]; cbn [negb].
  - destruct (existsb _ _) eqn:X.
    + split; [discriminate|]. intros [_ H]. exfalso. apply existsb_exists in X. destruct X as (i & Hi & X). apply existsb_exists in X. destruct X as (j & Hj & X).
      unfold range in *. apply in_seq in Hi. apply in_seq in Hj. apply (H i j); [split; lia|]. destruct (g_val g i j); [reflexivity|discriminate].
    + split; [|reflexivity]. intros _. split; [assumption|]. intros i j [Hi Hj] N.
      enough (existsb (fun i => existsb (fun j => isnan (g_val g i j)) (range 0 (nx g))) (range 0 (ny g)) = true) by congruence.
      apply existsb_exists. exists i. split; [unfold range; apply in_seq; lia|]. apply existsb_exists. exists j. split; [unfold range; apply in_seq; lia|]. now rewrite N.
  - split; [discriminate|]. intros [? _]. contradiction.
Qed.
Lemma sanity_error g : grid_sanity_checks g = Ok tt \/ grid_sanity_checks g = Raise ValueError.
Proof. unfold grid_sanity_checks. destruct (negb _); [auto|]. destruct (existsb _ _); auto. Qed.
Definition total (H : response) : Prop := forall a b, H a b <> None.
Lemma total_finite ay ax H : total H -> all_finite ay ax H = true.
Proof.
  intros T. unfold all_finite. apply forallb_forall. intros k _. apply forallb_forall. intros l _. specialize (T (freq ay k) (freq ax l)). destruct (H (freq ay k) (freq ax l)); congruence.
Qed.
Lemma all_finite_spec ay ax H : all_finite ay ax H = true <-> forall k l, (k < a_n ay)%nat -> (l < a_n ax)%nat -> H (freq ay k) (freq ax l) <> None.
Proof.
  unfold all_finite. rewrite forallb_forall. split.
  - intros Q k l Hk Hl E. specialize (Q k). rewrite forallb_forall in Q. specialize (Q ltac:(unfold range; apply in_seq; lia) l ltac:(unfold range; apply in_seq; lia)). now rewrite E in Q.
  - intros Q k Hk. apply forallb_forall. intros l Hl. unfold range in *. apply in_seq in Hk. apply in_seq in Hl. specialize (Q k l ltac:(lia) ltac:(lia)). destruct (H (freq ay k) (freq ax l)); congruence.
Qed.

(** The value computed by a filter: [w] are the (padded) values. *)
Definition out (ay ax : axis) (w : nat -> nat -> R) (H : response) (i j : nat) : C :=
  ifft ay ax (fun k l => Cmult (fft2 ay ax (fun i j => RtoC (w i j)) k l) (some_c (H (freq ay k) (freq ax l)))) i j.
Lemma out_fft ay ax v H i j : a_rev ay = false -> a_rev ax = false ->
  ifft ay ax (fun k l => Cmult (fft ay ax v k l) (some_c (H (freq ay k) (freq ax l)))) i j = out ay ax v H i j.
Proof.
  intros Ry Rx. unfold out. apply ifft_ext. intros k l _ _. rewrite fft_fft2. f_equal. apply fft2_ext. intros i0 j0 _ _. unfold flipped, flip_index. now rewrite Ry, Rx.
Qed.

Section Ext.
Variable even_fft even_pad : list R -> bool.
Variable border : string -> option R -> nat -> nat -> (nat -> nat -> R) -> nat -> nat -> R.
Hypothesis Efft : accepts_even even_fft.
Hypothesis Epad : accepts_even even_pad.

(** Every filter of one grid works on the same (padded) axes and values. *)
Lemma apply_regular g y0 dy x0 dx pad kw drop : regular g y0 dy x0 dx ->
  exists ay ax oy ox w kw', good ay /\ good ax /\ (oy + ny g <= a_n ay)%nat /\ (ox + nx g <= a_n ax)%nat /\
    (forall i j, inside g i j -> w (oy + i)%nat (ox + j)%nat = val g i j) /\
    (exists yy xx, ay = reg_axis yy dy (oy + ny g + oy) /\ ax = reg_axis xx dx (ox + nx g + ox)) /\
    (pad = false -> oy = 0%nat /\ ox = 0%nat /\ ay = reg_axis y0 dy (ny g) /\ ax = reg_axis x0 dx (nx g) /\ (forall i j, w i j = val g i j) /\ kw' = kw) /\
    (forall H, all_finite ay ax H = true -> apply_filter even_fft even_pad border g (Ok H) pad kw drop
       = Ok (Grid (g_dims g) (g_y g) (g_x g) (fun i j => Fin (Re (out ay ax w H (oy + i) (ox + j)))) (if drop then [] else g_extra g), kw')) /\
    (forall H, all_finite ay ax H = false -> apply_filter even_fft even_pad border g (Ok H) pad kw drop
       = Ok (Grid (g_dims g) (g_y g) (g_x g) (fun i j => NaN) (if drop then [] else g_extra g), kw')) /\
    (forall e, apply_filter even_fft even_pad border g (Raise e) pad kw drop = Raise e).
Proof.
  intros [Rd Ry Rx Dy Dx Ny Nx Rv].
  assert (S : grid_sanity_checks g = Ok tt) by (apply sanity_ok; split; [assumption|intros i j [? ?]; auto]).
  destruct pad.
  - set (kw0 := match kw with None => empty_kw | Some k => k end).
    destruct (match kw_width kw0 with Some w => w | None => ((ny g / 4)%nat, (nx g / 4)%nat) end) as [wy wx] eqn:W.
    set (mode := match kw_mode kw0 with Some m => m | None => "edge" end). set (const := match kw_const kw0 with Some c => c | None => None end).
    exists (reg_axis (y0 - INR wy * dy) dy (wy + ny g + wy)), (reg_axis (x0 - INR wx * dx) dx (wx + nx g + wx)), wy, wx, (pad_values border mode const (ny g) (nx g) wy wx (val g)),
      (match kw with None => None | Some _ => Some (PadKw (Some (wy, wx)) (Some mode) (Some const)) end).
    split; [apply reg_good; [assumption|lia]|]. split; [apply reg_good; [assumption|lia]|]. split; [cbn; lia|]. split; [cbn; lia|]. split.
    { intros i j [Hi Hj]. unfold pad_values. 
      replace (Nat.leb wy (wy + i)) with true by (symmetry; apply Nat.leb_le; lia). replace (Nat.ltb (wy + i) (wy + ny g)) with true by (symmetry; apply Nat.ltb_lt; lia).
      replace (Nat.leb wx (wx + j)) with true by (symmetry; apply Nat.leb_le; lia). replace (Nat.ltb (wx + j) (wx + nx g)) with true by (symmetry; apply Nat.ltb_lt; lia). cbn [andb].
      f_equal; lia. }
    split; [eexists; eexists; split; reflexivity|]. split; [discriminate|].
    assert (U : forall f, apply_filter even_fft even_pad border g f true kw drop =
      (do out <- filter_values even_fft (even_axis (y0 - INR wy * dy) dy (wy + ny g + wy)) (even_axis (x0 - INR wx * dx) dx (wx + nx g + wx)) (pad_values border mode const (ny g) (nx g) wy wx (val g)) f;
       Ok (Grid (g_dims g) (g_y g) (g_x g) (fun i j => out (wy + i)%nat (wx + j)%nat) (if drop then [] else g_extra g), match kw with None => None | Some _ => Some (PadKw (Some (wy, wx)) (Some mode) (Some const)) end))).
    { intros f. unfold apply_filter. rewrite S. cbn [bind]. fold kw0. rewrite W. fold mode const.
      replace (pad_axis even_pad wy (g_y g)) with (pad_axis even_pad wy (even_axis y0 dy (ny g))) by (now rewrite <- Ry).
      replace (pad_axis even_pad wx (g_x g)) with (pad_axis even_pad wx (even_axis x0 dx (nx g))) by (now rewrite <- Rx).
      rewrite !pad_even by assumption. cbn [bind]. reflexivity. }
    split; [|split].
    + intros H T. rewrite U. unfold filter_values. rewrite !axis_even by (try assumption; lia). cbn [bind]. rewrite T. cbn [bind].
      do 3 f_equal. apply FunctionalExtensionality.functional_extensionality. intros i. apply FunctionalExtensionality.functional_extensionality. intros j. do 2 f_equal. now apply out_fft.
    + intros H T. rewrite U. unfold filter_values. rewrite !axis_even by (try assumption; lia). cbn [bind]. rewrite T. reflexivity.
    + intros e. rewrite U. unfold filter_values. rewrite !axis_even by (try assumption; lia). reflexivity.
  - exists (reg_axis y0 dy (ny g)), (reg_axis x0 dx (nx g)), 0%nat, 0%nat, (val g), kw.
    split; [apply reg_good; [assumption|lia]|]. split; [apply reg_good; [assumption|lia]|]. split; [cbn; lia|]. split; [cbn; lia|]. split; [reflexivity|].
    split; [exists y0, x0; rewrite !Nat.add_0_r; split; reflexivity|]. split; [intros _; repeat split|].
    assert (U : forall f, apply_filter even_fft even_pad border g f false kw drop =
      (do out <- filter_values even_fft (even_axis y0 dy (ny g)) (even_axis x0 dx (nx g)) (val g) f; Ok (Grid (g_dims g) (g_y g) (g_x g) out (if drop then [] else g_extra g), kw))).
    { intros f. unfold apply_filter. rewrite S. cbn [bind]. rewrite <- Ry, <- Rx. reflexivity. }
    split; [|split].
    + intros H T. rewrite U. unfold filter_values. rewrite !axis_even by assumption. cbn [bind]. rewrite T. cbn [bind Nat.add].
      do 3 f_equal. apply FunctionalExtensionality.functional_extensionality. intros i. apply FunctionalExtensionality.functional_extensionality. intros j. do 2 f_equal. now apply out_fft.
    + intros H T. rewrite U. unfold filter_values. rewrite !axis_even by assumption. cbn [bind]. rewrite T. reflexivity.
    + intros e. rewrite U. unfold filter_values. rewrite !axis_even by assumption. reflexivity.
Qed.
End Ext.

(** ** Responses *)
Lemma out_ext ay ax w H H' i j : (forall k l, (k < a_n ay)%nat -> (l < a_n ax)%nat -> some_c (H (freq ay k) (freq ax l)) = some_c (H' (freq ay k) (freq ax l))) -> out ay ax w H i j = out ay ax w H' i j.
Proof. intros E. apply ifft_ext. intros k l Hk Hl. now rewrite E. Qed.
Lemma out_one ay ax w H i j : good ay -> good ax -> (i < a_n ay)%nat -> (j < a_n ax)%nat -> (forall a b, H a b = Some (RtoC 1)) -> out ay ax w H i j = RtoC (w i j).
Proof.
  intros Gy Gx Hi Hj E. unfold out. rewrite (ifft_ext ay ax _ (fft2 ay ax (fun i j => RtoC (w i j)))).
  - now apply ifft_fft2.
  - intros k l _ _. rewrite E. cbn [some_c]. ring.
Qed.
Lemma out_plus ay ax w H1 H2 H3 i j : (forall a b, some_c (H3 a b) = Cplus (some_c (H1 a b)) (some_c (H2 a b))) -> out ay ax w H3 i j = Cplus (out ay ax w H1 i j) (out ay ax w H2 i j).
Proof. intros E. unfold out. rewrite <- ifft_plus. apply ifft_ext. intros k l _ _. rewrite E. ring. Qed.
(** Two filters in a row, when the first one gives a real grid. *)
Lemma out_compose ay ax w H1 H2 i j : good ay -> good ax -> (forall i j, (i < a_n ay)%nat -> (j < a_n ax)%nat -> Im (out ay ax w H1 i j) = 0) ->
  out ay ax (fun i j => Re (out ay ax w H1 i j)) H2 i j
  = ifft ay ax (fun k l => Cmult (fft2 ay ax (fun i j => RtoC (w i j)) k l) (Cmult (some_c (H1 (freq ay k) (freq ax l))) (some_c (H2 (freq ay k) (freq ax l))))) i j.
Proof.
  intros Gy Gx R. unfold out at 1. apply ifft_ext. intros k l Hk Hl. rewrite Cmult_assoc. f_equal.
  rewrite (fft2_ext ay ax _ (out ay ax w H1)).
  - unfold out. now rewrite fft2_ifft.
  - intros i0 j0 Hi Hj. specialize (R i0 j0 Hi Hj). destruct (out ay ax w H1 i0 j0) as [p q]. cbn in *. now subst.
Qed.
(** Responses that are real and depend on the squared frequencies only. *)
Definition even_real (H : response) : Prop := forall a b, Im (some_c (H a b)) = 0 /\ H (- a) b = H a b /\ H a (- b) = H a b.
Lemma even_real_out ay ax w H i j : good ay -> good ax -> even_real H -> Im (out ay ax w H i j) = 0.
Proof.
  intros Gy Gx E. unfold out. apply (filtered_real ay ax _ (fun k l => some_c (H (freq ay k) (freq ax l)))); try assumption; [reflexivity|].
  intros k l Hk Hl.
  assert (Q : H (freq ay (opposite (a_n ay) k)) (freq ax (opposite (a_n ax) l)) = H (freq ay k) (freq ax l)).
  { destruct (freq_opposite_sq ay k Gy Hk) as [-> | ->]; destruct (freq_opposite_sq ax l Gx Hl) as [-> | ->]; try reflexivity; destruct (E (freq ay k) (freq ax l)) as (_ & E1 & E2).
    - destruct (E (freq ay k) (- freq ax l)) as (_ & E3 & _). now rewrite E3, E2.
    - assumption.
    - assumption. }
  rewrite Q. symmetry. apply real_iff. apply E.
Qed.
Definition hermitian (H : response) : Prop := forall a b, some_c (H (- a) (- b)) = Cconj (some_c (H a b)).
Lemma odd_out ay ax w H i j : good ay -> good ax -> hermitian H -> Nat.even (a_n ay) = false -> Nat.even (a_n ax) = false -> Im (out ay ax w H i j) = 0.
Proof.
  intros Gy Gx E Oy Ox. unfold out. apply (filtered_real ay ax _ (fun k l => some_c (H (freq ay k) (freq ax l)))); try assumption; [reflexivity|].
  intros k l Hk Hl. rewrite !freq_opposite by (auto; congruence). apply E.
Qed.

Lemma k_of_opp f : k_of (- f) = - k_of f.
Proof. unfold k_of. ring. Qed.
Lemma sq_opp x : (- x) ^ 2 = x ^ 2.
Proof. ring. Qed.
Lemma ok_inj {A} (a b : A) : Ok a = Ok b -> a = b.
Proof. congruence. Qed.
Ltac even_resp := intros a b; cbv beta zeta; rewrite ?k_of_opp, ?sq_opp; repeat split.
Lemma upward_derivative_even n : even_real (derivative_upward_kernel n).
Proof. unfold derivative_upward_kernel. even_resp. Qed.
Lemma continuation_even h : even_real (upward_continuation_kernel h).
Proof. unfold upward_continuation_kernel. even_resp. Qed.
Lemma lowpass_even l H : gaussian_lowpass_kernel l = Ok H -> even_real H.
Proof. unfold gaussian_lowpass_kernel. destruct (Reqb l 0); [discriminate|]. intros E%ok_inj. subst H. even_resp. Qed.
Lemma highpass_even l H : gaussian_highpass_kernel l = Ok H -> even_real H.
Proof. unfold gaussian_highpass_kernel. destruct (Reqb l 0); [discriminate|]. intros E%ok_inj. subst H. even_resp. Qed.
Lemma cpow_RtoC r n : cpow (RtoC r) n = RtoC (r ^ n).
Proof. induction n as [|n IH]; [reflexivity|]. cbn [cpow pow]. rewrite IH, RtoC_mult. reflexivity. Qed.
Lemma cpow_mult a b n : cpow (Cmult a b) n = Cmult (cpow a n) (cpow b n).
Proof. induction n as [|n IH]; cbn; [ring|]. rewrite IH. ring. Qed.
Lemma cpow_add a n m : cpow a (n + m) = Cmult (cpow a n) (cpow a m).
Proof. induction n as [|n IH]; cbn; [ring|]. rewrite IH. ring. Qed.
Lemma cpow_conj a n : Cconj (cpow a n) = cpow (Cconj a) n.
Proof. induction n as [|n IH]; cbn [cpow]; [ceq|]. now rewrite Cconj_mult', IH. Qed.
Lemma Ci_sq : Cmult Ci Ci = RtoC (-1).
Proof. ceq. Qed.
Lemma cpow_even k n : cpow (Cmult (RtoC k) Ci) (2 * n) = RtoC ((- k ^ 2) ^ n).
Proof.
  induction n as [|n IH]; [reflexivity|]. replace (2 * S n)%nat with (2 + 2 * n)%nat by lia. rewrite cpow_add, IH. cbn [cpow pow].
  transitivity (Cmult (Cmult (RtoC (k * k)) (Cmult Ci Ci)) (RtoC ((- (k * (k * 1))) ^ n))); [rewrite RtoC_mult; ring|]. rewrite Ci_sq, <- !RtoC_mult. f_equal. ring.
Qed.
Lemma easting_even n : Nat.even n = true -> even_real (derivative_easting_kernel n).
Proof.
  intros E. apply Nat.even_spec in E. destruct E as [m ->]. intros a b. unfold derivative_easting_kernel. rewrite ?k_of_opp, !cpow_even. rewrite sq_opp. repeat split.
Qed.
Lemma northing_even n : Nat.even n = true -> even_real (derivative_northing_kernel n).
Proof.
  intros E. apply Nat.even_spec in E. destruct E as [m ->]. intros a b. unfold derivative_northing_kernel. rewrite ?k_of_opp, !cpow_even. rewrite sq_opp. repeat split.
Qed.
Lemma easting_hermitian n : hermitian (derivative_easting_kernel n).
Proof. intros a b. unfold derivative_easting_kernel. cbn [some_c]. rewrite k_of_opp, cpow_conj. f_equal. ceq. Qed.
Lemma northing_hermitian n : hermitian (derivative_northing_kernel n).
Proof. intros a b. unfold derivative_northing_kernel. cbn [some_c]. rewrite k_of_opp, cpow_conj. f_equal. ceq. Qed.
Lemma even_real_hermitian H : even_real H -> hermitian H.
Proof. intros E a b. destruct (E a (- b)) as (_ & E1 & _). destruct (E a b) as (E0 & _ & E2). rewrite E1, E2. symmetry. now apply real_iff. Qed.
Lemma cinv_conj z : cinv (Cconj z) = match cinv z with Some x => Some (Cconj x) | None => None end.
Proof.
  destruct z as [p q]. unfold cinv, Cconj. cbn. destruct (Req_EM_T p 0) as [Ep|Ep].
  - destruct (Req_EM_T q 0) as [E|E]; destruct (Req_EM_T (- q) 0) as [E'|E']; try lra; [reflexivity|]. f_equal. unfold Cinv. cbn. f_equal; field; nra.
  - f_equal. unfold Cinv. cbn. f_equal; field; nra.
Qed.
Lemma rtp_hermitian i d mi md H : reduction_to_pole_kernel i d (Some mi) (Some md) = Ok H -> hermitian H.
Proof.
  unfold reduction_to_pole_kernel. intros E%ok_inj. subst H. intros a b. cbv beta zeta. destruct (magnetic_angles_to_vec 1 mi md) as [[me mn] mu]. destruct (magnetic_angles_to_vec 1 i d) as [[fe fn] fu].
  rewrite !k_of_opp, !sq_opp.
  replace (Reqb (- a) 0) with (Reqb a 0) by (destruct (Reqb_spec a 0); destruct (Reqb_spec (- a) 0); try reflexivity; lra).
  replace (Reqb (- b) 0) with (Reqb b 0) by (destruct (Reqb_spec b 0); destruct (Reqb_spec (- b) 0); try reflexivity; lra).
  destruct (Reqb a 0 && Reqb b 0)%bool; [cbn; ceq|].
  set (k := sqrt (k_of a ^ 2 + k_of b ^ 2)).
  replace (- fu * k, fe * - k_of b + fn * - k_of a) with (Cconj (- fu * k, fe * k_of b + fn * k_of a)) by (unfold Cconj; cbn; f_equal; ring).
  replace (- mu * k, me * - k_of b + mn * - k_of a) with (Cconj (- mu * k, me * k_of b + mn * k_of a)) by (unfold Cconj; cbn; f_equal; ring).
  rewrite !cinv_conj. destruct (cinv (- fu * k, fe * k_of b + fn * k_of a)) as [z1|]; destruct (cinv (- mu * k, me * k_of b + mn * k_of a)) as [z2|]; cbn [omul some_c]; try (now ceq).
Qed.
