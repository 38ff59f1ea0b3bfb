(** Claim C102: the argument [dtype] of the Cartesian equivalent sources. *)
From Coq Require Import Psatz.
From Verif Require Import Base BaseFacts NumPy NumPyFacts DistanceModel DistanceSpec LegendreModel LegendreProofs EqsModel EqsSpec EqsProofs EqsFitProofs EqsBoostProofs EqsWindowProofs.
Local Open Scope string_scope.
Local Open Scope list_scope.
Local Open Scope R_scope.

(** Rounding to a type: rounding a value of the type changes nothing, and zero belongs to every type. *)
Definition rounding (dt : dtype) : Prop := (forall x, cast dt (cast dt x) = cast dt x) /\ cast dt 0 = 0.
(** A value of the type. *)
Definition of_type (dt : dtype) (x : R) : Prop := cast dt x = x.
Definition coords_of_type (dt : dtype) (c : coords) : Prop :=
  let '(a, b, d) := c in Forall (of_type dt) a /\ Forall (of_type dt) b /\ Forall (of_type dt) d.
(** An array whose elements have been rounded before the call. *)
Definition rounded (dt : dtype) (a : arr) : arr := Arr (shape a) (map (cast dt) (data a)).
Definition rounded3 (dt : dtype) (c : arr * arr * arr) : arr * arr * arr := let '(a, b, d) := c in (rounded dt a, rounded dt b, rounded dt d).

Lemma astype_twice dt l : rounding dt -> astype dt (map (cast dt) l) = astype dt l.
Proof. intros [H _]. unfold astype. rewrite map_map. apply map_ext. exact H. Qed.
Lemma astype3_rounded dt co : rounding dt -> astype3 dt (ravel3 (rounded3 dt co)) = astype3 dt (ravel3 co).
Proof. intros H. destruct co as [[a b] d]. unfold rounded3, rounded, ravel3, ravel, astype3. cbn [data]. now rewrite !astype_twice. Qed.
Lemma check_rounded dt co da w : check_fit_input (rounded3 dt co) (rounded dt da) (option_map (rounded dt) w) = check_fit_input co da w.
Proof.
  destruct co as [[a b] d]. unfold check_fit_input, rounded3, rounded, shape_eqb, ravel. cbn [shape data]. destruct w as [w|]; cbn [option_map data]; [|reflexivity].
  now rewrite !map_length.
Qed.
Lemma weights_rounded dt (w : option arr) : rounding dt ->
  option_map (fun w => astype dt (ravel w)) (option_map (rounded dt) w) = option_map (fun w => astype dt (ravel w)) w.
Proof. intros H. destruct w as [w|]; [|reflexivity]. cbn [option_map]. unfold ravel, rounded. cbn [data]. now rewrite astype_twice. Qed.

(** Data, weights and coordinates are rounded to the type on the way in: rounding them beforehand changes nothing, for
    fits and predictions of both classes. *)
Theorem C102_inputs_are_rounded : forall ls avg nd rw so self window co da w, rounding (dt self) ->
  fit ls avg nd self (rounded3 (dt self) co) (rounded (dt self) da) (option_map (rounded (dt self)) w) = fit ls avg nd self co da w /\
  fit_gb ls avg nd rw so self window (rounded3 (dt self) co) (rounded (dt self) da) (option_map (rounded (dt self)) w) = fit_gb ls avg nd rw so self window co da w /\
  predict self (rounded3 (dt self) co) = predict self co.
Proof.
  intros ls avg nd rw so self window co da w H. split; [|split].
  - unfold fit. rewrite check_rounded, astype3_rounded, weights_rounded by exact H. unfold rounded, ravel. cbn [data]. now rewrite astype_twice.
  - unfold fit_gb. rewrite check_rounded, astype3_rounded, weights_rounded by exact H. unfold rounded, ravel. cbn [data]. now rewrite astype_twice.
  - unfold predict. destruct (coefs_ self) as [coefs|]; [|reflexivity]. destruct (get_points self) as [pts|e]; [|reflexivity]. cbn [bind].
    assert (E := astype3_rounded (dt self) co H). destruct co as [[a b] d]. unfold predict_data, rounded3 in *. rewrite E. reflexivity.
Qed.
Print Assumptions C102_inputs_are_rounded.

Lemma astype_of_type dt l : rounding dt -> Forall (of_type dt) (astype dt l).
Proof. intros [H _]. apply Forall_forall. intros x Hx. apply in_map_iff in Hx. destruct Hx as (y & <- & _). apply H. Qed.
Lemma astype3_of_type dt c : rounding dt -> coords_of_type dt (astype3 dt c).
Proof. intros H. destruct c as [[a b] d]. cbn. split; [|split]; now apply astype_of_type. Qed.
Lemma upd_of_type dt l i v : Forall (of_type dt) l -> of_type dt v -> Forall (of_type dt) (upd l i v).
Proof.
  intros Hl Hv. apply Forall_forall. intros x Hx. apply (In_nth _ _ 0) in Hx. destruct Hx as (k & Hk & <-). rewrite length_upd in Hk.
  rewrite Forall_forall in Hl. destruct (Nat.eq_dec k i) as [->|Hne]; [rewrite nth_upd_eq by assumption; exact Hv|]. rewrite nth_upd_neq by auto. apply Hl. now apply nth_In.
Qed.
Lemma predict_kernel_of_type dt greens co pts coefs l l' : rounding dt -> Forall (of_type dt) l ->
  predict_kernel dt greens co pts coefs l = Ok l' -> Forall (of_type dt) l'.
Proof.
  intros [Hr _] Hl. unfold predict_kernel. apply (for_preserve (Forall (of_type dt))); [|exact Hl].
  intros i s s' Hs. apply (for_preserve (Forall (of_type dt))); [|exact Hs]. intros j t t' Ht E.
  apply bind_ok in E. destruct E as (c & _ & E). apply bind_ok in E. destruct E as (v & _ & E). apply bind_ok in E. destruct E as (o & _ & E).
  unfold aset in E. destruct (Nat.ltb i (length t)); [|discriminate]. injection E as <-. apply upd_of_type; [exact Ht|]. apply Hr.
Qed.
Lemma zeros_of_type dt n : rounding dt -> Forall (of_type dt) (repeat 0 n).
Proof. intros [_ H]. apply Forall_forall. intros x Hx. apply repeat_spec in Hx. now subst. Qed.
Lemma fit_points_of_type avg nd self c self' : rounding (dt self) -> fit_points avg nd self c = Ok self' ->
  dt self' = dt self /\ exists p, points_ self' = Some p /\ coords_of_type (dt self) p.
Proof.
  intros H. unfold fit_points. destruct (points self) as [p|].
  - intros E. injection E as <-. split; [reflexivity|]. eexists. split; [reflexivity|]. now apply astype3_of_type.
  - intros E. apply bind_ok in E. destruct E as ([pts s] & Hb & E). injection E as <-. cbn [dt points_].
    assert (D : dt s = dt self).
    { unfold build_points in Hb. cbv zeta in Hb. destruct (match block_size self with Some _ => _ | None => _ end) as [[c0 c1] c2]. apply bind_ok in Hb. destruct Hb as (d & _ & Hb). injection Hb as _ <-. reflexivity. }
    split; [exact D|]. eexists. split; [reflexivity|]. rewrite D. now apply astype3_of_type.
Qed.
Lemma put_of_type dt ks : forall l vs, Forall (of_type dt) l -> Forall (of_type dt) vs -> Forall (of_type dt) (put l ks vs).
Proof.
  induction ks as [|k ks IH]; intros l vs Hl Hv; [exact Hl|]. destruct vs as [|v vs]; [exact Hl|]. cbn [put]. inversion Hv; subst. apply IH; [|assumption]. now apply upd_of_type.
Qed.
Lemma map2_cast_of_type {A B} dt (f : A -> B -> R) l m : rounding dt -> Forall (of_type dt) (map2 (fun a b => cast dt (f a b)) l m).
Proof. intros [H _]. unfold map2. apply Forall_forall. intros x Hx. apply in_map_iff in Hx. destruct Hx as (y & <- & _). apply H. Qed.

(** What is stored and returned has the type: the sources after a fit, the coefficients of the gradient-boosted class
    and every predicted value. *)
Theorem C102_results_have_the_type : forall ls avg nd rw so self window co da w, rounding (dt self) ->
  (forall self', fit ls avg nd self co da w = Ok self' -> dt self' = dt self /\
     exists p, points_ self' = Some p /\ coords_of_type (dt self) p) /\
  (forall self' errors, fit_gb ls avg nd rw so self window co da w = Ok (self', errors) -> dt self' = dt self /\
     exists p cs, points_ self' = Some p /\ coords_of_type (dt self) p /\ coefs_ self' = Some cs /\ Forall (of_type (dt self)) cs) /\
  (forall a, predict self co = Ok a -> Forall (of_type (dt self)) (data a)).
Proof.
  intros ls avg nd rw so self window co da w H. split; [|split].
  - intros self' E. unfold fit in E. apply bind_ok in E. destruct E as (u & _ & E). cbv zeta in E. apply bind_ok in E. destruct E as (s & Hs & E).
    apply bind_ok in E. destruct E as (pts & _ & E). apply bind_ok in E. destruct E as (J & _ & E). injection E as <-.
    exact (fit_points_of_type _ _ _ _ _ H Hs).
  - intros self' errors E. unfold fit_gb in E. apply bind_ok in E. destruct E as (u & _ & E). cbv zeta in E. apply bind_ok in E. destruct E as (s & Hs & E).
    apply bind_ok in E. destruct E as (pts & _ & E). apply bind_ok in E. destruct E as (wins & _ & E). apply bind_ok in E. destruct E as ([[r er] cs] & Hg & E). injection E as <- <-.
    destruct (fit_points_of_type _ _ _ _ _ H Hs) as (D & p & P1 & P2). split; [exact D|]. exists p, cs. split; [exact P1|]. split; [exact P2|]. split; [reflexivity|].
    rewrite D in Hg. unfold gradient_boosting in Hg. revert Hg. 
    change cs with (snd (r, er, cs)). generalize (r, er, cs). intros fin Hg.
    refine (for_preserve (fun st : boost_state => Forall (of_type (dt self)) (snd st)) _ _ _ _ _ _ Hg); [|cbn [snd]; now apply zeros_of_type].
    intros [pw dw] [[r0 e0] c0] st' Hc E. cbn [snd] in Hc. unfold boost_window in E.
    apply bind_ok in E. destruct E as (x1 & _ & E). apply bind_ok in E. destruct E as (x2 & _ & E). apply bind_ok in E. destruct E as (x3 & _ & E). apply bind_ok in E. destruct E as (x4 & _ & E).
    apply bind_ok in E. destruct E as (x5 & _ & E). cbv zeta in E. apply bind_ok in E. destruct E as (x6 & _ & E). apply bind_ok in E. destruct E as (x7 & Ha & E). injection E as <-. cbn [snd].
    unfold add_at in Ha. apply bind_ok in Ha. destruct Ha as (old & _ & Ha). destruct (negb _); [discriminate|]. injection Ha as <-.
    apply put_of_type; [exact Hc|]. now apply map2_cast_of_type.
  - intros a E. unfold predict in E. destruct (coefs_ self) as [coefs|]; [|discriminate]. apply bind_ok in E. destruct E as (pts & _ & E).
    unfold predict_data in E. destruct co as [[c0 c1] c2]. apply bind_ok in E. destruct E as (sh & _ & E). apply bind_ok in E. destruct E as (l & Hl & E). injection E as <-. cbn [data].
    apply (predict_kernel_of_type _ _ _ _ _ _ _ H (zeros_of_type _ _ H) Hl).
Qed.
Print Assumptions C102_results_have_the_type.

(** The integers are such a type, and not every number belongs to it. *)
Example C102_example : rounding int64 /\ rounding float64 /\ ~ of_type int64 (1 / 2) /\ of_type int64 3.
Proof.
  assert (U : forall z, truncate (IZR z) = IZR z).
  { intros z. assert (I : forall k, Int_part (IZR k) = k).
    { intros k. unfold Int_part. rewrite <- (tech_up (IZR k) (k + 1)); [lia| |]; rewrite plus_IZR; lra. }
    unfold truncate. destruct (Rleb 0 (IZR z)); [now rewrite I|]. rewrite <- (opp_IZR z), I, opp_IZR. ring. }
  assert (T : forall x, exists z, truncate x = IZR z).
  { intros x. unfold truncate. destruct (Rleb 0 x); [now exists (Int_part x)|]. exists (- Int_part (- x))%Z. now rewrite opp_IZR. }
  split; [|split; [|split]].
  - split; [|exact (U 0%Z)]. intros x. cbn. destruct (T x) as [z E]. rewrite E. apply U.
  - split; [reflexivity|reflexivity].
  - unfold of_type. cbn. intros E. destruct (T (1 / 2)) as [z Ez]. rewrite Ez in E.
    assert (L : 0 < IZR z < 1) by lra. destruct L as [L1 L2]. apply lt_IZR in L1, L2. lia.
  - exact (U 3%Z).
Qed.
