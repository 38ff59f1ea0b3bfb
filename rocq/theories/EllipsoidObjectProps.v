(** C35: claims about Ellipsoid objects. *)
From Coq Require Import Psatz.
From Verif Require Import Base NumPy EllipsoidModel EllipsoidSpec EllipsoidObjectModel.
Local Open Scope R_scope.

(** The physical properties have the types promised by the documentation. *)
Definition well_typed (o : object) : Prop :=
  (o_density o = PNone \/ exists x, o_density o = PReal x) /\
  (o_susceptibility o = PNone \/ (exists x, o_susceptibility o = PReal x) \/ exists d, o_susceptibility o = PArray [3%nat; 3%nat] d) /\
  (o_remanent o = PNone \/ exists d, o_remanent o = PArray [3%nat] d).
(** A positive length *)
Definition positive_length (v : pyvalue) : Prop := exists r, v = PReal (Fin r) /\ 0 < r.
(** An array with one element, or NaN *)
Definition odd_length (v : pyvalue) : Prop := v = PReal NaN \/ exists sh x, v = PArray sh [x].
Definition is_axis (k : attribute) : Prop := k = A_a \/ k = A_b \/ k = A_c.

Lemma check_ok v : check_positive_semiaxis v = Ok tt -> positive_length v \/ (odd_length v /\ forall sh r, v = PArray sh [Fin r] -> 0 < r).
Proof.
  unfold check_positive_semiaxis. destruct v as [|[|r]|sh [|x [|y l]]|s|]; cbn; try discriminate.
  - intros _. right. split; [now left|]. discriminate.
  - destruct (Rleb_spec r 0); [discriminate|]. intros _. left. exists r. split; [reflexivity | lra].
  - intros H. right. split; [right; exists sh, x; reflexivity|]. intros sh' r E. injection E as _ ->. cbn in H. destruct (Rleb_spec r 0); [discriminate | lra].
Qed.
Lemma shape_is_true l m : shape_is l m = true -> l = m.
Proof. unfold shape_is. destruct (list_eq_dec Nat.eq_dec l m); congruence. Qed.

(** A failed assignment leaves the object as it was. *)
Theorem C35_failed_assignment_unchanged : forall k v o o' e, assign k v o = (o', Raise e) -> o' = o.
Proof.
  intros k v o o' e. destruct k; cbn [assign]; unfold assign_a, assign_b, assign_c, assign_density, assign_susceptibility, assign_remanent, andthen, check, store; try discriminate;
    try (match goal with |- context [match ?x with Ok _ => _ | Raise _ => _ end] => destruct x as [w|w] end; [try discriminate | intros H; injection H as <- _; reflexivity]).
  match goal with |- context [match ?x with Ok _ => _ | Raise _ => _ end] => destruct x as [w2|w2] end; [discriminate | intros H; injection H as <- _; reflexivity].
Qed.

(** A successful one changes that attribute only; the value read back is the value assigned (sequences become arrays). *)
Theorem C35_successful_assignment : forall k v o o', assign k v o = (o', Ok tt) ->
  (forall k', k' <> k -> read k' o' = read k' o) /\
  (read k o' = v \/ (k = A_remanent /\ exists sh d, v = PSequence (Ok (sh, d)) /\ read k o' = PArray sh d)).
Proof.
  intros k v o o'. destruct k; cbn [assign]; unfold assign_a, assign_b, assign_c, assign_density, assign_susceptibility, assign_remanent, andthen, check, store;
    try (match goal with |- context [match ?x with Ok _ => _ | Raise _ => _ end] => destruct x as [w|w] eqn:X end; [|discriminate]);
    try (intros H; injection H as <-; split; [intros k' Hk; destruct k'; try reflexivity; congruence | left; reflexivity]).
  match goal with |- context [match ?x with Ok _ => _ | Raise _ => _ end] => destruct x as [w2|w2] end; [|discriminate].
  intros H; injection H as <-; split; [intros k' Hk; destruct k'; try reflexivity; congruence|].
  destruct v as [| | |[[sh d]|s]|]; cbn in X; try discriminate; injection X as <-; try (left; reflexivity).
  right. split; [reflexivity|]. exists sh, d. split; reflexivity.
Qed.

(** What an assignment preserves *)
Definition axes_inv (o : object) : Prop := forall k, is_axis k -> check_positive_semiaxis (read k o) = Ok tt.

Lemma assign_axes k v o : axes_inv o -> axes_inv (fst (assign k v o)).
Proof.
  intros H k' Hk'. destruct (assign k v o) as [o' [[ ] |e]] eqn:E; cbn [fst].
  - destruct (C35_successful_assignment k v o o' E) as [F R].
    destruct Hk' as [-> | [-> | ->]];
      (destruct k; try (rewrite F by discriminate; apply H; unfold is_axis; tauto);
       cbn [assign] in E; unfold assign_a, assign_b, assign_c, andthen, check, store in E; destruct (check_positive_semiaxis v) as [[ ] |] eqn:X; [|discriminate];
       injection E as <-; cbn; exact X).
  - rewrite (C35_failed_assignment_unchanged k v o o' e E). apply H, Hk'.
Qed.

Lemma property_checks v : (if (negb (is_real v) && negb (is_none v))%bool then Raise TypeError else Ok tt) = Ok tt -> v = PNone \/ exists x, v = PReal x.
Proof. destruct v; cbn; try discriminate; intros _; [now left | right; eexists; reflexivity]. Qed.

Lemma assign_typed k v o : well_typed o -> well_typed (fst (assign k v o)).
Proof.
  intros H. destruct (assign k v o) as [o' [[ ] |e]] eqn:E; cbn [fst]; [|rewrite (C35_failed_assignment_unchanged k v o o' e E); exact H].
  destruct (C35_successful_assignment k v o o' E) as [F _]. unfold well_typed in *. destruct H as (H1 & H2 & H3).
  assert (FD := F A_density). assert (FS := F A_susceptibility). assert (FR := F A_remanent). cbn [read] in FD, FS, FR.
  destruct k; try (rewrite FD, FS, FR by discriminate; auto).
  - rewrite FS, FR by discriminate. split; [|auto]. cbn [assign] in E. unfold assign_density, andthen, check, store in E.
    destruct (if (negb (is_real v) && negb (is_none v))%bool then _ else _) as [[ ] |] eqn:X in E; [|discriminate]. injection E as <-. cbn. apply property_checks, X.
  - rewrite FD, FR by discriminate. split; [auto|]. split; [|auto]. cbn [assign] in E. unfold assign_susceptibility, andthen, check, store in E.
    match type of E with (match ?x with Ok _ => _ | Raise _ => _ end) = _ => destruct x as [[ ] |] eqn:X end; [|discriminate]. injection E as <-. cbn.
    destruct v as [| |sh d| |]; cbn in X; try discriminate; [now left | right; left; eexists; reflexivity |].
    right; right. destruct (shape_is sh [3%nat; 3%nat]) eqn:Y; [|discriminate]. apply shape_is_true in Y. subst sh. eexists; reflexivity.
  - rewrite FD, FS by discriminate. split; [auto|]. split; [auto|]. cbn [assign] in E. unfold assign_remanent, andthen, check, store in E.
    destruct (asarray v) as [w|] eqn:A; [|discriminate].
    match type of E with (match ?x with Ok _ => _ | Raise _ => _ end) = _ => destruct x as [[ ] |] eqn:X end; [|discriminate]. injection E as <-. cbn.
    destruct w as [| |sh d| |]; cbn in X; try discriminate; [now left |].
    right. destruct (shape_is sh [3%nat]) eqn:Y; [|discriminate]. apply shape_is_true in Y. subst sh. eexists; reflexivity.
Qed.

Lemma andthen_ok m n o o' : andthen m n o = (o', Ok tt) -> exists o1, m o = (o1, Ok tt) /\ n o1 = (o', Ok tt).
Proof. unfold andthen. destruct (m o) as [o1 [[ ] |e]]; [|discriminate]. intros H. exists o1. split; [reflexivity | exact H]. Qed.
Lemma check_inv r o o' : check r o = (o', Ok tt) -> r = Ok tt /\ o' = o.
Proof. unfold check. intros H. injection H as <- ->. split; reflexivity. Qed.
Lemma store_inv f o o' : store f o = (o', Ok tt) -> o' = f o.
Proof. unfold store. intros H. injection H as <-. reflexivity. Qed.

Lemma init_ok a b c yaw pitch roll center density susceptibility remanent o :
  init a b c yaw pitch roll center density susceptibility remanent = Ok o ->
  check_positive_semiaxis a = Ok tt /\ check_positive_semiaxis b = Ok tt /\ check_positive_semiaxis c = Ok tt /\
  exists o1 o2, let o0 := Object a b c yaw pitch roll center PObject PObject PObject in
    assign_density density o0 = (o1, Ok tt) /\ assign_susceptibility susceptibility o1 = (o2, Ok tt) /\ assign_remanent remanent o2 = (o, Ok tt).
Proof.
  unfold init. destruct (init_method _ _ _ _ _ _ _ _ _ _ blank) as [o' [[ ] |e]] eqn:E; [|discriminate]. intros H. injection H as <-. unfold init_method in E.
  apply andthen_ok in E. destruct E as (x1 & E1 & E). apply check_inv in E1. destruct E1 as [Ca ->].
  apply andthen_ok in E. destruct E as (x1 & E1 & E). apply check_inv in E1. destruct E1 as [Cb ->].
  apply andthen_ok in E. destruct E as (x1 & E1 & E). apply check_inv in E1. destruct E1 as [Cc ->].
  apply andthen_ok in E. destruct E as (x1 & E1 & E). apply store_inv in E1. subst x1.
  apply andthen_ok in E. destruct E as (x1 & E1 & E). apply store_inv in E1. subst x1.
  apply andthen_ok in E. destruct E as (x1 & E1 & E). apply store_inv in E1. subst x1. cbn in E.
  apply andthen_ok in E. destruct E as (o1 & D & E). apply andthen_ok in E. destruct E as (o2 & S & R).
  repeat (split; [assumption|]). exists o1, o2. auto.
Qed.

(** The object built by the constructor holds the arguments. *)
Theorem C35_constructor : forall a b c yaw pitch roll center density susceptibility remanent o,
  init a b c yaw pitch roll center density susceptibility remanent = Ok o ->
  o_a o = a /\ o_b o = b /\ o_c o = c /\ o_yaw o = yaw /\ o_pitch o = pitch /\ o_roll o = roll /\ o_center o = center /\
  o_density o = density /\ o_susceptibility o = susceptibility /\
  (o_remanent o = remanent \/ exists sh d, remanent = PSequence (Ok (sh, d)) /\ o_remanent o = PArray sh d) /\ well_typed o.
Proof.
  intros a b c yaw pitch roll center density susceptibility remanent o H. destruct (init_ok _ _ _ _ _ _ _ _ _ _ _ H) as (_ & _ & _ & o1 & o2 & D & S & R).
  destruct (C35_successful_assignment A_density density _ _ D) as [FD RD]. destruct (C35_successful_assignment A_susceptibility susceptibility _ _ S) as [FS RS].
  destruct (C35_successful_assignment A_remanent remanent _ _ R) as [FR RR].
  assert (Z : forall k, k <> A_density -> k <> A_susceptibility -> k <> A_remanent -> read k o = read k (Object a b c yaw pitch roll center PObject PObject PObject)).
  { intros k K1 K2 K3. rewrite FR, FS, FD by assumption. reflexivity. }
  assert (RD' : o_density o1 = density) by (destruct RD as [RD|[RD _]]; [exact RD | discriminate]).
  assert (RS' : o_susceptibility o2 = susceptibility) by (destruct RS as [RS|[RS _]]; [exact RS | discriminate]).
  assert (DD : o_density o = density) by (assert (X := FR A_density ltac:(discriminate)); assert (Y := FS A_density ltac:(discriminate)); cbn [read] in X, Y; congruence).
  assert (SS : o_susceptibility o = susceptibility) by (assert (X := FR A_susceptibility ltac:(discriminate)); cbn [read] in X; congruence).
  split; [apply (Z A_a); discriminate|]. split; [apply (Z A_b); discriminate|]. split; [apply (Z A_c); discriminate|]. split; [apply (Z A_yaw); discriminate|].
  split; [apply (Z A_pitch); discriminate|]. split; [apply (Z A_roll); discriminate|]. split; [apply (Z A_center); discriminate|].
  split; [exact DD|]. split; [exact SS|]. split.
  - destruct RR as [RR|(_ & sh & d & E & RR)]; [left; exact RR | right; exists sh, d; split; assumption].
  - (* every property was checked when it was set *)
    set (w := Object PNone PNone PNone PNone PNone PNone PNone PNone PNone PNone). assert (W : well_typed w) by (repeat split; now left).
    assert (T1 := assign_typed A_density density w W). assert (T2 := assign_typed A_susceptibility susceptibility w W). assert (T3 := assign_typed A_remanent remanent w W).
    split; [|split].
    + rewrite DD. revert D T1. unfold assign, assign_density, andthen, check, store. match goal with |- (match ?x with Ok _ => _ | Raise _ => _ end) = _ -> _ => destruct x as [[ ] |] end; [|discriminate]. intros _ T. apply T.
    + rewrite SS. revert S T2. unfold assign, assign_susceptibility, andthen, check, store.
      match goal with |- (match ?x with Ok _ => _ | Raise _ => _ end) = _ -> _ => destruct x as [[ ] |] end; [|discriminate]. intros _ T. apply T.
    + revert R T3. cbn [assign]. unfold assign_remanent, andthen, check, store. destruct (asarray remanent) as [v|]; [|discriminate].
      match goal with |- (match ?x with Ok _ => _ | Raise _ => _ end) = _ -> _ => destruct x as [[ ] |] end; [|discriminate]. intros R T. injection R as <-. apply T.
Qed.

Lemma init_axes a b c yaw pitch roll center density susceptibility remanent o :
  init a b c yaw pitch roll center density susceptibility remanent = Ok o -> axes_inv o.
Proof.
  intros H. destruct (init_ok _ _ _ _ _ _ _ _ _ _ _ H) as (Ca & Cb & Cc & _). destruct (C35_constructor _ _ _ _ _ _ _ _ _ _ _ H) as (Ea & Eb & Ec & _).
  intros k [-> | [-> | ->]]; cbn [read]; congruence.
Qed.
Lemma history_inv (P : object -> Prop) : (forall k v o, P o -> P (fst (assign k v o))) -> forall l o, P o -> P (history l o).
Proof. intros H l. induction l as [|[k v] l IH]; intros o Ho; [exact Ho|]. cbn. apply IH, H, Ho. Qed.

(** The physical properties keep their types through every history. *)
Theorem C35_well_typed : forall a b c yaw pitch roll center density susceptibility remanent o l,
  init a b c yaw pitch roll center density susceptibility remanent = Ok o -> well_typed (history l o).
Proof. intros. apply history_inv; [intros; apply assign_typed; assumption|]. eapply C35_constructor; eassumption. Qed.

(** No semi-axis ever is a number that is zero or negative; as long as only numbers are assigned, they are positive. *)
Theorem C35_positive_axes_partial : forall a b c yaw pitch roll center density susceptibility remanent o l,
  init a b c yaw pitch roll center density susceptibility remanent = Ok o ->
  forall k, is_axis k -> positive_length (read k (history l o)) \/ odd_length (read k (history l o)).
Proof.
  intros a b c yaw pitch roll center density susceptibility remanent o l H k Hk.
  assert (I : axes_inv (history l o)) by (apply history_inv; [intros; apply assign_axes; assumption | eapply init_axes; eassumption]).
  destruct (check_ok _ (I k Hk)) as [X|[X _]]; auto.
Qed.

(** Whatever the history, the bodies that the forward modelling functions can read have positive semi-axes. *)
Theorem C35_bodies_have_positive_axes : forall a b c yaw pitch roll center density susceptibility remanent o l e,
  init a b c yaw pitch roll center density susceptibility remanent = Ok o -> to_ellipsoid (history l o) = Some e -> positive_axes e.
Proof.
  intros a b c yaw pitch roll center density susceptibility remanent o l e H E.
  assert (I : axes_inv (history l o)) by (apply history_inv; [intros; apply assign_axes; assumption | eapply init_axes; eassumption]).
  set (o' := history l o) in *. unfold to_ellipsoid in E.
  assert (K : forall k x, is_axis k -> finite (read k o') = Some x -> 0 < x).
  { intros k x Hk F. destruct (check_ok _ (I k Hk)) as [(r & Hr & Pr)|[[Hr|(sh & y & Hr)] _]]; rewrite Hr in F; cbn in F; try discriminate. injection F as <-. exact Pr. }
  destruct (finite (o_a o')) as [xa|] eqn:Fa; [|discriminate]. destruct (finite (o_b o')) as [xb|] eqn:Fb; [|discriminate]. destruct (finite (o_c o')) as [xc|] eqn:Fc; [|discriminate].
  destruct (finite (o_yaw o')); [|discriminate]. destruct (finite (o_pitch o')); [|discriminate]. destruct (finite (o_roll o')); [|discriminate].
  destruct (center_of (o_center o')); [|discriminate]. destruct (density_of _); [|discriminate]. destruct (susceptibility_of _); [|discriminate]. destruct (remanent_of _); [|discriminate].
  injection E as <-. unfold positive_axes; cbn. split; [apply (K A_a); [now left | exact Fa]|]. split; [apply (K A_b); [right; now left | exact Fb] | apply (K A_c); [right; now right | exact Fc]].
Qed.

(** Zero and negative numbers are refused. *)
Theorem C35_nonpositive_rejected : forall k r o, is_axis k -> r <= 0 -> assign k (PReal (Fin r)) o = (o, Raise ValueError).
Proof.
  intros k r o Hk Hr. assert (C : check_positive_semiaxis (PReal (Fin r)) = Raise ValueError) by (unfold check_positive_semiaxis; cbn; destruct (Rleb_spec r 0); [reflexivity | lra]).
  destruct Hk as [-> | [-> | ->]]; cbn [assign]; unfold assign_a, assign_b, assign_c, andthen, check, store; rewrite C; reflexivity.
Qed.
(** Positive numbers are accepted. *)
Theorem C35_positive_accepted : forall k r o, is_axis k -> 0 < r -> exists o', assign k (PReal (Fin r)) o = (o', Ok tt).
Proof.
  intros k r o Hk Hr. assert (C : check_positive_semiaxis (PReal (Fin r)) = Ok tt) by (unfold check_positive_semiaxis; cbn; destruct (Rleb_spec r 0); [lra | reflexivity]).
  destruct Hk as [-> | [-> | ->]]; cbn [assign]; unfold assign_a, assign_b, assign_c, andthen, check, store; rewrite C; eexists; reflexivity.
Qed.

(** NaN is accepted as a semi-axis. *)
Theorem C35_nan_axis_refuted : exists a b c o, init a b c (PReal (Fin 0)) (PReal (Fin 0)) (PReal (Fin 0)) PNone PNone PNone PNone = Ok o /\ ~ positive_length (o_a o).
Proof.
  assert (C : check_positive_semiaxis (PReal (Fin 1)) = Ok tt) by (unfold check_positive_semiaxis; cbn; destruct (Rleb_spec 1 0); [lra | reflexivity]).
  exists (PReal NaN), (PReal (Fin 1)), (PReal (Fin 1)). eexists. split.
  - unfold init, init_method, andthen, check, store. rewrite C. cbn. reflexivity.
  - cbn. intros (r & E & _). discriminate.
Qed.

(** The body that the forward modelling functions read has the sizes, angles, centre and properties given by the user. *)
Definition vector_value (v : vec3) : pyvalue := PSequence (Ok ([3%nat], [Fin (vx v); Fin (vy v); Fin (vz v)])).
Definition density_value (d : option R) : pyvalue := match d with None => PNone | Some r => PReal (Fin r) end.
Definition susceptibility_value (s : option susceptibility_t) : pyvalue :=
  match s with
  | None => PNone
  | Some (Isotropic r) => PReal (Fin r)
  | Some (Tensor m) => PArray [3%nat; 3%nat] (flat_map (fun row => [Fin (vx row); Fin (vy row); Fin (vz row)]) [row1 m; row2 m; row3 m])
  end.
Definition remanent_value (r : option vec3) : pyvalue := match r with None => PNone | Some v => vector_value v end.
Theorem C35_body_as_given : forall a b c yaw pitch roll center density susceptibility remanent, 0 < a -> 0 < b -> 0 < c ->
  exists o, init (PReal (Fin a)) (PReal (Fin b)) (PReal (Fin c)) (PReal (Fin yaw)) (PReal (Fin pitch)) (PReal (Fin roll)) (vector_value center)
      (density_value density) (susceptibility_value susceptibility) (remanent_value remanent) = Ok o /\
    to_ellipsoid o = Some (Ell a b c yaw pitch roll center density susceptibility remanent).
Proof.
  intros a b c yaw pitch roll [x y z] density susceptibility remanent Ha Hb Hc.
  assert (C : forall r, 0 < r -> check_positive_semiaxis (PReal (Fin r)) = Ok tt) by (intros r Hr; unfold check_positive_semiaxis; cbn; destruct (Rleb_spec r 0); [lra | reflexivity]).
  destruct density as [d|]; destruct susceptibility as [[k|[[m1 m2 m3] [m4 m5 m6] [m7 m8 m9]]]|]; destruct remanent as [[r1 r2 r3]|];
    (eexists; split; [unfold init, init_method, andthen, check, store; rewrite !C by assumption; cbn; reflexivity|cbn; reflexivity]).
Qed.
(** A missing number in the centre or in the properties leaves no body to be read. *)
Theorem C35_no_body_with_nan : forall o, (forall sh x y z, o_center o = PSequence (Ok (sh, [x; y; z])) -> In NaN [x; y; z] -> to_ellipsoid o = None) /\
  (o_density o = PReal NaN -> to_ellipsoid o = None) /\ (o_susceptibility o = PReal NaN -> to_ellipsoid o = None) /\
  (forall sh x y z, o_remanent o = PArray sh [x; y; z] -> In NaN [x; y; z] -> to_ellipsoid o = None).
Proof.
  intros o. unfold to_ellipsoid.
  destruct (finite (o_a o)), (finite (o_b o)), (finite (o_c o)), (finite (o_yaw o)), (finite (o_pitch o)), (finite (o_roll o)); try (repeat split; reflexivity).
  assert (F : forall x y z, In NaN [x; y; z] -> finites [x; y; z] = None) by (intros [|x] [|y] [|z] H; cbn in *; try reflexivity; destruct H as [H|[H|[H|[]]]]; discriminate).
  split; [intros sh x y z -> H; unfold center_of; now rewrite F|]. destruct (center_of (o_center o)); [|repeat split; reflexivity].
  split; [now intros ->|]. destruct (density_of (o_density o)); [|repeat split; reflexivity]. split; [now intros ->|].
  intros sh x y z -> H. unfold remanent_of. rewrite F by assumption. now destruct (susceptibility_of _).
Qed.

Example C35_sample : exists o, init (PReal (Fin 3)) (PReal (Fin 2)) (PReal (Fin 1)) (PReal (Fin 0)) (PReal (Fin 0)) (PReal (Fin 0))
    (PSequence (Ok ([3%nat], [Fin 0; Fin 0; Fin 0]))) (PReal (Fin 2670)) PNone PNone = Ok o /\
  to_ellipsoid (history [(A_a, PReal (Fin (-1))); (A_density, PObject); (A_b, PReal (Fin 4))] o) = Some (Ell 3 4 1 0 0 0 (V3 0 0 0) (Some 2670) None None).
Proof.
  assert (C : forall r, 0 < r -> check_positive_semiaxis (PReal (Fin r)) = Ok tt) by (intros r Hr; unfold check_positive_semiaxis; cbn; destruct (Rleb_spec r 0); [lra | reflexivity]).
  eexists. split.
  - unfold init, init_method, andthen, check, store. rewrite !C by lra. cbn. reflexivity.
  - cbn [history fold_left fst snd]. rewrite (C35_nonpositive_rejected A_a (-1)); [|now left|lra]. cbn [fst]. cbn [assign].
    unfold assign_b, andthen, check, store. rewrite C by lra. cbn. reflexivity.
Qed.

Print Assumptions C35_failed_assignment_unchanged.
Print Assumptions C35_successful_assignment.
Print Assumptions C35_constructor.
Print Assumptions C35_well_typed.
Print Assumptions C35_positive_axes_partial.
Print Assumptions C35_bodies_have_positive_axes.
Print Assumptions C35_nonpositive_rejected.
Print Assumptions C35_positive_accepted.
Print Assumptions C35_nan_axis_refuted.
Print Assumptions C35_body_as_given.
Print Assumptions C35_no_body_with_nan.
