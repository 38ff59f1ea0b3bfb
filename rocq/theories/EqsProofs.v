(** Proofs about the equivalent sources. *)
From Coq Require Import Psatz Permutation.
From Verif Require Import Base BaseFacts NumPy NumPyFacts DistanceModel DistanceSpec DistanceProofs PointGravitySpec PointGravityProofs
  LegendreModel LegendreProofs EqsModel EqsSpec.
Local Open Scope R_scope.

(** ** Kernels *)
Definition greens_for (greens : greens_t) (place : point -> vec3) : Prop :=
  forall p q, greens (fst3 p) (snd3 p) (thd3 p) (fst3 q) (snd3 q) (thd3 q) =
    if Reqb (eucl (place p) (place q)) 0 then Raise ZeroDivisionError else Ok (1 / eucl (place p) (place q)).

Lemma greens_cartesian_for : greens_for greens_func_cartesian cart_position.
Proof. intros [[e n] u] [[e' n'] u']. unfold greens_func_cartesian, fst3, snd3, thd3; cbn [fst snd]. now rewrite distance_cartesian_eucl. Qed.

Lemma greens_spherical_for : greens_for greens_func_spherical sph_position.
Proof. intros [[e n] u] [[e' n'] u']. unfold greens_func_spherical, fst3, snd3, thd3; cbn [fst snd]. now rewrite distance_spherical_eucl. Qed.

Section Kernels.
Variables (greens : greens_t) (place : point -> vec3).
Hypothesis greens_place : greens_for greens place.

Lemma size_flat ps : size (flat ps) = length ps.
Proof. unfold size, flat. cbn. apply map_length. Qed.

Lemma greens_at_flat ps qs i j : (i < length ps)%nat -> (j < length qs)%nat ->
  greens_at greens (flat ps) (flat qs) i j =
  let d := eucl (place (nth i ps p0)) (place (nth j qs p0)) in
  if Reqb d 0 then Raise ZeroDivisionError else Ok (1 / d).
Proof.
  intros Hi Hj. unfold greens_at, flat. getall. nthall. apply greens_place.
Qed.

Lemma greens_at_ok ps qs i j : apart place ps qs -> (i < length ps)%nat -> (j < length qs)%nat ->
  greens_at greens (flat ps) (flat qs) i j = Ok (1 / eucl (place (nth i ps p0)) (place (nth j qs p0))).
Proof.
  intros Ha Hi Hj. rewrite greens_at_flat by assumption. cbv zeta.
  destruct (Reqb_spec (eucl (place (nth i ps p0)) (place (nth j qs p0))) 0) as [E|E]; [|reflexivity].
  exfalso. apply eucl_zero in E. revert E. apply Ha; apply nth_In; assumption.
Qed.

Lemma for_ext {I S} (l : list I) (f g : I -> S -> res S) s : (forall i s, In i l -> f i s = g i s) -> for_ l f s = for_ l g s.
Proof.
  revert s. induction l as [|i l IH]; intros s H; [reflexivity|]. cbn [for_]. rewrite H by (now left).
  destruct (g i s); [|reflexivity]. cbn [bind]. apply IH. intros; apply H; now right.
Qed.

Lemma predict_kernel_accumulate ps qs coefs out :
  predict_kernel float64 greens (flat ps) (flat qs) coefs out =
  accumulate (length ps) (length qs) (fun i j => do c <- aget coefs j; do v <- greens_at greens (flat ps) (flat qs) i j; Ok (c * v)) out.
Proof.
  unfold predict_kernel, accumulate. rewrite !size_flat. apply for_ext. intros i s _. apply for_ext. intros j s' _.
  destruct (aget coefs j); [|reflexivity]. cbn [bind]. destruct (greens_at greens (flat ps) (flat qs) i j); [|reflexivity]. cbn [bind]. reflexivity.
Qed.

Lemma inverse_distance_unfold p qs cs : inverse_distance place p (combine qs cs) =
  sum_over (combine qs cs) (fun s => snd s * (1 / eucl (place p) (place (fst s)))).
Proof. apply sum_over_ext. intros. unfold Rdiv. ring. Qed.

Lemma nth_sources (qs : list point) coefs j : length coefs = length qs -> @nth source j (combine qs coefs) s0 = (nth j qs p0, nth j coefs 0).
Proof. intros H. apply combine_nth. now symmetry. Qed.
Lemma length_sources (qs : list point) (coefs : list R) : length coefs = length qs -> @length source (combine qs coefs) = length qs.
Proof. intros H. etransitivity; [apply combine_length|lia]. Qed.

Lemma predict_kernel_ok ps qs coefs : apart place ps qs -> length coefs = length qs ->
  predict_kernel float64 greens (flat ps) (flat qs) coefs (repeat 0 (length ps)) =
  Ok (map (fun p => inverse_distance place p (combine qs coefs)) ps).
Proof.
  intros Ha Hl. rewrite predict_kernel_accumulate.
  assert (Hcl : @length source (combine qs coefs) = length qs) by (apply length_sources; assumption).
  rewrite (accumulate_points ps (combine qs coefs) _ (fun p s => snd s * (1 / eucl (place p) (place (fst s))))).
  - f_equal. apply map_ext. intros p. symmetry. apply inverse_distance_unfold.
  - reflexivity.
  - lia.
  - intros i j Hi Hj. rewrite Hcl in Hj. rewrite nth_sources by assumption. cbn [fst snd].
    rewrite (aget_ok coefs j 0) by lia. cbn [bind]. rewrite greens_at_ok by (assumption || lia). reflexivity.
Qed.

Lemma jacobian_ok ps qs : apart place ps qs ->
  exists J, jacobian float64 greens (flat ps) (flat qs) = Ok J /\ rows J = length ps /\ cols J = length qs /\
    forall i j, (i < length ps)%nat -> (j < length qs)%nat -> ent J i j = 1 / eucl (place (nth i ps p0)) (place (nth j qs p0)).
Proof.
  intros Ha. unfold jacobian, jacobian_kernel. rewrite !size_flat.
  set (g := fun i j => 1 / eucl (place (nth i ps p0)) (place (nth j qs p0))).
  set (I := fun i0 j0 (J : table) => rows J = length ps /\ cols J = length qs /\
    forall i j, (i < length ps)%nat -> (j < length qs)%nat -> (i < i0)%nat \/ (i = i0 /\ j < j0)%nat -> ent J i j = g i j).
  match goal with |- exists J, for_ (range 0 (length ps)) ?body ?s = _ /\ _ =>
    destruct (for_range_inv 0 (length ps) body (fun i J => I i 0%nat J) s) as (J & E & HI) end.
  - lia.
  - split; [reflexivity|]. split; [reflexivity|]. intros; lia.
  - intros i0 J Hi0 HI.
    match goal with |- exists s', for_ (range 0 (length qs)) ?body J = _ /\ _ =>
      destruct (for_range_inv 0 (length qs) body (fun j J => I i0 j J) J ltac:(lia) HI) as (J' & E & HI') end.
    + intros j0 J1 Hj0 (R1 & C1 & E1). rewrite greens_at_ok by (assumption || lia). cbn [bind cast float64].
      unfold tset, in_shape. rewrite R1, C1. destruct (Nat.ltb_spec i0 (length ps)); [|lia]. destruct (Nat.ltb_spec j0 (length qs)); [|lia]. cbn [andb].
      eexists; split; [reflexivity|]. split; [reflexivity|]. split; [reflexivity|]. cbn [ent]. intros i j Hi Hj Hd.
      destruct (Nat.eqb_spec i i0), (Nat.eqb_spec j j0); cbn [andb]; subst; try reflexivity; apply E1; lia.
    + exists J'. split; [exact E|]. destruct HI' as (R1 & C1 & E1). split; [exact R1|]. split; [exact C1|]. intros; apply E1; lia.
  - exists J. destruct HI as (R1 & C1 & E1). split; [exact E|]. split; [exact R1|]. split; [exact C1|]. intros; apply E1; lia.
Qed.

(** A source at an observation point makes the kernels fail. *)
Lemma for_first_error {I S} (l : list I) (body : I -> S -> res S) (P : S -> Prop) e : 
  (forall i s, In i l -> P s -> body i s = Raise e \/ exists s', body i s = Ok s' /\ P s') ->
  forall s, P s -> (exists i, In i l /\ forall s, P s -> body i s = Raise e) -> for_ l body s = Raise e.
Proof.
  induction l as [|i l IH]; intros H s Hs (k & Hk & Ek); [contradiction|]. cbn [for_].
  destruct (H i s (or_introl eq_refl) Hs) as [->|(s' & E & Hs')]; [reflexivity|].
  destruct Hk as [->|Hk]; [rewrite Ek by exact Hs; reflexivity|]. rewrite E. cbn [bind]. apply IH; [intros; apply H; auto; now right|exact Hs'|].
  exists k. split; assumption.
Qed.

Lemma predict_kernel_raises ps qs coefs : ~ apart place ps qs -> length coefs = length qs ->
  predict_kernel float64 greens (flat ps) (flat qs) coefs (repeat 0 (length ps)) = Raise ZeroDivisionError.
Proof.
  intros Ha Hl.
  assert (Hc : exists i j, (i < length ps)%nat /\ (j < length qs)%nat /\ eucl (place (nth i ps p0)) (place (nth j qs p0)) = 0).
  { destruct (existsb (fun p => existsb (fun q => Reqb (eucl (place p) (place q)) 0) qs) ps) eqn:Eb.
    - apply existsb_exists in Eb. destruct Eb as (p & Hp & Eb). apply existsb_exists in Eb. destruct Eb as (q & Hq & Eb).
      destruct (Reqb_spec (eucl (place p) (place q)) 0) as [E|E]; [|discriminate].
      apply (In_nth _ _ p0) in Hp, Hq. destruct Hp as (i & Hi & <-), Hq as (j & Hj & <-). now exists i, j.
    - exfalso. apply Ha. intros p q Hp Hq Epq.
      assert (T : existsb (fun p => existsb (fun q => Reqb (eucl (place p) (place q)) 0) qs) ps = true).
      { apply existsb_exists. exists p. split; [exact Hp|]. apply existsb_exists. exists q. split; [exact Hq|].
        destruct (Reqb_spec (eucl (place p) (place q)) 0) as [E|E]; [reflexivity|]. exfalso. apply E. now apply eucl_zero. }
      congruence. }
  destruct Hc as (i & j & Hi & Hj & E0).
  unfold predict_kernel. rewrite !size_flat.
  assert (Hin : forall i s j, (i < length ps)%nat -> length s = length ps -> (j < length qs)%nat ->
    (do c <- aget coefs j; do v <- greens_at greens (flat ps) (flat qs) i j; do o <- aget s i; aset s i (cast float64 (o + c * v))) = Raise ZeroDivisionError
    \/ exists s', (do c <- aget coefs j; do v <- greens_at greens (flat ps) (flat qs) i j; do o <- aget s i; aset s i (cast float64 (o + c * v))) = Ok s' /\ length s' = length ps).
  { intros i1 s j1 Hi1 Hs Hj1. rewrite (aget_ok coefs j1 0) by lia. cbn [bind]. rewrite greens_at_flat by assumption. cbv zeta.
    destruct (Reqb _ 0); [now left|]. right. cbn [bind]. rewrite (aget_ok s i1 0) by lia. cbn [bind]. rewrite aset_ok by lia.
    eexists; split; [reflexivity|]. now rewrite length_upd. }
  apply (for_first_error _ _ (fun s => length s = length ps)).
  - intros i1 s Hi1 Hs. apply range_in in Hi1.
    match goal with |- ?x = _ \/ _ => destruct x as [s'|e] eqn:Ex end.
    + right. exists s'. split; [reflexivity|].
      assert (Hgen : forall l s s', (forall j, In j l -> (j < length qs)%nat) -> length s = length ps ->
        for_ l (fun j result => do c <- aget coefs j; do v <- greens_at greens (flat ps) (flat qs) i1 j; do o <- aget result i1; aset result i1 (cast float64 (o + c * v))) s = Ok s' -> length s' = length ps).
      { induction l as [|j1 l IH]; intros t t' Hl' Ht Et; [cbn in Et; injection Et as <-; exact Ht|]. cbn [for_] in Et.
        destruct (Hin i1 t j1 ltac:(lia) Ht (Hl' _ (or_introl eq_refl))) as [F|(t2 & F & Ht2)]; rewrite F in Et; [discriminate|]. cbn [bind] in Et.
        apply (IH t2 t'); auto. intros; apply Hl'; now right. }
      apply (Hgen (range 0 (length qs)) s s'); auto. intros j1 Hj1. apply range_in in Hj1. lia.
    + left. f_equal.
      assert (Hgen : forall l s e, (forall j, In j l -> (j < length qs)%nat) -> length s = length ps ->
        for_ l (fun j result => do c <- aget coefs j; do v <- greens_at greens (flat ps) (flat qs) i1 j; do o <- aget result i1; aset result i1 (cast float64 (o + c * v))) s = Raise e -> e = ZeroDivisionError).
      { induction l as [|j1 l IH]; intros t t' Hl' Ht Et; [discriminate|]. cbn [for_] in Et.
        destruct (Hin i1 t j1 ltac:(lia) Ht (Hl' _ (or_introl eq_refl))) as [F|(t2 & F & Ht2)]; rewrite F in Et; [cbn in Et; congruence|]. cbn [bind] in Et.
        apply (IH t2 t'); auto. intros; apply Hl'; now right. }
      apply (Hgen (range 0 (length qs)) s e); auto. intros j1 Hj1. apply range_in in Hj1. lia.
  - apply repeat_length.
  - exists i. split; [apply range_in; lia|]. intros s Hs.
    apply (for_first_error _ _ (fun s => length s = length ps)); [|exact Hs|].
    + intros j1 s1 Hj1 Hs1. apply range_in in Hj1. apply Hin; lia || assumption.
    + exists j. split; [apply range_in; lia|]. intros s1 Hs1. rewrite (aget_ok coefs j 0) by lia. cbn [bind].
      rewrite greens_at_flat by assumption. cbv zeta. rewrite E0. destruct (Reqb_spec 0 0); [reflexivity|]. exfalso; auto.
Qed.

(** The prediction is the Jacobian times the coefficients. *)
Lemma times_inverse_distance ps qs coefs J i : length coefs = length qs -> cols J = length qs -> (i < length ps)%nat ->
  (forall j, (j < length qs)%nat -> ent J i j = 1 / eucl (place (nth i ps p0)) (place (nth j qs p0))) ->
  times J coefs i = inverse_distance place (nth i ps p0) (combine qs coefs).
Proof.
  intros Hl Hc Hi HE. unfold times. rewrite Hc, inverse_distance_unfold.
  transitivity (sum_over (range 0 (@length source (combine qs coefs))) (fun j => (fun s : point * R => snd s * (1 / eucl (place (nth i ps p0)) (place (fst s)))) (@nth source j (combine qs coefs) s0))).
  - rewrite length_sources by assumption. apply sum_over_ext. intros j Hj. apply range_in in Hj. rewrite HE by lia.
    rewrite nth_sources by assumption. cbn [fst snd]. ring.
  - apply (sum_over_range_nth (combine qs coefs) s0 (fun s : point * R => snd s * (1 / eucl (place (nth i ps p0)) (place (fst s))))).
Qed.
End Kernels.
