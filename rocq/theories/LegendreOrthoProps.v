(** Claim C85: the normalisations of legendre.py over the sphere. *)
From Coquelicot Require Import Coquelicot.
From Coq Require Import Psatz.
From Verif Require Import Base BaseFacts LegendreModel LegendreSpec LegendreFacts LegendreProofs LegendreDerivProofs LegendreOrthoProofs.
Local Open Scope R_scope.

(** The integral over the unit sphere of a function of the sine of the latitude and the longitude. *)
Definition is_sphere_integral (f : R -> R -> R) (v : R) : Prop :=
  is_RInt (fun l => RInt (fun x => f x l) (-1) 1) 0 (2 * PI) v.

(** The surface harmonic of degree n and order m with a cosine or a sine of the longitude; sines start at order one. *)
Definition harmonic (p : R -> table) (n m : nat) (sine : bool) (x l : R) : R :=
  ent (p x) n m * (if sine then sin (INR m * l) else cos (INR m * l)).
Definition index (N n m : nat) (sine : bool) : Prop := (m <= n <= N)%nat /\ (sine = true -> 1 <= m)%nat.

Lemma as_function (routine : R -> nat -> table -> res table) N fresh f :
  (forall x, exists p', routine x N fresh = Ok p' /\ filled N p' (f x)) ->
  exists p, (forall x, routine x N fresh = Ok (p x)) /\ forall x, filled N (p x) (f x).
Proof.
  intros H. exists (fun x => match routine x N fresh with Ok p => p | Raise _ => fresh end).
  split; intros x; destruct (H x) as (p' & E & F'); rewrite E; [reflexivity|exact F'].
Qed.

(** Fully normalised functions times cosines and sines are orthogonal over the sphere, with mean square one. *)
Theorem C85_full_orthonormal : forall N fresh, (1 <= N)%nat -> square N fresh ->
  exists p, (forall x, associated_legendre_full x N fresh = Ok (p x)) /\
    (forall n m s, index N n m s -> is_sphere_integral (fun x l => harmonic p n m s x l ^ 2) (4 * PI)) /\
    (forall n m s n' m' s', index N n m s -> index N n' m' s' -> (n, m, s) <> (n', m', s') ->
      is_sphere_integral (fun x l => harmonic p n m s x l * harmonic p n' m' s' x l) 0).
Proof.
  intros N fresh HN Hs. destruct (as_function associated_legendre_full N fresh _ (fun x => full_table x N fresh HN Hs)) as (p & E & F').
  exists p. split; [exact E|]. unfold is_sphere_integral, harmonic.
  assert (P : forall n m s n' m' s', index N n m s -> index N n' m' s' -> _) by (intros n m s n' m' s' [I1 I2] [I3 I4]; exact (surface_product N full_factor p (fun x _ => F' x) n m s n' m' s' I1 I3 I2 I4)).
  split.
  - intros n m s Hi. pose proof (P n m s n m s Hi Hi) as Q. rewrite Bool.eqb_reflx, !Nat.eqb_refl in Q. cbn [andb] in Q.
    assert (V : full_factor n m ^ 2 * (2 / (2 * INR n + 1) * (INR (fact (n + m)) / INR (fact (n - m)))) * (if Nat.eqb m 0 then 2 * PI else PI) = 4 * PI).
    { unfold full_factor. pose proof (fact_pos (n + m)). pose proof (fact_pos (n - m)). pose proof (pos_INR n). pose proof PI_RGT_0.
      rewrite pow2_sqrt. 2:{ apply Rlt_le, Rdiv_lt_0_compat; [|assumption]. apply Rmult_lt_0_compat; [|assumption]. apply Rmult_lt_0_compat; [|lra]. destruct (Nat.eqb m 0); lra. }
      destruct (Nat.eqb m 0); field; repeat split; lra. }
    rewrite V in Q. refine (is_RInt_ext _ _ _ _ _ _ Q). intros l _. apply RInt_ext. intros x _. unfold wave. eqR. ring.
  - intros n m s n' m' s' Hi Hi' Hne. pose proof (P n m s n' m' s' Hi Hi') as Q.
    replace (Bool.eqb s s' && Nat.eqb m m' && Nat.eqb n n')%bool with false in Q; [exact Q|].
    symmetry. destruct (Bool.eqb_spec s s') as [<-|]; [|reflexivity]. destruct (Nat.eqb_spec m m') as [<-|]; [|reflexivity].
    destruct (Nat.eqb_spec n n') as [<-|]; [contradiction|reflexivity].
Qed.
Print Assumptions C85_full_orthonormal.

(** Schmidt semi-normalised functions are orthogonal with mean square 1 / (2n + 1). *)
Theorem C85_schmidt_orthogonal : forall N fresh, (1 <= N)%nat -> square N fresh ->
  exists p, (forall x, associated_legendre_schmidt x N fresh = Ok (p x)) /\
    (forall n m s, index N n m s -> is_sphere_integral (fun x l => harmonic p n m s x l ^ 2) (4 * PI / (2 * INR n + 1))) /\
    (forall n m s n' m' s', index N n m s -> index N n' m' s' -> (n, m, s) <> (n', m', s') ->
      is_sphere_integral (fun x l => harmonic p n m s x l * harmonic p n' m' s' x l) 0).
Proof.
  intros N fresh HN Hs. destruct (as_function associated_legendre_schmidt N fresh _ (fun x => schmidt_table x N fresh HN Hs)) as (p & E & F').
  exists p. split; [exact E|]. unfold is_sphere_integral, harmonic.
  assert (P : forall n m s n' m' s', index N n m s -> index N n' m' s' -> _) by (intros n m s n' m' s' [I1 I2] [I3 I4]; exact (surface_product N schmidt_factor p (fun x _ => F' x) n m s n' m' s' I1 I3 I2 I4)).
  split.
  - intros n m s Hi. pose proof (P n m s n m s Hi Hi) as Q. rewrite Bool.eqb_reflx, !Nat.eqb_refl in Q. cbn [andb] in Q.
    assert (V : schmidt_factor n m ^ 2 * (2 / (2 * INR n + 1) * (INR (fact (n + m)) / INR (fact (n - m)))) * (if Nat.eqb m 0 then 2 * PI else PI) = 4 * PI / (2 * INR n + 1)).
    { unfold schmidt_factor. pose proof (fact_pos (n + m)). pose proof (fact_pos (n - m)). pose proof (pos_INR n). pose proof PI_RGT_0.
      rewrite pow2_sqrt. 2:{ apply Rlt_le, Rdiv_lt_0_compat; [|assumption]. apply Rmult_lt_0_compat; [|assumption]. destruct (Nat.eqb m 0); lra. }
      destruct (Nat.eqb m 0); field; repeat split; lra. }
    rewrite V in Q. refine (is_RInt_ext _ _ _ _ _ _ Q). intros l _. apply RInt_ext. intros x _. unfold wave. eqR. ring.
  - intros n m s n' m' s' Hi Hi' Hne. pose proof (P n m s n' m' s' Hi Hi') as Q.
    replace (Bool.eqb s s' && Nat.eqb m m' && Nat.eqb n n')%bool with false in Q; [exact Q|].
    symmetry. destruct (Bool.eqb_spec s s') as [<-|]; [|reflexivity]. destruct (Nat.eqb_spec m m') as [<-|]; [|reflexivity].
    destruct (Nat.eqb_spec n n') as [<-|]; [contradiction|reflexivity].
Qed.
Print Assumptions C85_schmidt_orthogonal.

(** Unnormalised functions are orthogonal; the documented factors are the ones that normalise them. *)
Theorem C85_plain_orthogonal : forall N fresh, square N fresh ->
  exists p, (forall x, associated_legendre x N fresh = Ok (p x)) /\
    (forall n m s, index N n m s -> exists v, is_sphere_integral (fun x l => harmonic p n m s x l ^ 2) v /\ 0 < v /\
       full_factor n m = sqrt (4 * PI / v) /\ schmidt_factor n m = sqrt (4 * PI / v / (2 * INR n + 1))) /\
    (forall n m s n' m' s', index N n m s -> index N n' m' s' -> (n, m, s) <> (n', m', s') ->
      is_sphere_integral (fun x l => harmonic p n m s x l * harmonic p n' m' s' x l) 0).
Proof.
  intros N fresh Hs. destruct (as_function associated_legendre N fresh _ (fun x => plain_table x N fresh Hs)) as (p & E & F').
  exists p. split; [exact E|]. unfold is_sphere_integral, harmonic.
  assert (F2 : forall x, -1 <= x <= 1 -> filled N (p x) (fun n m => sin_of x ^ m * (1 * L n m x))).
  { intros x _. destruct (F' x) as [Q1 Q2]. split; [exact Q1|]. intros n m Hm Hn. rewrite Q2 by assumption. unfold plain. ring. }
  assert (P : forall n m s n' m' s', index N n m s -> index N n' m' s' -> _) by (intros n m s n' m' s' [I1 I2] [I3 I4]; exact (surface_product N (fun _ _ => 1) p F2 n m s n' m' s' I1 I3 I2 I4)).
  split.
  - intros n m s Hi. pose proof (P n m s n m s Hi Hi) as Q. rewrite Bool.eqb_reflx, !Nat.eqb_refl in Q. cbn [andb] in Q.
    eexists. split; [refine (is_RInt_ext _ _ _ _ _ _ Q); intros l _; apply RInt_ext; intros x _; unfold wave; eqR; ring|].
    pose proof (fact_pos (n + m)). pose proof (fact_pos (n - m)). pose proof (pos_INR n). pose proof PI_RGT_0.
    assert (0 < INR (fact (n + m)) / INR (fact (n - m))) by (apply Rdiv_lt_0_compat; assumption).
    assert (0 < 2 / (2 * INR n + 1)) by (apply Rdiv_lt_0_compat; lra).
    split; [|split].
    + rewrite pow1. apply Rmult_lt_0_compat; [|destruct (Nat.eqb m 0); lra]. apply Rmult_lt_0_compat; [lra|]. apply Rmult_lt_0_compat; assumption.
    + unfold full_factor. f_equal. destruct (Nat.eqb m 0); field; repeat split; lra.
    + unfold schmidt_factor. f_equal. destruct (Nat.eqb m 0); field; repeat split; lra.
  - intros n m s n' m' s' Hi Hi' Hne. pose proof (P n m s n' m' s' Hi Hi') as Q.
    replace (Bool.eqb s s' && Nat.eqb m m' && Nat.eqb n n')%bool with false in Q; [exact Q|].
    symmetry. destruct (Bool.eqb_spec s s') as [<-|]; [|reflexivity]. destruct (Nat.eqb_spec m m') as [<-|]; [|reflexivity].
    destruct (Nat.eqb_spec n n') as [<-|]; [contradiction|reflexivity].
Qed.
Print Assumptions C85_plain_orthogonal.

Example C85_ex : square 3 (Table 4 4 (fun _ _ => 0)) /\ index 3 3 2 true /\ index 3 2 0 false.
Proof. repeat split; try lia; intros; lia || discriminate. Qed.
