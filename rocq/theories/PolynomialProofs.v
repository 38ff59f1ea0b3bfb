(** Polynomials with a known leading term: roots, products, and the Legendre functions of Rodrigues' formula. *)
From Coquelicot Require Import Coquelicot.
From Coq Require Import Psatz.
From Verif Require Import Base BaseFacts LegendreModel LegendreSpec LegendreFacts.
Local Open Scope R_scope.

(** [lead d c f]: f is a polynomial without powers above d, with coefficient c at the power d. *)
Fixpoint lead (d : nat) (c : R) (f : R -> R) : Prop :=
  match d with
  | O => forall x, f x = c
  | S d => exists a g, lead d c g /\ forall x, f x = a + x * g x
  end.

Lemma lead_ext d c f g : lead d c f -> (forall x, g x = f x) -> lead d c g.
Proof. destruct d; cbn; [intros H E x; now rewrite E|]. intros (a & k & H & H') E. exists a, k. split; [exact H|]. intros x. now rewrite E. Qed.
Lemma lead_eq d c c' f : lead d c f -> c = c' -> lead d c' f.
Proof. now intros H <-. Qed.
Lemma lead_plus d : forall c c' f g, lead d c f -> lead d c' g -> lead d (c + c') (fun x => f x + g x).
Proof.
  induction d as [|d IH]; cbn; intros c c' f g.
  - intros H H' x. now rewrite H, H'.
  - intros (a & k & H & E) (a' & k' & H' & E'). exists (a + a'), (fun x => k x + k' x). split; [now apply IH|]. intros x. rewrite E, E'. ring.
Qed.
Lemma lead_scal d : forall c k f, lead d c f -> lead d (k * c) (fun x => k * f x).
Proof.
  induction d as [|d IH]; cbn; intros c k f.
  - intros H x. now rewrite H.
  - intros (a & g & H & E). exists (k * a), (fun x => k * g x). split; [now apply IH|]. intros x. rewrite E. ring.
Qed.
Lemma lead_x d c f : lead d c f -> lead (S d) c (fun x => x * f x).
Proof. intros H. exists 0, f. split; [exact H|]. intros x. ring. Qed.
Lemma lead_up d : forall c f, lead d c f -> lead (S d) 0 f.
Proof.
  induction d as [|d IH]; intros c f.
  - intros H. exists c, (fun _ => 0). split; [intros x; reflexivity|]. intros x. cbn in H. rewrite H. ring.
  - intros (a & g & H & E). exists a, g. split; [now apply (IH c)|exact E].
Qed.
Lemma lead_raise d d' c f : lead d c f -> (d < d')%nat -> lead d' 0 f.
Proof. intros H Hd. induction Hd as [|d' _ IH]; [now apply (lead_up d c)|]. now apply (lead_up d' 0). Qed.
Lemma lead_zero d f : (forall x, f x = 0) -> lead d 0 f.
Proof. intros H. destruct d; [exact H|]. apply (lead_raise 0 (S d) 0); [exact H|lia]. Qed.
Lemma lead_mult d : forall d' c c' f g, lead d c f -> lead d' c' g -> lead (d + d') (c * c') (fun x => f x * g x).
Proof.
  induction d as [|d IH]; intros d' c c' f g.
  - intros H H'. cbn in H. apply (lead_ext _ _ (fun x => c * g x)); [now apply lead_scal|]. intros x. now rewrite H.
  - intros (a & k & H & E) H'. apply (lead_ext _ _ (fun x => a * g x + x * (k x * g x))); [|intros x; rewrite E; ring].
    apply (lead_eq _ (0 + c * c')); [|ring]. apply lead_plus; [|apply (lead_x _ _ (fun x => k x * g x)); now apply IH].
    apply (lead_raise d' _ (a * c')); [now apply lead_scal|lia].
Qed.
Lemma lead_pow d c f k : lead d c f -> lead (k * d) (c ^ k) (fun x => f x ^ k).
Proof. intros H. induction k as [|k IH]; [intros x; reflexivity|]. cbn [Nat.mul pow]. now apply lead_mult. Qed.
Lemma lead_sum {A} d (ls : list A) (f : A -> R -> R) (c : A -> R) : (forall a, In a ls -> lead d (c a) (f a)) ->
  lead d (sum_over ls c) (fun x => sum_over ls (fun a => f a x)).
Proof.
  induction ls as [|a ls IH]; intros H; [now apply lead_zero|].
  apply (lead_ext _ _ (fun x => f a x + sum_over ls (fun a => f a x))); [|intros x; now rewrite sum_over_cons].
  rewrite sum_over_cons. apply lead_plus; [apply H; now left|]. apply IH. intros b Hb. apply H. now right.
Qed.

(** ** Roots *)
Lemma factor d : forall f r, lead (S d) 0 f -> exists g, lead d 0 g /\ forall x, f x = f r + (x - r) * g x.
Proof.
  induction d as [|d IH]; intros f r (a & g & H & E).
  - exists g. split; [exact H|]. intros x. cbn in H. rewrite !E, !H. ring.
  - destruct (IH g r H) as (k & Hk & Ek). exists (fun x => g x + r * k x). split.
    + apply (lead_eq _ (0 + r * 0)); [|ring]. apply lead_plus; [exact H|]. apply (lead_scal (S d) 0 r k). now apply (lead_up d 0).
    + intros x. rewrite !E. specialize (Ek x). replace (g x) with (g r + (x - r) * k x) at 1 by (symmetry; exact Ek). rewrite Ek. ring.
Qed.
Lemma roots d : forall f l, lead d 0 f -> NoDup l -> length l = d -> (forall x, In x l -> f x = 0) -> forall x, f x = 0.
Proof.
  induction d as [|d IH]; intros f l H N E Z x; [apply H|].
  destruct l as [|r l]; [discriminate|]. inversion N as [|? ? N1 N2]; subst. injection E as E.
  destruct (factor d f r H) as (g & Hg & Eg).
  assert (G : forall x, g x = 0).
  { apply (IH g l Hg N2 E). intros y Hy. assert (F := Eg y). rewrite (Z y (or_intror Hy)), (Z r (or_introl eq_refl)) in F.
    assert (y <> r) by (intros ->; contradiction). apply (Rmult_eq_reg_l (y - r)); lra. }
  rewrite (Eg x), (G x), (Z r (or_introl eq_refl)). ring.
Qed.
Lemma nonzero_points d : exists l, NoDup l /\ length l = d /\ forall x, In x l -> 0 < x <= INR d.
Proof.
  induction d as [|d (l & N & E & B)]; [exists []; split; [constructor|split; [reflexivity|intros x []]]|].
  exists (INR (S d) :: l). assert (D := pos_INR d). rewrite S_INR. split; [|split].
  - constructor; [|exact N]. intros H. apply B in H. lra.
  - cbn [length]. now rewrite E.
  - intros x [<-|H]; [lra|]. apply B in H. lra.
Qed.
(** A polynomial that vanishes everywhere has no leading term. *)
Lemma lead_unique d : forall c f, lead d c f -> (forall x, f x = 0) -> c = 0.
Proof.
  induction d as [|d IH]; intros c f; cbn.
  - intros H Z. rewrite <- (H 0). apply Z.
  - intros (a & g & H & E) Z. apply (IH c g H).
    assert (A : a = 0) by (assert (E0 := E 0); rewrite Z in E0; lra).
    destruct (nonzero_points (S d)) as (l & N & Hl & B). apply (roots (S d) g l); [now apply (lead_up d c)|exact N|exact Hl|].
    intros x Hx. apply B in Hx. assert (Ex := E x). rewrite Z, A in Ex. apply (Rmult_eq_reg_l x); lra.
Qed.

(** ** Legendre functions *)
Lemma F_lead n : forall k, (k <= 2 * n)%nat -> exists c, 0 < c /\ lead (2 * n - k) c (F n k).
Proof.
  induction n as [|n IH]; intros k Hk.
  - exists 1. split; [lra|]. replace k with 0%nat by lia. intros x. reflexivity.
  - destruct k as [|k].
    + exists (/ (2 ^ S n * INR (fact (S n)))). assert (P : 0 < 2 ^ S n * INR (fact (S n))) by (apply Rmult_lt_0_compat; [apply pow_lt; lra|apply fact_pos]).
      split; [now apply Rinv_0_lt_compat|].
      assert (Q : lead 2 1 (fun x => x ^ 2 - 1)).
      { exists (-1), (fun x => x). split; [|intros x; ring]. exists 0, (fun _ => 1). split; [intros x; reflexivity|intros x; ring]. }
      apply (lead_pow _ _ _ (S n)) in Q. apply (lead_scal _ _ (/ (2 ^ S n * INR (fact (S n))))) in Q. rewrite pow1, Rmult_1_r in Q.
      rewrite Nat.sub_0_r. rewrite (Nat.mul_comm 2). apply (lead_ext _ _ _ _ Q). intros x. rewrite F_0. unfold Rdiv. apply Rmult_comm.
    + destruct (Nat.eq_dec k 0) as [->|Hk0].
      * destruct (IH 0%nat ltac:(lia)) as (c & C & H). exists c. split; [exact C|]. replace (2 * S n - 1)%nat with (S (2 * n - 0)) by lia.
        apply (lead_ext _ _ (fun x => x * F n 0 x)); [now apply lead_x|]. intros x. cbn [F]. simpl (INR 0). ring.
      * destruct (IH (k - 1)%nat ltac:(lia)) as (c & C & H).
        assert (K : 0 < INR k) by (apply lt_0_INR; lia).
        assert (X : exists c', 0 <= c' /\ lead (2 * S n - S k) c' (fun x => x * F n k x)).
        { destruct (le_lt_dec k (2 * n)) as [Hkn|Hkn].
          - destruct (IH k Hkn) as (c' & C' & H'). exists c'. split; [lra|]. replace (2 * S n - S k)%nat with (S (2 * n - k)) by lia. now apply lead_x.
          - exists 0. split; [lra|]. apply lead_zero. intros x. rewrite F_high by lia. ring. }
        destruct X as (c' & C' & X). exists (c' + INR k * c). split; [nra|].
        apply (lead_ext _ _ (fun x => x * F n k x + INR k * F n (k - 1) x)); [|intros x; reflexivity].
        apply lead_plus; [exact X|]. replace (2 * S n - S k)%nat with (2 * n - (k - 1))%nat by lia. now apply lead_scal.
Qed.
Lemma F_parity n : forall k x, F n k (- x) = (-1) ^ k * F n k x.
Proof.
  induction n as [|n IH]; intros k x; [destruct k; cbn; ring|].
  destruct k as [|k]; [rewrite !F_0; replace ((- x) ^ 2) with (x ^ 2) by ring; cbn [pow]; ring|].
  change (F (S n) (S k) (- x)) with (- x * F n k (- x) + INR k * F n (k - 1) (- x)).
  change (F (S n) (S k) x) with (x * F n k x + INR k * F n (k - 1) x). rewrite !IH.
  destruct k as [|k]; [simpl (INR 0); cbn [pow]; ring|]. replace (S k - 1)%nat with k by lia. cbn [pow]. ring.
Qed.
Lemma L_lead n m : (m <= n)%nat -> exists c, 0 < c /\ lead (n - m) c (L n m).
Proof. intros H. destruct (F_lead n (n + m) ltac:(lia)) as (c & C & Q). exists c. split; [exact C|]. unfold L. now replace (n - m)%nat with (2 * n - (n + m))%nat by lia. Qed.
Lemma L_parity n m x : L n m (- x) = (-1) ^ (n + m) * L n m x.
Proof. apply F_parity. Qed.
