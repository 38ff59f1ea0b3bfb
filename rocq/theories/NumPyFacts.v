From Verif Require Import Base BaseFacts NumPy.

Lemma list_eq_nth_error {A} (l1 l2 : list A) :
  (forall k, nth_error l1 k = nth_error l2 k) -> l1 = l2.
Proof.
  revert l2; induction l1 as [|x l1 IH]; intros [|y l2] H; auto.
  - specialize (H 0%nat); discriminate.
  - specialize (H 0%nat); discriminate.
  - f_equal.
    + specialize (H 0%nat); simpl in H; congruence.
    + apply IH; intros k; apply (H (S k)).
Qed.

Lemma nth_error_map_range {A} (f : nat -> A) n k :
  (k < n)%nat -> nth_error (map f (range 0 n)) k = Some (f k).
Proof.
  intros H. unfold range. rewrite Nat.sub_0_r.
  rewrite nth_error_map, (nth_error_nth' _ 0%nat) by (rewrite seq_length; lia).
  now rewrite seq_nth by lia.
Qed.

Lemma length_map_range {A} (f : nat -> A) n : length (map f (range 0 n)) = n.
Proof. unfold range; rewrite map_length, seq_length; lia. Qed.

Lemma nth_upd_eq (l : list R) i x d : (i < length l)%nat -> nth i (upd l i x) d = x.
Proof. intros H. apply nth_error_nth. now apply nth_error_upd_eq. Qed.

Lemma nth_upd_neq (l : list R) i j x d : i <> j -> nth j (upd l i x) d = nth j l d.
Proof.
  intros H. destruct (nth_error l j) eqn:E.
  - rewrite (nth_error_nth l j d E). apply nth_error_nth. now rewrite nth_error_upd_neq.
  - rewrite (nth_overflow l) by (now apply nth_error_None).
    apply nth_overflow. rewrite length_upd. now apply nth_error_None.
Qed.

(** One inner loop. *)
Lemma inner_loop m i contrib c out :
  (i < length out)%nat -> (forall j, (j < m)%nat -> contrib i j = Ok (c i j)) ->
  for_ (range 0 m) (fun j out => do v <- contrib i j; do o <- aget out i; aset out i (o + v)) out
  = Ok (upd out i (nth i out 0 + sum_over (range 0 m) (c i))).
Proof.
  intros Hi Hc.
  assert (G : forall l s, (forall j, In j l -> (j < m)%nat) -> (i < length s)%nat ->
     for_ l (fun j out => do v <- contrib i j; do o <- aget out i; aset out i (o + v)) s
     = Ok (upd s i (nth i s 0 + sum_over l (c i)))).
  { induction l as [|j l IH]; intros s Hl Hs; simpl for_.
    - f_equal. unfold sum_over; simpl. rewrite Rplus_0_r.
      apply list_eq_nth_error; intros k. destruct (Nat.eq_dec i k) as [<-|Hk].
      + rewrite nth_error_upd_eq by assumption. now rewrite (nth_error_nth' s 0) by assumption.
      + now rewrite nth_error_upd_neq.
    - rewrite Hc by (apply Hl; now left). simpl.
      rewrite (aget_ok s i 0) by assumption. simpl.
      rewrite aset_ok by assumption. simpl.
      rewrite IH; [|intros; apply Hl; now right|rewrite length_upd; assumption].
      f_equal. rewrite nth_upd_eq by assumption. rewrite sum_over_cons.
      apply list_eq_nth_error; intros k. destruct (Nat.eq_dec i k) as [<-|Hk].
      + rewrite !nth_error_upd_eq by (rewrite ?length_upd; assumption). f_equal; ring.
      + now rewrite !nth_error_upd_neq. }
  apply G; auto. intros j Hj; apply range_in in Hj; lia.
Qed.

(** The double loop when no access fails. *)
Lemma accumulate_ok n m contrib c out :
  length out = n -> (forall i j, (i < n)%nat -> (j < m)%nat -> contrib i j = Ok (c i j)) ->
  accumulate n m contrib out = Ok (map (fun i => nth i out 0 + sum_over (range 0 m) (c i)) (range 0 n)).
Proof.
  intros Hn Hc. unfold accumulate.
  assert (G : forall k, (k <= n)%nat -> exists s,
    for_ (range 0 k) (fun i out => for_ (range 0 m) (fun j out =>
        do v <- contrib i j; do o <- aget out i; aset out i (o + v)) out) out = Ok s
    /\ length s = n
    /\ (forall i, (i < k)%nat -> nth i s 0 = nth i out 0 + sum_over (range 0 m) (c i))
    /\ (forall i, (k <= i)%nat -> nth i s 0 = nth i out 0)).
  { induction k as [|k IH]; intros Hk.
    - exists out; repeat split; auto; intros; lia.
    - destruct IH as (s & Hs & Hl & H1 & H2); [lia|].
      unfold range in *. replace (S k - 0)%nat with (k - 0 + 1)%nat by lia.
      rewrite seq_app, for_app, Hs. simpl.
      fold (range 0 m). rewrite (inner_loop m (k - 0) contrib c s); [|lia|intros; apply Hc; lia].
      rewrite Nat.sub_0_r. simpl. eexists; split; [reflexivity|].
      split; [now rewrite length_upd|]. split; intros i Hi.
      + destruct (Nat.eq_dec k i) as [<-|Hne].
        * rewrite nth_upd_eq by lia. rewrite H2 by lia. reflexivity.
        * rewrite nth_upd_neq by assumption. apply H1; lia.
      + rewrite nth_upd_neq by lia. apply H2; lia. }
  destruct (G n (le_n n)) as (s & Hs & Hl & H1 & _). rewrite Hs. f_equal.
  apply list_eq_nth_error; intros k. destruct (Nat.lt_ge_cases k n) as [Hk|Hk].
  - rewrite nth_error_map_range by assumption.
    rewrite (nth_error_nth' s 0) by lia. now rewrite H1.
  - rewrite (proj2 (nth_error_None _ _)) by lia.
    symmetry; apply nth_error_None. rewrite length_map_range; lia.
Qed.

Lemma sum_over_range_nth {A} (l : list A) (d : A) f :
  sum_over (range 0 (length l)) (fun j => f (nth j l d)) = sum_over l f.
Proof.
  unfold range; rewrite Nat.sub_0_r. rewrite <- sum_over_map.
  replace (map (fun j => nth j l d) (seq 0 (length l))) with l; [reflexivity|].
  apply list_eq_nth_error; intros k. rewrite nth_error_map.
  destruct (Nat.lt_ge_cases k (length l)) as [H|H].
  - rewrite (nth_error_nth' (seq _ _) 0%nat) by (rewrite seq_length; lia).
    rewrite seq_nth by lia. simpl. now rewrite (nth_error_nth' l d).
  - rewrite (proj2 (nth_error_None (seq _ _) _)) by (rewrite seq_length; lia).
    simpl. now apply nth_error_None.
Qed.

Lemma bcast_rev_same s : bcast_rev s s = Some s.
Proof. induction s as [|x s IH]; simpl; [reflexivity|]. now rewrite IH, Nat.eqb_refl. Qed.

Lemma broadcast3_same a b c : shape a = shape b -> shape b = shape c -> broadcast3 a b c = Ok (shape c).
Proof.
  intros H1 H2. unfold broadcast3. rewrite H1, H2, bcast_rev_same, bcast_rev_same. now rewrite rev_involutive.
Qed.

Lemma prod_shape_app s t : prod_shape (s ++ t) = (prod_shape s * prod_shape t)%nat.
Proof. induction s as [|x s IH]; simpl; [lia|]. unfold prod_shape in *; simpl; rewrite IH; lia. Qed.

Lemma prod_shape_rev s : prod_shape (rev s) = prod_shape s.
Proof.
  induction s as [|x s IH]; [reflexivity|]. simpl rev. rewrite prod_shape_app, IH.
  unfold prod_shape; simpl; lia.
Qed.

Lemma bidx_same s : forall k stride, (k < prod_shape s)%nat -> bidx s s k stride = (k * stride)%nat.
Proof.
  induction s as [|d s IH]; intros k stride H; simpl in *.
  - assert (k = 0)%nat by lia. subst. reflexivity.
  - change (k < d * prod_shape s)%nat in H.
    assert (Hd : (d <> 0)%nat) by (intros ->; simpl in H; lia).
    rewrite IH by (apply Nat.div_lt_upper_bound; lia).
    destruct (Nat.eqb_spec d 1) as [->|_].
    + rewrite Nat.div_1_r. lia.
    + pose proof (Nat.div_mod k d Hd). nia.
Qed.

Lemma bcast_get_same a k : wf_arr a -> (k < length (data a))%nat -> bcast_get a (shape a) k = nth k (data a) 0.
Proof.
  intros Hw H. unfold bcast_get. rewrite bidx_same; [now rewrite Nat.mul_1_r|].
  rewrite prod_shape_rev, <- Hw. exact H.
Qed.
