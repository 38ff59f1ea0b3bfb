(** Proofs about the windows of gradient boosting and the memory estimates. *)
From Coq Require Import Psatz Permutation.
From Verif Require Import Base BaseFacts NumPy NumPyFacts DistanceModel DistanceSpec DistanceProofs PointGravitySpec PointGravityProofs
  LegendreModel LegendreProofs EqsModel EqsSpec EqsProofs EqsFitProofs EqsBoostProofs.
Local Open Scope R_scope.

(** ** Shuffling *)
Lemma chosen_permutation {A} (d : A) l order : Permutation order (seq 0 (length l)) -> Permutation (chosen d l order) l.
Proof.
  intros H. transitivity (chosen d l (range 0 (length l))); [|rewrite chosen_seq; reflexivity].
  unfold chosen. apply Permutation_map. unfold range. now rewrite Nat.sub_0_r.
Qed.

Lemma combine_chosen {A B} (a : A) (b : B) l m order : length l = length m ->
  combine (chosen a l order) (chosen b m order) = chosen (a, b) (combine l m) order.
Proof.
  intros H. induction order as [|k order IH]; [reflexivity|]. unfold chosen in *. cbn [map combine]. rewrite IH. f_equal. symmetry. now apply combine_nth.
Qed.

Lemma filter_permutation {A} (f : A -> bool) l m : Permutation l m -> Permutation (filter f l) (filter f m).
Proof.
  induction 1; cbn; auto.
  - destruct (f x); auto.
  - destruct (f x), (f y); auto. constructor.
  - now transitivity (filter f l').
Qed.

Lemma order_in order n k : an_order order -> In k (order n) -> (k < n)%nat.
Proof. intros H Hk. apply (Permutation_in _ (H n)) in Hk. apply in_seq in Hk. lia. Qed.

Lemma create_windows_shuffled rw order win pts co ws : an_order order ->
  create_windows rw order win pts co true = Ok ws ->
  exists ws', create_windows rw order win pts co false = Ok ws' /\ Permutation ws ws'.
Proof.
  intros Ho H. unfold create_windows in *. apply bind_ok in H. destruct H as ([[[w e] s] n] & -> & H). cbn [bind]. cbv zeta in *.
  assert (Hcut : forall window,
    (do source_windows <- rw (fst (fst pts)) (snd (fst pts)) (w, e, s, n) window 0.5;
     do data_windows <- rw (fst (fst co)) (snd (fst co)) (w, e, s, n) window 0.5;
     if negb (Nat.eqb (length source_windows) (length data_windows)) then Raise ValueError else
      do source_windows <- reorder (order (length source_windows)) source_windows;
      do data_windows <- reorder (order (length data_windows)) data_windows;
      nonempty_windows source_windows data_windows) = Ok ws ->
    exists ws', (do source_windows <- rw (fst (fst pts)) (snd (fst pts)) (w, e, s, n) window 0.5;
     do data_windows <- rw (fst (fst co)) (snd (fst co)) (w, e, s, n) window 0.5;
     nonempty_windows source_windows data_windows) = Ok ws' /\ Permutation ws ws').
  { intros window Hc. apply bind_ok in Hc. destruct Hc as (sw & -> & Hc). apply bind_ok in Hc. destruct Hc as (dw & -> & Hc). cbn [bind].
    destruct (Nat.eqb_spec (length sw) (length dw)) as [El|]; [|discriminate]. cbn [negb] in Hc. unfold reorder in Hc.
    rewrite (take_ok []) in Hc by (intros k Hk; exact (order_in order _ k Ho Hk)). cbn [bind] in Hc.
    rewrite (take_ok []) in Hc by (intros k Hk; exact (order_in order _ k Ho Hk)). cbn [bind] in Hc.
    unfold nonempty_windows in *. rewrite !length_chosen, <- El in Hc. rewrite Nat.eqb_refl in Hc. rewrite <- El, Nat.eqb_refl. injection Hc as <-.
    eexists. split; [reflexivity|]. apply filter_permutation. rewrite combine_chosen by assumption. apply chosen_permutation.
    rewrite combine_length, <- El, Nat.min_id. apply Ho. }
  destruct win as [str|x]; [|apply Hcut; exact H].
  destruct (Rleb (INR (size co)) 5000); [|apply Hcut; exact H]. exists ws. split; [exact H|reflexivity].
Qed.

(** The order does not change the set of windows. *)
Lemma create_windows_orders rw o1 o2 win pts co ws1 ws2 : an_order o1 -> an_order o2 ->
  create_windows rw o1 win pts co true = Ok ws1 -> create_windows rw o2 win pts co true = Ok ws2 -> Permutation ws1 ws2.
Proof.
  intros H1 H2 E1 E2. destruct (create_windows_shuffled _ _ _ _ _ _ H1 E1) as (w1 & F1 & P1). destruct (create_windows_shuffled _ _ _ _ _ _ H2 E2) as (w2 & F2 & P2).
  assert (E : w1 = w2) by (unfold create_windows in F1, F2; congruence). subst. rewrite P1, P2. reflexivity.
Qed.

(** ** Largest window *)
Lemma fold_max_ge l : forall a, (a <= fold_left Nat.max l a)%nat /\ forall x, In x l -> (x <= fold_left Nat.max l a)%nat.
Proof.
  induction l as [|y l IH]; intros a; cbn [fold_left]; [split; [lia|contradiction]|]. destruct (IH (Nat.max a y)) as (H1 & H2). split; [lia|].
  intros x [<-|Hx]; [lia|auto].
Qed.

Lemma fold_max_in l : forall a, fold_left Nat.max l a = a \/ In (fold_left Nat.max l a) l.
Proof.
  induction l as [|y l IH]; intros a; cbn [fold_left]; [now left|]. destruct (IH (Nat.max a y)) as [E|E]; [|right; now right]. rewrite E.
  destruct (Nat.max_dec a y) as [->| ->]; [now left|]. right. now left.
Qed.

Lemma max_nat_spec l m : max_nat l = Ok m -> In m l /\ forall x, In x l -> (x <= m)%nat.
Proof.
  destruct l as [|a l]; [discriminate|]. unfold max_nat. intros H. injection H as <-. destruct (fold_max_ge l a) as (H1 & H2). split.
  - destruct (fold_max_in l a) as [->|E]; [now left|now right].
  - intros x [<-|Hx]; auto.
Qed.

(** ** Shape of the Jacobian *)
Lemma for_preserve {I S} (P : S -> Prop) (body : I -> S -> res S) l : (forall i s s', P s -> body i s = Ok s' -> P s') ->
  forall s s', P s -> for_ l body s = Ok s' -> P s'.
Proof.
  intros Hb. induction l as [|i l IH]; intros s s' Hs H; cbn [for_] in H; [injection H as <-; exact Hs|].
  apply bind_ok in H. destruct H as (s1 & H1 & H). exact (IH s1 s' (Hb _ _ _ Hs H1) H).
Qed.

Lemma jacobian_shape dt greens co pts J : jacobian dt greens co pts = Ok J -> rows J = size co /\ cols J = size pts.
Proof.
  unfold jacobian, jacobian_kernel. apply (for_preserve (fun J => rows J = size co /\ cols J = size pts)); [|split; reflexivity].
  intros i s s' Hs. apply (for_preserve (fun J => rows J = size co /\ cols J = size pts)); [|exact Hs].
  intros j t t' Ht H. apply bind_ok in H. destruct H as (v & _ & H). unfold tset in H. destruct (in_shape t i j); [|discriminate]. injection H as <-. exact Ht.
Qed.

(** ** One window with everything in it *)
Lemma nth_range n j : (j < n)%nat -> nth j (range 0 n) 0%nat = j.
Proof. intros H. unfold range. rewrite Nat.sub_0_r, seq_nth by assumption. reflexivity. Qed.

Lemma length_range n : length (range 0 n) = n.
Proof. unfold range. now rewrite seq_length, Nat.sub_0_r. Qed.

Lemma NoDup_range n : NoDup (range 0 n).
Proof. unfold range. apply seq_NoDup. Qed.

Lemma put_range (l vs : list R) n : length l = n -> length vs = n -> put l (range 0 n) vs = vs.
Proof.
  intros Hl Hv. apply (nth_ext _ _ 0 0); [rewrite length_put; lia|]. intros j Hj. rewrite length_put in Hj.
  rewrite <- (nth_range n j) at 1 by lia. apply nth_put; [apply NoDup_range| |rewrite length_range; lia|lia].
  intros k Hk. apply range_in in Hk. lia.
Qed.

Lemma range_window n : window_of n (range 0 n).
Proof. split; [apply NoDup_range|]. intros k Hk. apply range_in in Hk. lia. Qed.

Lemma weights_all n weights : weights_cover n weights -> option_map (fun l => chosen 0 l (range 0 n)) weights = weights.
Proof. destruct weights as [l|]; [|reflexivity]. cbn. intros <-. now rewrite chosen_seq. Qed.

Lemma one_window ls damping qs ds data weights st : length data = length ds -> weights_cover (length ds) weights ->
  gradient_boosting ls float64 damping (flat qs) (flat ds) data weights [(range 0 (length qs), range 0 (length ds))] (repeat 0 (length qs)) = Ok st ->
  exists J, jacobian float64 greens_func_cartesian (flat ds) (flat qs) = Ok J /\ snd st = ls J data weights damping.
Proof.
  intros Hd Hw H. unfold gradient_boosting in H. cbn [for_] in H. apply bind_ok in H. destruct H as (s1 & H & E). injection E as ->.
  rewrite boost_window_chunks in H; [|apply range_window|apply range_window|exact Hd|apply repeat_length|exact Hw]. cbn [fst snd] in H.
  rewrite !chosen_seq in H. replace (chosen 0 data (range 0 (length ds))) with data in H by (rewrite <- Hd; symmetry; apply chosen_seq). rewrite (weights_all (length ds)) in H by exact Hw. apply bind_ok in H. destruct H as (J & HJ & H). exists J. split; [exact HJ|].
  cbv zeta in H. apply bind_ok in H. destruct H as (pr & Hpr & H). set (chunk := ls J data weights damping) in *. rewrite length_range in H.
  destruct (Nat.eqb_spec (length chunk) (length qs)) as [El|]; [|discriminate]. injection H as <-. cbn [snd].
  rewrite put_range; [|apply repeat_length|rewrite length_map2; rewrite length_chosen, length_range; [reflexivity|exact El]].
  apply (nth_ext _ _ 0 0); [rewrite length_map2; rewrite length_chosen, length_range; [now symmetry|exact El]|].
  intros j Hj. rewrite length_map2 in Hj by (rewrite length_chosen, length_range; exact El). rewrite length_chosen, length_range in Hj.
  rewrite (nth_map2 _ _ _ _ 0 0) by (rewrite ?length_chosen, ?length_range; lia).
  unfold chosen. rewrite (nth_map _ _ _ 0%nat) by (rewrite length_range; exact Hj). rewrite nth_range by exact Hj. rewrite nth_repeat. ring.
Qed.

Lemma fit_gb_unfold ls avg nd rw order self win co da w self' errs : dt self = float64 -> fit_gb ls avg nd rw order self win co da w = Ok (self', errs) ->
  exists mid pts ws residue coefs, check_fit_input co da w = Ok tt /\ fit_points avg nd self (ravel3 co) = Ok mid /\ points_ mid = Some pts /\ create_windows rw order win pts (ravel3 co) true = Ok ws /\
    gradient_boosting ls float64 (damping self) pts (ravel3 co) (ravel da) (option_map ravel w) ws (repeat 0 (size pts)) = Ok (residue, errs, coefs) /\
    self' = set_coefs mid coefs /\ dt mid = float64 /\ damping mid = damping self.
Proof.
  intros Hdt H. unfold fit_gb in H. rewrite Hdt in H. apply bind_ok in H. destruct H as ([] & Hck & H). cbv zeta in H.
  rewrite astype3_float64, astype_float64, weights_float64 in H.
  apply bind_ok in H. destruct H as (mid & Hmid & H). apply bind_ok in H. destruct H as (pts & Hpts & H).
  assert (Hd : dt mid = float64 /\ damping mid = damping self).
  { unfold fit_points in Hmid. destruct (points self); [injection Hmid as <-; cbn; auto|].
    apply bind_ok in Hmid. destruct Hmid as ([p s] & Hb & Hmid). unfold build_points in Hb. cbv zeta in Hb. 
    destruct (match block_size self with Some s => avg s (ravel3 co) | None => ravel3 co end) as [[c0 c1] c2].
    apply bind_ok in Hb. destruct Hb as (D & _ & Hb). injection Hb as <- <-. injection Hmid as <-. cbn. auto. }
  destruct Hd as (Hd & Hda). rewrite Hd, Hda in H. apply bind_ok in H. destruct H as (ws & Hws & H). apply bind_ok in H. destruct H as ([[residue errors] coefs] & HB & H).
  injection H as <- <-. exists mid, pts, ws, residue, coefs. repeat split; auto. unfold get_points in Hpts. destruct (points_ mid); [injection Hpts as <-; reflexivity|discriminate].
Qed.

Lemma set_coefs_points self c : points_ (set_coefs self c) = points_ self.
Proof. reflexivity. Qed.

Lemma single_window_fit ls avg nd rw order self s sh ds d w self' errs qs : dt self = float64 -> length d = length ds -> weights_cover (length ds) (option_map ravel w) ->
  INR (length ds) <= 5000 -> points_ self' = Some (flat qs) ->
  fit_gb ls avg nd rw order self (WindowString s) (coords_of sh ds) (Arr sh d) w = Ok (self', errs) ->
  fit ls avg nd self (coords_of sh ds) (Arr sh d) w = Ok self'.
Proof.
  intros Hdt Hd Hw Hn Hq H. destruct (fit_gb_unfold _ _ _ _ _ _ _ _ _ _ _ _ Hdt H) as (mid & pts & ws & residue & coefs & Hck & Hmid & Hpts & Hws & HB & -> & Hdm & Hda).
  rewrite set_coefs_points in Hq. rewrite Hpts in Hq. injection Hq as ->.
  unfold create_windows in Hws. apply bind_ok in Hws. destruct Hws as ([[[we e] so] n] & _ & Hws). cbv zeta in Hws.
  change (ravel3 (coords_of sh ds)) with (flat ds) in *. rewrite !size_flat in *. change (ravel (Arr sh d)) with d in *.
  destruct (Rleb_spec (INR (length ds)) 5000) as [_|Hgt].
  2:{ exfalso. lra. }
  injection Hws as <-. destruct (one_window ls _ qs ds d _ _ Hd Hw HB) as (J & HJ & Hc). cbn [snd] in Hc.
  unfold fit. rewrite Hck. cbn [bind]. rewrite Hdt. cbv zeta. rewrite astype3_float64, astype_float64, weights_float64. change (ravel3 (coords_of sh ds)) with (flat ds).
  rewrite Hmid. cbn [bind]. unfold get_points. rewrite Hpts. cbn [bind]. rewrite Hdm, HJ. cbn [bind]. rewrite Hc, Hda. reflexivity.
Qed.

(** ** Windows are positions of the arrays *)
Lemma in_nonempty sw dw ws w : nonempty_windows sw dw = Ok ws -> In w ws -> In (fst w) sw /\ In (snd w) dw.
Proof.
  unfold nonempty_windows. destruct (Nat.eqb _ _); [|discriminate]. intros E H. injection E as <-. apply filter_In in H. destruct H as (H & _). destruct w as [a b].
  split; [eapply in_combine_l|eapply in_combine_r]; exact H.
Qed.

Lemma create_windows_valid rw order win (qs ds : list point) ws : an_order order ->
  (forall x y reg s o l, rw x y reg s o = Ok l -> forall w, In w l -> window_of (length x) w) ->
  create_windows rw order win (flat qs) (flat ds) true = Ok ws -> windows_of (length qs) (length ds) ws.
Proof.
  intros Ho Hrw H. destruct (create_windows_shuffled _ _ _ _ _ _ Ho H) as (ws' & H' & P).
  intros w Hw. apply (Permutation_in _ P) in Hw. clear H P ws. unfold create_windows in H'. apply bind_ok in H'. destruct H' as ([[[we e] s] n] & _ & H'). cbv zeta in H'.
  assert (Hcut : forall window, (do source_windows <- rw (fst (fst (flat qs))) (snd (fst (flat qs))) (we, e, s, n) window 0.5;
     do data_windows <- rw (fst (fst (flat ds))) (snd (fst (flat ds))) (we, e, s, n) window 0.5;
     nonempty_windows source_windows data_windows) = Ok ws' -> window_of (length qs) (fst w) /\ window_of (length ds) (snd w)).
  { intros window Hc. apply bind_ok in Hc. destruct Hc as (sw & Es & Hc). apply bind_ok in Hc. destruct Hc as (dw & Ed & Hc).
    destruct (in_nonempty _ _ _ _ Hc Hw) as (H1 & H2). split.
    - assert (V := Hrw _ _ _ _ _ _ Es _ H1). cbn [flat fst] in V. now rewrite map_length in V.
    - assert (V := Hrw _ _ _ _ _ _ Ed _ H2). cbn [flat fst] in V. now rewrite map_length in V. }
  destruct win as [str|x]; [|exact (Hcut _ H')].
  destruct (Rleb (INR (size (flat ds))) 5000); [|exact (Hcut _ H')]. injection H' as <-. destruct Hw as [<-|[]]. cbn [fst snd]. rewrite !size_flat. split; apply range_window.
Qed.

(** ** A Jacobian exists only if no data point coincides with a source *)
Lemma for_ok_each {I S} (body : I -> S -> res S) l : forall s s', for_ l body s = Ok s' -> forall i, In i l -> exists s1 s2, body i s1 = Ok s2.
Proof.
  induction l as [|k l IH]; intros s s' H i Hi; [contradiction|]. cbn [for_] in H. apply bind_ok in H. destruct H as (s1 & H1 & H).
  destruct Hi as [<-|Hi]; [now exists s, s1|]. eapply IH; eauto.
Qed.

Lemma jacobian_apart greens place dt ds qs J : greens_for greens place -> jacobian dt greens (flat ds) (flat qs) = Ok J -> apart place ds qs.
Proof.
  intros Hg H p q Hp Hq E. unfold jacobian, jacobian_kernel in H. rewrite !size_flat in H.
  apply (In_nth _ _ p0) in Hp, Hq. destruct Hp as (i & Hi & <-), Hq as (j & Hj & <-).
  destruct (for_ok_each _ _ _ _ H i ltac:(apply range_in; lia)) as (s1 & s2 & H1).
  destruct (for_ok_each _ _ _ _ H1 j ltac:(apply range_in; lia)) as (s3 & s4 & H2).
  rewrite (greens_at_flat greens place Hg) in H2 by assumption. cbv zeta in H2. apply eucl_zero in E. rewrite E in H2.
  destruct (Reqb_spec 0 0) as [_|n]; [discriminate|]. apply n. reflexivity.
Qed.
