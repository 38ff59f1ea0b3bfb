(** Proofs about the windows of gradient-boosted equivalent sources. *)
From Coq Require Import Psatz Permutation.
From Verif Require Import Base BaseFacts NumPy NumPyFacts DistanceModel DistanceSpec DistanceProofs PointGravitySpec PointGravityProofs
  LegendreModel LegendreProofs EqsModel EqsSpec EqsProofs EqsFitProofs EqsBoostProofs EqsWindowProofs EqsRegionSpec.
Local Open Scope R_scope.

Lemma fold_min_le l : forall a, fold_left Rmin l a <= a /\ (forall x, In x l -> fold_left Rmin l a <= x) /\ In (fold_left Rmin l a) (a :: l).
Proof.
  induction l as [|y l IH]; intros a; cbn [fold_left]; [split; [lra|split; [contradiction|now left]]|]. destruct (IH (Rmin a y)) as (H1 & H2 & H3).
  pose proof (Rmin_l a y). pose proof (Rmin_r a y). split; [lra|]. split; [intros x [<-|Hx]; [lra|auto]|].
  destruct H3 as [E|Hi]; [|right; now right]. rewrite <- E. unfold Rmin. destruct (Rle_dec a y); [now left|right; now left].
Qed.
Lemma fold_max_ge l : forall a, a <= fold_left Rmax l a /\ (forall x, In x l -> x <= fold_left Rmax l a) /\ In (fold_left Rmax l a) (a :: l).
Proof.
  induction l as [|y l IH]; intros a; cbn [fold_left]; [split; [lra|split; [contradiction|now left]]|]. destruct (IH (Rmax a y)) as (H1 & H2 & H3).
  pose proof (Rmax_l a y). pose proof (Rmax_r a y). split; [lra|]. split; [intros x [<-|Hx]; [lra|auto]|].
  destruct H3 as [E|Hi]; [|right; now right]. rewrite <- E. unfold Rmax. destruct (Rle_dec a y); [right; now left|now left].
Qed.

(** The bounds of a region that fits tightly around positions. *)
Definition tight (xs ys : list R) (reg : region) : Prop := let '(w, e, s, n) := reg in
  (forall x, In x xs -> w <= x <= e) /\ (forall y, In y ys -> s <= y <= n) /\ In w xs /\ In e xs /\ In s ys /\ In n ys.

Lemma get_region_tight xs ys reg : get_region xs ys = Ok reg -> tight xs ys reg.
Proof.
  unfold get_region. destruct xs as [|x xs]; [discriminate|]. destruct ys as [|y ys]; [discriminate|]. intros E. injection E as <-.
  destruct (fold_min_le xs x) as (A1 & A2 & A3), (fold_max_ge xs x) as (B1 & B2 & B3), (fold_min_le ys y) as (C1 & C2 & C3), (fold_max_ge ys y) as (D1 & D2 & D3).
  unfold tight. repeat split; try assumption.
  - destruct H as [<-|H]; [exact A1|auto].
  - destruct H as [<-|H]; [exact B1|auto].
  - destruct H as [<-|H]; [exact C1|auto].
  - destruct H as [<-|H]; [exact D1|auto].
Qed.

Lemma region_of ds qs reg : get_region_data_sources (flat ds) (flat qs) = Ok reg ->
  tight (map fst3 (ds ++ qs)) (map snd3 (ds ++ qs)) reg.
Proof.
  unfold get_region_data_sources. intros H. apply bind_ok in H. destruct H as ([[[w e] s] n] & H1 & H). apply bind_ok in H. destruct H as ([[[w' e'] s'] n'] & H2 & H). injection H as <-.
  apply get_region_tight in H1, H2. cbn [flat fst snd] in H1, H2. destruct H1 as (A1 & A2 & A3 & A4 & A5 & A6), H2 as (B1 & B2 & B3 & B4 & B5 & B6).
  rewrite !map_app. unfold tight.
  pose proof (Rmin_l w w'). pose proof (Rmin_r w w'). pose proof (Rmax_l e e'). pose proof (Rmax_r e e').
  pose proof (Rmin_l s s'). pose proof (Rmin_r s s'). pose proof (Rmax_l n n'). pose proof (Rmax_r n n').
  split; [|split; [|repeat split]].
  - intros x Hx. apply in_app_or in Hx. destruct Hx as [Hx|Hx]; [specialize (A1 x Hx)|specialize (B1 x Hx)]; lra.
  - intros x Hx. apply in_app_or in Hx. destruct Hx as [Hx|Hx]; [specialize (A2 x Hx)|specialize (B2 x Hx)]; lra.
  - apply in_or_app. unfold Rmin. destruct (Rle_dec w w'); auto.
  - apply in_or_app. unfold Rmax. destruct (Rle_dec e e'); auto.
  - apply in_or_app. unfold Rmin. destruct (Rle_dec s s'); auto.
  - apply in_or_app. unfold Rmax. destruct (Rle_dec n n'); auto.
Qed.

Lemma nonempty_in sw dw ws k : nonempty_windows sw dw = Ok ws -> (k < length sw)%nat -> nth k sw [] <> [] -> nth k dw [] <> [] -> In (nth k sw [], nth k dw []) ws.
Proof.
  unfold nonempty_windows. destruct (Nat.eqb_spec (length sw) (length dw)) as [El|]; [|discriminate]. intros E Hk Hs Hd. injection E as <-. apply filter_In. split.
  - rewrite <- combine_nth by assumption. apply nth_In. rewrite combine_length, <- El. lia.
  - cbn [fst snd]. destruct (nth k sw []); [congruence|]. destruct (nth k dw []); [congruence|]. reflexivity.
Qed.
Lemma in_nonempty_nth sw dw ws w : nonempty_windows sw dw = Ok ws -> In w ws ->
  fst w <> [] /\ snd w <> [] /\ exists k, (k < length sw)%nat /\ (k < length dw)%nat /\ fst w = nth k sw [] /\ snd w = nth k dw [].
Proof.
  unfold nonempty_windows. destruct (Nat.eqb_spec (length sw) (length dw)) as [El|]; [|discriminate]. intros E H. injection E as <-. apply filter_In in H. destruct H as (H & F).
  apply andb_prop in F. destruct F as (F1 & F2). destruct w as [a b]. cbn [fst snd] in *.
  split; [intros ->; discriminate|]. split; [intros ->; discriminate|].
  apply (In_nth _ _ ([], [])) in H. destruct H as (k & Hk & E). rewrite combine_length, <- El in Hk. rewrite combine_nth in E by assumption. injection E as <- <-. exists k. split; [lia|]. split; [lia|]. split; reflexivity.
Qed.

(** What create_windows returns: everything, or the cut of one window size. *)
Lemma create_windows_cases rw order win (qs ds : list point) shuffle ws : an_order order ->
  create_windows rw order win (flat qs) (flat ds) shuffle = Ok ws ->
  exists reg, get_region_data_sources (flat ds) (flat qs) = Ok reg /\
    ((exists s, win = WindowString s) /\ INR (length ds) <= 5000 /\ ws = [(range 0 (length qs), range 0 (length ds))] \/
     exists size sw dw ws', (forall s, win = WindowString s -> 5000 < INR (length ds)) /\ (forall x, win = WindowNumber x -> size = x) /\
       (forall s, win = WindowString s -> let '(w, e, s, n) := reg in size = sqrt (5000 / (INR (length ds) / ((e - w) * (n - s))))) /\
       rw (map fst3 qs) (map snd3 qs) reg size 0.5 = Ok sw /\ rw (map fst3 ds) (map snd3 ds) reg size 0.5 = Ok dw /\
       nonempty_windows sw dw = Ok ws' /\ Permutation ws ws').
Proof.
  intros Ho H. assert (exists ws', create_windows rw order win (flat qs) (flat ds) false = Ok ws' /\ Permutation ws ws') as (ws' & H' & P).
  { destruct shuffle; [now apply create_windows_shuffled with (order := order)|]. exists ws. split; [exact H|reflexivity]. }
  clear H. unfold create_windows in H'. apply bind_ok in H'. destruct H' as ([[[w e] s] n] & Er & H'). cbv zeta in H'. rewrite size_flat in H'.
  exists (w, e, s, n). split; [exact Er|].
  assert (Hcut : forall window, (do source_windows <- rw (fst (fst (flat qs))) (snd (fst (flat qs))) (w, e, s, n) window 0.5;
     do data_windows <- rw (fst (fst (flat ds))) (snd (fst (flat ds))) (w, e, s, n) window 0.5;
     nonempty_windows source_windows data_windows) = Ok ws' -> exists sw dw, rw (map fst3 qs) (map snd3 qs) (w, e, s, n) window 0.5 = Ok sw /\ rw (map fst3 ds) (map snd3 ds) (w, e, s, n) window 0.5 = Ok dw /\
       nonempty_windows sw dw = Ok ws').
  { intros window Hc. apply bind_ok in Hc. destruct Hc as (sw & Es & Hc). apply bind_ok in Hc. destruct Hc as (dw & Ed & Hc). exists sw, dw. split; [exact Es|]. split; [exact Ed|exact Hc]. }
  destruct win as [str|x].
  - destruct (Rleb_spec (INR (length ds)) 5000) as [Hn|Hn].
    + left. split; [eexists; reflexivity|]. split; [exact Hn|]. injection H' as <-. rewrite size_flat in P. apply Permutation_sym, Permutation_length_1_inv in P. exact P.
    + right. destruct (Hcut _ H') as (sw & dw & E1 & E2 & E3). exists (sqrt (5000 / (INR (length ds) / ((e - w) * (n - s))))), sw, dw, ws'.
      split; [intros; lra|]. split; [discriminate|]. split; [reflexivity|]. auto.
  - right. destruct (Hcut _ H') as (sw & dw & E1 & E2 & E3). exists x, sw, dw, ws'.
    split; [discriminate|]. split; [congruence|]. split; [discriminate|]. auto.
Qed.

Lemma nth_fst3 (ps : list point) i : nth i (map fst3 ps) 0 = fst3 (nth i ps zero_point).
Proof. change 0 with (fst3 zero_point). apply map_nth. Qed.
Lemma nth_snd3 (ps : list point) i : nth i (map snd3 ps) 0 = snd3 (nth i ps zero_point).
Proof. change 0 with (snd3 zero_point). apply map_nth. Qed.

Lemma tight_inside xs ys reg x y : tight xs ys reg -> In x xs -> In y ys -> inside reg x y.
Proof. destruct reg as [[[w e] s] n]. intros (H1 & H2 & _) Hx Hy. split; auto. Qed.

Lemma shared_window rw order win (qs ds : list point) shuffle ws i j : an_order order -> cuts_squares rw ->
  create_windows rw order win (flat qs) (flat ds) shuffle = Ok ws -> (i < length ds)%nat -> (j < length qs)%nat ->
  same_vertical (nth i ds zero_point) (nth j qs zero_point) -> exists w, In w ws /\ In j (fst w) /\ In i (snd w).
Proof.
  intros Ho (centres & Hrw) H Hi Hj (Ex & Ey). destruct (create_windows_cases _ _ _ _ _ _ _ Ho H) as (reg & Er & [(_ & _ & ->)|(size & sw & dw & ws' & _ & _ & _ & Es & Ed & En & P)]).
  - eexists. split; [now left|]. cbn [fst snd]. split; apply range_in; lia.
  - destruct (Hrw _ _ _ _ _ _ Es) as (Ls & Hcov & Hs). destruct (Hrw _ _ _ _ _ _ Ed) as (Ld & _ & Hd).
    assert (Hin : inside reg (fst3 (nth i ds zero_point)) (snd3 (nth i ds zero_point))).
    { apply (tight_inside _ _ _ _ _ (region_of _ _ _ Er)); apply in_map, in_or_app; left; now apply nth_In. }
    destruct (Hcov _ _ Hin) as (c & Hc & Hh). apply (In_nth _ _ (0, 0)) in Hc. destruct Hc as (k & Hk & <-).
    assert (Is : In j (nth k sw [])).
    { apply Hs; [lia|]. rewrite map_length. split; [exact Hj|]. rewrite nth_fst3, nth_snd3, <- Ex, <- Ey. exact Hh. }
    assert (Id : In i (nth k dw [])).
    { apply Hd; [lia|]. rewrite map_length. split; [exact Hi|]. rewrite nth_fst3, nth_snd3. exact Hh. }
    exists (nth k sw [], nth k dw []). split; [|split; assumption]. apply (Permutation_in _ (Permutation_sym P)). apply (nonempty_in _ _ _ _ En); [lia|intros E; now rewrite E in Is|intros E; now rewrite E in Id].
Qed.

Lemma held_near size c x y x' y' : held size c x y -> held size c x' y' -> Rabs (x - x') <= size /\ Rabs (y - y') <= size.
Proof.
  intros (A & B) (A' & B'). split.
  - replace (x - x') with ((x - fst c) + - (x' - fst c)) by ring. eapply Rle_trans; [apply Rabs_triang|]. rewrite Rabs_Ropp. lra.
  - replace (y - y') with ((y - snd c) + - (y' - snd c)) by ring. eapply Rle_trans; [apply Rabs_triang|]. rewrite Rabs_Ropp. lra.
Qed.

Lemma near_windows rw order win (qs ds : list point) shuffle ws : an_order order -> cuts_squares rw ->
  create_windows rw order win (flat qs) (flat ds) shuffle = Ok ws -> (forall s, win = WindowString s -> 5000 < INR (length ds)) ->
  exists reg size, get_region_data_sources (flat ds) (flat qs) = Ok reg /\ (forall x, win = WindowNumber x -> size = x) /\
       (forall s, win = WindowString s -> let '(w, e, s, n) := reg in size = sqrt (5000 / (INR (length ds) / ((e - w) * (n - s))))) /\
   forall w i j, In w ws -> In j (fst w) -> In i (snd w) -> (i < length ds)%nat /\ (j < length qs)%nat /\
     Rabs (fst3 (nth i ds zero_point) - fst3 (nth j qs zero_point)) <= size /\ Rabs (snd3 (nth i ds zero_point) - snd3 (nth j qs zero_point)) <= size.
Proof.
  intros Ho (centres & Hrw) H Hbig. destruct (create_windows_cases _ _ _ _ _ _ _ Ho H) as (reg & Er & [((s & E) & Hle & _)|(size & sw & dw & ws' & _ & Hn & Hs & Es & Ed & En & P)]).
  - specialize (Hbig s E). lra.
  - exists reg, size. split; [exact Er|]. split; [exact Hn|]. split; [exact Hs|]. intros w i j Hw Hj Hi. apply (Permutation_in _ P) in Hw.
    destruct (in_nonempty_nth _ _ _ _ En Hw) as (_ & _ & k & K1 & K2 & E1 & E2). rewrite E1 in Hj. rewrite E2 in Hi.
    destruct (Hrw _ _ _ _ _ _ Es) as (Ls & Hcov & Hsw). destruct (Hrw _ _ _ _ _ _ Ed) as (Ld & _ & Hdw).
    apply Hsw in Hj; [|exact K1]. apply Hdw in Hi; [|exact K2]. rewrite map_length, nth_fst3, nth_snd3 in Hj, Hi. destruct Hj as (Hj & Hj'), Hi as (Hi & Hi').
    split; [exact Hi|]. split; [exact Hj|]. exact (held_near _ _ _ _ _ _ Hi' Hj').
Qed.
