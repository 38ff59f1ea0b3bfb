(** Claim C116: when the error of gradient boosting can grow. *)
From Coq Require Import Psatz Permutation.
From Verif Require Import Base BaseFacts NumPy NumPyFacts DistanceModel DistanceSpec DistanceProofs PointGravitySpec PointGravityProofs
  LegendreModel LegendreProofs EqsModel EqsSpec EqsProofs EqsFitProofs EqsBoostProofs EqsWindowProofs EqsProps.
Local Open Scope list_scope. Local Open Scope R_scope.
Local Notation cart := cart_position.

(** Every window sees all data points. Source: the default window size of few data, gradient_boosted.py:327-339. *)
Definition sees_all_data (n : nat) (w : list nat * list nat) : Prop := forall k, (k < n)%nat -> In k (snd w).
(** The solver returns a best fit for a window and any residue. Source: verde's least_squares, called in gradient_boosted.py:272-277. *)
Definition solves (ls : table -> list R -> option (list R) -> option R -> list R) (dm : option R) (qs ds : list point) (w : list nat * list nat) : Prop :=
  forall J d, same_entries J (design cart (chosen zero_point ds (snd w)) (chosen zero_point qs (fst w))) ->
    minimises (objective J d None dm) (length (fst w)) (ls J d None dm).

Lemma whole_misfit r n w : length r = n -> window_of n w -> (forall k, (k < n)%nat -> In k w) ->
  sum_over (range 0 (length w)) (fun i => weight None i * nth (nth i w 0%nat) r 0 ^ 2) = sum_over r (fun x => x ^ 2).
Proof.
  intros Hr (Hn & Hin) Hall. cbn [weight].
  transitivity (sum_over w (fun k => nth k r 0 ^ 2)).
  { unfold sum_over. rewrite <- (map_range_nth w 0%nat (fun k => nth k r 0 ^ 2)). f_equal. apply map_ext. intros i. ring. }
  transitivity (sum_over (range 0 n) (fun k => nth k r 0 ^ 2)).
  - apply sum_over_perm. apply NoDup_Permutation; [exact Hn|apply seq_NoDup|]. intros k. unfold range. rewrite in_seq. split; intros H; [apply Hin in H; lia|apply Hall; lia].
  - unfold sum_over. rewrite <- Hr. f_equal. apply (map_range_nth r 0 (fun x => x ^ 2)).
Qed.

(** If every window sees all data, no window makes the error larger. *)
Theorem C116_error_falls_partial : forall ls dm qs ds d ws residue errors coefs,
  length d = length ds -> windows_of (length qs) (length ds) ws -> match dm with Some a => 0 <= a | None => True end ->
  (forall w, In w ws -> sees_all_data (length ds) w /\ solves ls dm qs ds w) ->
  gradient_boosting ls float64 dm (flat qs) (flat ds) d None ws (repeat 0 (length qs)) = Ok (residue, errors, coefs) ->
  (forall k, (k < length ws)%nat -> nth (S k) errors 0 <= nth k errors 0) /\ nth (length ws) errors 0 <= root_mean_square d.
Proof.
  intros ls dm qs ds d ws residue errors coefs Hd Hws Hdm Hall H.
  destruct (C64_residue_after_every_window ls dm qs ds d None ws residue errors coefs Hd I Hws H) as (_ & _ & K).
  assert (F : forall k, (k < length ws)%nat -> nth (S k) errors 0 <= nth k errors 0).
  { intros k Hk. destruct (K k ltac:(lia)) as (r & e & c & E & Hc & Ne & W). destruct (K (S k) ltac:(lia)) as (r1 & e1 & c1 & E1 & Hc1 & Ne1 & _).
    destruct (nth_error ws k) as [w|] eqn:Nw; [|apply nth_error_None in Nw; lia]. destruct (W w eq_refl) as (r' & e' & c' & E' & WR). rewrite E1 in E'. injection E' as <- <- <-.
    apply nth_error_In in Nw. destruct (Hws w Nw) as (Hp & Hq). destruct (Hall w Nw) as (Ha & Hs).
    assert (Lr : length r = length ds) by (destruct Hc as (_ & ->); now rewrite length_minus). assert (Lr1 : length r1 = length ds) by (destruct Hc1 as (_ & ->); now rewrite length_minus).
    pose proof (C64_window_misfit_does_not_increase ls dm qs ds None w r c r1 c1 Hp Hq Lr Hdm WR (fun J HJ => Hs J _ HJ)) as M. cbv zeta in M. cbn [option_map] in M.
    rewrite !(whole_misfit _ (length ds)) in M by assumption. rewrite Ne, Ne1. unfold root_mean_square. rewrite Lr, Lr1. apply sqrt_le_1_alt.
    unfold Rdiv. apply Rmult_le_compat_r; [|exact M]. destruct (length ds) as [|n]; [cbn; rewrite Rinv_0; lra|]. left. apply Rinv_0_lt_compat. apply lt_0_INR. lia. }
  split; [exact F|].
  assert (Z : nth 0 errors 0 = root_mean_square d).
  { destruct (K 0%nat ltac:(lia)) as (r & e & c & E & _ & Ne & _). cbn [firstn] in E. unfold gradient_boosting in E. cbn [for_] in E. injection E as <- <- <-. exact Ne. }
  rewrite <- Z. assert (M : forall k, (k <= length ws)%nat -> nth k errors 0 <= nth 0 errors 0).
  { induction k as [|k IH]; intros Hk; [lra|]. specialize (F k ltac:(lia)). specialize (IH ltac:(lia)). lra. }
  apply M. lia.
Qed.

(** ** Windows that see one datum each *)
Lemma one_by_one (ls : table -> list R -> option (list R) -> option R -> list R) (J : table) x : (forall J d, rows J = 1%nat -> cols J = 1%nat -> ent J 0 0 <> 0 -> minimises (objective J d None None) 1 (ls J d None None)) ->
  rows J = 1%nat -> cols J = 1%nat -> ent J 0 0 <> 0 -> ls J [x] None None = [x / ent J 0 0].
Proof.
  intros Hls Hr Hc Ha. destruct (Hls J [x] Hr Hc Ha) as (Hl & Hm). destruct (ls J [x] None None) as [|c [|]]; try discriminate. specialize (Hm [x / ent J 0 0] eq_refl).
  unfold objective, misfit, times in Hm. rewrite Hr, Hc in Hm. change (range 0 1) with [0%nat] in Hm. unfold sum_over in Hm. cbn [map sumR nth weight] in Hm.
  set (a := ent J 0 0) in *. replace (x - (a * (x / a) + 0)) with 0 in Hm by (field; exact Ha).
  assert (Z : x - a * c = 0) by nra. f_equal. apply Rmult_eq_reg_l with a; [|exact Ha]. replace (a * (x / a)) with x by (field; exact Ha). lra.
Qed.
Lemma eucl_num p q r : 0 <= r -> dot (vsub p q) (vsub p q) = r ^ 2 -> eucl p q = r.
Proof. intros Hr H. unfold eucl, norm. rewrite H. now apply sqrt_pow2. Qed.

(** Two data 3 apart, a source 4 below each, and a window for each: the error after the last window is
    larger than the root mean square of the data, for every solver that fits a single datum by a single source. *)
Theorem C116_error_grows_refuted : forall ls : table -> list R -> option (list R) -> option R -> list R,
  (forall J d, rows J = 1%nat -> cols J = 1%nat -> ent J 0 0 <> 0 -> minimises (objective J d None None) 1 (ls J d None None)) ->
  exists qs ds d ws residue errors coefs, length d = length ds /\ windows_of (length qs) (length ds) ws /\ qs = lowered 4 ds /\
    (forall k, (k < length ds)%nat -> exists w, In w ws /\ In k (snd w) /\ In k (fst w)) /\
    gradient_boosting ls float64 None (flat qs) (flat ds) d None ws (repeat 0 (length qs)) = Ok (residue, errors, coefs) /\
    root_mean_square d < nth (length ws) errors 0.
Proof.
  intros ls Hls. set (ds := [(0, 0, 0); (3, 0, 0)] : list point). set (qs := lowered 4 ds). set (ws := [([0], [0]); ([1], [1])]%nat).
  assert (W : windows_of (length qs) (length ds) ws).
  { intros w [<-|[<-|[]]]; cbn [fst snd]; (split; (split; [repeat first [apply NoDup_nil | apply NoDup_cons]; cbn; intuition lia|intros k Hk; cbn in *; lia])). }
  assert (A : apart cart ds qs).
  { intros p q [<-|[<-|[]]] [<-|[<-|[]]]; unfold cart_position, fst3, snd3, thd3; cbn [fst snd]; intros E; injection E; intros; lra. }
  assert (Sub : forall l, (forall k, In k l -> (k < 2)%nat) -> apart cart ds (chosen p0 qs l)) by (intros l Hl p q Hp Hq; apply A; [exact Hp|]; eapply chosen_in; [|exact Hq]; exact Hl).
  (* the field of a single source *)
  assert (P0 : forall c, predicted cart (chosen p0 qs [0%nat]) [c] ds = [c / 4; c / 5]).
  { intros c. unfold predicted, chosen, qs, ds, lowered, inverse_distance, sum_over. cbn [map nth combine sumR fst snd fst3 snd3 thd3].
    rewrite (eucl_num _ _ 4) by (lra || (unfold cart_position, dot, vsub, fst3, snd3, thd3; cbn; ring)). rewrite (eucl_num _ _ 5) by (lra || (unfold cart_position, dot, vsub, fst3, snd3, thd3; cbn; ring)). now rewrite !Rplus_0_r. }
  assert (P1 : forall c, predicted cart (chosen p0 qs [1%nat]) [c] ds = [c / 5; c / 4]).
  { intros c. unfold predicted, chosen, qs, ds, lowered, inverse_distance, sum_over. cbn [map nth combine sumR fst snd fst3 snd3 thd3].
    rewrite (eucl_num _ _ 5) by (lra || (unfold cart_position, dot, vsub, fst3, snd3, thd3; cbn; ring)). rewrite (eucl_num _ _ 4) by (lra || (unfold cart_position, dot, vsub, fst3, snd3, thd3; cbn; ring)). now rewrite !Rplus_0_r. }
  assert (St : forall k residue errors coefs, (k < 2)%nat -> length residue = 2%nat -> length coefs = 2%nat ->
    boost_window ls float64 None (flat qs) (flat ds) None ([k], [k]) (residue, errors, coefs) =
    let c := nth k residue 0 * 4 in let r := map2 (fun x p => x - p) residue (predicted cart (chosen p0 qs [k]) [c] ds) in
    Ok (r, errors ++ [rms r], put coefs [k] [nth k coefs 0 + c])).
  { intros k residue errors coefs Hk Lr Lc. rewrite boost_window_chunks; [|apply (W ([k], [k]))|apply (W ([k], [k]))|exact Lr|exact Lc|exact I].
    2,3: destruct k as [|[|k]]; [now left|now right; left|lia]. cbn [fst snd option_map].
    assert (A1 : apart cart (chosen p0 ds [k]) (chosen p0 qs [k])).
    { intros p q Hp Hq. apply A; eapply chosen_in; try eassumption; intros j [<-|[]]; exact Hk. }
    destruct (jacobian_design _ _ greens_cartesian_for _ _ A1) as (J & HJ & Rw & Cl & En). rewrite HJ. cbn [bind]. cbv zeta. cbn [design rows cols chosen map length] in Rw, Cl.
    assert (E0 : ent J 0 0 = / 4).
    { rewrite En by (rewrite ?Rw, ?Cl; lia). cbn [design ent chosen map nth]. match goal with |- 1 / ?e = _ => assert (E4 : e = 4); [apply eucl_num; [lra|]|rewrite E4; lra] end. destruct k as [|[|k]]; [| |lia]; unfold qs, ds, lowered, cart_position, dot, vsub, fst3, snd3, thd3; cbn; ring. }
    cbn [chosen map]. rewrite (one_by_one ls J _ Hls Rw Cl) by (rewrite E0; lra). rewrite E0. unfold Rdiv. rewrite Rinv_inv.
    fold (chosen p0 qs [k]). rewrite (predict_kernel_ok _ _ greens_cartesian_for); [|apply (Sub [k]); intros j [<-|[]]; exact Hk|reflexivity]. cbn [bind length Nat.eqb map2]. reflexivity. }
  exists qs, ds, [1; -1], ws. eexists. eexists. eexists. split; [reflexivity|]. split; [exact W|]. split; [reflexivity|]. split.
  { intros k Hk. change (length ds) with 2%nat in Hk. exists ([k], [k]). cbn [fst snd]. split; [|split; now left]. destruct k as [|[|k]]; [now left|now right; left|lia]. }
  split.
  - unfold gradient_boosting, ws. cbn [for_]. rewrite St by (reflexivity || lia). cbv zeta. cbn [bind nth]. rewrite P0. cbn [map2].
    rewrite St by (reflexivity || lia || (cbn; reflexivity)). cbv zeta. cbn [bind nth]. rewrite P1. cbn [map2]. reflexivity.
  - cbn [length ws nth app]. rewrite rms_root_mean_square. unfold root_mean_square, sum_over. unfold map2. cbn [map combine fst snd nth sumR length INR]. apply sqrt_lt_1_alt. split; lra.
Qed.

(** There is such a solver: the datum over the entry. *)
Example C116_example_solver : forall J d, rows J = 1%nat -> cols J = 1%nat -> ent J 0 0 <> 0 -> minimises (objective J d None None) 1 [nth 0 d 0 / ent J 0 0].
Proof.
  intros J d Hr Hc Ha. split; [reflexivity|]. intros [|c [|]] Hl; try discriminate. unfold objective, misfit, times. rewrite Hr, Hc. change (range 0 1) with [0%nat].
  unfold sum_over. cbn [map sumR nth weight]. set (a := ent J 0 0) in *. set (x := nth 0 d 0). replace (x - (a * (x / a) + 0)) with 0 by (field; exact Ha). pose proof (pow2_ge_0 (x - (a * c + 0))). lra.
Qed.

(** One source, two data, two windows in different orders; the best fit is the usual quotient. *)
Definition quotient (J : table) (d : list R) (w : option (list R)) (a : option R) : list R :=
  [(ent J 0 0 * nth 0 d 0 + ent J 1 0 * nth 1 d 0) / (ent J 0 0 ^ 2 + ent J 1 0 ^ 2)].
Example C116_example : exists qs ds d ws st, length d = length ds /\ windows_of (length qs) (length ds) ws /\ (1 < length ws)%nat /\
  (forall w, In w ws -> sees_all_data (length ds) w /\ solves quotient None qs ds w) /\
  gradient_boosting quotient float64 None (flat qs) (flat ds) d None ws (repeat 0 (length qs)) = Ok st.
Proof.
  set (ds := [(0, 0, 0); (3, 0, 0)] : list point). set (qs := [(0, 0, -4)] : list point). set (ws := [([0], [0; 1]); ([0], [1; 0])]%nat).
  assert (A : apart cart ds qs).
  { intros p q [<-|[<-|[]]] [<-|[]]; unfold cart_position, fst3, snd3, thd3; cbn [fst snd]; intros E; injection E; intros; lra. }
  assert (W : windows_of (length qs) (length ds) ws).
  { intros w [<-|[<-|[]]]; cbn [fst snd]; (split; (split; [repeat first [apply NoDup_nil | apply NoDup_cons]; cbn; intuition lia|intros k Hk; cbn in *; lia])). }
  exists qs, ds, [1; 2], ws.
  assert (S : forall J d, rows J = 2%nat -> cols J = 1%nat -> 0 < ent J 0 0 -> minimises (objective J d None None) 1 (quotient J d None None)).
  { intros J d Hr Hc H0. split; [reflexivity|]. intros [|c [|]] Hl; try discriminate. unfold objective, misfit, times. rewrite Hr, Hc. change (range 0 2) with [0; 1]%nat. change (range 0 1) with [0%nat].
    unfold sum_over, quotient. cbn [map sumR nth weight]. set (a := ent J 0 0) in *. set (b := ent J 1 0). set (x := nth 0 d 0). set (y := nth 1 d 0).
    assert (N : 0 < a ^ 2 + b ^ 2) by nra. set (m := (a * x + b * y) / (a ^ 2 + b ^ 2)). assert (M : m * (a ^ 2 + b ^ 2) = a * x + b * y) by (unfold m; field; lra).
    assert (0 <= (c - m) ^ 2 * (a ^ 2 + b ^ 2)) by (apply Rmult_le_pos; [apply pow2_ge_0|lra]).
    match goal with |- ?l <= ?r => assert (D : r - l = (c - m) ^ 2 * (a ^ 2 + b ^ 2) + 2 * (c - m) * (m * (a ^ 2 + b ^ 2) - (a * x + b * y))) by (clearbody m; ring) end.
    rewrite M in D. replace (a * x + b * y - (a * x + b * y)) with 0 in D by ring. lra. }
  assert (G : forall w, In w ws -> sees_all_data (length ds) w /\ solves quotient None qs ds w).
  { intros w Hw. split.
    - intros k Hk. change (length ds) with 2%nat in Hk. destruct Hw as [<-|[<-|[]]]; cbn [snd In]; destruct k as [|[|k]]; auto; lia.
    - intros J d (Rw & Cl & En). assert (L : length (fst w) = 1%nat /\ length (snd w) = 2%nat) by (destruct Hw as [<-|[<-|[]]]; split; reflexivity). destruct L as [L1 L2].
      cbn [design rows cols] in Rw, Cl. rewrite length_chosen in Rw, Cl. rewrite L1. apply S; [lia|lia|]. rewrite En by lia. cbn [design ent]. unfold Rdiv. rewrite Rmult_1_l. apply Rinv_0_lt_compat.
      match goal with |- 0 < eucl ?u ?v => destruct (Rle_lt_or_eq_dec _ _ (eucl_nonneg u v)) as [|Z]; [assumption|exfalso; symmetry in Z; apply eucl_zero in Z; revert Z] end.
      destruct Hw as [<-|[<-|[]]]; cbn [fst snd chosen map nth]; unfold ds, qs, cart_position; intros Z; injection Z; intros; lra. }
  assert (T : forall w r e c, In w ws -> length r = 2%nat -> length c = 1%nat -> exists r' e' c', boost_window quotient float64 None (flat qs) (flat ds) None w (r, e, c) = Ok (r', e', c') /\ length r' = 2%nat /\ length c' = 1%nat).
  { intros w r e c Hw Lr Lc. destruct (W w Hw) as (Hp & Hq). rewrite boost_window_chunks by (assumption || exact I).
    assert (A1 : apart cart (chosen p0 ds (snd w)) (chosen p0 qs (fst w))) by (intros p q Hp' Hq'; apply A; eapply chosen_in; try eassumption; [apply Hq|apply Hp]).
    destruct (jacobian_design _ _ greens_cartesian_for _ _ A1) as (J & HJ & _). rewrite HJ. cbn [bind]. cbv zeta.
    assert (L1 : length (fst w) = 1%nat) by (destruct Hw as [<-|[<-|[]]]; reflexivity).
    rewrite (predict_kernel_ok _ _ greens_cartesian_for); [|intros p q Hp' Hq'; apply A; [exact Hp'|eapply chosen_in; [|exact Hq']; apply Hp]|rewrite length_chosen, L1; reflexivity]. cbn [bind]. rewrite L1. cbn [quotient length Nat.eqb].
    eexists. eexists. eexists. split; [reflexivity|]. split; [rewrite length_map2; [exact Lr|rewrite map_length; now rewrite Lr]|now rewrite length_put]. }
  destruct (T ([0], [0; 1])%nat [1; 2] [rms [1; 2]] [0] ltac:(now left) eq_refl eq_refl) as (r & e & c & E & Lr & Lc).
  destruct (T ([0], [1; 0])%nat r e c ltac:(right; now left) Lr Lc) as (r' & e' & c' & E' & _).
  exists (r', e', c'). split; [reflexivity|]. split; [exact W|]. split; [cbn; lia|]. split; [exact G|].
  unfold gradient_boosting, ws. cbn [for_ repeat length qs]. rewrite E. cbn [bind]. rewrite E'. reflexivity.
Qed.

(** ** Weights: the weighted misfit falls, the reported error need not *)
(** The solver returns a best fit for a window, weights and any residue. Source: verde's least_squares, called in gradient_boosted.py:272-277. *)
Definition solves_weighted (ls : table -> list R -> option (list R) -> option R -> list R) (dm : option R) (wt : list R) (qs ds : list point) (w : list nat * list nat) : Prop :=
  forall J d, same_entries J (design cart (chosen zero_point ds (snd w)) (chosen zero_point qs (fst w))) ->
    minimises (objective J d (Some (chosen 0 wt (snd w))) dm) (length (fst w)) (ls J d (Some (chosen 0 wt (snd w))) dm).
(** Sum of the squares, each times its weight. *)
Definition weighted_squares (wt r : list R) : R := sum_over (range 0 (length r)) (fun i => nth i wt 0 * nth i r 0 ^ 2).

Lemma whole_weighted_misfit r wt n w : length r = n -> window_of n w -> (forall k, (k < n)%nat -> In k w) ->
  sum_over (range 0 (length w)) (fun i => weight (Some (chosen 0 wt w)) i * nth (nth i w 0%nat) r 0 ^ 2) = weighted_squares wt r.
Proof.
  intros Hr (Hn & Hin) Hall. cbn [weight].
  transitivity (sum_over w (fun k => nth k wt 0 * nth k r 0 ^ 2)).
  { unfold sum_over. rewrite <- (map_range_nth w 0%nat (fun k => nth k wt 0 * nth k r 0 ^ 2)). f_equal. apply map_ext_in. intros i Hi. apply range_in in Hi. unfold chosen. rewrite (nth_map _ _ _ 0%nat) by lia. reflexivity. }
  unfold weighted_squares. rewrite Hr. apply sum_over_perm. apply NoDup_Permutation; [exact Hn|apply seq_NoDup|]. intros k. unfold range. rewrite in_seq. split; intros H; [apply Hin in H; lia|apply Hall; lia].
Qed.

Theorem C116_weighted_misfit_falls_partial : forall ls dm qs ds d wt ws residue errors coefs,
  length d = length ds -> length wt = length ds -> windows_of (length qs) (length ds) ws -> match dm with Some a => 0 <= a | None => True end ->
  (forall w, In w ws -> sees_all_data (length ds) w /\ solves_weighted ls dm wt qs ds w) ->
  gradient_boosting ls float64 dm (flat qs) (flat ds) d (Some wt) ws (repeat 0 (length qs)) = Ok (residue, errors, coefs) ->
  residue = minus d (predicted cart qs coefs ds) /\ weighted_squares wt residue <= weighted_squares wt d.
Proof.
  intros ls dm qs ds d wt ws residue errors coefs Hd Hwt Hws Hdm Hall H.
  destruct (C64_residue_after_every_window ls dm qs ds d (Some wt) ws residue errors coefs Hd Hwt Hws H) as (HC & _ & K). split; [apply HC|].
  assert (M : forall k, (k <= length ws)%nat -> exists r e c, gradient_boosting ls float64 dm (flat qs) (flat ds) d (Some wt) (firstn k ws) (repeat 0 (length qs)) = Ok (r, e, c) /\ weighted_squares wt r <= weighted_squares wt d).
  { induction k as [|k IH]; intros Hk.
    - exists d, [rms d], (repeat 0 (length qs)). split; [reflexivity|lra].
    - destruct (IH ltac:(lia)) as (r0 & e0 & c0 & E0 & B0). destruct (K k ltac:(lia)) as (r & e & c & E & Hc & _ & W). rewrite E0 in E. injection E as <- <- <-.
      destruct (K (S k) ltac:(lia)) as (r1 & e1 & c1 & E1 & Hc1 & _ & _). exists r1, e1, c1. split; [exact E1|].
      destruct (nth_error ws k) as [w|] eqn:Nw; [|apply nth_error_None in Nw; lia]. destruct (W w eq_refl) as (r' & e' & c' & E' & WR). rewrite E1 in E'. injection E' as <- <- <-.
      apply nth_error_In in Nw. destruct (Hws w Nw) as (Hp & Hq). destruct (Hall w Nw) as (Ha & Hs).
      assert (Lr : length r0 = length ds) by (destruct Hc as (_ & ->); now rewrite length_minus). assert (Lr1 : length r1 = length ds) by (destruct Hc1 as (_ & ->); now rewrite length_minus).
      pose proof (C64_window_misfit_does_not_increase ls dm qs ds (Some wt) w r0 c0 r1 c1 Hp Hq Lr Hdm WR (fun J HJ => Hs J _ HJ)) as M. cbv zeta in M. cbn [option_map] in M.
      rewrite !(whole_weighted_misfit _ _ (length ds)) in M by assumption. lra. }
  destruct (M (length ws) ltac:(lia)) as (r & e & c & E & B). rewrite firstn_all, H in E. injection E as <- _ _. exact B.
Qed.

(** One window with all data, one source, and a second datum with a hundredth of the weight of the first: the error reported is larger than without the source. *)
Theorem C116_weighted_error_grows_refuted : forall ls : table -> list R -> option (list R) -> option R -> list R,
  (forall J d u v, rows J = 2%nat -> cols J = 1%nat -> ent J 0 0 <> 0 -> 0 < u -> 0 < v -> minimises (objective J d (Some [u; v]) None) 1 (ls J d (Some [u; v]) None)) ->
  exists qs ds d wt w residue errors coefs, length d = length ds /\ length wt = length ds /\ (forall x, In x wt -> 0 < x) /\ window_of (length qs) (fst w) /\ window_of (length ds) (snd w) /\ sees_all_data (length ds) w /\
    gradient_boosting ls float64 None (flat qs) (flat ds) d (Some wt) [w] (repeat 0 (length qs)) = Ok (residue, errors, coefs) /\
    root_mean_square d < nth 1 errors 0.
Proof.
  intros ls Hls. set (ds := [(0, 0, 0); (3, 0, 0)] : list point). set (qs := [(0, 0, -4)] : list point). set (w := ([0], [0; 1])%nat). set (wt := [1; 1 / 100]).
  assert (A : apart cart ds qs).
  { intros p q [<-|[<-|[]]] [<-|[]]; unfold cart_position, fst3, snd3, thd3; cbn [fst snd]; intros E; injection E; intros; lra. }
  assert (Wp : window_of (length qs) (fst w)) by (split; [repeat first [apply NoDup_nil | apply NoDup_cons]; cbn; intuition lia|intros k Hk; cbn in *; lia]).
  assert (Wd : window_of (length ds) (snd w)) by (split; [repeat first [apply NoDup_nil | apply NoDup_cons]; cbn; intuition lia|intros k Hk; cbn in *; lia]).
  assert (D4 : eucl (cart (0, 0, 0)) (cart (0, 0, -4)) = 4) by (apply eucl_num; [lra|unfold cart_position, dot, vsub; cbn; ring]).
  assert (D5 : eucl (cart (3, 0, 0)) (cart (0, 0, -4)) = 5) by (apply eucl_num; [lra|unfold cart_position, dot, vsub; cbn; ring]).
  assert (A1 : apart cart (chosen p0 ds (snd w)) (chosen p0 qs (fst w))) by exact A.
  destruct (jacobian_design _ _ greens_cartesian_for _ _ A1) as (J & HJ & Rw & Cl & En). change (rows J = 2%nat) in Rw. change (cols J = 1%nat) in Cl.
  assert (E0 : ent J 0 0 = / 4) by (rewrite En by (rewrite ?Rw, ?Cl; lia); cbn [design ent chosen map nth fst snd w ds qs]; rewrite D4; lra).
  assert (E1 : ent J 1 0 = / 5) by (rewrite En by (rewrite ?Rw, ?Cl; lia); cbn [design ent chosen map nth fst snd w ds qs]; rewrite D5; lra).
  assert (B : exists c, ls J [1; -1] (Some wt) None = [c] /\ 39 / 10 < c).
  { destruct (Hls J [1; -1] 1 (1 / 100) Rw Cl ltac:(rewrite E0; lra) ltac:(lra) ltac:(lra)) as (Hl & Hm). fold wt in Hl, Hm. destruct (ls J [1; -1] (Some wt) None) as [|c [|]]; try discriminate. exists c. split; [reflexivity|].
    specialize (Hm [2480 / 629] eq_refl). unfold objective, misfit, times in Hm. rewrite Rw, Cl in Hm. change (range 0 2) with [0; 1]%nat in Hm. change (range 0 1) with [0%nat] in Hm.
    unfold sum_over, wt in Hm. cbn [map sumR nth weight] in Hm. rewrite E0, E1 in Hm. assert (Z : (c - 2480 / 629) ^ 2 <= 0) by lra. assert (c = 2480 / 629) by nra. lra. }
  destruct B as (c & Ec & Bc).
  exists qs, ds, [1; -1], wt, w. eexists. eexists. eexists. split; [reflexivity|]. split; [reflexivity|]. split; [intros x [<-|[<-|[]]]; lra|]. split; [exact Wp|]. split; [exact Wd|].
  split; [intros k Hk; change (length ds) with 2%nat in Hk; destruct k as [|[|k]]; [now left|now right; left|lia]|]. split.
  - unfold gradient_boosting. cbn [for_]. rewrite boost_window_chunks; [|exact Wp|exact Wd|reflexivity|reflexivity|reflexivity]. rewrite HJ. cbn [bind]. cbv zeta.
    change (chosen 0 [1; -1] (snd w)) with [1; -1]. change (option_map (fun l => chosen 0 l (snd w)) (Some wt)) with (Some wt). rewrite Ec.
    rewrite (predict_kernel_ok _ _ greens_cartesian_for); [|exact A|reflexivity]. cbn [bind length Nat.eqb fst w]. reflexivity.
  - cbn [nth app]. rewrite rms_root_mean_square. unfold root_mean_square, sum_over, ds, qs, map2, chosen, inverse_distance, sum_over. cbn [map combine fst snd nth sumR length INR w]. rewrite D4, D5. apply sqrt_lt_1_alt. split; [lra|].
    assert (Q : 89 / 50 < c / 5 + 1) by lra. assert (QQ : 3 < (-1 - (c / 5 + 0)) ^ 2) by nra. pose proof (pow2_ge_0 (1 - (c / 4 + 0))). lra.
Qed.

(** There is such a solver: the weighted quotient; it meets the hypothesis of both theorems for this survey. *)
Definition weighted_quotient (J : table) (d : list R) (w : option (list R)) (a : option R) : list R :=
  [(weight w 0 * ent J 0 0 * nth 0 d 0 + weight w 1 * ent J 1 0 * nth 1 d 0) / (weight w 0 * ent J 0 0 ^ 2 + weight w 1 * ent J 1 0 ^ 2)].
Lemma weighted_quotient_solves J d u v : rows J = 2%nat -> cols J = 1%nat -> ent J 0 0 <> 0 -> 0 < u -> 0 < v ->
  minimises (objective J d (Some [u; v]) None) 1 (weighted_quotient J d (Some [u; v]) None).
Proof.
  intros Hr Hc H0 Hu Hv. split; [reflexivity|]. intros [|c [|]] Hl; try discriminate. unfold objective, misfit, times. rewrite Hr, Hc. change (range 0 2) with [0; 1]%nat. change (range 0 1) with [0%nat].
  unfold sum_over, weighted_quotient. cbn [map sumR nth weight]. set (a := ent J 0 0) in *. set (b := ent J 1 0). set (x := nth 0 d 0). set (y := nth 1 d 0).
  assert (N : 0 < u * a ^ 2 + v * b ^ 2).
  { assert (0 < a ^ 2) by (rewrite <- Rsqr_pow2; now apply Rlt_0_sqr). pose proof (pow2_ge_0 b). assert (0 < u * a ^ 2) by (now apply Rmult_lt_0_compat). assert (0 <= v * b ^ 2) by (apply Rmult_le_pos; lra). lra. }
  set (m := (u * a * x + v * b * y) / (u * a ^ 2 + v * b ^ 2)). assert (M : m * (u * a ^ 2 + v * b ^ 2) = u * a * x + v * b * y) by (unfold m; field; lra).
  assert (0 <= (c - m) ^ 2 * (u * a ^ 2 + v * b ^ 2)) by (apply Rmult_le_pos; [apply pow2_ge_0|lra]).
  match goal with |- ?l <= ?r => assert (D : r - l = (c - m) ^ 2 * (u * a ^ 2 + v * b ^ 2) + 2 * (c - m) * (m * (u * a ^ 2 + v * b ^ 2) - (u * a * x + v * b * y))) by (clearbody m; ring) end.
  rewrite M in D. replace (u * a * x + v * b * y - (u * a * x + v * b * y)) with 0 in D by ring. lra.
Qed.
Example C116_example_weighted : sees_all_data 2 ([0], [0; 1])%nat /\ solves_weighted weighted_quotient None [1; 1 / 100] [(0, 0, -4)] [(0, 0, 0); (3, 0, 0)] ([0], [0; 1])%nat.
Proof.
  split; [intros [|[|k]] Hk; [now left|now right; left|lia]|]. intros J d (Rw & Cl & En). change (rows J = 2%nat) in Rw. change (cols J = 1%nat) in Cl.
  change (minimises (objective J d (Some [1; 1 / 100]) None) 1 (weighted_quotient J d (Some [1; 1 / 100]) None)). apply weighted_quotient_solves; [exact Rw|exact Cl| |lra|lra]. rewrite En by (rewrite ?Rw, ?Cl; lia). cbn [design ent chosen map nth fst snd].
  match goal with |- 1 / ?e <> 0 => assert (E4 : e = 4); [apply eucl_num; [lra|unfold cart_position, dot, vsub; cbn; ring]|rewrite E4; lra] end.
Qed.

Print Assumptions C116_error_falls_partial.
Print Assumptions C116_error_grows_refuted.
Print Assumptions C116_weighted_misfit_falls_partial.
Print Assumptions C116_weighted_error_grows_refuted.
