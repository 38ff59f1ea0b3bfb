(** Proofs about gradient boosting of equivalent sources. *)
From Coq Require Import Psatz Permutation.
From Verif Require Import Base BaseFacts NumPy NumPyFacts DistanceModel DistanceSpec DistanceProofs PointGravitySpec PointGravityProofs
  LegendreModel LegendreProofs EqsModel EqsSpec EqsProofs EqsFitProofs.
Local Open Scope R_scope.

(** ** Windows *)
Lemma take_ok {A} (d : A) l idx : (forall k, In k idx -> (k < length l)%nat) -> take l idx = Ok (chosen d l idx).
Proof.
  induction idx as [|k idx IH]; intros H; [reflexivity|]. cbn [take chosen map]. rewrite (nth_error_nth' l d) by (apply H; now left).
  cbn [bind]. rewrite IH by (intros; apply H; now right). reflexivity.
Qed.

Lemma take3_ok (ps : list point) idx : (forall k, In k idx -> (k < length ps)%nat) -> take3 (flat ps) idx = Ok (flat (chosen p0 ps idx)).
Proof.
  intros H. unfold take3, flat.
  rewrite (take_ok 0) by (intros; rewrite map_length; auto). cbn [bind].
  rewrite (take_ok 0) by (intros; rewrite map_length; auto). cbn [bind].
  rewrite (take_ok 0) by (intros; rewrite map_length; auto). cbn [bind].
  unfold chosen. rewrite !map_map. f_equal. f_equal; [f_equal|]; apply map_ext_in; intros k Hk; apply nth_map; auto.
Qed.

Lemma length_chosen {A} (d : A) l idx : length (chosen d l idx) = length idx.
Proof. apply map_length. Qed.

Lemma chosen_in {A} (d : A) l idx x : (forall k, In k idx -> (k < length l)%nat) -> In x (chosen d l idx) -> In x l.
Proof. intros H Hx. apply in_map_iff in Hx. destruct Hx as (k & <- & Hk). apply nth_In. auto. Qed.

Lemma chosen_seq {A} (d : A) l : chosen d l (range 0 (length l)) = l.
Proof. unfold chosen. rewrite (map_range_nth l d (fun x => x)). apply map_id. Qed.

Lemma apart_dec place ps qs : apart place ps qs \/ ~ apart place ps qs.
Proof.
  destruct (existsb (fun p => existsb (fun q => Reqb (eucl (place p) (place q)) 0) qs) ps) eqn:Eb.
  - right. intros Ha. apply existsb_exists in Eb. destruct Eb as (p & Hp & Eb). apply existsb_exists in Eb. destruct Eb as (q & Hq & Eb).
    destruct (Reqb_spec (eucl (place p) (place q)) 0) as [E|E]; [|discriminate]. apply eucl_zero in E. exact (Ha p q Hp Hq E).
  - left. intros p q Hp Hq Epq.
    assert (T : existsb (fun p => existsb (fun q => Reqb (eucl (place p) (place q)) 0) qs) ps = true).
    { apply existsb_exists. exists p. split; [exact Hp|]. apply existsb_exists. exists q. split; [exact Hq|].
      destruct (Reqb_spec (eucl (place p) (place q)) 0) as [E|E]; [reflexivity|]. exfalso. apply E. now apply eucl_zero. }
    congruence.
Qed.

Section Place.
Variable place : point -> vec3.
Local Notation inv := (inverse_distance place).

Lemma inv_upd p : forall qs l k x, length l = length qs -> (k < length qs)%nat ->
  inv p (combine qs (upd l k (nth k l 0 + x))) = inv p (combine qs l) + x / eucl (place p) (place (nth k qs p0)).
Proof.
  induction qs as [|q qs IH]; intros l k x Hl Hk; [cbn in Hk; lia|]. destruct l as [|c l]; [discriminate|].
  destruct k as [|k]; cbn [upd combine nth]; unfold inverse_distance in *; rewrite !sum_over_cons; cbn [fst snd].
  - unfold Rdiv. ring.
  - cbn in Hl, Hk. specialize (IH l k x ltac:(lia) ltac:(lia)). cbn [fst snd] in IH. rewrite IH. ring.
Qed.

Lemma inv_put p qs : forall ks l xs, NoDup ks -> (forall k, In k ks -> (k < length qs)%nat) -> length l = length qs -> length xs = length ks ->
  inv p (combine qs (put l ks (map2 (fun c x => c + x) (chosen 0 l ks) xs))) = inv p (combine qs l) + inv p (combine (chosen p0 qs ks) xs).
Proof.
  induction ks as [|k ks IH]; intros l xs Hn Hin Hl Hx.
  - change (chosen p0 qs []) with (@nil point). cbn [combine put]. unfold inverse_distance. unfold sum_over at 3. cbn [map sumR]. symmetry. apply Rplus_0_r.
  - destruct xs as [|x xs]; [discriminate|]. inversion Hn as [|? ? Hk Hn']; subst.
    unfold chosen, map2. cbn [map combine put fst snd]. fold (chosen 0 l ks).
    replace (chosen 0 l ks) with (chosen 0 (upd l k (nth k l 0 + x)) ks).
    2:{ apply map_ext_in. intros i Hi. apply nth_upd_neq. intros ->. contradiction. }
    change (map (fun ab : R * R => fst ab + snd ab) (combine (chosen 0 (upd l k (nth k l 0 + x)) ks) xs)) with (map2 (fun c x => c + x) (chosen 0 (upd l k (nth k l 0 + x)) ks) xs).
    rewrite IH; auto; [|intros; apply Hin; now right|now rewrite length_upd].
    rewrite inv_upd; [|exact Hl|apply Hin; now left]. unfold chosen. cbn [map combine].
    unfold inverse_distance at 4. rewrite sum_over_cons. cbn [fst snd]. unfold inverse_distance. ring.
Qed.
End Place.

Lemma length_put {A} : forall ks (l vs : list A), length (put l ks vs) = length l.
Proof. induction ks as [|k ks IH]; intros l [|v vs]; cbn [put]; auto. rewrite IH. apply length_upd. Qed.

Lemma nth_put_other (d : R) i : forall ks (l vs : list R), ~ In i ks -> nth i (put l ks vs) d = nth i l d.
Proof.
  induction ks as [|k ks IH]; intros l [|v vs] H; cbn [put]; auto. rewrite IH by (intros Hi; apply H; now right).
  apply nth_upd_neq. intros ->. apply H. now left.
Qed.

Lemma nth_put (d : R) j : forall ks (l vs : list R), NoDup ks -> (forall k, In k ks -> (k < length l)%nat) -> (j < length ks)%nat -> (j < length vs)%nat ->
  nth (nth j ks 0%nat) (put l ks vs) d = nth j vs d.
Proof.
  induction j as [|j IH]; intros [|k ks] l [|v vs] Hn Hin Hj Hj'; try (cbn in Hj, Hj'; lia); inversion Hn; subst; cbn [put nth].
  - rewrite nth_put_other by assumption. apply nth_upd_eq. apply Hin. now left.
  - apply IH; auto; [|cbn in *; lia|cbn in *; lia]. intros i Hi. rewrite length_upd. apply Hin. now right.
Qed.

(** ** One window *)
Lemma nth_map2 {A B C} (f : A -> B -> C) l m i da db dc : (i < length l)%nat -> (i < length m)%nat -> nth i (map2 f l m) dc = f (nth i l da) (nth i m db).
Proof.
  intros Hl Hm. unfold map2. rewrite (nth_map _ _ _ (da, db)) by (rewrite combine_length; lia).
  revert m i Hl Hm. induction l as [|a l IH]; intros [|b m] [|i] Hl Hm; cbn in *; try lia; try reflexivity. apply IH; lia.
Qed.

Lemma length_map2 {A B C} (f : A -> B -> C) l m : length m = length l -> length (map2 f l m) = length l.
Proof. intros H. unfold map2. rewrite map_length, combine_length. lia. Qed.

Lemma length_minus l m : length (minus l m) = length l.
Proof. unfold minus. now rewrite map_length, seq_length. Qed.

Lemma nth_minus l m i : (i < length l)%nat -> nth i (minus l m) 0 = nth i l 0 - nth i m 0.
Proof. intros H. unfold minus. rewrite (nth_map _ _ _ 0%nat) by (now rewrite seq_length). now rewrite seq_nth. Qed.

Lemma length_predicted place qs c ds : length (predicted place qs c ds) = length ds.
Proof. apply map_length. Qed.

Lemma rms_root_mean_square l : rms l = root_mean_square l.
Proof. unfold rms, mean, root_mean_square, sum_over. now rewrite map_length. Qed.

Local Notation cart := cart_position.

Section Boost.
Variable ls : table -> list R -> option (list R) -> option R -> list R.

Lemma boost_window_chunks damping qs ds weights w residue errors coefs :
  window_of (length qs) (fst w) -> window_of (length ds) (snd w) -> length residue = length ds -> length coefs = length qs -> weights_cover (length ds) weights ->
  boost_window ls float64 damping (flat qs) (flat ds) weights w (residue, errors, coefs) =
  do jac <- jacobian float64 greens_func_cartesian (flat (chosen p0 ds (snd w))) (flat (chosen p0 qs (fst w)));
  let chunk := ls jac (chosen 0 residue (snd w)) (option_map (fun l => chosen 0 l (snd w)) weights) damping in
  do predicted <- predict_kernel float64 greens_func_cartesian (flat ds) (flat (chosen p0 qs (fst w))) chunk (repeat 0 (length ds));
  let residue := map2 (fun x p => x - p) residue predicted in
  if Nat.eqb (length chunk) (length (fst w))
  then Ok (residue, (errors ++ [rms residue])%list, put coefs (fst w) (map2 (fun c x => c + x) (chosen 0 coefs (fst w)) chunk))
  else Raise ValueError.
Proof.
  destruct w as [pw dw]. cbn [fst snd]. intros (Hn & Hp) (_ & Hd) Hr Hc Hw. unfold boost_window.
  rewrite take3_ok by assumption. cbn [bind]. rewrite take3_ok by assumption. cbn [bind].
  assert (Ew : match weights with Some ws => do x <- take ws dw; Ok (Some x) | None => Ok None end = Ok (option_map (fun l => chosen 0 l dw) weights)).
  { destruct weights as [l|]; [|reflexivity]. cbn in Hw. rewrite (take_ok 0) by (intros; rewrite Hw; auto). reflexivity. }
  rewrite Ew. cbn [bind]. destruct (jacobian _ _ _ _) as [jac|e]; [|reflexivity]. cbn [bind].
  rewrite (take_ok 0) by (intros; rewrite Hr; auto). cbn [bind]. cbv zeta. rewrite Hr.
  destruct (predict_kernel _ _ _ _ _ _) as [pr|e]; [|reflexivity]. cbn [bind cast float64]. unfold add_at.
  rewrite (take_ok 0) by (intros; rewrite Hc; auto). cbn [bind cast float64].
  destruct (Nat.eqb _ _); reflexivity.
Qed.

Lemma boost_window_ok damping qs ds weights w residue errors coefs st' :
  window_of (length qs) (fst w) -> window_of (length ds) (snd w) -> length residue = length ds -> length coefs = length qs -> weights_cover (length ds) weights ->
  boost_window ls float64 damping (flat qs) (flat ds) weights w (residue, errors, coefs) = Ok st' ->
  exists residue' coefs', st' = (residue', (errors ++ [root_mean_square residue'])%list, coefs') /\
    window_result ls damping qs ds weights w residue coefs residue' coefs'.
Proof.
  intros Hwp Hwd Hr Hc Hw H. rewrite boost_window_chunks in H by assumption.
  apply bind_ok in H. destruct H as (J & HJ & H). cbv zeta in H. apply bind_ok in H. destruct H as (pr & Hpr & H).
  set (chunk := ls J _ _ damping) in *.
  destruct (Nat.eqb_spec (length chunk) (length (fst w))) as [Hl|]; [|discriminate]. injection H as <-.
  assert (Hl' : length chunk = length (chosen p0 qs (fst w))) by (now rewrite length_chosen).
  destruct (apart_dec cart ds (chosen p0 qs (fst w))) as [Ha|Ha].
  2:{ rewrite (predict_kernel_raises _ _ greens_cartesian_for) in Hpr by assumption. discriminate. }
  rewrite (predict_kernel_ok _ _ greens_cartesian_for) in Hpr by assumption. injection Hpr as <-.
  assert (Ha' : apart cart (chosen p0 ds (snd w)) (chosen p0 qs (fst w))).
  { intros p q Hp Hq. apply Ha; [|exact Hq]. apply chosen_in in Hp; [exact Hp|apply Hwd]. }
  destruct (jacobian_design _ _ greens_cartesian_for _ _ Ha') as (J' & HJ' & Hs). rewrite HJ' in HJ. injection HJ as ->.
  fold (predicted cart (chosen p0 qs (fst w)) chunk ds).
  set (res := map2 _ residue _).
  assert (Er : res = minus residue (predicted cart (chosen p0 qs (fst w)) chunk ds)).
  { unfold res. apply (nth_ext _ _ 0 0).
    - rewrite length_map2, length_minus by (rewrite length_predicted; lia). reflexivity.
    - intros i Hi. rewrite length_map2 in Hi by (rewrite length_predicted; lia).
      rewrite (nth_map2 _ _ _ _ 0 0) by (rewrite ?length_predicted; lia). rewrite nth_minus by assumption. reflexivity. }
  exists res. eexists. rewrite rms_root_mean_square. split; [reflexivity|]. exists J. split; [exact Hs|]. cbv zeta. fold chunk.
  split; [exact Hl|]. split; [apply length_put|]. split; [|split; [|split; [exact Er|]]].
  - intros j Hj. rewrite (nth_put 0); [|apply Hwp|intros; rewrite Hc; now apply Hwp|assumption|].
    + rewrite (nth_map2 _ _ _ _ 0 0) by (rewrite ?length_chosen; lia). f_equal. unfold chosen. now rewrite (nth_map _ _ _ 0%nat) by assumption.
    + rewrite length_map2 by (rewrite length_chosen; lia). now rewrite length_chosen.
  - intros k Hk. now apply nth_put_other.
  - intros p. apply inv_put; [apply Hwp|apply Hwp|assumption|assumption].
Qed.

(** ** All windows *)
Lemma consistent_step damping qs ds data weights w residue coefs residue' coefs' : length data = length ds ->
  consistent qs ds data residue coefs -> window_result ls damping qs ds weights w residue coefs residue' coefs' -> consistent qs ds data residue' coefs'.
Proof.
  intros Hd (Hc & Hr) (J & Hs & Hl & Hc' & _ & _ & Hr' & Hp). set (chunk := ls J _ _ damping) in *. clearbody chunk. split; [lia|]. rewrite Hr', Hr.
  apply (nth_ext _ _ 0 0); [now rewrite !length_minus|]. intros i Hi. rewrite !length_minus in Hi.
  rewrite !nth_minus by (rewrite ?length_minus; assumption). unfold predicted. rewrite !(nth_map _ _ _ p0) by lia. rewrite Hp. match goal with |- ?a - ?b - ?c = ?a - (?b + ?c) => generalize a b c end. intros; ring.
Qed.

Lemma inv_zeros place p qs n : inverse_distance place p (combine qs (repeat 0 n)) = 0.
Proof.
  unfold inverse_distance. apply sum_over_zero. intros [q c] Hin. apply in_combine_r in Hin. apply repeat_spec in Hin. subst. cbn. unfold Rdiv. ring.
Qed.

Lemma consistent_start qs ds data : length data = length ds -> consistent qs ds data data (repeat 0 (length qs)).
Proof.
  intros Hd. split; [apply repeat_length|]. apply (nth_ext _ _ 0 0); [now rewrite length_minus|]. intros i Hi.
  rewrite nth_minus by assumption. unfold predicted. rewrite (nth_map _ _ _ p0) by lia. rewrite inv_zeros. ring.
Qed.

Lemma boosting_invariant damping qs ds data weights : length data = length ds -> weights_cover (length ds) weights ->
  forall ws st, windows_of (length qs) (length ds) ws ->
  gradient_boosting ls float64 damping (flat qs) (flat ds) data weights ws (repeat 0 (length qs)) = Ok st ->
  exists residue errors coefs, st = (residue, errors, coefs) /\ consistent qs ds data residue coefs /\ length errors = S (length ws) /\
    forall k, (k <= length ws)%nat -> exists residue_k errors_k coefs_k,
      gradient_boosting ls float64 damping (flat qs) (flat ds) data weights (firstn k ws) (repeat 0 (length qs)) = Ok (residue_k, errors_k, coefs_k) /\
      consistent qs ds data residue_k coefs_k /\ nth k errors 0 = root_mean_square residue_k /\
      (forall w, nth_error ws k = Some w -> exists residue' errors' coefs',
        gradient_boosting ls float64 damping (flat qs) (flat ds) data weights (firstn (S k) ws) (repeat 0 (length qs)) = Ok (residue', errors', coefs') /\
        window_result ls damping qs ds weights w residue_k coefs_k residue' coefs').
Proof.
  intros Hd Hw. induction ws as [|w ws IH] using rev_ind; intros st Hws H.
  - unfold gradient_boosting in H. cbn [for_] in H. injection H as <-. exists data, [rms data], (repeat 0 (length qs)).
    split; [reflexivity|]. split; [now apply consistent_start|]. split; [reflexivity|]. intros k Hk. assert (k = 0)%nat by (cbn in Hk; lia). subst.
    exists data, [rms data], (repeat 0 (length qs)). split; [reflexivity|]. split; [now apply consistent_start|]. split; [apply rms_root_mean_square|].
    intros w Hn. discriminate.
  - unfold gradient_boosting in H. rewrite for_app in H. apply bind_ok in H. destruct H as (mid & Hmid & H).
    assert (Hws' : windows_of (length qs) (length ds) ws) by (intros x Hx; apply Hws; apply in_or_app; now left).
    destruct (IH mid Hws' Hmid) as (r & es & c & -> & Hcons & Hes & Hk). cbn [for_] in H. apply bind_ok in H. destruct H as (st1 & H & E). injection E as ->.
    destruct (Hws w ltac:(apply in_or_app; right; now left)) as (Hwp & Hwd).
    assert (Hrl : length r = length ds) by (destruct Hcons as (_ & ->); now rewrite length_minus).
    destruct (boost_window_ok damping qs ds weights w r es c st Hwp Hwd Hrl (proj1 Hcons) Hw H) as (r' & c' & -> & Hres).
    assert (Hcons' := consistent_step _ _ _ _ _ _ _ _ _ _ Hd Hcons Hres).
    assert (Hfull : gradient_boosting ls float64 damping (flat qs) (flat ds) data weights (ws ++ [w])%list (repeat 0 (length qs)) = Ok (r', (es ++ [root_mean_square r'])%list, c')).
    { unfold gradient_boosting. rewrite for_app. unfold gradient_boosting in Hmid. rewrite Hmid. cbn [bind for_]. rewrite H. reflexivity. }
    exists r', (es ++ [root_mean_square r'])%list, c'. split; [reflexivity|]. split; [exact Hcons'|]. split; [rewrite !app_length; cbn; lia|].
    intros k Hk'. rewrite app_length in Hk'. cbn in Hk'. destruct (Nat.eq_dec k (S (length ws))) as [->|Hne].
    + exists r', (es ++ [root_mean_square r'])%list, c'. rewrite firstn_all2 by (rewrite app_length; cbn; lia). split; [exact Hfull|].
      split; [exact Hcons'|]. split; [rewrite app_nth2 by lia; now replace (S (length ws) - length es)%nat with 0%nat by lia|].
      intros x Hx. assert (nth_error (ws ++ [w])%list (S (length ws)) = None) by (apply nth_error_None; rewrite app_length; cbn; lia). congruence.
    + destruct (Hk k ltac:(lia)) as (rk & ek & ck & Ek & Ck & Nk & Sk). exists rk, ek, ck.
      rewrite firstn_app. replace (k - length ws)%nat with 0%nat by lia. rewrite firstn_O, app_nil_r. split; [exact Ek|]. split; [exact Ck|].
      split; [rewrite app_nth1 by lia; exact Nk|]. intros x Hx. destruct (Nat.eq_dec k (length ws)) as [->|Hlt].
      * rewrite nth_error_app2 in Hx by lia. rewrite Nat.sub_diag in Hx. injection Hx as <-. exists r', (es ++ [root_mean_square r'])%list, c'.
        rewrite firstn_all2 by (rewrite app_length; cbn; lia). split; [exact Hfull|]. rewrite firstn_all in Ek. unfold gradient_boosting in Ek. rewrite Hmid in Ek. injection Ek as <- <- <-. exact Hres.
      * rewrite nth_error_app1 in Hx by lia. destruct (Sk x Hx) as (r1 & e1 & c1 & E1 & W1). exists r1, e1, c1.
        rewrite firstn_app. replace (S k - length ws)%nat with 0%nat by lia. rewrite firstn_O, app_nil_r. split; [exact E1|exact W1].
Qed.

(** The loop never fails for valid windows if the solver returns as many coefficients as there are columns. *)
Lemma boosting_total damping qs ds data weights : length data = length ds -> weights_cover (length ds) weights ->
  (forall J d w a, length (ls J d w a) = cols J) -> apart cart ds qs ->
  forall ws, windows_of (length qs) (length ds) ws -> exists st,
  gradient_boosting ls float64 damping (flat qs) (flat ds) data weights ws (repeat 0 (length qs)) = Ok st.
Proof.
  intros Hd Hw Hls Ha. induction ws as [|w ws IH] using rev_ind; intros Hws; [eexists; reflexivity|].
  assert (Hws' : windows_of (length qs) (length ds) ws) by (intros x Hx; apply Hws; apply in_or_app; now left).
  destruct (IH Hws') as (mid & Hmid). destruct (boosting_invariant damping qs ds data weights Hd Hw ws mid Hws' Hmid) as (r & es & c & -> & Hcons & _).
  unfold gradient_boosting in *. rewrite for_app, Hmid. cbn [bind for_]. destruct (Hws w ltac:(apply in_or_app; right; now left)) as (Hwp & Hwd).
  assert (Hrl : length r = length ds) by (destruct Hcons as (_ & ->); now rewrite length_minus).
  rewrite boost_window_chunks by (assumption || apply Hcons).
  assert (Ha1 : apart cart (chosen p0 ds (snd w)) (chosen p0 qs (fst w))).
  { intros p q Hp Hq. apply Ha; eapply chosen_in; try eassumption; [apply Hwd|apply Hwp]. }
  assert (Ha2 : apart cart ds (chosen p0 qs (fst w))).
  { intros p q Hp Hq. apply Ha; [exact Hp|]. eapply chosen_in; try eassumption. apply Hwp. }
  destruct (jacobian_design _ _ greens_cartesian_for _ _ Ha1) as (J & HJ & (_ & Hcols & _)). rewrite HJ. cbn [bind]. cbv zeta.
  cbn [design cols] in Hcols. rewrite length_chosen in Hcols.
  rewrite (predict_kernel_ok _ _ greens_cartesian_for); [|exact Ha2|rewrite length_chosen, Hls; exact Hcols]. cbn [bind].
  rewrite Hls, Hcols, Nat.eqb_refl. eexists. reflexivity.
Qed.
End Boost.
