(** C94: the windows of gradient-boosted equivalent sources reach every datum and every source, and pair
    neighbours only. *)
From Coq Require Import Psatz Permutation.
From Verif Require Import Base BaseFacts NumPy NumPyFacts DistanceModel DistanceSpec DistanceProofs PointGravitySpec PointGravityProofs
  LegendreModel LegendreProofs EqsModel EqsSpec EqsProofs EqsFitProofs EqsBoostProofs EqsWindowProofs EqsProps EqsRegionSpec EqsRegionProofs.
Local Open Scope string_scope. Local Open Scope list_scope. Local Open Scope R_scope.

(** The region that is cut into windows is the smallest one with all the data and all the sources. *)
Theorem C94_region_is_the_smallest : forall ds qs,
  (ds <> [] -> qs <> [] -> exists reg, get_region_data_sources (flat ds) (flat qs) = Ok reg) /\
  forall reg, get_region_data_sources (flat ds) (flat qs) = Ok reg ->
    (forall p, In p (ds ++ qs) -> inside reg (fst3 p) (snd3 p)) /\
    forall other, (forall p, In p (ds ++ qs) -> inside other (fst3 p) (snd3 p)) -> forall x y, inside reg x y -> inside other x y.
Proof.
  intros ds qs. split.
  - intros Hd Hq. destruct ds as [|p ds]; [congruence|]. destruct qs as [|q qs]; [congruence|]. unfold get_region_data_sources, flat. cbn [map fst snd get_region bind]. eexists. reflexivity.
  - intros reg H. pose proof (region_of _ _ _ H) as T. split.
    + intros p Hp. apply (tight_inside _ _ _ _ _ T); now apply in_map.
    + intros other Ho x y Hi. destruct reg as [[[w e] s] n], other as [[[w' e'] s'] n']. destruct T as (_ & _ & T1 & T2 & T3 & T4).
      apply in_map_iff in T1, T2, T3, T4. destruct T1 as (p1 & <- & I1), T2 as (p2 & <- & I2), T3 as (p3 & <- & I3), T4 as (p4 & <- & I4).
      destruct (Ho _ I1) as (A1 & _), (Ho _ I2) as (A2 & _), (Ho _ I3) as (_ & A3), (Ho _ I4) as (_ & A4). unfold inside in *. lra.
Qed.

(** A datum and a source on the same vertical line meet in a window, for every window size and order. *)
Theorem C94_every_datum_meets_the_source_below : forall rw order win qs ds shuffle ws i j,
  an_order order -> cuts_squares rw -> create_windows rw order win (flat qs) (flat ds) shuffle = Ok ws ->
  (i < length ds)%nat -> (j < length qs)%nat -> same_vertical (nth i ds zero_point) (nth j qs zero_point) ->
  exists w, In w ws /\ In j (fst w) /\ In i (snd w).
Proof. intros rw order win qs ds shuffle ws i j. apply shared_window. Qed.

(** So that with sources below the data nothing is left out. *)
Theorem C94_all_data_and_sources_are_used : forall rw order win D ds shuffle ws i,
  an_order order -> cuts_squares rw -> create_windows rw order win (flat (lowered D ds)) (flat ds) shuffle = Ok ws ->
  (i < length ds)%nat -> exists w, In w ws /\ In i (fst w) /\ In i (snd w).
Proof.
  intros rw order win D ds shuffle ws i Ho Hrw H Hi. apply (C94_every_datum_meets_the_source_below rw order win (lowered D ds) ds shuffle ws i i Ho Hrw H Hi).
  - unfold lowered. now rewrite map_length.
  - unfold lowered, zero_point. rewrite (nth_map _ _ _ zero_point) by exact Hi. split; reflexivity.
Qed.

(** The data and the sources of a window are neighbours: no further apart than the side of the window
    along each axis. Windows have both data and sources. *)
Theorem C94_windows_pair_neighbours : forall rw order win qs ds shuffle ws,
  an_order order -> cuts_squares rw -> create_windows rw order win (flat qs) (flat ds) shuffle = Ok ws ->
  (forall s, win = WindowString s -> 5000 < INR (length ds)) ->
  exists reg size, get_region_data_sources (flat ds) (flat qs) = Ok reg /\
    ((let '(w, e, s, n) := reg in w < e /\ s < n) -> side win reg (length ds) size) /\
    forall w, In w ws -> fst w <> [] /\ snd w <> [] /\ forall i j, In j (fst w) -> In i (snd w) ->
      (i < length ds)%nat /\ (j < length qs)%nat /\
      Rabs (fst3 (nth i ds zero_point) - fst3 (nth j qs zero_point)) <= size /\ Rabs (snd3 (nth i ds zero_point) - snd3 (nth j qs zero_point)) <= size.
Proof.
  intros rw order win qs ds shuffle ws Ho Hrw H Hbig. destruct (near_windows _ _ _ _ _ _ _ Ho Hrw H Hbig) as (reg & size & Er & Hn & Hs & Hnear).
  exists reg, size. split; [exact Er|]. split.
  - destruct reg as [[[w e] s] n]. intros (A & B). unfold side. destruct win as [str|x]; [|now apply Hn]. rewrite (Hs str eq_refl). split; [apply sqrt_pos|].
    specialize (Hbig str eq_refl). assert (P : 0 < (e - w) * (n - s)) by (apply Rmult_lt_0_compat; lra). rewrite sqrt_sqrt; [field; split; [|split]; lra|].
    apply Rmult_le_pos; [lra|]. left. apply Rinv_0_lt_compat. apply Rmult_lt_0_compat; [lra|now apply Rinv_0_lt_compat].
  - intros w Hw. destruct (create_windows_cases _ _ _ _ _ _ _ Ho H) as (reg' & _ & [((s & E) & Hle & _)|(size' & sw & dw & ws' & _ & _ & _ & _ & _ & En & P)]); [specialize (Hbig s E); lra|].
    destruct (in_nonempty_nth _ _ _ _ En (Permutation_in _ P Hw)) as (N1 & N2 & _). split; [exact N1|]. split; [exact N2|]. intros i j Hj Hi. exact (Hnear w i j Hw Hj Hi).
Qed.

Lemma far_windows_empty rw order x (qs ds : list point) shuffle ws : an_order order -> cuts_squares rw ->
  create_windows rw order (WindowNumber x) (flat qs) (flat ds) shuffle = Ok ws ->
  (forall p q, In p ds -> In q qs -> x < Rabs (fst3 p - fst3 q) \/ x < Rabs (snd3 p - snd3 q)) -> ws = [].
Proof.
  intros Ho Hrw Hws Hfar. destruct ws as [|v ws]; [reflexivity|exfalso]. destruct (C94_windows_pair_neighbours _ _ _ _ _ _ _ Ho Hrw Hws ltac:(discriminate)) as (reg & size & Er & _ & Hn).
  destruct (near_windows _ _ _ _ _ _ _ Ho Hrw Hws ltac:(discriminate)) as (reg' & size' & _ & Hx & _ & Hnear). specialize (Hx x eq_refl). subst size'.
  destruct (Hn v ltac:(now left)) as (N1 & N2 & _). destruct (fst v) as [|j js] eqn:Ej; [congruence|]. destruct (snd v) as [|i is_] eqn:Ei; [congruence|].
  destruct (Hnear v i j ltac:(now left) ltac:(rewrite Ej; now left) ltac:(rewrite Ei; now left)) as (Hi & Hj & A & B).
  destruct (Hfar (nth i ds zero_point) (nth j qs zero_point) ltac:(now apply nth_In) ltac:(now apply nth_In)); lra.
Qed.

(** Sources that are further than a window from the data, as block averages can be, are never fitted:
    the fit succeeds and all coefficients are zero. *)
Theorem C94_far_sources_are_never_fitted : forall ls avg nd rw order self x sh ds d w self' errors qs,
  dt self = float64 -> an_order order -> cuts_squares rw ->
  fit_gb ls avg nd rw order self (WindowNumber x) (coords_of sh ds) (Arr sh d) w = Ok (self', errors) -> points_ self' = Some (flat qs) ->
  (forall p q, In p ds -> In q qs -> x < Rabs (fst3 p - fst3 q) \/ x < Rabs (snd3 p - snd3 q)) ->
  coefs_ self' = Some (repeat 0 (length qs)) /\ errors = [root_mean_square d].
Proof.
  intros ls avg nd rw order self x sh ds d w self' errors qs Hdt Ho Hrw H Hq Hfar.
  destruct (fit_gb_unfold _ _ _ _ _ _ _ _ _ _ _ _ Hdt H) as (mid & pts & ws & residue & coefs & _ & Hmid & Hpts & Hws & HB & -> & Hdm & Hda).
  rewrite set_coefs_points, Hpts in Hq. injection Hq as ->. change (ravel3 (coords_of sh ds)) with (flat ds) in *. rewrite size_flat in HB.
  assert (E : ws = []) by exact (far_windows_empty _ _ _ _ _ _ _ Ho Hrw Hws Hfar).
  subst ws. unfold gradient_boosting in HB. cbn [for_] in HB. injection HB as _ <- <-. cbn [set_coefs coefs_]. split; [reflexivity|].
  now rewrite rms_root_mean_square.
Qed.

(** A way to cut squares: tiles from the south west corner. *)
Definition tile_centres (reg : region) (size overlap : R) : list (R * R) := let '(w, e, s, n) := reg in
  let steps a b := range 0 (S (Z.to_nat (Int_part ((b - a) / size)))) in
  flat_map (fun k => map (fun l => (w + size * (INR k + 1 / 2), s + size * (INR l + 1 / 2))) (steps s n)) (steps w e).
Definition tiles (xs ys : list R) (reg : region) (size overlap : R) : res (list (list nat)) :=
  if Rltb 0 size then Ok (map (fun c => filter (fun i => andb (Rleb (Rabs (nth i xs 0 - fst c)) (size / 2)) (Rleb (Rabs (nth i ys 0 - snd c)) (size / 2))) (range 0 (length xs))) (tile_centres reg size overlap))
  else Raise ValueError.

Lemma tile_step a b size x : 0 < size -> a <= x <= b -> exists k, In k (range 0 (S (Z.to_nat (Int_part ((b - a) / size))))) /\ Rabs (x - (a + size * (INR k + 1 / 2))) <= size / 2.
Proof.
  intros Hs Hx. set (t := (x - a) / size). set (u := (b - a) / size).
  assert (Ht : 0 <= t) by (unfold t; apply Rmult_le_pos; [lra|left; now apply Rinv_0_lt_compat]).
  assert (Hu : t <= u) by (unfold t, u, Rdiv; apply Rmult_le_compat_r; [left; now apply Rinv_0_lt_compat|lra]).
  destruct (base_Int_part t) as (B1 & B2). destruct (base_Int_part u) as (C1 & C2).
  assert (P : (0 <= Int_part t)%Z) by (apply Z.lt_succ_r, lt_IZR; rewrite succ_IZR; lra).
  assert (Q : (Int_part t <= Int_part u)%Z) by (apply Z.lt_succ_r, lt_IZR; rewrite succ_IZR; lra).
  exists (Z.to_nat (Int_part t)). split; [apply range_in; lia|]. rewrite INR_IZR_INZ, Z2Nat.id by exact P.
  assert (E : x = a + size * t) by (unfold t; field; lra). rewrite E.
  replace (a + size * t - (a + size * (IZR (Int_part t) + 1 / 2))) with (size * (t - IZR (Int_part t) - 1 / 2)) by ring.
  rewrite Rabs_mult, (Rabs_pos_eq size) by lra. assert (Rabs (t - IZR (Int_part t) - 1 / 2) <= 1 / 2) by (apply Rabs_le; lra). nra.
Qed.
Lemma tiles_cut : cuts_squares tiles.
Proof.
  exists tile_centres. intros xs ys reg size overlap ws H. unfold tiles in H. destruct (Rltb_spec 0 size) as [Hs|]; [|discriminate]. injection H as <-. rewrite map_length. split; [reflexivity|]. split.
  - intros x y Hi. destruct reg as [[[w e] s] n]. destruct Hi as (Hx & Hy). destruct (tile_step w e size x Hs Hx) as (k & Hk & Ak), (tile_step s n size y Hs Hy) as (l & Hl & Al).
    exists (w + size * (INR k + 1 / 2), s + size * (INR l + 1 / 2)). split; [|split; assumption].
    unfold tile_centres. apply in_flat_map. exists k. split; [exact Hk|]. apply in_map_iff. exists l. split; [reflexivity|exact Hl].
  - intros k i Hk. rewrite (nth_map _ _ _ (0, 0)) by exact Hk. rewrite filter_In, range_in. unfold held.
    destruct (Rleb_spec (Rabs (nth i xs 0 - fst (nth k (tile_centres reg size overlap) (0, 0)))) (size / 2)), (Rleb_spec (Rabs (nth i ys 0 - snd (nth k (tile_centres reg size overlap) (0, 0)))) (size / 2)); cbn [andb]; split; intros H.
    all: destruct H as (H1 & H2); try discriminate; try (destruct H2; lra); split; try lia; try split; auto.
Qed.
Definition straight_order (n : nat) : list nat := seq 0 n.
Lemma straight_order_ok : an_order straight_order.
Proof. intros n. reflexivity. Qed.

(** Three points cut into windows of four metres. *)
Example C94_example : exists ws, create_windows tiles straight_order (WindowNumber 4) (flat (lowered 3 [(0, 0, 0); (10, 0, 0); (10, 7, 5)])) (flat [(0, 0, 0); (10, 0, 0); (10, 7, 5)]) false = Ok ws.
Proof.
  unfold create_windows, get_region_data_sources, flat, lowered. cbn [map fst snd get_region bind fold_left]. cbv zeta. unfold tiles.
  destruct (Rltb_spec 0 4) as [_|]; [|lra]. cbn [bind]. unfold nonempty_windows. rewrite !map_length, Nat.eqb_refl. eexists. reflexivity.
Qed.

(** The corners of a square of ten metres averaged to one source in the middle, and windows of two metres. *)
Definition corners : list point := [(0, 0, 0); (10, 0, 0); (0, 10, 0); (10, 10, 0)].
Definition middle (_ : R) (_ : coords) : coords := ([5], [5], [0]).
Lemma corners_far : (forall p q, In p corners -> In q (lowered 3 [(5, 5, 0)]) -> 2 < Rabs (fst3 p - fst3 q) \/ 2 < Rabs (snd3 p - snd3 q)).
Proof.
  intros p q Hp [<-|[]]. unfold fst3, snd3; cbn [fst snd]. left. unfold corners in Hp.
  destruct Hp as [<-|[<-|[<-|[<-|[]]]]]; cbn [fst snd]; unfold Rabs; destruct (Rcase_abs _); lra.
Qed.
Example C94_far_example : exists self' errors,
  fit_gb ones middle no_neighbors tiles straight_order (Eqs None None (DepthNumber 3) (Some 20) float64 None None None) (WindowNumber 2) (coords_of [4%nat] corners) (Arr [4%nat] [1; 2; 3; 4]) None = Ok (self', errors) /\
  points_ self' = Some (flat (lowered 3 [(5, 5, 0)])) /\ coefs_ self' = Some [0].
Proof.
  assert (exists ws, create_windows tiles straight_order (WindowNumber 2) (flat (lowered 3 [(5, 5, 0)])) (flat corners) true = Ok ws) as (ws & Hws).
  { unfold create_windows, get_region_data_sources, flat, lowered, corners. cbn [map fst snd get_region bind fold_left]. cbv zeta. unfold tiles.
    destruct (Rltb_spec 0 2) as [_|]; [|lra]. cbn [bind]. rewrite !map_length, Nat.eqb_refl. cbn [negb]. unfold reorder.
    rewrite (take_ok []) by (intros k Hk; rewrite map_length; exact (order_in _ _ _ straight_order_ok Hk)). cbn [bind].
    rewrite (take_ok []) by (intros k Hk; rewrite map_length; exact (order_in _ _ _ straight_order_ok Hk)). cbn [bind].
    unfold nonempty_windows. rewrite !length_chosen, Nat.eqb_refl. eexists. reflexivity. }
  rewrite (far_windows_empty _ _ _ _ _ _ _ straight_order_ok tiles_cut Hws corners_far) in Hws.
  unfold fit_gb. rewrite check_fit_input_same. cbn [bind]. cbv zeta. cbn [dt]. rewrite astype3_float64. change (ravel3 (coords_of [4%nat] corners)) with (flat corners).
  unfold fit_points, build_points, middle. cbn [points block_size depth bind dt]. rewrite !astype3_float64. unfold get_points. cbn [points_ bind].
  change ([5], [5], map (fun u => u - 3) [0]) with (flat (lowered 3 [(5, 5, 0)])). rewrite Hws. cbn [bind]. unfold gradient_boosting. cbn [for_ bind].
  eexists. eexists. split; [reflexivity|]. split; reflexivity.
Qed.

Print Assumptions C94_region_is_the_smallest.
Print Assumptions C94_every_datum_meets_the_source_below.
Print Assumptions C94_all_data_and_sources_are_used.
Print Assumptions C94_windows_pair_neighbours.
Print Assumptions C94_far_sources_are_never_fitted.
