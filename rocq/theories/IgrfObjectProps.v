(** Claims C83 and C84 about the class IGRF14. *)
From Coquelicot Require Import Coquelicot.
From Coq Require Import Psatz.
From Verif Require Import Base BaseFacts NumPy NumPyFacts LegendreModel LegendreSpec LegendreFacts LegendreProofs LegendreDerivProofs LegendreProps
  IgrfModel IgrfSpec IgrfProofs IgrfTimeProofs IgrfProps IgrfObjectModel.
Local Open Scope R_scope.

(** ** C83: the object *)
(** An assignment to an attribute, a use of the object, and a use or an assignment that does not touch what the
    coefficients depend on. *)
Definition assignment (a : action) : Prop := match a with SetDate _ | SetMin _ | SetMax _ => True | _ => False end.
Definition harmless (a : action) : Prop := match a with SetDate _ | SetMax _ => False | _ => True end.

(** The cache, when filled, holds what a fresh object would compute. *)
Definition consistent (file : res coefficients) (o : igrf) : Prop :=
  forall gh, cache o = Some gh -> snd (coefficients_of file (new (i_date o) (i_min o) (i_max o))) = Ok gh.

Lemma coefficients_fresh file o : consistent file o ->
  snd (coefficients_of file o) = snd (coefficients_of file (new (i_date o) (i_min o) (i_max o))).
Proof.
  intros H. unfold coefficients_of at 1. destruct (cache o) as [gh|] eqn:E; [now rewrite H|].
  unfold coefficients_of, new. cbn [cache i_date i_max i_min]. now destruct (do c <- file; _).
Qed.

Lemma coefficients_kept file o :
  let o' := fst (coefficients_of file o) in
  i_date o' = i_date o /\ i_min o' = i_min o /\ i_max o' = i_max o /\ (consistent file o -> consistent file o').
Proof.
  cbv zeta. unfold coefficients_of. destruct (cache o) as [gh|] eqn:E; [cbn [fst]; auto|].
  destruct (do c <- file; interpolate (i_date o) (i_max o) c) as [gh|e] eqn:F; cbn [fst i_date i_min i_max]; [|auto].
  repeat split. intros _ gh' Eg. cbn [cache] in Eg. injection Eg as <-. cbn [i_date i_min i_max].
  unfold coefficients_of, new. cbn [cache i_date i_max i_min]. now rewrite F.
Qed.

Lemma predict_state file junk convert c o :
  fst (predict_method file junk convert c o) = o \/ fst (predict_method file junk convert c o) = fst (coefficients_of file o).
Proof.
  unfold predict_method. destruct c as [[c0 c1] c2]. destruct (broadcast3 c0 c1 c2); [|now left].
  destruct (broadcast_1d _ _ _); [|now left]. right. now destruct (coefficients_of file o).
Qed.
Lemma grid_state file junk convert lon lat z o : fst (grid_method file junk convert lon lat z o) = fst (coefficients_of file o).
Proof. unfold grid_method. now destruct (coefficients_of file o). Qed.

Lemma act_kept file junk convert a o : harmless a ->
  let o' := act file junk convert a o in
  i_date o' = i_date o /\ i_max o' = i_max o /\ (consistent file o -> consistent file o').
Proof.
  cbv zeta. pose proof (coefficients_kept file o) as (K1 & K2 & K3 & K4).
  destruct a as [c|lon lat z| |d|n|n]; cbn [harmless act]; intros Ha; try contradiction.
  - destruct (predict_state file junk convert c o) as [E|E]; rewrite E; auto.
  - rewrite grid_state; auto.
  - auto.
  - cbn [i_date i_min i_max]. repeat split. intros H gh. unfold consistent in H. cbn [cache i_date i_min i_max]. intros E.
    specialize (H gh E). revert H. unfold coefficients_of, new. cbn [cache i_date i_max i_min].
    destruct (do c <- file; interpolate (i_date o) (i_max o) c); cbn [snd]; auto.
Qed.

Lemma history_consistent file junk convert calls o : Forall harmless calls -> consistent file o ->
  consistent file (history file junk convert calls o).
Proof.
  revert o. induction calls as [|a calls IH]; intros o Hc Ho; [exact Ho|]. inversion_clear Hc.
  cbn [history fold_left]. apply IH; [assumption|]. now apply act_kept.
Qed.

Lemma settings_empty file junk convert l o : Forall assignment l -> cache o = None -> cache (history file junk convert l o) = None.
Proof.
  revert o. induction l as [|a lt IH]; intros o Hl Ho; [exact Ho|]. inversion_clear Hl. cbn [history fold_left].
  apply IH; [assumption|]. now destruct a.
Qed.

Lemma history_app file junk convert l1 l2 o : history file junk convert (l1 ++ l2) o = history file junk convert l2 (history file junk convert l1 o).
Proof. unfold history. apply fold_left_app. Qed.

Lemma history_attributes file junk convert calls o : Forall harmless calls ->
  i_date (history file junk convert calls o) = i_date o /\ i_max (history file junk convert calls o) = i_max o.
Proof.
  revert o. induction calls as [|a calls IH]; intros o Hc; [now split|]. inversion_clear Hc. cbn [history fold_left].
  destruct (act_kept file junk convert a o) as (E1 & E2 & _); [assumption|]. rewrite <- E1, <- E2. now apply IH.
Qed.

(** An object that is set up first and then used any number of times, for any mixture of points and grids with calls
    that fail and changes of the minimum degree in between, answers like a new object with its attributes. *)
Theorem C83_calls_are_independent : forall file junk convert d lo hi settings calls,
  Forall assignment settings -> Forall harmless calls ->
  let self := history file junk convert (settings ++ calls) (new d lo hi) in
  let fresh := new (i_date self) (i_min self) (i_max self) in
  (forall c, snd (predict_method file junk convert c self) = snd (predict_method file junk convert c fresh)) /\
  (forall lon lat z, snd (grid_method file junk convert lon lat z self) = snd (grid_method file junk convert lon lat z fresh)) /\
  snd (coefficients_of file self) = snd (coefficients_of file fresh) /\
  i_date self = i_date (history file junk convert settings (new d lo hi)) /\
  i_max self = i_max (history file junk convert settings (new d lo hi)).
Proof.
  intros file junk convert d lo hi settings calls Hs Hc self fresh.
  assert (Hk : consistent file self).
  { unfold self. rewrite history_app. apply history_consistent; [exact Hc|]. intros gh E.
    rewrite settings_empty in E by (auto; reflexivity). discriminate. }
  assert (E : snd (coefficients_of file self) = snd (coefficients_of file fresh)) by (apply coefficients_fresh; exact Hk).
  assert (A : forall o, let o' := fst (coefficients_of file o) in i_min o' = i_min o /\ i_max o' = i_max o).
  { intros o o'. pose proof (coefficients_kept file o) as (_ & ? & ? & _). auto. }
  pose proof (A self) as [A1 A2]. pose proof (A fresh) as [A3 A4].
  split; [|split; [|split; [exact E|unfold self; rewrite history_app; now apply history_attributes]]].
  - intros [[c0 c1] c2]. unfold predict_method. destruct (broadcast3 c0 c1 c2); [|reflexivity].
    destruct (broadcast_1d convert (ravel c1) (ravel c2)); [|reflexivity].
    destruct (coefficients_of file self) as [s1 g1], (coefficients_of file fresh) as [s2 g2]. cbn [fst snd] in *. subst g1.
    rewrite A1, A2, A3, A4. reflexivity.
  - intros lon lat z. unfold grid_method.
    destruct (coefficients_of file self) as [s1 g1], (coefficients_of file fresh) as [s2 g2]. cbn [fst snd] in *. subst g1.
    rewrite A1, A2, A3, A4. reflexivity.
Qed.
Print Assumptions C83_calls_are_independent.

(** The attributes of an object are those it was made with until they are assigned, and then what was last assigned,
    whatever else is done with the object. *)
Theorem C83_last_assignment_counts : forall file junk convert before after self,
  let o l := history file junk convert l self in
  (forall n, (forall a, In a after -> forall m, a <> SetMin m) -> i_min (o (before ++ SetMin n :: after)) = n) /\
  (forall n, (forall a, In a after -> forall m, a <> SetMax m) -> i_max (o (before ++ SetMax n :: after)) = n) /\
  (forall d, (forall a, In a after -> forall m, a <> SetDate m) -> i_date (o (before ++ SetDate d :: after)) = d) /\
  ((forall a, In a after -> forall m, a <> SetMin m) -> i_min (o after) = i_min self) /\
  ((forall a, In a after -> forall m, a <> SetMax m) -> i_max (o after) = i_max self) /\
  ((forall a, In a after -> forall m, a <> SetDate m) -> i_date (o after) = i_date self).
Proof.
  intros file junk convert before after self o.
  assert (K : forall a s, i_min (act file junk convert a s) = (match a with SetMin n => n | _ => i_min s end) /\
    i_max (act file junk convert a s) = (match a with SetMax n => n | _ => i_max s end) /\ i_date (act file junk convert a s) = (match a with SetDate d => d | _ => i_date s end)).
  { intros a s. pose proof (coefficients_kept file s) as (C1 & C2 & C3 & _). destruct a as [c|lon lat z| |d|n|n]; cbn [act]; try (now repeat split).
    - destruct (predict_state file junk convert c s) as [-> | ->]; auto.
    - unfold grid_method. destruct (coefficients_of file s) as [s' gh]. cbn [fst] in *. auto. }
  assert (Kmin : forall l s, (forall a, In a l -> forall m, a <> SetMin m) -> i_min (history file junk convert l s) = i_min s).
  { induction l as [|a l IH]; intros s H; [reflexivity|]. cbn [history fold_left]. etransitivity; [apply IH; intros; apply H; now right|].
    destruct (K a s) as (-> & _). destruct a; try reflexivity. exfalso. now apply (H _ (or_introl eq_refl) n). }
  assert (Kmax : forall l s, (forall a, In a l -> forall m, a <> SetMax m) -> i_max (history file junk convert l s) = i_max s).
  { induction l as [|a l IH]; intros s H; [reflexivity|]. cbn [history fold_left]. etransitivity; [apply IH; intros; apply H; now right|].
    destruct (K a s) as (_ & -> & _). destruct a; try reflexivity. exfalso. now apply (H _ (or_introl eq_refl) n). }
  assert (Kdate : forall l s, (forall a, In a l -> forall m, a <> SetDate m) -> i_date (history file junk convert l s) = i_date s).
  { induction l as [|a l IH]; intros s H; [reflexivity|]. cbn [history fold_left]. etransitivity; [apply IH; intros; apply H; now right|].
    destruct (K a s) as (_ & _ & ->). destruct a; try reflexivity. exfalso. now apply (H _ (or_introl eq_refl) d). }
  unfold o. repeat split; intros; try (rewrite history_app; cbn [history fold_left]; fold (history file junk convert before self));
    try (etransitivity; [apply Kmin || apply Kmax || apply Kdate; assumption|reflexivity]); auto.
Qed.
Print Assumptions C83_last_assignment_counts.
Example C83_last_assignment_example : forall file junk convert c d,
  i_min (history file junk convert [SetMin 3; Predict c; SetMin 5; SetMax 7; GetCoefficients] (new d 1 13)) = 5%nat.
Proof.
  intros. apply (proj1 (C83_last_assignment_counts file junk convert [SetMin 3; Predict c] [SetMax 7; GetCoefficients] (new d 1 13)) 5%nat).
  intros a [<-|[<-|[]]] m; discriminate.
Qed.

(** ** C84: predict *)
Lemma broadcast_1d_same {A B C} (f : A -> B -> C) l m : length l = length m ->
  broadcast_1d f l m = Ok (map (fun t => f (fst t) (snd t)) (combine l m)).
Proof. intros E. unfold broadcast_1d. now rewrite E, Nat.eqb_refl. Qed.

Lemma each_map {A B C} (f : B -> res C) (k : A -> B) l : each f (map k l) = each (fun x => f (k x)) l.
Proof. induction l as [|x l IH]; [reflexivity|]. cbn [map each]. now rewrite IH. Qed.
Lemma each_ext {A B} (f g : A -> res B) l : (forall x, In x l -> f x = g x) -> each f l = each g l.
Proof.
  induction l as [|x l IH]; intros H; [reflexivity|]. cbn [each]. rewrite H by now left. rewrite IH; [reflexivity|].
  intros y Hy. apply H. now right.
Qed.

Lemma combine_nth2 {A B} (l : list A) (m : list B) a b : length l = length m ->
  combine l m = map (fun i => (nth i l a, nth i m b)) (range 0 (length l)).
Proof.
  unfold range. rewrite Nat.sub_0_r. revert m. induction l as [|x l IH]; intros [|y m] E; try discriminate; [reflexivity|].
  cbn [combine length seq map]. f_equal. rewrite <- seq_shift, map_map. apply IH. now injection E.
Qed.

Lemma range_length n : length (range 0 n) = n.
Proof. unfold range. now rewrite Nat.sub_0_r, seq_length. Qed.
Lemma in_range i n : In i (range 0 n) <-> (i < n)%nat.
Proof. unfold range. rewrite Nat.sub_0_r, in_seq. lia. Qed.
Lemma nth_map_range {A} (f : nat -> A) n i d : (i < n)%nat -> nth i (map f (range 0 n)) d = f i.
Proof.
  intros H. rewrite (nth_indep _ d (f 0%nat)) by (now rewrite map_length, range_length). rewrite map_nth.
  unfold range. rewrite Nat.sub_0_r. now rewrite seq_nth.
Qed.

Lemma predict_method_same file junk convert s lon lat z self g h F :
  length lon = prod_shape s -> length lat = prod_shape s -> length z = prod_shape s ->
  snd (coefficients_of file self) = Ok (g, h) ->
  (forall i, (i < prod_shape s)%nat ->
    let sph := convert (nth i lat 0) (nth i z 0) in
    field_at junk (radians (nth i lon 0)) (radians (90 - fst sph)) (reference_radius / snd sph) g h (i_min self) (i_max self) (0, 0, 0) = Ok (F i)) ->
  let v i := vector_spherical_to_geodetic (nth i lat 0) (fst (convert (nth i lat 0) (nth i z 0))) (F i) in
  let column (k : R * R * R -> R) := map (fun i => k (v i)) (range 0 (prod_shape s)) in
  snd (predict_method file junk convert (Arr s lon, Arr s lat, Arr s z) self) =
  Ok (if Nat.eqb (prod_shape s) 1
      then Floats (fst (fst (v 0%nat))) (snd (fst (v 0%nat))) (snd (v 0%nat))
      else Arrays (Arr s (column (fun b => fst (fst b)))) (Arr s (column (fun b => snd (fst b)))) (Arr s (column snd))).
Proof.
  intros L1 L2 L3 E HF v column. unfold predict_method. rewrite broadcast3_same by reflexivity. cbn [shape ravel data].
  rewrite broadcast_1d_same by congruence. rewrite (combine_nth2 lat z 0 0) by congruence. rewrite map_map. cbn [fst snd].
  pose proof (coefficients_kept file self) as (_ & K2 & K3 & _).
  destruct (coefficients_of file self) as [self' gh]. cbn [fst snd] in *. subst gh. rewrite K2, K3. cbn [bind].
  rewrite L1, L2. set (n := prod_shape s) in *.
  rewrite (each_ok _ F).
  2:{ intros i Hi. apply in_range in Hi. rewrite (aget_ok _ _ 0) by (now rewrite L1). cbn [bind].
      rewrite (aget_ok _ _ (0, 0)) by (now rewrite map_length, range_length). cbn [bind]. rewrite nth_map_range by exact Hi. now apply HF. }
  cbn [bind]. rewrite broadcast_1d_same by (now rewrite map_length, range_length).
  rewrite (combine_nth2 lat _ 0 (0, 0)) by (now rewrite map_length, range_length). rewrite L2, map_map. cbn [bind].
  rewrite broadcast_1d_same by (now rewrite !map_length, !range_length). cbn [bind].
  rewrite (combine_nth2 _ (map F (range 0 n)) (0, (0)) (0, 0, 0)) by (now rewrite !map_length, !range_length).
  rewrite map_length, range_length, !map_map. cbn [fst snd].
  assert (C : forall k : R * R * R -> R,
    map (fun x => k (vector_spherical_to_geodetic
       (fst (nth x (map (fun i => (nth i lat 0, fst (nth i (map (fun i => convert (nth i lat 0) (nth i z 0)) (range 0 n)) (0, 0)))) (range 0 n)) (0, 0)))
       (snd (nth x (map (fun i => (nth i lat 0, fst (nth i (map (fun i => convert (nth i lat 0) (nth i z 0)) (range 0 n)) (0, 0)))) (range 0 n)) (0, 0)))
       (nth x (map F (range 0 n)) (0, 0, 0)))) (range 0 n) = column k).
  { intros k. apply map_ext_in. intros i Hi. apply in_range in Hi. rewrite !nth_map_range by exact Hi. reflexivity. }
  rewrite (C (fun v => snd (fst v))), (C (fun v => snd v)).
  replace (map (fun x => fst (fst (F x))) (range 0 n)) with (column (fun b => fst (fst b))).
  2:{ apply map_ext. intros i. unfold v, vector_spherical_to_geodetic. now destruct (F i) as [[x y] w]. }
  assert (LC : forall k, length (column k) = n) by (intros; unfold column; now rewrite map_length, range_length).
  unfold reshape. rewrite !LC. fold n. rewrite Nat.eqb_refl. cbn [bind].
  destruct (Nat.eqb_spec n 1) as [En|En]; [|reflexivity]. unfold column. rewrite En. reflexivity.
Qed.

Lemma interpolate_naive c first k w d lo N : regular c first k -> shaped c k w -> (N < w)%nat ->
  (first <= d_year d < first + 5 * Z.of_nat k)%Z ->
  exists g h, interpolate_coefficients d N c = Ok (g, h) /\ square N g /\ square N h /\
    snd (coefficients_of (Ok c) (new (Naive d) lo N)) = Ok (g, h).
Proof.
  intros Hr Hs HN Hd. destruct (epoch_of first k d Hd) as (i & Hi & Yi).
  destruct (interpolate_ok c first k w N d i Hr Hs HN Hi Yi) as (g & h & E & Q1 & Q2 & _). exists g, h.
  repeat (split; [assumption|]). unfold coefficients_of, new. cbn [cache i_date i_max bind interpolate]. now rewrite E.
Qed.

(** The whole method, from the coefficient file to the arrays: the arrays have the shape of the coordinates and hold,
    point by point, minus the gradient of the potential of the main field with the coefficients of the date, as
    components along the geodetic directions. *)
Theorem C84_predict : forall c first k w junk convert s lon lat z d lo N,
  regular c first k -> shaped c k w -> (1 <= N < w)%nat -> (first <= d_year d < first + 5 * Z.of_nat k)%Z ->
  (forall lat z, -90 <= fst (convert lat z) <= 90) ->
  length lon = prod_shape s -> length lat = prod_shape s -> length z = prod_shape s -> prod_shape s <> 1%nat ->
  exists g h be bn bu, interpolate_coefficients d N c = Ok (g, h) /\
    snd (predict_method (Ok c) junk convert (Arr s lon, Arr s lat, Arr s z) (new (Naive d) lo N)) =
      Ok (Arrays (Arr s be) (Arr s bn) (Arr s bu)) /\
    length be = prod_shape s /\ length bn = prod_shape s /\ length bu = prod_shape s /\
    forall i, (i < prod_shape s)%nat ->
      let (lat_sph, r) := convert (nth i lat 0) (nth i z 0) in
      let t := radians (90 - lat_sph) in let l := radians (nth i lon 0) in
      let V := igrf_potential 6371200 g h lo N in
      0 < r -> / 10 ^ 10 <= sin t ->
      vadd (vscale (nth i be 0) eastward)
        (vadd (vscale (nth i bn 0) (northward (nth i lat 0))) (vscale (nth i bu 0) (outward (nth i lat 0)))) =
      vadd (vscale (- Derive (fun l => V r t l) l / (r * sin t)) eastward)
        (vadd (vscale (Derive (fun t => V r t l) t / r) (northward lat_sph)) (vscale (- Derive (fun r => V r t l) r) (outward lat_sph))).
Proof.
  intros c first k w junk convert s lon lat z d lo N Hr Hs HN Hd Hcv L1 L2 L3 Hn.
  destruct (interpolate_naive c first k w d lo N Hr Hs ltac:(lia) Hd) as (g & h & E & Q1 & Q2 & Ec).
  pose proof (fun F => predict_method_same (Ok c) junk convert s lon lat z (new (Naive d) lo N) g h F L1 L2 L3 Ec) as M.
  cbn [new i_min i_max] in M. specialize (M _ (fun i _ => field_at_ok junk _ _ _ g h lo N (0, 0, 0) ltac:(lia) (colat_range _ (Hcv _ _)) Q1 Q2)).
  cbv zeta in M. rewrite (proj2 (Nat.eqb_neq _ _) Hn) in M.
  exists g, h. do 3 eexists. split; [exact E|]. split; [exact M|]. clear M.
  rewrite !map_length, range_length. repeat (split; [reflexivity|]). intros i Hi. rewrite !nth_map_range by exact Hi.
  destruct (convert (nth i lat 0) (nth i z 0)) as [ls r] eqn:Ecv. cbv zeta. cbn [fst snd]. intros Hrp Hsin.
  set (t := radians (90 - ls)) in *. set (l := radians (nth i lon 0)).
  assert (Ht : 0 <= t <= PI). { apply colat_range. specialize (Hcv (nth i lat 0) (nth i z 0)). now rewrite Ecv in Hcv. }
  assert (Hp : 0 < sin t) by (pose proof (Rinv_0_lt_compat (10 ^ 10) ltac:(apply pow_lt; lra)); lra).
  assert (Ht' : 0 < t < PI).
  { split; apply Rnot_le_lt; intros X; [replace t with 0 in Hp by lra; rewrite sin_0 in Hp|replace t with PI in Hp by lra; rewrite sin_PI in Hp]; lra. }
  destruct (C59_minus_gradient junk 6371200 g h lo N r t l) as (e & n & u & Ef & D1 & D2 & D3); auto; [lia|lra|].
  unfold reference_radius. rewrite field_at_ok in Ef by (auto; lia). apply (f_equal (fun x => match x with Ok v => v | Raise _ => (0, 0, 0) end)) in Ef.
  cbv beta iota in Ef. cbn [fst snd] in Ef. rewrite Ef. clear Ef.
  destruct (vector_spherical_to_geodetic (nth i lat 0) ls (e, n, u)) as [[e' n'] u'] eqn:Ev. cbn [fst snd].
  destruct (C59_rotation _ _ _ _ _ _ _ _ Ev) as [-> _].
  replace (Derive (fun l => igrf_potential 6371200 g h lo N r t l) l) with (- (r * sin t * e)) by (symmetry; now apply is_derive_unique).
  replace (Derive (fun t => igrf_potential 6371200 g h lo N r t l) t) with (r * n) by (symmetry; now apply is_derive_unique).
  replace (Derive (fun r => igrf_potential 6371200 g h lo N r t l) r) with (- u) by (symmetry; now apply is_derive_unique).
  f_equal; [f_equal; field; lra|]. f_equal; [f_equal; field; lra|f_equal; lra].
Qed.
Print Assumptions C84_predict.

(** A file with two epochs: no field in 2020, an axial dipole in 2025. *)
Definition two_epochs : coefficients :=
  Coeffs [2020; 2025]%Z (Cube 2 2 (fun e n m => if (Nat.eqb e 1 && Nat.eqb n 1 && Nat.eqb m 0)%bool then 1 else 0)) (zero_cube 2 2) (zeros 2 2) (zeros 2 2).
Lemma two_epochs_regular : regular two_epochs 2020 2 /\ shaped two_epochs 2 2.
Proof. split; [repeat split; try lia|repeat split]. Qed.

Example C84_ex : exists be bn bu, snd (predict_method (Ok two_epochs) (fun _ _ => 0) (ellipsoid_conversion 6378137 0.0067)
  (Arr [2%nat; 1%nat] [10; 20], Arr [2%nat; 1%nat] [30; 40], Arr [2%nat; 1%nat] [0; 0]) (new (Naive (Date 2022 0)) 1 1)) =
  Ok (Arrays (Arr [2%nat; 1%nat] be) (Arr [2%nat; 1%nat] bn) (Arr [2%nat; 1%nat] bu)).
Proof.
  destruct two_epochs_regular as [Hr Hs].
  destruct (C84_predict two_epochs 2020 2 2 (fun _ _ => 0) (ellipsoid_conversion 6378137 0.0067) [2%nat; 1%nat] [10; 20] [30; 40] [0; 0]
    (Date 2022 0) 1 1 Hr Hs) as (g & h & be & bn & bu & _ & E & _).
  - lia.
  - cbn [d_year]. lia.
  - intros. apply conversion_range.
  - reflexivity.
  - reflexivity.
  - reflexivity.
  - discriminate.
  - now exists be, bn, bu.
Qed.

(** One height for all points stands for an array of equal heights. *)
Theorem C84_scalar_height : forall file junk convert s lon lat z self,
  length lon = prod_shape s -> length lat = prod_shape s ->
  predict_method file junk convert (Arr s lon, Arr s lat, scalar z) self =
  predict_method file junk convert (Arr s lon, Arr s lat, Arr s (repeat z (prod_shape s))) self.
Proof.
  intros file junk convert s lon lat z self L1 L2. unfold predict_method.
  assert (B : broadcast3 (Arr s lon) (Arr s lat) (scalar z) = Ok s).
  { unfold broadcast3, scalar. cbn [shape rev]. rewrite bcast_rev_same. destruct (rev s) eqn:E; cbn [bcast_rev]; rewrite <- E; now rewrite rev_involutive. }
  rewrite B, broadcast3_same by reflexivity. cbn [shape ravel data scalar].
  assert (C : broadcast_1d convert lat [z] = broadcast_1d convert lat (repeat z (prod_shape s))).
  { rewrite (broadcast_1d_same convert lat (repeat _ _)) by (now rewrite repeat_length). rewrite <- L2.
    assert (M : map (fun t => convert (fst t) (snd t)) (combine lat (repeat z (length lat))) = map (fun x => convert x z) lat).
    { clear. induction lat as [|x l IH]; [reflexivity|]. cbn [length repeat combine map fst snd]. now rewrite IH. }
    rewrite M. unfold broadcast_1d. destruct lat as [|x [|y l]]; reflexivity. }
  rewrite C. reflexivity.
Qed.
Print Assumptions C84_scalar_height.

(** So does one latitude: points along a parallel. *)
Lemma broadcast_1d_repeat {A B C} (f : A -> B -> C) x m : broadcast_1d f [x] m = broadcast_1d f (repeat x (length m)) m.
Proof.
  rewrite (broadcast_1d_same f (repeat _ _)) by (now rewrite repeat_length).
  assert (M : map (fun t => f (fst t) (snd t)) (combine (repeat x (length m)) m) = map (f x) m).
  { induction m as [|y l IH]; [reflexivity|]. cbn [length repeat combine map fst snd]. now rewrite IH. }
  rewrite M. unfold broadcast_1d. destruct m as [|y [|z l]]; reflexivity.
Qed.
Theorem C84_scalar_latitude : forall file junk convert s lon lat z self,
  length lon = prod_shape s -> length z = prod_shape s ->
  predict_method file junk convert (Arr s lon, scalar lat, Arr s z) self =
  predict_method file junk convert (Arr s lon, Arr s (repeat lat (prod_shape s)), Arr s z) self.
Proof.
  intros file junk convert s lon lat z self L1 L2. unfold predict_method.
  assert (B : broadcast3 (Arr s lon) (scalar lat) (Arr s z) = Ok s).
  { unfold broadcast3, scalar. cbn [shape rev]. assert (E : bcast_rev (rev s) [] = Some (rev s)) by (now destruct (rev s)).
    now rewrite E, bcast_rev_same, rev_involutive. }
  rewrite B, broadcast3_same by reflexivity. cbn [shape ravel data scalar]. rewrite <- L2, <- broadcast_1d_repeat.
  destruct (broadcast_1d convert [lat] z) as [spherical|e] eqn:Es; [|reflexivity].
  assert (L : length spherical = length z).
  { rewrite broadcast_1d_repeat, broadcast_1d_same in Es by (now rewrite repeat_length). injection Es as <-.
    now rewrite map_length, combine_length, repeat_length, Nat.min_id. }
  rewrite <- L, <- broadcast_1d_repeat. reflexivity.
Qed.
Print Assumptions C84_scalar_latitude.
Example C84_parallel : forall z1 z2,
  predict_method (Ok two_epochs) (fun _ _ => 0) (ellipsoid_conversion 6378137 0.0067) (arr1 [10; 20], scalar 45, arr1 [z1; z2]) (new (Naive (Date 2022 0)) 1 1) =
  predict_method (Ok two_epochs) (fun _ _ => 0) (ellipsoid_conversion 6378137 0.0067) (arr1 [10; 20], arr1 [45; 45], arr1 [z1; z2]) (new (Naive (Date 2022 0)) 1 1).
Proof. intros. apply (C84_scalar_latitude _ _ _ [2%nat]); reflexivity. Qed.

(** One longitude does not: it broadcasts with the other coordinates, but points along a meridian raise ValueError. *)
Theorem C84_scalar_longitude_refuted : forall c first k w junk convert d lo N lon lat z n,
  regular c first k -> shaped c k w -> (1 <= N < w)%nat -> (first <= d_year d < first + 5 * Z.of_nat k)%Z ->
  (forall lat z, -90 <= fst (convert lat z) <= 90) ->
  length lat = n -> length z = n -> (1 < n)%nat ->
  broadcast3 (scalar lon) (arr1 lat) (arr1 z) = Ok [n] /\
  snd (predict_method (Ok c) junk convert (scalar lon, arr1 lat, arr1 z) (new (Naive d) lo N)) = Raise ValueError.
Proof.
  intros c first k w junk convert d lo N lon lat z n Hr Hs HN Hd Hcv L1 L2 Hn.
  assert (B : broadcast3 (scalar lon) (arr1 lat) (arr1 z) = Ok [n]).
  { unfold broadcast3, scalar, arr1. cbn [shape rev app]. rewrite L1, L2. cbn [bcast_rev]. now rewrite Nat.eqb_refl. }
  split; [exact B|]. unfold predict_method. rewrite B. cbn [shape ravel data scalar arr1].
  rewrite broadcast_1d_same by congruence.
  destruct (interpolate_naive c first k w d lo N Hr Hs ltac:(lia) Hd) as (g & h & E & Q1 & Q2 & Ec).
  pose proof (coefficients_kept (Ok c) (new (Naive d) lo N)) as (_ & K2 & K3 & _).
  destruct (coefficients_of (Ok c) (new (Naive d) lo N)) as [self' gh]. cbn [fst snd] in *. subst gh. rewrite K2, K3. cbn [bind new i_min i_max].
  destruct lat as [|y [|y' l]]; cbn [length] in *; [lia|lia|]. destruct z as [|x [|x' m]]; cbn [length] in *; [lia|lia|].
  cbn [combine map length]. change (range 0 1) with [0%nat]. cbn [each aget nth_error bind fst snd].
  rewrite field_at_ok; [|lia|apply colat_range, Hcv|exact Q1|exact Q2]. cbn [bind].
  set (v := (_, _, _)). unfold broadcast_1d at 1. cbn [length map combine fst snd].
  replace (length (map (fun t => convert (fst t) (snd t)) (combine l m))) with (length l) by (rewrite map_length, combine_length; lia).
  rewrite Nat.eqb_refl. cbn [bind]. unfold broadcast_1d at 1. cbn [length]. cbn [Nat.eqb bind]. unfold reshape. cbn [map length prod_shape].
  destruct (Nat.eqb_spec 1 (prod_shape [n])) as [X|X]; [cbn in X; lia|reflexivity].
Qed.
Print Assumptions C84_scalar_longitude_refuted.

(** The documentation promises arrays of the shape of the coordinates.  Arrays of one element give floats instead. *)
Theorem C84_one_element_refuted : forall c first k w junk convert d lo N lon lat z,
  regular c first k -> shaped c k w -> (1 <= N < w)%nat -> (first <= d_year d < first + 5 * Z.of_nat k)%Z ->
  (forall lat z, -90 <= fst (convert lat z) <= 90) ->
  exists x y u,
    snd (predict_method (Ok c) junk convert (arr1 [lon], arr1 [lat], arr1 [z]) (new (Naive d) lo N)) = Ok (Floats x y u) /\
    forall be bn bu, Ok (Floats x y u) <> Ok (Arrays (arr1 be) (arr1 bn) (arr1 bu)).
Proof.
  intros c first k w junk convert d lo N lon lat z Hr Hs HN Hd Hcv.
  destruct (interpolate_naive c first k w d lo N Hr Hs ltac:(lia) Hd) as (g & h & E & Q1 & Q2 & Ec).
  pose proof (fun F => predict_method_same (Ok c) junk convert [1%nat] [lon] [lat] [z] (new (Naive d) lo N) g h F eq_refl eq_refl eq_refl Ec) as M.
  cbn [new i_min i_max] in M. specialize (M _ (fun i _ => field_at_ok junk _ _ _ g h lo N (0, 0, 0) ltac:(lia) (colat_range _ (Hcv _ _)) Q1 Q2)).
  do 3 eexists. split; [exact M|]. intros. discriminate.
Qed.
Print Assumptions C84_one_element_refuted.

(** ** C83, continued: what happens when the attributes change after the first use *)
Lemma dipole_at_pole junk g h v N : N = 1%nat -> square 1 g -> square 1 h -> ent g 1 0 = v -> ent g 1 1 = 0 -> ent h 1 0 = 0 -> ent h 1 1 = 0 ->
  field_at junk 0 0 1 g h 1 N (0, 0, 0) = Ok (0, 0, 2 * v).
Proof.
  intros -> Hg Hh E1 E2 E3 E4. pose proof PI_RGT_0 as Hpi. rewrite field_at_ok by (auto; lra). cbn [fst snd]. rewrite !Rplus_0_l.
  unfold fix_east. rewrite sin_0, Rabs_R0.
  destruct (Rltb_spec 0 (/ 10 ^ 10)) as [_|Hn]; [|exfalso; apply Hn; apply Rinv_0_lt_compat; apply pow_lt; lra].
  assert (E : H 1 1 0 0 = 0). { change (H 1 1 0 0) with (- G 1 1 0). unfold G. simpl. rewrite sin_0. ring. }
  unfold north_sum, radial_sum. rewrite !sum1. unfold nt, rt, Pt, Dt. rewrite E1, E2, E3, E4, E.
  change (schmidt_factor 1 0) with (sch 1 0). rewrite sch_0. unfold G. rewrite L_1_0, cos_0.
  change (INR 0) with 0. change (INR 1) with 1. rewrite !Rmult_0_l, cos_0, sin_0. f_equal. f_equal; [f_equal; ring|simpl; ring].
Qed.

(** [date] is an attribute that can be assigned, but the object keeps the coefficients of the first use: here the
    field of 2020 is returned for 2025. *)
Theorem C83_date_after_use_refuted : forall junk, exists file convert point d1 d2,
  let self := history file junk convert [Predict point; SetDate d2] (new d1 1 1) in
  i_date self = d2 /\
  snd (predict_method file junk convert point self) = Ok (Floats 0 0 0) /\
  snd (predict_method file junk convert point (new d2 1 1)) = Ok (Floats 0 0 2).
Proof.
  intros junk. destruct two_epochs_regular as [Hr Hs].
  set (convert := fun lat z : R => (lat, 6371200)).
  exists (Ok two_epochs), convert, (scalar 0, scalar 90, scalar 0), (Naive (Date 2020 0)), (Naive (Date 2025 0)).
  cbv zeta. split; [cbn [history fold_left act i_date]; reflexivity|].
  assert (Eval : forall self g h v u, u = 2 * v -> snd (coefficients_of (Ok two_epochs) self) = Ok (g, h) -> i_min self = 1%nat -> i_max self = 1%nat ->
    square 1 g -> square 1 h -> ent g 1 0 = v -> ent g 1 1 = 0 -> ent h 1 0 = 0 -> ent h 1 1 = 0 ->
    snd (predict_method (Ok two_epochs) junk convert (scalar 0, scalar 90, scalar 0) self) = Ok (Floats 0 0 u)).
  { intros self g h v u -> Ec M1 M2 Q1 Q2 E1 E2 E3 E4.
    pose proof (predict_method_same (Ok two_epochs) junk convert [] [0] [90] [0] self g h (fun _ => (0, 0, 2 * v)) eq_refl eq_refl eq_refl Ec) as M.
    unfold scalar. rewrite M; clear M.
    - cbn [prod_shape fold_right Nat.eqb nth]. unfold convert, vector_spherical_to_geodetic. cbn [fst snd].
      unfold radians. replace ((90 - 90) * PI / 180) with 0 by lra. rewrite cos_0, sin_0. f_equal. f_equal; ring.
    - intros i Hi. cbn [prod_shape fold_right] in Hi. replace i with 0%nat by lia. cbn [nth]. unfold convert, reference_radius. cbn [fst snd].
      unfold radians. replace ((90 - 90) * PI / 180) with 0 by lra. replace (0 * PI / 180) with 0 by lra. replace (6371200 / 6371200) with 1 by lra.
      rewrite M1. now apply dipole_at_pole. }
  destruct (C58_epoch_dates two_epochs 2020 2 2 1 0 Hr Hs ltac:(lia) ltac:(lia)) as (g0 & h0 & E0 & G0 & H0 & V0).
  destruct (C58_epoch_dates two_epochs 2020 2 2 1 1 Hr Hs ltac:(lia) ltac:(lia)) as (g1 & h1 & E1 & G1 & H1 & V1).
  change (2020 + 5 * Z.of_nat 0)%Z with 2020%Z in E0. change (2020 + 5 * Z.of_nat 1)%Z with 2025%Z in E1.
  destruct (V0 1%nat 0%nat ltac:(lia) ltac:(lia)) as [A1 A2]. destruct (V0 1%nat 1%nat ltac:(lia) ltac:(lia)) as [A3 A4].
  destruct (V1 1%nat 0%nat ltac:(lia) ltac:(lia)) as [B1 B2]. destruct (V1 1%nat 1%nat ltac:(lia) ltac:(lia)) as [B3 B4].
  cbn in A1, A2, A3, A4, B1, B2, B3, B4.
  assert (C0 : coefficients_of (Ok two_epochs) (new (Naive (Date 2020 0)) 1 1) = (IGRF (Naive (Date 2020 0)) 1 1 (Some (g0, h0)), Ok (g0, h0))).
  { unfold coefficients_of, new. cbn [cache i_date i_max i_min bind interpolate]. now rewrite E0. }
  split.
  - cbn [history fold_left act].
    assert (S : fst (predict_method (Ok two_epochs) junk convert (scalar 0, scalar 90, scalar 0) (new (Naive (Date 2020 0)) 1 1)) = IGRF (Naive (Date 2020 0)) 1 1 (Some (g0, h0))).
    { unfold predict_method. cbn [broadcast3 scalar shape rev bcast_rev ravel data]. rewrite C0. reflexivity. }
    rewrite S. apply (Eval _ g0 h0 0); auto; try ring.
  - apply (Eval _ g1 h1 1); auto; try ring.
Qed.
Print Assumptions C83_date_after_use_refuted.

(** *** A larger maximum degree *)
Lemma for_stops {I S} (P : S -> Prop) e (body : I -> S -> res S) l s x : P s ->
  (forall i s, In i l -> P s -> (exists s', body i s = Ok s' /\ P s') \/ body i s = Raise e) ->
  In x l -> (forall s, P s -> body x s = Raise e) -> for_ l body s = Raise e.
Proof.
  intros Hs Hb Hx He. revert s Hs. induction l as [|y l IH]; intros s Hs; [destruct Hx|]. cbn [for_].
  destruct Hx as [-> | Hx]; [now rewrite He|].
  destruct (Hb y s (or_introl eq_refl) Hs) as [(s' & -> & Hs')| ->]; [|reflexivity]. cbn [bind].
  apply IH; auto. intros i s0 Hi. apply Hb. now right.
Qed.

Lemma tset_shape p i j v p' : tset p i j v = Ok p' -> rows p' = rows p /\ cols p' = cols p.
Proof. unfold tset. destruct (in_shape p i j); [|discriminate]. intros E. injection E as <-. now split. Qed.

Lemma schmidt_too_small x N p : (1 <= rows p <= N)%nat -> cols p = rows p -> associated_legendre_schmidt x N p = Raise OutOfBounds.
Proof.
  intros HN Hsq. unfold associated_legendre_schmidt. cbv zeta.
  destruct (tset_in p 0 0 (1 * small)) as (p1 & E1 & R1 & C1 & _); [apply in_shape_true; lia|]. rewrite E1. cbn [bind].
  destruct (Nat.eq_dec (rows p) 1) as [Er|Er].
  { unfold tset at 1, in_shape. rewrite R1, Er. reflexivity. }
  destruct (tset_in p1 1 0 (x * small)) as (p2 & E2 & R2 & C2 & _); [apply in_shape_true; lia|]. rewrite E2. cbn [bind].
  rewrite tget_in by lia. cbn [bind].
  destruct (tset_in p2 1 1 (ent p2 0 0)) as (p3 & E3 & R3 & C3 & _); [apply in_shape_true; lia|]. rewrite E3. cbn [bind].
  match goal with |- context [for_ (range 2 (N + 1)) ?body p3] =>
    rewrite (for_stops (fun q => rows q = rows p /\ cols q = cols p) OutOfBounds body (range 2 (N + 1)) p3 (rows p)) end; [reflexivity|split; lia| | |].
  - intros n q Hn [Rq Cq]. apply in_seq in Hn. unfold sqrt_at.
    destruct (Nat.ltb_spec n (2 * (N + 1))); [|lia]. destruct (Nat.ltb_spec (n - 1) (2 * (N + 1))); [|lia]. cbn [bind].
    unfold tget. destruct (in_shape q (n - 1) 0); [|now right]. cbn [bind]. destruct (in_shape q (n - 2) 0); [|now right]. cbn [bind].
    match goal with |- context [tset q n 0 ?v] => destruct (tset q n 0 v) as [q'|e] eqn:Et end.
    + left. exists q'. split; [reflexivity|]. apply tset_shape in Et. lia.
    + right. unfold tset in Et. destruct (in_shape q n 0); [discriminate|]. now injection Et as <-.
  - apply in_seq. lia.
  - intros q [Rq Cq]. unfold sqrt_at.
    destruct (Nat.ltb_spec (rows p) (2 * (N + 1))); [|lia]. destruct (Nat.ltb_spec (rows p - 1) (2 * (N + 1))); [|lia]. cbn [bind].
    unfold tget. destruct (in_shape q (rows p - 1) 0); [|reflexivity]. cbn [bind]. destruct (in_shape q (rows p - 2) 0); [|reflexivity]. cbn [bind].
    unfold tset, in_shape. rewrite Rq, Nat.ltb_irrefl. reflexivity.
Qed.

(** Likewise [max_degree]: raised after the first use, the compiled loop works on arrays that are too small and writes
    outside them, while a new object gives the field. *)
Theorem C83_degree_after_use_refuted : forall c first k w junk convert d lo N N' lon lat z s,
  regular c first k -> shaped c k w -> (1 <= N < N')%nat -> (N' < w)%nat -> (first <= d_year d < first + 5 * Z.of_nat k)%Z ->
  (forall lat z, -90 <= fst (convert lat z) <= 90) ->
  length lon = prod_shape s -> length lat = prod_shape s -> length z = prod_shape s -> prod_shape s <> 0%nat ->
  let points := (Arr s lon, Arr s lat, Arr s z) in
  let self := history (Ok c) junk convert [Predict points; SetMax N'] (new (Naive d) lo N) in
  i_max self = N' /\
  snd (predict_method (Ok c) junk convert points self) = Raise OutOfBounds /\
  exists v, snd (predict_method (Ok c) junk convert points (new (Naive d) lo N')) = Ok v.
Proof.
  intros c first k w junk convert d lo N N' lon lat z s Hr Hs HN HN' Hd Hcv L1 L2 L3 Hn points self.
  split; [reflexivity|]. split.
  - destruct (interpolate_naive c first k w d lo N Hr Hs ltac:(lia) Hd) as (g & h & E & Q1 & Q2 & Ec).
    assert (Es : coefficients_of (Ok c) self = (self, Ok (g, h))).
    { unfold self, points. cbn [history fold_left act]. unfold predict_method. rewrite broadcast3_same by reflexivity. cbn [shape ravel data].
      rewrite broadcast_1d_same by congruence. unfold coefficients_of, new. cbn [cache i_date i_max i_min bind interpolate]. rewrite E. reflexivity. }
    unfold points, predict_method. rewrite broadcast3_same by reflexivity. cbn [shape ravel data]. rewrite broadcast_1d_same by congruence.
    rewrite Es. cbn [bind snd].
    replace (range 0 (length lon)) with (0%nat :: seq 1 (length lon - 1)).
    2:{ unfold range. rewrite Nat.sub_0_r. destruct (length lon) as [|m] eqn:El; [congruence|]. cbn [seq Nat.sub]. now rewrite Nat.sub_0_r. }
    cbn [each]. rewrite (aget_ok _ _ 0) by lia. cbn [bind].
    rewrite (aget_ok _ _ (0, 0)) by (rewrite map_length, combine_length; lia). cbn [bind].
    unfold field_at at 1, legendre_tables. destruct Q1 as [Q1 Q1']. replace (i_max self) with N' by reflexivity.
    rewrite schmidt_too_small; [reflexivity|cbn [rows]; lia|cbn [rows cols]; lia].
  - destruct (interpolate_naive c first k w d lo N' Hr Hs ltac:(lia) Hd) as (g & h & E & Q1 & Q2 & Ec).
    pose proof (fun F => predict_method_same (Ok c) junk convert s lon lat z (new (Naive d) lo N') g h F L1 L2 L3 Ec) as M.
    cbn [new i_min i_max] in M. specialize (M _ (fun i _ => field_at_ok junk _ _ _ g h lo N' (0, 0, 0) ltac:(lia) (colat_range _ (Hcv _ _)) Q1 Q2)).
    eexists. exact M.
Qed.
Print Assumptions C83_degree_after_use_refuted.

(** *** Dates with a time zone *)
(** Strings such as 2020-02-02T10:00:00+00:00 are dates in ISO format, as the documentation asks for, but every date
    within the years of the file that carries a time zone is refused. *)
Theorem C83_time_zone_refuted : forall c first k junk convert d offset lo N points,
  regular c first k -> (first <= d_year d < first + 5 * Z.of_nat k)%Z ->
  snd (coefficients_of (Ok c) (new (Aware d offset) lo N)) = Raise TypeError /\
  (forall s lon lat z, points = (Arr s lon, Arr s lat, Arr s z) -> length lat = length z ->
     snd (predict_method (Ok c) junk convert points (new (Aware d offset) lo N)) = Raise TypeError).
Proof.
  intros c first k junk convert d offset lo N points (Hy & Hk & Hf & Hl) Hd.
  assert (Hlast : List.last (c_years c) 0%Z = (first + 5 * Z.of_nat (k - 1))%Z) by (rewrite Hy; apply last_map_seq; exact Hk).
  assert (E : interpolate (Aware d offset) N c = Raise TypeError).
  { unfold interpolate. rewrite Hlast. destruct (c_years c) as [|y0 years] eqn:Ey.
    { destruct k; [lia|discriminate]. }
    assert (y0 = first). { destruct k; [lia|]. cbn in Hy. injection Hy as Hy _. lia. } subst y0.
    destruct (Z.ltb_spec (d_year d) first); [lia|]. destruct (Z.leb_spec (first + 5 * Z.of_nat (k - 1) + 5) (d_year d)); [lia|]. cbn [orb].
    rewrite Hy, nth_error_map.
    assert (Hi : (Z.to_nat ((d_year d - first) / 5) < k)%nat).
    { pose proof (Z.div_lt_upper_bound (d_year d - first) 5 (Z.of_nat k) ltac:(lia) ltac:(lia)). pose proof (Z.div_pos (d_year d - first) 5 ltac:(lia) ltac:(lia)). lia. }
    rewrite (nth_error_nth' _ 0%nat) by (now rewrite seq_length). rewrite seq_nth by exact Hi. cbn [option_map].
    unfold january_first. destruct (Z.leb_spec 1 (first + 5 * Z.of_nat (0 + Z.to_nat ((d_year d - first) / 5)))); [|lia].
    destruct (Z.leb_spec (first + 5 * Z.of_nat (0 + Z.to_nat ((d_year d - first) / 5))) 9999); [|lia]. reflexivity. }
  assert (Ec : coefficients_of (Ok c) (new (Aware d offset) lo N) = (new (Aware d offset) lo N, Raise TypeError)).
  { unfold coefficients_of, new. cbn [cache i_date i_max i_min bind]. now rewrite E. }
  split; [now rewrite Ec|]. intros s lon lat z -> El. unfold predict_method. rewrite broadcast3_same by reflexivity. cbn [shape ravel data].
  rewrite broadcast_1d_same by exact El. rewrite Ec. reflexivity.
Qed.
Print Assumptions C83_time_zone_refuted.

(** *** A maximum degree beyond the file *)
Lemma for_or {I S} (P : S -> Prop) e (body : I -> S -> res S) l s : P s ->
  (forall i s, In i l -> P s -> (exists s', body i s = Ok s' /\ P s') \/ body i s = Raise e) ->
  (exists s', for_ l body s = Ok s' /\ P s') \/ for_ l body s = Raise e.
Proof.
  revert s. induction l as [|y l IH]; intros s Hs Hb; [left; now exists s|]. cbn [for_].
  destruct (Hb y s (or_introl eq_refl) Hs) as [(s' & -> & Hs')| ->]; [|now right]. cbn [bind].
  apply IH; [exact Hs'|]. intros i s0 Hi. apply Hb. now right.
Qed.

(** A maximum degree above the degree of the coefficients in the file is refused with an IndexError: nothing is
    truncated silently. *)
Theorem C83_degree_beyond_the_file : forall c first k w junk convert d lo N s lon lat z,
  regular c first k -> shaped c k w -> (w <= N)%nat -> (1 <= w)%nat -> (first <= d_year d < first + 5 * Z.of_nat k)%Z ->
  length lat = length z ->
  snd (predict_method (Ok c) junk convert (Arr s lon, Arr s lat, Arr s z) (new (Naive d) lo N)) = Raise IndexError.
Proof.
  intros c first k w junk convert d lo N s lon lat z (Hy & Hk & Hf & Hl) (S1 & S2 & S3 & S4 & S5 & S6 & S7 & S8) HN Hw Hd El.
  assert (Hlast : List.last (c_years c) 0%Z = (first + 5 * Z.of_nat (k - 1))%Z) by (rewrite Hy; apply last_map_seq; exact Hk).
  assert (E : interpolate_coefficients d N c = Raise IndexError).
  { unfold interpolate_coefficients. rewrite Hlast. destruct (c_years c) as [|y0 years] eqn:Ey.
    { destruct k; [lia|discriminate]. }
    assert (y0 = first). { destruct k; [lia|]. cbn in Hy. injection Hy as Hy _. lia. } subst y0.
    destruct (Z.ltb_spec (d_year d) first); [lia|]. destruct (Z.leb_spec (first + 5 * Z.of_nat (k - 1) + 5) (d_year d)); [lia|]. cbn [orb].
    rewrite Hy, nth_error_map.
    assert (Hi : (Z.to_nat ((d_year d - first) / 5) < k)%nat).
    { pose proof (Z.div_lt_upper_bound (d_year d - first) 5 (Z.of_nat k) ltac:(lia) ltac:(lia)). pose proof (Z.div_pos (d_year d - first) 5 ltac:(lia) ltac:(lia)). lia. }
    rewrite (nth_error_nth' _ 0%nat) by (now rewrite seq_length). rewrite seq_nth by exact Hi. cbn [option_map bind].
    set (i := Z.to_nat ((d_year d - first) / 5)) in *. clearbody i.
    unfold january_first. destruct (Z.leb_spec 1 (first + 5 * Z.of_nat (0 + i))); [|lia].
    destruct (Z.leb_spec (first + 5 * Z.of_nat (0 + i)) 9999); [|lia]. cbn [andb bind].
    destruct (Z.leb_spec 1 (first + 5 * Z.of_nat (0 + i) + 5)); [|lia].
    destruct (Z.leb_spec (first + 5 * Z.of_nat (0 + i) + 5) 9999); [|lia]. cbn [andb bind].
    rewrite map_length, seq_length.
    assert (Step : forall (b1 b2 : R) n m (acc : table * table),
      (exists r, (let (g_date, h_date) := acc in
          do (variation_g, variation_h) <-
            (if Nat.leb (k - 1) i then
               do a <- svget (c_gsv c) n m; do b <- svget (c_hsv c) n m; Ok (a / b1, b / b1)
             else
               do g1 <- cget (c_g c) (i + 1) n m; do g0 <- cget (c_g c) i n m;
               do h1 <- cget (c_h c) (i + 1) n m; do h0 <- cget (c_h c) i n m;
               Ok ((g1 - g0) / b2, (h1 - h0) / b2));
          do g0 <- cget (c_g c) i n m;
          do g_date <- sv_set g_date n m (g0 + total_seconds d (Date (first + 5 * Z.of_nat (0 + i)) 0) * variation_g);
          do h0 <- cget (c_h c) i n m;
          do h_date <- sv_set h_date n m (h0 + total_seconds d (Date (first + 5 * Z.of_nat (0 + i)) 0) * variation_h);
          Ok (g_date, h_date)) = r /\ (w <= n -> r = Raise IndexError)%nat /\ ((exists st, r = Ok st) \/ r = Raise IndexError))).
    { intros b1 b2 n m [gd hd]. eexists; split; [reflexivity|].
      unfold svget, cget, sv_set, in_shape. rewrite S1, S2, S3, S4, S5, S6, S7, S8.
      destruct (Nat.ltb_spec n w) as [Hn|Hn].
      - split; [intros; lia|]. destruct (Nat.leb (k - 1) i), (Nat.ltb m w); cbn [andb bind]; rewrite ?andb_false_r; cbn [andb bind]; auto;
          repeat match goal with |- context [if ?b then _ else _] => destruct b; cbn [andb bind] end; auto; left; eexists; reflexivity.
      - destruct (Nat.leb (k - 1) i); cbn [andb bind]; rewrite ?andb_false_r; cbn [andb bind]; auto. }
    match goal with |- for_ _ ?body ?s0 = _ =>
      apply (for_stops (fun _ => True) IndexError body (range 1 (N + 1)) s0 w) end; auto.
    - intros n st _ _. match goal with |- context [for_ ?l ?body ?s0] => destruct (for_or (fun _ => True) IndexError body l s0 I) as [(s' & E1 & _)|E1] end.
      + intros m st' _ _. destruct (Step (365.25 * 24 * 60 * 60) (total_seconds (Date (first + 5 * Z.of_nat (0 + i) + 5) 0) (Date (first + 5 * Z.of_nat (0 + i)) 0)) n m st') as (r & Er & _ & [(x & ->)| ->]);
          [left; exists x; split; [exact Er|exact I]|right; exact Er].
      + left. exists s'. auto.
      + now right.
    - unfold range. apply in_seq. lia.
    - intros st _. match goal with |- for_ ?l ?body ?s0 = _ => apply (for_stops (fun _ => True) IndexError body l s0 0%nat I) end.
      + intros m st' _ _. right. destruct (Step (365.25 * 24 * 60 * 60) (total_seconds (Date (first + 5 * Z.of_nat (0 + i) + 5) 0) (Date (first + 5 * Z.of_nat (0 + i)) 0)) w m st') as (r & Er & Hov & _).
        rewrite (Hov (le_n _)) in Er. exact Er.
      + unfold range. apply in_seq. lia.
      + intros st' _. destruct (Step (365.25 * 24 * 60 * 60) (total_seconds (Date (first + 5 * Z.of_nat (0 + i) + 5) 0) (Date (first + 5 * Z.of_nat (0 + i)) 0)) w 0%nat st') as (r & Er & Hov & _).
        rewrite (Hov (le_n _)) in Er. exact Er. }
  unfold predict_method. rewrite broadcast3_same by reflexivity. cbn [shape ravel data]. rewrite broadcast_1d_same by exact El.
  unfold coefficients_of, new. cbn [cache i_date i_max i_min bind interpolate]. rewrite E. reflexivity.
Qed.
Print Assumptions C83_degree_beyond_the_file.

(** An object whose date is assigned before its first use, with a refused request and a change of the minimum degree in
    between. *)
Example C83_ex : forall z,
  let settings := [SetDate (Naive (Date 2022 0))] in
  let calls := [Predict (arr1 [1; 2], arr1 [1; 2; 3], scalar 0); GetCoefficients; SetMin 0; MakeGrid [0] [0] z] in
  Forall assignment settings /\ Forall harmless calls /\
  cache (history (Ok two_epochs) (fun _ _ => 0) (fun lat z => (lat, 6371200 + z)) (settings ++ calls) (new (Naive (Date 2020 0)) 1 1)) <> None.
Proof.
  intros z settings calls. split; [repeat constructor|]. split; [repeat constructor|]. destruct two_epochs_regular as [Hr Hs].
  destruct (interpolate_naive two_epochs 2020 2 2 (Date 2022 0) 1 1 Hr Hs ltac:(lia) ltac:(cbn [d_year]; lia)) as (g & h & E & _ & _ & _).
  unfold settings, calls. cbn [app history fold_left act]. unfold grid_method, predict_method. cbn [broadcast3 arr1 scalar shape rev app length bcast_rev Nat.eqb].
  unfold coefficients_of, new. cbn [cache i_date i_max i_min bind interpolate fst]. rewrite E. cbn [cache i_date i_max i_min fst]. discriminate.
Qed.
