From Coq Require Import Permutation.
From Verif Require Import Base BaseFacts NumPy NumPyFacts DistanceModel PointGravityModel PointGravitySpec PointGravityProofs
  TesseroidModel TesseroidProofs PrismModel PrismSpec PrismProofs MagneticProofs PrismFieldProofs LayerModel LayerSpec.
Local Open Scope string_scope. Local Open Scope list_scope. Local Open Scope R_scope.

(** ** Regular grids *)
Lemma nth_diffs x : forall j, (S j < length x)%nat -> nth j (diffs x) 0 = xat x (S j) - xat x j.
Proof.
  unfold diffs, xat. induction x as [|a [|b x] IH]; intros j H; cbn [length] in H; try lia. destruct j; [reflexivity|].
  specialize (IH j ltac:(cbn [length]; lia)). cbn [tl] in *. exact IH.
Qed.
Lemma length_diffs x : length (diffs x) = (length x - 1)%nat.
Proof. unfold diffs. rewrite map_length, combine_length. destruct x; cbn [tl length]; lia. Qed.

Lemma step_ok x : (2 <= length x)%nat -> step x = Ok (first_step x).
Proof. destruct x as [|a [|b x]]; cbn [length]; intros; try lia. reflexivity. Qed.
Lemma step_short x : (length x < 2)%nat -> step x = Raise IndexError.
Proof. destruct x as [|a [|b x]]; cbn [length]; intros; try lia; reflexivity. Qed.

Lemma allclose1_spec a b : allclose1 a b = true <-> forall j, (j < length b)%nat -> Rabs (a - nth j b 0) <= 1 / 10 ^ 8 + 1 / 10 ^ 5 * Rabs (nth j b 0).
Proof.
  unfold allclose1. rewrite forallb_forall. split.
  - intros H j Hj. apply Rleb_true. apply H. now apply nth_In.
  - intros H y Hy. apply Rleb_true. destruct (In_nth _ _ 0 Hy) as (j & Hj & <-). now apply H.
Qed.
Lemma regular_spec x : (2 <= length x)%nat -> allclose1 (first_step x) (diffs x) = true <-> regular x.
Proof.
  intros L. rewrite allclose1_spec, length_diffs. unfold regular. split.
  - intros H. split; [assumption|]. intros j Hj. specialize (H j). rewrite nth_diffs in H by assumption. apply H. lia.
  - intros [_ H] j Hj. rewrite nth_diffs by lia. apply H. lia.
Qed.

Lemma check_regular_ok x y : check_regular_grid x y = Ok tt <-> regular x /\ regular y.
Proof.
  unfold check_regular_grid. destruct (Nat.lt_ge_cases (length x) 2) as [Lx|Lx].
  { rewrite step_short by assumption. cbn [bind]. split; [discriminate|]. intros [[H _] _]. lia. }
  rewrite step_ok by assumption. cbn [bind]. destruct (allclose1 (first_step x) (diffs x)) eqn:E; cbn [negb].
  2: { split; [discriminate|]. intros [H _]. apply regular_spec in H; congruence. }
  apply regular_spec in E; [|assumption].
  destruct (Nat.lt_ge_cases (length y) 2) as [Ly|Ly].
  { rewrite step_short by assumption. cbn [bind]. split; [discriminate|]. intros [_ [H _]]. lia. }
  rewrite step_ok by assumption. cbn [bind]. destruct (allclose1 (first_step y) (diffs y)) eqn:E2; cbn [negb].
  2: { split; [discriminate|]. intros [_ H]. apply regular_spec in H; congruence. }
  apply regular_spec in E2; [|assumption]. tauto.
Qed.
Lemma check_regular_unit x y : check_regular_grid x y = Ok tt \/ exists e, check_regular_grid x y = Raise e /\ (e = ValueError \/ e = IndexError).
Proof.
  unfold check_regular_grid. destruct x as [|a [|b x]]; cbn [step bind]; eauto. destruct (negb _); eauto. destruct y as [|c [|d y]]; cbn [step bind]; eauto. destruct (negb _); eauto.
Qed.
Lemma spacing_ok x y : regular x -> regular y -> spacing x y = Ok (first_step y, first_step x).
Proof.
  intros Hx Hy. unfold spacing. rewrite (proj2 (check_regular_ok x y)) by auto. cbn [bind].
  rewrite !step_ok by (apply Hx || apply Hy). reflexivity.
Qed.

(** ** Flattening *)
Lemma nth_map_range {A} (f : nat -> A) n i d : (i < n)%nat -> nth i (map f (range 0 n)) d = f i.
Proof.
  intros H. unfold range. rewrite Nat.sub_0_r. rewrite (nth_indep _ d (f 0%nat)) by (now rewrite map_length, seq_length). rewrite map_nth, seq_nth by assumption. reflexivity.
Qed.
Lemma list_as_range {A} (l : list A) d : l = map (fun i => nth i l d) (range 0 (length l)).
Proof.
  apply (nth_ext _ _ d d); [unfold range; now rewrite map_length, seq_length, Nat.sub_0_r|]. intros i Hi. now rewrite nth_map_range.
Qed.
Lemma ravel2_elt g n m : shaped g n m -> ravel2 g = map (fun kj => elt g (fst kj) (snd kj)) (flat_map (fun k => map (fun j => (k, j)) (range 0 m)) (range 0 n)).
Proof.
  intros [L H]. subst n. unfold ravel2, range. rewrite !Nat.sub_0_r.
  enough (K : forall pre post, g = pre ++ post -> concat post = map (fun kj => elt g (fst kj) (snd kj)) (flat_map (fun k => map (fun j => (k, j)) (seq 0 m)) (seq (length pre) (length post))))
    by (apply (K []); reflexivity).
  intros pre post. revert pre. induction post as [|row post IH]; intros pre E; cbn [concat length seq flat_map map]; [reflexivity|].
  rewrite map_app. f_equal.
  - rewrite map_map. cbn [fst snd]. unfold elt. rewrite E, app_nth2, Nat.sub_diag by lia. cbn [nth].
    assert (Lr : length row = m) by (apply H; rewrite E; apply in_or_app; simpl; auto). subst m.
    clear. rewrite (list_as_range row NaN) at 1. unfold range. rewrite Nat.sub_0_r. reflexivity.
  - replace (S (length pre)) with (length (pre ++ [row])) by (rewrite app_length; simpl; lia). apply IH. now rewrite <- app_assoc.
Qed.

Lemma meshgrid_nodes l : meshgrid_ravel (Lx l) (Ly l) = map (fun kj => (xat (Lx l) (snd kj), xat (Ly l) (fst kj))) (nodes l).
Proof.
  unfold meshgrid_ravel, nodes. rewrite (list_as_range (Ly l) 0) at 1. rewrite flat_map_concat_map, map_map, <- flat_map_concat_map.
  rewrite flat_map_concat_map, flat_map_concat_map, concat_map, map_map. f_equal. apply map_ext. intros k. rewrite map_map. cbn [fst snd].
  rewrite (list_as_range (Lx l) 0) at 1. rewrite map_map. reflexivity.
Qed.

Lemma map2_map {A B C D} (f : B -> C -> D) (g : A -> B) (h : A -> C) l : map2 f (map g l) (map h l) = map (fun x => f (g x) (h x)) l.
Proof. unfold map2. induction l as [|x l IH]; [reflexivity|]. cbn. now f_equal. Qed.
Lemma combine_map {A B C} (g : A -> B) (h : A -> C) l : combine (map g l) (map h l) = map (fun x => (g x, h x)) l.
Proof. induction l as [|x l IH]; [reflexivity|]. cbn. now f_equal. Qed.

Lemma to_cells_ok l : regular (Lx l) -> regular (Ly l) -> wf_layer l ->
  to_cells l = Ok (map (fun kj => cell_at l (fst kj) (snd kj)) (nodes l)).
Proof.
  intros Rx Ry (Wt & Wb & _). unfold to_cells. rewrite spacing_ok by assumption. cbn [bind].
  rewrite (ravel2_elt _ _ _ Wt), (ravel2_elt _ _ _ Wb). fold (nodes l). rewrite meshgrid_nodes. rewrite !map_length, Nat.eqb_refl. cbn [andb].
  rewrite combine_map, map2_map. reflexivity.
Qed.

Lemma nodes_nth l k j : node l k j -> nth (k * length (Lx l) + j) (nodes l) (0%nat, 0%nat) = (k, j).
Proof.
  intros [Hk Hj]. unfold nodes. set (m := length (Lx l)) in *. set (n := length (Ly l)) in *. clearbody m n. unfold range. rewrite !Nat.sub_0_r.
  enough (K : forall a, nth (k * m + j) (flat_map (fun k0 => map (fun j0 => (k0, j0)) (seq 0 m)) (seq a n)) (0%nat, 0%nat) = ((a + k)%nat, j)) by (apply (K 0%nat)).
  revert k Hk. induction n as [|n IH]; intros k Hk a; [lia|]. cbn [seq flat_map]. destruct k as [|k].
  - rewrite app_nth1 by (rewrite map_length, seq_length; lia). cbn [Nat.mul Nat.add].
    rewrite (nth_indep _ (0%nat, 0%nat) ((fun j0 => (a, j0)) 0%nat)) by (rewrite map_length, seq_length; lia). rewrite map_nth, seq_nth by assumption. f_equal. lia.
  - rewrite app_nth2 by (rewrite map_length, seq_length; lia). rewrite map_length, seq_length.
    replace (S k * m + j - m)%nat with (k * m + j)%nat by lia. rewrite IH by lia. f_equal. lia.
Qed.
Lemma nodes_length l : length (nodes l) = (length (Ly l) * length (Lx l))%nat.
Proof.
  unfold nodes, range. rewrite !Nat.sub_0_r. generalize (length (Ly l)) (length (Lx l)). intros n m. generalize 0%nat at 2. induction n as [|n IH]; intros a; [reflexivity|].
  cbn [seq flat_map]. rewrite app_length, map_length, seq_length, IH. reflexivity.
Qed.
Lemma nodes_in l k j : In (k, j) (nodes l) <-> node l k j.
Proof.
  unfold nodes, node. rewrite in_flat_map. split.
  - intros (k' & Hk & H). apply in_map_iff in H. destruct H as (j' & [= -> ->] & Hj). apply range_in in Hk. apply range_in in Hj. lia.
  - intros [Hk Hj]. exists k. split; [apply range_in; lia|]. apply in_map_iff. exists j. split; [reflexivity|apply range_in; lia].
Qed.

Lemma np_get_ok {A} (l : list A) i d : (i < length l)%nat -> np_get l i = Ok (nth i l d).
Proof. intros H. unfold np_get. now rewrite (nth_error_nth' l d H). Qed.

Lemma get_cell_ok l k j : regular (Lx l) -> regular (Ly l) -> wf_layer l -> node l k j -> get_cell l (k, j) = Ok (cell_at l k j).
Proof.
  intros Rx Ry (Wt & Wb & _) [Hk Hj]. unfold get_cell. cbn [fst snd]. rewrite (np_get_ok _ _ 0) by assumption. rewrite (np_get_ok _ _ 0) by assumption. cbn [bind].
  rewrite spacing_ok by assumption. cbn [bind]. destruct Wt as [Lt Wt], Wb as [Lb Wb].
  rewrite (np_get_ok (Lbottom l) k []) by lia. cbn [bind]. rewrite (np_get_ok (nth k (Lbottom l) []) j NaN) by (rewrite Wb; [assumption|apply nth_In; lia]). cbn [bind].
  rewrite (np_get_ok (Ltop l) k []) by lia. cbn [bind]. rewrite (np_get_ok (nth k (Ltop l) []) j NaN) by (rewrite Wt; [assumption|apply nth_In; lia]). reflexivity.
Qed.

(** ** update_top_bottom *)
Lemma has_shape_spec {A} (g : list (list A)) n m : has_shape g n m = true <-> shaped g n m.
Proof.
  unfold has_shape, shaped. rewrite andb_true_iff, Nat.eqb_eq, forallb_forall. split; intros [H1 H2]; (split; [assumption|]); intros row Hr; specialize (H2 row Hr); now apply Nat.eqb_eq.
Qed.
Lemma shaped_repeat {A} (x : A) n m : shaped (repeat (repeat x m) n) n m.
Proof. split; [apply repeat_length|]. intros row H. apply repeat_spec in H. subst. apply repeat_length. Qed.

Lemma map2_nth {A B C} (f : A -> B -> C) a b i da db dc : (i < length a)%nat -> (i < length b)%nat -> nth i (map2 f a b) dc = f (nth i a da) (nth i b db).
Proof.
  intros Ha Hb. unfold map2. rewrite (nth_indep _ dc ((fun ab => f (fst ab) (snd ab)) (da, db))) by (rewrite map_length, combine_length; lia).
  rewrite (map_nth (fun ab => f (fst ab) (snd ab))). revert b i Ha Hb. induction a as [|x a IH]; intros [|y b] [|i] Ha Hb; cbn [length] in *; try lia; cbn; [reflexivity|]. apply IH; lia.
Qed.
Lemma map2_shaped (f : num -> num -> num) a b n m : shaped a n m -> shaped b n m -> shaped (map2 (map2 f) a b) n m.
Proof.
  intros [La Ha] [Lb Hb]. split; [unfold map2; rewrite map_length, combine_length; lia|]. intros row H. unfold map2 in H at 1. apply in_map_iff in H.
  destruct H as ([r1 r2] & <- & H). pose proof (in_combine_l _ _ _ _ H) as H1. pose proof (in_combine_r _ _ _ _ H) as H2.
  unfold map2. cbn [fst snd]. rewrite map_length, combine_length, (Ha r1 H1), (Hb r2 H2). lia.
Qed.
Lemma map2_elt (f : num -> num -> num) a b n m k j : shaped a n m -> shaped b n m -> (k < n)%nat -> (j < m)%nat -> elt (map2 (map2 f) a b) k j = f (elt a k j) (elt b k j).
Proof.
  intros [La Ha] [Lb Hb] Hk Hj. unfold elt. rewrite (map2_nth (map2 f) a b k [] [] []) by lia.
  apply map2_nth; [rewrite Ha; [assumption|apply nth_In; lia]|rewrite Hb; [assumption|apply nth_In; lia]].
Qed.

Definition shapes_ok (l : layer) (surface : array2) (reference : reference_arg) : Prop :=
  shaped (rows surface) (length (Ly l)) (length (Lx l)) /\ shaped (rows (reference_rows l reference)) (length (Ly l)) (length (Lx l)).

Lemma update_ok l surface reference : shapes_ok l surface reference ->
  let r := reference_rows l reference in
  update_top_bottom l surface reference
  = Ok (Layer (Lx l) (Ly l) (map2 (map2 (top_cell (kind surface))) (rows surface) (rows r)) (map2 (map2 (bottom_cell (kind r))) (rows surface) (rows r)) (Lvars l)).
Proof.
  intros [Hs Hr]. unfold update_top_bottom. apply has_shape_spec in Hs. rewrite Hs. cbn [negb]. destruct reference as [x|a]; cbn [reference_rows] in *; [reflexivity|].
  apply has_shape_spec in Hr. rewrite Hr. reflexivity.
Qed.
Lemma update_bad l surface reference : ~ shapes_ok l surface reference -> update_top_bottom l surface reference = Raise ValueError.
Proof.
  intros H. unfold update_top_bottom. destruct (has_shape (rows surface) _ _) eqn:E; cbn [negb]; [|reflexivity]. apply has_shape_spec in E.
  destruct reference as [x|a]; cbn [bind].
  - exfalso. apply H. split; [assumption|]. apply shaped_repeat.
  - destruct (has_shape (rows a) _ _) eqn:E2; cbn [negb]; [|reflexivity]. exfalso. apply H. split; [assumption|]. now apply has_shape_spec.
Qed.

Lemma Int_part_IZR z : Int_part (IZR z) = z.
Proof. unfold Int_part. rewrite <- (tech_up (IZR z) (z + 1)); [lia|rewrite plus_IZR; lra|rewrite plus_IZR; lra]. Qed.
Lemma trunc_int z : trunc (IZR z) = IZR z.
Proof. unfold trunc. destruct (Rleb 0 (IZR z)); [now rewrite Int_part_IZR|]. rewrite <- (opp_IZR z), Int_part_IZR, opp_IZR. ring. Qed.
Lemma cast_storable d x : storable d x -> cast d (Fin x) = Fin x.
Proof. destruct d; cbn; [|reflexivity]. intros [H|[z ->]]; [discriminate|]. now rewrite trunc_int. Qed.

Lemma top_cell_max d s r : storable d r -> top_cell d (Fin s) (Fin r) = Fin (Rmax s r).
Proof. intros H. unfold top_cell. cbn [nltb]. destruct (Rltb_spec s r); [rewrite cast_storable by assumption; rewrite Rmax_right by lra; reflexivity|now rewrite Rmax_left by lra]. Qed.
Lemma bottom_cell_min d s r : storable d s -> bottom_cell d (Fin s) (Fin r) = Fin (Rmin s r).
Proof. intros H. unfold bottom_cell. cbn [nltb]. destruct (Rltb_spec s r); [rewrite cast_storable by assumption; rewrite Rmin_left by lra; reflexivity|now rewrite Rmin_right by lra]. Qed.
Lemma cells_nan d d' s r : isnan s = true \/ isnan r = true -> top_cell d s r = s /\ bottom_cell d' s r = r.
Proof. unfold top_cell, bottom_cell. destruct s, r; cbn; intros [H|H]; try discriminate; auto. Qed.

(** ** Even axes *)
Lemma even_length x0 s n : length (even_axis x0 s n) = n.
Proof. unfold even_axis, range. now rewrite map_length, seq_length, Nat.sub_0_r. Qed.
Lemma even_nth x0 s n j : (j < n)%nat -> xat (even_axis x0 s n) j = x0 + INR j * s.
Proof. intros H. unfold xat, even_axis. now rewrite nth_map_range. Qed.
Lemma even_step x0 s n : (2 <= n)%nat -> first_step (even_axis x0 s n) = s.
Proof. intros H. unfold first_step. rewrite !even_nth by lia. cbn [INR]. ring. Qed.
Lemma even_regular x0 s n : (2 <= n)%nat -> regular (even_axis x0 s n).
Proof.
  intros H. split; [now rewrite even_length|]. rewrite even_length. intros j Hj. rewrite even_step, !even_nth by lia. rewrite S_INR.
  replace (x0 + (INR j + 1) * s - (x0 + INR j * s)) with s by ring. replace (s - s) with 0 by ring. rewrite Rabs_R0. pose proof (Rabs_pos s). nra.
Qed.

Lemma fold_min_spec l : forall a, (forall x, In x l -> fold_left Rmin l a <= x) /\ fold_left Rmin l a <= a /\ (fold_left Rmin l a = a \/ In (fold_left Rmin l a) l).
Proof.
  induction l as [|y l IH]; intros a; cbn [fold_left].
  - split; [intros x []|]. split; [lra|auto].
  - destruct (IH (Rmin a y)) as (H1 & H2 & H3). pose proof (Rmin_l a y). pose proof (Rmin_r a y). split; [|split].
    + intros x [<-|Hx]; [lra|auto].
    + lra.
    + destruct H3 as [H3|H3]; [|right; now right]. rewrite H3. unfold Rmin. destruct (Rle_dec a y); [now left|right; now left].
Qed.
Lemma fold_max_spec l : forall a, (forall x, In x l -> x <= fold_left Rmax l a) /\ a <= fold_left Rmax l a /\ (fold_left Rmax l a = a \/ In (fold_left Rmax l a) l).
Proof.
  induction l as [|y l IH]; intros a; cbn [fold_left].
  - split; [intros x []|]. split; [lra|auto].
  - destruct (IH (Rmax a y)) as (H1 & H2 & H3). pose proof (Rmax_l a y). pose proof (Rmax_r a y). split; [|split].
    + intros x [<-|Hx]; [lra|auto].
    + lra.
    + destruct H3 as [H3|H3]; [|right; now right]. rewrite H3. unfold Rmax. destruct (Rle_dec a y); [right; now left|now left].
Qed.
Lemma list_min_spec l : l <> [] -> In (list_min l) l /\ forall x, In x l -> list_min l <= x.
Proof.
  destruct l as [|a l]; [congruence|]. intros _. unfold list_min. cbn [tl hd]. destruct (fold_min_spec l a) as (H1 & H2 & H3). split.
  - destruct H3 as [H3|H3]; [rewrite H3; now left|now right].
  - intros x [<-|Hx]; [assumption|auto].
Qed.
Lemma list_max_spec l : l <> [] -> In (list_max l) l /\ forall x, In x l -> x <= list_max l.
Proof.
  destruct l as [|a l]; [congruence|]. intros _. unfold list_max. cbn [tl hd]. destruct (fold_max_spec l a) as (H1 & H2 & H3). split.
  - destruct H3 as [H3|H3]; [rewrite H3; now left|now right].
  - intros x [<-|Hx]; [assumption|auto].
Qed.
Lemma even_in x0 s n x : In x (even_axis x0 s n) <-> exists j, (j < n)%nat /\ x = x0 + INR j * s.
Proof.
  unfold even_axis. rewrite in_map_iff. split; intros (j & H1 & H2).
  - apply range_in in H2. exists j. split; [lia|auto].
  - exists j. split; [auto|apply range_in; lia].
Qed.
Lemma INR_bounds j n : (j < n)%nat -> 0 <= INR j <= INR n - 1.
Proof. intros H. split; [apply pos_INR|]. replace (INR n - 1) with (INR (n - 1)) by (rewrite minus_INR by lia; reflexivity). apply le_INR. lia. Qed.
Lemma even_min x0 s n : (1 <= n)%nat -> 0 <= s -> list_min (even_axis x0 s n) = x0.
Proof.
  intros Hn Hs. destruct (list_min_spec (even_axis x0 s n)) as [H1 H2]; [intros E; apply (f_equal (@length R)) in E; rewrite even_length in E; cbn in E; lia|].
  apply Rle_antisym.
  - apply H2, even_in. exists 0%nat. split; [lia|]. cbn. ring.
  - apply even_in in H1. destruct H1 as (j & Hj & ->). pose proof (pos_INR j). nra.
Qed.
Lemma even_max x0 s n : (1 <= n)%nat -> 0 <= s -> list_max (even_axis x0 s n) = x0 + (INR n - 1) * s.
Proof.
  intros Hn Hs. destruct (list_max_spec (even_axis x0 s n)) as [H1 H2]; [intros E; apply (f_equal (@length R)) in E; rewrite even_length in E; cbn in E; lia|].
  apply Rle_antisym.
  - apply even_in in H1. destruct H1 as (j & Hj & ->). pose proof (INR_bounds j n Hj). nra.
  - apply H2, even_in. exists (n - 1)%nat. split; [lia|]. rewrite minus_INR by lia. cbn. ring.
Qed.
(** every point of the span is in some interval, intervals do not overlap *)
Lemma even_cover s n u : 0 < s -> (1 <= n)%nat -> - s / 2 <= u <= (INR n - 1) * s + s / 2 -> exists j, (j < n)%nat /\ INR j * s - s / 2 <= u <= INR j * s + s / 2.
Proof.
  intros Hs Hn Hu. induction n as [|n IH]; [lia|]. destruct n as [|n].
  - exists 0%nat. split; [lia|]. cbn in *. lra.
  - rewrite S_INR in Hu. destruct (Rle_lt_dec u (INR n * s + s / 2)) as [H|H].
    + destruct IH as (j & Hj & Hx); [lia|rewrite S_INR; replace (INR n + 1 - 1) with (INR n) by ring; lra|]. exists j. split; [lia|assumption].
    + exists (S n). split; [lia|]. rewrite S_INR in *. lra.
Qed.
Lemma even_disjoint s j j' u : 0 < s -> INR j * s - s / 2 < u < INR j * s + s / 2 -> INR j' * s - s / 2 < u < INR j' * s + s / 2 -> j = j'.
Proof.
  intros Hs H1 H2. destruct (Nat.lt_trichotomy j j') as [H|[H|H]]; [|assumption|].
  - assert (INR j + 1 <= INR j') by (rewrite <- S_INR; apply le_INR; lia). nra.
  - assert (INR j' + 1 <= INR j) by (rewrite <- S_INR; apply le_INR; lia). nra.
Qed.
