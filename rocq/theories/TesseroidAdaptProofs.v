From Coq Require Import Permutation.
From Verif Require Import Base BaseFacts NumPy NumPyFacts DistanceModel DistanceSpec DistanceProofs PointGravityModel PointGravitySpec PointGravityProofs
  TesseroidModel TesseroidSpec TesseroidCheckProofs.

(** ** Tilings *)
Definition apart (x y : tess) : Prop := forall p, ~ (in_open x p /\ in_open y p).
Lemma apart_sym x y : apart x y -> apart y x.
Proof. intros H p [A B]. apply (H p). auto. Qed.

Lemma open_closed t p : in_open t p -> in_closed t p.
Proof. destruct p as [[a b] c]; unfold in_open, in_closed; intros; lra. Qed.

Lemma open_inside x t : (forall p, in_closed x p -> in_closed t p) -> forall p, in_open x p -> in_open t p.
Proof.
  intros H [[a b] c] P. cbn in P.
  pose proof (H (west x, south x, bottom x)) as H1. pose proof (H (east x, north x, top x)) as H2. cbn in *.
  specialize (H1 ltac:(lra)). specialize (H2 ltac:(lra)). lra.
Qed.

Lemma FOP_perm {A} (R : A -> A -> Prop) l1 l2 : (forall x y, R x y -> R y x) ->
  Permutation l1 l2 -> ForallOrdPairs R l1 -> ForallOrdPairs R l2.
Proof.
  intros Hs HP. induction HP; intros H; auto.
  - inversion H; subst. constructor; auto. eapply Permutation_Forall; eassumption.
  - inversion H as [|? ? H1 H2]; subst. inversion H1; subst. inversion H2; subst.
    repeat constructor; auto.
Qed.

Lemma FOP_app {A} (R : A -> A -> Prop) l1 l2 :
  ForallOrdPairs R (l1 ++ l2) <->
  ForallOrdPairs R l1 /\ ForallOrdPairs R l2 /\ (forall x y, In x l1 -> In y l2 -> R x y).
Proof.
  induction l1 as [|a l1 IH]; simpl.
  - split; [intros H; repeat split; auto; try constructor; intros ? ? []|tauto].
  - split.
    + inversion 1; subst. apply IH in H3. destruct H3 as (H3 & H4 & H5). apply Forall_app in H2. destruct H2 as [H2 H6].
      repeat split; auto; [constructor; auto|].
      intros x y [<-|Hx] Hy; [rewrite Forall_forall in H6; auto|auto].
    + intros (H1 & H2 & H3). inversion H1; subst. constructor.
      * apply Forall_app; split; auto. apply Forall_forall; intros y Hy. apply H3; auto.
      * apply IH. repeat split; auto.
Qed.

Lemma tiles_perm l1 l2 t : Permutation l1 l2 -> tiles l1 t -> tiles l2 t.
Proof.
  intros HP [C I D V]. constructor.
  - intros p Hp. destruct (C p Hp) as (x & Hx & Hi). exists x; split; [eapply Permutation_in; eassumption|exact Hi].
  - intros x p Hx. apply I. eapply Permutation_in; [apply Permutation_sym; eassumption|exact Hx].
  - eapply FOP_perm; [apply apart_sym|eassumption|exact D].
  - rewrite <- V. symmetry. now apply sum_over_perm.
Qed.

Lemma tiles_refl t : tiles [t] t.
Proof.
  constructor.
  - intros p H; exists t; split; [now left|exact H].
  - intros x p [<-|[]]; auto.
  - repeat constructor.
  - unfold sum_over; simpl; ring.
Qed.

Lemma tiles_subst l x rest t : tiles (x :: rest) t -> tiles l x -> tiles (l ++ rest) t.
Proof.
  intros [C I D V] [C' I' D' V']. constructor.
  - intros p Hp. destruct (C p Hp) as (y & [<-|Hy] & Hi).
    + destruct (C' p Hi) as (z & Hz & Hzi). exists z. rewrite in_app_iff. auto.
    + exists y. rewrite in_app_iff. auto.
  - intros y p Hy. apply in_app_iff in Hy. destruct Hy as [Hy|Hy]; intros.
    + apply (I x); [now left|]. eapply I'; eassumption.
    + apply (I y); [now right|assumption].
  - inversion D as [|? ? D1 D2]; subst. apply FOP_app. repeat split; auto.
    intros y z Hy Hz p [P Q]. rewrite Forall_forall in D1. apply (D1 z Hz p). split; [|exact Q].
    revert P. apply open_inside. intros q. now apply I'.
  - rewrite sum_over_app, V', <- V, sum_over_cons. reflexivity.
Qed.

Lemma tiles_flat_map f l : forall rest t, tiles (l ++ rest) t -> (forall x, In x l -> tiles (f x) x) -> tiles (flat_map f l ++ rest) t.
Proof.
  induction l as [|x l IH]; intros rest t H Hf; simpl in *; auto.
  rewrite <- app_assoc. apply tiles_perm with (flat_map f l ++ (f x ++ rest)).
  { rewrite !app_assoc. apply Permutation_app_tail, Permutation_app_comm. }
  apply IH; [|auto]. apply tiles_perm with (f x ++ (l ++ rest)).
  { rewrite !app_assoc. apply Permutation_app_tail, Permutation_app_comm. }
  apply tiles_subst with x; [exact H|]. apply Hf; now left.
Qed.

(** ** The pieces written by [_split_tesseroid] *)
Definition pieces (t : tess) (n_lon n_lat n_rad : nat) : list tess :=
  flat_map (fun i => flat_map (fun j => map (fun k => split_row t n_lon n_lat n_rad i j k) (range 0 n_rad)) (range 0 n_lat)) (range 0 n_lon).

Lemma length_flat_map_const {A B} (f : A -> list B) m l : (forall x, In x l -> length (f x) = m) -> length (flat_map f l) = (length l * m)%nat.
Proof.
  induction l as [|x l IH]; intros H; simpl; [reflexivity|]. rewrite app_length, IH, (H x); auto; [now left|]. intros y Hy; apply H; now right.
Qed.

Lemma length_range n : length (range 0 n) = n.
Proof. unfold range. rewrite seq_length. lia. Qed.

Lemma length_pieces t n m k : length (pieces t n m k) = (n * m * k)%nat.
Proof.
  unfold pieces. rewrite (length_flat_map_const _ (m * k)%nat); [rewrite length_range; lia|].
  intros. rewrite (length_flat_map_const _ k); [rewrite length_range; lia|].
  intros. now rewrite map_length, length_range.
Qed.

(** Writing a list of rows at consecutive positions. *)
Definition push (rows : list tess) (st : list tess * nat) : res (list tess * nat) :=
  for_ rows (fun r st => let '(stack, cnt) := st in do stack <- aset stack cnt r; Ok (stack, S cnt)) st.

Lemma for_map {A B S} (g : A -> B) (l : list A) (body : B -> S -> res S) s :
  for_ (map g l) body s = for_ l (fun x => body (g x)) s.
Proof. revert s; induction l as [|x l IH]; intros s; simpl; [reflexivity|]. destruct (body (g x) s); simpl; auto. Qed.

Lemma for_flat_map {A B S} (g : A -> list B) (l : list A) (body : B -> S -> res S) s :
  for_ (flat_map g l) body s = for_ l (fun x => for_ (g x) body) s.
Proof.
  revert s; induction l as [|x l IH]; intros s; simpl; [reflexivity|]. rewrite for_app.
  destruct (for_ (g x) body s); simpl; auto.
Qed.

Lemma for_ext {I S} (l : list I) (f g : I -> S -> res S) s : (forall i s, In i l -> f i s = g i s) -> for_ l f s = for_ l g s.
Proof.
  revert s; induction l as [|x l IH]; intros s H; simpl; [reflexivity|]. rewrite H by now left.
  destruct (g x s); simpl; auto. apply IH. intros; apply H; now right.
Qed.

Lemma split_tesseroid_push t n m k stack cnt : split_tesseroid t n m k stack cnt = push (pieces t n m k) (stack, cnt).
Proof.
  unfold split_tesseroid, push, pieces. rewrite for_flat_map. apply for_ext. intros i s _.
  rewrite for_flat_map. apply for_ext. intros j s' _. rewrite for_map. reflexivity.
Qed.

Lemma firstn_upd {A} (l : list A) i x : (i < length l)%nat -> firstn (S i) (upd l i x) = firstn i l ++ [x].
Proof.
  revert i; induction l as [|y l IH]; intros [|i] H; simpl in *; try lia; [reflexivity|]. f_equal. apply IH. lia.
Qed.

Lemma push_ok rows : forall stack cnt, (cnt + length rows <= length stack)%nat ->
  exists stack', push rows (stack, cnt) = Ok (stack', (cnt + length rows)%nat) /\ length stack' = length stack /\
    firstn (cnt + length rows) stack' = firstn cnt stack ++ rows.
Proof.
  induction rows as [|r rows IH]; intros stack cnt H; unfold push in *; simpl in *.
  - exists stack. rewrite Nat.add_0_r, app_nil_r. auto.
  - rewrite aset_ok by lia. simpl bind. destruct (IH (upd stack cnt r) (S cnt)) as (s' & E1 & E2 & E3).
    { rewrite length_upd. lia. }
    exists s'. rewrite E1. rewrite length_upd in E2. replace (cnt + S (length rows))%nat with (S cnt + length rows)%nat by lia.
    repeat split; auto. rewrite E3, firstn_upd by lia. now rewrite <- app_assoc.
Qed.

(** ** The same loop on plain lists: a stack (top first) and the list of finished tesseroids, with the
    sizes of the buffers as capacities. *)
Definition abs_step (coordinates : point) (ratio : R) (radial : bool) (cap_stack cap_small : nat) (t : tess) (rest out : list tess)
  : res (list tess * list tess) :=
  let '(l_lon, l_lat, l_rad) := tesseroid_dimensions t in
  let distance := distance_tesseroid_point coordinates t in
  do q_lon <- ndiv distance l_lon;
  let n_lon := if Rltb q_lon ratio then 2%nat else 1%nat in
  do q_lat <- ndiv distance l_lat;
  let n_lat := if Rltb q_lat ratio then 2%nat else 1%nat in
  do q_rad <- ndiv distance l_rad;
  let n_rad := if (Rltb q_rad ratio && radial)%bool then 2%nat else 1%nat in
  if Nat.ltb 1 (n_lon * n_lat * n_rad) then
    if Nat.ltb cap_stack (length rest + n_lon * n_lat * n_rad) then Raise OverflowError
    else Ok (rev (pieces t n_lon n_lat n_rad) ++ rest, out)
  else
    if Nat.ltb cap_small (length out + 1) then Raise OverflowError
    else Ok (rest, out ++ [t]).

Fixpoint abs_loop (fuel : nat) coordinates ratio radial cap_stack cap_small (stk out : list tess) : res (list tess) :=
  match stk with
  | [] => Ok out
  | t :: rest => match fuel with
                 | O => Raise OutOfFuel
                 | S f => do so <- abs_step coordinates ratio radial cap_stack cap_small t rest out;
                          abs_loop f coordinates ratio radial cap_stack cap_small (fst so) (snd so)
                 end
  end.

Definition discretise (coordinates : point) (t : tess) (ratio : R) (cap_stack cap_small : nat) (radial : bool) : res (list tess) :=
  abs_loop (cap_stack + 2 * cap_small) coordinates ratio radial cap_stack cap_small [t] [].

Definition represents (st : ad_state) (stk out : list tess) : Prop :=
  cnt st = length stk /\ firstn (cnt st) (stack st) = rev stk /\
  n_splits st = length out /\ firstn (n_splits st) (small st) = out.

Lemma firstn_length_le_all {A} n (l l' : list A) : firstn n l = l' -> n = length l' -> (n <= length l)%nat.
Proof. intros H E. apply (f_equal (@length A)) in H. rewrite firstn_length in H. lia. Qed.

Lemma step_refines coordinates ratio radial st t rest out :
  represents st (t :: rest) out ->
  match ad_step coordinates ratio radial st, abs_step coordinates ratio radial (length (stack st)) (length (small st)) t rest out with
  | Ok st', Ok (stk', out') => represents st' stk' out' /\ length (stack st') = length (stack st) /\ length (small st') = length (small st)
  | Raise e, Raise e' => e = e'
  | _, _ => False
  end.
Proof.
  destruct st as [stk c sm n]. unfold represents; cbn [cnt stack small n_splits length]. intros (Hc & Hs & Hn & Ho).
  assert (Lc : (c <= length stk)%nat) by (apply (firstn_length_le_all _ _ _ Hs); rewrite rev_length; simpl; lia).
  assert (Ln : (n <= length sm)%nat) by (apply (firstn_length_le_all _ _ _ Ho); lia).
  destruct c as [|c]; [discriminate|]. injection Hc as Hc.
  assert (Ht : nth_error stk c = Some t /\ firstn c stk = rev rest).
  { destruct (nth_error stk c) as [x|] eqn:E; [|apply nth_error_None in E; lia].
    assert (F : firstn (S c) stk = firstn c stk ++ [x]).
    { clear -E. revert c E; induction stk as [|y l IH]; intros [|c] E; simpl in *; try discriminate.
      - now injection E as ->.
      - now rewrite <- IH. }
    rewrite F in Hs. apply app_inj_tail in Hs. destruct Hs as [-> ->]. auto. }
  destruct Ht as [Ht Hf].
  unfold ad_step, abs_step. cbn [stack cnt small n_splits].
  rewrite Nat.sub_succ, Nat.sub_0_r. unfold aget at 1. rewrite Ht. cbn [bind].
  destruct (tesseroid_dimensions t) as [[l_lon l_lat] l_rad].
  destruct (ndiv _ l_lon) as [ql|]; cbn [bind]; [|reflexivity].
  destruct (ndiv _ l_lat) as [qa|]; cbn [bind]; [|reflexivity].
  destruct (ndiv _ l_rad) as [qr|]; cbn [bind]; [|reflexivity].
  set (a := if Rltb ql ratio then 2%nat else 1%nat). set (b := if Rltb qa ratio then 2%nat else 1%nat).
  set (d := if (Rltb qr ratio && radial)%bool then 2%nat else 1%nat).
  rewrite <- Hc, <- Hn.
  destruct (Nat.ltb 1 (a * b * d)).
  - destruct (Nat.ltb_spec (length stk) (c + a * b * d)); [reflexivity|].
    rewrite split_tesseroid_push.
    destruct (push_ok (pieces t a b d) stk c) as (s' & E1 & E2 & E3); [rewrite length_pieces; lia|].
    rewrite E1. cbn. rewrite length_pieces in *. repeat split; auto.
    + rewrite app_length, rev_length, length_pieces. lia.
    + rewrite E3, Hf, rev_app_distr, rev_involutive. reflexivity.
  - destruct (Nat.ltb_spec (length sm) (n + 1)); [reflexivity|].
    rewrite aset_ok by lia. cbn. rewrite length_upd. repeat split; auto.
    + rewrite app_length; simpl; lia.
    + rewrite Nat.add_1_r, firstn_upd by lia. now rewrite Ho.
Qed.

Lemma loop_refines fuel coordinates ratio radial : forall st stk out,
  represents st stk out ->
  match ad_loop fuel coordinates ratio radial st, abs_loop fuel coordinates ratio radial (length (stack st)) (length (small st)) stk out with
  | Ok st', Ok out' => returned_tesseroids st' = out' /\ n_splits st' = length out' /\ length (stack st') = length (stack st) /\ length (small st') = length (small st)
  | Raise e, Raise e' => e = e'
  | _, _ => False
  end.
Proof.
  induction fuel as [|f IH]; intros st stk out H; pose proof H as (Hc & _ & Hn & Ho).
  - destruct stk as [|t rest]; simpl in *; rewrite Hc; simpl; [repeat split; auto|reflexivity].
  - destruct stk as [|t rest]; simpl in *; rewrite Hc; [repeat split; auto|].
    pose proof (step_refines coordinates ratio radial st t rest out H) as R.
    destruct (ad_step coordinates ratio radial st) as [st'|e], (abs_step _ _ _ _ _ t rest out) as [[stk' out']|e']; cbn [bind fst snd]; try contradiction; [|exact R].
    destruct R as (R1 & R2 & R3). specialize (IH st' stk' out' R1). rewrite R2, R3 in IH. exact IH.
Qed.

Lemma adaptive_refines coordinates t ratio stk sml radial : (0 < length stk)%nat ->
  match adaptive_discretization coordinates t ratio stk sml radial, discretise coordinates t ratio (length stk) (length sml) radial with
  | Ok st, Ok out => returned_tesseroids st = out /\ n_splits st = length out /\ length (stack st) = length stk /\ length (small st) = length sml
  | Raise e, Raise e' => e = e'
  | _, _ => False
  end.
Proof.
  intros H. unfold adaptive_discretization, discretise. rewrite aset_ok by assumption. cbn [bind].
  pose proof (loop_refines (length stk + 2 * length sml) coordinates ratio radial (Ad (upd stk 0 t) 1 sml 0) [t] []) as R.
  cbn [stack small] in R. rewrite length_upd in *. apply R.
  unfold represents; cbn [cnt stack small n_splits length]. repeat split; try (apply (firstn_upd stk 0 t); assumption).
Qed.

(** ** Each step tiles *)
Definition split_lon (n : nat) (t : tess) : list tess :=
  map (fun i => Tess (west t + (east t - west t) / INR n * INR i) (west t + (east t - west t) / INR n * INR (i + 1)) (south t) (north t) (bottom t) (top t)) (range 0 n).
Definition split_lat (n : nat) (t : tess) : list tess :=
  map (fun j => Tess (west t) (east t) (south t + (north t - south t) / INR n * INR j) (south t + (north t - south t) / INR n * INR (j + 1)) (bottom t) (top t)) (range 0 n).
Definition split_rad (n : nat) (t : tess) : list tess :=
  map (fun k => Tess (west t) (east t) (south t) (north t) (bottom t + (top t - bottom t) / INR n * INR k) (bottom t + (top t - bottom t) / INR n * INR (k + 1))) (range 0 n).

Lemma flat_map_map {A B C} (f : B -> list C) (g : A -> B) l : flat_map f (map g l) = flat_map (fun x => f (g x)) l.
Proof. induction l; simpl; congruence. Qed.

Lemma flat_map_assoc {A B C} (f : B -> list C) (g : A -> list B) l : flat_map f (flat_map g l) = flat_map (fun x => flat_map f (g x)) l.
Proof. induction l; simpl; [reflexivity|]. rewrite flat_map_app. congruence. Qed.

Lemma pieces_splits t a b c : pieces t a b c = flat_map (split_rad c) (flat_map (split_lat b) (split_lon a t)).
Proof.
  unfold split_lon. rewrite flat_map_map, flat_map_assoc. unfold pieces. apply flat_map_ext. intros i.
  unfold split_lat. rewrite flat_map_map. apply flat_map_ext. intros j. reflexivity.
Qed.

Definition mid (a b : R) : R := (a + b) / 2.
Lemma cut_1 a b : a + (b - a) / INR 1 * INR 0 = a /\ a + (b - a) / INR 1 * INR (0 + 1) = b.
Proof. simpl; split; field. Qed.
Lemma cut_2 a b : a + (b - a) / INR 2 * INR 0 = a /\ a + (b - a) / INR 2 * INR (0 + 1) = mid a b /\
  a + (b - a) / INR 2 * INR 1 = mid a b /\ a + (b - a) / INR 2 * INR (1 + 1) = b.
Proof. unfold mid; simpl; repeat split; field. Qed.

Lemma tess_eta (t : tess) : Tess (west t) (east t) (south t) (north t) (bottom t) (top t) = t.
Proof. now destruct t. Qed.

Lemma split_lon_1 t : split_lon 1 t = [t].
Proof. unfold split_lon. cbn [map range Nat.sub seq]. destruct (cut_1 (west t) (east t)) as [-> ->]. now rewrite tess_eta. Qed.
Lemma split_lat_1 t : split_lat 1 t = [t].
Proof. unfold split_lat. cbn [map range Nat.sub seq]. destruct (cut_1 (south t) (north t)) as [-> ->]. now rewrite tess_eta. Qed.
Lemma split_rad_1 t : split_rad 1 t = [t].
Proof. unfold split_rad. cbn [map range Nat.sub seq]. destruct (cut_1 (bottom t) (top t)) as [-> ->]. now rewrite tess_eta. Qed.
Lemma split_lon_2 t : split_lon 2 t = [Tess (west t) (mid (west t) (east t)) (south t) (north t) (bottom t) (top t);
  Tess (mid (west t) (east t)) (east t) (south t) (north t) (bottom t) (top t)].
Proof. unfold split_lon. cbn [map range Nat.sub seq]. destruct (cut_2 (west t) (east t)) as (-> & -> & -> & ->). reflexivity. Qed.
Lemma split_lat_2 t : split_lat 2 t = [Tess (west t) (east t) (south t) (mid (south t) (north t)) (bottom t) (top t);
  Tess (west t) (east t) (mid (south t) (north t)) (north t) (bottom t) (top t)].
Proof. unfold split_lat. cbn [map range Nat.sub seq]. destruct (cut_2 (south t) (north t)) as (-> & -> & -> & ->). reflexivity. Qed.
Lemma split_rad_2 t : split_rad 2 t = [Tess (west t) (east t) (south t) (north t) (bottom t) (mid (bottom t) (top t));
  Tess (west t) (east t) (south t) (north t) (mid (bottom t) (top t)) (top t)].
Proof. unfold split_rad. cbn [map range Nat.sub seq]. destruct (cut_2 (bottom t) (top t)) as (-> & -> & -> & ->). reflexivity. Qed.

Ltac tile2 := constructor;
  [ intros [[x y] z] P; cbn in P
  | intros u [[x y] z] [<-|[<-|[]]] P; cbn in *; unfold mid in *; lra
  | repeat constructor; intros [[x y] z] [P Q]; cbn in *; unfold mid in *; lra
  | unfold sum_over; cbn; unfold volume; cbn ].

Lemma split_lon_tiles n t : box t -> n = 1%nat \/ n = 2%nat -> tiles (split_lon n t) t.
Proof.
  unfold box. intros B [->| ->]; [rewrite split_lon_1; apply tiles_refl|]. rewrite split_lon_2. tile2.
  - destruct (Rle_dec x (mid (west t) (east t))); [eexists; split; [left; reflexivity|]|eexists; split; [right; left; reflexivity|]]; cbn; lra.
  - unfold radians, mid. field.
Qed.
Lemma split_lat_tiles n t : box t -> n = 1%nat \/ n = 2%nat -> tiles (split_lat n t) t.
Proof.
  unfold box. intros B [->| ->]; [rewrite split_lat_1; apply tiles_refl|]. rewrite split_lat_2. tile2.
  - destruct (Rle_dec y (mid (south t) (north t))); [eexists; split; [left; reflexivity|]|eexists; split; [right; left; reflexivity|]]; cbn; lra.
  - field.
Qed.
Lemma split_rad_tiles n t : box t -> n = 1%nat \/ n = 2%nat -> tiles (split_rad n t) t.
Proof.
  unfold box. intros B [->| ->]; [rewrite split_rad_1; apply tiles_refl|]. rewrite split_rad_2. tile2.
  - destruct (Rle_dec z (mid (bottom t) (top t))); [eexists; split; [left; reflexivity|]|eexists; split; [right; left; reflexivity|]]; cbn; lra.
  - field.
Qed.

(** A property of tesseroids kept by halving along the axes is kept by the pieces. *)
Lemma pieces_Forall (P : tess -> Prop) t a b c :
  (a = 1%nat \/ a = 2%nat) -> (b = 1%nat \/ b = 2%nat) -> (c = 1%nat \/ c = 2%nat) ->
  (forall x, P x -> a = 2%nat -> Forall P (split_lon 2 x)) -> (forall x, P x -> b = 2%nat -> Forall P (split_lat 2 x)) ->
  (forall x, P x -> c = 2%nat -> Forall P (split_rad 2 x)) -> P t -> Forall P (pieces t a b c).
Proof.
  intros Ha Hb Hc H1 H2 H3 Ht. rewrite pieces_splits.
  assert (F : forall f l, (forall x, P x -> Forall P (f x)) -> Forall P l -> Forall P (flat_map f l)).
  { intros f l Hf Hl. apply Forall_forall. intros y Hy. apply in_flat_map in Hy. destruct Hy as (x & Hx & Hy).
    rewrite Forall_forall in Hl. specialize (Hf x (Hl x Hx)). rewrite Forall_forall in Hf. auto. }
  apply F; [|apply F].
  - intros x Hx. destruct Hc as [->| ->]; [rewrite split_rad_1; auto|auto].
  - intros x Hx. destruct Hb as [->| ->]; [rewrite split_lat_1; auto|auto].
  - destruct Ha as [->| ->]; [rewrite split_lon_1; auto|auto].
Qed.

Lemma pieces_box t a b c : (a = 1%nat \/ a = 2%nat) -> (b = 1%nat \/ b = 2%nat) -> (c = 1%nat \/ c = 2%nat) -> box t -> Forall box (pieces t a b c).
Proof.
  intros. apply pieces_Forall; auto; intros x; rewrite ?split_lon_2, ?split_lat_2, ?split_rad_2; intros Bx _;
  repeat apply Forall_cons; try apply Forall_nil; unfold box, mid in *; cbn; lra.
Qed.

Lemma pieces_tiles t a b c : (a = 1%nat \/ a = 2%nat) -> (b = 1%nat \/ b = 2%nat) -> (c = 1%nat \/ c = 2%nat) -> box t -> tiles (pieces t a b c) t.
Proof.
  intros Ha Hb Hc Bt. rewrite pieces_splits.
  assert (B1 : Forall box (split_lon a t)).
  { destruct Ha as [->| ->]; [rewrite split_lon_1|rewrite split_lon_2]; repeat apply Forall_cons; try apply Forall_nil; unfold box, mid in *; cbn; lra. }
  assert (B2 : Forall box (flat_map (split_lat b) (split_lon a t))).
  { apply Forall_forall. intros y Hy. apply in_flat_map in Hy. destruct Hy as (x & Hx & Hy). rewrite Forall_forall in B1.
    specialize (B1 x Hx). destruct Hb as [->| ->]; [rewrite split_lat_1 in Hy|rewrite split_lat_2 in Hy];
    repeat destruct Hy as [<-|Hy]; try (now destruct Hy); unfold box, mid in *; cbn; lra. }
  rewrite <- (app_nil_r (flat_map (split_rad c) _)). apply tiles_flat_map.
  - rewrite app_nil_r. rewrite <- (app_nil_r (flat_map _ _)). apply tiles_flat_map.
    + rewrite app_nil_r. now apply split_lon_tiles.
    + intros x Hx. rewrite Forall_forall in B1. apply split_lat_tiles; auto.
  - intros x Hx. rewrite Forall_forall in B2. apply split_rad_tiles; auto.
Qed.

(** ** Invariants of the loop *)
Lemma abs_step_cases coordinates ratio radial cs cm t rest out stk' out' :
  abs_step coordinates ratio radial cs cm t rest out = Ok (stk', out') ->
  (exists a b c, (a = 1 \/ a = 2)%nat /\ (b = 1 \/ b = 2)%nat /\ (c = 1 \/ c = 2)%nat /\ (1 < a * b * c)%nat /\ (radial = false -> c = 1%nat) /\
      stk' = rev (pieces t a b c) ++ rest /\ out' = out /\ (length rest + a * b * c <= cs)%nat) \/
  (stk' = rest /\ out' = out ++ [t] /\ (length out + 1 <= cm)%nat /\
   let '(l_lon, l_lat, l_rad) := tesseroid_dimensions t in let d := distance_tesseroid_point coordinates t in
   l_lon <> 0 /\ ratio <= d / l_lon /\ l_lat <> 0 /\ ratio <= d / l_lat /\ l_rad <> 0 /\ (radial = true -> ratio <= d / l_rad)).
Proof.
  unfold abs_step, ndiv. destruct (tesseroid_dimensions t) as [[l_lon l_lat] l_rad].
  set (d := distance_tesseroid_point coordinates t).
  destruct (Reqb_spec l_lon 0); cbn [bind]; [discriminate|].
  destruct (Reqb_spec l_lat 0); cbn [bind]; [discriminate|].
  destruct (Reqb_spec l_rad 0); cbn [bind]; [discriminate|].
  set (a := if Rltb (d / l_lon) ratio then 2%nat else 1%nat). set (b := if Rltb (d / l_lat) ratio then 2%nat else 1%nat).
  set (c := if (Rltb (d / l_rad) ratio && radial)%bool then 2%nat else 1%nat).
  assert (Ha : (a = 1 \/ a = 2)%nat) by (unfold a; match goal with |- (if ?x then _ else _) = _ \/ _ => destruct x; auto end).
  assert (Hb : (b = 1 \/ b = 2)%nat) by (unfold b; match goal with |- (if ?x then _ else _) = _ \/ _ => destruct x; auto end).
  assert (Hc : (c = 1 \/ c = 2)%nat) by (unfold c; match goal with |- (if ?x then _ else _) = _ \/ _ => destruct x; auto end).
  destruct (Nat.ltb_spec 1 (a * b * c)) as [L|L].
  - destruct (Nat.ltb_spec cs (length rest + a * b * c)); [discriminate|]. intros [= <- <-]. left.
    exists a, b, c. repeat split; auto; try lia. intros ->. unfold c. now rewrite andb_false_r.
  - destruct (Nat.ltb_spec cm (length out + 1)); [discriminate|]. intros [= <- <-]. right.
    assert (a = 1 /\ b = 1 /\ c = 1)%nat as (Ea & Eb & Ec) by (clear -L Ha Hb Hc; clearbody a b c; destruct Ha as [-> | ->], Hb as [-> | ->], Hc as [-> | ->]; simpl in L; lia).
    unfold a, b, c in *.
    destruct (Rltb_spec (d / l_lon) ratio); [discriminate|]. destruct (Rltb_spec (d / l_lat) ratio); [discriminate|].
    repeat split; auto; try lra. intros ->. rewrite andb_true_r in Ec. destruct (Rltb_spec (d / l_rad) ratio); [discriminate|]. lra.
Qed.

Lemma abs_loop_inv coordinates ratio radial cs cm (I : list tess -> list tess -> Prop) :
  (forall t rest out stk' out', I (t :: rest) out -> abs_step coordinates ratio radial cs cm t rest out = Ok (stk', out') -> I stk' out') ->
  forall fuel stk out r, I stk out -> abs_loop fuel coordinates ratio radial cs cm stk out = Ok r -> I [] r.
Proof.
  intros Hs. induction fuel as [|f IH]; intros [|t rest] out r HI; simpl; try (now intros [= <-]); try discriminate.
  destruct (abs_step coordinates ratio radial cs cm t rest out) as [[stk' out']|e] eqn:E; cbn [bind fst snd]; [|discriminate].
  apply IH. eapply Hs; eassumption.
Qed.

Lemma discretise_tiles p t ratio cs cm radial out : box t -> discretise p t ratio cs cm radial = Ok out -> tiles out t.
Proof.
  intros Bt H.
  assert (K : tiles (out ++ []) t /\ Forall box ([] : list tess)).
  { revert H. unfold discretise. apply (abs_loop_inv p ratio radial cs cm (fun stk o => tiles (o ++ stk) t /\ Forall box stk)).
    - intros x rest o stk' o' [HT HB] E. inversion HB; subst.
      apply abs_step_cases in E. destruct E as [(a & b & c & Ha & Hb & Hc & _ & _ & -> & -> & _)|(-> & -> & _)].
      + split.
        * apply tiles_perm with (pieces x a b c ++ (o ++ rest)).
          { rewrite app_assoc. etransitivity; [apply Permutation_app_tail, Permutation_app_comm|]. rewrite <- app_assoc.
            apply Permutation_app_head, Permutation_app_tail, Permutation_rev. }
          apply tiles_subst with x; [|now apply pieces_tiles].
          eapply tiles_perm; [|exact HT]. symmetry. apply Permutation_middle.
        * apply Forall_app; split; [|assumption]. apply Forall_rev. now apply pieces_box.
      + split; [|assumption]. rewrite <- app_assoc. exact HT.
    - simpl. split; [apply tiles_refl|apply Forall_cons; [assumption|apply Forall_nil]]. }
  rewrite app_nil_r in K. apply K.
Qed.

(** Positions and sizes. *)
Lemma distance_point_to p t : distance_tesseroid_point p t = distance_to p t.
Proof.
  apply distance_spherical_eucl.
Qed.

Lemma unit_dot a b c d : dot (sph_position (a, b, 1)) (sph_position (c, d, 1))
  = sin (radians d) * sin (radians b) + cos (radians d) * cos (radians b) * cos (radians c - radians a).
Proof. unfold dot, sph_position; cbn. rewrite cos_minus. ring. Qed.

Lemma dimensions_sizes t : tesseroid_dimensions t = (size_lon t, size_lat t, size_rad t).
Proof.
  unfold tesseroid_dimensions, size_lon, size_lat, size_rad, great_circle, mid_lat.
  rewrite !unit_dot. replace ((radians (north t) + radians (south t)) / 2) with (radians ((south t + north t) / 2)) by (unfold radians; field).
  f_equal. f_equal.
  - f_equal. f_equal. ring.
  - f_equal. f_equal. unfold Rminus. rewrite Rplus_opp_r, cos_0. ring.
Qed.

Lemma acos_nonneg x : 0 <= acos x.
Proof. apply acos_bound. Qed.

(** Criterion and radial bounds. *)
Definition meets (p : point) (ratio : R) (radial : bool) (x : tess) : Prop :=
  ratio * size_lon x <= distance_to p x /\ ratio * size_lat x <= distance_to p x /\ (radial = true -> ratio * size_rad x <= distance_to p x).

Lemma criterion_div d l ratio : 0 <= l -> l <> 0 -> ratio <= d / l -> ratio * l <= d.
Proof. intros H1 H2 H. assert (0 < l) by lra. apply Rmult_le_compat_r with (r := l) in H; [|lra]. unfold Rdiv in H. rewrite Rmult_assoc, Rinv_l in H by lra. lra. Qed.

Definition well (t : tess) : Prop := 0 <= bottom t /\ bottom t <= top t.
Lemma pieces_well t a b c : (a = 1%nat \/ a = 2%nat) -> (b = 1%nat \/ b = 2%nat) -> (c = 1%nat \/ c = 2%nat) -> well t -> Forall well (pieces t a b c).
Proof.
  intros. apply pieces_Forall; auto; intros x; rewrite ?split_lon_2, ?split_lat_2, ?split_rad_2; intros Bx _;
  repeat apply Forall_cons; try apply Forall_nil; unfold well, mid in *; cbn; lra.
Qed.

Lemma discretise_criterion p t ratio cs cm radial out : well t -> discretise p t ratio cs cm radial = Ok out -> Forall (meets p ratio radial) out.
Proof.
  intros Wt. unfold discretise. intros H. apply (abs_loop_inv p ratio radial cs cm (fun stk o => Forall (meets p ratio radial) o /\ Forall well stk)) in H.
  - apply H.
  - intros x rest o stk' o' [HT HB] E. inversion HB; subst.
    apply abs_step_cases in E. destruct E as [(a & b & c & Ha & Hb & Hc & _ & _ & -> & -> & _)|(-> & -> & _ & E)].
    + split; [assumption|]. apply Forall_app; split; [|assumption]. apply Forall_rev. now apply pieces_well.
    + split; [|assumption]. apply Forall_app; split; [assumption|]. apply Forall_cons; [|apply Forall_nil].
      rewrite dimensions_sizes, distance_point_to in E. destruct E as (E1 & E2 & E3 & E4 & E5 & E6).
      unfold well in *. unfold meets. repeat split; intros; apply criterion_div; auto.
      * unfold size_lon, great_circle. apply Rmult_le_pos; [lra|apply acos_nonneg].
      * unfold size_lat, great_circle. apply Rmult_le_pos; [lra|apply acos_nonneg].
      * unfold size_rad. lra.
  - split; [apply Forall_nil|apply Forall_cons; [assumption|apply Forall_nil]].
Qed.

Lemma discretise_radial_off p t ratio cs cm out : discretise p t ratio cs cm false = Ok out -> Forall (fun x => bottom x = bottom t /\ top x = top t) out.
Proof.
  unfold discretise. intros H. set (P := fun x : tess => bottom x = bottom t /\ top x = top t).
  apply (abs_loop_inv p ratio false cs cm (fun stk o => Forall P o /\ Forall P stk)) in H.
  - apply H.
  - intros x rest o stk' o' [HT HB] E. inversion HB; subst.
    apply abs_step_cases in E. destruct E as [(a & b & c & Ha & Hb & Hc & _ & Hr & -> & -> & _)|(-> & -> & _ & E)].
    + split; [assumption|]. apply Forall_app; split; [|assumption]. apply Forall_rev. rewrite (Hr eq_refl).
      apply pieces_Forall; auto; try discriminate; intros y; rewrite ?split_lon_2, ?split_lat_2; intros Hy _;
      repeat apply Forall_cons; try apply Forall_nil; unfold P in *; cbn; auto.
    + split; [|assumption]. apply Forall_app; split; [assumption|]. apply Forall_cons; [assumption|apply Forall_nil].
  - split; [apply Forall_nil|apply Forall_cons; [split; reflexivity|apply Forall_nil]].
Qed.

(** ** Termination *)
Lemma abs_step_errors p ratio radial cs cm t rest out e : abs_step p ratio radial cs cm t rest out = Raise e -> e = OverflowError \/ e = ZeroDivisionError.
Proof.
  unfold abs_step, ndiv. destruct (tesseroid_dimensions t) as [[? ?] ?].
  repeat match goal with |- context[Reqb ?a ?b] => destruct (Reqb a b); cbn [bind]; [intros [= <-]; auto|] end.
  match goal with |- (if ?b then _ else _) = _ -> _ => destruct b end;
  match goal with |- (if ?b then _ else _) = _ -> _ => destruct b end; intros [= <-]; auto.
Qed.

Lemma abs_loop_total p ratio radial cs cm : forall fuel stk out,
  (length stk <= cs)%nat -> (length out <= cm)%nat -> ((cs - length stk) + 2 * (cm - length out) + 1 <= fuel)%nat ->
  (exists r, abs_loop fuel p ratio radial cs cm stk out = Ok r) \/
  abs_loop fuel p ratio radial cs cm stk out = Raise OverflowError \/ abs_loop fuel p ratio radial cs cm stk out = Raise ZeroDivisionError.
Proof.
  induction fuel as [|f IH]; intros [|t rest] out H1 H2 H3; simpl; eauto; [simpl in *; lia|].
  destruct (abs_step p ratio radial cs cm t rest out) as [[stk' out']|e] eqn:E; cbn [bind fst snd].
  - apply abs_step_cases in E. simpl in *. destruct E as [(a & b & c & Ha & Hb & Hc & L & _ & -> & -> & Hcap)|(-> & -> & Hcap & _)].
    + apply IH; try rewrite app_length, rev_length, length_pieces; lia.
    + apply IH; try rewrite app_length; simpl; lia.
  - right. apply abs_step_errors in E. destruct E as [->| ->]; auto.
Qed.

Lemma discretise_total p t ratio cs cm radial : (0 < cs)%nat ->
  (exists r, discretise p t ratio cs cm radial = Ok r) \/ discretise p t ratio cs cm radial = Raise OverflowError
  \/ discretise p t ratio cs cm radial = Raise ZeroDivisionError.
Proof. intros H. unfold discretise. apply abs_loop_total; simpl; lia. Qed.

Lemma abs_loop_length p ratio radial cs cm : forall fuel stk out r, (length out <= cm)%nat -> abs_loop fuel p ratio radial cs cm stk out = Ok r -> (length r <= cm)%nat.
Proof.
  induction fuel as [|f IH]; intros [|t rest] out r H; simpl; try (now intros [= <-]); try discriminate.
  destruct (abs_step p ratio radial cs cm t rest out) as [[stk' out']|e] eqn:E; cbn [bind fst snd]; [|discriminate].
  apply IH. apply abs_step_cases in E. destruct E as [(a & b & c & _ & _ & _ & _ & _ & -> & -> & _)|(-> & -> & Hcap & _)]; [assumption|].
  rewrite app_length; simpl; lia.
Qed.

(** No division by zero for non-degenerate tesseroids narrower than a turn. *)
Definition regular (t : tess) : Prop := 0 < east t - west t < 360 /\ -90 <= south t < north t /\ north t <= 90 /\ 0 <= bottom t < top t.

Lemma acos_zero x : -1 <= x <= 1 -> acos x = 0 -> x = 1.
Proof. intros H E. rewrite <- (cos_acos x H), E. apply cos_0. Qed.

Lemma radians_pos x : 0 < x -> 0 < radians x.
Proof. intros. unfold radians. pose proof PI_RGT_0. apply Rmult_lt_0_compat; [|lra]. apply Rmult_lt_0_compat; lra. Qed.
Lemma radians_lt x y : x < y -> radians x < radians y.
Proof. intros. unfold radians, Rdiv. pose proof PI_RGT_0. apply Rmult_lt_compat_r; [lra|]. apply Rmult_lt_compat_r; lra. Qed.
Lemma radians_le x y : x <= y -> radians x <= radians y.
Proof. intros [H| ->]; [left; now apply radians_lt|right; reflexivity]. Qed.
Lemma radians_180 : radians 180 = PI.
Proof. unfold radians; field. Qed.
Lemma radians_90 : radians 90 = PI / 2.
Proof. unfold radians; field. Qed.
Lemma radians_opp x : radians (- x) = - radians x.
Proof. unfold radians; field. Qed.
Lemma radians_minus x y : radians (x - y) = radians x - radians y.
Proof. unfold radians; field. Qed.

Lemma size_lat_eq t : -90 <= south t <= north t -> north t <= 90 -> size_lat t = top t * (radians (north t) - radians (south t)).
Proof.
  intros H1 H2. unfold size_lat, great_circle. rewrite unit_dot. f_equal.
  replace (radians (west t) - radians (west t)) with 0 by ring. rewrite cos_0.
  replace (sin (radians (north t)) * sin (radians (south t)) + cos (radians (north t)) * cos (radians (south t)) * 1)
    with (cos (radians (north t) - radians (south t))) by (rewrite cos_minus; ring).
  apply acos_cos. rewrite <- radians_minus. split.
  - replace 0 with (radians 0) by (unfold radians; field). apply radians_le. lra.
  - rewrite <- radians_180. apply radians_le. lra.
Qed.

Lemma cos_lt_1 x : 0 < x < 2 * PI -> cos x < 1.
Proof.
  intros H. replace x with (2 * (x / 2)) by field. rewrite cos_2a_sin.
  assert (0 < sin (x / 2)) by (apply sin_gt_0; lra). nra.
Qed.

Lemma cos_lat_pos x : -90 < x < 90 -> 0 < cos (radians x).
Proof.
  intros H. apply cos_gt_0.
  - replace (- (PI / 2)) with (radians (-90)) by (unfold radians; field). apply radians_lt; lra.
  - rewrite <- radians_90. apply radians_lt; lra.
Qed.

Lemma size_lon_pos t : regular t -> size_lon t <> 0.
Proof.
  intros (H1 & H2 & H3 & H4) E. unfold size_lon, great_circle in E. rewrite unit_dot in E.
  apply Rmult_integral in E. destruct E as [E|E]; [lra|].
  set (c := cos (radians (mid_lat t))) in *. set (s := sin (radians (mid_lat t))) in *.
  assert (SC : s * s + c * c = 1) by (pose proof (sin2_cos2 (radians (mid_lat t))) as K; unfold Rsqr in K; exact K).
  assert (Hc : 0 < c) by (apply cos_lat_pos; unfold mid_lat; lra).
  assert (HC : cos (radians (east t) - radians (west t)) < 1).
  { rewrite <- radians_minus. apply cos_lt_1. split; [apply radians_pos; lra|].
    replace (2 * PI) with (radians 360) by (unfold radians; field). apply radians_lt; lra. }
  pose proof (COS_bound (radians (east t) - radians (west t))) as B.
  set (C := cos (radians (east t) - radians (west t))) in *.
  assert (C2 : 0 < c * c) by (apply Rmult_lt_0_compat; assumption).
  assert (C3 : 0 < c * c * (1 - C)) by (apply Rmult_lt_0_compat; lra).
  assert (C4 : 0 <= c * c * (1 + C)) by (apply Rmult_le_pos; lra).
  assert (0 <= s * s) by apply Rle_0_sqr.
  apply acos_zero in E; lra.
Qed.

Lemma size_lat_pos t : regular t -> size_lat t <> 0.
Proof.
  intros (H1 & H2 & H3 & H4). rewrite size_lat_eq by lra.
  assert (0 < radians (north t) - radians (south t)) by (pose proof (radians_lt (south t) (north t)); lra).
  intros E. apply Rmult_integral in E. lra.
Qed.

Lemma pieces_regular t a b c : (a = 1%nat \/ a = 2%nat) -> (b = 1%nat \/ b = 2%nat) -> (c = 1%nat \/ c = 2%nat) -> regular t -> Forall regular (pieces t a b c).
Proof.
  intros. apply pieces_Forall; auto; intros x; rewrite ?split_lon_2, ?split_lat_2, ?split_rad_2; intros Bx _;
  repeat apply Forall_cons; try apply Forall_nil; unfold regular, mid in *; cbn; lra.
Qed.

Lemma abs_step_no_zerodiv p ratio radial cs cm t rest out : regular t -> abs_step p ratio radial cs cm t rest out <> Raise ZeroDivisionError.
Proof.
  intros Rt. unfold abs_step. rewrite dimensions_sizes. unfold ndiv.
  destruct (Reqb_spec (size_lon t) 0) as [E|_]; [now apply size_lon_pos in E|]. cbn [bind].
  destruct (Reqb_spec (size_lat t) 0) as [E|_]; [now apply size_lat_pos in E|]. cbn [bind].
  destruct (Reqb_spec (size_rad t) 0) as [E|_]; [unfold size_rad, regular in *; lra|]. cbn [bind].
  match goal with |- (if ?b then _ else _) <> _ => destruct b end; match goal with |- (if ?b then _ else _) <> _ => destruct b end; discriminate.
Qed.

Lemma abs_loop_no_zerodiv p ratio radial cs cm : forall fuel stk out, Forall regular stk -> abs_loop fuel p ratio radial cs cm stk out <> Raise ZeroDivisionError.
Proof.
  induction fuel as [|f IH]; intros [|t rest] out H; simpl; try discriminate.
  inversion H as [|? ? Rt Rr]; subst.
  destruct (abs_step p ratio radial cs cm t rest out) as [[stk' out']|e] eqn:E; cbn [bind fst snd].
  - apply IH. apply abs_step_cases in E. destruct E as [(a & b & c & Ha & Hb & Hc & _ & _ & -> & -> & _)|(-> & _)]; [|assumption].
    apply Forall_app; split; [|assumption]. apply Forall_rev. now apply pieces_regular.
  - intros K. injection K as ->. revert E. now apply abs_step_no_zerodiv.
Qed.

Lemma discretise_regular p t ratio cs cm radial : (0 < cs)%nat -> regular t ->
  (exists r, discretise p t ratio cs cm radial = Ok r) \/ discretise p t ratio cs cm radial = Raise OverflowError.
Proof.
  intros H Rt. destruct (discretise_total p t ratio cs cm radial H) as [K|[K|K]]; auto.
  exfalso. revert K. apply abs_loop_no_zerodiv. apply Forall_cons; [assumption|apply Forall_nil].
Qed.

(** Full-turn tesseroids have zero longitudinal size. *)
Lemma size_lon_full_turn t : east t - west t = 360 -> size_lon t = 0.
Proof.
  intros H. unfold size_lon, great_circle. rewrite unit_dot, <- radians_minus, H.
  replace (radians 360) with (2 * PI) by (unfold radians; field). rewrite cos_2PI.
  pose proof (sin2_cos2 (radians (mid_lat t))) as K; unfold Rsqr in K.
  replace (sin (radians (mid_lat t)) * sin (radians (mid_lat t)) + cos (radians (mid_lat t)) * cos (radians (mid_lat t)) * 1) with 1 by lra.
  rewrite acos_1. ring.
Qed.

Lemma discretise_full_turn p t ratio cs cm radial : (0 < cs)%nat -> east t - west t = 360 -> discretise p t ratio cs cm radial = Raise ZeroDivisionError.
Proof.
  intros Hc H. unfold discretise. destruct cs as [|cs]; [lia|]. simpl. unfold abs_step. rewrite dimensions_sizes, size_lon_full_turn by assumption.
  unfold ndiv. destruct (Reqb_spec 0 0) as [_|N]; [reflexivity|]. now contradiction N.
Qed.
