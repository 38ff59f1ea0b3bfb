From Verif Require Import Base BaseFacts PrismModel PrismSpec.
Local Open Scope list_scope.

Lemma for_cons_lift {I A} (l : list I) (g : I -> A -> res A) (f h : I -> list A -> res (list A)) :
  (forall x b bs b' bs', In x l -> g x b = Ok b' -> f x bs = Ok bs' -> h x (b :: bs) = Ok (b' :: bs')) ->
  forall b bs b' bs', for_ l g b = Ok b' -> for_ l f bs = Ok bs' -> for_ l h (b :: bs) = Ok (b' :: bs').
Proof.
  induction l as [|x l IH]; cbn [for_]; intros H b bs b' bs' Hg Hf.
  - congruence.
  - destruct (g x b) as [b1|] eqn:E1; cbn [bind] in Hg; [|discriminate]. destruct (f x bs) as [bs1|] eqn:E2; cbn [bind] in Hf; [|discriminate].
    rewrite (H x b bs b1 bs1) by (simpl; auto). cbn [bind]. apply IH; auto. intros; apply H; simpl; auto.
Qed.

Definition assign_one {A} (p : prism_of A) (i vertex : nat) (b : list (list A)) : res (list (list A)) :=
  do x <- boundary p i; set_vertex b vertex (i / 2)%nat x.
Definition assign_block {A} (p : prism_of A) (b : list (list A)) : res (list (list A)) :=
  for_ (combine (range 0 6) vertex_indices) (fun ib b => for_ (snd ib) (fun vertex b => assign_one p (fst ib) vertex b) b) b.
Definition assign_blocks {A} (prisms : list (prism_of A)) (bs : list (list (list A))) : res (list (list (list A))) :=
  for_ (combine (range 0 6) vertex_indices) (fun ib vertices =>
    for_ (snd ib) (fun vertex vertices => assign_all vertices prisms (fst ib) vertex (fst ib / 2)%nat) vertices) bs.

Lemma assign_cons {A} (p : prism_of A) ps b bs b' bs' : assign_block p b = Ok b' -> assign_blocks ps bs = Ok bs' -> assign_blocks (p :: ps) (b :: bs) = Ok (b' :: bs').
Proof.
  apply for_cons_lift. intros ib b0 bs0 b0' bs0' _. apply for_cons_lift. intros v b1 bs1 b1' bs1' _ H1 H2.
  cbn [assign_all]. unfold assign_one in H1. destruct (boundary p (fst ib)); cbn [bind] in *; [|discriminate]. rewrite H1, H2. reflexivity.
Qed.


Lemma explode3 {A} (row : list A) : length row = 3%nat -> exists a b c, row = [a; b; c].
Proof. destruct row as [|a [|b [|c [|? ?]]]]; try discriminate. eauto. Qed.

Lemma assign_block_ok {A} (p : prism_of A) b : block_8x3 b -> assign_block p b = Ok (vtk_corners p).
Proof.
  intros [L F]. destruct b as [|r0 [|r1 [|r2 [|r3 [|r4 [|r5 [|r6 [|r7 [|? ?]]]]]]]]]; try discriminate.
  repeat match goal with H : Forall _ (_ :: _) |- _ => inversion_clear H end.
  repeat match goal with H : length ?r = 3%nat |- _ => destruct (explode3 r H) as (? & ? & ? & ->); clear H end.
  destruct p. vm_compute. reflexivity.
Qed.

Lemma vertices_ok {A} (prisms : list (prism_of A)) junk : length junk = length prisms -> Forall block_8x3 junk ->
  prisms_boundaries_to_vertices prisms junk = Ok (concat (map vtk_corners prisms)).
Proof.
  intros L F. unfold prisms_boundaries_to_vertices. change (for_ _ _ junk) with (assign_blocks prisms junk).
  enough (E : assign_blocks prisms junk = Ok (map vtk_corners prisms)) by (rewrite E; reflexivity).
  revert junk L F. induction prisms as [|p ps IH]; intros [|b bs] L F; try discriminate; [reflexivity|].
  inversion_clear F. cbn [map]. apply assign_cons; [now apply assign_block_ok|apply IH; auto].
Qed.

Lemma corners_nth {A} (prisms : list (prism_of A)) : forall i v p, nth_error prisms i = Some p -> (v < 8)%nat ->
  nth_error (concat (map vtk_corners prisms)) (8 * i + v) = nth_error (vtk_corners p) v.
Proof.
  induction prisms as [|q ps IH]; intros [|i] v p H Hv; try discriminate; cbn [map concat].
  - injection H as <-. rewrite nth_error_app1 by exact Hv. f_equal.
  - rewrite nth_error_app2 by (cbn [vtk_corners length]; lia).
    replace (8 * S i + v - length (vtk_corners q))%nat with (8 * i + v)%nat by (cbn [vtk_corners length]; lia). now apply IH.
Qed.
Lemma cells_nth n i : (i < n)%nat -> nth_error (vtk_cells n) i = Some (seq (8 * i) 8).
Proof. intros H. unfold vtk_cells, range. rewrite Nat.sub_0_r, nth_error_map, (nth_error_nth' _ 0%nat) by (rewrite seq_length; exact H). rewrite seq_nth by exact H. reflexivity. Qed.

Lemma cell_corners {A} (prisms : list (prism_of A)) i p cell : nth_error prisms i = Some p -> nth_error (vtk_cells (length prisms)) i = Some cell ->
  map (nth_error (concat (map vtk_corners prisms))) cell = map Some (vtk_corners p).
Proof.
  intros H. rewrite cells_nth by (apply nth_error_Some; congruence). intros [= <-].
  pose proof (corners_nth prisms i) as C. cbn [seq map vtk_corners].
  repeat match goal with |- _ :: _ = _ :: _ => f_equal end; try reflexivity;
  match goal with |- nth_error _ ?k = _ => first
   [ replace k with (8*i+0)%nat by lia; rewrite (C 0%nat p H) by lia; reflexivity
   | replace k with (8*i+1)%nat by lia; rewrite (C 1%nat p H) by lia; reflexivity
   | replace k with (8*i+2)%nat by lia; rewrite (C 2%nat p H) by lia; reflexivity
   | replace k with (8*i+3)%nat by lia; rewrite (C 3%nat p H) by lia; reflexivity
   | replace k with (8*i+4)%nat by lia; rewrite (C 4%nat p H) by lia; reflexivity
   | replace k with (8*i+5)%nat by lia; rewrite (C 5%nat p H) by lia; reflexivity
   | replace k with (8*i+6)%nat by lia; rewrite (C 6%nat p H) by lia; reflexivity
   | replace k with (8*i+7)%nat by lia; rewrite (C 7%nat p H) by lia; reflexivity ] end.
Qed.
