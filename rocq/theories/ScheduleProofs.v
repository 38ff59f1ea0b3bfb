From Verif Require Import Base BaseFacts NumPy NumPyFacts ScheduleModel.

Section Machine.
Context {C V : Type}.
Variable C_eq : forall a b : C, {a = b} + {a <> b}.
Notation step := (step C_eq).
Notation run := (run C_eq).
Notation mset := (mset C_eq).
Notation do_update := (do_update C_eq).

Lemma mset_eq (m : C -> V) c v : mset m c v c = v.
Proof. unfold ScheduleModel.mset; destruct (C_eq c c); congruence. Qed.
Lemma mset_neq (m : C -> V) c c' v : c <> c' -> mset m c v c' = m c'.
Proof. unfold ScheduleModel.mset; destruct (C_eq c c'); congruence. Qed.

Lemma run_app s1 s2 (s : @config C V) : run (s1 ++ s2) s = run s2 (run s1 s).
Proof. unfold ScheduleModel.run. apply fold_left_app. Qed.

(** The updates still to be applied by iteration [i]; a pending load is still to be stored. *)
Definition cells (s : @config C V) (i : nat) : list C := map fst (fst (loc s i)).

Lemma step_cells (s : @config C V) i j c : In c (cells (step i s) j) -> In c (cells s j).
Proof.
  unfold cells, ScheduleModel.step. destruct (loc s i) as [[|[c' f] p] [v|]] eqn:E; auto; simpl; unfold lset.
  - destruct (Nat.eq_dec i j) as [<-|]; auto. rewrite E; simpl; auto.
  - destruct (Nat.eq_dec i j) as [<-|]; auto. rewrite E; simpl; auto.
Qed.

Lemma step_loc_neq (s : @config C V) i j : i <> j -> loc (step i s) j = loc s j.
Proof.
  intros H. unfold ScheduleModel.step. destruct (loc s i) as [[|[c' f] p] [v|]]; auto; simpl; unfold lset;
    destruct (Nat.eq_dec i j); congruence.
Qed.

Lemma step_mem_out (s : @config C V) i c : ~ In c (cells s i) -> mem (step i s) c = mem s c.
Proof.
  unfold cells, ScheduleModel.step. destruct (loc s i) as [[|[c' f] p] [v|]]; auto; simpl.
  intros H. apply mset_neq. tauto.
Qed.

(** Iteration [i] behaves the same in configurations that agree on its state and its cells. *)
Definition agree (i : nat) (D : C -> Prop) (s t : @config C V) : Prop :=
  loc s i = loc t i /\ forall c, D c -> mem s c = mem t c.

Lemma step_agree i (D : C -> Prop) (s t : @config C V) : (forall c, In c (cells s i) -> D c) -> agree i D s t -> agree i D (step i s) (step i t).
Proof.
  intros HD [Hl Hm]. unfold agree, ScheduleModel.step. rewrite <- Hl. unfold cells in HD.
  destruct (loc s i) as [[|[c f] p] [v|]] eqn:E; simpl in *.
  - split; congruence || auto.
  - split; congruence || auto.
  - split; [unfold lset; destruct (Nat.eq_dec i i); congruence|].
    intros c' Hc'. unfold ScheduleModel.mset. destruct (C_eq c c'); auto.
  - split; [|auto]. unfold lset; destruct (Nat.eq_dec i i); [|congruence]. rewrite (Hm c); auto.
Qed.

Fixpoint count (i : nat) (l : list nat) : nat :=
  match l with [] => 0%nat | j :: l' => if Nat.eq_dec j i then S (count i l') else count i l' end.

Lemma run_cells sched : forall (s : @config C V) j c, In c (cells (run sched s) j) -> In c (cells s j).
Proof.
  induction sched as [|i l IH]; intros s j c H; simpl in *; auto.
  apply step_cells with i. apply IH; exact H.
Qed.

(** What iteration [i] sees after any schedule is what it sees when running alone. *)
Lemma run_solo n i (D : C -> Prop) sched : forall (s t : @config C V),
  (i < n)%nat -> Forall (fun j => (j < n)%nat) sched ->
  (forall c, In c (cells s i) -> D c) ->
  (forall j c, (j < n)%nat -> j <> i -> In c (cells s j) -> ~ D c) ->
  agree i D s t -> agree i D (run sched s) (run (repeat i (count i sched)) t).
Proof.
  induction sched as [|j l IH]; intros s t Hi Hl HD Hx HA; simpl; auto.
  inversion Hl as [|? ? Hj Hl']; subst. destruct (Nat.eq_dec j i) as [->|Hji].
  - simpl. apply IH; auto.
    + intros c Hc; apply HD. eapply step_cells; eassumption.
    + intros k c Hk Hki Hc. apply (Hx k); auto. eapply step_cells; eassumption.
    + apply step_agree; auto.
  - apply IH; auto.
    + intros c Hc; apply HD. eapply step_cells; eassumption.
    + intros k c Hk Hki Hc. apply (Hx k); auto. eapply step_cells; eassumption.
    + destruct HA as [A B]. split; [rewrite step_loc_neq; auto|].
      intros c Hc. rewrite <- B by auto. apply step_mem_out. intros K. now apply (Hx j c).
Qed.

Lemma solo_done i (s : @config C V) k : fst (loc s i) = [] -> run (repeat i k) s = s.
Proof.
  intros H. induction k as [|k IH]; [reflexivity|].
  assert (E : step i s = s) by (unfold ScheduleModel.step; destruct (loc s i) as [[|[c f] p] o]; [reflexivity|discriminate]).
  unfold ScheduleModel.run in *; cbn [repeat fold_left]. rewrite E. exact IH.
Qed.

Lemma repeat_app_plus {A} (x : A) a b : repeat x (a + b) = repeat x a ++ repeat x b.
Proof. apply repeat_app. Qed.

Lemma solo_done_unique i (s : @config C V) k1 k2 :
  fst (loc (run (repeat i k1) s) i) = [] -> fst (loc (run (repeat i k2) s) i) = [] ->
  run (repeat i k1) s = run (repeat i k2) s.
Proof.
  intros H1 H2. destruct (Nat.le_ge_cases k1 k2) as [H|H].
  - replace k2 with (k1 + (k2 - k1))%nat by lia. now rewrite repeat_app, run_app, (solo_done i (run (repeat i k1) s)).
  - replace k1 with (k2 + (k1 - k2))%nat by lia. now rewrite repeat_app, run_app, (solo_done i (run (repeat i k2) s)).
Qed.

Lemma run_mem_out n sched : forall (s : @config C V) c, Forall (fun j => (j < n)%nat) sched ->
  (forall j, (j < n)%nat -> ~ In c (cells s j)) -> mem (run sched s) c = mem s c.
Proof.
  induction sched as [|i l IH]; intros s c Hl H; simpl; auto.
  inversion Hl; subst. rewrite IH; auto.
  - apply step_mem_out; auto.
  - intros j Hj K. apply (H j Hj). eapply step_cells; eassumption.
Qed.

Lemma find_owner n (s : @config C V) c : (exists i, (i < n)%nat /\ In c (cells s i)) \/ (forall i, (i < n)%nat -> ~ In c (cells s i)).
Proof.
  induction n as [|n IH]; [right; intros; lia|].
  destruct IH as [(i & Hi & H)|H]; [left; exists i; split; [lia|assumption]|].
  destruct (in_dec C_eq c (cells s n)) as [K|K]; [left; exists n; split; [lia|assumption]|].
  right; intros i Hi. destruct (Nat.eq_dec i n) as [->|]; [assumption|apply H; lia].
Qed.

(** Any two schedules that complete all iterations leave the same memory. *)
Lemma schedules_agree n (prog : nat -> list (@update C V)) m s1 s2 :
  disjoint n prog ->
  Forall (fun j => (j < n)%nat) s1 -> Forall (fun j => (j < n)%nat) s2 ->
  complete n (run s1 (start prog m)) -> complete n (run s2 (start prog m)) ->
  forall c, mem (run s1 (start prog m)) c = mem (run s2 (start prog m)) c.
Proof.
  intros HD H1 H2 C1 C2 c.
  destruct (find_owner n (start prog m) c) as [(i & Hi & Hc)|Hno].
  - set (D := fun c => In c (cells (start prog m) i)).
    assert (X : forall s, Forall (fun j => (j < n)%nat) s -> agree i D (run s (start prog m)) (run (repeat i (count i s)) (start prog m))).
    { intros s Hs. apply run_solo with n; auto.
      - intros j c' Hj Hji Hc' HDc. apply Hji. eapply HD; eauto.
      - split; auto. }
    destruct (X s1 H1) as [L1 M1], (X s2 H2) as [L2 M2].
    rewrite M1, M2 by exact Hc. f_equal. apply solo_done_unique; [rewrite <- L1|rewrite <- L2]; auto.
  - rewrite !(run_mem_out n) by auto. reflexivity.
Qed.

(** The serial loop is one such schedule. *)
Lemma run_thread i : forall p (s : @config C V), loc s i = (p, None) ->
  let s' := run (repeat i (2 * length p)) s in
  (forall c, mem s' c = fold_left do_update p (mem s) c) /\ loc s' i = ([], None) /\ forall j, j <> i -> loc s' j = loc s j.
Proof.
  induction p as [|[c f] p IH]; intros s H; cbv zeta.
  - simpl. rewrite H. auto.
  - cbn [length]. replace (2 * S (length p))%nat with (S (S (2 * length p)))%nat by lia.
    cbn [repeat]. unfold ScheduleModel.run; cbn [fold_left]. fold (run (repeat i (2 * length p)) (step i (step i s))).
    set (s2 := step i (step i s)).
    assert (E : s2 = Config (mset (mem s) c (f (mem s c))) (lset (lset (loc s) i ((c, f) :: p, Some (mem s c))) i (p, None))).
    { unfold s2. unfold ScheduleModel.step at 2. rewrite H. unfold ScheduleModel.step; cbn [loc mem].
      unfold lset at 1. destruct (Nat.eq_dec i i) as [_|Hn]; [reflexivity|exfalso; apply Hn; reflexivity]. }
    destruct (IH s2) as (A & B & D).
    { rewrite E; cbn [loc]. unfold lset. destruct (Nat.eq_dec i i) as [_|Hn]; [reflexivity|exfalso; apply Hn; reflexivity]. }
    split; [|split; auto].
    + intros c'. rewrite A, E. reflexivity.
    + intros j Hj. rewrite D by auto. rewrite E; simpl. unfold lset. destruct (Nat.eq_dec i j); congruence.
Qed.

Lemma do_update_ext (p : list update) : forall (m m' : C -> V), (forall c, m c = m' c) ->
  forall c, fold_left do_update p m c = fold_left do_update p m' c.
Proof.
  induction p as [|[c0 f] p IH]; intros m m' H c; simpl; auto.
  apply IH. intros c'. unfold ScheduleModel.do_update, ScheduleModel.mset; simpl. rewrite !H. destruct (C_eq c0 c'); auto.
Qed.

Definition serial_schedule (n : nat) (prog : nat -> list (@update C V)) : list nat :=
  flat_map (fun i => repeat i (2 * length (prog i))) (range 0 n).

Lemma range_S n : range 0 (S n) = range 0 n ++ [n].
Proof. unfold range. rewrite !Nat.sub_0_r, seq_S. reflexivity. Qed.

Lemma serial_schedule_run n (prog : nat -> list (@update C V)) m :
  let s := run (serial_schedule n prog) (start prog m) in
  (forall c, mem s c = serial C_eq n prog m c) /\
  (forall i, (i < n)%nat -> fst (loc s i) = []) /\ (forall i, (n <= i)%nat -> loc s i = (prog i, None)).
Proof.
  induction n as [|n IH]; cbv zeta in *.
  - repeat split; intros; auto; lia.
  - destruct IH as (A & B & D). unfold serial_schedule in *. rewrite range_S, flat_map_app, run_app.
    set (s := run _ (start prog m)) in *. cbn [flat_map]. rewrite app_nil_r.
    destruct (run_thread n (prog n) s) as (A' & B' & D'); [apply D; lia|].
    repeat split.
    + intros c. rewrite A'. unfold serial. rewrite range_S, flat_map_app, fold_left_app. cbn [flat_map]. rewrite app_nil_r.
      apply do_update_ext. exact A.
    + intros i Hi. destruct (Nat.eq_dec i n) as [->|]; [now rewrite B'|]. rewrite D' by auto. apply B; lia.
    + intros i Hi. rewrite D' by lia. apply D; lia.
Qed.

Lemma serial_schedule_valid n prog : Forall (fun j => (j < n)%nat) (serial_schedule n prog).
Proof.
  apply Forall_forall. intros i Hi. unfold serial_schedule in Hi. apply in_flat_map in Hi. destruct Hi as (k & Hk & H).
  apply range_in in Hk. apply repeat_spec in H. lia.
Qed.

Lemma schedule_independent n (prog : nat -> list (@update C V)) m sched :
  disjoint n prog -> Forall (fun j => (j < n)%nat) sched -> complete n (run sched (start prog m)) ->
  forall c, mem (run sched (start prog m)) c = serial C_eq n prog m c.
Proof.
  intros HD Hs Hc c. destruct (serial_schedule_run n prog m) as (A & B & _).
  rewrite <- A. apply (schedules_agree n); auto. apply serial_schedule_valid.
Qed.

Lemma complete_exists n (prog : nat -> list (@update C V)) m : exists sched,
  Forall (fun j => (j < n)%nat) sched /\ complete n (run sched (start prog m)).
Proof.
  exists (serial_schedule n prog). split; [apply serial_schedule_valid|]. exact (proj1 (proj2 (serial_schedule_run n prog m))).
Qed.

(** Every fair run finishes: iteration [i] needs exactly two accesses per update. *)
Lemma solo_complete i (s : @config C V) k : loc s i = (fst (loc s i), None) -> (2 * length (fst (loc s i)) <= k)%nat ->
  fst (loc (run (repeat i k) s) i) = [].
Proof.
  intros H Hk. destruct (run_thread i (fst (loc s i)) s H) as (_ & B & _).
  replace k with (2 * length (fst (loc s i)) + (k - 2 * length (fst (loc s i))))%nat by lia.
  rewrite repeat_app, run_app, solo_done; rewrite B; reflexivity.
Qed.

Lemma enough_accesses n (prog : nat -> list (@update C V)) m sched :
  disjoint n prog -> Forall (fun j => (j < n)%nat) sched ->
  (forall i, (i < n)%nat -> (2 * length (prog i) <= count i sched)%nat) -> complete n (run sched (start prog m)).
Proof.
  intros HD Hs Hk i Hi.
  destruct (run_solo n i (fun c => In c (cells (start prog m) i)) sched (start prog m) (start prog m)) as [L _]; auto.
  - intros j c Hj Hji Hc K. apply Hji. eapply HD; eauto.
  - split; auto.
  - rewrite L. apply solo_complete; [reflexivity|]. cbn [loc start fst]. auto.
Qed.
End Machine.

(** The loops touch disjoint cells. *)
Section Loops.
Context {V : Type}.
Variable plus : V -> V -> V.

Lemma disjoint_accumulate n m contrib : disjoint n (prog_accumulate plus m contrib).
Proof.
  intros i j c _ _ Hi Hj. unfold prog_accumulate in *. rewrite map_map in *. apply in_map_iff in Hi, Hj.
  destruct Hi as (a & <- & _), Hj as (b & E & _). simpl in E. auto.
Qed.
Lemma disjoint_accumulate_list n contribs : disjoint n (prog_accumulate_list plus contribs).
Proof.
  intros i j c _ _ Hi Hj. unfold prog_accumulate_list in *. rewrite map_map in *. apply in_map_iff in Hi, Hj.
  destruct Hi as (a & <- & _), Hj as (b & E & _). simpl in E. auto.
Qed.
Lemma cells_vector m contrib i c : In c (map fst (prog_vector plus m contrib i)) -> snd c = i.
Proof.
  unfold prog_vector. intros H. apply in_map_iff in H. destruct H as (u & <- & H). apply in_flat_map in H.
  destruct H as (j & _ & H). destruct (contrib i j) as [[b0 b1] b2]. simpl in H. intuition subst; reflexivity.
Qed.
Lemma disjoint_vector n m contrib : disjoint n (prog_vector plus m contrib).
Proof. intros i j c _ _ Hi Hj. apply cells_vector in Hi, Hj. congruence. Qed.
Lemma disjoint_rows n m (value : nat -> nat -> V) : disjoint n (prog_rows m value).
Proof.
  intros i j c _ _ Hi Hj. unfold prog_rows in *. rewrite map_map in *. apply in_map_iff in Hi, Hj.
  destruct Hi as (a & <- & _), Hj as (b & E & _). simpl in E. congruence.
Qed.
Lemma disjoint_igrf n m contrib fin : disjoint n (prog_igrf plus m contrib fin).
Proof.
  assert (K : forall i c, In c (map fst (prog_igrf plus m contrib fin i)) -> snd c = i).
  { intros i c H. unfold prog_igrf in H. rewrite map_app, in_app_iff in H. destruct H as [H|[<-|[]]]; [|reflexivity].
    now apply cells_vector in H. }
  intros i j c _ _ Hi Hj. apply K in Hi, Hj. congruence.
Qed.
Lemma disjoint_igrf_grid n n_lon m contrib fin : disjoint n (prog_igrf_grid plus n_lon m contrib fin).
Proof.
  assert (K : forall i c, In c (map fst (prog_igrf_grid plus n_lon m contrib fin i)) -> fst (snd c) = i).
  { intros i c H. unfold prog_igrf_grid in H. apply in_map_iff in H. destruct H as (u & <- & H). apply in_flat_map in H.
    destruct H as (j & _ & H). apply in_app_iff in H. destruct H as [H|[<-|[]]]; [|reflexivity].
    apply in_flat_map in H. destruct H as (k & _ & H). destruct (contrib i j k) as [[b0 b1] b2].
    simpl in H. intuition subst; reflexivity. }
  intros i j c _ _ Hi Hj. apply K in Hi, Hj. congruence.
Qed.
End Loops.

(** The serial result of the accumulating loop, cell by cell. *)
Lemma serial_accumulate {V} (plus : V -> V -> V) n m contrib mem0 i : (i < n)%nat ->
  serial Nat.eq_dec n (prog_accumulate plus m contrib) mem0 i
  = fold_left (fun v j => plus v (contrib i j)) (range 0 m) (mem0 i).
Proof.
  intros Hi. unfold serial.
  assert (G : forall l (f : nat -> V) M k, k = i ->
     fold_left (do_update Nat.eq_dec) (map (fun j => (k, fun v => plus v (f j))) l) M i
     = fold_left (fun v j => plus v (f j)) l (M i)).
  { induction l as [|j l IH]; intros f M k ->; simpl; auto. rewrite IH by auto. f_equal.
    unfold do_update; simpl. apply mset_eq. }
  assert (N : forall l (f : nat -> V) M k, k <> i ->
     fold_left (do_update Nat.eq_dec) (map (fun j => (k, fun v => plus v (f j))) l) M i = M i).
  { induction l as [|j l IH]; intros f M k Hk; simpl; auto. rewrite IH by auto.
    unfold do_update; simpl. now apply mset_neq. }
  assert (F : forall l M, ~ In i l -> fold_left (do_update Nat.eq_dec) (flat_map (prog_accumulate plus m contrib) l) M i = M i).
  { induction l as [|k l IH]; intros M H; simpl; auto. rewrite fold_left_app, IH by (simpl in H; tauto).
    apply N. simpl in H. intuition. }
  revert mem0. induction n as [|n IH]; intros mem0; [lia|].
  rewrite range_S, flat_map_app, fold_left_app. cbn [flat_map]. rewrite app_nil_r.
  destruct (Nat.eq_dec i n) as [->|Hne].
  - unfold prog_accumulate at 1. rewrite G by auto. f_equal. apply F. intros K; apply range_in in K; lia.
  - unfold prog_accumulate at 1. rewrite N by auto. apply IH. lia.
Qed.

Lemma fold_left_plus_R {A} (f : A -> R) l x : fold_left (fun v j => v + f j) l x = x + sum_over l f.
Proof.
  revert x; induction l as [|a l IH]; intros x; simpl; [unfold sum_over; simpl; ring|].
  rewrite IH, sum_over_cons; ring.
Qed.
