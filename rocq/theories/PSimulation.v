(** Proofs about the run loop. *)
From Verif Require Import Base BaseFacts Arith64 MRandom MNetwork MText PText MNetFile MAgents MDeGroot MDeffuant MActivity MConfig MSimulation SSimulation.

Section Run.
Context {a : Arith} (w : world a).
Notation state := (model (a:=a) * rst (w_gen w))%type.

Lemma iteration_base (x : model (a:=a)) s x' s' : model_iteration w x s = Ok (x', s') ->
  base_of x' = base_iteration (base_of x) /\ kind_of x' = kind_of x.
Proof.
  destruct x as [d|d|d|d|d]; cbn [model_iteration]; intros E.
  - unfold degroot_iteration in E. destruct (degroot_average _ _); cbn [bind] in E; try discriminate.
    destruct (degroot_update _ _) as [[? ?]| | |]; cbn [bind] in E; try discriminate. injection E as <- <-. auto.
  - unfold simple_iteration, deffuant_iteration in E. destruct (for_n _ _ _) as [[? ?]| | |]; cbn [bind] in E; try discriminate.
    injection E as <- <-. auto.
  - unfold vector_iteration, deffuant_iteration in E. destruct (for_n _ _ _) as [[? ?]| | |]; cbn [bind] in E; try discriminate.
    injection E as <- <-. auto.
  - unfold activity_iteration in E. destruct (update_network _ _ _ _ _ _ _ _) as [[[? ?] ?]| | |]; cbn [bind] in E; try discriminate.
    destruct (rk4_slopes _ _ _); cbn [bind] in E; try discriminate.
    destruct (rk4_update _ _ _); cbn [bind] in E; try discriminate.
    destruct (reset_bots _ _ _); cbn [bind] in E; try discriminate. injection E as <- <-. auto.
  - unfold inertial_iteration in E. destruct (update_network _ _ _ _ _ _ _ _) as [[[? ?] ?]| | |]; cbn [bind] in E; try discriminate.
    destruct (calc_position _ _ _ _) as [[? ?]| | |]; cbn [bind] in E; try discriminate.
    destruct (calc_velocity _ _ _ _ _); cbn [bind] in E; try discriminate.
    destruct (reset_bots _ _ _); cbn [bind] in E; try discriminate. injection E as <- <-. auto.
Qed.

(** The plan for the state after iteration [i], when [j] iterations were done before [st 0]. *)
Definition plan_at (os : output_settings) (st : nat -> state) (j i : nat) : list planned :=
  let n := (Z.of_nat (j + i) + start_numbering_from os)%Z in
  (if is_due (n_output_agents os) (start_output os) (j + i) then [(OpinionsFile, n, fst (st i))] else []) ++
  (if is_due (n_output_network os) (start_output os) (j + i) then [(NetworkFile, n, fst (st i))] else []).

Lemma due_ok every start i b : due every start (Z.of_nat i) = Ok b -> b = is_due every start i.
Proof.
  unfold due, is_due. destruct every as [k|]; [|now intros [= <-]].
  destruct (start <=? Z.of_nat i)%Z; cbn [andb]; [|now intros [= <-]].
  destruct (k =? 0)%Z; [discriminate|]. now intros [= <-].
Qed.

Lemma flat_map_seq_shift {X} (f : nat -> list X) n i : flat_map f (seq (S i) n) = flat_map (fun k => f (S k)) (seq i n).
Proof. rewrite <- seq_shift, flat_map_concat_map, map_map, <- flat_map_concat_map. reflexivity. Qed.

Lemma run_loop_spec os : forall fuel x s log x' s' log' j,
  n_iterations x = Z.of_nat j -> (0 <= start_numbering_from os)%Z ->
  (Z.of_nat (j + fuel) + start_numbering_from os < 2 ^ 64)%Z ->
  run_loop w fuel os x s log = Ok (x', s', log') ->
  exists k st files, k < fuel /\ st 0 = (x, s) /\ st k = (x', s') /\ trajectory w st k /\ model_finished x' = true /\
    n_iterations x' = Z.of_nat (j + k) /\
    log' = log ++ files /\ Forall2 (shows w) (flat_map (plan_at os st j) (seq 1 k)) files.
Proof.
  induction fuel as [|fuel IH]; intros x s log x' s' log' j HN H0 HB E; cbn [run_loop] in E; [discriminate|].
  destruct (model_finished x) eqn:EF.
  - injection E as <- <- <-. exists 0, (fun _ => (x, s)), []. split; [lia|]. split; auto. split; auto.
    split; [intros i Hi; lia|]. split; auto. split; [rewrite Nat.add_0_r; auto|]. split; [now rewrite app_nil_r|constructor].
  - destruct (model_iteration w x s) as [[x1 s1]| | |] eqn:EI; try discriminate. cbn [bind] in E.
    destruct (iteration_base _ _ _ _ EI) as [HB1 HK1].
    assert (HN1 : n_iterations x1 = Z.of_nat (j + 1)).
    { unfold n_iterations in *. rewrite HB1. cbn [base_iteration iterations]. rewrite HN. unfold to_size_t.
      rewrite Z.mod_small; lia. }
    assert (HM : to_size_t (n_iterations x1 + start_numbering_from os) = (Z.of_nat (j + 1) + start_numbering_from os)%Z).
    { rewrite HN1. unfold to_size_t. rewrite Z.mod_small; lia. }
    rewrite HM in E. rewrite HN1 in E.
    destruct (due (n_output_agents os) _ _) as [b1| | |] eqn:Eb1; try discriminate. cbn [bind] in E. apply due_ok in Eb1.
    match type of E with (log <- ?m ;; _) = _ => destruct m as [log1| | |] eqn:El1; try discriminate end. cbn [bind] in E.
    destruct (due (n_output_network os) _ _) as [b2| | |] eqn:Eb2; try discriminate. cbn [bind] in E. apply due_ok in Eb2.
    match type of E with (log <- ?m ;; _) = _ => destruct m as [log2| | |] eqn:El2; try discriminate end. cbn [bind] in E.
    destruct (IH x1 s1 log2 x' s' log' (j + 1) HN1 H0 ltac:(lia) E) as (k & st & files & K1 & K2 & K3 & K4 & K5 & K6 & K7 & K8).
    assert (FF : exists fs, log2 = log ++ fs /\ Forall2 (shows w) (plan_at os (fun i => match i with 0 => (x, s) | S i => st i end) j 1) fs).
    { unfold plan_at. cbn [fst]. rewrite K2. cbn [fst]. rewrite <- Eb1, <- Eb2.
      destruct b1.
      - unfold write_opinions in El1. destruct (write_agents _ _ _) as [c1| | |] eqn:W1; try discriminate. cbn [bind] in El1. injection El1 as <-.
        destruct b2.
        + unfold write_network in El2. destruct (network_to_file _ _) as [c2| | |] eqn:W2; try discriminate. cbn [bind] in El2. injection El2 as <-.
          eexists. split; [rewrite <- app_assoc; reflexivity|]. cbn [app]. repeat constructor; auto.
        + injection El2 as <-. eexists. split; [reflexivity|]. cbn [app]. repeat constructor; auto.
      - injection El1 as <-. destruct b2.
        + unfold write_network in El2. destruct (network_to_file _ _) as [c2| | |] eqn:W2; try discriminate. cbn [bind] in El2. injection El2 as <-.
          eexists. split; [reflexivity|]. cbn [app]. repeat constructor; auto.
        + injection El2 as <-. exists []. split; [now rewrite app_nil_r|]. constructor. }
    destruct FF as (fs & -> & HFS).
    exists (S k), (fun i => match i with 0 => (x, s) | S i => st i end), (fs ++ files).
    split; [lia|]. split; auto. split; auto. split.
    { intros [|i] Hi; cbn [fst snd]; [split; auto; now rewrite K2|]. apply K4. lia. }
    split; auto. split; [rewrite K6; f_equal; lia|]. split; [now rewrite K7, app_assoc|].
    cbn [seq flat_map]. apply Forall2_app; auto. rewrite flat_map_seq_shift.
    erewrite flat_map_ext; [exact K8|]. intros i. unfold plan_at. cbn beta iota. replace (j + S i) with (j + 1 + i) by lia. reflexivity.
Qed.

Lemma init_iterations (x : model (a:=a)) : n_iterations (model_initialize_iterations x) = 0%Z /\
  max_iterations (base_of (model_initialize_iterations x)) = max_iterations (base_of x) /\
  kind_of (model_initialize_iterations x) = kind_of x.
Proof. now destruct x. Qed.

Lemma schedule_alt os x0 (st : nat -> state) k : schedule w os x0 st k =
  (if output_initial os then [(NetworkFile, start_numbering_from os, x0); (OpinionsFile, start_numbering_from os, x0)] else []) ++
  flat_map (plan_at os st 0) (seq 1 k).
Proof. reflexivity. Qed.

Lemma run_spec fuel os x s x' s' log : (0 <= start_numbering_from os)%Z ->
  (Z.of_nat fuel + start_numbering_from os < 2 ^ 64)%Z ->
  run w fuel os x s = Ok (x', s', log) ->
  exists k st, k < fuel /\ st 0 = (model_initialize_iterations x, s) /\ st k = (x', s') /\ trajectory w st k /\
    model_finished x' = true /\ n_iterations x' = Z.of_nat k /\
    Forall2 (shows w) (schedule w os x st k) log.
Proof.
  intros H0 HB E. unfold run in E.
  match type of E with (log <- ?m ;; _) = _ => destruct m as [log0| | |] eqn:EL; try discriminate end. cbn [bind] in E.
  destruct (run_loop_spec os fuel _ _ _ _ _ _ 0 (proj1 (init_iterations x)) H0 ltac:(lia) E) as (k & st & files & K1 & K2 & K3 & K4 & K5 & K6 & K7 & K8).
  exists k, st. repeat (split; [assumption|]). rewrite schedule_alt, K7. apply Forall2_app; auto.
  destruct (output_initial os); [|injection EL as <-; constructor].
  unfold write_network, write_opinions in EL. destruct (network_to_file _ _) as [c1| | |] eqn:W1; try discriminate. cbn [bind] in EL.
  destruct (write_agents _ _ _) as [c2| | |] eqn:W2; try discriminate. cbn [bind] in EL. injection EL as <-.
  repeat constructor; auto.
Qed.

(** Along a trajectory the counter counts and the limit stays. *)
Lemma trajectory_counts (st : nat -> state) k : trajectory w st k -> n_iterations (fst (st 0)) = 0%Z ->
  (Z.of_nat k < 2 ^ 64)%Z -> forall i, i <= k ->
  n_iterations (fst (st i)) = Z.of_nat i /\
  max_iterations (base_of (fst (st i))) = max_iterations (base_of (fst (st 0))) /\
  kind_of (fst (st i)) = kind_of (fst (st 0)).
Proof.
  intros T H0 HB. induction i as [|i IH]; intros Hi; [auto|].
  destruct (T i ltac:(lia)) as [_ E]. destruct (st (S i)) as [x' s'] eqn:ES. cbn [fst].
  destruct (iteration_base _ _ _ _ E) as [B K]. destruct (IH ltac:(lia)) as (I1 & I2 & I3).
  unfold n_iterations in *. rewrite B. cbn [base_iteration iterations max_iterations]. rewrite I1. unfold to_size_t.
  rewrite Z.mod_small by lia. split; [lia|]. split; auto. congruence.
Qed.

Lemma base_finished_spec b : base_finished b = true <-> exists m, max_iterations b = Some m /\ (m <= iterations b)%Z.
Proof.
  unfold base_finished. destruct (max_iterations b) as [m|].
  - rewrite Z.leb_le. split; [eauto|]. intros (m' & [= <-] & H). auto.
  - split; [discriminate|]. intros (m & ? & _). discriminate.
Qed.

Lemma finished_counts_only (x : model (a:=a)) : counts_only x -> model_finished x = base_finished (base_of x).
Proof. intros H. destruct x; auto. destruct (H x eq_refl). Qed.
Lemma counts_only_next (x x' : model (a:=a)) s s' : counts_only x -> model_iteration w x s = Ok (x', s') -> counts_only x'.
Proof.
  intros H E d ->. destruct x as [d'|d'|d'|d'|d']; cbn [model_iteration] in E.
  - destruct (H d' eq_refl).
  - destruct (simple_iteration _ _ _) as [[? ?]| | |]; discriminate.
  - destruct (vector_iteration _ _ _) as [[? ?]| | |]; discriminate.
  - destruct (activity_iteration _ _ _ _ _) as [[? ?]| | |]; discriminate.
  - destruct (inertial_iteration _ _ _ _ _) as [[? ?]| | |]; discriminate.
Qed.
Lemma counts_only_trajectory (st : nat -> state) k : trajectory w st k -> counts_only (fst (st 0)) ->
  forall i, i <= k -> counts_only (fst (st i)).
Proof.
  intros T H. induction i as [|i IH]; intros Hi; auto. destruct (T i ltac:(lia)) as [_ E].
  destruct (st (S i)) as [x' s'] eqn:ES. cbn [fst]. eapply counts_only_next; [|exact E]. apply IH. lia.
Qed.
Lemma counts_only_init (x : model (a:=a)) : counts_only x -> counts_only (model_initialize_iterations x).
Proof. intros H d. destruct x; cbn; try discriminate. destruct (H x eq_refl). Qed.
Lemma finished_limit (x : model (a:=a)) : base_finished (base_of x) = true -> model_finished x = true.
Proof. destruct x; cbn [model_finished base_of]; auto. unfold degroot_finished. intros ->. reflexivity. Qed.
End Run.
