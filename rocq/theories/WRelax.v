(** Concrete populations for the long-run theorems: a fully connected model with given settings and agents. *)
From Verif Require Import Base BaseFacts Arith64 RFacts MRandom SRandom MNetwork SNetwork MAgents MDeGroot MActivity SActivity SRelax.
From Coq Require Import Reals Lra.
Local Open Scope R_scope.

Definition complete_model (st : ad_settings R) (l : list (activity_agent R)) : ad_model (a:=RA) (activity_agent (F RA)) :=
  mkAD (a:=RA) (A:=activity_agent (F RA)) (mkBase None 0) st
    (mkNet (A:=activity_agent (F RA)) (W:=F RA) l (repeat (seq 0 (length l)) (length l)) (repeat (repeat 0 (length l)) (length l)) Incoming)
    (repeat (repeat 0 (length l)) (length l)).
Lemma nth_repeat_in {X} (x d : X) n i : (i < n)%nat -> nth i (repeat x n) d = x.
Proof. revert i. induction n as [|n IH]; intros [|i] H; cbn; try lia; auto. apply IH. lia. Qed.
Lemma complete_ready (st : ad_settings R) l : settings_fit (a:=RA) st (length l) -> (n_bots st <= length l)%nat ->
  (n_bots st <= length (bot_opinion st))%nat -> ad_ready (complete_model st l).
Proof.
  intros Hf Hb Hb'. split.
  { split; [cbn; apply repeat_length|]. split; [cbn; apply repeat_length|]. split.
    - intros i Hi. cbn in *. rewrite !nth_repeat_in by exact Hi. now rewrite seq_length, repeat_length.
    - intros i j Hj. cbn in *. destruct (le_lt_dec (length l) i) as [Hi|Hi].
      + rewrite nth_overflow in Hj by (rewrite repeat_length; exact Hi). destruct Hj.
      + rewrite nth_repeat_in in Hj by exact Hi. apply in_seq in Hj. lia. }
  split; [reflexivity|]. split; [exact Hf|]. split; [exact Hb|]. split; [exact Hb'|]. intros _. split.
  - split; [reflexivity|]. cbn. apply repeat_length.
  - cbn. apply repeat_length.
Qed.
(** Settings: time step, contacts, controversialness, reciprocity, interaction strength; no homophily, mean-field. *)
Definition field_settings (h : R) (mc : Z) (al r kk : R) (nb : nat) (bm : list Z) (bo : list R) : ad_settings R :=
  mkADS None h mc (1/100) (21/10) al 0 r kk false true nb bm (map (fun _ => 1) bo) bo (map (fun _ => 0) bo) false 1 1 (1/100) 0.
Lemma field_fit h mc al r kk nb bm bo n : (0 <= mc <= Z.of_nat n)%Z -> (mc < 2147483648)%Z -> (nb <= length bm)%nat -> (nb <= length bo)%nat ->
  Forall (fun z => 0 <= z <= Z.of_nat n /\ z < 2147483648)%Z bm -> settings_fit (a:=RA) (field_settings h mc al r kk nb bm bo) n.
Proof.
  intros H1 H2 H3 H4 H5. split; [exact H1|]. split; [exact H2|]. split; [exact H3|]. split; [cbn; now rewrite map_length|].
  intros i Hi. cbn in *. rewrite Forall_forall in H5. apply H5. apply nth_In. lia.
Qed.
