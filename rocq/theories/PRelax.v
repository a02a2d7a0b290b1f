(** The Runge-Kutta step of one agent as a mixture, for SRelax. *)
From Verif Require Import Base BaseFacts Arith64 RFacts MRandom SRandom PRandom MDist MNetwork SNetwork PNetwork PNetwork2
  MAgents MDeGroot MActivity SActivity PActStep PActNet PActIter PActMean PActIter2 PActThm PActSym PActReal SRelax.
From Coq Require Import Reals Lra Psatz.
Local Open Scope R_scope.

(** The stages and the result of one step, component by component. *)
Lemma rk4_components (f : list R -> list R) (h : R) (xs : list R) : (forall ys, length (f ys) = length xs) ->
  exists y2 y3 y4 : list R, length y2 = length xs /\ length y3 = length xs /\ length y4 = length xs /\
    forall i, (i < length xs)%nat ->
      nth i y2 0 = nth i xs 0 + h / 2 * nth i (f xs) 0 /\
      nth i y3 0 = nth i xs 0 + h / 2 * nth i (f y2) 0 /\
      nth i y4 0 = nth i xs 0 + h * nth i (f y3) 0 /\
      nth i (rk4_step (a:=RA) f h xs) 0 =
        nth i xs 0 + h / 6 * (nth i (f xs) 0 + 2 * nth i (f y2) 0 + 2 * nth i (f y3) 0 + nth i (f y4) 0).
Proof.
  intros Hlen.
  assert (La : forall u (ks : list R), length ks = length xs -> length (axpy (a:=RA) xs u ks) = length xs).
  { intros u ks H. unfold axpy. rewrite map_length. eapply eq_trans; [apply combine_length|]. change (Nat.min (@length R xs) (@length R ks) = length xs). rewrite H. apply Nat.min_id. }
  exists (axpy (a:=RA) xs (flit RA 1 2 * h) (f xs)).
  exists (axpy (a:=RA) xs (flit RA 1 2 * h) (f (axpy (a:=RA) xs (flit RA 1 2 * h) (f xs)))).
  exists (axpy (a:=RA) xs h (f (axpy (a:=RA) xs (flit RA 1 2 * h) (f (axpy (a:=RA) xs (flit RA 1 2 * h) (f xs)))))).
  split; [apply La, Hlen|]. split; [apply La, Hlen|]. split; [apply La, Hlen|].
  intros i Hi.
  assert (E2 : flit RA 1 2 = / 2) by (cbn; match goal with |- ?u = ?w => change (@eq R u w) end; field).
  assert (G2 : forall x k : R, x + flit RA 1 2 * h * k = x + h / 2 * k) by (intros; rewrite E2; field).
  split; [|split; [|split]].
  - eapply eq_trans; [apply nth_axpy; [exact Hi|apply Hlen]|]. apply G2.
  - eapply eq_trans; [apply nth_axpy; [exact Hi|apply Hlen]|]. apply G2.
  - apply nth_axpy; [exact Hi|apply Hlen].
  - unfold rk4_step. cbv zeta. eapply eq_trans; [apply nth_map_seq; exact Hi|]. cbv beta.
    assert (G6 : forall x k1 k2 k3 k4 : R, x + h * (k1 + IZR 2 * k2 + IZR 2 * k3 + k4) / IZR 6 = x + h / 6 * (k1 + 2 * k2 + 2 * k3 + k4)) by (intros; field).
    apply G6.
Qed.

Section Step.
Context (lm : Libm RA) (g : Rng RA) (q : PQ RA).
Hypothesis Htanh : forall x : R, ltanh RA lm x = tanh x.
Hypothesis Hq : pq_bag q.
Variables (md md' : ad_model (a:=RA) (activity_agent (F RA))) (s s' : rst g).
Hypothesis Hr : ad_ready md.
Hypothesis E : activity_iteration (a:=RA) lm g q md s = Ok (md', s').
Let n := n_agents (ad_net md).
Let h := dt (ad_set md).
Let G i y := social_pull (ad_set md) (reluctance_of md i) (row (ad_net md') i) y.

(** What an iteration leaves alone. *)
Lemma step_frame : ad_ready md' /\ ad_set md' = ad_set md /\ n_agents (ad_net md') = n_agents (ad_net md) /\
  (forall i, reluctance_of md' i = reluctance_of md i) /\ map a_activity (agents (ad_net md')) = map a_activity (agents (ad_net md)) /\
  (forall i, (i < n)%nat -> Forall (fun p => (fst p < n)%nat) (row (ad_net md') i)).
Proof using Hq Hr E.
  destruct (activity_iteration_ok (a:=RA) lm g q md s Hq Hr)
    as (md2 & s2 & h0 & cpl & E1 & E2 & E3 & E4 & E5 & E6 & E7 & E8 & E9 & E10 & E11 & E12 & E13).
  rewrite E in E1. assert (md2 = md') by congruence. subst md2. clear E1.
  assert (HN : n_agents (ad_net md') = n).
  { unfold n, n_agents. rewrite <- (map_length a_activity (agents (ad_net md'))), E12. apply map_length. }
  split; [exact E2|]. split; [exact E4|]. split; [exact HN|]. split.
  - intros i. unfold reluctance_of. exact (f_equal (fun l => nth i l 0) E13).
  - split; [exact E12|]. intros i Hi. assert (Er : row (ad_net md') i = row h0 i) by (unfold row; now rewrite E6, E7). rewrite Er.
    destruct E10 as (W1 & W2 & W3 & W4). 
    assert (Hn : n_agents h0 = n) by (unfold n, n_agents; now rewrite E9).
    apply Forall_forall. intros [j w] Hp. unfold row in Hp. apply in_combine_l in Hp. cbn [fst].
    rewrite <- Hn. rewrite <- Hn in Hi. eapply W4; eauto.
Qed.

Lemma step_stages : exists y2 y3 y4 : nat -> R, forall i, (i < n)%nat ->
  y2 i = opinion_of md i + h / 2 * (G i (opinion_of md) - opinion_of md i) /\
  y3 i = opinion_of md i + h / 2 * (G i y2 - y2 i) /\
  y4 i = opinion_of md i + h * (G i y3 - y3 i) /\
  ((n_bots (ad_set md) <= i)%nat -> opinion_of md' i = opinion_of md i + h / 6 *
     ((G i (opinion_of md) - opinion_of md i) + 2 * (G i y2 - y2 i) + 2 * (G i y3 - y3 i) + (G i y4 - y4 i))) /\
  ((i < n_bots (ad_set md))%nat -> opinion_of md' i = nth i (bot_opinion (ad_set md)) 0).
Proof using Htanh Hq Hr E.
  destruct (activity_iteration_ok (a:=RA) lm g q md s Hq Hr)
    as (md2 & s2 & h0 & cpl & E1 & E2 & E3 & E4 & E5 & E6 & E7 & E8 & E9 & E10 & E11 & E12 & E13).
  rewrite E in E1. assert (md2 = md') by congruence. subst md2. clear E1.
  set (f := field (a:=RA) lm (activity_ops (F RA)) (ad_set md) h0) in *.
  set (xs := map a_opinion (agents (ad_net md))) in *.
  assert (Lx : length xs = n) by (unfold xs, n, n_agents; apply map_length).
  assert (Hn : n_agents h0 = n) by (unfold n, n_agents; now rewrite E9).
  assert (Lf : forall ys, length (f ys) = length xs).
  { intros ys. unfold f, field. rewrite map_length, seq_length. rewrite Lx. exact Hn. }
  assert (Hf : forall i (ys : list R), (i < n)%nat -> @nth R i (f ys) 0 = G i (fun j => @nth R j ys 0) - @nth R i ys 0).
  { intros i ys Hi. unfold f, field. eapply eq_trans; [apply nth_map_seq; rewrite Hn; exact Hi|]. cbv beta.
    destruct (nth_error (agents h0) i) as [x|] eqn:Ex.
    2:{ apply nth_error_None in Ex. unfold n_agents in Hn. lia. }
    eapply eq_trans; [apply slope_R|]. unfold G, social_pull.
    assert (Er : row (ad_net md') i = row h0 i) by (unfold row; now rewrite E6, E7). rewrite Er.
    assert (Erl : reluctance_of md i = get_reluctance (activity_ops (F RA)) x).
    { unfold reluctance_of. apply nth_error_nth. rewrite nth_error_map, <- E9, Ex. reflexivity. }
    rewrite Erl. rewrite Rplus_comm. unfold Rminus. f_equal. f_equal. f_equal. apply map_ext. intros p. f_equal. apply Htanh. }
  destruct (rk4_components f h xs Lf) as (y2 & y3 & y4 & L2 & L3 & L4 & HC).
  exists (fun i => nth i y2 0), (fun i => nth i y3 0), (fun i => nth i y4 0). intros i Hi.
  assert (Hi' : (i < @length R xs)%nat) by (eapply Nat.lt_le_trans; [exact Hi|apply Nat.eq_le_incl; symmetry; exact Lx]).
  destruct (HC i Hi') as (C2 & C3 & C4 & C5).
  rewrite (Hf i xs Hi) in C2, C5. rewrite (Hf i y2 Hi) in C3, C5. rewrite (Hf i y3 Hi) in C4, C5. rewrite (Hf i y4 Hi) in C5.
  split; [exact C2|]. split; [exact C3|]. split; [exact C4|].
  assert (HO : opinion_of md' i = nth i (with_bots (a:=RA) (ad_set md) (rk4_step (a:=RA) f h xs)) 0).
  { unfold opinion_of. exact (f_equal (fun l => nth i l 0) E11). }
  assert (LR : length (rk4_step (a:=RA) f h xs) = n) by (unfold rk4_step; cbv zeta; rewrite map_length, seq_length; exact Lx).
  unfold with_bots in HO. rewrite LR in HO. rewrite nth_map_seq in HO by exact Hi. split; intros Hb.
  - rewrite (proj2 (Nat.ltb_ge _ _) Hb) in HO. rewrite HO. exact C5.
  - rewrite (proj2 (Nat.ltb_lt _ _) Hb) in HO. exact HO.
Qed.

End Step.

(** The new opinion is a mixture of the old one and of the pulls in the four stages. *)
Definition mix1 (h : R) := h / 6 * (1 - h + h ^ 2 / 2 - h ^ 3 / 4).
Definition mix2 (h : R) := h / 6 * (2 - h + h ^ 2 / 2).
Definition mix3 (h : R) := h / 6 * (2 - h).
Definition mix4 (h : R) := h / 6.
Lemma mixture (x h g1 g2 g3 g4 y2 y3 y4 : R) : y2 = x + h / 2 * (g1 - x) -> y3 = x + h / 2 * (g2 - y2) -> y4 = x + h * (g3 - y3) ->
  x + h / 6 * ((g1 - x) + 2 * (g2 - y2) + 2 * (g3 - y3) + (g4 - y4)) = decay h * x + mix1 h * g1 + mix2 h * g2 + mix3 h * g3 + mix4 h * g4.
Proof. intros -> -> ->. unfold decay, mix1, mix2, mix3, mix4. field. Qed.
Lemma mixture_sum h : decay h + mix1 h + mix2 h + mix3 h + mix4 h = 1.
Proof. unfold decay, mix1, mix2, mix3, mix4. field. Qed.
Lemma mixture_pos h : 0 < h <= 1 -> 0 < decay h /\ 0 <= mix1 h /\ 0 <= mix2 h /\ 0 <= mix3 h /\ 0 <= mix4 h /\ decay h <= 1 - h / 2.
Proof.
  intros H. assert (Hsq : 0 <= h ^ 2 <= h) by nra. assert (Hcu : 0 <= h ^ 3 <= h ^ 2) by nra. assert (Hq4 : 0 <= h ^ 4 <= h ^ 3) by nra.
  unfold decay, mix1, mix2, mix3, mix4. split; [nra|]. split; [apply Rmult_le_pos; lra|]. split; [apply Rmult_le_pos; lra|]. split; [apply Rmult_le_pos; lra|]. split; [lra|]. lra.
Qed.
