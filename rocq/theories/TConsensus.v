(** Property theorems C79 (the consensus values of an evenly coupled population) and C80 (a strongly coupled
    population does not become neutral) of the activity-driven model in exact arithmetic. *)
From Verif Require Import Base BaseFacts Arith64 RFacts MRandom SRandom PRandom WRandom MDist MNetwork SNetwork PNetwork PNetwork2
  MAgents MDeGroot MActivity SActivity PActStep PActNet PActIter PActMean PActIter2 PActInit PActThm PActSym PActReal PActMean2
  TActivity TActivityR TMean TNetGen SRelax PRelax PRelax2 PRelax3 PTanh PTanh2 WRelax TRelax.
From Coq Require Import Reals Lra Psatz.
Local Open Scope R_scope.

(** ** C79: the equation *)
Theorem C79_values S al : 0 < al -> 0 < S ->
  (S * al <= 1 -> forall p, consensus_value S al p -> p = 0) /\
  (1 < S * al -> exists p, 0 < p /\ S - / al <= p < S /\ consensus_value S al p /\ consensus_value S al (- p) /\
     forall p', consensus_value S al p' -> p' = p \/ p' = 0 \/ p' = - p).
Proof.
  intros Ha HS. assert (Neg : forall p, consensus_value S al p -> consensus_value S al (- p)).
  { intros p E. unfold consensus_value in *. rewrite <- Ropp_mult_distr_r, tanh_odd. lra. }
  split.
  - intros H.
    assert (W : forall p, consensus_value S al p -> 0 < p -> False).
    { intros p E Hp. pose proof (balance_slope S al p Ha (conj Hp E)) as Q. destruct (tanh_mvt 0 (al * p) ltac:(nra)) as (c & Ec & Hc).
      rewrite tanh_0, !Rminus_0_r in Ec. unfold consensus_value in E. rewrite Ec in E. pose proof (sech_decreasing 0 c ltac:(lra) ltac:(lra)) as D. rewrite tanh_0 in D.
      assert (S * al * (1 - tanh c * tanh c) * p = p) by lra. pose proof (sech_pos c). assert (S * al * (1 - tanh c * tanh c) < 1) by nra. nra. }
    intros p E. destruct (Rtotal_order p 0) as [N|[N|N]]; auto; exfalso; [apply (W (- p)); [auto|lra]|apply (W p); auto].
  - intros H. destruct (balance_exists S al Ha H) as (p & HB & Hp). exists p. pose proof HB as (Hp0 & E).
    split; [exact Hp0|]. split; [exact Hp|]. split; [exact E|]. split; [now apply Neg|]. intros p' E'.
    destruct (Rtotal_order p' 0) as [N|[N|N]]; auto.
    + right. right. assert (Q : p = - p') by (apply (balance_unique S al p (- p') Ha HB); split; [lra|apply Neg; exact E']). lra.
    + left. symmetry. apply (balance_unique S al p p' Ha HB). now split.
Qed.

Section Consensus.
Context (lm : Libm RA) (g : Rng RA) (q : PQ RA).
Hypothesis Htanh : forall x : R, ltanh RA lm x = tanh x.
Hypothesis Hq : pq_bag q.

(** In iterations 1 to k everybody hears evenly with total coupling S. *)
Definition evenly_coupled (S : R) (k : nat) (md : activity_model) s : Prop :=
  forall i, (i < n_agents (ad_net md))%nat -> rows_along lm g q k md s i (hears_evenly (ad_set md) (reluctance_of md i) S).

(** A population in agreement at a consensus value stays there, whatever the time step. *)
Theorem C79_stationary k (md md' : activity_model) s s' S p : ad_ready md -> n_bots (ad_set md) = 0%nat ->
  activity_run (a:=RA) lm g q k md s = Ok (md', s') -> evenly_coupled S k md s -> consensus_value S (alpha (ad_set md)) p ->
  (forall i, (i < n_agents (ad_net md))%nat -> opinion_of md i = p) ->
  forall i, (i < n_agents (ad_net md))%nat -> opinion_of md' i = p.
Proof using Htanh Hq.
  intros Hr Hb E HE Hp Hx.
  destruct (run_track lm g q Hq (fun j mdj => forall i, (i < n_agents (ad_net md))%nat -> opinion_of mdj i = p) md s k md' s' Hr) as [H _]; auto.
  intros j mdj sj mdj' sj' Hj Ej (F1 & F2 & F3 & F4 & _) E1 Ej' Q i Hi.
  destruct (step_stages lm g q Htanh Hq mdj mdj' sj sj' F1 E1) as (y2 & y3 & y4 & HS).
  destruct (step_frame lm g q Hq mdj mdj' sj sj' F1 E1) as (_ & _ & _ & _ & _ & HF). rewrite F2, F3 in *.
  assert (G : forall u (y : nat -> R), (u < n_agents (ad_net md))%nat -> (forall v, (v < n_agents (ad_net md))%nat -> y v = p) ->
     social_pull (ad_set md) (reluctance_of mdj u) (row (ad_net mdj') u) y = p).
  { intros u y Hu Hy. assert (HEu : hears_evenly (ad_set md) (reluctance_of mdj u) S (row (ad_net mdj') u)).
    { rewrite F4. apply (HE u Hu (Datatypes.S j) mdj' sj'); auto. lia. }
    transitivity (S * tanh (alpha (ad_set md) * p)); [|exact Hp]. rewrite <- (pull_const (ad_set md) _ _ S p HEu). apply pull_ext.
    specialize (HF u Hu). eapply Forall_impl; [|exact HF]. cbv beta. intros x Hx'. now apply Hy. }
  assert (Y2 : forall v, (v < n_agents (ad_net md))%nat -> y2 v = p).
  { intros v Hv. destruct (HS v Hv) as (-> & _). rewrite (G v _ Hv Q), (Q v Hv). ring. }
  assert (Y3 : forall v, (v < n_agents (ad_net md))%nat -> y3 v = p).
  { intros v Hv. destruct (HS v Hv) as (_ & -> & _). rewrite (G v _ Hv Y2), (Q v Hv), (Y2 v Hv). ring. }
  assert (Y4 : forall v, (v < n_agents (ad_net md))%nat -> y4 v = p).
  { intros v Hv. destruct (HS v Hv) as (_ & _ & -> & _). rewrite (G v _ Hv Y3), (Q v Hv), (Y3 v Hv). ring. }
  destruct (HS i Hi) as (_ & _ & _ & E5 & _). rewrite E5 by (rewrite Hb; lia).
  rewrite (G i _ Hi Q), (G i _ Hi Y2), (G i _ Hi Y3), (G i _ Hi Y4), (Q i Hi), (Y2 i Hi), (Y3 i Hi), (Y4 i Hi). ring.
Qed.

(** Near the positive consensus value opinions converge to it geometrically: d is how far around it the
    slope S alpha (1 - tanh^2) is still at most c. *)
Theorem C79_attracting k (md md' : activity_model) s s' S p d M : ad_ready md -> n_bots (ad_set md) = 0%nat -> 0 < dt (ad_set md) <= 1 ->
  activity_run (a:=RA) lm g q k md s = Ok (md', s') -> evenly_coupled S k md s -> 0 < S -> 0 < alpha (ad_set md) ->
  consensus_value S (alpha (ad_set md)) p -> 0 <= M -> 5 / 2 * M <= d -> d <= p ->
  let c := S * alpha (ad_set md) * (1 - tanh (alpha (ad_set md) * (p - d)) * tanh (alpha (ad_set md) * (p - d))) in
  c * (1 + 2 / 3 * dt (ad_set md) ^ 2) <= 1 ->
  (forall i, (i < n_agents (ad_net md))%nat -> Rabs (opinion_of md i - p) <= M) ->
  forall i, (i < n_agents (ad_net md))%nat ->
    Rabs (opinion_of md' i - p) <= (1 - dt (ad_set md) / 2 * (1 - c * (1 + 2 / 3 * dt (ad_set md) ^ 2))) ^ k * M.
Proof using Htanh Hq.
  intros Hr Hb Hdt E HE HS0 Ha Hp HM Hd Hdp c Hc Hx.
  set (h := dt (ad_set md)) in *. set (f := 1 - h / 2 * (1 - c * (1 + 2 / 3 * h ^ 2))).
  assert (Hh2 : 0 <= h ^ 2) by (apply pow_le; lra).
  assert (Hc0 : 0 <= c). { unfold c. apply Rmult_le_pos; [apply Rlt_le, Rmult_lt_0_compat; auto|apply Rlt_le, sech_pos]. }
  assert (Hc1 : c <= 1) by nra.
  assert (Hf : 0 <= f <= 1). { assert (0 <= c * (1 + 2 / 3 * h ^ 2)) by (apply Rmult_le_pos; lra). unfold f. split; nra. }
  destruct (run_track lm g q Hq (fun j mdj => forall i, (i < n_agents (ad_net md))%nat -> Rabs (opinion_of mdj i - p) <= f ^ j * M) md s k md' s' Hr) as [H _]; auto.
  - intros i Hi. cbn. rewrite Rmult_1_l. now apply Hx.
  - intros j mdj sj mdj' sj' Hj Ej (F1 & F2 & F3 & F4 & _) E1 Ej' Q i Hi.
    destruct (step_stages lm g q Htanh Hq mdj mdj' sj sj' F1 E1) as (y2 & y3 & y4 & HS).
    destruct (step_frame lm g q Hq mdj mdj' sj sj' F1 E1) as (_ & _ & _ & _ & _ & HF). rewrite F2, F3 in *. fold h in HS.
    assert (Hfj : 0 <= f ^ j <= 1). { split; [apply pow_le; lra|]. rewrite <- (pow1 j). apply pow_incr. lra. }
    pose proof (rk4_contracts (n_agents (ad_net md)) (opinion_of mdj) y2 y3 y4 (fun _ => p)
      (fun u y => social_pull (ad_set md) (reluctance_of mdj u) (row (ad_net mdj') u) y) h c (f ^ j * M) d Hdt (conj Hc0 Hc1)
      ltac:(apply Rmult_le_pos; lra) ltac:(nra)) as P.
    destruct (HS i Hi) as (_ & _ & _ & E5 & _). rewrite E5 by (rewrite Hb; lia). cbn [pow]. rewrite Rmult_assoc. apply P; auto.
    + intros u y e Hu He Hy. assert (HEu : hears_evenly (ad_set md) (reluctance_of mdj u) S (row (ad_net mdj') u)).
      { rewrite F4. apply (HE u Hu (Datatypes.S j) mdj' sj'); auto. lia. }
      apply (pull_near (ad_set md) _ _ S p d e y Ha HS0 HEu Hp He Hdp). specialize (HF u Hu). eapply Forall_impl; [|exact HF]. cbv beta. intros x Hx'. now apply Hy.
    + intros v Hv. destruct (HS v Hv) as (A2 & A3 & A4 & _). now repeat split.
Qed.

(** Above S alpha = 1 and for small enough time steps the positive consensus value attracts a neighbourhood. *)
Theorem C79_converges S al : 0 < S -> 0 < al -> 1 < S * al ->
  exists p h0 M, 0 < p /\ consensus_value S al p /\ 0 < h0 <= 1 /\ 0 < M /\
  forall h, 0 < h <= h0 -> forall eps, 0 < eps -> exists k0, forall k (md md' : activity_model) s s', (k0 <= k)%nat ->
    ad_ready md -> n_bots (ad_set md) = 0%nat -> dt (ad_set md) = h -> alpha (ad_set md) = al ->
    activity_run (a:=RA) lm g q k md s = Ok (md', s') -> evenly_coupled S k md s ->
    (forall i, (i < n_agents (ad_net md))%nat -> Rabs (opinion_of md i - p) <= M) ->
    forall i, (i < n_agents (ad_net md))%nat -> Rabs (opinion_of md' i - p) < eps.
Proof using Htanh Hq.
  intros HS Ha H. destruct (balance_exists S al Ha H) as (p & HB & _). pose proof (balance_slope S al p Ha HB) as Sl.
  destruct (balance_slope_near S al p 1 Ha HB Sl) as (d & Hd & Hc). set (c := S * al * (1 - tanh (al * (p - d)) * tanh (al * (p - d)))) in *.
  assert (Hc0 : 0 < c). { unfold c. apply Rmult_lt_0_compat; [now apply Rmult_lt_0_compat|apply sech_pos]. }
  exists p, (1 - c), (2 / 5 * d). split; [apply HB|]. split; [apply HB|]. split; [lra|]. split; [lra|].
  intros h Hh eps He. set (f := 1 - h / 2 * (1 - c * (1 + 2 / 3 * h ^ 2))).
  assert (Hh2 : 0 <= h ^ 2 <= h) by nra.
  assert (Hcc : c * (1 + 2 / 3 * h ^ 2) < 1) by nra.
  assert (Hcn : 0 <= c * (1 + 2 / 3 * h ^ 2)) by (apply Rmult_le_pos; lra).
  assert (Hf : 0 <= f < 1) by (unfold f; split; nra).
  destruct (pow_lt_1_zero f ltac:(rewrite Rabs_right; lra) (eps / d) ltac:(apply Rdiv_lt_0_compat; lra)) as [k0 Hk0].
  exists k0. intros k md md' s s' Hk Hr Hb Eh Ea E HE Hx i Hi.
  pose proof (C79_attracting k md md' s s' S p d (2 / 5 * d) Hr Hb) as P. rewrite Eh, Ea in P.
  specialize (P ltac:(lra) E HE HS Ha (proj2 HB) ltac:(lra) ltac:(lra) ltac:(lra)). cbv zeta in P. fold c in P.
  specialize (P ltac:(lra) Hx i Hi). fold f in P. specialize (Hk0 k Hk). assert (Hfk : 0 <= f ^ k) by (apply pow_le; lra). rewrite Rabs_right in Hk0 by lra.
  eapply Rle_lt_trans; [exact P|]. assert (f ^ k * d < eps). { apply Rmult_lt_reg_r with (/ d); [apply Rinv_0_lt_compat; lra|]. rewrite Rmult_assoc, Rinv_r by lra. rewrite Rmult_1_r. exact Hk0. }
  nra.
Qed.

(** ** C80 *)
Definition coupled_at_least (S : R) (k : nat) (md : activity_model) s : Prop :=
  forall i, (i < n_agents (ad_net md))%nat -> rows_along lm g q k md s i (hears_at_least (ad_set md) (reluctance_of md i) S).

(** One iteration from opinions of at least mu >= 0. *)
Theorem C80_step (md md' : activity_model) s s' S mu : ad_ready md -> n_bots (ad_set md) = 0%nat -> 0 < dt (ad_set md) <= 1 / 2 ->
  activity_iteration (a:=RA) lm g q md s = Ok (md', s') -> 0 <= S -> 0 < alpha (ad_set md) -> 0 <= mu ->
  (forall i, (i < n_agents (ad_net md))%nat -> hears_at_least (ad_set md) (reluctance_of md i) S (row (ad_net md') i)) ->
  (forall i, (i < n_agents (ad_net md))%nat -> mu <= opinion_of md i) ->
  forall i, (i < n_agents (ad_net md))%nat ->
    decay (dt (ad_set md)) * mu + (1 - decay (dt (ad_set md))) * ((1 - dt (ad_set md)) * (S * tanh (alpha (ad_set md) * mu))) <= opinion_of md' i.
Proof using Htanh Hq.
  intros Hr Hb Hdt E HS0 Ha Hmu HW Hx i Hi.
  destruct (step_stages lm g q Htanh Hq md md' s s' Hr E) as (y2 & y3 & y4 & HS).
  destruct (step_frame lm g q Hq md md' s s' Hr E) as (_ & _ & _ & _ & _ & HF).
  destruct (HS i Hi) as (_ & _ & _ & E5 & _). rewrite E5 by (rewrite Hb; lia).
  apply (positive_step (n_agents (ad_net md)) (opinion_of md) y2 y3 y4
    (fun u y => social_pull (ad_set md) (reluctance_of md u) (row (ad_net md') u) y) (dt (ad_set md)) mu (S * tanh (alpha (ad_set md) * mu))); auto.
  - apply Rmult_le_pos; auto. apply tanh_nonneg. apply Rmult_le_pos; lra.
  - intros u x y l Hu Hl Hxy. destruct (HW u Hu) as (W1 & W2 & _). apply pull_scale; auto.
    specialize (HF u Hu). eapply Forall_impl; [|exact HF]. cbv beta. intros v Hv. now apply Hxy.
  - intros u Hu. apply pull_least; auto. specialize (HF u Hu). eapply Forall_impl; [|exact HF]. cbv beta. intros v Hv. now apply Hx.
  - intros v Hv. destruct (HS v Hv) as (A2 & A3 & A4 & _). now repeat split.
Qed.

(** If p = (1 - dt) S tanh(alpha p) > 0, opinions that are all positive never all come below min(mu, p). *)
Theorem C80_never_neutral k (md md' : activity_model) s s' S p mu : ad_ready md -> n_bots (ad_set md) = 0%nat -> 0 < dt (ad_set md) <= 1 / 2 ->
  activity_run (a:=RA) lm g q k md s = Ok (md', s') -> 0 < S -> 0 < alpha (ad_set md) -> coupled_at_least S k md s ->
  0 < p -> consensus_value ((1 - dt (ad_set md)) * S) (alpha (ad_set md)) p -> 0 <= mu ->
  (forall i, (i < n_agents (ad_net md))%nat -> mu <= opinion_of md i) ->
  forall i, (i < n_agents (ad_net md))%nat -> Rmin mu p <= opinion_of md' i.
Proof using Htanh Hq.
  intros Hr Hb Hdt E HS Ha HW Hp Ep Hmu Hx. set (mm := Rmin mu p).
  assert (Hmm : 0 <= mm <= p) by (unfold mm; split; [apply Rmin_glb; lra|apply Rmin_r]).
  destruct (run_track lm g q Hq (fun j mdj => forall i, (i < n_agents (ad_net md))%nat -> mm <= opinion_of mdj i) md s k md' s' Hr) as [H _]; auto.
  - intros i Hi. eapply Rle_trans; [apply Rmin_l|now apply Hx].
  - intros j mdj sj mdj' sj' Hj Ej (F1 & F2 & F3 & F4 & _) E1 Ej' Q i Hi.
    pose proof (C80_step mdj mdj' sj sj' S mm F1) as P. rewrite F2, F3 in P.
    specialize (P Hb Hdt E1 ltac:(lra) Ha (proj1 Hmm)). specialize (P ltac:(intros u Hu; rewrite F4; apply (HW u Hu (Datatypes.S j) mdj' sj'); auto; lia) Q i Hi).
    eapply Rle_trans; [|exact P].
    pose proof (balance_below _ _ p mm Ha (conj Hp Ep) Hmm) as B. rewrite <- Rmult_assoc.
    destruct (mixture_pos (dt (ad_set md)) ltac:(split; [apply Hdt|]; eapply Rle_trans; [apply Hdt|]; lra)) as (P0 & _ & _ & _ & _ & P5).
    revert Hdt B P0 P5. generalize (dt (ad_set md)). intros h Hdt B P0 P5. change R in h.
    assert ((1 - decay h) * mm <= (1 - decay h) * ((1 - h) * S * tanh (alpha (ad_set md) * mm))) by (apply Rmult_le_compat_l; lra). lra.
Qed.

(** ... and from then on they approach p from below at least geometrically. *)
Theorem C80_approach S al h p mu : 0 < S -> 0 < al -> 0 < h <= 1 / 2 -> consensus_value ((1 - h) * S) al p -> 0 < mu < p ->
  exists rho, 0 <= rho < 1 /\ forall k (md md' : activity_model) s s', ad_ready md -> n_bots (ad_set md) = 0%nat -> dt (ad_set md) = h -> alpha (ad_set md) = al ->
    activity_run (a:=RA) lm g q k md s = Ok (md', s') -> coupled_at_least S k md s ->
    (forall i, (i < n_agents (ad_net md))%nat -> mu <= opinion_of md i) ->
    forall i, (i < n_agents (ad_net md))%nat -> p - rho ^ k * (p - mu) <= opinion_of md' i.
Proof using Htanh Hq.
  intros HS Ha Hh Ep Hmu. set (S' := (1 - h) * S) in *. assert (HB : balance S' al p) by (split; [lra|exact Ep]).
  destruct (balance_pos S' al p Ha HB) as (HS' & _).
  set (phi := fun x => S' * tanh (al * x) - x).
  assert (Hphi : 0 < phi mu).
  { unfold phi. pose proof (balance_below S' al p mu Ha HB ltac:(lra)) as [B|B]; [lra|]. exfalso.
    assert (Q : mu = p) by (apply (balance_unique S' al mu p Ha); [split; [lra|symmetry; exact B]|exact HB]). lra. }
  destruct (mixture_pos h ltac:(lra)) as (P0 & _ & _ & _ & _ & P5).
  set (kap := phi mu / (p - mu)). assert (Hkap : 0 < kap) by (apply Rdiv_lt_0_compat; lra).
  assert (Chord : forall x, mu <= x <= p -> kap * (p - x) <= phi x).
  { intros x Hx. pose proof (tanh_concave (al * mu) (al * x) (al * p) ltac:(apply Rmult_le_pos; lra) ltac:(split; apply Rmult_le_compat_l; lra)) as C.
    assert (C' : (phi p - phi x) * (x - mu) <= (phi x - phi mu) * (p - x)).
    { assert (C2 : (tanh (al * p) - tanh (al * x)) * (x - mu) <= (tanh (al * x) - tanh (al * mu)) * (p - x)).
      { apply Rmult_le_reg_l with al; auto. lra. }
      unfold phi. assert (S' * ((tanh (al * p) - tanh (al * x)) * (x - mu)) <= S' * ((tanh (al * x) - tanh (al * mu)) * (p - x))) by (apply Rmult_le_compat_l; lra). lra. }
    assert (Ez : phi p = 0) by (unfold phi; unfold consensus_value in Ep; lra). rewrite Ez in C'.
    unfold kap. apply Rmult_le_reg_r with (p - mu); [lra|]. replace (phi mu / (p - mu) * (p - x) * (p - mu)) with (phi mu * (p - x)) by (field; lra). lra. }
  set (rho := 1 - (1 - decay h) * kap). assert (Hk1 : kap <= 1 \/ 1 < kap) by lra.
  exists (Rmax 0 rho). assert (Hrho : rho < 1) by (unfold rho; assert (0 < (1 - decay h) * kap) by (apply Rmult_lt_0_compat; lra); lra).
  assert (HR : 0 <= Rmax 0 rho < 1) by (split; [apply Rmax_l|apply Rmax_lub_lt; lra]). split; [exact HR|].
  set (R0 := Rmax 0 rho) in *. intros k md md' s s' Hr Hb Eh Ea E HW Hx.
  destruct (run_track lm g q Hq (fun j mdj => forall i, (i < n_agents (ad_net md))%nat -> p - R0 ^ j * (p - mu) <= opinion_of mdj i) md s k md' s' Hr) as [H _]; auto.
  - intros i Hi. cbn. specialize (Hx i Hi). lra.
  - intros j mdj sj mdj' sj' Hj Ej (F1 & F2 & F3 & F4 & _) E1 Ej' Q i Hi.
    assert (Hpj : 0 <= R0 ^ j <= 1). { split; [apply pow_le; lra|]. rewrite <- (pow1 j). apply pow_incr. lra. }
    set (L := p - R0 ^ j * (p - mu)) in *. assert (HL : mu <= L <= p) by (unfold L; nra).
    pose proof (C80_step mdj mdj' sj sj' S L F1) as P. rewrite F2, F3, Eh, Ea in P.
    specialize (P Hb Hh E1 ltac:(lra) Ha ltac:(lra)). specialize (P ltac:(intros u Hu; rewrite F4; apply (HW u Hu (Datatypes.S j) mdj' sj'); auto; lia) Q i Hi).
    eapply Rle_trans; [|exact P]. replace ((1 - h) * (S * tanh (al * L))) with (S' * tanh (al * L)) by (unfold S'; ring). specialize (Chord L HL). unfold phi in Chord. cbn [pow].
    assert (HpL : p - L = R0 ^ j * (p - mu)) by (unfold L; ring).
    assert (A : (1 - decay h) * (kap * (p - L) + L) <= (1 - decay h) * (S' * tanh (al * L))) by (apply Rmult_le_compat_l; lra).
    assert (B : rho * (p - L) <= R0 * (p - L)) by (apply Rmult_le_compat_r; [lra|apply Rmax_r]).
    replace (p - R0 * R0 ^ j * (p - mu)) with (p - R0 * (p - L)) by (rewrite HpL; ring). unfold rho in B. clearbody L. nra.
Qed.

(** ** Mean-field populations without homophily, with equal reluctances *)
Hypothesis Hpow : lpow RA lm = Rpow.
Definition even_population (md : activity_model) (rho : R) : Prop :=
  mean_weights (ad_set md) = true /\ (2 <= n_agents (ad_net md))%nat /\ n_bots (ad_set md) = 0%nat /\ homophily (ad_set md) = 0 /\
  Forall (fun x : R => x <= 1) (map a_activity (agents (ad_net md))) /\
  (forall i, (i < n_agents (ad_net md))%nat -> reluctance_of md i = rho).
(** The total coupling of such a population. *)
Definition even_coupling (md : activity_model) (rho : R) : R :=
  K (ad_set md) / rho * ((INR (n_agents (ad_net md)) - 1) * even_weight (n_agents (ad_net md)) (Z.to_nat (m (ad_set md))) (reciprocity (ad_set md))).

Theorem C79_even_population k (md : activity_model) s rho : ad_ready md -> even_population md rho ->
  0 <= even_weight (n_agents (ad_net md)) (Z.to_nat (m (ad_set md))) (reciprocity (ad_set md)) ->
  evenly_coupled (even_coupling md rho) k md s.
Proof using Hq Hpow.
  intros Hr (H1 & H2 & H3 & H4 & H5 & H6) Hw i Hi j mdj sj Hj Ej. destruct j as [|j]; [lia|]. pose proof Ej as Ej'. rewrite run_snoc in Ej'. apply bind_ok_inv in Ej' as ([md1 s1] & E1 & E2).
  destruct (run_track lm g q Hq (fun _ _ => True) md s j md1 s1 Hr I) as [_ (F1 & F2 & F3 & F4 & F5)]; auto.
  pose proof (even_rows lm Hpow g q Hq md1 mdj s1 sj i F1) as P. rewrite F2, F3, F5 in P. specialize (P H1 H2 H3 H4 H5 E2 Hi). rewrite P.
  destruct (even_row_weight (n_agents (ad_net md)) i _ Hi Hw) as (Q1 & Q2). split; [exact Q1|]. rewrite Q2, (H6 i Hi). reflexivity.
Qed.

(** Two agents that always contact each other (the project's two-agent test): the consensus values are the
    solutions of p = K / rho * tanh(alpha p). *)
Theorem C79_two_agents k (md : activity_model) s rho : ad_ready md -> even_population md rho -> n_agents (ad_net md) = 2%nat -> m (ad_set md) = 1%Z ->
  evenly_coupled (K (ad_set md) / rho) k md s.
Proof using Hq Hpow.
  intros Hr He Hn Hm. assert (Ec : contact_chance 2 1 = 1).
  { unfold contact_chance. change (INR 2) with (1 + 1). cbn [seq map]. rewrite Rsum_cons, Rsum_nil. cbn [Nat.add pow]. field. }
  assert (Ew : forall r, even_weight 2 1 r = 1) by (intros r; unfold even_weight; rewrite Ec; ring).
  pose proof (C79_even_population k md s rho Hr He) as P. unfold even_coupling in P. rewrite Hn, Hm in P. change (Z.to_nat 1) with 1%nat in P. rewrite Ew in P.
  specialize (P ltac:(lra)). change (INR 2) with (1 + 1) in P. replace (K (ad_set md) / rho * ((1 + 1 - 1) * 1)) with (K (ad_set md) / rho) in P; [exact P|].
  generalize (K (ad_set md) / rho). intros u. ring.
Qed.

(** Positive opinions in a strongly coupled even population stay away from 0. *)
Theorem C80_even_population k (md : activity_model) s rho mu : ad_ready md -> even_population md rho -> 0 < dt (ad_set md) <= 1 / 2 ->
  0 <= even_weight (n_agents (ad_net md)) (Z.to_nat (m (ad_set md))) (reciprocity (ad_set md)) -> 0 < K (ad_set md) / rho ->
  0 < alpha (ad_set md) -> 1 < (1 - dt (ad_set md)) * even_coupling md rho * alpha (ad_set md) -> 0 <= mu ->
  (forall i, (i < n_agents (ad_net md))%nat -> mu <= opinion_of md i) ->
  exists md' s', activity_run (a:=RA) lm g q k md s = Ok (md', s') /\
  forall i, (i < n_agents (ad_net md))%nat -> Rmin mu ((1 - dt (ad_set md)) * even_coupling md rho - / alpha (ad_set md)) <= opinion_of md' i.
Proof using Htanh Hq Hpow.
  intros Hr He Hdt Hw HK Ha Hs Hmu Hx. destruct (activity_run_ready (a:=RA) lm g q k md s Hq Hr) as (md' & s' & E & _). exists md', s'. split; auto.
  set (S := even_coupling md rho) in *. set (h := dt (ad_set md)) in *.
  destruct (balance_exists ((1 - h) * S) (alpha (ad_set md)) Ha Hs) as (p & (Hp & Ep) & Hlo & _).
  assert (HS : 0 < S). { assert (Q : forall u : R, 1 < (1 - h) * u * alpha (ad_set md) -> 0 < u) by (intros u Hu; destruct (Rle_lt_dec u 0) as [N|N]; auto; exfalso; assert (0 <= (1 - h) * alpha (ad_set md)) by (apply Rmult_le_pos; lra); nra). apply Q, Hs. }
  assert (HC : coupled_at_least S k md s).
  { intros i Hi j mdj sj Hj Ej. destruct (C79_even_population k md s rho Hr He Hw i Hi j mdj sj Hj Ej) as (Q1 & Q2).
    split; [exact Q1|]. split; [destruct He as (_ & _ & _ & _ & _ & H6); rewrite (H6 i Hi); exact HK|]. apply Req_le. symmetry. exact Q2. }
  intros i Hi. eapply Rle_trans; [apply Rle_min_compat_l; exact Hlo|].
  apply (C80_never_neutral k md md' s s' S p mu Hr (proj1 (proj2 (proj2 He))) Hdt E HS Ha HC Hp Ep Hmu Hx i Hi).
Qed.
End Consensus.

(** ** Concrete populations *)
(** The two agents of the project's test (K = 2, alpha = 1.01), both holding the opinion [p] + or - [e]. *)
Definition pair_at (h p e : R) : activity_model :=
  complete_model (field_settings h 1 (101/100) (1/2) 2 0 [] []) [mkActivity (p + e) 1 1; mkActivity (p - e) 1 1].
Lemma pair_ready h p e : ad_ready (pair_at h p e).
Proof. apply complete_ready; [apply field_fit; cbn; try lia; constructor|cbn; lia|cbn; lia]. Qed.
Lemma pair_even h p e : even_population (pair_at h p e) 1.
Proof.
  split; [reflexivity|]. split; [cbn; lia|]. split; [reflexivity|]. split; [reflexivity|]. split; [repeat constructor; cbn; lra|].
  intros i Hi. cbn in Hi. destruct i as [|[|i]]; [reflexivity|reflexivity|lia].
Qed.
Lemma pair_coupled h p e k : evenly_coupled real_libm mid_rng (list_pq RA) 2 k (pair_at h p e) 0%nat.
Proof.
  pose proof (C79_two_agents real_libm mid_rng (list_pq RA) (list_pq_bag RA) eq_refl k (pair_at h p e) 0%nat 1 (pair_ready h p e) (pair_even h p e) eq_refl eq_refl) as P.
  change (K (ad_set (pair_at h p e)) / 1) with (2 / 1) in P. replace (2 / 1) with 2 in P by field. exact P.
Qed.
Example C79_stationary_instance : exists p, 0 < p /\ 2 * tanh (101/100 * p) = p /\ forall k, exists md' s',
  activity_run (a:=RA) real_libm mid_rng (list_pq RA) k (pair_at (1/100) p 0) 0%nat = Ok (md', s') /\ opinion_of md' 0 = p /\ opinion_of md' 1 = p.
Proof.
  destruct (proj2 (C79_values 2 (101/100) ltac:(lra) ltac:(lra)) ltac:(lra)) as (p & Hp & _ & E & _). exists p. split; [exact Hp|]. split; [exact E|]. intros k.
  destruct (activity_run_ready (a:=RA) real_libm mid_rng (list_pq RA) k (pair_at (1/100) p 0) 0%nat (list_pq_bag RA) (pair_ready _ _ _)) as (md' & s' & Er & _).
  exists md', s'. split; [exact Er|].
  pose proof (C79_stationary real_libm mid_rng (list_pq RA) (fun _ => eq_refl) (list_pq_bag RA) k (pair_at (1/100) p 0) md' 0%nat s' 2 p (pair_ready _ _ _) eq_refl Er
    (pair_coupled _ _ _ k) E) as P.
  specialize (P ltac:(intros i Hi; cbn in Hi; destruct i as [|[|i]]; [cbn; ring|cbn; ring|lia])).
  split; apply P; cbn; lia.
Qed.
Example C79_converges_instance : exists p h e, 0 < p /\ 2 * tanh (101/100 * p) = p /\ 0 < h /\ 0 < e /\ forall eps, 0 < eps -> exists k0, forall k, (k0 <= k)%nat ->
  exists md' s', activity_run (a:=RA) real_libm mid_rng (list_pq RA) k (pair_at h p e) 0%nat = Ok (md', s') /\
    Rabs (opinion_of md' 0 - p) < eps /\ Rabs (opinion_of md' 1 - p) < eps.
Proof.
  destruct (C79_converges real_libm mid_rng (list_pq RA) (fun _ => eq_refl) (list_pq_bag RA) 2 (101/100) ltac:(lra) ltac:(lra) ltac:(lra)) as (p & h & e & Hp & E & Hh & He & H).
  exists p, h, e. split; [exact Hp|]. split; [exact E|]. split; [lra|]. split; [exact He|]. intros eps Heps. destruct (H h ltac:(lra) eps Heps) as (k0 & Hk0).
  exists k0. intros k Hk.
  destruct (activity_run_ready (a:=RA) real_libm mid_rng (list_pq RA) k (pair_at h p e) 0%nat (list_pq_bag RA) (pair_ready _ _ _)) as (md' & s' & Er & _).
  exists md', s'. split; [exact Er|].
  specialize (Hk0 k (pair_at h p e) md' 0%nat s' Hk (pair_ready _ _ _) eq_refl eq_refl eq_refl Er (pair_coupled _ _ _ k)).
  specialize (Hk0 ltac:(intros i Hi; cbn in Hi; destruct i as [|[|i]]; [|  |lia]; cbn; [replace (p + e - p) with e by ring|replace (p - e - p) with (- e) by ring; rewrite Rabs_Ropp]; rewrite Rabs_right; lra)).
  split; apply Hk0; cbn; lia.
Qed.

(** The project's mean-field test takes the critical controversialness to be this value, for [n] agents of
    activity [act] (test/test_activity.cpp:215-216). *)
Definition test_critical_alpha (n : nat) (r kk mm act : R) : R := INR n / (INR n - 1) * 1 / ((1 + r) * kk * mm * act).
(** The mean-field weights ignore activities below 1 (C58), so the transition is elsewhere: 50 agents as in
    that test, with alpha below this value, whose opinions start at 0.1 and never decrease. *)
Definition fifty : activity_model :=
  complete_model (field_settings (1/100) 10 (1/5) 1 2 0 [] []) (repeat (mkActivity (1/10) (1/10) 1) 50).
Lemma fifty_ready : ad_ready fifty.
Proof. apply complete_ready; [apply field_fit; cbn; try lia; constructor|cbn; lia|cbn; lia]. Qed.
Lemma fifty_at {X} (f : activity_agent R -> X) i d : (i < 50)%nat -> nth i (map f (repeat (mkActivity (1/10) (1/10) 1) 50)) d = f (mkActivity (1/10) (1/10) 1).
Proof.
  intros Hi. assert (E : forall (x : activity_agent R) n, map f (repeat x n) = repeat (f x) n) by (induction n as [|n IH]; [reflexivity|cbn [repeat map]; now rewrite IH]).
  rewrite E. now apply nth_repeat_in.
Qed.
Lemma fifty_even : even_population fifty 1.
Proof.
  split; [reflexivity|]. split; [cbn; lia|]. split; [reflexivity|]. split; [reflexivity|]. split.
  - apply Forall_forall. intros x Hx. apply in_map_iff in Hx as (y & <- & Hy). apply repeat_spec in Hy. subst y. cbn. lra.
  - intros i Hi. apply (fifty_at a_reluctance i 0 Hi).
Qed.
Theorem C80_test_formula_refuted :
  ~ (forall (md : activity_model) s act, ad_ready md -> even_population md 1 -> 0 < dt (ad_set md) <= 1/2 -> 0 < act ->
       Forall (fun x : R => x = act) (map a_activity (agents (ad_net md))) ->
       0 < alpha (ad_set md) < test_critical_alpha (n_agents (ad_net md)) (reciprocity (ad_set md)) (K (ad_set md)) (IZR (m (ad_set md))) act ->
       (forall i, (i < n_agents (ad_net md))%nat -> Rabs (opinion_of md i) <= 1 / 10) ->
       exists k md' s', activity_run (a:=RA) real_libm mid_rng (list_pq RA) k md s = Ok (md', s') /\
         forall i, (i < n_agents (ad_net md))%nat -> Rabs (opinion_of md' i) < 1 / 10).
Proof.
  intros Claim. assert (HN : n_agents (ad_net fifty) = 50%nat) by (cbn; reflexivity).
  assert (HI : INR 50 = 50) by (rewrite INR_IZR_INZ; reflexivity).
  assert (Op : forall i, (i < 50)%nat -> opinion_of fifty i = 1 / 10) by (intros i Hi; apply (fifty_at a_opinion i 0 Hi)).
  destruct (Claim fifty 0%nat (1/10) fifty_ready fifty_even ltac:(cbn; lra) ltac:(lra)) as (k & md' & s' & E & H).
  - apply Forall_forall. intros x Hx. apply in_map_iff in Hx as (y & <- & Hy). apply repeat_spec in Hy. subst y. reflexivity.
  - rewrite HN. unfold test_critical_alpha. rewrite HI. change (alpha (ad_set fifty)) with (1 / 5). change (reciprocity (ad_set fifty)) with 1.
    change (K (ad_set fifty)) with 2. change (m (ad_set fifty)) with 10%Z. split; [lra|].
    replace (50 / (50 - 1) * 1 / ((1 + 1) * 2 * 10 * (1 / 10))) with (50 / 49 / 4) by field. lra.
  - intros i Hi. rewrite HN in Hi. rewrite (Op i Hi), Rabs_right; lra.
  - assert (Cc : 9 / 50 <= contact_chance 50 10 <= 1).
    { pose proof (contact_chance_bounds 50 10 ltac:(lia)) as B. rewrite HI in B. replace (INR 10) with 10 in B by (rewrite INR_IZR_INZ; reflexivity).
      replace (10 * (1 / (50 - 1) * (1 - 1 / (50 - 1)) / (1 / (50 - 1) + 1))) with (48 / 245) in B by field. replace (10 * (1 / (50 - 1))) with (10 / 49) in B by field. lra. }
    assert (Ew : 9 / 50 <= even_weight 50 10 1). { unfold even_weight. set (P := contact_chance 50 10) in *. replace (P + (1 - P) * 1 * P) with (P + (1 - P) * P) by ring. nra. }
    assert (Ec : 17 <= even_coupling fifty 1).
    { unfold even_coupling. rewrite HN, HI. change (K (ad_set fifty)) with 2. change (Z.to_nat (m (ad_set fifty))) with 10%nat. change (reciprocity (ad_set fifty)) with 1. lra. }
    destruct (C80_even_population real_libm mid_rng (list_pq RA) (fun _ => eq_refl) (list_pq_bag RA) eq_refl k fifty 0%nat 1 (1/10) fifty_ready fifty_even) as (md2 & s2 & E2 & H2).
    + cbn; lra.
    + rewrite HN. change (Z.to_nat (m (ad_set fifty))) with 10%nat. change (reciprocity (ad_set fifty)) with 1. lra.
    + cbn; lra.
    + cbn; lra.
    + change (dt (ad_set fifty)) with (1/100). change (alpha (ad_set fifty)) with (1/5). lra.
    + lra.
    + intros i Hi. rewrite HN in Hi. rewrite (Op i Hi). lra.
    + assert (Em : (md2, s2) = (md', s')) by (congruence). assert (md2 = md') by congruence. subst md2.
      specialize (H 0%nat ltac:(rewrite HN; lia)). specialize (H2 0%nat ltac:(rewrite HN; lia)).
      change (dt (ad_set fifty)) with (1/100) in H2. change (alpha (ad_set fifty)) with (1/5) in H2.
      rewrite Rmin_left in H2. 2:{ replace (/ (1 / 5)) with 5 by field. lra. }
      pose proof (Rle_abs (opinion_of md' 0)). lra.
Qed.

Print Assumptions C79_values.
Print Assumptions C79_stationary.
Print Assumptions C79_attracting.
Print Assumptions C79_converges.
Print Assumptions C79_even_population.
Print Assumptions C79_two_agents.
Print Assumptions C80_never_neutral.
Print Assumptions C80_approach.
Print Assumptions C80_even_population.
Print Assumptions C80_test_formula_refuted.
