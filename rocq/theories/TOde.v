(** Property theorem C98: the activity-driven model on a fixed network converges to the solution of its differential equation. *)
From Verif Require Import Base BaseFacts Arith64 RFacts MRandom SRandom PRandom WRandom MDist MNetwork SNetwork PNetwork PNetwork2
  MAgents MDeGroot MActivity SActivity PActStep PActNet PActIter PActMean PActIter2 PActInit PActThm PActSym PActReal PActMean2
  TActivity TActivityR TMean TNetGen SRelax PRelax PRelax2 PRelax3 PTanh WRelax TRelax TConsensus SOde.
From Coq Require Import Reals Lra Psatz.
Local Open Scope R_scope.

(** ** One Runge-Kutta step of a system with Lipschitz right-hand side, compared with an Euler step from a nearby point *)
Section System.
Variables (n : nat) (G : nat -> (nat -> R) -> R) (c P Y : R).
Hypothesis Hc : 0 <= c.
Hypothesis Hlip : forall i u v d, (i < n)%nat -> (forall j, (j < n)%nat -> Rabs (u j - v j) <= d) -> Rabs (G i u - G i v) <= c * d.
Hypothesis Hbound : forall i u, (i < n)%nat -> Rabs (G i u) <= P.
Let L := 1 + c.
Let M := Y + P.

Lemma field_close i u v d : (i < n)%nat -> (forall j, (j < n)%nat -> Rabs (u j - v j) <= d) -> Rabs ((G i u - u i) - (G i v - v i)) <= L * d.
Proof using Hlip.
  intros Hi H. replace ((G i u - u i) - (G i v - v i)) with ((G i u - G i v) + - (u i - v i)) by ring. eapply Rle_trans; [apply Rabs_triang|].
  rewrite Rabs_Ropp. specialize (Hlip i u v d Hi H). specialize (H i Hi). unfold L. lra.
Qed.
Lemma field_size i v : (i < n)%nat -> Rabs (v i) <= Y -> Rabs (G i v - v i) <= M.
Proof using Hbound.
  intros Hi H. unfold Rminus. eapply Rle_trans; [apply Rabs_triang|]. rewrite Rabs_Ropp. specialize (Hbound i v Hi). unfold M. lra.
Qed.

Lemma rk4_near (x y2 y3 y4 y : nat -> R) h e : 0 < h -> h * L <= 1 -> 0 <= e -> (0 < n)%nat ->
  (forall i, (i < n)%nat -> Rabs (x i - y i) <= e) -> (forall i, (i < n)%nat -> Rabs (y i) <= Y) ->
  (forall i, (i < n)%nat -> y2 i = x i + h / 2 * (G i x - x i) /\ y3 i = x i + h / 2 * (G i y2 - y2 i) /\ y4 i = x i + h * (G i y3 - y3 i)) ->
  forall i, (i < n)%nat -> Rabs (h / 6 * ((G i x - x i) + 2 * (G i y2 - y2 i) + 2 * (G i y3 - y3 i) + (G i y4 - y4 i)) - h * (G i y - y i)) <= h * (2 * L * e + L * M * h).
Proof using Hlip Hbound Hc.
  intros Hh HL He Hn Hx Hy HS.
  assert (HM : 0 <= M). { specialize (field_size 0%nat y Hn (Hy 0%nat Hn)). intros F. eapply Rle_trans; [apply Rabs_pos|exact F]. }
  set (A := M + L * e). assert (L1 : 1 <= L) by (unfold L; lra). assert (HA : 0 <= A) by (unfold A; nra).
  assert (Near : forall z d, 0 <= d -> (forall j, (j < n)%nat -> Rabs (z j - y j) <= e + h * d) -> forall i, (i < n)%nat ->
     Rabs ((G i z - z i) - (G i y - y i)) <= L * (e + h * d) /\ Rabs (G i z - z i) <= A + d).
  { intros z d Hd Hz i Hi. pose proof (field_close i z y (e + h * d) Hi Hz) as F. split; [exact F|].
    pose proof (field_size i y Hi (Hy i Hi)) as F2. replace (G i z - z i) with (((G i z - z i) - (G i y - y i)) + (G i y - y i)) by ring.
    eapply Rle_trans; [apply Rabs_triang|]. unfold A. assert (L * (h * d) <= d) by nra. nra. }
  assert (Stage : forall z s a, (forall j, (j < n)%nat -> z j = x j + h * s * a j) -> forall B, 0 <= s -> (forall j, (j < n)%nat -> Rabs (a j) <= B) ->
     forall j, (j < n)%nat -> Rabs (z j - y j) <= e + h * (s * B)).
  { intros z s a Hz B Hs Ha j Hj. rewrite (Hz j Hj). replace (x j + h * s * a j - y j) with ((x j - y j) + h * s * a j) by ring.
    eapply Rle_trans; [apply Rabs_triang|]. rewrite Rabs_mult, (Rabs_right (h * s)) by (apply Rle_ge, Rmult_le_pos; lra).
    specialize (Hx j Hj). specialize (Ha j Hj). assert (h * s * Rabs (a j) <= h * s * B) by (apply Rmult_le_compat_l; auto; apply Rmult_le_pos; lra). lra. }
  pose proof (Near x 0 ltac:(lra) ltac:(intros j Hj; rewrite Rmult_0_r, Rplus_0_r; auto)) as N1.
  assert (S2 := Stage y2 (1/2) (fun j => G j x - x j) ltac:(intros j Hj; destruct (HS j Hj) as (-> & _); field) A ltac:(lra) ltac:(intros j Hj; destruct (N1 j Hj); lra)).
  pose proof (Near y2 (1 / 2 * A) ltac:(lra) S2) as N2.
  assert (S3 := Stage y3 (1/2) (fun j => G j y2 - y2 j) ltac:(intros j Hj; destruct (HS j Hj) as (_ & -> & _); field) (3 / 2 * A) ltac:(lra) ltac:(intros j Hj; destruct (N2 j Hj); lra)).
  pose proof (Near y3 (1 / 2 * (3 / 2 * A)) ltac:(lra) S3) as N3.
  assert (S4 := Stage y4 1 (fun j => G j y3 - y3 j) ltac:(intros j Hj; destruct (HS j Hj) as (_ & _ & ->); field) (7 / 4 * A) ltac:(lra) ltac:(intros j Hj; destruct (N3 j Hj); lra)).
  pose proof (Near y4 (1 * (7 / 4 * A)) ltac:(lra) S4) as N4.
  intros i Hi. destruct (N1 i Hi) as (D1 & _), (N2 i Hi) as (D2 & _), (N3 i Hi) as (D3 & _), (N4 i Hi) as (D4 & _).
  set (k1 := G i x - x i) in *. set (k2 := G i y2 - y2 i) in *. set (k3 := G i y3 - y3 i) in *. set (k4 := G i y4 - y4 i) in *. set (k := G i y - y i) in *.
  replace (h / 6 * (k1 + 2 * k2 + 2 * k3 + k4) - h * k) with (h / 6 * ((k1 - k) + 2 * (k2 - k) + 2 * (k3 - k) + (k4 - k))) by field.
  rewrite Rabs_mult, (Rabs_right (h / 6)) by lra.
  assert (T : Rabs ((k1 - k) + 2 * (k2 - k) + 2 * (k3 - k) + (k4 - k)) <= 6 * (2 * L * e + L * M * h)).
  { assert (R3 : forall a b, Rabs (a + 2 * b) <= Rabs a + 2 * Rabs b).
    { intros a b. eapply Rle_trans; [apply Rabs_triang|]. rewrite Rabs_mult, (Rabs_right 2) by lra. lra. }
    eapply Rle_trans; [apply Rabs_triang|]. pose proof (R3 (k1 - k + 2 * (k2 - k)) (k3 - k)) as Q1. pose proof (R3 (k1 - k) (k2 - k)) as Q2.
    assert (E : L * (e + h * 0) + 2 * (L * (e + h * (1 / 2 * A))) + 2 * (L * (e + h * (1 / 2 * (3 / 2 * A)))) + L * (e + h * (1 * (7 / 4 * A))) = L * (6 * e + 17 / 4 * (h * A))) by field.
    assert (E2 : h * A <= h * M + e) by (unfold A; nra).
    assert (E3 : 0 <= h * M) by nra. assert (E4 : L * (6 * e + 17 / 4 * (h * A)) <= L * (6 * (2 * e + M * h))) by (apply Rmult_le_compat_l; lra).
    lra. }
  assert (0 < h / 6) by lra. nra.
Qed.

(** ** The solution over one time step *)
Variables (y : nat -> R -> R) (fixed : nat -> bool) (t0 t1 : R).
Hypothesis Hy : forall i t, (i < n)%nat -> t0 <= t <= t1 -> Rabs (y i t) <= Y.
Hypothesis Hode : forall i t, (i < n)%nat -> t0 <= t <= t1 ->
  if fixed i then y i t = y i t0 else derivable_pt_lim (y i) t (- y i t + G i (fun j => y j t)).
Lemma solution_moves i t u : (i < n)%nat -> t0 <= t -> t <= u -> u <= t1 -> Rabs (y i u - y i t) <= M * (u - t).
Proof using Hy Hode Hbound.
  intros Hi H1 H2 H3. assert (M0 : 0 <= M). { pose proof (field_size i (fun j => y j t0) Hi (Hy i t0 Hi ltac:(lra))). eapply Rle_trans; [apply Rabs_pos|exact H]. }
  destruct (fixed i) eqn:Ef.
  - pose proof (Hode i t Hi ltac:(lra)) as A. pose proof (Hode i u Hi ltac:(lra)) as B. rewrite Ef in A, B. rewrite A, B, Rminus_diag_eq, Rabs_R0 by auto. nra.
  - destruct (Req_dec t u) as [->|Hne]; [rewrite Rminus_diag_eq, Rabs_R0 by auto; nra|].
    destruct (MVT_cor2 (y i) (fun t => - y i t + G i (fun j => y j t)) t u ltac:(lra)) as (xi & E & Hx).
    { intros z Hz. pose proof (Hode i z Hi ltac:(lra)) as A. rewrite Ef in A. exact A. }
    rewrite E, Rabs_mult, (Rabs_right (u - t)) by lra. apply Rmult_le_compat_r; [lra|].
    pose proof (field_size i (fun j => y j xi) Hi (Hy i xi Hi ltac:(lra))) as F. cbv beta in F. replace (- y i xi + G i (fun j => y j xi)) with (G i (fun j => y j xi) - y i xi) by ring. exact F.
Qed.
Lemma solution_step i : (i < n)%nat -> t0 < t1 -> fixed i = false ->
  Rabs (y i t1 - y i t0 - (t1 - t0) * (G i (fun j => y j t0) - y i t0)) <= L * M * (t1 - t0) ^ 2.
Proof using Hy Hode Hbound Hlip.
  intros Hi Ht Ef.
  destruct (MVT_cor2 (y i) (fun t => - y i t + G i (fun j => y j t)) t0 t1 Ht) as (xi & E & Hx).
  { intros z Hz. pose proof (Hode i z Hi ltac:(lra)) as A. rewrite Ef in A. exact A. }
  rewrite E. replace ((- y i xi + G i (fun j => y j xi)) * (t1 - t0) - (t1 - t0) * (G i (fun j => y j t0) - y i t0))
    with ((t1 - t0) * ((G i (fun j => y j xi) - y i xi) - (G i (fun j => y j t0) - y i t0))) by ring.
  rewrite Rabs_mult, (Rabs_right (t1 - t0)) by lra.
  assert (M0 : 0 <= M). { pose proof (field_size i (fun j => y j t0) Hi (Hy i t0 Hi ltac:(lra))). eapply Rle_trans; [apply Rabs_pos|exact H]. }
  pose proof (field_close i (fun j => y j xi) (fun j => y j t0) (M * (t1 - t0)) Hi) as F. cbv beta in F.
  assert (D : forall j, (j < n)%nat -> Rabs (y j xi - y j t0) <= M * (t1 - t0)).
  { intros j Hj. eapply Rle_trans; [apply solution_moves; auto; lra|]. apply Rmult_le_compat_l; lra. }
  specialize (F D). replace (L * M * (t1 - t0) ^ 2) with ((t1 - t0) * (L * (M * (t1 - t0)))) by ring. apply Rmult_le_compat_l; lra.
Qed.
End System.

(** A solution of f' = -f + g with |g| <= P stays within |f(0)| + P. *)
Lemma decay_one_side (f g : R -> R) P T : 0 <= P -> (forall t, 0 <= t <= T -> derivable_pt_lim f t (- f t + g t)) ->
  (forall t, 0 <= t <= T -> g t <= P) -> forall t, 0 <= t <= T -> f t <= Rabs (f 0) + P.
Proof.
  intros HP Hf Hg t Ht. destruct (Req_dec t 0) as [->|Hn]; [pose proof (Rle_abs (f 0)); lra|].
  set (u := fun t => exp t * (f t - P)).
  assert (D : forall c, 0 <= c <= t -> derivable_pt_lim u c (exp c * (f c - P) + exp c * (- f c + g c - 0))).
  { intros c Hc. apply (derivable_pt_lim_mult exp (fun t => f t - P)); [apply derivable_pt_lim_exp|].
    apply (derivable_pt_lim_minus f (fun _ => P)); [apply Hf; lra|apply derivable_pt_lim_const]. }
  destruct (MVT_cor2 u _ 0 t ltac:(lra) D) as (c & E & Hc). unfold u in E. rewrite exp_0 in E.
  assert (N : exp c * (f c - P) + exp c * (- f c + g c - 0) <= 0).
  { replace (exp c * (f c - P) + exp c * (- f c + g c - 0)) with (exp c * (g c - P)) by ring. pose proof (exp_pos c). specialize (Hg c ltac:(lra)). nra. }
  assert (X : exp t * (f t - P) <= f 0 - P) by nra. assert (1 <= exp t) by (pose proof (exp_ineq1_le t); lra). pose proof (Rle_abs (f 0)). pose proof (Rabs_pos (f 0)).
  destruct (Rle_lt_dec (f t) P) as [A|A]; [lra|]. nra.
Qed.
Lemma decay_bounded (f g : R -> R) P T : 0 <= P -> (forall t, 0 <= t <= T -> derivable_pt_lim f t (- f t + g t)) ->
  (forall t, 0 <= t <= T -> Rabs (g t) <= P) -> forall t, 0 <= t <= T -> Rabs (f t) <= Rabs (f 0) + P.
Proof.
  intros HP Hf Hg t Ht. apply Rabs_le. split.
  - pose proof (decay_one_side (fun t => - f t) (fun t => - g t) P T HP) as B. cbv beta in B. rewrite Rabs_Ropp in B.
    enough (- f t <= Rabs (f 0) + P) by lra. apply B; auto.
    + intros u Hu. replace (- - f u + - g u) with (- (- f u + g u)) by ring. apply (derivable_pt_lim_opp f). now apply Hf.
    + intros u Hu. pose proof (Rle_abs (- g u)). rewrite Rabs_Ropp in H. specialize (Hg u Hu). lra.
  - apply (decay_one_side f g P T HP Hf); auto. intros u Hu. pose proof (Rle_abs (g u)). specialize (Hg u Hu). lra.
Qed.

Lemma power_below_exp u k : 0 <= u -> (1 + u) ^ k <= exp (INR k * u).
Proof.
  intros Hu. induction k as [|k IH]; [cbn; rewrite Rmult_0_l, exp_0; lra|]. cbn [pow]. rewrite S_INR. replace ((INR k + 1) * u) with (u + INR k * u) by ring. rewrite exp_plus.
  pose proof (exp_ineq1_le u). apply Rmult_le_compat; try lra. apply pow_le. lra.
Qed.

Section Ode.
Context (lm : Libm RA) (g : Rng RA) (q : PQ RA).
Hypothesis Htanh : forall x : R, ltanh RA lm x = tanh x.
Hypothesis Hq : pq_bag q.
Notation activity_model := (ad_model (a:=RA) (activity_agent (F RA))).

(** If the network is the same in every iteration (rows [W]), after [k] iterations every opinion differs from the
    solution at time k dt by at most dt times a constant that depends on neither dt nor k (for k dt <= T):
    M (exp(2 L T) - 1), where P bounds |K / reluctance| times the total weights, M = Y + P, L = 1 + P |alpha|. *)
Lemma follows_bounded k (md md' : activity_model) s s' W T y P Y : ad_ready md -> bots_in_place md ->
  activity_run (a:=RA) lm g q k md s = Ok (md', s') ->
  (forall i, (i < n_agents (ad_net md))%nat -> rows_along lm g q k md s i (fun r => r = W i)) ->
  (forall i, (i < n_agents (ad_net md))%nat -> Rabs (K (ad_set md) / reluctance_of md i) * total_weight (W i) <= P) ->
  solves_ode md W T y -> INR k * dt (ad_set md) <= T ->
  (forall i t, (i < n_agents (ad_net md))%nat -> 0 <= t <= T -> Rabs (y i t) <= Y) ->
  let L := 1 + P * Rabs (alpha (ad_set md)) in
  0 < dt (ad_set md) -> dt (ad_set md) * L <= 1 ->
  forall i, (i < n_agents (ad_net md))%nat ->
    Rabs (opinion_of md' i - y i (INR k * dt (ad_set md))) <= dt (ad_set md) * ((Y + P) * (exp (2 * L * T) - 1)).
Proof using Htanh Hq.
  intros Hr Hbp E HW HP Hode HT HY L Hh HL i0 Hi0.
  set (h := (dt (ad_set md) : R)) in *. set (n := n_agents (ad_net md)) in *. set (M := Y + P).
  assert (P0 : 0 <= P). { eapply Rle_trans; [|exact (HP i0 Hi0)]. apply Rmult_le_pos; [apply Rabs_pos|apply total_weight_nonneg]. }
  assert (Y0 : 0 <= Y). { eapply Rle_trans; [apply Rabs_pos|]. apply (HY i0 0 Hi0). split; [lra|]. eapply Rle_trans; [|exact HT]. apply Rmult_le_pos; [apply pos_INR|lra]. }
  set (c := P * Rabs (alpha (ad_set md))) in *. assert (c0 : 0 <= c) by (apply Rmult_le_pos; [lra|apply Rabs_pos]).
  assert (L1 : 1 <= L) by (unfold L; lra).
  set (G := fun i u => social_pull (ad_set md) (reluctance_of md i) (W i) u).
  assert (Gb : forall i u, (i < n)%nat -> Rabs (G i u) <= P) by (intros i u Hi; eapply Rle_trans; [apply pull_bound|apply HP; exact Hi]).
  assert (Main : (forall i, (i < n)%nat -> Rabs (opinion_of md' i - y i (INR k * h)) <= M * h * ((1 + 2 * L * h) ^ k - 1)) /\ (forall b, (b < n_bots (ad_set md))%nat -> opinion_of md' b = nth b (bot_opinion (ad_set md)) 0)).
  { destruct (run_track lm g q Hq (fun j mdj => (forall i, (i < n)%nat -> Rabs (opinion_of mdj i - y i (INR j * h)) <= M * h * ((1 + 2 * L * h) ^ j - 1)) /\
      (forall b, (b < n_bots (ad_set md))%nat -> opinion_of mdj b = nth b (bot_opinion (ad_set md)) 0)) md s k md' s' Hr) as [H _]; auto.
    - split; [|exact Hbp]. intros i Hi. change (INR 0) with 0. rewrite Rmult_0_l. destruct (Hode i Hi) as (-> & _). rewrite Rminus_diag_eq, Rabs_R0 by auto. cbn [pow]. lra.
    - intros j mdj sj mdj' sj' Hj Ej (F1 & F2 & F3 & F4 & F5) E1 Ej' (Q & QB).
      destruct (step_stages lm g q Htanh Hq mdj mdj' sj sj' F1 E1) as (y2 & y3 & y4 & HS). rewrite F2, F3 in HS. fold n h in HS.
      destruct (step_frame lm g q Hq mdj mdj' sj sj' F1 E1) as (_ & _ & _ & _ & _ & HF). rewrite F3 in HF. fold n in HF.
      assert (Hrow : forall i, (i < n)%nat -> row (ad_net mdj') i = W i) by (intros i Hi; apply (HW i Hi (S j) mdj' sj'); auto; lia).
      assert (Hlip : forall i u v d, (i < n)%nat -> (forall j, (j < n)%nat -> Rabs (u j - v j) <= d) -> Rabs (G i u - G i v) <= c * d).
      { intros i u v d Hi Huv. assert (d0 : 0 <= d) by (eapply Rle_trans; [apply Rabs_pos|exact (Huv i Hi)]).
        eapply Rle_trans; [apply (pull_close _ _ _ _ _ d)|].
        - specialize (HF i Hi). rewrite (Hrow i Hi) in HF. rewrite Forall_forall in *. intros p Hp. right. apply Huv. exact (HF p Hp).
        - unfold c. rewrite Rmult_assoc. rewrite <- Rmult_assoc. rewrite <- Rmult_assoc. apply Rmult_le_compat_r; [exact d0|]. apply Rmult_le_compat_r; [apply Rabs_pos|]. exact (HP i Hi). }
      set (t0 := INR j * h). set (t1 := INR (S j) * h). assert (Et : t1 - t0 = h) by (unfold t1, t0; rewrite S_INR; ring).
      assert (HT1 : t1 <= T). { eapply Rle_trans; [|exact HT]. apply Rmult_le_compat_r; [lra|]. apply le_INR. lia. }
      assert (HT0 : 0 <= t0) by (apply Rmult_le_pos; [apply pos_INR|lra]).
      assert (Hfix : forall b, (b < n_bots (ad_set md))%nat -> (b < n)%nat) by (intros b Hb; assert (HN : (n_bots (ad_set md) <= n)%nat) by apply Hr; lia).
      split.
      2:{ intros b Hb. destruct (HS b (Hfix b Hb)) as (_ & _ & _ & _ & E6). exact (E6 Hb). }
      intros i Hi. destruct (HS i Hi) as (_ & _ & _ & E5 & E6). fold t1.
      destruct (le_lt_dec (n_bots (ad_set md)) i) as [Hb|Hb].
      + pose proof (rk4_near n G c P Y c0 Hlip Gb (opinion_of mdj) y2 y3 y4 (fun i => y i t0) h (M * h * ((1 + 2 * L * h) ^ j - 1)) Hh HL) as R1.
        assert (pw : 1 <= (1 + 2 * L * h) ^ j) by (apply pow_R1_Rle; nra). assert (M0 : 0 <= M) by (unfold M; lra). assert (Mh : 0 <= M * h) by nra.
        specialize (R1 ltac:(apply Rmult_le_pos; lra) ltac:(lia) Q ltac:(intros u Hu; apply HY; [exact Hu|lra])).
        assert (HS' : forall i, (i < n)%nat -> y2 i = opinion_of mdj i + h / 2 * (G i (opinion_of mdj) - opinion_of mdj i) /\
          y3 i = opinion_of mdj i + h / 2 * (G i y2 - y2 i) /\ y4 i = opinion_of mdj i + h * (G i y3 - y3 i)).
        { intros u Hu. destruct (HS u Hu) as (A2 & A3 & A4 & _). rewrite (Hrow u Hu), F4 in A2, A3, A4. split; [exact A2|]. split; [exact A3|exact A4]. }
        specialize (R1 HS' i Hi).
        pose proof (solution_step n G c P Y Hlip Gb y (fun u => (u <? n_bots (ad_set md))%nat) t0 t1) as R2.
        assert (Hode' : forall i t, (i < n)%nat -> t0 <= t <= t1 -> if (i <? n_bots (ad_set md))%nat then y i t = y i t0 else derivable_pt_lim (y i) t (- y i t + G i (fun j => y j t))).
        { intros u t Hu Ht. destruct (Hode u Hu) as (_ & O). pose proof (O t ltac:(lra)) as O1. pose proof (O t0 ltac:(lra)) as O2. destruct (u <? n_bots (ad_set md))%nat; [congruence|exact O1]. }
        specialize (R2 ltac:(intros u t Hu Ht; apply HY; [exact Hu|lra]) Hode' i Hi ltac:(lra) ltac:(now apply Nat.ltb_ge)). rewrite Et in R2. fold M L in R1, R2.
        specialize (E5 Hb). rewrite (Hrow i Hi), F4 in E5. fold (G i (opinion_of mdj)) (G i y2) (G i y3) (G i y4) in E5.
        rewrite E5. specialize (Q i Hi). fold t0 in Q.
        set (step := h / 6 * (G i (opinion_of mdj) - opinion_of mdj i + 2 * (G i y2 - y2 i) + 2 * (G i y3 - y3 i) + (G i y4 - y4 i))) in *.
        replace (opinion_of mdj i + step - y i t1) with ((opinion_of mdj i - y i t0) + (step - h * (G i (fun i => y i t0) - y i t0)) + - (y i t1 - y i t0 - h * (G i (fun j => y j t0) - y i t0))) by ring.
        eapply Rle_trans; [apply Rabs_triang|]. rewrite Rabs_Ropp. eapply Rle_trans; [apply Rplus_le_compat_r, Rabs_triang|].
        cbn [pow]. set (p := (1 + 2 * L * h) ^ j) in *.
        replace (M * h * ((1 + 2 * L * h) * p - 1)) with (M * h * (p - 1) + h * (2 * L * (M * h * (p - 1)) + L * M * h) + L * M * h ^ 2) by ring. lra.
      + specialize (E6 Hb). rewrite E6. destruct (Hode i Hi) as (_ & O). specialize (O t1 ltac:(lra)). rewrite (proj2 (Nat.ltb_lt _ _) Hb) in O. rewrite O, Rminus_diag_eq, Rabs_R0 by auto.
        assert (1 <= (1 + 2 * L * h) ^ S j) by (apply pow_R1_Rle; nra). apply Rmult_le_pos; [unfold M; nra|lra]. }
  destruct Main as (Main & _). specialize (Main i0 Hi0). eapply Rle_trans; [exact Main|].
  assert (Ex : (1 + 2 * L * h) ^ k <= exp (2 * L * T)).
  { eapply Rle_trans; [apply power_below_exp; nra|]. assert (INR k * (2 * L * h) <= 2 * L * T) by nra. destruct (Rle_lt_or_eq_dec _ _ H) as [Hlt| ->]; [left; now apply exp_increasing|lra]. }
  unfold M. assert (0 <= (Y + P) * h) by nra. nra.
Qed.

(** C98. If the network is the same in every iteration (rows [W]), after [k] iterations every opinion differs from the
    solution at time k dt by at most dt times a constant that depends on neither dt nor k (for k dt <= T):
    (X + 2 P) (exp(2 L T) - 1), where X bounds the initial opinions, P bounds |K / reluctance| times the total weights and L = 1 + P |alpha|. *)
Theorem C98_follows_the_equation k (md md' : activity_model) s s' W T y P X : ad_ready md -> bots_in_place md ->
  activity_run (a:=RA) lm g q k md s = Ok (md', s') ->
  (forall i, (i < n_agents (ad_net md))%nat -> rows_along lm g q k md s i (fun r => r = W i)) ->
  (forall i, (i < n_agents (ad_net md))%nat -> Rabs (K (ad_set md) / reluctance_of md i) * total_weight (W i) <= P) ->
  (forall i, (i < n_agents (ad_net md))%nat -> Rabs (opinion_of md i) <= X) ->
  solves_ode md W T y -> INR k * dt (ad_set md) <= T ->
  let L := 1 + P * Rabs (alpha (ad_set md)) in
  0 < dt (ad_set md) -> dt (ad_set md) * L <= 1 ->
  forall i, (i < n_agents (ad_net md))%nat ->
    Rabs (opinion_of md' i - y i (INR k * dt (ad_set md))) <= dt (ad_set md) * ((X + 2 * P) * (exp (2 * L * T) - 1)).
Proof using Htanh Hq.
  intros Hr Hbp E HW HP HX Hode HT L Hh HL i Hi.
  assert (P0 : 0 <= P). { eapply Rle_trans; [|exact (HP i Hi)]. apply Rmult_le_pos; [apply Rabs_pos|apply total_weight_nonneg]. }
  replace (X + 2 * P) with ((X + P) + P) by ring.
  apply (follows_bounded k md md' s s' W T y P (X + P)); auto.
  intros j t Hj Ht. destruct (Hode j Hj) as (O0 & O). specialize (HX j Hj).
  destruct (Nat.ltb_spec j (n_bots (ad_set md))) as [Hb|Hb].
  - rewrite (O t Ht), <- (Hbp j Hb). lra.
  - pose proof (decay_bounded (y j) (fun t => social_pull (ad_set md) (reluctance_of md j) (W j) (fun j => y j t)) P T P0 O) as B.
    rewrite O0 in B. eapply Rle_trans; [apply B; [|exact Ht]|lra].
    intros u Hu. eapply Rle_trans; [apply pull_bound|]. now apply HP.
Qed.

(** In the mean-field model without homophily (and without bots) the network is the same in every iteration, so the
    opinions follow y_i' = -y_i + K w / reluctance_i * sum over the others of tanh(alpha y_j), with the weight w of SRelax. *)
Hypothesis Hpow : lpow RA lm = Rpow.
Theorem C98_mean_field k (md : activity_model) s T y kap X : ad_ready md -> mean_weights (ad_set md) = true -> (2 <= n_agents (ad_net md))%nat ->
  n_bots (ad_set md) = 0%nat -> homophily (ad_set md) = 0 -> Forall (fun x : R => x <= 1) (map a_activity (agents (ad_net md))) ->
  let n := n_agents (ad_net md) in let w := even_weight n (Z.to_nat (m (ad_set md))) (reciprocity (ad_set md)) in 0 <= w ->
  (forall i, (i < n)%nat -> Rabs (K (ad_set md) / reluctance_of md i) <= kap) ->
  (forall i, (i < n)%nat -> Rabs (opinion_of md i) <= X) ->
  (forall i, (i < n)%nat -> y i 0 = opinion_of md i /\ forall t, 0 <= t <= T ->
     derivable_pt_lim (y i) t (- y i t + K (ad_set md) / reluctance_of md i * (w * Rsum (map (fun j => if (j =? i)%nat then 0 else tanh (alpha (ad_set md) * y j t)) (seq 0 n))))) ->
  INR k * dt (ad_set md) <= T ->
  let P := kap * ((INR n - 1) * w) in let L := 1 + P * Rabs (alpha (ad_set md)) in
  0 < dt (ad_set md) -> dt (ad_set md) * L <= 1 ->
  exists md' s', activity_run (a:=RA) lm g q k md s = Ok (md', s') /\ forall i, (i < n)%nat ->
    Rabs (opinion_of md' i - y i (INR k * dt (ad_set md))) <= dt (ad_set md) * ((X + 2 * P) * (exp (2 * L * T) - 1)).
Proof using Htanh Hq Hpow.
  intros Hr Hm Hn Hb Hh Ha n w Hw Hk HX Hode HT P L Hdt HL.
  destruct (activity_run_ready (a:=RA) lm g q k md s Hq Hr) as (md' & s' & E & _). exists md', s'. split; auto.
  set (W := fun i => map (fun j => (j, if (j =? i)%nat then 0 else w)) (seq 0 n)).
  apply (C98_follows_the_equation k md md' s s' W T y P X); auto.
  - intros b Hb'. lia.
  - intros i Hi j mdj sj Hj Ej. destruct j as [|j]; [lia|]. pose proof Ej as Ej'. rewrite run_snoc in Ej'. apply bind_ok_inv in Ej' as ([md1 s1] & E1 & E2).
    destruct (run_track lm g q Hq (fun _ _ => True) md s j md1 s1 Hr I) as [_ (F1 & F2 & F3 & F4 & F5)]; auto.
    rewrite (even_rows lm Hpow g q Hq md1 mdj s1 sj i); auto; rewrite ?F2, ?F3, ?F5; auto.
  - intros i Hi. destruct (even_row_weight n i w Hi Hw) as (_ & Tw). fold (W i) in Tw. rewrite Tw. apply Rmult_le_compat_r; [|now apply Hk].
    apply Rmult_le_pos; [|exact Hw]. assert (INR 2 <= INR n) by (apply le_INR; exact Hn). cbn [INR] in H. lra.
  - intros i Hi. destruct (Hode i Hi) as (O0 & O). split; [exact O0|]. intros t Ht. rewrite Hb. cbn [Nat.ltb Nat.leb].
    replace (social_pull (ad_set md) (reluctance_of md i) (W i) (fun j => y j t)) with
      (K (ad_set md) / reluctance_of md i * (w * Rsum (map (fun j => if (j =? i)%nat then 0 else tanh (alpha (ad_set md) * y j t)) (seq 0 n)))); [exact (O t Ht)|].
    unfold social_pull, W. rewrite map_map. f_equal. cbn [fst snd]. clear. generalize (seq 0 n). intros l. induction l as [|j l IH]; cbn [map]; rewrite ?Rsum_nil, ?Rsum_cons; [ring|]. rewrite <- IH. destruct (j =? i)%nat; ring.
Qed.
End Ode.

(** ** Non-vacuity *)
(** A bot with opinion 2 and an agent starting at -1 (time step 1/10, up to any time T): the exact solution is 2 and (-1 - C) e^-t + C. *)
Definition bot_rows (i : nat) : list (nat * R) := match i with 0%nat => [(0%nat, 0); (1%nat, 0)] | _ => [(0%nat, 1); (1%nat, 0)] end.
Lemma bot_and_agent_rows k i : (i < 2)%nat -> rows_along real_libm mid_rng (list_pq RA) k bot_and_agent 0%nat i (fun r => r = bot_rows i).
Proof.
  intros Hi j mdj sj Hj Ej. destruct j as [|j]; [lia|]. pose proof Ej as Ej'. rewrite run_snoc in Ej'. apply bind_ok_inv in Ej' as ([md1 s1] & E1 & E2).
  destruct (run_track real_libm mid_rng (list_pq RA) (list_pq_bag RA) (fun _ _ => True) bot_and_agent 0%nat j md1 s1 bot_and_agent_ready I) as [_ (F1 & F2 & F3 & F4 & F5)]; auto.
  destruct (two_rows real_libm mid_rng (list_pq RA) (list_pq_bag RA) eq_refl md1 mdj s1 sj F1 ltac:(now rewrite F2) ltac:(now rewrite F3)
    ltac:(rewrite F5; repeat constructor; cbn; lra) ltac:(rewrite F2; cbn; lia) ltac:(rewrite F2; cbn; lia) E2) as (R0 & R1).
  assert (C0 : contact_count (a:=RA) (ad_set bot_and_agent) 0 = 1%nat) by reflexivity.
  assert (C1 : contact_count (a:=RA) (ad_set bot_and_agent) 1 = 0%nat) by reflexivity.
  rewrite F2, C0, C1 in R0, R1. change (reciprocity (ad_set bot_and_agent)) with 0 in R0, R1. cbn [INR] in R0, R1.
  destruct i as [|[|i]]; [| |lia]; cbn [bot_rows].
  - rewrite R0. assert (G : forall u v : R, u = v -> [(0%nat, 0); (1%nat, u)] = [(0%nat, 0); (1%nat, v)]) by (intros ? ? ->; reflexivity). apply G. ring.
  - rewrite R1. assert (G : forall u v : R, u = v -> [(0%nat, u); (1%nat, 0)] = [(0%nat, v); (1%nat, 0)]) by (intros ? ? ->; reflexivity). apply G. ring.
Qed.
Example C98_instance k : let C := 2 / (3/2) * tanh (3/2 * 2) in let T := INR k * (1/10) in
  exists md' s', activity_run (a:=RA) real_libm mid_rng (list_pq RA) k bot_and_agent 0%nat = Ok (md', s') /\
    Rabs (opinion_of md' 1 - ((-1 - C) * exp (- T) + C)) <= 1 / 10 * ((2 + 2 * (4 / 3)) * (exp (2 * 3 * T) - 1)).
Proof.
  intros C T. destruct (activity_run_ready (a:=RA) real_libm mid_rng (list_pq RA) k bot_and_agent 0%nat (list_pq_bag RA) bot_and_agent_ready) as (md' & s' & E & _).
  exists md', s'. split; auto.
  set (y := fun (i : nat) (t : R) => match i with 0%nat => 2 | _ => (-1 - C) * exp (- t) + C end).
  assert (HT : forall u v : R, total_weight [(0%nat, u); (1%nat, v)] = Rabs u + Rabs v) by (intros; unfold total_weight; cbn [map snd]; rewrite !Rsum_cons, Rsum_nil; ring).
  pose proof (C98_follows_the_equation real_libm mid_rng (list_pq RA) (fun _ => eq_refl) (list_pq_bag RA) k bot_and_agent md' 0%nat s' bot_rows T y (4/3) 2 bot_and_agent_ready) as H.
  specialize (H ltac:(intros u Hu; assert (u = 0%nat) by (cbn in Hu; lia); subst u; reflexivity) E (bot_and_agent_rows k)).
  assert (EL : 1 + 4 / 3 * Rabs (alpha (ad_set bot_and_agent)) = 3) by (change (alpha (ad_set bot_and_agent)) with (3/2); rewrite Rabs_right by lra; field).
  cbv zeta in H. rewrite EL in H. change (dt (ad_set bot_and_agent)) with (1/10) in H. fold T in H.
  apply (fun a b c => H a b c (Rle_refl T) ltac:(lra) ltac:(lra) 1%nat ltac:(cbn; lia)); clear H.
  - intros i Hi. destruct i as [|[|i]]; [| |cbn in Hi; lia]; cbn [bot_rows]; rewrite HT.
    + rewrite Rabs_R0. replace (Rabs (K (ad_set bot_and_agent) / reluctance_of bot_and_agent 0) * (0 + 0)) with 0 by ring. lra.
    + rewrite Rabs_R1, Rabs_R0. change (K (ad_set bot_and_agent) / reluctance_of bot_and_agent 1) with (2 / (3 / 2)). rewrite Rabs_right by lra. lra.
  - intros i Hi. destruct i as [|[|i]]; [| |cbn in Hi; lia]; [change (opinion_of bot_and_agent 0) with 2; rewrite Rabs_right; lra|].
    change (opinion_of bot_and_agent 1) with (-1). rewrite Rabs_left; lra.
  - intros i Hi. destruct i as [|[|i]]; [| |cbn in Hi; lia]; cbn [y].
    + split; [reflexivity|]. intros t _. reflexivity.
    + split; [rewrite Ropp_0, exp_0; change (opinion_of bot_and_agent 1) with (-1); ring|]. intros t _. cbn [Nat.ltb Nat.leb n_bots bot_and_agent ad_set complete_model field_settings].
      assert (ES : social_pull (ad_set bot_and_agent) (reluctance_of bot_and_agent 1) (bot_rows 1) (fun j => y j t) = C).
      { unfold social_pull, bot_rows. cbn [map fst snd y]. rewrite !Rsum_cons, Rsum_nil. unfold C. change (K (ad_set bot_and_agent) / reluctance_of bot_and_agent 1) with (2 / (3 / 2)).
        change (alpha (ad_set bot_and_agent)) with (3/2). ring. }
      change (derivable_pt_lim (fun t => (-1 - C) * exp (- t) + C) t (- ((-1 - C) * exp (- t) + C) + social_pull (ad_set bot_and_agent) (reluctance_of bot_and_agent 1) (bot_rows 1) (fun j => y j t))).
      rewrite ES. replace (- ((-1 - C) * exp (- t) + C) + C) with ((-1 - C) * (exp (- t) * (- 1)) + 0) by ring.
      apply (derivable_pt_lim_plus (fun t => (-1 - C) * exp (- t)) (fun _ => C)); [|apply derivable_pt_lim_const].
      apply (derivable_pt_lim_scal (fun t => exp (- t))). apply (derivable_pt_lim_comp Ropp exp); [|apply derivable_pt_lim_exp].
      apply (derivable_pt_lim_opp id), derivable_pt_lim_id.
Qed.

(** Two agents that agree on a consensus value other than 0 (coupling 2, controversialness 1) in the mean-field model. *)
Example C98_mean_field_instance k T : INR k * (1/10) <= T -> exists p, 0 < p /\ consensus_value 2 1 p /\
  let md := complete_model (field_settings (1/10) 1 1 (1/2) 2 0 [] []) [mkActivity p 1 1; mkActivity p (1/2) 1] in
  exists md' s', activity_run (a:=RA) real_libm mid_rng (list_pq RA) k md 0%nat = Ok (md', s') /\ forall i, (i < 2)%nat ->
    Rabs (opinion_of md' i - p) <= 1 / 10 * ((p + 2 * 2) * (exp (2 * 3 * T) - 1)).
Proof.
  intros HkT. destruct (proj2 (C79_values 2 1 ltac:(lra) ltac:(lra)) ltac:(lra)) as (p & Hp & _ & Cp & _). exists p. split; auto. split; auto. intros md.
  assert (Hr : ad_ready md) by (apply complete_ready; [apply field_fit; cbn; try lia; constructor|cbn; lia|cbn; lia]).
  assert (Ew : even_weight 2 1 (1/2) = 1).
  { unfold even_weight, contact_chance. cbn [seq map]. rewrite Rsum_cons, Rsum_nil. cbn [INR Nat.add pow]. field. }
  pose proof (C98_mean_field real_libm mid_rng (list_pq RA) (fun _ => eq_refl) (list_pq_bag RA) eq_refl k md 0%nat T (fun _ _ => p) 2 p Hr eq_refl (le_n 2) eq_refl eq_refl
    ltac:(repeat constructor; cbn; lra)) as H.
  cbv zeta in H. change (n_agents (ad_net md)) with 2%nat in H. change (Z.to_nat (m (ad_set md))) with 1%nat in H. change (reciprocity (ad_set md)) with (1/2) in H.
  rewrite Ew in H. change (dt (ad_set md)) with (1/10) in H. change (alpha (ad_set md)) with 1 in H. cbn [INR] in H.
  assert (E2 : 2 * ((1 + 1 - 1) * 1) = 2) by ring. rewrite E2 in H. assert (E3 : 1 + 2 * Rabs 1 = 3) by (rewrite Rabs_R1; ring). rewrite E3 in H.
  assert (Kr : forall i, (i < 2)%nat -> K (ad_set md) / reluctance_of md i = 2).
  { intros i Hi. destruct i as [|[|i]]; [| |lia]; [change (K (ad_set md) / reluctance_of md 0) with (2 / 1)|change (K (ad_set md) / reluctance_of md 1) with (2 / 1)]; field. }
  assert (Op : forall i, (i < 2)%nat -> opinion_of md i = p) by (intros i Hi; destruct i as [|[|i]]; [reflexivity|reflexivity|lia]).
  apply H; try lra.
  - intros i Hi. rewrite (Kr i Hi), Rabs_right; lra.
  - intros i Hi. rewrite (Op i Hi), Rabs_right; lra.
  - intros i Hi. split; [now rewrite (Op i Hi)|]. intros t _. rewrite (Kr i Hi).
    replace (- p + _) with 0; [apply derivable_pt_lim_const|]. unfold consensus_value in Cp.
    destruct i as [|[|i]]; [| |lia]; cbn [seq map Nat.eqb]; rewrite !Rsum_cons, Rsum_nil; lra.
Qed.
Print Assumptions C98_follows_the_equation.
Print Assumptions C98_mean_field.
Print Assumptions C98_instance.
Print Assumptions C98_mean_field_instance.
