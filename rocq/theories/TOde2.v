(** Property theorem C99: the inertial model on a fixed network converges to the solution of its differential equations. *)
From Verif Require Import Base BaseFacts Arith64 RFacts MRandom SRandom PRandom WRandom MDist MNetwork SNetwork PNetwork PNetwork2
  MAgents MDeGroot MActivity SActivity PActStep PActNet PActIter PActMean PActIter2 PActInit PActThm PActSym PActReal PActMean2
  TActivity TActivityR TMean TNetGen SRelax PRelax PRelax2 PRelax3 PTanh WRelax TRelax SInertia PInertia POscillator PInertia2 PInertia3 TConsensus TInertia SOde TOde SOde2.
From Coq Require Import Reals Lra Psatz.
Local Open Scope R_scope.

Lemma triangle3 a b c : Rabs (a + b + c) <= Rabs a + Rabs b + Rabs c.
Proof. eapply Rle_trans; [apply Rabs_triang|]. pose proof (Rabs_triang a b). lra. Qed.
Lemma mult_bound a b u : 0 <= a -> Rabs b <= u -> Rabs (a * b) <= a * u.
Proof. intros Ha Hb. rewrite Rabs_mult, (Rabs_right a) by lra. apply Rmult_le_compat_l; auto. Qed.

Section System.
Variables (n : nat) (G : nat -> (nat -> R) -> R) (c P M mu h : R).
Hypothesis Hc : 0 <= c.
Hypothesis Hlip : forall i u v d, (i < n)%nat -> (forall j, (j < n)%nat -> Rabs (u j - v j) <= d) -> Rabs (G i u - G i v) <= c * d.
Hypothesis Hbound : forall i u, (i < n)%nat -> Rabs (G i u) <= P.
Hypothesis Hmu : 0 <= mu.
Hypothesis Hh : 0 < h.
Let L := 1 + c + mu.
Hypothesis HL : h * L <= 1.
Let A := P + M + mu * M.
(** The force on agent [i]. *)
Let F i (u : nat -> R) (v : R) := G i u - u i - mu * v.

Lemma force_size i u v : (i < n)%nat -> Rabs (u i) <= M -> Rabs v <= M -> Rabs (F i u v) <= A.
Proof using Hbound Hmu.
  intros Hi Hu Hv. unfold F, A. replace (G i u - u i - mu * v) with (G i u + - u i + - (mu * v)) by ring.
  eapply Rle_trans; [apply triangle3|]. rewrite !Rabs_Ropp. pose proof (mult_bound mu v M Hmu Hv). specialize (Hbound i u Hi). lra.
Qed.
Lemma force_close i u u' v v' d e : (i < n)%nat -> (forall j, (j < n)%nat -> Rabs (u j - u' j) <= d) -> Rabs (v - v') <= e ->
  Rabs (F i u v - F i u' v') <= (1 + c) * d + mu * e.
Proof using Hlip Hmu.
  intros Hi Hu Hv. unfold F. replace (G i u - u i - mu * v - (G i u' - u' i - mu * v')) with ((G i u - G i u') + - (u i - u' i) + - (mu * (v - v'))) by ring.
  eapply Rle_trans; [apply triangle3|]. rewrite !Rabs_Ropp. pose proof (mult_bound mu (v - v') e Hmu Hv). specialize (Hlip i u u' d Hi Hu). specialize (Hu i Hi). lra.
Qed.

(** *** The scheme from a state that is within [e] of (y, z) *)
Variables (x v v' moved y z : nat -> R) (e : R).
Hypothesis He : 0 <= e.
Hypothesis Hx : forall i, (i < n)%nat -> Rabs (x i - y i) <= e.
Hypothesis Hv : forall i, (i < n)%nat -> Rabs (v i - z i) <= e.
Hypothesis HyM : forall i, (i < n)%nat -> Rabs (y i) <= M.
Hypothesis HzM : forall i, (i < n)%nat -> Rabs (z i) <= M.
Hypothesis Hstep : forall i, (i < n)%nat -> verlet h mu (G i x) (G i moved) (x i) (v i) (moved i) (v' i).
Lemma L_ge : 1 <= L. Proof using Hc Hmu. unfold L. lra. Qed.
Lemma h_le : h <= 1. Proof using Hc Hmu Hh HL. pose proof L_ge. nra. Qed.
Lemma he_small : h * (L * e) <= e. Proof using HL He. rewrite <- Rmult_assoc. rewrite <- (Rmult_1_l e) at 2. now apply Rmult_le_compat_r. Qed.
Lemma start_force i : (i < n)%nat -> Rabs (F i x (v i) - F i y (z i)) <= L * e /\ Rabs (F i y (z i)) <= A /\ Rabs (F i x (v i)) <= A + L * e.
Proof using Hlip Hbound Hmu Hx Hv HyM HzM.
  intros Hi. pose proof (force_close i x y (v i) (z i) e e Hi Hx (Hv i Hi)) as D. pose proof (force_size i y (z i) Hi (HyM i Hi) (HzM i Hi)) as S.
  assert (D' : Rabs (F i x (v i) - F i y (z i)) <= L * e) by (unfold L; lra). split; [exact D'|]. split; [exact S|].
  replace (F i x (v i)) with (F i y (z i) + (F i x (v i) - F i y (z i))) by ring. eapply Rle_trans; [apply Rabs_triang|]. lra.
Qed.
Lemma M_pos i : (i < n)%nat -> 0 <= M /\ 0 <= A /\ 0 <= P.
Proof using Hbound Hmu HyM HzM.
  intros Hi. split; [eapply Rle_trans; [apply Rabs_pos|apply (HyM i Hi)]|]. split; [eapply Rle_trans; [apply Rabs_pos|apply (force_size i y (z i) Hi (HyM i Hi) (HzM i Hi))]|].
  eapply Rle_trans; [apply Rabs_pos|apply (Hbound i y Hi)].
Qed.
Lemma moved_close i : (i < n)%nat -> Rabs (moved i - (y i + h * z i)) <= e + h * (3 / 2 * e) + h ^ 2 / 2 * A /\ Rabs (moved i - y i) <= 5 / 2 * e + h * (M + A / 2).
Proof using Hc Hlip Hbound Hmu Hh HL He Hx Hv HyM HzM Hstep.
  intros Hi. destruct (Hstep i Hi) as (E1 & _). destruct (start_force i Hi) as (_ & _ & S). destruct (M_pos i Hi) as (M0 & A0 & P0).
  pose proof he_small as HE. pose proof h_le as H1. pose proof L_ge as L1.
  assert (EM : moved i = x i + h * v i + h ^ 2 / 2 * F i x (v i)) by (rewrite E1; unfold F; ring).
  assert (S2 : Rabs (h ^ 2 / 2 * F i x (v i)) <= h * (e / 2) + h ^ 2 / 2 * A).
  { eapply Rle_trans; [apply (mult_bound _ _ (A + L * e)); [nra|exact S]|]. 
    replace (h ^ 2 / 2 * (A + L * e)) with (h / 2 * (h * (L * e)) + h ^ 2 / 2 * A) by field. assert (h / 2 * (h * (L * e)) <= h / 2 * e) by (apply Rmult_le_compat_l; lra). lra. }
  assert (B1 : Rabs (moved i - (y i + h * z i)) <= e + h * (3 / 2 * e) + h ^ 2 / 2 * A).
  { rewrite EM. replace (x i + h * v i + h ^ 2 / 2 * F i x (v i) - (y i + h * z i)) with ((x i - y i) + h * (v i - z i) + h ^ 2 / 2 * F i x (v i)) by ring.
    eapply Rle_trans; [apply triangle3|]. pose proof (mult_bound h (v i - z i) e ltac:(lra) (Hv i Hi)). specialize (Hx i Hi). lra. }
  split; [exact B1|]. replace (moved i - y i) with ((moved i - (y i + h * z i)) + h * z i) by ring. eapply Rle_trans; [apply Rabs_triang|].
  pose proof (mult_bound h (z i) M ltac:(lra) (HzM i Hi)). assert (h * (3 / 2 * e) <= 1 * (3 / 2 * e)) by (apply Rmult_le_compat_r; lra).
  assert (h ^ 2 / 2 * A <= h * (A / 2)) by (replace (h ^ 2 / 2 * A) with (h * (h * (A / 2))) by field; apply Rmult_le_compat_l; [lra|]; assert (0 <= A / 2) by lra; nra). lra.
Qed.
Lemma velocity_close i : (i < n)%nat -> Rabs (v' i - (z i + h * F i y (z i))) <= e + h * (L * (2 * e + h * (M + A))).
Proof using Hc Hlip Hbound Hmu Hh HL He Hx Hv HyM HzM Hstep.
  intros Hi. destruct (Hstep i Hi) as (_ & E2). destruct (start_force i Hi) as (D & SF & S). destruct (M_pos i Hi) as (M0 & A0 & P0).
  pose proof he_small as HE. pose proof h_le as H1. pose proof L_ge as L1. set (Fy := F i y (z i)) in *. set (a := F i x (v i)) in *.
  set (d := 5 / 2 * e + h * (M + A / 2)).
  assert (d0 : 0 <= d) by (unfold d; nra).
  assert (MC : forall j, (j < n)%nat -> Rabs (moved j - y j) <= d) by (intros j Hj; apply (proj2 (moved_close j Hj))).
  (* a first bound on the change of the velocity *)
  pose proof (force_close i moved y (v i) (z i) d e Hi MC (Hv i Hi)) as D1. fold Fy in D1.
  assert (S1 : Rabs (F i moved (v i)) <= A + L * (5 / 2 * e) + (M + A / 2)).
  { replace (F i moved (v i)) with (Fy + (F i moved (v i) - Fy)) by ring. eapply Rle_trans; [apply Rabs_triang|].
    assert ((1 + c) * d + mu * e <= L * (5 / 2 * e) + (M + A / 2)).
    { unfold d. assert (h * (1 + c) * (M + A / 2) <= 1 * (M + A / 2)) by (apply Rmult_le_compat_r; [lra|]; unfold L in HL; nra).
      unfold L. assert (0 <= mu * e) by nra. lra. }
    lra. }
  assert (EV : (1 + mu * h / 2) * (v' i - v i) = h / 2 * (a + F i moved (v i))) by (unfold a, F; lra).
  assert (B : Rabs (v' i - v i) <= h / 2 * ((A + L * e) + (A + L * (5 / 2 * e) + (M + A / 2)))).
  { assert (Q : Rabs ((1 + mu * h / 2) * (v' i - v i)) <= h / 2 * ((A + L * e) + (A + L * (5 / 2 * e) + (M + A / 2)))).
    { rewrite EV. apply mult_bound; [lra|]. eapply Rle_trans; [apply Rabs_triang|]. lra. }
    rewrite Rabs_mult, (Rabs_right (1 + mu * h / 2)) in Q by nra. pose proof (Rabs_pos (v' i - v i)). assert (0 <= mu * h / 2) by nra. nra. }
  assert (B' : Rabs (v' i - z i) <= 11 / 4 * e + h * (5 / 4 * A + M / 2)).
  { replace (v' i - z i) with ((v i - z i) + (v' i - v i)) by ring. eapply Rle_trans; [apply Rabs_triang|]. specialize (Hv i Hi). lra. }
  pose proof (force_close i moved y (v' i) (z i) d _ Hi MC B') as D2. fold Fy in D2.
  assert (D3 : (1 + c) * d + mu * (11 / 4 * e + h * (5 / 4 * A + M / 2)) <= L * (11 / 4 * e + h * (M + 5 / 4 * A))).
  { unfold L, d. assert (0 <= (1 + c) * e) by nra. assert (0 <= (1 + c) * (h * A)) by (apply Rmult_le_pos; nra). assert (0 <= mu * (h * M)) by (apply Rmult_le_pos; nra). lra. }
  assert (EV2 : v' i - (z i + h * Fy) = (v i - z i) + h / 2 * (a - Fy) + h / 2 * (F i moved (v' i) - Fy)) by (unfold a, F in *; lra).
  rewrite EV2. eapply Rle_trans; [apply triangle3|].
  pose proof (mult_bound (h / 2) (a - Fy) (L * e) ltac:(lra) D) as X1.
  pose proof (mult_bound (h / 2) (F i moved (v' i) - Fy) _ ltac:(lra) (Rle_trans _ _ _ D2 D3)) as X2. specialize (Hv i Hi).
  assert (X3 : h / 2 * (L * e) + h / 2 * (L * (11 / 4 * e + h * (M + 5 / 4 * A))) <= h * (L * (2 * e + h * (M + A)))).
  { replace (h / 2 * (L * e) + h / 2 * (L * (11 / 4 * e + h * (M + 5 / 4 * A)))) with (h * (L * (15 / 8 * e + h * (M / 2 + 5 / 8 * A)))) by field.
    apply Rmult_le_compat_l; [lra|]. apply Rmult_le_compat_l; [lra|]. assert (h * (M / 2 + 5 / 8 * A) <= h * (M + A)) by (apply Rmult_le_compat_l; lra). lra. }
  lra.
Qed.
End System.

(** *** The solution over one time step *)
Section Solution.
Variables (n : nat) (G : nat -> (nat -> R) -> R) (c P M mu : R).
Hypothesis Hc : 0 <= c.
Hypothesis Hlip : forall i u v d, (i < n)%nat -> (forall j, (j < n)%nat -> Rabs (u j - v j) <= d) -> Rabs (G i u - G i v) <= c * d.
Hypothesis Hbound : forall i u, (i < n)%nat -> Rabs (G i u) <= P.
Hypothesis Hmu : 0 <= mu.
Let L := 1 + c + mu.
Let A := P + M + mu * M.
Variables (y z : nat -> R -> R) (fixed : nat -> bool) (t0 t1 : R).
Hypothesis Ht : t0 < t1.
Hypothesis HyM : forall i t, (i < n)%nat -> t0 <= t <= t1 -> Rabs (y i t) <= M.
Hypothesis HzM : forall i t, (i < n)%nat -> t0 <= t <= t1 -> Rabs (z i t) <= M.
Hypothesis Hode : forall i t, (i < n)%nat -> t0 <= t <= t1 ->
  (if fixed i then y i t = y i t0 else derivable_pt_lim (y i) t (z i t)) /\
  derivable_pt_lim (z i) t (- y i t - mu * z i t + G i (fun j => y j t)).
Let F i t := G i (fun j => y j t) - y i t - mu * z i t.
Lemma F_size i t : (i < n)%nat -> t0 <= t <= t1 -> Rabs (F i t) <= A.
Proof using Hbound Hmu HyM HzM. intros Hi H. exact (force_size n G P M mu Hbound Hmu i (fun j => y j t) (z i t) Hi (HyM i t Hi H) (HzM i t Hi H)). Qed.
Lemma bounds_pos i : (i < n)%nat -> 0 <= M /\ 0 <= A.
Proof using Hbound Hmu HyM HzM Ht.
  intros Hi. split; [eapply Rle_trans; [apply Rabs_pos|apply (HyM i t0 Hi); lra]|eapply Rle_trans; [apply Rabs_pos|apply (F_size i t0 Hi); lra]].
Qed.
Lemma opinion_moves i t : (i < n)%nat -> t0 <= t <= t1 -> Rabs (y i t - y i t0) <= (t - t0) * M.
Proof using Hbound Hmu HyM HzM Hode Ht.
  intros Hi H. destruct (bounds_pos i Hi) as (M0 & _). destruct (fixed i) eqn:Ef.
  - destruct (Hode i t Hi H) as (O & _). rewrite Ef in O. rewrite O, Rminus_diag_eq, Rabs_R0 by auto. nra.
  - destruct (Req_dec t t0) as [->|Hne]; [rewrite !Rminus_diag_eq, Rabs_R0 by auto; lra|].
    destruct (MVT_cor2 (y i) (z i) t0 t ltac:(lra)) as (xi & E & Hx).
    { intros u Hu. destruct (Hode i u Hi ltac:(lra)) as (O & _). now rewrite Ef in O. }
    rewrite E, Rmult_comm. apply mult_bound; [lra|]. apply HzM; auto; lra.
Qed.
Lemma velocity_mean i t : (i < n)%nat -> t0 < t <= t1 -> exists xi, t0 < xi < t /\ z i t - z i t0 = (t - t0) * F i xi.
Proof using Hode.
  intros Hi H. destruct (MVT_cor2 (z i) (fun u => - y i u - mu * z i u + G i (fun j => y j u)) t0 t ltac:(lra)) as (xi & E & Hx).
  { intros u Hu. apply (Hode i u Hi ltac:(lra)). }
  exists xi. split; [exact Hx|]. rewrite E. unfold F. ring.
Qed.
Lemma velocity_moves i t : (i < n)%nat -> t0 <= t <= t1 -> Rabs (z i t - z i t0) <= (t - t0) * A.
Proof using Hbound Hmu HyM HzM Hode Ht.
  intros Hi H. destruct (Req_dec t t0) as [->|Hne]; [rewrite !Rminus_diag_eq, Rabs_R0 by auto; lra|].
  destruct (velocity_mean i t Hi ltac:(lra)) as (xi & Hx & ->). apply mult_bound; [lra|]. apply F_size; auto; lra.
Qed.
Lemma opinion_step i : (i < n)%nat -> fixed i = false -> Rabs (y i t1 - (y i t0 + (t1 - t0) * z i t0)) <= (t1 - t0) ^ 2 * A.
Proof using Hbound Hmu HyM HzM Hode Ht.
  intros Hi Ef. destruct (bounds_pos i Hi) as (_ & A0). destruct (MVT_cor2 (y i) (z i) t0 t1 Ht) as (xi & E & Hx).
  { intros u Hu. destruct (Hode i u Hi ltac:(lra)) as (O & _). now rewrite Ef in O. }
  replace (y i t1 - (y i t0 + (t1 - t0) * z i t0)) with ((t1 - t0) * (z i xi - z i t0)) by lra.
  replace ((t1 - t0) ^ 2 * A) with ((t1 - t0) * ((t1 - t0) * A)) by ring. apply mult_bound; [lra|].
  eapply Rle_trans; [apply velocity_moves; auto; lra|]. apply Rmult_le_compat_r; lra.
Qed.
Lemma velocity_step i : (i < n)%nat -> Rabs (z i t1 - (z i t0 + (t1 - t0) * F i t0)) <= (t1 - t0) ^ 2 * (L * (M + A)).
Proof using Hc Hlip Hbound Hmu HyM HzM Hode Ht.
  intros Hi. destruct (bounds_pos i Hi) as (M0 & A0). destruct (velocity_mean i t1 Hi ltac:(lra)) as (xi & Hx & E).
  replace (z i t1 - (z i t0 + (t1 - t0) * F i t0)) with ((t1 - t0) * (F i xi - F i t0)) by lra.
  replace ((t1 - t0) ^ 2 * (L * (M + A))) with ((t1 - t0) * ((t1 - t0) * (L * (M + A)))) by ring. apply mult_bound; [lra|].
  pose proof (force_close n G c mu Hlip Hmu i (fun j => y j xi) (fun j => y j t0) (z i xi) (z i t0) ((t1 - t0) * M) ((t1 - t0) * A) Hi) as FC.
  specialize (FC ltac:(intros j Hj; eapply Rle_trans; [apply opinion_moves; auto; lra|]; apply Rmult_le_compat_r; lra)
    ltac:(eapply Rle_trans; [apply velocity_moves; auto; lra|]; apply Rmult_le_compat_r; lra)).
  eapply Rle_trans; [exact FC|]. unfold L.
  assert (0 <= (t1 - t0) * M) by nra. assert (0 <= (t1 - t0) * A) by nra.
  assert (0 <= mu * ((t1 - t0) * M)) by nra. assert (0 <= (1 + c) * ((t1 - t0) * A)) by (apply Rmult_le_pos; lra). lra.
Qed.
End Solution.

(** A solution stays bounded up to a given time: y' = z (or y constant) and z' = -y - mu z + f with |f| <= P. *)
Lemma oscillator_bounded (y z f : R -> R) (fixed : bool) mu P T X : 0 <= mu -> 0 <= P -> 0 <= X -> Rabs (y 0) <= X -> Rabs (z 0) <= X ->
  (forall t, 0 <= t <= T -> (if fixed then y t = y 0 else derivable_pt_lim y t (z t)) /\ derivable_pt_lim z t (- y t - mu * z t + f t)) ->
  (forall t, 0 <= t <= T -> Rabs (f t) <= P) -> forall t, 0 <= t <= T -> Rabs (y t) <= exp (T / 2) * (2 * X + P) /\ Rabs (z t) <= exp (T / 2) * (2 * X + P).
Proof.
  intros Hmu HP HX Hy Hz HD Hf t Ht. set (B := X + P).
  assert (Sq : forall a b, Rabs a <= b -> a ^ 2 <= b ^ 2) by (intros a b H; rewrite <- pow2_abs; apply pow_incr; split; [apply Rabs_pos|exact H]).
  (* y is replaced by a constant for bots *)
  assert (EN : y t ^ 2 + z t ^ 2 <= exp t * ((2 * X + P) ^ 2)).
  { destruct (Req_dec t 0) as [->|Hn]; [rewrite exp_0; pose proof (Sq _ _ Hy); pose proof (Sq _ _ Hz); nra|].
    destruct fixed.
    - set (u := fun t => exp (- t) * (z t * z t + B ^ 2)).
      assert (D : forall c, 0 <= c <= t -> derivable_pt_lim u c (exp (- c) * (- 1) * (z c * z c + B ^ 2) + exp (- c) * (((- y c - mu * z c + f c) * z c + z c * (- y c - mu * z c + f c)) + 0))).
      { intros c Hc. apply (derivable_pt_lim_mult (fun t => exp (- t)) (fun t => z t * z t + B ^ 2)).
        - apply (derivable_pt_lim_comp Ropp exp); [|apply derivable_pt_lim_exp]. apply (derivable_pt_lim_opp id), derivable_pt_lim_id.
        - apply (derivable_pt_lim_plus (fun t => z t * z t) (fun _ => B ^ 2)); [|apply derivable_pt_lim_const].
          apply (derivable_pt_lim_mult z z); apply (HD c ltac:(lra)). }
      destruct (MVT_cor2 u _ 0 t ltac:(lra) D) as (c & E & Hc).
      assert (N : exp (- c) * (- 1) * (z c * z c + B ^ 2) + exp (- c) * (((- y c - mu * z c + f c) * z c + z c * (- y c - mu * z c + f c)) + 0) <= 0).
      { destruct (HD c ltac:(lra)) as (Hyc & _). cbv iota in Hyc.
        replace (exp (- c) * (- 1) * (z c * z c + B ^ 2) + exp (- c) * (((- y c - mu * z c + f c) * z c + z c * (- y c - mu * z c + f c)) + 0))
          with (- (exp (- c) * ((z c - (f c - y c)) ^ 2 + 2 * mu * z c ^ 2 + (B ^ 2 - (f c - y c) ^ 2)))) by ring.
        assert (Bf : (f c - y c) ^ 2 <= B ^ 2). { apply Sq. unfold Rminus, B. eapply Rle_trans; [apply Rabs_triang|]. rewrite Rabs_Ropp, Hyc. specialize (Hf c ltac:(lra)). lra. }
        pose proof (exp_pos (- c)). pose proof (pow2_ge_0 (z c - (f c - y c))). pose proof (pow2_ge_0 (z c)). assert (0 <= 2 * mu * z c ^ 2) by (apply Rmult_le_pos; lra).
        assert (0 <= exp (- c) * ((z c - (f c - y c)) ^ 2 + 2 * mu * z c ^ 2 + (B ^ 2 - (f c - y c) ^ 2))) by (apply Rmult_le_pos; lra). lra. }
      assert (U : u t <= u 0) by nra. unfold u in U. rewrite Ropp_0, exp_0 in U.
      assert (V : z t * z t + B ^ 2 <= exp t * (z 0 * z 0 + B ^ 2)).
      { apply (Rmult_le_compat_l (exp t)) in U; [|apply Rlt_le, exp_pos]. rewrite <- Rmult_assoc, <- exp_plus, Rplus_opp_r, exp_0 in U. lra. }
      destruct (HD t Ht) as (Hyt & _). cbv iota in Hyt. rewrite Hyt.
      pose proof (Sq _ _ Hy). pose proof (Sq _ _ Hz). assert (X ^ 2 <= B ^ 2) by (apply pow_incr; unfold B; lra).
      eapply Rle_trans; [|eapply Rle_trans; [exact V|]]; [lra|]. apply Rmult_le_compat_l; [apply Rlt_le, exp_pos|]. unfold B. nra.
    - set (u := fun t => exp (- t) * ((y t * y t + z t * z t) + B ^ 2)).
      assert (D : forall c, 0 <= c <= t -> derivable_pt_lim u c (exp (- c) * (- 1) * ((y c * y c + z c * z c) + B ^ 2) + exp (- c) * (((z c * y c + y c * z c) + ((- y c - mu * z c + f c) * z c + z c * (- y c - mu * z c + f c))) + 0))).
      { intros c Hc. destruct (HD c ltac:(lra)) as (Hyc & Hzc). cbv iota in Hyc. apply (derivable_pt_lim_mult (fun t => exp (- t)) (fun t => (y t * y t + z t * z t) + B ^ 2)).
        - apply (derivable_pt_lim_comp Ropp exp); [|apply derivable_pt_lim_exp]. apply (derivable_pt_lim_opp id), derivable_pt_lim_id.
        - apply (derivable_pt_lim_plus (fun t => y t * y t + z t * z t) (fun _ => B ^ 2)); [|apply derivable_pt_lim_const].
          apply (derivable_pt_lim_plus (fun t => y t * y t) (fun t => z t * z t)); [now apply (derivable_pt_lim_mult y y)|now apply (derivable_pt_lim_mult z z)]. }
      destruct (MVT_cor2 u _ 0 t ltac:(lra) D) as (c & E & Hc).
      assert (N : exp (- c) * (- 1) * ((y c * y c + z c * z c) + B ^ 2) + exp (- c) * (((z c * y c + y c * z c) + ((- y c - mu * z c + f c) * z c + z c * (- y c - mu * z c + f c))) + 0) <= 0).
      { replace (exp (- c) * (- 1) * ((y c * y c + z c * z c) + B ^ 2) + exp (- c) * (((z c * y c + y c * z c) + ((- y c - mu * z c + f c) * z c + z c * (- y c - mu * z c + f c))) + 0))
          with (- (exp (- c) * (y c ^ 2 + (z c - f c) ^ 2 + 2 * mu * z c ^ 2 + (B ^ 2 - f c ^ 2)))) by ring.
        assert (Bf : f c ^ 2 <= B ^ 2) by (apply Sq; specialize (Hf c ltac:(lra)); unfold B; lra).
        pose proof (exp_pos (- c)). pose proof (pow2_ge_0 (z c - f c)). pose proof (pow2_ge_0 (z c)). pose proof (pow2_ge_0 (y c)). assert (0 <= 2 * mu * z c ^ 2) by (apply Rmult_le_pos; lra).
        assert (0 <= exp (- c) * (y c ^ 2 + (z c - f c) ^ 2 + 2 * mu * z c ^ 2 + (B ^ 2 - f c ^ 2))) by (apply Rmult_le_pos; lra). lra. }
      assert (U : u t <= u 0) by nra. unfold u in U. rewrite Ropp_0, exp_0 in U.
      assert (V : y t * y t + z t * z t + B ^ 2 <= exp t * (y 0 * y 0 + z 0 * z 0 + B ^ 2)).
      { apply (Rmult_le_compat_l (exp t)) in U; [|apply Rlt_le, exp_pos]. rewrite <- Rmult_assoc, <- exp_plus, Rplus_opp_r, exp_0 in U. lra. }
      pose proof (Sq _ _ Hy). pose proof (Sq _ _ Hz).
      pose proof (pow2_ge_0 B). eapply Rle_trans; [|eapply Rle_trans; [exact V|]]; [lra|]. apply Rmult_le_compat_l; [apply Rlt_le, exp_pos|]. unfold B. nra. }
  assert (ET : exp t * ((2 * X + P) ^ 2) <= (exp (T / 2) * (2 * X + P)) ^ 2).
  { replace ((exp (T / 2) * (2 * X + P)) ^ 2) with ((exp (T / 2) * exp (T / 2)) * (2 * X + P) ^ 2) by ring. rewrite <- exp_plus. replace (T / 2 + T / 2) with T by field.
    apply Rmult_le_compat_r; [apply pow2_ge_0|]. destruct (Rle_lt_or_eq_dec _ _ (proj2 Ht)) as [H| ->]; [left; now apply exp_increasing|lra]. }
  assert (K0 : 0 <= exp (T / 2) * (2 * X + P)) by (apply Rmult_le_pos; [apply Rlt_le, exp_pos|lra]).
  assert (Root : forall a, a ^ 2 <= (exp (T / 2) * (2 * X + P)) ^ 2 -> Rabs a <= exp (T / 2) * (2 * X + P)).
  { intros a Ha. rewrite <- (Rabs_right (exp (T / 2) * (2 * X + P))) by lra. apply Rsqr_le_abs_0. unfold Rsqr. cbn [pow] in Ha. lra. }
  pose proof (pow2_ge_0 (y t)). pose proof (pow2_ge_0 (z t)). split; apply Root; lra.
Qed.

(** *** In mean-field mode without homophily the network is the same in every iteration *)
Section Even.
Context (lm : Libm RA).
Hypothesis Hpow : lpow RA lm = Rpow.
Lemma inertial_even_probability (st : ad_settings (F RA)) (l : list (inertial_agent (F RA))) i j x : (2 <= length l)%nat ->
  (i < length l)%nat -> (j < length l)%nat -> i <> j -> n_bots st = 0%nat -> homophily st = 0 -> nth_error l i = Some x -> (i_activity x <= 1)%R ->
  contact_probability (a:=RA) lm (inertial_ops (F RA)) st l i j = contact_chance (length l) (Z.to_nat (m st)).
Proof using Hpow.
  intros HL Hi Hj Hne Hb Hh Ex Ha.
  assert (Haf : forall v, (v < length l)%nat -> affinity (a:=RA) lm (inertial_ops (F RA)) st l i v = if (v =? i)%nat then 0 else 1).
  { intros v Hv. unfold affinity. destruct (Nat.eqb_spec v i); auto. rewrite Ex.
    destruct (nth_error l v) as [y|] eqn:Ey. 2:{ apply nth_error_None in Ey. lia. }
    unfold homophily_of. rewrite Hb. cbn [Nat.ltb Nat.leb]. rewrite Hpow.
    assert (Hp : forall b h : R, 0 < b -> h = 0 -> Rpow b (- h) = 1).
    { intros b h Hb0 ->. unfold Rpow. destruct (Rlt_dec 0 b); [|lra]. rewrite Ropp_0; unfold Rpower; rewrite Rmult_0_l. apply exp_0. }
    apply Hp; [|exact Hh]. unfold fmax. cbn [flt RA].
    assert (H0 : 0 < lit10 (a:=RA) 1 10).
    { unfold lit10. cbn -[IZR Z.pow_pos]. apply Rdiv_lt_0_compat; [lra|]. now apply IZR_lt. }
    match goal with |- 0 < (if Rltb ?u ?w then _ else _) => destruct (Rltb_spec u w) end; [|exact H0].
    eapply Rlt_trans; [exact H0|exact r]. }
  assert (HN : 0 < INR (length l) - 1). { apply le_INR in HL. change (INR 2) with (1 + 1) in HL. lra. }
  assert (Hsh : share (a:=RA) lm (inertial_ops (F RA)) st l i j = 1 / (INR (length l) - 1)).
  { unfold share. rewrite total_affinity_R. rewrite (Haf j Hj), (proj2 (Nat.eqb_neq j i)) by auto.
    assert (ET : Rsum (map (affinity (a:=RA) lm (inertial_ops (F RA)) st l i) (seq 0 (length l))) = INR (length l) - 1).
    { rewrite (map_ext_in _ (fun v => if (v =? i)%nat then 0 else 1)); [rewrite Rsum_all_but by exact Hi; ring|].
      intros v Hv. apply in_seq in Hv. apply Haf. lia. }
    rewrite ET. reflexivity. }
  unfold contact_probability. rewrite Ex, Hsh.
  assert (Hm : fmax RA (f1 RA) (get_activity (inertial_ops (F RA)) x) = 1).
  { unfold fmax. cbn [flt f1 RA get_activity inertial_ops]. destruct (Rltb_spec 1 (i_activity x)) as [C|C]; auto. exfalso. exact (Rlt_irrefl 1 (Rlt_le_trans _ _ _ C Ha)). }
  rewrite Hm. cbn [fmul RA]. rewrite Rmult_1_l.
  assert (Hc : contact_count st i = Z.to_nat (m st)) by (unfold contact_count; rewrite Hb; reflexivity). rewrite Hc.
  apply (rounds_R lm Hpow (1 / (INR (length l) - 1)) (Z.to_nat (m st))). apply Rlt_le, Rdiv_lt_0_compat; lra.
Qed.

Context (g : Rng RA) (q : PQ RA).
Hypothesis Hq : pq_bag q.
(** Every agent hears every other one with the same weight. *)
Lemma inertial_even_rows (im im' : inertial) s s' i : ad_ready (im_ad im) -> mean_weights (ad_set (im_ad im)) = true -> (2 <= n_agents (ad_net (im_ad im)))%nat ->
  n_bots (ad_set (im_ad im)) = 0%nat -> homophily (ad_set (im_ad im)) = 0 -> Forall (fun x : R => x <= 1) (map i_activity (agents (ad_net (im_ad im)))) ->
  inertial_iteration (a:=RA) lm g q im s = Ok (im', s') -> (i < n_agents (ad_net (im_ad im)))%nat ->
  row (ad_net (im_ad im')) i = map (fun j => (j, if (j =? i)%nat then 0 else even_weight (n_agents (ad_net (im_ad im))) (Z.to_nat (m (ad_set (im_ad im)))) (reciprocity (ad_set (im_ad im))))) (seq 0 (n_agents (ad_net (im_ad im)))).
Proof using Hpow Hq.
  intros Hr Hm HL Hb Hh Ha E Hi. destruct (C45_inertial_weights (a:=RA) lm g q im im' s s' Hq Hr Hm E) as (D1 & D2 & D3). set (md := im_ad im) in *.
  unfold n_agents in *. rewrite (D3 i Hi). apply map_ext_in. intros j Hj. apply in_seq in Hj. f_equal.
  set (l := agents (ad_net md)) in *. eapply eq_trans; [apply (C45_weight_formula (reciprocity (ad_set md)))|].
  destruct (Nat.eqb_spec j i) as [->|N].
  - rewrite !(self_probability lm Hpow (inertial_ops (F RA))) by assumption. match goal with |- ?u = ?w => change (@eq R u w) end. ring.
  - assert (P : forall u v, (u < length l)%nat -> (v < length l)%nat -> u <> v -> contact_probability (a:=RA) lm (inertial_ops (F RA)) (ad_set md) l u v = contact_chance (length l) (Z.to_nat (m (ad_set md)))).
    { intros u v Hu Hv Hn. destruct (nth_error l u) as [x|] eqn:Ex. 2:{ apply nth_error_None in Ex. lia. }
      apply (inertial_even_probability (ad_set md) l u v x); auto. rewrite Forall_forall in Ha. apply (Ha (i_activity x)). apply in_map. eapply nth_error_In; eauto. }
    rewrite !P by (auto; lia). reflexivity.
Qed.
End Even.

Section Ode.
Context (lm : Libm RA) (g : Rng RA) (q : PQ RA).
Hypothesis Htanh : forall x : R, ltanh RA lm x = tanh x.
Hypothesis Hq : pq_bag q.
Notation time_step im := (dt (ad_set (im_ad im))).
Notation friction im := (friction_coefficient im).

(** With a bound M for the solution. *)
Lemma inertial_follows_bounded k (im im' : inertial) s s' W T y z P M : ad_ready (im_ad im) -> inertial_bots_in_place im -> 0 <= friction im ->
  inertial_run (a:=RA) lm g q k im s = Ok (im', s') ->
  (forall i, (i < n_agents (ad_net (im_ad im)))%nat -> inertial_rows lm g q k im s i (fun r => r = W i)) ->
  (forall i, (i < n_agents (ad_net (im_ad im)))%nat -> Rabs (K (ad_set (im_ad im)) / inertial_reluctance im i) * total_weight (W i) <= P) ->
  solves_inertial_ode im W T y z -> INR k * time_step im <= T ->
  (forall i t, (i < n_agents (ad_net (im_ad im)))%nat -> 0 <= t <= T -> Rabs (y i t) <= M /\ Rabs (z i t) <= M) ->
  let L := 1 + P * Rabs (alpha (ad_set (im_ad im))) + friction im in
  0 < time_step im -> time_step im * L <= 1 ->
  let err := time_step im * ((2 * M + P + friction im * M) * (exp (2 * L * T) - 1)) in
  forall i, (i < n_agents (ad_net (im_ad im)))%nat ->
    Rabs (position_of im' i - y i (INR k * time_step im)) <= err /\ Rabs (velocity_of im' i - z i (INR k * time_step im)) <= err.
Proof using Htanh Hq.
  intros Hr Hbp Hmu E HW HP Hode HT HM L Hh HL err i0 Hi0. unfold err. clear err.
  set (h := (time_step im : R)) in *. set (n := n_agents (ad_net (im_ad im))) in *. set (st := ad_set (im_ad im)) in *. set (mu := (friction im : R)) in *.
  assert (P0 : 0 <= P). { eapply Rle_trans; [|exact (HP i0 Hi0)]. apply Rmult_le_pos; [apply Rabs_pos|apply total_weight_nonneg]. }
  assert (M0 : 0 <= M). { eapply Rle_trans; [apply Rabs_pos|]. apply (HM i0 0 Hi0). split; [lra|]. eapply Rle_trans; [|exact HT]. apply Rmult_le_pos; [apply pos_INR|lra]. }
  set (c := P * Rabs (alpha st)) in *. assert (c0 : 0 <= c) by (apply Rmult_le_pos; [lra|apply Rabs_pos]).
  assert (L1 : 1 <= L) by (unfold L; lra). set (Q := 2 * M + P + mu * M). assert (Q0 : 0 <= Q) by (unfold Q; assert (0 <= mu * M) by (apply Rmult_le_pos; lra); lra).
  set (G := fun i u => social_pull st (inertial_reluctance im i) (W i) u).
  assert (Gb : forall i u, (i < n)%nat -> Rabs (G i u) <= P) by (intros i u Hi; eapply Rle_trans; [apply pull_bound|apply HP; exact Hi]).
  assert (Main : (forall i, (i < n)%nat -> Rabs (position_of im' i - y i (INR k * h)) <= Q * h * ((1 + 2 * L * h) ^ k - 1) /\ Rabs (velocity_of im' i - z i (INR k * h)) <= Q * h * ((1 + 2 * L * h) ^ k - 1))
     /\ (forall b, (b < n_bots st)%nat -> position_of im' b = nth b (bot_opinion st) 0)).
  { destruct (inertial_track lm g q Hq (fun j imj => (forall i, (i < n)%nat -> Rabs (position_of imj i - y i (INR j * h)) <= Q * h * ((1 + 2 * L * h) ^ j - 1) /\ Rabs (velocity_of imj i - z i (INR j * h)) <= Q * h * ((1 + 2 * L * h) ^ j - 1))
     /\ (forall b, (b < n_bots st)%nat -> position_of imj b = nth b (bot_opinion st) 0)) im s k im' s' Hr) as [H _]; auto.
    - split; [|exact Hbp]. intros i Hi. change (INR 0) with 0. rewrite Rmult_0_l. destruct (Hode i Hi) as (-> & -> & _). rewrite !Rminus_diag_eq, Rabs_R0 by auto. cbn [pow]. lra.
    - intros j imj sj imj' sj' Hj Ej (F1 & F2 & F3 & F4 & F5 & F6) E1 Ej' (D & DB).
      destruct (inertial_components lm g q Htanh Hq imj imj' sj sj' F1 E1) as (moved & HS).
      { rewrite F2, F3. fold st mu h. assert (0 <= mu * h) by (apply Rmult_le_pos; lra). lra. }
      destruct (inertial_frame lm g q Hq imj imj' sj sj' F1 E1) as (_ & _ & _ & _ & _ & HF & _). rewrite F4 in HF. fold n in HF.
      rewrite F2, F3, F4 in HS. fold st n mu h in HS.
      assert (Hrow : forall i, (i < n)%nat -> row (ad_net (im_ad imj')) i = W i) by (intros i Hi; apply (HW i Hi (S j) imj' sj'); auto; lia).
      assert (Hlip : forall i u v d, (i < n)%nat -> (forall j, (j < n)%nat -> Rabs (u j - v j) <= d) -> Rabs (G i u - G i v) <= c * d).
      { intros i u v d Hi Huv. assert (d0 : 0 <= d) by (eapply Rle_trans; [apply Rabs_pos|exact (Huv i Hi)]).
        eapply Rle_trans; [apply (pull_close _ _ _ _ _ d)|].
        - specialize (HF i Hi). rewrite (Hrow i Hi) in HF. rewrite Forall_forall in *. intros p Hp. right. apply Huv. exact (HF p Hp).
        - unfold c. rewrite <- !Rmult_assoc. apply Rmult_le_compat_r; [exact d0|]. apply Rmult_le_compat_r; [apply Rabs_pos|]. exact (HP i Hi). }
      assert (HV : forall i, (i < n)%nat -> verlet h mu (G i (position_of imj)) (G i moved) (position_of imj i) (velocity_of imj i) (moved i) (velocity_of imj' i)).
      { intros i Hi. destruct (HS i Hi) as (V & _). rewrite (Hrow i Hi), (F5 i Hi) in V. exact V. }
      set (t0 := INR j * h). set (t1 := INR (S j) * h). assert (Et : t1 - t0 = h) by (unfold t1, t0; rewrite S_INR; ring).
      assert (HT1 : t1 <= T). { eapply Rle_trans; [|exact HT]. apply Rmult_le_compat_r; [lra|]. apply le_INR. lia. }
      assert (HT0 : 0 <= t0) by (apply Rmult_le_pos; [apply pos_INR|lra]).
      assert (HN : (n_bots st <= n)%nat) by apply Hr.
      split.
      2:{ intros b Hb. destruct (HS b ltac:(lia)) as (_ & _ & B). exact (B Hb). }
      set (e := Q * h * ((1 + 2 * L * h) ^ j - 1)) in *.
      assert (pw : 1 <= (1 + 2 * L * h) ^ j) by (apply pow_R1_Rle; nra). assert (e0 : 0 <= e) by (unfold e; apply Rmult_le_pos; [nra|lra]).
      assert (BY : forall i t, (i < n)%nat -> t0 <= t <= t1 -> Rabs (y i t) <= M) by (intros i t Hi Ht; apply (HM i t Hi); lra).
      assert (BZ : forall i t, (i < n)%nat -> t0 <= t <= t1 -> Rabs (z i t) <= M) by (intros i t Hi Ht; apply (HM i t Hi); lra).
      assert (ODE : forall i t, (i < n)%nat -> t0 <= t <= t1 -> (if (i <? n_bots st)%nat then y i t = y i t0 else derivable_pt_lim (y i) t (z i t)) /\
        derivable_pt_lim (z i) t (- y i t - mu * z i t + G i (fun j => y j t))).
      { intros i t Hi Ht. destruct (Hode i Hi) as (_ & _ & O). destruct (O t ltac:(lra)) as (O1 & O2). destruct (O t0 ltac:(lra)) as (O3 & _). fold st in O1, O3.
        split; [|exact O2]. destruct (i <? n_bots st)%nat; [congruence|exact O1]. }
      assert (DX : forall i, (i < n)%nat -> Rabs (position_of imj i - y i t0) <= e) by (intros i Hi; apply (D i Hi)).
      assert (DV : forall i, (i < n)%nat -> Rabs (velocity_of imj i - z i t0) <= e) by (intros i Hi; apply (D i Hi)).
      assert (Grow : Q * h * ((1 + 2 * L * h) ^ S j - 1) = e + h * (L * (2 * e + 2 * (h * Q)))) by (unfold e; cbn [pow]; ring).
      assert (EQ : M + (P + M + mu * M) = Q) by (unfold Q; ring).
      assert (BY0 : forall i, (i < n)%nat -> Rabs (y i t0) <= M) by (intros i Hi; apply BY; auto; lra).
      assert (BZ0 : forall i, (i < n)%nat -> Rabs (z i t0) <= M) by (intros i Hi; apply BZ; auto; lra).
      intros i Hi. fold t1. rewrite Grow. destruct (HS i Hi) as (_ & Hord & Hbot). split.
      + destruct (le_lt_dec (n_bots st) i) as [Hb|Hb].
        * rewrite (Hord Hb).
          destruct (moved_close n G c P M mu h c0 Hlip Gb Hmu Hh HL (position_of imj) (velocity_of imj) (velocity_of imj') moved (fun i => y i t0) (fun i => z i t0) e e0 DX DV BY0 BZ0 HV i Hi) as (C1 & _).
          pose proof (opinion_step n G P M mu Gb Hmu y z (fun i => (i <? n_bots st)%nat) t0 t1 ltac:(lra) BY BZ ODE i Hi ltac:(now apply Nat.ltb_ge)) as C2. rewrite Et in C2.
          cbv beta in C1. replace (moved i - y i t1) with ((moved i - (y i t0 + h * z i t0)) + - (y i t1 - (y i t0 + h * z i t0))) by ring.
          eapply Rle_trans; [apply Rabs_triang|]. rewrite Rabs_Ropp.
          assert (A0 : P + M + mu * M <= Q) by lra. assert (A1 : 0 <= P + M + mu * M) by (assert (0 <= mu * M) by (apply Rmult_le_pos; lra); lra).
          assert (X1 : h * (3 / 2 * e) <= h * (L * (2 * e))) by (apply Rmult_le_compat_l; [lra|]; nra).
          assert (X2 : h ^ 2 * (3 / 2 * (P + M + mu * M)) <= h * (L * (2 * (h * Q)))).
          { replace (h * (L * (2 * (h * Q)))) with (h ^ 2 * (L * (2 * Q))) by ring. apply Rmult_le_compat_l; [nra|]. nra. }
          lra.
        * rewrite (Hbot Hb). destruct (Hode i Hi) as (_ & _ & O). destruct (O t1 ltac:(lra)) as (O1 & _). fold st in O1. rewrite (proj2 (Nat.ltb_lt _ _) Hb) in O1. rewrite O1, Rminus_diag_eq, Rabs_R0 by auto.
          apply Rplus_le_le_0_compat; [exact e0|]. apply Rmult_le_pos; [lra|]. apply Rmult_le_pos; [lra|]. assert (0 <= h * Q) by (apply Rmult_le_pos; lra). lra.
      + pose proof (velocity_close n G c P M mu h c0 Hlip Gb Hmu Hh HL (position_of imj) (velocity_of imj) (velocity_of imj') moved (fun i => y i t0) (fun i => z i t0) e e0 DX DV BY0 BZ0 HV i Hi) as C1.
        pose proof (velocity_step n G c P M mu c0 Hlip Gb Hmu y z (fun i => (i <? n_bots st)%nat) t0 t1 ltac:(lra) BY BZ ODE i Hi) as C2. rewrite Et in C2.
        cbv beta in C1. rewrite EQ in C1, C2.
        set (FF := G i (fun j => y j t0) - y i t0 - mu * z i t0) in *. change (G i (fun i => y i t0)) with (G i (fun j => y j t0)) in C1. fold FF in C1.
        replace (velocity_of imj' i - z i t1) with ((velocity_of imj' i - (z i t0 + h * FF)) + - (z i t1 - (z i t0 + h * FF))) by ring.
        eapply Rle_trans; [apply Rabs_triang|]. rewrite Rabs_Ropp. fold L in C1, C2.
        replace (e + h * (L * (2 * e + 2 * (h * Q)))) with ((e + h * (L * (2 * e + h * Q))) + h ^ 2 * (L * Q)) by ring. lra. }
  destruct Main as (Main & _). specialize (Main i0 Hi0).
  assert (Ex : (1 + 2 * L * h) ^ k <= exp (2 * L * T)).
  { eapply Rle_trans; [apply power_below_exp; nra|]. assert (INR k * (2 * L * h) <= 2 * L * T) by nra. destruct (Rle_lt_or_eq_dec _ _ H) as [Hlt| ->]; [left; now apply exp_increasing|lra]. }
  assert (Fin : Q * h * ((1 + 2 * L * h) ^ k - 1) <= h * (Q * (exp (2 * L * T) - 1))).
  { replace (h * (Q * (exp (2 * L * T) - 1))) with (Q * h * (exp (2 * L * T) - 1)) by ring. apply Rmult_le_compat_l; [nra|lra]. }
  destruct Main as (A1 & A2). split; (eapply Rle_trans; [eassumption|exact Fin]).
Qed.
(** C99. If the network is the same in every iteration (rows [W]), after [k] iterations every opinion and every velocity
    (of bots, too) differs from the solution at time k dt by at most dt times a constant that depends on neither dt nor k
    (for k dt <= T), only on the couplings, the size X of the initial opinions and velocities, the friction and T. *)
Theorem C99_follows_the_equations k (im im' : inertial) s s' W T y z P X : ad_ready (im_ad im) -> inertial_bots_in_place im -> 0 <= friction im ->
  inertial_run (a:=RA) lm g q k im s = Ok (im', s') ->
  (forall i, (i < n_agents (ad_net (im_ad im)))%nat -> inertial_rows lm g q k im s i (fun r => r = W i)) ->
  (forall i, (i < n_agents (ad_net (im_ad im)))%nat -> Rabs (K (ad_set (im_ad im)) / inertial_reluctance im i) * total_weight (W i) <= P) ->
  (forall i, (i < n_agents (ad_net (im_ad im)))%nat -> Rabs (position_of im i) <= X /\ Rabs (velocity_of im i) <= X) ->
  solves_inertial_ode im W T y z -> INR k * time_step im <= T ->
  let L := 1 + P * Rabs (alpha (ad_set (im_ad im))) + friction im in
  0 < time_step im -> time_step im * L <= 1 ->
  let M := exp (T / 2) * (2 * X + P) in
  let err := time_step im * ((2 * M + P + friction im * M) * (exp (2 * L * T) - 1)) in
  forall i, (i < n_agents (ad_net (im_ad im)))%nat ->
    Rabs (position_of im' i - y i (INR k * time_step im)) <= err /\ Rabs (velocity_of im' i - z i (INR k * time_step im)) <= err.
Proof using Htanh Hq.
  intros Hr Hbp Hmu E HW HP HX Hode HT L Hh HL M err i Hi.
  assert (P0 : 0 <= P). { eapply Rle_trans; [|exact (HP i Hi)]. apply Rmult_le_pos; [apply Rabs_pos|apply total_weight_nonneg]. }
  assert (X0 : 0 <= X) by (eapply Rle_trans; [apply Rabs_pos|apply (HX i Hi)]).
  apply (inertial_follows_bounded k im im' s s' W T y z P M); auto.
  intros j t Hj Ht. destruct (Hode j Hj) as (Oy & Oz & O). destruct (HX j Hj) as (Xy & Xv). 
  apply (oscillator_bounded (y j) (z j) (fun t => social_pull (ad_set (im_ad im)) (inertial_reluctance im j) (W j) (fun u => y u t)) (j <? n_bots (ad_set (im_ad im)))%nat (friction im) P T X); auto.
  - now rewrite Oy.
  - now rewrite Oz.
  - intros u Hu. destruct (O u Hu) as (O1 & O2). split; [|exact O2]. destruct (O 0 ltac:(lra)) as (O3 & _).
    destruct (j <? n_bots (ad_set (im_ad im)))%nat; [congruence|exact O1].
  - intros u Hu. eapply Rle_trans; [apply pull_bound|]. now apply HP.
Qed.

(** In the mean-field model without homophily (and without bots) the opinions follow
    y_i'' = -y_i - friction y_i' + K w / reluctance_i * sum over the others of tanh(alpha y_j), with the weight w of SRelax. *)
Hypothesis Hpow : lpow RA lm = Rpow.
Theorem C99_mean_field k (im : inertial) s T y z kap X : ad_ready (im_ad im) -> mean_weights (ad_set (im_ad im)) = true -> (2 <= n_agents (ad_net (im_ad im)))%nat ->
  n_bots (ad_set (im_ad im)) = 0%nat -> homophily (ad_set (im_ad im)) = 0 -> Forall (fun x : R => x <= 1) (map i_activity (agents (ad_net (im_ad im)))) ->
  let st := ad_set (im_ad im) in let n := n_agents (ad_net (im_ad im)) in let w := even_weight n (Z.to_nat (m st)) (reciprocity st) in 0 <= w -> 0 <= friction im ->
  (forall i, (i < n)%nat -> Rabs (K st / inertial_reluctance im i) <= kap) ->
  (forall i, (i < n)%nat -> Rabs (position_of im i) <= X /\ Rabs (velocity_of im i) <= X) ->
  (forall i, (i < n)%nat -> y i 0 = position_of im i /\ z i 0 = velocity_of im i /\ forall t, 0 <= t <= T ->
     derivable_pt_lim (y i) t (z i t) /\
     derivable_pt_lim (z i) t (- y i t - friction im * z i t + K st / inertial_reluctance im i * (w * Rsum (map (fun j => if (j =? i)%nat then 0 else tanh (alpha st * y j t)) (seq 0 n))))) ->
  INR k * time_step im <= T ->
  let P := kap * ((INR n - 1) * w) in let L := 1 + P * Rabs (alpha st) + friction im in
  0 < time_step im -> time_step im * L <= 1 ->
  let M := exp (T / 2) * (2 * X + P) in
  let err := time_step im * ((2 * M + P + friction im * M) * (exp (2 * L * T) - 1)) in
  exists im' s', inertial_run (a:=RA) lm g q k im s = Ok (im', s') /\ forall i, (i < n)%nat ->
    Rabs (position_of im' i - y i (INR k * time_step im)) <= err /\ Rabs (velocity_of im' i - z i (INR k * time_step im)) <= err.
Proof using Htanh Hq Hpow.
  intros Hr Hm Hn Hb Hh Ha st n w Hw Hmu Hk HX Hode HT P L Hdt HL M err.
  destruct (inertial_run_ready lm g q Hq k im s Hr) as (im' & s' & E). exists im', s'. split; auto.
  set (W := fun i => map (fun j => (j, if (j =? i)%nat then 0 else w)) (seq 0 n)).
  apply (C99_follows_the_equations k im im' s s' W T y z P X); auto.
  - intros b Hb'. lia.
  - intros i Hi j imj sj Hj Ej. destruct j as [|j]; [lia|]. pose proof Ej as Ej'. rewrite inertial_snoc in Ej'. apply bind_ok_inv in Ej' as ([im1 s1] & E1 & E2).
    destruct (inertial_track lm g q Hq (fun _ _ => True) im s j im1 s1 Hr I) as [_ (F1 & F2 & F3 & F4 & F5 & F6)]; auto.
    rewrite (inertial_even_rows lm Hpow g q Hq im1 imj s1 sj i); auto; rewrite ?F2, ?F4, ?F6; auto.
  - intros i Hi. destruct (even_row_weight n i w Hi Hw) as (_ & Tw). fold (W i) in Tw. rewrite Tw. apply Rmult_le_compat_r; [|now apply Hk].
    apply Rmult_le_pos; [|exact Hw]. assert (INR 2 <= INR n) by (apply le_INR; exact Hn). cbn [INR] in H. lra.
  - intros i Hi. destruct (Hode i Hi) as (O0 & O1 & O). split; [exact O0|]. split; [exact O1|]. intros t Ht. rewrite Hb. cbn [Nat.ltb Nat.leb].
    fold st. replace (social_pull st (inertial_reluctance im i) (W i) (fun j => y j t)) with
      (K st / inertial_reluctance im i * (w * Rsum (map (fun j => if (j =? i)%nat then 0 else tanh (alpha st * y j t)) (seq 0 n)))); [exact (O t Ht)|].
    unfold social_pull, W. rewrite map_map. f_equal. cbn [fst snd]. clear. generalize (seq 0 n). intros l. induction l as [|j l IH]; cbn [map]; rewrite ?Rsum_nil, ?Rsum_cons; [ring|]. rewrite <- IH. destruct (j =? i)%nat; ring.
Qed.
End Ode.

(** ** Non-vacuity *)
(** A bot with opinion 2 (whose velocity follows -4 (1 - e^(-t/2))) and an agent that starts at -1 at rest. *)
Lemma inertial_bot_rows k i : (i < 2)%nat -> inertial_rows real_libm mid_rng (list_pq RA) k inertial_bot_and_agent 0%nat i (fun r => r = bot_rows i).
Proof.
  intros Hi j imj sj Hj Ej. destruct j as [|j]; [lia|]. pose proof Ej as Ej'. rewrite inertial_snoc in Ej'. apply bind_ok_inv in Ej' as ([im1 s1] & E1 & E2).
  destruct (inertial_track real_libm mid_rng (list_pq RA) (list_pq_bag RA) (fun _ _ => True) inertial_bot_and_agent 0%nat j im1 s1 inertial_bot_ready I) as [_ (F1 & F2 & F3 & F4 & F5 & F6)]; auto.
  destruct (inertial_two_rows real_libm mid_rng (list_pq RA) (list_pq_bag RA) eq_refl im1 imj s1 sj F1 ltac:(now rewrite F2) ltac:(now rewrite F4)
    ltac:(rewrite F6; repeat constructor; cbn; lra) ltac:(rewrite F2; cbn; lia) ltac:(rewrite F2; cbn; lia) E2) as (R0 & R1).
  assert (C0 : contact_count (a:=RA) (ad_set (im_ad inertial_bot_and_agent)) 0 = 1%nat) by reflexivity.
  assert (C1 : contact_count (a:=RA) (ad_set (im_ad inertial_bot_and_agent)) 1 = 0%nat) by reflexivity.
  rewrite F2, C0, C1 in R0, R1. change (reciprocity (ad_set (im_ad inertial_bot_and_agent))) with 0 in R0, R1. cbn [INR] in R0, R1.
  destruct i as [|[|i]]; [| |lia]; cbn [bot_rows].
  - rewrite R0. assert (G : forall u v : R, u = v -> [(0%nat, 0); (1%nat, u)] = [(0%nat, 0); (1%nat, v)]) by (intros ? ? ->; reflexivity). apply G. ring.
  - rewrite R1. assert (G : forall u v : R, u = v -> [(0%nat, u); (1%nat, 0)] = [(0%nat, v); (1%nat, 0)]) by (intros ? ? ->; reflexivity). apply G. ring.
Qed.
Example C99_instance k : INR k <= 10 -> let C := 2 / (3/2) * tanh (3/2 * 2) in let t := INR k * (1/10) in let M := exp (1 / 2) * (2 * 2 + 4 / 3) in
  exists im' s', inertial_run (a:=RA) real_libm mid_rng (list_pq RA) k inertial_bot_and_agent 0%nat = Ok (im', s') /\
    Rabs (position_of im' 1 - underdamped (1/2) C (-1) t) <= 1 / 10 * ((2 * M + 4 / 3 + 1 / 2 * M) * (exp (2 * (7 / 2) * 1) - 1)) /\
    Rabs (velocity_of im' 0 - (-4 * (1 - exp (- (t / 2))))) <= 1 / 10 * ((2 * M + 4 / 3 + 1 / 2 * M) * (exp (2 * (7 / 2) * 1) - 1)).
Proof.
  intros HT C t M. destruct (inertial_run_ready real_libm mid_rng (list_pq RA) (list_pq_bag RA) k inertial_bot_and_agent 0%nat inertial_bot_ready) as (im' & s' & E).
  exists im', s'. split; auto.
  destruct (C82_closed_form (1/2) C (-1) ltac:(lra) ltac:(lra)) as ((z1 & HS & Y0 & Z0) & _). destruct (Rlt_dec (1/2) 2) as [Lt|Lt]; [|lra].
  set (y := fun (i : nat) (t : R) => match i with 0%nat => 2 | _ => underdamped (1/2) C (-1) t end).
  set (z := fun (i : nat) (t : R) => match i with 0%nat => -4 * (1 - exp (- (t / 2))) | _ => z1 t end).
  assert (HW : forall u v : R, total_weight [(0%nat, u); (1%nat, v)] = Rabs u + Rabs v) by (intros; unfold total_weight; cbn [map snd]; rewrite !Rsum_cons, Rsum_nil; ring).
  pose proof (C99_follows_the_equations real_libm mid_rng (list_pq RA) (fun _ => eq_refl) (list_pq_bag RA) k inertial_bot_and_agent im' 0%nat s' bot_rows 1 y z (4/3) 2 inertial_bot_ready) as H.
  specialize (H ltac:(intros u Hu; assert (u = 0%nat) by (cbn in Hu; lia); subst u; reflexivity) ltac:(cbn; lra) E (inertial_bot_rows k)).
  assert (EL : 1 + 4 / 3 * Rabs (alpha (ad_set (im_ad inertial_bot_and_agent))) + friction_coefficient inertial_bot_and_agent = 7 / 2).
  { change (alpha (ad_set (im_ad inertial_bot_and_agent))) with (3/2). change (friction_coefficient inertial_bot_and_agent) with (1/2). rewrite Rabs_right by lra. field. }
  cbv zeta in H. rewrite EL in H. change (dt (ad_set (im_ad inertial_bot_and_agent))) with (1/10) in H. change (friction_coefficient inertial_bot_and_agent) with (1/2) in H. fold t M in H.
  assert (HP : forall i, (i < n_agents (ad_net (im_ad inertial_bot_and_agent)))%nat ->
     Rabs (K (ad_set (im_ad inertial_bot_and_agent)) / inertial_reluctance inertial_bot_and_agent i) * total_weight (bot_rows i) <= 4 / 3).
  { intros i Hi. destruct i as [|[|i]]; [| |cbn in Hi; lia]; cbn [bot_rows]; rewrite HW.
    + rewrite Rabs_R0. replace (Rabs (K (ad_set (im_ad inertial_bot_and_agent)) / inertial_reluctance inertial_bot_and_agent 0) * (0 + 0)) with 0 by ring. lra.
    + rewrite Rabs_R1, Rabs_R0. change (K (ad_set (im_ad inertial_bot_and_agent)) / inertial_reluctance inertial_bot_and_agent 1) with (2 / (3 / 2)). rewrite Rabs_right by lra. lra. }
  assert (HX : forall i, (i < n_agents (ad_net (im_ad inertial_bot_and_agent)))%nat -> Rabs (position_of inertial_bot_and_agent i) <= 2 /\ Rabs (velocity_of inertial_bot_and_agent i) <= 2).
  { intros i Hi. destruct i as [|[|i]]; [| |cbn in Hi; lia].
    - change (position_of inertial_bot_and_agent 0) with 2. change (velocity_of inertial_bot_and_agent 0) with 0. rewrite Rabs_R0, Rabs_right; lra.
    - change (position_of inertial_bot_and_agent 1) with (-1). change (velocity_of inertial_bot_and_agent 1) with 0. rewrite Rabs_R0, Rabs_left; lra. }
  assert (SO : solves_inertial_ode inertial_bot_and_agent bot_rows 1 y z).
  { intros i Hi. destruct i as [|[|i]]; [| |cbn in Hi; lia]; cbn [y z].
    - split; [reflexivity|]. split; [unfold z; change (velocity_of inertial_bot_and_agent 0) with 0; replace (- (0 / 2)) with 0 by field; rewrite exp_0; ring|]. intros u _. split; [reflexivity|].
      assert (ES : social_pull (ad_set (im_ad inertial_bot_and_agent)) (inertial_reluctance inertial_bot_and_agent 0) (bot_rows 0) (fun j => y j u) = 0).
      { unfold social_pull, bot_rows. cbn [map fst snd]. rewrite !Rsum_cons, Rsum_nil. ring. }
      rewrite ES. change (friction_coefficient inertial_bot_and_agent) with (1/2). unfold y, z.
      replace (- (2) - 1 / 2 * (-4 * (1 - exp (- (u / 2)))) + 0) with (-4 * (0 - exp (- (u / 2)) * (- (/ 2)))) by field.
      apply (derivable_pt_lim_scal (fun u => 1 - exp (- (u / 2)))). apply (derivable_pt_lim_minus (fun _ => 1) (fun u => exp (- (u / 2)))); [apply derivable_pt_lim_const|].
      apply (derivable_pt_lim_comp (fun u => - (u / 2)) exp); [|apply derivable_pt_lim_exp]. apply (derivable_pt_lim_opp (fun u => u / 2)).
      replace (/ 2) with (1 * / 2 + u * 0) by field. apply (derivable_pt_lim_mult id (fun _ => / 2)); [apply derivable_pt_lim_id|apply derivable_pt_lim_const].
    - split; [exact Y0|]. split; [exact Z0|]. intros u _.
      assert (ES : social_pull (ad_set (im_ad inertial_bot_and_agent)) (inertial_reluctance inertial_bot_and_agent 1) (bot_rows 1) (fun j => y j u) = C).
      { unfold social_pull, bot_rows. cbn [map fst snd]. unfold y. rewrite !Rsum_cons, Rsum_nil. unfold C. change (K (ad_set (im_ad inertial_bot_and_agent)) / inertial_reluctance inertial_bot_and_agent 1) with (2 / (3 / 2)).
        change (alpha (ad_set (im_ad inertial_bot_and_agent))) with (3/2). ring. }
      rewrite ES. change (friction_coefficient inertial_bot_and_agent) with (1/2). unfold y, z. destruct (HS u) as (D1 & D2). split; [exact D1|].
      replace (- underdamped (1 / 2) C (-1) u - 1 / 2 * z1 u + C) with (- (underdamped (1 / 2) C (-1) u - C) - 1 / 2 * z1 u) by ring. exact D2. }
  specialize (H HP HX SO ltac:(unfold t; lra) ltac:(lra) ltac:(lra)).
  split; [exact (proj1 (H 1%nat ltac:(cbn; lia)))|exact (proj2 (H 0%nat ltac:(cbn; lia)))].
Qed.

(** Two agents at rest that agree on a consensus value other than 0 in the mean-field model. *)
Example C99_mean_field_instance k : INR k <= 10 -> exists p, 0 < p /\ consensus_value 2 1 p /\ let M := exp (1 / 2) * (2 * p + 2) in
  let im := complete_inertial (field_settings (1/10) 1 1 (1/2) 2 0 [] []) (1/2) [mkInertial p 1 1 0; mkInertial p (1/2) 1 0] in
  exists im' s', inertial_run (a:=RA) real_libm mid_rng (list_pq RA) k im 0%nat = Ok (im', s') /\ forall i, (i < 2)%nat ->
    Rabs (position_of im' i - p) <= 1 / 10 * ((2 * M + 2 + 1 / 2 * M) * (exp (2 * (7 / 2) * 1) - 1)).
Proof.
  intros HkT. destruct (proj2 (C79_values 2 1 ltac:(lra) ltac:(lra)) ltac:(lra)) as (p & Hp & _ & Cp & _). exists p. split; auto. split; auto. intros M im.
  assert (Hr : ad_ready (im_ad im)) by (apply complete_inertial_ready; [apply field_fit; cbn; try lia; constructor|cbn; lia|cbn; lia]).
  assert (Ew : even_weight 2 1 (1/2) = 1).
  { unfold even_weight, contact_chance. cbn [seq map]. rewrite Rsum_cons, Rsum_nil. cbn [INR Nat.add pow]. field. }
  pose proof (C99_mean_field real_libm mid_rng (list_pq RA) (fun _ => eq_refl) (list_pq_bag RA) eq_refl k im 0%nat 1 (fun _ _ => p) (fun _ _ => 0) 2 p Hr eq_refl (le_n 2) eq_refl eq_refl
    ltac:(repeat constructor; cbn; lra)) as H.
  cbv zeta in H. change (n_agents (ad_net (im_ad im))) with 2%nat in H. change (Z.to_nat (m (ad_set (im_ad im)))) with 1%nat in H. change (reciprocity (ad_set (im_ad im))) with (1/2) in H.
  rewrite Ew in H. change (dt (ad_set (im_ad im))) with (1/10) in H. change (alpha (ad_set (im_ad im))) with 1 in H. change (friction_coefficient im) with (1/2) in H. cbn [INR] in H.
  assert (E2 : 2 * ((1 + 1 - 1) * 1) = 2) by ring. rewrite E2 in H. assert (E3 : 1 + 2 * Rabs 1 + 1 / 2 = 7 / 2) by (rewrite Rabs_R1; field). rewrite E3 in H. fold M in H.
  assert (Kr : forall i, (i < 2)%nat -> K (ad_set (im_ad im)) / inertial_reluctance im i = 2).
  { intros i Hi. destruct i as [|[|i]]; [| |lia]; [change (K (ad_set (im_ad im)) / inertial_reluctance im 0) with (2 / 1)|change (K (ad_set (im_ad im)) / inertial_reluctance im 1) with (2 / 1)]; field. }
  assert (Op : forall i, (i < 2)%nat -> position_of im i = p /\ velocity_of im i = 0) by (intros i Hi; destruct i as [|[|i]]; [split; reflexivity|split; reflexivity|lia]).
  destruct H as (im' & s' & E & H); try lra.
  - intros i Hi. rewrite (Kr i Hi), Rabs_right; lra.
  - intros i Hi. destruct (Op i Hi) as (-> & ->). rewrite Rabs_R0, Rabs_right; lra.
  - intros i Hi. destruct (Op i Hi) as (-> & ->). split; [reflexivity|]. split; [reflexivity|]. intros t _. rewrite (Kr i Hi). split; [apply derivable_pt_lim_const|].
    match goal with |- derivable_pt_lim _ _ ?v => replace v with 0 end; [apply derivable_pt_lim_const|]. unfold consensus_value in Cp.
    destruct i as [|[|i]]; [| |lia]; cbn [seq map Nat.eqb]; rewrite !Rsum_cons, Rsum_nil; lra.
  - exists im', s'. split; [exact E|]. intros i Hi. exact (proj1 (H i Hi)).
Qed.
Print Assumptions C99_follows_the_equations.
Print Assumptions C99_mean_field.
Print Assumptions C99_instance.
Print Assumptions C99_mean_field_instance.
