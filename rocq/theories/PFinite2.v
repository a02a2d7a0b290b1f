(** The slopes computed in double precision: minus the opinion, plus a bounded pull. *)
From Coq Require Import Reals Lra Psatz.
From Flocq Require Import Core.Core IEEE754.BinarySingleNaN.
From Verif Require Import Base BaseFacts Arith64 RFacts MRandom MNetwork SNetwork MAgents MActivity SActivity SRelax PRelax PFloat SRounding SFinite PRounding PFinite.
Local Open Scope R_scope.

Lemma fmul_not_nan (x y : float) : is_finite x = true -> is_finite y = true -> is_nan (fmul FA x y : float) = false.
Proof.
  intros Fx Fy. cbn [fmul FA]. pose proof (Bmult_correct prec emax Hprec Hprec_emax mode_NE x y) as C.
  destruct (Rlt_bool _ _).
  - destruct C as (_ & C & _). rewrite Fx, Fy in C. cbn [andb] in C. match type of C with is_finite ?z = true => destruct z; try reflexivity; discriminate end.
  - unfold binary_overflow in C. cbn [overflow_to_inf] in C. match type of C with B2SF ?z = _ => destruct z; try reflexivity; discriminate end.
Qed.

(** The computed coupling constant (1/reluctance) * K. *)
Lemma coupling_size (rel K : float) : is_finite rel = true -> is_finite K = true -> / 2 ^ 100 <= value rel <= 2 ^ 100 -> Rabs (value K) <= 2 ^ 100 ->
  let c := fmul FA (fdiv FA (f1 FA) rel) K : float in
  is_finite c = true /\ Rabs (value c) <= (1 + 4 * u64) * (Rabs (value K) / value rel) + eta64.
Proof.
  intros Fr FK Hr HK c. pose proof u64_pos as U. pose proof u64_small as U1. assert (U2 : u64 <= / 1000) by (eapply Rle_trans; [exact U1|cbn; lra]). pose proof eta64_pos as Et.
  assert (r0 : 0 < value rel) by (assert (0 < / 2 ^ 100) by (apply Rinv_0_lt_compat, pow_lt; lra); lra).
  destruct (b64_exact 1 ltac:(lia)) as (V1 & F1 & _). change (b64_of_Z 1) with (f1 FA : float) in V1, F1.
  assert (I1 : / value rel <= 2 ^ 100). { rewrite <- (Rinv_inv (2 ^ 100)). apply Rinv_le_contravar; [apply Rinv_0_lt_compat, pow_lt; lra|lra]. }
  assert (I2 : / 2 ^ 100 <= / value rel) by (apply Rinv_le_contravar; lra). assert (I0 : 0 < / value rel) by (apply Rinv_0_lt_compat; lra).
  assert (B100 : 2 ^ 100 <= 2 ^ 900) by (apply Rle_pow; [lra|lia]). assert (B200 : 2 * 2 ^ 100 * 2 ^ 100 <= big).
  { unfold big. replace (2 * 2 ^ 100 * 2 ^ 100) with (2 ^ 201) by (rewrite Rmult_assoc, <- pow_add; reflexivity). apply Rle_pow; [lra|lia]. }
  assert (P100 : 1 <= 2 ^ 100) by (apply pow_R1_Rle; lra).
  destruct (fdiv_err (f1 FA) rel F1) as (Fq & Eq); [lra|rewrite V1; unfold Rdiv; rewrite Rmult_1_l, Rabs_right by lra; nra|]. rewrite V1 in Eq. unfold Rdiv in Eq. rewrite Rmult_1_l, (Rabs_right (/ value rel)) in Eq by lra.
  set (q := fdiv FA (f1 FA) rel : float) in *. change (is_finite q = true) in Fq.
  assert (Hu : eta64 <= u64 * / value rel).
  { apply Rle_trans with (u64 * / 2 ^ 100); [|apply Rmult_le_compat_l; lra]. unfold eta64, u64. rewrite <- Rinv_mult, <- pow_add. apply Rinv_le_contravar; [apply pow_lt; lra|]. apply Rle_pow; [lra|lia]. }
  assert (Sq : Rabs (value q) <= (1 + 2 * u64) * / value rel).
  { replace (value q) with (/ value rel + (value q - / value rel)) by ring. eapply Rle_trans; [apply Rabs_triang|]. rewrite (Rabs_right (/ value rel)) by lra. lra. }
  assert (Sqk : Rabs (value q * value K) <= (1 + 2 * u64) * (Rabs (value K) / value rel)).
  { rewrite Rabs_mult. replace ((1 + 2 * u64) * (Rabs (value K) / value rel)) with ((1 + 2 * u64) * / value rel * Rabs (value K)) by (unfold Rdiv; ring). apply Rmult_le_compat_r; [apply Rabs_pos|exact Sq]. }
  pose proof (Rabs_pos (value K)) as K0. assert (k0 : 0 <= Rabs (value K) / value rel) by (apply Rmult_le_pos; lra).
  assert (kb : Rabs (value K) / value rel <= 2 ^ 100 * 2 ^ 100) by (apply Rmult_le_compat; lra).
  assert (kd : (1 + 2 * u64) * (Rabs (value K) / value rel) <= 2 * (Rabs (value K) / value rel)) by (apply Rmult_le_compat_r; lra).
  destruct (fmul_err q K Fq FK) as (Fc & Ec); [lra|]. split; [exact Fc|]. change (fmul FA q K) with c in Ec.
  replace (value c) with (value q * value K + (value c - value q * value K)) by ring. eapply Rle_trans; [apply Rabs_triang|].
  assert (u64 * Rabs (value q * value K) <= u64 * ((1 + 2 * u64) * (Rabs (value K) / value rel))) by (apply Rmult_le_compat_l; lra).
  set (k := Rabs (value K) / value rel) in *. nra.
Qed.

(** One contribution: coupling * weight * tanh(...). *)
Lemma term_size (c w t : float) : is_finite c = true -> is_finite w = true -> small_finite 1 t -> 2 * (Rabs (value c) * Rabs (value w)) + 1 <= big ->
  small_finite ((1 + 4 * u64) * (Rabs (value c) * Rabs (value w)) + 4 * eta64) (fmul FA (fmul FA c w) t).
Proof.
  intros Fc Fw (Ft & Ht) Hb. pose proof u64_pos as U. pose proof u64_small as U1. assert (U2 : u64 <= / 1000) by (eapply Rle_trans; [exact U1|cbn; lra]). pose proof eta64_pos as Et.
  assert (E1 : eta64 <= / 1000). { eapply Rle_trans; [|exact U2]. unfold eta64, u64. apply Rinv_le_contravar; [apply pow_lt; lra|]. apply Rle_pow; [lra|lia]. }
  rewrite <- Rabs_mult in Hb |- *. pose proof (Rabs_pos (value c * value w)) as P.
  destruct (fmul_err c w Fc Fw ltac:(lra)) as (F1 & D1). set (p := fmul FA c w : float) in *. change (is_finite p = true) in F1.
  assert (Sp : Rabs (value p) <= (1 + u64) * Rabs (value c * value w) + eta64).
  { replace (value p) with (value c * value w + (value p - value c * value w)) by ring. eapply Rle_trans; [apply Rabs_triang|]. lra. }
  set (r := Rabs (value c * value w)) in *.
  assert (Spt : Rabs (value p * value t) <= (1 + u64) * r + eta64). { rewrite Rabs_mult. apply Rle_trans with (Rabs (value p) * 1); [apply Rmult_le_compat_l; [apply Rabs_pos|exact Ht]|lra]. }
  assert (ur : u64 * r <= / 1000 * r) by (apply Rmult_le_compat_r; lra). assert (uur : u64 * (u64 * r) <= u64 * r) by (rewrite <- (Rmult_1_l (u64 * r)) at 2; apply Rmult_le_compat_r; [apply Rmult_le_pos; lra|lra]). assert (ue : u64 * eta64 <= eta64) by (rewrite <- (Rmult_1_l eta64) at 2; apply Rmult_le_compat_r; lra).
  destruct (fmul_err p t F1 Ft) as (F2 & D2); [lra|]. split; [exact F2|].
  match goal with |- Rabs ?z <= _ => replace z with (value p * value t + (z - value p * value t)) by ring end. eapply Rle_trans; [apply Rabs_triang|].
  assert (u64 * Rabs (value p * value t) <= u64 * ((1 + u64) * r + eta64)) by (apply Rmult_le_compat_l; lra).
  eapply Rle_trans; [apply Rplus_le_compat; [exact Spt|exact D2]|]. assert (0 <= u64 * r) by (apply Rmult_le_pos; lra). lra.
Qed.

(** The accumulation. *)
Lemma pulls_sum (t : nat * float -> float) (T : nat * float -> R) (x M : R) : Rabs x <= 4 * M -> 1000 * M <= big -> 0 <= M -> forall r (acc : float) B,
  (forall p, In p r -> small_finite (T p) (t p)) -> is_finite acc = true -> Rabs (value acc + x) <= B -> B + Rsum (map T r) + INR (length r) * (8 * u64 * M) <= M / 2 ->
  (forall p, In p r -> 0 <= T p) ->
  is_finite (fold_left (fun acc p => fadd FA acc (t p)) r acc : float) = true /\
  Rabs (value (fold_left (fun acc p => fadd FA acc (t p)) r acc : float) + x) <= B + Rsum (map T r) + INR (length r) * (8 * u64 * M).
Proof.
  intros Hx Hb M0. pose proof u64_pos as U. induction r as [|p r IH]; intros acc B Ht Fa Ha HB HT.
  - cbn [fold_left map length INR] in *. rewrite Rsum_nil in *. split; [exact Fa|lra].
  - cbn [fold_left map]. cbn [map] in HB. change (length (p :: r)) with (S (length r)) in *. rewrite S_INR in *. rewrite Rsum_cons in *.
    destruct (Ht p (or_introl eq_refl)) as (Ft & St). pose proof (HT p (or_introl eq_refl)) as T0. pose proof (pos_INR (length r)) as I0.
    assert (UM : 0 <= u64 * M) by (apply Rmult_le_pos; lra). assert (UI : 0 <= INR (length r) * (8 * u64 * M)) by (apply Rmult_le_pos; lra).
    assert (R0 : 0 <= Rsum (map T r)). { clear -HT. assert (H : forall q, In q r -> 0 <= T q) by (intros q Hq; apply HT; now right). clear HT. induction r as [|q r IH]; cbn [map]; [rewrite Rsum_nil; lra|]. rewrite Rsum_cons. assert (0 <= T q) by (apply H; now left). assert (0 <= Rsum (map T r)) by (apply IH; intros; apply H; now right). lra. }
    pose proof (Rabs_pos (value acc + x)) as A0.
    assert (Sa : Rabs (value acc) <= 4 * M + B). { replace (value acc) with ((value acc + x) - x) by ring. eapply Rle_trans; [apply Rabs_triang|]. rewrite Rabs_Ropp. lra. }
    assert (Ss : Rabs (value acc + value (t p)) <= 5 * M) by (eapply Rle_trans; [apply Rabs_triang|]; lra).
    destruct (fadd_err acc (t p) Fa Ft ltac:(lra)) as (F1 & D1).
    destruct (IH (fadd FA acc (t p)) (B + T p + 8 * u64 * M)) as (F2 & D2).
    + intros q Hq. apply Ht. now right.
    + exact F1.
    + match goal with |- Rabs (?z + x) <= _ => replace (z + x) with ((z - (value acc + value (t p))) + ((value acc + x) + value (t p))) by ring end.
      eapply Rle_trans; [apply Rabs_triang|]. pose proof (Rabs_triang (value acc + x) (value (t p))).
      assert (u64 * Rabs (value acc + value (t p)) <= u64 * (5 * M)) by (apply Rmult_le_compat_l; lra). lra.
    + lra.
    + intros q Hq. apply HT. now right.
    + split; [exact F2|]. lra.
Qed.

Lemma Rsum_affine (f : nat * float -> R) b c (r : list (nat * float)) : Rsum (map (fun p => b * f p + c) r) = b * Rsum (map f r) + INR (length r) * c.
Proof.
  induction r as [|p r IH]; [cbn [map length INR]; rewrite !Rsum_nil; ring|]. change (length (p :: r)) with (S (length r)). rewrite S_INR. cbn [map]. rewrite !Rsum_cons, IH. ring.
Qed.

Lemma Rsum_times (f : nat * float -> R) b (r : list (nat * float)) : Rsum (map (fun p => b * f p) r) = b * Rsum (map f r).
Proof. induction r as [|p r IH]; cbn [map]; [rewrite !Rsum_nil; ring|]. rewrite !Rsum_cons, IH. ring. Qed.
Lemma Rsum_abs_pos (r : list (nat * float)) : 0 <= Rsum (map (fun p => Rabs (value (snd p))) r).
Proof. induction r as [|p r IH]; cbn [map]; [rewrite Rsum_nil; lra|]. rewrite Rsum_cons. apply Rplus_le_le_0_compat; [apply Rabs_pos|exact IH]. Qed.
Lemma Rsum_abs_in (r : list (nat * float)) p : In p r -> Rabs (value (snd p)) <= Rsum (map (fun p => Rabs (value (snd p))) r).
Proof.
  induction r as [|q r IH]; intros Hp; [destruct Hp|]. cbn [map]. rewrite Rsum_cons. pose proof (Rsum_abs_pos r) as P.
  match goal with |- ?z <= ?y + ?s => assert (Y : 0 <= y) by apply Rabs_pos; change (0 <= s) in P; set (b := s) in *; set (c := y) in * end.
  destruct Hp as [->|Hp]; [change (c <= c + b); lra|]. specialize (IH Hp). eapply Rle_trans; [exact IH|]. change (b <= c + b). lra.
Qed.
(** The slope of an agent. *)
Lemma slope_pull (lm : Libm FA) (K alpha rel : float) (xs : list float) i r W M : tanh_bounded lm -> is_finite alpha = true ->
  is_finite rel = true -> is_finite K = true -> / 2 ^ 100 <= value rel <= 2 ^ 100 -> Rabs (value K) <= 2 ^ 100 ->
  (forall k, is_finite (nth k xs (f0 FA) : float) = true) -> Rabs (value (nth i xs (f0 FA) : float)) <= 4 * M ->
  Forall (fun p => is_finite (snd p) = true) r -> INR (length r) <= 2 ^ 40 -> Rsum (map (fun p => Rabs (value (snd p))) r) <= W -> 0 <= W <= 2 ^ 100 ->
  4 * Rabs (value K) * W <= value rel * M -> / 2 ^ 900 <= M <= 2 ^ 900 ->
  is_finite (slope lm K alpha xs i rel r : float) = true /\ Rabs (value (slope lm K alpha xs i rel r : float) + value (nth i xs (f0 FA) : float)) <= M / 2.
Proof.
  intros Ht Fal Fr FK Hr HK Hxs Hx Hw Hd HW Hw0 HM HMb.
  assert (M0 : 0 < M) by (assert (0 < / 2 ^ 900) by (apply Rinv_0_lt_compat, pow_lt; lra); lra).
  pose proof u64_pos as U. pose proof u64_small as U1. assert (U2 : u64 <= / 1000) by (eapply Rle_trans; [exact U1|cbn; lra]). pose proof eta64_pos as Et. pose proof (big_room M (proj2 HMb)) as Bg.
  assert (r0 : 0 < value rel) by (assert (0 < / 2 ^ 100) by (apply Rinv_0_lt_compat, pow_lt; lra); lra).
  destruct (coupling_size rel K Fr FK Hr HK) as (Fc & Sc). set (c := fmul FA (fdiv FA (f1 FA) rel) K : float) in *.
  set (kk := Rabs (value K) / value rel) in *. assert (kW : kk * W <= M / 4).
  { unfold kk. apply Rmult_le_reg_r with (4 * value rel); [lra|]. replace (Rabs (value K) / value rel * W * (4 * value rel)) with (4 * Rabs (value K) * W) by (field; lra). lra. }
  assert (k0 : 0 <= kk) by (apply Rmult_le_pos; [apply Rabs_pos|apply Rlt_le, Rinv_0_lt_compat, r0]).
  assert (I1 : / value rel <= 2 ^ 100). { rewrite <- (Rinv_inv (2 ^ 100)). apply Rinv_le_contravar; [apply Rinv_0_lt_compat, pow_lt; lra|lra]. }
  assert (kb : kk <= 2 ^ 100 * 2 ^ 100) by (apply Rmult_le_compat; try lra; [apply Rabs_pos|apply Rlt_le, Rinv_0_lt_compat, r0]).
  assert (P100 : 1 <= 2 ^ 100) by (apply pow_R1_Rle; lra).
  assert (EW : eta64 * 2 ^ 100 <= M / 1000).
  { apply Rle_trans with (/ 2 ^ 900 / 1000); [|lra]. unfold eta64. replace (2 ^ 1075) with (2 ^ 900 * (2 ^ 100 * 2 ^ 75)) by (rewrite <- !pow_add; reflexivity).
    rewrite Rinv_mult, (Rinv_mult (2 ^ 100)). assert (0 < / 2 ^ 900) by (apply Rinv_0_lt_compat, pow_lt; lra). assert (0 < 2 ^ 100) by lra.
    replace (/ 2 ^ 900 * (/ 2 ^ 100 * / 2 ^ 75) * 2 ^ 100) with (/ 2 ^ 900 * / 2 ^ 75) by (field; split; apply pow_nonzero; lra). unfold Rdiv. apply Rmult_le_compat_l; [lra|].
    apply Rinv_le_contravar; [lra|]. apply Rle_trans with (2 ^ 10); [cbn; lra|apply Rle_pow; [lra|lia]]. }
  pose proof (pos_INR (length r)) as Id.
  assert (E40 : 2 ^ 40 <= 2 ^ 100) by (apply Rle_pow; [lra|lia]).
  assert (Ed : INR (length r) * (4 * eta64) <= 4 * (M / 1000)). { assert (INR (length r) * eta64 <= 2 ^ 100 * eta64) by (apply Rmult_le_compat_r; lra). lra. }
  assert (Eu : INR (length r) * (8 * u64 * M) <= M / 1000).
  { apply Rle_trans with (2 ^ 40 * (8 * u64 * M)); [apply Rmult_le_compat_r; [apply Rmult_le_pos; lra|exact Hd]|].
    replace (2 ^ 40 * (8 * u64 * M)) with (2 ^ 40 * 8 * u64 * M) by ring. assert (2 ^ 40 * 8 * u64 <= / 1000); [|nra].
    unfold u64. replace (2 ^ 40 * 8) with (2 ^ 43) by (replace 8 with (2 ^ 3) by (cbn [pow]; lra); rewrite <- pow_add; reflexivity). replace (2 ^ 53) with (2 ^ 43 * 2 ^ 10) by (rewrite <- pow_add; reflexivity).
    rewrite Rinv_mult. assert (0 < 2 ^ 43) by (apply pow_lt; lra). rewrite <- Rmult_assoc, Rinv_r, Rmult_1_l by lra. apply Rinv_le_contravar; cbn; lra. }
  set (T := fun p : nat * float => (1 + 4 * u64) * (Rabs (value c) * Rabs (value (snd p))) + 4 * eta64).
  assert (WT : Rsum (map T r) <= 3 / 8 * M).
  { unfold T. rewrite (Rsum_affine (fun p => Rabs (value c) * Rabs (value (snd p)))).
    assert (ES : Rsum (map (fun p : nat * float => Rabs (value c) * Rabs (value (snd p))) r) = Rabs (value c) * Rsum (map (fun p => Rabs (value (snd p))) r)).
    { apply (Rsum_times (fun p => Rabs (value (snd p)))). }
    rewrite ES. match goal with |- _ * (_ * ?z) + _ <= _ => set (s := z) in * end.
    assert (s0 : 0 <= s). { apply Rsum_abs_pos. }
    assert (A1 : Rabs (value c) * s <= ((1 + 4 * u64) * kk + eta64) * W) by (apply Rmult_le_compat; [apply Rabs_pos|exact s0|exact Sc|exact HW]).
    assert (A2 : eta64 * W <= M / 1000) by (eapply Rle_trans; [apply Rmult_le_compat_l; [lra|apply Hw0]|exact EW]).
    assert (A3 : ((1 + 4 * u64) * kk + eta64) * W = (1 + 4 * u64) * (kk * W) + eta64 * W) by ring.
    assert (A4 : Rabs (value c) * s <= (1 + 4 * u64) * (M / 4) + M / 1000). { rewrite A3 in A1. assert ((1 + 4 * u64) * (kk * W) <= (1 + 4 * u64) * (M / 4)) by (apply Rmult_le_compat_l; lra). lra. }
    assert (A5 : (1 + 4 * u64) * (M / 4) + M / 1000 <= 252 / 1000 * M) by nra.
    assert (A6 : (1 + 4 * u64) * (Rabs (value c) * s) <= (1 + 4 * u64) * (252 / 1000 * M)) by (apply Rmult_le_compat_l; lra).
    assert ((1 + 4 * u64) * (252 / 1000 * M) <= 1004 / 1000 * (252 / 1000 * M)) by (apply Rmult_le_compat_r; lra).
    eapply Rle_trans; [apply Rplus_le_compat; [exact A6|exact Ed]|]. lra. }
  unfold slope. destruct (fopp_exact (nth i xs (f0 FA))) as (Vo & Fo).
  destruct (pulls_sum (fun p => fmul FA (fmul FA c (snd p)) (ltanh FA lm (fmul FA alpha (nth (fst p) xs (f0 FA))))) T (value (nth i xs (f0 FA) : float)) M Hx Bg ltac:(lra) r
    (fopp FA (nth i xs (f0 FA))) 0) as (F1 & D1).
  - intros p Hp. apply term_size; [exact Fc|rewrite Forall_forall in Hw; apply (Hw p Hp)|apply Ht, fmul_not_nan; [exact Fal|apply Hxs]|].
    assert (wb : Rabs (value (snd p)) <= 2 ^ 100).
    { eapply Rle_trans; [|apply (proj2 Hw0)]. eapply Rle_trans; [|exact HW]. apply (Rsum_abs_in r p Hp). }
    assert (E1 : eta64 <= 1). { unfold eta64. rewrite <- Rinv_1. apply Rinv_le_contravar; [lra|]. apply pow_R1_Rle. lra. }
    assert (cb : Rabs (value c) <= 4 * (2 ^ 100 * 2 ^ 100)) by nra. pose proof (Rabs_pos (value c)). pose proof (Rabs_pos (value (snd p))).
    assert (cw : Rabs (value c) * Rabs (value (snd p)) <= 4 * (2 ^ 100 * 2 ^ 100) * 2 ^ 100) by (apply Rmult_le_compat; lra).
    apply Rle_trans with (2 ^ 304).
    + replace (2 ^ 304) with (16 * (2 ^ 100 * 2 ^ 100 * 2 ^ 100)) by (rewrite <- !pow_add; replace 16 with (2 ^ 4) by (cbn [pow]; lra); rewrite <- pow_add; reflexivity).
      assert (1 <= 2 ^ 100 * 2 ^ 100 * 2 ^ 100) by (rewrite <- !pow_add; apply pow_R1_Rle; lra). lra.
    + unfold big. apply Rle_pow; [lra|lia].
  - rewrite Fo. apply Hxs.
  - match goal with |- Rabs (?z + ?y) <= 0 => change z with (value (fopp FA (nth i xs (f0 FA)) : float)); rewrite Vo end. rewrite Rplus_opp_l, Rabs_R0. lra.
  - eapply Rle_trans; [apply Rplus_le_compat; [apply Rplus_le_compat_l; exact WT|exact Eu]|]. lra.
  - intros p _. unfold T. pose proof (Rabs_pos (value c)). pose proof (Rabs_pos (value (snd p))). assert (0 <= Rabs (value c) * Rabs (value (snd p))) by (apply Rmult_le_pos; lra). nra.
  - split; [exact F1|]. eapply Rle_trans; [exact D1|]. eapply Rle_trans; [apply Rplus_le_compat; [apply Rplus_le_compat_l; exact WT|exact Eu]|]. lra.
Qed.
