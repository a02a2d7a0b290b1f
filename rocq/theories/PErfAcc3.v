(** Accuracy of the three branches of erfinv. *)
From Verif Require Import Base Arith64 RFacts MRandom MDist PErfinv.
From Coq Require Import ZArith List Bool Lia QArith Qreals.
From Coq Require Import Reals Lra Psatz.
From Coquelicot Require Import Coquelicot.
From Verif Require Import SGauss PGauss PPoly PErfAcc PErfNum PErfAcc2.
Local Open Scope R_scope.

Lemma exp_mono x y : x <= y -> exp x <= exp y.
Proof. intros [H| ->]; [left; now apply exp_increasing|lra]. Qed.

(** e ^ LN2 is 2, up to the last digits. *)
Definition kap : R := exp (LN2 (a:=RA)).
Lemma LN2_q : LN2 (a:=RA) = Q2R (6931471805599453094172321214581 # 10000000000000000000000000000000).
Proof. unfold LN2. rewrite (lit10_val _ _ 10000000000000000000000000000000) by reflexivity. reflexivity. Qed.
Definition exp_chk (l h q m a8 a4 a2 a b8 b4 b2 b : Z) : bool := exp8_lo_chk l q m a8 a4 a2 a && exp8_hi_chk h q m b8 b4 b2 b.
Lemma exp_q_bounds (x : R) (l h q m a8 a4 a2 a b8 b4 b2 b : Z) : IZR l / IZR q <= x <= IZR h / IZR q -> (0 < q)%Z -> (0 < m)%Z ->
  exp_chk l h q m a8 a4 a2 a b8 b4 b2 b = true -> IZR a / IZR m <= exp x <= IZR b / IZR m.
Proof.
  intros Hx Hq Hm H. apply andb_prop in H as [H1 H2]. split.
  - eapply Rle_trans; [apply (exp8_lo_sound _ _ _ _ _ _ _ Hq Hm H1)|]. apply exp_mono. lra.
  - eapply Rle_trans; [|apply (exp8_hi_sound _ _ _ _ _ _ _ Hq Hm H2)]. apply exp_mono. lra.
Qed.
Lemma exp_chk_kap : exp_chk 69314718055994530 69314718055994531 100000000000000000 100000000000000000000
  109050773266525765791 118920711500272106388 141421356237309504205 199999999999999998090
  109050773266525765930 118920711500272106693 141421356237309504931 200000000000000000144 = true.
Proof. vm_compute. reflexivity. Qed.
Lemma exp_chk_mid : exp_chk 18162635243375178 18162635243375179 10000000000000000 100000000000000000000
  125487120339728755371 157470173711575663007 247968556087538150189 614884048081385534022
  125487120339728756942 157470173711575666951 247968556087538162611 614884048081385595628 = true.
Proof. vm_compute. reflexivity. Qed.
Lemma exp_chk_far : exp_chk 28361528790232201 28361528790232202 10000000000000000 100000000000000000000
  142549498297200321418 203203594647835173354 412917008778017075099 1705004561381850302508
  142549498297200323204 203203594647835178447 412917008778017095799 1705004561381850473457 = true.
Proof. vm_compute. reflexivity. Qed.
Lemma exp_chk_3 : exp_chk 3 3 1 100000000000000000000
  145499141461820133603 211700001661267466847 448168907033806482228 2008553692318766773804
  145499141461820133608 211700001661267466863 448168907033806482297 2008553692318766774423 = true.
Proof. vm_compute. reflexivity. Qed.
Lemma kap_bounds : 19999999999999999 / 10000000000000000 <= kap <= 20000000000000001 / 10000000000000000.
Proof.
  assert (Hx : 69314718055994530 / 100000000000000000 <= LN2 (a:=RA) <= 69314718055994531 / 100000000000000000) by (rewrite LN2_q, Q2R_frac; lra).
  unfold kap. pose proof (exp_q_bounds _ _ _ _ 100000000000000000000 _ _ _ _ _ _ _ _ Hx eq_refl eq_refl exp_chk_kap). lra.
Qed.

Lemma peval_q p n d : peval p (IZR n / IZR (Zpos d)) = Q2R (qeval p (n # d)).
Proof. now rewrite qeval_sound. Qed.
Ltac qle := apply Qle_sound; vm_compute; reflexivity.

(** ** Center *)
Lemma fcen_0 : Rabs (fcen NA DA 0 - 1) <= / 1000000000000.
Proof.
  assert (Er : rr 0 = Q2R (289 # 1600)) by (unfold rr; rewrite Q2R_frac; field).
  assert (HD : 0 < peval DA (rr 0)) by (apply peval_pos_coeffs; [unfold rr; lra|reflexivity|discriminate]).
  assert (Ew : 8862269254527579 / 10000000000000000 <= peval NA (rr 0) / peval DA (rr 0) <= 8862269254527581 / 10000000000000000).
  { rewrite Er, <- !qeval_sound. rewrite <- Q2R_div by (vm_compute; discriminate).
    rewrite <- (Q2R_frac 8862269254527579 10000000000000000), <- (Q2R_frac 8862269254527581 10000000000000000). split; qle. }
  unfold fcen. rewrite cw_eval. replace (cen NA DA 0) with 0 by (unfold cen, Rdiv; ring).
  rewrite !Rmult_0_l, Ropp_0, exp_0, !Rmult_0_r, Rmult_0_l, Rminus_0_r.
  replace (800 * (peval NA (rr 0) * peval DA (rr 0)) / (800 * (peval DA (rr 0) * peval DA (rr 0)))) with (peval NA (rr 0) / peval DA (rr 0)) by (field; lra).
  set (w := peval NA (rr 0) / _) in *. pose proof sqrt_PI_bounds as Hp.
  replace (2 / sqrt PI * 1 * w - 1) with ((2 * w - sqrt PI) / sqrt PI) by (field; lra).
  unfold Rdiv. rewrite Rabs_mult, (Rabs_right (/ _)) by (left; apply Rinv_0_lt_compat; lra).
  apply Rmult_le_reg_r with (sqrt PI); [lra|]. rewrite Rmult_assoc, Rinv_l, Rmult_1_r by lra. apply Rabs_le. lra.
Qed.

Lemma center_acc x : 0 <= x <= 17 / 20 -> Rabs (Erf (cen NA DA x) - x) <= 140 / 1000000000000 * x.
Proof.
  apply (center_sound NA DA WA CNA CDA 12500000000 (/ 1000000000000) _ eq_refl eq_refl ltac:(discriminate) WA_eq CNA_eq CDA_eq cert_center); try lra.
  exact fcen_0.
Qed.

Lemma center_rat x : x * erfinv_num_a (a:=RA) (lit10 (a:=RA) 180625 6 - lit10 (a:=RA) 25 2 * x * x)
  / erfinv_den_a (a:=RA) (lit10 (a:=RA) 180625 6 - lit10 (a:=RA) 25 2 * x * x) = cen NA DA x.
Proof.
  rewrite (lit10_val 180625 6 1000000), (lit10_val 25 2 100) by reflexivity.
  replace (180625 / 1000000 - 25 / 100 * x * x) with (rr x) by (unfold rr; field).
  rewrite num_a_poly, den_a_poly. unfold cen.
  destruct (Req_dec (peval DA (rr x)) 0) as [E|E].
  - rewrite E. unfold Rdiv. rewrite !Rmult_0_l, Rinv_0, !Rmult_0_r. reflexivity.
  - field. split; [exact E|]. apply not_0_IZR. vm_compute. discriminate.
Qed.

(** ** Tails *)
Lemma ft_near A B o k s (w : R) (x el eh : R) :
  peval (wron A B) s / (peval B s * peval B s) = w -> (o + s) * (o + s) - rat A B s * rat A B s = x -> el <= exp x <= eh ->
  ft A B o k s = exp x * w / (sqrt PI * k * (o + s)).
Proof. intros E1 E2 _. unfold ft. rewrite E1, E2. unfold Rdiv. rewrite !Rinv_mult. ring. Qed.

Lemma quot_near a b d : 0 < b -> Rabs (a - b) <= d * b -> Rabs (a / b - 1) <= d.
Proof.
  intros Hb H. replace (a / b - 1) with ((a - b) / b) by (field; lra). unfold Rdiv.
  rewrite Rabs_mult, (Rabs_right (/ b)) by (left; now apply Rinv_0_lt_compat).
  apply Rmult_le_reg_r with b; [exact Hb|]. rewrite Rmult_assoc, Rinv_l, Rmult_1_r by lra. exact H.
Qed.
Lemma prod_bounds a b al ah bl bh : al <= a <= ah -> bl <= b <= bh -> 0 <= al -> 0 <= bl -> al * bl <= a * b <= ah * bh.
Proof. intros. split; apply Rmult_le_compat; lra. Qed.

Lemma ft_mid : Rabs (ft NC DC (8 / 5) kap (2 / 5) - 1) <= / 1000000000000.
Proof.
  pose (w := (qeval (wron NC DC) (2 # 5) / (qeval DC (2 # 5) * qeval DC (2 # 5)))%Q).
  pose (r := (qeval NC (2 # 5) / qeval DC (2 # 5))%Q).
  assert (E1 : peval (wron NC DC) (2 / 5) / (peval DC (2 / 5) * peval DC (2 / 5)) = Q2R w).
  { unfold w. rewrite Q2R_div, Q2R_mult by (vm_compute; discriminate). rewrite !qeval_sound. reflexivity. }
  assert (E2 : rat NC DC (2 / 5) = Q2R r).
  { unfold r, rat. rewrite Q2R_div by (vm_compute; discriminate). rewrite !qeval_sound. reflexivity. }
  pose (u := (4 - r * r)%Q).
  assert (E3 : (8 / 5 + 2 / 5) * (8 / 5 + 2 / 5) - rat NC DC (2 / 5) * rat NC DC (2 / 5) = Q2R u).
  { unfold u. rewrite Q2R_minus, Q2R_mult, E2. f_equal. unfold Q2R; cbn; field. }
  assert (Hu : Q2R (18162635243375178 # 10000000000000000) <= Q2R u <= Q2R (18162635243375179 # 10000000000000000)) by (split; qle).
  rewrite !Q2R_frac in Hu. pose proof (exp_q_bounds (Q2R u) _ _ _ 100000000000000000000 _ _ _ _ _ _ _ _ Hu eq_refl eq_refl exp_chk_mid) as He.
  assert (Hw : Q2R (11530329052679635 # 10000000000000000) <= Q2R w <= Q2R (11530329052679636 # 10000000000000000)) by (split; qle).
  rewrite (ft_near NC DC (8 / 5) kap (2 / 5) _ _ _ _ E1 E3 He). rewrite !Q2R_frac in *.
  pose proof kap_bounds as Hk. pose proof sqrt_PI_bounds as Hp.
  pose proof (prod_bounds _ _ _ _ _ _ He Hw ltac:(lra) ltac:(lra)) as H1.
  pose proof (prod_bounds _ _ _ _ _ _ Hp Hk ltac:(lra) ltac:(lra)) as H2.
  set (n := exp (Q2R u) * Q2R w) in *. set (m := sqrt PI * kap) in *. clearbody n m. 
  apply quot_near; [lra|]. apply Rabs_le. lra.
Qed.
Lemma ft_far : Rabs (ft NE DE 5 kap 0 - 1) <= / 1000000000000.
Proof.
  assert (Z0 : Q2R 0 = 0) by (unfold Q2R; cbn; lra).
  pose (w := (qeval (wron NE DE) 0 / (qeval DE 0 * qeval DE 0))%Q).
  pose (r := (qeval NE 0 / qeval DE 0)%Q).
  assert (E1 : peval (wron NE DE) 0 / (peval DE 0 * peval DE 0) = Q2R w).
  { unfold w. rewrite Q2R_div, Q2R_mult by (vm_compute; discriminate). rewrite !qeval_sound, Z0. reflexivity. }
  assert (E2 : rat NE DE 0 = Q2R r).
  { unfold r, rat. rewrite Q2R_div by (vm_compute; discriminate). rewrite !qeval_sound, Z0. reflexivity. }
  pose (u := (25 - r * r)%Q).
  assert (E3 : (5 + 0) * (5 + 0) - rat NE DE 0 * rat NE DE 0 = Q2R u).
  { unfold u. rewrite Q2R_minus, Q2R_mult, E2. f_equal. unfold Q2R; cbn; field. }
  assert (Hu : Q2R (28361528790232201 # 10000000000000000) <= Q2R u <= Q2R (28361528790232202 # 10000000000000000)) by (split; qle).
  rewrite !Q2R_frac in Hu. pose proof (exp_q_bounds (Q2R u) _ _ _ 100000000000000000000 _ _ _ _ _ _ _ _ Hu eq_refl eq_refl exp_chk_far) as He.
  assert (Hw : Q2R (10395595947667063 # 10000000000000000) <= Q2R w <= Q2R (10395595947667064 # 10000000000000000)) by (split; qle).
  rewrite (ft_near NE DE 5 kap 0 _ _ _ _ E1 E3 He). rewrite !Q2R_frac in *.
  pose proof kap_bounds as Hk. pose proof sqrt_PI_bounds as Hp.
  pose proof (prod_bounds _ _ _ _ _ _ He Hw ltac:(lra) ltac:(lra)) as H1.
  pose proof (prod_bounds _ _ _ _ _ _ Hp Hk ltac:(lra) ltac:(lra)) as H2.
  set (n := exp (Q2R u) * Q2R w) in *. set (m := sqrt PI * kap) in *. clearbody n m. 
  apply quot_near; [lra|]. apply Rabs_le. lra.
Qed.

Lemma kap_pos : 0 < kap. Proof. apply exp_pos. Qed.

(** 1 - x on the tails, as a function of rho *)
Definition comp (rho : R) : R := kap * exp (- (rho * rho)).

Lemma mid_incr s t : 0 <= s -> s <= t -> t <= 17 / 5 ->
  Rabs (Erf (rat NC DC t) - Erf (rat NC DC s) - (comp (8 / 5 + s) - comp (8 / 5 + t))) <= / 10000000000 * (comp (8 / 5 + s) - comp (8 / 5 + t)).
Proof.
  apply (tail_sound NC DC WC LNC LDC TNC TDC 8 5 (10 ^ 11) 17 5 (8 / 5) kap (2 / 5) (/ 1000000000000) (/ 10000000000)
    eq_refl eq_refl eq_refl eq_refl eq_refl eq_refl ltac:(discriminate) WC_eq LNC_eq LDC_eq TNC_eq TDC_eq cert_mid eq_refl kap_pos); try lra.
  - exact ft_mid.
Qed.
Lemma far_incr s t : 0 <= s -> s <= t -> t <= 22 ->
  Rabs (Erf (rat NE DE t) - Erf (rat NE DE s) - (comp (5 + s) - comp (5 + t))) <= / 2000000000 * (comp (5 + s) - comp (5 + t)).
Proof.
  intros H1 H2 H3. apply (tail_sound NE DE WE LNE LDE TNE TDE 5 1 (10 ^ 11) 22 1 5 kap 0 (/ 1000000000000) (/ 2000000000)
    eq_refl eq_refl eq_refl eq_refl eq_refl eq_refl ltac:(discriminate) WE_eq LNE_eq LDE_eq TNE_eq TDE_eq cert_far); try lra; try apply kap_pos.
  - exact ft_far.
Qed.

(** *** The far tail *)
Lemma comp_pos r : 0 < comp r.
Proof. apply Rmult_lt_0_compat; [apply kap_pos|apply exp_pos]. Qed.
Lemma comp_decr r s : 0 <= r <= s -> comp s <= comp r.
Proof. intros H. apply Rmult_le_compat_l; [left; apply kap_pos|]. apply exp_mono. nra. Qed.

Lemma rat_bound A B s lo : 0 < peval B s -> 0 <= peval (psub A (pscale lo B)) s -> IZR lo <= rat A B s.
Proof.
  intros HB H. rewrite peval_sub, peval_scale in H. unfold rat. apply Rmult_le_reg_r with (peval B s); [exact HB|].
  unfold Rdiv. rewrite Rmult_assoc, Rinv_l, Rmult_1_r by lra. lra.
Qed.
Lemma DE_pos s : 0 <= s -> 0 < peval DE s.
Proof.
  intros H. pose proof (den_e_pos s H) as P. rewrite den_e_poly in P.
  replace (peval DE s) with (peval DE s / IZR (10 ^ 39) * IZR (10 ^ 39)) by (field; apply not_0_IZR; vm_compute; discriminate).
  apply Rmult_lt_0_compat; [exact P|apply IZR_lt; reflexivity].
Qed.
(** 3 exp (-676) is negligible with respect to exp (-625) *)
Lemma exp_m51 : exp (- 51) <= / 1000000000000000000000.
Proof.
  assert (H : 27 / 10 <= exp 1).
  { pose proof (exp_lower 5 1 ltac:(lra)) as H. cbn in H. lra. }
  assert (E : exp 51 = exp 1 ^ 51). { rewrite <- Rpower_pow by apply exp_pos. unfold Rpower. rewrite ln_exp. f_equal. rewrite Rmult_1_r. rewrite INR_IZR_INZ. reflexivity. }
  assert (G : 1000000000000000000000 <= exp 51).
  { rewrite E. apply Rle_trans with ((27 / 10) ^ 51); [lra|]. apply pow_incr. lra. }
  replace (- 51) with (- (51)) by lra. rewrite exp_Ropp. apply Rinv_le_contravar; lra.
Qed.
Lemma Erf_mono x y : x <= y -> Erf x <= Erf y.
Proof. intros [H| ->]; [left; now apply Erf_incr|lra]. Qed.

Lemma far_acc s : 0 <= s <= 20 -> Rabs (1 - Erf (rat NE DE s) - comp (5 + s)) <= / 1900000000 * comp (5 + s).
Proof.
  intros Hs. pose proof (far_incr s 22 ltac:(lra) ltac:(lra) ltac:(lra)) as H.
  assert (H27 : 26 <= rat NE DE 22).
  { apply rat_bound; [apply DE_pos; lra|]. replace 22 with (Q2R 22) by (unfold Q2R; cbn; lra). rewrite <- qeval_sound.
    replace 0 with (Q2R 0) at 1 by (unfold Q2R; cbn; lra). qle. }
  assert (Ht : 0 < 1 - Erf (rat NE DE 22) <= exp (- 676)).
  { destruct (Erf_tail (rat NE DE 22) ltac:(lra)) as [T1 T2]. split; [exact T1|]. eapply Rle_trans; [exact T2|]. apply exp_mono. nra. }
  assert (Hk : comp (5 + 22) <= 3 * exp (- 676)).
  { unfold comp. pose proof kap_bounds. pose proof (exp_pos (- ((5 + 22) * (5 + 22)))). pose proof (exp_mono (- ((5 + 22) * (5 + 22))) (- 676) ltac:(lra)). nra. }
  pose proof (comp_pos (5 + 22)) as Hk0.
  assert (Hx : exp (- 676) <= / 1000000000000000000000 * comp (5 + s)).
  { apply Rle_trans with (/ 1000000000000000000000 * (1 * exp (- 625))).
    - rewrite Rmult_1_l. replace (- 676) with (- 51 + - 625) by ring. rewrite exp_plus. apply Rmult_le_compat_r; [left; apply exp_pos|exact exp_m51].
    - apply Rmult_le_compat_l; [lra|]. unfold comp. pose proof kap_bounds. apply Rmult_le_compat; [lra|left; apply exp_pos|lra|]. apply exp_mono. nra. }
  pose proof (comp_pos (5 + s)). apply Rabs_le_between in H. apply Rabs_le. lra.
Qed.

(** *** The middle *)
Lemma join : Rabs (Erf (rat NC DC (17 / 5)) - Erf (rat NE DE 0)) <= / 10000000000000 * comp 5.
Proof.
  assert (Z0 : Q2R 0 = 0) by (unfold Q2R; cbn; lra).
  pose (rc := (qeval NC (17 # 5) / qeval DC (17 # 5))%Q). pose (re := (qeval NE 0 / qeval DE 0)%Q).
  assert (E1 : rat NC DC (17 / 5) = Q2R rc).
  { unfold rc, rat. rewrite Q2R_div by (vm_compute; discriminate). rewrite !qeval_sound. reflexivity. }
  assert (E2 : rat NE DE 0 = Q2R re).
  { unfold re, rat. rewrite Q2R_div by (vm_compute; discriminate). rewrite !qeval_sound, Z0. reflexivity. }
  rewrite E1, E2.
  assert (H1 : Q2R (47 # 10) <= Q2R rc) by qle.
  assert (H2 : Q2R (rc + (1 # 10000000000000000)) <= Q2R re) by qle.
  assert (H3 : Q2R re <= Q2R (rc + (1 # 1000000000000000))) by qle.
  rewrite Q2R_plus, ?Q2R_frac in *. set (x := Q2R rc) in *. set (y := Q2R re) in *. clearbody x y.
  destruct (Erf_mvt x y ltac:(lra)) as (c & Hc & E).
  rewrite Rabs_minus_sym, E. unfold comp.
  assert (Hb : exp (- (c * c)) <= 21 * exp (- (5 * 5))).
  { apply Rle_trans with (exp (3 + - (5 * 5))).
    - apply exp_mono. nra.
    - rewrite exp_plus. apply Rmult_le_compat_r; [left; apply exp_pos|].
      assert (Hx : 3 / 1 <= 3 <= 3 / 1) by lra.
      pose proof (exp_q_bounds 3 _ _ _ 100000000000000000000 _ _ _ _ _ _ _ _ Hx eq_refl eq_refl exp_chk_3) as [_ H]. lra. }
  pose proof sqrt_PI_bounds as Hp. pose proof kap_bounds as Hk. pose proof (exp_pos (- (c * c))) as Hec. pose proof (exp_pos (- (5 * 5))) as He5.
  assert (Hq : 0 < 2 / sqrt PI <= 2).
  { split; [apply Rdiv_lt_0_compat; lra|]. apply Rmult_le_reg_r with (sqrt PI); [lra|]. unfold Rdiv. rewrite Rmult_assoc, Rinv_l by lra. lra. }
  rewrite Rabs_right.
  - apply Rle_trans with (2 * (21 * exp (- (5 * 5))) * (/ 1000000000000000)).
    + apply Rmult_le_compat; [apply Rmult_le_pos; lra|lra| |lra]. apply Rmult_le_compat; lra.
    + nra.
  - apply Rle_ge, Rmult_le_pos; [apply Rmult_le_pos; lra|lra].
Qed.
