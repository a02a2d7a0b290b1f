(** The three branches of erfinv as quotients of integer polynomials, and the certificates. *)
From Verif Require Import Base Arith64 RFacts MRandom MDist PErfinv.
From Coq Require Import ZArith List Bool Lia QArith Qreals.
From Coq Require Import Reals Lra Psatz.
From Coquelicot Require Import Coquelicot.
From Verif Require Import SGauss PGauss PPoly PErfAcc PErfNum.
Local Open Scope R_scope.

(** ** Soundness of the certificates *)
(** Center: Erf (cen) agrees with the identity. *)
Lemma center_sound P Q (W N D : list Z) (e : Z) d0 dd : (0 < e)%Z -> forallb (Z.ltb 0) Q = true -> Q <> nil ->
  cw P Q = W -> ccn P Q W = N -> ccd Q W = D -> dom_cert e N D 289 1600 = true ->
  Rabs (fcen P Q 0 - 1) <= d0 -> 0 <= d0 -> 0 <= dd < 1 -> d0 + 2 * (/ IZR e * (17 / 20 - 0)) <= dd - d0 * dd ->
  forall x, 0 <= x <= 17 / 20 -> Rabs (Erf (cen P Q x) - x) <= dd * x.
Proof.
  intros He HQ HQ0 EW EN ED Hc H0 Hd0 Hdd Hbd x Hx.
  assert (Hr : forall y, 0 <= y <= 17 / 20 -> 0 <= rr y <= 289 / 1600) by (intros y Hy; unfold rr; nra).
  assert (HQp : forall y, 0 <= y <= 17 / 20 -> 0 < peval Q (rr y)).
  { intros y Hy. apply peval_pos_coeffs; auto. now apply Hr. }
  assert (Hp : forall y, 0 <= y <= 17 / 20 -> 0 < peval (cw P Q) (rr y) /\ Rabs (lcen P Q y) <= / IZR e).
  { intros y Hy. destruct (dom_cert_sound e N D 289 1600 (rr y) He eq_refl eq_refl Hc (Hr y Hy)) as [C1 C2].
    apply lcen_bound; auto; try lra; rewrite EW, ?EN, ?ED; auto. }
  assert (Hf : forall y, 0 <= y <= 17 / 20 -> 0 < fcen P Q y).
  { intros y Hy. destruct (Hp y Hy) as [HW _]. pose proof (HQp y Hy). unfold fcen. pose proof sqrt_PI_pos.
    repeat apply Rmult_lt_0_compat; try lra; [now apply Rinv_0_lt_compat|apply exp_pos|apply Rinv_0_lt_compat; repeat apply Rmult_lt_0_compat; lra]. }
  assert (Hn : forall y, 0 <= y <= 17 / 20 -> Rabs (fcen P Q y - 1) <= dd).
  { apply (near_one (fcen P Q) (lcen P Q) 0 (17 / 20) (/ IZR e) 0 d0 dd); auto; try lra.
    - intros y Hy. destruct (Hp y Hy). pose proof (HQp y Hy). apply fcen_derive; lra.
    - intros y Hy. apply (Hp y Hy). }
  assert (E0 : Erf (cen P Q 0) = 0). { unfold cen, Rdiv. rewrite !Rmult_0_l. apply Erf_0. }
  pose proof (compare_increments (fun y => Erf (cen P Q y)) (fun y => y) (fcen P Q) (fun _ => 1) 0 x dd ltac:(lra)) as C.
  cbv beta in C. rewrite E0, !Rminus_0_r in C. apply C.
  - intros y _. exact (is_derive_id y).
  - intros y Hy. pose proof (HQp y ltac:(lra)). evar_last; [apply erf_cen_derive; lra|ring].
  - intros; lra.
  - intros y Hy. apply Hn. lra.
Qed.

(** Tails: Erf (A/B) agrees with 1 - k exp (-rho^2), rho = o + s. *)
Lemma tail_sound A B (W N D N' D' : list Z) (on od e b d : Z) o k c d0 dd : (0 < b)%Z -> (0 < d)%Z -> (0 < e)%Z -> (0 < on)%Z -> (0 < od)%Z ->
  forallb (Z.ltb 0) B = true -> B <> nil ->
  wron A B = W -> lcn A B W = N -> lcd B W = D -> ltn on od N D = N' -> ltd on od D = D' -> dom_cert e N' D' b d = true ->
  o = IZR on / IZR od -> 0 < k -> 0 <= c <= IZR b / IZR d ->
  Rabs (ft A B o k c - 1) <= d0 -> 0 <= d0 -> 0 <= dd < 1 -> d0 + 2 * (/ IZR e * (IZR b / IZR d - 0)) <= dd - d0 * dd ->
  forall s t, 0 <= s -> s <= t -> t <= IZR b / IZR d ->
  Rabs (Erf (rat A B t) - Erf (rat A B s) - (k * exp (- ((o + s) * (o + s))) - k * exp (- ((o + t) * (o + t)))))
   <= dd * (k * exp (- ((o + s) * (o + s))) - k * exp (- ((o + t) * (o + t)))).
Proof.
  intros Hb Hd He Hon Hod HB0 HBn EW EN ED EN' ED' Hcert Eo Hk Hc H0 Hd0 Hdd Hbd s t Hs Hst Ht.
  assert (Ho : 0 < o). { rewrite Eo. apply Rdiv_lt_0_compat; now apply IZR_lt. }
  assert (HB : forall y, 0 <= y -> 0 < peval B y) by (intros y Hy; now apply peval_pos_coeffs).
  assert (Hp : forall y, 0 <= y <= IZR b / IZR d -> 0 < peval (wron A B) y /\ Rabs (lt_ A B o y) <= / IZR e).
  { intros y Hy. destruct (dom_cert_sound e N' D' b d y He Hb Hd Hcert Hy) as [C1 C2].
    apply (lt_bound A B o on od); auto; try lra; try (apply HB; lra); rewrite EW, ?EN, ED, ?EN', ED'; auto. }
  assert (Hf : forall y, 0 <= y <= IZR b / IZR d -> 0 < ft A B o k y).
  { intros y Hy. destruct (Hp y Hy). pose proof (HB y ltac:(lra)). unfold ft. pose proof sqrt_PI_pos.
    repeat apply Rmult_lt_0_compat; try lra; [apply Rinv_0_lt_compat; now apply Rmult_lt_0_compat|apply exp_pos|apply Rinv_0_lt_compat; now apply Rmult_lt_0_compat|apply Rinv_0_lt_compat; lra]. }
  assert (Hn : forall y, 0 <= y <= IZR b / IZR d -> Rabs (ft A B o k y - 1) <= dd).
  { apply (near_one (ft A B o k) (lt_ A B o) 0 (IZR b / IZR d) (/ IZR e) c d0 dd); auto; try lra.
    - intros y Hy. destruct (Hp y Hy). pose proof (HB y ltac:(lra)). apply ft_derive; lra.
    - intros y Hy. apply (Hp y Hy). }
  pose proof (compare_increments (fun y => Erf (rat A B y)) (fun y => 1 - k * exp (- ((o + y) * (o + y)))) (ft A B o k) (dx o k) s t dd Hst) as C.
  cbv beta in C.
  replace (1 - k * exp (- ((o + t) * (o + t))) - (1 - k * exp (- ((o + s) * (o + s))))) with (k * exp (- ((o + s) * (o + s))) - k * exp (- ((o + t) * (o + t)))) in C by ring.
  apply C.
  - intros y _. apply x_derive.
  - intros y Hy. pose proof (HB y ltac:(lra)). apply erf_rat_derive_t; lra.
  - intros y Hy. unfold dx. left. repeat apply Rmult_lt_0_compat; try lra. apply exp_pos.
  - intros y Hy. apply Hn. lra.
Qed.

(** ** The coefficients *)
Definition lits (K : N) (l : list (Z * N)) : list Z := map (fun pk => (fst pk * 10 ^ Z.of_N (K - snd pk))%Z) l.
Lemma lit10_common p k K : (k <= K)%N -> lit10 (a:=RA) p k = IZR (p * 10 ^ Z.of_N (K - k)) / IZR (10 ^ Z.of_N K).
Proof.
  intros H. destruct (Z.pow 10 (Z.of_N k)) as [|q|q] eqn:E.
  - pose proof (Z.pow_pos_nonneg 10 (Z.of_N k)). lia.
  - rewrite (lit10_val p k q E). replace (Z.of_N K) with (Z.of_N (K - k) + Z.of_N k)%Z by lia.
    rewrite Z.pow_add_r, E, !mult_IZR by lia. match goal with |- ?u = ?w => change (@eq R u w) end. field. split; apply not_0_IZR; [lia|].
    pose proof (Z.pow_pos_nonneg 10 (Z.of_N (K - k))). lia.
  - pose proof (Z.pow_pos_nonneg 10 (Z.of_N k)). lia.
Qed.
Lemma horner8_common D c7 c6 c5 c4 c3 c2 c1 c0 r : D <> 0 ->
  horner8 (a:=RA) (IZR c7 / D) (IZR c6 / D) (IZR c5 / D) (IZR c4 / D) (IZR c3 / D) (IZR c2 / D) (IZR c1 / D) (IZR c0 / D) r
  = peval (c0 :: c1 :: c2 :: c3 :: c4 :: c5 :: c6 :: c7 :: nil) r / D.
Proof. intros H. unfold horner8. cbn. match goal with |- ?u = ?w => change (@eq R u w) end. field. exact H. Qed.

Definition NA := Eval vm_compute in lits 22
  ((11975323115670912564578, 22%N) :: (47072688112383978012285, 21%N) :: (69706266534389598238465, 20%N) :: (48548868893843886794648, 19%N)
   :: (16235862515167575384252, 18%N) :: (23782041382114385731252, 18%N) :: (11819493347062294404278, 18%N) :: (88709406962545514830200, 20%N) :: nil)%Z.
Definition DA := Eval vm_compute in lits 22
  ((10000000000000000000, 19%N) :: (42313330701600911252, 18%N) :: (68718700749205790830, 17%N) :: (53941960214247511077, 16%N)
   :: (21213794301586595867, 15%N) :: (39307895800092710610, 15%N) :: (28729085735721942674, 15%N) :: (52264952788528545610, 16%N) :: nil)%Z.
Definition NC := Eval vm_compute in lits 34
  ((142343711074968357734, 20%N) :: (463033784615654529590, 20%N) :: (576949722146069140550, 20%N) :: (364784832476320460504, 20%N)
   :: (127045825245236838258, 20%N) :: (241780725177450611770, 21%N) :: (227238449892691845833, 22%N) :: (774545014278341407640, 24%N) :: nil)%Z.
Definition DC := Eval vm_compute in lits 34
  ((14142135623730950488016887, 25%N) :: (29036514445419946173133295, 25%N) :: (23707661626024532365971225, 25%N) :: (97547832001787427186894837, 26%N)
   :: (20945065210512749128288442, 26%N) :: (21494160384252876777097297, 27%N) :: (77441459065157709165577218, 29%N) :: (14859850019840355905497876, 34%N) :: nil)%Z.
Definition NE := Eval vm_compute in lits 39
  ((665790464350110377720, 20%N) :: (546378491116411436990, 20%N) :: (178482653991729133580, 20%N) :: (296560571828504891230, 21%N)
   :: (265321895265761230930, 22%N) :: (124266094738807843860, 23%N) :: (271155556874348757815, 25%N) :: (201033439929228813265, 27%N) :: nil)%Z.
Definition DE := Eval vm_compute in lits 39
  ((1414213562373095048801689, 24%N) :: (8482908416595164588112026, 25%N) :: (1936480946950659106176712, 25%N) :: (2103693768272068968719679, 26%N)
   :: (1112800997078859844711555, 27%N) :: (2611088405080593625138020, 29%N) :: (2010321207683943062279931, 31%N) :: (2891024605872965461538222, 39%N) :: nil)%Z.

Ltac coeffs K :=
  intros; rewrite !(lit10_common _ _ K) by (vm_compute; discriminate);
  rewrite horner8_common by (apply not_0_IZR; vm_compute; discriminate);
  f_equal; reflexivity.
Lemma num_a_poly r : erfinv_num_a (a:=RA) r = peval NA r / IZR (10 ^ 22). Proof. unfold erfinv_num_a. coeffs 22%N. Qed.
Lemma den_a_poly r : erfinv_den_a (a:=RA) r = peval DA r / IZR (10 ^ 22). Proof. unfold erfinv_den_a. coeffs 22%N. Qed.
Lemma num_c_poly r : erfinv_num_c (a:=RA) r = peval NC r / IZR (10 ^ 34). Proof. unfold erfinv_num_c. coeffs 34%N. Qed.
Lemma den_c_poly r : erfinv_den_c (a:=RA) r = peval DC r / IZR (10 ^ 34). Proof. unfold erfinv_den_c. coeffs 34%N. Qed.
Lemma num_e_poly r : erfinv_num_e (a:=RA) r = peval NE r / IZR (10 ^ 39). Proof. unfold erfinv_num_e. coeffs 39%N. Qed.
Lemma den_e_poly r : erfinv_den_e (a:=RA) r = peval DE r / IZR (10 ^ 39). Proof. unfold erfinv_den_e. coeffs 39%N. Qed.

(** ** The certificates, with every intermediate polynomial *)
Definition WA := Eval vm_compute in cw NA DA.
Definition CNA := Eval vm_compute in ccn NA DA WA.
Definition CDA := Eval vm_compute in ccd DA WA.
Lemma WA_eq : cw NA DA = WA. Proof. vm_compute. reflexivity. Qed.
Lemma CNA_eq : ccn NA DA WA = CNA. Proof. vm_compute. reflexivity. Qed.
Lemma CDA_eq : ccd DA WA = CDA. Proof. vm_compute. reflexivity. Qed.
Lemma cert_center : dom_cert 12500000000 CNA CDA 289 1600 = true. Proof. vm_compute. reflexivity. Qed.

Definition WC := Eval vm_compute in wron NC DC.
Definition LNC := Eval vm_compute in lcn NC DC WC.
Definition LDC := Eval vm_compute in lcd DC WC.
Definition TNC := Eval vm_compute in ltn 8 5 LNC LDC.
Definition TDC := Eval vm_compute in ltd 8 5 LDC.
Lemma WC_eq : wron NC DC = WC. Proof. vm_compute. reflexivity. Qed.
Lemma LNC_eq : lcn NC DC WC = LNC. Proof. vm_compute. reflexivity. Qed.
Lemma LDC_eq : lcd DC WC = LDC. Proof. vm_compute. reflexivity. Qed.
Lemma TNC_eq : ltn 8 5 LNC LDC = TNC. Proof. vm_compute. reflexivity. Qed.
Lemma TDC_eq : ltd 8 5 LDC = TDC. Proof. vm_compute. reflexivity. Qed.
Lemma cert_mid : dom_cert (10 ^ 11) TNC TDC 17 5 = true. Proof. vm_compute. reflexivity. Qed.

Definition WE := Eval vm_compute in wron NE DE.
Definition LNE := Eval vm_compute in lcn NE DE WE.
Definition LDE := Eval vm_compute in lcd DE WE.
Definition TNE := Eval vm_compute in ltn 5 1 LNE LDE.
Definition TDE := Eval vm_compute in ltd 5 1 LDE.
Lemma WE_eq : wron NE DE = WE. Proof. vm_compute. reflexivity. Qed.
Lemma LNE_eq : lcn NE DE WE = LNE. Proof. vm_compute. reflexivity. Qed.
Lemma LDE_eq : lcd DE WE = LDE. Proof. vm_compute. reflexivity. Qed.
Lemma TNE_eq : ltn 5 1 LNE LDE = TNE. Proof. vm_compute. reflexivity. Qed.
Lemma TDE_eq : ltd 5 1 LDE = TDE. Proof. vm_compute. reflexivity. Qed.
Lemma cert_far : dom_cert (10 ^ 11) TNE TDE 22 1 = true. Proof. vm_compute. reflexivity. Qed.
