(** Proofs: the probability that independent keys u_i^(1/w_i) come in a given order. *)
From Verif Require Import Base BaseFacts SProb PProb.
From Coq Require Import Permutation Reals Lra.
From Coquelicot Require Import Coquelicot.
Local Open Scope R_scope.

(** ** Powers with non-negative exponents on [0, oo), with x^0 = 1 *)
Definition mon (p x : R) : R := if Req_EM_T p 0 then 1 else pw p x.
Lemma mon_0 x : mon 0 x = 1.
Proof. unfold mon. destruct (Req_EM_T 0 0); [reflexivity|lra]. Qed.
Lemma mon_pos p x : 0 < x -> mon p x = Rpower x p.
Proof.
  intros Hx. unfold mon, pw. destruct (Req_EM_T p 0) as [->|]; [unfold Rpower; now rewrite Rmult_0_l, exp_0|].
  destruct (Rle_dec x 0); [lra|reflexivity].
Qed.
Lemma mon_at0 p : 0 < p -> mon p 0 = 0.
Proof. intros H. unfold mon, pw. destruct (Req_EM_T p 0); [lra|]. destruct (Rle_dec 0 0); [reflexivity|lra]. Qed.
Lemma mon_1 p : mon p 1 = 1.
Proof. rewrite mon_pos by lra. apply rpower_one. Qed.
Lemma mon_ge0 p x : 0 <= mon p x.
Proof. unfold mon, pw. destruct (Req_EM_T p 0); [lra|]. destruct (Rle_dec x 0); [lra|]. left. apply exp_pos. Qed.
Lemma mon_plus p q x : 0 <= p -> 0 <= q -> 0 <= x -> mon p x * mon q x = mon (p + q) x.
Proof.
  intros Hp Hq [Hx| <-].
  - rewrite !mon_pos by auto. now rewrite Rpower_plus.
  - destruct Hp as [Hp| <-]; [|rewrite mon_0, Rplus_0_l; ring]. rewrite (mon_at0 p), (mon_at0 (p + q)) by lra. ring.
Qed.
Lemma mon_comp p q x : 0 <= p -> 0 < q -> 0 <= x -> mon p (mon q x) = mon (q * p) x.
Proof.
  intros Hp Hq [Hx| <-].
  - rewrite (mon_pos q), (mon_pos (q * p)) by auto. rewrite mon_pos by apply exp_pos. apply Rpower_mult.
  - rewrite (mon_at0 q) by auto. destruct Hp as [Hp| <-]; [|now rewrite Rmult_0_r, !mon_0]. rewrite !mon_at0; auto. now apply Rmult_lt_0_compat.
Qed.
Lemma mon_lt p x y : 0 < p -> 0 <= x -> x < y -> mon p x < mon p y.
Proof.
  intros Hp [Hx| <-] Hy.
  - rewrite !mon_pos by lra. apply Rlt_Rpower_l; lra.
  - rewrite (mon_at0 p) by auto. rewrite mon_pos by lra. apply exp_pos.
Qed.
Lemma mon_le p x y : 0 < p -> 0 <= x -> x <= y -> mon p x <= mon p y.
Proof. intros Hp Hx [H| ->]; [left; now apply mon_lt|lra]. Qed.

Lemma int_mon p a b : 0 <= p -> 0 <= a -> a <= b -> is_RInt (mon p) a b ((mon (p + 1) b - mon (p + 1) a) / (p + 1)).
Proof.
  intros [Hp| <-] Ha Hb.
  - apply (is_RInt_ext (pw p)).
    + intros x _. unfold mon. destruct (Req_EM_T p 0); [lra|reflexivity].
    + replace ((mon (p + 1) b - mon (p + 1) a) / (p + 1)) with (minus (pw (p + 1) b / (p + 1)) (pw (p + 1) a / (p + 1))).
      * apply (is_RInt_derive (fun u => pw (p + 1) u / (p + 1)) (pw p)); intros x _; [now apply pw_derive|].
        apply continuity_pt_filterlim. now apply pw_continuous.
      * unfold minus, plus, opp, mon. cbn. destruct (Req_EM_T (p + 1) 0); [lra|]. field. lra.
  - apply (is_RInt_ext (fun _ => 1)).
    + intros x _. symmetry. apply mon_0.
    + rewrite Rplus_0_l. assert (E : forall x, 0 <= x -> mon 1 x = x).
      { intros x [Hx| <-]; [rewrite mon_pos by auto; now apply Rpower_1|apply mon_at0; lra]. }
      rewrite !E by lra. pose proof (is_RInt_const a b 1) as H. unfold scal in H. cbn in H. unfold mult in H. cbn in H.
      replace ((b - a) / 1) with ((b - a) * 1) by field. exact H.
Qed.

(** ** Sums of monomials c * a^p * b^q *)
Definition term : Type := (R * R * R)%type.
Definition evt (t : term) (a b : R) : R := let '(c, p, q) := t in c * mon p a * mon q b.
Fixpoint ev (l : list term) (a b : R) : R := match l with [] => 0 | t :: l' => evt t a b + ev l' a b end.
Definition okt (t : term) : Prop := let '(c, p, q) := t in 0 <= p /\ 0 <= q.
Definition integ (wi : R) (l : list term) : list term :=
  flat_map (fun t => let '(c, p, q) := t in
    (c * wi / (q + wi), p, q + wi) :: (- (c * wi / (q + wi)), p + q + wi, 0) :: nil) l.
Definition mid (wm : R) (l1 l2 : list term) : list term :=
  flat_map (fun t1 => flat_map (fun t2 => let '(c1, p, q) := t1 in let '(c2, r, s) := t2 in
    (c1 * c2 * wm / (p + s + wm), r, q + (p + s + wm)) ::
    (- (c1 * c2 * wm / (p + s + wm)), r + (p + s + wm), q) :: nil) l2) l1.

Ltac rring := match goal with |- ?x = ?y => change (@eq R x y) end; ring.
Ltac okl := repeat (apply List.Forall_cons; [split; lra|]); apply List.Forall_nil.
Lemma ev_app l1 l2 a b : ev (l1 ++ l2) a b = ev l1 a b + ev l2 a b.
Proof. induction l1 as [|t l IH]; cbn; [ring|]. rewrite IH. ring. Qed.
Lemma ok_integ wi l : 0 < wi -> List.Forall okt l -> List.Forall okt (integ wi l).
Proof.
  intros Hw H. unfold integ. apply Forall_flat_map. eapply Forall_impl; [|exact H]. intros [[c p] q] [H1 H2]. okl.
Qed.
Lemma ok_mid wm l1 l2 : 0 < wm -> List.Forall okt l1 -> List.Forall okt l2 -> List.Forall okt (mid wm l1 l2).
Proof.
  intros Hw H1 H2. unfold mid. apply Forall_flat_map. eapply Forall_impl; [|exact H1]. intros [[c p] q] [A1 A2].
  apply Forall_flat_map. eapply Forall_impl; [|exact H2]. intros [[c' p'] q'] [B1 B2]. okl.
Qed.

(** [integ] is the special case of [mid] with the constant 1 on the left. *)
Lemma integ_mid wi l a b : ev (integ wi l) a b = ev (mid wi ((1, 0, 0) :: nil) l) a b.
Proof.
  unfold mid. cbn [flat_map]. rewrite app_nil_r. unfold integ. induction l as [|[[c p] q] l IH]; [reflexivity|].
  cbn [flat_map]. rewrite !ev_app, IH. f_equal. cbn [ev evt]. rewrite !Rplus_0_l, Rmult_1_l. replace (p + (q + wi)) with (p + q + wi) by ring. reflexivity.
Qed.

Lemma int_sum (A : R -> R) (B : term -> R -> R) (I : term -> R) x y l : (forall t, In t l -> is_RInt (fun u => A u * B t u) x y (I t)) ->
  is_RInt (fun u => A u * fold_right (fun t s => B t u + s) 0 l) x y (fold_right (fun t s => I t + s) 0 l).
Proof.
  induction l as [|t l IH]; intros H; cbn [fold_right].
  - apply (is_RInt_ext (fun _ => 0)); [intros; symmetry; apply Rmult_0_r|]. pose proof (is_RInt_const x y 0) as K. unfold scal in K. cbn in K. unfold mult in K. cbn in K. now replace ((y - x) * 0) with 0 in K by ring.
  - apply (is_RInt_ext (fun u => plus (A u * B t u) (A u * fold_right (fun t s => B t u + s) 0 l))); [intros; symmetry; apply Rmult_plus_distr_l|].
    apply (is_RInt_plus (V:=R_NormedModule)); [apply H; now left|apply IH; intros; apply H; now right].
Qed.
Lemma ev_fold l a b : ev l a b = fold_right (fun t s => evt t a b + s) 0 l.
Proof. induction l as [|t l IH]; cbn; [reflexivity|now rewrite IH]. Qed.

Lemma int_terms wm t1 t2 a b : 0 < wm -> okt t1 -> okt t2 -> 0 <= a -> a <= b ->
  is_RInt (fun u => evt t1 (mon (1 / wm) u) b * evt t2 a (mon (1 / wm) u)) (mon wm a) (mon wm b) (ev (mid wm (t1 :: nil) (t2 :: nil)) a b).
Proof.
  intros Hw. destruct t1 as [[c1 p] q], t2 as [[c2 r] s]. intros [P1 P2] [P3 P4] Ha Hb. cbn [mid flat_map app ev evt].
  assert (Hp : 0 <= (p + s) / wm) by (apply Rmult_le_pos; [lra|left; now apply Rinv_0_lt_compat]).
  apply (is_RInt_ext (fun u => scal (c1 * mon q b * c2 * mon r a) (mon ((p + s) / wm) u))).
  - intros u Hu. rewrite Rmin_left, Rmax_right in Hu by (apply mon_le; auto; lra). assert (Hu0 : 0 < u) by (pose proof (mon_ge0 wm a); lra).
    assert (H1 : 0 < 1 / wm) by (apply Rdiv_lt_0_compat; lra).
    replace (mon ((p + s) / wm) u) with (mon p (mon (1 / wm) u) * mon s (mon (1 / wm) u)).
    + unfold scal. cbn. unfold mult. cbn. ring.
    + rewrite mon_plus by (auto; apply mon_ge0). rewrite mon_comp by lra. f_equal. field. lra.
  - pose proof (int_mon ((p + s) / wm) (mon wm a) (mon wm b) Hp (mon_ge0 _ _) (mon_le wm a b Hw Ha Hb)) as HI.
    pose proof (is_RInt_scal (V:=R_NormedModule) _ _ _ (c1 * mon q b * c2 * mon r a) _ HI) as HS.
    match type of HS with is_RInt _ _ _ ?v => replace (c1 * c2 * wm / (p + s + wm) * mon r a * mon (q + (p + s + wm)) b + (- (c1 * c2 * wm / (p + s + wm)) * mon (r + (p + s + wm)) a * mon q b + 0)) with v; [exact HS|] end.
    rewrite <- (mon_plus q (p + s + wm) b), <- (mon_plus r (p + s + wm) a) by lra.
    assert (E : forall x, 0 <= x -> mon ((p + s) / wm + 1) (mon wm x) = mon (p + s + wm) x).
    { intros x Hx. rewrite mon_comp by lra. f_equal. field. lra. }
    rewrite !E by lra. unfold scal. cbn. unfold mult. cbn. replace ((p + s) / wm + 1) with ((p + s + wm) / wm) by (field; lra). field. split; lra.
Qed.
Lemma ev_flat (f : term -> list term) l a b : ev (flat_map f l) a b = fold_right (fun t s => ev (f t) a b + s) 0 l.
Proof. induction l as [|t l IH]; cbn; [reflexivity|]. now rewrite ev_app, IH. Qed.

Lemma mid_spec wm l1 l2 a b : 0 < wm -> List.Forall okt l1 -> List.Forall okt l2 -> 0 <= a -> a <= b ->
  is_RInt (fun u => ev l1 (mon (1 / wm) u) b * ev l2 a (mon (1 / wm) u)) (mon wm a) (mon wm b) (ev (mid wm l1 l2) a b).
Proof.
  intros Hw H1 H2 Ha Hb. rewrite List.Forall_forall in H1, H2. unfold mid. rewrite ev_flat.
  apply (is_RInt_ext (fun u => ev l2 a (mon (1 / wm) u) * fold_right (fun t s => evt t (mon (1 / wm) u) b + s) 0 l1)).
  { intros u _. rewrite (ev_fold l1). apply Rmult_comm. }
  apply (int_sum _ (fun t u => evt t (mon (1 / wm) u) b) (fun t1 => ev (flat_map (fun t2 => let '(c1, p, q) := t1 in let '(c2, r, s) := t2 in
    (c1 * c2 * wm / (p + s + wm), r, q + (p + s + wm)) ::
    (- (c1 * c2 * wm / (p + s + wm)), r + (p + s + wm), q) :: nil) l2) a b)).
  intros t1 Ht1. rewrite ev_flat.
  apply (is_RInt_ext (fun u => evt t1 (mon (1 / wm) u) b * fold_right (fun t s => evt t a (mon (1 / wm) u) + s) 0 l2)).
  { intros u _. rewrite (ev_fold l2). apply Rmult_comm. }
  apply (int_sum _ (fun t u => evt t a (mon (1 / wm) u))). intros t2 Ht2.
  pose proof (int_terms wm t1 t2 a b Hw (H1 _ Ht1) (H2 _ Ht2) Ha Hb) as H. cbn [mid flat_map] in H. rewrite !app_nil_r in H. exact H.
Qed.
Lemma integ_spec wi l a b : 0 < wi -> List.Forall okt l -> 0 <= a -> a <= b ->
  is_RInt (fun u => ev l a (mon (1 / wi) u)) (mon wi a) (mon wi b) (ev (integ wi l) a b).
Proof.
  intros Hw H Ha Hb. rewrite integ_mid. apply (is_RInt_ext (fun u => ev ((1, 0, 0) :: nil) (mon (1 / wi) u) b * ev l a (mon (1 / wi) u))).
  - intros u _. cbn [ev evt]. rewrite !mon_0. rring.
  - apply mid_spec; auto. okl.
Qed.

(** Integrating the left factor's upper end commutes with integrating the middle variable. *)
Lemma mid_integ_terms wi wm t1 t2 a b : 0 < wi -> 0 < wm -> okt t1 -> okt t2 ->
  ev (mid wm (integ wi (t1 :: nil)) (t2 :: nil)) a b = ev (integ wi (mid wm (t1 :: nil) (t2 :: nil))) a b.
Proof.
  intros Hi Hm. destruct t1 as [[c1 p] q], t2 as [[c2 r] s]. intros [P1 P2] [P3 P4].
  cbn [integ mid flat_map app ev evt]. rewrite !Rplus_0_l.
  replace (p + q + wi + s + wm) with (p + s + wm + q + wi) by ring. set (P := p + s + wm). assert (HP : 0 < P) by (unfold P; lra). clearbody P.
  replace (q + wi + P) with (P + q + wi) by ring. replace (q + P + wi) with (P + q + wi) by ring.
  replace (r + (q + P) + wi) with (r + (P + q + wi)) by ring. replace (r + P + q + wi) with (r + (P + q + wi)) by ring.
  rewrite !mon_0. set (A := mon r a). set (B := mon (P + q + wi) b). set (C := mon (r + P) a). set (D := mon (q + wi) b). set (G := mon (r + (P + q + wi)) a).
  field. repeat split; lra.
Qed.
Lemma mid_app_l wm l1 l1' l2 a b : ev (mid wm (l1 ++ l1') l2) a b = ev (mid wm l1 l2) a b + ev (mid wm l1' l2) a b.
Proof. unfold mid. now rewrite flat_map_app, ev_app. Qed.
Lemma integ_app wi l1 l2 : integ wi (l1 ++ l2) = integ wi l1 ++ integ wi l2.
Proof. unfold integ. apply flat_map_app. Qed.
Lemma mid_cons_l wm t l1 l2 : mid wm (t :: l1) l2 = mid wm (t :: nil) l2 ++ mid wm l1 l2.
Proof. unfold mid. cbn [flat_map]. now rewrite app_nil_r. Qed.
Lemma mid_single_cons wm t1 t l2 : mid wm (t1 :: nil) (t :: l2) = mid wm (t1 :: nil) (t :: nil) ++ mid wm (t1 :: nil) l2.
Proof. unfold mid. cbn [flat_map]. now rewrite !app_nil_r. Qed.
Lemma mid_cons_r wm l1 t l2 a b : ev (mid wm l1 (t :: l2)) a b = ev (mid wm l1 (t :: nil)) a b + ev (mid wm l1 l2) a b.
Proof.
  induction l1 as [|t1 l1 IH]; [cbn; ring|]. rewrite (mid_cons_l wm t1 l1 (t :: l2)), (mid_cons_l wm t1 l1 (t :: nil)), (mid_cons_l wm t1 l1 l2).
  rewrite mid_single_cons, !ev_app, IH. ring.
Qed.
Lemma integ_ev_mid_cons_r wi wm l1 t l2 a b : ev (integ wi (mid wm l1 (t :: l2))) a b = ev (integ wi (mid wm l1 (t :: nil))) a b + ev (integ wi (mid wm l1 l2)) a b.
Proof.
  induction l1 as [|t1 l1 IH]; [cbn; ring|]. rewrite (mid_cons_l wm t1 l1 (t :: l2)), (mid_cons_l wm t1 l1 (t :: nil)), (mid_cons_l wm t1 l1 l2).
  rewrite mid_single_cons, !integ_app, !ev_app, IH. ring.
Qed.
Lemma mid_integ wi wm l1 l2 a b : 0 < wi -> 0 < wm -> List.Forall okt l1 -> List.Forall okt l2 ->
  ev (mid wm (integ wi l1) l2) a b = ev (integ wi (mid wm l1 l2)) a b.
Proof.
  intros Hi Hm H1 H2. induction l1 as [|t1 l1 IH1]; [reflexivity|]. pose proof (Forall_inv H1) as O1. specialize (IH1 (Forall_inv_tail H1)).
  change (t1 :: l1) with ((t1 :: nil) ++ l1). rewrite integ_app, mid_app_l.
  assert (EM : mid wm ((t1 :: nil) ++ l1) l2 = mid wm (t1 :: nil) l2 ++ mid wm l1 l2) by (unfold mid; now rewrite flat_map_app).
  rewrite EM, integ_app, ev_app, IH1. f_equal. clear IH1 EM H1.
  induction l2 as [|t2 l2 IH2].
  - destruct t1 as [[c p] q]. cbn. reflexivity.
  - rewrite mid_cons_r, integ_ev_mid_cons_r, (IH2 (Forall_inv_tail H2)), mid_integ_terms; auto. exact (Forall_inv H2).
Qed.

(** ** Chains *)
Section Chain.
Variable w : nat -> R.
Fixpoint chain (L : list nat) : list term :=
  match L with [] => (1, 0, 0) :: nil | i :: L' => integ (w i) (chain L') end.
Definition posw (L : list nat) : Prop := List.Forall (fun i => 0 < w i) L.

Lemma ok_chain L : posw L -> List.Forall okt (chain L).
Proof. induction L as [|i L IH]; intros H; cbn; [okl|]. apply ok_integ; [exact (Forall_inv H)|apply IH; exact (Forall_inv_tail H)]. Qed.

Lemma chain_split S1 m S2 : posw S1 -> 0 < w m -> posw S2 -> forall a b, 0 <= a -> a <= b ->
  ev (chain (S1 ++ m :: S2)) a b = ev (mid (w m) (chain S1) (chain S2)) a b.
Proof.
  intros H1 Hm H2. induction S1 as [|i S1 IH]; intros a b Ha Hb; cbn [app chain].
  - apply integ_mid.
  - pose proof (Forall_inv H1) as Hi. cbn beta in Hi. pose proof (Forall_inv_tail H1) as H1'. rewrite mid_integ by (auto using ok_chain).
    assert (HC : posw (S1 ++ m :: S2)) by (apply Forall_app; split; auto; constructor; auto).
    pose proof (integ_spec (w i) (chain (S1 ++ m :: S2)) a b Hi (ok_chain _ HC) Ha Hb) as I1.
    pose proof (integ_spec (w i) (mid (w m) (chain S1) (chain S2)) a b Hi (ok_mid _ _ _ Hm (ok_chain _ H1') (ok_chain _ H2)) Ha Hb) as I2.
    apply (is_RInt_ext _ (fun u => ev (mid (w m) (chain S1) (chain S2)) a (mon (1 / w i) u))) in I1.
    + rewrite <- (is_RInt_unique (V:=R_CompleteNormedModule) _ _ _ _ I1). exact (is_RInt_unique (V:=R_CompleteNormedModule) _ _ _ _ I2).
    + intros u Hu. rewrite Rmin_left, Rmax_right in Hu by (apply mon_le; auto). apply IH; auto.
      replace a with (mon (1 / w i) (mon (w i) a)).
      * apply mon_le; [apply Rdiv_lt_0_compat; lra|apply mon_ge0|lra].
      * assert (0 < 1 / w i) by (apply Rdiv_lt_0_compat; lra). rewrite mon_comp by lra. replace (w i * (1 / w i)) with 1 by (field; lra).
        destruct Ha as [Ha| <-]; [rewrite mon_pos by auto; now apply Rpower_1|apply mon_at0; lra].
Qed.

(** from 0: the product of the relative weights *)
Fixpoint wl (L : list nat) : R := match L with [] => 0 | i :: L' => w i + wl L' end.
Fixpoint pl (L : list nat) : R := match L with [] => 1 | i :: L' => w i / wl L * pl L' end.
Lemma wl_ge0 L : posw L -> 0 <= wl L.
Proof. induction L as [|i L IH]; intros H; cbn; [lra|]. pose proof (Forall_inv H). specialize (IH (Forall_inv_tail H)). cbn beta in *. lra. Qed.
Lemma chain_0 L : posw L -> forall b, 0 <= b -> ev (chain L) 0 b = pl L * mon (wl L) b.
Proof.
  induction L as [|i L IH]; intros H b Hb; cbn [chain wl pl].
  - cbn. rewrite !mon_0. ring.
  - pose proof (Forall_inv H) as Hi. cbn beta in Hi. pose proof (Forall_inv_tail H) as H'. pose proof (wl_ge0 L H') as Hw.
    pose proof (integ_spec (w i) (chain L) 0 b Hi (ok_chain _ H') ltac:(lra) Hb) as I1.
    pose proof (integ_spec (w i) ((pl L, 0, wl L) :: nil) 0 b Hi ltac:(okl) ltac:(lra) Hb) as I2.
    apply (is_RInt_ext _ (fun u => ev ((pl L, 0, wl L) :: nil) 0 (mon (1 / w i) u))) in I1.
    + apply (is_RInt_unique (V:=R_CompleteNormedModule)) in I1, I2. rewrite I1 in I2. rewrite I2.
      cbn [integ flat_map app ev evt]. rewrite !mon_0. rewrite (mon_at0 (0 + wl L + w i)) by lra.
      replace (wl L + w i) with (w i + wl L) by ring. field. lra.
    + intros u Hu. rewrite (IH H' (mon (1 / w i) u)) by apply mon_ge0. cbn. rewrite mon_0. rring.
Qed.

(** ** The law *)
Definition kap (i : nat) (u : R) : R := Rpower u (1 / w i).
Fixpoint ind_chain (key : nat -> R) (a b : R) (L : list nat) : R :=
  match L with
  | [] => 1
  | i :: L' => if Rlt_dec a (key i) then if Rlt_dec (key i) b then ind_chain key a (key i) L' else 0 else 0
  end.
Definition gap : Type := (R * list nat * R)%type.
Fixpoint ind_gaps (key : nat -> R) (C : list gap) : R :=
  match C with [] => 1 | (a, L, b) :: C' => ind_chain key a b L * ind_gaps key C' end.
Fixpoint pr (C : list gap) : R := match C with [] => 1 | (a, L, b) :: C' => ev (chain L) a b * pr C' end.
Definition items (C : list gap) : list nat := flat_map (fun g => snd (fst g)) C.
Definition okg (g : gap) : Prop := let '(a, L, b) := g in 0 <= a < b /\ b <= 1.

Lemma ind_chain_split key S1 i S2 : forall a b, ind_chain key a b (S1 ++ i :: S2) =
  if Rlt_dec a (key i) then if Rlt_dec (key i) b then ind_chain key (key i) b S1 * ind_chain key a (key i) S2 else 0 else 0.
Proof.
  induction S1 as [|j S1 IH]; intros a b; cbn [app ind_chain].
  - destruct (Rlt_dec a (key i)), (Rlt_dec (key i) b); ring.
  - rewrite IH. destruct (Rlt_dec a (key i)), (Rlt_dec (key i) b), (Rlt_dec a (key j)), (Rlt_dec (key j) b), (Rlt_dec (key i) (key j)); try ring; lra.
Qed.
Lemma ind_chain_ext key key' L : (forall i, In i L -> key i = key' i) -> forall a b, ind_chain key a b L = ind_chain key' a b L.
Proof.
  induction L as [|i L IH]; intros H a b; cbn; [reflexivity|]. rewrite (H i (or_introl eq_refl)).
  destruct (Rlt_dec a (key' i)), (Rlt_dec (key' i) b); auto. apply IH. intros; apply H; now right.
Qed.
Lemma ind_gaps_ext key key' C : (forall i, In i (items C) -> key i = key' i) -> ind_gaps key C = ind_gaps key' C.
Proof.
  induction C as [|[[a L] b] C IH]; intros H; cbn; [reflexivity|]. rewrite (ind_chain_ext key key').
  - f_equal. apply IH. intros i Hi. apply H. cbn. rewrite in_app_iff. auto.
  - intros i Hi. apply H. cbn. rewrite in_app_iff. auto.
Qed.
Lemma ind_gaps_app key C1 C2 : ind_gaps key (C1 ++ C2) = ind_gaps key C1 * ind_gaps key C2.
Proof. induction C1 as [|[[a L] b] C IH]; cbn; [ring|]. rewrite IH. ring. Qed.
Lemma pr_app C1 C2 : pr (C1 ++ C2) = pr C1 * pr C2.
Proof. induction C1 as [|[[a L] b] C IH]; cbn; [ring|]. rewrite IH. ring. Qed.

Definition kf (idx : nat) (us : list R) (j : nat) : R := kap j (nth (j - idx) us 0).

Lemma kap_mon i u : 0 < w i -> 0 < u -> kap i u = mon (1 / w i) u.
Proof. intros Hw Hu. unfold kap. now rewrite mon_pos. Qed.

Theorem gaps_law m : forall idx C, List.Forall okg C -> NoDup (items C) ->
  (forall j, In j (items C) -> (idx <= j < idx + m)%nat /\ 0 < w j) ->
  sexpects m (fun us => ind_gaps (kf idx us) C) (pr C).
Proof.
  induction m as [|m IH]; intros idx C HO HN HI.
  - cbn. assert (EI : items C = nil). { destruct (items C) as [|j l] eqn:E; auto. exfalso. destruct (HI j (or_introl eq_refl)). lia. }
    clear -EI. induction C as [|[[a L] b] C IHC]; cbn; [reflexivity|]. cbn in EI. apply app_eq_nil in EI as [E1 E2]. subst L.
    cbn. rewrite (IHC E2). rewrite !mon_0. ring.
  - assert (EK : forall u us j, (S idx <= j)%nat -> kf idx (u :: us) j = kf (S idx) us j).
    { intros u us j Hj. unfold kf. f_equal. replace (j - idx)%nat with (S (j - S idx)) by lia. reflexivity. }
    destruct (in_dec Nat.eq_dec idx (items C)) as [Hin|Hin].
    + assert (Hsplit : exists C1 a S1 S2 b C2, C = C1 ++ (a, S1 ++ idx :: S2, b) :: C2).
      { unfold items in Hin. apply in_flat_map in Hin as ([[a S0] b] & H1 & H2). cbn in H2. apply in_split in H1 as (C1 & C2 & ->). apply in_split in H2 as (S1 & S2 & ->). repeat eexists. }
      destruct Hsplit as (C1 & a & S1 & S2 & b & C2 & ->).
      apply Forall_app in HO as [HO1 HO2]. pose proof (Forall_inv HO2) as [Hab Hb1]. pose proof (Forall_inv_tail HO2) as HO3.
      unfold items in HN, HI. rewrite flat_map_app in HN, HI. cbn [flat_map fst snd] in HN, HI. fold (items C1) in HN, HI. fold (items C2) in HN, HI.
      assert (Hw : 0 < w idx) by (apply HI; rewrite !in_app_iff; cbn; auto).
      rewrite <- app_assoc in HN. cbn [app] in HN. rewrite app_assoc in HN. pose proof (NoDup_remove _ _ _ HN) as [HN1 HN2]. rewrite <- app_assoc in HN1, HN2.
      assert (HI' : forall j, In j (items C1 ++ S1 ++ S2 ++ items C2) -> (S idx <= j < S idx + m)%nat /\ 0 < w j).
      { intros j Hj. assert (j <> idx) by (intros ->; now apply HN2). destruct (HI j) as [H1 H2]; [rewrite !in_app_iff in *; cbn; tauto|]. split; auto; lia. }
      assert (Hp1 : posw S1) by (apply List.Forall_forall; intros j Hj; apply HI'; rewrite !in_app_iff; auto).
      assert (Hp2 : posw S2) by (apply List.Forall_forall; intros j Hj; apply HI'; rewrite !in_app_iff; auto).
      set (f := fun u => pr C1 * (ev (chain S1) (mon (1 / w idx) u) b * ev (chain S2) a (mon (1 / w idx) u)) * pr C2).
      exists (fun u => if Rlt_dec a (kap idx u) then if Rlt_dec (kap idx u) b then f u else 0 else 0). split.
      * intros u Hu. set (x := kap idx u).
        assert (Ex : forall us, kf idx (u :: us) idx = x) by (intros us; unfold kf; rewrite Nat.sub_diag; reflexivity).
        assert (EG : forall us, ind_gaps (kf idx (u :: us)) (C1 ++ (a, S1 ++ idx :: S2, b) :: C2) =
          if Rlt_dec a x then if Rlt_dec x b then ind_gaps (kf (S idx) us) (C1 ++ (x, S1, b) :: (a, S2, x) :: C2) else 0 else 0).
        { intros us. rewrite !ind_gaps_app. cbn [ind_gaps]. rewrite ind_chain_split, Ex.
          rewrite (ind_gaps_ext (kf idx (u :: us)) (kf (S idx) us) C1), (ind_gaps_ext (kf idx (u :: us)) (kf (S idx) us) C2),
            (ind_chain_ext (kf idx (u :: us)) (kf (S idx) us) S1), (ind_chain_ext (kf idx (u :: us)) (kf (S idx) us) S2)
            by (intros j Hj; apply EK; apply HI'; rewrite !in_app_iff; auto).
          destruct (Rlt_dec a x), (Rlt_dec x b); ring. }
        destruct (Rlt_dec a x) as [Hax|Hax]; [destruct (Rlt_dec x b) as [Hxb|Hxb]|].
        -- apply (sexpects_ext _ _ (fun us => ind_gaps (kf (S idx) us) (C1 ++ (x, S1, b) :: (a, S2, x) :: C2))); [intros us _ _; apply EG|].
           replace (f u) with (pr (C1 ++ (x, S1, b) :: (a, S2, x) :: C2)).
           ++ apply IH.
              ** apply Forall_app. split; auto. constructor; [cbn; lra|]. constructor; [cbn; lra|]. exact HO3.
              ** unfold items. rewrite flat_map_app. cbn [flat_map fst snd]. exact HN1.
              ** intros j Hj. unfold items in Hj. rewrite flat_map_app in Hj. cbn [flat_map fst snd] in Hj. apply HI'. exact Hj.
           ++ rewrite pr_app. cbn [pr]. unfold f. unfold x. rewrite (kap_mon idx u Hw) by lra. ring.
        -- apply (sexpects_ext _ _ (fun _ => 0)); [intros us _ _; apply EG|apply sexpects_const].
        -- apply (sexpects_ext _ _ (fun _ => 0)); [intros us _ _; apply EG|apply sexpects_const].
      * rewrite pr_app. cbn [pr]. rewrite (chain_split S1 idx S2 Hp1 Hw Hp2 a b) by lra.
        set (A := mon (w idx) a). set (B := mon (w idx) b).
        assert (HA0 : 0 <= A) by apply mon_ge0. assert (HAB : A < B) by (apply mon_lt; lra).
        assert (HB1 : B <= 1) by (rewrite <- (mon_1 (w idx)); apply mon_le; lra).
        assert (Hinv : 0 < 1 / w idx) by (apply Rdiv_lt_0_compat; lra).
        assert (Hback : forall y, 0 <= y -> mon (1 / w idx) (mon (w idx) y) = y).
        { intros y [Hy| <-]; rewrite mon_comp by lra; replace (w idx * (1 / w idx)) with 1 by (field; lra).
          - rewrite mon_pos by auto. now apply Rpower_1.
          - apply mon_at0. lra. }
        assert (Hkm : forall u, 0 < u -> kap idx u = mon (1 / w idx) u) by (intros; now apply kap_mon).
        replace (pr C1 * (ev (mid (w idx) (chain S1) (chain S2)) a b * pr C2)) with (plus 0 (plus (pr C1 * (ev (mid (w idx) (chain S1) (chain S2)) a b * pr C2)) 0)) by (unfold plus; cbn; ring).
        assert (Z : forall x y, x <= y -> is_RInt (fun _ : R => 0) x y 0).
        { intros x y _. pose proof (is_RInt_const x y 0) as K. unfold scal in K. cbn in K. unfold mult in K. cbn in K. now replace ((y - x) * 0) with 0 in K by ring. }
        apply (is_RInt_Chasles (V:=R_NormedModule)) with A; [|apply (is_RInt_Chasles (V:=R_NormedModule)) with B].
        -- apply (is_RInt_ext (fun _ => 0)); [|apply Z; lra]. intros u Hu. rewrite Rmin_left, Rmax_right in Hu by lra.
           destruct (Rlt_dec a (kap idx u)) as [H|]; [|reflexivity]. exfalso. rewrite Hkm in H by lra.
           assert (mon (1 / w idx) u <= a); [|lra]. rewrite <- (Hback a) by lra. apply mon_le; fold A; lra.
        -- apply (is_RInt_ext (fun u => scal (pr C1 * pr C2) (ev (chain S1) (mon (1 / w idx) u) b * ev (chain S2) a (mon (1 / w idx) u)))).
           ++ intros u Hu. rewrite Rmin_left, Rmax_right in Hu by lra. rewrite Hkm by lra.
              assert (H1 : a < mon (1 / w idx) u). { rewrite <- (Hback a) at 1 by lra. apply mon_lt; fold A; lra. }
              assert (H2 : mon (1 / w idx) u < b). { rewrite <- (Hback b) by lra. apply mon_lt; fold B; lra. }
              destruct (Rlt_dec a (mon (1 / w idx) u)); [|lra]. destruct (Rlt_dec (mon (1 / w idx) u) b); [|lra]. unfold f, scal. cbn. unfold mult. cbn. rring.
           ++ replace (pr C1 * (ev (mid (w idx) (chain S1) (chain S2)) a b * pr C2)) with (scal (pr C1 * pr C2) (ev (mid (w idx) (chain S1) (chain S2)) a b)) by (unfold scal; cbn; unfold mult; cbn; ring).
              apply (is_RInt_scal (V:=R_NormedModule)). apply mid_spec; auto using ok_chain; lra.
        -- apply (is_RInt_ext (fun _ => 0)); [|apply Z; lra]. intros u Hu. rewrite Rmin_left, Rmax_right in Hu by lra. rewrite Hkm by lra.
           destruct (Rlt_dec a (mon (1 / w idx) u)); [|reflexivity]. destruct (Rlt_dec (mon (1 / w idx) u) b) as [H|]; [|reflexivity]. exfalso.
           assert (b <= mon (1 / w idx) u); [|lra]. rewrite <- (Hback b) at 1 by lra. apply mon_le; fold B; lra.
    + exists (fun _ => pr C). split; [|apply is_RInt_const01]. intros u Hu.
      assert (HI' : forall j, In j (items C) -> (S idx <= j < S idx + m)%nat /\ 0 < w j).
      { intros j Hj. assert (j <> idx) by (intros ->; contradiction). destruct (HI j Hj). split; auto; lia. }
      apply (sexpects_ext _ _ (fun us => ind_gaps (kf (S idx) us) C)); [|now apply IH].
      intros us _ _. apply ind_gaps_ext. intros j Hj. apply EK. now apply HI'.
Qed.

(** The probability of a complete order of the keys. *)
Corollary order_law n L : NoDup L -> (forall j, In j L -> (j < n)%nat /\ 0 < w j) ->
  sexpects n (fun us => ind_chain (kf 0 us) 0 1 L) (pl L).
Proof.
  intros HN HI.
  assert (Hp : posw L) by (apply List.Forall_forall; intros j Hj; now apply HI).
  pose proof (gaps_law n 0 ((0, L, 1) :: nil)) as H. cbn [items flat_map fst snd] in H. rewrite app_nil_r in H.
  specialize (H ltac:(constructor; [cbn; lra|constructor]) HN ltac:(intros j Hj; destruct (HI j Hj); split; auto; lia)).
  cbn [pr] in H. rewrite (chain_0 L Hp 1) in H by lra. rewrite mon_1, !Rmult_1_r in H.
  apply (sexpects_ext _ _ _ _) with (2 := H). intros us _ _. cbn. ring.
Qed.
End Chain.
