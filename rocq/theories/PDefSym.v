(** Proofs: two runs of the Deffuant model whose opinions are related stay related (for C104). *)
From Verif Require Import Base BaseFacts Arith64 MRandom MNetwork SNetwork MAgents MDeGroot SDeGroot MDeffuant SDeffuant SDefSym PFloat.
From Coq Require Import Reals Lra.
From Flocq Require Import IEEE754.BinarySingleNaN Core.Core Core.Float_prop.

Lemma Forall2_length {A B} (R : A -> B -> Prop) l l' : Forall2 R l l' -> length l = length l'.
Proof. induction 1; cbn; congruence. Qed.

Section Related.
Context {a : Arith} (g : Rng a).
Notation sagent := (simple_agent (F a)).
Variables (Rel : F a -> F a -> Prop) (thr thr' mu : F a).
Hypothesis Hthr : forall x x' y y', Rel x x' -> Rel y y' -> flt a (fabs a (fsub a x' y')) thr' = flt a (fabs a (fsub a x y)) thr.
Hypothesis Hsub : forall x x' y y' u u', Rel x x' -> Rel y y' -> Rel u u' -> Rel (fsub a u (fmul a mu (fsub a x y))) (fsub a u' (fmul a mu (fsub a x' y'))).
Hypothesis Hadd : forall x x' y y' u u', Rel x x' -> Rel y y' -> Rel u u' -> Rel (fadd a u (fmul a mu (fsub a x y))) (fadd a u' (fmul a mu (fsub a x' y'))).
Definition agents_rel (l l' : list sagent) : Prop := Forall2 (fun x x' => Rel (s_opinion x) (s_opinion x')) l l'.

Lemma vget_rel l l' i x : agents_rel l l' -> vget l i = Ok x -> exists x', vget l' i = Ok x' /\ Rel (s_opinion x) (s_opinion x').
Proof.
  intros H E. apply vget_ok in E. revert i E. induction H as [|u v l l' Huv H IH]; intros i E; [destruct i; discriminate|].
  destruct i as [|i]; cbn in E.
  - injection E as ->. exists v. split; [reflexivity|exact Huv].
  - destruct (IH i E) as (x' & E' & HR). exists x'. split; auto.
Qed.
Lemma vset_rel l l' i x x' l1 : agents_rel l l' -> Rel (s_opinion x) (s_opinion x') -> vset l i x = Ok l1 -> exists l1', vset l' i x' = Ok l1' /\ agents_rel l1 l1'.
Proof.
  intros H Hx E. pose proof (Forall2_length _ _ _ H) as HL. unfold vset in *. rewrite <- HL.
  destruct (i <? length l); [|discriminate]. injection E as <-. eexists. split; [reflexivity|]. clear HL.
  revert i. induction H as [|u v l l' Huv H IH]; intros i; destruct i as [|i]; cbn [upd]; constructor; auto. apply IH.
Qed.
Lemma update_rel i j l l' s l1 s1 : agents_rel l l' -> update_rule_simple g thr mu i j l s = Ok (l1, s1) ->
  exists l1', update_rule_simple g thr' mu i j l' s = Ok (l1', s1) /\ agents_rel l1 l1'.
Proof using Hthr Hsub Hadd.
  intros H E. unfold update_rule_simple in *. apply bind_ok_inv in E as (x & Ex & E). apply bind_ok_inv in E as (y & Ey & E).
  destruct (vget_rel _ _ _ _ H Ex) as (x' & Ex' & Rx). destruct (vget_rel _ _ _ _ H Ey) as (y' & Ey' & Ry). rewrite Ex', Ey'. cbn [bind].
  rewrite (Hthr _ _ _ _ Rx Ry). destruct (flt a (fabs a (fsub a (s_opinion x) (s_opinion y))) thr).
  - apply bind_ok_inv in E as (l2 & E2 & E). destruct (vset_rel _ _ i (mkSimple (fsub a (s_opinion x) (fmul a mu (fsub a (s_opinion x) (s_opinion y))))) (mkSimple (fsub a (s_opinion x') (fmul a mu (fsub a (s_opinion x') (s_opinion y'))))) _ H (Hsub _ _ _ _ _ _ Rx Ry Rx) E2) as (l2' & E2' & H2).
    rewrite E2'. cbn [bind]. apply bind_ok_inv in E as (z & Ez & E). destruct (vget_rel _ _ _ _ H2 Ez) as (z' & Ez' & Rz). rewrite Ez'. cbn [bind].
    apply bind_ok_inv in E as (l3 & E3 & E). destruct (vset_rel _ _ j (mkSimple (fadd a (s_opinion z) (fmul a mu (fsub a (s_opinion x) (s_opinion y))))) (mkSimple (fadd a (s_opinion z') (fmul a mu (fsub a (s_opinion x') (s_opinion y'))))) _ H2 (Hadd _ _ _ _ _ _ Rx Ry Rz) E3) as (l3' & E3' & H3).
    rewrite E3'. cbn [bind]. injection E as <- <-. eauto.
  - injection E as <- <-. eauto.
Qed.

Definition net_rel (n n' : network sagent (F a)) : Prop := agents_rel (agents n) (agents n') /\ neigh n' = neigh n /\ wts n' = wts n /\ dir n' = dir n.
Lemma select_rel use n n' s : net_rel n n' -> select_interacting_agent_pair g use n' s = select_interacting_agent_pair g use n s.
Proof.
  intros (HA & HN & _). pose proof (Forall2_length _ _ _ HA) as HL. unfold select_interacting_agent_pair, n_agents, get_neighbours. rewrite HN, HL. reflexivity.
Qed.
Lemma encounter_rel use n n' s n1 s1 : net_rel n n' -> encounter g (update_rule_simple g thr mu) use n s = Ok (n1, s1) ->
  exists n1', encounter g (update_rule_simple g thr' mu) use n' s = Ok (n1', s1) /\ net_rel n1 n1'.
Proof using Hthr Hsub Hadd.
  intros H E. unfold encounter in *. rewrite (select_rel use n n' s H). apply bind_ok_inv in E as ([p s0] & Ep & E). rewrite Ep. cbn [bind].
  apply bind_ok_inv in E as (i & Ei & E). rewrite Ei. cbn [bind]. apply bind_ok_inv in E as (j & Ej & E). rewrite Ej. cbn [bind].
  apply bind_ok_inv in E as ([l1 s2] & El & E). destruct H as (HA & HN & HW & HD). destruct (update_rel _ _ _ _ _ _ _ HA El) as (l1' & El' & H1). rewrite El'. cbn [bind].
  injection E as <- <-. eexists. split; [reflexivity|]. unfold net_rel, with_agents. cbn [agents neigh wts dir]. auto.
Qed.
Lemma encounters_rel use c : forall i n n' s n1 s1, net_rel n n' ->
  for_from i c (fun _ st => let '(network, s) := st in encounter g (update_rule_simple g thr mu) use network s) (n, s) = Ok (n1, s1) ->
  exists n1', for_from i c (fun _ st => let '(network, s) := st in encounter g (update_rule_simple g thr' mu) use network s) (n', s) = Ok (n1', s1) /\ net_rel n1 n1'.
Proof using Hthr Hsub Hadd.
  induction c as [|c IH]; intros i n n' s n1 s1 H E; cbn [for_from] in *.
  - injection E as <- <-. eauto.
  - apply bind_ok_inv in E as ([n2 s2] & E1 & E2). destruct (encounter_rel use n n' s n2 s2 H E1) as (n2' & E1' & H2). rewrite E1'. cbn [bind]. eapply IH; eauto.
Qed.
Definition model_rel (m m' : deffuant (a:=a) sagent) : Prop :=
  df_base m' = df_base m /\ homophily_threshold m = thr /\ homophily_threshold m' = thr' /\ MDeffuant.mu m = mu /\ MDeffuant.mu m' = mu /\ use_network m' = use_network m /\ net_rel (df_net m) (df_net m').
Lemma run_related k : forall (m m' : deffuant (a:=a) sagent) s m1 s1, model_rel m m' -> simple_run g k m s = Ok (m1, s1) ->
  exists m1', simple_run g k m' s = Ok (m1', s1) /\ model_rel m1 m1'.
Proof using Hthr Hsub Hadd.
  induction k as [|k IH]; intros m m' s m1 s1 H E; cbn [simple_run] in *.
  - injection E as <- <-. eauto.
  - apply bind_ok_inv in E as ([m2 s2] & E1 & E2). destruct H as (HB & HT & HT' & HM & HM' & HU & HN).
    unfold simple_iteration, deffuant_iteration in *. apply bind_ok_inv in E1 as ([n2 s3] & E1 & E3). injection E3 as <- <-.
    rewrite HT, HM in E1. unfold for_n in *. destruct (encounters_rel _ _ _ _ _ _ _ _ HN E1) as (n2' & E1' & H2).
    assert (HL : n_agents (df_net m') = n_agents (df_net m)) by (symmetry; exact (Forall2_length _ _ _ (proj1 HN))).
    rewrite HT', HM', HU, HL, E1'. cbn [bind]. eapply IH; [|exact E2].
    unfold model_rel. cbn [df_base homophily_threshold MDeffuant.mu use_network df_net]. rewrite HB. auto 10.
Qed.
End Related.

(** ** Doubles up to the sign *)
Section Float.
Local Open Scope R_scope.
Notation fl := Arith64.float.
Notation sub := (fsub FA). Notation add := (fadd FA). Notation mul := (fmul FA).
Lemma finite_opposite (x y : fl) : is_finite x = true -> is_finite y = true -> B2R y = - B2R x -> opposite x y.
Proof.
  intros Fx Fy E. destruct x as [s|s| |s m e H]; try discriminate.
  - right. destruct y as [s'|s'| |s' m' e' H']; try discriminate; [eauto|]. exfalso. cbn [B2R] in E. rewrite Ropp_0 in E.
    apply eq_0_F2R in E. destruct s'; discriminate.
  - left. apply B2R_inj.
    + destruct y as [s'|s'| |s' m' e' H']; try discriminate; auto. exfalso. cbn [B2R] in E. symmetry in E. apply Ropp_eq_0_compat in E. rewrite Ropp_involutive in E. apply eq_0_F2R in E. destruct s; discriminate.
    + cbn. destruct y; auto; discriminate.
    + rewrite B2R_Bopp. exact E.
Qed.
Lemma opposite_finite (x y : fl) : opposite x y -> is_finite x = true -> is_finite y = true /\ B2R y = - B2R x.
Proof.
  intros [->|(s & s' & -> & ->)] H.
  - rewrite is_finite_Bopp, B2R_Bopp. auto.
  - cbn. split; auto. lra.
Qed.
Lemma opposite_sign (x y : fl) : opposite x y -> is_finite x = true -> B2R x <> 0 -> Bsign y = negb (Bsign x).
Proof.
  intros [->|(s & s' & -> & ->)] H N; [|exfalso; apply N; reflexivity]. apply Bsign_Bopp. destruct x; auto; discriminate.
Qed.
Lemma opposite_overflow (r r' : fl) s : B2SF r = binary_overflow prec emax mode_NE s -> B2SF r' = binary_overflow prec emax mode_NE (negb s) -> opposite r r'.
Proof.
  intros E E'. left. unfold binary_overflow in *. cbn in E, E'. destruct r; try discriminate. destruct r'; try discriminate. injection E as ->. injection E' as ->. reflexivity.
Qed.
Lemma rnd_opp x : rnd (- x) = - rnd x.
Proof. apply round_NE_opp. Qed.
Lemma overflow_nonzero (x : R) : Rlt_bool (Rabs (rnd x)) (bpow radix2 emax) = false -> x <> 0.
Proof.
  intros H ->. rewrite round_0, Rabs_R0 in H by auto with typeclass_instances. rewrite Rlt_bool_true in H; [discriminate|apply bpow_gt_0].
Qed.
Lemma no_overflow (x : fl) : Rlt_bool (Rabs (rnd (B2R x))) (bpow radix2 emax) = true.
Proof. rewrite round_generic by (auto with typeclass_instances; apply fmt_B2R). apply Rlt_bool_true, abs_B2R_lt_emax. Qed.
Lemma sub_finite (x y x' y' : fl) : is_finite x = true -> is_finite y = true -> opposite x x' -> opposite y y' -> opposite (sub x y) (sub x' y').
Proof.
  intros Fx Fy Ox Oy. destruct (opposite_finite x x' Ox Fx) as (Fx' & Ex). destruct (opposite_finite y y' Oy Fy) as (Fy' & Ey).
  pose proof (Bminus_correct prec emax Hprec Hprec_emax mode_NE x y Fx Fy) as C. pose proof (Bminus_correct prec emax Hprec Hprec_emax mode_NE x' y' Fx' Fy') as C'.
  cbn [round_mode] in C, C'. replace (B2R x' - B2R y') with (- (B2R x - B2R y)) in C' by (rewrite Ex, Ey; ring). rewrite rnd_opp, Rabs_Ropp in C'.
  destruct (Rlt_bool (Rabs (rnd (B2R x - B2R y))) (bpow radix2 emax)) eqn:O.
  - destruct C as (V & Fi & _). destruct C' as (V' & Fi' & _). apply finite_opposite; auto. cbn [fsub FA]. now rewrite V, V'.
  - destruct C as (V & _). destruct C' as (V' & _). apply (opposite_overflow _ _ (Bsign x)); auto. cbn [fsub FA]. rewrite V'. f_equal.
    apply opposite_sign; auto. intros Z. rewrite Z in O. replace (0 - B2R y) with (B2R (Bopp y)) in O by (rewrite B2R_Bopp; ring). rewrite no_overflow in O. discriminate.
Qed.
Lemma add_finite (x y x' y' : fl) : is_finite x = true -> is_finite y = true -> opposite x x' -> opposite y y' -> opposite (add x y) (add x' y').
Proof.
  intros Fx Fy Ox Oy. destruct (opposite_finite x x' Ox Fx) as (Fx' & Ex). destruct (opposite_finite y y' Oy Fy) as (Fy' & Ey).
  pose proof (Bplus_correct prec emax Hprec Hprec_emax mode_NE x y Fx Fy) as C. pose proof (Bplus_correct prec emax Hprec Hprec_emax mode_NE x' y' Fx' Fy') as C'.
  cbn [round_mode] in C, C'. replace (B2R x' + B2R y') with (- (B2R x + B2R y)) in C' by (rewrite Ex, Ey; ring). rewrite rnd_opp, Rabs_Ropp in C'.
  destruct (Rlt_bool (Rabs (rnd (B2R x + B2R y))) (bpow radix2 emax)) eqn:O.
  - destruct C as (V & Fi & _). destruct C' as (V' & Fi' & _). apply finite_opposite; auto. cbn [fadd FA]. now rewrite V, V'.
  - destruct C as (V & _). destruct C' as (V' & _). apply (opposite_overflow _ _ (Bsign x)); auto. cbn [fadd FA]. rewrite V'. f_equal.
    apply opposite_sign; auto. intros Z. rewrite Z, Rplus_0_l in O. rewrite no_overflow in O. discriminate.
Qed.
Lemma mul_finite (u x x' : fl) : is_finite u = true -> is_finite x = true -> opposite x x' -> opposite (mul u x) (mul u x').
Proof.
  intros Fu Fx Ox. destruct (opposite_finite x x' Ox Fx) as (Fx' & Ex).
  pose proof (Bmult_correct prec emax Hprec Hprec_emax mode_NE u x) as C. pose proof (Bmult_correct prec emax Hprec Hprec_emax mode_NE u x') as C'.
  cbn [round_mode] in C, C'. replace (B2R u * B2R x') with (- (B2R u * B2R x)) in C' by (rewrite Ex; ring). rewrite rnd_opp, Rabs_Ropp in C'.
  destruct (Rlt_bool (Rabs (rnd (B2R u * B2R x))) (bpow radix2 emax)) eqn:O.
  - destruct C as (V & Fi & _). destruct C' as (V' & Fi' & _). rewrite Fu, Fx in Fi. rewrite Fu, Fx' in Fi'. apply finite_opposite; auto. cbn [fmul FA]. now rewrite V, V'.
  - apply (opposite_overflow _ _ (xorb (Bsign u) (Bsign x))); auto. cbn [fmul FA]. rewrite C'. f_equal.
    rewrite (opposite_sign x x' Ox Fx); [symmetry; apply Bool.negb_xorb_r|]. intros Z. apply overflow_nonzero in O. apply O. rewrite Z. ring.
Qed.
Ltac specials := repeat match goal with b : bool |- _ => destruct b end; cbn; first [left; reflexivity|right; eauto].
Lemma sub_opposite (x y x' y' : fl) : opposite x x' -> opposite y y' -> opposite (sub x y) (sub x' y').
Proof.
  intros Ox Oy. destruct (is_finite x) eqn:Fx; [destruct (is_finite y) eqn:Fy; [now apply sub_finite|]|].
  - destruct Oy as [->|(t & t' & -> & _)]; [|discriminate]. destruct Ox as [->|(s & s' & -> & ->)]; destruct y; try discriminate; try (destruct x; try discriminate); specials.
  - destruct Ox as [->|(s & s' & -> & _)]; [|discriminate]. destruct Oy as [->|(t & t' & -> & ->)]; destruct x; try discriminate; try (destruct y); specials.
Qed.
Lemma add_opposite (x y x' y' : fl) : opposite x x' -> opposite y y' -> opposite (add x y) (add x' y').
Proof.
  intros Ox Oy. destruct (is_finite x) eqn:Fx; [destruct (is_finite y) eqn:Fy; [now apply add_finite|]|].
  - destruct Oy as [->|(t & t' & -> & _)]; [|discriminate]. destruct Ox as [->|(s & s' & -> & ->)]; destruct y; try discriminate; try (destruct x; try discriminate); specials.
  - destruct Ox as [->|(s & s' & -> & _)]; [|discriminate]. destruct Oy as [->|(t & t' & -> & ->)]; destruct x; try discriminate; try (destruct y); specials.
Qed.
Lemma mul_opposite (u x x' : fl) : opposite x x' -> opposite (mul u x) (mul u x').
Proof.
  intros Ox. destruct (is_finite u) eqn:Fu; [destruct (is_finite x) eqn:Fx; [now apply mul_finite|]|].
  - destruct Ox as [->|(s & s' & -> & _)]; [|discriminate]. destruct x; try discriminate; destruct u; try discriminate; specials.
  - destruct Ox as [->|(s & s' & -> & ->)]; [destruct x|]; destruct u; try discriminate; specials.
Qed.
Lemma abs_opposite (x x' : fl) : opposite x x' -> fabs FA x' = fabs FA x.
Proof. intros [->|(s & s' & -> & ->)]; [destruct x|]; reflexivity. Qed.
End Float.
