(** Property theorem C104: the Deffuant model has no preferred origin, unit or sign of opinions. *)
From Verif Require Import Base BaseFacts Arith64 RFacts MRandom SRandom PRandom WRandom MNetwork SNetwork MAgents MDeGroot SDeGroot MDeffuant SDeffuant PDeffuant TDeffuant PFloat SDefSym PDefSym.
From Coq Require Import Reals Lra.
From Flocq Require Import IEEE754.BinarySingleNaN Core.Core.
Local Open Scope R_scope.

Lemma rel_map c d (l : list (simple_agent R)) :
  Forall2 (fun x x' : simple_agent R => s_opinion x' = c * s_opinion x + d) l (map (fun x => mkSimple (c * s_opinion x + d)) l) /\
  forall l', Forall2 (fun x x' : simple_agent R => s_opinion x' = c * s_opinion x + d) l l' -> l' = map (fun x => mkSimple (c * s_opinion x + d)) l.
Proof.
  induction l as [|x l (IH & IH')]; split.
  - constructor.
  - intros l' H. inversion H. reflexivity.
  - cbn [map]. constructor; auto.
  - intros l' H. inversion H as [|? [y] ? ? Hy Hl]; subst. cbn [map s_opinion] in *. rewrite Hy. f_equal. now apply IH'.
Qed.

(** C104. If all opinions are replaced by c x + d (c <> 0) and the threshold by |c| times the threshold, the same random numbers
    lead to the state in which all opinions are replaced by c x + d: the choice of unit, origin and sign is irrelevant (exact arithmetic). *)
Theorem C104_rescaled (g : Rng RA) c d k (m m1 : deffuant (a:=RA) (simple_agent R)) s s1 : c <> 0 ->
  simple_run (a:=RA) g k m s = Ok (m1, s1) -> simple_run (a:=RA) g k (rescaled c d m) s = Ok (rescaled c d m1, s1).
Proof.
  intros Hc E. assert (c0 : 0 < Rabs c) by now apply Rabs_pos_lt.
  destruct (run_related (a:=RA) g (fun x y : R => y = c * x + d) (homophily_threshold m) (Rabs c * homophily_threshold m) (mu m)) with (k:=k) (m:=m) (m':=rescaled c d m) (s:=s) (m1:=m1) (s1:=s1)
    as (m2 & E2 & HB & HT & HT' & HM & HM' & HU & HA & HN & HW & HD); auto.
  - intros x x' y y' -> ->. cbn [flt fabs fsub RA]. replace (c * x + d - (c * y + d)) with (c * (x - y)) by ring. rewrite Rabs_mult.
    destruct (Rltb_spec (Rabs c * Rabs (x - y)) (Rabs c * homophily_threshold m)) as [H|H]; destruct (Rltb_spec (Rabs (x - y)) (homophily_threshold m)) as [H'|H']; auto; exfalso.
    + apply H'. now apply Rmult_lt_reg_l in H.
    + apply H. now apply Rmult_lt_compat_l.
  - intros x x' y y' u u' -> -> ->. cbn [fmul fsub RA]. ring.
  - intros x x' y y' u u' -> -> ->. cbn [fmul fsub fadd RA]. ring.
  - unfold model_rel, rescaled, net_rel, with_agents. cbn [df_base homophily_threshold mu use_network df_net agents neigh wts dir].
    repeat (split; [reflexivity|]). split; [|auto]. exact (proj1 (rel_map c d (agents (df_net m)))).
  - rewrite E2. do 2 f_equal. unfold rescaled, with_agents. destruct m2 as [b2 t2 u2 n2 [ag2 ne2 wt2 di2]]. destruct m1 as [b1 t1 u1 n1 [ag1 ne1 wt1 di1]].
    cbn [df_base homophily_threshold mu use_network df_net agents neigh wts dir] in *. subst. f_equal. f_equal.
    exact (proj2 (rel_map c d ag1) ag2 HA).
Qed.

(** In double precision this holds for the sign: negating all opinions negates all later opinions, bit by bit but for the sign of zeros
    (whatever the opinions, threshold and mu are, including overflow and NaN). *)
Theorem C104_mirror_double (g : Rng FA) k (m m' m1 : deffuant (a:=FA) (simple_agent Arith64.float)) s s1 :
  same_but_opinions m m' -> Forall2 opposite (@opinions FA (df_net m)) (@opinions FA (df_net m')) ->
  simple_run (a:=FA) g k m s = Ok (m1, s1) ->
  exists m1', simple_run (a:=FA) g k m' s = Ok (m1', s1) /\ same_but_opinions m1 m1' /\ Forall2 opposite (@opinions FA (df_net m1)) (@opinions FA (df_net m1')).
Proof.
  intros (HB & HT & HM & HU & HL & HN & HW & HD) HO E.
  assert (Conv : forall l l' : list (simple_agent Arith64.float), Forall2 opposite (map s_opinion l) (map s_opinion l') <-> agents_rel (a:=FA) opposite l l').
  { intros l. unfold agents_rel. induction l as [|x l IH]; intros [|y l']; cbn [map]; split; intros H; inversion H; subst; constructor; auto; now apply IH. }
  destruct (run_related (a:=FA) g opposite (homophily_threshold m) (homophily_threshold m) (mu m)) with (k:=k) (m:=m) (m':=m') (s:=s) (m1:=m1) (s1:=s1)
    as (m2 & E2 & HB2 & HT2 & HT2' & HM2 & HM2' & HU2 & HA2 & HN2 & HW2 & HD2); auto.
  - intros x x' y y' Hx Hy. rewrite (abs_opposite _ _ (sub_opposite _ _ _ _ Hx Hy)). reflexivity.
  - intros x x' y y' u u' Hx Hy Hu. apply sub_opposite; auto. apply mul_opposite. now apply sub_opposite.
  - intros x x' y y' u u' Hx Hy Hu. apply add_opposite; auto. apply mul_opposite. now apply sub_opposite.
  - unfold model_rel, net_rel. repeat (split; [solve [auto]|]). split; [|auto]. now apply Conv.
  - exists m2. split; auto. split.
    + unfold same_but_opinions. rewrite HT2, HT2', HM2, HM2'. repeat (split; [solve [auto]|]). split; [|auto]. symmetry. exact (Forall2_length _ _ _ HA2).
    + now apply Conv.
Qed.

(** The choice of the origin matters in double precision: after shifting the opinions 0 and 3 by 2^53 the agents,
    who agree on the mean with threshold 3.5 before, do not interact. *)
Definition shifted (o : Arith64.float) : deffuant (a:=FA) (simple_agent Arith64.float) :=
  mkDeffuant (a:=FA) (base_ctor None) (fdiv FA (b64_of_Z 7) (b64_of_Z 2)) (fdiv FA (f1 FA) (b64_of_Z 2)) false
    (mkNet [mkSimple (fadd FA (b64_of_Z 0) o); mkSimple (fadd FA (b64_of_Z 3) o)] [[]; []] [[]; []] Incoming).
Theorem C104_shift_double_refuted : let o := b64_of_Z (2 ^ 53) in let z := b64_of_Z 0 in
  ~ (forall m1 m2 s1 s2, simple_iteration (const_rng (a:=FA) z z) (shifted z) tt = Ok (m1, s1) -> simple_iteration (const_rng (a:=FA) z z) (shifted o) tt = Ok (m2, s2) ->
       @opinions FA (df_net m2) = map (fun x => fadd FA x o) (@opinions FA (df_net m1))).
Proof.
  intros o z Claim.
  assert (B : match simple_iteration (const_rng (a:=FA) z z) (shifted z) tt, simple_iteration (const_rng (a:=FA) z z) (shifted o) tt with
              | Ok (m1, _), Ok (m2, _) => match @opinions FA (df_net m2), map (fun x => fadd FA x o) (@opinions FA (df_net m1)) with x :: _, y :: _ => flt FA x y | _, _ => false end
              | _, _ => false end = true) by (vm_compute; reflexivity).
  destruct (simple_iteration (const_rng (a:=FA) z z) (shifted z) tt) as [[m1 s1]| | |] eqn:E1; try discriminate.
  destruct (simple_iteration (const_rng (a:=FA) z z) (shifted o) tt) as [[m2 s2]| | |] eqn:E2; try discriminate.
  specialize (Claim m1 m2 s1 s2 eq_refl eq_refl). rewrite Claim in B.
  destruct (map (fun x => fadd FA x o) (@opinions FA (df_net m1))) as [|x l]; [discriminate|].
  assert (Irr : forall u : Arith64.float, flt FA u u = false).
  { intros u. cbn [flt FA]. destruct (is_finite u) eqn:Fu; [rewrite Bltb_correct by auto; apply Rlt_bool_false; lra|]. destruct u as [t|t| |t mm e H]; try discriminate; [destruct t; reflexivity|reflexivity]. }
  rewrite Irr in B. discriminate.
Qed.

(** ** Instances *)
(** Opinions 0, 1 and 3, unit changed to -2 with origin 5. *)
Definition three_opinions : deffuant (a:=RA) (simple_agent R) :=
  mkDeffuant (a:=RA) (base_ctor None) 2 (1/2) false (mkNet [mkSimple 0; mkSimple 1; mkSimple 3] [[]; []; []] [[]; []; []] Incoming).
Example C104_rescaled_instance k : exists m1 s1, simple_run (a:=RA) (const_rng (a:=RA) 0 0) k three_opinions tt = Ok (m1, s1) /\
  simple_run (a:=RA) (const_rng (a:=RA) 0 0) k (rescaled (-2) 5 three_opinions) tt = Ok (rescaled (-2) 5 m1, s1).
Proof.
  destruct (run_ok (a:=RA) (const_rng (a:=RA) 0 0) (const_rng_sample_ok RA 0 0) (const_rng_int_ok RA 0 0) k three_opinions tt) as (m1 & s1 & ps & E & _); [now left|].
  exists m1, s1. split; auto. apply C104_rescaled; auto. lra.
Qed.
Definition negated_round : deffuant (a:=FA) (simple_agent Arith64.float) :=
  mkDeffuant (a:=FA) (base_ctor None) (b64_of_Z 2) (f1 FA) false (mkNet [mkSimple (fopp FA (f1 FA)); mkSimple (fopp FA tiny)] [[]; []] [[]; []] Incoming).
Example C104_mirror_instance k : exists m1 s1 m1', simple_run (a:=FA) (const_rng (a:=FA) tiny tiny) k df_round tt = Ok (m1, s1) /\
  simple_run (a:=FA) (const_rng (a:=FA) tiny tiny) k negated_round tt = Ok (m1', s1) /\ Forall2 opposite (@opinions FA (df_net m1)) (@opinions FA (df_net m1')).
Proof.
  destruct (run_ok (a:=FA) (const_rng (a:=FA) tiny tiny) (const_rng_sample_ok FA tiny tiny) (const_rng_int_ok FA tiny tiny) k df_round tt) as (m1 & s1 & ps & E & _); [now left|].
  destruct (C104_mirror_double (const_rng (a:=FA) tiny tiny) k df_round negated_round m1 tt s1) as (m1' & E' & _ & H); auto.
  - repeat split.
  - constructor; [left; reflexivity|]. constructor; [left; reflexivity|constructor].
  - exists m1, s1, m1'. auto.
Qed.
Print Assumptions C104_rescaled.
Print Assumptions C104_mirror_double.
Print Assumptions C104_shift_double_refuted.
