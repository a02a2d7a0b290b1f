(** Whole iterations of the activity-driven and inertial models: what they leave alone and the bots. *)
From Verif Require Import Base BaseFacts Arith64 MRandom SRandom MDist MNetwork SNetwork PNetwork PNetwork2 MNetGen PNetGen
  MAgents MDeGroot MActivity SActivity PActStep PActNet.
From Coq Require Import Permutation.

Ltac inv_bind H := apply bind_ok_inv in H as (? & ? & H).

Lemma for_n_partial S (Inv : S -> Prop) (body : nat -> S -> res S) n s s' :
  Inv s -> (forall j t t', j < n -> Inv t -> body j t = Ok t' -> Inv t') ->
  for_n n body s = Ok s' -> Inv s'.
Proof.
  unfold for_n. intros Hs Hinv.
  enough (G : forall k i s, Inv s -> i + k <= n -> for_from i k body s = Ok s' -> Inv s') by (apply (G n 0); auto).
  clear s Hs. induction k as [|k IH]; intros i s Hs Hk H; cbn [for_from] in H; [congruence|].
  apply bind_ok_inv in H as (s1 & H1 & H2). apply (IH (Datatypes.S i) s1); auto; [|lia].
  eapply Hinv; eauto. lia.
Qed.

Section Iter.
Context {a : Arith} (lm : Libm a) (g : Rng a) (q : PQ a).
Notation D := (F a).
Notation settings := (ad_settings D).

Section Gen.
Context {A : Type} (ops : agent_ops D A).

(** bots after a reset *)
Lemma reset_bots_opinion (st : settings) l l' b : ops_ok ops -> reset_bots ops st l = Ok l' -> b < n_bots st ->
  exists x o, nth_error l' b = Some x /\ nth_error (bot_opinion st) b = Some o /\ get_opinion ops x = o.
Proof.
  intros Hops H Hb. pose proof (reset_bots_inv ops st l l' H) as [H1 H2].
  rewrite (reset_bots_ok ops st l H1 H2) in H. injection H as <-.
  rewrite nth_error_reset. destruct (nth_error l b) as [x|] eqn:E. 2:{ apply nth_error_None in E. lia. }
  cbn [option_map]. rewrite (proj2 (Nat.ltb_lt _ _) Hb).
  exists (set_opinion ops x (nth b (bot_opinion st) (f0 a))), (nth b (bot_opinion st) (f0 a)).
  repeat split.
  - apply nth_error_nth'. lia.
  - now destruct Hops as (-> & _).
Qed.

(** the constructor *)
Lemma ctor_bots (d : A) st (h : network A D) s md s' : ops_ok ops -> ad_ctor lm g ops d st h s = Ok (md, s') ->
  ad_set md = st /\ forall b, b < n_bots st ->
    exists x o w, nth_error (agents (ad_net md)) b = Some x /\
      nth_error (bot_opinion st) b = Some o /\ get_opinion ops x = o /\
      nth_error (bot_activity st) b = Some w /\ get_activity ops x = w.
Proof.
  intros Hops H. unfold ad_ctor in H. apply bind_ok_inv in H as ([l s1] & Hl & H).
  assert (Hl' : forall b, b < n_bots st -> exists x o w, nth_error l b = Some x /\
      nth_error (bot_opinion st) b = Some o /\ get_opinion ops x = o /\
      nth_error (bot_activity st) b = Some w /\ get_activity ops x = w).
  { unfold get_agents_from_power_law in Hl. cbv zeta in Hl.
    apply bind_ok_inv in Hl as ([l0 s0] & _ & Hl). apply bind_ok_inv in Hl as (l1 & Hl1 & Hl).
    injection Hl as <- _. intros b Hb. unfold bot_present in Hl1.
    rewrite (proj2 (Nat.ltb_lt 0 (n_bots st))) in Hl1 by lia.
    revert b Hb.
    pose proof (for_n_ok_inv _ _ _ _ _ Hl1) as G. revert Hl1.
    match goal with |- for_n _ ?body _ = _ -> _ => set (bd := body) end. intros Hl1.
    assert (Step : forall i (l l' : list A), bd i l = Ok l' -> length l' = length l /\
        (exists x o w, nth_error l' i = Some x /\ nth_error (bot_opinion st) i = Some o /\ get_opinion ops x = o /\
          nth_error (bot_activity st) i = Some w /\ get_activity ops x = w) /\
        forall j, j <> i -> nth_error l' j = nth_error l j).
    { clear -Hops. intros i l l' H. unfold bd in H.
      apply bind_ok_inv in H as (o & Ho & H). apply bind_ok_inv in H as (x & Hx & H).
      apply bind_ok_inv in H as (l1 & H1 & H). apply vset_inv in H1 as [Hi ->].
      apply bind_ok_inv in H as (w & Hw & H). apply bind_ok_inv in H as (x2 & Hx2 & H).
      apply vset_inv in H as [_ ->]. rewrite vget_upd_eq in Hx2 by auto. injection Hx2 as <-.
      apply vget_ok in Ho, Hw. rewrite !upd_length. split; auto. split.
      - exists (set_activity ops (set_opinion ops x o) w), o, w.
        rewrite nth_error_upd_eq by (now rewrite upd_length). repeat split; auto.
        + destruct Hops as (O1 & O2 & O3 & O4 & O5 & _). now rewrite O5, O1.
        + destruct Hops as (O1 & O2 & O3 & O4 & O5 & _). now rewrite O4.
      - intros j Hj. now rewrite !nth_error_upd_neq by auto. }
    clear G. unfold for_n in Hl1. revert Hl1.
    assert (Gen : forall n i l l', for_from i n bd l = Ok l' ->
      (forall b, i <= b < i + n -> exists x o w, nth_error l' b = Some x /\
          nth_error (bot_opinion st) b = Some o /\ get_opinion ops x = o /\
          nth_error (bot_activity st) b = Some w /\ get_activity ops x = w) /\
      (forall b, b < i -> nth_error l' b = nth_error l b)).
    { induction n as [|n IH]; intros i l2 l3 HH; cbn [for_from] in HH.
      - injection HH as <-. split; auto. intros; lia.
      - apply bind_ok_inv in HH as (l4 & H1 & H2). apply Step in H1 as (S1 & S2 & S3).
        apply IH in H2 as [I1 I2]. split.
        + intros b Hb. destruct (Nat.eq_dec b i) as [->|Hne]; [|apply I1; lia].
          rewrite I2 by lia. exact S2.
        + intros b Hb. rewrite I2 by lia. apply S3. lia. }
    intros Hl1 b Hb. apply Gen in Hl1 as [I1 _]. apply I1. lia. }
  apply bind_ok_inv in H as (h1 & Hh1 & H). injection H as <- <-. cbn [ad_set ad_net].
  split; auto. intros b Hb.
  assert (E : agents h1 = l).
  { destruct (mean_weights st).
    - apply bind_ok_inv in Hh1 as (fc & _ & E). injection E as <-. reflexivity.
    - injection Hh1 as <-. reflexivity. }
  rewrite E. auto.
Qed.

(** with more bots than agents construction is undefined behaviour *)
Lemma ctor_too_many_bots (d : A) st (h : network A D) s : n_agents h < n_bots st ->
  forall r, ad_ctor lm g ops d st h s <> Ok r.
Proof.
  intros Hb [md s'] H. unfold ad_ctor in H. apply bind_ok_inv in H as ([l s1] & Hl & H).
  unfold get_agents_from_power_law in Hl. cbv zeta in Hl.
  apply bind_ok_inv in Hl as ([l0 s0] & H0 & Hl). apply bind_ok_inv in Hl as (l1 & Hl1 & Hl).
  assert (Hlen : length l0 = n_agents h).
  { refine (for_n_partial _ (fun v => length (fst v) = n_agents h) _ _ _ _ _ _ H0); [reflexivity|].
    intros i [b sb] [b' sb'] Hi HL E. cbn [fst] in *.
    destruct (r_real g (fofZ a (-1)) (fofZ a 1) sb) as [o s2].
    apply bind_ok_inv in E as (x & Hx & E).
    destruct (copula_draw _ _ _ _ _ _) as [[ac rl] s3].
    apply bind_ok_inv in E as (b2 & E2 & E). apply vset_inv in E2 as [_ ->]. injection E as <- _.
    now rewrite upd_length. }
  unfold bot_present in Hl1. rewrite (proj2 (Nat.ltb_lt 0 (n_bots st))) in Hl1 by lia.
  assert (Gen : forall n i (l l' : list A), for_from i n (fun bot_idx l =>
            o <- vget (bot_opinion st) bot_idx ;;
            x <- vget l bot_idx ;;
            l <- vset l bot_idx (set_opinion ops x o) ;;
            act <- vget (bot_activity st) bot_idx ;;
            x <- vget l bot_idx ;;
            vset l bot_idx (set_activity ops x act)) l = Ok l' -> forall k, i <= k < i + n -> k < length l).
  { clear. induction n as [|n IH]; intros i l l' H k Hk; [lia|]. cbn [for_from] in H.
    apply bind_ok_inv in H as (l1 & H1 & H2).
    apply bind_ok_inv in H1 as (o & Ho & H). apply bind_ok_inv in H as (x & Hx & H).
    apply bind_ok_inv in H as (l4 & H1 & H). apply vset_inv in H1 as [Hi ->].
    apply bind_ok_inv in H as (w & Hw & H). apply bind_ok_inv in H as (x2 & Hx2 & H).
    apply vset_inv in H as [_ ->].
    destruct (Nat.eq_dec k i) as [->|Hne]; auto.
    specialize (IH _ _ _ H2 k). rewrite !upd_length in IH. lia. }
  specialize (Gen _ _ _ _ Hl1 (n_bots st - 1)). lia.
Qed.
End Gen.
End Iter.
