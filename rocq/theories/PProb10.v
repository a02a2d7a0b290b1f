(** Programs that read a bounded number of variates from the tape, and their composition. *)
From Verif Require Import Base BaseFacts Arith64 MRandom SRandom PRandom RFacts PReservoir SProb SProb2 PProb PProb2 TProb.
From Coq Require Import Reals Lra.
From Coquelicot Require Import Coquelicot.
Local Open Scope R_scope.

(** [reads n P]: [P] is a program that reads at most [n] variates and passes on the rest of the tape. *)
Inductive reads {X : Type} : nat -> (list R -> res (X * list R)) -> Prop :=
| rd_ret n P x : (forall us, P us = Ok (x, us)) -> reads n P
| rd_fail n P : (forall us y, P us <> Ok y) -> reads n P
| rd_step n P : (forall u, 0 < u < 1 -> reads n (fun us => P (u :: us))) -> reads (S n) P.

Lemma reads_ext X n (P Q : list R -> res (X * list R)) : reads n Q -> (forall us, P us = Q us) -> reads n P.
Proof.
  intros H. revert P. induction H as [n Q x H|n Q H|n Q H IH]; intros P E.
  - apply (rd_ret n P x). intros us. now rewrite E.
  - apply rd_fail. intros us. now rewrite E.
  - apply rd_step. intros u Hu. apply (IH u Hu). intros us. apply E.
Qed.
Lemma reads_mono X n (P : list R -> res (X * list R)) : reads n P -> forall n', (n <= n')%nat -> reads n' P.
Proof.
  induction 1 as [n P x H|n P H|n P H IH]; intros n' Hn.
  - now apply (rd_ret n' P x).
  - now apply rd_fail.
  - destruct n' as [|n']; [lia|]. apply rd_step. intros u Hu. apply (IH u Hu). lia.
Qed.
Lemma reads_bind X Y n m (P : list R -> res (X * list R)) (K : X -> list R -> res (Y * list R)) :
  reads n P -> (forall x, reads m (K x)) -> reads (n + m) (fun us => bind (P us) (fun r => K (fst r) (snd r))).
Proof.
  intros H HK. induction H as [n P x H|n P H|n P H IH].
  - apply reads_mono with m; [|lia]. apply reads_ext with (K x); auto. intros us. now rewrite H.
  - apply rd_fail. intros us y. destruct (P us) as [r| | |] eqn:E; cbn; try discriminate. exfalso. eapply H; eauto.
  - cbn [Nat.add]. apply rd_step. intros u Hu. now apply IH.
Qed.
Lemma reads_draw X n (P : F EA -> list R -> res (X * list R)) :
  (forall u, 0 < u < 1 -> reads n (P (Fin u))) ->
  reads (S n) (fun us => let (u, s) := r_real tape_rng (f0 EA) (f1 EA) us in P u s).
Proof.
  intros H. apply rd_step. intros u Hu. apply reads_ext with (P (Fin u)); auto. intros us. now rewrite tape_draw.
Qed.
Lemma reads_for X n (body : nat -> X * list R -> res (X * list R)) :
  (forall j x, reads n (fun us => body j (x, us))) ->
  forall m i x, reads (m * n) (fun us => for_from i m body (x, us)).
Proof.
  intros H. induction m as [|m IH]; intros i x; cbn [for_from Nat.mul].
  - now apply (rd_ret 0 _ x).
  - apply reads_ext with (fun us => bind (body i (x, us)) (fun r => (fun y vs => for_from (S i) m body (y, vs)) (fst r) (snd r))).
    + apply (reads_bind _ _ n (m * n) (fun us => body i (x, us)) (fun y vs => for_from (S i) m body (y, vs))); auto.
    + intros us. destruct (body i (x, us)) as [[y vs]| | |]; reflexivity.
Qed.
Lemma reads_res X n (P : list R -> res (X * list R)) : (exists r, (forall us, P us = bind r (fun x => Ok (x, us)))) -> reads n P.
Proof.
  intros [r H]. destruct r as [x|e|u|].
  - now apply (rd_ret n P x).
  - apply rd_fail. intros us y. rewrite H. discriminate.
  - apply rd_fail. intros us y. rewrite H. discriminate.
  - apply rd_fail. intros us y. rewrite H. discriminate.
Qed.

Lemma bind_pair X Y Z (r : res (X * Y)) (K : X * Y -> res Z) : bind r (fun p => K (fst p, snd p)) = bind r K.
Proof. now destruct r as [[? ?]| | |]. Qed.

(** What comes after such a program sees fresh variates. *)
Definition of_result {X : Type} (v : X -> R) (r : res (X * list R)) : R := match r with Ok (x, _) => v x | _ => 0 end.
Definition continue {X : Type} (K : X -> list R -> R) (r : res (X * list R)) : R := match r with Ok (x, us) => K x us | _ => 0 end.

Lemma reads_expects X n (P : list R -> res (X * list R)) (Inv : X -> Prop) (K : X -> list R -> R) (v : X -> R) M :
  reads n P -> (forall us x us', P us = Ok (x, us') -> Inv x) ->
  (forall x, Inv x -> forall M', (M <= M')%nat -> expects M' (K x) (v x)) ->
  forall V, expects n (fun us => of_result v (P us)) V ->
  forall M', (n + M <= M')%nat -> expects M' (fun us => continue K (P us)) V.
Proof.
  intros H HI HK. induction H as [n P x H|n P H|n P H IH]; intros V HV M' HM.
  - assert (EV : V = v x). { apply (expects_unique n (fun us => of_result v (P us))); auto. apply (expects_ext _ _ (fun _ => v x)); [intros us _ _; now rewrite H|apply expects_const]. }
    rewrite EV. apply (expects_ext _ _ (K x)); [intros us _ _; now rewrite H|]. apply HK; [apply (HI [] x []); apply H|lia].
  - assert (EV : V = 0). { apply (expects_unique n (fun us => of_result v (P us))); auto. apply (expects_ext _ _ (fun _ => 0)); [|apply expects_const].
      intros us _ _. specialize (H us). destruct (P us) as [y| | |]; try reflexivity. exfalso. eapply H; eauto. }
    rewrite EV. apply (expects_ext _ _ (fun _ => 0)); [|apply expects_const].
    intros us _ _. specialize (H us). destruct (P us) as [y| | |]; try reflexivity. exfalso. eapply H; eauto.
  - destruct M' as [|M']; [lia|]. destruct HV as (h & ex & H1 & H2). exists h, ex. split; auto. intros u Hu Nu.
    apply (IH u Hu); auto; [|lia]. intros us x us' E. eapply HI; eauto.
Qed.

(** A coin with probability [p]. *)
Lemma coin_expects (p : R) (f : list R -> R) (A B : R) M : 0 <= p <= 1 ->
  (forall u, 0 < u < 1 -> u < p -> expects M (fun us => f (u :: us)) A) ->
  (forall u, 0 < u < 1 -> ~ u < p -> expects M (fun us => f (u :: us)) B) ->
  expects (S M) f (p * A + (1 - p) * B).
Proof.
  intros Hp HA HB. exists (fun u => if Rlt_dec u p then A else B), nil. split.
  - intros u Hu _. destruct (Rlt_dec u p); auto.
  - destruct (Rlt_dec 0 p) as [H0|H0]; [destruct (Rlt_dec p 1) as [H1|H1]|].
    + apply (int_step _ p A B); auto; intros u Hu; destruct (Rlt_dec u p); auto; lra.
    + replace p with 1 by lra. replace (1 * A + (1 - 1) * B) with A by ring. apply (is_RInt_ext (fun _ => A)); [|apply is_RInt_const01].
      intros u Hu. rewrite Rmin_left, Rmax_right in Hu by lra. destruct (Rlt_dec u 1); [reflexivity|lra].
    + replace p with 0 by lra. replace (0 * A + (1 - 0) * B) with B by ring. apply (is_RInt_ext (fun _ => B)); [|apply is_RInt_const01].
      intros u Hu. rewrite Rmin_left, Rmax_right in Hu by lra. destruct (Rlt_dec u 0); [lra|reflexivity].
Qed.

(** The sampler reads at most k + 1 + 2 (n - k) variates. *)
Section Sampler.
Variables (m : Libm EA) (q : PQ EA) (w : nat -> F EA) (k n : nat) (buffer : list nat).
Hypothesis Hk : (1 <= k <= n)%nat.
Lemma sampler_reads : reads (k + S (2 * (n - k))) (reservoir_sampling_A_ExpJ m tape_rng q k n (fun j => Ok (w j)) buffer).
Proof using Hk.
  unfold reservoir_sampling_A_ExpJ. rewrite (proj2 (Nat.eqb_neq k 0)) by lia. rewrite Nat.min_r by lia. unfold for_n.
  set (fill := fun us => for_from 0 k (fun idx hs => let '(h, s) := hs in let (u, s) := r_real tape_rng (f0 EA) (f1 EA) s in
     w <- Ok (w idx) ;; let r := lpow EA m u (fdiv EA (f1 EA) w) in Ok (pq_push q (idx, r) h, s)) (pq_empty q, us)).
  match goal with |- reads _ (fun s => bind _ ?C) => set (rest := C) end.
  apply reads_ext with (fun us => bind (fill us) (fun r => (fun h vs => rest (h, vs)) (fst r) (snd r))).
  2:{ intros us. unfold fill. destruct (for_from _ _ _ _) as [[h vs]| | |]; reflexivity. }
  apply (reads_bind _ _ _ _ fill (fun h vs => rest (h, vs))).
  - unfold fill. replace k with (k * 1)%nat at 1 by lia.
    apply (reads_for _ 1 (fun idx hs => let '(h, s) := hs in let (u, s) := r_real tape_rng (f0 EA) (f1 EA) s in
     w <- Ok (w idx) ;; let r := lpow EA m u (fdiv EA (f1 EA) w) in Ok (pq_push q (idx, r) h, s))).
    intros j h. apply (reads_draw _ 0 (fun u s => w <- Ok (w j) ;; let r := lpow EA m u (fdiv EA (f1 EA) w) in Ok (pq_push q (j, r) h, s))).
    intros u Hu. cbn [bind]. eapply rd_ret. reflexivity.
  - intros h. unfold rest.
    apply (reads_draw _ (2 * (n - k)) (fun u s => top <- queue_top q h ;; _)). intros u Hu.
    destruct (queue_top q h) as [top| | |]; cbn [bind]; try (apply rd_fail; intros us y; discriminate).
    set (body := fun (idx : nat) (hxs : pq q * F EA * rst tape_rng) => let '(h, X, s) := hxs in
        w <- Ok (w idx) ;;
        let X := fsub EA X w in
        if fle EA X (f0 EA) then
          top <- queue_top q h ;;
          let t := lpow EA m (snd top) w in
          let (u, s) := r_real tape_rng (f0 EA) (f1 EA) s in
          let uniform_from_t_to_one := fadd EA (fmul EA u (fsub EA (f1 EA) t)) t in
          let r := lpow EA m uniform_from_t_to_one (fdiv EA (f1 EA) w) in
          let h := pq_push q (idx, r) (pq_pop q h) in
          let (u, s) := r_real tape_rng (f0 EA) (f1 EA) s in
          top <- queue_top q h ;;
          Ok (h, fdiv EA (llog EA m u) (llog EA m (snd top)), s)
        else Ok (h, X, s)).
    set (X0 := fdiv EA (llog EA m (Fin u)) (llog EA m (snd top))).
    match goal with |- reads _ (fun s => bind _ ?C) => set (fin := C) end.
    apply reads_ext with (fun us => bind (for_from k (n - k) body ((h, X0), us)) (fun r => (fun hx vs => fin (hx, vs)) (fst r) (snd r))).
    2:{ intros us. transitivity (bind (for_from k (n - k) body (h, X0, us)) fin); [reflexivity|symmetry; exact (bind_pair _ _ _ _ fin)]. }
    replace (2 * (n - k))%nat with ((n - k) * 2 + 0)%nat by lia. apply (reads_bind _ _ ((n - k) * 2) 0 (fun us => for_from k (n - k) body ((h, X0), us)) (fun hx vs => fin (hx, vs))).
    + apply (reads_for _ 2 body). intros j [h' X]. unfold body. cbn [bind].
      destruct (fle EA (fsub EA X (w j)) (f0 EA)); [|eapply rd_ret; reflexivity].
      destruct (queue_top q h') as [top'| | |]; cbn [bind]; try (apply rd_fail; intros us y; discriminate).
      apply (reads_draw _ 1 (fun u s => let uniform_from_t_to_one := fadd EA (fmul EA u (fsub EA (f1 EA) (lpow EA m (snd top') (w j)))) (lpow EA m (snd top') (w j)) in
          let r := lpow EA m uniform_from_t_to_one (fdiv EA (f1 EA) (w j)) in
          let h := pq_push q (j, r) (pq_pop q h') in
          let (u, s) := r_real tape_rng (f0 EA) (f1 EA) s in
          top <- queue_top q h ;;
          Ok (h, fdiv EA (llog EA m u) (llog EA m (snd top)), s))).
      intros u1 Hu1. cbv zeta.
      apply (reads_draw _ 0 (fun u s => top <- queue_top q _ ;; Ok (_, fdiv EA (llog EA m u) (llog EA m (snd top)), s))). intros u2 Hu2.
      match goal with |- reads _ (fun s => bind (queue_top q ?hh) _) => destruct (queue_top q hh) as [top2| | |] end; cbn [bind]; try (apply rd_fail; intros us y; discriminate).
      eapply rd_ret. reflexivity.
    + intros [h' X]. unfold fin. apply reads_res.
      match goal with |- exists r, forall us, bind ?P _ = _ => exists (bind P (fun bh => Ok (fst bh))) ; intros us; destruct P as [[b h2]| | |]; reflexivity end.
Qed.
End Sampler.
