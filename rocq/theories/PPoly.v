(** Polynomials with integer coefficients: evaluation, derivative and a Bernstein certificate of
    positivity on [0,b]; used for the accuracy of erfinv. *)
From Coq Require Import ZArith List Bool Lia.
From Coq Require Import Reals Lra Psatz.
From Coquelicot Require Import Coquelicot.
Import ListNotations.
Local Open Scope R_scope.

Definition peval (p : list Z) (x : R) : R := fold_right (fun c r => IZR c + x * r) 0 p.
Fixpoint padd (p q : list Z) : list Z :=
  match p, q with
  | nil, _ => q
  | _, nil => p
  | c :: p', d :: q' => (c + d)%Z :: padd p' q'
  end.
Definition pscale (c : Z) (p : list Z) : list Z := map (Z.mul c) p.
Fixpoint pmul (p q : list Z) : list Z :=
  match p with nil => nil | c :: p' => padd (pscale c q) (0%Z :: pmul p' q) end.
Definition psub (p q : list Z) : list Z := padd p (pscale (-1) q).
(** i c_i for i from k *)
Fixpoint pder_from (k : Z) (p : list Z) : list Z :=
  match p with nil => nil | c :: p' => (k * c)%Z :: pder_from (k + 1) p' end.
Definition pder (p : list Z) : list Z := match p with nil => nil | _ :: p' => pder_from 1 p' end.
(** d^(n-1) p(q(x)/d), n the length of p *)
Fixpoint phom (p q : list Z) (d : Z) : list Z :=
  match p with
  | nil => nil
  | c :: p' => padd ((c * d ^ Z.of_nat (length p'))%Z :: nil) (pmul q (phom p' q d))
  end.

Lemma peval_cons c p x : peval (c :: p) x = IZR c + x * peval p x.
Proof. reflexivity. Qed.
Lemma peval_add p q x : peval (padd p q) x = peval p x + peval q x.
Proof.
  revert q; induction p as [|c p IH]; intros [|d q]; cbn [padd]; rewrite ?peval_cons; try (cbn; lra).
  rewrite IH, plus_IZR. ring.
Qed.
Lemma peval_scale c p x : peval (pscale c p) x = IZR c * peval p x.
Proof. induction p as [|d p IH]; [cbn; ring|]. cbn [pscale map]. rewrite !peval_cons. unfold pscale in IH. rewrite IH, mult_IZR. ring. Qed.
Lemma peval_mul p q x : peval (pmul p q) x = peval p x * peval q x.
Proof.
  induction p as [|c p IH]; [cbn; ring|]. cbn [pmul]. rewrite peval_add, peval_scale, !peval_cons, IH. ring.
Qed.
Lemma peval_sub p q x : peval (psub p q) x = peval p x - peval q x.
Proof. unfold psub. rewrite peval_add, peval_scale. ring. Qed.
Lemma peval_hom p q d x : d <> 0%Z ->
  peval (phom p q d) x = IZR d ^ (length p - 1) * peval p (peval q x / IZR d).
Proof.
  intros Hd. assert (Hd' : IZR d <> 0) by (now apply not_0_IZR).
  induction p as [|c p IH]; [cbn; ring|]. cbn [phom length]. rewrite peval_add, peval_mul, IH.
  cbn [peval fold_right]. rewrite mult_IZR, <- pow_IZR.
  replace (S (length p) - 1)%nat with (length p) by lia.
  destruct p as [|c' p]; [cbn; ring|].
  cbn [length]. replace (S (length p) - 1)%nat with (length p) by lia. fold (peval (c' :: p)). cbn [pow].
  set (z := peval (c' :: p) _). change (fold_right (fun (c0 : Z) (r : R) => IZR c0 + peval q x / IZR d * r) 0 (c' :: p)) with z. field. exact Hd'.
Qed.

Lemma pder_from_succ k p x : peval (pder_from (k + 1) p) x = peval (pder_from k p) x + peval p x.
Proof.
  revert k; induction p as [|c p IH]; intros k; [cbn; ring|]. cbn [pder_from]. rewrite !peval_cons, IH.
  rewrite !mult_IZR, plus_IZR. ring.
Qed.
Lemma pder_from_0 p x : peval (pder_from 0 p) x = x * peval (pder p) x.
Proof. destruct p as [|c p]; [cbn; ring|]. cbn [pder_from pder]. rewrite peval_cons. cbn. ring. Qed.
Lemma peval_der p x : is_derive (peval p) x (peval (pder p) x).
Proof.
  induction p as [|c p IH].
  - cbn. apply (is_derive_const 0).
  - apply (is_derive_ext (fun y => IZR c + y * peval p y)); [intros; reflexivity|].
    evar_last.
    + apply (is_derive_plus (fun _ => IZR c) (fun y => y * peval p y)); [apply is_derive_const|].
      apply (is_derive_mult (fun y : R => y) (peval p) x 1 (peval (pder p) x)); [exact (is_derive_id x)|exact IH|intros; apply Rmult_comm].
    + cbn [pder]. change 1%Z with (0 + 1)%Z. rewrite pder_from_succ, pder_from_0.
      unfold plus, mult, zero; cbn. ring.
Qed.

(** ** Inequalities on [0,b/d] through Bernstein coefficients *)
(** sum of l_i s^(n-i) t^i *)
Fixpoint heval (l : list Z) (s t : R) : R :=
  match l with nil => 0 | c :: l' => IZR c * s ^ length l' + t * heval l' s t end.
Fixpoint vadd (p q : list Z) : list Z :=
  match p, q with c :: p', d :: q' => (c + d)%Z :: vadd p' q' | _, _ => nil end.
(** multiply by s+t and add c t^n *)
Definition bstep (l : list Z) (c : Z) : list Z := vadd (l ++ [c]) (0%Z :: l).
Definition bern (p : list Z) : list Z := match p with nil => nil | c :: p' => fold_left bstep p' [c] end.

Lemma vadd_len p q : length p = length q -> length (vadd p q) = length p.
Proof. revert q; induction p as [|c p IH]; intros [|d q] H; try discriminate; cbn in *; auto. Qed.
Lemma vadd_heval p q s t : length p = length q -> heval (vadd p q) s t = heval p s t + heval q s t.
Proof.
  revert q; induction p as [|c p IH]; intros [|d q] H; try discriminate; cbn [vadd heval]; [ring|].
  injection H as H. rewrite IH, vadd_len, plus_IZR, H by exact H. ring.
Qed.
Lemma heval_app l c s t : heval (l ++ [c]) s t = s * heval l s t + IZR c * t ^ length l.
Proof.
  induction l as [|d l IH]; [cbn; ring|]. cbn [app heval length pow]. rewrite IH, app_length. cbn [length]. rewrite Nat.add_1_r. cbn [pow]. ring.
Qed.
Lemma bstep_len l c : length (bstep l c) = S (length l).
Proof. unfold bstep. rewrite vadd_len; rewrite app_length; cbn; lia. Qed.
Lemma bstep_heval l c t : heval (bstep l c) (1 - t) t = heval l (1 - t) t + IZR c * t ^ length l.
Proof. unfold bstep. rewrite vadd_heval by (rewrite app_length; cbn; lia). rewrite heval_app. cbn [heval]. ring. Qed.
Lemma bfold_heval p l t : heval (fold_left bstep p l) (1 - t) t = heval l (1 - t) t + t ^ length l * peval p t.
Proof.
  revert l; induction p as [|c p IH]; intros l; cbn [fold_left]; [cbn; ring|].
  rewrite IH, bstep_heval, bstep_len, peval_cons. cbn [pow]. ring.
Qed.
Lemma bern_heval p t : heval (bern p) (1 - t) t = peval p t.
Proof. destruct p as [|c p]; [reflexivity|]. cbn [bern]. rewrite bfold_heval, peval_cons. cbn [heval length pow]. ring. Qed.
Lemma bfold_len p l : length (fold_left bstep p l) = (length l + length p)%nat.
Proof. revert l; induction p as [|c p IH]; intros l; cbn [fold_left length]; [lia|]. rewrite IH, bstep_len. lia. Qed.
Lemma bern_len p : length (bern p) = length p.
Proof. destruct p as [|c p]; [reflexivity|]. cbn [bern]. rewrite bfold_len. reflexivity. Qed.

(** d^(n-1) p(b x / d), i.e. the coefficients c_i b^i d^(n-1-i) *)
Fixpoint pstretch (p : list Z) (b d : Z) (bi : Z) : list Z :=
  match p with nil => nil | c :: p' => (bi * d ^ Z.of_nat (length p') * c)%Z :: pstretch p' b d (b * bi) end.
Lemma pstretch_eval p b d bi x : d <> 0%Z ->
  peval (pstretch p b d bi) x = IZR bi * IZR d ^ (length p - 1) * peval p (IZR b / IZR d * x).
Proof.
  intros Hd. assert (Hd' : IZR d <> 0) by (now apply not_0_IZR).
  revert bi. induction p as [|c p IH]; intros bi; [cbn; ring|]. cbn [pstretch length]. rewrite !peval_cons, IH, !mult_IZR, <- pow_IZR.
  replace (S (length p) - 1)%nat with (length p) by lia.
  destruct p as [|c' p]; [cbn; ring|]. cbn [length]. replace (S (length p) - 1)%nat with (length p) by lia. cbn [pow]. field. exact Hd'.
Qed.

(** e |n_i| <= d_i and 0 < d_i for all i *)
Fixpoint dominated (e : Z) (n d : list Z) : bool :=
  match n, d with
  | nil, nil => true
  | x :: n, y :: d => (0 <? y)%Z && (Z.abs (e * x) <=? y)%Z && dominated e n d
  | _, _ => false
  end.
Lemma dominated_len e n d : dominated e n d = true -> length n = length d.
Proof.
  revert d; induction n as [|x n IH]; intros [|y d]; cbn; intros H; try discriminate; [reflexivity|].
  apply andb_prop in H as [_ H]. f_equal. now apply IH.
Qed.
Lemma dominated_heval e n d s t : (0 < e)%Z -> 0 <= s -> 0 <= t -> dominated e n d = true ->
  IZR e * Rabs (heval n s t) <= heval d s t /\ 0 <= heval d s t /\ (d <> nil -> 0 < s + t -> 0 < heval d s t).
Proof.
  intros He Hs Ht. apply IZR_lt in He as He'. revert d; induction n as [|x n IH]; intros [|y d] H; try discriminate.
  - cbn. rewrite Rabs_R0. split; [lra|]. split; [lra|]. intros N; now contradiction N.
  - cbn [dominated] in H. apply andb_prop in H as [H H2]. apply andb_prop in H as [H0 H1].
    apply Z.ltb_lt in H0. apply Z.leb_le in H1. apply IZR_le in H1. rewrite abs_IZR, mult_IZR, Rabs_mult, (Rabs_right (IZR e)) in H1 by lra.
    apply IZR_lt in H0. pose proof (dominated_len _ _ _ H2) as El. destruct (IH d H2) as (I1 & I2 & I3). cbn [heval]. rewrite El.
    pose proof (pow_le s (length d) Hs) as Hp.
    assert (Hyp : 0 <= IZR y * s ^ length d) by (apply Rmult_le_pos; lra).
    assert (Hth : 0 <= t * heval d s t) by (apply Rmult_le_pos; lra).
    split; [|split; [lra|]].
    + eapply Rle_trans; [apply Rmult_le_compat_l; [lra|apply Rabs_triang]|]. rewrite Rmult_plus_distr_l, !Rabs_mult.
      rewrite (Rabs_right (s ^ _)), (Rabs_right t) by lra.
      apply Rplus_le_compat.
      * rewrite <- Rmult_assoc. apply Rmult_le_compat_r; lra.
      * replace (IZR e * (t * Rabs (heval n s t))) with (t * (IZR e * Rabs (heval n s t))) by ring. now apply Rmult_le_compat_l.
    + intros _ Hst. destruct (Req_dec s 0) as [->|Hs0].
      * destruct d as [|y' d]; [cbn; lra|]. assert (0 < t * heval (y' :: d) 0 t); [|lra].
        apply Rmult_lt_0_compat; [lra|]. apply I3; [discriminate|lra].
      * assert (0 < IZR y * s ^ length d); [|lra]. apply Rmult_lt_0_compat; [lra|]. apply pow_lt. lra.
Qed.

(** The certificate for [0, b/d]; both lists have the same length. *)
Definition dom_on (e : Z) (n p : list Z) (b d : Z) : bool :=
  Nat.eqb (length n) (length p) && negb (Nat.eqb (length p) 0) && dominated e (bern (pstretch n b d 1)) (bern (pstretch p b d 1)).
Lemma pstretch_len p b d bi : length (pstretch p b d bi) = length p.
Proof. revert bi; induction p as [|c p IH]; intros bi; cbn; auto. Qed.
Lemma dom_on_sound e n p b d x : (0 < e)%Z -> (0 < b)%Z -> (0 < d)%Z -> dom_on e n p b d = true -> 0 <= x <= IZR b / IZR d ->
  0 < peval p x /\ IZR e * Rabs (peval n x) <= peval p x.
Proof.
  intros He Hb Hd H Hx. apply IZR_lt in Hb as Hb'. apply IZR_lt in Hd as Hd'.
  apply andb_prop in H as [H H2]. apply andb_prop in H as [H0 H1]. apply Nat.eqb_eq in H0. apply negb_true_iff, Nat.eqb_neq in H1.
  set (t := x * (IZR d / IZR b)).
  assert (Ht : 0 <= t <= 1).
  { unfold t. assert (0 < IZR d / IZR b) by (apply Rdiv_lt_0_compat; lra). split; [nra|].
    apply Rle_trans with (IZR b / IZR d * (IZR d / IZR b)); [apply Rmult_le_compat_r; lra|]. right. field. lra. }
  assert (E : forall q, peval (pstretch q b d 1) t = IZR d ^ (length q - 1) * peval q x).
  { intros q. rewrite pstretch_eval by lia. replace (IZR b / IZR d * t) with x by (unfold t; field; lra). ring. }
  destruct (dominated_heval e _ _ (1 - t) t He ltac:(lra) ltac:(lra) H2) as (G1 & _ & G2).
  rewrite !bern_heval, !E, H0 in *. assert (Hp : 0 < IZR d ^ (length p - 1)) by (apply pow_lt; lra).
  rewrite Rabs_mult, (Rabs_right (IZR d ^ _)) in G1 by lra.
  split.
  - assert (0 < IZR d ^ (length p - 1) * peval p x); [|nra]. apply G2; [|lra].
    intros N. apply (f_equal (@length Z)) in N. rewrite bern_len, pstretch_len in N. now apply H1.
  - apply Rmult_le_reg_l with (IZR d ^ (length p - 1)); [exact Hp|]. eapply Rle_trans; [|exact G1]. right. ring.
Qed.
(** padding with zeros *)
Definition pad_to (p q : list Z) : list Z := padd p (pscale 0 q).
Lemma peval_pad p q x : peval (pad_to p q) x = peval p x.
Proof. unfold pad_to. rewrite peval_add, peval_scale. ring. Qed.
Definition dom_cert (e : Z) (n p : list Z) (b d : Z) : bool := dom_on e (pad_to n p) (pad_to p n) b d.
Lemma dom_cert_sound e n p b d x : (0 < e)%Z -> (0 < b)%Z -> (0 < d)%Z -> dom_cert e n p b d = true -> 0 <= x <= IZR b / IZR d ->
  0 < peval p x /\ IZR e * Rabs (peval n x) <= peval p x.
Proof.
  intros He Hb Hd H Hx. destruct (dom_on_sound _ _ _ _ _ x He Hb Hd H Hx) as [H1 H2]. rewrite !peval_pad in *. auto.
Qed.
(** positive coefficients, positive argument *)
Lemma peval_pos_coeffs p x : 0 <= x -> forallb (Z.ltb 0) p = true -> p <> nil -> 0 < peval p x.
Proof.
  intros Hx. induction p as [|c p IH]; intros H N; [now contradiction N|]. cbn [forallb] in H. apply andb_prop in H as [Hc H].
  apply Z.ltb_lt, IZR_lt in Hc. rewrite peval_cons. destruct p as [|c' p]; [cbn; lra|].
  specialize (IH H ltac:(discriminate)). nra.
Qed.
