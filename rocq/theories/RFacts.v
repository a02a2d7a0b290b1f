(** Finite sums of reals, comparison reflection. *)
From Verif Require Import Base BaseFacts Arith64.
From Coq Require Import Reals Lra.
Local Open Scope R_scope.

Definition Rsum (l : list R) : R := fold_right Rplus 0 l.
Lemma Rsum_nil : Rsum [] = 0. Proof. reflexivity. Qed.
Lemma Rsum_cons x l : Rsum (x :: l) = x + Rsum l. Proof. reflexivity. Qed.
Arguments Rsum : simpl never.

Lemma Rsum_app l1 l2 : Rsum (l1 ++ l2) = Rsum l1 + Rsum l2.
Proof. induction l1 as [|x l IH]; cbn [app]; rewrite ?Rsum_nil, ?Rsum_cons; [lra|]. rewrite IH. lra. Qed.

Lemma fold_left_Rsum l x : fold_left Rplus l x = x + Rsum l.
Proof.
  revert x. induction l as [|y l IH]; intros x; cbn; rewrite ?Rsum_nil, ?Rsum_cons; [lra|]. rewrite IH. lra.
Qed.

Lemma Rsum_scale (l : list R) c : Rsum (map (fun u => u / c) l) = Rsum l / c.
Proof. induction l as [|x l IH]; cbn; rewrite ?Rsum_nil, ?Rsum_cons; [unfold Rdiv; ring|]. rewrite IH. unfold Rdiv. ring. Qed.

Lemma Rsum_nonneg l : Forall (fun w => 0 <= w) l -> 0 <= Rsum l /\ Forall (fun w => w <= Rsum l) l.
Proof.
  induction 1 as [|w l Hw Hl [IH1 IH2]]; rewrite ?Rsum_nil, ?Rsum_cons; [split; [lra|constructor]|]. split; [lra|].
  constructor; [lra|]. eapply Forall_impl; [|exact IH2]. cbn. intros; lra.
Qed.

Lemma Rltb_spec x y : reflect (x < y) (Rltb x y).
Proof. unfold Rltb. destruct (Rlt_dec x y); constructor; auto. Qed.
Lemma Rleb_spec x y : reflect (x <= y) (Rleb x y).
Proof. unfold Rleb. destruct (Rle_dec x y); constructor; auto. Qed.
Lemma Reqb_spec x y : reflect (x = y) (Reqb x y).
Proof. unfold Reqb. destruct (Req_EM_T x y); constructor; auto. Qed.
