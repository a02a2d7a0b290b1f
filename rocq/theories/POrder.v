(** The comparison operators of the three arithmetics are compatible (NaN compares false). *)
From Verif Require Import Base Arith64 RFacts.
From Coq Require Import Reals Lra.
From Flocq Require Import IEEE754.BinarySingleNaN Core.
Local Open Scope R_scope.

(** x <= y excludes y < x, and x < y <= z gives x < z. *)
Definition order_ok (a : Arith) : Prop :=
  (forall x y, fle a x y = true -> flt a y x = false) /\
  (forall x y z, flt a x y = true -> fle a y z = true -> flt a x z = true).

Lemma order_RA : order_ok RA.
Proof.
  split; cbn.
  - intros x y H. destruct (Rleb_spec x y); [|discriminate]. destruct (Rltb_spec y x); auto. lra.
  - intros x y z H1 H2. destruct (Rltb_spec x y), (Rleb_spec y z); try discriminate.
    destruct (Rltb_spec x z); auto. lra.
Qed.

Lemma order_EA : order_ok EA.
Proof.
  split; cbn.
  - intros [x| | |] [y| | |]; cbn; auto; try discriminate. apply (proj1 order_RA).
  - intros [x| | |] [y| | |] [z| | |]; cbn; auto; try discriminate. apply (proj2 order_RA).
Qed.

Lemma fin_lt (x y : Arith64.float) : is_finite x = true -> is_finite y = true -> Bltb x y = Rltb (B2R x) (B2R y).
Proof.
  intros Hx Hy. rewrite Bltb_correct by auto. destruct (Rltb_spec (B2R x) (B2R y)).
  - now apply Rlt_bool_true.
  - apply Rlt_bool_false. lra.
Qed.
Lemma fin_le (x y : Arith64.float) : is_finite x = true -> is_finite y = true -> Bleb x y = Rleb (B2R x) (B2R y).
Proof.
  intros Hx Hy. rewrite Bleb_correct by auto. destruct (Rleb_spec (B2R x) (B2R y)).
  - now apply Rle_bool_true.
  - apply Rle_bool_false. lra.
Qed.

(** a double as an extended real; comparisons agree *)
Definition to_ext (x : Arith64.float) : ext :=
  match x with B754_infinity false => PInf | B754_infinity true => NInf | B754_nan => NaN | _ => Fin (B2R x) end.
Lemma ext_lt x y : Bltb x y = eltb (to_ext x) (to_ext y).
Proof.
  destruct (is_finite x) eqn:Fx, (is_finite y) eqn:Fy.
  - rewrite fin_lt by auto. destruct x, y; try discriminate; reflexivity.
  - destruct x as [| | |sx ? ? ?], y as [|[]| |]; try discriminate; try reflexivity; destruct sx; reflexivity.
  - destruct x as [|[]| |], y as [| | |sy ? ? ?]; try discriminate; try reflexivity; destruct sy; reflexivity.
  - destruct x as [|[]| |], y as [|[]| |]; try discriminate; reflexivity.
Qed.
Lemma ext_le x y : Bleb x y = eleb (to_ext x) (to_ext y).
Proof.
  destruct (is_finite x) eqn:Fx, (is_finite y) eqn:Fy.
  - rewrite fin_le by auto. destruct x, y; try discriminate; reflexivity.
  - destruct x as [| | |sx ? ? ?], y as [|[]| |]; try discriminate; try reflexivity; destruct sx; reflexivity.
  - destruct x as [|[]| |], y as [| | |sy ? ? ?]; try discriminate; try reflexivity; destruct sy; reflexivity.
  - destruct x as [|[]| |], y as [|[]| |]; try discriminate; reflexivity.
Qed.

Lemma order_FA : order_ok FA.
Proof.
  split; cbn.
  - intros x y H. rewrite ext_lt. rewrite ext_le in H. now apply (proj1 order_EA).
  - intros x y z H1 H2. rewrite ext_lt in *. rewrite ext_le in H2. eapply (proj2 order_EA); eauto.
Qed.
