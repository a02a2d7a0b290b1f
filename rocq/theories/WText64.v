(** Witness: a way of printing and reading binary64 numbers that loses nothing. *)
From Verif Require Import Base Arith64 MText SText PText.
From Flocq Require Import IEEE754.BinarySingleNaN Core.Core.
From Coq Require Import SpecFloat Bool.

Definition sf_code (x : spec_float) : Z :=
  match x with
  | S754_zero s => if s then 1 else 0
  | S754_infinity s => if s then 3 else 2
  | S754_nan => 4
  | S754_finite s m e => 8 + ((Zpos m * 4096 + (e + 1100)) * 2 + (if s then 1 else 0))
  end%Z.
Definition sf_decode (z : Z) : spec_float :=
  (if z <? 8 then
    (if z =? 0 then S754_zero false else if z =? 1 then S754_zero true else
     if z =? 2 then S754_infinity false else if z =? 3 then S754_infinity true else S754_nan)
  else
    let q := (z - 8) / 2 in
    S754_finite ((z - 8) mod 2 =? 1) (Z.to_pos (q / 4096)) (q mod 4096 - 1100))%Z.
Definition text64 (x : F FA) : text := fmt_N (Z.to_N (sf_code (B2SF x))).
Definition stod64 (t : text) : res (F FA) :=
  let u := skip_spaces t in
  if starts_with_digit u then
    let sf := sf_decode (read_digits u 0) in
    match bool_dec (valid_binary 53 1024 sf) true with
    | left H => Ok (SF2B sf H)
    | right _ => Throw ExOutOfRange
    end
  else Throw ExInvalidArgument.

Lemma finite_bounds m e : bounded 53 1024 m e = true -> (Zpos m < 2 ^ 53 /\ -1074 <= e <= 971)%Z.
Proof.
  intros H. apply andb_true_iff in H as [H1 H2]. apply Zeq_bool_eq in H1. apply Zle_bool_imp_le in H2.
  unfold fexp, emin in H1. 
  assert (D : (Zpos (digits2_pos m) <= 53)%Z) by lia.
  split; [|lia]. rewrite Zpos_digits2_pos in D.
  pose proof (Zpower_gt_Zdigits radix2 53 (Zpos m) D) as P. cbn in P. exact P.
Qed.
Lemma code_decode x : valid_binary 53 1024 x = true -> sf_decode (sf_code x) = x /\ (0 <= sf_code x < 2 ^ 80)%Z.
Proof.
  destruct x as [[]|[]| |s m e]; cbn [valid_binary]; intros H; try (split; [reflexivity|cbn; lia]).
  apply finite_bounds in H as [H1 H2]. unfold sf_code, sf_decode.
  set (b := if s then 1%Z else 0%Z). assert (B : (0 <= b < 2)%Z) by (unfold b; destruct s; lia).
  assert (R : (0 <= e + 1100 < 4096)%Z) by lia.
  split; [|lia].
  destruct (Z.ltb_spec (8 + ((Zpos m * 4096 + (e + 1100)) * 2 + b)) 8); [lia|]. cbv zeta.
  replace (8 + ((Zpos m * 4096 + (e + 1100)) * 2 + b) - 8)%Z with (b + (Zpos m * 4096 + (e + 1100)) * 2)%Z by lia.
  rewrite Z.mod_add, Z.div_add by lia. rewrite (Z.mod_small b), (Z.div_small b) by lia.
  rewrite Z.add_0_l. rewrite (Z.add_comm (Zpos m * 4096)), Z.mod_add, Z.div_add by lia. rewrite Z.mod_small, Z.div_small by lia.
  cbn [Z.add Z.to_pos]. f_equal; [unfold b; destruct s; reflexivity|lia].
Qed.

Lemma text64_printable x : printable text64 stod64 x.
Proof.
  destruct (fmt_N_ok (Z.to_N (sf_code (B2SF x)))) as (F1 & F2 & F3).
  destruct (code_decode (B2SF x) (valid_binary_B2SF 53 1024 x)) as [CD CR]. rewrite Z2N.id in F3 by lia.
  split; [|split].
  - intros H. rewrite Forall_forall in F1. apply F1 in H. now apply digit_not in H.
  - intros H. rewrite Forall_forall in F1. apply F1 in H. now apply digit_not in H.
  - intros k rest HR. unfold stod64. fold (text64 x) in F1, F2, F3.
    assert (SK : skip_spaces (repeat space k ++ text64 x ++ rest) = text64 x ++ rest).
    { clear F3. induction k as [|k IH]; [|exact IH]. cbn [repeat app]. destruct (text64 x) as [|c t]; [congruence|].
      inversion F1 as [|? ? HC _]; subst. apply digit_not in HC as [HC _]. cbn [app skip_spaces]. now rewrite HC. }
    rewrite SK. cbv zeta.
    assert (SD : starts_with_digit (text64 x ++ rest) = true).
    { destruct (text64 x) as [|c t]; [congruence|]. inversion F1; subst. assumption. }
    rewrite SD. rewrite read_digits_app by (auto; destruct HR as [->|(t & ->)]; reflexivity).
    rewrite F3, CD. destruct (bool_dec (valid_binary 53 1024 (B2SF x)) true) as [H|H].
    + exact (f_equal Ok (SF2B_B2SF 53 1024 x H)).
    + destruct H. apply valid_binary_B2SF.
Qed.
Lemma dec_length f n : length (dec f n) <= f.
Proof.
  revert n. induction f as [|f IH]; intros n; cbn [dec]; [cbn; lia|]. destruct (n <? 10)%N; [cbn; lia|].
  rewrite app_length. cbn [length]. specialize (IH (n / 10)%N). lia.
Qed.
Lemma text64_length x : length (text64 x) <= 1000.
Proof.
  unfold text64, fmt_N. etransitivity; [apply dec_length|].
  destruct (code_decode (B2SF x) (valid_binary_B2SF 53 1024 x)) as [_ CR].
  assert (N.log2 (Z.to_N (sf_code (B2SF x))) <= 80)%N; [|lia].
  transitivity (N.log2 (2 ^ 80)); [apply N.log2_le_mono; lia|]. rewrite N.log2_pow2; lia.
Qed.
