(** Number systems. The numeric code is modelled once, against the record [Arith] of operations it
    uses on [double]; theorems are then stated for every [Arith], or for one of the instances
    - [RA]: exact real arithmetic,
    - [EA]: extended reals with the IEEE-754 rules for infinities and NaN but without rounding
            (zeros are unsigned: 1/0 = +inf),
    - [FA]: IEEE-754 binary64, round to nearest even (Flocq), i.e. what the compiled code does
            when the compiler does not contract operations into FMA. *)
From Verif Require Import Base.
From Coq Require Import Reals.
From Flocq Require Import IEEE754.BinarySingleNaN IEEE754.Bits Core.Core.

Record Arith : Type := mkArith {
  F : Type;
  f0 : F;                       (* 0.0 *)
  f1 : F;                       (* 1.0 *)
  fadd : F -> F -> F;
  fsub : F -> F -> F;
  fmul : F -> F -> F;
  fdiv : F -> F -> F;
  fopp : F -> F;
  fabs : F -> F;                (* std::abs *)
  flt : F -> F -> bool;         (* < : false when an operand is NaN *)
  fle : F -> F -> bool;
  feq : F -> F -> bool;
  fofZ : Z -> F;                (* conversion from an integer type *)
  flit : Z -> positive -> F     (* decimal literal with exact value p/q *)
}.

Section Derived.
Variable a : Arith.
(** std::max(x, y) = (x < y) ? y : x *)
Definition fmax (x y : F a) : F a := if flt a x y then y else x.
(** std::min(x, y) = (y < x) ? y : x *)
Definition fmin (x y : F a) : F a := if flt a y x then y else x.
End Derived.

(** ** Exact reals *)
Definition Rltb (x y : R) : bool := if Rlt_dec x y then true else false.
Definition Rleb (x y : R) : bool := if Rle_dec x y then true else false.
Definition Reqb (x y : R) : bool := if Req_EM_T x y then true else false.

Definition RA : Arith := mkArith R 0%R 1%R Rplus Rminus Rmult Rdiv Ropp Rabs Rltb Rleb Reqb
  IZR (fun p q => (IZR p / IZR (Zpos q))%R).

(** ** Extended reals *)
Inductive ext : Type := Fin (r : R) | PInf | NInf | NaN.

Definition eopp (x : ext) : ext :=
  match x with Fin r => Fin (- r) | PInf => NInf | NInf => PInf | NaN => NaN end.
Definition eadd (x y : ext) : ext :=
  match x, y with
  | NaN, _ | _, NaN => NaN
  | PInf, NInf | NInf, PInf => NaN
  | PInf, _ | _, PInf => PInf
  | NInf, _ | _, NInf => NInf
  | Fin r, Fin s => Fin (r + s)
  end.
(** infinity carrying the sign of [r]; NaN for zero *)
Definition sinf (r : R) : ext :=
  if Rlt_dec 0 r then PInf else if Rlt_dec r 0 then NInf else NaN.
Definition emul (x y : ext) : ext :=
  match x, y with
  | NaN, _ | _, NaN => NaN
  | Fin r, Fin s => Fin (r * s)
  | Fin r, PInf | PInf, Fin r => sinf r
  | Fin r, NInf | NInf, Fin r => sinf (- r)
  | PInf, PInf | NInf, NInf => PInf
  | PInf, NInf | NInf, PInf => NInf
  end.
Definition ediv (x y : ext) : ext :=
  match x, y with
  | NaN, _ | _, NaN => NaN
  | Fin r, Fin s => if Req_EM_T s 0 then sinf r else Fin (r / s)
  | Fin _, _ => Fin 0
  | PInf, Fin s => if Rle_dec 0 s then PInf else NInf
  | NInf, Fin s => if Rle_dec 0 s then NInf else PInf
  | _, _ => NaN
  end.
Definition eabs (x : ext) : ext :=
  match x with Fin r => Fin (Rabs r) | PInf | NInf => PInf | NaN => NaN end.
Definition eltb (x y : ext) : bool :=
  match x, y with
  | NaN, _ | _, NaN => false
  | Fin r, Fin s => Rltb r s
  | NInf, NInf | PInf, _ | _, NInf => false
  | NInf, _ | _, PInf => true
  end.
Definition eleb (x y : ext) : bool :=
  match x, y with
  | NaN, _ | _, NaN => false
  | Fin r, Fin s => Rleb r s
  | NInf, _ | _, PInf => true
  | PInf, _ | _, NInf => false
  end.
Definition eeqb (x y : ext) : bool :=
  match x, y with
  | Fin r, Fin s => Reqb r s
  | PInf, PInf | NInf, NInf => true
  | _, _ => false
  end.

Definition EA : Arith := mkArith ext (Fin 0) (Fin 1) eadd (fun x y => eadd x (eopp y)) emul ediv eopp eabs
  eltb eleb eeqb (fun z => Fin (IZR z)) (fun p q => Fin (IZR p / IZR (Zpos q))).

(** ** binary64 *)
Definition prec : Z := 53.
Definition emax : Z := 1024.
Lemma Hprec : FLX.Prec_gt_0 prec. Proof. reflexivity. Qed.
Lemma Hprec_emax : Prec_lt_emax prec emax. Proof. reflexivity. Qed.
Definition float : Type := binary_float prec emax.
Definition b64_of_Z (z : Z) : float :=
  binary_normalize prec emax Hprec Hprec_emax mode_NE z 0 false.
(** Correctly rounded quotient of two integers; the literals of the source are below 2^53 in
    numerator and denominator after scaling, otherwise this is the double rounding of the value
    (used only as a carrier for literals, no theorem depends on their last bit). *)
Definition FA : Arith := mkArith float (B754_zero false) (b64_of_Z 1)
  (@Bplus prec emax Hprec Hprec_emax mode_NE) (@Bminus prec emax Hprec Hprec_emax mode_NE)
  (@Bmult prec emax Hprec Hprec_emax mode_NE) (@Bdiv prec emax Hprec Hprec_emax mode_NE)
  Bopp Babs
  (@Bltb prec emax) (@Bleb prec emax) (@Beqb prec emax)
  b64_of_Z
  (fun p q => @Bdiv prec emax Hprec Hprec_emax mode_NE (b64_of_Z p) (b64_of_Z (Zpos q))).

(** ** Mathematical library *)
Record Libm (a : Arith) : Type := mkLibm {
  lpow : F a -> F a -> F a;
  llog : F a -> F a;
  ltanh : F a -> F a;
  lsqrt : F a -> F a;
  lerf : F a -> F a;
  llog1p : F a -> F a;
  lexp : F a -> F a
}.

(** Mathematical functions on the reals. [Rpower x y] is exp (y ln x); the C pow is that for a
    positive base, 0 for a zero base with positive exponent, 1 for exponent 0, and the integer
    power for a negative base with an integer exponent. *)
Definition Rpow (x y : R) : R :=
  if Rlt_dec 0 x then Rpower x y
  else if Req_EM_T y 0 then 1%R
  else if Req_EM_T x 0 then 0%R
  else powerRZ x (Int_part y).
Definition Rtanh (x : R) : R := tanh x.

(** C pow on extended reals. Modelled for a non-negative base (and an integer exponent for a
    negative finite base); the remaining cases, which the code does not reach, give NaN. *)
Definition epow (x y : ext) : ext :=
  match y with
  | NaN => match x with Fin r => if Req_EM_T r 1 then Fin 1 else NaN | _ => NaN end
  | Fin s =>
      if Req_EM_T s 0 then Fin 1
      else match x with
           | Fin r => if Req_EM_T r 0 then (if Rlt_dec 0 s then Fin 0 else PInf) else Fin (Rpow r s)
           | PInf => if Rlt_dec 0 s then PInf else Fin 0
           | NInf | NaN => NaN
           end
  | PInf =>
      match x with
      | Fin r => if Req_EM_T (Rabs r) 1 then Fin 1 else if Rlt_dec (Rabs r) 1 then Fin 0 else PInf
      | PInf => PInf
      | NInf => PInf
      | NaN => NaN
      end
  | NInf =>
      match x with
      | Fin r => if Req_EM_T (Rabs r) 1 then Fin 1 else if Rlt_dec (Rabs r) 1 then PInf else Fin 0
      | PInf => Fin 0
      | NInf => Fin 0
      | NaN => NaN
      end
  end.
Definition elog (x : ext) : ext :=
  match x with
  | Fin r => if Rlt_dec 0 r then Fin (ln r) else if Req_EM_T r 0 then NInf else NaN
  | PInf => PInf
  | _ => NaN
  end.
