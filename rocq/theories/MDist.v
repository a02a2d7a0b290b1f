(** Model of the distributions of /repo/include/util/math.hpp:113-278 and of
    /repo/include/util/erfinv.hpp. *)
From Verif Require Import Base Arith64 MRandom.

Section Dist.
Context {a : Arith} (m : Libm a).
Local Notation "x + y" := (fadd a x y). Local Notation "x - y" := (fsub a x y).
Local Notation "x * y" := (fmul a x y). Local Notation "x / y" := (fdiv a x y).
Local Notation "- x" := (fopp a x).

(** std::numeric_limits<double>::quiet_NaN() and infinity(), written as the operations producing
    them (0/0 and 1/0); meaningful in the instances EA and FA. *)
Definition f_nan : F a := f0 a / f0 a.
Definition f_inf : F a := f1 a / f0 a.
(** std::copysign(y, x); the code uses it only with |x| > 0.85, so the sign of zero is irrelevant. *)
Definition copysign (y x : F a) : F a := if flt a x (f0 a) then - (fabs a y) else fabs a y.

(** erfinv.hpp:88-89, 97-98, 103-104: Horner evaluation of c7..c0. *)
Definition horner8 (c7 c6 c5 c4 c3 c2 c1 c0 r : F a) : F a :=
  ((((((c7 * r + c6) * r + c5) * r + c4) * r + c3) * r + c2) * r + c1) * r + c0.

(** Decimal literals: [lit10 p k] is p * 10^-k. *)
Definition lit10 (p : Z) (k : N) : F a := flit a p (match Z.pow 10 (Z.of_N k) with Zpos q => q | _ => 1%positive end).

(** erfinv.hpp:28  LN2 *)
Definition LN2 : F a := lit10 6931471805599453094172321214581 31.
(** erfinv.hpp:30-46  coefficients of the central branch *)
Definition erfinv_num_a (r : F a) : F a :=
  horner8 (lit10 88709406962545514830200 20) (lit10 11819493347062294404278 18)
          (lit10 23782041382114385731252 18) (lit10 16235862515167575384252 18)
          (lit10 48548868893843886794648 19) (lit10 69706266534389598238465 20)
          (lit10 47072688112383978012285 21) (lit10 11975323115670912564578 22) r.
Definition erfinv_den_a (r : F a) : F a :=
  horner8 (lit10 52264952788528545610 16) (lit10 28729085735721942674 15)
          (lit10 39307895800092710610 15) (lit10 21213794301586595867 15)
          (lit10 53941960214247511077 16) (lit10 68718700749205790830 17)
          (lit10 42313330701600911252 18) (lit10 10000000000000000000 19) r.
(** erfinv.hpp:48-64  coefficients of the intermediate branch *)
Definition erfinv_num_c (r : F a) : F a :=
  horner8 (lit10 774545014278341407640 24) (lit10 227238449892691845833 22)
          (lit10 241780725177450611770 21) (lit10 127045825245236838258 20)
          (lit10 364784832476320460504 20) (lit10 576949722146069140550 20)
          (lit10 463033784615654529590 20) (lit10 142343711074968357734 20) r.
Definition erfinv_den_c (r : F a) : F a :=
  horner8 (lit10 14859850019840355905497876 34) (lit10 77441459065157709165577218 29)
          (lit10 21494160384252876777097297 27) (lit10 20945065210512749128288442 26)
          (lit10 97547832001787427186894837 26) (lit10 23707661626024532365971225 25)
          (lit10 29036514445419946173133295 25) (lit10 14142135623730950488016887 25) r.
(** erfinv.hpp:66-82  coefficients of the tail branch *)
Definition erfinv_num_e (r : F a) : F a :=
  horner8 (lit10 201033439929228813265 27) (lit10 271155556874348757815 25)
          (lit10 124266094738807843860 23) (lit10 265321895265761230930 22)
          (lit10 296560571828504891230 21) (lit10 178482653991729133580 20)
          (lit10 546378491116411436990 20) (lit10 665790464350110377720 20) r.
Definition erfinv_den_e (r : F a) : F a :=
  horner8 (lit10 2891024605872965461538222 39) (lit10 2010321207683943062279931 31)
          (lit10 2611088405080593625138020 29) (lit10 1112800997078859844711555 27)
          (lit10 2103693768272068968719679 26) (lit10 1936480946950659106176712 25)
          (lit10 8482908416595164588112026 25) (lit10 1414213562373095048801689 24) r.

(** erfinv.hpp:12-110  erfinv<double> *)
Definition erfinv (x : F a) : F a :=
  if flt a x (fofZ a (-1)) || flt a (fofZ a 1) x then f_nan                   (* 14-17 *)
  else if feq a x (f1 a) then f_inf                                           (* 18-21 *)
  else if feq a x (fofZ a (-1)) then - f_inf                                  (* 22-25 *)
  else
    let abs_x := fabs a x in
    if fle a abs_x (lit10 85 2) then                                          (* 86-92 *)
      let r := lit10 180625 6 - lit10 25 2 * x * x in
      x * erfinv_num_a r / erfinv_den_a r
    else
      let r := lsqrt a m (LN2 - llog1p a m (- abs_x)) in                      (* 94 *)
      if fle a r (fofZ a 5) then                                              (* 95-100 *)
        let r := r - lit10 16 1 in
        copysign (erfinv_num_c r / erfinv_den_c r) x
      else                                                                    (* 101-106 *)
        let r := r - fofZ a 5 in
        copysign (erfinv_num_e r / erfinv_den_e r) x.

(** math.hpp:121-155  power_law_distribution(eps, gamma) *)
Definition power_law_pdf (eps gamma x : F a) : F a :=
  (f1 a - gamma) / (f1 a - lpow a m eps (f1 a - gamma) * lpow a m x (- gamma)).
Definition power_law_inverse_cdf (eps gamma x : F a) : F a :=
  lpow a m ((f1 a - lpow a m eps (f1 a - gamma)) * x + lpow a m eps (f1 a - gamma))
           (f1 a / (f1 a - gamma)).
Definition power_law_mean (eps gamma : F a) : F a :=
  - (f1 a - gamma) / (fofZ a 2 - gamma) * lpow a m eps (fofZ a 2 - gamma)
  / (f1 a - lpow a m eps (f1 a - gamma)).
(** math.hpp:132-136  operator() *)
Definition power_law_draw (g : Rng a) (eps gamma : F a) (s : rst g) : F a * rst g :=
  let (u, s) := r_real g (f0 a) (f1 a) s in (power_law_inverse_cdf eps gamma u, s).

(** math.hpp:162-210  truncated_normal_distribution(mean, sigma, eps); the long double product
    2 * Math::pi of pdf_gauss is computed in double here. *)
Definition tn_cdf_gauss (mean sigma x : F a) : F a :=
  lit10 5 1 * (f1 a + lerf a m ((x - mean) / (sigma * lsqrt a m (fofZ a 2)))).
Definition tn_inverse_cdf_gauss (mean sigma y : F a) : F a :=
  erfinv (fofZ a 2 * y - f1 a) * lsqrt a m (fofZ a 2) * sigma + mean.
Definition tn_inverse_cdf (mean sigma eps y : F a) : F a :=
  tn_inverse_cdf_gauss mean sigma
    (y * (f1 a - tn_cdf_gauss mean sigma eps) + tn_cdf_gauss mean sigma eps).
Definition pi_lit : F a := lit10 31415926535897932384626433832795028841971693993751 49.
Definition tn_pdf_gauss (mean sigma x : F a) : F a :=
  f1 a / (sigma * lsqrt a m (fofZ a 2 * pi_lit))
  * lexp a m (lit10 (-5) 1 * lpow a m ((x - mean) / sigma) (fofZ a 2)).
Definition tn_pdf (mean sigma eps x : F a) : F a :=
  if flt a x eps then f0 a
  else f1 a / (f1 a - tn_cdf_gauss mean sigma eps) * tn_pdf_gauss mean sigma x.
(** math.hpp:192-196  operator() *)
Definition tn_draw (g : Rng a) (mean sigma eps : F a) (s : rst g) : F a * rst g :=
  let (u, s) := r_real g (f0 a) (f1 a) s in (tn_inverse_cdf mean sigma eps u, s).

(** math.hpp:218-239  bivariate_normal_distribution; n1 is drawn first *)
Definition bivariate_normal (g : Rng a) (covariance : F a) (s : rst g) : (F a * F a) * rst g :=
  let (n1, s) := r_normal g s in
  let (n2, s) := r_normal g s in
  ((n1, covariance * n1 + lsqrt a m (f1 a - covariance * covariance) * n2), s).

(** math.hpp:241-278  bivariate_gaussian_copula(covariance, power law, truncated normal) *)
Definition copula_cdf_gauss (x : F a) : F a :=
  lit10 5 1 * (f1 a + lerf a m (x / lsqrt a m (fofZ a 2))).
Definition copula_draw (g : Rng a) (covariance : F a) (inverse_cdf1 inverse_cdf2 : F a -> F a)
           (s : rst g) : (F a * F a) * rst g :=
  let '((z0, z1), s) := bivariate_normal g covariance s in
  ((inverse_cdf1 (copula_cdf_gauss z0), inverse_cdf2 (copula_cdf_gauss z1)), s).
End Dist.
