(** Model of the printing of floating point values: show for float and double (proptest/util/printing.cpp:114-124) and the
    percentages of the summary of tags (proptest/PropertyContext.cpp:91-110).  Both are [os << val] on a stream in its
    default state, which is the conversion "%g" of C with precision 6 (float is converted to double first, which keeps the
    value).  Decimal conversion is exact, with ties to even, as in glibc under the default rounding mode. *)
From Coq Require Import String List ZArith Bool SpecFloat.
From Verif Require Import Base PrintModel FloatModel ContextModel.
Import ListNotations.
Local Open Scope Z_scope.

(** The integer nearest to n/d, the even one if two are equally near. (The rounding of the conversions used by printing.cpp:114-124.) *)
Definition nearest (n d : Z) : Z :=
  let q := n / d in let r := n mod d in
  if 2 * r <? d then q else if d <? 2 * r then q + 1 else if Z.even q then q else q + 1.
(** n/d * 10^k as a fraction. *)
Definition scale10 (n d k : Z) : Z * Z := (n * 10 ^ Z.max 0 k, d * 10 ^ Z.max 0 (- k)).

(** "%.5e" of n/d > 0: the exponent of the first digit, then the value in units of the sixth digit; rounding may carry into
    one more digit. *)
Definition lead (n d : Z) : Z :=
  if d <=? n then Z.of_nat (length (numeral 10 (n / d))) - 1 else - Z.of_nat (length (numeral 10 ((d - 1) / n))).
(** "%.5e" of printing.cpp:114-124 (via operator<<): the exponent and the six digits after rounding. *)
Definition roundE (n d : Z) : Z * Z :=
  let k := lead n d in
  let '(a, b) := scale10 n d (5 - k) in
  let q := nearest a b in
  if q =? 10 ^ 6 then (10 ^ 5, k + 1) else (q, k).

(** "%g" removes zeros at the end of the fraction, and the point if nothing is left of it. (printing.cpp:114-124, via operator<<.) *)
Fixpoint dropZeros (t : text) : text := match t with 48 :: r => dropZeros r | _ => t end.
(** printing.cpp:114-124, via operator<<: the point and the digits left after it. *)
Definition withFraction (ip fp : text) : text :=
  match rev (dropZeros (rev fp)) with [] => ip | f => ip ++ lit "." ++ f end.
(** "%.pf" of n/d > 0 without these zeros. *)
Definition styleF (n d p : Z) : text :=
  let r := nearest (n * 10 ^ p) d in
  withFraction (numeral 10 (r / 10 ^ p)) (pad (Z.to_nat p) (numeral 10 (r mod 10 ^ p))).
(** "%.5e" without these zeros: the exponent has a sign and at least two digits. *)
Definition styleE (q x : Z) : text :=
  withFraction (numeral 10 (q / 10 ^ 5)) (pad 5 (numeral 10 (q mod 10 ^ 5))) ++ lit "e" ++
  (if x <? 0 then lit "-" else lit "+") ++ pad 2 (numeral 10 (Z.abs x)).
(** The choice "%g" makes between them by the exponent of "%.5e". *)
Definition styleG (n d : Z) : text :=
  let '(q, x) := roundE n d in
  if (-4 <=? x) && (x <? 6) then styleF n d (5 - x) else styleE q x.

(** printing.cpp:114-124, via operator<<: the sign. *)
Definition minus (neg : bool) : text := if neg then lit "-" else [].
(** printing.cpp:114-124 show(float), show(double), for a value that is not a NaN; a NaN prints as nan or -nan. *)
Definition showFloat (v : spec_float) : text :=
  match v with
  | S754_zero s => minus s ++ lit "0"
  | S754_infinity s => minus s ++ lit "inf"
  | S754_nan => lit "nan"
  | S754_finite s m e => minus s ++ styleG (Zpos m * 2 ^ Z.max 0 e) (2 ^ Z.max 0 (- e))
  end.
(** The same for the value with bits [raw]: the sign of a NaN is printed (libstdc++ and glibc). (printing.cpp:114-124.) *)
Definition showBits (ty : ftype) (raw : Z) : text :=
  match ofBits ty raw with
  | S754_nan => minus (Z.testbit raw (prec ty + Z.log2 (emax ty))) ++ lit "nan"
  | v => showFloat v
  end.

(** PropertyContext.cpp:107 static_cast<double>(tag.count) / total * 100: [total], a size_t, is converted to double, and so
    is 100; all in binary64. *)
Definition toDouble (n : Z) : spec_float := binary_normalize (prec binary64) (emax binary64) n 0 false.
(** PropertyContext.cpp:107: the quotient times 100. *)
Definition percentage (count total : Z) : spec_float :=
  SFmul (prec binary64) (emax binary64) (SFdiv (prec binary64) (emax binary64) (toDouble count) (toDouble total)) (toDouble 100).
(** PropertyContext.cpp:106-107: the line of one value. *)
Definition summaryLine (value : string) (count total : Z) : text :=
  lit "    " ++ lit value ++ lit ": " ++ dec count ++ lit "/" ++ dec total ++ lit " (" ++ showFloat (percentage count total) ++ lit "%)".
(** PropertyContext.cpp:91-110 printSummary: the lines printed. *)
Definition summaryLines (c : ctx) : list text :=
  flat_map (fun k => (lit "  " ++ lit (fst (fst k)) ++ lit ": ") ::
                     map (fun v => summaryLine (fst v) (Z.of_nat (snd v)) (Z.of_nat (snd (fst k)))) (snd k)) (printSummary c).
