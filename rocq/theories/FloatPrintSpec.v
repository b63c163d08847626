(** Vocabulary for statements about printed floating point values. *)
From Coq Require Import List ZArith QArith Qabs Qpower SpecFloat.
From Verif Require Import Base FloatModel FloatSpec PrintSpec.
Import ListNotations.
Local Open Scope Z_scope.

(** z * 10^k *)
Definition decimal (z k : Z) : Q := (inject_Z z * inject_Z 10 ^ k)%Q.
Arguments decimal (z k)%Z_scope.
(** The value of a finite floating point number. *)
Definition fval (v : spec_float) : Q :=
  match v with S754_finite s m e => (inject_Z (sgn s (Zpos m)) * inject_Z 2 ^ e)%Q | _ => 0%Q end.
Definition finite (v : spec_float) : Prop := match v with S754_zero _ | S754_finite _ _ _ => True | _ => False end.

(** Reading a numeral: an optional minus sign, digits, an optional point with digits, an optional exponent with sign and at
    least two digits. *)
Definition isDigit (c : Z) : bool := (48 <=? c) && (c <=? 57).
Fixpoint span (t : list Z) : list Z * list Z :=
  match t with c :: r => if isDigit c then let (a, b) := span r in (c :: a, b) else ([], t) | [] => ([], []) end.
Definition readExp (t : list Z) : option Z :=
  match t with
  | [] => Some 0
  | 101 :: s :: d =>
      match span d with
      | (a :: b :: r, []) => if s =? 43 then Some (read_digits (a :: b :: r)) else if s =? 45 then Some (- read_digits (a :: b :: r)) else None
      | _ => None
      end
  | _ => None
  end.
(** The digits before the point, after it, and the exponent. *)
Definition readParts (t : list Z) : option (list Z * list Z * Z) :=
  match span t with
  | ([], _) => None
  | (ip, 46 :: r) => match span r with
                     | ([], _) => None
                     | (fp, r') => option_map (fun x => (ip, fp, x)) (readExp r')
                     end
  | (ip, r) => option_map (fun x => (ip, [], x)) (readExp r)
  end.
(** The numeral stands for the number. *)
Definition standsFor (t : list Z) (neg : bool) (x : Q) : Prop :=
  exists u ip fp e, t = (if neg then 45 :: u else u) /\ readParts u = Some (ip, fp, e) /\
    (x == decimal (sgn neg (read_digits (ip ++ fp))) (e - Z.of_nat (length fp)))%Q.

(** At most six significant digits. *)
Definition six (x : Q) : Prop := exists z k, Z.abs z < 10 ^ 6 /\ (x == decimal z k)%Q.
(** [d] is the number with at most six significant digits nearest to [x]. *)
Definition closest (x d : Q) : Prop := six d /\ forall d', six d' -> (Qabs (x - d) <= Qabs (x - d'))%Q.
