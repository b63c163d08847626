(** Model of the check macros: PROP_EXPECT... (proptest/PropertyBase.hpp:8-39) and PROP_ASSERT... (proptest/assert.hpp:75-151).
    A macro pastes the tokens of its arguments into an expression, which the compiler then parses: so arguments are token lists here,
    and the compiler is a parser for C++ expressions (C++ standard [expr]) restricted to primary expressions (opaque, [TAtom]), parentheses, prefix
    operators, the binary operators from * to || and the conditional operator; casts, assignment and the comma operator are left out, calls and member accesses
    are part of an opaque primary expression.
    PROP_ASSERT_EQ, _NE, _LT, _GT, _LE, _GE (assert.hpp:98-103) pass a std::string where AssertFailed takes a const char* (assert.hpp:14, 88) and do not compile:
    they are not modelled. *)
From Coq Require Import List ZArith Bool Arith.
From Verif Require Import Base.
Import ListNotations.
Local Open Scope list_scope.

(** Binary operators: C++ standard [expr.mul] to [expr.log.or].
    (What the arguments of the macros PropertyBase.hpp:21-39, assert.hpp:94-96 may contain.) *)
Inductive binop := Mul | Div | Mod | Add | Sub | Shl | Shr | Ltc | Gtc | Lec | Gec | Eqc | Nec | BAnd | BXor | BOr | LAnd | LOr.
(** Their precedence levels; 0 is a primary expression, 1 a unary one, 12 a conditional one. *)
Definition level (o : binop) : nat :=
  match o with
  | Mul | Div | Mod => 2
  | Add | Sub => 3
  | Shl | Shr => 4
  | Ltc | Gtc | Lec | Gec => 5
  | Eqc | Nec => 6
  | BAnd => 7
  | BXor => 8
  | BOr => 9
  | LAnd => 10
  | LOr => 11
  end.
(** The level of a whole expression, such as the condition of PropertyBase.hpp:10, assert.hpp:77. *)
Definition top : nat := 12.

(** Tokens.  A minus sign is TOp Sub, also in front of an operand. (Of the arguments of PropertyBase.hpp:21-39, assert.hpp:94-96.) *)
Inductive tok := TAtom (x : nat) | TL | TR | TNot | TTilde | TOp (o : binop) | TQ | TColon.

(** Prefix operators: !, ~ and -. (PropertyBase.hpp:10, assert.hpp:77, 96.) *)
Inductive unop := Not | Compl | Neg.
(** What the compiler makes of PropertyBase.hpp:10, 12, assert.hpp:77. *)
Inductive expr :=
| EAtom (x : nat)
| EUn (o : unop) (e : expr)
| EBin (o : binop) (a b : expr)
| ECond (c a b : expr).

(** The compiler's parser: an expression of level [n] at the start of the tokens, and the tokens left.  [Throw EOther]: a syntax error.
    (Of PropertyBase.hpp:10, 12, assert.hpp:77.) *)
Fixpoint pexp (fuel n : nat) (t : list tok) : res (expr * list tok) :=
  match fuel with
  | O => OutOfFuel
  | S f =>
      if n =? 0 then
        match t with
        | TAtom x :: r => Ok (EAtom x, r)
        | TL :: r => do '(e, r1) <- pexp f top r; match r1 with TR :: r2 => Ok (e, r2) | _ => Throw EOther end
        | _ => Throw EOther
        end
      else if n =? 1 then
        match t with
        | TNot :: r => do '(e, r1) <- pexp f 1 r; Ok (EUn Not e, r1)
        | TTilde :: r => do '(e, r1) <- pexp f 1 r; Ok (EUn Compl e, r1)
        | TOp Sub :: r => do '(e, r1) <- pexp f 1 r; Ok (EUn Neg e, r1)
        | _ => pexp f 0 t
        end
      else if n =? top then
        do '(e, r) <- pexp f 11 t;
        match r with
        | TQ :: r1 =>
            do '(e2, r2) <- pexp f top r1;
            match r2 with
            | TColon :: r3 => do '(e3, r4) <- pexp f top r3; Ok (ECond e e2 e3, r4)
            | _ => Throw EOther
            end
        | _ => Ok (e, r)
        end
      else do '(e, r) <- pexp f (n - 1) t; ploop f n e r
  end
(** The operators of level [n] which follow; they group to the left. *)
with ploop (fuel n : nat) (e : expr) (t : list tok) : res (expr * list tok) :=
  match fuel with
  | O => OutOfFuel
  | S f =>
      match t with
      | TOp o :: r => if level o =? n then do '(e2, r2) <- pexp f (n - 1) r; ploop f n (EBin o e e2) r2 else Ok (e, t)
      | _ => Ok (e, t)
      end
  end.
(** Of the whole of a condition (PropertyBase.hpp:10, assert.hpp:77) or operand printed (PropertyBase.hpp:12). *)
Definition parse (fuel : nat) (t : list tok) : res expr :=
  do '(e, r) <- pexp fuel top t; match r with [] => Ok e | _ => Throw EOther end.

(** ** Evaluation *)

(** Values, and what the user's types make of operators: these may be overloaded, may have effects on the user's world, may throw; only !, &&, || and ?:
    are built in.  [atom]: the opaque primary expressions. (In PropertyBase.hpp:10, 12, assert.hpp:77.) *)
Record values (W : Type) := {
  val : Type;
  truth : val -> bool;
  ofb : bool -> val;
  truth_ofb : forall b, truth (ofb b) = b;
  atom : nat -> W -> (val + err) * W;
  un : unop -> val -> W -> (val + err) * W;
  bin : binop -> val -> val -> W -> (val + err) * W
}.
Arguments val {W} _.
Arguments truth {W} _ _.
Arguments ofb {W} _ _.
Arguments atom {W} _ _ _.
Arguments un {W} _ _ _ _.
Arguments bin {W} _ _ _ _ _.

(** C++ standard [expr]; the operands of binary operators are evaluated in the order [lf] (left first), which the standard does not fix for most.
    (Of PropertyBase.hpp:10, 12, assert.hpp:77.) *)
Fixpoint eval {W} (V : values W) (lf : bool) (e : expr) (w : W) : (val V + err) * W :=
  match e with
  | EAtom x => atom V x w
  | EUn o a =>
      match eval V lf a w with
      | (inl v, w1) => match o with Not => (inl (ofb V (negb (truth V v))), w1) | _ => un V o v w1 end
      | r => r
      end
  | EBin LAnd a b =>
      match eval V lf a w with
      | (inl v, w1) => if truth V v then match eval V lf b w1 with (inl u, w2) => (inl (ofb V (truth V u)), w2) | r => r end else (inl (ofb V false), w1)
      | r => r
      end
  | EBin LOr a b =>
      match eval V lf a w with
      | (inl v, w1) => if truth V v then (inl (ofb V true), w1) else match eval V lf b w1 with (inl u, w2) => (inl (ofb V (truth V u)), w2) | r => r end
      | r => r
      end
  | EBin o a b =>
      if lf then
        match eval V lf a w with
        | (inl v, w1) => match eval V lf b w1 with (inl u, w2) => bin V o v u w2 | r => r end
        | r => r
        end
      else
        match eval V lf b w with
        | (inl u, w1) => match eval V lf a w1 with (inl v, w2) => bin V o v u w2 | r => r end
        | r => r
        end
  | ECond c a b =>
      match eval V lf c w with
      | (inl v, w1) => if truth V v then eval V lf a w1 else eval V lf b w1
      | r => r
      end
  end.

(** ** The macros *)

(** PropertyBase.hpp:21-29, assert.hpp:94-96. *)
Inductive macro :=
| ExpectTrue (cond : list tok)             (* PROP_EXPECT, PROP_EXPECT_TRUE: 21-22 *)
| ExpectFalse (cond : list tok)            (* 23 *)
| ExpectCmp (o : binop) (a b : list tok)   (* 24-29: ==, !=, <, >, <=, >= *)
| AssertTrue (cond : list tok)             (* PROP_ASSERT, PROP_ASSERT_TRUE: 94-95 *)
| AssertFalse (cond : list tok).           (* 96 *)

(** The argument [condition] of PROP_EXPECT_STREAM or PROP_ASSERT_VARGS. (PropertyBase.hpp:21-29, assert.hpp:94-96.) *)
Definition condition (m : macro) : list tok :=
  match m with
  | ExpectTrue c | AssertTrue c => c
  | ExpectFalse c => c
  | ExpectCmp o a b => TL :: a ++ TOp o :: b ++ [TR]
  | AssertFalse c => TNot :: c
  end.
(** if (!(condition)): PropertyBase.hpp:10, assert.hpp:77. *)
Definition tested (m : macro) : list tok := TNot :: TL :: condition m ++ [TR].
(** What is printed on failure, (a) and (b) of PropertyBase.hpp:12; string literals are left out. *)
Definition printed (m : macro) : list (list tok) :=
  match m with
  | ExpectFalse c => [TL :: c ++ [TR]]
  | ExpectCmp _ a b => [TL :: a ++ [TR]; TL :: b ++ [TR]]
  | _ => []
  end.

(** Nothing happens (or PropertyBase::succeed is called); a failure is recorded, with the values printed (PropertyBase.hpp:11-13); AssertFailed is thrown
    (assert.hpp:78-79); the user's code throws [e]. *)
Inductive mout (V : Type) := MPass | MRecorded (vs : list V) | MAssert | MThrew (e : err).
Arguments MPass {V}.
Arguments MRecorded {V} _.
Arguments MAssert {V}.
Arguments MThrew {V} _.

(** str << (a) << (sign) << (b): left to right. (PropertyBase.hpp:12.) *)
Fixpoint evalAll {W} (V : values W) (lf : bool) (es : list expr) (w : W) : (list (val V) + err) * W :=
  match es with
  | [] => (inl [], w)
  | e :: r =>
      match eval V lf e w with
      | (inl v, w1) => match evalAll V lf r w1 with (inl vs, w2) => (inl (v :: vs), w2) | (inr x, w2) => (inr x, w2) end
      | (inr x, w1) => (inr x, w1)
      end
  end.

(** PropertyBase.hpp:8-19 PROP_EXPECT_STREAM, assert.hpp:75-81 PROP_ASSERT_VARGS. *)
Definition runMacro {W} (fuel : nat) (V : values W) (lf : bool) (m : macro) (w : W) : res (mout (val V) * W) :=
  do test <- parse fuel (tested m);
  do prints <- mapM (parse fuel) (printed m);
  Ok match eval V lf test w with
     | (inr e, w1) => (MThrew e, w1)
     | (inl v, w1) =>
         if truth V v then
           match m with
           | AssertTrue _ | AssertFalse _ => (MAssert, w1)
           | _ => match evalAll V lf prints w1 with
                  | (inl vs, w2) => (MRecorded vs, w2)
                  | (inr e, w2) => (MThrew e, w2)
                  end
           end
         else (MPass, w1)
     end.

(** ** Comparing memory *)

(** memcmp(a, b, n) == 0 on two buffers of bytes: reading past the end of one is undefined. *)
Definition memcmp_eq (a b : list Z) (n : nat) : res bool :=
  if (n <=? length a) && (n <=? length b) then Ok (forallb (fun xy => Z.eqb (fst xy) (snd xy)) (combine (firstn n a) (firstn n b))) else UB.
(** PropertyBase.hpp:30-31 and 35-36, assert.hpp:105-115 and 129-139: STREQ and STRNE ([eq] = false); does the check pass? *)
Definition streq (eq : bool) (a b : list Z) (n : nat) : res bool := do r <- memcmp_eq a b n; Ok (Bool.eqb r eq).
(** PropertyBase.hpp:32-34 and 37-39, assert.hpp:117-127 and 141-151: STREQ2, STRNE2. *)
Definition streq2 (eq : bool) (a b : list Z) (n1 n2 : nat) : res bool := do r <- memcmp_eq a b (if n1 <=? n2 then n1 else n2); Ok (Bool.eqb r eq).
