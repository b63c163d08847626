(** The grammar of expressions, and what the check macros should do. *)
From Coq Require Import List ZArith Bool Arith.
From Verif Require Import Base MacroModel.
Import ListNotations.
Local Open Scope list_scope.

(** C++ standard [expr.prim] to [expr.cond]: the tokens [t] are an expression [e] of level [n]. *)
Inductive derives : nat -> list tok -> expr -> Prop :=
| d_atom : forall x, derives 0 [TAtom x] (EAtom x)
| d_paren : forall t e, derives top t e -> derives 0 (TL :: t ++ [TR]) e
| d_not : forall t e, derives 1 t e -> derives 1 (TNot :: t) (EUn Not e)
| d_compl : forall t e, derives 1 t e -> derives 1 (TTilde :: t) (EUn Compl e)
| d_neg : forall t e, derives 1 t e -> derives 1 (TOp Sub :: t) (EUn Neg e)
| d_bin : forall o t1 t2 e1 e2, derives (level o) t1 e1 -> derives (level o - 1) t2 e2 -> derives (level o) (t1 ++ TOp o :: t2) (EBin o e1 e2)
| d_cond : forall t1 t2 t3 e1 e2 e3, derives 11 t1 e1 -> derives top t2 e2 -> derives top t3 e3 -> derives top (t1 ++ TQ :: t2 ++ TColon :: t3) (ECond e1 e2 e3)
| d_lift : forall n t e, n < top -> derives n t e -> derives (S n) t e.

(** The binary operators from the tightest to the loosest, C++ standard [expr.mul] to [expr.log.or]; each group to the left. *)
Definition groups : list (list binop) :=
  [[Mul; Div; Mod]; [Add; Sub]; [Shl; Shr]; [Ltc; Gtc; Lec; Gec]; [Eqc; Nec]; [BAnd]; [BXor]; [BOr]; [LAnd]; [LOr]].
Definition inGroup (o : binop) (i : nat) : Prop := exists g, nth_error groups i = Some g /\ In o g.

(** A comparison. *)
Definition comparison (o : binop) : Prop := match o with Eqc | Nec | Ltc | Gtc | Lec | Gec => True | _ => False end.

(** What a condition comes to: true or false, or an exception. *)
Definition value_of {W} (V : values W) (lf : bool) (e : expr) (w : W) : (bool + err) * W :=
  match eval V lf e w with (inl v, w') => (inl (truth V v), w') | (inr x, w') => (inr x, w') end.

(** The compiler's view does not depend on the fuel once there is enough. *)
Definition eventually {A} (f : nat -> res A) (a : A) : Prop := exists n0, forall n, n0 <= n -> f n = Ok a.
