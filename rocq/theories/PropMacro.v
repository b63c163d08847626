(** C62: the check macros. *)
From Coq Require Import List ZArith Bool Lia Arith.
From Verif Require Import Base MacroModel MacroSpec MacroProof.
Import ListNotations.
Local Open Scope list_scope.

(** * Integers, used by the examples: atom 0 to 9 are variables, atom 10 + n is the number n, atom 100 takes the first element off a queue *)

Record world := { vars : list Z; queue : list Z }.
Definition zb (b : bool) : Z := if b then 1%Z else 0%Z.
Definition zbin (o : binop) (x y : Z) : Z :=
  match o with
  | Mul => x * y | Div => x / y | Mod => x mod y | Add => x + y | Sub => x - y | Shl => Z.shiftl x y | Shr => Z.shiftr x y
  | Ltc => zb (x <? y) | Gtc => zb (y <? x) | Lec => zb (x <=? y) | Gec => zb (y <=? x) | Eqc => zb (x =? y) | Nec => zb (negb (x =? y))
  | BAnd => Z.land x y | BXor => Z.lxor x y | BOr => Z.lor x y | LAnd => zb (negb (x =? 0) && negb (y =? 0)) | LOr => zb (negb (x =? 0) || negb (y =? 0))
  end%Z.
Definition ints : values world :=
  {| val := Z; truth := fun z => negb (z =? 0)%Z; ofb := zb; truth_ofb := fun b => match b with true => eq_refl | false => eq_refl end;
     atom := fun n w => if n =? 100 then match queue w with [] => (inr EOther, w) | z :: q => (inl z, {| vars := vars w; queue := q |}) end
                        else if 10 <=? n then (inl (Z.of_nat (n - 10)), w) else (inl (nth n (vars w) 0%Z), w);
     un := fun o v w => (inl match o with Not => zb (v =? 0)%Z | Compl => Z.lnot v | Neg => (- v)%Z end, w);
     bin := fun o v u w => (inl (zbin o v u), w) |}.
Definition with_x (z : Z) : world := {| vars := [z]; queue := [] |}.
Definition x : list tok := [TAtom 0].
Definition num (n : nat) : list tok := [TAtom (10 + n)].
Definition pop_ : list tok := [TAtom 100].

(** * How the text is read *)

(** The parser of the model reads exactly the expressions of the grammar, and these have one reading each. *)
Theorem C62_grammar : forall t e, derives top t e <-> exists fuel, parse fuel t = Ok e.
Proof. exact parse_grammar. Qed.
Example C62_grammar_ex : parse 40 (x ++ TOp BAnd :: num 1 ++ TOp Eqc :: num 0) = Ok (EBin BAnd (EAtom 0) (EBin Eqc (EAtom 11) (EAtom 10))) /\
  parse 40 (x ++ TOp Sub :: num 1 ++ TOp Sub :: TOp Sub :: num 2) = Ok (EBin Sub (EBin Sub (EAtom 0) (EAtom 11)) (EUn Neg (EAtom 12))) /\
  parse 60 (TNot :: TL :: x ++ TOp Ltc :: num 1 ++ TR :: TQ :: x ++ TColon :: num 3) = Ok (ECond (EUn Not (EBin Ltc (EAtom 0) (EAtom 11))) (EAtom 0) (EAtom 13)).
Proof. repeat split. Qed.
(** Operators are grouped as the tables of the standard say. *)
Lemma group_level : forall o i, inGroup o i -> level o = i + 2.
Proof.
  intros o i [g [H I]]. unfold groups in H. do 10 (destruct i as [|i]; [injection H as <-; simpl in I; intuition (subst; reflexivity)|cbn [nth_error] in H]).
  destruct i; discriminate.
Qed.
Theorem C62_precedence : forall o1 o2 i j t1 t2 t3 e1 e2 e3, inGroup o1 i -> inGroup o2 j -> derives 1 t1 e1 -> derives 1 t2 e2 -> derives 1 t3 e3 ->
  exists fuel, parse fuel (t1 ++ TOp o1 :: t2 ++ TOp o2 :: t3) = Ok (if i <=? j then EBin o2 (EBin o1 e1 e2) e3 else EBin o1 e1 (EBin o2 e2 e3)).
Proof.
  intros o1 o2 i j t1 t2 t3 e1 e2 e3 H1 H2 D1 D2 D3. apply C62_grammar.
  assert (B : forall o, level o <= 11) by (intros []; simpl; lia).
  pose proof (group_level _ _ H1) as L1. pose proof (group_level _ _ H2) as L2. pose proof (B o1). pose proof (B o2).
  destruct (Nat.leb_spec i j) as [L|L].
  - replace (t1 ++ TOp o1 :: t2 ++ TOp o2 :: t3) with ((t1 ++ TOp o1 :: t2) ++ TOp o2 :: t3) by (rewrite <- app_assoc; auto).
    apply (lift_to (level o2)); [|unfold top; lia]. apply d_bin; [|apply (lift_to 1); auto; unfold top; lia].
    apply (lift_to (level o1)); [|unfold top; lia]. apply d_bin; apply (lift_to 1); auto; unfold top; lia.
  - apply (lift_to (level o1)); [|unfold top; lia]. apply d_bin; [apply (lift_to 1); auto; unfold top; lia|].
    apply (lift_to (level o2)); [|unfold top; lia]. apply d_bin; apply (lift_to 1); auto; unfold top; lia.
Qed.
Example C62_precedence_ex : inGroup Ltc 3 /\ inGroup Eqc 4 /\ inGroup BAnd 5 /\ derives 1 (TNot :: x) (EUn Not (EAtom 0)) /\ (forall o, exists i, inGroup o i).
Proof.
  split; [eexists; split; [reflexivity|simpl; auto]|]. split; [eexists; split; [reflexivity|simpl; auto]|]. split; [eexists; split; [reflexivity|simpl; auto]|].
  split; [apply d_not; apply d_lift; [unfold top; lia|apply d_atom]|].
  intros o. exists (level o - 2). unfold inGroup. destruct o; simpl; eexists; split; try reflexivity; simpl; tauto.
Qed.
Theorem C62_unambiguous : forall n t e e', n <= top -> derives n t e -> derives n t e' -> e = e'.
Proof. exact unambiguous. Qed.
Example C62_unambiguous_ex : derives top (x ++ TOp Sub :: x ++ TOp Sub :: x) (EBin Sub (EBin Sub (EAtom 0) (EAtom 0)) (EAtom 0)).
Proof. apply C62_grammar. exists 40. reflexivity. Qed.

(** * What the macros do *)

Lemma tested_derives : forall m e, derives top (condition m) e -> derives top (tested m) (EUn Not e).
Proof. intros m e H. apply (lift_to 1); [|unfold top; lia]. apply d_not. apply d_lift; [unfold top; lia|]. apply d_paren. auto. Qed.
Lemma paren_derives : forall t e, derives top t e -> derives top (TL :: t ++ [TR]) e.
Proof. intros t e H. apply (lift_to 0); [|unfold top; lia]. apply d_paren. auto. Qed.

Lemma forall2_2 : forall (P : list tok -> expr -> Prop) a b x y, P a x -> P b y -> Forall2 P [a; b] [x; y].
Proof. intros. apply Forall2_cons; auto. Qed.

(** What happens if the condition is read as [e] and the printed arguments as [ps]. *)
Definition meaning {W} (V : values W) (lf : bool) (assert : bool) (e : expr) (ps : list expr) (w : W) : mout (val V) * W :=
  match value_of V lf e w with
  | (inr x, w1) => (MThrew x, w1)
  | (inl true, w1) => (MPass, w1)
  | (inl false, w1) =>
      if assert then (MAssert, w1)
      else match evalAll V lf ps w1 with (inl vs, w2) => (MRecorded vs, w2) | (inr x, w2) => (MThrew x, w2) end
  end.
Definition is_assert (m : macro) : bool := match m with AssertTrue _ | AssertFalse _ => true | _ => false end.
Lemma meaning_ok : forall W (V : values W) lf m e ps w, derives top (condition m) e -> Forall2 (derives top) (printed m) ps ->
  eventually (fun fuel => runMacro fuel V lf m w) (meaning V lf (is_assert m) e ps w).
Proof.
  intros W V lf m e ps w H Hp. destruct (derives_parse _ _ (tested_derives _ _ H)) as [F HF].
  assert (P : eventually (fun fuel => mapM (parse fuel) (printed m)) ps).
  { clear H HF. induction Hp as [|t e0 l l' D Hp [F2 IH]]; [exists 0; auto|]. destruct (derives_parse _ _ D) as [F1 H1]. exists (F1 + F2). intros n L.
    cbn [mapM]. rewrite H1 by lia. cbn [bind]. change ((fix mapM (l : list (list tok)) : res (list expr) := match l with [] => Ok [] | x :: r => do y <- parse n x; do ys <- mapM r; Ok (y :: ys) end) l) with (mapM (parse n) l).
    rewrite IH by lia. reflexivity. }
  destruct P as [F2 H2]. exists (F + F2). intros n L. unfold runMacro. rewrite HF by lia. cbn [bind]. rewrite H2 by lia. cbn [bind]. f_equal.
  unfold meaning, value_of. cbn [eval]. destruct (eval V lf e w) as [[v|err0] w1]; auto. rewrite truth_ofb. destruct (truth V v); cbn [negb]; auto. destruct m; auto.
Qed.

(** PROP_EXPECT(c), PROP_EXPECT_TRUE(c), PROP_ASSERT(c), PROP_ASSERT_TRUE(c): whatever expression c is, it is evaluated once; nothing happens if it is true; if it is false
    a failure is recorded / AssertFailed thrown; its exceptions pass through. *)
Theorem C62_true : forall W (V : values W) lf c e w, derives top c e ->
  eventually (fun fuel => runMacro fuel V lf (ExpectTrue c) w)
    (match value_of V lf e w with (inl true, w') => (MPass, w') | (inl false, w') => (MRecorded [], w') | (inr x, w') => (MThrew x, w') end) /\
  eventually (fun fuel => runMacro fuel V lf (AssertTrue c) w)
    (match value_of V lf e w with (inl true, w') => (MPass, w') | (inl false, w') => (MAssert, w') | (inr x, w') => (MThrew x, w') end).
Proof.
  intros W V lf c e w H. split.
  - assert (A := meaning_ok W V lf (ExpectTrue c) e [] w H (Forall2_nil _)). unfold meaning in A. cbn [is_assert evalAll] in A. destruct (value_of V lf e w) as [[[]|] ?]; auto.
  - assert (A := meaning_ok W V lf (AssertTrue c) e [] w H (Forall2_nil _)). unfold meaning in A. cbn [is_assert evalAll] in A. destruct (value_of V lf e w) as [[[]|] ?]; auto.
Qed.
Example C62_true_ex : runMacro 40 ints true (ExpectTrue (x ++ TOp Ltc :: num 5)) (with_x 7) = Ok (MRecorded [], with_x 7) /\
  runMacro 40 ints true (AssertTrue (x ++ TOp Ltc :: num 5)) (with_x 3) = Ok (MPass, with_x 3).
Proof. split; reflexivity. Qed.

(** && and || inside the macros: the right operand is evaluated only if needed, and then decides. *)
Theorem C62_short_circuit : forall W (V : values W) lf a b ea eb w w1, derives 9 a ea -> derives 9 b eb ->
  (value_of V lf ea w = (inl false, w1) ->
     eventually (fun fuel => runMacro fuel V lf (AssertTrue (a ++ TOp LAnd :: b)) w) (MAssert, w1) /\
     forall out, eventually (fun fuel => runMacro fuel V lf (AssertTrue b) w1) out -> eventually (fun fuel => runMacro fuel V lf (AssertTrue (a ++ TOp LOr :: b)) w) out) /\
  (value_of V lf ea w = (inl true, w1) ->
     eventually (fun fuel => runMacro fuel V lf (AssertTrue (a ++ TOp LOr :: b)) w) (MPass, w1) /\
     forall out, eventually (fun fuel => runMacro fuel V lf (AssertTrue b) w1) out -> eventually (fun fuel => runMacro fuel V lf (AssertTrue (a ++ TOp LAnd :: b)) w) out).
Proof.
  intros W V lf a b ea eb w w1 Ha Hb.
  assert (DA : derives top (a ++ TOp LAnd :: b) (EBin LAnd ea eb)) by (apply (lift_to 10); [|unfold top; lia]; apply (d_bin LAnd); [apply (lift_to 9); [auto|cbn; unfold top; lia]|exact Hb]).
  assert (DO : derives top (a ++ TOp LOr :: b) (EBin LOr ea eb)) by (apply (lift_to 11); [|unfold top; lia]; apply (d_bin LOr); (apply (lift_to 9); [auto|cbn; unfold top; lia])).
  assert (DB : derives top b eb) by (apply (lift_to 9); [auto|unfold top; lia]).
  pose proof (proj2 (C62_true W V lf _ _ w DA)) as EA. pose proof (proj2 (C62_true W V lf _ _ w DO)) as EO. pose proof (proj2 (C62_true W V lf _ _ w1 DB)) as EB.
  assert (Huniq : forall X (f : nat -> res X) p q, eventually f p -> eventually f q -> p = q).
  { intros X f p q [n1 H1] [n2 H2]. specialize (H1 (n1 + n2)%nat ltac:(lia)). specialize (H2 (n1 + n2)%nat ltac:(lia)). congruence. }
  unfold value_of in *. cbn [eval] in EA, EO.
  split; intros Hv; destruct (eval V lf ea w) as [[v|e0] w0]; try discriminate; injection Hv as Ht ->; rewrite Ht in EA, EO; try rewrite truth_ofb in EA; try rewrite truth_ofb in EO.
  - split; [exact EA|]. intros out Hout. rewrite (Huniq _ _ _ _ Hout EB).
    destruct (eval V lf eb w1) as [[u|e1] w2]; [rewrite truth_ofb in EO|]; exact EO.
  - split; [exact EO|]. intros out Hout. rewrite (Huniq _ _ _ _ Hout EB).
    destruct (eval V lf eb w1) as [[u|e1] w2]; [rewrite truth_ofb in EA|]; exact EA.
Qed.
(** PROP_ASSERT(x && take()), PROP_ASSERT(x || take()) with x = 0 and with x = 1: the queue tells whether the right operand was evaluated. *)
Example C62_short_circuit_ex : let q := {| vars := [0]; queue := [5] |}%Z in let q1 := {| vars := [1]; queue := [5] |}%Z in
  runMacro 60 ints true (AssertTrue (x ++ TOp LAnd :: pop_)) q = Ok (MAssert, q) /\
  runMacro 60 ints true (AssertTrue (x ++ TOp LOr :: pop_)) q = Ok (MPass, {| vars := [0]; queue := [] |}%Z) /\
  runMacro 60 ints true (AssertTrue (x ++ TOp LOr :: pop_)) q1 = Ok (MPass, q1) /\
  runMacro 60 ints true (AssertTrue (x ++ TOp LAnd :: pop_)) q1 = Ok (MPass, {| vars := [1]; queue := [] |}%Z).
Proof. vm_compute. auto. Qed.

(** PROP_EXPECT_EQ(a, b) and the other comparisons: a may contain operators binding as tightly as the comparison, b only tighter ones.  Then a is compared with b; if that
    comes out false a failure is recorded, with a and b evaluated again. *)
Theorem C62_compare : forall W (V : values W) lf o a b ea eb w, comparison o -> derives (level o) a ea -> derives (level o - 1) b eb ->
  eventually (fun fuel => runMacro fuel V lf (ExpectCmp o a b) w)
    (match value_of V lf (EBin o ea eb) w with
     | (inl true, w') => (MPass, w')
     | (inl false, w') => match evalAll V lf [ea; eb] w' with (inl vs, w2) => (MRecorded vs, w2) | (inr x, w2) => (MThrew x, w2) end
     | (inr x, w') => (MThrew x, w')
     end).
Proof.
  intros W V lf o a b ea eb w Hc Ha Hb. assert (L := level_range o).
  assert (D : derives top (a ++ TOp o :: b) (EBin o ea eb)) by (apply (lift_to (level o)); [apply d_bin; auto|unfold top; lia]).
  assert (A := meaning_ok W V lf (ExpectCmp o a b) (EBin o ea eb) [ea; eb] w). unfold meaning in A. cbn [is_assert] in A.
  assert (A1 : derives top (condition (ExpectCmp o a b)) (EBin o ea eb)).
  { cbn [condition]. replace (a ++ TOp o :: b ++ [TR]) with ((a ++ TOp o :: b) ++ [TR]) by (rewrite <- app_assoc; auto). apply paren_derives. auto. }
  assert (A2 : Forall2 (derives top) (printed (ExpectCmp o a b)) [ea; eb]).
  { cbn [printed]. apply forall2_2; apply paren_derives; [apply (lift_to (level o))|apply (lift_to (level o - 1))]; auto; unfold top; lia. }
  specialize (A A1 A2). destruct (value_of V lf (EBin o ea eb) w) as [[[]|] ?]; auto.
Qed.
(** PROP_EXPECT_EQ(x + 1, 8), PROP_EXPECT_LE(x, 3). *)
Example C62_compare_ex : runMacro 60 ints true (ExpectCmp Eqc (x ++ TOp Add :: num 1) (num 8)) (with_x 7) = Ok (MPass, with_x 7) /\
  runMacro 60 ints true (ExpectCmp Lec x (num 3)) (with_x 7) = Ok (MRecorded [7; 3]%Z, with_x 7) /\ derives (level Eqc) (x ++ TOp Add :: num 1) (EBin Add (EAtom 0) (EAtom 11)).
Proof.
  split; [reflexivity|]. split; [reflexivity|]. apply (lift_to (level Add)); [|unfold top; cbn; lia]. apply d_bin; (apply (lift_to 0); [constructor|unfold top; cbn; lia]).
Qed.

(** With a looser operator in the first argument something else is compared: [t1 & t2 == b] is [t1 & (t2 == b)]. *)
Theorem C62_loose_first : forall W (V : values W) lf o o2 t1 t2 b e1 e2 eb w, comparison o -> level o < level o2 ->
  derives (level o2) t1 e1 -> derives (level o) t2 e2 -> derives (level o - 1) b eb ->
  exists out, eventually (fun fuel => runMacro fuel V lf (ExpectCmp o (t1 ++ TOp o2 :: t2) b) w) out /\
    (fst out = MPass <-> fst (value_of V lf (EBin o2 e1 (EBin o e2 eb)) w) = inl true).
Proof.
  intros W V lf o o2 t1 t2 b e1 e2 eb w Hc Hl H1 H2 Hb. assert (L := level_range o). assert (L2 := level_range o2).
  assert (D : derives top (t1 ++ TOp o2 :: t2 ++ TOp o :: b) (EBin o2 e1 (EBin o e2 eb))).
  { apply (lift_to (level o2)); [|unfold top; lia]. apply d_bin; auto. apply (lift_to (level o)); [apply d_bin; auto|unfold top; lia]. }
  eexists. split.
  - apply meaning_ok with (e := EBin o2 e1 (EBin o e2 eb)) (ps := [EBin o2 e1 e2; eb]).
    + cbn [condition]. replace ((t1 ++ TOp o2 :: t2) ++ TOp o :: b ++ [TR]) with ((t1 ++ TOp o2 :: t2 ++ TOp o :: b) ++ [TR]) by (repeat (rewrite <- app_assoc; cbn [app]); auto).
      apply paren_derives. auto.
    + cbn [printed]. apply forall2_2; apply paren_derives; [|apply (lift_to (level o - 1)); auto; unfold top; lia].
      apply (lift_to (level o2)); [|unfold top; lia]. apply d_bin; auto. apply (lift_to (level o)); auto. unfold top; lia.
  - unfold meaning. cbn [is_assert]. destruct (value_of V lf _ w) as [[[]|] w1]; cbn [fst]; split; auto; try discriminate.
    destruct (evalAll V lf [EBin o2 e1 e2; eb] w1) as [[]]; discriminate.
Qed.
(** So PROP_EXPECT_EQ(x & 1, 0) fails for even x ... *)
Theorem C62_compare_refuted : exists a b ea eb w w' vs, derives top a ea /\ derives top b eb /\ value_of ints true (EBin Eqc ea eb) w = (inl true, w) /\
  eventually (fun fuel => runMacro fuel ints true (ExpectCmp Eqc a b) w) (MRecorded vs, w').
Proof.
  exists (x ++ TOp BAnd :: num 1), (num 0), (EBin BAnd (EAtom 0) (EAtom 11)), (EAtom 10), (with_x 6), (with_x 6), [0; 0]%Z.
  split; [apply C62_grammar; exists 40; reflexivity|]. split; [apply C62_grammar; exists 40; reflexivity|]. split; [reflexivity|].
  refine (meaning_ok _ ints true (ExpectCmp Eqc (x ++ TOp BAnd :: num 1) (num 0)) (EBin BAnd (EAtom 0) (EBin Eqc (EAtom 11) (EAtom 10))) [EBin BAnd (EAtom 0) (EAtom 11); EAtom 10] (with_x 6) _ _);
    [|apply forall2_2]; apply C62_grammar; exists 60; reflexivity.
Qed.
(** ... and PROP_EXPECT_NE(x, y ? 1 : 2) passes although x equals the second argument. *)
Theorem C62_cond_refuted : exists a b ea eb w w', derives top a ea /\ derives top b eb /\ value_of ints true (EBin Nec ea eb) w = (inl false, w) /\
  eventually (fun fuel => runMacro fuel ints true (ExpectCmp Nec a b) w) (MPass, w').
Proof.
  exists x, ([TAtom 1] ++ TQ :: num 1 ++ TColon :: num 2), (EAtom 0), (ECond (EAtom 1) (EAtom 11) (EAtom 12)), {| vars := [2; 0]; queue := [] |}%Z, {| vars := [2; 0]; queue := [] |}%Z.
  split; [apply C62_grammar; exists 40; reflexivity|]. split; [apply C62_grammar; exists 40; reflexivity|]. split; [reflexivity|].
  refine (meaning_ok _ ints true (ExpectCmp Nec x ([TAtom 1] ++ TQ :: num 1 ++ TColon :: num 2)) (ECond (EBin Nec (EAtom 0) (EAtom 1)) (EAtom 11) (EAtom 12)) [EAtom 0; ECond (EAtom 1) (EAtom 11) (EAtom 12)]
            {| vars := [2; 0]; queue := [] |}%Z _ _); [|apply forall2_2]; apply C62_grammar; exists 60; reflexivity.
Qed.

(** The arguments are not evaluated once: what is printed is not what was compared.  PROP_EXPECT_EQ(pop(), 3) with a queue 1, 2, 5 compares 1, prints 2, and leaves 5. *)
Theorem C62_once_refuted : eventually (fun fuel => runMacro fuel ints true (ExpectCmp Eqc pop_ (num 3)) {| vars := []; queue := [1; 2; 5]%Z |}) (MRecorded [2; 3]%Z, {| vars := []; queue := [5]%Z |}).
Proof.
  refine (C62_compare _ ints true Eqc pop_ (num 3) (EAtom 100) (EAtom 13) {| vars := []; queue := [1; 2; 5]%Z |} I _ _); (apply (lift_to 0); [constructor|cbn; unfold top; lia]).
Qed.

(** PROP_EXPECT_FALSE(c) passes when c is true and records a failure when it is false - the opposite of what it says. *)
Theorem C62_expect_false_refuted : forall W (V : values W) lf c e w w', derives top c e ->
  (value_of V lf e w = (inl true, w') -> eventually (fun fuel => runMacro fuel V lf (ExpectFalse c) w) (MPass, w')) /\
  (value_of V lf e w = (inl false, w') -> forall out w2, evalAll V lf [e] w' = (inl out, w2) -> eventually (fun fuel => runMacro fuel V lf (ExpectFalse c) w) (MRecorded out, w2)).
Proof.
  intros W V lf c e w w' H. assert (A := meaning_ok W V lf (ExpectFalse c) e [e] w H). unfold meaning in A. cbn [is_assert] in A.
  assert (P : Forall2 (derives top) (printed (ExpectFalse c)) [e]) by (cbn [printed]; apply Forall2_cons; [apply paren_derives; auto|apply Forall2_nil]). specialize (A P). split.
  - intros E. rewrite E in A. auto.
  - intros E out w2 E2. rewrite E, E2 in A. auto.
Qed.
Example C62_expect_false_ex : runMacro 60 ints true (ExpectFalse (x ++ TOp Ltc :: num 5)) (with_x 3) = Ok (MPass, with_x 3) /\
  runMacro 60 ints true (ExpectFalse (x ++ TOp Ltc :: num 5)) (with_x 7) = Ok (MRecorded [0]%Z, with_x 7).
Proof. split; reflexivity. Qed.

(** PROP_ASSERT_FALSE(c), c a primary or unary expression: nothing happens if it is false, AssertFailed is thrown if it is true. *)
Theorem C62_assert_false : forall W (V : values W) lf c e w, derives 1 c e ->
  eventually (fun fuel => runMacro fuel V lf (AssertFalse c) w)
    (match value_of V lf e w with (inl true, w') => (MAssert, w') | (inl false, w') => (MPass, w') | (inr x, w') => (MThrew x, w') end).
Proof.
  intros W V lf c e w H. assert (A := meaning_ok W V lf (AssertFalse c) (EUn Not e) [] w). unfold meaning, value_of in *. cbn [is_assert condition printed eval] in A.
  specialize (A (lift_to 1 top _ _ (d_not _ _ H) ltac:(unfold top; lia)) (Forall2_nil _)). destruct (eval V lf e w) as [[v|y] w']; [|auto].
  rewrite truth_ofb in A. destruct (truth V v); auto.
Qed.
(** PROP_ASSERT_FALSE((x < 5)). *)
Example C62_assert_false_ex : runMacro 60 ints true (AssertFalse (TL :: x ++ TOp Ltc :: num 5 ++ [TR])) (with_x 3) = Ok (MAssert, with_x 3) /\
  derives 1 (TL :: (x ++ TOp Ltc :: num 5) ++ [TR]) (EBin Ltc (EAtom 0) (EAtom 15)).
Proof. split; [reflexivity|]. apply d_lift; [unfold top; lia|]. apply d_paren. apply C62_grammar. exists 40. reflexivity. Qed.
(** Otherwise the ! belongs to the first operand only: PROP_ASSERT_FALSE(t1 o t2) tests (!t1) o t2 ... *)
Theorem C62_assert_false_loose : forall W (V : values W) lf o t1 t2 e1 e2 w, derives 1 t1 e1 -> derives (level o - 1) t2 e2 ->
  eventually (fun fuel => runMacro fuel V lf (AssertFalse (t1 ++ TOp o :: t2)) w)
    (match value_of V lf (EBin o (EUn Not e1) e2) w with (inl true, w') => (MPass, w') | (inl false, w') => (MAssert, w') | (inr x, w') => (MThrew x, w') end).
Proof.
  intros W V lf o t1 t2 e1 e2 w H1 H2. assert (L := level_range o). assert (A := meaning_ok W V lf (AssertFalse (t1 ++ TOp o :: t2)) (EBin o (EUn Not e1) e2) [] w). unfold meaning in A. cbn [is_assert evalAll] in A.
  assert (D : derives top (condition (AssertFalse (t1 ++ TOp o :: t2))) (EBin o (EUn Not e1) e2)).
  { cbn [condition]. rewrite app_comm_cons. apply (lift_to (level o)); [|unfold top; lia]. apply d_bin; auto. apply (lift_to 1); [constructor; auto|unfold top; lia]. }
  specialize (A D (Forall2_nil _)). destruct (value_of V lf _ w) as [[[]|] ?]; auto.
Qed.
(** ... so PROP_ASSERT_FALSE(x < 5) passes when x is 3, and PROP_ASSERT_FALSE(x == 2) throws when x is 3. *)
Theorem C62_assert_false_refuted :
  eventually (fun fuel => runMacro fuel ints true (AssertFalse (x ++ TOp Ltc :: num 5)) (with_x 3)) (MPass, with_x 3) /\
  eventually (fun fuel => runMacro fuel ints true (AssertFalse (x ++ TOp Eqc :: num 2)) (with_x 3)) (MAssert, with_x 3).
Proof.
  split; [apply (C62_assert_false_loose _ ints true Ltc x (num 5) (EAtom 0) (EAtom 15) (with_x 3))|apply (C62_assert_false_loose _ ints true Eqc x (num 2) (EAtom 0) (EAtom 12) (with_x 3))];
    (apply (lift_to 0); [constructor|cbn; unfold top; lia]).
Qed.

(** * Comparing memory *)

(** STREQ(a, b, n): defined iff both buffers have n bytes, and passes iff these are equal; STRNE passes iff they are not. *)
Theorem C62_streq : forall eq a b n r, streq eq a b n = Ok r <-> n <= length a /\ n <= length b /\ (r = true <-> (firstn n a = firstn n b <-> eq = true)).
Proof.
  intros eq a b n r. unfold streq, memcmp_eq.
  assert (F : forall l l' : list Z, length l = length l' -> forallb (fun xy => Z.eqb (fst xy) (snd xy)) (combine l l') = true <-> l = l').
  { induction l as [|y l IH]; intros [|y' l']; cbn; try discriminate; [tauto|]. intros [= E]. rewrite andb_true_iff, Z.eqb_eq, (IH _ E). split; [intros [-> ->]; auto|intros [= -> ->]; auto]. }
  destruct (Nat.leb_spec n (length a)) as [La|La]; cbn [andb].
  2: split; [discriminate|intros (X & _); lia].
  destruct (Nat.leb_spec n (length b)) as [Lb|Lb].
  2: split; [discriminate|intros (_ & X & _); lia].
  cbn [bind]. specialize (F (firstn n a) (firstn n b) ltac:(rewrite !firstn_length; lia)).
  destruct (forallb _ _); destruct eq, r; cbn; split; intros H; try discriminate; try (split; [auto|split; [auto|]]); intuition congruence.
Qed.
Theorem C62_streq_undefined : forall eq a b n, streq eq a b n = UB <-> length a < n \/ length b < n.
Proof.
  intros eq a b n. unfold streq, memcmp_eq. destruct (Nat.leb_spec n (length a)), (Nat.leb_spec n (length b)); cbn; split; auto; try discriminate; lia.
Qed.
Example C62_streq_ex : streq true [97; 98; 99]%Z [97; 98; 100]%Z 2 = Ok true /\ streq true [97; 98; 99]%Z [97; 98; 100]%Z 3 = Ok false /\ streq false [97]%Z [97; 98; 100]%Z 2 = UB.
Proof. repeat split. Qed.
(** STREQ2(a, b, n1, n2) looks at the shorter length only ... *)
Theorem C62_streq2 : forall eq a b n1 n2 r, streq2 eq a b n1 n2 = Ok r <-> streq eq a b (Nat.min n1 n2) = Ok r.
Proof.
  intros eq a b n1 n2 r. unfold streq2, streq. replace (if n1 <=? n2 then n1 else n2) with (Nat.min n1 n2); [tauto|]. destruct (Nat.leb_spec n1 n2); lia.
Qed.
(** ... so for strings of the same length it is right ... *)
Theorem C62_streq2_same : forall eq (a b : list Z), length a = length b -> exists r, streq2 eq a b (length a) (length b) = Ok r /\ (r = true <-> (a = b <-> eq = true)).
Proof.
  intros eq a b H. assert (E : forall r, streq2 eq a b (length a) (length b) = Ok r <-> (r = true <-> (a = b <-> eq = true))).
  { intros r. rewrite C62_streq2, <- H, Nat.min_id, C62_streq. rewrite firstn_all, H, firstn_all. rewrite <- H. intuition. }
  destruct (list_eq_dec Z.eq_dec a b) as [D|D]; destruct eq; [exists true|exists false|exists false|exists true]; rewrite E; split; try tauto; intuition congruence.
Qed.
Example C62_streq2_ex : streq2 true [97; 98]%Z [97; 99]%Z 2 2 = Ok false.
Proof. reflexivity. Qed.
(** ... and a string counts as equal to anything it is a beginning of: "ab" and "abc" pass STREQ2 and fail STRNE2. *)
Theorem C62_streq2_refuted : forall (a b : list Z), b <> [] -> a <> a ++ b /\ streq2 true a (a ++ b) (length a) (length (a ++ b)) = Ok true /\ streq2 false a (a ++ b) (length a) (length (a ++ b)) = Ok false.
Proof.
  intros a b H. assert (M : Nat.min (length a) (length (a ++ b)) = length a) by (rewrite app_length; lia).
  assert (F : firstn (length a) a = firstn (length a) (a ++ b)) by (rewrite firstn_all, firstn_app, Nat.sub_diag, firstn_all; cbn; rewrite app_nil_r; auto).
  split; [|split].
  - intros E. apply H. apply (app_inv_head a). rewrite app_nil_r. auto.
  - rewrite C62_streq2, M, C62_streq. rewrite app_length. split; [lia|]. split; [lia|]. tauto.
  - rewrite C62_streq2, M, C62_streq. rewrite app_length. split; [lia|]. split; [lia|]. intuition discriminate.
Qed.

Print Assumptions C62_grammar.
Print Assumptions C62_precedence.
Print Assumptions C62_unambiguous.
Print Assumptions C62_true.
Print Assumptions C62_short_circuit.
Print Assumptions C62_compare.
Print Assumptions C62_loose_first.
Print Assumptions C62_compare_refuted.
Print Assumptions C62_cond_refuted.
Print Assumptions C62_once_refuted.
Print Assumptions C62_expect_false_refuted.
Print Assumptions C62_assert_false.
Print Assumptions C62_assert_false_loose.
Print Assumptions C62_assert_false_refuted.
Print Assumptions C62_streq.
Print Assumptions C62_streq_undefined.
Print Assumptions C62_streq2.
Print Assumptions C62_streq2_same.
Print Assumptions C62_streq2_refuted.
