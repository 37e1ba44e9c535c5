(** Expressions whose operations are carried out in a given arithmetic, for
    C162-C165.  The other models compute in the real numbers; here an
    expression of the program is a term, so that every single operation of the
    program can be followed by a rounding. *)
From Coq Require Import List ZArith.
From Verif Require Import Base.
From Flocq Require Core.
Import ListNotations.
Open Scope R_scope.

(** [Volt]: the voltage [potential] the electrode is evaluated with.
    [Num]: any other double held in a variable or an array.  [Lit]: an integer
    literal or a C [int], converted to a double.  [Pi]: [M_PI].  [Pow]: [**]
    with a literal exponent, the C function [pow]. *)
Inductive fx :=
| Volt
| Num (x : R)
| Lit (z : Z)
| Pi
| Add (a b : fx)
| Sub (a b : fx)
| Mul (a b : fx)
| Div (a b : fx)
| Neg (a : fx)
| Pow (a : fx) (n : nat)
| Sqrt (a : fx)
| Abs (a : fx)
| Atan2 (a b : fx).

Declare Scope fx_scope.
Delimit Scope fx_scope with fx.
Bind Scope fx_scope with fx.
Definition lit_of (z : Z) : fx := Lit z.
Definition of_lit (e : fx) : option Z := match e with Lit z => Some z | _ => None end.
Number Notation fx lit_of of_lit : fx_scope.
Infix "+" := Add : fx_scope.
Infix "-" := Sub : fx_scope.
Infix "*" := Mul : fx_scope.
Infix "/" := Div : fx_scope.
Notation "- a" := (Neg a) : fx_scope.
Notation "a ^ n" := (Pow a n%nat) : fx_scope.

(** An arithmetic: how a result is rounded, the functions of the C library
    that need not be correctly rounded, and the value of [M_PI]. *)
Record arith := Arith
  { rnd : R -> R; lpow : R -> nat -> R; latan2 : R -> R -> R; lpi : R }.

(** The value the program computes for [e] when the voltage is [v]: sums,
    differences, products, quotients and square roots are rounded, a sign
    change and [fabs] are exact. *)
Fixpoint feval (A : arith) (v : R) (e : fx) : R :=
  match e with
  | Volt => v
  | Num x => x
  | Lit z => IZR z
  | Pi => lpi A
  | Add a b => rnd A (feval A v a + feval A v b)
  | Sub a b => rnd A (feval A v a - feval A v b)
  | Mul a b => rnd A (feval A v a * feval A v b)
  | Div a b => rnd A (feval A v a / feval A v b)
  | Neg a => - feval A v a
  | Pow a n => lpow A (feval A v a) n
  | Sqrt a => rnd A (sqrt (feval A v a))
  | Abs a => Rabs (feval A v a)
  | Atan2 a b => latan2 A (feval A v a) (feval A v b)
  end.

(** No rounding at all: the real numbers of the other models (atan2 of
    cexpressions.pyx 198 is the arctangent of the quotient where the
    denominator is positive, C29). *)
Definition exact : arith :=
  Arith (fun x => x) pow (fun y x => atan (y / x)) PI.

(** Doubles: 53 bits, rounding to nearest, ties to even.  [b64] has the
    smallest exponent of binary64, below which results lose bits; [b64x] has
    no smallest exponent.  Simplified: neither has a largest exponent, so
    nothing overflows; there are no NaN and no infinities (a quotient by zero
    is Rocq's [x / 0 = 0]) and the two zeros are one number.  [pow], [atan2]
    and [M_PI] are arguments. *)
Definition b64 (pw : R -> nat -> R) (at2 : R -> R -> R) (p : R) : arith :=
  Arith (Core.Generic_fmt.round Core.Zaux.radix2 (Core.FLT.FLT_exp (-1074) 53)
           Core.Round_NE.ZnearestE) pw at2 p.
Definition b64x (pw : R -> nat -> R) (at2 : R -> R -> R) (p : R) : arith :=
  Arith (Core.Generic_fmt.round Core.Zaux.radix2 (Core.FLX.FLX_exp 53)
           Core.Round_NE.ZnearestE) pw at2 p.
