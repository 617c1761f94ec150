(** Ring identities over a commutative ring used for the products of matrices of ntl-extras. *)
From Coq Require Import Ring.
From mathcomp Require Import all_ssreflect all_algebra.
Set Implicit Arguments.
Unset Strict Implicit.
Unset Printing Implicit Defensive.
Import GRing.Theory.
Local Open Scope ring_scope.

Section Id.
Variable R : comRingType.
Let T : Type := GRing.ComRing.sort R.
Let r0 : T := 0.
Let r1 : T := 1.
Let ra (x y : T) : T := x + y.
Let rm (x y : T) : T := x * y.
Let ro (x : T) : T := - x.
Let rs (x y : T) : T := x - y.

Lemma ncomring2_rt : @ring_theory T r0 r1 ra rm rs ro eq.
Proof.
rewrite /r0 /r1 /ra /rm /rs /ro.
split=> // *; rewrite ?add0r ?mul1r ?mulrDl ?addrN //;
  first [exact: addrC | exact: addrA | exact: mulrC | exact: mulrA].
Qed.
Add Ring ncomring2 : ncomring2_rt.

Ltac mring :=
  match goal with |- @eq _ ?x ?y => change (@eq T x y) end;
  repeat (first
    [ progress change (@GRing.opp ?z ?x) with (ro x)
    | progress change (@GRing.add ?z ?x ?y) with (ra x y)
    | progress change (@GRing.mul ?z ?x ?y) with (rm x y)
    | progress change (GRing.zero ?z) with r0
    | progress change (GRing.one ?z) with r1 ]);
  ring.
Implicit Types a b : R.
Lemma wak_plus_id (a0 a1 b0 b1 : R) : (a0 + b1) * (a1 + b0) = a0 * a1 + b0 * b1 + (a0 * b0 + a1 * b1).
Proof. by mring. Qed.
Lemma wak_minus_id (a0 a1 b0 b1 : R) : (a0 - b1) * (a1 - b0) = a0 * a1 + b0 * b1 - (a0 * b0 + a1 * b1).
Proof. by mring. Qed.
Lemma wak_tail_id (a0 ai b0 bj : R) : a0 + bj - (a0 + b0) + (ai + b0) = ai + bj.
Proof. by mring. Qed.
End Id.
