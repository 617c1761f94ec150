(** Ring identities over a commutative ring, by Coq's ring tactic. *)
From Coq Require Import Ring.
From mathcomp Require Import all_ssreflect all_algebra.
Set Implicit Arguments.
Unset Strict Implicit.
Unset Printing Implicit Defensive.
Import GRing.Theory.
Local Open Scope ring_scope.

Section Id.
Variable R : comRingType.
Let T : Type := GRing.ComRing.sort R.
Let r0 : T := 0.
Let r1 : T := 1.
Let ra (x y : T) : T := x + y.
Let rm (x y : T) : T := x * y.
Let ro (x : T) : T := - x.
Let rs (x y : T) : T := x - y.

Lemma comring_rt : @ring_theory T r0 r1 ra rm rs ro eq.
Proof.
rewrite /r0 /r1 /ra /rm /rs /ro.
split=> // *; rewrite ?add0r ?mul1r ?mulrDl ?addrN //;
  first [exact: addrC | exact: addrA | exact: mulrC | exact: mulrA].
Qed.
Add Ring comring : comring_rt.

Ltac mring :=
  match goal with |- @eq _ ?x ?y => change (@eq T x y) end;
  repeat (first
    [ progress change (@GRing.opp ?z ?x) with (ro x)
    | progress change (@GRing.add ?z ?x ?y) with (ra x y)
    | progress change (@GRing.mul ?z ?x ?y) with (rm x y)
    | progress change (GRing.zero ?z) with r0
    | progress change (GRing.one ?z) with r1 ]);
  ring.
Implicit Types a b : R.

Lemma wak_plus a1 a2 b1 b2 :
  (a1 + b2) * (a2 + b1) = a1 * a2 + b2 * b1 + (a1 * b1 + a2 * b2).
Proof. mring. Qed.
Lemma wak_minus a1 a2 b1 b2 :
  (a1 - b2) * (a2 - b1) = a1 * a2 + b2 * b1 - (a1 * b1 + a2 * b2).
Proof. mring. Qed.
Lemma wak_acc a b g x y z : (a + b + g) + (x + y + z) = (a + x) + (b + y) + (g + z).
Proof. mring. Qed.
Lemma wak_accN a b g x y z : (a + b - g) + (x + y - z) = (a + x) + (b + y) - (g + z).
Proof. mring. Qed.
Lemma wak_final a b g a0 b0 : (a + b + g) - ((a0 + b) - (a0 + b0)) - (a + b0) = g.
Proof. mring. Qed.
Lemma wak_half a g : (a - g) + (a + g) = a + a.
Proof. mring. Qed.
Lemma add_sub a g : (a + g) - a = g.
Proof. mring. Qed.
End Id.
