(** Ring identities over a commutative ring used for the models of ntl-extras. *)
From Coq Require Import Ring.
From mathcomp Require Import all_ssreflect all_algebra.
Set Implicit Arguments.
Unset Strict Implicit.
Unset Printing Implicit Defensive.
Import GRing.Theory.
Local Open Scope ring_scope.

Section Id.
Variable R : comRingType.
Let T : Type := GRing.ComRing.sort R.
Let r0 : T := 0.
Let r1 : T := 1.
Let ra (x y : T) : T := x + y.
Let rm (x y : T) : T := x * y.
Let ro (x : T) : T := - x.
Let rs (x y : T) : T := x - y.

Lemma ncomring_rt : @ring_theory T r0 r1 ra rm rs ro eq.
Proof.
rewrite /r0 /r1 /ra /rm /rs /ro.
split=> // *; rewrite ?add0r ?mul1r ?mulrDl ?addrN //;
  first [exact: addrC | exact: addrA | exact: mulrC | exact: mulrA].
Qed.
Add Ring ncomring : ncomring_rt.

Ltac mring :=
  match goal with |- @eq _ ?x ?y => change (@eq T x y) end;
  repeat (first
    [ progress change (@GRing.opp ?z ?x) with (ro x)
    | progress change (@GRing.add ?z ?x ?y) with (ra x y)
    | progress change (@GRing.mul ?z ?x ?y) with (rm x y)
    | progress change (GRing.zero ?z) with r0
    | progress change (GRing.one ?z) with r1 ]);
  ring.
Implicit Types a b : R.

Lemma block_id (x c f0 f1 f2 f3 : R) :
  (((c * f3 + f2) * (c * c) + c * f1 + f0) +
   x * (((((1 + 1 + 1) * c * f3 + f2) + f2) * c + f1) + x * (((1 + 1 + 1) * c * f3 + f2) + x * f3))) =
  f0 + (x + c) * (f1 + (x + c) * (f2 + (x + c) * f3)).
Proof. mring. Qed.
Lemma last_block_id (x c f0 f1 f2 f3 : R) :
  ((f0 + c * f1 + (c * c) * (f2 + c * f3)) +
   x * ((f1 + c * ((1 + 1) * f2 + (1 + 1 + 1) * c * f3)) + x * ((f2 + (1 + 1 + 1) * c * f3) + x * f3))) =
  f0 + (x + c) * (f1 + (x + c) * (f2 + (x + c) * f3)).
Proof. mring. Qed.
Lemma lc_id (A B K H G K' H' : R) :
  K' * (A * (B * (K * H)) * (G * H')) = A * (G * B) * (K' * K) * (H * H').
Proof. mring. Qed.
End Id.
