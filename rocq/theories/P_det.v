(** C39, C40: determinant and unimodularity tests. *)
From mathcomp Require Import all_ssreflect all_algebra fingroup perm fraction zify.
From Verif Require Import A_base SpecA SpecForms SpecWP SpecHermite A_wpopov_model A_det_model A_det_proof.
Set Implicit Arguments.
Unset Strict Implicit.
Unset Printing Implicit Defensive.
Import Order.TTheory GRing.Theory Num.Theory.
Local Open Scope ring_scope.

Section Det.
Variable F : fieldType.
Local Notation P := {poly F}.

Lemma foldl_prod (f : nat -> P) d n : foldl (fun d i => d * f i) d (iota 1 n) = d * \prod_(i < n) f i.+1.
Proof.
elim: n => [|n IH]; first by rewrite big_ord0 mulr1.
have -> : iota 1 n.+1 = iota 1 n ++ [:: n.+1] by rewrite -(addn1 n) iotaD add1n addn1.
by rewrite foldl_cat IH /= big_ord_recr /= mulrA.
Qed.

Lemma size1_unit (d : P) : size d = 1%N -> exists2 c : F, c != 0 & d = c%:P.
Proof.
move=> H; have E : d = (d`_0)%:P by apply: size1_polyC; rewrite H.
by exists d`_0 => //; apply/eqP=> Z; move: H; rewrite E Z size_poly0.
Qed.

(** C39: the algorithm ends and computes the determinant *)
Theorem C39_det_iter (r : nat) (A : fmat P) :
  exists N, forall fuel, (N <= fuel)%N -> det_iter fuel r A = Some (AOk (\det (leading_block r r A))).
Proof.
case: r => [|r]; first by exists 0%N => fuel _; rewrite /det_iter /= det_mx00.
have [N [out [E H]]] := det_loopP r A 1 (fun _ => 0).
exists N => fuel Hf; rewrite /det_iter /= subn1 /= E // {E}.
case: out H => [[A' u]|] H; last by rewrite -[leading_block _ _ _]/(mx_of r.+1 r.+1 A) H.
case: H => -[sg [Eu Ed]] _; rewrite -[leading_block _ _ _]/(mx_of r.+1 r.+1 A) Ed foldl_prod big_ord_recl /=.
case: (A' 0%N 0%N =P 0) => [->|_] /=; first by rewrite mul0r mulr0.
congr (Some (AOk _)); rewrite Eu mulr1 mulrA; congr (_ * _).
by case: sg {Eu Ed}; rewrite /= ?expr1 ?expr0 ?mulN1r ?mul1r.
Qed.

(** C40: the deterministic test accepts exactly the matrices with an inverse *)
Theorem C40_is_unimodular (m n : nat) (A : fmat P) :
  is_unimodular m n A <->
  exists U : 'M[P]_(n, m), leading_block m n A *m U = 1%:M /\ U *m leading_block m n A = 1%:M.
Proof.
rewrite /is_unimodular; case: eqP => [Emn|Nmn] /=; last first.
  by split=> // -[U [/mulmx1_min L1 /mulmx1_min L2]]; case: Nmn; apply/eqP; rewrite eqn_leq L1 L2.
subst n; rewrite -[leading_block m m A]/(mx_of m m A); split.
  move/eqP => H; have U : mx_of m m A \in unitmx.
    by rewrite unitmxE; have [c Nc ->] := size1_unit H; rewrite poly_unitE size_polyC Nc coefC unitfE.
  by exists (invmx (mx_of m m A)); rewrite mulmxV // mulVmx.
case=> U [/mulmx1_unit[H _] _]; move: H; rewrite unitmxE poly_unitE => /andP[H _].
exact: H.
Qed.

(** the first pair (rnd 2k, rnd (2k+1)) of distinct values *)
Definition points_drawn (rnd : nat -> F) (x y : F) : Prop :=
  exists k, [/\ x = rnd k.*2, y = rnd k.*2.+1, x != y & forall l, (l < k)%N -> rnd l.*2 = rnd l.*2.+1].

Definition evaluated m (A : fmat P) (x : F) : 'M[F]_m := map_mx (horner^~ x) (leading_block m m A).

Lemma drawP (rnd : nat -> F) k x y : x = rnd k.*2 -> y = rnd k.*2.+1 -> x != y ->
  (forall l, (l < k)%N -> rnd l.*2 = rnd l.*2.+1) ->
  forall fuel, (k < fuel)%N -> draw_points fuel rnd 0 0 0 = Some (x, y).
Proof.
move=> Ex Ey Nxy H.
suff Q fuel l z : (l <= k)%N -> (k - l < fuel)%N -> draw_points fuel rnd l.*2 z z = Some (x, y).
  by move=> fuel Hf; apply: (Q fuel 0%N); rewrite ?subn0.
elim: fuel l z => [|fuel IH] l z Hl Hf //=; rewrite eqxx.
case: (ltnP l k) => C; first by rewrite H //; apply: (IH l.+1) => //; lia.
have {Hl C} El : l = k by lia.
by rewrite El -Ex -Ey; case: fuel {IH Hf} => [|fuel] /=; rewrite (negPf Nxy).
Qed.

(** C40, randomized test: a unimodular matrix is never rejected *)
Theorem C40_randomized_complete fuel m n (A : fmat P) rnd :
  is_unimodular m n A -> is_unimodular_randomized fuel m n A rnd <> Some false.
Proof.
rewrite /is_unimodular /is_unimodular_randomized; case: eqP => //= _ /eqP H.
case: draw_points => [[x y]|] //=; rewrite eqxx andbT => -[] /negbFE/eqP.
have -> : mx_of m m (fevaluate A x) = map_mx (horner_eval x) (mx_of m m A).
  by apply/matrixP=> i j; rewrite !mxE.
rewrite det_map_mx /=; have [c Nc ->] := size1_unit H.
by rewrite horner_evalE hornerC => E; rewrite E eqxx in Nc.
Qed.

(** the test ends when two distinct points are drawn; rectangular matrices and those whose
    determinant vanishes at the first point are rejected *)
Theorem C40_randomized_partial m n (A : fmat P) rnd x y : points_drawn rnd x y ->
  exists N, forall fuel, (N <= fuel)%N -> exists b, is_unimodular_randomized fuel m n A rnd = Some b /\
    (b -> m = n /\ \det (evaluated m A x) != 0).
Proof.
case=> k [Ex Ey Nxy H]; exists k.+1 => fuel Hf; rewrite /is_unimodular_randomized.
case: eqP => [<-|N] /=; last by exists false.
rewrite (drawP Ex Ey Nxy H Hf); eexists; split; first reflexivity.
case/andP=> D _; split=> //; move: D; congr (\det _ != 0).
by apply/matrixP=> i j; rewrite !mxE.
Qed.

(** what is missing is false: the value of the determinant at the second point is not computed,
    so that a matrix is accepted although the two points witness different determinants *)
Theorem C40_randomized_refuted :
  exists (A : fmat P) rnd x y, points_drawn rnd x y /\
    [/\ \det (evaluated 1 A x) != \det (evaluated 1 A y), \det (evaluated 1 A y) = 0, ~~ is_unimodular 1 1 A &
        forall fuel, (0 < fuel)%N -> is_unimodular_randomized fuel 1 1 A rnd = Some true].
Proof.
pose rnd k : F := if k == 0%N then 1 else 0.
have Pd : points_drawn rnd 1 0 by exists 0%N; split=> //; exact: oner_neq0.
exists (fun _ _ => 'X), rnd, 1, 0; split=> //.
have E x : \det (evaluated 1 (fun _ _ => 'X) x) = x by rewrite det_mx11 !mxE hornerX.
rewrite !E; split=> //.
- exact: oner_neq0.
- by rewrite /is_unimodular /= det_mx11 mxE size_polyX.
- move=> fuel Hf; rewrite /is_unimodular_randomized /= (drawP (k := 0) (x := 1) (y := 0)) //.
    by rewrite det_mx11 mxE /fevaluate hornerX oner_neq0 eqxx.
  exact: oner_neq0.
Qed.
End Det.

(** the hypotheses are met *)
Example C40_hypothesis_met : points_drawn (fun k => (k == 3%N)%:R : rat) 0 1.
Proof. by exists 1%N; split=> // -[]. Qed.
Example C39_nontrivial : exists N, forall fuel, (N <= fuel)%N ->
  det_iter fuel 2 (fun i j => if (i == 0%N) then (if j == 0%N then 0 else 1) else ('X : {poly rat})) = Some (AOk (- 'X)).
Proof.
have [N H] := C39_det_iter 2 (fun i j => if (i == 0%N) then (if j == 0%N then 0 else 1) else ('X : {poly rat})).
exists N => fuel /H ->; rewrite (expand_det_row _ 0) !big_ord_recl big_ord0 /cofactor !det_mx11 !mxE /=.
by rewrite mul0r add0r addr0 addn1 expr1 mulN1r mul1r.
Qed.

Print Assumptions C39_det_iter.
Print Assumptions C40_is_unimodular.
Print Assumptions C40_randomized_complete.
Print Assumptions C40_randomized_partial.
Print Assumptions C40_randomized_refuted.
