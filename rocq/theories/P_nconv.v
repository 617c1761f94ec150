(** Property C66: the two representations of matrices of polynomials (ntl-extras): conversions and evaluation. *)
From Coq Require Import ZArith.
From mathcomp Require Import all_ssreflect all_algebra zify.
From Verif Require Import A_base A_mul_model N_multi_model N_multi_proof N_shift_proof N_pmat_model N_trs_model N_trs_proof.
From Verif Require Import N_util_model N_util_proof P_nutil.
Set Implicit Arguments.
Unset Strict Implicit.
Unset Printing Implicit Defensive.
Import GRing.Theory.
Local Open Scope ring_scope.

Section C66.
Variable F : fieldType.
Local Notation P := {poly F}.
Implicit Types (a b c x : pmat F) (v : vmat F).

(** the coefficient of degree k of the matrix represented by a vector of matrices *)
Definition vcoef v (k i j : nat) : F := if (k < vlen v)%N then vent v k i j else 0.

(** v is a vector of len matrices with these dimensions and entries *)
Definition is_vmat v (len m n : nat) (f : nat -> nat -> nat -> F) : Prop :=
  [/\ vlen v = len, vr v = m, vc v = n &
      forall k i j, (k < len)%N -> (i < m)%N -> (j < n)%N -> vent v k i j = f k i j].

(** from constant matrices and from vectors of matrices; the vector of length zero clears the output, which keeps its
    dimensions. raw0: what the arrays of coefficients contain before *)
Theorem C66_from_constant x (m : cmat F) : is_pmat (conv_const x m) (cr m) (cc m) (fun i j => (cent m i j)%:P).
Proof. exact: conv_constE. Qed.
Theorem C66_from_vector x v raw0 :
  ((0 < vlen v)%N -> coefs_are (conv_pmat x v raw0) (vr v) (vc v) (fun i j k => vcoef v k i j)) /\
  (vlen v = 0%N -> is_pmat (conv_pmat x v raw0) (nr x) (nc x) (fun _ _ => 0)).
Proof.
split=> [l0|l0].
  by have [A B H] := conv_pmatE x raw0 l0; split=> // i j k Hi Hj; rewrite H // coef_poly.
by rewrite /conv_pmat l0 eqxx; apply: pm_clearE.
Qed.
Theorem C66_from_vector_truncated x v n :
  ((0 < n)%N -> (0 < vlen v)%N ->
     coefs_are (conv_pmat_order x v n) (vr v) (vc v) (fun i j k => if (k < n)%N then vcoef v k i j else 0)) /\
  (n = 0%N \/ vlen v = 0%N -> is_pmat (conv_pmat_order x v n) (nr x) (nc x) (fun _ _ => 0)).
Proof.
split=> [n0 l0|H].
  have m0 : (0 < minn n (vlen v))%N by rewrite leq_min n0.
  have [A B H] := conv_pmat_orderE x m0; split=> // i j k Hi Hj; rewrite H // coef_poly leq_min /vcoef.
  by case: (k < n)%N.
rewrite /conv_pmat_order (_ : minn _ _ = 0%N); last by case: H => ->; rewrite ?min0n ?minn0.
exact: pm_clearE.
Qed.

(** to vectors of matrices *)
Theorem C66_to_vector_truncated a n : is_vmat (conv_vmat_order a n) n (nr a) (nc a) (fun k i j => (ent a i j)`_k).
Proof.
split=> // k i j Hk Hi Hj /=.
by rewrite (cube_loop (fun k i j => (ent a i j)`_k)) Hk Hi Hj.
Qed.

(** without a truncation order, when all the entries have the same degree (full statement: for all matrices) *)
Theorem C66_to_vector_partial a :
  (forall i j i' j', (i < nr a)%N -> (j < nc a)%N -> (i' < nr a)%N -> (j' < nc a)%N ->
     size (ent a i j) = size (ent a i' j')) ->
  exists v, conv_vmat a = AOk v /\ is_vmat v (plen a) (nr a) (nc a) (fun k i j => (ent a i j)`_k).
Proof.
move=> H; have Hf : full a.
  move=> i j Hi Hj; apply/eqP; rewrite eqn_leq plen_size //=.
  by apply/plenP => i' j' Hi' Hj'; rewrite (H i j i' j').
by have [v [-> A B C D]] := conv_vmat_ok Hf; exists v; split.
Qed.

(** as soon as two entries have different degrees, the conversion reads past the end of the coefficients of one of
    them *)
Theorem C66_to_vector_refuted a i j i' j' : (i < nr a)%N -> (j < nc a)%N -> (i' < nr a)%N -> (j' < nc a)%N ->
  (size (ent a i j) < size (ent a i' j'))%N -> conv_vmat a = AUB.
Proof.
move=> Hi Hj Hi' Hj' H; apply: (@conv_vmat_bad _ _ i j) => //; apply: leq_trans H _; exact: plen_size.
Qed.

(** converting back and forth gives the truncated matrix, and the matrix itself when the order exceeds the degree *)
Theorem C66_roundtrip x a n raw0 : (0 < n)%N ->
  is_pmat (conv_pmat x (conv_vmat_order a n) raw0) (nr a) (nc a) (fun i j => ptrunc n (ent a i j)) /\
  ((forall i j, (i < nr a)%N -> (j < nc a)%N -> (size (ent a i j) <= n)%N) ->
   is_pmat (conv_pmat x (conv_vmat_order a n) raw0) (nr a) (nc a) (ent a)).
Proof.
move=> n0; have [A B C H] := C66_to_vector_truncated a n.
have [H1 _] := C66_from_vector x (conv_vmat_order a n) raw0; rewrite A in H1.
have {H1}[R1 R2 H1] := H1 n0.
have K : is_pmat (conv_pmat x (conv_vmat_order a n) raw0) (nr a) (nc a) (fun i j => ptrunc n (ent a i j)).
  split=> [||i j Hi Hj]; rewrite ?R1 ?R2 //; apply/polyP=> k; rewrite H1 ?B ?C // ptrunc_coef /vcoef A.
  by case: ifP => // Hk; rewrite H.
split=> // Hs; case: K => K1 K2 K3; split=> // i j Hi Hj; rewrite K3 // ptrunc_id //; exact: Hs.
Qed.

(** evaluation, for both representations *)
Theorem C66_eval a v (pt : F) :
  [/\ cr (eval_pmat a pt) = nr a, cc (eval_pmat a pt) = nc a &
      forall i j, (i < nr a)%N -> (j < nc a)%N -> cent (eval_pmat a pt) i j = (ent a i j).[pt]] /\
  ((0 < vlen v)%N -> [/\ cr (eval_vmat v pt) = vr v, cc (eval_vmat v pt) = vc v &
      forall i j, (i < vr v)%N -> (j < vc v)%N ->
        cent (eval_vmat v pt) i j = \sum_(k < vlen v) vent v k i j * pt ^+ k]).
Proof.
split; first by split=> // i j Hi Hj /=; rewrite (mat_loop (fun i j => (ent a i j).[pt])) Hi Hj.
move=> l0; split; try by rewrite /eval_vmat; case: eqP => // E; move: l0; rewrite E.
by move=> i j _ _; apply: eval_vmatE.
Qed.
Theorem C66_eval_empty v pt : vlen v = 0%N -> cr (eval_vmat v pt) = 0%N /\ cc (eval_vmat v pt) = 0%N.
Proof. by rewrite /eval_vmat => ->. Qed.

(** evaluation does not depend on the representation *)
Theorem C66_eval_conv x v raw0 (pt : F) i j : (0 < vlen v)%N -> (i < vr v)%N -> (j < vc v)%N ->
  cent (eval_pmat (conv_pmat x v raw0) pt) i j = cent (eval_vmat v pt) i j.
Proof.
move=> l0 Hi Hj; have [R1 R2 H] := conv_pmatE x raw0 l0.
have [[_ _ E] _] := C66_eval (conv_pmat x v raw0) v pt; rewrite E ?R1 ?R2 //.
by rewrite H // eval_vmatE // horner_poly.
Qed.
End C66.

(** a matrix with a zero entry cannot be converted *)
Example C66_refuted_met (F : fieldType) : conv_vmat (Pmat 1 2 (fun _ j => if j == 0%N then 1 else 0 : {poly F})) = AUB.
Proof. by apply: (@C66_to_vector_refuted F _ 0 1 0 0) => //=; rewrite size_poly1 size_poly0. Qed.
Example C66_met (F : fieldType) :
  exists v, conv_vmat (Pmat 40 70 (fun _ _ => 'X^50 : {poly F})) = AOk v /\ vent v 50 39%N 69%N = 1.
Proof.
have [v [-> [_ _ _ H]]] := @C66_to_vector_partial F (Pmat 40 70 (fun _ _ => 'X^50)) (fun _ _ _ _ _ _ _ _ => erefl).
exists v; split=> //; rewrite H //=; first by rewrite coefXn eqxx.
by have := @plen_size F (Pmat 40 70 (fun _ _ => 'X^50)) 0 0 isT isT; rewrite /= size_polyXn.
Qed.

Print Assumptions C66_from_constant.
Print Assumptions C66_from_vector.
Print Assumptions C66_from_vector_truncated.
Print Assumptions C66_to_vector_truncated.
Print Assumptions C66_to_vector_partial.
Print Assumptions C66_to_vector_refuted.
Print Assumptions C66_roundtrip.
Print Assumptions C66_eval.
Print Assumptions C66_eval_empty.
Print Assumptions C66_eval_conv.
