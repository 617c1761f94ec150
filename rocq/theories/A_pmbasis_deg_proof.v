(** Degrees of the matrices computed by mbasis and pmbasis: at most the order. *)
From mathcomp Require Import all_ssreflect all_algebra zify.
From Verif Require Import A_base A_nullspace_model A_matpoly_model A_matpoly_proof A_mbasis_model A_mbasis_proof
  A_mul_model A_mul_proof A_mul2_proof A_pmbasis_model A_pmbasis_proof.
Set Implicit Arguments.
Unset Strict Implicit.
Unset Printing Implicit Defensive.
Import GRing.Theory Num.Theory.
Local Open Scope ring_scope.

Section Deg.
Variable F : fieldType.

Lemma mbasis_step_len m n (matp : mat_poly F) ord st st' : mbasis_step m n matp ord st = Some st' ->
  (mp_len st'.1 <= (mp_len st.1).+1)%N.
Proof.
case: st => P t; rewrite /mbasis_step.
case: (left_nullspace_compact _ _ _) => -[nul nsb] piv.
case: eqP => // _; case: ifP => _ [<-] //=.
by rewrite /grow_length; case: ifP => _ /=.
Qed.

Lemma mbasis_loop_len m n (matp : mat_poly F) k ord st :
  (mp_len (mbasis_loop m n matp k ord st).1 <= mp_len st.1 + k)%N.
Proof.
elim: k ord st => [|k IH] ord st; first by rewrite addn0.
rewrite [mbasis_loop _ _ _ _ _ _]/=; case E: (mbasis_step _ _ _ _ _) => [st'|].
  by have := mbasis_step_len E; have := IH ord.+1 st'; lia.
by rewrite /= /mp_shift_left /=; case: eqP => [->|] //=.
Qed.

Lemma pm_mbasis_size m n (A : fmat {poly F}) d s P t i j :
  pm_mbasis m n A d s = AOk (P, t) -> (size (P i j) <= d.+1)%N.
Proof.
rewrite /pm_mbasis /mbasis; set M := mp_set_trunc_from_poly_mat _ _ _ _.
case: ifP => _.
  case=> <- _; rewrite pm_set_from_mat_polyE; apply: leq_trans (size_poly _ _) _; by [].
case: eqP => // _; have := mbasis_loop_len m n M d 0 (mp_one, s).
case: (mbasis_loop _ _ _ _ _ _) => Q u /= L [<- _].
by rewrite pm_set_from_mat_polyE; apply: leq_trans (size_poly _ _) _; lia.
Qed.

Lemma pmbasis_rec_size modn v36 thres m n fuel (A : fmat {poly F}) d s P t i j :
  modn \in [char F] -> pmbasis_rec fuel thres v36 modn m n A d s = AOk (P, t) ->
  (i < m)%N -> (j < m)%N -> (size (P i j) <= d.+1)%N.
Proof.
move=> Hc; elim: fuel A d s P t i j => [//|fuel IH] A d s P t i j /=.
case: (leqP d thres) => _; first by move=> H _ _; exact: (@pm_mbasis_size m n (pm_trunc d A) d s P t i j H).
case E1: (pmbasis_rec _ _ _ _ _ _ _ _ _) => [[P1 s1]|] //.
case: (mulmid _ _ _ _ _ _ _ _ _) => // R.
case E2: (pmbasis_rec _ _ _ _ _ _ _ _ _) => [[P2 s2]|] // [<- _] Hi Hj.
rewrite pm_multiplyP // /fmul; apply: leq_trans (size_sum _ _ _) _.
apply/bigmax_leqP=> l _; apply: leq_trans (size_mul_leq _ _) _.
have := IH _ _ _ _ _ _ _ E1 (ltn_ord l) Hj; have := IH _ _ _ _ _ _ _ E2 Hi (ltn_ord l).
move: (size (P1 l j)) (size (P2 i l)) => a b; lia.
Qed.

Lemma pmbasis_size modn v36 m n (A : fmat {poly F}) d s P t i j :
  modn \in [char F] -> pmbasis v36 modn m n A d s = AOk (P, t) ->
  (i < m)%N -> (j < m)%N -> (size (P i j) <= d.+1)%N.
Proof. exact: pmbasis_rec_size. Qed.
End Deg.
