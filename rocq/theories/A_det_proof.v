(** Proofs about the determinant algorithm. *)
From mathcomp Require Import all_ssreflect all_algebra fingroup perm fraction zify.
From Verif Require Import A_base SpecA SpecForms SpecLU SpecWP A_forms_model.
From Verif Require Import A_rot_model A_rot_proof A_wpopov_model P_pluq P_wpopov A_det_model.
Set Implicit Arguments.
Unset Strict Implicit.
Unset Printing Implicit Defensive.
Import Order.TTheory GRing.Theory Num.Theory.
Local Open Scope ring_scope.

Section Det.
Local Arguments permute_rows_by_sorting_vec : simpl never.
Local Arguments perm_parity : simpl never.
Variable F : fieldType.
Local Notation P := {poly F}.

Lemma wp_loop_mono c cT shift rstart cstart rdim cdim early o fuel fuel' (st : wp_state F) x :
  (fuel <= fuel')%N -> wp_loop c cT shift rstart cstart rdim cdim early o fuel st = Some x ->
  wp_loop c cT shift rstart cstart rdim cdim early o fuel' st = Some x.
Proof.
elim: fuel fuel' st => [|fuel IH] [|fuel'] st //= L; case: ifP => // _.
by case: wp_step => [st'|] // /IH ->.
Qed.

Lemma submat_mono c cT shift rstart cstart rdim cdim early o fuel fuel' (A : fmat P) T det pivind rrp x :
  (fuel <= fuel')%N ->
  weak_popov_submat fuel c cT A shift T det pivind rrp rstart cstart rdim cdim early o = Some x ->
  weak_popov_submat fuel' c cT A shift T det pivind rrp rstart cstart rdim cdim early o = Some x.
Proof.
move=> L; rewrite /weak_popov_submat; case: ifP => // _.
by case E: wp_loop => [y|] //; rewrite (wp_loop_mono L E).
Qed.

Lemma size_bound (A : fmat P) r c : exists d, forall i j, (i < r)%N -> (j < c)%N -> (size (A i j) <= d.+1)%N.
Proof.
exists (\max_(i < r) \max_(j < c) size (A i j))%N => i j Hi Hj; apply: leqW.
apply: leq_trans (leq_bigmax (Ordinal Hi)); exact: (leq_bigmax (Ordinal Hj)).
Qed.

(** C51 without an explicit bound, for the uniform shift and rows from 0 *)
Lemma submat_all (A : fmat P) T det pivind rrp rdim cdim n cT early : (cdim <= n)%N ->
  exists r k zr N,
  [/\ forall fuel, (N <= fuel)%N ->
        weak_popov_submat fuel n cT A None T det pivind rrp 0 0 rdim cdim early ROW_UPPER = Some (AOk r),
    [/\ (k + zr <= rdim)%N, (k + zr = rdim \/ zr = early)%N &
        wr_ret r = if (early <= zr)%N then - k%:Z else k%:Z],
    (exists (U : 'M[P]_rdim) (sg : bool),
     [/\ \det U = (-1) ^+ sg, left_multiplied 0 n U A (wr_mat r),
        opt_rel (left_multiplied 0 cT U) T (wr_tsf r) &
        wr_det r = omap (fun x => (-1) ^+ sg * x) det]),
    weak_popov_with true (fun _ => 0) (block 0 k cdim (wr_mat r)) (wr_pivind r) /\
    (forall i j, (rdim - zr <= i < rdim)%N -> (j < cdim)%N -> wr_mat r i j = 0) &
    prank (block 0 (k + zr) cdim A) = k /\
    forall i, (rdim <= i)%N -> wr_pivind r i = pivind i].
Proof.
move=> Hc; have [d Hd] := size_bound A rdim cdim.
have [|||||r [k [zr [E H1 H2 H3 [H4 H5 H6]]]]] :=
  @C51_weak_popov_submat_partial F A None T det pivind rrp 0 rdim cdim n cT early ROW_UPPER d 0 0
    (rdim * (cdim * (d + absz (0 - 0)%R + 1) + 1))%N _ Hc => //; try by [right|constructor 2].
exists r, k, zr, (rdim * (cdim * (d + absz (0 - 0)%R + 1) + 1))%N; split=> //.
by move=> fuel Hf; exact: submat_mono Hf E.
Qed.

(** the parity of the permutation of the rows *)
Lemma parity_det n (p : nat -> nat) (A : fmat P) : is_perm n p ->
  \det (mx_of n n (fun i => A (p i))) = (-1) ^+ perm_parity n p * \det (mx_of n n A).
Proof.
case=> H1 H2; rewrite /perm_parity; case: pickP => [s /forallP Hs|N].
  have -> : mx_of n n (fun i => A (p i)) = row_perm s (mx_of n n A).
    by apply/matrixP=> i j; rewrite !mxE (eqP (Hs i)).
  by rewrite row_permE det_mulmx det_perm.
pose pm (i : 'I_n) : 'I_n := Ordinal (H1 i (ltn_ord i)).
have pI : injective pm by move=> i j /(congr1 val) /= /H2 E; apply: val_inj; exact: E.
by case/negP: (N (perm pI)); apply/forallP=> i; rewrite permE.
Qed.

Lemma det_last n (A : fmat P) : (forall j, (j < n)%N -> A n j = 0) ->
  \det (mx_of n.+1 n.+1 A) = A n n * \det (mx_of n n A).
Proof.
move=> Z; rewrite (expand_det_row _ ord_max) big_ord_recr /= big1 ?add0r => [|j _]; last first.
  by rewrite mxE /= Z ?mul0r.
rewrite mxE /=; congr (_ * _); rewrite /cofactor /= addnn -mul2n exprM sqrrN expr1n expr1n mul1r.
by congr (\det _); apply/matrixP=> i j; rewrite !mxE /= /bump (leqNgt n i) (leqNgt n j) !ltn_ord !add0n.
Qed.

Lemma sgM (a b : bool) : (-1) ^+ a * (-1) ^+ b = (-1) ^+ (a (+) b) :> int.
Proof. by case: a b => -[]. Qed.
Lemma sgMP (a b : bool) : (-1) ^+ a * (-1) ^+ b = (-1) ^+ (a (+) b) :> P.
Proof. by rewrite -exprD -signr_odd oddD !oddb. Qed.

Lemma det_loopS fuel i (A A' : fmat P) udet pivind r pv perm :
  weak_popov_submat fuel i.+2 0 A None None (Some udet) pivind None 0 0 i.+2 i.+1 2 ROW_UPPER = Some (AOk r) ->
  wr_ret r = i.+1%:Z -> wr_mat r i.+1 i.+1 != 0 ->
  permute_rows_by_sorting_vec i.+1 (wr_mat r) (wr_pivind r) = (A', pv, perm) ->
  det_loop fuel i.+1 A udet pivind =
  det_loop fuel i A' (if perm_parity i.+1 perm then - odflt 0 (wr_det r) else odflt 0 (wr_det r)) pv.
Proof.
move=> E Er C Ep; rewrite [LHS]/det_loop -/(@det_loop F) E Er ltxx (negPf C) orbF.
by rewrite absz_nat Ep.
Qed.

Lemma det_loopP i (A : fmat P) udet pivind :
  exists N out, (forall fuel, (N <= fuel)%N -> det_loop fuel i A udet pivind = Some (AOk out)) /\
  match out with
  | None => \det (mx_of i.+1 i.+1 A) = 0
  | Some (A', udet') =>
    (exists sg : bool, udet' = (-1) ^+ sg * udet /\
       \det (mx_of i.+1 i.+1 A) = (-1) ^+ sg * \prod_(j < i.+1) A' j j) /\
    forall k j, (i < k)%N -> A' k j = A k j
  end.
Proof.
elim: i A udet pivind => [|i IH] A udet pivind.
  exists 0%N, (Some (A, udet)); split=> //; split=> //.
  exists false; rewrite !mul1r; split=> //.
  by rewrite det_mx11 mxE big_ord_recl big_ord0 mulr1.
have [r [k [zr [N [E [L1 L2 L3] [U [sg [dU [U1 U1'] _ E2]]] [W Z] [R _]]]]]] :=
  @submat_all A None (Some udet) pivind None i.+2 i.+1 i.+2 0 2 (leqnSn _).
have EV : \det (mx_of i.+2 i.+2 A) = (-1) ^+ sg * \det (mx_of i.+2 i.+2 (wr_mat r)).
  have -> : mx_of i.+2 i.+2 (wr_mat r) = U *m mx_of i.+2 i.+2 A by exact: U1.
  by rewrite det_mulmx dU mulrA -expr2 sqrr_sign mul1r.
have Zz : (0 < zr)%N.
  by have := rank_leq_col (map_mx (@FracField.tofrac [idomainType of P]) (block 0 (k + zr) i.+1 A)); rewrite -/(prank _) R; lia.
have DL : \det (mx_of i.+2 i.+2 (wr_mat r)) = wr_mat r i.+1 i.+1 * \det (mx_of i.+1 i.+1 (wr_mat r)).
  by apply: det_last => j Hj; apply: Z => //; lia.
case C: ((wr_ret r < i.+1%:Z) || (wr_mat r i.+1 i.+1 == 0)).
  exists N, None; split; first by move=> fuel Hf /=; rewrite E // C.
  rewrite EV; case/orP: C => [C|/eqP C]; last by rewrite DL C mul0r mulr0.
  have Z2 : (2 <= zr)%N by move: C; rewrite L3; case: ifP => C'; lia.
  rewrite DL; suff -> : \det (mx_of i.+1 i.+1 (wr_mat r)) = 0 by rewrite !mulr0.
  rewrite (expand_det_row _ ord_max) big1 // => j _.
  by rewrite mxE /= Z ?mul0r //; lia.
move/negbT: C; rewrite negb_or -leNgt => /andP[C1 C2].
have [Ek Ez] : k = i.+1 /\ zr = 1%N by move: C1; rewrite L3; case: ifP => C'; lia.
have Er : wr_ret r = i.+1%:Z by rewrite L3 Ek Ez.
case Ep: (permute_rows_by_sorting_vec i.+1 (wr_mat r) (wr_pivind r))
  (C50_permute_rows_by_sorting_vec (wr_mat r) (wr_pivind r) (leqnn i.+1)) => [[A' pv] perm] [[Pm _] PA _ Pid _].
have [N' [out [E' H']]] := IH A' (if perm_parity i.+1 perm then - ((-1) ^+ sg * udet) else (-1) ^+ sg * udet) pv.
exists (maxn N N'), out; split.
  move=> fuel; rewrite geq_max => /andP[Hf Hf'].
  by rewrite (det_loopS (E _ Hf) Er C2 Ep) E2 /= E'.
have D' : \det (mx_of i.+1 i.+1 A') = (-1) ^+ perm_parity i.+1 perm * \det (mx_of i.+1 i.+1 (wr_mat r)).
  by rewrite -parity_det //; congr (\det _); apply/matrixP=> a b; rewrite !mxE PA.
have Ds : \det (mx_of i.+1 i.+1 (wr_mat r)) = (-1) ^+ perm_parity i.+1 perm * \det (mx_of i.+1 i.+1 A').
  by rewrite D' mulrA -expr2 sqrr_sign mul1r.
case: out {E'} H' => [[A2 u2]|] H'; last by rewrite EV DL Ds H' !mulr0.
have [[s2 [Eu Ed]] Fr] := H'; split.
  exists (sg (+) (perm_parity i.+1 perm (+) s2)); split.
    by rewrite Eu -!sgM; case: perm_parity; rewrite /= ?expr1 ?expr0; lia.
  rewrite EV DL Ds Ed [X in _ = _ * X]big_ord_recr /= Fr // -!sgMP PA Pid //.
  by rewrite -!mulrA; congr (_ * _); rewrite [LHS]mulrC -!mulrA.
move=> q j Hq; rewrite Fr; last by lia.
by rewrite PA Pid ?U1' //; lia.
Qed.
End Det.
