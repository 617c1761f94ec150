(** Functions meeting the contracts of SpecKer.v exist. *)
From mathcomp Require Import all_ssreflect all_algebra zify.
From Verif Require Import A_base SpecKer.
Set Implicit Arguments.
Unset Strict Implicit.
Unset Printing Implicit Defensive.
Import GRing.Theory.
Local Open Scope ring_scope.

Section Ex.
Variable F : fieldType.

Definition ech r n (B : 'M[F]_(r, n)) : Prop := exists lead : 'I_r -> 'I_n,
  (forall i, B i (lead i) != 0 /\ forall j : 'I_n, (j < lead i)%N -> B i j = 0) /\ (forall i i' : 'I_r, (i < i')%N -> (lead i < lead i')%N).

Lemma ech_exists n : forall k (A : 'M[F]_(k, n)), exists r (B : 'M[F]_(r, n)), [/\ (B :=: A)%MS, row_free B & ech B].
Proof.
elim: n => [|n IH] k A.
  exists 0%N, 0; split; first by apply/eqmxP; rewrite !thinmx0 !sub0mx.
    by rewrite /row_free mxrank0.
  by exists id; split=> -[].
rewrite -[n.+1]/(1 + n)%N in A *.
pose L := lsubmx A; pose A0 := kermx L *m rsubmx A.
have EA : A = row_mx L (rsubmx A) by rewrite hsubmxK.
have [r [B [EB RB [lead [L1 L2]]]]] := IH _ A0.
pose B0 : 'M[F]_(r, 1 + n) := row_mx 0 B.
have SB0 : (B0 <= A)%MS.
  have : (B <= A0)%MS by rewrite EB.
  case/submxP=> D ED; apply/submxP; exists (D *m kermx L).
  by rewrite EA mul_mx_row -mulmxA mulmx_ker mulmx0 -mulmxA -/A0 -ED.
have in0 (w : 'rV[F]_k) : w *m L = 0 -> (w *m A <= B0)%MS.
  move=> /sub_kermxP/submxP[u Eu]; have : (u *m A0 <= B)%MS by rewrite EB submxMl.
  case/submxP=> D ED; apply/submxP; exists D; rewrite Eu EA mul_mx_row -(mulmxA u _ L) mulmx_ker mulmx0 -(mulmxA u _ (rsubmx A)) -/A0 ED.
  by rewrite mul_mx_row mulmx0.
have l0 : (0 : 'I_(1 + n)) = lshift n (0 : 'I_1) by apply: val_inj.
have B0l i : B0 i 0 = 0 by rewrite l0 row_mxEl mxE.
have B0r i j : B0 i (rshift 1 j) = B i j by rewrite row_mxEr.
have [L0|[i0 Ni0]] : L = 0 \/ exists i, L i 0 != 0.
  case: (pickP (fun i => L i 0 != 0)) => [i N|Z]; [by right; exists i|left].
  by apply/matrixP=> i j; rewrite ord1 [RHS]mxE; apply/eqP; have := Z i => /negbFE.
- exists r, B0; split.
  + apply/eqmxP; rewrite SB0 /=; apply/row_subP=> i; rewrite rowE; apply: in0; by rewrite L0 mulmx0.
  + by rewrite /row_free /B0 rank_row_0mx; exact: RB.
  + exists (fun i => rshift 1 (lead i)); split=> [i|i i' Hi]; last by rewrite /= ltn_add2l; exact: L2.
    have [N Z] := L1 i; rewrite B0r; split=> // j; case: (splitP j) => [j' Ej _|j' Ej].
      by rewrite (_ : j = 0) ?B0l //; apply: val_inj; rewrite /= Ej; case: (j') => -[].
    rewrite (_ : j = rshift 1 j') ?B0r; last by apply: val_inj.
    by rewrite /= ltn_add2l; exact: Z.
pose a := row i0 A; have Na : a 0 0 != 0.
  by move: Ni0; rewrite /L !mxE -l0.
pose C : 'M[F]_(1 + r, 1 + n) := col_mx a B0.
exists (1 + r)%N, C; split.
- apply/eqmxP; rewrite col_mx_sub row_sub SB0 /=; apply/row_subP=> i.
  pose c := A i 0 / a 0 0.
  have : ((delta_mx 0 i - c *: delta_mx 0 i0 : 'rV[F]_k) *m A <= B0)%MS.
    apply: in0; apply/rowP=> j; rewrite mulmxBl -scalemxAl -!rowE !mxE.
    rewrite (ord1 j) -l0.
    by rewrite /c /a !mxE divfK ?subrr //; move: Na; rewrite mxE.
  rewrite mulmxBl -scalemxAl -!rowE => S.
  rewrite (_ : row i A = (row i A - c *: a) + c *: a); last by rewrite subrK.
  rewrite addmx_sub //; first by apply: submx_trans S _; rewrite -addsmxE addsmxSr.
  by apply: scalemx_sub; rewrite -addsmxE addsmxSl.
- rewrite -kermx_eq0; apply/eqP/row_matrixP=> i; rewrite row0; set u := row i _.
  have Hu : u *m C = 0 by rewrite /u -row_mul mulmx_ker row0.
  rewrite -[u]hsubmxK mul_row_col in Hu.
  have U0 : lsubmx u = 0.
    apply/rowP=> z; rewrite ord1 [RHS]mxE; have /rowP/(_ 0) := Hu; rewrite [RHS]mxE => E.
    have : lsubmx u 0 0 * a 0 0 = 0.
      rewrite -[RHS]E [RHS]mxE [X in _ = X + _]mxE [X in _ = _ + X]mxE big_ord1 [X in _ = _ + X]big1 ?addr0 // => l _.
      by rewrite B0l mulr0.
    by move/eqP; rewrite mulf_eq0 (negbTE Na) orbF => /eqP.
  have U1 : rsubmx u = 0.
    apply: (row_free_inj RB); rewrite mul0mx; apply/rowP=> j; rewrite [RHS]mxE.
    have /rowP/(_ (rshift 1 j)) := Hu; rewrite U0 mul0mx add0r !mxE => E; rewrite -[RHS]E.
    by apply: eq_bigr => l _; rewrite B0r.
  by rewrite -[u]hsubmxK U0 U1 row_mx0.
- exists (fun i => if split i is inr i' then rshift 1 (lead i') else 0).
  have Cu (j : 'I_(1 + n)) : C (lshift r 0) j = a 0 j by rewrite col_mxEu.
  have Cd i' (j : 'I_(1 + n)) : C (rshift 1 i') j = B0 i' j by rewrite col_mxEd.
  split=> [i|i i'].
    case: (splitP i) => [i' Ei|i' Ei].
      have -> : i = lshift r 0 by apply: val_inj; rewrite /= Ei; case: (i') => -[].
      by split=> [|j]; rewrite ?Cu.
    have -> : i = rshift 1 i' by apply: val_inj.
    have [N Z] := L1 i'; split=> [|j]; first by rewrite Cd B0r.
    case: (splitP j) => [j' Ej _|j' Ej].
      by rewrite Cd (_ : j = 0) ?B0l //; apply: val_inj; rewrite /= Ej; case: (j') => -[].
    rewrite Cd (_ : j = rshift 1 j') ?B0r; last by apply: val_inj.
    by rewrite /= ltn_add2l; exact: Z.
  case: (splitP i) => [j Ej|j Ej]; case: (splitP i') => [j' Ej'|j' Ej'] //=; rewrite ?Ej ?Ej' ?ltn_add2l.
  + by case: j j' {Ej Ej'} => -[|//] ? [[|//] ?].
  + by move=> Hi; have := ltn_ord j'; lia.
  + exact: L2.
Qed.

(** entries of a matrix *)
Definition ent_of m n (M : 'M[F]_(m, n)) : fmat F := fun i j =>
  if insub i is Some i' then if insub j is Some j' then M i' j' else 0 else 0.
Lemma ent_ofE m n (M : 'M[F]_(m, n)) (i : 'I_m) (j : 'I_n) : ent_of M i j = M i j.
Proof. by rewrite /ent_of !valK. Qed.
Lemma mx_of_ent m n (M : 'M[F]_(m, n)) : mx_of m n (ent_of M) = M.
Proof. by apply/matrixP=> i j; rewrite mxE ent_ofE. Qed.

Definition echb r n (B : 'M[F]_(r, n)) : bool := [exists lead : {ffun 'I_r -> 'I_n},
  [forall i, (B i (lead i) != 0) && [forall j : 'I_n, (j < lead i)%N ==> (B i j == 0)]] &&
  [forall i : 'I_r, [forall i' : 'I_r, (i < i')%N ==> (lead i < lead i')%N]]].
Lemma echbP r n (B : 'M[F]_(r, n)) : reflect (ech B) (echb B).
Proof.
apply: (iffP existsP) => [[lead /andP[/forallP H1 /forallP H2]]|[lead [H1 H2]]].
  exists lead; split=> [i|i i' Hi]; last by have /forallP/(_ i')/implyP := H2 i; apply.
  by have /andP[N /forallP Z] := H1 i; split=> // j Hj; apply/eqP; have /implyP := Z j; apply.
exists (finfun lead); apply/andP; split; apply/forallP=> i.
  by have [N Z] := H1 i; rewrite ffunE N; apply/forallP=> j; apply/implyP=> /Z ->.
by apply/forallP=> i'; apply/implyP=> Hi; rewrite !ffunE; exact: H2.
Qed.

Lemma img_ex k m (A : 'M[F]_(k, m)) : exists B : 'M[F]_(\rank A, m), (B == A)%MS && echb B.
Proof.
have [r [B [EB RB EC]]] := ech_exists A.
have Er : r = \rank A by rewrite -EB; apply/esym/eqP.
by move: B EB RB EC; rewrite Er => B EB RB EC; exists B; apply/andP; split; [apply/eqmxP|apply/echbP].
Qed.
Definition ex_img (k m : nat) (A : fmat F) : nat * fmat F := (\rank (mx_of k m A), ent_of (xchoose (img_ex (mx_of k m A)))).

Lemma ex_imgP k m A : image_of k m A (ex_img k m A).1 (ex_img k m A).2.
Proof.
rewrite /ex_img /=; set B := xchoose _; have /andP[/eqmxP EB /echbP[lead [H1 H2]]] := xchooseP (img_ex (mx_of k m A)).
rewrite -/B in EB H1; split=> //; first by rewrite mx_of_ent.
exists (fun i => if insub i is Some i' then lead i' : nat else 0%N); split=> [i Hi|i j /andP[Hij Hj]].
  rewrite insubT; have [N Z] := H1 (Ordinal Hi); split=> // [|j Hj].
    by have := ent_ofE B (Ordinal Hi) (lead (Ordinal Hi)) => /= ->.
  have Hm : (j < m)%N by apply: ltn_trans Hj _.
  by have := ent_ofE B (Ordinal Hi) (Ordinal Hm) => /= ->; apply: Z.
by rewrite !insubT; [exact: ltn_trans Hij Hj|move=> Hi; exact: H2].
Qed.

(** a kernel basis, whose rightmost block is the identity whenever it is invertible *)
Definition blk k m (K : 'M[F]_(k, m)) : 'M[F]_k := \matrix_(i, j) ent_of K i (m - k + j)%N.
Definition norm_ker k m (K : 'M[F]_(k, m)) : 'M[F]_(k, m) := if blk K \in unitmx then invmx (blk K) *m K else K.
Definition ex_ker (m n : nat) (A : fmat F) : nat * fmat F :=
  if mx_of m n A == 0 then (m, @fone F) else (\rank (kermx (mx_of m n A)), ent_of (norm_ker (row_base (kermx (mx_of m n A))))).

Lemma ex_kerP m n A : left_kernel_of m n A (ex_ker m n A).1 (ex_ker m n A).2.
Proof.
rewrite /ex_ker; case: eqP => [Z|_] /=.
  by split; rewrite ?Z ?mulmx0 ?mx_of_one ?mxrank0 ?addn0 // row_free_unit unitmx1.
set K := row_base _; have RF : row_free K := row_base_free _.
have KZ : K *m mx_of m n A = 0.
  by apply/sub_kermxP; rewrite eq_row_base.
split; rewrite ?mx_of_ent.
- by rewrite /norm_ker; case: ifP => // _; rewrite -mulmxA KZ mulmx0.
- by rewrite /norm_ker; case: ifP => // U; rewrite /row_free eqmxMfull ?row_full_unit ?unitmx_inv.
- by rewrite mxrank_ker subnK ?rank_leq_row.
Qed.
Lemma ex_ker_zero m n A : mx_of m n A = 0 -> mx_of m m (ex_ker m n A).2 = 1%:M.
Proof. by move=> Z; rewrite /ex_ker Z eqxx mx_of_one. Qed.

Lemma ex_ker_block m n A : identity_block (ex_ker m n A).1 m (ex_ker m n A).2.
Proof.
rewrite /ex_ker; case: eqP => [_|_] /=.
  by move=> _ i j Hi Hj; rewrite subnn add0n.
set K := row_base _; set k := \rank _; rewrite -/k in K *.
have km : (k <= m)%N by rewrite /k rank_leq_row.
move=> H i j Hi Hj; have Hc (c : 'I_k) : (m - k + c < m)%N by have := ltn_ord c; lia.
have blkE (M : 'M[F]_(k, m)) (a b : 'I_k) : blk M a b = M a (Ordinal (Hc b)).
  by rewrite mxE; exact: (ent_ofE M a (Ordinal (Hc b))).
have U : blk K \in unitmx.
  apply: contraT => NU; move: H; rewrite /norm_ker (negbTE NU) => H; case/negP: NU.
  rewrite unitmxE det_trig.
    rewrite unitfE; apply/prodf_neq0 => a _; rewrite mxE; by have [] := H a (ltn_ord a).
  apply/is_trig_mxP => a b Hab; rewrite mxE; have [_ Z] := H a (ltn_ord a); apply: Z.
  by have := ltn_ord b; lia.
have E : blk (norm_ker K) = 1%:M.
  rewrite /norm_ker U -(mulVmx U); apply/matrixP=> a b; rewrite blkE !mxE; apply: eq_bigr => l _.
  by rewrite blkE.
by have /matrixP/(_ (Ordinal Hi) (Ordinal Hj)) := E; rewrite !mxE.
Qed.
End Ex.
