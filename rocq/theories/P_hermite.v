(** C35, C36, C37, C38, C53: echelon forms, Hermite forms and rank profiles. *)
From mathcomp Require Import all_ssreflect all_algebra fraction zify.
From Verif Require Import A_base SpecA SpecForms SpecLU SpecWP SpecHermite.
From Verif Require Import A_rot_model A_rowops_proof A_wpopov_proof A_hermite_model A_hermite_ops_proof
  A_uref_proof A_uref2_proof A_uref3_proof A_hnf_proof A_kb_key A_kb_proof.
Set Implicit Arguments.
Unset Strict Implicit.
Unset Printing Implicit Defensive.
Import GRing.Theory Num.Theory.
Local Open Scope ring_scope.

Section Hermite.
Variable F : fieldType.
Local Notation P := {poly F}.
Implicit Types (A : fmat P) (T : option (fmat P)) (pivind : nat -> nat).

Lemma leadingE i j (A : fmat P) : leading_block i j A = mx_of i j A.
Proof. by apply/matrixP=> a b; rewrite !mxE. Qed.

Lemma trans_transformed m n cT (Q : P -> Prop) k A T A' T' : Q k -> trans m n cT k A T A' T' ->
  transformed m n cT Q A T A' T'.
Proof.
move=> Hk [U dU [H1 H2]]; exists U; split; first by rewrite dU.
  by rewrite !leadingE; exact: H1.
by move: H2; case: T T' => [B|] [B'|] //= H2; rewrite !leadingE; exact: H2.
Qed.

Lemma tr_transformed m n cT A T A' T' : tr m n cT A T A' T' -> transformed m n cT (@sign_det F) A T A' T'.
Proof. by case=> b; apply: trans_transformed; case: b; [right|left]. Qed.

(** result of an echelon form computation *)
Definition echelon_result m n cT A T pivind (r : ur_result F) : Prop :=
  [/\ transformed m n cT (@sign_det F) A T (ur_mat r) (ur_tsf r),
      uref_with (leading_block m n (ur_mat r)) (ur_rk r) (ur_pivind r),
      ur_rk r = prank (leading_block m n A),
      column_rank_profile m n A (ur_rk r) (ur_pivind r) &
      forall i, (ur_rk r <= i)%N -> ur_pivind r i = pivind i].

Lemma cinv_result m n cT A T pivind r :
  cinv m n cT A T pivind (ur_mat r) (ur_tsf r) (ur_pivind r) (ur_rk r) n -> echelon_result m n cT A T pivind r.
Proof.
case=> Tr Hrk Pv _ Z Fr; split=> //.
- exact: tr_transformed.
- by rewrite leadingE; apply: pivs_uref.
- case: Tr => b Tr; rewrite leadingE; have [|_ ->] // := trans_crp _ Hrk Tr Pv Z.
  by rewrite signr_eq0.
by case: Tr => b Tr; have [|] := trans_crp _ Hrk Tr Pv Z; first by rewrite signr_eq0.
Qed.

Lemma cinv0 m n cT A T pivind : cinv m n cT A T pivind A T pivind 0 0.
Proof. split=> //; [exact: tr0|by split=> // i i'; rewrite ltn0 andbF]. Qed.

Lemma cinv_deg m n cT A T pivind : (m == 0%N) || (n == 0%N) -> cinv m n cT A T pivind A T pivind 0 n.
Proof. by move=> H; split=> //; [exact: tr0|split=> // i i'; rewrite ltn0 andbF|move=> i k Hi Hk; lia]. Qed.

Lemma mrp_fillE m (r : nat -> int) i : foldl (fun r i => upd r i (-1)) r (iota 0 m) i = if (i < m)%N then -1 else r i.
Proof.
elim: m => [|m IH] //; rewrite -[m.+1]addn1 iotaD foldl_cat /= /upd IH add0n.
case: (i =P m) => [->|N]; first by rewrite addn1 ltnSn.
by have -> : (i < m + 1)%N = (i < m)%N by lia.
Qed.

Lemma rmrp0 m n A pivind (r : nat -> int) : rmrp m n A A pivind 0 id (foldl (fun r i => upd r i (-1)) r (iota 0 m)).
Proof.
split=> // i /andP[_ Hi]; split; first exact: lowrow_id.
by rewrite mrp_fillE Hi.
Qed.

Lemma fill_deg (m n : nat) A mrp : (m == 0%N) || (n == 0%N) ->
  mrp_filled m n A mrp (mrp_fill m mrp).
Proof.
move=> H; rewrite /mrp_filled /mrp_fill; case: mrp => //= r; split; last first.
  by move=> i Hi; rewrite mrp_fillE ltnNge Hi.
exact: rmrp_final (cinv_deg 0 A None id H) (rmrp0 m n A id r).
Qed.

Section Xgcd.
Variable xgcd : P -> P -> P * P * P.
Hypothesis XS : xgcd_spec xgcd.

Lemma maxdeg_all m n cT A T pivind : exists r N, echelon_result m n cT A T pivind r /\
  forall fuel, (N <= fuel)%N -> uref_maxdeg_atomic m n cT fuel A T pivind = Some (AOk r).
Proof.
rewrite /uref_maxdeg_atomic; case C: ((m == 0%N) || (n == 0%N)).
  by exists (URR A T pivind None 0), 0%N; split=> //; apply: cinv_result; exact: cinv_deg.
have [N [A' [T' [pv' [rk' [I E]]]]]] := maxdeg_colsP (add0n n) (cinv0 m n cT A T pivind).
exists (URR A' T' pv' None rk'), N; split; first exact: cinv_result.
by move=> fuel Hf; rewrite E.
Qed.

Lemma revlex_all m n cT A T pivind mrp fuel : (m <= fuel)%N ->
  exists r, [/\ uref_revlex_xgcd xgcd m n cT fuel A T pivind mrp = Some r,
    echelon_result m n cT A T pivind r & mrp_filled m n A mrp (ur_mrp r)].
Proof.
move=> Hf; rewrite /uref_revlex_xgcd; case: ifP => C.
  eexists; split; first reflexivity; last exact: (fill_deg A mrp C).
  by apply: cinv_result; exact: cinv_deg.
have H0 : if mrp_fill m mrp is Some r then rmrp m n A A pivind 0 id r else True.
  by rewrite /mrp_fill; case: mrp => //= r; exact: rmrp0.
have [|r [-> I M]] := @revlex_colsP F m n cT A T pivind xgcd XS fuel n A T pivind (mrp_fill m mrp) id 0 0 Hf
  (add0n n) (cinv0 m n cT A T pivind); first by move: H0; case: (mrp_fill m mrp).
exists r; split=> //; first exact: cinv_result.
move: M; rewrite /mrp_filled /mrp_fill; case: mrp (ur_mrp r) {H0} => [r0|] [r1|] //= [M1 M2]; split=> // i Hi.
by rewrite M2 // mrp_fillE ltnNge Hi.
Qed.

Lemma lex_all m n cT A T pivind mrp fuel : (m <= fuel)%N ->
  exists r, [/\ uref_lex_xgcd xgcd m n cT fuel A T pivind mrp = Some r,
    echelon_result m n cT A T pivind r & mrp_filled m n A mrp (ur_mrp r)].
Proof.
move=> Hf; rewrite /uref_lex_xgcd; case: ifP => C.
  eexists; split; first reflexivity; last exact: (fill_deg A mrp C).
  by apply: cinv_result; exact: cinv_deg.
have I0 : linv m n cT A T pivind mrp A T pivind mrp (fun _ => -1) 0 0.
  split=> //.
  - exact: tr0.
  - by split=> // i i'; rewrite ltn0 andbF.
  - by move=> j Hj; right.
  - by move=> i k Hi Hk; lia.
  - by move=> i k Hi Hk; rewrite addn0.
  - by case: mrp => //= r; split.
have [|A' [T' [pv' [mrp' [prow' [rk' [zr' [Er I ->]]]]]]]] := lex_rowsP (fuel := fuel) XS _ I0;
  first by rewrite add0n subn0.
eexists; split; first reflexivity; last exact: lex_mrp_final Er I.
apply: cinv_result; have [L1 L2 L3 L4 L5 L6 L7 L8 L9] := I.
split=> //=; first by lia.
  by move=> i Hi; have [P1 _] := L3; have [] := P1 i Hi.
by move=> i k Hi Hk; apply: L5 => //; lia.
Qed.

(** C35: the three echelon form algorithms. *)
Theorem C35_uref_maxdeg_atomic m n cT A T pivind :
  exists r, (exists N, forall fuel, (N <= fuel)%N -> uref_maxdeg_atomic m n cT fuel A T pivind = Some (AOk r)) /\
  [/\ transformed m n cT (@sign_det F) A T (ur_mat r) (ur_tsf r),
      uref_with (leading_block m n (ur_mat r)) (ur_rk r) (ur_pivind r),
      ur_rk r = prank (leading_block m n A),
      column_rank_profile m n A (ur_rk r) (ur_pivind r) &
      forall i, (ur_rk r <= i)%N -> ur_pivind r i = pivind i].
Proof. by have [r [N [H E]]] := maxdeg_all m n cT A T pivind; exists r; split=> //; exists N. Qed.

Theorem C35_uref_revlex_xgcd m n cT A T pivind mrp fuel : (m <= fuel)%N ->
  exists r, uref_revlex_xgcd xgcd m n cT fuel A T pivind mrp = Some r /\
  [/\ transformed m n cT (@sign_det F) A T (ur_mat r) (ur_tsf r),
      uref_with (leading_block m n (ur_mat r)) (ur_rk r) (ur_pivind r),
      ur_rk r = prank (leading_block m n A),
      column_rank_profile m n A (ur_rk r) (ur_pivind r) &
      forall i, (ur_rk r <= i)%N -> ur_pivind r i = pivind i].
Proof. by move=> Hf; have [r [E H _]] := revlex_all n cT A T pivind mrp Hf; exists r. Qed.

Theorem C35_uref_lex_xgcd m n cT A T pivind mrp fuel : (m <= fuel)%N ->
  exists r, uref_lex_xgcd xgcd m n cT fuel A T pivind mrp = Some r /\
  [/\ transformed m n cT (@sign_det F) A T (ur_mat r) (ur_tsf r),
      uref_with (leading_block m n (ur_mat r)) (ur_rk r) (ur_pivind r),
      ur_rk r = prank (leading_block m n A),
      column_rank_profile m n A (ur_rk r) (ur_pivind r) &
      forall i, (ur_rk r <= i)%N -> ur_pivind r i = pivind i].
Proof. by move=> Hf; have [r [E H _]] := lex_all n cT A T pivind mrp Hf; exists r. Qed.

(** C53: matrix rank profile. *)
Theorem C53_mrp_revlex m n cT A T pivind mrp fuel r : (m <= fuel)%N ->
  uref_revlex_xgcd xgcd m n cT fuel A T pivind mrp = Some r -> mrp_filled m n A mrp (ur_mrp r).
Proof. by move=> Hf; have [r' [-> _ H]] := revlex_all n cT A T pivind mrp Hf; case=> <-. Qed.

Theorem C53_mrp_lex m n cT A T pivind mrp fuel r : (m <= fuel)%N ->
  uref_lex_xgcd xgcd m n cT fuel A T pivind mrp = Some r -> mrp_filled m n A mrp (ur_mrp r).
Proof. by move=> Hf; have [r' [-> _ H]] := lex_all n cT A T pivind mrp Hf; case=> <-. Qed.
End Xgcd.

(** C36: normalisation. *)
Theorem C36_normalize_uref m n cT A T pivind rk : uref_with (leading_block m n A) rk pivind ->
  exists A' T', [/\ normalize_uref n cT A T pivind rk = AOk (A', T'),
    transformed m n cT (@const_det F) A T A' T' &
    hermite_with (leading_block m n A') rk pivind].
Proof.
rewrite leadingE => /uref_pivs[L Pv Z].
have [A' [T' [c [E Nc Tr [Pv' Nm] Fr]]]] := normalize_urefP (m := m) cT T L Pv.
exists A', T'; split=> //; first by apply: trans_transformed Tr; exists c.
rewrite leadingE; apply: nrm_hermite => //; apply: pivs_uref => //.
by move=> i k Hi Hk; rewrite Fr ?Z //; lia.
Qed.

(** C37: uniqueness. *)
Lemma mx_ofK m n (M : 'M[P]_(m, n)) : exists A : fmat P, mx_of m n A = M.
Proof.
exists (fun i j => if (insub i, insub j) is (Some a, Some b) then M a b else 0).
by apply/matrixP=> a b; rewrite mxE !valK.
Qed.

Theorem C37_hermite_unique m n (M N : 'M[P]_(m, n)) (U : 'M[P]_m) rk rk' pivind pivind' :
  U \in unitmx -> N = U *m M -> hermite_with M rk pivind -> hermite_with N rk' pivind' ->
  [/\ M = N, rk = rk' & forall i, (i < rk)%N -> pivind i = pivind' i].
Proof.
have [A <-] := mx_ofK M; have [B <-] := mx_ofK N => Uu E HA HB.
have [LA PA ZA] := uref_pivs (proj1 HA); have [LB PB ZB] := uref_pivs (proj1 HB).
have R1 : rows_in m n A B by exists U.
have R2 : rows_in m n B A by exists (invmx U); rewrite E mulKmx.
have [h1 h2 h3] := hermite_unique LA PA ZA (hermite_nrm HA) LB PB ZB (hermite_nrm HB) R1 R2.
by split=> //; apply/matrixP=> i j; rewrite !mxE h3.
Qed.

Definition hermite_result m n cT A T pivind (r : ur_result F) : Prop :=
  [/\ transformed m n cT (@const_det F) A T (ur_mat r) (ur_tsf r),
      hermite_with (leading_block m n (ur_mat r)) (ur_rk r) (ur_pivind r),
      ur_rk r = prank (leading_block m n A),
      column_rank_profile m n A (ur_rk r) (ur_pivind r) &
      forall i, (ur_rk r <= i)%N -> ur_pivind r i = pivind i].

Lemma const_sign (d : P) : sign_det d -> const_det d.
Proof.
case=> ->; first by exists 1; rewrite ?oner_eq0.
by exists (-1); rewrite ?oppr_eq0 ?oner_eq0 // polyCN.
Qed.

Lemma const_mul (d e : P) : const_det d -> const_det e -> const_det (d * e).
Proof. by case=> a Na -> [b Nb ->]; exists (a * b); rewrite ?mulf_neq0 // polyCM. Qed.

Lemma transformed_comp m n cT A T A' T' A'' T'' :
  transformed m n cT (@sign_det F) A T A' T' -> transformed m n cT (@const_det F) A' T' A'' T'' ->
  transformed m n cT (@const_det F) A T A'' T''.
Proof.
case=> U [U1 U2 U3] [V [V1 V2 V3]]; exists (V *m U); split.
- by rewrite det_mulmx; apply: const_mul => //; apply: const_sign.
- by rewrite V2 U2 mulmxA.
by move: U3 V3; case: T T' T'' => [B|] [B'|] [B''|] //= -> ->; rewrite mulmxA.
Qed.

Lemma hnf_ofP m n cT A T pivind r : echelon_result m n cT A T pivind r ->
  exists r', [/\ hnf_of n cT r = AOk r', hermite_result m n cT A T pivind r' & ur_mrp r' = ur_mrp r].
Proof.
case=> E1 E2 E3 E4 E5; have [A' [T' [E Tr H]]] := C36_normalize_uref cT (ur_tsf r) E2.
rewrite /hnf_of E /=; eexists; split; [reflexivity| |by []].
by split=> //=; apply: transformed_comp E1 Tr.
Qed.

Lemma maxdeg_col_mono m n cT f g A T pv rk j x : (f <= g)%N ->
  maxdeg_col m n cT f A T pv rk j = Some x -> maxdeg_col m n cT g A T pv rk j = Some x.
Proof.
elim: f g A T => [|f IH] [|g] A T //= Hfg.
case: ifP => // _; case: ifP => // _; case: maxdeg_select => a b; case: ifP => // _.
by case: uref_atomic => // -[A' T']; apply: IH.
Qed.

Lemma maxdeg_cols_mono m n cT f g cnt A T pv rk j x : (f <= g)%N ->
  maxdeg_cols m n cT f cnt A T pv rk j = Some x -> maxdeg_cols m n cT g cnt A T pv rk j = Some x.
Proof.
move=> Hfg; elim: cnt A T pv rk j => [|cnt IH] A T pv rk j //=.
case E: (maxdeg_col m n cT f A T pv rk j) => [[[[[A' T'] pv'] rk']|]|] //; rewrite (maxdeg_col_mono Hfg E) //.
exact: IH.
Qed.

Lemma hnf_maxdeg_mono m n cT f g A T pv x : (f <= g)%N ->
  hnf_maxdeg_atomic m n cT f A T pv = Some x -> hnf_maxdeg_atomic m n cT g A T pv = Some x.
Proof.
move=> Hfg; rewrite /hnf_maxdeg_atomic /uref_maxdeg_atomic; case: ifP => // _.
case E: (maxdeg_cols m n cT f n A T pv 0 0) => [[[[[A' T'] pv'] rk']|]|] //; rewrite (maxdeg_cols_mono Hfg E) //.
Qed.

Section Hnf.
Variable xgcd : P -> P -> P * P * P.
Hypothesis XS : xgcd_spec xgcd.

(** C36: Hermite forms computed through echelon forms *)
Theorem C36_hnf_maxdeg_atomic m n cT A T pivind :
  exists r, (exists N, forall fuel, (N <= fuel)%N -> hnf_maxdeg_atomic m n cT fuel A T pivind = Some (AOk r)) /\
  [/\ transformed m n cT (@const_det F) A T (ur_mat r) (ur_tsf r),
      hermite_with (leading_block m n (ur_mat r)) (ur_rk r) (ur_pivind r),
      ur_rk r = prank (leading_block m n A),
      column_rank_profile m n A (ur_rk r) (ur_pivind r) &
      forall i, (ur_rk r <= i)%N -> ur_pivind r i = pivind i].
Proof.
have [r [N [H E]]] := maxdeg_all m n cT A T pivind; have [r' [E' H' _]] := hnf_ofP H.
by exists r'; split=> //; exists N => fuel Hf; rewrite /hnf_maxdeg_atomic E //= E'.
Qed.

Theorem C36_hnf_revlex_xgcd m n cT A T pivind mrp fuel : (m <= fuel)%N ->
  exists r, hnf_revlex_xgcd xgcd m n cT fuel A T pivind mrp = Some (AOk r) /\
  [/\ transformed m n cT (@const_det F) A T (ur_mat r) (ur_tsf r),
      hermite_with (leading_block m n (ur_mat r)) (ur_rk r) (ur_pivind r),
      ur_rk r = prank (leading_block m n A),
      column_rank_profile m n A (ur_rk r) (ur_pivind r) &
      forall i, (ur_rk r <= i)%N -> ur_pivind r i = pivind i].
Proof.
move=> Hf; have [r [E H _]] := revlex_all XS n cT A T pivind mrp Hf; have [r' [E' H' _]] := hnf_ofP H.
by exists r'; split=> //; rewrite /hnf_revlex_xgcd E /= E'.
Qed.

Theorem C36_hnf_lex_xgcd m n cT A T pivind mrp fuel : (m <= fuel)%N ->
  exists r, hnf_lex_xgcd xgcd m n cT fuel A T pivind mrp = Some (AOk r) /\
  [/\ transformed m n cT (@const_det F) A T (ur_mat r) (ur_tsf r),
      hermite_with (leading_block m n (ur_mat r)) (ur_rk r) (ur_pivind r),
      ur_rk r = prank (leading_block m n A),
      column_rank_profile m n A (ur_rk r) (ur_pivind r) &
      forall i, (ur_rk r <= i)%N -> ur_pivind r i = pivind i].
Proof.
move=> Hf; have [r [E H _]] := lex_all XS n cT A T pivind mrp Hf; have [r' [E' H' _]] := hnf_ofP H.
by exists r'; split=> //; rewrite /hnf_lex_xgcd E /= E'.
Qed.

End Hnf.

Lemma const_unit m (U : 'M[P]_m) : const_det (\det U) -> U \in unitmx.
Proof.
case=> c Nc E; rewrite unitmxE E poly_unitE size_polyC Nc /= coefC eqxx unitfE.
exact: Nc.
Qed.

Lemma hermite_results m n cT cT' A T T' pivind r r' :
  hermite_result m n cT A T pivind r -> hermite_result m n cT' A T' pivind r' ->
  [/\ leading_block m n (ur_mat r) = leading_block m n (ur_mat r'), ur_rk r = ur_rk r' &
      forall i, ur_pivind r i = ur_pivind r' i].
Proof.
case=> [[U [U1 U2 _]] H1 _ _ Fr] [[V [V1 V2 _]] H1' _ _ Fr'].
have Uu := const_unit U1; have Vu := const_unit V1.
have W : V *m invmx U \in unitmx by rewrite unitmx_mul Vu unitmx_inv.
have [|h1 h2 h3] := C37_hermite_unique W _ H1 H1'; first by rewrite V2 U2 -mulmxA mulKmx.
split=> // i; case: (ltnP i (ur_rk r)) => C; first exact: h3.
by rewrite Fr // Fr' // -h2.
Qed.

(** C37: the three algorithms return the same Hermite form, rank and pivots, whatever the
    extended gcd, the optional arguments and the numbers of iterations allowed *)
Theorem C37_same_hermite_form m n cT cT' cT'' A T T' T'' pivind mrp mrp' (xgcd xgcd' : P -> P -> P * P * P)
  fuel fuel' fuel'' r r' r'' : xgcd_spec xgcd -> xgcd_spec xgcd' -> (m <= fuel')%N -> (m <= fuel'')%N ->
  hnf_maxdeg_atomic m n cT fuel A T pivind = Some (AOk r) ->
  hnf_revlex_xgcd xgcd m n cT' fuel' A T' pivind mrp = Some (AOk r') ->
  hnf_lex_xgcd xgcd' m n cT'' fuel'' A T'' pivind mrp' = Some (AOk r'') ->
  [/\ leading_block m n (ur_mat r) = leading_block m n (ur_mat r'),
      leading_block m n (ur_mat r') = leading_block m n (ur_mat r''),
      ur_rk r = ur_rk r' /\ ur_rk r' = ur_rk r'' &
      forall i, ur_pivind r i = ur_pivind r' i /\ ur_pivind r' i = ur_pivind r'' i].
Proof.
move=> XS XS' Hf' Hf'' E E' E''.
have [r1 [[N HN] H1]] := C36_hnf_maxdeg_atomic m n cT A T pivind.
have [r2 [E2 H2]] := C36_hnf_revlex_xgcd XS n cT' A T' pivind mrp Hf'; move: E'; rewrite E2 => -[<-] {r' E2}.
have [r3 [E3 H3]] := C36_hnf_lex_xgcd XS' n cT'' A T'' pivind mrp' Hf''; move: E''; rewrite E3 => -[<-] {r'' E3}.
have Er : r1 = r.
  have := HN _ (leq_maxl N fuel); rewrite (hnf_maxdeg_mono (leq_maxr N fuel) E).
  by case.
rewrite -Er; have [a1 a2 a3] := hermite_results H1 H2; have [b1 b2 b3] := hermite_results H2 H3.
by [].
Qed.

(** C38: Hermite form with delayed zeroes. The zero pattern of the last rows is missing when the
    last pivot is in the last column and there are more rows. *)
Section KB.
Variable xgcd : P -> P -> P * P * P.
Hypothesis XS : xgcd_spec xgcd.

Lemma kb_all m n cT A T pivind mrp fuel : (n * m.+1 + m <= fuel)%N ->
  exists r, [/\ hnf_revlex_xgcd_delayed_zero xgcd m n cT fuel A T pivind mrp = Some (AOk r),
    transformed m n cT (@const_det F) A T (ur_mat r) (ur_tsf r),
    [/\ (ur_rk r <= m)%N, pivs n (ur_mat r) (ur_rk r) (ur_pivind r) & nrm (ur_mat r) (ur_rk r) (ur_pivind r)],
    [/\ ur_rk r = prank (leading_block m n A), column_rank_profile m n A (ur_rk r) (ur_pivind r),
        (forall i, (ur_rk r <= i)%N -> ur_pivind r i = pivind i) & mrp_filled m n A mrp (ur_mrp r)] &
    (ur_rk r = m \/ (forall a, (a < ur_rk r)%N -> (ur_pivind r a).+1 != n)) -> zrows m (ur_mat r) (ur_rk r) n].
Proof.
move=> Hf; rewrite /hnf_revlex_xgcd_delayed_zero; case: ifP => C.
  have I := cinv_deg cT A T pivind C; have [Tr E1 E2 E3 E4] := @cinv_result m n cT A T pivind (URR A T pivind None 0) I.
  eexists; split; first reflexivity.
  - by have [U [U1 U2 U3]] := Tr; exists U; split=> //; apply: const_sign.
  - by split=> //; split=> // i i'; rewrite ltn0 andbF.
  - by split=> //; exact: fill_deg.
  - by move=> _ i k Hi Hk; lia.
have Hn : (0 < n)%N by lia.
pose mrp1 := mrp_fill m mrp.
have S0 : kst m n cT A T pivind mrp A T pivind mrp1 (fun _ => -1) id 0 0 0.
  split.
  - by exists 1; [rewrite oner_eq0|exact: trans_refl].
  - by split=> //; try (by move=> *; lia); split=> // i i'; rewrite ltn0 andbF.
  - by [].
  - rewrite /mrp1 /mrp_fill; case: (mrp) => //= r; split=> //.
    + by split=> // b Hb; apply: lowrow_id; lia.
    + by move=> b /andP[_ Hb]; rewrite mrp_fillE Hb.
    + by move=> k Hk; rewrite mrp_fillE ltnNge Hk.
have [|A' [T' [pv' [mrp' [prow' [perm' [i' [j' [ii' [-> S' He]]]]]]]]]] := kb_loopP (fuel := fuel) XS _ S0.
  by rewrite /mu !subn0.
have [C1 C2 C3 C4 C5] := kb_final XS S' He Hn.
eexists; split; first reflexivity=> //.
- by case: (t_tr S') => c Nc; apply: trans_transformed; exists c.
- by [].
- by split; [rewrite leadingE| |exact: t_fr S'|].
- exact: C5.
Qed.

Theorem C38_delayed_zero_partial m n cT A T pivind mrp fuel : (n * m.+1 + m <= fuel)%N ->
  exists r, [/\ hnf_revlex_xgcd_delayed_zero xgcd m n cT fuel A T pivind mrp = Some (AOk r),
    transformed m n cT (@const_det F) A T (ur_mat r) (ur_tsf r),
    ur_rk r = prank (leading_block m n A) /\ column_rank_profile m n A (ur_rk r) (ur_pivind r),
    hermite_with (leading_block (ur_rk r) n (ur_mat r)) (ur_rk r) (ur_pivind r) &
    prank (leading_block m n A) = m \/ prank (leading_block m n.-1 A) = prank (leading_block m n A) ->
      hermite_with (leading_block m n (ur_mat r)) (ur_rk r) (ur_pivind r)].
Proof.
move=> Hf; have [r [E Tr [L Pv Nm] [R1 R2 R3 R4] Z]] := kb_all cT A T pivind mrp Hf.
exists r; split=> //.
  rewrite leadingE; apply: nrm_hermite => //; apply: pivs_uref => //.
  by move=> i k; lia.
move=> H; rewrite leadingE; apply: nrm_hermite => //; apply: pivs_uref => //; apply: Z.
case: H => H; first by left; rewrite R1.
right=> a Ha; have [P1 P2] := Pv; have [h _ _] := P1 a Ha.
have Hn : (n.-1 <= n)%N by lia.
have := R2 n.-1 Hn; rewrite H -R1 => Ec; apply/eqP=> En.
have : #|[set i : 'I_(ur_rk r) | (ur_pivind r i < n.-1)%N]| = #|'I_(ur_rk r)| by rewrite card_ord -Ec.
move=> Ec'; have Es : [set i : 'I_(ur_rk r) | (ur_pivind r i < n.-1)%N] = setT.
  by apply/eqP; rewrite eqEcard subsetT cardsT Ec' leqnn.
have : Ordinal Ha \in [set: 'I_(ur_rk r)] by rewrite inE.
by rewrite -Es inE /= -En /= ltnn.
Qed.

Theorem C53_mrp_delayed_zero m n cT A T pivind mrp fuel r : (n * m.+1 + m <= fuel)%N ->
  hnf_revlex_xgcd_delayed_zero xgcd m n cT fuel A T pivind mrp = Some (AOk r) -> mrp_filled m n A mrp (ur_mrp r).
Proof. by move=> Hf; have [r' [-> _ _ [_ _ _ H] _]] := kb_all cT A T pivind mrp Hf; case=> <-. Qed.
End KB.

Local Arguments kb_step : simpl never.

(** C38: the matrix [x; x + 1] has rank 1 but is returned unchanged *)
Theorem C38_delayed_zero_refuted (xgcd : P -> P -> P * P * P) :
  let A : fmat P := fun i j => if i == 0%N then 'X else 'X + 1 in
  exists r, (forall fuel, (2 <= fuel)%N ->
      hnf_revlex_xgcd_delayed_zero xgcd 2 1 0 fuel A None (fun _ => 0%N) None = Some (AOk r)) /\
    ur_rk r = 1%N /\ forall rk pivind, ~ uref_with (leading_block 2 1 (ur_mat r)) rk pivind.
Proof.
move=> A; have N0 : 'X != 0 :> P by rewrite polyX_eq0.
have N1 : 'X + 1 != 0 :> P by rewrite -size_poly_gt0 size_XaddC.
have Nx : ('X == 0 :> P) = false by apply/negbTE.
pose st := KB A None (upd (fun _ => 0%N) 0 0%N) None (upd (fun _ => -1) 0 0%:Z) id 1 1 1.
have E : kb_step xgcd 2 1 0 (KB A None (fun _ => 0%N) None (fun _ => -1) id 0 0 0) = AOk st.
  have Enr : kb_next_row 2 A 0 0 = 0%N by rewrite /kb_next_row /= /A /= N0.
  have Efc : find (fun jj => A 0%N jj != 0) (iota 0 1) = 0%N by rewrite /= /A /= N0.
  rewrite /kb_step Enr; change (0%N == 2%N) with false; cbv iota.
  rewrite Efc /= /A /= Nx /uref_normalize_pivot /= monicX /=.
  by [].
exists (URR A None (upd (fun _ => 0%N) 0 0%N) None 1); split; last split=> //.
  move=> [|[|fuel]] // _; rewrite /hnf_revlex_xgcd_delayed_zero.
  change ((2%N == 0%N) || (1%N == 0%N)) with false; cbv iota.
  by rewrite [kb_loop _ _ _ _ _ _]/= E /=.
move=> rk pv [L H1 H2 H3].
have R0 : row (Ordinal (isT : 0 < 2)%N) (leading_block 2 1 A) 0 ord0 = 'X by rewrite !mxE.
have R1 : row (Ordinal (isT : 1 < 2)%N) (leading_block 2 1 A) 0 ord0 = 'X + 1 by rewrite !mxE.
have C0 : (0 < rk)%N.
  by rewrite ltnNge; apply/negP=> C; move: R0; rewrite H3 // mxE => E'; move: Nx; rewrite -E' eqxx.
have C1 : (1 < rk)%N.
  by rewrite ltnNge; apply/negP=> C; move: R1; rewrite H3 // mxE => E'; move: N1; rewrite -E' eqxx.
have [j0 E0 _] := H1 (Ordinal (isT : 0 < 2)%N) C0; have [j1 E1 _] := H1 (Ordinal (isT : 1 < 2)%N) C1.
by have := H2 0%N 1%N C1; rewrite E0 E1 !ord1.
Qed.
End Hermite.
Print Assumptions C35_uref_maxdeg_atomic.
Print Assumptions C35_uref_revlex_xgcd.
Print Assumptions C35_uref_lex_xgcd.
Print Assumptions C53_mrp_revlex.
Print Assumptions C53_mrp_lex.
Print Assumptions C53_mrp_delayed_zero.
Print Assumptions C36_normalize_uref.
Print Assumptions C36_hnf_maxdeg_atomic.
Print Assumptions C36_hnf_revlex_xgcd.
Print Assumptions C36_hnf_lex_xgcd.
Print Assumptions C37_hermite_unique.
Print Assumptions C37_same_hermite_form.
Print Assumptions C38_delayed_zero_partial.
Print Assumptions C38_delayed_zero_refuted.

(** the hypothesis on the extended gcd is met by the algorithm of the library *)
Definition egcd_monic (F : fieldType) (a b : {poly F}) : {poly F} * {poly F} * {poly F} :=
  let '(u, v) := egcdp a b in
  let g := u * a + v * b in
  let c := (lead_coef g)^-1 in (c *: g, c *: u, c *: v).

Example C35_xgcd_exists (F : fieldType) : xgcd_spec (@egcd_monic F).
Proof.
move=> a b Na Nb; rewrite /egcd_monic; have E := egcdpE a b.
case: (egcdp a b) E => u v /= E; set g := u * a + v * b in E *.
have Ng : g != 0 by rewrite -size_poly_gt0 -(eqp_size E) size_poly_gt0 gcdp_eq0 (negbTE Na).
have Nc : (lead_coef g)^-1 != 0 by rewrite invr_eq0 lead_coef_eq0.
split.
- by rewrite monicE lead_coefZ mulVf // lead_coef_eq0.
- by rewrite dvdpZl // -(eqp_dvdl _ E) dvdp_gcdl.
- by rewrite dvdpZl // -(eqp_dvdl _ E) dvdp_gcdr.
by rewrite -!scalerAl -scalerDr.
Qed.

(** [x^2 x+1; 0 2x] over F_7: an echelon form to be normalised *)
Definition ex_uref : fmat {poly 'F_7} := fun i j =>
  if i == 0%N then if j == 0%N then 'X^2 else 'X + 1 else if j == 1%N then 2%:R *: 'X else 0.

Example C36_hypothesis_met : uref_with (leading_block 2 2 ex_uref) 2 id.
Proof.
have N2 : (2%:R : 'F_7) != 0 by [].
split=> //.
  case=> [[|[|i]] Hi] _ //=; [exists (Ordinal (isT : 0 < 2)%N)|exists (Ordinal (isT : 1 < 2)%N)] => //.
  - by split=> [|k]; rewrite ?mxE /ex_uref //= expf_neq0 // polyX_eq0.
  - split=> [|[[|[|k]] Hk] //= _]; rewrite !mxE /ex_uref //=.
    by rewrite scaler_eq0 negb_or N2 polyX_eq0.
  by move=> i i' /andP[].
by move=> [i Hi] /= C; move: C Hi; case: i => [|[|i]].
Qed.

(** full row rank: the Hermite form with delayed zeroes is complete *)
Example C38_hypothesis_met : prank (leading_block 2 2 ex_uref) = 2%N.
Proof.
have H := C36_hypothesis_met; rewrite leadingE in H; have [L Pv Z] := uref_pivs H.
have N : (1 : {poly 'F_7}) != 0 by rewrite oner_eq0.
have [_ E] := trans_crp N L (trans_refl 2 2 0 ex_uref None) Pv Z.
by rewrite leadingE E.
Qed.
