(** C21, C47: verification of approximant bases and of kernel bases. *)
From mathcomp Require Import all_ssreflect all_algebra fraction zify.
From Verif Require Import A_base SpecA SpecForms A_mul_proof A_mul2_proof A_mbasis_abs A_forms_model
  A_forms_proof A_forms2_proof A_reduced_proof A_detdeg_proof A_dixon_proof A_frac_proof
  A_verif_model A_verif_proof P_forms.
Set Implicit Arguments.
Unset Strict Implicit.
Unset Printing Implicit Defensive.
Import GRing.Theory Num.Theory.
Local Open Scope ring_scope.

Section P.
Variable F : fieldType.
Implicit Types (P A : fmat {poly F}).

Local Notation owp o shift M :=
  (oriented (fun up => @ordered_weak_popov_form F up (shiftf shift)) o M).

Lemma owp_det m P shift o : owp o shift (mx_of m m P) ->
  pdeg (\det (mx_of m m P)) = \sum_(i < m) pdeg (P i i).
Proof.
move=> H; have NZ (M : 'M[{poly F}]_m) up s : ordered_weak_popov_form up s M ->
    pdeg (\det M) = \sum_(i < m) pdeg (M i i).
  move=> /owp_diag D; rewrite /pdeg (det_pivot_deg D).
  have E i : (size (M i i))%:Z - 1 = (size (M i i)).-1%:Z.
    by have [] := D i; rewrite mxE -size_poly_gt0 => N _ _; lia.
  by rewrite (eq_bigr _ (fun i _ => E i)) -(big_morph Posz PoszD (erefl 0%:Z)) -addn1 PoszD addrK.
have D M : \sum_(i < m) pdeg (mx_of m m M i i) = \sum_(i < m) pdeg ((M i i) : {poly F}).
  by apply: eq_bigr => i _; rewrite mxE.
have T : \sum_(i < m) pdeg ((mx_of m m P)^T i i) = \sum_(i < m) pdeg (P i i).
  by apply: eq_bigr => i _; rewrite !mxE.
by case: o H => /= /NZ; rewrite ?det_tr ?T ?D.
Qed.

(** every ordered weak Popov approximant basis is accepted *)
Theorem C21_complete modn m n P A d shift o : modn \in [char F] ->
  approx_basis d (mx_of m n A) (mx_of m m P) -> owp o shift (mx_of m m P) ->
  is_approximant_basis modn m m m n P A d shift o = AOk true.
Proof.
move=> Hc HB HO; have [b -> Hb] := is_approximant_basisP m n P A d shift o Hc.
congr AOk; apply/Hb; split; first exact/is_ordered_weak_popovP.
split; [by case: HB | exact: owp_det HO | apply: gn_complete => //; by case: HB].
Qed.

(** what is accepted is made of approximants, is in ordered weak Popov form, and is
    a basis provided its determinant is a constant times a power of X. Missing for the
    full property: that last proviso, which the code means to test (it compares the
    degree only), see C21_refuted *)
Theorem C21_sound_partial modn m n P A d shift o : modn \in [char F] ->
  is_approximant_basis modn m m m n P A d shift o = AOk true ->
  [/\ owp o shift (mx_of m m P),
      forall i, approximant d (mx_of m n A) (row i (mx_of m m P)) &
      (exists2 c : F, c != 0 & exists k, \det (mx_of m m P) = c%:P * 'X^k) ->
      approx_basis d (mx_of m n A) (mx_of m m P)].
Proof.
move=> Hc; have [b -> Hb] := is_approximant_basisP m n P A d shift o Hc.
case=> /Hb [/is_ordered_weak_popovP HO [H1 _ H3]]; split=> // -[c Nc [k E]].
exact: gn_sound Nc E H3.
Qed.

(** the comparison of degrees never fails on a matrix in the form *)
Theorem C21_degree_test_vacuous m P shift o : owp o shift (mx_of m m P) ->
  pdeg (\det (mx_of m m P)) = \sum_(i < m) pdeg (P i i).
Proof. exact: owp_det. Qed.

(** P = [X + 1] is accepted for A = [0] at any order, and is not a basis *)
Theorem C21_refuted modn d : modn \in [char F] ->
  exists P A, is_approximant_basis modn 1 1 1 1 P A d None ROW_LOWER = AOk true /\
    ~ approx_basis d (mx_of 1 1 A) (mx_of 1 1 P).
Proof.
move=> Hc; pose P : fmat {poly F} := fun _ _ => 'X + 1; pose A : fmat {poly F} := fun _ _ => 0.
have X1 : 'X + 1 != 0 :> {poly F} by rewrite -size_poly_eq0 -[1]/(1%:P) size_XaddC.
have OW : ordered_weak_popov_form false (fun _ => 0) (mx_of 1 1 P).
  exists id => // i; rewrite !ord1; split; rewrite ?mxE //.
    by move=> k; rewrite !ord1 !mxE Order.POrderTheory.lexx.
  by move=> k; rewrite /before !ord1 ltnn.
exists P, A; split.
  have [b -> Hb] := is_approximant_basisP 1 1 P A d None ROW_LOWER Hc.
  congr AOk; apply/Hb; split; first exact/is_ordered_weak_popovP.
  split.
  - by move=> i j; rewrite !mxE big1 ?dvdp0 // => k _; rewrite !mxE mulr0.
  - exact: (@owp_det 1 P None ROW_LOWER).
  - move=> c; rewrite (_ : at0 (mx_of 1 1 P) = 1%:M) ?mulmx1 //.
    by apply/matrixP=> i j; rewrite at0E !mxE !ord1 eqxx coefD coefX coef1 add0r.
case=> _ [H _]; have [] := H 1%:M.
  by move=> j; rewrite mul1mx mxE dvdp0.
move=> w /matrixP/(_ 0 0); rewrite mxE eqxx [in RHS]mxE big_ord1 mxE /= => E.
have := size_mul_eq1 (w 0 0) ('X + 1 : {poly F}).
by rewrite -E size_poly1 eqxx -[1]/(1%:P) size_XaddC andbF.
Qed.

(** a basis with wrong dimensions is read outside of its bounds *)
Theorem C21_wrong_dimensions_ub modn pr pc m n P A d shift o : (pr != m) || (pc != m) ->
  is_approximant_basis modn pr pc m n P A d shift o = AUB.
Proof. by rewrite /is_approximant_basis => ->. Qed.

(** *** C47 *)
(** rank over the field of fractions *)
Definition poly_rank m n (M : 'M[{poly F}]_(m, n)) : nat :=
  \rank (map_mx (@FracField.tofrac [idomainType of {poly F}]) M).

(** k rows of the kernel generating it up to a denominator *)
Definition kernel_up_to_denominators k m n (M : 'M[{poly F}]_(m, n)) (N : 'M[{poly F}]_(k, m)) : Prop :=
  forall v : 'rV_m, v *m M = 0 -> exists2 d : {poly F}, d != 0 & exists w, d *: v = w *m N.

Lemma all_zeroP k n (B : fmat {poly F}) :
  all (fun i => all (fun j => B i j == 0) (iota 0 n)) (iota 0 k) <-> mx_of k n B = 0.
Proof.
split=> [/allP H|H].
  apply/matrixP=> i j; rewrite !mxE.
  by have /allP/(_ _ (iota_ord j))/eqP := H _ (iota_ord i).
apply/allP=> i; rewrite mem_iota => /andP[_ Hi]; apply/allP=> j; rewrite mem_iota => /andP[_ Hj].
by have /matrixP/(_ (Ordinal Hi) (Ordinal Hj)) := H; rewrite !mxE => /= ->.
Qed.

(** row-wise: the answer of the test *)
Theorem C47_is_kernel_rows modn k m n ker A shift f o fb : modn \in [char F] -> (k <= m)%N ->
  row_wise o -> is_form k m ker f shift o = AOk fb ->
  exists2 b : bool, is_kernel modn k m m n ker shift A f o = AOk b &
    (b <-> [/\ mx_of k m ker *m mx_of m n A = 0,
               k = (m - poly_rank (mx_of m n A))%N & fb]).
Proof.
move=> Hc Hk Ho Ef; rewrite /is_kernel Ho eqxx ltnNge Hk /= Ef.
set b := (X in AOk X); exists b => //; rewrite /b.
have Z := all_zeroP k n (A_mul_model.pm_multiply modn k m n ker A).
rewrite (_ : mx_of k n _ = mx_of k m ker *m mx_of m n A) in Z; last first.
  by rewrite -mx_of_mul; apply/matrixP=> i j; rewrite !mx_ofE pm_multiplyP.
split; first by case/and3P=> /eqP H1 H2 /Z H3; split.
by case=> /Z H1 H2 H3; apply/and3P; split=> //; apply/eqP.
Qed.

Theorem C47_is_kernel_columns modn k m n ker A shift f o fb : modn \in [char F] -> (k <= n)%N ->
  ~~ row_wise o -> is_form n k ker f shift o = AOk fb ->
  exists2 b : bool, is_kernel modn n k m n ker shift A f o = AOk b &
    (b <-> [/\ mx_of m n A *m mx_of n k ker = 0,
               k = (n - poly_rank (mx_of m n A))%N & fb]).
Proof.
move=> Hc Hk /negbTE Ho Ef; rewrite /is_kernel Ho eqxx ltnNge Hk /= Ef.
set b := (X in AOk X); exists b => //; rewrite /b.
have Z := all_zeroP m k (A_mul_model.pm_multiply modn m n k A ker).
rewrite (_ : mx_of m k _ = mx_of m n A *m mx_of n k ker) in Z; last first.
  by rewrite -mx_of_mul; apply/matrixP=> i j; rewrite !mx_ofE pm_multiplyP.
split; first by case/and3P=> /eqP H1 H2 /Z H3; split.
by case=> /Z H1 H2 H3; apply/and3P; split=> //; apply/eqP.
Qed.

(** a kernel basis in the form is accepted *)
Theorem C47_complete modn k m n ker A shift o : modn \in [char F] -> row_wise o ->
  kernel_basis (mx_of m n A) (mx_of k m ker) ->
  oriented (fun up => @weak_popov_form F up (shiftf shift)) o (mx_of k m ker) ->
  is_kernel modn k m m n ker shift A WEAK_POPOV o = AOk true.
Proof.
move=> Hc Ho HB HW; have Ek := kernel_basis_rows HB.
have Hk : (k <= m)%N by rewrite Ek leq_subr.
have [_ _ [fb Ef Hf] _ _] := C32_is_form_partial k m ker shift o.
have [b -> Hb] := C47_is_kernel_rows n A Hc Hk Ho Ef.
congr AOk; apply/Hb; split=> //; last exact/Hf.
by apply/row_matrixP=> i; rewrite row_mul row0; case: HB.
Qed.

(** what is accepted (in reduced form) is made of independent vectors of the kernel,
    as many as the nullity, hence generates the kernel over the fractions. Missing: it
    need not generate the kernel over the polynomials, see C47_refuted *)
Theorem C47_sound_partial modn k m n ker A shift o : modn \in [char F] -> (k <= m)%N -> row_wise o ->
  is_kernel modn k m m n ker shift A REDUCED o = AOk true ->
  [/\ reduced_form (shiftf shift) (mx_of k m ker),
      mx_of k m ker *m mx_of m n A = 0 &
      kernel_up_to_denominators (mx_of m n A) (mx_of k m ker)].
Proof.
move=> Hc Hk Ho; have [_ [fb Ef Hf] _ _ _] := C32_is_form_partial k m ker shift o.
have [b -> Hb] := C47_is_kernel_rows n A Hc Hk Ho Ef.
case=> /Hb [H1 H2 /Hf H3].
have R : reduced_form (shiftf shift) (mx_of k m ker) by case: o Ho H3 {Ef Hf Hb}.
split=> // v Hv; apply: kernel_span H1 H2 v Hv => w; exact: reduced_indep R.
Qed.

(** [X] is accepted as a basis of the left kernel of the zero 1 x 1 matrix *)
Theorem C47_refuted modn : modn \in [char F] ->
  exists ker A, is_kernel modn 1 1 1 1 ker None A ORD_WEAK_POPOV ROW_LOWER = AOk true /\
    ~ kernel_basis (mx_of 1 1 A) (mx_of 1 1 ker).
Proof.
move=> Hc; pose P : fmat {poly F} := fun _ _ => 'X; pose A : fmat {poly F} := fun _ _ => 0.
have A0 : mx_of 1 1 A = 0 by apply/matrixP=> i j; rewrite !mxE.
exists P, A; split.
  have [_ _ _ [fb Ef Hf] _] := C32_is_form_partial 1 1 P None ROW_LOWER.
  have [b -> Hb] := C47_is_kernel_rows 1 A Hc (leqnn 1) (isT : row_wise ROW_LOWER) Ef.
  congr AOk; apply/Hb; split; first by rewrite A0 mulmx0.
    by rewrite /poly_rank A0 map_mx0 mxrank0.
  apply/Hf; exists id => // i; rewrite !ord1; split; rewrite ?mxE ?polyX_eq0 //.
    by move=> k; rewrite !ord1 !mxE Order.POrderTheory.lexx.
  by move=> k; rewrite /before !ord1 ltnn.
case=> _ [H _]; have [] := H 1%:M; first by rewrite A0 mulmx0.
move=> w /matrixP/(_ 0 0); rewrite mxE eqxx [in RHS]mxE big_ord1 mxE /= => E.
have := size_mul_eq1 (w 0 0) ('X : {poly F}).
by rewrite -E size_poly1 eqxx size_polyX andbF.
Qed.
End P.

(** the hypotheses of C21_complete and C47_complete are met *)
Example C21_example : let F := [fieldType of 'F_7] in
  let P : fmat {poly F} := fun _ _ => 'X^3 in let A : fmat {poly F} := fun _ _ => 1 in
  is_approximant_basis 7 1 1 1 1 P A 3 (Some (fun _ => 5%:Z)) ROW_LOWER = AOk true.
Proof.
move=> F P A; apply: C21_complete; first exact: char_Fp.
  split; [|split].
  - by move=> i j; rewrite !mxE big_ord1 !mxE mulr1 dvdpp.
  - move=> v /(_ 0); rewrite mxE big_ord1 mxE mulr1 => /dvdpP [q E].
    by exists (\row__ q); apply/rowP=> i; rewrite !mxE big_ord1 !mxE ord1 E.
  - move=> w /rowP/(_ 0); rewrite !mxE big_ord1 !mxE => /eqP; rewrite mulf_eq0.
    rewrite -[_ ^+ 3 == 0]size_poly_eq0 size_polyXn orbF => /eqP E.
    by apply/rowP=> i; rewrite ord1 mxE.
exists id => // i; rewrite !ord1; split; rewrite ?mxE -?size_poly_eq0 ?size_polyXn //.
  by move=> k; rewrite !ord1 !mxE Order.POrderTheory.lexx.
by move=> k; rewrite /before !ord1 ltnn.
Qed.

Example C47_example : let F := [fieldType of 'F_7] in
  let P : fmat {poly F} := fun _ j => if j == 0%N then 'X else -1 in
  let A : fmat {poly F} := fun i _ => if i == 0%N then 1 else 'X in
  is_kernel 7 1 2 2 1 P None A WEAK_POPOV ROW_LOWER = AOk true.
Proof.
move=> F P A; apply: C47_complete; [exact: (@char_Fp 7)|by []| |].
  split; [|split].
  - move=> i; apply/rowP=> j; rewrite !mxE big_ord_recl big_ord1 !mxE /= mulr1 mulN1r subrr //.
  - move=> v /rowP/(_ 0); rewrite !mxE big_ord_recl big_ord1 !mxE /= mulr1 => E.
    exists (\row__ (- v 0 1)); apply/rowP=> j; rewrite !mxE big_ord1 !mxE.
    have E1 : lift ord0 ord0 = 1 :> 'I_2 by apply/val_inj.
    rewrite E1 in E; case: (splitP (j : 'I_(1 + 1))) => k Ek.
      have -> : j = 0 by apply/val_inj; rewrite /= Ek ord1.
      by rewrite /= mulNr; apply/eqP; rewrite -addr_eq0; apply/eqP.
    have -> : j = 1 by apply/val_inj; rewrite /= Ek ord1.
    by rewrite /= mulrNN mulr1.
  - move=> w /rowP/(_ 1); rewrite !mxE big_ord1 !mxE /= mulrN1 => /eqP; rewrite oppr_eq0 => /eqP E.
    by apply/rowP=> i; rewrite ord1 mxE.
exists (fun _ => 0); first by move=> i i'; rewrite !ord1.
move=> i; split; rewrite ?mxE ?polyX_eq0 //.
  move=> k _; rewrite !mxE /sdeg /P /=; case: ifP => _; by rewrite ?size_polyX ?size_opp ?size_poly1.
move=> k Hk _; rewrite !mxE /sdeg /P /=; case: ifP => [/eqP Z|_]; first by move: Hk; rewrite /before Z.
by rewrite size_polyX size_opp size_poly1.
Qed.

Print Assumptions C21_complete.
Print Assumptions C21_sound_partial.
Print Assumptions C21_refuted.
Print Assumptions C47_complete.
Print Assumptions C47_sound_partial.
Print Assumptions C47_refuted.
