(** C80: verification of approximant bases (ntl-extras). *)
From Coq Require Import ZArith.
From mathcomp Require Import all_ssreflect all_algebra zify.
From Verif Require Import A_base SpecA SpecForms SpecApp A_mul_model A_mul2_proof A_mbasis_abs A_reduced_proof A_dixon_proof N_pmat_model N_forms_model
  P_nforms N_appbas_proof N_isapp_model N_isapp_proof.
Set Implicit Arguments.
Unset Strict Implicit.
Unset Printing Implicit Defensive.
Import Order.TTheory GRing.Theory Num.Theory.
Local Open Scope ring_scope.

Section P.
Variable F : fieldType.
Variable mul : pmat F -> pmat F -> aoutcome (pmat F).
Implicit Types (a pm : pmat F) (order : seq nat) (shift : seq int).

(** a is square with as many columns as pm has rows (at least one), and the lengths are right; multiply gives the product of a and pm *)
Definition verif_input a pm order shift : Prop :=
  [/\ nr a = nr pm, nc a = nr pm, (0 < nr pm)%N, size order = nc pm & size shift = nr pm] /\
  exists2 c, mul a pm = AOk c & is_pmat c (nr a) (nc pm) (fun i j => \sum_(k < nc a) ent a i k * ent pm k j).

Local Notation sq a pm := (\matrix_(i < nr pm, j < nr pm) ent a i j).
Local Notation rect pm := (\matrix_(i < nr pm, j < nc pm) ent pm i j).

Lemma scan_residualP (res : fmat {poly F}) order (l : seq (nat * nat)) :
  (forall x, x \in l -> (x.2 < size order)%N) ->
  exists2 b, scan_residual res order l = Ret b & (b <-> forall x, x \in l -> 'X^(nth 0%N order x.2) %| res x.1 x.2).
Proof.
have T d (p : {poly F}) : (ptrunc d p == 0) = ('X^d %| p).
  apply/eqP/idP => [E|/dvdXn_coef H]; last by apply/polyP=> k; rewrite coef_ptrunc coef0; case: ifP => // /H.
  by apply/dvdXn_coef=> k Hk; have := congr1 (fun q : {poly F} => q`_k) E; rewrite coef_ptrunc Hk coef0.
elim: l => [|[i j] l IH] H /=; first by exists true.
rewrite leqNgt (H (i, j)) ?mem_head //= T; case: (boolP (_ %| _)) => D /=.
  have [|b -> Hb] := IH; first by move=> x Hx; apply: H; rewrite inE Hx orbT.
  exists b => //; split=> [/Hb Q x|Q]; first by rewrite inE => /orP[/eqP ->|/Q].
  by apply/Hb=> x Hx; apply: Q; rewrite inE Hx orbT.
by exists false => //; split=> // /(_ (i, j) (mem_head _ _)) /=; rewrite (negbTE D).
Qed.

Lemma foldl_int (l : seq int) z : foldl +%R z l = z + \sum_(i < size l) nth 0 l i.
Proof.
elim: l z => [|x l IH] z /=; first by rewrite big_ord0 addr0.
by rewrite IH big_ord_recl /= addrA.
Qed.

Lemma det_atE a pm x : det_at (nr pm) a x = (\det (sq a pm)).[x].
Proof.
rewrite /det_at -horner_evalE -det_map_mx; congr (\det _); by apply/matrixP=> i j; rewrite !mxE.
Qed.

(** the answer of the test *)
Lemma is_approximant_basisE pt a pm order shift f : verif_input a pm order shift -> f <> UNKNOWN -> (0 < form_value f)%N ->
  exists2 b, is_approximant_basis mul pt a pm order shift f true = Ret b &
    (b <-> [/\ has_form f (Some shift) (sq a pm), forall i, approximants (nth 0%N order) (rect pm) (row i (sq a pm)),
      (\det (sq a pm)).[pt] = (\det (sq a pm)).[1] * pt ^+ (size (\det (sq a pm))).-1 & full_rank (nth 0%N order) (rect pm) (sq a pm)]).
Proof.
move=> [[E1 E2 m0 So Ss] [c Ec [C1 C2 Hc]]] Nf f0; rewrite /is_approximant_basis; cbv zeta; rewrite E1 E2 !eqxx [~~ true]/= [~~ true || _]/=; cbv iota.
have ok : shift_ok (nc a) (Some shift) by rewrite /= E2 Ss.
have HF (g : form) : has_form g (Some shift) (mat a) <-> has_form g (Some shift) (sq a pm).
  rewrite /mat; move: (nr a) (nc a) E1 E2 => u v -> ->; exact: iff_refl.
have [b0 Eb0 Hb0] := C78_is_row_form ok Nf; rewrite /row_form in Eb0; rewrite Eb0.
case: b0 Hb0 {Eb0} => -[H1 H2]; last by exists false => //; split=> // -[/HF/H2].
have {H1 H2} HFM : has_form f (Some shift) (sq a pm) by apply/HF/H1.
have RF : reduced_form (nth 0 shift) (sq a pm) by exact: (C78_chain (f := REDUCED) HFM).
rewrite Ec; have [|b1 -> Hb1] := @scan_residualP (ent c) order [seq (i, j) | i <- iota 0 (nr pm), j <- iota 0 (nc pm)].
  by move=> [i j] /allpairsPdep[i' [j' [_]]]; rewrite mem_iota => /andP[_ Hj] [_ ->] /=; rewrite So.
have CE (i : 'I_(nr pm)) (j : 'I_(nc pm)) : ent c i j = (sq a pm *m rect pm) i j.
  by rewrite Hc ?E1 // mxE E2; apply: eq_bigr => k _; rewrite !mxE.
have HA : b1 <-> forall i, approximants (nth 0%N order) (rect pm) (row i (sq a pm)).
  apply: (iff_trans Hb1); split=> [H i j|H [i j]].
    rewrite -row_mul mxE -CE; apply: (H (nat_of_ord i, nat_of_ord j)).
    by apply/allpairsPdep; exists (i : nat), (j : nat); rewrite !mem_iota !ltn_ord.
  move=> /allpairsPdep[i' [j' []]]; rewrite !mem_iota => /andP[_ Hi] /andP[_ Hj] [-> ->] /=.
  by have := H (Ordinal Hi) (Ordinal Hj); rewrite -row_mul mxE -CE.
case: b1 Hb1 HA => _ HA; last by exists false => //; split=> // -[_ /HA].
have {}HA := HA.1 isT.
have [ds Eds Hds] := C78_row_degree ok; rewrite /row_degrees in Eds; rewrite Eds.
have {Hds} [Sd Hd] : size ds = nr pm /\ forall i : 'I_(nr pm), is_rdeg (fun j : 'I_(nr pm) => nth 0 shift j) (row i (sq a pm)) ds`_i.
  have Hds' : degrees_of (sq a pm) (Some shift) ds by move: Hds; rewrite /mat; move: (nr a) (nc a) E1 E2 => u v -> ->.
  case: Hds' => -> H; split=> // i; have [H1 _] := H i; apply: H1; exact: reduced_nz RF.
have [ND D] := det_reduced_deg RF Hd.
rewrite !foldl_int !add0r Sd Ss -sumrB; set dd := \sum_(i < _) _.
have Edd : dd = (size (\det (sq a pm))).-1%:Z.
  by move: D; rewrite -/dd; have := ND; rewrite -size_poly_gt0; move: (size _) dd => u v; lia.
rewrite Edd /zz_power lez_nat leq0n [`|_|%N]/= !det_atE.
case: (_ =P _) => /= ED; last by exists false => //; split=> // -[].
eexists; first reflexivity.
have -> : (\rank (cmat (nr pm) (nc pm) a (ent c) order) == nr pm) =
    row_free (row_mx (coefs_at (nth 0%N order) (rect pm) (sq a pm)) (at0 (sq a pm))).
  rewrite /cmat /row_free; congr (\rank (row_mx _ _) == _); apply/matrixP=> i j; first by rewrite mxE CE [RHS]mxE.
  by rewrite at0E !mxE.
have FR : row_free (row_mx (coefs_at (nth 0%N order) (rect pm) (sq a pm)) (at0 (sq a pm))) <-> full_rank (nth 0%N order) (rect pm) (sq a pm).
  rewrite -kermx_eq0; set K := row_mx _ _; split.
    move/eqP=> EK v V1 V2; have : (v <= kermx K)%MS by apply/sub_kermxP; rewrite mul_mx_row V1 V2 row_mx0.
    by rewrite EK submx0 => /eqP.
  move=> H; apply/eqP/row_matrixP=> i; rewrite row0; have := mulmx_ker K.
  move/(congr1 (row i)); rewrite row_mul mul_mx_row row0 -[in RHS]row_mx0 => /eq_row_mx [V1 V2]; exact: H.
by split=> [/FR ?|[_ _ _ /FR]].
Qed.

(** every basis in the form is accepted, for every random point *)
Theorem C80_complete pt a pm order shift f : verif_input a pm order shift -> f <> UNKNOWN -> (0 < form_value f)%N ->
  basis_of (approximants (nth 0%N order) (rect pm)) (sq a pm) -> has_form f (Some shift) (sq a pm) ->
  is_approximant_basis mul pt a pm order shift f true = Ret true.
Proof.
move=> H Nf f0 B HF; have [b -> Hb] := is_approximant_basisE pt H Nf f0.
have Ha := B.1; congr Ret; apply/Hb; split=> //; last exact: basis_complete.
have [c Nc [D ->]] := basis_det_X B.
by rewrite size_Cmul // size_polyXn /= !hornerM !hornerC !hornerXn expr1n mulr1.
Qed.

(** what is accepted is in the form and made of approximants, and, if it is not a basis, it is accepted for at most deg(det(appbas)) random
    points *)
Theorem C80_sound a pm order shift f (pts : seq F) : verif_input a pm order shift -> f <> UNKNOWN -> (0 < form_value f)%N ->
  uniq pts -> pts <> [::] -> (forall pt, pt \in pts -> is_approximant_basis mul pt a pm order shift f true = Ret true) ->
  [/\ has_form f (Some shift) (sq a pm), forall i, approximants (nth 0%N order) (rect pm) (row i (sq a pm)) &
      basis_of (approximants (nth 0%N order) (rect pm)) (sq a pm) \/ (size pts <= (size (\det (sq a pm))).-1)%N].
Proof.
move=> H Nf f0 U Np Hp; have A pt : pt \in pts -> [/\ has_form f (Some shift) (sq a pm), forall i, approximants (nth 0%N order) (rect pm) (row i (sq a pm)),
      (\det (sq a pm)).[pt] = (\det (sq a pm)).[1] * pt ^+ (size (\det (sq a pm))).-1 & full_rank (nth 0%N order) (rect pm) (sq a pm)].
  by move=> /Hp; have [b -> Hb] := is_approximant_basisE pt H Nf f0 => -[E]; apply/Hb.
have [p0 Hp0] : exists p, p \in pts by case: (pts) Np => // p l _; exists p; rewrite mem_head.
have [HF HA _ R] := A _ Hp0; split=> //.
set M := sq a pm in HF HA R A *; set D := (size (\det M)).-1 in A *.
pose g := \det M - ((\det M).[1])%:P * 'X^D.
have ND : \det M != 0.
  have RF : reduced_form (nth 0 shift) M by exact: (C78_chain (f := REDUCED) HF).
  have [L HL RL] := RF.
  have /fin_all_exists[t Ht] : forall i, exists t, is_rdeg (fun j : 'I_(nr pm) => nth 0 shift j) (row i M) t.
    by move=> i; case: (row_zero_or_deg (nth 0 shift) M i) => // Z; have := reduced_nz i RF; rewrite Z eqxx.
  by have [] := det_reduced_deg RF Ht.
case: (eqVneq g 0) => [g0|Ng].
  left; have E : \det M = ((\det M).[1])%:P * 'X^D by apply/eqP; rewrite -subr_eq0 -/g g0.
  apply: (basis_sound HA _ E R); apply: contraNneq ND => Z; by rewrite E Z polyC0 mul0r.
right; have S : (size g <= D.+1)%N.
  apply: leq_trans (size_add _ _) _; rewrite geq_max size_opp; apply/andP; split; first by rewrite /D; case: (size _).
  by apply: leq_trans (size_mul_leq _ _) _; rewrite size_polyXn size_polyC; case: (_ == 0).
rewrite -ltnS; apply: leq_trans S; apply: max_poly_roots => //; apply/allP=> pt /A[_ _ E _].
by rewrite /root /g hornerD hornerN hornerM hornerC hornerXn E subrr.
Qed.

(** all inputs with the right lengths are answered *)
Theorem C80_total pt a pm order shift f : verif_input a pm order shift -> f <> UNKNOWN -> (0 < form_value f)%N ->
  exists b, is_approximant_basis mul pt a pm order shift f true = Ret b.
Proof. by move=> H Nf f0; have [b E _] := is_approximant_basisE pt H Nf f0; exists b. Qed.

Theorem C80_wrong_dimensions pt a pm order shift f : (nr a, nc a) <> (nr pm, nr pm) ->
  is_approximant_basis mul pt a pm order shift f true = Ret false.
Proof.
move=> N; rewrite /is_approximant_basis ifT //=; apply/negPn; rewrite negb_or !negbK; apply/negP=> /andP[/eqP E1 /eqP E2].
by apply: N; rewrite E1 E2.
Qed.

Theorem C80_not_randomized pt a pm order shift f : is_approximant_basis mul pt a pm order shift f false = Throws.
Proof. by []. Qed.
End P.


Section Examples.
Variable F : fieldType.
(** the exact product *)
Definition exact_mul (a b : pmat F) : aoutcome (pmat F) :=
  AOk (Pmat (nr a) (nc b) (fun i j => \sum_(k < nc a) ent a i k * ent b k j)).

(** the bound on the number of points is reached: X + 1 is accepted for the zero matrix at the point 1, and is not a basis *)
Theorem C80_bad_point : let a := Pmat 1 1 (fun _ _ => 'X + 1) : pmat F in let pm := Pmat 1 1 (fun _ _ => 0) in
  is_approximant_basis exact_mul 1 a pm [:: 1%N] [:: 0] ORD_WEAK_POPOV true = Ret true /\
  ~ basis_of (approximants (nth 0%N [:: 1%N]) (\matrix_(i < nr pm, j < nc pm) ent pm i j)) (\matrix_(i < nr pm, j < nr pm) ent a i j).
Proof.
move=> a pm; have X1 : 'X + 1 != 0 :> {poly F} by rewrite -size_poly_eq0 -[1]/(1%:P) size_XaddC.
have V : verif_input exact_mul a pm [:: 1%N] [:: 0] by split=> //; eexists.
split.
  have [b -> Hb] := @is_approximant_basisE F exact_mul 1 a pm [:: 1%N] [:: 0] ORD_WEAK_POPOV V (fun e => match e with end) isT.
  congr Ret; apply/Hb; split.
  - exists id => // i; rewrite !ord1; split; rewrite ?mxE //; first by move=> k; rewrite !ord1 !mxE lexx.
    by move=> k; rewrite /before !ord1 ltnn.
  - by move=> i j; rewrite !mxE big1 ?dvdp0 // => k _; rewrite !mxE mulr0.
  - by rewrite expr1n mulr1.
  - move=> c; rewrite (_ : at0 _ = 1%:M) ?mulmx1 //.
    by apply/matrixP=> i j; rewrite at0E !mxE !ord1 eqxx coefD coefX coef1 add0r.
case=> _ [H _]; have [] := H 1%:M.
  by move=> j; rewrite mul1mx mxE dvdp0.
move=> w /matrixP/(_ 0 0); rewrite mxE eqxx [in RHS]mxE big_ord1 mxE /= => E.
have := size_mul_eq1 (w 0 0) ('X + 1 : {poly F}).
by rewrite -E size_poly1 eqxx -[1]/(1%:P) size_XaddC andbF.
Qed.

(** with the form NONE, a basis which is not reduced is refused for every point but 1 *)
Theorem C80_none_refuted (pt : F) : pt != 1 ->
  let a := Pmat 2 2 (fun i j => if i == j then 1 else if i == 0%N then 'X else 0) : pmat F in
  let pm := Pmat 2 1 (fun _ _ => 0) in
  basis_of (approximants (nth 0%N [:: 1%N]) (\matrix_(i < nr pm, j < nc pm) ent pm i j)) (\matrix_(i < nr pm, j < nr pm) ent a i j) /\
  is_approximant_basis exact_mul pt a pm [:: 1%N] [:: 0; 0] NONE true = Ret false.
Proof.
move=> Np a pm; set M := \matrix_(i < nr pm, j < nr pm) ent a i j.
have DM : \det M = 1.
  rewrite -det_tr det_trig; last first.
    by apply/is_trig_mxP=> -[[|[|//]] Hi] [[|[|//]] Hj] //= _; rewrite !mxE.
  by rewrite big1 // => i _; rewrite !mxE /= eqxx.
have UM : M \in unitmx by rewrite unitmxE DM unitr1.
split.
  split; first by move=> i j; rewrite !mxE big1 ?dvdp0 // => k _; rewrite !mxE mulr0.
  split; first by move=> v _; exists (v *m invmx M); rewrite mulmxKV.
  by move=> w E; rewrite -(mulmxK UM w) E mul0mx.
rewrite /is_approximant_basis /= /scan_residual /=.
have Z (f : 'I_2 -> {poly F}) : ptrunc 1 (\sum_(k < 2) f k * 0) == 0 :> {poly F}.
  by rewrite big1 => [|k _]; [apply/eqP/polyP=> -[|k]; rewrite coef_ptrunc coef0|rewrite mulr0].
rewrite !Z /= /row_degree_sh /with_shift /= /line_degree_sh /= /pdeg !size_poly1 size_polyX size_poly0 /= polyX_eq0 oner_eq0 eqxx /=.
rewrite /zz_power /=.
have DE x : det_at 2 a x = 1 by rewrite (@det_atE F a pm) -/M DM hornerC.
by rewrite !DE mul1r expr1 eq_sym Np.
Qed.
End Examples.

(** X^2 for the matrix [1] at order 2 *)
Example C80_met : let a := Pmat 1 1 (fun _ _ => 'X^2) : pmat [fieldType of rat] in let pm := Pmat 1 1 (fun _ _ => 1) in
  verif_input (@exact_mul [fieldType of rat]) a pm [:: 2%N] [:: 5] /\
  basis_of (approximants (nth 0%N [:: 2%N]) (\matrix_(i < nr pm, j < nc pm) ent pm i j)) (\matrix_(i < nr pm, j < nr pm) ent a i j) /\
  has_form POPOV (Some [:: 5]) (\matrix_(i < nr pm, j < nr pm) ent a i j).
Proof.
move=> a pm; split; first by split=> //; eexists.
split.
  split; first by move=> i j; rewrite !mxE big_ord1 !mxE mulr1 !ord1 dvdpp.
  split.
    move=> v /(_ 0); rewrite mxE big_ord1 mxE mulr1 => /dvdpP [q E].
    by exists (\row__ q); apply/rowP=> i; rewrite !mxE big_ord1 !mxE ord1 E.
  move=> w /rowP/(_ 0); rewrite !mxE big_ord1 !mxE => /eqP; rewrite mulf_eq0.
  rewrite -[_ ^+ 2 == 0]size_poly_eq0 size_polyXn orbF => /eqP E.
  by apply/rowP=> i; rewrite ord1 mxE.
exists id => // i; rewrite !ord1; split.
- split; rewrite ?mxE -?size_poly_eq0 ?size_polyXn //; first by move=> k; rewrite !ord1 !mxE lexx.
  by move=> k; rewrite /before !ord1 ltnn.
- by rewrite mxE monicXn.
- by move=> i'; rewrite !ord1 eqxx.
Qed.

Print Assumptions C80_complete.
Print Assumptions C80_sound.
Print Assumptions C80_total.
Print Assumptions C80_wrong_dimensions.
Print Assumptions C80_not_randomized.
Print Assumptions C80_bad_point.
Print Assumptions C80_none_refuted.
