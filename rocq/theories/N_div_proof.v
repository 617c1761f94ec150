(** Proofs about N_div_model.v. *)
From Coq Require Import ZArith.
From mathcomp Require Import all_ssreflect all_algebra zify.
From Verif Require Import A_base A_mul_model N_shift_proof N_multi_model N_multi_proof N_pmat_model N_trs_model N_trs_proof N_util_model N_util_proof N_eval_model.
From Verif Require Import N_mp_model P_nmp P_ntrs P_nutil N_inv_model N_inv_proof P_ninv N_solve_model N_solve_proof P_nsolve N_div_model.
Set Implicit Arguments.
Unset Strict Implicit.
Unset Printing Implicit Defensive.
Import GRing.Theory.
Local Open Scope ring_scope.

Section Proof.
Variable F : fieldType.
Local Notation P := {poly F}.
Implicit Types (A B Q R a : pmat F) (f g : P) (rho : nat -> nat).

(** maxima *)
Lemma fold_max (g : nat -> Z) (z0 z : Z) s n : (Z.le (foldl (fun r j => if Z.ltb r (g j) then g j else r) z0 (iota s n)) z) <->
  Z.le z0 z /\ forall j, (s <= j < s + n)%N -> Z.le (g j) z.
Proof.
elim: n z => [|n IH] z; first by split=> [H|[]] //; split=> // j; lia.
rewrite foldl_iotaR; set r := foldl _ _ _ in IH *.
have [IH1 IH2] := IH z; split.
  case: (Z.ltb_spec r (g (s + n)%N)) => C H.
    have [|X1 X2] := IH1; first lia.
    by split=> // j Hj; case: (ltnP j (s + n)) => Cj; [apply: X2; lia|rewrite (_ : j = (s + n)%N) //; lia].
  have [//|X1 X2] := IH1; split=> // j Hj; case: (ltnP j (s + n)) => Cj; first by apply: X2; lia.
  by rewrite (_ : j = (s + n)%N) //; lia.
case=> H1 H2; have H3 := H2 (s + n)%N; case: Z.ltb_spec => C; first by apply: H3; lia.
by apply: IH2; split=> // j Hj; apply: H2; lia.
Qed.

Lemma row_degree_le a i z : Z.le (row_degree a i) z <-> Z.le (Zneg 1) z /\ forall j, (j < nc a)%N -> Z.le (zdeg (ent a i j)) z.
Proof. by rewrite /row_degree fold_max; split=> -[H1 H2]; split=> // j Hj; apply: H2. Qed.

Lemma max_diff_le rA rB m z : (0 < m)%N -> Z.le (max_diff rA rB m) z <-> forall i, (i < m)%N -> Z.le (Z.sub (rA i) (rB i)) z.
Proof.
move=> m0; rewrite /max_diff (fold_max (fun i => Z.sub (rA i) (rB i))); split=> [[H1 H2] i Hi|H].
  by case: i Hi => [|i] Hi //; apply: H2; lia.
by split=> [|j Hj]; apply: H; lia.
Qed.

(** the row degrees of B are rho: no entry has a larger degree, and the matrix of the coefficients of degree rho is invertible *)
Definition reduced_with B rho : Prop :=
  [/\ (0 < nr B)%N, nr B = nc B, (forall i j, (i < nr B)%N -> (j < nr B)%N -> (size (ent B i j) <= (rho i).+1)%N) &
      (\matrix_(i < nr B, j < nr B) (ent B i j)`_(rho i) : 'M[F]_(nr B)) \in unitmx].

Lemma row_nonzero n (M : 'M[F]_n) i : M \in unitmx -> exists j, M i j != 0.
Proof.
move=> U; apply/existsP; apply: contraTT U; rewrite negb_exists => /forallP H.
rewrite unitmxE (expand_det_row _ i) big1 ?unitr0 // => j _; move/negbNE/eqP: (H j) => ->; exact: mul0r.
Qed.

Lemma reduced_degree B rho i : reduced_with B rho -> (i < nr B)%N -> row_degree B i = Z.of_nat (rho i).
Proof.
case=> n0 En S U Hi; apply: Z.le_antisymm.
  apply/row_degree_le; split; first lia.
  by move=> j; rewrite -En => Hj; rewrite /zdeg; have := S i j Hi Hj; lia.
have [j] := row_nonzero (Ordinal Hi) U; rewrite mxE /= => Nz.
have : (rho i < size (ent B i j))%N by rewrite ltnNge; apply: contra Nz => C; rewrite nth_default.
have [H _] := row_degree_le B i (row_degree B i); have [_ H2] := H (Z.le_refl _); move: (H2 j); rewrite -En => /(_ (ltn_ord j)).
rewrite /zdeg; lia.
Qed.

(** products of reversed polynomials *)
Lemma coefM2 m n f g l : (size f <= m)%N -> (size g <= n)%N ->
  (f * g)`_l = \sum_(a < m) \sum_(b < n) (if (a + b == l)%N then f`_a * g`_b else 0).
Proof.
move=> Sf Sg.
have E k (h : P) : (size h <= k)%N -> h = \sum_(i < k) h`_i *: 'X^i.
  by move=> S; rewrite -poly_def; apply/polyP=> i; rewrite coef_poly; case: ltnP => // C; rewrite nth_default // (leq_trans S C).
rewrite [in LHS](E m f Sf) [in LHS](E n g Sg) mulr_suml coef_sum; apply: eq_bigr => a _; rewrite mulr_sumr coef_sum; apply: eq_bigr => b _.
by rewrite -scalerAl -scalerAr -exprD !coefZ coefXn eq_sym; case: eqP => _; rewrite ?mulr1 ?mulr0.
Qed.
Definition rev (r : nat) f : P := \poly_(k < r.+1) f`_(r - k).
Lemma rev_mul r d f g l : (size f <= r.+1)%N -> (size g <= d.+1)%N -> (l <= r + d)%N -> (f * g)`_(r + d - l) = (rev r f * rev d g)`_l.
Proof.
move=> Sf Sg Hl; rewrite (coefM2 _ Sf Sg) (@coefM2 r.+1 d.+1) ?size_poly //.
rewrite (reindex_inj rev_ord_inj); apply: eq_bigr => a _; rewrite (reindex_inj rev_ord_inj); apply: eq_bigr => b _.
rewrite /= !subSS !coef_poly !ltn_ord; have := ltn_ord a; have := ltn_ord b; rewrite !ltnS => Hb Ha.
by rewrite (_ : (r - a + (d - b) == r + d - l)%N = (a + b == l)%N) //; apply/eqP/eqP; lia.
Qed.
Lemma revK r f : (size f <= r.+1)%N -> rev r (rev r f) = f.
Proof.
move=> S; apply/polyP=> k; rewrite coef_poly; case: (ltnP k r.+1) => C; last by rewrite nth_default // (leq_trans S C).
by rewrite coef_poly subKn // ltnS leq_subr.
Qed.
Lemma size_rev r f : (size (rev r f) <= r.+1)%N.
Proof. exact: size_poly. Qed.
Lemma zreverse_nat f (h : nat) : zreverse f (Z.of_nat h) = rev h f.
Proof. by case: h => [|h]; rewrite /zreverse //=; rewrite SuccNat2Pos.id_succ. Qed.
Lemma zreverseZ f z (h : nat) : z = Z.of_nat h -> zreverse f z = rev h f.
Proof. by move=> ->; apply: zreverse_nat. Qed.

Lemma zsize f (h : nat) : Z.le (zdeg f) (Z.of_nat h) <-> (size f <= h.+1)%N.
Proof. by rewrite /zdeg; split; lia. Qed.

(** uniqueness: a quotient of a matrix of degrees less than rho is zero *)
Lemma quotient_zero B rho (p : nat) (D : fmat P) : reduced_with B rho ->
  (forall i j, (i < nr B)%N -> (j < p)%N -> (size (\sum_(k < nr B) ent B i k * D k j)%R <= rho i)%N) ->
  forall i j, (i < nr B)%N -> (j < p)%N -> D i j = 0.
Proof.
case=> n0 En S U H i j Hi Hj; apply/eqP; case: eqP => // /eqP Nz.
pose s := \max_(k < nr B) size (D k j).
have Ls k : (k < nr B)%N -> (size (D k j) <= s)%N by move=> Hk; apply: (leq_bigmax (Ordinal Hk)).
have [k0 Ek0] : exists k0 : 'I_(nr B), s = size (D k0 j) by have [|k0 E] := @eq_bigmax _ (fun k : 'I_(nr B) => size (D k j)); [rewrite card_ord|exists k0].
have s0 : (0 < s)%N by apply: leq_trans (Ls i Hi); rewrite size_poly_gt0.
pose v : 'cV[F]_(nr B) := \col_k (D k j)`_s.-1.
have : (\matrix_(i < nr B, j < nr B) (ent B i j)`_(rho i) : 'M[F]_(nr B)) *m v = 0.
  apply/matrixP=> i' z; rewrite !mxE.
  have : (\sum_(k < nr B) ent B i' k * D k j)`_(rho i' + s.-1) = 0.
    by rewrite nth_default //; apply: leq_trans (H i' j (ltn_ord _) Hj) (leq_addr _ _).
  rewrite coef_sum => E; rewrite -[RHS]E; apply: eq_bigr => k _; rewrite !mxE.
  rewrite -[in RHS](subn0 (rho i' + s.-1)%N) rev_mul ?S //; last by rewrite prednK // Ls.
  by rewrite coefM big_ord_recl big_ord0 addr0 !coef_poly !subn0.
move/(congr1 (mulmx (invmx (\matrix_(i < nr B, j < nr B) (ent B i j)`_(rho i) : 'M[F]_(nr B))))); rewrite mulmxA mulVmx // mul1mx mulmx0.
move/matrixP/(_ k0 0); rewrite !mxE Ek0 => /eqP; rewrite -lead_coefE lead_coef_eq0 -size_poly_eq0 -Ek0 => /eqP E; by rewrite E in s0.
Qed.

Lemma series_quotient A B rho d u : reduced_with B rho -> nr A = nr B ->
  (forall i j, (i < nr A)%N -> (j < nc A)%N -> size (ent A i j) <= (rho i + d).+1)%N ->
  let Brev := Pmat (nr B) (nc B) (fun i j => rev (rho i) (ent B i j)) in
  let Arev := Pmat (nr A) (nc A) (fun i j => rev (rho i + d) (ent A i j)) in
  solution Brev Arev u d.+1 ->
  forall i j, (i < nr A)%N -> (j < nc A)%N -> (size (ent A i j - \sum_(k < nr B) ent B i k * rev d (u k j))%R <= rho i)%N.
Proof.
move=> [n0 En S U] R1 SA Brev Arev [Su Hu] i j Hi Hj; apply/leq_sizeP=> t Ht; rewrite coefB.
have HiB : (i < nr B)%N by rewrite -R1.
case: (leqP t (rho i + d)) => Ct.
  have Hl : (rho i + d - t < d.+1)%N by move: Ht; clear; lia.
  have := Hu i j (rho i + d - t)%N HiB Hj Hl.
  rewrite /= coef_poly ltnS leq_subr subKn // => <-; rewrite !coef_sum -sumrB big1 // => k _; apply/eqP; rewrite subr_eq0; apply/eqP.
  rewrite -[in RHS](subKn Ct) rev_mul ?size_rev ?revK ?S ?Su //; by rewrite subKn.
rewrite nth_default ?sub0r; last by apply: leq_trans (SA i j Hi Hj) Ct.
apply/eqP; rewrite oppr_eq0 coef_sum big1 // => k _; rewrite nth_default //.
apply: leq_trans (size_mul_leq _ _) _; have := S i k HiB (ltn_ord k); have := size_rev d (u k j); move: Ct; clear; move: (size _) (size _); lia.
Qed.
End Proof.

(** *** solve_DAC and zeros *)
Section Zeros.
Variable F : fieldType.
Local Notation P := {poly F}.
Variables (garb : nat -> nat -> nat -> F) (mp : pmat F -> pmat F -> nat -> nat -> option (aoutcome (pmat F))).
Variables (mp_raw : smat F -> pmat F -> nat -> nat -> option (aoutcome (pmat F))).
Variables (n t T N : nat) (iA : fmat P) (f : pmat F -> option (aoutcome (pmat F))).
Implicit Types (A b x c : pmat F) (u : fmat P) (s : smat F).
Hypotheses (T0 : (0 < T)%N) (n0 : (0 < n)%N) (t0 : (0 < t)%N) (Hf : multiplies_by n iA f T).
Local Notation dac := (solve_DAC garb mp mp_raw).

(** a right-hand side of length at most the threshold *)
Lemma dac_base fuel A b prec u : (prec <= T)%N -> nr b = n -> nc b = t -> entries_below prec b ->
  (forall i j, (i < n)%N -> (j < t)%N -> size (u i j) <= prec)%N -> solves n t prec (ent A) u (ent b) -> inverse_mod n prec iA (ent A) ->
  exists s, dac fuel A b prec f T = Some (AOk s) /\ is_smat s n t u.
Proof.
move=> C R3 R4 Sb Su Hs Hi; have -> : dac fuel A b prec f T = bindm (f b) (fun sol => Some (AOk (stored (pm_truncate true sol sol prec)))).
  by case: fuel => [|z] /=; rewrite C.
have [|c [-> [C1 C2 Hc]]] := Hf R3; first by move=> i j A1 A2; apply: leq_trans (Sb i j A1 A2) C.
rewrite /bindm; eexists; split; first by [].
have [T1 T2 HT] := truncE true c c prec.
apply: storedE; split; rewrite ?T1 ?T2 ?C1 ?C2 // => i j A1 A2; rewrite HT ?C1 ?C2 ?R4 // Hc ?R4 //.
apply/polyP=> l; rewrite ptrunc_coef.
case: ltnP => Cl; first exact: (inverse_solves Hi Hs).
by rewrite nth_default //; apply: leq_trans (Su i j A1 A2) Cl.
Qed.

(** after the first half *)
Lemma dac_second fuel A b prec u sol (h := prec./2) (k := (prec - h)%N) : (T < prec)%N -> mp_ok mp n t N -> (prec <= N)%N ->
  nr A = n -> nc A = n -> nr b = n -> nc b = t -> entries_below prec A ->
  dac fuel (pm_truncate false (new_pmat F) A h) (pm_truncate false (new_pmat F) b h) h f T = Some (AOk sol) ->
  is_smat sol n t (fun i j => ptrunc h (u i j)) -> (exists i j, [/\ (i < n)%N, (j < t)%N & ptrunc h (u i j) != 0]) ->
  exists bA2 c, [/\ dac fuel.+1 A b prec f T = bindm (dac fuel bA2 c k f T) (fun r => Some (sm_add_shift garb sol r h)),
    is_pmat bA2 n n (fun i j => ptrunc k (ent A i j)) &
    is_pmat c n t (fun i j => pshr h (ent b i j) - \poly_(l < k) (\sum_(q < n) ent A i q * ptrunc h (u q j))`_(h + l))].
Proof.
move=> C Hmp HN R1 R2 R3 R4 SA E1 Hsol Nz.
have Ehk : prec = (h + k)%N by rewrite /k /h; clear; lia.
have [h0 Hhk] : (0 < h)%N /\ (h <= k <= h.+1)%N by move: C T0; rewrite /k /h; clear; lia.
rewrite [dac fuel.+1 _ _ _ _ _]/= leqNgt C /= -/h -/k.
set bA := pm_truncate _ _ A h in E1 *; set bB := pm_truncate _ _ b h in E1 *; rewrite E1.
rewrite {1}/bindm; have [NS [S1 S2 HS]] := normal_strans Hsol.
have [U1 U2 HU] := Hsol.
have [V1 V2 HV] := transposeE bA A; rewrite R1 R2 in V1 V2 HV.
rewrite /mp_stored NS.
have [|||||||||o [-> [res [-> [M1 M2 HM]]]]] := Hmp (polys (strans sol)) (transpose bA A) h k; rewrite ?V1 ?V2 ?S1 ?S2 //.
- by rewrite h0; move: Hhk; clear; lia.
- by rewrite -Ehk.
- move=> Z; case: Nz => i1 [j1 [I1 J1 /negP]]; apply; apply/eqP.
  by have := Z j1 i1; rewrite S1 S2 HS // => ->.
- by move=> i j; rewrite S1 S2 => X1 X2; rewrite HS // size_ptrunc.
- move=> i j; rewrite V1 V2 => X1 X2; rewrite HV // -Ehk; apply: SA; rewrite ?R1 ?R2 //.
rewrite {1}/bindm -/k.
have [W1 W2 HW] := transposeE bB res; rewrite V2 ?S1 in M1 M2 HM; rewrite M1 M2 in W1 W2 HW.
set tr := transpose bB res; rewrite -/tr in W1 W2 HW.
have [X1 X2 HX] : is_pmat (pm_rshift false res b (Z.of_nat h)) (nr b) (nc b) (fun i j => rshift (ent b i j) (Z.of_nat h)) by apply: ewiseE.
set rs := pm_rshift _ _ _ _; rewrite -/rs R3 R4 in X1 X2 HX.
have [|||c [Ec [C1 C2 HC]]] := @ewise2E F false true (fun p q => p - q) tr rs tr; rewrite ?X1 ?X2 ?W1 ?W2 //.
rewrite X1 X2 in C1 C2 HC; rewrite /pm_sub_to Ec {1}/bindm.
set bA2 := pm_truncate _ _ A k.
have [Y1 Y2 HY] := truncE false (transpose bA A) A k; rewrite -/bA2 R1 R2 in Y1 Y2 HY.
have Hc i j : (i < n)%N -> (j < t)%N -> ent c i j = pshr h (ent b i j) - \poly_(l < k) (\sum_(q < n) ent A i q * ptrunc h (u q j))`_(h + l).
  move=> I1 J1; rewrite HC // HX // HW // HM // mid_entryE prednK; last by move: h0 Hhk; clear; lia.
  congr (_ - _); first by rewrite /rshift; case E: (Z.of_nat h) => [|z|z]; [congr pshr; lia|congr pshr; lia|lia].
  apply/polyP=> l; rewrite !coef_poly; case: ifP => // _; rewrite S2; congr nth; congr polyseq; apply: eq_bigr => q _.
  rewrite HS // HV // mulrC ptrunc_id //; apply: leqW; exact: size_ptrunc.
by exists bA2, c.
Qed.

(** a right-hand side whose first half is zero *)
Hypothesis Hz : forall x c dA dB, zero_mat x -> nr x = t -> nc x = n -> nr c = n -> nc c = n -> (T./2 <= dB)%N -> mp x c dA dB = Some AUB.

Lemma dac_zero fuel A b prec : (T < prec <= 2 * T)%N -> (prec <= fuel)%N -> nr A = n -> nc A = n -> nr b = n -> nc b = t ->
  inverse_mod n T iA (ent A) -> zero_mat b -> dac fuel A b prec f T = Some AUB.
Proof.
move=> HT; case: fuel => [|fuel] Hfu R1 R2 R3 R4 Hi Zb; first by move: HT Hfu; clear; lia.
case/andP: (HT) => C C2; rewrite /= leqNgt C /=; set h := prec./2.
have [[A1 A2 HA] [B1 B2 HB]] := (truncE false (new_pmat F) A h, truncE false (new_pmat F) b h).
set bA := pm_truncate _ _ A h; set bB := pm_truncate _ _ b h; rewrite -/bA in A1 A2 HA; rewrite -/bB in B1 B2 HB.
have E0 i j : (i < nr b)%N -> (j < nc b)%N -> ent bB i j = 0.
  by move=> X1 X2; rewrite HB // Zb //; apply/polyP=> l; rewrite ptrunc_coef coef0; case: ifP.
have Hh : (h <= T)%N by move: HT; rewrite /h; clear; lia.
have [|||||||sol [-> Hsol]] := @dac_base fuel bA bB h (fun _ _ => 0); rewrite ?A1 ?A2 ?B1 ?B2 //.
- by move=> i j; rewrite B1 B2 => X1 X2; rewrite E0 // size_poly0.
- by move=> i j _ _; rewrite size_poly0.
- move=> i j l X1 X2 X3; rewrite E0 ?R3 ?R4 // big1 ?coef0 // => q _; exact: mulr0.
- apply: inverse_mod_eq (inverse_mod_le Hh Hi) => // i j l X1 X2 X3.
  by rewrite HA ?R1 ?R2 // ptrunc_coef X3.
rewrite {1}/bindm; have [NS [S1 S2 HS]] := normal_strans Hsol.
have [V1 V2 HV] := transposeE bA A; rewrite R1 R2 in V1 V2 HV.
rewrite /mp_stored NS Hz //; first by move=> i j; rewrite S1 S2 => X1 X2; rewrite HS.
by move: HT; rewrite /h; clear; lia.
Qed.

(** the solution is a polynomial of degree less than T, and prec = 2 T + 1 *)
Lemma dac_zero_block fuel A b u : mp_ok mp n t N -> (2 * T + 1 <= N)%N -> (2 * T + 1 <= fuel)%N -> nr A = n -> nc A = n -> nr b = n -> nc b = t ->
  entries_below (2 * T + 1) A -> entries_below (2 * T + 1) b -> inverse_mod n T iA (ent A) ->
  (forall i j, (i < n)%N -> (j < t)%N -> size (u i j) <= T)%N -> solves n t (2 * T + 1) (ent A) u (ent b) ->
  (exists i j, [/\ (i < n)%N, (j < t)%N & u i j != 0]) -> dac fuel A b (2 * T + 1) f T = Some AUB.
Proof.
move=> Hmp HN Hfu R1 R2 R3 R4 SA Sb Hi Su Hs [i0 [j0 [Hi0 Hj0 Nz]]]; case: fuel Hfu => [|fuel] Hfu; first by move: Hfu; clear; lia.
have C : (T < 2 * T + 1)%N by clear; lia.
have Eh : (2 * T + 1)./2 = T by clear; lia.
have [[A1 A2 HA] [B1 B2 HB]] := (truncE false (new_pmat F) A T, truncE false (new_pmat F) b T).
set bA := pm_truncate _ _ A T in A1 A2 HA; set bB := pm_truncate _ _ b T in B1 B2 HB.
have [|||||||sol [E1 Hsol]] := @dac_base fuel bA bB T u; rewrite ?A1 ?A2 ?B1 ?B2 //.
- by move=> i j; rewrite B1 B2 => X1 X2; rewrite HB // size_ptrunc.
- apply: solves_eq Hs; first by clear; lia.
  + by move=> i j l X1 X2 X3; rewrite HA ?R1 ?R2 // ptrunc_coef X3.
  + by [].
  + by move=> i j l X1 X2 X3; rewrite HB ?R3 ?R4 // ptrunc_coef X3.
- apply: inverse_mod_eq Hi => // i j l X1 X2 X3.
  by rewrite HA ?R1 ?R2 // ptrunc_coef X3.
have := @dac_second fuel A b (2 * T + 1) u sol C Hmp HN R1 R2 R3 R4 SA; rewrite Eh => X.
have [|||bA2 [c [-> [D1 D2 HD] [C1 C2 HC]]]] := X; first exact: E1.
- by case: Hsol => S1 S2 HS; split=> // i j X1 X2; rewrite HS // ptrunc_id // Su.
- by exists i0, j0; split=> //; rewrite ptrunc_id // Su.
rewrite dac_zero //.
- by move: T0; clear; lia.
- by move: T0 Hfu; clear; lia.
- apply: inverse_mod_eq Hi => // i j l X1 X2 X3; rewrite HD // ptrunc_coef ifT //; move: X3; clear; lia.
move=> i j; rewrite C1 C2 => X1 X2; rewrite HC //; apply/polyP=> l; rewrite coefB coef0 pshr_coef coef_poly; case: ifP => Cl.
  rewrite -(Hs i j (T + l)%N X1 X2); last by move: Cl; clear; lia.
  apply/eqP; rewrite subr_eq0; apply/eqP; congr (polyseq _)`_ _; apply: eq_bigr => q _; by rewrite ptrunc_id // Su.
rewrite subr0 nth_default //; apply: leq_trans (Sb i j _ _) _; rewrite ?R3 ?R4 //; by move: Cl; clear; lia.
Qed.
End Zeros.
