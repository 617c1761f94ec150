(** C79: iterative computation of approximant bases (ntl-extras). *)
From Coq Require Import ZArith.
From mathcomp Require Import all_ssreflect all_algebra zify.
From Verif Require Import A_base SpecA SpecForms SpecApp A_mbasis_abs A_kernel_abs N_pmat_model N_util_model N_util_proof N_forms_model
  P_nforms N_appbas_model N_appbas_proof N_popov_proof.
Set Implicit Arguments.
Unset Strict Implicit.
Unset Printing Implicit Defensive.
Import Order.TTheory GRing.Theory Num.Theory.
Local Open Scope ring_scope.

Section P.
Variable F : fieldType.
Implicit Types (x pm : pmat F) (order : seq nat) (shift : seq int).

(** one positive order per column, one entry of the shift per row (mat_lzz_pX_approximant.h:59-60) *)
Definition app_input pm order shift : Prop :=
  [/\ size order = nc pm, size shift = nr pm & forall k, (k < nc pm)%N -> (0 < nth 0%N order k)%N].

(** the matrix a is square of the right dimension *)
Definition square_out pm (a : pmat F) (t : seq int) : Prop := [/\ nr a = nr pm, nc a = nr pm & size t = nr pm].

Lemma app_all pm order shift : app_input pm order shift -> all (leq 1) order.
Proof. by case=> So _ P; apply/(all_nthP 0%N)=> k; rewrite So; exact: P. Qed.

Lemma dinv_minimal o m n (A : 'M[{poly F}]_(m, n)) (s t : nat -> int) (M : 'M[{poly F}]_m) :
  basis_of (approximants o A) M -> deg_inv (fun i : 'I_m => s i) (fun i : 'I_m => t i) M -> minimal_approx_basis o A s t M.
Proof.
move=> B D; split=> //; last by move=> i; exact: deg_inv_rdeg D.
by exists id => // i; exact: dinv_pivot_at D.
Qed.

(** *** appbas_iterative, for both ways of choosing the columns *)
Theorem C79_appbas_iterative x pm order shift (order_wise : bool) : app_input pm order shift ->
  exists a t, [/\ appbas_iterative x pm order shift order_wise = AOk (a, t), square_out pm a t &
    minimal_approx_basis (nth 0%N order) (\matrix_(i < nr pm, j < nc pm) ent pm i j) (nth 0 shift) (nth 0 t)
      (\matrix_(i < nr pm, j < nr pm) ent a i j)].
Proof.
move=> H; have [So Ss _] := H.
have [a [t [E [N1 N2 N3 B D]]]] := @appbas_iterativeP F pm order (nth 0 shift) x shift order_wise So Ss (app_all H) (fun _ => erefl).
by exists a, t; split=> //; exact: dinv_minimal B D.
Qed.

(** a null order is treated as the order one *)
Theorem C79_order0_refuted : exists pm order shift ow, [/\ size order = nc pm, size shift = nr pm &
  forall x a t, appbas_iterative x pm order shift ow = AOk (a, t) ->
    ~ basis_of (approximants (nth 0%N order) (\matrix_(i < nr pm, j < nc pm) ent pm i j)) (\matrix_(i < nr pm, j < nr pm) ent a i j)].
Proof.
exists (Pmat 1 1 (fun _ _ => 1)), [:: 0%N], [:: 0], true; split=> // x a t E [_ [G _]].
have [|w /matrixP/(_ 0 0)] := G 1%:M; first by move=> j; rewrite ord1 expr0 dvd1p.
have Ea : ent a 0%N 0%N = 'X.
  move: E; rewrite /appbas_iterative /ab_loop /ab_step /= /scan_nonzero /= coef1 oner_neq0 /=.
  rewrite /clear_rows /= /add_row /shift_row /= => -[<- _] /=.
  by rewrite /N_multi_model.upd2 /upd /= ?mul1r ?expr1.
rewrite !mxE big_ord1 !mxE /= Ea => /(congr1 (fun p : {poly F} => p`_0)).
by rewrite coefMX /= coef1 => /eqP; rewrite oner_eq0.
Qed.

(** *** appbas_iterative_2x1 *)
Definition mat22 (p00 p01 p10 p11 : {poly F}) : 'M[{poly F}]_2 :=
  \matrix_(i < 2, j < 2) (if i == 0%N :> nat then if j == 0%N :> nat then p00 else p01 else if j == 0%N :> nat then p10 else p11).
Definition col2 (f0 f1 : {poly F}) : 'M[{poly F}]_(2, 1) := \matrix_(i < 2, j < 1) (if i == 0%N :> nat then f0 else f1).
Definition two (x y : int) (i : nat) : int := if i == 0%N then x else y.

Lemma ord2 (i : 'I_2) : i = ord0 \/ i = ord_max.
Proof. by case: i => -[|[|//]] Hi; [left|right]; apply: val_inj. Qed.

Lemma step21P f0 f1 (s : nat -> int) d st :
  let Q k := approximants (fun _ => k) (col2 f0 f1) in
  let M (st : st21 F) := mat22 (q00 st) (q01 st) (q10 st) (q11 st) in
  let inv k (st : st21 F) := [/\ basis_of (Q k) (M st), deg_inv (fun i : 'I_2 => s i) (fun i : 'I_2 => two (z0 st) (z1 st) i) (M st) &
     col2 (r0 st) (r1 st) = M st *m col2 f0 f1] in
  inv d st -> inv d.+1 (step21 st d).
Proof.
move=> Q M inv; case: st => p00 p01 p10 p11 r0 r1 s0 s1 [B D R].
set M0 := M _ in B D R.
have HQ v : Q d.+1 v -> Q d v by move=> H j; apply: dvdp_trans (H j); apply: dvdp_exp2l.
have HQ' w : Q d.+1 (w *m M0) <-> \sum_q (w 0 q)`_0 * ((M0 *m col2 f0 f1) q 0)`_d = 0.
  have := @appr_step F 2 1 (col2 f0 f1) (fun _ => d) 0 M0 (proj1 B) w.
  have E : forall v, Q d.+1 v <-> approximants (incr (fun _ => d) (0 : 'I_1)) (col2 f0 f1) v.
    by move=> v; split; apply: approximants_ext => j; rewrite /incr ord1 /= addn1.
  by move=> H; rewrite -H; exact: E.
have rE : (forall q : 'I_2, ((M0 *m col2 f0 f1) q 0)`_d = if q == 0%N :> nat then r0`_d else r1`_d).
  by move=> q; rewrite -R mxE; case: (q == 0%N :> nat).
have sE (q : {poly F}) : q * 'X^(Pos.to_nat 1) = 'X * q by rewrite expr1 mulrC.
pose rr (q : 'I_2) := ((M0 *m col2 f0 f1) q 0)`_d.
have piv (p : 'I_2) : rr p != 0 -> (forall q, q != p -> rr q != 0 -> (two s0 s1 p < two s0 s1 q) || ((two s0 s1 p == two s0 s1 q) && (p < q)%N)) ->
    basis_of (Q d.+1) (Tmx (pred1 p) (Cp rr p) *m M0) /\
    deg_inv (fun i : 'I_2 => s i) (fun i => two s0 s1 i + (i \in pred1 p)%:Z) (Tmx (pred1 p) (Cp rr p) *m M0).
  move=> Np Hp; split; first exact: (lin_step B HQ HQ' Np).
  apply: deg_inv_step D; first exact: Cp_D.
  move=> i k; rewrite mxE; case: (k =P p) => [->|] //=; last by rewrite eqxx.
  case: (eqVneq i p) => //= Ni; first by rewrite eqxx.
  by rewrite mulf_eq0 oppr_eq0 invr_eq0 negb_or => /andP[Ci _]; exact: Hp.
have fin (p : 'I_2) st' : rr p != 0 -> (forall q, q != p -> rr q != 0 -> (two s0 s1 p < two s0 s1 q) || ((two s0 s1 p == two s0 s1 q) && (p < q)%N)) ->
    M st' = Tmx (pred1 p) (Cp rr p) *m M0 -> (forall i : 'I_2, two (z0 st') (z1 st') i = two s0 s1 i + (i \in pred1 p)%:Z) ->
    col2 (N_appbas_model.r0 st') (N_appbas_model.r1 st') = Tmx (pred1 p) (Cp rr p) *m col2 r0 r1 -> inv d.+1 st'.
  move=> Np Hp EM Ez Er; have [B' D'] := piv p Np Hp; split; first by rewrite EM.
    rewrite EM; apply: (@deg_inv_ext _ _ (fun i : 'I_2 => s i) _ (fun i : 'I_2 => two s0 s1 i + (i \in pred1 p)%:Z)) => //.
  by rewrite Er EM R mulmxA.
have T2 (k : nat) (p : 'I_2) (N : 'M[{poly F}]_(2, k)) i j : (Tmx (pred1 p) (Cp rr p) *m N) i j =
    if i == p then 'X * N i j else N i j + (- rr i / rr p)%:P * N p j.
  rewrite rowTE inE; case: (eqVneq i p) => [->|Ni].
    by rewrite big1 ?addr0 // => q _; rewrite mxE eqxx andbF polyC0 mul0r.
  rewrite mul1r (bigD1 p) //= big1 ?addr0 => [|q Nq]; last by rewrite mxE (negbTE Nq) /= polyC0 mul0r.
  by rewrite mxE eqxx Ni.
have r0E : rr ord0 = r0`_d by rewrite /rr rE.
have r1E : rr ord_max = r1`_d by rewrite /rr rE.
rewrite /step21; case: (eqVneq r0`_d 0) => C0; case: (eqVneq r1`_d 0) => C1 /=.
- split=> //; apply: lin_zero B HQ HQ' _ => q; rewrite rE; by case: (q == 0%N :> nat).
- apply: (@fin ord_max); rewrite ?r1E //.
  + by move=> q; case: (ord2 q) => ->; rewrite ?eqxx // r0E C0 eqxx.
  + apply/matrixP=> i j; rewrite T2; case: (ord2 i) => ->; case: (ord2 j) => ->; rewrite !mxE /= ?sE //.
      by rewrite r0E C0 oppr0 mul0r polyC0 mul0r addr0.
    by rewrite r0E C0 oppr0 mul0r polyC0 mul0r addr0.
  + by move=> i; case: (ord2 i) => ->; rewrite /two /= ?addr0.
  + apply/matrixP=> i j; rewrite T2; case: (ord2 i) => ->; rewrite !mxE /= ?sE //.
    by rewrite r0E C0 oppr0 mul0r polyC0 mul0r addr0.
- apply: (@fin ord0); rewrite ?r0E //.
  + by move=> q; case: (ord2 q) => ->; rewrite ?eqxx // r1E C1 eqxx.
  + apply/matrixP=> i j; rewrite T2; case: (ord2 i) => ->; case: (ord2 j) => ->; rewrite !mxE /= ?sE //.
      by rewrite r1E C1 oppr0 mul0r polyC0 mul0r addr0.
    by rewrite r1E C1 oppr0 mul0r polyC0 mul0r addr0.
  + by move=> i; case: (ord2 i) => ->; rewrite /two /= ?addr0.
  + apply/matrixP=> i j; rewrite T2; case: (ord2 i) => ->; rewrite !mxE /= ?sE //.
    by rewrite r1E C1 oppr0 mul0r polyC0 mul0r addr0.
case: ifP => Cs.
  apply: (@fin ord0); rewrite ?r0E //.
  + by move=> q; case: (ord2 q) => -> //; rewrite /two /= andbT => _ _; move: Cs; rewrite le_eqVlt orbC.
  + by apply/matrixP=> i j; rewrite T2; case: (ord2 i) => ->; case: (ord2 j) => ->; rewrite !mxE /= ?sE ?r1E ?r0E.
  + by move=> i; case: (ord2 i) => ->; rewrite /two /= ?addr0.
  + by apply/matrixP=> i j; rewrite T2; case: (ord2 i) => ->; rewrite !mxE /= ?sE ?r1E ?r0E.
apply: (@fin ord_max); rewrite ?r1E //.
+ by move=> q; case: (ord2 q) => -> //; rewrite /two /= => _ _; rewrite ltNge Cs.
+ by apply/matrixP=> i j; rewrite T2; case: (ord2 i) => ->; case: (ord2 j) => ->; rewrite !mxE /= ?sE ?r1E ?r0E.
+ by move=> i; case: (ord2 i) => ->; rewrite /two /= ?addr0.
+ by apply/matrixP=> i j; rewrite T2; case: (ord2 i) => ->; rewrite !mxE /= ?sE ?r1E ?r0E.
Qed.

Lemma st21P (f0 f1 : {poly F}) (order : nat) (s0 s1 : int) (st := appbas_iterative_2x1 f0 f1 order s0 s1)
    (M := mat22 (q00 st) (q01 st) (q10 st) (q11 st)) :
  [/\ basis_of (approximants (fun _ => order) (col2 f0 f1)) M,
    deg_inv (fun i : 'I_2 => two s0 s1 i) (fun i : 'I_2 => two (z0 st) (z1 st) i) M & col2 (r0 st) (r1 st) = M *m col2 f0 f1].
Proof.
rewrite /M /st /appbas_iterative_2x1 {st M}.
set M := fun st : st21 F => mat22 (q00 st) (q01 st) (q10 st) (q11 st).
elim: order => [|d IH]; last by rewrite N_shift_proof.foldl_iotaR add0n; exact: step21P IH.
have E1 : M (St21 1 0 0 1 f0 f1 s0 s1) = 1%:M.
  by apply/matrixP=> i j; case: (ord2 i) => ->; case: (ord2 j) => ->; rewrite !mxE.
rewrite -/(M _) [foldl _ _ _]/= E1; split.
- split; [by move=> i j; rewrite expr0 dvd1p|split; [by move=> v _; exists v; rewrite mulmx1|by move=> w; rewrite mulmx1]].
- exact: deg_inv_one.
- by rewrite mul1mx.
Qed.

Theorem C79_appbas_iterative_2x1 (f0 f1 : {poly F}) (order : nat) (s0 s1 : int) : let st := appbas_iterative_2x1 f0 f1 order s0 s1 in
  minimal_approx_basis (fun _ => order) (col2 f0 f1) (two s0 s1) (two (z0 st) (z1 st)) (mat22 (q00 st) (q01 st) (q10 st) (q11 st)).
Proof. by cbv zeta; have [B D _] := st21P f0 f1 order s0 s1; exact: dinv_minimal B D. Qed.

(** *** popov_appbas_iterative *)
Lemma approximants_lin o m n (A : 'M[{poly F}]_(m, n)) (M : 'M[{poly F}]_m) (w : 'rV[{poly F}]_m) :
  (forall i, approximants o A (row i M)) -> approximants o A (w *m M).
Proof.
move=> H j; rewrite -mulmxA mxE; apply: (big_ind (fun p : {poly F} => 'X^(o j) %| p)); [exact: dvdp0|exact: dvdp_add|].
by move=> k _; apply: dvdp_mull; have := H k j; rewrite -row_mul mxE.
Qed.

Lemma approximants_sub o m n (A : 'M[{poly F}]_(m, n)) v w :
  approximants o A v -> approximants o A w -> approximants o A (v - w).
Proof. by move=> Hv Hw j; rewrite mulmxBl !mxE; apply: dvdp_sub; [have := Hv j|have := Hw j]; rewrite mxE. Qed.

Theorem C79_popov_appbas_iterative x pm order shift (order_wise : bool) : app_input pm order shift -> (0 < nr pm)%N ->
  exists a t, [/\ popov_appbas_iterative x pm order shift order_wise = Ret (a, t), square_out pm a t &
    popov_approx_basis (nth 0%N order) (\matrix_(i < nr pm, j < nc pm) ent pm i j) (nth 0 shift) (nth 0 t)
      (\matrix_(i < nr pm, j < nr pm) ent a i j)].
Proof.
move=> H m0; have [So Ss _] := H; set m := nr pm in m0 *.
have [a [t [E [N1 N2 N3 B D]]]] := @appbas_iterativeP F pm order (nth 0 shift) x shift order_wise So Ss (app_all H) (fun _ => erefl).
rewrite /popov_appbas_iterative E; set s2 := mkseq _ _.
have Ss2 : size s2 = m by rewrite size_mkseq.
have [a2 [t2 [E2 [M1 M2 M3 B2 D2]]]] := @appbas_iterativeP F pm order (nth 0 s2) a s2 order_wise So Ss2 (app_all H) (fun _ => erefl).
rewrite E2 -/m in M1 M2 B B2 D D2 *.
have D2' : deg_inv (fun i : 'I_m => nth 0 shift i - nth 0 t i) (fun i : 'I_m => nth 0 t2 i) (mx_of m m (ent a2)).
  by apply: (@deg_inv_ext _ _ (fun i : 'I_m => nth 0 s2 i) _ (fun i : 'I_m => nth 0 t2 i)) D2 => // i; rewrite /= nth_mkseq.
have ok : shift_ok (nc a2) (Some s2) by rewrite /= M2 Ss2.
have [L EL] := C78_row_leading_matrix ok; rewrite /row_leading in EL; rewrite EL => HL.
rewrite M1 M2 eqxx; set LM := mx_of m m L.
have EM : LM = lead2 (nth 0 shift) (nth 0 t) (mx_of m m (ent a2)).
  apply: (lead2E B B2 D D2') => i.
  have {HL} HL : leading_matrix_of (nth 0 s2) (mx_of m m (ent a2)) LM.
    move: HL; rewrite /sh /mat /LM /mx_of; move: (nr a2) (nc a2) M1 M2 => u v -> ->; exact.
  have [H1 H2] := HL i; split=> // d Hd j; have := H2 d.
  have Hd' : is_rdeg (fun j : 'I_m => nth 0 s2 j) (row i (mx_of m m (ent a2))) d.
    case: Hd => Hd [k Nk Ek]; split; last by exists k => //; rewrite nth_mkseq.
    by move=> k' Nk'; rewrite nth_mkseq //; exact: Hd.
  by move=> /(_ Hd' j) ->; rewrite nth_mkseq.
have UL : LM \in unitmx by rewrite EM; exact: (lead2_unit B B2 D D2').
rewrite UL /=; set linv := Cmat _ _ _.
have ci : cc linv = nr a2 by rewrite M1.
have [c [-> [C1 C2 Hc]]] := pm_cmulE true a2 ci.
exists c, t; split=> //; first by split; rewrite // ?C1 ?C2.
have EP : \matrix_(i < m, j < m) ent c i j = popov2 (nth 0 shift) (nth 0 t) (mx_of m m (ent a2)).
  apply/matrixP=> i j; rewrite mxE Hc //=; last by rewrite M2.
  rewrite /fmul /popov2 mxE -EM; apply: eq_bigr => k _; rewrite !mxE !valK //.
rewrite -/m EP; have Ql w : approximants (nth 0%N order) (mx_of m (nc pm) (ent pm)) (w *m mx_of m m (ent a2)).
  by apply: approximants_lin; case: B2.
split; [exact: (popov2_basis B B2 D D2' Ql)|exact: (popov2_form B B2 D D2' Ql)|].
by move=> i; apply: pvt_rdeg; exact: (popov2_pvt B B2 D D2' Ql).
Qed.

(** the Popov basis is unique: the result of popov_appbas_iterative is the only one *)
Theorem C79_popov_unique o m n (A : 'M[{poly F}]_(m, n)) (s t t' : nat -> int) (M M' : 'M[{poly F}]_m) :
  popov_approx_basis o A s t M -> popov_approx_basis o A s t' M' -> M = M'.
Proof. by move=> [B1 P1 _] [B2 P2 _]; apply: (popov_unique B1 B2 _ P1 P2) => v w; exact: approximants_sub. Qed.

(** *** the general interface *)
Theorem C79_approximant_basis x pm order shift f : app_input pm order shift -> (0 < nr pm)%N -> f <> UNKNOWN ->
  exists a t, [/\ approximant_basis x pm order shift f true false = Ret (a, t), square_out pm a t,
    basis_of (approximants (nth 0%N order) (\matrix_(i < nr pm, j < nc pm) ent pm i j)) (\matrix_(i < nr pm, j < nr pm) ent a i j),
    has_form f (Some shift) (\matrix_(i < nr pm, j < nr pm) ent a i j) &
    forall i : 'I_(nr pm), is_rdeg (fun j : 'I_(nr pm) => nth 0 shift j) (row i (\matrix_(i < nr pm, j < nr pm) ent a i j)) (nth 0 t i)].
Proof.
move=> H m0 Nf; have [a [t [E S [B O R]]]] := C79_appbas_iterative x true H.
have [a' [t' [E' S' [B' O' R']]]] := C79_popov_appbas_iterative x true H m0.
rewrite /approximant_basis /=; case: f Nf => // _ /=; rewrite ?E ?E'; first [by exists a, t; split | idtac].
- exists a, t; split=> //; case: O => piv inc Hp.
  apply: (@A_reduced_proof.weak_popov_reduced F false); exists piv => // i i' Ei; apply/val_inj.
  by case: (ltngtP i i') => // L; [have := inc _ _ L|have := inc _ _ L]; rewrite Ei ltnn.
- exists a, t; split=> //; case: O => piv inc Hp; exists piv => // i i' Ei; apply/val_inj.
  by case: (ltngtP i i') => // L; [have := inc _ _ L|have := inc _ _ L]; rewrite Ei ltnn.
by exists a', t'.
Qed.

(** without rows the smallest entry of the empty shift is read *)
Theorem C79_popov_empty_refuted x pm order ow : app_input pm order [::] -> popov_appbas_iterative x pm order [::] ow = Undef.
Proof.
move=> H; have [So Ss _] := H.
have [a [t [E _]]] := @appbas_iterativeP F pm order (nth 0 [::]) x [::] ow So Ss (app_all H) (fun _ => erefl).
rewrite /popov_appbas_iterative E -Ss.
have [a2 [t2 [E2 [M1 M2 _ _ _]]]] := @appbas_iterativeP F pm order (nth 0 [::]) a [::] ow So Ss (app_all H) (fun _ => erefl).
by rewrite E2 /row_leading_matrix_sh /row_degree_sh M2 -Ss.
Qed.

(** what is not implemented throws *)
Theorem C79_throws x pm order shift f row_wise generic :
  ~~ row_wise || generic -> approximant_basis x pm order shift f row_wise generic = Throws.
Proof. by rewrite /approximant_basis; case: row_wise; case: generic. Qed.
End P.

(** [[1], [X]] at order 2, over the rationals *)
Example C79_met : let pm := Pmat 2 1 (fun i _ => if i == 0%N then 1 else 'X) : pmat [fieldType of rat] in
  app_input pm [:: 2%N] [:: 0; 1] /\ (0 < nr pm)%N /\ ~ approximants (nth 0%N [:: 2%N]) (\matrix_(i < nr pm, j < nc pm) ent pm i j) (row ord0 1%:M).
Proof.
move=> pm; split; first by split=> // -[].
split=> // /(_ ord0); rewrite mxE big_ord_recl big_ord1 !mxE /= mul1r mul0r addr0.
by move/dvdp_leq; rewrite size_polyXn size_poly1 oner_neq0 => /(_ isT).
Qed.

Print Assumptions C79_appbas_iterative.
Print Assumptions C79_order0_refuted.
Print Assumptions C79_appbas_iterative_2x1.
Print Assumptions C79_popov_appbas_iterative.
Print Assumptions C79_popov_unique.
Print Assumptions C79_approximant_basis.
Print Assumptions C79_popov_empty_refuted.
Print Assumptions C79_throws.
