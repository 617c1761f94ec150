(** C86: determinants of polynomial matrices (ntl-extras). *)
From Coq Require Import ZArith.
From mathcomp Require Import all_ssreflect all_fingroup all_algebra all_solvable all_field zify.
From Verif Require Import A_base N_multi_model N_crt_model P_ncrt N_poly_model N_geo_model N_geo_proof N_geo3_proof P_ngeo P_nord N_mfft_model N_mfft_proof P_nfft N_pmat_model N_trs_proof N_util_model N_util_proof N_forms_model
  P_ntrs N_eval_model P_neval N_mb_model P_nmb N_pmb_model N_ker_model N_zls2_proof P_nzls N_det_model N_det_proof N_det2_proof.
Set Implicit Arguments.
Unset Strict Implicit.
Unset Printing Implicit Defensive.
Import Order.TTheory GRing.Theory Num.Theory.
Local Open Scope ring_scope.

(** the determinant of the square matrix pm *)
Definition det_of (F : fieldType) (pm : pmat F) : {poly F} := \det (\matrix_(i < nr pm, j < nr pm) ent pm i j).

Section P.
Variable F : fieldType.
Implicit Types (pm : pmat F) (det x : {poly F}).

Theorem C86_expansion x pm : nr pm = nc pm -> (0 < nr pm <= 4)%N -> expansion_by_minors x pm = det_of pm.
Proof. by move=> _; exact: expansionP. Qed.
Theorem C86_expansion_rec fuel pm : nr pm = nc pm -> (0 < nr pm <= fuel.+1)%N -> expansion_rec fuel pm = Ret (det_of pm).
Proof. by move=> _; exact: recP. Qed.
(** the polynomial det is left as it was when the dimension is 0 or more than 4; the recursive function fails for the dimension 0 *)
Theorem C86_expansion_refuted x pm : nr pm = 0%N \/ (4 < nr pm)%N -> expansion_by_minors x pm = x.
Proof. by rewrite /expansion_by_minors; case: (nr pm) => [|[|[|[|[|?]]]]] []. Qed.
Theorem C86_expansion_rec_refuted fuel pm : nr pm = 0%N -> expansion_rec fuel pm = Undef.
Proof. by move=> E; case: fuel => [|f]; cbn [expansion_rec]; rewrite E. Qed.

Lemma det_ofE pm (a : F) : (det_of pm).[a] = \det (mx_of (nr pm) (nr pm) (fun i j => (ent pm i j).[a])).
Proof. exact: det_horner. Qed.
(** *** verify_determinant *)
Lemma verifyE det pm up pt1 pt2 : nr pm = nc pm -> verify_determinant det pm up true pt1 pt2 =
  Ret (if up then (det_of pm).[pt1] * det.[pt2] == (det_of pm).[pt2] * det.[pt1] else (det_of pm).[pt1] == det.[pt1]).
Proof. by move=> E; rewrite /verify_determinant -E eqxx !det_ofE; case: up. Qed.

(** the right determinant is accepted for every choice of the points, and so are its constant multiples *)
Theorem C86_verify_accepts pm up pt1 pt2 (c : F) : nr pm = nc pm -> ~~ up ==> (c == 1) ->
  verify_determinant (c *: det_of pm) pm up true pt1 pt2 = Ret true.
Proof.
move=> E Hc; rewrite verifyE //; congr Ret; case: up Hc => /=; last by move/eqP->; rewrite scale1r eqxx.
by move=> _; apply/eqP; rewrite !hornerZ mulrCA [RHS]mulrCA; congr (_ * _); rewrite mulrC.
Qed.
(** a wrong determinant is refused for one of any d + 1 points, d being a bound on the degrees *)
Theorem C86_verify_refuses det pm (pts : seq F) : nr pm = nc pm -> uniq pts -> (size (det_of pm) <= size pts)%N -> (size det <= size pts)%N ->
  det != det_of pm -> exists2 pt, pt \in pts & forall pt2, verify_determinant det pm false true pt pt2 = Ret false.
Proof.
move=> E U S1 S2 N; suff /allPn[pt Hpt Npt] : ~~ all (root (det - det_of pm)) pts.
  exists pt => // pt2; rewrite verifyE //; congr Ret; apply/negbTE; apply: contraNneq Npt => Eq.
  by rewrite rootE !hornerE Eq subrr.
apply: contraNN N => H; rewrite -subr_eq0; apply/eqP; apply: roots_geq_poly_eq0 H U _.
by apply: (leq_trans (size_add _ _)); rewrite size_opp geq_max S2.
Qed.
(** up to a constant: accepted for all pairs among d + 1 points exactly when one of the polynomials is a constant multiple of the other;
    the constant may be zero *)
Theorem C86_verify_up_to_constant det pm (pts : seq F) : nr pm = nc pm -> uniq pts -> (size (det_of pm) <= size pts)%N -> (size det <= size pts)%N ->
  (forall pt1 pt2, pt1 \in pts -> pt2 \in pts -> verify_determinant det pm true true pt1 pt2 = Ret true) <->
  (exists c, det_of pm = c *: det) \/ (exists c, det = c *: det_of pm).
Proof.
move=> E U S1 S2; split; last first.
  move=> H pt1 pt2 _ _; rewrite verifyE //; congr Ret; apply/eqP.
  by case: H => -[c ->]; rewrite !hornerZ; [rewrite -!mulrA; congr (_ * _)|rewrite mulrCA [RHS]mulrCA; congr (_ * _)]; rewrite mulrC.
move=> H; case: (eqVneq det 0) => [->|N]; first by right; exists 0; rewrite scale0r.
have /allPn[b Hb Nb] : ~~ all (root det) pts.
  by apply: contraNN N => A; apply/eqP; apply: roots_geq_poly_eq0 A U _.
left; exists ((det_of pm).[b] / det.[b]); apply/eqP; rewrite -subr_eq0; apply/eqP; apply: (@roots_geq_poly_eq0 _ _ pts) => //.
  apply/allP=> a Ha; have := H a b Ha Hb; rewrite verifyE // => -[/eqP Eq].
  by rewrite rootE !hornerE mulrAC -Eq mulfK // subrr.
by apply: (leq_trans (size_add _ _)); rewrite size_opp geq_max S1; exact: leq_trans (size_scale_leq _ _) S2.
Qed.
(** hence zero is accepted for every matrix *)
Theorem C86_verify_zero_refuted pm pt1 pt2 : nr pm = nc pm -> verify_determinant 0 pm true true pt1 pt2 = Ret true.
Proof. by move=> E; rewrite verifyE // !horner0 !mulr0 eqxx. Qed.
Theorem C86_verify_deterministic_refuted det pm up pt1 pt2 : verify_determinant det pm up false pt1 pt2 = Throws.
Proof. by []. Qed.

(** *** evaluation and interpolation *)
(** the number of points: the dimension times the degree, plus one *)
Definition nb_points pm : nat := (nr pm * (plen pm).-1).+1.
Lemma points_nz pm : ~ zero_mat pm -> det_points pm = (nb_points pm)%:Z.
Proof.
move=> Z; have p0 : (0 < plen pm)%N by rewrite lt0n; apply/eqP=> /zero_plen.
by rewrite /det_points /nb_points; case: (plen pm) p0 => // d _ /=; rewrite intS [_.+1%:Z]intS addrAC subrr add0r -PoszM addrC.
Qed.
Lemma det_bound pm : nr pm = nc pm -> ~ zero_mat pm -> (size (det_of pm) <= nb_points pm)%N.
Proof.
move=> E Z; have p0 : (0 < plen pm)%N by rewrite lt0n; apply/eqP=> /zero_plen.
by apply: det_plen => //; rewrite prednK.
Qed.

Theorem C86_general fuel pm : nr pm = nc pm -> ~ zero_mat pm -> (nb_points pm <= fuel)%N ->
  distinct_points (nb_points pm) (fun i => i%:R : F) -> det_evaluation_general fuel pm = Some (AOk (det_of pm)).
Proof.
move=> E Z Hf D; rewrite /det_evaluation_general points_nz // E eqxx /= -E /get_general_points.
have n0 : (0 < nb_points pm <= fuel)%N by rewrite Hf.
have [o [-> Ev In _ _]] := C60_general_points n0 D; rewrite /=; congr (Some (AOk _)).
have [S V] := In (fun k => \det (mx_of (nr pm) (nr pm) (fun i j => gen_evaluate (gen_tree o) (ent pm i j) k))).
apply: (C60_interpolation_unique D S (det_bound E Z)) => i Hi; rewrite V // det_ofE; congr (\det _).
by apply/matrixP=> a b; rewrite !mxE Ev.
Qed.
(** the zero matrix: for the dimension 1 the construction of the points does not end, for larger dimensions it is an error *)
Theorem C86_general_zero_refuted fuel pm : nr pm = nc pm -> (0 < nr pm)%N -> zero_mat pm ->
  det_evaluation_general fuel pm = if nr pm == 1%N then None else Some AUB.
Proof.
move=> E n0 /zero_plen Z; rewrite /det_evaluation_general /det_points Z sub0r mulrN1 E eqxx orbF -E.
case: eqP => [->|/eqP N1]; first by rewrite /= /get_general_points C60_no_points_refuted.
by rewrite ifT //; lia.
Qed.
End P.

Section Geometric.
Variable F : finFieldType.
Variables (fuel MX KARX : nat) (ul : bool) (garb : nat -> F) (rnd : seq F) (feas fft : bool).
Hypothesis HK : (1 < KARX)%N.
Local Notation det_geo := (det_evaluation_geometric fuel MX KARX ul garb #|F| rnd feas fft).

Theorem C86_geometric (pm : pmat F) : nr pm = nc pm -> (0 < nr pm)%N -> ~ zero_mat pm -> points_found rnd (nb_points pm) -> (nb_points pm <= fuel)%N ->
  det_geo pm = Some (AOk (det_of pm)).
Proof.
move=> E m0 Z [H1 H2] Hf; rewrite /det_evaluation_geometric points_nz // E eqxx /= -E.
set n := nb_points pm in H1 H2 Hf *.
have p0 : (0 < plen pm)%N by rewrite lt0n; apply/eqP=> /zero_plen.
have Hd : ((plen pm).-1 < n)%N by rewrite /n /nb_points ltnS leq_pmull.
have [r [o [_ -> Ho]]] := C62_geometric_points feas fft (isT : (0 < n)%N) H1 H2.
have := prepare_ok (plen pm).-1 (at_ok Ho); rewrite Hd => -[o1 E1 Ok]; rewrite /=.
case Ep: (plen pm) p0 => [|d] // _; rewrite Ep /= in E1 Hd; rewrite E1 /= (ok_n Ok).
pose ev := geo_ev fuel MX KARX ul garb o1.
have Hev (p : {poly F}) : (size p <= n)%N -> geo_evaluate fuel MX KARX ul garb o1 p = Some (AOk (ev p)) /\
    forall i, (i < n)%N -> ev p i = p.[pt r 1 i].
  by move=> Hp; have [v [Ev Hv]] := @geo_evalP F fuel MX KARX ul garb HK r 1 n o1 p Ok Hf Hp; rewrite /ev /geo_ev Ev.
have Sp i k : (i < nr pm)%N -> (k < nr pm)%N -> (size (ent pm i k) <= n)%N.
  by move=> Hi Hk; apply: leq_trans Hd; rewrite -Ep; apply: plen_size; rewrite -?E.
have [|M [-> HM]] := @store_valsE F (geo_evaluate fuel MX KARX ul garb o1) ev n (nr pm) (nr pm) (ent pm).
  by move=> i k Hi Hk; have [] := Hev _ (Sp i k Hi Hk).
rewrite /=; congr (Some (AOk _)).
set val := fun k => _; have [S V] := geo_interpP val Ok.
apply: (@C60_interpolation_unique F n (pt r 1)) => //.
- by move=> i j Hi Hj; exact: (pt_inj Ok).
- exact: det_bound.
move=> i Hi; rewrite V // det_ofE /val; congr (\det _); apply/matrixP=> a b; rewrite !mxE HM //.
by have [_ ->] := Hev _ (Sp a b (ltn_ord a) (ltn_ord b)).
Qed.
Theorem C86_geometric_zero_refuted (pm : pmat F) : nr pm = nc pm -> (0 < nr pm)%N -> zero_mat pm -> det_geo pm = Some AUB.
Proof.
move=> E n0 /zero_plen Z; rewrite /det_evaluation_geometric /det_points Z sub0r mulrN1 E eqxx orbF -E.
case: ifP => // _; rewrite /=; case: (get_geometric_points _ _ _ _ _) => //=.
Qed.
End Geometric.

Section FFT.
Variable F : fieldType.
Variables (maxroot : nat) (x : nat -> nat -> F).

Theorem C86_fft (pm : pmat F) : nr pm = nc pm -> let k := next_pow2 (nb_points pm) in (k <= maxroot)%N -> (k < 31)%N -> fft_table (2 ^ k) (x k) ->
  det_evaluation_fft maxroot x pm = AOk (det_of pm).
Proof.
move=> E k Hk H31 [T1 T2]; rewrite /det_evaluation_fft E eqxx orbF -E; set last := _ * _.
case: (ltrP last 0) => Hl.
  have [n0 p0] : (0 < nr pm)%N /\ plen pm = 0%N.
    by move: Hl; rewrite /last; case: (nr pm) => [|n]; rewrite ?mul0r // => Hl; split=> //; move: Hl; case: (plen pm) => // u; nia.
  have Ek : next_pow2 0 = 0%N by [].
  rewrite Ek /=; congr AOk; rewrite /det_of; have /zero_plen Z := p0.
  have -> : \matrix_(i < nr pm, j < nr pm) ent pm i j = 0 by apply/matrixP=> i j; rewrite !mxE Z -?E ?ltn_ord.
  by case: (nr pm) n0 => // n _; rewrite det0.
have En : `|last|.+1 = nb_points pm.
  rewrite /nb_points; move: Hl; rewrite /last; case: (plen pm) => [|d] Hl; last by rewrite intS addrAC subrr add0r -PoszM absz_nat.
  by move: Hl; case: (nr pm) => [|n] Hl; rewrite ?mul0r // ?muln0; exfalso; move: Hl; rewrite sub0r mulrN1; lia.
rewrite En -/k ltnNge Hk leqNgt H31 /=; congr AOk; set n := nb_points pm in k Hk H31 T1 T2 En *.
have nk : (n <= 2 ^ k)%N by apply: up_logP.
have FR v i : (i < 2 ^ k)%N -> (from_rep (2 ^ k) (x k) v).[x k i] = v i.
  case Ek: k T1 T2 => [|k'] T1' T2' Hi; last by apply: from_repP.
  have -> : i = 0%N by move: Hi; rewrite expn0; lia.
  by rewrite /from_rep expn0 horner_poly !big_ord1 !expr0 !mulr1 invr1 mul1r.
have -> : from_rep (2 ^ k) (x k) (fun l => \det (mx_of (nr pm) (nr pm) (fun i j => to_rep (x k) (ent pm i j) l))) = det_of pm.
  have D : distinct_points (2 ^ k) (x k) by [].
  apply: (C60_interpolation_unique D) => [|| i Hi].
  - exact: size_poly.
  - by apply: leq_trans nk; apply: det_size => i j; rewrite mxE; apply: leq_trans (leqSpred _); apply: plen_size; rewrite -?E ltn_ord.
  by rewrite FR // det_ofE.
apply/polyP=> i; rewrite coef_poly; case: ltnP => // Hi; rewrite nth_default //; apply: leq_trans Hi.
by apply: det_size => a b; rewrite mxE; apply: leq_trans (leqSpred _); apply: plen_size; rewrite -?E ltn_ord.
Qed.
End FFT.

(** *** determinant_generic_knowing_degree *)
Section Generic.
Variable F : fieldType.
Implicit Types (pm : pmat F) (x : {poly F}).

Theorem C86_generic_small pmb mul fuel x pm degree : nr pm = nc pm -> (0 < nr pm <= 4)%N ->
  generic_knowing_degree pmb mul fuel x pm degree = Ret (degree == (size (det_of pm))%:Z - 1, det_of pm).
Proof.
move=> E H; case/andP: (H) => _ H4; have X := C86_expansion x E H.
by case: fuel => [|f]; cbn [generic_knowing_degree]; rewrite H4 X.
Qed.

(** the function returns true with the degree of the determinant, but the polynomial is not a constant multiple of the determinant: the rows
    (1 0 0 0 0), (0 0 X+1 0 0), (0 1 1 0 0), (0 0 0 1 0), (0 0 0 0 1) *)
Theorem C86_generic_refuted ker img mid mul fuel x : kernel_ok ker -> image_ok img -> mul_right mul ->
  (size (det_of (cx F)))%:Z - 1 = 1 /\
  exists2 d, generic_knowing_degree (pmbasis ker img mid mul) mul fuel.+1 x (cx F) 1 = Ret (true, d) & forall c, d <> c *: det_of (cx F).
Proof.
move=> KO IO MR; have D : det_of (cx F) = - ('X + 1) := cx_det F; split.
  by rewrite D size_opp -[1]/(1%:P) size_XaddC.
have [c0 N ->] := cx_generic mid fuel x KO IO MR; exists (c0 *: 'X) => // c; rewrite D => /(congr1 (fun q : {poly F} => q.[-1])).
by rewrite !hornerE addNr oppr0 mulr0 mulrN1 => /eqP; rewrite oppr_eq0 (negbTE N).
Qed.

(** undefined behaviour when the left columns are zero, instead of the value false or the determinant zero *)
Theorem C86_generic_zero_columns_refuted ker img mid mul fuel x pm degree : (4 < nr pm)%N -> nr pm = nc pm ->
  (forall i j, (i < nr pm)%N -> (j < (nr pm)./2)%N -> ent pm i j = 0) ->
  generic_knowing_degree (pmbasis ker img mid mul) mul fuel x pm degree = Undef.
Proof.
move=> n4 E Z; case: fuel => [|f]; cbn [generic_knowing_degree]; rewrite leqNgt n4 //=.
have p0 : plen (take_cols pm 0 (nr pm)./2) = 0%N by apply/zero_plen => i j Hi Hj; rewrite /= add0n Z.
rewrite p0; set c := (nr pm)./2; have c0 : (0 < c <= nr pm - c)%N by rewrite /c; lia.
case: ltrP => // o0; suff o1 : generic_order (nr pm) c 0 = 0 by rewrite o1 /pmbasis /pmbasis_rec /= C82_order0_refuted //= -/c addn1.
move: o0; rewrite /generic_order sub0r mulrN1 opprK; have := divz_ge0 c (_ : 0 < (nr pm - c)%:Z :> int).
by move: (_ %/ _)%Z => u H1 H2; have := H1 _; rewrite ltz_nat; lia.
Qed.
End Generic.

(** a 2 x 2 matrix of degree 1 modulo 17: the four functions return its determinant, X *)
Example C86_met :
  let pm := Pmat 2 2 (fun i j => 'X + (i * j)%:R : {poly 'F_17}) in
  [/\ det_of pm = 'X, expansion_by_minors 0 pm = 'X /\ expansion_rec 1 pm = Ret 'X, det_evaluation_general 3 pm = Some (AOk 'X),
      det_evaluation_geometric 3 16 16 false (fun _ => 0) #|[finFieldType of 'F_17]| [:: 3%:R] true true pm = Some (AOk 'X)
    & det_evaluation_fft 4 (fun _ i => 4%:R ^+ i) pm = AOk 'X].
Proof.
move=> pm.
have E (n : nat) : (n%:R : {poly 'F_17}) = (n%:R)%:P by rewrite polyCMn.
have S i j : size (ent pm i j) = 2%N by rewrite /= E size_XaddC.
have N : ~ zero_mat pm by move=> /(_ 0%N 0%N isT isT) Z; have := S 0%N 0%N; rewrite Z size_poly0.
have L : plen pm = 2%N.
  by apply/eqP; rewrite eqn_leq; apply/andP; split; [apply/plenP=> i j _ _; rewrite S|have := @plen_size _ pm 0 0 isT isT; rewrite S].
have np : nb_points pm = 3%N by rewrite /nb_points L.
have D : det_of pm = 'X.
  rewrite -(C86_expansion 0 (erefl : nr pm = nc pm) isT) /expansion_by_minors /= !addr0 -mulrBr; have -> : 'X + 1 - 'X = 1 :> {poly 'F_17} by rewrite addrAC subrr add0r.
  by rewrite mulr1.
split=> //.
- by split; [rewrite C86_expansion|rewrite C86_expansion_rec // D].
- by rewrite C86_general ?D ?np //; exact: C60_default_points.
- rewrite C86_geometric ?D ?np //; split; first by rewrite card_Fp.
  exists 3%:R; first by rewrite mem_head.
  split=> // i Hi; apply/eqP=> /(congr1 (fun x : 'F_17 => x : nat)); rewrite -natrX val_Fp_nat //.
  by case: i Hi => [|[|[|[|[|[|i]]]]]].
rewrite C86_fft ?D // np; split=> //.
- move=> i _; rewrite exprAC.
  have -> : (4%:R : 'F_17) ^+ (2 ^ next_pow2 3) = 1 by apply/val_inj; rewrite -natrX; apply: etrans (val_Fp_nat _ _) _.
  by rewrite expr1n.
pose x (i : nat) : 'F_17 := 4%:R ^+ i.
have V (i : nat) : val (x i) = (4 ^ i %% 17)%N by rewrite /x -natrX; exact: val_Fp_nat.
by move=> i j Hi Hj; rewrite -!/(x _) => /(congr1 val); rewrite !V; move: i j Hi Hj => [|[|[|[|i]]]] [|[|[|[|j]]]].
Qed.
(** the hypotheses of C86_generic_refuted are met over every field by kernel and image functions (C81_contracts) and the product of the definition *)
Example C86_generic_met (F : fieldType) : exists ker img, [/\ @kernel_ok F ker, @image_ok F img & mul_right (@plain_mul F)].
Proof. by have [ker [img [KO IO _ _]]] := C81_contracts F; exists ker, img; split=> //; have [] := C85_sound_met KO IO. Qed.
Print Assumptions C86_expansion.
Print Assumptions C86_expansion_rec.
Print Assumptions C86_expansion_refuted.
Print Assumptions C86_expansion_rec_refuted.
Print Assumptions C86_verify_accepts.
Print Assumptions C86_verify_refuses.
Print Assumptions C86_verify_up_to_constant.
Print Assumptions C86_verify_zero_refuted.
Print Assumptions C86_verify_deterministic_refuted.
Print Assumptions C86_general.
Print Assumptions C86_general_zero_refuted.
Print Assumptions C86_geometric.
Print Assumptions C86_geometric_zero_refuted.
Print Assumptions C86_fft.
Print Assumptions C86_generic_small.
Print Assumptions C86_generic_refuted.
Print Assumptions C86_generic_zero_columns_refuted.
