(** Waksman's product, the multiplication dispatch and the middle products. *)
From mathcomp Require Import all_ssreflect all_algebra zify.
From Verif Require Import A_base A_ring A_matpoly_model A_nullspace2_proof A_matpoly_proof A_mul_model A_mul_proof.
Set Implicit Arguments.
Unset Strict Implicit.
Unset Printing Implicit Defensive.
Import GRing.Theory Num.Theory.
Local Open Scope ring_scope.

Section Waksman.
Variable R : comRingType.
Implicit Types A B : fmat {poly R}.

Definition wal A np l : {poly R} := \sum_(j < np) A l (2 * j)%N * A l (2 * j).+1.
Definition wbe B np k : {poly R} := \sum_(j < np) B (2 * j).+1 k * B (2 * j)%N k.
Definition wga A B np l k : {poly R} :=
  \sum_(j < np) (A l (2 * j)%N * B (2 * j)%N k + A l (2 * j).+1 * B (2 * j).+1 k).

Lemma wak_fold A B np :
  let st := foldl (wak_step A B) (fzero, (fun _ => 0), (fun _ => 0)) (iota 1 np) in
  [/\ forall l k, st.1.1 l k = wal A np l + wbe B np k + wga A B np l k,
      forall k, st.1.2 k = wal A np 0 + wbe B np k - wga A B np 0 k &
      forall l, st.2 l = wal A np l + wbe B np 0 - wga A B np l 0].
Proof.
elim: np => [|np [IH1 IH2 IH3]].
  by split=> *; rewrite /wal /wbe /wga !big_ord0 ?subr0 !addr0.
cbv zeta; rewrite iota_rcons foldl_rcons add1n.
move: IH1 IH2 IH3; case: (foldl _ _ _) => [[C Crow] Ccol] /= IH1 IH2 IH3.
have -> : (np.+1 * 2 - 1 = (2 * np).+1)%N by lia.
rewrite subn1 /=.
split=> *; rewrite ?IH1 ?IH2 ?IH3 ?wak_minus ?wak_plus /wal /wbe /wga !big_ord_recr /=;
  first [exact: wak_acc | exact: wak_accN].
Qed.

Lemma fmul_pairs n A B l k :
  fmul n A B l k = wga A B (n %/ 2) l k + (if odd n then A l n.-1 * B n.-1 k else 0).
Proof.
have H np : \sum_(j < 2 * np) A l j * B j k = wga A B np l k.
  elim: np => [|np IH]; first by rewrite /wga !big_ord0.
  by rewrite mulnS add2n !big_ord_recr /= IH /wga big_ord_recr /= addrA.
have G (b : bool) np : \sum_(j < b + 2 * np) A l j * B j k
    = wga A B np l k + (if b then A l (2 * np)%N * B (2 * np)%N k else 0).
  by case: b; rewrite ?add1n ?add0n ?big_ord_recr /= H ?addr0.
have E : (odd n + 2 * (n %/ 2) = n)%N by rewrite mul2n divn2 odd_double_half.
have := G (odd n) (n %/ 2)%N; rewrite E /fmul => ->; congr (_ + _).
by case: ifP E => // _ E; have -> : n.-1 = (2 * (n %/ 2))%N by lia.
Qed.

Lemma half_odd modn : (modn%:R : R) = 0 -> odd modn ->
  (2%:R : R) * ((modn + 1) %/ 2)%N%:R = 1.
Proof.
move=> Hc O; rewrite -natrM mulnC divnK; last by rewrite dvdn2 addn1 /= O.
by rewrite natrD Hc add0r.
Qed.

Lemma mul_waksman_ringP modn m n p A B l k : (modn%:R : R) = 0 -> odd modn ->
  (l < m)%N -> (k < p)%N -> mul_waksman modn m n p A B l k = fmul n A B l k.
Proof.
move=> Hc N2 Hl Hk; rewrite /mul_waksman; case: ifP => Z.
  have -> : n = 0%N by lia.
  by rewrite /fmul big_ord0.
have := wak_fold A B (n %/ 2); case: (foldl _ _ _) => [[C Crow] Ccol] [H1 H2 H3].
rewrite /fst /snd in H1 H2 H3.
have half (x : {poly R}) : ((modn + 1) %/ 2)%N%:R *: (x + x) = x.
  by rewrite -mulr2n -scaler_nat scalerA mulrC half_odd // scale1r.
set np := (n %/ 2)%N in H1 H2 H3 *.
have Ecol l0 : ((modn + 1) %/ 2)%N%:R *: (Ccol l0 + C l0 0%N) = wal A np l0 + wbe B np 0.
  by rewrite H1 H3 wak_half half.
have Erow k0 : ((modn + 1) %/ 2)%N%:R *: (Crow k0 + C 0%N k0) = wal A np 0 + wbe B np k0.
  by rewrite H1 H2 wak_half half.
rewrite fmul_pairs -/np.
have E3 : wak_finish ((modn + 1) %/ 2)%N%:R (C, Crow, Ccol) l k = wga A B np l k.
  rewrite /wak_finish; case: (posnP k) => [->|k0] /=.
    case: (posnP l) => [->|l0] /=.
      by rewrite Erow H1 add_sub.
    by rewrite Ecol H1 add_sub.
  case: (posnP l) => [->|l0] /=.
    by rewrite Erow H1 add_sub.
  rewrite !Erow Ecol H1.
  exact: wak_final.
case: ifP => _; last by rewrite addr0 E3.
by rewrite E3 subn1.
Qed.
End Waksman.

Section Mulmid.
Variable F : fieldType.
Implicit Types A B : fmat {poly F}.

Lemma odd_char modn : modn \in [char F] -> modn != 2%N -> odd modn.
Proof.
by move=> Hc N2; case: (even_prime (charf_prime Hc)) => // E; rewrite E in N2.
Qed.

Lemma mul_waksmanP modn m n p A B l k : modn \in [char F] -> can_use_waksman modn ->
  (l < m)%N -> (k < p)%N -> mul_waksman modn m n p A B l k = fmul n A B l k.
Proof.
by move=> Hc N2; apply: mul_waksman_ringP; [exact: charf0 | exact: odd_char].
Qed.

Lemma pm_multiplyP modn m n p A B i j : modn \in [char F] -> (i < m)%N -> (j < p)%N ->
  pm_multiply modn m n p A B i j = fmul n A B i j.
Proof.
move=> Hc Hi Hj; rewrite /pm_multiply.
set l1 := pm_max_length m n A; set l2 := pm_max_length n p B.
case: ifP => Z; first by rewrite (fmul_zero (m := m) (p := p)).
case: ifP => // C.
have W : (if can_use_waksman modn then mul_waksman modn m n p A B else fmul n A B) i j = fmul n A B i j.
  by case: ifP => // W; exact: mul_waksmanP.
have V : can_use_vandermonde2 modn (l1 + l2 - 1) ->
    mul_vandermonde2 m n p A B i j = fmul n A B i j.
  by move=> V; apply: (mul_vandermonde2P (modn := modn)) => //; move: V; rewrite /can_use_vandermonde2; lia.
case: ifP => _.
  case: ifP => [/andP[G _]|_]; first exact: mul_geometricP.
  by case: ifP.
case: ifP => _; first by case: ifP => [/andP[/V]|].
case: ifP => _; first by case: ifP => [/andP[/V]|].
exact: W.
Qed.

(** coefficients nlo .. nhi-1 *)
Definition midp (nlo nhi : nat) (p : {poly F}) : {poly F} := \poly_(k < nhi - nlo) p`_(nlo + k).

Lemma coef_pshr d (p : {poly F}) k : (pshr d p)`_k = p`_(d + k).
Proof.
rewrite coef_poly; case: ltnP => // H; rewrite nth_default //.
by rewrite -leq_subLR.
Qed.

Lemma size_pshr d (p : {poly F}) : (size (pshr d p) <= size p - d)%N.
Proof. exact: size_poly. Qed.

Lemma midp_naive nlo nhi p : ptrunc (nhi - nlo) (pshr nlo p) = midp nlo nhi p.
Proof. by apply/polyP=> k; rewrite [LHS]coef_poly [RHS]coef_poly coef_pshr. Qed.

Lemma midp_out nlo nhi p : (nhi <= nlo)%N -> midp nlo nhi p = 0.
Proof.
move=> H; apply/polyP=> k; rewrite coef_poly coef0.
by case: ltnP => //; lia.
Qed.

(** the transposed interpolation *)
Lemma vdm_interp n (x : nat -> F) (v : nat -> F) k : distinct n x -> (k < n)%N ->
  \sum_(t < n) x k ^+ t * fmul n (finv n (vdm x)) (fun k _ => v k) t 0%N = v k.
Proof.
move=> D Hk; have U := vdm_unit D.
pose b : 'cV[F]_n := \col_k v k.
have := mulKVmx U b => /colP /(_ (Ordinal Hk)); rewrite [RHS]mxE /= => E; rewrite -[RHS]E mxE.
apply: eq_bigr => t _; rewrite mx_ofE [in RHS]mxE; congr (_ * _).
by apply: eq_bigr => l _; rewrite finvE mxE.
Qed.

Lemma mid_scalar (q : F) nlo nhi (a b : {poly F}) k : distinct nhi (fun k => q ^+ k) ->
  (size a <= nlo.+1)%N -> (k < nhi - nlo)%N ->
  \sum_(t < nhi) (eval_geom q (preverse nlo.+1 a) t *
     interp_geom q nhi (fun t => if (t < minn nhi (size b))%N then b`_t else 0) t) * (q ^+ k) ^+ t
  = (a * b)`_(nlo + k).
Proof.
move=> D Ha Hk.
have Hb t : (t < nhi)%N -> (if (t < minn nhi (size b))%N then b`_t else 0) = b`_t.
  by move=> Ht; case: ltnP => // H; rewrite nth_default //; move: H; rewrite geq_min leqNgt Ht.
set v := fun t : nat => if (t < minn nhi (size b))%N then b`_t else 0.
set y := interp_geom q nhi v.
have Hy c : (c < nhi)%N -> \sum_(t < nhi) (q ^+ c) ^+ t * y t = b`_c.
  by move=> Hc; rewrite -Hb //; exact: (vdm_interp v D Hc).
transitivity (\sum_(t < nhi) \sum_(c < nlo.+1) a`_(nlo - c) * ((q ^+ (c + k)) ^+ t * y t)).
  apply: eq_bigr => t _; rewrite /eval_geom /preverse horner_poly -mulrA mulr_suml.
  apply: eq_bigr => c _; rewrite /= -mulrA; congr (_ * _).
  rewrite -!exprM mulnDl exprD [y t * _]mulrC mulrA.
  by rewrite [(t * c)%N]mulnC.
rewrite exchange_big /= coefM.
transitivity (\sum_(c < nlo.+1) a`_(nlo - c) * b`_(c + k)).
  apply: eq_bigr => c _; rewrite -mulr_sumr; congr (_ * _); apply: Hy.
  by have := ltn_ord c; lia.
rewrite -(big_mkord predT (fun c => a`_c * b`_(nlo + k - c))).
rewrite (@big_cat_nat _ _ _ nlo.+1) //=; last by lia.
have -> : \sum_(nlo.+1 <= c < (nlo + k).+1) a`_c * b`_(nlo + k - c) = 0.
  rewrite big_nat_cond big1 // => c /andP[/andP[Hc _] _].
  rewrite nth_default ?mul0r //; exact: leq_trans Hc.
rewrite addr0.
rewrite big_mkord (reindex_inj rev_ord_inj) /=; apply: eq_bigr => c _.
have := ltn_ord c => Hc; congr (_`_ _ * _`_ _); lia.
Qed.

Lemma mulmid_geometric1P n A B nlo nhi q i j : distinct nhi (fun k => q ^+ k) ->
  (forall l, (l < n)%N -> (size (A i l) <= nlo.+1)%N) ->
  mulmid_geometric1 n A B nlo nhi q i j = midp nlo nhi (fmul n A B i j).
Proof.
move=> D HA; apply/polyP=> k; rewrite !coef_poly; case: ltnP => // Hk.
rewrite {1}/eval_geom horner_poly /fmul coef_sum.
rewrite (eq_bigr _ (fun t _ => mulr_suml _ _ _ _)).
rewrite exchange_big /=; apply: eq_bigr => l _.
by rewrite -(mid_scalar (B l j) D (HA l (ltn_ord l)) Hk).
Qed.

Lemma mulmid_geometric2P n A B nlo nhi q i j : distinct nhi (fun k => q ^+ k) ->
  (forall l, (l < n)%N -> (size (B l j) <= nlo.+1)%N) ->
  mulmid_geometric2 n A B nlo nhi q i j = midp nlo nhi (fmul n A B i j).
Proof.
move=> D HB; apply/polyP=> k; rewrite !coef_poly; case: ltnP => // Hk.
rewrite {1}/eval_geom horner_poly /fmul coef_sum.
rewrite (eq_bigr _ (fun t _ => mulr_suml _ _ _ _)).
rewrite exchange_big /=; apply: eq_bigr => l _.
rewrite mulrC -(mid_scalar (A i l) D (HB l (ltn_ord l)) Hk).
by apply: eq_bigr => t _; rewrite [X in X * _]mulrC.
Qed.

Definition len_ok m n A len := forall i j, (i < m)%N -> (j < n)%N -> (size (A i j) <= len)%N.

Lemma fmul_len0 m n p A B len1 len2 i j : len_ok m n A len1 -> len_ok n p B len2 ->
  (i < m)%N -> (j < p)%N -> (len1 == 0%N) || (len2 == 0%N) -> fmul n A B i j = 0.
Proof.
move=> H1 H2 Hi Hj /orP[]/eqP E; apply: big1 => l _.
  suff -> : A i l = 0 by rewrite mul0r.
  by apply/eqP; rewrite -size_poly_eq0 -leqn0 -E H1.
suff -> : B l j = 0 by rewrite mulr0.
by apply/eqP; rewrite -size_poly_eq0 -leqn0 -E H2.
Qed.

Lemma midp0 nlo nhi : midp nlo nhi 0 = 0.
Proof. by apply/polyP=> k; rewrite coef_poly !coef0; case: ifP. Qed.

Lemma mulmid_naiveP modn m n p A len1 B len2 nlo nhi i j : modn \in [char F] ->
  len_ok m n A len1 -> len_ok n p B len2 -> (i < m)%N -> (j < p)%N ->
  mulmid_naive modn m n p A len1 B len2 nlo nhi i j = midp nlo nhi (fmul n A B i j).
Proof.
move=> Hc H1 H2 Hi Hj; rewrite /mulmid_naive; case: ifP => [/or3P C|_].
  have [Z|Z] : (len1 == 0%N) || (len2 == 0%N) \/ (nhi <= nlo)%N.
    by case: C => ->; [left | left; rewrite orbT | right].
  - by rewrite (fmul_len0 H1 H2) // midp0.
  - by rewrite midp_out.
by rewrite /pm_trunc /pm_shr pm_multiplyP // midp_naive.
Qed.

Lemma mulmid_geometricP modn m n p A len1 B len2 nlo nhi i j : modn \in [char F] ->
  can_use_geometric modn nhi -> (nlo < nhi)%N ->
  (len1 <= nlo.+1)%N || (len2 <= nlo.+1)%N ->
  len_ok m n A len1 -> len_ok n p B len2 -> (i < m)%N -> (j < p)%N ->
  mulmid_geometric modn n A len1 B len2 nlo nhi i j = midp nlo nhi (fmul n A B i j).
Proof.
move=> Hc G Hn HL H1 H2 Hi Hj; rewrite /mulmid_geometric /mulmid_geometric_precomp.
case: ifP => Z; first by rewrite (fmul_len0 H1 H2) // midp0.
have D : distinct nhi (fun k => (find_root F modn (2 * nhi) ^+ 2) ^+ k).
  by apply: find_root_distinct => //; move: G; rewrite /can_use_geometric; lia.
rewrite Z; case: ifP => C.
  by apply: mulmid_geometric1P => // l Hl; apply: leq_trans C; exact: H1.
rewrite C /= in HL; apply: mulmid_geometric2P => // l Hl; apply: leq_trans HL; exact: H2.
Qed.

Lemma mulmid_rawP v36 modn m n p A len1 B len2 nlo nhi i j : modn \in [char F] ->
  len_ok m n A len1 -> len_ok n p B len2 -> (i < m)%N -> (j < p)%N ->
  mulmid_raw v36 modn m n p A len1 B len2 nlo nhi i j = midp nlo nhi (fmul n A B i j).
Proof.
move=> Hc H1 H2 Hi Hj; rewrite /mulmid_raw; case: ifP => [/or3P C|C].
  have [Z|Z] : (len1 == 0%N) || (len2 == 0%N) \/ (nhi <= nlo)%N.
    by case: C => ->; [left | left; rewrite orbT | right].
  - by rewrite (fmul_len0 H1 H2) // midp0.
  - by rewrite midp_out.
case: ifP => [/and4P[_ G _ L]|_]; last exact: mulmid_naiveP.
by apply: (mulmid_geometricP (m := m) (p := p)) => //; lia.
Qed.

Lemma len_ok_max m n A : len_ok m n A (pm_max_length m n A).
Proof. by move=> i j; exact: pm_max_lengthP. Qed.

Lemma size_ptrunc d (p : {poly F}) : (size (ptrunc d p) <= d)%N.
Proof. exact: size_poly. Qed.

Lemma coef_ptrunc d (p : {poly F}) k : (ptrunc d p)`_k = if (k < d)%N then p`_k else 0.
Proof. by rewrite coef_poly. Qed.

Lemma pm_max_trunc m n A d : (pm_max_length m n (pm_trunc d A) <= d)%N.
Proof. by apply/bigmax_leqP=> i _; apply/bigmax_leqP=> j _; exact: size_ptrunc. Qed.

Lemma midp_eq nlo nhi (p q : {poly F}) :
  (forall k, (k < nhi)%N -> p`_k = q`_k) -> midp nlo nhi p = midp nlo nhi q.
Proof.
move=> H; apply/polyP=> k; rewrite !coef_poly; case: ltnP => // Hk; apply: H; lia.
Qed.

Lemma coefM_trunc (a b a' b' : {poly F}) d k : (k < d)%N ->
  (forall i, (i < d)%N -> a`_i = a'`_i) -> (forall i, (i < d)%N -> b`_i = b'`_i) ->
  (a * b)`_k = (a' * b')`_k.
Proof.
move=> Hk Ha Hb; rewrite !coefM; apply: eq_bigr => i _.
have := ltn_ord i => Hi; rewrite Ha ?Hb //; lia.
Qed.

Lemma fmul_coef_eq n A A' B B' d i j k : (k < d)%N ->
  (forall l c, (l < n)%N -> (c < d)%N -> (A i l)`_c = (A' i l)`_c) ->
  (forall l c, (l < n)%N -> (c < d)%N -> (B l j)`_c = (B' l j)`_c) ->
  (fmul n A B i j)`_k = (fmul n A' B' i j)`_k.
Proof.
move=> Hk HA HB; rewrite !coef_sum; apply: eq_bigr => l _.
by apply: (coefM_trunc Hk) => c Hc; [apply: HA | apply: HB].
Qed.

(** shifting away the low coefficients of the long operand *)
Lemma mid_shr (a b : {poly F}) len nlo k : (size a <= len)%N -> (0 < len <= nlo)%N ->
  (a * pshr (nlo - len + 1) b)`_(len - 1 + k) = (a * b)`_(nlo + k).
Proof.
move=> Ha Hl; rewrite !coefM.
rewrite -(big_mkord predT (fun c => a`_c * (pshr (nlo - len + 1) b)`_(len - 1 + k - c))).
rewrite -(big_mkord predT (fun c => a`_c * b`_(nlo + k - c))).
rewrite (@big_cat_nat _ _ _ (len - 1 + k).+1 0 (nlo + k).+1) //=; last by lia.
have -> : \sum_((len - 1 + k).+1 <= c < (nlo + k).+1) a`_c * b`_(nlo + k - c) = 0.
  rewrite big_nat_cond big1 // => c /andP[/andP[Hc _] _].
  rewrite nth_default ?mul0r //; apply: leq_trans Ha _; lia.
rewrite addr0.
rewrite big_nat_cond [RHS]big_nat_cond; apply: eq_bigr => c /andP[/andP[_ Hc] _].
rewrite coef_pshr; congr (_ * _`_ _); lia.
Qed.

Theorem mulmid_recP v36 modn m n p fuel A B nlo nhi : modn \in [char F] ->
  (let l1 := pm_max_length m n A in let l2 := pm_max_length n p B in
   let h := minn nhi (l1 + l2 - 1) in
   fuel > if (l1 == 0) || (l2 == 0) then 0 else (h < l1) + (h < l2))%N ->
  exists2 R, mulmid_rec fuel v36 modn m n p A B nlo nhi = AOk R &
    forall i j, (i < m)%N -> (j < p)%N -> R i j = midp nlo nhi (fmul n A B i j).
Proof.
move=> Hc; elim: fuel A B nhi => [|fuel IH] A B nhi Hf /=; first by [].
rewrite /= in Hf.
set l1 := pm_max_length m n A in Hf *; set l2 := pm_max_length n p B in Hf *.
set h := minn nhi (l1 + l2 - 1) in Hf *.
have Eh i j : (i < m)%N -> (j < p)%N -> midp nlo nhi (fmul n A B i j) = midp nlo h (fmul n A B i j).
  move=> Hi Hj; apply/polyP=> k; rewrite !coef_poly /h.
  case: ltnP => H3; case: ltnP => H4 //; last by lia.
  rewrite nth_default //; apply: leq_trans (fmul_size n A B Hi Hj) _.
  by rewrite -/l1 -/l2; lia.
case: ifP => [/or3P C|C].
  exists fzero => // i j Hi Hj; rewrite Eh //.
  have [Z|Z] : (l1 == 0%N) || (l2 == 0%N) \/ (h <= nlo)%N.
    by case: C => ->; [left | left; rewrite orbT | right].
  - by rewrite (fmul_zero (m := m) (p := p)) // midp0.
  - by rewrite midp_out.
have {Hf} Hf : (fuel.+1 > (h < l1) + (h < l2))%N by move: Hf; case: ifP => //; lia.
case: (ltnP h l1) => L1.
  have T1 := pm_max_trunc m n A h; set l1' := pm_max_length m n (pm_trunc h A) in T1.
  have [|R -> HR] := IH (pm_trunc h A) B h; first by rewrite /= -/l1' -/l2; case: ifP => Z'; lia.
  exists R => // i j Hi Hj; rewrite Eh // HR //; apply: midp_eq => k Hk.
  apply: (fmul_coef_eq Hk) => // l c Hl Hc'; by rewrite coef_ptrunc Hc'.
case: (ltnP h l2) => L2.
  have T2 := pm_max_trunc n p B h; set l2' := pm_max_length n p (pm_trunc h B) in T2.
  have [|R -> HR] := IH A (pm_trunc h B) h; first by rewrite /= -/l1 -/l2'; case: ifP => Z'; lia.
  exists R => // i j Hi Hj; rewrite Eh // HR //; apply: midp_eq => k Hk.
  apply: (fmul_coef_eq Hk) => // l c Hl Hc'; by rewrite coef_ptrunc Hc'.
have Hl1 := @len_ok_max m n A; have Hl2 := @len_ok_max n p B.
rewrite -/l1 in Hl1; rewrite -/l2 in Hl2.
case: ifP => C1.
  eexists; first by reflexivity.
  move=> i j Hi Hj; rewrite Eh // mulmid_rawP //; last first.
    move=> a b Ha Hb; apply: leq_trans (size_pshr _ _) _.
    by have := Hl2 a b Ha Hb => Hs; apply: leq_trans (leq_sub2r _ Hs) _; lia.
  apply/polyP=> k; rewrite !coef_poly.
  have -> : (h - nlo + l1 - 1 - (l1 - 1) = h - nlo)%N by lia.
  case: ifP => // Hk; rewrite !coef_sum; apply: eq_bigr => l _.
  by apply: mid_shr; [exact: Hl1 | lia].
case: ifP => C2.
  eexists; first by reflexivity.
  move=> i j Hi Hj; rewrite Eh // mulmid_rawP //; last first.
    move=> a b Ha Hb; apply: leq_trans (size_pshr _ _) _.
    by have := Hl1 a b Ha Hb => Hs; apply: leq_trans (leq_sub2r _ Hs) _; lia.
  apply/polyP=> k; rewrite !coef_poly.
  have -> : (h - nlo + l2 - 1 - (l2 - 1) = h - nlo)%N by lia.
  case: ifP => // Hk; rewrite !coef_sum; apply: eq_bigr => l _.
  by rewrite mulrC [in RHS]mulrC; apply: mid_shr; [exact: Hl2 | lia].
eexists; first by reflexivity.
by move=> i j Hi Hj; rewrite Eh // mulmid_rawP.
Qed.

Theorem mulmidP v36 modn m n p A B nlo nhi : modn \in [char F] ->
  exists2 R, mulmid v36 modn m n p A B nlo nhi = AOk R &
    forall i j, (i < m)%N -> (j < p)%N -> R i j = midp nlo nhi (fmul n A B i j).
Proof. by move=> Hc; apply: mulmid_recP => //=; case: ifP => Z; lia. Qed.
End Mulmid.
