(** Property C68: products of matrices of polynomials by evaluation and interpolation (ntl-extras). *)
From mathcomp Require Import all_ssreflect all_fingroup all_algebra all_field zify.
From Verif Require Import A_base A_mul_model A_mul_proof N_shift_proof N_multi_model N_multi_proof N_pmat_model.
From Verif Require Import N_trs_proof N_util_model N_util_proof N_geo2_proof N_eval_model N_eval_proof P_ntrs.
From Verif Require Import N_poly_model N_mid_model N_geo_model N_geo_proof N_geo3_proof P_ngeo P_nord.
Set Implicit Arguments.
Unset Strict Implicit.
Unset Printing Implicit Defensive.
Import GRing.Theory.
Local Open Scope ring_scope.

Section C68.
Variable F : fieldType.
Local Notation P := {poly F}.
Implicit Types a b : pmat F.

Lemma prod_size a b i j : (nc a <= nr b)%N -> (i < nr a)%N -> (j < nc b)%N ->
  (size (\sum_(k < nc a) ent a i k * ent b k j)%R <= plen a + plen b - 1)%N.
Proof.
move=> E Hi Hj; apply: (leq_trans (size_sum _ _ _)); apply/bigmax_leqP=> k _.
have Hk : (k < nr b)%N := leq_trans (ltn_ord k) E.
case: (eqVneq (ent a i k) 0) => [->|NA]; first by rewrite mul0r size_poly0.
case: (eqVneq (ent b k j) 0) => [->|NB]; first by rewrite mulr0 size_poly0.
rewrite size_mul // -subn1; apply: leq_sub2r; apply: leq_add; exact: plen_size.
Qed.

Lemma denseE a b : (nc a <= nr b)%N -> (0 < plen a)%N -> (0 < plen b)%N ->
  distinct (plen a + plen b - 1) (fun i => i%:R : F) -> product_of a b (multiply_evaluate_dense a b).
Proof.
move=> E a0 b0 D; rewrite /multiply_evaluate_dense !eqn0Ngt a0 b0 ltnNge E /=.
set nb := (_ - 1)%N in D *; have n0 : (0 < nb)%N by rewrite /nb; lia.
have HV := @vandermondeE F (plen a) (plen b) nb n0; have HI := inv_vdm D HV.
case: (vandermonde _ _ _ _) HV HI => [[V vA] vB] HV HI; rewrite HI.
set tA := foldl _ _ (iota 0 (nr a)).
set tA' := (if (_ == _) then tA else _).
set tB := foldl _ tA' (iota 0 (nc a)).
set st := foldl _ _ (iota 0 nb).
have HtA k u l : (u < nr a)%N -> (l < nc a)%N -> tA k (u * nc a + l)%N = (ent a u l)`_k.
  move=> Hu Hl; rewrite /tA (@flat_cols _ _ (fun M : fmat F => M k)
    (fun i j M => foldl (fun M k => upd2 M k (i * nc a + j) (ent a i j)`_k) M (iota 0 (size (ent a i j))))
    (fun i j x => if (k < size (ent a i j))%N then (ent a i j)`_k else x)); last first.
    by move=> i j M c _ _; rewrite col_upd add0n /=; case: eqP.
  rewrite col_lt //; have [-> ->] := divmod_col u Hl.
  by case: ltnP => // Hs; rewrite nth_default.
have tA0 k c : (plen a <= k)%N -> tA k c = 0.
  move=> Hk; rewrite /tA (@flat_cols _ _ (fun M : fmat F => M k)
    (fun i j M => foldl (fun M k => upd2 M k (i * nc a + j) (ent a i j)`_k) M (iota 0 (size (ent a i j)))) (fun i j x => x)).
    by rewrite if_same.
  move=> i j M c' Hi Hj; rewrite col_upd if_same ifF //.
  by apply/negbTE; rewrite negb_and -leqNgt add0n (leq_trans (plen_size Hi Hj) Hk) orbT.
have HtB k l v : (k < plen b)%N -> (l < nc a)%N -> (v < nc b)%N -> tB k (l * nc b + v)%N = (ent b l v)`_k.
  move=> Hk Hl Hv; rewrite /tB (@flat_cols _ _ (fun M : fmat F => M k)
    (fun i j M => foldl (fun M k => upd2 M k (i * nc b + j) 0) (foldl (fun M k => upd2 M k (i * nc b + j) (ent b i j)`_k) M (iota 0 (size (ent b i j))))
       (iota (size (ent b i j)) (minn (plen a) (plen b) - size (ent b i j))))
    (fun i j x => if (k < size (ent b i j))%N then (ent b i j)`_k else if (k < minn (plen a) (plen b))%N then 0 else x)); last first.
    move=> i j M c _ _; rewrite !col_upd add0n /=; case: eqP => // _ /=.
    move: (size _) => sz; have [C|C] : (k < sz)%N \/ (sz <= k)%N by lia.
      by rewrite C ifF //; lia.
    by rewrite [in RHS]ltnNge C [(k < sz)%N]ltnNge C /=; congr (if _ then _ else _); lia.
  rewrite col_lt //; have [-> ->] := divmod_col l Hv.
  case: (ltnP k (size _)) => // Hs; rewrite nth_default //; case: ifP => // Hm.
  by rewrite /tA'; case: ifP => // _; apply: tA0; lia.
have Hst i u v : (i < nb)%N -> (u < nr a)%N -> (v < nc b)%N ->
    st.2 i (u * nc b + v)%N = (\sum_(l < nc a) ent a u l * ent b l v).[i%:R].
  move=> Hi Hu Hv; rewrite /st points_loop // horner_sum; apply: eq_bigr => l _.
  have Hl : (l < nr b)%N := leq_trans (ltn_ord l) E.
  rewrite hornerM; congr (_ * _).
    apply: (fmul_vdm (x := fun i => i%:R)); last exact: plen_size.
      by move=> k Hk; have [|_ /(_ Hk)] := HV i k Hi; first (rewrite /nb; lia).
    by move=> k Hk; apply: HtA.
  apply: (fmul_vdm (x := fun i => i%:R)); last exact: plen_size.
    by move=> k Hk; have [|_ _ /(_ Hk)] := HV i k Hi; first (rewrite /nb; lia).
  by move=> k Hk; apply: HtB.
case: st Hst => [[Ap Bp] C] /= Hst.
eexists; split; first by []; split=> // i j Hi Hj /=; rewrite winE // !add0n Hi Hj /=.
apply: interp_poly => //; first exact: prod_size.
by move=> k Hk; rewrite Hst.
Qed.

(** the number of points of the second variant *)
Definition points2 a b : nat :=
  if (plen a + plen b == 0)%N then 0%N else if (plen a + plen b == 1)%N then 1%N else ((plen a + plen b - 2) %/ 2 + 1)%N.

Lemma is_vdm0 (x : nat -> F) s1 s2 st : is_vdm x s1 s2 0 st. Proof. by []. Qed.

Lemma dense2E a b : (nc a <= nr b)%N -> distinct (points2 a b) (vdm_points2 F) ->
  (2%:R : F) != 0 -> (forall i, (i < points2 a b)%N -> (i.+1%:R : F) != 0) ->
  product_of a b (multiply_evaluate_dense2 a b).
Proof.
move=> E D n2 nz; rewrite /multiply_evaluate_dense2 ltnNge E /= -/(points2 a b).
set nb := points2 a b in D nz *.
set sA := ((plen a).-1 %/ 2 + 1)%N; set sB := ((plen b).-1 %/ 2 + 1)%N.
have HV : is_vdm (vdm_points2 F) sA sB nb (vandermonde2 F sA sB nb).
  by case: (posnP nb) => [->|n0]; [exact: is_vdm0|exact: vandermonde2E].
have HI := inv_vdm D HV.
case: (vandermonde2 _ _ _ _) HV HI => [[V vA] vB] HV HI; rewrite HI.
set tA := foldl _ _ (iota 0 (nr a)).
have HtA k u l : (u < nr a)%N -> (l < nc a)%N -> tA.1 k (u * nc a + l)%N = (ent a u l)`_(2 * k) /\ tA.2 k (u * nc a + l)%N = (ent a u l)`_(2 * k + 1).
  move=> Hu Hl; rewrite /tA; split.
    rewrite (@flat_cols _ _ (fun st : fmat F * fmat F => st.1 k) (fun i j => split_a (ent a i j) (i * nc a + j))
      (fun i j x => if (k < (size (ent a i j)).+1./2)%N then (ent a i j)`_(2 * k) else x)); last first.
      by move=> i j M c _ _; have [-> _] := split_aE (ent a i j) (i * nc a + j) M k c; case: eqP.
    rewrite col_lt //; have [-> ->] := divmod_col u Hl; case: ifP => //= H.
    by rewrite nth_default //; move: (size _) H => z; lia.
  rewrite (@flat_cols _ _ (fun st : fmat F * fmat F => st.2 k) (fun i j => split_a (ent a i j) (i * nc a + j))
      (fun i j x => if (k < (size (ent a i j))./2)%N then (ent a i j)`_(2 * k + 1) else x)); last first.
    by move=> i j M c _ _; have [_ ->] := split_aE (ent a i j) (i * nc a + j) M k c; case: eqP.
  rewrite col_lt //; have [-> ->] := divmod_col u Hl; case: ifP => //= H.
  by rewrite nth_default //; move: (size _) H => z; lia.
case: tA HtA => Ea Oa /= HtA.
set tA' := (if _ == _ then (Ea, Oa) else _); case: tA' => Ea' Oa'.
set tB := foldl _ _ (iota 0 (nc a)).
have HtB k l v : (k < sB)%N -> (l < nc a)%N -> (v < nc b)%N -> tB.1 k (l * nc b + v)%N = (ent b l v)`_(2 * k) /\ tB.2 k (l * nc b + v)%N = (ent b l v)`_(2 * k + 1).
  move=> Hk Hl Hv; rewrite /tB; split.
    rewrite (@flat_cols _ _ (fun st : fmat F * fmat F => st.1 k) (fun i j => split_b sB (ent b i j) (i * nc b + j))
      (fun i j x => (ent b i j)`_(2 * k))); last first.
      by move=> i j M c _ _; have [-> _] := split_bE (ent b i j) (i * nc b + j) M c Hk.
    by rewrite col_lt //; have [-> ->] := divmod_col l Hv.
  rewrite (@flat_cols _ _ (fun st : fmat F * fmat F => st.2 k) (fun i j => split_b sB (ent b i j) (i * nc b + j))
      (fun i j x => (ent b i j)`_(2 * k + 1))); last first.
    by move=> i j M c _ _; have [_ ->] := split_bE (ent b i j) (i * nc b + j) M c Hk.
  by rewrite col_lt //; have [-> ->] := divmod_col l Hv.
case: tB HtB => Eb Ob HtB; rewrite /= in HtB.
set sc := foldl _ (_, _) (iota 0 nb).
have Esc : sc = (foldl (fun A i => foldl (fun A j => upd2 A i j (i.+1%:R * A i j)) A (iota 0 (nr a * nc a))) (fmul sA vA Oa) (iota 0 nb),
                 foldl (fun A i => foldl (fun A j => upd2 A i j (i.+1%:R * A i j)) A (iota 0 (nc a * nc b))) (fmul sB vB Ob) (iota 0 nb)).
  by rewrite /sc; move: (iota 0 nb) (fmul sA vA Oa) (fmul sB vB Ob) => s; elim: s => //= i s IH A B; rewrite IH.
rewrite Esc (negbTE n2) /=.
set A' := foldl _ (fmul sA vA Oa) _; set B' := foldl _ (fmul sB vB Ob) _.
have HA' i u l : (i < nb)%N -> (u < nr a)%N -> (l < nc a)%N -> A' i (u * nc a + l)%N = i.+1%:R * fmul sA vA Oa i (u * nc a + l)%N.
  by move=> Hi Hu Hl; rewrite /A' (rows_loop (fun i x => i.+1%:R * x)) //; apply: col_lt.
have HB' i l v : (i < nb)%N -> (l < nc a)%N -> (v < nc b)%N -> B' i (l * nc b + v)%N = i.+1%:R * fmul sB vB Ob i (l * nc b + v)%N.
  by move=> Hi Hl Hv; rewrite /B' (rows_loop (fun i x => i.+1%:R * x)) //; apply: col_lt.
pose c u v := \sum_(l < nc a) ent a u l * ent b l v.
have HvA i u l : (i < nb)%N -> (u < nr a)%N -> (l < nc a)%N -> (sA <= nb)%N \/ plen a = 0%N ->
    let e := fmul sA vA Ea i (u * nc a + l)%N in let o := A' i (u * nc a + l)%N in
    e + o = (ent a u l).[i.+1%:R] /\ e - o = (ent a u l).[- i.+1%:R].
  move=> Hi Hu Hl H e o; rewrite /e /o HA' // /fmul; case: H => H.
    have Hs : (size (ent a u l) <= 2 * sA)%N by apply: (leq_trans (plen_size Hu Hl)); rewrite /sA; lia.
    rewrite !(split_eval _ Hs) mulrNN mulNr.
    have X k : (k < sA)%N -> vA i k = vdm_points2 F i ^+ k by move=> Hk; have [|_ /(_ Hk)] := HV i k Hi; first lia.
    rewrite (_ : \sum_(k < sA) vA i k * Ea k (u * nc a + l)%N = \sum_(k < sA) (i.+1%:R * i.+1%:R) ^+ k * (ent a u l)`_(2 * k)); last first.
      by apply: eq_bigr => k _; have [-> _] := HtA k u l Hu Hl; rewrite X.
    rewrite (_ : \sum_(k < sA) vA i k * Oa k (u * nc a + l)%N = \sum_(k < sA) (i.+1%:R * i.+1%:R) ^+ k * (ent a u l)`_(2 * k + 1)) //.
    by apply: eq_bigr => k _; have [_ ->] := HtA k u l Hu Hl; rewrite X.
  have Z : ent a u l = 0 by apply: (zero_plen a).2.
  rewrite Z !horner0 !big1 ?mulr0 ?addr0 ?subr0 // => k _;
    by have [E1 E2] := HtA k u l Hu Hl; rewrite ?E1 ?E2 Z coef0 mulr0.
have HvB i l v : (i < nb)%N -> (l < nc a)%N -> (v < nc b)%N -> (sB <= nb)%N \/ plen b = 0%N ->
    let e := fmul sB vB Eb i (l * nc b + v)%N in let o := B' i (l * nc b + v)%N in
    e + o = (ent b l v).[i.+1%:R] /\ e - o = (ent b l v).[- i.+1%:R].
  move=> Hi Hu Hl H e o; rewrite /e /o HB' // /fmul; have Hu' := leq_trans Hu E; case: H => H.
    have Hs : (size (ent b l v) <= 2 * sB)%N by apply: (leq_trans (plen_size Hu' Hl)); rewrite /sB; lia.
    rewrite !(split_eval _ Hs) mulrNN mulNr.
    have X k : (k < sB)%N -> vB i k = vdm_points2 F i ^+ k by move=> Hk; have [|_ _ /(_ Hk)] := HV i k Hi; first lia.
    rewrite (_ : \sum_(k < sB) vB i k * Eb k (l * nc b + v)%N = \sum_(k < sB) (i.+1%:R * i.+1%:R) ^+ k * (ent b l v)`_(2 * k)); last first.
      by apply: eq_bigr => k _; have [-> _] := HtB k l v (ltn_ord k) Hu Hl; rewrite X.
    rewrite (_ : \sum_(k < sB) vB i k * Ob k (l * nc b + v)%N = \sum_(k < sB) (i.+1%:R * i.+1%:R) ^+ k * (ent b l v)`_(2 * k + 1)) //.
    by apply: eq_bigr => k _; have [_ ->] := HtB k l v (ltn_ord k) Hu Hl; rewrite X.
  have Z : ent b l v = 0 by apply: (zero_plen b).2.
  rewrite Z !horner0 !big1 ?mulr0 ?addr0 ?subr0 // => k _;
    by have [E1 E2] := HtB k l v (ltn_ord k) Hu Hl; rewrite ?E1 ?E2 Z coef0 mulr0.
have Hprod (sg : bool) i u v : (i < nb)%N -> (u < nr a)%N -> (v < nc b)%N ->
    \sum_(l < nc a) (fmul sA vA Ea i (u * nc a + l)%N + (if sg then - A' i (u * nc a + l)%N else A' i (u * nc a + l)%N))
      * (fmul sB vB Eb i (l * nc b + v)%N + (if sg then - B' i (l * nc b + v)%N else B' i (l * nc b + v)%N))
    = (c u v).[if sg then - i.+1%:R else i.+1%:R].
  move=> Hi Hu Hv; rewrite /c horner_sum; apply: eq_bigr => l _; rewrite hornerM.
  have [Za|Za] : plen a = 0%N \/ (0 < plen a)%N by lia.
    have [E1 E2] := HvA i u l Hi Hu (ltn_ord l) (or_intror Za).
    have Z : ent a u l = 0 by apply: (zero_plen a).2.
    by case: sg; rewrite ?E1 ?E2 Z horner0 !mul0r.
  have [Zb|Zb] : plen b = 0%N \/ (0 < plen b)%N by lia.
    have [E1 E2] := HvB i l v Hi (ltn_ord l) Hv (or_intror Zb).
    have Z : ent b l v = 0 by apply: (zero_plen b).2 => //; apply: leq_trans E.
    by case: sg; rewrite ?E1 ?E2 Z horner0 !mulr0.
  have [SA SB] : (sA <= nb)%N /\ (sB <= nb)%N.
    by rewrite /sA /sB /nb /points2; split; do 2 (rewrite ifF; last by lia); lia.
  have [E1 E2] := HvA i u l Hi Hu (ltn_ord l) (or_introl SA).
  have [E3 E4] := HvB i l v Hi (ltn_ord l) Hv (or_introl SB).
  by case: sg; rewrite ?E1 ?E2 ?E3 ?E4.
have Hsc u v : (u < nr a)%N -> (v < nc b)%N -> (size (c u v) <= 2 * nb)%N.
  move=> Hu Hv; apply: (leq_trans (prod_size E Hu Hv)); rewrite /nb /points2.
  by case: ifP => C1; [|case: ifP => C2]; move: C1; try move: C2; clear; lia.
pose ce u v : P := \poly_(k < nb) (c u v)`_(2 * k).
pose co u v : P := \poly_(k < nb) (c u v)`_(2 * k + 1).
have Ec (sg : bool) u v x : (u < nr a)%N -> (v < nc b)%N ->
    (c u v).[if sg then - x else x] = (ce u v).[x * x] + (if sg then - (x * (co u v).[x * x]) else x * (co u v).[x * x]).
  move=> Hu Hv; rewrite (split_eval _ (Hsc u v Hu Hv)) !horner_poly.
  rewrite (_ : \sum_(i < nb) (c u v)`_(2 * i) * _ = \sum_(k < nb) (x * x) ^+ k * (c u v)`_(2 * k)); last by apply: eq_bigr => k _; rewrite mulrC.
  rewrite (_ : \sum_(i < nb) (c u v)`_(2 * i + 1) * _ = \sum_(k < nb) (x * x) ^+ k * (c u v)`_(2 * k + 1)); last by apply: eq_bigr => k _; rewrite mulrC.
  by case: sg; rewrite ?mulrNN ?mulNr.
set st := foldl _ _ (iota 0 nb).
have [Ce [Co [-> HCe HCo]]] : exists Ce Co, [/\ st = AOk (Ce, Co),
    forall i u v, (i < nb)%N -> (u < nr a)%N -> (v < nc b)%N -> Ce i (u * nc b + v)%N = (ce u v).[vdm_points2 F i]
  & forall i u v, (i < nb)%N -> (u < nr a)%N -> (v < nc b)%N -> Co i (u * nc b + v)%N = (co u v).[vdm_points2 F i]].
  rewrite /st; set stp := (X in foldl X _ _).
  suff G N : (N <= nb)%N -> exists Ce Co, [/\ foldl stp (AOk (fun _ _ => 0, fun _ _ => 0)) (iota 0 N) = AOk (Ce, Co),
    forall i u v, (i < N)%N -> (u < nr a)%N -> (v < nc b)%N -> Ce i (u * nc b + v)%N = (ce u v).[vdm_points2 F i]
  & forall i u v, (i < N)%N -> (u < nr a)%N -> (v < nc b)%N -> Co i (u * nc b + v)%N = (co u v).[vdm_points2 F i]] by exact: G.
  elim: N => [|N IH] HN; first by exists (fun _ _ => 0), (fun _ _ => 0); split.
  rewrite foldl_iotaR add0n; have [|Ce [Co [-> HCe HCo]]] := IH; first lia.
  rewrite /stp.
  have nN := nz N HN; rewrite natrM mulf_eq0 (negbTE n2) (negbTE nN) /=.
  set X := fmul (nc a) _ _; set Y := fmul (nc a) (fill _ _ (fun u v => _ - _) _) _.
  have HX u v : (u < nr a)%N -> (v < nc b)%N -> X u v = (c u v).[N.+1%:R].
    move=> Hu Hv; rewrite -(Hprod false N u v HN Hu Hv); apply: eq_bigr => l _.
    by rewrite !fillE Hu Hv ltn_ord.
  have HY u v : (u < nr a)%N -> (v < nc b)%N -> Y u v = (c u v).[- N.+1%:R].
    move=> Hu Hv; rewrite -(Hprod true N u v HN Hu Hv); apply: eq_bigr => l _.
    by rewrite !fillE Hu Hv ltn_ord.
  have Row (f : nat -> nat -> F) (M : fmat F) y i u v : (u < nr a)%N -> (v < nc b)%N ->
     foldl (fun M j => upd2 M N j (M N j * y)) (foldl (fun M u => foldl (fun M v => upd2 M N (u * nc b + v)%N (f u v)) M (iota 0 (nc b))) M (iota 0 (nr a)))
       (iota 0 (nr a * nc b)) i (u * nc b + v)%N = if i == N then f u v * y else M i (u * nc b + v)%N.
    move=> Hu Hv; rewrite (row_win _ _ _ _ _ _ (g := fun i j (M : fmat F) => M i j * y)); last by move=> i' j' M' M'' ->.
    have Fl i' : foldl (fun M u => foldl (fun M v => upd2 M N (u * nc b + v)%N (f u v)) M (iota 0 (nc b))) M (iota 0 (nr a)) i' (u * nc b + v)%N
      = if i' == N then f u v else M i' (u * nc b + v)%N.
      rewrite (@flat_cols _ _ (fun M : fmat F => M i') (fun u v M => upd2 M N (u * nc b + v) (f u v)) (fun u v x => if i' == N then f u v else x)).
        by rewrite col_lt //; have [-> ->] := divmod_col u Hv.
      by move=> i1 j1 M1 c1 _ _; rewrite upd2E; case: (i' =P N) => //= _; rewrite if_same.
    by rewrite !Fl add0n eqxx /= col_lt // andbT; case: eqP.
  do 2 eexists; split; first by [].
    move=> i u v Hi Hu Hv; rewrite Row //; case: (i =P N) => [->|Ni]; last by apply: HCe => //; lia.
    rewrite HX // HY // (Ec false) // (Ec true) // addrACA subrr addr0 -mulr2n -mulr_natl mulrC mulKf //.
  move=> i u v Hi Hu Hv; rewrite Row //; case: (i =P N) => [->|Ni]; last by apply: HCo => //; lia.
  rewrite HX // HY // (Ec false) // (Ec true) // opprD opprK addrACA subrr add0r -mulr2n -mulr_natl mulrA.
  by rewrite mulrC mulKf // mulf_neq0.
eexists; split; first by []; split=> // i j Hi Hj /=; rewrite winE // !add0n Hi Hj /= pairs_poly.
apply/polyP=> t; rewrite coef_poly -/(c i j); case: ltnP => Ht; last first.
  by rewrite nth_default // (leq_trans (Hsc i j Hi Hj)).
have Hh : (t./2 < nb)%N by lia.
have Et := odd_double_half t; case: ifP => Ot; rewrite Ot in Et.
  rewrite (@interpM _ _ (vdm_points2 F) (co i j)) //; last by move=> k Hk; apply: HCo.
    by rewrite coef_poly Hh; congr (_`_ _); rewrite -[RHS]Et; lia.
  exact: size_poly.
rewrite (@interpM _ _ (vdm_points2 F) (ce i j)) //; last by move=> k Hk; apply: HCe.
  by rewrite coef_poly Hh; congr (_`_ _); rewrite -[RHS]Et; lia.
exact: size_poly.
Qed.

(** the loops of the products at points in geometric progression *)
Lemma bindmE (A B : Type) (x : A) (f : A -> option (aoutcome B)) : bindm (Some (AOk x)) f = f x.
Proof. by []. Qed.

Lemma store_valsE ev (v : P -> nat -> F) n s t (e : fmat P) :
  (forall i k, (i < s)%N -> (k < t)%N -> ev (e i k) = Some (AOk (v (e i k)))) ->
  exists M, store_vals ev n s t e = Some (AOk M) /\
    forall r i k, (r < n)%N -> (i < s)%N -> (k < t)%N -> M (r * (s * t) + i * t + k)%N = v (e i k) r.
Proof.
move=> Hev; rewrite /store_vals.
pose idx := [seq (x, k) | x <- iota 0 s, k <- iota 0 t].
pose full := [seq (x.1, x.2, r) | x <- idx, r <- iota 0 n].
exists (foldl (fun M (x : nat * nat * nat) => upd M (x.2 * (s * t) + x.1.1 * t + x.1.2)%N (v (e x.1.1 x.1.2) x.2)) (fun _ => 0) full); split.
  have inner i l M : (i < s)%N -> {subset l <= iota 0 t} ->
    foldl (fun st k => bindm st (fun M => bindm (ev (e i k)) (fun v =>
      Some (AOk (foldl (fun M r => upd M (r * (s * t) + i * t + k)%N (v r)) M (iota 0 n)))))) (Some (AOk M)) l =
    Some (AOk (foldl (fun M (x : nat * nat * nat) => upd M (x.2 * (s * t) + x.1.1 * t + x.1.2)%N (v (e x.1.1 x.1.2) x.2)) M
       [seq (i, k, r) | k <- l, r <- iota 0 n])).
    move=> Hi; elim: l M => //= k l IH M Sub.
    rewrite Hev //=; last by have := Sub k; rewrite mem_head mem_iota => /(_ isT).
    rewrite IH; last by move=> x Hx; apply: Sub; rewrite inE Hx orbT.
    by rewrite foldl_cat; congr (Some (AOk (foldl _ _ _))); rewrite -foldl_mapE.
  have -> : full = flatten [seq [seq (i, k, r) | k <- iota 0 t, r <- iota 0 n] | i <- iota 0 s].
    rewrite /full /idx; elim: (iota 0 s) => //= i l IH; rewrite map_cat flatten_cat IH; congr (_ ++ _).
    by rewrite -map_comp.
  rewrite -foldl_nest.
  have : {subset iota 0 s <= iota 0 s} by [].
  move: {1 3 4}(iota 0 s) (fun _ => 0) => l M; elim: l M => //= i l IH M Sub.
  rewrite inner //; last by have := Sub i; rewrite mem_head mem_iota => /(_ isT).
  by apply: IH => x Hx; apply: Sub; rewrite inE Hx orbT.
move=> r i k Hr Hi Hk.
have Hin : (i, k, r) \in full.
  apply/allpairsPdep; exists (i, k), r; split=> //; rewrite ?mem_iota //.
  by apply/allpairsPdep; exists i, k; split=> //; rewrite mem_iota.
rewrite (foldl_upd_key (key := fun x : nat * nat * nat => (x.2 * (s * t) + x.1.1 * t + x.1.2)%N) (val := fun x => v (e x.1.1 x.1.2) x.2) _ Hin) //.
move=> [[i' k'] r'] /allpairsPdep[[i1 k1] [r1 [/allpairsPdep[i2 [k2 [H1 H2 [E1 E2]]]] H3 [-> -> ->]]]] /=.
rewrite {}E1 {}E2 in H1 H2 *; rewrite !mem_iota !add0n /= in H1 H2 H3.
rewrite -!addnA => E0.
have L1 := col_lt H1 H2; have L2 := col_lt Hi Hk.
have [D1 M1] := divmod_col r1 L1; have [D2 M2] := divmod_col r L2.
have Er : r1 = r by rewrite -D1 -D2 E0.
have Ei : (i2 * t + k2 = i * t + k)%N by rewrite -M1 -M2 E0.
have [D3 M3] := divmod_col i2 H2; have [D4 M4] := divmod_col i Hk.
have Eii : i2 = i by rewrite -D3 Ei D4.
have Ekk : k2 = k by rewrite -M3 Ei M4.
by rewrite Er Eii Ekk.
Qed.

Lemma pointwiseE n s t u (vA vB : nat -> F) i k r : (i < s)%N -> (k < u)%N -> (r < n)%N ->
  pointwise n s t u vA vB (i * u + k)%N r =
  \sum_(l < t) vA (r * (s * t) + i * t + l)%N * vB (r * (t * u) + l * u + k)%N.
Proof.
move=> Hi Hk; rewrite /pointwise; elim: n => // N IH Hr; rewrite foldl_iotaR add0n.
move: (foldl _ _ _) IH => [[va vb] C] /= IH.
set vc := fmul t _ _.
rewrite (@flat_cols _ _ (fun M : fmat F => M^~ r) (fun i k M => upd2 M (i * u + k) N (vc i k)) (fun i k x => if r == N then vc i k else x)); last first.
  by move=> i' j' M c _ _; rewrite upd2E; case: (r =P N) => _; rewrite ?andbT ?andbF ?if_same.
rewrite col_lt //; have [-> ->] := divmod_col i Hk; case: (r =P N) => [->|Nr]; last by apply: IH; lia.
by apply: eq_bigr => l _; rewrite !fillE Hi Hk ltn_ord.
Qed.

(** *** The theorems *)

(** c = a b for matrices that are not zero, when the points 0, .., deg(a) + deg(b) are distinct *)
Theorem C68_dense (modn : nat) a b : modn \in [char F] -> nc a = nr b -> ~ zero_mat a -> ~ zero_mat b ->
  (plen a + plen b - 1 <= modn)%N -> product_of a b (multiply_evaluate_dense a b).
Proof.
move=> Hc E Za Zb Hm; apply: denseE; rewrite ?E //.
- by rewrite lt0n; apply/eqP=> /zero_plen.
- by rewrite lt0n; apply/eqP=> /zero_plen.
- exact: distinct_nat Hc Hm.
Qed.

(** the second variant uses the points 1, -1, 2, -2, .., and accepts the matrix 0 *)
Theorem C68_dense2 (modn : nat) a b : modn \in [char F] -> (2 < modn)%N -> nc a = nr b ->
  (plen a + plen b <= modn)%N -> product_of a b (multiply_evaluate_dense2 a b).
Proof.
move=> Hc H2 E Hm; have Hp : (2 * points2 a b <= modn)%N.
  by rewrite /points2; case: ifP => C1; [|case: ifP => C2]; lia.
have Ho : odd modn.
  have pm := charf_prime Hc; case: (even_prime pm) => // E2; lia.
apply: dense2E; rewrite ?E //.
- exact: distinct_sq Hc Hp.
- by apply: (natr_nz Hc); lia.
- by move=> i Hi; apply: (natr_nz Hc); lia.
Qed.

(** The comment allows any operands; when one of them is the matrix 0 the first variant writes outside of vectors. *)
Theorem C68_dense_zero_refuted a b : zero_mat a \/ zero_mat b -> multiply_evaluate_dense a b = AUB.
Proof.
move=> H; rewrite /multiply_evaluate_dense ifT //.
by case: H => /zero_plen ->; rewrite eqxx ?orbT.
Qed.

(** Too many points: the Vandermonde matrix is singular, which is an error. *)
Theorem C68_dense_points (modn : nat) a b : modn \in [char F] -> nc a = nr b ->
  (modn < plen a + plen b - 1)%N -> multiply_evaluate_dense a b = AUB.
Proof.
move=> Hc E Hm; rewrite /multiply_evaluate_dense; case: ifP => // _.
set nb := (_ - 1)%N in Hm *; have n0 : (0 < nb)%N by lia.
have HV := @vandermondeE F (plen a) (plen b) nb n0.
case: (vandermonde _ _ _ _) HV => [[V vA] vB] HV; rewrite /inv_mat ifF //.
apply/negbTE; rewrite -row_free_unit; apply/negP=> /row_freeP[W HW].
have p0 := prime_gt0 (charf_prime Hc).
have Er (j : 'I_nb) : V modn j = V 0%N j.
  have [/= -> _ _] := HV modn j Hm (ltn_ord j); have [/= -> _ _] := HV 0%N j n0 (ltn_ord j).
  by congr (_ ^+ _); apply/eqP; rewrite charf0.
have : row (Ordinal Hm) (mx_of nb nb V *m W) = row (Ordinal n0) (mx_of nb nb V *m W).
  by rewrite !row_mul; congr (_ *m _); apply/rowP=> j; rewrite !mxE Er.
rewrite HW => /rowP/(_ (Ordinal n0)); rewrite !mxE -!val_eqE /=.
have -> : (modn == 0)%N = false by lia.
by move/eqP; rewrite eq_sym oner_eq0.
Qed.
End C68.

Section Geometric.
Variable F : finFieldType.
Local Notation P := {poly F}.
Implicit Types a b c : pmat F.
Variables (fuel MX KARX : nat) (ul : bool) (garb : nat -> F).
Hypothesis HK : (1 < KARX)%N.
(** the random values drawn to find a point of large order and the choices of the constructor *)
Variables (rnd : seq F) (feas fft : bool).

(** the points are found for n values *)
Definition points_found (n : nat) : Prop := (2 * n <= #|F|.-1)%N /\ (exists2 x, x \in rnd & high_order (2 * n) x).

Let mul_geo := multiply_evaluate_geometric fuel MX KARX ul garb #|F| rnd feas fft.
Let t_mul_geo := t_multiply_evaluate_geometric fuel MX KARX ul garb #|F| rnd feas fft.

Lemma found_ok n dA dB : (dA < n)%N -> (dB < n)%N -> points_found n ->
  exists r o o1 o2, [/\ get_geometric_points #|F| rnd feas fft n = AOk o, prepare_degree o dA = AOk o1,
     prepare_degree o1 dB = AOk o2 & geo_ok r 1 n o2].
Proof.
move=> HA HB [H1 H2]; have n0 : (0 < n)%N by lia.
have [r [o [_ E Ho]]] := C62_geometric_points feas fft n0 H1 H2.
have := prepare_ok dA (at_ok Ho); rewrite HA => -[o1 E1 H3].
have := prepare_ok dB H3; rewrite HB => -[o2 E2 H4].
by exists r, o, o1, o2.
Qed.

Theorem C68_geometric x a b : nc a = nr b -> ~ zero_mat a -> ~ zero_mat b ->
  points_found (plen a + plen b - 1) -> (plen a + plen b - 1 <= fuel)%N ->
  exists res, mul_geo x a b = Some res /\ product_of a b res.
Proof.
move=> E Za Zb Pf Hf.
have a0 : (0 < plen a)%N by rewrite lt0n; apply/eqP=> /zero_plen.
have b0 : (0 < plen b)%N by rewrite lt0n; apply/eqP=> /zero_plen.
rewrite /mul_geo /multiply_evaluate_geometric !eqn0Ngt a0 b0 /=.
set n := (_ - 1)%N in Pf Hf *.
have HA : ((plen a).-1 < n)%N by rewrite /n; lia.
have HB : ((plen b).-1 < n)%N by rewrite /n; lia.
have [r [o [o1 [o2 [E0 E1 E2 Ok]]]]] := found_ok HA HB Pf.
rewrite E0 /= E1 /= E2 /= E ltnn (ok_n Ok).
pose ev := geo_ev fuel MX KARX ul garb o2.
have Hev (p : P) : (size p <= n)%N -> geo_evaluate fuel MX KARX ul garb o2 p = Some (AOk (ev p)) /\
    forall i, (i < n)%N -> ev p i = p.[pt r 1 i].
  by move=> Hp; have [v [Ev Hv]] := @geo_evalP F fuel MX KARX ul garb HK r 1 n o2 p Ok Hf Hp; rewrite /ev /geo_ev Ev.
have Sa i k : (i < nr a)%N -> (k < nr b)%N -> (size (ent a i k) <= n)%N.
  by move=> Hi Hk; rewrite -E in Hk; apply: (leq_trans (plen_size Hi Hk)); rewrite /n; lia.
have Sb i k : (i < nr b)%N -> (k < nc b)%N -> (size (ent b i k) <= n)%N.
  by move=> Hi Hk; apply: (leq_trans (plen_size Hi Hk)); rewrite /n; lia.
have [|vA [-> HvA]] := @store_valsE F (geo_evaluate fuel MX KARX ul garb o2) ev n (nr a) (nr b) (ent a).
  by move=> i k Hi Hk; have [] := Hev _ (Sa i k Hi Hk).
have [|vB [-> HvB]] := @store_valsE F (geo_evaluate fuel MX KARX ul garb o2) ev n (nr b) (nc b) (ent b).
  by move=> i k Hi Hk; have [] := Hev _ (Sb i k Hi Hk).
eexists; split; first by []; eexists; split; first by []; split=> // i j Hi Hj /=.
rewrite winE // !add0n Hi Hj /=; set val := pointwise _ _ _ _ _ _ _.
have [Hs Hv] := @geo_interpP F r 1 n o2 val Ok.
set c := \sum_(k < nc a) _.
have Hc : (size c <= n)%N by apply: prod_size; rewrite ?E.
apply/eqP; rewrite -subr_eq0; apply/eqP.
apply: (@roots_geq_poly_eq0 _ _ [seq pt r 1 k | k <- iota 0 n]).
- apply/allP=> y /mapP[k]; rewrite mem_iota add0n => /= Hk ->.
  rewrite /root !hornerE Hv // subr_eq0 /val pointwiseE // /c horner_sum; apply/eqP.
  have S m : nc a = m -> \sum_(l < nc a) (ent a i l * ent b l j).[pt r 1 k] = \sum_(l < m) (ent a i l * ent b l j).[pt r 1 k] by move=> ->.
  rewrite (S _ E); apply: eq_bigr => l _; rewrite HvA // HvB // hornerM.
  have [_ ->] := Hev _ (Sa i l Hi (ltn_ord l)) => //.
  by have [_ ->] := Hev _ (Sb l j (ltn_ord l) Hj).
- rewrite map_inj_in_uniq ?iota_uniq // => x1 x2; rewrite !mem_iota !add0n => /= H1 H2.
  exact: (pt_inj Ok).
- rewrite size_map size_iota; apply: (leq_trans (size_add _ _)).
  by rewrite geq_max size_opp Hs.
Qed.

(** When a or b is zero the result has NumCols(a) columns instead of NumCols(b). *)
Theorem C68_geometric_zero_refuted x a b : zero_mat a \/ zero_mat b -> nc a <> nc b ->
  exists c, mul_geo x a b = Some (AOk c) /\ nc c <> nc b.
Proof.
move=> H N; rewrite /mul_geo /multiply_evaluate_geometric ifT; last first.
  by case: H => /zero_plen ->; rewrite eqxx ?orbT.
by eexists; split.
Qed.

(** the transposed product, with deg(a) <= dA and deg(c) <= dA + dB: each entry is the part of degrees dA .. dA + dB
    of the entry of rev(a, dA) c, as the comment on the function says *)
Theorem C68_t_multiply a c dA dB : nc a = nr c -> entries_below dA.+1 a -> entries_below (dA + dB).+1 c ->
  points_found (dA + dB).+1 -> (dA + dB < fuel)%N ->
  exists b, t_mul_geo a c dA dB = Some (AOk b) /\
    is_pmat b (nr a) (nc c) (fun i j => ptrunc dB.+1 (pshr dA
      (\sum_(k < nc a) (\poly_(t < dA.+1) (ent a i k)`_(dA - t)) * ent c k j))).
Proof.
move=> E Da Dc Pf Hf; rewrite /t_mul_geo /t_multiply_evaluate_geometric.
rewrite ifF; last first.
  apply/negbTE; rewrite negb_or -!leqNgt; apply/andP; split; apply/plenP; [exact: Da|exact: Dc].
set n := (dA + dB).+1 in Pf Dc *.
have [HA HB] : (dA < n)%N /\ (dB < n)%N by rewrite /n; lia.
have [r [o [o1 [o2 [E0 E1 E2 Ok]]]]] := found_ok HA HB Pf.
rewrite E0 /= E1 /= E2 /= E ltnn (ok_n Ok).
pose ev := geo_ev fuel MX KARX ul garb o2.
have Hev (p : P) : (size p <= n)%N -> geo_evaluate fuel MX KARX ul garb o2 p = Some (AOk (ev p)) /\
    forall i, (i < n)%N -> ev p i = p.[pt r 1 i].
  by move=> Hp; have [v [Ev Hv]] := @geo_evalP F fuel MX KARX ul garb HK r 1 n o2 p Ok Hf Hp; rewrite /ev /geo_ev Ev.
have Sa i k : (i < nr a)%N -> (k < nr c)%N -> (size (ent a i k) <= dA.+1)%N.
  by move=> Hi Hk; rewrite -E in Hk; apply: Da.
have Sa' i k : (i < nr a)%N -> (k < nr c)%N -> (size (ent a i k) <= n)%N.
  by move=> Hi Hk; apply: (leq_trans (Sa i k Hi Hk)); rewrite /n; lia.
have [|vA [-> HvA]] := @store_valsE F (geo_evaluate fuel MX KARX ul garb o2) ev n (nr a) (nr c) (ent a).
  by move=> i k Hi Hk; have [] := Hev _ (Sa' i k Hi Hk).
have [|vC [-> HvC]] := @store_valsE F (fun p => Some (AOk (geo_t_interpolate o2 p))) (geo_t_interpolate o2) n (nr c) (nc c) (ent c).
  by [].
rewrite !bindmE; set B := pointwise _ _ _ _ _ _.
pose res i k : P := \poly_(j < dB.+1) \sum_(t < n) B (i * nc c + k)%N t * pt r 1 t ^+ j.
have Hte val : geo_t_evaluate fuel MX KARX ul garb o2 val (Some dB.+1) = Some (AOk (\poly_(j < dB.+1) \sum_(t < n) val t * pt r 1 t ^+ j)).
  by have [p [-> ->]] := @geo_t_evalP F fuel MX KARX ul garb HK r 1 n o2 val (Some dB.+1) Ok Hf HB.
have -> : foldl (fun st i => foldl (fun st k => bindm st (fun M =>
        bindm (geo_t_evaluate fuel MX KARX ul garb o2 (B (i * nc c + k)%N) (Some dB.+1)) (fun r => Some (AOk (upd2 M i k r)))))
      st (iota 0 (nc c))) (Some (AOk (fun _ _ => 0))) (iota 0 (nr a)) =
    Some (AOk (foldl (fun M i => foldl (fun M k => upd2 M i k (res i k)) M (iota 0 (nc c))) (fun _ _ => 0) (iota 0 (nr a)))).
  have inner i l M : foldl (fun st k => bindm st (fun M =>
        bindm (geo_t_evaluate fuel MX KARX ul garb o2 (B (i * nc c + k)%N) (Some dB.+1)) (fun r => Some (AOk (upd2 M i k r))))) (Some (AOk M)) l =
      Some (AOk (foldl (fun M k => upd2 M i k (res i k)) M l)).
    by elim: l M => //= k l IH M; rewrite Hte /= IH.
  move: (iota 0 (nr a)) (fun _ _ => 0) => l M; elim: l M => //= i l IH M.
  by rewrite inner IH.
eexists; split; first by []; split=> // i j Hi Hj /=.
rewrite (win_gen _ _ _ _ _ _ _ (g := fun i j _ => res i j)) // !add0n Hi Hj /=.
apply/polyP=> t; rewrite /res /ptrunc !coef_poly; case: ifP => // Ht.
set q := \sum_(k < nr c) _.
have -> : (if (t < size q - dA)%N then q`_(dA + t) else 0) = q`_(dA + t).
  by case: ltnP => // L; rewrite nth_default //; move: (size q) L => z; lia.
rewrite /q coef_sum.
have -> : \sum_(t0 < n) B (i * nc c + j)%N t0 * pt r 1 t0 ^+ t =
    \sum_(k < nr c) \sum_(t0 < n) (ent a i k).[pt r 1 t0] * geo_t_interpolate o2 (ent c k j) t0 * pt r 1 t0 ^+ t.
  rewrite exchange_big /=; apply: eq_bigr => t0 _; rewrite /B pointwiseE // mulr_suml; apply: eq_bigr => k _.
  rewrite HvA // HvC //; congr (_ * _ * _).
  by have [_ ->] := Hev _ (Sa' i k Hi (ltn_ord k)).
apply: eq_bigr => k _.
have -> : \sum_(t0 < n) (ent a i k).[pt r 1 t0] * geo_t_interpolate o2 (ent c k j) t0 * pt r 1 t0 ^+ t =
   \sum_(m < dA.+1) (ent a i k)`_m * (ent c k j)`_(m + t).
  transitivity (\sum_(t0 < n) \sum_(m < dA.+1) (ent a i k)`_m * (geo_t_interpolate o2 (ent c k j) t0 * pt r 1 t0 ^+ (m + t))).
    apply: eq_bigr => t0 _; rewrite (horner_coef_wide _ (Sa i k Hi (ltn_ord k))) !mulr_suml; apply: eq_bigr => m _.
    by rewrite exprD -!mulrA; congr (_ * _); rewrite mulrCA.
  rewrite exchange_big /=; apply: eq_bigr => m _; rewrite -mulr_sumr; congr (_ * _).
  by apply: (geo_t_interpP _ Ok); have := ltn_ord m; rewrite /n; lia.
rewrite coefM.
have -> : (dA + t).+1 = (dA.+1 + t)%N by lia.
rewrite big_split_ord /= [X in _ = _ + X]big1 ?addr0; last first.
  by move=> m _; rewrite coef_poly ifF ?mul0r //; lia.
rewrite (reindex_inj rev_ord_inj) /=; apply: eq_bigr => m _; have Hm := ltn_ord m.
rewrite coef_poly Hm subSS; congr (_ * _`_ _); lia.
Qed.
End Geometric.

(** 2 x 3 by 3 x 2 matrices of degree 1 modulo 17 meet the hypotheses of the four products *)
Example C68_met :
  let a := Pmat 2 3 (fun i j => 'X + (i + j)%:R : {poly 'F_17}) in let b := Pmat 3 2 (fun i j => 'X - (i * j)%:R : {poly 'F_17}) in
  [/\ product_of a b (multiply_evaluate_dense a b), product_of a b (multiply_evaluate_dense2 a b),
      exists res, multiply_evaluate_geometric 3 16 16 false (fun _ => 0) #|[finFieldType of 'F_17]| [:: 3%:R] true true a a b = Some res /\ product_of a b res
    & exists c, t_multiply_evaluate_geometric 3 16 16 false (fun _ => 0) #|[finFieldType of 'F_17]| [:: 3%:R] true true a b 1 1 = Some (AOk c)].
Proof.
move=> a b.
have Hc : 17%N \in [char 'F_17] by apply: char_Fp.
have E (n : nat) : (n%:R : {poly 'F_17}) = (n%:R)%:P by rewrite polyCMn.
have Sa i j : size (ent a i j) = 2%N by rewrite /= E size_XaddC.
have Sb i j : size (ent b i j) = 2%N by rewrite /= E size_XsubC.
have Na : ~ zero_mat a by move=> /(_ 0%N 0%N isT isT) Z; have := Sa 0%N 0%N; rewrite Z size_poly0.
have Nb : ~ zero_mat b by move=> /(_ 0%N 0%N isT isT) Z; have := Sb 0%N 0%N; rewrite Z size_poly0.
have La : (plen a <= 2)%N by apply/plenP=> i j _ _; rewrite Sa.
have Lb : (plen b <= 2)%N by apply/plenP=> i j _ _; rewrite Sb.
have La2 : (2 <= plen a)%N by have := @plen_size _ a 0 0 isT isT; rewrite Sa.
have Lb2 : (2 <= plen b)%N by have := @plen_size _ b 0 0 isT isT; rewrite Sb.
have Pf : points_found [:: 3%:R : 'F_17] 3.
  split; first by rewrite card_Fp.
  exists 3%:R; first by rewrite mem_head.
  split=> // i Hi; apply/eqP=> /(congr1 (fun x : 'F_17 => x : nat)); rewrite -natrX val_Fp_nat //.
  by case: i Hi => [|[|[|[|[|[|i]]]]]].
have E3 : (plen a + plen b - 1 = 3)%N by lia.
have E4 : (plen a + plen b = 4)%N by lia.
split.
- apply: (C68_dense Hc); [by []|exact: Na|exact: Nb|by rewrite E3].
- apply: (C68_dense2 Hc); [by []|by []|by rewrite E4].
- apply: C68_geometric; [by []|by []|exact: Na|exact: Nb|by rewrite E3; exact: Pf|by rewrite E3].
- have Da : entries_below 2 a by move=> i j _ _; rewrite Sa.
  have Db : entries_below 3 b by move=> i j _ _; rewrite Sb.
  have [c [E5 _]] := @C68_t_multiply [finFieldType of 'F_17] 3 16 16 false (fun _ => 0) isT [:: 3%:R] true true a b 1 1 (erefl _) Da Db Pf isT.
  by exists c.
Qed.
Print Assumptions C68_dense.
Print Assumptions C68_dense2.
Print Assumptions C68_dense_zero_refuted.
Print Assumptions C68_dense_points.
Print Assumptions C68_geometric.
Print Assumptions C68_geometric_zero_refuted.
Print Assumptions C68_t_multiply.
