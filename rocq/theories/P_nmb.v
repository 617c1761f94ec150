(** C81, C82: approximant bases at order one, and M-Basis (ntl-extras). *)
From Coq Require Import ZArith.
From mathcomp Require Import all_ssreflect all_algebra zify.
From Verif Require Import A_base SpecA SpecForms SpecApp SpecKer A_mul_model A_mbasis_model A_mbasis_abs A_mbasis_proof N_pmat_model N_util_model
  N_util_proof N_forms_model P_nappbas N_popov_proof N_mb_model N_mb_proof N_mb2_proof N_kerex_proof.
Set Implicit Arguments.
Unset Strict Implicit.
Unset Printing Implicit Defensive.
Import Order.TTheory GRing.Theory Num.Theory.
Local Open Scope ring_scope.

Section P.
Variable F : fieldType.
Implicit Types (ker img : nat -> nat -> fmat F -> nat * fmat F) (R K : fmat F) (pm : pmat F) (shift : seq int).

(** the contracts of NTL's kernel and image *)
Definition kernel_ok ker : Prop := forall m n A, left_kernel_of m n A (ker m n A).1 (ker m n A).2.
Definition image_ok img : Prop := forall k m A, image_of k m A (img k m A).1 (img k m A).2.
(** the kernel of the zero matrix is given by the identity *)
Definition kernel_zero ker : Prop := forall m n A, mx_of m n A = 0 -> mx_of m m (ker m n A).2 = 1%:M.
(** mat_lzz_pX_pmbasis.cpp:88-92 *)
Definition kernel_block ker : Prop := forall m n A, identity_block (ker m n A).1 m (ker m n A).2.

Lemma count0 m (pv : seq nat) k : sorted ltn pv -> size pv = k -> all (fun p => (p < m)%N) pv -> count (pred1 0%N) (pivdeg_of m pv) = k.
Proof.
move=> So Sz Al; rewrite count_map -Sz -size_filter; apply: perm_size; apply: uniq_perm.
- by rewrite filter_uniq ?iota_uniq.
- exact: (sorted_uniq ltn_trans ltnn So).
move=> x; rewrite mem_filter mem_iota /= add0n; case: (boolP (x \in pv)) => //= H.
by have := allP Al x H.
Qed.

Lemma order1E m K (pv : seq nat) : sorted ltn pv -> order1_basis m K (pivdeg_of m pv) = Tm m K pv.
Proof.
move=> So; have pdE i : (i < m)%N -> (nth 0%N (pivdeg_of m pv) i == 0%N) = (i \in pv).
  by move=> Hi; rewrite (nth_map 0%N) ?size_iota // nth_iota // add0n; case: (i \in pv).
apply/matrixP=> i j; rewrite !mxE pdE //; case: ifPn => Hi; last by case: eqP.
rewrite -(count_index So Hi); congr (K _ _)%:P.
by apply: eq_in_count => q; rewrite mem_iota add0n => Hq; apply: pdE; exact: ltn_trans Hq (ltn_ord i).
Qed.

Lemma minv1 m n (A : 'M[{poly F}]_(m, n)) shift : size shift = m -> minv A (fun i : 'I_m => nth 0 shift i) 0 1%:M shift.
Proof.
by move=> Ss; split=> //; [exact: approx_basis0|exact: deg_inv_one|move=> i j; rewrite mxE; case: eqP => _; rewrite ?size_poly1 ?size_poly0].
Qed.

Lemma minv_minimal m n (A : 'M[{poly F}]_(m, n)) shift d (P : 'M_m) t : minv A (fun i : 'I_m => nth 0 shift i) d P t ->
  minimal_approx_basis (fun _ => d) A (nth 0 shift) (nth 0 t) P.
Proof. by move=> [_ B D _]; apply: dinv_minimal. Qed.

(** the three outcomes at order one *)
Definition at_order1 m n R shift (k : nat) K (pd : seq nat) : Prop :=
  [/\ size pd = m, all (fun d => (d <= 1)%N) pd, count (pred1 0%N) pd = k &
      minimal_approx_basis (fun _ => 1%N) (\matrix_(i < m, j < n) (R i j)%:P) (nth 0 shift) (fun i => nth 0 shift i + (nth 0%N pd i)%:Z)
        (order1_basis m K pd)].

Lemma const_mx m n R : map_mx polyC (mx_of m n R) = \matrix_(i < m, j < n) (R i j)%:P :> 'M[{poly F}]_(m, n).
Proof. by apply/matrixP=> i j; rewrite !mxE. Qed.

Lemma resid1 m n R : resid (\matrix_(i < m, j < n) (R i j)%:P) 0 1%:M R.
Proof. by move=> i j; rewrite mul1mx mxE coefC. Qed.

Lemma order1_empty m n R shift K : size shift = m -> inj_rows m n R -> at_order1 m n R shift 0 K (nseq m 1%N).
Proof.
move=> Ss I; split; [by rewrite size_nseq|by apply/allP=> x /nseqP[->]|by rewrite count_nseq|].
have := step_empty 1 (minv1 (\matrix_(i < m, j < n) (R i j)%:P) Ss) (@resid1 m n R) I => /minv_minimal[B O D].
have E : order1_basis m K (nseq m 1%N) = 'X^1 *: 1%:M.
  by apply/matrixP=> i j; rewrite !mxE nth_nseq ltn_ord expr1 /=; case: eqP; rewrite ?mulr1 ?mulr0.
by rewrite E; split=> // i; have := D i; rewrite (nth_map 0) ?Ss // nth_nseq ltn_ord.
Qed.

Lemma order1_full m n R shift K : size shift = m -> zero_mat m n R -> mx_of m m K = 1%:M -> at_order1 m n R shift m K (nseq m 0%N).
Proof.
move=> Ss Z E1; split; [by rewrite size_nseq|by apply/allP=> x /nseqP[->]|by rewrite count_nseq mul1n|].
have := step_full (minv1 (\matrix_(i < m, j < n) (R i j)%:P) Ss) (@resid1 m n R) Z => /minv_minimal[B O D].
have E : order1_basis m K (nseq m 0%N) = 1%:M.
  apply/matrixP=> i j; rewrite !mxE nth_nseq ltn_ord /=.
  rewrite (@eq_in_count _ _ predT); last by move=> q; rewrite mem_iota /= nth_nseq; case: ifP.
  rewrite count_predT size_iota; have /matrixP/(_ i j) := E1; rewrite !mxE => ->; by case: eqP.
by rewrite E; split=> // i; have := D i; rewrite nth_nseq ltn_ord addr0.
Qed.

Lemma order1_usual m n R shift k K (pv : seq nat) : size shift = m -> good_base m n R (nth 0 shift) k K pv ->
  at_order1 m n R shift k K (pivdeg_of m pv).
Proof.
move=> Ss G; have [_ So Sz Al _] := G; split.
- by rewrite size_map size_iota.
- by apply/allP=> x /mapP[i _ ->]; case: (i \in pv).
- exact: count0.
rewrite order1E //; have [TB TD] := good_Tm G; rewrite const_mx in TB; apply: dinv_minimal TB _.
apply: deg_inv_ext TD => // i; rewrite (nth_map 0%N) ?size_iota // nth_iota // add0n; by case: (_ \in _).
Qed.

(** *** mbasis1 *)
Theorem C81_mbasis1 ker img m n R shift : kernel_ok ker -> image_ok img -> kernel_zero ker -> size shift = m ->
  exists k K pd, mbasis1 ker img m n R shift = AOk (k, K, pd) /\ at_order1 m n R shift k K pd.
Proof.
move=> KO IO KZ Ss; have [k [K [pd [-> C]]]] := mbasis1P KO IO m n R shift.
exists k, K, pd; split=> //; case: C => [[-> I ->]|[_ Ek Z -> [_ EK]]|[pv [_ G] ->]]; first exact: order1_empty.
  rewrite Ek; apply: order1_full => //; rewrite EK; apply: KZ; apply/matrixP=> i j; rewrite !mxE Z //.
  by have PS : perm_eq (find_shift_permutation m (nth 0 shift)) (iota 0 m) := fsp_perm m _; rewrite (pv_lt PS).
exact: order1_usual.
Qed.

(** *** popov_mbasis1 *)
Theorem C81_popov_mbasis1 ker img m n R shift : kernel_ok ker -> image_ok img -> kernel_zero ker -> kernel_block ker -> size shift = m ->
  exists k K pd, [/\ popov_mbasis1 ker img m n R shift = AOk (k, K, pd), at_order1 m n R shift k K pd &
    popov_form false (nth 0 shift) (order1_basis m K pd)].
Proof.
move=> KO IO KZ KB Ss; rewrite /popov_mbasis1; set ps := find_shift_permutation _ _; set R' := fun i j => R (nth 0%N ps i) j.
have PS : perm_eq ps (iota 0 m) := fsp_perm m _.
have := KB m n R'; have := KZ m n R'; have := KO m n R'; case: (ker m n R') => [k pk] /= LK Z B.
case: eqP => [E|/eqP N0].
  exists k, pk, (nseq m 1%N); have AO : at_order1 m n R shift k pk (nseq m 1%N).
    by rewrite E; apply: order1_empty => //; move: LK; rewrite E; exact: kernel0.
  split=> //; have [_ _ _ [_ [piv Pi Pp] _]] := AO; exists id => // i; split.
  - by rewrite -[X in pivot_at _ _ _ X](owp_id Pi); exact: Pp.
  - by rewrite mxE nth_nseq ltn_ord eqxx monicX.
  - by move=> i' Ni; rewrite !mxE !nth_nseq !ltn_ord eqxx (negbTE Ni) size_poly0 size_polyX.
case: eqP => [E|/eqP Nm].
  have ZR : zero_mat m n R by move: LK; rewrite E; exact: kernelm.
  have E1 : mx_of m m pk = 1%:M by apply: Z; apply/matrixP=> i j; rewrite !mxE /R' ZR ?(pv_lt PS).
  exists k, pk, (nseq m 0%N); have AO : at_order1 m n R shift k pk (nseq m 0%N) by rewrite E; exact: order1_full.
  have EO (i j : 'I_m) : order1_basis m pk (nseq m 0%N) i j = (i == j)%:R.
    rewrite mxE nth_nseq ltn_ord /= (@eq_in_count _ _ predT); last by move=> q; rewrite mem_iota /= nth_nseq; case: ifP.
    by rewrite count_predT size_iota; have /matrixP/(_ i j) := E1; rewrite !mxE => ->; case: eqP.
  split=> //; have [_ _ _ [_ [piv Pi Pp] _]] := AO; exists id => // i; split.
  - by rewrite -[X in pivot_at _ _ _ X](owp_id Pi); exact: Pp.
  - by rewrite EO eqxx monic1.
  - by move=> i' Ni; rewrite !EO eqxx (negbTE Ni) size_poly0 size_poly1.
have [[K' pp] -> /= [LK' SH RD]] := popov_shapeP IO LK B.
have G := back_good LK' SH; have RD' := back_reduced (nth 0 shift) SH RD; cbv zeta in G, RD'; rewrite -/ps in RD' G.
have EP : pivdeg_of m (pivind_of ps pp) = pivdeg_of m (sort leq (pivind_of ps pp)) by apply: eq_map => i; rewrite mem_sort.
do 3 eexists; split; first by []; rewrite EP; first exact: order1_usual G.
move: G RD'; move: (sort _ _) (permute_back _ _ _) => pv Kb G RD'.
have [_ So Sz Al _] := G; rewrite order1E //.
have [_ _ _ [_ [piv Pi Pp] _]] := order1_usual Ss G; rewrite order1E // in Pp.
exists id => // i; split; first by rewrite -[X in pivot_at _ _ _ X](owp_id Pi); exact: Pp.
  rewrite mxE; case: ifPn => Hi; last by rewrite eqxx mulr1n monicX.
  have Hk : (index (i : nat) pv < k)%N by rewrite -Sz index_mem.
  by rewrite -[X in Kb _ X](nth_index 0%N Hi) RD' // eqxx polyC1 monic1.
move=> i' Ni; rewrite !mxE; case: (boolP ((i : nat) \in pv)) => Hi; last first.
  rewrite eqxx mulr1n size_polyX; case: ifPn => Hi'; first by rewrite ltnS size_polyC leq_b1.
  by rewrite (negbTE Ni) mulr0n size_poly0.
have Hk : (index (i : nat) pv < k)%N by rewrite -Sz index_mem.
rewrite -[X in Kb (index (i : nat) pv) X](nth_index 0%N Hi) RD' // eqxx polyC1 size_poly1.
case: ifPn => Hi'; last by rewrite (negbTE Ni) mulr0n size_poly0.
have Hk' : (index (i' : nat) pv < k)%N by rewrite -Sz index_mem.
rewrite -[X in Kb _ X](nth_index 0%N Hi) RD' // (_ : (index (i' : nat) pv == index (i : nat) pv) = false) ?polyC0 ?size_poly0 //.
apply/negbTE; apply: contra Ni => /eqP E; apply/eqP/val_inj.
by rewrite /= -(nth_index 0%N Hi) -(nth_index 0%N Hi') E.
Qed.

(** *** M-Basis *)
Definition mb_correct pm order shift (a : pmat F) (t : seq int) : Prop :=
  square_out pm a t /\
  minimal_approx_basis (fun _ => order) (\matrix_(i < nr pm, j < nc pm) ent pm i j) (nth 0 shift) (nth 0 t)
    (\matrix_(i < nr pm, j < nr pm) ent a i j).

Theorem C82_mbasis_plain ker img x pm order shift : kernel_ok ker -> image_ok img -> size shift = nr pm ->
  exists a t, mbasis_plain ker img x pm order shift = AOk (a, t) /\ mb_correct pm order shift a t.
Proof.
move=> KO IO Ss; have [a [t [-> E1 E2 I]]] := mbasis_plainP KO IO order x Ss.
by exists a, t; split=> //; split; [case: I; split|exact: minv_minimal].
Qed.
Theorem C82_mbasis_rescomp ker img pm order shift : kernel_ok ker -> image_ok img -> size shift = nr pm -> (0 < order)%N -> (0 < nr pm)%N ->
  exists a t, mbasis_rescomp ker img pm order shift = Ret (a, t) /\ mb_correct pm order shift a t.
Proof.
move=> KO IO Ss Ho Hm; have [a [t [-> E1 E2 I]]] := mbasis_rescompP KO IO Ss Ho Hm.
by exists a, t; split=> //; split; [case: I; split|exact: minv_minimal].
Qed.
Theorem C82_mbasis_resupdate ker img pm order shift : kernel_ok ker -> image_ok img -> size shift = nr pm -> (0 < nr pm)%N ->
  exists a t, mbasis_resupdate ker img pm order shift = Ret (a, t) /\ mb_correct pm order shift a t.
Proof.
move=> KO IO Ss Hm; have [a [t [-> E1 E2 I]]] := mbasis_resupdateP KO IO order Ss Hm.
by exists a, t; split=> //; split; [case: I; split|exact: minv_minimal].
Qed.
Theorem C82_mbasis ker img pm order shift : kernel_ok ker -> image_ok img -> size shift = nr pm -> (0 < order)%N -> (0 < nr pm)%N ->
  exists a t, mbasis ker img pm order shift = Ret (a, t) /\ mb_correct pm order shift a t.
Proof.
by move=> KO IO Ss Ho Hm; rewrite /mbasis; case: ifP => _; [exact: C82_mbasis_resupdate|exact: C82_mbasis_rescomp].
Qed.

(** at order 0 or without rows the functions do not return *)
Theorem C82_order0_refuted ker img pm shift : (nc pm <= (nr pm)./2 + 1)%N -> mbasis ker img pm 0 shift = Undef.
Proof. by rewrite /mbasis ltnNge => ->. Qed.
Theorem C82_no_rows_refuted ker img pm order shift : nr pm = 0%N -> (0 < order)%N -> mbasis ker img pm order shift = Throws.
Proof. by move=> E Ho; rewrite /mbasis /mbasis_resupdate /mbasis_rescomp E (gtn_eqF Ho) /=; case: ifP. Qed.

(** *** the contracts of kernel and image are met by functions over every field *)
Theorem C81_contracts : exists ker img, [/\ kernel_ok ker, image_ok img, kernel_zero ker & kernel_block ker].
Proof.
exists (@ex_ker F), (@ex_img F); split=> [m n A|k m A|m n A|m n A].
- exact: ex_kerP.
- exact: ex_imgP.
- exact: ex_ker_zero.
- exact: ex_ker_block.
Qed.
End P.

(** the hypotheses are met: rows with a constant and a nonconstant entry, a shift which is not uniform *)
Example C82_example : let pm := Pmat 3 2 (fun i j => if i == 2%N then 'X else (i + j)%:R : {poly rat}) in
  exists ker img a t, mbasis ker img pm 4 [:: 0; 2%:Z; -1] = Ret (a, t) /\ mb_correct pm 4 [:: 0; 2%:Z; -1] a t.
Proof.
move=> pm; have [ker [img [K I _ _]]] := C81_contracts [fieldType of rat].
by exists ker, img; apply: C82_mbasis.
Qed.
Print Assumptions C81_mbasis1.
Print Assumptions C81_popov_mbasis1.
Print Assumptions C81_contracts.
Print Assumptions C82_mbasis_plain.
Print Assumptions C82_mbasis_rescomp.
Print Assumptions C82_mbasis_resupdate.
Print Assumptions C82_mbasis.
Print Assumptions C82_order0_refuted.
Print Assumptions C82_no_rows_refuted.
