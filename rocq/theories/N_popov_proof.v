(** The Popov basis of a module from its pivot degrees; uniqueness of the Popov basis. *)
From mathcomp Require Import all_ssreflect all_algebra zify.
From Verif Require Import A_base SpecA SpecForms A_mbasis_abs A_kernel_abs A_detdeg_proof.
Set Implicit Arguments.
Unset Strict Implicit.
Unset Printing Implicit Defensive.
Import Order.TTheory GRing.Theory Num.Theory.
Local Open Scope ring_scope.

Section Popov.
Variable F : fieldType.
Variable m : nat.
Implicit Types (s t : nat -> int) (Q : 'rV[{poly F}]_m -> Prop) (M R : 'M[{poly F}]_m).
Local Notation dinv s t M := (deg_inv (fun i : 'I_m => s i) (fun i : 'I_m => t i) M).

(** the pivot of an element of the module has at least the degree of the row of the basis with the same pivot *)
Lemma module_pivot Q s t M v : basis_of Q M -> dinv s t M -> Q v -> v != 0 ->
  exists k e, pvt (fun i : 'I_m => s i) v k e /\ t k <= e.
Proof.
move=> [_ [G _]] D /G[w E] N.
have w0 : w != 0 by apply: contraNneq N => w0; rewrite E w0 mul0mx.
have [k [e V]] := pvt_exists (fun i : 'I_m => t i) w0.
exists k, e; split; first by rewrite E; exact: pvt_mul D V.
by case: V => -[z Ez _] _; move: (t k) Ez => x; lia.
Qed.

Lemma basis_gen Q M M' : basis_of Q M -> (forall i, Q (row i M')) -> exists U, M' = U *m M.
Proof.
move=> [_ [G _]] H; have /fin_all_exists[w Hw] : forall i, exists w : 'rV_m, row i M' = w *m M by move=> i; exact: G.
exists (\matrix_i w i); apply/row_matrixP=> i; rewrite row_mul Hw; congr (_ *m _).
by rewrite rowK.
Qed.

Lemma basis_det Q M M' : basis_of Q M -> basis_of Q M' -> size (\det M) = size (\det M').
Proof.
move=> B B'; have [U E] := basis_gen B (proj1 B'); have [V E'] := basis_gen B' (proj1 B).
apply: eqp_size; apply/andP; split; first by rewrite E det_mulmx dvdp_mulIr.
by rewrite E' det_mulmx dvdp_mulIr.
Qed.

Lemma dinv_pivot_at s t M i : dinv s t M -> pivot_at false s (row i M) i.
Proof. by move=> /(deg_inv_pivot i)[N [H1 H2]]; split. Qed.

Lemma dinv_size s t M (i : 'I_m) : dinv s t M -> (size (M i i))%:Z = t i - s i + 1.
Proof. by move=> /(deg_inv_pvt i)/pvt_size; rewrite mxE. Qed.

Lemma dinv_det s t M : dinv s t M -> (size (\det M))%:Z = \sum_(i < m) (t i - s i) + 1.
Proof.
move=> D; have /det_pivot_deg -> : forall i, pivot_at false s (row i M) i by move=> i; exact: dinv_pivot_at D.
rewrite -addn1 PoszD (big_morph Posz PoszD (erefl 0%:Z)); congr (_ + _); apply: eq_bigr => i _.
by have := dinv_size i D; have [] := dinv_pivot_at i D; rewrite mxE -size_poly_gt0 => N _ _; move: (s i) (t i) => x y; lia.
Qed.

Section Core.
Variables (Q : 'rV[{poly F}]_m -> Prop) (s t t' : nat -> int) (M R : 'M[{poly F}]_m).
Hypotheses (BM : basis_of Q M) (BR : basis_of Q R) (DM : dinv s t M) (DR : dinv (fun i => s i - t i) t' R).

Lemma second_degrees (i : 'I_m) : t' i = 0.
Proof.
have ge (k : 'I_m) : 0 <= t' k.
  have Nk : row k R != 0.
    have [N _ _] := dinv_pivot_at k DR; apply: contraNneq N => ->; by rewrite mxE.
  have [l [e [[[z Ez Nz] _] Hle]]] := module_pivot BM DM (proj1 BR k) Nk.
  move: Nz; rewrite mxE => /(proj1 DR); move: Ez Hle.
  by move: (s l) (t l) (t' k) => x y w; case: (k < l)%N; lia.
have S : \sum_(k < m) t' k = 0.
  have := basis_det BM BR => /(congr1 Posz); rewrite (dinv_det DM) (dinv_det DR) => /addIr.
  rewrite !sumrB opprB; set a := \sum_(k < m) t k; set b := \sum_(k < m) s k; set c := \sum_(k < m) t' k.
  by move: a b c => a b c; lia.
have := @psumr_eq0P _ _ _ _ (fun k _ => ge k) S.
exact.
Qed.

Lemma delta_ge0 (j : 'I_m) : s j <= t j.
Proof. by have := dinv_size j DM; have [] := dinv_pivot_at j DM; rewrite mxE -size_poly_gt0 => N _ _; move: (s j) (t j) => x y; lia. Qed.

Definition dlt (j : 'I_m) : nat := `|t j - s j|.
Lemma dltE j : (dlt j)%:Z = t j - s j.
Proof. by have := delta_ge0 j; rewrite /dlt; move: (s j) (t j) => x y; lia. Qed.

Lemma R_le i j k : (dlt j < k)%N -> (R i j)`_k = 0.
Proof.
move=> Hk; apply/eqP; apply: contraT => /(proj1 DR); rewrite second_degrees; have := dltE j.
by move: (s j) (t j) (dlt j) Hk => x y d; case: (i < j)%N; lia.
Qed.

Lemma R_upper (i j : 'I_m) : (i < j)%N -> (R i j)`_(dlt j) = 0.
Proof.
move=> Hij; apply/eqP; apply: contraT => /(proj1 DR); rewrite second_degrees Hij; have := dltE j.
by move: (s j) (t j) (dlt j) => x y d; lia.
Qed.

Lemma R_diag i : (R i i)`_(dlt i) != 0.
Proof.
have [k E N] := proj2 DR i; suff -> : dlt i = k by [].
by move: E; rewrite second_degrees; have := dltE i; move: (s i) (t i) (dlt i) => x y d; lia.
Qed.

Definition lead2 : 'M[F]_m := \matrix_(i, j) (R i j)`_(dlt j).

Lemma lead2_unit : lead2 \in unitmx.
Proof.
rewrite unitmxE unitfE (@det_triangular _ false) => [|i j /=]; last by rewrite mxE; exact: R_upper.
by apply/prodf_neq0=> i _; rewrite mxE R_diag.
Qed.

Lemma lead2E L : leading_matrix_of (fun i => s i - t i) R L -> L = lead2.
Proof.
move=> H; apply/matrixP=> i j; have [_ /(_ 0)] := H i.
have D0 : is_rdeg (fun j : 'I_m => s j - t j) (row i R) 0 by have := deg_inv_rdeg i DR; rewrite second_degrees.
move=> /(_ D0 j) ->; rewrite mxE; have := delta_ge0 j; rewrite /dlt.
case: ifP => [_ _|C]; last by move: (s j) (t j) C => x y; lia.
by congr (_`_(`|_|)); rewrite sub0r opprB.
Qed.

Definition popov2 : 'M[{poly F}]_m := map_mx polyC (invmx lead2) *m R.

Lemma popov2_coef i j k : (popov2 i j)`_k = \sum_l invmx lead2 i l * (R l j)`_k.
Proof. by rewrite mxE coef_sum; apply: eq_bigr => l _; rewrite mxE coefCM. Qed.

Lemma popov2_high i j k : (dlt j < k)%N -> (popov2 i j)`_k = 0.
Proof. by move=> Hk; rewrite popov2_coef big1 // => l _; rewrite R_le ?mulr0. Qed.

Lemma popov2_top i j : (popov2 i j)`_(dlt j) = (i == j)%:R.
Proof.
have := mulVmx lead2_unit => /matrixP/(_ i j); rewrite mxE [in RHS]mxE => <-.
by rewrite popov2_coef; apply: eq_bigr => l _; rewrite mxE.
Qed.

Hypothesis Qlin : forall w : 'rV[{poly F}]_m, Q (w *m R).

Lemma popov2_basis : basis_of Q popov2.
Proof.
have [H1 [H2 H3]] := BR; split; [by move=> i; rewrite /popov2 row_mul|split].
- move=> v /H2[w ->]; exists (w *m map_mx polyC lead2); rewrite /popov2 -mulmxA; congr (_ *m _).
  by rewrite mulmxA -map_mxM mulmxV ?lead2_unit // map_mx1 mul1mx.
- move=> w; rewrite /popov2 mulmxA => /H3 E.
  have := congr1 (mulmx^~ (map_mx polyC lead2)) E; rewrite -mulmxA -map_mxM mulVmx ?lead2_unit // map_mx1 mulmx1 mul0mx //.
Qed.

Lemma popov2_pvt i : pvt (fun j : 'I_m => s j) (row i popov2) i (t i).
Proof.
have N : row i popov2 != 0.
  apply/eqP=> /rowP/(_ i); rewrite [RHS]mxE [LHS]mxE => E; have := popov2_top i i; rewrite E coef0 eqxx => /esym/eqP.
  by rewrite oner_eq0.
have [l [e [V Hle]]] := module_pivot BM DM (proj1 popov2_basis i) N.
have [[z Ez Nz] H] := V; rewrite mxE in Nz.
have Hz : (z <= dlt l)%N by rewrite leqNgt; apply: contra Nz => C; rewrite popov2_high.
have E : z = dlt l by have := dltE l; move: (s l) (t l) (dlt l) Ez Hle Hz => x y d; lia.
have El : l = i by apply: contraNeq Nz => N'; rewrite E popov2_top [i == l]eq_sym (negbTE N').
have Ee : e = t i by have := dltE l; rewrite -El; move: Ez; rewrite E; move: (s l) (t l) (dlt l) => x y d; lia.
by rewrite -Ee -[X in pvt _ _ X _]El.
Qed.

Lemma popov2_form : popov_form false s popov2.
Proof.
exists id => // i; have V := popov2_pvt i.
have S : size (popov2 i i) = (dlt i).+1.
  by have := pvt_size V; rewrite mxE; have := dltE i; move: (s i) (t i) (dlt i) (size _) => x y d z; lia.
split.
- by have [N [H1 H2]] : is_pivot (fun j : 'I_m => s j) (row i popov2) i by [apply/is_pivot_pvt; exists (t i)]; split.
- by rewrite monicE lead_coefE S /= popov2_top eqxx.
move=> k Nk; rewrite S ltnS; apply/leq_sizeP=> j; rewrite leq_eqVlt => /orP[/eqP<-|]; last exact: popov2_high.
by rewrite popov2_top (negbTE Nk).
Qed.
End Core.

(** the Popov basis is unique *)
Lemma owp_id (piv : 'I_m -> 'I_m) : increasing piv -> forall i, piv i = i.
Proof.
move=> inc i; suff [L1 L2] : (forall i : 'I_m, (i <= piv i)%N) /\ (forall i : 'I_m, (piv i <= i)%N).
  by apply/val_inj/eqP; rewrite eqn_leq /= L1 L2.
split=> -[k Hk].
  elim: k Hk => [//|k IH] Hk; have Hk' : (k < m)%N by lia.
  by have := IH Hk'; have := inc (Ordinal Hk') (Ordinal Hk) (ltnSn k) => /=; lia.
move: {2}(m - k)%N (leqnn (m - k)%N) => q; elim: q k Hk => [|q IH] k Hk Hq; first by lia.
case: (ltnP k.+1 m) => Hk1.
  have := IH _ Hk1 ltac:(lia); have := inc (Ordinal Hk) (Ordinal Hk1) (ltnSn k) => /=; lia.
by have := ltn_ord (piv (Ordinal Hk)) => /=; lia.
Qed.

Lemma owp_dinv s M : ordered_weak_popov_form false s M -> exists t, dinv s t M.
Proof.
case=> piv inc H; have D i : exists e, pvt (fun j : 'I_m => s j) (row i M) i e.
  by apply/is_pivot_pvt; have [] := H i; rewrite (owp_id inc).
have /fin_all_exists[e He] := D.
pose t (k : nat) := if insub k is Some i then e i else 0.
have tE (i : 'I_m) : t i = e i by rewrite /t valK.
exists t; split=> [i j k Nz|i].
  by have [_ /(_ j k)] := He i; rewrite mxE tE; apply.
by have [[z Ez Nz] _] := He i; exists z; rewrite ?tE //; move: Nz; rewrite mxE.
Qed.

Lemma popov_unique Q s M M' : basis_of Q M -> basis_of Q M' -> (forall v w, Q v -> Q w -> Q (v - w)) ->
  popov_form false s M -> popov_form false s M' -> M = M'.
Proof.
move=> B B' Qsub PM PM'.
have owp (N : 'M[{poly F}]_m) : popov_form false s N -> ordered_weak_popov_form false s N.
  by case=> piv inc H; exists piv => // i; case: (H i).
have [t D] := owp_dinv (owp _ PM); have [t' D'] := owp_dinv (owp _ PM').
have le (N N' : 'M[{poly F}]_m) (u u' : nat -> int) (i : 'I_m) : basis_of Q N -> basis_of Q N' -> dinv s u N -> dinv s u' N' -> u i <= u' i.
  move=> BN BN' DN DN'; have V := deg_inv_pvt i DN'.
  have NZ : row i N' != 0 by apply: contraNneq (pvt_nz V) => ->; rewrite mxE.
  have [k [e [V' L]]] := module_pivot BN DN (proj1 BN' i) NZ.
  by have [Ek Ee] := pvt_uniq V' V; rewrite Ek Ee in L.
have Et (i : 'I_m) : t i = t' i by apply/eqP; rewrite eq_le (le _ _ _ _ i B B' D D') (le _ _ _ _ i B' B D' D).
case: PM => piv inc H; case: PM' => piv' inc' H'.
apply/row_matrixP=> i; apply/eqP; rewrite -subr_eq0; apply: contraT => NZ.
have [k [e [V L]]] := module_pivot B D (Qsub _ _ (proj1 B i) (proj1 B' i)) NZ.
have Sz := pvt_size V; rewrite !mxE in Sz.
have Ss := dinv_size k D; have Ss' := dinv_size k D'.
have Lt : (size (M i k - M' i k)%R < size (M k k))%N.
  have [_ mo lo] := H k; have [_ mo' lo'] := H' k; rewrite (owp_id inc) in mo lo; rewrite (owp_id inc') in mo' lo'.
  have SE : size (M k k) = size (M' k k) by move: Ss Ss'; rewrite Et; move: (s k) (t' k) (size _) (size _) => x y z w; lia.
  case: (eqVneq i k) => [->|N].
    have S0 : (0 < size (M k k))%N by rewrite size_poly_gt0 monic_neq0.
    rewrite -[X in (_ < X)%N](prednK S0) ltnS; apply/leq_sizeP=> j Hj; rewrite coefB.
    case: (ltnP j (size (M k k))) => C.
      have -> : j = (size (M k k)).-1 by lia.
      by rewrite -lead_coefE SE -lead_coefE (monicP mo) (monicP mo') subrr.
    by rewrite !nth_default ?subrr // -SE.
  apply: leq_ltn_trans (size_add _ _) _; rewrite size_opp gtn_max lo //= SE; exact: lo'.
exfalso; move: Lt Ss Sz L; move: (s k) (t k) (size _) (size _) => x y z w; lia.
Qed.
End Popov.
