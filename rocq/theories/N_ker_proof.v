(** Correctness of the kernel bases by one approximant basis (ntl-extras). *)
From Coq Require Import ZArith.
From mathcomp Require Import all_ssreflect all_algebra fraction zify.
From Verif Require Import A_base SpecA SpecForms SpecApp A_mbasis_abs A_kernel_model A_kernel_abs A_kernel_proof N_pmat_model N_trs_proof N_util_model N_util_proof
  N_forms_model P_ntrs P_nforms P_nappbas N_popov_proof N_pmb_model P_nmb N_ker_model.
Set Implicit Arguments.
Unset Strict Implicit.
Unset Printing Implicit Defensive.
Import Order.TTheory GRing.Theory Num.Theory.
Local Open Scope ring_scope.

Section K.
Variable F : fieldType.
Implicit Types (pm a : pmat F) (shift t : seq int).

Lemma rdeg_uniq m (s : 'I_m -> int) (v : 'rV[{poly F}]_m) e e' : is_rdeg s v e -> is_rdeg s v e' -> e = e'.
Proof.
move=> [B1 [j1 N1 E1]] [B2 [j2 N2 E2]].
by apply/eqP; rewrite eq_le -{1}E1 B2 //= -E2 B1.
Qed.

Lemma minimal_dinv o m n (A : 'M[{poly F}]_(m, n)) (s t : nat -> int) (M : 'M[{poly F}]_m) : minimal_approx_basis (fun _ => o) A s t M ->
  approx_basis o A M /\ deg_inv (fun i : 'I_m => s i) (fun i : 'I_m => t i) M.
Proof.
move=> [B W R]; split=> //; have [t' D] := owp_dinv W.
apply: (deg_inv_ext _ _ D) => // i; apply: rdeg_uniq (R i).
exact: (deg_inv_rdeg i D).
Qed.

(** the selected rows of the approximant basis *)
Section Sel.
Variables (m n d N amp : nat) (A : 'M[{poly F}]_(m, n)) (P : fmat {poly F}) (s t : nat -> int).
Hypothesis PB : approx_basis N A (mx_of m m P).
Hypothesis PD : deg_inv (fun i : 'I_m => s i) (fun i : 'I_m => t i) (mx_of m m P).
Variable S : seq nat.
Variable p : pred nat.
Hypothesis SE : S = [seq i <- iota 0 m | p i].

Lemma SmemE i : (i \in S) = p i && (i < m)%N.
Proof. by rewrite SE mem_filter mem_iota. Qed.
Lemma Sm (a : 'I_(size S)) : (nth 0%N S a < m)%N.
Proof. by have := mem_nth 0%N (ltn_ord a); rewrite SmemE => /andP[]. Qed.
Definition sel_idx (a : 'I_(size S)) : 'I_m := Ordinal (Sm a).
Lemma sel_idx_inj : injective sel_idx.
Proof. by move=> a b /(congr1 val)/= /eqP; rewrite nth_uniq //; [move=> /eqP E; exact: val_inj | by rewrite SE; exact: selrows_uniq]. Qed.
Lemma sel_idxP (i : 'I_m) : (exists b : 'I_(size S), sel_idx b = i) <-> p i.
Proof.
split=> [[a <-]|Pi].
  by have := mem_nth 0%N (ltn_ord a); rewrite SmemE => /andP[].
have Si : (i : nat) \in S by rewrite SmemE Pi ltn_ord.
have Hi : (index (i : nat) S < size S)%N by rewrite index_mem.
by exists (Ordinal Hi); apply/val_inj; rewrite /= nth_index.
Qed.
Lemma sel_incr (a b : nat) : (a < b)%N -> (b < size S)%N -> (nth 0%N S a < nth 0%N S b)%N.
Proof.
move=> ab Hb; have So : sorted ltn S by rewrite SE; exact: selrows_sorted.
by have H := @sorted_ltn_nth _ ltn ltn_trans 0%N S So a b (ltn_trans ab Hb) Hb ab.
Qed.
Lemma sel_mkb (B : 'M[{poly F}]_(m, n)) : kernel_basis B (rowsub sel_idx (mx_of m m P)) ->
  mkb (fun i : 'I_m => s i) B (mx_of (size S) m (fun i => P (nth 0%N S i))) (nth 0%N S) (nth 0 [seq t i | i <- S]).
Proof.
move=> KB; have KE : mx_of (size S) m (fun i => P (nth 0%N S i)) = rowsub sel_idx (mx_of m m P) by apply/matrixP=> a j; rewrite !mxE.
split; first by rewrite KE.
  move=> a; exists (sel_idx a) => //; rewrite (nth_map 0%N) //.
  have -> : row a (mx_of (size S) m (fun i => P (nth 0%N S i))) = row (sel_idx a) (mx_of m m P) by apply/rowP=> j; rewrite !mxE.
  exact: (@deg_inv_pvt _ _ _ (fun i : 'I_m => t i) _ (sel_idx a) PD).
by move=> a b ab; exact: sel_incr.
Qed.
End Sel.

Definition pmb_at (pmb : pmat F -> nat -> seq int -> fout (pmat F * seq int)) pm order shift : Prop :=
  exists a t, pmb pm order shift = Ret (a, t) /\ mb_correct pm order shift a t.

Lemma amplitudeP shift m : size shift = m -> (0 < m)%N -> exists2 amp : int, amplitude shift = Ret amp &
  0 <= amp /\ forall i j, (i < m)%N -> (j < m)%N -> shift`_i - shift`_j <= amp.
Proof.
move=> Ss m0; have := C78_amplitude shift; case: shift Ss => [|x sh] Ss; first by rewrite -Ss in m0.
move=> [amp -> [i [j [Hi Hj E H]]]]; exists amp => //.
split; first by have /andP[] := H i Hi; rewrite E; lia.
by move=> i' j'; rewrite -Ss => Hi' Hj'; have /andP[_ h1] := H i' Hi'; have /andP[h2 _] := H j' Hj'; rewrite E; lia.
Qed.

Theorem via_approximationP pmb x pm shift : size shift = nr pm ->
  (forall amp, amplitude shift = Ret amp -> pmb_at pmb pm (kernel_via_order pm amp) shift) ->
  exists kerbas piv t, [/\ kernel_basis_via_approximation pmb x pm shift = Ret (kerbas, piv, t), nc kerbas = nr pm, size piv = nr kerbas, size t = nr kerbas &
    mkb (fun i : 'I_(nr pm) => nth 0 shift i) (mx_of (nr pm) (nc pm) (ent pm)) (mx_of (nr kerbas) (nr pm) (ent kerbas)) (nth 0%N piv) (nth 0 t)].
Proof.
move=> Ss HP; rewrite /kernel_basis_via_approximation.
set m := nr pm; set n := nc pm; set A := mx_of m n (ent pm).
case: ifP => [/eqP E0|/negbT N0].
  have [I1 I2 I3] := pm_identE x m; exists (pm_ident x m), (iota 0 m), shift; rewrite I1 I2 size_iota; split=> //.
  have AE : A = 0 by apply/matrixP=> i j; rewrite !mxE; have /zero_plen := E0; apply.
  have [M1 M2 M3] := mkb_identity AE (fun i : 'I_m => erefl (nth 0 shift i)).
  have ME : mx_of m m (ent (pm_ident x m)) = mx_of m m (@fone _) by apply/matrixP=> i j; rewrite !mxE I3 ?ltn_ord // /fone; case: (_ == _).
  rewrite ME; split=> //; first by move=> i; have [j Ej V] := M2 i; exists j => //; rewrite nth_iota.
  by move=> i i' H; rewrite !nth_iota // ?add0n; have := M3 i i' H.
case: ifP => [/eqP E1|N1].
  exists (no_rows F 1), [::], [::]; split=> //.
  apply: mkb_empty; rewrite /A; move: N0; rewrite /m /n in E1 *.
  have NA : (plen pm != 0)%N -> mx_of (nr pm) (nc pm) (ent pm) != 0.
    apply: contraNneq => H; apply/eqP/zero_plen => i j Hi Hj.
    by have /matrixP/(_ (Ordinal Hi) (Ordinal Hj)) := H; rewrite !mxE.
  move/NA; move: (mx_of _ _ _); rewrite E1; exact: row1_kernel.
case: ifP => [/andP[_ /eqP E2]|N2].
  exists (no_rows F m), [::], [::]; split=> //.
  apply: mkb_empty; apply: const_rank_kernel; rewrite -[RHS]E2; congr (\rank _).
  by apply/matrixP=> i j; rewrite !mxE.
have m0 : (0 < m)%N.
  rewrite lt0n; apply: contraNneq N0 => E; apply/eqP/zero_plen => i j; by rewrite -/m E.
have [amp Ea [amp0 Ha]] := amplitudeP Ss m0; rewrite Ea /=.
have [a [t [-> [[Q1 Q2 Q3] MB]]]] := HP _ Ea.
have [PB PD] := minimal_dinv MB.
set order := kernel_via_order pm amp; set d := (plen pm).-1;
  pose S := [seq i <- iota 0 m | t`_i - shift`_i + amp < order%:Z - d%:Z].
exists (take_rows a S), S, [seq t`_i | i <- S]; split; first by [].
- by rewrite /= Q2.
- by [].
- by rewrite /= size_map.
rewrite /=.
have dA i j : (size (A i j) <= d.+1)%N by rewrite mxE /d prednK ?lt0n //; exact: plen_size.
have ampE : (absz amp)%:Z = amp by rewrite gez0_abs.
have sA (i j : 'I_m) : nth 0 shift i - nth 0 shift j <= (absz amp)%:Z by rewrite ampE; apply: Ha.
have := @sel_mkb m n (ent a) (nth 0 shift) (nth 0 t) PD S (fun i => (t`_i - shift`_i + amp < order%:Z - d%:Z)) erefl A; apply.
apply: (kernel_rows_basis PB PD dA sA).
- rewrite /order /kernel_via_order -/n -/d; have : (minn m n * d <= n * d)%N by rewrite leq_mul2r geq_minr orbT.
  by rewrite mulSn; lia.
- exact: sel_idx_inj.
by move=> i; rewrite ampE; exact: sel_idxP.
Qed.
End K.
