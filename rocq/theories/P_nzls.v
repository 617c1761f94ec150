(** C85: kernel bases by the algorithm of Zhou, Labahn and Storjohann (ntl-extras). *)
From Coq Require Import ZArith.
From mathcomp Require Import all_ssreflect all_algebra fraction zify.
From Verif Require Import A_base SpecA SpecForms SpecApp A_mbasis_abs A_kernel_model A_kernel_abs A_kernel_proof A_frac_proof A_zls_abs A_zls2_proof N_pmat_model N_trs_proof N_util_model N_util_proof
  N_forms_model N_forms_proof P_ntrs P_nforms P_nappbas N_popov_proof N_pmb_model P_nmb P_npmb N_ker_model N_ker_proof P_nker N_zls_proof N_zls2_proof.
Set Implicit Arguments.
Unset Strict Implicit.
Unset Printing Implicit Defensive.
Import Order.TTheory GRing.Theory Num.Theory.
Local Open Scope ring_scope.

Section P.
Variable F : fieldType.
Implicit Types (pm : pmat F) (shift : seq int).
Implicit Types (pmb : pmat F -> nat -> seq int -> fout (pmat F * seq int)).

(** pmb returns minimal approximant bases of pm, for every positive order and every shift *)
Definition pmb_right pmb pm : Prop := forall order shift, (0 < order)%N -> size shift = nr pm ->
  exists a t, pmb pm order shift = Ret (a, t) /\ mb_correct pm order shift a t.

(** the least difference between the shift and the degrees of the rows *)
Definition least_difference pm shift (c : int) : Prop := exists2 d : seq int, degrees_of (mat pm) None d &
  (forall i, (i < nr pm)%N -> c <= shift`_i - d`_i) /\ exists2 i, (i < nr pm)%N & c = shift`_i - d`_i.

(** one column: the rows are right; the degrees differ from the shifted degrees of the rows by a constant, which is zero if the matrix is
    zero or has less than two rows *)
Theorem C85_one_column pmb mul mid fuel pm shift : pmb_right pmb pm -> nc pm = 1%N -> size shift = nr pm ->
  returns (fun r => exists piv c, kernel_out pm shift r.1 piv [seq x + c | x <- r.2] /\
    (if (nr pm <= 1)%N || (plen pm == 0%N) then c = 0 else least_difference pm shift c)) (kernel_zls pmb mul mid fuel pm shift).
Proof.
move=> HP n1 Ss; set m := nr pm in Ss *.
have idE : plen pm = 0%N -> kernel_out pm shift (pm_ident (new_pmat F) m) (iota 0 m) [seq x + 0 | x <- shift].
  move=> E0; have [I1 I2 I3] := pm_identE (new_pmat F) m; rewrite (eq_map (fun x : int => addr0 x)) map_id.
  rewrite /kernel_out I1 I2 size_iota; split=> //; apply/mkbP.
  have AE : mx_of m (nc pm) (ent pm) = 0 by apply/matrixP=> i j; rewrite !mxE; have /zero_plen := E0; apply.
  have [M1 M2 M3] := mkb_identity AE (fun i : 'I_m => erefl (nth 0 shift i)).
  have ME : \matrix_(i < m, j < m) ent (pm_ident (new_pmat F) m) i j = mx_of m m (@fone _) by apply/matrixP=> i j; rewrite !mxE I3 ?ltn_ord // /fone; case: (_ == _).
  rewrite ME; split=> //; first by move=> i; have [j Ej V] := M2 i; exists j => //; rewrite nth_iota.
  by move=> i i' H; rewrite !nth_iota // ?add0n; have := M3 i i' H.
case: (ltngtP m 1) => m1.
- have m0 : m = 0%N by lia.
  exists (no_rows F m, [::]); first by case: fuel => [|f]; cbn [kernel_zls]; rewrite -/m m0 /full_rank0 -/m m0 /= ?(_ : _ == _) //; apply/eqP/eqP; rewrite -leqn0 rank_leq_row.
  exists [::], 0; split=> //; split=> //; apply/mkbP; apply: mkb_empty => v _; apply/rowP=> -[i Hi]; by exfalso; rewrite -/m m0 in Hi.
- case: (eqVneq (plen pm) 0%N) => [E0|N0] /=.
    exists (pm_ident (new_pmat F) m, shift); last by exists (iota 0 m), 0; split=> //; exact: idE.
    have Em : max_element (row_degree pm) = Some (-1).
      have [Sr Hr] := rowdegP pm; have [l [El] [_ Hl]] := @C78_row_degree _ pm None I.
      case Em: (max_element _) => [mr|]; last by move: Em; case: (row_degree pm) Sr => [|? ?] //= E; move: m1; rewrite /m -E.
      have [_ [j Hj ->]] := max_elementP Em; rewrite Sr in Hj; congr Some.
      have [_] := Hl (Ordinal Hj); rewrite /= -El; apply; apply/rowP=> c; rewrite !mxE; have /zero_plen := E0; apply=> //; by rewrite ltn_ord.
    by case: fuel => [|f]; cbn [kernel_zls]; rewrite -/m gtn_eqF // /full_rank0 -/m n1 leqNgt m1 [~~ _ && _]/= Em eqxx.
  set diff := diff_shift shift (row_degree pm); set s' := [seq x - diff | x <- shift].
  have Ss' : size s' = m by rewrite size_map.
  have [|k [piv [t [E E1 E2 E3 M]]]] := @one_columnP F pmb mul mid fuel pm shift n1 m1 N0 Ss.
    apply: HP => //; rewrite -/diff -/s'; have [|mx Eo [Hmx Mm]] := @order1P s'; first by rewrite Ss'; exact: ltnW.
    by rewrite Eo; move: (mx) => u; lia.
  exists (k, t) => //; exists piv, diff; split; last first.
    have [l [El] Hl] := @C78_row_degree _ pm None I; exists l => //; rewrite /= in El; rewrite -El.
    by have [|D1 D2] := @diffP shift (row_degree pm); [rewrite Ss; exact: ltnW|rewrite Ss in D1 D2; split].
  split=> //; first by rewrite size_map.
  apply/mkbP/mkb_kb; have [pi Ep KB] := (mkb_kb _ _ _ _ _).1 M; exists pi => //.
  have KB' : kb (fun i : 'I_m => shift`_i - diff) (mx_of m (nc pm) (ent pm)) (mx_of (nr k) m (ent k)) pi (fun i => t`_i).
    by apply: kb_ext KB => // i; rewrite (nth_map 0) ?Ss.
  by apply: kb_ext (kb_addc KB') => // i; rewrite (nth_map 0) ?E3.
- case: (eqVneq (plen pm) 0%N) => [E0|N0] /=.
    exists (pm_ident (new_pmat F) 1, shift); first by case: fuel => [|f]; cbn [kernel_zls]; rewrite -/m m1 E0.
    by exists (iota 0 m), 0; split=> //; rewrite -m1; exact: idE.
  exists (no_rows F 1, [::]); first by case: fuel => [|f]; cbn [kernel_zls]; rewrite -/m m1 N0.
  exists [::], 0; split=> //; split=> //; apply/mkbP; apply: mkb_empty0 => //.
  have NA : mx_of m (nc pm) (ent pm) != 0.
    apply: contraNneq N0 => H; apply/eqP/zero_plen => i j Hi Hj; by have /matrixP/(_ (Ordinal Hi) (Ordinal Hj)) := H; rewrite !mxE.
  have R m' (e : m' = 1%N) (B : 'M[{poly F}]_(m', nc pm)) : B != 0 -> forall v : 'rV_m', v *m B = 0 -> v = 0 by subst m'; exact: row1_kernel.
  exact: R NA.
Qed.

(** kernel_basis drops the degrees *)
Theorem C85_kernel_basis_one_column pmb mul mid fuel pm shift : pmb_right pmb pm -> nc pm = 1%N -> size shift = nr pm ->
  returns (fun kerbas => exists piv t, kernel_out pm shift kerbas piv t) (kernel_basis_zls pmb mul mid fuel pm shift).
Proof.
move=> HP n1 Ss; have [r E [piv [c [H _]]]] := C85_one_column mul mid fuel HP n1 Ss.
by exists r.1; [rewrite /kernel_basis_zls E|exists piv, [seq x + c | x <- r.2]].
Qed.

(** any number of columns: the function returns after at most as many nested calls as there are columns, never leaves the domains of the
    products that it calls, and the rows are in the kernel *)
Theorem C85_sound pmb mul mid fuel pm shift : mul_right mul -> mid_right mid -> pmb_good pmb -> (nc pm <= fuel)%N -> size shift = nr pm ->
  returns (fun r => [/\ nc r.1 = nr pm, size r.2 = nr r.1 & annihilates r.1 pm]) (kernel_zls pmb mul mid fuel pm shift).
Proof.
move=> MR DR PR Hf Ss; have [K [t [-> [S1 S2 S3]]]] := zls_sound MR DR PR Hf Ss; exists (K, t) => //; split=> //.
apply/matrixP=> i j; rewrite !mxE -[RHS](S3 i j) ?ltn_ord // /pprod S1; by apply: eq_bigr => k _; rewrite !mxE.
Qed.

(** the returned degrees are not the shifted degrees of the rows: the column (X, X), whose kernel is generated by (1, -1), with the shift 0 *)
Definition xx_mat : pmat F := Pmat 2 1 (fun _ _ => 'X).
Theorem C85_shift_refuted pmb mul mid fuel : pmb_right pmb xx_mat ->
  returns (fun r => (0 < nr r.1)%N /\ forall i : 'I_(nr r.1), ~ is_rdeg (fun j : 'I_2 => nth 0 [:: 0; 0] j) (\row_(j < 2) ent r.1 i j) (nth 0 r.2 i))
    (kernel_zls pmb mul mid fuel xx_mat [:: 0; 0]).
Proof.
move=> HP; have [r E [piv [c [[E1 E2 E3 M] C]]]] := C85_one_column mul mid fuel HP (erefl : nc xx_mat = 1%N) (erefl : size [:: 0 : int; 0] = nr xx_mat).
have Np : (plen xx_mat == 0%N) = false.
  by apply/negbTE/negP=> /eqP/zero_plen/(_ 0%N 0%N isT isT)/eqP; rewrite /= polyX_eq0.
have {C} [d [Sd Hd] [C1 [i0 Hi0 C2]]] : least_difference xx_mat [:: 0; 0] c by move: C; rewrite Np.
have d1 i : (i < 2)%N -> d`_i = 1.
  move=> Hi; have [H _] := Hd (Ordinal Hi); have N : row (Ordinal Hi) (mat xx_mat) != 0.
    by apply/eqP=> /rowP/(_ 0)/eqP; rewrite !mxE polyX_eq0.
  by have [_ [j _ <-]] := H N; rewrite !mxE /sdeg size_polyX.
have cE : c = -1 by rewrite C2 d1 //; case: (i0) Hi0 => [|[|]].
exists r => //; rewrite /= in E1 E2 E3 M; case: M => KB M2 M3 M4; split.
  rewrite lt0n; apply/eqP=> k0; move: KB; set K := (\matrix_(i < nr r.1, j < 2) _); case=> _ [G _].
  have [|w] := G (\row_(j < 2) if j == 0 then 1 else -1).
    by apply/rowP=> j; rewrite !mxE big_ord_recl big_ord1 !mxE /= mul1r mulN1r subrr.
  move/rowP/(_ 0); rewrite !mxE big1 => [/eqP|i _]; first by rewrite oner_eq0.
  by case: i => i Hi; exfalso; rewrite k0 in Hi.
move=> i H; have R := M4 i; have := rdeg_uniq H.
have -> : \row_(j < 2) ent r.1 i j = row i (\matrix_(i < nr r.1, j < 2) ent r.1 i j) by apply/rowP=> j; rewrite !mxE.
move/(_ _ R); rewrite (nth_map 0); last by move: E3; rewrite size_map => ->.
by rewrite cE; move: (r.2`_i) => u; lia.
Qed.

(** the exit at lines 473-486 can be taken although kernel rows are missing: the rows e0, e1, e2, 0, 0, e0 with the shift (0, 0, 0, 0, 0, 100) *)
Theorem C85_early_exit_refuted pmb mul mid fuel : pmb_right pmb (exit_mat F) ->
  returns (fun kerbas => nr kerbas = 2%N /\
    ~ kernel_basis (\matrix_(i < 6, j < 3) ent (exit_mat F) i j) (\matrix_(i < nr kerbas, j < 6) ent kerbas i j))
    (kernel_basis_zls pmb mul mid fuel (exit_mat F) exit_shift).
Proof.
move=> HP; have [k [t [E k2 Z]]] := exit_zls mul mid fuel (HP 69%N exit_shift isT erefl).
exists k; first by rewrite /kernel_basis_zls E.
split=> // -[_ [G _]]; have [|w] := G (delta_mx 0 (Ordinal (isT : (5 < 6)%N)) - delta_mx 0 0).
  by rewrite mulmxBl -!rowE; apply/rowP=> j; rewrite !mxE; case: j => [[|[|[|j]]] Hj] //=; rewrite subrr.
move/rowP/(_ (Ordinal (isT : (5 < 6)%N))); rewrite !mxE big1 => [/eqP|i _]; first by rewrite !eqxx /= subr0 oner_eq0.
by rewrite !mxE /= Z ?mulr0 // -k2.
Qed.
End P.

(** the hypotheses are met by the iterative algorithm (C79), over every field *)
Example C85_met (F : fieldType) (pm : pmat F) : pmb_right (fun pm o s =>
  if N_appbas_model.appbas_iterative (new_pmat F) pm (nseq (nc pm) o) s false is AOk r then Ret r else Undef) pm.
Proof. by move=> o s o0 Ss; exact: iterative_at. Qed.
(** those of C85_sound are met by the products of the definitions, and by pmbasis (C83) with these *)
Definition plain_mul (F : fieldType) (a b : pmat F) : fout (pmat F) := Ret (Pmat (nr a) (nc b) (pprod a b)).
Definition plain_mid (F : fieldType) (a c : pmat F) (dA dB : nat) : fout (pmat F) :=
  Ret (Pmat (nr a) (nc c) (fun i j => \poly_(k < dB.+1) (pprod a c i j)`_(dA + k))).
Example C85_sound_met (F : fieldType) ker img : kernel_ok ker -> image_ok img ->
  [/\ mul_right (@plain_mul F), mid_right (@plain_mid F) & pmb_good (pmbasis ker img (@plain_mid F) (@plain_mul F))].
Proof.
move=> KO IO; split=> [a b E|a c dA dB E _ _ _|pm o s o0 m0 Ss]; [by eexists| |].
  by eexists; first by []; split=> // i j k Hi Hj /=; rewrite coef_poly ltnS.
have MC : N_pmb_proof.mid_contract (nr pm) (nc pm) o (@plain_mid F).
  move=> a c dA dB E1 E2 E3 E4 _ _ _ _; eexists; first by []; rewrite /= E1 E4; split=> // i j k _ _ Hk; by rewrite coef_poly ltnS Hk.
have UC : N_pmb_proof.mul_contract (nr pm) o (@plain_mul F) by move=> a b E1 E2 E3 E4 _; eexists; first by []; split.
have [a [t [E H]]] := P_npmb.C83_pmbasis KO IO MC UC Ss o0 m0.
by exists a, t; split=> //; exact: (P_npmb.C83_degree KO IO MC UC Ss o0 m0 E).
Qed.
Print Assumptions C85_sound.
Print Assumptions C85_one_column.
Print Assumptions C85_kernel_basis_one_column.
Print Assumptions C85_shift_refuted.
Print Assumptions C85_early_exit_refuted.
