(** C78: shifted degrees, pivots, leading matrices and forms of polynomial matrices (ntl-extras). *)
From mathcomp Require Import all_ssreflect all_algebra zify.
From Verif Require Import A_base SpecA SpecForms A_forms_proof A_forms2_proof A_reduced_proof N_pmat_model N_forms_model N_forms_proof.
Set Implicit Arguments.
Unset Strict Implicit.
Unset Printing Implicit Defensive.
Import Order.TTheory GRing.Theory Num.Theory.
Local Open Scope ring_scope.

Section P.
Variable F : fieldType.
Implicit Types (a : pmat F) (o : option (seq int)).

(** the matrix; the shift, zero for the functions without shift *)
Definition mat a : 'M[{poly F}]_(nr a, nc a) := \matrix_(i, j) ent a i j.
Definition sh o : nat -> int := if o is Some s then fun j => nth 0 s j else fun _ => 0.
(** a shift of the right length, which is not zero *)
Definition shift_ok (len : nat) o : Prop := if o is Some s then size s = len /\ (0 < len)%N else True.

(** *** the functions, with or without shift *)
Definition row_degrees a o := if o is Some s then row_degree_sh a s else Ret (row_degree a).
Definition col_degrees a o := if o is Some s then col_degree_sh a s else Ret (col_degree a).
Definition rpivots a o := if o is Some s then row_pivots_sh a s else Ret (row_pivots a).
Definition cpivots a o := if o is Some s then col_pivots_sh a s else Ret (col_pivots a).
Definition row_leading a o := if o is Some s then row_leading_matrix_sh a s else Ret (row_leading_matrix a).
Definition col_leading a o := if o is Some s then col_leading_matrix_sh a s else Ret (col_leading_matrix a).
Definition row_form (f : form) a o := if o is Some s then is_row_polmatform_sh f a s else is_row_polmatform f a.
Definition col_form (f : form) a o := if o is Some s then is_col_polmatform_sh f a s else is_col_polmatform f a.
Definition get_row_form a o := if o is Some s then get_row_polmatform_sh a s else get_row_polmatform a.
Definition get_col_form a o := if o is Some s then get_col_polmatform_sh a s else get_col_polmatform a.

(** *** specifications *)
(** the degree of a zero vector of length n: the minimum of the shift, minus one; -1 without shift *)
Definition zero_degree (n : nat) o (z : int) : Prop :=
  if o is Some s then (forall j, (j < n)%N -> z < nth 0 s j) /\ (exists2 j, (j < n)%N & z = nth 0 s j - 1) else z = -1.
(** l contains the shifted degrees of the rows *)
Definition degrees_of m n (M : 'M[{poly F}]_(m, n)) o (l : seq int) : Prop :=
  size l = m /\ forall i : 'I_m, (row i M != 0 -> is_rdeg (fun j : 'I_n => sh o j) (row i M) l`_i) /\ (row i M = 0 -> zero_degree n o l`_i).
(** (pivind, pivdeg) are the shifted pivot indices and degrees of the rows *)
Definition pivots_of m n (M : 'M[{poly F}]_(m, n)) o (p : seq int * seq int) : Prop :=
  [/\ size p.1 = m, size p.2 = m & forall i : 'I_m,
    (row i M = 0 -> nth 0 p.1 i = -1 /\ nth 0 p.2 i = -1) /\
    (row i M != 0 -> exists2 j : 'I_n, pivot_at false (sh o) (row i M) j & nth 0 p.1 i = j%:Z /\ nth 0 p.2 i = (size (M i j))%:Z - 1)].
(** the rows of M are in a form *)
Definition has_form (f : form) o m n (M : 'M[{poly F}]_(m, n)) : Prop :=
  match f with
  | NONE => True
  | REDUCED => reduced_form (sh o) M
  | WEAK_POPOV => weak_popov_form false (sh o) M
  | ORD_WEAK_POPOV => ordered_weak_popov_form false (sh o) M
  | POPOV => popov_form false (sh o) M
  | UNKNOWN => False
  end.
(** f is the strongest form of M *)
Definition strongest (f : form) o m n (M : 'M[{poly F}]_(m, n)) : Prop :=
  has_form f o M /\ forall g, has_form g o M -> (form_value g <= form_value f)%N.
(** r is a value x such that Q x *)
Definition returns (T : Type) (Q : T -> Prop) (r : fout T) : Prop := exists2 x, r = Ret x & Q x.

(** *** columns are the rows of the transpose *)
Definition tr a : pmat F := Pmat (nc a) (nr a) (fun i j => ent a j i).
Lemma mat_tr a : mat (tr a) = (mat a)^T.
Proof. by apply/matrixP=> i j; rewrite !mxE. Qed.
Lemma matE a : mat a = mx_of (nr a) (nc a) (ent a).
Proof. by []. Qed.
Lemma mapE (T : Type) (f : nat -> T) m : [seq f i | i <- iota 0 m] = mkseq f m.
Proof. by []. Qed.
Lemma zvec_row m n (B : fmat {poly F}) (i : 'I_m) : row i (mx_of m n B) = 0 <-> zvec (B i) n.
Proof. exact: row_zeroP. Qed.

Lemma with_shiftE (T : Type) s len (k : int -> T) : size s = len -> (0 < len)%N ->
  exists ms : int, [/\ with_shift len s k = Ret (k ms), (forall j, (j < len)%N -> ms <= nth 0 s j) & (exists2 j, (j < len)%N & ms = nth 0 s j)].
Proof.
move=> Es l0; rewrite /with_shift Es eqxx /=; case E : (min_element s) => [ms|]; last by move: l0; rewrite -Es; case: (s) E.
by have [H1 H2] := min_elementP E; rewrite Es in H1 H2; exists ms.
Qed.

(** *** C78: degrees *)
Theorem C78_row_degree a o : shift_ok (nc a) o -> returns (degrees_of (mat a) o) (row_degrees a o).
Proof.
case: o => [s [Es n0]|_] /=.
  rewrite /row_degree_sh; have [ms [-> Hms Ems]] := with_shiftE (fun ms => [seq line_degree_sh (ent a i) (nc a) s ms | i <- iota 0 (nr a)]) Es n0.
  eexists; first by []; rewrite mapE; split; first by rewrite size_mkseq.
  move=> i; rewrite nth_mkseq // matE; case: (@line_degree_shP _ (ent a i) _ _ _ Hms) => [[Z ->]|[D _]]; split.
  - by move/negP; case; apply/eqP/zvec_row.
  - move=> _; split; first by move=> j Hj; have := Hms j Hj; move: (nth _ _ _) => x; lia.
    by case: Ems => j Hj ->; exists j.
  - by move=> _; apply/is_rdegP.
  - by move/zvec_row=> Z; case: D => _ [j Hj []]; rewrite Z // eqxx.
eexists; first by []; rewrite /row_degree mapE; split; first by rewrite size_mkseq.
move=> i; rewrite nth_mkseq // matE; case: (@line_degreeP _ (ent a i) (nc a)) => [[Z ->]|D]; split=> //.
- by move/negP; case; apply/eqP/zvec_row.
- by move=> _; apply/is_rdegP.
- by move/zvec_row=> Z; case: D => _ [j Hj []]; rewrite Z // eqxx.
Qed.

Theorem C78_col_degree a o : shift_ok (nr a) o -> returns (degrees_of (mat a)^T o) (col_degrees a o).
Proof. by rewrite -mat_tr => H; have := C78_row_degree (a := tr a) H. Qed.

(** *** C78: degree matrices; without shift, and with *)
Lemma degree_matrixE a i j : degree_matrix a i j = (size (ent a i j))%:Z - 1.
Proof. by []. Qed.
Theorem C78_degree_matrix_shifted a s :
  (shift_ok (nc a) (Some s) -> returns (fun D : fmat int => forall i j, (i < nr a)%N -> (j < nc a)%N ->
    if ent a i j == 0 then zero_degree (nc a) (Some s) (D i j) else D i j = (size (ent a i j))%:Z - 1 + nth 0 s j) (degree_matrix_rowshifted a s)) /\
  (shift_ok (nr a) (Some s) -> returns (fun D : fmat int => forall i j, (i < nr a)%N -> (j < nc a)%N ->
    if ent a i j == 0 then zero_degree (nr a) (Some s) (D i j) else D i j = (size (ent a i j))%:Z - 1 + nth 0 s i) (degree_matrix_colshifted a s)).
Proof.
split=> -[Es n0].
  have [ms [E Hms [j0 Hj0 Ej0]]] := with_shiftE (fun ms (i j : nat) => if ent a i j == 0 then ms - 1 else pdeg (ent a i j) + nth 0 s j) Es n0.
  eexists; first exact: E; move=> i j _ _; cbv beta; case: (ent a i j == 0) => //; split; last by exists j0; rewrite ?Ej0.
  by move=> k Hk; have := Hms k Hk; move: (nth _ _ _) => x; lia.
have [ms [E Hms [j0 Hj0 Ej0]]] := with_shiftE (fun ms (i j : nat) => if ent a i j == 0 then ms - 1 else pdeg (ent a i j) + nth 0 s i) Es n0.
eexists; first exact: E; move=> i j _ _; cbv beta; case: (ent a i j == 0) => //; split; last by exists j0; rewrite ?Ej0.
by move=> k Hk; have := Hms k Hk; move: (nth _ _ _) => x; lia.
Qed.

(** *** C78: pivots *)
Lemma rpivotsE a o : shift_ok (nc a) o -> exists2 pv, good_pivots (sh o) (nc a) (ent a) pv &
  rpivots a o = Ret (mkseq (fun i => (pv i).2) (nr a), mkseq (fun i => (pv i).1) (nr a)).
Proof.
case: o => [s [Es n0]|_] /=.
  rewrite /row_pivots_sh; set k := fun ms : int => _.
  have [ms [-> Hms Ems]] := with_shiftE k Es n0.
  by exists (fun i => line_pivot_sh (ent a i) (nc a) s ms) => // i; exact: line_pivot_shP.
by exists (fun i => line_pivot (ent a i) (nc a)) => // i; exact: line_pivotP.
Qed.

Theorem C78_row_pivots a o : shift_ok (nc a) o -> returns (pivots_of (mat a) o) (rpivots a o).
Proof.
case/rpivotsE=> pv ok ->; eexists; first by []; split=> [||i] /=; rewrite ?size_mkseq ?nth_mkseq // matE.
case: (ok i) => [[Z ->]|[j P ->]]; split=> //.
- by move/negP; case; apply/eqP/zvec_row.
- by move/zvec_row=> Z; case: P => Hj; rewrite Z // eqxx.
by move=> _; have Hj : (j < nc a)%N by [case: P]; exists (Ordinal Hj); [apply/pivot_atP|rewrite mxE].
Qed.

Theorem C78_col_pivots a o : shift_ok (nr a) o -> returns (pivots_of (mat a)^T o) (cpivots a o).
Proof. by rewrite -mat_tr => H; have := C78_row_pivots (a := tr a) H. Qed.

(** *** C78: leading matrices *)
Theorem C78_row_leading_matrix a o : shift_ok (nc a) o ->
  returns (fun L : fmat F => leading_matrix_of (sh o) (mat a) (\matrix_(i < nr a, j < nc a) L i j)) (row_leading a o).
Proof.
move=> /C78_row_degree[l El [Sl Hl]].
have [L EL HL] : exists2 L, row_leading a o = Ret L & forall r c,
    L r c = if (ent a r c != 0) && (pdeg (ent a r c) + sh o c == l`_r) then (ent a r c)`_(`|pdeg (ent a r c)|) else 0.
  case: o El {Hl} => [s|] /=; first by rewrite /row_leading_matrix_sh => ->; eexists.
  by case=> <-; exists (row_leading_matrix a) => // r c; rewrite addr0.
exists L => // i; have [H1 H2] := Hl i; split=> [/zvec_row Z|t D j].
  by apply/rowP=> j; rewrite !mxE HL Z // eqxx.
have Nz : row i (mat a) != 0 by case: D => _ [k Nk _]; apply: contraNneq Nk => ->; rewrite mxE.
have {H2} := H1 Nz; rewrite matE => /is_rdegP D1; move: D; rewrite matE => /is_rdegP D; have {D1} Et := vdeg_uniq D1 D; rewrite !mxE HL Et.
have [U _] := D; have Uj := U j (ltn_ord j); move: (ent a i j) Uj => f Uj; case: (eqVneq f 0) => [->|N]; first by rewrite !coef0 /=; case: ifP.
have N' := N; rewrite -pdeg_ge0 in N'; have {}Uj := Uj N; rewrite /= in Uj *; rewrite (_ : sh o j <= t); last lia.
case: eqP => [E|E]; first by congr (f`_ _); lia.
by rewrite nth_default //; rewrite /pdeg in N' Uj E; move: N' Uj E; clear; move: (size f) (sh o j) t => x y z; lia.
Qed.

Theorem C78_col_leading_matrix a o : shift_ok (nr a) o ->
  returns (fun L : fmat F => leading_matrix_of (sh o) (mat a)^T (\matrix_(i < nr a, j < nc a) L i j)^T) (col_leading a o).
Proof.
rewrite -mat_tr => H; have [L E HL] := C78_row_leading_matrix (a := tr a) H.
exists (fun i j => L j i); last by rewrite (_ : _^T = \matrix_(i < nc a, j < nr a) L i j) //; apply/matrixP=> i j; rewrite !mxE.
case: o E {H HL} => [s|]; last by case=> <-.
rewrite /row_leading /row_leading_matrix_sh /col_leading /col_leading_matrix_sh (_ : row_degree_sh (tr a) s = col_degree_sh a s) //.
by case: (col_degree_sh a s) => //= l [<-].
Qed.

(** *** C78: tests of the forms *)
Lemma reducedE a o : shift_ok (nc a) o ->
  returns (fun b : bool => b <-> reduced_form (sh o) (mat a)) (row_form REDUCED a o).
Proof.
move=> /C78_row_leading_matrix[L EL HL].
exists (\rank (mx_of (nr a) (nc a) L) == nr a); first by case: o EL {HL} => [s|[<-]] //=; rewrite /is_row_reduced_sh => ->.
split=> [H|[L' HL']]; first by exists (mx_of (nr a) (nc a) L).
by rewrite (leading_uniq HL' HL).
Qed.

Lemma row_testE a o (f : seq int -> bool) (Q : Prop) : shift_ok (nc a) o ->
  (forall pv, good_pivots (sh o) (nc a) (ent a) pv -> f (mkseq (fun i => (pv i).2) (nr a)) <-> Q) ->
  returns (fun b : bool => b <-> Q) (fmap_out (fun p : seq int * seq int => f p.1) (rpivots a o)).
Proof. by case/rpivotsE=> pv ok -> H; eexists; [reflexivity|exact: H]. Qed.

Lemma row_popov_checksP a o pv : good_pivots (sh o) (nc a) (ent a) pv ->
  row_popov_checks a (mkseq (fun i => (pv i).2) (nr a), mkseq (fun i => (pv i).1) (nr a)) <-> popov_form false (sh o) (mat a).
Proof.
move=> ok; rewrite /row_popov_checks [_.1]/= [_.2]/=; have := ordered_checksP (nr a) ok; case: ordered_checks => -[O1 O2]; last first.
  by split=> // -[piv I Hp]; apply: O2; exists piv => // i; case: (Hp i).
have {}O1 := O1 isT; have Hp := ordered_fpiv ok O1; have C := popov_checksP Hp O1; rewrite -[mx_of _ _ _]/(mat a) in C.
apply: (iff_trans _ C); rewrite /popov_checks /=.
rewrite (_ : has _ _ = ~~ all (fun i => ent a i `|(pv i).2|%N \is monic) (iota 0 (nr a))); last first.
  rewrite -has_predC; apply: eq_in_has => i; rewrite mem_iota add0n => /andP[_ Hi] /=; by rewrite nth_mkseq // is_monicE.
case: (all _ _) => //=; rewrite (_ : has _ _ = ~~ all (fun i => all (fun ii => ~~ ((i != ii) && ((pv i).1 <= pdeg (ent a ii `|(pv i).2|%N)))) (iota 0 (nr a))) (iota 0 (nr a))); first by case: (all _ _).
rewrite -[RHS]has_predC; apply: eq_in_has => j; rewrite mem_iota add0n => /andP[_ Hj] /=; rewrite !nth_mkseq //.
by rewrite (has_splitE (fun i => (pv j).1 <= pdeg (ent a i `|(pv j).2|%N)) Hj).
Qed.

Theorem C78_is_row_form a o f : shift_ok (nc a) o -> f <> UNKNOWN ->
  returns (fun b : bool => b <-> has_form f o (mat a)) (row_form f a o).
Proof.
move=> Ho; case: f => // _.
- by exists true => //; case: o Ho.
- exact: reducedE.
- by have := row_testE Ho (fun pv ok => weak_checksP (nr a) ok); case: o Ho.
- by have := row_testE Ho (fun pv ok => ordered_checksP (nr a) ok); case: o Ho.
have [pv ok E] := rpivotsE Ho; eexists; last exact: (row_popov_checksP ok).
by case: o Ho E {ok} => [s|] _ /=; [rewrite /is_row_popov_sh => ->|rewrite /is_row_popov; case: (row_pivots a) => p1 p2 [-> ->]].
Qed.

(** *** columns *)
Lemma col_reducedE a o : shift_ok (nr a) o -> returns (fun b : bool => b <-> reduced_form (sh o) (mat a)^T) (col_form REDUCED a o).
Proof.
move=> /C78_col_leading_matrix[L EL HL].
exists (\rank (mx_of (nr a) (nc a) L) == nc a); first by case: o EL {HL} => [s|[<-]] //=; rewrite /is_col_reduced_sh => ->.
split=> [H|[L' HL']]; first by exists (mx_of (nr a) (nc a) L)^T => //; rewrite /row_free mxrank_tr.
by rewrite (leading_uniq HL' HL) /row_free mxrank_tr.
Qed.

Theorem C78_is_col_form a o f : shift_ok (nr a) o -> f <> UNKNOWN -> f <> POPOV ->
  returns (fun b : bool => b <-> has_form f o (mat a)^T) (col_form f a o).
Proof.
move=> Ho; case: f => // _ _.
- by exists true => //; case: o Ho.
- exact: col_reducedE.
- by have [b E H] := C78_is_row_form (a := tr a) (f := WEAK_POPOV) Ho (fun e => match e with end); exists b; [case: o Ho E {H}|rewrite -mat_tr].
- by have [b E H] := C78_is_row_form (a := tr a) (f := ORD_WEAK_POPOV) Ho (fun e => match e with end); exists b; [case: o Ho E {H}|rewrite -mat_tr].
Qed.

(** the column-wise Popov test *)
Lemma run_some (l : seq bool) : run_tests [seq Some b | b <- l] = Ret (~~ has id l).
Proof. by elim: l => //= b l ->; case: b. Qed.

Lemma run_undef (l : seq (option bool)) : Some true \notin l -> None \in l -> run_tests l = Undef.
Proof. by elim: l => //= -[[]|] l IH //; rewrite !inE //= => H1 H2; exact: IH. Qed.

Lemma col_testsE a p : nr a = nc a -> col_popov_tests a p = [seq Some b | b <- flatten
  [seq [seq nth 0 p.2 i <= pdeg (ent a (absz (nth 0 p.1 i)) j) | j <- iota 0 i] ++
       [seq nth 0 p.2 i <= pdeg (ent a (absz (nth 0 p.1 i)) j) | j <- iota i.+1 (nr a - i.+1)] | i <- iota 0 (nc a)]].
Proof.
move=> E; rewrite /col_popov_tests map_flatten -map_comp; congr flatten; apply/eq_in_map=> i; rewrite mem_iota add0n => /andP[_ Hi].
by rewrite /= map_cat -!map_comp; congr (_ ++ _); apply/eq_in_map=> j; rewrite mem_iota /= => Hj; rewrite ifT //; lia.
Qed.

Lemma has_flatten (T : Type) (t : pred T) (ss : seq (seq T)) : has t (flatten ss) = has (has t) ss.
Proof. by elim: ss => //= l ss IH; rewrite has_cat IH. Qed.

Lemma col_popov_square a p : nr a = nc a -> col_popov_checks a p = Ret (row_popov_checks (tr a) p).
Proof.
move=> E; rewrite /col_popov_checks /row_popov_checks; case: ifP => // _.
case: ifP => _ //; rewrite col_testsE // run_some; congr Ret.
rewrite (_ : has id _ = has (fun j => has (fun i => nth 0 p.2 j <= pdeg (ent (tr a) i (absz (nth 0 p.1 j)))) (iota 0 j) ||
    has (fun i => nth 0 p.2 j <= pdeg (ent (tr a) i (absz (nth 0 p.1 j)))) (iota j.+1 (nr (tr a) - j.+1))) (iota 0 (nr (tr a)))).
  by case: (has _ _).
rewrite has_flatten has_map; apply: eq_has => i; by rewrite /= has_cat !has_map E.
Qed.

Lemma cpivotsE a o : cpivots a o = rpivots (tr a) o.
Proof. by case: o. Qed.
Lemma col_popovE a o : col_form POPOV a o = match cpivots a o with Ret p => col_popov_checks a p | Throws => Throws | Undef => Undef end.
Proof. by case: o. Qed.

Lemma ordered_le o m n (M : 'M[{poly F}]_(m, n)) : ordered_weak_popov_form false (sh o) M -> (m <= n)%N.
Proof.
case=> piv I _; have inj : injective piv.
  by move=> i i' E; apply: val_inj; case: (ltngtP i i') => // L; have := I _ _ L; rewrite E ltnn.
by have := leq_card piv inj; rewrite !card_ord.
Qed.

Lemma popov_ordered o m n (M : 'M[{poly F}]_(m, n)) : popov_form false (sh o) M -> ordered_weak_popov_form false (sh o) M.
Proof. by case=> piv I H; exists piv => // i; case: (H i). Qed.

Theorem C78_is_col_popov a o : shift_ok (nr a) o -> (nr a <= nc a)%N \/ nc a = 0%N ->
  returns (fun b : bool => b <-> has_form POPOV o (mat a)^T) (col_form POPOV a o).
Proof.
move=> Ho Hd; rewrite col_popovE cpivotsE; have [pv ok ->] := @rpivotsE (tr a) o Ho.
have Hc := row_popov_checksP ok; rewrite mat_tr in Hc.
case: (eqVneq (nr a) (nc a)) => [E|NE]; first by rewrite col_popov_square //; eexists; first by [].
case: (posnP (nc a)) => [E0|n0].
  exists true; last by split=> // _; rewrite /=; move: (mat a)^T; rewrite E0 => M; have no : 'I_0 -> False := (fun i => notF (ltn_ord i)); exists (fun i : 'I_0 => match no i with end); case.
  by rewrite /col_popov_checks /col_popov_tests [nr (tr a)]/= E0.
have L : (nr a < nc a)%N by case: Hd; lia.
exists false; last by split=> // /popov_ordered/ordered_le; lia.
rewrite /col_popov_checks; have := ordered_checksP (nc a) ok; rewrite [(_, _).1]/=; case: (ordered_checks _) => // -[/(_ isT) O _].
by have := @ordered_le o _ _ _ O; rewrite /=; lia.
Qed.

(** a matrix with more rows than columns, in column-wise Popov form: entries outside of the matrix are read *)
Theorem C78_col_popov_refuted a o : shift_ok (nr a) o -> (0 < nc a < nr a)%N -> popov_form false (sh o) (mat a)^T ->
  col_form POPOV a o = Undef /\ get_col_form a o = Undef.
Proof.
move=> Ho /andP[n0 Hd] HP.
have E : col_form POPOV a o = Undef; last first.
  by split=> //; case: o E {Ho HP} => [s|] /=; rewrite /get_col_polmatform /get_col_polmatform_sh => ->.
rewrite col_popovE cpivotsE; have [pv ok ->] := @rpivotsE (tr a) o Ho.
have Hc := row_popov_checksP ok; rewrite mat_tr in Hc; move: (proj2 Hc HP); rewrite /row_popov_checks /col_popov_checks.
case: ifP => // _; case: ifP => // _; case: ifP => // /negbT/hasPn T _; apply: run_undef.
  apply/negP=> /flattenP[l /mapP[i Hi ->]]; rewrite mem_cat => /orP[] /mapP[j Hj]; have := T i Hi; rewrite negb_or => /andP[/hasPn T1 /hasPn T2].
    by case: ifP => // _ [] /esym; apply/negP; apply: T1.
  case: ifP => // C [] /esym; apply/negP; apply: T2; move: Hj; rewrite !mem_iota /=; move: C; clear; lia.
apply/flattenP; eexists; first by apply/mapP; exists 0%N; rewrite ?mem_iota ?n0.
rewrite mem_cat; apply/orP; right; apply/mapP; exists (nc a); first by rewrite mem_iota; lia.
by rewrite ltnn.
Qed.

(** *** C78: the strongest form *)
Lemma form_chain f g o m n (M : 'M[{poly F}]_(m, n)) : has_form g o M -> (form_value f <= form_value g)%N -> has_form f o M.
Proof.
have PO : popov_form false (sh o) M -> ordered_weak_popov_form false (sh o) M := @popov_ordered o m n M.
have OW : ordered_weak_popov_form false (sh o) M -> weak_popov_form false (sh o) M.
  case=> piv I H; exists piv => // i i' E; apply: val_inj; case: (ltngtP i i') => // L; by have := I _ _ L; rewrite E ltnn.
have WR : weak_popov_form false (sh o) M -> reduced_form (sh o) M by exact: weak_popov_reduced.
by case: g => //=; case: f => //=; auto.
Qed.

Lemma first_formE (tests : form -> fout bool) o m n (M : 'M[{poly F}]_(m, n)) :
  (forall f, f <> UNKNOWN -> returns (fun b : bool => b <-> has_form f o M) (tests f)) ->
  returns (fun f => strongest f o M) (first_form (tests POPOV) POPOV (first_form (tests ORD_WEAK_POPOV) ORD_WEAK_POPOV
    (first_form (tests WEAK_POPOV) WEAK_POPOV (first_form (tests REDUCED) REDUCED (Ret NONE))))).
Proof.
move=> H; have [[] -> [A1 A2]] := H POPOV (fun e => match e with end); rewrite /first_form.
  by exists POPOV => //; split; [exact: A1|case].
have {A1}A2 : ~ has_form POPOV o M by move/A2.
have [[] -> [B1 B2]] := H ORD_WEAK_POPOV (fun e => match e with end).
  by exists ORD_WEAK_POPOV => //; split; [exact: B1|case].
have {B1}B2 : ~ has_form ORD_WEAK_POPOV o M by move/B2.
have [[] -> [C1 C2]] := H WEAK_POPOV (fun e => match e with end).
  by exists WEAK_POPOV => //; split; [exact: C1|case].
have {C1}C2 : ~ has_form WEAK_POPOV o M by move/C2.
have [[] -> [D1 D2]] := H REDUCED (fun e => match e with end).
  by exists REDUCED => //; split; [exact: D1|case].
have {D1}D2 : ~ has_form REDUCED o M by move/D2.
by exists NONE => //; split=> //; case.
Qed.

Theorem C78_get_row_form a o : shift_ok (nc a) o -> returns (fun f => strongest f o (mat a)) (get_row_form a o).
Proof.
by move=> Ho; have := first_formE (fun f => C78_is_row_form (a := a) (f := f) Ho); case: o Ho.
Qed.

Theorem C78_get_col_form a o : shift_ok (nr a) o -> (nr a <= nc a)%N \/ nc a = 0%N ->
  returns (fun f => strongest f o (mat a)^T) (get_col_form a o).
Proof.
move=> Ho Hd; have : forall f, f <> UNKNOWN -> returns (fun b : bool => b <-> has_form f o (mat a)^T) (col_form f a o).
  move=> f Hf; case: (f) (Hf) => [|||||] // H; try by apply: C78_is_col_form.
  exact: C78_is_col_popov.
by move/first_formE; case: o Ho.
Qed.

(** each form implies the weaker ones *)
Theorem C78_chain f g o m n (M : 'M[{poly F}]_(m, n)) : has_form g o M -> (form_value f <= form_value g)%N -> has_form f o M.
Proof. exact: form_chain. Qed.

(** *** C78: the length of the shift *)
(** what the functions give for a shift s: all of them the same exception or undefined behaviour *)
Definition row_all a (s : seq int) (e : forall T, fout T) : Prop :=
  [/\ row_degree_sh a s = e _, row_pivots_sh a s = e _, degree_matrix_rowshifted a s = e _, row_leading_matrix_sh a s = e _ &
      (forall f, f <> NONE -> f <> UNKNOWN -> is_row_polmatform_sh f a s = e _) /\ get_row_polmatform_sh a s = e _].
Definition col_all a (s : seq int) (e : forall T, fout T) : Prop :=
  [/\ col_degree_sh a s = e _, col_pivots_sh a s = e _, degree_matrix_colshifted a s = e _, col_leading_matrix_sh a s = e _ &
      (forall f, f <> NONE -> f <> UNKNOWN -> is_col_polmatform_sh f a s = e _) /\ get_col_polmatform_sh a s = e _].

Theorem C78_wrong_length a s :
  (size s <> nc a -> row_all a s (@Throws)) /\ (size s <> nr a -> col_all a s (@Throws)) /\
  (is_row_polmatform UNKNOWN a = Throws /\ is_col_polmatform UNKNOWN a = Throws).
Proof.
have W T len (k : int -> T) : size s <> len -> with_shift len s k = Throws by rewrite /with_shift => /eqP ->.
have D1 := @W _ (nc a); have D2 := @W _ (nr a).
split=> [H|]; last split=> // H.
  have P := W _ _ (fun ms => let piv i := line_pivot_sh (ent a i) (nc a) s ms in
    ([seq (piv i).2 | i <- iota 0 (nr a)], [seq (piv i).1 | i <- iota 0 (nr a)])) H.
  have D := W _ _ (fun ms => [seq line_degree_sh (ent a i) (nc a) s ms | i <- iota 0 (nr a)]) H.
  rewrite -/(row_pivots_sh a s) in P; rewrite -/(row_degree_sh a s) in D.
  have L : row_leading_matrix_sh a s = Throws by rewrite /row_leading_matrix_sh D.
  split=> //; first exact: W.
  by split; [case=> //=|]; rewrite /get_row_polmatform_sh /is_row_reduced_sh /is_row_weak_popov_sh /is_row_ordered_weak_popov_sh /is_row_popov_sh ?P ?L.
have P := W _ _ (fun ms => let piv j := line_pivot_sh (pcol a j) (nr a) s ms in
  ([seq (piv i).2 | i <- iota 0 (nc a)], [seq (piv i).1 | i <- iota 0 (nc a)])) H.
have D := W _ _ (fun ms => [seq line_degree_sh (pcol a j) (nr a) s ms | j <- iota 0 (nc a)]) H.
rewrite -/(col_pivots_sh a s) in P; rewrite -/(col_degree_sh a s) in D.
have L : col_leading_matrix_sh a s = Throws by rewrite /col_leading_matrix_sh D.
split=> //; first exact: W.
by split; [case=> //=|]; rewrite /get_col_polmatform_sh /is_col_reduced_sh /is_col_weak_popov_sh /is_col_ordered_weak_popov_sh /is_col_popov_sh ?P ?L.
Qed.

(** an empty shift, of the right length zero: the minimum of an empty vector is read *)
Theorem C78_empty_shift_refuted a :
  (nc a = 0%N -> row_all a [::] (@Undef)) /\ (nr a = 0%N -> col_all a [::] (@Undef)).
Proof.
have W T (k : int -> T) : with_shift 0 [::] k = Undef by [].
by split=> H; (split; [| | | |split; [case=> //=|]]);
  rewrite /get_row_polmatform_sh /is_row_reduced_sh /is_row_weak_popov_sh /is_row_ordered_weak_popov_sh /is_row_popov_sh
    /get_col_polmatform_sh /is_col_reduced_sh /is_col_weak_popov_sh /is_col_ordered_weak_popov_sh /is_col_popov_sh
    /row_leading_matrix_sh /col_leading_matrix_sh /row_degree_sh /col_degree_sh /row_pivots_sh /col_pivots_sh
    /degree_matrix_rowshifted /degree_matrix_colshifted ?H ?W.
Qed.
End P.

(** *** C78: amplitude *)
Theorem C78_amplitude (s : seq int) : if s is [::] then amplitude s = Undef else
  returns (fun d => exists i j, [/\ (i < size s)%N, (j < size s)%N, d = nth 0 s i - nth 0 s j &
    forall k, (k < size s)%N -> nth 0 s j <= nth 0 s k <= nth 0 s i]) (amplitude s).
Proof.
case: s => // x s; rewrite /amplitude; case E1 : (min_element (x :: s)) => [mn|] //; case E2 : (max_element (x :: s)) => [mx|] //.
have [A1 [j Hj Ej]] := min_elementP E1; have [B1 [i Hi Ei]] := max_elementP E2.
exists (mx - mn) => //; exists i, j; split=> //; first by rewrite Ei Ej.
by move=> k Hk; apply/andP; split; [rewrite -Ej; exact: A1|rewrite -Ei; exact: B1].
Qed.

(** a matrix with two rows and one column in column-wise Popov form, without shift and with the shift (0, 5): the pivots differ *)
Example C78_met (F : fieldType) : let a := Pmat 2 1 (fun i _ => if i == 0%N then 'X^2 else 'X : {poly F}) in
  [/\ (0 < nc a < nr a)%N, shift_ok (nr a) (Some [:: 0; 5%:Z]), popov_form false (sh None) (mat a)^T & popov_form false (sh (Some [:: 0; 5%:Z])) (mat a)^T].
Proof.
have N1 : ('X : {poly F}) != 0 by rewrite polyX_eq0.
have N2 : ('X^2 : {poly F}) != 0 by rewrite expf_neq0.
split=> //.
- exists (fun _ => 0) => [i i'|i]; rewrite !ord1 //; split=> [||i']; rewrite ?mxE ?monicXn ?ord1 ?eqxx //.
  by split=> [|k|k]; rewrite !mxE //; case: k => -[|[|k]] Hk //= _; rewrite /sdeg ?size_polyX ?size_polyXn.
- exists (fun _ => 1) => [i i'|i]; rewrite !ord1 //; split=> [||i']; rewrite ?mxE ?monicX ?ord1 ?eqxx //.
  by split=> [|k|k]; rewrite !mxE //; case: k => -[|[|k]] Hk //= _; rewrite /sdeg ?size_polyX ?size_polyXn.
Qed.

Print Assumptions C78_row_degree.
Print Assumptions C78_col_degree.
Print Assumptions C78_degree_matrix_shifted.
Print Assumptions C78_row_pivots.
Print Assumptions C78_col_pivots.
Print Assumptions C78_row_leading_matrix.
Print Assumptions C78_col_leading_matrix.
Print Assumptions C78_is_row_form.
Print Assumptions C78_is_col_form.
Print Assumptions C78_is_col_popov.
Print Assumptions C78_col_popov_refuted.
Print Assumptions C78_get_row_form.
Print Assumptions C78_get_col_form.
Print Assumptions C78_wrong_length.
Print Assumptions C78_empty_shift_refuted.
Print Assumptions C78_amplitude.
