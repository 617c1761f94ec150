(** Forms of polynomial matrices: the tests against their specifications. *)
From mathcomp Require Import all_ssreflect all_algebra zify.
From Verif Require Import A_base SpecA SpecForms A_forms_model A_forms_proof.
Set Implicit Arguments.
Unset Strict Implicit.
Unset Printing Implicit Defensive.
Import Order.TTheory GRing.Theory Num.Theory.
Local Open Scope ring_scope.

Section Ints.
Lemma iota_ord m (i : 'I_m) : (i : nat) \in iota 0 m.
Proof. by rewrite mem_iota ltn_ord. Qed.

Lemma mono_from (f : nat -> int) a b : (forall i, (a <= i)%N -> (i.+1 < b)%N -> f i < f i.+1) ->
  forall i i', (a <= i)%N -> (i < i')%N -> (i' < b)%N -> f i < f i'.
Proof.
move=> H i i' Ha L Hb; have -> : i' = (i + (i' - i.+1)).+1 by lia.
have : (i + (i' - i.+1).+1 < b)%N by lia.
elim: (i' - i.+1)%N => [|k IH] Hk; first by rewrite addn0; apply: H; lia.
apply: lt_trans (IH _) _; first by lia.
by rewrite -addnS; apply: H; lia.
Qed.

Lemma piv_checksP (l : seq int) (z : nat) :
  (forall x, x \in l -> -1 <= x <= z%:Z) ->
  piv_checks l (size l) z%:Z = all (fun x => 0 <= x < z%:Z) l && sorted (fun x y : int => x < y) l.
Proof.
move=> R.
have Hs : all (fun i => ~~ (nth 0%:Z l i.+1 <= nth 0%:Z l i)) (iota 0 (size l - 1))
        = sorted (fun x y : int => x < y) l.
  apply/allP/(sortedP 0%:Z) => [H i Hi|H i].
    by have := H i; rewrite mem_iota ltNge; apply; lia.
  by rewrite mem_iota -ltNge => Hi; apply: H; lia.
rewrite /piv_checks Hs; case: (posnP (size l)) => [|L].
  by case: l {R Hs}.
rewrite subn1 nth_last /=.
case: (boolP (sorted _ l)) => [S|_]; last by rewrite andbF /=; case: ifP.
rewrite andbT /=; set a := nth 0%:Z l 0; set b := last 0%:Z l.
have mono i i' : (i < i')%N -> (i' < size l)%N -> nth 0%:Z l i < nth 0%:Z l i'.
  move=> Li Li'; apply: (mono_from (a := 0%N) (b := size l)) => // k _ Hk.
  by move/(sortedP 0%:Z): S; exact.
have Hb : b \in l by rewrite /b -nth_last mem_nth // prednK.
have Ha : a \in l by exact: mem_nth.
case: eqP => [E|/eqP NE].
  by apply/esym/allP => /(_ _ Ha); rewrite E.
case: eqP => [E|/eqP NEb].
  by apply/esym/allP => /(_ _ Hb); rewrite E ltxx andbF.
apply/esym/allP => x Hx.
have Hx' := R _ Hx; case: (boolP (0 <= x < z%:Z)) => // Nx; exfalso.
have Hi : (index x l < size l)%N by rewrite index_mem.
have Ex : nth 0%:Z l (index x l) = x by exact: nth_index.
have : x = -1 \/ x = z%:Z by move: Nx Hx'; lia.
case=> E.
  case: (posnP (index x l)) => [Z|P].
    by move: NE; rewrite Z E in Ex; rewrite /a Ex eqxx.
  by have := mono _ _ P Hi; rewrite Ex E; have := R _ Ha; rewrite /a; lia.
case: (ltngtP (index x l) (size l).-1) => [Z|Z|Z].
- have := mono _ _ Z ltac:(lia); rewrite Ex E nth_last -/b.
  by have := R _ Hb; lia.
- by move: Hi Z; lia.
- by move: NEb; rewrite Z E nth_last in Ex; rewrite /b Ex eqxx.
Qed.
End Ints.

Section Mat.
Variable F : fieldType.
Implicit Types (A B : fmat {poly F}) (s : nat -> int).

Lemma sdegE s (p : {poly F}) (j : nat) : sdeg (s j) p = pdeg p + s j.
Proof. by []. Qed.

Lemma pivot_atP up s m n B (i : 'I_m) (j : 'I_n) :
  pivot_at up s (row i (mx_of m n B)) j <-> fpiv up n s (B i) j.
Proof.
have E k : row i (mx_of m n B) 0 k = B i k by rewrite !mxE.
split=> [[H1 H2 H3]|[H1 H2 H3 H4]].
  rewrite E in H1 *; split=> // [k Hk Nk|k Hk Bk Nk].
    by have := H2 (Ordinal Hk); rewrite !E /=; exact.
  by have := H3 (Ordinal Hk); rewrite !E /=; apply=> //; case: up Bk {H3}.
split; rewrite ?E //.
  by move=> k; rewrite !E => Nk; exact: H3.
by move=> k Bk; rewrite !E => Nk; apply: H4 => //; case: up Bk {H4}.
Qed.

Lemma echelon_pivot_atP up m n B (i : 'I_m) (j : 'I_n) :
  echelon_pivot_at up (row i (mx_of m n B)) j <-> epiv up n (B i) j.
Proof.
have E k : row i (mx_of m n B) 0 k = B i k by rewrite !mxE.
split=> [[H1 H2]|[H1 H2 H3]].
  rewrite E in H1; split=> // k Hk Bk.
  by have := H2 (Ordinal Hk); rewrite !E /=; apply; case: up Bk {H2}.
by split; rewrite ?E // => k Bk; rewrite E; apply: H3 => //; case: up Bk {H3}.
Qed.

Lemma row_zeroP m n B (i : 'I_m) : row i (mx_of m n B) = 0 <-> zvec (B i) n.
Proof.
split=> [/rowP H j Hj|H]; first by have := H (Ordinal Hj); rewrite !mxE.
by apply/rowP=> j; rewrite !mxE H.
Qed.

(** the matrix whose rows are the lines of A *)
Definition olines o A : fmat {poly F} := if row_wise o then A else ftr A.
Definition omx o m n A : 'M[{poly F}]_(nlines o m n, linelen o m n) := mx_of _ _ (olines o A).

Lemma lineE o A i : line o A i = olines o A i.
Proof. by rewrite /line /olines; case: o. Qed.

Lemma orientedE (Q : bool -> forall m n, 'M[{poly F}]_(m, n) -> Prop) o m n A :
  oriented Q o (mx_of m n A) = Q (up_of o) _ _ (omx o m n A).
Proof.
have T := mx_of_tr n m A.
by case: o; rewrite /oriented /omx /olines //= -T.
Qed.

(** [piv] is the result of pivot_index on the rows of B *)
Definition piv_ok up s n B (piv : nat -> int) := forall i,
  (zvec (B i) n /\ (piv i = -1 \/ piv i = n%:Z)) \/
  (exists2 j, fpiv up n s (B i) j & piv i = j%:Z).

Lemma pivot_index_ok m n A shift o :
  piv_ok (up_of o) (shiftf shift) (linelen o m n) (olines o A) (pivot_index m n A shift o).1.
Proof.
move=> i; rewrite /pivot_index /pivot_profile /= lineE.
have [[Z ->]|[j P ->]] := vec_pivot_profileP (olines o A i) shift (linelen o m n) o; last first.
  by right; exists j.
left; split=> //=; rewrite /zpivind.
by case: (up_of o); case: shift; tauto.
Qed.

Section Piv.
Variables (up : bool) (s : nat -> int) (m n : nat) (B : fmat {poly F}) (piv : nat -> int).
Hypothesis ok : piv_ok up s n B piv.

Lemma piv_range i : -1 <= piv i <= n%:Z.
Proof. by case: (ok i) => [[_ [] ->]|[j [Hj _ _ _] ->]]; lia. Qed.

Lemma piv_fpiv i : 0 <= piv i < n%:Z -> fpiv up n s (B i) `|piv i|%N.
Proof. by case: (ok i) => [[_ [] ->]|[j Hj ->]]; rewrite ?absz_nat //; lia. Qed.

Lemma fpiv_piv i j : fpiv up n s (B i) j -> piv i = j%:Z.
Proof.
move=> P; case: (ok i) => [[Z _]|[j' P' ->]]; last by rewrite (fpiv_uniq P P').
by case: P => Hj; rewrite Z // eqxx.
Qed.

Lemma all_pivots : all (fun x => 0 <= x < n%:Z) (mkseq piv m) ->
  forall i : 'I_m, exists2 j : 'I_n, pivot_at up s (row i (mx_of m n B)) j & piv i = j%:Z.
Proof.
move=> /allP H i.
have Hi : 0 <= piv i < n%:Z by apply: H; apply: map_f; rewrite mem_iota ltn_ord.
have P := piv_fpiv Hi; have Hj : (`|piv i| < n)%N by case: P.
exists (Ordinal Hj) => /=; last by lia.
exact/pivot_atP.
Qed.

Lemma pivots_all (p : 'I_m -> 'I_n) : (forall i, pivot_at up s (row i (mx_of m n B)) (p i)) ->
  forall i : 'I_m, piv i = (p i)%:Z.
Proof. by move=> H i; apply: fpiv_piv; apply/pivot_atP. Qed.

Lemma all_piv_ord (p : 'I_m -> 'I_n) : (forall i : 'I_m, piv i = (p i)%:Z) ->
  all (fun x => 0 <= x < n%:Z) (mkseq piv m).
Proof.
move=> H; apply/allP=> x /mapP[i]; rewrite mem_iota add0n => /andP[_ Hi] ->.
by rewrite (H (Ordinal Hi)) /=; have := ltn_ord (p (Ordinal Hi)); lia.
Qed.

Lemma range_mkseq x : x \in mkseq piv m -> -1 <= x <= n%:Z.
Proof. by case/mapP=> i _ ->; exact: piv_range. Qed.

Lemma owp_checks : piv_checks (mkseq piv m) m n%:Z <-> ordered_weak_popov_form up s (mx_of m n B).
Proof.
have := piv_checksP range_mkseq; rewrite size_mkseq => ->; split.
  case/andP=> /all_pivots/fin_all_exists2[p Hp Ep] /(sortedP 0%:Z) S; exists p => // i i' L.
  suff : piv i < piv i' by rewrite !Ep; lia.
  apply: (mono_from (a := 0%N) (b := m)) => // k _ Hk.
  by have := S k; rewrite size_mkseq !nth_mkseq //; [apply | lia].
case=> p I Hp; have Ep := pivots_all Hp; apply/andP; split; first exact: all_piv_ord Ep.
apply/(sortedP 0%:Z) => i; rewrite size_mkseq => Hi; rewrite !nth_mkseq //; last by lia.
have Hi' : (i < m)%N by lia.
have := I (Ordinal Hi') (Ordinal Hi) (ltnSn i).
by rewrite (Ep (Ordinal Hi')) (Ep (Ordinal Hi)).
Qed.

Lemma wp_checks : piv_checks (sort (fun a b : int => a <= b) (mkseq piv m)) m n%:Z <->
  weak_popov_form up s (mx_of m n B).
Proof.
have R x : x \in sort (fun a b : int => a <= b) (mkseq piv m) -> -1 <= x <= n%:Z.
  by rewrite mem_sort; exact: range_mkseq.
have := piv_checksP R; rewrite size_sort size_mkseq => ->.
rewrite all_sort (_ : sorted _ _ = uniq (mkseq piv m)); last exact: sort_lt_sorted.
split.
  case/andP=> /all_pivots/fin_all_exists2[p Hp Ep] U; exists p => // i i' E.
  apply/val_inj/eqP; rewrite -(nth_uniq 0%:Z _ _ U) ?size_mkseq ?ltn_ord //.
  by rewrite !nth_mkseq ?ltn_ord // (Ep i) (Ep i') E.
case=> p I Hp; have Ep := pivots_all Hp; apply/andP; split; first exact: all_piv_ord Ep.
apply/(uniqP 0%:Z) => i i'; rewrite !inE size_mkseq => Hi Hi'; rewrite !nth_mkseq //.
rewrite (Ep (Ordinal Hi)) (Ep (Ordinal Hi')) => -[] /val_inj/I.
by move/(congr1 val).
Qed.
End Piv.

Lemma is_ordered_weak_popovP m n A shift o :
  is_ordered_weak_popov m n A shift o <->
  oriented (fun up => @ordered_weak_popov_form F up (shiftf shift)) o (mx_of m n A).
Proof. rewrite orientedE; apply: owp_checks; exact: pivot_index_ok. Qed.

Lemma is_weak_popovP m n A shift o :
  is_weak_popov m n A shift o <->
  oriented (fun up => @weak_popov_form F up (shiftf shift)) o (mx_of m n A).
Proof. rewrite orientedE; apply: wp_checks; exact: pivot_index_ok. Qed.

(** *** Popov *)
Lemma pdeg_lt (p q : {poly F}) : ~~ (pdeg q <= pdeg p) = (size p < size q)%N.
Proof. by rewrite /pdeg; lia. Qed.

Definition popov_checks dim B (p : nat -> nat) (pivdeg : nat -> int) : bool :=
  all (fun i => B i (p i) \is monic) (iota 0 dim) &&
  all (fun i => all (fun ii =>
    ~~ ((i != ii) && (pivdeg i <= pdeg (B ii (p i))))) (iota 0 dim)) (iota 0 dim).

Lemma popov_checksP up s m n B (p : nat -> nat) (pivdeg : nat -> int) :
  (forall i, (i < m)%N -> fpiv up n s (B i) (p i) /\ pivdeg i = pdeg (B i (p i))) ->
  ordered_weak_popov_form up s (mx_of m n B) ->
  popov_checks m B p pivdeg <-> popov_form up s (mx_of m n B).
Proof.
move=> Hp [piv I Hpiv].
have Ep (i : 'I_m) : p i = piv i.
  by have [P _] := Hp i (ltn_ord i); apply: fpiv_uniq P _; apply/pivot_atP.
split.
  case/andP=> /allP H1 /allP H2; exists piv => // i; split=> //.
    by rewrite mxE -Ep; exact/H1/iota_ord.
  move=> i' NE; have [_ E] := Hp i (ltn_ord i).
  have /allP/(_ _ (iota_ord i')) := H2 i (iota_ord i).
  by rewrite E !mxE -Ep eq_sym (_ : (i' == i :> nat) = false) ?pdeg_lt //; exact/negbTE.
case=> piv' I' H'.
have Ep' (i : 'I_m) : p i = piv' i.
  have [P _] := Hp i (ltn_ord i); apply: fpiv_uniq P _; apply/pivot_atP.
  by case: (H' i).
apply/andP; split.
  apply/allP=> i; rewrite mem_iota add0n => /andP[_ Hi].
  by have [_ + _] := H' (Ordinal Hi); rewrite mxE -Ep'.
apply/allP=> i; rewrite mem_iota add0n => /andP[_ Hi].
apply/allP=> ii; rewrite mem_iota add0n => /andP[_ Hii].
have [_ _ H] := H' (Ordinal Hi); have [_ ->] := Hp i Hi.
rewrite negb_and negbK; case: eqP => //= NE; rewrite pdeg_lt.
have := H (Ordinal Hii); rewrite !mxE -Ep' /=; apply.
by apply/eqP=> -[/esym].
Qed.

Lemma col_monicE m n A p js : (forall j, j \in js -> (p j < m)%N && (j < n)%N) ->
  col_monic m n A p js = AOk (all (fun j => A (p j) j \is monic) js).
Proof.
elim: js => [|j js IH] H //=; rewrite H ?mem_head //.
by case: ifP => // _; apply: IH => k Hk; apply: H; rewrite inE Hk orbT.
Qed.

Lemma is_popovP m n A shift o : o <> ROW_UPPER ->
  exists2 b : bool, is_popov m n A shift o = AOk b &
    (b <-> oriented (fun up => @popov_form F up (shiftf shift)) o (mx_of m n A)).
Proof.
move=> No; rewrite /is_popov; have := is_ordered_weak_popovP m n A shift o.
case: (is_ordered_weak_popov _ _ _ _ _) => -[H1 H2]; last first.
  exists false => //; split=> //; rewrite orientedE => -[piv I Hp].
  by apply: H2; rewrite orientedE; exists piv => // i; case: (Hp i).
have {}H1 := H1 isT; rewrite orientedE in H1; rewrite orientedE /=.
set prof := fun i => vec_pivot_profile (line o A i) shift (linelen o m n) o.
set p := fun i => `|(prof i).1.1|%N; set pd := fun i => (prof i).1.2.
have Hp i : (i < nlines o m n)%N ->
   fpiv (up_of o) (linelen o m n) (shiftf shift) (olines o A i) (p i) /\
   pd i = pdeg (olines o A i (p i)).
  move=> Hi; rewrite /p /pd /prof lineE.
  have [[Z _]|[j P ->]] := vec_pivot_profileP (olines o A i) shift (linelen o m n) o.
    case: H1 => piv _ /(_ (Ordinal Hi))/pivot_atP[Hj] /=.
    by rewrite Z // eqxx.
  by split.
have Hb := popov_checksP Hp H1.
exists (popov_checks (nlines o m n) (olines o A) p pd) => //.
case: o No @prof @p @pd Hp {H1 H2 Hb} => // _ prof p pd Hp; rewrite ?[RHS]/=.
all: rewrite col_monicE;
  last by move=> j; rewrite mem_iota add0n => /andP[_ Hj]; have [[]] := Hp j Hj => -> *; rewrite Hj.
all: by rewrite /popov_checks /olines /=; case: (all _ _).
Qed.

(** *** echelon forms *)
Definition epiv_ok (up : bool) n B (piv : nat -> int) := forall i,
  (zvec (B i) n /\ piv i = if up then n%:Z else -1) \/
  (exists2 j, epiv up n (B i) j & piv i = j%:Z).

Lemma echelon_pivot_index_ok m n A o :
  epiv_ok (up_of o) (linelen o m n) (olines o A) (echelon_pivot_index m n A o).
Proof.
move=> i; rewrite /echelon_pivot_index lineE.
exact: vec_echelon_pivotP.
Qed.

Lemma first_fromP (p : nat -> bool) i cnt :
  let r := first_from p i cnt in
  [/\ (i <= r <= i + cnt)%N, (forall k, (i <= k < r)%N -> p k) & ((r < i + cnt)%N -> ~~ p r)].
Proof.
elim: cnt i => [|cnt IH] i /=.
  by rewrite addn0 leqnn ltnn; split=> // k; lia.
case: ifP => [P|/negbT P]; last by split=> //; [lia | move=> k; lia].
have [H1 H2 H3] := IH i.+1; split; first by lia.
  by move=> k Hk; case: (ltnP i k) => C; [apply: H2; lia | have -> : k = i by lia].
by move=> Hr; apply: H3; lia.
Qed.

Lemma last_untilP (p : nat -> bool) cnt :
  let r := last_until p cnt in
  [/\ (r <= cnt)%N, (forall k, (r <= k < cnt)%N -> p k) & ((0 < r)%N -> ~~ p r.-1)].
Proof.
elim: cnt => [|cnt [H1 H2 H3]] /=; first by split=> // k; lia.
case: ifP => [P|/negbT P]; last by split=> // k; lia.
split=> //; first by lia.
by move=> k Hk; case: (ltnP k cnt) => C; [apply: H2; lia | have -> : k = cnt by lia].
Qed.

Definition ech_check (up : bool) (dim : nat) (zpiv : int) (piv : nat -> int) : bool :=
  if up then all (fun i => ~~ (piv i.+1 <= piv i)) (iota 0 (last_until (fun i => piv i == zpiv) dim - 1))
  else let i0 := first_from (fun i => piv i == -1) 0 dim in
    all (fun i => ~~ (piv i.+1 <= piv i)) (iota i0 (dim - 1 - i0)).

Section Ech.
Variables (up : bool) (m n : nat) (B : fmat {poly F}) (piv : nat -> int).
Hypothesis ok : epiv_ok up n B piv.

Lemma epiv_piv i j : epiv up n (B i) j -> piv i = j%:Z.
Proof.
move=> P; case: (ok i) => [[Z _]|[j' P' ->]]; last by rewrite (epiv_uniq P P').
by case: P => Hj; rewrite Z // eqxx.
Qed.

Lemma piv_zero i : zvec (B i) n -> piv i = if up then n%:Z else -1.
Proof. by move=> Z; case: (ok i) => [[_ ->]|[j [Hj] +] ] //; rewrite Z // eqxx. Qed.

Lemma piv_epiv i : 0 <= piv i < n%:Z -> epiv up n (B i) `|piv i|%N.
Proof.
case: (ok i) => [[_ ->]|[j P ->]]; rewrite ?absz_nat //.
by case: up; lia.
Qed.

Lemma epiv_range i : -1 <= piv i <= n%:Z.
Proof. by case: (ok i) => [[_ ->]|[j [Hj _ _] ->]]; [case: up |]; lia. Qed.

Lemma piv_out i : ~~ (0 <= piv i < n%:Z) -> zvec (B i) n.
Proof. by case: (ok i) => [[]//|[j [Hj _ _] ->]]; lia. Qed.

Definition opiv (i : 'I_m) : option 'I_n :=
  if 0 <= piv i < n%:Z then insub `|piv i|%N else None.

Lemma opivP i : if opiv i is Some j then echelon_pivot_at up (row i (mx_of m n B)) j /\ piv i = j%:Z
  else row i (mx_of m n B) = 0 /\ piv i = if up then n%:Z else -1.
Proof.
rewrite /opiv; case: ifP => [R|/negbT R].
  have P := piv_epiv R; case: insubP => [j _ Ej|]; last by case: P => ->.
  have Ej' : nat_of_ord j = `|piv i|%N by [].
  by split; [apply/echelon_pivot_atP; rewrite Ej' | lia].
have Z := piv_out R; split; last exact: piv_zero.
exact/row_zeroP.
Qed.

Lemma ech_checkP : ech_check up m n%:Z piv <-> echelon_form up (mx_of m n B).
Proof.
split.
  move=> H; exists opiv; first by move=> i; have := opivP i; case: (opiv i) => [j []|[]].
  move=> i i' L.
  have := opivP i; have := opivP i'; have := ltn_ord i'.
  have R := epiv_range; move: H; rewrite /ech_check; case: (up).
    have [H1 H2 H3] := last_untilP (fun i => piv i == n%:Z) m.
    set r := last_until _ _ in H1 H2 H3 *; move=> /allP H Li'.
    have mono : forall a b, (a < b)%N -> (b < r)%N -> piv a < piv b.
      move=> a b La Lb; apply: (mono_from (a := 0%N) (b := r)) => // k _ Hk.
      by have := H k; rewrite mem_iota -ltNge; apply; lia.
    case: (opiv i') => [j'|]; case: (opiv i) => [j|] [_ E'] [_ E] //.
      have : (i' < r)%N by rewrite ltnNge; apply/negP=> C; have := H2 i' ltac:(lia); rewrite E'; have := ltn_ord j'; lia.
      by move/(mono _ _ L); rewrite E E'.
    have : (i' < r)%N by rewrite ltnNge; apply/negP=> C; have := H2 i' ltac:(lia); rewrite E'; have := ltn_ord j'; lia.
    by move/(mono _ _ L); rewrite E E'; have := ltn_ord j'; lia.
  have [H1 H2 H3] := first_fromP (fun i => piv i == -1) 0 m.
  set r := first_from _ _ _ in H1 H2 H3 *; move=> /allP H Li'.
  have mono : forall a b, (r <= a)%N -> (a < b)%N -> (b < m)%N -> piv a < piv b.
    apply: mono_from => k Hk Hk'.
    by have := H k; rewrite mem_iota -ltNge; apply; lia.
  case: (opiv i') => [j'|]; case: (opiv i) => [j|] [_ E'] [_ E] //.
    have : (r <= i)%N by rewrite leqNgt; apply/negP=> C; have := H2 i ltac:(lia); rewrite E; lia.
    by move=> C; have := mono _ _ C L Li'; rewrite E E'.
  have : (r <= i)%N by rewrite leqNgt; apply/negP=> C; have := H2 i ltac:(lia); rewrite E; lia.
  by move=> C; have := mono _ _ C L Li'; rewrite E E'; lia.
case=> p Hp I.
have Ep (i : 'I_m) : piv i = if p i is Some j then j%:Z else if up then n%:Z else -1.
  have := Hp i; case: (p i) => [j /echelon_pivot_atP/epiv_piv //|/row_zeroP/piv_zero //].
have key i : (i.+1 < m)%N -> (if up then piv i.+1 != n%:Z else piv i != -1) -> piv i < piv i.+1.
  move=> Hi; have Hi' : (i < m)%N by lia.
  have := I (Ordinal Hi') (Ordinal Hi) (ltnSn i).
  rewrite (Ep (Ordinal Hi')) (Ep (Ordinal Hi)).
  case: (p _) => [j|]; case: (p _) => [j'|]; case: (up) => //=; rewrite ?eqxx //; have := ltn_ord j; lia.
rewrite /ech_check; move: key Ep I; case: (up) => key Ep I.
  have [H1 H2 H3] := last_untilP (fun i => piv i == n%:Z) m.
  set r := last_until _ _ in H1 H2 H3 *.
  apply/allP=> i; rewrite mem_iota add0n => /andP[_ Hi]; rewrite -ltNge.
  apply: key; first by lia.
  (* a row above a nonzero row is nonzero *)
  have Hr := H3 ltac:(lia); case: (ltnP i.+1 r.-1) => [C|C]; last by have -> : i.+1 = r.-1 by lia.
  have Hi1 : (i.+1 < m)%N by lia.
  have Hr1 : (r.-1 < m)%N by lia.
  have := I (Ordinal Hi1) (Ordinal Hr1) C; rewrite (Ep (Ordinal Hi1)).
  rewrite (Ep (Ordinal Hr1)) in Hr; move: Hr.
  by case: (p (Ordinal Hr1)) => [j'|]; rewrite ?eqxx // => _; case: (p _) => [j|] //; have := ltn_ord j; lia.
have [H1 H2 H3] := first_fromP (fun i => piv i == -1) 0 m.
set r := first_from _ _ _ in H1 H2 H3 *.
apply/allP=> i; rewrite mem_iota => /andP[Hr Hi]; rewrite -ltNge.
apply: key; first by lia.
have Hm := H3 ltac:(lia); case: (ltnP r i) => [C|C]; last by have -> : i = r by lia.
have Hi1 : (i < m)%N by lia.
have Hr1 : (r < m)%N by lia.
have := I (Ordinal Hr1) (Ordinal Hi1) C; rewrite (Ep (Ordinal Hi1)).
rewrite (Ep (Ordinal Hr1)) in Hm; move: Hm.
by case: (p (Ordinal Hr1)) => [j'|]; rewrite ?eqxx // => _; case: (p _) => [j|].
Qed.
End Ech.

Lemma is_echelonP m n A o :
  is_echelon m n A o <-> oriented (fun up => @echelon_form F up) o (mx_of m n A).
Proof.
rewrite orientedE -(ech_checkP (nlines o m n) (echelon_pivot_index_ok m n A o)).
by case: o.
Qed.

(** *** Hermite *)
Definition herm_checks (up : bool) dim B (p : nat -> nat) (pivdeg : nat -> int) : bool :=
  all (fun i => (B i (p i) \is monic) &&
    all (fun ii => ~~ (pivdeg i < (size (B ii (p i)))%:Z))
      (if up then iota 0 i else iota i.+1 (dim - i.+1))) (iota 0 dim).

Lemma echelon_nonzero up m n B : (0 < m)%N -> echelon_form up (mx_of m n B) ->
  ~ zvec (B (if up then m - 1 else 0)%N) n ->
  exists2 piv : 'I_m -> 'I_n, increasing piv & forall i, echelon_pivot_at up (row i (mx_of m n B)) (piv i).
Proof.
move=> Hm [p Hp I] NZ.
have H (i : 'I_m) : exists2 j, p i = Some j & echelon_pivot_at up (row i (mx_of m n B)) j.
  have := Hp i; case E: (p i) => [j|] H; first by exists j.
  exfalso; apply: NZ.
  have Hk : ((if up then m - 1 else 0) < m)%N by case: (up); lia.
  apply/(row_zeroP n B (Ordinal Hk)).
  have := Hp (Ordinal Hk); case E': (p (Ordinal Hk)) => [j|] // _; exfalso.
  case: (ltngtP i (Ordinal Hk)) => C.
  - by have := I i (Ordinal Hk) C; rewrite E E'; case: (up) Hk E' C => //= *; lia.
  - by have := I (Ordinal Hk) i C; rewrite E E'; case: (up) Hk E' C => //= *; have := ltn_ord i; lia.
  - by move/val_inj: C E => -> ; rewrite E'.
case: (fin_all_exists2 H) => piv Ep Hpiv; exists piv => // i i' L.
by have := I i i' L; rewrite !Ep.
Qed.

Lemma is_hermiteP m n A o :
  is_hermite m n A o <-> oriented (fun up => @hermite_form F up) o (mx_of m n A).
Proof.
rewrite orientedE; set M := nlines o m n; set N := linelen o m n; set B := olines o A.
have Hech : is_echelon m n A o <-> echelon_form (up_of o) (mx_of M N B).
  by rewrite is_echelonP orientedE.
have ok := echelon_pivot_index_ok m n A o; rewrite -/N -/B in ok.
rewrite /is_hermite -/M -/N; case: eqP => [E0|/eqP NM].
  split=> // _; rewrite /omx -/M -/N -/B E0.
  by exists (fun i => ffun0 (card_ord 0) i) => -[].
case: (boolP (is_echelon m n A o)) => [/Hech E|/negP NE] /=; last first.
  split=> // -[piv I Hp]; exfalso; apply: NE; apply/Hech.
  exists (fun i => Some (piv i)) => [i|i i' L]; last exact: I.
  by case: (Hp i).
set e := echelon_pivot_index m n A o in ok *.
have Hz : (e 0%N == -1) || (e (M - 1)%N == N%:Z) =
    if up_of o then e (M - 1)%N == N%:Z else e 0%N == -1.
  have H0 := ok 0%N; have H1 := ok (M - 1)%N.
  case: (up_of o) H0 H1 => /= H0 H1.
    case: eqP => // E0; exfalso; move: H0; rewrite E0 => -[[_ //]|[j _ //]].
  rewrite orbC; case: eqP => // E1; exfalso; move: H1; rewrite E1 => -[[_ //]|[j [Hj _ _] []]].
  by lia.
case: ifP => [|/negbT]; rewrite Hz => Z.
  split=> // -[piv I Hp]; exfalso.
  have Hk : ((if up_of o then M - 1 else 0) < M)%N by case: (up_of o); lia.
  have [/echelon_pivot_atP/(epiv_piv ok) /= P _ _] := Hp (Ordinal Hk).
  by have := ltn_ord (piv (Ordinal Hk)); case: (up_of o) Z Hk P => Z Hk P; rewrite P in Z; move/eqP: Z; lia.
have [||piv I Hpiv] := echelon_nonzero _ E; first by lia.
  by move/(piv_zero ok); case: (up_of o) Z => Z; move/eqP: Z.
have Ep (i : 'I_M) : e i = (piv i)%:Z by apply: (epiv_piv ok); apply/echelon_pivot_atP.
pose pd i := if e i == (if up_of o then N%:Z else -1) then -1 else pdeg (B i `|e i|%N).
pose p i := `|e i|%N.
have Epd (i : 'I_M) : pd i = pdeg (B i (piv i)).
  rewrite /pd Ep absz_nat; case: ifP => // /eqP C.
  by move: C; have := ltn_ord (piv i); case: (up_of o); lia.
have Epp (i : 'I_M) : p i = piv i by rewrite /p Ep.
transitivity (is_true (herm_checks (up_of o) M B p pd)).
  rewrite /echelon_pivot_profile -/e -/N /pd /p /B.
  by case: (o) => /=; rewrite ?lineE.
split.
  move/allP=> H; exists piv => // i; split=> //.
    have := H i (iota_ord i) => /andP[+ _].
    by rewrite mxE Epp.
  move=> i' Bi; have := H i (iota_ord i) => /andP[_ /allP/(_ i')].
  rewrite Epp Epd !mxE /pdeg => H'.
  have : ~~ ((size (B i (piv i)))%:Z - 1 < (size (B i' (piv i)))%:Z).
    apply: H'; move: Bi; rewrite /before; case: (up_of o); rewrite mem_iota; have := ltn_ord i'; lia.
  rewrite /B; move: (size (olines o A i (piv i))) (size (olines o A i' (piv i))) => x y; lia.
case=> piv' I' Hp'; apply/allP=> i; rewrite mem_iota add0n => /andP[_ Hi].
have Epv : piv (Ordinal Hi) = piv' (Ordinal Hi).
  have [/echelon_pivot_atP P _ _] := Hp' (Ordinal Hi).
  have /echelon_pivot_atP P' := Hpiv (Ordinal Hi).
  exact/val_inj/(epiv_uniq P' P).
have [_ H1 H2] := Hp' (Ordinal Hi); rewrite -Epv in H1 H2.
have := Epp (Ordinal Hi); have := Epd (Ordinal Hi) => /= -> ->.
rewrite mxE in H1; rewrite H1 /=.
apply/allP=> ii Hii.
have Hii' : (ii < M)%N by move: Hii; case: (up_of o); rewrite mem_iota; lia.
have := H2 (Ordinal Hii'); rewrite !mxE /pdeg /before /=.
rewrite /B; move: (size (olines o A i (piv (Ordinal Hi)))) (size (olines o A ii (piv (Ordinal Hi)))) => x y.
by move: Hii; case: (up_of o); rewrite mem_iota => Hii /(_ ltac:(lia)); lia.
Qed.

End Mat.
