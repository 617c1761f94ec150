(** Proofs about the forms of polynomial matrices of ntl-extras (N_forms_model.v). *)
From mathcomp Require Import all_ssreflect all_algebra zify.
From Verif Require A_forms_model.
From Verif Require Import A_base SpecA SpecForms A_forms_proof A_forms2_proof A_reduced_proof N_pmat_model N_forms_model.
Set Implicit Arguments.
Unset Strict Implicit.
Unset Printing Implicit Defensive.
Import Order.TTheory GRing.Theory Num.Theory.
Local Open Scope ring_scope.

Lemma min_elementP s m : min_element s = Some m ->
  (forall j, (j < size s)%N -> m <= s`_j) /\ (exists2 j, (j < size s)%N & m = s`_j).
Proof.
case: s => [|x s] // -[<-]; elim/last_ind: s => [|s y [IH1 [j Hj Ej]]].
  by split=> [[|j] //|]; exists 0%N.
rewrite foldl_rcons -rcons_cons size_rcons; set m0 := foldl _ _ _ in IH1 Ej *; split=> [k Hk|].
  rewrite nth_rcons; case: ltnP => [C|C]; last first.
    by rewrite (_ : k == _) //; [case: ifP; lia|move: Hk C; rewrite /=; lia].
  by have := IH1 k C; case: ifP; lia.
case: ifP => _; [exists (size (x :: s)); rewrite ?nth_rcons ?ltnn ?eqxx // | exists j; rewrite ?nth_rcons ?Hj //].
exact: ltnW.
Qed.

Lemma max_elementP s m : max_element s = Some m ->
  (forall j, (j < size s)%N -> s`_j <= m) /\ (exists2 j, (j < size s)%N & m = s`_j).
Proof.
case: s => [|x s] // -[<-]; elim/last_ind: s => [|s y [IH1 [j Hj Ej]]].
  by split=> [[|j] //|]; exists 0%N.
rewrite foldl_rcons -rcons_cons size_rcons; set m0 := foldl _ _ _ in IH1 Ej *; split=> [k Hk|].
  rewrite nth_rcons; case: ltnP => [C|C]; last first.
    by rewrite (_ : k == _) //; [case: ifP; lia|move: Hk C; rewrite /=; lia].
  by have := IH1 k C; case: ifP; lia.
case: ifP => _; [exists j; rewrite ?nth_rcons ?Hj // | exists (size (x :: s)); rewrite ?nth_rcons ?ltnn ?eqxx //].
exact: ltnW.
Qed.

Section Lines.
Variable F : fieldType.
Implicit Types (v : nat -> {poly F}) (s : seq int) (ms : int).

Lemma line_degreeP v len : (zvec v len /\ line_degree v len = -1) \/ vdeg v (fun _ => 0) len (line_degree v len).
Proof. by case: (vec_maxP v len) => [H|[H _]]; [left|right]. Qed.

Lemma loop_degreeP v len (f : nat -> int) ms : (forall j, (j < len)%N -> ms <= f j) ->
  let r := foldl (fun r j => let d := pdeg (v j) + f j in if (v j != 0) && (r < d) then d else r) (ms - 1) (iota 0 len) in
  (zvec v len /\ r = ms - 1) \/ (vdeg v f len r /\ ms <= r).
Proof.
elim: len => [|len IH] Hms; first by left.
rewrite foldl_iotaS add0n; cbv zeta.
have Hms' j : (j < len)%N -> ms <= f j by move=> Hj; apply: Hms; lia.
move: (IH Hms'); cbv zeta; set mx := foldl _ _ _ => {}IH.
have Hl := Hms len (ltnSn _).
case: IH => [[Z Em]|[[U [j Hj [Nj Ej]]] P]].
  case: eqP => [E|/eqP N] /=.
    by left; split=> // j; rewrite ltnS leq_eqVlt => /orP[/eqP->|/Z].
  have N' := N; rewrite -pdeg_ge0 in N'.
  have -> : (mx < pdeg (v len) + f len) by rewrite Em; lia.
  right; split; last by lia.
  split=> [j|]; last by exists len.
  by rewrite ltnS leq_eqVlt => /orP[/eqP->|/Z ->]; rewrite ?eqxx.
right; case: ifP => [/andP[N C]|C]; (split; last by lia).
  split=> [k|]; last by exists len.
  rewrite ltnS leq_eqVlt => /orP[/eqP->|Hk Nk] //.
  by have := U k Hk Nk; lia.
split=> [k|]; last by exists j => //; lia.
rewrite ltnS leq_eqVlt => /orP[/eqP->|Hk Nk]; last exact: U.
by move=> N; move: C; rewrite N /=; lia.
Qed.


Lemma line_degree_shP v len s ms : (forall j, (j < len)%N -> ms <= s`_j) ->
  (zvec v len /\ line_degree_sh v len s ms = ms - 1) \/ (vdeg v (nth 0 s) len (line_degree_sh v len s ms) /\ ms <= line_degree_sh v len s ms).
Proof. exact: (@loop_degreeP v len (nth 0 s) ms). Qed.

Lemma line_pivotP v len : (zvec v len /\ line_pivot v len = (-1, -1)) \/
  (exists2 j, fpiv false len (fun _ => 0) v j & line_pivot v len = (pdeg (v j), j%:Z)).
Proof.
rewrite /line_pivot; elim: len => [|len IH]; first by left.
rewrite foldl_iotaS add0n; cbv zeta; move: IH; move: (foldl _ _ _) => st IH.
case: IH => [[Z ->]|[j P ->]] /=.
  rewrite pdeg_gtm1; case: eqP => [E|/eqP N] /=; last by right; exists len => //; exact: fpivZ.
  by left; rewrite E pdeg0 /=; split=> //; exact: zvecS.
have [Hj Nj _ _] := P; rewrite -pdeg_ge0 in Nj; right; case: ifP => [C|/negbT C].
  by exists len => //; apply: (fpivN P); rewrite ?addr0; [rewrite -pdeg_ge0|]; lia.
case: ifP => [/andP[/eqP E C1]|C1]; last by exists j => //; apply: (fpivO P); rewrite !addr0; lia.
exists len; last by rewrite E.
by apply: (fpivN P); rewrite ?addr0; [rewrite -pdeg_ge0|]; lia.
Qed.

Lemma loop_pivotP v len (f : nat -> int) ms : (forall j, (j < len)%N -> ms <= f j) ->
  let st := foldl (fun (st : int * int) j => let d := pdeg (v j) + f j in
    if f j <= d then (if st.1 < d then (d, j%:Z) else if d == st.1 then (st.1, j%:Z) else st) else st) (ms - 1, -1) (iota 0 len) in
  (zvec v len /\ st = (ms - 1, -1)) \/ (exists2 j, fpiv false len f v j & st = (pdeg (v j) + f j, j%:Z)).
Proof.
elim: len => [|len IH] Hms; first by left.
have {}IH := IH (fun j Hj => Hms j (leqW Hj)); have Hl := Hms len (ltnSn _).
rewrite foldl_iotaS add0n; cbv zeta; move: IH; cbv zeta; move: (foldl _ _ _) => st IH.
have -> : (f len <= pdeg (v len) + f len) = (v len != 0) by rewrite -pdeg_ge0; lia.
case: IH => [[Z ->]|[j P ->]] /=.
  case: eqP => [E|/eqP N] /=; first by left; split=> //; exact: zvecS.
  by have N' := N; rewrite -pdeg_ge0 in N'; right; exists len; [exact: fpivZ|rewrite ifT //; lia].
right; case: eqP => [E|/eqP N] /=; first by exists j => //; exact: fpivS0.
case: ifP => [C|/negbT C]; first by exists len => //; apply: (fpivN P) => //; lia.
case: ifP => [/eqP E|C1]; last by exists j => //; apply: (fpivO P); lia.
by exists len; [apply: (fpivN P) => //; lia|rewrite E].
Qed.

Lemma line_pivot_shP v len s ms : (forall j, (j < len)%N -> ms <= s`_j) -> (zvec v len /\ line_pivot_sh v len s ms = (-1, -1)) \/
  (exists2 j, fpiv false len (nth 0 s) v j & line_pivot_sh v len s ms = (pdeg (v j), j%:Z)).
Proof.
move=> Hms; have := @loop_pivotP v len (nth 0 s) ms Hms; rewrite /line_pivot_sh; cbv zeta; set st := foldl _ _ _.
by case=> [[Z ->]|[j P ->]]; [left|right; exists j] => //=; rewrite addrK.
Qed.
End Lines.

(** *** tests of the pivots *)
Lemma adjacentE (r r' : rel int) (l : seq int) : (forall k, (k.+1 < size l)%N -> r l`_k l`_k.+1 = ~~ r' l`_k l`_k.+1) ->
  adjacent r l = ~~ sorted r' l.
Proof.
move=> H; rewrite /adjacent; apply/idP/idP.
  case/hasP=> k; rewrite mem_iota => Hk; have Hk' : (k.+1 < size l)%N by move: Hk; case: (size l) => [|z] /=; lia.
  by rewrite H // => C; apply: contra C => /(sortedP 0) /(_ k Hk').
apply: contraR => /hasPn C; apply/(sortedP 0) => k Hk; have := C k; rewrite mem_iota H // negbK; apply.
by move: Hk; case: (size l) => [|z] /=; lia.
Qed.

Lemma ordered_checksE (l : seq int) (n : nat) : (forall x, x \in l -> -1 <= x < n%:Z) ->
  ordered_checks l = all (fun x => 0 <= x < n%:Z) l && sorted (fun x y : int => x < y) l.
Proof.
move=> R; rewrite /ordered_checks; case: ifP => [C|/negbT C].
  by symmetry; apply: negbTE; rewrite negb_and; apply/orP; left; apply/allPn; exists (-1).
rewrite (_ : all _ _ = true) /=; last first.
  apply/allP=> x Hx; have := R x Hx; have : x != -1 by apply: contra C => /eqP <-.
  lia.
rewrite (adjacentE (r' := fun x y : int => x < y)); first by case: sorted.
by move=> k _; rewrite leNgt.
Qed.

Lemma weak_checksE (l : seq int) : weak_checks l = ordered_checks (sort (fun x y : int => x <= y) l).
Proof.
rewrite /weak_checks /ordered_checks mem_sort; case: ifP => // _; congr (if _ then _ else _).
have /(sortedP 0) S : sorted (fun x y : int => x <= y) (sort (fun x y : int => x <= y) l) by apply: sort_sorted => x y; exact: le_total.
set l' := sort _ l in S *; rewrite (adjacentE (r' := fun x y : int => x < y)) => [|k Hk]; last by have := S k Hk; lia.
by rewrite (adjacentE (r' := fun x y : int => x < y)) // => k _; rewrite leNgt.
Qed.

Section Tests.
Variable F : fieldType.
Implicit Types (a : pmat F) (B : fmat {poly F}).

(** the pivots of the rows of B, the first m of them: (pivind, pivdeg) *)
Definition good_pivots (s : nat -> int) (n : nat) B (pv : nat -> int * int) : Prop := forall i,
  (zvec (B i) n /\ pv i = (-1, -1)) \/ (exists2 j, fpiv false n s (B i) j & pv i = (pdeg (B i j), j%:Z)).

Variables (s : nat -> int) (m n : nat) (B : fmat {poly F}) (pv : nat -> int * int).
Hypothesis ok : good_pivots s n B pv.
Let pi i := (pv i).2.

Lemma good_piv_ok : piv_ok false s n B pi.
Proof. by move=> i; case: (ok i) => [[Z E]|[j P E]]; [left|right; exists j]; rewrite /pi ?E //; split=> //; left. Qed.

Lemma good_range x : x \in mkseq pi m -> -1 <= x < n%:Z.
Proof. by case/mapP=> i _ ->; rewrite /pi; case: (ok i) => [[Z ->]|[j [Hj _ _ _] ->]] /=; lia. Qed.

Lemma good_range_le x : x \in mkseq pi m -> -1 <= x <= n%:Z.
Proof. by move=> /good_range; lia. Qed.

Lemma ordered_checksP : ordered_checks (mkseq pi m) <-> ordered_weak_popov_form false s (mx_of m n B).
Proof.
rewrite (ordered_checksE good_range); have := owp_checks m good_piv_ok.
by have := piv_checksP good_range_le; rewrite size_mkseq => ->.
Qed.

Lemma weak_checksP : weak_checks (mkseq pi m) <-> weak_popov_form false s (mx_of m n B).
Proof.
rewrite weak_checksE (ordered_checksE (n := n)); last by move=> x; rewrite mem_sort; exact: good_range.
have := wp_checks m good_piv_ok.
have R x : x \in sort (fun a b : int => a <= b) (mkseq pi m) -> -1 <= x <= n%:Z by rewrite mem_sort; exact: good_range_le.
by have := piv_checksP R; rewrite size_sort size_mkseq => ->.
Qed.

Lemma ordered_fpiv : ordered_weak_popov_form false s (mx_of m n B) ->
  forall i, (i < m)%N -> fpiv false n s (B i) (absz (pi i)) /\ (pv i).1 = pdeg (B i (absz (pi i))).
Proof.
case=> piv _ Hp i Hi; case: (ok i) => [[Z E]|[j P E]]; last by rewrite /pi E.
by have /pivot_atP[Hj] := Hp (Ordinal Hi); rewrite /= Z // eqxx.
Qed.

Lemma is_monicE (f : {poly F}) : is_monic f = (f \is monic).
Proof.
rewrite /is_monic monicE -/(lead_coef f); case: (posnP (size f)) => [/eqP|] //.
by rewrite size_poly_eq0 => /eqP->; rewrite lead_coef0 eq_sym oner_eq0.
Qed.

(** the entries of column p(j) outside of row j *)
Lemma has_splitE (t : nat -> bool) (j : nat) : (j < m)%N ->
  has t (iota 0 j) || has t (iota j.+1 (m - j.+1)) = ~~ all (fun i => ~~ ((j != i) && t i)) (iota 0 m).
Proof.
move=> Hj; rewrite -has_predC.
rewrite [in RHS](_ : m = (j + (1 + (m - j.+1)))%N) ?[in RHS]iotaD ?[in RHS]has_cat; last lia.
rewrite (iotaD _ 1) has_cat add0n addn1 [X in _ || (X || _)]/= eqxx /=; congr (_ || _); apply: eq_in_has => k; rewrite mem_iota => Hk /=.
  by rewrite negbK (_ : j != k) //; lia.
by rewrite negbK (_ : j != k) //; lia.
Qed.
End Tests.
