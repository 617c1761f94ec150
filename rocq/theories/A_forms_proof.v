(** Degrees and pivots of polynomial vectors. *)
From mathcomp Require Import all_ssreflect all_algebra zify.
From Verif Require Import A_base SpecA SpecForms A_forms_model.
Set Implicit Arguments.
Unset Strict Implicit.
Unset Printing Implicit Defensive.
Import Order.TTheory GRing.Theory Num.Theory.
Local Open Scope ring_scope.

Lemma iotaS_rcons i k : iota i k.+1 = rcons (iota i k) (i + k)%N.
Proof. by rewrite -cats1 -addn1 iotaD. Qed.

Lemma foldl_iotaS (T : Type) (f : T -> nat -> T) x i k :
  foldl f x (iota i k.+1) = f (foldl f x (iota i k)) (i + k)%N.
Proof. by rewrite iotaS_rcons foldl_rcons. Qed.

Section Vec.
Variable F : fieldType.
Implicit Types (v : nat -> {poly F}) (s : nat -> int).

Lemma pdeg_ge0 (p : {poly F}) : (0 <= pdeg p) = (p != 0).
Proof. by rewrite /pdeg -size_poly_eq0; case: (size p) => [|k] //=; lia. Qed.
Lemma pdeg0 : pdeg (0 : {poly F}) = -1.
Proof. by rewrite /pdeg size_poly0. Qed.
Lemma pdeg_gtm1 (p : {poly F}) : (-1 < pdeg p) = (p != 0).
Proof. by rewrite -pdeg_ge0; lia. Qed.

(** all entries are zero *)
Definition zvec v len := forall j, (j < len)%N -> v j = 0.

(** *** minimum of the shift *)
Lemma min_shift_le s len j : (j < len)%N -> min_shift s len <= s j.
Proof.
rewrite /min_shift; set x0 := (if _ then _ else _).
elim: len j x0 => // len IH j x0 Hj; rewrite foldl_iotaS add0n.
have IH' := IH _ x0; set f := foldl _ _ _ in IH' *.
case: (ltnP j len) => [/IH'|Hj'] ; first by case: ifP; lia.
have -> : j = len by lia.
by case: ifP; lia.
Qed.

Lemma min_shift_mem s len : (0 < len)%N -> exists2 j, (j < len)%N & min_shift s len = s j.
Proof.
move=> Hl; rewrite /min_shift Hl.
have [j Hj ->] : exists2 j, (j <= len.-1)%N &
    foldl (fun mn j => if s j < mn then s j else mn) (s 0%N) (iota 0 len) = s j.
  elim: len {Hl} => [|len [j Hj E]]; first by exists 0%N.
  rewrite foldl_iotaS E add0n; case: ifP => _; [exists len | exists j] => //=; lia.
by exists j => //; lia.
Qed.

(** *** degrees *)
(** t is the degree of the vector *)
Definition vdeg v s len (t : int) : Prop :=
  (forall j, (j < len)%N -> v j != 0 -> pdeg (v j) + s j <= t) /\
  (exists2 j, (j < len)%N & v j != 0 /\ pdeg (v j) + s j = t).

Lemma vec_maxP v len :
  let mx := vec_max v len in
  (zvec v len /\ mx = -1) \/ (vdeg v (fun _ => 0) len mx /\ 0 <= mx).
Proof.
rewrite /vec_max; elim: len => [|len IH]; first by left.
rewrite foldl_iotaS add0n; cbv zeta; set mx := foldl _ _ _ in IH *.
case: IH => [[Z ->]|[[U [j Hj [Nj Ej]]] P]].
  rewrite pdeg_gtm1; case: eqP => [E|/eqP N].
    by left; split=> // j; rewrite ltnS leq_eqVlt => /orP[/eqP->|/Z].
  right; split; last by rewrite pdeg_ge0.
  split=> [j|]; last by exists len => //; rewrite addr0.
  by rewrite ltnS leq_eqVlt => /orP[/eqP->|/Z ->]; rewrite ?addr0 // eqxx.
right; case: ifP => C; (split; last by lia).
  split=> [k|]; last first.
    by exists len => //; rewrite addr0; split=> //; rewrite -pdeg_ge0; lia.
  rewrite ltnS leq_eqVlt => /orP[/eqP->|Hk Nk]; rewrite ?addr0 //.
  by have := U k Hk Nk; lia.
split=> [k|]; last by exists j => //; lia.
rewrite ltnS leq_eqVlt => /orP[/eqP->|Hk Nk]; first by rewrite addr0; lia.
exact: U.
Qed.

Lemma vec_max_shiftedP v s len :
  let mx := vec_max_shifted v s len in
  (zvec v len /\ mx = min_shift s len - 1) \/ (vdeg v s len mx /\ min_shift s len <= mx).
Proof.
rewrite /vec_max_shifted; set ms := min_shift s len.
have Hms j : (j < len)%N -> ms <= s j by exact: min_shift_le.
move: ms Hms => ms; elim: len => [|len IH] Hms; first by left.
rewrite foldl_iotaS add0n; cbv zeta.
have Hms' j : (j < len)%N -> ms <= s j by move=> Hj; apply: Hms; lia.
move: (IH Hms'); cbv zeta; set mx := foldl _ _ _ => {}IH.
have Hl := Hms len (ltnSn _).
have E0 : (s len <= pdeg (v len) + s len) = (v len != 0) by rewrite -pdeg_ge0; lia.
case: IH => [[Z Em]|[[U [j Hj [Nj Ej]]] P]].
  rewrite E0; case: eqP => [E|/eqP N] /=.
    by left; split=> // j; rewrite ltnS leq_eqVlt => /orP[/eqP->|/Z].
  have N' := N; rewrite -pdeg_ge0 in N'.
  have -> : (mx < pdeg (v len) + s len) by rewrite Em; lia.
  right; split; last by lia.
  split=> [j|]; last by exists len.
  by rewrite ltnS leq_eqVlt => /orP[/eqP->|/Z ->]; rewrite ?eqxx.
right; rewrite E0; case: ifP => [/andP[N C]|C]; (split; last by lia).
  split=> [k|]; last by exists len.
  rewrite ltnS leq_eqVlt => /orP[/eqP->|Hk Nk] //.
  by have := U k Hk Nk; lia.
split=> [k|]; last by exists j => //; lia.
rewrite ltnS leq_eqVlt => /orP[/eqP->|Hk Nk]; last exact: U.
by move=> N; move: C; rewrite N /=; lia.
Qed.

(** *** pivots *)
Definition fpiv (up : bool) len s v j :=
  [/\ (j < len)%N, v j != 0,
      (forall k, (k < len)%N -> v k != 0 -> pdeg (v k) + s k <= pdeg (v j) + s j) &
      (forall k, (k < len)%N -> (if up then k < j else j < k)%N -> v k != 0 ->
         pdeg (v k) + s k < pdeg (v j) + s j)].

Lemma zvecS v len : zvec v len -> v len = 0 -> zvec v len.+1.
Proof. by move=> Z E j; rewrite ltnS leq_eqVlt => /orP[/eqP->|/Z]. Qed.

Lemma fpivS0 up len s v j : fpiv up len s v j -> v len = 0 -> fpiv up len.+1 s v j.
Proof.
move=> [H1 H2 H3 H4] E; split=> //; first by lia.
  by move=> k; rewrite ltnS leq_eqVlt => /orP[/eqP->|/H3//]; rewrite E eqxx.
by move=> k; rewrite ltnS leq_eqVlt => /orP[/eqP->|/H4//]; rewrite E eqxx.
Qed.

Lemma fpivZ up len s v : zvec v len -> v len != 0 -> fpiv up len.+1 s v len.
Proof.
move=> Z N; split=> //.
  by move=> k; rewrite ltnS leq_eqVlt => /orP[/eqP->|/Z ->] //; rewrite eqxx.
by move=> k; rewrite ltnS leq_eqVlt => /orP[/eqP->|/Z ->]; rewrite ?eqxx //; case: ifP; lia.
Qed.

Lemma fpivN (up : bool) len s v j : fpiv up len s v j -> v len != 0 ->
  (if up then pdeg (v j) + s j < pdeg (v len) + s len
   else pdeg (v j) + s j <= pdeg (v len) + s len) -> fpiv up len.+1 s v len.
Proof.
move=> [H1 H2 H3 H4] N C; split=> //.
  move=> k; rewrite ltnS leq_eqVlt => /orP[/eqP->|Hk Nk] //.
  by have := H3 k Hk Nk; case: up C {H4}; lia.
move=> k; rewrite ltnS leq_eqVlt => /orP[/eqP->|Hk]; first by case: up C {H4}; lia.
by case: up C {H4} => C B Nk; [have := H3 k Hk Nk | ]; lia.
Qed.

Lemma fpivO (up : bool) len s v j : fpiv up len s v j ->
  (if up then pdeg (v len) + s len <= pdeg (v j) + s j
   else pdeg (v len) + s len < pdeg (v j) + s j) -> fpiv up len.+1 s v j.
Proof.
move=> [H1 H2 H3 H4] C; split=> //; first by lia.
  move=> k; rewrite ltnS leq_eqVlt => /orP[/eqP->|Hk Nk]; last exact: H3.
  by case: up C {H4}; lia.
move=> k; rewrite ltnS leq_eqVlt => /orP[/eqP->|Hk]; last exact: H4.
by case: up C {H4}; lia.
Qed.

Lemma fpiv_uniq up len s v j j' : fpiv up len s v j -> fpiv up len s v j' -> j = j'.
Proof.
move=> [H1 H2 H3 H4] [H1' H2' H3' H4'].
case: (ltngtP j j') => // L; exfalso.
  case: up H4 H4' => H4 H4'; first by have := H4' j H1 L H2; have := H3 j' H1' H2'; lia.
  by have := H4 j' H1' L H2'; have := H3' j H1 H2; lia.
case: up H4 H4' => H4 H4'; first by have := H4 j' H1' L H2'; have := H3' j H1 H2; lia.
by have := H4' j H1 L H2; have := H3 j' H1' H2'; lia.
Qed.

(** loop states *)
Definition pstate (up : bool) len s v (m0 : int) (st : int * int) : Prop :=
  (zvec v len /\ st = (m0, -1)) \/
  (exists2 j, fpiv up len s v j & st = (pdeg (v j) + s j, j%:Z)).

Definition up_of (o : orientation) : bool :=
  match o with ROW_LOWER | COL_UPPER => false | _ => true end.

Lemma loopN (up : bool) v len :
  pstate up len (fun _ => 0) v (-1)
    (foldl (fun (st : int * int) j =>
       let d := pdeg (v j) in
       if (0 <= d) && (if up then st.1 < d else st.1 <= d) then (d, j%:Z) else st) (-1, -1) (iota 0 len)).
Proof.
elim: len => [|len IH]; first by left.
rewrite foldl_iotaS add0n; cbv zeta; move: IH; move: (foldl _ _ _) => st IH.
rewrite pdeg_ge0; case: IH => [[Z ->]|[j P ->]].
  case: eqP => [E|/eqP N] /=; first by left; split=> //; exact: zvecS.
  right; exists len; first exact: fpivZ.
  by move: N; rewrite -pdeg_ge0; case: up; case: ifP; rewrite ?addr0 //; lia.
right; rewrite /= addr0; case: eqP => [E|/eqP N] /=.
  by exists j; rewrite ?addr0 //; exact: fpivS0.
case: ifP => C; [exists len | exists j]; rewrite ?addr0 //.
  by apply: fpivN P N _; rewrite !addr0; case: up C.
by apply: fpivO P _; rewrite !addr0; case: up C; lia.
Qed.

Lemma loopS (up : bool) v s len :
  pstate up len s v 0
    (foldl (fun (st : int * int) j =>
       let d := pdeg (v j) in
       if (0 <= d) && ((st.2 == -1) || (if up then st.1 < d + s j else st.1 <= d + s j))
       then (d + s j, j%:Z) else st) (0, -1) (iota 0 len)).
Proof.
elim: len => [|len IH]; first by left.
rewrite foldl_iotaS add0n; cbv zeta; move: IH; move: (foldl _ _ _) => st IH.
rewrite pdeg_ge0; case: IH => [[Z ->]|[j P ->]].
  case: eqP => [E|/eqP N] /=; first by left; split=> //; exact: zvecS.
  by right; exists len => //; exact: fpivZ.
right; rewrite /=; case: eqP => [E|/eqP N] /=.
  by exists j => //; exact: fpivS0.
case: ifP => C; [exists len | exists j] => //.
  by apply: fpivN P N _; case: up C.
by apply: fpivO P _; case: up C; lia.
Qed.

(** values stored for a zero vector *)
Definition zpivind (len : nat) (shift : option (nat -> int)) o : int :=
  if up_of o then (if shift is None then len%:Z else -1) else -1.
Definition zpivdeg (len : nat) (shift : option (nat -> int)) o : int :=
  if up_of o then (if shift is None then -1 else len%:Z) else -1.

Lemma vec_pivot_profileP v shift len o :
  (zvec v len /\ vec_pivot_profile v shift len o = (zpivind len shift o, zpivdeg len shift o, 0%N)) \/
  (exists2 j, fpiv (up_of o) len (shiftf shift) v j &
     vec_pivot_profile v shift len o = (j%:Z, pdeg (v j), 1%N)).
Proof.
case: shift => [s|].
  have H up := loopS up v s len.
  case: o; rewrite /vec_pivot_profile /up_of;
    [have := H false | have := H true | have := H true | have := H false];
    rewrite /pstate; case: (foldl _ _ _) => mx piv [[Z [-> ->]]|[j P [-> ->]]];
    try (by left); right; exists j => //;
    (have -> : (j%:Z == -1) = false by lia); rewrite absz_nat addrK.
all: try by [].
have H up := loopN up v len.
case: o; rewrite /vec_pivot_profile /up_of;
  [have := H false | have := H true | have := H true | have := H false];
  rewrite /pstate; case: (foldl _ _ _) => mx piv [[Z [-> ->]]|[j P [-> ->]]];
  try (by left); right; exists j => //; rewrite addr0 //;
  (have -> : (j%:Z == -1) = false by lia).
all: by [].
Qed.

(** echelon pivots *)
Definition epiv (up : bool) len v j :=
  [/\ (j < len)%N, v j != 0 & forall k, (k < len)%N -> (if up then k < j else j < k)%N -> v k = 0].

Lemma epiv_uniq up len v j j' : epiv up len v j -> epiv up len v j' -> j = j'.
Proof.
move=> [H1 H2 H3] [H1' H2' H3'].
case: (ltngtP j j') => // L; exfalso.
  case: up H3 H3' => H3 H3'; first by move: H2; rewrite (H3' j) // eqxx.
  by move: H2'; rewrite (H3 j') // eqxx.
case: up H3 H3' => H3 H3'; first by move: H2'; rewrite (H3 j') // eqxx.
by move: H2; rewrite (H3' j) // eqxx.
Qed.

Lemma scan_downP v len :
  (zvec v len /\ scan_down v len = -1) \/
  (exists2 j, epiv false len v j & scan_down v len = j%:Z).
Proof.
elim: len => [|len IH] /=; first by left.
case: eqP => [E|/eqP N]; last first.
  by right; exists len => //; split=> // k; lia.
case: IH => [[Z ->]|[j [H1 H2 H3] ->]]; first by left; split=> //; exact: zvecS.
right; exists j => //; split=> //; first by lia.
move=> k; rewrite ltnS leq_eqVlt => /orP[/eqP-> //|Hk]; exact: H3.
Qed.

Lemma scan_upP v len :
  (zvec v len /\ scan_up v len len = len%:Z) \/
  (exists2 j, epiv true len v j & scan_up v len len = j%:Z).
Proof.
have : forall cnt, (cnt <= len)%N -> (forall k, (k < len - cnt)%N -> v k = 0) ->
  (zvec v len /\ scan_up v len cnt = len%:Z) \/
  (exists2 j, epiv true len v j & scan_up v len cnt = j%:Z).
  elim=> [|cnt IH] Hc Z /=; first by left; split=> // j Hj; apply: Z; lia.
  case: eqP => [E|/eqP N].
    apply: IH; first by lia.
    move=> k Hk; case: (ltnP k (len - cnt.+1)) => [/Z //|Hk'].
    by have -> : k = (len - cnt.+1)%N by lia.
  right; exists (len - cnt.+1)%N => //; split=> //; first by lia.
  by move=> k _; exact: Z.
by apply=> //; rewrite subnn.
Qed.

Lemma vec_echelon_pivotP v len o :
  (zvec v len /\ vec_echelon_pivot v len o = if up_of o then len%:Z else -1) \/
  (exists2 j, epiv (up_of o) len v j & vec_echelon_pivot v len o = j%:Z).
Proof. by case: o => /=; first [exact: scan_downP | exact: scan_upP]. Qed.
End Vec.
