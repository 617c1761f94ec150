(** Row by row weak Popov form: one step, invariant, termination. *)
From mathcomp Require Import all_ssreflect all_algebra fraction zify.
From Verif Require Import A_base SpecA SpecForms SpecLU A_forms_model A_forms_proof A_forms2_proof.
From Verif Require Import A_rot_model A_rot_proof A_wpopov_model A_rowops_proof.
From Verif Require Import A_detdeg_proof A_reduced_proof A_frac_proof.
Set Implicit Arguments.
Unset Strict Implicit.
Unset Printing Implicit Defensive.
Import Order.TTheory GRing.Theory Num.Theory.
Local Open Scope ring_scope.

Section Vec.
Variable F : fieldType.
Implicit Types (u v w : nat -> {poly F}) (s : nat -> int).

(** the collision of two pivots: the new row has smaller pivot *)
Lemma collision up cdim s v u v' j :
  fpiv up cdim s v j -> fpiv up cdim s u j -> (size (u j) <= size (v j))%N ->
  (forall k, (k < cdim)%N -> v' k = v k +
    (- (lead_coef (v j) * (lead_coef (u j))^-1) *: 'X^(size (v j) - size (u j))) * u k) ->
  forall k, (k < cdim)%N -> v' k != 0 ->
    pdeg (v' k) + s k <= pdeg (v j) + s j /\
    ((k == j) || (if up then k < j else j < k)%N -> pdeg (v' k) + s k < pdeg (v j) + s j).
Proof.
move=> [Hj Nv Lv Sv] [_ Nu Lu Su] Huv E k Hk; rewrite E //.
set c := - _; set e := (_ - _)%N; set w := _ * u k.
have P : (0 < size (v j))%N by rewrite size_poly_gt0.
have P' : (0 < size (u j))%N by rewrite size_poly_gt0.
have W : (size w <= e + size (u k))%N.
  rewrite /w -scalerAl (leq_trans (size_scale_leq _ _)) // (leq_trans (size_mul_leq _ _)) //.
  by rewrite size_polyXn addSn.
case: (k =P j) => [Ekj|Nk] Nz.
  suff H : (size (v k + w)%R <= (size (v j)).-1)%N.
    by rewrite /pdeg; move: (size _) (size _) H P => x y; rewrite Ekj; lia.
  apply/leq_sizeP=> i Hi; rewrite coefD /w Ekj -scalerAl coefZ coefXnM.
  have -> : (i < e)%N = false by rewrite /e; move: (size _) (size _) Hi P Huv P' => x y; lia.
  have [Ei|Li] : i = (size (v j)).-1 \/ (size (v j) <= i)%N by move: (size _) Hi => x; lia.
    rewrite Ei; have -> : ((size (v j)).-1 - e)%N = (size (u j)).-1.
      by rewrite /e; move: (size (v j)) (size (u j)) P Huv P' => x y; lia.
    by rewrite -!lead_coefE /c mulNr -mulrA mulVf ?lead_coef_eq0 // mulr1 addrN.
  rewrite (nth_default _ Li) nth_default ?mulr0 ?addr0 //.
  by rewrite /e; move: (size (v j)) (size (u j)) Li P Huv P' => x y; lia.
have Lk := Lv k Hk; have Sk := Sv k Hk; have Lk' := Lu k Hk; have Sk' := Su k Hk.
have [Zu|Nuk] := eqVneq (u k) 0.
  have Zw : w = 0 by rewrite /w Zu mulr0.
  by move: Nz; rewrite Zw addr0 => Nz; split; [exact: Lk|move=> B; apply: Sk].
have {}Lk' := Lk' Nuk; have {}Sk' B := Sk' B Nuk.
have [Zv|Nvk] := eqVneq (v k) 0.
  rewrite Zv add0r; move: W Lk' Sk' Huv; rewrite /pdeg /e; clear.
  move: (size w) (size (u k)) (size (u j)) (size (v j)) => x y z t W L S H.
  by split; [lia|move=> /S; lia].
have {}Lk := Lk Nvk; have {}Sk B := Sk B Nvk.
have := size_add (v k) w; move: W Lk' Sk' Huv Lk Sk; rewrite /pdeg /e; clear.
move: (size (v k + w)%R) (size w) (size (u k)) (size (u j)) (size (v j)) (size (v k)).
move=> q x y z t r W L S H L' S' M; split; first by lia.
by move=> B; move: (S B) (S' B); lia.
Qed.
End Vec.

Section Rank.
Variable F : fieldType.
Implicit Types (A B : fmat {poly F}).
Local Notation mf := (map_mx (@FracField.tofrac [idomainType of {poly F}])).

(** the p first rows, over the fractions *)
Definition top p c B := mf (mx_of p c B).

Lemma topS p c B : (top p.+1 c B :=: top p c B + mf (mx_of 1 c (frow_vec (B p))))%MS.
Proof.
apply/eqmxP/andP; split.
  apply/row_subP=> i; case: (ltnP i p) => [L|G].
    apply: submx_trans (addsmxSl _ _).
    suff -> : row i (top p.+1 c B) = row (Ordinal L) (top p c B) by exact: row_sub.
    by rewrite -!map_row; congr (mf _); apply/rowP=> k; rewrite !mxE.
  apply: submx_trans (addsmxSr _ _).
  suff -> : row i (top p.+1 c B) = mf (mx_of 1 c (frow_vec (B p))) by [].
  rewrite -map_row; congr (mf _); apply/rowP=> k; rewrite !mxE /frow_vec.
  by congr (B _ _); have := ltn_ord i; lia.
rewrite addsmx_sub; apply/andP; split.
  apply/row_subP=> i; have L : (i < p.+1)%N by have := ltn_ord i; lia.
  suff -> : row i (top p c B) = row (Ordinal L) (top p.+1 c B) by exact: row_sub.
  by rewrite -!map_row; congr (mf _); apply/rowP=> k; rewrite !mxE.
suff -> : mf (mx_of 1 c (frow_vec (B p))) = row ord_max (top p.+1 c B) by exact: row_sub.
by rewrite -map_row; congr (mf _); apply/matrixP=> a k; rewrite !mxE.
Qed.

Lemma top_ext p c B B' : feq p c B B' -> top p c B = top p c B'.
Proof. by move=> H; rewrite /top (mx_of_feq H). Qed.

Lemma top_lmul p c (U : 'M_p) B B' : \det U != 0 -> lmul c U B B' -> (top p c B' :=: top p c B)%MS.
Proof.
move=> NU E; rewrite /top E map_mxM; apply: eqmxMfull.
by rewrite row_full_unit unitmxE unitfE det_map_mx tofrac_eq0.
Qed.

Lemma top_rank up s p c B (g : nat -> nat) :
  (forall i, (i < p)%N -> fpiv up c s (B i) (g i)) ->
  (forall i i', (i < p)%N -> (i' < p)%N -> g i = g i' -> i = i') -> \rank (top p c B) = p.
Proof.
move=> H I; have L (i : 'I_p) : (g i < c)%N by have [] := H i (ltn_ord i).
have W : weak_popov_form up s (mx_of p c B).
  exists (fun i => Ordinal (L i)).
    by move=> i i' /(congr1 val) /= /I E; apply: val_inj; exact: E.
  by move=> i; apply/pivot_atP; exact: H.
by apply/eqP/indep_row_free=> w; apply: reduced_indep; exact: weak_popov_reduced W.
Qed.
End Rank.

Lemma fpiv_ext (F : fieldType) up len s (v v' : nat -> {poly F}) j :
  (forall k, (k < len)%N -> v k = v' k) -> fpiv up len s v j -> fpiv up len s v' j.
Proof.
move=> E [H1 H2 H3 H4]; split=> //; first by rewrite -E.
  by move=> k Hk; rewrite -!E //; exact: H3.
by move=> k Hk; rewrite -!E //; exact: H4.
Qed.

(** weight of a row: decreases at each collision *)
Section Weight.
Variables (F : fieldType) (shift : option (nat -> int)) (cdim : nat) (o : orientation) (a : int).
Let s := shiftf shift.
Let up := up_of o.
Hypothesis Ha : forall j, (j < cdim)%N -> a <= s j.
Implicit Types v : nat -> {poly F}.

Definition weight v : nat :=
  let '(p, d, nz) := vec_pivot_profile v shift cdim o in
  if nz == 0%N then 0%N
  else (absz (d + s (absz p) - a)%R * cdim + (if up then cdim.-1 - absz p else absz p)).+1%N.

Lemma weight_zero v : zvec v cdim -> weight v = 0%N.
Proof.
move=> Z; rewrite /weight; have [[_ ->]|[j [Hj Nj _ _] _]] := vec_pivot_profileP v shift cdim o => //.
by rewrite Z ?eqxx in Nj.
Qed.

Lemma weight_fpiv v j : fpiv up cdim s v j ->
  weight v = (absz (pdeg (v j) + s j - a)%R * cdim + (if up then cdim.-1 - j else j)).+1%N.
Proof.
move=> P; rewrite /weight; have [[Z _]|[j' P' ->]] := vec_pivot_profileP v shift cdim o.
  by have [Hj Nj _ _] := P; rewrite Z ?eqxx in Nj.
by rewrite (fpiv_uniq P' P).
Qed.

Lemma weight_ext v v' : (forall k, (k < cdim)%N -> v k = v' k) -> weight v = weight v'.
Proof.
move=> E; have [[Z _]|[j P _]] := vec_pivot_profileP v shift cdim o.
  by rewrite !weight_zero // => k Hk; rewrite -E // Z.
by rewrite (weight_fpiv P) (weight_fpiv (fpiv_ext E P)) E //; have [] := P.
Qed.

Lemma weight_le v (d : nat) b : (forall j, (j < cdim)%N -> (size (v j) <= d.+1)%N) ->
  (forall j, (j < cdim)%N -> s j <= b) -> (weight v <= cdim * (d + absz (b - a)%R + 1))%N.
Proof.
move=> Hd Hb; have [[Z _]|[j P _]] := vec_pivot_profileP v shift cdim o.
  by rewrite weight_zero.
rewrite (weight_fpiv P); have [Hj Nj _ _] := P.
have X : (absz (pdeg (v j) + s j - a)%R <= d + absz (b - a)%R)%N.
  move: (Hd j Hj) (Hb j Hj) (Ha Hj) Nj; rewrite -size_poly_gt0 /pdeg; move: (size _) => x; lia.
have Y : ((if up then cdim.-1 - j else j) < cdim)%N by case: (up); lia.
rewrite mulnDr muln1 -addnS leq_add // mulnC leq_mul //.
Qed.

Lemma weight_collision v u v' j :
  fpiv up cdim s v j -> fpiv up cdim s u j -> (size (u j) <= size (v j))%N ->
  (forall k, (k < cdim)%N -> v' k = v k +
    (- (lead_coef (v j) * (lead_coef (u j))^-1) *: 'X^(size (v j) - size (u j))) * u k) ->
  (weight v' < weight v)%N.
Proof.
move=> P P' H E; rewrite (weight_fpiv P); have C := collision P P' H E.
have [[Z _]|[i Q _]] := vec_pivot_profileP v' shift cdim o; first by rewrite weight_zero.
rewrite (weight_fpiv Q) ltnS; have [Hi Ni _ _] := Q; have [Hj Nj _ _] := P.
have [C1 C2] := C i Hi Ni.
have a1 := Ha Hi; have a2 := Ha Hj.
have p1 : 0 <= pdeg (v' i) by rewrite pdeg_ge0.
have p2 : 0 <= pdeg (v j) by rewrite pdeg_ge0.
have [L|[Eq B]] : (absz (pdeg (v' i) + s i - a)%R < absz (pdeg (v j) + s j - a)%R)%N \/
    (absz (pdeg (v' i) + s i - a)%R = absz (pdeg (v j) + s j - a)%R)%N /\ (if up then j < i else i < j)%N.
- case: (boolP ((i == j) || (if up then i < j else j < i)%N)) => B.
    by left; move: (C2 B); lia.
  have B' : (if up then j < i else i < j)%N by move: B; clear; case: (up); lia.
  have [L|G] := ltrP (pdeg (v' i) + s i) (pdeg (v j) + s j); first by left; lia.
  by right; split=> //; lia.
- move: L; move: (absz (pdeg (v' i) + _ - a)%R) (absz (pdeg (v j) + _ - a)%R) => x y L.
  have : (x.+1 * cdim <= y * cdim)%N by rewrite leq_mul.
  rewrite mulSn; have : ((if up then cdim.-1 - i else i) < cdim)%N by case: (up); lia.
  by case: (up); lia.
- by rewrite Eq ltn_add2l; move: B; clear -Hi Hj; case: (up); lia.
Qed.
End Weight.
