(** C27-C32: degrees, pivots, leading matrices and tests of forms. *)
From mathcomp Require Import all_ssreflect all_algebra zify.
From Verif Require Import A_base SpecA SpecForms A_forms_model A_forms_proof A_forms2_proof
  A_reduced_proof.
Set Implicit Arguments.
Unset Strict Implicit.
Unset Printing Implicit Defensive.
Import Order.TTheory GRing.Theory Num.Theory.
Local Open Scope ring_scope.

Section P.
Variable F : fieldType.
Implicit Types (A : fmat {poly F}) (shift : option (nat -> int)).

(** *** C27 *)
(** minimum of the n first entries of a shift, 0 if there is none *)
Definition is_min (s : nat -> int) n (x : int) : Prop :=
  (forall j, (j < n)%N -> x <= s j) /\
  (if n is 0 then x = 0 else exists2 j, (j < n)%N & x = s j).

(** degree given to zero rows: one less than all possible degrees *)
Definition zero_row_degree shift n (t : int) : Prop :=
  if shift is Some s then is_min s n (t + 1) else t = -1.

(** the row degrees and number of nonzero rows of [M] *)
Definition row_degrees_of m n (M : 'M[{poly F}]_(m, n)) shift (zero : int -> Prop)
  (rdeg : nat -> int) (nnz : nat) : Prop :=
  (forall i : 'I_m,
     (row i M != 0 -> is_rdeg (fun j : 'I_n => shiftf shift j) (row i M) (rdeg i)) /\
     (row i M = 0 -> zero (rdeg i))) /\
  nnz = #|[set i : 'I_m | row i M != 0]|.

Lemma min_shiftP s n : is_min s n (min_shift s n).
Proof.
split; first by move=> j; exact: min_shift_le.
by case: n => [|n] //; exact: min_shift_mem.
Qed.

Lemma zdegP shift n : zero_row_degree shift n (zdeg shift n).
Proof. by case: shift => [s|] //=; rewrite subrK; exact: min_shiftP. Qed.

Lemma row_degrees m n A shift (zero : int -> Prop) (f : (nat -> {poly F}) -> int * nat) (z : int) :
  (forall v, (zvec v n /\ f v = (z, 0%N)) \/
     exists2 t, vdeg v (shiftf shift) n t & f v = (t, 1%N)) -> zero z ->
  row_degrees_of (mx_of m n A) shift zero (fun i => (f (A i)).1) (\sum_(i < m) (f (A i)).2)%N.
Proof.
move=> H Hz; split.
  move=> i; have [[Z ->]|[t D ->]] := H (A i); split=> //=.
  - by move/negP; case; apply/eqP/row_zeroP.
  - by move=> _; apply/is_rdegP.
  - by case: D => _ [j Hj [Nj _]] /row_zeroP/(_ j Hj) Z; rewrite Z eqxx in Nj.
apply: (sum_nz (f := fun i => (f (A i)).2)) => i; have [[Z ->]|[t D ->]] := H (A i); first by left.
by right; split=> //; exists t, (shiftf shift).
Qed.

Theorem C27_row_degree m n A shift :
  row_degrees_of (mx_of m n A) shift (zero_row_degree shift n)
    (row_degree m n A shift).1 (row_degree m n A shift).2.
Proof.
apply: (@row_degrees m n A _ _ (fun v => vec_degree v shift n) (zdeg shift n)); last exact: zdegP.
by move=> v; exact: vec_degreeP.
Qed.

Theorem C27_column_degree m n A shift :
  row_degrees_of (mx_of m n A)^T shift (zero_row_degree shift m)
    (column_degree m n A shift).1 (column_degree m n A shift).2.
Proof.
have T := mx_of_tr n m A; rewrite -T.
apply: (@row_degrees n m (ftr A) _ _ (fun v => vec_degree v shift m) (zdeg shift m)); last exact: zdegP.
by move=> v; exact: vec_degreeP.
Qed.

Theorem C27_row_degree_zero m n A shift :
  row_degrees_of (mx_of m n A) shift (fun t => zero_row_degree shift n (t - 1))
    (row_degree_zero m n A shift).1 (row_degree_zero m n A shift).2.
Proof.
apply: (@row_degrees m n A _ _ (fun v => vec_degree_zero v shift n) (zdeg shift n + 1)) => [v|].
  exact: vec_degree_zeroP.
by rewrite addrK; exact: zdegP.
Qed.

Theorem C27_column_degree_zero m n A shift :
  row_degrees_of (mx_of m n A)^T shift (fun t => zero_row_degree shift m (t - 1))
    (column_degree_zero m n A shift).1 (column_degree_zero m n A shift).2.
Proof.
have T := mx_of_tr n m A; rewrite -T.
apply: (@row_degrees n m (ftr A) _ _ (fun v => vec_degree_zero v shift m) (zdeg shift m + 1)) => [v|].
  exact: vec_degree_zeroP.
by rewrite addrK; exact: zdegP.
Qed.

(** entries of the shifted degree matrix; a zero entry counts as degree -1 *)
Theorem C27_degree_matrix_shifted A shift o i j :
  degree_matrix_shifted A shift o i j =
  sdeg (shiftf shift (if row_wise o then j else i)) (A i j).
Proof. by rewrite /degree_matrix_shifted /sdeg; case: shift; case: o => //=; rewrite ?addr0. Qed.

(** *** C28 *)
Definition vec_of n (v : nat -> {poly F}) : 'rV[{poly F}]_n := \row_j v j.

Definition lower_like (o : orientation) : bool :=
  match o with ROW_LOWER | COL_UPPER => true | _ => false end.

Lemma vec_of_row n v : vec_of n v = row 0 (mx_of 1 n (fun _ => v)).
Proof. by apply/rowP=> j; rewrite !mxE. Qed.

Lemma vec_of0 n v : vec_of n v = 0 <-> zvec v n.
Proof. by rewrite vec_of_row; exact: (row_zeroP n (fun _ => v) (0 : 'I_1)). Qed.

Lemma lower_up o : lower_like o = ~~ up_of o. Proof. by case: o. Qed.

(** nonzero vectors: the pivot, its degree, and return value 1 *)
Theorem C28_pivot_profile (v : nat -> {poly F}) shift n o : vec_of n v != 0 ->
  exists2 j : 'I_n, pivot_at (~~ lower_like o) (shiftf shift) (vec_of n v) j &
    vec_pivot_profile v shift n o = (j%:Z, pdeg (v j), 1%N).
Proof.
move=> N; have [[/vec_of0 Z _]|[j P E]] := vec_pivot_profileP v shift n o.
  by rewrite Z eqxx in N.
have Hj : (j < n)%N by case: P.
exists (Ordinal Hj) => //; rewrite vec_of_row lower_up negbK.
by apply/(pivot_atP _ _ (fun _ => v)).
Qed.

(** zero vectors, where the code follows the documentation: with no shift, or for
    lower rows and upper columns *)
Theorem C28_pivot_profile_zero (v : nat -> {poly F}) shift n o : vec_of n v = 0 ->
  shift = None \/ lower_like o ->
  vec_pivot_profile v shift n o = (if lower_like o then -1 else n%:Z, -1, 0%N).
Proof.
move=> /vec_of0 Z H; have [[_ ->]|[j [Hj Nj _ _] _]] := vec_pivot_profileP v shift n o.
  by case: H => [->|] //; case: o => //; case: shift.
by rewrite Z ?eqxx in Nj.
Qed.

(** in the other cases the index and degree of a zero vector are exchanged: the
    index is -1 and the degree is the length *)
Theorem C28_pivot_profile_zero_refuted s n o : ~~ lower_like o ->
  exists2 v : nat -> {poly F}, vec_of n v = 0 &
    vec_pivot_profile v (Some s) n o = (-1, n%:Z, 0%N).
Proof.
move=> No; exists (fun _ => 0); first by apply/vec_of0.
have [[_ ->]|[j [Hj Nj _ _] _]] := vec_pivot_profileP (fun _ => 0 : {poly F}) (Some s) n o.
  by case: o No.
by rewrite eqxx in Nj.
Qed.

(** matrices: line by line; the number of nonzero lines is returned *)
Theorem C28_pivot_index m n A shift o :
  (pivot_index m n A shift o).2 =
  if row_wise o then #|[set i | row i (mx_of m n A) != 0]|
  else #|[set j | row j (mx_of m n A)^T != 0]|.
Proof.
have H (B : fmat {poly F}) p q : (\sum_(i < p) (vec_pivot_profile (B i) shift q o).2)%N =
    #|[set i : 'I_p | row i (mx_of p q B) != 0]|.
  apply: (sum_nz (f := fun i => (vec_pivot_profile (B i) shift q o).2)) => i.
  have [[Z ->]|[j P ->]] := vec_pivot_profileP (B i) shift q o; first by left.
  right; split=> //; exists (pdeg (B i j) + shiftf shift j), (shiftf shift).
  by case: P => H1 H2 H3 _; split=> //; exists j.
rewrite /pivot_index /pivot_profile /= /line /nlines /linelen; case: (row_wise o).
  exact: H.
have T := mx_of_tr n m A; rewrite -T; exact: (H (ftr A)).
Qed.

(** *** C29 *)
Theorem C29_leading_matrix m n A shift o :
  let L := mx_of m n (leading_matrix m n A shift o) in
  if row_wise o then leading_matrix_of (shiftf shift) (mx_of m n A) L
  else leading_matrix_of (shiftf shift) (mx_of m n A)^T L^T.
Proof. exact: leading_matrixP. Qed.

Theorem C29_is_reduced m n A shift o :
  is_reduced m n A shift o <->
  oriented (fun _ => @reduced_form F (shiftf shift)) o (mx_of m n A).
Proof. exact: is_reducedP. Qed.

Theorem C29_weak_popov_is_reduced m n A shift o :
  is_weak_popov m n A shift o -> is_reduced m n A shift o.
Proof.
move/is_weak_popovP => H; apply/is_reducedP.
by case: o H => /=; exact: weak_popov_reduced.
Qed.

(** *** C30 *)
Theorem C30_is_weak_popov m n A shift o :
  is_weak_popov m n A shift o <->
  oriented (fun up => @weak_popov_form F up (shiftf shift)) o (mx_of m n A).
Proof. exact: is_weak_popovP. Qed.

Theorem C30_is_ordered_weak_popov m n A shift o :
  is_ordered_weak_popov m n A shift o <->
  oriented (fun up => @ordered_weak_popov_form F up (shiftf shift)) o (mx_of m n A).
Proof. exact: is_ordered_weak_popovP. Qed.

(** *** C31 *)
(** three orientations of the four *)
Theorem C31_is_popov_partial m n A shift o : o <> ROW_UPPER ->
  exists2 b : bool, is_popov m n A shift o = AOk b &
    (b <-> oriented (fun up => @popov_form F up (shiftf shift)) o (mx_of m n A)).
Proof. exact: is_popovP. Qed.

Local Arguments vec_pivot_profile : simpl never.
Definition popov_rejected : fmat {poly F} := fun i j =>
  if i == 0%N then 'X else if j == 0%N then 0 else 'X^2.
Definition popov_accepted : fmat {poly F} := fun i j =>
  if j == 0%N then 'X else if i == 0%N then 0 else 'X^2.
Definition popov_outside : fmat {poly F} := fun i j => if j == 0%N then 0 else 1.

(** ROW_UPPER: a matrix in Popov form is rejected *)
Theorem C31_is_popov_row_upper_refuted :
  exists A, popov_form true (fun _ => 0) (mx_of 2 2 A) /\ is_popov 2 2 A None ROW_UPPER = AOk false.
Proof.
exists popov_rejected; split.
  exists id => // i; split.
  - split; rewrite ?mxE.
    + by case: i => -[|[|//]] Hi /=; rewrite -?size_poly_eq0 ?size_polyX ?size_polyXn.
    + move=> k; rewrite !mxE /sdeg.
      by case: i => -[|[|//]] Hi; case: k => -[|[|//]] Hk /=; rewrite ?size_polyX ?size_polyXn ?eqxx.
    + move=> k; rewrite !mxE /sdeg /before.
      by case: i => -[|[|//]] Hi; case: k => -[|[|//]] Hk /=; rewrite ?size_polyX ?size_polyXn ?eqxx.
  - by rewrite mxE; case: i => -[|[|//]] Hi /=; rewrite ?monicX ?monicXn.
  - move=> i'; rewrite !mxE.
    by case: i => -[|[|//]] Hi; case: i' => -[|[|//]] Hi' //= _; rewrite ?size_polyX ?size_polyXn ?size_poly0.
have Ep : forall i, (i < 2)%N -> vec_pivot_profile (popov_rejected i) None 2 ROW_UPPER = (i%:Z, i.+1%:Z, 1%N).
  by case=> [|[|//]] _; rewrite /vec_pivot_profile /= /pdeg /= ?size_polyX ?size_polyXn ?size_poly0.
rewrite /is_popov /is_ordered_weak_popov /pivot_index /pivot_profile /piv_checks /= /line /= !Ep //=.
by rewrite monicX monicXn /= /pdeg /= !size_polyX.
Qed.

(** ROW_UPPER: a matrix not in Popov form is accepted *)
Theorem C31_is_popov_row_upper_accepts_refuted :
  exists A, ~ popov_form true (fun _ => 0) (mx_of 2 2 A) /\ is_popov 2 2 A None ROW_UPPER = AOk true.
Proof.
have Ep : forall i, (i < 2)%N -> vec_pivot_profile (popov_accepted i) None 2 ROW_UPPER = (i%:Z, i.+1%:Z, 1%N).
  by case=> [|[|//]] _; rewrite /vec_pivot_profile /= /pdeg /= ?size_polyX ?size_polyXn ?size_poly0.
exists popov_accepted; split.
  case=> piv Hi Hp; have [[N1 _ _] _ H] := Hp 0.
  have E0 : piv 0 = 0 by apply/val_inj => /=; have := Hi 0 1 isT; have := ltn_ord (piv 1); lia.
  by have := H 1 isT; rewrite E0 !mxE /= ltnn.
rewrite /is_popov /is_ordered_weak_popov /pivot_index /pivot_profile /piv_checks /= /line /= !Ep //=.
by rewrite monicX monicXn /= /pdeg /= !size_polyX ?size_polyXn ?size_poly0.
Qed.

(** ROW_UPPER: an entry outside of the matrix is read *)
Theorem C31_is_popov_row_upper_ub_refuted :
  exists A, popov_form true (fun _ => 0) (mx_of 1 2 A) /\ is_popov 1 2 A None ROW_UPPER = AUB.
Proof.
exists popov_outside; split.
  exists (fun _ => 1); first by move=> i i'; rewrite !ord1.
  move=> i; rewrite !ord1; split; last by move=> i'; rewrite ord1.
  - split; rewrite ?mxE /= ?oner_eq0 //.
    + move=> k; rewrite !mxE /sdeg /=.
      by case: k => -[|[|//]] Hk /=; rewrite ?eqxx.
    + move=> k; rewrite !mxE /sdeg /before /=.
      by case: k => -[|[|//]] Hk /=; rewrite ?eqxx.
  - by rewrite mxE monic1.
rewrite /is_popov /is_ordered_weak_popov /pivot_index /pivot_profile /piv_checks /= /line /=.
by rewrite /vec_pivot_profile /= /pdeg /= size_poly0 size_poly1.
Qed.

(** *** C32 *)
Theorem C32_is_echelon m n A o :
  is_echelon m n A o <-> oriented (fun up => @echelon_form F up) o (mx_of m n A).
Proof. exact: is_echelonP. Qed.

Theorem C32_is_hermite m n A o :
  is_hermite m n A o <-> oriented (fun up => @hermite_form F up) o (mx_of m n A).
Proof. exact: is_hermiteP. Qed.

(** the dispatcher, for the forms other than Hermite (Popov: see C31) *)
Theorem C32_is_form_partial m n A shift o :
  [/\ is_form m n A NONE shift o = AOk true,
      (exists2 b : bool, is_form m n A REDUCED shift o = AOk b &
         b <-> oriented (fun _ => @reduced_form F (shiftf shift)) o (mx_of m n A)),
      (exists2 b : bool, is_form m n A WEAK_POPOV shift o = AOk b &
         b <-> oriented (fun up => @weak_popov_form F up (shiftf shift)) o (mx_of m n A)),
      (exists2 b : bool, is_form m n A ORD_WEAK_POPOV shift o = AOk b &
         b <-> oriented (fun up => @ordered_weak_popov_form F up (shiftf shift)) o (mx_of m n A)) &
      (o <> ROW_UPPER ->
       exists2 b : bool, is_form m n A POPOV shift o = AOk b &
         b <-> oriented (fun up => @popov_form F up (shiftf shift)) o (mx_of m n A)) /\
      (exists2 b : bool, is_form m n A ECHELON shift o = AOk b &
         b <-> oriented (fun up => @echelon_form F up) o (mx_of m n A))].
Proof.
split=> //; last split.
- by eexists; [reflexivity|exact: is_reducedP].
- by eexists; [reflexivity|exact: is_weak_popovP].
- by eexists; [reflexivity|exact: is_ordered_weak_popovP].
- exact: is_popovP.
- by eexists; [reflexivity|exact: is_echelonP].
Qed.

(** with HERMITE the dispatcher accepts matrices which are not in Hermite form *)
Theorem C32_is_form_hermite_refuted shift o :
  exists A, is_form 1 1 A HERMITE shift o = AOk true /\
    ~ oriented (fun up => @hermite_form F up) o (mx_of 1 1 A).
Proof.
exists (fun _ _ => 0); split; first by case: o => /=; rewrite /is_echelon /= /echelon_pivot_index /= /line /= ?/fcol ?eqxx.
move/is_hermiteP; case: o; rewrite /is_hermite /is_echelon /= /echelon_pivot_index /=;
by rewrite /fcol eqxx.
Qed.

(** *** the hypotheses and both truth values are reached *)
Definition ex_mat : fmat {poly F} := fun i j =>
  if i == 0%N then (if j == 0%N then 'X else 1) else if j == 0%N then 0 else 'X.

Example forms_example :
  [/\ is_ordered_weak_popov 2 2 ex_mat None ROW_LOWER,
      is_reduced 2 2 ex_mat None ROW_LOWER,
      is_popov 2 2 ex_mat None ROW_LOWER = AOk true,
      is_hermite 2 2 ex_mat ROW_UPPER &
      ~~ is_hermite 2 2 ex_mat ROW_LOWER].
Proof.
have Ep : forall i, (i < 2)%N -> vec_pivot_profile (ex_mat i) None 2 ROW_LOWER = (i%:Z, 1, 1%N).
  by case=> [|[|//]] _; rewrite /vec_pivot_profile /= /pdeg /= ?size_polyX ?size_poly1 ?size_poly0.
have Ho : is_ordered_weak_popov 2 2 ex_mat None ROW_LOWER.
  by rewrite /is_ordered_weak_popov /pivot_index /pivot_profile /piv_checks /= /line /= !Ep.
have N1 : (1 : {poly F}) == 0 = false by rewrite oner_eq0.
have NX : ('X : {poly F}) == 0 = false by rewrite polyX_eq0.
split=> //.
- apply: C29_weak_popov_is_reduced; apply/C30_is_weak_popov.
  have /C30_is_ordered_weak_popov [piv inc H] := Ho; exists piv => // i i' E.
  apply/val_inj => /=; case: (ltngtP i i') => // C; have := inc _ _ C; rewrite E ltnn //.
- rewrite /is_popov Ho /= /line /= !Ep //= monicX /= /pdeg /=.
  by rewrite /ex_mat /= size_poly1 size_poly0.
- apply/C32_is_hermite; exists id => // i; split.
  + split; first by rewrite !mxE; case: i => -[|[|//]] Hi /=; rewrite /ex_mat /= NX.
    by move=> k; rewrite /before !mxE; case: i => -[|[|//]] Hi; case: k => -[|[|//]] Hk.
  + by rewrite mxE; case: i => -[|[|//]] Hi /=; rewrite /ex_mat /= monicX.
  + move=> k; rewrite /before !mxE; case: i => -[|[|//]] Hi; case: k => -[|[|//]] Hk //= _.
    by rewrite /ex_mat /= size_polyX size_poly1.
- apply/negP=> /C32_is_hermite [piv inc H]; have [[_ H1] _ _] := H 0.
  have E0 : piv 0 = 0 by apply/val_inj => /=; have := inc 0 1 isT; have := ltn_ord (piv 1); lia.
  by have := H1 1; rewrite E0 !mxE => /(_ isT) /eqP; rewrite /ex_mat /= N1.
Qed.
End P.

Print Assumptions C27_row_degree.
Print Assumptions C27_column_degree.
Print Assumptions C27_row_degree_zero.
Print Assumptions C27_column_degree_zero.
Print Assumptions C27_degree_matrix_shifted.
Print Assumptions C28_pivot_profile.
Print Assumptions C28_pivot_profile_zero.
Print Assumptions C28_pivot_profile_zero_refuted.
Print Assumptions C28_pivot_index.
Print Assumptions C29_leading_matrix.
Print Assumptions C29_is_reduced.
Print Assumptions C29_weak_popov_is_reduced.
Print Assumptions C30_is_weak_popov.
Print Assumptions C30_is_ordered_weak_popov.
Print Assumptions C31_is_popov_partial.
Print Assumptions C31_is_popov_row_upper_refuted.
Print Assumptions C31_is_popov_row_upper_accepts_refuted.
Print Assumptions C31_is_popov_row_upper_ub_refuted.
Print Assumptions C32_is_echelon.
Print Assumptions C32_is_hermite.
Print Assumptions C32_is_form_partial.
Print Assumptions C32_is_form_hermite_refuted.
Print Assumptions forms_example.
