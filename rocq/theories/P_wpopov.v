(** C33, C34, C51, C52: weak Popov forms. *)
From mathcomp Require Import all_ssreflect all_algebra fingroup perm fraction zify.
From Verif Require Import A_base SpecA SpecForms SpecLU SpecWP A_forms_model A_forms_proof A_forms2_proof.
From Verif Require Import A_rot_model A_rot_proof A_wpopov_model A_rowops_proof A_wpopov_proof A_wpopov2_proof P_pluq.
Set Implicit Arguments.
Unset Strict Implicit.
Unset Printing Implicit Defensive.
Import Order.TTheory GRing.Theory Num.Theory.
Local Open Scope ring_scope.

Section Popov.
Local Arguments vec_pivot_profile : simpl never.
Variable F : fieldType.
Local Notation P := {poly F}.

Lemma loop_zr n cT shift rstart rdim cdim early o fuel (st st' : wp_state F) :
  (wp_zr st <= early)%N ->
  wp_loop n cT shift rstart 0 rdim cdim early o fuel st = Some (AOk st') -> (wp_zr st' <= early)%N.
Proof.
elim: fuel st => [|fuel IH] st H /=; case: ifP => C //; try by case=> <-.
case E: wp_step => [st1|] //; apply: IH.
case/andP: C => _ L; move: E; rewrite /wp_step; case: st H L => A T det pivind rrp prow rk zr /= H L.
case: vec_pivot_profile => -[p pd] nz.
case: ifP => _; first by case=> <-.
case: ifP => _ //; case: ifP => _; first by case=> <-.
by case: atomic_solve_pivot_collision => [[A' T']|] // [<-].
Qed.

Lemma sum_card k (f : 'I_k -> bool) : (\sum_(i < k) f i = #|[set i | f i]|)%N.
Proof. by rewrite -sum1_card [RHS]big_mkcond /=; apply: eq_bigr => i _; rewrite inE; case: f. Qed.

Section Submat.
Variables (A : fmat P) (shift : option (nat -> int)) (T : option (fmat P)) (det : option int).
Variables (pivind : nat -> int) (rrp : option (nat -> nat)).
Variables (rstart rdim cdim n cT early : nat) (o : orientation) (d : nat) (a b : int) (fuel : nat).
Local Notation call :=
  (weak_popov_submat fuel n cT A shift T det pivind rrp rstart 0 rdim cdim early o).

Hypotheses (Ho : o = ROW_LOWER \/ o = ROW_UPPER) (Hc : (cdim <= n)%N).
Hypothesis Hd : forall i j, (i < rdim)%N -> (j < cdim)%N -> (size (A (rstart + i)%N j) <= d.+1)%N.
Hypothesis Hs : forall j, (j < cdim)%N -> a <= shiftf shift j <= b.
Hypothesis Hf : (rdim * (cdim * (d + absz (b - a)%R + 1) + 1) <= fuel)%N.

Let I0 : inv n cT shift rstart rdim cdim o A T det pivind rrp (WP A T det pivind rrp (fun _ => -1) 0 0).
Proof. exact: inv0. Qed.

Lemma pot0 : (pot shift rstart rdim cdim o a (WP A T det pivind rrp (fun _ => -1%R) 0 0) <= fuel)%N.
Proof.
apply: leq_trans Hf; rewrite /pot /= addn0 subn0 mulnDr muln1 leq_add2r.
rewrite -[X in (_ <= X * _)%N]card_ord -sum_nat_const; apply: leq_sum => i _.
apply: weight_le => [j Hj|j Hj|j Hj]; try by case/andP: (Hs Hj).
by apply: Hd.
Qed.

Lemma blockE r c M : block rstart r c M = mx_of r c (sh rstart M) :> 'M[P]_(r, c).
Proof. by apply/matrixP=> i j; rewrite !mxE. Qed.

(** the loop ends; only a zero row can make it fail *)
Lemma submat_cases :
  (call = Some AUB /\ [/\ o = ROW_UPPER, shift <> None & (prank (block rstart rdim cdim A) < rdim)%N]) \/
  exists r k zr, [/\ call = Some (AOk r),
    [/\ (k + zr <= rdim)%N, (k + zr = rdim \/ zr = early)%N &
        wr_ret r = if (early <= zr)%N then - k%:Z else k%:Z],
    (exists (U : 'M[P]_rdim) (sg : bool), [/\ \det U = (-1) ^+ sg, left_multiplied rstart n U A (wr_mat r),
        opt_rel (left_multiplied rstart cT U) T (wr_tsf r) &
        wr_det r = omap (fun x => (-1) ^+ sg * x) det]),
    weak_popov_with (up_of o) (shiftf shift) (block rstart k cdim (wr_mat r)) (wr_pivind r) /\
    (forall i j, (rdim - zr <= i < rdim)%N -> (j < cdim)%N -> wr_mat r (rstart + i)%N j = 0) &
    [/\ prank (block rstart (k + zr) cdim A) = k,
        opt_rel (fun old new => row_rank_profile rstart (k + zr) cdim A k new /\
                   forall i, (k <= i)%N -> new i = old i) rrp (wr_rrp r) &
        forall i, (rdim <= i)%N -> wr_pivind r i = pivind i]].
Proof.
rewrite /weak_popov_submat; case: ifP => Z.
  have R0 p : (p <= rdim)%N -> prank (block rstart p cdim A) = 0%N.
    move=> Hp; apply/eqP; rewrite -leqn0 /prank.
    case/orP: Z => /eqP Z; first by have := rank_leq_row (map_mx (@FracField.tofrac [idomainType of P]) (block rstart p cdim A)); lia.
    by have := rank_leq_col (map_mx (@FracField.tofrac [idomainType of P]) (block rstart p cdim A)); lia.
  right; eexists; exists 0%N, (minn early rdim); split; first reflexivity.
  - by rewrite add0n; split; [lia|lia|rewrite /= oppr0 if_same].
  - exists 1%:M, false; rewrite det1; split=> //.
    + by split=> //; rewrite mul1mx.
    + by case: T => //= B; split=> //; rewrite mul1mx.
    + by case: det => //= x; rewrite mul1r.
  - split; first by exists (fun i : 'I_0 => False_rect _ (notF (ltn_ord i))) => -[].
    by move=> i j Hi Hj; case/orP: Z => /eqP; lia.
  - split=> //; first by apply: R0; lia.
    case: rrp => //= r; split=> //; split=> //; first by move=> i i'; rewrite ltn0 andbF.
    move=> p Hp; rewrite R0; last by lia.
    by apply/esym/eqP; rewrite cards_eq0; apply/eqP/setP => -[].
have [[-> [E1 E2 E3]]|[st [E I C]]] := loopP early Ho Hc (fun j Hj => proj1 (andP (Hs Hj))) I0 pot0.
  by left; split=> //; split=> //; rewrite /prank blockE.
right; rewrite E; eexists; exists (wp_rk st), (wp_zr st); split; first reflexivity.
- have L := i_le I; split=> //.
  have Zr : (wp_zr st <= early)%N by apply: loop_zr E.
  by move: C; rewrite negb_and -!leqNgt => /orP[C|C]; [left|right]; lia.
- have [sg [U dU [H1 H2 H3]]] := i_U I; exists U, sg; have [O1 O2] := i_out I; split=> //.
  by move: H2 O2 => /=; case: (T) (wp_tsf st) => [B|] [B'|].
- split; last by move=> i j Hi Hj; apply: (i_zero I).
  have H (i : 'I_(wp_rk st)) := i_piv I (ltn_ord i).
  have [g Hg] := fin_all_exists H.
  have Lg i : (g i < cdim)%N by have [_ [] ] := Hg i.
  exists (fun i => Ordinal (Lg i)).
    move=> i i' /(congr1 val) /= Eg; apply: val_inj; have [_ _] := Hg i; have [_ _] := Hg i'.
    by rewrite Eg => -> [].
  move=> i; have [E1 Q _] := Hg i; split=> //.
  by rewrite blockE; apply/pivot_atP.
- split; last exact: (i_frame I).
    by rewrite /prank blockE; exact: (i_rank I).
  have := i_rrp I => /=; case: (rrp) (wp_rrp st) => [r0|] [r|] //= [F1 F2 F3 F4]; split=> //; split=> //.
  by move=> p Hp; rewrite /prank blockE F4 // sum_card.
Qed.
End Submat.

Lemma up_leftmost o : o = ROW_LOWER \/ o = ROW_UPPER -> up_of o = leftmost o.
Proof. by case=> ->. Qed.

(** C51: weak Popov form of the first cdim columns of a block of rows, with early exit after
    [early] zero rows. The number of iterations is bounded by
    rdim (cdim (d + b - a + 1) + 1) for entries of degree at most d and shifts between a and b;
    k is the number of nonzero rows found, zr the number of zero rows. *)
Theorem C51_weak_popov_submat_partial (A : fmat P) shift T det pivind rrp rstart rdim cdim n cT early o
    (d : nat) (a b : int) fuel :
  o = ROW_LOWER \/ o = ROW_UPPER -> (cdim <= n)%N ->
  [\/ o = ROW_LOWER, shift = None | prank (block rstart rdim cdim A) = rdim] ->
  (forall i j, (i < rdim)%N -> (j < cdim)%N -> (size (A (rstart + i)%N j) <= d.+1)%N) ->
  (forall j, (j < cdim)%N -> a <= shiftf shift j <= b) ->
  (rdim * (cdim * (d + absz (b - a)%R + 1) + 1) <= fuel)%N ->
  exists r k zr,
  [/\ weak_popov_submat fuel n cT A shift T det pivind rrp rstart 0 rdim cdim early o = Some (AOk r),
    [/\ (k + zr <= rdim)%N, (k + zr = rdim \/ zr = early)%N &
        wr_ret r = if (early <= zr)%N then - k%:Z else k%:Z],
    (exists (U : 'M[P]_rdim) (sg : bool),
     [/\ \det U = (-1) ^+ sg, left_multiplied rstart n U A (wr_mat r),
        opt_rel (left_multiplied rstart cT U) T (wr_tsf r) &
        wr_det r = omap (fun x => (-1) ^+ sg * x) det]),
    weak_popov_with (leftmost o) (shiftf shift) (block rstart k cdim (wr_mat r)) (wr_pivind r) /\
    (forall i j, (rdim - zr <= i < rdim)%N -> (j < cdim)%N -> wr_mat r (rstart + i)%N j = 0) &
    [/\ prank (block rstart (k + zr) cdim A) = k,
        opt_rel (fun old new => row_rank_profile rstart (k + zr) cdim A k new /\
                   forall i, (k <= i)%N -> new i = old i) rrp (wr_rrp r) &
        forall i, (rdim <= i)%N -> wr_pivind r i = pivind i]].
Proof.
move=> Ho Hc B Hd Hs Hf; rewrite -up_leftmost //.
have [[_ [E1 E2 E3]]|//] := @submat_cases A shift T det pivind rrp rstart rdim cdim n cT early o d a b fuel Ho Hc Hd Hs Hf.
by case: B => [E|//|E]; [rewrite E in E1|rewrite E ltnn in E3].
Qed.

(** what is missing: with orientation ROW_UPPER and a shift, a zero row leads to a read of
    pivot_row[-1] *)
Theorem C51_zero_row_refuted (s : nat -> int) n fuel T det pivind rrp cT : (0 < n)%N -> (0 < fuel)%N ->
  exists A : fmat P,
    weak_popov_submat fuel n cT A (Some s) T det pivind rrp 0 0 1 n 1 ROW_UPPER = Some AUB.
Proof.
move=> Hn; case: fuel => // fuel _; exists (fun _ _ => 0).
rewrite /weak_popov_submat /=; have -> : (n == 0)%N = false by lia.
have [[_ ->]|[j [Hj Nj _ _] _]] := vec_pivot_profileP (fun _ => 0 : P) (Some s) n ROW_UPPER.
  by [].
by rewrite eqxx in Nj.
Qed.

(** and with cstart > 0 the collision is solved in the wrong column: for the second column of
    [[0, 1], [0, 1]], the leading coefficient of a zero entry is read *)
Theorem C51_cstart_refuted fuel T det pivind rrp cT : (1 < fuel)%N ->
  weak_popov_submat fuel 2 cT (fun _ j => if j == 1%N then 1 else 0 : P) None T det pivind rrp
    0 1 2 1 2 ROW_LOWER = Some AUB.
Proof.
case: fuel => // -[|fuel] // _; rewrite /weak_popov_submat /=.
have Ep : vec_pivot_profile (fun j => if (1 + j == 1)%N then 1 else 0 : P) None 1 ROW_LOWER = (0, 0, 1%N).
  by rewrite /vec_pivot_profile /= /pdeg size_poly1.
by rewrite Ep /= Ep /= /pdeg size_poly0 /= /atomic_solve_pivot_collision /= size_poly0.
Qed.

(** C34: the loop always ends, after at most m (n (d + b - a + 1) + 1) iterations (possibly by
    the undefined access above) *)
Theorem C34_weak_popov_iter_terminates (A : fmat P) shift T pivind rrp m n cT o (d : nat) (a b : int) fuel :
  o = ROW_LOWER \/ o = ROW_UPPER ->
  (forall i j, (i < m)%N -> (j < n)%N -> (size (A i j) <= d.+1)%N) ->
  (forall j, (j < n)%N -> a <= shiftf shift j <= b) ->
  (m * (n * (d + absz (b - a)%R + 1) + 1) <= fuel)%N ->
  exists out, weak_popov_iter fuel m n cT A shift T pivind rrp o = Some out.
Proof.
move=> Ho Hd Hs Hf.
have [[E _]|[r [k [zr [E _ _ _ _]]]]] :=
  @submat_cases A shift T None pivind rrp 0 m n n cT m o d a b fuel Ho (leqnn n) Hd Hs Hf;
by eexists; exact: E.
Qed.

Theorem C34_ordered_weak_popov_iter_terminates (A : fmat P) shift T pivind rrp m n cT o (d : nat) (a b : int) fuel :
  o = ROW_LOWER \/ o = ROW_UPPER ->
  (forall i j, (i < m)%N -> (j < n)%N -> (size (A i j) <= d.+1)%N) ->
  (forall j, (j < n)%N -> a <= shiftf shift j <= b) ->
  (m * (n * (d + absz (b - a)%R + 1) + 1) <= fuel)%N ->
  exists out, ordered_weak_popov_iter fuel m n cT A shift T pivind rrp o = Some out.
Proof.
move=> Ho Hd Hs Hf.
have [out E] := @C34_weak_popov_iter_terminates A shift T pivind rrp m n cT o d a b fuel Ho Hd Hs Hf.
rewrite /weak_popov_iter in E; rewrite /ordered_weak_popov_iter E.
by case: out {E} => [r|]; [case: permute_rows_by_sorting_vec => -[? ?] ?|]; eexists.
Qed.

(** C33: rank, unimodular transformation (also applied to tsf), weak Popov form followed by
    zero rows, pivot index, row rank profile *)
Theorem C33_weak_popov_iter_partial (A : fmat P) shift T pivind rrp m n cT o (d : nat) (a b : int) fuel :
  o = ROW_LOWER \/ o = ROW_UPPER ->
  [\/ o = ROW_LOWER, shift = None | prank (mx_of m n A) = m] ->
  (forall i j, (i < m)%N -> (j < n)%N -> (size (A i j) <= d.+1)%N) ->
  (forall j, (j < n)%N -> a <= shiftf shift j <= b) ->
  (m * (n * (d + absz (b - a)%R + 1) + 1) <= fuel)%N ->
  exists r k, let A' := wr_mat r in
  [/\ weak_popov_iter fuel m n cT A shift T pivind rrp o = Some (AOk r),
    wr_ret r = k%:Z /\ k = prank (mx_of m n A),
    (exists2 U : 'M[P]_m, unimodular U &
      mx_of m n A' = U *m mx_of m n A /\
      opt_rel (fun B B' => mx_of m cT B' = U *m mx_of m cT B) T (wr_tsf r)),
    weak_popov_with (leftmost o) (shiftf shift) (mx_of k n A') (wr_pivind r) /\
    (forall i j, (k <= i < m)%N -> (j < n)%N -> A' i j = 0) &
    opt_rel (fun old new => row_rank_profile 0 m n A k new /\
               forall i, (k <= i)%N -> new i = old i) rrp (wr_rrp r)].
Proof.
move=> Ho B Hd Hs Hf.
have [r [k [zr [E [L1 L2 L3] [U [sg [dU [U1 _] U2 _]]] [W Z] [R1 R2 R3]]]]] :=
  @C51_weak_popov_submat_partial A shift T None pivind rrp 0 m n n cT m o d a b fuel Ho (leqnn n) B Hd Hs Hf.
have Em : (k + zr = m)%N by lia.
have Ez : zr = (m - k)%N by lia.
have Ek : k = prank (mx_of m n A) by rewrite -R1 Em.
exists r, k; split=> //.
- by split=> //; rewrite L3; case: ifP => // C; have -> : k = 0%N by lia.
- exists U; first exact: unimodular_sign dU.
  split; first exact: U1.
  by move: U2; case: (T) (wr_tsf r) => [B1|] [B2|] //= [].
- by split=> // i j Hi Hj; apply: Z => //; lia.
- by rewrite -Em.
Qed.

(** what is missing, the claim is false there: a shift, orientation ROW_UPPER and dependent rows *)
Theorem C33_weak_popov_iter_refuted (s : nat -> int) n fuel T pivind rrp cT : (0 < n)%N -> (0 < fuel)%N ->
  exists A : fmat P, weak_popov_iter fuel 1 n cT A (Some s) T pivind rrp ROW_UPPER = Some AUB.
Proof. exact: C51_zero_row_refuted. Qed.

(** C52: the same with increasing pivots *)
Theorem C52_ordered_weak_popov_iter_partial (A : fmat P) shift T pivind rrp m n cT o (d : nat) (a b : int) fuel :
  o = ROW_LOWER \/ o = ROW_UPPER ->
  [\/ o = ROW_LOWER, shift = None | prank (mx_of m n A) = m] ->
  (forall i j, (i < m)%N -> (j < n)%N -> (size (A i j) <= d.+1)%N) ->
  (forall j, (j < n)%N -> a <= shiftf shift j <= b) ->
  (m * (n * (d + absz (b - a)%R + 1) + 1) <= fuel)%N ->
  exists r k, let A' := wr_mat r in
  [/\ ordered_weak_popov_iter fuel m n cT A shift T pivind rrp o = Some (AOk r),
    wr_ret r = k%:Z /\ k = prank (mx_of m n A),
    (exists2 U : 'M[P]_m, unimodular U &
      mx_of m n A' = U *m mx_of m n A /\
      opt_rel (fun B B' => mx_of m cT B' = U *m mx_of m cT B) T (wr_tsf r)),
    ordered_weak_popov_with (leftmost o) (shiftf shift) (mx_of k n A') (wr_pivind r) /\
    (forall i j, (k <= i < m)%N -> (j < n)%N -> A' i j = 0) &
    opt_rel (fun old new => row_rank_profile 0 m n A k new /\
               forall i, (k <= i)%N -> new i = old i) rrp (wr_rrp r)].
Proof.
move=> Ho B Hd Hs Hf.
have [r [k [E [L1 L2] [U uU [U1 U2]] [[piv Ip Hp] Z] R]]] :=
  @C33_weak_popov_iter_partial A shift T pivind rrp m n cT o d a b fuel Ho B Hd Hs Hf.
rewrite /weak_popov_iter in E; rewrite /ordered_weak_popov_iter E L1 absz_nat.
have Hk : (k <= m)%N by rewrite L2 rank_leq_row.
case: (permute_rows_by_sorting_vec k (wr_mat r) (wr_pivind r))
  (C50_permute_rows_by_sorting_vec (wr_mat r) (wr_pivind r) Hk) => -[A' pv] perm [[Pm Pk] PA Ppv Pid Pinc].
eexists; exists k; split; first reflexivity.
- by [].
- pose pm (i : 'I_m) : 'I_m := Ordinal (Pm.1 i (ltn_ord i)).
  have pI : injective pm by move=> i j /(congr1 val) /= /Pm.2 Eij; apply: val_inj; exact: Eij.
  have PE c (M : fmat P) : mx_of m c (fun i => M (perm i)) = perm_mx (perm.perm pI) *m mx_of m c M.
    by rewrite -row_permE; apply/matrixP=> i j; rewrite !mxE permE.
  exists (perm_mx (perm.perm pI) *m U).
    apply: unimodularM uU; exists (perm_mx (perm.perm pI)^-1).
    by split; rewrite -perm_mxM ?mulgV ?mulVg perm_mx1.
  split.
    rewrite -mulmxA -U1 -PE; apply: mx_of_feq => i j _ _ /=; by rewrite PA.
  move: U2 => /=; case: (T) (wr_tsf r) => [B1|] [B2|] //= U2.
  by rewrite -mulmxA -U2 -PE.
- split; last first.
    by move=> i j Hi Hj /=; rewrite PA Pid; [exact: Z|lia].
  have Lp (i : 'I_k) : (perm i < k)%N by apply: Pk.
  pose q i := piv (Ordinal (Lp i)).
  have Eq (i : 'I_k) : pv i = (q i : nat)%:Z.
    by rewrite Ppv // /q; have [_ <-] := Hp (Ordinal (Lp i)).
  exists q.
    move=> i i' Hii; have [|Lt|[Ee Lt]] := Pinc i i'; first by rewrite Hii /=.
      by move: Lt; rewrite !Eq; lia.
    have Ei : perm i = perm i'.
      move: Ee; rewrite !Eq => -[Ee]; have /Ip := val_inj Ee; move/(congr1 val) => //=.
    by move: Lt; rewrite Ei ltnn.
  move=> i; split; last exact: Eq.
  have [Hq _] := Hp (Ordinal (Lp i)); rewrite -/(q i) in Hq.
  suff -> : row i (mx_of k n A') = row (Ordinal (Lp i)) (mx_of k n (wr_mat r)) by [].
  by apply/rowP=> j; rewrite !mxE PA.
- by [].
Qed.
End Popov.
Print Assumptions C51_weak_popov_submat_partial.
Print Assumptions C51_zero_row_refuted.
Print Assumptions C51_cstart_refuted.
Print Assumptions C34_weak_popov_iter_terminates.
Print Assumptions C34_ordered_weak_popov_iter_terminates.
Print Assumptions C33_weak_popov_iter_partial.
Print Assumptions C33_weak_popov_iter_refuted.
Print Assumptions C52_ordered_weak_popov_iter_partial.

(** a case of the hypotheses: [x; x^2; 0] over F_7, lower pivots, shift (5) *)
Example C33_example :
  let A : fmat {poly 'F_7} := fun i j => if i == 0%N then 'X else if i == 1%N then 'X^2 else 0 in
  exists r k, weak_popov_iter 100 3 1 3 A (Some (fun _ => 5)) (Some fone) (fun _ => 0) None ROW_LOWER
    = Some (AOk r) /\ wr_ret r = k%:Z.
Proof.
move=> A.
have H1 : ROW_LOWER = ROW_LOWER \/ ROW_LOWER = ROW_UPPER by left.
have H2 : [\/ ROW_LOWER = ROW_LOWER, Some (fun _ : nat => 5 : int) = None | prank (mx_of 3 1 A) = 3%N].
  by constructor 1.
have H3 i j : (i < 3)%N -> (j < 1)%N -> (size (A i j) <= 3)%N.
  by move=> _ _; rewrite /A; case: i => [|[|i]] /=; rewrite ?size_polyX ?size_polyXn ?size_poly0.
have H4 j : (j < 1)%N -> (5 : int) <= shiftf (Some (fun _ => 5)) j <= 5 by rewrite /= lexx.
have [//|r [k [E [R _] _ _ _]]] := @C33_weak_popov_iter_partial _ A (Some (fun _ => 5)) (Some fone)
  (fun _ => 0) None 3 1 3 ROW_LOWER 2 5 5 100 H1 H2 H3 H4.
by exists r, k.
Qed.
