(** C15: left nullspace, in expanded and compact form. *)
From mathcomp Require Import all_ssreflect all_algebra zify.
From Verif Require Import A_base A_nullspace_model A_nullspace_proof A_nullspace2_proof.
Set Implicit Arguments.
Unset Strict Implicit.
Unset Printing Implicit Defensive.
Import GRing.Theory Num.Theory.
Local Open Scope ring_scope.

(** nmod_mat_left_nullspace(X, A) for any m x n matrix A: the returned number is
    the nullity, the rows of X are a basis of the left kernel of A, and X is
    reduced: row i has 1 as its last nonzero entry, at position piv i; these
    positions increase, and X is zero elsewhere in these columns. *)
Theorem C15_left_nullspace (F : fieldType) (m n : nat) (A : fmat F) :
  let '(nullity, X) := left_nullspace m n A in
  let MA := mx_of m n A in let MX := mx_of nullity m X in
  [/\ (nullity + \rank MA = m)%N,
      MX *m MA = 0,
      (forall v : 'rV[F]_m, v *m MA = 0 -> exists w : 'rV_nullity, v = w *m MX),
      (forall w : 'rV_nullity, w *m MX = 0 -> w = 0) &
      exists piv : 'I_nullity -> 'I_m,
        (forall i k : 'I_nullity, (i < k)%N -> (piv i < piv k)%N) /\
        forall i, [/\ MX i (piv i) = 1,
                      (forall j : 'I_m, (piv i < j)%N -> MX i j = 0) &
                      (forall k, k != i -> MX k (piv i) = 0)]].
Proof.
have [X [-> HX]] := left_nullspaceE m n A.
set nr := nrp n A m in HX *; set rr := rrp n A m in HX *.
have szE := size_rrp_nrp n A m.
have HA : mx_of (size nr) m X *m mx_of m n A = 0.
  apply/matrixP=> i j; rewrite !mxE.
  have [H1 H2] := HX i (ltn_ord i).
  under eq_bigr do rewrite !mxE.
  rewrite -(big_mkord xpredT (fun k => X i k * A k j)) /index_iota subn0.
  rewrite -(perm_big _ (perm_rrp_nrp n A m)) /= big_cat /=.
  rewrite (big_nth 0%N) (big_nth 0%N (r := nrp n A m)) !big_mkord -/nr -/rr.
  rewrite (bigD1 (i : 'I_(size nr))) //= H2 // eqxx mul1r.
  rewrite [X in _ + (_ + X)]big1 ?addr0; last first.
    move=> k Hk; rewrite H2 // eq_sym.
    have -> : (k == i :> nat) = false by apply/negbTE.
    by rewrite mul0r.
  have [Hm D] := nr_prop (ltn_ord i).
  rewrite (coords_sum A Hm (ltn_ord j)) -/rr.
  rewrite -big_split /= big1 // => t _.
  by rewrite H1 // mulNr addNr.
have piv_lt (i : 'I_(size nr)) : (nth 0%N nr i < m)%N by case: (nr_prop (ltn_ord i)).
pose piv (i : 'I_(size nr)) : 'I_m := Ordinal (piv_lt i).
have free : forall w : 'rV_(size nr), w *m mx_of (size nr) m X = 0 -> w = 0.
  move=> w Hw; apply/rowP=> i; rewrite [RHS]mxE.
  have := Hw => /matrixP /(_ 0 (piv i)); rewrite !mxE => <-.
  rewrite (bigD1 i) //= mxE (HX i (ltn_ord i)).2 // eqxx mulr1.
  rewrite big1 ?addr0 // => k Hk; rewrite mxE (HX k (ltn_ord k)).2 //.
  have -> : (k == i :> nat) = false by apply/negbTE.
  by rewrite mulr0.
have rf : row_free (mx_of (size nr) m X).
  by apply/inj_row_free => w; exact: free.
split => //.
- by rewrite rank_rrp addnC.
- move=> v Hv.
  have Ke : (mx_of (size nr) m X == kermx (mx_of m n A))%MS.
    rewrite -(geq_leqif (mxrank_leqif_eq _)).
      by move/eqP: rf => ->; rewrite mxrank_ker rank_rrp -{1}szE addKn.
    by apply/sub_kermxP.
  have : (v <= mx_of (size nr) m X)%MS by rewrite (eqmxP Ke); apply/sub_kermxP.
  by case/submxP=> w ->; exists w.
exists piv; split.
  move=> i k Hik /=.
  have := @sorted_ltn_nth _ ltn ltn_trans 0%N _ (nrp_sorted n A m).
  by apply; rewrite ?inE.
move=> i; have [H1 H2] := HX i (ltn_ord i); split.
- by rewrite mxE H2 // eqxx.
- move=> j Hj; rewrite mxE.
  have : val j \in iota 0 m by rewrite mem_iota /=.
  rewrite -(perm_mem (perm_rrp_nrp n A m)) mem_cat => /orP[] Hin.
    rewrite -(nth_index 0%N Hin) H1 ?index_mem //.
    apply/eqP; rewrite oppr_eq0; apply/negPn/negP=> Hc.
    have [Hm D] := nr_prop (ltn_ord i).
    have := coords_above Hm D _ Hc; rewrite index_mem nth_index // => /(_ Hin).
    by move: Hj; rewrite /= -/nr; lia.
  have Hidx : (index (val j) nr < size nr)%N by rewrite index_mem.
  rewrite -(nth_index 0%N Hin) H2 //.
  case: eqP => // E; move: Hj => /=.
  by rewrite E nth_index // ltnn.
- move=> k Hk; rewrite mxE /= (HX k (ltn_ord k)).2 //.
  by have -> : (k == i :> nat) = false by apply/negbTE.
Qed.

(** the compact variant: [perm] is a permutation of the row indices whose first
    rank entries, in increasing order, are the row rank profile (the rows that
    are not combinations of the previous ones); row perm[rank+i] of A is the
    opposite of the combination of these rows given by row i of X, and only rows
    before it are used. *)
Theorem C15_left_nullspace_compact (F : fieldType) (m n : nat) (A : fmat F) :
  let '(nullity, X, perm) := left_nullspace_compact m n A in
  let rank := (m - nullity)%N in
  let row_of i := mx_of 1 n (frow_vec (A i)) in
  [/\ rank = \rank (mx_of m n A) /\ perm_eq perm (iota 0 m),
      sorted ltn (take rank perm) /\ sorted ltn (drop rank perm),
      (forall i, (i < m)%N -> (i \in take rank perm) =
          (\rank (mx_of i.+1 n A) == (\rank (mx_of i n A)).+1)),
      (forall i, (i < nullity)%N ->
         row_of (nth 0%N perm (rank + i))
         = - \sum_(j < rank) X i j *: row_of (nth 0%N perm j)) &
      (forall i j, (i < nullity)%N -> (j < rank)%N -> X i j != 0 ->
         (nth 0%N perm j < nth 0%N perm (rank + i))%N)].
Proof.
have [K [-> HK]] := left_nullspace_compactE m n A.
have szE := size_rrp_nrp n A m.
cbv zeta.
have -> : (m - size (nrp n A m) = size (rrp n A m))%N by lia.
rewrite take_size_cat // drop_size_cat //.
have nth1 j : (j < size (rrp n A m))%N ->
  nth 0%N (rrp n A m ++ nrp n A m) j = nth 0%N (rrp n A m) j by move=> H; rewrite nth_cat H.
have nth2 j : nth 0%N (rrp n A m ++ nrp n A m) (size (rrp n A m) + j) = nth 0%N (nrp n A m) j.
  by rewrite nth_cat ltnNge leq_addr /= addKn.
split.
- by rewrite rank_rrp perm_rrp_nrp.
- by rewrite rrp_sorted nrp_sorted.
- move=> i Hi; rewrite mem_rrp Hi /=; case: (boolP (dep n A i)) => D /=.
    by rewrite rank_dep //; apply/esym/negbTE; lia.
  by rewrite rank_indep // eqxx.
- move=> i Hi; rewrite nth2; have [Hm D] := nr_prop Hi.
  apply/rowP=> j; rewrite !mxE summxE /frow_vec (coords_sum A Hm (ltn_ord j)).
  rewrite -sumrN; apply: eq_bigr => t _; rewrite !mxE nth1 // HK //.
  by rewrite mulNr opprK.
- move=> i j Hi Hj; rewrite HK // oppr_eq0 nth1 // nth2 => Hc.
  by have [Hm D] := nr_prop Hi; apply: coords_above Hc.
Qed.

(** A concrete case: a 3 x 2 matrix with a nontrivial kernel. *)
Example C15_example :
  let A : fmat rat := fun i j => nth 0 (nth [::] [:: [:: 1; 2%:R]; [:: 2%:R; 4%:R]; [:: 0; 1]] i) j in
  (left_nullspace 3 2 A).1 = 1%N.
Proof.
move=> A; have := C15_left_nullspace 3 2 A.
case: (left_nullspace 3 2 A) => nu X /= [H _ _ _ _].
suff E2 : \rank (mx_of 3 2 A) = 2%N by move: H; rewrite E2; lia.
apply/eqP; rewrite eqn_leq rank_leq_col /=.
pose L : 'M[rat]_(2, 3) := \matrix_(i, j) nth 0 (nth [::] [:: [:: 1; 0; -2%:R]; [:: 0; 0; 1]] i) j.
have E : L *m mx_of 3 2 A = 1%:M.
  apply/matrixP=> i j; rewrite !mxE !big_ord_recl big_ord0 !mxE.
  by case: i => [[|[|//]] ?]; case: j => [[|[|//]] ?]; apply/eqP; rewrite /= /A /=.
by have := mxrankM_maxr L (mx_of 3 2 A); rewrite E mxrank1.
Qed.

Print Assumptions C15_left_nullspace.
Print Assumptions C15_left_nullspace_compact.
