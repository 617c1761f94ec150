(** C89: rectangular circulant matrices (ntl-extras). *)
From mathcomp Require Import all_ssreflect all_algebra zify.
From Verif Require Import A_base A_mul_model N_pmat_model N_util_model N_poly_model N_series_proof N_mid_model N_circ_model P_nstr.
Set Implicit Arguments.
Unset Strict Implicit.
Unset Printing Implicit Defensive.
Import GRing.Theory.
Local Open Scope ring_scope.

(** *** specification: i - j modulo n *)
Definition cmod (n i j : nat) : nat := ((i + (n - j %% n)) %% n)%N.
Lemma cmod_spec n i j : (0 < n)%N -> (cmod n i j < n)%N /\ (cmod n i j + j = i %[mod n])%N.
Proof.
move=> Hn; rewrite /cmod ltn_mod Hn; split=> //.
have Hj : (j %% n < n)%N by rewrite ltn_mod.
by rewrite modnDml -modnDmr -addnA subnK ?modnDr // ltnW.
Qed.
Lemma cmod_uniq n i j k : (k < n)%N -> (k + j = i %[mod n])%N -> cmod n i j = k.
Proof.
move=> Hk E; have Hn : (0 < n)%N by lia.
have [H1 H2] := cmod_spec i j Hn; have : (cmod n i j + j == k + j %[mod n])%N by rewrite H2 E.
by rewrite eqn_modDr !modn_small // => /eqP.
Qed.

Section Circ.
Variable F : fieldType.

Lemma coefM_len len (w : nat -> F) (q : {poly F}) k : (\poly_(i < len) w i * q)`_k = \sum_(j < len) (if (j <= k)%N then w j * q`_(k - j) else 0).
Proof.
rewrite poly_def mulr_suml coef_sum; apply: eq_bigr => j _; rewrite -scalerAl coefZ coefXnM.
by case: ltnP; rewrite ?mulr0.
Qed.

Lemma circ_foldP n len (q : {poly F}) w i : (0 < len <= n)%N -> (size q <= n)%N -> (i < n)%N ->
  circ_fold n len q w i = \sum_(j < len) q`_(cmod n i j) * w j.
Proof.
move=> Hl Hq Hi; rewrite /circ_fold fftmul_cyc; set p := \poly_(i < len) w i.
have Hk : (n + len - 1 <= 2 ^ next_pow2 (n + len - 1))%N by apply: up_logP.
have Sp : (size (p * q)%R <= (len + n).-1)%N by apply: size_mul_leN; [apply: size_poly|].
move: (next_pow2 _) Hk => k Hk.
rewrite cyc_small; last by apply: leq_trans Sp _; move: Hk; move: (2 ^ k)%N => z; lia.
have E l : (fromfft (p * q) 0 (n + len - 2))`_l = (p * q)`_l.
  rewrite /fromfft coef_poly add0n; case: ltnP => // H; rewrite nth_default //; apply: leq_trans Sp _; lia.
rewrite !E; have -> : (if (i < len)%N then (p * q)`_i + (p * q)`_(i + n) else (p * q)`_i) = (p * q)`_i + (p * q)`_(i + n).
  by case: ltnP => // H; rewrite [X in _ = _ + X]nth_default ?addr0 //; apply: leq_trans Sp _; lia.
rewrite /p !coefM_len -big_split /=; apply: eq_bigr => j _; have Hj := ltn_ord j.
have D1 : (j <= i + n)%N by lia.
rewrite D1; case: leqP => H.
  have -> : cmod n i j = (i - j)%N by apply: cmod_uniq; [lia|rewrite subnK].
  by rewrite [q`_(i + n - j)]nth_default ?mulr0 ?addr0 1?mulrC //; apply: leq_trans Hq _; lia.
have -> : cmod n i j = (i + n - j)%N by apply: cmod_uniq; [lia|rewrite subnK // modnDr].
by rewrite add0r mulrC.
Qed.

Lemma cmodMD n i k r : cmod n i (k + r * n) = cmod n i k.
Proof. by rewrite /cmod [(k + _)%N]addnC modnMDl. Qed.

Lemma sum_chunks n nb l (f : nat -> F) :
  \sum_(j < nb * n + l) f j = \sum_(j < l) f (j + nb * n)%N + \sum_(0 <= r < nb) \sum_(j < n) f (j + r * n)%N.
Proof.
rewrite big_split_ord /= addrC; congr (_ + _); first by apply: eq_bigr => j _; rewrite addnC.
elim: nb => [|nb IH]; first by rewrite mul0n big_ord0 big_geq.
rewrite big_nat_recr //= -IH mulSn addnC big_split_ord /=; congr (_ + _).
by apply: eq_bigr => j _; rewrite addnC.
Qed.

Lemma foldl_sum (g : nat -> nat -> F) nb res i :
  foldl (fun (res : nat -> F) r i => res i + g r i) res (iota 0 nb) i = res i + \sum_(0 <= r < nb) g r i.
Proof.
elim: nb => [|nb IH]; first by rewrite big_geq ?addr0.
by rewrite -[in iota 0 _]addn1 iotaD foldl_cat add0n /= IH big_nat_recr //= addrA.
Qed.

Lemma circ_chunksP n m (q : {poly F}) (v : nat -> F) i : (0 < n)%N -> (0 < m)%N -> (size q <= n)%N -> (i < n)%N ->
  circ_chunks n m q v i = \sum_(j < m) q`_(cmod n i j) * v j.
Proof.
move=> Hn Hm Hq Hi; rewrite /circ_chunks; set l := if _ then n else _; set nb := if _ then _ else _.
have [Em Hl] : (m = nb * n + l)%N /\ (0 < l <= n)%N.
  rewrite /nb /l; have E := divn_eq m n; have H : (m %% n < n)%N by rewrite ltn_mod.
  case: eqP => Z; last by split=> //; lia.
  rewrite Z addn0 in E; split; last lia.
  rewrite {1}E; case: (m %/ n)%N E => [|d] E; first by rewrite mul0n in E; lia.
  by rewrite /= mulSn addnC.
move: l nb Em Hl => l nb -> Hl; rewrite foldl_sum circ_foldP // (sum_chunks n nb l (fun j => q`_(cmod n i j) * v j)).
congr (_ + _); first by apply: eq_bigr => j _; rewrite cmodMD.
apply: eq_bigr => r _; rewrite circ_foldP //; last by rewrite Hn leqnn.
by apply: eq_bigr => j _; rewrite cmodMD.
Qed.

Lemma circ_repeatP n m (q : {poly F}) (v : nat -> F) i : (0 < n)%N -> (size q <= n)%N -> (i < m)%N ->
  circ_repeat n m q v i = \sum_(j < n) q`_(cmod n i j) * v j.
Proof.
move=> Hn Hq Hi; rewrite /circ_repeat.
suff H k : forall i, (i < n + k)%N -> foldl (fun res i => upd res i (res (i - n)%N)) (circ_fold n n q v) (iota n k) i =
    \sum_(j < n) q`_(cmod n i j) * v j by apply: H; lia.
elim: k => [|k IH] j Hj; first by rewrite /= circ_foldP ?Hn ?leqnn //; lia.
rewrite -[in iota n _]addn1 iotaD foldl_cat /= /upd; case: eqP => [->|Nj]; last by apply: IH; lia.
rewrite IH; last lia.
by apply: eq_bigr => l _; congr (_`_ _ * _); rewrite /cmod addKn -addnA modnDl.
Qed.

(** *** circulant_column_lzz_p: the entry (i, j) is data[(i - j) mod n] *)
Theorem C89_column_right (data v : seq F) m : (0 < size data)%N -> (0 < m)%N -> size v = m ->
  ccol_right data m v = AOk (mkseq (fun i => \sum_(j < m) data`_(cmod (size data) i j) * v`_j) (size data)).
Proof.
move=> Hn Hm Hv; rewrite /ccol_right Hv eqxx (gtn_eqF Hn) (gtn_eqF Hm) /=; congr AOk; apply: mkseq_eq => i Hi.
rewrite circ_chunksP //; last by apply: size_poly.
by apply: eq_bigr => j _; rewrite coef_poly ifT // (cmod_spec i j Hn).1.
Qed.

(** with at least as many columns as rows *)
Theorem C89_column_left_partial (data v : seq F) m : (0 < size data)%N -> (size data <= m)%N -> size v = size data ->
  ccol_left data m v = AOk (mkseq (fun j => \sum_(i < size data) v`_i * data`_(cmod (size data) i j)) m).
Proof.
move=> Hn Hm Hv; rewrite /ccol_left Hv eqxx (gtn_eqF Hn) ltnNge Hm /=; congr AOk; apply: mkseq_eq => j Hj.
rewrite circ_repeatP //; last by apply: size_poly.
apply: eq_bigr => i _; rewrite mulrC; congr (_ * _); set n := size data.
have [H1 H2] := cmod_spec j i Hn; rewrite coef_poly H1 -/n.
have [H3 H4] := cmod_spec i j Hn; rewrite -/n in H1 H2 H3 H4.
case E : (cmod n j i) => [|k]; congr (_`_ _); apply/esym/cmod_uniq => //.
  by rewrite add0n -H2 E add0n.
  by lia.
rewrite -modnDmr -H2 E modnDmr addnA (_ : (n - 1 - k + k.+1 = n)%N); last by rewrite E in H1; lia.
by rewrite modnDl.
Qed.

(** *** circulant_row_lzz_p: the entry (i, j) is data[(i - j - 1) mod m] *)
Theorem C89_row_right (data v : seq F) n : (0 < size data)%N -> size v = size data ->
  crow_right data n v = AOk (mkseq (fun i => \sum_(j < size data) data`_(cmod (size data) i j.+1) * v`_j) n).
Proof.
move=> Hm Hv; rewrite /crow_right Hv eqxx (gtn_eqF Hm) /=; congr AOk; apply: mkseq_eq => i Hi.
rewrite circ_repeatP //; last by apply: size_poly.
apply: eq_bigr => j _; congr (_ * _); set m := size data.
have [H1 H2] := cmod_spec i j Hm; rewrite coef_poly H1 -/m; rewrite -/m in H1 H2.
case E : (cmod m i j) => [|k]; congr (_`_ _); apply/esym/cmod_uniq; rewrite ?E in H1 H2 *; try lia.
  by rewrite -H2 add0n addnS -addSn (_ : (m - 1).+1 = m) ?modnDl //; lia.
by rewrite -H2 addSnnS.
Qed.

Theorem C89_row_left (data v : seq F) n : (0 < size data)%N -> (0 < n)%N -> size v = n ->
  crow_left data n v = AOk (mkseq (fun j => \sum_(i < n) v`_i * data`_(cmod (size data) i j.+1)) (size data)).
Proof.
move=> Hm Hn Hv; rewrite /crow_left Hv eqxx (gtn_eqF Hm) (gtn_eqF Hn) /=; congr AOk; apply: mkseq_eq => j Hj.
rewrite circ_chunksP //; last by apply: size_poly.
apply: eq_bigr => i _; rewrite mulrC; congr (_ * _); set m := size data.
have [H1 H2] := cmod_spec j i Hm; rewrite coef_poly H1 -/m; rewrite -/m in H1 H2; congr (_`_ _); apply/esym/cmod_uniq; first lia.
rewrite addnS -addSn -modnDmr -H2 modnDmr addnA (_ : (m - 1 - cmod m j i).+1 + cmod m j i = m)%N; last lia.
by rewrite modnDl.
Qed.

(** *** to_dense *)
Theorem C89_dense (data : seq F) k :
  [/\ cr (ccol_dense data k) = size data, cc (ccol_dense data k) = k, cr (crow_dense data k) = k & cc (crow_dense data k) = size data] /\
  forall i j, (0 < size data)%N -> cent (ccol_dense data k) i j = data`_(cmod (size data) i j) /\ cent (crow_dense data k) i j = data`_(cmod (size data) i j.+1).
Proof.
split=> // i j Hn; set n := size data; rewrite -/n in Hn.
have M (a b : int) (u w : nat) : a = u%:Z - w%:Z -> absz (a %% n%:Z)%Z = cmod n u w.
  move=> ->; apply/esym/cmod_uniq.
    by rewrite -ltz_nat gez0_abs ?modz_ge0 ?ltz_pmod //; lia.
  apply/eqP; rewrite -eqz_nat -!modz_nat PoszD gez0_abs ?modz_ge0; try lia.
  by rewrite modzDml subrK.
split=> /=; congr (_`_ _); last by apply: M 0 _ _ _; lia.
rewrite -/n (M _ 0 j i.+1); last lia.
have [H1 H2] := cmod_spec j i.+1 Hn; apply/esym/cmod_uniq; first lia.
rewrite -modnDmr -H2 modnDmr addnA addnS -addSn -addSn (_ : (n - 1 - cmod n j i.+1).+1 + cmod n j i.+1 = n)%N; last lia.
by rewrite modnDl.
Qed.

(** fewer columns than rows: mul_left of a circulant_column_lzz_p writes outside of its buffer *)
Theorem C89_column_left_refuted (data v : seq F) m : (m < size data)%N -> ccol_left data m v = AUB.
Proof. by move=> H; rewrite /ccol_left H !orbT. Qed.

(** the products with a matrix are not implemented: an error, or nothing *)
Theorem C89_matrix_refuted (data : seq F) k (res b : cmat F) :
  [/\ crow_right_mat data k res b = AUB, cc b = k -> crow_left_mat false data k res b = AOk res,
      cr b = k -> ccol_right_mat false data k res b = AOk res & cc b = size data -> ccol_left_mat false data k res b = AOk res].
Proof. by rewrite /crow_left_mat /ccol_right_mat /ccol_left_mat; split=> // ->; rewrite eqxx. Qed.

Theorem C89_errors (data v : seq F) k :
  [/\ size v != k -> ccol_right data k v = AUB, size v != size data -> ccol_left data k v = AUB,
      size v != size data -> crow_right data k v = AUB & size v != k -> crow_left data k v = AUB].
Proof. by rewrite /ccol_right /ccol_left /crow_right /crow_left; split=> ->; rewrite ?orbT. Qed.
End Circ.

(** the 3 x 4 matrix [a0 a2 a1 a0; a1 a0 a2 a1; a2 a1 a0 a2] of the documentation *)
Example C89_column_example : map (fun i => map (cmod 3 i) [:: 0; 1; 2; 3]%N) [:: 0; 1; 2]%N = [:: [:: 0; 2; 1; 0]; [:: 1; 0; 2; 1]; [:: 2; 1; 0; 2]]%N.
Proof. by []. Qed.
Example C89_example : ccol_right [:: 1; 2%:R; 3%:R : rat] 4 [:: 1; 0; 0; 1] = AOk [:: 2%:R; 4%:R; 6%:R].
Proof.
rewrite C89_column_right //; congr AOk; rewrite /mkseq /= !big_ord_recl !big_ord0 /=.
by congr [:: _; _; _]; apply/eqP.
Qed.

Print Assumptions C89_column_right.
Print Assumptions C89_column_left_partial.
Print Assumptions C89_row_right.
Print Assumptions C89_row_left.
Print Assumptions C89_dense.
Print Assumptions C89_column_left_refuted.
Print Assumptions C89_matrix_refuted.
Print Assumptions C89_errors.
