(** Correctness of nmod_poly_mat_kernel_zls_approx: the loops. *)
From mathcomp Require Import all_ssreflect all_algebra fraction zify.
From Verif Require Import A_base SpecA A_mbasis_abs A_mul_model A_mul2_proof A_pmbasis_model A_pmbasis_proof
  A_pmbasis_deg_proof A_frac_proof A_forms_model A_forms_proof A_kernel_model A_kernel_abs A_kernel_proof
  A_zls_abs A_zls_model.
Set Implicit Arguments.
Unset Strict Implicit.
Unset Printing Implicit Defensive.
Import Order.TTheory GRing.Theory Num.Theory.
Local Open Scope ring_scope.

Section Loops.
Variable F : fieldType.
Implicit Types (A ker : fmat {poly F}).

Lemma zls_degsP m (buf s : nat -> int) i : (i < m)%N ->
  buf i <= (zls_degs m buf s).1 /\ (zls_degs m buf s).2 <= s i - buf i.
Proof.
case: m => // m; rewrite /zls_degs [m.+1.-1]/=; elim: m i => [|m IH] i Hi.
  by have -> : i = 0%N by lia.
rewrite foldl_iota_rcons; move: IH; set st := foldl _ _ _ => IH /=.
case: (leqP i m) => Hm.
  have [h1 h2] := IH i Hm; split; case: ltP => //; lia.
have -> : i = (1 + m)%N by lia.
by split; case: ltP => //; lia.
Qed.

Lemma cquot_ge (S : int) (b : nat) : (0 < b)%N -> 0 <= S -> S < b%:Z * (2 + cquot (S - 1) b) \/ S = 0.
Proof.
move=> Hb HS; case: (S =P 0); [by right|left; rewrite /cquot].
have -> : (0 <= S - 1) = true by lia.
have := divn_eq (absz (S - 1)) b; have := ltn_pmod (absz (S - 1)) Hb.
move: (absz _ %% _)%N (absz _ %/ _)%N => r q hr hq.
have : (absz (S - 1))%:Z = S - 1 by lia.
rewrite hq PoszD PoszM => E; nia.
Qed.

Lemma sum_shift (s : nat -> int) x m : foldl (fun o i => o + s i) x (iota 0 m) = x + \sum_(i < m) s i.
Proof.
elim: m => [|m IH]; first by rewrite big_ord0 addr0.
by rewrite foldl_iota_rcons IH add0n big_ord_recr /= addrA.
Qed.

Lemma zls_orderP m n maxdeg diff (s : nat -> int) : (n < m)%N -> 0 <= maxdeg ->
  (forall i : 'I_m, diff <= s i) ->
  maxdeg < zls_order m n maxdeg diff s /\
  \sum_(i < m) (s i - diff) < (m - n)%:Z * zls_order m n maxdeg diff s.
Proof.
move=> nm H0 Hd; rewrite /zls_order sum_shift.
set S := \sum_(i < m) (s i - diff).
have -> : - m%:Z * diff - 1 + \sum_(i < m) s i = S - 1.
  by rewrite /S sumrB sumr_const card_ord -mulr_natl natz; move: (\sum_(i < m) s i) => x; lia.
have S0 : 0 <= S by apply: sumr_ge0 => i _; have := Hd i; lia.
set c := cquot _ _; split; first by case: (ltP maxdeg (1 + c)); lia.
have [h|->] := cquot_ge (b := m - n) ltac:(lia) S0; last first.
  by apply: mulr_gt0; [lia|case: (ltP maxdeg (1 + c)); lia].
rewrite -/c in h; apply: lt_le_trans h _; apply: ler_wpmul2l; first by lia.
by case: (ltP maxdeg (1 + c)) => hc; lia.
Qed.

Lemma zls_bufP m n A : let b := (row_degree_zero m n A None).1 in
  [/\ forall i, 0 <= b i,
      forall i j, (i < m)%N -> (j < n)%N -> (size (A i j) <= (absz (b i)).+1)%N &
      (row_degree_zero m n A None).2 = 0%N -> mx_of m n A = 0].
Proof.
rewrite /row_degree_zero /vec_degree_zero /=; split.
- by move=> i; case: ifP.
- move=> i j Hi Hj; have := vec_maxP (A i) n; set mx := vec_max _ _.
  case=> [[Z _]|[[U _] P]]; first by rewrite Z // size_poly0.
  rewrite P /=; case: (A i j =P 0) => [->|/eqP N]; first by rewrite size_poly0.
  by have := U j Hj N; rewrite /pdeg; move: P; move: (size _) => q; lia.
move=> /eqP; rewrite sum_nat_eq0 => /forallP H; apply/matrixP=> i j; rewrite !mxE.
have := H i; have := vec_maxP (A i) n; set mx := vec_max _ _.
by case=> [[Z _] _|[_ ->]] //; rewrite Z.
Qed.

(** the scan *)
Lemma zls_scanP m bound (buf t : nat -> int) ker piv0 :
  let p i := t i < bound in
  let S1 := selrows p m in let S2 := selrows (predC p) m in
  let sc := zls_scan m bound buf t ker piv0 in
  [/\ sc_nullity sc = size S1, (size S1 + size S2 = m)%N,
      forall a, (a < size S1)%N -> sc_pivind sc a = nth 0%N S1 a,
      forall b, (b < size S2)%N -> sc_rest sc b = nth 0%N S2 b &
      sc_noconst sc = all (fun i => ~~ ((buf i == 0) && (pdeg (ker i i) <= 0))) S2 /\
      sc_sumdeg sc = \sum_(i <- S2) buf i].
Proof.
move=> p; rewrite /zls_scan; elim: m => [|m IH].
  by split=> //; rewrite big_nil.
cbv zeta in IH |- *; rewrite foldl_iota_rcons add0n !selrowsS [predC p m]/=; move: IH.
set sc := foldl _ _ _; set S1 := selrows p m; set S2 := selrows (predC p) m.
case=> E1 E2 E3 E4 [E5 E6]; rewrite /zls_scan_step -/(p m); case Pm: (p m) => /=.
  split=> //; rewrite ?size_rcons ?E1 //; first by lia.
  move=> a Ha; rewrite nth_rcons /upd; case: eqP => [->|NE]; first by rewrite ltnn.
  have h : (a < size S1)%N by lia.
  by rewrite h E3.
  (* E3 *)
split=> //; rewrite ?size_rcons ?E1; first by lia.
  have -> : (m - size S1 = size S2)%N by lia.
  move=> b Hb; rewrite nth_rcons /upd; case: eqP => [->|NE]; first by rewrite ltnn.
  have h : (b < size S2)%N by lia.
  by rewrite h E4.
split; last by rewrite E6 -cats1 big_cat big_seq1.
by rewrite all_rcons E5; case: ifP.
Qed.

Lemma foldl_upd_range (T : Type) (f : nat -> T) (p : nat -> T) a k i :
  foldl (fun p i => upd p i (f i)) p (iota a k) i = if (a <= i < a + k)%N then f i else p i.
Proof.
elim: k => [|k IH]; first by rewrite addn0; case: ifP => //; lia.
rewrite foldl_iota_rcons /upd; case: eqP => [->|NE].
  by have -> : (a <= a + k < a + k.+1)%N by lia.
rewrite IH; congr (if _ then _ else _); lia.
Qed.

Lemma zls_pivindP m bound (buf t : nat -> int) ker piv0 :
  let p i := t i < bound in
  let S1 := selrows p m in let S2 := selrows (predC p) m in
  let sc := zls_scan m bound buf t ker piv0 in
  forall i, (i < m)%N -> zls_pivind m sc i = nth 0%N (S1 ++ S2) i.
Proof.
move=> p S1 S2 sc i Hi.
have [E1 E2 E3 E4 _] := zls_scanP m bound buf t ker piv0.
rewrite -/sc -/p -/S1 -/S2 in E1 E2 E3 E4.
rewrite /zls_pivind (foldl_upd_range (fun i => sc_rest sc (i - sc_nullity sc)%N)) E1 nth_cat.
case: (ltnP i (size S1)) => h /=; first by rewrite E3.
have -> : (i < size S1 + (m - size S1))%N by lia.
by rewrite E4 //; lia.
Qed.

(** updates in place *)
Lemma inplace_incr k (p2 : nat -> nat) : (forall a b, (a < b < k)%N -> (p2 a < p2 b)%N) ->
  forall i, (i < k)%N -> (i <= p2 i)%N.
Proof.
move=> H; elim=> // i IH Hi; apply: leq_ltn_trans (IH _) (H i i.+1 _); lia.
Qed.

Lemma inplace_fold (T : Type) (p : nat -> T) k0 k (p2 : nat -> nat) i :
  (forall a, (a < k)%N -> (a <= p2 a)%N) ->
  foldl (fun p i => upd p (k0 + i)%N (p (k0 + p2 i)%N)) p (iota 0 k) i =
  if (k0 <= i < k0 + k)%N then p (k0 + p2 (i - k0))%N else p i.
Proof.
elim: k i => [|k IH] i H; first by rewrite addn0; case: ifP => //; lia.
rewrite foldl_iota_rcons add0n /upd !IH; [|by move=> a Ha; apply: H; lia..].
case: eqP => [->|NE].
  have -> : (k0 <= k0 + k < k0 + k.+1)%N by lia.
  have -> : (k0 + k - k0 = k)%N by lia.
  by have := H k (ltnSn k) => hk; have -> : (k0 <= k0 + p2 k < k0 + k)%N = false by lia.
congr (if _ then _ else _); lia.
Qed.

(** the merge of two increasing lists *)
Lemma zls_mergeP n1 n2 (piv : nat -> nat) buf0 :
  (forall a b, (a < b < n1)%N -> (piv a < piv b)%N) ->
  (forall a b, (n1 <= a < b)%N -> (b < n1 + n2)%N -> (piv a < piv b)%N) ->
  (forall a b, (a < n1)%N -> (n1 <= b < n1 + n2)%N -> piv a != piv b) ->
  let buf := zls_merge n1 n2 piv buf0 in
  [/\ forall i, (i < n1 + n2)%N -> (buf i < n1 + n2)%N,
      forall j, (j < n1 + n2)%N -> exists2 i, (i < n1 + n2)%N & buf i = j &
      forall a b, (a < b < n1 + n2)%N -> (piv (buf a) < piv (buf b))%N].
Proof.
move=> H1 H2 H12.
pose st k := foldl (zls_merge_step n1 n2 piv) (0%N, 0%N, buf0) (iota 0 k).
have inv k : (k <= n1 + n2)%N -> 
  [/\ ((st k).1.1 + (st k).1.2 = k)%N, ((st k).1.1 <= n1)%N, ((st k).1.2 <= n2)%N,
      (forall i, (i < k)%N -> ((st k).2 i < (st k).1.1) || (n1 <= (st k).2 i < n1 + (st k).1.2))%N &
      [/\ forall j, (j < (st k).1.1)%N || (n1 <= j < n1 + (st k).1.2)%N -> exists2 i, (i < k)%N & (st k).2 i = j,
       forall i, (i < k)%N -> ((st k).1.1 < n1)%N -> (piv ((st k).2 i) < piv (st k).1.1)%N,
       forall i, (i < k)%N -> ((st k).1.2 < n2)%N -> (piv ((st k).2 i) < piv (n1 + (st k).1.2))%N &
       forall a b, (a < b < k)%N -> (piv ((st k).2 a) < piv ((st k).2 b))%N]].
  elim: k => [|k IH] Hk.
    by split=> //; split=> //; [move=> j /=; lia|move=> a b; lia].
  have := IH ltac:(lia); rewrite /st foldl_iota_rcons add0n -/(st k).
  case: (st k) => [[i1 i2] buf] /= [E1 L1 L2 B [S P1 P2 I]].
  case: ifP => C /=.
    have i1n : (i1 < n1)%N by case/orP: C => [/eqP E|/andP[]//]; lia.
    split=> //; rewrite ?addSn ?E1 //.
      by move=> i Hi; rewrite /upd; case: eqP => [_|NE]; [lia|have := B i ltac:(lia); lia].
    have C2 : (i2 < n2)%N -> (piv i1 < piv (n1 + i2))%N.
      by move=> h; move: C; case: eqP => [E|_ /andP[]//]; lia.
    split.
    - move=> j Hj; case: (j =P i1) => [->|NE]; first by exists k => //; rewrite /upd eqxx.
      have [|i Hi <-] := S j; first by lia.
      by exists i; rewrite /upd; [lia|case: eqP => //; lia].
    - move=> i Hi h; have L := H1 i1 i1.+1 ltac:(lia); rewrite /upd; case: eqP => // NE.
      by apply: ltn_trans L; apply: P1; lia.
    - move=> i Hi h; rewrite /upd; case: eqP => [_|NE]; first exact: C2.
      by apply: P2; lia.
    - move=> a b Hab; rewrite /upd; case: (a =P k) => [|NE]; first by lia.
      by case: (b =P k) => [E|NE2]; [apply: P1; lia|apply: I; lia].
  have i2n : (i2 < n2)%N by move/negbT: C; rewrite negb_or => /andP[/eqP h _]; lia.
  have C1 : (i1 < n1)%N -> (piv (n1 + i2) < piv i1)%N.
    move=> h; move/negbT: C; rewrite negb_or h /= -leqNgt leq_eqVlt => /andP[_ /orP[/eqP E|//]].
    by have := H12 i1 (n1 + i2)%N h ltac:(lia); rewrite E eqxx.
  split=> //; rewrite ?addnS ?E1 //.
    by move=> i Hi; rewrite /upd; case: eqP => [_|NE]; [lia|have := B i ltac:(lia); lia].
  split.
  - move=> j Hj; case: (j =P n1 + i2)%N => [->|NE]; first by exists k => //; rewrite /upd eqxx.
    have [|i Hi <-] := S j; first by lia.
    by exists i; rewrite /upd; [lia|case: eqP => //; lia].
  - move=> i Hi h; rewrite /upd; case: eqP => [_|NE]; first exact: C1.
    by apply: P1; lia.
  - move=> i Hi h; have L := H2 (n1 + i2)%N (n1 + i2.+1)%N ltac:(lia) ltac:(lia).
    rewrite -?addnS; rewrite /upd; case: eqP => // NE.
    by apply: ltn_trans L; apply: P2; lia.
  - move=> a b Hab; rewrite /upd; case: (a =P k) => [|NE]; first by lia.
    by case: (b =P k) => [E|NE2]; [apply: P2; lia|apply: I; lia].
have [E1 L1 L2 B [S _ _ I]] := inv _ (leqnn _).
rewrite /zls_merge -/(st (n1 + n2)%N); split=> //.
- by move=> i Hi; have := B i Hi; lia.
- by move=> j Hj; apply: S; lia.
Qed.
End Loops.
