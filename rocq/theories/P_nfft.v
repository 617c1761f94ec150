(** Property C63: evaluation at roots of unity (ntl-extras/lzz_pX_CRT). *)
From mathcomp Require Import all_ssreflect all_fingroup all_algebra all_field zify.
From Verif Require Import A_base A_mul_model N_poly_model N_series_proof N_shift_proof N_geo2_proof N_mfft_model N_mfft_proof.
Set Implicit Arguments.
Unset Strict Implicit.
Unset Printing Implicit Defensive.
Import GRing.Theory.
Local Open Scope ring_scope.

(** the reversal of the k lowest bits of i *)
Definition bitrev (k i : nat) : nat := (\sum_(b < k) odd (i %/ 2 ^ b) * 2 ^ (k - 1 - b))%N.

Lemma bitrevE k i : bitrev k i = brev k i.
Proof.
elim: k i => [|k IH] i; rewrite /bitrev; first by rewrite big_ord0.
rewrite big_ord_recl /= expn0 divn1 subn0 subn1 /= -IH; congr (_ + _)%N.
apply: eq_bigr => b _; rewrite /= -divn2 -divnMA -expnS /bump /= add1n; congr (_ * 2 ^ _)%N; lia.
Qed.

Section C63.
Variable F : fieldType.
Local Notation P := {poly F}.
Implicit Types (x val : nat -> F) (o : mfft F).

(** what NTL guarantees of the table of TofftRep in size n: the values at n distinct n-th roots of unity *)
Definition fft_table (n : nat) x : Prop :=
  (forall i, (i < n)%N -> x i ^+ n = 1) /\
  (forall i j, (i < n)%N -> (j < n)%N -> x i = x j -> i = j).

(** in increasing order of the exponents, or in bit-reversed order *)
Definition direct_order (n : nat) x : Prop := exists w, forall i, (i < n)%N -> x i = w ^+ i.
Definition reversed_order (k : nat) x : Prop := exists w, forall i, (i < 2 ^ k)%N -> x (bitrev k i) = w ^+ i.

Lemma directP k x : direct_order (2 ^ k.+1) x <-> direct k x.
Proof.
have n1 : (1 < 2 ^ k.+1)%N by rewrite -{1}(expn0 2) ltn_exp2l.
by split=> [[w H]|H]; [move=> i Hi; rewrite (H i Hi) (H 1%N n1) expr1|exists (x 1%N)].
Qed.
Lemma reversedP k x : reversed_order k.+1 x <-> reversed k x.
Proof.
have n1 : (1 < 2 ^ k.+1)%N by rewrite -{1}(expn0 2) ltn_exp2l.
split=> [[w H]|H]; last by exists (x (2 ^ k)%N) => i Hi; rewrite bitrevE; exact: H.
by move=> i Hi; have := H 1%N n1; rewrite -bitrevE (H i Hi) [bitrev k.+1 1]bitrevE brev1 expr1 => ->.
Qed.

Lemma next_pow2_pow k : next_pow2 (2 ^ k) = k. Proof. by rewrite /next_pow2 up_expnK. Qed.

Lemma half_pow k : (2 ^ k.+1)./2 = (2 ^ k)%N. Proof. by rewrite expnS mul2n doubleK. Qed.

(** the constructor once the size and the field are fit *)
Lemma initE maxroot x k : (k < maxroot)%N -> exists idx dr ok,
  [/\ mfft_init true maxroot x (2 ^ k.+1) = (if ok then AOk (Mfft (2 ^ k.+1) k.+1 x dr idx) else AUB),
      (forall i, (i < 2 ^ k.+1)%N -> idx i = brev k.+1 i),
      ok <-> (forall i, (i < 2 ^ k.+1)%N -> x i = x 1%N ^+ i \/ x (brev k.+1 i) = x (2 ^ k)%N ^+ i)
    & dr <-> reversed k x].
Proof.
move=> Lk; rewrite /mfft_init next_pow2_pow eqxx ltnNge Lk.
have [idx [-> Hidx]] := @bit_reverse_initE k.+1 isT.
rewrite /to_rep half_pow !hornerX.
have := testsE x Hidx; set g := (X in foldl X) => /=.
have -> : foldl (fun (st : bool * bool * F * F) i => let: (ok, dr, pow1, pow2) := st in
        (ok && (('X.[x i] == pow1) || ('X.[x (idx i)] == pow2)),
         if 'X.[x (idx i)] == pow2 then dr else false, pow1 * x 1%N, pow2 * x (2 ^ k)%N)) (true, true, 1, 1)
         (iota 0 (2 ^ k.+1)) = foldl g (true, true, 1, 1) (iota 0 (2 ^ k.+1)).
  move: (iota _ _) (true, true, 1, 1) => s; elim: s => //= i s IH [[[a b] c] d].
  by rewrite !hornerX IH.
case: (foldl g _ _) => [[[ok dr] p1] p2] /= [H1 H2].
by exists idx, dr, ok; split.
Qed.

Lemma init_inv fftp maxroot x n o : mfft_init fftp maxroot x n = AOk o -> fft_table n x ->
  exists k idx dr, [/\ n = (2 ^ k.+1)%N, roots_table k x,
    (forall i, (i < n)%N -> idx i = brev k.+1 i),
    o = Mfft n k.+1 x dr idx & if dr then reversed k x else direct k x].
Proof.
move=> E [T1 T2]; move: (E); rewrite /mfft_init; case: eqP => //= En; case: fftp E => //= E; case: ltnP => // Lk.
case Ek: (next_pow2 n) En Lk => [|k] // En Lk _.
have T : roots_table k x by rewrite /roots_table -En; split.
have [idx [dr [ok [I Hidx Hok Hdr]]]] := initE x Lk.
move: E; rewrite En I; case: ok I Hok => // I [/(_ isT) /(accepted T) D _] [<-].
exists k, idx, dr; split=> //.
by case: dr Hdr {I} => [[H _]|[_ H]]; [exact: H|case: D => // /H].
Qed.

(** ** the four operations *)
Section Ops.
Variables (k : nat) (x : nat -> F).
Let n := (2 ^ k.+1)%N.
Hypothesis T : roots_table k x.

Lemma brev_sum (G : nat -> F) : \sum_(i < n) G (brev k.+1 i) = \sum_(i < n) G i.
Proof.
pose h (i : 'I_n) : 'I_n := Ordinal (brev_lt k.+1 i).
have hK : involutive h by move=> i; apply: val_inj; rewrite /= -[RHS](@brevK k.+1 i).
by rewrite [RHS](reindex_inj (inv_inj hK)).
Qed.

Lemma symD i j : direct k x -> (i < n)%N -> (j < n)%N -> x i ^+ j = x j ^+ i.
Proof. by move=> D Hi Hj; rewrite (D i Hi) (D j Hj) -!exprM mulnC. Qed.
Lemma symR i j : reversed k x -> (i < n)%N -> (j < n)%N -> x (brev k.+1 i) ^+ j = x (brev k.+1 j) ^+ i.
Proof. by move=> D Hi Hj; rewrite (D i Hi) (D j Hj) -!exprM mulnC. Qed.

Variables (idx : nat -> nat) (dr : bool).
Hypothesis Hidx : forall i, (i < n)%N -> idx i = brev k.+1 i.
Hypothesis Hdr : if dr then reversed k x else direct k x.
Let o := Mfft n k.+1 x dr idx.

Lemma t_evaluateP val osz : (odflt n osz <= n)%N ->
  mfft_t_evaluate o val osz = AOk (\poly_(j < odflt n osz) \sum_(i < n) val i * x i ^+ j).
Proof.
move=> Hm; rewrite /mfft_t_evaluate /= ltnNge Hm; congr AOk; apply/polyP=> j.
rewrite !coef_poly; case: ltnP => // Hj.
have Hjn : (j < n)%N by lia.
case: dr Hdr => /= D; rewrite /to_rep (horner_coef_wide _ (size_poly _ _)).
  rewrite -(brev_sum (fun i => val i * x i ^+ j)) Hidx //; apply: eq_bigr => i _.
  by rewrite coef_poly ltn_ord Hidx // symR.
by apply: eq_bigr => i _; rewrite coef_poly ltn_ord symD.
Qed.

Lemma foldl_upd_idx (G : nat -> F) (v : nat -> F) m i : (m <= n)%N -> (i < m)%N ->
  foldl (fun (v : nat -> F) i => upd v (idx i) (G i)) v (iota 0 m) (brev k.+1 i) = G i.
Proof.
elim: m => // m IH Hm Hi; rewrite foldl_iotaR add0n Hidx //.
have [->|N] := eqVneq i m; first by rewrite upd_eq.
rewrite upd_ne; first by apply: IH; lia.
apply: contraNneq N => /(congr1 (brev k.+1)); rewrite !brevK //; lia.
Qed.

Lemma t_interpolateP (f : P) val j : (j < n)%N ->
  \sum_(i < n) mfft_t_interpolate o f val i * x i ^+ j = f`_j.
Proof.
move=> Hj; rewrite /mfft_t_interpolate /=.
have n1 : (n == 1)%N = false by rewrite /n expnS; lia.
rewrite n1; case: eqP => n2.
  have D : x 0%N = 1 /\ x 1%N = -1.
    have [T1 T2] := T; rewrite -/n n2 in T1 T2.
    have x0 : x 0%N = 1.
      by case: dr Hdr => D; have := D 0%N; rewrite ?brev0 expr0; apply; rewrite -/n n2.
    split=> //; have /eqP := T1 1%N isT; rewrite sqrf_eq1 => /orP[/eqP E|/eqP //].
    by have := T2 0%N 1%N isT isT; rewrite x0 E => /(_ erefl).
  case: D => x0 x1; have t0 := two_neq0 T.
  rewrite n2 !big_ord_recl big_ord0 /= /bump /= addn0 x0 x1 upd_eq upd_ne // upd_eq addr0 expr1n mulr1.
  have : (j < 2)%N by rewrite -n2.
  case: j {Hj} => [|[|//]] _; rewrite ?expr0 ?expr1 ?mulr1 ?mulrN1.
    by rewrite -mulrDl addrACA subrr addr0 -mulr2n -mulr_natr mulfK.
  by rewrite -mulrBl opprB [f`_0 + _]addrC addrACA subrr addr0 -mulr2n -mulr_natr mulfK.
set tmp := from_rep _ _ _.
have E i : (i < n)%N -> tmp.[x i] = if dr then f`_(idx i) else f`_i.
  by move=> Hi; rewrite /tmp from_repP //; case: (dr).
have St : (size tmp <= n)%N := size_poly _ _.
clearbody tmp; have Hb : (brev k.+1 j < n)%N by apply: brev_lt.
case: dr Hdr E => /= D E.
  rewrite -(brev_sum (fun i => foldl _ _ _ i * x i ^+ j)).
  have := E _ Hb; rewrite Hidx // brevK // => <-.
  rewrite (horner_coef_wide _ St); apply: eq_bigr => i _.
  by rewrite (@foldl_upd_idx (fun i => tmp`_i)) // symR.
rewrite -E // (horner_coef_wide _ St); apply: eq_bigr => i _.
by rewrite (foldl_upd_rng (fun i => tmp`_i)) /= add0n ltn_ord symD.
Qed.
End Ops.

(** ** the statements *)

(** the constructor: it accepts exactly the powers of two greater than one for which the field has
    enough roots of unity and NTL's table is in one of the two orders the class knows *)
Theorem C63_constructor fftp maxroot (x : nat -> F) n : fft_table n x ->
  (exists o, mfft_init fftp maxroot x n = AOk o) <->
  exists k, [/\ n = (2 ^ k.+1)%N, fftp, (k < maxroot)%N & direct_order n x \/ reversed_order k.+1 x].
Proof.
move=> HT; split=> [[o E]|[k [En Hf Hk D]]].
  have [k [idx [dr [En T Hidx Eo Hdr]]]] := init_inv E HT.
  move: E; rewrite /mfft_init En next_pow2_pow eqxx; case: fftp => //=; case: ltnP => // Lk _.
  exists k; split=> //; case: dr {Eo} Hdr => [/reversedP|/directP]; by [left|right].
subst n; case: fftp Hf => // _; have [idx [dr [ok [I Hidx Hok Hdr]]]] := initE x Hk.
rewrite I; suff -> : ok = true by eexists.
by apply/Hok; case: D => [/directP D|/reversedP D] i Hi; [left|right]; apply: D.
Qed.

(** evaluation, interpolation and their transposes at the points of an object that was built; the polynomials and
    the vectors are arbitrary, and so are the former contents of the output of t_interpolate *)
Theorem C63_operations fftp maxroot (x : nat -> F) n o : fft_table n x -> mfft_init fftp maxroot x n = AOk o ->
  [/\ forall (f : P) i, (i < n)%N -> mfft_evaluate o f i = f.[x i],
      forall val, (size (mfft_interpolate o val) <= n)%N /\
        (forall i, (i < n)%N -> (mfft_interpolate o val).[x i] = val i),
      forall val osz, (odflt n osz <= n)%N ->
        mfft_t_evaluate o val osz = AOk (\poly_(j < odflt n osz) \sum_(i < n) val i * x i ^+ j)
    & forall (f : P) val j, (j < n)%N -> \sum_(i < n) mfft_t_interpolate o f val i * x i ^+ j = f`_j].
Proof.
move=> HT E; have [k [idx [dr [En T Hidx -> Hdr]]]] := init_inv E HT; subst n; split.
- by [].
- by move=> val; split=> [|i Hi]; [exact: size_poly|exact: from_repP].
- by move=> val osz Hm; exact: t_evaluateP.
- by move=> f val j Hj; exact: t_interpolateP.
Qed.

(** the interpolant is the only polynomial with these values and at most n coefficients; so interpolation undoes
    evaluation *)
Theorem C63_roundtrip fftp maxroot (x : nat -> F) n o (f : P) : fft_table n x -> mfft_init fftp maxroot x n = AOk o ->
  (size f <= n)%N -> mfft_interpolate o (mfft_evaluate o f) = f.
Proof.
move=> HT E Sf; have [Ev In _ _] := C63_operations HT E; have [Si Vi] := In (mfft_evaluate o f).
apply/eqP; rewrite -subr_eq0; apply/eqP; set d := _ - _.
have Sd : (size d <= n)%N by apply: (leq_trans (size_add _ _)); rewrite size_opp geq_max Si.
apply: (@roots_geq_poly_eq0 _ d [seq x i | i <- iota 0 n]).
- apply/allP=> y /mapP[i]; rewrite mem_iota /= add0n => Hi ->.
  by rewrite rootE hornerD hornerN Vi // Ev // subrr.
- rewrite map_inj_in_uniq ?iota_uniq // => i j; rewrite !mem_iota /= !add0n.
  by case: HT => _; apply.
- by rewrite size_map size_iota.
Qed.

(** ** what fails *)

(** one is a power of two, and every field has a first root of unity, but the constructor shifts by -1 (and reads
    the second entry of tables of one) *)
Theorem C63_one_point_refuted fftp maxroot (x : nat -> F) : mfft_init fftp maxroot x 1 = AUB.
Proof. by rewrite /mfft_init /next_pow2 up_log1 eqxx /=; case: ifP => //; case: ifP. Qed.

(** ... hence get_FFT_points fails for one point *)
Theorem C63_get_points_one_refuted fftp maxroot (x : nat -> nat -> F) : get_fft_points fftp maxroot x 1 = AUB.
Proof. by rewrite /get_fft_points /next_pow2 up_log1; apply: C63_one_point_refuted. Qed.

(** the optional size of the output of t_evaluate must not exceed the number of points *)
Theorem C63_output_size_refuted (o : mfft F) val m : (m_n o < m)%N -> mfft_t_evaluate o val (Some m) = AUB.
Proof. by rewrite /mfft_t_evaluate /= => ->. Qed.

(** get_FFT_points gives at least n points, less than twice as many *)
Theorem C63_get_points fftp maxroot (x : nat -> nat -> F) n o : get_fft_points fftp maxroot x n = AOk o ->
  (n <= m_n o)%N /\ ((1 < n)%N -> (m_n o < 2 * n)%N).
Proof.
rewrite /get_fft_points /mfft_init; rewrite next_pow2_pow eqxx /=; case: fftp => //=; case: ltnP => // _.
case: (bit_reverse_init _) => // idx; case: (foldl _ _ _) => [[[[] dr] a] b] //= [<-] /=.
split=> [|n1]; first exact: up_logP.
have := up_log_gtn (isT : 1 < 2)%N n1; rewrite /next_pow2.
have : (0 < up_log 2 n)%N by rewrite up_log_gt0.
by case: (up_log 2 n) => // l _ /=; rewrite expnS; lia.
Qed.
End C63.

(** a table of four roots of unity modulo 17 in bit-reversed order *)
Definition x17 (i : nat) : 'F_17 := (nth 0%N [:: 1; 16; 4; 13]%N i)%:R.
Example C63_met : [/\ fft_table 4 x17, reversed_order 2 x17, ~ direct_order 4 x17 &
  exists o, mfft_init true 4 x17 4 = AOk o].
Proof.
have V (a b : nat) : ((a%:R : 'F_17) == b%:R) = (a == b %[mod 17]).
  apply/eqP/eqP=> [/(congr1 (fun x : 'F_17 => x : nat))|E]; first by rewrite !val_Fp_nat.
  by apply: val_inj; rewrite /= !val_Fp_nat.
have HT : fft_table 4 x17.
  split.
    by move=> [|[|[|[|//]]]] _; apply/eqP; rewrite /x17 /= -natrX (V _ 1%N).
  by move=> [|[|[|[|//]]]] [|[|[|[|//]]]] _ _ /eqP; rewrite /x17 /= V.
have HR : reversed_order 2 x17.
  exists (4%:R); move=> [|[|[|[|//]]]] _; apply/eqP; rewrite /x17 /bitrev !big_ord_recl big_ord0 /= -natrX V //.
have HD : ~ direct_order 4 x17.
  case=> w H; have := H 1%N isT; have := H 2%N isT; rewrite expr1 => /eqP E2 E1; move: E2.
  by rewrite -E1 /x17 /= -natrX V.
split=> //; apply/(C63_constructor _ _ HT); exists 1%N; split=> //; by right.
Qed.

Print Assumptions C63_constructor.
Print Assumptions C63_operations.
Print Assumptions C63_roundtrip.
Print Assumptions C63_one_point_refuted.
Print Assumptions C63_get_points_one_refuted.
Print Assumptions C63_output_size_refuted.
Print Assumptions C63_get_points.
