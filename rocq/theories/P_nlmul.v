(** Property C75: the objects that multiply a fixed matrix of polynomials by others on the right (ntl-extras). *)
From mathcomp Require Import all_ssreflect all_fingroup all_algebra all_field zify.
From Verif Require Import A_base A_mul_model A_mul_proof N_shift_proof N_multi_model N_multi_proof N_pmat_model N_poly_model.
From Verif Require Import N_trs_proof N_util_model N_util_proof N_geo_model N_geo2_proof N_geo3_proof N_mfft_model N_eval_model N_eval_proof N_mmfft_model.
From Verif Require Import N_mmfft_proof P_ngeo P_nord P_ntrs P_neval N_mmfft_core P_nmmfft N_mm3_model N_mm3_proof N_mm3_crt P_nmm3 N_mm_model P_nmm N_lmul_model N_lmul_proof.
Set Implicit Arguments.
Unset Strict Implicit.
Unset Printing Implicit Defensive.
Import GRing.Theory.
Local Open Scope ring_scope.

Section Points.
Variable F : fieldType.
Local Notation P := {poly F}.
Implicit Types a b : pmat F.

Lemma lm_productsE (T : Type) (store : nat -> fmat F -> T -> T) n t u va vB (z : T) (obs : T -> F) r i k : (r < n)%N -> (k < u)%N ->
  (forall j vc C, obs (store j vc C) = if j == r then vc i k else obs C) ->
  obs (lm_products store n t u va vB z) = \sum_(l < t) va r i l * vB r l k.
Proof.
move=> Hr Hk H; rewrite /lm_products.
rewrite (loop_hit (obs := fun st => obs st.2) (hit := fun j => j == r) (v := \sum_(l < t) va r i l * vB r l k)).
  by rewrite ifT //; apply/hasP; exists r; rewrite ?mem_iota.
move=> j [vb C] _ /=; rewrite H; case: eqP => // ->; rewrite /fmul; apply: eq_bigr => l _.
by rewrite fillE ltn_ord Hk.
Qed.

Lemma store_row (p m r : nat) (vc : fmat F) (C : fmat F) j u v : (u < m)%N -> (v < p)%N ->
  foldl (fun M u => foldl (fun M v => upd2 M j (u * p + v)%N (vc u v)) M (iota 0 p)) C (iota 0 m) r (u * p + v)%N =
  if j == r then vc u v else C r (u * p + v)%N.
Proof.
move=> Hu Hv; rewrite (@flat_cols _ _ (fun M : fmat F => M r) (fun i k M => upd2 M j (i * p + k)%N (vc i k)) (fun i k z => if j == r then vc i k else z)).
  by rewrite col_lt //; have [-> ->] := divmod_col u Hv.
by move=> i k M c _ _; rewrite upd2E [j == r]eq_sym; case: (r == j); rewrite //= if_same.
Qed.

Lemma store_col (p m r : nat) (vc : fmat F) (C : fmat F) j u v : (u < m)%N -> (v < p)%N ->
  foldl (fun M u => foldl (fun M v => upd2 M (u * p + v)%N j (vc u v)) M (iota 0 p)) C (iota 0 m) (u * p + v)%N r =
  if j == r then vc u v else C (u * p + v)%N r.
Proof.
move=> Hu Hv; rewrite (@flat_cols _ _ (fun M : fmat F => M^~ r) (fun i k M => upd2 M (i * p + k)%N j (vc i k)) (fun i k z => if j == r then vc i k else z)).
  by rewrite col_lt //; have [-> ->] := divmod_col u Hv.
by move=> i k M c _ _; rewrite upd2E [j == r]eq_sym; case: (r == j); rewrite ?andbT ?andbF ?if_same.
Qed.

Lemma coefsE s t (e : fmat P) k u l : (u < s)%N -> (l < t)%N ->
  foldl (fun M i => foldl (fun M j => foldl (fun M k => upd2 M k (i * t + j)%N (e i j)`_k) M (iota 0 (size (e i j)))) M (iota 0 t))
    (fun _ _ => 0) (iota 0 s) k (u * t + l)%N = (e u l)`_k.
Proof.
move=> Hu Hl; rewrite (@flat_cols _ _ (fun M : fmat F => M k)
    (fun i j M => foldl (fun M k => upd2 M k (i * t + j) (e i j)`_k) M (iota 0 (size (e i j))))
    (fun i j x => if (k < size (e i j))%N then (e i j)`_k else x)); last first.
  by move=> i j M c _ _; rewrite col_upd add0n /=; case: eqP.
rewrite col_lt //; have [-> ->] := divmod_col u Hl.
by case: ltnP => // Hs; rewrite nth_default.
Qed.

Lemma lmul_denseE a dB : (0 < plen a)%N -> distinct (plen a + dB) (fun i => i%:R : F) ->
  exists f, lmul_dense a dB = AOk f /\ multiplies (@product_of F) a dB f.
Proof.
move=> a0 D; rewrite /lmul_dense eqn0Ngt a0 /=.
set nb := (_ + dB)%N in D *; have n0 : (0 < nb)%N by rewrite /nb; lia.
have HV := @vandermondeE F (plen a) dB.+1 nb n0; have HI := inv_vdm D HV.
case: (vandermonde _ _ _ _) HV HI => [[V vA] vB] HV HI; rewrite HI.
eexists; split; first by []; split=> b; last by move=> C; rewrite C.
move=> E Hb; rewrite ltnNge Hb E ltnn /=.
set valA := fmul _ vA _; set valAp := foldl _ _ (iota 0 nb); set valB := fmul _ vB _; set valC := lm_products _ _ _ _ _ _ _.
have HvA i u l : (i < nb)%N -> (u < nr a)%N -> (l < nr b)%N -> valAp i u l = (ent a u l).[i%:R].
  move=> Hi Hu Hl; have Hl' : (l < nc a)%N by rewrite E.
  rewrite /valAp (upd_loop (fun i => fill (nr a) (nr b) (fun u v => valA i (u * nr b + v)%N) _)) Hi fillE Hu Hl /=.
  apply: (fmul_vdm (x := fun i => i%:R)); last exact: plen_size.
    by move=> k Hk; have [|_ /(_ Hk)] := HV i k Hi; first (rewrite /nb; lia).
  by move=> k Hk; apply: coefsE.
have HvB i l v : (i < nb)%N -> (l < nr b)%N -> (v < nc b)%N -> valB i (l * nc b + v)%N = (ent b l v).[i%:R].
  move=> Hi Hl Hv; apply: (fmul_vdm (x := fun i => i%:R)); last by apply: leq_trans Hb; apply: plen_size.
    by move=> k Hk; have [|_ _ /(_ Hk)] := HV i k Hi; first (rewrite /nb; lia).
  by move=> k Hk; apply: coefsE.
have HC i u v : (i < nb)%N -> (u < nr a)%N -> (v < nc b)%N ->
    valC i (u * nc b + v)%N = (\sum_(l < nr b) ent a u l * ent b l v).[i%:R].
  move=> Hi Hu Hv; rewrite /valC (@lm_productsE _ _ _ _ _ _ _ _ (fun M : fmat F => M i (u * nc b + v)%N) i u v) //; last first.
    by move=> j vc C; apply: store_row.
  by rewrite horner_sum; apply: eq_bigr => l _; rewrite hornerM HvA // HvB.
eexists; split; first by []; split=> // i j Hi Hj /=; rewrite winE // !add0n Hi Hj /=.
have ES : \sum_(l < nc a) ent a i l * ent b l j = \sum_(l < nr b) ent a i l * ent b l j by rewrite E.
rewrite ES; apply: interp_poly => //; last by move=> k Hk; rewrite HC.
rewrite -ES; apply: leq_trans (prod_size _ Hi Hj) _; first by rewrite E.
by rewrite /nb; move: Hb; clear; move: (plen a) (plen b); lia.
Qed.

(** too few elements in the field *)
Lemma lmul_dense_few (modn : nat) a dB : modn \in [char F] -> (modn < plen a + dB)%N -> lmul_dense a dB = AUB.
Proof.
move=> Hc Hm; rewrite /lmul_dense; case: ifP => // _.
set nb := (_ + dB)%N in Hm *; have n0 : (0 < nb)%N by lia.
have HV := @vandermondeE F (plen a) dB.+1 nb n0.
case: (vandermonde _ _ _ _) HV => [[V vA] vB] HV; rewrite /inv_mat ifF //.
apply/negbTE; rewrite -row_free_unit; apply/negP=> /row_freeP[W HW].
have p0 := prime_gt0 (charf_prime Hc).
have Er (j : 'I_nb) : V modn j = V 0%N j.
  have [/= -> _ _] := HV modn j Hm (ltn_ord j); have [/= -> _ _] := HV 0%N j n0 (ltn_ord j).
  by congr (_ ^+ _); apply/eqP; rewrite charf0.
have : row (Ordinal Hm) (mx_of nb nb V *m W) = row (Ordinal n0) (mx_of nb nb V *m W).
  by rewrite !row_mul; congr (_ *m _); apply/rowP=> j; rewrite !mxE Er.
rewrite HW => /rowP/(_ (Ordinal n0)); rewrite !mxE -!val_eqE /=.
have -> : (modn == 0)%N = false by lia.
by move/eqP; rewrite eq_sym oner_eq0.
Qed.
End Points.

Section Geometric.
Variable F : finFieldType.
Local Notation P := {poly F}.
Implicit Types a b : pmat F.
Variables (fuel MX KARX : nat) (ul : bool) (garb : nat -> F).
Hypothesis HK : (1 < KARX)%N.
Variables (rnd : seq F) (feas fft : bool).

Lemma store3E ev (v : P -> nat -> F) n s t (e : fmat P) :
  (forall i k, (i < s)%N -> (k < t)%N -> ev (e i k) = Some (AOk (v (e i k)))) ->
  exists M, foldl (fun st i => foldl (fun st k => bindm st (fun M => bindm (ev (e i k)) (fun v =>
      Some (AOk (foldl (fun M r => upd3 M r i k (v r)) M (iota 0 n)))))) st (iota 0 t)) (Some (AOk (fun _ _ _ => 0))) (iota 0 s) = Some (AOk M) /\
    forall r i k, (r < n)%N -> (i < s)%N -> (k < t)%N -> M r i k = v (e i k) r.
Proof.
move=> Hev.
have inner i t' M : (i < s)%N -> (t' <= t)%N -> exists M', foldl (fun st k => bindm st (fun M => bindm (ev (e i k)) (fun v =>
      Some (AOk (foldl (fun M r => upd3 M r i k (v r)) M (iota 0 n)))))) (Some (AOk M)) (iota 0 t') = Some (AOk M') /\
    forall r i' k, M' r i' k = if [&& (r < n)%N, i' == i & (k < t')%N] then v (e i k) r else M r i' k.
  move=> Hi; elim: t' => [|t' IH] Ht; first by exists M; split=> // r i' k; rewrite ltn0 !andbF.
  have [M' [E1 H1]] := IH (ltnW Ht); rewrite foldl_iotaR E1 add0n /= Hev //=.
  eexists; split; first by []; move=> r i' k.
  have -> : foldl (fun M r => upd3 M r i t' (v (e i t') r)) M' (iota 0 n) r i' k =
      if [&& (r < n)%N, i' == i & k == t'] then v (e i t') r else M' r i' k.
    rewrite (loop_hit (obs := fun M : nat -> fmat F => M r i' k) (hit := fun r' => [&& r' == r, i' == i & k == t']) (v := v (e i t') r)).
      congr (if _ then _ else _); apply/hasP/and3P => [[r'] |[H2 H3 H4]].
        by rewrite mem_iota => /= Hr' /and3P[/eqP<- -> ->].
      by exists r; rewrite ?mem_iota // eqxx H3 H4.
    by move=> r' M0 _; rewrite upd3E [r == r']eq_sym; case: eqP => [->|].
  rewrite H1 ltnS [in RHS](leq_eqVlt k); case: (k =P t') => [->|_].
    by rewrite orTb; case: (r < n)%N; case: (i' == i); rewrite //= ltnn.
  by rewrite orFb; case: (r < n)%N; case: (i' == i).
suff G s' : (s' <= s)%N -> exists M, foldl (fun st i => foldl (fun st k => bindm st (fun M => bindm (ev (e i k)) (fun v =>
      Some (AOk (foldl (fun M r => upd3 M r i k (v r)) M (iota 0 n)))))) st (iota 0 t)) (Some (AOk (fun _ _ _ => 0))) (iota 0 s') = Some (AOk M) /\
    forall r i k, (r < n)%N -> (i < s')%N -> (k < t)%N -> M r i k = v (e i k) r by exact: G.
elim: s' => [|s' IH] Hs; first by eexists; split.
have [M [E1 H1]] := IH (ltnW Hs); rewrite foldl_iotaR E1 add0n.
have [M' [E2 H2]] := inner s' t M Hs (leqnn _); exists M'; split=> // r i k Hr Hi Hk.
rewrite H2 Hr Hk andbT /=; case: eqP => [->|N] //; apply: H1 => //; lia.
Qed.

Lemma lmul_geometricE a dB : (0 < plen a)%N -> points_found rnd (plen a + dB) -> (plen a + dB <= fuel)%N ->
  exists f, lmul_geometric fuel MX KARX ul garb #|F| rnd feas fft a dB = Some (AOk f) /\
    (forall b, nc a = nr b -> (plen b <= dB.+1)%N -> exists r, f b = Some r /\ product_of a b r) /\
    (forall b, (dB.+1 < plen b)%N -> f b = Some AUB).
Proof.
move=> a0 Pf Hf; rewrite /lmul_geometric; set n := (_ + dB)%N in Pf Hf *.
have HB : (dB < n)%N by rewrite /n; lia.
have [H1 H2] := Pf; have n0 : (0 < n)%N by lia.
have [r [o0 [_ E0 Ho]]] := C62_geometric_points feas fft n0 H1 H2.
have := prepare_ok dB (at_ok Ho); rewrite HB => -[o E1 Ok]; rewrite E0 /= E1 /=.
pose ev := geo_ev fuel MX KARX ul garb o.
have Hev (p : P) : (size p <= n)%N -> geo_evaluate fuel MX KARX ul garb o p = Some (AOk (ev p)) /\
    forall i, (i < n)%N -> ev p i = p.[pt r 1 i].
  by move=> Hp; have [v [Ev Hv]] := @geo_evalP F fuel MX KARX ul garb HK r 1 n o p Ok Hf Hp; rewrite /ev /geo_ev Ev.
have Sa i k : (i < nr a)%N -> (k < nc a)%N -> (size (ent a i k) <= n)%N.
  by move=> Hi Hk; apply: (leq_trans (plen_size Hi Hk)); rewrite /n; lia.
have [|vA [-> HvA]] := @store3E (geo_evaluate fuel MX KARX ul garb o) ev n (nr a) (nc a) (ent a).
  by move=> i k Hi Hk; have [] := Hev _ (Sa i k Hi Hk).
rewrite /=; eexists; split; first by []; split=> b; last by move=> C; rewrite C.
move=> E Hb; rewrite ltnNge Hb E ltnn /= (ok_n Ok).
have Sb i k : (i < nr b)%N -> (k < nc b)%N -> (size (ent b i k) <= n)%N.
  by move=> Hi Hk; apply: (leq_trans (plen_size Hi Hk)); apply: leq_trans Hb HB.
have [|vB [-> HvB]] := @store_valsE F (geo_evaluate fuel MX KARX ul garb o) ev n (nr b) (nc b) (ent b).
  by move=> i k Hi Hk; have [] := Hev _ (Sb i k Hi Hk).
rewrite /=; eexists; split; first by []; eexists; split; first by []; split=> // i j Hi Hj /=.
rewrite winE // !add0n Hi Hj /=; set val := (X in geo_interpolate _ X).
have [Hs Hv] := @geo_interpP F r 1 n o val Ok.
set c := \sum_(k < nc a) _.
have Hc : (size c <= n)%N.
  apply: leq_trans (prod_size _ Hi Hj) _; first by rewrite E.
  by rewrite /n; move: Hb; clear; move: (plen a) (plen b); lia.
apply/eqP; rewrite -subr_eq0; apply/eqP.
apply: (@roots_geq_poly_eq0 _ _ [seq pt r 1 k | k <- iota 0 n]).
- apply/allP=> y /mapP[k]; rewrite mem_iota add0n => /= Hk ->.
  rewrite /root !hornerE Hv // subr_eq0 /val.
  rewrite (@lm_productsE _ _ _ _ _ _ _ _ _ (fun M : fmat F => M (i * nc b + j)%N k) k i j) //; last first.
    by move=> j' vc C; apply: store_col.
  rewrite /c horner_sum; apply/eqP.
  have S m : nc a = m -> \sum_(l < nc a) (ent a i l * ent b l j).[pt r 1 k] = \sum_(l < m) (ent a i l * ent b l j).[pt r 1 k] by move=> ->.
  rewrite (S _ E); apply: eq_bigr => l _; have Hl : (l < nc a)%N by rewrite E.
  rewrite HvA // HvB // hornerM.
  have [_ ->] := Hev _ (Sa i l Hi Hl) => //.
  by have [_ ->] := Hev _ (Sb l j (ltn_ord l) Hj).
- rewrite map_inj_in_uniq ?iota_uniq // => x1 x2; rewrite !mem_iota !add0n => /= Hx1 Hx2.
  exact: (pt_inj Ok).
- rewrite size_map size_iota; apply: (leq_trans (size_add _ _)).
  by rewrite geq_max size_opp Hs.
Qed.
End Geometric.

Section Get.
Variables (p : nat) (fftp : bool) (maxroot_p : nat) (xp : nat -> nat -> 'F_p) (nbits_p : nat).
Variables (wbits spbits : nat) (ru : nat -> nat -> nat).
Variables (q : nat -> nat) (nbits maxroot : nat -> nat) (x3 : forall i, nat -> nat -> 'F_(q i)).
Variables (fuel MX KARX : nat) (ul : bool) (garb : nat -> 'F_p) (rnd : seq 'F_p) (feas fft : bool).
Implicit Types a b : pmat [fieldType of 'F_p].
Hypothesis HK : (1 < KARX)%N.
(** the modulus is a prime, the constants and the FFT primes of NTL are as expected (see C71), FFTRoundUp is increasing *)
Hypothesis Hs : setting fftp maxroot_p xp wbits spbits ru q nbits.
Hypothesis Hmono : forall l l' k, (l <= l')%N -> (ru l k <= ru l' k)%N.
Local Notation get := (@get_lmultiplier p fftp maxroot_p xp nbits_p wbits spbits ru q nbits maxroot x3 fuel MX KARX ul garb rnd feas fft).
Local Notation fftm := (@fft_mul wbits spbits ru q nbits maxroot x3).

(** the object multiplies a by the matrices of degree at most dB *)
Definition left_multiplier a (dB : nat) (r : option (aoutcome (pmat [fieldType of 'F_p] -> option (aoutcome (pmat [fieldType of 'F_p]))))) : Prop :=
  exists f, r = Some (AOk f) /\ forall b, nc a = nr b -> entries_below dB.+1 b -> is_product a b (f b).
(** the FFT primes are large enough for a and matrices of degree at most dB *)
Definition three_enough a (dB : nat) : Prop :=
  (forall i, (i < 3)%N -> fft_ready maxroot x3 i (next_pow2 (plen a + dB))) /\
  (2 * (nc a * minn (plen a) dB.+1 * (p - 1) * (p - 1)) < q 0 * q 1 * q 2)%N.

Lemma below_plen d b : entries_below d b <-> (plen b <= d)%N.
Proof. by split=> [H|/plenP //]; apply/plenP. Qed.

Lemma three_ext nb (f g : nat -> aoutcome zmat) : (0 < nb)%N -> (forall i, (i < nb)%N -> f i = g i) ->
  N_mm3_model.three_primes q p (Some nb) f = N_mm3_model.three_primes q p (Some nb) g.
Proof.
move=> n0 H; rewrite /N_mm3_model.three_primes H //; case: ifP => // _.
suff -> : forall st, foldl (fun (st : aoutcome (nat -> zmat)) i =>
          match st with AUB => AUB | AOk cs => match f i with AUB => AUB | AOk c => AOk (upd cs i c) end end) st (iota 0 nb) =
    foldl (fun (st : aoutcome (nat -> zmat)) i =>
          match st with AUB => AUB | AOk cs => match g i with AUB => AUB | AOk c => AOk (upd cs i c) end end) st (iota 0 nb) by [].
have : {in iota 0 nb, forall i, f i = g i} by move=> i; rewrite mem_iota => /= Hi; apply: H.
elim: (iota 0 nb) => //= i l IH Hl st; rewrite Hl ?inE ?eqxx //; apply: IH => j Hj; apply: Hl.
by rewrite inE Hj orbT.
Qed.

Lemma int_prod_mod (r : nat) (a b a' b' : zmat) i j k : znc a' = znc a ->
  (forall i j k, nth 0%N (zent a' i j) k %% r = nth 0%N (zent a i j) k %% r)%N ->
  (forall i j k, nth 0%N (zent b' i j) k %% r = nth 0%N (zent b i j) k %% r)%N ->
  (int_prod a' b' i j k %% r = int_prod a b i j k %% r)%N.
Proof.
move=> Ec HA HB; rewrite /int_prod Ec -[LHS]modn_summ -[RHS]modn_summ; congr (_ %% _)%N; apply: eq_bigr => l _.
rewrite -[LHS]modn_summ -[RHS]modn_summ; congr (_ %% _)%N; apply: eq_bigr => e _.
by rewrite -modnMm HA HB modnMm.
Qed.

Lemma fft_mulE (a : zmat) dB idx : (idx < 3)%N -> (0 < znc a)%N -> fft_ready maxroot x3 idx (next_pow2 (zlen a + dB)) ->
  exists f, fftm a dB idx = AOk f /\
    forall b : zmat, znc a = znr b -> (zlen b <= dB.+1)%N -> exists c, [/\ f b = AOk c, znr c = znr a, znc c = znc b &
      forall i j, (i < znr a)%N -> (j < znc b)%N -> forall k, nth 0%N (zent c i j) k = (int_prod a b i j k %% q idx)%N].
Proof.
move=> Hi n0 Hr; have [[pp Hp Hw Hru U] [Hq _ _]] := Hs; have [pq bq] := Hq idx Hi.
rewrite /fft_mul; set ap := reduce_mod_p (q idx) a.
have [||||f [Ef [Hf _]]] := @lmul_fftE _ wbits spbits (q idx) (fun z : 'F_(q idx) => val z) (nbits idx) true (maxroot idx) (@x3 idx) ru Hru Hmono Hw bq _ _
  (to_field (q idx) ap) dB.
- exact: char_Fp.
- move=> z; split; last by rewrite natr_Zp.
  by apply: leq_trans (ltn_ord z) _; rewrite (Fp_cast pq).
- by rewrite /= n0.
- apply: Hr; apply: leq_up_log; rewrite leq_add2r; apply: leq_trans (@to_field_plen _ _) _; exact: reduce_zlen.
rewrite Ef; eexists; split; first by []; move=> b E Hb.
have [||c [-> [R1 R2 He]]] := Hf (to_field (q idx) b); first exact: E.
- by apply: leq_trans (@to_field_plen _ _) Hb.
eexists; split; first by []; rewrite //= => i j Hi' Hj k.
transitivity (int_prod ap b i j k %% q idx)%N; last by apply: int_prod_mod => // i' j' k'; rewrite /ap /= reduceE modn_mod.
rewrite from_field_coef He // coef_sum.
have -> : (\sum_(l < nc (to_field (q idx) ap)) (ent (to_field (q idx) ap) i l * ent (to_field (q idx) b) l j)`_k)%R = ((int_prod ap b i j k)%:R : 'F_(q idx))%R.
  rewrite /int_prod natr_sum; apply: eq_bigr => l _; rewrite coefM natr_sum; apply: eq_bigr => e _.
  by rewrite !to_field_coef natrM.
exact: val_Fp_nat.
Qed.

Lemma lmul_3E (a : zmat) dB : (0 < znc a)%N -> is_zzpX_mat p a ->
  (forall i, (i < 3)%N -> fft_ready maxroot x3 i (next_pow2 (zlen a + dB))) ->
  (2 * (znc a * minn (zlen a) dB.+1 * (p - 1) * (p - 1)) < q 0 * q 1 * q 2)%N ->
  exists f, lmul_3 p wbits spbits ru nbits maxroot x3 a dB = AOk f /\
    forall b : zmat, znc a = znr b -> (zlen b <= dB.+1)%N -> is_zzpX_mat p b -> zproduct_of p a b (f b).
Proof.
move=> n0 Ha Hr Hm; have [[pp Hp Hw Hru U] [Hq _ _]] := Hs; have p1 := prime_gt1 pp; rewrite /lmul_3.
have [nb Enb] : exists nb, nb_primes p (znc a) (zlen a) dB.+1 (q 0) (q 1) (q 2) = Some nb.
  by rewrite /nb_primes Hm; do 2! [case: ifP => _; first by eexists]; eexists.
have [n3 Hnb] := nb_primesE p1 Enb; rewrite Enb.
set muls := foldl _ _ _.
have Hmuls i : (i < nb)%N -> muls i = fftm a dB i.
  by move=> Hi; rewrite /muls (upd_loop (fun i => fftm a dB i)) Hi.
have Hi3 i : (i < nb)%N -> (i < 3)%N by move=> Hi; case/andP: n3 => _; apply: leq_trans.
rewrite ifF; last first.
  apply/negbTE/hasPn=> i; rewrite mem_iota => /= Hi; rewrite Hmuls //.
  by have [f [-> _]] := fft_mulE (Hi3 i Hi) n0 (Hr i (Hi3 i Hi)).
eexists; split; first by []; move=> b E Hb Hzb.
pose g i := match fftm a dB i with AUB => AUB | AOk f => f (if (p < q i)%N then b else reduce_mod_p (q i) b) end.
cbv beta; rewrite (@three_ext nb _ g); last 2 first.
- by case/andP: n3.
- by move=> i Hi; rewrite Hmuls.
have Hg i : (i < 3)%N -> exists c, [/\ g i = AOk c, znr c = znr a, znc c = znc b &
    forall i' j, (i' < znr a)%N -> (j < znc b)%N -> forall k, nth 0%N (zent c i' j) k = (int_prod a b i' j k %% q i)%N].
  move=> Hi; rewrite /g; have [f [-> Hf]] := fft_mulE Hi n0 (Hr i Hi); case: ifP => _; first exact: Hf.
  have [||c [Ec R1 R2 He]] := Hf (reduce_mod_p (q i) b); first exact: E.
    by apply: leq_trans Hb; apply: reduce_zlen.
  exists c; split=> // i' j Hi' Hj k; rewrite He //; apply: int_prod_mod => // i'' j'' k''.
  by rewrite /= reduceE modn_mod.
have Hq' i : (i < 3)%N -> prime (q i) by case/Hq.
have HB i j k : (i < znr a)%N -> (j < znc b)%N -> (int_prod a b i j k < \prod_(l < nb) q l)%N.
  move=> Hi Hj; have B1 := int_prod_bound Hw k Ha Hzb E Hi Hj; apply: leq_ltn_trans B1 _.
  apply: (@leq_ltn_trans (znc a * minn (zlen a) dB.+1 * (p - 1) * (p - 1))).
    rewrite !leq_mul2r leq_mul2l; apply/orP; right; apply/orP; right; apply/orP; right.
    by move: Hb; clear; move: (zlen a) (zlen b); lia.
  apply: leq_trans Hnb _.
  by apply: eq_leq; apply: eq_bigr => l _; case: l => -[|[|[|l]]] //= Hl; move: n3; lia.
have [c [Ec R1 R2 H]] := three_primesE p1 Hq' U Hg n3 HB.
exists c; split=> // i j Hi Hj; have [N He] := H i j Hi Hj; split=> //; split; last exact/eqP.
by move=> k; rewrite He ltn_mod (ltnW p1).
Qed.

Lemma lmul_3pE a dB : (0 < nc a)%N -> three_enough a dB ->
  exists f, lmul_3p wbits spbits ru nbits maxroot x3 a dB = AOk f /\
    forall b, nc a = nr b -> (plen b <= dB.+1)%N -> is_product a b (f b).
Proof.
move=> n0 [Hr Hm]; have [[pp _ _ _ _] _] := Hs; rewrite /lmul_3p.
have [|||f [-> Hf]] := @lmul_3E (from_field a) dB n0; first exact: (from_field_zzpX Hs).
- by rewrite from_field_zlen.
- by rewrite from_field_zlen.
eexists; split; first by []; move=> b E Hb.
have [|||c [-> R1 R2 He]] := Hf (from_field b); first exact: E.
- by rewrite from_field_zlen.
- exact: (from_field_zzpX Hs).
eexists; split; first by []; split=> // i j Hi Hj.
have [_ Hk] := He i j Hi Hj; apply/polyP=> k; rewrite to_field_coef Hk coef_sum.
have -> : ((int_prod (from_field a) (from_field b) i j k %% p)%:R : 'F_p) = (int_prod (from_field a) (from_field b) i j k)%:R.
  by rewrite [in RHS](divn_eq (int_prod _ _ _ _ _) p) natrD natrM (charf0 (char_Fp pp)) mulr0 add0r.
rewrite /int_prod natr_sum; apply: eq_bigr => l _; rewrite coefM natr_sum; apply: eq_bigr => e _.
by rewrite natrM !from_field_coef !natr_Zp.
Qed.

(** What get_lmultiplier needs: the transforms of the modulus, or enough points, or FFT primes that are large enough *)
Definition multiplier_exists a (dB : nat) : Prop :=
  if fftp then is_true (next_pow2 (plen a + dB) <= maxroot_p)%N
  else if (plen a <= 151)%N then is_true (plen a + dB <= p)%N
  else if (nr a <= 200)%N || (nbits_p <= 25)%N then three_enough a dB
  else points_found rnd (plen a + dB) /\ (plen a + dB <= fuel)%N.

Lemma dense_choice (m l : nat) : [|| (m <= 20)%N && (l <= 31)%N, (m <= 40)%N && (l <= 91)%N | (l <= 151)%N] = (l <= 151)%N.
Proof. lia. Qed.

Theorem C75_get_lmultiplier a dB : (0 < nc a)%N -> fftp \/ ~ zero_mat a -> multiplier_exists a dB ->
  left_multiplier a dB (get a dB).
Proof.
move=> n0 Za; have [[pp Hp Hw Hru U] [Hq Hb Hx]] := Hs.
rewrite /multiplier_exists /get_lmultiplier dense_choice.
have Hch := char_Fp pp.
have Hrep (z : 'F_p) : (val z < p)%N /\ (val z)%:R = z.
  by split; [apply: leq_trans (ltn_ord z) _; rewrite (Fp_cast pp)|rewrite natr_Zp].
have T r : (exists f, r = AOk f /\ multiplies (@product_of _) a dB f) -> left_multiplier a dB (total r).
  case=> f [-> [Hf _]]; eexists; split; first by []; move=> b E /below_plen Hl; exact: product_Some (Hf b E Hl).
case: (boolP fftp) => Cf.
  move=> Hk; apply: T; apply: lmul_fftE => //; first by rewrite n0.
  by have := Hx Cf _ Hk; rewrite Cf.
have a0 : (0 < plen a)%N.
  by case: Za => [Z|Z]; [rewrite Z in Cf|rewrite lt0n; apply/eqP=> /zero_plen].
case: ifP => Cd Hd.
  have G : left_multiplier a dB (total (lmul_dense a dB)).
    apply: T; apply: lmul_denseE => //; exact: distinct_nat Hch Hd.
  by case: ifP.
have G3 : three_enough a dB -> left_multiplier a dB (Some (lmul_3p wbits spbits ru nbits maxroot x3 a dB)).
  by move=> H3; have [f [-> Hf]] := lmul_3pE n0 H3; exists f; split=> // b E /below_plen; apply: Hf.
case: (leqP nbits_p 25) Hd => Cn; first by rewrite orbT.
rewrite orbF; case: ifP => // _ [Hpt Hfu].
have Ecard : p = #|[finFieldType of 'F_p]| by rewrite card_Fp.
have [f [Ef [Hf _]]] := @lmul_geometricE [finFieldType of 'F_p] fuel MX KARX ul garb HK rnd feas fft a dB a0 Hpt Hfu.
exists f; split; first by rewrite [X in lmul_geometric _ _ _ _ _ X]Ecard.
by move=> b E /below_plen Hl; have [r [-> Hr]] := Hf b E Hl; exact: product_Some.
Qed.

(** A matrix of degree larger than dB is rejected: the program stops. *)
Theorem C75_degree_too_large a dB f : (p <= q 0)%N -> get a dB = Some (AOk f) ->
  forall b, nc a = nr b -> ~ entries_below dB.+1 b -> f b = Some AUB.
Proof.
move=> Hq0 Hget b E Hb0; have [[pp Hp Hw Hru U] [Hq _ _]] := Hs; have [pq _] := Hq 0%N isT.
have Hb : (dB.+1 < plen b)%N by rewrite ltnNge; apply/negP=> /below_plen.
move: Hget; rewrite /get_lmultiplier dense_choice.
have TT r : (forall g, r = AOk g -> g b = AUB) -> total r = Some (AOk f) -> f b = Some AUB.
  by rewrite /total; case: r => // g H [<-]; rewrite H.
have T3 : Some (lmul_3p wbits spbits ru nbits maxroot x3 a dB) = Some (AOk f) -> f b = Some AUB.
  rewrite /lmul_3p /lmul_3; case Enb: (nb_primes _ _ _ _ _ _ _) => [nb|] //.
  have [/andP[nb0 _] _] := nb_primesE (prime_gt1 pp) Enb.
  set muls := foldl _ _ _; case: ifP => // Hm [<-].
  have M0 : muls 0%N = fftm (from_field a) dB 0 by rewrite /muls (upd_loop (fun i => fftm (from_field a) dB i)) nb0.
  set b' := if (p < q 0)%N then from_field b else reduce_mod_p (q 0) (from_field b).
  have Hb' : (dB.+1 < plen (to_field (q 0) b'))%N.
    rewrite ltnNge; apply/negP=> /plenP H; apply: Hb0 => i j Hi Hj.
    have := H i j; have -> : nr (to_field (q 0) b') = nr b by rewrite /b'; case: ifP.
    have -> : nc (to_field (q 0) b') = nc b by rewrite /b'; case: ifP.
    move=> /(_ Hi Hj) Hsz; apply/leq_sizeP=> k Hk; have /leq_sizeP/(_ k Hk) := Hsz.
    rewrite to_field_coef => Z; apply: val_inj => /=.
    have V : (nth 0%N (zent b' i j) k %% q 0 = 0)%N by rewrite -(val_Fp_nat pq) Z.
    have V2 : (nth 0%N (zent b' i j) k %% q 0 = nth 0%N (zent (from_field b) i j) k %% q 0)%N.
      by rewrite /b'; case: ifP => // _; rewrite /= reduceE modn_mod.
    move: V; rewrite V2 from_field_coef modn_small //.
    by apply: leq_trans (ltn_ord _) _; rewrite (Fp_cast pp).
  have F0 : match muls 0%N with AUB => AUB | AOk f0 => f0 b' end = AUB.
    rewrite M0 /fft_mul; case Ef: (lmul_fft _ _ _ _ _ _ _ _ _ _ _) => [g|] //.
    suff -> : g (to_field (q 0) b') = AUB by [].
    move: Ef; rewrite /lmul_fft /lmul_direct /lmul_matmul; case: ifP => _; case: ifP => // _.
      by case=> <-; rewrite Hb'.
    by case: load_phase => [[R va]|] // [<-]; rewrite Hb'.
  rewrite /N_mm3_model.three_primes -/b' F0; case: ifP => // _.
  case: (nb) nb0 => // n _; rewrite -[iota 0 n.+1]/(0%N :: iota 1 n) [foldl _ _ _]/= -/b' F0.
  by elim: (iota 1 n) => //=.
have TD : total (lmul_dense a dB) = Some (AOk f) -> f b = Some AUB.
  apply: TT => g; rewrite /lmul_dense; case: ifP => // _; case: vandermonde => [[V vA] vB].
  by case: inv_mat => // iv [<-]; rewrite Hb.
case: ifP => Cf.
  apply: TT => g; rewrite /lmul_fft /lmul_direct /lmul_matmul; case: ifP => _; case: ifP => // _.
    by case=> <-; rewrite Hb.
  by case: load_phase => [[R va]|] // [<-]; rewrite Hb.
case: ifP => _; first by case: ifP.
case: ifP => // _; case: ifP => // _; rewrite /lmul_geometric.
case: get_geometric_points => // o; rewrite /=; case: prepare_degree => // o1 /=.
set st := foldl _ _ _; case: st => // -[va|] //= [<-].
by rewrite Hb.
Qed.

(** Without an FFT modulo p, matrices of degree at most 150 are evaluated at deg(a) + dB + 1 points: the constructor fails in smaller
    fields. It writes outside of an array when a is zero. *)
Theorem C75_small_field_refuted a dB : fftp = false -> (plen a <= 151)%N -> (p < plen a + dB)%N -> get a dB = Some AUB.
Proof.
move=> Cf Hd Hp; have [[pp _ _ _ _] _] := Hs; rewrite /get_lmultiplier dense_choice Cf Hd.
by rewrite (lmul_dense_few (char_Fp pp) Hp); case: ifP.
Qed.

Theorem C75_zero_refuted a dB : fftp = false -> zero_mat a -> get a dB = Some AUB.
Proof.
move=> Cf /zero_plen Z; rewrite /get_lmultiplier dense_choice Cf Z /=.
by rewrite /lmul_dense Z eqxx; case: ifP.
Qed.
End Get.

(** the hypotheses are met, for the points 0, 1, 2 modulo 3; with dB = 2 there are not enough points *)
Example C75_met : let q i := nth 2%N [:: 5; 13; 17]%N i in
  let a := Pmat 2 3 (fun i j => 'X + (i + j)%:R : {poly 'F_3}) in
  [/\ setting false 0 (fun _ _ => 0 : 'F_3) 6 5 (fun _ k => (2 ^ k)%N) q (fun _ => 5%N),
      forall l l' k : nat, (l <= l')%N -> (2 ^ k <= 2 ^ k)%N, (0 < nc a)%N, ~ zero_mat a &
      forall x, @multiplier_exists 3 false 0 2 q (fun _ => 2%N) x 0 [::] a 1] /\
  (3 < plen a + 2)%N.
Proof.
move=> q a; have [H1 _ _] := C71_met.
have E (n : nat) : (n%:R : {poly 'F_3}) = (n%:R)%:P by rewrite polyCMn.
have Sa i j : size (ent a i j) = 2%N by rewrite /= E size_XaddC.
have La : plen a = 2%N.
  apply/eqP; rewrite eqn_leq; apply/andP; split; first by apply/plenP=> i j _ _; rewrite Sa.
  by have := @plen_size _ a 0 0 isT isT; rewrite Sa.
split; last by rewrite La.
split=> //; last by move=> x; rewrite /multiplier_exists La.
by move/zero_plen; rewrite La.
Qed.

Print Assumptions C75_get_lmultiplier.
Print Assumptions C75_degree_too_large.
Print Assumptions C75_small_field_refuted.
Print Assumptions C75_zero_refuted.
