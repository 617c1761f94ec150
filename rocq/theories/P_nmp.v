(** Property C72: middle products of matrices of polynomials (ntl-extras): naive, by FFT, by a Vandermonde matrix. *)
From mathcomp Require Import all_ssreflect all_fingroup all_algebra all_field zify.
From Verif Require Import A_base A_mul_model A_mul_proof N_shift_proof N_multi_model N_multi_proof N_pmat_model N_poly_model.
From Verif Require Import N_trs_proof N_util_model N_util_proof N_geo2_proof N_mid_model N_mfft_model N_eval_model N_eval_proof N_mmfft_model.
From Verif Require Import N_series_proof N_mmfft_proof N_mmfft_core P_ntrs P_nmid P_neval P_nmmfft N_mp_model.
Set Implicit Arguments.
Unset Strict Implicit.
Unset Printing Implicit Defensive.
Import GRing.Theory.
Local Open Scope ring_scope.

Section C72.
Variable F : fieldType.
Local Notation P := {poly F}.
Local Notation arr := (nat -> F).
Implicit Types a b c : pmat F.

(** The middle product: the entries of trunc(trunc(a, dA + 1) c div x^dA, dB + 1) *)
Definition mid_entry a c (dA dB i j : nat) : P :=
  ((\sum_(k < nc a) (ent a i k %% 'X^dA.+1) * ent c k j) %/ 'X^dA) %% 'X^dB.+1.
Definition middle_of a c (dA dB : nat) (o : aoutcome (pmat F)) : Prop :=
  exists b, o = AOk b /\ is_pmat b (nr a) (nc c) (mid_entry a c dA dB).

Lemma pshr_coef (n i : nat) (p : P) : (pshr n p)`_i = p`_(n + i).
Proof. by rewrite coef_poly; case: ltnP => // C; rewrite nth_default //; move: (size _) C => z; lia. Qed.

Lemma mid_entryE a c dA dB i j : mid_entry a c dA dB i j =
  \poly_(t < dB.+1) (\sum_(k < nc a) ptrunc dA.+1 (ent a i k) * ent c k j)`_(dA + t).
Proof.
rewrite /mid_entry modp_Xn divp_Xn; apply/polyP=> t; rewrite !coef_poly; case: ifP => // _.
rewrite (eq_bigr _ (fun (k : 'I_(nc a)) _ => congr1 (fun p : P => p * ent c k j) (modp_Xn dA.+1 (ent a i k)))).
by case: ltnP => // C; rewrite nth_default //; move: (size _) C => z; lia.
Qed.

(** *** naive *)
Lemma mid_sum a c dA dB i j : \sum_(k < nc a) middle (ent a i k) (ent c k j) dA dB = mid_entry a c dA dB i j.
Proof.
rewrite mid_entryE; apply/polyP=> t; rewrite coef_sum coef_poly; case: ifP => Ht.
  by rewrite coef_sum; apply: eq_bigr => k _; rewrite middle_coef coef_poly Ht.
by apply: big1 => k _; rewrite middle_coef coef_poly Ht.
Qed.

Section Naive.
Variables (fuel MX KARX : nat) (ul : bool) (garb : nat -> nat -> nat -> arr).
Hypothesis HK : (1 < KARX)%N.

Theorem C72_naive a c dA dB : nc a = nr c -> (0 < nc a)%N -> (dA < fuel)%N -> (dB < fuel)%N ->
  exists o, middle_product_naive fuel MX KARX ul garb a c dA dB = Some o /\ middle_of a c dA dB o.
Proof.
move=> E n0 HA HB; rewrite /middle_product_naive -E eqxx (gtn_eqF n0) /=.
pose mid i j k := middle (ent a i k) (ent c k j) dA dB.
have Hm i j k : middle_product fuel MX KARX ul (garb i j k) (ent a i k) (ent c k j) dA dB = Some (mid i j k).
  exact: C58_middle_product_partial.
pose e i j := foldl (fun s k => s + mid i j k) (mid i j 0%N) (iota 1 (nc a - 1)).
have G i j (B : fmat P) l : exists B', foldl (fun st k => obind (fun B : fmat P => omap (fun buf => upd2 B i j (B i j + buf))
      (middle_product fuel MX KARX ul (garb i j k) (ent a i k) (ent c k j) dA dB)) st) (Some B) l = Some B' /\
    forall i' j', B' i' j' = if (i' == i) && (j' == j) then foldl (fun s k => s + mid i j k) (B i j) l else B i' j'.
  elim: l B => [|k l IH] B /=; first by exists B; split=> // i' j'; case: andP => // -[/eqP-> /eqP->].
  rewrite Hm /=; have [B' [-> HB']] := IH (upd2 B i j (B i j + mid i j k)).
  exists B'; split=> // i' j'; rewrite HB' !upd2E !eqxx /=; by case: ifP => // ->.
pose inner i (st : option (fmat P)) j := obind (fun B : fmat P => obind (fun b0 : P =>
          foldl (fun st k => obind (fun B : fmat P => omap (fun buf => upd2 B i j (B i j + buf))
             (middle_product fuel MX KARX ul (garb i j k) (ent a i k) (ent c k j) dA dB)) st)
            (Some (upd2 B i j b0)) (iota 1 (nc a - 1))) (middle_product fuel MX KARX ul (garb i j 0%N) (ent a i 0%N) (ent c 0%N j) dA dB)) st.
have H1 i (B : fmat P) w : exists B', foldl (inner i) (Some B) (iota 0 w) = Some B' /\
    forall i' j', B' i' j' = if (i' == i) && (j' < w)%N then e i j' else B i' j'.
  elim: w => [|w [B1 [IH1 IH2]]]; first by exists B; split=> // i' j'; rewrite ltn0 andbF.
  rewrite foldl_iotaR IH1 /inner add0n Hm /=; have [B' [-> HB']] := G i w (upd2 B1 i w (mid i w 0%N)) (iota 1 (nc a - 1)).
  exists B'; split=> // i' j'; rewrite HB' !upd2E !eqxx /= IH2; case: (i' =P i) => [->|//] /=.
  by rewrite [in RHS]ltnS [in RHS]leq_eqVlt; case: (j' =P w) => [->|N]; rewrite /= ?ltnn /e.
have [B [EB HB']] : exists B', foldl (fun st i => foldl (inner i) st (iota 0 (nc c))) (Some (fun _ _ => 0)) (iota 0 (nr a)) = Some B' /\
    forall i' j', B' i' j' = if (i' < nr a)%N && (j' < nc c)%N then e i' j' else 0.
  elim: (nr a) => [|m [B1 [IH1 IH2]]]; first by eexists.
  rewrite foldl_iotaR IH1 add0n; have [B' [-> HB']] := H1 m B1 (nc c); exists B'; split=> // i' j'; rewrite HB' IH2.
  by case: (i' =P m) => [->|N]; [rewrite ltnSn ltnn /=|have -> : (i' < m.+1)%N = (i' < m)%N by lia].
rewrite EB; eexists; split; first by []; eexists; split; first by []; split=> // i j Hi Hj /=.
rewrite HB' Hi Hj -mid_sum /e /=.
have := n0; case: (nc a) => // n _; rewrite subSS subn0 big_ord_recl -/(mid i j 0%N).
elim: n => [|n IH]; first by rewrite big_ord0 addr0.
by rewrite foldl_iotaR IH big_ord_recr /= add1n addrA.
Qed.

(** a without columns: a[i][0] does not exist *)
Theorem C72_naive_no_column a c dA dB : nc a = 0%N -> (0 < nr a)%N -> (0 < nc c)%N ->
  middle_product_naive fuel MX KARX ul garb a c dA dB = Some AUB.
Proof. by move=> E m0 p0; rewrite /middle_product_naive E m0 p0 !andbT eqxx orbT. Qed.
End Naive.

(** *** FFT *)
Lemma horner_cyc k (p : P) z : z ^+ (2 ^ k) = 1 -> (cyc k p).[z] = p.[z].
Proof.
move=> Hz; rewrite [in RHS](divp_eq p ('X^(2 ^ k) - 1)) hornerD hornerM !hornerE hornerXn Hz subrr mulr0 add0r.
by [].
Qed.

Section Fft.
Variables (wbits spbits pr : nat) (rep : F -> nat) (nbits : nat) (fftp : bool) (maxroot : nat) (x : nat -> arr).

Lemma run_mp_out a c dA dB i k (v : arr) : nc a = nr c -> entries_below dA.+1 a -> entries_below (dA + dB).+1 c ->
  fft_available fftp maxroot x (next_pow2 (dA + dB + 1)) -> (i < nr a)%N -> (k < nc c)%N ->
  (forall r, (r < mp_len dA dB)%N -> v r = (\sum_(l < nc a) ent a i l * ent c l k).[x (mp_idx dA dB) r]) ->
  from_range (mp_len dA dB) (x (mp_idx dA dB)) v dA (dA + dB) = mid_entry a c dA dB i k.
Proof.
move=> E Da Dc [Hf Hk Hd Hr] Hi Hk' Hv.
rewrite mid_entryE /from_range; set K := mp_idx dA dB.
have Hlen : (dA + dB + 1 <= 2 ^ K)%N by apply: up_logP.
set p := \sum_(l < nc a) ent a i l * ent c l k in Hv *.
rewrite (@interp_poly _ _ _ (cyc K p)); first last.
- by move=> r Hr'; rewrite Hv // horner_cyc //; apply: Hr.
- exact: size_cyc.
- by move=> r r' Hr1 Hr2; apply: Hd.
have -> : minn (dA + dB) (mp_len dA dB - 1) = (dA + dB)%N by rewrite /mp_len -/K; move: (2 ^ K)%N Hlen => z; lia.
rewrite /fromfft (_ : ((dA + dB).+1 - dA = dB.+1)%N); last by lia.
apply/polyP=> t; rewrite !coef_poly; case: ltnP => // Ht.
have Sp : (size p <= (dA.+1 + (dA + dB).+1).-1)%N.
  apply: (leq_trans (size_sum _ _ _)); apply/bigmax_leqP=> l _.
  by apply: size_mul_leN; [apply: Da|apply: Dc; rewrite // -E].
rewrite cyc_coef; [|by apply: leq_trans Sp _; lia|by lia].
rewrite [X in _ + X]nth_default ?addr0; last by apply: leq_trans Sp _; lia.
by rewrite /p; congr (nth _ (polyseq _) _); apply: eq_bigr => l _; rewrite ptrunc_id //; apply: Da.
Qed.

Lemma run_mpE (core : nat -> arr -> (arr -> P) -> pmat F -> pmat F -> aoutcome (pmat F)) a c dA dB :
  nc a = nr c -> entries_below dA.+1 a -> entries_below (dA + dB).+1 c -> fft_available fftp maxroot x (next_pow2 (dA + dB + 1)) ->
  (forall out, (forall i k (v : arr), (i < nr a)%N -> (k < nc c)%N ->
      (forall r, (r < mp_len dA dB)%N -> v r = (\sum_(l < nc a) ent a i l * ent c l k).[x (mp_idx dA dB) r]) ->
      out v = mid_entry a c dA dB i k) ->
   gives a c (mid_entry a c dA dB) (core (mp_len dA dB) (x (mp_idx dA dB)) out a c)) ->
  middle_of a c dA dB (run_mp fftp maxroot x core a c dA dB).
Proof.
move=> E Da Dc Hfft H; have [Hf Hk Hd Hr] := Hfft; rewrite /run_mp /mp_bad Hf ltnNge Hk E eqxx /=.
have [i k v Hi Hk' Hv|b [-> [? ? Hb]]] := H (fun v => from_range (mp_len dA dB) (x (mp_idx dA dB)) v dA (dA + dB)); last by exists b.
by apply: run_mp_out.
Qed.

Theorem C72_direct a c dA dB : nc a = nr c -> (0 < nc a)%N -> entries_below dA.+1 a -> entries_below (dA + dB).+1 c ->
  fft_available fftp maxroot x (next_pow2 (dA + dB + 1)) -> middle_of a c dA dB (mp_fft_direct fftp maxroot x a c dA dB).
Proof. by move=> E n0 Da Dc Hf; apply: run_mpE => // out H; apply: core_directE H _. Qed.

Theorem C72_direct_ll a c dA dB : (spbits < wbits)%N -> (pr < 2 ^ spbits)%N -> pr \in [char F] ->
  (forall z, (rep z < pr)%N /\ (rep z)%:R = z) ->
  nc a = nr c -> (0 < nr a)%N -> (0 < nc a)%N -> entries_below dA.+1 a -> entries_below (dA + dB).+1 c ->
  fft_available fftp maxroot x (next_pow2 (dA + dB + 1)) ->
  middle_of a c dA dB (mp_fft_ll wbits spbits pr rep fftp maxroot x a c dA dB).
Proof. by move=> Hw Hp Hc Hrep E m0 n0 Da Dc Hf; apply: run_mpE => // out H; apply: (core_llE H). Qed.

Lemma flat_loadE (y : arr) len s t (e : fmat P) r i k : (r < len)%N -> (i < s)%N -> (k < t)%N ->
  foldl (fun M i => foldl (fun M k => let R := to_rep y (e i k) in
      foldl (fun M r => upd M (r * (s * t) + i * t + k)%N (R r)) M (iota 0 len)) M (iota 0 t)) (fun _ => 0 : F) (iota 0 s)
    (r * (s * t) + i * t + k)%N = (e i k).[y r].
Proof.
move=> Hr Hi Hk; set v := (RHS); set ix := (_ + k)%N.
rewrite (loop_hit (obs := fun M : arr => M ix) (hit := fun i' => i' == i) (v := v)).
  by rewrite ifT //; apply/hasP; exists i; rewrite ?mem_iota.
move=> i' M1; rewrite mem_iota => /= Hi'.
rewrite (loop_hit (obs := fun M : arr => M ix) (hit := fun k' => (i' == i) && (k' == k)) (v := v)).
  have -> // : has (fun k' => (i' == i) && (k' == k)) (iota 0 t) = (i' == i).
  by apply/hasP/idP=> [[k' _ /andP[]] //|->]; exists k; rewrite ?mem_iota ?eqxx.
move=> k' M2; rewrite mem_iota => /= Hk'.
rewrite (loop_hit (obs := fun M : arr => M ix) (hit := fun r' => [&& i' == i, k' == k & r' == r]) (v := v)).
  have -> // : has (fun r' => [&& i' == i, k' == k & r' == r]) (iota 0 len) = (i' == i) && (k' == k).
  by apply/hasP/andP=> [[r' _ /and3P[]] //|[-> ->]]; exists r; rewrite ?mem_iota ?eqxx.
move=> r' M3; rewrite mem_iota => /= Hr'.
rewrite /upd /ix eq_sym flat3 //; case: (r' =P r) => [->|]; last by rewrite !andbF.
by rewrite andbT /=; case: andP => // -[/eqP-> /eqP->].
Qed.

Lemma core_matmulE (len : nat) (y : arr) (out : arr -> P) a c (T : fmat P) :
  (forall i k (v : arr), (i < nr a)%N -> (k < nc c)%N ->
    (forall r, (r < len)%N -> v r = (\sum_(l < nc a) ent a i l * ent c l k).[y r]) -> out v = T i k) ->
  gives a c T (core_matmul len y out a c).
Proof.
move=> Hout; rewrite /core_matmul.
set mA := foldl _ _ (iota 0 (nr a)); set mC := foldl _ _ (iota 0 (nc a)).
pose obs i k r (st : fmat F * fmat F * (nat -> arr)) := st.2 (i * nc c + k)%N r.
set st0 := (X in foldl _ X _); set stp := (X in foldl X _ _).
have G i k r : (i < nr a)%N -> (k < nc c)%N -> (r < len)%N ->
    obs i k r (foldl stp st0 (iota 0 len)) = (\sum_(l < nc a) ent a i l * ent c l k).[y r].
  move=> Hi Hk Hr; set v := (RHS).
  rewrite (loop_hit (obs := obs i k r) (hit := fun j => j == r) (v := v)).
    by rewrite ifT //; apply/hasP; exists r; rewrite ?mem_iota.
  move=> j [[va vc] B]; rewrite mem_iota /obs /stp => /= Hj.
  set vb := fmul (nc a) _ _.
  rewrite (@flat_cols _ _ (fun (B : nat -> arr) col => B col r) (fun i k B => upd2 B (i * nc c + k) j (vb i k))
    (fun i k x => if j == r then vb i k else x)); last first.
    by move=> i' k' B' col _ _; rewrite upd2E [r == j]eq_sym; case: eqP => // _; case: eqP.
  rewrite col_lt //; have [-> ->] := divmod_col i Hk; case: (j =P r) => // Ej; rewrite /vb Ej.
  by apply: fmul_at => l Hl; rewrite fillE ?Hi ?Hl ?Hk /=; apply: flat_loadE.
move: G; case: (foldl stp st0 _) => [[va vc] B]; rewrite /obs /= => G.
exact: (@unloadE _ len y out a c T).
Qed.

Theorem C72_matmul a c dA dB : nc a = nr c -> entries_below dA.+1 a -> entries_below (dA + dB).+1 c ->
  fft_available fftp maxroot x (next_pow2 (dA + dB + 1)) -> middle_of a c dA dB (mp_fft_matmul fftp maxroot x a c dA dB).
Proof. by move=> E Da Dc Hf; apply: run_mpE => // out H; apply: core_matmulE H. Qed.

Theorem C72_matmul1 a c dA dB : nc a = nr c -> entries_below dA.+1 a -> entries_below (dA + dB).+1 c ->
  fft_available fftp maxroot x (next_pow2 (dA + dB + 1)) -> middle_of a c dA dB (mp_fft_matmul1 fftp maxroot x a c dA dB).
Proof. by move=> E Da Dc Hf; apply: run_mpE => // out H; apply: core_matmul1E H. Qed.

Theorem C72_matmul2 a c dA dB : nc a = nr c -> entries_below dA.+1 a -> entries_below (dA + dB).+1 c ->
  fft_available fftp maxroot x (next_pow2 (dA + dB + 1)) -> middle_of a c dA dB (mp_fft_matmul2 fftp maxroot x a c dA dB).
Proof. by move=> E Da Dc Hf; apply: run_mpE => // out H; apply: core_matmul2E H. Qed.

Theorem C72_matmul3 a c dA dB : nc a = nr c -> (0 < nr a)%N -> (0 < nc a)%N -> (0 < nc c)%N ->
  entries_below dA.+1 a -> entries_below (dA + dB).+1 c ->
  fft_available fftp maxroot x (next_pow2 (dA + dB + 1)) ->
  (nr a == 1%N) || (1 < nc a)%N || (nc c == 1%N) || (16 < nc c)%N ->
  middle_of a c dA dB (mp_fft_matmul3 fftp maxroot x a c dA dB).
Proof. by move=> E m0 n0 p0 Da Dc Hf Hc; apply: run_mpE => // out H; apply: core_matmul3E H _ _ _ _. Qed.

(** The last buffer is a null pointer when a has one column, and it is used for the second row, as for C69_matmul3_refuted *)
Theorem C72_matmul3_refuted a c dA dB : nc a = nr c -> entries_below dA.+1 a -> entries_below (dA + dB).+1 c ->
  fft_available fftp maxroot x (next_pow2 (dA + dB + 1)) -> nc a = 1%N -> (1 < nc c <= 16)%N -> (1 < nr a)%N ->
  mp_fft_matmul3 fftp maxroot x a c dA dB = AUB.
Proof.
move=> E Da Dc Hf n1 Hu Hm; rewrite /mp_fft_matmul3 /run_mp; case: ifP => // _.
apply: (@core_matmul3_null _ _ _ _ a c (mid_entry a c dA dB)) => //; last by rewrite /mp_len expn_gt0.
- by move=> i k v Hi Hk Hv; apply: run_mp_out.
- by lia.
- by rewrite n1.
- by lia.
Qed.

(** *** the Vandermonde matrix, transposed *)
Lemma col_rev (q : nat -> F) M (d D q' k z : nat) : (d <= D.+1)%N -> (k <= D)%N ->
  foldl (fun M k => upd2 M (D - k)%N z (q k)) M (iota 0 d) k q' = if (q' == z) && (D - k < d)%N then q (D - k)%N else M k q'.
Proof.
elim: d => [|d IH] Hd Hk; first by rewrite /= andbF.
rewrite foldl_iotaR add0n upd2E IH //; last by lia.
case: (q' =P z) => _ /=; last by rewrite andbF.
rewrite andbT; case: (k =P (D - d)%N) => [E|N].
  by rewrite (_ : (D - k = d)%N) ?ltnSn //; lia.
by congr (if _ then _ else _); lia.
Qed.

Lemma mp_denseE a c dA dB : nc a = nr c -> entries_below dA.+1 a -> entries_below (dA + dB).+1 c ->
  distinct (dA + dB + 1) (fun i => i%:R : F) -> middle_of a c dA dB (mp_evaluate_dense a c dA dB).
Proof.
move=> E Da Dc D; rewrite /mp_evaluate_dense -E eqxx.
have -> : (dA.+1 < plen a)%N = false by apply/negbTE; rewrite -leqNgt; apply/plenP.
have -> : (dA + dB + 1 < plen c)%N = false by apply/negbTE; rewrite -leqNgt addn1; apply/plenP.
rewrite /=; set nb := (_ + 1)%N in D *; have n0 : (0 < nb)%N by rewrite /nb addn1.
have HV := @vandermondeE F dA.+1 dB.+1 nb n0; have HI := inv_vdm D HV.
case: (vandermonde _ _ _ _) HV HI => [[V vA] vB] HV HI; rewrite HI.
set iv := finv nb _.
set tA := foldl _ _ (iota 0 (nr a)).
set tA' := (if (_ == _) then tA else _).
set tC := foldl _ tA' (iota 0 (nc a)).
set st := foldl _ _ (iota 0 nb).
have HtA k u l : (k <= dA)%N -> (u < nr a)%N -> (l < nc a)%N -> tA k (u * nc a + l)%N = (ent a u l)`_(dA - k).
  move=> Hk Hu Hl; rewrite /tA (@flat_cols _ _ (fun M : fmat F => M k)
    (fun i j M => foldl (fun M k => upd2 M (dA - k) (i * nc a + j) (ent a i j)`_k) M (iota 0 (size (ent a i j))))
    (fun i j x => if (dA - k < size (ent a i j))%N then (ent a i j)`_(dA - k) else x)); last first.
    move=> i j M col Hi Hj; rewrite (col_rev (fun k => (ent a i j)`_k)) //; last exact: Da.
    by case: eqP.
  rewrite col_lt //; have [-> ->] := divmod_col u Hl.
  by case: ltnP => // Hs; rewrite nth_default.
have HtC k l v : (k < nb)%N -> (l < nc a)%N -> (v < nc c)%N -> tC k (l * nc c + v)%N = (ent c l v)`_k.
  move=> Hk Hl Hv; rewrite /tC (@flat_cols _ _ (fun M : fmat F => M k)
    (fun i j M => foldl (fun M k => upd2 M k (i * nc c + j) 0) (foldl (fun M k => upd2 M k (i * nc c + j) (ent c i j)`_k) M (iota 0 (size (ent c i j))))
       (iota (size (ent c i j)) (nb - size (ent c i j))))
    (fun i j x => if (k < size (ent c i j))%N then (ent c i j)`_k else if (k < nb)%N then 0 else x)); last first.
    move=> i j M col _ _; rewrite !col_upd add0n /=; case: eqP => // _ /=.
    move: (size _) => sz; have [C|C] : (k < sz)%N \/ (sz <= k)%N by lia.
      by rewrite C ifF //; lia.
    by rewrite [in RHS]ltnNge C [(k < sz)%N]ltnNge C /=; congr (if _ then _ else _); lia.
  rewrite col_lt //; have [-> ->] := divmod_col l Hv.
  by rewrite Hk; case: (ltnP k (size _)) => // Hs; rewrite nth_default.
pose rev u l : P := \poly_(k < dA.+1) (ent a u l)`_(dA - k).
have Hst r u v : (r < nb)%N -> (u < nr a)%N -> (v < nc c)%N ->
    st.2 r (u * nc c + v)%N = \sum_(l < nc a) (rev u l).[r%:R] * (\sum_(k < nb) iv k r * (ent c l v)`_k).
  move=> Hr Hu Hv; rewrite /st points_loop //; apply: eq_bigr => l _; congr (_ * _).
    apply: (fmul_vdm (x := fun i => i%:R)); last exact: size_poly.
      by move=> k Hk; have [|_ /(_ Hk)] := HV r k Hr; first (rewrite /nb; lia).
    by move=> k Hk; rewrite HtA // coef_poly Hk.
  by rewrite /fmul; apply: eq_bigr => k _; rewrite HtC.
case: st Hst => [[Ap Bp] C] /= Hst.
eexists; split; first by []; split=> // u v Hu Hv /=; rewrite winE // !add0n Hu Hv /=.
rewrite mid_entryE; apply/polyP=> i; rewrite !coef_poly; case: ltnP => // Hi.
rewrite /fmul coef_sum.
transitivity (\sum_(l < nc a) \sum_(k < nb) (ent c l v)`_k * \sum_(r < nb) iv k r * ((r%:R) ^+ i * (rev u l).[r%:R])).
  rewrite (eq_bigr (fun r : 'I_nb => \sum_(l < nc a) \sum_(k < nb) (ent c l v)`_k * (iv k r * ((r%:R) ^+ i * (rev u l).[r%:R])))); last first.
    move=> r _; have Hin : (i < nb)%N by rewrite /nb; lia.
    have [_ _ /(_ Hi) /= ->] := HV r i (ltn_ord r) Hin.
    rewrite Hst // mulr_sumr; apply: eq_bigr => l _; rewrite !mulr_sumr; apply: eq_bigr => k _.
    by rewrite mulrA [LHS]mulrC [LHS]mulrAC [LHS]mulrC.
  rewrite exchange_big; apply: eq_bigr => l _; rewrite exchange_big; apply: eq_bigr => k _; by rewrite mulr_sumr.
apply: eq_bigr => l _.
rewrite coefMr (big_ord_widen nb (fun k => (ptrunc dA.+1 (ent a u l))`_(dA + i - k) * (ent c l v)`_k)); last by rewrite /nb; lia.
rewrite [in RHS]big_mkcond; apply: eq_bigr => k _.
rewrite (@interpP _ nb (fun r => r%:R) ('X^i * rev u l) (fun r => r%:R ^+ i * (rev u l).[r%:R])) //; first last.
- by move=> r Hr; rewrite hornerM hornerXn.
- by apply: (leq_trans (size_mul_leq _ _)); rewrite size_polyXn /= /nb; have := size_poly dA.+1 (fun k => (ent a u l)`_(dA - k)); rewrite -/(rev u l); move: (size _) => z; lia.
rewrite coefXnM coef_poly ptrunc_coef.
case: (ltnP k i) => C1.
  by rewrite mulr0; case: ifP => // C2; rewrite ifF ?mul0r //; lia.
case: (ltnP (k - i) dA.+1) => C2; last by rewrite mulr0 ifF //; lia.
by rewrite ifT ?ifT; [rewrite mulrC; congr (_`_ _ * _); lia|lia|lia].
Qed.

Theorem C72_dense (modn : nat) a c dA dB : modn \in [char F] -> nc a = nr c ->
  entries_below dA.+1 a -> entries_below (dA + dB).+1 c -> (dA + dB < modn)%N ->
  middle_of a c dA dB (mp_evaluate_dense a c dA dB).
Proof. by move=> Hc E Da Dc Hm; apply: mp_denseE => //; apply: distinct_nat Hc _; rewrite addn1. Qed.

(** too few elements in the field: the matrix is not invertible *)
Theorem C72_dense_points (modn : nat) a c dA dB : modn \in [char F] -> (modn < dA + dB + 1)%N -> mp_evaluate_dense a c dA dB = AUB.
Proof.
move=> Hc Hm; rewrite /mp_evaluate_dense; case: ifP => // _.
set nb := (_ + 1)%N in Hm *; have n0 : (0 < nb)%N by lia.
have HV := @vandermondeE F dA.+1 dB.+1 nb n0.
case: (vandermonde _ _ _ _) HV => [[V vA] vB] HV; rewrite /inv_mat ifF //.
apply/negbTE; rewrite -row_free_unit; apply/negP=> /row_freeP[W HW].
have p0 := prime_gt0 (charf_prime Hc).
have Er (j : 'I_nb) : V modn j = V 0%N j.
  have [/= -> _ _] := HV modn j Hm (ltn_ord j); have [/= -> _ _] := HV 0%N j n0 (ltn_ord j).
  by congr (_ ^+ _); apply/eqP; rewrite charf0.
have : row (Ordinal Hm) (mx_of nb nb V *m W) = row (Ordinal n0) (mx_of nb nb V *m W).
  by rewrite !row_mul; congr (_ *m _); apply/rowP=> j; rewrite !mxE Er.
rewrite HW => /rowP/(_ (Ordinal n0)); rewrite !mxE -!val_eqE /=.
have -> : (modn == 0)%N = false by lia.
by move/eqP; rewrite eq_sym oner_eq0.
Qed.

(** operands of a larger degree: an index out of range *)
Theorem C72_dense_degree a c dA dB : ~ entries_below dA.+1 a \/ ~ entries_below (dA + dB).+1 c ->
  mp_evaluate_dense a c dA dB = AUB.
Proof.
move=> H; rewrite /mp_evaluate_dense ifT //; apply/orP; case: H => H.
  by left; apply/orP; right; rewrite ltnNge; apply/negP=> /plenP.
by right; rewrite ltnNge addn1; apply/negP=> /plenP.
Qed.

(** *** the choice of the algorithm *)
Theorem C72_evaluate_fft a c dA dB : nc a = nr c -> (0 < nc a)%N -> entries_below dA.+1 a -> entries_below (dA + dB).+1 c ->
  fft_available fftp maxroot x (next_pow2 (dA + dB + 1)) -> middle_of a c dA dB (mp_evaluate_fft nbits fftp maxroot x a c dA dB).
Proof.
move=> E n0 Da Dc Hf; rewrite /mp_evaluate_fft.
by case: (nr a * nc a * nc c < _)%N; [apply: C72_direct|apply: C72_matmul].
Qed.

Theorem C72_evaluate_fft_new a c dA dB : (spbits < wbits)%N -> (pr < 2 ^ spbits)%N -> pr \in [char F] ->
  (forall z, (rep z < pr)%N /\ (rep z)%:R = z) ->
  nc a = nr c -> (0 < nr a)%N -> (0 < nc a)%N -> (0 < nc c)%N -> entries_below dA.+1 a -> entries_below (dA + dB).+1 c ->
  fft_available fftp maxroot x (next_pow2 (dA + dB + 1)) ->
  (nbits < 25)%N || (nr a == 1%N) || (1 < nc a)%N || (nc c == 1%N) || (16 < nc c)%N ->
  middle_of a c dA dB (mp_evaluate_fft_new wbits spbits pr rep nbits fftp maxroot x a c dA dB).
Proof.
move=> Hw Hp Hc Hrep E m0 n0 p0 Da Dc Hf H3; have Hpr := enough_points Hc Hrep Hf.
have L1 : (dA + dB + 1 <= 2 ^ next_pow2 (dA + dB + 1))%N := @up_logP 2 _ isT.
have Hd : middle_of a c dA dB (mp_evaluate_dense a c dA dB).
  by apply: (C72_dense Hc) => //; rewrite -addn1; apply: leq_trans L1 (ltnW Hpr).
rewrite /mp_evaluate_fft_new; set d := (_ %/ 2)%N; move: H3; case: (ltnP nbits 25) => Hb H3; last first.
  case: ifP => _; first exact: C72_direct.
  case: ifP => _; first exact: C72_direct_ll.
  by case: ifP => _; [apply: C72_matmul1|apply: C72_matmul3].
case: ifP => _; first exact: C72_direct.
case: ifP => _; first exact: C72_direct_ll.
case: ifP => // _.
case: ifP => _; first by case: ifP => // _; apply: C72_matmul2.
by case: ifP => // _; apply: C72_matmul1.
Qed.

Theorem C72_evaluate_fft_new_refuted a c dA dB : nc a = nr c -> entries_below dA.+1 a -> entries_below (dA + dB).+1 c ->
  fft_available fftp maxroot x (next_pow2 (dA + dB + 1)) ->
  nc a = 1%N -> (1 < nc c <= 16)%N -> (128 * 128 * 128 <= nr a)%N -> (dA + dB < 66)%N -> (25 <= nbits)%N ->
  mp_evaluate_fft_new wbits spbits pr rep nbits fftp maxroot x a c dA dB = AUB.
Proof.
move=> E Da Dc Hf n1 Hu Hm Hd Hn.
rewrite /mp_evaluate_fft_new n1 muln1 ltnNge Hn /=.
have Hcube : (128 * 128 * 128 <= nr a * nc c)%N.
  by apply: (leq_trans Hm); apply: leq_pmulr; case/andP: Hu => /ltnW.
have Hd2 : ((dA + dB) %/ 2 <= 32)%N by move: Hd; clear; lia.
move: ((_ + dB) %/ 2)%N Hd2 => d Hd2.
move: (nr a * nc c)%N Hcube => cube Hcube.
have -> : ((cube < 4 * 4 * 4)%N || ((cube == 4 * 4 * 4)%N && (90 <= d)%N) || ((cube <= 8 * 8 * 8)%N && (65 <= d)%N)) = false.
  by move: Hcube; clear; lia.
have -> : ((cube < 20 * 20 * 20)%N || ((cube < 25 * 25 * 25)%N && (1300 <= d)%N)) = false.
  by move: Hcube; clear; lia.
have -> : [|| (cube < 25 * 25 * 25)%N, (512 < d)%N, (cube < 48 * 48 * 48)%N && (32 < d)%N
              | (cube < 128 * 128 * 128)%N && (256 < d)%N] = false by move: Hcube Hd2; clear; lia.
apply: C72_matmul3_refuted => //; move: Hm; clear; move: (nr a); lia.
Qed.
End Fft.
End C72.

Example C72_met : let x (k i : nat) : 'F_17 := 4%:R ^+ i in
  let a := Pmat 2 3 (fun i j => 'X + (i + j)%:R : {poly 'F_17}) in let c := Pmat 3 2 (fun i j => 'X^2 - (i * j)%:R : {poly 'F_17}) in
  [/\ nc a = nr c, entries_below 2 a, entries_below 3 c, ~ zero_mat a &
   [/\ fft_available true 4 x (next_pow2 (1 + 1 + 1)), (17 < 2 ^ 60)%N, 17%N \in [char 'F_17],
       (forall z : 'F_17, (val z < 17)%N /\ (val z)%:R = z)
     & (nr a == 1%N) || (1 < nc a)%N || (nc c == 1%N) || (16 < nc c)%N]].
Proof.
move=> x a c.
have E (n : nat) : (n%:R : {poly 'F_17}) = (n%:R)%:P by rewrite polyCMn.
have Sa i j : size (ent a i j) = 2%N by rewrite /= E size_XaddC.
have Sc i j : (size (ent c i j) <= 3)%N.
  rewrite /= E; apply: (leq_trans (size_add _ _)); rewrite size_polyXn size_opp geq_max leqnn /=.
  by apply: (leq_trans (size_polyC_leq1 _)).
have Na : ~ zero_mat a by move=> /(_ 0%N 0%N isT isT) Z; have := Sa 0%N 0%N; rewrite Z size_poly0.
split=> //; first by move=> i j _ _; rewrite Sa.
split=> //.
- split=> //.
  + have V (i : nat) : val (x 2%N i) = (4 ^ i %% 17)%N by rewrite /x -natrX; exact: val_Fp_nat.
    by move=> i j Hi Hj /(congr1 val); rewrite !V; move: i j Hi Hj => [|[|[|[|i]]]] [|[|[|[|j]]]].
  + move=> i _; rewrite /x exprAC.
    have -> : (4%:R : 'F_17) ^+ (2 ^ next_pow2 (1 + 1 + 1)) = 1 by apply/val_inj; rewrite -natrX; apply: etrans (val_Fp_nat _ _) _.
    by rewrite expr1n.
- by move=> z; split; [exact: (ltn_ord z)|rewrite natr_Zp].
Qed.

Print Assumptions C72_naive.
Print Assumptions C72_naive_no_column.
Print Assumptions C72_direct.
Print Assumptions C72_direct_ll.
Print Assumptions C72_matmul.
Print Assumptions C72_matmul1.
Print Assumptions C72_matmul2.
Print Assumptions C72_matmul3.
Print Assumptions C72_matmul3_refuted.
Print Assumptions C72_dense.
Print Assumptions C72_dense_points.
Print Assumptions C72_dense_degree.
Print Assumptions C72_evaluate_fft.
Print Assumptions C72_evaluate_fft_new.
Print Assumptions C72_evaluate_fft_new_refuted.
