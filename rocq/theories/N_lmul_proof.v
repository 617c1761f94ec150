(** Proofs for N_lmul_model: the multipliers based on the FFT. Used by P_nlmul. *)
From mathcomp Require Import all_ssreflect all_fingroup all_algebra all_field zify.
From Verif Require Import A_base A_mul_model A_mul_proof N_shift_proof N_multi_model N_multi_proof N_pmat_model N_poly_model.
From Verif Require Import N_trs_proof N_util_model N_util_proof N_geo2_proof N_mfft_model N_eval_model N_eval_proof N_mmfft_model.
From Verif Require Import N_mmfft_proof P_ntrs P_neval N_mmfft_core P_nmmfft N_lmul_model.
Set Implicit Arguments.
Unset Strict Implicit.
Unset Printing Implicit Defensive.
Import GRing.Theory.
Local Open Scope ring_scope.

Section Fft.
Variable F : fieldType.
Local Notation P := {poly F}.
Local Notation arr := (nat -> F).
Implicit Types a b : pmat F.
Variables (wbits spbits : nat) (pr : nat) (rep : F -> nat) (nbits : nat).
Variables (fftp : bool) (maxroot : nat) (x : nat -> arr) (ru : nat -> nat -> nat).
Hypothesis Hru : round_up_ok ru.
Hypothesis Hmono : forall l l' k, (l <= l')%N -> (ru l k <= ru l' k)%N.

Lemma lm_ok lA dB : fft_available fftp maxroot x (lm_idx lA dB) -> lm_bad fftp maxroot ru lA dB = false.
Proof.
move=> [Hp Hk _ _]; have /andP[_ L2] := @Hru (lA + dB)%N (lm_idx lA dB) (@up_logP 2 _ isT).
by rewrite /lm_bad Hp ltnNge Hk ltnNge L2.
Qed.

Section Op.
Variables (a b : pmat F) (dB : nat).
Hypothesis E : nc a = nr b.
Hypothesis Hb : (plen b <= dB.+1)%N.
Let lA := plen a.
Let K := lm_idx lA dB.
Let full := lm_len ru lA dB.
Let la := act_len lA b.
Let len := ru la K.
Hypothesis Hf : fft_available fftp maxroot x K.

Lemma lm_setup : [/\ lm_bad fftp maxroot ru lA dB = false, act_bad ru (nc a) lA K full b = false, (la <= len <= full)%N & distinct len (x K)].
Proof.
have [Hp Hk Hd Hr] := Hf.
have Hla : (la <= lA + dB)%N by rewrite /la /act_len; move: Hb; move: (plen b) (lA); clear; lia.
have HK : (lA + dB <= 2 ^ K)%N by apply: up_logP.
have /andP[L1 L2] := @Hru (lA + dB)%N K HK.
have /andP[L3 L4] := @Hru la K (leq_trans Hla HK).
have L5 : (len <= full)%N by apply: Hmono.
split.
- exact: lm_ok.
- by rewrite /act_bad E ltnn /= -/la -/len ltnNge L5.
- by rewrite L3 L5.
- by move=> i j Hi Hj; apply: Hd; [apply: leq_trans Hi L4|apply: leq_trans Hj L4].
Qed.

Lemma entry i k (v : arr) : (i < nr a)%N -> (k < nc b)%N ->
  (forall r, (r < len)%N -> v r = (\sum_(l < nc a) ent a i l * ent b l k).[x K r]) ->
  from_trunc len (x K) v la = \sum_(l < nc a) ent a i l * ent b l k.
Proof.
move=> Hi Hk Hv; have [_ _ /andP[L1 _] D] := lm_setup; apply: from_truncE => //.
by rewrite L1 andbT /la /act_len prod_size // E.
Qed.

Lemma direct_colsE (vala : nat -> nat -> arr) (dot : (nat -> arr) -> (nat -> arr) -> arr) :
  (forall i j, (i < nr a)%N -> (j < nc a)%N -> vala i j = to_rep (x K) (ent a i j)) ->
  (forall (vb va : nat -> arr) r, dot vb va r = \sum_(j < nc a) vb j r * va j r) ->
  product_of a b (AOk (direct_cols x ru (nr a) (nc a) lA K vala dot b)).
Proof.
move=> HA Hdot; rewrite /direct_cols -/la -/len; set st := foldl _ _ _.
have G i k : (i < nr a)%N -> (k < nc b)%N -> st.2 i k = \sum_(l < nc a) ent a i l * ent b l k.
  move=> Hi Hk; rewrite /st (loop_hit (obs := fun st => st.2 i k) (hit := fun k' => k' == k) (v := \sum_(l < nc a) ent a i l * ent b l k)).
    by rewrite ifT //; apply/hasP; exists k; rewrite ?mem_iota.
  move=> k' [vb C] _ /=; set valb := foldl _ vb _.
  rewrite (loop_hit (obs := fun C : fmat P => C i k) (hit := fun i' => (i' == i) && (k' == k)) (v := \sum_(l < nc a) ent a i l * ent b l k)).
    have -> // : has (fun i' => (i' == i) && (k' == k)) (iota 0 (nr a)) = (k' == k).
    apply/hasP/idP=> [[i' _ /andP[]] //|->]; exists i; rewrite ?mem_iota ?eqxx //=.
  move=> i' C1; rewrite mem_iota => /= Hi'; rewrite upd2E [i == i']eq_sym [k == k']eq_sym; case: andP => // -[/eqP Ei /eqP Ek].
  rewrite Ei; apply: entry => // r Hr; rewrite Hdot horner_sum; apply: eq_bigr => j _.
  by rewrite hornerM HA // /valb Ek (upd_loop (fun j => to_rep (x K) (ent b j k))) ltn_ord mulrC.
case: st G => vb C /= G; eexists; split; first by []; by split.
Qed.

Lemma direct_valaE i j : (i < nr a)%N -> (j < nc a)%N -> direct_vala x K a i j = to_rep (x K) (ent a i j).
Proof. by move=> Hi Hj; rewrite /direct_vala (fill_loop (fun i j => to_rep (x K) (ent a i j))) Hi Hj. Qed.

Lemma lm_directE : (0 < nc a)%N || (nr a == 0)%N || (nc b == 0)%N ->
  product_of a b (lm_direct x ru (nr a) (nc a) lA K full (direct_vala x K a) b).
Proof.
move=> H; have [_ Eb _ _] := lm_setup; rewrite /lm_direct Eb /=.
have [n0|n0] := posnP (nc a).
  move: H; rewrite n0 /= => H; rewrite ifF; last by move: H; case: (nr a) (nc b) => [|m] [|p].
  rewrite -n0; rewrite /direct_cols; set st := foldl _ _ _.
  have Q : (nr a == 0)%N || (nc b == 0)%N by [].
  case: (st) => vb C; eexists; split; first by []; split=> // i j Hi Hj.
  by move: Q Hi Hj; case: (nr a) (nc b) => [|m] [|p].
rewrite ?(gtn_eqF n0) /=.
apply: direct_colsE => [i j Hi Hj|vb va r]; first exact: direct_valaE.
rewrite /dot_direct; have := n0; case: (nc a) => // n _; rewrite subSS subn0 big_ord_recl.
elim: n => [|n IH]; first by rewrite big_ord0 addr0.
by rewrite foldl_iotaR IH big_ord_recr /= add1n addrA.
Qed.

Lemma lm_llE : (spbits < wbits)%N -> (pr < 2 ^ spbits)%N -> pr \in [char F] ->
  (forall z, (rep z < pr)%N /\ (rep z)%:R = z) -> (0 < nc a)%N -> (0 < nc b)%N ->
  product_of a b (lm_ll wbits spbits pr rep x ru (nr a) (nc a) lA K full (direct_vala x K a) b).
Proof.
move=> Hw Hp Hc Hrep n0 p0; have [_ Eb _ _] := lm_setup; rewrite /lm_ll Eb -E !eqn0Ngt n0 p0 /=.
apply: direct_colsE => [i j Hi Hj|vb va r]; first exact: direct_valaE.
have pp := prime_gt1 (charf_prime Hc).
rewrite /dot_ll ll_dotE //; last 3 first.
- by rewrite pp.
- by move=> j; have [] := Hrep (vb j r).
- by move=> j; have [] := Hrep (va j r).
set S := (\sum_(j < nc a) rep (vb j r) * rep (va j r))%N.
have -> : ((S %% pr)%:R : F) = S%:R.
  by rewrite [in RHS](divn_eq S pr) natrD natrM (charf0 Hc) mulr0 add0r.
by rewrite /S natr_sum; apply: eq_bigr => j _; rewrite natrM !(Hrep _).2.
Qed.
End Op.

(** the object multiplies by the matrices of degree at most dB, and rejects the others *)
Definition multiplies (res : pmat F -> pmat F -> aoutcome (pmat F) -> Prop) a dB (f : pmat F -> aoutcome (pmat F)) : Prop :=
  (forall b, nc a = nr b -> (plen b <= dB.+1)%N -> res a b (f b)) /\
  (forall b, (dB.+1 < plen b)%N -> f b = AUB).

Hypothesis Hw : (spbits < wbits)%N.
Hypothesis Hp : (pr < 2 ^ spbits)%N.
Hypothesis Hc : pr \in [char F].
Hypothesis Hrep : forall z, (rep z < pr)%N /\ (rep z)%:R = z.

Lemma lmul_directE a dB : (0 < nc a)%N || (nr a == 0)%N -> fft_available fftp maxroot x (lm_idx (plen a) dB) ->
  exists f, lmul_direct wbits spbits pr rep nbits fftp maxroot x ru a dB = AOk f /\ multiplies (@product_of F) a dB f.
Proof.
move=> H Hf; rewrite /lmul_direct.
have B := lm_ok Hf.
rewrite B; eexists; split; first by []; split=> b; last by move=> C; rewrite C.
move=> E Hb; rewrite ltnNge Hb /=; set cube := (_ * nc b)%N; move: (_ %/ 2)%N => d.
have Hll : (64 <= cube)%N -> (0 < nc a)%N && (0 < nc b)%N.
  by rewrite /cube; case: (nc a) (nc b) => [|n] [|p]; rewrite ?muln0 ?mul0n.
case: ifP => Cd; first by apply: lm_directE => //; rewrite H.
have /andP[n0 p0] : (0 < nc a)%N && (0 < nc b)%N.
  apply: Hll; move: Cd; case: ifP => _; clear; move: cube => c; lia.
exact: lm_llE.
Qed.

Lemma lmul_matmulE a dB : fft_available fftp maxroot x (lm_idx (plen a) dB) ->
  exists f, lmul_matmul fftp maxroot x ru a dB = AOk f /\ multiplies (@product_of F) a dB f.
Proof.
move=> Hf; rewrite /lmul_matmul.
have B := lm_ok Hf.
rewrite B; set K := lm_idx _ _; set full := lm_len _ _ _.
have [R1 [RR1 [mA [-> _ _ HA]]]] := load_phaseE (wr := fun M r i k v => upd3 M r i k v) (obs := fun (M : nat -> fmat F) r i k => M r i k)
  (x K) (ent a) (isT : (0 < mblock_size)%N) (@obs_upd3 _ full (nr a) (nc a)) None (fun _ _ _ => 0) (@allocated0 F).
eexists; split; first by []; split=> b; last by move=> C; rewrite C.
move=> E Hb; have [_ Eb /andP[L1 L2] D] := lm_setup E Hb Hf; rewrite ltnNge Hb /= Eb.
set la := act_len _ _ in L1 L2 *; set len := ru _ _ in L1 L2 D *.
have [R2 [RR2 [mB [-> _ _ HB]]]] := load_phaseE (wr := fun M r i k v => upd M (r * (nc a * nc b) + i * nc b + k)%N v) (obs := fun (M : arr) r i k => M (r * (nc a * nc b) + i * nc b + k)%N)
  (x K) (ent b) (isT : (0 < line_size)%N) (@obs_flat _ len (nc a) (nc b)) None (fun _ => 0) (@allocated0 F).
pose obs i k r (st : fmat F * (nat -> fmat F) * (nat -> arr)) := st.2 (i * nc b + k)%N r.
set st0 := (X in foldl _ X _); set stp := (X in foldl X _ _).
have G i k r : (i < nr a)%N -> (k < nc b)%N -> (r < len)%N ->
    obs i k r (foldl stp st0 (iota 0 (blocks len line_size))) = (\sum_(l < nc a) ent a i l * ent b l k).[x K r].
  move=> Hi Hk Hr; set v := (RHS).
  rewrite (loop_hit (obs := obs i k r) (hit := fun blk => (r %/ line_size == blk)%N) (v := v)).
    have [K1 _] := @bnd_last line_size len r isT Hr.
    by rewrite ifT //; apply/hasP; exists (r %/ line_size)%N; rewrite ?mem_iota.
  move=> blk [[vb vc] C] _; rewrite /stp /obs.
  set st1 := foldl _ (vb, vc) _.
  have H : (r %/ line_size)%N = blk -> st1.2 (r %% line_size)%N i k = v.
    move=> Ek; rewrite /st1 (loop_hit (obs := fun st => st.2 (r %% line_size)%N i k) (hit := fun jj => jj == (r %% line_size)%N) (v := v)).
      have [_ K2] := @bnd_last line_size len r isT Hr; rewrite ifT //; apply/hasP.
      by exists (r %% line_size)%N; rewrite // mem_iota -Ek.
    move=> jj [vb1 vc1] _ /=; rewrite {1}/upd eq_sym; case: eqP => // ->.
    rewrite -Ek -divn_eq; apply: fmul_at => l Hl; rewrite ?fillE ?Hi ?Hk ?Hl /=; last exact: HB.
    by apply: HA => //; apply: leq_trans L2.
  move: H; case: st1 => [vb1 vc1] /= H; rewrite store_blockE //.
  by case: eqP.
move: G; case: (foldl stp st0 _) => [[vb vc] C]; rewrite /obs /= => G.
have := @unloadE F len (x K) (fun v => from_trunc len (x K) v la) a b (fun i k => \sum_(l < nc a) ent a i l * ent b l k)
  (fun i k v Hi Hk Hv => entry E Hb Hf Hi Hk Hv) C G.
by case=> c [-> [R3 R4 He]]; exists c.
Qed.

Lemma lmul_fftE a dB : (0 < nc a)%N || (nr a == 0)%N -> fft_available fftp maxroot x (lm_idx (plen a) dB) ->
  exists f, lmul_fft wbits spbits pr rep nbits fftp maxroot x ru a dB = AOk f /\ multiplies (@product_of F) a dB f.
Proof. by move=> H Hf; rewrite /lmul_fft; case: ifP => _; [apply: lmul_directE|apply: lmul_matmulE]. Qed.
End Fft.
