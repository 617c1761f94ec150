(** Property C74: the inverse of a matrix of polynomials modulo a power of the variable (ntl-extras). *)
From Coq Require Import ZArith.
From mathcomp Require Import all_ssreflect all_fingroup all_algebra all_field zify.
From Verif Require Import A_base A_mul_model A_mul_proof N_shift_proof N_multi_model N_multi_proof N_pmat_model N_trs_proof N_util_model N_util_proof.
From Verif Require Import N_poly_model N_series_proof N_geo_model N_geo_proof N_mfft_model N_eval_model N_mp_model P_ntrs P_nutil P_ngeo P_nord P_neval P_nmmfft P_nmp.
From Verif Require Import N_inv_model N_inv_proof.
Set Implicit Arguments.
Unset Strict Implicit.
Unset Printing Implicit Defensive.
Import GRing.Theory.
Local Open Scope ring_scope.

Section C74.
Variable F : fieldType.
Local Notation P := {poly F}.
Local Notation arr := (nat -> F).
Implicit Types (x : raw F) (a b c : pmat F).

(** a is a square matrix, with at least one row, and a(0) is invertible *)
Definition invertible_at_0 a : Prop :=
  [/\ (0 < nr a)%N, nr a = nc a & (\matrix_(i < nr a, j < nr a) (ent a i j)`_0 : 'M[F]_(nr a)) \in unitmx].
(** b is the inverse of a modulo X^m *)
Definition truncated_inverse a b (m : nat) : Prop :=
  [/\ nr b = nr a, nc b = nr a, entries_below m b &
   forall i j l, (i < nr a)%N -> (j < nr a)%N -> (l < m)%N ->
    (\sum_(u < nr a) ent a i u * ent b u j)`_l = ((i == j) && (l == 0%N))%:R /\
    (\sum_(u < nr a) ent b i u * ent a u j)`_l = ((i == j) && (l == 0%N))%:R].
(** the memory of the entries of x, when it is given s columns, holds nothing but zeros: it is a new matrix, or its
    number of columns changes, or its entries have never held anything else *)
Definition clean x (s : nat) : Prop := rc x <> s \/ forall i j k, cells x i j k = 0.

Lemma inverse_truncated a b m : (0 < m)%N -> nr b = nr a -> nc b = nr a -> entries_below m b ->
  inverse_mod (nr a) m (ent b) (ent a) -> truncated_inverse a b m.
Proof.
move=> m0 R1 R2 S H; split=> // i j l Hi Hj Hl; split; last exact: H.
exact: (inverse_mod_sym m0 H).
Qed.

(** *** the naive algorithm *)
Lemma plain_ok x a m : invertible_at_0 a -> (0 < m)%N -> exists x', plain_inv_trunc x a m = AOk x' /\
  [/\ rr x' = nr a, rc x' = nr a, entries_below m (value x'), inverse_mod (nr a) m (ent (value x')) (ent a) &
   clean x (nr a) \/ (1 < m)%N /\ (1 < plen a)%N -> holds (nr a) m x'].
Proof.
case=> s0 E U m0; rewrite /plain_inv_trunc.
have pa : (0 < plen a)%N.
  rewrite lt0n; apply/eqP=> /zero_plen Z; move: U; rewrite (_ : \matrix_(i, j) _ = 0).
    by case: (nr a) s0 => // s _; rewrite unitmxE det0 unitr0.
  by apply/matrixP=> i j; rewrite !mxE Z ?coef0 // -E.
rewrite (gtn_eqF pa) (gtn_eqF m0) E eqxx /= -E prednK //.
set ac := foldl _ _ (iota 0 (minn (plen a) m)).
have Hac k i j : (k < minn (plen a) m)%N -> (i < nr a)%N -> (j < nr a)%N -> ac k i j = (ent a i j)`_k.
  move=> Hk Hi Hj; rewrite /ac.
  have := @cube_loop F (fun k i j => (ent a i j)`_k) (fun _ _ _ => 0) (minn (plen a) m) (nr a) (nc a) k i j.
  by rewrite Hk Hi -E Hj.
have M0 : mx_of (nr a) (nr a) (ac 0%N) = \matrix_(i < nr a, j < nr a) (ent a i j)`_0.
  by apply/matrixP=> i j; rewrite !mxE Hac // leq_min pa.
rewrite /inv_mat M0 U; set x0 := finv _ _.
have X0 : mx_of (nr a) (nr a) x0 *m mx_of (nr a) (nr a) (ac 0%N) = 1%:M.
  have -> : mx_of (nr a) (nr a) x0 = invmx (mx_of (nr a) (nr a) (ac 0%N)).
    by apply/matrixP=> i j; rewrite mx_ofE /x0 finvE.
  by rewrite mulVmx // M0.
have Sa i j : (i < nr a)%N -> (j < nr a)%N -> (size (ent a i j) <= plen a)%N by move=> Hi Hj; apply: plen_size; rewrite -?E.
(* a constant matrix *)
have K (c : fmat F) : inverse_mod (nr a) m (fun i j => (c i j)%:P) (ent a) ->
    exists x', AOk (raw_const x (nr a) c) = AOk x' /\
    [/\ rr x' = nr a, rc x' = nr a, entries_below m (value x'), inverse_mod (nr a) m (ent (value x')) (ent a) &
     clean x (nr a) -> holds (nr a) m x'].
  move=> Hc; have [R1 R2 R3 R4] := raw_constE x (nr a) c; eexists; split; first by []; split=> //.
  - by move=> i j; rewrite /= R1 R2 => Hi Hj; have /= -> := R3 i j Hi Hj; rewrite (leq_trans (size_polyC_leq1 _)).
  - by apply: inverse_mod_eq Hc => // i j l Hi Hj _; rewrite R3.
  - move=> Hcl; split=> // i j Hi Hj; rewrite R3 //; split; first by rewrite (leq_trans (size_polyC_leq1 _)).
    have Z k : cells (raw_dims x (nr a) (nr a)) i j k = 0.
      by rewrite /raw_dims; case: eqP => // N; case: Hcl => H; [case: H; rewrite N | apply: H].
    move=> l Hl; rewrite R4 // coefC; case: (c i j =P 0) => [->|_]; first by rewrite Z if_same.
    by rewrite /upd; case: ifP => // _; rewrite Z.
case: eqP => D0.
  have [|x' [Ex [Q1 Q2 Q3 Q4 Q5]]] := K x0.
    move=> i j l Hi Hj Hl; have /matrixP/(_ (Ordinal Hi) (Ordinal Hj)) := X0; rewrite !mxE => X1.
    have P1 : plen a = 1%N by move: pa D0; clear; case: (plen a) => [|[|]].
    rewrite coef_sum (eq_bigr (fun u : 'I_(nr a) => (x0 i u * (ent a u j)`_0) *+ (l == 0%N))).
      rewrite sumrMnl; case: (l =P 0%N) => [_|N]; last by rewrite andbF mulr0n.
      rewrite mulr1n andbT -[RHS](_ : (Ordinal Hi == Ordinal Hj)%:R = _) //; rewrite -[RHS]X1.
      by apply: eq_bigr => u _; rewrite !mxE Hac //= leq_min pa.
    move=> u _; rewrite mul_polyC coefZ; case: (l =P 0%N) => [->//|N].
    by rewrite [(ent a u j)`_l]nth_default ?mulr0 // (leq_trans (Sa _ _ _ _)) // P1; move: N; clear; lia.
  exists x'; split=> //; split=> //; case=> // -[_]; rewrite -(prednK pa) D0 //.
set d := (plen a).-1; have d0 : (0 < d)%N by rewrite lt0n; apply/eqP.
have Ed : d.+1 = plen a by rewrite prednK.
rewrite -/(plain_run (nr a) d ac x0 (m - 1)).
have HI : inverse_mod (nr a) m (fun i j => \poly_(k < m) plain_run (nr a) d ac x0 (m - 1) k i j) (ent a).
  apply: plain_inverse => //; rewrite ?Ed //.
rewrite /raw_vec; case: eqP => M1; last first.
  have := @raw_vecE _ x (nr a) m (plain_run (nr a) d ac x0 (m - 1)) (introN eqP M1); rewrite /raw_vec (introF eqP M1).
  set x' := each _ _ _ _ => -[H1 H2]; exists x'; split=> //; have [Q1 Q2 Q3] := H1; split=> //.
    by move=> i j; rewrite /= Q1 Q2 => Hi Hj; have [] := Q3 i j Hi Hj.
  by apply: inverse_mod_eq HI => // i j l Hi Hj _; have /= -> := H2 i j Hi Hj.
have [|x' [Ex [Q1 Q2 Q3 Q4 Q5]]] := K (plain_run (nr a) d ac x0 (m - 1) 0%N).
  apply: inverse_mod_eq HI => // i j l Hi Hj; rewrite M1 ltnS leqn0 => /eqP->; by rewrite coef_poly coefC.
exists x'; split=> //; split=> //; case=> // -[]; by rewrite M1.
Qed.

Theorem C74_plain x a m : invertible_at_0 a -> (0 < m)%N ->
  exists x', plain_inv_trunc x a m = AOk x' /\ truncated_inverse a (value x') m.
Proof.
by move=> Hi m0; have [x' [-> [R1 R2 R3 R4 _]]] := plain_ok x Hi m0; exists x'; split=> //; apply: inverse_truncated.
Qed.
(** otherwise there is an error *)
Theorem C74_plain_rejects x a m : ~ invertible_at_0 a -> plain_inv_trunc x a m = AUB.
Proof.
move=> N; rewrite /plain_inv_trunc; case: posnP => [//|pa]; case: (posnP m) => [//|m0] /=; case: eqP => //= E.
rewrite prednK //; set ac := foldl _ _ _; rewrite /inv_mat ifF //; apply/negP=> U; apply: N.
have [D1 D2] : (0 < nr a)%N /\ (0 < nc a)%N.
  split; rewrite lt0n; apply/eqP=> Z; move: pa; suff /zero_plen -> : zero_mat a by [].
    by move=> i j; rewrite Z.
  by move=> i j _; rewrite Z.
split=> //; rewrite (_ : \matrix_(i, j) _ = mx_of (nr a) (nr a) (ac 0%N)) //; apply/matrixP=> i j; rewrite !mxE /ac.
have := @cube_loop F (fun k i j => (ent a i j)`_k) (fun _ _ _ => 0) (minn (plen a) m) (nr a) (nc a) 0%N i j.
by rewrite leq_min pa m0 !ltn_ord /= -E ltn_ord => ->.
Qed.

(** *** Newton iteration with FFTs *)
Section Fft.
Variables (fftp : bool) (maxroot : nat) (y : nat -> arr).

Lemma from_rangeE t (p : P) (v : arr) lo hi : fft_available fftp maxroot y t -> (hi < 2 ^ t)%N ->
  (forall r, (r < 2 ^ t)%N -> v r = p.[y t r]) ->
  (size (from_range (2 ^ t) (y t) v lo hi) <= hi.+1 - lo)%N /\
  forall l, (l < hi.+1 - lo)%N -> (from_range (2 ^ t) (y t) v lo hi)`_l = (cyc t p)`_(lo + l).
Proof.
move=> [_ _ Hd Hr] Hh Hv; rewrite /from_range (@interp_poly _ _ _ (cyc t p)); first last.
- by move=> r Hr'; rewrite Hv // horner_cyc //; apply: Hr.
- exact: size_cyc.
- by move=> r r' Hr1 Hr2; apply: Hd.
have -> : minn hi (2 ^ t - 1) = hi by move: (2 ^ t)%N Hh => z; lia.
by split=> [|l Hl]; rewrite /fromfft ?size_poly // coef_poly Hl.
Qed.

Lemma fft_stepE x a s k : fft_available fftp maxroot y (next_pow2 (2 * k)) -> (0 < k)%N ->
  (forall i j, (i < s)%N -> (j < s)%N -> (size (ent (value x) i j) <= k)%N) ->
  exists p, fft_step fftp maxroot y x a s k = AOk (raise_entries s k p x) /\
   (inverse_mod s k (ent (value x)) (ent a) -> inverse_mod s (2 * k) (fun i j => ent (value x) i j - p i j * 'X^k) (ent a)) /\
   forall i j, (i < s)%N -> (j < s)%N -> (size (p i j) <= k)%N.
Proof.
move=> Hf k0 Sx; have [Hff Hm _ _] := Hf; rewrite /fft_step Hff ltnNge Hm /=.
set t := next_pow2 (2 * k) in Hf *; set n := (2 ^ t)%N.
have Hn : (2 * k <= n)%N by apply: up_logP.
pose e := ent (value x); rewrite -/(e).
have V (g : fmat P) := @store_valsE F (fun p => Some (AOk (to_rep (y t) p))) (fun p => to_rep (y t) p) n s s g (fun i k _ _ => erefl _).
have [v1 [-> H1]] := V e.
have [v2 [-> H2]] := V (fun i j => ptrunc (2 * k) (ent a i j)).
set D := fun i ell => from_range _ _ (pointwise n s s s v1 v2 _) _ _.
have [v3 [-> H3]] := V D.
pose f1 i j : P := \sum_(u < s) e i u * ptrunc (2 * k) (ent a u j).
have HD i j : (i < s)%N -> (j < s)%N -> (size (D i j) <= k)%N /\ forall l, (l < k)%N -> (D i j)`_l = (\sum_(u < s) e i u * ent a u j)`_(k + l).
  move=> Hi Hj; have [||Q1 Q2] := @from_rangeE t (f1 i j) (pointwise n s s s v1 v2 (i * s + j)%N) k (2 * k - 1) Hf.
  - by have := Hn; rewrite -/n; move: (n) k0; clear; lia.
  - by move=> r Hr; rewrite pointwiseE // /f1 horner_sum; apply: eq_bigr => u _; rewrite H1 // H2 // hornerM.
  have E : ((2 * k - 1).+1 - k = k)%N by lia.
  rewrite E in Q1 Q2; split=> // l Hl; rewrite Q2 //.
  have S : (size (f1 i j) <= (k + 2 * k).-1)%N.
    apply: (leq_trans (size_sum _ _ _)); apply/bigmax_leqP=> u _; apply: size_mul_leN; first exact: Sx.
    exact: size_ptrunc.
  rewrite cyc_coef -/n; [|by apply: leq_trans S _; have := Hn; move: (n); clear; lia|by have := Hn; move: (n) Hl; clear; lia].
  rewrite [X in _ + X]nth_default ?addr0; last by apply: leq_trans S _; have := Hn; move: (n); clear; lia.
  rewrite /f1 !coef_sum; apply: eq_bigr => u _; rewrite !coefM; apply: eq_bigr => w _.
  by rewrite ptrunc_coef ifT //; move: (ltn_ord w) Hl; clear; lia.
set Y := fun i ell => from_range _ _ (pointwise n s s s v3 v1 _) _ _.
have HY i j : (i < s)%N -> (j < s)%N -> (size (Y i j) <= k)%N /\ forall l, (l < k)%N -> (Y i j)`_l = (\sum_(u < s) D i u * e u j)`_l.
  move=> Hi Hj; have [||Q1 Q2] := @from_rangeE t (\sum_(u < s) D i u * e u j) (pointwise n s s s v3 v1 (i * s + j)%N) 0 (k - 1) Hf.
  - by have := Hn; rewrite -/n; move: (n) k0; clear; lia.
  - by move=> r Hr; rewrite pointwiseE // horner_sum; apply: eq_bigr => u _; rewrite H1 // H3 // hornerM.
  have E : ((k - 1).+1 - 0 = k)%N by lia.
  rewrite E in Q1 Q2; split=> // l Hl; rewrite Q2 // add0n cyc_small //.
  apply: (leq_trans (size_sum _ _ _)); apply/bigmax_leqP=> u _.
  apply: (@leq_trans (k + k).-1); last by have := Hn; rewrite -/n; move: (n); clear; lia.
  by apply: size_mul_leN; [have [] := HD i u Hi (ltn_ord u)|apply: Sx].
exists Y; split=> //; split=> [Hi|i j Hi Hj]; last by have [] := HY i j Hi Hj.
apply: (@newton_entries F s k e (ent a) D Y k0 Hi).
- by move=> i j l Hi' Hj Hl; have [_ ->] := HD i j Hi' Hj.
- by move=> i j l Hi' Hj Hl; have [_ ->] := HY i j Hi' Hj.
Qed.

Lemma trunc_inverse x a k m : (0 < m)%N -> (m <= k)%N -> rr x = nr a -> rc x = nr a -> inverse_mod (nr a) k (ent (value x)) (ent a) ->
  truncated_inverse a (value (raw_trunc x m)) m.
Proof.
move=> m0 Hm R1 R2 Hi; have [T1 T2 T3] := raw_truncE m R1 R2; apply: inverse_truncated => //.
  by move=> i j; rewrite [nr _]T1 [nc _]T2 => Hi' Hj; have [-> _] := T3 i j Hi' Hj; apply: size_ptrunc.
apply: inverse_mod_eq (inverse_mod_le Hm Hi) => // i j l Hi' Hj Hl; have [-> _] := T3 i j Hi' Hj.
by rewrite ptrunc_coef Hl.
Qed.
Lemma final_trunc x a k m : (0 < m)%N -> (m <= k)%N -> holds (nr a) k x -> inverse_mod (nr a) k (ent (value x)) (ent a) ->
  truncated_inverse a (value (raw_trunc x m)) m.
Proof. by move=> m0 Hm [R1 R2 _]; apply: trunc_inverse. Qed.

Lemma fft_loopE a m : (0 < m)%N -> forall fuel x k, (0 < k)%N -> (m <= fuel + k)%N ->
  (forall j, (k * 2 ^ j < m)%N -> fft_available fftp maxroot y (next_pow2 (2 * (k * 2 ^ j)))) ->
  holds (nr a) k x -> inverse_mod (nr a) k (ent (value x)) (ent a) ->
  exists x', fft_loop fftp maxroot y fuel x a (nr a) k m = Some (AOk x') /\ truncated_inverse a (value x') m.
Proof.
move=> m0; elim=> [|fuel IH] x k k0 Hfu Hf Hh Hi.
  by rewrite /= ltnNge Hfu; eexists; split; [|apply: final_trunc Hh Hi].
rewrite /=; case: ltnP => C; last by eexists; split; [|apply: final_trunc Hh Hi].
have Hf0 : fft_available fftp maxroot y (next_pow2 (2 * k)) by have := Hf 0%N; rewrite expn0 muln1; apply.
have [R1 R2 R3] := Hh.
have [|p [-> [Hp Sp]]] := @fft_stepE x a (nr a) k Hf0 k0; first by move=> i j Hi' Hj; have [] := R3 i j Hi' Hj.
rewrite /=; have [Hh' He'] := raise_entriesE p Hh.
apply: IH => //; [by rewrite muln_gt0|by move: Hfu k0; clear; lia| |].
  move=> j; rewrite (_ : 2 * k * 2 ^ j = k * 2 ^ j.+1)%N; first exact: Hf.
  by rewrite expnS mulnA [(k * 2)%N]mulnC.
apply: inverse_mod_eq (Hp Hi) => // i j l Hi' Hj _; by rewrite He' // ptrunc_id // Sp.
Qed.

(** a has degree at least 1 and the threshold is at least 2, or the memory of x holds nothing, or there is no step *)
Theorem C74_newton_fft fuel (al : bool) x a m thresh (T := odflt 8%N thresh) : invertible_at_0 a -> (0 < m)%N -> (0 < T)%N -> (m <= fuel)%N ->
  [\/ al, clean x (nr a), (1 < T)%N /\ (1 < plen a)%N | (m <= T)%N] ->
  (forall j, (T * 2 ^ j < m)%N -> fft_available fftp maxroot y (next_pow2 (2 * (T * 2 ^ j)))) ->
  exists x', newton_inv_trunc_fft fftp maxroot y fuel al x a m thresh = Some (AOk x') /\ truncated_inverse a (value x') m.
Proof.
move=> Ha m0 T0 Hfu Hx Hf; rewrite /newton_inv_trunc_fft -/T /newton_fft_noalias.
set x0 := if al then _ else _; have [x1 [-> [R1 R2 R3 R4 R5]]] := plain_ok x0 Ha T0; rewrite /=.
have -> : raw_dims x1 (nr a) (nr a) = x1 by rewrite /raw_dims R2 eqxx -{1}R1 -R2; case: (x1).
case: (leqP m T) => C.
  have -> : fft_loop fftp maxroot y fuel x1 a (nr a) T m = Some (AOk (raw_trunc x1 m)) by case: (fuel) => [|f]; rewrite /= ltnNge C.
  eexists; split; first by []; exact: (trunc_inverse m0 C R1 R2 R4).
apply: fft_loopE => //; first by move: Hfu; clear; lia.
apply: R5; rewrite /x0; case: Hx => [Hal|Hx|Hx|Hx]; [left; rewrite Hal; right|left; case: (al); [right|]|right|move: Hx; rewrite leqNgt C] => //.
Qed.

(** raise_entries, whatever the memory holds *)
Lemma raise_any x s k (p : nat -> nat -> P) (x' := raise_entries s k p x) : rr x = s -> rc x = s ->
  [/\ rr x' = s, rc x' = s, forall i j, (i < s)%N -> (j < s)%N -> (size (ent (value x') i j) <= 2 * k)%N &
   forall i j l, (i < s)%N -> (j < s)%N -> (l < k)%N -> cells x' i j l = cells x i j l /\ (ent (value x') i j)`_l = cells x i j l].
Proof.
move=> R1 R2; rewrite {}/x' /raise_entries.
pose C i j (c : arr) := write_high k (p i j) c.
pose G i j (cl : arr * nat) := (C i j cl.1, norm_len (C i j cl.1) (2 * k)).
set g := (X in each _ _ X _).
have [|E1 E2 E3] := @eachE _ g G s s x; first by move=> i j z; split=> // i' j'; rewrite set_entry_look.
have [|||[H0 H1 H2] H3] := @holds_norm _ s (2 * k) (each s s g x) (fun i j => C i j (cells x i j)).
- by rewrite E1.
- by rewrite E2.
- by move=> i j Hi Hj; rewrite E3 Hi Hj.
have Cl i j l : (l < k)%N -> C i j (cells x i j) l = cells x i j l.
  by move=> Hl; rewrite /C /write_high upd_loop ifF //; move: Hl; clear; lia.
split=> // [i j Hi Hj|i j l Hi Hj Hl]; first by have [] := H2 i j Hi Hj.
have L2 : (l < 2 * k)%N by move: Hl; clear; lia.
by have [_ ->] := H2 i j Hi Hj => //; rewrite H3 // coef_poly L2 Cl.
Qed.

Lemma stale_loop a m i j l : (i < nr a)%N -> (j < nr a)%N -> (l < m)%N -> forall fuel x k, (l < k)%N -> (m <= fuel + k)%N ->
  (forall h, (k * 2 ^ h < m)%N -> fft_available fftp maxroot y (next_pow2 (2 * (k * 2 ^ h)))) ->
  rr x = nr a -> rc x = nr a -> (forall i j, (i < nr a)%N -> (j < nr a)%N -> (size (ent (value x) i j) <= k)%N) ->
  (k < m)%N \/ (ent (value x) i j)`_l = cells x i j l ->
  exists x', fft_loop fftp maxroot y fuel x a (nr a) k m = Some (AOk x') /\ (ent (value x') i j)`_l = cells x i j l.
Proof.
move=> Hi Hj Hlm; elim=> [|fuel IH] x k Hl Hfu Hf R1 R2 Sx Hc.
  rewrite /= ltnNge Hfu; eexists; split; first by [].
  have [_ _ T3] := raw_truncE m R1 R2; have /= [-> _] := T3 i j Hi Hj; rewrite ptrunc_coef Hlm.
  by case: Hc => //; rewrite ltnNge Hfu.
rewrite /=; case: ltnP => C; last first.
  eexists; split; first by []; have [_ _ T3] := raw_truncE m R1 R2; have /= [-> _] := T3 i j Hi Hj; rewrite ptrunc_coef Hlm.
  by case: Hc => //; rewrite ltnNge C.
have Hf0 : fft_available fftp maxroot y (next_pow2 (2 * k)) by have := Hf 0%N; rewrite expn0 muln1; apply.
have k0 : (0 < k)%N by apply: leq_ltn_trans Hl.
have [p [-> _]] := @fft_stepE x a (nr a) k Hf0 k0 Sx.
rewrite /=; have [Q1 Q2 Q3 Q4] := raise_any k p R1 R2; have [<- Q5] := Q4 i j l Hi Hj Hl.
apply: IH => //; [by move: Hl; clear; lia|by move: Hfu k0; clear; lia| |].
  move=> h; rewrite (_ : 2 * k * 2 ^ h = k * 2 ^ h.+1)%N; first exact: Hf.
  by rewrite expnS mulnA [(k * 2)%N]mulnC.
by right; rewrite Q5; have [-> _] := Q4 i j l Hi Hj Hl.
Qed.

(** the inverse of a constant matrix is constant *)
Lemma const_inverse a b m i j l : invertible_at_0 a -> plen a = 1%N -> truncated_inverse a b m -> (i < nr a)%N -> (j < nr a)%N ->
  (0 < l < m)%N -> (ent b i j)`_l = 0.
Proof.
move=> [s0 E U] Pa [_ _ _ H] Hi Hj /andP[l0 Hl].
pose A := (\matrix_(i < nr a, j < nr a) (ent a i j)`_0 : 'M[F]_(nr a)).
pose B := (\matrix_(i < nr a, j < nr a) (ent b i j)`_l : 'M[F]_(nr a)).
have AB : A *m B = 0.
  apply/matrixP=> i' j'; rewrite !mxE; have [] := H i' j' l (ltn_ord i') (ltn_ord j') Hl; rewrite (gtn_eqF l0) andbF => HH _; rewrite -[RHS]HH.
  rewrite coef_sum; apply: eq_bigr => u _; rewrite !mxE.
  have -> : ent a i' u = ((ent a i' u)`_0)%:P by apply: size1_polyC; rewrite -Pa; apply: plen_size; rewrite -?E.
  by rewrite mul_polyC coefZ coefC eqxx.
have /matrixP/(_ (Ordinal Hi) (Ordinal Hj)) : B = 0 by rewrite -[B]mul1mx -(mulVmx U) -mulmxA AB mulmx0.
by rewrite !mxE.
Qed.

(** When a is a constant matrix and the entries of x have held polynomials of degree at least 1, what they held is a part of
    the result, which is wrong. *)
Theorem C74_newton_fft_constant_refuted fuel x a m thresh i j l (T := odflt 8%N thresh) : invertible_at_0 a -> plen a = 1%N ->
  rc x = nr a -> (i < nr a)%N -> (j < nr a)%N -> (0 < l < T)%N -> cells x i j l != 0 -> (T < m <= fuel)%N ->
  (forall h, (T * 2 ^ h < m)%N -> fft_available fftp maxroot y (next_pow2 (2 * (T * 2 ^ h)))) ->
  exists x', newton_inv_trunc_fft fftp maxroot y fuel false x a m thresh = Some (AOk x') /\ (ent (value x') i j)`_l = cells x i j l /\
    ~ truncated_inverse a (value x') m.
Proof.
move=> Ha Pa Hx Hi Hj /andP[l0 Hl] Hc /andP[HT Hfu] Hf; rewrite /newton_inv_trunc_fft -/T /newton_fft_noalias.
have T0 : (0 < T)%N by apply: leq_trans Hl.
have [x1 [E1 [R1 R2 R3 R4 _]]] := plain_ok x Ha T0; rewrite E1 /=.
have -> : raw_dims x1 (nr a) (nr a) = x1 by rewrite /raw_dims R2 eqxx -{1}R1 -R2; case: (x1).
have C1 : cells x1 i j l = cells x i j l.
  have [w0 E0] : exists w0, x1 = raw_const x (nr a) w0.
    move: E1; rewrite /plain_inv_trunc Pa /=; case: ifP => // _; case: inv_mat => // w0 [<-]; by exists w0.
  have [_ _ _] := raw_constE x (nr a) w0; rewrite E0 => -> //.
  have -> : cells (raw_dims x (nr a) (nr a)) i j = cells x i j by rewrite /raw_dims Hx eqxx.
  by case: ifP => // _; rewrite /upd (gtn_eqF l0).
have Hlm : (l < m)%N by apply: ltn_trans HT.
have [|||||||x' [Ex Ec]] := @stale_loop a m i j l Hi Hj Hlm fuel x1 T => //.
- by move: Hfu; clear; lia.
- by move=> i' j' Hi' Hj'; apply: R3; rewrite ?[nr _]R1 ?[nc _]R2.
- by left.
exists x'; split=> //; rewrite Ec C1; split=> // Ht.
have Hlm2 : (0 < l < m)%N by rewrite l0.
by have := const_inverse Ha Pa Ht Hi Hj Hlm2; rewrite Ec C1 => /eqP; rewrite (negbTE Hc).
Qed.
End Fft.

(** *** the sequence of the degrees *)

(** at most twice as large each time, and at least m at the end *)
Fixpoint chain (m : nat) (ds : seq nat) : bool :=
  if ds is k :: ds' then [&& (0 < k)%N, (if ds' is k' :: _ then k' <= 2 * k else m <= k)%N & chain m ds'] else true.

Lemma degreesE fuel m T : (0 < m)%N -> (0 < T)%N -> (m <= fuel)%N ->
  exists k ds, [/\ degrees fuel m T = Some (k :: ds), chain m (k :: ds), (k <= T)%N, (size ds <= m)%N & (1 < T)%N -> (1 < k)%N \/ (m <= k)%N].
Proof.
move=> m0 T0; rewrite /degrees.
have G f n acc : (0 < n <= f)%N -> chain m acc -> (if acc is h :: _ then h <= 2 * n else m <= n)%N -> (acc <> [::] -> (1 < T)%N -> (1 < n)%N) ->
    exists k ds, [/\ degrees_loop f n T acc = Some (k :: ds), chain m (k :: ds), (k <= T)%N, (size ds < n + size acc)%N &
      (1 < T)%N -> (1 < k)%N \/ (m <= k)%N].
  elim: f n acc => [|f IH] n acc /andP[n0 Hn] Hc Ha H1; first by move: n0 Hn; clear; lia.
  rewrite /=; case: ltnP => C; last first.
    exists n, acc; split=> //; first by rewrite n0 Ha.
      by move: n0; clear; lia.
    by move=> T1; case: (acc) Ha H1 => [Ha _|h t _ H1]; [right|left; apply: H1].
  set n' := if odd n then n.+1 else n.
  have [En' Hn'] : n' = (2 * n'./2)%N /\ (n <= n' <= n.+1)%N.
    rewrite /n'; have := odd_double_half n; case O: (odd n); rewrite ?leqnn ?leqnSn; move: O; clear; lia.
  have [||||k [ds [E1 E2 E3 E4 E5]]] := IH n'./2 (n' :: acc).
  - by move: En' Hn' n0 Hn C T0; clear; lia.
  - rewrite /= Hc andbT; apply/andP; split; first by move: Hn' n0; clear; lia.
    by move: Ha; case: (acc) => [|h t]; move: Hn'; clear; lia.
  - by rewrite -En'.
  - by move=> _ T1; move: En' Hn' C T1; clear; lia.
  exists k, ds; split=> //; apply: (leq_trans E4); rewrite /=; move: En' Hn' C T0; clear; lia.
move=> Hf; have [||||k [ds [E1 E2 E3 E4 E5]]] := G fuel m [::] => //; first by rewrite m0.
by exists k, ds; split=> //; move: E4; rewrite addn0 => /ltnW.
Qed.
Lemma chain_next m k k' ds : chain m [:: k, k' & ds] -> [/\ (0 < k)%N, (0 < k')%N, (k' <= 2 * k)%N & chain m (k' :: ds)].
Proof. by move=> /= /and3P[? ? /andP[? ?]]; split=> //; apply/andP. Qed.

(** *** Newton iteration with middle products *)
Section Middle.
Variables (mp : pmat F -> pmat F -> nat -> nat -> option (aoutcome (pmat F))) (mul : pmat F -> pmat F -> option (aoutcome (pmat F))).
(** the middle products and products of s x s matrices needed for the precision m are right *)
Definition mp_right (s m : nat) : Prop := forall (x c : pmat F) k, (0 < k < m)%N -> nr x = s -> nc x = s -> nr c = s -> nc c = s -> ~ zero_mat x ->
  entries_below k x -> entries_below (2 * k) c -> exists o, mp x c k (k - 1) = Some o /\ middle_of x c k (k - 1) o.
Definition mul_right (s m : nat) : Prop := forall (b x : pmat F) k, (0 < k < m)%N -> nr x = s -> nc x = s -> nr b = s -> nc b = s ->
  entries_below k b -> entries_below k x -> exists o, mul b x = Some o /\ product_of b x o.

Definition near a (k : nat) b : Prop := [/\ nr b = nr a, nc b = nr a, entries_below k b & inverse_mod (nr a) k (ent b) (ent a)].

Lemma near_trunc a k k' b : near a k b -> (k' <= k)%N -> near a k' (pm_truncate true b b k').
Proof.
case=> R1 R2 S H Hk; have [[[T1 T2 T3] _ _ _ _] _] := C65_entrywise true b b k' Z0 (fun _ => Z0) 0 0.
split; rewrite ?T1 ?T2 //.
  by move=> i j; rewrite T1 T2 => Hi Hj; apply/leq_sizeP=> l Hl; rewrite T3 // ltnNge Hl.
apply: inverse_mod_eq (inverse_mod_le Hk H) => // i j l Hi Hj Hl; by rewrite T3 ?R1 ?R2 // Hl.
Qed.

Lemma near_final a k m b : (0 < m)%N -> near a k b -> (m <= k)%N -> truncated_inverse a (pm_truncate true b b m) m.
Proof. by move=> m0 H Hm; have [? ? ? ?] := near_trunc H Hm; apply: inverse_truncated. Qed.

Lemma middle_loopE a m (ds : seq nat) : (0 < nr a)%N -> nr a = nc a -> (0 < m)%N -> mp_right (nr a) m -> mul_right (nr a) m ->
  forall rest fuel (x : pmat F) idx k, drop idx ds = rest -> chain m (k :: rest) -> (size rest <= fuel)%N -> near a k x ->
  exists b, middle_loop mp mul fuel x a ds idx k m = Some (AOk b) /\ truncated_inverse a b m.
Proof.
move=> s0 Ea m0 Hmp Hmul; elim=> [|k' rest IH] fuel x idx k Hd Hc Hf Hn.
  have Hk : (m <= k)%N by move: Hc => /= /and3P[].
  by case: fuel Hf => [|fuel] _; rewrite /= ltnNge Hk /=; (eexists; split; [by []|exact: near_final Hn Hk]).
have [k0 k0' Hk2 Hc'] := chain_next Hc.
case: fuel Hf => [//|fuel] Hf; rewrite /=; case: ltnP => C; last by eexists; split; [by []|exact: near_final Hn C].
have [R1 R2 S H] := Hn.
have [[[T1 T2 T3] _ _ _ _] _] := C65_entrywise false (new_pmat F) a (2 * k) Z0 (fun _ => Z0) 0 0.
set tr := pm_truncate _ _ a _ in T1 T2 T3 *.
have St : entries_below (2 * k) tr.
  by move=> i j; rewrite T1 T2 => Hi Hj; apply/leq_sizeP=> l Hl; rewrite T3 // ltnNge Hl.
have NZ : ~ zero_mat x.
  move=> Z; have := H 0%N 0%N 0%N s0 s0 k0; rewrite coef_sum big1 => [/eqP|u _]; first by rewrite eq_sym oner_eq0.
  by rewrite Z ?R1 ?R2 // mul0r coef0.
have [|||_ [-> [d [-> [D1 D2 D3]]]]] := Hmp x tr k _ R1 R2 _ _ NZ S St; rewrite ?k0 ?T1 ?T2 // bindmE.
have HD i j l : (i < nr a)%N -> (j < nr a)%N -> (l < k)%N -> (ent d i j)`_l = (\sum_(u < nr a) ent x i u * ent a u j)`_(k + l).
  move=> Hi Hj Hl; rewrite D3 ?R1 ?T2 -?Ea // mid_entryE coef_poly ifT; last by move: Hl; clear; lia.
  rewrite R2 !coef_sum; apply: eq_bigr => u _.
  rewrite ptrunc_id; last by apply: leq_trans (S _ _ _ _) _; rewrite ?R1 ?R2.
  rewrite !coefM; apply: eq_bigr => w _; rewrite T3 -?Ea // ifT //; move: (ltn_ord w) Hl; clear; lia.
have SD : entries_below k d.
  move=> i j; rewrite D1 D2 R1 T2 => Hi Hj; rewrite D3 ?R1 ?T2 // mid_entryE; apply: (leq_trans (size_poly _ _)); move: k0; clear; lia.
have [|||_ [-> [g [-> [G1 G2 G3]]]]] := Hmul d x k _ R1 R2 _ _ SD S; rewrite ?k0 ?D1 ?D2 ?T2 ?R1 -?Ea // bindmE.
have [[[U1 U2 U3] _ _ _ _] _] := C65_entrywise true g g k Z0 (fun _ => Z0) 0 0.
set y := pm_truncate _ _ g _ in U1 U2 U3 *.
have [[_ [V1 V2 V3] _ _ _] _] := C65_entrywise true y y 0 (Z.of_nat k) (fun _ => Z0) 0 0.
set z := pm_lshift _ _ y _ in V1 V2 V3 *.
have Ry : nr y = nr a /\ nc y = nr a by rewrite U1 U2 G1 G2 D1 R1 R2.
have Ez i j : (i < nr a)%N -> (j < nr a)%N -> ent z i j = ent y i j * 'X^k.
  move=> Hi Hj; apply/polyP=> l; rewrite V3 ?Ry.1 ?Ry.2 // coefMXn /zcoef.
  case: ltnP => A; first by rewrite ifF //; move: A; clear; lia.
  by rewrite ifT; [congr nth; move: A; clear; lia|move: A; clear; lia].
have [|||_ [x' [-> [X1 X2 X3]]]] := @C65_add_sub F true false x x z; rewrite ?V1 ?V2 ?Ry.1 ?Ry.2 //.
have Sy i j : (i < nr a)%N -> (j < nr a)%N -> (size (ent y i j) <= k)%N.
  by move=> Hi Hj; apply/leq_sizeP=> l Hl; rewrite U3 ?G1 ?G2 ?D1 ?R1 ?R2 // ltnNge Hl.
have Hn' : near a (2 * k) x'.
  split; rewrite ?X1 ?X2 //.
    move=> i j; rewrite X1 X2 R1 R2 => Hi Hj; rewrite X3 ?R1 ?R2 // Ez //; apply: leq_trans (size_add _ _) _; rewrite size_opp geq_max.
    apply/andP; split; first by apply: leq_trans (S _ _ _ _) _; rewrite ?R1 ?R2 //; move: k0; clear; lia.
    apply: leq_trans (size_mul_leq _ _) _; rewrite size_polyXn; have := Sy i j Hi Hj; move: (size _) => w; clear; lia.
  apply: inverse_mod_eq (@newton_entries F (nr a) k (ent x) (ent a) (ent d) (ent y) k0 H HD _) => //.
    by move=> i j l Hi Hj _; rewrite X3 ?R1 ?R2 // Ez.
  move=> i j l Hi Hj Hl; rewrite U3 ?G1 ?G2 ?D1 ?R1 ?R2 // Hl G3 ?D1 ?R1 ?R2 //.
  by rewrite D2 T2 -Ea.
have Hsz : (idx < size ds)%N by rewrite ltnNge; apply/negP=> /drop_oversize; rewrite Hd.
rewrite leqNgt Hsz /=.
have [En Hd'] : nth 0%N ds idx = k' /\ drop idx.+1 ds = rest by move: Hd; rewrite (drop_nth 0%N Hsz) => -[].
rewrite En; apply: IH => //; case: eqP => [<- //|_]; exact: near_trunc Hn' Hk2.
Qed.

Theorem C74_newton_middle fuel (al : bool) x a m thresh (T := if al then 64%N else odflt 64%N thresh) : invertible_at_0 a -> (0 < m)%N -> (0 < T)%N ->
  (m <= fuel)%N -> mp_right (nr a) m -> mul_right (nr a) m ->
  exists b, newton_inv_trunc_middle mp mul fuel al x a m thresh = Some (AOk b) /\ truncated_inverse a b m.
Proof.
move=> Ha m0 T0 Hfu Hmp Hmul; have [s0 E U] := Ha; rewrite /newton_inv_trunc_middle.
have -> : odflt 64%N (if al then None else thresh) = T by rewrite /T; case: (al).
have [k [ds [-> Hc Hk Hs _]]] := degreesE m0 T0 Hfu; rewrite [nth _ _ _]/=.
set x0 := if al then _ else _; have [k0 _] := andP Hc.
have [x1 [-> [R1 R2 R3 R4 _]]] := plain_ok x0 Ha k0; rewrite bindmE.
apply: (middle_loopE s0 E m0 Hmp Hmul (rest := ds)) => //; first by rewrite /= drop0.
exact: leq_trans Hs Hfu.
Qed.
End Middle.
End C74.
