(** Evaluation and interpolation at points in geometric progression. *)
From mathcomp Require Import all_ssreflect all_algebra zify.
From Verif Require Import A_base A_mul_model N_poly_model N_series_proof N_shift_proof N_mid_model P_nmid N_geo_model N_geo_proof N_geo2_proof.
Set Implicit Arguments.
Unset Strict Implicit.
Unset Printing Implicit Defensive.
Import GRing.Theory.
Local Open Scope ring_scope.

Section Ok.
Variable F : fieldType.
Local Notation P := {poly F}.
Implicit Types (r s q : F) (d i k : nat).

Definition gf r d : P := \poly_(i < 2 * d - 1) r ^+ (i * i).

Record geo_ok r s d (o : geo F) : Prop := GeoOk {
  ok_n : g_n o = d; ok_d : (0 < d)%N; ok_r : r != 0; ok_s : s != 0;
  ok_q : forall i, (0 < i < d)%N -> (r ^+ 2) ^+ i != 1;
  ok_pts : g_pts o = if d == 1%N then Some (upd (fun _ => 0) 0%N (s * r)) else None;
  ok_idx : g_idx o = next_pow2 (2 * d - 1);
  ok_x : forall i, (i < d)%N -> g_x o i = (r ^+ (i * i))^-1;
  ok_xs : forall i, (i < d)%N -> g_xs o i = (r ^+ (i * i))^-1 * s ^+ i;
  ok_w : forall i, (i < d)%N -> g_w o i = (qf (r ^+ 2) i)^-1;
  ok_ws : forall i, (i < d)%N -> g_ws o i = (qf (r ^+ 2) i)^-1 * s^-1 ^+ i;
  ok_y : forall i, (i < d)%N -> g_y o i = (-1) ^+ i * qf (r ^+ 2) i / tri (r ^+ 2) i;
  ok_z : forall i, (i < d)%N -> g_z o i = (-1) ^+ i / qf (r ^+ 2) i;
  ok_zs : forall i, (i < d)%N -> g_zs o i = (-1) ^+ i / qf (r ^+ 2) i * s^-1 ^+ i;
  ok_f : g_f o = gf r d;
  ok_g1 : g_g1 o = pG1 (r ^+ 2) d;
  ok_g2 : g_g2 o = pG2 (r ^+ 2) d;
  ok_known : forall e, e \in g_known o ->
     (e.1 < d)%N /\ e.2 = (next_pow2 (e.1 + d), tofft (next_pow2 (e.1 + d)) (gf r d) 0 (e.1 + d - 1));
  ok_feas : g_feas o -> [/\ d.-1 \in [seq e.1 | e <- g_known o],
     g_g1f o = cyc (g_idx o) (pG1 (r ^+ 2) d) & g_g2f o = cyc (g_idx o) (pG2 (r ^+ 2) d)] }.

Lemma set_flags_ok r s d o fe fi : geo_ok r s d o -> geo_ok r s d (set_flags o fe fi (g_known o) (g_g1f o) (g_g2f o)).
Proof. by case. Qed.

Lemma prepare_ok r s d o e : geo_ok r s d o ->
  if (e < d)%N then exists2 o', prepare_degree o e = AOk o' & geo_ok r s d o'
  else prepare_degree o e = AUB.
Proof.
case=> Hn Hd Hr Hs Hq H1 H2 H3 H4 H5 H6 H7 H8 H9 H10 H11 H12 Hk Hf; rewrite /prepare_degree Hn ltnNge; case: leqP => //= He.
case C: (g_feas o); last by exists o.
eexists; first by [].
case: ifP => C2; split=> //=.
- move=> e'; rewrite inE => /orP[/eqP->/=|/Hk//]; by rewrite H10.
- by move=> _; have [A B D] := Hf C; split=> //; rewrite inE A orbT.
Qed.

Lemma runs_ok r s d o ops o' : geo_ok r s d o -> geo_runs o ops = AOk o' -> geo_ok r s d o'.
Proof.
elim: ops o => [|[e|fe fi] ops IH] o H /=; first by case=> <-.
  have := prepare_ok e H; case: ifP => _; last by move=> ->.
  by case=> o1 -> /IH; apply.
by apply: IH; exact: set_flags_ok.
Qed.

Lemma qf_neq0E q d : (0 < d)%N -> (qf q d.-1 != 0) <-> (forall i, (0 < i < d)%N -> q ^+ i != 1).
Proof.
move=> d0; split=> [/prodf_neq0 H i Hi|H]; last by apply: (@qf_neq0 _ q d) => //; lia.
have L : (i.-1 < d.-1)%N by lia.
by have := H (Ordinal L) isT; rewrite /= subr_eq0 prednK //; lia.
Qed.

Lemma geo_initP feas fft r s d :
  (exists2 o, geo_init feas fft r s d = AOk o & geo_ok r s d o) \/
  (geo_init feas fft r s d = AUB /\
   [\/ d = 0%N, r = 0, s = 0 | exists2 i, (0 < i < d)%N & (r ^+ 2) ^+ i = 1]).
Proof.
rewrite /geo_init.
case: (d =P 0%N) => [->|/eqP D0]; first by right; split=> //; constructor 1.
case: (r =P 0) => [->|/eqP R0]; first by right; split=> //; constructor 2.
case: (s =P 0) => [->|/eqP S0]; first by right; split=> //; constructor 3.
rewrite /=.
have d0 : (0 < d)%N by lia.
have Q0 : r ^+ 2 != 0 by rewrite expf_neq0.
have := geo_xE s d R0; case: (geo_x r s d) => x xs [/= Hx Hxs].
have := geo_diffE (r * r) d; case: (geo_diff _ d) => di pd [/= Hdi Hpd].
rewrite Hpd; last by lia.
rewrite -!expr2 in Hdi Hpd *.
case: eqP => [E|/eqP N].
  right; split=> //; constructor 4.
  move/eqP: E; rewrite /qf prodf_seq_eq0 => /hasP[i _ /=]; rewrite subr_eq0 => /eqP Ei.
  by exists i.+1 => //; have := ltn_ord i; lia.
left; have Hq := proj1 (qf_neq0E _ d0) N.
have Hiv := geo_inv_diffE d0 N Hdi Hpd.
have HS := @geo_seqE _ _ s _ _ _ Q0 d0 Hpd Hiv.
set a := geo_seq _ _ _ _ _ in HS *.
set f := \poly_(i < 2 * d - 1) _; set g1 := \poly_(i < d) _; set g2 := \poly_(i < d) _.
have Ef : f = gf r d.
  by apply/polyP=> i; rewrite !coef_poly; case: ifP => // Hi; rewrite geo_fE.
have E1 : g1 = pG1 (r ^+ 2) d.
  by apply/polyP=> i; rewrite !coef_poly; case: ifP => // Hi; have [_ []] := HS i Hi.
have E2 : g2 = pG2 (r ^+ 2) d.
  by apply/polyP=> i; rewrite !coef_poly; case: ifP => // Hi; have [_ []] := HS i Hi.
case: feas; last first.
  eexists; first by [].
  by split=> //= i Hi; have [[] //] := HS i Hi.
rewrite /prepare_degree /= (_ : (d <= d.-1)%N = false) /=; last by lia.
eexists; first by [].
split=> //=; try by move=> i Hi; have [[] //] := HS i Hi.
- by move=> e; rewrite inE => /eqP->/=; split; [lia|rewrite Ef].
- by move=> _; rewrite mem_head E1 E2.
Qed.

(** find_degree returns a prepared degree at least m *)
Lemma find_degreeP r s d o m : geo_ok r s d o -> g_feas o -> (m < d)%N ->
  let e := find_degree o m in e \in [seq e.1 | e <- g_known o] /\ (m <= e < d)%N.
Proof.
move=> H Hf Hm; have [In _ _] := ok_feas H Hf; have Kn := ok_known H.
rewrite /find_degree (ok_n H).
suff G (l : seq (nat * (nat * P))) b : {subset l <= g_known o} ->
  b \in [seq e.1 | e <- g_known o] /\ (m <= b < d)%N ->
  let e := foldl (fun best (e : nat * (nat * P)) => if (m <= e.1)%N && (e.1 < best)%N then e.1 else best) b l in
  e \in [seq e.1 | e <- g_known o] /\ (m <= e < d)%N.
  by apply: G => //; split=> //; have := ok_d H; lia.
elim: l b => // e l IH b Sub Hb /=; apply: IH; first by move=> x Hx; apply: Sub; rewrite inE Hx orbT.
case: ifP => // /andP[C1 C2].
have In1 : e \in g_known o by apply: Sub; rewrite mem_head.
have [Le _] := Kn e In1.
by split; [exact: map_f|move: C1 C2 Hb => C1 C2 [_ Hb]; lia].
Qed.

Lemma lookupP r s d o e : geo_ok r s d o -> e \in [seq e.1 | e <- g_known o] ->
  (e < d)%N /\ lookup (g_known o) e = AOk (next_pow2 (e + d), tofft (next_pow2 (e + d)) (gf r d) 0 (e + d - 1)).
Proof.
move=> /ok_known; elim: (g_known o) => // e' l IH H; rewrite inE /=.
have [He Ee] := H e' (mem_head _ _).
case: (e'.1 =P e) => [<- _|N]; first by rewrite Ee.
case/orP=> [/eqP E|]; first by case: N.
by apply: IH => x Hx; apply: H; rewrite inE Hx orbT.
Qed.

(** the polynomial a of the code *)
Lemma revE (b u : nat -> F) dp i :
  foldl (fun (a : nat -> F) i => upd a (dp - i)%N (u i)) b (iota 0 dp.+1) i = if (i <= dp)%N then u (dp - i)%N else b i.
Proof.
have G k : (k <= dp.+1)%N ->
  foldl (fun (a : nat -> F) i => upd a (dp - i)%N (u i)) b (iota 0 k) i
   = if (dp < i + k)%N && (i <= dp)%N then u (dp - i)%N else b i.
  elim: k => [|k IH] Hk.
    by rewrite addn0 (_ : _ && _ = false) //; lia.
  rewrite foldl_iotaR add0n /upd; case: eqP => [Ei|Ni].
    by rewrite Ei (_ : _ && _ = true); [congr u; lia|lia].
  by rewrite IH; [congr (if _ then _ else _); lia|lia].
by rewrite G // (_ : (dp < i + dp.+1)%N); last lia.
Qed.

Definition revp (u : nat -> F) dp : P :=
  \poly_(i < dp.+1) foldl (fun (a : nat -> F) i => upd a (dp - i)%N (u i)) (fun _ => 0) (iota 0 dp.+1) i.
Lemma coef_revp u dp i : (revp u dp)`_i = if (i <= dp)%N then u (dp - i)%N else 0.
Proof. by rewrite coef_poly revE ltnS; case: (i <= dp)%N. Qed.

Lemma rev_mul (u : nat -> F) r d dp i : (i + dp < 2 * d - 1)%N ->
  (revp u dp * gf r d)`_(dp + i) = \sum_(j < dp.+1) u j * r ^+ ((i + j) * (i + j)).
Proof.
move=> Hi; rewrite coefM.
rewrite (bigID (fun j : 'I_(dp + i).+1 => (j < dp.+1)%N)) /= [X in _ + X]big1 ?addr0; last first.
  by move=> j; rewrite -leqNgt => Hj; rewrite coef_revp leqNgt Hj mul0r.
rewrite -(big_ord_widen_cond (dp + i).+1 predT (fun j => (revp u dp)`_j * (gf r d)`_(dp + i - j))) /=; last by lia.
rewrite (reindex_inj rev_ord_inj) /=; apply: eq_bigr => j _; have Lj := ltn_ord j.
rewrite coef_revp coef_poly subSS.
rewrite (_ : (dp - j <= dp)%N); last by lia.
rewrite (_ : (dp + i - (dp - j) < 2 * d - 1)%N); last by lia.
rewrite (_ : (dp + i - (dp - j) = i + j)%N); last by lia.
by rewrite (_ : (dp - (dp - j) = j)%N) //; lia.
Qed.

(** points *)
Definition pt r s i : F := s * r ^+ (2 * i).

Lemma pt_term r s i j (c : F) : r != 0 ->
  (r ^+ (i * i))^-1 * ((r ^+ (j * j))^-1 * s ^+ j * c * r ^+ ((i + j) * (i + j))) = c * pt r s i ^+ j.
Proof.
move=> r0; rewrite /pt exprMn -exprM.
have -> : r ^+ ((i + j) * (i + j)) = r ^+ (i * i) * r ^+ (j * j) * r ^+ (2 * i * j).
  by rewrite -!exprD; congr (_ ^+ _); lia.
have N1 : r ^+ (i * i) != 0 by rewrite expf_neq0.
have N2 : r ^+ (j * j) != 0 by rewrite expf_neq0.
move: (r ^+ (i * i)) (r ^+ (j * j)) (r ^+ _) (s ^+ j) N1 N2 => A B u v N1 N2.
exact: gterm.
Qed.

(** interpolation *)
Lemma geo_shortP r s d o (k g gg : P) : geo_ok r s d o -> (size k <= d)%N -> (size g <= d)%N ->
  (g_feas o -> gg = cyc (g_idx o) g) -> geo_short o k g gg = ptrunc d (k * g).
Proof.
move=> H Sk Sg Hg; have d0 := ok_d H; rewrite /geo_short (ok_n H).
case: ifP => // /andP[/Hg-> _].
have Hk : (2 * d - 1 <= 2 ^ g_idx o)%N by rewrite (ok_idx H); apply: up_logP.
have Sp : (size (k * g)%R <= (d + d).-1)%N by apply: size_mul_leN.
rewrite fftmul_cyc cyc_small; last by apply: leq_trans Sp _; lia.
by rewrite /fromfft subn0 slice0 (_ : (d - 1).+1 = d) //; lia.
Qed.

Lemma geo_coreP r s d o (v k : nat -> F) i : geo_ok r s d o -> (i < d)%N ->
  (forall j, (j < d)%N -> k j = v j / qf (r ^+ 2) j) ->
  (geo_core o k)`_(d - 1 - i) * ((-1) ^+ i / qf (r ^+ 2) i) = icoef (r ^+ 2) d v i.
Proof.
move=> H Hi Hk; have d0 := ok_d H; rewrite /geo_core (ok_n H).
have SG1 : (size (g_g1 o) <= d)%N by rewrite (ok_g1 H); apply: size_poly.
have SG2 : (size (g_g2 o) <= d)%N by rewrite (ok_g2 H); apply: size_poly.
rewrite (geo_shortP H (size_poly _ _) SG1); last by rewrite (ok_g1 H) => /(ok_feas H)[].
set h := ptrunc d _.
have Eh m : (m < d)%N -> h`_m = (\poly_(j < d) (v j / qf (r ^+ 2) j) * pG1 (r ^+ 2) d)`_m.
  move=> Hm; rewrite /h coef_poly Hm (ok_g1 H).
  suff -> : \poly_(i < d) k i = \poly_(j < d) (v j / qf (r ^+ 2) j) by [].
  by apply/polyP=> j; rewrite !coef_poly; case: ifP => // Hj; rewrite Hk.
clearbody h; rewrite (geo_shortP H (size_poly _ _) SG2); last by rewrite (ok_g2 H) => /(ok_feas H)[].
rewrite coef_poly (_ : (d - 1 - i < d)%N); last by lia.
rewrite /icoef mulrC; congr (_ * _).
rewrite coefM (ok_g2 H).
rewrite (reindex_inj rev_ord_inj) /=.
transitivity (\sum_(b < (d - 1 - i).+1) h`_(i + b) * g_y o (i + b)%N * (tri (r ^+ 2) b / qf (r ^+ 2) b)).
  apply: eq_bigr => b _; have Lb := ltn_ord b.
  rewrite !coef_poly subSS (_ : (d - 1 - i - b < d)%N); last by lia.
  rewrite (_ : (d - 1 - i - (d - 1 - i - b) = b)%N); last by lia.
  rewrite (_ : (b < d)%N); last by lia.
  congr (_ * _).
  have Ed : iota 0 d = iota 0 (d - 1).+1 by rewrite subn1 prednK.
  rewrite Ed revE (_ : (d - 1 - i - b <= d - 1)%N); last by lia.
  by rewrite (_ : (d - 1 - (d - 1 - i - b) = i + b)%N) //; lia.
rewrite (big_ord_widen_cond d predT (fun b => h`_(i + b) * g_y o (i + b)%N * (tri (r ^+ 2) b / qf (r ^+ 2) b))) /=; last by lia.
pose G m := if (i <= m)%N then h`_m * g_y o m * (tri (r ^+ 2) (m - i) / qf (r ^+ 2) (m - i)) else 0.
transitivity (\sum_(m < d) G m); last first.
  rewrite [RHS]big_mkcond /=; apply: eq_bigr => m _; rewrite /G; case: ifP => // Hm.
  by rewrite Eh ?(ok_y H).
rewrite big_mkcond /=.
rewrite -(big_mkord predT G).
rewrite -(big_mkord predT (fun b => if (b < (d - 1 - i).+1)%N then h`_(i + b) * g_y o (i + b)%N * (tri (r ^+ 2) b / qf (r ^+ 2) b) else 0)).
rewrite [RHS](@big_cat_nat _ _ _ i) /=; [|by []|by lia].
rewrite [X in _ = X + _]big1_seq ?add0r; last first.
  by move=> m; rewrite mem_index_iota /G => Hm; rewrite (_ : (i <= m)%N = false) //; lia.
rewrite (@big_cat_nat _ _ _ (d - i)) /=; [|by []|by lia].
rewrite [X in _ + X = _]big1_seq ?addr0; last first.
  by move=> m; rewrite mem_index_iota => Hm; rewrite (_ : (m < _)%N = false) //; lia.
rewrite -[in RHS](add0n i) big_addn; apply: eq_big_nat => m Hm.
rewrite (_ : (m < _)%N); last by lia.
by rewrite /G leq_addl addnK addnC.
Qed.

Lemma icoef_pt r s d o v (j : nat) : geo_ok r s d o -> (j < d)%N ->
  \sum_(i < d) icoef (r ^+ 2) d v i * s^-1 ^+ i * pt r s j ^+ i = v j.
Proof.
move=> H Hj.
rewrite -[RHS](@icoefP _ (r ^+ 2) d _ _ v j) //; [|by rewrite expf_neq0 // (ok_r H)|exact: (ok_q H)].
apply: eq_bigr => i _; rewrite /pt exprMn -mulrA; congr (_ * _).
by rewrite mulrA -exprMn mulVf ?(ok_s H) // expr1n mul1r -!exprM mulnA.
Qed.

Lemma geo_interpP r s d o (val : nat -> F) : geo_ok r s d o ->
  (size (geo_interpolate o val) <= d)%N /\
  (forall j, (j < d)%N -> (geo_interpolate o val).[pt r s j] = val j).
Proof.
move=> H; have d0 := ok_d H; rewrite /geo_interpolate (ok_n H).
rewrite (_ : (d == 0%N) = false); last by lia.
case: (d =P 1%N) => [d1|d1].
  rewrite d1; split; first exact: size_polyC_leq1.
  by case=> // _; rewrite hornerC.
split; first exact: size_poly.
move=> j Hj; rewrite (horner_coef_wide _ (size_poly _ _)) -[RHS](icoef_pt val H Hj).
apply: eq_bigr => i _; rewrite coef_poly ltn_ord; congr (_ * _).
rewrite (ok_zs H) // mulrA (@geo_coreP r s d o val) //.
by move=> l Hl; rewrite (ok_w H).
Qed.

Lemma geo_inv_mul_rightP r s d o (val : nat -> F) j : geo_ok r s d o -> (j < d)%N ->
  \sum_(i < d) geo_inv_mul_right o val i * pt r s j ^+ i = val j.
Proof.
move=> H Hj; have d0 := ok_d H; rewrite /geo_inv_mul_right (ok_n H).
rewrite (_ : (d == 0%N) = false); last by lia.
case: (d =P 1%N) => [d1|d1].
  by move: Hj; rewrite d1 big_ord_recl big_ord0 addr0 expr0 mulr1; case: j.
rewrite -[RHS](icoef_pt val H Hj).
apply: eq_bigr => i _; congr (_ * _).
rewrite (ok_zs H) // mulrA (@geo_coreP r s d o val) //.
by move=> l Hl; rewrite (ok_w H).
Qed.

Lemma t_icoef_pt r s d o (p : nat -> F) (j : nat) : geo_ok r s d o -> (j < d)%N ->
  \sum_(i < d) icoef (r ^+ 2) d (fun j => p j * s^-1 ^+ j) i * pt r s i ^+ j = p j.
Proof.
move=> H Hj.
have E := @icoefP _ (r ^+ 2) d _ (ok_q H) (fun j => p j * s^-1 ^+ j) j Hj.
transitivity (s ^+ j * (p j * s^-1 ^+ j)); last first.
  by rewrite mulrCA -exprMn mulfV ?(ok_s H) // expr1n mulr1.
rewrite -E ?expf_neq0 ?(ok_r H) // mulr_sumr; apply: eq_bigr => i _.
rewrite /pt exprMn mulrCA; congr (_ * (_ * _)).
by rewrite -!exprM; congr (_ ^+ _); lia.
Qed.

Lemma geo_t_interpP r s d o (p : P) j : geo_ok r s d o -> (j < d)%N ->
  \sum_(i < d) geo_t_interpolate o p i * pt r s i ^+ j = p`_j.
Proof.
move=> H Hj; have d0 := ok_d H; rewrite /geo_t_interpolate (ok_n H).
rewrite (_ : (d == 0%N) = false); last by lia.
case: (d =P 1%N) => [d1|d1].
  by move: Hj; rewrite d1 big_ord_recl big_ord0 addr0; case: j => // _; rewrite expr0 mulr1.
rewrite -[RHS](t_icoef_pt (fun j => p`_j) H Hj).
apply: eq_bigr => i _; congr (_ * _).
rewrite (ok_z H) // (@geo_coreP r s d o (fun j => p`_j * s^-1 ^+ j)) //.
by move=> l Hl; rewrite (ok_ws H) // mulrA mulrAC.
Qed.

Lemma geo_inv_mul_leftP r s d o (p : nat -> F) j : geo_ok r s d o -> (j < d)%N ->
  \sum_(i < d) geo_inv_mul_left o p i * pt r s i ^+ j = p j.
Proof.
move=> H Hj; have d0 := ok_d H; rewrite /geo_inv_mul_left (ok_n H).
rewrite (_ : (d == 0%N) = false); last by lia.
case: (d =P 1%N) => [d1|d1].
  by move: Hj; rewrite d1 big_ord_recl big_ord0 addr0; case: j => // _; rewrite expr0 mulr1.
rewrite -[RHS](t_icoef_pt p H Hj).
apply: eq_bigr => i _; congr (_ * _).
rewrite (ok_z H) // (@geo_coreP r s d o (fun j => p j * s^-1 ^+ j)) //.
by move=> l Hl; rewrite (ok_ws H) // mulrA mulrAC.
Qed.

(** evaluation at nb points *)
Lemma geo_scaleE (c : nat -> F) (pow : F) k i :
  (i < k)%N ->
  (foldl (fun (st : (nat -> F) * F) i => let: (c, pow_loc) := st in
            (upd c i (c i * pow_loc), pow_loc * pow)) (c, 1) (iota 0 k)).1 i = c i * pow ^+ i.
Proof.
set g := (X in foldl X).
have : [/\ forall i, (i < k)%N -> (foldl g (c, 1) (iota 0 k)).1 i = c i * pow ^+ i,
          forall i, (k <= i)%N -> (foldl g (c, 1) (iota 0 k)).1 i = c i & (foldl g (c, 1) (iota 0 k)).2 = pow ^+ k].
  elim: k => [|k [H1 H2 H3]]; first by split.
  rewrite foldl_iotaR add0n; move: (foldl g _ _) H1 H2 H3 => [c' w] /= H1 H2 ->.
  split; [|by move=> i' Hi'; rewrite upd_ne; [apply: H2; lia|lia]|by rewrite exprSr].
  move=> i' Hi'; rewrite /upd; case: (i' =P k) => [->|N]; first by rewrite H2.
  by apply: H1; lia.
by case=> H1 _ _ Hi; exact: H1.
Qed.

(** the points are pairwise distinct *)
Lemma pt_inj r s d o i j : geo_ok r s d o -> (i < d)%N -> (j < d)%N -> pt r s i = pt r s j -> i = j.
Proof.
move=> H; wlog L : i j / (i <= j)%N.
  by move=> W Hi Hj E; case/orP: (leq_total i j) => C; [apply: W|symmetry; apply: W].
move=> Hi Hj /(mulfI (ok_s H)); rewrite -(subnK L) mulnDr exprD => E.
have : r ^+ (2 * (j - i)) = 1.
  by apply: (mulIf (expf_neq0 (2 * i) (ok_r H))); rewrite -E mul1r.
rewrite exprM => E1; case: (posnP (j - i)%N) => [|C]; first by lia.
have L2 : (0 < j - i < d)%N by lia.
by have := ok_q H L2; rewrite E1 eqxx.
Qed.
Variables (fuel MX KARX : nat) (ul : bool) (garb : nat -> F).
Hypothesis HK : (1 < KARX)%N.

Lemma geo_midP r s d o (a : P) dA m e m' : geo_ok r s d o ->
  (size a <= dA.+1)%N -> (0 < m)%N -> (dA < fuel)%N -> (m <= fuel)%N ->
  (g_feas o -> g_fe o -> [/\ e \in [seq e.1 | e <- g_known o], (dA + m' = e + d)%N & (m <= m')%N]) ->
  exists b, geo_mid fuel MX KARX ul garb o a dA m e m' = Some (AOk b) /\
    forall i, (i < m)%N -> b`_i = (a * gf r d)`_(dA + i).
Proof.
move=> H Ha m0 HfA HfB Hfft; rewrite /geo_mid.
case C: (g_feas o && g_fe o); last first.
  rewrite C58_middle_product_partial //; last by lia.
  eexists; split; first by [].
  move=> i Hi; rewrite middle_coef coef_poly prednK // Hi (ok_f H).
  rewrite (_ : ptrunc dA.+1 a = a) //.
  apply/polyP=> j; rewrite coef_poly; case: ltnP => // Cj; rewrite nth_default //.
  exact: leq_trans Ha Cj.
case/andP: C => C1 C2; have [In E Hm] := Hfft C1 C2.
have [He ->] := lookupP H In.
set k := next_pow2 _.
have Hk : (dA + m' <= 2 ^ k)%N by rewrite E; apply: up_logP.
eexists; split; first by [].
move=> i Hi; rewrite /fromfft coef_poly (_ : (i < _)%N); last by lia.
rewrite /tofft fftmul_cyc !subn0 !slice0.
rewrite (_ : (e + d - 1).+1 = dA + m')%N; last by lia.
have Et : ptrunc dA.+1 a = a.
  apply/polyP=> j; rewrite coef_poly; case: ltnP => // Cj; rewrite nth_default //.
  exact: leq_trans Ha Cj.
rewrite Et.
have Sp : (size (a * ptrunc (dA + m') (gf r d))%R <= (dA.+1 + (dA + m')).-1)%N.
  by apply: size_mul_leN => //; apply: size_poly.
rewrite cyc_coef; [|by apply: leq_trans Sp _; lia|by lia].
rewrite [X in _ + X]nth_default ?addr0; last by apply: leq_trans Sp _; lia.
by apply: (eqm_mul (@eqm_refl _ (dA + m') _) (@eqm_trunc _ (dA + m') _)); lia.
Qed.

(** evaluation: [u] is xs (then x the outer factor) *)
Lemma geo_evalP r s d o (p : P) : geo_ok r s d o -> (d <= fuel)%N -> (size p <= d)%N ->
  exists v, geo_evaluate fuel MX KARX ul garb o p = Some (AOk v) /\
    forall i, (i < d)%N -> v i = p.[pt r s i].
Proof.
move=> H Hfuel Hp; rewrite /geo_evaluate (ok_n H) ltnNge Hp /=.
have d0 := ok_d H.
rewrite (_ : (d == 0%N) = false); last by lia.
case: (d =P 1%N) => [d1|d1].
  eexists; split; first by []; move=> i Hi.
  have /size1_polyC -> : (size p <= 1)%N by rewrite -d1.
  by rewrite hornerC coefC.
case: (p =P 0) => [->|/eqP p0]; first by eexists; split; [by []|move=> i _; rewrite horner0].
have sp0 : (0 < size p)%N by rewrite size_poly_gt0.
have Hs : ((size p).-1 < d)%N by move: (size p) sp0 Hp => u; lia.
set dp := if _ then _ else _.
have Hdp : ((size p).-1 <= dp < d)%N.
  rewrite /dp; case: ifP => [/andP[C _]|_]; last by rewrite leqnn.
  by have [_] := find_degreeP H C Hs.
have Hf : g_feas o -> g_fe o -> [/\ dp \in [seq e.1 | e <- g_known o], (dp + d = dp + d)%N & (d <= d)%N].
  move=> C1 C2; split=> //; rewrite /dp C1 C2.
  by have [] := find_degreeP H C1 Hs.
have Sa : (size (revp (fun i => (g_xs o i * p`_i)%R) dp) <= dp.+1)%N by apply: size_poly.
have Hdf : (dp < fuel)%N by lia.
have [b [E Hb]] := geo_midP H Sa d0 Hdf Hfuel Hf.
rewrite -/(revp _ _) E; eexists; split; first by [].
move=> i Hi /=; rewrite (ok_x H) // Hb // rev_mul; last by lia.
rewrite mulr_sumr (horner_coef_wide _ (_ : size p <= dp.+1)%N); last by move: (size p) Hdp => u; lia.
apply: eq_bigr => j _; have Lj := ltn_ord j.
by rewrite (ok_xs H); [apply: pt_term; exact: (ok_r H)|lia].
Qed.

Lemma geo_mul_rightP r s d o (p : nat -> F) : geo_ok r s d o -> (d <= fuel)%N ->
  exists v, geo_mul_right fuel MX KARX ul garb o p = Some (AOk v) /\
    forall i, (i < d)%N -> v i = \sum_(j < d) p j * pt r s i ^+ j.
Proof.
move=> H Hfuel; rewrite /geo_mul_right (ok_n H).
have d0 := ok_d H.
rewrite (_ : (d == 0%N) = false); last by lia.
case: (d =P 1%N) => [d1|d1].
  by eexists; split; first by []; move=> i Hi; rewrite d1 big_ord_recl big_ord0 addr0 expr0 mulr1.
have Hf : g_feas o -> g_fe o -> [/\ d.-1 \in [seq e.1 | e <- g_known o], (d.-1 + d = d.-1 + d)%N & (d <= d)%N].
  by move=> C1 _; have [] := ok_feas H C1.
have Sa : (size (revp (fun i => (g_xs o i * p i)%R) d.-1) <= d.-1.+1)%N by apply: size_poly.
have Hdf : (d.-1 < fuel)%N by lia.
have [b [E Hb]] := geo_midP H Sa d0 Hdf Hfuel Hf.
move: E; rewrite /revp prednK // -!subn1 => ->; eexists; split; first by [].
move=> i Hi /=; rewrite (ok_x H) // Hb // rev_mul; last by lia.
rewrite mulr_sumr prednK //.
apply: eq_bigr => j _; have Lj := ltn_ord j.
by rewrite (ok_xs H) //; apply: pt_term; exact: (ok_r H).
Qed.

Lemma pt_term_t r s i j (c : F) : r != 0 ->
  (r ^+ (i * i))^-1 * s ^+ i * ((r ^+ (j * j))^-1 * c * r ^+ ((i + j) * (i + j))) = c * pt r s j ^+ i.
Proof.
move=> r0; rewrite /pt exprMn -exprM.
have -> : r ^+ ((i + j) * (i + j)) = r ^+ (i * i) * r ^+ (j * j) * r ^+ (2 * j * i).
  by rewrite -!exprD; congr (_ ^+ _); lia.
by apply: gterm_t; rewrite expf_neq0.
Qed.

Lemma geo_t_evalP r s d o (val : nat -> F) (osz : option nat) : geo_ok r s d o -> (d <= fuel)%N ->
  (odflt d osz <= d)%N ->
  exists p, geo_t_evaluate fuel MX KARX ul garb o val osz = Some (AOk p) /\
    p = \poly_(j < odflt d osz) \sum_(i < d) val i * pt r s i ^+ j.
Proof.
move=> H Hfuel; rewrite /geo_t_evaluate (ok_n H).
have d0 := ok_d H; set m := odflt _ _ => Hm.
case: (m =P 0%N) => [->|m0].
  by eexists; split; first by []; apply/polyP=> i; rewrite coef_poly coef0.
rewrite (_ : (d == 0%N) = false); last by lia.
case: (d =P 1%N) => [d1|d1].
  eexists; split; first by []; have -> : m = 1%N by lia.
  apply/polyP=> i; rewrite coefC coef_poly ltnS leqn0; case: eqP => // ->.
  by rewrite d1 big_ord_recl big_ord0 addr0 expr0 mulr1.
set e := find_degree _ _.
have Hf : g_feas o -> g_fe o -> [/\ e \in [seq e.1 | e <- g_known o], (d.-1 + e.+1 = e + d)%N & (m <= e.+1)%N].
  move=> C1 C2; have Hm1 : (m.-1 < d)%N by lia.
  have [A B] := find_degreeP H C1 Hm1.
  by split=> //; rewrite /e; lia.
have Sa : (size (revp (fun i => (g_x o i * val i)%R) d.-1) <= d.-1.+1)%N by apply: size_poly.
have Hdf : (d.-1 < fuel)%N by lia.
have Hmf : (m <= fuel)%N by lia.
have Hm0 : (0 < m)%N by lia.
have [b [E Hb]] := geo_midP H Sa Hm0 Hdf Hmf Hf.
move: E; rewrite /revp prednK // -!subn1 => -> /=; rewrite ltnNge Hm /=; eexists; split; first by [].
apply/polyP=> i; rewrite !coef_poly; case: ifP => // Hi.
rewrite (ok_xs H) ?Hb //; last by lia.
rewrite rev_mul; last by lia.
rewrite mulr_sumr prednK //.
apply: eq_bigr => j _; have Lj := ltn_ord j.
by rewrite (ok_x H) //; apply: pt_term_t; exact: (ok_r H).
Qed.

Lemma geo_mul_leftP r s d o (val : nat -> F) : geo_ok r s d o -> (d <= fuel)%N ->
  exists p, geo_mul_left fuel MX KARX ul garb o val = Some (AOk p) /\
    forall j, (j < d)%N -> p j = \sum_(i < d) val i * pt r s i ^+ j.
Proof.
move=> H Hfuel; rewrite /geo_mul_left (ok_n H).
have d0 := ok_d H.
rewrite (_ : (d == 0%N) = false); last by lia.
case: (d =P 1%N) => [d1|d1].
  eexists; split; first by []; move=> i Hi; rewrite d1 big_ord_recl big_ord0 addr0.
  have -> : i = 0%N by lia.
  by rewrite expr0 mulr1.
have Hf : g_feas o -> g_fe o -> [/\ d.-1 \in [seq e.1 | e <- g_known o], (d.-1 + d = d.-1 + d)%N & (d <= d)%N].
  by move=> C1 _; have [] := ok_feas H C1.
have Sa : (size (revp (fun i => (g_x o i * val i)%R) d.-1) <= d.-1.+1)%N by apply: size_poly.
have Hdf : (d.-1 < fuel)%N by lia.
have [b [E Hb]] := geo_midP H Sa d0 Hdf Hfuel Hf.
move: E; rewrite /revp prednK // -!subn1 => ->; eexists; split; first by [].
move=> i Hi /=; rewrite (ok_xs H) // Hb // rev_mul; last by lia.
rewrite mulr_sumr prednK //.
apply: eq_bigr => j _; have Lj := ltn_ord j.
by rewrite (ok_x H) //; apply: pt_term_t; exact: (ok_r H).
Qed.

Lemma geo_nbP r s d o (f : P) it (fl : P) (val : nat -> F) idx nb : geo_ok r s d o -> (d <= fuel)%N -> (size f <= d)%N ->
  (forall j, fl`_j = f`_j * (r ^+ 2) ^+ (idx * j)) -> (size fl <= d)%N ->
  (forall i, (i < idx)%N -> val i = f.[pt r s i]) -> (idx < nb)%N -> (nb <= idx + d * it)%N ->
  exists v, geo_eval_loop fuel MX KARX ul garb it o f fl (get_q o ^+ g_n o) val idx nb = Some (AOk v) /\
    forall i, (i < nb)%N -> v i = f.[pt r s i].
Proof.
move=> H Hfuel Hf; have d0 := ok_d H.
have Pw j : f`_j * (get_q o ^+ g_n o) ^+ j = f`_j * (r ^+ 2) ^+ (d * j).
  rewrite /get_q (ok_n H); case: (d =P 1%N) => [d1|d1].
    case: j => [|j]; first by rewrite muln0 !expr0.
    by rewrite nth_default ?mul0r //; apply: leq_trans Hf _; lia.
  have -> : (g_x o 1%N * g_x o 1%N)^-1 = r ^+ 2.
    by rewrite (ok_x H); [rewrite -invfM invrK -exprD|lia].
  by rewrite -exprM.
elim: it fl val idx => [|it IH] fl val idx Hfl Sfl Hv Hidx Hnb; first by lia.
have [t [Et Ht]] := geo_evalP H Hfuel Sfl.
rewrite /= Et /= (ok_n H).
set val' := foldl _ val _.
have Hv' i : (i < idx + d)%N -> val' i = f.[pt r s i].
  move=> Hi; rewrite /val'.
  have G k i' : foldl (fun (val : nat -> F) i => upd val (idx + i)%N (t i)) val (iota 0 k) i' =
      if (idx <= i' < idx + k)%N then t (i' - idx)%N else val i'.
    elim: k => [|k IHk]; first by rewrite (_ : (idx <= i' < _)%N = false) //; lia.
    rewrite foldl_iotaR add0n /upd; case: eqP => [->|N].
      by rewrite (_ : (idx <= idx + k < _)%N); [rewrite addKn|lia].
    by rewrite IHk; congr (if _ then _ else _); lia.
  rewrite G; case: ifP => C; last by apply: Hv; lia.
  rewrite Ht; last by lia.
  rewrite (horner_coef_wide _ Sfl) (horner_coef_wide _ Hf); apply: eq_bigr => j _.
  rewrite Hfl -mulrA; congr (_ * _); rewrite /pt !exprMn mulrCA; congr (_ * _).
  have Ei : i = (idx + (i - idx))%N by lia.
  by rewrite -!exprM -!exprD; congr (_ ^+ _); rewrite [in RHS]Ei; move: (i - idx)%N => u; lia.
have := @geo_scaleE (fun i => fl`_i) (get_q o ^+ d) (size f).
case: (foldl _ _ _) => [c w] /= Hc.
case: ifP => C; last by exists val'; split=> // i Hi; apply: Hv'; lia.
rewrite -(ok_n H); apply: IH => //; try (rewrite (ok_n H)).
- move=> j; rewrite coef_poly; case: ltnP => Hj; last by rewrite nth_default // mul0r.
  rewrite Hc // Hfl mulrAC -(ok_n H) Pw (ok_n H) -mulrA -exprD; congr (_ * _ ^+ _); lia.
- by apply: leq_trans (size_poly _ _) _.
- exact: Hv'.
- by [].
- by move: Hnb; rewrite mulnS addnA.
Qed.

End Ok.
