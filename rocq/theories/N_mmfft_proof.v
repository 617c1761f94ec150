(** Loops of the products by evaluation at roots of unity. *)
From mathcomp Require Import all_ssreflect all_algebra zify.
From Verif Require Import A_base A_mul_model A_mul_proof N_shift_proof N_multi_model N_multi_proof N_pmat_model N_poly_model.
From Verif Require Import N_trs_proof N_util_model N_util_proof N_geo2_proof N_mfft_model N_eval_model N_eval_proof N_mmfft_model P_ntrs.
Set Implicit Arguments.
Unset Strict Implicit.
Unset Printing Implicit Defensive.
Import GRing.Theory.
Local Open Scope ring_scope.

(** a loop seen through an observation that some of the steps set to v *)
Lemma loop_hit (A : eqType) (T X : Type) (obs : T -> X) (f : T -> A -> T) (hit : pred A) (v : X) (s : seq A) t :
  (forall a t, a \in s -> obs (f t a) = if hit a then v else obs t) ->
  obs (foldl f t s) = if has hit s then v else obs t.
Proof.
elim: s t => //= a s IH t H; rewrite IH; last by move=> b t' Hb; apply: H; rewrite inE Hb orbT.
by rewrite H ?mem_head //; case: (hit a); rewrite ?if_same.
Qed.

Lemma has_iota (hit : pred nat) m n : has hit (iota m n) <-> exists2 k, (m <= k < m + n)%N & hit k.
Proof. by split=> [/hasP[k]|[k]]; rewrite ?mem_iota => H1 H2; [exists k|apply/hasP; exists k; rewrite ?mem_iota]. Qed.

(** *** accumulation of products in double words *)
Section LL.
Variables (wbits spbits pr : nat).
Hypothesis Hb : (spbits < wbits)%N.
Hypothesis Hp : (1 < pr < 2 ^ spbits)%N.
Variables (u v : nat -> nat).
Local Notation W := (2 ^ (2 * wbits))%N.
Local Notation n0 := (slice wbits spbits).

Lemma ll_redE z : ll_red wbits pr z = (z %% pr)%N.
Proof. by rewrite /ll_red [in RHS](divn_eq z (2 ^ wbits)) -modnDml modnMml modnDml. Qed.

Lemma slice_pos : (0 < n0)%N.
Proof.
rewrite /slice subn_gt0 -{1}(expn0 2) ltn_exp2l //; lia.
Qed.

(** a slice does not overflow *)
Lemma slice_bound c z : (c <= n0.+1)%N -> (z <= c * (pr.-1 * pr.-1))%N -> (z < W)%N.
Proof.
move=> Hc Hz.
have E : W = (n0.+1 * (2 ^ spbits * 2 ^ spbits))%N.
  rewrite /slice -subSn ?expn_gt0 // subSS subn0 -!expnD; congr (2 ^ _)%N; lia.
rewrite E; apply: (leq_ltn_trans Hz); apply: (@leq_ltn_trans (n0.+1 * (pr.-1 * pr.-1))).
  by rewrite leq_mul2r Hc orbT.
rewrite ltn_mul2l /=; apply: ltn_mul; lia.
Qed.

Hypothesis Hu : forall j, (u j < pr)%N.
Hypothesis Hv : forall j, (v j < pr)%N.

Lemma prod_le j : (u j * v j <= pr.-1 * pr.-1)%N.
Proof. apply: leq_mul; [have := Hu j|have := Hv j]; lia. Qed.

(** c products are added to z, which counts for c0 of them *)
Lemma ll_slice z c0 c start : (c0 + c <= n0.+1)%N -> (z <= c0 * (pr.-1 * pr.-1))%N ->
  let r := foldl (fun z j => ll_mul_add wbits z (u (j + start)%N) (v (j + start)%N)) z (iota 0 c) in
  r = (z + \sum_(j < c) u (j + start) * v (j + start))%N /\ (r <= (c0 + c) * (pr.-1 * pr.-1))%N.
Proof.
move=> Hc Hz; elim: c Hc => [|c IH] Hc; first by rewrite /= big_ord0 !addn0.
rewrite foldl_iotaR; have [E B] := IH ltac:(lia); rewrite E in B *.
rewrite add0n big_ord_recr /= /ll_mul_add addnA.
have L : (z + \sum_(j < c) u (j + start) * v (j + start) + u (c + start) * v (c + start) <= (c0 + c.+1) * (pr.-1 * pr.-1))%N.
  by rewrite addnS mulSn addnC; apply: leq_add; rewrite ?prod_le.
by rewrite modn_small // (slice_bound Hc).
Qed.

Lemma ll_dotE n : (0 < n)%N -> ll_dot wbits spbits pr n u v = ((\sum_(j < n) u j * v j) %% pr)%N.
Proof.
move=> n_pos; rewrite /ll_dot.
have s0 := slice_pos; set fs := first_slice _ _ n; set ns := nb_slices _ _ n.
have [Hf En] : (0 < fs <= n0)%N /\ (n = fs + ns * n0)%N.
  rewrite /fs /ns /first_slice /nb_slices; have := divn_eq n n0; have := ltn_pmod n s0.
  case: eqP => [-> |N] /=; last by move: N; move: (n %/ n0)%N (n %% n0)%N => q m; split; lia.
  move: (n %/ n0)%N => q.
  move=> _ E; have q0 : (0 < q)%N by case: q E => //; lia.
  by split; [lia|rewrite mulnBl mul1n subnKC ?leq_pmull // E addn0].
set z1 := foldl _ _ (iota 1 _).
have [E1 B1] : z1 = (\sum_(j < fs) u j * v j)%N /\ (z1 <= fs * (pr.-1 * pr.-1))%N.
  have L1 : (1 + (fs - 1) <= n0.+1)%N by move: Hf; clear; lia.
  have := @ll_slice (ll_mul wbits (u 0%N) (v 0%N)) 1 (fs - 1) 1 L1.
  have -> : ll_mul wbits (u 0%N) (v 0%N) = (u 0 * v 0)%N.
    by rewrite /ll_mul modn_small //; apply: (@slice_bound 1 _ isT); rewrite mul1n prod_le.
  have -> : foldl (fun z j => ll_mul_add wbits z (u (j + 1)%N) (v (j + 1)%N)) (u 0 * v 0)%N (iota 0 (fs - 1)) = z1.
    have Ei : iota 1 (fs - 1) = map (addn 1) (iota 0 (fs - 1)) by rewrite -iotaDl addn0.
    rewrite /z1 Ei -foldl_mapE; have -> : ll_mul wbits (u 0%N) (v 0%N) = (u 0 * v 0)%N.
      by rewrite /ll_mul modn_small //; apply: (@slice_bound 1 _ isT); rewrite mul1n prod_le.
    by apply: foldl_ext => z j; rewrite add1n addn1.
  rewrite mul1n prod_le => /(_ isT) [E B]; split; last by move: B; rewrite subnKC //; lia.
  rewrite E; have -> : fs = (fs - 1).+1 by lia.
  by rewrite big_ord_recl subSS subn0; congr (_ + _)%N; apply: eq_bigr => j _; rewrite addn1.
suff G k : let st := foldl (fun (st : nat * nat) jj => let: (tmp, start) := st in
      let tmp := ll_red wbits pr tmp in
      (foldl (fun tmp j => ll_mul_add wbits tmp (u (j + start)%N) (v (j + start)%N)) tmp (iota 0 n0), (start + n0)%N))
    (z1, fs) (iota 0 k) in st.2 = (fs + k * n0)%N /\ (st.1 %% pr = (\sum_(j < fs + k * n0) u j * v j) %% pr)%N.
  have [E2 E3] := G ns; move: E2 E3; case: (foldl _ _ _) => z st /= _; rewrite ll_redE En => <-; by [].
elim: k => [|k [IH1 IH2]]; first by rewrite /= mul0n addn0 E1.
rewrite foldl_iotaR; move: IH1 IH2; case: (foldl _ _ _) => z st /= -> IH2.
split; first by rewrite mulSn addnA addnAC.
have L : (ll_red wbits pr z <= 1 * (pr.-1 * pr.-1))%N.
  rewrite ll_redE mul1n; have := ltn_pmod z (ltac:(lia) : (0 < pr)%N) => H.
  by apply: (@leq_trans pr.-1); [lia|rewrite leq_pmulr //; lia].
have [E B] := @ll_slice _ 1 n0 (fs + k * n0) ltac:(lia) L.
rewrite E ll_redE -modnDml modn_mod IH2 modnDml; congr (_ %% _)%N.
rewrite mulSn addnA [(fs + n0)%N]addnC -addnA addnC -[in RHS](big_mkord xpredT (fun j => u j * v j)%N).
rewrite (big_cat_nat _ _ _ (leq0n (fs + k * n0))) /=; last by lia.
by rewrite big_mkord addnC; congr (_ + _)%N; rewrite -{3}(add0n (fs + k * n0)%N) big_addn addnK big_mkord.
Qed.
End LL.

Section MatFft.
Variable F : fieldType.
Local Notation P := {poly F}.
Local Notation arr := (nat -> F).

Lemma from_truncE len l (y v : arr) (p : P) : distinct len y -> (size p <= l <= len)%N ->
  (forall r, (r < len)%N -> v r = p.[y r]) -> from_trunc len y v l = p.
Proof.
move=> D /andP[S1 S2] Hv; rewrite /from_trunc (@interp_poly _ len y p (fun k _ => v k) 0%N D) ?ptrunc_id //.
exact: leq_trans S1 S2.
Qed.

(** *** the buffers *)
Definition allocated (c : nat) (RR : nat -> option arr) : Prop := forall kk, isSome (RR kk) = (kk < c)%N.

Lemma load_blockE (f : nat -> arr) bnd R RR c : allocated c RR -> let st := load_block f bnd (R, RR) in
  [/\ allocated (maxn c bnd) st.2, (forall kk, (kk < bnd)%N -> st.2 kk = Some (f kk))
    & (0 < bnd)%N -> isSome st.1 = (bnd <= c)%N].
Proof.
move=> Ac; have G : let st := load_block f bnd (R, RR) in
   (forall kk, st.2 kk = if (kk < bnd)%N then Some (f kk) else RR kk) /\ ((0 < bnd)%N -> st.1 = RR bnd.-1).
  rewrite /load_block; elim: bnd => [|b [IH1 IH2]] //; rewrite foldl_iotaR.
  move: (foldl _ _ _) IH1 IH2 => [R1 RR1] /= IH1 IH2; split=> [kk|_]; last by rewrite IH1 ltnn.
  by rewrite add0n /upd IH1; case: eqP => [->|N]; [rewrite ltnSn|congr (if _ then _ else _); lia].
case: G => G1 G2 st; rewrite /st; split=> [kk|kk Hk|b0]; rewrite ?G1 ?Hk //.
- by case: ltnP => Hk /=; rewrite ?Ac; [rewrite leq_max Hk orbT|rewrite leq_max [(kk < bnd)%N]ltnNge Hk orbF].
- by rewrite G2 // Ac prednK.
Qed.

Lemma not_null RR bnd : (forall kk, (kk < bnd)%N -> isSome (RR kk)) -> @null_in F RR bnd = false.
Proof.
by move=> H; apply/negbTE; rewrite /null_in negbK; apply/allP=> kk; rewrite mem_iota; apply: H.
Qed.

(** the blocks of a loop *)
Definition pairs (s n : nat) : seq (nat * nat) := [seq (i, b) | i <- iota 0 s, b <- iota 0 n].
Lemma pairs_foldl (T : Type) (f : T -> nat -> nat -> T) t s n :
  foldl (fun t i => foldl (fun t b => f t i b) t (iota 0 n)) t (iota 0 s) = foldl (fun t q => f t q.1 q.2) t (pairs s n).
Proof.
rewrite /pairs -(foldl_nest (fun t q => f t q.1 q.2)); apply: foldl_ext => {}t i.
by rewrite -foldl_mapE.
Qed.
Lemma pairsP s n q : (q \in pairs s n) = (q.1 < s)%N && (q.2 < n)%N.
Proof.
case: q => i b; apply/allpairsP/andP => [[[i' b'] /= [Hi Hb [-> ->]]]|[Hi Hb]].
  by move: Hi Hb; rewrite !mem_iota.
by exists (i, b); rewrite !mem_iota.
Qed.

Definition bnd (bs t b : nat) : nat := minn bs (t - b * bs).
Lemma bnd_pos bs t b : (0 < bs)%N -> (b < blocks t bs)%N -> (0 < bnd bs t b)%N.
Proof.
rewrite /bnd /blocks => s0 Hb; have := leq_trunc_div (t + bs - 1) bs.
have : (b.+1 * bs <= (t + bs - 1) %/ bs * bs)%N by rewrite leq_mul2r Hb orbT.
by rewrite mulSn; lia.
Qed.
Lemma bnd_last bs t k : (0 < bs)%N -> (k < t)%N -> ((k %/ bs < blocks t bs) /\ (k %% bs < bnd bs t (k %/ bs)))%N.
Proof.
move=> s0 Hk; have [b [kk [Hb Hkk E]]] := (@blocked t bs k s0).2 Hk.
have L : (kk < bs)%N by lia.
by rewrite E; have [-> ->] := divmod_col b L.
Qed.
Lemma bnd_in bs t b kk : (kk < bnd bs t b)%N -> [/\ (b * bs + kk < t)%N, ((b * bs + kk) %/ bs = b)%N & ((b * bs + kk) %% bs = kk)%N].
Proof.
rewrite /bnd => H; have L : (kk < bs)%N by lia.
by have [-> ->] := divmod_col b L; split=> //; lia.
Qed.

Section Load.
Variables (T : Type) (wr : T -> nat -> nat -> nat -> F -> T) (obs : T -> nat -> nat -> nat -> F).
Variables (bs len s t : nat) (y : arr) (e : fmat P).
Hypothesis s0 : (0 < bs)%N.
Hypothesis Hobs : forall M r i k v r' i' k', (r < len)%N -> (i < s)%N -> (k < t)%N -> (r' < len)%N -> (i' < s)%N -> (k' < t)%N ->
  obs (wr M r i k v) r' i' k' = if [&& r == r', i == i' & k == k'] then v else obs M r' i' k'.

Let step (st : aoutcome (buffers F * T)) (i blk : nat) : aoutcome (buffers F * T) :=
  match st with
  | AUB => AUB
  | AOk (RS, M) =>
    let k := (blk * bs)%N in
    let kk_bnd := minn bs (t - k) in
    let: (R, RR) := load_block (fun kk => to_rep y (e i (k + kk)%N)) kk_bnd RS in
    if null_in RR kk_bnd && (0 < len)%N then AUB
    else AOk (R, RR, foldl (fun M r => foldl (fun M kk => wr M r i (k + kk)%N (rd (RR kk) r)) M (iota 0 kk_bnd)) M (iota 0 len))
  end.

Lemma load_step R RR M c i b : allocated c RR -> (i < s)%N -> (b < blocks t bs)%N ->
  exists R' RR' M', [/\ step (AOk (R, RR, M)) i b = AOk (R', RR', M'), allocated (maxn c (bnd bs t b)) RR',
    isSome R' = (bnd bs t b <= c)%N &
    forall r i' k, (r < len)%N -> (i' < s)%N -> (k < t)%N ->
      obs M' r i' k = if (i' == i) && (k %/ bs == b)%N then (e i' k).[y r] else obs M r i' k].
Proof.
move=> Ac Hi Hb; have b0 := bnd_pos s0 Hb.
rewrite /step -/(bnd bs t b).
have [] := load_blockE (fun kk => to_rep y (e i (b * bs + kk)%N)) (bnd bs t b) R Ac.
case: (load_block _ _ _) => R' RR' /= A1 A2 A3.
rewrite not_null /=; last by move=> kk Hk; rewrite A2.
eexists R', RR', _; split; [by []|by []|exact: A3|move=> r i' k Hr Hi' Hk].
rewrite (loop_hit (obs := fun M => obs M r i' k) (hit := fun r' => [&& r' == r, i' == i & (k %/ bs == b)%N]) (v := (e i' k).[y r])).
  case: ifP => [/hasP[r' _ /and3P[_ -> ->]] //|/negbT/hasPn H].
  case: andP => // -[H1 H2]; have := H r; rewrite mem_iota Hr eqxx H1 H2 => /(_ isT); by [].
move=> r1 M1; rewrite mem_iota => Hr1.
rewrite (loop_hit (obs := fun M => obs M r i' k) (hit := fun kk => [&& r1 == r, i == i' & (b * bs + kk == k)%N]) (v := (e i' k).[y r])).
  have -> : has (fun kk => [&& r1 == r, i == i' & (b * bs + kk == k)%N]) (iota 0 (bnd bs t b)) =
            [&& r1 == r, i' == i & (k %/ bs == b)%N]; last by [].
  apply/hasP/and3P=> [[kk]|[H1 H2 H3]].
    rewrite mem_iota => /= Hkk /and3P[-> /eqP-> /eqP<-]; have [_ -> _] := bnd_in Hkk.
    by rewrite !eqxx.
  have [K1 K2] := bnd_last s0 Hk; exists (k %% bs)%N; first by rewrite mem_iota /= -(eqP H3).
  by rewrite H1 eq_sym H2 -(eqP H3) -divn_eq eqxx.
move=> kk M2; rewrite mem_iota => /= Hkk; have [K1 K2 K3] := bnd_in Hkk.
rewrite Hobs //; case: and3P => // -[/eqP Er /eqP Ei /eqP Ek].
by rewrite A2 //= /to_rep Er Ei Ek.
Qed.

Definition top (l : seq (nat * nat)) (c : nat) : nat := foldl maxn c [seq bnd bs t q.2 | q <- l].
Lemma top_rcons l q c : top (rcons l q) c = maxn (top l c) (bnd bs t q.2).
Proof. by rewrite /top map_rcons -cats1 foldl_cat. Qed.

Lemma load_phaseE R RR M c : allocated c RR ->
  exists R' RR' M', [/\ load_phase wr bs len s t y e (AOk (R, RR, M)) = AOk (R', RR', M'),
    allocated (top (pairs s (blocks t bs)) c) RR',
    forall l q, pairs s (blocks t bs) = rcons l q -> isSome R' = (bnd bs t q.2 <= top l c)%N &
    forall r i k, (r < len)%N -> (i < s)%N -> (k < t)%N -> obs M' r i k = (e i k).[y r]].
Proof.
move=> Ac; rewrite /load_phase (pairs_foldl step).
have : {subset pairs s (blocks t bs) <= pairs s (blocks t bs)} by [].
suff G l : {subset l <= pairs s (blocks t bs)} -> exists R' RR' M',
    [/\ foldl (fun st q => step st q.1 q.2) (AOk (R, RR, M)) l = AOk (R', RR', M'), allocated (top l c) RR',
    forall l' q, l = rcons l' q -> isSome R' = (bnd bs t q.2 <= top l' c)%N &
    forall r i k, (r < len)%N -> (i < s)%N -> (k < t)%N -> (i, k %/ bs)%N \in l -> obs M' r i k = (e i k).[y r]].
  move=> /G [R' [RR' [M' [H1 H2 H3 H4]]]]; exists R', RR', M'; split=> // r i k Hr Hi Hk.
  by apply: H4 => //; rewrite pairsP Hi; have [] := bnd_last s0 Hk.
elim/last_ind: l => [|l q IH] Hl.
  by exists R, RR, M; split=> // -[].
have [R1 [RR1 [M1 [H1 H2 _ H4]]]] := IH (fun z Hz => Hl z ltac:(by rewrite mem_rcons inE Hz orbT)).
have := Hl q ltac:(by rewrite mem_rcons mem_head); rewrite pairsP => /andP[Hi Hb].
have [R2 [RR2 [M2 [K1 K2 K3 K4]]]] := load_step R1 M1 H2 Hi Hb.
exists R2, RR2, M2; split.
- by rewrite -cats1 foldl_cat H1.
- by rewrite top_rcons.
- by move=> l' q' /rcons_inj[<- <-].
- move=> r i k Hr Hi' Hk Hm; rewrite K4 //; case: ifP => // N; apply: H4 => //.
  move: Hm; rewrite mem_rcons inE => /orP[/eqP E|//]; move: N; rewrite -E /= !eqxx; by [].
Qed.

(** all buffers of a block are allocated *)
Lemma top_min c : (0 < s)%N -> (minn bs t <= top (pairs s (blocks t bs)) c)%N.
Proof.
move=> sp; case: (posnP t) => [->|t0]; first by rewrite minn0.
have [K1 _] := bnd_last s0 t0; rewrite div0n in K1.
have : (0%N, 0%N) \in pairs s (blocks t bs) by rewrite pairsP sp K1.
have G l q : q \in l -> (bnd bs t q.2 <= top l c)%N.
  elim/last_ind: l => // l q' IH; rewrite mem_rcons inE top_rcons leq_max => /orP[/eqP->|/IH ->] //.
  by rewrite leqnn orbT.
by move/G; rewrite /bnd mul0n subn0.
Qed.
Lemma top_c l c : (c <= top l c)%N.
Proof. by elim/last_ind: l => // l q IH; rewrite top_rcons leq_max IH. Qed.
End Load.

Lemma flat_inj u i k i' k' : (k < u)%N -> (k' < u)%N -> (i * u + k == i' * u + k')%N = (i == i') && (k == k').
Proof.
move=> Hk Hk'; apply/eqP/andP=> [E|[/eqP-> /eqP->] //].
by have [D1 D2] := divmod_col i Hk; have [D3 D4] := divmod_col i' Hk'; rewrite E D3 in D1; rewrite E D4 in D2; rewrite D1 D2 !eqxx.
Qed.

(** the values of the entries at the points of a block are stored *)
Lemma store_blockE len s u blk (vc : nat -> fmat F) C i k r : (i < s)%N -> (k < u)%N -> (r < len)%N ->
  store_block len s u blk vc C (i * u + k)%N r =
  if (r %/ line_size == blk)%N then vc (r %% line_size)%N i k else C (i * u + k)%N r.
Proof.
move=> Hi Hk Hr; rewrite /store_block; set v := vc _ i k.
rewrite (loop_hit (obs := fun C : nat -> arr => C (i * u + k)%N r) (hit := fun i' => (i' == i) && (r %/ line_size == blk)%N) (v := v)).
  case: ifP => [/hasP[i' _ /andP[_ ->]] //|/negbT/hasPn H].
  by case: ifP => // E; have := H i; rewrite mem_iota Hi E eqxx => /(_ isT).
move=> i' C1 _; rewrite (loop_hit (obs := fun C : nat -> arr => C (i * u + k)%N r)
  (hit := fun kb => [&& i' == i, (k %/ mblock_size == kb)%N & (r %/ line_size == blk)%N]) (v := v)).
  have -> : has (fun kb => [&& i' == i, (k %/ mblock_size == kb)%N & (r %/ line_size == blk)%N]) (iota 0 (blocks u mblock_size)) =
     (i' == i) && (r %/ line_size == blk)%N; last by [].
  apply/hasP/andP=> [[kb _ /and3P[-> _ ->]] //|[H1 H2]].
  have [K1 _] := @bnd_last mblock_size u k isT Hk; exists (k %/ mblock_size)%N; first by rewrite mem_iota.
  by rewrite H1 H2 eqxx.
move=> kb C2 _; rewrite -/(bnd line_size len blk) -/(bnd mblock_size u kb) (loop_hit (obs := fun C : nat -> arr => C (i * u + k)%N r)
  (hit := fun jj => [&& i' == i, (k %/ mblock_size == kb)%N & (blk * line_size + jj == r)%N]) (v := v)).
  have -> : has (fun jj => [&& i' == i, (k %/ mblock_size == kb)%N & (blk * line_size + jj == r)%N]) (iota 0 (bnd line_size len blk)) =
     [&& i' == i, (k %/ mblock_size == kb)%N & (r %/ line_size == blk)%N]; last by [].
  apply/hasP/and3P=> [[jj]|[H1 H2 H3]].
    by rewrite mem_iota => /= Hj /and3P[-> -> /eqP<-]; have [_ -> _] := bnd_in Hj; rewrite eqxx.
  have [_ K2] := @bnd_last line_size len r isT Hr; exists (r %% line_size)%N; first by rewrite mem_iota /= -(eqP H3).
  by rewrite H1 H2 -(eqP H3) -divn_eq eqxx.
move=> jj C3; rewrite mem_iota => /= Hjj; rewrite (loop_hit (obs := fun C : nat -> arr => C (i * u + k)%N r)
  (hit := fun kk => [&& i' == i, (kb * mblock_size + kk == k)%N & (blk * line_size + jj == r)%N]) (v := v)).
  have -> : has (fun kk => [&& i' == i, (kb * mblock_size + kk == k)%N & (blk * line_size + jj == r)%N]) (iota 0 (bnd mblock_size u kb)) =
     [&& i' == i, (k %/ mblock_size == kb)%N & (blk * line_size + jj == r)%N]; last by [].
  apply/hasP/and3P=> [[kk]|[H1 H2 H3]].
    by rewrite mem_iota => /= Hj /and3P[-> /eqP<- ->]; have [_ -> _] := bnd_in Hj; rewrite eqxx.
  have [_ K2] := @bnd_last mblock_size u k isT Hk; exists (k %% mblock_size)%N; first by rewrite mem_iota /= -(eqP H2).
  by rewrite H1 H3 -(eqP H2) -divn_eq eqxx.
move=> kk C4; rewrite mem_iota => /= Hkk; have [K1 K2 K3] := bnd_in Hkk.
rewrite upd2E flat_inj // [i == i']eq_sym [k == _]eq_sym [r == _]eq_sym -andbA; case: and3P => // -[/eqP Ei /eqP Ek /eqP Er].
by rewrite /v -Er; have [_ _ ->] := bnd_in Hjj; rewrite Ei Ek.
Qed.

Lemma fmul_at t (A B : fmat F) (e f : fmat P) (z : F) i k : (forall l, (l < t)%N -> A i l = (e i l).[z]) ->
  (forall l, (l < t)%N -> B l k = (f l k).[z]) -> fmul t A B i k = (\sum_(l < t) e i l * f l k).[z].
Proof. by move=> HA HB; rewrite /fmul horner_sum; apply: eq_bigr => l _; rewrite hornerM HA // HB. Qed.
End MatFft.
