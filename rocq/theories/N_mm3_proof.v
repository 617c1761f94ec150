(** Lemmas for C70: residues, Chinese remaindering, and matrices of vectors of coefficients. *)
From mathcomp Require Import all_ssreflect all_algebra zify.
From Verif Require Import A_base N_shift_proof N_pmat_model N_trs_proof N_mm3_model.
Set Implicit Arguments.
Unset Strict Implicit.
Unset Printing Implicit Defensive.
Import GRing.Theory.

Lemma sub_modE n m y : m < n -> sub_mod ((m + y) %% n) m n = y %% n.
Proof.
move=> H; have n0 : 0 < n by lia.
rewrite -modnDmr; have := ltn_pmod y n0; move: (y %% n) => z Hz.
rewrite /sub_mod; case: (ltnP (m + z) n) => C; first by rewrite modn_small // ifF; lia.
have -> : (m + z) %% n = m + z - n by rewrite -[in LHS](subnK C) modnDr modn_small //; lia.
by rewrite ifT; lia.
Qed.

Lemma add_modE n m y : m < n -> y < n -> add_mod m y n = (m + y) %% n.
Proof.
move=> Hm Hy; rewrite /add_mod; case: (leqP n (m + y)) => C; last by rewrite modn_small.
by rewrite -[in RHS](subnK C) modnDr modn_small //; lia.
Qed.

Lemma inv_modP x n v : 1 < n -> inv_mod x n = Some v -> v * x = 1 %[mod n].
Proof.
move=> Hn; rewrite /inv_mod; case: ifP => // C [<-].
have x0 : 0 < x by rewrite lt0n; apply: contraTneq C => ->; rewrite /coprime gcd0n; lia.
rewrite modnMml; case: (egcdnP n x0) => km kn E _ /=; rewrite E.
by rewrite (eqP (C : gcdn x n == 1)) modnMDl.
Qed.

Lemma inv_mod_some x n : coprime x n -> exists v, inv_mod x n = Some v.
Proof. by rewrite /inv_mod => ->; eexists. Qed.

Lemma solve x n v t : v * x = 1 %[mod n] -> mul_mod (x * t %% n) v n = t %% n.
Proof.
move=> H; rewrite /mul_mod modnMml.
have -> : x * t * v = (v * x) * t by rewrite mulnC mulnA.
by rewrite -modnMml H modnMml mul1n.
Qed.

Lemma crt2E p p0 p1 v S : 0 < p -> 0 < p0 -> p0 <= p1 -> v * p0 = 1 %[mod p1] -> S < p0 * p1 ->
  add_mod (S %% p0 %% p) (mul_mod (mul_mod (sub_mod (S %% p1) (S %% p0) p1) v p1 %% p) (p0 %% p) p) p = S %% p.
Proof.
move=> pp pp0 Hle Hv HS.
have E : S = S %% p0 + p0 * (S %/ p0) by rewrite [LHS](divn_eq S p0) addnC mulnC.
have Ht : S %/ p0 < p1 by rewrite ltn_divLR // mulnC.
have H0 : S %% p0 < p1 by apply: leq_trans (ltn_pmod _ pp0) Hle.
have -> : sub_mod (S %% p1) (S %% p0) p1 = p0 * (S %/ p0) %% p1 by rewrite [in S %% p1]E sub_modE.
rewrite solve // (modn_small Ht) add_modE ?ltn_mod // /mul_mod modnMml modnMmr modnDml modnDmr.
by rewrite [in RHS]E [_ * p0]mulnC.
Qed.

Lemma crt3E p p0 p1 p2 v w S : 0 < p -> 0 < p0 -> p0 <= p1 -> p1 <= p2 -> v * p0 = 1 %[mod p1] ->
  w * mul_mod p0 p1 p2 = 1 %[mod p2] -> S < p0 * p1 * p2 ->
  let alpha0 := S %% p0 in
  let alpha1 := mul_mod (sub_mod (S %% p1) alpha0 p1) v p1 in
  let alpha2 := mul_mod (sub_mod (S %% p2) (add_mod alpha0 (mul_mod alpha1 p0 p2) p2) p2) w p2 in
  add_mod (alpha0 %% p) (add_mod (mul_mod (alpha1 %% p) (p0 %% p) p)
     (mul_mod (alpha2 %% p) (mul_mod (p0 %% p) (p1 %% p) p) p) p) p = S %% p.
Proof.
move=> pp pp0 H01 H12 Hv Hw HS.
have pp1 : 0 < p1 by lia. have pp2 : 0 < p2 by lia.
have E : S = S %% p0 + p0 * (S %/ p0) by rewrite [LHS](divn_eq S p0) addnC mulnC.
have H0 : S %% p0 < p0 := ltn_pmod _ pp0.
cbv zeta; have -> : sub_mod (S %% p1) (S %% p0) p1 = p0 * (S %/ p0) %% p1 by rewrite [in S %% p1]E sub_modE; lia.
rewrite solve //; set t := S %/ p0; set a1 := t %% p1; set t2 := t %/ p1.
have Et : t = a1 + p1 * t2 by rewrite [LHS](divn_eq t p1) addnC mulnC.
have Ht2 : t2 < p2 by rewrite /t2 /t -divnMA ltn_divLR ?muln_gt0 ?pp0 // mulnC.
have E2 : S = (S %% p0 + p0 * a1) + p0 * p1 * t2 by rewrite [LHS]E -/t Et mulnDr addnA mulnA.
have -> : add_mod (S %% p0) (mul_mod a1 p0 p2) p2 = (S %% p0 + p0 * a1) %% p2.
  by rewrite add_modE ?ltn_mod //; [rewrite /mul_mod modnDmr [a1 * _]mulnC|lia].
have -> : sub_mod (S %% p2) ((S %% p0 + p0 * a1) %% p2) p2 = mul_mod p0 p1 p2 * t2 %% p2.
  by rewrite [in S %% p2]E2 -modnDml sub_modE ?ltn_mod // /mul_mod modnMml.
rewrite solve // (modn_small Ht2) /mul_mod !add_modE ?ltn_mod //.
rewrite !modnMml !modnMmr !modnDmr !modnDml ?modnDmr.
have -> : t2 * (p0 * (p1 %% p)) %% p = t2 * (p0 * p1) %% p by rewrite -modnMmr [p0 * _ %% p]modnMmr modnMmr.
by rewrite -[LHS]modnDmr modnDm modnDmr [in RHS]E2 [a1 * _]mulnC [t2 * _]mulnC addnA.
Qed.

(** vectors of coefficients *)
Definition normal (s : seq nat) : bool := last 1 s != 0.

Lemma normalizeE s k : nth 0 (normalize s) k = nth 0 s k.
Proof.
elim: s k => //= c s IH k; case: ifP => [/andP[/eqP-> /eqP E]|_]; last by case: k => /=.
by case: k => //= k; rewrite -IH E nth_nil.
Qed.

Lemma normalize_normal s : normal (normalize s).
Proof.
elim: s => //= c s; case: (normalize s) => [|d t] IH; last by rewrite andbF.
by rewrite andbT; case: eqP => // /eqP.
Qed.

Lemma normal_size s t : normal s -> normal t -> (forall k, nth 0 s k = nth 0 t k) -> s = t.
Proof.
move=> Ns Nt H; have G (u v : seq nat) : normal u -> (forall k, nth 0 u k = nth 0 v k) -> size u <= size v.
  case: u => // c u Nu E; rewrite leqNgt; apply/negP => C.
  by move: Nu; rewrite /normal /= (last_nth 0) -[nth _ _ _]/(nth 0 (c :: u) (size u)) E nth_default.
apply: (@eq_from_nth _ 0) => [|k _]; last exact: H.
by apply/eqP; rewrite eqn_leq !G.
Qed.

Lemma set_loop (f : nat -> nat) t lo n k : lo + n <= size t ->
  nth 0 (foldl (fun t k => set_nth 0 t k (f k)) t (iota lo n)) k = (if lo <= k < lo + n then f k else nth 0 t k) /\
  size (foldl (fun t k => set_nth 0 t k (f k)) t (iota lo n)) = size t.
Proof.
elim: n => [|n IH] H; first by rewrite addn0 ltnNge andbN.
have [|E1 E2] := IH; first by lia.
rewrite foldl_iotaR nth_set_nth size_set_nth E2 /= E1; split; last by apply/maxn_idPr; lia.
case: eqP => [->|N]; first by rewrite ifT; lia.
by congr (if _ then _ else _); lia.
Qed.

Lemma combineE lo hi f k : lo <= hi -> nth 0 (combine lo hi f) k = if k < hi then f k else 0.
Proof.
move=> H; rewrite /combine normalizeE.
have [|E1 E2] := @set_loop f (nseq hi 0) 0 lo k; first by rewrite size_nseq; lia.
have [|E3 _] := @set_loop f (foldl (fun t k => set_nth 0 t k (f k)) (nseq hi 0) (iota 0 lo)) lo (hi - lo) k.
  by rewrite E2 size_nseq subnKC.
rewrite E3 E1 subnKC // nth_nseq; case: (ltnP k lo) => C /=; first by rewrite ifT //; lia.
by case: ifP; rewrite ?if_same.
Qed.

Lemma reduceE p s k : nth 0 (reduce_entry p s) k = nth 0 s k %% p.
Proof.
rewrite /reduce_entry normalizeE.
have [|E _] := @set_loop (fun k => nth 0 s k %% p) (nseq (size s) 0) 0 (size s) k; first by rewrite size_nseq.
rewrite E add0n /= nth_nseq if_same; case: ltnP => // H.
by rewrite nth_default // mod0n.
Qed.

Lemma reduce_normal p s : normal (reduce_entry p s). Proof. exact: normalize_normal. Qed.

Lemma zlenP (a : zmat) d : reflect (forall i j, i < znr a -> j < znc a -> size (zent a i j) <= d) (zlen a <= d).
Proof.
rewrite /zlen; apply: (iffP idP) => [|H].
- have G l d0 i : foldl (fun d j => if d < size (zent a i j) then size (zent a i j) else d) d0 l <= d ->
      d0 <= d /\ forall j, j \in l -> size (zent a i j) <= d.
    elim: l d0 => //= j l IH d0 /IH [H1 H2]; split; first by move: H1; case: ltnP; lia.
    by move=> j'; rewrite inE => /orP[/eqP->|/H2 //]; move: H1; case: ltnP; lia.
  have G2 l d0 : foldl (fun d i => foldl (fun d j => if d < size (zent a i j) then size (zent a i j) else d) d (iota 0 (znc a))) d0 l <= d ->
      d0 <= d /\ forall i, i \in l -> forall j, j < znc a -> size (zent a i j) <= d.
    elim: l d0 => //= i l IH d0 /IH [/G [H1 H3] H2]; split=> // i'; rewrite inE => /orP[/eqP-> j Hj|/H2 //].
    by apply: H3; rewrite mem_iota.
  by move=> /G2 [_ H] i j Hi Hj; apply: H => //; rewrite mem_iota.
- have G l d0 i : i < znr a -> d0 <= d -> (forall j, j \in l -> j < znc a) ->
      foldl (fun d j => if d < size (zent a i j) then size (zent a i j) else d) d0 l <= d.
    move=> Hi; elim: l d0 => //= j l IH d0 H0 Hl; apply: IH => [|j' Hj']; last by apply: Hl; rewrite inE Hj' orbT.
    by case: ifP => // _; apply: H => //; apply: Hl; rewrite mem_head.
  have G2 l d0 : d0 <= d -> (forall i, i \in l -> i < znr a) ->
      foldl (fun d i => foldl (fun d j => if d < size (zent a i j) then size (zent a i j) else d) d (iota 0 (znc a))) d0 l <= d.
    elim: l d0 => //= i l IH d0 H0 Hl; apply: IH => [|i' Hi']; last by apply: Hl; rewrite inE Hi' orbT.
    by apply: G => // [|j]; [apply: Hl; rewrite mem_head|rewrite mem_iota].
  by apply: G2 => // i; rewrite mem_iota.
Qed.

Lemma zlen_size (a : zmat) i j : i < znr a -> j < znc a -> size (zent a i j) <= zlen a.
Proof. by move: i j; apply/zlenP. Qed.

Lemma to_field_coef q a i j k : ((ent (to_field q a) i j)`_k = (nth 0%N (zent a i j) k)%:R)%R.
Proof. by rewrite coef_poly; case: ltnP => // H; rewrite nth_default. Qed.

Lemma to_field_plen q a : plen (to_field q a) <= zlen a.
Proof. by apply/plenP=> i j Hi Hj; apply: leq_trans (size_poly _ _) (zlen_size Hi Hj). Qed.

Lemma from_field_coef q c i j k : nth 0 (zent (@from_field q c) i j) k = val ((ent c i j)`_k)%R.
Proof.
rewrite /=; case: (ltnP k (size (ent c i j))) => H; first by rewrite (nth_map 0%R).
by rewrite !nth_default ?size_map.
Qed.

Lemma from_field_normal q c i j : normal (zent (@from_field q c) i j).
Proof.
rewrite /normal /=; move: (valP (ent c i j)); rewrite /=; case: (polyseq _) => //= z s H.
by rewrite last_map; apply: contraNneq H => E; apply/eqP/val_inj.
Qed.
