(** C88: Hankel, Toeplitz and lower triangular Toeplitz matrices (ntl-extras). *)
From mathcomp Require Import all_ssreflect all_algebra zify.
From Verif Require Import A_base A_mul_model N_pmat_model N_util_model N_poly_model N_series_proof N_mid_model N_mid_proof P_nmid N_str_model.
Set Implicit Arguments.
Unset Strict Implicit.
Unset Printing Implicit Defensive.
Import GRing.Theory.
Local Open Scope ring_scope.

Lemma mkseq_eq (T : Type) n (f g : nat -> T) : (forall i, (i < n)%N -> f i = g i) -> mkseq f n = mkseq g n.
Proof. by move=> H; apply/eq_in_map => i; rewrite mem_iota add0n => Hi; apply: H. Qed.

Section Core.
Variable F : fieldType.
Variables (fuel MX KARX : nat) (ul : bool) (garb : nat -> F).
Hypothesis HK : (1 < KARX)%N.

Lemma kar_productP rev sb sa (v : nat -> F) : (0 < sa <= fuel)%N -> (0 < sb <= fuel)%N ->
  exists2 r, kar_product fuel KARX ul garb rev sb sa v = Some r & forall j, (j < sb)%N -> r j = \sum_(i < sa) v i * rev`_(i + j).
Proof.
move=> Ha Hb; rewrite /kar_product; set M1 := mloop sa _ _ _; set M2 := mloop (sa + sb - 1) _ _ _.
have E1 x : M1 x = if (sb <= x < sb + sa)%N then v (x - sb)%N else garb x by apply: mloopP.
have E2 x : M2 x = if (sb + sa <= x < sb + sa + (sa + sb - 1))%N then rev`_(x - (sb + sa)) else M1 x by apply: mloopP.
have [|||s -> H] := @C58_karatsuba_memory F fuel KARX ul M2 0 sb sb sa (sb + sa) (sb + sa + (sa + sb - 1)) (maxn sa sb) HK; try lia.
rewrite /=; have [|||||M' -> [HM _]] := H; try by rewrite /disj; lia.
exists M' => // j Hj; have := HM j Hj; rewrite add0n => ->; apply: eq_bigr => i _; have Hi := ltn_ord i.
congr (_ * _).
  rewrite E2 (_ : (_ <= _ < _)%N = false) ?E1; last lia.
  by rewrite (_ : (_ <= _ < _)%N = true) ?addKn //; lia.
by rewrite E2 (_ : (_ <= _ < _)%N = true) ?addKn //; lia.
Qed.

Lemma fft_productP rev sb sa (v : nat -> F) j : (0 < sa)%N -> (j < sb)%N ->
  fft_product rev sb sa (fun i => v (sa - 1 - i)%N) j = \sum_(i < sa) v i * rev`_(i + j).
Proof.
case: sa => // dA _; case: sb => // dB Hj; rewrite /fft_product.
set p := \poly_(i < dA.+1) _; set q := \poly_(i < _) rev`_i.
have -> : fromfft (fftmul (next_pow2 (dA.+1 + dB.+1 - 1)) (cyc (next_pow2 (dA.+1 + dB.+1 - 1)) p) (cyc (next_pow2 (dA.+1 + dB.+1 - 1)) q)) (dA.+1 - 1) (dA.+1 + dB.+1 - 2) = middle_fft p q dA dB.
  rewrite /middle_fft (_ : (dA.+1 + dB.+1 - 1 = dA + dB + 1)%N); last lia.
  rewrite (_ : (dA.+1 - 1 = dA)%N); last lia.
  rewrite (_ : (dA.+1 + dB.+1 - 2 = dA + dB)%N); last lia.
  rewrite /tofft !subn0 !slice0; congr (fromfft (fftmul _ (cyc _ _) (cyc _ _)) _ _).
    by apply/polyP=> i; rewrite !coef_poly; case: ltnP.
  by apply/polyP=> i; rewrite !coef_poly (_ : (dA.+1 + dB.+1 - 1 = (dA + dB).+1)%N); [case: ltnP|lia].
rewrite middle_fftP middle_coef coef_poly Hj coefM.
rewrite (_ : (dA + j).+1 = dA.+1 + j)%N // big_split_ord /= [X in _ + X]big1 ?addr0; last first.
  by move=> i _; rewrite !coef_poly ifF ?mul0r //; lia.
rewrite (reindex_inj rev_ord_inj) /=; apply: eq_bigr => i _; have Hi := ltn_ord i; rewrite subSS.
rewrite !coef_poly ltnS leq_subr ifT; last lia.
have I1 : (dA.+1 - 1 - (dA - i) = i)%N by lia.
have I2 : (dA + j - (dA - i) = i + j)%N by lia.
by rewrite I1 I2.
Qed.

Lemma reverse_loopP n (r : nat -> F) i : (i < n)%N -> reverse_loop n r i = r (n - 1 - i)%N.
Proof.
move=> Hi; rewrite /reverse_loop.
suff H k : (k <= uphalf n)%N -> forall i, (i < n)%N ->
    foldl (fun (r : nat -> F) i => let ri := r i in upd (upd r i (r (n - 1 - i)%N)) (n - 1 - i) ri) r (iota 0 k) i =
    if (i < k)%N || (n - 1 - i < k)%N then r (n - 1 - i)%N else r i.
  by rewrite H // ifT //; lia.
elim: k => [|k IH] Hk j Hj; first by [].
rewrite -[in iota 0 _]addn1 iotaD foldl_cat add0n /=; have Hk' : (k <= uphalf n)%N by lia.
rewrite /upd; case: eqP => [Ej|Nj]; first by rewrite IH //; [rewrite ifF ?ifT; try lia; congr r; lia|lia].
case: eqP => [Ej|Nk]; first by rewrite IH //; [rewrite ifF ?ifT; try lia; congr r; lia|lia].
by rewrite IH //; congr (if _ then _ else _); lia.
Qed.

Lemma hrevP (data : seq F) n m h i : hmat_init data n m = AOk h -> (i < n + m - 1)%N ->
  [/\ hn h = n, hm h = m, hdata h = data & (hrev h)`_i = data`_(n + m - 2 - i)].
Proof. by rewrite /hmat_init; case: ifP => // _ [<-] Hi; rewrite /= nth_mkseq. Qed.

Lemma right_coreP (data : seq F) n m h (v : nat -> F) : (0 < n <= fuel)%N -> (0 < m <= fuel)%N -> hmat_init data n m = AOk h ->
  exists2 r, hankel_right_core fuel MX KARX ul garb h v = Some r &
    forall i, (i < n)%N -> r i = \sum_(j < m) data`_(n + m - 2 - i - j) * v j.
Proof.
move=> Hn Hm E; have [En Em Ed _] : [/\ hn h = n, hm h = m, hdata h = data & (hrev h)`_0 = data`_(n + m - 2 - 0)] by apply: hrevP E _; lia.
have R i : (i < n)%N -> \sum_(j < m) v j * (hrev h)`_(j + i) = \sum_(j < m) data`_(n + m - 2 - i - j) * v j.
  move=> Hi; apply: eq_bigr => j _; have Hj := ltn_ord j; rewrite mulrC; congr (_ * _).
  by have [|_ _ _ ->] := hrevP (i := (j + i)%N) E; [lia|congr (_`_ _); lia].
rewrite /hankel_right_core En Em; case: ifP => _.
  by have [|r -> H] := @kar_productP (hrev h) n m v Hm; [lia|exists r => // i Hi; rewrite H // R].
by eexists => [|i Hi]; [reflexivity|rewrite fft_productP ?R //; lia].
Qed.

Lemma left_coreP (data : seq F) n m h (v : nat -> F) : (0 < n <= fuel)%N -> (0 < m <= fuel)%N -> hmat_init data n m = AOk h ->
  exists2 r, hankel_left_core fuel MX KARX ul garb h v = Some r &
    forall j, (j < m)%N -> r j = \sum_(i < n) v i * data`_(n + m - 2 - i - j).
Proof.
move=> Hn Hm E; have [En Em Ed _] : [/\ hn h = n, hm h = m, hdata h = data & (hrev h)`_0 = data`_(n + m - 2 - 0)] by apply: hrevP E _; lia.
have R j : (j < m)%N -> \sum_(i < n) v i * (hrev h)`_(i + j) = \sum_(i < n) v i * data`_(n + m - 2 - i - j).
  move=> Hj; apply: eq_bigr => i _; have Hi := ltn_ord i; congr (_ * _).
  by have [|_ _ _ ->] := hrevP (i := (i + j)%N) E; [lia|congr (_`_ _); lia].
rewrite /hankel_left_core En Em; case: ifP => _.
  by have [|r -> H] := @kar_productP (hrev h) m n v Hn; [lia|exists r => // i Hi; rewrite H // R].
by eexists => [|i Hi]; [reflexivity|rewrite fft_productP ?R //; lia].
Qed.

Lemma tleft_coreP (data : seq F) n m h (v : nat -> F) : (0 < n <= fuel)%N -> (0 < m <= fuel)%N -> hmat_init data n m = AOk h ->
  exists2 r, toeplitz_left_core fuel MX KARX ul garb h v = Some r &
    forall j, (j < m)%N -> r j = \sum_(i < n) v i * data`_(m + i - 1 - j).
Proof.
move=> Hn Hm E; have [En Em Ed _] : [/\ hn h = n, hm h = m, hdata h = data & (hrev h)`_0 = data`_(n + m - 2 - 0)] by apply: hrevP E _; lia.
have R j : (j < m)%N -> \sum_(i < n) v (n - 1 - i)%N * (hrev h)`_(i + j) = \sum_(i < n) v i * data`_(m + i - 1 - j).
  move=> Hj; rewrite (reindex_inj rev_ord_inj) /=; apply: eq_bigr => i _; have Hi := ltn_ord i; congr (_ * _).
    by congr v; lia.
  by have [|_ _ _ ->] := hrevP (i := (n - i.+1 + j)%N) E; [lia|congr (_`_ _); lia].
rewrite /toeplitz_left_core En Em; case: ifP => _.
  by have [|r -> H] := @kar_productP (hrev h) m n (fun i => v (n - 1 - i)%N) Hn; [lia|exists r => // i Hi; rewrite H // R].
eexists => [|j Hj]; [reflexivity|].
rewrite -R // -(@fft_productP (hrev h) m n (fun i => v (n - 1 - i)%N) j) //; last lia.
rewrite /fft_product; congr (fromfft (fftmul _ (cyc _ _) _) _ _)`_ _.
by apply/polyP=> i; rewrite !coef_poly; case: ifP => // Hi; congr v; lia.
Qed.

Lemma vectorsP p (f : nat -> option (nat -> F)) (Q : nat -> (nat -> F) -> Prop) :
  (forall l, (l < p)%N -> exists2 r, f l = Some r & Q l r) ->
  exists2 r, vectors p f = Some r & forall l, (l < p)%N -> exists2 q, Q l q & r l =1 q.
Proof.
move=> H; rewrite /vectors; case: allP => [_|[]]; last first.
  by move=> l; rewrite mem_iota /= add0n => Hl; have [r ->] := H l Hl.
by eexists => [|l Hl]; [reflexivity|have [r -> Hr] := H l Hl; exists r].
Qed.

(** *** Hankel and Toeplitz matrices times a vector *)

Theorem C88_hankel_right (data : seq F) n m h (v : seq F) : (0 < n <= fuel)%N -> (0 < m <= fuel)%N -> hmat_init data n m = AOk h -> size v = m ->
  hankel_right fuel MX KARX ul garb h v = Some (AOk (mkseq (fun i => \sum_(j < m) data`_(n + m - 2 - i - j) * v`_j) n)).
Proof.
move=> Hn Hm E Hv; have [En Em _ _] : [/\ hn h = n, hm h = m, hdata h = data & (hrev h)`_0 = data`_(n + m - 2 - 0)] by apply: hrevP E _; lia.
rewrite /hankel_right En Em Hv eqxx /=; have [r -> H] := right_coreP (fun i => v`_i) Hn Hm E.
by congr (Some (AOk _)); apply: mkseq_eq => i Hi; apply: H.
Qed.

Theorem C88_hankel_left (data : seq F) n m h (v : seq F) : (0 < n <= fuel)%N -> (0 < m <= fuel)%N -> hmat_init data n m = AOk h -> size v = n ->
  hankel_left fuel MX KARX ul garb h v = Some (AOk (mkseq (fun j => \sum_(i < n) v`_i * data`_(n + m - 2 - i - j)) m)).
Proof.
move=> Hn Hm E Hv; have [En Em _ _] : [/\ hn h = n, hm h = m, hdata h = data & (hrev h)`_0 = data`_(n + m - 2 - 0)] by apply: hrevP E _; lia.
rewrite /hankel_left En Em Hv eqxx /=; have [r -> H] := left_coreP (fun i => v`_i) Hn Hm E.
by congr (Some (AOk _)); apply: mkseq_eq => i Hi; apply: H.
Qed.

Theorem C88_toeplitz_right (data : seq F) n m h (v : seq F) : (0 < n <= fuel)%N -> (0 < m <= fuel)%N -> hmat_init data n m = AOk h -> size v = m ->
  toeplitz_right fuel MX KARX ul garb h v = Some (AOk (mkseq (fun i => \sum_(j < m) data`_(m + i - 1 - j) * v`_j) n)).
Proof.
move=> Hn Hm E Hv; have [En Em _ _] : [/\ hn h = n, hm h = m, hdata h = data & (hrev h)`_0 = data`_(n + m - 2 - 0)] by apply: hrevP E _; lia.
rewrite /toeplitz_right En Em Hv eqxx /=; have [r Er H] := right_coreP (fun i => v`_i) Hn Hm E.
rewrite (Er : toeplitz_right_core _ _ _ _ _ _ _ = Some r) /=.
congr (Some (AOk _)); apply: mkseq_eq => i Hi; rewrite reverse_loopP // H; last lia.
by apply: eq_bigr => j _; have Hj := ltn_ord j; congr (_`_ _ * _); lia.
Qed.

Theorem C88_toeplitz_left (data : seq F) n m h (v : seq F) : (0 < n <= fuel)%N -> (0 < m <= fuel)%N -> hmat_init data n m = AOk h -> size v = n ->
  toeplitz_left fuel MX KARX ul garb h v = Some (AOk (mkseq (fun j => \sum_(i < n) v`_i * data`_(m + i - 1 - j)) m)).
Proof.
move=> Hn Hm E Hv; have [En Em _ _] : [/\ hn h = n, hm h = m, hdata h = data & (hrev h)`_0 = data`_(n + m - 2 - 0)] by apply: hrevP E _; lia.
rewrite /toeplitz_left En Em Hv eqxx /=; have [r -> H] := tleft_coreP (fun i => v`_i) Hn Hm E.
by congr (Some (AOk _)); apply: mkseq_eq => i Hi; apply: H.
Qed.

(** *** times a matrix; small_dims is the threshold of the dense product *)
Variable small_dims : nat -> bool.

Theorem C88_hankel_right_mat (data : seq F) n m h (b : cmat F) : (0 < n <= fuel)%N -> (0 < m <= fuel)%N -> hmat_init data n m = AOk h -> cr b = m ->
  exists2 c, hankel_right_mat fuel MX KARX ul garb small_dims h b = Some (AOk c) &
    [/\ cr c = n, cc c = cc b & forall i k, (i < n)%N -> (k < cc b)%N -> cent c i k = \sum_(j < m) data`_(n + m - 2 - i - j) * cent b j k].
Proof.
move=> Hn Hm E Hb; have [En Em Ed _] : [/\ hn h = n, hm h = m, hdata h = data & (hrev h)`_0 = data`_(n + m - 2 - 0)] by apply: hrevP E _; lia.
rewrite /hankel_right_mat Em En Hb eqxx /=; case: ifP => _.
  eexists; first reflexivity; rewrite /= En; split=> // i k Hi Hk; rewrite Em Ed; apply: eq_bigr => j _; have Hj := ltn_ord j.
  by congr (_`_ _ * _); lia.
have [k Hk|r -> H] := @vectorsP (cc b) (fun j => hankel_right_core fuel MX KARX ul garb h (fun i => cent b i j)) (fun k r => forall i, (i < n)%N -> r i = \sum_(j < m) data`_(n + m - 2 - i - j) * cent b j k).
  by apply: right_coreP.
by eexists; [reflexivity|split=> // i k Hi Hk /=; have [q Hq ->] := H k Hk; apply: Hq].
Qed.

Theorem C88_hankel_left_mat (data : seq F) n m h (b : cmat F) : (0 < n <= fuel)%N -> (0 < m <= fuel)%N -> hmat_init data n m = AOk h -> cc b = n ->
  exists2 c, hankel_left_mat fuel MX KARX ul garb small_dims h b = Some (AOk c) &
    [/\ cr c = cr b, cc c = m & forall k j, (k < cr b)%N -> (j < m)%N -> cent c k j = \sum_(i < n) cent b k i * data`_(n + m - 2 - i - j)].
Proof.
move=> Hn Hm E Hb; have [En Em Ed _] : [/\ hn h = n, hm h = m, hdata h = data & (hrev h)`_0 = data`_(n + m - 2 - 0)] by apply: hrevP E _; lia.
rewrite /hankel_left_mat Em En Hb eqxx /=; case: ifP => _.
  eexists; first reflexivity; rewrite /= Em; split=> // k j Hk Hj; rewrite Hb Ed; apply: eq_bigr => i _; have Hi := ltn_ord i.
  by rewrite En; congr (_ * _`_ _); lia.
have [k Hk|r -> H] := @vectorsP (cr b) (fun i => hankel_left_core fuel MX KARX ul garb h (fun j => cent b i j)) (fun k r => forall j, (j < m)%N -> r j = \sum_(i < n) cent b k i * data`_(n + m - 2 - i - j)).
  by apply: left_coreP.
by eexists; [reflexivity|split=> // k j Hk Hj /=; have [q Hq ->] := H k Hk; apply: Hq].
Qed.

Theorem C88_toeplitz_right_mat (data : seq F) n m h (b : cmat F) : (0 < n <= fuel)%N -> (0 < m <= fuel)%N -> hmat_init data n m = AOk h -> cr b = m ->
  exists2 c, toeplitz_right_mat fuel MX KARX ul garb small_dims h b = Some (AOk c) &
    [/\ cr c = n, cc c = cc b & forall i k, (i < n)%N -> (k < cc b)%N -> cent c i k = \sum_(j < m) data`_(m + i - 1 - j) * cent b j k].
Proof.
move=> Hn Hm E Hb; have [En Em Ed _] : [/\ hn h = n, hm h = m, hdata h = data & (hrev h)`_0 = data`_(n + m - 2 - 0)] by apply: hrevP E _; lia.
rewrite /toeplitz_right_mat Em En Hb eqxx /=; case: ifP => _.
  by eexists; first reflexivity; rewrite /= En; split=> // i k Hi Hk; rewrite Em Ed.
have [k Hk|r -> H] := @vectorsP (cc b) (fun j => toeplitz_right_core fuel MX KARX ul garb h (fun i => cent b i j)) (fun k r => forall i, (i < n)%N -> r i = \sum_(j < m) data`_(n + m - 2 - i - j) * cent b j k).
  by apply: (right_coreP (h := h)).
eexists; [reflexivity|split=> // i k Hi Hk /=; have [q Hq ->] := H k Hk; rewrite Hq; last lia].
by apply: eq_bigr => j _; have Hj := ltn_ord j; congr (_`_ _ * _); lia.
Qed.

Theorem C88_toeplitz_left_mat (data : seq F) n m h (b : cmat F) : (0 < n <= fuel)%N -> (0 < m <= fuel)%N -> hmat_init data n m = AOk h -> cc b = n ->
  exists2 c, toeplitz_left_mat fuel MX KARX ul garb small_dims h b = Some (AOk c) &
    [/\ cr c = cr b, cc c = m & forall k j, (k < cr b)%N -> (j < m)%N -> cent c k j = \sum_(i < n) cent b k i * data`_(m + i - 1 - j)].
Proof.
move=> Hn Hm E Hb; have [En Em Ed _] : [/\ hn h = n, hm h = m, hdata h = data & (hrev h)`_0 = data`_(n + m - 2 - 0)] by apply: hrevP E _; lia.
rewrite /toeplitz_left_mat Em En Hb eqxx /=; case: ifP => _.
  by eexists; first reflexivity; rewrite /= Em; split=> // k j Hk Hj; rewrite Hb Ed.
have [k Hk|r -> H] := @vectorsP (cr b) (fun i => toeplitz_left_core fuel MX KARX ul garb h (fun j => cent b i j)) (fun k r => forall j, (j < m)%N -> r j = \sum_(i < n) cent b k i * data`_(m + i - 1 - j)).
  by apply: tleft_coreP.
by eexists; [reflexivity|split=> // k j Hk Hj /=; have [q Hq ->] := H k Hk; apply: Hq].
Qed.

(** the dense matrices *)
Theorem C88_dense (data : seq F) n m h : (0 < n + m)%N -> hmat_init data n m = AOk h ->
  [/\ cr (hankel_dense h) = n, cc (hankel_dense h) = m, cr (toeplitz_dense h) = n, cc (toeplitz_dense h) = m &
    forall i j, (i < n)%N -> (j < m)%N -> cent (hankel_dense h) i j = data`_(n + m - 2 - (i + j)) /\ cent (toeplitz_dense h) i j = data`_(m - 1 + i - j)].
Proof.
rewrite /hmat_init; case: ifP => // _ Hnm [<-] /=; split=> // i j Hi Hj; split; congr (_`_ _); lia.
Qed.
End Core.

(** *** lower triangular Toeplitz matrices: the entry (i, j) is data[i-j] when j <= i and 0 otherwise *)
Section Ltt.
Variable F : fieldType.
Variable MX : nat.
Definition lt_entry (data : seq F) (i j : nat) : F := if (j <= i)%N then data`_(i - j) else 0.

Lemma ltt_coreP (data : seq F) w i : (i < size data)%N -> ltt_core MX data w i = \sum_(j < size data) lt_entry data i j * w j.
Proof.
set n := size data => Hi; set p := \poly_(i < n) w i.
have E : (Poly data * p)`_i = \sum_(j < n) lt_entry data i j * w j.
  rewrite mulrC coefM (_ : n = i.+1 + (n - i.+1))%N; last lia.
  rewrite big_split_ord /= [X in _ = _ + X]big1 ?addr0; last first.
    by move=> j _; rewrite /lt_entry ifF ?mul0r //; lia.
  apply: eq_bigr => j _; have Hj := ltn_ord j; rewrite coef_poly ifT; last lia.
  by rewrite coef_Poly mulrC /lt_entry ifT //; lia.
rewrite /ltt_core -/n -/p; case: ifP => _; first by rewrite coef_poly Hi E.
have Hk : (n + n - 1 <= 2 ^ next_pow2 (n + n - 1))%N by apply: up_logP.
rewrite fftmul_cyc /fromfft; have Sp : (size (p * Poly data)%R <= (n + n).-1)%N.
  by apply: size_mul_leN; [apply: size_poly|apply: size_Poly].
move: (next_pow2 _) Hk => k Hk; rewrite coef_poly ifT; last lia.
rewrite cyc_small ?add0n; last by apply: leq_trans Sp _; move: Hk; move: (2 ^ k)%N => z; lia.
by rewrite mulrC E.
Qed.

Theorem C88_ltt_right (data v : seq F) : size v = size data ->
  ltt_right MX data v = AOk (mkseq (fun i => \sum_(j < size data) lt_entry data i j * v`_j) (size data)).
Proof. by move=> Hv; rewrite /ltt_right Hv eqxx /=; congr AOk; apply: mkseq_eq => i Hi; rewrite ltt_coreP. Qed.

Theorem C88_ltt_left (data v : seq F) : size v = size data ->
  ltt_left MX data v = AOk (mkseq (fun j => \sum_(i < size data) v`_i * lt_entry data i j) (size data)).
Proof.
move=> Hv; rewrite /ltt_left Hv eqxx /=; congr AOk; apply: mkseq_eq => i Hi; rewrite ltt_coreP; last lia.
rewrite (reindex_inj rev_ord_inj) /=; apply: eq_bigr => j _; have Hj := ltn_ord j; rewrite mulrC; congr (_ * _).
  by congr (_`_ _); lia.
rewrite /lt_entry (_ : (size data - j.+1 <= size data - 1 - i)%N = (i <= j)%N); last lia.
by case: ifP => // H; congr (_`_ _); lia.
Qed.

(** to_dense in a new matrix, or in one with another number of columns *)
Theorem C88_ltt_dense_partial (x : cmat F) (data : seq F) : cr x = 0%N \/ cc x <> size data ->
  [/\ cr (ltt_dense x data) = size data, cc (ltt_dense x data) = size data &
    forall i j, (i < size data)%N -> (j < size data)%N -> cent (ltt_dense x data) i j = lt_entry data i j].
Proof.
move=> H; split=> // i j Hi Hj; rewrite /= /lt_entry; case: ifP => // _; rewrite ifF //.
by case: H => [->|/eqP/negbTE->] //; rewrite andbF.
Qed.
End Ltt.

(** to_dense keeps the entries above the diagonal of a matrix that has the right number of columns *)
Theorem C88_ltt_dense_stale_refuted : exists (x : cmat rat_fieldType) data i j,
  [/\ (i < size data)%N, (j < size data)%N & cent (ltt_dense x data) i j != lt_entry data i j].
Proof. by exists (Cmat 2 2 (fun _ _ => 1)), [:: 1; 1], 0%N, 1%N. Qed.

(** the products of a lower triangular Toeplitz matrix and a matrix return the previous value of the result *)
Theorem C88_ltt_matrix_refuted : exists (data : seq rat) (res b : cmat rat_fieldType) c c',
  [/\ cr b = size data, cc b = size data, cr res = size data & cc res = size data] /\
  [/\ ltt_right_mat false data res b = AOk c, ltt_left_mat false data res b = AOk c',
      cent c 0%N 0%N != \sum_(j < size data) lt_entry data 0 j * cent b j 0%N & cent c' 0%N 0%N != \sum_(i < size data) cent b 0%N i * lt_entry data i 0].
Proof.
exists [:: 1], (Cmat 1 1 (fun _ _ => 0)), (Cmat 1 1 (fun _ _ => 1)), (Cmat 1 1 (fun _ _ => 0)), (Cmat 1 1 (fun _ _ => 0)).
by split; split=> //; rewrite big_ord_recl big_ord0 /=.
Qed.
(** and an empty matrix when the result and the operand are the same object *)
Theorem C88_ltt_matrix_alias (F : fieldType) (data : seq F) (b c : cmat F) :
  ltt_right_mat true data b b = AOk c \/ ltt_left_mat true data b b = AOk c -> cr c = 0%N /\ cc c = 0%N.
Proof. by rewrite /ltt_right_mat /ltt_left_mat; case; case: ifP => // _ [<-]. Qed.

(** a wrong number of entries is reported, and a matrix without rows and columns cannot be built *)
Theorem C88_str_errors (F : fieldType) (fuel MX KARX : nat) ul garb (data v : seq F) n m h : hmat_init data n m = AOk h ->
  [/\ size v != m -> hankel_right fuel MX KARX ul garb h v = Some AUB /\ toeplitz_right fuel MX KARX ul garb h v = Some AUB,
      size v != n -> hankel_left fuel MX KARX ul garb h v = Some AUB /\ toeplitz_left fuel MX KARX ul garb h v = Some AUB,
      (n + m - 1 <= size data)%N & (0 < n + m)%N].
Proof.
rewrite /hmat_init; case: ifP => // /norP[H0 Hs] [<-]; rewrite /hankel_right /toeplitz_right /hankel_left /toeplitz_left /=.
by split=> [->|->||] //; lia.
Qed.

Theorem C88_ltt_errors (F : fieldType) (MX : nat) same (data v : seq F) (res b : cmat F) :
  [/\ size v != size data -> ltt_right MX data v = AUB /\ ltt_left MX data v = AUB,
      cr b != size data -> ltt_right_mat same data res b = AUB & cc b != size data -> ltt_left_mat same data res b = AUB].
Proof. by rewrite /ltt_right /ltt_left /ltt_right_mat /ltt_left_mat; split=> ->. Qed.

Theorem C88_mat_errors (F : fieldType) (fuel MX KARX : nat) ul garb sd (data : seq F) n m h (b : cmat F) : hmat_init data n m = AOk h ->
  (cr b != m -> hankel_right_mat fuel MX KARX ul garb sd h b = Some AUB /\ toeplitz_right_mat fuel MX KARX ul garb sd h b = Some AUB) /\
  (cc b != n -> hankel_left_mat fuel MX KARX ul garb sd h b = Some AUB /\ toeplitz_left_mat fuel MX KARX ul garb sd h b = Some AUB).
Proof.
rewrite /hmat_init; case: ifP => // _ [<-]; rewrite /hankel_right_mat /toeplitz_right_mat /hankel_left_mat /toeplitz_left_mat /=.
by split=> ->.
Qed.

(** a 2 x 3 matrix *)
Example C88_example : exists2 h, hmat_init [:: 1; 2%:R; 3%:R; 4%:R : rat] 2 3 = AOk h &
  exists2 r, hankel_right 3 0 2 true (fun _ => 0) h [:: 1; 1; 2%:R] = Some (AOk r) & r = [:: 11%:R; 7%:R] /\
  exists2 t, toeplitz_right 3 0 2 true (fun _ => 0) h [:: 1; 1; 2%:R] = Some (AOk t) & t = [:: 7%:R; 11%:R].
Proof.
eexists; first by rewrite /hmat_init.
set h := Hmat _ _ _ _; have E : hmat_init [:: 1; 2%:R; 3%:R; 4%:R : rat] 2 3 = AOk h by [].
eexists; first exact: (C88_hankel_right _ _ _ _ _ _ E).
split; first by rewrite /mkseq /= !big_ord_recl !big_ord0 /=; congr [:: _; _]; apply/eqP.
eexists; first exact: (C88_toeplitz_right _ _ _ _ _ _ E).
by rewrite /mkseq /= !big_ord_recl !big_ord0 /=; congr [:: _; _]; apply/eqP.
Qed.

Print Assumptions C88_hankel_right.
Print Assumptions C88_hankel_left.
Print Assumptions C88_toeplitz_right.
Print Assumptions C88_toeplitz_left.
Print Assumptions C88_hankel_right_mat.
Print Assumptions C88_hankel_left_mat.
Print Assumptions C88_toeplitz_right_mat.
Print Assumptions C88_toeplitz_left_mat.
Print Assumptions C88_dense.
Print Assumptions C88_ltt_right.
Print Assumptions C88_ltt_left.
Print Assumptions C88_ltt_dense_partial.
Print Assumptions C88_ltt_dense_stale_refuted.
Print Assumptions C88_ltt_matrix_refuted.
Print Assumptions C88_ltt_matrix_alias.
Print Assumptions C88_str_errors.
Print Assumptions C88_ltt_errors.
Print Assumptions C88_mat_errors.
