(** Proofs for N_mmfft_model: the functions [core_*] compute every entry from the right values. Used by P_nmmfft and P_nmp. *)
From mathcomp Require Import all_ssreflect all_fingroup all_algebra all_field zify.
From Verif Require Import A_base A_mul_model A_mul_proof N_shift_proof N_multi_model N_multi_proof N_pmat_model N_poly_model.
From Verif Require Import N_trs_proof N_util_model N_util_proof N_geo2_proof N_mfft_model N_eval_model N_eval_proof N_mmfft_model.
From Verif Require Import N_mmfft_proof P_ntrs.
Set Implicit Arguments.
Unset Strict Implicit.
Unset Printing Implicit Defensive.
Import GRing.Theory.
Local Open Scope ring_scope.

Section Core.
Variable F : fieldType.
Local Notation P := {poly F}.
Local Notation arr := (nat -> F).

Lemma nonzero_dims (a : pmat F) : ~ zero_mat a -> (0 < nr a)%N /\ (0 < nc a)%N.
Proof. by move=> Z; split; rewrite lt0n; apply/eqP=> E; apply: Z => i j; rewrite E //; lia. Qed.

Lemma upd_loop (T : Type) (g : nat -> T) V n j : foldl (fun (V : nat -> T) j => upd V j (g j)) V (iota 0 n) j =
  if (j < n)%N then g j else V j.
Proof.
elim: n => [|n IH] //; rewrite foldl_iotaR add0n /upd IH; case: eqP => [->|N]; first by rewrite ltnSn.
by congr (if _ then _ else _); lia.
Qed.

Lemma fill_loop (T : Type) (g : nat -> nat -> T) V p n i j :
  foldl (fun V i => foldl (fun V j => upd2 V i j (g i j)) V (iota 0 n)) V (iota 0 p) i j =
  if (i < p)%N && (j < n)%N then g i j else V i j.
Proof. by rewrite (win_gen _ _ _ _ _ _ _ (g := fun i j _ => g i j)). Qed.

Section Ops.
Variables (len : nat) (y : arr) (out : arr -> P) (a b : pmat F) (T : fmat P).
(** the values of an entry of the product determine the entry T i k of the result *)
Hypothesis Hout : forall i k (v : arr), (i < nr a)%N -> (k < nc b)%N ->
  (forall r, (r < len)%N -> v r = (\sum_(l < nc a) ent a i l * ent b l k).[y r]) -> out v = T i k.
(** a result of the dimensions of the product, with the entries T *)
Definition gives (o : aoutcome (pmat F)) : Prop := exists c, o = AOk c /\ [/\ nr c = nr a, nc c = nc b &
  forall i k, (i < nr a)%N -> (k < nc b)%N -> ent c i k = T i k].

(** the rows of the first two functions; [dot] computes the values of an entry *)
Lemma rows_fft (valb : nat -> nat -> arr) (dot : (nat -> arr) -> (nat -> arr) -> arr) st i k :
  (i < nr a)%N -> (k < nc b)%N ->
  (forall j, (j < nc a)%N -> valb k j = to_rep y (ent b j k)) ->
  (forall (va vb : nat -> arr) r, (forall j, (j < nc a)%N -> va j = to_rep y (ent a i j)) ->
     (forall j, (j < nc a)%N -> vb j = to_rep y (ent b j k)) -> dot va vb r = \sum_(j < nc a) va j r * vb j r) ->
  (foldl (fun (st : (nat -> arr) * fmat P) i => let: (vala, C) := st in
      let vala := foldl (fun (V : nat -> arr) j => upd V j (to_rep y (ent a i j))) vala (iota 0 (nc a)) in
      (vala, foldl (fun C k => upd2 C i k (out (dot vala (valb k)))) C (iota 0 (nc b))))
    st (iota 0 (nr a))).2 i k = T i k.
Proof.
move=> Hi Hk Hvb Hdot.
rewrite (loop_hit (obs := fun st => st.2 i k) (hit := fun i' => i' == i) (v := T i k)).
  by rewrite ifT //; apply/hasP; exists i; rewrite ?mem_iota.
move=> i' [va C] _ /=; set vala := foldl _ va _.
rewrite (loop_hit (obs := fun C : fmat P => C i k) (hit := fun k' => (i' == i) && (k' == k)) (v := T i k)).
  have -> // : has (fun k' => (i' == i) && (k' == k)) (iota 0 (nc b)) = (i' == i).
  apply/hasP/idP=> [[k' _ /andP[]] //|->]; exists k; rewrite ?mem_iota ?eqxx //=.
move=> k' C1; rewrite upd2E [i == i']eq_sym [k == k']eq_sym; case: andP => // -[/eqP Ei /eqP Ek] _.
rewrite Ek; have HA j : (j < nc a)%N -> vala j = to_rep y (ent a i j).
  by move=> Hj; rewrite /vala Ei (upd_loop (fun j => to_rep y (ent a i j))) Hj.
apply: Hout => // r Hr; rewrite Hdot // horner_sum; apply: eq_bigr => j _.
by rewrite hornerM HA // Hvb.
Qed.

Lemma valbE p n k j : (k < p)%N -> (j < n)%N ->
  foldl (fun (V : nat -> nat -> arr) i => foldl (fun V j => upd2 V i j (to_rep y (ent b j i))) V (iota 0 n))
    (fun _ _ _ => 0) (iota 0 p) k j = to_rep y (ent b j k).
Proof. by move=> Hk Hj; rewrite (fill_loop (fun i j => to_rep y (ent b j i))) Hk Hj. Qed.

Lemma core_directE : (0 < nc a)%N -> gives (core_direct y out a b).
Proof.
move=> n0; rewrite /core_direct (gtn_eqF n0) /=.
set valb := foldl _ _ (iota 0 (nc b)).
have := @rows_fft valb (fun va vb => foldl (fun (tmp1 : arr) j => fun r => tmp1 r + va j r * vb j r)
   (fun r => va 0%N r * vb 0%N r) (iota 1 (nc a - 1))) (fun _ _ => 0, fun _ _ => 0).
case: (foldl _ _ (iota 0 (nr a))) => va C /= H.
eexists; split; first by []; split=> // i k Hi Hk; apply: H => // [j Hj|vaa vb r _ _].
  by rewrite /valb valbE.
have := n0; case: (nc a) => // n _; rewrite subSS subn0 big_ord_recl.
elim: n => [|n IH]; first by rewrite big_ord0 addr0.
by rewrite foldl_iotaR IH big_ord_recr /= add1n addrA.
Qed.

Lemma core_llE (wbits spbits pr : nat) (rep : F -> nat) : (spbits < wbits)%N -> (pr < 2 ^ spbits)%N -> pr \in [char F] ->
  (forall z, (rep z < pr)%N /\ (rep z)%:R = z) ->
  (0 < nr a)%N -> (0 < nc a)%N -> gives (core_ll wbits spbits pr rep y out a b).
Proof.
move=> Hw Hp Hc Hrep m0 n0; rewrite /core_ll (gtn_eqF m0) (gtn_eqF n0) /=.
set valb := foldl _ _ (iota 0 (nc b)).
have := @rows_fft valb (fun va vb r => (ll_dot wbits spbits pr (nc a) (fun j => rep (va j r)) (fun j => rep (vb j r)))%:R)
  (fun _ _ => 0, fun _ _ => 0).
case: (foldl _ _ (iota 0 (nr a))) => va C /= H.
eexists; split; first by []; split=> // i k Hi Hk; apply: H => // [j Hj|vaa vb r _ _].
  by rewrite /valb valbE.
have pp := prime_gt1 (charf_prime Hc).
rewrite ll_dotE //; last 3 first.
- by rewrite pp.
- by move=> j; have [] := Hrep (vaa j r).
- by move=> j; have [] := Hrep (vb j r).
set S := (\sum_(j < nc a) rep (vaa j r) * rep (vb j r))%N.
have -> : ((S %% pr)%:R : F) = S%:R.
  by rewrite [in RHS](divn_eq S pr) natrD natrM (charf0 Hc) mulr0 add0r.
by rewrite /S natr_sum; apply: eq_bigr => j _; rewrite natrM !(Hrep _).2.
Qed.

Lemma flat3 s t r i k r' i' k' : (i < s)%N -> (k < t)%N -> (i' < s)%N -> (k' < t)%N ->
  (r * (s * t) + i * t + k == r' * (s * t) + i' * t + k')%N = [&& r == r', i == i' & k == k'].
Proof. by move=> Hi Hk Hi' Hk'; rewrite -!addnA !flat_inj ?col_lt. Qed.

(** an array indexed by the point, the row and the column *)
Lemma obs_flat s t (M : arr) r i k v r' i' k' : (r < len)%N -> (i < s)%N -> (k < t)%N -> (r' < len)%N -> (i' < s)%N -> (k' < t)%N ->
  upd M (r * (s * t) + i * t + k)%N v (r' * (s * t) + i' * t + k')%N =
  if [&& r == r', i == i' & k == k'] then v else M (r' * (s * t) + i' * t + k')%N.
Proof. by move=> _ Hi Hk _ Hi' Hk'; rewrite /upd eq_sym flat3. Qed.

Lemma allocated0 : allocated 0 (fun _ => @None arr). Proof. by []. Qed.

Lemma unloadE (C : nat -> arr) :
  (forall i k r, (i < nr a)%N -> (k < nc b)%N -> (r < len)%N ->
     C (i * nc b + k)%N r = (\sum_(l < nc a) ent a i l * ent b l k).[y r]) ->
  gives (AOk (unload out (nr a) (nc b) C)).
Proof.
move=> H; eexists; split; first by []; split=> // i k Hi Hk /=; rewrite winE // !add0n Hi Hk /=.
by apply: Hout => // r Hr; apply: H.
Qed.

Lemma core_matmul1E : gives (core_matmul1 len y out a b).
Proof.
rewrite /core_matmul1.
have [R1 [RR1 [mA [-> A1 _ HA]]]] := load_phaseE (wr := fun M r i k v => upd M (r * (nr a * nc a) + i * nc a + k)%N v) (obs := fun (M : arr) r i k => M (r * (nr a * nc a) + i * nc a + k)%N)
  y (ent a) (isT : (0 < line_size)%N) (@obs_flat (nr a) (nc a)) None (fun _ => 0) allocated0.
have [R2 [RR2 [mB [-> A2 _ HB]]]] := load_phaseE (wr := fun M r i k v => upd M (r * (nc a * nc b) + i * nc b + k)%N v) (obs := fun (M : arr) r i k => M (r * (nc a * nc b) + i * nc b + k)%N)
  y (ent b) (isT : (0 < line_size)%N) (@obs_flat (nc a) (nc b)) R1 (fun _ => 0) A1.
pose obs i k r (st : fmat F * fmat F * (nat -> fmat F) * (nat -> arr)) := st.2 (i * nc b + k)%N r.
set st0 := (X in foldl _ X _); set stp := (X in foldl X _ _).
have G i k r : (i < nr a)%N -> (k < nc b)%N -> (r < len)%N ->
    obs i k r (foldl stp st0 (iota 0 (blocks len line_size))) = (\sum_(l < nc a) ent a i l * ent b l k).[y r].
  move=> Hi Hk Hr; set v := (RHS).
  rewrite (loop_hit (obs := obs i k r) (hit := fun blk => (r %/ line_size == blk)%N) (v := v)).
    have [K1 _] := @bnd_last line_size len r isT Hr.
    by rewrite ifT //; apply/hasP; exists (r %/ line_size)%N; rewrite ?mem_iota.
  move=> blk [[[va vb] vc] C] _; rewrite /stp /obs.
  set st1 := foldl _ (va, vb, vc) _.
  have H : (r %/ line_size)%N = blk -> st1.2 (r %% line_size)%N i k = v.
    move=> Eb; rewrite /st1 (loop_hit (obs := fun st => st.2 (r %% line_size)%N i k) (hit := fun jj => jj == (r %% line_size)%N) (v := v)).
      have [_ K2] := @bnd_last line_size len r isT Hr; rewrite ifT //; apply/hasP.
      by exists (r %% line_size)%N; rewrite // mem_iota -Eb.
    move=> jj [[va1 vb1] vc1] _ /=; rewrite {1}/upd eq_sym; case: eqP => // ->.
    rewrite -Eb -divn_eq; apply: fmul_at => l Hl; rewrite fillE ?Hi ?Hk ?Hl /=; first exact: HA.
    by apply: HB.
  move: H; case: st1 => [[va1 vb1] vc1] /= H; rewrite store_blockE //.
  by case: eqP.
move: G; case: (foldl stp st0 _) => [[[va vb] vc] C]; rewrite /obs /= => G.
exact: unloadE.
Qed.

Lemma load_arraysE s t (z : arr) (e : fmat P) i k : (i < s)%N -> (k < t)%N -> load_arrays s t z e (i * t + k)%N = to_rep z (e i k).
Proof.
move=> Hi Hk; rewrite /load_arrays.
rewrite (@flat_cols _ _ (fun V : nat -> arr => V) (fun i j V => upd V (i * t + j)%N (to_rep z (e i j)))
  (fun i j _ => to_rep z (e i j))).
  by rewrite col_lt //; have [-> ->] := divmod_col i Hk.
by move=> i' j V c _ _; rewrite /upd.
Qed.

Lemma gatherE s t blk (V : nat -> arr) W i k r : (i < s)%N -> (k < t)%N -> (r < len)%N -> (r %/ line_size)%N = blk ->
  gather len s t blk V W (r %% line_size)%N i k = V (i * t + k)%N r.
Proof.
move=> Hi Hk Hr Eb; rewrite /gather; set v := V _ r; set r' := (r %% line_size)%N.
have [K3 K4] := @bnd_last mblock_size t k isT Hk; have [_ K2] := @bnd_last line_size len r isT Hr.
rewrite (loop_hit (obs := fun W : nat -> fmat F => W r' i k) (hit := fun i' => i' == i) (v := v)).
  by rewrite ifT //; apply/hasP; exists i; rewrite ?mem_iota.
move=> i' C1 _; rewrite (loop_hit (obs := fun W : nat -> fmat F => W r' i k)
  (hit := fun kb => (i' == i) && (k %/ mblock_size == kb)%N) (v := v)).
  have -> // : has (fun kb => (i' == i) && (k %/ mblock_size == kb)%N) (iota 0 (blocks t mblock_size)) = (i' == i).
  apply/hasP/idP=> [[kb _ /andP[]] //|->]; exists (k %/ mblock_size)%N; rewrite ?mem_iota ?eqxx //.
move=> kb C2 _; rewrite -/(bnd line_size len blk) -/(bnd mblock_size t kb) (loop_hit (obs := fun W : nat -> fmat F => W r' i k)
  (hit := fun jj => [&& i' == i, (k %/ mblock_size == kb)%N & jj == r']) (v := v)).
  have -> // : has (fun jj => [&& i' == i, (k %/ mblock_size == kb)%N & jj == r']) (iota 0 (bnd line_size len blk)) =
     (i' == i) && (k %/ mblock_size == kb)%N.
  apply/hasP/andP=> [[jj _ /and3P[]] //|[-> ->]]; exists r'; rewrite ?mem_iota ?eqxx // -Eb; exact: K2.
move=> jj C3; rewrite mem_iota => /= Hjj; rewrite (loop_hit (obs := fun W : nat -> fmat F => W r' i k)
  (hit := fun kk => [&& i' == i, (kb * mblock_size + kk == k)%N & jj == r']) (v := v)).
  have -> // : has (fun kk => [&& i' == i, (kb * mblock_size + kk == k)%N & jj == r']) (iota 0 (bnd mblock_size t kb)) =
     [&& i' == i, (k %/ mblock_size == kb)%N & jj == r'].
  apply/hasP/and3P=> [[kk]|[H1 H2 H3]].
    by rewrite mem_iota => /= Hj /and3P[-> /eqP<- ->]; have [_ -> _] := bnd_in Hj; rewrite eqxx.
  exists (k %% mblock_size)%N; first by rewrite mem_iota /= -(eqP H2).
  by rewrite H1 H3 -(eqP H2) -divn_eq eqxx.
move=> kk C4; rewrite mem_iota => /= Hkk; rewrite upd3E [r' == _]eq_sym [i == _]eq_sym [k == _]eq_sym.
case: (jj =P r') => [Er|]; last by rewrite !andbF.
rewrite !andbT /=; case: andP => // -[/eqP Ei /eqP Ek].
by rewrite Ei Ek Er -Eb -divn_eq.
Qed.

Lemma core_matmul2E : gives (core_matmul2 len y out a b).
Proof.
rewrite /core_matmul2.
pose obs i k r (st : (nat -> fmat F) * (nat -> fmat F) * (nat -> fmat F) * (nat -> arr)) := st.2 (i * nc b + k)%N r.
set st0 := (X in foldl _ X _); set stp := (X in foldl X _ _).
have G i k r : (i < nr a)%N -> (k < nc b)%N -> (r < len)%N ->
    obs i k r (foldl stp st0 (iota 0 (blocks len line_size))) = (\sum_(l < nc a) ent a i l * ent b l k).[y r].
  move=> Hi Hk Hr; set v := (RHS).
  rewrite (loop_hit (obs := obs i k r) (hit := fun blk => (r %/ line_size == blk)%N) (v := v)).
    have [K1 _] := @bnd_last line_size len r isT Hr.
    by rewrite ifT //; apply/hasP; exists (r %/ line_size)%N; rewrite ?mem_iota.
  move=> blk [[[va vb] vc] C] _; rewrite /stp /obs.
  set va1 := gather _ _ _ _ _ va; set vb1 := gather _ _ _ _ _ vb; set vc1 := foldl _ vc _.
  rewrite [LHS]/= store_blockE //; case: eqP => // Eb.
  have [_ K2] := @bnd_last line_size len r isT Hr; rewrite Eb in K2.
  rewrite /vc1 (upd_loop (fun jj => fmul (nc a) (va1 jj) (vb1 jj))) K2.
  by apply: fmul_at => l Hl; rewrite /va1 /vb1 gatherE // load_arraysE.
move: G; case: (foldl stp st0 _) => [[[va vb] vc] C]; rewrite /obs /= => G.
exact: unloadE.
Qed.

End Ops.

(** *** the third function: the buffers are exchanged by the last loop *)
Section Third.
Variables (len s u : nat) (out : arr -> P) (V : nat -> fmat F) (T : fmat P).
Hypothesis HoutV : forall i k (v : arr), (i < s)%N -> (k < u)%N -> (forall r, (r < len)%N -> v r = V r i k) -> out v = T i k.
Let step (st : aoutcome (buffers F * fmat P)) (i blk : nat) : aoutcome (buffers F * fmat P) :=
  match st with
  | AUB => AUB
  | AOk (R, RR, C) =>
    let k := (blk * mblock_size)%N in
    let kk_bnd := minn mblock_size (u - k) in
    if null_in RR kk_bnd && (0 < len)%N then AUB else
    let RR := foldl (fun (RR : nat -> option arr) r => foldl (fun RR kk =>
        upd RR kk (Some (upd (fun r => rd (RR kk) r) r (V r i (k + kk)%N)))) RR (iota 0 kk_bnd)) RR (iota 0 len) in
    AOk (foldl (fun (st : buffers F * fmat P) kk => let: (R, RR, C) := st in
        let: (R, RR) := (RR kk, upd RR kk R) in
        (R, RR, upd2 C i (k + kk)%N (out (rd R)))) (R, RR, C) (iota 0 kk_bnd))
  end.

(** the values are written in the buffers *)
Lemma write_buffers i k n RR kk r : (kk < n)%N -> (r < len)%N ->
  rd (foldl (fun (RR : nat -> option arr) r => foldl (fun RR kk =>
        upd RR kk (Some (upd (fun r => rd (RR kk) r) r (V r i (k + kk)%N)))) RR (iota 0 n)) RR (iota 0 len) kk) r = V r i (k + kk)%N.
Proof.
move=> Hk Hr.
rewrite (loop_hit (obs := fun RR : nat -> option arr => rd (RR kk) r) (hit := fun r' => r' == r) (v := V r i (k + kk)%N)).
  by rewrite ifT //; apply/hasP; exists r; rewrite ?mem_iota.
move=> r' RR1 _; rewrite (loop_hit (obs := fun RR : nat -> option arr => rd (RR kk) r) (hit := fun kk' => (r' == r) && (kk' == kk))
  (v := V r i (k + kk)%N)).
  have -> // : has (fun kk' => (r' == r) && (kk' == kk)) (iota 0 n) = (r' == r).
  by apply/hasP/idP=> [[k' _ /andP[]] //|->]; exists kk; rewrite ?mem_iota ?eqxx.
move=> kk' RR2 _; rewrite {1}/upd [kk == kk']eq_sym; case: eqP => [->|_]; last by rewrite andbF.
by rewrite /= {1}/upd [r == r']eq_sym andbT; case: eqP => // ->.
Qed.

Lemma write_some i k n RR kk : isSome (RR kk) ->
  isSome (foldl (fun (RR : nat -> option arr) r => foldl (fun RR kk =>
        upd RR kk (Some (upd (fun r => rd (RR kk) r) r (V r i (k + kk)%N)))) RR (iota 0 n)) RR (iota 0 len) kk).
Proof.
move=> H; rewrite (loop_hit (obs := fun RR : nat -> option arr => isSome (RR kk)) (hit := fun r' => (kk < n)%N) (v := true)).
  by rewrite H if_same.
move=> r' RR1 _; rewrite (loop_hit (obs := fun RR : nat -> option arr => isSome (RR kk)) (hit := fun kk' => kk' == kk) (v := true)).
  have -> // : has (fun kk' => kk' == kk) (iota 0 n) = (kk < n)%N.
  by apply/hasP/idP=> [[k' Hk /eqP<-]|Hk]; [move: Hk; rewrite mem_iota|exists kk; rewrite ?mem_iota].
by move=> kk' RR2 _; rewrite {1}/upd eq_sym; case: eqP.
Qed.

Lemma rotate (R : option arr) RR (C : fmat P) i k n : let st := foldl (fun (st : buffers F * fmat P) kk => let: (R, RR, C) := st in
        let: (R, RR) := (RR kk, upd RR kk R) in
        (R, RR, upd2 C i (k + kk)%N (out (rd R)))) (R, RR, C) (iota 0 n) in
  [/\ st.1.1 = (if n == 0%N then R else RR n.-1),
      forall kk, st.1.2 kk = (if (kk < n)%N then if kk == 0%N then R else RR kk.-1 else RR kk)
    & forall i' k', st.2 i' k' = if (i' == i) && (k <= k' < k + n)%N then out (rd (RR (k' - k)%N)) else C i' k'].
Proof.
elim: n => [|n [IH1 IH2 IH3]]; first by split=> //= i' k'; rewrite (_ : (k <= k' < k + 0)%N = false) ?andbF //; lia.
rewrite foldl_iotaR; move: (foldl _ _ _) IH1 IH2 IH3 => [[R1 RR1] C1] /= IH1 IH2 IH3; split.
- by rewrite add0n IH2 ltnn.
- move=> kk; rewrite add0n {1}/upd IH1 IH2; case: (kk =P n) => [->|N]; first by rewrite ltnSn.
  by congr (if _ then _ else _); lia.
- move=> i' k'; rewrite add0n upd2E IH3 IH2; case: (i' =P i) => //= _.
  case: (k' =P (k + n)%N) => [->|N]; last by congr (if _ then _ else _); lia.
  by rewrite ltnn [in RHS]ifT ?addKn //; lia.
Qed.

Lemma third_step (R : option arr) (RR : nat -> option arr) (C : fmat P) i (b : nat) : (i < s)%N -> (b < blocks u mblock_size)%N ->
  (forall kk, (kk < bnd mblock_size u b)%N -> isSome (RR kk)) ->
  exists R' RR' C', [/\ step (AOk (R, RR, C)) i b = AOk (R', RR', C'), isSome R', isSome (RR' 0%N) = isSome R,
    forall kk, (0 < kk)%N -> isSome (RR kk) -> isSome (RR' kk) &
    forall i' k, (k < u)%N -> C' i' k = if (i' == i) && (k %/ mblock_size == b)%N then T i' k else C i' k].
Proof.
move=> Hi Hb HS; have b0 := @bnd_pos mblock_size u b isT Hb.
rewrite /step -/(bnd mblock_size u b) not_null //.
set RR1 := foldl _ RR _.
have [] := rotate R RR1 C i (b * mblock_size) (bnd mblock_size u b).
case: (foldl _ _ _) => [[R2 RR2] C2]; rewrite (gtn_eqF b0); cbn [fst snd] => H1 H2 H3.
exists R2, RR2, C2; split=> //.
- by rewrite H1 write_some // HS // prednK.
- by rewrite H2 b0.
- move=> kk k0 Hkk; rewrite H2 (gtn_eqF k0); case: ifP => Hk; last exact: write_some.
  by apply: write_some; apply: HS; lia.
- move=> i' k Hk; rewrite H3; have [K1 K2] := @bnd_last mblock_size u k isT Hk.
  case: (i' =P i) => [->|] //=.
  have -> : (b * mblock_size <= k < b * mblock_size + bnd mblock_size u b)%N = (k %/ mblock_size == b)%N.
    apply/idP/eqP=> [H|E].
      have L : (k - b * mblock_size < bnd mblock_size u b)%N by lia.
      by have [_ + _] := bnd_in L; rewrite subnKC //; lia.
    have := divn_eq k mblock_size; move: K2; rewrite E; move: (k %% _)%N (bnd _ _ _) (b * mblock_size)%N => z1 z2 z3; clear; lia.
  case: eqP => // E; apply: HoutV => // r Hr.
  have L : (k - b * mblock_size < bnd mblock_size u b)%N.
    by rewrite -E {1}(divn_eq k mblock_size) addKn.
  rewrite write_buffers // subnKC // -E; exact: leq_trunc_div.
Qed.

Lemma bnd_min (b : nat) : (bnd mblock_size u b <= minn mblock_size u)%N.
Proof. by rewrite /bnd; lia. Qed.

Lemma third_phase (R : option arr) (RR : nat -> option arr) (C : fmat P) (l : seq (nat * nat)) : (forall q, q \in l -> (q.1 < s)%N && (q.2 < blocks u mblock_size)%N) ->
  (forall kk, (kk < minn mblock_size u)%N -> isSome (RR kk)) -> isSome R || (size l <= 1)%N ->
  exists R' RR' C', foldl (fun (st : aoutcome (buffers F * fmat P)) (q : nat * nat) => step st q.1 q.2) (AOk (R, RR, C)) l = AOk (R', RR', C') /\
    forall i k, (k < u)%N -> (i, k %/ mblock_size)%N \in l -> C' i k = T i k.
Proof.
move=> Hl HS HR; case: (boolP (isSome R)) HR => [HR _|_ /= H1]; last first.
  case: l Hl H1 => [|q [|//]] Hl _; first by exists R, RR, C.
  have [kk Hkk|R' [RR' [C' [E1 _ _ _ E2]]]] := @third_step R RR C q.1 q.2 (proj1 (andP (Hl _ (mem_head _ _)))) (proj2 (andP (Hl _ (mem_head _ _)))).
    by apply: HS; apply: leq_trans Hkk (bnd_min _).
  exists R', RR', C'; split=> // i k Hk; rewrite inE => /eqP E; rewrite E2 // -E !eqxx; by [].
suff [R' [RR' [C' [E1 _ _ E2]]]] : exists R' RR' C', [/\ foldl (fun (st : aoutcome (buffers F * fmat P)) (q : nat * nat) => step st q.1 q.2) (AOk (R, RR, C)) l = AOk (R', RR', C'),
   isSome R', forall kk, (kk < minn mblock_size u)%N -> isSome (RR' kk) &
    forall i k, (k < u)%N -> (i, k %/ mblock_size)%N \in l -> C' i k = T i k].
  by exists R', RR', C'.
elim/last_ind: l Hl => [|l q IH] Hl; first by exists R, RR, C.
have [R1 [RR1 [C1 [E1 S1 T1 V1]]]] := IH (fun z Hz => Hl z ltac:(by rewrite mem_rcons inE Hz orbT)).
have [kk Hkk|R' [RR' [C' [E2 S2 S3 T2 V2]]]] := @third_step R1 RR1 C1 q.1 q.2 (proj1 (andP (Hl q ltac:(by rewrite mem_rcons mem_head)))) (proj2 (andP (Hl q ltac:(by rewrite mem_rcons mem_head)))).
  by apply: T1; apply: leq_trans Hkk (bnd_min _).
exists R', RR', C'; split.
- by rewrite -cats1 foldl_cat E1.
- by [].
- by move=> kk Hk; case: (posnP kk) => [->|k0]; [rewrite S3|apply: T2 => //; apply: T1].
- move=> i k Hk Hm; rewrite V2 //; case: ifP => // N; apply: V1 => //.
  by move: Hm; rewrite mem_rcons inE => /orP[/eqP E|//]; move: N; rewrite -E /= !eqxx.
Qed.

(** a null pointer in the first buffer *)
Lemma third_null (R : option arr) (RR : nat -> option arr) (C : fmat P) i (l : seq (nat * nat)) : (0 < u)%N -> (0 < len)%N -> RR 0%N = None ->
  foldl (fun (st : aoutcome (buffers F * fmat P)) (q : nat * nat) => step st q.1 q.2) (AOk (R, RR, C)) ((i, 0%N) :: l) = AUB.
Proof.
move=> u0 l0 HN.
have E : step (AOk (R, RR, C)) i 0 = AUB.
  rewrite /step l0 (_ : null_in _ _) //.
  apply/negP=> /allP/(_ 0%N); rewrite mem_iota HN => H; by suff : false by []; apply: H; rewrite mul0n subn0 add0n leq_min u0.
change (foldl (fun (st : aoutcome (buffers F * fmat P)) (q : nat * nat) => step st q.1 q.2) (step (AOk (R, RR, C)) i 0) l = AUB).
by rewrite E; elim: l.
Qed.
End Third.

Lemma obs_upd3 len s t (M : nat -> fmat F) r i k v r' i' k' : (r < len)%N -> (i < s)%N -> (k < t)%N -> (r' < len)%N -> (i' < s)%N -> (k' < t)%N ->
  upd3 M r i k v r' i' k' = if [&& r == r', i == i' & k == k'] then v else M r' i' k'.
Proof. by move=> *; rewrite upd3E [r' == r]eq_sym [i' == i]eq_sym [k' == k]eq_sym. Qed.

Lemma pairs_cons s n : (0 < s)%N -> (0 < n)%N -> exists l, pairs s n = (0%N, 0%N) :: l /\ size l = (s * n).-1.
Proof.
move=> s0 n0; have : size (pairs s n) = (s * n)%N by rewrite size_allpairs !size_iota.
by case: s n s0 n0 => // s [//|n] _ _ S; exists (behead (pairs s.+1 n.+1)); rewrite size_behead S.
Qed.

(** The last buffer is allocated after the second loading phase unless the matrix a has one column *)
Lemma last_buffer R t u c : (0 < t)%N -> (0 < u)%N -> (0 < c)%N ->
  (forall l q, pairs t (blocks u mblock_size) = rcons l q -> isSome R = (bnd mblock_size u q.2 <= top mblock_size u l c)%N) ->
  (1 < t)%N || (u == 1%N) || (mblock_size < u)%N -> isSome (R : option arr).
Proof.
move=> t0 u0 c0 HR Hc.
have [K1 _] := @bnd_last mblock_size u 0%N isT u0; rewrite div0n in K1.
have [l [El Sl]] := pairs_cons t0 K1.
case/lastP: l El Sl => [|l q] El Sl.
  rewrite (HR [::] (0%N, 0%N) El) /bnd /top /= mul0n subn0.
  have E1 : (t * blocks u mblock_size)%N = 1%N by move: Sl => /=; lia.
  have /andP[/eqP E2 /eqP E3] : (t == 1%N) && (blocks u mblock_size == 1%N) by rewrite -muln_eq1 E1.
  case/orP: Hc => [/orP[|/eqP->]|Hu]; first by rewrite E2.
    exact: leq_trans (geq_minr _ _) c0.
  have [K2 _] := @bnd_last mblock_size u mblock_size isT Hu; by rewrite E3 divnn in K2.
rewrite -rcons_cons in El; rewrite (HR _ _ El); apply: (leq_trans (bnd_min _ _)).
have -> : minn mblock_size u = bnd mblock_size u 0 by rewrite /bnd mul0n subn0.
have G l' q' : q' \in l' -> (bnd mblock_size u q'.2 <= top mblock_size u l' c)%N.
  elim/last_ind: l' => // l' q1 IH; rewrite mem_rcons inE top_rcons leq_max => /orP[/eqP->|/IH ->] //.
  by rewrite leqnn orbT.
by apply: (G _ (0%N, 0%N)); rewrite mem_head.
Qed.

Section Matmul3.
Variables (len : nat) (y : arr) (out : arr -> P) (a b : pmat F) (T : fmat P).
Hypothesis Hout : forall i k (v : arr), (i < nr a)%N -> (k < nc b)%N ->
  (forall r, (r < len)%N -> v r = (\sum_(l < nc a) ent a i l * ent b l k).[y r]) -> out v = T i k.
Hypothesis m0 : (0 < nr a)%N.
Hypothesis n0 : (0 < nc a)%N.
Hypothesis p0 : (0 < nc b)%N.

Lemma matmul3_start : exists R RR mA mB c, [/\
  core_matmul3 len y out a b =
    (let mA := foldl (fun mA j => upd mA j (fmul (nc a) (mA j) (mB j))) mA (iota 0 len) in
     match foldl (fun st i => foldl (fun (st : aoutcome (buffers F * fmat P)) blk =>
          match st with
          | AUB => AUB
          | AOk (R, RR, C) =>
            let k := (blk * mblock_size)%N in
            let kk_bnd := minn mblock_size (nc b - k) in
            if null_in RR kk_bnd && (0 < len)%N then AUB else
            let RR := foldl (fun (RR : nat -> option arr) r => foldl (fun RR kk =>
                upd RR kk (Some (upd (fun r => rd (RR kk) r) r (mA r i (k + kk)%N)))) RR (iota 0 kk_bnd)) RR (iota 0 len) in
            AOk (foldl (fun (st : buffers F * fmat P) kk => let: (R, RR, C) := st in
                let: (R, RR) := (RR kk, upd RR kk R) in
                (R, RR, upd2 C i (k + kk)%N (out (rd R)))) (R, RR, C) (iota 0 kk_bnd))
          end) st (iota 0 (blocks (nc b) mblock_size))) (AOk (R, RR, (fun _ _ => 0) : fmat P)) (iota 0 (nr a)) with
      | AUB => AUB
      | AOk (_, C) => AOk (Pmat (nr a) (nc b) C)
      end),
   c = top mblock_size (nc a) (pairs (nr a) (blocks (nc a) mblock_size)) 0,
   forall kk, (kk < minn mblock_size (nc b))%N -> isSome (RR kk),
   forall l q, pairs (nc a) (blocks (nc b) mblock_size) = rcons l q -> isSome R = (bnd mblock_size (nc b) q.2 <= top mblock_size (nc b) l c)%N
   & forall r i k, (r < len)%N -> (i < nr a)%N -> (k < nc b)%N ->
     fmul (nc a) (mA r) (mB r) i k = (\sum_(l < nc a) ent a i l * ent b l k).[y r]].
Proof.
rewrite /core_matmul3.
have [R1 [RR1 [mA [-> A1 _ HA]]]] := load_phaseE (wr := fun M r i k v => upd3 M r i k v) (obs := fun (M : nat -> fmat F) r i k => M r i k)
  y (ent a) (isT : (0 < mblock_size)%N) (@obs_upd3 len (nr a) (nc a)) None (fun _ _ _ => 0) allocated0.
have [R2 [RR2 [mB [-> A2 S2 HB]]]] := load_phaseE (wr := fun M r i k v => upd3 M r i k v) (obs := fun (M : nat -> fmat F) r i k => M r i k)
  y (ent b) (isT : (0 < mblock_size)%N) (@obs_upd3 len (nc a) (nc b)) R1 (fun _ _ _ => 0) A1.
eexists R2, RR2, mA, mB, _; split; [by []|by []| |exact: S2|].
- by move=> kk Hk; rewrite A2 (leq_trans Hk) // top_min.
- by move=> r i k Hr Hi Hk; apply: fmul_at => l Hl; [apply: HA|apply: HB].
Qed.

Lemma prod_loop (mA mB : nat -> fmat F) r : (r < len)%N ->
  foldl (fun mA j => upd mA j (fmul (nc a) (mA j) (mB j))) mA (iota 0 len) r = fmul (nc a) (mA r) (mB r).
Proof.
suff G n : foldl (fun mA j => upd mA j (fmul (nc a) (mA j) (mB j))) mA (iota 0 n) r = if (r < n)%N then fmul (nc a) (mA r) (mB r) else mA r.
  by move=> Hr; rewrite G Hr.
elim: n => [|n IH] //; rewrite foldl_iotaR add0n {1}/upd; case: (r =P n) => [E1|N]; last by rewrite IH; congr (if _ then _ else _); lia.
by rewrite E1 in IH *; rewrite IH ltnn ltnSn.
Qed.

Lemma core_matmul3E : (nr a == 1%N) || (1 < nc a)%N || (nc b == 1%N) || (16 < nc b)%N ->
  gives a b T (core_matmul3 len y out a b).
Proof.
move=> Hc.
have [R [RR [mA [mB [c [-> Ec HS HR HV]]]]]] := matmul3_start.
cbv zeta.
set mC := foldl _ mA _; have HC r : (r < len)%N -> mC r = fmul (nc a) (mA r) (mB r) by apply: prod_loop.
rewrite pairs_foldl.
have [i k v Hi Hk Hv|q|||R' [RR' [C' [E1 E2]]]] := @third_phase len (nr a) (nc b) out mC T _ R RR (fun _ _ => 0) (pairs (nr a) (blocks (nc b) mblock_size)).
- by apply: Hout => // r Hr; rewrite Hv // HC // HV.
- by rewrite pairsP.
- exact: HS.
- case: (boolP (isSome R)) => //= NR; rewrite size_allpairs !size_iota.
  have c0 : (0 < c)%N.
    by rewrite Ec; apply: leq_trans (@top_min mblock_size (nr a) (nc a) isT 0 m0); rewrite leq_min n0.
  have Hn : ~~ ((1 < nc a)%N || (nc b == 1%N) || (mblock_size < nc b)%N) by apply: contra NR; apply: last_buffer HR.
  have m1 : nr a = 1%N.
    by apply/eqP; move: Hc Hn; rewrite -!orbA => /or4P[//|->|->|->]; rewrite ?orbT.
  rewrite m1 mul1n /blocks; move: Hn; rewrite !negb_or -!leqNgt => /andP[_]; rewrite /mblock_size; clear; move: (nc b); lia.
- rewrite E1; eexists; split; first by []; split=> // i k Hi Hk /=.
  have [K1 _] := @bnd_last mblock_size (nc b) k isT Hk.
  by rewrite E2 // ?pairsP ?Hi.
Qed.

(** The last buffer is a null pointer when a has one column, and it is used for the second row. *)
Lemma core_matmul3_null : (0 < len)%N -> nc a = 1%N -> (1 < nc b <= 16)%N -> (1 < nr a)%N ->
  core_matmul3 len y out a b = AUB.
Proof.
move=> l0 n1 Hu Hm.
have [R [RR [mA [mB [c [-> Ec HS HR HV]]]]]] := matmul3_start.
have Bu : blocks (nc b) mblock_size = 1%N by rewrite /blocks /mblock_size; move: Hu; clear; move: (nc b); lia.
have c1 : (c <= 1)%N.
  rewrite Ec n1; elim/last_ind: (pairs _ _) => // l q IH; rewrite top_rcons geq_max IH /bnd.
  by rewrite (leq_trans (geq_minr _ _)) // leq_subr.
have NR : R = None.
  move: HR; rewrite n1 Bu => /(_ [::] (0%N, 0%N) erefl); rewrite /top /= /bnd mul0n subn0.
  case: (R) => //= v /esym; rewrite leqNgt (leq_ltn_trans c1) // leq_min; by case/andP: Hu => ->.
cbv zeta; set mC := foldl _ mA _; rewrite pairs_foldl Bu NR.
have -> : pairs (nr a) 1 = (0%N, 0%N) :: (1%N, 0%N) :: [seq (i, 0%N) | i <- iota 2 (nr a - 2)].
  rewrite /pairs; have -> : nr a = (2 + (nr a - 2))%N by lia.
  rewrite add2n /= !subSS subn0; congr [:: _, _ & _].
  by elim: (iota 2 _) => //= i l ->.
have kk0 kk : (kk < bnd mblock_size (nc b) 0)%N -> isSome (RR kk).
  by move=> Hk; apply: HS; move: Hk; rewrite /bnd mul0n subn0.
have K1 : (0 < blocks (nc b) mblock_size)%N by rewrite Bu.
have HC r : (r < len)%N -> mC r = fmul (nc a) (mA r) (mB r) by apply: prod_loop.
have HT i k (v : arr) : (i < nr a)%N -> (k < nc b)%N -> (forall r, (r < len)%N -> v r = mC r i k) -> out v = T i k.
  by move=> Hi Hk Hv; apply: Hout => // r Hr; rewrite Hv // HC // HV.
have [R' [RR' [C' [E1 _ S0 _ _]]]] := @third_step len (nr a) (nc b) out mC T HT None RR (fun _ _ => 0) 0 0 m0 K1 kk0.
have N0 : RR' 0%N = None by move: S0; case: (RR' 0%N).
have G := @third_null len (nc b) out mC R' RR' C' 1 [seq (i, 0%N) | i <- iota 2 (nr a - 2)] p0 l0 N0.
rewrite -cat1s foldl_cat; set f := (X in foldl X _ (_ :: _)) in G *.
have -> : foldl f (AOk (None, RR, fun _ _ => 0)) [:: (0%N, 0%N)] = AOk (R', RR', C') := E1.
by rewrite G.
Qed.
End Matmul3.

End Core.
