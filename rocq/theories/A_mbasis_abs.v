(** One step of the iterative approximant basis algorithm, on mathcomp matrices. *)
From mathcomp Require Import all_ssreflect all_algebra zify.
From Verif Require Import A_base SpecA.
Set Implicit Arguments.
Unset Strict Implicit.
Unset Printing Implicit Defensive.
Import GRing.Theory Num.Theory.
Local Open Scope ring_scope.

Section Poly.
Variable F : fieldType.

Lemma dvdXn_coef d (p : {poly F}) : 'X^d %| p <-> forall k, (k < d)%N -> p`_k = 0.
Proof.
split.
  by case/dvdpP=> q -> k Hk; rewrite coefMXn Hk.
move=> H; apply/dvdpP; exists (\poly_(k < size p - d) p`_(d + k)).
apply/polyP=> k; rewrite coefMXn; case: ltnP => Hk; first exact: H.
rewrite coef_poly subnKC //; case: ltnP => // Hs.
by rewrite nth_default //; move: Hs; rewrite leq_subLR subnKC.
Qed.

Lemma coefCMl (c : F) (p : {poly F}) k : (c%:P * p)`_k = c * p`_k.
Proof. exact: coefCM. Qed.
End Poly.

Section Step.
Variable F : fieldType.
Variables m n : nat.
Variable A : 'M[{poly F}]_(m, n).

(** coefficient of degree d *)
Definition coefmx d p q (M : 'M[{poly F}]_(p, q)) : 'M[F]_(p, q) := \matrix_(i, j) (M i j)`_d.

Lemma approximantP d (v : 'rV[{poly F}]_m) :
  approximant d A v <-> forall k j, (k < d)%N -> ((v *m A) 0 j)`_k = 0.
Proof.
split=> [H k j Hk|H j]; first by have /dvdXn_coef := H j; apply.
by apply/dvdXn_coef=> k Hk; apply: H.
Qed.

Variable D : pred 'I_m.
Variable C : 'M[F]_m.
Hypothesis HC : forall p q, C p q != 0 -> (p \notin D) && (q \in D).

Definition Tmx : 'M[{poly F}]_m :=
  \matrix_(p, q) ((if p == q then (if p \in D then 'X else 1) else 0) + (C p q)%:P).

Lemma C0 p q : (p \in D) || (q \notin D) -> C p q = 0.
Proof. by move=> H; apply/eqP/negPn/negP=> /HC; move: H; case: (p \in D); case: (q \in D). Qed.

Lemma C0l p q : p \in D -> C p q = 0.
Proof. by move=> H; apply: C0; rewrite H. Qed.

Lemma C0r p q : q \notin D -> C p q = 0.
Proof. by move=> H; apply: C0; rewrite H orbT. Qed.

(** entries of w *m Tmx and of Tmx *m P *)
Lemma mulTE (w : 'rV_m) q : (w *m Tmx) 0 q =
  w 0 q * (if q \in D then 'X else 1) + \sum_p w 0 p * (C p q)%:P.
Proof.
rewrite mxE.
under eq_bigr do rewrite mxE mulrDr.
rewrite big_split /= (bigD1 q) //= eqxx; congr (_ + _).
by rewrite big1 ?addr0 // => i /negbTE ->; rewrite mulr0.
Qed.

Lemma rowTE k (P : 'M_(m, k)) p j : (Tmx *m P) p j =
  (if p \in D then 'X else 1) * P p j + \sum_q (C p q)%:P * P q j.
Proof.
rewrite mxE.
under eq_bigr do rewrite mxE mulrDl.
rewrite big_split /= (bigD1 p) //= eqxx; congr (_ + _).
by rewrite big1 ?addr0 // => i Hi; rewrite eq_sym (negbTE Hi) mul0r.
Qed.

Variable P : 'M[{poly F}]_m.
Variable d : nat.
Hypothesis Hbasis : approx_basis d A P.
Let R := coefmx d (P *m A).
Hypothesis Hker : forall p, p \notin D -> forall j, R p j + \sum_q C p q * R q j = 0.
Hypothesis Hindep : forall c : 'I_m -> F, (forall p, p \notin D -> c p = 0) ->
  (forall j, \sum_p c p * R p j = 0) -> forall p, c p = 0.

Lemma step_approx i : approximant d.+1 A (row i (Tmx *m P)).
Proof.
apply/approximantP=> k j Hk.
have [Hap _] := Hbasis.
rewrite -row_mul mxE -mulmxA rowTE coefD coef_sum.
have low q l : (l < d)%N -> ((P *m A) q j)`_l = 0.
  by move=> Hl; have /approximantP := Hap q => /(_ l j Hl); rewrite -row_mul mxE.
case: (boolP (i \in D)) => Hi.
  rewrite big1 ?addr0 => [|q _]; last by rewrite C0l // mul0r coef0.
  by rewrite coefXM; case: k Hk => //= k Hk; apply: low.
rewrite mul1r; under eq_bigr do rewrite coefCM.
case: (ltnP k d) => Hkd.
  by rewrite low // add0r big1 // => q _; rewrite low // mulr0.
have -> : k = d by lia.
have := Hker Hi j; rewrite mxE => E; rewrite -[RHS]E; congr (_ + _).
by apply: eq_bigr => q _; rewrite [in RHS]mxE.
Qed.

Lemma step_gen v : approximant d.+1 A v -> exists w : 'rV_m, v = w *m (Tmx *m P).
Proof.
move=> Hv; have [Hap [Hgen _]] := Hbasis.
have [w Ew] : exists w : 'rV_m, v = w *m P.
  apply: Hgen; apply/approximantP=> k j Hk.
  by move/approximantP: Hv; apply; lia.
pose c q := if q \in D then (w 0 q)`_0 - \sum_p (w 0 p)`_0 * C p q else 0.
have low q l j : (l < d)%N -> ((P *m A) q j)`_l = 0.
  by move=> Hl; have /approximantP := Hap q => /(_ l j Hl); rewrite -row_mul mxE.
have Hw0 j : \sum_q (w 0 q)`_0 * R q j = 0.
  have /approximantP /(_ d j (ltnSn d)) := Hv.
  rewrite Ew -mulmxA mxE coef_sum => E; rewrite -[RHS]E.
  apply: eq_bigr => q _; rewrite mxE coefM big_ord_recl subn0.
  rewrite big1 ?addr0 // => i _.
  rewrite low ?mulr0 //= /bump /=; have := ltn_ord i; lia.
have Hc q : c q = 0.
  apply: Hindep => [p /negbTE|j]; first by rewrite /c => ->.
  rewrite -[RHS](Hw0 j) (bigID (mem D)) [RHS](bigID (mem D)) /=.
  rewrite [X in _ + X]big1 ?addr0 => [|p /negbTE Hp]; last by rewrite /c Hp mul0r.
  have -> : \sum_(i | i \notin D) (w 0 i)`_0 * R i j =
            - \sum_(q | q \in D) (\sum_p (w 0 p)`_0 * C p q) * R q j.
    rewrite [X in - X](eq_bigr (fun q => \sum_p (w 0 p)`_0 * C p q * R q j)); last first.
      by move=> q' _; rewrite mulr_suml.
    rewrite exchange_big /= -sumrN [RHS](bigID (mem D)) /=.
    rewrite [X in _ = X + _]big1 ?add0r => [|p Hp]; last first.
      by rewrite big1 ?oppr0 // => q' _; rewrite C0l // mulr0 mul0r.
    apply: eq_bigr => p Hp.
    have := Hker Hp j => /eqP; rewrite addr_eq0 => /eqP ->.
    rewrite mulrN; congr (- _); rewrite mulr_sumr [LHS](bigID (mem D)) /=.
    rewrite [X in _ + X]big1 ?addr0 => [|q' Hq']; last by rewrite C0r // mul0r mulr0.
    by apply: eq_bigr => q' _; rewrite mulrA.
  rewrite -sumrB; apply: eq_bigr => p Hp.
  by rewrite /c Hp mulrBl.
pose u q := w 0 q - \sum_p w 0 p * (C p q)%:P.
have Hu q : q \in D -> 'X %| u q.
  move=> Hq; rewrite -['X]expr1; apply/dvdXn_coef=> -[|//] _.
  rewrite /u coefB coef_sum.
  under eq_bigr do rewrite coefMC.
  by have := Hc q; rewrite /c Hq.
pose w' : 'rV_m := \row_q (if q \in D then u q %/ 'X else w 0 q).
exists w'; rewrite Ew mulmxA; congr (_ *m P).
apply/rowP=> q; rewrite mulTE.
have Es : \sum_p w' 0 p * (C p q)%:P = \sum_p w 0 p * (C p q)%:P.
  apply: eq_bigr => p _; rewrite mxE; case: ifP => // Hp.
  by rewrite C0l // !mulr0.
rewrite Es mxE; case: (boolP (q \in D)) => Hq.
  by rewrite divpK ?Hu // /u subrK.
by rewrite mulr1 big1 ?addr0 // => p _; rewrite C0r // mulr0.
Qed.

Lemma step_inj (w : 'rV_m) : w *m (Tmx *m P) = 0 -> w = 0.
Proof.
rewrite mulmxA; have [_ [_ Hinj]] := Hbasis => /Hinj Ew.
have H0 q : q \notin D -> w 0 q = 0.
  move=> Hq; have := congr1 (fun M : 'rV_m => M 0 q) Ew; rewrite mulTE mxE (negbTE Hq).
  by rewrite mulr1 big1 ?addr0 // => p _; rewrite C0r // mulr0.
apply/rowP=> q; rewrite [RHS]mxE; case: (boolP (q \in D)) => Hq; last exact: H0.
have := congr1 (fun M : 'rV_m => M 0 q) Ew; rewrite mulTE mxE Hq.
rewrite big1 ?addr0 => [/eqP|p _].
  by rewrite mulf_eq0 polyX_eq0 orbF => /eqP.
case: (boolP (p \in D)) => Hp; first by rewrite C0l // mulr0.
by rewrite H0 // mul0r.
Qed.

Lemma step_basis : approx_basis d.+1 A (Tmx *m P).
Proof. split; [exact: step_approx | split; [exact: step_gen | exact: step_inj]]. Qed.

End Step.

(** Degree invariant: row i has s-degree t_i, reached at i and not to the right
    of i *)
Section Deg.
Variable F : fieldType.
Variable m : nat.
Implicit Type P : 'M[{poly F}]_m.

Definition deg_inv (s t : 'I_m -> int) P : Prop :=
  (forall i j k, (P i j)`_k != 0 -> (k%:Z + s j <= t i - (i < j)%N%:Z)%R) /\
  (forall i, exists2 k : nat, k%:Z + s i = t i & (P i i)`_k != 0).

Lemma deg_inv_one s : deg_inv s s 1%:M.
Proof.
split=> [i j k|i]; last by exists 0%N; rewrite ?add0r // mxE eqxx coef1 oner_neq0.
rewrite mxE; case: (i =P j) => [->|_]; last by rewrite coef0 eqxx.
rewrite coef1; case: k => [|k]; last by rewrite eqxx.
by move=> _; rewrite ltnn subr0 add0r.
Qed.

Lemma deg_inv_step s t P (D : pred 'I_m) (C : 'M[F]_m) :
  (forall p q, C p q != 0 -> (p \notin D) && (q \in D)) ->
  (forall p q, C p q != 0 -> (t q < t p)%R || ((t q == t p) && (q < p)%N)) ->
  deg_inv s t P ->
  deg_inv s (fun i => t i + (i \in D)%:Z) (Tmx D C *m P).
Proof.
move=> HC Hlex [H1 H2]; split.
- move=> i j k; rewrite rowTE coefD coef_sum.
  case: (boolP (i \in D)) => Hi.
    rewrite big1 ?addr0 => [|q _]; last first.
      rewrite (_ : C i q = 0) ?mul0r ?coef0 //.
      by apply/eqP/negPn/negP=> /HC; rewrite Hi.
    rewrite coefXM; case: k => [|k] /=; first by rewrite eqxx.
    by move/H1; lia.
  rewrite mul1r addr0.
  case: (eqVneq ((P i j)`_k) 0) => [->|NZ _]; last exact: H1.
  rewrite add0r => NZ.
  have [q Hq] : exists q, ((C i q)%:P * P q j)`_k != 0.
    apply/existsP; apply: contraNT NZ => /existsPn H.
    by rewrite big1 // => q _; apply/eqP; have := H q; rewrite negbK.
  move: Hq; rewrite coefCM mulf_eq0 negb_or => /andP[/Hlex Hl /H1].
  by move: Hl; lia.
- move=> i; have [k E NZ] := H2 i.
  case: (boolP (i \in D)) => Hi.
    exists k.+1; first by lia.
    rewrite rowTE Hi coefD coefXM /= coef_sum big1 ?addr0 // => q _.
    rewrite (_ : C i q = 0) ?mul0r ?coef0 //.
    by apply/eqP/negPn/negP=> /HC; rewrite Hi.
  exists k; first by rewrite addr0.
  rewrite rowTE (negbTE Hi) mul1r coefD coef_sum big1 ?addr0 // => q _.
  rewrite coefCM; apply/eqP; rewrite mulf_eq0; case: eqP => //= /eqP Hc.
  apply/negPn/negP=> /H1; move: (Hlex _ _ Hc); lia.
Qed.

Lemma deg_inv_ext s s' t t' P : s =1 s' -> t =1 t' -> deg_inv s t P -> deg_inv s' t' P.
Proof.
move=> Es Et [H1 H2]; split=> [i j k H|i]; first by rewrite -Es -Et; apply: H1.
by have [k E NZ] := H2 i; exists k; rewrite -?Es -?Et.
Qed.

Lemma coef_size (p : {poly F}) : p != 0 -> p`_(size p).-1 != 0.
Proof. by rewrite -lead_coef_eq0. Qed.

(** consequences in terms of SpecA *)
Lemma deg_inv_diag s t P i : deg_inv s t P -> P i i != 0 /\ sdeg (s i) (P i i) = t i.
Proof.
move=> [H1 H2]; have [k E NZ] := H2 i.
have NZp : P i i != 0 by apply: contraNneq NZ => ->; rewrite coef0.
split=> //; have := H1 _ _ _ (coef_size NZp); rewrite ltnn.
have : (0 < size (P i i))%N by rewrite size_poly_gt0.
have : (k < size (P i i))%N by rewrite ltnNge; apply: contra NZ => H; rewrite nth_default.
rewrite /sdeg; lia.
Qed.

Lemma deg_inv_le s t P i j : deg_inv s t P -> P i j != 0 ->
  (sdeg (s j) (P i j) <= t i - (i < j)%N%:Z)%R.
Proof.
move=> [H1 _] NZ; have := H1 _ _ _ (coef_size NZ).
have : (0 < size (P i j))%N by rewrite size_poly_gt0.
rewrite /sdeg; lia.
Qed.

Lemma deg_inv_pivot s t P i : deg_inv s t P -> is_pivot s (row i P) i.
Proof.
move=> H; have [NZ E] := deg_inv_diag i H.
split; first by rewrite mxE.
split=> k => [NZk|Hk NZk]; move: NZk; rewrite !mxE => NZk; have := deg_inv_le H NZk; rewrite E; lia.
Qed.

Lemma deg_inv_rdeg s t P i : deg_inv s t P -> is_rdeg s (row i P) (t i).
Proof.
move=> H; have [NZ E] := deg_inv_diag i H; split; last by exists i; rewrite mxE.
by move=> j; rewrite mxE => NZj; have := deg_inv_le H NZj; lia.
Qed.

Lemma deg_inv_owp s t P : deg_inv s t P -> ordered_weak_popov s P.
Proof. by move=> H; exists id => // i; apply: deg_inv_pivot H. Qed.
End Deg.

Lemma approx_basis0 (F : fieldType) m n (A : 'M[{poly F}]_(m, n)) : approx_basis 0 A 1%:M.
Proof.
split; first by move=> i j; rewrite expr0 dvd1p.
split; first by move=> v _; exists v; rewrite mulmx1.
by move=> w; rewrite mulmx1.
Qed.
